(** Promotion of the next table to root. *)
From Verif Require Export IncSteps5.

Section steps.
  Context {K V : Type} {Keq : EqDecision K} (cfg : config K).
  Notation core := (core K V). Notation ghost := (@ghost K). Notation event := (event K).
  Notation InvI := (InvI cfg).
  Notation ix := (ix cfg). Notation passes := (passes cfg). Notation exhausted := (exhausted cfg).
  Notation pass := (pass cfg). Notation exhM := (exhM cfg). Notation visitedI := (visitedI cfg).

  (** Insertions whose entry was copied before it became visible: they take effect when the table is promoted. *)
  Definition pe_at (c : core) (γ : ghost) (i : nat) : list event :=
    if decide (mt (k_sl c) (rt c) i = EMPTY) then
      match e_ptr (en (k_sl c) (rt c) i) with
      | Some p => match ky c p, g_pub γ !! p with
                  | Some k, Some (o, _) => [Ev k o None (Some p)]
                  | _, _ => [] end
      | None => [] end
    else [].
  Fixpoint pevs (c : core) (γ : ghost) (m : nat) : list event :=
    match m with 0 => [] | S m => pevs c γ m ++ pe_at c γ m end.

  Section pe.
    Context (c : core) (γ : ghost).
    Definition fs (i p : nat) (k : K) (o : nat) : Prop :=
      Hp c (rt c) i p ∧ ¬ Mt c (rt c) i ∧ ky c p = Some k ∧ g_pub γ !! p = Some (o, Some (rt c, i)).
    (** What the invariant of either mode says about the root table. *)
    Record peok : Prop := MkPe {
      pk_get : ∀ i p, Hp c (rt c) i p → ∃ k, ky c p = Some k;
      pk_non : ∀ i p, Hp c (rt c) i p → ¬ Mt c (rt c) i → ∃ o, g_pub γ !! p = Some (o, Some (rt c, i));
      pk_fresh : ∀ p o i, g_pub γ !! p = Some (o, Some (rt c, i)) → Hp c (rt c) i p → ¬ Mt c (rt c) i → ¬ lin (g_log γ) p;
      pk_abs : ∀ i p k, Hp c (rt c) i p → ¬ Mt c (rt c) i → ky c p = Some k → replay (g_log γ) k = None;
      pk_u1 : ∀ i j k, HK c (rt c) i k → HK c (rt c) j k → i = j;
      pk_legal : legal (g_log γ);
      pk_news : ∀ n n' e e' p, g_log γ !! n = Some e → g_log γ !! n' = Some e' → ev_new e = Some p → ev_new e' = Some p → n = n' }.
    Context (I : peok).

    Lemma fs_get i p : Hp c (rt c) i p → ¬ Mt c (rt c) i → ∃ k o, fs i p k o.
    Proof.
      intros H M. destruct (pk_get I _ _ H) as [k Hk].
      destruct (pk_non I i p H M) as (o & Ho). exists k, o. by split_and!.
    Qed.
    Lemma pe_fs i p k o : fs i p k o → pe_at c γ i = [Ev k o None (Some p)].
    Proof.
      intros (H & M & Hk & Ho). unfold pe_at. rewrite decide_True.
      - unfold Hp in H. rewrite H, Hk, Ho. done.
      - unfold Mt in M. destruct (decide (mt (k_sl c) (rt c) i = EMPTY)); [done|]. by destruct M.
    Qed.
    Lemma pe_cases i : (pe_at c γ i = [] ∧ ∀ p k o, ¬ fs i p k o) ∨ ∃ p k o, fs i p k o ∧ pe_at c γ i = [Ev k o None (Some p)].
    Proof.
      destruct (Mt_dec c (rt c) i) as [M|M].
      - left. split; [|by intros p k o (_ & ? & _)]. unfold pe_at. by rewrite decide_False.
      - destruct (e_ptr (en (k_sl c) (rt c) i)) as [p|] eqn:E.
        + destruct (fs_get i p E M) as (k & o & F). right. exists p, k, o. split; [done|]. by apply pe_fs.
        + left. split.
          * unfold pe_at. case_decide; [|done]. by rewrite E.
          * intros p k o (H & _). unfold Hp in H. congruence.
    Qed.
    Lemma fs_nolin i p k o : fs i p k o → ¬ lin (g_log γ) p.
    Proof. intros (H & M & Hk & Ho). eapply (pk_fresh I); eauto. Qed.
    Lemma fs_absent i p k o : fs i p k o → replay (g_log γ) k = None.
    Proof. intros (H & M & Hk & Ho). by eapply (pk_abs I). Qed.
    Lemma fs_ptr i p k o i' k' o' : fs i p k o → fs i' p k' o' → i = i'.
    Proof. intros (_ & _ & _ & A) (_ & _ & _ & B). congruence. Qed.
    Lemma fs_key i p k o i' p' o' : fs i p k o → fs i' p' k o' → i = i'.
    Proof. intros (A & _ & B & _) (A' & _ & B' & _). eapply (pk_u1 I i i' k); [exists p|exists p']; auto. Qed.
    Lemma fs_fun i p k o p' k' o' : fs i p k o → fs i p' k' o' → p = p' ∧ k = k' ∧ o = o'.
    Proof. intros (A & _ & B & C) (A' & _ & B' & C'). unfold Hp in *. assert (p = p') by congruence. subst. split; [done|]. split; congruence. Qed.

    Lemma fs_dec k m : (∃ i p o, i < m ∧ fs i p k o) ∨ (∀ i p o, i < m → ¬ fs i p k o).
    Proof.
      induction m as [|m [(i & p & o & L & F)|IH]]; [right; intros; lia|left; exists i, p, o; split; [lia|done]|].
      destruct (pe_cases m) as [[_ X]|(p' & k' & o' & F & _)].
      - right. intros i p o L F. destruct (decide (i = m)) as [->|]; [by eapply X|]. eapply IH; [|exact F]. lia.
      - destruct (decide (k' = k)) as [->|Nk]; [left; exists m, p', o'; split; [lia|done]|right].
        intros i p o L F2. destruct (decide (i = m)) as [->|]; [|eapply IH; [|exact F2]; lia].
        destruct (fs_fun _ _ _ _ _ _ _ F F2) as (_ & ? & _). done.
    Qed.
    Lemma pevs_in m e : e ∈ pevs c γ m → ∃ i p k o, i < m ∧ fs i p k o ∧ e = Ev k o None (Some p).
    Proof.
      induction m as [|m IH]; cbn; [intros H; by apply elem_of_nil in H|]. intros [H|H]%elem_of_app.
      - destruct (IH H) as (i & p & k & o & L & F & E). exists i, p, k, o. split; [lia|auto].
      - destruct (pe_cases m) as [[E _]|(p & k & o & F & E)]; rewrite E in H; [by apply elem_of_nil in H|].
        apply elem_of_list_singleton in H. exists m, p, k, o. split; [lia|auto].
    Qed.
    Lemma pevs_has m i p k o : i < m → fs i p k o → Ev k o None (Some p) ∈ pevs c γ m.
    Proof.
      intros L F. induction m as [|m IH]; [lia|]. cbn. apply elem_of_app. destruct (decide (i = m)) as [->|N].
      - right. rewrite (pe_fs _ _ _ _ F). by apply elem_of_list_singleton.
      - left. apply IH. lia.
    Qed.
    Lemma pevs_lin m p : lin (g_log γ ++ pevs c γ m) p ↔ lin (g_log γ) p ∨ ∃ i k o, i < m ∧ fs i p k o.
    Proof.
      rewrite lin_app. split; (intros [H|H]; [auto|right]).
      - destruct H as (e & H & E). destruct (pevs_in _ _ H) as (i & p' & k & o & L & F & ->). cbn in E. simplify_eq. eauto.
      - destruct H as (i & k & o & L & F). eexists. split; [by eapply pevs_has|done].
    Qed.
    Lemma pevs_replay_no m k : (∀ i p o, i < m → ¬ fs i p k o) → replay (g_log γ ++ pevs c γ m) k = replay (g_log γ) k.
    Proof.
      induction m as [|m IH]; cbn; intros H; [by rewrite app_nil_r|].
      destruct (pe_cases m) as [[E _]|(p & k' & o & F & E)]; rewrite E.
      - rewrite app_nil_r. apply IH. intros; apply H; lia.
      - rewrite app_assoc, replay_snoc. cbn. rewrite decide_False; [apply IH; intros; apply H; lia|].
        intros ->. apply (H m p o); [lia|done].
    Qed.
    Lemma pevs_replay_yes m i p k o : i < m → fs i p k o → replay (g_log γ ++ pevs c γ m) k = Some p.
    Proof.
      intros L F. induction m as [|m IH]; [lia|]. cbn.
      destruct (decide (i = m)) as [->|N].
      - rewrite (pe_fs _ _ _ _ F), app_assoc, replay_snoc. cbn. by rewrite decide_True.
      - destruct (pe_cases m) as [[E _]|(p' & k' & o' & F' & E)]; rewrite E.
        + rewrite app_nil_r. apply IH. lia.
        + rewrite app_assoc, replay_snoc. cbn. rewrite decide_False; [apply IH; lia|]. intros ->.
          apply N. by eapply fs_key.
    Qed.
    Lemma pevs_legal m : legal (g_log γ ++ pevs c γ m).
    Proof.
      induction m as [|m IH]; cbn; [rewrite app_nil_r; apply (pk_legal I)|].
      destruct (pe_cases m) as [[E _]|(p & k & o & F & E)]; rewrite E; [by rewrite app_nil_r|].
      rewrite app_assoc. apply legal_snoc; [done|]. cbn. rewrite pevs_replay_no; [by eapply fs_absent|].
      intros i p' o' L F'. pose proof (fs_key _ _ _ _ _ _ _ F F'). lia.
    Qed.
    Lemma pevs_news m n n' e e' p : (g_log γ ++ pevs c γ m) !! n = Some e → (g_log γ ++ pevs c γ m) !! n' = Some e' →
      ev_new e = Some p → ev_new e' = Some p → n = n'.
    Proof.
      revert n n' e e'. induction m as [|m IH]; cbn; [rewrite app_nil_r; intros; eapply (pk_news I); eauto|].
      intros n n' e e'.
      destruct (pe_cases m) as [[E _]|(q & k & o & F & E)]; rewrite E; [rewrite app_nil_r; apply IH|].
      rewrite app_assoc. intros H1 H2 H3 H4.
      assert (Q : ∀ m0 e0, (g_log γ ++ pevs c γ m) !! m0 = Some e0 → ev_new e0 ≠ Some q).
      { intros m0 e0 A B. assert (X : lin (g_log γ ++ pevs c γ m) q) by (exists e0; split; [by eapply elem_of_list_lookup_2|done]).
        apply pevs_lin in X as [X|(i & k' & o' & L & F')]; [by eapply fs_nolin|].
        pose proof (fs_ptr _ _ _ _ _ _ _ F F'). lia. }
      apply lookup_snoc_inv in H1 as [H1|[-> ->]]; apply lookup_snoc_inv in H2 as [H2|[-> ->]]; auto.
      - eapply IH; eauto.
      - cbn in H4. simplify_eq. by destruct (Q _ _ H1).
      - cbn in H3. simplify_eq. by destruct (Q _ _ H2).
    Qed.
  End pe.

  Lemma inv_peok (c : core) γ : InvI c γ → peok c γ.
  Proof.
    intros I. split; try apply I.
    - intros i p H. by eapply HK_get.
    - intros i p H M. destruct (ii_nonhome _ _ _ I (rt c) i p (le_n _) H M) as [?|(L & _)]; [done|lia].
    - intros p o i A H M. by eapply (ii_home_fresh _ _ _ I).
    - intros i p k H M Hk. destruct (replay (g_log γ) k) as [q|] eqn:E; [|done]. exfalso.
      assert (HK0 : HK c (rt c) i k) by (exists p; auto).
      apply (ii_abs _ _ _ I) in E as (t & j & L & H1 & H2 & M2 & D & R).
      destruct R as [->|R].
      + assert (HK c (rt c) j k) as HK1 by (exists q; auto). by rewrite (ii_u1 _ _ _ I _ _ _ _ HK1 HK0) in M2.
      + by destruct (R _ HK0).
  Qed.

  Lemma step_promote (c : core) γ t0 : InvI c γ → k_rt c = Some t0 → S t0 < nt c →
    (∀ i, i < lnc c t0 → g_ph γ t0 i = PCnt) →
    let c' := c_rt (Some (S t0)) c in
    let γ' := Gh (g_log γ ++ pevs c γ (lnc c t0)) (g_pub γ) (g_ph γ) (g_pr γ ++ [length (g_log γ)]) in
    InvI c' γ' ∧ (∀ o, ext0 o c γ c' γ') ∧ (∀ me, extp me c γ c' γ').
  Proof.
    intros I Rt Ln Cn c' γ'. pose proof (inv_peok _ _ I) as PK.
    assert (R0 : rt c = t0) by (unfold rt; by rewrite Rt).
    assert (R1 : rt c' = S t0) by done.
    set (N := lnc c t0) in *.
    assert (FSi : ∀ i p k o, fs c γ i p k o → i < N).
    { intros i p k o (H & _). unfold N. rewrite <- R0. by eapply Hp_inb. }
    assert (CDr : ∀ j p, Hp c t0 j p → CD c t0 j).
    { intros j p H. pose proof (Hp_inb _ _ _ _ H) as L. pose proof (ii_phase _ _ _ I _ _ L) as P. unfold phase_ok in P.
      rewrite Cn in P by done. by eapply P. }
    assert (PHs : ∀ t i, i < lnc c t → g_ph γ t i = PFree ∨ g_ph γ t i = PCnt).
    { intros t i L. destruct (lt_eq_lt_dec t t0) as [[X|X]|X].
      - right. apply (ii_low _ _ _ I); [lia|done].
      - subst t. auto.
      - left. apply (ii_high _ _ _ I). lia. }
    assert (linM : ∀ p, lin (g_log γ) p → lin (g_log γ') p) by (intros p H; apply lin_app; auto).
    assert (SL : ∀ t i, slot_ext c γ c' γ' t i).
    { intros t i. split; auto. intros p k A B. left. exists p. auto. }
    split_and!.
    - split; rewrite ?R1; try apply I.
      + exact Ln.
      + intros t i L. pose proof (ii_phase _ _ _ I _ _ L) as P. unfold phase_ok in *. cbn [g_ph γ'].
        destruct (PHs t i L) as [E|E]; rewrite E in *; exact P.
      + intros t i A B. destruct (decide (t = t0)) as [->|]; [by apply Cn|]. apply (ii_low _ _ _ I); [lia|done].
      + intros t i A. apply (ii_high _ _ _ I). lia.
      + intros t t' i i' k A B C D. destruct (ii_uniq _ _ _ I t t' i i' k) as [X _]; auto; lia.
      + intros t t' i' k A B C. destruct (ii_mid _ _ _ I t t' i' k) as [X|[X _]]; auto; lia.
      + intros i p A B. exfalso. pose proof (CP_high _ _ _ I _ _ (ii_cdcp _ _ _ I _ _ _ A B)). lia.
      + intros p o H. apply linM. by eapply (ii_home_upd _ _ _ I).
      + intros p o t i H L. destruct (decide (t = t0)) as [->|]; [|apply linM; eapply (ii_home_low _ _ _ I); eauto; lia].
        destruct (ii_home_lin _ _ _ I _ _ _ _ H) as [?|[H1 H2]]; [lia|auto|].
        apply (pevs_lin _ _ PK). right. rewrite <- R0 in H1, H2.
        destruct (fs_get _ _ PK _ _ H1 H2) as (k & o' & F). exists i, k, o'. split; [by eapply FSi|done].
      + intros p o t i H L H1 H2 Hl. apply (pevs_lin _ _ PK) in Hl as [Hl|(j & k & o' & L2 & _ & _ & _ & Ho)].
        * eapply (ii_home_fresh _ _ _ I); eauto. lia.
        * cbn in H. rewrite H in Ho. simplify_eq. lia.
      + intros p o t i H L. destruct (ii_home_lin _ _ _ I _ _ _ _ H) as [?|X]; [lia|auto|auto].
      + intros t i p L A B. destruct (ii_nonhome _ _ _ I t i p) as [X|(L2 & i0 & j & L3 & X)]; auto; [lia|].
        exfalso. destruct (PHs (rt c) i0 L3); congruence.
      + intros k p. cbn [g_log γ'].
        destruct (fs_dec _ _ PK k N) as [(i & q & o & Li & F)|NF].
        * rewrite (pevs_replay_yes _ _ PK N i q k o Li F).
          destruct F as (F1 & F2 & F3 & F4).
          destruct (ii_u7 _ _ _ I i q F1) as (t' & i' & L' & H' & M'); [rewrite R0 in *; by eapply CDr|done|].
          assert (HKt : HK c t' i' k) by (exists q; auto).
          split.
          -- intros [= <-]. exists t', i'. rewrite R1. split_and!; auto; [lia| |].
             ++ exact (CD_high _ _ _ I _ _ _ L' H').
             ++ destruct (decide (t' = S t0)); [auto|right]. intros j Hj.
                destruct (high_uniq _ _ _ I t' (S t0) i' j k); auto; lia.
          -- intros (t & j & L & H1 & H2 & M & D & R). rewrite R1 in *.
             destruct (high_uniq _ _ _ I t t' j i' k) as [-> ->]; [lia|done|exists p; auto|done|].
             assert (p = q) by (unfold Hp in *; cbn in *; congruence). congruence.
        * rewrite (pevs_replay_no _ _ PK); [|exact NF].
          rewrite (ii_abs _ _ _ I k p). unfold live. rewrite R1, R0.
          assert (MtR : ∀ j, HK c t0 j k → Mt c t0 j).
          { intros j (q & H1 & H2). destruct (Mt_dec c t0 j) as [|M]; [done|]. exfalso. rewrite <- R0 in H1, M.
            destruct (fs_get _ _ PK _ _ H1 M) as (k' & o & F). assert (k' = k) as -> by (destruct F as (_ & _ & ? & _); congruence).
            apply (NF j q o); [by eapply FSi|done]. }
          split; intros (t & i & L & H1 & H2 & M & D & R); exists t, i.
          -- assert (Nt : t ≠ t0) by (intros ->; by eapply D, CDr).
             split_and!; auto; [lia|]. destruct (decide (t = S t0)); [auto|right]. intros j Hj.
             destruct (high_uniq _ _ _ I t (S t0) i j k); [lia|lia|exists p; auto|done|]. lia.
          -- split_and!; auto; [lia|]. right. intros j Hj. split; [|by apply MtR].
             destruct Hj as (q & Hj & _). by eapply CDr.
      + apply (pevs_legal _ _ PK).
      + apply (pevs_news _ _ PK).
      + intros e p H1 H2. apply elem_of_app in H1 as [H1|H1]; [by apply (ii_evkey _ _ _ I)|].
        destruct (pevs_in _ _ PK _ _ H1) as (i & q & k & o & L & (F1 & F2 & F3 & F4) & ->). cbn in *. simplify_eq. eauto.
      + cbn. rewrite app_length, (ii_prlen _ _ _ I). cbn. lia.
      + intros t n H. cbn in *. rewrite app_length. apply lookup_snoc_inv in H as [H|[_ ->]]; [|lia].
        pose proof (ii_prle _ _ _ I _ _ H). lia.
      + intros t n n' H H'. cbn in *. apply lookup_snoc_inv in H as [H|[-> ->]]; apply lookup_snoc_inv in H' as [H'|[E ->]].
        * eapply (ii_prsort _ _ _ I); eauto.
        * by eapply (ii_prle _ _ _ I).
        * apply lookup_lt_Some in H'. lia.
        * lia.
      + intros t k q n A H B C D. cbn in H. apply lookup_snoc_inv in H as [H|[-> ->]].
        * cbn. rewrite rp_app by (by eapply (ii_prle _ _ _ I)). eapply (ii_stale _ _ _ I); eauto.
          apply lookup_lt_Some in H. rewrite (ii_prlen _ _ _ I) in H. done.
        * cbn. rewrite rp_app, rp_all by lia. rewrite (ii_prlen _ _ _ I) in *.
          eapply (absent_empty _ _ _ I (rt c) k q); eauto. by apply visited_root.
      + intros t H. pose proof (ii_status _ _ _ I t H). lia.
    - intros o. split; auto; cbn.
      + lia.
      + by eexists.
      + by eexists.
      + intros t n H L. apply lookup_snoc_ge in H as [-> ->]; done.
      + intros n e H L Eo. rewrite lookup_app_r in H by lia.
        apply elem_of_list_lookup_2 in H. destruct (pevs_in _ _ PK _ _ H) as (i & q & k & o' & L2 & F & ->). cbn in *. subst.
        exists q, (Some (rt c, i)). split_and!; [done|apply F|by eapply (fs_nolin _ _ PK)].
      + intros p h H. by apply lookup_lt_Some in H.
    - intros me. split; auto.
  Qed.
End steps.
