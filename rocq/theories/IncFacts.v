(** Stable facts a thread collects while it probes, and what they say about the abstract map. *)
From Verif Require Export IncInv.

Section facts.
  Context {K V : Type} {Keq : EqDecision K} (cfg : config K).
  Notation core := (core K V). Notation ghost := (@ghost K).
  Notation InvI := (InvI cfg).
  Notation ix := (ix cfg). Notation passes := (passes cfg). Notation exhausted := (exhausted cfg).
  Notation pass := (pass cfg). Notation exhM := (exhM cfg).

  Definition visitedI (c : core) (t : nat) (k : K) : Prop := ∀ t', rt c ≤ t' → t' < t → pass c t' k.
  (** Table [t] was current at or after log position [n0]. *)
  Definition fresh (c : core) (γ : ghost) (n0 t : nat) : Prop :=
    ∀ n, g_pr γ !! t = Some n → n0 ≤ n.

  (** ** Stability *)
  Section stab.
    Context (o : nat) (c : core) (γ : ghost) (c' : core) (γ' : ghost) (X : ext0 o c γ c' γ').

    Lemma st_Mt t i : Mt c t i → Mt c' t i.
    Proof. apply (sx_M _ _ _ _ _ _ (x_slot _ _ _ _ _ X t i)). Qed.
    Lemma st_nl t i : en (k_sl c) t i ≠ NULLW → en (k_sl c') t i ≠ NULLW.
    Proof. apply (sx_nl _ _ _ _ _ _ (x_slot _ _ _ _ _ X t i)). Qed.
    Lemma st_ky p k : ky c p = Some k → ky c' p = Some k.
    Proof. apply ky_prefix, X. Qed.
    Lemma st_notHK t i k : InvI c γ → en (k_sl c) t i ≠ NULLW → ¬ HK c t i k → ¬ HK c' t i k.
    Proof.
      intros I N H H'. pose proof (x_slot _ _ _ _ _ X t i) as S.
      destruct (e_ptr (en (k_sl c) t i)) as [p|] eqn:E.
      - destruct (HK_get _ _ _ _ _ _ I E) as [k' Hk'].
        destruct (sx_ptr _ _ _ _ _ _ S p k' E Hk') as [H2|[H2 _]].
        + pose proof (HK_keys _ _ _ _ _ H2 H'). subst. apply H. exists p. auto.
        + destruct H' as (p' & H' & _). unfold Hp in H'. congruence.
      - pose proof (sx_dead _ _ _ _ _ _ S N E) as D. destruct H' as (p' & H' & _). unfold Hp in H'. congruence.
    Qed.
    Lemma st_skip t i k : InvI c γ → skip c t i k → skip c' t i k.
    Proof.
      intros I [H1 H2]. split; [apply st_Mt, H1|]. apply st_notHK; auto. eapply ii_claimed; eauto.
    Qed.
    Lemma st_ix t k q : t < nt c → ix c' t k q = ix c t k q.
    Proof. intros H. unfold IncInv.ix. fold (lnc c' t) (lnc c t). rewrite (x_ln _ _ _ _ _ X _ H). reflexivity. Qed.
    Lemma st_passes t k q : InvI c γ → t < nt c → passes c t k q → passes c' t k q.
    Proof. intros I Ht H q' Hq. rewrite st_ix by exact Ht. apply st_skip; [exact I|]. apply H, Hq. Qed.
    Lemma exhausted_tab t k : exhausted c t k → t < nt c.
    Proof.
      intros H. destruct (H 0 ltac:(lia)) as [M _]. apply Mt_inb in M.
      destruct (decide (t < nt c)); [done|]. unfold lnc in M. rewrite ln_oob in M; [lia|]. unfold nt in *. lia.
    Qed.
    Lemma st_exhausted t k : InvI c γ → exhausted c t k → exhausted c' t k.
    Proof.
      intros I H. pose proof (exhausted_tab _ _ H) as Ht. unfold IncInv.exhausted.
      rewrite (x_lim _ _ _ _ _ X _ Ht). apply st_passes; assumption.
    Qed.
    Lemma st_HKcp t i k : HK c t i k → CP c t i → HK c' t i k.
    Proof.
      intros (p & H & H') C. destruct (sx_cp _ _ _ _ _ _ (x_slot _ _ _ _ _ X t i) C) as [_ E].
      exists p. split; [unfold Hp in *; congruence|]. by apply st_ky.
    Qed.
    Lemma st_CP t i : CP c t i → CP c' t i.
    Proof. intros C. apply (sx_cp _ _ _ _ _ _ (x_slot _ _ _ _ _ X t i) C). Qed.
    Lemma st_CD t i : CP c t i → CD c t i → CD c' t i.
    Proof. apply (sx_cd _ _ _ _ _ _ (x_slot _ _ _ _ _ X t i)). Qed.
    Lemma st_pass t k : InvI c γ → pass c t k → pass c' t k.
    Proof.
      intros I [H|(i & H1 & H2 & H3)]; [left; by apply st_exhausted|right].
      assert (C : CP c t i) by (destruct H1 as (p & H1 & _); eapply ii_cdcp; eauto).
      exists i. split; [by apply st_HKcp|]. split; [by apply st_CD|by apply st_Mt].
    Qed.
    Lemma st_visited t k : InvI c γ → visitedI c t k → visitedI c' t k.
    Proof. intros I H t' H1 H2. apply st_pass; [exact I|]. apply H; [|exact H2]. pose proof (x_rt _ _ _ _ _ X). lia. Qed.
    Lemma st_fresh n0 t : n0 ≤ length (g_log γ) → fresh c γ n0 t → fresh c' γ' n0 t.
    Proof.
      intros L H n Hn. destruct (decide (length (g_pr γ) ≤ t)) as [L2|L2].
      - pose proof (x_prn _ _ _ _ _ X _ _ Hn L2). lia.
      - destruct (lookup_lt_is_Some_2 (g_pr γ) t) as [n' Hn']; [lia|].
        pose proof (prefix_lookup _ _ _ _ Hn' (x_pr _ _ _ _ _ X)). apply H. congruence.
    Qed.
    Lemma st_loglen : length (g_log γ) ≤ length (g_log γ').
    Proof. apply prefix_length, X. Qed.
    Lemma st_hvalid tb : hvalid c tb → hvalid c' tb.
    Proof.
      intros (H1 & H2 & H3). pose proof (x_nt _ _ _ _ _ X). split; [lia|].
      fold (lnc c (th tb)) in H2. fold (lim c (th tb)) in H3. unfold hvalid.
      fold (lnc c' (th tb)) (lim c' (th tb)).
      rewrite (x_ln _ _ _ _ _ X _ H1), (x_lim _ _ _ _ _ X _ H1). auto.
    Qed.
    Lemma st_rp n k : n ≤ length (g_log γ) → rp n (g_log γ') k = rp n (g_log γ) k.
    Proof. intros H. apply rp_prefix; [apply X|exact H]. Qed.
    Lemma st_lin p : lin (g_log γ) p → lin (g_log γ') p.
    Proof. apply lin_prefix, X. Qed.
  End stab.

  (** ** Consequences of the invariant *)
  Section inv.
    Context (c : core) (γ : ghost) (I : InvI c γ).

    Lemma CP_low t i : t < rt c → i < lnc c t → CP c t i.
    Proof.
      intros H1 H2. pose proof (ii_phase _ _ _ I t i H2) as P. unfold phase_ok in P.
      rewrite (ii_low _ _ _ I t i H1 H2) in P. apply P.
    Qed.
    Lemma CD_low t i p : t < rt c → Hp c t i p → CD c t i.
    Proof.
      intros H1 H2. pose proof (Hp_inb _ _ _ _ H2) as L. pose proof (ii_phase _ _ _ I t i L) as P. unfold phase_ok in P.
      rewrite (ii_low _ _ _ I t i H1 L) in P. eapply P; eauto.
    Qed.
    Lemma CP_high t i : CP c t i → t ≤ rt c.
    Proof.
      intros H. destruct (decide (t ≤ rt c)) as [|Hn]; [done|].
      pose proof (ii_phase _ _ _ I t i (CP_inb _ _ _ H)) as P. unfold phase_ok in P.
      rewrite (ii_high _ _ _ I t i) in P by lia. done.
    Qed.
    Lemma CP_next t i : CP c t i → S t < nt c.
    Proof.
      intros H. destruct (decide (S t < nt c)) as [|Hn]; [done|].
      pose proof (ii_phase _ _ _ I t i (CP_inb _ _ _ H)) as P. unfold phase_ok in P.
      rewrite (ii_last _ _ _ I t i) in P by lia. done.
    Qed.
    Lemma CD_high t i p : rt c < t → Hp c t i p → ¬ CD c t i.
    Proof. intros H H1 H2. pose proof (CP_high _ _ (ii_cdcp _ _ _ I _ _ _ H1 H2)). lia. Qed.
    Lemma high_uniq t t' i i' k : rt c < t → rt c < t' → HK c t i k → HK c t' i' k → t = t' ∧ i = i'.
    Proof.
      intros L L' H H'. assert (t = t').
      { destruct (lt_eq_lt_dec t t') as [[X|X]|X]; [|done|].
        - destruct (ii_uniq _ _ _ I t t' i i' k ltac:(lia) X H H'). lia.
        - destruct (ii_uniq _ _ _ I t' t i' i k ltac:(lia) X H' H). lia. }
      subst. split; [done|]. eapply ii_u1; eauto.
    Qed.
    Lemma insd_copy i j t' i' p : i < lnc c (rt c) → g_ph γ (rt c) i = PInsd j t' i' → Hp c (rt c) i p →
      rt c < t' ∧ Hp c t' i' p ∧ ¬ CD c (rt c) i ∧ CP c (rt c) i.
    Proof.
      intros L E H. pose proof (ii_phase _ _ _ I (rt c) i L) as P. unfold phase_ok in P. rewrite E in P.
      destruct P as (P1 & _ & P2 & P3 & p' & P4 & P5). assert (p' = p) by (unfold Hp in *; congruence). subst. auto.
    Qed.
    (** At most one slot makes an entry of [k] live. *)
    Lemma live_loc k t i t' i' : rt c ≤ t → rt c ≤ t' → HK c t i k → HK c t' i' k → ¬ CD c t i → ¬ CD c t' i' →
      (t = rt c ∨ ∀ j, HK c (rt c) j k → CD c (rt c) j ∧ Mt c (rt c) j) →
      (t' = rt c ∨ ∀ j, HK c (rt c) j k → CD c (rt c) j ∧ Mt c (rt c) j) → t = t' ∧ i = i'.
    Proof.
      intros L L' H H' D D' R R'. assert (t = t').
      { destruct (decide (t = rt c)) as [E|N]; destruct (decide (t' = rt c)) as [E'|N']; try lia.
        - destruct R' as [|R']; [lia|]. subst t. destruct (R' _ H). done.
        - destruct R as [|R]; [lia|]. subst t'. destruct (R _ H'). done.
        - destruct (high_uniq t t' i i' k); [lia|lia|done|done|done]. }
      subst. split; [done|]. eapply ii_u1; eauto.
    Qed.
    Lemma fresh_S n0 t : fresh c γ n0 t → fresh c γ n0 (S t).
    Proof.
      intros F n Hn. pose proof (lookup_lt_Some _ _ _ Hn). destruct (lookup_lt_is_Some_2 (g_pr γ) t) as [n' Hn']; [lia|].
      pose proof (F _ Hn'). pose proof (ii_prsort _ _ _ I _ _ _ Hn' Hn). lia.
    Qed.
    Lemma pub_lookup p : p < length (k_hp c) → ∃ o h, g_pub γ !! p = Some (o, h).
    Proof. intros L. rewrite <- (ii_publen _ _ _ I) in L. destruct (lookup_lt_is_Some_2 _ _ L) as [[o h] E]. eauto. Qed.
    Lemma rt_lt t : t < nt c → rt c < nt c.
    Proof. intros H. pose proof (ii_root _ _ _ I) as R. unfold rt. destruct (k_rt c); cbn; lia. Qed.

    Lemma ix_lt t k q : t < nt c → ix c t k q < lnc c t.
    Proof.
      intros H. destruct (ii_pow _ _ _ I t H) as (b & _ & E). unfold IncInv.ix. fold (lnc c t). rewrite E.
      apply probe_idx_lt.
    Qed.

    (** A key found on a passed probe prefix. *)
    Lemma place_passes t i k q : HK c t i k → passes c t k q →
      ∃ q', q ≤ q' ∧ q' ≤ lim c t ∧ ix c t k q' = i ∧ ∀ q'', q'' < q' → Mt c t (ix c t k q'').
    Proof.
      intros H P. destruct (ii_place _ _ _ I t i k H) as (q' & L & E & M). exists q'. split_and!; auto.
      destruct (decide (q ≤ q')); [done|]. destruct (P q') as [_ N]; [lia|]. rewrite E in N. contradiction.
    Qed.
    Lemma exhausted_no t i k : exhausted c t k → ¬ HK c t i k.
    Proof. intros E H. destruct (place_passes _ _ _ _ H E) as (q & ? & ? & _). lia. Qed.

    (** If the root was passed, its holder of [k] is copied and visible. *)
    Lemma pass_holder t i k : pass c t k → HK c t i k → CD c t i ∧ Mt c t i.
    Proof.
      intros [E|(j & H1 & H2 & H3)] H; [exfalso; eapply exhausted_no; eauto|].
      rewrite (ii_u1 _ _ _ I _ _ _ _ H H1). auto.
    Qed.

    Lemma live_not_before t k p t' i' :
      visitedI c t k → rt c ≤ t' → Hp c t' i' p → ky c p = Some k → ¬ CD c t' i' → t ≤ t'.
    Proof.
      intros V0 L H1 H2 H3. destruct (decide (t ≤ t')); [done|]. exfalso.
      destruct (pass_holder t' i' k) as [C _]; [apply V0; lia|exists p; auto|contradiction].
    Qed.

    (** A probe that meets an empty slot proves absence. *)
    Lemma absent_empty t k q : rt c ≤ t → visitedI c t k → passes c t k q → q ≤ lim c t →
      ¬ Mt c t (ix c t k q) → replay (g_log γ) k = None.
    Proof.
      intros L V0 P Q N. destruct (replay (g_log γ) k) as [p|] eqn:E; [|done]. exfalso.
      apply (ii_abs _ _ _ I) in E as (t' & i' & L' & H1 & H2 & M & D & R).
      assert (HKt : HK c t' i' k) by (exists p; auto).
      assert (t ≤ t') as Ht by (eapply live_not_before; eauto).
      assert (A : ∀ i, HK c t i k → Mt c t i → False).
      { intros i Hi Mi. destruct (place_passes _ _ _ _ Hi P) as (q' & L1 & L2 & E & M').
        destruct (decide (q' = q)); [subst; contradiction|]. apply N, M'. lia. }
      destruct (decide (t' = t)) as [->|Hne]; [eauto|].
      destruct (ii_mid _ _ _ I t t' i' k L) as [X|[-> (i & Hi)]]; [lia|exact HKt|apply N, X, Q|].
      destruct R as [->|R]; [lia|]. destruct (R i Hi) as [_ Mi]. eauto.
    Qed.
    Lemma absent_exhausted t k : rt c ≤ t → S t = nt c → visitedI c t k → exhausted c t k →
      replay (g_log γ) k = None.
    Proof.
      intros L N V0 X. destruct (replay (g_log γ) k) as [p|] eqn:E; [|done]. exfalso.
      apply (ii_abs _ _ _ I) in E as (t' & i' & L' & H1 & H2 & M & D & R).
      assert (HKt : HK c t' i' k) by (exists p; auto).
      assert (t ≤ t') as Ht by (eapply live_not_before; eauto).
      pose proof (Hp_tab _ _ _ _ H1). assert (t' = t) by lia. subst. eapply exhausted_no; eauto.
    Qed.
    Lemma absent_noroot k : k_rt c = None → replay (g_log γ) k = None.
    Proof.
      intros R. destruct (replay (g_log γ) k) as [p|] eqn:E; [|done]. exfalso.
      apply (ii_abs _ _ _ I) in E as (t' & i' & L' & H1 & _). apply Hp_tab in H1.
      pose proof (ii_root _ _ _ I) as R'. rewrite R in R'. lia.
    Qed.

    (** A visible, not yet copied entry is the current one. *)
    Lemma present_visible t i p k : visitedI c t k → Hp c t i p → ky c p = Some k → ¬ CD c t i → Mt c t i →
      replay (g_log γ) k = Some p.
    Proof.
      intros V0 H1 H2 H3 H4. apply (ii_abs _ _ _ I). exists t, i.
      assert (rt c ≤ t).
      { destruct (decide (rt c ≤ t)); [done|]. exfalso. apply H3. eapply CD_low; eauto. lia. }
      split_and!; auto. destruct (decide (t = rt c)) as [|Hne]; [auto|right].
      intros j Hj. eapply pass_holder; eauto. apply V0; lia.
    Qed.
    (** An entry that is not yet visible has not been linearized. *)
    Lemma present_invisible t i p k : rt c ≤ t → visitedI c t k → Hp c t i p → ky c p = Some k → ¬ CD c t i → ¬ Mt c t i →
      ¬ lin (g_log γ) p ∧ ∃ o, g_pub γ !! p = Some (o, Some (t, i)).
    Proof.
      intros L V0 H1 H2 H3 H4.
      destruct (ii_nonhome _ _ _ I t i p L H1 H4) as [(o & Ho)|(L2 & i0 & j & L3 & Hj)].
      - split; [|eauto]. eapply ii_home_fresh; eauto.
      - exfalso. pose proof (ii_phase _ _ _ I _ _ L3) as P. unfold phase_ok in P. rewrite Hj in P.
        destruct P as (_ & _ & _ & D & p' & P1 & P2). assert (p' = p) by (unfold Hp in *; congruence). subst.
        destruct (pass_holder (rt c) i0 k) as [D' _]; [apply V0; lia|exists p; auto|contradiction].
    Qed.
    Lemma M_lin t i p o : g_pub γ !! p = Some (o, Some (t, i)) → Mt c t i → lin (g_log γ) p.
    Proof.
      intros H M. destruct (decide (t < rt c)); [eapply ii_home_low; eauto|].
      destruct (ii_home_lin _ _ _ I _ _ _ _ H) as [|[_ N]]; [lia|done|contradiction].
    Qed.
    Lemma lin_lt p : lin (g_log γ) p → p < length (k_hp c).
    Proof.
      intros (e & He & Hn). destruct (ii_evkey _ _ _ I e p He Hn) as [Hk _].
      unfold ky in Hk. destruct (k_hp c !! p) eqn:E; [|discriminate]. eapply lookup_lt_Some; eauto.
    Qed.
    Lemma stale_absent n0 t k q : fresh c γ n0 t → n0 ≤ length (g_log γ) → visitedI c t k → passes c t k q → q ≤ lim c t →
      ¬ Mt c t (ix c t k q) → ∃ n, n0 ≤ n ∧ n ≤ length (g_log γ) ∧ rp n (g_log γ) k = None.
    Proof.
      intros F L0 V0 P Q N. destruct (decide (rt c ≤ t)) as [L|L].
      - exists (length (g_log γ)). split; [lia|]. split; [lia|]. rewrite rp_all by lia. eapply absent_empty; eauto.
      - destruct (lookup_lt_is_Some_2 (g_pr γ) t) as [n Hn]; [rewrite (ii_prlen _ _ _ I); lia|].
        exists n. split; [by apply F|]. split; [eapply ii_prle; eauto|]. eapply ii_stale; eauto. lia.
    Qed.
    Lemma fresh_root : fresh c γ (length (g_log γ)) (rt c).
    Proof. intros n H. apply lookup_lt_Some in H. rewrite (ii_prlen _ _ _ I) in H. lia. Qed.
    Lemma visited_root t k : t ≤ rt c → visitedI c t k.
    Proof. intros H t' H1 H2. lia. Qed.
    Lemma visited_S t k : visitedI c t k → pass c t k → visitedI c (S t) k.
    Proof. intros H P t' H1 H2. destruct (decide (t' = t)); [subst; done|]. apply H; [done|lia]. Qed.
  End inv.
End facts.
