(** Blocking mode: steps that write one slot. *)
From Verif Require Export BlkInv.

Section steps.
  Context {K V : Type} {Keq : EqDecision K} (cfg : config K).
  Notation core := (core K V). Notation ghost := (@ghost K).
  Notation InvB := (InvB cfg).
  Notation ix := (ix cfg). Notation passes := (passes cfg). Notation exhausted := (exhausted cfg).

  Section ss.
    Context (c c' : core) (t0 i0 : nat) (m : N) (w : eword) (hx : list (K * V)) (SS : slotstep c c' t0 i0 m w hx).
    Context (PV : ∀ t i p, Hp c t i p → p < length (k_hp c)).
    Lemma ssb_HK t i k : ¬ (t = t0 ∧ i = i0) → HK c' t i k ↔ HK c t i k.
    Proof.
      intros N. split; intros (p & H1 & H2).
      - apply (ss_Hp SS) in H1. rewrite decide_False in H1 by exact N. exists p. split; [exact H1|].
        apply (ss_ky_inv SS); [eapply PV; eauto|exact H2].
      - exists p. split; [apply (ss_Hp SS); rewrite decide_False by exact N; exact H1|by apply (ss_ky SS)].
    Qed.
    Lemma ssb_HK_same t i k : e_ptr w = e_ptr (en (k_sl c) t0 i0) → HK c' t i k ↔ HK c t i k.
    Proof.
      intros E. destruct (decide (t = t0 ∧ i = i0)) as [[-> ->]|N]; [|by apply ssb_HK].
      split; intros (p & H1 & H2); exists p.
      - apply (ss_Hp SS) in H1. rewrite decide_True in H1 by auto. assert (Hp c t0 i0 p) by (unfold Hp; congruence).
        split; [done|]. apply (ss_ky_inv SS); [eapply PV; eauto|done].
      - split; [|by apply (ss_ky SS)]. apply (ss_Hp SS). rewrite decide_True by auto. unfold Hp in H1. congruence.
    Qed.
    Lemma ss_al t : al c' t ↔ al c t.
    Proof. unfold al. by rewrite (ss_st _ _ _ _ _ _ _ SS). Qed.
    Lemma ss_src n tb : src c' n tb ↔ src c n tb.
    Proof. unfold src. setoid_rewrite ss_al. done. Qed.

    Lemma ssb_ext0 o (γ γ' : ghost) :
      slot_ext c γ c' γ' t0 i0 →
      g_pub γ `prefix_of` g_pub γ' → g_log γ `prefix_of` g_log γ' → g_pr γ' = g_pr γ →
      (∀ n e, g_log γ' !! n = Some e → length (g_log γ) ≤ n → ev_op e = o →
              ∃ p h, ev_new e = Some p ∧ g_pub γ !! p = Some (o, h) ∧ ¬ lin (g_log γ) p) →
      (∀ p h, g_pub γ' !! p = Some (o, h) → p < length (g_pub γ)) →
      (∀ t i, g_ph γ t i = PCnt → g_ph γ' t i = PCnt) →
      ext0 o c γ c' γ'.
    Proof.
      intros S0 Pp Pl Pr He Hb Hc. split; auto.
      - rewrite (ss_nt _ _ _ _ _ _ _ SS). lia.
      - intros. apply (ss_lnc SS).
      - intros. apply (ss_limc SS).
      - rewrite (ss_rtc SS). lia.
      - rewrite (ss_rt _ _ _ _ _ _ _ SS). auto.
      - intros t i. destruct (decide (t = t0 ∧ i = i0)) as [[-> ->]|N]; [done|].
        assert (E1 : en (k_sl c') t i = en (k_sl c) t i) by (rewrite (ss_en SS); by case_decide).
        assert (E2 : mt (k_sl c') t i = mt (k_sl c) t i) by (rewrite (ss_mt SS); by case_decide).
        split; unfold Mt, CP, CD, Hp; rewrite ?E1, ?E2; auto.
        intros p k H1 H2. left. exists p. split; [unfold Hp; congruence|by apply (ss_ky SS)].
      - rewrite (ss_hp SS). by eexists.
      - rewrite Pr. done.
      - rewrite Pr. intros t n H L. apply lookup_lt_Some in H. lia.
      - intros t. by rewrite ss_al.
      - intros t _. by rewrite ss_al.
    Qed.

    (** Clauses that no slot write can break. *)
    Lemma ssb_struct (γ γ' : ghost) : InvB c γ → g_pr γ' = g_pr γ →
      (∀ n i, g_ph γ' n i = PFree ↔ g_ph γ n i = PFree) → (∀ n i, g_ph γ' n i = PCnt ↔ g_ph γ n i = PCnt) →
      (∀ n i j i', g_ph γ n i = PInsd j 0 i' → g_ph γ' n i = PInsd j 0 i') →
      lens c' ∧ match k_rt c' with None => nt c' = 0 | Some r => r < nt c' end ∧
      (∀ t, t < nt c' → fld None (k_nx c') t = if decide (S t < nt c') then Some (S t) else None) ∧
      (∀ t, t < nt c' → ∃ b, 3 ≤ b ∧ lnc c' t = 2 ^ b) ∧
      (∀ t, rt c' < t → S t < nt c' → ¬ al c' t) ∧ al c' (rt c') ∧
      (∀ t, fld PENDING (k_st c') t = PROMOTED → t ≤ rt c') ∧
      (∀ n i, nt c' ≤ n → g_ph γ' n i = PFree) ∧
      (∀ n tb i, src c' n tb → n < nt c' → i < lnc c' tb → (g_ph γ' n i = PFree ↔ fld 0 (k_cl c') n ≤ i)) ∧
      (∀ n, rt c' < n → n < nt c' → fld 0 (k_cd c') n = cnt (g_ph γ' n) (lnc c' (rt c'))) ∧
      (∀ n tb i, src c' n tb → al c' n → n ≤ rt c' → i < lnc c' tb → g_ph γ' n i = PCnt) ∧
      (∀ n tb, src c' n tb → n < nt c' → ¬ al c' n → ∃ i j i', i < lnc c' tb ∧ g_ph γ' n i = PInsd j 0 i') ∧
      length (g_pr γ') = rt c' ∧
      (∀ t, fld LFree (k_lk c') t = LPoisoned → ¬ good_cfg cfg).
    Proof.
      intros I E2 F1 F2 F3. rewrite E2, (ss_nt _ _ _ _ _ _ _ SS), (ss_rt _ _ _ _ _ _ _ SS), (ss_nx _ _ _ _ _ _ _ SS),
        (ss_cl _ _ _ _ _ _ _ SS), (ss_cd _ _ _ _ _ _ _ SS), (ss_st _ _ _ _ _ _ _ SS), (ss_lk _ _ _ _ _ _ _ SS), (ss_rtc SS).
      setoid_rewrite (ss_lnc SS). setoid_rewrite ss_al. setoid_rewrite ss_src. setoid_rewrite F1. setoid_rewrite F2.
      split_and!; first [apply (ss_lens _ _ _ _ _ _ _ SS)|idtac]; try apply I.
      - intros n L1 L2. rewrite (b_copied _ _ _ I) by done. apply cnt_ext. intros i _. by rewrite F2.
      - intros n tb L1 L2 A. destruct (b_abort _ _ _ I n tb L1 L2 A) as (i & j & i' & X & Y). exists i, j, i'. auto.
    Qed.
  End ss.

  (** ** Storing metadata *)
  Lemma step_metaB (c : core) γ c' t0 i0 m :
    InvB c γ → inb c t0 i0 → slotstep c c' t0 i0 m (en (k_sl c) t0 i0) [] →
    m ≠ EMPTY → en (k_sl c) t0 i0 ≠ NULLW →
    (∀ k, HK c t0 i0 k → m = h2_of cfg k) →
    ∃ γ', InvB c' γ' ∧ (∀ o, ext0 o c γ c' γ') ∧ (∀ me, extp me c γ c' γ') ∧
      g_pub γ' = g_pub γ ∧ g_ph γ' = g_ph γ ∧ ∃ l, g_log γ' = g_log γ ++ l ∧ pubevs γ l.
  Proof.
    intros I B SS Hm Hnl Hk.
    assert (PV := b_ptr _ _ _ I).
    assert (HPe : ∀ t i p, Hp c' t i p ↔ Hp c t i p) by (intros; by eapply (ss_Hp_same SS)).
    assert (HKe : ∀ t i k, HK c' t i k ↔ HK c t i k) by (intros; by eapply (ssb_HK_same _ _ _ _ _ _ _ SS PV)).
    assert (Ene : ∀ t i, en (k_sl c') t i = en (k_sl c) t i).
    { intros. rewrite (ss_en SS). case_decide as D; [destruct D; subst|]; done. }
    assert (CPe : ∀ t i, CP c' t i ↔ CP c t i) by (intros; unfold CP; by rewrite Ene).
    assert (CDe : ∀ t i, CD c' t i ↔ CD c t i) by (intros; unfold CD; by rewrite Ene).
    assert (kye : ∀ p, ky c' p = ky c p) by (intros; unfold ky; rewrite (ss_hp SS), app_nil_r; done).
    pose proof (ss_Mt SS) as MtE.
    assert (Mmono : ∀ t i, Mt c t i → Mt c' t i) by (intros; apply MtE; by case_decide).
    assert (Mnew : Mt c' t0 i0) by (apply MtE; by rewrite decide_True).
    assert (Minv : ∀ t i, Mt c' t i → Mt c t i ∨ (t = t0 ∧ i = i0)).
    { intros t i H. apply MtE in H. case_decide; auto. }
    assert (Rte := ss_rtc SS). assert (ALe := ss_al _ _ _ _ _ _ _ SS). assert (SRe := ss_src _ _ _ _ _ _ _ SS).
    assert (LNe := ss_lnc SS).
    assert (CASES :
      (∃ p o k, rt c = t0 ∧ ¬ Mt c t0 i0 ∧ Hp c t0 i0 p ∧ ky c p = Some k ∧ g_pub γ !! p = Some (o, Some (t0, i0))) ∨
      (∀ p, rt c = t0 → Hp c t0 i0 p → Mt c t0 i0)).
    { destruct (Mt_dec c t0 i0) as [M|M]; [right; auto|].
      destruct (decide (rt c = t0)) as [L|L]; [|right; intros; lia].
      destruct (e_ptr (en (k_sl c) t0 i0)) as [p|] eqn:E; [|right; intros p _ H; unfold Hp in H; congruence].
      left. destruct (bHK_get _ _ _ I t0 i0 p E) as [k Hk0]. destruct (b_nonhome _ _ _ I i0 p) as [o Ho]; [by rewrite L|by rewrite L|].
      exists p, o, k. rewrite L in Ho. auto. }
    assert (STALE : ∀ t k q n, t < rt c' → al c' t → g_pr γ !! t = Some n → q ≤ lim c' t → passes c' t k q → ¬ Mt c' t (ix c' t k q) →
               rp n (g_log γ) k = None).
    { intros t k q n H1 Ha H2 H3 H4 H5. rewrite Rte in H1. rewrite ALe in Ha. rewrite (ss_limc SS) in H3.
      rewrite (ss_ix cfg SS) in H5.
      assert (H4' : ∀ q', q' < q → Mt c' t (ix c t k q') ∧ ¬ HK c t (ix c t k q') k).
      { intros q' L. destruct (H4 q' L) as [X Y]. rewrite (ss_ix cfg SS) in X, Y. rewrite HKe in Y. auto. }
      destruct (first_pos (λ q', t = t0 ∧ ix c t k q' = i0) q) as [(q0 & L0 & [-> E0] & Min)|E].
      2:{ eapply b_stale; eauto. intros q' L. destruct (H4' q' L) as [X Y]. split; [|exact Y].
          destruct (Minv _ _ X) as [|[-> E']]; [done|]. exfalso. eapply E; eauto. }
      destruct (Mt_dec c t0 i0) as [M|M].
      { eapply b_stale; eauto. intros q' L. destruct (H4' q' L) as [X Y]. split; [|exact Y].
          destruct (Minv _ _ X) as [|[_ E']]; [done|]. rewrite E'. done. }
      eapply (b_stale _ _ _ I t0 k q0); eauto; [lia| |rewrite E0; done].
      intros q' L. destruct (H4' q') as [X Y]; [lia|]. split; [|exact Y].
      destruct (Minv _ _ X) as [|[_ E']]; [done|]. destruct (Min q' L). auto. }
    assert (SX : ∀ γ', g_log γ `prefix_of` g_log γ' → slot_ext c γ c' γ' t0 i0).
    { intros γ' _. split; auto.
      - by rewrite Ene.
      - by rewrite Ene.
      - intros p k H1 H2. left. apply HKe. exists p. auto.
      - rewrite CPe, Ene. auto.
      - rewrite CDe. auto.
      - by rewrite Ene. }
    assert (COMMON : ∀ γ', g_ph γ' = g_ph γ → g_pr γ' = g_pr γ → g_pub γ' = g_pub γ →
        (∀ k p, replay (g_log γ') k = Some p ↔ ∃ i, Hp c (rt c) i p ∧ ky c p = Some k ∧ Mt c' (rt c) i) → legal (g_log γ') →
        (∀ n n' e e' p, g_log γ' !! n = Some e → g_log γ' !! n' = Some e' → ev_new e = Some p → ev_new e' = Some p → n = n') →
        (∀ e p, e ∈ g_log γ' → ev_new e = Some p → ky c p = Some (ev_key e) ∧ ∃ h, g_pub γ !! p = Some (ev_op e, h)) →
        g_log γ `prefix_of` g_log γ' →
        (∀ p o i, g_pub γ !! p = Some (o, Some (rt c, i)) → Hp c (rt c) i p → ¬ Mt c' (rt c) i → ¬ lin (g_log γ') p) →
        (∀ p o i, g_pub γ !! p = Some (o, Some (rt c, i)) → lin (g_log γ') p ∨ (Hp c (rt c) i p ∧ ¬ Mt c' (rt c) i)) →
        InvB c' γ').
    { intros γ' E1 E2 E3 Habs Hleg Hnews Hev Hpre Hfr Hhl.
      destruct (ssb_struct _ _ _ _ _ _ _ SS γ γ' I E2) as (S1 & S2 & S3 & S4 & S5 & S6 & S7 & S8 & S9 & S10 & S11 & S12 & S13 & S14);
        try (by rewrite E1).
      split; try assumption.
      - intros t i H. rewrite Ene. destruct (Minv _ _ H) as [|[-> ->]]; [eapply b_claimed; eauto|done].
      - intros t i p k H1 H2 H3. apply HPe in H1. rewrite kye in H2. rewrite (ss_mt SS).
        case_decide as D; [destruct D; subst; apply Hk; exists p; auto|].
        eapply b_meta; eauto. apply MtE in H3. by rewrite decide_False in H3.
      - intros t i p H. apply HPe in H. rewrite (ss_hp SS), app_nil_r. by eapply PV.
      - intros t i k A H. rewrite ALe in A. apply HKe in H. destruct (b_place _ _ _ I _ _ _ A H) as (q & Q1 & Q2 & Q3).
        exists q. rewrite (ss_limc SS), (ss_ix cfg SS). split_and!; auto.
        intros q' L. rewrite (ss_ix cfg SS). auto.
      - intros t i j k. rewrite !HKe, ALe. apply I.
      - intros t i p H. apply HPe in H. rewrite CDe. eapply b_nocd; eauto.
      - intros t i. rewrite Rte, ALe, LNe, CPe. apply I.
      - intros t i. rewrite Rte, CPe. apply I.
      - intros t i. rewrite CPe, (ss_nt _ _ _ _ _ _ _ SS). apply I.
      - intros n i. rewrite Rte, ALe, LNe, (ss_nt _ _ _ _ _ _ _ SS). intros A1 A2 A3 A4. pose proof (b_phase _ _ _ I n i A1 A2 A3 A4) as P.
        unfold phase_okB in *. rewrite E1, Rte. destruct (g_ph γ n i); auto; rewrite ?CPe; auto.
        + destruct P as [P|(P1 & P2 & p & P3 & P4)]; [auto|right]. split_and!; auto. exists p. by rewrite !HPe.
        + destruct P as [P1 P2]. split; [done|]. intros p H. apply HPe in H. destruct (P2 p H) as (i' & X & Y). exists i'. rewrite HPe. auto.
        + destruct P as [P1 P2]. split; [done|]. intros p H. apply HPe in H. destruct (P2 p H) as (i' & X & Y). exists i'. rewrite HPe. auto.
      - intros n i' p. rewrite Rte, ALe, HPe, E1. setoid_rewrite HPe. setoid_rewrite CPe. apply I.
      - intros n tb i' p. rewrite SRe, ALe, HPe. setoid_rewrite HPe. setoid_rewrite CPe. apply I.
      - rewrite E3, (ss_hp SS), app_nil_r. apply I.
      - rewrite E3. intros p o H. eapply lin_prefix; [exact Hpre|]. eapply b_home_upd; eauto.
      - rewrite E3, Rte. apply I.
      - rewrite E3, Rte. intros p o t i H L. eapply lin_prefix; [exact Hpre|]. eapply b_home_low; eauto.
      - rewrite E3, Rte. intros p o i. rewrite HPe. apply Hfr.
      - rewrite E3, Rte. intros p o i. rewrite HPe. apply Hhl.
      - rewrite E3, Rte. intros i p H M. apply HPe in H. eapply b_nonhome; eauto.
      - intros k p. rewrite Habs, Rte. setoid_rewrite HPe. by rewrite kye.
      - intros e p H1 H2. rewrite kye, E3. eauto.
      - rewrite E2. intros t n H. pose proof (b_prle _ _ _ I _ _ H). apply prefix_length in Hpre. lia.
      - rewrite E2. apply I.
      - rewrite E2. intros t k q n H1 Ha H2 H3 H4 H5. rewrite (rp_prefix _ _ _ _ Hpre); [eapply STALE; eauto|].
        eapply b_prle; eauto.
      - rewrite E2, Rte. intros t k n H1 Ha H2 H3. rewrite ALe in Ha. rewrite (rp_prefix _ _ _ _ Hpre) by (eapply b_prle; eauto).
        eapply b_stale1; eauto. intros i. rewrite <- HKe. auto.
      - rewrite E2, Rte. intros t i p k n H1 Ha H2 H3 H4. rewrite ALe in Ha. apply HPe in H3. rewrite kye in H4.
        destruct (b_stale2 _ _ _ I t i p k n) as (n' & X & Y & Z); auto. exists n'. pose proof (prefix_length _ _ Hpre).
        split_and!; [done|lia|]. by rewrite (rp_prefix _ _ _ _ Hpre). }
    destruct CASES as [(p0 & o0 & k0 & L0 & NM0 & H0 & Hk0 & Hpub0)|NOEV].
    - set (e0 := Ev k0 o0 None (Some p0)). subst t0.
      assert (NL0 : ¬ lin (g_log γ) p0) by (eapply b_home_fresh; eauto).
      assert (HK0 : HK c (rt c) i0 k0) by (exists p0; auto).
      assert (ABS0 : replay (g_log γ) k0 = None) by (by eapply b_absent_invis).
      assert (AL := b_alrt _ _ _ I).
      exists (add_log γ [e0]).
      assert (PRE : g_log γ `prefix_of` g_log (add_log γ [e0])) by apply prefix_snoc.
      split; [|split; [|split; [|split_and!; [done|done|]]]].
      + apply COMMON; auto; cbn.
        * intros k p. rewrite replay_snoc. cbn. case_decide as E.
          -- subst k. split; [intros [= <-]; eauto|]. intros (i & H1 & H2 & H3). f_equal.
             assert (HK1 : HK c (rt c) i k0) by (exists p; auto). assert (i = i0) as -> by (by eapply b_u1). unfold Hp in *. congruence.
          -- rewrite (b_abs _ _ _ I k p). split; intros (i & H1 & H2 & H3); exists i; split_and!; auto.
             destruct (Minv _ _ H3) as [|[_ ->]]; [done|]. exfalso. apply E. unfold Hp in *. congruence.
        * apply legal_snoc; [apply I|done].
        * intros n n' e e' p H1 H2 H3 H4.
          assert (∀ n e, g_log γ !! n = Some e → ev_new e = Some p0 → False).
          { intros n1 e1 X Y. apply NL0. exists e1. split; [eapply elem_of_list_lookup_2; eauto|done]. }
          apply lookup_snoc_inv in H1 as [H1|[-> ->]]; apply lookup_snoc_inv in H2 as [H2|[-> ->]]; cbn in *; simplify_eq; eauto; try (exfalso; eauto; fail); eapply b_news; eauto.
        * intros e p He Hn. apply elem_of_app in He as [He|He]; [eapply b_evkey; eauto|].
          apply elem_of_list_singleton in He as ->. cbn in *. simplify_eq. eauto.
        * intros p o i H1 H3 H4 Hl. apply lin_snoc in Hl as [Hl|Hl]; cbn in *.
          -- eapply b_home_fresh; eauto.
          -- by simplify_eq.
        * intros p o i H1. rewrite lin_snoc. cbn.
          destruct (b_home_lin _ _ _ I _ _ _ H1) as [|[H3 H4]]; [auto|].
          destruct (decide (i = i0)) as [->|N]; [left; right; unfold Hp in *; congruence|].
          right. split; [done|]. intros M. destruct (Minv _ _ M); [done|]. naive_solver.
      + intros o. eapply (ssb_ext0 _ _ _ _ _ _ _ SS); [apply SX, PRE|done|exact PRE|done| | |auto]; cbn.
        * intros n e H1 H2 H3. apply lookup_snoc_ge in H1 as [-> ->]; [|done]. cbn in *. subst. eauto.
        * intros p h H. apply lookup_lt_Some in H. done.
      + intros me. eapply (ss_extp SS); eauto.
      + exists [e0]. split; [done|]. intros e ->%elem_of_list_singleton. split; [done|]. exists p0, (Some (rt c, i0)). auto.
    - exists γ. split; [|split; [|split; [|split_and!; [done|done|]]]].
      + apply COMMON; auto; try apply I.
        * intros k p. rewrite (b_abs _ _ _ I k p). split; intros (i & H1 & H2 & H3); exists i; split_and!; auto.
          destruct (Minv _ _ H3) as [|[E ->]]; [done|]. rewrite E in *. eauto.
        * intros p o i H1 H3 H4. eapply b_home_fresh; eauto.
        * intros p o i H1. destruct (b_home_lin _ _ _ I _ _ _ H1) as [|[H3 H4]]; [auto|].
          right. split; [done|]. intros M. destruct (Minv _ _ M) as [|[E ->]]; [done|]. rewrite E in *. eauto.
      + intros o. eapply (ssb_ext0 _ _ _ _ _ _ _ SS); [by apply SX|done|done|done| | |auto].
        * intros n e H1 H2 H3. apply lookup_lt_Some in H1. lia.
        * intros p h H. apply lookup_lt_Some in H. done.
      + intros me. eapply (ss_extp SS); eauto.
      + exists []. rewrite app_nil_r. split; [done|]. intros e H. by apply elem_of_nil in H.
  Qed.
End steps.
