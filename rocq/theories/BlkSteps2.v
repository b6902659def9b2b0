(** Blocking mode: publishing, replacing and removing an entry of the root table. *)
From Verif Require Export BlkSteps.
Arguments ssb_HK {K V c c' t0 i0 m w hx}. Arguments ssb_HK_same {K V c c' t0 i0 m w hx}.
Arguments ss_al {K V c c' t0 i0 m w hx}. Arguments ss_src {K V c c' t0 i0 m w hx}.
Arguments ssb_ext0 {K V Keq c c' t0 i0 m w hx}. Arguments ssb_struct {K V Keq} cfg {c c' t0 i0 m w hx}.

Section steps.
  Context {K V : Type} {Keq : EqDecision K} (cfg : config K).
  Notation core := (core K V). Notation ghost := (@ghost K).
  Notation InvB := (InvB cfg).
  Notation ix := (ix cfg). Notation passes := (passes cfg). Notation exhausted := (exhausted cfg).

  Section rs.
    Context (c c' : core) (i0 : nat) (m : N) (w : eword) (hx : list (K * V)) (SS : slotstep c c' (rt c) i0 m w hx).
    Context (γ : ghost) (I : InvB c γ) (C0 : ¬ CP c (rt c) i0) (W1 : e_copying w = false) (W2 : e_copied w = true → e_ptr w = None).
    Lemma rs_CP t i : CP c' t i ↔ CP c t i.
    Proof.
      rewrite (ss_CP SS). case_decide as D; [|done]. destruct D as [-> ->]. rewrite W1. split; [done|]. intros X. by destruct C0.
    Qed.
    Lemma rs_Hp t i p : ¬ (t = rt c ∧ i = i0) → Hp c' t i p ↔ Hp c t i p.
    Proof. intros N. rewrite (ss_Hp SS). by rewrite decide_False. Qed.
    Lemma rs_HpCP t i p : CP c t i → Hp c' t i p ↔ Hp c t i p.
    Proof. intros N. apply rs_Hp. intros [-> ->]. by destruct C0. Qed.
    Lemma rs_Mt t i : ¬ (t = rt c ∧ i = i0) → Mt c' t i ↔ Mt c t i.
    Proof. intros N. rewrite (ss_Mt SS). by rewrite decide_False. Qed.

    Lemma rs_fields γ' : g_ph γ' = g_ph γ → g_pr γ' = g_pr γ → g_log γ `prefix_of` g_log γ' →
      (∀ t i p, Hp c' t i p → ¬ CD c' t i) ∧
      (∀ t i, t < rt c' → al c' t → i < lnc c' t → CP c' t i) ∧
      (∀ t i, rt c' < t → ¬ CP c' t i) ∧
      (∀ t i, CP c' t i → S t < nt c') ∧
      (∀ n i, rt c' < n → n < nt c' → al c' n → i < lnc c' (rt c') → phase_okB c' γ' n i) ∧
      (∀ n i' p, rt c' < n → al c' n → Hp c' n i' p → ∃ i, Hp c' (rt c') i p ∧ CP c' (rt c') i ∧
              ((∃ j, g_ph γ' n i = PInsd j n i') ∨ (∃ j, g_ph γ' n i = PDone j) ∨ g_ph γ' n i = PCnt)) ∧
      (∀ n tb i' p, src c' n tb → ¬ al c' n → Hp c' n i' p → ∃ i, Hp c' tb i p ∧ CP c' tb i) ∧
      (∀ t n, g_pr γ' !! t = Some n → n ≤ length (g_log γ')) ∧
      (∀ t n n', g_pr γ' !! t = Some n → g_pr γ' !! S t = Some n' → n ≤ n') ∧
      (∀ t k q n, t < rt c' → al c' t → g_pr γ' !! t = Some n → q ≤ lim c' t → passes c' t k q → ¬ Mt c' t (ix c' t k q) →
               rp n (g_log γ') k = None) ∧
      (∀ t k n, t < rt c' → al c' t → g_pr γ' !! t = Some n → (∀ i, ¬ HK c' t i k) → rp n (g_log γ') k = None) ∧
      (∀ t i p k n, t < rt c' → al c' t → g_pr γ' !! t = Some n → Hp c' t i p → ky c' p = Some k →
               ∃ n', n ≤ n' ∧ n' ≤ length (g_log γ') ∧ rp n' (g_log γ') k = Some p).
    Proof.
      intros E1 E2 Hpre. assert (Rte := ss_rtc SS). assert (ALe := ss_al SS). assert (SRe := ss_src SS). assert (LNe := ss_lnc SS).
      assert (PV := b_ptr _ _ _ I).
      rewrite Rte. split_and!.
      - intros t i p. destruct (decide (t = rt c ∧ i = i0)) as [[-> ->]|N].
        + rewrite (ss_Hp SS), (ss_CD SS), !decide_True by done. intros X Y. specialize (W2 Y). congruence.
        + rewrite (ss_Hp SS), (ss_CD SS), !decide_False by done. apply I.
      - intros t i. rewrite ALe, LNe, rs_CP. apply I.
      - intros t i. rewrite rs_CP. apply I.
      - intros t i. rewrite rs_CP, (ss_nt _ _ _ _ _ _ _ SS). apply I.
      - intros n i. rewrite ALe, LNe, (ss_nt _ _ _ _ _ _ _ SS). intros A1 A2 A3 A4. pose proof (b_phase _ _ _ I n i A1 A2 A3 A4) as P.
        unfold phase_okB in *. rewrite E1, Rte.
        assert (DD : CP c (rt c) i ∧ (∀ p, Hp c (rt c) i p → ∃ i', Hp c n i' p ∧ Mt c n i') →
          CP c' (rt c) i ∧ (∀ p, Hp c' (rt c) i p → ∃ i', Hp c' n i' p ∧ Mt c' n i')).
        { intros [P1 P2]. split; [by apply rs_CP|]. intros p H. rewrite rs_HpCP in H by done.
          destruct (P2 p H) as (i' & X & Y). exists i'. rewrite rs_Hp, rs_Mt by lia. auto. }
        destruct (g_ph γ n i); auto.
        + by apply rs_CP.
        + destruct P as [P|(P1 & P2 & p & P3 & P4)]; [auto|right]. rewrite rs_CP. split_and!; auto. exists p.
          rewrite rs_HpCP by done. rewrite rs_Hp by lia. auto.
      - intros n i' p L A H. rewrite ALe in A. rewrite rs_Hp in H by lia. destruct (b_src _ _ _ I n i' p L A H) as (i & X & Y & Z).
        exists i. rewrite rs_CP, rs_HpCP, E1 by done. auto.
      - intros n tb i' p Sr A H. rewrite ALe in A. rewrite SRe in Sr. destruct (decide (n = rt c)) as [->|N].
        { destruct A. apply I. }
        rewrite rs_Hp in H by naive_solver. destruct (b_gsrc _ _ _ I n tb i' p Sr A H) as (i & X & Y).
        exists i. rewrite rs_CP, rs_HpCP by done. auto.
      - rewrite E2. intros t n H. pose proof (b_prle _ _ _ I _ _ H). apply prefix_length in Hpre. lia.
      - rewrite E2. apply I.
      - rewrite E2. intros t k q n H1 Ha H2 H3 H4 H5. rewrite ALe in Ha. rewrite (ss_limc SS) in H3.
        rewrite (ss_ix cfg SS) in H5. rewrite rs_Mt in H5 by lia. rewrite (rp_prefix _ _ _ _ Hpre) by (by eapply (b_prle _ _ _ I)).
        eapply (b_stale _ _ _ I t k q); eauto. intros q' Hq. destruct (H4 q' Hq) as [X Y]. rewrite (ss_ix cfg SS) in X, Y.
        rewrite rs_Mt in X by lia. rewrite (ssb_HK SS PV) in Y by lia. by split.
      - rewrite E2. intros t k n H1 Ha H2 H3. rewrite ALe in Ha. rewrite (rp_prefix _ _ _ _ Hpre) by (eapply (b_prle _ _ _ I); eauto).
        eapply (b_stale1 _ _ _ I); eauto. intros i. rewrite <- (ssb_HK SS PV) by lia. auto.
      - rewrite E2. intros t i p k n H1 Ha H2 H3 H4. rewrite ALe in Ha. rewrite rs_Hp in H3 by lia.
        apply (ss_ky_inv SS) in H4; [|by eapply PV].
        destruct (b_stale2 _ _ _ I t i p k n) as (n' & X & Y & Z); auto. exists n'. pose proof (prefix_length _ _ Hpre).
        split_and!; [done|lia|]. by rewrite (rp_prefix _ _ _ _ Hpre).
    Qed.
  End rs.
  Ltac rsf SS γ γ' I C0 :=
    destruct (ssb_struct cfg SS γ γ' I eq_refl) as (S1 & S2 & S3 & S4 & S5 & S6 & S7 & S8 & S9 & S10 & S11 & S12 & S13 & S14); try done;
    destruct (rs_fields _ _ _ _ _ _ SS γ I C0 eq_refl ltac:(cbn; done) γ') as (U1 & U2 & U3 & U4 & U5 & U6 & U7 & U8 & U9 & U10 & U11 & U12); [done|done| |].

  Lemma b_lin_lt (c : core) γ p : InvB c γ → lin (g_log γ) p → p < length (k_hp c).
  Proof.
    intros I (e & He & Hn). destruct (b_evkey _ _ _ I e p He Hn) as [Hk _].
    unfold ky in Hk. destruct (k_hp c !! p) eqn:E; [|discriminate]. eapply lookup_lt_Some; eauto.
  Qed.

  (** ** Publishing a new entry in an empty slot *)
  Lemma step_insB (c : core) γ c' opid t0 i0 q0 k0 v0 :
    InvB c γ → inb c t0 i0 →
    slotstep c c' t0 i0 (mt (k_sl c) t0 i0) (EW (Some (length (k_hp c))) false false false) [(k0, v0)] →
    en (k_sl c) t0 i0 = NULLW → visitedB c t0 → passes c t0 k0 q0 → q0 ≤ lim c t0 → ix c t0 k0 q0 = i0 →
    let γ' := Gh (g_log γ) (g_pub γ ++ [(opid, Some (t0, i0))]) (g_ph γ) (g_pr γ) in
    InvB c' γ' ∧ (∀ o, o ≠ opid → ext0 o c γ c' γ') ∧ (∀ me, extp me c γ c' γ').
  Proof.
    intros I B SS Hnl [V1 V2] P0 Q0 E0 γ'. set (n := length (k_hp c)) in *.
    assert (C0 : ¬ CP c t0 i0) by (unfold CP; by rewrite Hnl).
    assert (t0 = rt c) as ->. { pose proof (b_above _ _ _ I t0 i0 V2 (proj2 B) C0). lia. }
    assert (NM0 : ¬ Mt c (rt c) i0). { intros M. by apply (b_claimed _ _ _ I) in M. }
    assert (NH0 : ∀ p, ¬ Hp c (rt c) i0 p) by (intros p H; unfold Hp in H; by rewrite Hnl in H).
    assert (MtE : ∀ t i, Mt c' t i ↔ Mt c t i).
    { intros t i. rewrite (ss_Mt SS). case_decide as D; [destruct D; subst; done|done]. }
    assert (Rte := ss_rtc SS). assert (PV := b_ptr _ _ _ I). assert (ALe := ss_al SS).
    assert (kn : ky c' n = Some k0).
    { unfold ky. rewrite (ss_hp SS). unfold n. rewrite list_lookup_middle by done. done. }
    assert (HpI : ∀ t i p, Hp c' t i p → (t = rt c ∧ i = i0 ∧ p = n) ∨ Hp c t i p).
    { intros t i p H. apply (ss_Hp SS) in H. case_decide as D; [left; cbn in H; naive_solver|auto]. }
    assert (HpM : ∀ t i p, Hp c t i p → Hp c' t i p).
    { intros t i p H. apply (ss_Hp SS). case_decide as D; [|done]. destruct D; subst. by destruct (NH0 p). }
    assert (Hp0 : Hp c' (rt c) i0 n) by (apply (ss_Hp SS); by rewrite decide_True).
    assert (HKI : ∀ t i k, HK c' t i k → (t = rt c ∧ i = i0 ∧ k = k0) ∨ HK c t i k).
    { intros t i k (p & H1 & H2). destruct (HpI _ _ _ H1) as [(-> & -> & ->)|H]; [left; naive_solver|].
      right. exists p. split; [done|]. apply (ss_ky_inv SS); [by eapply PV|done]. }
    assert (NK0 : ∀ j, ¬ HK c (rt c) j k0).
    { intros j Hj. destruct (b_place_passes _ _ _ I (rt c) j k0 q0 V2 Hj P0) as (q' & L1 & L2 & E & M).
      destruct (decide (q' = q0)) as [->|Ne].
      - destruct Hj as (p & Hj & _). rewrite <- E, E0 in Hj. by apply (NH0 p).
      - apply NM0. rewrite <- E0. apply M. lia. }
    assert (NLn : ¬ lin (g_log γ) n). { intros X%(b_lin_lt _ _ _ I). unfold n in X. lia. }
    assert (PLt : ∀ p o h, g_pub γ !! p = Some (o, h) → p < n).
    { intros p o h H. apply lookup_lt_Some in H. rewrite (b_publen _ _ _ I) in H. done. }
    assert (PUB : ∀ p o h, g_pub γ' !! p = Some (o, h) → g_pub γ !! p = Some (o, h) ∨ (p = n ∧ o = opid ∧ h = Some (rt c, i0))).
    { intros p o h H. apply lookup_snoc_inv in H as [H|[-> H]]; [auto|]. right. rewrite (b_publen _ _ _ I). fold n. by simplify_eq. }
    rsf SS γ γ' I C0; [done|].
    split_and!.
    - split; try assumption; try apply I.
      + intros t i M. apply MtE in M. rewrite (ss_en SS). case_decide; [done|]. by apply I.
      + intros t i p k H1 H2 M. rewrite (ss_mt SS). apply MtE in M. destruct (HpI _ _ _ H1) as [(-> & -> & ->)|H]; [done|].
        case_decide as D; [destruct D; subst; done|]. eapply (b_meta _ _ _ I); eauto. apply (ss_ky_inv SS); [by eapply PV|done].
      + intros t i p H. rewrite (ss_hp SS), app_length. cbn. destruct (HpI _ _ _ H) as [(-> & -> & ->)|H']; [unfold n; lia|].
        apply PV in H'. lia.
      + intros t i k A H. rewrite ALe in A. rewrite (ss_limc SS). destruct (HKI _ _ _ H) as [(-> & -> & ->)|H'].
        * exists q0. rewrite (ss_ix cfg SS). split_and!; auto. intros q' L. rewrite (ss_ix cfg SS). apply MtE, P0, L.
        * destruct (b_place _ _ _ I _ _ _ A H') as (q & Q1 & Q2 & Q3). exists q. rewrite (ss_ix cfg SS). split_and!; auto.
          intros q' L. rewrite (ss_ix cfg SS). apply MtE. auto.
      + intros t i j k A H1 H2. rewrite ALe in A. destruct (HKI _ _ _ H1) as [(-> & -> & ->)|H1'].
        * destruct (HKI _ _ _ H2) as [(_ & -> & _)|H2']; [done|]. by destruct (NK0 j).
        * destruct (HKI _ _ _ H2) as [(-> & -> & ->)|H2']; [by destruct (NK0 i)|]. by eapply (b_u1 _ _ _ I).
      + cbn. rewrite (ss_hp SS), !app_length, (b_publen _ _ _ I). done.
      + intros p o H. destruct (PUB _ _ _ H) as [H'|(_ & _ & X)]; [by eapply (b_home_upd _ _ _ I)|done].
      + intros p o t i H. rewrite Rte. destruct (PUB _ _ _ H) as [H'|(_ & _ & X)]; [by eapply (b_home_le _ _ _ I)|]. simplify_eq. lia.
      + intros p o t i H. rewrite Rte. intros L. destruct (PUB _ _ _ H) as [H'|(_ & _ & X)]; [by eapply (b_home_low _ _ _ I)|]. simplify_eq. lia.
      + intros p o i H. rewrite Rte, MtE. intros H1 M. destruct (PUB _ _ _ H) as [H'|(-> & _ & X)]; [|done].
        rewrite Rte in H'. destruct (HpI _ _ _ H1) as [(_ & _ & ->)|H1']; [apply PLt in H'; lia|]. by eapply (b_home_fresh _ _ _ I).
      + intros p o i H. rewrite Rte, MtE in *. destruct (PUB _ _ _ H) as [H'|(-> & _ & [= ->])]; [|auto].
        destruct (b_home_lin _ _ _ I _ _ _ H') as [?|[? ?]]; auto.
      + intros i p. rewrite Rte, MtE. intros H1 M. destruct (HpI _ _ _ H1) as [(_ & -> & ->)|H1'].
        * exists opid. cbn. unfold n. rewrite <- (b_publen _ _ _ I). by apply list_lookup_middle.
        * destruct (b_nonhome _ _ _ I _ _ H1' M) as [o Ho]. exists o. cbn. rewrite lookup_app_l; [done|]. by eapply lookup_lt_Some.
      + intros k p. cbn [g_log γ']. rewrite (b_abs _ _ _ I k p), Rte. split; intros (i & H1 & H2 & H3); exists i.
        * rewrite MtE. split_and!; auto. by apply (ss_ky SS).
        * rewrite MtE in H3. destruct (HpI _ _ _ H1) as [(_ & -> & ->)|H1']; [done|]. split_and!; auto.
          apply (ss_ky_inv SS); [by eapply PV|done].
      + intros e p H1 H2. destruct (b_evkey _ _ _ I e p H1 H2) as [A (h & B')]. split; [by apply (ss_ky SS)|].
        exists h. cbn. rewrite lookup_app_l; [done|]. by eapply lookup_lt_Some.
    - intros o No. eapply (ssb_ext0 SS); cbn; auto.
      + split.
        * intros M. by apply MtE.
        * rewrite (ss_en SS), decide_True by done. done.
        * done.
        * intros p k H. by destruct (NH0 p).
        * done.
        * done.
        * done.
      + by eexists.
      + intros k e H L. apply lookup_lt_Some in H. lia.
      + intros p h H. destruct (PUB _ _ _ H) as [H'|(_ & X & _)]; [by eapply lookup_lt_Some|done].
    - intros me. eapply (ss_extp SS); eauto.
  Qed.

  (** ** Replacing a visible entry *)
  Lemma step_updB (c : core) γ c' opid t0 i0 k0 v0 p0 :
    InvB c γ →
    slotstep c c' t0 i0 (mt (k_sl c) t0 i0) (EW (Some (length (k_hp c))) false false false) [(k0, v0)] →
    Hp c t0 i0 p0 → ky c p0 = Some k0 → ¬ CP c t0 i0 → Mt c t0 i0 → visitedB c t0 →
    let γ' := Gh (g_log γ ++ [Ev k0 opid (Some p0) (Some (length (k_hp c)))]) (g_pub γ ++ [(opid, None)]) (g_ph γ) (g_pr γ) in
    InvB c' γ' ∧ (∀ o, o ≠ opid → ext0 o c γ c' γ') ∧ (∀ me, extp me c γ c' γ').
  Proof.
    intros I SS Hp0 Hk0 C0 M0 [V1 V2] γ'. set (n := length (k_hp c)) in *.
    assert (HK0 : HK c t0 i0 k0) by (exists p0; auto).
    assert (t0 = rt c) as ->. { pose proof (b_above _ _ _ I t0 i0 V2 (Hp_inb _ _ _ _ Hp0) C0). lia. }
    assert (MtE : ∀ t i, Mt c' t i ↔ Mt c t i).
    { intros t i. rewrite (ss_Mt SS). case_decide as D; [destruct D; subst; done|done]. }
    assert (Rte := ss_rtc SS). assert (PV := b_ptr _ _ _ I). assert (ALe := ss_al SS).
    assert (kn : ky c' n = Some k0).
    { unfold ky. rewrite (ss_hp SS). unfold n. rewrite list_lookup_middle by done. done. }
    assert (HpI : ∀ t i p, Hp c' t i p → (t = rt c ∧ i = i0 ∧ p = n) ∨ (Hp c t i p ∧ ¬ (t = rt c ∧ i = i0))).
    { intros t i p H. apply (ss_Hp SS) in H. case_decide as D; [left; cbn in H; naive_solver|auto]. }
    assert (HpM : ∀ t i p, ¬ (t = rt c ∧ i = i0) → Hp c t i p → Hp c' t i p).
    { intros t i p N H. apply (ss_Hp SS). by rewrite decide_False. }
    assert (Hpn : Hp c' (rt c) i0 n) by (apply (ss_Hp SS); by rewrite decide_True).
    assert (HKe : ∀ t i k, HK c' t i k ↔ HK c t i k).
    { intros t i k. destruct (decide (t = rt c ∧ i = i0)) as [[-> ->]|N]; [|by apply (ssb_HK SS PV)].
      split.
      - intros (p & H1 & H2). destruct (HpI _ _ _ H1) as [(_ & _ & ->)|[_ X]]; [|by destruct X]. by assert (k = k0) as -> by congruence.
      - intros H. rewrite (HK_keys _ _ _ _ _ H HK0). exists n. auto. }
    assert (RP : replay (g_log γ) k0 = Some p0) by (apply (b_abs _ _ _ I); eauto).
    assert (NLn : ¬ lin (g_log γ) n). { intros X%(b_lin_lt _ _ _ I). unfold n in X. lia. }
    assert (PLt : ∀ p o h, g_pub γ !! p = Some (o, h) → p < n).
    { intros p o h H. apply lookup_lt_Some in H. rewrite (b_publen _ _ _ I) in H. done. }
    assert (PUB : ∀ p o h, g_pub γ' !! p = Some (o, h) → g_pub γ !! p = Some (o, h) ∨ (p = n ∧ o = opid ∧ h = None)).
    { intros p o h H. apply lookup_snoc_inv in H as [H|[-> H]]; [auto|]. right. rewrite (b_publen _ _ _ I). fold n. by simplify_eq. }
    rsf SS γ γ' I C0; [by eexists|].
    split_and!.
    - split; try assumption.
      + intros t i M. apply MtE in M. rewrite (ss_en SS). case_decide; [done|]. by apply (b_claimed _ _ _ I).
      + intros t i p k H1 H2 M. rewrite (ss_mt SS). apply MtE in M.
        assert (HK' : HK c t i k) by (apply HKe; exists p; auto). destruct HK' as (p' & X & Y).
        case_decide as D; [destruct D; subst|]; by eapply (b_meta _ _ _ I).
      + intros t i p H. rewrite (ss_hp SS), app_length. cbn. destruct (HpI _ _ _ H) as [(-> & -> & ->)|[H' _]]; [unfold n; lia|].
        apply PV in H'. lia.
      + intros t i k A H. rewrite ALe in A. rewrite (ss_limc SS). apply HKe in H.
        destruct (b_place _ _ _ I _ _ _ A H) as (q & Q1 & Q2 & Q3). exists q. rewrite (ss_ix cfg SS). split_and!; auto.
        intros q' L. rewrite (ss_ix cfg SS). apply MtE. auto.
      + intros t i j k. rewrite ALe, !HKe. apply I.
      + cbn. rewrite (ss_hp SS), !app_length, (b_publen _ _ _ I). done.
      + intros p o H. cbn. rewrite lin_snoc. cbn. destruct (PUB _ _ _ H) as [H'|(-> & _ & _)]; [left; by eapply (b_home_upd _ _ _ I)|auto].
      + intros p o t i H. rewrite Rte. destruct (PUB _ _ _ H) as [H'|(_ & _ & X)]; [by eapply (b_home_le _ _ _ I)|done].
      + intros p o t i H. rewrite Rte. intros L. cbn. rewrite lin_snoc. destruct (PUB _ _ _ H) as [H'|(_ & _ & X)]; [left; by eapply (b_home_low _ _ _ I)|done].
      + intros p o i H. rewrite Rte, MtE. intros H1 M. destruct (PUB _ _ _ H) as [H'|(-> & _ & X)]; [|done].
        rewrite Rte in H'. destruct (HpI _ _ _ H1) as [(_ & _ & ->)|[H1' _]]; [apply PLt in H'; lia|].
        cbn. rewrite lin_snoc. intros [X|[= X]]; [by eapply (b_home_fresh _ _ _ I)|]. apply PLt in H'. lia.
      + intros p o i H. rewrite Rte, MtE in *. destruct (PUB _ _ _ H) as [H'|(-> & _ & X)]; [|done].
        cbn. rewrite lin_snoc. destruct (b_home_lin _ _ _ I _ _ _ H') as [?|[X Y]]; auto. right. split; [|done]. apply HpM; [|done].
        intros [_ ->]. done.
      + intros i p. rewrite Rte, MtE. intros H1 M. destruct (HpI _ _ _ H1) as [(_ & -> & ->)|[H1' _]]; [done|].
        destruct (b_nonhome _ _ _ I _ _ H1' M) as [o Ho]. exists o. cbn. rewrite lookup_app_l; [done|]. by eapply lookup_lt_Some.
      + intros k p. cbn. rewrite replay_snoc. cbn. rewrite Rte. case_decide as E.
        * subst k. split.
          -- intros [= <-]. exists i0. by rewrite MtE.
          -- intros (i & H1 & H2 & H3). f_equal. destruct (HpI _ _ _ H1) as [(_ & _ & ->)|[H1' Ni]]; [done|]. exfalso. apply Ni.
             split; [done|]. eapply (b_u1 _ _ _ I (rt c) i i0 k0); auto. exists p. split; [done|]. apply (ss_ky_inv SS); [by eapply PV|done].
        * rewrite (b_abs _ _ _ I k p). split; intros (i & H1 & H2 & H3); exists i.
          -- rewrite MtE. split_and!; auto; [|by apply (ss_ky SS)]. apply HpM; [|done]. intros [_ ->]. apply E. unfold Hp in *. congruence.
          -- rewrite MtE in H3. destruct (HpI _ _ _ H1) as [(_ & -> & ->)|[H1' Ni]]; [exfalso; apply E; congruence|]. split_and!; auto.
             apply (ss_ky_inv SS); [by eapply PV|done].
      + cbn. apply legal_snoc; [apply I|done].
      + intros x x' e e' p H1 H2 H3 H4. cbn in H1, H2.
        assert (∀ x e, g_log γ !! x = Some e → ev_new e = Some n → False).
        { intros n1 e1 X Y. apply NLn. exists e1. split; [eapply elem_of_list_lookup_2; eauto|done]. }
        apply lookup_snoc_inv in H1 as [H1|[-> ->]]; apply lookup_snoc_inv in H2 as [H2|[-> ->]]; cbn in *; simplify_eq; eauto; try (exfalso; eauto; fail); eapply (b_news _ _ _ I); eauto.
      + intros e p H1 H2. cbn in *. apply elem_of_app in H1 as [H1|H1].
        * destruct (b_evkey _ _ _ I e p H1 H2) as [A (h & B')]. split; [by apply (ss_ky SS)|].
          exists h. rewrite lookup_app_l; [done|]. by eapply lookup_lt_Some.
        * apply elem_of_list_singleton in H1 as ->. cbn in *. simplify_eq. split; [done|]. exists None.
          rewrite <- (b_publen _ _ _ I). by apply list_lookup_middle.
    - intros o No. eapply (ssb_ext0 SS); cbn; auto.
      + split.
        * intros M. by apply MtE.
        * rewrite (ss_en SS), decide_True by done. done.
        * unfold Hp in Hp0. congruence.
        * intros p k H Hk. left. apply HKe. exists p. auto.
        * done.
        * done.
        * done.
      + by eexists.
      + by eexists.
      + intros k e H L Eo. apply lookup_snoc_ge in H as [-> ->]; [|done]. cbn in Eo. congruence.
      + intros p h H. destruct (PUB _ _ _ H) as [H'|(_ & X & _)]; [by eapply lookup_lt_Some|done].
    - intros me. eapply (ss_extp SS); eauto.
  Qed.

  (** ** Removing an entry *)
  Lemma step_remB (c : core) γ c' opid t0 i0 k0 p0 :
    InvB c γ →
    slotstep c c' t0 i0 (mt (k_sl c) t0 i0) TOMBW [] →
    Hp c t0 i0 p0 → ky c p0 = Some k0 → ¬ CP c t0 i0 → visitedB c t0 →
    ∃ γ' pre, g_log γ' = (g_log γ ++ pre) ++ [Ev k0 opid (Some p0) None] ∧ g_pub γ' = g_pub γ ∧
      g_ph γ' = g_ph γ ∧ g_pr γ' = g_pr γ ∧
      (pre = [] ∧ lin (g_log γ) p0 ∨ ∃ o0 h, pre = [Ev k0 o0 None (Some p0)] ∧ g_pub γ !! p0 = Some (o0, h) ∧ ¬ lin (g_log γ) p0) ∧
      replay (g_log γ ++ pre) k0 = Some p0 ∧
      InvB c' γ' ∧ (∀ o, o ≠ opid → ext0 o c γ c' γ') ∧ (∀ me, extp me c γ c' γ').
  Proof.
    intros I SS Hp0 Hk0 C0 [V1 V2].
    assert (HK0 : HK c t0 i0 k0) by (exists p0; auto).
    assert (t0 = rt c) as ->. { pose proof (b_above _ _ _ I t0 i0 V2 (Hp_inb _ _ _ _ Hp0) C0). lia. }
    assert (MtE : ∀ t i, Mt c' t i ↔ Mt c t i).
    { intros t i. rewrite (ss_Mt SS). case_decide as D; [destruct D; subst; done|done]. }
    assert (Rte := ss_rtc SS). assert (PV := b_ptr _ _ _ I). assert (ALe := ss_al SS).
    assert (kye : ∀ p, ky c' p = ky c p) by (intros; unfold ky; rewrite (ss_hp SS), app_nil_r; done).
    assert (HpI : ∀ t i p, Hp c' t i p ↔ Hp c t i p ∧ ¬ (t = rt c ∧ i = i0)).
    { intros t i p. rewrite (ss_Hp SS). case_decide as D; [|naive_solver]. cbn. split; [done|]. intros [_ X]. done. }
    assert (HKI : ∀ t i k, HK c' t i k ↔ HK c t i k ∧ ¬ (t = rt c ∧ i = i0)).
    { intros t i k. unfold HK. setoid_rewrite HpI. setoid_rewrite kye. naive_solver. }
    (* the event that makes the entry visible, if it was not *)
    assert (PRE : ∃ pre, (pre = [] ∧ lin (g_log γ) p0 ∨ ∃ o0, pre = [Ev k0 o0 None (Some p0)] ∧ g_pub γ !! p0 = Some (o0, Some (rt c, i0)) ∧ ¬ lin (g_log γ) p0 ∧ ¬ Mt c (rt c) i0) ∧
      replay (g_log γ ++ pre) k0 = Some p0 ∧ (∀ k, k ≠ k0 → replay (g_log γ ++ pre) k = replay (g_log γ) k) ∧ legal (g_log γ ++ pre)).
    { destruct (Mt_dec c (rt c) i0) as [M|M].
      - assert (RP : replay (g_log γ) k0 = Some p0) by (apply (b_abs _ _ _ I); eauto).
        exists []. rewrite app_nil_r. split_and!; auto; [|apply I]. left. split; [done|]. by eapply replay_lin.
      - destruct (b_nonhome _ _ _ I _ _ Hp0 M) as [o Ho]. exists [Ev k0 o None (Some p0)]. split_and!.
        + right. exists o. split_and!; auto. by eapply (b_home_fresh _ _ _ I).
        + rewrite replay_snoc. cbn. by rewrite decide_True.
        + intros k Nk. rewrite replay_snoc. cbn. by rewrite decide_False.
        + apply legal_snoc; [apply I|]. by eapply (b_absent_invis _ _ _ I). }
    destruct PRE as (pre & Hpre & RP & RPo & LEG).
    set (e1 := Ev k0 opid (Some p0) None).
    set (γ' := Gh ((g_log γ ++ pre) ++ [e1]) (g_pub γ) (g_ph γ) (g_pr γ)).
    assert (PX : g_log γ `prefix_of` g_log γ') by (cbn; rewrite <- app_assoc; by eexists).
    assert (LIN : ∀ p, lin (g_log γ') p ↔ lin (g_log γ) p ∨ p = p0).
    { intros p. cbn. rewrite lin_snoc, lin_app. cbn. destruct Hpre as [[-> L]|(o0 & -> & Ho & NL & NM)].
      - split; [|naive_solver]. intros [[?|(e & X & _)]|?]; auto; [by apply elem_of_nil in X|done].
      - split.
        + intros [[?|(e & X%elem_of_list_singleton & Y)]|?]; auto; [|done]. subst. cbn in Y. naive_solver.
        + intros [?| ->]; [auto|]. left. right. eexists. by split; [apply elem_of_list_singleton|]. }
    rsf SS γ γ' I C0; [exact PX|].
    exists γ', pre. split_and!; try done.
    - destruct Hpre as [?|(o0 & X1 & X2 & X3 & X4)]; [auto|]. right. eauto 10.
    - split; try assumption.
      + intros t i M. apply MtE in M. rewrite (ss_en SS). case_decide; [done|]. by apply (b_claimed _ _ _ I).
      + intros t i p k H1 H2 M. apply HpI in H1 as [H1 N]. rewrite (ss_mt SS), decide_False by done. apply MtE in M.
        rewrite kye in H2. by eapply (b_meta _ _ _ I).
      + intros t i p H. rewrite (ss_hp SS), app_nil_r. apply HpI in H as [H _]. by eapply PV.
      + intros t i k A H. rewrite ALe in A. rewrite (ss_limc SS). apply HKI in H as [H _].
        destruct (b_place _ _ _ I _ _ _ A H) as (q & Q1 & Q2 & Q3). exists q. rewrite (ss_ix cfg SS). split_and!; auto.
        intros q' L. rewrite (ss_ix cfg SS). apply MtE. auto.
      + intros t i j k. rewrite ALe, !HKI. intros A [H _] [H' _]. by eapply (b_u1 _ _ _ I).
      + cbn. rewrite (ss_hp SS), app_nil_r. apply I.
      + intros p o H. apply LIN. left. by eapply (b_home_upd _ _ _ I).
      + intros p o t i H. rewrite Rte. by eapply (b_home_le _ _ _ I).
      + intros p o t i H. rewrite Rte. intros L. apply LIN. left. by eapply (b_home_low _ _ _ I).
      + intros p o i H. rewrite Rte, MtE, LIN. intros H1 M. apply HpI in H1 as [H1 N]. rewrite Rte in H. intros [X| ->]; [by eapply (b_home_fresh _ _ _ I)|].
        apply N. split; [done|]. eapply (b_u1 _ _ _ I (rt c) i i0 k0); auto. exists p0. auto.
      + intros p o i H. rewrite Rte, MtE, LIN in *. destruct (b_home_lin _ _ _ I _ _ _ H) as [?|[X Y]]; auto.
        destruct (decide (i = i0)) as [->|N]; [left; right; unfold Hp in *; congruence|]. right. rewrite HpI. naive_solver.
      + intros i p. rewrite Rte, MtE. intros H1 M. apply HpI in H1 as [H1 _]. by eapply (b_nonhome _ _ _ I).
      + intros k p. cbn. rewrite replay_snoc. cbn. rewrite Rte, kye. setoid_rewrite HpI. setoid_rewrite MtE. case_decide as E.
        * subst k. split; [done|]. intros (i & [H1 N] & H2 & H3). exfalso. apply N. split; [done|].
          eapply (b_u1 _ _ _ I (rt c) i i0 k0); auto. exists p. auto.
        * rewrite RPo by done. rewrite (b_abs _ _ _ I k p). split; intros (i & H1 & H2 & H3); exists i; split_and!; auto; [|naive_solver].
          intros [_ ->]. apply E. unfold Hp in *. congruence.
      + cbn. apply legal_snoc; [done|done].
      + intros x x' e e' p H1 H2 H3 H4. cbn in H1, H2.
        apply lookup_snoc_inv in H1 as [H1|[-> ->]]; [|done]. apply lookup_snoc_inv in H2 as [H2|[-> ->]]; [|done].
        destruct Hpre as [[-> L]|(o0 & -> & Ho & NL & NM)].
        * rewrite app_nil_r in *. by eapply (b_news _ _ _ I).
        * assert (∀ x e, g_log γ !! x = Some e → ev_new e = Some p0 → False).
          { intros n1 e2 X Y. apply NL. exists e2. split; [eapply elem_of_list_lookup_2; eauto|done]. }
          apply lookup_snoc_inv in H1 as [H1|[-> ->]]; apply lookup_snoc_inv in H2 as [H2|[-> ->]]; cbn in *; simplify_eq; eauto; try (exfalso; eauto; fail); eapply (b_news _ _ _ I); eauto.
      + intros e p H1 H2. cbn in *. rewrite kye. apply elem_of_app in H1 as [H1|H1]; [|by apply elem_of_list_singleton in H1 as ->].
        apply elem_of_app in H1 as [H1|H1]; [by apply (b_evkey _ _ _ I)|].
        destruct Hpre as [[-> L]|(o0 & -> & Ho & NL & NM)]; [by apply elem_of_nil in H1|].
        apply elem_of_list_singleton in H1 as ->. cbn in *. simplify_eq. eauto.
    - intros o No. eapply (ssb_ext0 SS); cbn; auto.
      + split.
        * intros M. by apply MtE.
        * rewrite (ss_en SS), decide_True by done. done.
        * unfold Hp in Hp0. congruence.
        * intros p k H Hk. right. rewrite (ss_en SS), decide_True by done. split; [done|].
          assert (p = p0) as -> by (unfold Hp in *; congruence). assert (k = k0) as -> by congruence.
          exists (length (g_log γ')). cbn. split; [rewrite !app_length; lia|]. split; [lia|]. rewrite rp_all by lia.
          rewrite replay_snoc. cbn. by rewrite decide_True.
        * done.
        * done.
        * done.
      + intros k e H L Eo. destruct (decide (k < length (g_log γ ++ pre))) as [Lk|Lk].
        * rewrite lookup_app_l in H by done. destruct Hpre as [[-> Ll]|(o0 & -> & Ho & NL & NM)].
          -- rewrite app_nil_r in *. lia.
          -- apply lookup_snoc_ge in H as [-> ->]; [|done]. cbn in *. subst. eauto.
        * apply lookup_snoc_ge in H as [-> ->]; [|lia]. cbn in Eo. congruence.
      + intros p h H. by eapply lookup_lt_Some.
    - intros me. eapply (ss_extp SS); eauto.
  Qed.
End steps.
