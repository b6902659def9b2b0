(** Steps that publish, replace or remove an entry. *)
From Verif Require Export IncSteps.
Arguments ss_en {K V c c' t0 i0 m w hx}. Arguments ss_mt {K V c c' t0 i0 m w hx}.
Arguments ss_hp {K V c c' t0 i0 m w hx}. Arguments ss_Hp {K V c c' t0 i0 m w hx}.
Arguments ss_Mt {K V c c' t0 i0 m w hx}. Arguments ss_CP {K V c c' t0 i0 m w hx}.
Arguments ss_CD {K V c c' t0 i0 m w hx}. Arguments ss_ky {K V c c' t0 i0 m w hx}.
Arguments ss_ky_inv {K V c c' t0 i0 m w hx}. Arguments ss_rtc {K V c c' t0 i0 m w hx}.
Arguments ss_limc {K V c c' t0 i0 m w hx}. Arguments ss_lnc {K V c c' t0 i0 m w hx}.
Arguments ss_ix {K V} cfg {c c' t0 i0 m w hx}. Arguments ss_HK {K V Keq} cfg {c c' t0 i0 m w hx}.
Arguments ss_struct {K V Keq} cfg {c c' t0 i0 m w hx}.
Arguments ss_ext0 {K V Keq} cfg {c c' t0 i0 m w hx}. Arguments ss_extp {K V c c' t0 i0 m w hx}.
Arguments ss_Hp_same {K V c c' t0 i0 m w hx}. Arguments ss_HK_same {K V Keq} cfg {c c' t0 i0 m w hx}.

Section steps.
  Context {K V : Type} {Keq : EqDecision K} (cfg : config K).
  Notation core := (core K V). Notation ghost := (@ghost K).
  Notation InvI := (InvI cfg).
  Notation ix := (ix cfg). Notation passes := (passes cfg). Notation exhausted := (exhausted cfg).
  Notation pass := (pass cfg). Notation exhM := (exhM cfg). Notation visitedI := (visitedI cfg).

  Lemma stale_high (c c' : core) γ t0 i0 m w hx (SS : slotstep c c' t0 i0 m w hx) : InvI c γ → rt c ≤ t0 →
    ∀ t k q n, t < rt c' → g_pr γ !! t = Some n → q ≤ lim c' t → passes c' t k q → ¬ Mt c' t (ix c' t k q) →
               rp n (g_log γ) k = None.
  Proof.
    intros I L t k q n H1 H2 H3 H4 H5. rewrite (ss_rtc SS) in H1. rewrite (ss_limc SS) in H3.
    rewrite (ss_ix cfg SS), (ss_Mt SS), decide_False in H5 by lia.
    eapply (ii_stale _ _ _ I); eauto. intros q' Hq. destruct (H4 q' Hq) as [X Y].
    rewrite (ss_ix cfg SS), (ss_Mt SS), decide_False in X by lia.
    rewrite (ss_ix cfg SS), (ss_HK cfg SS γ) in Y; [|done|lia]. split; done.
  Qed.

  (** ** Publishing a new entry in an empty slot *)
  Lemma step_ins (c : core) γ c' opid t0 i0 q0 k0 v0 :
    InvI c γ → inb c t0 i0 →
    slotstep c c' t0 i0 (mt (k_sl c) t0 i0) (EW (Some (length (k_hp c))) false false false) [(k0, v0)] →
    en (k_sl c) t0 i0 = NULLW → visitedI c t0 k0 → passes c t0 k0 q0 → q0 ≤ lim c t0 → ix c t0 k0 q0 = i0 →
    let γ' := Gh (g_log γ) (g_pub γ ++ [(opid, Some (t0, i0))]) (g_ph γ) (g_pr γ) in
    InvI c' γ' ∧ (∀ o, o ≠ opid → ext0 o c γ c' γ') ∧ (∀ me, extp me c γ c' γ').
  Proof.
    intros I B SS Hnl V0 P0 Q0 E0 γ'. set (n := length (k_hp c)) in *.
    assert (NM0 : ¬ Mt c t0 i0). { intros M. by apply (ii_claimed _ _ _ I) in M. }
    assert (Lr : rt c ≤ t0).
    { destruct (decide (rt c ≤ t0)); [done|]. pose proof (CP_low _ _ _ I t0 i0 ltac:(lia) (proj2 B)) as C.
      unfold CP in C. rewrite Hnl in C. done. }
    assert (NH0 : ∀ p, ¬ Hp c t0 i0 p) by (intros p H; unfold Hp in H; by rewrite Hnl in H).
    assert (NHK0 : ∀ k, ¬ HK c t0 i0 k) by (intros k (p & H & _); by eapply NH0).
    assert (MtE : ∀ t i, Mt c' t i ↔ Mt c t i).
    { intros t i. rewrite (ss_Mt SS). case_decide as D; [destruct D; subst; done|done]. }
    assert (Rte := ss_rtc SS).
    assert (kn : ky c' n = Some k0).
    { unfold ky. rewrite (ss_hp SS). unfold n. rewrite list_lookup_middle by done. done. }
    assert (HpI : ∀ t i p, Hp c' t i p → (t = t0 ∧ i = i0 ∧ p = n) ∨ Hp c t i p).
    { intros t i p H. apply (ss_Hp SS) in H. case_decide as D; [left; cbn in H; naive_solver|auto]. }
    assert (HpM : ∀ t i p, Hp c t i p → Hp c' t i p).
    { intros t i p H. apply (ss_Hp SS). case_decide as D; [|done]. destruct D; subst. by destruct (NH0 p). }
    assert (Hp0 : Hp c' t0 i0 n) by (apply (ss_Hp SS); by rewrite decide_True).
    assert (HKI : ∀ t i k, HK c' t i k → (t = t0 ∧ i = i0 ∧ k = k0) ∨ HK c t i k).
    { intros t i k (p & H1 & H2). destruct (HpI _ _ _ H1) as [(-> & -> & ->)|H]; [left; naive_solver|].
      right. exists p. split; [done|]. apply (ss_ky_inv SS); [eapply (ii_ptr _ _ _ I); eauto|done]. }
    assert (HKM : ∀ t i k, HK c t i k → HK c' t i k).
    { intros t i k (p & H1 & H2). exists p. split; [by apply HpM|by apply (ss_ky SS)]. }
    assert (CPe : ∀ t i, CP c' t i ↔ CP c t i).
    { intros t i. rewrite (ss_CP SS). case_decide as D; [|done]. destruct D; subst. unfold CP. by rewrite Hnl. }
    assert (CDe : ∀ t i, CD c' t i ↔ CD c t i).
    { intros t i. rewrite (ss_CD SS). case_decide as D; [|done]. destruct D; subst. unfold CD. by rewrite Hnl. }
    assert (Only : ∀ j, ¬ HK c t0 j k0).
    { intros j Hj. destruct (place_passes _ _ _ I _ _ _ _ Hj P0) as (q' & L1 & L2 & E & M).
      destruct (decide (q' = q0)) as [->|]; [rewrite E0 in E; subst; by eapply NHK0|].
      apply NM0. rewrite <- E0. apply M. lia. }
    assert (NoLater : ∀ t i, t0 < t → ¬ HK c t i k0).
    { intros t i L H. destruct (ii_mid _ _ _ I t0 t i k0 Lr L H) as [X|(-> & j & Hj)].
      - apply NM0. rewrite <- E0. by apply X.
      - by eapply Only. }
    assert (pubM : ∀ p x, g_pub γ !! p = Some x → g_pub γ' !! p = Some x).
    { intros p x H. cbn. by apply lookup_app_l_Some. }
    assert (pubI : ∀ p x, g_pub γ' !! p = Some x → g_pub γ !! p = Some x ∨ (p = n ∧ x = (opid, Some (t0, i0)))).
    { intros p x H. apply lookup_snoc_inv in H as [|[-> ->]]; [auto|]. right. rewrite (ii_publen _ _ _ I). auto. }
    assert (SX : slot_ext c γ c' γ' t0 i0).
    { split.
      - by rewrite MtE.
      - by rewrite Hnl.
      - by rewrite Hnl.
      - intros p k H. by destruct (NH0 p).
      - unfold CP. by rewrite Hnl.
      - unfold CP. by rewrite Hnl.
      - unfold CP. by rewrite Hnl. }
    split; [|split].
    - destruct (ss_struct cfg SS γ γ' I eq_refl eq_refl) as (S1 & S2 & S3 & S4 & S5 & S6 & S7 & S8 & S9 & S10 & S11 & S11a & S12).
      split; try assumption.
      + intros t i H. apply MtE in H. rewrite (ss_en SS). case_decide; [done|]. eapply (ii_claimed _ _ _ I); eauto.
      + intros t i p k H1 H2 H3. rewrite MtE in H3. destruct (HpI _ _ _ H1) as [(-> & -> & ->)|H]; [done|].
        rewrite (ss_mt SS). case_decide as D; [destruct D; subst; done|]. eapply (ii_meta _ _ _ I); eauto.
        apply (ss_ky_inv SS); [eapply (ii_ptr _ _ _ I); eauto|done].
      + intros t i p H. rewrite (ss_hp SS), app_length. cbn. destruct (HpI _ _ _ H) as [(-> & -> & ->)|H1]; [unfold n; lia|].
        pose proof (ii_ptr _ _ _ I _ _ _ H1). lia.
      + intros t i k H. rewrite (ss_limc SS). setoid_rewrite (ss_ix cfg SS). setoid_rewrite MtE.
        destruct (HKI _ _ _ H) as [(-> & -> & ->)|H1]; [|by eapply (ii_place _ _ _ I)].
        exists q0. split_and!; auto. intros q' L. by apply P0.
      + intros t i j k H1 H2. destruct (HKI _ _ _ H1) as [(-> & -> & ->)|H1']; destruct (HKI _ _ _ H2) as [(? & ? & ?)|H2']; subst; auto.
        * by destruct (Only _ H2').
        * by destruct (Only _ H1').
        * eapply (ii_u1 _ _ _ I); eauto.
      + intros t i p H. rewrite CDe, CPe. destruct (HpI _ _ _ H) as [(-> & -> & ->)|H1]; [|eapply (ii_cdcp _ _ _ I); eauto].
        unfold CD. by rewrite Hnl.
      + intros t i L. rewrite (ss_lnc SS) in L. pose proof (ii_phase _ _ _ I t i L) as P. unfold phase_ok in *. cbn. rewrite Rte.
        assert (NE : CP c t i → ¬ (t = t0 ∧ i = i0)) by (intros C [-> ->]; unfold CP in C; by rewrite Hnl in C).
        destruct (g_ph γ t i); rewrite ?CPe, ?CDe; auto.
        * destruct P as (P1 & P2 & P3 & P4). split_and!; auto.
          -- intros p H. rewrite CDe. destruct (HpI _ _ _ H) as [(-> & -> & ->)|H1]; [destruct NE; auto|eauto].
          -- intros k t' i' H L2 H'. destruct (HKI _ _ _ H) as [(-> & -> & ->)|H1]; [destruct NE; auto|].
             destruct (HKI _ _ _ H') as [(-> & -> & ->)|H2]; [|by eapply P4].
             destruct (pass_holder _ _ _ I t i k0) as [D _]; [apply V0; lia|done|]. destruct H1 as (p & H1 & _). by eapply P3.
        * destruct P as (P1 & P2 & P3 & P4 & p & P5 & P6). split_and!; auto. exists p. auto.
        * destruct P as (P1 & P2). split; [done|]. intros p H. rewrite CDe.
          destruct (HpI _ _ _ H) as [(-> & -> & ->)|H1]; [destruct NE; auto|eauto].
        * destruct P as (P1 & P2). split; [done|]. intros p H. rewrite CDe.
          destruct (HpI _ _ _ H) as [(-> & -> & ->)|H1]; [destruct NE; auto|eauto].
      + intros t t' i i' k. rewrite Rte, CDe. cbn. intros L1 L2 H1 H2.
        destruct (HKI _ _ _ H1) as [(-> & -> & ->)|H1']; destruct (HKI _ _ _ H2) as [(? & ? & ?)|H2']; subst; try lia.
        * by destruct (NoLater t' i').
        * destruct (pass_holder _ _ _ I t i k0) as [D _]; [apply V0; lia|done|].
          destruct H1' as (p & H1' & _). pose proof (CP_high _ _ _ I _ _ (ii_cdcp _ _ _ I _ _ _ H1' D)). split; [lia|auto].
        * eapply (ii_uniq _ _ _ I); eauto.
      + intros t t' i' k. rewrite Rte. unfold IncInv.exhM. rewrite (ss_limc SS). setoid_rewrite (ss_ix cfg SS). setoid_rewrite MtE.
        intros L1 L2 H. destruct (HKI _ _ _ H) as [(-> & -> & ->)|H'].
        * destruct (V0 t L1 L2) as [X|(i & X1 & X2 & X3)].
          -- left. intros q Q. apply X. lia.
          -- right. destruct X1 as (p & X1 & Y). pose proof (CP_high _ _ _ I _ _ (ii_cdcp _ _ _ I _ _ _ X1 X2)).
             split; [lia|]. exists i. apply HKM. exists p. auto.
        * destruct (ii_mid _ _ _ I t t' i' k L1 L2 H') as [X|(-> & i & X)]; [auto|]. right. split; [done|]. exists i. auto.
      + intros i p. rewrite Rte, CDe. setoid_rewrite MtE. intros H1 H2 H3.
        destruct (HpI _ _ _ H1) as [(E1 & -> & ->)|H1']; [unfold CD in H2; rewrite E1, Hnl in H2; done|].
        destruct (ii_u7 _ _ _ I i p H1' H2 H3) as (t' & i' & ? & ? & ?). exists t', i'. auto.
      + cbn. rewrite (ss_hp SS), !app_length. cbn. by rewrite (ii_publen _ _ _ I).
      + intros p o H. destruct (pubI _ _ H) as [H'|[_ ?]]; [eapply (ii_home_upd _ _ _ I); eauto|done].
      + rewrite Rte. intros p o t i H L. destruct (pubI _ _ H) as [H'|[_ ?]]; [eapply (ii_home_low _ _ _ I); eauto|]. simplify_eq. lia.
      + rewrite Rte. intros p o t i H L H1. rewrite MtE. intros H2. cbn. destruct (pubI _ _ H) as [H'|[-> ?]].
        * destruct (HpI _ _ _ H1) as [(-> & -> & ->)|H1']; [|eapply (ii_home_fresh _ _ _ I); eauto].
          apply lookup_lt_Some in H'. rewrite (ii_publen _ _ _ I) in H'. unfold n in H'. lia.
        * intros Hl. apply (lin_lt _ _ _ I) in Hl. unfold n in Hl. lia.
      + rewrite Rte. intros p o t i H L. rewrite MtE. cbn. destruct (pubI _ _ H) as [H'|[-> ?]].
        * destruct (ii_home_lin _ _ _ I _ _ _ _ H' L) as [|[H1 H2]]; auto.
        * simplify_eq. auto.
      + rewrite Rte. intros t i p L H. rewrite MtE. intros H2. rewrite (ss_lnc SS). cbn.
        destruct (HpI _ _ _ H) as [(-> & -> & ->)|H1].
        * left. exists opid. unfold n. rewrite <- (ii_publen _ _ _ I). by rewrite list_lookup_middle.
        * destruct (ii_nonhome _ _ _ I t i p L H1 H2) as [(o & Ho)|X]; [left; exists o; by apply pubM|auto].
      + intros t i p o t' i' H H'. destruct (pubI _ _ H') as [H2|[-> ?]].
        * destruct (HpI _ _ _ H) as [(-> & -> & ->)|H1]; [|eapply (ii_ptrloc _ _ _ I); eauto].
          apply lookup_lt_Some in H2. rewrite (ii_publen _ _ _ I) in H2. unfold n in H2. lia.
        * simplify_eq. destruct (HpI _ _ _ H) as [(-> & -> & _)|H1]; [lia|].
          pose proof (ii_ptr _ _ _ I _ _ _ H1). unfold n in *. lia.
      + intros k p. cbn. rewrite (ii_abs _ _ _ I k p). unfold live. rewrite Rte.
        split; intros (t & i & L & H1 & H2 & M & D & R); exists t, i.
        * assert (HKt : HK c t i k) by (exists p; auto).
          rewrite MtE, CDe. split_and!; auto; [by apply (ss_ky SS)|]. destruct R as [|R]; [auto|].
          destruct (decide (t = rt c)); [auto|right]. intros j Hj. rewrite MtE, CDe.
          destruct (HKI _ _ _ Hj) as [(? & -> & ->)|Hj']; [|auto].
          exfalso. apply (NoLater t i); [lia|done].
        * rewrite MtE in M. rewrite CDe in D. destruct (HpI _ _ _ H1) as [(-> & -> & ->)|H1']; [done|].
          split_and!; auto; [apply (ss_ky_inv SS); [eapply (ii_ptr _ _ _ I); eauto|done]|].
          destruct R as [|R]; [auto|right]. intros j Hj. apply HKM in Hj. specialize (R j Hj). by rewrite MtE, CDe in R.
      + apply I.
      + apply I.
      + intros e p H1 H2. destruct (ii_evkey _ _ _ I e p H1 H2) as [X (h & Y)].
        split; [by apply (ss_ky SS)|]. exists h. by apply pubM.
      + apply I.
      + apply I.
      + exact (stale_high _ _ γ _ _ _ _ _ SS I Lr).
    - intros o Ho. eapply ss_ext0; eauto; cbn; auto.
      + by eexists.
      + intros n' e H1 H2 H3. apply lookup_lt_Some in H1. lia.
      + intros p h H. destruct (pubI _ _ H) as [H'|[_ ?]]; [by apply lookup_lt_Some in H'|]. congruence.
    - intros me. eapply ss_extp; eauto.
  Qed.

  Lemma above_root (c : core) γ t i : InvI c γ → i < lnc c t → ¬ CP c t i → rt c ≤ t.
  Proof. intros I L C. destruct (decide (rt c ≤ t)); [done|]. destruct C. eapply CP_low; eauto. lia. Qed.

  (** ** Replacing a visible entry *)
  Lemma step_upd (c : core) γ c' opid t0 i0 k0 v0 p0 :
    InvI c γ →
    slotstep c c' t0 i0 (mt (k_sl c) t0 i0) (EW (Some (length (k_hp c))) false false false) [(k0, v0)] →
    Hp c t0 i0 p0 → ky c p0 = Some k0 → ¬ CP c t0 i0 → Mt c t0 i0 → visitedI c t0 k0 →
    let γ' := Gh (g_log γ ++ [Ev k0 opid (Some p0) (Some (length (k_hp c)))]) (g_pub γ ++ [(opid, None)]) (g_ph γ) (g_pr γ) in
    InvI c' γ' ∧ (∀ o, o ≠ opid → ext0 o c γ c' γ') ∧ (∀ me, extp me c γ c' γ').
  Proof.
    intros I SS Hp0 Hk0 C0 M0 V0 γ'. set (n := length (k_hp c)) in *.
    assert (HK0 : HK c t0 i0 k0) by (exists p0; auto).
    assert (Lr : rt c ≤ t0) by (eapply above_root; eauto; eapply Hp_inb; eauto).
    assert (D0 : ¬ CD c t0 i0) by (intros D; apply C0; eapply ii_cdcp; eauto).
    assert (Root : rt c < t0 → ∀ i, HK c (rt c) i k0 → CD c (rt c) i ∧ Mt c (rt c) i).
    { intros L i H. apply (pass_holder _ _ _ I _ _ k0); [apply V0; lia|exact H]. }
    assert (RP : replay (g_log γ) k0 = Some p0) by (eapply present_visible; eauto).
    assert (MtE : ∀ t i, Mt c' t i ↔ Mt c t i).
    { intros t i. rewrite (ss_Mt SS). case_decide as D; [destruct D; subst; done|done]. }
    assert (Rte := ss_rtc SS).
    assert (kn : ky c' n = Some k0).
    { unfold ky. rewrite (ss_hp SS). unfold n. rewrite list_lookup_middle by done. done. }
    assert (Hpe : ∀ t i p, Hp c' t i p ↔ (if decide (t = t0 ∧ i = i0) then p = n else Hp c t i p)).
    { intros t i p. rewrite (ss_Hp SS). case_decide; [cbn; naive_solver|done]. }
    assert (HpI : ∀ t i p, Hp c' t i p → (t = t0 ∧ i = i0 ∧ p = n) ∨ (¬ (t = t0 ∧ i = i0) ∧ Hp c t i p)).
    { intros t i p H. apply Hpe in H. case_decide as D; naive_solver. }
    assert (HpM : ∀ t i p, ¬ (t = t0 ∧ i = i0) → Hp c t i p → Hp c' t i p).
    { intros t i p N H. apply Hpe. by rewrite decide_False. }
    assert (Hpn : Hp c' t0 i0 n) by (apply Hpe; by rewrite decide_True).
    assert (HKe : ∀ t i k, HK c' t i k ↔ HK c t i k).
    { intros t i k. destruct (decide (t = t0 ∧ i = i0)) as [[-> ->]|N]; [|by eapply ss_HK].
      split; intros H.
      - assert (k = k0) as ->; [|done]. pose proof (HK_key _ _ _ _ _ H Hpn). congruence.
      - rewrite (HK_keys _ _ _ _ _ H HK0). exists n. auto. }
    assert (CPe : ∀ t i, CP c' t i ↔ CP c t i).
    { intros t i. rewrite (ss_CP SS). case_decide as D; [|done]. destruct D; subst. split; [done|intros; by destruct C0]. }
    assert (CDe : ∀ t i, CD c' t i ↔ CD c t i).
    { intros t i. rewrite (ss_CD SS). case_decide as D; [|done]. destruct D; subst. split; [done|intros; by destruct D0]. }
    assert (pubM : ∀ p x, g_pub γ !! p = Some x → g_pub γ' !! p = Some x).
    { intros p x H. cbn. by apply lookup_app_l_Some. }
    assert (pubI : ∀ p x, g_pub γ' !! p = Some x → (p < n ∧ g_pub γ !! p = Some x) ∨ (p = n ∧ x = (opid, None))).
    { intros p x H. apply lookup_snoc_inv in H as [H|[-> ->]]; [left|right].
      - split; [|done]. unfold n. rewrite <- (ii_publen _ _ _ I). by eapply lookup_lt_Some.
      - rewrite (ii_publen _ _ _ I). auto. }
    assert (linI : ∀ p, lin (g_log γ') p → lin (g_log γ) p ∨ p = n).
    { intros p H. apply lin_snoc in H as [H|H]; [auto|]. cbn in H. right. congruence. }
    assert (linM : ∀ p, lin (g_log γ) p → lin (g_log γ') p) by (intros p H; apply lin_snoc; auto).
    assert (LV : ∀ k p, k ≠ k0 → live c' k p ↔ live c k p).
    { intros k p Nk. unfold live. rewrite Rte. split; intros (t & i & L & H1 & H2 & M & D & R); exists t, i.
      - destruct (HpI _ _ _ H1) as [(-> & -> & ->)|[_ H1']]; [congruence|].
        rewrite MtE in M. rewrite CDe in D. split_and!; auto; [apply (ss_ky_inv SS); [eapply ii_ptr; eauto|done]|].
        destruct R as [|R]; [auto|right]. intros j Hj. apply HKe in Hj. specialize (R j Hj). by rewrite MtE, CDe in R.
      - assert (N : ¬ (t = t0 ∧ i = i0)) by (intros [-> ->]; unfold Hp in *; congruence).
        rewrite MtE, CDe. split_and!; auto; [by apply (ss_ky SS)|].
        destruct R as [|R]; [auto|right]. intros j Hj. apply HKe in Hj. rewrite MtE, CDe. auto. }
    assert (SX : slot_ext c γ c' γ' t0 i0).
    { split.
      - by rewrite MtE.
      - intros _. eapply Hp_nn; eauto.
      - intros _ H. unfold Hp in Hp0. congruence.
      - intros p k H1 H2. left. apply HKe. exists p. auto.
      - by intros C.
      - by intros C.
      - by intros C. }
    split; [|split].
    - destruct (ss_struct cfg SS γ γ' I eq_refl eq_refl) as (S1 & S2 & S3 & S4 & S5 & S6 & S7 & S8 & S9 & S10 & S11 & S11a & S12).
      split; try assumption.
      + intros t i H. apply MtE in H. rewrite (ss_en SS). case_decide; [done|]. eapply ii_claimed; eauto.
      + intros t i p k H1 H2 H3. rewrite MtE in H3. rewrite (ss_mt SS).
        destruct (HpI _ _ _ H1) as [(-> & -> & ->)|[N H]].
        * rewrite decide_True by auto. assert (k = k0) as -> by congruence. eapply ii_meta; eauto.
        * rewrite decide_False by auto. eapply (ii_meta _ _ _ I); eauto.
          apply (ss_ky_inv SS); [eapply ii_ptr; eauto|done].
      + intros t i p H. rewrite (ss_hp SS), app_length. cbn. destruct (HpI _ _ _ H) as [(-> & -> & ->)|[_ H1]]; [unfold n; lia|].
        pose proof (ii_ptr _ _ _ I _ _ _ H1). lia.
      + intros t i k H. rewrite (ss_limc SS). setoid_rewrite (ss_ix cfg SS). setoid_rewrite MtE.
        apply HKe in H. by eapply ii_place.
      + intros t i j k H1 H2. apply HKe in H1. apply HKe in H2. eapply ii_u1; eauto.
      + intros t i p H. rewrite CDe, CPe. destruct (HpI _ _ _ H) as [(-> & -> & ->)|[_ H1]]; [done|eapply ii_cdcp; eauto].
      + intros t i L. rewrite (ss_lnc SS) in L. pose proof (ii_phase _ _ _ I t i L) as P. unfold phase_ok in *. cbn. rewrite Rte.
        assert (NE : CP c t i → ¬ (t = t0 ∧ i = i0)) by (intros C [-> ->]; done).
        destruct (g_ph γ t i) eqn:Eph; rewrite ?CPe, ?CDe; auto.
        * destruct P as (P1 & P2 & P3 & P4). split_and!; auto.
          -- intros p H. rewrite CDe. destruct (HpI _ _ _ H) as [(-> & -> & ->)|[_ H1]]; [destruct NE; auto|by eapply P3].
          -- intros k t' i' H L2 H'. apply HKe in H. apply HKe in H'. by eapply P4.
        * destruct P as (P1 & P2 & P3 & P4 & p & P5 & P6). split_and!; auto. exists p. split; [apply HpM; auto|].
          apply HpM; [|done]. intros [-> ->]. assert (p = p0) as -> by (unfold Hp in *; congruence). subst t.
          destruct (Root P3 i) as [D _]; [exists p0; auto|done].
        * destruct P as (P1 & P2). split; [done|]. intros p H. rewrite CDe.
          destruct (HpI _ _ _ H) as [(-> & -> & ->)|[_ H1]]; [destruct NE; auto|eauto].
        * destruct P as (P1 & P2). split; [done|]. intros p H. rewrite CDe.
          destruct (HpI _ _ _ H) as [(-> & -> & ->)|[_ H1]]; [destruct NE; auto|eauto].
      + intros t t' i i' k. rewrite Rte, CDe, !HKe. apply I.
      + intros t t' i' k. rewrite Rte. unfold IncInv.exhM. rewrite (ss_limc SS).
        setoid_rewrite (ss_ix cfg SS). setoid_rewrite MtE. setoid_rewrite HKe. apply I.
      + intros i p. rewrite Rte, CDe. setoid_rewrite MtE. intros H1 H2 H3.
        destruct (HpI _ _ _ H1) as [(E1 & -> & ->)|[N H1']]; [rewrite E1 in H2; done|].
        destruct (ii_u7 _ _ _ I i p H1' H2 H3) as (t' & i' & L & H4 & ?). exists t', i'. split_and!; auto.
        apply HpM; [|done]. intros [-> ->]. assert (p = p0) as -> by (unfold Hp in *; congruence).
        destruct (Root L i) as [_ ?]; [exists p0; auto|done].
      + cbn. rewrite (ss_hp SS), !app_length. cbn. by rewrite (ii_publen _ _ _ I).
      + intros p o H. destruct (pubI _ _ H) as [[_ H']|[-> ?]]; [apply linM; by eapply (ii_home_upd _ _ _ I)|].
        apply lin_snoc. auto.
      + rewrite Rte. intros p o t i H L. destruct (pubI _ _ H) as [[_ H']|[_ ?]]; [|done].
        apply linM. by eapply (ii_home_low _ _ _ I).
      + rewrite Rte. intros p o t i H L H1. rewrite MtE. intros H2 Hl. destruct (pubI _ _ H) as [[Lp H']|[_ ?]]; [|done].
        destruct (HpI _ _ _ H1) as [(-> & -> & ->)|[_ H1']]; [done|].
        destruct (linI _ Hl) as [Hl'| ->]; [|lia]. by eapply (ii_home_fresh _ _ _ I).
      + rewrite Rte. intros p o t i H L. rewrite MtE. destruct (pubI _ _ H) as [[Lp H']|[-> ?]]; [|done].
        destruct (ii_home_lin _ _ _ I _ _ _ _ H' L) as [|[H1 H2]]; [left; auto|].
        right. split; [|done]. apply HpM; [|done]. by intros [-> ->].
      + rewrite Rte. intros t i p L H. rewrite MtE. intros H2. rewrite (ss_lnc SS). cbn.
        destruct (HpI _ _ _ H) as [(-> & -> & ->)|[_ H1]]; [done|].
        destruct (ii_nonhome _ _ _ I t i p L H1 H2) as [(o & Ho)|X]; [left; exists o; by apply pubM|auto].
      + intros t i p o t' i' H H'. destruct (pubI _ _ H') as [[Lp H2]|[-> ?]]; [|done].
        destruct (HpI _ _ _ H) as [(-> & -> & ->)|[_ H1]]; [lia|]. by eapply (ii_ptrloc _ _ _ I).
      + intros k p. cbn. rewrite replay_snoc. cbn. case_decide as Dk.
        * subst k. split.
          -- intros [= <-]. exists t0, i0. rewrite Rte, MtE, CDe. split_and!; auto.
             destruct (decide (t0 = rt c)); [auto|right]. intros j Hj. apply HKe in Hj. rewrite CDe, MtE. apply Root; [lia|done].
          -- intros (t & i & L & H1 & H2 & M & D & R). rewrite Rte in *. rewrite CDe in D.
             assert (HKt : HK c t i k0) by (apply HKe; exists p; auto).
             destruct (live_loc _ _ _ I k0 t i t0 i0) as [-> ->]; auto.
             ++ destruct R as [|R]; [auto|right]. intros j Hj. apply HKe in Hj. specialize (R j Hj). by rewrite CDe, MtE in R.
             ++ destruct (decide (t0 = rt c)); [auto|right]. apply Root. lia.
             ++ unfold Hp in *. congruence.
        * rewrite LV by auto. apply I.
      + apply legal_snoc; [apply I|done].
      + intros m m' e e' p H1 H2 H3 H4. cbn in H1, H2.
        assert (Q : ∀ m e, g_log γ !! m = Some e → ev_new e ≠ Some n).
        { intros m0 e0 E1 E2. assert (lin (g_log γ) n) as X%(lin_lt _ _ _ I) by (exists e0; split; [by eapply elem_of_list_lookup_2|done]).
          unfold n in X. lia. }
        apply lookup_snoc_inv in H1 as [H1|[-> ->]]; apply lookup_snoc_inv in H2 as [H2|[-> ->]]; auto.
        * eapply (ii_news _ _ _ I); eauto.
        * cbn in H4. simplify_eq. by destruct (Q _ _ H1).
        * cbn in H3. simplify_eq. by destruct (Q _ _ H2).
      + intros e p H1 H2. cbn in H1. apply elem_of_app in H1 as [H1|H1%elem_of_list_singleton].
        * destruct (ii_evkey _ _ _ I e p H1 H2) as [X (h & Y)].
          split; [by apply (ss_ky SS)|]. exists h. by apply pubM.
        * subst e. cbn in H2. injection H2 as <-. cbn. split; [done|]. exists None. unfold n. rewrite <- (ii_publen _ _ _ I).
          by rewrite list_lookup_middle.
      + intros t m H. cbn in *. rewrite app_length. pose proof (ii_prle _ _ _ I _ _ H). lia.
      + apply I.
      + intros t k q m H1 H2 H3 H4 H5. cbn. rewrite rp_app by (eapply (ii_prle _ _ _ I); eauto).
        exact (stale_high _ _ γ _ _ _ _ _ SS I Lr t k q m H1 H2 H3 H4 H5).
    - intros o Ho. eapply ss_ext0; eauto; cbn; auto.
      + by eexists.
      + by eexists.
      + intros n' e H1 H2 H3. apply lookup_snoc_ge in H1 as [-> ->]; [|done]. cbn in H3. congruence.
      + intros p h H. destruct (pubI _ _ H) as [[Lp H']|[_ ?]]; [by apply lookup_lt_Some in H'|]. congruence.
    - intros me. eapply ss_extp; eauto.
  Qed.
End steps.
