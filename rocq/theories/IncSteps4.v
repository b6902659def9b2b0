(** Steps of the copy protocol on slots. *)
From Verif Require Export IncSteps3.

Section steps.
  Context {K V : Type} {Keq : EqDecision K} (cfg : config K).
  Notation core := (core K V). Notation ghost := (@ghost K).
  Notation InvI := (InvI cfg).
  Notation ix := (ix cfg). Notation passes := (passes cfg). Notation exhausted := (exhausted cfg).
  Notation pass := (pass cfg). Notation exhM := (exhM cfg). Notation visitedI := (visitedI cfg).

  Definition set_ph (γ : ghost) (t i : nat) (x : phase) : ghost :=
    Gh (g_log γ) (g_pub γ) (λ t' i', if decide (t' = t ∧ i' = i) then x else g_ph γ t' i') (g_pr γ).
  Lemma set_ph_eq γ t i x : g_ph (set_ph γ t i x) t i = x.
  Proof. cbn. by rewrite decide_True. Qed.
  Lemma set_ph_ne γ t i x t' i' : ¬ (t' = t ∧ i' = i) → g_ph (set_ph γ t i x) t' i' = g_ph γ t' i'.
  Proof. intros. cbn. by rewrite decide_False. Qed.
  (** A phase held by a thread. *)
  Definition held (x : phase) : Prop := ph_owner x ≠ None.

  Lemma held_root (c : core) γ t i : InvI c γ → i < lnc c t → held (g_ph γ t i) → t = rt c ∧ S t < nt c.
  Proof.
    intros I L H. destruct (lt_eq_lt_dec t (rt c)) as [[X|X]|X].
    - by rewrite (ii_low _ _ _ I t i X L) in H.
    - split; [done|]. destruct (decide (S t < nt c)); [done|]. rewrite (ii_last _ _ _ I) in H by lia. done.
    - by rewrite (ii_high _ _ _ I t i X) in H.
  Qed.

  Lemma ss_struct2 (c c' : core) γ t0 i0 m w hx i1 x (SS : slotstep c c' t0 i0 m w hx) : InvI c γ →
      held (g_ph γ (rt c) i1) → i1 < lnc c (rt c) → held x → let γ' := set_ph γ (rt c) i1 x in
      lens c' ∧ match k_rt c' with None => nt c' = 0 | Some r => r < nt c' end ∧
      (∀ t, t < nt c' → fld None (k_nx c') t = if decide (S t < nt c') then Some (S t) else None) ∧
      (∀ t, t < nt c' → ∃ b, 3 ≤ b ∧ lnc c' t = 2 ^ b) ∧
      (∀ t i, t < rt c' → i < lnc c' t → g_ph γ' t i = PCnt) ∧
      (∀ t i, rt c' < t → g_ph γ' t i = PFree) ∧
      (∀ t i, nt c' ≤ S t → g_ph γ' t i = PFree) ∧
      (∀ t i, S t < nt c' → i < lnc c' t → (g_ph γ' t i = PFree ↔ fld 0 (k_cl c') (S t) ≤ i)) ∧
      (∀ t, S t < nt c' → fld 0 (k_cd c') (S t) = cnt (g_ph γ' t) (lnc c' t)) ∧
      length (g_pr γ') = rt c' ∧
      (∀ t, fld PENDING (k_st c') t = PROMOTED → t ≤ rt c') ∧ (∀ t, al c' t) ∧
      (∀ t, fld LFree (k_lk c') t = LPoisoned → ¬ good_cfg cfg).
  Proof.
    intros I H0 L1 Hx γ'.
    destruct (ss_struct cfg SS γ γ I eq_refl eq_refl) as (S1 & S2 & S3 & S4 & S5 & S6 & S7 & S8 & S9 & S10 & S11 & S11a & S12).
    destruct (held_root _ _ _ _ I L1 H0) as [_ Ln]. pose proof (ss_rtc SS) as Rte.
    split_and!; auto.
    - intros t i H1 H2. unfold γ'. rewrite set_ph_ne; [auto|lia].
    - intros t i H1. unfold γ'. rewrite set_ph_ne; [auto|lia].
    - intros t i H1. unfold γ'. rewrite (ss_nt _ _ _ _ _ _ _ SS) in H1. rewrite set_ph_ne; [|lia]. apply S7. by rewrite (ss_nt _ _ _ _ _ _ _ SS).
    - intros t i H1 H2. rewrite <- S8 by done. unfold γ'. destruct (decide (t = rt c ∧ i = i1)) as [[-> ->]|N]; [|by rewrite set_ph_ne].
      rewrite set_ph_eq. split; intros E; [by rewrite E in Hx|by rewrite E in H0].
    - intros t H1. rewrite S9 by done. apply cnt_ext. intros i Hi. unfold γ'.
      destruct (decide (t = rt c ∧ i = i1)) as [[-> ->]|N]; [|by rewrite set_ph_ne].
      rewrite set_ph_eq. split; intros E; [by rewrite E in H0|by rewrite E in Hx].
  Qed.

  (** ** Marking a slot as being copied *)
  Lemma step_copying (c : core) γ c' me i0 :
    InvI c γ → i0 < lnc c (rt c) → g_ph γ (rt c) i0 = POwn me →
    slotstep c c' (rt c) i0 (mt (k_sl c) (rt c) i0) (set_copying (en (k_sl c) (rt c) i0)) [] →
    let γ' := set_ph γ (rt c) i0 (match e_ptr (en (k_sl c) (rt c) i0) with None => PDone me | Some _ => PMark me end) in
    InvI c' γ' ∧ (∀ o, ext0 o c γ c' γ') ∧ (∀ me', me' ≠ me → extp me' c γ c' γ').
  Proof.
    intros I L0 E0 SS. set (t0 := rt c) in *. set (x := match e_ptr _ with None => _ | Some _ => _ end). intros γ'.
    assert (Hx : held x) by (unfold x; destruct (e_ptr _); done).
    assert (xI : ∀ j t i, x ≠ PInsd j t i) by (intros; unfold x; destruct (e_ptr _); done).
    assert (C0 : ¬ CP c t0 i0).
    { pose proof (ii_phase _ _ _ I t0 i0 L0) as P. unfold phase_ok in P. by rewrite E0 in P. }
    assert (HPe : ∀ t i p, Hp c' t i p ↔ Hp c t i p) by (intros; by eapply (ss_Hp_same SS)).
    assert (HKe : ∀ t i k, HK c' t i k ↔ HK c t i k) by (intros; by eapply (ss_HK_same cfg SS)).
    assert (MtE : ∀ t i, Mt c' t i ↔ Mt c t i).
    { intros t i. rewrite (ss_Mt SS). case_decide as D; [destruct D; subst; done|done]. }
    assert (CDe : ∀ t i, CD c' t i ↔ CD c t i).
    { intros t i. rewrite (ss_CD SS). case_decide as D; [|done]. destruct D; subst. done. }
    assert (CP0 : CP c' t0 i0) by (apply (ss_CP SS); by rewrite decide_True).
    assert (CPe : ∀ t i, ¬ (t = t0 ∧ i = i0) → CP c' t i ↔ CP c t i).
    { intros t i N. rewrite (ss_CP SS). by rewrite decide_False. }
    assert (CPm : ∀ t i, CP c t i → CP c' t i).
    { intros t i H. rewrite (ss_CP SS). by case_decide. }
    assert (kye : ∀ p, ky c' p = ky c p) by (intros; unfold ky; rewrite (ss_hp SS), app_nil_r; done).
    assert (Rte := ss_rtc SS).
    assert (INS : ∀ t i j t' i', g_ph γ' t i = PInsd j t' i' ↔ g_ph γ t i = PInsd j t' i').
    { intros. unfold γ'. destruct (decide (t = t0 ∧ i = i0)) as [[-> ->]|N]; [|by rewrite set_ph_ne].
      rewrite set_ph_eq, E0. split; [intros X; by destruct (xI _ _ _ X)|done]. }
    assert (SX : slot_ext c γ c' γ' t0 i0).
    { split.
      - by rewrite MtE.
      - intros _. rewrite (ss_en SS). rewrite decide_True by done. done.
      - intros _ H. rewrite (ss_en SS). by rewrite decide_True.
      - intros p k H1 H2. left. apply HKe. exists p. auto.
      - by intros C.
      - by intros C.
      - by intros C. }
    split; [|split].
    - destruct (ss_struct2 _ _ γ _ _ _ _ _ i0 x SS I ltac:(fold t0; by rewrite E0) L0 Hx) as (S1 & S2 & S3 & S4 & S5 & S6 & S7 & S8 & S9 & S10 & S11 & S11a & S12).
      split; try assumption.
      + intros t i H. apply MtE in H. rewrite (ss_en SS). case_decide; [done|]. eapply (ii_claimed _ _ _ I); eauto.
      + intros t i p k. rewrite HPe, kye, MtE, (ss_mt SS). intros H1 H2 H3. case_decide as D; [destruct D; subst|]; eapply (ii_meta _ _ _ I); eauto.
      + intros t i p. rewrite HPe, (ss_hp SS), app_nil_r. apply I.
      + intros t i k. rewrite HKe, (ss_limc SS). setoid_rewrite (ss_ix cfg SS). setoid_rewrite MtE. apply I.
      + intros t i j k. rewrite !HKe. apply I.
      + intros t i p. rewrite HPe, CDe. intros H1 H2. apply CPm. eapply (ii_cdcp _ _ _ I); eauto.
      + intros t i L. rewrite (ss_lnc SS) in L. pose proof (ii_phase _ _ _ I t i L) as P.
        destruct (decide (t = t0 ∧ i = i0)) as [[-> ->]|N].
        * unfold phase_ok. unfold γ'. rewrite set_ph_eq. unfold x. destruct (e_ptr (en (k_sl c) t0 i0)) as [p|] eqn:Ep.
          -- rewrite Rte. split_and!; auto.
             ++ intros p'. rewrite HPe, CDe. intros H1 H2. apply C0. eapply (ii_cdcp _ _ _ I); eauto.
             ++ intros k t' i'. rewrite !HKe. intros H1 L2 H2.
                destruct (ii_uniq _ _ _ I t0 t' i0 i' k) as [_ [D|(j & Hj)]]; auto.
                ** apply C0. eapply (ii_cdcp _ _ _ I); eauto.
                ** congruence.
          -- split; [done|]. intros p H. apply HPe in H. unfold Hp in H. congruence.
        * unfold phase_ok in *. unfold γ'. rewrite set_ph_ne by done.
          destruct (g_ph γ t i); rewrite ?CPe, ?CDe, ?Rte by done; auto.
          -- destruct P as (P1 & P2 & P3 & P4). split_and!; auto.
             ++ intros p. rewrite HPe, CDe. exact (P3 p).
             ++ intros k t' i'. rewrite !HKe. auto.
          -- setoid_rewrite HPe. auto.
          -- destruct P as [P1 P2]. split; [done|]. intros p. rewrite HPe, CDe. exact (P2 p).
          -- destruct P as [P1 P2]. split; [done|]. intros p. rewrite HPe, CDe. exact (P2 p).
      + intros t t' i i' k. rewrite Rte, !HKe, CDe. setoid_rewrite INS. apply I.
      + intros t t' i' k. rewrite Rte. unfold IncInv.exhM. rewrite (ss_limc SS).
        setoid_rewrite (ss_ix cfg SS). setoid_rewrite MtE. setoid_rewrite HKe. apply I.
      + intros i p. rewrite Rte. setoid_rewrite HPe. setoid_rewrite CDe. setoid_rewrite MtE. apply I.
      + rewrite (ss_hp SS), app_nil_r. apply I.
      + apply I.
      + rewrite Rte. apply I.
      + rewrite Rte. setoid_rewrite HPe. setoid_rewrite MtE. apply I.
      + rewrite Rte. setoid_rewrite HPe. setoid_rewrite MtE. apply I.
      + rewrite Rte. setoid_rewrite HPe. setoid_rewrite MtE. setoid_rewrite INS. setoid_rewrite (ss_lnc SS). apply I.
      + setoid_rewrite HPe. apply I.
      + intros k p. unfold live. rewrite Rte. setoid_rewrite HPe. setoid_rewrite MtE. setoid_rewrite CDe. setoid_rewrite kye.
        setoid_rewrite HKe. apply I.
      + apply I.
      + apply I.
      + setoid_rewrite kye. apply I.
      + apply I.
      + apply I.
      + exact (stale_high cfg _ _ γ _ _ _ _ _ SS I (Nat.le_refl _)).
    - intros o. eapply ss_ext0; [exact SS|exact SX|exact I|done|done|done| | | ].
      + intros n' e H1 H2 H3. apply lookup_lt_Some in H1. cbn in H1. lia.
      + intros p h H. by apply lookup_lt_Some in H.
      + intros t i H. unfold γ'. rewrite set_ph_ne; [done|]. intros [-> ->]. congruence.
    - intros me' Hme. eapply ss_extp; [exact SS|]. intros t i H. unfold γ'. rewrite set_ph_ne; [done|].
      intros [-> ->]. rewrite E0 in H. cbn in H. congruence.
  Qed.

  (** ** Inserting the copy in a later table *)
  Lemma step_inscopy (c : core) γ c' me i1 p k0 t0 i0 q0 b :
    InvI c γ → i1 < lnc c (rt c) → g_ph γ (rt c) i1 = PMark me → Hp c (rt c) i1 p → ky c p = Some k0 →
    rt c < t0 → inb c t0 i0 → en (k_sl c) t0 i0 = NULLW →
    (∀ q, q < q0 → Mt c t0 (ix c t0 k0 q)) → q0 ≤ lim c t0 → ix c t0 k0 q0 = i0 →
    (∀ t, rt c < t → t < t0 → exhM c t k0) →
    slotstep c c' t0 i0 (mt (k_sl c) t0 i0) (EW (Some p) false false b) [] →
    let γ' := set_ph γ (rt c) i1 (PInsd me t0 i0) in
    InvI c' γ' ∧ (∀ o, ext0 o c γ c' γ') ∧ (∀ me', me' ≠ me → extp me' c γ c' γ').
  Proof.
    intros I L1 E1 Hp1 Hk0 Lt B Hnl PM Q0 E0 Mid SS γ'.
    pose proof (ii_phase _ _ _ I _ _ L1) as PH. unfold phase_ok in PH. rewrite E1 in PH.
    destruct PH as (CP1 & _ & D1 & NoL). specialize (D1 _ Hp1).
    assert (HK1 : HK c (rt c) i1 k0) by (exists p; auto).
    assert (NE : ¬ (rt c = t0 ∧ i1 = i0)) by lia.
    assert (NM0 : ¬ Mt c t0 i0). { intros M. by apply (ii_claimed _ _ _ I) in M. }
    assert (NH0 : ∀ p, ¬ Hp c t0 i0 p) by (intros p' H; unfold Hp in H; by rewrite Hnl in H).
    assert (NHK0 : ∀ k, ¬ HK c t0 i0 k) by (intros k (p' & H & _); by eapply NH0).
    assert (MtE : ∀ t i, Mt c' t i ↔ Mt c t i).
    { intros t i. rewrite (ss_Mt SS). case_decide as D; [destruct D; subst; done|done]. }
    assert (Rte := ss_rtc SS).
    assert (kye : ∀ p, ky c' p = ky c p) by (intros; unfold ky; rewrite (ss_hp SS), app_nil_r; done).
    assert (HpI : ∀ t i p', Hp c' t i p' → (t = t0 ∧ i = i0 ∧ p' = p) ∨ Hp c t i p').
    { intros t i p' H. apply (ss_Hp SS) in H. case_decide as D; [left; cbn in H; naive_solver|auto]. }
    assert (HpM : ∀ t i p, Hp c t i p → Hp c' t i p).
    { intros t i p' H. apply (ss_Hp SS). case_decide as D; [|done]. destruct D; subst. by destruct (NH0 p'). }
    assert (Hp0 : Hp c' t0 i0 p) by (apply (ss_Hp SS); by rewrite decide_True).
    assert (HKI : ∀ t i k, HK c' t i k → (t = t0 ∧ i = i0 ∧ k = k0) ∨ HK c t i k).
    { intros t i k (p' & H1 & H2). rewrite kye in H2. destruct (HpI _ _ _ H1) as [(-> & -> & ->)|H]; [left; naive_solver|].
      right. exists p'. auto. }
    assert (HKM : ∀ t i k, HK c t i k → HK c' t i k).
    { intros t i k (p' & H1 & H2). exists p'. rewrite kye. auto. }
    assert (CPe : ∀ t i, CP c' t i ↔ CP c t i).
    { intros t i. rewrite (ss_CP SS). case_decide as D; [|done]. destruct D; subst. unfold CP. by rewrite Hnl. }
    assert (CDe : ∀ t i, CD c' t i ↔ CD c t i).
    { intros t i. rewrite (ss_CD SS). case_decide as D; [|done]. destruct D; subst. unfold CD. by rewrite Hnl. }
    assert (NoT : ∀ t i, rt c < t → ¬ HK c t i k0) by (intros t i L; by apply NoL).
    assert (INM : ∀ t i j t' i', g_ph γ t i = PInsd j t' i' → g_ph γ' t i = PInsd j t' i').
    { intros t i j t' i' H. unfold γ'. rewrite set_ph_ne; [done|]. intros [-> ->]. congruence. }
    assert (SX : slot_ext c γ c' γ' t0 i0).
    { split.
      - by rewrite MtE.
      - by rewrite Hnl.
      - by rewrite Hnl.
      - intros p' k H. by destruct (NH0 p').
      - unfold CP. by rewrite Hnl.
      - unfold CP. by rewrite Hnl.
      - unfold CP. by rewrite Hnl. }
    split; [|split].
    - destruct (ss_struct2 _ _ γ _ _ _ _ _ i1 (PInsd me t0 i0) SS I ltac:(by rewrite E1) L1 ltac:(done)) as (S1 & S2 & S3 & S4 & S5 & S6 & S7 & S8 & S9 & S10 & S11 & S11a & S12).
      split; try assumption.
      + intros t i H. apply MtE in H. rewrite (ss_en SS). case_decide; [done|]. eapply (ii_claimed _ _ _ I); eauto.
      + intros t i p' k H1 H2 H3. rewrite MtE in H3. rewrite kye in H2. destruct (HpI _ _ _ H1) as [(-> & -> & ->)|H]; [done|].
        rewrite (ss_mt SS). case_decide as D; [destruct D; subst; done|]. eapply (ii_meta _ _ _ I); eauto.
      + intros t i p' H. rewrite (ss_hp SS), app_nil_r. destruct (HpI _ _ _ H) as [(-> & -> & ->)|H1]; eapply (ii_ptr _ _ _ I); eauto.
      + intros t i k H. rewrite (ss_limc SS). setoid_rewrite (ss_ix cfg SS). setoid_rewrite MtE.
        destruct (HKI _ _ _ H) as [(-> & -> & ->)|H1]; [|by eapply ii_place]. exists q0. auto.
      + intros t i j k H1 H2. destruct (HKI _ _ _ H1) as [(-> & -> & ->)|H1']; destruct (HKI _ _ _ H2) as [(? & ? & ?)|H2']; subst; auto.
        * by destruct (NoT _ _ Lt H2').
        * by destruct (NoT _ _ Lt H1').
        * eapply (ii_u1 _ _ _ I); eauto.
      + intros t i p' H. rewrite CDe, CPe. destruct (HpI _ _ _ H) as [(-> & -> & ->)|H1]; [|eapply (ii_cdcp _ _ _ I); eauto].
        unfold CD. by rewrite Hnl.
      + intros t i L. rewrite (ss_lnc SS) in L. pose proof (ii_phase _ _ _ I t i L) as P.
        assert (N0 : CP c t i → ¬ (t = t0 ∧ i = i0)) by (intros C [-> ->]; unfold CP in C; by rewrite Hnl in C).
        destruct (decide (t = rt c ∧ i = i1)) as [[-> ->]|N].
        * unfold phase_ok. unfold γ'. rewrite set_ph_eq, CPe, CDe, Rte. split_and!; auto. exists p. auto.
        * unfold phase_ok in *. unfold γ'. rewrite set_ph_ne by done.
          destruct (g_ph γ t i); rewrite ?CPe, ?CDe, ?Rte by done; auto.
          -- destruct P as (P1 & P2 & P3 & P4). split_and!; auto.
             ++ intros p' H. rewrite CDe. destruct (HpI _ _ _ H) as [(-> & -> & ->)|H1]; [destruct N0; auto|eauto].
             ++ intros k t' i' H L2 H'. destruct (HKI _ _ _ H) as [(-> & -> & ->)|H1]; [destruct N0; auto|].
                destruct (HKI _ _ _ H') as [(-> & -> & ->)|H2]; [|by eapply P4].
                apply N. subst t. split; [done|]. eapply (ii_u1 _ _ _ I); eauto.
          -- destruct P as (P1 & P2 & P3 & P4 & p' & P5 & P6). split_and!; auto. exists p'. auto.
          -- destruct P as (P1 & P2). split; [done|]. intros p' H. rewrite CDe.
             destruct (HpI _ _ _ H) as [(-> & -> & ->)|H1]; [destruct N0; auto|eauto].
          -- destruct P as (P1 & P2). split; [done|]. intros p' H. rewrite CDe.
             destruct (HpI _ _ _ H) as [(-> & -> & ->)|H1]; [destruct N0; auto|eauto].
      + intros t t' i i' k. rewrite Rte, CDe. intros La Lb H1 H2.
        destruct (HKI _ _ _ H1) as [(-> & -> & ->)|H1']; destruct (HKI _ _ _ H2) as [(? & ? & ?)|H2']; subst; try lia.
        * by destruct (NoT t' i' ltac:(lia)).
        * assert (t = rt c) as ->. { destruct (decide (t = rt c)); [done|]. destruct (NoT t i ltac:(lia) H1'). }
          split; [done|]. right. exists me. assert (i = i1) as -> by (eapply (ii_u1 _ _ _ I); eauto). unfold γ'. by rewrite set_ph_eq.
        * destruct (ii_uniq _ _ _ I t t' i i' k La Lb H1' H2') as [-> [?|(j & Hj)]]; [auto|]. eauto.
      + intros t t' i' k. rewrite Rte. unfold IncInv.exhM. rewrite (ss_limc SS). setoid_rewrite (ss_ix cfg SS). setoid_rewrite MtE.
        intros La Lb H. destruct (HKI _ _ _ H) as [(-> & -> & ->)|H'].
        * destruct (decide (t = rt c)) as [->|]; [|left; apply Mid; lia]. right. split; [done|]. exists i1. auto.
        * destruct (ii_mid _ _ _ I t t' i' k La Lb H') as [X|(-> & i & X)]; [auto|]. right. split; [done|]. exists i. auto.
      + intros i p'. rewrite Rte, CDe. setoid_rewrite MtE. intros H1 H2 H3.
        destruct (HpI _ _ _ H1) as [(? & _)|H1']; [lia|].
        destruct (ii_u7 _ _ _ I i p' H1' H2 H3) as (t' & i' & ? & ? & ?). exists t', i'. auto.
      + rewrite (ss_hp SS), app_nil_r. apply I.
      + apply I.
      + rewrite Rte. apply I.
      + rewrite Rte. intros p' o t i H L H1. rewrite MtE. intros H2.
        destruct (HpI _ _ _ H1) as [(-> & -> & ->)|H1']; [|eapply (ii_home_fresh _ _ _ I); eauto].
        pose proof (ii_ptrloc _ _ _ I _ _ _ _ _ _ Hp1 H). lia.
      + rewrite Rte. intros p' o t i H L. rewrite MtE.
        destruct (ii_home_lin _ _ _ I _ _ _ _ H L) as [|[H1 H2]]; auto.
      + rewrite Rte. intros t i p' L H. rewrite MtE. intros H2. rewrite (ss_lnc SS).
        destruct (HpI _ _ _ H) as [(-> & -> & ->)|H1].
        * right. split; [done|]. exists i1, me. split; [done|]. unfold γ'. by rewrite set_ph_eq.
        * destruct (ii_nonhome _ _ _ I t i p' L H1 H2) as [(o & Ho)|(La & i2 & j & Lb & X)]; [left; exists o; done|].
          right. split; [done|]. exists i2, j. split; [done|]. auto.
      + intros t i p' o t' i' H H'. destruct (HpI _ _ _ H) as [(-> & -> & ->)|H1]; [|eapply (ii_ptrloc _ _ _ I); eauto].
        pose proof (ii_ptrloc _ _ _ I _ _ _ _ _ _ Hp1 H'). lia.
      + intros k p'. cbn [g_log γ' set_ph]. rewrite (ii_abs _ _ _ I k p'). unfold live. rewrite Rte.
        split; intros (t & i & L & H1 & H2 & M & D & R); exists t, i.
        * rewrite MtE, CDe, kye. split_and!; auto. destruct R as [|R]; [auto|right]. intros j Hj. rewrite MtE, CDe.
          destruct (HKI _ _ _ Hj) as [(? & _)|Hj']; [lia|auto].
        * rewrite MtE in M. rewrite CDe in D. rewrite kye in H2. destruct (HpI _ _ _ H1) as [(-> & -> & ->)|H1']; [done|].
          split_and!; auto. destruct R as [|R]; [auto|right]. intros j Hj. apply HKM in Hj. specialize (R j Hj). by rewrite MtE, CDe in R.
      + apply I.
      + apply I.
      + setoid_rewrite kye. apply I.
      + apply I.
      + apply I.
      + exact (stale_high cfg _ _ γ _ _ _ _ _ SS I ltac:(lia)).
    - intros o. eapply ss_ext0; [exact SS|exact SX|exact I|done|done|done| | | ].
      + intros n' e H1 H2 H3. apply lookup_lt_Some in H1. cbn in H1. lia.
      + intros p' h H. by apply lookup_lt_Some in H.
      + intros t i H. unfold γ'. rewrite set_ph_ne; [done|]. intros [-> ->]. congruence.
    - intros me' Hme. eapply ss_extp; [exact SS|]. intros t i H. unfold γ'. rewrite set_ph_ne; [done|].
      intros [-> ->]. rewrite E1 in H. cbn in H. congruence.
  Qed.

  (** ** Marking a slot as copied *)
  Lemma step_copied (c : core) γ c' me i1 p t' i' w :
    InvI c γ → i1 < lnc c (rt c) → g_ph γ (rt c) i1 = PInsd me t' i' → Hp c (rt c) i1 p → Mt c t' i' →
    e_ptr w = Some p → e_copying w = true → e_copied w = true → e_borrowed w = e_borrowed (en (k_sl c) (rt c) i1) →
    slotstep c c' (rt c) i1 (mt (k_sl c) (rt c) i1) w [] →
    let γ' := set_ph γ (rt c) i1 (PDone me) in
    InvI c' γ' ∧ (∀ o, ext0 o c γ c' γ') ∧ (∀ me', me' ≠ me → extp me' c γ c' γ').
  Proof.
    intros I L1 E1 Hp1 M' W1 W2 W3 W4 SS γ'. set (t0 := rt c) in *.
    destruct (insd_copy _ _ _ I _ _ _ _ _ L1 E1 Hp1) as (Lt & Hp' & D1 & CP1).
    destruct (HK_get _ _ _ _ _ _ I Hp1) as [k0 Hk0].
    assert (HK1 : HK c t0 i1 k0) by (exists p; auto).
    assert (HK' : HK c t' i' k0) by (exists p; auto).
    assert (Ew : e_ptr w = e_ptr (en (k_sl c) t0 i1)) by (unfold Hp in Hp1; congruence).
    assert (HPe : ∀ t i p, Hp c' t i p ↔ Hp c t i p) by (intros; by eapply (ss_Hp_same SS)).
    assert (HKe : ∀ t i k, HK c' t i k ↔ HK c t i k) by (intros; by eapply (ss_HK_same cfg SS)).
    assert (MtE : ∀ t i, Mt c' t i ↔ Mt c t i).
    { intros t i. rewrite (ss_Mt SS). case_decide as D; [destruct D; subst; done|done]. }
    assert (CPe : ∀ t i, CP c' t i ↔ CP c t i).
    { intros t i. rewrite (ss_CP SS). case_decide as D; [|done]. destruct D; subst. done. }
    assert (CD0 : CD c' t0 i1) by (apply (ss_CD SS); by rewrite decide_True).
    assert (CDe : ∀ t i, ¬ (t = t0 ∧ i = i1) → CD c' t i ↔ CD c t i).
    { intros t i N. rewrite (ss_CD SS). by rewrite decide_False. }
    assert (CDm : ∀ t i, CD c t i → CD c' t i).
    { intros t i D. destruct (decide (t = t0 ∧ i = i1)) as [[-> ->]|N]; [done|]. by apply CDe. }
    assert (kye : ∀ p, ky c' p = ky c p) by (intros; unfold ky; rewrite (ss_hp SS), app_nil_r; done).
    assert (Rte : rt c' = t0) by (apply (ss_rtc SS)).
    assert (SX : slot_ext c γ c' γ' t0 i1).
    { split.
      - by rewrite MtE.
      - intros _. eapply (Hp_nn c'). apply HPe. exact Hp1.
      - intros _ H. unfold Hp in Hp1. congruence.
      - intros q k H1 H2. left. apply HKe. exists q. auto.
      - intros _. rewrite CPe. split; [done|]. rewrite (ss_en SS). rewrite decide_True by done. congruence.
      - auto.
      - intros _. rewrite (ss_en SS). by rewrite decide_True. }
    split; [|split].
    - destruct (ss_struct2 _ _ γ _ _ _ _ _ i1 (PDone me) SS I ltac:(fold t0; by rewrite E1) L1 ltac:(done)) as (S1 & S2 & S3 & S4 & S5 & S6 & S7 & S8 & S9 & S10 & S11 & S11a & S12).
      split; try assumption.
      + intros t i H. apply MtE in H. rewrite (ss_en SS). case_decide as D; [|eapply (ii_claimed _ _ _ I); eauto].
        intros ->. done.
      + intros t i q k. rewrite HPe, kye, MtE, (ss_mt SS). intros H1 H2 H3. case_decide as D; [destruct D; subst|]; eapply (ii_meta _ _ _ I); eauto.
      + intros t i q. rewrite HPe, (ss_hp SS), app_nil_r. apply I.
      + intros t i k. rewrite HKe, (ss_limc SS). setoid_rewrite (ss_ix cfg SS). setoid_rewrite MtE. apply I.
      + intros t i j k. rewrite !HKe. apply I.
      + intros t i q. rewrite HPe, CPe. intros H1 H2. destruct (decide (t = t0 ∧ i = i1)) as [[-> ->]|N]; [done|].
        apply CDe in H2; [|done]. eapply (ii_cdcp _ _ _ I); eauto.
      + intros t i L. rewrite (ss_lnc SS) in L. pose proof (ii_phase _ _ _ I t i L) as P.
        destruct (decide (t = t0 ∧ i = i1)) as [[-> ->]|N].
        * unfold phase_ok. unfold γ'. rewrite set_ph_eq, CPe. split; auto.
        * unfold phase_ok in *. unfold γ'. rewrite set_ph_ne by done.
          destruct (g_ph γ t i); rewrite ?CPe, ?Rte; auto.
          -- destruct P as (P1 & P2 & P3 & P4). split_and!; auto.
             ++ intros q. rewrite HPe, CDe by done. exact (P3 q).
             ++ intros k t2 i2. rewrite !HKe. auto.
          -- rewrite CDe by done. setoid_rewrite HPe. auto.
          -- destruct P as (P1 & P2). split; [done|]. intros q. rewrite HPe, CDe by done. exact (P2 q).
          -- destruct P as (P1 & P2). split; [done|]. intros q. rewrite HPe, CDe by done. exact (P2 q).
      + intros t t2 i i2 k. rewrite Rte, !HKe. intros La Lb H1 H2.
        destruct (ii_uniq _ _ _ I t t2 i i2 k La Lb H1 H2) as [-> X]. split; [done|]. change (rt c) with t0 in X |- *.
        destruct (decide (i = i1)) as [->|N]; [auto|]. destruct X as [X|(j & Hj)]; [auto|right].
        exists j. unfold γ'. rewrite set_ph_ne; [done|]. by intros [_ ->].
      + intros t t2 i2 k. rewrite Rte. unfold IncInv.exhM. rewrite (ss_limc SS).
        setoid_rewrite (ss_ix cfg SS). setoid_rewrite MtE. setoid_rewrite HKe. apply I.
      + intros i q. rewrite Rte. setoid_rewrite HPe. setoid_rewrite MtE. intros H1 H2 H3.
        destruct (decide (i = i1)) as [->|N].
        * assert (q = p) as -> by (unfold Hp in *; congruence). exists t', i'. auto.
        * rewrite CDe in H2 by (by intros [_ ->]). exact (ii_u7 _ _ _ I i q H1 H2 H3).
      + rewrite (ss_hp SS), app_nil_r. apply I.
      + apply I.
      + rewrite Rte. apply I.
      + rewrite Rte. setoid_rewrite HPe. setoid_rewrite MtE. apply I.
      + rewrite Rte. setoid_rewrite HPe. setoid_rewrite MtE. apply I.
      + rewrite Rte. intros t i q. rewrite HPe, MtE, (ss_lnc SS). intros La H1 H2.
        destruct (ii_nonhome _ _ _ I t i q La H1 H2) as [X|(Lb & i2 & j & Lc & X)]; [auto|].
        right. split; [done|]. exists i2, j. split; [done|]. unfold γ'. rewrite set_ph_ne; [done|].
        intros [_ ->]. fold t0 in X. assert (t = t' ∧ i = i') as [-> ->] by (split; congruence). done.
      + setoid_rewrite HPe. apply I.
      + intros k q. cbn [g_log γ' set_ph]. rewrite (ii_abs _ _ _ I k q). unfold live. fold t0. rewrite Rte. setoid_rewrite HPe. setoid_rewrite MtE.
        setoid_rewrite HKe. setoid_rewrite kye.
        destruct (decide (k = k0)) as [->|Nk].
        * split; intros (t & i & L & H1 & H2 & M & D & R).
          -- destruct R as [->|R]; [|by destruct (R i1 HK1)].
             assert (i = i1) as -> by (eapply (ii_u1 _ _ _ I t0 i i1 k0); [exists q; auto|done]).
             assert (q = p) as -> by (unfold Hp in *; congruence).
             exists t', i'. rewrite CDe by (intros [-> _]; lia).
             split_and!; auto; [lia|by eapply (CD_high _ _ _ I); eauto|].
             right. intros j Hj. rewrite (ii_u1 _ _ _ I _ _ _ _ Hj HK1). auto.
          -- assert (N : ¬ (t = t0 ∧ i = i1)) by (intros [-> ->]; done). rewrite CDe in D by done.
             destruct (decide (t = t0)) as [->|Nt].
             { destruct N. split; [done|]. eapply (ii_u1 _ _ _ I t0 i i1 k0); [exists q; auto|done]. }
             destruct R as [|R]; [lia|]. destruct (R i1 HK1) as [_ M1].
             destruct (high_uniq _ _ _ I t t' i i' k0) as [-> ->]; [unfold t0 in *; lia|done|exists q; auto|done|].
             assert (q = p) as -> by (unfold Hp in *; congruence).
             exists t0, i1. split_and!; auto.
        * split; intros (t & i & L & H1 & H2 & M & D & R); exists t, i.
          -- assert (N : ¬ (t = t0 ∧ i = i1)) by (intros [-> ->]; unfold Hp in *; congruence).
             rewrite CDe by done. split_and!; auto. destruct R as [|R]; [auto|right]. intros j Hj. destruct (R j Hj). auto.
          -- split_and!; auto. destruct R as [|R]; [auto|right]. intros j Hj. destruct (R j Hj) as [R1 R2]. split; [|done].
             apply CDe in R1; [done|]. intros [_ ->]. by pose proof (HK_keys _ _ _ _ _ Hj HK1).
      + apply I.
      + apply I.
      + setoid_rewrite kye. apply I.
      + apply I.
      + apply I.
      + exact (stale_high cfg _ _ γ _ _ _ _ _ SS I (Nat.le_refl _)).
    - intros o. eapply ss_ext0; [exact SS|exact SX|exact I|done|done|done| | | ].
      + intros n' e H1 H2 H3. apply lookup_lt_Some in H1. cbn in H1. lia.
      + intros p' h H. by apply lookup_lt_Some in H.
      + intros t i H. unfold γ'. rewrite set_ph_ne; [done|]. intros [-> ->]. fold t0 in E1. congruence.
    - intros me' Hme. eapply ss_extp; [exact SS|]. intros t i H. unfold γ'. rewrite set_ph_ne; [done|].
      intros [-> ->]. fold t0 in E1. rewrite E1 in H. cbn in H. congruence.
  Qed.
End steps.
