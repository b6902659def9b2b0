(** Removal of an entry. *)
From Verif Require Export IncSteps2.

Section steps.
  Context {K V : Type} {Keq : EqDecision K} (cfg : config K).
  Notation core := (core K V). Notation ghost := (@ghost K).
  Notation InvI := (InvI cfg).
  Notation ix := (ix cfg). Notation passes := (passes cfg). Notation exhausted := (exhausted cfg).
  Notation pass := (pass cfg). Notation exhM := (exhM cfg). Notation visitedI := (visitedI cfg).

  (** No live entry of a key whose (not yet visible) holder has been reached by a probe. *)
  Lemma absent_invisible (c : core) γ t0 i0 p0 k0 : InvI c γ → Hp c t0 i0 p0 → ky c p0 = Some k0 → ¬ CP c t0 i0 →
    visitedI c t0 k0 → ¬ Mt c t0 i0 → replay (g_log γ) k0 = None.
  Proof.
    intros I Hp0 Hk0 C0 V0 M0. destruct (replay (g_log γ) k0) as [p|] eqn:E; [|done]. exfalso.
    assert (HK0 : HK c t0 i0 k0) by (exists p0; auto).
    assert (Lr : rt c ≤ t0) by (eapply above_root; eauto; eapply Hp_inb; eauto).
    assert (D0 : ¬ CD c t0 i0) by (intros D; apply C0; eapply ii_cdcp; eauto).
    apply (ii_abs _ _ _ I) in E as (t & i & L & H1 & H2 & M & D & R).
    assert (HKt : HK c t i k0) by (exists p; auto).
    assert (t0 ≤ t) by (eapply live_not_before; eauto).
    destruct (decide (t = t0)) as [->|Hne].
    - rewrite (ii_u1 _ _ _ I _ _ _ _ HKt HK0) in M. done.
    - destruct (ii_uniq _ _ _ I t0 t i0 i k0) as [E [?|(j & Hj)]]; auto; [lia|].
      pose proof (ii_phase _ _ _ I _ _ (Hp_inb _ _ _ _ Hp0)) as P. unfold phase_ok in P. rewrite Hj in P. by destruct P.
  Qed.

  Lemma step_rem (c : core) γ c' opid t0 i0 k0 p0 :
    InvI c γ →
    slotstep c c' t0 i0 (mt (k_sl c) t0 i0) TOMBW [] →
    Hp c t0 i0 p0 → ky c p0 = Some k0 → ¬ CP c t0 i0 → visitedI c t0 k0 →
    ∃ γ' pre, g_log γ' = (g_log γ ++ pre) ++ [Ev k0 opid (Some p0) None] ∧ g_pub γ' = g_pub γ ∧
      g_ph γ' = g_ph γ ∧ g_pr γ' = g_pr γ ∧
      (pre = [] ∧ lin (g_log γ) p0 ∨ ∃ o0 h, pre = [Ev k0 o0 None (Some p0)] ∧ g_pub γ !! p0 = Some (o0, h) ∧ ¬ lin (g_log γ) p0) ∧
      replay (g_log γ ++ pre) k0 = Some p0 ∧
      InvI c' γ' ∧ (∀ o, o ≠ opid → ext0 o c γ c' γ') ∧ (∀ me, extp me c γ c' γ').
  Proof.
    intros I SS Hp0 Hk0 C0 V0.
    assert (HK0 : HK c t0 i0 k0) by (exists p0; auto).
    assert (Lr : rt c ≤ t0) by (eapply above_root; eauto; eapply Hp_inb; eauto).
    assert (D0 : ¬ CD c t0 i0) by (intros D; apply C0; eapply ii_cdcp; eauto).
    assert (P0 : ∀ j t i, g_ph γ t0 i0 ≠ PInsd j t i).
    { intros j t i E. pose proof (ii_phase _ _ _ I _ _ (Hp_inb _ _ _ _ Hp0)) as P. unfold phase_ok in P.
      rewrite E in P. by destruct P. }
    assert (Root : rt c < t0 → ∀ i, HK c (rt c) i k0 → CD c (rt c) i ∧ Mt c (rt c) i).
    { intros L i H. apply (pass_holder _ _ _ I _ _ k0); [apply V0; lia|exact H]. }
    assert (PRE : ∃ pre, (pre = [] ∧ lin (g_log γ) p0 ∧ Mt c t0 i0 ∨
        ∃ o0, pre = [Ev k0 o0 None (Some p0)] ∧ g_pub γ !! p0 = Some (o0, Some (t0, i0)) ∧ ¬ lin (g_log γ) p0 ∧
              replay (g_log γ) k0 = None ∧ ¬ Mt c t0 i0) ∧
        replay (g_log γ ++ pre) k0 = Some p0).
    { destruct (Mt_dec c t0 i0) as [M|M].
      - exists []. rewrite app_nil_r. assert (RP : replay (g_log γ) k0 = Some p0) by (eapply present_visible; eauto).
        split; [|done]. left. split; [done|]. split; [|done]. eapply replay_lin; eauto.
      - destruct (present_invisible _ _ _ I t0 i0 p0 k0) as [NL (o0 & Ho)]; auto.
        exists [Ev k0 o0 None (Some p0)]. rewrite replay_snoc. cbn. rewrite decide_True by done. split; [|done].
        right. exists o0. split_and!; auto. eapply absent_invisible; eauto. }
    destruct PRE as (pre & PRE & RPp).
    set (γ' := Gh ((g_log γ ++ pre) ++ [Ev k0 opid (Some p0) None]) (g_pub γ) (g_ph γ) (g_pr γ)).
    exists γ', pre. split; [done|]. split; [done|]. split; [done|]. split; [done|]. split.
    { destruct PRE as [(?&?&?)|(o0 & ? & ? & ? & ? & ?)]; [by left|right]. eauto. }
    split; [done|].
    assert (MtE : ∀ t i, Mt c' t i ↔ Mt c t i).
    { intros t i. rewrite (ss_Mt SS). case_decide as D; [destruct D; subst; done|done]. }
    assert (Rte := ss_rtc SS).
    assert (kye : ∀ p, ky c' p = ky c p) by (intros; unfold ky; rewrite (ss_hp SS), app_nil_r; done).
    assert (HpI : ∀ t i p, Hp c' t i p → ¬ (t = t0 ∧ i = i0) ∧ Hp c t i p).
    { intros t i p H. apply (ss_Hp SS) in H. case_decide; [done|auto]. }
    assert (HpM : ∀ t i p, ¬ (t = t0 ∧ i = i0) → Hp c t i p → Hp c' t i p).
    { intros t i p N H. apply (ss_Hp SS). by rewrite decide_False. }
    assert (HKI : ∀ t i k, HK c' t i k → ¬ (t = t0 ∧ i = i0) ∧ HK c t i k).
    { intros t i k (p & H1 & H2). apply HpI in H1 as [N H1]. split; [done|]. exists p. rewrite kye in H2. auto. }
    assert (HKM : ∀ t i k, ¬ (t = t0 ∧ i = i0) → HK c t i k → HK c' t i k).
    { intros t i k N (p & H1 & H2). exists p. rewrite kye. auto. }
    assert (HKk : ∀ t i k, k ≠ k0 → HK c' t i k ↔ HK c t i k).
    { intros t i k N. split; [intros H; by apply HKI|]. intros H. apply HKM; [|done]. intros [-> ->].
      by pose proof (HK_keys _ _ _ _ _ H HK0). }
    assert (CPe : ∀ t i, CP c' t i ↔ CP c t i).
    { intros t i. rewrite (ss_CP SS). case_decide as D; [|done]. destruct D; subst. split; [done|intros; by destruct C0]. }
    assert (CDe : ∀ t i, ¬ (t = t0 ∧ i = i0) → CD c' t i ↔ CD c t i).
    { intros t i N. rewrite (ss_CD SS). by rewrite decide_False. }
    assert (CDm : ∀ t i, CD c t i → CD c' t i).
    { intros t i D. rewrite (ss_CD SS). by case_decide. }
    assert (linM : ∀ p, lin (g_log γ) p → lin (g_log γ') p) by (intros p H; cbn; rewrite lin_snoc, lin_app; auto).
    assert (lin0 : lin (g_log γ') p0).
    { cbn. rewrite lin_snoc, lin_app. destruct PRE as [(-> & ? & _)|(o0 & -> & _)]; [auto|]. left. right.
      eexists. split; [by apply elem_of_list_singleton|done]. }
    assert (linI : ∀ p, lin (g_log γ') p → lin (g_log γ) p ∨ (p = p0 ∧ ∃ o0, g_pub γ !! p0 = Some (o0, Some (t0, i0)))).
    { intros p H. cbn in H. rewrite lin_snoc, lin_app in H. destruct H as [[H|H]|H]; [auto| |done].
      destruct PRE as [(-> & ? & _)|(o0 & -> & Ho & _)].
      - destruct H as (e & H & _). by apply elem_of_nil in H.
      - destruct H as (e & ->%elem_of_list_singleton & [= <-]). eauto. }
    assert (RPo : ∀ k, k ≠ k0 → replay (g_log γ') k = replay (g_log γ) k).
    { intros k N. cbn. rewrite replay_snoc. cbn. rewrite decide_False by auto.
      destruct PRE as [(-> & _)|(o0 & -> & _)]; [by rewrite app_nil_r|]. rewrite replay_snoc. cbn. by rewrite decide_False by auto. }
    assert (RP0 : replay (g_log γ') k0 = None).
    { cbn. rewrite replay_snoc. cbn. by rewrite decide_True. }
    assert (LEN : length (g_log γ) ≤ length (g_log γ')) by (cbn; rewrite !app_length; lia).
    assert (PFX : g_log γ `prefix_of` g_log γ') by (cbn; rewrite <- app_assoc; by eexists).
    assert (SX : slot_ext c γ c' γ' t0 i0).
    { split.
      - by rewrite MtE.
      - intros _. rewrite (ss_en SS). by rewrite decide_True.
      - intros _ H. unfold Hp in Hp0. congruence.
      - intros p k H1 H2. right. split; [rewrite (ss_en SS); by rewrite decide_True|].
        assert (k = k0) as -> by (unfold Hp in *; congruence).
        exists (length (g_log γ')). split_and!; auto. rewrite rp_all by lia. done.
      - by intros C.
      - by intros C.
      - by intros C. }
    split; [|split].
    - destruct (ss_struct cfg SS γ γ' I eq_refl eq_refl) as (S1 & S2 & S3 & S4 & S5 & S6 & S7 & S8 & S9 & S10 & S11 & S11a & S12).
      split; try assumption.
      + intros t i H. apply MtE in H. rewrite (ss_en SS). case_decide; [done|]. eapply ii_claimed; eauto.
      + intros t i p k H1 H2 H3. rewrite MtE in H3. rewrite (ss_mt SS). apply HpI in H1 as [N H1]. rewrite kye in H2.
        rewrite decide_False by auto. eapply (ii_meta _ _ _ I); eauto.
      + intros t i p H. rewrite (ss_hp SS), app_nil_r. apply HpI in H as [N H]. eapply (ii_ptr _ _ _ I); eauto.
      + intros t i k H. rewrite (ss_limc SS). setoid_rewrite (ss_ix cfg SS). setoid_rewrite MtE.
        apply HKI in H as [_ H]. by eapply ii_place.
      + intros t i j k H1 H2. apply HKI in H1 as [_ H1]. apply HKI in H2 as [_ H2]. eapply ii_u1; eauto.
      + intros t i p H. apply HpI in H as [N H]. rewrite CDe, CPe by done. eapply ii_cdcp; eauto.
      + intros t i L. rewrite (ss_lnc SS) in L. pose proof (ii_phase _ _ _ I t i L) as P. unfold phase_ok in *. cbn. rewrite Rte.
        assert (NE : CP c t i → ¬ (t = t0 ∧ i = i0)) by (intros C [-> ->]; done).
        destruct (g_ph γ t i) eqn:Eph; rewrite ?CPe; auto.
        * destruct P as (P1 & P2 & P3 & P4). split_and!; auto.
          -- intros p H. rewrite CDe by auto. apply HpI in H as [N H]. eauto.
          -- intros k t' i' H L2 H'. apply HKI in H as [_ H]. apply HKI in H' as [_ H']. by eapply P4.
        * destruct P as (P1 & P2 & P3 & P4 & p & P5 & P6). rewrite CDe by auto. split_and!; auto. exists p. split; [apply HpM; auto|].
          apply HpM; [|done]. intros [-> ->]. assert (p = p0) as -> by (unfold Hp in *; congruence). subst t.
          destruct (Root P3 i) as [D _]; [exists p0; auto|done].
        * destruct P as (P1 & P2). split; [done|]. intros p H. rewrite CDe by auto. apply HpI in H as [N H]. eauto.
        * destruct P as (P1 & P2). split; [done|]. intros p H. rewrite CDe by auto. apply HpI in H as [N H]. eauto.
      + intros t t' i i' k. rewrite Rte. intros L1 L2 H1 H2. apply HKI in H1 as [N1 H1]. apply HKI in H2 as [N2 H2].
        rewrite CDe by done. eapply (ii_uniq _ _ _ I); eauto.
      + intros t t' i' k. rewrite Rte. unfold IncInv.exhM. rewrite (ss_limc SS).
        setoid_rewrite (ss_ix cfg SS). setoid_rewrite MtE. intros L1 L2 H. apply HKI in H as [N H].
        destruct (ii_mid _ _ _ I t t' i' k L1 L2 H) as [X|(-> & i & X)]; [auto|].
        right. split; [done|]. exists i. apply HKM; [|done]. intros [E ->].
        pose proof X as X'. rewrite E in X'. pose proof (HK_keys _ _ _ _ _ X' HK0). subst k.
        destruct (ii_uniq _ _ _ I (rt c) t' i0 i' k0) as [_ [D|(j & Hj)]]; auto.
        * rewrite E in D. done.
        * rewrite E in Hj. by eapply P0.
      + intros i p. rewrite Rte. setoid_rewrite MtE. intros H1 H2 H3. apply HpI in H1 as [N H1]. rewrite CDe in H2 by done.
        destruct (ii_u7 _ _ _ I i p H1 H2 H3) as (t' & i' & L & H4 & ?). exists t', i'. split_and!; auto.
        apply HpM; [|done]. intros [-> ->]. assert (p = p0) as -> by (unfold Hp in *; congruence).
        destruct (Root L i) as [_ ?]; [exists p0; auto|done].
      + cbn. rewrite (ss_hp SS), app_nil_r. apply I.
      + intros p o H. apply linM. by eapply (ii_home_upd _ _ _ I).
      + rewrite Rte. intros p o t i H L. apply linM. by eapply (ii_home_low _ _ _ I).
      + rewrite Rte. intros p o t i H L H1. rewrite MtE. intros H2 Hl. apply HpI in H1 as [N H1]. cbn in H.
        destruct (linI _ Hl) as [Hl'|[-> (o0 & Ho)]]; [by eapply (ii_home_fresh _ _ _ I)|].
        apply N. rewrite H in Ho. by simplify_eq.
      + rewrite Rte. intros p o t i H L. rewrite MtE.
        destruct (ii_home_lin _ _ _ I _ _ _ _ H L) as [|[H1 H2]]; [left; auto|].
        destruct (decide (t = t0 ∧ i = i0)) as [[-> ->]|N]; [|auto].
        left. assert (p = p0) as -> by (unfold Hp in *; congruence). done.
      + rewrite Rte. intros t i p L H. rewrite MtE. intros H2. rewrite (ss_lnc SS). apply HpI in H as [N H].
        exact (ii_nonhome _ _ _ I t i p L H H2).
      + intros t i p o t' i' H H'. apply HpI in H as [N H]. by eapply (ii_ptrloc _ _ _ I).
      + intros k p. destruct (decide (k = k0)) as [->|Nk].
        * rewrite RP0. split; [done|]. intros (t & i & L & H1 & H2 & M & D & R). exfalso. rewrite Rte in *.
          apply HpI in H1 as [N H1]. rewrite CDe in D by done. rewrite kye in H2.
          assert (HKt : HK c t i k0) by (exists p; auto).
          destruct (decide (t = rt c)) as [->|Nt].
          -- destruct (decide (t0 = rt c)) as [E|Nt0].
             ++ apply N. split; [done|]. rewrite E in HK0. eapply (ii_u1 _ _ _ I); eauto.
             ++ destruct (Root ltac:(lia) _ HKt). done.
          -- destruct (decide (t0 = rt c)) as [E|Nt0].
             ++ destruct (ii_uniq _ _ _ I t0 t i0 i k0) as [_ [?|(j & Hj)]]; auto; [lia|]. by eapply P0.
             ++ destruct (high_uniq _ _ _ I t t0 i i0 k0) as [? ?]; auto; lia.
        * rewrite RPo by done. rewrite (ii_abs _ _ _ I k p). unfold live. rewrite Rte.
          split; intros (t & i & L & H1 & H2 & M & D & R); exists t, i.
          -- assert (N : ¬ (t = t0 ∧ i = i0)) by (intros [-> ->]; unfold Hp in *; congruence).
             rewrite MtE, CDe, kye by done. split_and!; auto.
             destruct R as [|R]; [auto|right]. intros j Hj. apply HKI in Hj as [Nj Hj]. rewrite MtE, CDe by done. auto.
          -- apply HpI in H1 as [N H1]. rewrite MtE in M. rewrite CDe in D by done. rewrite kye in H2. split_and!; auto.
             destruct R as [|R]; [auto|right]. intros j Hj.
             assert (Nj : ¬ (rt c = t0 ∧ j = i0)).
             { intros [E ->]. rewrite E in Hj. by pose proof (HK_keys _ _ _ _ _ Hj HK0). }
             specialize (R j (HKM _ _ _ Nj Hj)). rewrite MtE, CDe in R by done. done.
      + cbn. apply legal_snoc; [|done]. destruct PRE as [(-> & _)|(o0 & -> & _ & _ & RN & _)].
        * rewrite app_nil_r. apply I.
        * apply legal_snoc; [apply I|done].
      + intros m m' e e' p H1 H2 H3 H4. cbn in H1, H2.
        apply lookup_snoc_inv in H1 as [H1|[-> ->]]; [|done]. apply lookup_snoc_inv in H2 as [H2|[-> ->]]; [|done].
        destruct PRE as [(-> & _)|(o0 & -> & _ & NL & _ & _)].
        * rewrite app_nil_r in *. eapply (ii_news _ _ _ I); eauto.
        * assert (Q : ∀ m e, g_log γ !! m = Some e → ev_new e ≠ Some p0).
          { intros m0 e0 E1 E2. apply NL. exists e0. split; [by eapply elem_of_list_lookup_2|done]. }
          apply lookup_snoc_inv in H1 as [H1|[-> ->]]; apply lookup_snoc_inv in H2 as [H2|[-> ->]]; auto.
          -- eapply (ii_news _ _ _ I); eauto.
          -- cbn in H4. simplify_eq. by destruct (Q _ _ H1).
          -- cbn in H3. simplify_eq. by destruct (Q _ _ H2).
      + intros e p H1 H2. cbn in H1. apply elem_of_app in H1 as [H1|H1%elem_of_list_singleton]; [|subst; done].
        rewrite kye. apply elem_of_app in H1 as [H1|H1]; [exact (ii_evkey _ _ _ I e p H1 H2)|].
        destruct PRE as [(-> & _)|(o0 & -> & Ho & _)]; [by apply elem_of_nil in H1|].
        apply elem_of_list_singleton in H1 as ->. cbn in *. simplify_eq. eauto.
      + intros t m H. pose proof (ii_prle _ _ _ I _ _ H). lia.
      + apply I.
      + intros t k q m H1 H2 H3 H4 H5. rewrite (rp_prefix _ _ _ _ PFX) by (eapply (ii_prle _ _ _ I); eauto).
        exact (stale_high cfg _ _ γ _ _ _ _ _ SS I Lr t k q m H1 H2 H3 H4 H5).
    - intros o Ho. eapply ss_ext0; [exact SS|exact SX|exact I|done|done|done| | |auto].
      + intros n' e H1 H2 H3. cbn in H1. apply lookup_snoc_inv in H1 as [H1|[-> ->]]; [|cbn in H3; congruence].
        destruct PRE as [(-> & _)|(o0 & -> & Hpub & NL & _)].
        * rewrite app_nil_r in H1. apply lookup_lt_Some in H1. lia.
        * apply lookup_snoc_ge in H1 as [-> ->]; [|done]. cbn in *. subst. eauto.
      + intros p h H. by apply lookup_lt_Some in H.
    - intros me. eapply ss_extp; eauto.
  Qed.
End steps.
