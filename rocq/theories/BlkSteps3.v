(** Blocking mode: copying a slot to the target table. *)
From Verif Require Export BlkSteps2.

Section steps.
  Context {K V : Type} {Keq : EqDecision K} (cfg : config K).
  Notation core := (core K V). Notation ghost := (@ghost K).
  Notation InvB := (InvB cfg).
  Notation ix := (ix cfg). Notation passes := (passes cfg). Notation exhausted := (exhausted cfg).

  Lemma set_ph_cases γ n i x n' i' : (n' = n ∧ i' = i ∧ g_ph (set_ph γ n i x) n' i' = x) ∨
    (¬ (n' = n ∧ i' = i) ∧ g_ph (set_ph γ n i x) n' i' = @g_ph K γ n' i').
  Proof.
    destruct (decide (n' = n ∧ i' = i)) as [[-> ->]|N]; [left; by rewrite set_ph_eq|right]. by rewrite set_ph_ne.
  Qed.
  (** Changing one held phase to another keeps what the structural clauses need. *)
  Lemma set_ph_struct γ n i x : held (@g_ph K γ n i) → held x → (∀ j i', g_ph γ n i ≠ PInsd j 0 i') →
    (∀ n' i', g_ph (set_ph γ n i x) n' i' = PFree ↔ g_ph γ n' i' = PFree) ∧
    (∀ n' i', g_ph (set_ph γ n i x) n' i' = PCnt ↔ g_ph γ n' i' = PCnt) ∧
    (∀ n' i' j i'', g_ph γ n' i' = PInsd j 0 i'' → g_ph (set_ph γ n i x) n' i' = PInsd j 0 i'').
  Proof.
    intros H Hx N. split_and!; intros n' i'; destruct (set_ph_cases γ n i x n' i') as [(-> & -> & E)|(Ne & E)]; rewrite E; try done.
    - split; intros X; [by rewrite X in Hx|by rewrite X in H].
    - split; intros X; [by rewrite X in Hx|by rewrite X in H].
    - intros j i'' X. by destruct (N j i'').
  Qed.

  Lemma step_copyingB (c : core) γ c' me n tb i0 :
    InvB c γ → n < nt c → src c n tb → i0 < lnc c tb → g_ph γ n i0 = POwn me →
    slotstep c c' tb i0 (mt (k_sl c) tb i0) (set_copying (en (k_sl c) tb i0)) [] →
    let γ' := set_ph γ n i0 (match e_ptr (en (k_sl c) tb i0) with None => PDone me | Some _ => PMark me end) in
    InvB c' γ' ∧ (∀ o, ext0 o c γ c' γ') ∧ (∀ me', me' ≠ me → extp me' c γ c' γ').
  Proof.
    intros I Ln Sr L0 E0 SS. set (x := match e_ptr _ with None => _ | Some _ => _ end). intros γ'.
    assert (Hx : held x) by (unfold x; destruct (e_ptr _); done).
    assert (PV := b_ptr _ _ _ I).
    assert (HPe : ∀ t i p, Hp c' t i p ↔ Hp c t i p) by (intros; by eapply (ss_Hp_same SS)).
    assert (HKe : ∀ t i k, HK c' t i k ↔ HK c t i k) by (intros; by eapply (ssb_HK_same SS PV)).
    assert (MtE : ∀ t i, Mt c' t i ↔ Mt c t i).
    { intros t i. rewrite (ss_Mt SS). case_decide as D; [destruct D; subst; done|done]. }
    assert (CDe : ∀ t i, CD c' t i ↔ CD c t i).
    { intros t i. rewrite (ss_CD SS). case_decide as D; [destruct D; subst; done|done]. }
    assert (CPe : ∀ t i, CP c' t i ↔ CP c t i ∨ (t = tb ∧ i = i0)).
    { intros t i. rewrite (ss_CP SS). case_decide as D; [|naive_solver]. cbn. naive_solver. }
    assert (kye : ∀ p, ky c' p = ky c p) by (intros; unfold ky; rewrite (ss_hp SS), app_nil_r; done).
    assert (Rte := ss_rtc SS). assert (ALe := ss_al SS). assert (SRe := ss_src SS). assert (LNe := ss_lnc SS). assert (NTe := ss_nt _ _ _ _ _ _ _ SS).
    destruct (set_ph_struct γ n i0 x) as (F1 & F2 & F3); [by rewrite E0|done|by rewrite E0|]. fold γ' in F1, F2, F3.
    destruct (ssb_struct cfg SS γ γ' I eq_refl F1 F2 F3) as (S1 & S2 & S3 & S4 & S5 & S6 & S7 & S8 & S9 & S10 & S11 & S12 & S13 & S14).
    pose proof (src_cases _ _ _ I _ _ Sr Ln) as SC.
    split_and!.
    - split; try assumption; try (cbn; apply I).
      + intros t i M. apply MtE in M. rewrite (ss_en SS). case_decide; [|by apply (b_claimed _ _ _ I)]. by destruct (en (k_sl c) tb i0).
      + intros t i p k H1 H2 M. apply HPe in H1. rewrite kye in H2. apply MtE in M. rewrite (ss_mt SS).
        case_decide as D; [destruct D; subst|]; by eapply (b_meta _ _ _ I).
      + intros t i p H. apply HPe in H. rewrite (ss_hp SS), app_nil_r. by eapply PV.
      + intros t i k A H. rewrite ALe in A. apply HKe in H. destruct (b_place _ _ _ I _ _ _ A H) as (q & Q1 & Q2 & Q3).
        exists q. rewrite (ss_limc SS), (ss_ix cfg SS). split_and!; auto. intros q' L. rewrite (ss_ix cfg SS), MtE. auto.
      + intros t i j k. rewrite !HKe, ALe. apply I.
      + intros t i p H. apply HPe in H. rewrite CDe. by eapply (b_nocd _ _ _ I).
      + intros t i. rewrite Rte, ALe, LNe, CPe. intros A B C. left. by apply I.
      + intros t i. rewrite Rte, CPe. intros L [C|[-> ->]]; [by eapply (b_high _ _ _ I)|lia].
      + intros t i. rewrite CPe, NTe. intros [C|[-> ->]]; [by eapply (b_cpnx _ _ _ I)|]. destruct Sr. lia.
      + intros n' i. rewrite Rte, ALe, LNe, NTe. intros A1 A2 A3 A4. pose proof (b_phase _ _ _ I n' i A1 A2 A3 A4) as P.
        unfold phase_okB in *. rewrite Rte. destruct (set_ph_cases γ n i0 x n' i) as [(-> & -> & E)|(Ne & E)]; unfold γ'; rewrite E.
        * destruct SC as [[-> _]|]; [|lia]. unfold x. destruct (e_ptr (en (k_sl c) (rt c) i0)) as [p|] eqn:Ep; [apply CPe; auto|].
          split; [apply CPe; auto|]. intros p H. apply HPe in H. unfold Hp in H. congruence.
        * destruct (g_ph γ n' i); auto; rewrite ?CPe; auto.
          -- destruct P as [P|(P1 & P2 & p & P3 & P4)]; [auto|right]. split_and!; auto. exists p. by rewrite !HPe.
          -- destruct P as [P1 P2]. split; [auto|]. intros p H. apply HPe in H. destruct (P2 p H) as (i' & X & Y). exists i'. by rewrite HPe, MtE.
          -- destruct P as [P1 P2]. split; [auto|]. intros p H. apply HPe in H. destruct (P2 p H) as (i' & X & Y). exists i'. by rewrite HPe, MtE.
      + intros n' i' p. rewrite Rte, ALe, HPe. intros A B C. destruct (b_src _ _ _ I n' i' p A B C) as (i & X & Y & Z).
        exists i. rewrite HPe, CPe. split_and!; auto. unfold γ'. rewrite set_ph_ne; [done|]. intros [-> ->]. rewrite E0 in Z. naive_solver.
      + intros n' tb' i' p. rewrite SRe, ALe, HPe. intros A B C. destruct (b_gsrc _ _ _ I n' tb' i' p A B C) as (i & X & Y).
        exists i. rewrite HPe, CPe. auto.
      + rewrite (ss_hp SS), app_nil_r. apply I.
      + intros p o t i. rewrite Rte. apply I.
      + intros p o t i. rewrite Rte. apply I.
      + intros p o i. rewrite Rte, HPe, MtE. apply I.
      + intros p o i. rewrite Rte, HPe, MtE. apply I.
      + intros i p. rewrite Rte, HPe, MtE. apply I.
      + intros k p. rewrite Rte, kye. setoid_rewrite HPe. setoid_rewrite MtE. apply I.
      + intros e p. rewrite kye. apply I.
      + intros t k q m. rewrite Rte, ALe, (ss_limc SS), (ss_ix cfg SS), MtE. intros A B C D P. apply (b_stale _ _ _ I t k q m); auto.
        intros q' Hq. destruct (P q' Hq) as [X Y]. rewrite (ss_ix cfg SS), MtE in X. rewrite (ss_ix cfg SS), HKe in Y. by split.
      + intros t k m. rewrite Rte, ALe. setoid_rewrite HKe. apply I.
      + intros t i p k m. rewrite Rte, ALe, HPe, kye. apply I.
    - intros o. eapply (ssb_ext0 SS); auto.
      + assert (EN : en (k_sl c') tb i0 = set_copying (en (k_sl c) tb i0)) by (rewrite (ss_en SS); by rewrite decide_True).
        split; rewrite ?EN.
        * intros M. by apply MtE.
        * intros _. by destruct (en (k_sl c) tb i0).
        * done.
        * intros p k H Hk. left. apply HKe. exists p. auto.
        * rewrite CPe. auto.
        * intros _. by rewrite CDe.
        * done.
      + intros k e H L. apply lookup_lt_Some in H. unfold γ' in H. cbn in H. lia.
      + intros p h H. by eapply lookup_lt_Some.
      + intros t i H. by apply F2.
    - intros me' Nm. eapply (ss_extp SS). intros t i H. unfold γ'. rewrite set_ph_ne; [done|]. intros [-> ->]. rewrite E0 in H. cbn in H. congruence.
  Qed.

  Lemma step_inscopyB (c : core) γ c' me n tb i1 p k0 i0 q0 :
    InvB c γ → n < nt c → src c n tb → i1 < lnc c tb → g_ph γ n i1 = PMark me → Hp c tb i1 p → CP c tb i1 → ky c p = Some k0 →
    inb c n i0 → en (k_sl c) n i0 = NULLW →
    (∀ q, q < q0 → Mt c n (ix c n k0 q)) → q0 ≤ lim c n → ix c n k0 q0 = i0 →
    slotstep c c' n i0 (mt (k_sl c) n i0) (EW (Some p) false false false) [] →
    let γ' := set_ph γ n i1 (PInsd me n i0) in
    InvB c' γ' ∧ (∀ o, ext0 o c γ c' γ') ∧ (∀ me', me' ≠ me → extp me' c γ c' γ').
  Proof.
    intros I Ln Sr L1 E1 Hp1 CP1 Hk0 B Hnl PM Q0 E0 SS γ'.
    assert (PV := b_ptr _ _ _ I). pose proof (src_cases _ _ _ I _ _ Sr Ln) as SC.
    assert (Al : al c n → tb = rt c ∧ rt c < n).
    { intros A. destruct SC as [?|[? L]]; [done|]. rewrite (b_done _ _ _ I n tb i1) in E1; done. }
    assert (Nr : n ≠ rt c). { intros ->. destruct (Al (b_alrt _ _ _ I)). lia. }
    assert (Nz : n ≠ 0) by (destruct Sr; lia).
    assert (NM0 : ¬ Mt c n i0). { intros M. by apply (b_claimed _ _ _ I) in M. }
    assert (NH0 : ∀ p, ¬ Hp c n i0 p) by (intros p' H; unfold Hp in H; by rewrite Hnl in H).
    assert (MtE : ∀ t i, Mt c' t i ↔ Mt c t i).
    { intros t i. rewrite (ss_Mt SS). case_decide as D; [destruct D; subst; done|done]. }
    assert (CPe : ∀ t i, CP c' t i ↔ CP c t i).
    { intros t i. rewrite (ss_CP SS). case_decide as D; [|done]. destruct D as [-> ->]. unfold CP. by rewrite Hnl. }
    assert (kye : ∀ p, ky c' p = ky c p) by (intros; unfold ky; rewrite (ss_hp SS), app_nil_r; done).
    assert (HpI : ∀ t i p', Hp c' t i p' ↔ Hp c t i p' ∨ (t = n ∧ i = i0 ∧ p' = p)).
    { intros t i p'. rewrite (ss_Hp SS). case_decide as D; [|naive_solver]. destruct D as [-> ->]. cbn. specialize (NH0 p'). naive_solver. }
    assert (HKI : ∀ t i k, HK c' t i k ↔ HK c t i k ∨ (t = n ∧ i = i0 ∧ k = k0)).
    { intros t i k. unfold HK. setoid_rewrite HpI. setoid_rewrite kye. naive_solver. }
    assert (HpR : ∀ i p', Hp c' (rt c) i p' ↔ Hp c (rt c) i p') by (intros; rewrite HpI; naive_solver).
    assert (Rte := ss_rtc SS). assert (ALe := ss_al SS). assert (SRe := ss_src SS). assert (LNe := ss_lnc SS). assert (NTe := ss_nt _ _ _ _ _ _ _ SS).
    destruct (set_ph_struct γ n i1 (PInsd me n i0)) as (F1 & F2 & F3); [by rewrite E1|done|by rewrite E1|]. fold γ' in F1, F2, F3.
    destruct (ssb_struct cfg SS γ γ' I eq_refl F1 F2 F3) as (S1 & S2 & S3 & S4 & S5 & S6 & S7 & S8 & S9 & S10 & S11 & S12 & S13 & S14).
    assert (NKn : al c n → ∀ i, ¬ HK c n i k0).
    { intros A i (p' & X & Y). destruct (Al A) as [-> L]. destruct (b_src _ _ _ I n i p' L A X) as (j & X1 & X2 & X3).
      assert (j = i1) as ->. { apply (b_u1 _ _ _ I (rt c) j i1 k0); [apply I|exists p'; auto|exists p; auto]. } rewrite E1 in X3. naive_solver. }
    split_and!.
    - split; try assumption; try (cbn; apply I).
      + intros t i M. apply MtE in M. rewrite (ss_en SS). case_decide; [done|by apply (b_claimed _ _ _ I)].
      + intros t i p' k H1 H2 M. rewrite kye in H2. apply MtE in M. rewrite (ss_mt SS).
        apply HpI in H1 as [H1|(-> & -> & ->)]; [|done]. case_decide as D; [destruct D; subst; done|]. by eapply (b_meta _ _ _ I).
      + intros t i p' H. rewrite (ss_hp SS), app_nil_r. apply HpI in H as [H|(-> & -> & ->)]; by eapply PV.
      + intros t i k A H. rewrite ALe in A. rewrite (ss_limc SS), (ss_ix cfg SS) || rewrite (ss_limc SS). apply HKI in H as [H|(-> & -> & ->)].
        * destruct (b_place _ _ _ I _ _ _ A H) as (q & Q1 & Q2 & Q3).
          exists q. rewrite ?(ss_ix cfg SS). split_and!; auto. intros q' L. rewrite (ss_ix cfg SS), MtE. auto.
        * exists q0. rewrite ?(ss_ix cfg SS). split_and!; auto. intros q' L. rewrite (ss_ix cfg SS), MtE. auto.
      + intros t i j k A. rewrite ALe in A. rewrite !HKI. intros [H|(-> & -> & ->)] [H'|(E & -> & E')]; subst; auto.
        * by eapply (b_u1 _ _ _ I).
        * by destruct (NKn A i).
        * by destruct (NKn A j).
      + intros t i p' H. rewrite (ss_CD SS). case_decide as D; [done|]. apply HpI in H as [H|?]; [by eapply (b_nocd _ _ _ I)|naive_solver].
      + intros t i. rewrite Rte, ALe, LNe, CPe. apply I.
      + intros t i. rewrite Rte, CPe. apply I.
      + intros t i. rewrite CPe, NTe. apply I.
      + intros n' i. rewrite Rte, ALe, LNe, NTe. intros A1 A2 A3 A4. pose proof (b_phase _ _ _ I n' i A1 A2 A3 A4) as P.
        unfold phase_okB in *. rewrite Rte. destruct (set_ph_cases γ n i1 (PInsd me n i0) n' i) as [(-> & -> & E)|(Ne & E)]; unfold γ'; rewrite E.
        * right. destruct (Al A3) as [-> _]. rewrite CPe. split_and!; auto. exists p. rewrite !HpI. auto.
        * destruct (g_ph γ n' i); auto; rewrite ?CPe; auto.
          -- destruct P as [P|(P1 & P2 & p' & P3 & P4)]; [auto|right]. split_and!; auto. exists p'. rewrite !HpI. auto.
          -- destruct P as [P1 P2]. split; [auto|]. intros p' H. apply HpR in H. destruct (P2 p' H) as (i' & X & Y). exists i'. rewrite HpI, MtE. auto.
          -- destruct P as [P1 P2]. split; [auto|]. intros p' H. apply HpR in H. destruct (P2 p' H) as (i' & X & Y). exists i'. rewrite HpI, MtE. auto.
      + intros n' i' p'. rewrite Rte, ALe. intros A A2 C. apply HpI in C as [C|(-> & -> & ->)].
        * destruct (b_src _ _ _ I n' i' p' A A2 C) as (i & X & Y & Z).
          exists i. rewrite HpI, CPe. split_and!; auto. unfold γ'. rewrite set_ph_ne; [done|]. intros [-> ->]. rewrite E1 in Z. naive_solver.
        * destruct (Al A2) as [-> _]. exists i1. rewrite HpI, CPe. split_and!; auto. left. exists me. unfold γ'. by rewrite set_ph_eq.
      + intros n' tb' i' p'. rewrite SRe, ALe. intros A A2 C. apply HpI in C as [C|(-> & -> & ->)].
        * destruct (b_gsrc _ _ _ I n' tb' i' p' A A2 C) as (i & X & Y). exists i. rewrite HpI, CPe. auto.
        * rewrite (src_uniq _ _ _ _ A Sr). exists i1. rewrite HpI, CPe. auto.
      + rewrite (ss_hp SS), app_nil_r. apply I.
      + intros p' o t i. rewrite Rte. apply I.
      + intros p' o t i. rewrite Rte. apply I.
      + intros p' o i. rewrite Rte, HpR, MtE. apply I.
      + intros p' o i. rewrite Rte, HpR, MtE. apply I.
      + intros i p'. rewrite Rte, HpR, MtE. apply I.
      + intros k p'. rewrite Rte, kye. setoid_rewrite HpR. setoid_rewrite MtE. apply I.
      + intros e p'. rewrite kye. apply I.
      + intros t k q m. rewrite Rte, ALe, (ss_limc SS), (ss_ix cfg SS), MtE. intros A A2 C D P. apply (b_stale _ _ _ I t k q m); auto.
        intros q' Hq. destruct (P q' Hq) as [X Y]. rewrite (ss_ix cfg SS), MtE in X. rewrite (ss_ix cfg SS), HKI in Y. split; [done|naive_solver].
      + intros t k m. rewrite Rte, ALe. intros A A2 C D. apply (b_stale1 _ _ _ I t k m); auto. intros i X. apply (D i). apply HKI. auto.
      + intros t i p' k m. rewrite Rte, ALe, kye. intros A A2 C D. apply HpI in D as [D|(-> & -> & ->)]; [by apply (b_stale2 _ _ _ I t i)|].
        destruct (Al A2). lia.
    - intros o. eapply (ssb_ext0 SS); auto.
      + assert (CN : ¬ CP c n i0) by (unfold CP; by rewrite Hnl). split; rewrite ?Hnl; try done.
        * intros p' k H. by destruct (NH0 p').
      + intros k e H L. apply lookup_lt_Some in H. unfold γ' in H. cbn in H. lia.
      + intros p' h H. by eapply lookup_lt_Some.
      + intros t i H. by apply F2.
    - intros me' Nm. eapply (ss_extp SS). intros t i H. unfold γ'. rewrite set_ph_ne; [done|]. intros [-> ->]. rewrite E1 in H. cbn in H. congruence.
  Qed.
End steps.
