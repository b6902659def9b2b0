(** Program logic of a running operation: rules for tables, locks, counters and reclamation. *)
From Verif Require Export IncRules3.

Section rules4.
  Context {K V : Type} {Keq : EqDecision K} (cfg : config K) (nthr nsh me opid : nat) (o : op K V).
  Notation core := (core K V). Notation ghost := (@ghost K). Notation event := (event K).
  Notation world := (@world K V). Notation rghost := (@rghost K V). Notation prog := (prog K V).
  Notation Inv := (Inv cfg). Notation WI := (WI cfg nthr nsh).
  Notation fr := (fr cfg nthr nsh me opid). Notation fx := (fx cfg nthr nsh me opid). Notation mv := (mv cfg nthr nsh me).
  Notation wext := (wext cfg nthr nsh me opid). Notation wgrd := (wgrd me opid).
  Notation ix := (ix cfg). Notation passes := (passes cfg). Notation visited := (visited cfg).
  Notation TI := (TI cfg nthr nsh me opid o). Notation WP := (WP cfg nthr nsh me opid o).
  Notation hok := (hok me). Notation psd := (psd cfg). Notation pro := (pro me). Notation visw := (visw cfg).
  Notation hk2 := (hk2 cfg). Notation own := (own me). Notation clean := (clean opid). Notation npub := (npub opid).
  Notation didw := (didw opid). Notation fq := (fq cfg nthr nsh me opid). Notation lkw := (lkw me). Notation lk1 := (lk1 me).
  Implicit Types w : world.

  (** A step that keeps all slots, the root and the heap. *)
  Lemma lift_side w1 σ' γ' : TI w1 → side_of σ' = wd w1 →
    k_sl (core_of σ') = k_sl (wc w1) → k_rt (core_of σ') = k_rt (wc w1) → k_hp (core_of σ') = k_hp (wc w1) →
    Inv (core_of σ') γ' → (∀ o, ext0 o (wc w1) (wg w1) (core_of σ') γ') →
    (∀ me', me' ≠ me → extp me' (wc w1) (wg w1) (core_of σ') γ') →
    g_pub γ' = g_pub (wg w1) → g_log γ' = g_log (wg w1) →
    WI (σ', (γ', wr w1)) ∧ wgrd w1 (σ', (γ', wr w1)) ∧ fr w1 (σ', (γ', wr w1)).
  Proof.
    intros T Ed E1 E2 E3 I' X0 Xp Gp Gl.
    destruct (lift_quiet cfg nthr nsh me w1 σ' γ' [] (ti_wi _ _ _ _ _ _ _ T) Ed I' X0 Xp) as [W2 F]; auto.
    - unfold rt. by rewrite E2.
    - unfold nt. by rewrite E1.
    - intros t i p. unfold Hp. by rewrite E1.
    - intros t i p _. by rewrite E1.
    - by rewrite app_nil_r.
    - apply pubevs_nil.
  Qed.

  Section inc.
  Context (ch : nat) (HM : c_mode cfg = Incremental ch).
  Lemma w_add_claim {A} tb nx n (k : nat → prog A) Q w : hok w tb → hok w nx → th nx = S (th tb) → rtw w (th tb) →
    (∀ w2 s, fr w w2 → TI w2 → (∀ i, s ≤ i → i < s + n → i < th_len tb → phw w2 (th tb) i (POwn me)) → WP (k s) Q w2) →
    WP (Act (a_add_claim nx n) k) Q w.
  Proof.
    intros H Hn En R S. apply WP_act. intros w1 X T b. pose proof (wext_mv _ _ _ _ _ _ _ X) as M.
    apply (st_hok _ _ _ _ _ _ _ M) in H. apply (st_hok _ _ _ _ _ _ _ M) in Hn. apply (st_rtw _ _ _ _ _ _ _ M) in R.
    destruct (hok_len _ _ _ _ _ _ _ _ T H) as (El & _ & Lt). destruct (hok_len _ _ _ _ _ _ _ _ T Hn) as (_ & _ & Ltn).
    split; [apply nub_table; [by eapply hok_tok|done]|].
    intros s σ' Ef. destruct (eff_add_claim _ _ _ _ _ _ _ Ef) as (_ & Es & Ec). pose proof (sn_add_claim _ _ _ _ _ _ _ Ef) as Ed.
    change (core_of w1.1) with (wc w1) in *. rewrite En in Es, Ec, Ltn. 
    destruct (step_claim cfg (wc w1) (wg w1) me (th tb) n (Inv_inc _ _ _ _ HM (TI_inv _ _ _ _ _ _ _ T)) R Ltn) as (f & I' & X0 & Xp & Fo).
    apply (inc_Inv _ _ _ _ HM) in I'.
    rewrite <- Es in *. rewrite <- Ec in *.
    destruct (lift_side w1 σ' (phases (wg w1) f) T Ed) as (W2 & G & Fr); auto; try (by rewrite Ec).
    eexists. split; [exact W2|]. split; [exact G|]. split; [by eapply fr_mv|]. intros T2.
    apply S; [|done|].
    - eapply fr_trans; [by eapply wext_fr|exact Fr].
    - intros i L1 L2 L3. unfold phw, wg. cbn [fst snd]. apply Fo; auto. by rewrite El.
  Qed.

  Lemma w_add_copied {A} tb nx a n (k : nat → prog A) Q w : hok w tb → hok w nx → th nx = S (th tb) → a + n ≤ th_len tb →
    (∀ i, a ≤ i → i < a + n → phw w (th tb) i (PDone me)) →
    (∀ w2 s, fr w w2 → TI w2 → (s + n = th_len tb → acw w2 tb) → WP (k s) Q w2) →
    WP (Act (a_add_copied nx n) k) Q w.
  Proof.
    intros H Hn En L P S. apply WP_act. intros w1 X T b. pose proof (wext_mv _ _ _ _ _ _ _ X) as M.
    apply (st_hok _ _ _ _ _ _ _ M) in H. apply (st_hok _ _ _ _ _ _ _ M) in Hn.
    destruct (hok_len _ _ _ _ _ _ _ _ T H) as (El & _ & Lt). destruct (hok_len _ _ _ _ _ _ _ _ T Hn) as (_ & _ & Ltn).
    assert (P1 : ∀ i, a ≤ i → i < a + n → phw w1 (th tb) i (PDone me)).
    { intros i L1 L2. eapply (fq_phw _ _ _ _ _ _ _ _ _ _ _ (wext_fq _ _ _ _ _ no2 _ _ X)); [by intros []|done|auto]. }
    split; [apply nub_table; [by eapply hok_tok|done]|].
    intros s σ' Ef. destruct (eff_add_copied _ _ _ _ _ _ _ Ef) as (_ & Es & Ec). pose proof (sn_add_copied _ _ _ _ _ _ _ Ef) as Ed.
    change (core_of w1.1) with (wc w1) in *. rewrite En in Es, Ec, Ltn. 
    destruct (step_count cfg (wc w1) (wg w1) me (th tb) a n (Inv_inc _ _ _ _ HM (TI_inv _ _ _ _ _ _ _ T)) Ltn ltac:(by rewrite El) P1) as (f & I' & X0 & Xp & Fo).
    apply (inc_Inv _ _ _ _ HM) in I'.
    rewrite <- Es in *. rewrite <- Ec in *.
    destruct (lift_side w1 σ' (phases (wg w1) f) T Ed) as (W2 & G & Fr); auto; try (by rewrite Ec).
    eexists. split; [exact W2|]. split; [exact G|]. split; [by eapply fr_mv|]. intros T2.
    apply S; [|done|].
    - eapply fr_trans; [by eapply wext_fr|exact Fr].
    - intros E i Li. unfold wg. cbn [fst snd]. eapply cnt_full; [|by rewrite <- El in Li]. cbn. by rewrite <- Fo, E.
  Qed.

  (** All slots of [tb] are counted as copied. *)
  Lemma copied_acw w tb nx : TI w → hok w tb → hok w nx → th nx = S (th tb) → fld 0 (k_cd (wc w)) (th nx) = th_len tb → acw w tb.
  Proof.
    intros T H Hn En E. destruct (hok_len _ _ _ _ _ _ _ _ T H) as (El & _ & Lt). destruct (hok_len _ _ _ _ _ _ _ _ T Hn) as (_ & _ & Ltn).
    rewrite En in Ltn, E. pose proof (ii_copied _ _ _ (Inv_inc _ _ _ _ HM (TI_inv _ _ _ _ _ _ _ T)) _ Ltn) as C. rewrite E in C. intros i Li.
    eapply cnt_full; [|by rewrite <- El in Li]. by rewrite <- C, El.
  Qed.

  Lemma w_cas_root {A} tb nx (k : bool → prog A) Q w z : hok w tb → hok w nx → th nx = S (th tb) → acw w tb → own w None z →
    (∀ w2, fx w w2 → TI w2 → own w2 (Some (RTable (th tb))) z → raw w2 (th nx) → WP (k true) Q w2) →
    (∀ w1, wext w w1 → TI w1 → k_rt (wc w1) ≠ Some (th tb) → WP (k false) Q w1) →
    WP (Act (a_cas_root tb nx) k) Q w.
  Proof.
    intros H Hn En Ac Ow S1 S2. apply WP_act. intros w1 X T b. pose proof (wext_mv _ _ _ _ _ _ _ X) as M.
    apply (st_hok _ _ _ _ _ _ _ M) in H. apply (st_hok _ _ _ _ _ _ _ M) in Hn. apply (st_acw _ _ _ _ _ _ _ M) in Ac.
    pose proof (wext_fr _ _ _ _ _ _ _ X) as Fr0. apply (fr_own _ _ _ _ _ _ _ _ _ Fr0) in Ow. 
    destruct (hok_len _ _ _ _ _ _ _ _ T H) as (El & _ & Lt). destruct (hok_len _ _ _ _ _ _ _ _ T Hn) as (_ & _ & Ltn).
    split; [unfold a_cas_root; by case_decide|].
    intros x σ' Ef. pose proof (eff_cas_root _ _ _ _ _ _ _ Ef) as Ec. pose proof (sn_cas_root _ _ _ _ _ _ _ Ef) as Ed.
    change (core_of w1.1) with (wc w1) in *. destruct x.
    - destruct Ec as [Er Ec]. rewrite En in Ec, Ltn.
      destruct (lift_promote cfg nthr nsh me w1 σ' ch (th tb) HM (ti_wi _ _ _ _ _ _ _ T) Ec Ed Er Ltn) as (γ' & W2 & Eph & F).
      { intros i Li. apply Ac. by rewrite <- El. } { apply Ow. }
      destruct (F opid) as [G Fx]. eexists. split; [exact W2|]. split; [exact G|]. split; [by eapply fx_mv|]. intros T2.
      apply S1; [|done| |].
      + eapply fx_trans; [by apply Fr0|exact Fx].
      + destruct Ow as [O1 O2]. unfold own, wr. cbn [fst snd rs_own r_own r_pend]. rewrite upd1_eq. by unfold wr in *.
      + split; [change (wc (σ', ?g)) with (core_of σ'); rewrite Ec, En; done|]. eapply al_inc; [exact HM|by eapply TI_inv].
    - destruct Ec as [Ec Er]. assert (Eq : σ' = w1.1).
      { revert Ef. unfold a_cas_root. case_decide; [done|]. by intros [= <-]. }
      apply (act_same _ _ _ _ _ _ w1 (λ w2, WP (k false) Q w2)); [done|done|]. apply S2; auto.
  Qed.

  End inc.

  Lemma w_status {A} nx (k : unit → prog A) Q w : hok w nx → raw w (th nx) →
    (∀ w2, fq no2 w w2 → TI w2 → WP (k tt) Q w2) → WP (Act (a_store_status nx PROMOTED) k) Q w.
  Proof.
    intros H R S. apply WP_act. intros w1 X T b. pose proof (wext_mv _ _ _ _ _ _ _ X) as M.
    apply (st_hok _ _ _ _ _ _ _ M) in H. apply (st_raw _ _ _ _ _ _ _ M) in R.
    destruct (hok_len _ _ _ _ _ _ _ _ T H) as (El & _ & Lt).
    split; [apply nub_table; [by eapply hok_tok|done]|].
    intros [] σ' Ef. destruct (eff_store_status _ _ _ _ _ _ _ Ef) as (_ & Ec). pose proof (sn_store_status _ _ _ _ _ _ _ Ef) as Ed.
    change (core_of w1.1) with (wc w1) in *.
    destruct (step_promoted cfg (wc w1) (wg w1) (th nx) (TI_inv _ _ _ _ _ _ _ T) Lt (proj1 R) (proj2 R)) as (I' & X0 & Xp).
    rewrite <- Ec in *.
    destruct (lift_side w1 σ' (wg w1) T Ed) as (W2 & G & Fr); auto; try (by rewrite Ec).
    eexists. split; [exact W2|]. split; [exact G|]. split; [by eapply fr_mv|]. intros T2.
    apply S; [|done]. eapply fq_trans; [by eapply wext_fq|]. split; [exact Fr|]. by intros t i _ _.
  Qed.

  Lemma w_retire {A} ob (k : unit → prog A) Q w z : own w (Some ob) z → (∀ p, ob = REntry p → rets w p 0 false) →
    (∀ w2, fx w w2 → TI w2 → own w2 None z → WP (k tt) Q w2) → WP (Act (a_retire ob) k) Q w.
  Proof.
    intros Ow Rt S. apply WP_act. intros w1 X T b. pose proof (wext_mv _ _ _ _ _ _ _ X) as M.
    pose proof (wext_fr _ _ _ _ _ _ _ X) as Fr0. apply (fr_own _ _ _ _ _ _ _ _ _ Fr0) in Ow.
    assert (Rt1 : ∀ p t i, ob = REntry p → rt (wc w1) ≤ t → ¬ Hp (wc w1) t i p).
    { intros p t i E L Hh. destruct (st_rets _ _ _ _ _ _ _ _ _ M (Rt p E)) as (t0 & A1 & _ & A2). unfold rtw in A1.
      pose proof (TI_inv _ _ _ _ _ _ _ T) as I1. destruct (al_find _ _ _ I1 _ _ _ L Hh) as [Al|(i' & Hh' & _)].
      - eapply A2; [|done|done]. lia.
      - eapply (A2 (rt (wc w1))); [done|by apply (al_rt _ _ _ I1)|done]. }
    pose proof (wi_rr _ _ _ _ (ti_wi _ _ _ _ _ _ _ T)) as RR0. destruct Ow as [O1 O2].
    split.
    { apply nub_retire. change (side_of w1.1) with (wd w1). destruct ob as [p|t].
      - apply (rr_eown _ _ _ _ RR0 _ _ O1).
      - apply (rr_town _ _ _ _ RR0 _ _ O1). }
    intros [] σ' Ef. pose proof (inert_retire _ _ _ _ _ _ Ef) as Ec. pose proof (sd_retire _ _ _ _ _ _ Ef) as Ed.
    destruct (lift_retire cfg nthr nsh me w1 σ' ob (ti_wi _ _ _ _ _ _ _ T) Ec Ed O1 Rt1) as [W2 F].
    destruct (F opid) as [G Fx]. eexists. split; [exact W2|]. split; [exact G|]. split; [by eapply fx_mv|]. intros T2.
    apply S; [|done|].
    + eapply fx_trans; [by apply Fr0|exact Fx].
    + unfold own, wr. cbn [fst snd rs_own r_own r_pend]. rewrite upd1_eq. by unfold wr in *.
  Qed.

  Lemma w_defer {A} tb p (k : unit → prog A) Q w z : own w (Some (REntry p)) z → hok w tb → nohp w p (S (th tb)) →
    (∀ w2, fx w w2 → TI w2 → own w2 None z → WP (k tt) Q w2) → WP (Act (a_defer tb p) k) Q w.
  Proof.
    intros Ow H Nh S. apply WP_act. intros w1 X T b. pose proof (wext_mv _ _ _ _ _ _ _ X) as M.
    pose proof (wext_fr _ _ _ _ _ _ _ X) as Fr0. apply (fr_own _ _ _ _ _ _ _ _ _ Fr0) in Ow.
    apply (st_hok _ _ _ _ _ _ _ M) in H. apply (st_nohp _ _ _ _ _ _ _ _ M) in Nh. destruct Ow as [O1 O2].
    destruct (hok_len _ _ _ _ _ _ _ _ T H) as (El & _ & Lt).
    split; [apply nub_table; [by eapply hok_tok|done]|].
    intros [] σ' Ef. pose proof (inert_defer _ _ _ _ _ _ _ Ef) as Ec. pose proof (sd_defer _ _ _ _ _ _ _ Ef) as Ed.
    destruct (lift_defer cfg nthr nsh me w1 σ' (th tb) p (ti_wi _ _ _ _ _ _ _ T) Ec Ed O1 Lt) as [W2 F].
    { by eapply hok_tok. } { intros t' i L. apply Nh. lia. }
    destruct (F opid) as [G Fx]. eexists. split; [exact W2|]. split; [exact G|]. split; [by eapply fx_mv|]. intros T2.
    apply S; [|done|].
    + eapply fx_trans; [by apply Fr0|exact Fx].
    + unfold own, wr. cbn [fst snd rs_own r_own r_pend]. rewrite upd1_eq. by unfold wr in *.
  Qed.

  Lemma w_count {A} d (k : unit → prog A) Q w x z : own w x z →
    (∀ w2, fx w w2 → TI w2 → own w2 x (z - d)%Z → WP (k tt) Q w2) → WP (Act (a_count d) k) Q w.
  Proof.
    intros Ow S. apply WP_act. intros w1 X T b.
    pose proof (wext_fr _ _ _ _ _ _ _ X) as Fr0. apply (fr_own _ _ _ _ _ _ _ _ _ Fr0) in Ow. destruct Ow as [O1 O2].
    split; [done|]. intros [] σ' Ef. pose proof (inert_count _ _ _ _ _ _ Ef) as Ec. pose proof (sd_count _ _ _ _ _ _ Ef) as Ed.
    destruct (lift_count cfg nthr nsh me w1 σ' d (ti_wi _ _ _ _ _ _ _ T) (ti_thr _ _ _ _ _ _ _ T) Ec Ed) as [W2 F].
    destruct (F opid) as [G Fx]. eexists. split; [exact W2|]. split; [exact G|]. split; [by eapply fx_mv|]. intros T2.
    apply S; [|done|].
    + eapply fx_trans; [by apply Fr0|exact Fx].
    + unfold own, wr. cbn [fst snd rs_pend r_own r_pend]. rewrite upd1_eq. unfold wr in *. split; congruence.
  Qed.

  (** ** Allocation lock *)
  Lemma lock_step w1 σ' t x : TI w1 → t < nt (wc w1) → (x = LPoisoned → ¬ good_cfg cfg) →
    (∀ me', me' ≠ me → fld LFree (k_lk (wc w1)) t ≠ LHeld me') →
    side_of σ' = wd w1 → core_of σ' = c_lk (<[t := x]>) (wc w1) →
    WI (σ', (wg w1, wr w1)) ∧ wgrd w1 (σ', (wg w1, wr w1)) ∧ fq no2 w1 (σ', (wg w1, wr w1)) ∧
    (fld LFree (k_lk (core_of σ')) t = x).
  Proof.
    intros T Lt P O Ed Ec. destruct (step_lock cfg (wc w1) (wg w1) me t x (TI_inv _ _ _ _ _ _ _ T) Lt P O) as (I' & X0 & Xp).
    rewrite <- Ec in *. destruct (lift_side w1 σ' (wg w1) T Ed) as (W2 & G & Fr); auto; try (by rewrite Ec).
    split; [done|]. split; [done|]. split; [split; [done|]; by intros ? ? _ _|]. rewrite Ec. cbn [k_lk c_lk].
    destruct (i_lens _ _ _ (TI_inv _ _ _ _ _ _ _ T)) as (Z1 & Z2 & Z3 & _). rewrite fld_insert by (by rewrite Z3). by rewrite decide_True.
  Qed.
  Ltac lk_done := let T2 := fresh "T2" in
    eexists; split; [eassumption|]; split; [eassumption|]; split; [eapply fr_mv; match goal with H : IncRules2.fq _ _ _ _ _ _ _ _ |- _ => apply H end|]; intros T2.

  Lemma w_try_lock {A} tb (k : bool → prog A) Q w : hok w tb →
    (∀ w2, fq no2 w w2 → TI w2 → lk1 w2 (th tb) → WP (k true) Q w2) →
    (∀ w1, wext w w1 → TI w1 → WP (k false) Q w1) → WP (Act (a_try_lock tb) k) Q w.
  Proof.
    intros H S1 S2. apply WP_act. intros w1 X T b. pose proof (wext_mv _ _ _ _ _ _ _ X) as M.
    apply (st_hok _ _ _ _ _ _ _ M) in H. destruct (hok_len _ _ _ _ _ _ _ _ T H) as (El & _ & Lt).
    split; [apply nub_table; [by eapply hok_tok|]; intros t; by destruct (t_lock t)|].
    intros x σ' Ef. destruct (eff_try_lock _ _ _ _ _ _ Ef) as (_ & Ec). pose proof (sn_try_lock _ _ _ _ _ _ Ef) as Ed.
    change (core_of w1.1) with (wc w1) in *. destruct x.
    - destruct Ec as [E0 Ec]. destruct (lock_step w1 σ' (th tb) (LHeld me) T Lt) as (W2 & G & F & E); try done; [intros ? _; by rewrite E0|].
      lk_done. apply S1; [|done|exact E]. eapply fq_trans; [by eapply wext_fq|done].
    - assert (σ' = w1.1) as ->. { apply with_table_inv in Ef as (t & _ & _ & Ef & _). destruct (t_lock t); by inversion Ef. }
      apply (act_same _ _ _ _ _ _ w1 (λ w2, WP (k false) Q w2)); [done|done|]. apply S2; auto.
  Qed.
  Lemma w_lock {A} tb (k : bool → prog A) Q w : hok w tb →
    (∀ w2, fq no2 w w2 → TI w2 → lk1 w2 (th tb) → WP (k true) Q w2) →
    (∀ w1, wext w w1 → TI w1 → ¬ good_cfg cfg → WP (k false) Q w1) → WP (Act (a_lock tb) k) Q w.
  Proof.
    intros H S1 S2. apply WP_act. intros w1 X T b. pose proof (wext_mv _ _ _ _ _ _ _ X) as M.
    apply (st_hok _ _ _ _ _ _ _ M) in H. destruct (hok_len _ _ _ _ _ _ _ _ T H) as (El & _ & Lt).
    split; [apply nub_table; [by eapply hok_tok|]; intros t; by destruct (t_lock t)|].
    intros x σ' Ef. destruct (eff_lock _ _ _ _ _ _ Ef) as (_ & Ec). pose proof (sn_lock _ _ _ _ _ _ Ef) as Ed.
    change (core_of w1.1) with (wc w1) in *. destruct x.
    - destruct Ec as [E0 Ec]. destruct (lock_step w1 σ' (th tb) (LHeld me) T Lt) as (W2 & G & F & E); try done; [intros ? _; by rewrite E0|].
      lk_done. apply S1; [|done|exact E]. eapply fq_trans; [by eapply wext_fq|done].
    - assert (σ' = w1.1) as ->. { apply with_table_inv in Ef as (t & _ & _ & Ef & _). destruct (t_lock t); by inversion Ef. }
      apply (act_same _ _ _ _ _ _ w1 (λ w2, WP (k false) Q w2)); [done|done|]. apply S2; auto.
      eapply (i_poison _ _ _ (TI_inv _ _ _ _ _ _ _ T)). apply Ec.
  Qed.
  Lemma lk1_own w1 t : lk1 w1 t → ∀ me', me' ≠ me → fld LFree (k_lk (wc w1)) t ≠ LHeld me'.
  Proof. intros L me' N E. unfold IncRules3.lk1 in L. congruence. Qed.
  Lemma w_unlock {A} tb (k : unit → prog A) Q w : hok w tb → lk1 w (th tb) →
    (∀ w2, fq no2 w w2 → TI w2 → WP (k tt) Q w2) → WP (Act (a_unlock tb) k) Q w.
  Proof.
    intros H L S1. apply WP_act. intros w1 X T b. pose proof (wext_mv _ _ _ _ _ _ _ X) as M.
    apply (wext_lk1 _ _ _ _ _ _ _ _ X) in L.
    apply (st_hok _ _ _ _ _ _ _ M) in H. destruct (hok_len _ _ _ _ _ _ _ _ T H) as (El & _ & Lt).
    split; [apply nub_table; [by eapply hok_tok|done]|].
    intros [] σ' Ef. destruct (eff_unlock _ _ _ _ _ _ Ef) as (_ & Ec). pose proof (sn_unlock _ _ _ _ _ _ Ef) as Ed.
    change (core_of w1.1) with (wc w1) in *.
    destruct (lock_step w1 σ' (th tb) LFree T Lt) as (W2 & G & F & E); try done; [by apply lk1_own|].
    lk_done. apply S1; [|done]. eapply fq_trans; [by eapply wext_fq|done].
  Qed.
  Lemma w_poison {A} tb (k : unit → prog A) Q w : hok w tb → lk1 w (th tb) → ¬ good_cfg cfg →
    (∀ w2, fq no2 w w2 → TI w2 → WP (k tt) Q w2) → WP (Act (a_poison tb) k) Q w.
  Proof.
    intros H L Ng S1. apply WP_act. intros w1 X T b. pose proof (wext_mv _ _ _ _ _ _ _ X) as M.
    apply (wext_lk1 _ _ _ _ _ _ _ _ X) in L.
    apply (st_hok _ _ _ _ _ _ _ M) in H. destruct (hok_len _ _ _ _ _ _ _ _ T H) as (El & _ & Lt).
    split; [apply nub_table; [by eapply hok_tok|done]|].
    intros [] σ' Ef. destruct (eff_poison _ _ _ _ _ _ Ef) as (_ & Ec). pose proof (sn_poison _ _ _ _ _ _ Ef) as Ed.
    change (core_of w1.1) with (wc w1) in *.
    destruct (lock_step w1 σ' (th tb) LPoisoned T Lt) as (W2 & G & F & E); try done; [by apply lk1_own|].
    lk_done. apply S1; [|done]. eapply fq_trans; [by eapply wext_fq|done].
  Qed.

  (** ** New tables *)
  Lemma newtab_hok w1 (σ' : state K V) (γ' : ghost * rghost) len b : TI w1 → len = 2 ^ b → nt (core_of σ') = S (nt (wc w1)) →
    k_sl (core_of σ') = k_sl (wc w1) ++ [replicate len slot0] → k_lim (core_of σ') = k_lim (wc w1) ++ [probe_limit len] →
    r_base (wr (σ', γ')) me = r_base (wr w1) me → r_base (wr w1) me ≤ nt (wc w1) →
    hok (σ', γ') (TRef (nt (wc w1)) (len - 1) (probe_limit len)).
  Proof.
    intros T El En Esl Elim Eb Lb. split; [|by rewrite Eb]. unfold hvalid. change (wc (σ', γ')) with (core_of σ'). cbn [th th_mask th_limit].
    rewrite En, Esl, Elim. split; [lia|]. 
    destruct (i_lens _ _ _ (TI_inv _ _ _ _ _ _ _ T)) as (Z1 & _). unfold nt in *. rewrite fld_app, Z1, decide_True by done.
    rewrite ln_app_new. by rewrite decide_True.
  Qed.

  Lemma w_publish_next {A} tb len b (k : tref → prog A) Q w : hok w tb → lkw w (th tb) → len = 2 ^ b → 3 ≤ b →
    (c_mode cfg = Blocking → raw w (th tb) ∨ ¬ al (wc w) (th tb)) →
    (∀ w2 nx, fq no2 w w2 → TI w2 → hok w2 nx → th nx = S (th tb) → lk1 w2 (th tb) → WP (k nx) Q w2) →
    WP (Act (a_publish_next tb len) k) Q w.
  Proof.
    intros H L El Lb Bl S1. apply WP_act. intros w1 X T b0. pose proof (wext_mv _ _ _ _ _ _ _ X) as M.
    apply (wext_lkw _ _ _ _ _ _ _ _ X) in L. destruct L as [L1 L2].
    apply (st_hok _ _ _ _ _ _ _ M) in H. destruct (hok_len _ _ _ _ _ _ _ _ T H) as (_ & _ & Lt).
    pose proof (TI_inv _ _ _ _ _ _ _ T) as I1.
    split; [apply nub_table; [by eapply hok_tok|done]|].
    intros x σ' Ef. destruct (eff_publish_next _ _ _ _ _ _ _ Ef) as (_ & Ec & Ex). pose proof (sd_publish_next _ _ _ _ _ _ _ Ef) as Ed.
    change (core_of w1.1) with (wc w1) in *.
    assert (Et : S (th tb) = nt (wc w1)).
    { pose proof (i_next _ _ _ I1 _ Lt) as N. rewrite L2 in N. case_decide; [done|]. lia. }
    destruct (i_lens _ _ _ I1) as (Z1 & Z2 & Z3 & Z4 & Z5 & Z6).
    set (nx' := <[th tb:=Some (nt (wc w1))]> (k_nx (wc w1))) in *.
    assert (FN : ∀ t, fld None nx' t = if decide (t = th tb) then Some (nt (wc w1)) else fld None (k_nx (wc w1)) t).
    { intros t. unfold nx'. apply fld_insert. unfold nt in *. lia. }
    destruct (step_newtab cfg (wc w1) (wg w1) (core_of σ') len b nx' PENDING I1 El Lb) as (I' & X0 & Xp); try (by rewrite Ec).
    { unfold nx'. rewrite insert_length. unfold nt in *. lia. }
    { intros t Ltt. rewrite FN. case_decide; [subst; by rewrite Et|]. rewrite (i_next _ _ _ I1) by done. rewrite decide_True by lia. done. }
    { done. }
    { done. }
    { rewrite Ec. left. split; [done|lia]. }
    { intros HB t Ht. assert (t = th tb) as -> by lia. destruct (Bl HB) as [R|R].
      - left. apply (st_raw _ _ _ _ _ _ _ M) in R as [R _]. pose proof (rt_lt _ _ _ I1 _ Lt). lia.
      - right. intros A0. apply R. destruct (mv_ext _ _ _ _ _ _ M) as [<-|(_ & j & X0)]; [done|]. by apply (x_st _ _ _ _ _ X0). }
    destruct (lift_newtab cfg nthr nsh me w1 σ' (ti_wi _ _ _ _ _ _ _ T) Ed I' X0) as [W2 F].
    { intros me' N. apply Xp. intros t Ht. rewrite FN. case_decide; [|done]. subst t. congruence. }
    { by rewrite Ec. }
    { rewrite Ec. unfold nt. cbn. rewrite app_length. cbn. lia. }
    { by rewrite Ec. }
    { intros t i. rewrite Ec. cbn. apply en_app_new. }
    destruct (F opid) as [G Fr]. eexists. split; [exact W2|]. split; [exact G|]. split; [by eapply fr_mv|]. intros T2.
    apply S1; [|done| | |].
    - eapply fq_trans; [by eapply wext_fq|]. split; [exact Fr|]. by intros ? ? _ _.
    - rewrite Ex. eapply (newtab_hok w1 σ' _ len b T El); try (by rewrite Ec); try done.
      + rewrite Ec. unfold nt. cbn. rewrite app_length. cbn. lia.
      + destruct H as [_ Hb]. lia.
    - by rewrite Ex.
    - unfold IncRules3.lk1. change (wc (σ', ?g)) with (core_of σ'). rewrite Ec. cbn [k_lk c_newtab]. rewrite fld_app. rewrite Z3. rewrite decide_False by lia. exact L1.
  Qed.

  Lemma w_init {A} len b (k : tref → prog A) Q w : len = 2 ^ b → 3 ≤ b →
    (∀ w2 tb, fq no2 w w2 → TI w2 → hok w2 tb → k_rt (wc w2) = Some (th tb) → WP (k tb) Q w2) →
    WP (Act (a_init len) k) Q w.
  Proof.
    intros El Lb S1. apply WP_act. intros w1 X T b0. pose proof (wext_mv _ _ _ _ _ _ _ X) as M.
    pose proof (TI_inv _ _ _ _ _ _ _ T) as I1.
    split; [apply nub_init; intros t Et; by eapply root_tok|].
    intros x σ' Ef. pose proof (eff_init _ _ _ _ _ _ Ef) as Ec. pose proof (sd_init _ _ _ _ _ _ Ef) as Ed. cbv beta in Ec, Ed.
    change (core_of w1.1) with (wc w1) in *. destruct (k_rt (wc w1)) as [r|] eqn:Er.
    { destruct Ec as (Ec & Et & Hv).
      assert (σ' = w1.1) as ->.
      { revert Ef. unfold a_init. change (root w1.1) with (k_rt (wc w1)). rewrite Er.
        intros Ef. by apply with_table_inv in Ef as (? & _ & _ & [= <- <-] & _). }
      apply (act_same _ _ _ _ _ _ w1 (λ w2, WP (k x) Q w2)); [done|done|]. apply S1; [by eapply wext_fq|done| |by rewrite Et].
      split; [done|]. rewrite Et. by eapply root_base. }
    destruct Ec as [Ec Ex]. pose proof (i_root _ _ _ I1) as N0. rewrite Er in N0.
    destruct (i_lens _ _ _ I1) as (Z1 & Z2 & Z3 & Z4 & Z5 & Z6).
    destruct (step_newtab cfg (wc w1) (wg w1) (core_of σ') len b (k_nx (wc w1)) PROMOTED I1 El Lb) as (I' & X0 & Xp); try (by rewrite Ec).
    { unfold nt in *; lia. }
    { intros t Lt. lia. }
    { done. }
    { done. }
    { right. split; [done|]. rewrite Ec. cbn [k_rt c_rt]. by rewrite N0. }
    { intros _ t Ht. lia. }
    destruct (lift_newtab cfg nthr nsh me w1 σ' (ti_wi _ _ _ _ _ _ _ T) Ed I' X0) as [W2 F].
    { intros me' N. by apply Xp. }
    { rewrite Ec. unfold rt. cbn [k_rt c_rt]. by rewrite N0, Er. }
    { rewrite Ec. unfold nt. cbn. rewrite app_length. cbn. lia. }
    { by rewrite Ec. }
    { intros t i. rewrite Ec. cbn. apply en_app_new. }
    destruct (F opid) as [G Fr]. eexists. split; [exact W2|]. split; [exact G|]. split; [by eapply fr_mv|]. intros T2.
    apply S1; [|done| |].
    - eapply fq_trans; [by eapply wext_fq|]. split; [exact Fr|]. by intros ? ? _ _.
    - rewrite Ex. eapply (newtab_hok w1 σ' _ len b T El); try (by rewrite Ec); try done.
      + rewrite Ec. unfold nt. cbn. rewrite app_length. cbn. lia.
      + pose proof (rr_base _ _ _ _ (wi_rr _ _ _ _ (ti_wi _ _ _ _ _ _ _ T)) me (ti_pin _ _ _ _ _ _ _ T)) as Lbs.
        unfold rt in Lbs. rewrite Er in Lbs. cbn in Lbs. lia.
    - change (wc (σ', ?g)) with (core_of σ'). by rewrite Ec, Ex.
  Qed.
End rules4.
