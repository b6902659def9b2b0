(** Program logic of a running operation: rules for copying in blocking mode. *)
From Verif Require Export IncRules4.

Section blkrules.
  Context {K V : Type} {Keq : EqDecision K} (cfg : config K) (nthr nsh me opid : nat) (o : op K V).
  Notation core := (core K V). Notation ghost := (@ghost K). Notation event := (event K).
  Notation world := (@world K V). Notation rghost := (@rghost K V). Notation prog := (prog K V).
  Notation Inv := (Inv cfg). Notation WI := (WI cfg nthr nsh).
  Notation fr := (fr cfg nthr nsh me opid). Notation fx := (fx cfg nthr nsh me opid). Notation mv := (mv cfg nthr nsh me).
  Notation wext := (wext cfg nthr nsh me opid). Notation wgrd := (wgrd me opid).
  Notation ix := (ix cfg). Notation passes := (passes cfg). Notation visited := (visited cfg).
  Notation TI := (TI cfg nthr nsh me opid o). Notation WP := (WP cfg nthr nsh me opid o).
  Notation hok := (hok me). Notation psd := (psd cfg). Notation pro := (pro me). Notation visw := (visw cfg).
  Notation hk2 := (hk2 cfg). Notation own := (own me). Notation clean := (clean opid). Notation npub := (npub opid).
  Notation didw := (didw opid). Notation fq := (fq cfg nthr nsh me opid). Notation lkw := (lkw me). Notation lk1 := (lk1 me).
  Implicit Types w : world.

  (** The entries of [tb], which is or was the root, are (or were) copied to [n]. *)
  Definition srcw w n tb : Prop := raw w tb ∧ n < nt (wc w) ∧ src (wc w) n tb.
  (** The copy to [t] was given up. *)
  Definition abw w t : Prop := ¬ al (wc w) t.
  Definition acwB w n l : Prop := ∀ i, i < l → g_ph (wg w) n i = PCnt.
  (** [n] holds everything, or the root has moved on. *)
  Definition prw w n tb l : Prop := acwB w n l ∨ tb < rt (wc w).

  Lemma st_srcw w w' n tb : mv w w' → srcw w n tb → srcw w' n tb.
  Proof.
    intros M (R & L & S). pose proof (st_raw _ _ _ _ _ _ _ M R) as R'.
    destruct (mv_ext _ _ _ _ _ _ M) as [<-|(_ & j & X)]; [done|]. destruct S as (S1 & S2 & S3). split; [done|].
    split; [pose proof (x_nt _ _ _ _ _ X); lia|]. split; [done|]. split; [apply R'|]. intros m A B C. eapply S3; [done|done|].
    by apply (x_st _ _ _ _ _ X).
  Qed.
  Lemma st_abw w w' t : mv w w' → abw w t → abw w' t.
  Proof. intros M A B. destruct (mv_ext _ _ _ _ _ _ M) as [<-|(_ & j & X)]; [done|]. apply A. by apply (x_st _ _ _ _ _ X). Qed.
  Lemma st_acwB w w' n l : mv w w' → acwB w n l → acwB w' n l.
  Proof. intros M A. destruct (mv_ext _ _ _ _ _ _ M) as [<-|(_ & j & X)]; [done|]. intros i L. apply X. by apply A. Qed.
  Lemma st_prw w w' n tb l : mv w w' → prw w n tb l → prw w' n tb l.
  Proof.
    intros M [A|A]; [left; by eapply st_acwB|right]. destruct (mv_ext _ _ _ _ _ _ M) as [<-|(_ & j & X)]; [done|].
    eapply Nat.lt_le_trans; [done|apply X].
  Qed.

  Context (HM : c_mode cfg = Blocking).
  Lemma TI_blk w : TI w → InvB cfg (wc w) (wg w).
  Proof. intros T. apply Inv_blk; [done|]. by eapply TI_inv. Qed.
  Lemma raw_visw w t k : TI w → raw w t → visw w t k.
  Proof. intros T [A B]. unfold IncRules.visw, IncGen.visited. rewrite HM. by split. Qed.
  Lemma src_next w t : raw w t → S t < nt (wc w) → srcw w (S t) t.
  Proof. intros R L. split; [done|]. split; [done|]. split; [lia|]. split; [apply R|]. intros m A B. lia. Qed.
  Lemma src_skip w n tb : srcw w n tb → abw w n → S n < nt (wc w) → srcw w (S n) tb.
  Proof.
    intros (R & L & S1 & S2 & S3) A L'. split; [done|]. split; [done|]. split; [lia|]. split; [done|]. intros m B C.
    destruct (decide (m = n)) as [->|]; [done|]. apply S3; lia.
  Qed.
  Lemma acwB_al w n tb : TI w → srcw w n tb → acwB w n (lnc (wc w) tb) → al (wc w) n.
  Proof.
    intros T (R & L & S) A. destruct (al_dec (wc w) n) as [|N]; [done|].
    destruct (b_abort _ _ _ (TI_blk _ T) n tb S L N) as (i & j & i' & B & C). rewrite A in C by done. done.
  Qed.
  Lemma acwB_raw w n tb : TI w → srcw w n tb → acwB w n (lnc (wc w) tb) → rt (wc w) ≠ tb → raw w n.
  Proof.
    intros T S A N. pose proof (acwB_al _ _ _ T S A) as Al. split; [|done]. destruct S as (R & L & S1 & S2 & S3).
    destruct (decide (n ≤ rt (wc w))); [done|]. destruct R as [R _]. destruct (S3 (rt (wc w))); [lia|lia|]. apply (b_alrt _ _ _ (TI_blk _ T)).
  Qed.

  (** ** Copying a slot *)
  Lemma w_fetch_orB {A} tb i n (k : eword → prog A) Q w : hok w tb → i < th_len tb → srcw w n (th tb) → phw w n i (POwn me) →
    (∀ w2 e, fq (at2 n i) w w2 → TI w2 →
       match e_ptr e with
       | None => phw w2 n i (PDone me) ∧ hk2 w2 (th tb) i TOMBMETA
       | Some p => phw w2 n i (PMark me) ∧ cpw w2 (th tb) i p ∧ (∃ kv, hpw w2 p kv) ∧ pro w2 p
       end → WP (k e) Q w2) →
    WP (Act (a_fetch_or_copying tb i) k) Q w.
  Proof.
    intros H Li Sr Ph S. apply WP_act. intros w1 X T b. pose proof (wext_mv _ _ _ _ _ _ _ X) as M.
    apply (st_hok _ _ _ _ _ _ _ M) in H. pose proof (wext_fq _ _ _ _ _ (at2 n i) _ _ X) as Fq0.
    apply (fq_phw _ _ _ _ _ _ _ _ _ _ _ (wext_fq _ _ _ _ _ no2 _ _ X)) in Ph; [|by intros []|done].
    apply (st_srcw _ _ _ _ M) in Sr; destruct Sr as (_ & Ln & Sr).
    pose proof (TI_blk _ T) as I1. destruct (hok_len _ _ _ _ _ _ _ _ T H) as (El & _ & Lt).
    split; [apply nub_slot; [by eapply hok_tok|by eapply inb_of|done]|].
    intros e σ' Ef. destruct (eff_fetch_or _ _ _ _ _ _ _ Ef) as (IB & Ee & Ec). pose proof (sn_fetch_or _ _ _ _ _ _ _ Ef) as Ed.
    change (core_of w1.1) with (wc w1) in *. unfold phw in Ph.
    assert (SS : slotstep (wc w1) (core_of σ') (th tb) i (mt (k_sl (wc w1)) (th tb) i) (set_copying e) []).
    { rewrite Ec, Ee. exact (slotstep_upd (wc w1) (th tb) i (Slot (mt (k_sl (wc w1)) (th tb) i) (set_copying (en (k_sl (wc w1)) (th tb) i))) IB). }
    rewrite Ee in SS. clear Ec.
    destruct (step_copyingB cfg _ (wg w1) _ me n (th tb) i I1 Ln Sr ltac:(by rewrite El) Ph SS) as (I' & X0 & Xp).
    destruct (slot_same _ _ _ _ _ _ SS eq_refl eq_refl) as (S1 & S2 & S3 & S4 & S5).
    set (x := match e_ptr (en (k_sl (wc w1)) (th tb) i) with Some _ => PMark me | None => PDone me end) in *.
    set (γ' := set_ph (wg w1) n i x) in *.
    destruct (lift_quiet cfg nthr nsh me w1 σ' γ' [] (ti_wi _ _ _ _ _ _ _ T) Ed (blk_Inv _ _ _ HM I') X0 Xp S1 S2 S3 S4 S5 eq_refl
      ltac:(by rewrite app_nil_r) (pubevs_nil _)) as [W2 F].
    destruct (F opid) as [G Fr]. exists (γ', wr w1). split; [done|]. split; [done|]. split; [by eapply fr_mv|]. intros T2.
    assert (Phx : phw (V:=V) (σ', (γ', wr w1)) n i x).
    { unfold phw, wg. cbn [fst snd]. apply set_ph_eq. }
    apply S; [|done|].
    - eapply fq_trans; [exact Fq0|]. split; [done|]. intros t i' N _. unfold wg at 1. cbn [fst snd]. by apply set_ph_ne.
    - destruct (e_ptr e) as [p|] eqn:Ep.
      + assert (Ex : x = PMark me) by (unfold x; by rewrite <- Ee, Ep). rewrite <- Ee in *.
        split; [by rewrite <- Ex|]. assert (Hp1 : Hp (wc w1) (th tb) i p) by (unfold Hp; congruence).
        split; [split|].
        * unfold CP. change (wc (σ', ?g)) with (core_of σ'). rewrite (ss_en SS). by rewrite decide_True.
        * change (wc (σ', ?g)) with (core_of σ'). by apply S4.
        * pose proof (st_hok _ _ _ _ _ _ _ (fr_mv _ _ _ _ _ _ _ Fr) H) as H2.
          destruct (hok_pro _ _ _ _ _ _ _ tb i p T2 H2) as [P1 P2]; [change (wc (σ', ?g)) with (core_of σ'); by apply S4|].
          by split.
      + assert (Ex : x = PDone me) by (unfold x; by rewrite <- Ee, Ep). rewrite <- Ee in *.
        split; [by rewrite <- Ex|]. unfold hk2. change (wc (σ', ?g)) with (core_of σ'). rewrite (ss_en SS), decide_True by done. split; [done|].
        intros k1 (p1 & P1 & P2). apply S4 in P1. unfold Hp in P1. congruence.
  Qed.

  Lemma w_cas_copyB {A} nx i q p k0 v0 tb i1 (k : unit + eword → prog A) Q w :
    hok w nx → hok w tb → q ≤ th_limit nx → i = probe_idx (c_hash cfg k0) (th_mask nx) q → i1 < th_len tb →
    srcw w (th nx) (th tb) → phw w (th nx) i1 (PMark me) → cpw w (th tb) i1 p → hpw w p (k0, v0) →
    (∀ q', q' < q → Mtw w (th nx) (probe_idx (c_hash cfg k0) (th_mask nx) q')) →
    (∀ w2, fq (at2 (th nx) i1) w w2 → TI w2 → phw w2 (th nx) i1 (PInsd me (th nx) i) → hk2 w2 (th nx) i (h2_of cfg k0) → WP (k (inl tt)) Q w2) →
    (∀ w1, wext w w1 → TI w1 → en (k_sl (wc w1)) (th nx) i ≠ NULLW → WP (k (inr (en (k_sl (wc w1)) (th nx) i))) Q w1) →
    WP (Act (a_cas_ent false nx i NULLW (EW (Some p) false false false)) k) Q w.
  Proof.
    intros H Ht Lq Ei L1 Sr Ph Cw Hh Mp S1 S2. apply WP_act. intros w1 X T b. pose proof (wext_mv _ _ _ _ _ _ _ X) as M.
    apply (st_hok _ _ _ _ _ _ _ M) in H. apply (st_hok _ _ _ _ _ _ _ M) in Ht. pose proof (wext_fq _ _ _ _ _ (at2 (th nx) i1) _ _ X) as Fq0.
    apply (fq_phw _ _ _ _ _ _ _ _ _ _ _ (wext_fq _ _ _ _ _ no2 _ _ X)) in Ph; [|by intros []|done].
    apply (st_srcw _ _ _ _ M) in Sr; destruct Sr as (_ & Ln & Sr).
    apply (st_cpw _ _ _ _ _ _ _ _ _ M) in Cw. apply (st_hpw _ _ _ _ _ _ _ _ M) in Hh.
    assert (Mp1 : ∀ q', q' < q → Mtw w1 (th nx) (probe_idx (c_hash cfg k0) (th_mask nx) q')).
    { intros q' L. eapply st_Mtw; [exact M|auto]. }
    pose proof (TI_inv _ _ _ _ _ _ _ T) as I1. destruct (hok_len _ _ _ _ _ _ _ _ T H) as (El & Elm & Lt).
    destruct (hok_len _ _ _ _ _ _ _ _ T Ht) as (Elt & _ & _).
    pose proof (hok_ix _ _ _ _ _ _ _ _ k0 q T H) as Eix. rewrite <- Ei in Eix.
    assert (Li : i < th_len nx). { rewrite <- El, <- Eix. by eapply ix_lt. }
    split; [apply nub_cas_ent; [by eapply hok_tok|by eapply inb_of|done]|].
    intros x σ' Ef. destruct (eff_cas_ent _ _ _ _ _ _ _ _ _ _ Ef) as [IB Ec]. pose proof (sn_cas_ent _ _ _ _ _ _ _ _ _ _ Ef) as Ed.
    change (core_of w1.1) with (wc w1) in *. destruct x as [[]|f].
    - destruct Ec as (En & Ec). unfold phw in Ph.
      assert (SS : slotstep (wc w1) (core_of σ') (th nx) i (mt (k_sl (wc w1)) (th nx) i) (EW (Some p) false false false) []).
      { rewrite Ec. exact (slotstep_upd (wc w1) (th nx) i (Slot (mt (k_sl (wc w1)) (th nx) i) (EW (Some p) false false false)) IB). }
      assert (Hk0 : ky (wc w1) p = Some k0) by (unfold ky; unfold hpw in Hh; by rewrite Hh).
      destruct (lift_inscopyB cfg nthr nsh me w1 σ' (th nx) (th tb) i1 p k0 i q HM (ti_wi _ _ _ _ _ _ _ T) Ed Ln Sr ltac:(by rewrite Elt) Ph
        (proj2 Cw) (proj1 Cw) Hk0 IB En) as [W2 F]; auto.
      { intros q' L. rewrite (hok_ix _ _ _ _ _ _ _ _ k0 q' T H). by apply Mp1. }
      { by rewrite Elm. }
      destruct (F opid) as [G Fr]. eexists. split; [exact W2|]. split; [exact G|]. split; [by eapply fr_mv|]. intros T2.
      apply S1; [|done| |].
      + eapply fq_trans; [exact Fq0|]. split; [done|]. intros t i' N _. unfold wg at 1. cbn [fst snd]. by apply set_ph_ne.
      + unfold phw, wg at 1. cbn [fst snd]. apply set_ph_eq.
      + unfold hk2. change (wc (σ', ?g)) with (core_of σ'). rewrite (ss_en SS), decide_True by done. split; [done|].
        intros k1 (p1 & P1 & P2). unfold Hp in P1. rewrite (ss_en SS), decide_True in P1 by done. injection P1 as <-.
        unfold ky in P2, Hk0. rewrite (ss_hp SS), app_nil_r in P2. rewrite Hk0 in P2. by injection P2 as <-.
    - destruct Ec as (-> & NE & Ec). pose proof (cas_ent_fail _ _ _ _ _ _ _ _ _ _ Ef) as ->.
      apply (act_same _ _ _ _ _ _ w1 (λ w2, WP (k (inr (en (k_sl (wc w1)) (th nx) i))) Q w2)); [done|done|]. apply S2; auto.
  Qed.

  (** The copy becomes visible: the slot is copied. *)
  Lemma w_store_metaB {A} nx i m tb i1 (k : unit → prog A) Q w : hok w nx → hok w tb → i < th_len nx → m ≠ EMPTY → hk2 w (th nx) i m →
    i1 < th_len tb → srcw w (th nx) (th tb) → phw w (th nx) i1 (PInsd me (th nx) i) →
    (∀ w2, fq (at2 (th nx) i1) w w2 → TI w2 → phw w2 (th nx) i1 (PDone me) → WP (k tt) Q w2) → WP (Act (a_store_meta nx i m) k) Q w.
  Proof.
    intros H Ht L NE HK0 L1 Sr Ph S. apply WP_act. intros w1 X T b. pose proof (wext_mv _ _ _ _ _ _ _ X) as M.
    pose proof (wext_fq _ _ _ _ _ (at2 (th nx) i1) _ _ X) as Fq0.
    apply (fq_phw _ _ _ _ _ _ _ _ _ _ _ (wext_fq _ _ _ _ _ no2 _ _ X)) in Ph; [|by intros []|done].
    apply (st_srcw _ _ _ _ M) in Sr; destruct Sr as (_ & Ln & Sr). apply (st_hok _ _ _ _ _ _ _ M) in Ht.
    destruct (hok_len _ _ _ _ _ _ _ _ T Ht) as (Elt & _ & _).
    apply (st_hok _ _ _ _ _ _ _ M) in H. apply (st_hk2 _ _ _ _ _ _ _ _ _ M) in HK0. destruct HK0 as [NN HK0].
    split; [apply nub_slot; [by eapply hok_tok|by eapply inb_of|done]|].
    intros [] σ' Ef. destruct (eff_store_meta _ _ _ _ _ _ _ _ Ef) as [IB Ec]. pose proof (sn_store_meta _ _ _ _ _ _ _ _ Ef) as Ed.
    change (core_of w1.1) with (wc w1) in *.
    assert (SS : slotstep (wc w1) (core_of σ') (th nx) i m (en (k_sl (wc w1)) (th nx) i) []).
    { rewrite Ec. exact (slotstep_upd (wc w1) (th nx) i (Slot m (en (k_sl (wc w1)) (th nx) i)) IB). }
    destruct (step_metaB cfg _ (wg w1) _ _ _ _ (TI_blk _ T) IB SS NE NN) as (γ1 & I1 & X1 & Xp1 & Gp & Gh & l & Gl & Pe).
    { intros k0 Hk. symmetry. by apply HK0. }
    destruct (slot_same _ _ _ _ _ _ SS eq_refl eq_refl) as (S1 & S2 & S3 & S4 & S5).
    destruct (step_doneB cfg (core_of σ') γ1 me (th nx) (th tb) i1 i I1) as (I2 & X2 & Xp2).
    { by rewrite S2. } { by rewrite (ss_src SS). } { rewrite (ss_lnc SS). by rewrite Elt. } { rewrite Gh. exact Ph. }
    { unfold Mt. rewrite (ss_mt SS). by rewrite decide_True. }
    set (γ' := set_ph γ1 (th nx) i1 (PDone me)) in *.
    destruct (lift_quiet cfg nthr nsh me w1 σ' γ' l (ti_wi _ _ _ _ _ _ _ T) Ed (blk_Inv _ _ _ HM I2)) as [W2 F]; auto.
    { intros j. by eapply ext0_trans. } { intros j Hj. eapply extp_trans; [by apply Xp1|by apply Xp2]. }
    destruct (F opid) as [G Fr]. exists (γ', wr w1). split; [done|]. split; [done|]. split; [by eapply fr_mv|]. intros T2.
    apply S; [|done|].
    - eapply fq_trans; [exact Fq0|]. split; [done|]. intros t i' N _. unfold wg at 1. cbn [fst snd]. unfold γ'. rewrite set_ph_ne by exact N. by rewrite Gh.
    - unfold phw, wg at 1. cbn [fst snd]. apply set_ph_eq.
  Qed.

  (** ** Giving up a copy *)
  Lemma w_abort {A} nx tb i1 (k : unit → prog A) Q w : hok w nx → hok w tb → i1 < th_len tb → srcw w (th nx) (th tb) → phw w (th nx) i1 (PMark me) →
    (∀ w2, fr w w2 → TI w2 → abw w2 (th nx) → WP (k tt) Q w2) → WP (Act (a_store_status nx ABORTED) k) Q w.
  Proof.
    intros H Ht L1 Sr Ph S. apply WP_act. intros w1 X T b. pose proof (wext_mv _ _ _ _ _ _ _ X) as M.
    apply (fq_phw _ _ _ _ _ _ _ _ _ _ _ (wext_fq _ _ _ _ _ no2 _ _ X)) in Ph; [|by intros []|done].
    apply (st_srcw _ _ _ _ M) in Sr; destruct Sr as (_ & Ln & Sr). apply (st_hok _ _ _ _ _ _ _ M) in Ht.
    destruct (hok_len _ _ _ _ _ _ _ _ T Ht) as (Elt & _ & _).
    apply (st_hok _ _ _ _ _ _ _ M) in H.
    split; [apply nub_table; [by eapply hok_tok|done]|].
    intros [] σ' Ef. destruct (eff_store_status _ _ _ _ _ _ _ Ef) as (_ & Ec). pose proof (sn_store_status _ _ _ _ _ _ _ Ef) as Ed.
    change (core_of w1.1) with (wc w1) in *.
    destruct (step_abortB cfg (wc w1) (wg w1) me (th nx) (th tb) i1 (TI_blk _ T) Ln Sr ltac:(by rewrite Elt) Ph) as (I' & X0 & Xp & Al).
    rewrite <- Ec in *. apply (blk_Inv _ _ _ HM) in I'.
    destruct (lift_side _ _ _ _ _ _ w1 σ' _ T Ed ltac:(by rewrite Ec) ltac:(by rewrite Ec) ltac:(by rewrite Ec) I' X0 Xp eq_refl eq_refl) as (W2 & G & Fr).
    eexists. split; [exact W2|]. split; [exact G|]. split; [by eapply fr_mv|]. intros T2.
    apply S; [|done|done]. eapply fr_trans; [by eapply wext_fr|exact Fr].
  Qed.

  (** ** Claims, counts, promotion *)
  Lemma w_add_claimB {A} tb nx n (k : nat → prog A) Q w : hok w tb → hok w nx → srcw w (th nx) (th tb) →
    (∀ w2 s, fr w w2 → TI w2 → (∀ i, s ≤ i → i < s + n → i < th_len tb → phw w2 (th nx) i (POwn me)) → WP (k s) Q w2) →
    WP (Act (a_add_claim nx n) k) Q w.
  Proof.
    intros H Hn Sr S. apply WP_act. intros w1 X T b. pose proof (wext_mv _ _ _ _ _ _ _ X) as M.
    apply (st_hok _ _ _ _ _ _ _ M) in H. apply (st_hok _ _ _ _ _ _ _ M) in Hn. apply (st_srcw _ _ _ _ M) in Sr; destruct Sr as (_ & Ln & Sr).
    destruct (hok_len _ _ _ _ _ _ _ _ T H) as (El & _ & Lt).
    split; [apply nub_table; [by eapply hok_tok|done]|].
    intros s σ' Ef. destruct (eff_add_claim _ _ _ _ _ _ _ Ef) as (_ & Es & Ec). pose proof (sn_add_claim _ _ _ _ _ _ _ Ef) as Ed.
    change (core_of w1.1) with (wc w1) in *.
    destruct (step_claimB cfg (wc w1) (wg w1) me (th nx) (th tb) n (TI_blk _ T) Ln Sr) as (f & I' & X0 & Xp & Fo).
    apply (blk_Inv _ _ _ HM) in I'. rewrite <- Es in *. rewrite <- Ec in *.
    destruct (lift_side _ _ _ _ _ _ w1 σ' (phases (wg w1) f) T Ed) as (W2 & G & Fr); auto; try (by rewrite Ec).
    eexists. split; [exact W2|]. split; [exact G|]. split; [by eapply fr_mv|]. intros T2.
    apply S; [|done|].
    - eapply fr_trans; [by eapply wext_fr|exact Fr].
    - intros i L1 L2 L3. unfold phw, wg. cbn [fst snd]. apply Fo; auto. by rewrite El.
  Qed.

  Lemma rt_src w n tb : TI w → srcw w n tb → rt (wc w) = tb ∧ tb < n ∨ tb < rt (wc w).
  Proof. intros T ([R _] & L & S). destruct (src_cases _ _ _ (TI_blk _ T) _ _ S L) as [[-> ?]|[? ?]]; auto. Qed.

  Lemma w_add_copiedB {A} tb nx a n (k : nat → prog A) Q w : hok w tb → hok w nx → srcw w (th nx) (th tb) → a + n ≤ th_len tb →
    (∀ i, a ≤ i → i < a + n → phw w (th nx) i (PDone me)) →
    (∀ w2 s, fr w w2 → TI w2 → (s + n = th_len tb → prw w2 (th nx) (th tb) (th_len tb)) → WP (k s) Q w2) →
    WP (Act (a_add_copied nx n) k) Q w.
  Proof.
    intros H Hn Sr L P S. apply WP_act. intros w1 X T b. pose proof (wext_mv _ _ _ _ _ _ _ X) as M.
    apply (st_hok _ _ _ _ _ _ _ M) in H. apply (st_hok _ _ _ _ _ _ _ M) in Hn. apply (st_srcw _ _ _ _ M) in Sr.
    pose proof (rt_src _ _ _ T Sr) as RS. destruct Sr as (_ & Ln & Sr).
    destruct (hok_len _ _ _ _ _ _ _ _ T H) as (El & _ & Lt).
    assert (P1 : ∀ i, a ≤ i → i < a + n → phw w1 (th nx) i (PDone me)).
    { intros i L1 L2. eapply (fq_phw _ _ _ _ _ _ _ _ _ _ _ (wext_fq _ _ _ _ _ no2 _ _ X)); [by intros []|done|auto]. }
    split; [apply nub_table; [by eapply hok_tok|done]|].
    intros s σ' Ef. destruct (eff_add_copied _ _ _ _ _ _ _ Ef) as (_ & Es & Ec). pose proof (sn_add_copied _ _ _ _ _ _ _ Ef) as Ed.
    change (core_of w1.1) with (wc w1) in *.
    destruct (step_countB cfg (wc w1) (wg w1) me (th nx) (th tb) a n (TI_blk _ T) Ln Sr ltac:(by rewrite El) P1) as (f & I' & X0 & Xp & Fo).
    apply (blk_Inv _ _ _ HM) in I'. rewrite <- Es in *. rewrite <- Ec in *.
    destruct (lift_side _ _ _ _ _ _ w1 σ' (phases (wg w1) f) T Ed) as (W2 & G & Fr); auto; try (by rewrite Ec).
    eexists. split; [exact W2|]. split; [exact G|]. split; [by eapply fr_mv|]. intros T2.
    apply S; [|done|].
    - eapply fr_trans; [by eapply wext_fr|exact Fr].
    - intros E. destruct RS as [[R0 R1]|R].
      + left. intros i Li. unfold wg. cbn [fst snd]. eapply cnt_full; [|by rewrite <- El in Li]. cbn. rewrite <- Fo, E; [done|lia].
      + right. change (wc (σ', ?g)) with (core_of σ'). rewrite Ec. exact R.
  Qed.
  Lemma copied_prw w tb nx : TI w → hok w tb → srcw w (th nx) (th tb) → fld 0 (k_cd (wc w)) (th nx) = th_len tb → prw w (th nx) (th tb) (th_len tb).
  Proof.
    intros T H Sr E. destruct (hok_len _ _ _ _ _ _ _ _ T H) as (El & _ & Lt).
    destruct (rt_src _ _ _ T Sr) as [[R0 R1]|R]; [left|by right]. intros i Li.
    pose proof (b_copied _ _ _ (TI_blk _ T) (th nx)) as C. rewrite R0, El, E in C. eapply cnt_full; [|exact Li]. symmetry. apply C; [done|apply Sr].
  Qed.

  Lemma w_cas_rootB {A} tb nx (k : bool → prog A) Q w z : hok w tb → hok w nx → srcw w (th nx) (th tb) → acwB w (th nx) (th_len tb) →
    own w None z →
    (∀ w2, fx w w2 → TI w2 → own w2 (Some (RTable (th tb))) z → raw w2 (th nx) → WP (k true) Q w2) →
    (∀ w1, wext w w1 → TI w1 → raw w1 (th nx) → WP (k false) Q w1) →
    WP (Act (a_cas_root tb nx) k) Q w.
  Proof.
    intros H Hn Sr Ac Ow S1 S2. apply WP_act. intros w1 X T b. pose proof (wext_mv _ _ _ _ _ _ _ X) as M.
    apply (st_hok _ _ _ _ _ _ _ M) in H. apply (st_hok _ _ _ _ _ _ _ M) in Hn. apply (st_acwB _ _ _ _ M) in Ac. apply (st_srcw _ _ _ _ M) in Sr.
    pose proof (wext_fr _ _ _ _ _ _ _ X) as Fr0. apply (fr_own _ _ _ _ _ _ _ _ _ Fr0) in Ow. 
    destruct (hok_len _ _ _ _ _ _ _ _ T H) as (El & _ & Lt).
    split; [unfold a_cas_root; by case_decide|].
    intros x σ' Ef. pose proof (eff_cas_root _ _ _ _ _ _ _ Ef) as Ec. pose proof (sn_cas_root _ _ _ _ _ _ _ Ef) as Ed.
    change (core_of w1.1) with (wc w1) in *. destruct x.
    - destruct Ec as [Er Ec]. destruct Sr as (_ & Ln & Sr).
      destruct (lift_promoteB cfg nthr nsh me w1 σ' (th tb) (th nx) HM (ti_wi _ _ _ _ _ _ _ T) Ec Ed Er Sr Ln) as (Al & γ' & W2 & Eph & F).
      { intros i Li. apply Ac. by rewrite <- El. } { apply Ow. }
      destruct (F opid) as [G Fx]. eexists. split; [exact W2|]. split; [exact G|]. split; [by eapply fx_mv|]. intros T2.
      apply S1; [|done| |].
      + eapply fx_trans; [by apply Fr0|exact Fx].
      + destruct Ow as [O1 O2]. unfold own, wr. cbn [fst snd rs_own r_own r_pend]. rewrite upd1_eq. by unfold wr in *.
      + split; change (wc (σ', ?g)) with (core_of σ'); rewrite Ec; [done|exact Al].
    - destruct Ec as [Ec Er]. assert (Eq : σ' = w1.1).
      { revert Ef. unfold a_cas_root. case_decide; [done|]. by intros [= <-]. }
      apply (act_same _ _ _ _ _ _ w1 (λ w2, WP (k false) Q w2)); [done|done|]. apply S2; auto.
      eapply acwB_raw; [done|exact Sr|by rewrite El|]. intros E.
      pose proof (i_root _ _ _ (TI_inv _ _ _ _ _ _ _ T)) as R. unfold rt in E. destruct (k_rt (wc w1)) as [r|]; [|lia]. cbn in E. congruence.
  Qed.
End blkrules.
