(** Program logic of a running operation: rules for copying, tables, locks, counters and reclamation. *)
From Verif Require Export IncRules2.

Section rules3.
  Context {K V : Type} {Keq : EqDecision K} (cfg : config K) (nthr nsh me opid : nat) (o : op K V).
  Notation core := (core K V). Notation ghost := (@ghost K). Notation event := (event K).
  Notation world := (@world K V). Notation rghost := (@rghost K V). Notation prog := (prog K V).
  Notation Inv := (Inv cfg). Notation WI := (WI cfg nthr nsh).
  Notation fr := (fr cfg nthr nsh me opid). Notation fx := (fx cfg nthr nsh me opid). Notation mv := (mv cfg nthr nsh me).
  Notation wext := (wext cfg nthr nsh me opid). Notation wgrd := (wgrd me opid).
  Notation ix := (ix cfg). Notation passes := (passes cfg). Notation visited := (visited cfg).
  Notation TI := (TI cfg nthr nsh me opid o). Notation WP := (WP cfg nthr nsh me opid o).
  Notation hok := (hok me). Notation psd := (psd cfg). Notation pro := (pro me). Notation visw := (visw cfg).
  Notation hk2 := (hk2 cfg). Notation own := (own me). Notation clean := (clean opid). Notation npub := (npub opid).
  Notation didw := (didw opid). Notation fq := (fq cfg nthr nsh me opid). Notation lkw := (lkw me).
  Implicit Types w : world.

  Definition lk1 w t : Prop := fld LFree (k_lk (wc w)) t = LHeld me.
  Lemma wext_lk1 w w' t : wext w w' → lk1 w t → lk1 w' t.
  Proof. intros X A. by destruct (x_lk _ _ _ _ _ (wext_extp _ _ _ _ _ _ _ X) _ A). Qed.

  Lemma pubevs_nil (γ : ghost) : pubevs γ [].
  Proof. intros e H. by apply elem_of_nil in H. Qed.

  (** ** Copying a slot (incremental mode) *)
  Context (ch : nat) (HM : c_mode cfg = Incremental ch).
  Lemma w_fetch_or {A} tb i (k : eword → prog A) Q w : hok w tb → i < th_len tb → phw w (th tb) i (POwn me) →
    (∀ w2 e, fq (at2 (th tb) i) w w2 → TI w2 → rtw w2 (th tb) →
       match e_ptr e with
       | None => phw w2 (th tb) i (PDone me) ∧ hk2 w2 (th tb) i TOMBMETA
       | Some p => phw w2 (th tb) i (PMark me) ∧ cpw w2 (th tb) i p ∧ e_copying e = false ∧ e_copied e = false ∧
           e_borrowed (en (k_sl (wc w2)) (th tb) i) = e_borrowed e ∧ (∃ kv, hpw w2 p kv) ∧ pro w2 p
       end → WP (k e) Q w2) →
    WP (Act (a_fetch_or_copying tb i) k) Q w.
  Proof.
    intros H Li Ph S. apply WP_act. intros w1 X T b. pose proof (wext_mv _ _ _ _ _ _ _ X) as M.
    apply (st_hok _ _ _ _ _ _ _ M) in H. pose proof (wext_fq _ _ _ _ _ (at2 (th tb) i) _ _ X) as Fq0.
    apply (fq_phw _ _ _ _ _ _ _ _ _ _ _ (wext_fq _ _ _ _ _ no2 _ _ X)) in Ph; [|by intros []|done].
    pose proof (TI_inv _ _ _ _ _ _ _ T) as I1. pose proof (Inv_inc _ _ _ _ HM I1) as II. destruct (hok_len _ _ _ _ _ _ _ _ T H) as (El & _ & Lt).
    split; [apply nub_slot; [by eapply hok_tok|by eapply inb_of|done]|].
    intros e σ' Ef. destruct (eff_fetch_or _ _ _ _ _ _ _ Ef) as (IB & Ee & Ec). pose proof (sn_fetch_or _ _ _ _ _ _ _ Ef) as Ed.
    change (core_of w1.1) with (wc w1) in *. unfold phw in Ph.
    destruct (held_root _ _ _ (th tb) i II) as [Er _]; [by rewrite El|unfold held; by rewrite Ph|].
    assert (SS : slotstep (wc w1) (core_of σ') (th tb) i (mt (k_sl (wc w1)) (th tb) i) (set_copying e) []).
    { rewrite Ec, Ee. exact (slotstep_upd (wc w1) (th tb) i (Slot (mt (k_sl (wc w1)) (th tb) i) (set_copying (en (k_sl (wc w1)) (th tb) i))) IB). }
    assert (Ncp : ¬ CP (wc w1) (th tb) i).
    { pose proof (ii_phase _ _ _ II (th tb) i) as P. unfold phase_ok in P. rewrite Ph in P. apply P. by rewrite El. }
    rewrite Ee in SS. rewrite Er in *. clear Ec.
    destruct (step_copying cfg _ (wg w1) _ me i II ltac:(by rewrite El) Ph SS) as (I' & X0 & Xp).
    destruct (slot_same _ _ _ _ _ _ SS eq_refl eq_refl) as (S1 & S2 & S3 & S4 & S5).
    set (x := match e_ptr (en (k_sl (wc w1)) (rt (wc w1)) i) with Some _ => PMark me | None => PDone me end) in *.
    set (γ' := set_ph (wg w1) (rt (wc w1)) i x) in *.
    destruct (lift_quiet cfg nthr nsh me w1 σ' γ' [] (ti_wi _ _ _ _ _ _ _ T) Ed (inc_Inv _ _ _ _ HM I') X0 Xp S1 S2 S3 S4 S5 eq_refl
      ltac:(by rewrite app_nil_r) (pubevs_nil _)) as [W2 F].
    destruct (F opid) as [G Fr]. exists (γ', wr w1). split; [done|]. split; [done|]. split; [by eapply fr_mv|]. intros T2.
    assert (Phx : phw (V:=V) (σ', (γ', wr w1)) (rt (wc w1)) i x).
    { unfold phw, wg. cbn [fst snd]. apply set_ph_eq. }
    apply S; [|done| |].
    - eapply fq_trans; [exact Fq0|]. split; [done|]. intros t i' N _. unfold wg at 1. cbn [fst snd]. by apply set_ph_ne.
    - unfold rtw. change (wc (σ', ?g)) with (core_of σ'). by rewrite S1.
    - destruct (e_ptr e) as [p|] eqn:Ep.
      + assert (Ex : x = PMark me) by (unfold x; by rewrite <- Ee, Ep). rewrite <- Ee in *.
        split; [by rewrite <- Ex|]. assert (Hp1 : Hp (wc w1) (rt (wc w1)) i p) by (unfold Hp; congruence).
        split; [split|].
        * unfold CP. change (wc (σ', ?g)) with (core_of σ'). rewrite (ss_en SS). by rewrite decide_True.
        * change (wc (σ', ?g)) with (core_of σ'). by apply S4.
        * unfold CP in Ncp. rewrite <- Ee in Ncp. split; [by destruct (e_copying e)|].
          assert (NC : ¬ CD (wc w1) (rt (wc w1)) i).
          { intros D. apply (i_cdcp _ _ _ I1 _ _ _ Hp1) in D. unfold CP in D. rewrite <- Ee in D. done. }
          unfold CD in NC. rewrite <- Ee in NC. split; [by destruct (e_copied e)|].
          split; [change (wc (σ', ?g)) with (core_of σ'); rewrite (S5 _ _ _ Hp1); by rewrite <- Ee|].
          pose proof (st_hok _ _ _ _ _ _ _ (fr_mv _ _ _ _ _ _ _ Fr) H) as H2.
          destruct (hok_pro _ _ _ _ _ _ _ tb i p T2 H2) as [P1 P2]; [rewrite Er; change (wc (σ', ?g)) with (core_of σ'); by apply S4|].
          by split.
      + assert (Ex : x = PDone me) by (unfold x; by rewrite <- Ee, Ep). rewrite <- Ee in *.
        split; [by rewrite <- Ex|]. unfold hk2. change (wc (σ', ?g)) with (core_of σ'). rewrite (ss_en SS), decide_True by done. split; [done|].
        intros k1 (p1 & P1 & P2). apply S4 in P1. unfold Hp in P1. congruence.
  Qed.

  Lemma w_cas_copy {A} tb i q e p k0 v0 t1 i1 n1 (k : unit + eword → prog A) Q w :
    hok w tb → q ≤ th_limit tb → i = probe_idx (c_hash cfg k0) (th_mask tb) q → i1 < n1 →
    (∀ w1, mv w w1 → TI w1 → lnc (wc w1) t1 = n1) → 
    phw w t1 i1 (PMark me) → cpw w t1 i1 p → hpw w p (k0, v0) → t1 < th tb → e = EW (Some p) false false true → pro w p →
    (∀ q', q' < q → Mtw w (th tb) (probe_idx (c_hash cfg k0) (th_mask tb) q')) →
    (∀ t, t1 < t → t < th tb → exhM cfg (wc w) t k0) →
    (∀ w2, fq (at2 t1 i1) w w2 → TI w2 → phw w2 t1 i1 (PInsd me (th tb) i) → hk2 w2 (th tb) i (h2_of cfg k0) → WP (k (inl tt)) Q w2) →
    (∀ w1, wext w w1 → TI w1 → en (k_sl (wc w1)) (th tb) i ≠ NULLW → WP (k (inr (en (k_sl (wc w1)) (th tb) i))) Q w1) →
    WP (Act (a_cas_ent false tb i NULLW e) k) Q w.
  Proof.
    intros H Lq Ei L1 En1 Ph Cw Hh Lt1 -> Pr Mp Ex S1 S2. apply WP_act. intros w1 X T b. pose proof (wext_mv _ _ _ _ _ _ _ X) as M.
    specialize (En1 w1 M T).
    apply (st_hok _ _ _ _ _ _ _ M) in H. pose proof (wext_fq _ _ _ _ _ (at2 t1 i1) _ _ X) as Fq0.
    apply (fq_phw _ _ _ _ _ _ _ _ _ _ _ (wext_fq _ _ _ _ _ no2 _ _ X)) in Ph; [|by intros []|done].
    apply (st_cpw _ _ _ _ _ _ _ _ _ M) in Cw. apply (st_hpw _ _ _ _ _ _ _ _ M) in Hh. apply (st_pro _ _ _ _ _ _ _ M) in Pr.
    assert (Mp1 : ∀ q', q' < q → Mtw w1 (th tb) (probe_idx (c_hash cfg k0) (th_mask tb) q')).
    { intros q' L. eapply st_Mtw; [exact M|auto]. }
    pose proof (TI_inv _ _ _ _ _ _ _ T) as I1. pose proof (Inv_inc _ _ _ _ HM I1) as II. destruct (hok_len _ _ _ _ _ _ _ _ T H) as (El & Elm & Lt).
    pose proof (hok_ix _ _ _ _ _ _ _ _ k0 q T H) as Eix. rewrite <- Ei in Eix.
    assert (Li : i < th_len tb). { rewrite <- El, <- Eix. by eapply ix_lt. }
    split; [apply nub_cas_ent; [by eapply hok_tok|by eapply inb_of|done]|].
    intros x σ' Ef. destruct (eff_cas_ent _ _ _ _ _ _ _ _ _ _ Ef) as [IB Ec]. pose proof (sn_cas_ent _ _ _ _ _ _ _ _ _ _ Ef) as Ed.
    change (core_of w1.1) with (wc w1) in *. destruct x as [[]|f].
    - destruct Ec as (En & Ec). unfold phw in Ph.
      assert (SS : slotstep (wc w1) (core_of σ') (th tb) i (mt (k_sl (wc w1)) (th tb) i) (EW (Some p) false false true) []).
      { rewrite Ec. exact (slotstep_upd (wc w1) (th tb) i (Slot (mt (k_sl (wc w1)) (th tb) i) (EW (Some p) false false true)) IB). }
      destruct (held_root _ _ _ t1 i1 II) as [Er _]; [by rewrite En1|unfold held; by rewrite Ph|]. subst t1.
      assert (Hk0 : ky (wc w1) p = Some k0) by (unfold ky; unfold hpw in Hh; by rewrite Hh).
      destruct (lift_inscopy cfg nthr nsh me w1 σ' ch i1 p k0 (th tb) i q HM (ti_wi _ _ _ _ _ _ _ T) Ed ltac:(by rewrite En1) Ph (proj2 Cw) Hk0 Lt1 IB En)
        as [W2 F]; auto.
      { intros q' L. rewrite (hok_ix _ _ _ _ _ _ _ _ k0 q' T H). by apply Mp1. }
      { by rewrite Elm. }
      { intros t L2 L3. specialize (Ex t L2 L3). intros q' L'.
        destruct (mv_ext _ _ _ _ _ _ M) as [<-|(I0 & j & X0)]; [by apply Ex|].
        assert (Ht : t < nt (wc w)).
        { pose proof (Ex 0 ltac:(lia)) as M0. apply Mt_inb in M0. destruct (decide (t < nt (wc w))); [done|].
          unfold lnc in M0. rewrite ln_oob in M0; [lia|]. unfold nt in *. lia. }
        rewrite (st_ix cfg _ _ _ _ _ X0 _ _ _ Ht). eapply st_Mt; [exact X0|]. apply Ex. by rewrite <- (x_lim _ _ _ _ _ X0 _ Ht). }
      destruct (F opid) as [G Fr]. eexists. split; [exact W2|]. split; [exact G|]. split; [by eapply fr_mv|]. intros T2.
      apply S1; [|done| |].
      + eapply fq_trans; [exact Fq0|]. split; [done|]. intros t i' N _. unfold wg at 1. cbn [fst snd]. by apply set_ph_ne.
      + unfold phw, wg at 1. cbn [fst snd]. apply set_ph_eq.
      + unfold hk2. change (wc (σ', ?g)) with (core_of σ'). rewrite (ss_en SS), decide_True by done. split; [done|].
        intros k1 (p1 & P1 & P2). unfold Hp in P1. rewrite (ss_en SS), decide_True in P1 by done. injection P1 as <-.
        unfold ky in P2, Hk0. rewrite (ss_hp SS), app_nil_r in P2. rewrite Hk0 in P2. by injection P2 as <-.
    - destruct Ec as (-> & NE & Ec). pose proof (cas_ent_fail _ _ _ _ _ _ _ _ _ _ Ef) as ->.
      apply (act_same _ _ _ _ _ _ w1 (λ w2, WP (k (inr (en (k_sl (wc w1)) (th tb) i))) Q w2)); [done|done|]. apply S2; auto.
  Qed.

  Lemma w_store_ent {A} tb i p b t' i' (k : unit → prog A) Q w :
    hok w tb → i < th_len tb → phw w (th tb) i (PInsd me t' i') → cpw w (th tb) i p → Mtw w t' i' →
    e_borrowed (en (k_sl (wc w)) (th tb) i) = b →
    (∀ w2, fq (at2 (th tb) i) w w2 → TI w2 → phw w2 (th tb) i (PDone me) → WP (k tt) Q w2) →
    WP (Act (a_store_ent tb i (EW (Some p) true true b)) k) Q w.
  Proof.
    intros H Li Ph Cw Mw Eb S. apply WP_act. intros w1 X T b'. pose proof (wext_mv _ _ _ _ _ _ _ X) as M.
    assert (Eb1 : e_borrowed (en (k_sl (wc w1)) (th tb) i) = b).
    { destruct (mv_ext _ _ _ _ _ _ M) as [<-|(I0 & j & X0)]; [done|]. rewrite <- Eb.
      apply (sx_bw _ _ _ _ _ _ (x_slot _ _ _ _ _ X0 (th tb) i)). apply Cw. }
    apply (st_hok _ _ _ _ _ _ _ M) in H. pose proof (wext_fq _ _ _ _ _ (at2 (th tb) i) _ _ X) as Fq0.
    apply (fq_phw _ _ _ _ _ _ _ _ _ _ _ (wext_fq _ _ _ _ _ no2 _ _ X)) in Ph; [|by intros []|done].
    apply (st_cpw _ _ _ _ _ _ _ _ _ M) in Cw. apply (st_Mtw _ _ _ _ _ _ _ _ M) in Mw.
    pose proof (TI_inv _ _ _ _ _ _ _ T) as I1. pose proof (Inv_inc _ _ _ _ HM I1) as II. destruct (hok_len _ _ _ _ _ _ _ _ T H) as (El & Elm & Lt).
    split; [apply nub_slot; [by eapply hok_tok|by eapply inb_of|done]|].
    intros [] σ' Ef. destruct (eff_store_ent _ _ _ _ _ _ _ _ Ef) as (IB & Ec). pose proof (sn_store_ent _ _ _ _ _ _ _ _ Ef) as Ed.
    change (core_of w1.1) with (wc w1) in *. unfold phw in Ph.
    destruct (held_root _ _ _ (th tb) i II) as [Er _]; [by rewrite El|unfold held; by rewrite Ph|].
    assert (SS : slotstep (wc w1) (core_of σ') (th tb) i (mt (k_sl (wc w1)) (th tb) i) (EW (Some p) true true b) []).
    { rewrite Ec. exact (slotstep_upd (wc w1) (th tb) i (Slot (mt (k_sl (wc w1)) (th tb) i) (EW (Some p) true true b)) IB). }
    rewrite Er in *. clear Ec.
    destruct (step_copied cfg _ (wg w1) _ me i p t' i' (EW (Some p) true true b) II ltac:(by rewrite El) Ph (proj2 Cw) Mw eq_refl eq_refl eq_refl (eq_sym Eb1) SS) as (I' & X0 & Xp).
    destruct (slot_same _ _ _ _ _ _ SS) as (S1 & S2 & S3 & S4 & S5).
    { symmetry. apply Cw. } { by symmetry. }
    destruct (lift_quiet cfg nthr nsh me w1 σ' _ [] (ti_wi _ _ _ _ _ _ _ T) Ed (inc_Inv _ _ _ _ HM I') X0 Xp S1 S2 S3 S4 S5 eq_refl
      ltac:(by rewrite app_nil_r) (pubevs_nil _)) as [W2 F].
    destruct (F opid) as [G Fr]. eexists. split; [exact W2|]. split; [exact G|]. split; [by eapply fr_mv|]. intros T2.
    apply S; [|done|].
    - eapply fq_trans; [exact Fq0|]. split; [done|]. intros t i0 N _. unfold wg at 1. cbn [fst snd]. by apply set_ph_ne.
    - unfold phw, wg at 1. cbn [fst snd]. apply set_ph_eq.
  Qed.
End rules3.
