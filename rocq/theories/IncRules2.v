(** Program logic of a running operation: rules for the primitive writes. *)
From Verif Require Export IncRules.

Section rules2.
  Context {K V : Type} {Keq : EqDecision K} (cfg : config K) (nthr nsh me opid : nat) (o : op K V).
  Notation core := (core K V). Notation ghost := (@ghost K). Notation event := (event K).
  Notation world := (@world K V). Notation rghost := (@rghost K V). Notation prog := (prog K V).
  Notation Inv := (Inv cfg). Notation WI := (WI cfg nthr nsh).
  Notation fr := (fr cfg nthr nsh me opid). Notation fx := (fx cfg nthr nsh me opid). Notation mv := (mv cfg nthr nsh me).
  Notation wext := (wext cfg nthr nsh me opid). Notation wgrd := (wgrd me opid).
  Notation ix := (ix cfg). Notation passes := (passes cfg). Notation visited := (visited cfg).
  Notation TI := (TI cfg nthr nsh me opid o). Notation WP := (WP cfg nthr nsh me opid o).
  Notation hok := (hok me). Notation psd := (psd cfg). Notation pro := (pro me). Notation visw := (visw cfg).
  Notation hk2 := (hk2 cfg). Notation own := (own me). Notation clean := (clean opid). Notation npub := (npub opid).
  Notation didw := (didw opid).
  Implicit Types w : world.

  (** Copy phases owned by this thread. *)
  Definition php (E : nat → nat → Prop) w w' : Prop :=
    ∀ t i, ¬ E t i → ph_owner (g_ph (wg w) t i) = Some me → g_ph (wg w') t i = g_ph (wg w) t i.
  Definition fq (E : nat → nat → Prop) w w' : Prop := fr w w' ∧ php E w w'.
  Definition no2 : nat → nat → Prop := λ _ _, False.
  Definition at2 (t i : nat) : nat → nat → Prop := λ t' i', t' = t ∧ i' = i.
  Definition phw w t i x : Prop := g_ph (wg w) t i = x.
  Definition acw w (tb : tref) : Prop := ∀ i, i < th_len tb → g_ph (wg w) (th tb) i = PCnt.
  (** A marked slot: its entry no longer changes. *)
  Definition cpw w t i p : Prop := CP (wc w) t i ∧ Hp (wc w) t i p.
  Definition pubw w p h : Prop := g_pub (wg w) !! p = Some (opid, h).
  Definition lkw w t : Prop := fld LFree (k_lk (wc w)) t = LHeld me ∧ fld None (k_nx (wc w)) t = None.

  Lemma php_refl E w : php E w w.
  Proof. done. Qed.
  Lemma php_trans E w1 w2 w3 : php E w1 w2 → php E w2 w3 → php E w1 w3.
  Proof. intros A B t i N H. pose proof (A t i N H) as E1. rewrite <- E1. apply B; [done|]. by rewrite E1. Qed.
  Lemma php_weak E w1 w2 : php no2 w1 w2 → php E w1 w2.
  Proof. intros A t i _ H. apply A; auto. Qed.
  Lemma php_wext w w' : wext w w' → php no2 w w'.
  Proof. intros X t i _ H. by apply (x_ph _ _ _ _ _ (wext_extp _ _ _ _ _ _ _ X)). Qed.
  Lemma fq_refl E w : fq E w w.
  Proof. split; [apply fr_refl|done]. Qed.
  Lemma fq_trans E w1 w2 w3 : fq E w1 w2 → fq E w2 w3 → fq E w1 w3.
  Proof. intros [A B] [C D]. split; [by eapply fr_trans|by eapply php_trans]. Qed.
  Lemma fq_weak E w1 w2 : fq no2 w1 w2 → fq E w1 w2.
  Proof. intros [A B]. split; [done|by apply php_weak]. Qed.
  Lemma wext_fq E w w' : wext w w' → fq E w w'.
  Proof. intros X. apply fq_weak. split; [by apply wext_fr|by apply php_wext]. Qed.
  Lemma fq_phw E w w' t i x : fq E w w' → ¬ E t i → ph_owner x = Some me → phw w t i x → phw w' t i x.
  Proof. intros [_ A] N H P. unfold phw in *. rewrite (A t i N); [done|]. by rewrite P. Qed.
  Lemma fr_of w w' x z : fx w w' → own w x z → own w' x z → fr w w'.
  Proof. intros F [A B] [C D]. split; [done|]. split; congruence. Qed.
  Lemma fr_fx w w' : fr w w' → fx w w'.
  Proof. intros [A _]. done. Qed.

  Lemma st_acw w w' tb : mv w w' → acw w tb → acw w' tb.
  Proof. intros M A. destruct (mv_ext _ _ _ _ _ _ M) as [<-|(_ & j & X)]; [done|]. intros i L. apply X. by apply A. Qed.
  Lemma st_cpw w w' t i p : mv w w' → cpw w t i p → cpw w' t i p.
  Proof.
    intros M [A B]. destruct (mv_ext _ _ _ _ _ _ M) as [<-|(_ & j & X)]; [done|].
    destruct (sx_cp _ _ _ _ _ _ (x_slot _ _ _ _ _ X t i) A) as [C D]. split; [done|]. unfold Hp in *. congruence.
  Qed.
  Lemma st_pubw w w' p h : mv w w' → pubw w p h → pubw w' p h.
  Proof. intros M A. destruct (mv_ext _ _ _ _ _ _ M) as [<-|(_ & j & X)]; [done|]. eapply prefix_lookup; [done|apply X]. Qed.
  Lemma wext_lkw w w' t : wext w w' → lkw w t → lkw w' t.
  Proof. intros X [A B]. destruct (x_lk _ _ _ _ _ (wext_extp _ _ _ _ _ _ _ X) _ A) as [C D]. split; [done|]. by rewrite D. Qed.

  (** A step on one slot that keeps its entry. *)
  Lemma slot_same (c c' : core) t0 i0 m (e : eword) : slotstep c c' t0 i0 m e [] → e_ptr e = e_ptr (en (k_sl c) t0 i0) →
    e_borrowed e = e_borrowed (en (k_sl c) t0 i0) →
    rt c' = rt c ∧ nt c' = nt c ∧ k_hp c' = k_hp c ∧ (∀ t i p, Hp c' t i p ↔ Hp c t i p) ∧
    (∀ t i p, Hp c t i p → e_borrowed (en (k_sl c') t i) = e_borrowed (en (k_sl c) t i)).
  Proof.
    intros SS E B. split_and!.
    - apply (ss_rtc SS).
    - apply SS.
    - rewrite (ss_hp SS). apply app_nil_r.
    - intros t i p. by apply (ss_Hp_same SS).
    - intros t i p _. rewrite (ss_en SS). case_decide as D; [|done]. by destruct D as [-> ->].
  Qed.

  Lemma w_store_meta {A} tb i m (k : unit → prog A) Q w : hok w tb → i < th_len tb → m ≠ EMPTY → hk2 w (th tb) i m →
    (∀ w2, fq no2 w w2 → TI w2 → Mtw w2 (th tb) i → WP (k tt) Q w2) → WP (Act (a_store_meta tb i m) k) Q w.
  Proof.
    intros H L NE HK S. apply WP_act. intros w1 X T b. pose proof (wext_mv _ _ _ _ _ _ _ X) as M.
    apply (st_hok _ _ _ _ _ _ _ M) in H. apply (st_hk2 _ _ _ _ _ _ _ _ _ M) in HK. destruct HK as [NN HK].
    split; [apply nub_slot; [by eapply hok_tok|by eapply inb_of|done]|].
    intros [] σ' Ef. destruct (eff_store_meta _ _ _ _ _ _ _ _ Ef) as [IB Ec]. pose proof (sn_store_meta _ _ _ _ _ _ _ _ Ef) as Ed.
    change (core_of w1.1) with (wc w1) in *.
    assert (SS : slotstep (wc w1) (core_of σ') (th tb) i m (en (k_sl (wc w1)) (th tb) i) []).
    { rewrite Ec. exact (slotstep_upd (wc w1) (th tb) i (Slot m (en (k_sl (wc w1)) (th tb) i)) IB). }
    destruct (step_meta cfg _ (wg w1) _ _ _ _ (TI_inv _ _ _ _ _ _ _ T) IB SS NE NN) as (γ' & I' & X0 & Xp & Gp & Gh & l & Gl & Pe).
    { intros k0 Hk. symmetry. by apply HK. }
    destruct (slot_same _ _ _ _ _ _ SS eq_refl eq_refl) as (S1 & S2 & S3 & S4 & S5).
    destruct (lift_quiet cfg nthr nsh me w1 σ' γ' l (ti_wi _ _ _ _ _ _ _ T) Ed I' X0 (λ me' _, Xp me') S1 S2 S3 S4 S5 Gp Gl Pe) as [W2 F].
    destruct (F opid) as [G Fr]. exists (γ', wr w1). split; [done|]. split; [done|]. split; [by eapply fr_mv|]. intros T2.
    apply S; [|done|].
    - eapply fq_trans; [by apply wext_fq|]. split; [done|]. intros t i' _ _. change (wg (σ', (γ', wr w1))) with γ'. by rewrite Gh.
    - unfold Mtw, Mt. change (wc (σ', (γ', wr w1))) with (core_of σ'). rewrite (ss_mt SS). by rewrite decide_True.
  Qed.

  (** ** Compare-and-swap on slots *)
  Lemma act_same w1 (P : world → Prop) σ' : TI w1 → σ' = w1.1 → P w1 →
    ∃ γ', WI (σ', γ') ∧ wgrd w1 (σ', γ') ∧ mv w1 (σ', γ') ∧ (TI (σ', γ') → P (σ', γ')).
  Proof.
    intros T -> H. exists w1.2. destruct (lift_noop cfg nthr nsh me w1 w1.1 (ti_wi _ _ _ _ _ _ _ T) eq_refl eq_refl) as [W F].
    destruct (F opid) as [G R]. split; [done|]. split; [done|]. split; [by eapply fr_mv|]. intros _. by destruct w1.
  Qed.
  Lemma cas_pub_fail weak tb i e kv b (σ σ' : state K V) f : a_cas_pub weak tb i e kv me b σ = Ok (inr f) σ' → σ' = σ.
  Proof.
    intros H. apply with_slot_inv in H as (t & s & _ & _ & _ & H & _). destruct (exp_freed _ _); [done|].
    case_decide; by inversion H.
  Qed.
  Lemma cas_ent_fail weak tb i e n b (σ σ' : state K V) f : a_cas_ent weak tb i e n me b σ = Ok (inr f) σ' → σ' = σ.
  Proof.
    intros H. apply with_slot_inv in H as (t & s & _ & _ & _ & H & _). destruct (exp_freed _ _); [done|].
    case_decide; by inversion H.
  Qed.
  Lemma pro_nf w p : pro w p → p ∉ d_freed (wd w).
  Proof. intros [[A _] _]. exact A. Qed.

  Lemma w_cas_ins {A} tb i q k0 v0 (k : nat + eword → prog A) Q w z :
    hok w tb → q ≤ th_limit tb → i = probe_idx (c_hash cfg k0) (th_mask tb) q →
    visw w (th tb) k0 → psd w (th tb) k0 q → clean w → own w None z →
    (∀ h n, h !! n = Some (k0, v0) → evok h o (Ev k0 opid None (Some n))) →
    (∀ w1 w2 p, wext w w1 → TI w1 → mv w1 w2 → TI w2 → hpw w2 p (k0, v0) → pubw w2 p (Some (th tb, i)) →
       Hp (wc w2) (th tb) i p → hk2 w2 (th tb) i (h2_of cfg k0) → own w2 None (z + 1)%Z → WP (k (inl p)) Q w2) →
    (∀ w1, wext w w1 → TI w1 → en (k_sl (wc w1)) (th tb) i ≠ NULLW → WP (k (inr (en (k_sl (wc w1)) (th tb) i))) Q w1) →
    WP (Act (a_cas_pub false tb i NULLW (k0, v0)) k) Q w.
  Proof.
    intros H Lq Ei Hv Hp Cl Ow Ev S1 S2. apply WP_act. intros w1 X T b. pose proof (wext_mv _ _ _ _ _ _ _ X) as M.
    pose proof (wext_fr _ _ _ _ _ _ _ X) as Fr0.
    apply (st_hok _ _ _ _ _ _ _ M) in H. apply (st_visw _ _ _ _ _ _ _ _ M) in Hv. apply (st_psd _ _ _ _ _ _ _ _ _ M) in Hp.
    apply (fr_clean _ _ _ _ _ _ _ Fr0) in Cl. apply (fr_own _ _ _ _ _ _ _ _ _ Fr0) in Ow.
    pose proof (TI_inv _ _ _ _ _ _ _ T) as I1. destruct (hok_len _ _ _ _ _ _ _ _ T H) as (El & Elm & Lt).
    pose proof (hok_ix _ _ _ _ _ _ _ _ k0 q T H) as Eix. rewrite <- Ei in Eix.
    assert (Li : i < th_len tb). { rewrite <- El, <- Eix. by eapply ix_lt. }
    split; [apply nub_cas_pub; [by eapply hok_tok|by eapply inb_of|done]|].
    intros x σ' Ef. destruct (eff_cas_pub _ _ _ _ _ _ _ _ _ _ Ef) as [IB Ec]. pose proof (sn_cas_pub _ _ _ _ _ _ _ _ _ _ Ef) as Ed.
    change (core_of w1.1) with (wc w1) in *. destruct x as [p|f].
    - destruct Ec as (-> & En & Ec).
      assert (SS : slotstep (wc w1) (core_of σ') (th tb) i (mt (k_sl (wc w1)) (th tb) i) (EW (Some (length (k_hp (wc w1)))) false false false) [(k0, v0)]).
      { rewrite Ec. exact (slotstep_upd_hp (wc w1) (th tb) i (Slot (mt (k_sl (wc w1)) (th tb) i) (EW (Some (length (k_hp (wc w1)))) false false false)) (k0, v0) IB). }
      destruct (lift_ins cfg nthr nsh me opid o w1 σ' (th tb) i q k0 v0 (ti_wi _ _ _ _ _ _ _ T) (ti_thr _ _ _ _ _ _ _ T)
        Ed IB SS En Hv (proj2 Hp) ltac:(by rewrite Elm) Eix (ti_op _ _ _ _ _ _ _ T) Cl (λ h, Ev h _)) as (W2 & G & Mv).
      eexists. split; [exact W2|]. split; [exact G|]. split; [exact Mv|]. intros T2.
      assert (Ehp : k_hp (core_of σ') = k_hp (wc w1) ++ [(k0, v0)]) by (apply (ss_hp SS)).
      eapply S1; [exact X|done|exact Mv|done| | | | |].
      + unfold hpw. change (k_hp (wc (σ', ?g))) with (k_hp (core_of σ')). rewrite Ehp. by rewrite list_lookup_middle.
      + unfold pubw, wg. cbn [fst snd g_pub]. rewrite <- (i_publen _ _ _ I1). by rewrite list_lookup_middle.
      + unfold IncInv.Hp. change (wc (σ', ?g)) with (core_of σ'). by rewrite (ss_en SS), decide_True by done.
      + unfold hk2. change (wc (σ', ?g)) with (core_of σ'). rewrite (ss_en SS), decide_True by done. split; [done|].
        intros k1 (p1 & P1 & P2). unfold IncInv.Hp in P1. rewrite (ss_en SS), decide_True in P1 by done. injection P1 as <-.
        unfold ky in P2. rewrite Ehp, list_lookup_middle in P2 by done. by injection P2 as <-.
      + destruct Ow as [O1 O2]. unfold own, wr. cbn [fst snd rs_pend r_own r_pend]. rewrite upd1_eq. unfold wr in *. by rewrite O1, O2.
    - destruct Ec as (-> & NE & Ec). pose proof (cas_pub_fail _ _ _ _ _ _ _ _ _ Ef) as ->.
      apply (act_same w1 (λ w2, WP (k (inr (en (k_sl (wc w1)) (th tb) i))) Q w2)); [done|done|]. apply S2; auto.
  Qed.

  (** Where a replaced entry may still be found. *)
  Definition rets w (p t : nat) (b : bool) : Prop := if b then nohp w p t else ∃ t0, rtw w t0 ∧ nohp w p t0.
  Lemma st_rets w w' p t b : mv w w' → rets w p t b → rets w' p t b.
  Proof.
    intros M. destruct b; cbn.
    - by eapply st_nohp.
    - intros (t0 & A & B). exists t0. split; [by eapply st_rtw|by eapply st_nohp].
  Qed.
  Lemma nohp_after w1 (c' : core) t0 i0 p0 k0 m e hx : TI w1 → slotstep (wc w1) c' t0 i0 m e hx → e_ptr e ≠ Some p0 →
    Hp (wc w1) t0 i0 p0 → ky (wc w1) p0 = Some k0 → ¬ CP (wc w1) t0 i0 → visw w1 t0 k0 →
    (∀ t i, t0 ≤ t → ¬ Hp c' t i p0) ∧ (e_borrowed (en (k_sl (wc w1)) t0 i0) = false → ∀ t i, rt (wc w1) ≤ t → ¬ Hp c' t i p0).
  Proof.
    intros T SS Ne Hp0 Hk0 C0 V0. pose proof (TI_inv _ _ _ _ _ _ _ T) as I1.
    pose proof (w_root cfg _ _ I1 _ _ _ _ Hp0 C0 V0) as L0.
    assert (LOW : ∀ t i, rt (wc w1) ≤ t → Hp c' t i p0 → Hp (wc w1) t i p0 ∧ t < t0).
    { intros t i L H. apply (ss_Hp SS) in H. case_decide as D; [done|]. split; [done|].
      destruct (w_only cfg _ _ I1 _ _ _ _ Hp0 Hk0 C0 V0 t i L H) as [|CDt]; [done|].
      destruct (decide (t = rt (wc w1))) as [->|N].
      - destruct (decide (t0 = rt (wc w1))) as [->|]; [|lia]. exfalso. apply D. split; [done|].
        eapply (i_u1 _ _ _ I1 _ _ _ k0); [by apply (al_rt _ _ _ I1)|exists p0; done|exists p0; done].
      - exfalso. eapply (CD_high _ _ _ I1 t i p0); [lia|done|done]. }
    split.
    - intros t i L H. destruct (LOW t i ltac:(lia) H). lia.
    - intros B t i L H. destruct (LOW t i L H) as [H1 Lt].
      assert (c_mode cfg ≠ Blocking).
      { intros E. unfold visw, IncGen.visited in V0. rewrite E in V0. destruct V0. lia. }
      pose proof (w_low _ _ _ (wi_rc _ _ _ _ (ti_wi _ _ _ _ _ _ _ T)) _ _ _ Hp0 t i ltac:(done) Lt L H1). congruence.
  Qed.

  Lemma w_cas_upd {A} weak tb i cur p0 k0 v1 v0 (k : nat + eword → prog A) Q w z :
    hok w tb → i < th_len tb → e_ptr cur = Some p0 → e_copying cur = false → hpw w p0 (k0, v1) → pro w p0 →
    visw w (th tb) k0 → Mtw w (th tb) i → clean w → own w None z →
    (∀ h n, h !! p0 = Some (k0, v1) → h !! n = Some (k0, v0) → evok h o (Ev k0 opid (Some p0) (Some n))) →
    (∀ w1 w2 p, wext w w1 → TI w1 → mv w1 w2 → TI w2 → hpw w2 p (k0, v0) → Hp (wc w2) (th tb) i p → didw w2 (Ev k0 opid (Some p0) (Some p)) →
       own w2 (Some (REntry p0)) z → rets w2 p0 (th tb) (e_borrowed cur) → WP (k (inl p)) Q w2) →
    (∀ w1, wext w w1 → TI w1 → WP (k (inr (en (k_sl (wc w1)) (th tb) i))) Q w1) →
    WP (Act (a_cas_pub weak tb i cur (k0, v0)) k) Q w.
  Proof.
    intros H Li Ecp Ecy Hh Pr Hv Hm Cl Ow Ev S1 S2. apply WP_act. intros w1 X T b. pose proof (wext_mv _ _ _ _ _ _ _ X) as M.
    pose proof (wext_fr _ _ _ _ _ _ _ X) as Fr0.
    apply (st_hok _ _ _ _ _ _ _ M) in H. apply (st_visw _ _ _ _ _ _ _ _ M) in Hv. apply (st_Mtw _ _ _ _ _ _ _ _ M) in Hm.
    apply (st_hpw _ _ _ _ _ _ _ _ M) in Hh. apply (st_pro _ _ _ _ _ _ _ M) in Pr.
    apply (fr_clean _ _ _ _ _ _ _ Fr0) in Cl. apply (fr_own _ _ _ _ _ _ _ _ _ Fr0) in Ow.
    pose proof (TI_inv _ _ _ _ _ _ _ T) as I1.
    split; [apply nub_cas_pub; [by eapply hok_tok|by eapply inb_of|]|].
    { intros p E. rewrite Ecp in E. injection E as <-. by apply pro_nf. }
    intros x σ' Ef. destruct (eff_cas_pub _ _ _ _ _ _ _ _ _ _ Ef) as [IB Ec]. pose proof (sn_cas_pub _ _ _ _ _ _ _ _ _ _ Ef) as Ed.
    change (core_of w1.1) with (wc w1) in *. destruct x as [p|f].
    - destruct Ec as (-> & En & Ec). set (n := length (k_hp (wc w1))) in *.
      assert (SS : slotstep (wc w1) (core_of σ') (th tb) i (mt (k_sl (wc w1)) (th tb) i) (EW (Some n) false false false) [(k0, v0)]).
      { rewrite Ec. exact (slotstep_upd_hp (wc w1) (th tb) i (Slot (mt (k_sl (wc w1)) (th tb) i) (EW (Some n) false false false)) (k0, v0) IB). }
      assert (Hp0 : Hp (wc w1) (th tb) i p0) by (unfold Hp; by rewrite En).
      assert (Hk0 : ky (wc w1) p0 = Some k0) by (unfold ky; unfold hpw in Hh; by rewrite Hh).
      assert (C0 : ¬ CP (wc w1) (th tb) i) by (unfold CP; rewrite En, Ecy; done).
      destruct (lift_upd cfg nthr nsh me opid o w1 σ' (th tb) i k0 v0 p0 (ti_wi _ _ _ _ _ _ _ T) (ti_thr _ _ _ _ _ _ _ T)
        Ed SS Hp0 Hk0 C0 Hm Hv (ti_op _ _ _ _ _ _ _ T) Cl (proj1 Ow)) as (W2 & G & Mv).
      { intros h P1 P2. apply Ev; [|done]. by eapply prefix_lookup. }
      destruct (nohp_after w1 (core_of σ') (th tb) i p0 k0 _ _ _ T SS) as [N1 N2]; auto.
      { cbn [e_ptr]. pose proof (i_ptr _ _ _ I1 _ _ _ Hp0) as Lp. intros [= E]. unfold n in E. lia. }
      eexists. split; [exact W2|]. split; [exact G|]. split; [exact Mv|]. intros T2.
      assert (Ehp : k_hp (core_of σ') = k_hp (wc w1) ++ [(k0, v0)]) by (apply (ss_hp SS)).
      eapply S1; [exact X|done|exact Mv|done| | | | |].
      + unfold hpw. change (k_hp (wc (σ', ?g))) with (k_hp (core_of σ')). rewrite Ehp. unfold n. by rewrite list_lookup_middle.
      + unfold IncInv.Hp. change (wc (σ', ?g)) with (core_of σ'). by rewrite (ss_en SS), decide_True by done.
      + split; [|done]. unfold wg. cbn [fst snd g_log]. apply elem_of_app. right. by apply elem_of_list_singleton.
      + destruct Ow as [O1 O2]. unfold own, wr. cbn [fst snd rs_own r_own r_pend]. rewrite upd1_eq. by unfold wr in *.
      + assert (GN : goneL (g_log (wg w1) ++ [Log.Ev k0 opid (Some p0) (Some n)]) p0).
        { apply goneL_app. right. eexists. split; [by apply elem_of_list_singleton|done]. }
        unfold rets, nohp, rtw. change (wc (σ', ?g)) with (core_of σ'). unfold gone, wg. cbn [fst snd g_log].
        destruct (e_borrowed cur) eqn:Eb; [split; [done|]; intros t i' Lt' _; by apply N1|]. exists (rt (wc w1)). rewrite (ss_rtc SS). split; [done|].
        split; [done|]. intros t i' Lt' _. apply N2; [by rewrite En|done].
    - destruct Ec as (-> & NE & Ec). pose proof (cas_pub_fail _ _ _ _ _ _ _ _ _ Ef) as ->.
      apply (act_same w1 (λ w2, WP (k (inr (en (k_sl (wc w1)) (th tb) i))) Q w2)); [done|done|]. apply S2; auto.
  Qed.

  Lemma w_cas_rem {A} weak tb i cur p0 k0 v1 (k : unit + eword → prog A) Q w z :
    hok w tb → i < th_len tb → e_ptr cur = Some p0 → e_copying cur = false → hpw w p0 (k0, v1) → pro w p0 →
    visw w (th tb) k0 → npub w → (multi o = true ∨ clean w) → own w None z →
    (∀ h, h !! p0 = Some (k0, v1) → evok h o (Ev k0 opid (Some p0) None)) →
    (∀ w1 w2, wext w w1 → TI w1 → mv w1 w2 → TI w2 → didw w2 (Ev k0 opid (Some p0) None) → npub w2 →
       hk2 w2 (th tb) i TOMBMETA → own w2 (Some (REntry p0)) (z - 1)%Z → rets w2 p0 (th tb) (e_borrowed cur) →
       (∃ pre, g_log (wg w2) = (g_log (wg w1) ++ pre) ++ [Ev k0 opid (Some p0) None]) → WP (k (inl tt)) Q w2) →
    (∀ w1, wext w w1 → TI w1 → WP (k (inr (en (k_sl (wc w1)) (th tb) i))) Q w1) →
    WP (Act (a_cas_ent weak tb i cur TOMBW) k) Q w.
  Proof.
    intros H Li Ecp Ecy Hh Pr Hv Np Cl Ow Ev S1 S2. apply WP_act. intros w1 X T b. pose proof (wext_mv _ _ _ _ _ _ _ X) as M.
    pose proof (wext_fr _ _ _ _ _ _ _ X) as Fr0.
    apply (st_hok _ _ _ _ _ _ _ M) in H. apply (st_visw _ _ _ _ _ _ _ _ M) in Hv.
    apply (st_hpw _ _ _ _ _ _ _ _ M) in Hh. apply (st_pro _ _ _ _ _ _ _ M) in Pr.
    apply (fr_npub _ _ _ _ _ _ _ Fr0) in Np. apply (fr_own _ _ _ _ _ _ _ _ _ Fr0) in Ow.
    assert (Cl1 : multi o = true ∨ clean w1) by (destruct Cl as [|Cl]; [by left|right; by eapply fr_clean]).
    pose proof (TI_inv _ _ _ _ _ _ _ T) as I1.
    split; [apply nub_cas_ent; [by eapply hok_tok|by eapply inb_of|]|].
    { intros p E. rewrite Ecp in E. injection E as <-. by apply pro_nf. }
    intros x σ' Ef. destruct (eff_cas_ent _ _ _ _ _ _ _ _ _ _ Ef) as [IB Ec]. pose proof (sn_cas_ent _ _ _ _ _ _ _ _ _ _ Ef) as Ed.
    change (core_of w1.1) with (wc w1) in *. destruct x as [[]|f].
    - destruct Ec as (En & Ec).
      assert (SS : slotstep (wc w1) (core_of σ') (th tb) i (mt (k_sl (wc w1)) (th tb) i) TOMBW []).
      { rewrite Ec. exact (slotstep_upd (wc w1) (th tb) i (Slot (mt (k_sl (wc w1)) (th tb) i) TOMBW) IB). }
      assert (Hp0 : Hp (wc w1) (th tb) i p0) by (unfold Hp; by rewrite En).
      assert (Hk0 : ky (wc w1) p0 = Some k0) by (unfold ky; unfold hpw in Hh; by rewrite Hh).
      assert (C0 : ¬ CP (wc w1) (th tb) i) by (unfold CP; rewrite En, Ecy; done).
      destruct (lift_rem cfg nthr nsh me opid o w1 σ' (th tb) i k0 p0 (ti_wi _ _ _ _ _ _ _ T) (ti_thr _ _ _ _ _ _ _ T)
        Ed SS Hp0 Hk0 C0 Hv (ti_op _ _ _ _ _ _ _ T) Np Cl1 (proj1 Ow) (Ev _ Hh)) as (γ' & pre & Gl & Gp & Pre & Rpl & W2 & G & Mv).
      destruct (nohp_after w1 (core_of σ') (th tb) i p0 k0 _ _ _ T SS) as [N1 N2]; auto.
      eexists. split; [exact W2|]. split; [exact G|]. split; [exact Mv|]. intros T2.
      eapply S1; [exact X|done|exact Mv|done| | | | | |].
      + split; [|done]. unfold wg. cbn [fst snd]. rewrite Gl. apply elem_of_app. right. by apply elem_of_list_singleton.
      + unfold npub, wg. cbn [fst snd]. rewrite Gp. exact Np.
      + unfold hk2. change (wc (σ', ?g)) with (core_of σ'). rewrite (ss_en SS), decide_True by done. split; [done|].
        intros k1 (p1 & P1 & P2). unfold Hp in P1. by rewrite (ss_en SS), decide_True in P1 by done.
      + destruct Ow as [O1 O2]. unfold own, wr. cbn [fst snd rs_own rs_pend r_own r_pend]. rewrite !upd1_eq. unfold wr in *. by rewrite O2.
      + assert (GN : goneL (g_log γ') p0).
        { rewrite Gl. apply goneL_app. right. eexists. split; [by apply elem_of_list_singleton|done]. }
        unfold rets, nohp, rtw. change (wc (σ', ?g)) with (core_of σ'). unfold gone, wg. cbn [fst snd].
        destruct (e_borrowed cur) eqn:Eb; [split; [done|]; intros t i' Lt' _; by apply N1|]. exists (rt (wc w1)). rewrite (ss_rtc SS). split; [done|].
        split; [done|]. intros t i' Lt' _. apply N2; [by rewrite En|done].
      + exists pre. exact Gl.
    - destruct Ec as (-> & NE & Ec). pose proof (cas_ent_fail _ _ _ _ _ _ _ _ _ Ef) as ->.
      apply (act_same w1 (λ w2, WP (k (inr (en (k_sl (wc w1)) (th tb) i))) Q w2)); [done|done|]. apply S2; auto.
  Qed.
End rules2.
