(** World-level versions of publication, replacement, removal, and of the bookkeeping steps. *)
From Verif Require Export IncLift2.

Section lift.
  Context {K V : Type} {Keq : EqDecision K} (cfg : config K) (nthr nsh : nat).
  Notation core := (core K V). Notation ghost := (@ghost K). Notation event := (event K).
  Notation Inv := (Inv cfg). Notation WI := (WI cfg nthr nsh). Notation world := (@world K V). Notation rghost := (@rghost K V).
  Notation fr := (fr cfg nthr nsh). Notation fx := (fx cfg nthr nsh). Notation mv := (mv cfg nthr nsh).
  Notation CT := (CT nthr nsh). Notation ix := (ix cfg). Notation passes := (passes cfg). Notation visited := (visited cfg).

  Lemma CT_pend (γ γ' : ghost) (ρ : rghost) d me z z' : CT γ ρ d → me < nthr →
    (z' = r_pend ρ me + z)%Z → (Z.of_nat (n_ins γ') - Z.of_nat (n_rem γ') = Z.of_nat (n_ins γ) - Z.of_nat (n_rem γ) + z)%Z →
    CT γ' (rs_pend me z' ρ) d.
  Proof.
    intros [C1 C2] L -> E. split; [done|]. cbn [rs_pend r_pend]. rewrite zsum_upd1 by done. rewrite E, <- C2.
    set (A := zsum (d_cnt d)). set (B := zsum _). lia.
  Qed.
  Lemma CT_own (γ : ghost) (ρ : rghost) d me x : CT γ ρ d → CT γ (rs_own me x ρ) d.
  Proof. intros [C1 C2]. by split. Qed.
  Lemma land_le_mask a b : Nat.land a b ≤ b.
  Proof.
    assert (E : (Nat.land a b + Nat.ldiff b a = b)%nat).
    { rewrite Nat.add_nocarry_lxor.
      - apply Nat.bits_inj. intros n. rewrite Nat.lxor_spec, Nat.land_spec, Nat.ldiff_spec. by destruct (Nat.testbit a n), (Nat.testbit b n).
      - apply Nat.bits_inj. intros n. rewrite Nat.land_spec, Nat.land_spec, Nat.ldiff_spec, Nat.bits_0. by destruct (Nat.testbit a n), (Nat.testbit b n). }
    lia.
  Qed.

  (** ** Publication of an insertion *)
  Lemma lift_ins me opid o (w : world) σ' t0 i0 q0 k0 v0 : WI w → me < nthr →
    let c := wc w in let γ := wg w in let c' := core_of σ' in let n := length (k_hp c) in
    side_of σ' = wd w → inb c t0 i0 →
    slotstep c c' t0 i0 (mt (k_sl c) t0 i0) (EW (Some n) false false false) [(k0, v0)] →
    en (k_sl c) t0 i0 = NULLW → visited c t0 k0 → passes c t0 k0 q0 → q0 ≤ lim c t0 → ix c t0 k0 q0 = i0 →
    r_ops (wr w) !! opid = Some o → unused γ opid →
    (∀ h, h !! n = Some (k0, v0) → evok h o (Ev k0 opid None (Some n))) →
    let γ' := Gh (g_log γ) (g_pub γ ++ [(opid, Some (t0, i0))]) (g_ph γ) (g_pr γ) in
    let w' := (σ', (γ', rs_pend me (r_pend (wr w) me + 1)%Z (wr w))) in
    WI w' ∧ wgrd me opid w w' ∧ mv me w w'.
  Proof.
    intros W Ltid c γ c' n Ed B SS Hn V0 P0 Q0 Eix Ho U Hev γ' w'. pose proof W as [I RC0 E0 R0 C0]. fold c γ in I, RC0, E0, R0, C0.
    destruct (step_ins cfg c γ c' opid t0 i0 q0 k0 v0 I B SS Hn V0 P0 Q0 Eix) as (I' & X0 & Xp).
    fold γ' in I', X0, Xp.
    assert (HPe : ∀ t i x, Hp c' t i x ↔ (t = t0 ∧ i = i0 ∧ x = n) ∨ Hp c t i x).
    { intros t i x. unfold Hp. rewrite (ss_en SS). case_decide as D.
      - destruct D as [-> ->]. rewrite Hn. cbn. split; [intros [= ->]; auto|intros [(_ & _ & ->)|]; done].
      - split; [auto|]. intros [(-> & -> & _)|?]; [naive_solver|done]. }
    assert (Er : rt c' = rt c) by (apply (ss_rtc SS)).
    assert (En : nt c' = nt c) by apply SS.
    assert (Eh : k_hp c' = k_hp c ++ [(k0, v0)]) by apply SS.
    assert (Epl : length (g_pub γ) = n) by apply (i_publen _ _ _ I).
    assert (ENO : ∀ t i, ¬ (t = t0 ∧ i = i0) → en (k_sl c') t i = en (k_sl c) t i).
    { intros t i N. rewrite (ss_en SS). by rewrite decide_False. }
    assert (NH0 : ∀ x, ¬ Hp c t0 i0 x) by (intros x X; unfold Hp in X; by rewrite Hn in X).
    assert (NG : ¬ gone γ n). { intros G. apply (rc_lt _ _ _ RC0) in G. unfold n in G. lia. }
    assert (FRN : ∀ t i x, Hp c t i x → x ≠ n). { intros t i x X ->. apply (i_ptr _ _ _ I) in X. unfold n in X. lia. }
    assert (W' : WI w').
    { split; unfold wc, wg, wr, wd; cbn; rewrite ?Ed; fold c'; fold (wg w) (wr w) (wd w) γ.
      - done.
      - split; rewrite ?Er; try apply RC0.
        + intros NB t t' i i' x L X Y. apply HPe in X as [(-> & -> & ->)|X]; apply HPe in Y as [(-> & -> & E)|Y].
          * lia.
          * by apply FRN in Y.
          * by apply FRN in X.
          * rewrite ENO by (intros [-> ->]; by eapply NH0). by eapply (rc_borrow _ _ _ RC0).
        + intros x t i G L X. apply HPe in X as [(-> & -> & ->)|X]; [done|]. unfold CD. rewrite ENO by (intros [-> ->]; by eapply NH0).
          by eapply (rc_gone _ _ _ RC0).
        + intros x G. apply (rc_lt _ _ _ RC0) in G. rewrite Eh, app_length. lia.
      - eapply (EO_publish c' γ); [| |done|done|done| |].
        + eapply (EO_hp c); [|exact E0|rewrite Eh; by eexists|reflexivity|reflexivity].
          intros e x He Hn0. destruct (i_evkey _ _ _ I e x He Hn0) as [Hk' _]. rewrite Hk'. eauto.
        + done.
        + rewrite Epl. unfold ky. rewrite Eh. rewrite list_lookup_middle by done. done.
        + rewrite Epl. apply Hev. rewrite Eh. by rewrite list_lookup_middle by done.
      - eapply (RR_core c); try done.
        + destruct R0. split; assumption.
        + by eapply ext0_alx, (X0 (S opid)); lia.
        + intros t i x X G _. apply HPe in X as [(-> & -> & ->)|X]; [done|done].
        + intros me' t i x Pn L X. apply HPe in X as [(-> & -> & ->)|X]; [|by eapply (rr_pine _ _ _ _ R0)].
          by eapply prot_new.
      - eapply (CT_pend γ); [exact C0|done|reflexivity|].
        assert (NI : n_ins γ' = S (n_ins γ)).
        { unfold n_ins, γ'. cbn. rewrite stdpp.list.filter_app, app_length. rewrite filter_cons_True by (cbn; eauto). cbn. lia. }
        change (n_rem γ') with (n_rem γ). fold γ'. rewrite NI. clear. lia. }
    assert (XL : extl c γ c' γ').
    { split.
      - intros t i x X. left. apply HPe. auto.
      - intros t i x _ _ L X. apply HPe in X as [(-> & -> & ->)|X]; [unfold n in L; lia|done].
      - intros t i x G _ X. apply HPe in X as [(-> & -> & ->)|X]; [done|done].
      - intros t i x k -> Hor X M Hk'. apply HPe in X as [(E & -> & ->)|X].
        + exfalso. rewrite Er in M. destruct M as [M|]; [|lia]. unfold Mt in M. rewrite (ss_mt SS), decide_True in M by done.
          apply (i_claimed _ _ _ I) in M. done.
        + assert (U' : ∃ i0, i0 ≠ opid) by (exists (S opid); lia). destruct U' as [oo Noo].
          by eapply (extl_live_old cfg c γ c' γ' oo); eauto. }
    assert (NU : ¬ unused γ' opid).
    { intros [_ N]. apply (N (length (g_pub γ)) (Some (t0, i0))). unfold γ'. cbn. by rewrite list_lookup_middle. }
    split; [done|]. apply mk_lift; auto.
    - intros me'. unfold wd at 2. cbn. rewrite Ed. by apply extm_same.
    - intros me' Hm. by apply rs_pend_extr.
  Qed.

  (** ** Writes that make an entry obsolete *)
  Section gone.
    Context (c : core) (γ : ghost) (I : Inv c γ) (RC0 : RC cfg c γ).
    Context (t0 i0 p0 : nat) (k0 : K) (Hp0 : Hp c t0 i0 p0) (Hk0 : ky c p0 = Some k0) (C0 : ¬ CP c t0 i0) (V0 : visited c t0 k0).
    Lemma w_root : rt c ≤ t0.
    Proof.
      destruct (decide (rt c ≤ t0)); [done|]. destruct C0. apply (CP_low _ _ _ I); [lia|by eapply visited_al|]. by eapply Hp_inb.
    Qed.
    Lemma w_notgone : ¬ gone γ p0.
    Proof.
      intros G. pose proof (rc_gone _ _ _ RC0 p0 t0 i0 G w_root Hp0) as D. apply C0. by eapply (i_cdcp _ _ _ I).
    Qed.
    Lemma w_only t i : rt c ≤ t → Hp c t i p0 → (t = t0 ∧ i = i0) ∨ CD c t i.
    Proof.
      intros L H. assert (HK0 : HK c t0 i0 k0) by (exists p0; auto). assert (HK1 : HK c t i k0) by (exists p0; auto).
      pose proof w_root as LR. unfold IncGen.Inv, IncGen.visited in I, V0. destruct (c_mode cfg); swap 1 2.
      { destruct V0 as [V1 V2]. assert (t0 = rt c) as -> by lia. left. destruct (decide (t = rt c)) as [->|N].
        - split; [done|]. by eapply (b_u1 _ _ _ I).
        - exfalso. assert (Lt : rt c < t) by lia. assert (X : ∃ i', Hp c (rt c) i' p0 ∧ CP c (rt c) i').
          { destruct (al_dec c t) as [A|A].
            - destruct (b_src _ _ _ I _ _ _ Lt A H) as (i' & X1 & X2 & _). eauto.
            - eapply (b_gsrc _ _ _ I t); [|done|done]. apply (src_root _ _ _ I); [done|by eapply Hp_tab]. }
          destruct X as (i' & X1 & X2). apply C0. rewrite (b_u1 _ _ _ I (rt c) i0 i' k0); [done|done|done|by exists p0]. }
      destruct (lt_eq_lt_dec t t0) as [[X|X]|X].
      - right. by apply (pass_holder cfg _ _ I _ _ k0); [apply V0|].
      - subst. left. split; [done|]. by eapply (ii_u1 _ _ _ I).
      - exfalso. destruct (ii_uniq _ _ _ I t0 t i0 i k0) as [_ [D|(j & P)]]; auto.
        + apply C0. by eapply (ii_cdcp _ _ _ I).
        + pose proof (ii_phase _ _ _ I t0 i0 (Hp_inb _ _ _ _ Hp0)) as PH. unfold phase_ok in PH. rewrite P in PH. apply C0, PH.
    Qed.
    Lemma w_low t i : c_mode cfg ≠ Blocking → t < t0 → rt c ≤ t → Hp c t i p0 → e_borrowed (en (k_sl c) t0 i0) = true.
    Proof. intros NB L1 L2 H. by eapply (rc_borrow _ _ _ RC0). Qed.
  End gone.

  Lemma lift_upd me opid o (w : world) σ' t0 i0 k0 v0 p0 : WI w → me < nthr →
    let c := wc w in let γ := wg w in let c' := core_of σ' in let n := length (k_hp c) in
    side_of σ' = wd w →
    slotstep c c' t0 i0 (mt (k_sl c) t0 i0) (EW (Some n) false false false) [(k0, v0)] →
    Hp c t0 i0 p0 → ky c p0 = Some k0 → ¬ CP c t0 i0 → Mt c t0 i0 → visited c t0 k0 →
    r_ops (wr w) !! opid = Some o → unused γ opid → r_own (wr w) me = None →
    (∀ h, k_hp c `prefix_of` h → h !! n = Some (k0, v0) → evok h o (Ev k0 opid (Some p0) (Some n))) →
    let γ' := Gh (g_log γ ++ [Ev k0 opid (Some p0) (Some n)]) (g_pub γ ++ [(opid, None)]) (g_ph γ) (g_pr γ) in
    let w' := (σ', (γ', rs_own me (Some (REntry p0)) (wr w))) in
    WI w' ∧ wgrd me opid w w' ∧ mv me w w'.
  Proof.
    intros W Ltid c γ c' n Ed SS Hp0 Hk0 C00 M0 V0 Ho U O0 Hev γ' w'. pose proof W as [I RC0 E0 R0 C0]. fold c γ in I, RC0, E0, R0, C0.
    destruct (step_upd cfg c γ c' opid t0 i0 k0 v0 p0 I SS Hp0 Hk0 C00 M0 V0) as (I' & X0 & Xp).
    fold n in I', X0, Xp. fold γ' in I', X0, Xp.
    assert (HPe : ∀ t i x, Hp c' t i x ↔ (t = t0 ∧ i = i0 ∧ x = n) ∨ (¬ (t = t0 ∧ i = i0) ∧ Hp c t i x)).
    { intros t i x. unfold Hp. rewrite (ss_en SS). case_decide as D.
      - destruct D as [-> ->]. cbn. split; [intros [= ->]; auto|intros [(_ & _ & ->)|[? _]]; [done|naive_solver]].
      - split; [auto|]. intros [(-> & -> & _)|[? ?]]; [naive_solver|done]. }
    assert (Er : rt c' = rt c) by (apply (ss_rtc SS)).
    assert (En : nt c' = nt c) by apply SS.
    assert (Eh : k_hp c' = k_hp c ++ [(k0, v0)]) by apply SS.
    assert (Epl : length (g_pub γ) = n) by apply (i_publen _ _ _ I).
    assert (ENO : ∀ t i, ¬ (t = t0 ∧ i = i0) → en (k_sl c') t i = en (k_sl c) t i).
    { intros t i N. rewrite (ss_en SS). by rewrite decide_False. }
    assert (NG : ¬ gone γ n). { intros G. apply (rc_lt _ _ _ RC0) in G. unfold n in G. lia. }
    assert (NG0 : ¬ gone γ p0) by (by eapply w_notgone).
    assert (Np0 : p0 < n) by (by apply (i_ptr _ _ _ I) in Hp0).
    assert (FRN : ∀ t i x, Hp c t i x → x ≠ n). { intros t i x X ->. apply (i_ptr _ _ _ I) in X. unfold n in X. lia. }
    assert (G : ∀ p, gone γ' p ↔ gone γ p ∨ p = p0).
    { intros p. unfold gone, γ'. cbn. rewrite goneL_app. unfold goneL at 2. setoid_rewrite elem_of_list_singleton. naive_solver. }
    assert (W' : WI w').
    { split; unfold wc, wg, wr, wd; cbn; rewrite ?Ed; fold c'; fold (wg w) (wr w) (wd w) γ.
      - done.
      - split; rewrite ?Er; try apply RC0.
        + intros NB t t' i i' x L X Y. apply HPe in X as [(-> & -> & ->)|[NX X]]; apply HPe in Y as [(-> & -> & E)|[NY Y]].
          * lia.
          * by apply FRN in Y.
          * by apply FRN in X.
          * rewrite ENO by done. by eapply (rc_borrow _ _ _ RC0).
        + intros x t i Gx L X. apply G in Gx. apply HPe in X as [(-> & -> & ->)|[NX X]].
          { destruct Gx as [|]; [done|]. lia. }
          unfold CD. rewrite ENO by done. destruct Gx as [Gx| ->]; [by eapply (rc_gone _ _ _ RC0)|].
          destruct (w_only c γ I t0 i0 p0 k0 Hp0 Hk0 C00 V0 t i L X); done.
        + intros x Gx. rewrite Eh, app_length. apply G in Gx as [Gx| ->]; [apply (rc_lt _ _ _ RC0) in Gx|unfold n in Np0]; eapply Nat.lt_le_trans; eauto; apply Nat.le_add_r.
      - eapply (EO_event c' γ _ _ _ o); [|reflexivity|right|done| | |right].
        + eapply (EO_hp c); [|exact E0|rewrite Eh; by eexists|reflexivity|reflexivity].
          intros e x He Hn0. destruct (i_evkey _ _ _ I e x He Hn0) as [Hk' _]. rewrite Hk'. eauto.
        + cbn. split; [done|]. destruct U as [U1 U2]. split; [done|]. split; [by rewrite Epl|]. split; [by eauto|done].
        + apply Hev; rewrite Eh; [by eexists|]. by rewrite list_lookup_middle.
        + cbn. intros ? [= <-]. unfold ky. rewrite Eh. rewrite lookup_app_l by done. done.
        + apply U.
      - eapply (RR_own c c' γ γ' _ _ _ me p0); try done.
        + by eapply ext0_alx, (X0 (S opid)); lia.
        + intros t i x X Gx _. apply HPe in X as [(-> & -> & ->)|[_ X]]; [done|done].
        + intros me' t i x Pn L X. apply HPe in X as [(-> & -> & ->)|[_ X]]; [|by eapply (rr_pine _ _ _ _ R0)].
          by eapply prot_new.
      - apply CT_own. destruct C0 as [C1 C2]. split; [exact C1|].
        assert (NI : n_ins γ' = n_ins γ).
        { unfold n_ins, γ'. cbn. rewrite stdpp.list.filter_app, app_length. rewrite filter_cons_False by (cbn; by intros [? ?]). cbn. lia. }
        assert (NR : n_rem γ' = n_rem γ).
        { unfold n_rem, γ'. cbn. rewrite stdpp.list.filter_app, app_length. rewrite filter_cons_False by (cbn; done). cbn. lia. }
        fold γ'. rewrite NI, NR. exact C2. }
    assert (XL : extl c γ c' γ').
    { split.
      - intros t i x X. destruct (decide (t = t0 ∧ i = i0)) as [[-> ->]|N]; [right; apply G; right; unfold Hp in *; congruence|].
        left. apply HPe. auto.
      - intros t i x _ _ L X. apply HPe in X as [(-> & -> & ->)|[_ X]]; [unfold n in L; lia|done].
      - intros t i x Gx _ X. apply HPe in X as [(-> & -> & ->)|[_ X]]; [done|done].
      - intros t i x k -> Hor X M Hk'. apply HPe in X as [(E & -> & ->)|[_ X]].
        + exists (length (g_log γ')). unfold γ'. cbn. rewrite app_length. cbn. split; [lia|]. split; [lia|].
          rewrite rp_all by (rewrite app_length; cbn; lia). rewrite replay_snoc. cbn.
          assert (k = k0). { unfold ky in Hk'. rewrite Eh in Hk'. rewrite list_lookup_middle in Hk' by done. cbn in Hk'. congruence. }
          subst. by rewrite decide_True.
        + assert (U' : ∃ i0, i0 ≠ opid) by (exists (S opid); lia). destruct U' as [oo Noo].
          by eapply (extl_live_old cfg c γ c' γ' oo); eauto. }
    assert (NU : ¬ unused γ' opid).
    { intros [_ N]. apply (N (length (g_pub γ)) None). unfold γ'. cbn. by rewrite list_lookup_middle. }
    split; [done|]. apply mk_lift; auto.
    - intros me'. unfold wd at 2. cbn. rewrite Ed. by apply extm_same.
    - intros me' Hm. by apply rs_own_extr.
  Qed.

  Lemma lift_rem me opid o (w : world) σ' t0 i0 k0 p0 : WI w → me < nthr →
    let c := wc w in let γ := wg w in let c' := core_of σ' in
    side_of σ' = wd w →
    slotstep c c' t0 i0 (mt (k_sl c) t0 i0) TOMBW [] →
    Hp c t0 i0 p0 → ky c p0 = Some k0 → ¬ CP c t0 i0 → visited c t0 k0 →
    r_ops (wr w) !! opid = Some o → (∀ p h, g_pub γ !! p ≠ Some (opid, h)) → (multi o = true ∨ unused γ opid) → r_own (wr w) me = None →
    evok (k_hp c) o (Ev k0 opid (Some p0) None) →
    ∃ γ' pre, g_log γ' = (g_log γ ++ pre) ++ [Ev k0 opid (Some p0) None] ∧ g_pub γ' = g_pub γ ∧ (∀ e, e ∈ pre → ev_op e ≠ opid) ∧
      replay (g_log γ ++ pre) k0 = Some p0 ∧
      let w' := (σ', (γ', rs_pend me (r_pend (wr w) me - 1)%Z (rs_own me (Some (REntry p0)) (wr w)))) in
      WI w' ∧ wgrd me opid w w' ∧ mv me w w'.
  Proof.
    intros W Ltid c γ c' Ed SS Hp0 Hk0 C00 V0 Ho NP Hm O0 Hev. pose proof W as [I RC0 E0 R0 C0]. fold c γ in I, RC0, E0, R0, C0.
    destruct (step_rem cfg c γ c' opid t0 i0 k0 p0 I SS Hp0 Hk0 C00 V0) as (γ' & pre & EL & EP & Eph & Epr & PRE & RPL & I' & X0 & Xp).
    assert (PE : pubevs γ pre).
    { intros e He. destruct PRE as [[-> _]|(o0 & h & -> & P & NL)]; [by apply elem_of_nil in He|].
      apply elem_of_list_singleton in He as ->. cbn. split; [done|]. eauto. }
    assert (PN : ∀ e, e ∈ pre → ev_op e ≠ opid).
    { intros e He E. destruct (PE e He) as (_ & p & h & _ & P & _). rewrite E in P. by apply NP in P. }
    exists γ', pre. split; [done|]. split; [done|]. split; [done|]. split; [done|]. intros w'.
    assert (HPe : ∀ t i x, Hp c' t i x ↔ (¬ (t = t0 ∧ i = i0) ∧ Hp c t i x)).
    { intros t i x. unfold Hp. rewrite (ss_en SS). case_decide as D.
      - destruct D as [-> ->]. cbn. split; [done|intros [? _]; naive_solver].
      - naive_solver. }
    assert (Er : rt c' = rt c) by (apply (ss_rtc SS)).
    assert (En : nt c' = nt c) by apply SS.
    assert (Eh : k_hp c' = k_hp c) by (rewrite (ss_hp SS); apply app_nil_r).
    assert (ENO : ∀ t i, ¬ (t = t0 ∧ i = i0) → en (k_sl c') t i = en (k_sl c) t i).
    { intros t i N. rewrite (ss_en SS). by rewrite decide_False. }
    assert (NG0 : ¬ gone γ p0) by (by eapply w_notgone).
    assert (Np0 : p0 < length (k_hp c)) by (by apply (i_ptr _ _ _ I) in Hp0).
    set (γ1 := Gh (g_log γ ++ pre) (g_pub γ) (g_ph γ) (g_pr γ)).
    assert (G1 : ∀ p, gone γ1 p ↔ gone γ p) by (intros; by eapply gone_pubevs).
    assert (G : ∀ p, gone γ' p ↔ gone γ p ∨ p = p0).
    { intros p. rewrite <- G1. unfold gone. rewrite EL. cbn. rewrite goneL_app. unfold goneL at 2. setoid_rewrite elem_of_list_singleton. naive_solver. }
    assert (NR1 : n_rem γ1 = n_rem γ) by (by eapply n_rem_pubevs).
    assert (KY : ∀ p, ky c' p = ky c p) by (intros; unfold ky; by rewrite Eh).
    assert (W' : WI w').
    { split; unfold wc, wg, wr, wd; cbn; rewrite ?Ed; fold c'; fold (wg w) (wr w) (wd w) γ.
      - done.
      - split; rewrite ?Er, ?Eh.
        + intros NB t t' i i' x L X Y. apply HPe in X as [NX X]; apply HPe in Y as [NY Y].
          rewrite ENO by done. by eapply (rc_borrow _ _ _ RC0).
        + intros x t i Gx L X. apply G in Gx. apply HPe in X as [NX X].
          unfold CD. rewrite ENO by done. destruct Gx as [Gx| ->]; [by eapply (rc_gone _ _ _ RC0)|].
          destruct (w_only c γ I t0 i0 p0 k0 Hp0 Hk0 C00 V0 t i L X); done.
        + intros x Gx. apply G in Gx as [Gx| ->]; [by apply (rc_lt _ _ _ RC0) in Gx|done].
      - assert (E1 : EO c γ1 (r_ops (wr w))).
        { eapply (EO_pubevs cfg c γ); try done.
          - intros e p He Hn. rewrite <- KY. apply (i_evkey _ _ _ I' e p); [|done]. rewrite EL. rewrite !elem_of_app. auto.
          - intros n n' e e' p H1 H2. apply (i_news _ _ _ I'); rewrite EL; cbn in H1, H2; by apply lookup_app_l_Some. }
        eapply (EO_hp c); [| |by rewrite Eh|reflexivity|reflexivity].
        { intros e p He Hn. rewrite <- KY. destruct (i_evkey _ _ _ I' e p He Hn) as [-> _]. eauto. }
        eapply (EO_event c γ1 _ _ _ o); [done|done|left|done|done| |].
        + cbn. split; [done|]. done.
        + cbn. by intros ? [= <-].
        + destruct Hm as [Hm|[U1 U2]]; [auto|]. right. cbn. intros e [He|He]%elem_of_app; auto.
      - eapply (RR_own c c' γ γ' _ _ _ me p0); try done.
        + by eapply ext0_alx, (X0 (S opid)); lia.
        + intros t i x X Gx _. by apply HPe in X as [_ X].
        + intros me' t i x Pn L X. apply HPe in X as [_ X]. by eapply (rr_pine _ _ _ _ R0).
      - eapply (CT_pend γ _ _ _ _ (-1)%Z); [apply CT_own; exact C0|done|reflexivity|].
        assert (NI : n_ins γ' = n_ins γ) by (unfold n_ins; by rewrite EP).
        assert (NR : n_rem γ' = S (n_rem γ)).
        { rewrite <- NR1. unfold n_rem. rewrite EL. cbn. rewrite (stdpp.list.filter_app _ _ [_]), app_length. rewrite filter_cons_True by (cbn; done). cbn. lia. }
        rewrite NI, NR. clear. lia. }
    assert (XL : extl c γ c' γ').
    { split.
      - intros t i x X. destruct (decide (t = t0 ∧ i = i0)) as [[-> ->]|N]; [right; apply G; right; unfold Hp in *; congruence|].
        left. apply HPe. auto.
      - intros t i x _ _ L X. by apply HPe in X as [_ X].
      - intros t i x Gx _ X. by apply HPe in X as [_ X].
      - intros t i x k -> Hor X M Hk'. apply HPe in X as [_ X].
        assert (U' : ∃ i0, i0 ≠ opid) by (exists (S opid); lia). destruct U' as [oo Noo].
        by eapply (extl_live_old cfg c γ c' γ' oo); eauto. }
    assert (NU : ¬ unused γ' opid).
    { intros [N _]. apply (N (Ev k0 opid (Some p0) None)); [|done]. rewrite EL. apply elem_of_app. right. by apply elem_of_list_singleton. }
    split; [done|]. apply mk_lift; auto.
    - intros me'. unfold wd at 2. cbn. rewrite Ed. by apply extm_same.
    - intros me' Hm'. unfold wr at 2. cbn. eapply extr_trans; [by apply (rs_own_extr me (Some (REntry p0)))|by apply rs_pend_extr].
  Qed.

  (** ** Bookkeeping *)
  Lemma lift_count me (w : world) σ' z : WI w → me < nthr → core_of σ' = wc w → side_of σ' = d_count me z (wd w) →
    let w' := (σ', (wg w, rs_pend me (r_pend (wr w) me - z)%Z (wr w))) in
    WI w' ∧ ∀ opid, wgrd me opid w w' ∧ fx me opid w w'.
  Proof.
    intros W Ltid Ec Ed w'. pose proof W as [I RC0 E0 R0 C0].
    assert (W' : WI w').
    { split; unfold w'; unfold wc, wg, wr, wd; cbn [fst snd]; rewrite ?Ec, ?Ed; fold (wg w) (wr w); try done.
      - destruct R0. split; assumption.
      - destruct C0 as [[C1 C1'] C2]. split; cbn [d_count d_cnt r_pend rs_pend].
        + by rewrite alter_length.
        + rewrite zsum_upd1, zsum_alter by (rewrite ?C1; try done; pose proof (land_le_mask me (nsh - 1)); lia). lia. }
    split; [done|]. intros opid. apply mk_lift_all; auto.
    - intros o. unfold w'. unfold wc at 2. cbn [fst]. rewrite Ec. apply ext0_refl.
    - intros me' _. unfold w'. unfold wc at 2. cbn [fst]. rewrite Ec. apply extp_refl.
    - unfold w'. unfold wc at 2. cbn [fst]. rewrite Ec. by eapply extl_refl.
    - intros me'. unfold w'. unfold wd at 2. cbn [fst]. rewrite Ed. split; auto.
    - intros me' Hm. unfold w'. by apply rs_pend_extr.
  Qed.

  Lemma RR_retire (c : core) γ ρ d me ob : RR c γ ρ d → (∀ t, t < rt c → t < nt c) → r_own ρ me = Some ob →
    (∀ p t i, ob = REntry p → rt c ≤ t → ¬ Hp c t i p) → RR c γ (rs_own me None ρ) (d_retire ob d).
  Proof.
    intros R RLE O0 Hob.
    assert (OWN : ∀ me' x, r_own (rs_own me None ρ) me' = Some x → me' ≠ me ∧ r_own ρ me' = Some x).
    { intros me' x X. cbn in X. destruct (decide (me' = me)) as [-> |N]; [by rewrite upd1_eq in X|]. by rewrite upd1_ne in X. }
    assert (OWN' : ∀ me' x, r_own ρ me' = Some x → me' = me ∨ r_own (rs_own me None ρ) me' = Some x).
    { intros me' x X. destruct (decide (me' = me)) as [-> |N]; [auto|]. right. cbn. by rewrite upd1_ne. }
    assert (NE : ob ∉ d_ever d).
    { destruct ob as [p|t]; [by apply (rr_eown _ _ _ _ R) in O0 as (_ & ? & _)|by apply (rr_town _ _ _ _ R) in O0 as (_ & ?)]. }
    assert (EV : ∀ x, x ∈ d_ever (d_retire ob d) ↔ x = ob ∨ x ∈ d_ever d) by (intros; cbn; apply elem_of_cons).
    assert (RT : ∀ it, it ∈ d_ret (d_retire ob d) ↔ it ∈ d_ret d ∨ it = RItem ob (d_pins d)).
    { intros it. cbn. rewrite elem_of_app. setoid_rewrite elem_of_list_singleton. done. }
    split; try apply R.
    - intros t X. apply EV. right. by apply R.
    - intros t X. apply EV in X as [<- |X]; [by apply (rr_town _ _ _ _ R) in O0 as (? & _)|by apply R].
    - intros me' t X. apply OWN in X as [N X]. destruct (rr_town _ _ _ _ R _ _ X) as [A B]. split; [done|].
      intros Y; apply EV in Y as [<- |Y]; [|done]. by apply N, (rr_inj _ _ _ _ R me' me _ X).
    - intros me' me'' x X Y. apply OWN in X as [_ X]. apply OWN in Y as [_ Y]. by eapply R.
    - intros t L Al. destruct (rr_tall _ _ _ _ R t L Al) as [A|(me' & X)]; [left; apply EV; auto|].
      destruct (OWN' _ _ X) as [-> |Y]; [left; apply EV; left; congruence|right; eauto].
    - intros p X. apply EV in X as [<- |X]; [|by apply R]. split; [by apply (rr_eown _ _ _ _ R) in O0 as (? & _)|].
      intros t i L. by eapply Hob.
    - intros me' p X. apply OWN in X as [N X]. destruct (rr_eown _ _ _ _ R _ _ X) as (A & B & C). split; [done|]. split; [|done].
      intros Y; apply EV in Y as [<- |Y]; [|done]. by apply N, (rr_inj _ _ _ _ R me' me _ X).
    - intros t p X. destruct (rr_edef _ _ _ _ R _ _ X) as (A & B & C). split; [done|]. split; [|done].
      intros Y; apply EV in Y as [<- |Y]; [|done]. apply (rr_eown _ _ _ _ R) in O0 as (_ & _ & O0). by eapply O0.
    - intros p G. destruct (rr_eall _ _ _ _ R p G) as [A|[(me' & X)|A]]; [left; apply EV; auto| |auto].
      destruct (OWN' _ _ X) as [-> |Y]; [left; apply EV; left; congruence|eauto].
    - intros it X. apply RT in X as [X| ->].
      + destruct (rr_ret _ _ _ _ R it X) as [A B]. split; [apply EV; auto|done].
      + cbn. split; [by left|]. destruct ob as [p|t].
        * intros X. apply NE. by apply R.
        * destruct (rr_town _ _ _ _ R _ _ O0) as [L _]. destruct (rr_len _ _ _ _ R) as [L1 _].
          destruct (lookup_lt_is_Some_2 (d_fr d) t) as [b Hb]; [rewrite L1; auto|]. destruct b; [|done].
          exfalso. apply NE. by apply R.
    - cbn. rewrite map_app. apply NoDup_app. split; [apply R|]. split; [|apply NoDup_singleton].
      intros x X Y. cbn in Y. apply elem_of_list_singleton in Y as ->. apply elem_of_list_fmap in X as (it & -> & X).
      apply NE. by apply (rr_ret _ _ _ _ R) in X as [X _].
    - intros p X. apply EV. right. by apply R.
    - intros x X. apply EV in X as [-> |X].
      + left. eexists. split; [apply RT; right; reflexivity|done].
      + destruct (rr_all _ _ _ _ R x X) as [(it & A & B)|A]; [left|auto]. exists it. split; [apply RT; auto|done].
    - cbn. constructor; [done|apply R].
    - intros it me' X Y. cbn. apply RT in X as [X| ->]; [by eapply R|done].
    - intros me' t P L T. destruct (rr_pint _ _ _ _ R me' t P L T) as [A B]. split; [done|]. intros it X E.
      apply RT in X as [X| ->]; [by apply B|done].
    - intros me' t i p P L H. destruct (rr_pine _ _ _ _ R me' t i p P L H) as [A B]. split; [done|]. intros it X E.
      apply RT in X as [X| ->]; [by apply B|done].
  Qed.

  Lemma rt_nt (c : core) γ t : Inv c γ → t < rt c → t < nt c.
  Proof. intros I L. pose proof (i_root _ _ _ I) as X. revert L X. unfold rt. destruct (k_rt c); cbn; lia. Qed.

  Lemma lift_retire me (w : world) σ' ob : WI w → core_of σ' = wc w → side_of σ' = d_retire ob (wd w) →
    r_own (wr w) me = Some ob → (∀ p t i, ob = REntry p → rt (wc w) ≤ t → ¬ Hp (wc w) t i p) →
    let w' := (σ', (wg w, rs_own me None (wr w))) in
    WI w' ∧ ∀ opid, wgrd me opid w w' ∧ fx me opid w w'.
  Proof.
    intros W Ec Ed O0 Hob w'. pose proof W as [I RC0 E0 R0 C0].
    assert (W' : WI w').
    { split; unfold w'; unfold wc, wg, wr, wd; cbn [fst snd]; rewrite ?Ec, ?Ed; fold (wg w) (wr w); try done.
      - eapply RR_retire; eauto. intros t. by apply (rt_nt _ _ _ I).
      - destruct C0. by split. }
    split; [done|]. intros opid. apply mk_lift_all; auto.
    - intros o. unfold w'. unfold wc at 2. cbn [fst]. rewrite Ec. apply ext0_refl.
    - intros me' _. unfold w'. unfold wc at 2. cbn [fst]. rewrite Ec. apply extp_refl.
    - unfold w'. unfold wc at 2. cbn [fst]. rewrite Ec. by eapply extl_refl.
    - intros me'. unfold w'. unfold wd at 2. cbn [fst]. rewrite Ed. split; auto. intros p Pn [A B]. split; [done|].
      intros it X E. cbn in X. apply elem_of_app in X as [X|X%elem_of_list_singleton]; [by apply B|]. subst. done.
    - intros me' Hm. unfold w'. by apply rs_own_extr.
  Qed.

  Lemma lift_defer me (w : world) σ' t p : WI w → core_of σ' = wc w → side_of σ' = d_defer t p (wd w) →
    r_own (wr w) me = Some (REntry p) → t < nt (wc w) → tok (wd w) t → (∀ t' i, t < t' → al (wc w) t' → ¬ Hp (wc w) t' i p) →
    let w' := (σ', (wg w, rs_own me None (wr w))) in
    WI w' ∧ ∀ opid, wgrd me opid w w' ∧ fx me opid w w'.
  Proof.
    intros W Ec Ed O0 Lt Tk Hob w'. pose proof W as [I RC0 E0 R0 C0].
    assert (L2 : length (d_df (wd w)) = nt (wc w)) by apply R0.
    assert (DF : ∀ t', fld [] (d_df (d_defer t p (wd w))) t' = if decide (t' = t) then p :: fld [] (d_df (wd w)) t else fld [] (d_df (wd w)) t').
    { intros t'. unfold d_defer. cbn [d_df]. apply fld_insert. lia. }
    assert (DFin : ∀ t' x, x ∈ fld [] (d_df (d_defer t p (wd w))) t' ↔ (t' = t ∧ x = p) ∨ x ∈ fld [] (d_df (wd w)) t').
    { intros t' x. rewrite DF. case_decide as D; [subst; rewrite elem_of_cons|]; naive_solver. }
    assert (OWN : ∀ me' x, r_own (rs_own me None (wr w)) me' = Some x → me' ≠ me ∧ r_own (wr w) me' = Some x).
    { intros me' x X. cbn in X. destruct (decide (me' = me)) as [-> |N]; [by rewrite upd1_eq in X|]. by rewrite upd1_ne in X. }
    assert (OWN' : ∀ me' x, r_own (wr w) me' = Some x → me' = me ∨ r_own (rs_own me None (wr w)) me' = Some x).
    { intros me' x X. destruct (decide (me' = me)) as [-> |N]; [auto|]. right. cbn. by rewrite upd1_ne. }
    destruct (rr_eown _ _ _ _ R0 _ _ O0) as (GP & NE & ND).
    assert (W' : WI w').
    { split; unfold w'; unfold wc, wg, wr, wd; cbn [fst snd]; rewrite ?Ec, ?Ed; fold (wg w) (wr w) (wd w); try done.
      - split; try apply R0.
        + unfold d_defer. cbn [d_fr d_df]. rewrite insert_length. apply R0.
        + intros me' t' X. apply OWN in X as [_ X]. by eapply R0.
        + intros me' me'' x X Y. apply OWN in X as [_ X]. apply OWN in Y as [_ Y]. by eapply R0.
        + intros t' L Al. destruct (rr_tall _ _ _ _ R0 t' L Al) as [A|(me' & X)]; [auto|].
          destruct (OWN' _ _ X) as [-> |Y]; [congruence|right; eauto].
        + intros me' x X. apply OWN in X as [N X]. destruct (rr_eown _ _ _ _ R0 _ _ X) as (A & B & C). split; [done|]. split; [done|].
          intros t' [[-> ->]|Y]%DFin; [|by eapply C]. apply N. by eapply (rr_inj _ _ _ _ R0).
        + intros t' x X. apply DFin in X as [[-> ->]|X]; [|by apply R0]. split; [done|]. split; [done|]. auto.
        + intros t'. rewrite DF. case_decide; [|by apply R0]. constructor; [apply ND|apply R0].
        + intros t1 t2 x X Y. apply DFin in X as [[-> ->]|X]; apply DFin in Y as [[-> E]|Y].
          * done.
          * exfalso. exact (ND _ Y).
          * subst. exfalso. exact (ND _ X).
          * exact (rr_dinj _ _ _ _ R0 _ _ _ X Y).
        + intros t' X. cbn in X. rewrite DF. case_decide; [|by apply R0]. subst. unfold tok in Tk. exfalso. unfold wd, side_of in Tk. cbn in Tk. congruence.
        + intros x G. destruct (rr_eall _ _ _ _ R0 x G) as [A|[(me' & X)|(t' & A)]]; [auto| |].
          * destruct (OWN' _ _ X) as [-> |Y]; [|eauto]. right. right. exists t. apply DFin. left. split; congruence.
          * right. right. exists t'. apply DFin. auto.
      - destruct C0. by split. }
    split; [done|]. intros opid. apply mk_lift_all; auto.
    - intros o. unfold w'. unfold wc at 2. cbn [fst]. rewrite Ec. apply ext0_refl.
    - intros me' _. unfold w'. unfold wc at 2. cbn [fst]. rewrite Ec. apply extp_refl.
    - unfold w'. unfold wc at 2. cbn [fst]. rewrite Ec. by eapply extl_refl.
    - intros me'. unfold w'. unfold wd at 2. cbn [fst]. rewrite Ed. split; auto.
    - intros me' Hm. unfold w'. by apply rs_own_extr.
  Qed.
End lift.
