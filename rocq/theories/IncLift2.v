(** World-level versions of the writing steps. *)
From Verif Require Export IncLift.

Section lift.
  Context {K V : Type} {Keq : EqDecision K} (cfg : config K) (nthr nsh : nat).
  Notation core := (core K V). Notation ghost := (@ghost K). Notation event := (event K).
  Notation Inv := (Inv cfg). Notation WI := (WI cfg nthr nsh). Notation world := (@world K V). Notation rghost := (@rghost K V).
  Notation fr := (fr cfg nthr nsh). Notation fx := (fx cfg nthr nsh). Notation mv := (mv cfg nthr nsh).
  Notation CT := (CT nthr nsh). Notation ix := (ix cfg). Notation passes := (passes cfg). Notation visited := (visited cfg).

  Definition rs_own (me : nat) (x : option robj) (ρ : rghost) : rghost := RG (r_base ρ) (upd1 (r_own ρ) me x) (r_pend ρ) (r_ops ρ).
  Definition rs_pend (me : nat) (z : Z) (ρ : rghost) : rghost := RG (r_base ρ) (r_own ρ) (upd1 (r_pend ρ) me z) (r_ops ρ).

  Lemma rs_own_extr me x ρ me' : me' ≠ me → extr me' ρ (rs_own me x ρ).
  Proof. intros. split; cbn; [by rewrite upd1_ne|done]. Qed.
  Lemma rs_pend_extr me x ρ me' : me' ≠ me → extr me' ρ (rs_pend me x ρ).
  Proof. intros. split; cbn; [done|by rewrite upd1_ne]. Qed.

  Lemma mk_lift me opid (w w' : world) : WI w → WI w' → r_ops (wr w') = r_ops (wr w) →
    (∀ o, o ≠ opid → ext0 o (wc w) (wg w) (wc w') (wg w')) → ¬ unused (wg w') opid →
    (∀ me', me' ≠ me → extp me' (wc w) (wg w) (wc w') (wg w')) →
    extl (wc w) (wg w) (wc w') (wg w') →
    (∀ me', extm me' (wr w) (wd w) (wr w') (wd w')) → (∀ me', me' ≠ me → extr me' (wr w) (wr w')) →
    wgrd me opid w w' ∧ mv me w w'.
  Proof.
    intros I I' Eo X0 U Xp Xl Xm Xr. split.
    - split; [done|]. intros me' i' Hm Hi. split; auto.
    - right. split_and!; auto. split; auto. intros i Hi. apply X0. intros ->. done.
  Qed.
  Lemma mk_lift_all me opid (w w' : world) : WI w → WI w' → r_ops (wr w') = r_ops (wr w) →
    (∀ o, ext0 o (wc w) (wg w) (wc w') (wg w')) →
    (∀ me', me' ≠ me → extp me' (wc w) (wg w) (wc w') (wg w')) →
    extl (wc w) (wg w) (wc w') (wg w') →
    (∀ me', extm me' (wr w) (wd w) (wr w') (wd w')) → (∀ me', me' ≠ me → extr me' (wr w) (wr w')) →
    wgrd me opid w w' ∧ fx me opid w w'.
  Proof.
    intros I I' Eo X0 Xp Xl Xm Xr. split.
    - split; [done|]. intros me' i' Hm Hi. split; auto.
    - right. split_and!; auto. split; auto.
  Qed.
  Lemma extm_same me (ρ ρ' : rghost) d : r_base ρ' = r_base ρ → r_ops ρ' = r_ops ρ → extm me ρ d ρ' d.
  Proof. intros E1 E2. split; auto; [by rewrite E1|by rewrite E2]. Qed.

  (** ** Nothing observable changed *)
  Lemma lift_noop me (w : world) σ' : WI w → core_of σ' = wc w → side_of σ' = wd w →
    let w' := (σ', w.2) in WI w' ∧ ∀ opid, wgrd me opid w w' ∧ fr me opid w w'.
  Proof.
    intros I Ec Ed w'. assert (W' : WI w').
    { destruct I as [A B C D E]. unfold w'. split; unfold wc, wd, wg, wr in *; cbn [fst snd] in *; rewrite ?Ec, ?Ed; auto. }
    assert (X : ∀ me' i', wx me' i' w w').
    { intros me' i'. unfold w'. split; unfold wc, wd, wg, wr in *; cbn [fst snd] in *; rewrite ?Ec, ?Ed.
      - apply ext0_refl. - apply extp_refl. - eapply extl_refl. apply I. - apply extm_refl. - apply extr_refl. }
    split; [done|]. intros opid. split.
    - split; [done|]. intros me' i' _ _. apply X.
    - split; [|apply (X me opid)]. right. split_and!; auto. destruct (X me opid). by split.
  Qed.

  (** ** Promotion of the next table *)
  Lemma lift_promote_gen me (w : world) σ' t0 n γ' : WI w →
    let c := wc w in let γ := wg w in let c' := c_rt (Some n) c in
    core_of σ' = c' → side_of σ' = wd w →
    k_rt c = Some t0 → t0 < n → (∀ t, t0 < t → t < n → ¬ al c t) → r_own (wr w) me = None →
    Inv c' γ' → (∀ o, ext0 o c γ c' γ') → (∀ me, extp me c γ c' γ') →
    g_log γ' = g_log γ ++ pevs c γ (lnc c t0) → g_pub γ' = g_pub γ → g_ph γ' = g_ph γ →
    let w' := (σ', (γ', rs_own me (Some (RTable t0)) (wr w))) in
      WI w' ∧ g_ph γ' = g_ph γ ∧ ∀ opid, wgrd me opid w w' ∧ fx me opid w w'.
  Proof.
    intros W c γ c' Ec Ed Rt Ln Nal O0 I' X0 Xp EL EP Eph w'. pose proof W as [I RC0 E0 R0 C0]. fold c γ in I, RC0, E0, R0, C0.
    pose proof (peok_gen cfg _ _ I) as PK.
    set (l := pevs c γ (lnc c t0)) in *.
    assert (PE : pubevs γ l).
    { intros e He. apply (pevs_in _ _ PK) in He as (i & p & k & o & L & F & ->). cbn. split; [done|].
      exists p, (Some (rt c, i)). split; [done|]. split; [by destruct F as (_ & _ & _ & ?)|]. by eapply (fs_nolin _ _ PK). }
    assert (G : ∀ p, gone γ' p ↔ gone γ p) by (intros; by eapply gone_pubevs).
    assert (R : rt c = t0) by (unfold rt; by rewrite Rt).
    assert (R' : rt c' = n) by done.
    assert (HPe : ∀ t i p, Hp c' t i p ↔ Hp c t i p) by done.
    assert (T0 : RTable t0 ∉ d_ever (wd w)).
    { intros X. apply (rr_tever _ _ _ _ R0) in X. lia. }
    assert (W' : WI w').
    { split; unfold wc, wg, wr, wd; cbn; rewrite ?Ec, ?Ed; fold c'.
      - done.
      - split; try apply RC0.
        + intros p t i Gp L H. apply G in Gp. apply (rc_gone _ _ _ RC0 p t i Gp); [fold c'; rewrite R' in L; lia|done].
        + intros p Gp. by apply RC0, G.
      - eapply (EO_hp c); [| |done|reflexivity|reflexivity].
        { intros e p He Hn. destruct (i_evkey _ _ _ I' e p He Hn) as [Hk _]. change (ky c p = Some (ev_key e)) in Hk. rewrite Hk. eauto. }
        eapply (EO_pubevs cfg c γ); eauto.
        + intros e p He Hn. destruct (i_evkey _ _ _ I' e p) as [Hk _]; [rewrite EL; apply elem_of_app; auto|done|]. done.
        + apply (i_news _ _ _ I').
      - fold (wr w) (wd w). assert (OWN : ∀ me' x, r_own (rs_own me (Some (RTable t0)) (wr w)) me' = Some x → (me' = me ∧ x = RTable t0) ∨ (me' ≠ me ∧ r_own (wr w) me' = Some x)).
        { intros me' x X. cbn in X. destruct (decide (me' = me)) as [->|N]; [rewrite upd1_eq in X; left; split; congruence|].
          rewrite upd1_ne in X by done. auto. }
        assert (OWN' : ∀ me' x, r_own (wr w) me' = Some x → r_own (rs_own me (Some (RTable t0)) (wr w)) me' = Some x).
        { intros me' x X. cbn. rewrite upd1_ne; [done|]. intros ->. congruence. }
        split; rewrite ?R'; try apply R0.
        + intros t X. apply (rr_tever _ _ _ _ R0) in X. lia.
        + intros me' t X. apply OWN in X as [[-> [= ->]]|[N X]]; [split; [lia|done]|].
          apply (rr_town _ _ _ _ R0) in X as [? ?]. split; [lia|done].
        + intros me' me'' x X Y. apply OWN in X as [[-> ->]|[N X]]; apply OWN in Y as [[-> E]|[N' Y]]; try done.
          * apply (rr_town _ _ _ _ R0) in Y as [? ?]. lia.
          * subst x. apply (rr_town _ _ _ _ R0) in X as [? ?]. lia.
          * by eapply R0.
        + intros t L Al. destruct (decide (t = t0)) as [->|N].
          * right. exists me. cbn. by rewrite upd1_eq.
          * destruct (rr_tall _ _ _ _ R0 t) as [|(me' & X)]; [|done|auto|right; eauto].
            destruct (decide (t0 < t)) as [Lt|]; [|lia]. by destruct (Nal t Lt L).
        + intros p X. apply (rr_eever _ _ _ _ R0) in X as [A B]. split; [by apply G|]. intros t i L. apply B. lia.
        + intros me' p X. apply OWN in X as [[-> ?]|[N X]]; [done|]. apply (rr_eown _ _ _ _ R0) in X as [A B]. split; [by apply G|done].
        + intros t p X. apply (rr_edef _ _ _ _ R0) in X as (A & B). split; [by apply G|done].
        + intros p X. apply G in X. destruct (rr_eall _ _ _ _ R0 p X) as [|[(me' & Y)|]]; [auto| |auto]. right. left. eauto.
        + intros me' X. cbn. destruct (rr_base _ _ _ _ R0 _ X). split; [lia|done].
      - eapply (CT_same nthr nsh γ); [|done|by eapply n_rem_pubevs]. by destruct C0. }
    split; [done|]. split; [done|]. intros opid. apply mk_lift_all; auto.
    - intros o. unfold wc at 2. cbn. rewrite Ec. apply X0.
    - intros me' _. unfold wc at 2. cbn. rewrite Ec. apply Xp.
    - unfold wc at 2. cbn. rewrite Ec. fold c' c γ. unfold wg. cbn. split; try (by auto).
      intros t i p k -> Hor H M Hk. by eapply (extl_live_old cfg c γ c' γ' 0).
    - intros me'. unfold wd at 2. cbn. rewrite Ed. by apply extm_same.
    - intros me' Hm. unfold wr at 2. cbn. by apply rs_own_extr.
  Qed.
  Lemma lift_promote me (w : world) σ' ch t0 : c_mode cfg = Incremental ch → WI w →
    let c := wc w in let γ := wg w in
    core_of σ' = c_rt (Some (S t0)) c → side_of σ' = wd w →
    k_rt c = Some t0 → S t0 < nt c → (∀ i, i < lnc c t0 → g_ph γ t0 i = PCnt) → r_own (wr w) me = None →
    ∃ γ', let w' := (σ', (γ', rs_own me (Some (RTable t0)) (wr w))) in
      WI w' ∧ g_ph γ' = g_ph γ ∧ ∀ opid, wgrd me opid w w' ∧ fx me opid w w'.
  Proof.
    intros HM W c γ Ec Ed Rt Ln Cn O0. pose proof (Inv_inc _ _ _ _ HM (wi_inv _ _ _ _ W)) as I. fold c γ in I.
    destruct (step_promote cfg c γ t0 I Rt Ln Cn) as (I' & X0 & Xp). eexists.
    apply (lift_promote_gen me w σ' t0 (S t0)); [done|done|done|done|lia|lia|done|by eapply inc_Inv|done|done|done|done|done].
  Qed.
  Lemma lift_promoteB me (w : world) σ' t0 n : c_mode cfg = Blocking → WI w →
    let c := wc w in let γ := wg w in
    core_of σ' = c_rt (Some n) c → side_of σ' = wd w →
    k_rt c = Some t0 → src c n t0 → n < nt c → (∀ i, i < lnc c t0 → g_ph γ n i = PCnt) → r_own (wr w) me = None →
    al c n ∧ ∃ γ', let w' := (σ', (γ', rs_own me (Some (RTable t0)) (wr w))) in
      WI w' ∧ g_ph γ' = g_ph γ ∧ ∀ opid, wgrd me opid w w' ∧ fx me opid w w'.
  Proof.
    intros HM W c γ Ec Ed Rt Sr Ln Cn O0. pose proof (Inv_blk _ _ _ HM (wi_inv _ _ _ _ W)) as I. fold c γ in I.
    destruct (step_promoteB cfg c γ t0 n I Rt Sr Ln Cn) as (I' & X0 & Xp & A). split; [done|]. eexists.
    apply (lift_promote_gen me w σ' t0 n); [done|done|done|done|apply Sr|apply Sr|done|by eapply blk_Inv|done|done|done|done|done].
  Qed.

  (** ** A new table *)
  Lemma lift_newtab me (w : world) σ' (γ' := wg w) : WI w →
    let c := wc w in let γ := wg w in let c' := core_of σ' in
    side_of σ' = d_newtab (wd w) → Inv c' γ' → (∀ o, ext0 o c γ c' γ') → (∀ me', me' ≠ me → extp me' c γ c' γ') →
    rt c' = rt c → nt c' = S (nt c) → k_hp c' = k_hp c → (∀ t i, en (k_sl c') t i = en (k_sl c) t i) →
    let w' := (σ', (γ', wr w)) in WI w' ∧ ∀ opid, wgrd me opid w w' ∧ fr me opid w w'.
  Proof.
    intros W c γ c' Ed I' X0 Xp Er En Eh HE w'. pose proof W as [I RC0 E0 R0 C0]. fold c γ in I, RC0, E0, R0, C0.
    assert (HPe : ∀ t i p, Hp c' t i p ↔ Hp c t i p) by (intros; unfold Hp; by rewrite HE).
    destruct (rr_len _ _ _ _ R0) as [L1 L2].
    assert (FR : ∀ t b, d_fr (d_newtab (wd w)) !! t = Some b → d_fr (wd w) !! t = Some b ∨ (t = nt c ∧ b = false)).
    { intros t b H. cbn in H. apply lookup_snoc_inv in H as [H|[-> ->]]; auto. }
    assert (DF : ∀ t, fld [] (d_df (d_newtab (wd w))) t = fld [] (d_df (wd w)) t).
    { intros t. cbn. rewrite fld_app. case_decide; [|done]. subst. unfold fld. by rewrite lookup_ge_None_2. }
    assert (RLE : ∀ t, t < rt c → t < nt c).
    { intros t L. pose proof (i_root _ _ _ I) as X. revert L X. unfold rt. destruct (k_rt c); cbn; lia. }
    assert (W' : WI w').
    { split; unfold wc, wg, wr, wd; cbn; rewrite ?Ed; fold c'; fold (wg w) (wr w) γ.
      - done.
      - split; rewrite ?Er, ?Eh; [setoid_rewrite HPe; setoid_rewrite HE|unfold CD; setoid_rewrite HPe; setoid_rewrite HE|]; apply RC0.
      - eapply (EO_hp c); [|exact E0|by rewrite Eh|reflexivity|reflexivity].
        intros e p He Hn. destruct (i_evkey _ _ _ I e p He Hn) as [Hk _]. rewrite Hk. eauto.
      - fold (wd w). destruct (ext0_alx _ _ _ _ _ (X0 0)) as [A1 A2]. split; rewrite ?Er, ?En; try setoid_rewrite HPe; try setoid_rewrite DF; try apply R0.
        + unfold d_newtab. cbn [d_fr d_df]. rewrite !app_length. cbn [length]. lia.
        + intros t X. apply FR in X as [X|[_ ?]]; [by apply R0|done].
        + intros t L Al. apply R0; auto.
        + intros t p X. destruct (rr_edef _ _ _ _ R0 t p X) as (B1 & B2 & B3). split_and!; auto.
        + intros t X. apply FR in X as [X|[_ ?]]; [by apply R0|done].
        + intros it X. destruct (rr_ret _ _ _ _ R0 it X) as [A B]. split; [done|]. destruct (r_obj it); [done|]. cbn. by apply lookup_app_l_Some.
        + intros ob X. destruct (rr_all _ _ _ _ R0 ob X) as [A|A]; [auto|right]. destruct ob; [done|]. cbn. by apply lookup_app_l_Some.
        + intros me' P. destruct (rr_base _ _ _ _ R0 me' P). split; auto.
        + intros me' t P L T. destruct (decide (t = nt c)) as [->|N].
          * split; [unfold d_newtab; cbn [d_fr]; rewrite <- L1; by rewrite list_lookup_middle|]. intros it X E. exfalso.
            apply (rr_ret _ _ _ _ R0) in X as [X _]. rewrite E in X. apply (rr_tever _ _ _ _ R0) in X. apply RLE in X. lia.
          * destruct (rr_pint _ _ _ _ R0 me' t P L) as [A B]; [lia|]. split; [|done]. cbn. by apply lookup_app_l_Some.
      - fold (wd w). destruct C0. by split. }
    assert (XL : extl c γ c' γ').
    { split; try setoid_rewrite HPe; auto. intros t i p k -> Hor H M Hk. by eapply (extl_live_old cfg c γ c' γ' 0). }
    assert (XM : ∀ me', extm me' (wr w) (wd w) (wr w') (wd w')).
    { intros me'. unfold wd at 2. cbn. rewrite Ed. fold (wd w). split; auto. }
    split; [done|]. intros opid. split.
    - split; [done|]. intros me' i' Hm Hi. split; auto; try apply X0; try apply extr_refl.
    - split; [|apply extr_refl]. right. split; [done|]. split; [done|]. split; auto; apply X0.
  Qed.

  (** ** Insertion of a copy *)
  Lemma lift_inscopy me (w : world) σ' ch i1 p k0 t0 i0 q0 : c_mode cfg = Incremental ch → WI w →
    let c := wc w in let γ := wg w in let c' := core_of σ' in
    side_of σ' = wd w →
    i1 < lnc c (rt c) → g_ph γ (rt c) i1 = PMark me → Hp c (rt c) i1 p → ky c p = Some k0 →
    rt c < t0 → inb c t0 i0 → en (k_sl c) t0 i0 = NULLW →
    (∀ q, q < q0 → Mt c t0 (ix c t0 k0 q)) → q0 ≤ lim c t0 → ix c t0 k0 q0 = i0 →
    (∀ t, rt c < t → t < t0 → exhM cfg c t k0) →
    slotstep c c' t0 i0 (mt (k_sl c) t0 i0) (EW (Some p) false false true) [] →
    let w' := (σ', (set_ph γ (rt c) i1 (PInsd me t0 i0), wr w)) in
    WI w' ∧ ∀ opid, wgrd me opid w w' ∧ fr me opid w w'.
  Proof.
    intros HM W c γ c' Ed L1 P1 H1 Hk Lt B Hn PM Q0 E1 Mid SS w'. pose proof W as [I RC0 E0 R0 C0]. fold c γ in I, RC0, E0, R0, C0.
    pose proof (Inv_inc _ _ _ _ HM I) as II.
    destruct (step_inscopy cfg c γ c' me i1 p k0 t0 i0 q0 true II L1 P1 H1 Hk Lt B Hn PM Q0 E1 Mid SS) as (II' & X0 & Xp).
    set (γ' := set_ph _ _ _ _) in *. pose proof (inc_Inv _ _ _ _ HM II') as I'.
    assert (NG : ¬ gone γ p).
    { intros G. pose proof (rc_gone _ _ _ RC0 p (rt c) i1 G (le_n _) H1) as D.
      pose proof (ii_phase _ _ _ II _ _ L1) as PH. unfold phase_ok in PH. rewrite P1 in PH. destruct PH as (_ & _ & PH & _). by eapply PH. }
    assert (HPe : ∀ t i x, Hp c' t i x ↔ (t = t0 ∧ i = i0 ∧ x = p) ∨ Hp c t i x).
    { intros t i x. unfold Hp. rewrite (ss_en SS). case_decide as D.
      - destruct D as [-> ->]. rewrite Hn. cbn. split; [intros [= ->]; auto|intros [(_ & _ & ->)|]; done].
      - split; [auto|]. intros [(-> & -> & _)|?]; [naive_solver|done]. }
    assert (Er : rt c' = rt c) by (apply (ss_rtc SS)).
    assert (En : nt c' = nt c) by apply SS.
    assert (Eh : k_hp c' = k_hp c) by (rewrite (ss_hp SS); apply app_nil_r).
    assert (ENO : ∀ t i, ¬ (t = t0 ∧ i = i0) → en (k_sl c') t i = en (k_sl c) t i).
    { intros t i N. rewrite (ss_en SS). by rewrite decide_False. }
    assert (NH0 : ∀ x, ¬ Hp c t0 i0 x) by (intros x X; unfold Hp in X; by rewrite Hn in X).
    assert (W' : WI w').
    { split; unfold wc, wg, wr, wd; cbn; rewrite ?Ed; fold c'; fold (wg w) (wr w) (wd w) γ γ'.
      - done.
      - split; rewrite ?Er, ?Eh; try apply RC0.
        + intros NB t t' i i' x L X Y. apply HPe in Y as [(-> & -> & ->)|Y].
          { rewrite (ss_en SS). by rewrite decide_True. }
          rewrite ENO by (intros [-> ->]; by eapply NH0). apply HPe in X as [(-> & -> & ->)|X]; [|by eapply (rc_borrow _ _ _ RC0)].
          apply (rc_borrow _ _ _ RC0 NB t (rt c) i i1 p); auto. lia.
        + intros x t i G L X. apply HPe in X as [(-> & -> & ->)|X]; [done|]. unfold CD. rewrite ENO by (intros [-> ->]; by eapply NH0).
          by eapply (rc_gone _ _ _ RC0).
      - eapply (EO_hp c); [|exact E0|by rewrite Eh|reflexivity|reflexivity].
        intros e x He Hn0. destruct (i_evkey _ _ _ I e x He Hn0) as [Hk' _]. rewrite Hk'. eauto.
      - eapply RR_core; eauto.
        + by eapply ext0_alx, (X0 0).
        + intros t i x X G _. apply HPe in X as [(-> & -> & ->)|X]; [done|done].
        + intros me' t i x Pn L X. apply HPe in X as [(-> & -> & ->)|X]; [|by eapply (rr_pine _ _ _ _ R0)].
          by eapply prot_new.
      - destruct C0. by split. }
    assert (XL : extl c γ c' γ').
    { split.
      - intros t i x X. left. apply HPe. auto.
      - intros t i x L _ _ X. apply HPe in X as [(-> & -> & ->)|X]; [lia|done].
      - intros t i x G _ X. apply HPe in X as [(-> & -> & ->)|X]; [done|done].
      - intros t i x k -> Hor X M Hk'. apply HPe in X as [(E & _)|X]; [lia|]. by eapply (extl_live_old cfg c γ c' γ' 0). }
    assert (XM : ∀ me', extm me' (wr w) (wd w) (wr w') (wd w')).
    { intros me'. unfold wd at 2. cbn. rewrite Ed. apply extm_refl. }
    split; [done|]. intros opid. split.
    - split; [done|]. intros me' i' Hm Hi. split; auto; try apply X0; try apply extr_refl.
    - split; [|apply extr_refl]. right. split; [done|]. split; [done|]. split; auto; apply X0.
  Qed.
  Lemma lift_inscopyB me (w : world) σ' n tb i1 p k0 i0 q0 : c_mode cfg = Blocking → WI w →
    let c := wc w in let γ := wg w in let c' := core_of σ' in
    side_of σ' = wd w →
    n < nt c → src c n tb → i1 < lnc c tb → g_ph γ n i1 = PMark me → Hp c tb i1 p → CP c tb i1 → ky c p = Some k0 →
    inb c n i0 → en (k_sl c) n i0 = NULLW →
    (∀ q, q < q0 → Mt c n (ix c n k0 q)) → q0 ≤ lim c n → ix c n k0 q0 = i0 →
    slotstep c c' n i0 (mt (k_sl c) n i0) (EW (Some p) false false false) [] →
    let w' := (σ', (set_ph γ n i1 (PInsd me n i0), wr w)) in
    WI w' ∧ ∀ opid, wgrd me opid w w' ∧ fr me opid w w'.
  Proof.
    intros HM W c γ c' Ed Ln Sr L1 P1 H1 CP1 Hk B Hn PM Q0 E1 SS w'. pose proof W as [I RC0 E0 R0 C0]. fold c γ in I, RC0, E0, R0, C0.
    pose proof (Inv_blk _ _ _ HM I) as II.
    destruct (step_inscopyB cfg c γ c' me n tb i1 p k0 i0 q0 II Ln Sr L1 P1 H1 CP1 Hk B Hn PM Q0 E1 SS) as (II' & X0 & Xp).
    set (γ' := set_ph _ _ _ _) in *. pose proof (blk_Inv _ _ _ HM II') as I'.
    destruct (ext0_alx _ _ _ _ _ (X0 0)) as [AX1 AX2].
    assert (HI : al c n → rt c < n).
    { intros A. destruct (decide (rt c < n)); [done|]. pose proof (b_done _ _ _ II n tb i1 Sr A ltac:(lia) L1) as D. congruence. }
    assert (NE : rt c ≤ n → rt c < n).
    { intros L. destruct (decide (n = rt c)) as [->|]; [|lia]. apply HI, II. }
    assert (NG : rt c < n → ¬ gone γ p).
    { intros L G. destruct (src_cases _ _ _ II _ _ Sr Ln) as [[-> _]|]; [|lia].
      pose proof (rc_gone _ _ _ RC0 p (rt c) i1 G (le_n _) H1) as D. by eapply (b_nocd _ _ _ II). }
    assert (HPe : ∀ t i x, Hp c' t i x ↔ (t = n ∧ i = i0 ∧ x = p) ∨ Hp c t i x).
    { intros t i x. unfold Hp. rewrite (ss_en SS). case_decide as D.
      - destruct D as [-> ->]. rewrite Hn. cbn. split; [intros [= ->]; auto|intros [(_ & _ & ->)|]; done].
      - split; [auto|]. intros [(-> & -> & _)|?]; [naive_solver|done]. }
    assert (Er : rt c' = rt c) by (apply (ss_rtc SS)).
    assert (En : nt c' = nt c) by apply SS.
    assert (Eh : k_hp c' = k_hp c) by (rewrite (ss_hp SS); apply app_nil_r).
    assert (ENO : ∀ t i, ¬ (t = n ∧ i = i0) → en (k_sl c') t i = en (k_sl c) t i).
    { intros t i N. rewrite (ss_en SS). by rewrite decide_False. }
    assert (NH0 : ∀ x, ¬ Hp c n i0 x) by (intros x X; unfold Hp in X; by rewrite Hn in X).
    assert (W' : WI w').
    { split; unfold wc, wg, wr, wd; cbn; rewrite ?Ed; fold c'; fold (wg w) (wr w) (wd w) γ γ'.
      - done.
      - split; rewrite ?Er, ?Eh; try apply RC0.
        + done.
        + intros x t i G L X. apply HPe in X as [(-> & -> & ->)|X]; [by destruct (NG (NE L))|].
          unfold CD. rewrite ENO by (intros [-> ->]; by eapply NH0). by eapply (rc_gone _ _ _ RC0).
      - eapply (EO_hp c); [|exact E0|by rewrite Eh|reflexivity|reflexivity].
        intros e x He Hn0. destruct (i_evkey _ _ _ I e x He Hn0) as [Hk' _]. rewrite Hk'. eauto.
      - eapply RR_core; eauto.
        + by split.
        + intros t i x X G A. apply HPe in X as [(-> & -> & ->)|X]; [|done].
          destruct NG; [|done]. destruct A as [A|A]; [by apply HI, AX1|by apply NE].
        + intros me' t i x Pn L X. apply HPe in X as [(-> & -> & ->)|X]; [|by eapply (rr_pine _ _ _ _ R0)].
          destruct (rr_base _ _ _ _ R0 me' Pn) as [B1 B2]. eapply (rr_pine _ _ _ _ R0 me' tb i1); [done| |done].
          destruct (decide (r_base (wr w) me' = n)) as [Eb|Nb].
          { rewrite Eb in *. apply HI in B2. lia. }
          destruct (decide (r_base (wr w) me' ≤ tb)); [done|]. destruct Sr as (_ & _ & Sr). destruct (Sr (r_base (wr w) me')); [lia|lia|done].
      - destruct C0. by split. }
    assert (XL : extl c γ c' γ').
    { split.
      - intros t i x X. left. apply HPe. auto.
      - intros t i x L A _ X. apply HPe in X as [(-> & -> & ->)|X]; [|done]. apply AX1, HI in A. lia.
      - intros t i x G A X. apply HPe in X as [(-> & -> & ->)|X]; [|done]. by apply AX1, HI, NG in A.
      - intros t i x k -> Hor X M Hk'. apply HPe in X as [(E & _)|X].
        + assert (LX : rt c ≤ n) by lia. apply NE in LX. lia.
        + by eapply (extl_live_old cfg c γ c' γ' 0). }
    assert (XM : ∀ me', extm me' (wr w) (wd w) (wr w') (wd w')).
    { intros me'. unfold wd at 2. cbn. rewrite Ed. apply extm_refl. }
    split; [done|]. intros opid. split.
    - split; [done|]. intros me' i' Hm Hi. split; auto; try apply X0; try apply extr_refl.
    - split; [|apply extr_refl]. right. split; [done|]. split; [done|]. split; auto; apply X0.
  Qed.
End lift.
