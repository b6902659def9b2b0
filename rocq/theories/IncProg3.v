(** Specifications of the operations on one slot: retirement, insertion, update. *)
From Verif Require Export IncProg2b.

Section facts3.
  Context {K V : Type} {Keq : EqDecision K} (cfg : config K) (nthr nsh me opid : nat) (o : op K V).
  Notation core := (core K V). Notation ghost := (@ghost K). Notation event := (event K).
  Notation world := (@world K V). Notation rghost := (@rghost K V). Notation prog := (prog K V).
  Notation Inv := (Inv cfg). Notation WI := (WI cfg nthr nsh).
  Notation fr := (fr cfg nthr nsh me opid). Notation fx := (fx cfg nthr nsh me opid). Notation mv := (mv cfg nthr nsh me).
  Notation wext := (wext cfg nthr nsh me opid). Notation wgrd := (wgrd me opid).
  Notation ix := (ix cfg). Notation passes := (passes cfg). Notation visited := (visited cfg).
  Notation TI := (TI cfg nthr nsh me opid o). Notation WP := (WP cfg nthr nsh me opid o).
  Notation hok := (hok me). Notation psd := (psd cfg). Notation pro := (pro me). Notation visw := (visw cfg).
  Notation hk2 := (hk2 cfg). Notation own := (own me). Notation clean := (clean opid). Notation npub := (npub opid).
  Notation qtw := (qtw opid o). Notation didw := (didw opid). Notation fq := (fq cfg nthr nsh me opid). Notation lkw := (lkw me). Notation lk1 := (lk1 me).
  Notation exw := (exw cfg). Notation owr := (owr me). Notation dnr := (dnr me). Notation passw := (passw cfg).
  Implicit Types w : world.

  (** Slot [i] of [t] has held key [k] since log position [n0]. *)
  Definition hadw w n0 t i (k : K) : Prop := n0 ≤ length (g_log (wg w)) ∧
    (HK (wc w) t i k ∨ (en (k_sl (wc w)) t i ≠ NULLW ∧ e_ptr (en (k_sl (wc w)) t i) = None ∧ wit w n0 k None)).
  Lemma st_hadw w w' n0 t i k : mv w w' → hadw w n0 t i k → hadw w' n0 t i k.
  Proof.
    intros M [L H]. pose proof (st_len _ _ _ _ _ _ M) as L'. destruct (mv_ext _ _ _ _ _ _ M) as [<-|(I & j & X)]; [by split|].
    split; [lia|]. pose proof (x_slot _ _ _ _ _ X t i) as SX. destruct H as [(p & Hp0 & Hk0)|(N & D & W)].
    - destruct (sx_ptr _ _ _ _ _ _ SX p k Hp0 Hk0) as [H2|(D & n & N1 & N2 & N3)]; [by left|right].
      split; [eapply (sx_nl _ _ _ _ _ _ SX), Hp_nn; exact Hp0|]. split; [done|]. exists n. split; [lia|]. done.
    - right. split; [by apply (sx_nl _ _ _ _ _ _ SX)|]. split; [by apply (sx_dead _ _ _ _ _ _ SX)|]. by eapply st_wit.
  Qed.
  Lemma hadw_skip w n0 t i k k' : k' ≠ k → hadw w n0 t i k → skipw w t i k'.
  Proof.
    intros N [_ [H|(A & B & _)]].
    - split; [destruct H as (p & Hp0 & _); by eapply Hp_nn|]. intros H'. by pose proof (HK_keys _ _ _ _ _ H H').
    - split; [done|]. intros (p & Hp0 & _). unfold Hp in *. congruence.
  Qed.

  (** [e], found in slot [i] of [tb], holds an entry of [k]. *)
  Definition fndk w n0 k tb i (e : eword) : Prop := ∃ p v, e_ptr e = Some p ∧ hpw w p (k, v) ∧ pro w p ∧ Mtw w (th tb) i ∧
    hadw w n0 (th tb) i k ∧ (e_copying e = true → cpw w (th tb) i p) ∧ (e_copying e = false → wit w n0 k (Some p)).
  Definition fnd w n0 k tb i (e : eword) : Prop := ∃ p kv, e_ptr e = Some p ∧ hpw w p kv ∧ pro w p ∧ Mtw w (th tb) i ∧
    (kv.1 = k → fndk w n0 k tb i e) ∧ (kv.1 ≠ k → skipw w (th tb) i k).
  Lemma st_fndk w w' n0 k tb i e : mv w w' → fndk w n0 k tb i e → fndk w' n0 k tb i e.
  Proof.
    intros M (p & v & E & A & B & C & D & F & G). exists p, v. split; [done|]. split; [by eapply st_hpw|]. split; [by eapply st_pro|].
    split; [by eapply st_Mtw|]. split; [by eapply st_hadw|]. split; intros X; [eapply st_cpw|eapply st_wit]; eauto.
  Qed.
  Lemma st_fnd w w' n0 k tb i e : mv w w' → fnd w n0 k tb i e → fnd w' n0 k tb i e.
  Proof.
    intros M (p & v & E & A & B & C & D & F). exists p, v. split; [done|]. split; [by eapply st_hpw|]. split; [by eapply st_pro|].
    split; [by eapply st_Mtw|]. split; intros X; [eapply st_fndk|eapply st_skipw]; eauto.
  Qed.

  (** An entry read in [w1] from a slot whose metadata is visible in [w']. *)
  Lemma fnd_after w1 w' tb i k n0 p : TI w1 → TI w' → mv w1 w' → hok w1 tb → visw w1 (th tb) k → n0 ≤ length (g_log (wg w1)) →
    e_ptr (en (k_sl (wc w1)) (th tb) i) = Some p → Mtw w' (th tb) i → fnd w' n0 k tb i (en (k_sl (wc w1)) (th tb) i).
  Proof.
    intros T1 T' M H Vs L E Mt'. pose proof (TI_inv _ _ _ _ _ _ _ T1) as I1. pose proof (TI_inv _ _ _ _ _ _ _ T') as I'.
    assert (HP : Hp (wc w1) (th tb) i p) by done.
    destruct (hok_pro _ _ _ _ _ _ _ _ _ _ T1 H HP) as [P (kv & Hkv)].
    assert (Hk : ky (wc w1) p = Some kv.1). { unfold ky. unfold hpw in Hkv. by rewrite Hkv. }
    assert (HAD : hadw w1 n0 (th tb) i kv.1). { split; [done|]. left. by exists p. }
    exists p, kv. split; [done|]. split; [by eapply st_hpw|]. split; [by eapply st_pro|]. split; [done|]. split.
    - intros Ek. destruct kv as [k1 v]. cbn in Ek. subst k1. cbn [fst] in *. exists p, v. split; [done|]. split; [by eapply st_hpw|]. split; [by eapply st_pro|].
      split; [done|]. split; [by eapply st_hadw|]. split.
      + intros C. eapply st_cpw; [exact M|]. by split.
      + intros C. assert (NC : ¬ CP (wc w1) (th tb) i) by (unfold CP; rewrite C; done).
        assert (ND : ¬ CD (wc w1) (th tb) i). { intros D. apply NC. by eapply (i_cdcp _ _ _ I1). }
        assert (LR : rt (wc w1) ≤ th tb).
        { destruct (decide (rt (wc w1) ≤ th tb)); [done|]. exfalso. apply NC. eapply (CP_low _ _ _ I1); [lia|by eapply (visited_al cfg _ _ I1)|]. by eapply Hp_inb. }
        destruct (Mt_dec (wc w1) (th tb) i) as [M1|M1].
        * eapply st_wit; [exact M|]. exists (length (g_log (wg w1))). split; [done|]. split; [done|].
          rewrite rp_all by done. eapply (present_visible cfg _ _ I1 (th tb) i); eauto.
        * destruct (present_invisible cfg _ _ I1 (th tb) i p k LR Vs HP Hk ND M1) as (NL & o1 & Ho).
          destruct (mv_ext _ _ _ _ _ _ M) as [<-|(_ & j & X)]; [done|].
          assert (Ho' : g_pub (wg w') !! p = Some (o1, Some (th tb, i))) by (eapply prefix_lookup; [done|apply X]).
          pose proof (M_lin cfg _ _ I' _ _ _ _ Ho' Mt') as LN.
          destruct (lin_between (g_log (wg w1)) (g_log (wg w')) k p) as (n & N1 & N2 & N3); [apply X|done|done| |].
          { intros e He En. destruct (i_evkey _ _ _ I' e p He En) as [Hk' _]. pose proof (st_ky _ _ _ _ _ X _ _ Hk). congruence. }
          exists n. split; [lia|]. done.
    - intros Nk. eapply st_skipw; [exact M|]. eapply hadw_skip; [|exact HAD]. done.
  Qed.
  Lemma psd_S w tb k q : TI w → hok w tb → psd w (th tb) k q → Mtw w (th tb) (probe_idx (c_hash cfg k) (th_mask tb) q) →
    skipw w (th tb) (probe_idx (c_hash cfg k) (th_mask tb) q) k → psd w (th tb) k (S q).
  Proof.
    intros T H [A B] M [_ N]. split; [done|]. intros q' L. destruct (decide (q' = q)) as [->|]; [|apply B; lia].
    rewrite (hok_ix _ _ _ _ _ _ _ _ _ _ T H). by split.
  Qed.
  Lemma psd_0 w tb k : TI w → hok w tb → psd w (th tb) k 0.
  Proof. intros T H. destruct (hok_len _ _ _ _ _ _ _ _ T H) as (_ & _ & B). split; [done|]. intros q L. lia. Qed.
  (** Metadata other than the key's: the slot never held the key. *)
  Lemma meta_skip w tb i k : TI w → hok w tb → Mtw w (th tb) i → mt (k_sl (wc w)) (th tb) i ≠ h2_of cfg k → skipw w (th tb) i k.
  Proof.
    intros T H M N. pose proof (TI_inv _ _ _ _ _ _ _ T) as I. split; [by eapply (i_claimed _ _ _ I)|].
    intros (p & Hp0 & Hk0). apply N. by eapply (i_meta _ _ _ I).
  Qed.
  Lemma dead_skip w t i k : en (k_sl (wc w)) t i ≠ NULLW → e_ptr (en (k_sl (wc w)) t i) = None → skipw w t i k.
  Proof. intros N E. split; [done|]. intros (p & Hp0 & _). unfold Hp in *. congruence. Qed.
  Lemma Mt_nn w t i : TI w → Mtw w t i → en (k_sl (wc w)) t i ≠ NULLW.
  Proof. intros T M. by eapply (i_claimed _ _ _ (TI_inv _ _ _ _ _ _ _ T)). Qed.
End facts3.

Ltac st_more M H ::= first [eapply st_ckey; [exact M|exact H]|eapply st_dkey; [exact M|exact H]|eapply st_als; [exact M|exact H]|eapply st_hadw; [exact M|exact H]
  |eapply st_fndk; [exact M|exact H]|eapply st_fnd; [exact M|exact H]].

Section prog3.
  Context {K V : Type} {Keq : EqDecision K} (cfg : config K) (nthr nsh me opid : nat) (o : op K V).
  Notation core := (core K V). Notation ghost := (@ghost K). Notation event := (event K).
  Notation world := (@world K V). Notation rghost := (@rghost K V). Notation prog := (prog K V).
  Notation Inv := (Inv cfg). Notation WI := (WI cfg nthr nsh).
  Notation fr := (fr cfg nthr nsh me opid). Notation fx := (fx cfg nthr nsh me opid). Notation mv := (mv cfg nthr nsh me).
  Notation wext := (wext cfg nthr nsh me opid). Notation wgrd := (wgrd me opid).
  Notation ix := (ix cfg). Notation passes := (passes cfg). Notation visited := (visited cfg).
  Notation TI := (TI cfg nthr nsh me opid o). Notation WP := (WP cfg nthr nsh me opid o).
  Notation hok := (hok me). Notation psd := (psd cfg). Notation pro := (pro me). Notation visw := (visw cfg).
  Notation hk2 := (hk2 cfg). Notation own := (own me). Notation clean := (clean opid). Notation npub := (npub opid).
  Notation qtw := (qtw opid o). Notation didw := (didw opid). Notation fq := (fq cfg nthr nsh me opid). Notation lkw := (lkw me). Notation lk1 := (lk1 me).
  Notation exw := (exw cfg). Notation owr := (owr me). Notation dnr := (dnr me). Notation passw := (passw cfg).
  Implicit Types w : world.
  Notation fnd := (fnd me). Notation fndk := (fndk me).

  Lemma visw_rtw w t k : c_mode cfg = Blocking → visw w t k → rtw w t.
  Proof. intros E. unfold IncRules.visw, IncGen.visited. rewrite E. by intros []. Qed.
  (** ** Retiring a replaced entry *)
  Lemma s_defer_retire e p tb (Q : _ → world → Prop) w z : e_ptr e = Some p → hok w tb → own w (Some (REntry p)) z → rets w p (th tb) (e_borrowed e) →
    (c_mode cfg = Blocking → rtw w (th tb)) → (∀ w', fx w w' → TI w' → own w' None z → Q tt w') → WP (defer_retire cfg e tb) Q w.
  Proof.
    intros Ep H O R RB S. pose proof (fx_refl cfg nthr nsh me opid w) as F. unfold defer_retire. unfold key_of_ptr. rewrite Ep. cbn [default].
    assert (RET : ∀ w1, fx w w1 → TI w1 → own w1 (Some (REntry p)) z → rets w1 p 0 false → WP (act (a_retire (REntry p))) Q w1).
    { clear - S. intros w1 F T O R. nrm. eapply w_retire; [exact O| |].
      - intros p' E. assert (p' = p) as -> by congruence. done.
      - clear O. intros w2 F2 T2 O. tr F2. cbv beta. apply WP_ret. intros w3 E3 T3. tr E3. auto. }
    destruct (c_mode cfg) as [chunk|] eqn:HM.
    2: { specialize (RB eq_refl). assert (R0 : rets w p 0 false).
      { destruct (e_borrowed e); cbn [rets] in R; [|done]. by exists (th tb). }
      clear R. apply WP_close. intros w1 E1 T1. apply (st_rets _ _ _ _ _ _ _ 0 false (wext_mv _ _ _ _ _ _ _ E1)) in R0. tr E1. by apply RET. }
    clear RB. destruct (e_borrowed e); cbn [negb]; cbn [rets] in R.
    2: { apply WP_close. intros w1 E1 T1. apply (st_rets _ _ _ _ _ _ _ 0 false (wext_mv _ _ _ _ _ _ _ E1)) in R. tr E1. by apply RET. }
    nrm. apply r_root. intros w1 E1 T1. tr E1. split.
    { intros E. by destruct (hok_nrt _ _ _ _ _ _ _ _ T1 H). }
    intros r0 Er Hr. assert (RT : rtw w1 (th r0)) by (unfold rtw, rt; by rewrite Er). clear Er.
    apply WP_bind. 
    apply (WP_loop _ _ _ _ _ _ (λ cur w1, fx w w1 ∧ hok w1 tb ∧ own w1 (Some (REntry p)) z ∧ nohp w1 p (th tb) ∧ hok w1 r0 ∧ rtw w1 (th r0) ∧
       hok w1 cur ∧ th tb ≤ th cur ∧ (th tb ≤ th r0 → th cur ≤ th r0))).
    { intros w2 E2 T2. tr E2. split_and!; auto. }
    clear H O R F T1 Hr RT w1. intros cur w1 (F & H & O & R & Hr & RT & Hc & L1 & L2) T1.
    destruct (Nat.eqb_spec (th cur) (th r0)) as [E|E].
    { apply WP_ret. intros w2 E2 T2. tr E2. apply RET; auto. exists (th tb). split; [|done]. unfold rtw in *. lia. }
    nrm. apply r_next; [done|]. intros w2 E2 T2. tr E2. split.
    2: { intros nx En Hn. clear Hc. apply WP_ret. intros w3 E3 T3. tr E3. split_and!; auto; lia. }
    intros N. assert (L : th r0 < th tb).
    { destruct (hok_len _ _ _ _ _ _ _ _ T2 Hr) as (_ & _ & B). lia. }
    clear N L1 L2 Hc E. apply WP_ret. intros w3 E3 T3. tr E3.
    apply (WP_loop _ _ _ _ _ _ (λ prev w1, fx w w1 ∧ hok w1 tb ∧ own w1 (Some (REntry p)) z ∧ nohp w1 p (th tb) ∧ hok w1 prev ∧ th prev < th tb)).
    { intros w4 E4 T4. tr E4. split_and!; auto. }
    clear H O R F T3 Hr RT w3 L r0 cur. intros prev w1 (F & H & O & R & Hp0 & L) T1.
    nrm. apply r_next; [done|]. intros w2 E2 T2. tr E2. split.
    { intros E. destruct (hok_len _ _ _ _ _ _ _ _ T2 H) as (_ & _ & B). lia. }
    intros nx En Hn. destruct (Nat.eqb_spec (th nx) (th tb)) as [E|E].
    - nrm. eapply w_defer; [done|exact Hp0|by rewrite <- En, E|]. clear O. intros w3 F3 T3 O. tr F3. cbv beta.
      apply WP_ret. intros w4 E4 T4. tr E4. auto.
    - apply WP_ret. intros w3 E3 T3. tr E3. split_and!; auto. lia.
  Qed.

  (** ** Insertion into an empty slot *)
  Lemma did_ins w p k0 v0 h : TI w → pubw opid w p (Some h) → Mtw w h.1 h.2 → hpw w p (k0, v0) → didw w (Ev k0 opid None (Some p)).
  Proof.
    intros T P M HP. pose proof (TI_inv _ _ _ _ _ _ _ T) as I. destruct h as [t i].
    destruct (M_lin cfg _ _ I t i p opid P M) as (e & He & En). destruct (i_evkey _ _ _ I e p He En) as [Hk (h' & Hh)].
    unfold pubw in P. rewrite P in Hh. assert (Eo : ev_op e = opid) by congruence.
    pose proof (eo_ins _ _ _ (wi_eo _ _ _ _ (ti_wi _ _ _ _ _ _ _ T)) p opid (t, i) e P He Eo) as Eold.
    unfold ky in Hk. unfold hpw in HP. rewrite HP in Hk. cbn in Hk. assert (Ek : ev_key e = k0) by congruence.
    split; [|done]. destruct e as [ek eo' eold enew]. cbn in *. by subst.
  Qed.
  Lemma s_insert_at i q k0 v0 tb n0 (Q : _ → world → Prop) w z :
    hok w tb → q ≤ th_limit tb → i = probe_idx (c_hash cfg k0) (th_mask tb) q → visw w (th tb) k0 → psd w (th tb) k0 q →
    clean w → own w None z → n0 ≤ length (g_log (wg w)) →
    (∀ h n, h !! n = Some (k0, v0) → evok h o (Ev k0 opid None (Some n))) →
    (∀ w' p, mv w w' → TI w' → hpw w' p (k0, v0) → pro w' p → didw w' (Ev k0 opid None (Some p)) → own w' None (z + 1)%Z → Q (IInserted p) w') →
    (∀ w' s, fr w w' → TI w' → match s with SNull => Mtw w' (th tb) i ∧ skipw w' (th tb) i k0 | SValue e => fnd w' n0 k0 tb i e | SCopied _ => False end →
       Q (IFound s) w') →
    WP (insert_at cfg i (h2_of cfg k0) (k0, v0) tb) Q w.
  Proof.
    intros H Lq Ei Vs P C O L EV S1 S2. pose proof (mv_refl cfg nthr nsh me w) as MV. accr w. unfold insert_at.
    apply WP_close. intros w0 E0 T0. tr E0.
    assert (Li : i < th_len tb) by (subst i; by eapply probe_lt).
    nrm. eapply w_cas_ins; [done|done|done|done|done|done|done|done| |].
    - clear O C. intros w1 w2 p E1 T1 M2 T2 HP PB HPt HK O. tr E1. clear Acc. tr M2. cbv beta.
      destruct (hok_pro _ _ _ _ _ _ _ _ _ _ T2 H HPt) as [PR _].
      nrm. apply w_store_meta; [done|done|apply h2_not_empty|done|]. intros w3 F3 T3 M3. tr F3. cbv beta.
      assert (D : didw w3 (Ev k0 opid None (Some p))) by (by eapply (did_ins _ _ _ _ (th tb, i))).
      apply WP_ret. intros w4 E4 T4. tr E4. auto.
    - intros w1 E1 T1 N1. tr E1. cbv beta. pose proof (found_hk2 _ _ _ _ _ _ _ _ _ T1 H Li N1) as FH.
      pose proof (mv_refl cfg nthr nsh me w1) as M1. pose proof H as H1. pose proof Vs as V1. pose proof L as L1.
      destruct (e_ptr (en (k_sl (wc w1)) (th tb) i)) as [p|] eqn:Ep.
      + destruct FH as (PR & kv & HP & HK). assert (X : ∀ w', mv w1 w' → TI w' → Mtw w' (th tb) i → fnd w' n0 k0 tb i (en (k_sl (wc w1)) (th tb) i)).
        { intros w' M' T' Mt'. by eapply fnd_after. }
        apply WP_bind. nrm. eapply r_deref; [done|done|]. intros w4 E4 T4. tr E4. cbv beta. apply WP_ret. intros w5 E5 T5. tr E5. cbn [fst snd].
        eapply (s_fixmeta _ _ _ _ _ _ tb _ _ (λ _, _)); [done|done|apply h2_not_empty|done|]. intros w6 F6 T6 M6. tr F6.
        apply WP_ret. intros w7 E7 T7. tr E7. apply S2; auto.
      + assert (SK : skipw w1 (th tb) i k0) by (by apply dead_skip).
        apply WP_bind. apply WP_ret. intros w5 E5 T5. tr E5. cbn [fst snd].
        eapply (s_fixmeta _ _ _ _ _ _ tb _ _ (λ _, _)); [done|done|done|done|]. intros w6 F6 T6 M6. tr F6.
        apply WP_ret. intros w7 E7 T7. tr E7. apply S2; auto.
  Qed.

  (** ** Updating a slot *)
  Definition ufound w n0 k tb i (s : estatus) : Prop :=
    match s with
    | SNull => wit w n0 k None ∧ skipw w (th tb) i k
    | SValue e => fndk w n0 k tb i e ∧ e_copying e = false
    | SCopied e => fndk w n0 k tb i e ∧ e_copying e = true
    end.
  Lemma st_ufound w w' n0 k tb i s : mv w w' → ufound w n0 k tb i s → ufound w' n0 k tb i s.
  Proof.
    intros M. destruct s; cbn.
    - intros [A B]. split; [by eapply st_wit|by eapply st_skipw].
    - intros [A B]. split; [by eapply st_fndk|done].
    - intros [A B]. split; [by eapply st_fndk|done].
  Qed.
  Lemma had_found w tb i k n0 : TI w → hok w tb → visw w (th tb) k → hadw w n0 (th tb) i k → Mtw w (th tb) i →
    ufound w n0 k tb i (estatus_of (en (k_sl (wc w)) (th tb) i)).
  Proof.
    intros T H Vs D M. unfold estatus_of. destruct (e_ptr (en (k_sl (wc w)) (th tb) i)) as [p|] eqn:E.
    - destruct (fnd_after cfg nthr nsh me opid o w w tb i k n0 p) as (p' & kv & E' & HP & PR & _ & F1 & _); auto; [by left|apply D|].
      assert (kv.1 = k).
      { destruct D as [_ [(p2 & Hp2 & Hk2)|(_ & X & _)]]; [|congruence]. unfold Hp in Hp2. unfold hpw in HP. unfold ky in Hk2.
        assert (p2 = p') by congruence. subst p2. rewrite HP in Hk2. cbn in Hk2. congruence. }
      destruct (e_copying _) eqn:Ec; cbn; auto.
    - destruct D as [_ [(p2 & Hp2 & Hk2)|(N & _ & W)]]; [unfold Hp in Hp2; congruence|]. split; [done|]. by apply dead_skip.
  Qed.

  Lemma s_update_ent i cur p0 k0 v1 v0 tb n0 (Q : _ → world → Prop) w z :
    hok w tb → i < th_len tb → e_ptr cur = Some p0 → e_copying cur = false → hpw w p0 (k0, v1) → pro w p0 →
    visw w (th tb) k0 → Mtw w (th tb) i → hadw w n0 (th tb) i k0 → clean w → own w None z →
    (∀ h n, h !! p0 = Some (k0, v1) → h !! n = Some (k0, v0) → evok h o (Ev k0 opid (Some p0) (Some n))) →
    (∀ w' p, mv w w' → TI w' → hpw w' p (k0, v0) → pro w' p → didw w' (Ev k0 opid (Some p0) (Some p)) → own w' None z → Q (UReplaced cur (Some p)) w') →
    (∀ w' s, wext w w' → TI w' → ufound w' n0 k0 tb i s → Q (UFound s) w') →
    WP (update_at cfg i cur (NewEnt (k0, v0)) tb) Q w.
  Proof.
    intros H Li Ep Ec HP PR Vs M D C O EV S1 S2. pose proof (mv_refl cfg nthr nsh me w) as MV. acce w. unfold update_at.
    nrm. eapply w_cas_upd; [done|done|done|done|exact HP|done|done|done|done|done|done| |].
    - clear O C. intros w1 w2 p E1 T1 M2 T2 HP2 HPt DD O R. tr E1. clear Acc. tr M2. cbv beta.
      destruct (hok_pro _ _ _ _ _ _ _ _ _ _ T2 H HPt) as [PR2 _].
      apply WP_bind. eapply s_defer_retire; [done|done|done|done|intros B; by eapply visw_rtw|]. clear O R. intros w3 F3 T3 O. tr F3.
      apply WP_ret. intros w4 E4 T4. tr E4. auto.
    - intros w1 E1 T1. tr E1. cbv beta. pose proof (had_found _ _ _ _ _ T1 H Vs D M) as UF. apply WP_ret. intros w2 E2 T2.
      apply (st_ufound _ _ _ _ _ _ _ (wext_mv _ _ _ _ _ _ _ E2)) in UF. tr E2. auto.
  Qed.
  Lemma s_update_tomb i cur p0 k0 v1 tb n0 (Q : _ → world → Prop) w z :
    hok w tb → i < th_len tb → e_ptr cur = Some p0 → e_copying cur = false → hpw w p0 (k0, v1) → pro w p0 →
    visw w (th tb) k0 → Mtw w (th tb) i → hadw w n0 (th tb) i k0 → clean w → own w None z →
    (∀ h, h !! p0 = Some (k0, v1) → evok h o (Ev k0 opid (Some p0) None)) →
    (∀ w', mv w w' → TI w' → didw w' (Ev k0 opid (Some p0) None) → hk2 w' (th tb) i TOMBMETA → own w' None (z - 1)%Z → Q (UReplaced cur None) w') →
    (∀ w' s, wext w w' → TI w' → ufound w' n0 k0 tb i s → Q (UFound s) w') →
    WP (update_at cfg i cur NewTomb tb) Q w.
  Proof.
    intros H Li Ep Ec HP PR Vs M D C O EV S1 S2. pose proof (mv_refl cfg nthr nsh me w) as MV. acce w. unfold update_at.
    pose proof (clean_npub _ _ C) as NP.
    nrm. eapply w_cas_rem; [done|done|done|done|exact HP|done|done|done|by right|done|done| |].
    - clear O C NP. intros w1 w2 E1 T1 M2 T2 DD NP2 HK O R _. tr E1. clear Acc. tr M2. cbv beta. clear NP2.
      apply WP_bind. eapply s_defer_retire; [done|done|done|done|intros B; by eapply visw_rtw|]. clear O R. intros w3 F3 T3 O. tr F3.
      apply WP_ret. intros w4 E4 T4. tr E4. auto.
    - intros w1 E1 T1. tr E1. cbv beta. pose proof (had_found _ _ _ _ _ T1 H Vs D M) as UF. apply WP_ret. intros w2 E2 T2.
      apply (st_ufound _ _ _ _ _ _ _ (wext_mv _ _ _ _ _ _ _ E2)) in UF. tr E2. auto.
  Qed.
End prog3.
