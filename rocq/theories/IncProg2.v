(** Specifications of the resize machinery: allocation of the next table, copying, promotion, waiting. *)
From Verif Require Export IncProg1.

Section prog2a.
  Context {K V : Type} {Keq : EqDecision K} (cfg : config K) (nthr nsh me opid : nat) (o : op K V).
  Notation core := (core K V). Notation ghost := (@ghost K). Notation event := (event K).
  Notation world := (@world K V). Notation rghost := (@rghost K V). Notation prog := (prog K V).
  Notation Inv := (Inv cfg). Notation WI := (WI cfg nthr nsh).
  Notation fr := (fr cfg nthr nsh me opid). Notation fx := (fx cfg nthr nsh me opid). Notation mv := (mv cfg nthr nsh me).
  Notation wext := (wext cfg nthr nsh me opid). Notation wgrd := (wgrd me opid).
  Notation ix := (ix cfg). Notation passes := (passes cfg). Notation visited := (visited cfg).
  Notation TI := (TI cfg nthr nsh me opid o). Notation WP := (WP cfg nthr nsh me opid o).
  Notation hok := (hok me). Notation psd := (psd cfg). Notation pro := (pro me). Notation visw := (visw cfg).
  Notation hk2 := (hk2 cfg). Notation own := (own me). Notation clean := (clean opid). Notation npub := (npub opid).
  Notation qtw := (qtw opid o). Notation didw := (didw opid). Notation fq := (fq cfg nthr nsh me opid). Notation lkw := (lkw me). Notation lk1 := (lk1 me).
  Notation exw := (exw cfg). Notation owr := (owr me). Notation dnr := (dnr me). Notation passw := (passw cfg).
  Implicit Types w : world.

  (** In blocking mode, a table to which another one may be appended. *)
  Definition als w t : Prop := c_mode cfg = Blocking → raw w t ∨ abw w t.
  Lemma st_als w w' t : mv w w' → als w t → als w' t.
  Proof. intros M A B. destruct (A B); [left; by eapply st_raw|right; by eapply st_abw]. Qed.
  Lemma raw_als w t : raw w t → als w t.
  Proof. intros R _. by left. Qed.
  Lemma abw_als w t : abw w t → als w t.
  Proof. intros R _. by right. Qed.
  Lemma raw_root w t : TI w → k_rt (wc w) = Some t → raw w t.
  Proof.
    intros T E. pose proof (al_rt _ _ _ (TI_inv _ _ _ _ _ _ _ T)) as A. assert (rt (wc w) = t) as <- by (unfold rt; by rewrite E). by split.
  Qed.
  Lemma raw_promoted w t : TI w → fld PENDING (k_st (wc w)) t = PROMOTED → raw w t.
  Proof. intros T E. split; [by apply (i_status _ _ _ (TI_inv _ _ _ _ _ _ _ T))|]. unfold al. by rewrite E. Qed.
  Lemma raw_rtw w t : raw w t → rtw w t.
  Proof. intros R. apply R. Qed.
End prog2a.
Ltac st_more M H ::= first [eapply st_ckey; [exact M|exact H]|eapply st_dkey; [exact M|exact H]|eapply st_als; [exact M|exact H]].

Section prog2.
  Context {K V : Type} {Keq : EqDecision K} (cfg : config K) (nthr nsh me opid : nat) (o : op K V).
  Notation core := (core K V). Notation ghost := (@ghost K). Notation event := (event K).
  Notation world := (@world K V). Notation rghost := (@rghost K V). Notation prog := (prog K V).
  Notation Inv := (Inv cfg). Notation WI := (WI cfg nthr nsh).
  Notation fr := (fr cfg nthr nsh me opid). Notation fx := (fx cfg nthr nsh me opid). Notation mv := (mv cfg nthr nsh me).
  Notation wext := (wext cfg nthr nsh me opid). Notation wgrd := (wgrd me opid).
  Notation ix := (ix cfg). Notation passes := (passes cfg). Notation visited := (visited cfg).
  Notation TI := (TI cfg nthr nsh me opid o). Notation WP := (WP cfg nthr nsh me opid o).
  Notation hok := (hok me). Notation psd := (psd cfg). Notation pro := (pro me). Notation visw := (visw cfg).
  Notation hk2 := (hk2 cfg). Notation own := (own me). Notation clean := (clean opid). Notation npub := (npub opid).
  Notation qtw := (qtw opid o). Notation didw := (didw opid). Notation fq := (fq cfg nthr nsh me opid). Notation lkw := (lkw me). Notation lk1 := (lk1 me).
  Notation exw := (exw cfg). Notation owr := (owr me). Notation dnr := (dnr me). Notation passw := (passw cfg).
  Implicit Types w : world.
  Notation als := (als cfg).

  (** ** Allocating the next table *)
  Lemma s_spin_next n tb (Q : _ → world → Prop) w : hok w tb →
    (∀ r w', wext w w' → TI w' → (∀ nx, r = Some nx → hok w' nx ∧ th nx = S (th tb)) → Q r w') → WP (spin_next n tb) Q w.
  Proof.
    revert w. induction n as [|n IH]; cbn [spin_next]; intros w H S; acce w.
    - apply WP_ret. intros w' E T. by apply S.
    - nrm. apply r_next; [done|]. intros w1 E1 T1. tr E1. split.
      + intros _. apply IH; [done|]. intros r w2 E2 T2 R. tr E2. auto 10.
      + intros nx En Hn. apply WP_ret. intros w2 E2 T2. tr E2. apply S; [done|done|]. by intros ? [= <-].
  Qed.

  Lemma good_next_cap w tb n : TI w → hok w tb → good_cfg cfg → is_pow2 (next_capacity (c_initial cfg) (th_len tb) n) = true.
  Proof.
    intros T H G. destruct (hok_len _ _ _ _ _ _ _ _ T H) as (L & _ & B).
    destruct (i_pow _ _ _ (TI_inv _ _ _ _ _ _ _ T) _ B) as (b & Hb & Eb). rewrite L in Eb.
    assert (8 ≤ th_len tb). { rewrite Eb. change 8 with (2 ^ 3). apply Nat.pow_le_mono_r; lia. }
    assert (S4 : 4 ≤ Nat.shiftr (th_len tb) 1).
    { rewrite Nat.shiftr_div_pow2. change (2 ^ 1) with 2. apply Nat.div_le_lower_bound; lia. }
    assert (P : is_pow2 (th_len tb) = true) by (apply is_pow2_spec; eauto).
    destruct G as [G|G].
    - apply is_pow2_spec in G as [b' G]. apply (next_capacity_pow2 _ _ _ b'); [auto|done|lia].
    - apply (next_capacity_pow2 _ _ _ 0); [|done|lia]. right. left. lia.
  Qed.
  Lemma pow2_alloc n : is_pow2 n = true → alloc_len n ≠ None.
  Proof. intros E. unfold alloc_len. by rewrite E. Qed.

  Lemma s_alloc_locked cap tb (Q : _ → world → Prop) w : hok w tb → lk1 w (th tb) → als w (th tb) → qtw w → (∀ c, cap = Some c → alloc_len c ≠ None) →
    (∀ nx w', fq no2 w w' → TI w' → hok w' nx → th nx = S (th tb) → Q nx w') → WP (alloc_locked cfg cap tb) Q w.
  Proof.
    intros H L AS QT C S. acc w. unfold alloc_locked. nrm. apply r_next; [done|]. intros w1 E1 T1. tr E1. split.
    - intros N. assert (LK : lkw w1 (th tb)).
      { split; [done|]. rewrite (hok_next _ _ _ _ _ _ _ _ T1 H). rewrite decide_False; [done|lia]. }
      apply WP_bind. apply s_map_len. intros n w2 E2 T2. clear N. tr E2. cbv zeta.
      destruct (alloc_len _) as [len|] eqn:EA.
      + apply alloc_len_pow2 in EA as (b & Hb & Eb). nrm. eapply w_publish_next; [done|done|done|done|exact AS|].
        intros w3 nx F3 T3 Hn En L3. clear LK L. tr F3. cbv beta. nrm. apply w_unlock; [done|done|]. clear L3.
        intros w4 F4 T4. tr F4. cbv beta. apply WP_ret. intros w5 E5 T5. tr E5. auto 10.
      + assert (G : ¬ good_cfg cfg).
        { intros G. destruct cap as [c|]; cbn [default] in EA; [by eapply C|]. revert EA. apply pow2_alloc. by eapply good_next_cap. }
        nrm. apply w_poison; [done|done|done|]. clear L LK. intros w3 F3 T3. tr F3. cbv beta. apply WP_fail. intros w4 E4 T4. tr E4. by split.
    - intros nx En Hn. nrm. apply w_unlock; [done|done|]. clear L. intros w2 F2 T2. tr F2. cbv beta. apply WP_ret.
      intros w3 E3 T3. tr E3. auto 10.
  Qed.

  Lemma s_get_or_alloc cap tb (Q : _ → world → Prop) w : hok w tb → als w (th tb) → qtw w → (∀ c, cap = Some c → alloc_len c ≠ None) →
    (∀ nx w', fq no2 w w' → TI w' → hok w' nx → th nx = S (th tb) → Q nx w') → WP (get_or_alloc_next cfg cap tb) Q w.
  Proof.
    intros H AS QT C S. acc w. unfold get_or_alloc_next. nrm. apply r_next; [done|]. intros w1 E1 T1. tr E1. split.
    - intros _. nrm. apply w_try_lock; [done| |].
      + intros w2 F2 T2 L. tr F2. cbv beta. apply s_alloc_locked; [done|done|done|done|done|]. clear L. intros nx w3 F3 T3 Hn En. tr F3. auto 10.
      + intros w2 E2 T2. tr E2. cbv beta. apply WP_bind. apply s_spin_next; [done|]. intros r w3 E3 T3 R. tr E3.
        destruct r as [nx|].
        * destruct (R nx eq_refl) as [Hn En]. clear R. apply WP_ret. intros w4 E4 T4. tr E4. auto 10.
        * clear R. nrm. apply w_lock; [done| |].
          -- intros w4 F4 T4 L. tr F4. cbv beta. apply s_alloc_locked; [done|done|done|done|done|]. clear L. intros nx w5 F5 T5 Hn En. tr F5. auto 10.
          -- intros w4 E4 T4 G. tr E4. cbv beta. apply WP_fail. intros w5 E5 T5. tr E5. by split.
    - intros nx En Hn. apply WP_ret. intros w2 E2 T2. tr E2. auto 10.
  Qed.

  (** ** Promotion *)
  Lemma hok_nrt w tb : TI w → hok w tb → k_rt (wc w) ≠ None.
  Proof.
    intros T H E. destruct (hok_len _ _ _ _ _ _ _ _ T H) as (_ & _ & B).
    pose proof (i_root _ _ _ (TI_inv _ _ _ _ _ _ _ T)) as R. rewrite E in R. lia.
  Qed.
  (** ** Copying *)
  Lemma found_hk2 w tb i : TI w → hok w tb → i < th_len tb → en (k_sl (wc w)) (th tb) i ≠ NULLW →
    match e_ptr (en (k_sl (wc w)) (th tb) i) with
    | None => hk2 w (th tb) i TOMBMETA
    | Some p => pro w p ∧ ∃ kv, hpw w p kv ∧ hk2 w (th tb) i (h2_of cfg kv.1)
    end.
  Proof.
    intros T H L N. destruct (e_ptr _) as [p|] eqn:E.
    - destruct (hok_pro _ _ _ _ _ _ _ _ _ _ T H E) as [P (kv & Hkv)]. split; [done|]. exists kv. split; [done|]. split; [done|].
      intros k Hk. pose proof (HK_key _ _ _ _ _ Hk E) as X. unfold ky in X. unfold hpw in Hkv. rewrite Hkv in X. cbn in X. congruence.
    - split; [done|]. intros k (p & Hp' & _). unfold Hp in Hp'. congruence.
  Qed.
  (** Storing metadata on behalf of the thread that claimed the slot. *)
  Lemma s_fixmeta {A} tb i m (k : unit → prog A) Q w : hok w tb → i < th_len tb → m ≠ EMPTY → hk2 w (th tb) i m →
    (∀ w', fq no2 w w' → TI w' → Mtw w' (th tb) i → WP (k tt) Q w') →
    WP (m2 ← act (a_load_meta tb i); (if (m2 =? EMPTY)%N then act (a_store_meta tb i m) else Ret tt);; k tt) Q w.
  Proof.
    intros H L N H2 S. acc w. nrm. apply r_load_meta; [done|done|]. intros w1 E1 T1. tr E1. cbv beta.
    destruct (N.eqb_spec (mt (k_sl (wc w1)) (th tb) i) EMPTY) as [E|E].
    - nrm. apply w_store_meta; [done|done|done|done|]. intros w2 F2 T2 M. tr F2. cbv beta. auto 10.
    - assert (M : Mtw w1 (th tb) i) by done. nrm. apply S; auto 10.
  Qed.
  Lemma probe_lt w tb k q : TI w → hok w tb → probe_idx (c_hash cfg k) (th_mask tb) q < th_len tb.
  Proof.
    intros T H. pose proof (hok_ix _ _ _ _ _ _ _ _ k q T H) as E. destruct (hok_len _ _ _ _ _ _ _ _ T H) as (L & _ & B).
    rewrite <- E, <- L. apply (ix_lt _ _ _ (TI_inv _ _ _ _ _ _ _ T)). done.
  Qed.

  Lemma mtp_exhM w tb k : TI w → hok w tb → mtp w (th tb) (c_hash cfg k) (th_mask tb) (S (th_limit tb)) → exhM cfg (wc w) (th tb) k.
  Proof.
    intros T H M q Lq. rewrite (hok_ix _ _ _ _ _ _ _ _ _ _ T H). apply M. destruct (hok_len _ _ _ _ _ _ _ _ T H) as (_ & L & _). lia.
  Qed.
  (** ** Waiting *)
  Lemma s_spin_status n nx (Q : _ → world → Prop) w : hok w nx →
    (∀ r w', wext w w' → TI w' → (r = Some PROMOTED → raw w' (th nx)) → Q r w') → WP (spin_status n nx) Q w.
  Proof.
    revert w. induction n as [|n IH]; cbn [spin_status]; intros w H S; acce w.
    - apply WP_ret. intros w' E T. by apply S.
    - nrm. apply r_load_status; [done|]. intros w1 E1 T1. tr E1. cbv beta. case_bool_decide as Es.
      + apply IH; [done|]. intros r w2 E2 T2 R. tr E2. auto 10.
      + apply WP_ret. intros w2 E2 T2. assert (R : fld PENDING (k_st (wc w1)) (th nx) = PROMOTED → raw w2 (th nx)).
        { intros E. eapply st_raw; [by eapply wext_mv|]. by eapply raw_promoted. }
        tr E2. apply S; auto. intros [= E]. auto 10.
  Qed.
  Lemma s_wait_status nx (Q : _ → world → Prop) w : hok w nx →
    (∀ s w', fq no2 w w' → TI w' → (s = PROMOTED → raw w' (th nx)) → Q s w') → WP (wait_status cfg nx) Q w.
  Proof.
    intros H S. acc w. unfold wait_status. apply (WP_loop _ _ _ _ _ _ (λ _ w1, fq no2 w w1 ∧ hok w1 nx)).
    { intros w1 E1 T1. tr E1. auto 10. }
    clear H Acc. intros n w1 (F & H) T. apply WP_bind. apply s_spin_status; [done|]. intros r w2 E2 T2 R. tr E2.
    destruct r as [s|].
    - apply WP_ret. intros w3 E3 T3. assert (R3 : s = PROMOTED → raw w3 (th nx)).
      { intros ->. eapply st_raw; [by eapply wext_mv|]. auto 10. }
      clear R. tr E3. auto 10.
    - clear R. nrm. apply r_load_status; [done|]. intros w3 E3 T3. tr E3. cbv beta. case_bool_decide as Es.
      + apply WP_bind. apply s_park; [done|done|]. intros w4 F4 T4 _. tr F4. apply WP_ret. intros w5 E5 T5. tr E5. auto 10.
      + apply WP_ret. intros w4 E4 T4. assert (R : fld PENDING (k_st (wc w3)) (th nx) = PROMOTED → raw w4 (th nx)).
        { intros E. eapply st_raw; [by eapply wext_mv|]. by eapply raw_promoted. }
        tr E4. auto 10.
  Qed.
  Lemma s_wait_copied i tb (Q : _ → world → Prop) w : hok w tb → i < th_len tb → CPw w (th tb) i →
    (∀ w', fq no2 w w' → TI w' → cdw w' (th tb) i → Q tt w') → WP (wait_copied cfg i tb) Q w.
  Proof.
    intros H L C S. acc w. unfold wait_copied.
    assert (SP : ∀ n (Q' : bool → world → Prop) w1, hok w1 tb → CPw w1 (th tb) i → 
       (∀ b w', wext w1 w' → TI w' → (b = true → cdw w' (th tb) i) → Q' b w') → WP (spin_copied n i tb) Q' w1).
    { clear - L. induction n as [|n IH]; cbn [spin_copied]; intros Q' w H C S; acce w.
      - apply WP_ret. intros w' E T. by apply S.
      - nrm. apply r_load_ent; [done|done|]. intros w1 E1 T1. tr E1. cbv beta. destruct (e_copied _) eqn:Ec.
        + assert (D : cdw w1 (th tb) i) by done. apply WP_ret. intros w2 E2 T2. clear Ec. tr E2. auto 10.
        + apply IH; auto. intros b w2 E2 T2 R. tr E2. auto 10. }
    apply WP_bind. apply SP; [done|done|]. intros b w1 E1 T1 R. tr E1. destruct b.
    - specialize (R eq_refl). apply WP_ret. intros w2 E2 T2. tr E2. auto 10.
    - clear R. apply s_park; [done|by split|]. intros w2 F2 T2 D. tr F2. auto 10.
  Qed.

End prog2.

Section prog2i.
  Context {K V : Type} {Keq : EqDecision K} (cfg : config K) (nthr nsh me opid : nat) (o : op K V).
  Notation core := (core K V). Notation ghost := (@ghost K). Notation event := (event K).
  Notation world := (@world K V). Notation rghost := (@rghost K V). Notation prog := (prog K V).
  Notation Inv := (Inv cfg). Notation WI := (WI cfg nthr nsh).
  Notation fr := (fr cfg nthr nsh me opid). Notation fx := (fx cfg nthr nsh me opid). Notation mv := (mv cfg nthr nsh me).
  Notation wext := (wext cfg nthr nsh me opid). Notation wgrd := (wgrd me opid).
  Notation ix := (ix cfg). Notation passes := (passes cfg). Notation visited := (visited cfg).
  Notation TI := (TI cfg nthr nsh me opid o). Notation WP := (WP cfg nthr nsh me opid o).
  Notation hok := (hok me). Notation psd := (psd cfg). Notation pro := (pro me). Notation visw := (visw cfg).
  Notation hk2 := (hk2 cfg). Notation own := (own me). Notation clean := (clean opid). Notation npub := (npub opid).
  Notation qtw := (qtw opid o). Notation didw := (didw opid). Notation fq := (fq cfg nthr nsh me opid). Notation lkw := (lkw me). Notation lk1 := (lk1 me).
  Notation exw := (exw cfg). Notation owr := (owr me). Notation dnr := (dnr me). Notation passw := (passw cfg).
  Implicit Types w : world.
  Notation als := (als cfg).
  Context (ch : nat) (HM : c_mode cfg = Incremental ch).
  Lemma als_inc w t : als w t.
  Proof. intros E. congruence. Qed.
  Lemma raw_inc w t : TI w → rtw w t → raw w t.
  Proof. intros T R. split; [done|]. by eapply al_inc, TI_inv. Qed.

  Lemma s_try_promote tb nx c a (Q : _ → world → Prop) w z : hok w tb → hok w nx → th nx = S (th tb) → own w None z →
    (c = 0 ∨ a + c ≤ th_len tb) → dnr w (th tb) a (a + c) →
    (∀ b w', fr w w' → TI w' → (b = true → raw w' (th nx)) → Q b w') → WP (try_promote tb nx c) Q w.
  Proof.
    intros H Hn En O L D S. accr w. pose proof O as O0. unfold try_promote.
    assert (TAIL : ∀ c' w1, fr w w1 → TI w1 → hok w1 tb → hok w1 nx → own w1 None z → (c' = th_len tb → acw w1 tb) → WP
      (if c' =? th_len tb then
         (r ← act a_root_raw;
          if bool_decide (r = Some (th tb)) then
            (ok ← act (a_cas_root tb nx);
             (if (ok : bool) then
                (act (a_store_status nx PROMOTED);; act (a_retire (RTable (th tb))))
              else Ret tt);;
             unpark nx KStatus;;
             Ret true)
          else Ret false)
       else Ret false) Q w1).
    { clear O D H Hn Acc. intros c' w1 F T H Hn O A. destruct (Nat.eqb_spec c' (th_len tb)) as [Ec|Ec].
      2: { clear A. apply WP_ret. intros w2 E2 T2. tr E2. by apply S. }
      specialize (A Ec). nrm. apply r_root_raw. intros w2 E2 T2. tr E2. cbv beta. case_bool_decide as Er.
      2: { apply WP_ret. intros w3 E3 T3. tr E3. by apply S. }
      assert (RT : rtw w2 (th tb)). { unfold rtw, rt. rewrite Er. done. }
      assert (NR : nrt w2) by (unfold nrt; congruence). clear Er.
      assert (FIN : ∀ w3, fr w w3 → TI w3 → hok w3 nx → raw w3 (th nx) → WP (unpark nx KStatus;; Ret true) Q w3).
      { clear - S. intros w3 F T Hn R. apply WP_bind. apply s_unpark; [done|]. intros w4 F4 T4. tr F4. apply WP_ret.
        intros w5 E5 T5. tr E5. by apply S. }
      pose proof (fr_fx _ _ _ _ _ _ _ F) as FX.
      nrm. eapply w_cas_root; [exact HM|done|done|done|done|done| |].
      - clear F. clear O. intros w3 F3 T3 O R. tr F3. cbv beta. apply WP_bind. nrm. apply w_status; [done|done|].
        intros w4 F4 T4. tr F4. cbv beta. nrm. eapply w_retire; [done|by intros ? [=]|]. clear O. intros w5 F5 T5 O. tr F5. cbv beta.
        apply WP_ret. intros w6 E6 T6. tr E6. apply FIN; auto. by eapply fr_of.
      - intros w3 E3 T3 Nr. tr E3. cbv beta. nrm. apply FIN; auto 10.
        apply raw_inc; [done|]. unfold rtw, rt, nrt in *. destruct (k_rt (wc w3)) as [r|]; [|done]. cbn in *. assert (r ≠ th tb) by congruence. lia. }
    destruct c as [|c]; cbn [Nat.ltb Nat.leb].
    - apply WP_bind. nrm. apply r_load_copied; [done|]. intros w1 E1 T1. clear D. tr E1. cbv beta. apply WP_ret. intros w2 E2 T2.
      assert (A : fld 0 (k_cd (wc w1)) (th nx) = th_len tb → acw w2 tb).
      { intros E. eapply st_acw; [by eapply wext_mv|]. eapply copied_acw; [exact HM|exact T1|exact H|exact Hn|exact En|exact E]. }
      tr E2. apply TAIL; auto 10.
    - apply WP_bind. nrm. eapply (w_add_copied _ _ _ _ _ _ ch HM tb nx a (Datatypes.S c)); [done|done|done|lia|done|].
      intros w1 s F1 T1 A. clear D. cbv beta. apply WP_ret. intros w2 E2 T2. assert (A2 : s + Datatypes.S c = th_len tb → acw w2 tb).
      { intros E. eapply st_acw; [by eapply wext_mv|]. auto 10. }
      clear A. tr F1. tr E2. apply TAIL; auto 10.
  Qed.

  Lemma s_insert_copy_probe fuel tb k0 v0 q p t1 i1 n1 (Q : _ → world → Prop) w : hok w tb → fuel + q = S (th_limit tb) → 
    mtp w (th tb) (c_hash cfg k0) (th_mask tb) q → i1 < n1 → lnw w t1 n1 → phw w t1 i1 (PMark me) → cpw w t1 i1 p →
    hpw w p (k0, v0) → pro w p → t1 < th tb → exw w t1 (th tb) k0 →
    (∀ w' i', fq (at2 t1 i1) w w' → TI w' → phw w' t1 i1 (PInsd me (th tb) i') → Mtw w' (th tb) i' → Q true w') →
    (∀ w', fq no2 w w' → TI w' → mtp w' (th tb) (c_hash cfg k0) (th_mask tb) (S (th_limit tb)) → Q false w') →
    WP (insert_copy_probe cfg fuel tb (EW (Some p) false false true) k0 (probe_idx (c_hash cfg k0) (th_mask tb) q) q) Q w.
  Proof.
    revert q w. induction fuel as [|f IH]; intros q w H Lf MP Li LN PH CPp HP PR Lt EX ST SF; cbn [insert_copy_probe]; acc w.
    - apply WP_ret. intros w' E T. tr E. apply SF; [done|done|]. by replace (S (th_limit tb)) with q by lia.
    - apply WP_close. intros w1 E1 T1. tr E1.
      pose proof (probe_lt _ _ _ _ _ _ _ _ k0 q T1 H) as Lq.
      assert (CONT : ∀ w2, fq no2 w w2 → TI w2 → hok w2 tb → mtp w2 (th tb) (c_hash cfg k0) (th_mask tb) q →
         Mtw w2 (th tb) (probe_idx (c_hash cfg k0) (th_mask tb) q) → lnw w2 t1 n1 → phw w2 t1 i1 (PMark me) → cpw w2 t1 i1 p → hpw w2 p (k0, v0) → pro w2 p →
         exw w2 t1 (th tb) k0 → WP (insert_copy_probe cfg f tb (EW (Some p) false false true) k0
           (probe_next (probe_idx (c_hash cfg k0) (th_mask tb) q) (S q) (th_mask tb)) (S q)) Q w2).
      { intros w2 F2 T2 H2 MP2 M2 LN2 PH2 CP2 HP2 PR2 EX2.
        apply (IH (S q) w2); auto; [lia| | |].
        - intros q' Lq'. destruct (decide (q' = q)) as [->|]; [done|]. apply MP2. lia.
        - intros w3 i' F3 T3. apply ST; [|done]. eapply fq_trans; [eapply fq_weak, F2|done].
        - intros w3 F3 T3. apply SF; [|done]. by eapply fq_trans. }
      nrm. apply r_load_meta; [done|done|]. intros w2 E2 T2. tr E2. cbv beta.
      destruct (N.eqb_spec (mt (k_sl (wc w2)) (th tb) (probe_idx (c_hash cfg k0) (th_mask tb) q)) EMPTY) as [E|E].
      2: { apply CONT; auto 10. }
      clear E. nrm. eapply (w_cas_copy _ _ _ _ _ _ ch HM tb _ q _ p k0 v0 t1 i1 n1); [done|lia|done|done| |done|done|done|done|done|done|done|done| |].
      { intros w3 M T3. eapply st_lnw; [exact M|exact LN]. }
      + intros w3 F3 T3 PI HK. clear PH. assert (F : fq (at2 t1 i1) w w3) by (eapply fq_trans; [eapply fq_weak; exact Acc|exact F3]).
        pose proof (st_hok _ _ _ _ _ _ _ (fr_mv _ _ _ _ _ _ _ (proj1 F3)) H) as H3. cbv beta.
        nrm. apply w_store_meta; [done|done|apply h2_not_empty|done|]. intros w4 F4 T4 M. tr F4. cbv beta.
        apply WP_ret. intros w5 E5 T5. tr E5. eauto.
      + intros w3 E3 T3 N3. tr E3. cbv beta. pose proof (found_hk2 _ _ _ _ _ _ _ _ _ T3 H Lq N3) as FH.
        destruct (e_ptr _) as [p'|] eqn:Ep.
        * destruct FH as (PR' & kv' & HP' & HK'). apply WP_bind. nrm. eapply r_deref; [done|done|]. intros w4 E4 T4. tr E4. cbv beta.
          apply WP_ret. intros w5 E5 T5. tr E5. 
          eapply (s_fixmeta _ _ _ _ _ _ tb _ _ (λ _, _)); [done|done|apply h2_not_empty|done|]. intros w6 F6 T6 M6. tr F6. apply CONT; auto 10.
        * apply WP_bind. apply WP_ret. intros w5 E5 T5. tr E5. 
          eapply (s_fixmeta _ _ _ _ _ _ tb _ _ (λ _, _)); [done|done|done|done|]. intros w6 F6 T6 M6. tr F6. apply CONT; auto 10.
  Qed.

  Lemma s_insert_copy tb p t1 i1 n1 (Q : _ → world → Prop) w : hok w tb → i1 < n1 → lnw w t1 n1 → phw w t1 i1 (PMark me) →
    cpw w t1 i1 p → (∃ kv, hpw w p kv) → pro w p → th tb = S t1 → qtw w →
    (∀ w' t' i', fq (at2 t1 i1) w w' → TI w' → phw w' t1 i1 (PInsd me t' i') → Mtw w' t' i' → Q true w') →
    WP (insert_copy cfg (EW (Some p) false false true) p true tb) Q w.
  Proof.
    intros H Li LN PH CPp ([k0 v0] & HP) PR Et QT S. acc w. unfold insert_copy. nrm. eapply r_deref; [done|done|]. intros w1 E1 T1. tr E1. cbv beta.
    cbn [fst]. apply (WP_loop _ _ _ _ _ _ (λ tb w1, fq no2 w w1 ∧ hok w1 tb ∧ lnw w1 t1 n1 ∧ phw w1 t1 i1 (PMark me) ∧ cpw w1 t1 i1 p ∧
      hpw w1 p (k0, v0) ∧ pro w1 p ∧ t1 < th tb ∧ exw w1 t1 (th tb) k0 ∧ qtw w1)).
    { intros w2 E2 T2. tr E2. split_and!; auto; [lia|]. intros t A B. lia. }
    clear dependent tb. clear LN PH CPp HP PR QT Acc T1. clear w1. intros tb w1 (F & H & LN & PH & CPp & HP & PR & Lt & EX & QT) T1.
    apply WP_bind. eapply (s_insert_copy_probe (probe_fuel tb) tb k0 v0 0 p t1 i1 n1); [done|unfold probe_fuel; lia|intros q' Lq; lia|done|done|done|done|done|done|done|done| |].
    - intros w2 i' F2 T2 PH2 M2. clear PH. assert (F0 : fq (at2 t1 i1) w w2) by (eapply fq_trans; [eapply fq_weak; exact F|exact F2]).
      cbn [negb]. apply WP_ret. clear F2. intros w3 E3 T3. tr E3. eapply S; eauto.
    - intros w2 F2 T2 MP. tr F2. cbn [negb]. apply WP_bind. apply s_get_or_alloc; [done|apply als_inc|done|done|]. intros nx w3 F3 T3 Hn En. tr F3.
      apply WP_ret. intros w4 E4 T4. tr E4. split_and!; auto; [lia|]. intros t A B. rewrite En in B.
      destruct (decide (t = th tb)) as [->|]; [by eapply mtp_exhM|apply EX; lia].
  Qed.

  Lemma s_copy_at i tb nx (Q : _ → world → Prop) w : hok w tb → hok w nx → th nx = S (th tb) → i < th_len tb → phw w (th tb) i (POwn me) → qtw w →
    (∀ w', fq (at2 (th tb) i) w w' → TI w' → phw w' (th tb) i (PDone me) → Q tt w') → WP (copy_at_incremental cfg i tb nx) Q w.
  Proof.
    intros H Hn En Li PH QT S. unfold copy_at_incremental. nrm. eapply w_fetch_or; [exact HM|done|done|done|]. intros w1 e F1 T1 _ HE.
    clear PH. trk F1. cbv beta. case_bool_decide as Ee.
    { subst e. destruct HE as [PD _]. apply WP_ret. intros w2 E2 T2. tr E2. auto 10. }
    clear Ee. destruct (e_ptr e) as [p|] eqn:Ep.
    - destruct HE as (PM & CPp & Ec & Ed & Eb & HP & PR). rewrite Ec, Ed. apply WP_bind.
      pose proof (hok_lnw _ _ _ _ _ _ _ _ T1 H) as LN.
      eapply (s_insert_copy nx p (th tb) i (th_len tb)); auto. intros w2 t' i' F2 T2 PH M. clear PM HP.
      pose proof (bw_st _ _ _ _ _ _ _ _ _ _ (fr_mv _ _ _ _ _ _ _ (proj1 F2)) CPp Eb) as Eb2.
      tr F2. apply WP_bind. nrm.
      eapply w_store_ent; [exact HM|done|done|done|done|done|done|]. clear PH Eb Eb2. intros w3 F3 T3 PH. tr F3. cbv beta.
      apply WP_ret. intros w4 E4 T4. tr E4. apply s_unpark; [done|]. intros w5 F5 T5. tr F5. auto 10.
    - destruct HE as [PD HK]. nrm. apply w_store_meta; [done|done|done|done|]. intros w2 F2 T2 M. tr F2. cbv beta.
      apply WP_ret. intros w3 E3 T3. tr E3. auto 10.
  Qed.
  Lemma s_copy_chunk n i s c tb nx (Q : _ → world → Prop) w : hok w tb → hok w nx → th nx = S (th tb) → i = s + c → 
    owr w (th tb) i (Nat.min (i + n) (th_len tb)) → dnr w (th tb) s (s + c) → (c = 0 ∨ s + c ≤ th_len tb) → qtw w →
    (∀ c' w', fr w w' → TI w' → dnr w' (th tb) s (s + c') → (c' = 0 ∨ s + c' ≤ th_len tb) → Q c' w') →
    WP (copy_chunk_incremental cfg n i tb nx c) Q w.
  Proof.
    revert i c w. induction n as [|n IH]; intros i c w H Hn En Ei O D L QT S; cbn [copy_chunk_incremental].
    - accr w. clear O. apply WP_ret. intros w1 E1 T1. tr E1. auto 10.
    - destruct (Nat.leb_spec (th_len tb) i) as [Lt|Lt].
      { accr w. clear O. apply WP_ret. intros w1 E1 T1. tr E1. auto 10. }
      apply WP_bind. eapply s_copy_at; [done|done|done|done|apply O; lia|done|]. intros w1 F1 T1 PD.
      assert (O1 : owr w1 (th tb) (Datatypes.S i) (Nat.min (Datatypes.S i + n) (th_len tb))).
      { eapply fq_owr; [exact F1|unfold at2; lia|]. intros j A B. apply O; lia. }
      assert (D1 : dnr w1 (th tb) s (s + Datatypes.S c)).
      { intros j A B. destruct (decide (j = i)) as [->|]; [done|]. eapply fq_phw; [exact F1|unfold at2; lia|done|]. apply D; lia. }
      clear O D. trk F1. apply IH; auto; [lia|lia|].
      intros c' w2 F2 T2 D2 L2. apply S; auto. eapply fr_trans; [apply F1|done].
  Qed.

  Lemma s_help_incremental chunk block tb0 (Q : _ → world → Prop) w z : hok w tb0 → own w None z → qtw w →
    (∀ r w', fr w w' → TI w' → hok w' r → (block = true → raw w' (th r)) → Q r w') → WP (help_copy_incremental cfg chunk block) Q w.
  Proof.
    intros H0 O QT S. accr w. unfold help_copy_incremental. nrm. apply r_root. intros w1 E1 T1. tr E1. split.
    { intros E. destruct (hok_nrt _ _ _ _ _ _ _ _ T1 H0 E). }
    intros tb Er H. assert (RT : raw w1 (th tb)) by (by eapply raw_root). clear Er H0.
    nrm. apply r_next; [done|]. intros w2 E2 T2. tr E2. split.
    { intros _. apply WP_ret. intros w3 E3 T3. tr E3. auto 10. }
    intros nx En Hn. apply (WP_loop _ _ _ _ _ _ (λ _ w1, fr w w1 ∧ hok w1 tb ∧ hok w1 nx ∧ own w1 None z ∧ raw w1 (th tb) ∧ qtw w1)).
    { intros w3 E3 T3. tr E3. auto 10. }
    clear T2 O H Hn RT QT Acc w2 . intros [] w1 (F & H & Hn & O & RT & QT) T.
    apply WP_bind. eapply (s_try_promote tb nx 0 0); [done|done|done|done|auto|intros j A B; lia|]. intros ok w2 F2 T2 R. tr F2.
    destruct ok.
    { specialize (R eq_refl). apply WP_ret. intros w3 E3 T3. tr E3. auto 10. }
    clear R. apply WP_bind.
    apply (WP_loop _ _ _ _ _ _ (λ _ w1, fr w w1 ∧ hok w1 tb ∧ hok w1 nx ∧ own w1 None z ∧ raw w1 (th tb) ∧ qtw w1)).
    { intros w3 E3 T3. tr E3. auto 10. }
    assert (FIN : ∀ (done : bool) w1, TI w1 → fr w w1 → hok w1 tb → hok w1 nx → own w1 None z → raw w1 (th tb) → qtw w1 →
       (done = true → block = true → raw w1 (th nx)) → WP
         (if done || negb block then Ret (inr nx) else
            (s ← wait_status cfg nx; if bool_decide (s = PROMOTED) then Ret (inr nx) else Ret (inl tt)))
        (λ (r : unit + tref) w', match r with
            | inl _ => fr w w' ∧ hok w' tb ∧ hok w' nx ∧ own w' None z ∧ raw w' (th tb) ∧ qtw w'
            | inr b => Q b w' end) w1).
    { clear - S. intros dn w1 T F H Hn O RT QT R. destruct (dn || negb block) eqn:E.
      - apply WP_ret. intros w2 E2 T2. assert (R2 : block = true → raw w2 (th nx)).
        { intros ->. eapply st_raw; [by eapply wext_mv|]. destruct dn; [auto|done]. }
        clear R. tr E2. auto 10.
      - clear R. apply WP_bind. apply s_wait_status; [done|]. intros s w2 F2 T2 R. tr F2. case_bool_decide as Es.
        + specialize (R Es). apply WP_ret. intros w3 E3 T3. tr E3. auto 10.
        + clear R. apply WP_ret. intros w3 E3 T3. tr E3. auto 10. }
    clear T2 O H Hn RT QT F w2. intros [] w1 (F & H & Hn & O & RT & QT) T.
    nrm. apply r_load_claim; [done|]. intros w2 E2 T2. tr E2. cbv beta. destruct (th_len tb <=? _).
    { apply WP_ret. intros w3 E3 T3. tr E3. apply FIN; auto. done. }
    nrm. eapply w_add_claim; [exact HM|done|done|done|apply RT|]. intros w3 s F3 T3 OW. tr F3. cbv beta.
    apply WP_bind. eapply (s_copy_chunk chunk s s 0); auto; [intros j A B; apply OW; lia|intros j A B; lia|].
    clear OW. intros c w4 F4 T4 D L. tr F4. apply WP_bind. eapply (s_try_promote tb nx c s); [done|done|done|done|done|done|].
    clear D. intros ok w5 F5 T5 R. tr F5. destruct (ok || negb block) eqn:Eo.
    - apply WP_ret. intros w6 E6 T6. assert (R6 : true = true → block = true → raw w6 (th nx)).
      { intros _ ->. eapply st_raw; [by eapply wext_mv|]. destruct ok; [auto|done]. }
      clear R. tr E6. apply FIN; auto 10.
    - clear R. apply WP_ret. intros w6 E6 T6. tr E6. auto 10.
  Qed.

End prog2i.

