(** Specifications of removal. *)
From Verif Require Export IncProg5.
Section prog6.
  Context {K V : Type} {Keq : EqDecision K} (cfg : config K) (nthr nsh me opid : nat) (o : op K V).
  Notation core := (core K V). Notation ghost := (@ghost K). Notation event := (event K).
  Notation world := (@world K V). Notation rghost := (@rghost K V). Notation prog := (prog K V).
  Notation Inv := (Inv cfg). Notation WI := (WI cfg nthr nsh).
  Notation fr := (fr cfg nthr nsh me opid). Notation fx := (fx cfg nthr nsh me opid). Notation mv := (mv cfg nthr nsh me).
  Notation wext := (wext cfg nthr nsh me opid). Notation wgrd := (wgrd me opid).
  Notation ix := (ix cfg). Notation passes := (passes cfg). Notation visited := (visited cfg).
  Notation TI := (TI cfg nthr nsh me opid o). Notation WP := (WP cfg nthr nsh me opid o).
  Notation hok := (hok me). Notation psd := (psd cfg). Notation pro := (pro me). Notation visw := (visw cfg).
  Notation hk2 := (hk2 cfg). Notation own := (own me). Notation clean := (clean opid). Notation npub := (npub opid).
  Notation qtw := (qtw opid o). Notation didw := (didw opid). Notation fq := (fq cfg nthr nsh me opid). Notation lkw := (lkw me). Notation lk1 := (lk1 me).
  Notation exw := (exw cfg). Notation owr := (owr me). Notation dnr := (dnr me). Notation passw := (passw cfg).
  Implicit Types w : world.
  Notation fnd := (fnd me). Notation fndk := (fndk me). Notation lvw := (lvw cfg).

  (** ** Removal *)
  Definition rres w n0 (k : K) (pred : K → V → bool) z (r : rresult) : Prop :=
    match r with
    | RRemoved p => own w None z ∧ pro w p ∧ didw w (Ev k opid (Some p) None) ∧ ∃ v, hpw w p (k, v) ∧ pred k v = true
    | RRejected p => own w None z ∧ clean w ∧ wit w n0 k (Some p) ∧ pro w p ∧ ∃ v, hpw w p (k, v) ∧ pred k v = false
    | RAbsent => own w None z ∧ clean w ∧ wit w n0 k None
    end.
  Lemma s_remove_entry pred i e k tb n0 (Q : _ → world → Prop) w z :
    hok w tb → i < th_len tb → fndk w n0 k tb i e → e_copying e = false → visw w (th tb) k → clean w → own w None z →
    (∀ h p v, h !! p = Some (k, v) → pred k v = true → evok h o (Ev k opid (Some p) None)) →
    (∀ r w', mv w w' → TI w' → rres w' n0 k pred z r → Q (inl r) w') →
    (∀ w', fr w w' → TI w' → lvw w' tb k (Some i) → Q (inr (Some i)) w') →
    WP (remove_entry cfg pred tb i e) Q w.
  Proof.
    intros H Li FN Ec Vs C O EV S1 S2. acce w. unfold remove_entry.
    apply (WP_loop _ _ _ _ _ _ (λ e w1, wext w w1 ∧ hok w1 tb ∧ fndk w1 n0 k tb i e ∧ e_copying e = false ∧ visw w1 (th tb) k ∧ clean w1 ∧ own w1 None z)).
    { intros w1 E1 T1. tr E1. split_and!; auto. }
    clear Acc H FN Ec Vs C O e. intros e w1 (Acc & H & FN & Ec & Vs & C & O) T1. pose proof FN as (p0 & v1 & Ep & HP & PR & M & HA & _ & _).
    unfold key_of_ptr. rewrite Ep. cbn [default].
    nrm. eapply r_deref; [done|done|]. intros w2 E2 T2. tr E2. cbv beta. cbn [fst snd]. destruct (pred k v1) eqn:Epr; cbn [negb].
    2: { destruct FN as (p' & v' & Ep' & _ & _ & _ & _ & _ & W). assert (p' = p0) as -> by congruence. specialize (W Ec).
      apply WP_ret. intros w3 E3 T3. tr E3. apply S1; [by eapply wext_mv|done|]. cbn. split_and!; eauto. }
    apply WP_bind. eapply (s_update_tomb _ _ _ _ _ _ i e p0 k v1 tb n0); [done|done|done|done|done|done|done|done|done|done|done|by eauto| |].
    - intros w3 M3 T3 D3 HK O3. pose proof (wext_mv _ _ _ _ _ _ _ Acc) as MV. clear Acc C O FN HA M. tr M3.
      nrm. apply w_store_meta; [done|done|done|done|]. intros w4 F4 T4 M4. tr F4. cbv beta. nrm. eapply w_count; [done|]. clear O3. intros w5 F5 T5 O. tr F5. cbv beta.
      apply WP_ret. intros w6 E6 T6. tr E6. apply S1; [done|done|]. cbn. replace (z - 1 - -1)%Z with z in O by lia. split_and!; eauto.
    - intros w3 s E3 T3 UF. clear FN. tr E3. destruct s as [|e2|e2]; cbn in UF.
      + destruct UF as [W SK]. apply WP_ret. intros w4 E4 T4. tr E4. apply S1; [by eapply wext_mv|done|]. cbn. auto.
      + destruct UF as [FN Ec2]. assert (LV : lvw w3 tb k (Some i)) by (by eapply fndk_lvw). clear FN. apply WP_ret. intros w4 E4 T4. tr E4. apply S2; [by eapply wext_fr|done|done].
      + destruct UF as [FN Ec2]. apply WP_ret. intros w4 E4 T4. tr E4. split_and!; auto.
  Qed.
  Lemma s_remove_probe fuel pred tb k q n0 (Q : _ → world → Prop) w z :
    hok w tb → fuel + q = S (th_limit tb) → visw w (th tb) k → frs w n0 (th tb) → psd w (th tb) k q → clean w → own w None z →
    (∀ h p v, h !! p = Some (k, v) → pred k v = true → evok h o (Ev k opid (Some p) None)) →
    (∀ r w', mv w w' → TI w' → rres w' n0 k pred z r → Q (inl r) w') →
    (∀ c w', fr w w' → TI w' → lvw w' tb k c → Q (inr c) w') →
    WP (remove_probe cfg fuel pred tb k (probe_idx (c_hash cfg k) (th_mask tb) q) q) Q w.
  Proof.
    revert q w. induction fuel as [|f IH]; intros q w H Lf Vs F P C O EV S1 S2; cbn [remove_probe]; accr w.
    - replace q with (S (th_limit tb)) in P by lia. apply WP_ret. intros w' E T. tr E. apply S2; auto.
    - apply WP_close. intros w1 E1 T1. tr E1. pose proof (probe_lt _ _ _ _ _ _ _ _ k q T1 H) as Lq.
      set (i := probe_idx (c_hash cfg k) (th_mask tb) q) in *.
      assert (CONT : ∀ w2, fr w w2 → TI w2 → hok w2 tb → visw w2 (th tb) k → frs w2 n0 (th tb) → psd w2 (th tb) k q → clean w2 → own w2 None z →
         Mtw w2 (th tb) i → skipw w2 (th tb) i k →
         WP (remove_probe cfg f pred tb k (probe_next i (S q) (th_mask tb)) (S q)) Q w2).
      { intros w2 E2 T2 H2 V2 F2 P2 C2 O2 M2 SK2. apply (IH (S q) w2); auto; [lia|by eapply psd_S| |].
        - intros r w3 M3 T3 ?. apply S1; auto. eapply mv_trans; [by eapply fr_mv|done].
        - intros c w3 E3 T3 ?. apply S2; auto. by eapply fr_trans. }
      clear IH. nrm. apply r_load_meta; [done|done|]. intros w2 E2 T2. tr E2. cbv beta zeta.
      destruct (N.eqb_spec (mt (k_sl (wc w2)) (th tb) i) EMPTY) as [E0|E0].
      { assert (W : wit w2 n0 k None) by (eapply empty_wit; eauto; lia). clear E0.
        apply WP_ret. intros w3 E3 T3. tr E3. apply S1; [by eapply fr_mv|done|]. cbn. auto. }
      destruct (N.eqb_spec (mt (k_sl (wc w2)) (th tb) i) (h2_of cfg k)) as [Em|Em]; cbn [negb].
      2: { apply CONT; auto. by eapply meta_skip. }
      assert (M : Mtw w2 (th tb) i) by done. clear Em E0.
      nrm. apply r_load_ent; [done|done|]. intros w3 E3 T3. tr E3. cbv beta.
      destruct (e_ptr (en (k_sl (wc w3)) (th tb) i)) as [p|] eqn:Ep.
      2: { apply CONT; auto. apply dead_skip; [by eapply Mt_nn|done]. }
      assert (FN : fnd w3 n0 k tb i (en (k_sl (wc w3)) (th tb) i)).
      { eapply fnd_after; [exact T3|exact T3|by left|done|done|exact (proj1 F)|done|done]. }
      revert Ep FN. generalize (en (k_sl (wc w3)) (th tb) i). intros e Ep (p' & [k1 v1] & Ep' & HP & PR & _ & FN & SK).
      assert (p' = p) as -> by congruence. clear Ep'. cbn [fst] in *. destruct (decide (k1 = k)) as [->|Nk].
      + specialize (FN eq_refl). clear SK. nrm. eapply r_deref; [done|done|]. intros w4 E4 T4. tr E4. cbv beta. cbn [fst].
        rewrite bool_decide_true by done. cbn [negb]. destruct (e_copying e) eqn:Ec.
        { assert (LV : lvw w4 tb k (Some i)) by (by eapply fndk_lvw). clear FN. apply WP_ret. intros w5 E5 T5. tr E5. auto. }
        eapply s_remove_entry; [done|done|exact FN|done|done|done|done|done| |].
        * intros r w5 M5 T5 R. apply S1; [|done|done]. eapply mv_trans; [by eapply fr_mv|done].
        * intros w5 F5 T5 LV. apply S2; [by eapply fr_trans|done|done].
      + specialize (SK Nk). clear FN. nrm. eapply r_deref; [done|done|]. intros w4 E4 T4. tr E4. cbv beta. cbn [fst].
        rewrite bool_decide_false by done. cbn [negb]. apply CONT; auto.
  Qed.
  Lemma rres_wext w w' n0 k pred z r : wext w w' → rres w n0 k pred z r → rres w' n0 k pred z r.
  Proof.
    intros E R. destruct r; cbn in *.
    - destruct R as (A1 & A2 & A3 & v & A4 & A5). tr E. eauto 10.
    - destruct R as (A1 & A2 & A3). tr E. auto.
    - destruct R as (A1 & A2 & A3 & A4 & v & A5 & A6). tr E. eauto 10.
  Qed.
  Lemma s_remove_if k pred n0 (Q : _ → world → Prop) w z : n0 ≤ length (g_log (wg w)) → clean w → own w None z →
    (∀ h p v, h !! p = Some (k, v) → pred k v = true → evok h o (Ev k opid (Some p) None)) →
    (∀ r w', mv w w' → TI w' → rres w' n0 k pred z r → Q r w') → WP (remove_if cfg k pred) Q w.
  Proof.
    intros L C O EV S1. accr w. unfold remove_if. nrm. apply r_root. intros w1 E1 T1. tr E1. split.
    { intros E. pose proof (noroot_wit _ _ _ _ _ _ _ k n0 T1 L E) as W. clear E. apply WP_ret. intros w2 E2 T2. tr E2. apply S1; [by eapply fr_mv|done|]. cbn. auto. }
    intros tb Er H. pose proof (frs_root _ _ _ _ _ _ _ _ _ T1 L Er) as F. pose proof (vis_root _ _ _ _ _ _ _ _ k T1 Er) as Vs. clear Er.
    apply (WP_loop _ _ _ _ _ _ (λ st w1, fr w w1 ∧ hok w1 st.1 ∧ visw w1 (th st.1) k ∧ frs w1 n0 (th st.1) ∧ clean w1 ∧ own w1 None z)).
    { intros w2 E2 T2. tr E2. cbn [fst]. split_and!; auto. }
    clear L Acc T1 H Vs F C O w1 tb. intros [tb help] w1 (Acc & H & Vs & F & C & O) T1. cbn [fst] in *.
    apply WP_bind. eapply (s_remove_probe _ _ _ _ 0 n0); [done|unfold probe_fuel; lia|done|done|by eapply psd_0|done|done|done| |].
    - intros r w2 M2 T2 R. apply WP_ret. intros w3 E3 T3. apply S1; [|done|by eapply rres_wext].
      eapply mv_trans; [by eapply fr_mv|]. eapply mv_trans; [done|by eapply wext_mv].
    - intros c w2 F2 T2 LV. tr F2. apply WP_bind. eapply s_prepare_retry; [done|done|by apply clean_qtw|done|done|done| |].
      + clear H Vs F LV. intros nx w3 F3 T3 H Vs F. tr F3. apply WP_ret. intros w4 E4 T4. tr E4. split_and!; auto.
      + clear LV. intros w3 F3 T3 _ W. tr F3. apply WP_ret. intros w4 E4 T4. tr E4. apply S1; [by eapply fr_mv|done|]. cbn. auto.
  Qed.
End prog6.
