(** Specifications of insertion. *)
From Verif Require Export IncProg4.
Section prog5.
  Context {K V : Type} {Keq : EqDecision K} (cfg : config K) (nthr nsh me opid : nat) (o : op K V).
  Notation core := (core K V). Notation ghost := (@ghost K). Notation event := (event K).
  Notation world := (@world K V). Notation rghost := (@rghost K V). Notation prog := (prog K V).
  Notation Inv := (Inv cfg). Notation WI := (WI cfg nthr nsh).
  Notation fr := (fr cfg nthr nsh me opid). Notation fx := (fx cfg nthr nsh me opid). Notation mv := (mv cfg nthr nsh me).
  Notation wext := (wext cfg nthr nsh me opid). Notation wgrd := (wgrd me opid).
  Notation ix := (ix cfg). Notation passes := (passes cfg). Notation visited := (visited cfg).
  Notation TI := (TI cfg nthr nsh me opid o). Notation WP := (WP cfg nthr nsh me opid o).
  Notation hok := (hok me). Notation psd := (psd cfg). Notation pro := (pro me). Notation visw := (visw cfg).
  Notation hk2 := (hk2 cfg). Notation own := (own me). Notation clean := (clean opid). Notation npub := (npub opid).
  Notation qtw := (qtw opid o). Notation didw := (didw opid). Notation fq := (fq cfg nthr nsh me opid). Notation lkw := (lkw me). Notation lk1 := (lk1 me).
  Notation exw := (exw cfg). Notation owr := (owr me). Notation dnr := (dnr me). Notation passw := (passw cfg).
  Implicit Types w : world.
  Notation fnd := (fnd me). Notation fndk := (fndk me). Notation lvw := (lvw cfg).

  (** ** Moving on to the next table *)
  Lemma s_wait_lv c tb k (Q : _ → world → Prop) w : hok w tb → lvw w tb k c →
    (∀ w', fr w w' → TI w' → passw w' (th tb) k → Q tt w') → WP (match c with Some i => wait_copied cfg i tb | None => Ret tt end) Q w.
  Proof.
    intros H L S. accr w. destruct c as [i|].
    - pose proof (lvw_CP _ _ _ _ _ L) as [Li C]. apply s_wait_copied; [done|done|done|]. intros w1 F1 T1 D. tr F1. apply S; [done|done|].
      eapply lv_pass; [done|done|exact L|]. by intros ? [= <-].
    - apply WP_ret. intros w1 E1 T1. tr E1. apply S; [done|done|]. by eapply psd_pass.
  Qed.
  Lemma s_prepare_retry_insert c help tb k n0 (Q : _ → world → Prop) w z : hok w tb → own w None z → qtw w → lvw w tb k c → visw w (th tb) k → frs w n0 (th tb) →
    (∀ nx w', fr w w' → TI w' → hok w' nx → visw w' (th nx) k → frs w' n0 (th nx) → Q nx w') → WP (prepare_retry_insert cfg c help tb) Q w.
  Proof.
    intros H O QT L Vs F S. accr w. unfold prepare_retry_insert. apply WP_bind. apply s_get_or_alloc; [done|intros B; left; by eapply raw_vis|done|done|].
    intros nx w1 F1 T1 Hn En. tr F1.
    assert (N : ntw w1 (th nx)). { destruct (hok_len _ _ _ _ _ _ _ _ T1 Hn) as (_ & _ & B). done. }
    destruct (c_mode cfg) as [chunk|] eqn:HM.
    2: { eapply s_help_copy; [done|done|done|by rewrite <- En|intros _; split; [by eapply raw_vis|by rewrite <- En]|].
      intros r w2 F2 T2 Hr R Le _. tr F2. specialize (R (or_introl HM)). specialize (Le HM). apply S; auto; [by eapply vis_raw|by eapply frs_le]. }
    assert (TAIL : ∀ nx w1, fr w w1 → TI w1 → hok w1 tb → hok w1 nx → th nx = Datatypes.S (th tb) → lvw w1 tb k c → visw w1 (th tb) k → frs w1 n0 (th tb) →
       WP ((match c with Some i => wait_copied cfg i tb | None => Ret tt end);; Ret nx) Q w1).
    { clear - S HM. intros nx w1 Acc T1 H Hn En L Vs F. apply WP_bind. eapply s_wait_lv; [done|done|]. intros w2 F2 T2 P. tr F2.
      assert (Vn : visw w2 (th nx) k) by (rewrite En; by eapply vis_S).
      assert (Fn : frs w2 n0 (th nx)) by (rewrite En; by eapply frs_S). clear Vs F. apply WP_ret. intros w3 E3 T3. tr E3. auto. }
    apply WP_bind. destruct help.
    - eapply s_help_copy; [done|done|done|by rewrite <- En|by rewrite HM|]. clear Hn En N nx. intros nx w2 F2 T2 Hn _ _ En. tr F2. apply TAIL; auto. apply En; [|done]. by rewrite HM.
    - apply WP_ret. intros w2 E2 T2. tr E2. apply TAIL; auto.
  Qed.
  Lemma s_prepare_retry c help tb k n0 (Q : _ → world → Prop) w z : hok w tb → own w None z → qtw w → lvw w tb k c → visw w (th tb) k → frs w n0 (th tb) →
    (∀ nx w', fr w w' → TI w' → hok w' nx → visw w' (th nx) k → frs w' n0 (th nx) → Q (Some nx) w') → 
    (∀ w', fr w w' → TI w' → c = None → wit w' n0 k None → Q None w') → WP (prepare_retry cfg c help tb) Q w.
  Proof.
    intros H O QT L Vs F S S0. accr w. unfold prepare_retry. destruct (c_mode cfg) as [chunk|] eqn:HM.
    2: { destruct c as [i|].
      - apply WP_bind. apply WP_close. intros w1 E1 T1. tr E1.
        assert (N : ntw w1 (Datatypes.S (th tb))).
        { apply lvw_CP in L as [_ P]. by pose proof (CP_next _ _ _ (TI_inv _ _ _ _ _ _ _ T1) _ _ P). }
        eapply s_help_copy; [done|done|done|done|intros _; split; [by eapply raw_vis|done]|].
        intros r w2 F2 T2 Hr R Le _. tr F2. specialize (R (or_introl HM)). specialize (Le HM). 
        assert (Vn : visw w2 (th r) k) by (by eapply vis_raw). assert (Fn : frs w2 n0 (th r)) by (by eapply frs_le).
        apply WP_ret. intros w3 E3 T3. tr E3. apply S; auto.
      - apply WP_close. intros w1 E1 T1. tr E1. assert (W : wit w1 n0 k None).
        { eapply pass_absent; [done|done|done|exact F|by eapply psd_pass|by left]. }
        apply WP_ret. intros w2 E2 T2. tr E2. auto. }
    nrm. apply r_next; [done|]. intros w1 E1 T1. tr E1. split.
    { intros N. assert (Ec : c = None).
      { destruct c as [i|]; [|done]. exfalso. apply lvw_CP in L as [_ P]. pose proof (CP_next _ _ _ (TI_inv _ _ _ _ _ _ _ T1) _ _ P). lia. }
      assert (W : wit w1 n0 k None) by (eapply lv_absent; [done|done|done|exact F|done|done]). clear N.
      apply WP_ret. intros w2 E2 T2. tr E2. auto. }
    intros nx En Hn.
    assert (N : ntw w1 (th nx)). { destruct (hok_len _ _ _ _ _ _ _ _ T1 Hn) as (_ & _ & B). done. }
    assert (TAIL : ∀ w1, fr w w1 → TI w1 → hok w1 tb → hok w1 nx → lvw w1 tb k c → visw w1 (th tb) k → frs w1 n0 (th tb) →
       WP ((match c with Some i => wait_copied cfg i tb | None => Ret tt end);; Ret (Some nx)) Q w1).
    { clear - S En HM. intros w1 Acc T1 H Hn L Vs F. apply WP_bind. eapply s_wait_lv; [done|done|]. intros w2 F2 T2 P. tr F2.
      assert (Vn : visw w2 (th nx) k) by (rewrite En; by eapply vis_S).
      assert (Fn : frs w2 n0 (th nx)) by (rewrite En; by eapply frs_S). clear Vs F. apply WP_ret. intros w3 E3 T3. tr E3. auto. }
    apply WP_bind. destruct help.
    - apply WP_bind. eapply s_help_copy; [done|done|done|by rewrite <- En|by rewrite HM|]. intros nx' w2 F2 T2 Hn' _ _ _. clear Hn'. tr F2. 
      apply WP_ret. intros w3 E3 T3. tr E3. apply TAIL; auto.
    - apply WP_ret. intros w2 E2 T2. tr E2. apply TAIL; auto.
  Qed.
  Lemma s_init cap n0 k (Q : _ → world → Prop) w : n0 ≤ length (g_log (wg w)) → (∃ b, alloc_len (default 32 cap) = Some (2 ^ b) ∧ 3 ≤ b) →
    (∀ tb w', fr w w' → TI w' → hok w' tb → visw w' (th tb) k → frs w' n0 (th tb) → Q tb w') → WP (init cap) Q w.
  Proof.
    intros L (b & Eb & Lb) S. accr w. unfold init. rewrite Eb. nrm. eapply w_init; [done|done|]. intros w1 tb F1 T1 H Er. tr F1.
    assert (Vs : visw w1 (th tb) k) by (by eapply vis_root). pose proof (frs_root _ _ _ _ _ _ _ _ _ T1 L Er) as F. clear Er.
    apply WP_ret. intros w2 E2 T2. tr E2. auto.
  Qed.
  Lemma init_default : ∃ b, alloc_len (default 32 None) = Some (2 ^ b) ∧ 3 ≤ b.
  Proof. exists 5. split; [by vm_compute|lia]. Qed.

  (** ** Replacing the value of a key *)
  Lemma s_insert_slow i e k0 v0 tb n0 (Q : _ → world → Prop) w z :
    hok w tb → i < th_len tb → fndk w n0 k0 tb i e → e_copying e = false → visw w (th tb) k0 → clean w → own w None z →
    (∀ h p0 v1 n, h !! p0 = Some (k0, v1) → h !! n = Some (k0, v0) → evok h o (Ev k0 opid (Some p0) (Some n))) →
    (∀ w' old p0 v1 p, mv w w' → TI w' → e_ptr old = Some p0 → hpw w' p0 (k0, v1) → pro w' p0 → hpw w' p (k0, v0) → pro w' p →
       didw w' (Ev k0 opid (Some p0) (Some p)) → own w' None z → Q (UReplaced old (Some p)) w') →
    (∀ w', wext w w' → TI w' → wit w' n0 k0 None → Mtw w' (th tb) i → skipw w' (th tb) i k0 → Q (UFound SNull) w') →
    (∀ w' e', wext w w' → TI w' → lvw w' tb k0 (Some i) → Q (UFound (SCopied e')) w') →
    WP (insert_slow cfg i e (k0, v0) tb) Q w.
  Proof.
    intros H Li FN Ec Vs C O EV S1 S2 S3. pose proof (mv_refl cfg nthr nsh me w) as MV. acce w. unfold insert_slow.
    apply (WP_loop _ _ _ _ _ _ (λ e w1, wext w w1 ∧ hok w1 tb ∧ fndk w1 n0 k0 tb i e ∧ e_copying e = false ∧ visw w1 (th tb) k0 ∧ clean w1 ∧ own w1 None z)).
    { intros w1 E1 T1. tr E1. split_and!; auto. }
    clear MV Acc H FN Ec Vs C O e. intros e w1 (Acc & H & FN & Ec & Vs & C & O) T1. pose proof FN as (p0 & v1 & Ep & HP & PR & M & HA & _ & _).
    apply WP_bind. eapply (s_update_ent _ _ _ _ _ _ i e p0 k0 v1 v0 tb n0); [done|done|done|done|done|done|done|done|done|done|done|by eauto| |].
    - intros w2 p M2 T2 HP2 PR2 D2 O2. pose proof (wext_mv _ _ _ _ _ _ _ Acc) as MV. clear Acc C O. clear FN HA. tr M2.
      apply WP_ret. intros w3 E3 T3. tr E3. eapply S1; eauto.
    - intros w2 s E2 T2 UF. clear FN. tr E2. destruct s as [|e2|e2]; cbn in UF.
      + destruct UF as [W SK]. apply WP_ret. intros w3 E3 T3. tr E3. auto.
      + destruct UF as [FN Ec2]. assert (LV : lvw w2 tb k0 (Some i)) by (by eapply fndk_lvw). clear FN. apply WP_ret. intros w3 E3 T3. tr E3. auto.
      + destruct UF as [FN Ec2]. apply WP_ret. intros w3 E3 T3. tr E3. split_and!; auto.
  Qed.

  (** ** Insertion *)
  Definition ires w n0 (k : K) (v : V) (rep : bool) z (r : iresult) : Prop :=
    match r with
    | RInserted p => own w None (z + 1)%Z ∧ hpw w p (k, v) ∧ pro w p ∧ didw w (Ev k opid None (Some p))
    | RReplaced p => rep = true ∧ own w None z ∧ ∃ v1 n, hpw w p (k, v1) ∧ pro w p ∧ hpw w n (k, v) ∧ didw w (Ev k opid (Some p) (Some n))
    | RError p => rep = false ∧ own w None z ∧ clean w ∧ wit w n0 k (Some p) ∧ pro w p ∧ ∃ v1, hpw w p (k, v1)
    end.
  Lemma s_insert_probe fuel rep tb k v q n0 (Q : _ → world → Prop) w z :
    hok w tb → fuel + q = S (th_limit tb) → visw w (th tb) k → frs w n0 (th tb) → psd w (th tb) k q → clean w → own w None z →
    (∀ h n, h !! n = Some (k, v) → evok h o (Ev k opid None (Some n))) →
    (rep = true → ∀ h p0 v1 n, h !! p0 = Some (k, v1) → h !! n = Some (k, v) → evok h o (Ev k opid (Some p0) (Some n))) →
    (∀ r w', mv w w' → TI w' → ires w' n0 k v rep z r → Q (inl r) w') →
    (∀ c w', fr w w' → TI w' → lvw w' tb k c → Q (inr c) w') →
    WP (insert_probe cfg fuel rep tb (k, v) (probe_idx (c_hash cfg k) (th_mask tb) q) q) Q w.
  Proof.
    revert q w. induction fuel as [|f IH]; intros q w H Lf Vs F P C O EV1 EV2 S1 S2; cbn [insert_probe]; accr w.
    - replace q with (S (th_limit tb)) in P by lia. apply WP_ret. intros w' E T. tr E. apply S2; auto.
    - apply WP_close. intros w1 E1 T1. tr E1. pose proof (probe_lt _ _ _ _ _ _ _ _ k q T1 H) as Lq.
      set (i := probe_idx (c_hash cfg k) (th_mask tb) q) in *.
      assert (CONT : ∀ w2, fr w w2 → TI w2 → hok w2 tb → visw w2 (th tb) k → frs w2 n0 (th tb) → psd w2 (th tb) k q → clean w2 → own w2 None z →
         Mtw w2 (th tb) i → skipw w2 (th tb) i k →
         WP (insert_probe cfg f rep tb (k, v) (probe_next i (S q) (th_mask tb)) (S q)) Q w2).
      { intros w2 E2 T2 H2 V2 F2 P2 C2 O2 M2 SK2. apply (IH (S q) w2); auto; [lia|by eapply psd_S| |].
        - intros r w3 M3 T3 ?. apply S1; auto. eapply mv_trans; [by eapply fr_mv|done].
        - intros c w3 E3 T3 ?. apply S2; auto. by eapply fr_trans. }
      clear IH.
      assert (FE : ∀ e w2, fr w w2 → TI w2 → hok w2 tb → visw w2 (th tb) k → frs w2 n0 (th tb) → psd w2 (th tb) k q → clean w2 → own w2 None z →
         fnd w2 n0 k tb i e → WP (kv' ← act (a_deref (key_of_ptr e));
           if negb (bool_decide (kv'.1 = (k, v).1)) then insert_probe cfg f rep tb (k, v) (probe_next i (S q) (th_mask tb)) (S q) else
           if e_copying e then Ret (inr (Some i)) else
           if negb rep then Ret (inl (RError (key_of_ptr e))) else
           (s ← insert_slow cfg i e (k, v) tb;
            match s with
            | UReplaced old _ => Ret (inl (RReplaced (key_of_ptr old)))
            | UFound (SCopied _) => Ret (inr (Some i))
            | UFound SNull => insert_probe cfg f rep tb (k, v) (probe_next i (S q) (th_mask tb)) (S q)
            | UFound (SValue _) => Fail PUnreachable
            end)) Q w2).
      { clear Acc T1 H Vs F P C O w1. intros e w2 Acc T2 H Vs F P C O (p & [k1 v1] & Ep & HP & PR & M & FN & SK).
        unfold key_of_ptr at 1. rewrite Ep. cbn [default]. cbn [fst] in *. destruct (decide (k1 = k)) as [->|Nk].
        2: { specialize (SK Nk). clear FN. nrm. eapply r_deref; [done|done|]. intros w3 E3 T3. tr E3. cbv beta. cbn [fst].
          rewrite bool_decide_false by done. cbn [negb]. apply CONT; auto. }
        specialize (FN eq_refl). clear SK. nrm. eapply r_deref; [done|done|]. intros w3 E3 T3. tr E3. cbv beta. cbn [fst].
        rewrite bool_decide_true by done. cbn [negb]. destruct (e_copying e) eqn:Ec.
        { assert (LV : lvw w3 tb k (Some i)) by (by eapply fndk_lvw). clear FN. apply WP_ret. intros w4 E4 T4. tr E4. auto. }
        destruct rep; cbn [negb].
        2: { destruct FN as (p' & v' & Ep' & _ & _ & _ & _ & _ & W). assert (p' = p) as -> by congruence. specialize (W Ec).
          unfold key_of_ptr. rewrite Ep. cbn [default].
          apply WP_ret. intros w4 E4 T4. tr E4. apply S1; [by eapply fr_mv|done|]. cbn. split_and!; eauto. }
        apply WP_bind. eapply s_insert_slow; [done|done|exact FN|done|done|done|done|by apply EV2| | |].
        - intros w4 old p0 v2 n M4 T4 Eo HP0 PR0 HPn PRn D O4. pose proof (fr_mv _ _ _ _ _ _ _ Acc) as MV. clear Acc C O FN. tr M4.
          unfold key_of_ptr. rewrite Eo. cbn [default]. apply WP_ret. intros w5 E5 T5. tr E5. apply S1; [done|done|]. cbn. split_and!; eauto 10.
        - intros w4 E4 T4 W M4 SK. clear FN. tr E4. apply CONT; auto.
        - intros w4 e' E4 T4 LV. clear FN. tr E4. apply WP_ret. intros w5 E5 T5. tr E5. auto. }
      nrm. apply r_load_meta; [done|done|]. intros w2 E2 T2. tr E2. cbv beta zeta.
      destruct (N.eqb_spec (mt (k_sl (wc w2)) (th tb) i) EMPTY) as [E0|E0].
      { clear E0. apply WP_bind. eapply (s_insert_at _ _ _ _ _ _ i q k v tb n0); [done|lia|done|done|done|done|done|exact (proj1 F)|done| |].
        - intros w3 p M3 T3 HP PR D O3. pose proof (fr_mv _ _ _ _ _ _ _ Acc) as MV. clear Acc C O. tr M3.
          apply WP_ret. intros w4 E4 T4. tr E4. apply S1; [done|done|]. cbn. auto.
        - intros w3 s F3 T3 HS. tr F3. destruct s as [|e|e].
          + destruct HS as [M SK]. apply CONT; auto.
          + done.
          + apply FE; auto. }
      cbn [fst]. destruct (N.eqb_spec (mt (k_sl (wc w2)) (th tb) i) (h2_of cfg k)) as [Em|Em].
      2: { apply CONT; auto. by eapply meta_skip. }
      assert (M : Mtw w2 (th tb) i) by done. clear Em E0.
      nrm. apply r_load_ent; [done|done|]. intros w3 E3 T3. tr E3. cbv beta.
      destruct (e_ptr (en (k_sl (wc w3)) (th tb) i)) as [p|] eqn:Ep.
      + apply FE; auto. eapply fnd_after; [exact T3|exact T3|by left|done|done|exact (proj1 F)|done|done].
      + apply CONT; auto. apply dead_skip; [by eapply Mt_nn|done].
  Qed.
  Lemma s_insert_inner k v rep n0 (Q : _ → world → Prop) w z : n0 ≤ length (g_log (wg w)) → clean w → own w None z →
    (∀ h n, h !! n = Some (k, v) → evok h o (Ev k opid None (Some n))) →
    (rep = true → ∀ h p0 v1 n, h !! p0 = Some (k, v1) → h !! n = Some (k, v) → evok h o (Ev k opid (Some p0) (Some n))) →
    (∀ r w', mv w w' → TI w' → ires w' n0 k v rep z r → Q r w') → WP (insert_inner cfg k v rep) Q w.
  Proof.
    intros L C O EV1 EV2 S1. accr w. unfold insert_inner.
    assert (MAIN : ∀ tb w1, fr w w1 → TI w1 → hok w1 tb → visw w1 (th tb) k → frs w1 n0 (th tb) → clean w1 → own w1 None z →
      WP (loop (λ st : tref * bool,
       let '(tb, help) := st in
       (r ← insert_probe cfg (probe_fuel tb) rep tb (k, v) (probe_start (h1_of cfg k) (th_mask tb)) 0;
        match r with
        | inl res => Ret (inr res)
        | inr copying => (next ← prepare_retry_insert cfg copying help tb; Ret (inl (next, false)))
        end)) (tb, true)) Q w1).
    { clear L C O Acc. intros tb w1 Acc T1 H Vs F C O.
      apply (WP_loop _ _ _ _ _ _ (λ st w1, fr w w1 ∧ hok w1 st.1 ∧ visw w1 (th st.1) k ∧ frs w1 n0 (th st.1) ∧ clean w1 ∧ own w1 None z)).
      { intros w2 E2 T2. tr E2. cbn [fst]. split_and!; auto. }
      clear Acc T1 H Vs F C O w1 tb. intros [tb help] w1 (Acc & H & Vs & F & C & O) T1. cbn [fst] in *.
      apply WP_bind. eapply (s_insert_probe _ _ _ _ _ 0 n0); [done|unfold probe_fuel; lia|done|done|by eapply psd_0|done|done|done|done| |].
      - intros r w2 M2 T2 R. apply WP_ret. intros w3 E3 T3. apply S1; [|done|].
        + eapply mv_trans; [by eapply fr_mv|]. eapply mv_trans; [done|by eapply wext_mv].
        + clear - R E3. destruct r; cbn in *.
          * destruct R as (A1 & A2 & A3 & A4). tr E3. auto.
          * destruct R as (A0 & A1 & v1 & n & A2 & A3 & A4 & A5). tr E3. split_and!; eauto 10.
          * destruct R as (A0 & A1 & A2 & A3 & A4 & v1 & A5). tr E3. split_and!; eauto 10.
      - intros c w2 F2 T2 LV. tr F2. apply WP_bind. eapply s_prepare_retry_insert; [done|done|by apply clean_qtw|done|done|done|].
        clear H Vs F LV. intros nx w3 F3 T3 H Vs F. tr F3. apply WP_ret. intros w4 E4 T4. tr E4. split_and!; auto. }
    nrm. apply r_root. intros w1 E1 T1. tr E1. split.
    - intros _. apply WP_bind. apply (s_init None n0 k); [done|apply init_default|]. intros tb w2 F2 T2 H Vs F. tr F2. apply MAIN; auto.
    - intros tb Er H. assert (Vs : visw w1 (th tb) k) by (by eapply vis_root). pose proof (frs_root _ _ _ _ _ _ _ _ _ T1 L Er) as F. clear Er.
      nrm. apply MAIN; auto.
  Qed.
  Definition ires' w n0 (k : K) (v : V) (rep : bool) z (r : iresult) : Prop :=
    match r with
    | RInserted p => ires w n0 k v rep (z - 1) r
    | _ => ires w n0 k v rep z r
    end.
  Lemma s_insert k v rep n0 (Q : _ → world → Prop) w z : n0 ≤ length (g_log (wg w)) → clean w → own w None z →
    (∀ h n, h !! n = Some (k, v) → evok h o (Ev k opid None (Some n))) →
    (rep = true → ∀ h p0 v1 n, h !! p0 = Some (k, v1) → h !! n = Some (k, v) → evok h o (Ev k opid (Some p0) (Some n))) →
    (∀ r w', mv w w' → TI w' → ires' w' n0 k v rep z r → Q r w') → WP (insert cfg k v rep) Q w.
  Proof.
    intros L C O EV1 EV2 S1. unfold insert. apply WP_bind. eapply s_insert_inner; [done|done|done|done|done|].
    clear L C O. intros r w1 MV T1 R. destruct r; cbn in R.
    - destruct R as (O & HP & PR & D). nrm. eapply w_count; [exact O|]. clear O. intros w2 F2 T2 O. tr F2. cbv beta. apply WP_ret. intros w3 E3 T3. tr E3.
      apply S1; [done|done|]. cbn. replace (z - 1 + 1)%Z with (z + 1 - 1)%Z by lia. auto.
    - destruct R as (A0 & A1 & v1 & n & A2 & A3 & A4 & A5). apply WP_ret. intros w3 E3 T3. tr E3. apply S1; [done|done|]. cbn. split_and!; eauto 10.
    - destruct R as (A0 & A1 & A2 & A3 & A4 & v1 & A5). apply WP_ret. intros w3 E3 T3. tr E3. apply S1; [done|done|]. cbn. split_and!; eauto 10.
  Qed.
End prog5.
