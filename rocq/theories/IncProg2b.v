(** Specifications of the resize machinery in blocking mode, and for both modes. *)
From Verif Require Export IncProg2.

Section prog2b.
  Context {K V : Type} {Keq : EqDecision K} (cfg : config K) (nthr nsh me opid : nat) (o : op K V).
  Notation core := (core K V). Notation ghost := (@ghost K). Notation event := (event K).
  Notation world := (@world K V). Notation rghost := (@rghost K V). Notation prog := (prog K V).
  Notation Inv := (Inv cfg). Notation WI := (WI cfg nthr nsh).
  Notation fr := (fr cfg nthr nsh me opid). Notation fx := (fx cfg nthr nsh me opid). Notation mv := (mv cfg nthr nsh me).
  Notation wext := (wext cfg nthr nsh me opid). Notation wgrd := (wgrd me opid).
  Notation ix := (ix cfg). Notation passes := (passes cfg). Notation visited := (visited cfg).
  Notation TI := (TI cfg nthr nsh me opid o). Notation WP := (WP cfg nthr nsh me opid o).
  Notation hok := (hok me). Notation psd := (psd cfg). Notation pro := (pro me). Notation visw := (visw cfg).
  Notation hk2 := (hk2 cfg). Notation own := (own me). Notation clean := (clean opid). Notation npub := (npub opid).
  Notation qtw := (qtw opid o). Notation didw := (didw opid). Notation fq := (fq cfg nthr nsh me opid). Notation lkw := (lkw me). Notation lk1 := (lk1 me).
  Notation exw := (exw cfg). Notation owr := (owr me). Notation dnr := (dnr me). Notation passw := (passw cfg).
  Implicit Types w : world.
  Notation als := (als cfg). 
  Context (HM : c_mode cfg = Blocking).

  Lemma s_try_promoteB tb nx c a (Q : _ → world → Prop) w z : hok w tb → hok w nx → srcw w (th nx) (th tb) → own w None z →
    (c = 0 ∨ a + c ≤ th_len tb) → dnr w (th nx) a (a + c) →
    (∀ b w', fr w w' → TI w' → (b = true → raw w' (th nx)) → Q b w') → WP (try_promote tb nx c) Q w.
  Proof.
    intros H Hn Sr O L D S. accr w. pose proof O as O0. unfold try_promote.
    assert (TAIL : ∀ c' w1, fr w w1 → TI w1 → hok w1 tb → hok w1 nx → srcw w1 (th nx) (th tb) → own w1 None z →
       (c' = th_len tb → prw w1 (th nx) (th tb) (th_len tb)) → WP
      (if c' =? th_len tb then
         (r ← act a_root_raw;
          if bool_decide (r = Some (th tb)) then
            (ok ← act (a_cas_root tb nx);
             (if (ok : bool) then
                (act (a_store_status nx PROMOTED);; act (a_retire (RTable (th tb))))
              else Ret tt);;
             unpark nx KStatus;;
             Ret true)
          else Ret false)
       else Ret false) Q w1).
    { clear O D H Hn Sr Acc. intros c' w1 F T H Hn Sr O A. destruct (Nat.eqb_spec c' (th_len tb)) as [Ec|Ec].
      2: { clear A. apply WP_ret. intros w2 E2 T2. tr E2. by apply S. }
      specialize (A Ec). nrm. apply r_root_raw. intros w2 E2 T2. tr E2. cbv beta. case_bool_decide as Er.
      2: { apply WP_ret. intros w3 E3 T3. tr E3. by apply S. }
      assert (AC : acwB w2 (th nx) (th_len tb)).
      { destruct A as [A|A]; [done|]. unfold rt in A. rewrite Er in A. cbn in A. lia. }
      clear Er A.
      assert (FIN : ∀ w3, fr w w3 → TI w3 → hok w3 nx → raw w3 (th nx) → WP (unpark nx KStatus;; Ret true) Q w3).
      { clear - S. intros w3 F T Hn R. apply WP_bind. apply s_unpark; [done|]. intros w4 F4 T4. tr F4. apply WP_ret.
        intros w5 E5 T5. tr E5. by apply S. }
      pose proof (fr_fx _ _ _ _ _ _ _ F) as FX.
      nrm. eapply w_cas_rootB; [exact HM|done|done|done|done|done| |].
      - clear F. clear O. intros w3 F3 T3 O R. tr F3. cbv beta. apply WP_bind. nrm. apply w_status; [done|done|].
        intros w4 F4 T4. tr F4. cbv beta. nrm. eapply w_retire; [done|by intros ? [=]|]. clear O. intros w5 F5 T5 O. tr F5. cbv beta.
        apply WP_ret. intros w6 E6 T6. tr E6. apply FIN; auto. by eapply fr_of.
      - intros w3 E3 T3 R. tr E3. cbv beta. nrm. apply FIN; auto 10. }
    destruct c as [|c]; cbn [Nat.ltb Nat.leb].
    - apply WP_bind. nrm. apply r_load_copied; [done|]. intros w1 E1 T1. clear D. tr E1. cbv beta. apply WP_ret. intros w2 E2 T2.
      assert (A : fld 0 (k_cd (wc w1)) (th nx) = th_len tb → prw w2 (th nx) (th tb) (th_len tb)).
      { intros E. eapply st_prw; [by eapply wext_mv|]. eapply copied_prw; [exact HM|exact T1|exact H|exact Sr|exact E]. }
      tr E2. apply TAIL; auto 10.
    - apply WP_bind. nrm. eapply (w_add_copiedB _ _ _ _ _ _ HM tb nx a (Datatypes.S c)); [done|done|done|lia|done|].
      intros w1 s F1 T1 A. clear D. cbv beta. apply WP_ret. intros w2 E2 T2. assert (A2 : s + Datatypes.S c = th_len tb → prw w2 (th nx) (th tb) (th_len tb)).
      { intros E. eapply st_prw; [by eapply wext_mv|]. auto 10. }
      clear A. tr F1. tr E2. apply TAIL; auto 10.
  Qed.

  Lemma s_insert_copy_probeB fuel nx k0 v0 q p tb i1 (Q : _ → world → Prop) w : hok w nx → hok w tb → fuel + q = S (th_limit nx) →
    mtp w (th nx) (c_hash cfg k0) (th_mask nx) q → i1 < th_len tb → srcw w (th nx) (th tb) → phw w (th nx) i1 (PMark me) → cpw w (th tb) i1 p →
    hpw w p (k0, v0) → pro w p →
    (∀ w', fq (at2 (th nx) i1) w w' → TI w' → phw w' (th nx) i1 (PDone me) → Q true w') →
    (∀ w', fq no2 w w' → TI w' → phw w' (th nx) i1 (PMark me) → Q false w') →
    WP (insert_copy_probe cfg fuel nx (EW (Some p) false false false) k0 (probe_idx (c_hash cfg k0) (th_mask nx) q) q) Q w.
  Proof.
    revert q w. induction fuel as [|f IH]; intros q w H Ht Lf MP Li Sr PH CPp HP PR ST SF; cbn [insert_copy_probe]; acc w.
    - apply WP_ret. intros w' E T. tr E. apply SF; done.
    - apply WP_close. intros w1 E1 T1. tr E1.
      pose proof (probe_lt _ _ _ _ _ _ _ _ k0 q T1 H) as Lq.
      assert (CONT : ∀ w2, fq no2 w w2 → TI w2 → hok w2 nx → hok w2 tb → mtp w2 (th nx) (c_hash cfg k0) (th_mask nx) q →
         Mtw w2 (th nx) (probe_idx (c_hash cfg k0) (th_mask nx) q) → srcw w2 (th nx) (th tb) → phw w2 (th nx) i1 (PMark me) → cpw w2 (th tb) i1 p →
         hpw w2 p (k0, v0) → pro w2 p → WP (insert_copy_probe cfg f nx (EW (Some p) false false false) k0
           (probe_next (probe_idx (c_hash cfg k0) (th_mask nx) q) (S q) (th_mask nx)) (S q)) Q w2).
      { intros w2 F2 T2 H2 Ht2 MP2 M2 LN2 PH2 CP2 HP2 PR2.
        apply (IH (S q) w2); auto; [lia| | |].
        - intros q' Lq'. destruct (decide (q' = q)) as [->|]; [done|]. apply MP2. lia.
        - intros w3 F3 T3. apply ST; [|done]. eapply fq_trans; [eapply fq_weak, F2|done].
        - intros w3 F3 T3. apply SF; [|done]. by eapply fq_trans. }
      nrm. apply r_load_meta; [done|done|]. intros w2 E2 T2. tr E2. cbv beta.
      destruct (N.eqb_spec (mt (k_sl (wc w2)) (th nx) (probe_idx (c_hash cfg k0) (th_mask nx) q)) EMPTY) as [E|E].
      2: { apply CONT; auto 10. }
      clear E. nrm. eapply (w_cas_copyB _ _ _ _ _ _ HM nx _ q p k0 v0 tb i1); [done|done|lia|done|done|done|done|done|done|done| |].
      + intros w3 F3 T3 PI HK. clear PH. assert (F : fq (at2 (th nx) i1) w w3) by (eapply fq_trans; [eapply fq_weak; exact Acc|exact F3]).
        pose proof (st_hok _ _ _ _ _ _ _ (fr_mv _ _ _ _ _ _ _ (proj1 F3)) H) as H3.
        pose proof (st_hok _ _ _ _ _ _ _ (fr_mv _ _ _ _ _ _ _ (proj1 F3)) Ht) as Ht3.
        pose proof (st_srcw _ _ _ _ _ _ _ _ (fr_mv _ _ _ _ _ _ _ (proj1 F3)) Sr) as Sr3. cbv beta.
        nrm. eapply w_store_metaB; [exact HM|exact H3|exact Ht3|done|apply h2_not_empty|done|exact Li|done|exact PI|].
        intros w4 F4 T4 PD. assert (F' : fq (at2 (th nx) i1) w w4) by (by eapply fq_trans). clear F F4 F3. cbv beta.
        apply WP_ret. intros w5 E5 T5. clear - F' PD E5 T5 ST. tr E5. eauto.
      + intros w3 E3 T3 N3. tr E3. cbv beta. pose proof (found_hk2 _ _ _ _ _ _ _ _ _ T3 H Lq N3) as FH.
        destruct (e_ptr _) as [p'|] eqn:Ep.
        * destruct FH as (PR' & kv' & HP' & HK'). apply WP_bind. nrm. eapply r_deref; [done|done|]. intros w4 E4 T4. tr E4. cbv beta.
          apply WP_ret. intros w5 E5 T5. tr E5. 
          eapply (s_fixmeta _ _ _ _ _ _ nx _ _ (λ _, _)); [done|done|apply h2_not_empty|done|]. intros w6 F6 T6 M6. tr F6. apply CONT; auto 10.
        * apply WP_bind. apply WP_ret. intros w5 E5 T5. tr E5. 
          eapply (s_fixmeta _ _ _ _ _ _ nx _ _ (λ _, _)); [done|done|done|done|]. intros w6 F6 T6 M6. tr F6. apply CONT; auto 10.
  Qed.

  Lemma s_copy_atB i tb nx (Q : _ → world → Prop) w : hok w tb → hok w nx → srcw w (th nx) (th tb) → i < th_len tb → phw w (th nx) i (POwn me) →
    (∀ w', fq (at2 (th nx) i) w w' → TI w' → phw w' (th nx) i (PDone me) → Q true w') →
    (∀ w', fq (at2 (th nx) i) w w' → TI w' → phw w' (th nx) i (PMark me) → Q false w') → WP (copy_at_blocking cfg i tb nx) Q w.
  Proof.
    intros H Hn Sr Li PH S SF. unfold copy_at_blocking. nrm. eapply w_fetch_orB; [exact HM|done|done|done|done|]. intros w1 e F1 T1 HE.
    clear PH. trk F1. cbv beta. case_bool_decide as Ee.
    { subst e. destruct HE as [PD _]. apply WP_ret. intros w2 E2 T2. tr E2. auto 10. }
    clear Ee. destruct (e_ptr e) as [p|] eqn:Ep.
    - destruct HE as (PM & CPp & ([k0 v0] & HP) & PR). unfold insert_copy. nrm. eapply r_deref; [done|done|]. intros w2 E2 T2. tr E2. cbv beta. cbn [fst].
      apply (WP_loop _ _ _ _ _ _ (λ t w1, t = nx ∧ fq (at2 (th nx) i) w w1 ∧ hok w1 nx ∧ hok w1 tb ∧ srcw w1 (th nx) (th tb) ∧ phw w1 (th nx) i (PMark me) ∧
        cpw w1 (th tb) i p ∧ hpw w1 p (k0, v0) ∧ pro w1 p)).
      { intros w3 E3 T3. tr E3. split_and!; auto 10. }
      clear - S SF HM Li. intros ? w1 (-> & F & H & Ht & Sr & PM & CPp & HP & PR) T1.
      apply WP_bind. eapply (s_insert_copy_probeB (probe_fuel nx) nx k0 v0 0 p tb i); [done|done|unfold probe_fuel; lia|intros q' Lq; lia|done|done|done|done|done|done| |].
      + intros w2 F2 T2 PD. clear PM. assert (F0 : fq (at2 (th nx) i) w w2) by (by eapply fq_trans).
        cbn [negb]. apply WP_ret. clear F2. intros w3 E3 T3. clear - E3 T3 S PD F0. tr E3. eauto.
      + intros w2 F2 T2 PM2. clear PM. tr F2. cbn [negb]. apply WP_ret. intros w4 E4 T4. tr E4. auto 10.
    - destruct HE as [PD HK]. nrm. apply w_store_meta; [done|done|done|done|]. intros w2 F2 T2 M. tr F2. cbv beta.
      apply WP_ret. intros w3 E3 T3. tr E3. auto 10.
  Qed.
  Lemma s_copy_chunkB n i s c tb nx (Q : _ → world → Prop) w : hok w tb → hok w nx → srcw w (th nx) (th tb) → i = s + c → 
    owr w (th nx) i (Nat.min (i + n) (th_len tb)) → dnr w (th nx) s (s + c) → (c = 0 ∨ s + c ≤ th_len tb) →
    (∀ c' w', fr w w' → TI w' → dnr w' (th nx) s (s + c') → (c' = 0 ∨ s + c' ≤ th_len tb) → Q (Some c') w') →
    (∀ i' w', fr w w' → TI w' → i' < th_len tb → phw w' (th nx) i' (PMark me) → Q None w') →
    WP (copy_chunk_blocking cfg n i tb nx c) Q w.
  Proof.
    revert i c w. induction n as [|n IH]; intros i c w H Hn Sr Ei O D L S SF; cbn [copy_chunk_blocking].
    - accr w. clear O. apply WP_ret. intros w1 E1 T1. tr E1. auto 10.
    - destruct (Nat.leb_spec (th_len tb) i) as [Lt|Lt].
      { accr w. clear O. apply WP_ret. intros w1 E1 T1. tr E1. auto 10. }
      apply WP_bind. eapply s_copy_atB; [done|done|done|done|apply O; lia| |].
      + intros w1 F1 T1 PD.
        assert (O1 : owr w1 (th nx) (Datatypes.S i) (Nat.min (Datatypes.S i + n) (th_len tb))).
        { eapply fq_owr; [exact F1|unfold at2; lia|]. intros j A B. apply O; lia. }
        assert (D1 : dnr w1 (th nx) s (s + Datatypes.S c)).
        { intros j A B. destruct (decide (j = i)) as [->|]; [done|]. eapply fq_phw; [exact F1|unfold at2; lia|done|]. apply D; lia. }
        clear O D. trk F1. apply IH; auto; [lia|lia| |].
        * intros c' w2 F2 T2 D2 L2. apply S; auto. eapply fr_trans; [apply F1|done].
        * intros i' w2 F2 T2 L2 D2. eapply SF; eauto. eapply fr_trans; [apply F1|done].
      + intros w1 F1 T1 PM. pose proof (proj1 F1) as F. clear O D F1. apply WP_ret. intros w2 E2 T2. clear - F PM E2 T2 SF Lt. tr E2. eauto.
  Qed.

  (** Appending a table to one that was given up. *)
  Lemma s_skip n tb (Q : _ → world → Prop) w : hok w n → hok w tb → srcw w (th n) (th tb) → abw w (th n) → qtw w →
    (∀ nx w', fq no2 w w' → TI w' → hok w' nx → hok w' tb → srcw w' (th nx) (th tb) → Q nx w') → WP (get_or_alloc_next cfg None n) Q w.
  Proof.
    intros H Ht Sr Ab QT S. apply s_get_or_alloc; [done|by apply abw_als|done|done|]. intros nx w' F T' Hn En. trk F.
    apply S; auto. rewrite En. apply src_skip; [done|done|]. destruct (hok_len _ _ _ _ _ _ _ _ T' Hn) as (_ & _ & B). by rewrite <- En.
  Qed.

  Lemma s_help_blocking tb (Q : _ → world → Prop) w z : hok w tb → own w None z → raw w (th tb) → ntw w (S (th tb)) → qtw w →
    (∀ r w', fr w w' → TI w' → hok w' r → raw w' (th r) → th tb ≤ th r → Q r w') → WP (help_copy_blocking cfg tb) Q w.
  Proof.
    intros H O R N QT S. accr w. unfold help_copy_blocking. nrm. apply r_next; [done|]. intros w2 E2 T2. tr E2. split.
    { intros E. unfold ntw in N. lia. }
    intros nx En Hn. assert (Sr : srcw w2 (th nx) (th tb)) by (rewrite En; by apply src_next). clear N En R.
    apply (WP_loop _ _ _ _ _ _ (λ nx w1, fr w w1 ∧ hok w1 tb ∧ hok w1 nx ∧ own w1 None z ∧ srcw w1 (th nx) (th tb) ∧ qtw w1)).
    { intros w3 E3 T3. tr E3. auto 10. }
    clear - S HM. intros nx w1 (F & H & Hn & O & Sr & QT) T.
    apply WP_bind.
    apply (WP_loop _ _ _ _ _ _ (λ nx w1, fr w w1 ∧ hok w1 tb ∧ hok w1 nx ∧ own w1 None z ∧ srcw w1 (th nx) (th tb) ∧ qtw w1)).
    { intros w3 E3 T3. tr E3. auto 10. }
    { clear - S HM. intros nx w1 (F & H & Hn & O & Sr & QT) T. nrm. apply r_load_status; [done|]. intros w2 E2 T2. tr E2. cbv beta. case_bool_decide as Es.
      - assert (Ab : abw w2 (th nx)) by (intros A; by apply A). clear Es. apply WP_bind. eapply s_skip; [exact Hn|exact H|exact Sr|exact Ab|exact QT|].
        intros n w3 F3 T3 Hn3 _ Sr3. clear Hn Sr Ab. tr F3. apply WP_ret. intros w4 E4 T4. tr E4. auto 10.
      - clear Es. apply WP_ret. intros w3 E3 T3. tr E3.
        apply WP_bind. eapply (s_try_promoteB tb nx 0 0); [done|done|done|done|auto|intros j A B; lia|]. intros ok w4 F4 T4 R. tr F4.
        destruct ok.
        { specialize (R eq_refl). apply WP_ret. intros w5 E5 T5. tr E5. apply S; auto. destruct Sr as (_ & _ & Lt & _). lia. }
        clear R. cbv zeta. apply WP_bind.
        apply (WP_loop _ _ _ _ _ _ (λ _ w1, fr w w1 ∧ hok w1 tb ∧ hok w1 nx ∧ own w1 None z ∧ srcw w1 (th nx) (th tb) ∧ qtw w1)).
        { intros w5 E5 T5. tr E5. auto 10. }
        clear - S HM. intros [] w1 (F & H & Hn & O & Sr & QT) T. nrm. apply r_load_claim; [done|]. intros w2 E2 T2. tr E2. cbv beta.
        destruct (th_len tb <=? _).
        { apply WP_ret. intros w3 E3 T3. tr E3. apply WP_bind. apply s_wait_status; [done|]. intros s w4 F4 T4 R. tr F4. case_bool_decide as Es.
          - specialize (R Es). apply WP_ret. intros w5 E5 T5. tr E5. apply S; auto. destruct Sr as (_ & _ & Lt & _). lia.
          - clear R. apply WP_ret. intros w5 E5 T5. tr E5. auto 10. }
        nrm. eapply w_add_claimB; [exact HM|done|done|done|]. intros w3 s F3 T3 OW. tr F3. cbv beta.
        apply WP_bind. eapply (s_copy_chunkB _ s s 0); auto; [intros j A B; apply OW; lia|intros j A B; lia| |].
        + clear OW. intros c w4 F4 T4 D L. tr F4. apply WP_bind. eapply (s_try_promoteB tb nx c s); [done|done|done|done|done|done|].
          clear D. intros ok w5 F5 T5 R. tr F5. destruct ok.
          { specialize (R eq_refl). apply WP_ret. intros w6 E6 T6. tr E6. apply WP_ret. intros w7 E7 T7. tr E7. apply S; auto. destruct Sr as (_ & _ & Lt & _). lia. }
          clear R. nrm. apply r_load_status; [done|]. intros w6 E6 T6. tr E6. cbv beta. case_bool_decide as Es; clear Es.
          * apply WP_ret. intros w7 E7 T7. tr E7. apply WP_ret. intros w8 E8 T8. tr E8. auto 10.
          * apply WP_ret. intros w7 E7 T7. tr E7. auto 10.
        + clear OW. intros i' w4 F4 T4 Li PM. tr F4. nrm. eapply (w_abort _ _ _ _ _ _ HM nx tb i'); [done|done|done|done|done|].
          intros w5 F5 T5 Ab. clear PM. tr F5. cbv beta. apply WP_bind. eapply s_skip; [exact Hn|exact H|exact Sr|exact Ab|exact QT|].
          intros n w6 F6 T6 Hn6 _ Sr6. clear Hn Sr Ab. tr F6. apply WP_bind. apply s_unpark; [done|]. intros w7 F7 T7. tr F7.
          apply WP_ret. intros w8 E8 T8. tr E8. apply WP_ret. intros w9 E9 T9. tr E9. auto 10. }
  Qed.
End prog2b.

Section prog2c.
  Context {K V : Type} {Keq : EqDecision K} (cfg : config K) (nthr nsh me opid : nat) (o : op K V).
  Notation core := (core K V). Notation ghost := (@ghost K). Notation event := (event K).
  Notation world := (@world K V). Notation rghost := (@rghost K V). Notation prog := (prog K V).
  Notation Inv := (Inv cfg). Notation WI := (WI cfg nthr nsh).
  Notation fr := (fr cfg nthr nsh me opid). Notation fx := (fx cfg nthr nsh me opid). Notation mv := (mv cfg nthr nsh me).
  Notation wext := (wext cfg nthr nsh me opid). Notation wgrd := (wgrd me opid).
  Notation ix := (ix cfg). Notation passes := (passes cfg). Notation visited := (visited cfg).
  Notation TI := (TI cfg nthr nsh me opid o). Notation WP := (WP cfg nthr nsh me opid o).
  Notation hok := (hok me). Notation psd := (psd cfg). Notation pro := (pro me). Notation visw := (visw cfg).
  Notation hk2 := (hk2 cfg). Notation own := (own me). Notation clean := (clean opid). Notation npub := (npub opid).
  Notation qtw := (qtw opid o). Notation didw := (didw opid). Notation fq := (fq cfg nthr nsh me opid). Notation lkw := (lkw me). Notation lk1 := (lk1 me).
  Notation exw := (exw cfg). Notation owr := (owr me). Notation dnr := (dnr me). Notation passw := (passw cfg).
  Implicit Types w : world.
  Notation als := (als cfg).

  Lemma s_help_copy all tb (Q : _ → world → Prop) w z : hok w tb → own w None z → qtw w → (all = false → ntw w (S (th tb))) →
    (c_mode cfg = Blocking → raw w (th tb) ∧ ntw w (S (th tb))) →
    (∀ r w', fr w w' → TI w' → hok w' r → (c_mode cfg = Blocking ∨ all = true → raw w' (th r)) → (c_mode cfg = Blocking → th tb ≤ th r) →
      (c_mode cfg ≠ Blocking → all = false → th r = S (th tb)) → Q r w') → WP (help_copy cfg all tb) Q w.
  Proof.
    intros H O QT N B S. unfold help_copy. destruct (c_mode cfg) as [chunk|] eqn:HM.
    - clear B. accr w. apply WP_bind. eapply s_help_incremental; [exact HM|done|done|done|].
      intros r w1 F1 T1 Hr R. assert (N1 : all = false → ntw w1 (Datatypes.S (th tb))).
      { intros E. eapply st_ntw; [by eapply fr_mv|]. auto 10. }
      clear N. tr F1. destruct all; cbn [negb].
      + specialize (R eq_refl). clear N1. apply WP_ret. intros w2 E2 T2. tr E2. by apply S.
      + clear R Hr. specialize (N1 eq_refl). nrm. apply r_next; [done|]. intros w2 E2 T2. tr E2. split.
        * intros E. unfold ntw in N1. lia.
        * intros nx En Hn. apply WP_ret. intros w3 E3 T3. tr E3. apply S; auto; [by intros [|]|done].
    - destruct (B eq_refl) as [R N1]. eapply s_help_blocking; [exact HM|done|done|done|done|done|]. intros r w' F T' Hr Rr L. by apply S.
  Qed.

  (** A moment when [tb] was the only table. *)
  Definition onlyw w tb : Prop := th tb = rt (wc w) ∧ S (th tb) = nt (wc w).
  (** In blocking mode a table that is or was the root is as good as the root. *)
  Definition linw w tb : Prop := if incremental cfg then onlyw w tb else raw w (th tb).
  Lemma s_linearize tb (Q : _ → world → Prop) w z : hok w tb → own w None z → qtw w → raw w (th tb) →
    (∀ r w1 w', fr w w1 → TI w1 → hok w1 r → linw w1 r → (incremental cfg = false → r = tb) → wext w1 w' → TI w' → Q r w') → WP (linearize cfg tb) Q w.
  Proof.
    intros H O QT R S. unfold linearize, linw, incremental in *. destruct (c_mode cfg) as [chunk|] eqn:HM.
    - accr w. apply (WP_loop _ _ _ _ _ _ (λ tb w1, fr w w1 ∧ hok w1 tb ∧ own w1 None z ∧ qtw w1 ∧ raw w1 (th tb))).
      { intros w3 E3 T3. tr E3. auto 10. }
      clear H O R QT Acc. rename tb into tb0. intros tb w1 (F & H & O & QT & R) T. nrm. apply r_next; [done|]. intros w2 E2 T2. tr E2. split.
      + intros E. apply WP_ret. intros w3 E3 T3. eapply S; [exact F|exact T2|exact H| |done|exact E3|exact T3]. split; [|done].
        pose proof (rt_lt _ _ _ (TI_inv _ _ _ _ _ _ _ T2) (th tb)) as L. destruct R as [R _]. lia.
      + intros nx En Hn. clear En Hn. apply WP_bind. eapply s_help_copy; [done|done|done|done|by rewrite HM|]. intros r w3 F3 T3 Hr Rr _ _. clear H R. tr F3.
        specialize (Rr (or_intror eq_refl)). apply WP_ret. intros w4 E4 T4. tr E4. auto 10.
    - apply WP_ret. intros w1 E1 T1. eapply (S tb w1 w1); [by eapply wext_fr| done | | |done|apply wext_refl|done].
      + eapply st_hok; [by eapply wext_mv|done].
      + eapply st_raw; [by eapply wext_mv|done].
  Qed.
End prog2c.
