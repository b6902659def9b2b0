(** Specifications of compute. *)
From Verif Require Export IncProg6.
Section facts7.
  Context {K V : Type} {Keq : EqDecision K} (cfg : config K) (nthr nsh me opid : nat) (o : op K V).
  Notation core := (core K V). Notation ghost := (@ghost K). Notation event := (event K).
  Notation world := (@world K V). Notation rghost := (@rghost K V). Notation prog := (prog K V).
  Notation Inv := (Inv cfg). Notation WI := (WI cfg nthr nsh).
  Notation fr := (fr cfg nthr nsh me opid). Notation fx := (fx cfg nthr nsh me opid). Notation mv := (mv cfg nthr nsh me).
  Notation wext := (wext cfg nthr nsh me opid). Notation wgrd := (wgrd me opid).
  Notation ix := (ix cfg). Notation passes := (passes cfg). Notation visited := (visited cfg).
  Notation TI := (TI cfg nthr nsh me opid o). Notation WP := (WP cfg nthr nsh me opid o).
  Notation hok := (hok me). Notation psd := (psd cfg). Notation pro := (pro me). Notation visw := (visw cfg).
  Notation hk2 := (hk2 cfg). Notation own := (own me). Notation clean := (clean opid). Notation npub := (npub opid).
  Notation qtw := (qtw opid o). Notation didw := (didw opid). Notation fq := (fq cfg nthr nsh me opid). Notation lkw := (lkw me). Notation lk1 := (lk1 me).
  Notation exw := (exw cfg). Notation owr := (owr me). Notation dnr := (dnr me). Notation passw := (passw cfg).
  Implicit Types w : world.

  Definition nones (l : list (option (K * V))) : nat := length (filter (λ c, c = None) l).
  Lemma nones_0 l : existsb (λ c : option (K * V), match c with None => true | Some _ => false end) l = false ↔ nones l = 0.
  Proof.
    unfold nones. induction l as [|[kv|] l IH]; cbn [existsb].
    - done.
    - rewrite filter_cons_False by done. cbn. exact IH.
    - rewrite filter_cons_True by done. cbn. done.
  Qed.
  Lemma nones_None l : nones (None :: l) = S (nones l).
  Proof. unfold nones. by rewrite filter_cons_True. Qed.
  Lemma nones_Some kv l : nones (Some kv :: l) = nones l.
  Proof. unfold nones. by rewrite filter_cons_False. Qed.
  (** Every closure call received a state of the key that was current during the operation. *)
  Definition callw w n0 (k : K) (c : option (K * V)) : Prop :=
    match c with None => wit w n0 k None | Some kv => ∃ p, hpw w p kv ∧ wit w n0 k (Some p) ∧ kv.1 = k end.
  (** State of the closure calls made so far by a [compute] with closure [f]. *)
  Record cok (f : option (K * V) → cop V) w n0 k (cs : cstate K V) : Prop := MkCok {
    co_cnt : nones (cs_calls cs) ≤ 1;
    co_upd : ∀ p o, cs_update cs = Some (p, o) → ∃ kv, hpw w p kv ∧ f (Some kv) = o;
    co_calls : ∀ c, c ∈ cs_calls cs → callw w n0 k c }.
  Definition csok f w n0 k cs : Prop := cok f w n0 k cs ∧ (nones (cs_calls cs) = 0 ∨ ∃ v, cs_insert cs = Some v) ∧
    ∀ v, cs_insert cs = Some v → f None = OpInsert v.
  Lemma st_callw w w' n0 k c : mv w w' → callw w n0 k c → callw w' n0 k c.
  Proof.
    intros M. destruct c as [kv|]; cbn; [|by eapply st_wit]. intros (p & A & B & C). exists p. split; [by eapply st_hpw|]. split; [by eapply st_wit|done].
  Qed.
  Lemma st_cok f w w' n0 k cs : mv w w' → cok f w n0 k cs → cok f w' n0 k cs.
  Proof.
    intros M [A B C]. split; [done| |].
    - intros p o0 E. destruct (B p o0 E) as (kv & X & Y). exists kv. split; [by eapply st_hpw|done].
    - intros c Hc. eapply st_callw; eauto.
  Qed.
  Lemma st_csok f w w' n0 k cs : mv w w' → csok f w n0 k cs → csok f w' n0 k cs.
  Proof. intros M [A B]. split; [by eapply st_cok|done]. Qed.
End facts7.

Ltac st_more M H ::= first [eapply st_ckey; [exact M|exact H]|eapply st_dkey; [exact M|exact H]|eapply st_hadw; [exact M|exact H]
  |eapply st_fndk; [exact M|exact H]|eapply st_fnd; [exact M|exact H]|eapply st_lvw; [exact M|exact H]
  |eapply st_cok; [exact M|exact H]|eapply st_csok; [exact M|exact H]].

Section prog7.
  Context {K V : Type} {Keq : EqDecision K} (cfg : config K) (nthr nsh me opid : nat) (o : op K V).
  Notation core := (core K V). Notation ghost := (@ghost K). Notation event := (event K).
  Notation world := (@world K V). Notation rghost := (@rghost K V). Notation prog := (prog K V).
  Notation Inv := (Inv cfg). Notation WI := (WI cfg nthr nsh).
  Notation fr := (fr cfg nthr nsh me opid). Notation fx := (fx cfg nthr nsh me opid). Notation mv := (mv cfg nthr nsh me).
  Notation wext := (wext cfg nthr nsh me opid). Notation wgrd := (wgrd me opid).
  Notation ix := (ix cfg). Notation passes := (passes cfg). Notation visited := (visited cfg).
  Notation TI := (TI cfg nthr nsh me opid o). Notation WP := (WP cfg nthr nsh me opid o).
  Notation hok := (hok me). Notation psd := (psd cfg). Notation pro := (pro me). Notation visw := (visw cfg).
  Notation hk2 := (hk2 cfg). Notation own := (own me). Notation clean := (clean opid). Notation npub := (npub opid).
  Notation qtw := (qtw opid o). Notation didw := (didw opid). Notation fq := (fq cfg nthr nsh me opid). Notation lkw := (lkw me). Notation lk1 := (lk1 me).
  Notation exw := (exw cfg). Notation owr := (owr me). Notation dnr := (dnr me). Notation passw := (passw cfg).
  Implicit Types w : world.
  Notation fnd := (fnd me). Notation fndk := (fndk me). Notation lvw := (lvw cfg).
  Context (f : option (K * V) → cop V) (k : K).
  Notation cok := (cok f). Notation csok := (csok f).

  (** Outcome of compute. *)
  Definition cresp w n0 z (r : cresult) : Prop := own w None z ∧
    match r with
    | CInserted p => pro w p ∧ didw w (Ev k opid None (Some p)) ∧ ∃ v, hpw w p (k, v) ∧ f None = OpInsert v
    | CUpdated p n => pro w p ∧ pro w n ∧ didw w (Ev k opid (Some p) (Some n)) ∧
        ∃ v1 v, hpw w p (k, v1) ∧ hpw w n (k, v) ∧ f (Some (k, v1)) = OpInsert v
    | CRemoved p => pro w p ∧ didw w (Ev k opid (Some p) None) ∧ ∃ v, hpw w p (k, v) ∧ f (Some (k, v)) = OpRemove
    | CAborted None => clean w ∧ wit w n0 k None ∧ f None = OpAbort
    | CAborted (Some p) => clean w ∧ wit w n0 k (Some p) ∧ pro w p ∧ ∃ v, hpw w p (k, v) ∧ f (Some (k, v)) = OpAbort
    end.
  Definition cpost w n0 z (r : cout) : Prop := cresp w n0 z r.1 ∧ cok w n0 k r.2.
  Lemma cpost_wext w w' n0 z r : wext w w' → cpost w n0 z r → cpost w' n0 z r.
  Proof.
    intros E [[O R] C]. split; [|eapply st_cok; [by eapply wext_mv|done]]. clear C. destruct r as [r cs]. cbn [fst] in *. destruct r as [p|p n|p|[p|]]; cbn in *.
    - destruct R as (A1 & A2 & v & A3 & A4). tr E. split; eauto 10.
    - destruct R as (A1 & A2 & A3 & v1 & v & A4 & A5 & A6). tr E. split; eauto 10.
    - destruct R as (A1 & A2 & v & A3 & A4). tr E. split; eauto 10.
    - destruct R as (A1 & A2 & A3 & v & A4 & A5). tr E. split; eauto 10.
    - destruct R as (A1 & A2 & A3). tr E. split; eauto 10.
  Qed.
  Context (HI : ∀ h n v, f None = OpInsert v → h !! n = Some (k, v) → evok h o (Ev k opid None (Some n))).
  Context (HU : ∀ h p v1 n v, f (Some (k, v1)) = OpInsert v → h !! p = Some (k, v1) → h !! n = Some (k, v) → evok h o (Ev k opid (Some p) (Some n))).
  Context (HR : ∀ h p v1, f (Some (k, v1)) = OpRemove → h !! p = Some (k, v1) → evok h o (Ev k opid (Some p) None)).
  Context (HF : f None = OpRemove → okr cfg o PRemoveNone) (HPU : ∀ x, f x = OpPanic → okr cfg o PUser).

  (** The closure for an absent key. *)
  Lemma s_next_none once cs n0 (Q : _ → world → Prop) w : csok w n0 k cs → wit w n0 k None →
    (∀ w' cs', wext w w' → TI w' → cok w' n0 k cs' → (∀ v, f None = OpInsert v → csok w' n0 k (cs_restore_none v cs')) → Q (f None, cs') w') →
    WP (cs_next_none once f cs) Q w.
  Proof.
    intros C W S. acce w. unfold cs_next_none. destruct (cs_insert cs) as [v|] eqn:Ei.
    - pose proof C as ([C1 C2 C3] & C4 & C5). rewrite <- (C5 v Ei). apply WP_ret. intros w1 E1 T1. clear C1 C2 C3. tr E1. destruct C as ([C1 C2 C3] & _).
      apply S; [done|done|by split|]. intros v' Ev. rewrite (C5 v Ei) in Ev. injection Ev as <-. split; [by split|]. cbn. split; [eauto|]. intros ? [= <-]. by apply C5.
    - pose proof C as (_ & [C4|(v & C4)] & _); [|congruence].
      replace (existsb _ _) with false by (symmetry; by apply nones_0). rewrite andb_false_r.
      apply WP_ret. intros w1 E1 T1. tr E1. destruct C as ([C1 C2 C3] & _ & _).
      assert (CK : cok w1 n0 k (CState None (cs_update cs) (None :: cs_calls cs))).
      { split; cbn [cs_calls cs_update]; [|done|].
        - rewrite nones_None. lia.
        - intros c [->|Hc]%elem_of_cons; [done|auto]. }
      apply S; [done|done|done|]. intros v Ev. destruct CK as [K1 K2 K3]. split; [by split|]. cbn. split; [eauto|]. by intros ? [= <-].
  Qed.
  (** The closure for entry [p]. *)
  Lemma s_next_some cs p v n0 (Q : _ → world → Prop) w : csok w n0 k cs → hpw w p (k, v) → pro w p → wit w n0 k (Some p) →
    (∀ w' cs', wext w w' → TI w' → csok w' n0 k cs' → Q (f (Some (k, v)), cs') w') → WP (cs_next_some f cs p) Q w.
  Proof.
    intros C HP PR W S. acce w. unfold cs_next_some.
    assert (CALL : ∀ w1, wext w w1 → TI w1 → csok w1 n0 k cs → hpw w1 p (k, v) → pro w1 p → wit w1 n0 k (Some p) →
      WP (kv ← act (a_deref p); Ret (f (Some kv), CState (cs_insert cs) None (Some kv :: cs_calls cs))) Q w1).
    { clear - S. intros w1 Acc T1 C HP PR W. nrm. eapply r_deref; [done|done|]. intros w2 E2 T2. tr E2. cbv beta. apply WP_ret. intros w3 E3 T3. tr E3.
      apply S; [done|done|]. destruct C as ([C1 C2 C3] & C4 & C5). pose proof (nones_Some (k, v) (cs_calls cs)) as EN.
      split; [split; cbn [cs_calls cs_update]|cbn [cs_calls cs_update cs_insert]; rewrite EN; auto].
      - by rewrite EN.
      - done.
      - intros c [->|Hc]%elem_of_cons; [|auto]. exists p. auto. }
    apply WP_close. intros w1 E1 T1. tr E1.
    destruct (cs_update cs) as [[p' o']|] eqn:Eu; [|by apply CALL]. destruct (Nat.eqb_spec p' p) as [->|]; [|by apply CALL].
    pose proof C as ([C1 C2 C3] & C4 & C5). destruct (C2 _ _ Eu) as (kv & HP' & Ef). unfold hpw in HP, HP'. assert (kv = (k, v)) as -> by congruence.
    subst o'. apply WP_ret. clear C1 C2 C3 HP'. assert (HP2 : hpw w1 p (k, v)) by done. clear HP. intros w2 E2 T2. tr E2. apply S; [done|done|]. destruct C as ([C1 C2 C3] & _). split; [by split|]. done.
  Qed.

  (** Working on the entry found. *)
  Lemma s_compute_entry once tb i cs e n0 (Q : _ → world → Prop) w z :
    hok w tb → i < th_len tb → fndk w n0 k tb i e → e_copying e = false → visw w (th tb) k → clean w → own w None z → csok w n0 k cs →
    (∀ r w', mv w w' → TI w' → cpost w' n0 z r → Q (inl (inl r)) w') →
    (∀ cs' w', fr w w' → TI w' → lvw w' tb k (Some i) → csok w' n0 k cs' → Q (inl (inr (Some i, cs'))) w') →
    (∀ cs' w', fr w w' → TI w' → Mtw w' (th tb) i → skipw w' (th tb) i k → csok w' n0 k cs' → Q (inr cs') w') →
    WP (compute_entry cfg once f tb k i cs e) Q w.
  Proof.
    intros H Li FN Ec Vs C O CS S1 S2 S3. acce w. unfold compute_entry.
    match goal with |- context [loop ?b _] => set (body := b) end.
    apply (WP_loop _ _ _ _ _ _ (λ st w1, wext w w1 ∧ hok w1 tb ∧ fndk w1 n0 k tb i st.2 ∧ e_copying st.2 = false ∧ visw w1 (th tb) k ∧ clean w1 ∧ own w1 None z ∧ csok w1 n0 k st.1)).
    { intros w1 E1 T1. tr E1. cbn [fst snd]. split_and!; auto. }
    clear Acc H FN Ec Vs C O CS cs e. intros [cs e] w1 (Acc & H & FN & Ec & Vs & C & O & CS) T1. cbn [fst snd] in *.
    unfold body. clear body.
    pose proof FN as (p0 & v1 & Ep & HP & PR & M & HA & _ & W). specialize (W Ec).
    assert (Ek : key_of_ptr e = p0) by (unfold key_of_ptr; by rewrite Ep). cbv zeta. rewrite Ek.
    apply WP_bind. eapply s_next_some; [done|done|done|done|]. clear CS cs. intros w2 cs E2 T2 CS. tr E2.
    (* what happens when the entry changed *)
    assert (FAIL : ∀ s cs1 w3, wext w w3 → TI w3 → hok w3 tb → visw w3 (th tb) k → clean w3 → own w3 None z → Mtw w3 (th tb) i →
        hadw w3 n0 (th tb) i k → csok w3 n0 k cs1 → ufound me w3 n0 k tb i s → 
        WP (match UFound s with
            | UFound (SCopied _) => Ret (inr (inl (inr (Some i, cs1))))
            | UFound SNull =>
              (r ← cs_next_none once f cs1;
               match r with
               | (OpInsert v, cs) => Ret (inr (inr (cs_restore_none v cs)))
               | (OpRemove, _) => Fail PRemoveNone
               | (OpPanic, _) => Fail PUser
               | (OpAbort, cs) => Ret (inr (inl (inl (CAborted None, cs))))
               end)
            | UFound (SValue found) => Ret (inl (cs1, found))
            | UReplaced _ _ => Fail PUnreachable
            end) (λ r w', match r with
              | inl st => wext w w' ∧ hok w' tb ∧ fndk w' n0 k tb i st.2 ∧ e_copying st.2 = false ∧ visw w' (th tb) k ∧ clean w' ∧ own w' None z ∧ csok w' n0 k st.1
              | inr b => Q b w' end) w3).
    { clear - S1 S2 S3 Li HF HPU. intros s cs w3 Acc T3 H Vs C O M HA CS UF. destruct s as [|e2|e2]; cbn in UF.
      - destruct UF as [W SK]. apply WP_bind. eapply s_next_none; [done|done|]. clear CS cs. intros w4 cs E4 T4 CK CS. assert (CS' : ∀ v w5, wext w4 w5 → f None = OpInsert v → csok w5 n0 k (cs_restore_none v cs)).
        { intros v w5 E5 Ev. eapply st_csok; [by eapply wext_mv|]. auto. }
        clear CS. tr E4. destruct (f None) as [v| | |] eqn:Ef.
        + apply WP_ret. intros w5 E5 T5. specialize (CS' v w5 E5 eq_refl). clear CK. trk E5. apply S3; auto. by eapply wext_fr.
        + clear CS'. apply WP_fail. intros w5 E5 T5. tr E5. split; [by auto|by apply clean_qtw].
        + clear CS'. apply WP_ret. intros w5 E5 T5. tr E5. apply S1; [by eapply wext_mv|done|]. split; [|done]. split; [done|]. cbn. auto.
        + clear CS'. apply WP_fail. intros w5 E5 T5. tr E5. split; [by eauto|by apply clean_qtw].
      - destruct UF as [FN Ec2]. assert (LV : lvw w3 tb k (Some i)) by (by eapply fndk_lvw). clear FN. apply WP_ret. intros w4 E4 T4. tr E4. apply S2; auto. by eapply wext_fr.
      - destruct UF as [FN Ec2]. apply WP_ret. intros w4 E4 T4. tr E4. cbn [fst snd]. split_and!; auto. }
    destruct (f (Some (k, v1))) as [v| | |] eqn:Ef.
    - apply WP_bind. eapply (s_update_ent _ _ _ _ _ _ i e p0 k v1 v tb n0); [done|done|done|done|done|done|done|done|done|done|done|by eauto| |].
      + intros w3 p M3 T3 HP2 PR2 D3 O3. pose proof (wext_mv _ _ _ _ _ _ _ Acc) as MV. clear Acc C O FN HA. tr M3.
        rewrite Ek. destruct CS as [CK _].
        apply WP_ret. intros w4 E4 T4. tr E4. apply S1; [done|done|]. split; [|done]. split; [done|]. cbn. eauto 10.
      + intros w3 s E3 T3 UF. clear FN. assert (CS3 : csok w3 n0 k (cs_restore_some p0 (OpInsert v) cs)).
        { assert (HP3 : hpw w3 p0 (k, v1)) by (eapply st_hpw; [by eapply wext_mv|done]). eapply st_csok in CS; [|by eapply wext_mv].
          destruct CS as ([C1 C2 C3] & C4 & C5). split; [split|]; cbn; auto. intros ? ? [= <- <-]. eauto. }
        clear CS. tr E3. by apply (FAIL s).
    - apply WP_bind. eapply (s_update_tomb _ _ _ _ _ _ i e p0 k v1 tb n0); [done|done|done|done|done|done|done|done|done|done|done|by eauto| |].
      + intros w3 M3 T3 D3 HK O3. pose proof (wext_mv _ _ _ _ _ _ _ Acc) as MV. clear Acc C O FN HA M. tr M3.
        rewrite Ek. destruct CS as [CK _].
        nrm. apply w_store_meta; [done|done|done|done|]. intros w4 F4 T4 M4. tr F4. cbv beta. nrm. eapply w_count; [done|]. clear O3. intros w5 F5 T5 O. tr F5. cbv beta.
        apply WP_ret. intros w6 E6 T6. tr E6. apply S1; [done|done|]. replace (z - 1 - -1)%Z with z in O by lia. split; [|done]. split; [done|]. cbn. eauto 10.
      + intros w3 s E3 T3 UF. clear FN. assert (CS3 : csok w3 n0 k (cs_restore_some p0 OpRemove cs)).
        { assert (HP3 : hpw w3 p0 (k, v1)) by (eapply st_hpw; [by eapply wext_mv|done]). eapply st_csok in CS; [|by eapply wext_mv].
          destruct CS as ([C1 C2 C3] & C4 & C5). split; [split|]; cbn; auto. intros ? ? [= <- <-]. eauto. }
        clear CS. tr E3. by apply (FAIL s).
    - clear FN. destruct CS as [CK _]. apply WP_ret. intros w3 E3 T3. tr E3. apply S1; [by eapply wext_mv|done|]. split; [|done]. split; [done|]. cbn. eauto 10.
    - clear FN. apply WP_fail. intros w3 E3 T3. tr E3. split; [by eauto|by apply clean_qtw].
  Qed.

  Lemma s_compute_probe fuel once tb q cs n0 (Q : _ → world → Prop) w z :
    hok w tb → fuel + q = S (th_limit tb) → visw w (th tb) k → frs w n0 (th tb) → psd w (th tb) k q → clean w → own w None z → csok w n0 k cs →
    (∀ r w', mv w w' → TI w' → cpost w' n0 z r → Q (inl r) w') →
    (∀ c cs' w', fr w w' → TI w' → lvw w' tb k c → csok w' n0 k cs' → Q (inr (c, cs')) w') →
    WP (compute_probe cfg fuel once f tb k (probe_idx (c_hash cfg k) (th_mask tb) q) q cs) Q w.
  Proof.
    revert q cs w. induction fuel as [|fu IH]; intros q cs w H Lf Vs F P C O CS S1 S2; cbn [compute_probe]; accr w.
    - replace q with (S (th_limit tb)) in P by lia. apply WP_ret. intros w' E T. tr E. apply S2; auto.
    - apply WP_close. intros w1 E1 T1. tr E1. pose proof (probe_lt _ _ _ _ _ _ _ _ k q T1 H) as Lq.
      set (i := probe_idx (c_hash cfg k) (th_mask tb) q) in *.
      assert (CONT : ∀ cs w2, fr w w2 → TI w2 → hok w2 tb → visw w2 (th tb) k → frs w2 n0 (th tb) → psd w2 (th tb) k q → clean w2 → own w2 None z →
         csok w2 n0 k cs → Mtw w2 (th tb) i → skipw w2 (th tb) i k →
         WP (compute_probe cfg fu once f tb k (probe_next i (S q) (th_mask tb)) (S q) cs) Q w2).
      { intros cs2 w2 E2 T2 H2 V2 F2 P2 C2 O2 CS2 M2 SK2. apply (IH (S q) cs2 w2); auto; [lia|by eapply psd_S| |].
        - intros r w3 M3 T3 ?. apply S1; auto. eapply mv_trans; [by eapply fr_mv|done].
        - intros c cs3 w3 E3 T3 ? ?. apply S2; auto. by eapply fr_trans. }
      clear IH.
      assert (FE : ∀ e cs w2, fr w w2 → TI w2 → hok w2 tb → visw w2 (th tb) k → frs w2 n0 (th tb) → psd w2 (th tb) k q → clean w2 → own w2 None z →
         csok w2 n0 k cs → fnd w2 n0 k tb i e → WP (kv' ← act (a_deref (key_of_ptr e));
           if negb (bool_decide (kv'.1 = k)) then compute_probe cfg fu once f tb k (probe_next i (S q) (th_mask tb)) (S q) cs else
           if e_copying e then Ret (inr (Some i, cs)) else
           (r ← compute_entry cfg once f tb k i cs e;
            match r with inl r => Ret r | inr cs => compute_probe cfg fu once f tb k (probe_next i (S q) (th_mask tb)) (S q) cs end)) Q w2).
      { clear Acc T1 H Vs F P C O CS w1 cs. intros e cs w2 Acc T2 H Vs F P C O CS (p & [k1 v1] & Ep & HP & PR & M & FN & SK).
        unfold key_of_ptr at 1. rewrite Ep. cbn [default]. cbn [fst] in *. destruct (decide (k1 = k)) as [->|Nk].
        2: { specialize (SK Nk). clear FN. nrm. eapply r_deref; [done|done|]. intros w3 E3 T3. tr E3. cbv beta. cbn [fst].
          rewrite bool_decide_false by done. cbn [negb]. apply CONT; auto. }
        specialize (FN eq_refl). clear SK. nrm. eapply r_deref; [done|done|]. intros w3 E3 T3. tr E3. cbv beta. cbn [fst].
        rewrite bool_decide_true by done. cbn [negb]. destruct (e_copying e) eqn:Ec.
        { assert (LV : lvw w3 tb k (Some i)) by (by eapply fndk_lvw). clear FN. apply WP_ret. intros w4 E4 T4. tr E4. auto. }
        apply WP_bind. eapply s_compute_entry; [done|done|exact FN|done|done|done|done|done| | |].
        - intros r w4 M4 T4 R. apply WP_ret. intros w5 E5 T5. apply S1; [|done|by eapply cpost_wext].
          eapply mv_trans; [by eapply fr_mv|]. eapply mv_trans; [done|by eapply wext_mv].
        - clear CS cs. intros cs w4 F4 T4 LV CS. clear FN. tr F4. apply WP_ret. intros w5 E5 T5. tr E5. auto.
        - clear CS cs. intros cs w4 F4 T4 M4 SK CS. clear FN. tr F4. apply CONT; auto. }
      nrm. apply r_load_meta; [done|done|]. intros w2 E2 T2. tr E2. cbv beta zeta.
      destruct (N.eqb_spec (mt (k_sl (wc w2)) (th tb) i) EMPTY) as [E0|E0].
      { assert (W : wit w2 n0 k None) by (eapply empty_wit; eauto; lia). clear E0.
        apply WP_bind. eapply s_next_none; [done|done|]. clear CS cs. intros w3 cs E3 T3 CK CS.
        assert (CS' : ∀ v w5, mv w3 w5 → f None = OpInsert v → csok w5 n0 k (cs_restore_none v cs)).
        { intros v w5 E5 Ev. eapply st_csok; [done|]. auto. }
        clear CS. tr E3. destruct (f None) as [v| | |] eqn:Ef.
        - apply WP_bind. eapply (s_insert_at _ _ _ _ _ _ i q k v tb n0); [done|lia|done|done|done|done|done|exact (proj1 F)|by eauto| |].
          + clear CS'. intros w4 p M4 T4 HP PR D O4. pose proof (fr_mv _ _ _ _ _ _ _ Acc) as MV. clear Acc C O. tr M4.
            nrm. eapply w_count; [exact O4|]. clear O4. intros w5 F5 T5 O. tr F5. cbv beta.
            apply WP_ret. intros w6 E6 T6. tr E6. apply S1; [done|done|]. replace (z + 1 - 1)%Z with z in O by lia. split; [|done]. split; [done|]. cbn. eauto 10.
          + intros w4 s F4 T4 HS. assert (CS : csok w4 n0 k (cs_restore_none v cs)) by (apply CS'; [by eapply fr_mv|done]). clear CS' CK.
            tr F4. destruct s as [|e|e].
            * destruct HS as [M SK]. apply CONT; auto.
            * done.
            * apply FE; auto.
        - clear CS'. apply WP_fail. intros w5 E5 T5. tr E5. split; [by auto|by apply clean_qtw].
        - clear CS'. apply WP_ret. intros w4 E4 T4. tr E4. apply S1; [by eapply fr_mv|done|]. split; [|done]. split; [done|]. cbn. auto.
        - clear CS'. apply WP_fail. intros w5 E5 T5. tr E5. split; [by eauto|by apply clean_qtw]. }
      destruct (N.eqb_spec (mt (k_sl (wc w2)) (th tb) i) (h2_of cfg k)) as [Em|Em].
      2: { apply CONT; auto. by eapply meta_skip. }
      assert (M : Mtw w2 (th tb) i) by done. clear Em E0.
      nrm. apply r_load_ent; [done|done|]. intros w3 E3 T3. tr E3. cbv beta.
      destruct (e_ptr (en (k_sl (wc w3)) (th tb) i)) as [p|] eqn:Ep.
      + apply FE; auto. eapply fnd_after; [exact T3|exact T3|by left|done|done|exact (proj1 F)|done|done].
      + apply CONT; auto. apply dead_skip; [by eapply Mt_nn|done].
  Qed.

  Lemma s_compute once n0 (Q : _ → world → Prop) w z : n0 ≤ length (g_log (wg w)) → clean w → own w None z →
    (∀ r w', mv w w' → TI w' → cpost w' n0 z r → Q r w') → WP (compute cfg once k f) Q w.
  Proof.
    intros L C O S1. accr w. unfold compute. cbv zeta.
    set (cs0 := CState None None []). assert (CS0 : ∀ w1, csok w1 n0 k cs0).
    { intros w1. split; [split; cbn|split; cbn; [by left|done]]; [lia|done|]. intros c Hc. by apply elem_of_nil in Hc. }
    match goal with |- context [loop ?b] => set (body := b) end.
    assert (MAIN : ∀ tb cs w1, fr w w1 → TI w1 → hok w1 tb → visw w1 (th tb) k → frs w1 n0 (th tb) → clean w1 → own w1 None z → csok w1 n0 k cs →
      WP (loop body (tb, cs)) Q w1).
    { clear L C O Acc CS0 cs0. intros tb cs w1 Acc T1 H Vs F C O CS.
      apply (WP_loop _ _ _ _ _ _ (λ st w1, fr w w1 ∧ hok w1 st.1 ∧ visw w1 (th st.1) k ∧ frs w1 n0 (th st.1) ∧ clean w1 ∧ own w1 None z ∧ csok w1 n0 k st.2)).
      { intros w2 E2 T2. tr E2. cbn [fst snd]. split_and!; auto. }
      clear Acc T1 H Vs F C O CS cs w1 tb. intros [tb cs] w1 (Acc & H & Vs & F & C & O & CS) T1. cbn [fst snd] in *. unfold body. clear body.
      apply WP_bind. eapply (s_compute_probe _ _ _ 0 _ n0); [done|unfold probe_fuel; lia|done|done|by eapply psd_0|done|done|done| |].
      - intros r w2 M2 T2 R. apply WP_ret. intros w3 E3 T3. apply S1; [|done|by eapply cpost_wext].
        eapply mv_trans; [by eapply fr_mv|]. eapply mv_trans; [done|by eapply wext_mv].
      - clear CS cs. intros c cs w2 F2 T2 LV CS. tr F2. apply WP_bind. eapply s_prepare_retry; [done|done|by apply clean_qtw|done|done|done| |].
        + clear H Vs F LV. intros nx w3 F3 T3 H Vs F. tr F3. apply WP_ret. intros w4 E4 T4. tr E4. cbn [fst snd]. split_and!; auto.
        + intros w3 F3 T3 -> W. tr F3. apply WP_bind. eapply s_next_none; [done|done|]. clear CS cs. intros w4 cs E4 T4 CK CS.
          assert (CS' : ∀ v w5, mv w4 w5 → f None = OpInsert v → csok w5 n0 k (cs_restore_none v cs)).
          { intros v w5 E5 Ev. eapply st_csok; [done|]. auto. }
          clear CS. tr E4. destruct (f None) as [v| | |] eqn:Ef.
          * apply WP_bind. eapply s_prepare_retry_insert; [done|done|by apply clean_qtw|done|done|done|]. clear H Vs F LV CK.
            intros nx w5 F5 T5 H Vs F. assert (CS : csok w5 n0 k (cs_restore_none v cs)) by (apply CS'; [by eapply fr_mv|done]). clear CS'. tr F5.
            apply WP_ret. intros w6 E6 T6. tr E6. cbn [fst snd]. split_and!; auto.
          * clear CS'. apply WP_fail. intros w5 E5 T5. tr E5. split; [by auto|by apply clean_qtw].
          * clear CS'. clear LV. apply WP_ret. intros w5 E5 T5. tr E5. apply S1; [by eapply fr_mv|done|]. split; [|done]. split; [done|]. cbn. auto.
          * clear CS'. apply WP_fail. intros w5 E5 T5. tr E5. split; [by eauto|by apply clean_qtw]. }
    nrm. apply r_root. intros w1 E1 T1. tr E1. split.
    - intros E. pose proof (noroot_wit _ _ _ _ _ _ _ k n0 T1 L E) as W. clear E. apply WP_bind. apply WP_bind.
      eapply s_next_none; [apply CS0|done|]. intros w2 cs E2 T2 CK CS. 
      assert (CS' : ∀ v w5, mv w2 w5 → f None = OpInsert v → csok w5 n0 k (cs_restore_none v cs)).
      { intros v w5 E5 Ev. eapply st_csok; [done|]. auto. }
      clear CS. tr E2. destruct (f None) as [v| | |] eqn:Ef.
      + apply WP_bind. apply (s_init _ _ _ _ _ _ None n0 k); [done|apply init_default|]. intros tb w3 F3 T3 H Vs F.
        assert (CS : csok w3 n0 k (cs_restore_none v cs)) by (apply CS'; [by eapply fr_mv|done]). clear CS' CK. tr F3.
        apply WP_ret. intros w4 E4 T4. tr E4. apply MAIN; auto.
      + clear CS'. apply WP_fail. intros w5 E5 T5. tr E5. split; [by auto|by apply clean_qtw].
      + clear CS'. apply WP_ret. intros w3 E3 T3. tr E3. apply WP_ret. intros w4 E4 T4. tr E4.
        apply S1; [by eapply fr_mv|done|]. split; [|done]. split; [done|]. cbn. auto.
      + clear CS'. apply WP_fail. intros w5 E5 T5. tr E5. split; [by eauto|by apply clean_qtw].
    - intros tb Er H. assert (Vs : visw w1 (th tb) k) by (by eapply vis_root). pose proof (frs_root _ _ _ _ _ _ _ _ _ T1 L Er) as F. clear Er.
      nrm. apply MAIN; auto.
  Qed.
End prog7.
