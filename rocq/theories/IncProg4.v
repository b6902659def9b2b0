(** Specifications of lookup, and of moving on to the next table. *)
From Verif Require Export IncProg3.
Section facts4.
  Context {K V : Type} {Keq : EqDecision K} (cfg : config K) (nthr nsh me opid : nat) (o : op K V).
  Notation core := (core K V). Notation ghost := (@ghost K). Notation event := (event K).
  Notation world := (@world K V). Notation rghost := (@rghost K V). Notation prog := (prog K V).
  Notation Inv := (Inv cfg). Notation WI := (WI cfg nthr nsh).
  Notation fr := (fr cfg nthr nsh me opid). Notation fx := (fx cfg nthr nsh me opid). Notation mv := (mv cfg nthr nsh me).
  Notation wext := (wext cfg nthr nsh me opid). Notation wgrd := (wgrd me opid).
  Notation ix := (ix cfg). Notation passes := (passes cfg). Notation visited := (visited cfg).
  Notation TI := (TI cfg nthr nsh me opid o). Notation WP := (WP cfg nthr nsh me opid o).
  Notation hok := (hok me). Notation psd := (psd cfg). Notation pro := (pro me). Notation visw := (visw cfg).
  Notation hk2 := (hk2 cfg). Notation own := (own me). Notation clean := (clean opid). Notation npub := (npub opid).
  Notation qtw := (qtw opid o). Notation didw := (didw opid). Notation fq := (fq cfg nthr nsh me opid). Notation lkw := (lkw me). Notation lk1 := (lk1 me).
  Notation exw := (exw cfg). Notation owr := (owr me). Notation dnr := (dnr me). Notation passw := (passw cfg).
  Implicit Types w : world.
  Notation fnd := (fnd me). Notation fndk := (fndk me).

  (** The probe for [k] leaves table [tb]: it found the key being copied in slot [i], or it ran past the limit. *)
  Definition lvw w tb (k : K) (c : option nat) : Prop :=
    match c with
    | None => psd w (th tb) k (S (th_limit tb))
    | Some i => i < th_len tb ∧ Mtw w (th tb) i ∧ ∃ p v, cpw w (th tb) i p ∧ hpw w p (k, v)
    end.
  Lemma st_lvw w w' tb k c : mv w w' → lvw w tb k c → lvw w' tb k c.
  Proof.
    intros M. destruct c as [i|]; [|by eapply st_psd]. intros (A & B & p & v & C & D).
    split; [done|]. split; [by eapply st_Mtw|]. exists p, v. split; [by eapply st_cpw|by eapply st_hpw].
  Qed.
  Lemma lvw_CP w tb k i : lvw w tb k (Some i) → i < th_len tb ∧ CPw w (th tb) i.
  Proof. intros (A & _ & p & v & [C _] & _). done. Qed.
  Lemma lv_pass w tb k c : TI w → hok w tb → lvw w tb k c → (∀ i, c = Some i → cdw w (th tb) i) → passw w (th tb) k.
  Proof.
    intros T H L D. destruct c as [i|].
    - destruct L as (_ & M & p & v & [C HP] & Hv). destruct (D i eq_refl) as [_ CDi]. right. exists i. split; [|by split].
      exists p. split; [done|]. unfold ky. unfold hpw in Hv. by rewrite Hv.
    - left. destruct L as [_ P]. unfold exhausted. destruct (hok_len _ _ _ _ _ _ _ _ T H) as (_ & -> & _). done.
  Qed.
  Lemma psd_pass w tb k : TI w → hok w tb → psd w (th tb) k (S (th_limit tb)) → passw w (th tb) k.
  Proof. intros T H P. by eapply (lv_pass _ _ _ None). Qed.
  Lemma fndk_lvw w n0 k tb i e : TI w → hok w tb → i < th_len tb → fndk w n0 k tb i e → e_copying e = true → lvw w tb k (Some i).
  Proof. intros T H L (p & v & E & HP & PR & M & _ & C & _) Ec. split; [done|]. split; [done|]. exists p, v. auto. Qed.
  Lemma pass_absent w tb k n0 : TI w → hok w tb → visw w (th tb) k → frs w n0 (th tb) → passw w (th tb) k →
    c_mode cfg = Blocking ∨ S (th tb) = nt (wc w) → wit w n0 k None.
  Proof.
    intros T H Vs [L F] P N. pose proof (TI_inv _ _ _ _ _ _ _ T) as I. destruct P as [X|(i & (p & HP & _) & D & _)].
    - by eapply (stale_exhausted cfg _ _ I).
    - exfalso. destruct N as [N|N]; [by eapply (b_nocd _ _ _ (Inv_blk _ _ _ N I))|].
      pose proof (CP_next _ _ _ I _ _ (i_cdcp _ _ _ I _ _ _ HP D)). lia.
  Qed.
  Lemma lv_absent w tb k c n0 : TI w → hok w tb → visw w (th tb) k → frs w n0 (th tb) → lvw w tb k c →
    S (th tb) = nt (wc w) → wit w n0 k None.
  Proof.
    intros T H Vs L P N. destruct c as [i|]; [|by eapply pass_absent; eauto using psd_pass].
    exfalso. apply lvw_CP in P as [_ P]. pose proof (CP_next _ _ _ (TI_inv _ _ _ _ _ _ _ T) _ _ P). lia.
  Qed.
  Lemma vis_S w t k ch : c_mode cfg = Incremental ch → visw w t k → passw w t k → visw w (S t) k.
  Proof.
    intros HM. unfold IncRules.visw, IncGen.visited. rewrite HM. intros A B t' L1 L2. destruct (decide (t' = t)) as [->|]; [done|]. apply A; [done|lia]. Qed.
  Lemma vis_raw w t k : TI w → raw w t → visw w t k.
  Proof. intros T [A B]. by apply visited_root. Qed.
  Lemma raw_vis w t k : c_mode cfg = Blocking → visw w t k → raw w t.
  Proof. intros E. unfold IncRules.visw, IncGen.visited. rewrite E. by intros []. Qed.
  Lemma frs_le w n0 t t' : TI w → t ≤ t' → frs w n0 t → frs w n0 t'.
  Proof. intros T L [A B]. split; [done|]. by eapply (fresh_le _ _ _ (TI_inv _ _ _ _ _ _ _ T)). Qed.
  Lemma frs_S w n0 t : TI w → frs w n0 t → frs w n0 (S t).
  Proof. intros T [A B]. split; [done|]. by eapply (fresh_S _ _ _ (TI_inv _ _ _ _ _ _ _ T)). Qed.
  Lemma vis_root w tb k : TI w → k_rt (wc w) = Some (th tb) → visw w (th tb) k.
  Proof. intros T E. apply vis_raw; [done|]. by eapply raw_root. Qed.
  Lemma frs_root w tb n0 : TI w → n0 ≤ length (g_log (wg w)) → k_rt (wc w) = Some (th tb) → frs w n0 (th tb).
  Proof.
    intros T L E. split; [done|]. intros n Hn. pose proof (fresh_root cfg _ _ (TI_inv _ _ _ _ _ _ _ T) n) as X.
    unfold rt in X. rewrite E in X. specialize (X Hn). lia.
  Qed.
  Lemma noroot_wit w k n0 : TI w → n0 ≤ length (g_log (wg w)) → k_rt (wc w) = None → wit w n0 k None.
  Proof.
    intros T L E. exists (length (g_log (wg w))). split; [done|]. split; [done|]. rewrite rp_all by done.
    by apply (absent_noroot _ _ _ (TI_inv _ _ _ _ _ _ _ T)).
  Qed.
  Lemma empty_wit w tb k q n0 : TI w → hok w tb → visw w (th tb) k → frs w n0 (th tb) → psd w (th tb) k q → q ≤ th_limit tb →
    mt (k_sl (wc w)) (th tb) (probe_idx (c_hash cfg k) (th_mask tb) q) = EMPTY → wit w n0 k None.
  Proof.
    intros T H Vs [L F] [_ P] Lq M. eapply (stale_absent cfg _ _ (TI_inv _ _ _ _ _ _ _ T)); eauto.
    - destruct (hok_len _ _ _ _ _ _ _ _ T H) as (_ & -> & _). done.
    - rewrite (hok_ix _ _ _ _ _ _ _ _ _ _ T H). unfold Mt. intros X. done.
  Qed.
  (** What the entry in a slot with visible metadata tells. *)
  Lemma vis_entry w tb i k n0 p kv : TI w → hok w tb → visw w (th tb) k → frs w n0 (th tb) → Mtw w (th tb) i →
    e_ptr (en (k_sl (wc w)) (th tb) i) = Some p → hpw w p kv → 
    if decide (kv.1 = k) then (if e_copied (en (k_sl (wc w)) (th tb) i) then passw w (th tb) k else wit w n0 k (Some p)) else skipw w (th tb) i k.
  Proof.
    intros T H Vs [L F] M E HP. pose proof (TI_inv _ _ _ _ _ _ _ T) as I.
    assert (Hk : ky (wc w) p = Some kv.1). { unfold ky. unfold hpw in HP. by rewrite HP. }
    assert (HK1 : HK (wc w) (th tb) i kv.1) by (exists p; auto).
    case_decide as D.
    - subst k. destruct (e_copied _) eqn:Ec.
      + right. exists i. done.
      + eapply (present_seen cfg _ _ I n0 (th tb) i); eauto. unfold CD. by rewrite Ec.
    - split; [by eapply (i_claimed _ _ _ I)|]. intros HK2. by pose proof (HK_keys _ _ _ _ _ HK1 HK2).
  Qed.
End facts4.

Ltac st_more M H ::= first [eapply st_ckey; [exact M|exact H]|eapply st_dkey; [exact M|exact H]|eapply st_als; [exact M|exact H]|eapply st_hadw; [exact M|exact H]
  |eapply st_fndk; [exact M|exact H]|eapply st_fnd; [exact M|exact H]|eapply st_lvw; [exact M|exact H]].

Section prog4.
  Context {K V : Type} {Keq : EqDecision K} (cfg : config K) (nthr nsh me opid : nat) (o : op K V).
  Notation core := (core K V). Notation ghost := (@ghost K). Notation event := (event K).
  Notation world := (@world K V). Notation rghost := (@rghost K V). Notation prog := (prog K V).
  Notation Inv := (Inv cfg). Notation WI := (WI cfg nthr nsh).
  Notation fr := (fr cfg nthr nsh me opid). Notation fx := (fx cfg nthr nsh me opid). Notation mv := (mv cfg nthr nsh me).
  Notation wext := (wext cfg nthr nsh me opid). Notation wgrd := (wgrd me opid).
  Notation ix := (ix cfg). Notation passes := (passes cfg). Notation visited := (visited cfg).
  Notation TI := (TI cfg nthr nsh me opid o). Notation WP := (WP cfg nthr nsh me opid o).
  Notation hok := (hok me). Notation psd := (psd cfg). Notation pro := (pro me). Notation visw := (visw cfg).
  Notation hk2 := (hk2 cfg). Notation own := (own me). Notation clean := (clean opid). Notation npub := (npub opid).
  Notation qtw := (qtw opid o). Notation didw := (didw opid). Notation fq := (fq cfg nthr nsh me opid). Notation lkw := (lkw me). Notation lk1 := (lk1 me).
  Notation exw := (exw cfg). Notation owr := (owr me). Notation dnr := (dnr me). Notation passw := (passw cfg).
  Implicit Types w : world.
  Notation fnd := (fnd me). Notation fndk := (fndk me). Notation lvw := (lvw cfg).

  (** ** get *)
  Lemma s_get_probe fuel tb k q n0 (Q : _ → world → Prop) w : hok w tb → fuel + q = S (th_limit tb) → visw w (th tb) k → frs w n0 (th tb) →
    psd w (th tb) k q →
    (∀ w', wext w w' → TI w' → wit w' n0 k None → Q (Some None) w') →
    (∀ w' p v, wext w w' → TI w' → wit w' n0 k (Some p) → hpw w' p (k, v) → pro w' p → Q (Some (Some p)) w') →
    (∀ w', wext w w' → TI w' → passw w' (th tb) k → Q None w') →
    WP (get_probe cfg fuel tb k (probe_idx (c_hash cfg k) (th_mask tb) q) q) Q w.
  Proof.
    revert q w. induction fuel as [|f IH]; intros q w H Lf Vs F P S1 S2 S3; cbn [get_probe]; acce w.
    - replace q with (S (th_limit tb)) in P by lia. apply WP_ret. intros w' E T. tr E. apply S3; [done|done|]. by eapply psd_pass.
    - apply WP_close. intros w1 E1 T1. tr E1. pose proof (probe_lt _ _ _ _ _ _ _ _ k q T1 H) as Lq.
      set (i := probe_idx (c_hash cfg k) (th_mask tb) q) in *.
      assert (CONT : ∀ w2, wext w w2 → TI w2 → hok w2 tb → visw w2 (th tb) k → frs w2 n0 (th tb) → psd w2 (th tb) k q → 
         Mtw w2 (th tb) i → skipw w2 (th tb) i k →
         WP (get_probe cfg f tb k (probe_next i (S q) (th_mask tb)) (S q)) Q w2).
      { intros w2 E2 T2 H2 V2 F2 P2 M2 SK2. apply (IH (S q) w2); auto; [lia|by eapply psd_S| | |].
        - intros w3 E3 T3 ?. apply S1; auto. by eapply wext_trans.
        - intros w3 p v E3 T3 ?? ?. eapply S2; eauto. by eapply wext_trans.
        - intros w3 E3 T3 ?. apply S3; auto. by eapply wext_trans. }
      clear IH. nrm. apply r_load_meta; [done|done|]. intros w2 E2 T2. tr E2. cbv beta zeta.
      destruct (N.eqb_spec (mt (k_sl (wc w2)) (th tb) i) (h2_of cfg k)) as [Em|Em].
      2: { destruct (N.eqb_spec (mt (k_sl (wc w2)) (th tb) i) EMPTY) as [E0|E0].
        - assert (W : wit w2 n0 k None) by (eapply empty_wit; eauto; lia). clear Em E0.
          apply WP_ret. intros w3 E3 T3. tr E3. auto.
        - apply CONT; auto. by eapply meta_skip. }
      assert (M : Mtw w2 (th tb) i). { unfold Mtw, Mt. rewrite Em. apply h2_not_empty. }
      replace (mt (k_sl (wc w2)) (th tb) i =? EMPTY)%N with false by (rewrite Em; symmetry; apply N.eqb_neq, h2_not_empty).
      clear Em. nrm. apply r_load_ent; [done|done|]. intros w3 E3 T3. tr E3. cbv beta.
      destruct (e_ptr (en (k_sl (wc w3)) (th tb) i)) as [p|] eqn:Ep.
      + destruct (hok_pro _ _ _ _ _ _ _ _ _ _ T3 H Ep) as [PR ([k1 v1] & HP)].
        pose proof (vis_entry _ _ _ _ _ _ _ _ _ _ n0 _ _ T3 H Vs F M Ep HP) as VE. cbn [fst] in VE. cbn [fst].
        destruct (e_copied (en (k_sl (wc w3)) (th tb) i)) eqn:Ec; clear Ep Ec.
        * destruct (decide (k1 = k)) as [->|N].
          -- nrm. eapply r_deref; [done|done|]. intros w4 E4 T4. tr E4. cbv beta. rewrite bool_decide_true by done.
             apply WP_ret. intros w5 E5 T5. tr E5. auto.
          -- nrm. eapply r_deref; [done|done|]. intros w4 E4 T4. tr E4. cbv beta. cbn [fst]. rewrite bool_decide_false by done. apply CONT; auto.
        * destruct (decide (k1 = k)) as [->|N].
          -- nrm. eapply r_deref; [done|done|]. intros w4 E4 T4. tr E4. cbv beta. rewrite bool_decide_true by done.
             apply WP_ret. intros w5 E5 T5. tr E5. eauto.
          -- nrm. eapply r_deref; [done|done|]. intros w4 E4 T4. tr E4. cbv beta. cbn [fst]. rewrite bool_decide_false by done. apply CONT; auto.
      + apply CONT; auto. apply dead_skip; [by eapply Mt_nn|done].
  Qed.
  Lemma s_get k n0 (Q : _ → world → Prop) w : n0 ≤ length (g_log (wg w)) →
    (∀ w', wext w w' → TI w' → wit w' n0 k None → Q None w') →
    (∀ w' p v, wext w w' → TI w' → wit w' n0 k (Some p) → hpw w' p (k, v) → pro w' p → Q (Some p) w') → WP (get cfg k) Q w.
  Proof.
    intros L S1 S2. acce w. unfold get. nrm. apply r_root. intros w1 E1 T1. tr E1. split.
    { intros E. pose proof (noroot_wit _ _ _ _ _ _ _ k n0 T1 L E) as W. clear E. apply WP_ret. intros w2 E2 T2. tr E2. auto. }
    intros tb Er H. pose proof (frs_root _ _ _ _ _ _ _ _ _ T1 L Er) as F. pose proof (vis_root _ _ _ _ _ _ _ _ k T1 Er) as Vs. clear Er.
    apply (WP_loop _ _ _ _ _ _ (λ tb w1, wext w w1 ∧ hok w1 tb ∧ visw w1 (th tb) k ∧ frs w1 n0 (th tb))).
    { intros w2 E2 T2. tr E2. auto. }
    clear L Acc H F Vs tb T1 w1. intros tb w1 (Acc & H & Vs & F) T1. apply WP_bind.
    eapply (s_get_probe _ tb k 0); [done|unfold probe_fuel; lia|done|exact F|by eapply psd_0| | |].
    - intros w2 E2 T2 W. tr E2. apply WP_ret. intros w3 E3 T3. tr E3. auto.
    - intros w2 p v E2 T2 W HP PR. tr E2. apply WP_ret. intros w3 E3 T3. tr E3. eauto.
    - intros w2 E2 T2 P. tr E2. unfold incremental. destruct (c_mode cfg) as [chunk|] eqn:HM.
      2: { assert (W : wit w2 n0 k None) by (eapply pass_absent; eauto). apply WP_ret. intros w4 E4 T4. tr E4. auto. }
      nrm. apply r_next; [done|]. intros w3 E3 T3. tr E3. split.
      + intros N. assert (W : wit w3 n0 k None) by (eapply pass_absent; [done|done|done|exact F|done|by right]). clear N. apply WP_ret. intros w4 E4 T4. tr E4. auto.
      + intros nx En Hn. assert (Vn : visw w3 (th nx) k) by (rewrite En; by eapply vis_S).
        assert (Fn : frs w3 n0 (th nx)) by (rewrite En; by eapply frs_S). clear Vs P F. apply WP_ret. intros w4 E4 T4. tr E4. auto.
  Qed.
End prog4.
