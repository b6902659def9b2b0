(** Specifications of iteration and reserve. *)
From Verif Require Export IncProg8 PureLemmas.
Section facts9.
  Context {K V : Type} {Keq : EqDecision K} (cfg : config K) (nthr nsh me opid : nat) (o : op K V).
  Notation core := (core K V). Notation ghost := (@ghost K). Notation event := (event K).
  Notation world := (@world K V). Notation rghost := (@rghost K V). Notation prog := (prog K V).
  Notation Inv := (Inv cfg). Notation WI := (WI cfg nthr nsh).
  Notation fr := (fr cfg nthr nsh me opid). Notation fx := (fx cfg nthr nsh me opid). Notation mv := (mv cfg nthr nsh me).
  Notation wext := (wext cfg nthr nsh me opid). Notation wgrd := (wgrd me opid).
  Notation ix := (ix cfg). Notation passes := (passes cfg). Notation visited := (visited cfg).
  Notation TI := (TI cfg nthr nsh me opid o). Notation WP := (WP cfg nthr nsh me opid o).
  Notation hok := (hok me). Notation psd := (psd cfg). Notation pro := (pro me). Notation visw := (visw cfg).
  Notation hk2 := (hk2 cfg). Notation own := (own me). Notation clean := (clean opid). Notation npub := (npub opid).
  Notation qtw := (qtw opid o). Notation didw := (didw opid). Notation fq := (fq cfg nthr nsh me opid). Notation lkw := (lkw me). Notation lk1 := (lk1 me).
  Notation exw := (exw cfg). Notation owr := (owr me). Notation dnr := (dnr me). Notation passw := (passw cfg).
  Implicit Types w : world.

  Notation lg w := (length (g_log (wg w))).
  (** The keys in slots below [i] at [w1] have been yielded, or were absent at some moment since. *)
  Definition cvw (w1 : world) (n0 t i : nat) (Y : list K) w : Prop := ∀ j k, j < i → tgtk w1 t j k → k ∈ Y ∨ wit w n0 k None.
  Lemma st_cvw w w' w1 n0 t i Y : mv w w' → cvw w1 n0 t i Y w → cvw w1 n0 t i Y w'.
  Proof. intros M H j q L X. destruct (H j q L X); [by left|right]. by eapply st_wit. Qed.
  (** The yielded keys were found in slots below [i]. *)
  Definition ynw (n0 t i : nat) (Y : list K) w : Prop := ∀ k, k ∈ Y → ∃ j, j < i ∧ onew n0 t j k w.
  Lemma st_ynw w w' n0 t i Y : mv w w' → ynw n0 t i Y w → ynw n0 t i Y w'.
  Proof. intros M H p X. destruct (H p X) as (j & L & O). exists j. split; [done|]. by eapply st_onew. Qed.
End facts9.

Ltac st_more M H ::= first [eapply st_ckey; [exact M|exact H]|eapply st_dkey; [exact M|exact H]|eapply st_hadw; [exact M|exact H]
  |eapply st_fndk; [exact M|exact H]|eapply st_fnd; [exact M|exact H]|eapply st_lvw; [exact M|exact H]
  |eapply st_cok; [exact M|exact H]|eapply st_csok; [exact M|exact H]|eapply st_okw; [exact M|exact H]|eapply st_swpw; [exact M|exact H]
  |eapply st_slw; [exact M|exact H]|eapply st_entw; [exact M|exact H]|eapply st_entok; [exact M|exact H]|eapply st_onew; [exact M|exact H]|eapply st_cpe; [exact M|exact H]
  |eapply st_cvw; [exact M|exact H]|eapply st_ynw; [exact M|exact H]].

Section prog9.
  Context {K V : Type} {Keq : EqDecision K} (cfg : config K) (nthr nsh me opid : nat) (o : op K V).
  Notation core := (core K V). Notation ghost := (@ghost K). Notation event := (event K).
  Notation world := (@world K V). Notation rghost := (@rghost K V). Notation prog := (prog K V).
  Notation Inv := (Inv cfg). Notation WI := (WI cfg nthr nsh).
  Notation fr := (fr cfg nthr nsh me opid). Notation fx := (fx cfg nthr nsh me opid). Notation mv := (mv cfg nthr nsh me).
  Notation wext := (wext cfg nthr nsh me opid). Notation wgrd := (wgrd me opid).
  Notation ix := (ix cfg). Notation passes := (passes cfg). Notation visited := (visited cfg).
  Notation TI := (TI cfg nthr nsh me opid o). Notation WP := (WP cfg nthr nsh me opid o).
  Notation hok := (hok me). Notation psd := (psd cfg). Notation pro := (pro me). Notation visw := (visw cfg).
  Notation hk2 := (hk2 cfg). Notation own := (own me). Notation clean := (clean opid). Notation npub := (npub opid).
  Notation qtw := (qtw opid o). Notation didw := (didw opid). Notation fq := (fq cfg nthr nsh me opid). Notation lkw := (lkw me). Notation lk1 := (lk1 me).
  Notation exw := (exw cfg). Notation owr := (owr me). Notation dnr := (dnr me). Notation passw := (passw cfg).
  Implicit Types w : world.

  (** ** iter *)
  Lemma s_iter (Q : _ → world → Prop) w z : TI w → own w None z → qtw w →
    (∀ r w', fr w w' → TI w' → match r with
       | None => ∃ w1, mv w w1 ∧ WI w1 ∧ mv w1 w' ∧ k_rt (wc w1) = None
       | Some tb => ∃ w1, mv w w1 ∧ WI w1 ∧ hok w1 tb ∧ linq cfg w1 (length (g_log (wg w))) tb ∧ mv w1 w' end → Q r w') → WP (iter cfg) Q w.
  Proof.
    intros T0 O QT S. accr w. unfold iter. nrm. apply r_root. intros w1 E1 T1. tr E1. split.
    - intros Er. assert (M1 : mv w w1) by (by eapply fr_mv). apply WP_ret. intros w2 E2 T2. apply S; [|done|].
      + eapply fr_trans; [done|]. by eapply wext_fr.
      + exists w1. split; [done|]. split; [apply T1|]. split; [by eapply wext_mv|done].
    - intros tb Er H. assert (R : raw w1 (th tb)) by (by eapply raw_root).
      assert (L0 : ∀ w', mv w w' → length (g_log (wg w)) ≤ length (g_log (wg w'))).
      { intros w' M. destruct (mv_ext _ _ _ _ _ _ M) as [<-|(_ & j & X)]; [done|]. pose proof (prefix_length _ _ (x_log _ _ _ _ _ X)). lia. }
      assert (FS : frs w1 (length (g_log (wg w))) (th tb)) by (eapply frs_root; [done|apply L0; by eapply fr_mv|done]). clear Er. apply WP_bind.
      eapply s_linearize; [done|done|done|done|]. intros r w2 w3 F2 T2 Hr ON Er E3 T3. clear H R O QT T1.
      assert (F : fr w w2) by (by eapply fr_trans). apply WP_ret. intros w4 E4 T4. apply S; [|done|].
      + eapply fr_trans; [done|]. eapply fr_trans; by eapply wext_fr.
      + exists w2. split; [by eapply fr_mv|]. split; [apply T2|]. split; [done|]. split.
        * split; [apply L0; by eapply fr_mv|]. split; [done|]. intros Ei. rewrite (Er Ei). eapply st_frs; [eapply fr_mv; exact F2|done].
        * eapply mv_trans; by eapply wext_mv.
  Qed.

  (** ** Iter::next *)
  Definition ires_ w1 n0 tb i (Y : list K) w i' (r : option nat) : Prop :=
    i ≤ i' ∧ i' ≤ th_len tb ∧
    match r with
    | None => i' = th_len tb ∧ cvw w1 n0 (th tb) i' Y w ∧ ynw n0 (th tb) i' Y w
    | Some p => ∃ k v, wit w n0 k (Some p) ∧ hpw w p (k, v) ∧ pro w p ∧ (k ∈ Y → gapw w n0 k) ∧
                  cvw w1 n0 (th tb) i' (k :: Y) w ∧ ynw n0 (th tb) i' (k :: Y) w
    end.
  Lemma s_iter_next w1 n0 tb n i Y (Q : _ → world → Prop) w : WI w1 → linq cfg w1 n0 tb → mv w1 w → n + i = th_len tb → hok w tb →
    cvw w1 n0 (th tb) i Y w → ynw n0 (th tb) i Y w →
    (∀ i' r w', wext w w' → TI w' → ires_ w1 n0 tb i Y w' i' r → Q (i', r) w') → WP (iter_next n i tb) Q w.
  Proof.
    intros W1 ON. revert i w. induction n as [|n IH]; intros i w M0 Ln H CV YN S; acce w; cbn [iter_next].
    - apply WP_ret. intros w2 E2 T2. tr E2. apply S; auto. split; [done|]. split; [lia|]. split; [lia|done].
    - nrm. apply r_load_meta; [done|lia|]. intros w2 E2 T2. tr E2. cbv beta.
      assert (TAIL : ∀ w3, wext w w3 → mv w1 w3 → TI w3 → hok w3 tb → cvw w1 n0 (th tb) i Y w3 → ynw n0 (th tb) i Y w3 →
         (∀ k, tgtk w1 (th tb) i k → wit w3 n0 k None) → WP (iter_next n (Datatypes.S i) tb) Q w3).
      { intros w3 X3 M3 T3 H3 CV3 YN3 G. apply (IH (Datatypes.S i)); [done|lia|done| | |].
        - intros j q L Hq. destruct (decide (j = i)) as [->|]; [right; by apply G|]. apply (CV3 j q); [lia|done].
        - intros p Hp0. destruct (YN3 p Hp0) as (j & L & O). exists j. split; [lia|done].
        - intros i' r w4 X4 T4 (L1 & L2 & R). apply S; auto; [by eapply wext_trans|]. split; [lia|done]. }
      destruct ((mt (k_sl (wc w2)) (th tb) i =? EMPTY)%N || (mt (k_sl (wc w2)) (th tb) i =? TOMBMETA)%N) eqn:Em.
      { apply TAIL; auto. intros k Hk. pose proof (TI_inv _ _ _ _ _ _ _ T2) as I2.
        destruct (slot_read _ _ _ _ _ _ _ _ _ _ W1 ON M0 I2 Hk) as [|(p & v & H' & HP & _)]; [done|]. exfalso.
        assert (M2 : Mt (wc w2) (th tb) i) by (eapply st_Mtw; [exact M0|apply Hk]).
        assert (Hk1 : ky (wc w2) p = Some k) by (unfold ky; unfold hpw in HP; by rewrite HP).
        pose proof (i_meta _ _ _ I2 _ _ _ _ H' Hk1 M2) as E0. apply orb_true_iff in Em as [Em|Em]; apply N.eqb_eq in Em; [done|].
        rewrite Em in E0. symmetry in E0. by apply h2_not_tomb in E0. }
      assert (M2 : Mtw w2 (th tb) i). { apply orb_false_iff in Em as [Em _]. apply N.eqb_neq in Em. done. }
      clear Em. nrm. apply r_load_ent; [done|lia|]. intros w3 E3 T3. tr E3. cbv beta. pose proof (TI_inv _ _ _ _ _ _ _ T3) as I3.
      destruct (e_ptr (en (k_sl (wc w3)) (th tb) i)) as [p|] eqn:Ep.
      2: { apply TAIL; auto. intros k Hk. destruct (slot_read _ _ _ _ _ _ _ _ _ _ W1 ON M0 I3 Hk) as [|(p & v & H' & _)]; [done|].
           unfold Hp in H'. congruence. }
      clear TAIL.
      destruct (hok_pro _ _ _ _ _ _ _ _ _ _ T3 H Ep) as (PR & [k v] & HP).
      assert (Hk : ky (wc w3) p = Some k) by (unfold ky; unfold hpw in HP; by rewrite HP).
      assert (Hp3 : Hp (wc w3) (th tb) i p) by done.
      pose proof (live_read _ _ _ _ _ _ _ _ _ _ _ W1 ON M0 I3 M2 Hp3 Hk) as Wt.
      assert (ONE : onew n0 (th tb) i k w3). { split; [destruct Wt as (? & ? & ? & _); lia|]. left. split; [by exists p|eauto]. }
      assert (NY : k ∈ Y → gapw w3 n0 k).
      { intros Hy. destruct (YN k Hy) as (j & L & _ & [[O _]|O]); [|done]. assert (X : j = i); [|lia]. eapply (i_u1 _ _ _ I3); [|exact O|by exists p].
        by apply (st_raw _ _ _ _ _ _ _ M0 (linq_raw _ _ _ _ _ _ W1 ON)). }
      assert (CV' : cvw w1 n0 (th tb) (Datatypes.S i) (k :: Y) w3).
      { intros j k' L Hq. destruct (decide (j = i)) as [->|].
        - destruct (slot_read _ _ _ _ _ _ _ _ _ _ W1 ON M0 I3 Hq) as [|(p' & v' & H' & HP' & _)]; [by right|left].
          unfold Hp in H'. rewrite Ep in H'. injection H' as <-. unfold hpw in HP, HP'. rewrite HP in HP'. injection HP' as <- <-. by apply elem_of_cons; left.
        - destruct (CV j k'); [lia|done|left|by right]. by apply elem_of_cons; right. }
      assert (YN' : ynw n0 (th tb) (Datatypes.S i) (k :: Y) w3).
      { intros q [->|Hq]%elem_of_cons; [exists i; split; [lia|done]|]. destruct (YN q Hq) as (j & L & O). exists j. split; [lia|done]. }
      clear CV YN M2 ONE Hk I3 IH. assert (HP' : hpw w3 p (k, v)) by done. clear HP Hp3 Ep.
      apply WP_ret. intros w4 E4 T4. pose proof (wext_mv _ _ _ _ _ _ _ E4) as M4.
      assert (NY' : k ∈ Y → gapw w4 n0 k) by (intros Hy; eapply st_gapw; [exact M4|auto]). clear NY M4.
      tr E4. apply S; auto. split; [lia|]. split; [lia|]. exists k, v. done.
  Qed.

  (** ** reserve *)
  Lemma pow2_len n : ∃ b, alloc_len (entries_for n) = Some (2 ^ b) ∧ 3 ≤ b.
  Proof.
    destruct (entries_for_pow2 n) as [b E]. assert (P : is_pow2 (entries_for n) = true) by (apply is_pow2_spec; eauto).
    destruct (alloc_len (entries_for n)) as [m|] eqn:EA; [|by apply pow2_alloc in P].
    apply alloc_len_pow2 in EA as (b' & L & ->). eauto.
  Qed.
  Lemma s_reserve a (Q : _ → world → Prop) w z : TI w → own w None z → qtw w →
    (∀ w', fr w w' → TI w' → Q tt w') → WP (reserve cfg a) Q w.
  Proof.
    intros T0 O QT S. unfold reserve.
    assert (MAIN : ∀ tb w1, fr w w1 → TI w1 → hok w1 tb → own w1 None z → raw w1 (th tb) → qtw w1 → WP (loop (λ tb : tref,
       (n ← map_len;
        let cap := entries_for (n + a) in
        if cap <=? th_len tb then Ret (inr tt) else
        (get_or_alloc_next cfg (Some cap) tb;;
         tb' ← help_copy cfg true tb; Ret (inl tb')))) tb) Q w1).
    { clear QT. intros tb w1 F1 T1 H1 O1 R1 QT. apply (WP_loop _ _ _ _ _ _ (λ tb w2, fr w w2 ∧ hok w2 tb ∧ own w2 None z ∧ raw w2 (th tb) ∧ qtw w2)).
      { intros w2 E2 T2. clear O. tr E2. split_and!; auto 10. }
      clear T0 O tb w1 F1 T1 H1 O1 R1 QT. intros tb w1 (F1 & H1 & O1 & R1 & QT) T1. apply WP_bind. apply s_map_len. intros n w2 E2 T2. tr E2. cbv zeta.
      destruct (entries_for (n + a) <=? th_len tb).
      { clear O1. apply WP_ret. intros w3 E3 T3. tr E3. auto 10. }
      apply WP_bind. apply s_get_or_alloc; [done|by apply raw_als|done|intros c [= <-]|].
      { destruct (pow2_len (n + a)) as (b & E & _). congruence. }
      intros nx w3 F3 T3 Hn En. tr F3.
      assert (N : ntw w3 (Datatypes.S (th tb))). { destruct (hok_len _ _ _ _ _ _ _ _ T3 Hn) as (_ & _ & B). by rewrite <- En. }
      apply WP_bind. eapply s_help_copy; [done|done|done|done|done|]. clear H1 R1.
      intros r w4 F4 T4 H4 R4 _ _. specialize (R4 (or_intror eq_refl)). tr F4. apply WP_ret. intros w5 E5 T5. tr E5. auto 10. }
    pose proof (fr_refl cfg nthr nsh me opid w) as F0. nrm. apply r_root. intros w1 E1 T1. tr E1. split.
    - intros _. apply WP_bind.
      destruct (pow2_len a) as (b & E & L). unfold init. change (default 32 (Some (entries_for a))) with (entries_for a). rewrite E. nrm.
      eapply w_init; [done|done|]. intros w2 tb F2 T2 H2 Er. assert (R2 : raw w2 (th tb)) by (by eapply raw_root). clear Er. tr F2. apply WP_ret. intros w3 E3 T3. tr E3. by apply MAIN.
    - intros tb Er H. nrm. apply MAIN; auto. by eapply raw_root.
  Qed.
End prog9.
