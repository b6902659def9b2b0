(** Specifications of clear, retain, iteration and reserve. *)
From Verif Require Export IncProg7.
Section facts8.
  Context {K V : Type} {Keq : EqDecision K} (cfg : config K) (nthr nsh me opid : nat) (o : op K V).
  Notation core := (core K V). Notation ghost := (@ghost K). Notation event := (event K).
  Notation world := (@world K V). Notation rghost := (@rghost K V). Notation prog := (prog K V).
  Notation Inv := (Inv cfg). Notation WI := (WI cfg nthr nsh).
  Notation fr := (fr cfg nthr nsh me opid). Notation fx := (fx cfg nthr nsh me opid). Notation mv := (mv cfg nthr nsh me).
  Notation wext := (wext cfg nthr nsh me opid). Notation wgrd := (wgrd me opid).
  Notation ix := (ix cfg). Notation passes := (passes cfg). Notation visited := (visited cfg).
  Notation TI := (TI cfg nthr nsh me opid o). Notation WP := (WP cfg nthr nsh me opid o).
  Notation hok := (hok me). Notation psd := (psd cfg). Notation pro := (pro me). Notation visw := (visw cfg).
  Notation hk2 := (hk2 cfg). Notation own := (own me). Notation clean := (clean opid). Notation npub := (npub opid).
  Notation qtw := (qtw opid o). Notation didw := (didw opid). Notation fq := (fq cfg nthr nsh me opid). Notation lkw := (lkw me). Notation lk1 := (lk1 me).
  Notation exw := (exw cfg). Notation owr := (owr me). Notation dnr := (dnr me). Notation passw := (passw cfg).
  Implicit Types w : world.

  Definition tgtk (w0 : world) (t i : nat) (k : K) : Prop := HK (wc w0) t i k ∧ Mt (wc w0) t i.
  Notation lg w := (length (g_log (wg w))).
  (** At a moment after [n0], [k] was absent or had an entry that is not rejected. *)
  Definition okw (rej : K * V → bool) (n0 : nat) (k : K) w : Prop :=
    wit w n0 k None ∨ ∃ p kv, wit w n0 k (Some p) ∧ hpw w p kv ∧ rej kv = false.
  Lemma st_okw w w' rej n0 k : mv w w' → okw rej n0 k w → okw rej n0 k w'.
  Proof.
    intros M [H|(p & kv & A & B & C)]; [left; by eapply st_wit|right]. exists p, kv. split; [by eapply st_wit|]. split; [by eapply st_hpw|done].
  Qed.
  (** [tb] is the table to scan: the only table, or, in blocking mode, a table that was the root after [n0]. *)
  Definition linq (w0 : world) (n0 : nat) (tb : tref) : Prop :=
    n0 ≤ lg w0 ∧ linw cfg w0 tb ∧ (incremental cfg = false → frs w0 n0 (th tb)).
  Lemma incr_cases : (∃ ch, c_mode cfg = Incremental ch ∧ incremental cfg = true) ∨ (c_mode cfg = Blocking ∧ incremental cfg = false).
  Proof. unfold incremental. destruct (c_mode cfg) as [ch|]; [left; by exists ch|by right]. Qed.
  Lemma linq_raw w0 n0 tb : WI w0 → linq w0 n0 tb → raw w0 (th tb).
  Proof.
    intros W (_ & L & _). unfold linw in L. destruct incr_cases as [(ch & E & Ei)|[E Ei]]; rewrite Ei in L; [|done].
    destruct L as [L1 L2]. split; [lia|]. destruct W as [I _ _ _ _]. by eapply al_inc.
  Qed.
  Lemma live_read w0 n0 w tb i p k : WI w0 → linq w0 n0 tb → mv w0 w → Inv (wc w) (wg w) → Mt (wc w) (th tb) i → Hp (wc w) (th tb) i p → ky (wc w) p = Some k →
    wit w n0 k (Some p).
  Proof.
    intros W0 LQ M I Mt0 H Hk. pose proof (linq_raw _ _ _ W0 LQ) as R. destruct LQ as (L0 & ON & F).
    destruct incr_cases as [(ch & E & Ei)|[E Ei]]; unfold linw in ON; rewrite Ei in ON.
    - cut (wit w (lg w0) k (Some p)); [intros (n & A & B & C); exists n; split; [lia|done]|]. clear F.
      eapply (xl_live _ _ _ _ (mv_extl _ _ _ _ _ _ W0 M) (th tb) i p k); [apply ON| |done|by left|done].
      destruct (CD_dec (wc w0) (th tb) i) as [D|]; [|by left]. destruct (Mt_dec (wc w0) (th tb) i) as [D'|]; [|by right]. exfalso.
      destruct W0 as [I0 _ _ _ _].
      destruct (e_ptr (en (k_sl (wc w0)) (th tb) i)) as [p1|] eqn:E1.
      + pose proof (CP_next _ _ _ I0 _ _ (i_cdcp _ _ _ I0 _ _ _ E1 D)). destruct ON. lia.
      + assert (N : en (k_sl (wc w0)) (th tb) i ≠ NULLW) by (by eapply (i_claimed _ _ _ I0)).
        destruct (mv_ext _ _ _ _ _ _ M) as [E0|(_ & j & X)]; [subst; unfold Hp in H; congruence|].
        pose proof (sx_dead _ _ _ _ _ _ (x_slot _ _ _ _ _ X (th tb) i) N E1). unfold Hp in H. congruence.
    - specialize (F Ei). apply (st_frs _ _ _ _ _ _ _ _ M) in F as [F1 F2]. apply (st_raw _ _ _ _ _ _ _ M) in R as [R1 R2].
      eapply (present_seen cfg _ _ I n0 (th tb) i p k); auto; [by apply visited_root|]. by apply (b_nocd _ _ _ (Inv_blk _ _ _ E I) _ _ _ H).
  Qed.
  Lemma slot_read w0 n0 w tb i k : WI w0 → linq w0 n0 tb → mv w0 w → Inv (wc w) (wg w) → tgtk w0 (th tb) i k →
    wit w n0 k None ∨ ∃ p v, Hp (wc w) (th tb) i p ∧ hpw w p (k, v) ∧ wit w n0 k (Some p).
  Proof.
    intros W0 ON M I [(p0 & Hp0 & Hk0) Mt0].
    assert (C : HK (wc w) (th tb) i k ∨ wit w (lg w0) k None).
    { destruct (mv_ext _ _ _ _ _ _ M) as [E0|(_ & j & X)]; [subst; left; by exists p0|].
      destruct (sx_ptr _ _ _ _ _ _ (x_slot _ _ _ _ _ X (th tb) i) _ _ Hp0 Hk0) as [|[_ ?]]; [by left|by right]. }
    destruct C as [(p & Hp1 & Hk1)|C]; [right|left; destruct C as (n & A & B & C); destruct ON; exists n; split; [lia|done]].
    assert (Mt1 : Mt (wc w) (th tb) i) by (by eapply st_Mtw).
    pose proof (live_read _ _ _ _ _ _ _ W0 ON M I Mt1 Hp1 Hk1) as Wt. unfold ky in Hk1.
    destruct (k_hp (wc w) !! p) as [[k' v]|] eqn:E; [|done]. cbn in Hk1. injection Hk1 as ->. exists p, v. done.
  Qed.
  Lemma HK_dec c t i (k : K) : HK (V:=V) c t i k ∨ ¬ HK c t i k.
  Proof.
    unfold HK, Hp. destruct (e_ptr (en (k_sl c) t i)) as [p|]; [|right; by intros (p & E & _)].
    destruct (decide (ky c p = Some k)) as [|N]; [left; eauto|right]. intros (p' & E & E'). by injection E as <-.
  Qed.
  Lemma HK_find c t (k : K) n : (∃ i, i < n ∧ HK (V:=V) c t i k) ∨ (∀ i, i < n → ¬ HK c t i k).
  Proof.
    induction n as [|n [(i & L & H)|IH]]; [right; intros; lia|left; exists i; split; [lia|done]|].
    destruct (HK_dec c t n k); [left; exists n; split; [lia|done]|right]. intros i L. destruct (decide (i = n)) as [->|]; [done|]. apply IH. lia.
  Qed.
  (** Every key is in the table to scan, or was absent at some moment after [n0]. *)
  Lemma cover w0 n0 tb k : WI w0 → linq w0 n0 tb → (∃ i, i < lnc (wc w0) (th tb) ∧ tgtk w0 (th tb) i k) ∨ wit w0 n0 k None.
  Proof.
    intros W0 LQ. pose proof (linq_raw _ _ _ W0 LQ) as R. destruct LQ as (L0 & ON & F). destruct W0 as [I0 _ _ _ _].
    destruct incr_cases as [(ch & E & Ei)|[E Ei]]; unfold linw in ON; rewrite Ei in ON.
    - destruct (replay (g_log (wg w0)) k) as [p|] eqn:C'.
      + left. apply (abs_find _ _ _ I0) in C' as (t & i & Lt & Hp0 & Hk & Mt0 & _).
        assert (t = th tb) as ->. { pose proof (Hp_tab _ _ _ _ Hp0). destruct ON as [O1 O2]. unfold nt in *. lia. }
        exists i. split; [by eapply Hp_inb|]. split; [by exists p|done].
      + right. exists (lg w0). split; [done|]. split; [done|]. by rewrite rp_all.
    - specialize (F Ei) as [_ F]. clear ON. pose proof (Inv_blk _ _ _ E I0) as B0.
      destruct (HK_find (wc w0) (th tb) k (lnc (wc w0) (th tb))) as [(i & Li & H)|N].
      + destruct (Mt_dec (wc w0) (th tb) i) as [Mt0|Nt]; [left; exists i; done|right].
        destruct R as [R1 R2]. destruct (b_place _ _ _ B0 _ _ _ R2 H) as (q & Lq & Ex & Hq).
        eapply (stale_absent cfg _ _ I0 n0 (th tb) k q); auto; [by apply visited_root| |by rewrite Ex].
        intros q' Lq'. split; [by apply Hq|]. intros H'. apply Nt. rewrite (b_u1 _ _ _ B0 _ _ _ _ R2 H H'). by apply Hq.
      + right. eapply (b_stale_nohk cfg _ _ B0 n0 (th tb) k); auto. intros i H. apply (N i); [|done]. destruct H as (p & H & _). by eapply Hp_inb.
  Qed.

  (** The keys that slots below [n] held at [w0] have been dealt with. *)
  Definition slw (rej : K * V → bool) (w0 : world) (n0 t i : nat) w : Prop := ∀ k, tgtk w0 t i k → okw rej n0 k w.
  Lemma st_slw w w' rej w0 n0 t i : mv w w' → slw rej w0 n0 t i w → slw rej w0 n0 t i w'.
  Proof. intros M H k X. eapply st_okw; [done|]. eauto. Qed.
  Definition swpw (rej : K * V → bool) (w0 : world) (n0 t n : nat) w : Prop := ∀ i, i < n → slw rej w0 n0 t i w.
  Lemma st_swpw w w' rej w0 n0 t n : mv w w' → swpw rej w0 n0 t n w → swpw rej w0 n0 t n w'.
  Proof. intros M H i L. eapply st_slw; [done|]. eauto. Qed.
  (** [e] was read from slot [i]: it holds the current entry of the slot's key, or the key was absent. *)
  Definition entw (w0 : world) (n0 t i : nat) (e : eword) w : Prop := ∀ k, tgtk w0 t i k →
    wit w n0 k None ∨ ∃ p v, e_ptr e = Some p ∧ hpw w p (k, v) ∧ wit w n0 k (Some p).
  Lemma st_entw w w' w0 n0 t i e : mv w w' → entw w0 n0 t i e w → entw w0 n0 t i e w'.
  Proof.
    intros M H k X. destruct (H k X) as [A|(p & v & A & B & C)]; [left; by eapply st_wit|right]. exists p, v. split; [done|].
    split; [by eapply st_hpw|by eapply st_wit].
  Qed.
  (** [e] holds an entry usable by this thread. *)
  Definition entok w (e : eword) : Prop := ∀ p, e_ptr e = Some p → pro w p ∧ ∃ kv, hpw w p kv.
  Lemma st_entok w w' e : mv w w' → entok w e → entok w' e.
  Proof. intros M H p E. destruct (H p E) as (A & kv & B). split; [by eapply st_pro|]. exists kv. by eapply st_hpw. Qed.
  Lemma entok_read w tb i : TI w → hok w tb → entok w (en (k_sl (wc w)) (th tb) i).
  Proof. intros T H p E. by apply (hok_pro _ _ _ _ _ _ _ _ _ _ T H E). Qed.
  Lemma entw_read w0 n0 w tb i : WI w0 → linq w0 n0 tb → mv w0 w → TI w → entw w0 n0 (th tb) i (en (k_sl (wc w)) (th tb) i) w.
  Proof. intros W0 ON M T k X. apply (slot_read _ _ _ _ _ _ W0 ON M (TI_inv _ _ _ _ _ _ _ T) X). Qed.
  (** A word read from slot [i] of table [t]. *)
  Definition cpe w t i (e : eword) : Prop := e_copying e = true → CPw w t i.
  Lemma st_cpe w w' t i e : mv w w' → cpe w t i e → cpe w' t i e.
  Proof. intros M H E. eapply st_CPw; [done|]. by apply H. Qed.
  Lemma cpe_read w t i : cpe w t i (en (k_sl (wc w)) t i).
  Proof. intros E. exact E. Qed.
  (** [k] was present at some moment, and absent at a later one. *)
  Definition gapw w n0 (k : K) : Prop := ∃ m p n, n0 ≤ m ∧ m ≤ n ∧ n ≤ lg w ∧ rp m (g_log (wg w)) k = Some p ∧ rp n (g_log (wg w)) k = None.
  Lemma st_gapw w w' n0 k : mv w w' → gapw w n0 k → gapw w' n0 k.
  Proof.
    intros M W. destruct (mv_ext _ _ _ _ _ _ M) as [<-|(_ & x & X)]; [done|]. destruct W as (m & p & n & A & B & C & D & E).
    pose proof (prefix_length _ _ (x_log _ _ _ _ _ X)). exists m, p, n. split; [done|]. split; [done|]. split; [lia|].
    rewrite !(rp_prefix _ _ _ _ (x_log _ _ _ _ _ X)) by lia. done.
  Qed.
  (** [k] was found in slot [j] of table [t]; if it no longer is there, it was removed. *)
  Definition onew n0 t j k w : Prop := n0 ≤ lg w ∧ (HK (wc w) t j k ∧ (∃ p, wit w n0 k (Some p)) ∨ gapw w n0 k).
  Lemma st_onew w w' n0 t j k : mv w w' → onew n0 t j k w → onew n0 t j k w'.
  Proof.
    intros M [L H]. destruct (mv_ext _ _ _ _ _ _ M) as [<-|(_ & x & X)]; [done|]. split; [pose proof (prefix_length _ _ (x_log _ _ _ _ _ X)); lia|].
    destruct H as [[(p & H & Hk) (p' & Wt)]|H]; [|right; by eapply st_gapw].
    destruct (sx_ptr _ _ _ _ _ _ (x_slot _ _ _ _ _ X t j) _ _ H Hk) as [|(_ & n & A & B & C)]; [left; split; [done|]; exists p'; by eapply st_wit|right].
    destruct Wt as (m & M1 & M2 & M3). exists m, p', n. split; [done|]. split; [lia|]. split; [done|]. split; [|done].
    by rewrite (rp_prefix _ _ _ _ (x_log _ _ _ _ _ X)) by lia.
  Qed.
End facts8.

Ltac st_more M H ::= first [eapply st_ckey; [exact M|exact H]|eapply st_dkey; [exact M|exact H]|eapply st_hadw; [exact M|exact H]
  |eapply st_fndk; [exact M|exact H]|eapply st_fnd; [exact M|exact H]|eapply st_lvw; [exact M|exact H]
  |eapply st_cok; [exact M|exact H]|eapply st_csok; [exact M|exact H]|eapply st_okw; [exact M|exact H]|eapply st_swpw; [exact M|exact H]
  |eapply st_slw; [exact M|exact H]|eapply st_entw; [exact M|exact H]|eapply st_entok; [exact M|exact H]|eapply st_onew; [exact M|exact H]|eapply st_cpe; [exact M|exact H]].

Section prog8.
  Context {K V : Type} {Keq : EqDecision K} (cfg : config K) (nthr nsh me opid : nat) (o : op K V).
  Notation core := (core K V). Notation ghost := (@ghost K). Notation event := (event K).
  Notation world := (@world K V). Notation rghost := (@rghost K V). Notation prog := (prog K V).
  Notation Inv := (Inv cfg). Notation WI := (WI cfg nthr nsh).
  Notation fr := (fr cfg nthr nsh me opid). Notation fx := (fx cfg nthr nsh me opid). Notation mv := (mv cfg nthr nsh me).
  Notation wext := (wext cfg nthr nsh me opid). Notation wgrd := (wgrd me opid).
  Notation ix := (ix cfg). Notation passes := (passes cfg). Notation visited := (visited cfg).
  Notation TI := (TI cfg nthr nsh me opid o). Notation WP := (WP cfg nthr nsh me opid o).
  Notation hok := (hok me). Notation psd := (psd cfg). Notation pro := (pro me). Notation visw := (visw cfg).
  Notation hk2 := (hk2 cfg). Notation own := (own me). Notation clean := (clean opid). Notation npub := (npub opid).
  Notation qtw := (qtw opid o). Notation didw := (didw opid). Notation fq := (fq cfg nthr nsh me opid). Notation lkw := (lkw me). Notation lk1 := (lk1 me).
  Notation exw := (exw cfg). Notation owr := (owr me). Notation dnr := (dnr me). Notation passw := (passw cfg).
  Implicit Types w : world.
  Notation entok := (entok me).

  (** ** clear and retain *)
  Definition rejf (test : option (K → V → bool)) (kv : K * V) : bool := match test with None => true | Some f => negb (f kv.1 kv.2) end.
  Context (test : option (K → V → bool)) (MU : multi o = true).
  Context (EV : ∀ h p k v, h !! p = Some (k, v) → rejf test (k, v) = true → evok h o (Ev k opid (Some p) None)).

  Lemma s_delete_entry w0 n0 tb i e (Q : _ → world → Prop) w z : WI w0 → linq cfg w0 n0 tb → mv w0 w →
    hok w tb → i < th_len tb → raw w (th tb) → npub w → own w None z → entok w e → cpe w (th tb) i e → entw w0 n0 (th tb) i e w →
    (∀ b w', mv w w' → TI w' → npub w' → own w' None z → (b = false → slw (rejf test) w0 n0 (th tb) i w') → (b = true → ntw w' (S (th tb))) → Q b w') →
    WP (delete_entry cfg test tb i e) Q w.
  Proof.
    intros W0 ON M0 H Li R N O EK CE EN S. pose proof (mv_refl cfg nthr nsh me w) as MV. unfold delete_entry.
    apply (WP_loop _ _ _ _ _ _ (λ e w1, mv w w1 ∧ mv w0 w1 ∧ hok w1 tb ∧ raw w1 (th tb) ∧ npub w1 ∧ own w1 None z ∧ entok w1 e ∧ cpe w1 (th tb) i e ∧ entw w0 n0 (th tb) i e w1)).
    { intros w1 E1 T1. tr E1. split_and!; auto. }
    clear MV M0 H R N O EK CE EN e. intros e w1 (MV & M0 & H & R & N & O & EK & CE & EN) T1.
    destruct (e_ptr e) as [p|] eqn:Ep.
    2: { assert (SL : slw (rejf test) w0 n0 (th tb) i w1). { intros k Hk. destruct (EN k Hk) as [|(p & v & E & _)]; [by left|congruence]. }
      clear EN EK CE. apply WP_ret. intros w2 E2 T2. tr E2. by apply S. }
    destruct (e_copying e) eqn:Ec.
    { clear EN. specialize (CE Ec). apply WP_close. intros w2 E2 T2. tr E2.
      assert (NT : ntw w2 (Datatypes.S (th tb))) by (by eapply CP_next; [by eapply TI_inv|]).
      clear CE. apply WP_ret. intros w3 E3 T3. tr E3. by apply S. }
    clear CE.
    destruct (EK p Ep) as (PR & [k v] & HP). clear EK.
    assert (DEL : ∀ w2, mv w w2 → mv w0 w2 → TI w2 → hok w2 tb → raw w2 (th tb) → npub w2 → own w2 None z → pro w2 p → hpw w2 p (k, v) →
      entw w0 n0 (th tb) i e w2 → rejf test (k, v) = true →
      WP (r ← act (a_cas_ent false tb i e TOMBW);
          match r with
          | inl _ =>
            (act (a_store_meta tb i TOMBMETA);; act (a_count (-1));; defer_retire cfg e tb;; Ret (inr false))
          | inr found => Ret (inl found)
          end) (λ r w', match r with
            | inl e => mv w w' ∧ mv w0 w' ∧ hok w' tb ∧ raw w' (th tb) ∧ npub w' ∧ own w' None z ∧ entok w' e ∧ cpe w' (th tb) i e ∧ entw w0 n0 (th tb) i e w'
            | inr b => Q b w' end) w2).
    { clear MV M0 T1 H R N O PR HP EN w1. intros w2 MV M0 T2 H R N O PR HP EN RJ.
      assert (Vs : visw w2 (th tb) k) by (by eapply vis_raw).
      nrm. eapply w_cas_rem; [done|done|done|done|exact HP|done|done|done|by left|done|by eauto| |].
      - clear N O. intros w3 w4 E3 T3 M4 T4 D N HK O RE [pre LG]. tr E3. tr M4. cbv beta.
        assert (SL : slw (rejf test) w0 n0 (th tb) i w4).
        { intros k' Hk'. destruct (EN k' Hk') as [|(p' & v' & E' & HP' & Wt)]; [by left|left]. assert (p' = p) as -> by congruence.
          unfold hpw in HP, HP'. rewrite HP in HP'. injection HP' as <- <-. exists (length (g_log (wg w4))).
          split; [destruct Wt as (? & ? & ? & _); lia|]. split; [done|]. rewrite rp_all by done. rewrite LG, replay_snoc. by rewrite decide_True. }
        clear EN D LG. nrm. apply w_store_meta; [done|done|done|done|]. intros w5 F5 T5 M5. tr F5. cbv beta.
        nrm. eapply w_count; [exact O|]. clear O. intros w6 F6 T6 O. tr F6. cbv beta. replace (z - 1 - -1)%Z with z in O by lia.
        apply WP_bind. eapply s_defer_retire; [done|done|exact O|done|intros _; by apply raw_rtw|]. clear O RE. intros w7 F7 T7 O. tr F7.
        apply WP_ret. intros w8 E8 T8. tr E8. by apply S.
      - clear EN. intros w3 E3 T3. tr E3. cbv beta. 
        pose proof (entok_read _ _ _ _ _ _ _ _ i T3 H) as EK.
        pose proof (cpe_read w3 (th tb) i) as CE.
        pose proof (entw_read _ _ _ _ _ _ _ _ _ _ i W0 ON M0 ltac:(eassumption)) as EN. revert EK CE EN.
        generalize (en (k_sl (wc w3)) (th tb) i). intros e' EK CE EN. apply WP_ret. intros w4 E4 T4. tr E4. split_and!; auto. }
    destruct test as [f|] eqn:Et.
    - apply WP_bind. nrm. eapply r_deref; [done|done|]. intros w2 E2 T2. tr E2. cbv beta. apply WP_ret. intros w3 E3 T3. tr E3. cbn [fst snd].
      destruct (f k v) eqn:Ef.
      + assert (SL : slw (rejf (Some f)) w0 n0 (th tb) i w3).
        { intros k' Hk'. destruct (EN k' Hk') as [|(p' & v' & E' & HP' & Wt)]; [by left|right]. exists p', (k', v'). split; [done|]. split; [done|].
          assert (p' = p) as -> by congruence. unfold hpw in HP, HP'. rewrite HP in HP'. injection HP' as <- <-. rewrite ?Et. cbn. by rewrite Ef. }
        clear EN. apply WP_ret. intros w4 E4 T4. tr E4. by apply S.
      + apply DEL; auto. cbn. by rewrite Ef.
    - nrm. apply DEL; auto.
  Qed.

  Lemma s_sweep w0 n0 tb n i c (Q : _ → world → Prop) w z : WI w0 → linq cfg w0 n0 tb → mv w0 w → n + i = th_len tb →
    hok w tb → raw w (th tb) → npub w → own w None z → (c = false → swpw (rejf test) w0 n0 (th tb) i w) → (c = true → ntw w (S (th tb))) →
    (∀ b w', mv w w' → TI w' → npub w' → own w' None z → (b = false → swpw (rejf test) w0 n0 (th tb) (th_len tb) w') → (b = true → ntw w' (S (th tb))) → Q b w') →
    WP (sweep cfg n i test tb c) Q w.
  Proof.
    revert i c w. induction n as [|n IH]; intros i c w W0 ON M0 Ln H R N O SW SN S; cbn [sweep].
    - pose proof (mv_refl cfg nthr nsh me w) as MV. apply WP_ret. intros w1 E1 T1. 
      assert (SW1 : c = false → swpw (rejf test) w0 n0 (th tb) (th_len tb) w1).
      { intros Ec. replace (th_len tb) with i by lia. eapply st_swpw; [by eapply wext_mv|]. auto. }
      assert (SN1 : c = true → ntw w1 (Datatypes.S (th tb))) by (intros Ec; eapply st_ntw; [by eapply wext_mv|auto]).
      clear SW SN. tr E1. auto.
    - pose proof (mv_refl cfg nthr nsh me w) as MV. apply WP_bind.
      assert (TAIL : ∀ b w1, mv w w1 → mv w0 w1 → TI w1 → hok w1 tb → raw w1 (th tb) → npub w1 → own w1 None z →
        (b = false → slw (rejf test) w0 n0 (th tb) i w1) → (b = true → ntw w1 (Datatypes.S (th tb))) → WP (sweep cfg n (Datatypes.S i) test tb (c || b)) Q w1).
      { intros b w1 MV1 M01 T1 H1 R1 N1 O1 SL SN1. apply (IH (Datatypes.S i)); auto; [lia| | |].
        - intros [Ec Eb]%orb_false_iff. specialize (SL Eb). specialize (SW Ec). apply (st_swpw _ _ _ _ _ _ _ _ _ _ _ MV1) in SW.
          intros i' L. destruct (decide (i' = i)) as [->|]; [by apply SL|]. apply SW. lia.
        - intros [Ec|Eb]%orb_true_iff; [|auto]. eapply st_ntw; [exact MV1|auto].
        - intros b' w2 M2 T2. apply S; [|done]. by eapply mv_trans. }
      clear IH SW SN. 
      assert (BODY : ∀ w1, mv w w1 → mv w0 w1 → TI w1 → hok w1 tb → raw w1 (th tb) → npub w1 → own w1 None z →
        WP (e ← act (a_load_ent tb i); delete_entry cfg test tb i e) (λ b w', WP (sweep cfg n (Datatypes.S i) test tb (c || b)) Q w') w1).
      { clear MV M0 H R N O. intros w1 MV M0 T1 H R N O. nrm. apply r_load_ent; [done|lia|]. intros w2 E2 T2. tr E2. cbv beta.
        pose proof (entok_read _ _ _ _ _ _ _ _ i T2 H) as EK. pose proof (entw_read _ _ _ _ _ _ _ _ _ _ i W0 ON M0 ltac:(eassumption)) as EN.
        pose proof (cpe_read w2 (th tb) i) as CE.
        eapply s_delete_entry; [exact W0|exact ON|done|done|lia|done|done|done|done|done|done|]. clear EK CE EN N O. intros b w3 M3 T3 N O SL SN.
        assert (SL3 : b = false → slw (rejf test) w0 n0 (th tb) i w3) by done. clear SL. assert (SN3 : b = true → ntw w3 (Datatypes.S (th tb))) by done. clear SN. tr M3. by apply TAIL. }
      destruct test as [f|] eqn:Et; [|apply WP_close; intros w1 E1 T1; tr E1; by apply BODY].
      nrm. apply r_load_meta; [done|lia|]. intros w1 E1 T1. tr E1. cbv beta.
      destruct ((mt (k_sl (wc w1)) (th tb) i =? EMPTY)%N || (mt (k_sl (wc w1)) (th tb) i =? TOMBMETA)%N) eqn:Em; [|by apply BODY].
      assert (SL : slw (rejf (Some f)) w0 n0 (th tb) i w1).
      { intros k Hk. destruct (slot_read _ _ _ _ _ _ _ _ _ _ W0 ON M0 (TI_inv _ _ _ _ _ _ _ T1) Hk) as [|(p & v & H' & HP & _)]; [by left|]. exfalso.
        pose proof (TI_inv _ _ _ _ _ _ _ T1) as I1. assert (M1 : Mt (wc w1) (th tb) i) by (eapply st_Mtw; [exact M0|apply Hk]).
        assert (Hk1 : ky (wc w1) p = Some k) by (unfold ky; unfold hpw in HP; by rewrite HP).
        pose proof (i_meta _ _ _ I1 _ _ _ _ H' Hk1 M1) as E. apply orb_true_iff in Em as [Em|Em]; apply N.eqb_eq in Em.
        - done.
        - rewrite Em in E. symmetry in E. by apply h2_not_tomb in E. }
      clear Em. apply WP_ret. intros w2 E2 T2. tr E2. by apply TAIL.
  Qed.

  Lemma s_clear (Q : _ → world → Prop) w z : TI w → npub w → own w None z →
    (∀ w', mv w w' → TI w' → npub w' → own w' None z → (∀ k, okw (rejf test) (length (g_log (wg w))) k w') → Q tt w') →
    WP (clear_or_retain cfg test) Q w.
  Proof.
    intros T0 N O S. pose proof (mv_refl cfg nthr nsh me w) as MV. unfold clear_or_retain. set (n0 := length (g_log (wg w))) in *.
    assert (L0 : ∀ w', mv w w' → n0 ≤ length (g_log (wg w'))).
    { intros w' M. destruct (mv_ext _ _ _ _ _ _ M) as [<-|(_ & j & X)]; [done|]. pose proof (prefix_length _ _ (x_log _ _ _ _ _ X)). lia. }
    clearbody n0.
    nrm. apply r_root. intros w1 E1 T1. clear T0. tr E1. split.
    { intros E. assert (G : ∀ k, okw (rejf test) n0 k w1).
      { intros k. left. eapply st_wit; [exact (mv_refl cfg nthr nsh me w1)|]. eapply noroot_wit; [done|by apply L0|done]. }
      clear E. apply WP_ret. intros w2 E2 T2.
      assert (G2 : ∀ k, okw (rejf test) n0 k w2) by (intros k; eapply st_okw; [by eapply wext_mv|done]).
      clear G. tr E2. auto. }
    intros tb Er H. assert (R : raw w1 (th tb)) by (by eapply raw_root).
    assert (F : frs w1 n0 (th tb)) by (eapply frs_root; [done|by apply L0|done]). clear Er.
    apply (WP_loop _ _ _ _ _ _ (λ tb w1, mv w w1 ∧ hok w1 tb ∧ raw w1 (th tb) ∧ (incremental cfg = false → frs w1 n0 (th tb)) ∧ npub w1 ∧ own w1 None z)).
    { intros w2 E2 T2. tr E2. split_and!; auto. }
    clear N O MV T1 H R F w1 tb. intros tb w1 (MV & H & R & F & N & O) T1.
    apply WP_bind. eapply s_linearize; [done|done|by apply npub_qtw|done|]. clear H R. intros r w2 w3 F2 T2 H ON Er E3 T3.
    assert (LQ : linq cfg w2 n0 r).
    { assert (MV2 : mv w w2) by (eapply mv_trans; [done|by eapply fr_mv]). split; [by apply L0|]. split; [done|]. intros Ei. rewrite (Er Ei).
      eapply st_frs; [by eapply fr_mv|auto]. }
    clear Er ON F. assert (W2 := ti_wi _ _ _ _ _ _ _ T2).
    pose proof (linq_raw _ _ _ _ _ _ W2 LQ) as R. trk F2. clear F2 T1 w1.
    pose proof (mv_refl cfg nthr nsh me w2) as M02. pose proof MV as MV2.
    assert (WK : ∀ w', mv w2 w' → swpw (rejf test) w2 n0 (th r) (th_len r) w' → TI w' → ∀ k, okw (rejf test) n0 k w').
    { intros w' M' SW T' k. destruct (cover _ _ _ _ _ _ k W2 LQ) as [(i & Li & Tk)|X].
      - apply (SW i); [|done]. by destruct (hok_len _ _ _ _ _ _ _ _ T2 H) as (<- & _).
      - left. by eapply st_wit. }
    assert (X : mv w2 w3) by (by eapply wext_mv).
    assert (H3 : hok w3 r) by (eapply st_hok; [exact X|exact H]). assert (R3 : raw w3 (th r)) by (eapply st_raw; [exact X|exact R]).
    assert (N3 : npub w3) by (eapply fr_npub; [by eapply wext_fr|done]). assert (O3 : own w3 None z) by (eapply fr_own; [by eapply wext_fr|done]).
    assert (MV3 : mv w w3) by (by eapply mv_trans). clear MV H R N O T2 M02 E3.
    apply WP_bind. eapply (s_sweep w2 n0 r (th_len r) 0 false); [exact W2|exact LQ|exact X|lia|exact H3|exact R3|exact N3|exact O3|by intros _ i Li; lia|done|].
    clear N3 O3. intros b w4 M4 T4 N4 O4 SW SN.
    assert (M24 : mv w2 w4) by (by eapply mv_trans). assert (MV4 : mv w w4) by (by eapply mv_trans).
    assert (H4 : hok w4 r) by (eapply st_hok; [exact M4|exact H3]). assert (R4 : raw w4 (th r)) by (eapply st_raw; [exact M4|exact R3]).
    assert (F4 : incremental cfg = false → frs w4 n0 (th r)) by (intros Ei; eapply st_frs; [exact M24|apply LQ, Ei]).
    clear M4 X H3 R3 MV3 T3 w3.
    destruct b; cbn [negb].
    - clear SW WK MV2 M24 W2 LQ w2. specialize (SN eq_refl). apply WP_bind. eapply s_help_copy; [done|done|by apply npub_qtw|done|done|].
      intros r' w5 F5 T5 H5 R5 Le _.
      pose proof (fr_npub _ _ _ _ _ _ _ F5 N4) as N5. pose proof (fr_own _ _ _ _ _ _ _ _ _ F5 O4) as O5. specialize (R5 (or_intror eq_refl)).
      assert (FS : incremental cfg = false → frs w5 n0 (th r')).
      { intros Ei. eapply frs_le; [done| |eapply st_frs; [by eapply fr_mv|by apply F4]]. apply Le. unfold incremental in Ei. by destruct (c_mode cfg). }
      assert (MV5 : mv w w5) by (eapply mv_trans; [done|by eapply fr_mv]). clear N4 O4 MV4 F5 T4 F4 H4 R4 SN w4 Le.
      apply WP_ret. intros w6 E6 T6. assert (FS6 : incremental cfg = false → frs w6 n0 (th r')) by (intros Ei; eapply st_frs; [by eapply wext_mv|auto]).
      clear FS. tr E6. split_and!; auto.
    - specialize (WK w4 M24 (SW eq_refl) T4). clear SW MV2 M24 W2 LQ H4 R4 F4 SN w2. apply WP_ret. intros w5 E5 T5.
      assert (G2 : ∀ k, okw (rejf test) n0 k w5) by (intros k; eapply st_okw; [by eapply wext_mv|done]).
      clear WK. tr E5. auto.
  Qed.
End prog8.
