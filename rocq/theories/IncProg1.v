(** Specifications of the resize machinery: parking, allocation of the next table, copying, promotion. *)
From Verif Require Export BlkRules.

Section facts1.
  Context {K V : Type} {Keq : EqDecision K} (cfg : config K) (nthr nsh me opid : nat) (o : op K V).
  Notation core := (core K V). Notation ghost := (@ghost K). Notation event := (event K).
  Notation world := (@world K V). Notation rghost := (@rghost K V). Notation prog := (prog K V).
  Notation Inv := (Inv cfg). Notation WI := (WI cfg nthr nsh).
  Notation fr := (fr cfg nthr nsh me opid). Notation fx := (fx cfg nthr nsh me opid). Notation mv := (mv cfg nthr nsh me).
  Notation wext := (wext cfg nthr nsh me opid). Notation wgrd := (wgrd me opid).
  Notation ix := (ix cfg). Notation passes := (passes cfg). Notation visited := (visited cfg).
  Notation TI := (TI cfg nthr nsh me opid o). Notation WP := (WP cfg nthr nsh me opid o).
  Notation hok := (hok me). Notation psd := (psd cfg). Notation pro := (pro me). Notation visw := (visw cfg).
  Notation hk2 := (hk2 cfg). Notation own := (own me). Notation clean := (clean opid). Notation npub := (npub opid).
  Notation didw := (didw opid). Notation fq := (fq cfg nthr nsh me opid). Notation lkw := (lkw me). Notation lk1 := (lk1 me).
  Implicit Types w : world.

  (** The first [q] probe positions of a hash are taken. *)
  Definition mtp w t (h : N) (mask q : nat) : Prop := ∀ q', q' < q → Mtw w t (probe_idx h mask q').
  (** The probe sequences of [k] in all tables strictly between [t1] and [t2] are taken. *)
  Definition exw w t1 t2 (k : K) : Prop := ∀ t, t1 < t → t < t2 → exhM cfg (wc w) t k.
  (** Slot [i] of [t] is completely copied. *)
  Definition cdw w t i : Prop := CP (wc w) t i ∧ CD (wc w) t i.
  Definition lnw w t n : Prop := t < nt (wc w) ∧ lnc (wc w) t = n.
  Definition owr w t a b : Prop := ∀ i, a ≤ i → i < b → phw w t i (POwn me).
  Definition dnr w t a b : Prop := ∀ i, a ≤ i → i < b → phw w t i (PDone me).

  Lemma st_mtp w w' t h mask q : mv w w' → mtp w t h mask q → mtp w' t h mask q.
  Proof. intros M H q' L. eapply st_Mtw; [exact M|]. by apply H. Qed.
  Lemma st_exw w w' t1 t2 k : mv w w' → exw w t1 t2 k → exw w' t1 t2 k.
  Proof.
    intros M H t L1 L2 q Lq. destruct (mv_ext _ _ _ _ _ _ M) as [<-|(I & j & X)]; [by apply H|].
    specialize (H t L1 L2). assert (Ht : t < nt (wc w)).
    { pose proof (Mt_inb _ _ _ (H 0 ltac:(lia))) as B. destruct (decide (t < nt (wc w))); [done|].
      unfold lnc in B. rewrite ln_oob in B; [lia|]. unfold nt in *. lia. }
    rewrite (st_ix _ _ _ _ _ _ X) by done. eapply st_Mt; [exact X|]. apply H. by rewrite <- (x_lim _ _ _ _ _ X).
  Qed.
  Lemma st_cdw w w' t i : mv w w' → cdw w t i → cdw w' t i.
  Proof.
    intros M [A B]. destruct (mv_ext _ _ _ _ _ _ M) as [<-|(I & j & X)]; [done|].
    split; [by eapply st_CP|by eapply st_CD].
  Qed.
  Lemma st_lnw w w' t n : mv w w' → lnw w t n → lnw w' t n.
  Proof.
    intros M [A B]. destruct (mv_ext _ _ _ _ _ _ M) as [<-|(I & j & X)]; [done|].
    split; [pose proof (x_nt _ _ _ _ _ X); lia|]. by rewrite (x_ln _ _ _ _ _ X).
  Qed.
  Lemma hok_lnw w tb : TI w → hok w tb → lnw w (th tb) (th_len tb).
  Proof. intros T H. destruct (hok_len _ _ _ _ _ _ _ _ T H) as (A & _ & B). by split. Qed.
  Lemma fq_owr (E : nat → nat → Prop) w w' t a b : fq E w w' → (∀ i, a ≤ i → i < b → ¬ E t i) → owr w t a b → owr w' t a b.
  Proof. intros F N H i A B. eapply fq_phw; [exact F|by apply N|done|]. by apply H. Qed.
  Lemma fq_dnr (E : nat → nat → Prop) w w' t a b : fq E w w' → (∀ i, a ≤ i → i < b → ¬ E t i) → dnr w t a b → dnr w' t a b.
  Proof. intros F N H i A B. eapply fq_phw; [exact F|by apply N|done|]. by apply H. Qed.

  Lemma bw_st w w' t i p b : mv w w' → cpw w t i p → e_borrowed (en (k_sl (wc w)) t i) = b → e_borrowed (en (k_sl (wc w')) t i) = b.
  Proof.
    intros M [C _] E. destruct (mv_ext _ _ _ _ _ _ M) as [<-|(I & j & X)]; [done|].
    by rewrite (sx_bw _ _ _ _ _ _ (x_slot _ _ _ _ _ X t i) C).
  Qed.
  Lemma wext_lk1' w w' t : wext w w' → lk1 w t → lk1 w' t.
  Proof. intros E. by eapply wext_lk1. Qed.
  Lemma fr_fq w1 w' : fr w1 w' → wg w' = wg w1 → fq no2 w1 w'.
  Proof. intros F E. split; [done|]. intros t i _ _. by rewrite E. Qed.
  (** The key of a parked thread stays valid. *)
  Definition ckey w tb (key : pkey) : Prop := match key with KStatus => True | KEntry i => i < th_len tb ∧ CPw w (th tb) i end.
  Lemma st_ckey w w' tb key : mv w w' → ckey w tb key → ckey w' tb key.
  Proof. intros M. destruct key; [done|]. intros [A B]. split; [done|]. by eapply st_CPw. Qed.
  Definition dkey w tb (key : pkey) : Prop := match key with KStatus => True | KEntry i => cdw w (th tb) i end.
  Lemma st_dkey w w' tb key : mv w w' → dkey w tb key → dkey w' tb key.
  Proof. intros M. destruct key; [done|]. by eapply st_cdw. Qed.
End facts1.

(** ** Transport of facts along progress of the map *)
Ltac get_mv X :=
  lazymatch type of X with
  | IncWorld.wext _ _ _ _ _ _ _ => constr:(wext_mv _ _ _ _ _ _ _ X)
  | IncWorld.fr _ _ _ _ _ _ _ => constr:(fr_mv _ _ _ _ _ _ _ X)
  | IncWorld.fx _ _ _ _ _ _ _ => constr:(fx_mv _ _ _ _ _ _ _ X)
  | IncRules2.fq _ _ _ _ _ _ _ _ => constr:(fr_mv _ _ _ _ _ _ _ (proj1 X))
  | IncWorld.mv _ _ _ _ _ _ => X
  end.
Ltac get_fr X :=
  lazymatch type of X with
  | IncWorld.wext _ _ _ _ _ _ _ => constr:(wext_fr _ _ _ _ _ _ _ X)
  | IncWorld.fr _ _ _ _ _ _ _ => X
  | IncRules2.fq _ _ _ _ _ _ _ _ => constr:(proj1 X)
  end.
Ltac solve_fq X :=
  lazymatch type of X with
  | IncWorld.wext _ _ _ _ _ _ _ => eapply wext_fq; exact X
  | IncRules2.fq _ _ _ _ _ _ _ _ => first [exact X|eapply fq_weak; exact X]
  end.
Ltac solve_fx X :=
  lazymatch type of X with
  | IncWorld.fx _ _ _ _ _ _ _ => exact X
  | _ => let F := get_fr X in eapply fr_fx; exact F
  end.
Ltac st_mv M H :=
  first [ eapply st_hok; [exact M|exact H] | eapply st_mtp; [exact M|exact H] | eapply st_psd; [exact M|exact H]
        | eapply st_frs; [exact M|exact H] | eapply st_pro; [exact M|exact H] | eapply st_hpw; [exact M|exact H]
        | eapply st_visw; [exact M|exact H] | eapply st_Mtw; [exact M|exact H] | eapply st_CPw; [exact M|exact H]
        | eapply st_passw; [exact M|exact H] | eapply st_hk2; [exact M|exact H] | eapply st_skipw; [exact M|exact H]
        | eapply st_wit; [exact M|exact H] | eapply st_rtw; [exact M|exact H] | eapply st_ntw; [exact M|exact H]
        | eapply st_nrt; [exact M|exact H] | eapply st_didw; [exact M|exact H] | eapply st_nohp; [exact M|exact H]
        | eapply st_acw; [exact M|exact H] | eapply st_cpw; [exact M|exact H] | eapply st_pubw; [exact M|exact H]
        | eapply st_rets; [exact M|exact H] | eapply st_exw; [exact M|exact H] | eapply st_cdw; [exact M|exact H]
        | eapply st_lnw; [exact M|exact H] | eapply st_raw; [exact M|exact H] | eapply st_srcw; [exact M|exact H]
        | eapply st_abw; [exact M|exact H] | eapply st_acwB; [exact M|exact H] | eapply st_prw; [exact M|exact H] ].
(** Extended later for more facts. *)
Ltac st_more M H := first [eapply st_ckey; [exact M|exact H]|eapply st_dkey; [exact M|exact H]].
Ltac st_fact X M H :=
  lazymatch type of H with
  | IncRules.clean _ _ => first [ let F := get_fr X in eapply fr_clean; [exact F|exact H] | eapply fx_clean; [exact X|exact H] ]
  | IncRules.qtw _ _ _ => first [ let F := get_fr X in eapply fr_qtw; [exact F|exact H] | eapply fx_qtw; [exact X|exact H] ]
  | IncRules.npub _ _ => first [ let F := get_fr X in eapply fr_npub; [exact F|exact H] | eapply fx_npub; [exact X|exact H] ]
  | IncRules.own _ _ _ _ => let F := get_fr X in eapply fr_own; [exact F|exact H]
  | IncRules2.phw _ _ _ _ => first
      [ eapply (fq_phw _ _ _ _ _ no2); [solve_fq X|intros []|reflexivity|exact H]
      | eapply fq_phw; [exact X|unfold at2; lia|reflexivity|exact H] ]
  | owr _ _ _ _ _ => first
      [ eapply (fq_owr _ _ _ _ _ no2); [solve_fq X|intros ? _ _ []|exact H]
      | eapply fq_owr; [exact X|unfold at2; intros; lia|exact H] ]
  | dnr _ _ _ _ _ => first
      [ eapply (fq_dnr _ _ _ _ _ no2); [solve_fq X|intros ? _ _ []|exact H]
      | eapply fq_dnr; [exact X|unfold at2; intros; lia|exact H] ]
  | IncRules3.lk1 _ _ _ => eapply wext_lk1; [exact X|exact H]
  | IncRules2.lkw _ _ _ => eapply wext_lkw; [exact X|exact H]
  | IncWorld.wext _ _ _ _ _ _ _ => eapply wext_trans; [exact H|exact X]
  | IncRules2.fq _ _ _ _ _ _ _ _ => eapply fq_trans; [exact H|solve_fq X]
  | IncWorld.fr _ _ _ _ _ _ _ => let F := get_fr X in eapply fr_trans; [exact H|exact F]
  | IncWorld.fx _ _ _ _ _ _ _ => eapply fx_trans; [exact H|solve_fx X]
  | IncWorld.mv _ _ _ _ _ _ => eapply mv_trans; [exact H|exact M]
  | (length _ ≤ length (g_log (wg _)))%nat => etransitivity; [exact H|eapply st_len; exact M]
  | (_ ≤ length (g_log (wg _)))%nat => etransitivity; [exact H|eapply st_len; exact M]
  | _ => first [st_mv M H|st_more M H]
  end.
Ltac repl_w T w w' :=
  lazymatch T with
  | @IncWorld.wext ?a ?b ?c ?d ?e ?f ?g ?h ?x w => constr:(@IncWorld.wext a b c d e f g h x w')
  | @IncWorld.fr ?a ?b ?c ?d ?e ?f ?g ?h ?x w => constr:(@IncWorld.fr a b c d e f g h x w')
  | @IncWorld.fx ?a ?b ?c ?d ?e ?f ?g ?h ?x w => constr:(@IncWorld.fx a b c d e f g h x w')
  | @IncWorld.mv ?a ?b ?c ?d ?e ?f ?g ?x w => constr:(@IncWorld.mv a b c d e f g x w')
  | @IncRules2.fq ?a ?b ?c ?d ?e ?f ?g ?h ?i ?x w => constr:(@IncRules2.fq a b c d e f g h i x w')
  | _ => let P := eval pattern w in T in lazymatch P with ?F _ => eval cbv beta in (F w') end
  end.
Ltac tr_w X w w' :=
  let M := fresh "Mtmp" in let m := get_mv X in pose proof m as M;
  repeat match goal with
  | H : ?T |- _ =>
      lazymatch H with X => fail | M => fail | _ => idtac end;
      lazymatch T with context [w] => idtac end;
      let T' := repl_w T w w' in
      let N := fresh "Ntmp" in
      assert (N : T') by (st_fact X M H); clear H; rename N into H
  end; clear M.
(** [trk] keeps the step, [tr] forgets it. *)
Ltac trk X :=
  lazymatch type of X with
  | IncWorld.wext _ _ _ _ _ ?w ?w' => tr_w X w w'
  | IncWorld.fr _ _ _ _ _ ?w ?w' => tr_w X w w'
  | IncWorld.fx _ _ _ _ _ ?w ?w' => tr_w X w w'
  | IncRules2.fq _ _ _ _ _ _ ?w ?w' => tr_w X w w'
  | IncWorld.mv _ _ _ _ ?w ?w' => tr_w X w w'
  end.
Ltac tr X :=
  let w := lazymatch type of X with
  | IncWorld.wext _ _ _ _ _ ?w ?w' => w
  | IncWorld.fr _ _ _ _ _ ?w ?w' => w
  | IncWorld.fx _ _ _ _ _ ?w ?w' => w
  | IncRules2.fq _ _ _ _ _ _ ?w ?w' => w
  | IncWorld.mv _ _ _ _ ?w ?w' => w
  end in
  trk X; try clear X; try match goal with H : IncRules.TI _ _ _ _ _ _ w |- _ => clear H end; try clear w.

(** Normal form of the next program step. *)
Ltac nrm :=
  lazymatch goal with
  | |- IncRules.WP ?a ?b ?c ?d ?e ?g (Prog.bind (Prog.act ?f) ?k) ?Q ?w => change (IncRules.WP a b c d e g (Act f k) Q w)
  | |- IncRules.WP ?a ?b ?c ?d ?e ?g (Prog.bind (Ret ?x) ?k) ?Q ?w => change (IncRules.WP a b c d e g (k x) Q w); cbv beta
  | |- IncRules.WP ?a ?b ?c ?d ?e ?g (Prog.act ?f) ?Q ?w => change (IncRules.WP a b c d e g (Act f Ret) Q w)
  | |- _ => idtac
  end.

(** Start accumulating the steps from [w]. *)
Ltac acc w :=
  lazymatch goal with |- IncRules.WP ?c ?n ?s ?m ?i ?o _ _ _ => let A := fresh "Acc" in pose proof (fq_refl c n s m i no2 w) as A end.
Ltac accr w :=
  lazymatch goal with |- IncRules.WP ?c ?n ?s ?m ?i ?o _ _ _ => let A := fresh "Acc" in pose proof (fr_refl c n s m i w) as A end.
Ltac acce w :=
  lazymatch goal with |- IncRules.WP ?c ?n ?s ?m ?i ?o _ _ _ => let A := fresh "Acc" in pose proof (wext_refl c n s m i w) as A end.

Section prog1.
  Context {K V : Type} {Keq : EqDecision K} (cfg : config K) (nthr nsh me opid : nat) (o : op K V).
  Notation core := (core K V). Notation ghost := (@ghost K). Notation event := (event K).
  Notation world := (@world K V). Notation rghost := (@rghost K V). Notation prog := (prog K V).
  Notation Inv := (Inv cfg). Notation WI := (WI cfg nthr nsh).
  Notation fr := (fr cfg nthr nsh me opid). Notation fx := (fx cfg nthr nsh me opid). Notation mv := (mv cfg nthr nsh me).
  Notation wext := (wext cfg nthr nsh me opid). Notation wgrd := (wgrd me opid).
  Notation ix := (ix cfg). Notation passes := (passes cfg). Notation visited := (visited cfg).
  Notation TI := (TI cfg nthr nsh me opid o). Notation WP := (WP cfg nthr nsh me opid o).
  Notation hok := (hok me). Notation psd := (psd cfg). Notation pro := (pro me). Notation visw := (visw cfg).
  Notation hk2 := (hk2 cfg). Notation own := (own me). Notation clean := (clean opid). Notation npub := (npub opid).
  Notation didw := (didw opid). Notation fq := (fq cfg nthr nsh me opid). Notation lkw := (lkw me). Notation lk1 := (lk1 me).
  Notation exw := (exw cfg). Notation owr := (owr me). Notation dnr := (dnr me).
  Implicit Types w : world.

  Lemma WP_close {A} (p : prog A) Q w : (∀ w', wext w w' → TI w' → WP p Q w') → WP p Q w.
  Proof. apply wp_close. apply wext_refl. Qed.
  Lemma WP_ext {A} (p : prog A) Q w w' : WP p Q w → wext w w' → WP p Q w'.
  Proof. apply wp_ext. intros. by eapply wext_trans. Qed.

  (** ** Parking *)
  Lemma p_tab {X A} (f : action K V X) tb (k : X → prog A) Q w :
    inert f → sneutral f → (∀ w' b, TI w' → hok w' tb → f me b w'.1 ≠ UB) → hok w tb →
    (∀ x w', fq no2 w w' → TI w' → WP (k x) Q w') → WP (Act f k) Q w.
  Proof.
    intros IN SN NU H S. apply r_parker; [done|done| |].
    - intros w' b T M. apply NU; [done|]. by eapply st_hok.
    - intros x w1 w' E T1 F T' _ Eg. apply S; [|done]. eapply fq_trans; [by eapply wext_fq|]. by apply fr_fq.
  Qed.
  Ltac ptab := intros; apply nub_table; [by eapply hok_tok|done].
  Lemma s_announce {A} tb d (k : unit → prog A) Q w : hok w tb → (∀ w', fq no2 w w' → TI w' → WP (k tt) Q w') →
    WP (Act (a_pk_announce tb d) k) Q w.
  Proof.
    intros H S. eapply p_tab; [apply inert_pk_announce|apply sn_pk_announce|ptab|done|].
    intros []. exact (S).
  Qed.
  Lemma s_register {A} tb key (k : nat → prog A) Q w : hok w tb → (∀ x w', fq no2 w w' → TI w' → WP (k x) Q w') →
    WP (Act (a_pk_register tb key) k) Q w.
  Proof. intros H S. eapply p_tab; [apply inert_pk_register|apply sn_pk_register|ptab|done|done]. Qed.
  Lemma s_remove {A} tb key id (k : bool → prog A) Q w : hok w tb → (∀ x w', fq no2 w w' → TI w' → WP (k x) Q w') →
    WP (Act (a_pk_remove tb key id) k) Q w.
  Proof. intros H S. eapply p_tab; [apply inert_pk_remove|apply sn_pk_remove|ptab|done|done]. Qed.
  Lemma s_contains {A} tb key id (k : bool → prog A) Q w : hok w tb → (∀ x w', fq no2 w w' → TI w' → WP (k x) Q w') →
    WP (Act (a_pk_contains tb key id) k) Q w.
  Proof. intros H S. eapply p_tab; [apply inert_pk_contains|apply sn_pk_contains|ptab|done|done]. Qed.
  Lemma s_pending {A} tb (k : Z → prog A) Q w : hok w tb → (∀ x w', fq no2 w w' → TI w' → WP (k x) Q w') →
    WP (Act (a_pk_pending tb) k) Q w.
  Proof. intros H S. eapply p_tab; [apply inert_pk_pending|apply sn_pk_pending|ptab|done|done]. Qed.
  Lemma s_take {A} tb key (k : list nat → prog A) Q w : hok w tb → (∀ x w', fq no2 w w' → TI w' → WP (k x) Q w') →
    WP (Act (a_pk_take tb key) k) Q w.
  Proof. intros H S. eapply p_tab; [apply inert_pk_take|apply sn_pk_take|ptab|done|done]. Qed.
  Lemma s_park0 {A} (k : unit → prog A) Q w : (∀ w', fq no2 w w' → TI w' → WP (k tt) Q w') → WP (Act a_park k) Q w.
  Proof.
    intros S. apply r_parker; [apply inert_park|apply sn_park|intros; apply nub_park|].
    intros [] w1 w' E T1 F T' _ Eg. apply S; [|done]. eapply fq_trans; [by eapply wext_fq|]. by apply fr_fq.
  Qed.
  Lemma s_unpark0 {A} j (k : unit → prog A) Q w : (∀ w', fq no2 w w' → TI w' → WP (k tt) Q w') → WP (Act (a_unpark j) k) Q w.
  Proof.
    intros S. apply r_parker; [apply inert_unpark|apply sn_unpark|done|].
    intros [] w1 w' E T1 F T' _ Eg. apply S; [|done]. eapply fq_trans; [by eapply wext_fq|]. by apply fr_fq.
  Qed.

  Lemma s_unpark_all l (Q : _ → world → Prop) w : (∀ w', fq no2 w w' → TI w' → Q tt w') → WP (unpark_all l) Q w.
  Proof.
    revert w. induction l as [|j l IH]; cbn [unpark_all]; intros w S; acc w.
    - apply WP_ret. intros w' E T. tr E. auto.
    - nrm. apply s_unpark0. intros w1 F1 T1. cbv beta. tr F1. apply IH. intros w2 F2 T2. tr F2. auto.
  Qed.
  Lemma s_unpark tb key (Q : _ → world → Prop) w : hok w tb → (∀ w', fq no2 w w' → TI w' → Q tt w') → WP (unpark tb key) Q w.
  Proof.
    intros H S. acc w. unfold unpark. nrm. apply s_pending; [done|]. intros n w1 F1 T1. tr F1. cbv beta.
    destruct (n =? 0)%Z.
    { apply WP_ret. intros w2 E2 T2. tr E2. auto. }
    nrm. apply s_take; [done|]. intros l w2 F2 T2. tr F2. cbv beta. destruct l as [|j l].
    { apply WP_ret. intros w3 E3 T3. tr E3. auto. }
    nrm. apply s_announce; [done|]. intros w3 F3 T3. tr F3. cbv beta.
    apply s_unpark_all. intros w4 F4 T4. tr F4. auto.
  Qed.


  Lemma s_park tb key (Q : _ → world → Prop) w : hok w tb → ckey w tb key →
    (∀ w', fq no2 w w' → TI w' → dkey w' tb key → Q tt w') → WP (park tb key) Q w.
  Proof.
    intros H C S. acc w. unfold park.
    apply (WP_loop _ _ _ _ _ _ (λ _ w1, fq no2 w w1 ∧ hok w1 tb ∧ ckey w1 tb key)).
    { intros w1 E T. tr E. auto. }
    clear H C Acc. intros [] w1 (F & H & C) T.
    nrm. apply s_announce; [done|]. intros w2 F2 T2. tr F2. cbv beta.
    nrm. apply s_register; [done|]. intros id w3 F3 T3. tr F3. cbv beta.
    assert (SP : ∀ w4 c, ckey w4 tb key → (c = false → match key with KStatus => fld PENDING (k_st (wc w4)) (th tb) ≠ PENDING
        | KEntry i => CD (wc w4) (th tb) i end) → c = false → dkey w4 tb key).
    { intros w4 c C4 Hc ->. specialize (Hc eq_refl). destruct key; [done|]. split; [apply C4|done]. }
    nrm. apply r_should_park; [done|intros i ->; apply C|]. intros w4 E4 T4 c Hc. tr E4. cbv beta.
    pose proof (SP _ _ C Hc) as D. clear Hc. destruct c; cbn [negb].
    - clear D. apply WP_bind. apply (WP_loop _ _ _ _ _ _ (λ _ w1, fq no2 w w1 ∧ hok w1 tb ∧ ckey w1 tb key)).
      { intros w5 E T. tr E. auto. }
      clear H C F T4 w4. intros [] w1 (F & H & C) T.
      nrm. apply s_park0. intros w2 F2 T2. tr F2. cbv beta.
      nrm. apply s_contains; [done|]. intros h w3 F3 T3. tr F3. cbv beta.
      destruct h; apply WP_ret; intros w4 E4 T4; tr E4; [auto|].
      nrm. apply r_should_park; [done|intros i ->; apply C|]. intros w5 E5 T5 c Hc. tr E5. cbv beta.
      pose proof (SP _ _ C Hc) as D. clear Hc. destruct c; cbn [negb].
      + apply WP_ret. intros w6 E6 T6. clear D. tr E6. auto.
      + apply WP_ret. intros w6 E6 T6. specialize (D eq_refl). tr E6. auto.
    - specialize (D eq_refl). nrm. apply s_remove; [done|]. intros h w5 F5 T5. tr F5. cbv beta. destruct h.
      + nrm. apply s_announce; [done|]. intros w6 F6 T6. tr F6. cbv beta. apply WP_ret. intros w7 E7 T7. tr E7. auto.
      + apply WP_ret. intros w7 E7 T7. tr E7. auto.
  Qed.

  (** ** Counter *)
  Lemma s_sum_shards n j acc (Q : _ → world → Prop) w : (∀ z w', wext w w' → TI w' → Q z w') → WP (sum_shards n j acc) Q w.
  Proof.
    revert j acc w. induction n as [|n IH]; cbn [sum_shards]; intros j a w S; acce w.
    - apply WP_ret. apply S.
    - nrm. apply r_load_shard. intros w1 E1 T1. cbv beta. tr E1. apply IH. intros z w2 E2 T2. tr E2. auto.
  Qed.
  Lemma s_map_len (Q : _ → world → Prop) w : (∀ n w', wext w w' → TI w' → Q n w') → WP map_len Q w.
  Proof.
    intros S. acce w. unfold map_len. nrm. apply r_shards. intros w1 E1 T1. cbv beta. tr E1. apply WP_bind. apply s_sum_shards.
    intros z w2 E2 T2. tr E2. apply WP_ret. intros w3 E3 T3. tr E3. auto.
  Qed.
End prog1.
