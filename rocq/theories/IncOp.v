(** Specification of every API operation. *)
From Verif Require Export IncProg9 Spec.
Section opspec.
  Context {K V : Type} {Keq : EqDecision K} (cfg : config K) (nthr nsh me opid : nat) (o : op K V).
  Notation core := (core K V). Notation ghost := (@ghost K). Notation event := (event K).
  Notation world := (@world K V). Notation rghost := (@rghost K V). Notation prog := (prog K V).
  Notation Inv := (Inv cfg). Notation WI := (WI cfg nthr nsh).
  Notation fr := (fr cfg nthr nsh me opid). Notation fx := (fx cfg nthr nsh me opid). Notation mv := (mv cfg nthr nsh me).
  Notation wext := (wext cfg nthr nsh me opid). Notation wgrd := (wgrd me opid).
  Notation ix := (ix cfg). Notation passes := (passes cfg). Notation visited := (visited cfg).
  Notation TI := (TI cfg nthr nsh me opid o). Notation WP := (WP cfg nthr nsh me opid o).
  Notation hok := (hok me). Notation psd := (psd cfg). Notation pro := (pro me). Notation visw := (visw cfg).
  Notation hk2 := (hk2 cfg). Notation own := (own me). Notation clean := (clean opid). Notation npub := (npub opid).
  Notation didw := (didw opid). Notation fq := (fq cfg nthr nsh me opid). Notation lkw := (lkw me). Notation lk1 := (lk1 me).
  Notation exw := (exw cfg). Notation owr := (owr me). Notation dnr := (dnr me). Notation passw := (passw cfg).
  Implicit Types w : world.
  Notation lg w := (length (g_log (wg w))).

  Definition valp (h : list (K * V)) (c : option nat) : option V := c ≫= λ p, snd <$> (h !! p).
  Notation hpo w := (k_hp (wc w)).

  (** ** Iterators *)
  Definition itok w (n0 : nat) (x : iterst) (Y : list K) : Prop :=
    match x.1 with
    | None => Y = [] ∧ ∀ k, wit w n0 k None
    | Some tb => ∃ w1, WI w1 ∧ linq cfg w1 n0 tb ∧ hok w1 tb ∧ mv w1 w ∧ hok w tb ∧ x.2 ≤ th_len tb ∧
                   cvw w1 n0 (th tb) x.2 Y w ∧ ynw n0 (th tb) x.2 Y w
    end.
  Lemma st_itok w w' n0 x Y : mv w w' → itok w n0 x Y → itok w' n0 x Y.
  Proof.
    intros M. unfold itok. destruct (x.1) as [tb|].
    - intros (w1 & A & B & C & D & F & G & H & I). exists w1. split_and!; auto; [by eapply mv_trans|by eapply st_hok|by eapply st_cvw|by eapply st_ynw].
    - intros [A B]. split; [done|]. intros k. by eapply st_wit.
  Qed.
  Definition itsok w (its : list iterst) (gs : list (nat * list K)) : Prop :=
    length gs = length its ∧ ∀ j x g, its !! j = Some x → gs !! j = Some g → itok w g.1 x g.2.

  (** ** Postcondition of an operation that started when the log had length [n0] *)
  Definition opost w n0 (its : list iterst) (gs : list (nat * list K)) (r : pres K V) : Prop :=
    own w None 0 ∧ (∀ p, p ∈ refs r → pro w p) ∧
    match key_of o with
    | Some k => ∃ v, to_vals o w.1 r = Some v ∧
        ((∃ e, didw w e ∧ ev_key e = k ∧ seq_op o (valp (hpo w) (ev_old e)) = Some (valp (hpo w) (ev_new e), v)) ∨
         (clean w ∧ ∃ c, wit w n0 k c ∧ seq_op o (valp (hpo w) c) = Some (valp (hpo w) c, v))) ∧
        nones (calls_of r) ≤ 1 ∧ (∀ c, c ∈ calls_of r → callw w n0 k c) ∧ finish_iters r its = its
    | None =>
      match o with
      | OClear | ORetain _ => r = PUnit ∧ npub w ∧ ∀ k, okw (λ kv, negb (keeps o kv.1 kv.2)) n0 k w
      | OReserve _ => r = PUnit ∧ clean w
      | OLen => (∃ n, r = PLen n) ∧ clean w
      | OIter => clean w ∧ ∃ x, r = PIter x ∧ itok w n0 (x, 0) []
      | OIterNext j => clean w ∧ ∃ i p, r = PNext j i p ∧
          match its !! j, gs !! j with
          | Some x, Some (n1, Y) =>
            match p with
            | None => itok w n1 (x.1, i) Y ∧ ∀ k, k ∈ Y ∨ wit w n1 k None
            | Some p => ∃ k v, hpw w p (k, v) ∧ pro w p ∧ wit w n1 k (Some p) ∧ (k ∈ Y → gapw w n1 k) ∧ itok w n1 (x.1, i) (k :: Y)
            end
          | _, _ => p = None
          end
      | _ => False
      end
    end.

  Lemma rd_pro w p kv : pro w p → hpw w p kv → rd w.1 p = Some kv.
  Proof. intros P H. unfold rd. rewrite decide_False by (by eapply pro_nf). exact H. Qed.
  Lemma valp_hp w p kv : hpw w p kv → valp (hpo w) (Some p) = Some kv.2.
  Proof. intros H. unfold valp. change (snd <$> (hpo w !! p) = Some kv.2). unfold hpw in H. by rewrite H. Qed.

  Lemma post_ev w n0 its gs k r v e : key_of o = Some k → own w None 0 → to_vals o w.1 r = Some v → didw w e → ev_key e = k →
    seq_op o (valp (hpo w) (ev_old e)) = Some (valp (hpo w) (ev_new e), v) →
    nones (calls_of r) ≤ 1 → (∀ c, c ∈ calls_of r → callw w n0 k c) → finish_iters r its = its → (∀ p, p ∈ refs r → pro w p) → opost w n0 its gs r.
  Proof. intros E O TV D Ek SQ N CL FI RF. split; [done|]. split; [done|]. rewrite E. exists v. split; [done|]. split; [left; by exists e|done]. Qed.
  Lemma post_rd w n0 its gs k r v c : key_of o = Some k → own w None 0 → to_vals o w.1 r = Some v → clean w → wit w n0 k c →
    seq_op o (valp (hpo w) c) = Some (valp (hpo w) c, v) →
    nones (calls_of r) ≤ 1 → (∀ c, c ∈ calls_of r → callw w n0 k c) → finish_iters r its = its → (∀ p, p ∈ refs r → pro w p) → opost w n0 its gs r.
  Proof. intros E O TV C W SQ N CL FI RF. split; [done|]. split; [done|]. rewrite E. exists v. split; [done|]. split; [right; split; [done|]; by exists c|done]. Qed.
End opspec.

Ltac nocalls := first [done | cbn; lia | let c := fresh in let H := fresh in intros c H; cbn in H; by apply elem_of_nil in H].
Ltac prs := let q := fresh "q" in let Hq := fresh "Hq" in intros q Hq; cbn [refs] in Hq;
  repeat (first [by apply elem_of_nil in Hq | apply elem_of_cons in Hq as [->|Hq]; [done|]]).
Section opspec2.
  Context {K V : Type} {Keq : EqDecision K} (cfg : config K) (nthr nsh me opid : nat) (o : op K V).
  Notation core := (core K V). Notation ghost := (@ghost K). Notation event := (event K).
  Notation world := (@world K V). Notation rghost := (@rghost K V). Notation prog := (prog K V).
  Notation Inv := (Inv cfg). Notation WI := (WI cfg nthr nsh).
  Notation fr := (fr cfg nthr nsh me opid). Notation fx := (fx cfg nthr nsh me opid). Notation mv := (mv cfg nthr nsh me).
  Notation wext := (wext cfg nthr nsh me opid). Notation wgrd := (wgrd me opid).
  Notation ix := (ix cfg). Notation passes := (passes cfg). Notation visited := (visited cfg).
  Notation TI := (TI cfg nthr nsh me opid o). Notation WP := (WP cfg nthr nsh me opid o).
  Notation hok := (hok me). Notation psd := (psd cfg). Notation pro := (pro me). Notation visw := (visw cfg).
  Notation hk2 := (hk2 cfg). Notation own := (own me). Notation clean := (clean opid). Notation npub := (npub opid).
  Notation didw := (didw opid). Notation fq := (fq cfg nthr nsh me opid). Notation lkw := (lkw me). Notation lk1 := (lk1 me).
  Notation exw := (exw cfg). Notation owr := (owr me). Notation dnr := (dnr me). Notation passw := (passw cfg).
  Implicit Types w : world.
  Notation lg w := (length (g_log (wg w))).


  Notation hpo w := (k_hp (wc w)). Notation itok := (itok cfg nthr nsh me). Notation itsok := (itsok cfg nthr nsh me).
  Notation opost := (opost cfg nthr nsh me opid o).

  Lemma op_get k w its gs : o = OGet k → TI w → clean w → own w None 0 →
    WP (op_prog cfg o its) (λ r w', mv w w' ∧ opost w' (lg w) its gs r) w.
  Proof.
    intros Eo T0 C O. assert (Ek : key_of o = Some k) by (by rewrite Eo).
    pose proof (mv_refl cfg nthr nsh me w) as MV. 
    assert (G : WP (r ← get cfg k; Ret (PGet r)) (λ r w', mv w w' ∧ opost w' (lg w) its gs r) w); [|by rewrite Eo in G |- *].
    apply WP_bind. eapply (s_get _ _ _ _ _ _ k (lg w)); [done| |].
    - intros w1 E1 T1 W. clear T0. tr E1. apply WP_ret. intros w2 E2 T2. tr E2. split; [done|]. eapply (post_rd _ _ _ _ _ _ _ _ _ _ k _ _ None); try done.
      + by rewrite Eo.
      + by rewrite Eo.
      + nocalls.
      + nocalls.
      + prs.
    - intros w1 p v E1 T1 W HP PR. clear T0. tr E1. apply WP_ret. intros w2 E2 T2. tr E2. split; [done|].
      eapply (post_rd _ _ _ _ _ _ _ _ _ _ k _ _ (Some p)); try done.
      + rewrite Eo. cbn. by erewrite rd_pro.
      + rewrite Eo. by rewrite (valp_hp _ _ _ HP).
      + nocalls.
      + nocalls.
      + prs.
  Qed.

End opspec2.

Section opspec3.
  Context {K V : Type} {Keq : EqDecision K} (cfg : config K) (nthr nsh me opid : nat).
  Notation core := (core K V). Notation ghost := (@ghost K). Notation event := (event K).
  Notation world := (@world K V). Notation rghost := (@rghost K V). Notation prog := (prog K V).
  Notation Inv := (Inv cfg). Notation WI := (WI cfg nthr nsh). Notation mv := (mv cfg nthr nsh me).
  Notation TI := (TI cfg nthr nsh me opid). Notation WP := (WP cfg nthr nsh me opid).
  Notation own := (own me). Notation clean := (clean opid). Notation npub := (npub opid).
  Notation lg w := (length (g_log (wg w))).
  Notation hpo w := (k_hp (wc w)). Notation itok := (itok cfg nthr nsh me). Notation itsok := (itsok cfg nthr nsh me).
  Notation opost := (opost cfg nthr nsh me opid).
  Notation goal o its gs w := (WP o (op_prog cfg o its) (λ r w', mv w w' ∧ opost o w' (lg w) its gs r) w).
  Implicit Types w : world.

  Ltac vals := repeat (match goal with H : hpw ?w ?p ?kv |- context [valp (k_hp (wc ?w)) (Some ?p)] => rewrite (valp_hp _ _ _ H); cbn [snd] end).
  Ltac fin_ev k := eapply (post_ev _ _ _ _ _ _ _ _ _ _ k);
    [done|done|cbn; repeat (erewrite rd_pro by done); done|done|done|cbn [seq_op ev_old ev_new]; vals; try done|nocalls|nocalls|done|prs].
  Ltac fin_rd k c := eapply (post_rd _ _ _ _ _ _ _ _ _ _ k _ _ c);
    [done|done|cbn; repeat (erewrite rd_pro by done); done|done|done|cbn [seq_op]; vals; try done|nocalls|nocalls|done|prs].

  Lemma op_insert k v w its gs : TI (OInsert k v) w → clean w → own w None 0 → goal (OInsert k v) its gs w.
  Proof.
    intros T0 C O. pose proof (mv_refl cfg nthr nsh me w) as MV. cbn [op_prog]. apply WP_bind.
    eapply (s_insert _ _ _ _ _ _ k v true (lg w)); [done|done|done|by cbn|by cbn|].
    clear T0 C O. intros r w1 M1 T1 R. tr M1. destruct r; cbn in R.
    - destruct R as (O & HP & PR & D). apply WP_ret. intros w2 E2 T2. tr E2. split; [done|]. fin_ev k.
    - destruct R as (_ & O & v1 & n & HP & PR & HN & D). apply WP_ret. intros w2 E2 T2. tr E2. split; [done|]. fin_ev k.
    - by destruct R as [? _].
  Qed.
  Lemma op_try_insert k v w its gs : TI (OTryInsert k v) w → clean w → own w None 0 → goal (OTryInsert k v) its gs w.
  Proof.
    intros T0 C O. pose proof (mv_refl cfg nthr nsh me w) as MV. cbn [op_prog]. apply WP_bind.
    eapply (s_insert _ _ _ _ _ _ k v false (lg w)); [done|done|done|by cbn|by cbn|].
    clear T0 C O. intros r w1 M1 T1 R. tr M1. destruct r; cbn in R.
    - destruct R as (O & HP & PR & D). apply WP_ret. intros w2 E2 T2. tr E2. split; [done|]. fin_ev k.
    - by destruct R as [? _].
    - destruct R as (_ & O & C & W & PR & v1 & HP). apply WP_ret. intros w2 E2 T2. tr E2. split; [done|]. fin_rd k (Some cur).
  Qed.
  Lemma op_remove_if k f w its gs : TI (ORemoveIf k f) w → clean w → own w None 0 → goal (ORemoveIf k f) its gs w.
  Proof.
    intros T0 C O. pose proof (mv_refl cfg nthr nsh me w) as MV. cbn [op_prog]. apply WP_bind.
    eapply (s_remove_if _ _ _ _ _ _ k f (lg w)); [done|done|done| |].
    { intros h p v Hp Hf. cbn. split; [done|]. split; [done|]. exists k, v. by rewrite Hp. }
    clear T0 C O. intros r w1 M1 T1 R. tr M1. destruct r; cbn in R.
    - destruct R as (O & PR & D & v & HP & Ef). apply WP_ret. intros w2 E2 T2. tr E2. split; [done|]. fin_ev k. by rewrite Ef.
    - destruct R as (O & C & W). apply WP_ret. intros w2 E2 T2. tr E2. split; [done|]. fin_rd k (@None nat).
    - destruct R as (O & C & W & PR & v & HP & Ef). apply WP_ret. intros w2 E2 T2. tr E2. split; [done|]. fin_rd k (Some p). by rewrite Ef.
  Qed.
  Lemma op_remove k w its gs : TI (ORemove k) w → clean w → own w None 0 → goal (ORemove k) its gs w.
  Proof.
    intros T0 C O. pose proof (mv_refl cfg nthr nsh me w) as MV. cbn [op_prog]. apply WP_bind.
    eapply (s_remove_if _ _ _ _ _ _ k _ (lg w)); [done|done|done| |].
    { intros h p v Hp Hf. cbn. eauto. }
    clear T0 C O. intros r w1 M1 T1 R. tr M1. destruct r; cbn in R.
    - destruct R as (O & PR & D & v & HP & Ef). apply WP_ret. intros w2 E2 T2. tr E2. split; [done|]. fin_ev k.
    - destruct R as (O & C & W). apply WP_ret. intros w2 E2 T2. tr E2. split; [done|]. fin_rd k (@None nat).
    - by destruct R as (O & C & W & PR & v & HP & Ef).
  Qed.

  Ltac cfin_ev k CO := eapply (post_ev _ _ _ _ _ _ _ _ _ _ k);
    [done|done|cbn; repeat (erewrite rd_pro by done); done|done|done|cbn [seq_op ev_old ev_new]; vals|apply CO|apply CO|done|prs].
  Ltac cfin_rd k c CO := eapply (post_rd _ _ _ _ _ _ _ _ _ _ k _ _ c);
    [done|done|cbn; repeat (erewrite rd_pro by done); done|done|done|cbn [seq_op]; vals|apply CO|apply CO|done|prs].
  Lemma op_compute k f w its gs : TI (OCompute k f) w → clean w → own w None 0 → goal (OCompute k f) its gs w.
  Proof.
    intros T0 C O. pose proof (mv_refl cfg nthr nsh me w) as MV. cbn [op_prog]. apply WP_bind.
    eapply (s_compute _ _ _ _ _ _ f k); [ | | | | |done|done|done|].
    { intros h n v Ef Hn. cbn. split; [done|]. rewrite Ef. rewrite Hn. eauto. }
    { intros h p v1 n v Ef Hp Hn. cbn. split; [done|]. rewrite Hp, Ef, Hn. eauto. }
    { intros h p v1 Ef Hp. cbn. split; [done|]. rewrite Hp, Ef. eauto. }
    { intros Ef. cbn. eauto. }
    { intros x Ef. cbn. eauto. }
    clear T0 C O. intros [r cs] w1 M1 T1 R. tr M1. apply WP_ret. intros w2 E2 T2. apply (cpost_wext _ _ _ _ _ _ _ _ _ _ _ _ E2) in R.
    destruct R as [[O R] CO]. cbn [fst snd] in *. tr E2. split; [done|].
    destruct r as [p|p n|p|[p|]].
    - destruct R as (PR & D & v & HP & Ef). cfin_ev k CO. cbn. by rewrite Ef.
    - destruct R as (PR & PN & D & v1 & v & HP & HN & Ef). cfin_ev k CO. cbn. by rewrite Ef.
    - destruct R as (PR & D & v & HP & Ef). cfin_ev k CO. cbn. by rewrite Ef.
    - destruct R as (C & W & PR & v & HP & Ef). cfin_rd k (Some p) CO. cbn. by rewrite Ef.
    - destruct R as (C & W & Ef). cfin_rd k (@None nat) CO. cbn. by rewrite Ef.
  Qed.
  Lemma op_try_insert_with k v w its gs : TI (OTryInsertWith k v) w → clean w → own w None 0 → goal (OTryInsertWith k v) its gs w.
  Proof.
    intros T0 C O. pose proof (mv_refl cfg nthr nsh me w) as MV. cbn [op_prog]. apply WP_bind.
    eapply (s_compute _ _ _ _ _ _ (f_try_insert v) k); [ | | | | |done|done|done|].
    { intros h n v' [= <-] Hn. cbn. rewrite Hn. eauto. }
    { done. } { done. } { done. } { by intros []. }
    clear T0 C O. intros [r cs] w1 M1 T1 R. tr M1. cbn [fst snd].
    destruct r as [p|p n|p|[p|]].
    - apply WP_ret. intros w2 E2 T2. apply (cpost_wext _ _ _ _ _ _ _ _ _ _ _ _ E2) in R. destruct R as [[O R] CO]. cbn [fst snd] in *. tr E2. split; [done|].
      destruct R as (PR & D & v' & HP & [= <-]). cfin_ev k CO. done.
    - destruct R as [[_ R] _]. by destruct R as (_ & _ & _ & ? & ? & _ & _ & ?).
    - destruct R as [[_ R] _]. by destruct R as (_ & _ & ? & _ & ?).
    - apply WP_ret. intros w2 E2 T2. apply (cpost_wext _ _ _ _ _ _ _ _ _ _ _ _ E2) in R. destruct R as [[O R] CO]. cbn [fst snd] in *. tr E2. split; [done|].
      destruct R as (C & W & PR & v' & HP & _). cfin_rd k (Some p) CO. done.
    - destruct R as [[_ R] _]. by destruct R as (_ & _ & ?).
  Qed.
  Lemma op_update k g w its gs : TI (OUpdate k g) w → clean w → own w None 0 → goal (OUpdate k g) its gs w.
  Proof.
    intros T0 C O. pose proof (mv_refl cfg nthr nsh me w) as MV. cbn [op_prog]. apply WP_bind.
    eapply (s_compute _ _ _ _ _ _ (f_update g) k); [ | | | | |done|done|done|].
    { done. }
    { intros h p v1 n v [= <-] Hp Hn. cbn. rewrite Hp, Hn. cbn. split; [done|]. eauto. }
    { done. } { done. } { by intros []. }
    clear T0 C O. intros [r cs] w1 M1 T1 R. tr M1. cbn [fst snd].
    destruct r as [p|p n|p|[p|]].
    - destruct R as [[_ R] _]. by destruct R as (_ & _ & ? & _ & ?).
    - apply WP_ret. intros w2 E2 T2. apply (cpost_wext _ _ _ _ _ _ _ _ _ _ _ _ E2) in R. destruct R as [[O R] CO]. cbn [fst snd] in *. tr E2. split; [done|].
      destruct R as (PR & PN & D & v1 & v' & HP & HN & [= <-]). cfin_ev k CO. done.
    - destruct R as [[_ R] _]. by destruct R as (_ & _ & ? & _ & ?).
    - destruct R as [[_ R] _]. by destruct R as (_ & _ & _ & ? & _ & ?).
    - apply WP_ret. intros w2 E2 T2. apply (cpost_wext _ _ _ _ _ _ _ _ _ _ _ _ E2) in R. destruct R as [[O R] CO]. cbn [fst snd] in *. tr E2. split; [done|].
      destruct R as (C & W & _). cfin_rd k (@None nat) CO. done.
  Qed.
  Lemma op_update_or_insert k g v w its gs : TI (OUpdateOrInsert k g v) w → clean w → own w None 0 → goal (OUpdateOrInsert k g v) its gs w.
  Proof.
    intros T0 C O. pose proof (mv_refl cfg nthr nsh me w) as MV. cbn [op_prog]. apply WP_bind.
    eapply (s_compute _ _ _ _ _ _ (f_update_or_insert g v) k); [ | | | | |done|done|done|].
    { intros h n v' [= <-] Hn. cbn. rewrite Hn. eauto. }
    { intros h p v1 n v' [= <-] Hp Hn. cbn. rewrite Hp, Hn. cbn. split; [done|]. eauto. }
    { done. } { done. } { by intros []. }
    clear T0 C O. intros [r cs] w1 M1 T1 R. tr M1. cbn [fst snd].
    destruct r as [p|p n|p|[p|]].
    - apply WP_ret. intros w2 E2 T2. apply (cpost_wext _ _ _ _ _ _ _ _ _ _ _ _ E2) in R. destruct R as [[O R] CO]. cbn [fst snd] in *. tr E2. split; [done|].
      destruct R as (PR & D & v' & HP & [= <-]). cfin_ev k CO. done.
    - apply WP_ret. intros w2 E2 T2. apply (cpost_wext _ _ _ _ _ _ _ _ _ _ _ _ E2) in R. destruct R as [[O R] CO]. cbn [fst snd] in *. tr E2. split; [done|].
      destruct R as (PR & PN & D & v1 & v' & HP & HN & [= <-]). cfin_ev k CO. done.
    - destruct R as [[_ R] _]. by destruct R as (_ & _ & ? & _ & ?).
    - destruct R as [[_ R] _]. by destruct R as (_ & _ & _ & ? & _ & ?).
    - destruct R as [[_ R] _]. by destruct R as (_ & _ & ?).
  Qed.

  Lemma clean_npub w : clean w → npub w.
  Proof. intros [_ H]. exact H. Qed.
  Lemma op_clear w its gs : TI OClear w → clean w → own w None 0 → goal OClear its gs w.
  Proof.
    intros T0 C O. cbn [op_prog]. apply WP_bind. pose proof (clean_npub _ C) as N.
    eapply (s_clear _ _ _ _ _ OClear None); [done| |done|done|done|].
    { intros h p k v Hp _. cbn. eauto. }
    intros w1 M1 T1 N1 O1 OK. apply WP_ret. intros w2 E2 T2. pose proof (wext_mv _ _ _ _ _ _ _ E2) as M2.
    assert (OK2 : ∀ k, okw (rejf None) (lg w) k w2) by (intros k; by eapply st_okw). clear OK M2 N O T0 C.
    tr E2. split; [done|]. split; [done|]. split; [prs|]. cbn [key_of]. split; [done|]. split; [done|]. exact OK2.
  Qed.
  Lemma op_retain f w its gs : TI (ORetain f) w → clean w → own w None 0 → goal (ORetain f) its gs w.
  Proof.
    intros T0 C O. cbn [op_prog]. apply WP_bind. pose proof (clean_npub _ C) as N.
    eapply (s_clear _ _ _ _ _ (ORetain f) (Some f)); [done| |done|done|done|].
    { intros h p k v Hp E. cbn in *. split; [done|]. exists k, v. rewrite Hp. split; [done|]. by destruct (f k v). }
    intros w1 M1 T1 N1 O1 OK. apply WP_ret. intros w2 E2 T2. pose proof (wext_mv _ _ _ _ _ _ _ E2) as M2.
    assert (OK2 : ∀ k, okw (rejf (Some f)) (lg w) k w2) by (intros k; by eapply st_okw). clear OK M2 N O T0 C.
    tr E2. split; [done|]. split; [done|]. split; [prs|]. cbn [key_of]. split; [done|]. split; [done|]. exact OK2.
  Qed.
  Lemma op_reserve n w its gs : TI (OReserve n) w → clean w → own w None 0 → goal (OReserve n) its gs w.
  Proof.
    intros T0 C O. cbn [op_prog]. apply WP_bind. eapply (s_reserve _ _ _ _ _ _); [done|done|by apply clean_qtw|].
    intros w1 F1 T1. clear T0. pose proof (mv_refl cfg nthr nsh me w) as MV. tr F1. apply WP_ret. intros w2 E2 T2. tr E2. split; [done|]. split; [done|]. split; [prs|]. cbn. done.
  Qed.
  Lemma op_len w its gs : TI OLen w → clean w → own w None 0 → goal OLen its gs w.
  Proof.
    intros T0 C O. cbn [op_prog]. apply WP_bind. apply s_map_len.
    intros n w1 F1 T1. clear T0. pose proof (mv_refl cfg nthr nsh me w) as MV. tr F1. apply WP_ret. intros w2 E2 T2. tr E2. split; [done|]. split; [done|]. split; [prs|]. cbn. eauto.
  Qed.
  Lemma op_iter w its gs : TI OIter w → clean w → own w None 0 → goal OIter its gs w.
  Proof.
    intros T0 C O. cbn [op_prog]. apply WP_bind. eapply (s_iter _ _ _ _ _ _); [done|done|by apply clean_qtw|].
    intros r w1 F1 T1 R. pose proof (ti_wi _ _ _ _ _ _ _ T0) as W0. clear T0.
    assert (IT : itok w1 (lg w) (r, 0) []).
    { unfold IncOp.itok. cbn [fst snd]. destruct r as [tb|].
      - destruct R as (w2 & M2 & W2 & H2 & ON & M2'). exists w2. split_and!; auto.
        + by eapply st_hok.
        + cbn. lia.
        + intros j k L. lia.
        + intros k Hk. by apply elem_of_nil in Hk.
      - destruct R as (w2 & M2 & W2 & M2' & Er). split; [done|]. intros k. eapply st_wit; [exact M2'|].
        exists (lg w2). split; [|split; [done|]].
        + destruct (mv_ext _ _ _ _ _ _ M2) as [<-|(_ & j & X)]; [done|]. apply prefix_length, X.
        + rewrite rp_all by done. by apply (absent_noroot cfg (wc w2)); [apply W2|]. }
    clear R W0. pose proof (mv_refl cfg nthr nsh me w) as MV. 
    pose proof (fr_own _ _ _ _ _ _ _ _ _ F1 O) as O1. pose proof (fr_clean _ _ _ _ _ _ _ F1 C) as C1.
    assert (MV1 : mv w w1) by (by eapply fr_mv). clear O C F1 MV. apply WP_ret. intros w2 E2 T2.
    assert (IT2 : itok w2 (lg w) (r, 0) []) by (eapply st_itok; [by eapply wext_mv|done]). clear IT.
    tr E2. split; [done|]. split; [done|]. split; [prs|]. cbn. eauto.
  Qed.
  Lemma op_iter_next j w its gs : TI (OIterNext j) w → clean w → own w None 0 → itsok w its gs → goal (OIterNext j) its gs w.
  Proof.
    intros T0 C O [Lg IT]. pose proof (mv_refl cfg nthr nsh me w) as MV. cbn [op_prog].
    destruct (its !! j) as [[[tb|] i]|] eqn:Ej.
    - assert (L : j < length gs) by (rewrite Lg; by eapply lookup_lt_Some). apply lookup_lt_is_Some in L as [[n1 Y] Eg].
      destruct (IT _ _ _ Ej Eg) as (w1 & W1 & ON & H1 & M1 & H & Li & CV & YN). cbn [fst snd] in *. clear IT.
      apply WP_bind. eapply (s_iter_next _ _ _ _ _ _ w1 n1 tb _ i Y); [done|done|done|lia|done|done|done|].
      intros i' r w2 E2 T2 (I1 & I2 & R). pose proof (mv_trans _ _ _ _ _ _ _ M1 (wext_mv _ _ _ _ _ _ _ E2)) as M2.
      clear CV YN M1 T0. pose proof (mv_refl cfg nthr nsh me w2) as M22. tr E2.
      destruct r as [p|].
      + destruct R as (k & v & W & HP & PR & DUP & CV & YN). apply WP_ret. intros w3 E3 T3. 
        assert (DUP3 : k ∈ Y → gapw w3 n1 k) by (intros Hk; exact (st_gapw _ _ _ _ _ _ _ _ (wext_mv _ _ _ _ _ _ _ E3) (DUP Hk))). clear DUP.
        tr E3. split; [done|]. split; [done|]. split; [prs|]. cbn [key_of]. split; [done|]. exists i', (Some p). split; [done|]. rewrite Ej, Eg. cbn [fst].
        exists k, v. split_and!; auto. exists w1. split_and!; auto.
      + destruct R as (Ei & CV & YN). apply WP_ret. intros w3 E3 T3. tr E3. split; [done|]. split; [done|]. split; [prs|]. cbn [key_of]. split; [done|].
        exists i', None. split; [done|]. rewrite Ej, Eg. cbn [fst]. split; [exists w1; split_and!; auto|].
        intros k. destruct (cover _ _ _ _ _ _ k W1 ON) as [(i0 & Li0 & Tk)|X]; [|right; by eapply st_wit].
        apply (CV i0 k); [|done]. rewrite Ei. destruct H1 as [(_ & X & _) _]. unfold lnc in *. unfold th_len. lia.
    - assert (L : j < length gs) by (rewrite Lg; by eapply lookup_lt_Some). apply lookup_lt_is_Some in L as [[n1 Y] Eg].
      destruct (IT _ _ _ Ej Eg) as [EY W]. cbn [fst snd] in *. clear IT. apply WP_ret. intros w2 E2 T2.
      assert (W2 : ∀ k, wit w2 n1 k None) by (intros k; eapply st_wit; [by eapply wext_mv|done]). clear W T0.
      tr E2. split; [done|]. split; [done|]. split; [prs|]. cbn [key_of]. split; [done|]. exists 0, None. split; [done|]. rewrite Ej, Eg. split; [by split|auto].
    - clear IT T0. apply WP_ret. intros w2 E2 T2. tr E2. split; [done|]. split; [done|]. split; [prs|]. cbn [key_of]. split; [done|]. exists 0, None. split; [done|]. by rewrite Ej.
  Qed.

  Lemma op_spec o w its gs : TI o w → clean w → own w None 0 → itsok w its gs → goal o its gs w.
  Proof.
    intros T C O IT. destruct o; [by eapply op_get|by apply op_insert|by apply op_try_insert|by apply op_remove|by apply op_remove_if|by apply op_compute
      |by apply op_try_insert_with|by apply op_update|by apply op_update_or_insert|by apply op_clear|by apply op_retain|by apply op_reserve|by apply op_len
      |by apply op_iter|by apply op_iter_next].
  Qed.
End opspec3.
