(** Behaviours of the code that contradict what a user may expect: properties of the list that do not hold
    unconditionally. Each is witnessed by a reachable execution of the model. *)
From Verif Require Export Machine Spec Props.

Definition runs (i n : nat) : list (choice nat nat) := replicate n (CRun i false).
Definition full (i : nat) (o : op nat nat) := CInvoke i o :: runs i 400.

(** ** C19: a map built with a capacity that is not a power of two can panic inside an ordinary insert.
    [with_capacity(5)] allocates 8 slots but records initial_capacity = 5 (mod.rs:216-246). After eight insert/remove
    cycles the table is full of tombstones; the resize asks for max(5, 8/2) = 5 slots (mod.rs:1951-1960) and the
    allocation asserts a power of two (alloc.rs:60). *)
Definition cfg5 := mk_config (K:=nat) N.of_nat (Incremental 64) 5 2 1 1.
Definition cycle5 (k : nat) := full 0 (OInsert k k) ++ full 0 (ORemove k).
Definition s19 := CPin 0 :: concat (map cycle5 [0;1;2;3;4;5;6;7]) ++ full 0 (OInsert 8 8).
Theorem C19_non_power_of_two_capacity_refuted :
  ∃ (sched : list (choice nat nat)) c h id,
    exec cfg5 (init_conf 5 2 1) sched = Some c ∧ mc_hist c !! h = Some (HPanic 0 id (OInsert 8 8) PAllocPow2).
Proof.
  exists s19. destruct (exec cfg5 (init_conf 5 2 1) s19) as [c|] eqn:E; [|by vm_compute in E].
  exists c, 34, 16. split; [reflexivity|].
  assert (X : (match exec cfg5 (init_conf 5 2 1) s19 with Some c => mc_hist c !! 34 | None => None end) = Some (HPanic 0 16 (OInsert 8 8) PAllocPow2)) by by vm_compute.
  by rewrite E in X.
Qed.

(** ... and the map stays broken: the allocation lock is poisoned, so an insert of another thread panics too (mod.rs:1924). *)
Definition s19b := CPin 1 :: s19 ++ full 1 (OInsert 9 9).
Theorem C19_poisoned_lock_refuted :
  ∃ (sched : list (choice nat nat)) c h id,
    exec cfg5 (init_conf 5 2 2) sched = Some c ∧ mc_hist c !! h = Some (HPanic 1 id (OInsert 9 9) PPoison).
Proof.
  exists s19b. destruct (exec cfg5 (init_conf 5 2 2) s19b) as [c|] eqn:E; [|by vm_compute in E].
  exists c, 37, 17. split; [reflexivity|].
  assert (X : (match exec cfg5 (init_conf 5 2 2) s19b with Some c => mc_hist c !! 37 | None => None end) = Some (HPanic 1 17 (OInsert 9 9) PPoison)) by by vm_compute.
  by rewrite E in X.
Qed.

(** ** C36: an iterator can yield a key twice: the key is yielded, removed, and inserted again into a later slot. *)
Definition cfgi := mk_config (K:=nat) N.of_nat (Incremental 64) 0 2 1 1.
Definition s36 := CPin 0 :: full 0 (OInsert 1 10) ++ full 0 OIter ++ full 0 (OIterNext 0) ++ full 0 (ORemove 1) ++ full 0 (OInsert 1 11) ++ full 0 (OIterNext 0).
Theorem C36_duplicate_key_refuted :
  ∃ (sched : list (choice nat nat)) c i j h0 h h',
    exec cfgi (init_conf 0 2 1) sched = Some c ∧ h ≠ h' ∧ yields (mc_hist c) i j h0 h 1 10 ∧ yields (mc_hist c) i j h0 h' 1 11.
Proof.
  exists s36. destruct (exec cfgi (init_conf 0 2 1) s36) as [c|] eqn:E; [|by vm_compute in E].
  assert (X : mc_hist c = match exec cfgi (init_conf 0 2 1) s36 with Some c => mc_hist c | None => [] end) by by rewrite E.
  exists c, 0, 0, 3, 6, 12. split; [reflexivity|]. clear E. split; [done|]. revert X. generalize (mc_hist c). intros Hc X. vm_compute in X. subst Hc. split; eexists _, _; (split; vm_compute; reflexivity).
Qed.

(** ** C34: with [ResizeMode::Incremental(0)] every helper claims an empty chunk, so a resize never completes, and any
    call that waits for the copy to complete (iter, clear, retain, reserve) spins forever once a resize has started.

    General statement: in every state where the root table has a next table that is not fully copied nor fully
    claimed, [iter] run alone never returns, however long it runs. *)
Section zero.
  Context {K V : Type} {Keq : EqDecision K} (cfg : config K).
  Context (H0 : c_mode cfg = Incremental 0).
  Definition resizing (σ : state K V) : Prop :=
    ∃ t t' tb tb', root σ = Some t ∧ tables σ !! t = Some tb ∧ tables σ !! t' = Some tb' ∧ t_next tb = Some t' ∧
      t_freed tb = false ∧ t_freed tb' = false ∧ t_claim tb' < t_len tb ∧ t_copied tb' ≠ t_len tb ∧ 0 < t_len tb.

  (** One thread running alone, with any oracle bits. *)
  Definition alone (i : nat) (bs : list bool) : list (choice K V) := map (CRun i) bs.

  Section run.
    Context (σ : state K V) (i id n : nat) (o : op K V) (its : list iterst) (thr : list (tstate K V)) (H : list (hevent K V)) (Hi : i < length thr).
    Definition C (p : prog K V (pres K V)) : mconf K V := MConf σ (set_thr i (TState (Some (id, o, p)) its false) thr) H n.
    Lemma step_act {X} (f : action K V X) k b x : f i b σ = Ok x σ → mstep cfg (C (Act f k)) (CRun i b) = SStep (C (k x)).
    Proof.
      intros E. unfold mstep, C, set_thr. cbn [mc_thr mc_st mc_hist mc_nop]. rewrite list_lookup_insert by done. cbv iota beta. rewrite E.
      by rewrite list_insert_insert.
    Qed.
    Lemma step_loop {S B} (body : S → prog K V (S + B)) s k b :
      mstep cfg (C (Loop body s k)) (CRun i b) = SStep (C (bind (body s) (λ r, match r with inl s' => Loop body s' k | inr x => k x end))).
    Proof.
      unfold mstep, C, set_thr. cbn [mc_thr mc_st mc_hist mc_nop]. rewrite list_lookup_insert by done. cbv iota beta. by rewrite list_insert_insert.
    Qed.
    Definition stays (p : prog K V (pres K V)) : Prop := ∀ bs, ∃ p', exec cfg (C p) (alone i bs) = Some (C p').
    Lemma stays_step p p' : (∀ b, mstep cfg (C p) (CRun i b) = SStep (C p')) → stays p' → stays p.
    Proof. intros E S bs. destruct bs as [|b bs]; [by exists p|]. cbn [alone map exec]. rewrite E. apply S. Qed.

    Context (t t' : nat) (tb tb' : table) (Hr : root σ = Some t) (Ht : tables σ !! t = Some tb) (Ht' : tables σ !! t' = Some tb') (Hn : t_next tb = Some t')
      (Hf : t_freed tb = false) (Hf' : t_freed tb' = false) (Hc : t_claim tb' < t_len tb) (Hd : t_copied tb' ≠ t_len tb) (Hl : 0 < t_len tb).
    Lemma thl : th_len (handle t tb) = t_len tb. Proof. unfold th_len, handle. cbn [th_mask]. lia. Qed.
    Lemma ld_root b : a_root i b σ = Ok (Some (handle t tb)) σ.
    Proof. unfold a_root, with_table. by rewrite Hr, Ht, Hf. Qed.
    Lemma ld_next b : a_next (handle t tb) i b σ = Ok (Some (handle t' tb')) σ.
    Proof. unfold a_next, with_table. cbn [th handle]. by rewrite Ht, Hf, Hn, Ht', Hf'. Qed.
    Lemma ld_copied b : a_load_copied (handle t' tb') i b σ = Ok (t_copied tb') σ.
    Proof. unfold a_load_copied, with_table. cbn [th handle]. by rewrite Ht', Hf'. Qed.
    Lemma ld_claim b : a_load_claim (handle t' tb') i b σ = Ok (t_claim tb') σ.
    Proof. unfold a_load_claim, with_table. cbn [th handle]. by rewrite Ht', Hf'. Qed.
    Lemma add_claim b : a_add_claim (handle t' tb') 0 i b σ = Ok (t_claim tb') σ.
    Proof.
      unfold a_add_claim, with_table. cbn [th handle]. rewrite Ht', Hf'. f_equal. rewrite Nat.add_0_r. unfold upd_table, set_tables.
      assert (E : t_set_claim (t_claim tb') tb' = tb') by by destruct tb'. rewrite E. rewrite list_insert_id by done. by destruct σ.
    Qed.
    Ltac loads := intros b; cbn [bind act loop]; first [apply step_act; eauto using ld_root, ld_next, ld_copied, ld_claim, add_claim|apply step_loop].
    Ltac one := eapply stays_step; [loads|]; cbn beta iota.

    Lemma stays_inner (k : bool → prog K V (pres K V)) :
      stays (Loop (λ _ : unit,
                (c ← act (a_load_claim (handle t' tb'));
                 if th_len (handle t tb) <=? c then Ret (inr false) else
                 (start ← act (a_add_claim (handle t' tb') 0);
                  copied ← copy_chunk_incremental cfg 0 start (handle t tb) (handle t' tb') 0;
                  ok ← try_promote (handle t tb) (handle t' tb') copied;
                  if (ok : bool) || negb true then Ret (inr true) else Ret (inl tt)))) tt k).
    Proof.
      intros bs. remember (length bs) as m eqn:Em. assert (Lm : length bs ≤ m) by lia. clear Em. revert bs Lm.
      induction m as [m IH] using lt_wf_ind. intros bs Lm.
      destruct bs as [|b bs]; [by eexists|]. cbn [alone map exec]. rewrite step_loop. cbn [bind act].
      destruct bs as [|b1 bs]; [by eexists|]. cbn [map exec]. rewrite (step_act _ _ b1 _ (ld_claim b1)).
      assert (EL : (th_len (handle t tb) <=? t_claim tb') = false) by (rewrite thl; apply Nat.leb_gt; lia). rewrite EL. cbn [bind act].
      destruct bs as [|b2 bs]; [by eexists|]. cbn [map exec]. rewrite (step_act _ _ b2 _ (add_claim b2)). cbn [bind act copy_chunk_incremental].
      unfold try_promote at 1. cbn [Nat.ltb Nat.leb]. cbn [bind act].
      destruct bs as [|b3 bs]; [by eexists|]. cbn [map exec]. rewrite (step_act _ _ b3 _ (ld_copied b3)). cbn [bind].
      assert (EQ : (t_copied tb' =? th_len (handle t tb)) = false) by (rewrite thl; apply Nat.eqb_neq; lia). rewrite EQ. cbn [bind orb negb].
      cbn [length] in Lm. apply (IH (length bs)); lia.
    Qed.
    Lemma stays_iter : stays (op_prog cfg OIter its).
    Proof.
      cbn [op_prog]. unfold iter. one. unfold linearize, incremental. rewrite H0. one. one. unfold help_copy. rewrite H0. unfold help_copy_incremental.
      one. one. one. unfold try_promote. cbn [Nat.ltb Nat.leb]. one.
      assert (EQ : (t_copied tb' =? th_len (handle t tb)) = false) by (rewrite thl; apply Nat.eqb_neq; lia). rewrite EQ. cbn [bind orb negb act loop].
      eapply stays_inner.
    Qed.
  End run.

  Theorem C34_zero_chunk_iter_never_returns_refuted (σ : state K V) (thr : list (tstate K V)) (H : list (hevent K V)) n i its :
    resizing σ → thr !! i = Some (ts_idle its) → i ∈ pins σ →
    ∀ bs, ∃ c, exec cfg (MConf σ thr H n) (CInvoke i OIter :: alone i bs) = Some c ∧ mc_hist c = H ++ [HInv i n OIter].
  Proof.
    intros (t & t' & tb & tb' & Hr & Ht & Ht' & Hn & Hf & Hf' & Hc & Hd & Hl) Ei Hp bs. cbn [exec mstep mc_thr mc_st mc_hist mc_nop]. rewrite Ei. unfold ts_idle.
    rewrite decide_True by done.
    destruct (stays_iter σ i n (S n) OIter its thr (H ++ [HInv i n OIter]) (lookup_lt_Some _ _ _ Ei) t t' tb tb' Hr Ht Ht' Hn Hf Hf' Hc Hd Hl bs) as [p' E].
    unfold C in E. rewrite E. by eexists.
  Qed.
End zero.

(** Such a state is reached by inserting 30 keys with equal hashes into an empty map. *)
Definition cfg0 := mk_config (K:=nat) (λ _, 0%N) (Incremental 0) 0 2 1 1.
Definition s34 := CPin 0 :: concat (map (λ k, full 0 (OInsert k k)) (seq 0 30)).
Definition resizing_b {K V} (σ : state K V) : bool :=
  match root σ with
  | Some t => match tables σ !! t with
    | Some tb => match t_next tb with
      | Some t' => match tables σ !! t' with
        | Some tb' => negb (t_freed tb) && negb (t_freed tb') && (t_claim tb' <? t_len tb) && negb (t_copied tb' =? t_len tb) && (0 <? t_len tb)
        | None => false end
      | None => false end
    | None => false end
  | None => false end.
Lemma resizing_b_ok {K V} (σ : state K V) : resizing_b σ = true → resizing σ.
Proof.
  unfold resizing_b, resizing. destruct (root σ) as [t|]; [|done]. destruct (tables σ !! t) as [tb|] eqn:E; [|done]. destruct (t_next tb) as [t'|] eqn:En; [|done].
  destruct (tables σ !! t') as [tb'|] eqn:E'; [|done]. rewrite !andb_true_iff, !negb_true_iff, Nat.eqb_neq, !Nat.ltb_lt. intros ((((?&?)&?)&?)&?).
  by exists t, t', tb, tb'.
Qed.
Theorem C34_zero_chunk_reachable_refuted :
  ∃ (sched : list (choice nat nat)) c, exec cfg0 (init_conf 0 2 1) sched = Some c ∧
    (∀ j i id o, mc_hist c !! j = Some (HInv i id o) → ∃ r v, mc_hist c !! S j = Some (HRes i id o r v)) ∧
    ∀ bs, ∃ c', exec cfg0 c (CInvoke 0 OIter :: map (CRun 0) bs) = Some c' ∧ mc_hist c' = mc_hist c ++ [HInv 0 (mc_nop c) OIter].
Proof.
  exists s34. destruct (exec cfg0 (init_conf 0 2 1) s34) as [c|] eqn:E; [|by vm_compute in E]. exists c. split; [reflexivity|]. split.
  - assert (X : mc_hist c = match exec cfg0 (init_conf 0 2 1) s34 with Some c => mc_hist c | None => [] end) by by rewrite E.
    clear E. revert X. generalize (mc_hist c). intros Hc X. vm_compute in X. subst Hc. intros j i id o.
    do 62 (destruct j as [|j]; [cbn; intros F; first [discriminate F|injection F as <- <- <-; by eexists _, _]|]). done.
  - assert (X : (match exec cfg0 (init_conf 0 2 1) s34 with
       | Some c => resizing_b (mc_st c) && (length (mc_thr c) =? 1) && forallb (λ t, match ts_run t with None => negb (ts_dead t) && (length (ts_iters t) =? 0) | _ => false end) (mc_thr c) && existsb (Nat.eqb 0) (pins (mc_st c))
       | None => false end) = true) by by vm_compute.
    rewrite E in X. clear E. rewrite !andb_true_iff in X. destruct X as (((X1 & X2) & X3) & X4). destruct c as [σ thr H n]. cbn [mc_st mc_thr mc_hist mc_nop] in *.
    destruct thr as [|ts [|]]; [done| |done]. cbn in X3. destruct ts as [rn its dd]. cbn in X3. destruct rn; [done|]. destruct dd; [done|]. destruct its; [|done].
    apply (C34_zero_chunk_iter_never_returns_refuted cfg0 eq_refl σ _ H n 0 []); [by apply resizing_b_ok|done|].
    apply existsb_exists in X4 as (x & Hx & Ex). apply Nat.eqb_eq in Ex as <-. by apply elem_of_list_In.
Qed.

(** ** C18: a lost wakeup in blocking mode. A copier that aborts a resize (the next table is too small) unparks the
    waiters registered with the parker of the table being copied (mod.rs:2064 [state.parker.unpark] of [table]), but waiters are
    registered with the parker of the next table (mod.rs:2119). Here thread 0 resizes a 512-slot table into 256 slots,
    thread 1 waits for that resize, thread 2 inserts keys meanwhile; thread 0 aborts, copies into a third table, promotes it and returns. Thread 1
    still sleeps, although nobody else is running: its insert never returns.
    The same execution shows that an aborted table is leaked (C16): see [C16_aborted_table_leaks_refuted] in Drop.v. *)
Definition chain (s : nat) := map (λ q, (s + q * (q + 1) / 2) mod 512) (seq 0 46).
Definition frees := Eval vm_compute in List.filter (λ s, negb (existsb (Nat.eqb s) (chain 0 ++ chain 256))) (seq 0 512).
Definition hb (k : nat) : N := if k <? 100 then 0%N else if k <? 200 then 256%N else N.of_nat (nth (k - 300) frees 0).
Definition cfgb := mk_config (K:=nat) hb Blocking 0 2 1 1.
Definition fulln (i n : nat) (o : op nat nat) := CInvoke i o :: runs i n.
Definition s18 := [CPin 0; CPin 1; CPin 2] ++ fulln 0 2000 (OReserve 300) ++ concat (map (λ k, full 0 (OInsert k k)) (seq 0 44))
   ++ concat (map (λ k, full 0 (OInsert k k) ++ full 0 (ORemove k)) (seq 100 46))
   ++ fulln 0 200 (OInsert 199 46) ++ fulln 1 1000 (OInsert 198 47) ++ concat (map (λ k, full 2 (OInsert k k)) (seq 300 100)) ++ runs 0 15000.
Definition idle_b (t : tstate nat nat) : bool := match ts_run t with None => negb (ts_dead t) | Some _ => false end.
Definition skips_b (c : mconf nat nat) (ch : choice nat nat) : bool := match mstep cfgb c ch with SSkip => true | _ => false end.
Definition check18 (x : option (mconf nat nat)) : bool :=
  match x with
  | Some c =>
    match mc_thr c with
    | [t0; t1; t2] => idle_b t0 && negb (idle_b t1) && negb (ts_dead t1) && idle_b t2
    | _ => false
    end && forallb (λ j, skips_b c (CRun j false)) [0;1;2] &&
    match root (mc_st c), tables (mc_st c) with Some 2, [a; b; d] => bool_decide (t_status b = ABORTED) && bool_decide (t_status d = PROMOTED) && (t_len a =? 512) && (t_len b =? 256) && (t_len d =? 512) | _, _ => false end &&
    (length (mc_hist c) =? 480) &&
    match mc_hist c !! 278 with Some (HInv i id (OInsert k v)) => (i =? 1) && (id =? 138) && (k =? 198) && (v =? 47) | _ => false end &&
    forallb (λ e, match e with HRes 1 _ _ _ _ | HPanic _ _ _ _ => false | _ => true end) (mc_hist c)
  | None => false
  end.
Lemma check18_ok : check18 (exec cfgb (init_conf 0 2 3) s18) = true. Proof. vm_cast_no_check (eq_refl true). Qed.

(** A configuration in which only thread [i] has a call in progress, and no thread can take a step any more (without
    spurious wakeups, and unless new calls are made). *)
Definition stuck {K V} {Keq : EqDecision K} (cfg : config K) (c : mconf K V) (i : nat) : Prop :=
  (∃ id o p its, mc_thr c !! i = Some (TState (Some (id, o, p)) its false)) ∧
  (∀ j ts, j ≠ i → mc_thr c !! j = Some ts → ts_run ts = None ∧ ts_dead ts = false) ∧
  ∀ j, mstep cfg c (CRun j false) = SSkip.
Lemma check18_sound x : check18 x = true → ∃ c, x = Some c ∧ stuck cfgb c 1 ∧
    mc_hist c !! 278 = Some (HInv 1 138 (OInsert 198 47)) ∧
    (∀ h id o r v, mc_hist c !! h ≠ Some (HRes 1 id o r v)) ∧ (∀ h i id o why, mc_hist c !! h ≠ Some (HPanic i id o why)) ∧
    ∀ js, exec cfgb c (map (λ j, CRun j false) js) = Some c.
Proof.
  unfold check18. destruct x as [c|]; [|discriminate]. intros X. exists c. split; [reflexivity|].
  rewrite !andb_true_iff in X. destruct X as (((((X1 & X2) & _) & _) & X3) & X4).
  assert (Hthr : ∃ t0 t1 t2, mc_thr c = [t0; t1; t2] ∧ idle_b t0 = true ∧ idle_b t1 = false ∧ ts_dead t1 = false ∧ idle_b t2 = true).
  { destruct (mc_thr c) as [|t0 [|t1 [|t2 [|]]]]; try discriminate X1. rewrite !andb_true_iff, !negb_true_iff in X1. destruct X1 as (((?&?)&?)&?). by exists t0, t1, t2. }
  destruct Hthr as (t0 & t1 & t2 & E & I0 & I1 & D1 & I2).
  assert (SK : ∀ j, mstep cfgb c (CRun j false) = SSkip).
  { intros j. rewrite forallb_forall in X2. destruct (decide (j < 3)) as [Lj|Lj].
    - assert (Y : skips_b c (CRun j false) = true) by (apply X2; destruct j as [|[|[|]]]; [by left|by right; left|by right; right; left|lia]).
      unfold skips_b in Y. by destruct (mstep cfgb c (CRun j false)).
    - unfold mstep. rewrite E. rewrite lookup_ge_None_2 by (cbn; lia). done. }
  assert (IB : ∀ t, idle_b t = true → ts_run t = None ∧ ts_dead t = false).
  { intros [r its d]. unfold idle_b. cbn. destruct r; [done|]. by destruct d. }
  split; [|split; [|split; [|split]]].
  - split; [|split; [|done]].
    + rewrite E. destruct t1 as [r its d]. unfold idle_b in I1. cbn in *. subst d. destruct r as [[[id o] p]|]; [|done]. by eexists _, _, _, _.
    + rewrite E. intros j ts Nj Ej. destruct j as [|[|[|j]]]; [| |injection Ej as <-; auto|]; [injection Ej as <-; auto|lia|done].
  - destruct (mc_hist c !! 278) as [[t id o| | | |]|]; [|discriminate X3..]. destruct o; try discriminate X3.
    rewrite !andb_true_iff, !Nat.eqb_eq in X3. by destruct X3 as (((->&->)&->)&->).
  - intros h id o r v Eh. rewrite forallb_forall in X4. specialize (X4 _ (proj1 (elem_of_list_In _ _) (elem_of_list_lookup_2 _ _ _ Eh))). discriminate X4.
  - intros h i id o why Eh. rewrite forallb_forall in X4. specialize (X4 _ (proj1 (elem_of_list_In _ _) (elem_of_list_lookup_2 _ _ _ Eh))). discriminate X4.
  - intros js. induction js as [|j js IH]; [done|]. cbn [map exec]. by rewrite SK.
Qed.
Theorem C18_lost_wakeup_refuted :
  ∃ (sched : list (choice nat nat)) c, exec cfgb (init_conf 0 2 3) sched = Some c ∧ stuck cfgb c 1 ∧
    mc_hist c !! 278 = Some (HInv 1 138 (OInsert 198 47)) ∧
    (∀ h id o r v, mc_hist c !! h ≠ Some (HRes 1 id o r v)) ∧ (∀ h i id o why, mc_hist c !! h ≠ Some (HPanic i id o why)) ∧
    ∀ js, exec cfgb c (map (λ j, CRun j false) js) = Some c.
Proof. exists s18. apply check18_sound, check18_ok. Qed.
