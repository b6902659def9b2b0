(** C58: a run of three calls, one of which resizes and one of which panics in the caller's closure. At the end no resize is under way; half way
    through the second call one is, and that call is running. *)
From Verif Require Export OweMain DropEx.

Definition ocfg := mk_config (K:=nat) N.of_nat Blocking 0 2 1 1.
Definition o_sched (n : nat) : list (choice nat nat) :=
  [CPin 1; CInvoke 1 (OCompute 7 (λ _, OpPanic))] ++ replicate 60 (CRun 1 false) ++
  [CPin 0; CInvoke 0 (OInsert 1 1)] ++ replicate 60 (CRun 0 false) ++ [CInvoke 0 (OReserve 100)] ++ replicate n (CRun 0 false).
Definition next_b (σ : state nat nat) : bool :=
  match root σ with Some t => match tables σ !! t with Some tb => bool_decide (t_next tb ≠ None) | None => false end | None => false end.
Definition check58 (r : nat) (run nxt : bool) (x : option (mconf nat nat)) : bool :=
  match x with
  | Some c => match mc_thr c with [TState r0 [] false; TState None [] true] => Bool.eqb run (match r0 with Some _ => true | None => false end) | _ => false end
      && bool_decide (root (mc_st c) = Some r) && Bool.eqb nxt (next_b (mc_st c))
  | None => false end.
Lemma check58_sound r run nxt x : check58 r run nxt x = true → ∃ c, x = Some c ∧ root (mc_st c) = Some r ∧
  (run = false → no_running c) ∧ (run = true → ∃ ts, mc_thr c !! 0 = Some ts ∧ ts_run ts ≠ None) ∧ (nxt = true → ¬ no_resize (mc_st c)).
Proof.
  unfold check58. intros X. destruct x as [c|]; [|discriminate X]. apply andb_true_iff in X as [X X3]. apply andb_true_iff in X as [X1 X2].
  exists c. apply bool_decide_eq_true in X2. split; [reflexivity|]. split; [done|].
  destruct (mc_thr c) as [|[r0 its d] l] eqn:Et; [discriminate X1|]. destruct its; [|discriminate X1]. destruct d; [discriminate X1|]. destruct l as [|[r1 its1 d1] l]; [discriminate X1|].
  destruct r1; [discriminate X1|]. destruct its1; [|discriminate X1]. destruct d1; [|discriminate X1]. destruct l; [|discriminate X1]. split; [|split].
  - intros ->. destruct r0; [discriminate X1|]. intros [|[|i]] ts E; rewrite Et in E; cbn in E; [by injection E as <-|by injection E as <-|done].
  - intros ->. destruct r0; [|discriminate X1]. eexists. split; [reflexivity|done].
  - intros ->. intros NR. unfold next_b in X3. rewrite X2 in X3. destruct (tables (mc_st c) !! r) as [tb|] eqn:E; [|discriminate X3].
    specialize (NR r tb X2 E). rewrite NR in X3. done.
Qed.
Lemma check58_mid : check58 0 true true (exec ocfg (init_conf 0 1 2) (o_sched 20)) = true. Proof. vm_cast_no_check (eq_refl true). Qed.
Lemma check58_end : check58 1 false false (exec ocfg (init_conf 0 1 2) (o_sched 100)) = true. Proof. vm_cast_no_check (eq_refl true). Qed.
Example C58_example :
  (∃ c, exec ocfg (init_conf 0 1 2) (o_sched 20) = Some c ∧ ¬ no_resize (mc_st c) ∧ ∃ ts, mc_thr c !! 0 = Some ts ∧ ts_run ts ≠ None) ∧
  (∃ c, exec ocfg (init_conf 0 1 2) (o_sched 100) = Some c ∧ root (mc_st c) = Some 1 ∧ no_running c ∧ no_resize (mc_st c) ∧ length (tables (mc_st c)) = 2).
Proof.
  destruct (check58_sound _ _ _ _ check58_mid) as (c1 & E1 & R1 & _ & B1 & D1). destruct (check58_sound _ _ _ _ check58_end) as (c2 & E2 & R2 & A2 & _).
  split; [exists c1; split; [exact E1|]; split; [by apply D1|by apply B1]|]. exists c2. split; [exact E2|]. split; [exact R2|]. pose proof (A2 eq_refl) as NR. split; [exact NR|].
  destruct (C58_no_unfinished_resize ocfg eq_refl 2 1 0 ltac:(lia) (o_sched 100) c2 E2 ltac:(right; vm_compute; lia) NR) as [H1 H2]. split; [exact H1|]. by rewrite <- (H2 1 R2).
Qed.
