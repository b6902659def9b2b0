(** C56: the run of C24 (31 keys with the same hash) meets the hypotheses; its 32nd insertion is the second case of the theorem: it
    allocates tables without bound. The other calls from there end. *)
From Verif Require Export SoloBMain LivelockEx DropEx.

Definition check56 (x : option (mconf nat nat)) : bool :=
  match x with
  | Some c => idle_all c && bool_decide (0 ∈ pins (mc_st c)) && match root (mc_st c) with Some t => match tables (mc_st c) !! t with Some tb => bool_decide (t_next tb = None) && (length (t_slots tb) =? 64) | None => false end | None => false end
    && match mc_thr c with [TState None [] false] => true | _ => false end
  | None => false end.
Lemma check56_sound x : check56 x = true → ∃ c, x = Some c ∧ all_idle c ∧ 0 ∈ pins (mc_st c) ∧ no_resize (mc_st c) ∧ mc_thr c = [ts_idle []] ∧
  ∃ t tb, root (mc_st c) = Some t ∧ tables (mc_st c) !! t = Some tb ∧ length (t_slots tb) = 64.
Proof.
  unfold check56. intros X. destruct x as [c|]; [|discriminate X]. apply andb_true_iff in X as [X X4]. apply andb_true_iff in X as [X X3]. apply andb_true_iff in X as [X1 X2]. exists c. split; [reflexivity|].
  split.
  { intros i ts E. exact (idle_all_sound c X1 i ts E). }
  split; [by apply bool_decide_eq_true in X2|].
  destruct (root (mc_st c)) as [t|] eqn:R; [|discriminate X3]. destruct (tables (mc_st c) !! t) as [tb|] eqn:T; [|discriminate X3].
  apply andb_true_iff in X3 as [X3 X5]. apply bool_decide_eq_true in X3. apply Nat.eqb_eq in X5. split; [|split].
  - intros t' tb' R' T'. rewrite R in R'. injection R' as <-. rewrite T in T'. by injection T' as <-.
  - destruct (mc_thr c) as [|[[] its d] [|]]; try discriminate X4; destruct its; try discriminate X4; destruct d; try discriminate X4. done.
  - by exists t, tb.
Qed.
Lemma check56_ok : check56 (exec bcfg (init_conf 0 1 1) (l_sched 31)) = true. Proof. vm_cast_no_check (eq_refl true). Qed.

Lemma unbounded56 {K V : Type} {Keq : EqDecision K} (cfg : config K) c0 sched (o : op K V) c id :
  exec cfg c0 sched = Some c → (∃ c1, exec cfg c0 (sched ++ [CInvoke 0 o]) = Some c1 ∧ list.last (mc_hist c1) = Some (HInv 0 id o) ∧ runs_forever cfg c1 0) →
  (∀ T : nat, ∃ n c', exec cfg c (CInvoke 0 o :: replicate n (CRun 0 false)) = Some c' ∧ (ended 0 (mc_nop c) o c' ∨ T ≤ length (tables (mc_st c')))) →
  ∀ T : nat, ∃ n c', exec cfg c (CInvoke 0 o :: replicate n (CRun 0 false)) = Some c' ∧ T ≤ length (tables (mc_st c')).
Proof.
  intros E (c1 & E1 & L1 & F) H T. destruct (H T) as (n & c' & E' & [H'|H']); [|by exists n, c'].
  exfalso. destruct (F n) as (c2 & c3 & E2 & H2 & _). rewrite exec_app_l, E in E1.
  change (CInvoke 0 o :: replicate n (CRun 0 false)) with ([CInvoke 0 o] ++ replicate n (CRun 0 false)) in E'.
  rewrite exec_app_l, E1 in E'. rewrite E2 in E'. injection E' as <-. rewrite <- H2 in L1.
  destruct H' as [(r & v & H')|(why & H')]; rewrite L1 in H'; discriminate H'.
Qed.

Example C56_example : ∃ c, exec bcfg (init_conf 0 1 1) (l_sched 31) = Some c ∧
  (∃ t tb, root (mc_st c) = Some t ∧ tables (mc_st c) !! t = Some tb ∧ length (t_slots tb) = 64) ∧
  (∀ o : op nat nat, no_alloc o → ∃ n c', exec bcfg c (CInvoke 0 o :: replicate n (CRun 0 false)) = Some c' ∧ ended 0 (mc_nop c) o c') ∧
  (∀ T, ∃ n c', exec bcfg c (CInvoke 0 (OInsert 31 31) :: replicate n (CRun 0 false)) = Some c' ∧ T ≤ length (tables (mc_st c'))).
Proof.
  destruct (check56_sound _ check56_ok) as (c & E & A & P & N & Th & B). exists c. split; [exact E|]. split; [exact B|].
  assert (Et : mc_thr c !! 0 = Some (ts_idle [])) by (by rewrite Th). split.
  - intros o Ho. exact (C56_no_alloc_ends bcfg eq_refl 1 1 0 ltac:(lia) (l_sched 31) c E A N 0 o [] Et P Ho).
  - apply (unbounded56 bcfg (init_conf 0 1 1) (l_sched 31) (OInsert 31 31) c 31 E).
    + destruct C24_insert_never_returns_refuted as (c1 & E1 & _ & L1 & F). exists c1. split; [exact E1|]. split; [exact L1|exact F].
    + intros T. exact (C56_ends_or_allocates bcfg eq_refl 1 1 0 ltac:(lia) (l_sched 31) c E A N T 0 (OInsert 31 31) [] Et P).
Qed.
