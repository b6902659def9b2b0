(** C57: a run with a resize in progress meets the hypotheses; and in the run of C40 (37 keys with the same hash) iter is the second case of
    the theorem: it allocates tables without bound. *)
From Verif Require Export SoloCMain SoloEx LivelockEx.

Definition check57 (x : option (mconf nat nat)) : bool :=
  match x with
  | Some c => idle_all c && bool_decide (0 ∈ pins (mc_st c)) && match mc_thr c with [TState None [] false] => true | _ => false end
  | None => false end.
Lemma check57_sound x : check57 x = true → ∃ c, x = Some c ∧ all_idle c ∧ 0 ∈ pins (mc_st c) ∧ mc_thr c = [ts_idle []].
Proof.
  unfold check57. intros X. destruct x as [c|]; [|discriminate X]. apply andb_true_iff in X as [X X3]. apply andb_true_iff in X as [X1 X2]. exists c. split; [reflexivity|].
  split.
  { intros i ts E. exact (idle_all_sound c X1 i ts E). }
  split; [by apply bool_decide_eq_true in X2|].
  destruct (mc_thr c) as [|[[] its d] [|]]; try discriminate X3; destruct its; try discriminate X3; destruct d; try discriminate X3. done.
Qed.
Lemma check57_ok : check57 (exec lcfg (init_conf 0 1 1) (l_sched 37)) = true. Proof. vm_cast_no_check (eq_refl true). Qed.

Lemma unbounded57 {K V : Type} {Keq : EqDecision K} (cfg : config K) c0 sched (o : op K V) c id :
  exec cfg c0 sched = Some c → (∃ c1, exec cfg c0 (sched ++ [CInvoke 0 o]) = Some c1 ∧ list.last (mc_hist c1) = Some (HInv 0 id o) ∧ runs_forever cfg c1 0) →
  (∀ T : nat, ∃ n c', exec cfg c (CInvoke 0 o :: replicate n (CRun 0 false)) = Some c' ∧ (ended 0 (mc_nop c) o c' ∨ T ≤ length (tables (mc_st c')))) →
  ∀ T : nat, ∃ n c', exec cfg c (CInvoke 0 o :: replicate n (CRun 0 false)) = Some c' ∧ T ≤ length (tables (mc_st c')).
Proof.
  intros E (c1 & E1 & L1 & F) H T. destruct (H T) as (n & c' & E' & [H'|H']); [|by exists n, c'].
  exfalso. destruct (F n) as (c2 & c3 & E2 & H2 & _). rewrite exec_app_l, E in E1.
  change (CInvoke 0 o :: replicate n (CRun 0 false)) with ([CInvoke 0 o] ++ replicate n (CRun 0 false)) in E'.
  rewrite exec_app_l, E1 in E'. rewrite E2 in E'. injection E' as <-. rewrite <- H2 in L1.
  destruct H' as [(r & v & H')|(why & H')]; rewrite L1 in H'; discriminate H'.
Qed.

(** A resize is in progress: every call, run alone, ends or allocates as many tables as one likes. *)
Example C57_example_resizing : ∃ c, exec cfg16 (init_conf 4 2 1) s41 = Some c ∧ ¬ no_resize (mc_st c) ∧ ∀ (T : nat) (o : op nat nat) its, mc_thr c !! 0 = Some (ts_idle its) →
  ∃ n c', exec cfg16 c (CInvoke 0 o :: replicate n (CRun 0 false)) = Some c' ∧ (ended 0 (mc_nop c) o c' ∨ T ≤ length (tables (mc_st c'))).
Proof.
  destruct (check41_sound _ check41_ok) as (c & E & A & P & N). exists c. split; [exact E|]. split; [exact N|]. intros T o its Et.
  exact (C57_ends_or_allocates cfg16 1 eq_refl ltac:(lia) 1 2 4 ltac:(lia) s41 c E A T 0 o its Et P).
Qed.
(** iter allocates without bound. *)
Example C57_example_unbounded : ∃ c, exec lcfg (init_conf 0 1 1) (l_sched 37) = Some c ∧
  ∀ T, ∃ n c', exec lcfg c (CInvoke 0 OIter :: replicate n (CRun 0 false)) = Some c' ∧ T ≤ length (tables (mc_st c')).
Proof.
  destruct (check57_sound _ check57_ok) as (c & E & A & P & Th). exists c. split; [exact E|].
  assert (Et : mc_thr c !! 0 = Some (ts_idle [])) by (by rewrite Th).
  apply (unbounded57 lcfg (init_conf 0 1 1) (l_sched 37) OIter c 37 E).
  - destruct C40_iter_never_returns_refuted as (c1 & E1 & _ & L1 & F). exists c1. split; [exact E1|]. split; [exact L1|exact F].
  - intros T. exact (C57_ends_or_allocates lcfg 64 eq_refl ltac:(lia) 1 1 0 ltac:(lia) (l_sched 37) c E A T 0 OIter [] Et P).
Qed.
