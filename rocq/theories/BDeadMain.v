(** C52: blocking mode does not deadlock as long as no resize has been aborted. *)
From Verif Require Export BDead6 Findings.

Section thm.
  Context {K V : Type} {Keq : EqDecision K} (cfg : config K) (HM : c_mode cfg = Blocking) (nthr nsh cap : nat) (HS : 0 < nsh).
  (** At no moment of the run has a table been given up because the entries of the previous one did not fit (mod.rs:2064). *)
  Definition no_abort (sched : list (choice K V)) : Prop :=
    ∀ n (c : mconf K V), exec cfg (init_conf cap nsh nthr) (take n sched) = Some c → ∀ t tb, tables (mc_st c) !! t = Some tb → t_status tb ≠ ABORTED.
  (** C52 (without [no_abort] the claim is refuted by [C18_lost_wakeup_refuted]): in blocking mode, if no resize has been aborted so far, then whenever a call is
      in progress some thread can take a step, even if no thread is ever woken up spuriously ([false]); threads that have panicked in a resize are excluded. *)
  Theorem C52_no_deadlock_without_abort (sched : list (choice K V)) c : exec cfg (init_conf cap nsh nthr) sched = Some c → no_abort sched →
    (∀ i id o why, HPanic i id o why ∈ mc_hist c → user_panic why = true) →
    (∃ i, in_call c i) → ∃ j c', mstep cfg c (CRun j false) = SStep c'.
  Proof using HM HS.
    intros E NA. apply (no_deadlock cfg HM nthr nsh cap HS sched c E). intros n c' E' t X. unfold sts, tfld in X. destruct (tables (mc_st c') !! t) as [tb|] eqn:Et; [|discriminate X]. exact (NA n c' E' t tb Et X).
  Qed.
  (** With a capacity that is a power of two (or below 5) there are no such panics (C19). *)
  Corollary C52_no_deadlock_pow2 (sched : list (choice K V)) c : (is_pow2 (c_initial cfg) = true ∨ c_initial cfg < 5) →
    exec cfg (init_conf cap nsh nthr) sched = Some c → no_abort sched → (∃ i, in_call c i) → ∃ j c', mstep cfg c (CRun j false) = SStep c'.
  Proof using HM HS.
    intros GC E NA. apply (C52_no_deadlock_without_abort sched c E NA). intros i id o why X. apply elem_of_list_lookup in X as [h X]. destruct (C19_panics_partial cfg nthr nsh cap HS GC sched c E h i id o why X) as (k & f & _ & [[-> _]|[-> _]]); done.
  Qed.
  (** If nobody can step any more, every call has returned (or panicked), or a resize has been aborted. *)
  Corollary C52_stuck_means_done (sched : list (choice K V)) c : (is_pow2 (c_initial cfg) = true ∨ c_initial cfg < 5) →
    exec cfg (init_conf cap nsh nthr) sched = Some c → no_abort sched → (∀ j, mstep cfg c (CRun j false) = SSkip) → ∀ i, ¬ in_call c i.
  Proof using HM HS. intros GC E NA SK i X. destruct (C52_no_deadlock_pow2 sched c GC E NA (ex_intro _ i X)) as (j & c' & Y). by rewrite SK in Y. Qed.
End thm.

(** A configuration that meets the hypotheses and in which a thread is really parked: thread 0 is in the middle of a resize, thread 1, inserting, has registered and sleeps. *)
Definition nabb (c : mconf nat nat) : bool := forallb (λ tb, bool_decide (t_status tb ≠ ABORTED)) (tables (mc_st c)).
Fixpoint run_nab (cfg : config nat) (c : mconf nat nat) (s : list (choice nat nat)) : option (mconf nat nat) :=
  if nabb c then match s with [] => Some c | x :: s => match mstep cfg c x with SStep c' => run_nab cfg c' s | SSkip => run_nab cfg c s | SUB => None end end else None.
Lemma run_nab_sound cfg s : ∀ c c', run_nab cfg c s = Some c' → exec cfg c s = Some c' ∧
  ∀ n c1, exec cfg c (take n s) = Some c1 → ∀ t tb, tables (mc_st c1) !! t = Some tb → t_status tb ≠ ABORTED.
Proof.
  assert (NB : ∀ c : mconf nat nat, nabb c = true → ∀ t tb, tables (mc_st c) !! t = Some tb → t_status tb ≠ ABORTED).
  { intros c X t tb Et. unfold nabb in X. rewrite forallb_forall in X. apply elem_of_list_lookup_2, elem_of_list_In, X in Et. by apply bool_decide_eq_true in Et. }
  induction s as [|x s IH]; intros c c' E; cbn [run_nab] in E; (destruct (nabb c) eqn:B; [|discriminate E]).
  - injection E as <-. split; [reflexivity|]. intros n c1 X. rewrite take_nil in X. injection X as <-. by apply NB.
  - cbn [exec]. destruct (mstep cfg c x) as [c2| |] eqn:M; [| |discriminate E].
    + destruct (IH _ _ E) as [E1 E2]. split; [exact E1|]. intros [|n] c1 X; cbn [take exec] in X; [injection X as <-; by apply NB|]. rewrite M in X. by eapply E2.
    + destruct (IH _ _ E) as [E1 E2]. split; [exact E1|]. intros [|n] c1 X; cbn [take exec] in X; [injection X as <-; by apply NB|]. rewrite M in X. by eapply E2.
Qed.
Definition cfg52 := mk_config (K:=nat) (λ k, N.of_nat (k * 64)) Blocking 4 2 1 1.
Definition s52 := [CPin 0; CPin 1] ++ concat (map (λ k, full 0 (OInsert k k)) (seq 0 8)) ++ fulln 0 120 (OInsert 20 1) ++ fulln 1 300 (OInsert 3 77).
Definition check52 (x : option (mconf nat nat)) : bool :=
  match x with
  | Some c => match mc_thr c with [TState (Some _) _ false; TState (Some _) _ false] => true | _ => false end && match mstep cfg52 c (CRun 1 false) with SSkip => true | _ => false end
  | None => false
  end.
Lemma check52_sound x : check52 x = true → ∃ c, x = Some c ∧ in_call c 0 ∧ in_call c 1 ∧ mstep cfg52 c (CRun 1 false) = SSkip.
Proof.
  unfold check52. intros X. destruct x as [c|]; [|discriminate X]. apply andb_true_iff in X as [X1 X2]. exists c. split; [reflexivity|]. unfold in_call.
  destruct (mc_thr c) as [|[[[[id o] p]|] its []] [|[[[[id' o'] p']|] its' []] [|? ?]]]; try discriminate X1.
  split; [exists id, o, p, its; reflexivity|]. split; [exists id', o', p', its'; reflexivity|]. destruct (mstep cfg52 c (CRun 1 false)); [discriminate X2|reflexivity|discriminate X2].
Qed.
Lemma check52_ok : check52 (run_nab cfg52 (init_conf 4 2 2) s52) = true. Proof. vm_cast_no_check (eq_refl true). Qed.
Example ex52 : ∃ c, exec cfg52 (init_conf 4 2 2) s52 = Some c ∧ no_abort cfg52 2 2 4 s52 ∧ in_call c 0 ∧ in_call c 1 ∧ mstep cfg52 c (CRun 1 false) = SSkip ∧
  ∃ j c', mstep cfg52 c (CRun j false) = SStep c'.
Proof.
  destruct (check52_sound _ check52_ok) as (c & E & R0 & R1 & P). destruct (run_nab_sound _ _ _ _ E) as [E1 E2]. exists c. split; [exact E1|]. split; [exact E2|]. split; [exact R0|]. split; [exact R1|]. split; [exact P|].
  apply (C52_no_deadlock_pow2 cfg52 eq_refl 2 2 4 ltac:(lia) s52 c (or_introl eq_refl) E1 E2). exists 1. exact R1.
Qed.
Print Assumptions C52_no_deadlock_without_abort.
