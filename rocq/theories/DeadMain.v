(** C42: no deadlock in incremental mode. *)
From Verif Require Export Dead6 SoloEx.

Section thm.
  Context {K V : Type} {Keq : EqDecision K} (cfg : config K) (chunk : nat) (HM : c_mode cfg = Incremental chunk) (nthr nsh cap : nat) (HS : 0 < nsh).
  (** C42: in incremental mode, whenever a call is in progress, some thread can take a step, even if no thread is ever woken up
      spuriously ([false]); threads that have panicked in a resize are excluded. *)
  Theorem C42_no_deadlock (sched : list (choice K V)) c : exec cfg (init_conf cap nsh nthr) sched = Some c →
    (∀ i id o why, HPanic i id o why ∈ mc_hist c → user_panic why = true) →
    (∃ i, in_call c i) → ∃ j c', mstep cfg c (CRun j false) = SStep c'.
  Proof using HM HS. apply (no_deadlock cfg chunk HM nthr nsh cap HS). Qed.
  (** With a capacity that is a power of two (or below 5) there are no such panics (C19): no premise about panics is needed. *)
  Theorem C42_no_deadlock_pow2 (sched : list (choice K V)) c : (is_pow2 (c_initial cfg) = true ∨ c_initial cfg < 5) →
    exec cfg (init_conf cap nsh nthr) sched = Some c → (∃ i, in_call c i) → ∃ j c', mstep cfg c (CRun j false) = SStep c'.
  Proof using HM HS.
    intros GC E. apply (C42_no_deadlock sched c E). intros i id o why X. apply elem_of_list_lookup in X as [h X]. destruct (C19_panics_partial cfg nthr nsh cap HS GC sched c E h i id o why X) as (k & f & _ & [[-> _]|[-> _]]); done.
  Qed.
  (** A configuration in which nobody can step any more is one in which every call has returned (or panicked). *)
  Corollary C42_stuck_means_done (sched : list (choice K V)) c : (is_pow2 (c_initial cfg) = true ∨ c_initial cfg < 5) →
    exec cfg (init_conf cap nsh nthr) sched = Some c → (∀ j, mstep cfg c (CRun j false) = SSkip) → ∀ i, ¬ in_call c i.
  Proof using HM HS. intros GC E SK i X. destruct (C42_no_deadlock_pow2 sched c GC E (ex_intro _ i X)) as (j & c' & Y). by rewrite SK in Y. Qed.
End thm.

(** A configuration that meets the hypotheses and in which a thread is really parked: thread 0 has marked key 3 to copy it, thread 1,
    inserting key 3, is registered and asleep, and cannot step. *)
Definition s42 := CPin 1 :: s16 ++ [CPin 0] ++ fulln 0 55 (OInsert 50 1) ++ fulln 1 300 (OInsert 3 77).
Definition parked_b (c : mconf nat nat) (i : nat) : bool := match mstep cfg16 c (CRun i false) with SSkip => true | _ => false end.
Definition in_call_b (c : mconf nat nat) (i : nat) : bool := match mc_thr c !! i with Some (TState (Some _) _ false) => true | _ => false end.
Definition check42 (x : option (mconf nat nat)) : bool := match x with Some c => parked_b c 1 && in_call_b c 1 && in_call_b c 0 | None => false end.
Lemma in_call_sound c i : in_call_b c i = true → in_call c i.
Proof. unfold in_call_b, in_call. intros X. destruct (mc_thr c !! i) as [[[[[id o] p]|] its []]|]; try discriminate X. eauto. Qed.
Lemma check42_sound x : check42 x = true → ∃ c, x = Some c ∧ mstep cfg16 c (CRun 1 false) = SSkip ∧ in_call c 1 ∧ in_call c 0.
Proof.
  unfold check42. intros X. destruct x as [c|]; [|discriminate X]. apply andb_true_iff in X as [X X3]. apply andb_true_iff in X as [X1 X2]. exists c. split; [reflexivity|].
  split; [|split; by apply in_call_sound]. unfold parked_b in X1. destruct (mstep cfg16 c (CRun 1 false)); [discriminate X1|reflexivity|discriminate X1].
Qed.
Lemma check42_ok : check42 (exec cfg16 (init_conf 4 2 2) s42) = true. Proof. vm_cast_no_check (eq_refl true). Qed.
Example ex42 : ∃ c, exec cfg16 (init_conf 4 2 2) s42 = Some c ∧ in_call c 1 ∧ mstep cfg16 c (CRun 1 false) = SSkip ∧ ∃ j c', mstep cfg16 c (CRun j false) = SStep c'.
Proof.
  destruct (check42_sound _ check42_ok) as (c & E & P & R & _). exists c. split; [exact E|]. split; [exact R|]. split; [exact P|].
  apply (C42_no_deadlock_pow2 cfg16 1 eq_refl 2 2 4 ltac:(lia) s42 c (or_introl eq_refl) E). exists 1. exact R.
Qed.
