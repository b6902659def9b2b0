(** Consequences of linearizability, for every execution, in both resize modes. The predicates are defined
    in [Spec] and [Props], in terms of the history of API calls only. *)
From Verif Require Export Main1 Derive.

Section main.
  Context {K V : Type} {Keq : EqDecision K} (cfg : config K) (nthr nsh cap : nat).
  Context (HS : 0 < nsh).
  Context (sched : list (choice K V)) (c : mconf K V) (EX : exec cfg (init_conf cap nsh nthr) sched = Some c).

  Lemma run_good : good_history (mc_hist c).
  Proof.
    destruct (C01_C02_linearizable cfg nthr nsh cap HS sched) as (c' & E & WF & R). rewrite EX in E. injection E as <-. by split.
  Qed.

  Theorem C03_sequential_semantics : sequential_semantics (mc_hist c).
  Proof. by apply d_sequential, run_good. Qed.
  Theorem C04_reads_last_write : reads_last_write (mc_hist c).
  Proof. by apply d_reads_last_write, run_good. Qed.
  Theorem C05_unique_winner : unique_winner (mc_hist c).
  Proof. by apply d_unique_winner, run_good. Qed.
  Theorem C05_C09_tries_agree : tries_agree (mc_hist c).
  Proof. by apply d_tries_agree, run_good. Qed.
  Theorem C06_handed_out_once : handed_out_once (mc_hist c).
  Proof. by apply d_handed_out_once, run_good. Qed.
  Theorem C06_removed_once : ∃ S cut, linearizes (mc_hist c) S cut ∧ removed_once (mc_hist c) S.
  Proof. destruct (d_witness _ run_good) as (S & cut & L & _ & _ & _ & X & _). by exists S, cut. Qed.
  Theorem C07_counts_updates : counts_updates (mc_hist c).
  Proof. by apply d_counts_updates, run_good. Qed.
  Theorem C07_update_is_atomic : ∃ S cut, linearizes (mc_hist c) S cut ∧ update_spec (mc_hist c) S cut.
  Proof. destruct (d_witness _ run_good) as (S & cut & L & _ & _ & _ & _ & _ & _ & _ & X). by exists S, cut. Qed.
  Theorem C08_none_at_most_once : none_once (mc_hist c).
  Proof.
    split.
    - intros h i id o r v E Ek. by eapply d_none_once; [apply run_good| |].
    - intros h i id o why E ->. destruct (C19_panics_any_capacity_partial cfg nthr nsh cap HS sched c EX h i id o PFnOnce E) as [?|[?|(k & f & _ & [[? _]|[? _]])]]; done.
  Qed.
  Theorem C08_closure_sees_current_bindings : ∃ S cut, linearizes (mc_hist c) S cut ∧ closures_ok (mc_hist c) S cut.
  Proof. destruct (d_witness _ run_good) as (S & cut & L & _ & _ & X & _). by exists S, cut. Qed.
  Theorem C11_iteration_complete : iter_complete (mc_hist c).
  Proof. by apply d_iter_complete, run_good. Qed.
  Theorem C12_iteration_yields_real_entries : ∃ S cut, linearizes (mc_hist c) S cut ∧
    ∀ i j h0 h k v, yields (mc_hist c) i j h0 h k v → ∃ n, cut (h0 + 1) ≤ n ∧ n ≤ cut (h + 1) ∧ sval S n k = Some v.
  Proof. destruct (d_witness _ run_good) as (S & cut & L & _ & (X & _) & _). by exists S, cut. Qed.
  Theorem C13_C14_swept : swept (mc_hist c).
  Proof. by apply d_swept, run_good. Qed.
  Theorem C13_C14_sweeps_all_keys : ∃ S cut, linearizes (mc_hist c) S cut ∧ sweeps (mc_hist c) S cut.
  Proof. destruct (d_witness _ run_good) as (S & cut & L & X & _). by exists S, cut. Qed.
  Theorem C31_reads_monotone : reads_monotone (mc_hist c).
  Proof. by apply d_reads_monotone, run_good. Qed.
  Theorem C31_real_time_order : ∃ S cut, linearizes (mc_hist c) S cut ∧ real_time (mc_hist c) S.
  Proof. destruct (d_witness _ run_good) as (S & cut & L & _ & _ & _ & _ & X & _). by exists S, cut. Qed.
  Theorem C35_try_insert : ∃ S cut, linearizes (mc_hist c) S cut ∧ try_insert_spec (mc_hist c) S cut.
  Proof. destruct (d_witness _ run_good) as (S & cut & L & _ & _ & _ & _ & _ & X & _). by exists S, cut. Qed.
  Theorem C36_duplicates_need_removal : iter_no_duplicates (mc_hist c).
  Proof. by apply d_iter_nodup, run_good. Qed.
  Theorem C38_remove_if : ∃ S cut, linearizes (mc_hist c) S cut ∧ remove_if_spec (mc_hist c) S cut.
  Proof. destruct (d_witness _ run_good) as (S & cut & L & _ & _ & _ & _ & _ & _ & X & _). by exists S, cut. Qed.
End main.
