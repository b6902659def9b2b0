(** Everything in [Props] follows from linearizability ([good_history]). *)
From Verif Require Export PropsProofs3.

Section derive.
  Context {K V : Type} {Keq : EqDecision K} (H : list (hevent K V)) (GH : good_history H).
  Lemma d_sequential : sequential_semantics H.
  Proof. destruct GH as (WF & S & cut & L & SW & IT & CL). by eapply p_sequential. Qed.
  Lemma d_reads_last_write : reads_last_write H.
  Proof. destruct GH as (WF & S & cut & L & SW & IT & CL). by eapply p_reads_last_write. Qed.
  Lemma d_tries_agree : tries_agree H.
  Proof. destruct GH as (WF & S & cut & L & SW & IT & CL). by eapply p_tries_agree. Qed.
  Lemma d_unique_winner : unique_winner H.
  Proof. destruct GH as (WF & S & cut & L & SW & IT & CL). by eapply p_unique_winner. Qed.
  Lemma d_counts_updates : counts_updates H.
  Proof. destruct GH as (WF & S & cut & L & SW & IT & CL). by eapply p_counts_updates. Qed.
  Lemma d_iter_complete : iter_complete H.
  Proof. destruct GH as (WF & S & cut & L & SW & IT & CL). by eapply p_iter_complete. Qed.
  Lemma d_swept : swept H.
  Proof. destruct GH as (WF & S & cut & L & SW & IT & CL). by eapply p_swept. Qed.
  Lemma d_handed_out_once : handed_out_once H.
  Proof. destruct GH as (WF & S & cut & L & SW & IT & CL). by eapply p_handed_out_once. Qed.
  Lemma d_reads_monotone : reads_monotone H.
  Proof. destruct GH as (WF & S & cut & L & SW & IT & CL). by eapply p_reads_monotone. Qed.
  Lemma d_iter_nodup : iter_no_duplicates H.
  Proof. destruct GH as (WF & S & cut & L & SW & IT & CL). by eapply p_iter_nodup. Qed.
  Lemma d_none_once h i id o r v : H !! h = Some (HRes i id o r v) → key_of o ≠ None → length (filter (λ c, c = None) (calls_of r)) ≤ 1.
  Proof.
    destruct GH as (WF & S & cut & L & SW & IT & CL). intros E Ek. destruct (key_of o) as [k|] eqn:Ek'; [|done].
    destruct (wf_res _ WF _ _ _ _ _ _ E) as (h' & _ & E'). by eapply CL.
  Qed.
  (** Properties relative to one and the same linearization. *)
  Lemma d_witness : ∃ S cut, linearizes H S cut ∧ sweeps H S cut ∧ iterates H S cut ∧ closures_ok H S cut ∧
    removed_once H S ∧ real_time H S ∧ try_insert_spec H S cut ∧ remove_if_spec H S cut ∧ update_spec H S cut.
  Proof.
    destruct GH as (WF & S & cut & L & SW & IT & CL). exists S, cut. split_and!; auto.
    - by eapply p_removed_once.
    - by eapply p_real_time.
    - by eapply p_try_insert.
    - by eapply p_remove_if.
    - by eapply p_update.
  Qed.
End derive.
