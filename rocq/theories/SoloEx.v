(** The hypotheses of C41 are met by runs with a resize in progress. *)
From Verif Require Export SoloMain Findings DropEx.

Definition check41 (x : option (mconf nat nat)) : bool :=
  match x with
  | Some c => idle_all c && bool_decide (0 ∈ pins (mc_st c)) && match root (mc_st c) with Some t => match tables (mc_st c) !! t with Some tb => bool_decide (t_next tb ≠ None) | None => false end | None => false end
  | None => false end.
Lemma check41_sound x : check41 x = true → ∃ c, x = Some c ∧ all_idle c ∧ 0 ∈ pins (mc_st c) ∧ ¬ no_resize (mc_st c).
Proof.
  unfold check41. intros X. destruct x as [c|]; [|discriminate X]. apply andb_true_iff in X as [X X3]. apply andb_true_iff in X as [X1 X2]. exists c. split; [reflexivity|].
  split.
  { intros i ts E. exact (idle_all_sound c X1 i ts E). }
  split; [by apply bool_decide_eq_true in X2|]. intros N. destruct (root (mc_st c)) as [t|] eqn:R; [|discriminate X3]. destruct (tables (mc_st c) !! t) as [tb|] eqn:T; [|discriminate X3].
  apply bool_decide_eq_true in X3. apply X3, (N t tb R T).
Qed.
(** Nine keys, chunk size 1: the resize is in progress, all calls have returned; then any single-key call run alone returns. *)
Definition s41 := s16 ++ [CPin 0].
Lemma check41_ok : check41 (exec cfg16 (init_conf 4 2 1) s41) = true. Proof. vm_cast_no_check (eq_refl true). Qed.
Example ex41 : ∃ c, exec cfg16 (init_conf 4 2 1) s41 = Some c ∧ ¬ no_resize (mc_st c) ∧ ∀ (o : op nat nat) its, mc_thr c !! 0 = Some (ts_idle its) → single_key o →
  ∃ n c', exec cfg16 c (CInvoke 0 o :: replicate n (CRun 0 false)) = Some c' ∧ ended 0 (mc_nop c) o c'.
Proof.
  destruct (check41_sound _ check41_ok) as (c & E & A & P & N). exists c. split; [exact E|]. split; [exact N|]. intros o its Et Ho.
  apply (C41_single_key_ends cfg16 1 eq_refl 1 2 4 ltac:(lia) s41 c E A 0 o its Et P Ho).
Qed.
