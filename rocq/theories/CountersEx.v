(** C46 on a concrete state: the state of [ex42], in which a thread is parked waiting for the copy of an entry. *)
From Verif Require Import Counters DeadMain.
Definition check46 (x : option (mconf nat nat)) : bool :=
  match x with
  | Some c => match tables (mc_st c) with
              | a :: b :: _ => (length (pk_threads (t_parker a)) =? 1) && (Z.eqb (pk_pending (t_parker a)) 1) && (0 <? t_claim b)
              | _ => false end
  | None => false end.
Lemma check46_sound x : check46 x = true → ∃ c a b l, x = Some c ∧ tables (mc_st c) = a :: b :: l ∧ length (pk_threads (t_parker a)) = 1 ∧ pk_pending (t_parker a) = 1%Z ∧ 0 < t_claim b.
Proof.
  unfold check46. intros X. destruct x as [c|]; [|discriminate X]. destruct (tables (mc_st c)) as [|a [|b l]] eqn:T; [discriminate X..|]. apply andb_true_iff in X as [X X3]. apply andb_true_iff in X as [X1 X2].
  exists c, a, b, l. apply Nat.eqb_eq in X1. apply Z.eqb_eq in X2. apply Nat.ltb_lt in X3. split_and!; [reflexivity|exact T|exact X1|exact X2|exact X3].
Qed.
Lemma check46_ok : check46 (exec cfg16 (init_conf 4 2 2) s42) = true. Proof. vm_cast_no_check (eq_refl true). Qed.
Example ex46 : ∃ (c : mconf nat nat) a b l, tables (mc_st c) = a :: b :: l ∧ length (pk_threads (t_parker a)) = 1 ∧ pk_pending (t_parker a) = 1%Z ∧ 0 < t_claim b ∧
  t_copied b ≤ length (t_slots a) ∧ t_copied b ≤ t_claim b.
Proof.
  destruct (check46_sound _ check46_ok) as (c & a & b & l & E & T & P1 & P2 & P3). exists c, a, b, l. split; [exact T|]. split; [exact P1|]. split; [exact P2|]. split; [exact P3|].
  apply (C46_copied_bounded cfg16 2 2 4 1 s42 c ltac:(lia) ltac:(lia) eq_refl E 0); rewrite T; reflexivity.
Qed.
