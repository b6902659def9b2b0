(** Proofs of the arithmetic properties C20-C23. *)
From Coq Require Import NArith Arith Lia List Bool ZArith FinFun.
From Verif Require Import Pure.
Import ListNotations.
Local Open Scope nat_scope.

Lemma entries_for_load n :
  4 * n <= 3 * Nat.max (entries_for n) 8.
Proof.
  unfold entries_for. pose proof (next_pow2_ge (n * 8 / 6)) as G.
  pose proof (next_pow2_pow2 (n * 8 / 6)) as P. apply is_pow2_spec in P as [b Hb].
  rewrite Hb in *. set (E := 2 ^ b) in *.
  pose proof (Nat.div_mod (n * 8) 6 ltac:(lia)) as D.
  pose proof (Nat.mod_upper_bound (n * 8) 6 ltac:(lia)) as M.
  destruct (le_lt_dec 3 b) as [H3|H3].
  - assert (exists c, E = 8 * c) as [c Hc].
    { exists (2 ^ (b - 3)). unfold E. replace b with (3 + (b - 3)) at 1 by lia.
      rewrite Nat.pow_add_r. reflexivity. }
    lia.
  - assert (E <= 4) by (unfold E; change 4 with (2 ^ 2); apply Nat.pow_le_mono_r; lia). lia.
Qed.

Lemma entries_for_pow2 n : exists b, entries_for n = 2 ^ b.
Proof. unfold entries_for, next_pow2. eauto. Qed.

Lemma entries_for_u64_spec (c r : N) :
  entries_for_u64 c = Some r -> N.to_nat r = entries_for (N.to_nat c) /\ (r < 2 ^ 63)%N.
Proof.
  unfold entries_for_u64. destruct (_ <? _)%N eqn:E; [|discriminate].
  apply N.ltb_lt in E. intros [= <-]. split.
  - unfold entries_for, next_pow2. rewrite N2Nat.inj_pow. f_equal.
    assert (Q : N.to_nat (c * 8 / 6) = N.to_nat c * 8 / 6) by (rewrite N2Nat.inj_div, N2Nat.inj_mul; reflexivity).
    rewrite <- Q. set (x := (c * 8 / 6)%N). clearbody x.
    destruct (N.le_gt_cases x 1) as [H|H].
    + rewrite N.log2_up_eqn0 by lia. rewrite Nat.log2_up_eqn0 by lia. reflexivity.
    + symmetry. apply Nat.log2_up_unique.
      * assert (0 < N.log2_up x)%N by (apply N.log2_up_pos; exact H). lia.
      * pose proof (N.log2_up_spec x H) as [L U].
        assert (0 < N.log2_up x)%N by (apply N.log2_up_pos; exact H).
        split.
        -- assert (X : N.to_nat (2 ^ N.pred (N.log2_up x)) < N.to_nat x) by lia.
           rewrite N2Nat.inj_pow, N2Nat.inj_pred in X. exact X.
        -- assert (X : N.to_nat x <= N.to_nat (2 ^ N.log2_up x)) by lia.
           rewrite N2Nat.inj_pow in X. exact X.
  - set (x := (c * 8 / 6)%N).
    assert (Hx : (x <= 2 ^ 62)%N).
    { unfold x. transitivity (2 ^ 64 / 6)%N; [apply N.div_le_mono; lia|]. vm_compute. discriminate. }
    apply N.le_lt_trans with (2 ^ 62)%N; [|reflexivity].
    apply N.pow_le_mono_r; [lia|]. rewrite <- (N.log2_up_pow2 62) by lia.
    apply N.log2_up_le_mono. exact Hx.
Qed.

Lemma next_capacity_ge_initial initial current active :
  initial <= current -> initial <= next_capacity initial current active.
Proof.
  intros H. unfold next_capacity.
  destruct (_ <=? active); [rewrite Nat.shiftl_mul_pow2; change (2 ^ 1) with 2; lia|].
  destruct (active <=? _); lia.
Qed.

Lemma map_NoDup_in {A B} (f : A -> B) l :
  (forall x y, In x l -> In y l -> f x = f y -> x = y) -> NoDup l -> NoDup (map f l).
Proof.
  induction l as [|a l IH]; intros H N; simpl; [constructor|]. inversion N; subst. constructor.
  - intros I. apply in_map_iff in I as (y & E & Hy).
    assert (y = a) by (apply H; simpl; auto). subst. contradiction.
  - apply IH; [|assumption]. intros x y Hx Hy. apply H; simpl; auto.
Qed.

Lemma probe_covers h b j :
  j < 2 ^ b -> exists q, q < 2 ^ b /\ probe_idx h (2 ^ b - 1) q = j.
Proof.
  intros Hj.
  set (l := map (probe_idx h (2 ^ b - 1)) (seq 0 (2 ^ b))).
  assert (ND : NoDup l).
  { apply map_NoDup_in; [|apply seq_NoDup].
    intros x y Hx Hy E. apply in_seq in Hx, Hy. apply (probe_idx_inj h b); [lia|lia|exact E]. }
  assert (I : incl l (seq 0 (2 ^ b))).
  { intros x Hx. apply in_map_iff in Hx as (q & <- & _). apply in_seq.
    pose proof (probe_idx_lt h b q). lia. }
  assert (I2 : incl (seq 0 (2 ^ b)) l).
  { apply NoDup_length_incl; [exact ND| |exact I]. unfold l. rewrite map_length. lia. }
  assert (Hin : In j l) by (apply I2, in_seq; lia).
  apply in_map_iff in Hin as (q & E & Hq). apply in_seq in Hq. exists q. split; [lia|exact E].
Qed.

(** Words *)
Lemma word_split w : (w = word_ptr w + word_tag w)%N.
Proof.
  unfold word_ptr, word_tag. change TAGS with (N.ones 3).
  rewrite N.land_ones, N.ldiff_ones_r, N.shiftl_mul_pow2, N.shiftr_div_pow2.
  rewrite N.mul_comm. apply N.div_mod. discriminate.
Qed.

Lemma lor_tag_ptr a t : (N.land a 7 = 0)%N -> (t <= 7)%N -> word_ptr (N.lor a t) = a /\ word_tag (N.lor a t) = t.
Proof.
  intros Ha Ht. unfold word_ptr, word_tag. change TAGS with 7%N.
  assert (T : N.land t 7 = t) by (change 7%N with (N.ones 3); rewrite N.land_ones; apply N.mod_small; change (2 ^ 3)%N with 8%N; lia).
  assert (T' : N.ldiff t 7 = 0%N).
  { change 7%N with (N.ones 3). rewrite N.ldiff_ones_r. rewrite N.shiftr_div_pow2.
    change (2 ^ 3)%N with 8%N. rewrite N.div_small by lia. reflexivity. }
  split.
  - apply N.bits_inj. intros n. rewrite N.ldiff_spec, N.lor_spec.
    assert (A : (N.testbit a n && N.testbit 7 n = false)).
    { rewrite <- N.land_spec, Ha. apply N.bits_0. }
    assert (B : (N.testbit t n && negb (N.testbit 7 n) = false)).
    { rewrite <- N.ldiff_spec, T'. apply N.bits_0. }
    destruct (N.testbit a n), (N.testbit t n), (N.testbit 7 n); simpl in *; congruence.
  - rewrite N.land_lor_distr_l, Ha, T. apply N.lor_0_l.
Qed.
