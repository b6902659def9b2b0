(** Pure arithmetic of papaya: probing, capacities, hash metadata, tagged words.
    Sources: src/raw/probe.rs, src/raw/alloc.rs, src/raw/mod.rs (meta, Entry, get_or_alloc_next),
    src/raw/utils/tagged.rs. *)
From Coq Require Import NArith Arith Lia List Bool ZArith Znumtheory.
Import ListNotations.
Local Open Scope nat_scope.

(** src/raw/probe.rs:13-18 [Probe::start].  [hash] is the full hash word; [mask] = len - 1. *)
Definition probe_start (hash : N) (mask : nat) : nat :=
  N.to_nat (N.land hash (N.of_nat mask)).

(** src/raw/probe.rs:22-25 [Probe::next]: [len] is the already incremented probe length. *)
Definition probe_next (i len mask : nat) : nat := Nat.land (i + len) mask.

(** The index reached after [q] calls of [next]: iteration of probe.rs:22-25. *)
Fixpoint probe_idx (hash : N) (mask q : nat) : nat :=
  match q with
  | 0 => probe_start hash mask
  | S q' => probe_next (probe_idx hash mask q') (S q') mask
  end.

(** src/raw/probe.rs:33-36 [limit]: 5 * (BITS - leading_zeros - 1) = 5 * floor(log2 capacity). *)
Definition probe_limit (capacity : nat) : nat := 5 * Nat.log2 capacity.

(** core::num::next_power_of_two (0 and 1 give 1). *)
Definition next_pow2 (n : nat) : nat := 2 ^ Nat.log2_up n.

(** src/raw/probe.rs:39-43 [entries_for] on unbounded naturals (no overflow; see [entries_for_u64]). *)
Definition entries_for (capacity : nat) : nat := next_pow2 (capacity * 8 / 6).

(** src/raw/probe.rs:39-43 with the 64-bit [checked_mul]; [None] is the "capacity overflow" panic. *)
Definition entries_for_u64 (capacity : N) : option N :=
  if (capacity * 8 <? 2 ^ 64)%N then Some (2 ^ N.log2_up (capacity * 8 / 6))%N else None.

(** core::num::is_power_of_two. *)
Definition is_pow2 (n : nat) : bool := (0 <? n) && (n =? 2 ^ Nat.log2 n).

(** src/raw/alloc.rs:59-64 [Table::alloc]: [None] is the failed assertion, otherwise the real length
    ([len.max(align_of::<AtomicPtr>()) = max len 8] on 64-bit targets). *)
Definition alloc_len (len : nat) : option nat :=
  if is_pow2 len then Some (Nat.max len 8) else None.

(** src/raw/mod.rs:1938-1963 the capacity chosen by [get_or_alloc_next]. *)
Definition next_capacity (initial current active : nat) : nat :=
  if Nat.shiftr current 1 <=? active then Nat.shiftl current 1
  else if active <=? Nat.shiftr current 3 then Nat.max initial (Nat.shiftr current 1)
  else current.

(** src/raw/mod.rs:2812-2816. *)
Definition EMPTY : N := 128.
Definition TOMBMETA : N := 255.

(** src/raw/mod.rs:2825-2838 [meta::h2] on a 64-bit target (MIN_HASH_LEN = 8), [hash] a 64-bit word. *)
Definition h2 (hash : N) : N := N.land (N.shiftr hash 57) 127.

(** src/raw/mod.rs:127-146 tag bits and 149-152 MASK (as the complement). *)
Definition T_COPYING : N := 1.
Definition T_COPIED : N := 2.
Definition T_BORROWED : N := 4.
Definition TAGS : N := 7.
(** src/raw/mod.rs:160 TOMBSTONE. *)
Definition W_TOMBSTONE : N := T_COPIED.
(** src/raw/utils/tagged.rs:32-40 [unpack().ptr] and 64-66 [tag()]. *)
Definition word_ptr (w : N) : N := N.ldiff w TAGS.
Definition word_tag (w : N) : N := N.land w TAGS.
Definition word_has (bit w : N) : bool := negb (N.land (word_tag w) bit =? 0)%N.

(** * Lemmas *)

Lemma is_pow2_spec n : is_pow2 n = true <-> exists b, n = 2 ^ b.
Proof.
  unfold is_pow2. rewrite andb_true_iff, Nat.ltb_lt, Nat.eqb_eq. split.
  - intros [_ H]. eexists; exact H.
  - intros [b ->]. rewrite Nat.log2_pow2 by lia. split; [|reflexivity].
    assert (2 ^ b <> 0) by (apply Nat.pow_nonzero; lia). lia.
Qed.

Lemma pow2_pos b : 0 < 2 ^ b.
Proof. assert (2 ^ b <> 0) by (apply Nat.pow_nonzero; lia). lia. Qed.

Lemma next_pow2_ge n : n <= next_pow2 n.
Proof.
  unfold next_pow2. destruct (le_lt_dec n 1) as [H|H].
  - assert (0 < 2 ^ Nat.log2_up n) by apply pow2_pos. lia.
  - apply Nat.log2_log2_up_spec. lia.
Qed.

Lemma next_pow2_least n m : is_pow2 m = true -> n <= m -> next_pow2 n <= m.
Proof.
  intros [b ->]%is_pow2_spec H. unfold next_pow2. apply Nat.pow_le_mono_r; [lia|].
  destruct (le_lt_dec n 1) as [H1|H1].
  - rewrite Nat.log2_up_eqn0 by lia. lia.
  - rewrite <- (Nat.log2_up_pow2 b) by lia. apply Nat.log2_up_le_mono. exact H.
Qed.

Lemma next_pow2_pow2 n : is_pow2 (next_pow2 n) = true.
Proof. apply is_pow2_spec. unfold next_pow2. eauto. Qed.

Lemma alloc_len_pow2 len n : alloc_len len = Some n -> exists b, 3 <= b /\ n = 2 ^ b.
Proof.
  unfold alloc_len. destruct (is_pow2 len) eqn:E; [|discriminate].
  apply is_pow2_spec in E as [b ->]. intros [= <-].
  destruct (le_lt_dec 3 b).
  - exists b. split; [assumption|]. assert (2 ^ 3 <= 2 ^ b) by (apply Nat.pow_le_mono_r; lia).
    change (2 ^ 3) with 8 in *. lia.
  - exists 3. split; [lia|]. assert (2 ^ b <= 2 ^ 3) by (apply Nat.pow_le_mono_r; lia).
    change (2 ^ 3) with 8 in *. lia.
Qed.

Lemma land_mask_mod a b : Nat.land a (2 ^ b - 1) = a mod 2 ^ b.
Proof.
  replace (2 ^ b - 1) with (Nat.ones b).
  - apply Nat.land_ones.
  - rewrite Nat.ones_equiv. lia.
Qed.

Lemma probe_start_mod h b : probe_start h (2 ^ b - 1) = N.to_nat (h mod 2 ^ N.of_nat b).
Proof.
  unfold probe_start. f_equal.
  replace (N.of_nat (2 ^ b - 1)) with (N.ones (N.of_nat b)).
  - apply N.land_ones.
  - rewrite N.ones_equiv. rewrite Nat2N.inj_sub, Nat2N.inj_pow. simpl. lia.
Qed.

Fixpoint tri (q : nat) : nat := match q with 0 => 0 | S q' => tri q' + S q' end.

Lemma tri_double q : 2 * tri q = q * (q + 1).
Proof. induction q as [|q IH]; simpl tri; [lia|]. nia. Qed.

Lemma probe_idx_mod h b q :
  probe_idx h (2 ^ b - 1) q = (N.to_nat (h mod 2 ^ N.of_nat b) + tri q) mod 2 ^ b.
Proof.
  assert (P : 2 ^ b <> 0) by (pose proof (pow2_pos b); lia).
  induction q as [|q IH].
  - simpl. rewrite Nat.add_0_r, probe_start_mod.
    rewrite Nat.mod_small; [reflexivity|].
    pose proof (N.mod_lt h (2 ^ N.of_nat b)) as H. 
    assert (H' : (2 ^ N.of_nat b <> 0)%N) by (apply N.pow_nonzero; lia).
    specialize (H H'). 
    assert (E : N.to_nat (2 ^ N.of_nat b) = 2 ^ b) by (rewrite N2Nat.inj_pow, Nat2N.id; reflexivity).
    lia.
  - cbn [probe_idx tri]. unfold probe_next. rewrite land_mask_mod, IH.
    rewrite Nat.add_mod_idemp_l by exact P. f_equal. lia.
Qed.

Lemma probe_idx_lt h b q : probe_idx h (2 ^ b - 1) q < 2 ^ b.
Proof.
  rewrite probe_idx_mod. apply Nat.mod_upper_bound. pose proof (pow2_pos b); lia.
Qed.

(** Triangular numbers are pairwise distinct modulo a power of two. *)
Lemma pow2_divide_odd_l b (a c : Z) :
  (Z.odd a = true -> (2 ^ Z.of_nat b | a * c) -> (2 ^ Z.of_nat b | c))%Z.
Proof.
  intros Ha Hd. apply Z.gauss with a; [exact Hd|].
  apply Zgcd_1_rel_prime. apply rel_prime_sym. apply rel_prime_sym.
  assert (R : rel_prime 2 a).
  { apply Zgcd_1_rel_prime. apply Z.odd_spec in Ha as [m ->].
    replace (2 * m + 1)%Z with (1 + m * 2)%Z by lia. rewrite Z.gcd_add_mult_diag_r. reflexivity. }
  clear Hd. induction b as [|b IH].
  - simpl. apply Zis_gcd_intro; [exists 1%Z; lia|exists a; lia|intros x Hx _; exact Hx].
  - rewrite Nat2Z.inj_succ, Z.pow_succ_r by lia.
    apply rel_prime_sym, rel_prime_mult; apply rel_prime_sym; assumption.
Qed.

Lemma tri_inj_mod b q r :
  q < 2 ^ b -> r < 2 ^ b -> tri q mod 2 ^ b = tri r mod 2 ^ b -> q = r.
Proof.
  assert (W : forall q r, r <= q -> q < 2 ^ b -> tri q mod 2 ^ b = tri r mod 2 ^ b -> q = r).
  { clear. intros q r Hle Hq E.
    destruct (Nat.eq_dec q r) as [|Hne]; [assumption|exfalso].
    assert (P : 2 ^ b <> 0) by (pose proof (pow2_pos b); lia).
    assert (D : (2 ^ Z.of_nat b | Z.of_nat (tri q) - Z.of_nat (tri r))%Z).
    { assert (EZ : (Z.of_nat (2 ^ b) = 2 ^ Z.of_nat b)%Z) by (rewrite Nat2Z.inj_pow; reflexivity).
      rewrite <- EZ. apply Z.mod_divide; [lia|]. 
      rewrite Zminus_mod, <- !Nat2Z.inj_mod, E, Z.sub_diag. apply Z.mod_0_l. lia. }
    assert (D2 : (2 ^ Z.of_nat (S b) | (Z.of_nat q - Z.of_nat r) * (Z.of_nat q + Z.of_nat r + 1))%Z).
    { destruct D as [m Hm]. exists m. rewrite Nat2Z.inj_succ, Z.pow_succ_r by lia.
      pose proof (tri_double q). pose proof (tri_double r). nia. }
    assert (B : (Z.of_nat q < 2 ^ Z.of_nat b)%Z).
    { apply Nat2Z.inj_lt in Hq. rewrite Nat2Z.inj_pow in Hq. exact Hq. }
    assert (PB : (0 < 2 ^ Z.of_nat b)%Z) by (apply Z.pow_pos_nonneg; lia).
    assert (SB : (2 ^ Z.of_nat (S b) = 2 * 2 ^ Z.of_nat b)%Z) by (rewrite Nat2Z.inj_succ, Z.pow_succ_r; lia).
    destruct (Z.odd (Z.of_nat q - Z.of_nat r)) eqn:O.
    - apply pow2_divide_odd_l in D2; [|exact O].
      apply Z.divide_pos_le in D2; lia.
    - assert (O2 : Z.odd (Z.of_nat q + Z.of_nat r + 1) = true).
      { rewrite Z.odd_sub in O. rewrite !Z.odd_add. 
        destruct (Z.odd (Z.of_nat q)), (Z.odd (Z.of_nat r)); simpl in *; congruence. }
      rewrite Z.mul_comm in D2.
      apply pow2_divide_odd_l in D2; [|exact O2].
      apply Z.divide_pos_le in D2; lia. }
  intros Hq Hr E. destruct (le_lt_dec r q).
  - apply W; assumption.
  - symmetry. apply W; [lia|assumption|symmetry; assumption].
Qed.

Lemma probe_idx_inj h b q r :
  q < 2 ^ b -> r < 2 ^ b -> probe_idx h (2 ^ b - 1) q = probe_idx h (2 ^ b - 1) r -> q = r.
Proof.
  rewrite !probe_idx_mod. intros Hq Hr E.
  apply (tri_inj_mod b); [assumption..|].
  assert (P : 2 ^ b <> 0) by (pose proof (pow2_pos b); lia).
  set (a := N.to_nat (h mod 2 ^ N.of_nat b)) in *.
  assert (Z : forall x y, (a + x) mod 2 ^ b = (a + y) mod 2 ^ b -> x mod 2 ^ b = y mod 2 ^ b).
  { clear -P. intros x y E.
    assert (H : forall z, ((2 ^ b - a mod 2 ^ b) + (a + z)) mod 2 ^ b = z mod 2 ^ b).
    { intros z. pose proof (Nat.div_mod a (2 ^ b) P). pose proof (Nat.mod_upper_bound a (2 ^ b) P).
      replace (2 ^ b - a mod 2 ^ b + (a + z)) with (z + (a / 2 ^ b + 1) * 2 ^ b) by nia.
      apply Nat.mod_add. exact P. }
    rewrite <- (H x), <- (H y).
    rewrite <- Nat.add_mod_idemp_r by exact P. rewrite E. rewrite Nat.add_mod_idemp_r by exact P. reflexivity. }
  apply Z. exact E.
Qed.

Lemma h2_lt hash : (h2 hash < 128)%N.
Proof.
  unfold h2. change 127%N with (N.ones 7). rewrite N.land_ones. apply N.mod_lt. discriminate.
Qed.
Lemma h2_not_empty hash : h2 hash <> EMPTY.
Proof. pose proof (h2_lt hash). unfold EMPTY. lia. Qed.
Lemma h2_not_tomb hash : h2 hash <> TOMBMETA.
Proof. pose proof (h2_lt hash). unfold TOMBMETA. lia. Qed.

Lemma next_capacity_pow2 initial current active b :
  initial = 2 ^ b \/ initial <= Nat.shiftr current 1 \/ initial = 1 -> is_pow2 current = true -> 2 <= current ->
  is_pow2 (next_capacity initial current active) = true.
Proof.
  intros Hi Hc H2. apply is_pow2_spec in Hc as [c ->]. apply is_pow2_spec.
  assert (1 <= c) by (destruct c; simpl in *; lia).
  assert (S1 : Nat.shiftr (2 ^ c) 1 = 2 ^ (c - 1)).
  { rewrite Nat.shiftr_div_pow2. replace c with (S (c - 1)) at 1 by lia.
    rewrite Nat.pow_succ_r'. change (2 ^ 1) with 2. rewrite Nat.mul_comm, Nat.div_mul by lia. reflexivity. }
  unfold next_capacity.
  destruct (_ <=? active).
  - exists (S c). rewrite Nat.shiftl_mul_pow2. change (2^1) with 2. rewrite Nat.pow_succ_r'. lia.
  - destruct (active <=? _).
    + rewrite S1. pose proof (pow2_pos (c - 1)). destruct Hi as [->|[Hi| ->]].
      * destruct (Nat.max_spec (2 ^ b) (2 ^ (c - 1))) as [[_ ->]|[_ ->]]; eauto.
      * rewrite S1 in Hi. rewrite Nat.max_r by lia. eauto.
      * rewrite Nat.max_r by lia. eauto.
    + eauto.
Qed.
