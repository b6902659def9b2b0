(** Properties C20-C23: arithmetic of capacities, probing, metadata and tagged words. *)
From Coq Require Import NArith Arith Lia List Bool ZArith.
From Verif Require Import Pure PureLemmas.
Local Open Scope nat_scope.

(** C20. [entries_for n], padded to the real table length, holds [n] elements at a load of at most 3/4,
    is a power of two, and on 64-bit words either overflows (panic) or computes exactly that. *)
Theorem C20_entries_for_load (n : nat) :
  4 * n <= 3 * Nat.max (entries_for n) 8 /\ exists b, entries_for n = 2 ^ b.
Proof. exact (conj (entries_for_load n) (entries_for_pow2 n)). Qed.
Print Assumptions C20_entries_for_load.

Theorem C20_entries_for_u64 (c r : N) :
  entries_for_u64 c = Some r -> N.to_nat r = entries_for (N.to_nat c) /\ (r < 2 ^ 63)%N.
Proof. exact (entries_for_u64_spec c r). Qed.
Print Assumptions C20_entries_for_u64.
Example C20_u64_ok : entries_for_u64 1000000 = Some 2097152%N.
Proof. reflexivity. Qed.
Example C20_u64_overflow : entries_for_u64 (2 ^ 61) = None.
Proof. reflexivity. Qed.

(** The capacity chosen at a resize never drops below the initial capacity if the table was not below it. *)
Theorem C20_never_below_initial (initial current active : nat) :
  initial <= current -> initial <= next_capacity initial current active.
Proof. exact (next_capacity_ge_initial initial current active). Qed.
Print Assumptions C20_never_below_initial.
Example C20_never_below_ex : next_capacity 16 32 0 = 16 /\ next_capacity 16 16 0 = 16.
Proof. split; reflexivity. Qed.

(** C21. Probing stays in bounds and the first [len] probes of a power-of-two table hit every slot once. *)
Theorem C21_probe_in_bounds (h : N) (b q : nat) : probe_idx h (2 ^ b - 1) q < 2 ^ b.
Proof. exact (probe_idx_lt h b q). Qed.
Print Assumptions C21_probe_in_bounds.

Theorem C21_probe_permutation (h : N) (b : nat) :
  (forall q r, q < 2 ^ b -> r < 2 ^ b -> probe_idx h (2 ^ b - 1) q = probe_idx h (2 ^ b - 1) r -> q = r) /\
  (forall j, j < 2 ^ b -> exists q, q < 2 ^ b /\ probe_idx h (2 ^ b - 1) q = j).
Proof. exact (conj (fun q r => probe_idx_inj h b q r) (fun j => probe_covers h b j)). Qed.
Print Assumptions C21_probe_permutation.

(** Every successful table allocation has a length of the form [2^b] with [b >= 3], so C21 applies to it. *)
Theorem C21_alloc_is_pow2 (len n : nat) : alloc_len len = Some n -> exists b, 3 <= b /\ n = 2 ^ b.
Proof. exact (alloc_len_pow2 len n). Qed.
Print Assumptions C21_alloc_is_pow2.
Example C21_alloc_ex : alloc_len 32 = Some 32 /\ alloc_len 2 = Some 8 /\ alloc_len 5 = None.
Proof. repeat split; reflexivity. Qed.

(** C22. Metadata bytes of keys are 7-bit values, distinct from both sentinels. *)
Theorem C22_h2_not_sentinel (hash : N) :
  (h2 hash < 128)%N /\ h2 hash <> EMPTY /\ h2 hash <> TOMBMETA.
Proof. exact (conj (h2_lt hash) (conj (h2_not_empty hash) (h2_not_tomb hash))). Qed.
Print Assumptions C22_h2_not_sentinel.

(** C23. For an 8-aligned address [a] and any tag combination [t], the tagged word unpacks to exactly
    [a] and [t]; the tombstone word has a null address but differs from null. *)
Theorem C23_tag_roundtrip (a t : N) :
  (N.land a 7 = 0)%N -> (t <= 7)%N -> word_ptr (N.lor a t) = a /\ word_tag (N.lor a t) = t.
Proof. exact (lor_tag_ptr a t). Qed.
Print Assumptions C23_tag_roundtrip.
Example C23_ex : word_ptr (N.lor 4096 5) = 4096%N /\ word_tag (N.lor 4096 5) = 5%N /\
  word_ptr W_TOMBSTONE = 0%N /\ W_TOMBSTONE <> 0%N.
Proof. repeat split; reflexivity || discriminate. Qed.

Theorem C23_word_decomposes (w : N) : (w = word_ptr w + word_tag w)%N.
Proof. exact (word_split w). Qed.
Print Assumptions C23_word_decomposes.
