(** The machine words behind the model's entry words.

    The machine model (Prog.v) has entry words made of an optional pointer and three tag bits.  The code has one [usize] per entry and computes the tags with
    bit operations (src/raw/utils/tagged.rs, src/raw/mod.rs:127-160).  Here: (1) C23, the encoding of the first by the second is faithful for every
    operation the code performs, provided the addresses of the entries are non-null and 8-aligned; (2) C48, whether they are, for every type of keys and
    values; (3) what happens at the level of the API when they are not. *)
From Verif Require Import Pure PureLemmas Prog.
From stdpp Require Import list numbers.
Local Open Scope N_scope.

(** * 1. The encoding *)
Section enc.
  Context (addr : nat → N).   (* where the allocator put entry number p *)
  (** The word that represents a model word. *)
  Definition enc (e : eword) : N :=
    N.lor (match e_ptr e with Some p => addr p | None => 0 end)
          ((if e_copying e then T_COPYING else 0) + (if e_copied e then T_COPIED else 0) + (if e_borrowed e then T_BORROWED else 0)).
  Definition well_placed : Prop := (∀ p, addr p ≠ 0 ∧ N.land (addr p) 7 = 0) ∧ (∀ p q, addr p = addr q → p = q).

  Lemma enc_split e : well_placed → word_ptr (enc e) = match e_ptr e with Some p => addr p | None => 0 end ∧
    word_tag (enc e) = (if e_copying e then 1 else 0) + (if e_copied e then 2 else 0) + (if e_borrowed e then 4 else 0).
  Proof.
    intros [WA _]. apply lor_tag_ptr.
    - destruct (e_ptr e) as [p|]; [apply WA|done].
    - destruct (e_copying e), (e_copied e), (e_borrowed e); vm_compute; congruence.
  Qed.
  (** Every operation on entry words in the code, on words and on the model:
      - comparisons of compare_exchange, [found.raw == TOMBSTONE] (2167, 2311): equality of words is equality of model words;
      - [unpack] (tagged.rs:32-40), [ptr.is_null()];
      - the tests of COPYING, COPIED, BORROWED (mod.rs:187, 363, 2582);
      - [fetch_or(COPYING)] (2160, 2308), [| BORROWED] (2325), [| COPYING | COPIED] (2336-2338), [untagged(ptr)] (447, 2184);
      - the constants null and TOMBSTONE. *)
  Theorem C23_encoding_faithful : well_placed →
    (∀ e e', enc e = enc e' ↔ e = e') ∧
    (∀ e, word_ptr (enc e) = match e_ptr e with Some p => addr p | None => 0 end) ∧
    (∀ e, word_ptr (enc e) = 0 ↔ e_ptr e = None) ∧
    (∀ e, word_has T_COPYING (enc e) = e_copying e ∧ word_has T_COPIED (enc e) = e_copied e ∧ word_has T_BORROWED (enc e) = e_borrowed e) ∧
    (∀ e, N.lor (enc e) T_COPYING = enc (set_copying e)) ∧
    (∀ e, N.lor (enc e) T_BORROWED = enc (EW (e_ptr e) (e_copying e) (e_copied e) true)) ∧
    (∀ e, N.lor (N.lor (enc e) T_COPYING) T_COPIED = enc (EW (e_ptr e) true true (e_borrowed e))) ∧
    (∀ e, word_ptr (enc e) = enc (EW (e_ptr e) false false false)) ∧
    enc NULLW = 0 ∧ enc TOMBW = W_TOMBSTONE.
  Proof.
    intros W. pose proof W as [WA WI]. split_and!.
    - intros e e'. split; [|congruence]. intros E.
      destruct (enc_split e W) as [P T], (enc_split e' W) as [P' T']. rewrite E in P, T. rewrite P in P'. rewrite T in T'. clear P T E.
      destruct e as [p a b c], e' as [p' a' b' c']; cbn in *.
      assert (p = p') as ->. { destruct p as [p|], p' as [p'|]; [f_equal; by apply WI| | |done]; exfalso; [by destruct (WA p)|by destruct (WA p')]. }
      destruct a, b, c, a', b', c'; cbn in T'; done.
    - intros e. by apply enc_split.
    - intros e. destruct (enc_split e W) as [-> _]. destruct (e_ptr e) as [p|]; [|done]. split; [|done]. intros E. by destruct (WA p).
    - intros e. destruct (enc_split e W) as [_ T]. unfold word_has. rewrite T. by destruct (e_copying e), (e_copied e), (e_borrowed e).
    - intros e. unfold enc, set_copying; cbn. rewrite <- N.lor_assoc. f_equal. by destruct (e_copying e), (e_copied e), (e_borrowed e).
    - intros e. unfold enc; cbn. rewrite <- N.lor_assoc. f_equal. by destruct (e_copying e), (e_copied e), (e_borrowed e).
    - intros e. unfold enc; cbn. rewrite <- !N.lor_assoc. f_equal. by destruct (e_copying e), (e_copied e), (e_borrowed e).
    - intros e. destruct (enc_split e W) as [-> _]. unfold enc; cbn. by rewrite N.lor_0_r.
    - done.
    - done.
  Qed.
End enc.
(** A placement that meets the hypothesis. *)
Example C23_placement : well_placed (λ p, 64 * (N.of_nat p + 1)).
Proof.
  split.
  - intros p. split; [lia|]. change 7 with (N.ones 3). rewrite N.land_ones. change (2 ^ 3) with 8.
    replace (64 * (N.of_nat p + 1)) with ((8 * (N.of_nat p + 1)) * 8) by lia. apply N.mod_mul. done.
  - intros p q E. lia.
Qed.
Print Assumptions C23_encoding_faithful.

(** * 2. Where the entries are *)
(** A type, as far as the allocator is concerned. In Rust the alignment is a power of two and divides the size. *)
Record ty := Ty { sz : N; al : N }.
Definition ty_ok (t : ty) : Prop := (∃ b, al t = 2 ^ b) ∧ (al t | sz t).
Definition round_up (n a : N) : N := (n + a - 1) / a * a.
(** src/raw/mod.rs:122-130: [#[repr(C)] struct Entry { key: K, value: V }] (the layout algorithm of repr(C)). *)
Definition entry_ty (k v : ty) : ty :=
  let a := N.max (al k) (al v) in Ty (round_up (round_up (sz k) (al v) + sz v) a) a.
(** The addresses [Box::into_raw(Box::new(entry))] (447, 1367) may return: for a type of size 0 the dangling address, equal to the alignment
    (alloc::boxed, [NonNull::dangling]); otherwise whatever the global allocator returns, of which only the alignment is known. *)
Definition box_addr (t : ty) (a : N) : Prop := if sz t =? 0 then a = al t else a ≠ 0 ∧ (al t | a) ∧ a + sz t ≤ 2 ^ 64.
(** The entry is found again: the stored word (447 [untagged], no tag) unpacks to the address of the entry, without tags. *)
Definition stored_well (a : N) : Prop := word_ptr a = a ∧ word_tag a = 0.

Lemma stored_iff a : stored_well a ↔ (8 | a).
Proof.
  unfold stored_well, word_ptr, word_tag. change TAGS with (N.ones 3). rewrite N.land_ones, N.ldiff_ones_r, N.shiftl_mul_pow2, N.shiftr_div_pow2.
  change (2 ^ 3) with 8. split.
  - intros [_ E]. by apply N.mod_divide.
  - intros D%N.mod_divide; [|done]. split; [|done]. pose proof (N.div_mod a 8 ltac:(done)). lia.
Qed.
Lemma pow2_div8 b : 8 ≤ 2 ^ b → (8 | 2 ^ b).
Proof.
  intros L. destruct (N.le_gt_cases 3 b) as [B|B].
  - exists (2 ^ (b - 3)). change 8 with (2 ^ 3). rewrite <- N.pow_add_r. f_equal. lia.
  - exfalso. assert (2 ^ b ≤ 2 ^ 2) by (apply N.pow_le_mono_r; lia). change (2 ^ 2) with 4 in *. lia.
Qed.
Lemma max_al k v : ty_ok k → ty_ok v → ∃ b, N.max (al k) (al v) = 2 ^ b.
Proof. intros [[b Hb] _] [[b' Hb'] _]. destruct (N.max_spec (al k) (al v)) as [[_ ->]|[_ ->]]; eauto. Qed.

(** C48: the entries of a map can be stored if one of the two types has alignment at least 8 (e.g. contains a [u64], a [usize], a pointer), or if
    the allocator happens to return multiples of 8. *)
Theorem C48_aligned_types_partial (k v : ty) (a : N) :
  ty_ok k → ty_ok v → box_addr (entry_ty k v) a → 8 ≤ N.max (al k) (al v) → stored_well a ∧ a ≠ 0.
Proof.
  intros Hk Hv B L. destruct (max_al k v Hk Hv) as [b Eb].
  assert (D : (8 | N.max (al k) (al v))) by (rewrite Eb in *; by apply pow2_div8).
  unfold box_addr in B. destruct (_ =? 0).
  - cbn in B. subst. split; [by apply stored_iff|lia].
  - destruct B as (A & D' & _). split; [|done]. apply stored_iff. by eapply N.divide_trans.
Qed.
Theorem C48_aligned_allocator_partial (k v : ty) (a : N) :
  box_addr (entry_ty k v) a → sz (entry_ty k v) ≠ 0 → (8 | a) → stored_well a ∧ a ≠ 0.
Proof. intros B Z D. unfold box_addr in B. apply N.eqb_neq in Z. rewrite Z in B. destruct B as (A & _ & _). split; [by apply stored_iff|done]. Qed.

(** For every pair of types with alignments below 8 there is an address that the allocator may return and that does not survive: the entry is
    lost or another address is dereferenced. *)
Theorem C48_small_alignment_refuted (k v : ty) :
  ty_ok k → ty_ok v → N.max (al k) (al v) < 8 → sz (entry_ty k v) ≤ 2 ^ 32 → ∃ a, box_addr (entry_ty k v) a ∧ ¬ stored_well a.
Proof.
  intros Hk Hv L Z. destruct (max_al k v Hk Hv) as [b Eb]. set (m := N.max (al k) (al v)) in *.
  assert (P : 0 < m) by (rewrite Eb; apply N.neq_0_lt_0, N.pow_nonzero; done).
  destruct (sz (entry_ty k v) =? 0) eqn:E.
  - exists m. split; [unfold box_addr; by rewrite E|]. rewrite stored_iff. intros D. apply N.divide_pos_le in D; lia.
  - exists (4096 + m). split.
    + unfold box_addr. rewrite E. split; [lia|]. split.
      * cbn. fold m. apply N.divide_add_r; [|apply N.divide_refl]. rewrite Eb. exists (2 ^ (12 - b)). change 4096 with (2 ^ 12). rewrite <- N.pow_add_r. f_equal.
        assert (b < 3); [|lia]. apply N.nle_gt. intros B. assert (2 ^ 3 ≤ 2 ^ b) by (apply N.pow_le_mono_r; lia). change (2 ^ 3) with 8 in *. lia.
      * assert (4096 + 8 + 2 ^ 32 ≤ 2 ^ 64) by (by vm_compute). lia.
    + rewrite stored_iff. intros D. apply N.divide_add_cancel_r in D; [|by exists 512]. apply N.divide_pos_le in D; lia.
Qed.
(** When both types have size 0 the allocator has no choice: the stored word always decodes to the null pointer. *)
Theorem C48_zero_size_refuted (k v : ty) (a : N) :
  ty_ok k → ty_ok v → sz k = 0 → sz v = 0 → N.max (al k) (al v) < 8 → box_addr (entry_ty k v) a → a ≠ 0 ∧ word_ptr a = 0.
Proof.
  intros Hk Hv Zk Zv L B. assert (P : ∀ t, ty_ok t → 0 < al t) by (intros t [[b ->] _]; apply N.neq_0_lt_0, N.pow_nonzero; done).
  pose proof (P k Hk). pose proof (P v Hv).
  assert (R0 : ∀ x, 0 < x → round_up 0 x = 0) by (intros x Hx; unfold round_up; by rewrite N.div_small by lia).
  assert (sz (entry_ty k v) = 0) as E. { cbn. rewrite Zk, Zv, R0 by done. rewrite R0; [done|lia]. }
  unfold box_addr in B. rewrite E in B. cbn in B. subst a. split; [lia|].
  unfold word_ptr. change TAGS with (N.ones 3). rewrite N.ldiff_ones_r, N.shiftr_div_pow2. change (2 ^ 3) with 8. by rewrite N.div_small by lia.
Qed.
(** [HashMap<(), ()>] / [HashSet<()>]. *)
Definition unit_ty : ty := Ty 0 1.
Definition u8_ty : ty := Ty 1 1.
Definition u64_ty : ty := Ty 8 8.
Example C48_unit : ty_ok unit_ty ∧ ty_ok u8_ty ∧ ty_ok u64_ty ∧ entry_ty u8_ty u64_ty = Ty 16 8 ∧ box_addr (entry_ty unit_ty unit_ty) 1 ∧ word_ptr 1 = 0 ∧
  word_has T_COPYING 1 = true ∧ box_addr (entry_ty u64_ty u8_ty) 4096 ∧ box_addr (entry_ty u8_ty u8_ty) 4097 ∧ word_ptr 4097 = 4096.
Proof.
  assert (D1 : ∀ x, (1 | x)) by apply N.divide_1_l.
  split_and!; try (split; [by exists 0|apply D1]); try done.
  all: split; [by exists 3|by exists 1] || (split_and!; try done; cbn; (apply D1 || by exists 512)).
Qed.
Print Assumptions C48_aligned_types_partial.
Print Assumptions C48_small_alignment_refuted.
Print Assumptions C48_zero_size_refuted.

(** * 3. The effect: insert and get on words, one thread, one table *)
(** A table: metadata bytes and entry words. *)
Notation wtab := (list (N * N)).
(** [get] (330-385) for a key with metadata [m], the only key of its type or distinguished by [eqk] applied to the address of the entry found. *)
Fixpoint w_get (fuel : nat) (t : wtab) (hash : N) (mask q : nat) (eqk : N → bool) : option N :=
  match fuel with
  | O => None
  | S n =>
    match t !! probe_idx hash mask q with
    | None => None
    | Some (m, w) =>
      if m =? h2 hash then
        if word_ptr w =? 0 then w_get n t hash mask (S q) eqk              (* 346-349 *)
        else if eqk (word_ptr w) then Some (word_ptr w) else w_get n t hash mask (S q) eqk
      else if m =? EMPTY then None else w_get n t hash mask (S q) eqk
    end
  end.
(** [insert_inner] (456-590) of the entry at address [a]: [inl (inl t')] inserted, [inl (inr t')] replaced, [inr] over the probe limit. *)
Fixpoint w_insert (fuel : nat) (t : wtab) (hash : N) (mask q : nat) (eqk : N → bool) (a : N) : (wtab + wtab) + unit :=
  match fuel with
  | O => inr tt
  | S n =>
    let i := probe_idx hash mask q in
    match t !! i with
    | None => inr tt
    | Some (m, w) =>
      if m =? EMPTY then
        if w =? 0 then inl (inl (<[i := (h2 hash, a)]> t))                 (* 486, 889-905: CAS null -> a, then the metadata *)
        else w_insert n t hash mask (S q) eqk a
      else if m =? h2 hash then
        if word_ptr w =? 0 then w_insert n t hash mask (S q) eqk a         (* 511-514 *)
        else if eqk (word_ptr w) then inl (inr (<[i := (m, a)]> t))        (* 551, 958-970: CAS w -> a *)
        else w_insert n t hash mask (S q) eqk a
      else w_insert n t hash mask (S q) eqk a
    end
  end.
(** The fresh table with [2^b] slots ([Table::alloc]: zeroed words, EMPTY metadata). *)
Definition fresh (b : nat) : wtab := replicate (2 ^ b)%nat (EMPTY, 0).

Lemma h2_ne_EMPTY h : (h2 h =? EMPTY) = false.
Proof. apply N.eqb_neq. apply h2_not_empty. Qed.
Lemma fresh_at b h q : fresh b !! probe_idx h (2 ^ b - 1)%nat q = Some (EMPTY, 0).
Proof. apply lookup_replicate_2, probe_idx_lt. Qed.

(** With a well placed entry, [insert] followed by [get] finds the entry. *)
Theorem C48_insert_then_get_partial (b : nat) (hash a : N) (eqk : N → bool) (n : nat) :
  stored_well a → a ≠ 0 → eqk a = true →
  ∃ t, w_insert (S n) (fresh b) hash (2 ^ b - 1)%nat 0 eqk a = inl (inl t) ∧ w_get (S n) t hash (2 ^ b - 1)%nat 0 eqk = Some a.
Proof.
  intros [Wp _] A E. cbn [w_insert]. rewrite fresh_at. rewrite (eq_refl : (EMPTY =? EMPTY) = true), (eq_refl : (0 =? 0) = true). set (i0 := probe_idx hash (2 ^ b - 1)%nat 0). eexists. split; [reflexivity|]. cbn [w_get]. fold i0. rewrite list_lookup_insert by (unfold fresh; rewrite replicate_length; apply probe_idx_lt).
  rewrite N.eqb_refl, Wp. apply N.eqb_neq in A. by rewrite A, E.
Qed.
(** The unit types: after an [insert] that reported success, [get] of the same key finds nothing, and a second [insert] of the same key reports
    "inserted" once more instead of "replaced" — for every hash and every table size with at least two slots. *)
Theorem C48_unit_set_loses_its_element_refuted (b : nat) (hash a : N) (n : nat) : (1 ≤ b)%nat → box_addr (entry_ty unit_ty unit_ty) a →
  let mask := (2 ^ b - 1)%nat in let any := λ _ : N, true in
  ∃ t t', w_insert (S (S n)) (fresh b) hash mask 0 any a = inl (inl t) ∧ w_get (S (S n)) t hash mask 0 any = None ∧
    w_insert (S (S n)) t hash mask 0 any a = inl (inl t').
Proof.
  intros Lb B. assert (a = 1) as -> by apply B. cbn zeta. cbn [w_insert]. rewrite fresh_at. rewrite (eq_refl : (EMPTY =? EMPTY) = true), (eq_refl : (0 =? 0) = true).
  set (i0 := probe_idx hash (2 ^ b - 1)%nat 0). set (i1 := probe_idx hash (2 ^ b - 1)%nat 1).
  assert (i0 < 2 ^ b)%nat by apply probe_idx_lt.
  assert (P2 : (2 ≤ 2 ^ b)%nat) by (change 2%nat with (2 ^ 1)%nat at 1; apply Nat.pow_le_mono_r; lia).
  assert (NE : i0 ≠ i1). { intros E. pose proof (probe_idx_inj hash b 0 1 ltac:(lia) ltac:(lia) E). lia. }
  eexists _, _. split; [reflexivity|]. cbn [w_get].
  rewrite !list_lookup_insert by (unfold fresh; rewrite replicate_length; done). rewrite N.eqb_refl, h2_ne_EMPTY.
  rewrite (eq_refl : (word_ptr 1 =? 0) = true).
  fold i1. rewrite !list_lookup_insert_ne by done. unfold i1. rewrite !fresh_at. rewrite (eq_refl : (EMPTY =? EMPTY) = true), (eq_refl : (0 =? 0) = true).
  assert ((EMPTY =? h2 hash) = false) as -> by (rewrite N.eqb_sym; apply h2_ne_EMPTY).
  done.
Qed.
Print Assumptions C48_insert_then_get_partial.
Print Assumptions C48_unit_set_loses_its_element_refuted.
