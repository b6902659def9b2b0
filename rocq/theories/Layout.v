(** C49: the memory layout of a table (src/raw/alloc.rs): one allocation holds the header, [len] metadata bytes and [len] entry pointers.

    Parameters: [P] the size and alignment of a pointer in bytes, [W] the number of bits of [usize], [H] and [A] the size and alignment of [TableLayout<T>]
    (18-32). Rust guarantees: A is a power of two, divides H, and is a multiple of the alignment P of the field [entries]; isize::MAX = 2^(W-1) - 1. *)
From Verif Require Import Pure PureLemmas.
From stdpp Require Import list numbers.
Local Open Scope N_scope.

Record target := Target { tg_P : N; tg_W : N; tg_H : N; tg_A : N }.
Definition target_ok (g : target) : Prop :=
  tg_P g ≠ 0 ∧ (∃ p, tg_P g = 2 ^ p) ∧ (tg_P g | tg_A g) ∧ (tg_A g | tg_H g) ∧ 0 < tg_H g ∧ tg_W g = 8 * tg_P g ∧ tg_H g ≤ 2 ^ (tg_W g - 8) ∧ tg_A g ≤ 2 ^ (tg_W g - 8).
Definition wrap (g : target) (n : N) : N := n mod 2 ^ tg_W g.

(** alloc.rs:208-214 [layout]: [size_of::<TableLayout>() + 1 * len + P * len], in the arithmetic of a release build (wrapping), then
    [Layout::from_size_align(size, align).unwrap()]: [None] = panic. *)
Definition layout (g : target) (len : N) : option N :=
  let size := wrap g (wrap g (tg_H g + wrap g (1 * len)) + wrap g (tg_P g * len)) in
  if size + (tg_A g - 1) <=? 2 ^ (tg_W g - 1) - 1 then Some size else None.
(** The same in a debug build, in which an overflow panics. *)
Definition layout_debug (g : target) (len : N) : option N :=
  if tg_H g + len + tg_P g * len <? 2 ^ tg_W g then layout g len else None.
(** alloc.rs:58-95 [alloc]: the padded length and the size of the allocation; [None] = panic. *)
Definition table_alloc (g : target) (len : N) : option (N * N) :=
  if bool_decide (len = 2 ^ N.log2 len) then
    let len := N.max len (tg_P g) in match layout g len with Some s => Some (len, s) | None => None end
  else None.
(** alloc.rs:127-134 [meta], 143-151 [entry]: addresses relative to the allocation, not wrapped. *)
Definition meta_at (g : target) (i : N) : N := tg_H g + i.
Definition entry_at (g : target) (len i : N) : N := tg_H g + len + tg_P g * i.

(** What the unsafe code relies on: every cell is inside the allocation, aligned, and shares no byte with the header or another cell. *)
Definition sound_layout (g : target) (len size : N) : Prop :=
  (∀ i, i < len → tg_H g ≤ meta_at g i ∧ meta_at g i + 1 ≤ size) ∧
  (∀ i, i < len → tg_H g ≤ entry_at g len i ∧ entry_at g len i + tg_P g ≤ size ∧ (tg_P g | entry_at g len i)) ∧
  (∀ i j, i < len → j < len → i ≠ j → meta_at g i ≠ meta_at g j) ∧
  (∀ i j, i < len → j < len → meta_at g i + 1 ≤ entry_at g len j) ∧
  (∀ i j, i < j → j < len → entry_at g len i + tg_P g ≤ entry_at g len j).

Lemma sound_unwrapped g len size : target_ok g → (tg_P g | len) → tg_H g + len + tg_P g * len ≤ size → sound_layout g len size.
Proof.
  intros (P0 & _ & PA & AH & _ & _ & _) D L. unfold sound_layout, meta_at, entry_at. split_and!; try (intros; lia).
  - intros i Hi. split; [lia|]. assert (0 < tg_P g) by lia. pose proof (N.mul_le_mono_l (i + 1) len (tg_P g) ltac:(lia)).
    split; [lia|]. apply N.divide_add_r; [apply N.divide_add_r; [by apply (N.divide_trans _ (tg_A g))|done]|exists i; apply N.mul_comm].
  - intros i j Hij Hj. pose proof (N.mul_le_mono_l (i + 1) j (tg_P g) ltac:(lia)). lia.
Qed.
(** A table as big as the address space allows cannot wrap: if the allocation succeeded and is smaller than an eighth of the
    address space, or if the arithmetic is checked, the layout is sound and [dealloc] (alloc.rs:190-200, which recomputes the layout from
    the stored mask) passes the same layout. *)
Lemma pow_split g : target_ok g → 2 ^ tg_W g = 256 * 2 ^ (tg_W g - 8).
Proof. intros (P0 & _ & _ & _ & _ & W & _). change 256 with (2 ^ 8). rewrite <- N.pow_add_r. f_equal. lia. Qed.
Lemma alloc_len_div g n : target_ok g → n = 2 ^ N.log2 n → (tg_P g | N.max n (tg_P g)).
Proof.
  intros (P0 & [p Hp] & _) E. destruct (N.max_spec n (tg_P g)) as [[_ ->]|[L ->]]; [apply N.divide_refl|].
  rewrite Hp in *. rewrite E in *. assert (p ≤ N.log2 n) by (apply N.nlt_ge; intros X; apply (N.pow_lt_mono_r 2) in X; lia).
  exists (2 ^ (N.log2 n - p)). rewrite <- N.pow_add_r. f_equal. lia.
Qed.
Lemma layout_nowrap g len : tg_H g + len + tg_P g * len < 2 ^ tg_W g → layout g len = if tg_H g + len + tg_P g * len + (tg_A g - 1) <=? 2 ^ (tg_W g - 1) - 1 then Some (tg_H g + len + tg_P g * len) else None.
Proof.
  intros L. unfold layout, wrap. rewrite N.mul_1_l. set (y := tg_P g * len) in *. rewrite (N.mod_small len) by lia. rewrite (N.mod_small y) by lia.
  rewrite (N.mod_small (tg_H g + len)) by lia. rewrite N.mod_small by lia. done.
Qed.
Theorem C49_layout_sound_checked g n len size : target_ok g → bool_decide (n = 2 ^ N.log2 n) = true → len = N.max n (tg_P g) →
  layout_debug g len = Some size → sound_layout g len size ∧ layout_debug g (len - 1 + 1) = Some size.
Proof.
  intros T B -> E. apply bool_decide_eq_true in B. split.
  - apply sound_unwrapped; [done|by apply alloc_len_div|]. revert E. unfold layout_debug. destruct (_ <? _) eqn:L; [|done]. apply N.ltb_lt in L. rewrite layout_nowrap by done.
    destruct (_ <=? _); [|done]. intros E; apply (f_equal (default 0)) in E; cbn [default] in E; unfold default, id in E; rewrite <- E; lia.
  - replace (N.max n (tg_P g) - 1 + 1) with (N.max n (tg_P g)); [done|]. destruct T. lia.
Qed.
(** 64-bit targets, release build: sound for every allocation that exists, i.e. that fits in the 2^57 bytes that processors address today. *)
Theorem C49_layout_sound_64 g n len size : target_ok g → tg_P g = 8 → bool_decide (n = 2 ^ N.log2 n) = true → n < 2 ^ 64 →
  table_alloc g n = Some (len, size) → size ≤ 2 ^ 57 → sound_layout g len size ∧ layout g (len - 1 + 1) = Some size.
Proof.
  intros T P8 B Ln E S. unfold table_alloc in E. rewrite B in E. destruct (layout g _) as [s|] eqn:El; [|done]. injection E as <- <-.
  apply bool_decide_eq_true in B. pose proof T as (P0 & _ & PA & AH & H0 & W & HW & AW). rewrite P8 in *. assert (tg_W g = 64) as W64 by lia. rewrite W64 in *.
  set (len := N.max n 8) in *. assert (exists b, len = 2 ^ b ∧ b < 64) as (b & Eb & Lb).
  { unfold len. destruct (N.max_spec n 8) as [[_ ->]|[_ ->]]; [by exists 3|]. exists (N.log2 n). split; [done|]. apply N.log2_lt_pow2; [|done].
    rewrite B. apply N.neq_0_lt_0, N.pow_nonzero. done. }
  assert (NW : tg_H g + len + 8 * len ≤ s).
  { revert El. destruct (N.le_gt_cases b 59) as [L59|G59].
    - assert (len ≤ 2 ^ 59) by (rewrite Eb; apply N.pow_le_mono_r; lia).
      assert (tg_H g + 9 * len < 2 ^ 64). { change (2 ^ (64 - 8)) with (2 ^ 56) in HW. assert (2 ^ 56 + 9 * 2 ^ 59 < 2 ^ 64) by done. lia. }
      rewrite layout_nowrap by (rewrite W64, P8; lia). rewrite P8. destruct (_ <=? _); [|done]. intros E; apply (f_equal (default 0)) in E; cbn [default] in E; unfold default, id in E; rewrite <- E; lia.
    - assert (b = 60 ∨ b = 61 ∨ b = 62 ∨ b = 63) as C by lia. change (2 ^ (64 - 8)) with (2 ^ 56) in *. rewrite Eb.
      destruct C as [->|[->|[->| ->]]].
      + assert (tg_H g + 9 * 2 ^ 60 < 2 ^ 64). { assert (2 ^ 56 + 9 * 2 ^ 60 < 2 ^ 64) by done. lia. }
        rewrite layout_nowrap by (rewrite W64, P8; lia). rewrite P8. destruct (_ <=? _) eqn:Q; [|done]. intros E; apply (f_equal (default 0)) in E; cbn [default] in E; unfold default, id in E; rewrite <- E; lia.
      + unfold layout, wrap. rewrite W64, P8, N.mul_1_l. rewrite (N.mod_small (2 ^ 61)) by done. change (8 * 2 ^ 61) with (2 ^ 64). rewrite N.mod_same by done. rewrite N.add_0_r.
        assert (tg_H g + 2 ^ 61 < 2 ^ 64). { assert (2 ^ 56 + 2 ^ 61 < 2 ^ 64) by done. lia. }
        rewrite N.mod_mod by done. rewrite N.mod_small by done. destruct (_ <=? _); [|done]. intros E; apply (f_equal (default 0)) in E; unfold default, id in E; subst s; assert (2 ^ 57 < 2 ^ 61) by done. lia.
      + unfold layout, wrap. rewrite W64, P8, N.mul_1_l. rewrite (N.mod_small (2 ^ 62)) by done. change (8 * 2 ^ 62) with (2 * 2 ^ 64). rewrite N.mod_mul by done. rewrite N.add_0_r.
        assert (tg_H g + 2 ^ 62 < 2 ^ 64). { assert (2 ^ 56 + 2 ^ 62 < 2 ^ 64) by done. lia. }
        rewrite N.mod_mod by done. rewrite N.mod_small by done. destruct (_ <=? _); [|done]. intros E; apply (f_equal (default 0)) in E; unfold default, id in E; subst s; assert (2 ^ 57 < 2 ^ 62) by done. lia.
      + unfold layout, wrap. rewrite W64, P8, N.mul_1_l. rewrite (N.mod_small (2 ^ 63)) by done. change (8 * 2 ^ 63) with (4 * 2 ^ 64). rewrite N.mod_mul by done. rewrite N.add_0_r.
        assert (tg_H g + 2 ^ 63 < 2 ^ 64). { assert (2 ^ 56 + 2 ^ 63 < 2 ^ 64) by done. lia. }
        rewrite N.mod_mod by done. rewrite N.mod_small by done. destruct (_ <=? _) eqn:Q; [|done]. intros E; apply (f_equal (default 0)) in E; unfold default, id in E; subst s; assert (2 ^ 57 < 2 ^ 63) by done. lia. }
  split.
  - apply sound_unwrapped; [done|pose proof (alloc_len_div g n T B) as D; by rewrite P8 in D |- *|rewrite P8; lia].
  - replace (len - 1 + 1) with len by lia. done.
Qed.

(** probe.rs:39-43 [entries_for] on [W]-bit words. *)
Definition entries_for_w (W c : N) : option N :=
  if c * 8 <? 2 ^ W then Some (2 ^ N.log2_up (c * 8 / 6)) else None.
(** A 32-bit target; header of 96 bytes (the exact number does not matter, see the theorem). *)
Definition t32 (H : N) : target := Target 4 32 H 4.
(** Refuted on 32-bit targets in release builds: [HashMap::with_capacity(450_000_000)] computes a table of 2^30 slots, for which the size computation wraps around
    to little more than 1 GiB (4 GiB are missing): the allocation may succeed, and every entry lies outside of it. *)
Theorem C49_layout_32bit_refuted (H : N) : (4 | H) → 0 < H → H ≤ 2 ^ 24 →
  target_ok (t32 H) ∧ entries_for_w 32 450000000 = Some (2 ^ 30) ∧ table_alloc (t32 H) (2 ^ 30) = Some (2 ^ 30, H + 2 ^ 30) ∧
  (∀ i, H + 2 ^ 30 ≤ entry_at (t32 H) (2 ^ 30) i) ∧ ¬ sound_layout (t32 H) (2 ^ 30) (H + 2 ^ 30) ∧ layout_debug (t32 H) (2 ^ 30) = None.
Proof.
  intros D H0 HL. assert (target_ok (t32 H)) as T.
  { unfold target_ok; cbn [t32 tg_P tg_W tg_H tg_A]. split_and!; try done. by exists 2. }
  split; [done|]. split; [by vm_compute|]. split_and!.
  - unfold table_alloc. rewrite bool_decide_true by (by vm_compute). cbn [t32 tg_P]. change (N.max (2 ^ 30) 4) with (2 ^ 30).
    unfold layout, wrap. cbn [t32 tg_P tg_W tg_H tg_A]. change (4 * 2 ^ 30) with (2 ^ 32). rewrite N.mul_1_l. rewrite N.mod_same by done.
    rewrite (N.mod_small (2 ^ 30)) by done. rewrite N.add_0_r. change (2 ^ 24) with 16777216 in HL. change (2 ^ 30) with 1073741824. change (2 ^ 32) with 4294967296.
    rewrite N.mod_mod by done. rewrite N.mod_small by lia. change (2 ^ (32 - 1)) with 2147483648. destruct (_ <=? _) eqn:Q; [done|]. apply N.leb_gt in Q. lia.
  - intros i. unfold entry_at; cbn [t32 tg_P tg_W tg_H tg_A]. lia.
  - intros (_ & X & _). destruct (X 1 ltac:(done)) as (_ & Y & _). revert Y. unfold entry_at; cbn [t32 tg_P tg_W tg_H tg_A]. lia.
  - unfold layout_debug; cbn [t32 tg_P tg_W tg_H tg_A]. change (4 * 2 ^ 30) with (2 ^ 32). destruct (_ <? _) eqn:Q; [|done]. apply N.ltb_lt in Q. lia.
Qed.
(** Without the padding of the length (alloc.rs:61-62) a table of 2 or 4 slots would have misaligned entries. *)
Example C49_padding_needed : ¬ (8 | entry_at (Target 8 64 128 8) 4 0) ∧ (8 | entry_at (Target 8 64 128 8) (N.max 4 8) 0).
Proof. split; [|by exists 17]. unfold entry_at; cbn. intros [z Hz]. lia. Qed.
(** A 64-bit target and a table that meet the hypotheses: 65536 slots. *)
Example C49_64_ex : target_ok (Target 8 64 128 8) ∧ table_alloc (Target 8 64 128 8) 65536 = Some (65536, 589952) ∧ table_alloc (Target 8 64 128 8) 2 = Some (8, 200) ∧
  table_alloc (Target 8 64 128 8) 5 = None.
Proof. split_and!; [|by vm_compute..]. unfold target_ok; cbn [tg_P tg_W tg_H tg_A]. split_and!; try done; (by exists 3) || (by exists 1) || by exists 16. Qed.
Print Assumptions C49_layout_sound_checked.
Print Assumptions C49_layout_sound_64.
Print Assumptions C49_layout_32bit_refuted.
