(** C59: the blocking resize under weak memory.

    C12 and C55 speak of sequentially consistent accesses. Here the whole protocol of [help_copy_blocking] and [try_promote] runs over release/acquire memory with the orderings found in the code:
    any number of helpers claim chunks of slots, mark and copy them, count them, abort a table that is too small and go on in the next one, promote, and wait for the promotion; all the time other
    threads write to the old table, and, once they have learned of the promotion, to the new one. What is proved: whoever takes a table for the current one knows of every write that ever
    succeeded in any older table, and of the copy of every entry that was left there.

    Memory model: as in Weak.v and WeakMap.v. Every location has messages; a thread may read any message that is not older than the last one it knows about (its view); an acquire read joins the view
    of the message; a release write attaches the view of the writer; a read-modify-write reads the last message, writes the next one and continues its release sequence. SeqCst is
    weakened to release/acquire. Loads of the counters and of the status may read any message at all, even one older than the thread knows.

    What is modelled: the root, the entry word and the metadata byte of every slot (empty or not), the claim counter, the count of copied slots, the status, the next-table pointer.
    [tot t] is the length of table [t]. Table [S t] is the one allocated by [get_or_alloc_next] for table [t]: the chain of tables is linear.
    Simplifications: which slot an entry is copied to is left open (probing under weak memory: C54), and any copy may fail for lack of room; the length-estimate of the new table, the parker (C53) and
    the tombstone put on the metadata of an empty slot are left out; entries are not reclaimed (C15, C50). *)
From stdpp Require Import base list option numbers.
Local Open Scope nat_scope.

Inductive ordering := Rlx | Acq | Rel | AcqRel | SC.
Definition is_acq (o : ordering) : bool := match o with Acq | AcqRel | SC => true | _ => false end.
Definition is_rel (o : ordering) : bool := match o with Rel | AcqRel | SC => true | _ => false end.

(** The orderings in the code (src/raw/mod.rs). *)
Definition o_root : ordering := Acq.        (* 280 *)
Definition o_meta : ordering := Acq.        (* 335, 476, 711, 2385 *)
Definition o_meta_st : ordering := Rel.     (* 901, 932, 768, 2403 *)
Definition o_ent : ordering := Acq.         (* 342, 507, 729 *)
Definition o_cas : ordering := Rel.         (* 895, 965, success *)
Definition o_mark : ordering := AcqRel.     (* fetch_or(COPYING), 2160 *)
Definition o_copy : ordering := Rel.        (* 2397, success *)
Definition o_next : ordering := Acq.        (* alloc.rs:181 *)
Definition o_next_st : ordering := Rel.     (* 1978 *)
Definition o_done : ordering := AcqRel.     (* copied.fetch_add, 2457 *)
Definition o_done_ld : ordering := Acq.     (* copied.load, 2459 *)
Definition o_promote : ordering := Rel.     (* compare_exchange of the root, success, 2474 *)
Definition o_promote_fail : ordering := Acq. (* failure, 2474 *)
Definition o_status_st : ordering := SC.    (* 2064, 2481 *)
Definition o_status : ordering := Acq.      (* 2108 *)
Definition o_status_ab : ordering := Rlx.   (* 2025, 2087 *)

(** Entry words: what the slot holds, and the COPYING bit. *)
Inductive cont := CNull | CTomb | CEnt (e : nat).
Record word := W { wc : cont; wm : bool }.
Global Instance cont_dec : EqDecision cont. Proof. solve_decision. Defined.

Record view := View { ve : nat → nat → nat;       (* entry words: table, slot *)
                      vm : nat → nat → nat;       (* metadata *)
                      vr : nat;                   (* root *)
                      vk : nat → bool }.          (* entries whose contents it knows to be written *)
Definition bot : view := View (λ _ _, 0) (λ _ _, 0) 0 (λ _, false).
Definition join (w w' : view) : view := View (λ t k, ve w t k `max` ve w' t k) (λ t k, vm w t k `max` vm w' t k) (vr w `max` vr w') (λ e, vk w e || vk w' e).
Definition one2 (t k l : nat) : nat → nat → nat := λ t' k', if decide (t' = t ∧ k' = k) then l else 0.
Definition at_e t k l : view := View (one2 t k l) (λ _ _, 0) 0 (λ _, false).
Definition at_m t k l : view := View (λ _ _, 0) (one2 t k l) 0 (λ _, false).
Definition at_r l : view := View (λ _ _, 0) (λ _ _, 0) l (λ _, false).
(** The writer of a word that holds entry [e] has written the contents of [e] before. *)
Definition made (c : cont) : view := match c with CEnt e => View (λ _ _, 0) (λ _ _, 0) 0 (λ e', bool_decide (e' = e)) | _ => bot end.
(** View after reading a message with view [u] at [x], and the view attached to a written message. *)
Definition rdv (o : ordering) (w x u : view) : view := join (join w x) (if is_acq o then u else bot).
Definition wrv (o : ordering) (w x : view) : view := if is_rel o then join w x else x.

Section WeakBlk.
Context (tot : nat → nat).

(** Program points. [t]: the table in use or copied from; [n]: the table copied to; [ks]: slots of the claimed chunk not yet copied; [dn]: those copied. *)
Inductive point :=
  | Idle
  | Use (t : nat)                                        (* a call works on table t *)
  | Hp (t n : nat)                                       (* 'copy: 2023 *)
  | Cp (t n : nat) (ks dn : list nat)                    (* 2047: copying a chunk *)
  | Ci (t n k e : nat) (ks dn : list nat)                (* slot k is marked and holds e, before insert_copy *)
  | Cm (t n k e k' : nat) (ks dn : list nat)             (* e is in slot k' of n, before 2403 *)
  | Ab (t n : nat)                                       (* no room, before 2064 *)
  | Al (t n : nat)                                       (* n is aborted, before get_or_alloc_next *)
  | Ck (t n : nat)                                       (* all are copied, before 2464 *)
  | Ps (t n : nat).                                      (* root replaced, before 2481 *)

(** Events: thread [i] takes table [t] for the current one ([b]: as the root it loaded when its call started); slot [k] of [t] is copied to slot [k'] of [n]; thread [i] finds entry [e]; thread [i] synchronises with [j]. Newest first. *)
Inductive ev := EUse (i t : nat) (b : bool) | ECopy (t n k k' e : nat) | EFind (i e : nat) | ESync (i j : nat).
(** The tables thread [i] has used, or knows of through synchronisation. *)
Fixpoint kn (tr : list ev) (i : nat) : list nat :=
  match tr with
  | [] => []
  | EUse j t _ :: tr => if decide (j = i) then t :: kn tr i else kn tr i
  | ECopy _ _ _ _ _ :: tr | EFind _ _ :: tr => kn tr i
  | ESync j l :: tr => if decide (j = i) then kn tr i ++ kn tr l else kn tr i
  end.

Record wst := WSt {
  ent : nat → nat → list (word * view);              (* messages of the entry words, in modification order *)
  met : nat → nat → nat → option (bool * view);      (* metadata: true: not empty *)
  nxt : nat → option view;                           (* next-table pointers *)
  root : list (nat * view);
  don : nat → list (list nat * view);                (* the count of slots copied to n: the chunks counted, one message for each *)
  sta : nat → list (bool * view);                    (* status stores: true: PROMOTED, false: ABORTED *)
  cl : nat → nat;                                    (* claim counters *)
  own : nat → nat → option nat;                      (* who claimed slot k for the copy to n (ghost) *)
  dst : nat → nat → option nat;                      (* where slot k was copied to in n (ghost) *)
  lost : nat → option nat;                           (* a slot that could not be copied to n (ghost) *)
  hist : list ev;
  vw : nat → view;
  pc : nat → point }.

Definition fset {A B} `{EqDecision A} (f : A → B) (a : A) (b : B) : A → B := λ a', if decide (a' = a) then b else f a'.
Definition fset2 {B} (f : nat → nat → B) (t j : nat) (b : B) : nat → nat → B := λ t' j', if decide (t' = t ∧ j' = j) then b else f t' j'.
Definition thr (i : nat) (w : view) (p : point) (s : wst) : wst :=
  WSt (ent s) (met s) (nxt s) (root s) (don s) (sta s) (cl s) (own s) (dst s) (lost s) (hist s) (fset (vw s) i w) (fset (pc s) i p).
Definition add_ent (t k : nat) (x : word) (u : view) (s : wst) : wst :=
  WSt (fset2 (ent s) t k (ent s t k ++ [(x, u)])) (met s) (nxt s) (root s) (don s) (sta s) (cl s) (own s) (dst s) (lost s) (hist s) (vw s) (pc s).
Definition add_met (t k l : nat) (u : view) (s : wst) : wst :=
  WSt (ent s) (fset2 (met s) t k (fset (met s t k) l (Some (true, u)))) (nxt s) (root s) (don s) (sta s) (cl s) (own s) (dst s) (lost s) (hist s) (vw s) (pc s).
Definition set_nxt (t : nat) (u : view) (s : wst) : wst := WSt (ent s) (met s) (fset (nxt s) t (Some u)) (root s) (don s) (sta s) (cl s) (own s) (dst s) (lost s) (hist s) (vw s) (pc s).
Definition add_root (n : nat) (u : view) (s : wst) : wst := WSt (ent s) (met s) (nxt s) (root s ++ [(n, u)]) (don s) (sta s) (cl s) (own s) (dst s) (lost s) (hist s) (vw s) (pc s).
Definition add_don (n : nat) (dn : list nat) (u : view) (s : wst) : wst :=
  WSt (ent s) (met s) (nxt s) (root s) (fset (don s) n (don s n ++ [(dn, u)])) (sta s) (cl s) (own s) (dst s) (lost s) (hist s) (vw s) (pc s).
Definition add_sta (n : nat) (b : bool) (u : view) (s : wst) : wst :=
  WSt (ent s) (met s) (nxt s) (root s) (don s) (fset (sta s) n ((b, u) :: sta s n)) (cl s) (own s) (dst s) (lost s) (hist s) (vw s) (pc s).
Definition claim (i n c : nat) (s : wst) : wst :=
  WSt (ent s) (met s) (nxt s) (root s) (don s) (sta s) (fset (cl s) n (cl s n + c))
      (λ n' k, if decide (n' = n ∧ cl s n ≤ k < cl s n + c) then Some i else own s n' k) (dst s) (lost s) (hist s) (vw s) (pc s).
Definition set_dst (n k k' : nat) (s : wst) : wst := WSt (ent s) (met s) (nxt s) (root s) (don s) (sta s) (cl s) (own s) (fset2 (dst s) n k (Some k')) (lost s) (hist s) (vw s) (pc s).
Definition lose (n k : nat) (s : wst) : wst :=
  WSt (ent s) (met s) (nxt s) (root s) (don s) (sta s) (cl s) (own s) (dst s) (fset (lost s) n (match lost s n with Some k0 => Some k0 | None => Some k end)) (hist s) (vw s) (pc s).
Definition add_ev (e : ev) (s : wst) : wst := WSt (ent s) (met s) (nxt s) (root s) (don s) (sta s) (cl s) (own s) (dst s) (lost s) (e :: hist s) (vw s) (pc s).
(** Thread [i] takes table [n] for the current one. *)
Definition use (i : nat) (w : view) (n : nat) (b : bool) (s : wst) : wst := add_ev (EUse i n b) (thr i w (Use n) s).

(** The slots counted by the first [l] messages of the count of table [n]; the view of the last of them. *)
Definition counted (s : wst) (n l : nat) : list nat := concat (fst <$> take l (don s n)).
Definition cview (s : wst) (n l : nat) : view := match l with 0 => bot | S l' => match don s n !! l' with Some (_, u) => u | None => bot end end.

Inductive wstep (s : wst) : wst → Prop :=
  (* a call loads the root; ends *)
  | S_root i r t u : pc s i = Idle → root s !! r = Some (t, u) → vr (vw s i) ≤ r → wstep s (use i (rdv o_root (vw s i) (at_r r) u) t true s)
  | S_end i t : pc s i = Use t → wstep s (thr i (vw s i) Idle s)
  (* metadata and entries are loaded (with any ordering in the case of the metadata), metadata is stored: by any thread, in any table, at any time *)
  | S_meta i o t k l b u : met s t k l = Some (b, u) → vm (vw s i) t k ≤ l → wstep s (thr i (rdv o (vw s i) (at_m t k l) u) (pc s i) s)
  | S_meta_st i t k l : met s t k l = None → vm (vw s i) t k < l →
      wstep s (thr i (join (vw s i) (at_m t k l)) (pc s i) (add_met t k l (wrv o_meta_st (vw s i) (at_m t k l)) s))
  | S_read i t k l x u : ent s t k !! l = Some (x, u) → ve (vw s i) t k ≤ l → wstep s (let s' := thr i (rdv o_ent (vw s i) (at_e t k l) u) (pc s i) s in match wc x with CEnt e => add_ev (EFind i e) s' | _ => s' end)
  (* insert_at, update_at: compare-exchange of an entry that is not being copied *)
  | S_write i t k c c' u : pc s i = Use t → k < tot t → list.last (ent s t k) = Some (W c false, u) → c' ≠ CNull → let l := length (ent s t k) in let w := join (vw s i) (made c') in
      wstep s (thr i (join w (at_e t k l)) (Use t) (add_ent t k (W c' false) (join u (wrv o_cas w (at_e t k l))) s))
  (* get_or_alloc_next *)
  | S_alloc i t : pc s i = Use t ∨ (∃ t0, pc s i = Al t0 t) → nxt s t = None → wstep s (thr i (vw s i) (pc s i) (set_nxt t (wrv o_next_st (vw s i) bot) s))
  (* help_copy_blocking: 2020 *)
  | S_help i t u : pc s i = Use t → nxt s t = Some u → wstep s (thr i (rdv o_next (vw s i) bot u) (Hp t (S t)) s)
  (* 2025-2027, 2087, 2111 *)
  | S_aborted i t n u : pc s i = Hp t n → (false, u) ∈ sta s n → wstep s (thr i (rdv o_status_ab (vw s i) bot u) (Al t n) s)
  | S_next i t n u : pc s i = Al t n → nxt s n = Some u → wstep s (thr i (rdv o_next (vw s i) bot u) (Hp t (S n)) s)
  (* 2030, 2459 *)
  | S_copied i t n l : pc s i = Hp t n → l ≤ length (don s n) → length (counted s n l) = tot t → wstep s (thr i (rdv o_done_ld (vw s i) bot (cview s n l)) (Ck t n) s)
  (* 2043 *)
  | S_claim i t n c : pc s i = Hp t n → wstep s (thr i (vw s i) (Cp t n (List.filter (λ k, k <? tot t) (seq (cl s n) c)) []) (claim i n c s))
  (* copy_at_blocking *)
  | S_mark i t n k ks dn c b u : pc s i = Cp t n (k :: ks) dn → list.last (ent s t k) = Some (W c b, u) → let l := length (ent s t k) in
      wstep s (thr i (rdv o_mark (vw s i) (at_e t k l) u) (match c with CEnt e => Ci t n k e ks dn | _ => Cp t n ks (k :: dn) end)
                 (add_ent t k (W c true) (join u (wrv o_mark (vw s i) (at_e t k l))) s))
  | S_put i t n k e ks dn k' u : pc s i = Ci t n k e ks dn → list.last (ent s n k') = Some (W CNull false, u) → let l := length (ent s n k') in
      wstep s (add_ev (ECopy t n k k' e) (thr i (join (vw s i) (at_e n k' l)) (Cm t n k e k' ks dn)
                 (set_dst n k k' (add_ent n k' (W (CEnt e) false) (join u (wrv o_copy (vw s i) (at_e n k' l))) s))))
  | S_put_meta i t n k e k' ks dn l : pc s i = Cm t n k e k' ks dn → met s n k' l = None → vm (vw s i) n k' < l →
      wstep s (thr i (join (vw s i) (at_m n k' l)) (Cp t n ks (k :: dn)) (add_met n k' l (wrv o_meta_st (vw s i) (at_m n k' l)) s))
  | S_full i t n k e ks dn : pc s i = Ci t n k e ks dn → wstep s (thr i (vw s i) (Ab t n) (lose n k s))
  (* 2064 *)
  | S_abort i t n : pc s i = Ab t n → wstep s (thr i (vw s i) (Al t n) (add_sta n false (wrv o_status_st (vw s i) bot) s))
  (* 2081, 2457; a chunk without slots: 2459 *)
  | S_count i t n dn : pc s i = Cp t n [] dn → dn ≠ [] → let u := cview s n (length (don s n)) in let w := rdv o_done (vw s i) bot u in
      wstep s (thr i w (if decide (length (counted s n (length (don s n))) + length dn = tot t) then Ck t n else Hp t n) (add_don n dn (join u (wrv o_done w bot)) s))
  | S_count0 i t n : pc s i = Cp t n [] [] → wstep s (thr i (vw s i) (Hp t n) s)
  (* 2464-2474; the load of the root is Relaxed and may find another table *)
  | S_no i t n : pc s i = Ck t n → wstep s (thr i (vw s i) (Hp t n) s)
  | S_promote i t n u : pc s i = Ck t n → list.last (root s) = Some (t, u) → let r := length (root s) in
      wstep s (thr i (join (vw s i) (at_r r)) (Ps t n) (add_root n (join u (wrv o_promote (vw s i) (at_r r))) s))
  | S_promote_fail i t n r t' u : pc s i = Ck t n → root s !! r = Some (t', u) → vr (vw s i) ≤ r → t' ≠ t → wstep s (use i (rdv o_promote_fail (vw s i) (at_r r) u) n false s)
  (* 2481 *)
  | S_promoted i t n : pc s i = Ps t n → wstep s (use i (vw s i) n false (add_sta n true (wrv o_status_st (vw s i) bot) s))
  (* 2108, 2116 *)
  | S_waited i t n u : pc s i = Hp t n → (true, u) ∈ sta s n → wstep s (use i (rdv o_status (vw s i) bot u) n false s)
  (* thread i synchronises with thread j in some other way *)
  | S_sync i j : wstep s (add_ev (ESync i j) (thr i (join (vw s i) (vw s j)) (pc s i) s)).

Definition winit : wst :=
  WSt (λ _ _, [(W CNull false, bot)]) (λ _ _ l, if decide (l = 0) then Some (false, bot) else None) (λ _, None) [(0, bot)] (λ _, []) (λ _, []) (λ _, 0) (λ _ _, None) (λ _ _, None) (λ _, None) []
      (λ _, bot) (λ _, Idle).
Inductive reachable : wst → Prop :=
  | R_init : reachable winit
  | R_step s s' : reachable s → wstep s s' → reachable s'.
End WeakBlk.
