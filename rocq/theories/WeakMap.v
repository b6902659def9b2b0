(** C54: one key of the map under weak memory, with incremental resizing.

    The machine of Machine.v interleaves sequentially consistent accesses. Here the operations on one key [k] run over release/acquire memory with the orderings found in the
    code, across probing, tombstones and any number of (nested) incremental resizes. What is proved: the key behaves like one atomic variable. Its successful
    writes form one sequence (the log), every writer replaces exactly the last value of it, and what a call finds is never older than what the calling thread already knew when the call
    started: its own previous results and those of threads it has synchronised with in any way.

    Memory model: as in Weak.v. Every location has messages; a thread may read any message that is not older than the last one it knows about (its view); an acquire read joins the view of
    the message; a release write attaches the view of the writer; a read-modify-write reads the last message, writes the next one and continues its release sequence. SeqCst is
    weakened to release/acquire. Program order and reads-from are put into one sequence.

    What is modelled: [get], [insert]/[try_insert]/[remove]/[update]/[compute] (all as [Cmp d]: a function from what is found to keep, put or delete), [copy_at_incremental], [insert_copy],
    the count of copied slots and [try_promote]. The slots of table [t] are numbered in the order in which the probe sequence of [k] visits them ([plen t] of them up to the probe limit; any function);
    [extra t] other slots of the table matter only for the count. Other keys are the environment: they occupy slots, with or without the same metadata byte.
    Simplifications: the first table exists from the start; chunks have one slot; a thread of the code that helps to copy in the middle of a call is two threads here, that synchronise ([S_sync]);
    entries are not reclaimed (C15, C50); blocking resizing is not modelled (WeakBlk.v does that). *)
From stdpp Require Import base list option numbers.
Local Open Scope nat_scope.

Inductive ordering := Rlx | Acq | Rel | AcqRel | SC.
Definition is_acq (o : ordering) : bool := match o with Acq | AcqRel | SC => true | _ => false end.
Definition is_rel (o : ordering) : bool := match o with Rel | AcqRel | SC => true | _ => false end.

(** The orderings in the code (src/raw/mod.rs). *)
Definition o_root : ordering := Acq.        (* 280 *)
Definition o_meta : ordering := Acq.        (* 335, 476, 711, 1125, 2385 *)
Definition o_meta_fix : ordering := Rlx.    (* 931, 2423 *)
Definition o_meta_st : ordering := Rel.     (* 901, 932, 768, 2320, 2403, 2424 *)
Definition o_ent : ordering := Acq.         (* 342, 507, 729, 1136, 2545; parker.rs:61, 94 *)
Definition o_cas : ordering := Rel.         (* 895, 965, success *)
Definition o_cas_fail : ordering := Acq.    (* 896, 966, 2398, failure *)
Definition o_mark : ordering := AcqRel.     (* fetch_or(COPYING), 2308 *)
Definition o_copy : ordering := Rel.        (* 2397, success *)
Definition o_copied : ordering := SC.       (* 2348 *)
Definition o_next : ordering := Acq.        (* alloc.rs:181 *)
Definition o_next_st : ordering := Rel.     (* 1978 *)
Definition o_done : ordering := AcqRel.     (* 2457 *)
Definition o_done_ld : ordering := Acq.     (* 2459 *)
Definition o_promote : ordering := Rel.     (* 2474 *)

(** Entry words: null, an entry of key [k] (the [n]-th write), tombstone of key [k] (the [n]-th write), anything that belongs to another key; COPYING and COPIED bits. *)
Inductive cont := CNull | CMine (n : nat) | CTomb (n : nat) | COther.
Record word := W { wc : cont; copying : bool; copied : bool }.
Global Instance cont_dec : EqDecision cont. Proof. solve_decision. Defined.
Global Instance word_dec : EqDecision word. Proof. solve_decision. Defined.
Notation NULL := (W CNull false false).
(** Metadata bytes: [MH2] the byte of key [k], [MOther] another hash. *)
Inductive meta := MEmpty | MH2 | MOther | MTomb.
Global Instance meta_dec : EqDecision meta. Proof. solve_decision. Defined.

Record view := View { ve : nat → nat → nat;       (* entry slots *)
                      vm : nat → nat → nat;       (* metadata *)
                      vx : nat → bool;            (* next-table pointers *)
                      vr : nat;                   (* root *)
                      vn : nat }.                 (* writes of the key the thread has learned of through finished calls (ghost) *)
Definition bot : view := View (λ _ _, 0) (λ _ _, 0) (λ _, false) 0 0.
Definition join (w w' : view) : view :=
  View (λ t j, ve w t j `max` ve w' t j) (λ t j, vm w t j `max` vm w' t j) (λ t, vx w t || vx w' t) (vr w `max` vr w') (vn w `max` vn w').
Definition one2 (t j k : nat) : nat → nat → nat := λ t' j', if decide (t' = t ∧ j' = j) then k else 0.
Definition at_e t j k : view := View (one2 t j k) (λ _ _, 0) (λ _, false) 0 0.
Definition at_m t j k : view := View (λ _ _, 0) (one2 t j k) (λ _, false) 0 0.
Definition at_x t : view := View (λ _ _, 0) (λ _ _, 0) (λ t', bool_decide (t' = t)) 0 0.
Definition at_r k : view := View (λ _ _, 0) (λ _ _, 0) (λ _, false) k 0.
Definition at_n n : view := View (λ _ _, 0) (λ _ _, 0) (λ _, false) 0 n.
(** View after reading a message with view [u] at [x], and the view attached to a written message. *)
Definition rdv (o : ordering) (w x u : view) : view := join (join w x) (if is_acq o then u else bot).
Definition wrv (o : ordering) (w x : view) : view := if is_rel o then join w x else x.

Section WeakMap.
Context {V : Type} (plen extra : nat → nat).
Definition tot (t : nat) : nat := plen t + extra t.

(** Calls: [get], or a decision on what is found. *)
Inductive dec := Keep | Put (v : V) | Del.
Inductive call := Get | Cmp (d : option V → dec).
(** What the call writes when the key is absent. *)
Definition wr (q : call) : option V := match q with Cmp d => match d None with Put v => Some v | _ => None end | Get => None end.

(** Program points of a call, of a copier, of a promoter. *)
Inductive point :=
  | Idle
  | Root0 (q : call)                        (* before 280 *)
  | Pr (q : call) (t j : nat)                      (* before the load of the metadata of slot j; j = plen t: over the limit *)
  | He (q : call) (t j : nat)                      (* metadata matches, before the load of the entry *)
  | In (q : call) (t j : nat) (v : V)              (* metadata empty, before the CAS of insert_at *)
  | Fx (q : call) (t j : nat) (x : word)           (* the CAS found x, before 931 *)
  | Fd (q : call) (t j : nat) (x : word)           (* found x, what next? *)
  | Up (q : call) (t j n : nat)                    (* before the CAS of update_at *)
  | Ms (d : option V → dec) (t j : nat) (m : meta) (n : nat)    (* wrote n; before the store of the metadata *)
  | Wt (q : call) (t j : nat)                      (* wait_copied *)
  | Nx (q : call) (t : nat)                        (* to the next table *)
  | Cc (t k : nat)                                   (* copier has claimed slot k, before 2308 *)
  | Ct (t k : nat)                                   (* slot was null, before 2320 *)
  | Ci (t k n t' j' : nat)                           (* insert_copy of entry n at slot j' of table t' *)
  | CI (t k n t' j' : nat)                           (* before the CAS, 2394 *)
  | Cf (t k n t' j' : nat) (x : word)                (* the CAS found x, before 2423 *)
  | Cm (t k n t' j' : nat)                           (* before 2403 *)
  | Cw (t k n : nat)                                 (* before 2348 *)
  | Cd (t k : nat)                                   (* before 2457 *)
  | Pm (t : nat).                                    (* all of table t is copied, before 2474 *)

(** Events: a call of thread [i] started; it ended having found write [n], with result [r]; a call wrote [n]; thread [i] synchronised with thread [j]. Newest first. *)
Inductive ev := EStart (i : nat) (q : call) | ERead (i : nat) (q : call) (n : nat) (r : option V) | EWrite (i : nat) (d : option V → dec) (n : nat) | ESync (i j : nat).
(** The writes thread [i] knows of: those its calls found or made, and those the threads it synchronised with knew of at that time. *)
Fixpoint kn (tr : list ev) (i : nat) : list nat :=
  match tr with
  | [] => []
  | EStart _ _ :: tr => kn tr i
  | ERead j _ n _ :: tr | EWrite j _ n :: tr => if decide (j = i) then n :: kn tr i else kn tr i
  | ESync j l :: tr => if decide (j = i) then kn tr i ++ kn tr l else kn tr i
  end.

(** ... and those it knew of when its current (or last) call started. *)
Fixpoint kn_start (tr : list ev) (i : nat) : list nat :=
  match tr with
  | [] => []
  | EStart j _ :: tr => if decide (j = i) then kn tr i else kn_start tr i
  | _ :: tr => kn_start tr i
  end.

Record wst := WSt {
  ent : nat → nat → list (word * view);              (* messages of the slots, in modification order *)
  met : nat → nat → nat → option (meta * view);
  nxt : nat → option view;
  root : list view;                                  (* message number t: table t *)
  don : nat → list (nat * view);                     (* the counter of copied slots: the slots counted, one message for each *)
  own : nat → nat → option nat;                      (* the thread slot k of table t was handed out to (claim counter) *)
  cp : nat → nat → option (nat * nat);               (* where the entry of k in slot k of table t was copied to (ghost) *)
  log : list (option V);                             (* the writes of the key; log 0 = absent *)
  hist : list ev;
  vw : nat → view;
  pc : nat → point }.

Definition fset {A B} `{EqDecision A} (f : A → B) (a : A) (b : B) : A → B := λ a', if decide (a' = a) then b else f a'.
Definition fset2 {B} (f : nat → nat → B) (t j : nat) (b : B) : nat → nat → B := λ t' j', if decide (t' = t ∧ j' = j) then b else f t' j'.
Definition thr (i : nat) (w : view) (p : point) (s : wst) : wst :=
  WSt (ent s) (met s) (nxt s) (root s) (don s) (own s) (cp s) (log s) (hist s) (fset (vw s) i w) (fset (pc s) i p).
Definition add_ent (t j : nat) (x : word) (u : view) (s : wst) : wst :=
  WSt (fset2 (ent s) t j (ent s t j ++ [(x, u)])) (met s) (nxt s) (root s) (don s) (own s) (cp s) (log s) (hist s) (vw s) (pc s).
Definition add_met (t j k : nat) (m : meta) (u : view) (s : wst) : wst :=
  WSt (ent s) (fset2 (met s) t j (fset (met s t j) k (Some (m, u)))) (nxt s) (root s) (don s) (own s) (cp s) (log s) (hist s) (vw s) (pc s).
Definition add_log (o : option V) (s : wst) : wst := WSt (ent s) (met s) (nxt s) (root s) (don s) (own s) (cp s) (log s ++ [o]) (hist s) (vw s) (pc s).
Definition add_ev (e : ev) (s : wst) : wst := WSt (ent s) (met s) (nxt s) (root s) (don s) (own s) (cp s) (log s) (e :: hist s) (vw s) (pc s).
Definition set_nxt (t : nat) (u : view) (s : wst) : wst := WSt (ent s) (met s) (fset (nxt s) t (Some u)) (root s) (don s) (own s) (cp s) (log s) (hist s) (vw s) (pc s).
Definition add_root (u : view) (s : wst) : wst := WSt (ent s) (met s) (nxt s) (root s ++ [u]) (don s) (own s) (cp s) (log s) (hist s) (vw s) (pc s).
Definition add_don (t k : nat) (u : view) (s : wst) : wst := WSt (ent s) (met s) (nxt s) (root s) (fset (don s) t (don s t ++ [(k, u)])) (own s) (cp s) (log s) (hist s) (vw s) (pc s).
Definition set_own (t k i : nat) (s : wst) : wst := WSt (ent s) (met s) (nxt s) (root s) (don s) (fset2 (own s) t k (Some i)) (cp s) (log s) (hist s) (vw s) (pc s).
Definition set_cp (t k tc jc : nat) (s : wst) : wst := WSt (ent s) (met s) (nxt s) (root s) (don s) (own s) (fset2 (cp s) t k (Some (tc, jc))) (log s) (hist s) (vw s) (pc s).

(** Ghost: the last write of the key in the slots before slot [j] of table [t]. *)
Definition kidx (x : word) : option nat := match wc x with CMine n | CTomb n => Some n | _ => None end.
Definition lw (s : wst) (t j : nat) : option word := match list.last (ent s t j) with Some (x, _) => Some x | None => None end.
Definition lk (s : wst) (t j : nat) : option nat := lw s t j ≫= kidx.
Fixpoint befj (s : wst) (t b j : nat) : nat := match j with 0 => b | S j' => match lk s t j' with Some n => n | None => befj s t b j' end end.
Fixpoint bef (s : wst) (t : nat) : nat → nat := match t with 0 => befj s 0 0 | S t' => befj s (S t') (bef s t' (plen t')) end.

(** A call of thread [i] ends: it found write [n] with value [r]; it made write [n]. *)
Definition ret_rd (i : nat) (w : view) (q : call) (n : nat) (r : option V) (s : wst) : wst := add_ev (ERead i q n r) (thr i (join w (at_n n)) Idle s).
Definition ret_wr (i : nat) (w : view) (d : option V → dec) (n : nat) (s : wst) : wst := add_ev (EWrite i d n) (thr i (join w (at_n n)) Idle s).
(** Value of write [n]. *)
Definition val (s : wst) (n : nat) : option V := mjoin (log s !! n).

(** What a call does with the word [x] it found (mod.rs:345-375 for get, 513-575, 735-790 for the others): go on to the next slot, end with what was found, to the next table, wait for the copy, try to update. *)
Inductive next := NPass | NRet (n : nat) | NMove | NWait | NUp (n : nat).
Definition disp (s : wst) (q : call) (x : word) : next :=
  match wc x with
  | CMine n =>
    match q with
    | Get => if copied x then NMove else NRet n
    | Cmp d => if copying x then NWait else match d (val s n) with Keep => NRet n | _ => NUp n end
    end
  | _ => NPass
  end.
(** Metadata stored for a slot in which [x] was found (931-932, 2410-2424). *)
Definition fix_meta (x : word) (m : meta) : Prop := match wc x with CMine _ => m = MH2 | COther => m = MOther ∨ m = MH2 | _ => m = MTomb end.
(** Storing [m] in the metadata of slot [j], at timestamp [k]. *)
Definition can_meta (s : wst) (i t j k : nat) : Prop := met s t j k = None ∧ vm (vw s i) t j < k.

Inductive wstep (s : wst) : wst → Prop :=
  | S_start i q : pc s i = Idle → wstep s (thr i (vw s i) (Root0 q) (add_ev (EStart i q) s))
  | S_root i q k u : pc s i = Root0 q → root s !! k = Some u → vr (vw s i) ≤ k → wstep s (thr i (rdv o_root (vw s i) (at_r k) u) (Pr q k 0) s)
  (* probing: load of the metadata *)
  | S_meta_none i q t j k u : pc s i = Pr q t j → j < plen t → met s t j k = Some (MEmpty, u) → vm (vw s i) t j ≤ k → wr q = None →
      wstep s (ret_rd i (rdv o_meta (vw s i) (at_m t j k) u) q (bef s t j) None s)
  | S_meta_ins i q t j k u v : pc s i = Pr q t j → j < plen t → met s t j k = Some (MEmpty, u) → vm (vw s i) t j ≤ k → wr q = Some v →
      wstep s (thr i (rdv o_meta (vw s i) (at_m t j k) u) (In q t j v) s)
  | S_meta_pass i q t j k u m : pc s i = Pr q t j → j < plen t → met s t j k = Some (m, u) → vm (vw s i) t j ≤ k → m = MOther ∨ m = MTomb →
      wstep s (thr i (rdv o_meta (vw s i) (at_m t j k) u) (Pr q t (S j)) s)
  | S_meta_h2 i q t j k u : pc s i = Pr q t j → j < plen t → met s t j k = Some (MH2, u) → vm (vw s i) t j ≤ k →
      wstep s (thr i (rdv o_meta (vw s i) (at_m t j k) u) (He q t j) s)
  | S_over i q t : pc s i = Pr q t (plen t) → wstep s (thr i (vw s i) (Nx q t) s)
  (* next table *)
  | S_next i q t u : pc s i = Nx q t → nxt s t = Some u → wstep s (thr i (rdv o_next (vw s i) (at_x t) u) (Pr q (S t) 0) s)
  | S_next_none i q t : pc s i = Nx q t → vx (vw s i) t = false → wr q = None → wstep s (ret_rd i (vw s i) q (bef s t (plen t)) None s)
  (* load of the entry *)
  | S_ent i q t j k x u : pc s i = He q t j → ent s t j !! k = Some (x, u) → ve (vw s i) t j ≤ k → wstep s (thr i (rdv o_ent (vw s i) (at_e t j k) u) (Fd q t j x) s)
  | S_pass i q t j x : pc s i = Fd q t j x → disp s q x = NPass → wstep s (thr i (vw s i) (Pr q t (S j)) s)
  | S_ret i q t j x n : pc s i = Fd q t j x → disp s q x = NRet n → wstep s (ret_rd i (vw s i) q n (val s n) s)
  | S_move i q t j x : pc s i = Fd q t j x → disp s q x = NMove → wstep s (thr i (vw s i) (Nx q t) s)
  | S_wait i q t j x : pc s i = Fd q t j x → disp s q x = NWait → wstep s (thr i (vw s i) (Wt q t j) s)
  | S_up i q t j x n : pc s i = Fd q t j x → disp s q x = NUp n → wstep s (thr i (vw s i) (Up q t j n) s)
  (* wait_copied *)
  | S_waited i q t j k x u : pc s i = Wt q t j → ent s t j !! k = Some (x, u) → ve (vw s i) t j ≤ k → copied x = true →
      wstep s (thr i (rdv o_ent (vw s i) (at_e t j k) u) (Nx q t) s)
  (* insert_at *)
  | S_in_ok i d t j v u : pc s i = In (Cmp d) t j v → list.last (ent s t j) = Some (NULL, u) → let n := length (log s) in let k := length (ent s t j) in
      wstep s (thr i (join (vw s i) (at_e t j k)) (Ms d t j MH2 n) (add_log (Some v) (add_ent t j (W (CMine n) false false) (join u (wrv o_cas (vw s i) (at_e t j k))) s)))
  | S_in_fail i q t j v k x u : pc s i = In q t j v → ent s t j !! k = Some (x, u) → ve (vw s i) t j ≤ k → x ≠ NULL →
      wstep s (thr i (rdv o_cas_fail (vw s i) (at_e t j k) u) (Fx q t j x) s)
  | S_fix_skip i q t j x k m u : pc s i = Fx q t j x → met s t j k = Some (m, u) → vm (vw s i) t j ≤ k → m ≠ MEmpty →
      wstep s (thr i (rdv o_meta_fix (vw s i) (at_m t j k) u) (Fd q t j x) s)
  | S_fix i q t j x k m : pc s i = Fx q t j x → can_meta s i t j k → fix_meta x m →
      wstep s (thr i (join (vw s i) (at_m t j k)) (Fd q t j x) (add_met t j k m (wrv o_meta_st (vw s i) (at_m t j k)) s))
  (* update_at *)
  | S_up_put i d t j n v u : pc s i = Up (Cmp d) t j n → list.last (ent s t j) = Some (W (CMine n) false false, u) → d (val s n) = Put v →
      let n' := length (log s) in let k := length (ent s t j) in
      wstep s (ret_wr i (join (vw s i) (at_e t j k)) d n' (add_log (Some v) (add_ent t j (W (CMine n') false false) (join u (wrv o_cas (vw s i) (at_e t j k))) s)))
  | S_up_del i d t j n u : pc s i = Up (Cmp d) t j n → list.last (ent s t j) = Some (W (CMine n) false false, u) → d (val s n) = Del →
      let n' := length (log s) in let k := length (ent s t j) in
      wstep s (thr i (join (vw s i) (at_e t j k)) (Ms d t j MTomb n') (add_log None (add_ent t j (W (CTomb n') false false) (join u (wrv o_cas (vw s i) (at_e t j k))) s)))
  | S_up_fail i q t j n k x u : pc s i = Up q t j n → ent s t j !! k = Some (x, u) → ve (vw s i) t j ≤ k → x ≠ W (CMine n) false false →
      wstep s (thr i (rdv o_cas_fail (vw s i) (at_e t j k) u) (Fd q t j x) s)
  (* remove: the entry was deleted meanwhile, 783 *)
  | S_up_gone i q t j n k n' b c u : pc s i = Up q t j n → ent s t j !! k = Some (W (CTomb n') b c, u) → ve (vw s i) t j ≤ k → wr q = None →
      wstep s (ret_rd i (rdv o_cas_fail (vw s i) (at_e t j k) u) q n' None s)
  (* store of the metadata after a successful insertion or removal *)
  | S_ms i d t j m n k : pc s i = Ms d t j m n → can_meta s i t j k →
      wstep s (ret_wr i (join (vw s i) (at_m t j k)) d n (add_met t j k m (wrv o_meta_st (vw s i) (at_m t j k)) s))
  (* copy_at_incremental *)
  | S_claim i t k : pc s i = Idle → k < tot t → own s t k = None → vx (vw s i) t = true →
      wstep s (thr i (vw s i) (if decide (k < plen t) then Cc t k else Cd t k) (set_own t k i s))
  | S_mark i t k c b u : pc s i = Cc t k → list.last (ent s t k) = Some (W c b false, u) → let l := length (ent s t k) in
      wstep s (thr i (rdv o_mark (vw s i) (at_e t k l) u) (match c with CMine n => Ci t k n (S t) 0 | CNull => Ct t k | _ => Cd t k end)
                 (add_ent t k (W c true false) (join u (wrv o_mark (vw s i) (at_e t k l))) s))
  | S_null i t k l : pc s i = Ct t k → can_meta s i t k l → wstep s (thr i (join (vw s i) (at_m t k l)) (Cd t k) (add_met t k l MTomb (wrv o_meta_st (vw s i) (at_m t k l)) s))
  (* insert_copy *)
  | S_ci_meta i t k n t' j' l m u : pc s i = Ci t k n t' j' → j' < plen t' → met s t' j' l = Some (m, u) → vm (vw s i) t' j' ≤ l →
      wstep s (thr i (rdv o_meta (vw s i) (at_m t' j' l) u) (if decide (m = MEmpty) then CI t k n t' j' else Ci t k n t' (S j')) s)
  | S_ci_over i t k n t' : pc s i = Ci t k n t' (plen t') → vx (vw s i) t' = true → wstep s (thr i (vw s i) (Ci t k n (S t') 0) s)
  | S_ci_ok i t k n t' j' u : pc s i = CI t k n t' j' → list.last (ent s t' j') = Some (NULL, u) → let l := length (ent s t' j') in
      wstep s (thr i (join (vw s i) (at_e t' j' l)) (Cm t k n t' j')
                 (set_cp t k t' j' (add_ent t' j' (W (CMine n) false false) (join u (wrv o_copy (vw s i) (at_e t' j' l))) s)))
  | S_ci_fail i t k n t' j' l x u : pc s i = CI t k n t' j' → ent s t' j' !! l = Some (x, u) → ve (vw s i) t' j' ≤ l → x ≠ NULL →
      wstep s (thr i (rdv o_cas_fail (vw s i) (at_e t' j' l) u) (Cf t k n t' j' x) s)
  | S_cf_skip i t k n t' j' x l m u : pc s i = Cf t k n t' j' x → met s t' j' l = Some (m, u) → vm (vw s i) t' j' ≤ l → m ≠ MEmpty →
      wstep s (thr i (rdv o_meta_fix (vw s i) (at_m t' j' l) u) (Ci t k n t' (S j')) s)
  | S_cf i t k n t' j' x l m : pc s i = Cf t k n t' j' x → can_meta s i t' j' l → fix_meta x m →
      wstep s (thr i (join (vw s i) (at_m t' j' l)) (Ci t k n t' (S j')) (add_met t' j' l m (wrv o_meta_st (vw s i) (at_m t' j' l)) s))
  | S_cm i t k n t' j' l : pc s i = Cm t k n t' j' → can_meta s i t' j' l →
      wstep s (thr i (join (vw s i) (at_m t' j' l)) (Cw t k n) (add_met t' j' l MH2 (wrv o_meta_st (vw s i) (at_m t' j' l)) s))
  | S_cw i t k n : pc s i = Cw t k n → let l := length (ent s t k) in
      wstep s (thr i (join (vw s i) (at_e t k l)) (Cd t k) (add_ent t k (W (CMine n) true true) (wrv o_copied (vw s i) (at_e t k l)) s))
  (* the count of copied slots, promotion *)
  | S_cd i t k : pc s i = Cd t k → let u := match list.last (don s t) with Some (_, u) => u | None => bot end in
      wstep s (thr i (rdv o_done (vw s i) bot u) Idle (add_don t k (join u (wrv o_done (vw s i) bot)) s))
  | S_done i t l k u : pc s i = Idle → don s t !! l = Some (k, u) → S l = tot t → wstep s (thr i (rdv o_done_ld (vw s i) bot u) (Pm t) s)
  | S_promote i t u : pc s i = Pm t → list.last (root s) = Some u → length (root s) = S t →
      wstep s (thr i (join (vw s i) (at_r (S t))) Idle (add_root (join u (wrv o_promote (vw s i) (at_r (S t)))) s))
  | S_promote_no i t : pc s i = Pm t → wstep s (thr i (vw s i) Idle s)
  (* tables are allocated; next pointers are loaded *)
  | S_alloc i t : nxt s t = None → wstep s (thr i (join (vw s i) (at_x t)) (pc s i) (set_nxt t (wrv o_next_st (vw s i) (at_x t)) s))
  | S_load_next i t u : nxt s t = Some u → wstep s (thr i (rdv o_next (vw s i) (at_x t) u) (pc s i) s)
  (* other keys *)
  | S_other i t j u : j < plen t → list.last (ent s t j) = Some (NULL, u) → let l := length (ent s t j) in
      wstep s (thr i (join (vw s i) (at_e t j l)) (pc s i) (add_ent t j (W COther false false) (join u (wrv o_cas (vw s i) (at_e t j l))) s))
  | S_other_up i t j u : j < plen t → list.last (ent s t j) = Some (W COther false false, u) → let l := length (ent s t j) in
      wstep s (thr i (join (vw s i) (at_e t j l)) (pc s i) (add_ent t j (W COther false false) (join u (wrv o_cas (vw s i) (at_e t j l))) s))
  | S_other_meta i t j l m x u k : ent s t j !! k = Some (x, u) → k ≤ ve (vw s i) t j → wc x = COther → m ≠ MEmpty → can_meta s i t j l →
      wstep s (thr i (join (vw s i) (at_m t j l)) (pc s i) (add_met t j l m (wrv o_meta_st (vw s i) (at_m t j l)) s))
  | S_other_ld i t j k x u : ent s t j !! k = Some (x, u) → ve (vw s i) t j ≤ k → wstep s (thr i (rdv o_ent (vw s i) (at_e t j k) u) (pc s i) s)
  (* thread i synchronises with thread j in some other way *)
  | S_sync i j : wstep s (add_ev (ESync i j) (thr i (join (vw s i) (vw s j)) (pc s i) s)).

Definition winit : wst :=
  WSt (λ _ _, [(NULL, bot)]) (λ _ _ k, if decide (k = 0) then Some (MEmpty, bot) else None) (λ _, None) [bot] (λ _, []) (λ _ _, None) (λ _ _, None) [None] [] (λ _, bot) (λ _, Idle).
Inductive reachable : wst → Prop :=
  | R_init : reachable winit
  | R_step s s' : reachable s → wstep s s' → reachable s'.
End WeakMap.
