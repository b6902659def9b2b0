(** C50, C51: publication under weak memory.

    The machine model interleaves sequentially consistent accesses.  Here the memory orderings of the code are taken seriously, for the two things the
    unsafe code needs them for: (C50) whoever follows a pointer found in the map sees the object it points to initialised (no data race with
    the initialisation); (C51) whoever sees that a resize is finished sees every entry it copied.

    Memory model: release/acquire with views (promise-free): every location has messages with timestamps; a thread may read any message that is not older
    than the last one it knows about; an acquire read joins the view of the message; a release write attaches the view of the writer; a
    read-modify-write reads a message and writes the immediately next one, and continues its release sequence. [SeqCst] is weakened to [AcqRel].
    A view also records which objects are known to be initialised (the initialisation is a non-atomic write that happens before).

    The client is the most general one that uses only the accesses of the code, each with the ordering found in the code ([ord_*] below). *)
From stdpp Require Import list numbers.

Inductive ordering := Rlx | Acq | Rel | AcqRel | SC.
Definition is_acq (o : ordering) : bool := match o with Acq | AcqRel | SC => true | _ => false end.
Definition is_rel (o : ordering) : bool := match o with Rel | AcqRel | SC => true | _ => false end.

(** Heap objects: tables (numbered along the chain of next tables) and entries. *)
Inductive obj := Tab (t : nat) | Ent (p : nat).
(** Atomic locations: the root pointer; of table [t]: next pointer, slots, metadata; of the resize from table [t] to the next one (these fields lie in the next table):
    claim counter, copied counter, status. *)
Inductive loc := LRoot | LNext (t : nat) | LSlot (t j : nat) | LMeta (t j : nat) | LClaim (t : nat) | LCopied (t : nat) | LStatus (t : nat).
Global Instance loc_dec : EqDecision loc. Proof. solve_decision. Defined.
Global Instance obj_dec : EqDecision obj. Proof. solve_decision. Defined.
Inductive val := VP (p : option obj) | VN (n : nat).
Definition owner (l : loc) : option obj :=
  match l with LRoot => None | LNext t | LSlot t _ | LMeta t _ => Some (Tab t) | LClaim t | LCopied t | LStatus t => Some (Tab (S t)) end.
(** [Table::alloc] (alloc.rs:58-95): null pointers, zero counters, status PENDING = 0. *)
Definition init_val (l : loc) : val := match l with LRoot | LNext _ | LSlot _ _ => VP None | _ => VN 0 end.
Definition PROMOTED_v := 1.

(** The orderings in the code. *)
Definition ord_load (l : loc) : ordering :=
  match l with
  | LRoot => Acq          (* mod.rs:280 *)
  | LNext _ => Acq        (* alloc.rs:181 *)
  | LSlot _ _ => Acq      (* mod.rs:342, 507, 729, 1037, 1136, 1658, 2545, 2667; failed CAS: 896, 966, 1061, 1170, 2398 *)
  | LMeta _ _ => Acq      (* 335, 476, 711, 1125, 1590, 2385, 2654 *)
  | LClaim _ => Rlx       (* 2038, 2215 *)
  | LCopied _ => Acq      (* 2459 *)
  | LStatus _ => Acq      (* 2108, 2269; parker.rs:62 (SeqCst), 91 *)
  end.
Definition ord_store (l : loc) : ordering :=
  match l with
  | LNext _ => Rel        (* mod.rs:1978 *)
  | LSlot _ _ => SC       (* 2348 *)
  | LMeta _ _ => Rel      (* 901, 932, 1071, 1180, 1768, 2173, 2320, 2403, 2424 *)
  | LStatus _ => SC       (* 2064, 2481 *)
  | _ => Rlx              (* none *)
  end.
Definition ord_slot_cas : ordering := Rel.       (* successful CAS on a slot: 895, 965, 1060, 1169 *)
Definition ord_copy_cas : ordering := Rel.       (* successful CAS of insert_copy: 2397 *)
Definition ord_slot_for : ordering := AcqRel.    (* fetch_or(COPYING): 2160, 2308 *)
Definition ord_init_cas : ordering := Rel.       (* first table: 1867 (failure: Acquire, a load) *)
Definition ord_promote : ordering := Rel.        (* 2474 *)
Definition ord_claim : ordering := Rlx.          (* 2043, 2220 *)
Definition ord_copied : ordering := AcqRel.      (* 2457 *)

Record view := View { vt : loc → nat; vi : obj → Prop }.
Definition bot : view := View (λ _, 0) (λ _, False).
Definition join (w w' : view) : view := View (λ l, vt w l `max` vt w' l) (λ o, vi w o ∨ vi w' o).
Definition at_ts (l : loc) (ts : nat) : view := View (λ l', if decide (l' = l) then ts else 0) (λ _, False).
Definition with_obj (o : obj) (w : view) : view := View (vt w) (λ o', vi w o' ∨ o' = o).
Definition vle (w w' : view) : Prop := (∀ l, vt w l ≤ vt w' l) ∧ (∀ o, vi w o → vi w' o).

(** Slot [j] of a table during the copy: not handed out, handed out to a thread, copied by that thread, copied and counted. *)
Inductive place := Free | Claimed (i : nat) | Done (i : nat) | Counted.
Global Instance place_dec : EqDecision place. Proof. solve_decision. Defined.

Record wst := WSt {
  mem : loc → nat → option (val * view);
  vw : nat → view;                           (* views of the threads *)
  kn : nat → obj → Prop;                     (* pointers a thread has and may dereference *)
  own : nat → nat → place;                   (* own t j: slot j of table t *)
  cp : nat → nat → option (loc * nat);       (* cp t j: where, and with which timestamp, slot j of table t was copied to (ghost) *)
  pr : nat → nat → Prop;                     (* pr i t: thread i found the copied counter of the resize of t equal to the length: it may promote *)
  sn : nat → nat → Prop;                     (* sn i t: thread i has seen that the resize of t is finished (ghost) *)
  al : obj → Prop }.

Section weak.
  Context (len : nat → nat).   (* lengths of the tables *)

  Definition upd {A} (f : nat → A) (i : nat) (x : A) : nat → A := λ j, if decide (j = i) then x else f j.
  Definition mset (m : loc → nat → option (val * view)) (l : loc) (ts : nat) (x : val * view) : loc → nat → option (val * view) :=
    λ l' ts', if decide (l' = l ∧ ts' = ts) then Some x else m l' ts'.
  Definition holds_ptr (l : loc) : Prop := match l with LRoot | LNext _ | LSlot _ _ => True | _ => False end.
  Definition pointee (v : val) (o : obj) : Prop := v = VP (Some o).
  (** Accesses need a valid pointer to the object that contains the location. *)
  Definition acc (s : wst) (i : nat) (l : loc) : Prop := match owner l with Some o => kn s i o | None => True end.
  (** View after reading message [(ts, w)] of [l]. *)
  Definition rview (s : wst) (i : nat) (o : ordering) (l : loc) (ts : nat) (w : view) : view :=
    let a := join (vw s i) (at_ts l ts) in if is_acq o then join a w else a.
  (** View attached to a message written by a thread with view [w] (which includes the new timestamp). *)
  Definition wview (o : ordering) (l : loc) (ts : nat) (w : view) : view := if is_rel o then w else at_ts l ts.
  (** Thread [i] may read message [ts] of [l]. *)
  Definition readable (s : wst) (i : nat) (l : loc) (ts : nat) (v : val) (w : view) : Prop :=
    acc s i l ∧ mem s l ts = Some (v, w) ∧ vt (vw s i) l ≤ ts.
  Definition see (s : wst) (i : nat) (l : loc) (v : val) (t : nat) : Prop :=
    (l = LRoot ∧ ∃ r, v = VP (Some (Tab r)) ∧ t < r) ∨ (l = LStatus t ∧ v = VN PROMOTED_v).

  (** A read-modify-write: reads [(v, w)] at [ts], writes [v'] at [S ts]. *)
  Definition rmw_view s i o l ts w : view := join (rview s i o l ts w) (at_ts l (S ts)).
  Definition rmw_mem s i o l ts w v' := mset (mem s) l (S ts) (v', join w (wview o l (S ts) (rmw_view s i o l ts w))).
  Definition rmw_ok s i l ts v w : Prop := readable s i l ts v w ∧ mem s l (S ts) = None.

  Definition cnt (s : wst) (t : nat) : nat := length (filter (λ j, own s t j = Counted) (seq 0 (len t))).
  Definition mine (s : wst) (i t : nat) : nat := length (filter (λ j, own s t j = Done i) (seq 0 (len t))).

  Inductive wstep (s : wst) : wst → Prop :=
  (* Box::new / Table::alloc: the object is initialised, and nobody else knows it *)
  | w_alloc i o : ¬ al s o →
      wstep s (WSt (λ l ts, if decide (owner l = Some o ∧ ts = 0) then Some (init_val l, bot) else mem s l ts)
        (upd (vw s) i (with_obj o (vw s i))) (upd (kn s) i (λ o', kn s i o' ∨ o' = o)) (own s) (cp s) (pr s) (sn s) (λ o', al s o' ∨ o' = o))
  (* a load whose result is used *)
  | w_load i l ts v w : readable s i l ts v w →
      wstep s (WSt (mem s) (upd (vw s) i (rview s i (ord_load l) l ts w)) (upd (kn s) i (λ o, kn s i o ∨ (holds_ptr l ∧ pointee v o))) (own s) (cp s)
        (upd (pr s) i (λ t, pr s i t ∨ (l = LCopied t ∧ v = VN (len t)))) (upd (sn s) i (λ t, sn s i t ∨ see s i l v t)) (al s))
  (* a relaxed load of which only the value is compared: root (2464), claim, status for ABORTED (2025, 2087), meta (931, 2423) *)
  | w_peek i l ts v w : readable s i l ts v w →
      wstep s (WSt (mem s) (upd (vw s) i (rview s i Rlx l ts w)) (kn s) (own s) (cp s) (pr s) (sn s) (al s))
  (* plain stores *)
  | w_store i l ts v : acc s i l → vt (vw s i) l < ts → mem s l ts = None → (∀ o, pointee v o → kn s i o) →
      (∃ t j, l = LNext t ∨ l = LSlot t j ∨ l = LMeta t j ∨ (l = LStatus t ∧ (v = VN PROMOTED_v → sn s i t))) →
      wstep s (WSt (mset (mem s) l ts (v, wview (ord_store l) l ts (join (vw s i) (at_ts l ts)))) (upd (vw s) i (join (vw s i) (at_ts l ts)))
        (kn s) (own s) (cp s) (pr s) (sn s) (al s))
  (* CAS of a slot: publishes an entry the thread owns, or a tombstone *)
  | w_cas i t j ts v w v' : rmw_ok s i (LSlot t j) ts v w → (∀ o, pointee v' o → kn s i o) →
      wstep s (WSt (rmw_mem s i ord_slot_cas (LSlot t j) ts w v') (upd (vw s) i (rmw_view s i ord_slot_cas (LSlot t j) ts w)) (kn s) (own s) (cp s) (pr s) (sn s) (al s))
  (* fetch_or(COPYING): keeps the pointer *)
  | w_for i t j ts v w : rmw_ok s i (LSlot t j) ts v w →
      wstep s (WSt (rmw_mem s i ord_slot_for (LSlot t j) ts w v) (upd (vw s) i (rmw_view s i ord_slot_for (LSlot t j) ts w))
        (upd (kn s) i (λ o, kn s i o ∨ pointee v o)) (own s) (cp s) (pr s) (sn s) (al s))
  (* the first table *)
  | w_init i ts w : rmw_ok s i LRoot ts (VP None) w → kn s i (Tab 0) →
      wstep s (WSt (rmw_mem s i ord_init_cas LRoot ts w (VP (Some (Tab 0)))) (upd (vw s) i (rmw_view s i ord_init_cas LRoot ts w)) (kn s) (own s) (cp s) (pr s) (sn s) (al s))
  (* claim of a chunk *)
  | w_claim i t n ts c w : rmw_ok s i (LClaim t) ts (VN c) w →
      wstep s (WSt (rmw_mem s i ord_claim (LClaim t) ts w (VN (c + n))) (upd (vw s) i (rmw_view s i ord_claim (LClaim t) ts w)) (kn s)
        (λ t' j, if decide (t' = t ∧ c ≤ j ∧ j < c + n) then Claimed i else own s t' j) (cp s) (pr s) (sn s) (al s))
  (* copy of slot j of table t into some slot of a later table *)
  | w_copy i t j t' j' ts v w p : own s t j = Claimed i → t < t' → rmw_ok s i (LSlot t' j') ts v w → kn s i (Ent p) →
      wstep s (WSt (rmw_mem s i ord_copy_cas (LSlot t' j') ts w (VP (Some (Ent p)))) (upd (vw s) i (rmw_view s i ord_copy_cas (LSlot t' j') ts w)) (kn s)
        (λ t0 j0, if decide (t0 = t ∧ j0 = j) then Done i else own s t0 j0)
        (λ t0 j0, if decide (t0 = t ∧ j0 = j) then Some (LSlot t' j', S ts) else cp s t0 j0) (pr s) (sn s) (al s))
  (* slot j holds nothing to copy *)
  | w_skip i t j : own s t j = Claimed i →
      wstep s (WSt (mem s) (vw s) (kn s) (λ t0 j0, if decide (t0 = t ∧ j0 = j) then Done i else own s t0 j0) (cp s) (pr s) (sn s) (al s))
  (* the copied slots are added to the counter *)
  | w_count i t ts c w : rmw_ok s i (LCopied t) ts (VN c) w →
      wstep s (WSt (rmw_mem s i ord_copied (LCopied t) ts w (VN (c + mine s i t))) (upd (vw s) i (rmw_view s i ord_copied (LCopied t) ts w)) (kn s)
        (λ t0 j, if decide (t0 = t ∧ own s t0 j = Done i) then Counted else own s t0 j) (cp s)
        (upd (pr s) i (λ t0, pr s i t0 ∨ (t0 = t ∧ c + mine s i t = len t))) (sn s) (al s))
  (* promotion *)
  | w_promote i t ts w : rmw_ok s i LRoot ts (VP (Some (Tab t))) w → pr s i t → kn s i (Tab (S t)) →
      wstep s (WSt (rmw_mem s i ord_promote LRoot ts w (VP (Some (Tab (S t))))) (upd (vw s) i (rmw_view s i ord_promote LRoot ts w)) (kn s) (own s) (cp s) (pr s)
        (upd (sn s) i (λ t0, sn s i t0 ∨ t0 = t)) (al s))
  (* synchronisation outside of the map: mutexes, channels, spawn and join, references handed from thread to thread *)
  | w_sync i i' :
      wstep s (WSt (mem s) (upd (vw s) i (join (vw s i) (vw s i'))) (upd (kn s) i (λ o, kn s i o ∨ kn s i' o)) (own s) (cp s) (pr s)
        (upd (sn s) i (λ t, sn s i t ∨ sn s i' t)) (al s)).

  (** At the start there is only the root pointer, which is null. *)
  Definition winit : wst := WSt (λ l ts, if decide (l = LRoot ∧ ts = 0) then Some (VP None, bot) else None) (λ _, bot) (λ _ _, False) (λ _ _, Free) (λ _ _, None)
    (λ _ _, False) (λ _ _, False) (λ _, False).
  Inductive reachable : wst → Prop :=
  | r_init : reachable winit
  | r_step s s' : reachable s → wstep s s' → reachable s'.

  (** ** Invariant *)
  Definition covers (s : wst) (w : view) (t j : nat) : Prop := ∀ l ts, cp s t j = Some (l, ts) → ts ≤ vt w l.
  Definition full (s : wst) (w : view) (t : nat) : Prop := ∀ j, j < len t → own s t j = Counted ∧ covers s w t j.
  Definition claim_ok (s : wst) (t : nat) : Prop := ∃ k c w, mem s (LClaim t) k = Some (VN c, w) ∧ (∀ ts, is_Some (mem s (LClaim t) ts) ↔ ts ≤ k) ∧
    (∀ j, own s t j = Free ↔ c ≤ j).
  Definition copied_ok (s : wst) (t : nat) : Prop := ∃ k w, mem s (LCopied t) k = Some (VN (cnt s t), w) ∧ (∀ ts, is_Some (mem s (LCopied t) ts) ↔ ts ≤ k) ∧
    (∀ j, own s t j = Counted → covers s w t j).
  Record WI (s : wst) : Prop := MkWI {
    wi_kn : ∀ i o, kn s i o → vi (vw s i) o;
    wi_al : ∀ i o, kn s i o → al s o;
    wi_ptr : ∀ l ts v w o, mem s l ts = Some (v, w) → pointee v o → vi w o ∧ al s o;
    wi_own : ∀ l ts v w o, mem s l ts = Some (v, w) → owner l = Some o → al s o;
    wi_claim : ∀ t, al s (Tab (S t)) → claim_ok s t;
    wi_free : ∀ t j, ¬ al s (Tab (S t)) → own s t j = Free;
    wi_copied : ∀ t, al s (Tab (S t)) → copied_ok s t;
    wi_len : ∀ t ts v w, mem s (LCopied t) ts = Some (v, w) → v = VN (len t) → full s w t;
    wi_done : ∀ i t j, own s t j = Done i → covers s (vw s i) t j;
    wi_cp : ∀ t j, is_Some (cp s t j) → (∃ i, own s t j = Done i) ∨ own s t j = Counted;
    wi_pr : ∀ i t, pr s i t → full s (vw s i) t;
    wi_root : ∀ ts r w, mem s LRoot ts = Some (VP (Some (Tab r)), w) → ∀ t, t < r → full s w t;
    wi_status : ∀ t ts w, mem s (LStatus t) ts = Some (VN PROMOTED_v, w) → full s w t;
    wi_sn : ∀ i t, sn s i t → full s (vw s i) t }.

  Lemma vle_refl w : vle w w. Proof. split; auto. Qed.
  Lemma vle_trans a b c : vle a b → vle b c → vle a c.
  Proof. intros [A B] [C D]. split; [intros l; etrans; [apply A|apply C]|auto]. Qed.
  Lemma vle_l a b : vle a (join a b). Proof. split; cbn; [lia|auto]. Qed.
  Lemma vle_r a b : vle b (join a b). Proof. split; cbn; [lia|auto]. Qed.
  Lemma rview_vw s i o l ts w : vle (vw s i) (rview s i o l ts w).
  Proof. unfold rview. destruct (is_acq o); [eapply vle_trans; [|apply vle_l]|]; apply vle_l. Qed.
  Lemma rview_w s i o l ts w : is_acq o = true → vle w (rview s i o l ts w).
  Proof. intros E. unfold rview. rewrite E. apply vle_r. Qed.
  Lemma rmw_vw s i o l ts w : vle (vw s i) (rmw_view s i o l ts w).
  Proof. eapply vle_trans; [apply rview_vw|apply vle_l]. Qed.
  Lemma rmw_w s i o l ts w : is_acq o = true → vle w (rmw_view s i o l ts w).
  Proof. intros E. eapply vle_trans; [by apply rview_w|apply vle_l]. Qed.
  Lemma rmw_ts s i o l ts w : S ts ≤ vt (rmw_view s i o l ts w) l.
  Proof. unfold rmw_view, at_ts; cbn. rewrite decide_True by done. lia. Qed.
  Lemma upd_me {A} (f : nat → A) i x : upd f i x i = x. Proof. unfold upd. by rewrite decide_True. Qed.
  Lemma upd_ne {A} (f : nat → A) i x j : j ≠ i → upd f i x j = f j. Proof. intros. unfold upd. by rewrite decide_False. Qed.
  Lemma upd_vle s i w : vle (vw s i) w → ∀ j, vle (vw s j) (upd (vw s) i w j).
  Proof. intros L j. unfold upd. destruct (decide _) as [->|]; [done|apply vle_refl]. Qed.
  Lemma mset_inv m l ts x l' ts' y : mset m l ts x l' ts' = Some y → (l' = l ∧ ts' = ts ∧ y = x) ∨ m l' ts' = Some y.
  Proof. unfold mset. destruct (decide _) as [[-> ->]|]; [intros [= <-]; auto|auto]. Qed.
  Lemma mset_ne m l ts x l' ts' : l' ≠ l → mset m l ts x l' ts' = m l' ts'.
  Proof. intros N. unfold mset. rewrite decide_False; [done|]. by intros [E _]. Qed.
  Lemma mset_eq m l ts x : mset m l ts x l ts = Some x. Proof. unfold mset. by rewrite decide_True. Qed.
  Lemma covers_mono s w w' t j : vle w w' → covers s w t j → covers s w' t j.
  Proof. intros [L _] C l ts E. etrans; [by apply C|apply L]. Qed.
  Lemma full_mono s w w' t : vle w w' → full s w t → full s w' t.
  Proof. intros L F j Hj. destruct (F j Hj). split; [done|]. by eapply covers_mono. Qed.

  (** What a step has to show. *)
  Lemma WI_gen s s' : WI s →
    (∀ i, vle (vw s i) (vw s' i)) →
    (∀ i o, kn s' i o → kn s i o ∨ (vi (vw s' i) o ∧ al s' o)) →
    (∀ o, al s o → al s' o) →
    (∀ l ts v w, mem s' l ts = Some (v, w) → mem s l ts = Some (v, w) ∨ ((∀ o, pointee v o → vi w o ∧ al s' o) ∧ (∀ o, owner l = Some o → al s' o) ∧
      (∀ t, l = LCopied t → v = VN (len t) → full s' w t) ∧ (∀ r, l = LRoot → v = VP (Some (Tab r)) → ∀ t, t < r → full s' w t) ∧
      (∀ t, l = LStatus t → v = VN PROMOTED_v → full s' w t))) →
    (∀ t j, own s t j = Counted → own s' t j = Counted ∧ cp s' t j = cp s t j) →
    (∀ t, al s' (Tab (S t)) → claim_ok s' t) → (∀ t j, ¬ al s' (Tab (S t)) → own s' t j = Free) → (∀ t, al s' (Tab (S t)) → copied_ok s' t) →
    (∀ i t j, own s' t j = Done i → (own s t j = Done i ∧ cp s' t j = cp s t j) ∨ covers s' (vw s' i) t j) →
    (∀ t j, is_Some (cp s' t j) → (∃ i, own s' t j = Done i) ∨ own s' t j = Counted) →
    (∀ i t, pr s' i t → pr s i t ∨ full s' (vw s' i) t) → (∀ i t, sn s' i t → sn s i t ∨ full s' (vw s' i) t) → WI s'.
  Proof.
    intros W V KN AL M C WC WF WD D CP PR SN.
    assert (FM : ∀ w w' t, vle w w' → full s w t → full s' w' t).
    { intros w w' t L F j Hj. destruct (F j Hj) as [O X]. destruct (C t j O) as [O' E]. split; [done|]. intros l ts. rewrite E. intros El. etrans; [by apply X|apply L]. }
    split; try done.
    - intros i o H. destruct (KN i o H) as [H'|[H' _]]; [|done]. apply V. by apply (wi_kn s W).
    - intros i o H. destruct (KN i o H) as [H'|[_ H']]; [|done]. apply AL. by eapply (wi_al s W).
    - intros l ts v w o E P. destruct (M l ts v w E) as [E'|(X & _)]; [|by apply X]. destruct (wi_ptr s W l ts v w o E' P). auto.
    - intros l ts v w o E P. destruct (M l ts v w E) as [E'|(_ & X & _)]; [|by apply X]. apply AL. by eapply (wi_own s W).
    - intros t ts v w E P. destruct (M _ ts v w E) as [E'|(_ & _ & X & _)]; [|by apply (X t)]. eapply FM; [apply vle_refl|]. by eapply (wi_len s W).
    - intros i t j E. destruct (D i t j E) as [[E' Ec]|]; [|done]. intros l ts. rewrite Ec. intros El. etrans; [by apply (wi_done s W i t j E')|apply V].
    - intros i t E. destruct (PR i t E) as [E'|]; [|done]. eapply FM; [apply V|]. by apply (wi_pr s W).
    - intros ts r w E t Ht. destruct (M _ _ _ _ E) as [E'|(_ & _ & _ & X & _)]; [|by eapply X]. eapply FM; [apply vle_refl|]. by eapply (wi_root s W).
    - intros t ts w E. destruct (M _ _ _ _ E) as [E'|(_ & _ & _ & _ & X)]; [|by eapply X]. eapply FM; [apply vle_refl|]. by eapply (wi_status s W).
    - intros i t E. destruct (SN i t E) as [E'|]; [|done]. eapply FM; [apply V|]. by apply (wi_sn s W).
  Qed.
  (** The counters are not touched. *)
  Lemma same_claim s s' t : (∀ ts, mem s' (LClaim t) ts = mem s (LClaim t) ts) → (∀ j, own s' t j = Free ↔ own s t j = Free) → claim_ok s t → claim_ok s' t.
  Proof.
    intros M O (k & c & w & A & B & C). exists k, c, w. rewrite M. split; [done|]. split; [intros ts; by rewrite M|]. intros j. by rewrite O.
  Qed.
  Lemma same_copied s s' t : (∀ ts, mem s' (LCopied t) ts = mem s (LCopied t) ts) → (∀ j, own s' t j = Counted ↔ own s t j = Counted) →
    (∀ j, own s t j = Counted → cp s' t j = cp s t j) → copied_ok s t → copied_ok s' t.
  Proof.
    intros M O P (k & w & A & B & C). exists k, w. rewrite M.
    assert (cnt s' t = cnt s t) as ->. { unfold cnt. f_equal. apply list_filter_iff. intros j. apply O. }
    split; [done|]. split; [intros ts; by rewrite M|]. intros j Hj l ts. apply O in Hj. rewrite P by done. by apply C.
  Qed.
  (** The next message of a location that is only written by read-modify-writes. *)
  Lemma chain_last (f : nat → option (val * view)) k ts : (∀ ts, is_Some (f ts) ↔ ts ≤ k) → is_Some (f ts) → f (S ts) = None → ts = k.
  Proof. intros B H N. apply B in H. destruct (decide (S ts ≤ k)) as [L|L]; [|lia]. apply B in L. rewrite N in L. by destruct L. Qed.
  Lemma chain_ext (m : loc → nat → option (val * view)) l k x : (∀ ts, is_Some (m l ts) ↔ ts ≤ k) → ∀ ts, is_Some (mset m l (S k) x l ts) ↔ ts ≤ S k.
  Proof.
    intros B ts. unfold mset. destruct (decide _) as [[_ ->]|N]; [split; [lia|by eexists]|]. rewrite B. split; [lia|]. intros L. destruct (decide (ts = S k)); [|lia]. by destruct N.
  Qed.
  Lemma WI_init : WI winit.
  Proof.
    split; cbn; try done.
    - intros l ts v w o. destruct (decide _); [|done]. by intros [= <- <-].
    - intros l ts v w o. destruct (decide _) as [[-> ->]|]; [|done]. by intros [= <- <-].
    - by intros t j [x E].
    - intros ts r w. destruct (decide _); [|done]. by intros [= <-].
  Qed.
  Lemma old_unalloc s l ts : WI s → (∀ o, owner l = Some o → ¬ al s o) → owner l ≠ None → mem s l ts = None.
  Proof.
    intros W N O. destruct (mem s l ts) as [[v w]|] eqn:E; [|done]. destruct (owner l) as [o|] eqn:Eo; [|done]. exfalso. apply (N o eq_refl). by eapply (wi_own s W).
  Qed.
  Lemma alloc_ok s i o : WI s → ¬ al s o →
    WI (WSt (λ l ts, if decide (owner l = Some o ∧ ts = 0) then Some (init_val l, bot) else mem s l ts)
        (upd (vw s) i (with_obj o (vw s i))) (upd (kn s) i (λ o', kn s i o' ∨ o' = o)) (own s) (cp s) (pr s) (sn s) (λ o', al s o' ∨ o' = o)).
  Proof.
    intros W N. apply (WI_gen s); cbn; auto; try done.
    - apply upd_vle. split; cbn; auto.
    - intros j o'. unfold upd. destruct (decide _) as [->|]; [|auto]. intros [A| ->]; [auto|]. right. cbn. auto.
    - intros l ts v w. destruct (decide _) as [[E ->]|]; [|auto]. intros [= <- <-]. right. split_and!.
      + intros o' E'. by destruct l.
      + intros o' E'. right. congruence.
      + intros t -> E'. injection E' as E'. intros j Hj. lia.
      + intros r ->. done.
      + intros t -> E'. by injection E'.
    - intros t A. destruct (decide (Tab (S t) = o)) as [<-|NE].
      + exists 0, 0, bot. cbn. rewrite decide_True by done. split; [done|]. split.
        * intros ts. destruct (decide _) as [[_ ->]|NN]; [split; [lia|by eexists]|]. rewrite (old_unalloc s) by (try done; cbn; intros ? [= <-]; done).
          split; [by intros [? ?]|]. intros L. destruct NN. split; [done|lia].
        * intros j. split; [lia|]. intros _. by apply (wi_free s W).
      + destruct A as [A|?]; [|done]. apply (same_claim s); try done; [|by apply (wi_claim s W)]. intros ts. cbn. rewrite decide_False; [done|]. intros [E _]. congruence.
    - intros t j A. apply (wi_free s W). intros X. apply A. auto.
    - intros t A. destruct (decide (Tab (S t) = o)) as [<-|NE].
      + exists 0, bot. cbn. rewrite decide_True by done.
        assert (Z : ∀ s', own s' = own s → cnt s' t = 0).
        { intros s' Es. unfold cnt. rewrite Es. assert (filter (λ j, own s t j = Counted) (seq 0 (len t)) = []) as ->; [|done].
          induction (seq 0 (len t)) as [|x l IH]; [done|]. rewrite filter_cons, decide_False; [done|]. by rewrite (wi_free s W). }
        rewrite Z by done. split; [done|]. split.
        * intros ts. destruct (decide _) as [[_ ->]|NN]; [split; [lia|by eexists]|]. rewrite (old_unalloc s) by (try done; cbn; intros ? [= <-]; done).
          split; [by intros [? ?]|]. intros L. destruct NN. split; [done|lia].
        * intros j. rewrite (wi_free s W) by done. done.
      + destruct A as [A|?]; [|done]. apply (same_copied s); try done; [|by apply (wi_copied s W)]. intros ts. cbn. rewrite decide_False; [done|]. intros [E _]. congruence.
    - apply (wi_cp s W).
  Qed.
  (** A step that adds at most one message, to a location other than the counters, and leaves the copies alone. *)
  Lemma WI_simple s l ts v w mem' vw' (kn' : nat → obj → Prop) (pr' sn' : nat → nat → Prop) : WI s →
    (mem' = mem s ∨ (mem' = mset (mem s) l ts (v, w) ∧ (∀ t, l ≠ LClaim t) ∧ (∀ t, l ≠ LCopied t) ∧ (∀ o, owner l = Some o → al s o) ∧
      (∀ o, pointee v o → vi w o ∧ al s o) ∧ (∀ r, l = LRoot → v = VP (Some (Tab r)) → ∀ t, t < r → full s w t) ∧ (∀ t, l = LStatus t → v = VN PROMOTED_v → full s w t))) →
    (∀ i, vle (vw s i) (vw' i)) →
    (∀ i o, kn' i o → kn s i o ∨ (vi (vw' i) o ∧ al s o)) →
    (∀ i t, pr' i t → pr s i t ∨ full s (vw' i) t) → (∀ i t, sn' i t → sn s i t ∨ full s (vw' i) t) →
    WI (WSt mem' vw' kn' (own s) (cp s) pr' sn' (al s)).
  Proof.
    intros W M V KN PR SN. apply (WI_gen s); cbn; auto; try done.
    - intros l' ts' v' w' E. destruct M as [->|(-> & A & B & C & D & F & G)]; [auto|]. apply mset_inv in E as [(-> & -> & E)|E]; [|auto]. injection E as -> ->. right.
      split_and!; auto. intros t ->. by destruct (B t).
    - intros t A. apply (same_claim s); try done; [|by apply (wi_claim s W)]. intros ts'. cbn. destruct M as [->|(-> & X & _)]; [done|]. apply mset_ne. auto.
    - apply (wi_free s W).
    - intros t A. apply (same_copied s); try done; [|by apply (wi_copied s W)]. intros ts'. cbn. destruct M as [->|(-> & _ & X & _)]; [done|]. apply mset_ne. auto.
    - apply (wi_cp s W).
  Qed.
  Lemma rd_own s i l ts v w : WI s → readable s i l ts v w → ∀ o, owner l = Some o → al s o.
  Proof. intros W (_ & M & _) o E. by eapply (wi_own s W). Qed.
  Lemma wstep_ok s s' : WI s → wstep s s' → WI s'.
  Proof.
    intros W [i o N|i l ts v w R|i l ts v w R|i l ts v A T M P L|i t j ts v w v' [R N] P|i t j ts v w [R N]|i ts w [R N] P|i t n ts c w [R N]|i t j t' j' ts v w p O Lt [R N] P
      |i t j O|i t ts c w [R N]|i t ts w [R N] P Q|i i'].
    - by apply alloc_ok.
    - (* load *)
      pose proof R as (A & M & T). apply (WI_simple s LRoot 0 (VN 0) bot); auto.
      + apply upd_vle, rview_vw.
      + intros j o. unfold upd. destruct (decide _) as [->|]; [|auto]. intros [H|[HP H]]; [auto|]. right.
        destruct (wi_ptr s W l ts v w o M H) as [X Y]. split; [|done]. destruct l; try done; by apply rview_w.
      + intros j t. unfold upd. destruct (decide _) as [->|]; [|auto]. intros [H|[-> ->]]; [auto|]. right. eapply full_mono; [|by eapply (wi_len s W)]. by apply rview_w.
      + intros j t. unfold upd. destruct (decide _) as [->|]; [|auto]. intros [H|[[-> (r & -> & Lr)]|[-> ->]]]; [auto| |]; right.
        * eapply full_mono; [|by eapply (wi_root s W)]. by apply rview_w.
        * eapply full_mono; [|by eapply (wi_status s W)]. by apply rview_w.
    - (* relaxed load *)
      apply (WI_simple s LRoot 0 (VN 0) bot); auto. apply upd_vle, rview_vw.
    - (* store *)
      apply (WI_simple s l ts v (wview (ord_store l) l ts (join (vw s i) (at_ts l ts)))); auto; [|apply upd_vle, vle_l].
      right. assert (X : is_rel (ord_store l) = true) by (destruct L as (t & j & [-> |[-> |[-> |[-> _]]]]); done).
      unfold wview. rewrite X. split_and!; auto.
      + intros t ->. by destruct L as (t' & j & [? |[? |[? |[? _]]]]).
      + intros t ->. by destruct L as (t' & j & [? |[? |[? |[? _]]]]).
      + intros o E. unfold acc in A. rewrite E in A. by eapply (wi_al s W).
      + intros o Ho. split; [|eapply (wi_al s W); by apply P]. cbn. left. apply (wi_kn s W). by apply P.
      + intros r ->. by destruct L as (t' & j & [? |[? |[? |[? _]]]]).
      + intros t -> ->. destruct L as (t' & j & [? |[? |[? |[[= <-] Z]]]]); try done. eapply full_mono; [apply vle_l|]. apply (wi_sn s W). by apply Z.
    - (* CAS *)
      eapply (WI_simple s); auto; [|apply upd_vle, rmw_vw]. right. split; [reflexivity|]. split_and!; try done.
      + by eapply rd_own.
      + intros o Ho. split; [|eapply (wi_al s W); by apply P]. right. apply (proj2 (rmw_vw s i _ _ _ _)). apply (wi_kn s W). by apply P.
    - (* fetch_or *)
      pose proof R as (A & M & T). eapply (WI_simple s); auto; [|apply upd_vle, rmw_vw|].
      + right. split; [reflexivity|]. split_and!; try done; [by eapply rd_own|].
        intros o Ho. destruct (wi_ptr s W _ ts v w o M Ho). split; [|done]. by left.
      + intros j' o. unfold upd. destruct (decide _) as [->|]; [|auto]. intros [H|H]; [auto|]. right. destruct (wi_ptr s W _ ts v w o M H) as [X Y]. split; [|done].
        by apply rmw_w.
    - (* first table *)
      eapply (WI_simple s); auto; [|apply upd_vle, rmw_vw]. right. split; [reflexivity|]. split_and!; try done.
      + intros o [= <-]. split; [|by eapply (wi_al s W)]. right. apply (proj2 (rmw_vw s i _ _ _ _)). by apply (wi_kn s W).
      + intros r _ [= <-] t. lia.
    - (* claim *)
      pose proof R as (A & M & T). assert (AL : al s (Tab (S t))) by (by eapply (rd_own s i _ ts)).
      destruct (wi_claim s W t AL) as (k & c0 & w0 & K1 & K2 & K3). assert (ts = k) as -> by (eapply chain_last; [exact K2|by eexists|done]).
      rewrite M in K1. injection K1 as <- <-.
      assert (OC : ∀ t0 j, (t0 = t ∧ c ≤ j ∧ j < c + n) → own s t0 j = Free) by (intros t0 j (-> & L1 & _); by apply K3).
      apply (WI_gen s); cbn; auto; try done.
      + apply upd_vle, rmw_vw.
      + intros l' ts' v' w' E. apply mset_inv in E as [(-> & -> & E)|E]; [|auto]. injection E as -> ->. right. split_and!; try done. by eapply rd_own.
      + intros t0 j Ho. rewrite decide_False; [done|]. intros X. by rewrite (OC t0 j X) in Ho.
      + intros t0 A0. destruct (decide (t0 = t)) as [->|NE].
        * exists (S k), (c + n). eexists. cbn. split; [apply mset_eq|]. split; [by apply chain_ext|]. intros j. destruct (decide _) as [X|X]; [split; [done|lia]|].
          rewrite K3. split; [|lia]. intros Lc. destruct (decide (c + n ≤ j)); [done|]. destruct X. lia.
        * apply (same_claim s); [intros ts'; apply mset_ne; congruence| |by apply (wi_claim s W)]. intros j. cbn. rewrite decide_False; [done|]. by intros [? _].
      + intros t0 j A0. rewrite decide_False; [by apply (wi_free s W)|]. intros (-> & _). done.
      + intros t0 A0. apply (same_copied s); [intros ts'; by apply mset_ne| |done|by apply (wi_copied s W)]. intros j. cbn. destruct (decide _) as [X|]; [|done].
        by rewrite (OC t0 j X).
      + intros i0 t0 j. destruct (decide _); [done|auto].
      + intros t0 j H. apply (wi_cp s W) in H. rewrite decide_False; [done|]. intros X. rewrite (OC t0 j X) in H. by destruct H as [[? ?]|?].
    - (* copy *)
      apply (WI_gen s); cbn; auto; try done.
      + apply upd_vle, rmw_vw.
      + intros l' ts' v' w' E. apply mset_inv in E as [(-> & -> & E)|E]; [|auto]. injection E as -> ->. right. split_and!; try done.
        * intros o [= <-]. split; [|by eapply (wi_al s W)]. right. apply (proj2 (rmw_vw s i _ _ _ _)). by apply (wi_kn s W).
        * by eapply rd_own.
      + intros t0 j0 H. rewrite !decide_False; [done| |]; intros [-> ->]; congruence.
      + intros t0 A0. apply (same_claim s); [intros ts'; by apply mset_ne| |by apply (wi_claim s W)]. intros j0. cbn. destruct (decide _) as [[-> ->]|]; [|done]. by rewrite O.
      + intros t0 j0 A0. destruct (decide _) as [[-> ->]|]; [|by apply (wi_free s W)]. by rewrite (wi_free s W t j A0) in O.
      + intros t0 A0. apply (same_copied s); [intros ts'; by apply mset_ne| | |by apply (wi_copied s W)].
        * intros j0. cbn. destruct (decide _) as [[-> ->]|]; [|done]. by rewrite O.
        * intros j0 H. cbn. rewrite decide_False; [done|]. intros [-> ->]. congruence.
      + intros i0 t0 j0. destruct (decide _) as [[-> ->]|NN]; [|auto]. intros [= <-]. right. intros l0 ts0. cbn. rewrite decide_True by done. intros [= <- <-]. rewrite upd_me. apply rmw_ts.
      + intros t0 j0. destruct (decide _); [eauto|]. apply (wi_cp s W).
    - (* skip *)
      assert (CPN : cp s t j = None). { destruct (cp s t j) eqn:E; [|done]. destruct (wi_cp s W t j) as [[? ?]|?]; [by eexists|congruence|congruence]. }
      apply (WI_gen s); cbn; auto; try done.
      + intros t0 j0 H. rewrite !decide_False; [done|]; intros [-> ->]; congruence.
      + intros t0 A0. apply (same_claim s); [done| |by apply (wi_claim s W)]. intros j0. cbn. destruct (decide _) as [[-> ->]|]; [|done]. by rewrite O.
      + intros t0 j0 A0. destruct (decide _) as [[-> ->]|]; [|by apply (wi_free s W)]. by rewrite (wi_free s W t j A0) in O.
      + intros t0 A0. apply (same_copied s); [done| |done|by apply (wi_copied s W)]. intros j0. cbn. destruct (decide _) as [[-> ->]|]; [|done]. by rewrite O.
      + intros i0 t0 j0. destruct (decide _) as [[-> ->]|NN]; [|auto]. intros [= <-]. right. intros l0 ts0. cbn. by rewrite CPN.
      + intros t0 j0. destruct (decide _); [eauto|]. apply (wi_cp s W).
    - (* count *)
      pose proof R as (A & M & T). assert (AL : al s (Tab (S t))) by (by eapply (rd_own s i _ ts)).
      destruct (wi_copied s W t AL) as (k & w0 & K1 & K2 & K3). assert (ts = k) as -> by (eapply chain_last; [exact K2|by eexists|done]).
      rewrite M in K1. injection K1 as -> <-.
      set (s1 := WSt _ _ _ _ _ _ _ _).
      assert (CN : cnt s1 t = cnt s t + mine s i t).
      { assert (EQ : ∀ x, own s1 t x = Counted ↔ own s t x = Counted ∨ own s t x = Done i).
        { intros x. cbn. destruct (decide (t = t ∧ own s t x = Done i)) as [[_ E]|E]; [naive_solver|]. split; [auto|]. intros [X|X]; [done|]. by destruct E. }
        unfold cnt, mine. clearbody s1. induction (seq 0 (len t)) as [|x l IH]; [done|]. rewrite !filter_cons. specialize (EQ x).
        repeat case_decide; cbn [length]; first [lia|exfalso; naive_solver congruence]. }
      set (w' := join w (wview ord_copied (LCopied t) (S k) (rmw_view s i ord_copied (LCopied t) k w))) in *.
      assert (RV : vle (rmw_view s i ord_copied (LCopied t) k w) w') by apply vle_r.
      assert (CV : ∀ w1, vle (rmw_view s i ord_copied (LCopied t) k w) w1 → ∀ j, own s1 t j = Counted → covers s1 w1 t j).
      { intros w1 L1 j H l ts E. cbn in H, E. destruct (decide (t = t ∧ own s t j = Done i)) as [[_ D]|D].
        - etrans; [by apply (wi_done s W i t j D)|]. apply (vle_trans _ _ _ (rmw_vw s i ord_copied (LCopied t) k w) L1).
        - etrans; [by apply (K3 j H)|]. by apply (vle_trans _ _ _ (rmw_w s i ord_copied (LCopied t) k w eq_refl) L1). }
      assert (ALL : cnt s t + mine s i t = len t → ∀ j, j < len t → own s1 t j = Counted).
      { rewrite <- CN. intros E j Hj. unfold cnt in E. destruct (decide (own s1 t j = Counted)) as [|X]; [done|]. exfalso.
        assert (length (filter (λ j, own s1 t j = Counted) (seq 0 (len t))) < length (seq 0 (len t))); [|rewrite seq_length in *; lia].
        apply (filter_length_lt _ _ j); [|done]. apply elem_of_list_In, in_seq. lia. }
      apply (WI_gen s); cbn; auto; try done.
      + apply upd_vle, rmw_vw.
      + intros l' ts1 v' w1 E. apply mset_inv in E as [(-> & -> & E)|E]; [|auto]. injection E as -> ->. right. split_and!; try done; [by eapply rd_own|].
        intros t0 [= <-] [= E]. intros j Hj. split; [by apply ALL|]. apply CV; [done|by apply ALL].
      + intros t0 j H. rewrite decide_False; [done|]. intros [_ X]. congruence.
      + intros t0 A0. apply (same_claim s); [intros ts1; by apply mset_ne| |by apply (wi_claim s W)]. intros j. cbn. destruct (decide _) as [[-> X]|]; [|done]. by rewrite X.
      + intros t0 j A0. rewrite decide_False; [by apply (wi_free s W)|]. intros [-> _]. done.
      + intros t0 A0. destruct (decide (t0 = t)) as [->|NE].
        * exists (S k), w'. split; [cbn; rewrite CN; apply mset_eq|]. split; [by apply chain_ext|]. by apply CV.
        * apply (same_copied s); [intros ts1; apply mset_ne; congruence| |done|by apply (wi_copied s W)]. intros j. cbn. rewrite decide_False; [done|]. by intros [? _].
      + intros i0 t0 j. destruct (decide _); [done|auto].
      + intros t0 j H. destruct (decide _); [auto|]. by apply (wi_cp s W).
      + intros i0 t0. unfold upd. destruct (decide (i0 = i)) as [->|]; [|auto]. intros [H|[-> E]]; [auto|]. right. intros j Hj. split; [by apply ALL|]. apply CV; [apply vle_refl|by apply ALL].
    - (* promotion *)
      pose proof R as (A & M & T). eapply (WI_simple s); auto; [|apply upd_vle, rmw_vw|].
      + right. split; [reflexivity|]. split_and!; try done.
        * intros o [= <-]. split; [|by eapply (wi_al s W)]. right. apply (proj2 (rmw_vw s i _ _ _ _)). by apply (wi_kn s W).
        * intros r _ [= <-] t0 Lt. destruct (decide (t0 = t)) as [->|NE].
          -- eapply full_mono; [|by apply (wi_pr s W i)]. eapply vle_trans; [apply rmw_vw|]. apply vle_r.
          -- eapply full_mono; [|eapply (wi_root s W); [exact M|]; lia]. apply vle_l.
      + intros j t0. unfold upd. destruct (decide _) as [->|]; [|auto]. intros [H| ->]; [auto|]. right. eapply full_mono; [|by apply (wi_pr s W i)]. apply rmw_vw.
    - (* sync *)
      apply (WI_simple s LRoot 0 (VN 0) bot); auto.
      + apply upd_vle, vle_l.
      + intros j o. unfold upd. destruct (decide _) as [->|]; [|auto]. intros [H|H]; [auto|]. right. split; [|by eapply (wi_al s W)]. cbn. right. by apply (wi_kn s W).
      + intros j t. unfold upd. destruct (decide _) as [->|]; [|auto]. intros [H|H]; [auto|]. right. eapply full_mono; [apply vle_r|]. by apply (wi_sn s W).
  Qed.
  Lemma reach_WI s : reachable s → WI s.
  Proof. induction 1; [apply WI_init|by eapply wstep_ok]. Qed.
  Inductive steps : wst → wst → Prop :=
  | steps_refl s : steps s s
  | steps_next s s' s'' : steps s s' → wstep s' s'' → steps s s''.
  Lemma steps_reach s s' : reachable s → steps s s' → reachable s'.
  Proof. intros R. induction 1; [done|]. eapply r_step; [by apply IHsteps|done]. Qed.
  Lemma sn_step s s' i t : wstep s s' → sn s i t → sn s' i t.
  Proof. intros ST HS. destruct ST; cbn; auto; unfold upd; destruct (decide _) as [->|]; auto. Qed.
  Lemma sn_steps s s' i t : steps s s' → sn s i t → sn s' i t.
  Proof. induction 1; [done|]. intros H1. eapply sn_step; [done|auto]. Qed.
  Lemma sn_sees s i t : reachable s → sn s i t → ∀ j, j < len t →
    own s t j = Counted ∧ ∀ l ts0, cp s t j = Some (l, ts0) → ∀ ts v w, readable s i l ts v w → ts0 ≤ ts.
  Proof.
    intros R H j Hj. destruct (wi_sn s (reach_WI s R) i t H j Hj) as [A B]. split; [done|]. intros l ts0 E ts v w (_ & _ & L). etrans; [by apply B|done].
  Qed.
End weak.

(** C50. Whenever a thread has a pointer it may dereference, the initialisation of the object happens before: in every reachable state, for every
    thread and every object; in particular every access to a table's memory comes after the initialisation of the table. *)
Theorem C50_published_objects_initialised (len : nat → nat) (s : wst) (i : nat) : reachable len s →
  (∀ o, kn s i o → vi (vw s i) o) ∧ (∀ l o, acc s i l → owner l = Some o → vi (vw s i) o) ∧
  (∀ l ts v w o, readable s i l ts v w → is_acq (ord_load l) = true → pointee v o → vi (rview s i (ord_load l) l ts w) o).
Proof.
  intros R%reach_WI. split; [apply (wi_kn len s R)|]. split.
  - intros l o A E. unfold acc in A. rewrite E in A. by apply (wi_kn len s R).
  - intros l ts v w o (_ & M & _) E P. apply rview_w; [done|]. by apply (wi_ptr len s R l ts v w o M P).
Qed.
(** C51. After a thread has loaded a root pointer to table [r] (mod.rs:280), whatever happens next ([s'']), every slot of every table before [r] has been copied,
    and whatever the thread reads from a place an entry was copied to is the copy or something newer. *)
Theorem C51_finished_resize_seen (len : nat → nat) (s s'' : wst) (i ts r t j : nat) (w : view) : reachable len s →
  readable s i LRoot ts (VP (Some (Tab r))) w →
  let s' := WSt (mem s) (upd (vw s) i (rview s i (ord_load LRoot) LRoot ts w)) (upd (kn s) i (λ o, kn s i o ∨ (holds_ptr LRoot ∧ pointee (VP (Some (Tab r))) o))) (own s) (cp s)
    (upd (pr s) i (λ t, pr s i t ∨ (LRoot = LCopied t ∧ VP (Some (Tab r)) = VN (len t)))) (upd (sn s) i (λ t, sn s i t ∨ see s i LRoot (VP (Some (Tab r))) t)) (al s) in
  wstep len s s' ∧ (steps len s' s'' → t < r → j < len t →
    own s'' t j = Counted ∧ ∀ l ts0, cp s'' t j = Some (l, ts0) → ∀ ts1 v1 w1, readable s'' i l ts1 v1 w1 → ts0 ≤ ts1).
Proof.
  intros R H s'. assert (ST : wstep len s s') by (by apply w_load). split; [done|]. intros P Lt Hj.
  apply (sn_sees len); [|eapply sn_steps; [done|]|done].
  - eapply steps_reach; [|done]. by eapply r_step.
  - cbn. rewrite upd_me. right. left. eauto.
Qed.
(** The same after the thread has found the status of the resize of [t] to be PROMOTED (2108, 2269). *)
Theorem C51_promoted_status_seen (len : nat → nat) (s s' s'' : wst) (i ts t j : nat) (w : view) : reachable len s →
  readable s i (LStatus t) ts (VN PROMOTED_v) w → s' = WSt (mem s) (upd (vw s) i (rview s i (ord_load (LStatus t)) (LStatus t) ts w))
    (upd (kn s) i (λ o, kn s i o ∨ (holds_ptr (LStatus t) ∧ pointee (VN PROMOTED_v) o))) (own s) (cp s)
    (upd (pr s) i (λ t', pr s i t' ∨ (LStatus t = LCopied t' ∧ VN PROMOTED_v = VN (len t')))) (upd (sn s) i (λ t', sn s i t' ∨ see s i (LStatus t) (VN PROMOTED_v) t')) (al s) →
  wstep len s s' ∧ (steps len s' s'' → j < len t →
    own s'' t j = Counted ∧ ∀ l ts0, cp s'' t j = Some (l, ts0) → ∀ ts1 v1 w1, readable s'' i l ts1 v1 w1 → ts0 ≤ ts1).
Proof.
  intros R H ->. match goal with |- wstep _ _ ?x ∧ _ => assert (ST : wstep len s x) by (by apply w_load) end. split; [done|]. intros P Hj.
  apply (sn_sees len); [|eapply sn_steps; [done|]|done].
  - eapply steps_reach; [|done]. by eapply r_step.
  - cbn. rewrite upd_me. right. right. auto.
Qed.
(** A table replaces the root only when every slot of the old one has been copied. *)
Theorem C51_promotion_complete (len : nat → nat) (s : wst) (ts r : nat) (w : view) : reachable len s → mem s LRoot ts = Some (VP (Some (Tab r)), w) →
  ∀ t j, t < r → j < len t → own s t j = Counted.
Proof. intros R M t j Lt Hj. by apply (wi_root len s (reach_WI len s R) ts r w M t Lt j Hj). Qed.

(** A run: thread 0 creates the table, inserts an entry and creates the next table; thread 1 copies the entry, counts and promotes; thread 2 loads the root. *)
Definition len1 : nat → nat := λ _, 1.
Ltac m1 := match goal with |- mem _ _ _ = _ => reflexivity | |- own _ _ _ = _ => reflexivity | |- cp _ _ _ = _ => reflexivity end.
Ltac knp := first [done | reflexivity | hnf; first [left; knp | right; knp]].
Ltac rd := unfold rmw_ok, readable, acc, pointee; intros; simplify_eq; split_and?; try m1;
  match goal with
  | |- _ ≤ _ => vm_compute; lia | |- _ < _ => vm_compute; lia
  | |- kn _ _ _ => knp | |- pr _ _ _ => knp | |- ¬ al _ _ => vm_compute; intuition congruence
  | |- ∃ _, _ => exists 0, 0; tauto
  | |- match owner _ with _ => _ end => first [exact I | cbn [owner]; knp]
  | |- _ => idtac end.
Ltac run R c := match type of R with reachable _ ?s => let X := fresh in eassert (X : wstep len1 s _) by (eapply (c s); rd); apply (r_step len1 _ _ R) in X; clear R; rename X into R end;
  match type of R with reachable _ ?s' => let n := fresh "s" in set (n := s') in R end.
Example C51_run : ∃ s w, reachable len1 s ∧ readable s 2 LRoot 2 (VP (Some (Tab 1))) w ∧ cp s 0 0 = Some (LSlot 1 0, 1) ∧
  (∃ v w', mem s (LSlot 1 0) 0 = Some (v, w')) ∧ own s 0 0 = Counted.
Proof.
  pose proof (r_init len1) as R.
  run R (λ s, w_alloc len1 s 0 (Tab 0)).
  run R (λ s, w_init len1 s 0 0 bot).
  run R (λ s, w_alloc len1 s 0 (Ent 7)).
  run R (λ s, w_cas len1 s 0 0 0 0 (VP None) bot (VP (Some (Ent 7)))).
  run R (λ s, w_alloc len1 s 0 (Tab 1)).
  run R (λ s, w_store len1 s 0 (LNext 0) 1 (VP (Some (Tab 1)))).
  run R (λ s, w_load len1 s 1 LRoot 1).
  run R (λ s, w_load len1 s 1 (LNext 0) 1).
  run R (λ s, w_claim len1 s 1 0 64 0 0).
  run R (λ s, w_for len1 s 1 0 0 1).
  run R (λ s, w_copy len1 s 1 0 0 1 0 0 (VP None) bot 7).
  run R (λ s, w_count len1 s 1 0 0 0).
  run R (λ s, w_promote len1 s 1 0 1).
  eexists _, _. split; [exact R|]. rd.
  eexists _, _. m1.
Qed.
Print Assumptions C50_published_objects_initialised.
Print Assumptions C51_finished_resize_seen.
Print Assumptions C51_promoted_status_seen.
Print Assumptions C51_promotion_complete.
