(** Shared state of the map, programs, and primitive atomic actions. *)
From stdpp Require Export base list numbers option.
From Verif Require Export Pure.

(** A tagged entry word (src/raw/mod.rs:127-161, src/raw/utils/tagged.rs): the pointer part
    ([None] = null address) and the three tag bits.  The bit-level encoding is in [Pure.v]. *)
Record eword := EW { e_ptr : option nat; e_copying : bool; e_copied : bool; e_borrowed : bool }.
Global Instance eword_eq_dec : EqDecision eword.
Proof. solve_decision. Defined.
(** Null: an all-zero word (alloc_zeroed, alloc.rs:69).  Tombstone: mod.rs:160. *)
Definition NULLW : eword := EW None false false false.
Definition TOMBW : eword := EW None false true false.
Definition set_copying (e : eword) : eword := EW (e_ptr e) true (e_copied e) (e_borrowed e).

(** Resize mode, src/map.rs:155-192. *)
Inductive rmode := Incremental (chunk : nat) | Blocking.

(** State::status constants, src/raw/mod.rs:79-89. *)
Inductive status := PENDING | ABORTED | PROMOTED.
Global Instance status_eq_dec : EqDecision status.
Proof. solve_decision. Defined.

(** Mutex<()> of State::allocating, src/raw/mod.rs:49.  [LPoisoned]: the holder panicked. *)
Inductive lockst := LFree | LHeld (tid : nat) | LPoisoned.

(** The atomics a parker can be keyed on (address of the atomic, parker.rs:33):
    the table's status byte or one of its entry words. *)
Inductive pkey := KStatus | KEntry (i : nat).
Global Instance pkey_eq_dec : EqDecision pkey.
Proof. solve_decision. Defined.

(** Parker, src/raw/utils/parker.rs:17-26.  [pk_threads] flattens the two nested maps:
    (key, registration id, thread).  [pk_pending] is an AtomicU64; an integer here. *)
Record parker := Parker { pk_pending : Z; pk_count : nat; pk_threads : list (pkey * nat * nat) }.
Definition parker0 := Parker 0 0 [].

(** One slot: metadata byte + entry word (alloc.rs:22-32). *)
Record slot := Slot { s_meta : N; s_ent : eword }.
Definition slot0 := Slot EMPTY NULLW.

(** A table allocation: TableLayout (alloc.rs:16-32) + State (mod.rs:44-66).
    [t_freed] marks a deallocated table (alloc.rs:200). *)
Record table := Table {
  t_slots : list slot;
  t_limit : nat;
  t_next : option nat;
  t_lock : lockst;
  t_copied : nat;
  t_claim : nat;
  t_status : status;
  t_parker : parker;
  t_deferred : list nat;
  t_freed : bool }.

Definition t_len (t : table) : nat := length (t_slots t).

(** Table::alloc, alloc.rs:59-101, for an already padded length. *)
Definition new_table (len : nat) (st : status) : table :=
  Table (replicate len slot0) (probe_limit len) None LFree 0 0 st parker0 [] false.

Definition t_set_slots (f : list slot → list slot) (t : table) : table :=
  Table (f (t_slots t)) (t_limit t) (t_next t) (t_lock t) (t_copied t) (t_claim t) (t_status t) (t_parker t) (t_deferred t) (t_freed t).
Definition t_set_next (x : option nat) (t : table) : table :=
  Table (t_slots t) (t_limit t) x (t_lock t) (t_copied t) (t_claim t) (t_status t) (t_parker t) (t_deferred t) (t_freed t).
Definition t_set_lock (x : lockst) (t : table) : table :=
  Table (t_slots t) (t_limit t) (t_next t) x (t_copied t) (t_claim t) (t_status t) (t_parker t) (t_deferred t) (t_freed t).
Definition t_set_copied (x : nat) (t : table) : table :=
  Table (t_slots t) (t_limit t) (t_next t) (t_lock t) x (t_claim t) (t_status t) (t_parker t) (t_deferred t) (t_freed t).
Definition t_set_claim (x : nat) (t : table) : table :=
  Table (t_slots t) (t_limit t) (t_next t) (t_lock t) (t_copied t) x (t_status t) (t_parker t) (t_deferred t) (t_freed t).
Definition t_set_status (x : status) (t : table) : table :=
  Table (t_slots t) (t_limit t) (t_next t) (t_lock t) (t_copied t) (t_claim t) x (t_parker t) (t_deferred t) (t_freed t).
Definition t_set_parker (x : parker) (t : table) : table :=
  Table (t_slots t) (t_limit t) (t_next t) (t_lock t) (t_copied t) (t_claim t) (t_status t) x (t_deferred t) (t_freed t).
Definition t_set_deferred (x : list nat) (t : table) : table :=
  Table (t_slots t) (t_limit t) (t_next t) (t_lock t) (t_copied t) (t_claim t) (t_status t) (t_parker t) x (t_freed t).
Definition t_set_freed (x : bool) (t : table) : table :=
  Table (t_slots t) (t_limit t) (t_next t) (t_lock t) (t_copied t) (t_claim t) (t_status t) (t_parker t) (t_deferred t) x.

Definition set_meta (m : N) (s : slot) : slot := Slot m (s_ent s).
Definition set_ent (e : eword) (s : slot) : slot := Slot (s_meta s) e.

(** Objects handed to the reclaimer (seize): [r_blockers] = threads that were pinned when the object was
    retired and have not unpinned since. *)
Inductive robj := REntry (p : nat) | RTable (t : nat).
Record ritem := RItem { r_obj : robj; r_blockers : list nat }.

(** Table handle: [Table<T>] of alloc.rs:34-46 (raw pointer + cached mask and limit). *)
Record tref := TRef { th : nat; th_mask : nat; th_limit : nat }.
Definition th_len (tb : tref) : nat := S (th_mask tb).   (* alloc.rs:162 *)

(** Reasons for a panic. *)
Inductive preason :=
  | PAllocPow2     (* alloc.rs:60 assert!(len.is_power_of_two()) *)
  | PPoison        (* mod.rs:1924 state.allocating.lock().unwrap() on a poisoned lock *)
  | PUnwrap        (* unwrap() on None: mod.rs:2006, 2021, 2334, 2611 *)
  | PUnreachable   (* unreachable!() *)
  | PRemoveNone    (* "Cannot remove `None` entry." *)
  | PFnOnce        (* f.take().unwrap() of an already used FnOnce: mod.rs:1408, 1492 *)
  | PUser.         (* a closure passed by the user panics *)

Section prog.
  Context {K V : Type}.

  (** HashMap (mod.rs:22-41) plus the reclaimer and thread::park tokens.
      [heap]: every entry ever published, by pointer id, with its (immutable) key and value.
      [freed]: entries that have been deallocated.  [pins]: threads holding a guard.
      [retired_ever]: every object passed to retire so far (to detect double retirement). *)
  Record state := State {
    tables : list table;
    root : option nat;
    heap : list (K * V);
    counts : list Z;
    retired : list ritem;
    retired_ever : list robj;
    freed : list nat;
    pins : list nat;
    tokens : list nat }.

  Definition set_tables f σ := State (f (tables σ)) (root σ) (heap σ) (counts σ) (retired σ) (retired_ever σ) (freed σ) (pins σ) (tokens σ).
  Definition set_root x σ := State (tables σ) x (heap σ) (counts σ) (retired σ) (retired_ever σ) (freed σ) (pins σ) (tokens σ).
  Definition set_heap x σ := State (tables σ) (root σ) x (counts σ) (retired σ) (retired_ever σ) (freed σ) (pins σ) (tokens σ).
  Definition set_counts x σ := State (tables σ) (root σ) (heap σ) x (retired σ) (retired_ever σ) (freed σ) (pins σ) (tokens σ).
  Definition set_retired x y σ := State (tables σ) (root σ) (heap σ) (counts σ) x y (freed σ) (pins σ) (tokens σ).
  Definition set_freed x σ := State (tables σ) (root σ) (heap σ) (counts σ) (retired σ) (retired_ever σ) x (pins σ) (tokens σ).
  Definition set_pins x σ := State (tables σ) (root σ) (heap σ) (counts σ) (retired σ) (retired_ever σ) (freed σ) x (tokens σ).
  Definition set_tokens x σ := State (tables σ) (root σ) (heap σ) (counts σ) (retired σ) (retired_ever σ) (freed σ) (pins σ) x.

  (** Result of one atomic access: value and new state; not enabled (a blocked thread);
      undefined behaviour (access to freed memory, out-of-bounds, double retirement). *)
  Inductive outcome (A : Type) :=
    | Ok (a : A) (σ : state)
    | Block
    | UB.
  Global Arguments Ok {A}. Global Arguments Block {A}. Global Arguments UB {A}.

  (** An atomic action: acting thread, oracle bit (spurious CAS failure / spurious unpark), state. *)
  Definition action (A : Type) := nat → bool → state → outcome A.

  Inductive prog : Type → Type :=
    | Ret {A} (a : A) : prog A
    | Act {X A} (f : action X) (k : X → prog A) : prog A
    | Loop {S B A} (body : S → prog (S + B)) (s : S) (k : B → prog A) : prog A
    | Fail {A} (r : preason) : prog A.

  Fixpoint bind {A B} (p : prog A) : (A → prog B) → prog B :=
    match p in prog A return (A → prog B) → prog B with
    | Ret a => λ k, k a
    | Act f k1 => λ k, Act f (λ x, bind (k1 x) k)
    | Loop body s k1 => λ k, Loop body s (λ x, bind (k1 x) k)
    | Fail r => λ _, Fail r
    end.

  Definition act {A} (f : action A) : prog A := Act f Ret.
  Definition loop {S B} (body : S → prog (S + B)) (s : S) : prog B := Loop body s Ret.

  (** * Primitive actions *)

  (** Access to a table's memory: undefined behaviour if the table does not exist or is freed. *)
  Definition with_table {A} (t : nat) (σ : state) (f : table → outcome A) : outcome A :=
    match tables σ !! t with
    | Some tb => if t_freed tb then UB else f tb
    | None => UB
    end.
  Definition upd_table (t : nat) (tb : table) (σ : state) : state := set_tables (<[t := tb]>) σ.

  (** Access to slot [i]: out-of-bounds is undefined behaviour (alloc.rs:133, 149). *)
  Definition with_slot {A} (t i : nat) (σ : state) (f : table → slot → outcome A) : outcome A :=
    with_table t σ (λ tb, match t_slots tb !! i with Some s => f tb s | None => UB end).
  Definition upd_slot (t i : nat) (tb : table) (s : slot) (σ : state) : state :=
    upd_table t (t_set_slots (<[i := s]>) tb) σ.

  Definition handle (t : nat) (tb : table) : tref := TRef t (t_len tb - 1) (t_limit tb).

  (** mod.rs:278 root(): load the root pointer and read mask/limit (Table::from_raw, alloc.rs:108). *)
  Definition a_root : action (option tref) := λ _ _ σ,
    match root σ with
    | None => Ok None σ
    | Some t => with_table t σ (λ tb, Ok (Some (handle t tb)) σ)
    end.
  (** mod.rs:2468 self.table.load (no dereference). *)
  Definition a_root_raw : action (option nat) := λ _ _ σ, Ok (root σ) σ.

  Definition a_load_meta (tb : tref) (i : nat) : action N := λ _ _ σ,
    with_slot (th tb) i σ (λ _ s, Ok (s_meta s) σ).
  Definition a_store_meta (tb : tref) (i : nat) (m : N) : action unit := λ _ _ σ,
    with_slot (th tb) i σ (λ t s, Ok tt (upd_slot (th tb) i t (set_meta m s) σ)).
  Definition a_load_ent (tb : tref) (i : nat) : action eword := λ _ _ σ,
    with_slot (th tb) i σ (λ _ s, Ok (s_ent s) σ).
  Definition a_store_ent (tb : tref) (i : nat) (e : eword) : action unit := λ _ _ σ,
    with_slot (th tb) i σ (λ t s, Ok tt (upd_slot (th tb) i t (set_ent e s) σ)).
  (** fetch_or(COPYING): returns the previous word (tagged.rs:93-100). *)
  Definition a_fetch_or_copying (tb : tref) (i : nat) : action eword := λ _ _ σ,
    with_slot (th tb) i σ (λ t s, Ok (s_ent s) (upd_slot (th tb) i t (set_ent (set_copying (s_ent s)) s) σ)).

  (** A CAS whose expected pointer has been freed would be an ABA hazard: undefined behaviour in the model. *)
  Definition exp_freed (e : eword) (σ : state) : bool :=
    match e_ptr e with Some p => bool_decide (p ∈ freed σ) | None => false end.

  (** compare_exchange of an existing word (tombstone or copied word); [weak] may fail spuriously.
      [inl tt] = success, [inr found] = failure with the current word. *)
  Definition a_cas_ent (weak : bool) (tb : tref) (i : nat) (expected new : eword) : action (unit + eword) := λ _ o σ,
    with_slot (th tb) i σ (λ t s,
      if exp_freed expected σ then UB else
      if decide (s_ent s = expected ∧ ¬ (weak = true ∧ o = true))
      then Ok (inl tt) (upd_slot (th tb) i t (set_ent new s) σ)
      else Ok (inr (s_ent s)) σ).
  (** compare_exchange that publishes a new entry (untagged pointer to a private Box with contents
      [kv]); on success the entry gets the next pointer id.  Simplification: the Box is allocated
      before (mod.rs:446, 1358); a private allocation is not observable. *)
  Definition a_cas_pub (weak : bool) (tb : tref) (i : nat) (expected : eword) (kv : K * V) : action (nat + eword) := λ _ o σ,
    with_slot (th tb) i σ (λ t s,
      if exp_freed expected σ then UB else
      if decide (s_ent s = expected ∧ ¬ (weak = true ∧ o = true))
      then Ok (inl (length (heap σ)))
              (set_heap (heap σ ++ [kv])
                (upd_slot (th tb) i t (set_ent (EW (Some (length (heap σ))) false false false) s) σ))
      else Ok (inr (s_ent s)) σ).

  (** Dereference of an entry pointer. *)
  Definition a_deref (p : nat) : action (K * V) := λ _ _ σ,
    if decide (p ∈ freed σ) then UB else
    match heap σ !! p with Some kv => Ok kv σ | None => UB end.

  (** next_table, alloc.rs:182-193. *)
  Definition a_next (tb : tref) : action (option tref) := λ _ _ σ,
    with_table (th tb) σ (λ t,
      match t_next t with
      | None => Ok None σ
      | Some t' => with_table t' σ (λ tb', Ok (Some (handle t' tb')) σ)
      end).
  Definition a_load_copied (tb : tref) : action nat := λ _ _ σ,
    with_table (th tb) σ (λ t, Ok (t_copied t) σ).
  (** fetch_add on [copied]; returns the previous value. *)
  Definition a_add_copied (tb : tref) (n : nat) : action nat := λ _ _ σ,
    with_table (th tb) σ (λ t, Ok (t_copied t) (upd_table (th tb) (t_set_copied (t_copied t + n) t) σ)).
  Definition a_load_claim (tb : tref) : action nat := λ _ _ σ,
    with_table (th tb) σ (λ t, Ok (t_claim t) σ).
  Definition a_add_claim (tb : tref) (n : nat) : action nat := λ _ _ σ,
    with_table (th tb) σ (λ t, Ok (t_claim t) (upd_table (th tb) (t_set_claim (t_claim t + n) t) σ)).
  Definition a_load_status (tb : tref) : action status := λ _ _ σ,
    with_table (th tb) σ (λ t, Ok (t_status t) σ).
  Definition a_store_status (tb : tref) (x : status) : action unit := λ _ _ σ,
    with_table (th tb) σ (λ t, Ok tt (upd_table (th tb) (t_set_status x t) σ)).

  (** Mutex::try_lock: [true] if acquired (mod.rs:1906; Err both when held and when poisoned). *)
  Definition a_try_lock (tb : tref) : action bool := λ me _ σ,
    with_table (th tb) σ (λ t,
      match t_lock t with
      | LFree => Ok true (upd_table (th tb) (t_set_lock (LHeld me) t) σ)
      | _ => Ok false σ
      end).
  (** Mutex::lock: blocks while held; [false] = poisoned (mod.rs:1924). *)
  Definition a_lock (tb : tref) : action bool := λ me _ σ,
    with_table (th tb) σ (λ t,
      match t_lock t with
      | LFree => Ok true (upd_table (th tb) (t_set_lock (LHeld me) t) σ)
      | LHeld _ => Block
      | LPoisoned => Ok false σ
      end).
  Definition a_unlock (tb : tref) : action unit := λ _ _ σ,
    with_table (th tb) σ (λ t, Ok tt (upd_table (th tb) (t_set_lock LFree t) σ)).
  (** A panic while the MutexGuard is alive poisons the lock. *)
  Definition a_poison (tb : tref) : action unit := λ _ _ σ,
    with_table (th tb) σ (λ t, Ok tt (upd_table (th tb) (t_set_lock LPoisoned t) σ)).

  (** Publish a freshly allocated next table (mod.rs:1976-1977): Table::alloc followed by the store
      to [state.next].  [len] is the padded length.  Simplification: allocation and store are one step. *)
  Definition a_publish_next (tb : tref) (len : nat) : action tref := λ _ _ σ,
    with_table (th tb) σ (λ t,
      let n := length (tables σ) in
      let nt := new_table len PENDING in
      Ok (handle n nt) (set_tables (λ l, l ++ [nt]) (upd_table (th tb) (t_set_next (Some n) t) σ))).
  (** init, mod.rs:1860-1880: CAS of the root from null to a fresh table; the loser's private table is
      deallocated and never observable. *)
  Definition a_init (len : nat) : action tref := λ _ _ σ,
    match root σ with
    | None =>
        let n := length (tables σ) in
        let nt := new_table len PROMOTED in
        Ok (handle n nt) (set_root (Some n) (set_tables (λ l, l ++ [nt]) σ))
    | Some t => with_table t σ (λ tb, Ok (handle t tb) σ)
    end.
  (** CAS of the root pointer, mod.rs:2476-2479. *)
  Definition a_cas_root (tb next : tref) : action bool := λ _ _ σ,
    if decide (root σ = Some (th tb)) then Ok true (set_root (Some (th next)) σ) else Ok false σ.

  (** Counter::get: shard of the thread, counter.rs:33 ([len] is a power of two, so [&] is mod). *)
  Definition shard (me : nat) (σ : state) : nat := Nat.land me (length (counts σ) - 1).
  Definition a_count (d : Z) : action unit := λ me _ σ,
    Ok tt (set_counts (alter (λ c, c + d)%Z (shard me σ) (counts σ)) σ).
  Definition a_load_shard (j : nat) : action Z := λ _ _ σ, Ok (default 0%Z (counts σ !! j)) σ.
  Definition a_shards : action nat := λ _ _ σ, Ok (length (counts σ)) σ.

  (** guard.defer_retire / collector.retire. *)
  Definition do_retire (o : robj) (σ : state) : state :=
    set_retired (retired σ ++ [RItem o (pins σ)]) (o :: retired_ever σ) σ.
  Global Instance robj_eq_dec : EqDecision robj.
  Proof. solve_decision. Defined.
  Definition a_retire (o : robj) : action unit := λ _ _ σ,
    if decide (o ∈ retired_ever σ) then UB else Ok tt (do_retire o σ).
  (** Stack::push on a table's deferred list (stack.rs:31-57, one step here; see StackModel.v). *)
  Definition a_defer (tb : tref) (p : nat) : action unit := λ _ _ σ,
    with_table (th tb) σ (λ t, Ok tt (upd_table (th tb) (t_set_deferred (p :: t_deferred t) t) σ)).

  (** Parker steps, parker.rs:32-130. *)
  Definition a_pk_announce (tb : tref) (d : Z) : action unit := λ _ _ σ,
    with_table (th tb) σ (λ t, let k := t_parker t in
      Ok tt (upd_table (th tb) (t_set_parker (Parker (pk_pending k + d) (pk_count k) (pk_threads k)) t) σ)).
  Definition a_pk_register (tb : tref) (key : pkey) : action nat := λ me _ σ,
    with_table (th tb) σ (λ t, let k := t_parker t in let id := S (pk_count k) in
      Ok id (upd_table (th tb) (t_set_parker (Parker (pk_pending k) id ((key, id, me) :: pk_threads k)) t) σ)).
  (** remove (key,id); returns whether it was present. *)
  Definition a_pk_remove (tb : tref) (key : pkey) (id : nat) : action bool := λ _ _ σ,
    with_table (th tb) σ (λ t, let k := t_parker t in
      let here := existsb (λ x, bool_decide (x.1.1 = key ∧ x.1.2 = id)) (pk_threads k) in
      Ok here (upd_table (th tb) (t_set_parker (Parker (pk_pending k) (pk_count k)
                 (List.filter (λ x, negb (bool_decide (x.1.1 = key ∧ x.1.2 = id))) (pk_threads k))) t) σ)).
  Definition a_pk_contains (tb : tref) (key : pkey) (id : nat) : action bool := λ _ _ σ,
    with_table (th tb) σ (λ t,
      Ok (existsb (λ x, bool_decide (x.1.1 = key ∧ x.1.2 = id)) (pk_threads (t_parker t))) σ).
  Definition a_pk_pending (tb : tref) : action Z := λ _ _ σ,
    with_table (th tb) σ (λ t, Ok (pk_pending (t_parker t)) σ).
  (** threads.remove(&key): take all registrations of a key; returns the threads. *)
  Definition a_pk_take (tb : tref) (key : pkey) : action (list nat) := λ _ _ σ,
    with_table (th tb) σ (λ t, let k := t_parker t in
      let mine := List.filter (λ x, bool_decide (x.1.1 = key)) (pk_threads k) in
      Ok (map snd mine) (upd_table (th tb) (t_set_parker (Parker (pk_pending k) (pk_count k)
                 (List.filter (λ x, negb (bool_decide (x.1.1 = key))) (pk_threads k))) t) σ)).
  (** thread::park: consumes a token or blocks; the oracle allows a spurious return. *)
  Definition a_park : action unit := λ me o σ,
    if o then Ok tt σ else
    if decide (me ∈ tokens σ) then Ok tt (set_tokens (List.filter (λ x, negb (x =? me)) (tokens σ)) σ)
    else Block.
  Definition a_unpark (j : nat) : action unit := λ _ _ σ, Ok tt (set_tokens (j :: tokens σ) σ).
End prog.

Arguments state : clear implicits.
Arguments prog : clear implicits.
Arguments action : clear implicits.
Arguments outcome : clear implicits.

Declare Scope prog_scope.
Delimit Scope prog_scope with prog.
Notation "x ← p ; q" := (bind p (λ x, q)) (at level 20, p at level 100, q at level 200, only parsing) : prog_scope.
Notation "p ;; q" := (bind p (λ _, q)) (at level 100, q at level 200, right associativity, only parsing) : prog_scope.
