(** The algorithms of src/raw/mod.rs as programs over the shared state. *)
From Verif Require Export Prog.
Open Scope prog_scope.

(** Immutable configuration of a map: hasher (an arbitrary function), resize mode,
    initial_capacity (mod.rs:34), and the spin counts (cfg-dependent constants, arbitrary here). *)
Record config (K : Type) := Config {
  c_hash : K → N;
  c_mode : rmode;
  c_initial : nat;
  c_spin_alloc : nat;   (* SPIN_ALLOC, mod.rs:1893 *)
  c_spin_wait : nat;    (* SPIN_WAIT, mod.rs:2095 and 2250 *)
  c_spin_copied : nat   (* SPIN_WAIT of wait_copied, mod.rs:2534 *)
}.
Arguments Config {K}. Arguments c_hash {K}. Arguments c_mode {K}. Arguments c_initial {K}.
Arguments c_spin_alloc {K}. Arguments c_spin_wait {K}. Arguments c_spin_copied {K}.

(** What to write in an update: a new entry or the tombstone sentinel. *)
Inductive newent (K V : Type) := NewEnt (kv : K * V) | NewTomb.
Arguments NewEnt {K V}. Arguments NewTomb {K V}.

(** EntryStatus, mod.rs:164-193. *)
Inductive estatus := SNull | SCopied (e : eword) | SValue (e : eword).
Definition estatus_of (e : eword) : estatus :=
  match e_ptr e with
  | None => SNull
  | Some _ => if e_copying e then SCopied e else SValue e
  end.

(** UpdateStatus, mod.rs:196-202: [UReplaced p] carries the replaced word and, for a new entry, its pointer. *)
Inductive ustatus := UReplaced (old : eword) (new : option nat) | UFound (s : estatus).
(** InsertStatus, mod.rs:205-211. *)
Inductive istatus := IInserted (p : nat) | IFound (s : estatus).

(** Operation of a compute closure, map.rs:1078-1087.  Abort payloads are a function of the input in the
    model (closures are pure), so [OpAbort] carries none.
    [OpPanic]: the closure panics instead of returning. *)
Inductive cop (V : Type) := OpInsert (v : V) | OpRemove | OpAbort | OpPanic.
Arguments OpInsert {V}. Arguments OpRemove {V}. Arguments OpAbort {V}. Arguments OpPanic {V}.

(** Results at pointer level (RawInsertResult mod.rs:106-119; Compute map.rs:1093). *)
Inductive iresult := RInserted (p : nat) | RReplaced (p : nat) | RError (cur : nat).
Inductive rresult := RRemoved (p : nat) | RAbsent | RRejected (p : nat).
Inductive cresult := CInserted (p : nat) | CUpdated (old new : nat) | CRemoved (p : nat) | CAborted (p : option nat).

(** ComputeState, mod.rs:1246-1264, with a log of the closure calls made so far (newest first). *)
Record cstate (K V : Type) := CState {
  cs_insert : option V;
  cs_update : option (nat * cop V);
  cs_calls : list (option (K * V)) }.
Arguments CState {K V}. Arguments cs_insert {K V}. Arguments cs_update {K V}. Arguments cs_calls {K V}.

Section model.
  Context {K V : Type} {Keq : EqDecision K} (cfg : config K).
  Notation prog := (prog K V).

  Definition h1_of (k : K) : N := c_hash cfg k.        (* meta::h1, mod.rs:2819 *)
  Definition h2_of (k : K) : N := h2 (c_hash cfg k).   (* meta::h2, mod.rs:2825 *)
  Definition incremental : bool := match c_mode cfg with Incremental _ => true | Blocking => false end.

  Definition key_of_ptr (e : eword) : nat := default 0 (e_ptr e).

  (** ** Parker, parker.rs *)

  (** The park condition on the keyed atomic: status == PENDING (mod.rs:2119, 2283), or
      COPIED bit not set (mod.rs:2556). *)
  Definition a_should_park (tb : tref) (key : pkey) : action K V bool :=
    match key with
    | KStatus => λ _ _ σ, with_table (th tb) σ (λ t, Ok (bool_decide (t_status t = PENDING)) σ)
    | KEntry i => λ _ _ σ, with_slot (th tb) i σ (λ _ s, Ok (negb (e_copied (s_ent s))) σ)
    end.

  (** parker.rs:32-97 [park]. *)
  Definition park (tb : tref) (key : pkey) : prog unit :=
    loop (λ _ : unit,
      (act (a_pk_announce tb 1);;                                (* 44 *)
       id ← act (a_pk_register tb key);                          (* 47-55 *)
       c ← act (a_should_park tb key);                           (* 61 *)
       if negb c then
         (here ← act (a_pk_remove tb key id);                    (* 63-69 *)
          if (here : bool) then (act (a_pk_announce tb (-1));; Ret (inr tt))   (* 71-73 *)
          else Ret (inr tt))
       else
         (loop (λ _ : unit,                                      (* 79-89 *)
            (act a_park;;
             h ← act (a_pk_contains tb key id);
             if (h : bool) then Ret (inl tt) else Ret (inr tt))) tt;;
          c2 ← act (a_should_park tb key);                       (* 94 *)
          if negb c2 then Ret (inr tt) else Ret (inl tt)))) tt.

  Fixpoint unpark_all (l : list nat) : prog unit :=
    match l with
    | [] => Ret tt
    | j :: l => (act (a_unpark j);; unpark_all l)
    end.

  (** parker.rs:104-130 [unpark]. *)
  Definition unpark (tb : tref) (key : pkey) : prog unit :=
    (n ← act (a_pk_pending tb);
     if (n =? 0)%Z then Ret tt else
     (ths ← act (a_pk_take tb key);
      match ths with
      | [] => Ret tt       (* no registration for this key *)
      | _ => (act (a_pk_announce tb (- Z.of_nat (length ths)));; unpark_all ths)
      end)).

  (** ** Counter, counter.rs:44-53 [sum] *)
  Fixpoint sum_shards (n j : nat) (acc : Z) : prog Z :=
    match n with
    | 0 => Ret acc
    | S n' => (c ← act (a_load_shard j); sum_shards n' (S j) (acc + c)%Z)
    end.
  Definition map_len : prog nat :=
    (n ← act a_shards; s ← sum_shards n 0 0%Z; Ret (Z.to_nat s)).   (* negative -> 0 *)

  (** ** Table allocation *)

  (** mod.rs:1856-1882 [init] (CAPACITY = 32). *)
  Definition init (capacity : option nat) : prog tref :=
    match alloc_len (default 32 capacity) with
    | None => Fail PAllocPow2
    | Some len => act (a_init len)
    end.

  (** mod.rs:1914-1928: the spin loop of get_or_alloc_next. *)
  Fixpoint spin_next (n : nat) (tb : tref) : prog (option tref) :=
    match n with
    | 0 => Ret None
    | S n' => (nx ← act (a_next tb); match nx with Some nx => Ret (Some nx) | None => spin_next n' tb end)
    end.

  (** mod.rs:1933-1980: with the lock held. *)
  Definition alloc_locked (capacity : option nat) (tb : tref) : prog tref :=
    (nx ← act (a_next tb);
     match nx with
     | Some nx => (act (a_unlock tb);; Ret nx)
     | None =>
       (active ← map_len;
        let next_cap := default (next_capacity (c_initial cfg) (th_len tb) active) capacity in
        match alloc_len next_cap with
        | None => (act (a_poison tb);; Fail PAllocPow2)
        | Some len => (nx ← act (a_publish_next tb len); act (a_unlock tb);; Ret nx)
        end)
     end).

  (** mod.rs:1887-1981 [get_or_alloc_next]. *)
  Definition get_or_alloc_next (capacity : option nat) (tb : tref) : prog tref :=
    (nx ← act (a_next tb);
     match nx with
     | Some nx => Ret nx
     | None =>
       (ok ← act (a_try_lock tb);
        if (ok : bool) then alloc_locked capacity tb else
        (sp ← spin_next (S (c_spin_alloc cfg)) tb;
         match sp with
         | Some nx => Ret nx
         | None =>
           (ok ← act (a_lock tb);
            if (ok : bool) then alloc_locked capacity tb else Fail PPoison)
         end))
     end).

  (** ** Copying *)

  (** mod.rs:2446-2505 [try_promote]. *)
  Definition try_promote (tb next : tref) (copied : nat) : prog bool :=
    (c ← (if 0 <? copied
          then (c ← act (a_add_copied next copied); Ret (c + copied))
          else act (a_load_copied next));
     if c =? th_len tb then
       (r ← act a_root_raw;
        if bool_decide (r = Some (th tb)) then
          (ok ← act (a_cas_root tb next);
           (if (ok : bool) then
              (act (a_store_status next PROMOTED);; act (a_retire (RTable (th tb))))
            else Ret tt);;
           unpark next KStatus;;
           Ret true)
        else Ret false)
     else Ret false).

  (** One iteration of the probe loop of insert_copy, mod.rs:2383-2428, as structural recursion on the
      remaining probe positions. Returns [true] when the entry was inserted. *)
  Fixpoint insert_copy_probe (fuel : nat) (tb : tref) (e : eword) (k : K) (i len : nat) : prog bool :=
    match fuel with
    | 0 => Ret false
    | S f =>
      let continue := insert_copy_probe f tb e k (probe_next i (S len) (th_mask tb)) (S len) in
      (m ← act (a_load_meta tb i);
       if (m =? EMPTY)%N then
         (r ← act (a_cas_ent false tb i NULLW e);
          match r with
          | inl _ => (act (a_store_meta tb i (h2_of k));; Ret true)
          | inr found =>
            (meta ← (match e_ptr found with
                     | None => Ret TOMBMETA
                     | Some p => (kv ← act (a_deref p); Ret (h2_of kv.1))
                     end);
             m2 ← act (a_load_meta tb i);
             (if (m2 =? EMPTY)%N then act (a_store_meta tb i meta) else Ret tt);;
             continue)
          end)
       else continue)
    end.

  Definition probe_fuel (tb : tref) : nat := S (th_limit tb).   (* while probe.len <= table.limit *)

  (** mod.rs:2362-2440 [insert_copy].  Returns whether the entry was inserted (the returned table and
      index are only used for is_some()/unwrap()). *)
  Definition insert_copy (e : eword) (p : nat) (resize : bool) (tb : tref) : prog bool :=
    (kv ← act (a_deref p);
     loop (λ tb : tref,
       (ok ← insert_copy_probe (probe_fuel tb) tb e kv.1 (probe_start (h1_of kv.1) (th_mask tb)) 0;
        if (ok : bool) then Ret (inr true)
        else if negb resize then Ret (inr false)
        else (nx ← get_or_alloc_next None tb; Ret (inl nx)))) tb).

  (** mod.rs:2145-2187 [copy_at_blocking]. *)
  Definition copy_at_blocking (i : nat) (tb next : tref) : prog bool :=
    (e ← act (a_fetch_or_copying tb i);
     if bool_decide (e = TOMBW) then Ret true else
     match e_ptr e with
     | None => (act (a_store_meta tb i TOMBMETA);; Ret true)
     | Some p => insert_copy (EW (Some p) false false false) p false next
     end).

  (** mod.rs:2297-2352 [copy_at_incremental]. *)
  Definition copy_at_incremental (i : nat) (tb next : tref) : prog unit :=
    (e ← act (a_fetch_or_copying tb i);
     if bool_decide (e = TOMBW) then Ret tt else
     match e_ptr e with
     | None => act (a_store_meta tb i TOMBMETA)
     | Some p =>
       (ok ← insert_copy (EW (Some p) (e_copying e) (e_copied e) true) p true next;
        if (ok : bool) then
          (act (a_store_ent tb i (EW (Some p) true true (e_borrowed e)));;
           unpark tb (KEntry i))
        else Fail PUnwrap)
     end).

  (** mod.rs:2221-2234: copy the claimed chunk [start, start+n) clipped to the table length; returns how many. *)
  Fixpoint copy_chunk_incremental (n i : nat) (tb next : tref) (copied : nat) : prog nat :=
    match n with
    | 0 => Ret copied
    | S n' =>
      if th_len tb <=? i then Ret copied else
      (copy_at_incremental i tb next;; copy_chunk_incremental n' (S i) tb next (S copied))
    end.

  (** mod.rs:2246-2286 (and 2090-2121): spin a while, then park until the status changes. Returns the
      final status seen. *)
  Fixpoint spin_status (n : nat) (next : tref) : prog (option status) :=
    match n with
    | 0 => Ret None
    | S n' => (s ← act (a_load_status next);
               if bool_decide (s = PENDING) then spin_status n' next else Ret (Some s))
    end.
  Definition wait_status (next : tref) : prog status :=
    loop (λ n : nat,
      (r ← spin_status n next;
       match r with
       | Some s => Ret (inr s)
       | None =>
         (s ← act (a_load_status next);
          if bool_decide (s = PENDING)
          then (park next KStatus;; Ret (inl 0))
          else Ret (inr s))
       end)) (S (c_spin_wait cfg)).

  (** mod.rs:2192-2288 [help_copy_incremental].  In incremental mode the status is never ABORTED, so the
      waiting loop ends exactly when it is PROMOTED. *)
  Definition help_copy_incremental (chunk : nat) (block : bool) : prog tref :=
    (r ← act a_root;
     match r with
     | None => Fail PUnwrap          (* null root: not reachable, callers hold a table *)
     | Some tb =>
       (nx ← act (a_next tb);
        match nx with
        | None => Ret tb
        | Some next =>
          loop (λ _ : unit,
            (ok ← try_promote tb next 0;
             if (ok : bool) then Ret (inr next) else
             (done ← loop (λ _ : unit,
                (c ← act (a_load_claim next);
                 if th_len tb <=? c then Ret (inr false) else
                 (start ← act (a_add_claim next chunk);
                  copied ← copy_chunk_incremental chunk start tb next 0;
                  ok ← try_promote tb next copied;
                  if (ok : bool) || negb block then Ret (inr true) else Ret (inl tt)))) tt;
              if (done : bool) || negb block then Ret (inr next) else
              (s ← wait_status next;
               if bool_decide (s = PROMOTED) then Ret (inr next) else Ret (inl tt))))) tt
        end)
     end).

  (** mod.rs:2042-2069: copy a chunk in blocking mode. [None] = the next table was full (abort). *)
  Fixpoint copy_chunk_blocking (n i : nat) (tb next : tref) (copied : nat) : prog (option nat) :=
    match n with
    | 0 => Ret (Some copied)
    | S n' =>
      if th_len tb <=? i then Ret (Some copied) else
      (ok ← copy_at_blocking i tb next;
       if (ok : bool) then copy_chunk_blocking n' (S i) tb next (S copied) else Ret None)
    end.

  (** mod.rs:2015-2136 [help_copy_blocking].  Outer loop state: the next table to copy to. *)
  Definition help_copy_blocking (tb : tref) : prog tref :=
    (nx ← act (a_next tb);
     match nx with
     | None => Fail PUnwrap
     | Some next =>
       loop (λ next : tref,
         (next ← loop (λ next : tref,                                  (* 2025-2027 *)
            (s ← act (a_load_status next);
             if bool_decide (s = ABORTED)
             then (n ← get_or_alloc_next None next; Ret (inl n))
             else Ret (inr next))) next;
          ok ← try_promote tb next 0;                                   (* 2030 *)
          if (ok : bool) then Ret (inr next) else
          let chunk := Nat.min (th_len tb) 4096 in                      (* 2034 *)
          (r ← loop (λ _ : unit,                                        (* 2036-2086 *)
             (c ← act (a_load_claim next);
              if th_len tb <=? c then Ret (inr None) else
              (start ← act (a_add_claim next chunk);
               copied ← copy_chunk_blocking chunk start tb next 0;
               match copied with
               | None =>
                 (act (a_store_status next ABORTED);;
                  allocated ← get_or_alloc_next None next;
                  unpark tb KStatus;;
                  Ret (inr (Some (inl allocated))))
               | Some copied =>
                 (ok ← try_promote tb next copied;
                  if (ok : bool) then Ret (inr (Some (inr next))) else
                  (s ← act (a_load_status next);
                   if bool_decide (s = ABORTED) then Ret (inr (Some (inl next))) else Ret (inl tt)))
               end))) tt;
           match r with
           | Some (inl n) => Ret (inl n)
           | Some (inr n) => Ret (inr n)
           | None =>
             (s ← wait_status next;                                     (* 2088-2121 *)
              if bool_decide (s = PROMOTED) then Ret (inr next) else Ret (inl next))
           end))) next
     end).

  (** mod.rs:1990-2010 [help_copy]. *)
  Definition help_copy (copy_all : bool) (tb : tref) : prog tref :=
    match c_mode cfg with
    | Blocking => help_copy_blocking tb
    | Incremental chunk =>
      (copied_to ← help_copy_incremental chunk copy_all;
       if negb copy_all then
         (nx ← act (a_next tb); match nx with Some nx => Ret nx | None => Fail PUnwrap end)
       else Ret copied_to)
    end.

  (** mod.rs:2512-2527 [linearize]. *)
  Definition linearize (tb : tref) : prog tref :=
    if incremental then
      loop (λ tb : tref,
        (nx ← act (a_next tb);
         match nx with
         | None => Ret (inr tb)
         | Some _ => (tb' ← help_copy true tb; Ret (inl tb'))
         end)) tb
    else Ret tb.

  (** mod.rs:2532-2557 [wait_copied]. *)
  Fixpoint spin_copied (n i : nat) (tb : tref) : prog bool :=
    match n with
    | 0 => Ret false
    | S n' => (e ← act (a_load_ent tb i); if e_copied e then Ret true else spin_copied n' i tb)
    end.
  Definition wait_copied (i : nat) (tb : tref) : prog unit :=
    (ok ← spin_copied (c_spin_copied cfg) i tb;
     if (ok : bool) then Ret tt else park tb (KEntry i)).

  (** mod.rs:2568-2621 [defer_retire]. *)
  Definition defer_retire (e : eword) (tb : tref) : prog unit :=
    let p := key_of_ptr e in
    match c_mode cfg with
    | Blocking => act (a_retire (REntry p))
    | Incremental _ =>
      if negb (e_borrowed e) then act (a_retire (REntry p)) else
      (r ← act a_root;
       match r with
       | None => Fail PUnwrap
       | Some rt =>
         (hit ← loop (λ cur : tref,                                 (* 2590-2600 *)
            if th cur =? th rt then Ret (inr true) else
            (nx ← act (a_next cur);
             match nx with Some nx => Ret (inl nx) | None => Ret (inr false) end)) tb;
          if (hit : bool) then act (a_retire (REntry p)) else
          loop (λ prev : tref,                                      (* 2605-2617 *)
            (nx ← act (a_next prev);
             match nx with
             | None => Fail PUnwrap
             | Some nx =>
               if th nx =? th tb then (act (a_defer prev p);; Ret (inr tt)) else Ret (inl nx)
             end)) rt)
       end)
    end.

  (** ** Slot operations *)

  (** mod.rs:878-937 [insert_at]. *)
  Definition insert_at (i : nat) (meta : N) (kv : K * V) (tb : tref) : prog istatus :=
    (r ← act (a_cas_pub false tb i NULLW kv);
     match r with
     | inl p => (act (a_store_meta tb i meta);; Ret (IInserted p))
     | inr found =>
       (ms ← (match e_ptr found with
              | Some p => (kv' ← act (a_deref p); Ret (h2_of kv'.1, SValue found))
              | None => Ret (TOMBMETA, SNull)
              end);
        m ← act (a_load_meta tb i);
        (if (m =? EMPTY)%N then act (a_store_meta tb i ms.1) else Ret tt);;
        Ret (IFound ms.2))
     end).

  (** mod.rs:949-983 [update_at]. *)
  Definition update_at (i : nat) (cur : eword) (new : newent K V) (tb : tref) : prog ustatus :=
    match new with
    | NewEnt kv =>
      (r ← act (a_cas_pub true tb i cur kv);
       match r with
       | inl p => (defer_retire cur tb;; Ret (UReplaced cur (Some p)))
       | inr found => Ret (UFound (estatus_of found))
       end)
    | NewTomb =>
      (r ← act (a_cas_ent true tb i cur TOMBW);
       match r with
       | inl _ => (defer_retire cur tb;; Ret (UReplaced cur None))
       | inr found => Ret (UFound (estatus_of found))
       end)
    end.

  (** mod.rs:590-613 [insert_slow]. *)
  Definition insert_slow (i : nat) (e : eword) (kv : K * V) (tb : tref) : prog ustatus :=
    loop (λ e : eword,
      (s ← update_at i e (NewEnt kv) tb;
       match s with
       | UFound (SValue found) => Ret (inl found)
       | s => Ret (inr s)
       end)) e.

  (** ** get, mod.rs:312-394 *)
  (** Probe loop 328-377: [Some r] = return r; [None] = left the loop (copied entry or probe limit). *)
  Fixpoint get_probe (fuel : nat) (tb : tref) (k : K) (i len : nat) : prog (option (option nat)) :=
    match fuel with
    | 0 => Ret None
    | S f =>
      let continue := get_probe f tb k (probe_next i (S len) (th_mask tb)) (S len) in
      (m ← act (a_load_meta tb i);
       let fallthrough := if (m =? EMPTY)%N then Ret (Some None) else continue in
       if (m =? h2_of k)%N then
         (e ← act (a_load_ent tb i);
          match e_ptr e with
          | None => continue
          | Some p =>
            (kv ← act (a_deref p);
             if bool_decide (kv.1 = k)
             then (if e_copied e then Ret None else Ret (Some (Some p)))
             else fallthrough)
          end)
       else fallthrough)
    end.
  Definition get (k : K) : prog (option nat) :=
    (r ← act a_root;
     match r with
     | None => Ret None
     | Some tb =>
       loop (λ tb : tref,
         (r ← get_probe (probe_fuel tb) tb k (probe_start (h1_of k) (th_mask tb)) 0;
          match r with
          | Some res => Ret (inr res)
          | None =>
            if incremental then
              (nx ← act (a_next tb);
               match nx with Some nx => Ret (inl nx) | None => Ret (inr None) end)
            else Ret (inr None)
          end)) tb
     end).

  (** ** insert *)

  (** mod.rs:617-657 [prepare_retry_insert]. Returns the next table; [help_copy] becomes false. *)
  Definition prepare_retry_insert (copying : option nat) (help : bool) (tb : tref) : prog tref :=
    (next ← get_or_alloc_next None tb;
     match c_mode cfg with
     | Blocking => help_copy true tb
     | Incremental _ =>
       (next ← (if help then help_copy false tb else Ret next);
        (match copying with Some i => wait_copied i tb | None => Ret tt end);;
        Ret next)
     end).

  (** Probe loop of insert_inner, mod.rs:466-576.  [inl r] = return r, [inr copying] = leave the loop. *)
  Fixpoint insert_probe (fuel : nat) (replace : bool) (tb : tref) (kv : K * V) (i len : nat) : prog (iresult + option nat) :=
    match fuel with
    | 0 => Ret (inr None)
    | S f =>
      let continue := insert_probe f replace tb kv (probe_next i (S len) (th_mask tb)) (S len) in
      let found_entry (e : eword) : prog (iresult + option nat) :=
        (kv' ← act (a_deref (key_of_ptr e));
         if negb (bool_decide (kv'.1 = kv.1)) then continue else
         if e_copying e then Ret (inr (Some i)) else
         if negb replace then Ret (inl (RError (key_of_ptr e))) else
         (s ← insert_slow i e kv tb;
          match s with
          | UReplaced old _ => Ret (inl (RReplaced (key_of_ptr old)))
          | UFound (SCopied _) => Ret (inr (Some i))
          | UFound SNull => continue
          | UFound (SValue _) => Fail PUnreachable   (* insert_slow never returns this *)
          end)) in
      (m ← act (a_load_meta tb i);
       if (m =? EMPTY)%N then
         (s ← insert_at i (h2_of kv.1) kv tb;
          match s with
          | IInserted p => Ret (inl (RInserted p))
          | IFound (SValue e) | IFound (SCopied e) => found_entry e
          | IFound SNull => continue
          end)
       else if (m =? h2_of kv.1)%N then
         (e ← act (a_load_ent tb i);
          match e_ptr e with None => continue | Some _ => found_entry e end)
       else continue)
    end.

  (** mod.rs:439-580 [insert_inner]. *)
  Definition insert_inner (k : K) (v : V) (replace : bool) : prog iresult :=
    (r ← act a_root;
     tb ← (match r with Some tb => Ret tb | None => init None end);
     loop (λ st : tref * bool,
       let '(tb, help) := st in
       (r ← insert_probe (probe_fuel tb) replace tb (k, v) (probe_start (h1_of k) (th_mask tb)) 0;
        match r with
        | inl res => Ret (inr res)
        | inr copying => (next ← prepare_retry_insert copying help tb; Ret (inl (next, false)))
        end)) (tb, true)).

  (** mod.rs:397-435 [insert]. *)
  Definition insert (k : K) (v : V) (replace : bool) : prog iresult :=
    (r ← insert_inner k v replace;
     match r with
     | RInserted _ => (act (a_count 1);; Ret r)
     | _ => Ret r
     end).

  (** ** remove *)

  (** mod.rs:821-864 [prepare_retry]. *)
  Definition prepare_retry (copying : option nat) (help : bool) (tb : tref) : prog (option tref) :=
    match c_mode cfg with
    | Blocking =>
      match copying with
      | Some _ => (nx ← help_copy true tb; Ret (Some nx))
      | None => Ret None
      end
    | Incremental _ =>
      (nx ← act (a_next tb);
       match nx with
       | None => Ret None
       | Some next =>
         ((if help then (help_copy false tb;; Ret tt) else Ret tt);;
          (match copying with Some i => wait_copied i tb | None => Ret tt end);;
          Ret (Some next))
       end)
    end.

  (** The inner loop of remove_if, mod.rs:752-800. *)
  Definition remove_entry (pred : K → V → bool) (tb : tref) (i : nat) (e : eword) : prog (rresult + option nat) :=
    loop (λ e : eword,
      (kv ← act (a_deref (key_of_ptr e));
       if negb (pred kv.1 kv.2) then Ret (inr (inl (RRejected (key_of_ptr e)))) else
       (s ← update_at i e NewTomb tb;
        match s with
        | UReplaced _ _ =>
          (act (a_store_meta tb i TOMBMETA);; act (a_count (-1));; Ret (inr (inl (RRemoved (key_of_ptr e)))))
        | UFound (SCopied _) => Ret (inr (inr (Some i)))
        | UFound SNull => Ret (inr (inl RAbsent))
        | UFound (SValue found) => Ret (inl found)
        end))) e.

  (** Probe loop of remove_if, mod.rs:704-802. *)
  Fixpoint remove_probe (fuel : nat) (pred : K → V → bool) (tb : tref) (k : K) (i len : nat) : prog (rresult + option nat) :=
    match fuel with
    | 0 => Ret (inr None)
    | S f =>
      let continue := remove_probe f pred tb k (probe_next i (S len) (th_mask tb)) (S len) in
      (m ← act (a_load_meta tb i);
       if (m =? EMPTY)%N then Ret (inl RAbsent) else
       if negb (m =? h2_of k)%N then continue else
       (e ← act (a_load_ent tb i);
        match e_ptr e with
        | None => continue
        | Some p =>
          (kv ← act (a_deref p);
           if negb (bool_decide (kv.1 = k)) then continue else
           if e_copying e then Ret (inr (Some i)) else
           remove_entry pred tb i e)
        end))
    end.

  (** mod.rs:677-814 [remove_if]. *)
  Definition remove_if (k : K) (pred : K → V → bool) : prog rresult :=
    (r ← act a_root;
     match r with
     | None => Ret RAbsent
     | Some tb =>
       loop (λ st : tref * bool,
         let '(tb, help) := st in
         (r ← remove_probe (probe_fuel tb) pred tb k (probe_start (h1_of k) (th_mask tb)) 0;
          match r with
          | inl res => Ret (inr res)
          | inr copying =>
            (nx ← prepare_retry copying help tb;
             match nx with Some nx => Ret (inl (nx, false)) | None => Ret (inr RAbsent) end)
          end)) (tb, true)
     end).

  (** ** compute *)

  (** ComputeState::next with an absent entry, mod.rs:1288-1297.  [once]: the closure's None case consumes a
      FnOnce (try_insert_with, update_or_insert_with), so a second call panics. *)
  Definition cs_next_none (once : bool) (f : option (K * V) → cop V) (cs : cstate K V) : prog (cop V * cstate K V) :=
    match cs_insert cs with
    | Some v => Ret (OpInsert v, CState None (cs_update cs) (cs_calls cs))
    | None =>
      if once && existsb (λ c, match c with None => true | Some _ => false end) (cs_calls cs)
      then Fail PFnOnce
      else Ret (f None, CState None (cs_update cs) (None :: cs_calls cs))
    end.

  (** ComputeState::next with entry [p], mod.rs:1299-1311. *)
  Definition cs_next_some (f : option (K * V) → cop V) (cs : cstate K V) (p : nat) : prog (cop V * cstate K V) :=
    let call := (kv ← act (a_deref p);
                 Ret (f (Some kv), CState (cs_insert cs) None (Some kv :: cs_calls cs))) in
    match cs_update cs with
    | Some (input, output) =>
      if input =? p then Ret (output, CState (cs_insert cs) None (cs_calls cs)) else call
    | None => call
    end.

  (** ComputeState::restore, mod.rs:1324-1333. *)
  Definition cs_restore_none (v : V) (cs : cstate K V) : cstate K V :=
    CState (Some v) (cs_update cs) (cs_calls cs).
  Definition cs_restore_some (p : nat) (o : cop V) (cs : cstate K V) : cstate K V :=
    CState (cs_insert cs) (Some (p, o)) (cs_calls cs).

  Definition cout : Type := cresult * cstate K V.

  (** The update loop of compute_with, mod.rs:1694-1808. Result: [inl (inl r)] return, [inl (inr copying)]
      leave the probe loop, [inr cs] continue probing. *)
  Definition compute_entry (once : bool) (f : option (K * V) → cop V) (tb : tref) (k : K) (i : nat)
      (cs : cstate K V) (e : eword) : prog ((cout + (option nat * cstate K V)) + cstate K V) :=
    let on_failure (s : ustatus) (cs : cstate K V) :
        prog ((cstate K V * eword) + ((cout + (option nat * cstate K V)) + cstate K V)) :=
      match s with
      | UFound (SCopied _) => Ret (inr (inl (inr (Some i, cs))))
      | UFound SNull =>
        (r ← cs_next_none once f cs;
         match r with
         | (OpInsert v, cs) => Ret (inr (inr (cs_restore_none v cs)))
         | (OpRemove, _) => Fail PRemoveNone
         | (OpPanic, _) => Fail PUser
         | (OpAbort, cs) => Ret (inr (inl (inl (CAborted None, cs))))
         end)
      | UFound (SValue found) => Ret (inl (cs, found))
      | UReplaced _ _ => Fail PUnreachable
      end in
    loop (λ st : cstate K V * eword,
      let '(cs, e) := st in
      let p := key_of_ptr e in
      (r ← cs_next_some f cs p;
       match r with
       | (OpPanic, _) => Fail PUser
       | (OpAbort, cs) => Ret (inr (inl (inl (CAborted (Some p), cs))))
       | (OpInsert v, cs) =>
         (s ← update_at i e (NewEnt (k, v)) tb;
          match s with
          | UReplaced old new => Ret (inr (inl (inl (CUpdated (key_of_ptr old) (default 0 new), cs))))
          | s => on_failure s (cs_restore_some p (OpInsert v) cs)
          end)
       | (OpRemove, cs) =>
         (s ← update_at i e NewTomb tb;
          match s with
          | UReplaced old _ =>
            (act (a_store_meta tb i TOMBMETA);; act (a_count (-1));;
             Ret (inr (inl (inl (CRemoved (key_of_ptr old), cs)))))
          | s => on_failure s (cs_restore_some p OpRemove cs)
          end)
       end)) (cs, e).

  (** Probe loop of compute_with, mod.rs:1583-1810. *)
  Fixpoint compute_probe (fuel : nat) (once : bool) (f : option (K * V) → cop V) (tb : tref) (k : K)
      (i len : nat) (cs : cstate K V) : prog (cout + (option nat * cstate K V)) :=
    match fuel with
    | 0 => Ret (inr (None, cs))
    | S fu =>
      let continue (cs : cstate K V) := compute_probe fu once f tb k (probe_next i (S len) (th_mask tb)) (S len) cs in
      let found_entry (e : eword) (cs : cstate K V) : prog (cout + (option nat * cstate K V)) :=
        (kv' ← act (a_deref (key_of_ptr e));
         if negb (bool_decide (kv'.1 = k)) then continue cs else
         if e_copying e then Ret (inr (Some i, cs)) else
         (r ← compute_entry once f tb k i cs e;
          match r with inl r => Ret r | inr cs => continue cs end)) in
      (m ← act (a_load_meta tb i);
       if (m =? EMPTY)%N then
         (r ← cs_next_none once f cs;
          match r with
          | (OpRemove, _) => Fail PRemoveNone
          | (OpPanic, _) => Fail PUser
          | (OpAbort, cs) => Ret (inl (CAborted None, cs))
          | (OpInsert v, cs) =>
            (s ← insert_at i (h2_of k) (k, v) tb;
             match s with
             | IInserted p => (act (a_count 1);; Ret (inl (CInserted p, cs)))
             | IFound (SValue e) | IFound (SCopied e) => found_entry e (cs_restore_none v cs)
             | IFound SNull => continue (cs_restore_none v cs)
             end)
          end)
       else if (m =? h2_of k)%N then
         (e ← act (a_load_ent tb i);
          match e_ptr e with None => continue cs | Some _ => found_entry e cs end)
       else continue cs)
    end.

  (** mod.rs:1547-1842 [compute_with] (and 1513-1539 [compute]).  Note [help_copy] starts false. *)
  Definition compute (once : bool) (k : K) (f : option (K * V) → cop V) : prog cout :=
    let cs0 := CState None None [] in
    (r ← act a_root;
     start ← (match r with
              | Some tb => Ret (inl (tb, cs0))
              | None =>
                (r ← cs_next_none once f cs0;
                 match r with
                 | (OpInsert v, cs) => (tb ← init None; Ret (inl (tb, cs_restore_none v cs)))
                 | (OpRemove, _) => Fail PRemoveNone
                 | (OpPanic, _) => Fail PUser
                 | (OpAbort, cs) => Ret (inr (CAborted None, cs))
                 end)
              end);
     match start with
     | inr res => Ret res
     | inl (tb, cs) =>
       loop (λ st : tref * cstate K V,
         let '(tb, cs) := st in
         (r ← compute_probe (probe_fuel tb) once f tb k (probe_start (h1_of k) (th_mask tb)) 0 cs;
          match r with
          | inl res => Ret (inr res)
          | inr (copying, cs) =>
            (nx ← prepare_retry copying false tb;
             match nx with
             | Some nx => Ret (inl (nx, cs))
             | None =>
               (r ← cs_next_none once f cs;
                match r with
                | (OpInsert v, cs) =>
                  (nx ← prepare_retry_insert None false tb; Ret (inl (nx, cs_restore_none v cs)))
                | (OpAbort, cs) => Ret (inr (CAborted None, cs))
                | (OpRemove, _) => Fail PRemoveNone
                | (OpPanic, _) => Fail PUser
                end)
             end)
          end)) (tb, cs)
     end).

  (** mod.rs:1390-1422 [try_insert_with]: the closure passed to compute. *)
  Definition f_try_insert (v : V) (o : option (K * V)) : cop V :=
    match o with Some _ => OpAbort | None => OpInsert v end.
  (** mod.rs:1439-1467 [update]. *)
  Definition f_update (g : V → V) (o : option (K * V)) : cop V :=
    match o with None => OpAbort | Some kv => OpInsert (g kv.2) end.
  (** mod.rs:1471-1506 [update_or_insert_with]. *)
  Definition f_update_or_insert (g : V → V) (v : V) (o : option (K * V)) : cop V :=
    match o with Some kv => OpInsert (g kv.2) | None => OpInsert v end.

  (** ** clear / retain / iter / reserve *)

  (** Inner loop of clear/retain for one slot, mod.rs:1039-1086 and 1137-1192. [test = None] is clear,
      [Some f] is retain.  Returns whether a copying entry was found. *)
  Definition delete_entry (test : option (K → V → bool)) (tb : tref) (i : nat) (e : eword) : prog bool :=
    loop (λ e : eword,
      match e_ptr e with
      | None => Ret (inr false)
      | Some p =>
        if e_copying e then Ret (inr true) else
        (keep ← (match test with
                 | None => Ret false
                 | Some f => (kv ← act (a_deref p); Ret (f kv.1 kv.2))
                 end);
         if (keep : bool) then Ret (inr false) else
         (r ← act (a_cas_ent false tb i e TOMBW);
          match r with
          | inl _ =>
            (act (a_store_meta tb i TOMBMETA);; act (a_count (-1));; defer_retire e tb;; Ret (inr false))
          | inr found => Ret (inl found)
          end))
      end) e.

  (** mod.rs:1031-1087 / 1117-1193: the sweep over all slots. *)
  Fixpoint sweep (n i : nat) (test : option (K → V → bool)) (tb : tref) (copying : bool) : prog bool :=
    match n with
    | 0 => Ret copying
    | S n' =>
      let body : prog bool := (e ← act (a_load_ent tb i); delete_entry test tb i e) in
      (c ← (match test with
            | None => body
            | Some _ =>
              (m ← act (a_load_meta tb i);
               if ((m =? EMPTY) || (m =? TOMBMETA))%N then Ret false else body)
            end);
       sweep n' (S i) test tb (copying || c))
    end.

  (** mod.rs:1015-1099 [clear], 1103-1208 [retain]. *)
  Definition clear_or_retain (test : option (K → V → bool)) : prog unit :=
    (r ← act a_root;
     match r with
     | None => Ret tt
     | Some tb =>
       loop (λ tb : tref,
         (tb ← linearize tb;
          copying ← sweep (th_len tb) 0 test tb false;
          if negb copying then Ret (inr tt) else
          (tb' ← help_copy true tb; Ret (inl tb')))) tb
     end).

  (** mod.rs:1212-1232 [iter]. *)
  Definition iter : prog (option tref) :=
    (r ← act a_root;
     match r with
     | None => Ret None
     | Some tb => (tb ← linearize tb; Ret (Some tb))
     end).

  (** mod.rs:2639-2683 [Iter::next]: structural recursion on the remaining slots; returns the new index
      and the yielded entry. *)
  Fixpoint iter_next (fuel i : nat) (tb : tref) : prog (nat * option nat) :=
    match fuel with
    | 0 => Ret (i, None)
    | S f =>
      (m ← act (a_load_meta tb i);
       if ((m =? EMPTY) || (m =? TOMBMETA))%N then iter_next f (S i) tb else
       (e ← act (a_load_ent tb i);
        match e_ptr e with
        | None => iter_next f (S i) tb
        | Some p => Ret (S i, Some p)
        end))
    end.

  (** mod.rs:987-1011 [reserve] (checked_add does not overflow in nat). *)
  Definition reserve (additional : nat) : prog unit :=
    (r ← act a_root;
     tb ← (match r with Some tb => Ret tb | None => init (Some (entries_for additional)) end);
     loop (λ tb : tref,
       (n ← map_len;
        let cap := entries_for (n + additional) in
        if cap <=? th_len tb then Ret (inr tt) else
        (get_or_alloc_next (Some cap) tb;;
         tb' ← help_copy true tb; Ret (inl tb')))) tb).
End model.
