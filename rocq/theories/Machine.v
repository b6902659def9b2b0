(** The concurrent machine: any number of threads, the most general client, arbitrary schedules. *)
From Verif Require Export Model.

(** Operations of the public API (src/map.rs:361-1075), with pure closures. *)
Inductive op (K V : Type) :=
  | OGet (k : K)                                   (* get / get_key_value / contains_key *)
  | OInsert (k : K) (v : V)                        (* insert *)
  | OTryInsert (k : K) (v : V)                     (* try_insert / get_or_insert *)
  | ORemove (k : K)                                (* remove / remove_entry *)
  | ORemoveIf (k : K) (pred : K → V → bool)        (* remove_if *)
  | OCompute (k : K) (f : option (K * V) → cop V)  (* compute *)
  | OTryInsertWith (k : K) (v : V)                 (* try_insert_with / get_or_insert_with *)
  | OUpdate (k : K) (g : V → V)                    (* update *)
  | OUpdateOrInsert (k : K) (g : V → V) (v : V)    (* update_or_insert(_with) *)
  | OClear | ORetain (f : K → V → bool)            (* clear / retain *)
  | OReserve (n : nat) | OLen                      (* reserve / len *)
  | OIter | OIterNext (j : nat).                   (* iter; next of this thread's j-th iterator *)
Arguments OGet {K V}. Arguments OInsert {K V}. Arguments OTryInsert {K V}. Arguments ORemove {K V}.
Arguments ORemoveIf {K V}. Arguments OCompute {K V}. Arguments OTryInsertWith {K V}. Arguments OUpdate {K V}.
Arguments OUpdateOrInsert {K V}. Arguments OClear {K V}. Arguments ORetain {K V}. Arguments OReserve {K V}.
Arguments OLen {K V}. Arguments OIter {K V}. Arguments OIterNext {K V}.

(** Results at the value level, as the user sees them. *)
Inductive vcomp (K V : Type) :=
  | VInserted (kv : K * V) | VUpdated (old new : K * V) | VRemoved (kv : K * V) | VAborted (o : option (K * V)).
Arguments VInserted {K V}. Arguments VUpdated {K V}. Arguments VRemoved {K V}. Arguments VAborted {K V}.

Inductive vres (K V : Type) :=
  | VGet (o : option (K * V))                      (* get: Option<(&K,&V)> *)
  | VInsert (old : option V)                       (* insert: Option<&V> *)
  | VTry (r : V + V * V)                           (* try_insert: Ok(v) | Err{current, not_inserted} *)
  | VRemove (o : option (K * V))                   (* remove *)
  | VRemoveIf (r : option (K * V) + K * V)         (* remove_if: Ok(opt) | Err(current) *)
  | VCompute (c : vcomp K V)
  | VTryWith (r : V + V)                           (* try_insert_with: Ok | Err(current) *)
  | VUpdate (o : option V)
  | VUpdateOr (v : V)
  | VUnit
  | VLen (n : nat)
  | VIter
  | VNext (o : option (K * V)).
Arguments VGet {K V}. Arguments VInsert {K V}. Arguments VTry {K V}. Arguments VRemove {K V}.
Arguments VRemoveIf {K V}. Arguments VCompute {K V}. Arguments VTryWith {K V}. Arguments VUpdate {K V}.
Arguments VUpdateOr {K V}. Arguments VUnit {K V}. Arguments VLen {K V}. Arguments VIter {K V}. Arguments VNext {K V}.

(** Results at the pointer level (references into the map). *)
Inductive pres (K V : Type) :=
  | PGet (o : option nat)
  | PIns (r : iresult)
  | PRem (r : rresult)
  | PComp (r : cresult) (calls : list (option (K * V)))
  | PUnit
  | PLen (n : nat)
  | PIter (o : option tref)
  | PNext (j i : nat) (o : option nat).
Arguments PGet {K V}. Arguments PIns {K V}. Arguments PRem {K V}. Arguments PComp {K V}.
Arguments PUnit {K V}. Arguments PLen {K V}. Arguments PIter {K V}. Arguments PNext {K V}.

Definition iterst : Type := option tref * nat.

Section machine.
  Context {K V : Type} {Keq : EqDecision K} (cfg : config K).

  Definition a_ub {A} : action K V A := λ _ _ _, UB.

  (** Which program an API call runs (map.rs wrappers + mod.rs). *)
  Definition op_prog (o : op K V) (iters : list iterst) : prog K V (pres K V) :=
    match o with
    | OGet k => (r ← get cfg k; Ret (PGet r))
    | OInsert k v => (r ← insert cfg k v true;                    (* map.rs:512-518 *)
                      match r with RError _ => Fail PUnreachable | _ => Ret (PIns r) end)
    | OTryInsert k v => (r ← insert cfg k v false;                (* map.rs:541-560 *)
                         match r with RReplaced _ => Fail PUnreachable | _ => Ret (PIns r) end)
    | ORemove k => (r ← remove_if cfg k (λ _ _, true);            (* mod.rs:661-673, unwrap_unchecked *)
                    match r with RRejected _ => act a_ub | _ => Ret (PRem r) end)
    | ORemoveIf k pred => (r ← remove_if cfg k pred; Ret (PRem r))
    | OCompute k f => (r ← compute cfg false k f; Ret (PComp r.1 (cs_calls r.2)))
    | OTryInsertWith k v =>                                       (* mod.rs:1390-1422 *)
      (r ← compute cfg true k (f_try_insert v);
       match r.1 with
       | CAborted (Some _) | CInserted _ => Ret (PComp r.1 (cs_calls r.2))
       | _ => Fail PUnreachable
       end)
    | OUpdate k g =>                                              (* mod.rs:1439-1467 *)
      (r ← compute cfg false k (f_update g);
       match r.1 with
       | CUpdated _ _ | CAborted _ => Ret (PComp r.1 (cs_calls r.2))
       | _ => Fail PUnreachable
       end)
    | OUpdateOrInsert k g v =>                                    (* mod.rs:1471-1506 *)
      (r ← compute cfg true k (f_update_or_insert g v);
       match r.1 with
       | CUpdated _ _ | CInserted _ => Ret (PComp r.1 (cs_calls r.2))
       | _ => Fail PUnreachable
       end)
    | OClear => (clear_or_retain cfg None;; Ret PUnit)
    | ORetain f => (clear_or_retain cfg (Some f);; Ret PUnit)
    | OReserve n => (reserve cfg n;; Ret PUnit)
    | OLen => (n ← map_len; Ret (PLen n))
    | OIter => (r ← iter cfg; Ret (PIter r))
    | OIterNext j =>
      match iters !! j with
      | Some (Some tb, i) => (r ← iter_next (th_len tb - i) i tb; Ret (PNext j r.1 r.2))
      | _ => Ret (PNext j 0 None)
      end
    end.

  (** Reading a returned reference: [None] if it dangles. *)
  Definition rd (σ : state K V) (p : nat) : option (K * V) :=
    if decide (p ∈ freed σ) then None else heap σ !! p.
  Definition rd_opt (σ : state K V) (o : option nat) : option (option (K * V)) :=
    match o with None => Some None | Some p => Some <$> rd σ p end.

  (** What the user reads through the returned references. [None] = dangling reference. *)
  Definition to_vals (o : op K V) (σ : state K V) (r : pres K V) : option (vres K V) :=
    match o, r with
    | OGet _, PGet o => VGet <$> rd_opt σ o
    | OInsert _ _, PIns (RInserted _) => Some (VInsert None)
    | OInsert _ _, PIns (RReplaced p) => (λ kv, VInsert (Some kv.2)) <$> rd σ p
    | OTryInsert _ _, PIns (RInserted p) => (λ kv, VTry (inl kv.2)) <$> rd σ p
    | OTryInsert _ v, PIns (RError p) => (λ kv, VTry (inr (kv.2, v))) <$> rd σ p
    | ORemove _, PRem (RRemoved p) => (λ kv, VRemove (Some kv)) <$> rd σ p
    | ORemove _, PRem RAbsent => Some (VRemove None)
    | ORemoveIf _ _, PRem (RRemoved p) => (λ kv, VRemoveIf (inl (Some kv))) <$> rd σ p
    | ORemoveIf _ _, PRem RAbsent => Some (VRemoveIf (inl None))
    | ORemoveIf _ _, PRem (RRejected p) => (λ kv, VRemoveIf (inr kv)) <$> rd σ p
    | OCompute _ _, PComp (CInserted p) _ => (λ kv, VCompute (VInserted kv)) <$> rd σ p
    | OCompute _ _, PComp (CUpdated p q) _ =>
        match rd σ p, rd σ q with Some a, Some b => Some (VCompute (VUpdated a b)) | _, _ => None end
    | OCompute _ _, PComp (CRemoved p) _ => (λ kv, VCompute (VRemoved kv)) <$> rd σ p
    | OCompute _ _, PComp (CAborted o) _ => (λ o, VCompute (VAborted o)) <$> rd_opt σ o
    | OTryInsertWith _ _, PComp (CInserted p) _ => (λ kv, VTryWith (inl kv.2)) <$> rd σ p
    | OTryInsertWith _ _, PComp (CAborted (Some p)) _ => (λ kv, VTryWith (inr kv.2)) <$> rd σ p
    | OUpdate _ _, PComp (CUpdated _ q) _ => (λ kv, VUpdate (Some kv.2)) <$> rd σ q
    | OUpdate _ _, PComp (CAborted _) _ => Some (VUpdate None)
    | OUpdateOrInsert _ _ _, PComp (CInserted p) _ => (λ kv, VUpdateOr kv.2) <$> rd σ p
    | OUpdateOrInsert _ _ _, PComp (CUpdated _ q) _ => (λ kv, VUpdateOr kv.2) <$> rd σ q
    | OClear, PUnit | ORetain _, PUnit | OReserve _, PUnit => Some VUnit
    | OLen, PLen n => Some (VLen n)
    | OIter, PIter _ => Some VIter
    | OIterNext _, PNext _ _ o => VNext <$> rd_opt σ o
    | _, _ => None
    end.

  (** The closure calls an operation made (compute family only), oldest last. *)
  Definition calls_of (r : pres K V) : list (option (K * V)) :=
    match r with PComp _ c => c | _ => [] end.

  (** History events. Operation ids are unique. *)
  Inductive hevent :=
    | HInv (tid opid : nat) (o : op K V)
    | HRes (tid opid : nat) (o : op K V) (r : pres K V) (v : vres K V)
    | HPanic (tid opid : nat) (o : op K V) (why : preason)
    | HPin (tid : nat)
    | HUnpin (tid : nat).

  Record tstate := TState {
    ts_run : option (nat * op K V * prog K V (pres K V));
    ts_iters : list iterst;
    ts_dead : bool }.
  Definition ts_idle (iters : list iterst) := TState None iters false.

  Record mconf := MConf {
    mc_st : state K V;
    mc_thr : list tstate;
    mc_hist : list hevent;
    mc_nop : nat }.

  Inductive choice :=
    | CPin (tid : nat)
    | CUnpin (tid : nat)
    | CInvoke (tid : nat) (o : op K V)
    | CRun (tid : nat) (oracle : bool)
    | CReclaim (j : nat).

  (** Dropping a guard: the thread no longer blocks reclamation. *)
  Definition unpin (tid : nat) (σ : state K V) : state K V :=
    set_pins (List.filter (λ x, negb (x =? tid)) (pins σ))
      (set_retired (map (λ r, RItem (r_obj r) (List.filter (λ x, negb (x =? tid)) (r_blockers r))) (retired σ))
         (retired_ever σ) σ).

  (** drop_table, mod.rs:2786-2807: retire the deferred entries, deallocate the table. *)
  Fixpoint retire_all (l : list nat) (σ : state K V) : option (state K V) :=
    match l with
    | [] => Some σ
    | p :: l => if decide (REntry p ∈ retired_ever σ) then None else retire_all l (do_retire (REntry p) σ)
    end.
  Definition reclaim (r : ritem) (rest : list ritem) (σ : state K V) : option (state K V) :=
    let σ := set_retired rest (retired_ever σ) σ in
    match r_obj r with
    | REntry p => if decide (p ∈ freed σ) then None else Some (set_freed (p :: freed σ) σ)
    | RTable t =>
      match tables σ !! t with
      | Some tb =>
        if t_freed tb then None else
        σ' ← retire_all (t_deferred tb) σ;
        Some (set_tables (<[t := t_set_freed true (t_set_deferred [] tb)]>) σ')
      | None => None
      end
    end%stdpp.

  Inductive sres := SStep (c : mconf) | SSkip | SUB.

  Definition set_thr (i : nat) (ts : tstate) (l : list tstate) := <[i := ts]> l.

  Definition finish_iters (r : pres K V) (iters : list iterst) : list iterst :=
    match r with
    | PIter o => iters ++ [(o, 0)]
    | PNext j i _ => alter (λ x, (x.1, i)) j iters
    | _ => iters
    end.

  Definition mstep (c : mconf) (ch : choice) : sres :=
    let σ := mc_st c in
    match ch with
    | CPin i =>
      match mc_thr c !! i with
      | Some (TState None its false) =>
        if decide (i ∈ pins σ) then SSkip else
        SStep (MConf (set_pins (i :: pins σ) σ) (mc_thr c) (mc_hist c ++ [HPin i]) (mc_nop c))
      | _ => SSkip
      end
    | CUnpin i =>
      match mc_thr c !! i with
      | Some (TState None its false) =>
        if decide (i ∈ pins σ) then
          SStep (MConf (unpin i σ) (set_thr i (ts_idle []) (mc_thr c)) (mc_hist c ++ [HUnpin i]) (mc_nop c))
        else SSkip
      | _ => SSkip
      end
    | CInvoke i o =>
      match mc_thr c !! i with
      | Some (TState None its false) =>
        if decide (i ∈ pins σ) then
          SStep (MConf σ (set_thr i (TState (Some (mc_nop c, o, op_prog o its)) its false) (mc_thr c))
                   (mc_hist c ++ [HInv i (mc_nop c) o]) (S (mc_nop c)))
        else SSkip
      | _ => SSkip
      end
    | CRun i orc =>
      match mc_thr c !! i with
      | Some (TState (Some (opid, o, p)) its false) =>
        match p in prog _ _ T return (T → option (vres K V * (list iterst) * hevent)) →
                                      (prog K V T → prog K V (pres K V)) → sres with
        | Ret a => λ fin _,
          match fin a with
          | Some (v, its', ev) => SStep (MConf σ (set_thr i (ts_idle its') (mc_thr c)) (mc_hist c ++ [ev]) (mc_nop c))
          | None => SUB
          end
        | Act f k => λ _ inj,
          match f i orc σ with
          | Ok x σ' => SStep (MConf σ' (set_thr i (TState (Some (opid, o, inj (k x))) its false) (mc_thr c)) (mc_hist c) (mc_nop c))
          | Block => SSkip
          | UB => SUB
          end
        | Loop body s k => λ _ inj,
          SStep (MConf σ (set_thr i (TState (Some (opid, o,
              inj (bind (body s) (λ r, match r with inl s' => Loop body s' k | inr b => k b end)))) its false) (mc_thr c))
             (mc_hist c) (mc_nop c))
        | Fail why => λ _ _,
          SStep (MConf (unpin i σ) (set_thr i (TState None [] true) (mc_thr c)) (mc_hist c ++ [HPanic i opid o why]) (mc_nop c))
        end (λ r, (λ v, (v, finish_iters r its, HRes i opid o r v)) <$> to_vals o σ r) (λ p, p)
      | _ => SSkip
      end
    | CReclaim j =>
      match retired σ !! j with
      | Some r =>
        if decide (r_blockers r = []) then
          match reclaim r (take j (retired σ) ++ drop (S j) (retired σ)) σ with
          | Some σ' => SStep (MConf σ' (mc_thr c) (mc_hist c) (mc_nop c))
          | None => SUB
          end
        else SSkip
      | None => SSkip
      end
    end.

  (** Execution of a schedule; disabled choices are skipped; [None] = undefined behaviour was reached. *)
  Fixpoint exec (c : mconf) (sched : list choice) : option mconf :=
    match sched with
    | [] => Some c
    | ch :: sched =>
      match mstep c ch with
      | SStep c' => exec c' sched
      | SSkip => exec c sched
      | SUB => None
      end
    end.

  (** HashMap::new, mod.rs:216-246, with [nshards] counter shards (a power of two). *)
  Definition init_state (capacity nshards : nat) : state K V :=
    State (if capacity =? 0 then [] else [new_table (Nat.max (entries_for capacity) 8) PROMOTED])
          (if capacity =? 0 then None else Some 0)
          [] (replicate nshards 0%Z) [] [] [] [] [].
  Definition init_conf (capacity nshards nthreads : nat) : mconf :=
    MConf (init_state capacity nshards) (replicate nthreads (ts_idle [])) [] 0.
End machine.
Arguments mconf : clear implicits.
Arguments choice : clear implicits.
Arguments hevent : clear implicits.
Arguments tstate : clear implicits.

(** The configuration of a map created with the given capacity (mod.rs:216-246): [initial_capacity] is 1 when
    the table is lazily allocated, else the capacity as given. *)
Definition mk_config {K} (hash : K → N) (mode : rmode) (capacity : nat) (sa sw sc : nat) : config K :=
  Config hash mode (if capacity =? 0 then 1 else capacity) sa sw sc.
