(** Dropping a map: [Drop for HashMap] (src/raw/mod.rs:2721-2807). *)
From Verif Require Export Machine.

Section dropm.
  Context {K V : Type} {Keq : EqDecision K}.
  Notation state := (state K V).

  (** drop_entries, mod.rs:2761-2779: free every non-null entry that is not marked COPYING. [None]: an entry is freed twice. *)
  Fixpoint drop_entries (l : list slot) (fr : list nat) : option (list nat) :=
    match l with
    | [] => Some fr
    | s :: l =>
      match e_ptr (s_ent s) with
      | None => drop_entries l fr
      | Some p => if e_copying (s_ent s) then drop_entries l fr
                  else if decide (p ∈ fr) then None else drop_entries l (p :: fr)
      end
    end.

  (** drop_table, mod.rs:2786-2807: retire the deferred entries, free the table ([reclaim] does the same for a retired table). *)
  Definition drop_table (t : nat) (tb : table) (σ : state) : option state :=
    (σ' ← retire_all (t_deferred tb) σ;
     Some (set_tables (<[t := t_set_freed true (t_set_deferred [] tb)]>) σ'))%stdpp.

  (** Collector::reclaim_all (seize, not part of this repository; called at mod.rs:2731, and once more when the collector field
      is dropped): every retired object is reclaimed whatever its blockers, including objects retired meanwhile. [None]: an
      object is freed twice, or the fuel runs out. *)
  Fixpoint reclaim_all (fuel : nat) (σ : state) : option state :=
    match retired σ with
    | [] => Some σ
    | r :: rest =>
      match fuel with
      | 0 => None
      | S fuel => (σ' ← reclaim r rest σ; reclaim_all fuel σ')%stdpp
      end
    end.
  (** Enough fuel: retired objects plus deferred ones. *)
  Definition work (σ : state) : nat := length (retired σ) + length (tables σ ≫= t_deferred).

  (** The loop of Drop, mod.rs:2734-2752: entries and allocation of every table from the root on. [None]: a freed table is
      accessed, or an entry is freed twice. *)
  Fixpoint drop_tables (fuel : nat) (raw : option nat) (σ : state) : option state :=
    match raw, fuel with
    | None, _ => Some σ
    | Some _, 0 => None
    | Some t, S fuel =>
      match tables σ !! t with
      | None => None
      | Some tb =>
        if t_freed tb then None else
        (fr ← drop_entries (t_slots tb) (freed σ);
         σ1 ← drop_table t tb (set_freed fr σ);
         drop_tables fuel (t_next tb) σ1)%stdpp
      end
    end.

  (** Drop for HashMap, mod.rs:2721-2754, and then the drop of the collector. *)
  Definition drop_map (σ : state) : option state :=
    (σ1 ← reclaim_all (work σ) σ;
     σ2 ← drop_tables (length (tables σ1)) (root σ1) σ1;
     reclaim_all (work σ2) σ2)%stdpp.
End dropm.
