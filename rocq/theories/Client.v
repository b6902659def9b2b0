(** Library code written on top of the map API (src/map.rs trait impls, src/set.rs, src/serde_impls.rs), as client
    programs, and their specifications. Independent of the implementation of the map: only histories of API calls,
    and the sequential specification of [Spec], are used. *)
From Verif Require Export Props.

(** A client program is run by one thread [t] against several maps; [Hs m] is the history of map [m]. It denotes
    the set of its completed runs: [p pos a pos'] means that, starting when the first [pos m] events of each map
    had happened, thread [t] ran [p], which returned [a] when the first [pos' m] events had happened. *)
Section client.
  Context {K V : Type} {Keq : EqDecision K}.
  Notation op := (op K V). Notation vres := (vres K V). Notation hevent := (hevent K V).
  Context (t : nat) (Hs : nat → list hevent).

  (** [e] is an action of thread [t], other than acquiring a guard. *)
  Definition by_thread (e : hevent) : Prop :=
    match e with HInv i _ _ | HRes i _ _ _ _ | HPanic i _ _ _ | HUnpin i => i = t | HPin _ => False end.
  (** The next thing thread [t] does on the map of history [H] after event [p] is a call of [o], which returns [v] at
      event [p' - 1]. *)
  Definition next_call (H : list hevent) (p : nat) (o : op) (v : vres) (p' : nat) : Prop :=
    ∃ h0 h1 id, p ≤ h0 ∧ call H h0 h1 t id o v ∧ p' = h1 + 1 ∧
      ∀ h e, p ≤ h → h < p' → h ≠ h0 → h ≠ h1 → H !! h = Some e → ¬ by_thread e.

  Definition pos : Type := nat → nat.
  Definition cl (A : Type) : Type := pos → A → pos → Prop.
  Definition cret {A} (a : A) : cl A := λ p b p', b = a ∧ ∀ m, p' m = p m.
  Definition cbind {A B} (c : cl A) (f : A → cl B) : cl B := λ p b p', ∃ a p1, c p a p1 ∧ f a p1 b p'.
  Definition ccall (m : nat) (o : op) : cl vres := λ p v p', next_call (Hs m) (p m) o v (p' m) ∧ ∀ m', m' ≠ m → p' m' = p m'.
  Inductive cloop {S B} (body : S → cl (S + B)) : S → pos → B → pos → Prop :=
    | cl_last s p b p' : body s p (inr b) p' → cloop body s p b p'
    | cl_more s p s' p1 b p' : body s p (inl s') p1 → cloop body s' p1 b p' → cloop body s p b p'.
  Definition cfor {A} (l : list A) (f : A → cl unit) : cl unit :=
    fold_right (λ a c, cbind (f a) (λ _, c)) (cret tt) l.
End client.
Notation "x ⇐ c ; d" := (cbind c (λ x, d)) (at level 100, c at next level, right associativity).
Notation "c ;;; d" := (cbind c (λ _, d)) (at level 100, right associativity).

Section programs.
  Context {K V : Type} {Keq : EqDecision K}.
  Notation op := (op K V). Notation vres := (vres K V). Notation hevent := (hevent K V).
  Context (t : nat) (Hs : nat → list hevent).
  Notation ccall := (ccall t Hs).
  Definition len_of (v : vres) : nat := match v with VLen n => n | _ => 0 end.

  (** [for x in map_m.iter(guard)]: [j] is the number of iterators the thread already has on this map. *)
  Definition c_iterate {S} (m j : nat) (body : S → K → V → cl (S + S)) (s : S) : cl S :=
    (ccall m OIter;;;
     cloop (λ s, x ⇐ ccall m (OIterNext j);
                 match x with VNext (Some (k, v)) => body s k v | _ => cret (inr s) end) s).

  (** impl PartialEq for HashMap, src/map.rs:1124-1140: [a == b], values compared with [veq]. *)
  Definition c_eq (veq : V → V → bool) (a b j : nat) : cl bool :=
    (n ⇐ ccall a OLen; n' ⇐ ccall b OLen;
     if negb (len_of n =? len_of n') then cret false else
     c_iterate a j (λ _ k v,
       y ⇐ ccall b (OGet k);
       match y with
       | VGet (Some (_, w)) => if veq v w then cret (inl true) else cret (inr false)
       | _ => cret (inr false)
       end) true).

  (** impl Extend for &HashMap, src/map.rs:1162-1187: [hint] is the lower bound of the iterator's size hint. *)
  Definition c_extend (m hint : nat) (l : list (K * V)) : cl unit :=
    (n ⇐ ccall m OLen;
     ccall m (OReserve (if len_of n =? 0 then hint else (hint + 1) / 2));;;
     cfor l (λ kv, ccall m (OInsert kv.1 kv.2);;; cret tt)).

  (** impl FromIterator / From<[(K, V); N]> for HashMap, src/map.rs:1200-1238, and MapVisitor::visit_map,
      src/serde_impls.rs:71-92: a new map [m] (the capacity it is created with is a parameter of the machine),
      then one insert per pair. *)
  Definition c_from (m : nat) (l : list (K * V)) : cl unit := cfor l (λ kv, ccall m (OInsert kv.1 kv.2);;; cret tt).

  (** impl Clone for HashMap, src/map.rs:1240-1265: [b] is the new map (created with capacity [len] of [a]). *)
  Definition c_clone (a b j : nat) : cl unit :=
    (ccall a OLen;;;
     c_iterate a j (λ _ k v, ccall b (OInsert k v);;; cret (inl tt)) tt).

  (** impl Serialize for HashMapRef, src/serde_impls.rs:18-31 (collect_map over the iterator): the pairs written. *)
  Definition c_serialize (a j : nat) : cl (list (K * V)) :=
    c_iterate a j (λ l k v, cret (inl (l ++ [(k, v)]))) [].
End programs.

(** ** Specifications *)
Section specs.
  Context {K V : Type} {Keq : EqDecision K}.
  Notation hevent := (hevent K V).
  (** Nobody but thread [t] uses the map from event [a] to event [b]: every call invoked before [b] is by [t] and invoked
      after [a], or had returned before [a]. *)
  Definition alone (t : nat) (H : list hevent) (a b : nat) : Prop :=
    ∀ h i id o, H !! h = Some (HInv i id o) → h < b → (i = t ∧ a ≤ h) ∨ returned_before H a i id o.
  (** No call has been made on the map before event [p]: it is a new map. *)
  Definition new_map (H : list hevent) (p : nat) : Prop := ∀ h i id o, H !! h = Some (HInv i id o) → p ≤ h.
  (** Number of iterators thread [t] has on the map after [p] events. *)
  Definition n_iters (t : nat) (H : list hevent) (p : nat) : nat := length (iters_of t (take p H)).

  (** The list enumerates the map: every binding exactly once. *)
  Definition enumerates (l : list (K * V)) (m : @smap K V) : Prop :=
    NoDup l.*1 ∧ ∀ k v, (k, v) ∈ l ↔ m k = Some v.
  (** Writing the pairs in order: the last one for each key wins. *)
  Definition write_all (m : @smap K V) (l : list (K * V)) : @smap K V := foldl (λ m kv, supd m kv.1 (Some kv.2)) m l.
  Definition last_write (l : list (K * V)) (k : K) : option V := snd <$> List.find (λ kv, bool_decide (kv.1 = k)) (reverse l).
  (** Equality of maps up to [veq] on values. *)
  Definition same_contents (veq : V → V → bool) (m m' : @smap K V) : Prop :=
    ∀ k, match m k, m' k with Some v, Some w => veq v w = true | None, None => True | _, _ => False end.

  (** The linearization used to speak of "the contents of the map when [p] events had happened": [sval S (cut p)]. *)
  Definition explains (H : list hevent) (S : list (@lact K V)) (cut : nat → nat) : Prop :=
    linearizes H S cut ∧ sweeps H S cut ∧ iterates H S cut ∧ closures_ok H S cut ∧ len_exact H S cut.

  (** The result of a call is of the kind that the call returns. *)
  Definition typed (H : list hevent) : Prop :=
    ∀ h i id o r v, H !! h = Some (HRes i id o r v) →
      match o with OLen => ∃ n, v = VLen n | OIterNext _ => ∃ x, v = VNext x | OIter => v = VIter | OReserve _ => v = VUnit | _ => True end.

  Lemma write_all_spec l (m : @smap K V) k : write_all m l k = match last_write l k with Some v => Some v | None => m k end.
  Proof.
    unfold write_all, last_write. rewrite <- (reverse_involutive l) at 1. generalize (reverse l) as r. clear l. induction r as [|[k' v] r IH]; [done|].
    rewrite reverse_cons, foldl_app. cbn. unfold supd. case_decide as D.
    - subst k'. rewrite bool_decide_eq_true_2 by done. done.
    - rewrite bool_decide_eq_false_2 by (intros ->; done). exact IH.
  Qed.
End specs.
