(** The specification of a concurrent map, independent of the implementation: a sequential map, and what it means
    for a history of the API to be linearizable with respect to it.
    Only the types of operations, results and history events are taken from [Machine]. *)
From Verif Require Export Machine.

Section spec.
  Context {K V : Type} {Keq : EqDecision K}.
  Notation op := (op K V). Notation vres := (vres K V). Notation hevent := (hevent K V).

  (** A plain sequential map. *)
  Definition smap : Type := K → option V.
  Definition sempty : smap := λ _, None.
  Definition supd (m : smap) (k : K) (x : option V) : smap := λ k', if decide (k' = k) then x else m k'.

  (** The key a single-key operation works on. *)
  Definition key_of (o : op) : option K :=
    match o with
    | OGet k | OInsert k _ | OTryInsert k _ | ORemove k | ORemoveIf k _ | OCompute k _
    | OTryInsertWith k _ | OUpdate k _ | OUpdateOrInsert k _ _ => Some k
    | _ => None
    end.

  (** What a single-key operation does when the key is bound to [m]: the new binding and the result returned.
      [None]: the call panics ([compute] asked to remove an absent key, documented in src/map.rs, or its closure panics). *)
  Definition seq_op (o : op) (m : option V) : option (option V * vres) :=
    match o with
    | OGet k => Some (m, VGet ((λ v, (k, v)) <$> m))
    | OInsert k v => Some (Some v, VInsert m)
    | OTryInsert k v => match m with None => Some (Some v, VTry (inl v)) | Some c => Some (m, VTry (inr (c, v))) end
    | ORemove k => Some (None, VRemove ((λ v, (k, v)) <$> m))
    | ORemoveIf k f =>
      match m with
      | None => Some (None, VRemoveIf (inl None))
      | Some c => if f k c then Some (None, VRemoveIf (inl (Some (k, c)))) else Some (m, VRemoveIf (inr (k, c)))
      end
    | OCompute k f =>
      match f ((λ v, (k, v)) <$> m), m with
      | OpInsert v, None => Some (Some v, VCompute (VInserted (k, v)))
      | OpInsert v, Some c => Some (Some v, VCompute (VUpdated (k, c) (k, v)))
      | OpRemove, Some c => Some (None, VCompute (VRemoved (k, c)))
      | OpRemove, None => None
      | OpAbort, _ => Some (m, VCompute (VAborted ((λ v, (k, v)) <$> m)))
      | OpPanic, _ => None
      end
    | OTryInsertWith k v => match m with None => Some (Some v, VTryWith (inl v)) | Some c => Some (m, VTryWith (inr c)) end
    | OUpdate k g => match m with None => Some (None, VUpdate None) | Some c => Some (Some (g c), VUpdate (Some (g c))) end
    | OUpdateOrInsert k g v => match m with None => Some (Some v, VUpdateOr v) | Some c => Some (Some (g c), VUpdateOr (g c)) end
    | _ => None
    end.

  (** The atomic actions of a linearization: single-key operations with their results, and the individual deletions
      made by [clear] and [retain]. *)
  Inductive lact := LOp (id : nat) (o : op) (r : vres) | LDel (id : nat) (k : K) (v : V).
  Definition a_id (a : lact) : nat := match a with LOp id _ _ | LDel id _ _ => id end.

  (** Effect of an action on the sequential map, and when it is correct there. *)
  Definition lapply (m : smap) (a : lact) : smap :=
    match a with
    | LOp _ o _ =>
      match key_of o with
      | Some k => match seq_op o (m k) with Some (x, _) => supd m k x | None => m end
      | None => m
      end
    | LDel _ k _ => supd m k None
    end.
  Definition lallowed (m : smap) (a : lact) : Prop :=
    match a with
    | LOp _ o r => ∃ k x, key_of o = Some k ∧ seq_op o (m k) = Some (x, r)
    | LDel _ k v => m k = Some v
    end.
  (** The map after the first [n] actions. *)
  Definition sval (S : list lact) (n : nat) : smap := foldl lapply sempty (take n S).

  (** [a] is an action that a call of [o] may make. *)
  Definition belongs (a : lact) (o : op) : Prop :=
    match a with
    | LOp _ o' _ => o' = o
    | LDel _ k v => o = OClear ∨ ∃ f, o = ORetain f ∧ f k v = false
    end.

  (** The predicate by which [clear] / [retain] keep entries. *)
  Definition keeps (o : op) (k : K) (v : V) : bool := match o with ORetain f => f k v | _ => false end.

  (** The iterators of thread [i] after the history [H]: for each, the position in [H] of the call that created it.
      All of a thread's iterators end when its guard is dropped (or the thread panics). The fold carries the current
      position, the position of the last call of thread [i], and the iterators. *)
  Definition it_step (i : nat) (s : nat * nat * list nat) (e : hevent) : nat * nat * list nat :=
    let '(h, last, acc) := s in
    match e with
    | HInv j _ _ => (S h, if decide (j = i) then h else last, acc)
    | HRes j _ OIter _ _ => (S h, last, if decide (j = i) then acc ++ [last] else acc)
    | HUnpin j | HPanic j _ _ _ => (S h, last, if decide (j = i) then [] else acc)
    | _ => (S h, last, acc)
    end.
  Definition iters_of (i : nat) (H : list hevent) : list nat := (foldl (it_step i) (0, 0, []) H).2.

  (** The references into the map that a call returned to the user. *)
  Definition refs (r : pres K V) : list nat :=
    match r with
    | PGet (Some p) | PIns (RInserted p) | PIns (RReplaced p) | PIns (RError p) | PRem (RRemoved p) | PRem (RRejected p)
    | PComp (CInserted p) _ | PComp (CRemoved p) _ | PComp (CAborted (Some p)) _ | PNext _ _ (Some p) => [p]
    | PComp (CUpdated p q) _ => [p; q]
    | _ => []
    end.

  (** Thread [i] has not dropped its guard (nor panicked) since event [h]. *)
  Definition guard_held (i h : nat) (H : list hevent) : Prop :=
    ∀ h' e, h < h' → H !! h' = Some e → e ≠ HUnpin i ∧ ∀ id o why, e ≠ HPanic i id o why.

  (** [S] linearizes the history [H]. [cut h] is the moment (a position in [S]) at which the first [h] events of [H]
      had happened. Every action of a call lies between its invocation and its response. *)
  Record linearizes (H : list hevent) (S : list lact) (cut : nat → nat) : Prop := MkLinearizes {
    l_mono : ∀ h h', h ≤ h' → cut h ≤ cut h';
    l_bound : ∀ h, cut h ≤ length S;
    (** the actions are those of a sequential map *)
    l_legal : ∀ n a, S !! n = Some a → lallowed (sval S n) a;
    (** every action is made by an invoked call, after its invocation *)
    l_inv : ∀ n a, S !! n = Some a → ∃ h i o, H !! h = Some (HInv i (a_id a) o) ∧ belongs a o ∧ cut (h + 1) ≤ n;
    (** and before its response *)
    l_res : ∀ n a h i o r v, S !! n = Some a → H !! h = Some (HRes i (a_id a) o r v) → n < cut (h + 1);
    (** a single-key call makes at most one action *)
    l_once : ∀ n n' id o o' r r', S !! n = Some (LOp id o r) → S !! n' = Some (LOp id o' r') → n = n';
    (** and if it has returned, exactly one, with the result returned *)
    l_done : ∀ h i id o r v, H !! h = Some (HRes i id o r v) → key_of o ≠ None → ∃ n, S !! n = Some (LOp id o v);
    (** a call that panics makes no action at all if it is a single-key call; whatever a sweep did, it did before panicking *)
    l_panic : ∀ n a h i o why, S !! n = Some a → H !! h = Some (HPanic i (a_id a) o why) → key_of o = None ∧ n < cut (h + 1) }.

  (** Calls and responses match: needed to speak of "the" invocation of a call. *)
  Record wf_hist (H : list hevent) : Prop := MkWf {
    wf_inv : ∀ h h' i i' id o o', H !! h = Some (HInv i id o) → H !! h' = Some (HInv i' id o') → h = h';
    wf_res : ∀ h i id o r v, H !! h = Some (HRes i id o r v) → ∃ h', h' < h ∧ H !! h' = Some (HInv i id o);
    wf_res1 : ∀ h h' i i' id o o' r r' v v', H !! h = Some (HRes i id o r v) → H !! h' = Some (HRes i' id o' r' v') → h = h' }.

  (** [clear] and [retain]: for every key there is a moment during the call at which the key is absent or bound to a
      value the call keeps. *)
  Definition sweeps (H : list hevent) (S : list lact) (cut : nat → nat) : Prop :=
    ∀ h0 h i id o r v, H !! h0 = Some (HInv i id o) → H !! h = Some (HRes i id o r v) → (o = OClear ∨ ∃ f, o = ORetain f) →
      ∀ k, ∃ n, cut (h0 + 1) ≤ n ∧ n ≤ cut (h + 1) ∧
        match sval S n k with None => True | Some x => keeps o k x = true end.

  (** Iterators: every pair yielded was in the map at some moment between the creation of the iterator and the yield;
      a key is yielded twice only if it was removed meanwhile (present at some moment,
      absent at a later one); a finished iterator has yielded every
      key that was never absent since its creation. *)
  Definition yields (H : list hevent) (i j h0 h : nat) (k : K) (v : V) : Prop :=
    ∃ id r, H !! h = Some (HRes i id (OIterNext j) r (VNext (Some (k, v)))) ∧ iters_of i (take h H) !! j = Some h0.
  Definition iterates (H : list hevent) (S : list lact) (cut : nat → nat) : Prop :=
    (∀ i j h0 h k v, yields H i j h0 h k v → ∃ n, cut (h0 + 1) ≤ n ∧ n ≤ cut (h + 1) ∧ sval S n k = Some v) ∧
    (∀ i j h0 h h' k v v', yields H i j h0 h k v → yields H i j h0 h' k v' → h < h' →
       ∃ n n', cut (h0 + 1) ≤ n ∧ n ≤ n' ∧ n' ≤ cut (h' + 1) ∧ sval S n k ≠ None ∧ sval S n' k = None) ∧
    (∀ i j h0 h id r, H !! h = Some (HRes i id (OIterNext j) r (VNext None)) → iters_of i (take h H) !! j = Some h0 →
       ∀ k, (∃ h' v, h' < h ∧ yields H i j h0 h' k v) ∨ ∃ n, cut (h0 + 1) ≤ n ∧ n ≤ cut (h + 1) ∧ sval S n k = None).

  (** Closures: each closure call of a [compute]-like operation received a binding of the key that was current during the
      call, and at most one of them received an absent binding. *)
  Definition closures_ok (H : list hevent) (S : list lact) (cut : nat → nat) : Prop :=
    ∀ h0 h i id o k r v, H !! h0 = Some (HInv i id o) → H !! h = Some (HRes i id o r v) → key_of o = Some k →
      length (filter (λ c, c = None) (calls_of r)) ≤ 1 ∧
      ∀ c, c ∈ calls_of r → ∃ n, cut (h0 + 1) ≤ n ∧ n ≤ cut (h + 1) ∧ c = (λ x, (k, x)) <$> sval S n k.
End spec.
