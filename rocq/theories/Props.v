(** History-level properties, stated independently of the implementation: only the types of operations, results and
    history events of [Machine], and the sequential specification of [Spec], are used. *)
From Verif Require Export Spec.

Section defs.
  Context {K V : Type} {Keq : EqDecision K}.
  Notation op := (op K V). Notation vres := (vres K V). Notation hevent := (hevent K V). Notation lact := (@lact K V).

  (** [o] may change the binding of [k]. *)
  Definition touches (o : op) (k : K) : Prop :=
    match key_of o with Some k' => k' = k ∧ o ≠ OGet k | None => o = OClear ∨ ∃ f, o = ORetain f end.
  (** The call [id] returned before event [h]. *)
  Definition returned_before (H : list hevent) (h : nat) (i id : nat) (o : op) : Prop :=
    ∃ h' r v, h' < h ∧ H !! h' = Some (HRes i id o r v).
  (** The call [id] can have no effect after event [h]: it returned or panicked before, or it is a single-key call that
      panics (whenever that is: a call that panics has no effect). *)
  Definition over_before (H : list hevent) (h : nat) (i id : nat) (o : op) : Prop :=
    returned_before H h i id o ∨ ∃ h' why, H !! h' = Some (HPanic i id o why) ∧ (h' < h ∨ key_of o ≠ None).
  (** Except for the calls in [P], every call that may change [k] is over before event [h1], or is invoked at [h2] or later. *)
  Definition only_writers (P : nat → op → Prop) (k : K) (h1 h2 : nat) (H : list hevent) : Prop :=
    ∀ h i id o, H !! h = Some (HInv i id o) → touches o k → P id o ∨ over_before H h1 i id o ∨ h2 ≤ h.
  (** A completed call, from event [h0] to event [h1]. *)
  Definition call (H : list hevent) (h0 h1 i id : nat) (o : op) (v : vres) : Prop :=
    ∃ r, H !! h0 = Some (HInv i id o) ∧ H !! h1 = Some (HRes i id o r v).

  (** The binding of its key that a completed call leaves behind, read off the result it returned. *)
  Definition left_by (o : op) (x : vres) : option V :=
    match o, x with
    | OGet _, VGet y => snd <$> y
    | OInsert _ v, _ => Some v
    | OTryInsert _ _, VTry (inl v) => Some v
    | OTryInsert _ _, VTry (inr (c, _)) => Some c
    | ORemoveIf _ _, VRemoveIf (inr (_, c)) => Some c
    | OCompute _ _, VCompute (VInserted (_, v)) => Some v
    | OCompute _ _, VCompute (VUpdated _ (_, v)) => Some v
    | OCompute _ _, VCompute (VAborted y) => snd <$> y
    | OTryInsertWith _ _, VTryWith (inl v) => Some v
    | OTryInsertWith _ _, VTryWith (inr c) => Some c
    | OUpdate _ _, VUpdate y => y
    | OUpdateOrInsert _ _ _, VUpdateOr v => Some v
    | _, _ => None
    end.

  (** C04: a [get] invoked after a call on the key returned, with nobody else changing the key meanwhile, returns
      exactly the binding that call left, whatever happens to other keys (and to the table). *)
  Definition reads_last_write (H : list hevent) : Prop :=
    ∀ h0 h1 i id o x k g0 g1 j jd y, call H h0 h1 i id o x → key_of o = Some k → call H g0 g1 j jd (OGet k) (VGet y) → h1 < g0 →
      only_writers (λ id' _, id' = id) k h0 g1 H → y = (λ v, (k, v)) <$> left_by o x.

  (** try_insert / get_or_insert(_with) *)
  Definition is_try (k : K) (o : op) : Prop := ∃ v, o = OTryInsert k v ∨ o = OTryInsertWith k v.
  (** The value reported as current, and whether this call inserted it. *)
  Definition try_res (x : vres) : option (V * bool) :=
    match x with
    | VTry (inl v) | VTryWith (inl v) => Some (v, true)
    | VTry (inr (c, _)) | VTryWith (inr c) => Some (c, false)
    | _ => None
    end.
  (** C05/C09: between events [h0] and [h2] nobody but try_insert-like calls writes [k]. Then all of them report the same
      value, at most one of them inserted, and any later [get] in the window returns that value. *)
  Definition tries_agree (H : list hevent) : Prop :=
    ∀ k h0 h2, only_writers (λ _ o, is_try k o) k h0 h2 H →
    ∀ a b i id o x, call H a b i id o x → is_try k o → h0 ≤ a → b < h2 →
      ∃ w won, try_res x = Some (w, won) ∧
        (∀ a' b' i' id' o' x', call H a' b' i' id' o' x' → is_try k o' → h0 ≤ a' → b' < h2 →
           ∃ won', try_res x' = Some (w, won') ∧ (won = true → won' = true → id' = id)) ∧
        (∀ a' b' i' id' y, call H a' b' i' id' (OGet k) (VGet y) → b < a' → b' < h2 → y = Some (k, w)).
  (** The key is absent at event [b], with no call on it in progress. *)
  Definition absent_at (k : K) (b : nat) (H : list hevent) : Prop :=
    (∀ h i id o, H !! h = Some (HInv i id o) → touches o k → b ≤ h) ∨
    ∃ h0 h1 i id o x, call H h0 h1 i id o x ∧ key_of o = Some k ∧ left_by o x = None ∧ h1 < b ∧ only_writers (λ id' _, id' = id) k h0 b H.
  (** C05: if the key is absent at [b], and from [b] to [h2] only try_insert-like calls are made on it, all of which
      return, then exactly one of them inserts. *)
  Definition unique_winner (H : list hevent) : Prop :=
    ∀ k b h2, absent_at k b H →
      (∀ h i id o, H !! h = Some (HInv i id o) → touches o k → b ≤ h → h < h2 → is_try k o ∧ returned_before H h2 i id o) →
      (∃ h i id o, H !! h = Some (HInv i id o) ∧ touches o k ∧ b ≤ h ∧ h < h2) →
      ∃ w idw, (∃ a i o, H !! a = Some (HInv i idw o) ∧ (o = OTryInsert k w ∨ o = OTryInsertWith k w)) ∧
        ∀ a c i id o x, call H a c i id o x → is_try k o → b ≤ a → c < h2 → try_res x = Some (w, bool_decide (id = idw)).

  (** C07: starting from a call that left the value [v0], and then only [update(k, g)] calls, all of which return: a later
      [get] returns [g] applied to [v0] as many times as there were update calls. *)
  Definition counts_updates (H : list hevent) : Prop :=
    ∀ h0 h1 i id o x k v0 g g0 g1 j jd y (ids : list nat),
      call H h0 h1 i id o x → key_of o = Some k → left_by o x = Some v0 → call H g0 g1 j jd (OGet k) (VGet y) → h1 < g0 → NoDup ids →
      (∀ u, u ∈ ids ↔ ∃ a b t z, call H a b t u (OUpdate k g) z ∧ h1 < a ∧ b < g0) →
      only_writers (λ id' _, id' = id ∨ id' ∈ ids) k h0 g1 H →
      y = Some (k, Nat.iter (length ids) g v0).

  (** C11: an entry that nobody touches from before the creation of an iterator until it is exhausted is yielded
      exactly once, with its value. *)
  Definition iter_complete (H : list hevent) : Prop :=
    ∀ h0 h1 i id o x k v t j c e id' r', call H h0 h1 i id o x → key_of o = Some k → left_by o x = Some v → h1 < c →
      H !! e = Some (HRes t id' (OIterNext j) r' (VNext None)) → iters_of t (take e H) !! j = Some c →
      only_writers (λ id' _, id' = id) k h0 e H →
      ∃ h, h < e ∧ yields H t j c h k v ∧ ∀ h' v', h' < e → yields H t j c h' k v' → h' = h.

  (** C13/C14: an entry that nobody else touches is gone after [clear], and survives [retain f] iff [f] accepts it. *)
  Definition swept (H : list hevent) : Prop :=
    ∀ h0 h1 i id o x k v a b t sd s z g0 g1 j jd y,
      call H h0 h1 i id o x → key_of o = Some k → left_by o x = Some v → h1 < a →
      call H a b t sd s z → (s = OClear ∨ ∃ f, s = ORetain f) → call H g0 g1 j jd (OGet k) (VGet y) → b < g0 →
      only_writers (λ id' _, id' = id ∨ id' = sd) k h0 g1 H →
      y = if keeps s k v then Some (k, v) else None.

  (** C03: a sequential history: every call ends before anything else happens; only single-key calls may panic. *)
  Definition sequential (H : list hevent) : Prop :=
    ∀ h e, H !! h = Some e →
      match e with
      | HInv i id o => H !! (h + 1) = None ∨ (∃ r v, H !! (h + 1) = Some (HRes i id o r v)) ∨
                      key_of o ≠ None ∧ ∃ why, H !! (h + 1) = Some (HPanic i id o why)
      | _ => True
      end.
  (** The mathematical map after the calls of a sequential history: a call that panics changes nothing. *)
  Definition seq_step (m : @smap K V) (e : hevent) : @smap K V :=
    match e with
    | HRes _ _ o _ _ =>
      match key_of o, o with
      | Some k, _ => match seq_op o (m k) with Some (x, _) => supd m k x | None => m end
      | None, OClear => sempty
      | None, ORetain f => λ k, match m k with Some v => if f k v then Some v else None | None => None end
      | None, _ => m
      end
    | _ => m
    end.
  Definition seq_map (H : list hevent) (h : nat) : @smap K V := foldl seq_step sempty (take h H).
  Definition sequential_semantics (H : list hevent) : Prop :=
    sequential H → ∀ h i id o r v k, H !! h = Some (HRes i id o r v) → key_of o = Some k →
      ∃ x, seq_op o (seq_map H h k) = Some (x, v).

  (** [o] may bind [k] to [v] (with a fresh entry). *)
  Definition may_write (o : op) (k : K) (v : V) : Prop :=
    match o with
    | OInsert k' v' | OTryInsert k' v' | OTryInsertWith k' v' => k' = k ∧ v' = v
    | OCompute k' f => k' = k ∧ ∃ m, f m = OpInsert v
    | OUpdate k' g => k' = k ∧ ∃ c, g c = v
    | OUpdateOrInsert k' g v' => k' = k ∧ (v' = v ∨ ∃ c, g c = v)
    | _ => False
    end.
  (** [v] is bound to [k] by at most one call of the whole history. *)
  Definition one_writer (H : list hevent) (k : K) (v : V) : Prop :=
    ∀ h h' i i' id id' o o', H !! h = Some (HInv i id o) → H !! h' = Some (HInv i' id' o') → may_write o k v → may_write o' k v → id' = id.

  (** The value a completed call hands out as removed or replaced. *)
  Definition taken (o : op) (x : vres) : option V :=
    match o, x with
    | OInsert _ _, VInsert u => u
    | ORemove _, VRemove (Some (_, u)) => Some u
    | ORemoveIf _ _, VRemoveIf (inl (Some (_, u))) => Some u
    | OCompute _ _, VCompute (VUpdated (_, u) _) => Some u
    | OCompute _ _, VCompute (VRemoved (_, u)) => Some u
    | _, _ => None
    end.
  (** C06: a value bound by one call only is handed out as removed / replaced by at most one call. *)
  Definition handed_out_once (H : list hevent) : Prop :=
    ∀ k v, one_writer H k v → ∀ a b i id o x a' b' i' id' o' x', call H a b i id o x → call H a' b' i' id' o' x' →
      key_of o = Some k → key_of o' = Some k → taken o x = Some v → taken o' x' = Some v → id' = id.
  (** ... and this includes the deletions made by clear / retain (which return nothing): a value handed out by a call is not
      also deleted by a sweep, and not deleted by two sweeps. [takes m a k v]: in a map [m], [a] ends the binding of [k] to [v]. *)
  Definition takes (m : @smap K V) (a : lact) (k : K) (v : V) : Prop :=
    m k = Some v ∧
    match a with
    | LOp _ o r => key_of o = Some k ∧ match o with OUpdate _ _ | OUpdateOrInsert _ _ _ => True | _ => taken o r = Some v end
    | LDel _ k' _ => k' = k
    end.
  Definition removed_once (H : list hevent) (S : list lact) : Prop :=
    ∀ k v, one_writer H k v → ∀ n n' a a', S !! n = Some a → S !! n' = Some a' → takes (sval S n) a k v → takes (sval S n') a' k v → n' = n.

  (** C31: [w] replaced [u] by [v], both written by one call only. Once some [get] has returned [v], no later [get] returns [u]. *)
  Definition reads_monotone (H : list hevent) : Prop :=
    ∀ k u v a b i w, call H a b i w (OInsert k v) (VInsert (Some u)) → u ≠ v → one_writer H k u → one_writer H k v →
    ∀ g0 g1 j jd h0 h1 l ld y, call H g0 g1 j jd (OGet k) (VGet (Some (k, v))) → call H h0 h1 l ld (OGet k) (VGet y) → g1 < h0 → y ≠ Some (k, u).
  (** C31: in the linearization, calls that do not overlap are in their real-time order. *)
  Definition real_time (H : list hevent) (S : list lact) : Prop :=
    ∀ a b i id o x a' b' i' id' o' x' n n' y y', call H a b i id o x → call H a' b' i' id' o' x' → b < a' →
      S !! n = Some (LOp id o y) → S !! n' = Some (LOp id' o' y') → n < n'.

  (** C35: a [try_insert] either inserts, or changes nothing and hands back both values. *)
  Definition try_insert_spec (H : list hevent) (S : list lact) (cut : nat → nat) : Prop :=
    ∀ a b i id k v x, call H a b i id (OTryInsert k v) x →
      ∃ n, cut (a + 1) ≤ n ∧ n < cut (b + 1) ∧ (∀ m c, S !! m = Some c → a_id c = id → m = n) ∧
        ((x = VTry (inl v) ∧ sval S n k = None ∧ sval S (n + 1) k = Some v) ∨
         ∃ c, x = VTry (inr (c, v)) ∧ sval S n k = Some c ∧ ∀ k', sval S (n + 1) k' = sval S n k').
  (** C38 *)
  Definition remove_if_spec (H : list hevent) (S : list lact) (cut : nat → nat) : Prop :=
    ∀ a b i id k f x, call H a b i id (ORemoveIf k f) x →
      ∃ n, cut (a + 1) ≤ n ∧ n < cut (b + 1) ∧
        ((x = VRemoveIf (inl None) ∧ sval S n k = None ∧ ∀ k', sval S (n + 1) k' = sval S n k') ∨
         (∃ c, x = VRemoveIf (inr (k, c)) ∧ f k c = false ∧ sval S n k = Some c ∧ ∀ k', sval S (n + 1) k' = sval S n k') ∨
         (∃ c, x = VRemoveIf (inl (Some (k, c))) ∧ f k c = true ∧ sval S n k = Some c ∧ sval S (n + 1) k = None)).
  (** C07: an [update] is atomic: it reads the binding and replaces it by the closure's value in one step. *)
  Definition update_spec (H : list hevent) (S : list lact) (cut : nat → nat) : Prop :=
    ∀ a b i id k g x, call H a b i id (OUpdate k g) x →
      ∃ n, cut (a + 1) ≤ n ∧ n < cut (b + 1) ∧ (∀ m c, S !! m = Some c → a_id c = id → m = n) ∧
        ((x = VUpdate None ∧ sval S n k = None ∧ sval S (n + 1) k = None) ∨
         ∃ c, x = VUpdate (Some (g c)) ∧ sval S n k = Some c ∧ sval S (n + 1) k = Some (g c)).
  (** C08 *)
  Definition none_once (H : list hevent) : Prop :=
    (∀ h i id o r v, H !! h = Some (HRes i id o r v) → key_of o ≠ None → length (filter (λ c, c = None) (calls_of r)) ≤ 1) ∧
    (∀ h i id o why, H !! h = Some (HPanic i id o why) → why ≠ PFnOnce).
  (** C36: an iterator yields a key twice only if the key was absent at some moment since the iterator was created. At the
      level of the history: only if some call that may remove the key overlaps the iteration. *)
  Definition may_remove (o : op) (k : K) : Prop :=
    match o with
    | ORemove k' | ORemoveIf k' _ => k' = k
    | OCompute k' f => k' = k ∧ ∃ m, f m = OpRemove
    | OClear => True
    | ORetain f => ∃ v, f k v = false
    | _ => False
    end.
  Definition iter_no_duplicates (H : list hevent) : Prop :=
    ∀ i j c h h' k v v', yields H i j c h k v → yields H i j c h' k v' →
      (∀ q t id o, H !! q = Some (HInv t id o) → may_remove o k → returned_before H c t id o ∨ (h ≤ q ∧ h' ≤ q)) → h' = h.

  (** C10: the [len] call of identifier [id], invoked at [h0] and returning at [h], ran in quiescence: every other call
      invoked before [h] had returned before [h0]. *)
  Definition quiet (H : list hevent) (h0 h id : nat) : Prop :=
    ∀ q t id' o, q < h → H !! q = Some (HInv t id' o) → id' = id ∨ returned_before H h0 t id' o.
  Definition len_exact (H : list hevent) (S : list lact) (cut : nat → nat) : Prop :=
    ∀ h0 h i id r n, H !! h0 = Some (HInv i id OLen) → H !! h = Some (HRes i id OLen r (VLen n)) → quiet H h0 h id →
      ∃ ks, NoDup ks ∧ (∀ k, k ∈ ks ↔ sval S (cut (h + 1)) k ≠ None) ∧ length ks = n.

  (** All of the above except C10 follow from this. *)
  Definition good_history (H : list hevent) : Prop :=
    wf_hist H ∧ ∃ S cut, linearizes H S cut ∧ sweeps H S cut ∧ iterates H S cut ∧ closures_ok H S cut.
End defs.
