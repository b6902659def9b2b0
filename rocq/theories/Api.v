(** The methods of [HashMap] as the user calls them (src/map.rs:380-990): each is a thin wrapper around an operation of the raw
    map. [m_op] is the raw operation called, [m_ret] the wrapper's treatment of its result, and [doc] what the documentation of the
    method says, written only in terms of the contents of the map before and after. *)
From Verif Require Export Main3.

Section api.
  Context {K V : Type}.

  (** The public methods (also of the [HashMapRef] returned by [pin], src/map.rs:1290-1530, whose methods are the same wrappers). Closures are pure functions (as the documentation asks of those that may be called several times). *)
  Inductive method :=
    | MContainsKey (k : K) | MGet (k : K) | MGetKeyValue (k : K)
    | MInsert (k : K) (v : V) | MTryInsert (k : K) (v : V) | MTryInsertWith (k : K) (f : unit → V)
    | MGetOrInsert (k : K) (v : V) | MGetOrInsertWith (k : K) (f : unit → V)
    | MUpdate (k : K) (g : V → V) | MUpdateOrInsert (k : K) (g : V → V) (v : V) | MUpdateOrInsertWith (k : K) (g : V → V) (f : unit → V)
    | MCompute (k : K) (f : option (K * V) → cop V)
    | MRemove (k : K) | MRemoveEntry (k : K) | MRemoveIf (k : K) (f : K → V → bool)
    | MLen | MIsEmpty | MReserve (n : nat) | MClear | MRetain (f : K → V → bool).

  (** What the methods return. *)
  Inductive ret :=
    | RUnit | RBool (b : bool) | RUsize (n : nat)
    | RVal (v : V)                                (* &V *)
    | ROptVal (v : option V)                      (* Option<&V> *)
    | ROptPair (kv : option (K * V))              (* Option<(&K, &V)> *)
    | ROccupied (r : V + V * V)                   (* Result<&V, OccupiedError>: Ok(v) | Err{current, not_inserted} *)
    | RResVal (r : V + V)                         (* Result<&V, &V> *)
    | RRemoveIf (r : option (K * V) + K * V)      (* Result<Option<(&K,&V)>, (&K,&V)> *)
    | RCompute (c : vcomp K V).                   (* Compute *)

  (** The raw operation each method calls. src/map.rs:380 (len), 397 (is_empty), 421 (contains_key), 449 (get), 480 (get_key_value),
      511 (insert), 539 (try_insert), 582 (try_insert_with), 612 (get_or_insert), 639 (get_or_insert_with), 679 (update), 704
      (update_or_insert), 738 (update_or_insert_with), 793 (compute), 822 (remove), 852 (remove_entry), 886 (remove_if), 917 (reserve),
      940 (clear), 971 (retain). *)
  Definition m_op (m : method) : op K V :=
    match m with
    | MContainsKey k | MGet k | MGetKeyValue k => OGet k
    | MInsert k v => OInsert k v
    | MTryInsert k v | MGetOrInsert k v => OTryInsert k v
    | MTryInsertWith k f | MGetOrInsertWith k f => OTryInsertWith k (f tt)
    | MUpdate k g => OUpdate k g
    | MUpdateOrInsert k g v => OUpdateOrInsert k g v
    | MUpdateOrInsertWith k g f => OUpdateOrInsert k g (f tt)
    | MCompute k f => OCompute k f
    | MRemove k | MRemoveEntry k => ORemove k
    | MRemoveIf k f => ORemoveIf k f
    | MLen | MIsEmpty => OLen
    | MReserve n => OReserve n
    | MClear => OClear
    | MRetain f => ORetain f
    end.
  (** How the method turns the raw result into what it returns (same lines; src/raw/mod.rs for get_or_insert_with: both [Ok(v)] and
      [Err(v)] become [v]). [None]: a result of the wrong type. *)
  Definition m_ret (m : method) (r : vres K V) : option ret :=
    match m, r with
    | MContainsKey _, VGet o => Some (RBool match o with Some _ => true | None => false end)
    | MGet _, VGet o => Some (ROptVal match o with Some (_, v) => Some v | None => None end)
    | MGetKeyValue _, VGet o => Some (ROptPair o)
    | MInsert _ _, VInsert o => Some (ROptVal o)
    | MTryInsert _ _, VTry r => Some (ROccupied r)
    | MTryInsertWith _ _, VTryWith r => Some (RResVal r)
    | MGetOrInsert _ _, VTry r => Some (RVal match r with inl inserted => inserted | inr (current, _) => current end)
    | MGetOrInsertWith _ _, VTryWith r => Some (RVal match r with inl v | inr v => v end)
    | MUpdate _ _, VUpdate o => Some (ROptVal o)
    | MUpdateOrInsert _ _ _, VUpdateOr v | MUpdateOrInsertWith _ _ _, VUpdateOr v => Some (RVal v)
    | MCompute _ _, VCompute c => Some (RCompute c)
    | MRemove _, VRemove o => Some (ROptVal match o with Some (_, v) => Some v | None => None end)
    | MRemoveEntry _, VRemove o => Some (ROptPair o)
    | MRemoveIf _ _, VRemoveIf r => Some (RRemoveIf r)
    | MLen, VLen n => Some (RUsize n)
    | MIsEmpty, VLen n => Some (RBool (n =? 0))
    | MReserve _, _ | MClear, _ | MRetain _, _ => Some RUnit
    | _, _ => None
    end.
  (** The key of a single-key method. *)
  Definition m_key (m : method) : option K :=
    match m with
    | MContainsKey k | MGet k | MGetKeyValue k | MInsert k _ | MTryInsert k _ | MTryInsertWith k _ | MGetOrInsert k _
    | MGetOrInsertWith k _ | MUpdate k _ | MUpdateOrInsert k _ _ | MUpdateOrInsertWith k _ _ | MCompute k _ | MRemove k
    | MRemoveEntry k | MRemoveIf k _ => Some k
    | _ => None
    end.

  (** *** The documentation.
      [doc m before after r]: called on a map with contents [before], [m] returns [r] and leaves the contents [after]. *)
  Notation contents := (K → option V).
  Definition unchanged (b a : contents) : Prop := ∀ k, a k = b k.
  Definition set_to (b a : contents) (k : K) (x : option V) : Prop := a k = x ∧ ∀ k', k' ≠ k → a k' = b k'.
  Definition doc (m : method) (b a : contents) (r : ret) : Prop :=
    match m with
    | MContainsKey k => unchanged b a ∧ ∃ x, r = RBool x ∧ (x = true ↔ ∃ v, b k = Some v)
    | MGet k => unchanged b a ∧ r = ROptVal (b k)
    | MGetKeyValue k => unchanged b a ∧ match b k with Some v => r = ROptPair (Some (k, v)) | None => r = ROptPair None end
    | MInsert k v => set_to b a k (Some v) ∧ r = ROptVal (b k)
    | MTryInsert k v =>
      match b k with
      | None => set_to b a k (Some v) ∧ r = ROccupied (inl v)
      | Some c => unchanged b a ∧ r = ROccupied (inr (c, v))
      end
    | MTryInsertWith k f =>
      match b k with
      | None => set_to b a k (Some (f tt)) ∧ r = RResVal (inl (f tt))
      | Some c => unchanged b a ∧ r = RResVal (inr c)
      end
    | MGetOrInsert k v => match b k with None => set_to b a k (Some v) ∧ r = RVal v | Some c => unchanged b a ∧ r = RVal c end
    | MGetOrInsertWith k f => match b k with None => set_to b a k (Some (f tt)) ∧ r = RVal (f tt) | Some c => unchanged b a ∧ r = RVal c end
    | MUpdate k g => match b k with None => unchanged b a ∧ r = ROptVal None | Some c => set_to b a k (Some (g c)) ∧ r = ROptVal (Some (g c)) end
    | MUpdateOrInsert k g v =>
      match b k with None => set_to b a k (Some v) ∧ r = RVal v | Some c => set_to b a k (Some (g c)) ∧ r = RVal (g c) end
    | MUpdateOrInsertWith k g f =>
      match b k with None => set_to b a k (Some (f tt)) ∧ r = RVal (f tt) | Some c => set_to b a k (Some (g c)) ∧ r = RVal (g c) end
    | MCompute k f =>
      match b k with
      | None =>
        match f None with
        | OpInsert v => set_to b a k (Some v) ∧ r = RCompute (VInserted (k, v))
        | OpRemove => False (* documented: panics *)
        | OpPanic => False (* the closure panics *)
        | OpAbort => unchanged b a ∧ r = RCompute (VAborted None)
        end
      | Some c =>
        match f (Some (k, c)) with
        | OpInsert v => set_to b a k (Some v) ∧ r = RCompute (VUpdated (k, c) (k, v))
        | OpRemove => set_to b a k None ∧ r = RCompute (VRemoved (k, c))
        | OpPanic => False
        | OpAbort => unchanged b a ∧ r = RCompute (VAborted (Some (k, c)))
        end
      end
    | MRemove k => set_to b a k None ∧ r = ROptVal (b k)
    | MRemoveEntry k => set_to b a k None ∧ match b k with Some v => r = ROptPair (Some (k, v)) | None => r = ROptPair None end
    | MRemoveIf k f =>
      match b k with
      | None => unchanged b a ∧ r = RRemoveIf (inl None)
      | Some v => if f k v then set_to b a k None ∧ r = RRemoveIf (inl (Some (k, v))) else unchanged b a ∧ r = RRemoveIf (inr (k, v))
      end
    | MLen => unchanged b a ∧ ∃ ks, NoDup ks ∧ (∀ k, k ∈ ks ↔ ∃ v, b k = Some v) ∧ r = RUsize (length ks)
    | MIsEmpty => unchanged b a ∧ ∃ x, r = RBool x ∧ (x = true ↔ ∀ k, b k = None)
    | MReserve _ => unchanged b a ∧ r = RUnit
    | MClear => (∀ k, a k = None) ∧ r = RUnit
    | MRetain f => (∀ k v, a k = Some v ↔ b k = Some v ∧ f k v = true) ∧ r = RUnit
    end.

  (** A sequence of method calls with their results, one after the other. *)
  Inductive doc_run : contents → list (method * ret) → contents → Prop :=
    | dr_nil b a : unchanged b a → doc_run b [] a
    | dr_cons b x a m r l : doc m b x r → doc_run x l a → doc_run b ((m, r) :: l) a.
End api.
Arguments method : clear implicits.
Arguments ret : clear implicits.

Section thms.
  Context {K V : Type} {Keq : EqDecision K}.
  Implicit Types (H : list (hevent K V)) (m : method K V) (r : ret K V).

  (** A completed call of the method [m] with result [r], between events [h0] and [h1] of the history. *)
  Definition m_call H (h0 h1 t id : nat) m r : Prop := ∃ v, call H h0 h1 t id (m_op m) v ∧ m_ret m v = Some r.
  (** Thread [t] calls the methods of [l] one after the other, and gets these results; it does nothing else with the map meanwhile. *)
  Inductive m_run (t : nat) H : nat → list (method K V * ret K V) → nat → Prop :=
    | mr_nil p : m_run t H p [] p
    | mr_cons p m v r q l p' : next_call t H p (m_op m) v q → m_ret m v = Some r → m_run t H q l p' → m_run t H p ((m, r) :: l) p'.

  Lemma key_op m : key_of (m_op m) = m_key m.
  Proof. by destruct m. Qed.
  (** The result of the raw operation always has the type the wrapper expects. *)
  Lemma seq_doc m k x v (b a : K → option V) : m_key m = Some k → seq_op (m_op m) (b k) = Some (x, v) → a k = x → (∀ k', k' ≠ k → a k' = b k') →
    ∃ r, m_ret m v = Some r ∧ doc m b a r.
  Proof.
    intros Ek SQ Ea Eo. assert (ST : set_to b a k x) by done. assert (UN : x = b k → unchanged b a).
    { intros -> k'. destruct (decide (k' = k)) as [->|N]; [done|by apply Eo]. }
    destruct m as [k0|k0|k0|k0 w|k0 w|k0 w|k0 w|k0 w|k0 g|k0 g w|k0 g w|k0 f|k0|k0|k0 f| | |n| |f]; try done; cbn in Ek; injection Ek as ->; cbn [m_op seq_op] in SQ;
      try (injection SQ as <- <-; cbn; eexists; split; [done|]; try (split; [by apply UN|])).
    - eexists. split; [done|]. destruct (b k); cbn; split; try done; [intros _; by eexists|by intros [? ?]].
    - by destruct (b k).
    - by destruct (b k).
    - done.
    - destruct (b k) eqn:E; injection SQ as <- <-; cbn; rewrite E; eexists; (split; [done|]); split; try done. by apply UN.
    - destruct (b k) eqn:E; injection SQ as <- <-; cbn; rewrite E; eexists; (split; [done|]); split; try done. by apply UN.
    - destruct (b k) eqn:E; injection SQ as <- <-; cbn; rewrite E; eexists; (split; [done|]); split; try done. by apply UN.
    - destruct (b k) eqn:E; injection SQ as <- <-; cbn; rewrite E; eexists; (split; [done|]); split; try done. by apply UN.
    - destruct (b k) eqn:E; injection SQ as <- <-; cbn; rewrite E; eexists; (split; [done|]); split; try done. by apply UN.
    - destruct (b k) eqn:E; injection SQ as <- <-; cbn; rewrite E; eexists; (split; [done|]); split; try done.
    - destruct (b k) eqn:E; injection SQ as <- <-; cbn; rewrite E; eexists; (split; [done|]); split; try done.
    - destruct (b k) as [c|] eqn:E; cbn in SQ; cbn.
      + destruct (f (Some (k, c))) eqn:F; [..|done]; injection SQ as <- <-; rewrite E, F; eexists; (split; [done|]); split; try done. by apply UN.
      + destruct (f None) eqn:F; [injection SQ as <- <-|done|injection SQ as <- <-|done]; rewrite E; eexists; (split; [done|]); split; try done. by apply UN.
    - split; [done|]. by destruct (b k).
    - split; [done|]. by destruct (b k).
    - destruct (b k) as [c|] eqn:E; [destruct (f k c) eqn:F|]; injection SQ as <- <-; cbn; rewrite E; try rewrite F; eexists; (split; [done|]); split; try done; by apply UN.
  Qed.

  (** C45 (concurrent): whatever other threads do, a completed call of a single-key method takes effect at one moment between its
      invocation and its response, exactly as documented for the contents of the map at that moment. *)
  Theorem C45_methods_atomic H : map_history H → ∃ S cut, explains H S cut ∧
    ∀ h0 h1 t id m v, call H h0 h1 t id (m_op m) v → m_key m ≠ None →
      ∃ n r, cut (h0 + 1) ≤ n ∧ n < cut (h1 + 1) ∧ m_ret m v = Some r ∧ doc m (sval S n) (sval S (n + 1)) r.
  Proof.
    intros A. destruct (map_explained _ A) as (W & T & S & c & X). exists S, c. split; [done|]. intros h0 h1 t id m v C N.
    destruct (m_key m) as [k|] eqn:Ek; [|done].
    destruct (call_act H S c W (proj1 X) _ _ _ _ _ _ k C ltac:(by rewrite key_op)) as (n & x & _ & L1 & L2 & SQ & E1 & E2).
    destruct (seq_doc m k x v (sval S n) (sval S (n + 1)) Ek SQ E1 E2) as (r & Er & D). by exists n, r.
  Qed.

  (** A sweep made alone. *)
  Lemma next_sweep t H S cut (WF : wf_hist H) (EXP : explains H S cut) p o v q : (o = OClear ∨ ∃ f, o = ORetain f) → qat H p → mine t H p q → next_call t H p o v q →
    ∀ k, at_ S cut q k = match at_ S cut p k with Some x => if keeps o k x then Some x else None | None => None end.
  Proof.
    intros O Q M N k. pose proof EXP as (L & SW & _). destruct (next_only t H S cut WF EXP _ _ _ _ Q M N) as (h0 & h1 & id & Lp & Lt & -> & C & _ & X & _).
    pose proof (l_mono _ _ _ L p (h0 + 1) ltac:(lia)) as Mp. destruct C as (r & E0 & E1).
    destruct (SW h0 h1 t id o r v E0 E1 O k) as (n & N1 & N2 & N3).
    assert (STEP : ∀ mm, cut p ≤ mm → mm < cut (h1 + 1) → sval S (mm + 1) k = sval S mm k ∨ (sval S (mm + 1) k = None ∧ ∃ y, sval S mm k = Some y ∧ keeps o k y = false)).
    { intros mm A B. pose proof (l_bound _ _ _ L (h1 + 1)). destruct (lookup_lt_is_Some_2 S mm ltac:(lia)) as [a E]. destruct (X mm a E A B) as [_ Be].
      pose proof (l_legal _ _ _ L mm a E) as LL. rewrite (sval_S S mm a E). destruct a as [id' o' r'|id' k' v']; cbn in Be, LL |- *.
      - subst o'. destruct LL as (k2 & x & Ek & _). by destruct O as [->|[f ->]].
      - unfold supd. case_decide as D; [|by left]. subst k'. right. split; [done|]. exists v'. split; [done|].
        destruct Be as [->|(f & -> & F)]; [done|exact F]. }
    assert (A1 : ∀ mm, cut p ≤ mm → mm ≤ n → sval S mm k = at_ S cut p k ∨ (sval S mm k = None ∧ ∃ y, at_ S cut p k = Some y ∧ keeps o k y = false)).
    { intros mm Lm. induction Lm as [|mm Lm IH]; intros Ln; [by left|]. destruct (IH ltac:(lia)) as [I|[I1 I2]];
        (destruct (STEP mm Lm ltac:(lia)) as [J|[J1 (y & J2 & J3)]]; rewrite Nat.add_1_r in *).
      - left. by rewrite J.
      - right. split; [done|]. exists y. by rewrite <- I.
      - right. split; [by rewrite J|done].
      - congruence. }
    assert (A2 : ∀ mm, n ≤ mm → mm ≤ cut (h1 + 1) → sval S mm k = sval S n k).
    { intros mm Lm. induction Lm as [|mm Lm IH]; intros Ln; [done|]. specialize (IH ltac:(lia)).
      destruct (STEP mm ltac:(lia) ltac:(lia)) as [J|[J1 (y & J2 & J3)]]; rewrite Nat.add_1_r in *; [by rewrite J|].
      rewrite <- IH, J2 in N3. congruence. }
    unfold at_ at 1. rewrite (A2 (cut (h1 + 1))) by lia. destruct (A1 n ltac:(lia) ltac:(lia)) as [I|[I1 (y & I2 & I3)]].
    - rewrite <- I. destruct (sval S n k); [by rewrite N3|done].
    - by rewrite I1, I2, I3.
  Qed.

  (** C45 (alone): a thread that has the map for itself can use it as an ordinary sequential map: every method, including [len], [is_empty],
      [reserve], [clear] and [retain], does exactly what its documentation says to the contents left by the previous one. *)
  Theorem C45_methods_sequential H : map_history H → ∃ S cut, explains H S cut ∧
    ∀ t p l p', m_run t H p l p' → alone t H p p' → doc_run (sval S (cut p)) l (sval S (cut p')).
  Proof.
    intros A. destruct (map_explained _ A) as (W & T & S & c & X). exists S, c. split; [done|].
    assert (LE : ∀ t p l p', m_run t H p l p' → p ≤ p').
    { intros t p l p' R. induction R as [|p m v r q l p' (h0 & h1 & id & ? & C & -> & _) _ _ IH]; [done|].
      pose proof (call_lt _ W _ _ _ _ _ _ C). lia. }
    intros t p l p' R AL. pose proof (alone_qat t H p p' (LE _ _ _ _ R) AL) as Q. pose proof (alone_mine t H W p p' AL) as M. clear AL.
    induction R as [p|p m v r q l p' N Er R IH]; [by constructor|].
    pose proof (LE _ _ _ _ R) as Lq. pose proof (mine_sub t H p p' p q M ltac:(done) Lq) as Mq.
    destruct (next_qat t H W p _ _ q Q Mq N) as [Qq Lpq].
    econstructor; [|apply IH; [done|by eapply mine_sub; [exact M|lia|done]]]. clear IH R.
    assert (TY : match m_op m with OLen => ∃ n, v = VLen n | _ => True end).
    { destruct N as (h0 & h1 & id & _ & (r' & _ & E1) & _). pose proof (T _ _ _ _ _ _ E1) as Y. by destruct (m_op m). }
    destruct (m_key m) as [k|] eqn:Ek.
    - destruct (next_key t H S c W X p _ v q k ltac:(by rewrite key_op) Q Mq N) as (x & SQ & U).
      destruct (seq_doc m k x v (at_ S c p) (at_ S c q) Ek SQ) as (r' & Er' & D).
      + rewrite U. unfold supd. by rewrite decide_True.
      + intros k' Nk. rewrite U. unfold supd. by rewrite decide_False.
      + rewrite Er in Er'. by injection Er' as <-.
    - destruct m as [k0|k0|k0|k0 w|k0 w|k0 w|k0 w|k0 w|k0 g|k0 g w|k0 g w|k0 f|k0|k0|k0 f| | |n| |f]; try done; cbn [m_op] in N, TY.
      + destruct TY as [n ->]. injection Er as <-. pose proof (next_silent_at t H S c W X p OLen _ q I Q Mq N) as U.
        destruct (next_len t H S c W X p n q Q Mq N) as (ks & K1 & K2 & <-). split; [exact U|]. exists ks. split; [done|]. split; [|done].
        intros k. rewrite K2. unfold at_. destruct (sval S (c p) k); split; try done; [intros _; by eexists|by intros [? ?]].
      + destruct TY as [n ->]. injection Er as <-. pose proof (next_silent_at t H S c W X p OLen _ q I Q Mq N) as U.
        destruct (next_len t H S c W X p n q Q Mq N) as (ks & K1 & K2 & <-). split; [exact U|]. eexists. split; [done|].
        rewrite Nat.eqb_eq. split.
        * intros E k. destruct ks; [|done]. unfold at_ in K2. destruct (sval S (c p) k) eqn:E'; [|done]. exfalso. apply (not_elem_of_nil k), K2. by rewrite E'.
        * intros E. destruct ks as [|k ks]; [done|]. exfalso. apply (proj1 (K2 k) ltac:(left)). apply E.
      + injection Er as <-. split; [|done]. exact (next_silent_at t H S c W X p (OReserve n) _ q I Q Mq N).
      + injection Er as <-. split; [|done]. intros k. pose proof (next_sweep t H S c W X p _ v q (or_introl eq_refl) Q Mq N k) as U.
        unfold at_ in U. rewrite U. by destruct (sval S (c p) k).
      + injection Er as <-. split; [|done]. intros k y. pose proof (next_sweep t H S c W X p _ v q (or_intror (ex_intro _ f eq_refl)) Q Mq N k) as U.
        unfold at_ in U. rewrite U. cbn [keeps]. destruct (sval S (c p) k) as [z|]; [|split; [done|by intros [? _]]].
        destruct (f k z) eqn:F; split; try done; try (by intros [[= ->] ?]; congruence); intros [= ->]; done.
  Qed.
End thms.

(** ** keys() and values(), src/map.rs:1013-1075, 1609-1658: iterators that keep one half of each pair. *)
Section kv.
  Context {K V : Type} {Keq : EqDecision K}.
  Definition c_keys (t : nat) (Hs : nat → list (hevent K V)) (a j : nat) : cl (list K) :=
    c_iterate t Hs a j (λ l k _, cret (inl (l ++ [k]))) [].
  Definition c_values (t : nat) (Hs : nat → list (hevent K V)) (a j : nat) : cl (list V) :=
    c_iterate t Hs a j (λ l _ v, cret (inl (l ++ [v]))) [].
  (** On a map nobody else is using, [keys] gives every key of the map exactly once, and [values] gives, for some enumeration of the
      keys without repetition, their values; the map is unchanged. *)
  Theorem C45_keys_values (H : list (hevent K V)) : map_history H → ∃ S cut, explains H S cut ∧
    (∀ t j p l p', c_keys t (λ _, H) 0 j p l p' → alone t H (p 0) (p' 0) → j = n_iters t H (p 0) →
       NoDup l ∧ (∀ k, k ∈ l ↔ ∃ v, sval S (cut (p 0)) k = Some v) ∧ ∀ k, sval S (cut (p' 0)) k = sval S (cut (p 0)) k) ∧
    (∀ t j p l p', c_values t (λ _, H) 0 j p l p' → alone t H (p 0) (p' 0) → j = n_iters t H (p 0) →
       (∃ ks, NoDup ks ∧ (∀ k, k ∈ ks ↔ ∃ v, sval S (cut (p 0)) k = Some v) ∧ Forall2 (λ k v, sval S (cut (p 0)) k = Some v) ks l) ∧
       ∀ k, sval S (cut (p' 0)) k = sval S (cut (p 0)) k).
  Proof.
    intros A. destruct (map_explained _ A) as (W & T & S & c & X). exists S, c. split; [done|].
    assert (KS : ∀ (l : list (K * V)) m, enumerates l m → ∀ k, k ∈ l.*1 ↔ ∃ v, m k = Some v).
    { intros l m [N E] k. rewrite elem_of_list_fmap. split.
      - intros ([k' v] & -> & I). exists v. by apply E.
      - intros [v I]. exists (k, v). split; [done|by apply E]. }
    split; intros t j p l p' R AA Ej.
    - destruct (iterate_ok t (λ _, H) (λ _, S) (λ _, c) (λ _, W) (λ _, X) (λ _, T) (λ s l _, s = l.*1) (λ _ _ _, False) 0 j _ [] p l p' R) as (Le & _ & RR).
      + intros l0 s k v q rr q2 -> [-> Eq]. rewrite Eq, fmap_app. done.
      + done.
      + done.
      + destruct RR as [l' [(-> & EN & Q' & EA')|(HI & _)]]; [by eapply alone_qat|done|by apply alone_mine| |done].
        split; [apply EN|]. split; [by apply KS|done].
    - destruct (iterate_ok t (λ _, H) (λ _, S) (λ _, c) (λ _, W) (λ _, X) (λ _, T) (λ s l _, s = l.*2) (λ _ _ _, False) 0 j _ [] p l p' R) as (Le & _ & RR).
      + intros l0 s k v q rr q2 -> [-> Eq]. rewrite Eq, fmap_app. done.
      + done.
      + done.
      + destruct RR as [l' [(-> & EN & Q' & EA')|(HI & _)]]; [by eapply alone_qat|done|by apply alone_mine| |done].
        split; [|done]. exists (l'.*1). split; [apply EN|]. split; [by apply KS|].
        apply Forall2_fmap_l, Forall2_fmap_r. apply Forall_Forall2_diag, Forall_forall. intros [k v] I. apply elem_of_list_In in I. exact (proj1 (proj2 EN k v) I).
  Qed.
End kv.
