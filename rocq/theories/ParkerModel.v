(** C17: the thread parker of src/raw/utils/parker.rs, on its own: any number of threads, each making any sequence of
    [park] and release+[unpark] calls on any keys of one parker, in any interleaving.
    A key is the address of an atomic; [released k] says that the park condition of [k] is false (the COPIED bit of the
    entry is set, mod.rs:2556; the status is no longer PENDING, mod.rs:2119 and 2283). Once released, a key stays
    released, as in the map: both conditions are set once and never reset. *)
From stdpp Require Import base list option numbers.
Local Open Scope nat_scope.

Inductive task := Park (k : nat) | Wake (k : nat).   (* Wake k: make the condition of k false (SeqCst store), then unpark(k) *)

(** Where a thread is, parker.rs line numbers:
    [W2 k] before 47 (announced, line 44); [W3 k id] before 61; [W4 k id] before 63 (condition already false);
    [W5] before 72; [W6 k id] before 80 ([thread::park]); [W7 k id] before 82; [W8 k] before 94;
    [U1 k] before 112 (the condition has been released); [U2 k] before 117; [U3 l] before 124; [U4 l] lines 126-128. *)
Inductive ppc :=
  | Idle | W1 (k : nat) | W2 (k : nat) | W3 (k id : nat) | W4 (k id : nat) | W5 (k : nat) | W6 (k id : nat) | W7 (k id : nat) | W8 (k : nat)
  | U1 (k : nat) | U2 (k : nat) | U3 (l : list nat) | U4 (l : list nat).
Record thr := Thr { todo : list task; at_ : ppc }.

(** [pending] (an AtomicU64; an integer here, so that an underflow would show), [count] and the registrations
    (key, id, thread) of State, parker.rs:17-26; the released keys; the thread::park tokens. *)
Record pst := Pst { pending : Z; count : nat; regs : list (nat * nat * nat); released : list nat; tokens : list nat }.

Definition is_reg (k id : nat) (s : pst) : bool := existsb (λ r, (r.1.1 =? k) && (r.1.2 =? id)) (regs s).

(** One atomic step of thread [i]: [None] = it cannot step (blocked in thread::park, or finished). *)
Definition pstep (i : nat) (s : pst) (t : thr) : option (pst * thr) :=
  let '(Pst pe co rg re tk) := s in
  let go s' p := Some (s', Thr (todo t) p) in
  match at_ t with
  | Idle =>
    match todo t with
    | [] => None
    | Park k :: td => Some (s, Thr td (W1 k))
    | Wake k :: td => Some (Pst pe co rg (k :: re) tk, Thr td (U1 k))
    end
  | W1 k => go (Pst (pe + 1) co rg re tk) (W2 k)                                                   (* 44 *)
  | W2 k => go (Pst pe (S co) ((k, S co, i) :: rg) re tk) (W3 k (S co))                            (* 47-55 *)
  | W3 k id => go s (if bool_decide (k ∈ re) then W4 k id else W6 k id)                            (* 61 *)
  | W4 k id =>                                                                                     (* 63-69 *)
    go (Pst pe co (List.filter (λ r, negb ((r.1.1 =? k) && (r.1.2 =? id))) rg) re tk) (if is_reg k id s then W5 k else Idle)
  | W5 k => go (Pst (pe - 1) co rg re tk) Idle                                                     (* 71-75 *)
  | W6 k id =>                                                                                     (* 80: blocks without a token *)
    if bool_decide (i ∈ tk) then go (Pst pe co rg re (List.filter (λ j, negb (j =? i)) tk)) (W7 k id) else None
  | W7 k id => go s (if is_reg k id s then W6 k id else W8 k)                                      (* 82-88 *)
  | W8 k => go s (if bool_decide (k ∈ re) then Idle else W1 k)                                     (* 94 *)
  | U1 k => go s (if (pe =? 0)%Z then Idle else U2 k)                                              (* 112 *)
  | U2 k =>                                                                                        (* 117-123 *)
    let mine := map snd (List.filter (λ r, r.1.1 =? k) rg) in
    go (Pst pe co (List.filter (λ r, negb (r.1.1 =? k)) rg) re tk) (match mine with [] => Idle | _ => U3 mine end)
  | U3 l => go (Pst (pe - Z.of_nat (length l)) co rg re tk) (U4 l)                                 (* 124 *)
  | U4 [] => go s Idle
  | U4 (j :: l) => go (Pst pe co rg re (j :: tk)) (U4 l)                                           (* 126-128 *)
  end.

(** Schedules: [inl i] thread [i] steps (if it can); [inr i] thread [i] gets a spurious token ([thread::park] may return
    spuriously, and other code may have unparked the thread). *)
Fixpoint prun (s : pst) (ts : list thr) (sched : list (nat + nat)) : pst * list thr :=
  match sched with
  | [] => (s, ts)
  | inr i :: sched => prun (Pst (pending s) (count s) (regs s) (released s) (i :: tokens s)) ts sched
  | inl i :: sched =>
    match ts !! i with
    | None => prun s ts sched
    | Some t => match pstep i s t with Some (s', t') => prun s' (<[i := t']> ts) sched | None => prun s ts sched end
    end
  end.
Definition pinit : pst := Pst 0 0 [] [] [].
Definition start (tasks : list (list task)) : list thr := map (λ l, Thr l Idle) tasks.

(** ** Proof *)
Definition weight (p : ppc) : Z := match p with W2 _ | W5 _ => 1 | U3 l => Z.of_nat (length l) | _ => 0 end.
Fixpoint wsum (ts : list thr) : Z := match ts with [] => 0 | t :: ts => weight (at_ t) + wsum ts end.
(** The registration a thread is waiting with. *)
Definition waits (p : ppc) : option (nat * nat) := match p with W3 k id | W4 k id | W6 k id | W7 k id => Some (k, id) | _ => None end.

Record pinv (s : pst) (ts : list thr) : Prop := PInv {
  v_pend : pending s = (Z.of_nat (length (regs s)) + wsum ts)%Z;
  v_reg : ∀ k id i, (k, id, i) ∈ regs s → id ≤ count s ∧ ∃ t, ts !! i = Some t ∧ waits (at_ t) = Some (k, id);
  v_nd : NoDup (regs s);
  v_id : ∀ i j t u k k' id, ts !! i = Some t → ts !! j = Some u → waits (at_ t) = Some (k, id) → waits (at_ u) = Some (k', id) → i = j;
  v_cnt : ∀ i t k id, ts !! i = Some t → waits (at_ t) = Some (k, id) → id ≤ count s;
  v_u : ∀ j u k, ts !! j = Some u → at_ u = U1 k ∨ at_ u = U2 k → k ∈ released s;
  v_w4 : ∀ i t k id, ts !! i = Some t → at_ t = W4 k id → k ∈ released s;
  v_w3 : ∀ i t k id, ts !! i = Some t → at_ t = W3 k id → (k, id, i) ∈ regs s ∨ k ∈ released s;
  (** asleep, still registered, and the key released: somebody is about to take the registrations of the key *)
  v_wake : ∀ i t k id, ts !! i = Some t → at_ t = W6 k id ∨ at_ t = W7 k id → (k, id, i) ∈ regs s → k ∈ released s →
     ∃ j u, ts !! j = Some u ∧ (at_ u = U1 k ∨ at_ u = U2 k);
  (** asleep and no longer registered: a token is there, or on its way *)
  v_tok : ∀ i t k id, ts !! i = Some t → at_ t = W6 k id → (k, id, i) ∉ regs s →
     i ∈ tokens s ∨ ∃ j u l, ts !! j = Some u ∧ (at_ u = U3 l ∨ at_ u = U4 l) ∧ i ∈ l }.

Lemma ins_cases (i : nat) (t' : thr) (ts : list thr) (j : nat) u : <[i := t']> ts !! j = Some u → (j = i ∧ u = t') ∨ (j ≠ i ∧ ts !! j = Some u).
Proof.
  intros E. destruct (decide (j = i)) as [->|N]; [left|right].
  - split; [done|]. assert (i < length ts) by (apply lookup_lt_Some in E; by rewrite insert_length in E). rewrite list_lookup_insert in E by done. congruence.
  - by rewrite list_lookup_insert_ne in E.
Qed.
Lemma wsum_insert i t t' ts : ts !! i = Some t → (wsum (<[i := t']> ts) = wsum ts + weight (at_ t') - weight (at_ t))%Z.
Proof.
  revert i. induction ts as [|u ts IH]; intros [|i] E; try done.
  - injection E as ->. change (<[0 := t']> (t :: ts)) with (t' :: ts). cbn [wsum]. lia.
  - specialize (IH i E). change (<[S i := t']> (u :: ts)) with (u :: <[i := t']> ts). cbn [wsum]. lia.
Qed.
Lemma weight_nn p : (0 ≤ weight p)%Z. Proof. destruct p; cbn; lia. Qed.
Lemma wsum_nn ts : (0 ≤ wsum ts)%Z. Proof. induction ts as [|t ts IH]; cbn; [lia|]. pose proof (weight_nn (at_ t)). lia. Qed.
Lemma is_reg_spec k id s : is_reg k id s = true ↔ ∃ i, (k, id, i) ∈ regs s.
Proof.
  unfold is_reg. rewrite existsb_exists. split.
  - intros ([[a b] i] & H & E). cbn in E. apply andb_true_iff in E as [->%Nat.eqb_eq ->%Nat.eqb_eq]. exists i. by apply elem_of_list_In.
  - intros [i H]. exists (k, id, i). split; [by apply elem_of_list_In|]. cbn. by rewrite !Nat.eqb_refl.
Qed.
Lemma elem_filter {A} (f : A → bool) x l : x ∈ List.filter f l ↔ x ∈ l ∧ f x = true.
Proof. rewrite !elem_of_list_In, filter_In. done. Qed.
Lemma nodup_filter {A} (f : A → bool) (l : list A) : NoDup l → NoDup (List.filter f l).
Proof. rewrite !NoDup_ListNoDup. apply List.NoDup_filter. Qed.
Lemma len_filter_split {A} (f : A → bool) (l : list A) : length l = length (List.filter f l) + length (List.filter (λ x, negb (f x)) l).
Proof. induction l as [|x l IH]; [done|]. cbn. destruct (f x); cbn; lia. Qed.

Local Ltac uu := let j := fresh "j" in let A := fresh "A" in let X := fresh "X" in let Y := fresh "Y" in intros j ? ? [[-> ->]|[X Y]]%ins_cases A;
  [ cbn [at_] in A;
    repeat match type of A with context [bool_decide ?P] => destruct (bool_decide P) | context [(?a =? ?b)%Z] => destruct (a =? b)%Z | context [if is_reg ?a ?b ?c then _ else _] => destruct (is_reg a b c) end;
    destruct A as [A|A]; first [discriminate | injection A as <-; first [apply elem_of_list_here | match goal with V : ∀ (j : nat) (u : thr) (k : nat), _ → at_ u = U1 k ∨ at_ u = U2 k → _, E : _ !! _ = Some _ |- _ => refine (V _ _ _ E _); auto end]]
  | match goal with V : ∀ (j : nat) (u : thr) (k : nat), _ → at_ u = U1 k ∨ at_ u = U2 k → _ |- _ => first [exact (V _ _ _ ltac:(eassumption) A) | apply elem_of_list_further; exact (V _ _ _ ltac:(eassumption) A)] end ].
Lemma pstep_ok i s ts t s' t' : pinv s ts → ts !! i = Some t → pstep i s t = Some (s', t') → pinv s' (<[i := t']> ts).
Proof.
  intros I Ei E. assert (Li : i < length ts) by by eapply lookup_lt_Some.
  pose proof (wsum_insert i t t' ts Ei) as WS.
  destruct I as [VP VR VN VI VC VU V4 V3 VW VT].
  assert (OTH : ∀ j u, j ≠ i → <[i:=t']> ts !! j = Some u ↔ ts !! j = Some u) by (intros j u N; by rewrite list_lookup_insert_ne).
  assert (SELF : <[i:=t']> ts !! i = Some t') by by apply list_lookup_insert.
  (* the witnesses of v_wake and v_tok in other threads survive *)
  assert (KW : ∀ k, (∃ j u, ts !! j = Some u ∧ (at_ u = U1 k ∨ at_ u = U2 k)) → (at_ t = U1 k ∨ at_ t = U2 k → at_ t' = U1 k ∨ at_ t' = U2 k) →
     ∃ j u, <[i:=t']> ts !! j = Some u ∧ (at_ u = U1 k ∨ at_ u = U2 k)).
  { intros k (j & u & Ej & Eu) H. destruct (decide (j = i)) as [->|N]; [exists i, t'|exists j, u; by rewrite OTH]. split; [done|]. rewrite Ei in Ej. injection Ej as <-. auto. }
  assert (KT : ∀ (P : list nat → Prop), (∃ j u l, ts !! j = Some u ∧ (at_ u = U3 l ∨ at_ u = U4 l) ∧ P l) →
     (∀ l, at_ t = U3 l ∨ at_ t = U4 l → P l → ∃ l', (at_ t' = U3 l' ∨ at_ t' = U4 l') ∧ P l') →
     ∃ j u l, <[i:=t']> ts !! j = Some u ∧ (at_ u = U3 l ∨ at_ u = U4 l) ∧ P l).
  { intros P (j & u & l & Ej & Eu & Pl) H. destruct (decide (j = i)) as [->|N].
    - rewrite Ei in Ej. injection Ej as <-. destruct (H l Eu Pl) as (l' & A & B). by exists i, t', l'.
    - exists j, u, l. by rewrite OTH. }
  destruct s as [pe co rg re tk]. cbn [pending count regs released tokens] in *.
  destruct t as [td p]. cbn [at_] in *. destruct p as [|k|k|k id|k id|k|k id|k id|k|k|k|l|l]; cbn [pstep at_ todo] in E.
  - (* Idle *)
    destruct td as [|[k|k] td]; [done| |]; injection E as <- <-; cbn [at_ weight] in *.
    + split; cbn [pending count regs released tokens]; rewrite ?WS; cbn [at_ weight]; try lia; try done.
      * intros k' id' j Hr. destruct (VR _ _ _ Hr) as (A & u & Ej & Eu). split; [done|]. destruct (decide (j = i)) as [->|N]; [rewrite Ei in Ej; by injection Ej as <-|]. exists u. by rewrite OTH.
      * intros j j' u u' k1 k2 id' [[-> ->]|[N Ej]]%ins_cases [[-> ->]|[N' Ej']]%ins_cases A B; try done. by eapply VI.
      * intros j u k1 id' [[-> ->]|[N Ej]]%ins_cases A; [done|by eapply VC].
      * uu.
      * intros j u k1 id' [[-> ->]|[N Ej]]%ins_cases A; [done|by eapply V4].
      * intros j u k1 id' [[-> ->]|[N Ej]]%ins_cases A; [done|by eapply V3].
      * intros j u k1 id' [[-> ->]|[N Ej]]%ins_cases A; [by destruct A|]. intros B C. apply KW; [by eapply VW|]. by intros [|].
      * intros j u k1 id' [[-> ->]|[N Ej]]%ins_cases A; [done|]. intros B. destruct (VT _ _ _ _ Ej A B) as [|X]; [by left|right]. apply KT; [done|]. by intros l [|].
    + split; cbn [pending count regs released tokens]; rewrite ?WS; cbn [at_ weight]; try lia; try done.
      * intros k' id' j Hr. destruct (VR _ _ _ Hr) as (A & u & Ej & Eu). split; [done|]. destruct (decide (j = i)) as [->|N]; [rewrite Ei in Ej; by injection Ej as <-|]. exists u. by rewrite OTH.
      * intros j j' u u' k1 k2 id' [[-> ->]|[N Ej]]%ins_cases [[-> ->]|[N' Ej']]%ins_cases A B; try done. by eapply VI.
      * intros j u k1 id' [[-> ->]|[N Ej]]%ins_cases A; [done|by eapply VC].
      * uu.
      * intros j u k1 id' [[-> ->]|[N Ej]]%ins_cases A; [done|]. apply elem_of_list_further. by eapply V4.
      * intros j u k1 id' [[-> ->]|[N Ej]]%ins_cases A; [done|]. destruct (V3 _ _ _ _ Ej A); [by left|right]. by apply elem_of_list_further.
      * intros j u k1 id' [[-> ->]|[N Ej]]%ins_cases A; [by destruct A|]. intros B [->|C]%elem_of_cons.
        -- exists i, (Thr td (U1 k)). split; [done|by left].
        -- apply KW; [by eapply VW|]. by intros [|].
      * intros j u k1 id' [[-> ->]|[N Ej]]%ins_cases A; [done|]. intros B. destruct (VT _ _ _ _ Ej A B) as [|X]; [by left|right]. apply KT; [done|]. by intros l [|].
  - (* W1 *) injection E as <- <-; cbn [at_ weight] in *.
    split; cbn [pending count regs released tokens]; rewrite ?WS; cbn [at_ weight]; try lia; try done.
    + intros k' id' j Hr. destruct (VR _ _ _ Hr) as (A & u & Ej & Eu). split; [done|]. destruct (decide (j = i)) as [->|N]; [rewrite Ei in Ej; by injection Ej as <-|]. exists u. by rewrite OTH.
    + intros j j' u u' k1 k2 id' [[-> ->]|[N Ej]]%ins_cases [[-> ->]|[N' Ej']]%ins_cases A B; try done. by eapply VI.
    + intros j u k1 id' [[-> ->]|[N Ej]]%ins_cases A; [done|by eapply VC].
    + uu.
    + intros j u k1 id' [[-> ->]|[N Ej]]%ins_cases A; [done|by eapply V4].
    + intros j u k1 id' [[-> ->]|[N Ej]]%ins_cases A; [done|by eapply V3].
    + intros j u k1 id' [[-> ->]|[N Ej]]%ins_cases A; [by destruct A|]. intros B C. apply KW; [by eapply VW|]. by intros [|].
    + intros j u k1 id' [[-> ->]|[N Ej]]%ins_cases A; [done|]. intros B. destruct (VT _ _ _ _ Ej A B) as [|X]; [by left|right]. apply KT; [done|]. by intros l [|].
  - (* W2: register *) injection E as <- <-; cbn [at_ weight] in *.
    assert (FR : ∀ k' i', (k', S co, i') ∉ rg) by (intros k' i' Hr; apply VR in Hr as [Hr _]; lia).
    split; cbn [pending count regs released tokens]; rewrite ?WS; cbn [at_ weight length]; try lia.
    + intros k' id' j [[= -> -> ->]|Hr]%elem_of_cons; [split; [lia|]; by eexists|]. destruct (VR _ _ _ Hr) as (A & u & Ej & Eu). split; [lia|].
      destruct (decide (j = i)) as [->|N]; [rewrite Ei in Ej; by injection Ej as <-|]. exists u. by rewrite OTH.
    + apply list.NoDup_cons. split; [apply FR|done].
    + intros j j' u u' k1 k2 id' [[-> ->]|[N Ej]]%ins_cases [[-> ->]|[N' Ej']]%ins_cases A B; [done| | |by eapply VI].
      * cbn in A. injection A as <- <-. pose proof (VC _ _ _ _ Ej' B). lia.
      * cbn in B. injection B as <- <-. pose proof (VC _ _ _ _ Ej A). lia.
    + intros j u k1 id' [[-> ->]|[N Ej]]%ins_cases A; [cbn in A; injection A as <- <-; lia|]. pose proof (VC _ _ _ _ Ej A). lia.
    + uu.
    + intros j u k1 id' [[-> ->]|[N Ej]]%ins_cases A; [done|by eapply V4].
    + intros j u k1 id' [[-> ->]|[N Ej]]%ins_cases A; [cbn in A; injection A as <- <-; left; apply elem_of_list_here|]. destruct (V3 _ _ _ _ Ej A); [left; by apply elem_of_list_further|by right].
    + intros j u k1 id' [[-> ->]|[N Ej]]%ins_cases A; [by destruct A|]. intros [[= -> -> ->]|B]%elem_of_cons C; [done|]. apply KW; [by eapply VW|]. by intros [|].
    + intros j u k1 id' [[-> ->]|[N Ej]]%ins_cases A; [done|]. intros B. destruct (VT _ _ _ _ Ej A) as [|X]; [by intros ?; apply B; apply elem_of_list_further|by left|right]. apply KT; [done|]. by intros l [|].
  - (* W3: check *) injection E as <- <-; cbn [at_ weight] in *.
    assert (W : waits (if bool_decide (k ∈ re) then W4 k id else W6 k id) = Some (k, id)) by by destruct (bool_decide _).
    assert (WG : weight (if bool_decide (k ∈ re) then W4 k id else W6 k id) = 0%Z) by by destruct (bool_decide _).
    split; cbn [pending count regs released tokens]; rewrite ?WS; cbn [at_]; rewrite ?WG; try lia; try done.
    + intros k' id' j Hr. destruct (VR _ _ _ Hr) as (A & u & Ej & Eu). split; [done|]. destruct (decide (j = i)) as [->|N].
      * rewrite Ei in Ej. injection Ej as <-. eexists. split; [done|]. cbn [at_] in *. by rewrite W.
      * exists u. by rewrite OTH.
    + intros j j' u u' k1 k2 id' [[-> ->]|[N Ej]]%ins_cases [[-> ->]|[N' Ej']]%ins_cases A B; [done| | |by eapply VI]; cbn [at_] in *.
      * rewrite W in A. exact (VI _ _ _ _ _ _ _ Ei Ej' A B).
      * rewrite W in B. exact (VI _ _ _ _ _ _ _ Ej Ei A B).
    + intros j u k1 id' [[-> ->]|[N Ej]]%ins_cases A; [|by eapply VC]. cbn [at_] in A. rewrite W in A. by eapply (VC i).
    + uu.
    + intros j u k1 id' [[-> ->]|[N Ej]]%ins_cases A; [|by eapply V4]. cbn [at_] in A. case_bool_decide; [|done]. by injection A as <- <-.
    + intros j u k1 id' [[-> ->]|[N Ej]]%ins_cases A; [|by eapply V3]. cbn [at_] in A. by case_bool_decide.
    + intros j u k1 id' [[-> ->]|[N Ej]]%ins_cases A.
      * cbn [at_] in A. case_bool_decide; [by destruct A|]. destruct A as [A|A]; [|done]. injection A as <- <-. done.
      * intros B C. apply KW; [by eapply VW|]. by intros [|].
    + intros j u k1 id' [[-> ->]|[N Ej]]%ins_cases A.
      * cbn [at_] in A. case_bool_decide; [done|]. injection A as <- <-. intros B. by destruct (V3 _ _ _ _ Ei eq_refl).
      * intros B. destruct (VT _ _ _ _ Ej A B) as [|X]; [by left|right]. apply KT; [done|]. by intros l [|].
  - (* W4: remove *) injection E as <- <-; cbn [at_ weight] in *.
    set (f := λ r : nat * nat * nat, ((r.1.1 =? k) && (r.1.2 =? id))).
    assert (Ff : ∀ k' id' j, f (k', id', j) = true ↔ k' = k ∧ id' = id).
    { intros k' id' j. unfold f. cbn. rewrite andb_true_iff, !Nat.eqb_eq. done. }
    assert (RG : ∀ k' id' j, (k', id', j) ∈ List.filter (λ r, negb (f r)) rg ↔ (k', id', j) ∈ rg ∧ ¬ (k' = k ∧ id' = id)).
    { intros k' id' j. rewrite elem_filter, negb_true_iff. split; intros [A B]; (split; [done|]).
      - intros C. apply (Ff _ _ j) in C. congruence.
      - destruct (f (k', id', j)) eqn:Ef; [|done]. by apply Ff in Ef. }
    assert (OWN : ∀ j, (k, id, j) ∈ rg → j = i).
    { intros j Hr. destruct (VR _ _ _ Hr) as (_ & u & Ej & Eu). by eapply (VI j i). }
    assert (LN : (Z.of_nat (length rg) = Z.of_nat (length (List.filter (λ r, negb (f r)) rg)) + if is_reg k id (Pst pe co rg re tk) then 1 else 0)%Z).
    { rewrite (len_filter_split f). destruct (is_reg k id _) eqn:R.
      - apply is_reg_spec in R as [j Hr]. cbn in Hr. pose proof (OWN j Hr) as ->.
        assert (P : List.filter f rg ≡ₚ [(k, id, i)]).
        { apply NoDup_Permutation; [by apply nodup_filter|apply NoDup_singleton|]. intros [[k' id'] j]. rewrite elem_filter, elem_of_list_singleton, Ff. split.
          - intros [A [-> ->]]. by rewrite (OWN j A).
          - intros [= -> -> ->]. done. }
        rewrite P. cbn. lia.
      - destruct (List.filter f rg) as [|[[k' id'] j] l] eqn:Fl; [cbn; lia|]. exfalso.
        assert (A : (k', id', j) ∈ List.filter f rg) by (rewrite Fl; apply elem_of_list_here). apply elem_filter in A as [A [-> ->]%Ff].
        assert (is_reg k id (Pst pe co rg re tk) = true) by (apply is_reg_spec; by exists j). congruence. }
    assert (W : waits (if is_reg k id (Pst pe co rg re tk) then W5 k else Idle) = None) by by destruct (is_reg _ _ _).
    assert (WG : weight (if is_reg k id (Pst pe co rg re tk) then W5 k else Idle) = (if is_reg k id (Pst pe co rg re tk) then 1 else 0)%Z) by by destruct (is_reg _ _ _).
    assert (WN : ∀ k1 id1, (if is_reg k id (Pst pe co rg re tk) then W5 k else Idle) ≠ W3 k1 id1 ∧ (if is_reg k id (Pst pe co rg re tk) then W5 k else Idle) ≠ W4 k1 id1 ∧ (if is_reg k id (Pst pe co rg re tk) then W5 k else Idle) ≠ W6 k1 id1 ∧ (if is_reg k id (Pst pe co rg re tk) then W5 k else Idle) ≠ W7 k1 id1) by by destruct (is_reg _ _ _).
    change (List.filter (λ r : nat * nat * nat, negb ((r.1.1 =? k) && (r.1.2 =? id))) rg) with (List.filter (λ r, negb (f r)) rg).
    split; cbn [pending count regs released tokens]; rewrite ?WS; cbn [at_]; rewrite ?WG; try lia.
    + intros k' id' j [Hr NE]%RG. destruct (VR _ _ _ Hr) as (A & u & Ej & Eu). split; [done|]. destruct (decide (j = i)) as [->|N].
      * rewrite Ei in Ej. injection Ej as <-. cbn in Eu. injection Eu as <- <-. by destruct NE.
      * exists u. by rewrite OTH.
    + by apply nodup_filter.
    + intros j j' u u' k1 k2 id' [[-> ->]|[N Ej]]%ins_cases [[-> ->]|[N' Ej']]%ins_cases A B; cbn [at_] in *; [done|congruence|congruence|by eapply VI].
    + intros j u k1 id' [[-> ->]|[N Ej]]%ins_cases A; [cbn [at_] in A; congruence|by eapply VC].
    + uu.
    + intros j u k1 id' [[-> ->]|[N Ej]]%ins_cases A; [by apply WN in A|by eapply V4].
    + intros j u k1 id' [[-> ->]|[N Ej]]%ins_cases A; [by apply WN in A|]. destruct (V3 _ _ _ _ Ej A) as [B|B]; [left|by right].
      apply RG. split; [done|]. intros [-> ->]. by apply OWN in B.
    + intros j u k1 id' [[-> ->]|[N Ej]]%ins_cases A; [by destruct A as [A|A]; apply WN in A|]. intros [B _]%RG C. apply KW; [by eapply VW|]. by intros [|].
    + intros j u k1 id' [[-> ->]|[N Ej]]%ins_cases A; [by apply WN in A|]. intros B. destruct (VT _ _ _ _ Ej A) as [|X].
      * intros Hr. apply B, RG. split; [done|]. intros [-> ->]. apply OWN in Hr. done.
      * by left.
      * right. apply KT; [done|]. by intros l [|].
  - (* W5 *) injection E as <- <-; cbn [at_ weight] in *.
    split; cbn [pending count regs released tokens]; rewrite ?WS; cbn [at_ weight]; try lia; try done.
    + intros k' id' j Hr. destruct (VR _ _ _ Hr) as (A & u & Ej & Eu). split; [done|]. destruct (decide (j = i)) as [->|N]; [rewrite Ei in Ej; by injection Ej as <-|]. exists u. by rewrite OTH.
    + intros j j' u u' k1 k2 id' [[-> ->]|[N Ej]]%ins_cases [[-> ->]|[N' Ej']]%ins_cases A B; try done. by eapply VI.
    + intros j u k1 id' [[-> ->]|[N Ej]]%ins_cases A; [done|by eapply VC].
    + uu.
    + intros j u k1 id' [[-> ->]|[N Ej]]%ins_cases A; [done|by eapply V4].
    + intros j u k1 id' [[-> ->]|[N Ej]]%ins_cases A; [done|by eapply V3].
    + intros j u k1 id' [[-> ->]|[N Ej]]%ins_cases A; [by destruct A|]. intros B C. apply KW; [by eapply VW|]. by intros [|].
    + intros j u k1 id' [[-> ->]|[N Ej]]%ins_cases A; [done|]. intros B. destruct (VT _ _ _ _ Ej A B) as [|X]; [by left|right]. apply KT; [done|]. by intros l [|].
  - (* W6 *) case_bool_decide as Htk; [|done]. injection E as <- <-; cbn [at_ weight] in *.
    split; cbn [pending count regs released tokens]; rewrite ?WS; cbn [at_ weight]; try lia; try done.
    + intros k' id' j Hr. destruct (VR _ _ _ Hr) as (A & u & Ej & Eu). split; [done|]. destruct (decide (j = i)) as [->|N]; [rewrite Ei in Ej; injection Ej as <-; by eexists|]. exists u. by rewrite OTH.
    + intros j j' u u' k1 k2 id' [[-> ->]|[N Ej]]%ins_cases [[-> ->]|[N' Ej']]%ins_cases A B; [done| | |by eapply VI]; cbn [at_] in *.
      * exact (VI _ _ _ _ _ _ _ Ei Ej' A B).
      * exact (VI _ _ _ _ _ _ _ Ej Ei A B).
    + intros j u k1 id' [[-> ->]|[N Ej]]%ins_cases A; [by eapply (VC i)|by eapply VC].
    + uu.
    + intros j u k1 id' [[-> ->]|[N Ej]]%ins_cases A; [done|by eapply V4].
    + intros j u k1 id' [[-> ->]|[N Ej]]%ins_cases A; [done|by eapply V3].
    + intros j u k1 id' [[-> ->]|[N Ej]]%ins_cases A.
      * cbn in A. destruct A as [A|A]; [done|]. injection A as <- <-. intros B C. apply KW; [by eapply (VW i); [|left| |]|]. by intros [|].
      * intros B C. apply KW; [by eapply VW|]. by intros [|].
    + intros j u k1 id' [[-> ->]|[N Ej]]%ins_cases A; [done|]. intros B. destruct (VT _ _ _ _ Ej A B) as [X|X].
      * left. apply elem_filter. split; [done|]. apply negb_true_iff. by apply Nat.eqb_neq.
      * right. apply KT; [done|]. by intros l [|].
  - (* W7 *) injection E as <- <-; cbn [at_ weight] in *.
    assert (WG : weight (if is_reg k id (Pst pe co rg re tk) then W6 k id else W8 k) = 0%Z) by by destruct (is_reg _ _ _).
    assert (RI : is_reg k id (Pst pe co rg re tk) = true ↔ (k, id, i) ∈ rg).
    { rewrite is_reg_spec. cbn. split; [|by exists i]. intros [j Hr]. destruct (VR _ _ _ Hr) as (_ & u & Ej & Eu). by rewrite (VI j i _ _ _ _ _ Ej Ei Eu eq_refl) in Hr. }
    assert (W : ∀ x, waits (if is_reg k id (Pst pe co rg re tk) then W6 k id else W8 k) = Some x → Some (k, id) = Some x) by (intros x; by destruct (is_reg _ _ _)).
    split; cbn [pending count regs released tokens]; rewrite ?WS; cbn [at_]; rewrite ?WG; try lia; try done.
    + intros k' id' j Hr. destruct (VR _ _ _ Hr) as (A & u & Ej & Eu). split; [done|]. destruct (decide (j = i)) as [->|N].
      * rewrite Ei in Ej. injection Ej as <-. cbn in Eu. injection Eu as <- <-. eexists. split; [done|]. cbn [at_]. by rewrite (proj2 RI Hr).
      * exists u. by rewrite OTH.
    + intros j j' u u' k1 k2 id' [[-> ->]|[N Ej]]%ins_cases [[-> ->]|[N' Ej']]%ins_cases A B; [done| | |by eapply VI]; cbn [at_] in *.
      * exact (VI _ _ _ _ _ _ _ Ei Ej' (W _ A) B).
      * exact (VI _ _ _ _ _ _ _ Ej Ei A (W _ B)).
    + intros j u k1 id' [[-> ->]|[N Ej]]%ins_cases A; [|by eapply VC]. exact (VC i _ _ _ Ei (W _ A)).
    + uu.
    + intros j u k1 id' [[-> ->]|[N Ej]]%ins_cases A; [|by eapply V4]. cbn [at_] in A. by destruct (is_reg _ _ _).
    + intros j u k1 id' [[-> ->]|[N Ej]]%ins_cases A; [|by eapply V3]. cbn [at_] in A. by destruct (is_reg _ _ _).
    + intros j u k1 id' [[-> ->]|[N Ej]]%ins_cases A.
      * cbn [at_] in A. intros B C. apply KW; [|by intros [|]]. destruct (is_reg _ _ _); [|by destruct A]. destruct A as [A|A]; [|done]. injection A as <- <-.
        by eapply (VW i); [|right| |].
      * intros B C. apply KW; [by eapply VW|]. by intros [|].
    + intros j u k1 id' [[-> ->]|[N Ej]]%ins_cases A.
      * cbn [at_] in A. destruct (is_reg _ _ _); [|done]. injection A as <- <-. intros B. exfalso. apply B. by apply RI.
      * intros B. destruct (VT _ _ _ _ Ej A B) as [|X]; [by left|right]. apply KT; [done|]. by intros l [|].
  - (* W8 *) injection E as <- <-; cbn [at_ weight] in *.
    assert (W : waits (if bool_decide (k ∈ re) then Idle else W1 k) = None) by by destruct (bool_decide _).
    assert (WG : weight (if bool_decide (k ∈ re) then Idle else W1 k) = 0%Z) by by destruct (bool_decide _).
    assert (WN : ∀ k1 id1, (if bool_decide (k ∈ re) then Idle else W1 k) ≠ W3 k1 id1 ∧ (if bool_decide (k ∈ re) then Idle else W1 k) ≠ W4 k1 id1 ∧ (if bool_decide (k ∈ re) then Idle else W1 k) ≠ W6 k1 id1 ∧ (if bool_decide (k ∈ re) then Idle else W1 k) ≠ W7 k1 id1) by by destruct (bool_decide _).
    split; cbn [pending count regs released tokens]; rewrite ?WS; cbn [at_]; rewrite ?WG; try lia; try done.
    + intros k' id' j Hr. destruct (VR _ _ _ Hr) as (A & u & Ej & Eu). split; [done|]. destruct (decide (j = i)) as [->|N]; [rewrite Ei in Ej; by injection Ej as <-|]. exists u. by rewrite OTH.
    + intros j j' u u' k1 k2 id' [[-> ->]|[N Ej]]%ins_cases [[-> ->]|[N' Ej']]%ins_cases A B; cbn [at_] in *; [done|congruence|congruence|by eapply VI].
    + intros j u k1 id' [[-> ->]|[N Ej]]%ins_cases A; [cbn [at_] in A; congruence|by eapply VC].
    + uu.
    + intros j u k1 id' [[-> ->]|[N Ej]]%ins_cases A; [by apply WN in A|by eapply V4].
    + intros j u k1 id' [[-> ->]|[N Ej]]%ins_cases A; [by apply WN in A|by eapply V3].
    + intros j u k1 id' [[-> ->]|[N Ej]]%ins_cases A; [by destruct A as [A|A]; apply WN in A|]. intros B C. apply KW; [by eapply VW|]. by intros [|].
    + intros j u k1 id' [[-> ->]|[N Ej]]%ins_cases A; [by apply WN in A|]. intros B. destruct (VT _ _ _ _ Ej A B) as [|X]; [by left|right]. apply KT; [done|]. by intros l [|].
  - (* U1 *) injection E as <- <-; cbn [at_ weight] in *.
    assert (W : waits (if (pe =? 0)%Z then Idle else U2 k) = None) by by destruct (_ =? _)%Z.
    assert (WG : weight (if (pe =? 0)%Z then Idle else U2 k) = 0%Z) by by destruct (_ =? _)%Z.
    assert (WN : ∀ k1 id1, (if (pe =? 0)%Z then Idle else U2 k) ≠ W3 k1 id1 ∧ (if (pe =? 0)%Z then Idle else U2 k) ≠ W4 k1 id1 ∧ (if (pe =? 0)%Z then Idle else U2 k) ≠ W6 k1 id1 ∧ (if (pe =? 0)%Z then Idle else U2 k) ≠ W7 k1 id1) by by destruct (_ =? _)%Z.
    split; cbn [pending count regs released tokens]; rewrite ?WS; cbn [at_]; rewrite ?WG; try lia; try done.
    + intros k' id' j Hr. destruct (VR _ _ _ Hr) as (A & u & Ej & Eu). split; [done|]. destruct (decide (j = i)) as [->|N]; [rewrite Ei in Ej; by injection Ej as <-|]. exists u. by rewrite OTH.
    + intros j j' u u' k1 k2 id' [[-> ->]|[N Ej]]%ins_cases [[-> ->]|[N' Ej']]%ins_cases A B; cbn [at_] in *; [done|congruence|congruence|by eapply VI].
    + intros j u k1 id' [[-> ->]|[N Ej]]%ins_cases A; [cbn [at_] in A; congruence|by eapply VC].
    + uu.
    + intros j u k1 id' [[-> ->]|[N Ej]]%ins_cases A; [by apply WN in A|by eapply V4].
    + intros j u k1 id' [[-> ->]|[N Ej]]%ins_cases A; [by apply WN in A|by eapply V3].
    + intros j u k1 id' [[-> ->]|[N Ej]]%ins_cases A; [by destruct A as [A|A]; apply WN in A|]. intros B C. apply KW; [by eapply VW|]. cbn [at_].
      (* pending is not zero: there is a registration *)
      pose proof (wsum_nn ts). destruct rg as [|r rg]; [by apply elem_of_nil in B|]. cbn [length] in VP.
      destruct (Z.eqb_spec pe 0); [lia|]. intros [F|F]; [|done]. injection F as ->. by right.
    + intros j u k1 id' [[-> ->]|[N Ej]]%ins_cases A; [by apply WN in A|]. intros B. destruct (VT _ _ _ _ Ej A B) as [|X]; [by left|right]. apply KT; [done|]. by intros l [|].
  - (* U2: take *) injection E as <- <-; cbn [at_ weight] in *.
    set (f := λ r : nat * nat * nat, r.1.1 =? k) in *. set (mine := map snd (List.filter f rg)) in *.
    assert (Ff : ∀ k' id' j, f (k', id', j) = true ↔ k' = k) by (intros k' id' j; unfold f; cbn; apply Nat.eqb_eq).
    assert (RG : ∀ k' id' j, (k', id', j) ∈ List.filter (λ r, negb (f r)) rg ↔ (k', id', j) ∈ rg ∧ k' ≠ k).
    { intros k' id' j. rewrite elem_filter, negb_true_iff. split; intros [A B]; (split; [done|]).
      - intros C. apply (Ff _ id' j) in C. congruence.
      - destruct (f (k', id', j)) eqn:Ef; [|done]. by apply Ff in Ef. }
    assert (MI : ∀ id' j, (k, id', j) ∈ rg → j ∈ mine).
    { intros id' j Hr. unfold mine. apply elem_of_list_fmap. exists (k, id', j). split; [done|]. apply elem_filter. split; [done|]. by apply Ff. }
    set (p' := match mine with [] => Idle | _ => U3 mine end) in *.
    assert (W : waits p' = None) by by unfold p'; destruct mine.
    assert (WG : weight p' = Z.of_nat (length mine)) by by unfold p'; destruct mine.
    assert (WN : ∀ k1 id1, p' ≠ W3 k1 id1 ∧ p' ≠ W4 k1 id1 ∧ p' ≠ W6 k1 id1 ∧ p' ≠ W7 k1 id1) by by unfold p'; destruct mine.
    assert (LN : length rg = length mine + length (List.filter (λ r, negb (f r)) rg)) by (unfold mine; rewrite map_length; apply len_filter_split).
    change (List.filter (λ r : nat * nat * nat, negb (r.1.1 =? k)) rg) with (List.filter (λ r, negb (f r)) rg).
    split; cbn [pending count regs released tokens]; rewrite ?WS; cbn [at_]; rewrite ?WG; try lia.
    + intros k' id' j [Hr _]%RG. destruct (VR _ _ _ Hr) as (A & u & Ej & Eu). split; [done|]. destruct (decide (j = i)) as [->|N]; [rewrite Ei in Ej; by injection Ej as <-|]. exists u. by rewrite OTH.
    + by apply nodup_filter.
    + intros j j' u u' k1 k2 id' [[-> ->]|[N Ej]]%ins_cases [[-> ->]|[N' Ej']]%ins_cases A B; cbn [at_] in *; [done|congruence|congruence|by eapply VI].
    + intros j u k1 id' [[-> ->]|[N Ej]]%ins_cases A; [cbn [at_] in A; congruence|by eapply VC].
    + intros j u k1 [[-> ->]|[N Ej]]%ins_cases A; [|by eapply VU]. cbn [at_] in A. unfold p' in A. by destruct mine, A.
    + intros j u k1 id' [[-> ->]|[N Ej]]%ins_cases A; [by apply WN in A|by eapply V4].
    + intros j u k1 id' [[-> ->]|[N Ej]]%ins_cases A; [by apply WN in A|]. destruct (V3 _ _ _ _ Ej A) as [B|B]; [|by right].
      destruct (decide (k1 = k)) as [->|Nk]; [|left; by apply RG]. right. eapply (VU i); [exact Ei|]. by right.
    + intros j u k1 id' [[-> ->]|[N Ej]]%ins_cases A; [by destruct A as [A|A]; apply WN in A|]. intros [B Nk]%RG C. apply KW; [by eapply VW|].
      cbn [at_]. intros [F|F]; [done|]. injection F as <-. done.
    + intros j u k1 id' [[-> ->]|[N Ej]]%ins_cases A; [by apply WN in A|]. intros B. destruct (decide ((k1, id', j) ∈ rg)) as [Hr|Hr].
      * destruct (decide (k1 = k)) as [->|Nk]; [|exfalso; apply B; by apply RG]. right. exists i, (Thr td p'), mine. pose proof (MI _ _ Hr) as Hm.
        split; [done|]. split; [|done]. unfold p'. destruct mine; [by apply elem_of_nil in Hm|by left].
      * destruct (VT _ _ _ _ Ej A Hr) as [|X]; [by left|right]. apply KT; [done|]. by intros l [|].
  - (* U3 *) injection E as <- <-; cbn [at_ weight] in *.
    split; cbn [pending count regs released tokens]; rewrite ?WS; cbn [at_ weight]; try lia; try done.
    + intros k' id' j Hr. destruct (VR _ _ _ Hr) as (A & u & Ej & Eu). split; [done|]. destruct (decide (j = i)) as [->|N]; [rewrite Ei in Ej; by injection Ej as <-|]. exists u. by rewrite OTH.
    + intros j j' u u' k1 k2 id' [[-> ->]|[N Ej]]%ins_cases [[-> ->]|[N' Ej']]%ins_cases A B; try done. by eapply VI.
    + intros j u k1 id' [[-> ->]|[N Ej]]%ins_cases A; [done|by eapply VC].
    + uu.
    + intros j u k1 id' [[-> ->]|[N Ej]]%ins_cases A; [done|by eapply V4].
    + intros j u k1 id' [[-> ->]|[N Ej]]%ins_cases A; [done|by eapply V3].
    + intros j u k1 id' [[-> ->]|[N Ej]]%ins_cases A; [by destruct A|]. intros B C. apply KW; [by eapply VW|]. by intros [|].
    + intros j u k1 id' [[-> ->]|[N Ej]]%ins_cases A; [done|]. intros B. destruct (VT _ _ _ _ Ej A B) as [|X]; [by left|right]. apply KT; [done|].
      cbn. intros l' [F|F]; [|done]. injection F as <-. intros. exists l. auto.
  - (* U4 *) destruct l as [|j0 l]; injection E as <- <-; cbn [at_ weight] in *.
    + split; cbn [pending count regs released tokens]; rewrite ?WS; cbn [at_ weight]; try lia; try done.
      * intros k' id' j Hr. destruct (VR _ _ _ Hr) as (A & u & Ej & Eu). split; [done|]. destruct (decide (j = i)) as [->|N]; [rewrite Ei in Ej; by injection Ej as <-|]. exists u. by rewrite OTH.
      * intros j j' u u' k1 k2 id' [[-> ->]|[N Ej]]%ins_cases [[-> ->]|[N' Ej']]%ins_cases A B; try done. by eapply VI.
      * intros j u k1 id' [[-> ->]|[N Ej]]%ins_cases A; [done|by eapply VC].
      * uu.
      * intros j u k1 id' [[-> ->]|[N Ej]]%ins_cases A; [done|by eapply V4].
      * intros j u k1 id' [[-> ->]|[N Ej]]%ins_cases A; [done|by eapply V3].
      * intros j u k1 id' [[-> ->]|[N Ej]]%ins_cases A; [by destruct A|]. intros B C. apply KW; [by eapply VW|]. by intros [|].
      * intros j u k1 id' [[-> ->]|[N Ej]]%ins_cases A; [done|]. intros B. destruct (VT _ _ _ _ Ej A B) as [|X]; [by left|right]. apply KT; [done|].
        cbn. intros l' [F|F]; [done|]. injection F as <-. by intros ?%elem_of_nil.
    + split; cbn [pending count regs released tokens]; rewrite ?WS; cbn [at_ weight]; try lia; try done.
      * intros k' id' j Hr. destruct (VR _ _ _ Hr) as (A & u & Ej & Eu). split; [done|]. destruct (decide (j = i)) as [->|N]; [rewrite Ei in Ej; by injection Ej as <-|]. exists u. by rewrite OTH.
      * intros j j' u u' k1 k2 id' [[-> ->]|[N Ej]]%ins_cases [[-> ->]|[N' Ej']]%ins_cases A B; try done. by eapply VI.
      * intros j u k1 id' [[-> ->]|[N Ej]]%ins_cases A; [done|by eapply VC].
      * uu.
      * intros j u k1 id' [[-> ->]|[N Ej]]%ins_cases A; [done|by eapply V4].
      * intros j u k1 id' [[-> ->]|[N Ej]]%ins_cases A; [done|by eapply V3].
      * intros j u k1 id' [[-> ->]|[N Ej]]%ins_cases A; [by destruct A|]. intros B C. apply KW; [by eapply VW|]. by intros [|].
      * intros j u k1 id' [[-> ->]|[N Ej]]%ins_cases A; [done|]. intros B. destruct (decide (j = j0)) as [->|Nj]; [left; apply elem_of_list_here|].
        destruct (VT _ _ _ _ Ej A B) as [|X]; [left; by apply elem_of_list_further|right]. apply KT; [done|].
        cbn. intros l' [F|F]; [done|]. injection F as <-. intros [->|Hl]%elem_of_cons; [done|]. exists l. auto.
Qed.

Lemma spurious_ok s ts i : pinv s ts → pinv (Pst (pending s) (count s) (regs s) (released s) (i :: tokens s)) ts.
Proof.
  intros [VP VR VN VI VC VU V4 V3 VW VT]. split; cbn [pending count regs released tokens]; try done.
  intros j t k id Ej A B. destruct (VT j t k id Ej A B) as [X|X]; [left; by apply elem_of_list_further|by right].
Qed.
Lemma prun_ok sched : ∀ s ts, pinv s ts → pinv (prun s ts sched).1 (prun s ts sched).2.
Proof.
  induction sched as [|[i|i] sched IH]; intros s ts I; cbn [prun]; [done| |].
  - destruct (ts !! i) as [t|] eqn:Ei; [|by apply IH]. destruct (pstep i s t) as [[s' t']|] eqn:E; [|by apply IH]. apply IH. by eapply pstep_ok.
  - by apply IH, spurious_ok.
Qed.
Lemma start_idle tasks i t : start tasks !! i = Some t → at_ t = Idle.
Proof. unfold start. change (map ?f ?l) with (f <$> l). rewrite list_lookup_fmap. destruct (tasks !! i); [|done]. cbn. by intros [= <-]. Qed.
Lemma init_ok tasks : pinv pinit (start tasks).
Proof.
  split; cbn [pinit pending count regs released tokens].
  - assert (H : ∀ l, wsum (start l) = 0%Z) by (induction l as [|x l IH]; [done|]; change (wsum (start (x :: l))) with (0 + wsum (start l))%Z; rewrite IH; reflexivity). by rewrite H.
  - by intros ? ? ? ?%elem_of_nil.
  - constructor.
  - intros i j t u k k' id Ei _ A. apply start_idle in Ei. by rewrite Ei in A.
  - intros i t k id Ei A. apply start_idle in Ei. by rewrite Ei in A.
  - intros j u k Ej A. apply start_idle in Ej. rewrite Ej in A. by destruct A.
  - intros i t k id Ei A. apply start_idle in Ei. by rewrite Ei in A.
  - intros i t k id Ei A. apply start_idle in Ei. by rewrite Ei in A.
  - intros i t k id Ei A. apply start_idle in Ei. rewrite Ei in A. by destruct A.
  - intros i t k id Ei A. apply start_idle in Ei. by rewrite Ei in A.
Qed.

(** ** The properties. [run tasks sched]: what an arbitrary schedule makes of threads with arbitrary task lists. *)
Definition run (tasks : list (list task)) (sched : list (nat + nat)) : pst * list thr := prun pinit (start tasks) sched.
Definition can_step (s : pst) (ts : list thr) (i : nat) : Prop := ∃ t s' t', ts !! i = Some t ∧ pstep i s t = Some (s', t').
Definition finished (t : thr) : Prop := todo t = [] ∧ at_ t = Idle.
(** Thread [t] sleeps in thread::park, called by park with key [k]. *)
Definition asleep (t : thr) (k : nat) : Prop := ∃ id, at_ t = W6 k id.

(** A thread cannot step only if it has finished, or sleeps without a token. *)
Lemma stuck_cases i s t : pstep i s t = None → finished t ∨ (∃ k, asleep t k) ∧ i ∉ tokens s.
Proof.
  destruct s as [pe co rg re tk], t as [td p]. unfold finished, asleep. cbn. destruct p as [|k|k|k id|k id|k|k id|k id|k|k|k|l|l]; try done.
  - destruct td as [|[]]; [by left|done|done].
  - case_bool_decide; [done|]. right. split; [by exists k, id|done].
  - by destruct l.
Qed.

(** C17 (1): no lost wakeup. If nobody can step any more, then every thread has finished all its calls, or waits for a
    condition that nobody ever made false. *)
Theorem C17_no_lost_wakeup tasks sched s ts :
  run tasks sched = (s, ts) → (∀ i, ¬ can_step s ts i) →
  ∀ i t, ts !! i = Some t → finished t ∨ ∃ k, asleep t k ∧ k ∉ released s.
Proof.
  intros R ST i t Ei. pose proof (prun_ok sched _ _ (init_ok tasks)) as I. unfold run in R. rewrite R in I. cbn in I.
  assert (NS : ∀ j u, ts !! j = Some u → pstep j s u = None).
  { intros j u Ej. destruct (pstep j s u) as [[s' u']|] eqn:E; [|done]. exfalso. apply (ST j). by exists u, s', u'. }
  destruct (stuck_cases i s t (NS i t Ei)) as [|[[k [id A]] NT]]; [by left|]. right. exists k. split; [by exists id|]. intros Hk.
  destruct (decide ((k, id, i) ∈ regs s)) as [Hr|Hr].
  - destruct (v_wake _ _ I i t k id Ei (or_introl A) Hr Hk) as (j & u & Ej & B). pose proof (NS j u Ej) as C. destruct (stuck_cases j s u C) as [[_ D]|[[k' [id' D]] _]]; rewrite D in B; by destruct B.
  - destruct (v_tok _ _ I i t k id Ei A Hr) as [|(j & u & l & Ej & B & _)]; [done|]. pose proof (NS j u Ej) as C.
    destruct (stuck_cases j s u C) as [[_ D]|[[k' [id' D]] _]]; rewrite D in B; by destruct B.
Qed.

(** C17 (2): the same in every intermediate state: while a thread sleeps on a released key, its token is there, or some
    other thread that can step is between making a condition false and waking the threads it found. *)
Definition waking (t : thr) : Prop := match at_ t with U1 _ | U2 _ | U3 _ | U4 _ => True | _ => False end.
Theorem C17_wakeup_on_its_way tasks sched s ts i t k :
  run tasks sched = (s, ts) → ts !! i = Some t → asleep t k → k ∈ released s →
  i ∈ tokens s ∨ ∃ j u, ts !! j = Some u ∧ j ≠ i ∧ waking u ∧ can_step s ts j.
Proof.
  intros R Ei [id A] Hk. pose proof (prun_ok sched _ _ (init_ok tasks)) as I. unfold run in R. rewrite R in I. cbn in I.
  assert (F : ∀ j u, ts !! j = Some u → waking u → j ≠ i ∧ can_step s ts j).
  { intros j u Ej W. split; [intros ->; rewrite Ei in Ej; injection Ej as <-; unfold waking in W; by rewrite A in W|].
    unfold can_step. destruct (pstep j s u) as [[s' u']|] eqn:E; [by exists u, s', u'|]. exfalso.
    destruct (stuck_cases j s u E) as [[_ D]|[[k' [id' D]] _]]; unfold waking in W; by rewrite D in W. }
  destruct (decide ((k, id, i) ∈ regs s)) as [Hr|Hr].
  - destruct (v_wake _ _ I i t k id Ei (or_introl A) Hr Hk) as (j & u & Ej & B). right. exists j, u.
    assert (W : waking u) by (unfold waking; by destruct B as [-> | ->]). by destruct (F j u Ej W).
  - destruct (v_tok _ _ I i t k id Ei A Hr) as [|(j & u & l & Ej & B & _)]; [by left|right]. exists j, u.
    assert (W : waking u) by (unfold waking; by destruct B as [-> | ->]). by destruct (F j u Ej W).
Qed.

(** C17 (3): the announcement counter is the number of registered, announced and not yet discharged waiters; in
    particular the unsigned counter of the code never goes below zero. *)
Theorem C17_pending_never_negative tasks sched s ts :
  run tasks sched = (s, ts) → (Z.of_nat (length (regs s)) ≤ pending s)%Z.
Proof.
  intros R. pose proof (prun_ok sched _ _ (init_ok tasks)) as I. unfold run in R. rewrite R in I. cbn in I.
  rewrite (v_pend _ _ I). pose proof (wsum_nn ts). lia.
Qed.

(** C17 (4): park(k) returns only once the condition of k is false. *)
Definition parking (t : thr) (k : nat) : Prop := match at_ t with W1 k' | W2 k' | W3 k' _ | W4 k' _ | W5 k' | W6 k' _ | W7 k' _ | W8 k' => k' = k | _ => False end.
Lemma w5_released sched : ∀ s ts, pinv s ts → (∀ i t k, ts !! i = Some t → at_ t = W5 k → k ∈ released s) →
  ∀ i t k, (prun s ts sched).2 !! i = Some t → at_ t = W5 k → k ∈ released (prun s ts sched).1.
Proof.
  induction sched as [|[i|i] sched IH]; intros s ts I H; cbn [prun]; [done| |].
  - destruct (ts !! i) as [t|] eqn:Ei; [|by apply IH]. destruct (pstep i s t) as [[s' t']|] eqn:E; [|by apply IH]. apply IH; [by eapply pstep_ok|].
    assert (M : ∀ k, k ∈ released s → k ∈ released s').
    { intros k Hk. destruct s as [pe co rg re tk], t as [td p]. cbn in E, Hk.
      destruct p as [|k0|k0|k0 id|k0 id|k0|k0 id|k0 id|k0|k0|k0|l|l]; try (injection E as <- <-; exact Hk).
      - destruct td as [|[k0|k0] td]; [done| |]; injection E as <- <-; cbn; [done|by apply elem_of_list_further].
      - case_bool_decide; [|done]. by injection E as <- <-.
      - destruct l; by injection E as <- <-. }
    intros j u k [[-> ->]|[N Ej]]%ins_cases A; [|apply M; by eapply H].
    destruct s as [pe co rg re tk], t as [td p]. cbn in E.
    destruct p as [|k0|k0|k0 id|k0 id|k0|k0 id|k0 id|k0|k0|k0|l|l];
     try (injection E as <- <-; cbn [at_] in A; repeat match type of A with context [if ?b then _ else _] => destruct b | context [match ?b with _ => _ end] => destruct b end; discriminate).
    + destruct td as [|[k0|k0] td]; [done| |]; injection E as <- <-; discriminate.
    + injection E as <- <-; cbn [at_] in A. destruct (existsb _ _); [|done]. injection A as ->. cbn. exact (v_w4 _ _ I i _ _ _ Ei eq_refl).
    + case_bool_decide; [|done]. injection E as <- <-. discriminate.
    + destruct l; injection E as <- <-; discriminate.
  - apply IH; [by apply spurious_ok|done].
Qed.
Theorem C17_park_returns_only_when_released tasks sched s ts i t k s' t' :
  run tasks sched = (s, ts) → ts !! i = Some t → parking t k → pstep i s t = Some (s', t') →
  parking t' k ∨ at_ t' = Idle ∧ k ∈ released s'.
Proof.
  intros R Ei P E. pose proof (prun_ok sched _ _ (init_ok tasks)) as I.
  assert (HS : ∀ j u k', start tasks !! j = Some u → at_ u = W5 k' → k' ∈ released pinit) by (intros j u k' Ej A; apply start_idle in Ej; congruence).
  pose proof (w5_released sched _ _ (init_ok tasks) HS) as W5R. unfold run in R. rewrite R in I, W5R. cbn in I, W5R.
  assert (H5 : at_ t = W5 k → k ∈ released s).
  { intros A. by eapply W5R. }
  pose proof (v_w4 _ _ I i t) as H4.
  destruct s as [pe co rg re tk], t as [td p]. unfold parking in P. cbn in P, E, H4, H5.
  destruct p as [|k0|k0|k0 id|k0 id|k0|k0 id|k0 id|k0|k0|k0|l|l]; try done; subst k0.
  - injection E as <- <-. by left.
  - injection E as <- <-. by left.
  - injection E as <- <-. left. unfold parking. cbn. by destruct (bool_decide _).
  - injection E as <- <-. unfold parking. cbn. destruct (existsb _ _); [by left|right]. split; [done|]. by eapply H4.
  - injection E as <- <-. right. split; [done|]. by apply H5.
  - case_bool_decide; [|done]. injection E as <- <-. by left.
  - injection E as <- <-. left. unfold parking. cbn. by destruct (existsb _ _).
  - injection E as <- <-. unfold parking. cbn. case_bool_decide; [by right|by left].
Qed.

(** Two waiters on key 7, a third on key 9, and a thread that releases 7 and 9: a schedule in which thread 0 goes to sleep,
    thread 1 is caught between registering and checking, both keys are released, and everybody finishes. *)
Example C17_example :
  let tasks := [[Park 7]; [Park 7; Park 9]; [Wake 7; Wake 9]] in
  let sched := map inl ([0;0;0;0; 1;1;1] ++ repeat 2 5 ++ repeat 1 6 ++ [2; 2; 2; 0; 0; 0; 1; 1] ++ repeat 2 12 ++ repeat 1 12 ++ repeat 0 6) in
  let mid := run tasks (map inl ([0;0;0;0; 1;1;1] ++ [2; 2])) in
  (∃ t, mid.2 !! 0 = Some t ∧ asleep t 7) ∧ 7 ∈ released mid.1 ∧ 0 ∉ tokens mid.1 ∧
  pending (run tasks sched).1 = 0%Z ∧ (∀ t, t ∈ (run tasks sched).2 → finished t).
Proof.
  vm_compute. split; [eexists; split; [reflexivity|]; eexists; reflexivity|]. split; [left|]. split; [by intros ?%elem_of_nil|].
  split; [reflexivity|]. intros t Ht. apply elem_of_list_In in Ht. destruct Ht as [<-|[<-|[<-|[]]]]; split; reflexivity.
Qed.
