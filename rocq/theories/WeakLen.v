(** C60: [len] under weak memory.

    C10 proves that [len] is exact at quiescence when all accesses are sequentially consistent. The shards of the counter (src/raw/utils/counter.rs) are only ever accessed
    with Relaxed ordering, so that a call of [len] may miss updates which were made long before, and it reads the shards one after the other while others change them.
    Here this is taken seriously: which values can [len] return?

    Memory model: every shard has messages with timestamps (its modification order); a thread may read any message not older than the last one it knows about (its view); a
    Relaxed load or read-modify-write makes the thread know about the message and hands on nothing else; a read-modify-write reads a message and writes the immediately next one.
    Everything threads do to synchronise (locks, joins, release writes and acquire reads of other locations, and the accesses the map makes itself) is one pair of steps:
    a thread sends its view, and any thread may receive it later. Simplification: no load buffering through Relaxed accesses; isize is unbounded. *)
From stdpp Require Import base list option numbers relations.
Local Open Scope nat_scope.

(** What happens, in the order of execution. Deltas are +1 and -1. *)
Inductive label :=
  | LChange (i : nat) (d : Z)          (* the access with which a call of thread i adds a key to the map or removes one *)
  | LAdd (i g : nat) (d : Z)           (* fetch_add / fetch_sub on the shard of guard g: mod.rs:414, 786, 1074, 1183, 1615, 1772 *)
  | LSend (i n : nat) | LRecv (i n : nat)  (* synchronisation: n names what is handed on *)
  | LStart (i : nat)                   (* call of len: mod.rs:294 (and of Counter::sum in reserve: 996) *)
  | LRead (i : nat)                    (* load of the next shard: counter.rs:52 *)
  | LRet (i : nat) (v : nat).          (* len returns v *)
Definition who (l : label) : nat :=
  match l with LChange i _ | LAdd i _ _ | LSend i _ | LRecv i _ | LStart i | LRead i | LRet i _ => i end.

(** A thread is idle, has yet to count a change it made, or is reading: number of shards read, their sum, and (ghost) the timestamps read. *)
Inductive pt := Idle | Owe (d : Z) | Sum (k : nat) (acc : Z) (r : nat → nat).
Definition view := nat → nat.
Definition vjoin (w w' : view) : view := λ k, w k `max` w' k.
Definition vat (k ts : nat) : view := λ k', if decide (k' = k) then ts else 0.
Definition fset {A} (f : nat → A) (a : nat) (b : A) : nat → A := λ a', if decide (a' = a) then b else f a'.

Record wst := WSt {
  mem : nat → nat → option Z;          (* messages of the shards; Relaxed writes carry no view *)
  vw : nat → view;
  sent : nat → option view;
  pc : nat → pt;
  tr : list label;                     (* trace (ghost) *)
  ga : nat → option (nat * nat);       (* shard and timestamp written by the LAdd at a position of the trace (ghost) *)
  gr : nat → view }.                   (* timestamps read by the call that returned at a position of the trace (ghost) *)

Section len.
  Context (n : nat) (sh : nat → nat).  (* number of shards; shard of a guard: counter.rs:43 *)

  Definition sum_changes (l : list label) : Z := foldr (λ x a, match x with LChange _ d => d + a | _ => a end)%Z 0%Z l.

  (* counter.rs:23 Default: every shard starts with 0 *)
  Definition init : wst := WSt (λ _ ts, if decide (ts = 0) then Some 0%Z else None) (λ _ _, 0) (λ _, None) (λ _, Idle) [] (λ _, None) (λ _ _, 0).

  Inductive wstep : wst → wst → Prop :=
    (* a key is inserted or removed; only keys that are there are removed *)
    | S_change m w s p t a r i d : p i = Idle → d = 1%Z ∨ d = (-1)%Z → (0 ≤ sum_changes t + d)%Z →
        wstep (WSt m w s p t a r) (WSt m w s (fset p i (Owe d)) (t ++ [LChange i d]) a r)
    (* fetch_add(d, Relaxed) *)
    | S_add m w s p t a r i g d ts v : p i = Owe d → m (sh g) ts = Some v → w i (sh g) ≤ ts → m (sh g) (S ts) = None →
        wstep (WSt m w s p t a r)
          (WSt (fset m (sh g) (fset (m (sh g)) (S ts) (Some (v + d)%Z))) (fset w i (vjoin (w i) (vat (sh g) (S ts)))) s (fset p i Idle)
               (t ++ [LAdd i g d]) (fset a (length t) (Some (sh g, S ts))) r)
    (* synchronisation, at any time *)
    | S_send m w s p t a r i x : s x = None →
        wstep (WSt m w s p t a r) (WSt m w (fset s x (Some (w i))) p (t ++ [LSend i x]) a r)
    | S_recv m w s p t a r i x u : s x = Some u →
        wstep (WSt m w s p t a r) (WSt m (fset w i (vjoin (w i) u)) s p (t ++ [LRecv i x]) a r)
    (* counter.rs:48 sum *)
    | S_start m w s p t a r i : p i = Idle →
        wstep (WSt m w s p t a r) (WSt m w s (fset p i (Sum 0 0 (λ _, 0))) (t ++ [LStart i]) a r)
    (* load(Relaxed) *)
    | S_read m w s p t a r i k acc rs ts v : p i = Sum k acc rs → k < n → m k ts = Some v → w i k ≤ ts →
        wstep (WSt m w s p t a r)
          (WSt m (fset w i (vjoin (w i) (vat k ts))) s (fset p i (Sum (S k) (acc + v)%Z (fset rs k ts))) (t ++ [LRead i]) a r)
    (* try_into().unwrap_or(0) *)
    | S_ret m w s p t a r i acc rs : p i = Sum n acc rs →
        wstep (WSt m w s p t a r) (WSt m w s (fset p i Idle) (t ++ [LRet i (Z.to_nat acc)]) a (fset r (length t) (λ k, if decide (k < n) then rs k else 0))).

  Definition reach : wst → Prop := rtc wstep init.
  Definition execution (t : list label) : Prop := ∃ s, reach s ∧ tr s = t.
End len.

(** Specification, in terms of the trace only. Happens-before: program order and synchronisation. *)
Inductive hb (t : list label) : nat → nat → Prop :=
  | hb_po p q x y : p < q → t !! p = Some x → t !! q = Some y → who x = who y → hb t p q
  | hb_sync p q i j x : p < q → t !! p = Some (LSend i x) → t !! q = Some (LRecv j x) → hb t p q
  | hb_trans p q r : hb t p q → hb t q r → hb t p r.
Definition is_add (t : list label) (p : nat) : Prop := ∃ i g d, t !! p = Some (LAdd i g d).
(** The call of thread [i] that starts at [b] returns [v] at [e]. *)
Definition call (t : list label) (b e i v : nat) : Prop :=
  t !! b = Some (LStart i) ∧ t !! e = Some (LRet i v) ∧ b < e ∧ ∀ p, b < p → p < e → t !! p ≠ Some (LStart i).
(** Sum of the updates at the positions in [R]. *)
Fixpoint sum_adds (R : nat → bool) (o : nat) (t : list label) : Z :=
  match t with [] => 0 | LAdd _ _ d :: t' => (if R o then d else 0) + sum_adds R (S o) t' | _ :: t' => sum_adds R (S o) t' end%Z.

(** * Proofs *)
Section proof.
  Context (n : nat) (sh : nat → nat) (Hsh : ∀ g, sh g < n).
  Notation wstep := (wstep n sh). Notation reach := (reach n sh).

  Lemma fset_eq {A} (f : nat → A) a b : fset f a b a = b. Proof. unfold fset. by rewrite decide_True. Qed.
  Lemma fset_ne {A} (f : nat → A) a b c : c ≠ a → fset f a b c = f c. Proof. unfold fset. intros. by rewrite decide_False. Qed.
  Definition vle (w w' : view) := ∀ k, w k ≤ w' k.
  Lemma vle_join_l w u : vle w (vjoin w u). Proof. intros k. unfold vjoin. lia. Qed.
  Lemma vle_join_r w u : vle u (vjoin w u). Proof. intros k. unfold vjoin. lia. Qed.
  Lemma vle_tr w u v : vle w u → vle u v → vle w v. Proof. intros A B k. specialize (A k); specialize (B k). lia. Qed.
  Lemma vle_refl w : vle w w. Proof. by intros k. Qed.
  Lemma vle_fset w i u j : vle (w i) u → vle (w j) (fset w i u j).
  Proof. intros. unfold fset. case_decide; [by subst|apply vle_refl]. Qed.

  Lemma snoc_in {A} (l : list A) x p : p < length l → (l ++ [x]) !! p = l !! p. Proof. intros. by apply lookup_app_l. Qed.
  Lemma snoc_end {A} (l : list A) (x : A) : (l ++ [x]) !! length l = Some x. Proof. by apply list_lookup_middle. Qed.
  Lemma snoc_inv {A} (l : list A) (x y : A) p : (l ++ [x]) !! p = Some y → (p < length l ∧ l !! p = Some y) ∨ (p = length l ∧ x = y).
  Proof.
    intros Hq. destruct (decide (p < length l)) as [|Hn]; [rewrite snoc_in in Hq by done; auto|].
    assert (p < length (l ++ [x])) as Hb by (by eapply lookup_lt_Some). rewrite app_length in Hb; simpl in Hb.
    assert (p = length l) as -> by lia. rewrite snoc_end in Hq. right. by simplify_eq.
  Qed.

  (* hb and extension of the trace *)
  Lemma hb_lt t p q : hb t p q → p < q. Proof. induction 1; lia. Qed.
  Lemma hb_bnd t p q : hb t p q → q < length t. Proof. induction 1; eauto using lookup_lt_Some. Qed.
  Lemma hb_back t x p q : hb (t ++ [x]) p q → q < length t → hb t p q.
  Proof.
    induction 1 as [p q a b Hlt Ha Hb Hw|p q i j y Hlt Ha Hb|p q r H1 IH1 H2 IH2]; intros Hq.
    - rewrite snoc_in in Ha by lia. rewrite snoc_in in Hb by lia. by eapply hb_po.
    - rewrite snoc_in in Ha by lia. rewrite snoc_in in Hb by lia. by eapply hb_sync.
    - apply hb_lt in H2 as ?. eapply hb_trans; [apply IH1; lia|by apply IH2].
  Qed.
  (* the last link of a chain that ends in the new event *)
  Lemma hb_last t x p : hb (t ++ [x]) p (length t) →
    ∃ q, q < length t ∧ (p = q ∨ hb t p q) ∧ ((∃ y, t !! q = Some y ∧ who y = who x) ∨ (∃ i j m, t !! q = Some (LSend i m) ∧ x = LRecv j m)).
  Proof.
    remember (length t) as e. induction 1 as [p q a b Hlt Ha Hb Hw|p q i j y Hlt Ha Hb|p q r H1 IH1 H2 IH2]; subst.
    - rewrite snoc_in in Ha by lia. rewrite snoc_end in Hb. simplify_eq. exists p. split_and!; eauto.
    - rewrite snoc_in in Ha by lia. rewrite snoc_end in Hb. simplify_eq. exists p. split_and!; eauto 10.
    - destruct (IH2 eq_refl) as (q' & Hlt & Hor & Hl). exists q'. split_and!; [done| |done].
      apply hb_lt in H2 as ?. apply hb_back in H1; [|lia]. right. destruct Hor as [->|]; [done|by eapply hb_trans].
  Qed.

  (** What an event guarantees to those who know of it. *)
  Definition fl (s : wst) (p : nat) : view := vjoin (gr s p) (match ga s p with Some (k, ts) => vat k ts | None => λ _, 0 end).
  Definition hbe t p q := p = q ∨ hb t p q.

  (* sum of the updates made to shard k with timestamps up to ts *)
  Definition inR (a : nat → option (nat * nat)) (r : view) (p : nat) : bool :=
    match a p with Some (k, ts) => bool_decide (ts ≤ r k) | None => false end.
  Definition upto (m : nat) (r : view) : view := λ k, if decide (k < m) then r k else 0.
  Definition cut (k ts : nat) : view := vat k ts.

  Record I (s : wst) : Prop := {
    i_top : ∀ k, ∃ top, ∀ ts, is_Some (mem s k ts) ↔ ts ≤ top;
    i_ga : ∀ p, is_Some (ga s p) ↔ is_add (tr s) p;
    i_shard : ∀ p i g d, tr s !! p = Some (LAdd i g d) → ∃ ts, ga s p = Some (sh g, S ts) ∧ is_Some (mem s (sh g) (S ts));
    i_ord : ∀ p q k ts ts', ga s p = Some (k, ts) → ga s q = Some (k, ts') → p < q → ts < ts';
    i_val : ∀ k ts v, mem s k ts = Some v → v = sum_adds (inR (ga s) (cut k ts)) 0 (tr s);
    i_vw : ∀ p q y, tr s !! q = Some y → hbe (tr s) p q → vle (fl s p) (vw s (who y));
    i_sent : ∀ p q i x, tr s !! q = Some (LSend i x) → hbe (tr s) p q → ∃ u, sent s x = Some u ∧ vle (fl s p) u;
    i_sentb : ∀ x u k, sent s x = Some u → is_Some (mem s k (u k));
    i_fresh : ∀ q i x, tr s !! q = Some (LSend i x) → is_Some (sent s x);
    i_vwb : ∀ i k, is_Some (mem s k (vw s i k));
    i_gr : ∀ p k, is_Some (mem s k (gr s p k)) ∧ (length (tr s) ≤ p → gr s p k = 0);
    i_sum : ∀ i k acc r, pc s i = Sum k acc r → k ≤ n ∧ acc = sum_adds (inR (ga s) (upto k r)) 0 (tr s) ∧ vle (upto k r) (vw s i) ∧
              (∀ j, is_Some (mem s j (r j))) ∧
              ∃ b, tr s !! b = Some (LStart i) ∧ (∀ p, b < p → tr s !! p ≠ Some (LStart i)) ∧
                   ∀ p j, hb (tr s) p b → j < k → fl s p j ≤ r j;
    i_ret : ∀ b e i v, call (tr s) b e i v → v = Z.to_nat (sum_adds (inR (ga s) (gr s e)) 0 (tr s)) ∧ (∀ p j, hb (tr s) p b → j < n → fl s p j ≤ gr s e j);
    i_early : ∀ e p k ts, ga s p = Some (k, ts) → e < p → e < length (tr s) → gr s e k < ts }.

  Lemma sum_ext R R' t o : (∀ p, is_add t p → R (o + p) = R' (o + p)) → sum_adds R o t = sum_adds R' o t.
  Proof.
    revert o. induction t as [|x t IH]; intros o H; [done|]. simpl.
    assert (sum_adds R (S o) t = sum_adds R' (S o) t) as E.
    { apply IH. intros p (i & g & d & Hp). specialize (H (S p)). rewrite <- !plus_n_Sm in H. simpl. apply H. by exists i, g, d. }
    destruct x; try done. specialize (H 0). rewrite Nat.add_0_r in H. rewrite H by (by eexists _, _, _). by rewrite E.
  Qed.
  Lemma sum_snoc R t o x : sum_adds R o (t ++ [x]) = (sum_adds R o t + (match x with LAdd _ _ d => if R (o + length t)%nat then d else 0 | _ => 0 end))%Z.
  Proof.
    revert o. induction t as [|y t IH]; intros o; simpl.
    - rewrite Nat.add_0_r. destruct x; lia.
    - rewrite IH. replace (S o + length t) with (o + S (length t)) by lia. destruct y; lia.
  Qed.
  Lemma sum_disj R1 R2 R t o : (∀ p, is_add t p → R (o + p) = (R1 (o + p) || R2 (o + p)) ∧ ¬ (R1 (o + p) = true ∧ R2 (o + p) = true)) →
    sum_adds R o t = (sum_adds R1 o t + sum_adds R2 o t)%Z.
  Proof.
    revert o. induction t as [|x t IH]; intros o H; [done|]. simpl.
    assert (sum_adds R (S o) t = (sum_adds R1 (S o) t + sum_adds R2 (S o) t)%Z) as E.
    { apply IH. intros p (i & g & d & Hp). specialize (H (S p)). rewrite <- !plus_n_Sm in H. apply H. by exists i, g, d. }
    destruct x; try done. specialize (H 0). rewrite Nat.add_0_r in H. destruct H as [H1 H2]; [by eexists _, _, _|]. rewrite H1, E.
    destruct (R1 o), (R2 o); simpl; try lia.
  Qed.
  Lemma sum_none R t o : (∀ p, is_add t p → R (o + p) = false) → sum_adds R o t = 0%Z.
  Proof.
    revert o. induction t as [|x t IH]; intros o H; [done|]. simpl.
    assert (sum_adds R (S o) t = 0%Z) as E.
    { apply IH. intros p (i & g & d & Hp). specialize (H (S p)). rewrite <- !plus_n_Sm in H. apply H. by exists i, g, d. }
    destruct x; try done. specialize (H 0). rewrite Nat.add_0_r in H. rewrite H by (by eexists _, _, _). lia.
  Qed.

  Lemma add_lt t p : is_add t p → p < length t. Proof. intros (?&?&?&?). eauto using lookup_lt_Some. Qed.
  Lemma add_snoc t x p : is_add t p → is_add (t ++ [x]) p.
  Proof. intros Ha. apply add_lt in Ha as ?. destruct Ha as (i & g & d & H'). exists i, g, d. by rewrite snoc_in. Qed.
  Lemma add_back t x p : (∀ i g d, x ≠ LAdd i g d) → is_add (t ++ [x]) p → is_add t p.
  Proof. intros Hx (i & g & d & H'). apply snoc_inv in H' as [[? ?]|[_ ->]]; [by exists i, g, d|by destruct (Hx i g d)]. Qed.

  (* ghost facts *)
  Lemma ga_new s p : I s → length (tr s) ≤ p → ga s p = None.
  Proof. intros H Hp. destruct (ga s p) eqn:E; [|done]. assert (is_add (tr s) p) as Ha by (apply (i_ga _ H); eauto). apply add_lt in Ha. lia. Qed.
  Lemma ga_shard s p k ts : I s → ga s p = Some (k, ts) → 0 < ts ∧ k < n ∧ is_Some (mem s k ts).
  Proof.
    intros H E. assert (is_add (tr s) p) as (i & g & d & Hp) by (apply (i_ga _ H); eauto).
    destruct (i_shard _ H _ _ _ _ Hp) as (t0 & E' & Hm). rewrite E in E'. simplify_eq. split_and!; [lia|apply Hsh|done].
  Qed.
  Lemma fl_mem s p k : I s → is_Some (mem s k (fl s p k)).
  Proof.
    intros H. unfold fl, vjoin. destruct (i_top _ H k) as (top & Ht). apply Ht.
    destruct (i_gr _ H p k) as [Hg _]. apply Ht in Hg. destruct (ga s p) as [[k' ts]|] eqn:E; [|lia].
    unfold vat. case_decide; [|lia]. subst. destruct (ga_shard _ _ _ _ H E) as (_ & _ & Hm). apply Ht in Hm. lia.
  Qed.

  (* the part of the invariant about views *)
  Lemma vw_step s s' x : I s → tr s' = tr s ++ [x] → (∀ p, p < length (tr s) → vle (fl s' p) (fl s p)) → (∀ j, vle (vw s j) (vw s' j)) →
    vle (fl s' (length (tr s))) (vw s' (who x)) → (∀ i m, x = LRecv i m → ∃ u, sent s m = Some u ∧ vle u (vw s' i)) →
    ∀ p q y, tr s' !! q = Some y → hbe (tr s') p q → vle (fl s' p) (vw s' (who y)).
  Proof.
    intros H Et Hfl Hv Hn Hr p q y Hq Hh. rewrite Et in Hq, Hh. apply snoc_inv in Hq as [[Hlt Hq]|[-> <-]].
    - assert (hbe (tr s) p q) as Hh' by (destruct Hh as [->|Hh]; [by left|right; by eapply hb_back]).
      assert (p < length (tr s)) by (destruct Hh' as [->|Hh']; [done|apply hb_lt in Hh'; lia]).
      eapply vle_tr; [by apply Hfl|]. eapply vle_tr; [by eapply (i_vw _ H)|done].
    - destruct Hh as [->|Hh]; [done|]. destruct (hb_last _ _ _ Hh) as (q & Hlt & Hor & Hl).
      assert (p < length (tr s)) by (apply hb_lt in Hh; lia). eapply vle_tr; [by apply Hfl|].
      destruct Hl as [(y & Hy & <-)|(i & j & m & Hy & ->)].
      + eapply vle_tr; [by eapply (i_vw _ H)|done].
      + destruct (i_sent _ H p q i m Hy Hor) as (u & Hu & Hle). destruct (Hr j m eq_refl) as (u' & Hu' & Hle'). simplify_eq. by eapply vle_tr.
  Qed.
  Lemma sent_step s s' x : I s → tr s' = tr s ++ [x] → (∀ p, p < length (tr s) → vle (fl s' p) (fl s p)) →
    (∀ p q y, tr s' !! q = Some y → hbe (tr s') p q → vle (fl s' p) (vw s' (who y))) →
    (∀ m u, sent s m = Some u → sent s' m = Some u) → (∀ i m, x = LSend i m → sent s' m = Some (vw s' i)) →
    ∀ p q i m, tr s' !! q = Some (LSend i m) → hbe (tr s') p q → ∃ u, sent s' m = Some u ∧ vle (fl s' p) u.
  Proof.
    intros H Et Hfl Hv Hs Hx p q i m Hq Hh. pose proof Hq as Hq0. rewrite Et in Hq. apply snoc_inv in Hq as [[Hlt Hq]|[-> ->]].
    - rewrite Et in Hh. assert (hbe (tr s) p q) as Hh' by (destruct Hh as [->|Hh]; [by left|right; by eapply hb_back]).
      assert (p < length (tr s)) by (destruct Hh' as [->|Hh']; [done|apply hb_lt in Hh'; lia]).
      destruct (i_sent _ H p q i m Hq Hh') as (u & Hu & Hle). exists u. split; [by apply Hs|]. eapply vle_tr; [by apply Hfl|done].
    - exists (vw s' i). split; [by apply Hx|]. by apply (Hv p _ _ Hq0).
  Qed.
  Lemma call_back t x b e i v : call (t ++ [x]) b e i v → e < length t → call t b e i v.
  Proof.
    intros (Hb & He & Hlt & Hn) Hl. rewrite snoc_in in Hb by lia. rewrite snoc_in in He by lia. split_and!; try done.
    intros p H1 H2 Hp. apply (Hn p H1 H2). rewrite snoc_in by lia. done.
  Qed.

  (* steps that do not write a shard *)
  Definition sum_ok (s : wst) i k (acc : Z) (r : view) : Prop :=
    k ≤ n ∧ acc = sum_adds (inR (ga s) (upto k r)) 0 (tr s) ∧ vle (upto k r) (vw s i) ∧ (∀ j, is_Some (mem s j (r j))) ∧
    ∃ b, tr s !! b = Some (LStart i) ∧ (∀ p, b < p → tr s !! p ≠ Some (LStart i)) ∧ ∀ p j, hb (tr s) p b → j < k → fl s p j ≤ r j.
  Lemma I_keep s s' x : I s → mem s' = mem s → ga s' = ga s → tr s' = tr s ++ [x] → (∀ i g d, x ≠ LAdd i g d) →
    (∀ p, p ≠ length (tr s) → gr s' p = gr s p) → (∀ k, is_Some (mem s k (gr s' (length (tr s)) k))) → vle (gr s' (length (tr s))) (vw s' (who x)) →
    (∀ j, vle (vw s j) (vw s' j)) → (∀ i k, is_Some (mem s k (vw s' i k))) →
    (∀ i m, x = LRecv i m → ∃ u, sent s m = Some u ∧ vle u (vw s' i)) →
    (∀ m u, sent s m = Some u → sent s' m = Some u) → (∀ m, sent s' m = sent s m ∨ ∃ i, sent s' m = Some (vw s' i)) →
    (∀ i m, x = LSend i m → sent s' m = Some (vw s' i)) →
    (∀ j k acc r, pc s' j = Sum k acc r → (pc s j = Sum k acc r ∧ x ≠ LStart j) ∨ sum_ok s' j k acc r) →
    (∀ b i v, x = LRet i v → call (tr s') b (length (tr s)) i v →
       v = Z.to_nat (sum_adds (inR (ga s) (gr s' (length (tr s)))) 0 (tr s)) ∧ (∀ p j, hb (tr s) p b → j < n → fl s p j ≤ gr s' (length (tr s)) j)) →
    I s'.
  Proof.
    intros H Em Eg Et Hx Hgr Hgm Hgv Hv Hvb Hrc Hs1 Hs2 Hs3 Hpc Hret.
    assert (∀ p, p ≠ length (tr s) → fl s' p = fl s p) as Hfl by (intros p Hp; unfold fl; by rewrite Hgr, Eg by done).
    assert (∀ p q y, tr s' !! q = Some y → hbe (tr s') p q → vle (fl s' p) (vw s' (who y))) as Hvw.
    { eapply vw_step; eauto. - intros p Hp. rewrite Hfl by lia. apply vle_refl.
      - intros k. unfold fl, vjoin. rewrite Eg, (ga_new s) by (done || lia). specialize (Hgv k). lia. }
    assert (∀ R, sum_adds R 0 (tr s') = sum_adds R 0 (tr s)) as Hsum.
    { intros R. rewrite Et, sum_snoc. destruct x; try lia. by destruct (Hx i g d). }
    split.
    - rewrite Em. apply (i_top _ H).
    - intros p. rewrite Eg, (i_ga _ H p), Et. split; [apply add_snoc|by apply add_back].
    - rewrite Et, Em, Eg. intros p i g d Hp. apply snoc_inv in Hp as [[_ Hp]|[_ ->]]; [by eapply (i_shard _ H)|by destruct (Hx i g d)].
    - rewrite Eg. apply (i_ord _ H).
    - rewrite Em, Eg. intros k ts v Hm. rewrite Hsum. by apply (i_val _ H).
    - done.
    - eapply sent_step; eauto. intros p Hp. rewrite Hfl by lia. apply vle_refl.
    - rewrite Em. intros m u k Hu. destruct (Hs2 m) as [E|[i E]]; rewrite E in Hu; [by apply (i_sentb _ H m)|simplify_eq; apply Hvb].
    - rewrite Et. intros q i m Hq. apply snoc_inv in Hq as [[_ Hq]|[_ ->]]; [|rewrite (Hs3 i m); eauto].
      destruct (i_fresh _ H _ _ _ Hq) as [u Hu]. eauto.
    - rewrite Em. done.
    - rewrite Em, Et, app_length. simpl. intros p k. destruct (decide (p = length (tr s))) as [->|Hp]; [split; [done|lia]|].
      rewrite Hgr by done. destruct (i_gr _ H p k) as [? E]. split; [done|]. intros. apply E. lia.
    - intros i k acc r Hp. destruct (Hpc _ _ _ _ Hp) as [[Hp0 Hst]|?]; [|done].
      destruct (i_sum _ H _ _ _ _ Hp0) as (H1 & H2 & H3 & H4 & b & Hb & Hn & Hh).
      assert (b < length (tr s)) by (by eapply lookup_lt_Some).
      split_and!; [done|by rewrite Hsum, Eg|by eapply vle_tr|by rewrite Em|]. exists b. rewrite Et. split_and!.
      + by rewrite snoc_in.
      + intros p Hbp Hq. apply snoc_inv in Hq as [[_ Hq]|[_ Hq]]; [by apply (Hn p)|done].
      + intros p j Hhb Hj. apply hb_back in Hhb; [|done]. apply hb_lt in Hhb as ?. rewrite Hfl by lia. by apply Hh.
    - intros b e i v Hc. rewrite Hsum, Eg. pose proof Hc as (_ & He & Hlt & _). rewrite Et in He. apply snoc_inv in He as [[Hl _]|[-> Hxe]].
      + rewrite Et in Hc. apply call_back in Hc; [|done]. destruct (i_ret _ H _ _ _ _ Hc) as [E1 E2]. rewrite Hgr by lia. split; [done|].
        intros p j Hhb Hj. rewrite Et in Hhb. apply hb_back in Hhb; [|lia]. apply hb_lt in Hhb as ?. rewrite Hfl by lia. by apply E2.
      + destruct (Hret b i v Hxe Hc) as [E1 E2]. split; [done|]. intros p j Hhb Hj. rewrite Et in Hhb. apply hb_back in Hhb; [|done].
        apply hb_lt in Hhb as ?. rewrite Hfl by lia. by apply E2.
    - rewrite Eg, Et, app_length. simpl. intros e p k ts E Hep Hl. assert (p < length (tr s)) by (apply add_lt, (i_ga _ H); eauto).
      rewrite Hgr by lia. apply (i_early _ H e p k ts E Hep). lia.
  Qed.

  Lemma top_uniq s k top ts : (∀ t, is_Some (mem s k t) ↔ t ≤ top) → is_Some (mem s k ts) → mem s k (S ts) = None → ts = top.
  Proof. intros Ht H1 H2. apply Ht in H1. destruct (decide (S ts ≤ top)) as [Hl|]; [|lia]. apply Ht in Hl as [? ?]. congruence. Qed.

  Lemma I_init : I init.
  Proof.
    split; simpl; try done.
    - intros k. exists 0. intros ts. case_decide; subst; split; intros; eauto; try lia. by destruct H0.
    - intros p. split; [by intros []|]. by intros (?&?&?&?).
    - intros k ts v. case_decide; [|done]. by intros [= <-].
    - intros b e i v (Hb & _). by rewrite lookup_nil in Hb.
  Qed.

  Lemma I_step s s' : I s → wstep s s' → I s'.
  Proof.
    intros H Hs. pose proof (i_vwb _ H) as Hvb. pose proof (i_gr _ H) as Hgr.
    assert (∀ k, gr s (length (tr s)) k = 0) as Hg0 by (intros k; apply (proj2 (Hgr _ k)); lia).
    assert (∀ w, vle (gr s (length (tr s))) w) as Hg1 by (intros w k; rewrite Hg0; lia).
    destruct Hs; simpl in *.
    - eapply (I_keep _ _ (LChange i d) H); simpl; eauto; try done.
      + intros k. by apply Hgr.
      + intros. apply vle_refl.
      + intros j k acc r0 Hp. left. split; [|done]. unfold fset in Hp. case_decide; [done|done].
    - (* FADD *)
      rename ts into ts0. destruct (i_top _ H (sh g)) as (top & Ht). simpl in Ht.
      assert (ts0 = top) as -> by (eapply (top_uniq (WSt m w s p t a r)); simpl; eauto).
      set (k0 := sh g) in *. set (l := length t).
      assert (a l = None) as Hal by (apply (ga_new _ _ H); simpl; lia).
      set (m' := fset m k0 (fset (m k0) (S top) (Some (v + d)%Z))).
      assert (∀ k ts, is_Some (m k ts) → m' k ts = m k ts) as Hm.
      { intros k ts Hk. unfold m'. destruct (decide (k = k0)) as [->|]; [|by rewrite fset_ne]. rewrite fset_eq, fset_ne; [done|].
        apply Ht in Hk. lia. }
      assert (∀ k ts, is_Some (m k ts) → is_Some (m' k ts)) as Hm2 by (intros k ts Hk; by rewrite Hm).
      assert (∀ k r0, is_Some (m k (r0 k)) → k = k0 → r0 k ≤ top) as Hle by (intros k r0 Hk ->; by apply Ht).
      set (a' := fset a l (Some (k0, S top))).
      set (st' := WSt _ _ _ _ _ _ _).
      assert (∀ p0, p0 ≠ l → a' p0 = a p0) as Ha' by (intros; by apply fset_ne).
      assert (∀ p0, p0 < l → fl st' p0 = fl (WSt m w s p t a r) p0) as Hfl.
      { intros p0 Hp0. unfold fl; simpl. fold a'. by rewrite Ha' by lia. }
      assert (∀ R, R l = false → sum_adds R 0 (t ++ [LAdd i g d]) = sum_adds R 0 t) as Hsum0.
      { intros R HR. rewrite sum_snoc. simpl. fold l. rewrite HR. lia. }
      assert (∀ r0, r0 k0 ≤ top → sum_adds (inR a' r0) 0 (t ++ [LAdd i g d]) = sum_adds (inR a r0) 0 t) as Hsum.
      { intros r0 Hr. rewrite Hsum0.
        - apply sum_ext. intros p0 Hp0. apply add_lt in Hp0. unfold inR. simpl. by rewrite Ha' by (unfold l; lia).
        - unfold inR, a'. rewrite fset_eq. apply bool_decide_eq_false. lia. }
      assert (∀ p0 q y, tr st' !! q = Some y → hbe (tr st') p0 q → vle (fl st' p0) (vw st' (who y))) as Hvw.
      { eapply (vw_step _ st' (LAdd i g d) H); simpl; eauto; try done.
        - intros p0 Hp0. rewrite Hfl by done. apply vle_refl.
        - intros j. apply vle_fset, vle_join_l.
        - rewrite fset_eq. intros k.
          assert (fl st' (length t) k = r (length t) k `max` vat k0 (S top) k) as ->; [|rewrite Hg0; unfold vjoin; lia].
          unfold fl, vjoin. change (ga st' (length t)) with (a' l). unfold a'. by rewrite fset_eq. }
      assert (∀ p0 ts, a p0 = Some (k0, ts) → ts ≤ top) as Hat.
      { intros p0 ts E. destruct (ga_shard _ _ _ _ H E) as (_ & _ & Hk). simpl in Hk. by apply Ht. }
      split; simpl; try fold m' a'.
      + intros k. destruct (decide (k = k0)) as [->|Hk].
        * exists (S top). intros ts. unfold m'. rewrite fset_eq. destruct (decide (ts = S top)) as [->|Hts]; [rewrite fset_eq; split; eauto|].
          rewrite fset_ne by done. rewrite Ht. lia.
        * destruct (i_top _ H k) as (tk & Hk'). exists tk. intros ts. unfold m'. rewrite fset_ne by done. apply Hk'.
      + intros p0. destruct (decide (p0 = l)) as [->|Hp0].
        * unfold a'. rewrite fset_eq. split; [|eauto]. intros _. exists i, g, d. unfold l. apply snoc_end.
        * rewrite Ha' by done. rewrite (i_ga _ H p0). simpl. split; [apply add_snoc|]. intros (i1 & g1 & d1 & Hq).
          apply snoc_inv in Hq as [[_ ?]|[-> _]]; [by exists i1, g1, d1|by destruct Hp0].
      + intros p0 i1 g1 d1 Hq. apply snoc_inv in Hq as [[Hl Hq]|[-> ?]].
        * destruct (i_shard _ H _ _ _ _ Hq) as (t0 & E & Hk). simpl in *. exists t0. rewrite Ha' by (unfold l; lia). eauto.
        * simplify_eq. exists top. fold l k0. unfold a', m'. rewrite !fset_eq. eauto.
      + intros p0 q k ts ts' E1 E2 Hlt. destruct (decide (q = l)) as [->|Hq].
        * unfold a' in E2. rewrite fset_eq in E2. simplify_eq. rewrite Ha' in E1 by lia. apply Hat in E1. lia.
        * rewrite Ha' in E2 by done. assert (q < l).
          { apply (add_lt t), (i_ga _ H). simpl. eauto. }
          rewrite Ha' in E1 by lia. by eapply (i_ord _ H p0 q).
      + intros k ts v0 Hv. destruct (decide (k = k0 ∧ ts = S top)) as [[-> ->]|Hn].
        * unfold m' in Hv. rewrite !fset_eq in Hv. injection Hv as <-. rewrite sum_snoc. simpl. fold l.
          rewrite (i_val _ H _ _ _ H1). simpl.
          replace (inR a' (cut k0 (S top)) l) with true.
          2: { unfold inR, a'. rewrite fset_eq. symmetry. apply bool_decide_eq_true. unfold cut, vat. rewrite decide_True by done. lia. }
          f_equal. apply sum_ext. intros p0 Hp0. apply add_lt in Hp0. unfold inR. simpl. rewrite Ha' by (unfold l; lia).
          destruct (a p0) as [[k ts]|] eqn:E; [|done]. apply bool_decide_ext. unfold cut, vat. case_decide; [|done]. subst. apply Hat in E. lia.
        * assert (m k ts = Some v0) as Hv'.
          { unfold m', fset in Hv. repeat case_decide; try done; subst; try done. by destruct Hn. }
          rewrite Hsum; [by apply (i_val _ H)|]. unfold cut, vat. case_decide; [|lia]. subst. apply Ht. eauto.
      + done.
      + eapply (sent_step _ st' (LAdd i g d) H); simpl; eauto; try done. intros p0 Hp0. rewrite Hfl by done. apply vle_refl.
      + intros x u k Hu. apply Hm2. by apply (i_sentb _ H x).
      + intros q i0 x Hq. apply snoc_inv in Hq as [[_ Hq]|[_ ?]]; [|done]. by eapply (i_fresh _ H).
      + intros j k. destruct (decide (j = i)) as [->|Hj]; [rewrite fset_eq|rewrite fset_ne by done; by apply Hm2, (Hvb j k)]. unfold vjoin, vat. case_decide as Hk.
        * subst. pose proof (Hvb i k0) as Hw. apply Ht in Hw. rewrite Nat.max_r by lia. unfold m'. rewrite !fset_eq. eauto.
        * rewrite Nat.max_l by lia. apply Hm2, (Hvb i k).
      + intros p0 k. rewrite app_length. simpl. destruct (Hgr p0 k) as [G1 G2]. split; [by apply Hm2|]. intros. apply G2. lia.
      + intros j k acc r0 Hp. assert (j ≠ i) as Hji by (intros ->; by rewrite fset_eq in Hp). rewrite fset_ne in Hp by done.
        destruct (i_sum _ H _ _ _ _ Hp) as (H1' & H2' & H3' & H4' & b & Hb & Hn & Hh). simpl in *.
        assert (b < l) by (by eapply lookup_lt_Some).
        split_and!; [done| | |intros; by apply Hm2|].
        * rewrite Hsum; [done|]. unfold upto. case_decide; [|lia]. apply Ht, H4'.
        * rewrite fset_ne by done. done.
        * exists b. split_and!; [by rewrite snoc_in|intros p0 Hbp Hq; apply snoc_inv in Hq as [[_ Hq]|[_ Hq]]; [by apply (Hn p0)|done]|].
          intros p0 j0 Hhb Hj. apply hb_back in Hhb; [|done]. apply hb_lt in Hhb as ?. rewrite Hfl by lia. by apply Hh.
      + intros b e i0 v0 Hc. pose proof Hc as (_ & He & Hlt & _). apply snoc_inv in He as [[Hl _]|[-> ?]]; [|done].
        apply call_back in Hc; [|done]. destruct (i_ret _ H _ _ _ _ Hc) as [E1 E2]. simpl in *. split.
        * rewrite Hsum; [done|]. apply Ht, (Hgr e k0).
        * intros p0 j Hhb Hj. apply hb_back in Hhb; [|lia]. apply hb_lt in Hhb as ?. rewrite Hfl by (unfold l; lia). by apply E2.
      + intros e q k ts E Hlt Hl. destruct (decide (q = l)) as [->|Hq].
        * unfold a' in E. rewrite fset_eq in E. injection E as Ek Ets. rewrite <- Ek, <- Ets. assert (r e k0 ≤ top) by (apply Ht, (Hgr e k0)). lia.
        * rewrite Ha' in E by done. assert (q < l) by (apply (add_lt t), (i_ga _ H); simpl; eauto).
          apply (i_early _ H e q k ts E Hlt). simpl. unfold l in *. lia.
    - eapply (I_keep _ _ (LSend i x) H); simpl; eauto; try done.
      + intros k. by apply Hgr.
      + intros. apply vle_refl.
      + intros y u Hy. rewrite fset_ne; [done|]. by intros ->; simplify_eq.
      + intros y. unfold fset. case_decide; eauto.
      + intros j y [= -> ->]. by rewrite fset_eq.
    - assert (∀ j k, is_Some (m k (fset w i (vjoin (w i) u) j k))) as Hvb'.
      { intros j k. unfold fset. case_decide; [|apply Hvb]. unfold vjoin. destruct (Nat.max_spec (w i k) (u k)) as [[_ ->]|[_ ->]]; [|apply Hvb].
        by apply (i_sentb _ H x). }
      eapply (I_keep _ _ (LRecv i x) H); simpl; eauto; try done.
      + intros k. by apply Hgr.
      + intros. apply vle_fset, vle_join_l.
      + intros j y [= -> ->]. exists u. split; [done|]. rewrite fset_eq. apply vle_join_r.
    - eapply (I_keep _ _ (LStart i) H); simpl; eauto; try done.
      + intros k. by apply Hgr.
      + intros. apply vle_refl.
      + intros j k acc r0 Hp. destruct (decide (j = i)) as [->|Hji].
        * rewrite fset_eq in Hp. simplify_eq. right. split_and!; simpl; [lia| | | |].
          -- symmetry. apply sum_none. intros q Hq. unfold inR. destruct (a (0 + q)) as [[k ts]|] eqn:E; [|done].
             destruct (ga_shard _ _ _ _ H E) as (? & _ & _). apply bool_decide_eq_false. unfold upto. case_decide; lia.
          -- intros k. unfold upto. case_decide; lia.
          -- intros j. destruct (i_top _ H j) as (top & Ht). simpl in Ht. apply Ht. lia.
          -- exists (length t). split_and!; [apply snoc_end| |intros; lia]. intros q Hq Hp. apply lookup_lt_Some in Hp. rewrite app_length in Hp. simpl in Hp. lia.
        * rewrite fset_ne in Hp by done. left. split; [done|congruence].
    - assert (∀ j k1, is_Some (m k1 (fset w i (vjoin (w i) (vat k ts)) j k1))) as Hvb'.
      { intros j k1. unfold fset. case_decide; [|apply Hvb]. unfold vjoin, vat. case_decide; [subst; rewrite Nat.max_r by lia; eauto|].
        rewrite Nat.max_l by lia. apply Hvb. }
      eapply (I_keep _ _ (LRead i) H); simpl; eauto; try done.
      + intros k1. by apply Hgr.
      + intros. apply vle_fset, vle_join_l.
      + intros j k1 acc1 r1 Hp. destruct (decide (j = i)) as [->|Hji].
        * rewrite fset_eq in Hp. simplify_eq. right.
          destruct (i_sum _ H _ _ _ _ H0) as (A1 & A2 & A3 & A4 & b & Hb & Hn & Hh). simpl in *.
          assert (b < length t) by (by eapply lookup_lt_Some).
          split_and!; simpl; [lia| | | |].
          -- rewrite sum_snoc, Z.add_0_r. rewrite A2, (i_val _ H _ _ _ H2). simpl. symmetry. apply sum_disj. simpl. intros q _. unfold inR.
             destruct (a q) as [[k1 t1]|] eqn:E; [|split; [done|by intros [? ?]]]. destruct (ga_shard _ _ _ _ H E) as (? & _ & _).
             unfold upto, cut, vat, fset. rewrite !bool_decide_eq_true.
             destruct (decide (k1 = k)) as [->|].
             ++ rewrite (decide_True (P := k < S k)) by lia. rewrite (decide_False (P := k < k)) by lia. split; [|lia].
                rewrite (bool_decide_eq_false_2 (t1 ≤ 0)) by lia. done.
             ++ split; [|lia]. rewrite (bool_decide_eq_false_2 (t1 ≤ 0)) by lia. rewrite orb_false_r. apply bool_decide_ext. repeat case_decide; lia.
          -- rewrite fset_eq. intros j. unfold upto. case_decide; [|lia]. unfold vjoin, vat, fset. case_decide; [lia|].
             specialize (A3 j). unfold upto in A3. rewrite decide_True in A3 by lia. lia.
          -- intros j. unfold fset. case_decide; [subst; eauto|done].
          -- exists b. split_and!; [by rewrite snoc_in|intros q Hbq Hq; apply snoc_inv in Hq as [[_ Hq]|[_ Hq]]; [by apply (Hn q)|done]|].
             intros q j Hhb Hj. apply hb_back in Hhb; [|done]. unfold fset. case_decide as Hjk; [|apply (Hh q j Hhb); lia]. subst j.
             assert (vle (fl (WSt m w s p t a r) q) (w i)) as Hfq by (apply (i_vw _ H q b _ Hb); by right).
             specialize (Hfq k). unfold fl in *. simpl in *. lia.
        * rewrite fset_ne in Hp by done. left. split; done.
    - destruct (i_sum _ H _ _ _ _ H0) as (A1 & A2 & A3 & A4 & b & Hb & Hn & Hh). simpl in *.
      assert (b < length t) by (by eapply lookup_lt_Some).
      assert (∀ x0, sum_adds (inR a x0) 0 t = sum_adds (inR a (upto n x0)) 0 t) as Hup.
      { intros x0. apply sum_ext. intros q _. simpl. unfold inR. destruct (a q) as [[k1 t1]|] eqn:E; [|done].
        destruct (ga_shard _ _ _ _ H E) as (_ & ? & _). unfold upto. by rewrite decide_True. }
      assert (∀ j, (if decide (j < n) then rs j else 0) = upto n rs j) as Hu by done.
      eapply (I_keep _ _ (LRet i (Z.to_nat acc)) H); simpl; eauto; try done.
      + intros q Hq. by rewrite fset_ne.
      + intros k. rewrite fset_eq. case_decide; [done|]. destruct (i_top _ H k) as (top & Ht). simpl in Ht. apply Ht. lia.
      + rewrite fset_eq. exact A3.
      + intros. apply vle_refl.
      + intros j k acc1 r1 Hp. destruct (decide (j = i)) as [->|Hji]; [by rewrite fset_eq in Hp|rewrite fset_ne in Hp by done]. by left.
      + intros b' i' v' [= <- <-] (Hb' & _ & Hlt & Hn'). rewrite fset_eq. split; [by rewrite A2|].
        rewrite snoc_in in Hb' by done.
        assert (b' = b) as ->.
        { destruct (lt_eq_lt_dec b' b) as [[Hc|Hc]|Hc]; [|done|].
          - destruct (Hn' b Hc); [done|]. by rewrite snoc_in.
          - by destruct (Hn b' Hc). }
        intros q j Hhb Hj. rewrite decide_True by done. by apply (Hh q j).
  Qed.

  Lemma reach_I s : reach s → I s.
  Proof. intros Hr. apply (rtc_ind_r I init) in Hr; [done|apply I_init|]. intros; by eapply I_step. Qed.

  (** Changes and updates of the counter. *)
  Definition owed (l : list (nat * Z)) : Z := foldr (λ x a, x.2 + a)%Z 0%Z l.
  Lemma owed_app l l' : owed (l ++ l') = (owed l + owed l')%Z.
  Proof. induction l as [|x l IH]; simpl; [done|]. rewrite IH. lia. Qed.
  Lemma changes_snoc t x : sum_changes (t ++ [x]) = (sum_changes t + (match x with LChange _ d => d | _ => 0 end))%Z.
  Proof. unfold sum_changes. induction t as [|y t IH]; simpl; [destruct x; lia|]. rewrite IH. destruct y; lia. Qed.
  Definition J (s : wst) : Prop :=
    (0 ≤ sum_changes (tr s))%Z ∧
    (∃ ow, sum_changes (tr s) = (sum_adds (λ _, true) 0 (tr s) + owed ow)%Z ∧ NoDup ow.*1 ∧ ∀ j d, (j, d) ∈ ow ↔ pc s j = Owe d) ∧
    (∀ j d, pc s j = Owe d → ∃ p, tr s !! p = Some (LChange j d) ∧ ∀ q g d', p < q → tr s !! q ≠ Some (LAdd j g d')).
  Lemma J_keep s s' x : J s → tr s' = tr s ++ [x] → (∀ i d, x ≠ LChange i d) → (∀ i g d, x ≠ LAdd i g d) →
    (∀ j d, pc s' j = Owe d ↔ pc s j = Owe d) → J s'.
  Proof.
    intros (H1 & (ow & H2 & H3 & H4) & H5) Et Hc Ha Hp. split_and!.
    - rewrite Et, changes_snoc. destruct x; try lia. by destruct (Hc i d).
    - exists ow. rewrite Et, changes_snoc, sum_snoc. split_and!; [|done|intros; rewrite Hp; apply H4].
      rewrite H2. destruct x; try lia; [by destruct (Hc i d)|by destruct (Ha i g d)].
    - intros j d Hj. apply Hp in Hj. destruct (H5 _ _ Hj) as (p & Hp1 & Hp2). exists p. rewrite Et. split.
      + rewrite snoc_in; [done|]. by eapply lookup_lt_Some.
      + intros q g d' Hq Hx. apply snoc_inv in Hx as [[_ Hx]|[_ Hx]]; [by eapply Hp2|]. by eapply Ha.
  Qed.
  Lemma J_init : J init.
  Proof.
    split_and!; simpl; [done| |done]. exists []. split_and!; [done|constructor|]. intros j d. split; [by intros ?%elem_of_nil|done].
  Qed.
  Lemma J_step s s' : J s → wstep s s' → J s'.
  Proof.
    intros HJ Hs. destruct Hs; simpl in *.
    - destruct HJ as (A1 & (ow & A2 & A3 & A4) & A5). simpl in *. split_and!; simpl.
      + rewrite changes_snoc. lia.
      + exists ((i, d) :: ow). rewrite changes_snoc, sum_snoc. simpl. split_and!; [lia| |].
        * apply list.NoDup_cons. split; [|done]. intros ([j d'] & E & Hin)%elem_of_list_fmap. simpl in E. subst j. apply A4 in Hin. congruence.
        * intros j d'. rewrite elem_of_cons, A4. unfold fset. case_decide; subst; split; intros; simplify_eq; auto; try (destruct_or?; congruence).
      + intros j d'. destruct (decide (j = i)) as [->|Hj].
        * rewrite fset_eq. intros [= <-]. exists (length t). split; [apply snoc_end|]. intros q g d' Hq Hx.
          apply lookup_lt_Some in Hx. rewrite app_length in Hx. simpl in Hx. lia.
        * rewrite fset_ne by done. intros Hp. destruct (A5 _ _ Hp) as (q & Hq1 & Hq2). exists q. split.
          -- rewrite snoc_in; [done|]. by eapply lookup_lt_Some.
          -- intros q' g d1 Hlt Hx. apply snoc_inv in Hx as [[_ Hx]|[_ Hx]]; [by eapply Hq2|done].
    - destruct HJ as (A1 & (ow & A2 & A3 & A4) & A5). simpl in *. split_and!; simpl.
      + rewrite changes_snoc. lia.
      + assert ((i, d) ∈ ow) as Hin by by apply A4. apply elem_of_list_split in Hin as (l1 & l2 & ->). exists (l1 ++ l2).
        rewrite owed_app in *. simpl in *. rewrite fmap_app in A3. simpl in A3.
        apply list.NoDup_app in A3 as (B1 & B2 & B3). apply list.NoDup_cons in B3 as [B3 B4].
        rewrite changes_snoc, sum_snoc, Z.add_0_r. split_and!; [lia| |].
        * rewrite fmap_app. apply list.NoDup_app. split_and!; [done| |done]. intros y Hy Hy'. apply (B2 y Hy). by apply elem_of_list_further.
        * intros j d'. specialize (A4 j d'). rewrite elem_of_app, elem_of_cons in A4. rewrite elem_of_app. destruct (decide (j = i)) as [->|Hj].
          -- rewrite fset_eq. split; [|done]. intros [Hx|Hx]; exfalso.
             ++ apply (B2 i); [|by apply elem_of_list_here]. apply elem_of_list_fmap. by exists (i, d').
             ++ apply B3. apply elem_of_list_fmap. by exists (i, d').
          -- rewrite fset_ne by done. rewrite <- A4. split; [tauto|]. intros [?|[?|?]]; [tauto|congruence|tauto].
      + intros j d'. destruct (decide (j = i)) as [->|Hj]; [by rewrite fset_eq|]. rewrite fset_ne by done. intros Hp.
        destruct (A5 _ _ Hp) as (q & Hq1 & Hq2). exists q. split.
        * rewrite snoc_in; [done|]. by eapply lookup_lt_Some.
        * intros q' g' d1 Hlt Hx. apply snoc_inv in Hx as [[_ Hx]|[_ Hx]]; [by eapply Hq2|congruence].
    - eapply J_keep; [exact HJ|done|done|done|]; simpl. done.
    - eapply J_keep; [exact HJ|done|done|done|]; simpl. done.
    - eapply J_keep; [exact HJ|done|done|done|]; simpl. intros j d. unfold fset. case_decide; subst; split; intros; congruence.
    - eapply J_keep; [exact HJ|done|done|done|]; simpl. intros j d. unfold fset. case_decide; subst; split; intros; congruence.
    - eapply J_keep; [exact HJ|done|done|done|]; simpl. intros j d. unfold fset. case_decide; subst; split; intros; congruence.
  Qed.
  Lemma reach_J s : reach s → J s.
  Proof. intros Hr. apply (rtc_ind_r J init) in Hr; [done|apply J_init|]. intros; by eapply J_step. Qed.

  Lemma reach_prefix s : reach s → ∀ e, e ≤ length (tr s) → ∃ s', reach s' ∧ tr s' = take e (tr s).
  Proof.
    intros Hr. apply (rtc_ind_r (λ s, reach s ∧ ∀ e, e ≤ length (tr s) → ∃ s', reach s' ∧ tr s' = take e (tr s)) init) in Hr; [apply Hr| |].
    - split; [apply rtc_refl|]. simpl. intros e He. exists init. split; [apply rtc_refl|]. by rewrite take_nil.
    - intros y z _ Hst [Hy IH]. assert (reach z) as Hz by (eapply rtc_r; eauto). split; [done|]. intros e He.
      assert (∃ x, tr z = tr y ++ [x]) as (x & Ex) by (destruct Hst; simpl; eauto). rewrite Ex, app_length in He. simpl in He.
      destruct (decide (e ≤ length (tr y))) as [Hl|].
      + destruct (IH _ Hl) as (s' & ? & E). exists s'. split; [done|]. rewrite Ex, take_app_le by done. done.
      + exists z. split; [done|]. rewrite take_ge; [done|]. rewrite Ex, app_length. simpl. lia.
  Qed.
  Lemma sum_app R o t t' : sum_adds R o (t ++ t') = (sum_adds R o t + sum_adds R (o + length t) t')%Z.
  Proof.
    revert o. induction t as [|x t IH]; intros o; simpl; [by rewrite Nat.add_0_r|]. rewrite IH. replace (S o + length t) with (o + S (length t)) by lia.
    destruct x; lia.
  Qed.

  (** Which updates a call of [len] counts. *)
  Theorem C60_len t : execution n sh t → ∃ R : nat → nat → bool, ∀ b e i v, call t b e i v →
    v = Z.to_nat (sum_adds (R e) 0 t) ∧
    (* it counts updates made before it returned *)
    (∀ p, R e p = true → is_add t p ∧ p < e) ∧
    (* all updates that happen before it starts *)
    (∀ p, is_add t p → hb t p b → R e p = true) ∧
    (* of two updates through the same guard, the later one only with the earlier one *)
    (∀ p q g j j' d d', t !! p = Some (LAdd j g d) → t !! q = Some (LAdd j' g d') → p < q → R e q = true → R e p = true) ∧
    (* and everything that a call of len that happens before it counted *)
    (∀ b' e' i' v', call t b' e' i' v' → hb t e' b → ∀ p, R e' p = true → R e p = true).
  Proof.
    intros (s & Hr & <-). apply reach_I in Hr as H. exists (λ e, inR (ga s) (gr s e)). intros b e i v Hc.
    destruct (i_ret _ H _ _ _ _ Hc) as [E1 E2]. pose proof Hc as (_ & He & Hbe & _). split_and!; [done| | | |].
    - intros p Hp. unfold inR in Hp. destruct (ga s p) as [[k ts]|] eqn:E; [|done]. apply bool_decide_eq_true in Hp.
      assert (is_add (tr s) p) as Ha by (apply (i_ga _ H); eauto). split; [done|].
      destruct (lt_eq_lt_dec p e) as [[?|<-]|Hlt]; [done| |].
      + destruct Ha as (?&?&?&Ha). congruence.
      + assert (gr s e k < ts); [|lia]. apply (i_early _ H e p k ts E Hlt). by eapply lookup_lt_Some.
    - intros p Ha Hhb. apply (i_ga _ H) in Ha as [[k ts] E]. destruct (ga_shard _ _ _ _ H E) as (_ & Hk & _).
      specialize (E2 p k Hhb Hk). unfold fl, vjoin, vat in E2. rewrite E in E2. rewrite decide_True in E2 by done.
      unfold inR. rewrite E. apply bool_decide_eq_true. lia.
    - intros p q g j j' d d' Hp Hq Hlt HR. destruct (i_shard _ H _ _ _ _ Hp) as (t1 & F1 & _). destruct (i_shard _ H _ _ _ _ Hq) as (t2 & F2 & _).
      unfold inR in *. rewrite F1. rewrite F2 in HR. apply bool_decide_eq_true in HR. apply bool_decide_eq_true.
      assert (S t1 < S t2) by (by eapply (i_ord _ H p q)). lia.
    - intros b' e' i' v' Hc' Hhb p HR. unfold inR in *. destruct (ga s p) as [[k ts]|] eqn:E; [|done]. apply bool_decide_eq_true in HR.
      destruct (ga_shard _ _ _ _ H E) as (_ & Hk & _). specialize (E2 e' k Hhb Hk). apply bool_decide_eq_true. unfold fl, vjoin in E2. lia.
  Qed.

  (** If every change and every update of the counter happens before the call, and none is pending, [len] is the number of keys: insertions minus removals. *)
  Theorem C60_exact t b e i v : execution n sh t → call t b e i v →
    (∀ p j d, p < e → t !! p = Some (LChange j d) → ∃ q g d', p < q ∧ q < e ∧ t !! q = Some (LAdd j g d')) →
    (∀ p, p < e → is_add t p → hb t p b) →
    Z.of_nat v = sum_changes (take e t).
  Proof.
    intros Hex Hc Hq Hhb. destruct (C60_len t Hex) as (R & HR). destruct (HR _ _ _ _ Hc) as (E & R1 & R2 & _).
    pose proof Hc as (_ & He & _ & _). apply lookup_lt_Some in He as Hlt.
    destruct Hex as (s & Hr & <-). destruct (reach_prefix s Hr e) as (s' & Hr' & Et); [lia|].
    destruct (reach_J _ Hr') as (J1 & (ow & J2 & J3 & J4) & J5). rewrite Et in *.
    assert (ow = []) as ->.
    { destruct ow as [|[j d] ow]; [done|]. assert (pc s' j = Owe d) as Hp by (apply J4; apply elem_of_list_here).
      destruct (J5 _ _ Hp) as (p & Hp1 & Hp2). apply lookup_take_Some in Hp1 as [Hp1 Hpe].
      destruct (Hq p j d Hpe Hp1) as (q & g & d' & H1 & H2 & H3). destruct (Hp2 q g d' H1). by rewrite lookup_take. }
    rewrite E. rewrite <- (take_drop e (tr s)) at 1. rewrite sum_app.
    assert (length (take e (tr s)) = e) as El by (rewrite take_length; lia). rewrite El. simpl.
    rewrite (sum_none (R e) (drop e (tr s))).
    2: { intros p _. destruct (R e (e + p)) eqn:Er; [|done]. apply R1 in Er as [_ Er]. lia. }
    rewrite (sum_ext (R e) (λ _, true)).
    2: { intros p Ha. apply add_lt in Ha as Hl. rewrite El in Hl. destruct Ha as (j & g & d & Ha). rewrite lookup_take in Ha by done. apply R2; [by eexists _, _, _|].
      apply Hhb; [done|by eexists _, _, _]. }
    simpl in J2. lia.
  Qed.

  Lemma sum_mono R R' t o : (∀ p j g d, t !! p = Some (LAdd j g d) → R (o + p) = R' (o + p) ∨ (R (o + p) = false ∧ (0 ≤ d)%Z) ∨ (R' (o + p) = false ∧ (d ≤ 0)%Z)) →
    (sum_adds R o t ≤ sum_adds R' o t)%Z.
  Proof.
    revert o. induction t as [|x t IH]; intros o H; [done|]. simpl.
    assert (sum_adds R (S o) t ≤ sum_adds R' (S o) t)%Z as E.
    { apply IH. intros p j g d Hp. specialize (H (S p) j g d Hp). by rewrite <- !plus_n_Sm in H. }
    destruct x; try done. specialize (H 0 i g d eq_refl). rewrite Nat.add_0_r in H.
    destruct H as [->|[[-> ?]|[-> ?]]]; [destruct (R' o)|destruct (R' o)|destruct (R o)]; lia.
  Qed.
  (** If no removal is concurrent with the call, [len] is at least the sum of the updates [K] that happen before it, and at most that of all updates before it returns. *)
  Theorem C60_growing t b e i v K : execution n sh t → call t b e i v → (∀ p, is_add t p → K p = true ↔ hb t p b) →
    (∀ p j g d, p < e → t !! p = Some (LAdd j g d) → (d < 0)%Z → hb t p b) →
    (sum_adds K 0 t ≤ Z.of_nat v ≤ Z.max 0 (sum_adds (λ p, bool_decide (p < e)%nat) 0 t))%Z.
  Proof.
    intros Hex Hc HK Hd. destruct (C60_len t Hex) as (R & HR). destruct (HR _ _ _ _ Hc) as (E & R1 & R2 & _).
    pose proof Hc as (_ & _ & Hbe & _).
    assert (sum_adds K 0 t ≤ sum_adds (R e) 0 t)%Z as E1.
    { apply sum_mono. simpl. intros p j g d Hp. assert (is_add t p) as Ha by (by eexists _, _, _). destruct (K p) eqn:Ek.
      - left. symmetry. apply R2; [done|]. by apply HK.
      - destruct (R e p) eqn:Er; [|by left]. right. left. split; [done|]. apply R1 in Er as [_ Hpe].
        destruct (decide (0 ≤ d)%Z); [done|]. assert (K p = true); [|congruence]. apply HK; [done|]. eapply Hd; eauto. lia. }
    assert (sum_adds (R e) 0 t ≤ sum_adds (λ p, bool_decide (p < e)%nat) 0 t)%Z as E2.
    { apply sum_mono. simpl. intros p j g d Hp. assert (is_add t p) as Ha by (by eexists _, _, _). destruct (R e p) eqn:Er.
      - left. symmetry. apply bool_decide_eq_true. by apply R1.
      - destruct (bool_decide (p < e)%nat) eqn:Eb; [|by left]. right. left. split; [done|]. apply bool_decide_eq_true in Eb.
        destruct (decide (0 ≤ d)%Z); [done|]. assert (R e p = true); [|congruence]. apply R2; [done|]. eapply Hd; eauto. lia. }
    lia.
  Qed.
  (** The same if no insertion is concurrent with the call. *)
  Theorem C60_shrinking t b e i v K : execution n sh t → call t b e i v → (∀ p, is_add t p → K p = true ↔ hb t p b) →
    (∀ p j g d, p < e → t !! p = Some (LAdd j g d) → (0 < d)%Z → hb t p b) →
    (sum_adds (λ p, bool_decide (p < e)%nat) 0 t ≤ Z.of_nat v ≤ Z.max 0 (sum_adds K 0 t))%Z.
  Proof.
    intros Hex Hc HK Hd. destruct (C60_len t Hex) as (R & HR). destruct (HR _ _ _ _ Hc) as (E & R1 & R2 & _).
    assert (sum_adds (R e) 0 t ≤ sum_adds K 0 t)%Z as E1.
    { apply sum_mono. simpl. intros p j g d Hp. assert (is_add t p) as Ha by (by eexists _, _, _). destruct (K p) eqn:Ek.
      - left. apply R2; [done|]. by apply HK.
      - destruct (R e p) eqn:Er; [|by left]. right. right. split; [done|]. apply R1 in Er as [_ Hpe].
        destruct (decide (d ≤ 0)%Z); [done|]. assert (K p = true); [|congruence]. apply HK; [done|]. eapply Hd; eauto. lia. }
    assert (sum_adds (λ p, bool_decide (p < e)%nat) 0 t ≤ sum_adds (R e) 0 t)%Z as E2.
    { apply sum_mono. simpl. intros p j g d Hp. assert (is_add t p) as Ha by (by eexists _, _, _). destruct (R e p) eqn:Er.
      - left. apply bool_decide_eq_true. by apply R1.
      - destruct (bool_decide (p < e)%nat) eqn:Eb; [|by left]. right. right. split; [done|]. apply bool_decide_eq_true in Eb.
        destruct (decide (d ≤ 0)%Z); [done|]. assert (R e p = true); [|congruence]. apply R2; [done|]. eapply Hd; eauto. lia. }
    lia.
  Qed.
End proof.

(** The hypotheses can be met, and they are needed: the same insertion is missed by a thread that has not synchronised with it. *)
Definition ex_trace : list label :=
  [LChange 0 1; LAdd 0 0 1; LStart 2; LRead 2; LRet 2 0; LSend 0 7; LRecv 1 7; LStart 1; LRead 1; LRet 1 1].
Lemma ex_run : execution 1 (λ _, 0) ex_trace.
Proof.
  eexists. split.
  - eapply rtc_l; [apply (S_change 1 (λ _, 0) _ _ _ _ _ _ _ 0 1); by eauto|].
    eapply rtc_l; [apply (S_add 1 (λ _, 0) _ _ _ _ _ _ _ 0 0 1 0 0); by eauto|].
    eapply rtc_l; [apply (S_start 1 (λ _, 0) _ _ _ _ _ _ _ 2); by eauto|].
    eapply rtc_l; [apply (S_read 1 (λ _, 0) _ _ _ _ _ _ _ 2 0 0 (λ _, 0) 0 0); by eauto|].
    eapply rtc_l; [eapply (S_ret 1 (λ _, 0) _ _ _ _ _ _ _ 2); by eauto|].
    eapply rtc_l; [apply (S_send 1 (λ _, 0) _ _ _ _ _ _ _ 0 7); by eauto|].
    eapply rtc_l; [eapply (S_recv 1 (λ _, 0) _ _ _ _ _ _ _ 1 7); by eauto|].
    eapply rtc_l; [apply (S_start 1 (λ _, 0) _ _ _ _ _ _ _ 1); by eauto|].
    eapply rtc_l; [apply (S_read 1 (λ _, 0) _ _ _ _ _ _ _ 1 0 0 (λ _, 0) 1 1); by eauto|].
    eapply rtc_l; [eapply (S_ret 1 (λ _, 0) _ _ _ _ _ _ _ 1); by eauto|].
    apply rtc_refl.
  - done.
Qed.
Example C60_ex : call ex_trace 7 9 1 1 ∧ call ex_trace 2 4 2 0 ∧ sum_changes (take 9 ex_trace) = 1%Z ∧ sum_changes (take 4 ex_trace) = 1%Z ∧
  (∀ p j d, p < 9 → ex_trace !! p = Some (LChange j d) → ∃ q g d', p < q ∧ q < 9 ∧ ex_trace !! q = Some (LAdd j g d')) ∧
  (∀ p, p < 9 → is_add ex_trace p → hb ex_trace p 7).
Proof.
  split_and!; try done.
  - split_and!; try done; [lia|]. intros p H1 H2. by (replace p with 8 by lia).
  - split_and!; try done; [lia|]. intros p H1 H2. by (replace p with 3 by lia).
  - intros p j d Hp Hq. do 10 (destruct p as [|p]; [simplify_eq/=; try (exists 1, 0, 1%Z; split_and!; [lia|lia|done])|]). lia.
  - intros p Hp (j & g & d & Hq). destruct (decide (p = 1)) as [->|Hne].
    2: { exfalso. clear -Hp Hq Hne. do 9 (destruct p as [|p]; [first [by destruct Hne|vm_compute in Hq; congruence]|]). lia. }
    eapply hb_trans; [eapply (hb_po _ 1 5); [lia|reflexivity..]|].
    eapply hb_trans; [eapply (hb_sync _ 5 6); [lia|reflexivity..]|]. eapply (hb_po _ 6 7); [lia|reflexivity..].
Qed.
(** The hypotheses of C60_growing (those of C60_shrinking are met in the same way, when no insertion is concurrent). The insertion at 1 is concurrent with the call at 2. *)
Example C60_ex2 : call ex_trace 2 4 2 0 ∧ (∀ p, is_add ex_trace p → (λ _ : nat, false) p = true ↔ hb ex_trace p 2) ∧
  (∀ p j g d, p < 4 → ex_trace !! p = Some (LAdd j g d) → (d < 0)%Z → hb ex_trace p 2).
Proof.
  assert (∀ p, ¬ hb ex_trace p 2) as Hno.
  { assert (∀ p q, hb ex_trace p q → q ≠ 2); [|intros p Hp; by apply H in Hp].
    induction 1 as [p q x y Hlt Hx Hy Hw|p q i j x Hlt Hx Hy|]; [| |done].
    - intros ->. vm_compute in Hy. injection Hy as <-. destruct p as [|[|p]]; [| |lia]; vm_compute in Hx; injection Hx as <-; done.
    - intros ->. done. }
  split; [split_and!; [done|done|lia|]|split].
  - intros p H1 H2. by (replace p with 3 by lia).
  - intros p _. split; [done|]. intros Hp. by destruct (Hno p).
  - intros p j g d Hp Hq Hd. do 4 (destruct p as [|p]; [vm_compute in Hq; simplify_eq; done|]). lia.
Qed.
