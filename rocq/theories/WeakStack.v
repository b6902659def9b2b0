(** C61: the stack of deferred retirements (src/raw/utils/stack.rs) under weak memory.

    C32 proves that the stack loses and duplicates nothing when all accesses are sequentially consistent. In the code every access to it is Relaxed, which its comments justify by
    the fact that only [drain] reads nodes, and that it has exclusive access ([&mut self]). Exclusive access means that everything done to the stack happens before the drain.
    Here this is proved: [drain] then finds every pushed value exactly once, the last one first, and reads no node whose writes it might race with.

    Memory model: the head pointer has messages with timestamps (its modification order); a thread may read any message not older than the last one it knows about (its view);
    a Relaxed access makes the thread know about the message and hands on nothing else; a successful compare-exchange reads a message and writes the immediately next one; a
    failing one may read any readable message with another value. Nodes are ordinary memory: each write gives the node a new version, and a read by a thread that does not know the
    last version is a data race. All other synchronisation between threads is one pair of steps: a thread sends its view, any thread may receive it later.
    Simplifications: no load buffering through Relaxed accesses; nodes are not freed (drain frees them as it goes along; the stack is dropped afterwards: mod.rs:2796). *)
From stdpp Require Import base list option numbers relations.
Local Open Scope nat_scope.

(** What happens, in the order of execution. *)
Inductive label :=
  | LPush (i v : nat)                  (* thread i's compare-exchange that links the value v succeeds: 49-56 *)
  | LStep (i : nat)                    (* other steps of push *)
  | LSend (i x : nat) | LRecv (i x : nat)  (* synchronisation: x names what is handed on *)
  | LDrain (i : nat)                   (* call of drain *)
  | LPop (i v : nat)                   (* drain hands v to its closure: 69 *)
  | LRace (i : nat)                    (* drain reads a node whose last write does not happen before: undefined behaviour *)
  | LDone (i : nat) (l : list nat).    (* drain returns; ghost: the values it handed out *)
Definition who (l : label) : nat :=
  match l with LPush i _ | LStep i | LSend i _ | LRecv i _ | LDrain i | LPop i _ | LRace i | LDone i _ => i end.

Inductive loc := Hd | Nd (n : nat).
Global Instance loc_dec : EqDecision loc. Proof. solve_decision. Defined.
Definition view := loc → nat.
Definition vjoin (w w' : view) : view := λ k, w k `max` w' k.
Definition vat (k : loc) (ts : nat) : view := λ k', if decide (k' = k) then ts else 0.
Definition fset {A} (f : nat → A) (a : nat) (b : A) : nat → A := λ a', if decide (a' = a) then b else f a'.

(** Program points: idle; about to load the head (with its node and the value to be pushed); about to exchange it (with also the head loaded); draining (next node, values so far). *)
Inductive pt := Idle | P0 (n v : nat) | P1 (n v : nat) (h : option nat) | Dr (h : option nat) (l : list nat).
Record wst := WSt {
  mem : nat → option (option nat);           (* messages of the head *)
  nd : nat → option (nat * option nat);      (* nodes: value, next *)
  ver : nat → nat;                           (* number of writes to a node *)
  vw : nat → view;
  sent : nat → option view;
  pc : nat → pt;
  tr : list label;                           (* trace (ghost) *)
  ga : nat → option (nat * nat) }.           (* timestamp and node of the LPush at a position of the trace (ghost) *)

(* stack.rs:25 new *)
Definition init : wst := WSt (λ ts, if decide (ts = 0) then Some None else None) (λ _, None) (λ _, 0) (λ _ _, 0) (λ _, None) (λ _, Idle) [] (λ _, None).

Inductive wstep : wst → wst → Prop :=
  (* 33-36: Box::new *)
  | S_alloc m d r w s p t a i n v : p i = Idle → d n = None →
      wstep (WSt m d r w s p t a)
        (WSt m (fset d n (Some (v, None))) (fset r n (S (r n))) (fset w i (vjoin (w i) (vat (Nd n) (S (r n))))) s (fset p i (P0 n v)) (t ++ [LStep i]) a)
  (* 42: head.load(Relaxed); 45: the field next of the node *)
  | S_load m d r w s p t a i n v u h0 h ts : p i = P0 n v → d n = Some (u, h0) → m ts = Some h → w i Hd ≤ ts →
      wstep (WSt m d r w s p t a)
        (WSt m (fset d n (Some (u, h))) (fset r n (S (r n))) (fset w i (vjoin (w i) (vjoin (vat Hd ts) (vat (Nd n) (S (r n)))))) s
             (fset p i (P1 n v h)) (t ++ [LStep i]) a)
  (* 50-53: compare_exchange(head, node, Relaxed, Relaxed) *)
  | S_push m d r w s p t a i n v h ts : p i = P1 n v h → m ts = Some h → w i Hd ≤ ts → m (S ts) = None →
      wstep (WSt m d r w s p t a)
        (WSt (fset m (S ts) (Some (Some n))) d r (fset w i (vjoin (w i) (vat Hd (S ts)))) s (fset p i Idle) (t ++ [LPush i v])
             (fset a (length t) (Some (S ts, n))))
  | S_fail m d r w s p t a i n v h h' ts : p i = P1 n v h → m ts = Some h' → w i Hd ≤ ts → h' ≠ h →
      wstep (WSt m d r w s p t a) (WSt m d r (fset w i (vjoin (w i) (vat Hd ts))) s (fset p i (P0 n v)) (t ++ [LStep i]) a)
  (* synchronisation, at any time *)
  | S_send m d r w s p t a i x : s x = None →
      wstep (WSt m d r w s p t a) (WSt m d r w (fset s x (Some (w i))) p (t ++ [LSend i x]) a)
  | S_recv m d r w s p t a i x u : s x = Some u →
      wstep (WSt m d r w s p t a) (WSt m d r (fset w i (vjoin (w i) u)) s p (t ++ [LRecv i x]) a)
  (* 62: head.get_mut(), an ordinary read *)
  | S_drain m d r w s p t a i h ts : p i = Idle → m ts = Some h → w i Hd ≤ ts →
      wstep (WSt m d r w s p t a) (WSt m d r (fset w i (vjoin (w i) (vat Hd ts))) s (fset p i (Dr h [])) (t ++ [LDrain i]) a)
  (* 66-72 *)
  | S_pop m d r w s p t a i n v h l : p i = Dr (Some n) l → d n = Some (v, h) → r n ≤ w i (Nd n) →
      wstep (WSt m d r w s p t a) (WSt m d r w s (fset p i (Dr h (l ++ [v]))) (t ++ [LPop i v]) a)
  | S_race m d r w s p t a i n l : p i = Dr (Some n) l → w i (Nd n) < r n →
      wstep (WSt m d r w s p t a) (WSt m d r w s (fset p i Idle) (t ++ [LRace i]) a)
  | S_done m d r w s p t a i l : p i = Dr None l →
      wstep (WSt m d r w s p t a) (WSt m d r w s (fset p i Idle) (t ++ [LDone i l]) a).

Definition reach : wst → Prop := rtc wstep init.
Definition execution (t : list label) : Prop := ∃ s, reach s ∧ tr s = t.

(** Specification, in terms of the trace only. Happens-before: program order and synchronisation. *)
Inductive hb (t : list label) : nat → nat → Prop :=
  | hb_po p q x y : p < q → t !! p = Some x → t !! q = Some y → who x = who y → hb t p q
  | hb_sync p q i j x : p < q → t !! p = Some (LSend i x) → t !! q = Some (LRecv j x) → hb t p q
  | hb_trans p q r : hb t p q → hb t q r → hb t p r.
(** The values pushed, in the order of the pushes. *)
Definition pushes (t : list label) : list nat := flat_map (λ x, match x with LPush _ v => [v] | _ => [] end) t.
(** Thread [i] calls drain at [b] and is in this call up to [e]. *)
Definition draining (t : list label) (b e i : nat) : Prop :=
  t !! b = Some (LDrain i) ∧ b < e ∧ ∀ p, b < p → p < e → t !! p ≠ Some (LDrain i).
(** Exclusive access up to [e]: every push happens before the call. *)
Definition exclusive (t : list label) (b e : nat) : Prop := ∀ p i v, p < e → t !! p = Some (LPush i v) → hb t p b.

(** * Proofs *)
Lemma fset_eq {A} (f : nat → A) a b : fset f a b a = b. Proof. unfold fset. by rewrite decide_True. Qed.
Lemma fset_ne {A} (f : nat → A) a b c : c ≠ a → fset f a b c = f c. Proof. unfold fset. intros. by rewrite decide_False. Qed.
Definition vle (w w' : view) := ∀ k, w k ≤ w' k.
Lemma vle_join_l w u : vle w (vjoin w u). Proof. intros k. unfold vjoin. lia. Qed.
Lemma vle_join_r w u : vle u (vjoin w u). Proof. intros k. unfold vjoin. lia. Qed.
Lemma vle_tr w u v : vle w u → vle u v → vle w v. Proof. intros A B k. specialize (A k); specialize (B k). lia. Qed.
Lemma vle_refl w : vle w w. Proof. by intros k. Qed.
Lemma vle_fset w i u j : vle (w i) u → vle (w j) (fset w i u j).
Proof. intros. unfold fset. case_decide; [by subst|apply vle_refl]. Qed.

Lemma snoc_in {A} (l : list A) x p : p < length l → (l ++ [x]) !! p = l !! p. Proof. intros. by apply lookup_app_l. Qed.
Lemma snoc_end {A} (l : list A) (x : A) : (l ++ [x]) !! length l = Some x. Proof. by apply list_lookup_middle. Qed.
Lemma snoc_inv {A} (l : list A) (x y : A) p : (l ++ [x]) !! p = Some y → (p < length l ∧ l !! p = Some y) ∨ (p = length l ∧ x = y).
Proof.
  intros Hq. destruct (decide (p < length l)) as [|Hn]; [rewrite snoc_in in Hq by done; auto|].
  assert (p < length (l ++ [x])) as Hb by (by eapply lookup_lt_Some). rewrite app_length in Hb; simpl in Hb.
  assert (p = length l) as -> by lia. rewrite snoc_end in Hq. right. by simplify_eq.
Qed.
Lemma hb_lt t p q : hb t p q → p < q. Proof. induction 1; lia. Qed.
Lemma hb_bnd t p q : hb t p q → q < length t. Proof. induction 1; eauto using lookup_lt_Some. Qed.
Lemma hb_back t u p q : hb (t ++ u) p q → q < length t → hb t p q.
Proof.
  induction 1 as [p q a b Hlt Ha Hb Hw|p q i j y Hlt Ha Hb|p q r H1 IH1 H2 IH2]; intros Hq.
  - rewrite lookup_app_l in Ha by lia. rewrite lookup_app_l in Hb by lia. by eapply hb_po.
  - rewrite lookup_app_l in Ha by lia. rewrite lookup_app_l in Hb by lia. by eapply hb_sync.
  - apply hb_lt in H2 as ?. eapply hb_trans; [apply IH1; lia|by apply IH2].
Qed.
Lemma hb_last t x p : hb (t ++ [x]) p (length t) →
  ∃ q, q < length t ∧ (p = q ∨ hb t p q) ∧ ((∃ y, t !! q = Some y ∧ who y = who x) ∨ (∃ i j m, t !! q = Some (LSend i m) ∧ x = LRecv j m)).
Proof.
  remember (length t) as e. induction 1 as [p q a b Hlt Ha Hb Hw|p q i j y Hlt Ha Hb|p q r H1 IH1 H2 IH2]; subst.
  - rewrite snoc_in in Ha by lia. rewrite snoc_end in Hb. simplify_eq. exists p. split_and!; eauto.
  - rewrite snoc_in in Ha by lia. rewrite snoc_end in Hb. simplify_eq. exists p. split_and!; eauto 10.
  - destruct (IH2 eq_refl) as (q' & Hlt & Hor & Hl). exists q'. split_and!; [done| |done].
    apply hb_lt in H2 as ?. apply hb_back in H1; [|lia]. right. destruct Hor as [->|]; [done|by eapply hb_trans].
Qed.
Lemma pushes_snoc t x : pushes (t ++ [x]) = pushes t ++ (match x with LPush _ v => [v] | _ => [] end).
Proof. unfold pushes. rewrite flat_map_app. simpl. by rewrite app_nil_r. Qed.

(** What a push guarantees to those who know of it. *)
Definition fl (s : wst) (p : nat) : view := match ga s p with Some (ts, n) => vjoin (vat Hd ts) (vat (Nd n) (ver s n)) | None => λ _, 0 end.
Definition hbe t p q := p = q ∨ hb t p q.
Definition own (p : pt) : option nat := match p with P0 n _ | P1 n _ _ => Some n | _ => None end.
Definition link_ok (d : nat → option (nat * option nat)) (p : pt) : Prop :=
  match p with P0 n v => ∃ h, d n = Some (v, h) | P1 n v h => d n = Some (v, h) | _ => True end.
Definition own_ok (s : wst) i n : Prop :=
  is_Some (nd s n) ∧ ver s n ≤ vw s i (Nd n) ∧ (∀ ts, mem s ts ≠ Some (Some n)) ∧ ∀ j, own (pc s j) = Some n → j = i.
Definition dr_ok (s : wst) i h l : Prop :=
  ∃ b ts0 ts, tr s !! b = Some (LDrain i) ∧ (∀ p, b < p → tr s !! p ≠ Some (LDrain i)) ∧ mem s ts = Some h ∧ ts ≤ ts0 ∧ is_Some (mem s ts0) ∧
    l ++ reverse (take ts (pushes (tr s))) = reverse (take ts0 (pushes (tr s))) ∧ ∀ p, hb (tr s) p b → fl s p Hd ≤ ts0.
Record I (s : wst) : Prop := {
  i_mem : ∀ ts, is_Some (mem s ts) ↔ ts ≤ length (pushes (tr s));
  i_zero : mem s 0 = Some None;
  i_node : ∀ ts h, mem s (S ts) = Some h → ∃ n v h', h = Some n ∧ nd s n = Some (v, h') ∧ mem s ts = Some h' ∧ pushes (tr s) !! ts = Some v;
  i_pushed : ∀ ts n, mem s ts = Some (Some n) → ∃ p, ga s p = Some (ts, n);
  i_ga : ∀ p ts n, ga s p = Some (ts, n) → mem s ts = Some (Some n) ∧ ∃ i v, tr s !! p = Some (LPush i v);
  i_own : ∀ i n, own (pc s i) = Some n → own_ok s i n;
  i_link : ∀ i, link_ok (nd s) (pc s i);
  i_vw : ∀ p q y, tr s !! q = Some y → hbe (tr s) p q → vle (fl s p) (vw s (who y));
  i_sent : ∀ p q i x, tr s !! q = Some (LSend i x) → hbe (tr s) p q → ∃ u, sent s x = Some u ∧ vle (fl s p) u;
  i_dr : ∀ i h l, pc s i = Dr h l → dr_ok s i h l }.

Lemma ga_new s p : I s → length (tr s) ≤ p → ga s p = None.
Proof.
  intros H Hp. destruct (ga s p) as [[ts n]|] eqn:E; [|done]. destruct (i_ga _ H _ _ _ E) as (_ & i & v & Ht). apply lookup_lt_Some in Ht. lia.
Qed.
Lemma link_ext d d' p : (∀ n, own p = Some n → d' n = d n) → link_ok d p → link_ok d' p.
Proof. destruct p; simpl; intros E; try done; by rewrite E. Qed.
Lemma mem_node s ts n : I s → mem s ts = Some (Some n) → is_Some (nd s n).
Proof.
  intros H Hm. destruct ts as [|ts]; [rewrite (i_zero _ H) in Hm; congruence|].
  destruct (i_node _ H _ _ Hm) as (n' & v & h' & E & Hn & _). simplify_eq. eauto.
Qed.

Lemma vw_step s s' x : I s → tr s' = tr s ++ [x] → (∀ p, p < length (tr s) → vle (fl s' p) (fl s p)) → (∀ j, vle (vw s j) (vw s' j)) →
  vle (fl s' (length (tr s))) (vw s' (who x)) → (∀ i m, x = LRecv i m → ∃ u, sent s m = Some u ∧ vle u (vw s' i)) →
  ∀ p q y, tr s' !! q = Some y → hbe (tr s') p q → vle (fl s' p) (vw s' (who y)).
Proof.
  intros H Et Hfl Hv Hn Hr p q y Hq Hh. rewrite Et in Hq, Hh. apply snoc_inv in Hq as [[Hlt Hq]|[-> <-]].
  - assert (hbe (tr s) p q) as Hh' by (destruct Hh as [->|Hh]; [by left|right; by eapply hb_back]).
    assert (p < length (tr s)) by (destruct Hh' as [->|Hh']; [done|apply hb_lt in Hh'; lia]).
    eapply vle_tr; [by apply Hfl|]. eapply vle_tr; [by eapply (i_vw _ H)|done].
  - destruct Hh as [->|Hh]; [done|]. destruct (hb_last _ _ _ Hh) as (q & Hlt & Hor & Hl).
    assert (p < length (tr s)) by (apply hb_lt in Hh; lia). eapply vle_tr; [by apply Hfl|].
    destruct Hl as [(y & Hy & <-)|(i & j & m & Hy & ->)].
    + eapply vle_tr; [by eapply (i_vw _ H)|done].
    + destruct (i_sent _ H p q i m Hy Hor) as (u & Hu & Hle). destruct (Hr j m eq_refl) as (u' & Hu' & Hle'). simplify_eq. by eapply vle_tr.
Qed.
Lemma sent_step s s' x : I s → tr s' = tr s ++ [x] → (∀ p, p < length (tr s) → vle (fl s' p) (fl s p)) →
  (∀ p q y, tr s' !! q = Some y → hbe (tr s') p q → vle (fl s' p) (vw s' (who y))) →
  (∀ m u, sent s m = Some u → sent s' m = Some u) → (∀ i m, x = LSend i m → sent s' m = Some (vw s' i)) →
  ∀ p q i m, tr s' !! q = Some (LSend i m) → hbe (tr s') p q → ∃ u, sent s' m = Some u ∧ vle (fl s' p) u.
Proof.
  intros H Et Hfl Hv Hs Hx p q i m Hq Hh. pose proof Hq as Hq0. rewrite Et in Hq. apply snoc_inv in Hq as [[Hlt Hq]|[-> ->]].
  - rewrite Et in Hh. assert (hbe (tr s) p q) as Hh' by (destruct Hh as [->|Hh]; [by left|right; by eapply hb_back]).
    assert (p < length (tr s)) by (destruct Hh' as [->|Hh']; [done|apply hb_lt in Hh'; lia]).
    destruct (i_sent _ H p q i m Hq Hh') as (u & Hu & Hle). exists u. split; [by apply Hs|]. eapply vle_tr; [by apply Hfl|done].
  - exists (vw s' i). split; [by apply Hx|]. by apply (Hv p _ _ Hq0).
Qed.

(** A drain in progress is not disturbed by steps of others that leave the messages in place. *)
Lemma dr_keep s s' x i h l : tr s' = tr s ++ [x] → x ≠ LDrain i → (∀ ts, is_Some (mem s ts) → mem s' ts = mem s ts) →
  (∀ ts, is_Some (mem s ts) ↔ ts ≤ length (pushes (tr s))) → (∀ p, p < length (tr s) → fl s' p = fl s p) → dr_ok s i h l → dr_ok s' i h l.
Proof.
  intros Et Hx Hm Hmem Hfl (b & ts0 & ts & Hb & Hn & Hts & Hle & Hts0 & Hl & Hh). assert (b < length (tr s)) by (by eapply lookup_lt_Some).
  exists b, ts0, ts. assert (ts0 ≤ length (pushes (tr s))) by by apply Hmem. split_and!.
  - by rewrite Et, snoc_in.
  - intros p Hp Hq. rewrite Et in Hq. apply snoc_inv in Hq as [[_ Hq]|[_ Hq]]; [by apply (Hn p)|done].
  - rewrite Hm; eauto.
  - done.
  - rewrite Hm; done.
  - rewrite Et, pushes_snoc, !take_app_le by lia. done.
  - intros p Hp. rewrite Et in Hp. apply hb_back in Hp; [|done]. apply hb_lt in Hp as ?. rewrite Hfl by lia. by apply Hh.
Qed.

(* steps that do not write the head *)
Lemma I_keep s s' x : I s → mem s' = mem s → ga s' = ga s → tr s' = tr s ++ [x] → (∀ i v, x ≠ LPush i v) →
  (∀ ts n, mem s ts = Some (Some n) → nd s' n = nd s n ∧ ver s' n = ver s n) →
  (∀ j, vle (vw s j) (vw s' j)) → (∀ i m, x = LRecv i m → ∃ u, sent s m = Some u ∧ vle u (vw s' i)) →
  (∀ m u, sent s m = Some u → sent s' m = Some u) → (∀ i m, x = LSend i m → sent s' m = Some (vw s' i)) →
  (∀ i n, own (pc s' i) = Some n → own_ok s' i n) → (∀ i, link_ok (nd s') (pc s' i)) →
  (∀ j h l, pc s' j = Dr h l → (pc s j = Dr h l ∧ x ≠ LDrain j) ∨ dr_ok s' j h l) → I s'.
Proof.
  intros H Em Eg Et Hx Hnd Hv Hrc Hs1 Hs3 Hown Hlink Hdr.
  assert (∀ p, fl s' p = fl s p) as Hfl.
  { intros p. unfold fl. rewrite Eg. destruct (ga s p) as [[ts n]|] eqn:E; [|done]. destruct (i_ga _ H _ _ _ E) as [Hm _].
    destruct (Hnd _ _ Hm) as [_ ->]. done. }
  assert (pushes (tr s') = pushes (tr s)) as Ep.
  { rewrite Et, pushes_snoc. destruct x; try apply app_nil_r. by destruct (Hx i v). }
  assert (∀ p q y, tr s' !! q = Some y → hbe (tr s') p q → vle (fl s' p) (vw s' (who y))) as Hvw.
  { eapply vw_step; eauto; [intros p Hp; rewrite Hfl; apply vle_refl|]. rewrite Hfl. unfold fl. rewrite (ga_new s) by done. intros k. lia. }
  split.
  - rewrite Em, Ep. apply (i_mem _ H).
  - rewrite Em. apply (i_zero _ H).
  - rewrite Em, Ep. intros ts h Hm. destruct (i_node _ H _ _ Hm) as (n & v & h' & -> & Hn & ?). exists n, v, h'. destruct (Hnd _ _ Hm) as [-> _]. done.
  - rewrite Em, Eg. apply (i_pushed _ H).
  - rewrite Em, Eg, Et. intros p ts n E. destruct (i_ga _ H _ _ _ E) as (? & i & v & Ht). split; [done|]. exists i, v. rewrite snoc_in; [done|].
    by eapply lookup_lt_Some.
  - done.
  - done.
  - done.
  - eapply sent_step; eauto. intros p Hp. rewrite Hfl. apply vle_refl.
  - intros j h l Hp. destruct (Hdr _ _ _ Hp) as [[Hp' Hne]|?]; [|done]. eapply (dr_keep s s' x); eauto using i_mem, i_dr. intros. by rewrite Em.
Qed.
Lemma own_keep s s' i n : own_ok s i n → mem s' = mem s → nd s' n = nd s n → ver s' n = ver s n → vle (vw s i) (vw s' i) →
  (∀ j, own (pc s' j) = Some n → own (pc s j) = Some n) → own_ok s' i n.
Proof.
  intros (H1 & H2 & H3 & H4) Em En Er Hv Hp. specialize (Hv (Nd n)). split_and!; [by rewrite En|rewrite Er; lia|by rewrite Em|]. intros j Hj. by apply H4, Hp.
Qed.

Lemma I_init : I init.
Proof.
  split; simpl; try done.
  - intros ts. case_decide; subst; split; intros Hx; eauto; try lia. by destruct Hx.
  - intros ts n. case_decide; done.
Qed.

Lemma I_step s s' : I s → wstep s s' → I s'.
Proof.
  intros H Hs. destruct Hs; simpl in *.
  - (* alloc *)
    assert (∀ ts, m ts ≠ Some (Some n)) as Hm by (intros ts Hx; destruct (mem_node _ _ _ H Hx) as [? Hy]; simpl in Hy; congruence).
    assert (∀ j, own (p j) ≠ Some n) as Hp by (intros j Hx; destruct (i_own _ H _ _ Hx) as ([? Hy] & _); simpl in Hy; congruence).
    eapply (I_keep _ _ (LStep i) H); simpl; eauto; try done.
    + intros ts n' Hx. assert (n' ≠ n) by (intros ->; by apply (Hm ts)). by rewrite !fset_ne.
    + intros. apply vle_fset, vle_join_l.
    + intros j n' Hj. destruct (decide (j = i)) as [->|Hji].
      * rewrite fset_eq in Hj. simpl in Hj. injection Hj as <-. split_and!; simpl; rewrite ?fset_eq; [eauto| |done|].
        -- unfold vjoin, vat. rewrite decide_True by done. lia.
        -- intros j Hj. destruct (decide (j = i)) as [|Hne]; [done|]. rewrite fset_ne in Hj by done. by destruct (Hp j).
      * rewrite fset_ne in Hj by done. assert (n' ≠ n) by (intros ->; by apply (Hp j)).
        eapply own_keep; [by apply (i_own _ H)|simpl..]; rewrite ?fset_ne by done; try done; [apply vle_refl|].
        intros j'. destruct (decide (j' = i)) as [->|]; [|by rewrite fset_ne]. rewrite fset_eq. simpl. congruence.
    + intros j. destruct (decide (j = i)) as [->|Hji]; [rewrite fset_eq; simpl; exists None; by rewrite fset_eq|]. rewrite fset_ne by done.
      eapply link_ext; [|apply (i_link _ H j)]. intros n' Ho. apply fset_ne. intros ->. by apply (Hp j).
    + intros j h l Hj. left. split; [|done]. destruct (decide (j = i)) as [->|]; [by rewrite fset_eq in Hj|by rewrite fset_ne in Hj].
  - (* load *)
    assert (own (p i) = Some n) as Ho by by rewrite H0.
    destruct (i_own _ H _ _ Ho) as (O1 & O2 & O3 & O4). simpl in *.
    eapply (I_keep _ _ (LStep i) H); simpl; eauto; try done.
    + intros t' n' Hx. assert (n' ≠ n) by (intros ->; by apply (O3 t')). by rewrite !fset_ne.
    + intros. apply vle_fset, vle_join_l.
    + intros j n' Hj. destruct (decide (j = i)) as [->|Hji].
      * rewrite fset_eq in Hj. simpl in Hj. injection Hj as <-. split_and!; simpl; rewrite ?fset_eq; [eauto| |done|].
        -- unfold vjoin, vat. rewrite (decide_True (P := Nd n = Nd n)) by done. lia.
        -- intros j Hj. destruct (decide (j = i)) as [|Hne]; [done|]. rewrite fset_ne in Hj by done. by apply O4.
      * rewrite fset_ne in Hj by done. assert (n' ≠ n) by (intros ->; by apply Hji, O4).
        eapply own_keep; [by apply (i_own _ H)|simpl..]; rewrite ?fset_ne by done; try done; [apply vle_refl|].
        intros j'. destruct (decide (j' = i)) as [->|]; [|by rewrite fset_ne]. rewrite fset_eq. simpl. congruence.
    + intros j. destruct (decide (j = i)) as [->|Hji].
      * rewrite fset_eq; simpl. rewrite fset_eq. pose proof (i_link _ H i) as Hl. simpl in Hl. rewrite H0 in Hl. simpl in Hl. destruct Hl as (h1 & Hl). congruence.
      * rewrite fset_ne by done. eapply link_ext; [|apply (i_link _ H j)]. intros n' Hj. apply fset_ne. intros ->. by apply Hji, O4.
    + intros j h' l Hj. left. split; [|done]. destruct (decide (j = i)) as [->|]; [by rewrite fset_eq in Hj|by rewrite fset_ne in Hj].
  - (* push *)
    assert (own (p i) = Some n) as Ho by by rewrite H0.
    destruct (i_own _ H _ _ Ho) as (O1 & O2 & O3 & O4). pose proof (i_link _ H i) as Hl. simpl in *. rewrite H0 in Hl. simpl in Hl. rename v into v0.
    pose proof (i_mem _ H) as Hmem. simpl in Hmem. set (top := length (pushes t)) in *.
    assert (ts = top) as ->.
    { assert (ts ≤ top) by (apply Hmem; eauto). destruct (decide (S ts ≤ top)) as [Hc|]; [|lia]. apply Hmem in Hc as [? Hc]. congruence. }
    set (l := length t). assert (a l = None) as Hal by (apply (ga_new _ _ H); simpl; lia).
    assert (pushes (t ++ [LPush i v0]) = pushes t ++ [v0]) as Ep by by rewrite pushes_snoc.
    set (m' := fset m (S top) (Some (Some n))). set (a' := fset a l (Some (S top, n))).
    assert (∀ ts, is_Some (m ts) → m' ts = m ts) as Hm.
    { intros ts Hk. apply fset_ne. apply Hmem in Hk. lia. }
    set (st' := WSt _ _ _ _ _ _ _ _).
    assert (∀ q, q < l → fl st' q = fl (WSt m d r w s p t a) q) as Hfl.
    { intros q Hq. unfold fl. change (ga st') with a'. unfold a'. rewrite fset_ne by lia. done. }
    assert (∀ q q' y, tr st' !! q' = Some y → hbe (tr st') q q' → vle (fl st' q) (vw st' (who y))) as Hvw.
    { eapply (vw_step _ st' (LPush i v0) H); simpl; eauto; try done.
      - intros q Hq. rewrite Hfl by done. apply vle_refl.
      - intros j. apply vle_fset, vle_join_l.
      - rewrite fset_eq. unfold fl. change (ga st' (length t)) with (a' l). unfold a'. rewrite fset_eq. intros k. unfold vjoin, vat.
        change (ver st' n) with (r n). repeat case_decide; subst; try discriminate; lia. }
    split; simpl; fold l m' a'.
    + intros ts. rewrite Ep, app_length. simpl. fold top. unfold m', fset. case_decide as Hc.
      * subst ts. split; [lia|eauto].
      * rewrite Hmem. lia.
    + rewrite Hm; [apply (i_zero _ H)|]. apply Hmem. lia.
    + intros ts h1 Hx. rewrite Ep. unfold m' in Hx. destruct (decide (S ts = S top)) as [Hc|Hc].
      * injection Hc as ->. rewrite fset_eq in Hx. injection Hx as <-. exists n, v0, h. split_and!; [done|done| |].
        -- rewrite Hm; eauto.
        -- apply snoc_end.
      * rewrite fset_ne in Hx by done. destruct (i_node _ H _ _ Hx) as (n1 & v1 & h1' & -> & N1 & N2 & N3). simpl in *. exists n1, v1, h1'.
        split_and!; [done|done|rewrite Hm; eauto|]. rewrite snoc_in; [done|]. by eapply lookup_lt_Some.
    + intros ts n1 Hx. unfold m' in Hx. destruct (decide (ts = S top)) as [->|Hc].
      * rewrite fset_eq in Hx. injection Hx as <-. exists l. unfold a'. by rewrite fset_eq.
      * rewrite fset_ne in Hx by done. destruct (i_pushed _ H _ _ Hx) as (q & Hq). simpl in Hq. exists q. unfold a'. rewrite fset_ne; [done|congruence].
    + intros q ts n1 Hx. unfold a' in Hx. destruct (decide (q = l)) as [->|Hc].
      * rewrite fset_eq in Hx. injection Hx as <- <-. unfold m'. rewrite fset_eq. split; [done|]. exists i, v0. unfold l. by rewrite snoc_end.
      * rewrite fset_ne in Hx by done. destruct (i_ga _ H _ _ _ Hx) as (G1 & i1 & v1 & G2). simpl in *. rewrite Hm by eauto. split; [done|].
        exists i1, v1. rewrite snoc_in; [done|]. by eapply lookup_lt_Some.
    + intros j n1 Hj. destruct (decide (j = i)) as [->|Hji]; [by rewrite fset_eq in Hj|]. rewrite fset_ne in Hj by done.
      destruct (i_own _ H _ _ Hj) as (Q1 & Q2 & Q3 & Q4). simpl in *. assert (n1 ≠ n) by (intros ->; by apply Hji, O4).
      split_and!; simpl; [done|by rewrite fset_ne| |].
      * intros ts. unfold m', fset. case_decide; [congruence|done].
      * intros j1 Hj1. apply Q4. destruct (decide (j1 = i)) as [->|]; [by rewrite fset_eq in Hj1|by rewrite fset_ne in Hj1].
    + intros j. destruct (decide (j = i)) as [->|Hji]; [by rewrite fset_eq|]. rewrite fset_ne by done. apply (i_link _ H j).
    + done.
    + eapply (sent_step _ st' (LPush i v0) H); simpl; eauto; try done. intros q Hq. rewrite Hfl by done. apply vle_refl.
    + intros j h1 l1 Hj. assert (p j = Dr h1 l1) as Hj'.
      { destruct (decide (j = i)) as [->|Hji]; [by rewrite fset_eq in Hj|]. by rewrite fset_ne in Hj. }
      eapply (dr_keep (WSt m d r w s p t a) st' (LPush i v0)); simpl; eauto. apply (i_dr _ H j _ _ Hj').
  - (* failing exchange *)
    assert (own (p i) = Some n) as Ho by by rewrite H0.
    eapply (I_keep _ _ (LStep i) H); simpl; eauto; try done.
    + intros. apply vle_fset, vle_join_l.
    + intros j n' Hj. assert (own (p j) = Some n') as Hj'.
      { destruct (decide (j = i)) as [->|]; [rewrite fset_eq in Hj; simpl in Hj; by rewrite Ho|by rewrite fset_ne in Hj]. }
      eapply own_keep; [by apply (i_own _ H)|simpl..]; try done; [apply vle_fset, vle_join_l|].
      intros j'. destruct (decide (j' = i)) as [->|]; [|by rewrite fset_ne]. rewrite fset_eq. simpl. by rewrite Ho.
    + intros j. destruct (decide (j = i)) as [->|Hji]; [|rewrite fset_ne by done; apply (i_link _ H j)].
      rewrite fset_eq. pose proof (i_link _ H i) as Hl. simpl in *. rewrite H0 in Hl. simpl in Hl. eauto.
    + intros j h1 l Hj. left. split; [|done]. destruct (decide (j = i)) as [->|]; [by rewrite fset_eq in Hj|by rewrite fset_ne in Hj].
  - (* send *)
    eapply (I_keep _ _ (LSend i x) H); simpl; eauto; try done.
    + intros. apply vle_refl.
    + intros y u Hy. rewrite fset_ne; [done|]. by intros ->; simplify_eq.
    + intros j y [= -> ->]. by rewrite fset_eq.
    + intros j n Hj. eapply own_keep; [by apply (i_own _ H)|simpl; done..|apply vle_refl|done].
    + apply (i_link _ H).
  - (* receive *)
    eapply (I_keep _ _ (LRecv i x) H); simpl; eauto; try done.
    + intros. apply vle_fset, vle_join_l.
    + intros j y [= -> ->]. exists u. split; [done|]. rewrite fset_eq. apply vle_join_r.
    + intros j n Hj. eapply own_keep; [by apply (i_own _ H)|simpl; done..|apply vle_fset, vle_join_l|done].
    + apply (i_link _ H).
  - (* drain *)
    eapply (I_keep _ _ (LDrain i) H); simpl; eauto; try done.
    + intros. apply vle_fset, vle_join_l.
    + intros j n Hj. assert (own (p j) = Some n) as Hj'.
      { destruct (decide (j = i)) as [->|]; [by rewrite fset_eq in Hj|by rewrite fset_ne in Hj]. }
      eapply own_keep; [by apply (i_own _ H)|simpl; done..|apply vle_fset, vle_join_l|].
      intros j'. simpl. destruct (decide (j' = i)) as [->|]; [by rewrite fset_eq|by rewrite fset_ne].
    + intros j. destruct (decide (j = i)) as [->|Hji]; [by rewrite fset_eq|rewrite fset_ne by done; apply (i_link _ H j)].
    + intros j h1 l Hj. destruct (decide (j = i)) as [->|Hji].
      * rewrite fset_eq in Hj. injection Hj as <- <-. right. exists (length t), ts, ts. simpl. split_and!; [apply snoc_end| |done|done|eauto|done|].
        -- intros q Hq Hx. apply lookup_lt_Some in Hx. rewrite app_length in Hx. simpl in Hx. lia.
        -- intros q Hq. destruct (hb_last _ _ _ Hq) as (q' & Hlt & Hor & Hll).
           destruct Hll as [(y & Hy & Hw)|(? & ? & ? & _ & ?)]; [|done]. simpl in Hw.
           assert (vle (fl (WSt m d r w s p t a) q) (w i)) as Hf by (rewrite <- Hw; by apply (i_vw _ H q q')).
           specialize (Hf Hd). unfold fl in *. simpl in *. lia.
      * rewrite fset_ne in Hj by done. left. split; [done|congruence].
  - (* pop *)
    eapply (I_keep _ _ (LPop i v) H); simpl; eauto; try done.
    + intros. apply vle_refl.
    + intros j n1 Hj. assert (own (p j) = Some n1) as Hj'.
      { destruct (decide (j = i)) as [->|]; [by rewrite fset_eq in Hj|by rewrite fset_ne in Hj]. }
      eapply own_keep; [by apply (i_own _ H)|simpl; done..|apply vle_refl|].
      intros j'. simpl. destruct (decide (j' = i)) as [->|]; [by rewrite fset_eq|by rewrite fset_ne].
    + intros j. destruct (decide (j = i)) as [->|Hji]; [by rewrite fset_eq|rewrite fset_ne by done; apply (i_link _ H j)].
    + intros j h1 l1 Hj. destruct (decide (j = i)) as [->|Hji].
      * rewrite fset_eq in Hj. injection Hj as <- <-. right.
        destruct (i_dr _ H _ _ _ H0) as (b & ts0 & ts & Hb & Hn & Hts & Hle & Hts0 & Hl & Hh). simpl in *.
        destruct ts as [|ts]; [pose proof (i_zero _ H); simpl in *; congruence|].
        destruct (i_node _ H _ _ Hts) as (n1 & v1 & h' & E & N1 & N2 & N3). simpl in *. simplify_eq.
        assert (b < length t) by (by eapply lookup_lt_Some).
        exists b, ts0, ts. simpl. split_and!; [by rewrite snoc_in| |done|lia|done| |].
        -- intros q Hq Hx. apply snoc_inv in Hx as [[_ Hx]|[_ Hx]]; [by apply (Hn q)|done].
        -- rewrite pushes_snoc, app_nil_r. rewrite <- Hl. rewrite (take_S_r _ _ _ N3), reverse_snoc, <- app_assoc. done.
        -- intros q Hq. apply hb_back in Hq; [|done]. by apply (Hh q).
      * rewrite fset_ne in Hj by done. by left.
  - (* race *)
    eapply (I_keep _ _ (LRace i) H); simpl; eauto; try done.
    + intros. apply vle_refl.
    + intros j n1 Hj. assert (own (p j) = Some n1) as Hj'.
      { destruct (decide (j = i)) as [->|]; [by rewrite fset_eq in Hj|by rewrite fset_ne in Hj]. }
      eapply own_keep; [by apply (i_own _ H)|simpl; done..|apply vle_refl|].
      intros j'. simpl. destruct (decide (j' = i)) as [->|]; [by rewrite fset_eq|by rewrite fset_ne].
    + intros j. destruct (decide (j = i)) as [->|Hji]; [by rewrite fset_eq|rewrite fset_ne by done; apply (i_link _ H j)].
    + intros j h1 l1 Hj. left. split; [|done]. destruct (decide (j = i)) as [->|]; [by rewrite fset_eq in Hj|by rewrite fset_ne in Hj].
  - (* done *)
    eapply (I_keep _ _ (LDone i l) H); simpl; eauto; try done.
    + intros. apply vle_refl.
    + intros j n1 Hj. assert (own (p j) = Some n1) as Hj'.
      { destruct (decide (j = i)) as [->|]; [by rewrite fset_eq in Hj|by rewrite fset_ne in Hj]. }
      eapply own_keep; [by apply (i_own _ H)|simpl; done..|apply vle_refl|].
      intros j'. simpl. destruct (decide (j' = i)) as [->|]; [by rewrite fset_eq|by rewrite fset_ne].
    + intros j. destruct (decide (j = i)) as [->|Hji]; [by rewrite fset_eq|rewrite fset_ne by done; apply (i_link _ H j)].
    + intros j h1 l1 Hj. left. split; [|done]. destruct (decide (j = i)) as [->|]; [by rewrite fset_eq in Hj|by rewrite fset_ne in Hj].
Qed.
Lemma reach_I s : reach s → I s.
Proof. intros Hr. apply (rtc_ind_r I init) in Hr; [done|apply I_init|]. intros; by eapply I_step. Qed.

(** Every event of a trace is a step from the state before it. *)
Lemma reach_split s : reach s → ∀ e x, tr s !! e = Some x → ∃ s1 s2 u, reach s1 ∧ wstep s1 s2 ∧ tr s2 = tr s1 ++ [x] ∧ length (tr s1) = e ∧ tr s = tr s1 ++ x :: u.
Proof.
  intros Hr.
  apply (rtc_ind_r (λ s, reach s ∧ ∀ e x, tr s !! e = Some x → ∃ s1 s2 u, reach s1 ∧ wstep s1 s2 ∧ tr s2 = tr s1 ++ [x] ∧ length (tr s1) = e ∧ tr s = tr s1 ++ x :: u) init) in Hr; [apply Hr| |].
  - split; [apply rtc_refl|]. simpl. intros e x Hx. by rewrite lookup_nil in Hx.
  - intros y z _ Hst [Hy IH]. assert (reach z) as Hz by (eapply rtc_r; eauto). split; [done|]. intros e x Hx.
    assert (∃ x, tr z = tr y ++ [x]) as (x' & Ex) by (destruct Hst; simpl; eauto). rewrite Ex in Hx. apply snoc_inv in Hx as [[_ Hx]|[-> ->]].
    + destruct (IH _ _ Hx) as (s1 & s2 & u & ? & ? & ? & ? & E). exists s1, s2, (u ++ [x']). split_and!; try done. by rewrite Ex, E, <- app_assoc.
    + exists y, z, []. done.
Qed.
(* the state in which a drain is at position e of the trace *)
Lemma drain_at t b e i x : execution t → draining t b e i → exclusive t b e → t !! e = Some x →
  (∀ s1 s2, wstep s1 s2 → tr s2 = tr s1 ++ [x] → ∃ h l, pc s1 i = Dr h l) →
  ∃ s1 s2 h l ts, wstep s1 s2 ∧ tr s2 = tr s1 ++ [x] ∧ pc s1 i = Dr h l ∧ I s1 ∧ mem s1 ts = Some h ∧
    l ++ reverse (take ts (pushes (tr s1))) = reverse (pushes (take b t)) ∧ (∀ n, h = Some n → ver s1 n ≤ vw s1 i (Nd n)).
Proof.
  intros (s & Hr & <-) (Hb & Hbe & Hn) Hex He Hpc. destruct (reach_split _ Hr _ _ He) as (s1 & s2 & u & R1 & Hst & E2 & <- & E).
  destruct (Hpc _ _ Hst E2) as (h & l & Hp). apply reach_I in R1 as H1. destruct (i_dr _ H1 _ _ _ Hp) as (b' & ts0 & ts & Hb' & Hn' & Hts & Hle & Hts0 & Hl & Hh).
  rewrite E in Hb. rewrite lookup_app_l in Hb by done.
  assert (b' = b) as ->.
  { destruct (lt_eq_lt_dec b' b) as [[Hc|Hc]|Hc]; [by destruct (Hn' b Hc)|done|].
    destruct (Hn b' Hc); [by eapply lookup_lt_Some|]. rewrite E, lookup_app_l by (by eapply lookup_lt_Some). done. }
  assert (∀ q j v, tr s1 !! q = Some (LPush j v) → hb (tr s1) q b) as Hall.
  { intros q j v Hq. assert (q < length (tr s1)) by (by eapply lookup_lt_Some).
    assert (hb (tr s) q b) as Hx by (eapply (Hex q j v); [done|by rewrite E, lookup_app_l]). rewrite E in Hx. by eapply hb_back. }
  assert (ts0 = length (pushes (tr s1))) as ->.
  { assert (ts0 ≤ length (pushes (tr s1))) by by apply (i_mem _ H1).
    destruct (decide (ts0 = length (pushes (tr s1)))) as [|Hne]; [done|].
    destruct (length (pushes (tr s1))) as [|k] eqn:Ek; [lia|].
    assert (is_Some (mem s1 (S k))) as [h1 Hm] by (apply (i_mem _ H1); lia).
    destruct (i_node _ H1 _ _ Hm) as (n & v & h' & -> & _). destruct (i_pushed _ H1 _ _ Hm) as (q & Hq).
    destruct (i_ga _ H1 _ _ _ Hq) as (_ & j & v1 & Hq'). specialize (Hh q (Hall _ _ _ Hq')). unfold fl in Hh. rewrite Hq in Hh.
    unfold vjoin, vat in Hh. rewrite decide_True in Hh by done. lia. }
  assert (pushes (take b (tr s)) = pushes (tr s1)) as Ep.
  { rewrite E, take_app_le by lia. rewrite <- (take_drop b (tr s1)) at 2. unfold pushes at 2. rewrite flat_map_app. fold (pushes (take b (tr s1))).
    replace (flat_map _ (drop b (tr s1))) with (@nil nat); [by rewrite app_nil_r|].
    symmetry. assert (∀ y, y ∈ drop b (tr s1) → ∀ j v, y ≠ LPush j v) as Hno.
    { intros y Hy j v ->. apply elem_of_list_lookup in Hy as (q & Hq). rewrite lookup_drop in Hq. specialize (Hall _ _ _ Hq). apply hb_lt in Hall. lia. }
    induction (drop b (tr s1)) as [|y t IH]; [done|]. simpl. rewrite IH by (intros; apply Hno; by apply elem_of_list_further).
    destruct y; try done. by destruct (Hno (LPush i0 v) ltac:(apply elem_of_list_here) i0 v). }
  exists s1, s2, h, l, ts. split_and!; try done.
  - rewrite Ep, Hl, take_ge; done.
  - intros n ->. destruct (i_pushed _ H1 _ _ Hts) as (q & Hq). destruct (i_ga _ H1 _ _ _ Hq) as (_ & j & v1 & Hq').
    assert (vle (fl s1 q) (vw s1 i)) as Hf by (apply (i_vw _ H1 q b _ Hb); right; by eapply Hall).
    specialize (Hf (Nd n)). unfold fl, vjoin, vat in Hf. rewrite Hq in Hf. rewrite (decide_True (P := Nd n = Nd n)) in Hf by done. lia.
Qed.

Local Ltac dreq := match goal with A : ?p ?i = Dr _ _, B : ?p ?i = Dr _ _ |- _ => rewrite A in B; simplify_eq end.

(** With exclusive access, a drain hands out exactly the values pushed, the last one first. *)
Theorem C61_drain t b e i l : execution t → draining t b e i → exclusive t b e → t !! e = Some (LDone i l) → l = reverse (pushes (take b t)).
Proof.
  intros Ht Hd Hex He. destruct (drain_at t b e i _ Ht Hd Hex He) as (s1 & s2 & h & l1 & ts & Hst & E2 & Hp & H1 & Hts & Hl & _).
  { intros s1 s2 Hst E2. destruct Hst; simpl in *; apply app_inj_tail in E2 as [_ E2]; simplify_eq. eauto. }
  destruct Hst; simpl in *; apply app_inj_tail in E2 as [_ E2]; simplify_eq. dreq.
  destruct ts as [|ts]; [by rewrite take_0, reverse_nil, app_nil_r in Hl|]. destruct (i_node _ H1 _ _ Hts) as (? & ? & ? & ? & _). done.
Qed.
(** It reads no node before the last write to it happens before. *)
Theorem C61_no_race t b e i : execution t → draining t b e i → exclusive t b e → t !! e ≠ Some (LRace i).
Proof.
  intros Ht Hd Hex He. destruct (drain_at t b e i _ Ht Hd Hex He) as (s1 & s2 & h & l1 & ts & Hst & E2 & Hp & H1 & Hts & Hl & Hk).
  { intros s1 s2 Hst E2. destruct Hst; simpl in *; apply app_inj_tail in E2 as [_ E2]; simplify_eq. eauto. }
  destruct Hst; simpl in *; apply app_inj_tail in E2 as [_ E2]; simplify_eq. dreq. specialize (Hk _ eq_refl). lia.
Qed.
(** Also a drain that has not ended hands out only values that were pushed. *)
Theorem C61_only_pushed t b e i v : execution t → draining t b e i → exclusive t b e → t !! e = Some (LPop i v) → v ∈ pushes (take b t).
Proof.
  intros Ht Hd Hex He. destruct (drain_at t b e i _ Ht Hd Hex He) as (s1 & s2 & h & l1 & ts & Hst & E2 & Hp & H1 & Hts & Hl & Hk).
  { intros s1 s2 Hst E2. destruct Hst; simpl in *; apply app_inj_tail in E2 as [_ E2]; simplify_eq. eauto. }
  destruct Hst; simpl in *; apply app_inj_tail in E2 as [_ E2]; simplify_eq. dreq.
  destruct ts as [|ts]; [pose proof (i_zero _ H1); simpl in *; congruence|].
  destruct (i_node _ H1 _ _ Hts) as (n1 & v1 & h' & E & N1 & N2 & N3). simpl in *. simplify_eq.
  rewrite (take_S_r _ _ _ N3), reverse_snoc in Hl. apply elem_of_reverse. rewrite <- Hl. apply elem_of_app. right. apply elem_of_list_here.
Qed.

(** The hypotheses can be met: two threads push, the second one with a failed attempt; a third one, told by both, drains. *)
Definition ex_trace : list label :=
  [LStep 0; LStep 0; LStep 1; LStep 1; LPush 0 10; LStep 1; LStep 1; LPush 1 20; LSend 0 5; LSend 1 6; LRecv 2 5; LRecv 2 6; LDrain 2; LPop 2 20; LPop 2 10; LDone 2 [20; 10]].
Lemma ex_run : execution ex_trace.
Proof.
  eexists. split.
  - eapply rtc_l; [eapply (S_alloc _ _ _ _ _ _ _ _ 0 0 10); reflexivity|].
    eapply rtc_l; [eapply (S_load _ _ _ _ _ _ _ _ 0 0 10 _ _ _ 0); [reflexivity..|vm_compute; lia]|].
    eapply rtc_l; [eapply (S_alloc _ _ _ _ _ _ _ _ 1 1 20); reflexivity|].
    eapply rtc_l; [eapply (S_load _ _ _ _ _ _ _ _ 1 1 20 _ _ _ 0); [reflexivity..|vm_compute; lia]|].
    eapply rtc_l; [eapply (S_push _ _ _ _ _ _ _ _ 0 0 10 _ 0); [reflexivity..|vm_compute; lia|reflexivity]|].
    eapply rtc_l; [eapply (S_fail _ _ _ _ _ _ _ _ 1 1 20 _ _ 1); [reflexivity..|vm_compute; lia|done]|].
    eapply rtc_l; [eapply (S_load _ _ _ _ _ _ _ _ 1 1 20 _ _ _ 1); [reflexivity..|vm_compute; lia]|].
    eapply rtc_l; [eapply (S_push _ _ _ _ _ _ _ _ 1 1 20 _ 1); [reflexivity..|vm_compute; lia|reflexivity]|].
    eapply rtc_l; [eapply (S_send _ _ _ _ _ _ _ _ 0 5); reflexivity|].
    eapply rtc_l; [eapply (S_send _ _ _ _ _ _ _ _ 1 6); reflexivity|].
    eapply rtc_l; [eapply (S_recv _ _ _ _ _ _ _ _ 2 5); reflexivity|].
    eapply rtc_l; [eapply (S_recv _ _ _ _ _ _ _ _ 2 6); reflexivity|].
    eapply rtc_l; [eapply (S_drain _ _ _ _ _ _ _ _ 2 _ 2); [reflexivity..|vm_compute; lia]|].
    eapply rtc_l; [eapply (S_pop _ _ _ _ _ _ _ _ 2 1 20); [reflexivity..|vm_compute; lia]|].
    eapply rtc_l; [eapply (S_pop _ _ _ _ _ _ _ _ 2 0 10); [reflexivity..|vm_compute; lia]|].
    eapply rtc_l; [eapply (S_done _ _ _ _ _ _ _ _ 2); reflexivity|].
    apply rtc_refl.
  - reflexivity.
Qed.
Example C61_ex : execution ex_trace ∧ draining ex_trace 12 15 2 ∧ exclusive ex_trace 12 15 ∧ ex_trace !! 15 = Some (LDone 2 [20; 10]).
Proof.
  split; [apply ex_run|]. split; [split_and!; [done|lia|]|split; [|done]].
  - intros q H1 H2 Hq. do 13 (destruct q as [|q]; [lia|]). do 2 (destruct q as [|q]; [discriminate Hq|]). lia.
  - intros q j v Hq Hp. destruct (decide (q = 4)) as [->|H4]; [|destruct (decide (q = 7)) as [->|H7]].
    + eapply hb_trans; [eapply (hb_po _ 4 8); [lia|reflexivity..]|]. eapply hb_trans; [eapply (hb_sync _ 8 10); [lia|reflexivity..]|].
      eapply (hb_po _ 10 12); [lia|reflexivity..].
    + eapply hb_trans; [eapply (hb_po _ 7 9); [lia|reflexivity..]|]. eapply hb_trans; [eapply (hb_sync _ 9 11); [lia|reflexivity..]|].
      eapply (hb_po _ 11 12); [lia|reflexivity..].
    + exfalso. do 15 (destruct q as [|q]; [first [by destruct H4|by destruct H7|discriminate Hp]|]). lia.
Qed.
