(** C53: the thread parker of src/raw/utils/parker.rs under weak memory.

    C17 (ParkerModel.v) proves that no wakeup is lost when all accesses are sequentially consistent. The code does not use one ordering throughout: the
    announcement, the fast path of [unpark], the check before sleeping and the store that releases a key are SeqCst; the decrements are Relaxed and the
    last check is an Acquire load. Here these orderings are taken seriously, and the same properties are proved again.

    Memory model: every location has messages with timestamps (its modification order); a thread may read any message not older than the last one it knows
    about (its view); an acquire read joins the view of the message, a release write attaches the view of the writer; a read-modify-write reads a message, writes the
    immediately next one and continues its release sequence; the mutex hands on the view of the last owner. A SeqCst access takes place at its position in the order of
    execution, and a SeqCst read (or read-modify-write, or store) of a location does not go behind the last SeqCst write to that location: this is the rule of C++20 and Rust
    that accesses of one location which are coherence-ordered are ordered alike in the total order of the SeqCst operations. Non-SeqCst accesses have no part in it.
    Simplification: program order, reads-from and the SeqCst order are put into one sequence (no load buffering through Relaxed accesses). The tokens of
    [thread::park] hand on no view (the real ones do).

    Threads, tasks and program points are those of ParkerModel.v. *)
From stdpp Require Import base list option numbers.
From Verif Require Import ParkerModel.
Local Open Scope nat_scope.

Inductive ordering := Rlx | Acq | Rel | AcqRel | SC.
Definition is_acq (o : ordering) : bool := match o with Acq | AcqRel | SC => true | _ => false end.
Definition is_rel (o : ordering) : bool := match o with Rel | AcqRel | SC => true | _ => false end.
Definition is_sc (o : ordering) : bool := match o with SC => true | _ => false end.

(** The orderings in the code. *)
Definition ord_release : ordering := SC.     (* the store that makes the park condition of a key false: mod.rs:2064, 2348, 2481 *)
Definition ord_announce : ordering := SC.    (* pending.fetch_add(1): parker.rs:44 *)
Definition ord_check : ordering := SC.       (* atomic.load before sleeping: 61 *)
Definition ord_leave : ordering := Rlx.      (* pending.fetch_sub(1) of a waiter that does not sleep: 72 *)
Definition ord_recheck : ordering := Acq.    (* atomic.load after having been woken: 94 *)
Definition ord_fast : ordering := SC.        (* pending.load in unpark: 112 *)
Definition ord_taken : ordering := Rlx.      (* pending.fetch_sub(unparked): 124 *)

(** Locations: the counter [pending] and the atomics the keys are addresses of (1: released, 0: not released). Events: anything a thread may have done before, such as writing an entry. *)
Inductive loc := LP | LX (k : nat).
Global Instance loc_dec : EqDecision loc. Proof. solve_decision. Defined.
Record view := View { vt : loc → nat; vk : nat → Prop }.
Definition bot : view := View (λ _, 0) (λ _, False).
Definition join (w w' : view) : view := View (λ l, vt w l `max` vt w' l) (λ e, vk w e ∨ vk w' e).
Definition at_ts (l : loc) (ts : nat) : view := View (λ l', if decide (l' = l) then ts else 0) (λ _, False).
Definition learn (e : nat) (w : view) : view := View (vt w) (λ e', vk w e' ∨ e' = e).

Record wst := WSt {
  mem : loc → nat → option (Z * view);       (* messages *)
  scv : loc → nat;                           (* timestamp of the last SeqCst write *)
  vw : nat → view;                           (* views of the threads *)
  mv : view;                                 (* view of the mutex *)
  gh : nat → nat → nat → Prop;               (* gh k ts e: the thread that released k with the message ts knew the event e (ghost) *)
  cnt : nat;                                 (* State::count *)
  rgs : list (nat * nat * nat);              (* State::threads: key, id, thread *)
  tks : list nat;                            (* thread::park tokens *)
  ths : list thr }.

Definition fset {A B} `{EqDecision A} (f : A → B) (a : A) (b : B) : A → B := λ a', if decide (a' = a) then b else f a'.
Definition mset (m : loc → nat → option (Z * view)) (l : loc) (ts : nat) (x : Z * view) := fset m l (fset (m l) ts (Some x)).
Definition sset (o : ordering) (c : loc → nat) (l : loc) (ts : nat) := if is_sc o then fset c l ts else c.

(** Thread [i] loads [v] from [l]; its view becomes [w']. *)
Definition load (s : wst) (i : nat) (l : loc) (o : ordering) (v : Z) (w' : view) : Prop :=
  ∃ ts m, mem s l ts = Some (v, m) ∧ vt (vw s i) l ≤ ts ∧ (is_sc o = true → scv s l ≤ ts) ∧
          w' = join (join (vw s i) (at_ts l ts)) (if is_acq o then m else bot).
(** Thread [i] stores [v] at timestamp [ts]. *)
Definition store (s : wst) (i : nat) (l : loc) (o : ordering) (v : Z) (ts : nat) (m' : loc → nat → option (Z * view)) (c' : loc → nat) (w' : view) : Prop :=
  mem s l ts = None ∧ vt (vw s i) l < ts ∧ (is_sc o = true → scv s l < ts) ∧ w' = join (vw s i) (at_ts l ts) ∧
  m' = mset (mem s) l ts (v, if is_rel o then w' else at_ts l ts) ∧ c' = sset o (scv s) l ts.
(** Thread [i] adds [d]. *)
Definition fetch_add (s : wst) (i : nat) (l : loc) (o : ordering) (d : Z) (m' : loc → nat → option (Z * view)) (c' : loc → nat) (w' : view) : Prop :=
  ∃ ts v m, mem s l ts = Some (v, m) ∧ vt (vw s i) l ≤ ts ∧ (is_sc o = true → scv s l ≤ ts) ∧ mem s l (S ts) = None ∧
          w' = join (join (vw s i) (at_ts l (S ts))) (if is_acq o then m else bot) ∧
          m' = mset (mem s) l (S ts) ((v + d)%Z, join m (if is_rel o then w' else at_ts l (S ts))) ∧ c' = sset o (scv s) l (S ts).

Definition rgd (k id : nat) (rg : list (nat * nat * nat)) : bool := existsb (λ r, (r.1.1 =? k) && (r.1.2 =? id)) rg.

(** Steps. [st] puts thread [i] at a new point. *)
Definition st (i : nat) (td : list task) (p : ppc) (ts : list thr) : list thr := <[i := Thr td p]> ts.
Inductive wstep : wst → wst → Prop :=
  (* a call of park *)
  | S_park m c w x g n rg tk ts i k td : ts !! i = Some (Thr (Park k :: td) Idle) →
      wstep (WSt m c w x g n rg tk ts) (WSt m c w x g n rg tk (st i td (W1 k) ts))
  (* release of a key, before unpark; all later messages of the key are releases as well *)
  | S_wake m c w x g n rg tk ts i k td t m' c' w' : ts !! i = Some (Thr (Wake k :: td) Idle) →
      store (WSt m c w x g n rg tk ts) i (LX k) ord_release 1 t m' c' w' → (∀ t' v u, t < t' → m (LX k) t' = Some (v, u) → v = 1%Z) →
      wstep (WSt m c w x g n rg tk ts) (WSt m' c' (fset w i w') x (fset g k (fset (g k) t (vk (w i)))) n rg tk (st i td (U1 k) ts))
  (* 44 *)
  | S_announce m c w x g n rg tk ts i k td m' c' w' : ts !! i = Some (Thr td (W1 k)) →
      fetch_add (WSt m c w x g n rg tk ts) i LP ord_announce 1 m' c' w' →
      wstep (WSt m c w x g n rg tk ts) (WSt m' c' (fset w i w') x g n rg tk (st i td (W2 k) ts))
  (* 47-55 *)
  | S_register m c w x g n rg tk ts i k td : ts !! i = Some (Thr td (W2 k)) →
      wstep (WSt m c w x g n rg tk ts) (WSt m c (fset w i (join (w i) x)) (join (w i) x) g (S n) ((k, S n, i) :: rg) tk (st i td (W3 k (S n)) ts))
  (* 61 *)
  | S_check m c w x g n rg tk ts i k id td v w' : ts !! i = Some (Thr td (W3 k id)) →
      load (WSt m c w x g n rg tk ts) i (LX k) ord_check v w' →
      wstep (WSt m c w x g n rg tk ts) (WSt m c (fset w i w') x g n rg tk (st i td (if (v =? 1)%Z then W4 k id else W6 k id) ts))
  (* 63-69 *)
  | S_remove m c w x g n rg tk ts i k id td : ts !! i = Some (Thr td (W4 k id)) →
      wstep (WSt m c w x g n rg tk ts)
        (WSt m c (fset w i (join (w i) x)) (join (w i) x) g n (List.filter (λ r, negb ((r.1.1 =? k) && (r.1.2 =? id))) rg) tk
             (st i td (if rgd k id rg then W5 k else Idle) ts))
  (* 71-75 *)
  | S_leave m c w x g n rg tk ts i k td m' c' w' : ts !! i = Some (Thr td (W5 k)) →
      fetch_add (WSt m c w x g n rg tk ts) i LP ord_leave (-1) m' c' w' →
      wstep (WSt m c w x g n rg tk ts) (WSt m' c' (fset w i w') x g n rg tk (st i td Idle ts))
  (* 80: thread::park returns; without a token it does not *)
  | S_token m c w x g n rg tk ts i k id td : ts !! i = Some (Thr td (W6 k id)) → i ∈ tk →
      wstep (WSt m c w x g n rg tk ts) (WSt m c w x g n rg (List.filter (λ j, negb (j =? i)) tk) (st i td (W7 k id) ts))
  (* 82-88 *)
  | S_test m c w x g n rg tk ts i k id td : ts !! i = Some (Thr td (W7 k id)) →
      wstep (WSt m c w x g n rg tk ts) (WSt m c (fset w i (join (w i) x)) (join (w i) x) g n rg tk (st i td (if rgd k id rg then W6 k id else W8 k) ts))
  (* 94 *)
  | S_recheck m c w x g n rg tk ts i k td v w' : ts !! i = Some (Thr td (W8 k)) →
      load (WSt m c w x g n rg tk ts) i (LX k) ord_recheck v w' →
      wstep (WSt m c w x g n rg tk ts) (WSt m c (fset w i w') x g n rg tk (st i td (if (v =? 1)%Z then Idle else W1 k) ts))
  (* 112 *)
  | S_fast m c w x g n rg tk ts i k td v w' : ts !! i = Some (Thr td (U1 k)) →
      load (WSt m c w x g n rg tk ts) i LP ord_fast v w' →
      wstep (WSt m c w x g n rg tk ts) (WSt m c (fset w i w') x g n rg tk (st i td (if (v =? 0)%Z then Idle else U2 k) ts))
  (* 117-123 *)
  | S_take m c w x g n rg tk ts i k td : ts !! i = Some (Thr td (U2 k)) →
      wstep (WSt m c w x g n rg tk ts)
        (WSt m c (fset w i (join (w i) x)) (join (w i) x) g n (List.filter (λ r, negb (r.1.1 =? k)) rg) tk
             (let mine := map snd (List.filter (λ r, r.1.1 =? k) rg) in st i td (match mine with [] => Idle | _ => U3 mine end) ts))
  (* 124 *)
  | S_taken m c w x g n rg tk ts i l td m' c' w' : ts !! i = Some (Thr td (U3 l)) →
      fetch_add (WSt m c w x g n rg tk ts) i LP ord_taken (- Z.of_nat (length l)) m' c' w' →
      wstep (WSt m c w x g n rg tk ts) (WSt m' c' (fset w i w') x g n rg tk (st i td (U4 l) ts))
  (* 126-128 *)
  | S_unpark m c w x g n rg tk ts i j l td : ts !! i = Some (Thr td (U4 (j :: l))) →
      wstep (WSt m c w x g n rg tk ts) (WSt m c w x g n rg (j :: tk) (st i td (U4 l) ts))
  | S_done m c w x g n rg tk ts i td : ts !! i = Some (Thr td (U4 [])) →
      wstep (WSt m c w x g n rg tk ts) (WSt m c w x g n rg tk (st i td Idle ts))
  (* thread::park may return spuriously *)
  | S_spurious m c w x g n rg tk ts i : wstep (WSt m c w x g n rg tk ts) (WSt m c w x g n rg (i :: tk) ts)
  (* the rest of the program: a thread stores to the atomic of a key that is not yet released (marks the entry), with any ordering; does something; synchronises with another thread *)
  | S_mark m c w x g n rg tk ts i k o t m' c' w' : store (WSt m c w x g n rg tk ts) i (LX k) o 0 t m' c' w' →
      (∀ t' v u, t' < t → m (LX k) t' = Some (v, u) → v ≠ 1%Z) →
      wstep (WSt m c w x g n rg tk ts) (WSt m' c' (fset w i w') x g n rg tk ts)
  | S_learn m c w x g n rg tk ts i e : wstep (WSt m c w x g n rg tk ts) (WSt m c (fset w i (learn e (w i))) x g n rg tk ts)
  | S_sync m c w x g n rg tk ts i j : wstep (WSt m c w x g n rg tk ts) (WSt m c (fset w i (join (w i) (w j))) x g n rg tk ts).

(** Parker::default (parker.rs:15): nobody announced, no key released. *)
Definition winit (tasks : list (list task)) : wst :=
  WSt (λ _ ts, if decide (ts = 0) then Some (0%Z, bot) else None) (λ _, 0) (λ _, bot) bot (λ _ _ _, False) 0 [] [] (start tasks).
Inductive reachable (tasks : list (list task)) : wst → Prop :=
  | R_init : reachable tasks (winit tasks)
  | R_step s s' : reachable tasks s → wstep s s' → reachable tasks s'.
Definition released_key (s : wst) (k : nat) : Prop := ∃ ts m, mem s (LX k) ts = Some (1%Z, m).

(** ** Proof: the steps are those of ParkerModel.v, except for the fast path of unpark. *)
Definition kn (m : loc → nat → option (Z * view)) (w : view) (k : nat) : Prop := ∃ ts u, m (LX k) ts = Some (1%Z, u) ∧ ts ≤ vt w (LX k).
Definition told (m : loc → nat → option (Z * view)) (g : nat → nat → nat → Prop) (w : view) (k : nat) : Prop :=
  ∃ ts u, m (LX k) ts = Some (1%Z, u) ∧ ∀ e, g k ts e → vk w e.
Definition ann (rg : list (nat * nat * nat)) (ts : list thr) : Prop := rg ≠ [] ∨ ∃ i t k, ts !! i = Some t ∧ at_ t = W2 k.

Record winv (s : wst) : Prop := WInv {
  i_p : ∃ pe re N u, pinv (Pst pe (cnt s) (rgs s) re (tks s)) (ths s) ∧ (∀ k, k ∈ re ↔ released_key s k) ∧
        (∀ ts, mem s LP ts = None ↔ N < ts) ∧ mem s LP N = Some (pe, u);
  i_nn : ∀ ts v u, mem s LP ts = Some (v, u) → (0 ≤ v)%Z;
  i_pos : ann (rgs s) (ths s) → ∀ ts v u, scv s LP ≤ ts → mem s LP ts = Some (v, u) → (1 ≤ v)%Z;
  i_01 : ∀ k ts v u, mem s (LX k) ts = Some (v, u) → v = 0%Z ∨ v = 1%Z;
  i_mono : ∀ k ts ts' u v' u', mem s (LX k) ts = Some (1%Z, u) → ts ≤ ts' → mem s (LX k) ts' = Some (v', u') → v' = 1%Z;
  i_sc : ∀ k, released_key s k → ∃ u, mem s (LX k) (scv s (LX k)) = Some (1%Z, u);
  i_u : ∀ j u k, ths s !! j = Some u → at_ u = U1 k ∨ at_ u = U2 k → kn (mem s) (vw s j) k;
  i_mv : ∀ i t k id, ths s !! i = Some t → waits (at_ t) = Some (k, id) → (k, id, i) ∉ rgs s → kn (mem s) (mv s) k;
  i_w8 : ∀ i t k, ths s !! i = Some t → at_ t = W8 k → kn (mem s) (vw s i) k;
  i_gh : ∀ k ts u e, mem s (LX k) ts = Some (1%Z, u) → gh s k ts e → vk u e;
  i_ret : ∀ i t k id, ths s !! i = Some t → at_ t = W4 k id ∨ at_ t = W5 k → told (mem s) (gh s) (vw s i) k }.

Definition vle (w w' : view) : Prop := (∀ l, vt w l ≤ vt w' l) ∧ (∀ e, vk w e → vk w' e).
Lemma vle_refl w : vle w w. Proof. done. Qed.
Lemma vle_join_l w w' : vle w (join w w'). Proof. split; cbn; [lia|tauto]. Qed.
Lemma vle_join_r w w' : vle w' (join w w'). Proof. split; cbn; [lia|tauto]. Qed.
Lemma vle_trans w1 w2 w3 : vle w1 w2 → vle w2 w3 → vle w1 w3.
Proof. intros [A B] [C D]. split; [intros l; specialize (A l); specialize (C l); lia|auto]. Qed.
Lemma vle_fset (w : nat → view) i w' : vle (w i) w' → ∀ j, vle (w j) (fset w i w' j).
Proof. intros H j. unfold fset. destruct (decide (j = i)) as [->|]; [done|apply vle_refl]. Qed.
Lemma fset_eq {A B} `{EqDecision A} (f : A → B) a b : fset f a b a = b. Proof. unfold fset. by rewrite decide_True. Qed.
Lemma fset_ne {A B} `{EqDecision A} (f : A → B) a b a' : a' ≠ a → fset f a b a' = f a'. Proof. intros. unfold fset. by rewrite decide_False. Qed.
Lemma kn_mono m w w' k : vle w w' → kn m w k → kn m w' k.
Proof. intros [A _] (ts & u & B & C). exists ts, u. split; [done|]. specialize (A (LX k)). lia. Qed.
Lemma told_mono m g w w' k : vle w w' → told m g w k → told m g w' k.
Proof. intros [_ A] (ts & u & B & C). exists ts, u. split; [done|]. auto. Qed.

Lemma winv_frame s i t t' m' c' w' x' n' rg' tk' :
  winv s → ths s !! i = Some t → (∀ k, m' (LX k) = mem s (LX k)) → (∀ k, c' (LX k) = scv s (LX k)) → (∀ j, vle (vw s j) (w' j)) → vle (mv s) x' →
  (∃ pe re N u, pinv (Pst pe n' rg' re tk') (<[i := t']> (ths s)) ∧ (∀ k, k ∈ re ↔ released_key s k) ∧ (∀ ts, m' LP ts = None ↔ N < ts) ∧ m' LP N = Some (pe, u)) →
  (∀ ts v u, m' LP ts = Some (v, u) → (0 ≤ v)%Z) →
  (ann rg' (<[i := t']> (ths s)) → ∀ ts v u, c' LP ≤ ts → m' LP ts = Some (v, u) → (1 ≤ v)%Z) →
  (∀ k, at_ t' = U1 k ∨ at_ t' = U2 k → kn (mem s) (w' i) k) →
  (∀ k id, waits (at_ t') = Some (k, id) → (k, id, i) ∉ rg' → kn (mem s) x' k) →
  (∀ j u k id, j ≠ i → ths s !! j = Some u → waits (at_ u) = Some (k, id) → (k, id, j) ∈ rgs s → (k, id, j) ∉ rg' → kn (mem s) x' k) →
  (∀ k, at_ t' = W8 k → kn (mem s) (w' i) k) →
  (∀ k id, at_ t' = W4 k id ∨ at_ t' = W5 k → told (mem s) (gh s) (w' i) k) →
  winv (WSt m' c' w' x' (gh s) n' rg' tk' (<[i := t']> (ths s))).
Proof.
  intros [IP INN IPOS I01 IMO ISC IU IMV IW8 IGH IR] Ei HM HC HW HX P1 P2 P3 O1 O2 O3 O4 O5.
  assert (RK : ∀ k, released_key (WSt m' c' w' x' (gh s) n' rg' tk' (<[i := t']> (ths s))) k ↔ released_key s k) by (intros k; unfold released_key; cbn; by rewrite HM).
  assert (KN : ∀ w k, kn m' w k ↔ kn (mem s) w k) by (intros w k; unfold kn; by rewrite HM).
  assert (TO : ∀ w k, told m' (gh s) w k ↔ told (mem s) (gh s) w k) by (intros w k; unfold told; by rewrite HM).
  split; cbn [mem scv vw mv gh cnt rgs tks ths].
  - destruct P1 as (pe & re & N & u & A & B & C & D). exists pe, re, N, u. split; [done|]. split; [|done]. intros k. rewrite RK. apply B.
  - done.
  - done.
  - intros k ts v u. rewrite HM. apply I01.
  - intros k ts ts' u v' u'. rewrite HM. apply IMO.
  - intros k. rewrite RK, HM, HC. apply ISC.
  - intros j u k [[-> ->]|[N Ej]]%ins_cases A; rewrite KN; [by apply O1|]. eapply kn_mono; [apply HW|by eapply IU].
  - intros j u k id [[-> ->]|[N Ej]]%ins_cases A B; rewrite KN; [by eapply O2|]. destruct (decide ((k, id, j) ∈ rgs s)) as [Hr|Hr]; [by eapply O3|].
    eapply kn_mono; [apply HX|by eapply IMV].
  - intros j u k [[-> ->]|[N Ej]]%ins_cases A; rewrite KN; [by apply O4|]. eapply kn_mono; [apply HW|by eapply IW8].
  - intros k ts u e. rewrite HM. apply IGH.
  - intros j u k id [[-> ->]|[N Ej]]%ins_cases A; rewrite TO; [by eapply O5|]. eapply told_mono; [apply HW|by eapply IR].
Qed.

(** Steps that do not write memory. *)
Lemma winv_same s i t t' w' x' n' rg' tk' :
  winv s → ths s !! i = Some t → (∀ j, vle (vw s j) (w' j)) → vle (mv s) x' →
  (∀ pe re, pinv (Pst pe (cnt s) (rgs s) re (tks s)) (ths s) → (∀ k, k ∈ re ↔ released_key s k) → pinv (Pst pe n' rg' re tk') (<[i := t']> (ths s))) →
  (ann rg' (<[i := t']> (ths s)) → ann (rgs s) (ths s)) →
  (∀ k, at_ t' = U1 k ∨ at_ t' = U2 k → kn (mem s) (w' i) k) →
  (∀ k id, waits (at_ t') = Some (k, id) → (k, id, i) ∉ rg' → kn (mem s) x' k) →
  (∀ j u k id, j ≠ i → ths s !! j = Some u → waits (at_ u) = Some (k, id) → (k, id, j) ∈ rgs s → (k, id, j) ∉ rg' → kn (mem s) x' k) →
  (∀ k, at_ t' = W8 k → kn (mem s) (w' i) k) →
  (∀ k id, at_ t' = W4 k id ∨ at_ t' = W5 k → told (mem s) (gh s) (w' i) k) →
  winv (WSt (mem s) (scv s) w' x' (gh s) n' rg' tk' (<[i := t']> (ths s))).
Proof.
  intros I Ei HW HX P1 P3 O1 O2 O3 O4 O5. eapply winv_frame; try done.
  - destruct (i_p _ I) as (pe & re & N & u & A & B & C & D). exists pe, re, N, u. split; [by apply P1|done].
  - apply (i_nn _ I).
  - intros A. apply (i_pos _ I). auto.
Qed.

(** Changes of the counter. *)
Lemma winv_add s i t t' o d m' c' w' :
  winv s → ths s !! i = Some t → fetch_add s i LP o d m' c' w' →
  (∀ pe re, pinv (Pst pe (cnt s) (rgs s) re (tks s)) (ths s) → (∀ k, k ∈ re ↔ released_key s k) → pinv (Pst (pe + d) (cnt s) (rgs s) re (tks s)) (<[i := t']> (ths s))) →
  (is_sc o = true ∨ (ann (rgs s) (<[i := t']> (ths s)) → ann (rgs s) (ths s))) →
  (∀ k, at_ t' ≠ U1 k ∧ at_ t' ≠ U2 k ∧ at_ t' ≠ W8 k) → waits (at_ t') = None → (∀ k, at_ t' ≠ W5 k) →
  winv (WSt m' c' (fset (vw s) i w') (mv s) (gh s) (cnt s) (rgs s) (tks s) (<[i := t']> (ths s))).
Proof.
  intros I Ei (ts & v & m & E1 & E2 & E3 & E4 & Ew & -> & ->) P1 P3 O1 O2 O3.
  destruct (i_p _ I) as (pe & re & N & u & A & B & C & D).
  assert (ts = N) as ->.
  { assert (N < S ts) by by apply C. destruct (decide (N < ts)) as [F|F]; [apply C in F; congruence|lia]. }
  rewrite D in E1. injection E1 as <- ->.
  specialize (P1 pe re A B).
  assert (MP : ∀ ts, mset (mem s) LP (S N) ((pe + d)%Z, join m (if is_rel o then w' else at_ts LP (S N))) LP ts = if decide (ts = S N) then Some ((pe + d)%Z, join m (if is_rel o then w' else at_ts LP (S N))) else mem s LP ts).
  { intros ts. unfold mset. rewrite fset_eq. unfold fset. done. }
  assert (PE : (pe + d = Z.of_nat (length (rgs s)) + wsum (<[i:=t']> (ths s)))%Z) by apply (v_pend _ _ P1).
  pose proof (wsum_nn (<[i:=t']> (ths s))) as WN.
  assert (AN : ann (rgs s) (<[i := t']> (ths s)) → (1 ≤ pe + d)%Z).
  { intros [F|(j & u & k & Ej & Eu)].
    - destruct (rgs s); [done|]. cbn [length] in PE. lia.
    - assert (G : ∀ ts j u, ts !! j = Some u → (weight (at_ u) ≤ wsum ts)%Z).
      { clear. induction ts as [|x ts IH]; intros [|j] u E; try done; cbn [wsum].
        - injection E as ->. pose proof (wsum_nn ts). lia.
        - specialize (IH j u E). pose proof (weight_nn (at_ x)). lia. }
      specialize (G _ _ _ Ej). rewrite Eu in G. cbn in G. lia. }
  eapply winv_frame; try done.
  - intros k. unfold sset. destruct (is_sc o); [|done]. by rewrite fset_ne.
  - apply vle_fset. rewrite Ew. eapply vle_trans; apply vle_join_l.
  - exists (pe + d)%Z, re, (S N), (join m (if is_rel o then w' else at_ts LP (S N))). split; [done|]. split; [done|]. split.
    + intros ts. rewrite MP. case_decide; [split; [done|lia]|]. rewrite C. lia.
    + rewrite MP. by rewrite decide_True.
  - intros ts v' u. rewrite MP. case_decide; [|apply (i_nn _ I)]. intros [= <- _]. lia.
  - intros AA ts v' u. rewrite MP. specialize (AN AA). case_decide as Ets; [by intros _ [= <- _]|]. destruct (is_sc o) eqn:Eo.
    + unfold sset. rewrite Eo, fset_eq. intros L F. assert (mem s LP ts = None) by (apply C; lia). congruence.
    + destruct P3 as [P3|P3]; [done|]. unfold sset. rewrite Eo. apply (i_pos _ I). auto.
  - intros k [F|F]; exfalso; destruct (O1 k) as (X & Y & Z); auto.
  - intros k id F. congruence.
  - intros k F. exfalso. destruct (O1 k) as (X & Y & Z); auto.
  - intros k id [F|F]; exfalso; [rewrite F in O2; discriminate|by apply (O3 k)].
Qed.

(** A SeqCst load of a released key finds it released. *)
Lemma sc_load s i k o v w' : winv s → is_sc o = true → load s i (LX k) o v w' → (v = 1%Z ↔ released_key s k).
Proof.
  intros I O (ts & m & A & B & C & D). split; [intros ->; by exists ts, m|]. intros R. destruct (i_sc _ I k R) as [u E]. eapply (i_mono _ I); [exact E| |exact A]. auto.
Qed.
(** A load of a key whose release the thread knows about. *)
Lemma kn_load s i k o v w' : winv s → kn (mem s) (vw s i) k → load s i (LX k) o v w' → v = 1%Z.
Proof. intros I (ts & u & E & L) (ts' & m & A & B & C & D). eapply (i_mono _ I); [exact E| |exact A]. lia. Qed.
(** An acquiring load that finds the key released knows what the releasing thread knew. *)
Lemma acq_told s i k o w' : winv s → is_acq o = true → load s i (LX k) o 1 w' → told (mem s) (gh s) w' k.
Proof.
  intros I O (ts & m & A & B & C & ->). exists ts, m. split; [done|]. intros e He. rewrite O. cbn. right. by eapply (i_gh _ I).
Qed.
Lemma load_vle s i l o v w' : load s i l o v w' → vle (vw s i) w'.
Proof. intros (ts & m & A & B & C & ->). eapply vle_trans; apply vle_join_l. Qed.
(** The fast path of unpark: the load may be stale, but if it finds 0, nobody is registered. *)
Lemma fast_zero s i o w' : winv s → is_sc o = true → load s i LP o 0 w' → rgs s = [].
Proof.
  intros I O (ts & m & A & B & C & D). destruct (rgs s) eqn:E; [done|]. exfalso.
  assert (F : (1 ≤ 0)%Z); [|lia]. eapply (i_pos _ I); [left; by rewrite E|exact (C O)|exact A].
Qed.

(** The two outcomes of the fast path in ParkerModel's invariant. *)
Lemma pinv_u1_go s ts i td k : pinv s ts → ts !! i = Some (Thr td (U1 k)) → pinv s (<[i := Thr td (U2 k)]> ts).
Proof.
  intros I Ei. destruct I as [VP VR VN VI VC VU V4 V3 VW VT].
  pose proof (wsum_insert i _ (Thr td (U2 k)) ts Ei) as WS. cbn [at_ weight] in WS.
  assert (Li : i < length ts) by by eapply lookup_lt_Some.
  assert (SELF : <[i:=Thr td (U2 k)]> ts !! i = Some (Thr td (U2 k))) by by apply list_lookup_insert.
  assert (OTH : ∀ j u, j ≠ i → ts !! j = Some u → <[i:=Thr td (U2 k)]> ts !! j = Some u) by (intros j u N; by rewrite list_lookup_insert_ne).
  split; try done.
  - rewrite WS. lia.
  - intros k' id' j Hr. destruct (VR _ _ _ Hr) as (A & u & Ej & Eu). split; [done|]. destruct (decide (j = i)) as [->|N]; [rewrite Ei in Ej; by injection Ej as <-|]. exists u. auto.
  - intros j j' u u' k1 k2 id' [[-> ->]|[N Ej]]%ins_cases [[-> ->]|[N' Ej']]%ins_cases A B; try done. by eapply VI.
  - intros j u k1 id' [[-> ->]|[N Ej]]%ins_cases A; [done|by eapply VC].
  - intros j u k1 [[-> ->]|[N Ej]]%ins_cases A; [|by eapply VU]. destruct A as [A|A]; [done|]. injection A as <-. eapply VU; [exact Ei|by left].
  - intros j u k1 id' [[-> ->]|[N Ej]]%ins_cases A; [done|by eapply V4].
  - intros j u k1 id' [[-> ->]|[N Ej]]%ins_cases A; [done|by eapply V3].
  - intros j u k1 id' [[-> ->]|[N Ej]]%ins_cases A; [by destruct A|]. intros B C. destruct (VW _ _ _ _ Ej A B C) as (j' & u' & Ej' & Eu').
    destruct (decide (j' = i)) as [->|N']; [|exists j', u'; auto]. rewrite Ei in Ej'. injection Ej' as <-. destruct Eu' as [F|F]; [|done]. injection F as <-. exists i, (Thr td (U2 k)). auto.
  - intros j u k1 id' [[-> ->]|[N Ej]]%ins_cases A; [done|]. intros B. destruct (VT _ _ _ _ Ej A B) as [|(j' & u' & l & Ej' & Eu' & Hl)]; [by left|right].
    destruct (decide (j' = i)) as [->|N']; [|exists j', u', l; auto]. rewrite Ei in Ej'. injection Ej' as <-. by destruct Eu'.
Qed.
Lemma pinv_u1_stop s ts i td k : pinv s ts → ts !! i = Some (Thr td (U1 k)) → regs s = [] → pinv s (<[i := Thr td Idle]> ts).
Proof.
  intros I Ei RE. destruct I as [VP VR VN VI VC VU V4 V3 VW VT].
  pose proof (wsum_insert i _ (Thr td Idle) ts Ei) as WS. cbn [at_ weight] in WS.
  assert (OTH : ∀ j u, j ≠ i → ts !! j = Some u → <[i:=Thr td Idle]> ts !! j = Some u) by (intros j u N; by rewrite list_lookup_insert_ne).
  split; try done.
  - rewrite WS. lia.
  - intros k' id' j Hr. rewrite RE in Hr. by apply elem_of_nil in Hr.
  - intros j j' u u' k1 k2 id' [[-> ->]|[N Ej]]%ins_cases [[-> ->]|[N' Ej']]%ins_cases A B; try done. by eapply VI.
  - intros j u k1 id' [[-> ->]|[N Ej]]%ins_cases A; [done|by eapply VC].
  - intros j u k1 [[-> ->]|[N Ej]]%ins_cases A; [by destruct A|by eapply VU].
  - intros j u k1 id' [[-> ->]|[N Ej]]%ins_cases A; [done|by eapply V4].
  - intros j u k1 id' [[-> ->]|[N Ej]]%ins_cases A; [done|by eapply V3].
  - intros j u k1 id' _ _ B. rewrite RE in B. by apply elem_of_nil in B.
  - intros j u k1 id' [[-> ->]|[N Ej]]%ins_cases A; [done|]. intros B. destruct (VT _ _ _ _ Ej A B) as [|(j' & u' & l & Ej' & Eu' & Hl)]; [by left|right].
    destruct (decide (j' = i)) as [->|N']; [|exists j', u', l; auto]. rewrite Ei in Ej'. injection Ej' as <-. by destruct Eu'.
Qed.
(** Two lists with the same released keys. *)
Lemma pinv_re pe n rg re re' tk ts : (∀ k, k ∈ re ↔ k ∈ re') → pinv (Pst pe n rg re tk) ts → pinv (Pst pe n rg re' tk) ts.
Proof.
  intros H [VP VR VN VI VC VU V4 V3 VW VT]. cbn [pending count regs released tokens] in *. split; cbn [pending count regs released tokens]; try done.
  - intros j u k A B. apply H. by eapply VU.
  - intros i t k id A B. apply H. by eapply V4.
  - intros i t k id A B. rewrite <- H. by eapply V3.
  - intros i t k id A B C D. apply H in D. by eapply VW.
Qed.

(** Steps of the environment that change only views. *)
Lemma winv_view s w' : winv s → (∀ j, vle (vw s j) (w' j)) → winv (WSt (mem s) (scv s) w' (mv s) (gh s) (cnt s) (rgs s) (tks s) (ths s)).
Proof.
  intros [IP INN IPOS I01 IMO ISC IU IMV IW8 IGH IR] HW. split; try done; cbn [mem scv vw mv gh cnt rgs tks ths].
  - intros j u k A B. eapply kn_mono; [apply HW|by eapply IU].
  - intros j u k A B. eapply kn_mono; [apply HW|by eapply IW8].
  - intros j u k id A B. eapply told_mono; [apply HW|by eapply IR].
Qed.
Lemma winv_spurious s i : winv s → winv (WSt (mem s) (scv s) (vw s) (mv s) (gh s) (cnt s) (rgs s) (i :: tks s) (ths s)).
Proof.
  intros [IP INN IPOS I01 IMO ISC IU IMV IW8 IGH IR]. split; try done; cbn [mem scv vw mv gh cnt rgs tks ths].
  destruct IP as (pe & re & N & u & A & B). exists pe, re, N, u. split; [|done]. apply (spurious_ok _ _ i A).
Qed.

Lemma mset_same m l ts x : mset m l ts x l ts = Some x. Proof. unfold mset. by rewrite !fset_eq. Qed.
Lemma mset_ne_l m l ts x l' : l' ≠ l → mset m l ts x l' = m l'. Proof. intros. unfold mset. by rewrite fset_ne. Qed.
Lemma mset_ne_t m l ts x ts' : ts' ≠ ts → mset m l ts x l ts' = m l ts'. Proof. intros. unfold mset. rewrite fset_eq. by rewrite fset_ne. Qed.
Lemma mset_inv m l ts x l' ts' y : mset m l ts x l' ts' = Some y → (l' = l ∧ ts' = ts ∧ y = x) ∨ (m l' ts' = Some y).
Proof.
  destruct (decide (l' = l)) as [->|N]; [|rewrite mset_ne_l by done; auto]. destruct (decide (ts' = ts)) as [->|N]; [|rewrite mset_ne_t by done; auto].
  rewrite mset_same. intros [= <-]. auto.
Qed.
Lemma mset_ext m l ts x : m l ts = None → ∀ l' ts' y, m l' ts' = Some y → mset m l ts x l' ts' = Some y.
Proof.
  intros N l' ts' y E. destruct (decide (l' = l)) as [->|Nl]; [|by rewrite mset_ne_l]. destruct (decide (ts' = ts)) as [->|Nt]; [congruence|]. by rewrite mset_ne_t.
Qed.
Lemma kn_ext m m' w k : (∀ l ts x, m l ts = Some x → m' l ts = Some x) → kn m w k → kn m' w k.
Proof. intros H (ts & u & A & B). exists ts, u. auto. Qed.

(** The release of a key. *)
Lemma winv_wake s i k td t m' c' w' :
  winv s → ths s !! i = Some (Thr (Wake k :: td) Idle) → store s i (LX k) ord_release 1 t m' c' w' →
  (∀ t' v u, t < t' → mem s (LX k) t' = Some (v, u) → v = 1%Z) →
  winv (WSt m' c' (fset (vw s) i w') (mv s) (fset (gh s) k (fset (gh s k) t (vk (vw s i)))) (cnt s) (rgs s) (tks s) (<[i := Thr td (U1 k)]> (ths s))).
Proof.
  intros I Ei (FR & VT & ST & Ew & Em & Ec) MO.
  change (is_rel ord_release) with true in Em. cbn [sset is_sc ord_release] in Ec.
  assert (c' = fset (scv s) (LX k) t) as Ec' by exact Ec. clear Ec.
  assert (EXT : ∀ l ts x, mem s l ts = Some x → m' l ts = Some x) by (rewrite Em; by apply mset_ext).
  assert (VW : ∀ j, vle (vw s j) (fset (vw s) i w' j)) by (apply vle_fset; rewrite Ew; apply vle_join_l).
  assert (MLP : m' LP = mem s LP) by (rewrite Em; by apply mset_ne_l).
  assert (NEW : m' (LX k) t = Some (1%Z, w')) by (rewrite Em; apply mset_same).
  assert (TE : ∀ w k', told (mem s) (gh s) w k' → told m' (fset (gh s) k (fset (gh s k) t (vk (vw s i)))) w k').
  { intros w k' (ts & u & A & B). exists ts, u. split; [auto|]. intros e. destruct (decide (k' = k)) as [->|N]; [|rewrite fset_ne by done; apply B].
    rewrite fset_eq. rewrite fset_ne; [apply B|]. intros ->. congruence. }
  destruct I as [IP INN IPOS I01 IMO ISC IU IMV IW8 IGH IR]. split; cbn [mem scv vw mv gh cnt rgs tks ths].
  - destruct IP as (pe & re & N & u & A & B & C & D). exists pe, (k :: re), N, u. split; [exact (pstep_ok i _ _ _ _ _ A Ei eq_refl)|]. split; [|by rewrite MLP].
    intros k'. rewrite elem_of_cons, B. unfold released_key. cbn. split.
    + intros [->|(ts & m & E)]; [by exists t, w'|]. exists ts, m. auto.
    + intros (ts & m & E). rewrite Em in E. apply mset_inv in E as [(F & _ & _)|E]; [left; congruence|right; by exists ts, m].
  - rewrite MLP. apply INN.
  - rewrite MLP. intros [A|(j & u & k' & [[-> ->]|[N Ej]]%ins_cases & A)]; rewrite Ec', fset_ne by done; [apply IPOS; by left|done|apply IPOS; right; by exists j, u, k'].
  - intros k' ts v u. rewrite Em. intros [(_ & _ & E)|E]%mset_inv; [injection E as -> _; by right|by eapply I01].
  - intros k' ts ts' u v' u' A L A'. rewrite Em in A, A'. apply mset_inv in A as [(F & -> & _)|A]; apply mset_inv in A' as [(F' & F2 & E')|A'].
    + injection E' as -> _. done.
    + injection F as ->. destruct (decide (ts' = t)) as [->|]; [congruence|]. eapply MO; [|exact A']. lia.
    + injection E' as -> _. done.
    + by eapply IMO.
  - intros k' (ts & m & E). cbn in E. destruct (decide (k' = k)) as [->|N].
    + rewrite Ec', fset_eq. by exists w'.
    + rewrite Ec', fset_ne by congruence. rewrite Em in E |- *. rewrite mset_ne_l in E |- * by congruence. apply ISC. by exists ts, m.
  - intros j u k' [[-> ->]|[N Ej]]%ins_cases A.
    + destruct A as [A|A]; [|done]. injection A as <-. exists t, w'. split; [done|]. rewrite fset_eq, Ew. cbn. rewrite decide_True by done. lia.
    + eapply kn_ext; [exact EXT|]. eapply kn_mono; [apply VW|by eapply IU].
  - intros j u k' id [[-> ->]|[N Ej]]%ins_cases A B; [done|]. eapply kn_ext; [exact EXT|by eapply IMV].
  - intros j u k' [[-> ->]|[N Ej]]%ins_cases A; [done|]. eapply kn_ext; [exact EXT|]. eapply kn_mono; [apply VW|by eapply IW8].
  - intros k' ts u e E. rewrite Em in E. destruct (decide (k' = k)) as [->|N].
    + rewrite fset_eq. destruct (decide (ts = t)) as [->|Nt].
      * rewrite mset_same in E. injection E as <-. rewrite fset_eq, Ew. cbn. by left.
      * rewrite mset_ne_t in E by done. rewrite fset_ne by done. by eapply IGH.
    + rewrite mset_ne_l in E by congruence. rewrite fset_ne by done. by eapply IGH.
  - intros j u k' id [[-> ->]|[N Ej]]%ins_cases A; [by destruct A|]. apply TE. eapply told_mono; [apply VW|by eapply IR].
Qed.

(** A store to a key that is not yet released. *)
Lemma winv_mark s i k o t m' c' w' :
  winv s → store s i (LX k) o 0 t m' c' w' → (∀ t' v u, t' < t → mem s (LX k) t' = Some (v, u) → v ≠ 1%Z) →
  winv (WSt m' c' (fset (vw s) i w') (mv s) (gh s) (cnt s) (rgs s) (tks s) (ths s)).
Proof.
  intros I (FR & VT & ST & Ew & Em & Ec) MO.
  assert (EXT : ∀ l ts x, mem s l ts = Some x → m' l ts = Some x) by (rewrite Em; by apply mset_ext).
  assert (VW : ∀ j, vle (vw s j) (fset (vw s) i w' j)) by (apply vle_fset; rewrite Ew; apply vle_join_l).
  assert (MLP : m' LP = mem s LP) by (rewrite Em; by apply mset_ne_l).
  assert (CLP : c' LP = scv s LP) by (rewrite Ec; unfold sset; destruct (is_sc o); [by rewrite fset_ne|done]).
  assert (OLD : ∀ k' ts u, m' (LX k') ts = Some (1%Z, u) → mem s (LX k') ts = Some (1%Z, u)).
  { intros k' ts u. rewrite Em. by intros [(_ & _ & E)|E]%mset_inv. }
  assert (TE : ∀ w k', told (mem s) (gh s) w k' → told m' (gh s) w k').
  { intros w k' (ts & u & A & B). exists ts, u. auto. }
  destruct I as [IP INN IPOS I01 IMO ISC IU IMV IW8 IGH IR]. split; cbn [mem scv vw mv gh cnt rgs tks ths].
  - destruct IP as (pe & re & N & u & A & B & C & D). exists pe, re, N, u. split; [done|]. split; [|by rewrite MLP].
    intros k'. rewrite B. unfold released_key. cbn. split; intros (ts & m & E); exists ts, m; auto.
  - rewrite MLP. apply INN.
  - rewrite MLP, CLP. apply IPOS.
  - intros k' ts v u. rewrite Em. intros [(_ & _ & E)|E]%mset_inv; [injection E as -> _; by left|by eapply I01].
  - intros k' ts ts' u v' u' A%OLD L A'. rewrite Em in A'. apply mset_inv in A' as [(F & -> & _)|A']; [|by eapply IMO].
    injection F as ->. exfalso. destruct (decide (ts = t)) as [->|]; [congruence|]. eapply (MO ts); [lia|exact A|done].
  - intros k' (ts & m & E%OLD). destruct (ISC k') as [u Hu]; [by exists ts, m|]. destruct (decide (c' (LX k') = scv s (LX k'))) as [->|N]; [exists u; auto|]. exfalso.
    rewrite Ec in N. unfold sset in N. destruct (is_sc o) eqn:Eo; [|done]. destruct (decide (k' = k)) as [->|Nk]; [|apply N; apply fset_ne; congruence].
    eapply (MO _ _ _ (ST eq_refl)); [exact Hu|done].
  - intros j u k' Ej A. eapply kn_ext; [exact EXT|]. eapply kn_mono; [apply VW|by eapply IU].
  - intros j u k' id Ej A B. eapply kn_ext; [exact EXT|by eapply IMV].
  - intros j u k' Ej A. eapply kn_ext; [exact EXT|]. eapply kn_mono; [apply VW|by eapply IW8].
  - intros k' ts u e E%OLD. by eapply IGH.
  - intros j u k' id Ej A. apply TE. eapply told_mono; [apply VW|by eapply IR].
Qed.

Lemma ann_ins rg i t t' ts : ts !! i = Some t → (∀ k, at_ t' ≠ W2 k) → ann rg (<[i := t']> ts) → ann rg ts.
Proof. intros Ei H [A|(j & u & k & [[-> ->]|[N Ej]]%ins_cases & B)]; [by left|by apply H in B|right; by exists j, u, k]. Qed.
Lemma ann_sub rg rg' ts : (∀ r, r ∈ rg' → r ∈ rg) → ann rg' ts → ann rg ts.
Proof.
  intros H [A|B]; [|by right]. left. intros ->. destruct rg' as [|r rg']; [done|]. assert (r ∈ []) by (apply H; left). by eapply elem_of_nil.
Qed.
Lemma fsub {A} (f : A → bool) (l : list A) r : r ∈ List.filter f l → r ∈ l. Proof. intros H. by apply elem_filter in H as [? _]. Qed.

Lemma wstep_ok s s' : winv s → wstep s s' → winv s'.
Proof.
  intros I T. destruct T as
    [m c w x g n rg tk ts i k td Ei|m c w x g n rg tk ts i k td t m' c' w' Ei St Mo|m c w x g n rg tk ts i k td m' c' w' Ei F|m c w x g n rg tk ts i k td Ei
    |m c w x g n rg tk ts i k id td v w' Ei Ld|m c w x g n rg tk ts i k id td Ei|m c w x g n rg tk ts i k td m' c' w' Ei F|m c w x g n rg tk ts i k id td Ei Tk
    |m c w x g n rg tk ts i k id td Ei|m c w x g n rg tk ts i k td v w' Ei Ld|m c w x g n rg tk ts i k td v w' Ei Ld|m c w x g n rg tk ts i k td Ei
    |m c w x g n rg tk ts i l td m' c' w' Ei F|m c w x g n rg tk ts i j l td Ei|m c w x g n rg tk ts i td Ei|m c w x g n rg tk ts i|m c w x g n rg tk ts i k o t m' c' w' St Mo
    |m c w x g n rg tk ts i e|m c w x g n rg tk ts i j]; unfold st.
  all: set (s := WSt m c w x g n rg tk ts) in *.
  - (* park *) apply (winv_same s i (Thr (Park k :: td) Idle)); try done.
    + intros pe re P R. exact (pstep_ok i _ _ _ _ _ P Ei eq_refl).
    + intros A. refine (ann_ins _ _ _ _ _ Ei _ A); done.
    + intros k' [|]; done.
    + by intros k' id' [|].
  - (* wake *) by eapply (winv_wake s).
  - (* announce *) apply (winv_add s i (Thr td (W1 k)) (Thr td (W2 k)) ord_announce 1); try done.
    + intros pe re P R. exact (pstep_ok i _ _ _ _ _ P Ei eq_refl).
    + by left.
  - (* register *) apply (winv_same s i (Thr td (W2 k))); try done.
    + apply vle_fset, vle_join_l.
    + apply vle_join_r.
    + intros pe re P R. exact (pstep_ok i _ _ _ _ _ P Ei eq_refl).
    + intros _. right. by exists i, (Thr td (W2 k)), k.
    + by intros k' [|].
    + intros k' id'. cbn. intros [= <- <-] H. exfalso. apply H. left.
    + intros j u k' id' N Ej A B C. exfalso. apply C. by right.
    + by intros k' id' [|].
  - (* check *) pose proof (sc_load s i k ord_check v w' I eq_refl Ld) as SL.
    apply (winv_same s i (Thr td (W3 k id))); try done.
    + apply vle_fset. exact (load_vle _ _ _ _ _ _ Ld).
    + intros pe re P R. apply (pstep_ok i _ _ _ _ _ P Ei). cbn.
      assert (Eb : bool_decide (k ∈ re) = (v =? 1)%Z); [|by rewrite Eb].
      destruct (Z.eqb_spec v 1) as [->|Nv]; [apply bool_decide_eq_true_2, R, SL; done|apply bool_decide_eq_false_2; intros H; apply Nv, SL, R, H].
    + intros A. eapply ann_ins; [exact Ei| |exact A]. intros k'. cbn. by destruct (v =? 1)%Z.
    + intros k'. cbn. destruct (v =? 1)%Z; by intros [|].
    + intros k' id'. cbn [at_]. intros A B. eapply (i_mv _ I i); [exact Ei| |exact B]. by destruct (v =? 1)%Z.
    + intros k'. cbn. by destruct (v =? 1)%Z.
    + intros k' id'. cbn [at_]. destruct (Z.eqb_spec v 1) as [->|Nv]; [|by intros [|]]. intros [A|A]; [|done]. injection A as <- <-. rewrite fset_eq. exact (acq_told s i k ord_check w' I eq_refl Ld).
  - (* remove *) apply (winv_same s i (Thr td (W4 k id))); try done.
    + apply vle_fset, vle_join_l.
    + apply vle_join_r.
    + intros pe re P R. exact (pstep_ok i _ _ _ _ _ P Ei eq_refl).
    + intros A. eapply ann_ins; [exact Ei| |]; [|eapply ann_sub; [|exact A]; intros r; apply fsub]. intros k'. cbn. by destruct (rgd k id rg).
    + intros k'. cbn. destruct (rgd k id rg); by intros [|].
    + intros k' id'. cbn. by destruct (rgd k id rg).
    + intros j u k' id' N Ej A B C. exfalso. apply C. apply elem_filter. split; [done|]. cbn.
      destruct (Nat.eqb_spec k' k) as [->|]; [|done]. destruct (Nat.eqb_spec id' id) as [->|]; [|done]. exfalso. apply N.
      destruct (i_p _ I) as (pe & re & ? & ? & P & _). by eapply (v_id _ _ P j i).
    + intros k'. cbn. by destruct (rgd k id rg).
    + intros k' id'. cbn [at_]. destruct (rgd k id rg); [|by intros [|]]. intros [A|A]; [done|]. injection A as <-. rewrite fset_eq. eapply told_mono; [apply vle_join_l|].
      eapply (i_ret _ I i); [exact Ei|by left].
  - (* leave *) apply (winv_add s i (Thr td (W5 k)) (Thr td Idle) ord_leave (-1)); try done.
    + intros pe re P R. exact (pstep_ok i _ _ _ _ _ P Ei eq_refl).
    + right. intros A. refine (ann_ins _ _ _ _ _ Ei _ A); done.
  - (* token *) apply (winv_same s i (Thr td (W6 k id))); try done.
    + intros pe re P R. apply (pstep_ok i _ _ _ _ _ P Ei). cbn. by rewrite bool_decide_eq_true_2.
    + intros A. refine (ann_ins _ _ _ _ _ Ei _ A); done.
    + by intros k' [|].
    + intros k' id' A B. eapply (i_mv _ I i); [exact Ei|done|exact B].
    + by intros k' id' [|].
  - (* test *) destruct (i_p _ I) as (pe0 & re0 & ? & ? & P0 & _).
    apply (winv_same s i (Thr td (W7 k id))); try done.
    + apply vle_fset, vle_join_l.
    + apply vle_join_r.
    + intros pe re P R. exact (pstep_ok i _ _ _ _ _ P Ei eq_refl).
    + intros A. eapply ann_ins; [exact Ei| |exact A]. intros k'. cbn. by destruct (rgd k id rg).
    + intros k'. cbn. destruct (rgd k id rg); by intros [|].
    + intros k' id'. cbn [at_]. intros A B. eapply kn_mono; [apply vle_join_r|]. destruct (rgd k id rg); [|done]. eapply (i_mv _ I i); [exact Ei|exact A|exact B].
    + intros k'. cbn [at_]. destruct (rgd k id rg) eqn:Er; [done|]. intros A. injection A as <-. rewrite fset_eq. eapply kn_mono; [apply vle_join_r|].
      eapply (i_mv _ I i); [exact Ei|done|]. intros Hr. assert (is_reg k id (Pst 0 n rg [] tk) = true) as Er'; [apply is_reg_spec; by exists i|]. unfold is_reg in Er'. cbn [regs] in Er'. unfold rgd in Er. congruence.
    + intros k' id'. cbn. destruct (rgd k id rg); by intros [|].
  - (* recheck *) pose proof (kn_load s i k _ v w' I (i_w8 _ I i _ k Ei eq_refl) Ld) as ->.
    apply (winv_same s i (Thr td (W8 k))); try done.
    + apply vle_fset. exact (load_vle _ _ _ _ _ _ Ld).
    + intros pe re P R. apply (pstep_ok i _ _ _ _ _ P Ei). cbn. rewrite bool_decide_eq_true_2; [done|]. apply R. destruct Ld as (t & u & A & _). by exists t, u.
    + intros A. refine (ann_ins _ _ _ _ _ Ei _ A); done.
    + by intros k' [|].
    + by intros k' id' [|].
  - (* fast path *) apply (winv_same s i (Thr td (U1 k))); try done.
    + apply vle_fset. exact (load_vle _ _ _ _ _ _ Ld).
    + intros pe re P R. destruct (Z.eqb_spec v 0) as [->|Nv].
      * eapply pinv_u1_stop; [exact P|exact Ei|]. exact (fast_zero s i ord_fast w' I eq_refl Ld).
      * by eapply pinv_u1_go.
    + intros A. eapply ann_ins; [exact Ei| |exact A]. intros k'. cbn. by destruct (v =? 0)%Z.
    + intros k'. cbn [at_]. destruct (v =? 0)%Z; [by intros [|]|]. intros [A|A]; [done|]. injection A as <-. rewrite fset_eq. eapply kn_mono; [exact (load_vle _ _ _ _ _ _ Ld)|].
      eapply (i_u _ I i); [exact Ei|by left].
    + intros k' id'. cbn. by destruct (v =? 0)%Z.
    + intros k'. cbn. by destruct (v =? 0)%Z.
    + intros k' id'. cbn. destruct (v =? 0)%Z; by intros [|].
  - (* take *) set (mine := map snd (List.filter (λ r : nat * nat * nat, r.1.1 =? k) rg)).
    assert (KN : kn (mem s) (join (w i) x) k) by (eapply kn_mono; [apply vle_join_l|]; eapply (i_u _ I i); [exact Ei|by right]).
    apply (winv_same s i (Thr td (U2 k))); try done.
    + apply vle_fset, vle_join_l.
    + apply vle_join_r.
    + intros pe re P R. exact (pstep_ok i _ _ _ _ _ P Ei eq_refl).
    + intros A. eapply ann_ins; [exact Ei| |]; [|eapply ann_sub; [|exact A]; intros r; apply fsub]. intros k'. cbn. by destruct mine.
    + intros k'. cbn. destruct mine; by intros [|].
    + intros k' id'. cbn. by destruct mine.
    + intros j u k' id' N Ej A B C. destruct (decide (k' = k)) as [->|Nk]; [exact KN|]. exfalso. apply C. apply elem_filter. split; [done|]. cbn. by destruct (Nat.eqb_spec k' k).
    + intros k'. cbn. by destruct mine.
    + intros k' id'. cbn. destruct mine; by intros [|].
  - (* taken *) apply (winv_add s i (Thr td (U3 l)) (Thr td (U4 l)) ord_taken (- Z.of_nat (length l))); try done.
    + intros pe re P R. exact (pstep_ok i _ _ _ _ _ P Ei eq_refl).
    + right. intros A. refine (ann_ins _ _ _ _ _ Ei _ A); done.
  - (* unpark *) apply (winv_same s i (Thr td (U4 (j :: l)))); try done.
    + intros pe re P R. exact (pstep_ok i _ _ _ _ _ P Ei eq_refl).
    + intros A. refine (ann_ins _ _ _ _ _ Ei _ A); done.
    + by intros k' [|].
    + by intros k' id' [|].
  - (* done *) apply (winv_same s i (Thr td (U4 []))); try done.
    + intros pe re P R. exact (pstep_ok i _ _ _ _ _ P Ei eq_refl).
    + intros A. refine (ann_ins _ _ _ _ _ Ei _ A); done.
    + by intros k' [|].
    + by intros k' id' [|].
  - (* spurious *) exact (winv_spurious s i I).
  - (* mark *) exact (winv_mark s i k o t m' c' w' I St Mo).
  - (* learn *) apply (winv_view s); [done|]. apply vle_fset. split; cbn; [done|tauto].
  - (* sync *) apply (winv_view s); [done|]. apply vle_fset, vle_join_l.
Qed.

Lemma winit_ok tasks : winv (winit tasks).
Proof.
  assert (M : ∀ l ts v u, mem (winit tasks) l ts = Some (v, u) → ts = 0 ∧ v = 0%Z).
  { intros l ts v u. cbn. case_decide; [|done]. by intros [= <- _]. }
  split; cbn [cnt rgs tks ths scv vw mv gh].
  - exists 0%Z, [], 0, bot. split; [exact (init_ok tasks)|]. split; [|split].
    + intros k. split; [by intros ?%elem_of_nil|]. intros (ts & m & E%M). by destruct E.
    + intros ts. cbn. case_decide; split; (done || lia).
    + done.
  - intros ts v u [_ ->]%M. done.
  - intros [A|(i & t & k & Ei & A)]; [done|]. apply start_idle in Ei. congruence.
  - intros k ts v u [_ ->]%M. by left.
  - intros k ts ts' u v' u' [_ A]%M. done.
  - intros k (ts & m & E%M). by destruct E.
  - intros j u k Ej A. apply start_idle in Ej. rewrite Ej in A. by destruct A.
  - intros j u k id Ej A. apply start_idle in Ej. by rewrite Ej in A.
  - intros j u k Ej A. apply start_idle in Ej. by rewrite Ej in A.
  - done.
  - intros j u k id Ej A. apply start_idle in Ej. rewrite Ej in A. by destruct A.
Qed.
Lemma reach_winv tasks s : reachable tasks s → winv s.
Proof. induction 1 as [|s s' R IH T]; [apply winit_ok|by eapply wstep_ok]. Qed.

(** ** The properties. *)
(** Thread [u] is in the middle of release + unpark of [k]: it has released [k] and will look for the waiters of [k]; or it has taken the waiters [l] and will wake them. *)
Definition will_wake (u : thr) (k i : nat) : Prop :=
  at_ u = U1 k ∨ at_ u = U2 k ∨ ∃ l, (at_ u = U3 l ∨ at_ u = U4 l) ∧ i ∈ l.

(** C53 (1): no lost wakeup, with the orderings of the code: a thread that sleeps in park(k), without a token, although [k] has been released, is about to be woken
    by a thread that is in the middle of unpark. *)
Theorem C53_no_lost_wakeup tasks s i t k :
  reachable tasks s → ths s !! i = Some t → asleep t k → i ∉ tks s → released_key s k →
  ∃ j u, ths s !! j = Some u ∧ j ≠ i ∧ will_wake u k i.
Proof.
  intros R Ei [id A] NT RK. pose proof (reach_winv _ _ R) as I. destruct (i_p _ I) as (pe & re & N & m & P & B & _ & _).
  assert (F : ∀ j u, ths s !! j = Some u → will_wake u k i → j ≠ i).
  { intros j u Ej W ->. rewrite Ei in Ej. injection Ej as <-. unfold will_wake in W. rewrite A in W. destruct W as [|[|(l & [|] & _)]]; done. }
  destruct (decide ((k, id, i) ∈ rgs s)) as [Hr|Hr].
  - destruct (v_wake _ _ P i t k id Ei (or_introl A) Hr) as (j & u & Ej & W); [by apply B|]. exists j, u.
    assert (will_wake u k i) by (unfold will_wake; tauto). eauto.
  - destruct (v_tok _ _ P i t k id Ei A Hr) as [|(j & u & l & Ej & W & Hl)]; [done|]. exists j, u.
    assert (will_wake u k i) by (right; right; by exists l). eauto.
Qed.
(** In particular: when no thread is in the middle of unpark, a thread that sleeps without a token sleeps for a key nobody has released. *)
Theorem C53_quiet tasks s i t k :
  reachable tasks s → (∀ j u, ths s !! j = Some u → at_ u = Idle ∨ ∃ k', asleep u k') →
  ths s !! i = Some t → asleep t k → i ∉ tks s → ¬ released_key s k.
Proof.
  intros R Q Ei A NT RK. destruct (C53_no_lost_wakeup tasks s i t k R Ei A NT RK) as (j & u & Ej & _ & W).
  unfold will_wake in W. destruct (Q j u Ej) as [E|(k' & id' & E)]; rewrite E in W; destruct W as [|[|(l & [|] & _)]]; done.
Qed.
(** C53 (2): a sleeper that has been woken finds the key released, although it looks with an Acquire load only: park does not go round again. *)
Theorem C53_woken_returns tasks s s' i td k :
  reachable tasks s → wstep s s' → ths s !! i = Some (Thr td (W8 k)) → ∀ t', ths s' !! i = Some t' → at_ t' = W8 k ∨ at_ t' = Idle.
Proof.
  intros R T Ei t' Ei'. pose proof (reach_winv _ _ R) as I. pose proof (i_w8 _ I i _ k Ei eq_refl) as KN.
  assert (OTH : ∀ (ts : list thr) j x, ts !! i = Some (Thr td (W8 k)) → j ≠ i → <[j := x]> ts !! i = Some t' → at_ t' = W8 k ∨ at_ t' = Idle).
  { intros ts j x E N F. rewrite list_lookup_insert_ne in F by done. rewrite E in F. injection F as <-. by left. }
  destruct T; cbn [ths] in *; unfold st in *; try (rewrite Ei in Ei'; injection Ei' as <-; by left);
    match goal with X : ?ts !! ?j = Some _, Y : <[?j := _]> ?ts !! _ = Some _ |- _ => destruct (decide (j = i)) as [->|N]; [|by eapply OTH] end;
    match goal with X : ?ts !! i = Some (Thr td (W8 k)), Y : ?ts !! i = Some _ |- _ => rewrite X in Y; try discriminate Y end.
  match goal with X : Some _ = Some _ |- _ => injection X as <- <- end.
  match goal with X : load _ _ _ _ _ _ |- _ => rewrite (kn_load _ _ _ _ _ _ I KN X) in Ei' end.
  rewrite list_lookup_insert in Ei' by (by eapply lookup_lt_Some). injection Ei' as <-. by right.
Qed.
(** C53 (3): "This method is guaranteed to establish happens-before with the unpark condition before it returns" (parker.rs:31-32): when park(k) returns, the thread knows
    everything that a thread which released [k] knew when it released [k]. *)
Theorem C53_park_happens_before tasks s s' i t t' k :
  reachable tasks s → wstep s s' → ths s !! i = Some t → parking t k → ths s' !! i = Some t' → at_ t' = Idle →
  ∃ ts u, mem s (LX k) ts = Some (1%Z, u) ∧ ∀ e, gh s k ts e → vk (vw s' i) e.
Proof.
  intros R T Ei P Ei' Id. pose proof (reach_winv _ _ R) as I.
  assert (NI : at_ t ≠ Idle) by (unfold parking in P; by destruct (at_ t)).
  assert (OTH : ∀ (ts : list thr) j x, ts !! i = Some t → j ≠ i → <[j := x]> ts !! i = Some t' → False).
  { intros ts j x E N F. rewrite list_lookup_insert_ne in F by done. congruence. }
  destruct T; cbn [ths vw mem gh] in *; unfold st in *; try (exfalso; congruence);
    match goal with X : ?ts !! ?j = Some _, Y : <[?j := _]> ?ts !! _ = Some _ |- _ => destruct (decide (j = i)) as [->|N]; [|exfalso; by eapply OTH] end;
    match goal with X : ?ts !! i = Some t, Y : ?ts !! i = Some _ |- _ => rewrite X in Y; injection Y as -> end;
    rewrite list_lookup_insert in Ei' by (by eapply lookup_lt_Some); injection Ei' as <-; cbn [at_] in *; try discriminate Id; try (exfalso; by apply NI); unfold parking in P; cbn [at_] in P; try done.
  - exfalso. by destruct (v =? 1)%Z.
  - (* 63-69 *) subst k0. rewrite fset_eq. destruct (i_ret _ I i _ k id Ei) as (tt & u & A & B); [by left|]. cbn in *. exists tt, u. split; [done|]. intros e He. left. by apply B.
  - (* 71-75 *) subst k0. rewrite fset_eq. destruct (i_ret _ I i _ k 0 Ei) as (tt & u & A & B); [by right|]. cbn in *. exists tt, u. split; [done|]. intros e He.
    match goal with X : fetch_add _ _ _ _ _ _ _ _ |- _ => destruct X as (? & ? & ? & _ & _ & _ & _ & -> & _) end. cbn. left. left. by apply B.
  - exfalso. by destruct (rgd k0 id rg).
  - (* 94 *) subst k0. rewrite fset_eq. pose proof (kn_load _ _ _ _ _ _ I (i_w8 _ I i _ k Ei eq_refl) H0) as ->. exact (acq_told _ _ _ ord_recheck _ I eq_refl H0).
Qed.
(** C53 (4): the unsigned counter never goes below zero, at any point of its modification order. *)
Theorem C53_pending_never_negative tasks s ts v u : reachable tasks s → mem s LP ts = Some (v, u) → (0 ≤ v)%Z.
Proof. intros R. apply (i_nn _ (reach_winv _ _ R)). Qed.

(** A run: thread 0 announces itself, registers, looks, finds 7 not released and sleeps; thread 1, which has done event 5, releases 7. The hypotheses of C53 (1) hold; thread 1 still has to look. *)
Definition tasks53 : list (list task) := [[Park 7]; [Wake 7]].
Local Ltac acc := split; [reflexivity|]; split; [vm_compute; lia|]; split; [intros _; vm_compute; lia|]; repeat (split; [reflexivity|]); reflexivity.
Local Ltac go R R' c tac := eassert (R' : reachable tasks53 _); [eapply R_step; [exact R|]; eapply c; [reflexivity|tac ()..]|].
Example C53_example : ∃ s t, reachable tasks53 s ∧ ths s !! 0 = Some t ∧ asleep t 7 ∧ 0 ∉ tks s ∧ released_key s 7 ∧ ∃ ts, gh s 7 ts 5.
Proof.
  pose proof (R_init tasks53) as R0.
  go R0 R1 (S_park (mem (winit tasks53)) (λ _, 0) (λ _, bot) bot (λ _ _ _, False) 0 [] [] (start tasks53) 0 7 []) ltac:(fun _ => idtac).
  go R1 R2 uconstr:(S_announce _ _ _ _ _ _ _ _ _ 0 7 []) ltac:(fun _ => exists 0, 0%Z, bot; acc).
  go R2 R3 uconstr:(S_register _ _ _ _ _ _ _ _ _ 0 7 []) ltac:(fun _ => idtac).
  go R3 R4 uconstr:(S_check _ _ _ _ _ _ _ _ _ 0 7 1 [] 0%Z) ltac:(fun _ => exists 0, bot; acc).
  eassert (R5 : reachable tasks53 _); [eapply R_step; [exact R4|]; eapply (S_learn _ _ _ _ _ _ _ _ _ 1 5)|].
  eassert (R6 : reachable tasks53 _); [eapply R_step; [exact R5|]; eapply (S_wake _ _ _ _ _ _ _ _ _ 1 7 [] 1); [reflexivity|acc|]|].
  { intros t' v u L E. exfalso. cbn in E. destruct t'; [lia|done]. }
  eexists _, _. split; [exact R6|]. split; [reflexivity|]. split; [by exists 1|]. split; [by intros ?%elem_of_nil|].
  split; [by eexists 1, _|]. exists 1. vm_compute. by right.
Qed.
(** A run with a stale read: thread 0 announces itself, registers and leaves again, because thread 1 has released 7 meanwhile; the counter is back at 0, but thread 1 may still
    read 1 in its fast path and then looks for waiters in vain. *)
Example C53_stale_read : ∃ s td u, reachable tasks53 s ∧ ths s !! 1 = Some (Thr td (U2 7)) ∧ mem s LP 2 = Some (0%Z, u) ∧ rgs s = [].
Proof.
  pose proof (R_init tasks53) as R0.
  go R0 R1 (S_park (mem (winit tasks53)) (λ _, 0) (λ _, bot) bot (λ _ _ _, False) 0 [] [] (start tasks53) 0 7 []) ltac:(fun _ => idtac).
  go R1 R2 uconstr:(S_announce _ _ _ _ _ _ _ _ _ 0 7 []) ltac:(fun _ => exists 0, 0%Z, bot; acc).
  go R2 R3 uconstr:(S_register _ _ _ _ _ _ _ _ _ 0 7 []) ltac:(fun _ => idtac).
  eassert (R4 : reachable tasks53 _); [eapply R_step; [exact R3|]; eapply (S_wake _ _ _ _ _ _ _ _ _ 1 7 [] 1); [reflexivity|acc|]|].
  { intros t' v u L E. exfalso. cbn in E. destruct t'; [lia|done]. }
  go R4 R5 uconstr:(S_check _ _ _ _ _ _ _ _ _ 0 7 1 [] 1%Z) ltac:(fun _ => eexists 1, _; acc).
  go R5 R6 uconstr:(S_remove _ _ _ _ _ _ _ _ _ 0 7 1 []) ltac:(fun _ => idtac).
  go R6 R7 uconstr:(S_leave _ _ _ _ _ _ _ _ _ 0 7 []) ltac:(fun _ => eexists 1, 1%Z, _; acc).
  go R7 R8 uconstr:(S_fast _ _ _ _ _ _ _ _ _ 1 7 [] 1%Z) ltac:(fun _ => eexists 1, _; acc).
  eexists _, [], _. split; [exact R8|]. split; [reflexivity|]. split; reflexivity.
Qed.
