(** C32: the lock-free stack of src/raw/utils/stack.rs, on its own, with any number of pushing threads. *)
From stdpp Require Import base list option numbers.
Local Open Scope nat_scope.

Section stack.
  Context {T : Type}.

  (** Node, stack.rs:17-20. A node is identified by its index in [nodes]; [None] = deallocated. [next] is [None] for null. *)
  Record node := Node { n_val : T; n_next : option nat }.
  (** Stack, stack.rs:12-14, with the heap of nodes. *)
  Record stk := Stk { nodes : list (option node); head : option nat }.

  (** A pushing thread: the values it still has to push and where it is in [push] (stack.rs:31-57):
      [PIdle] between calls, [PLoad n] before line 41 with its node [n] allocated (lines 32-35),
      [PLink n h] before line 44 having read [h], [PCas n h] before line 49. *)
  Inductive pc := PIdle | PLoad (n : nat) | PLink (n : nat) (h : option nat) | PCas (n : nat) (h : option nat).
  Record pthread := PThread { p_todo : list T; p_pc : pc }.
  (** [None] as a result: an access to a node that does not exist or is deallocated. *)
  Definition set_next (n : nat) (h : option nat) (s : stk) : option stk :=
    match nodes s !! n with
    | Some (Some nd) => Some (Stk (<[n := Some (Node (n_val nd) h)]> (nodes s)) (head s))
    | _ => None
    end.
  Definition pstep (s : stk) (t : pthread) : option (stk * pthread) :=
    match p_pc t with
    | PIdle =>
      match p_todo t with
      | [] => Some (s, t)
      | v :: todo => Some (Stk (nodes s ++ [Some (Node v None)]) (head s), PThread todo (PLoad (length (nodes s))))   (* 32-35 *)
      end
    | PLoad n => Some (s, PThread (p_todo t) (PLink n (head s)))                                                   (* 41 *)
    | PLink n h => (λ s', (s', PThread (p_todo t) (PCas n h))) <$> set_next n h s                                  (* 44 *)
    | PCas n h =>                                                                                                  (* 49-55 *)
      if decide (head s = h) then Some (Stk (nodes s) (Some n), PThread (p_todo t) PIdle)
      else Some (s, PThread (p_todo t) (PLoad n))
    end.
  (** Any schedule of the threads (indices out of range are ignored). *)
  Fixpoint prun (s : stk) (ts : list pthread) (sched : list nat) : option (stk * list pthread) :=
    match sched with
    | [] => Some (s, ts)
    | i :: sched =>
      match ts !! i with
      | None => prun s ts sched
      | Some t => match pstep s t with Some (s', t') => prun s' (<[i := t']> ts) sched | None => None end
      end
    end.

  (** drain, stack.rs:60-73: follow the links from the head, deallocating every node. Returns the values passed to the
      callback, in order. [None]: a node is dereferenced that is not allocated (use after free / double free), or the walk is longer than the
      number of nodes ever allocated. *)
  Fixpoint drain_from (fuel : nat) (ns : list (option node)) (h : option nat) : option (list T * list (option node)) :=
    match h with
    | None => Some ([], ns)
    | Some n =>
      match fuel with
      | 0 => None
      | S f =>
        match ns !! n with
        | Some (Some nd) => (λ r, (n_val nd :: r.1, r.2)) <$> drain_from f (<[n := None]> ns) (n_next nd)
        | _ => None
        end
      end
    end.
  Definition drain (s : stk) : option (list T * list (option node)) := drain_from (length (nodes s)) (nodes s) (head s).

  Definition init : stk := Stk [] None.     (* Stack::new, stack.rs:24-28 *)

  (** ** Proof *)
  Definition owned (t : pthread) : option nat := match p_pc t with PIdle => None | PLoad n | PLink n _ | PCas n _ => Some n end.
  Inductive linked (ns : list (option node)) : option nat → list nat → list T → Prop :=
    | lk_nil : linked ns None [] []
    | lk_cons n nd l vs : ns !! n = Some (Some nd) → linked ns (n_next nd) l vs → linked ns (Some n) (n :: l) (n_val nd :: vs).

  Lemma linked_insert ns h l vs n x : linked ns h l vs → n ∉ l → linked (<[n := x]> ns) h l vs.
  Proof.
    induction 1 as [|m nd l vs E L IH]; intros N; [constructor|]. apply not_elem_of_cons in N as [N1 N2]. econstructor; [|by apply IH].
    by rewrite list_lookup_insert_ne.
  Qed.
  Lemma linked_app ns h l vs x : linked ns h l vs → linked (ns ++ x) h l vs.
  Proof. induction 1 as [|m nd l vs E L IH]; econstructor; eauto. rewrite lookup_app_l; [done|by eapply lookup_lt_Some]. Qed.
  Lemma linked_lt ns h l vs n : linked ns h l vs → n ∈ l → n < length ns.
  Proof. induction 1 as [|m nd l vs E L IH]; [by intros ?%elem_of_nil|]. intros [->|?]%elem_of_cons; [by eapply lookup_lt_Some|auto]. Qed.

  (** The value of the node a thread is pushing. *)
  Definition inflight (ns : list (option node)) (t : pthread) : list T :=
    match owned t with Some n => match ns !! n with Some (Some nd) => [n_val nd] | _ => [] end | None => [] end.
  Definition pend (ns : list (option node)) (t : pthread) : list T := inflight ns t ++ p_todo t.

  Record sinv (todo : list T) (s : stk) (ts : list pthread) : Prop := SInv {
    si_chain : ∃ l vs, linked (nodes s) (head s) l vs ∧ NoDup l ∧ (∀ i t n, ts !! i = Some t → owned t = Some n → n ∉ l) ∧
      vs ++ concat (map (pend (nodes s)) ts) ≡ₚ todo ∧
      (∀ n, n < length (nodes s) → n ∈ l ∨ ∃ i t, ts !! i = Some t ∧ owned t = Some n);
    si_own : ∀ i t n, ts !! i = Some t → owned t = Some n → ∃ nd, nodes s !! n = Some (Some nd) ∧ match p_pc t with PCas _ h => n_next nd = h | _ => True end;
    si_uniq : ∀ i j t u n, ts !! i = Some t → ts !! j = Some u → owned t = Some n → owned u = Some n → i = j }.

  Lemma concat_insert (f : pthread → list T) i t t' ts : ts !! i = Some t →
    concat (map f (<[i := t']> ts)) ++ f t ≡ₚ concat (map f ts) ++ f t'.
  Proof.
    revert i. induction ts as [|u ts IH]; intros [|i]; cbn; try done.
    - intros [= ->]. rewrite <- !(assoc_L (++)). rewrite (Permutation_app_comm (f t')). by rewrite !(assoc_L (++)), (Permutation_app_comm (f t)).
    - intros E. rewrite <- !(assoc_L (++)). apply Permutation_app_head. by apply IH.
  Qed.
  Lemma concat_ext (f g : pthread → list T) ts : (∀ i t, ts !! i = Some t → f t = g t) → concat (map f ts) = concat (map g ts).
  Proof.
    induction ts as [|u ts IH]; intros H; [done|]. cbn. rewrite (H 0 u eq_refl). f_equal. apply IH. intros i t. apply (H (S i)).
  Qed.
  Lemma ins_cases (i : nat) (t' : pthread) (ts : list pthread) (j : nat) u : <[i := t']> ts !! j = Some u → (j = i ∧ u = t') ∨ (j ≠ i ∧ ts !! j = Some u).
  Proof.
    intros E. destruct (decide (j = i)) as [->|N]; [left|right].
    - split; [done|]. assert (i < length ts) by (apply lookup_lt_Some in E; by rewrite insert_length in E). rewrite list_lookup_insert in E by done. congruence.
    - by rewrite list_lookup_insert_ne in E.
  Qed.

  Lemma pstep_ok todo s ts i t : sinv todo s ts → ts !! i = Some t → ∃ s' t', pstep s t = Some (s', t') ∧ sinv todo s' (<[i := t']> ts).
  Proof.
    intros [(l & vs & LK & ND & PV & PM & AL) OW UQ] Ei. assert (Li : i < length ts) by by eapply lookup_lt_Some.
    unfold pstep. destruct t as [td [|n|n h|n h]]; cbn [p_pc p_todo].
    - destruct td as [|v td].
      + eexists _, _. split; [done|]. rewrite list_insert_id by done. split; [by exists l, vs|done|done].
      + eexists _, _. split; [done|]. set (n := length (nodes s)).
        assert (NL : n ∉ l) by (intros Hn; apply (linked_lt _ _ _ _ _ LK) in Hn; unfold n in Hn; lia).
        assert (OL : ∀ j u m, ts !! j = Some u → owned u = Some m → m < n).
        { intros j u m Ej Eu. destruct (OW _ _ _ Ej Eu) as (nd & Em & _). by eapply lookup_lt_Some. }
        split; cbn [nodes head].
        * exists l, vs. split; [by apply linked_app|]. split; [done|]. split; [|split].
          -- intros j u m [[-> ->]|[Nj Ej]]%ins_cases Eu; [by injection Eu as <-|by eapply PV].
          -- rewrite <- PM. apply Permutation_app_head.
             assert (E1 : concat (map (pend (nodes s)) ts) = concat (map (pend (nodes s ++ [Some (Node v None)])) ts)).
             { apply concat_ext. intros j u Ej. unfold pend, inflight. destruct (owned u) as [m|] eqn:Eu; [|done].
               rewrite lookup_app_l; [done|]. by eapply OL. }
             rewrite E1. set (f := pend _). pose proof (concat_insert f i (PThread (v :: td) PIdle) (PThread td (PLoad n)) ts Ei) as X.
             assert (F1 : f (PThread td (PLoad n)) = f (PThread (v :: td) PIdle)).
             { unfold f, pend, inflight, n. cbn. rewrite lookup_app_r by done. by rewrite Nat.sub_diag. }
             rewrite F1 in X. by apply Permutation_app_inv_r in X.
          -- intros m Lm. rewrite app_length in Lm. cbn in Lm. destruct (decide (m = n)) as [->|Nm].
             ++ right. exists i. eexists. split; [by apply list_lookup_insert|done].
             ++ destruct (AL m) as [?|(j & u & Ej & Eu)]; [unfold n in *; lia|by left|]. right. exists j, u. split; [|done].
                rewrite list_lookup_insert_ne; [done|]. intros <-. rewrite Ei in Ej. by injection Ej as <-.
        * intros j u m [[-> ->]|[Nj Ej]]%ins_cases Eu.
          -- injection Eu as <-. eexists. split; [|done]. rewrite lookup_app_r by done. by rewrite Nat.sub_diag.
          -- destruct (OW _ _ _ Ej Eu) as (nd & Em & H). exists nd. split; [|done]. rewrite lookup_app_l; [done|by eapply lookup_lt_Some].
        * intros j j' u u' m [[-> ->]|[Nj Ej]]%ins_cases [[-> ->]|[Nj' Ej']]%ins_cases Eu Eu'; [done| | |by eapply UQ].
          -- injection Eu as <-. pose proof (OL _ _ _ Ej' Eu'). lia.
          -- injection Eu' as <-. pose proof (OL _ _ _ Ej Eu). lia.
    - eexists _, _. split; [done|]. set (t' := PThread td (PLink n (head s))).
      assert (Q : ∀ j u m, <[i:=t']> ts !! j = Some u → owned u = Some m → ∃ u', ts !! j = Some u' ∧ owned u' = Some m).
      { intros j u m [[-> ->]|[Nj Ej]]%ins_cases Eu; eauto. }
      split.
      + exists l, vs. split; [done|]. split; [done|]. split; [|split].
        * intros j u m Ej Eu. destruct (Q _ _ _ Ej Eu) as (u' & Ej' & Eu'). by eapply PV.
        * rewrite <- PM. apply Permutation_app_head. pose proof (concat_insert (pend (nodes s)) i _ t' ts Ei) as X. by apply Permutation_app_inv_r in X.
        * intros m Lm. destruct (AL m Lm) as [?|(j & u & Ej & Eu)]; [by left|]. right. destruct (decide (j = i)) as [->|Nj].
          -- exists i, t'. split; [by apply list_lookup_insert|]. rewrite Ei in Ej. by injection Ej as <-.
          -- exists j, u. by rewrite list_lookup_insert_ne.
      + intros j u m [[-> ->]|[Nj Ej]]%ins_cases Eu; [|by eapply OW]. injection Eu as <-. destruct (OW i _ n Ei eq_refl) as (nd & En & _). by exists nd.
      + intros j j' u u' m Ej Ej' Eu Eu'. destruct (Q _ _ _ Ej Eu) as (v & Fj & Fu). destruct (Q _ _ _ Ej' Eu') as (v' & Fj' & Fu'). by eapply UQ.
    - destruct (OW i _ n Ei eq_refl) as (nd & En & _). unfold set_next. rewrite En. cbn [fmap option_fmap option_map].
      eexists _, _. split; [done|]. set (t' := PThread td (PCas n h)). assert (Ln : n < length (nodes s)) by by eapply lookup_lt_Some.
      assert (Q : ∀ j u m, <[i:=t']> ts !! j = Some u → owned u = Some m → ∃ u', ts !! j = Some u' ∧ owned u' = Some m).
      { intros j u m [[-> ->]|[Nj Ej]]%ins_cases Eu; eauto. }
      assert (NL : n ∉ l) by by eapply PV.
      split; cbn [nodes head].
      + exists l, vs. split; [by apply linked_insert|]. split; [done|]. split; [|split].
        * intros j u m Ej Eu. destruct (Q _ _ _ Ej Eu) as (u' & Ej' & Eu'). by eapply PV.
        * rewrite <- PM. apply Permutation_app_head.
          assert (E1 : ∀ u, pend (<[n:=Some (Node (n_val nd) h)]> (nodes s)) u = pend (nodes s) u).
          { intros u. unfold pend, inflight. destruct (owned u) as [m|]; [|done]. destruct (decide (m = n)) as [->|Nm].
            - rewrite list_lookup_insert by done. by rewrite En.
            - by rewrite list_lookup_insert_ne. }
          rewrite (concat_ext _ (pend (nodes s))) by (intros; apply E1).
          pose proof (concat_insert (pend (nodes s)) i _ t' ts Ei) as X. by apply Permutation_app_inv_r in X.
        * intros m Lm. rewrite insert_length in Lm. destruct (AL m Lm) as [?|(j & u & Ej & Eu)]; [by left|]. right. destruct (decide (j = i)) as [->|Nj].
          -- exists i, t'. split; [by apply list_lookup_insert|]. rewrite Ei in Ej. by injection Ej as <-.
          -- exists j, u. by rewrite list_lookup_insert_ne.
      + intros j u m [[-> ->]|[Nj Ej]]%ins_cases Eu.
        * injection Eu as <-. eexists. split; [by apply list_lookup_insert|done].
        * assert (m ≠ n) by (intros ->; apply Nj; by eapply UQ). rewrite list_lookup_insert_ne by done. by eapply OW.
      + intros j j' u u' m Ej Ej' Eu Eu'. destruct (Q _ _ _ Ej Eu) as (v & Fj & Fu). destruct (Q _ _ _ Ej' Eu') as (v' & Fj' & Fu'). by eapply UQ.
    - destruct (decide (head s = h)) as [Eh|Nh].
      + destruct (OW i _ n Ei eq_refl) as (nd & En & Enx). cbn in Enx. eexists _, _. split; [done|]. set (t' := PThread td PIdle).
        assert (NL : n ∉ l) by by eapply PV.
        split; cbn [nodes head].
        * exists (n :: l), (n_val nd :: vs). split; [econstructor; [done|by rewrite Enx, <- Eh]|]. split; [by constructor|]. split; [|split].
          -- intros j u m [[-> ->]|[Nj Ej]]%ins_cases Eu; [done|]. apply not_elem_of_cons. split; [|by eapply PV]. intros ->. apply Nj. by eapply UQ.
          -- rewrite <- PM. pose proof (concat_insert (pend (nodes s)) i _ t' ts Ei) as X. unfold pend at 2 4 in X. unfold inflight in X. cbn in X. rewrite En in X. cbn in X.
             rewrite <- Permutation_middle in X.
             rewrite (app_comm_cons (concat _)) in X. apply Permutation_app_inv_r in X. cbn. rewrite Permutation_middle. by apply Permutation_app_head.
          -- intros m Lm. destruct (AL m Lm) as [?|(j & u & Ej & Eu)]; [left; by apply elem_of_list_further|]. destruct (decide (j = i)) as [->|Nj].
             ++ rewrite Ei in Ej. injection Ej as <-. injection Eu as <-. left. apply elem_of_list_here.
             ++ right. exists j, u. by rewrite list_lookup_insert_ne.
        * intros j u m [[-> ->]|[Nj Ej]]%ins_cases Eu; [done|by eapply OW].
        * intros j j' u u' m [[-> ->]|[Nj Ej]]%ins_cases [[-> ->]|[Nj' Ej']]%ins_cases Eu Eu'; try done. by eapply UQ.
      + eexists _, _. split; [done|]. set (t' := PThread td (PLoad n)).
        assert (Q : ∀ j u m, <[i:=t']> ts !! j = Some u → owned u = Some m → ∃ u', ts !! j = Some u' ∧ owned u' = Some m).
        { intros j u m [[-> ->]|[Nj Ej]]%ins_cases Eu; eauto. }
        split.
        * exists l, vs. split; [done|]. split; [done|]. split; [|split].
          -- intros j u m Ej Eu. destruct (Q _ _ _ Ej Eu) as (u' & Ej' & Eu'). by eapply PV.
          -- rewrite <- PM. apply Permutation_app_head. pose proof (concat_insert (pend (nodes s)) i _ t' ts Ei) as X. by apply Permutation_app_inv_r in X.
          -- intros m Lm. destruct (AL m Lm) as [?|(j & u & Ej & Eu)]; [by left|]. right. destruct (decide (j = i)) as [->|Nj].
             ++ exists i, t'. split; [by apply list_lookup_insert|]. rewrite Ei in Ej. by injection Ej as <-.
             ++ exists j, u. by rewrite list_lookup_insert_ne.
        * intros j u m [[-> ->]|[Nj Ej]]%ins_cases Eu; [|by eapply OW]. injection Eu as <-. destruct (OW i _ n Ei eq_refl) as (nd & En & _). by exists nd.
        * intros j j' u u' m Ej Ej' Eu Eu'. destruct (Q _ _ _ Ej Eu) as (v & Fj & Fu). destruct (Q _ _ _ Ej' Eu') as (v' & Fj' & Fu'). by eapply UQ.
  Qed.

  Lemma prun_ok todo sched : ∀ s ts, sinv todo s ts → ∃ s' ts', prun s ts sched = Some (s', ts') ∧ sinv todo s' ts'.
  Proof.
    induction sched as [|i sched IH]; intros s ts I; [by exists s, ts|]. cbn. destruct (ts !! i) as [t|] eqn:Ei; [|by apply IH].
    destruct (pstep_ok _ _ _ _ _ I Ei) as (s' & t' & E & I'). rewrite E. by apply IH.
  Qed.

  Lemma drain_ok : ∀ l vs ns h fuel, linked ns h l vs → NoDup l → length l ≤ fuel →
    ∃ ns', drain_from fuel ns h = Some (vs, ns') ∧ length ns' = length ns ∧ (∀ n, n ∈ l → ns' !! n = Some None) ∧ (∀ n, n ∉ l → ns' !! n = ns !! n).
  Proof.
    induction l as [|n l IH]; intros vs ns h fuel LK ND L; inversion LK as [|n' nd l' vs' En LK']; subst.
    - exists ns. destruct fuel; (split; [done|]; split; [done|]; split; [|done]; intros n Hn; by apply elem_of_nil in Hn).
    - destruct fuel as [|fuel]; [cbn in L; lia|]. cbn [drain_from]. rewrite En. apply list.NoDup_cons in ND as [N1 N2]. cbn in L.
      destruct (IH vs' (<[n:=None]> ns) (n_next nd) fuel) as (ns' & E & Ln & H1 & H2); [by apply linked_insert|done|lia|].
      rewrite E. cbn. exists ns'. split; [done|]. split; [by rewrite Ln, insert_length|]. split.
      + intros m [->|Hm]%elem_of_cons; [|by apply H1]. rewrite H2 by done. apply list_lookup_insert. by eapply lookup_lt_Some.
      + intros m [Nm Nl]%not_elem_of_cons. rewrite H2 by done. by rewrite list_lookup_insert_ne.
  Qed.
  Lemma chain_le (l : list nat) n : NoDup l → (∀ m, m ∈ l → m < n) → length l ≤ n.
  Proof.
    intros ND H. rewrite <- (seq_length n 0). apply submseteq_length, NoDup_submseteq; [done|]. intros m Hm. apply elem_of_list_In, in_seq. apply H in Hm. lia.
  Qed.

  (** C32. Threads push the lists [todo !! 0], [todo !! 1], ... concurrently, in any schedule. No step ever accesses an
      invalid node; and when all pushes are complete, [drain] hands out exactly the multiset of pushed values, and
      deallocates every node exactly once. *)
  Theorem C32_stack : ∀ (todo : list (list T)) (sched : list nat),
    ∃ s ts, prun init (map (λ l, PThread l PIdle) todo) sched = Some (s, ts) ∧
      ((∀ i t, ts !! i = Some t → p_todo t = [] ∧ p_pc t = PIdle) →
       ∃ l ns, drain s = Some (l, ns) ∧ l ≡ₚ concat todo ∧ ∀ n x, ns !! n = Some x → x = None).
  Proof.
    intros todo sched.
    assert (I0 : sinv (concat todo) init (map (λ l, PThread l PIdle) todo)).
    { assert (N : ∀ i t n, map (λ l, PThread l PIdle) todo !! i = Some t → owned t = Some n → False).
      { intros i t n E. rewrite list_lookup_fmap in E. destruct (todo !! i); [|done]. cbn in E. by injection E as <-. }
      split; [|intros i t n E1 E2; by destruct (N i t n)|intros i j t u n E1 _ E2; by destruct (N i t n)].
      exists [], []. split; [constructor|]. split; [constructor|]. split; [intros i t n E1 E2; by destruct (N i t n)|]. split; [|cbn; lia].
      cbn. rewrite map_map. cbn. unfold pend, inflight. cbn. by rewrite map_id. }
    destruct (prun_ok _ sched _ _ I0) as (s & ts & E & I). exists s, ts. split; [done|]. intros HF.
    destruct I as [(l & vs & LK & ND & PV & PM & AL) OW UQ].
    destruct (drain_ok l vs (nodes s) (head s) (length (nodes s)) LK ND) as (ns & ED & Ln & H1 & H2).
    { apply chain_le; [done|]. intros m. by apply (linked_lt _ _ _ _ _ LK). }
    exists vs, ns. split; [exact ED|]. split.
    - rewrite <- PM. assert (E0 : concat (map (pend (nodes s)) ts) = []).
      { rewrite (concat_ext _ (λ _, [])); [clear; by induction ts|]. intros i t Ei. destruct (HF i t Ei) as [A B]. unfold pend, inflight, owned. by rewrite A, B. }
      by rewrite E0, app_nil_r.
    - intros n x En. assert (Lt : n < length (nodes s)) by (rewrite <- Ln; by eapply lookup_lt_Some). destruct (AL n Lt) as [Hn|(i & t & Ei & Et)].
      + rewrite (H1 n Hn) in En. by injection En as <-.
      + destruct (HF i t Ei) as [_ B]. unfold owned in Et. by rewrite B in Et.
  Qed.
End stack.

(** Non-vacuity: two threads, a failed CAS and its retry, complete runs. *)
Example C32_example :
  ∃ s ts, prun init (map (λ l, PThread l PIdle) [[1; 2]; [3]]) [0; 1; 0; 1; 0; 1; 0; 1; 1; 1; 1; 1; 0; 0; 0; 0] = Some (s, ts) ∧
    ts = [PThread [] PIdle; PThread [] PIdle] ∧ drain s = Some ([2; 3; 1], [None; None; None]).
Proof. eexists _, _. by vm_compute. Qed.
