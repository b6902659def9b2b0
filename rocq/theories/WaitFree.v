(** C25: wait-freedom of reads in blocking mode, and of iteration and [len] in both modes. *)
From Verif Require Export Machine Spec Props.

Section wf.
  Context {K V : Type} {Keq : EqDecision K} (cfg : config K).
  Notation prog := (prog K V). Notation action := (action K V).

  (** An atomic access that is always enabled. *)
  Definition enabled {X} (f : action X) : Prop := ∀ me b σ, f me b σ ≠ Block.

  (** [p] ends after at most [n] steps of its own, whatever the values it reads (so whatever other threads do in
      between), never blocks and never panics. *)
  Inductive steps {A} : nat → prog A → Prop :=
    | st_ret (a : A) n : steps n (Ret a)
    | st_act {X} (f : action X) (k : X → prog A) n : enabled f → (∀ x, steps n (k x)) → steps (S n) (Act f k)
    | st_loop {S' B} (body : S' → prog (S' + B)) s (k : B → prog A) n :
        steps n (bind (body s) (λ r, match r with inl s' => Loop body s' k | inr b => k b end)) → steps (S n) (Loop body s k).

  Lemma steps_mono {A} n m (p : prog A) : steps n p → n ≤ m → steps m p.
  Proof.
    intros S. revert m. induction S; intros m L.
    - constructor.
    - destruct m; [lia|]. constructor; [done|]. intros x. apply H1. lia.
    - destruct m; [lia|]. constructor. apply IHS. lia.
  Qed.

  Lemma en_table {A} t σ (f : table → outcome K V A) : (∀ tb, f tb ≠ Block) → with_table t σ f ≠ Block.
  Proof. intros H. unfold with_table. destruct (tables σ !! t) as [tb|]; [|done]. by destruct (t_freed tb). Qed.
  Lemma en_slot {A} t i σ (f : table → slot → outcome K V A) : (∀ tb s, f tb s ≠ Block) → with_slot t i σ f ≠ Block.
  Proof. intros H. apply en_table. intros tb. by destruct (t_slots tb !! i). Qed.
  Lemma en_root : enabled (a_root (K:=K) (V:=V)).
  Proof. intros me b σ. unfold a_root. destruct (root σ); [|done]. by apply en_table. Qed.
  Lemma en_meta tb i : enabled (a_load_meta (K:=K) (V:=V) tb i). Proof. intros me b σ. by apply en_slot. Qed.
  Lemma en_ent tb i : enabled (a_load_ent (K:=K) (V:=V) tb i). Proof. intros me b σ. by apply en_slot. Qed.
  Lemma en_deref p : enabled (a_deref (K:=K) (V:=V) p).
  Proof. intros me b σ. unfold a_deref. destruct (decide _); [done|]. by destruct (heap σ !! p). Qed.

  Lemma get_probe_steps {B C} (g : option (option nat) → prog B) (h : B → prog C) m fuel tb k i len : (∀ x, steps m (bind (g x) h)) →
    steps (3 * fuel + m) (bind (bind (get_probe cfg fuel tb k i len) g) h).
  Proof.
    intros Hc. revert i len. induction fuel as [|f IH]; intros i len; [apply Hc|].
    replace (3 * S f + m) with (S (S (S (3 * f + m)))) by lia. cbn [get_probe bind act].
    assert (IH' : ∀ i len n, 3 * f + m ≤ n → steps n (bind (bind (get_probe cfg f tb k i len) g) h)) by (intros; eapply steps_mono; [apply IH|lia]).
    assert (Hc' : ∀ x n, 3 * f + m ≤ n → steps n (bind (g x) h)) by (intros; eapply steps_mono; [apply Hc|lia]).
    constructor; [apply en_meta|]. intros mt.
    assert (FT : ∀ n, 3 * f + m ≤ n → steps n (bind (bind (if (mt =? EMPTY)%N then Ret (Some None) else get_probe cfg f tb k (probe_next i (S len) (th_mask tb)) (S len)) g) h)).
    { intros n L. destruct (mt =? EMPTY)%N; [by apply Hc'|by apply IH']. }
    destruct (mt =? h2_of cfg k)%N; [|apply FT; lia]. cbn [bind act]. constructor; [apply en_ent|]. intros e. destruct (e_ptr e); [|apply IH'; lia].
    cbn [bind act]. constructor; [apply en_deref|]. intros kv. destruct (bool_decide _); [|apply FT; lia]. destruct (e_copied e); cbn [bind]; apply Hc'; lia.
  Qed.

  (** How many steps thread [i] is given in a schedule (whether or not it could use them). *)
  Definition runs_of (i : nat) (s : list (choice K V)) : nat :=
    length (List.filter (λ ch, match ch with CRun j _ => j =? i | _ => false end) s).

  Lemma run_cases {T} (p : prog T) (fin : T → option (vres K V * list iterst * hevent K V)) (inj : prog T → prog (pres K V))
      (i id : nat) (o : op K V) its (c : mconf K V) orc (P : sres → Prop) :
    (∀ its' ev, P (SStep (MConf (mc_st c) (set_thr i (ts_idle its') (mc_thr c)) (mc_hist c ++ [ev]) (mc_nop c)))) →
    (∀ p' σ', P (SStep (MConf σ' (set_thr i (TState (Some (id, o, p')) its false) (mc_thr c)) (mc_hist c) (mc_nop c)))) →
    P SSkip → P SUB →
    (∀ why, P (SStep (MConf (unpin i (mc_st c)) (set_thr i (TState None [] true) (mc_thr c)) (mc_hist c ++ [HPanic i id o why]) (mc_nop c)))) →
    P (match p in Prog.prog _ _ T return (T → option (vres K V * (list iterst) * hevent K V)) → (Prog.prog K V T → Prog.prog K V (pres K V)) → sres with
        | Ret a => λ fin _,
          match fin a with
          | Some (v, its', ev) => SStep (MConf (mc_st c) (set_thr i (ts_idle its') (mc_thr c)) (mc_hist c ++ [ev]) (mc_nop c))
          | None => SUB
          end
        | Act f k => λ _ inj,
          match f i orc (mc_st c) with
          | Ok x σ' => SStep (MConf σ' (set_thr i (TState (Some (id, o, inj (k x))) its false) (mc_thr c)) (mc_hist c) (mc_nop c))
          | Block => SSkip
          | UB => SUB
          end
        | Loop body s k => λ _ inj,
          SStep (MConf (mc_st c) (set_thr i (TState (Some (id, o,
              inj (bind (body s) (λ r, match r with inl s' => Loop body s' k | inr b => k b end)))) its false) (mc_thr c))
             (mc_hist c) (mc_nop c))
        | Fail why => λ _ _,
          SStep (MConf (unpin i (mc_st c)) (set_thr i (TState None [] true) (mc_thr c)) (mc_hist c ++ [HPanic i id o why]) (mc_nop c))
        end fin inj).
  Proof.
    intros H1 H2 H3 H4 H5. destruct p as [T a|X T f k|S B T body s k|T why]; auto.
    - destruct (fin a) as [[[? ?] ?]|]; auto.
    - destruct (f i orc (mc_st c)); auto.
  Qed.

  Lemma mstep_hist (c c' : mconf K V) ch : mstep cfg c ch = SStep c' → ∃ e, mc_hist c' = mc_hist c ++ e.
  Proof.
    intros E. assert (T : ∀ c0, SStep c0 = SStep c' → mc_hist c0 = mc_hist c → ∃ e, mc_hist c' = mc_hist c ++ e).
    { intros c0 [= <-] ->. exists []. by rewrite app_nil_r. }
    assert (T1 : ∀ c0 e, SStep c0 = SStep c' → mc_hist c0 = mc_hist c ++ e → ∃ e, mc_hist c' = mc_hist c ++ e).
    { intros c0 e [= <-] ->. by exists e. }
    destruct ch as [i|i|i o|i b|j]; cbn [mstep] in E.
    - destruct (mc_thr c !! i) as [[[] its []]|]; try done. destruct (decide _); [done|]. by eapply T1.
    - destruct (mc_thr c !! i) as [[[] its []]|]; try done. destruct (decide _); [|done]. by eapply T1.
    - destruct (mc_thr c !! i) as [[[] its []]|]; try done. destruct (decide _); [|done]. by eapply T1.
    - destruct (mc_thr c !! i) as [[[[[id o] p]|] its []]|]; try done.
      revert E. apply (run_cases p _ _ i id o its c b (λ x, x = SStep c' → ∃ e, mc_hist c' = mc_hist c ++ e)); intros; first [done|by eapply T|by eapply T1].
    - destruct (retired (mc_st c) !! j) as [r|]; [|done]. destruct (decide _); [|done]. destruct (reclaim _ _ _); [|done]. by eapply T.
  Qed.
  Lemma exec_hist sched : ∀ (c c' : mconf K V), exec cfg c sched = Some c' → ∃ e, mc_hist c' = mc_hist c ++ e.
  Proof.
    induction sched as [|ch sched IH]; cbn [exec]; intros c c' E; [injection E as <-; exists []; by rewrite app_nil_r|].
    destruct (mstep cfg c ch) as [c1| |] eqn:M; [|by apply IH|done]. destruct (mstep_hist _ _ _ M) as [e1 E1]. destruct (IH _ _ E) as [e2 E2].
    exists (e1 ++ e2). by rewrite E2, E1, (assoc_L (++)).
  Qed.

  (** Nobody else touches the program of a running thread. *)
  Lemma mstep_other (c c' : mconf K V) ch i x its : mc_thr c !! i = Some (TState (Some x) its false) →
    (∀ b, ch ≠ CRun i b) → mstep cfg c ch = SStep c' → mc_thr c' !! i = Some (TState (Some x) its false).
  Proof.
    intros Ei Nc E.
    assert (T : ∀ j ts (c0 : mconf K V), SStep c0 = SStep c' → j ≠ i → mc_thr c0 = set_thr j ts (mc_thr c) → mc_thr c' !! i = Some (TState (Some x) its false)).
    { intros j ts c0 [= <-] Nj ->. unfold set_thr. by rewrite list_lookup_insert_ne by done. }
    destruct ch as [j|j|j o|j b|j]; cbn [mstep] in E.
    - destruct (mc_thr c !! j) as [[[] its' []]|]; try done. destruct (decide _); [done|]. by injection E as <-.
    - destruct (mc_thr c !! j) as [[[] its' []]|] eqn:Ej; try done. destruct (decide _); [|done]. eapply T; [done| |done]. intros ->. congruence.
    - destruct (mc_thr c !! j) as [[[] its' []]|] eqn:Ej; try done. destruct (decide _); [|done]. eapply T; [done| |done]. intros ->. congruence.
    - assert (Nj : j ≠ i) by (intros ->; by apply (Nc b)).
      destruct (mc_thr c !! j) as [[[[[id o] p]|] its' []]|]; try done.
      revert E. apply (run_cases p _ _ j id o its' c b (λ y, y = SStep c' → mc_thr c' !! i = Some (TState (Some x) its false))); intros; first [done|by eapply T].
    - destruct (retired (mc_st c) !! j) as [r|]; [|done]. destruct (decide _); [|done]. destruct (reclaim _ _ _); [|done]. by injection E as <-.
  Qed.

  (** A program of at most [n] steps returns once its thread has been scheduled [n + 1] times. *)
  Lemma steps_return n i id o p its : ∀ sched (c c' : mconf K V), steps n p → mc_thr c !! i = Some (TState (Some (id, o, p)) its false) →
    exec cfg c sched = Some c' → n < runs_of i sched → ∃ h r v, length (mc_hist c) ≤ h ∧ mc_hist c' !! h = Some (HRes i id o r v).
  Proof.
    intros sched. revert n p. induction sched as [|ch sched IH]; intros n p c c' ST Ei E L; [cbn in L; lia|].
    cbn [exec] in E.
    assert (DC : (∃ b, ch = CRun i b) ∨ ¬ ∃ b, ch = CRun i b).
    { destruct ch as [| | |j b|]; try (right; by intros [? ?]). destruct (decide (j = i)) as [->|]; [left; by exists b|right; intros [? ?]; congruence]. }
    destruct DC as [[b ->]|Nc].
    - unfold runs_of in L. cbn [List.filter] in L. rewrite Nat.eqb_refl in L. cbn [length] in L. fold (runs_of i sched) in L.
      cbn [mstep] in E. rewrite Ei in E.
      destruct ST as [a n|X f k n En Hk|S' B body s k n Hl].
      + destruct (to_vals o (mc_st c) a) as [v|] eqn:Ev; cbn in E; [|done].
        destruct (exec_hist _ _ _ E) as [e Eh]. cbn [mc_hist] in Eh. exists (length (mc_hist c)), a, v. split; [done|].
        rewrite Eh, <- (assoc_L (++)). rewrite lookup_app_r by done. by rewrite Nat.sub_diag.
      + destruct (f i b (mc_st c)) as [x σ'| |] eqn:Ef; [|by apply En in Ef|done].
        refine (IH n (k x) _ c' (Hk x) _ E _); [|lia]. cbn [mc_thr]; unfold set_thr; rewrite list_lookup_insert; [done|by eapply lookup_lt_Some].
      + refine (IH n _ _ c' Hl _ E _); [|lia]. cbn [mc_thr]; unfold set_thr; rewrite list_lookup_insert; [done|by eapply lookup_lt_Some].
    - assert (Nc' : ∀ b, ch ≠ CRun i b) by (intros b ->; apply Nc; by exists b).
      assert (L' : n < runs_of i sched).
      { revert L. unfold runs_of. cbn [List.filter]. destruct ch as [| | |j b|]; try done. destruct (j =? i) eqn:Ej; [|done]. apply Nat.eqb_eq in Ej as ->. by destruct (Nc' b). }
      destruct (mstep cfg c ch) as [c1| |] eqn:M; [|by eapply IH|done].
      pose proof (mstep_other _ _ _ _ _ _ Ei Nc' M) as E1. destruct (mstep_hist _ _ _ M) as [e Eh].
      destruct (IH n p c1 c' ST E1 E L') as (h & r & v & Lh & Hh). exists h, r, v. split; [|done]. rewrite Eh, app_length in Lh. lia.
  Qed.

  Lemma exec_cons_inv (s1 s2 : list (choice K V)) : ∀ c c', exec cfg c (s1 ++ s2) = Some c' → ∃ c1, exec cfg c s1 = Some c1 ∧ exec cfg c1 s2 = Some c'.
  Proof.
    induction s1 as [|ch s1 IH]; intros c c' E; [by exists c|]. cbn [exec app] in *. destruct (mstep cfg c ch); [by apply IH..|done].
  Qed.
  Lemma exec_others (s1 : list (choice K V)) i x its : ∀ c c1, exec cfg c s1 = Some c1 → runs_of i s1 = 0 → mc_thr c !! i = Some (TState (Some x) its false) →
    mc_thr c1 !! i = Some (TState (Some x) its false).
  Proof.
    induction s1 as [|ch s1 IH]; intros c c1 E R Ei; [by injection E as <-|]. cbn [exec] in E.
    assert (R' : runs_of i s1 = 0 ∧ ∀ b, ch ≠ CRun i b).
    { revert R. unfold runs_of. cbn [List.filter]. destruct ch as [| | |j b|]; try done. destruct (j =? i) eqn:Ej; [done|]. intros R. split; [done|].
      intros b'. apply Nat.eqb_neq in Ej. congruence. }
    destruct R' as [R' Nc]. destruct (mstep cfg c ch) as [c2| |] eqn:M; [|by eapply IH|done]. eapply IH; [done..|]. by eapply mstep_other.
  Qed.

  (** The bound: how many further steps a [get] may take after it has read the root pointer in state [σ]; it depends only on
      the probe limit of the table it started in. *)
  Definition get_bound (σ : state K V) : nat :=
    match root σ with
    | None => 1
    | Some t => match tables σ !! t with Some tb => 3 * S (t_limit tb) + 2 | None => 0 end
    end.

  (** C25. In blocking mode: thread [i] calls [get(k)] in any configuration [c] whatsoever; the other threads run ([s1], any
      schedule) until [i] takes its first step, in state [mc_st c1]; from then on, in any schedule [s2] in which [i] is scheduled
      [get_bound (mc_st c1)] times (and others any number of times), the call returns. *)
  Theorem C25_get_wait_free : c_mode cfg = Blocking → ∀ c c1 c' i k its b (s1 s2 : list (choice K V)),
    mc_thr c !! i = Some (ts_idle its) → i ∈ pins (mc_st c) →
    runs_of i s1 = 0 → exec cfg c (CInvoke i (OGet k) :: s1) = Some c1 → exec cfg c1 (CRun i b :: s2) = Some c' →
    get_bound (mc_st c1) ≤ runs_of i s2 →
    ∃ h r v, length (mc_hist c) < h ∧ mc_hist c' !! h = Some (HRes i (mc_nop c) (OGet k) r v).
  Proof.
    intros HM c c1 c' i k its b s1 s2 Ei Hp R1 E1 E2 L.
    cbn [exec mstep] in E1. rewrite Ei in E1. unfold ts_idle in E1. rewrite decide_True in E1 by done.
    assert (X1 : mc_thr c1 !! i = Some (TState (Some (mc_nop c, OGet k, op_prog cfg (OGet k) its)) its false)).
    { eapply exec_others; [exact E1|done|]. cbn [mc_thr]. unfold set_thr. rewrite list_lookup_insert; [done|by eapply lookup_lt_Some]. }
    destruct (exec_hist _ _ _ E1) as [e1 Eh1]. cbn [mc_hist] in Eh1.
    cbn [exec mstep] in E2. rewrite X1 in E2. cbn [op_prog bind act] in E2. unfold get in E2. cbn [bind act] in E2.
    assert (Y : ∀ p c2, mc_thr c2 !! i = Some (TState (Some (mc_nop c, OGet k, p)) its false) → mc_hist c2 = mc_hist c1 → exec cfg c2 s2 = Some c' →
      (∃ n, steps n p ∧ n < runs_of i s2) → ∃ h r v, length (mc_hist c) < h ∧ mc_hist c' !! h = Some (HRes i (mc_nop c) (OGet k) r v)).
    { intros p c2 Xi Xh Xe (n & ST & Ln). destruct (steps_return n i (mc_nop c) (OGet k) p its s2 c2 c' ST Xi Xe Ln) as (h & r & v & Lh & Hh).
      exists h, r, v. split; [|done]. rewrite Xh, Eh1, !app_length in Lh. cbn in Lh. lia. }
    destruct (a_root i b (mc_st c1)) as [x σ'| |] eqn:Er; [|by apply en_root in Er|done]. refine (Y _ _ _ _ E2 _); [| |]; clear E2 Y; [|reflexivity|].
    - cbn [mc_thr]. unfold set_thr. rewrite list_lookup_insert; [done|by eapply lookup_lt_Some].
    - unfold get_bound in L. unfold a_root in Er. destruct (root (mc_st c1)) as [t|].
      + unfold with_table in Er. destruct (tables (mc_st c1) !! t) as [tb|]; [|done]. destruct (t_freed tb); [done|]. injection Er as <- <-.
        exists (3 * S (t_limit tb) + 1). split; [|lia]. rewrite Nat.add_comm. cbn [loop bind]. cbn [Nat.add]. apply st_loop.
        eapply steps_mono; [apply (get_probe_steps _ _ 0)|unfold probe_fuel; cbn [th_limit handle]; lia].
        intros [r|]; [cbn [bind]; constructor|]. unfold incremental. rewrite HM. cbn [bind]. constructor.
      + injection Er as <- <-. exists 0. split; [|lia]. cbn. constructor.
  Qed.

  Lemma iter_next_steps {B} (g : nat * option nat → prog B) m fuel i tb : (∀ x, steps m (g x)) → steps (2 * fuel + m) (bind (iter_next fuel i tb) g).
  Proof.
    intros Hc. revert i. induction fuel as [|f IH]; intros i; [apply Hc|].
    replace (2 * S f + m) with (S (S (2 * f + m))) by lia. cbn [iter_next bind act].
    assert (IH' : ∀ i n, 2 * f + m ≤ n → steps n (bind (iter_next f i tb) g)) by (intros; eapply steps_mono; [apply IH|lia]).
    constructor; [apply en_meta|]. intros mt. destruct (_ || _)%N; [apply IH'; lia|]. cbn [bind act]. constructor; [apply en_ent|]. intros e.
    destruct (e_ptr e); [|apply IH'; lia]. eapply steps_mono; [apply Hc|lia].
  Qed.
  (** Iteration is wait-free in both modes: [next] on an iterator over a table of [n] slots returns after at most [2 n + 1] steps
      of its own. *)
  Theorem C25_iter_next_wait_free : ∀ c c' i j tb idx its (s : list (choice K V)),
    mc_thr c !! i = Some (ts_idle its) → i ∈ pins (mc_st c) → its !! j = Some (Some tb, idx) →
    exec cfg c (CInvoke i (OIterNext j) :: s) = Some c' → 2 * (th_len tb - idx) < runs_of i s →
    ∃ h r v, length (mc_hist c) < h ∧ mc_hist c' !! h = Some (HRes i (mc_nop c) (OIterNext j) r v).
  Proof.
    intros c c' i j tb idx its s Ei Hp Ej E L.
    cbn [exec mstep] in E. rewrite Ei in E. unfold ts_idle in E. rewrite decide_True in E by done.
    match type of E with exec _ ?c2 _ = _ => set (c2' := c2) in E end.
    assert (ST : steps (2 * (th_len tb - idx)) (op_prog cfg (OIterNext j) its)).
    { cbn [op_prog]. rewrite Ej. rewrite <- (Nat.add_0_r (2 * _)). apply iter_next_steps. intros x. constructor. }
    destruct (steps_return _ i (mc_nop c) (OIterNext j) _ its s c2' c' ST) as (h & r & v & Lh & Hh); [|done..|].
    - subst c2'. cbn [mc_thr]. unfold set_thr. rewrite list_lookup_insert; [done|by eapply lookup_lt_Some].
    - exists h, r, v. split; [|done]. subst c2'. cbn [mc_hist] in Lh. rewrite app_length in Lh. cbn in Lh. lia.
  Qed.
End wf.

(** The hypotheses are met: thread 1 is in the middle of an insert of the same key when thread 0 calls [get], and goes on
    while thread 0 reads; thread 0 returns. *)
Definition wf_cfg := mk_config (K:=nat) N.of_nat Blocking 0 2 1 1.
Definition wf_c0 := exec wf_cfg (init_conf (K:=nat) (V:=nat) 0 2 2) ([CPin 0; CPin 1; CInvoke 1 (OInsert 5 50)] ++ replicate 5 (CRun 1 false)).
Definition wf_s1 : list (choice nat nat) := [CRun 1 false].
Definition wf_s2 : list (choice nat nat) := concat (replicate 100 [CRun 1 false; CRun 0 false]).
Example C25_example :
  match wf_c0 with
  | Some c =>
    match exec wf_cfg c (CInvoke 0 (OGet 5) :: wf_s1) with
    | Some c1 => existsb (Nat.eqb 0) (pins (mc_st c)) && (runs_of 0 wf_s1 =? 0) && (get_bound (mc_st c1) <=? runs_of 0 wf_s2) && (10 <? get_bound (mc_st c1)) &&
       match exec wf_cfg c1 (CRun 0 false :: wf_s2) with Some c' => existsb (λ e, match e with HRes 0 1 _ _ (VGet (Some (5, 50))) => true | _ => false end) (mc_hist c') | None => false end
    | None => false
    end
  | None => false
  end = true.
Proof. by vm_compute. Qed.
