(** Top-level theorems: every execution of the machine from the initial state, for both resize modes (incremental, the
    default, with any chunk size, and blocking), every schedule, number of threads, hash function, capacity and number of
    counter shards. *)
From Verif Require Export IncMach7.

Section main.
  Context {K V : Type} {Keq : EqDecision K} (cfg : config K) (nthr nsh cap : nat).
  Context (HS : 0 < nsh).
  Notation MI := (MI cfg nthr nsh). Notation WI := (WI cfg nthr nsh).

  Lemma MI_init : MI (init_conf (K:=K) (V:=V) cap nsh nthr) (w_init nsh cap) [] [].
  Proof.
    split; cbn [mc_st mc_thr mc_hist mc_nop init_conf].
    - by apply WI_init.
    - done.
    - apply replicate_length.
    - done.
    - split; try done.
      + intros i j h0 h k v (id & r & E & _). done.
      + intros i j h0 h h' k v v' (id & r & E & _). done.
    - intros id o E. done.
    - intros i ts E. apply lookup_replicate in E as [-> _]. split; [done|]. split; [done|]. exists []. split.
      + split; [done|]. intros j x g E. done.
      + split; [done|]. intros j g h0 E. done.
    - intros h i id o r v E. done.
  Qed.

  Lemma exec_ok_own (sched : list (choice K V)) c w D G : MI c w D G → (∀ me, nthr ≤ me → r_own (wr w) me = None) →
    ∃ c' w' D' G', exec cfg c sched = Some c' ∧ MI c' w' D' G' ∧ (∀ me, nthr ≤ me → r_own (wr w') me = None).
  Proof.
    revert c w D G. induction sched as [|ch sched IH]; intros c w D G M O; [by exists c, w, D, G|]. cbn.
    pose proof (step_ok cfg nthr nsh c w D G ch M) as S. destruct (mstep cfg c ch) as [c'| |]; [|by eapply IH|done].
    destruct S as (w' & D' & G' & M' & _ & _ & O'). apply (IH c' w' D' G' M'). intros me Hm. rewrite O' by done. by apply O.
  Qed.
  Lemma reach_ok_own (sched : list (choice K V)) :
    ∃ c w D G, exec cfg (init_conf (V:=V) cap nsh nthr) sched = Some c ∧ MI c w D G ∧ (∀ me, nthr ≤ me → r_own (wr w) me = None).
  Proof. by eapply exec_ok_own; [apply MI_init|]. Qed.
  Lemma reach_MI_own (sched : list (choice K V)) c : exec cfg (init_conf (V:=V) cap nsh nthr) sched = Some c →
    ∃ w D G, MI c w D G ∧ (∀ me, nthr ≤ me → r_own (wr w) me = None).
  Proof. intros E. destruct (reach_ok_own sched) as (c' & w & D & G & E' & M & O). rewrite E in E'. injection E' as <-. eauto. Qed.
  Lemma reach_ok (sched : list (choice K V)) : ∃ c w D G, exec cfg (init_conf (V:=V) cap nsh nthr) sched = Some c ∧ MI c w D G.
  Proof. destruct (reach_ok_own sched) as (c & w & D & G & E & M & _). by exists c, w, D, G. Qed.
  Lemma reach_MI (sched : list (choice K V)) c : exec cfg (init_conf (V:=V) cap nsh nthr) sched = Some c → ∃ w D G, MI c w D G.
  Proof. intros E. destruct (reach_MI_own sched c E) as (w & D & G & M & _). eauto. Qed.

  Lemma MI_lin (c : mconf K V) w D G : MI c w D G → ∃ S cut, linearizes (mc_hist c) S cut ∧ sweeps (mc_hist c) S cut ∧ iterates (mc_hist c) S cut ∧ closures_ok (mc_hist c) S cut.
  Proof.
    intros M. pose proof (mi_wi _ _ _ _ _ _ _ M) as W. pose proof (mi_hi _ _ _ _ _ _ _ M) as I.
    destruct (acts_ex cfg nthr nsh w W) as [A HA]. exists (SS w G A), (cut w D G A). split_and!.
    - by eapply lin_ok.
    - by eapply sweeps_ok.
    - by eapply iter_ok.
    - by eapply clos_ok.
  Qed.

  (** C01 and C02 (with C08, C11-C14 as conjuncts): every history is linearizable, whatever the resize mode. *)
  Theorem C01_C02_linearizable : ∀ sched : list (choice K V),
    ∃ c, exec cfg (init_conf cap nsh nthr) sched = Some c ∧ wf_hist (mc_hist c) ∧
      ∃ S cut, linearizes (mc_hist c) S cut ∧ sweeps (mc_hist c) S cut ∧ iterates (mc_hist c) S cut ∧ closures_ok (mc_hist c) S cut.
  Proof.
    intros sched. destruct (reach_ok sched) as (c & w & D & G & E & M). exists c. split; [done|]. split; [apply M|]. by eapply MI_lin.
  Qed.
  (** C01: incremental mode, any chunk size. *)
  Theorem C01_linearizable (chunk : nat) : c_mode cfg = Incremental chunk → ∀ sched : list (choice K V),
    ∃ c, exec cfg (init_conf cap nsh nthr) sched = Some c ∧ wf_hist (mc_hist c) ∧
      ∃ S cut, linearizes (mc_hist c) S cut ∧ sweeps (mc_hist c) S cut ∧ iterates (mc_hist c) S cut ∧ closures_ok (mc_hist c) S cut.
  Proof. intros _. apply C01_C02_linearizable. Qed.
  (** C02: blocking mode. *)
  Theorem C02_linearizable_blocking : c_mode cfg = Blocking → ∀ sched : list (choice K V),
    ∃ c, exec cfg (init_conf cap nsh nthr) sched = Some c ∧ wf_hist (mc_hist c) ∧
      ∃ S cut, linearizes (mc_hist c) S cut ∧ sweeps (mc_hist c) S cut ∧ iterates (mc_hist c) S cut ∧ closures_ok (mc_hist c) S cut.
  Proof. intros _. apply C01_C02_linearizable. Qed.

  (** C15: no execution reaches undefined behaviour (use after free, out-of-bounds access, double retirement, dangling
      reference returned), and references stay readable, with the same contents, while the guard is held. *)
  Theorem C15_no_undefined_behaviour : ∀ sched : list (choice K V), exec cfg (init_conf cap nsh nthr) sched ≠ None.
  Proof. intros sched. destruct (reach_ok sched) as (c & w & D & G & E & M). by rewrite E. Qed.
  Theorem C15_references_stay_valid : ∀ (sched : list (choice K V)) c, exec cfg (init_conf cap nsh nthr) sched = Some c →
    ∀ h i id o r v, mc_hist c !! h = Some (HRes i id o r v) → guard_held i h (mc_hist c) →
      to_vals o (mc_st c) r = Some v ∧ ∀ p, p ∈ refs r → p ∉ freed (mc_st c).
  Proof.
    intros sched c E h i id o r v Eh L. destruct (reach_MI sched c E) as (w & D & G & M).
    destruct (mi_ref _ _ _ _ _ _ _ M h i id o r v Eh L) as [A B]. rewrite <- (mi_st _ _ _ _ _ _ _ M). split; [done|].
    intros p Hp. exact (proj1 (proj1 (B p Hp))).
  Qed.

  (** C19: the only panics, when the capacity given at construction is a power of two or below 5. *)
  Theorem C19_panics_partial : (is_pow2 (c_initial cfg) = true ∨ c_initial cfg < 5) →
    ∀ (sched : list (choice K V)) c, exec cfg (init_conf cap nsh nthr) sched = Some c →
    ∀ h i id o why, mc_hist c !! h = Some (HPanic i id o why) →
      ∃ k f, o = OCompute k f ∧ ((why = PRemoveNone ∧ f None = OpRemove) ∨ (why = PUser ∧ ∃ x, f x = OpPanic)).
  Proof.
    intros GC sched c E h i id o why Eh. destruct (reach_MI sched c E) as (w & D & G & M).
    pose proof (hi_panic _ _ _ _ _ (mi_hi _ _ _ _ _ _ _ M) h i id o why Eh) as (X & _). destruct why; cbn in X; try done;
      first [by destruct X|destruct X as (k & f & -> & Ef); exists k, f; by auto|destruct X as (k & f & x & -> & Ef); exists k, f; by eauto].
  Qed.
  Theorem C19_panics_any_capacity_partial :
    ∀ (sched : list (choice K V)) c, exec cfg (init_conf cap nsh nthr) sched = Some c →
    ∀ h i id o why, mc_hist c !! h = Some (HPanic i id o why) →
      why = PAllocPow2 ∨ why = PPoison ∨
      ∃ k f, o = OCompute k f ∧ ((why = PRemoveNone ∧ f None = OpRemove) ∨ (why = PUser ∧ ∃ x, f x = OpPanic)).
  Proof.
    intros sched c E h i id o why Eh. destruct (reach_MI sched c E) as (w & D & G & M).
    pose proof (hi_panic _ _ _ _ _ (mi_hi _ _ _ _ _ _ _ M) h i id o why Eh) as (X & _). destruct why; cbn in X; try done; auto; right; right;
      first [destruct X as (k & f & -> & Ef); exists k, f; by auto|destruct X as (k & f & x & -> & Ef); exists k, f; by eauto].
  Qed.
End main.
