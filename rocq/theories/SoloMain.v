(** C41: with incremental resizing, every single-key call returns when its thread runs alone, from every reachable configuration in
    which no other call is in the middle of copying an entry or of allocating a table; in particular when no other call is running. *)
From Verif Require Export Solo3.

(** The single-key operations, and len and Iterator::next. *)
Definition single_key {K V} (o : op K V) : Prop :=
  match o with OClear | ORetain _ | OReserve _ | OIter => False | _ => True end.
(** iter, clear and retain. *)
Definition sweeping {K V} (o : op K V) : Prop :=
  match o with OClear | ORetain _ | OIter => True | _ => False end.
(** No entry is being copied: every entry marked as being copied has been copied. *)
Definition no_copy {K V} (σ : state K V) : Prop :=
  ∀ t tb i s, tables σ !! t = Some tb → t_slots tb !! i = Some s → e_copying (s_ent s) = true → is_Some (e_ptr (s_ent s)) → e_copied (s_ent s) = true.
(** No allocation lock is held. *)
Definition no_lock {K V} (σ : state K V) : Prop := ∀ t tb j, tables σ !! t = Some tb → t_lock tb ≠ LHeld j.
(** No resize is in progress: the current table has no next table. *)
Definition no_resize {K V} (σ : state K V) : Prop := ∀ t tb, root σ = Some t → tables σ !! t = Some tb → t_next tb = None.
(** No call is running and none has panicked. *)
Definition all_idle {K V} (c : mconf K V) : Prop := ∀ i ts, mc_thr c !! i = Some ts → ts_run ts = None ∧ ts_dead ts = false.

Section main.
  Context {K V : Type} {Keq : EqDecision K} (cfg : config K) (chunk : nat) (Hinc : c_mode cfg = Incremental chunk).
  Context (nthr nsh cap : nat) (HS : 0 < nsh) (sched : list (choice K V)) (c : mconf K V).
  Context (EX : exec cfg (init_conf cap nsh nthr) sched = Some c).

  Lemma exec_app_ne (s : list (choice K V)) : exec cfg c s ≠ None.
  Proof.
    intros E. apply (C15_no_undefined_behaviour (V:=V) cfg nthr nsh cap HS (sched ++ s)).
    assert (X : ∀ (s1 s2 : list (choice K V)) c0 c1, exec cfg c0 s1 = Some c1 → exec cfg c0 (s1 ++ s2) = exec cfg c1 s2).
    { clear. induction s1 as [|ch s1 IH]; intros s2 c0 c1; cbn [exec app]; [by intros [= <-]|]. destruct (mstep cfg c0 ch); [apply IH|apply IH|done]. }
    by rewrite (X _ _ _ _ EX).
  Qed.
  Lemma reach_InvI : ∃ γ, InvI cfg (core_of (mc_st c)) γ.
  Proof.
    destruct (reach_MI cfg nthr nsh cap HS sched c EX) as (w & D & G & M). exists (wg w). eapply Inv_inc; [exact Hinc|].
    rewrite <- (mi_st _ _ _ _ _ _ _ M). apply M.
  Qed.
  Lemma nt_tables (σ : state K V) : nt (core_of σ) = length (tables σ).
  Proof. unfold nt, core_of. cbn. by rewrite fmap_length. Qed.
  Lemma reach_SO : no_copy (mc_st c) → no_lock (mc_st c) → SO None None None None None (length (tables (mc_st c))) (mc_st c).
  Proof.
    intros NC NL. destruct reach_InvI as [γ I]. split; try done.
    - intros t tb t' Et En. pose proof (lookup_lt_Some _ _ _ Et) as Lt. rewrite <- nt_tables in Lt. pose proof (ii_next _ _ _ I t Lt) as X.
      rewrite (proj1 (core_fld_table _ _ _ Et)), En in X. destruct (decide _); [|done]. injection X as ->. lia.
    - intros t tb j Et El. by destruct (NL t tb j Et).
    - intros t tb i s Et Es _ (P1 & P2 & P3). by rewrite (NC t tb i s Et Es P1 P2) in P3.
  Qed.
  Lemma reach_unmarked t tb i s : no_resize (mc_st c) → root (mc_st c) = Some t → tables (mc_st c) !! t = Some tb → t_slots tb !! i = Some s → e_copying (s_ent s) = false.
  Proof.
    intros NR R Et Es. destruct reach_InvI as [γ I]. pose proof (NR t tb R Et) as En.
    pose proof (lookup_lt_Some _ _ _ Et) as Lt. rewrite <- nt_tables in Lt. pose proof (ii_next _ _ _ I t Lt) as X.
    rewrite (proj1 (core_fld_table _ _ _ Et)), En in X. destruct (decide _) as [|N]; [done|].
    assert (Li : i < lnc (core_of (mc_st c)) t).
    { unfold lnc, ln, core_of. cbn [k_sl]. rewrite list_lookup_fmap, Et. cbn. by eapply lookup_lt_Some. }
    pose proof (ii_phase _ _ _ I t i Li) as P. unfold phase_ok in P. rewrite (ii_last _ _ _ I t i) in P by lia.
    unfold CP, en, core_of in P. cbn [k_sl] in P. rewrite list_lookup_fmap, Et in P. cbn in P. rewrite Es in P. by destruct (e_copying (s_ent s)); [destruct P|].
  Qed.
  Lemma idle_quiet : all_idle c → no_copy (mc_st c) ∧ no_lock (mc_st c).
  Proof.
    intros A. split.
    - intros t tb i s Et Es P1 P2. destruct (e_copied (s_ent s)) eqn:P3; [done|]. exfalso.
      apply (idle_no_pending cfg chunk Hinc nthr nsh cap HS sched c EX A t i). rewrite wrd_eq, Et, Es. by split.
    - intros t tb j Et El. destruct (holder_runs nsh c t j) as (id & o & p & its & n & b & Ei & _).
      + by eapply reach_LI.
      + by exists tb.
      + by destruct (A j _ Ei).
  Qed.

  (** C41, general form: a single-key call (or len, or Iterator::next) that is started when no entry is being copied and no table is being
      allocated ends when its thread runs alone: after some number of its own steps its response (or panic) is recorded. Other calls may be
      in progress (stopped anywhere else), other guards and iterators may exist, and any number of resizes may be in progress. *)
  Theorem C41_obstruction_free : no_copy (mc_st c) → no_lock (mc_st c) →
    ∀ tid o its, mc_thr c !! tid = Some (ts_idle its) → tid ∈ pins (mc_st c) → single_key o →
    ∃ n c', exec cfg c (CInvoke tid o :: replicate n (CRun tid false)) = Some c' ∧ ended tid (mc_nop c) o c'.
  Proof.
    intros NC NL tid o its Et Hp Ho. pose proof (reach_SO NC NL) as S. eapply call_ends; [apply exec_app_ne|done|done|].
    destruct o as [k|k v|k v|k|k pr|k f|k v|k g|k g v| |f|n| | |j]; try done; cbn [op_prog].
    - apply tm_runsp. eapply tm_mono; [by eapply p_get|]. intros; apply runsp_ret.
    - apply tm_runsp. eapply tm_mono; [by eapply p_insert|]. intros [] ? _; [apply runsp_ret|apply runsp_ret|apply runsp_fail].
    - apply tm_runsp. eapply tm_mono; [by eapply p_insert|]. intros [] ? _; [apply runsp_ret|apply runsp_fail|apply runsp_ret].
    - apply tm_runsp. eapply tm_mono; [by eapply p_remove_if|]. intros [] ? _; [apply runsp_ret|apply runsp_ret|by apply runsp_act].
    - apply tm_runsp. eapply tm_mono; [by eapply p_remove_if|]. intros; apply runsp_ret.
    - apply tm_runsp. eapply tm_mono; [by eapply p_compute|]. intros; apply runsp_ret.
    - apply tm_runsp. eapply tm_mono; [by eapply p_compute|]. intros [[| | |[]] cs] ? _; first [apply runsp_ret|apply runsp_fail].
    - apply tm_runsp. eapply tm_mono; [by eapply p_compute|]. intros [[| | |[]] cs] ? _; first [apply runsp_ret|apply runsp_fail].
    - apply tm_runsp. eapply tm_mono; [by eapply p_compute|]. intros [[| | |[]] cs] ? _; first [apply runsp_ret|apply runsp_fail].
    - apply tm_runsp. eapply tm_mono; [by eapply p_map_len|]. intros; apply runsp_ret.
    - destruct (its !! j) as [[[tb|] i]|]; [|apply runsp_ret|apply runsp_ret].
      apply tm_runsp. eapply tm_mono; [by eapply p_iter_next|]. intros; apply runsp_ret.
  Qed.
  (** C41: in particular, a single-key call that runs alone while no other call is in progress (and none has panicked) ends. *)
  Theorem C41_single_key_ends : all_idle c →
    ∀ tid o its, mc_thr c !! tid = Some (ts_idle its) → tid ∈ pins (mc_st c) → single_key o →
    ∃ n c', exec cfg c (CInvoke tid o :: replicate n (CRun tid false)) = Some c' ∧ ended tid (mc_nop c) o c'.
  Proof. intros [A B]%idle_quiet. by apply C41_obstruction_free. Qed.
  (** ... and it returns (unless it is a compute call whose closure panics or asks to remove an absent entry) if the capacity given at construction
      is a power of two or below 5. *)
  Theorem C41_single_key_returns : is_pow2 (c_initial cfg) = true ∨ c_initial cfg < 5 → all_idle c →
    ∀ tid o its, mc_thr c !! tid = Some (ts_idle its) → tid ∈ pins (mc_st c) → single_key o → (∀ k f, o = OCompute k f → f None ≠ OpRemove ∧ ∀ x, f x ≠ OpPanic) →
    ∃ n c' r v, exec cfg c (CInvoke tid o :: replicate n (CRun tid false)) = Some c' ∧ list.last (mc_hist c') = Some (HRes tid (mc_nop c) o r v).
  Proof.
    intros GC A tid o its Et Hp Ho NP. destruct (C41_single_key_ends A tid o its Et Hp Ho) as (n & c' & E & [(r & v & H)|(why & H)]).
    - by exists n, c', r, v.
    - exfalso. rewrite last_lookup in H.
      assert (X : ∀ (s1 s2 : list (choice K V)) c0 c1, exec cfg c0 s1 = Some c1 → exec cfg c0 (s1 ++ s2) = exec cfg c1 s2).
      { clear. induction s1 as [|ch s1 IH]; intros s2 c0 c1; cbn [exec app]; [by intros [= <-]|]. destruct (mstep cfg c0 ch); [apply IH|apply IH|done]. }
      destruct (C19_panics_partial cfg nthr nsh cap HS GC (sched ++ CInvoke tid o :: replicate n (CRun tid false)) c'
        ltac:(by rewrite (X _ _ _ _ EX)) _ _ _ _ _ H) as (k & f & Eo & Ef). destruct (NP k f Eo) as [N1 N2]. by destruct Ef as [[_ Ef]|[_ [x Ef]]]; [|apply N2 in Ef].
  Qed.
  (** C41 for iter, clear and retain: they return when no resize is in progress and no other call is running. *)
  Theorem C41_sweeps_end : all_idle c → no_resize (mc_st c) →
    ∀ tid o its, mc_thr c !! tid = Some (ts_idle its) → tid ∈ pins (mc_st c) → sweeping o →
    ∃ n c', exec cfg c (CInvoke tid o :: replicate n (CRun tid false)) = Some c' ∧ ended tid (mc_nop c) o c'.
  Proof.
    intros [NC NL]%idle_quiet NR tid o its Et Hp Ho. pose proof (reach_SO NC NL) as S. eapply call_ends; [apply exec_app_ne|done|done|].
    assert (CL : ∀ test, tm tid (clear_or_retain cfg test) (λ _ _, True) (mc_st c)).
    { intros test. destruct (root (mc_st c)) as [t|] eqn:R.
      - eapply p_clear; [done| |exact R|].
        + destruct S as [A1 A2 A3 A4 A5 A6 A7]. split; [exact A1|exact A2|exact A3|exact A4|exact A5| |exact A7]. intros t' tb i s [= <-] Et' Es. by eapply reach_unmarked.
        + intros tb Etb. by eapply NR.
      - unfold clear_or_retain. cbn. unfold a_root. by rewrite R. }
    destruct o as [k|k v|k v|k|k pr|k f|k v|k g|k g v| |f|n| | |j]; try done; cbn [op_prog].
    - apply tm_runsp. eapply tm_mono; [apply CL|]. intros; apply runsp_ret.
    - apply tm_runsp. eapply tm_mono; [apply CL|]. intros; apply runsp_ret.
    - apply tm_runsp. eapply (tm_mono _ _ (λ _ _, True)); [|intros; apply runsp_ret]. destruct (root (mc_st c)) as [t|] eqn:R.
      + eapply p_iter; [exact R|]. intros tb Etb. by eapply NR.
      + unfold iter. cbn. unfold a_root. by rewrite R.
  Qed.
End main.
