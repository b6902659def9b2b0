(** C56: with blocking resizing, a call that runs alone while no other call is in progress and no resize is unfinished ends, or goes on
    to allocate tables without bound (C24's defect); the calls that allocate no tables end outright. *)
From Verif Require Export SoloB2 SoloMain.

(** The calls that never allocate a table. *)
Definition no_alloc {K V} (o : op K V) : Prop :=
  match o with OGet _ | ORemove _ | ORemoveIf _ _ | OClear | ORetain _ | OLen | OIter | OIterNext _ => True | _ => False end.

Section main.
  Context {K V : Type} {Keq : EqDecision K} (cfg : config K) (Hblk : c_mode cfg = Blocking).
  Context (nthr nsh cap : nat) (HS : 0 < nsh) (sched : list (choice K V)) (c : mconf K V).
  Context (EX : exec cfg (init_conf cap nsh nthr) sched = Some c).

  Lemma reach_InvB : ∃ γ, InvB cfg (core_of (mc_st c)) γ.
  Proof.
    destruct (reach_MI cfg nthr nsh cap HS sched c EX) as (w & D & G & M). exists (wg w). eapply Inv_blk; [exact Hblk|].
    rewrite <- (mi_st _ _ _ _ _ _ _ M). apply M.
  Qed.
  Lemma reach_quiet : all_idle c → no_resize (mc_st c) → SoloB2.quiet (mc_st c).
  Proof.
    intros A NR. destruct reach_InvB as [γ I].
    pose proof (b_root _ _ _ I) as Br. change (k_rt (core_of (mc_st c))) with (root (mc_st c)) in Br.
    destruct (root (mc_st c)) as [r|] eqn:R.
    - right. assert (Lr : r < length (tables (mc_st c))) by (by rewrite <- nt_tables).
      destruct (lookup_lt_is_Some_2 _ _ Lr) as [tb Et].
      pose proof (b_next _ _ _ I r Br) as X. rewrite (proj1 (core_fld_table _ _ _ Et)), (NR r tb R Et) in X.
      destruct (decide _) as [|N]; [done|]. rewrite nt_tables in N.
      exists r, (t_claim tb), (t_copied tb), (t_status tb). split; [done|]. split; [lia|]. exists tb. split; [done|].
      split; [by eapply NR|]. split; [|split; [|done]].
      + intros j El. destruct (holder_runs nsh c r j) as (id & o & p & its & n & b & Ei & _).
        * by eapply reach_LI.
        * by exists tb.
        * by destruct (A j _ Ei).
      + intros i s Es. destruct (e_copying (s_ent s)) eqn:E; [|done]. exfalso.
        apply N. rewrite <- nt_tables. apply (b_cpnx _ _ _ I r i).
        unfold CP, en, core_of. cbn [k_sl]. rewrite list_lookup_fmap, Et. cbn. by rewrite Es.
    - left. split; [done|]. rewrite nt_tables in Br. by destruct (tables (mc_st c)).
  Qed.

  (** Every call ends, or allocates as many tables as one likes. *)
  Theorem C56_ends_or_allocates : all_idle c → no_resize (mc_st c) →
    ∀ (T tid : nat) o its, mc_thr c !! tid = Some (ts_idle its) → tid ∈ pins (mc_st c) →
    ∃ n c', exec cfg c (CInvoke tid o :: replicate n (CRun tid false)) = Some c' ∧ (ended tid (mc_nop c) o c' ∨ T ≤ length (tables (mc_st c'))).
  Proof.
    intros A NR T tid o its Et Hp. pose proof (reach_quiet A NR) as Q.
    eapply (call_endsx cfg tid (λ σ, T ≤ length (tables σ))); [by eapply exec_app_ne|done|done|].
    assert (HE : ∀ σ : state K V, T ≤ length (tables σ) → T ≤ length (tables σ)) by done.
    destruct o as [k|k v|k v|k|k pr|k f|k v|k g|k g v| |f|n| | |j]; cbn [op_prog]; try apply tmx_runsx.
    - eapply tmx_mono; [by eapply b_get|]. intros; apply runsx_ret.
    - eapply tmx_mono; [by eapply b_insert|]. intros [] ? _; [apply runsx_ret|apply runsx_ret|apply runsx_fail].
    - eapply tmx_mono; [by eapply b_insert|]. intros [] ? _; [apply runsx_ret|apply runsx_fail|apply runsx_ret].
    - eapply tmx_mono; [by eapply b_remove_if|]. intros [] ? _; [apply runsx_ret|apply runsx_ret|by apply runsx_act].
    - eapply tmx_mono; [by eapply b_remove_if|]. intros; apply runsx_ret.
    - eapply tmx_mono; [by eapply b_compute|]. intros; apply runsx_ret.
    - eapply tmx_mono; [by eapply b_compute|]. intros [[| | |[]] cs] ? _; first [apply runsx_ret|apply runsx_fail].
    - eapply tmx_mono; [by eapply b_compute|]. intros [[| | |[]] cs] ? _; first [apply runsx_ret|apply runsx_fail].
    - eapply tmx_mono; [by eapply b_compute|]. intros [[| | |[]] cs] ? _; first [apply runsx_ret|apply runsx_fail].
    - eapply tmx_mono; [by eapply b_clear|]. intros; apply runsx_ret.
    - eapply tmx_mono; [by eapply b_clear|]. intros; apply runsx_ret.
    - eapply tmx_mono; [by eapply b_reserve|]. intros; apply runsx_ret.
    - eapply tmx_mono; [by eapply b_map_len|]. intros; apply runsx_ret.
    - eapply tmx_mono; [by eapply b_iter|]. intros; apply runsx_ret.
    - destruct (its !! j) as [[[tb|] i]|]; [|apply runsx_ret|apply runsx_ret].
      apply tmx_runsx. eapply tmx_mono; [by eapply b_iter_next|]. intros; apply runsx_ret.
  Qed.
  (** The calls that allocate no tables end. *)
  Theorem C56_no_alloc_ends : all_idle c → no_resize (mc_st c) →
    ∀ (tid : nat) o its, mc_thr c !! tid = Some (ts_idle its) → tid ∈ pins (mc_st c) → no_alloc o →
    ∃ n c', exec cfg c (CInvoke tid o :: replicate n (CRun tid false)) = Some c' ∧ ended tid (mc_nop c) o c'.
  Proof.
    intros A NR tid o its Et Hp Ho. pose proof (reach_quiet A NR) as Q.
    enough (∃ n c', exec cfg c (CInvoke tid o :: replicate n (CRun tid false)) = Some c' ∧ (ended tid (mc_nop c) o c' ∨ False)) as (n & c' & E & [H|[]]) by (by exists n, c').
    eapply (call_endsx cfg tid (λ _, False)); [by eapply exec_app_ne|done|done|].
    destruct o as [k|k v|k v|k|k pr|k f|k v|k g|k g v| |f|n| | |j]; try done; cbn [op_prog]; try apply tmx_runsx.
    - eapply tmx_mono; [by eapply b_get|]. intros; apply runsx_ret.
    - eapply tmx_mono; [by eapply b_remove_if|]. intros [] ? _; [apply runsx_ret|apply runsx_ret|by apply runsx_act].
    - eapply tmx_mono; [by eapply b_remove_if|]. intros; apply runsx_ret.
    - eapply tmx_mono; [by eapply b_clear|]. intros; apply runsx_ret.
    - eapply tmx_mono; [by eapply b_clear|]. intros; apply runsx_ret.
    - eapply tmx_mono; [by eapply b_map_len|]. intros; apply runsx_ret.
    - eapply tmx_mono; [by eapply b_iter|]. intros; apply runsx_ret.
    - destruct (its !! j) as [[[tb|] i]|]; [|apply runsx_ret|apply runsx_ret].
      apply tmx_runsx. eapply tmx_mono; [by eapply b_iter_next|]. intros; apply runsx_ret.
  Qed.
End main.
