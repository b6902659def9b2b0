(** C57: with incremental resizing (and a positive chunk), every call run alone, from every reachable configuration in which no other call is
    in progress (a resize may be in progress), ends, or allocates as many tables as one likes. *)
From Verif Require Export SoloC2 SoloMain. From Verif Require Import Dead6.

Definition Gr {K V} `{EqDecision K} (cfg : config K) (σ : state K V) : Prop := ∃ γ, InvI cfg (core_of σ) γ.

Section main.
  Context {K V : Type} {Keq : EqDecision K} (cfg : config K) (chunk : nat) (Hinc : c_mode cfg = Incremental chunk) (Hch : 0 < chunk).
  Notation state := (state K V). Notation G := (Gr cfg).

  Lemma Gr_next (σ : state) t tb : G σ → tables σ !! t = Some tb → t_next tb = if decide (Datatypes.S t < length (tables σ)) then Some (Datatypes.S t) else None.
  Proof.
    intros [γ I] Et. pose proof (lookup_lt_Some _ _ _ Et) as Lt. rewrite <- nt_tables in Lt. pose proof (ii_next _ _ _ I t Lt) as X.
    rewrite (proj1 (core_fld_table _ _ _ Et)), nt_tables in X. exact X.
  Qed.
  Lemma lnc_eq (σ : state) t tb : tables σ !! t = Some tb → lnc (core_of σ) t = length (t_slots tb).
  Proof. intros Et. unfold lnc, ln, core_of. cbn [k_sl]. rewrite list_lookup_fmap, Et. done. Qed.
  Lemma Gr_mark (σ : state) t tb i s : G σ → tables σ !! t = Some tb → t_next tb = None → t_slots tb !! i = Some s → e_copying (s_ent s) = false.
  Proof.
    intros [γ I] Et En Es. pose proof (lookup_lt_Some _ _ _ Et) as Lt. rewrite <- nt_tables in Lt. pose proof (ii_next _ _ _ I t Lt) as X.
    rewrite (proj1 (core_fld_table _ _ _ Et)), En in X. destruct (decide _) as [|N]; [done|].
    assert (Li : i < lnc (core_of σ) t) by (rewrite (lnc_eq _ _ _ Et); by eapply lookup_lt_Some).
    pose proof (ii_phase _ _ _ I t i Li) as P. unfold phase_ok in P. rewrite (ii_last _ _ _ I t i) in P by lia.
    unfold CP, en, core_of in P. cbn [k_sl] in P. rewrite list_lookup_fmap, Et in P. cbn in P. rewrite Es in P. by destruct (e_copying (s_ent s)); [destruct P|].
  Qed.

  Context (nthr nsh cap : nat) (HS : 0 < nsh) (sched : list (choice K V)) (c : mconf K V).
  Context (EX : exec cfg (init_conf cap nsh nthr) sched = Some c).

  Lemma reach_ready : 0 < nthr → all_idle c → ready (mc_st c).
  Proof.
    intros HN A. destruct (reach_InvI cfg chunk Hinc nthr nsh cap HS sched c EX) as [γ I]. pose proof (ii_root _ _ _ I) as RT.
    destruct (root (mc_st c)) as [t|] eqn:R.
    2: { left. change (k_rt (core_of (mc_st c))) with (root (mc_st c)) in RT. rewrite R in RT. rewrite nt_tables in RT. split; [done|]. by destruct (tables (mc_st c)). }
    right. change (k_rt (core_of (mc_st c))) with (root (mc_st c)) in RT. rewrite R in RT. pose proof RT as RT'. rewrite nt_tables in RT'. destruct (lookup_lt_is_Some_2 _ _ RT') as [tb Et].
    exists (handle t tb). split; [exact R|]. split; [by exists tb|]. intros m tbm Lm Em. cbn [th handle] in *.
    destruct m as [|m]; [lia|]. pose proof (lookup_lt_Some _ _ _ Em) as Lm'. destruct (lookup_lt_is_Some_2 (tables (mc_st c)) m ltac:(lia)) as [tb' Em'].
    destruct (reach_DI cfg chunk Hinc nthr nsh cap HS sched HN c EX (λ t, default 0 (tln (mc_st c) t))) as (Ln & H & (AC & _) & B & C); [by intros x l ->|].
    assert (HC : ∀ i, hc (H i) = CN).
    { intros i. destruct (mc_thr c !! i) as [ts|] eqn:Ei; [|by destruct (C _ Ei)]. pose proof (B _ _ Ei) as D. destruct (A _ _ Ei) as [A1 A2]. unfold thr_d in D. rewrite A1 in D.
      destruct D as [[D _]|[D _]]; [done|congruence]. }
    pose proof (gc_cnt _ _ _ AC m _ (tln_eq _ _ _ Em')) as X. rewrite sm_zero in X by (intros i; by rewrite HC). unfold cpd, clm, tfld in X. rewrite Em in X.
    assert (M0 : m < nt (core_of (mc_st c))) by (rewrite nt_tables; lia). destruct (ii_pow _ _ _ I m M0) as (b & Lb & Eb). rewrite (lnc_eq _ _ _ Em') in Eb.
    assert (P0 : 0 < length (t_slots tb')) by (rewrite Eb; apply Nat.neq_0_lt_0, Nat.pow_nonzero; lia).
    destruct (decide (m = t)) as [->|Nm].
    - rewrite Et in Em'. injection Em' as <-. split; [|done]. assert (EL : th_len (handle t tb) = length (t_slots tb)) by (unfold th_len, handle, t_len; cbn [th_mask]; lia). rewrite EL. exact (eq_trans (eq_sym (Nat.add_0_r _)) X).
    - assert (Z : t_claim tbm = 0).
      { pose proof (ii_high _ _ _ I m 0) as Hh. unfold rt in Hh. change (k_rt (core_of (mc_st c))) with (root (mc_st c)) in Hh. rewrite R in Hh. cbn in Hh. specialize (Hh ltac:(lia)).
        apply (ii_claim _ _ _ I m 0) in Hh; [|rewrite nt_tables; lia|rewrite (lnc_eq _ _ _ Em'); lia].
        destruct (core_fld_table _ _ _ Em) as (_ & _ & _ & Q & _). rewrite Q in Hh. lia. }
      split; [rewrite Z in *; lia|done].
  Qed.

  Theorem C57_ends_or_allocates : all_idle c →
    ∀ (T tid : nat) o its, mc_thr c !! tid = Some (ts_idle its) → tid ∈ pins (mc_st c) →
    ∃ n c', exec cfg c (CInvoke tid o :: replicate n (CRun tid false)) = Some c' ∧ (ended tid (mc_nop c) o c' ∨ T ≤ length (tables (mc_st c'))).
  Proof.
    intros A T tid o its Et Hp.
    assert (CS : single_key o → ∃ n c', exec cfg c (CInvoke tid o :: replicate n (CRun tid false)) = Some c' ∧ (ended tid (mc_nop c) o c' ∨ T ≤ length (tables (mc_st c')))).
    { intros Ho. destruct (C41_single_key_ends cfg chunk Hinc nthr nsh cap HS sched c EX A tid o its Et Hp Ho) as (n & c' & E & F). exists n, c'. split; [done|by left]. }
    assert (HN : 0 < nthr).
    { destruct (reach_MI cfg nthr nsh cap HS sched c EX) as (w & D & Gh & M). rewrite <- (mi_len _ _ _ _ _ _ _ M). apply lookup_lt_Some in Et. lia. }
    destruct (idle_quiet cfg chunk Hinc nthr nsh cap HS sched c EX A) as [NC NL].
    pose proof (reach_SO cfg chunk Hinc nthr nsh cap HS sched c EX NC NL) as S0. pose proof (reach_ready HN A) as RD.
    assert (EXA : ∀ s c', exec cfg c s = Some c' → exec cfg (init_conf cap nsh nthr) (sched ++ s) = Some c').
    { intros s c' <-. assert (X : ∀ (s1 s2 : list (choice K V)) c0 c1, exec cfg c0 s1 = Some c1 → exec cfg c0 (s1 ++ s2) = exec cfg c1 s2).
      { clear. induction s1 as [|ch s1 IH]; intros s2 c0 c1; cbn [exec app]; [by intros [= <-]|]. destruct (mstep cfg c0 ch); [apply IH|apply IH|done]. }
      by apply X. }
    assert (HG : ∀ s c', exec cfg c s = Some c' → G (mc_st c')).
    { intros s c' Es. exact (reach_InvI cfg chunk Hinc nthr nsh cap HS (sched ++ s) c' (EXA _ _ Es)). }
    pose proof (reach_InvI cfg chunk Hinc nthr nsh cap HS sched c EX) as G0.
    assert (HE : ∀ σ : state, T ≤ length (tables σ) → T ≤ length (tables σ)) by done.
    assert (CG : runsg cfg tid G (λ σ, T ≤ length (tables σ)) (mc_nop c) o its (op_prog cfg o its) (mc_st c) →
      ∃ n c', exec cfg c (CInvoke tid o :: replicate n (CRun tid false)) = Some c' ∧ (ended tid (mc_nop c) o c' ∨ T ≤ length (tables (mc_st c')))).
    { intros Hr. refine (call_endsg cfg tid G (λ σ, T ≤ length (tables σ)) c o its _ HG Et Hp Hr). exact (exec_app_ne cfg nthr nsh cap HS sched c EX). }
    destruct o as [k|k v|k v|k|k pr|k f|k v|k g|k g v| |f|n| | |j]; try by apply CS.
    - apply CG. cbn [op_prog]. apply tmg_runsg. eapply tmg_mono; [eapply (g_clear cfg tid chunk Hinc Hch G (λ σ, T ≤ length (tables σ)) T HE Gr_next Gr_mark); [exact S0|exact G0|exact RD]|]. intros; apply runsg_ret.
    - apply CG. cbn [op_prog]. apply tmg_runsg. eapply tmg_mono; [eapply (g_clear cfg tid chunk Hinc Hch G (λ σ, T ≤ length (tables σ)) T HE Gr_next Gr_mark); [exact S0|exact G0|exact RD]|]. intros; apply runsg_ret.
    - apply CG. cbn [op_prog]. apply tmg_runsg. eapply tmg_mono; [eapply (g_reserve cfg tid chunk Hinc Hch G (λ σ, T ≤ length (tables σ)) T HE Gr_next); [exact S0|exact G0|exact RD]|]. intros; apply runsg_ret.
    - apply CG. cbn [op_prog]. apply tmg_runsg. eapply tmg_mono; [eapply (g_iter cfg tid chunk Hinc Hch G (λ σ, T ≤ length (tables σ)) T HE Gr_next); [exact S0|exact G0|exact RD]|]. intros; apply runsg_ret.
  Qed.
End main.
