(** C52, part 6: the machine, and the theorem: in blocking mode, unless a resize has been aborted, some call can always take a step (without spurious wake-ups). *)
From Verif Require Export Locks Marks3 BDead5.

Local Instance preason_dec : EqDecision preason. Proof. solve_decision. Defined.
Section dead.
  Context {K V : Type} {Keq : EqDecision K} (cfg : config K) (HM : c_mode cfg = Blocking) (nthr nsh cap : nat) (HS : 0 < nsh).
  Notation prog := (prog K V). Notation action := (action K V). Notation state := (state K V).
  Notation gl := (gl (K:=K) (V:=V) nthr).

  (** Thread [i] has panicked, and not because a closure answered "remove" for a key that is absent. *)
  Definition bad (c : mconf K V) (i : nat) : Prop := ∃ id o why, HPanic i id o why ∈ mc_hist c ∧ user_panic why = false.
  Definition thr_d (Lf : nat → nat) (c : mconf K V) (i : nat) (ts : tstate K V) (h : hd) : Prop :=
    match ts_run ts with Some (_, p) => ts_dead ts = false ∧ dm cfg nthr Lf p (λ _ h', kh h') h | None => kh h ∨ (ts_dead ts = true ∧ bad c i) end.
  Definition DI (Lf : nat → nat) (c : mconf K V) : Prop :=
    length (mc_thr c) = nthr ∧ ∃ H, gl H (mc_st c) ∧ (∀ i ts, mc_thr c !! i = Some ts → thr_d Lf c i ts (H i)) ∧ ∀ i, mc_thr c !! i = None → kh (H i).
  Lemma thr_d_mono Lf (c c' : mconf K V) i ts h : (∀ e, e ∈ mc_hist c → e ∈ mc_hist c') → thr_d Lf c i ts h → thr_d Lf c' i ts h.
  Proof. intros S. unfold thr_d. destruct (ts_run ts) as [[? ?]|]; [done|]. intros [X|(Z & id & o & why & X & Y)]; [by left|right]. split; [done|]. exists id, o, why. split; [by apply S|done]. Qed.

  Lemma us_reclaim r rest (σ σ' : state) : reclaim r rest σ = Some σ' → usame σ σ'.
  Proof.
    unfold reclaim. destruct (r_obj r) as [p|t].
    - destruct (decide _); [done|]. intros [= <-]. by apply us_tables.
    - cbn [set_retired tables]. destruct (tables σ !! t) as [tb|] eqn:E; [|done]. destruct (t_freed tb); [done|]. destruct (retire_all _ _) as [σ1|] eqn:R; [|done].
      cbn. intros [= <-]. pose proof (retire_all_root _ _ _ R) as R3. assert (R4 : tokens σ1 = tokens σ).
      { clear -R. change (tokens σ) with (tokens (set_retired rest (retired_ever σ) σ)). revert R. generalize (t_deferred tb) (set_retired rest (retired_ever σ) σ). intros l. induction l as [|p l IH]; cbn [retire_all]; intros s E; [by injection E as <-|].
        destruct (decide _); [done|]. apply IH in E. by rewrite E. }
      apply retire_all_same in R as [R1 R2]. cbn in R1, R2, R3.
      eapply us_trans; [apply (us_tables σ σ1); done|]. eapply (us_upd t); [by rewrite R1|reflexivity..].
  Qed.
  Lemma kh_kn h : kh h → ∀ a : unit, (λ (_ : unit) h', kh h') a h. Proof. done. Qed.

  Lemma DI_set Lf (c c' : mconf K V) i ts ts' h' H : length (mc_thr c) = nthr → (∀ i ts, mc_thr c !! i = Some ts → thr_d Lf c i ts (H i)) → (∀ i, mc_thr c !! i = None → kh (H i)) →
    mc_thr c !! i = Some ts → mc_thr c' = set_thr i ts' (mc_thr c) → (∀ e, e ∈ mc_hist c → e ∈ mc_hist c') → gl (hst H i h') (mc_st c') → thr_d Lf c' i ts' h' → DI Lf c'.
  Proof.
    intros Ln B C Ei E S G T. split; [rewrite E; unfold set_thr; by rewrite insert_length|]. exists (hst H i h'). split; [done|]. rewrite E. unfold set_thr, hst. split.
    - intros j tj Ej. destruct (decide (j = i)) as [->|N]; [|rewrite list_lookup_insert_ne in Ej by done; eapply thr_d_mono; [exact S|]; by apply B].
      rewrite list_lookup_insert in Ej by (by eapply lookup_lt_Some). by injection Ej as <-.
    - intros j Ej. destruct (decide (j = i)) as [->|N]; [by rewrite list_lookup_insert in Ej by (by eapply lookup_lt_Some)|].
      rewrite list_lookup_insert_ne in Ej by done. by apply C.
  Qed.
  Lemma gl_hst_same H (σ : state) i : gl (hst H i (H i)) σ → gl H σ.
  Proof. intros G. eapply gl_frame; [exact G|]. intros j. unfold hst. by destruct (decide (j = i)) as [->|]. Qed.

  (** The step of thread [i] running [q]. *)
  Definition runq (c : mconf K V) (i : nat) (b : bool) id o its {T} (q : Prog.prog K V T) :=
    match q in Prog.prog _ _ T return (T → option (vres K V * (list iterst) * hevent K V)) → (Prog.prog K V T → Prog.prog K V (pres K V)) → sres with
    | Ret a => λ fin _,
      match fin a with
      | Some (v, its', ev) => SStep (MConf (mc_st c) (set_thr i (ts_idle its') (mc_thr c)) (mc_hist c ++ [ev]) (mc_nop c))
      | None => SUB
      end
    | Act f k => λ _ inj,
      match f i b (mc_st c) with
      | Ok x σ' => SStep (MConf σ' (set_thr i (TState (Some (id, o, inj (k x))) its false) (mc_thr c)) (mc_hist c) (mc_nop c))
      | Block => SSkip
      | UB => SUB
      end
    | Loop body s k => λ _ inj,
      SStep (MConf (mc_st c) (set_thr i (TState (Some (id, o,
          inj (bind (body s) (λ r, match r with inl s' => Loop body s' k | inr b => k b end)))) its false) (mc_thr c))
         (mc_hist c) (mc_nop c))
    | Fail why => λ _ _,
      SStep (MConf (unpin i (mc_st c)) (set_thr i (TState None [] true) (mc_thr c)) (mc_hist c ++ [HPanic i id o why]) (mc_nop c))
    end.

  Lemma DI_tmono Lf (c c' : mconf K V) ch : DI Lf c → mstep cfg c ch = SStep c' → tmono (mc_st c) (mc_st c').
  Proof using Type*.
    intros (Ln & H & A & B & C) E.
    assert (US : ∀ σ' : state, usame (mc_st c) σ' → tmono (mc_st c) σ') by (intros σ' [X _]; by apply cs_tmono).
    destruct ch as [i|i|i o|i b|j]; cbn [mstep] in E.
    - destruct (mc_thr c !! i) as [[[] its []]|] eqn:Ei; try done. destruct (decide _); [done|]. injection E as <-. apply US, us_tables; done.
    - destruct (mc_thr c !! i) as [[[] its []]|] eqn:Ei; try done. destruct (decide _); [|done]. injection E as <-. apply US, us_tables; done.
    - destruct (mc_thr c !! i) as [[[] its []]|] eqn:Ei; try done. destruct (decide _); [|done]. injection E as <-. apply US, us_refl.
    - destruct (mc_thr c !! i) as [[[[[id o] p]|] its []]|] eqn:Ei; try done. pose proof (B _ _ Ei) as [_ D]. cbn [ts_run] in D.
      assert (RC : ∀ {T} (q : Prog.prog K V T) fin inj (Q : T → hd → Prop), dm cfg nthr Lf q Q (H i) → runq c i b id o its q fin inj = SStep c' → tmono (mc_st c) (mc_st c')).
      { intros T q fin inj Q Dq X. destruct q as [T a|X' T f k|S' B' T body s k|T why]; cbn [dm] in Dq; cbn [runq] in X.
        - destruct (fin a) as [[[v its'] ev]|]; [|done]. injection X as <-. apply US, us_refl.
        - destruct (f i b (mc_st c)) as [x σ'| |] eqn:Ef; [|done|done]. injection X as <-. cbn [mc_st]. by eapply Dq.
        - injection X as <-. apply US, us_refl.
        - injection X as <-. apply US, us_tables; done. }
      exact (RC _ p _ (λ p, p) _ D E).
    - destruct (retired (mc_st c) !! j) as [r|]; [|done]. destruct (decide _); [|done]. destruct (reclaim _ _ _) as [σ'|] eqn:R; [|done]. injection E as <-.
      apply us_reclaim in R. by apply US.
  Qed.

  Lemma DI_mstep Lf (c c' : mconf K V) ch : 0 < nthr → JL cfg Lf (mc_st c) → JL cfg Lf (mc_st c') → DI Lf c → mstep cfg c ch = SStep c' → DI Lf c'.
  Proof using HM HS.
    intros HN Hj Hj' (Ln & H & A & B & C) E.
    assert (LT : ∀ i ts, mc_thr c !! i = Some ts → i < nthr) by (intros i ts X%lookup_lt_Some; lia).
    assert (SF : ∀ i σ', i < nthr → usame (mc_st c) σ' → gl (hst H i (H i)) σ') by (intros i σ' Li S; exact (gl_same cfg nthr Lf H (mc_st c) i σ' Li Hj A S)).
    assert (AP : ∀ l (e : hevent K V), e ∈ mc_hist c → e ∈ mc_hist c ++ l) by (intros l e X; apply elem_of_app; by left).
    destruct ch as [i|i|i o|i b|j]; cbn [mstep] in E.
    - destruct (mc_thr c !! i) as [[[] its []]|] eqn:Ei; try done. destruct (decide _); [done|]. injection E as <-.
      split; [done|]. exists H. cbn [mc_st mc_thr]. split; [apply (gl_hst_same _ _ i), SF; [by eapply LT|by apply us_tables]|]. split; [|done].
      intros k tk Ek. eapply thr_d_mono; [|by apply B]. apply AP.
    - destruct (mc_thr c !! i) as [[[] its []]|] eqn:Ei; try done. destruct (decide _); [|done]. injection E as <-.
      eapply (DI_set Lf c _ i _ _ (H i) H Ln B C Ei); [reflexivity|apply AP|apply SF; [by eapply LT|by apply us_tables]|]. destruct (B _ _ Ei) as [X|[X _]]; [by left|done].
    - destruct (mc_thr c !! i) as [[[] its []]|] eqn:Ei; try done. destruct (decide _); [|done]. injection E as <-.
      destruct (B _ _ Ei) as [X|[X _]]; [|done].
      eapply (DI_set Lf c _ i _ _ (H i) H Ln B C Ei); [reflexivity|apply AP|apply SF; [by eapply LT|apply us_refl]|]. split; [done|]. by apply (op_dk cfg HM).
    - destruct (mc_thr c !! i) as [[[[[id o] p]|] its []]|] eqn:Ei; try done. pose proof (B _ _ Ei) as [_ D]. cbn [ts_run] in D.
      assert (RC : ∀ {T} (q : Prog.prog K V T) fin inj (Q : T → hd → Prop), dm cfg nthr Lf q Q (H i) → (∀ a h, Q a h → kh h) → (∀ h' q', dm cfg nthr Lf q' Q h' → dm cfg nthr Lf (inj q') (λ _ h, kh h) h') →
        runq c i b id o its q fin inj = SStep c' → DI Lf c').
      { intros T q fin inj Q Dq HQ Hinj X. destruct q as [T a|X' T f k|S' B' T body s k|T why]; cbn [dm] in Dq; cbn [runq] in X.
        - destruct (fin a) as [[[v its'] ev]|]; [|done]. injection X as <-.
          eapply (DI_set Lf c _ i _ _ (H i) H Ln B C Ei); [reflexivity|apply AP|apply SF; [by eapply LT|apply us_refl]|]. left. by eapply HQ.
        - destruct (f i b (mc_st c)) as [x σ'| |] eqn:Ef; [|done|done]. injection X as <-. destruct Dq as (_ & _ & Dq).
          destruct (Dq H i b (mc_st c) x σ' (LT _ _ Ei) Hj Hj' A eq_refl Ef) as (h' & T' & D').
          eapply (DI_set Lf c _ i _ _ h' H Ln B C Ei); [reflexivity|done|exact T'|]. split; [done|]. by apply Hinj.
        - destruct Dq as (I & QB & Hi & Hb & Hk). injection X as <-.
          eapply (DI_set Lf c _ i _ _ (H i) H Ln B C Ei); [reflexivity|done|apply SF; [by eapply LT|apply us_refl]|]. split; [done|]. apply Hinj. eapply dm_bind; [by apply Hb|].
          intros [s'|x] h1 H1; [|by apply Hk]. exists I, QB. split_and!; auto.
        - injection X as <-. eapply (DI_set Lf c _ i _ _ (H i) H Ln B C Ei); [reflexivity|apply AP|apply SF; [by eapply LT|by apply us_tables]|].
          destruct (user_panic why) eqn:Nw; [left; by apply Dq|right]. split; [done|]. exists id, o, why. split; [|done]. cbn. apply elem_of_app. right. by apply elem_of_list_singleton. }
      exact (RC _ p _ (λ p, p) _ D (λ _ _ H, H) (λ _ _ H, H) E).
    - destruct (retired (mc_st c) !! j) as [r|]; [|done]. destruct (decide _); [|done]. destruct (reclaim _ _ _) as [σ'|] eqn:R; [|done]. injection E as <-.
      apply us_reclaim in R. split; [done|]. exists H. cbn [mc_st mc_thr]. split; [|done].
      apply (gl_hst_same _ _ 0), SF; [exact HN|exact R].
  Qed.
  Lemma gl_init : gl (λ _, HD CN KN None) (init_state cap nsh).
  Proof.
    assert (T0 : ∀ t tb, tables (init_state (K:=K) (V:=V) cap nsh) !! t = Some tb → t = 0 ∧ tb = new_table (Nat.max (entries_for cap) 8) PROMOTED).
    { intros t tb. unfold init_state. cbn [tables]. destruct (cap =? 0); [done|]. destruct t as [|t]; [|done]. cbn. intros [= <-]. done. }
    assert (PK : ∀ t, pkr (init_state (K:=K) (V:=V) cap nsh) t = parker0).
    { intros t. unfold pkr, tfld. destruct (tables _ !! t) as [tb|] eqn:E; [|done]. by destruct (T0 _ _ E) as [_ ->]. }
    split_and!; [split|split|]; cbn [hc hp hk]; try done.
    - intros t l _. assert (N1 : tables (init_state (K:=K) (V:=V) cap nsh) !! S t = None).
      { destruct (tables _ !! S t) as [tb|] eqn:E; [|done]. by destruct (T0 _ _ E). }
      unfold cpd, clm, tfld. rewrite N1. cbn. by rewrite sm_zero.
    - intros t l El _ Ec. assert (N1 : tables (init_state (K:=K) (V:=V) cap nsh) !! S t = None).
      { destruct (tables _ !! S t) as [tb|] eqn:E; [|done]. by destruct (T0 _ _ E). }
      unfold cpd, tfld in Ec. rewrite N1 in Ec. subst l. unfold tln in El. destruct (tables _ !! t) as [tb|] eqn:E; [|done]. destruct (T0 _ _ E) as [_ ->]. cbn in El. rewrite replicate_length in El. injection El as El. lia.
    - intros t r. unfold init_state. cbn [root]. destruct (cap =? 0); [done|]. intros [= <-] X. lia.
    - intros t x. unfold thrs. rewrite PK. by intros X%elem_of_nil.
    - intros t. unfold thrs. rewrite PK, sm_zero by done. cbn. lia.
    - by intros i t key id [X|X].
    - by intros i t key id [X|X].
  Qed.

  Lemma reach_J' sched (c : mconf K V) : exec cfg (init_conf cap nsh nthr) sched = Some c → J cfg (mc_st c).
  Proof using HS. intros (w & D & G & M)%(reach_MI cfg nthr nsh cap HS). exists (wg w). rewrite <- (mi_st _ _ _ _ _ _ _ M). apply M. Qed.
  (** No table has been given up at any moment of the run. *)
  Definition nabs (sched : list (choice K V)) : Prop := ∀ n (c : mconf K V), exec cfg (init_conf cap nsh nthr) (take n sched) = Some c → nab (mc_st c).
  Lemma nabs_app s1 s2 : nabs (s1 ++ s2) → nabs s1.
  Proof.
    intros X n c E. destruct (decide (n ≤ length s1)) as [L|L].
    - apply (X n c). by rewrite take_app_le.
    - apply (X (length s1) c). rewrite take_app. rewrite take_ge in E by lia. done.
  Qed.
  Lemma nabs_end s (c : mconf K V) : nabs s → exec cfg (init_conf cap nsh nthr) s = Some c → nab (mc_st c).
  Proof. intros X E. apply (X (length s) c). by rewrite take_ge. Qed.
  Lemma reach_DI sched : 0 < nthr → ∀ c, exec cfg (init_conf cap nsh nthr) sched = Some c → nabs sched → ∀ Lf, lenok Lf (mc_st c) → DI Lf c.
  Proof using HM HS.
    intros HN. induction sched as [|ch s IH] using rev_ind; intros c E NA Lf HL.
    - injection E as <-. split; [cbn; by rewrite replicate_length|]. exists (λ _, HD CN KN None). split; [apply gl_init|]. split; [|done]. intros i ts Ei. cbn in Ei. apply lookup_replicate in Ei as [-> _]. by left.
    - destruct (exec cfg (init_conf cap nsh nthr) s) as [c1|] eqn:E1.
      + pose proof E as E2. rewrite (exec_snoc _ _ _ _ _ E1) in E. destruct (mstep cfg c1 ch) as [c2| |] eqn:M; [| |done]; injection E as <-; [|apply IH; [done|by eapply nabs_app|done]].
        assert (TM : tmono (mc_st c1) (mc_st c2)).
        { eapply (DI_tmono (λ t, default 0 (tln (mc_st c1) t))); [|exact M]. apply IH; [done|by eapply nabs_app|]. intros t l ->. done. }
        assert (L1 : lenok Lf (mc_st c1)) by (intros t l X; by apply HL, TM).
        eapply DI_mstep; [exact HN| | |apply IH; [done|by eapply nabs_app|done]|exact M].
        * split; [by eapply reach_J'|]. split; [done|]. eapply nabs_end; [by eapply nabs_app|done].
        * split; [by eapply reach_J'|]. split; [done|]. by eapply nabs_end.
      + exfalso. clear -E E1. revert E E1. generalize (init_conf (K:=K) (V:=V) cap nsh nthr). induction s as [|x s IH]; intros c0; cbn [exec app]; [done|].
        destruct (mstep cfg c0 x); [apply IH|apply IH|done].
  Qed.

  (** Thread [i] is in the middle of a call. *)
  Definition in_call (c : mconf K V) (i : nat) : Prop := ∃ id o p its, mc_thr c !! i = Some (TState (Some (id, o, p)) its false).
  (** The step the scheduler offers is taken without a spurious failure or wake-up ([false]). *)
  Theorem no_deadlock sched (c : mconf K V) : exec cfg (init_conf cap nsh nthr) sched = Some c →
    nabs sched → (∀ i id o why, HPanic i id o why ∈ mc_hist c → user_panic why = true) →
    (∃ i, in_call c i) → ∃ j c', mstep cfg c (CRun j false) = SStep c'.
  Proof using HM HS.
    intros E NA NP (i0 & id0 & o0 & p0 & its0 & Ei0).
    assert (HN : 0 < nthr).
    { destruct (reach_MI cfg nthr nsh cap HS sched c E) as (w & D & G & M). pose proof (mi_len _ _ _ _ _ _ _ M) as X. apply lookup_lt_Some in Ei0. lia. }
    destruct (reach_DI sched HN c E NA (λ t, default 0 (tln (mc_st c) t))) as (Ln & H & A & B & C); [by intros t l ->|].
    assert (UBF : ∀ j, mstep cfg c (CRun j false) ≠ SUB).
    { intros j X. apply (C15_no_undefined_behaviour cfg nthr nsh cap HS (sched ++ [CRun j false])). rewrite (exec_snoc _ _ _ _ _ E). by rewrite X. }
    destruct (decide (Exists (λ j, match mstep cfg c (CRun j false) with SStep _ => true | _ => false end = true) (seq 0 nthr))) as [X|X].
    { apply list.Exists_exists in X as (j & _ & X). destruct (mstep cfg c (CRun j false)) as [c'| |] eqn:Ej; [|done|done]. by exists j, c'. }
    exfalso. assert (SK : ∀ j, mstep cfg c (CRun j false) = SSkip).
    { intros j. destruct (mstep cfg c (CRun j false)) as [c'| |] eqn:Ej; [exfalso|done|by destruct (UBF j)]. apply X, list.Exists_exists. exists j. split; [|by rewrite Ej].
      apply elem_of_list_In, in_seq. split; [lia|]. cbn [mstep] in Ej. destruct (mc_thr c !! j) as [ts|] eqn:Et; [|done]. apply lookup_lt_Some in Et. lia. }
    clear X.
    assert (NL : ¬ lkd (mc_st c)).
    { intros (t & tb & j & Et & El). apply (C37_holder_never_waits cfg cap nsh nthr sched c E t j (ex_intro _ tb (conj Et El)) false), SK. }
    assert (RP : ∀ j, kh (H j) ∨ (parked (H j) ∧ j ∉ tokens (mc_st c))).
    { intros j. destruct (mc_thr c !! j) as [[[[[id o] p]|] its d]|] eqn:Ej; [|left..].
      - destruct (B _ _ Ej) as [Dd D]. cbn [ts_dead] in Dd. subst d. right. specialize (SK j). cbn [mstep] in SK. rewrite Ej in SK.
        assert (RC : ∀ {T} (q : Prog.prog K V T) fin inj (Q : T → hd → Prop), dm cfg nthr (λ t, default 0 (tln (mc_st c) t)) q Q (H j) → runq c j false id o its q fin inj = SSkip → parked (H j) ∧ j ∉ tokens (mc_st c)).
        { intros T q fin inj Q Dq Y. destruct q as [T a|X' T f k|S' B' T body s k|T why]; cbn [dm] in Dq; cbn [runq] in Y; [by destruct (fin a) as [[[? ?] ?]|]| |done|done].
          destruct (f j false (mc_st c)) as [x σ'| |] eqn:Ef; [done| |done]. destruct Dq as (Dq & _). by destruct (Dq _ _ Ef) as [|]. }
        exact (RC _ p _ (λ p, p) _ D SK).
      - destruct (B _ _ Ej) as [Y|(_ & id & o & why & Y & Z)]; [done|]. apply NP in Y. congruence.
      - by apply C. }
    assert (HC : ∀ j, hc (H j) = CN) by (intros j; by destruct (RP j) as [[? _]|[[? _] _]]).
    assert (HP : ∀ j, hp (H j) = KN ∨ ∃ t key id, hp (H j) = PT t key id) by (intros j; destruct (RP j) as [[_ ?]|[[_ ?] _]]; [by left|by right]).
    destruct (B _ _ Ei0) as [_ D0]. cbn [ts_run] in D0.
    assert (P0 : parked (H i0) ∧ i0 ∉ tokens (mc_st c)).
    { pose proof (SK i0) as Y. cbn [mstep] in Y. rewrite Ei0 in Y.
      assert (RC : ∀ {T} (q : Prog.prog K V T) fin inj (Q : T → hd → Prop), dm cfg nthr (λ t, default 0 (tln (mc_st c) t)) q Q (H i0) → runq c i0 false id0 o0 its0 q fin inj = SSkip → parked (H i0) ∧ i0 ∉ tokens (mc_st c)).
      { intros T q fin inj Q Dq Y'. destruct q as [T a|X' T f k|S' B' T body s k|T why]; cbn [dm] in Dq; cbn [runq] in Y'; [by destruct (fin a) as [[[? ?] ?]|]| |done|done].
        destruct (f i0 false (mc_st c)) as [x σ'| |] eqn:Ef; [done| |done]. destruct Dq as (Dq & _). by destruct (Dq _ _ Ef) as [|]. }
      exact (RC _ p0 _ (λ p, p) _ D0 Y). }
    destruct P0 as [[_ (t & key & id & P0)] NT]. destruct A as (AC & AP & AK).
    assert (IN : (key, id, i0) ∈ thrs (mc_st c) t).
    { destruct (gp_reg _ _ _ AP i0 t key id (or_intror P0)) as [Y|[Y|(j & t' & n & l & Y & _)]]; [done|done|]. destruct (HP j) as [Z|(? & ? & ? & Z)]; congruence. }
    assert (CD : cond (mc_st c) t key).
    { destruct (gp_cond _ _ _ AP i0 t key id (or_introl P0) IN) as [Y|(j & Y)]; [done|]. destruct (HP j) as [Z|(? & ? & ? & Z)]; congruence. }
    pose proof (gp_kn _ _ _ AP i0 t key) as KN0. rewrite P0 in KN0. specialize (KN0 eq_refl). destruct key as [|i]; cbn [know cond] in *.
    - destruct KN0 as (t0 & l & r & -> & El & Lc & Er & Lr). pose proof (gc_cnt _ _ _ AC t0 l El) as Ct. rewrite sm_zero in Ct by (intros j; by rewrite HC).
      assert (Cl : cpd (mc_st c) (S t0) = l) by lia. destruct (decide (r = t0)) as [->|Nr].
      + destruct (gc_pr _ _ _ AC t0 l El Er Cl) as [j Ej]. by rewrite HC in Ej.
      + destruct (gc_st _ _ _ AC t0 r Er) as [Y|[j Ej]]; [lia|congruence|by rewrite HC in Ej].
    - done.
  Qed.
End dead.
