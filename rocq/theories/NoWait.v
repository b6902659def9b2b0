(** C55: reads do not wait. [get] with blocking resizing, [iter] with blocking resizing, [len] and [Iterator::next] in both modes end after finitely many steps of their own thread, whatever
    the other threads do or have stopped doing; [get] with incremental resizing too, unless the other threads allocate new tables for ever. *)
From Verif Require Export SoloMain.

Section logic.
  Context {K V : Type} (me : nat) (I : state K V → Prop).
  Notation state := (state K V). Notation prog := (prog K V).
  (** [wf p Q]: in whatever states satisfying [I] the steps of [p] are executed, it never blocks or panics and returns after finitely many steps, with a result in [Q]. *)
  Fixpoint wf {A} (p : prog A) : (A → Prop) → Prop :=
    match p in Prog.prog _ _ A return (A → Prop) → Prop with
    | Ret a => λ Q, Q a
    | Act f k => λ Q, ∀ o σ, I σ → match f me o σ with Ok x _ => wf (k x) Q | Block => False | UB => True end
    | Loop body s k => λ Q, ∀ P : _ → Prop, (∀ s, wf (body s) (λ r, match r with inl s' => P s' | inr b => wf (k b) Q end) → P s) → P s
    | Fail r => λ _, False
    end.
  Lemma wf_mono {A} (p : prog A) (Q Q' : A → Prop) : wf p Q → (∀ a, Q a → Q' a) → wf p Q'.
  Proof.
    revert Q Q'. induction p as [A a|X A f k IH|S0 B A body IHb s k IHk|A r]; cbn; intros Q Q' H J; auto.
    - intros o σ Hi. specialize (H o σ Hi). destruct (f me o σ); eauto.
    - intros P HP. apply H. intros s' H'. apply HP. eapply IHb; [exact H'|]. intros [s''|b]; cbn; auto. intros Hk. eapply IHk; eauto.
  Qed.
  Lemma wf_bind {A B} (p : prog A) (k : A → prog B) Q : wf p (λ a, wf (k a) Q) → wf (bind p k) Q.
  Proof.
    revert k Q. induction p as [A a|X A f k1 IH|S0 C A body IHb s k1 IHk|A r]; cbn; intros k Q H; auto.
    - intros o σ Hi. specialize (H o σ Hi). destruct (f me o σ); auto.
    - intros P HP. apply H. intros s' H'. apply HP. eapply wf_mono; [exact H'|]. intros [s''|b]; cbn; auto.
  Qed.
  Lemma wf_loop1 {S0 B} (body : S0 → prog (S0 + B)) s (Q : B → Prop) :
    wf (body s) (λ r, match r with inl s' => wf (loop body s') Q | inr b => Q b end) → wf (loop body s) Q.
  Proof. intros H P HP. apply HP. eapply wf_mono; [exact H|]. intros [s'|b] H'; [|done]. by apply H'. Qed.
End logic.

(** An infinite schedule gives thread [tid] infinitely many steps. *)
Definition gets_steps {K V} (tid : nat) (f : nat → choice K V) : Prop := ∀ n, ∃ m orc, n ≤ m ∧ f m = CRun tid orc.
(** The first [n] choices of an infinite schedule. *)
Definition first_n {K V} (n : nat) (f : nat → choice K V) : list (choice K V) := map f (seq 0 n).
Arguments first_n : simpl never.

Section adq.
  Context {K V : Type} {Keq : EqDecision K} (cfg : config K) (tid : nat) (I : state K V → Prop).
  Context (c : mconf K V) (f : nat → choice K V).
  Context (NU : ∀ s, exec cfg c s ≠ None) (GS : gets_steps tid f).
  Context (HI : ∀ n c', exec cfg c (first_n n f) = Some c' → I (mc_st c')).
  Context (id : nat) (o : op K V) (its : list iterst).

  Lemma first_S n : first_n (S n) f = first_n n f ++ [f n].
  Proof. unfold first_n. by rewrite seq_S, map_app. Qed.
  Lemma exec_first_S n c' : exec cfg c (first_n n f) = Some c' → exec cfg c (first_n (S n) f) = match mstep cfg c' (f n) with SStep c'' => Some c'' | SSkip => Some c' | SUB => None end.
  Proof.
    intros E. rewrite first_S.
    assert (X : ∀ (s1 s2 : list (choice K V)) c0 c1, exec cfg c0 s1 = Some c1 → exec cfg c0 (s1 ++ s2) = exec cfg c1 s2).
    { clear. induction s1 as [|ch s1 IH]; intros s2 c0 c1; cbn [exec app]; [by intros [= <-]|]. destruct (mstep cfg c0 ch); [apply IH|apply IH|done]. }
    rewrite (X _ _ _ _ E). cbn [exec]. by destruct (mstep cfg c' (f n)).
  Qed.
  Lemma frame c0 ch c1 p : (∀ orc, ch ≠ CRun tid orc) → mstep cfg c0 ch = SStep c1 → mc_thr c0 !! tid = Some (TState (Some (id, o, p)) its false) →
    mc_thr c1 !! tid = Some (TState (Some (id, o, p)) its false).
  Proof. intros N E T. by eapply mstep_other. Qed.

  (** The call returns at some later point of the schedule. *)
  Definition returns_by (n : nat) : Prop := ∃ n' c' r v, n ≤ n' ∧ exec cfg c (first_n n' f) = Some c' ∧ list.last (mc_hist c') = Some (HRes tid id o r v).
  Definition ev (p : prog K V (pres K V)) : Prop :=
    ∀ n c', exec cfg c (first_n n f) = Some c' → mc_thr c' !! tid = Some (TState (Some (id, o, p)) its false) → returns_by n.
  Lemma ev_step p : (∀ n c' orc, exec cfg c (first_n n f) = Some c' → mc_thr c' !! tid = Some (TState (Some (id, o, p)) its false) → f n = CRun tid orc → returns_by n) → ev p.
  Proof.
    intros H n c' E T. destruct (GS n) as (m & orc & Lm & Em). remember (m - n) as d eqn:Ed. revert n c' E T Lm Ed. induction d as [|d IH]; intros n c' E T Lm Ed.
    - assert (n = m) as -> by lia. by eapply H.
    - destruct (f n) as [i|i|i o'|i orc'|j] eqn:Ef; try destruct (decide (i = tid)) as [->|]; try (by eapply H).
      all: assert (N : ∀ orc, f n ≠ CRun tid orc) by (rewrite Ef; congruence); clear Ef;
        pose proof (exec_first_S n c' E) as E1; destruct (mstep cfg c' (f n)) as [c1| |] eqn:Es; [| |by destruct (NU _ E1)];
        (destruct (IH (S n) _ E1) as (n' & c2 & r & v & L2 & E2 & H2); [first [by eapply frame|done]|lia|lia|exists n', c2, r, v; split; [lia|done]]).
  Qed.
  Lemma ev_ret a : ev (Ret a).
  Proof.
    apply ev_step. intros n c' orc E T Ef. pose proof (exec_first_S n c' E) as E1. rewrite Ef in E1. unfold mstep in E1. rewrite T in E1.
    destruct (to_vals o (mc_st c') a) as [v|]; cbn in E1; [|by destruct (NU _ E1)].
    eexists (S n), _, a, v. split; [lia|]. split; [exact E1|]. cbn. by rewrite last_snoc.
  Qed.
  Lemma ret_le n m : n ≤ m → returns_by m → returns_by n.
  Proof. intros L (n' & c' & r & v & L' & H). exists n', c', r, v. split; [lia|done]. Qed.
  Lemma ev_act X (g : action K V X) k : (∀ orc σ, I σ → match g tid orc σ with Ok x _ => ev (k x) | Block => False | UB => True end) → ev (Act g k).
  Proof.
    intros H. apply ev_step. intros n c' orc E T Ef. pose proof (exec_first_S n c' E) as E1. rewrite Ef in E1. unfold mstep in E1. rewrite T in E1.
    specialize (H orc _ (HI _ _ E)). destruct (g tid orc (mc_st c')) as [x σ'| |]; [|done|by destruct (NU _ E1)]. eapply (ret_le n (S n)); [lia|]. eapply H; [exact E1|].
    cbn. apply list_lookup_insert. by eapply lookup_lt_Some.
  Qed.
  Lemma ev_loop S0 B (body : S0 → prog K V (S0 + B)) s k : ev (bind (body s) (λ r, match r with inl s' => Loop body s' k | inr b => k b end)) → ev (Loop body s k).
  Proof.
    intros H. apply ev_step. intros n c' orc E T Ef. pose proof (exec_first_S n c' E) as E1. rewrite Ef in E1. unfold mstep in E1. rewrite T in E1.
    eapply (ret_le n (S n)); [lia|]. eapply H; [exact E1|]. cbn. apply list_lookup_insert. by eapply lookup_lt_Some.
  Qed.
  Lemma wf_ev A (p : prog K V A) : ∀ (k : A → prog K V (pres K V)), wf tid I p (λ a, ev (k a)) → ev (bind p k).
  Proof.
    induction p as [A a|X A g k1 IH|S0 C A body IHb s k1 IHk|A r]; cbn [wf bind]; intros k H.
    - done.
    - apply ev_act. intros orc σ Hi. specialize (H orc σ Hi). destruct (g tid orc σ); auto.
    - apply (H (λ s, ev (Loop body s (λ x, bind (k1 x) k)))). clear s H. intros s H.
      apply ev_loop, IHb. eapply wf_mono; [exact H|]. intros [s'|b]; auto.
    - done.
  Qed.
End adq.

Section progs.
  Context {K V : Type} {Keq : EqDecision K} (cfg : config K) (me : nat) (I : state K V → Prop).
  Local Ltac act1 := let o := fresh "o" in let σ := fresh "σ" in let Hi := fresh "Hi" in intros o σ Hi.
  Lemma w_get_probe fuel : ∀ tb k i len, wf me I (get_probe (V:=V) cfg fuel tb k i len) (λ _, True).
  Proof.
    induction fuel as [|fuel IH]; intros tb k i len; [done|]. cbn [get_probe bind act wf]. act1. unfold a_load_meta, with_slot, with_table.
    destruct (tables σ !! th tb) as [t|]; [|done]. destruct (t_freed t); [done|]. destruct (t_slots t !! i) as [s|]; [|done]. cbn [wf].
    destruct (_ =? _)%N.
    - cbn [wf bind]. intros o1 σ1 Hi1. unfold a_load_ent, with_slot, with_table.
      destruct (tables σ1 !! th tb) as [t1|]; [|done]. destruct (t_freed t1); [done|]. destruct (t_slots t1 !! i) as [s1|]; [|done]. cbn [wf bind].
      destruct (e_ptr (s_ent s1)) as [p|]; [|apply IH]. cbn [wf bind]. intros o2 σ2 Hi2. unfold a_deref. destruct (decide _); [done|]. destruct (heap σ2 !! p) as [kv|]; [|done]. cbn [bind].
      case_bool_decide; [by destruct (e_copied _)|]. destruct (_ =? _)%N; [done|apply IH].
    - destruct (_ =? _)%N; [done|apply IH].
  Qed.
  Lemma w_root (Q : option tref → Prop) : (∀ tb σ, I σ → (tb = None ∨ ∃ t' tb', tb = Some t' ∧ tables σ !! th t' = Some tb') → Q tb) → wf (K:=K) (V:=V) me I (act a_root) Q.
  Proof.
    intros H o σ Hi. unfold a_root, with_table. destruct (root σ) as [t|]; [|by apply (H None σ Hi); left]. destruct (tables σ !! t) as [tb|] eqn:E; [|done]. destruct (t_freed tb); [done|].
    cbn. apply (H _ σ Hi). right. by eexists _, _.
  Qed.
  Lemma w_next tb (Q : option tref → Prop) : (∀ nx σ, I σ → (nx = None ∨ ∃ t t' tb', nx = Some t' ∧ tables σ !! th tb = Some t ∧ t_next t = Some (th t') ∧ tables σ !! th t' = Some tb') → Q nx) → wf (K:=K) (V:=V) me I (act (a_next tb)) Q.
  Proof.
    intros H o σ Hi. unfold a_next, with_table. destruct (tables σ !! th tb) as [t|] eqn:Et; [|done]. destruct (t_freed t); [done|].
    destruct (t_next t) as [t'|] eqn:En; [|by apply (H None σ Hi); left]. destruct (tables σ !! t') as [tb'|] eqn:Et'; [|done]. destruct (t_freed tb'); [done|].
    cbn. apply (H _ σ Hi). right. by eexists _, _, _.
  Qed.
  Lemma w_get_blocking k : c_mode cfg = Blocking → wf me I (get (V:=V) cfg k) (λ _, True).
  Proof.
    intros Hb. unfold get. apply wf_bind, w_root. intros [tb|] σ _ _; [|done]. apply wf_loop1, wf_bind. eapply wf_mono; [apply w_get_probe|]. intros [r|] _; [done|].
    unfold incremental. by rewrite Hb.
  Qed.
  Lemma w_get_inc k chunk T : c_mode cfg = Incremental chunk →
    (∀ σ, I σ → length (tables σ) ≤ T ∧ ∀ t tb t', tables σ !! t = Some tb → t_next tb = Some t' → t < t') → wf me I (get (V:=V) cfg k) (λ _, True).
  Proof.
    intros Hc HI. unfold get, incremental. rewrite Hc. apply wf_bind, w_root. intros [tb|] σ0 Hi0 Ht; [|done].
    assert (Lt : th tb < T). { destruct Ht as [|(t' & tb' & [= <-] & Ht)]; [done|]. destruct (HI _ Hi0) as [L _]. apply lookup_lt_Some in Ht. lia. }
    clear Ht Hi0 σ0. remember (T - th tb) as d eqn:Ed. revert tb Lt Ed. induction (lt_wf d) as [d _ IH]. intros tb Lt Ed. apply wf_loop1, wf_bind. eapply wf_mono; [apply w_get_probe|]. intros [r|] _; [done|].
    apply wf_bind, w_next. intros nx σ Hi Hn. destruct (HI _ Hi) as [LT NX]. destruct Hn as [->|(t & t' & tb' & -> & Et & En & Et')]; [done|].
    pose proof (NX _ _ _ Et En). apply lookup_lt_Some in Et'. refine (IH (T - th t') _ t' _ eq_refl); lia.
  Qed.
  Lemma w_sum n : ∀ j acc, wf (K:=K) (V:=V) me I (sum_shards n j acc) (λ _, True).
  Proof. induction n as [|n IH]; intros j acc; [done|]. cbn [sum_shards bind act wf]. act1. unfold a_load_shard. apply IH. Qed.
  Lemma w_len : wf (K:=K) (V:=V) me I map_len (λ _, True).
  Proof. unfold map_len. cbn [bind act wf]. act1. unfold a_shards. apply wf_bind. eapply wf_mono; [apply w_sum|done]. Qed.
  Lemma w_iter_next fuel : ∀ i tb, wf (K:=K) (V:=V) me I (iter_next fuel i tb) (λ _, True).
  Proof.
    induction fuel as [|fuel IH]; intros i tb; [done|]. cbn [iter_next bind act wf]. act1. unfold a_load_meta, with_slot, with_table.
    destruct (tables σ !! th tb) as [t|]; [|done]. destruct (t_freed t); [done|]. destruct (t_slots t !! i) as [s|]; [|done]. cbn [bind].
    destruct (_ || _); [apply IH|]. cbn [bind act wf]. intros o1 σ1 Hi1. unfold a_load_ent, with_slot, with_table.
    destruct (tables σ1 !! th tb) as [t1|]; [|done]. destruct (t_freed t1); [done|]. destruct (t_slots t1 !! i) as [s1|]; [|done]. cbn [bind].
    destruct (e_ptr (s_ent s1)) as [p|]; [done|apply IH].
  Qed.
  Lemma w_iter_blocking : c_mode cfg = Blocking → wf (K:=K) (V:=V) me I (iter cfg) (λ _, True).
  Proof. intros Hb. unfold iter. apply wf_bind, w_root. intros [tb|] σ _ _; [|done]. unfold linearize, incremental. by rewrite Hb. Qed.
End progs.

(** The calls that only read. *)
Definition reading {K V} (cfg : config K) (o : op K V) : Prop :=
  match o with OGet _ | OLen | OIterNext _ => True | OIter => c_mode cfg = Blocking | _ => False end.

Section main.
  Context {K V : Type} {Keq : EqDecision K} (cfg : config K).
  Context (nthr nsh cap : nat) (HS : 0 < nsh) (sched : list (choice K V)) (c : mconf K V).
  Context (EX : exec cfg (init_conf cap nsh nthr) sched = Some c).

  (** C55: from every reachable configuration (other calls stopped anywhere, holding any locks, in the middle of resizes), under every infinite continuation [f] in which the
      caller gets infinitely many steps, the call returns: it neither waits for other threads nor starves nor panics. *)
  Theorem C55_reads_do_not_wait tid o its f : mc_thr c !! tid = Some (ts_idle its) → tid ∈ pins (mc_st c) → reading cfg o → gets_steps tid f →
    (∀ k, o = OGet k → c_mode cfg = Blocking ∨ ∃ T, ∀ n c', exec cfg c (CInvoke tid o :: first_n n f) = Some c' → length (tables (mc_st c')) ≤ T) →
    ∃ n c' r v, exec cfg c (CInvoke tid o :: first_n n f) = Some c' ∧ list.last (mc_hist c') = Some (HRes tid (mc_nop c) o r v).
  Proof.
    intros Et Hp Ho GS HT.
    set (c1 := MConf (mc_st c) (set_thr tid (TState (Some (mc_nop c, o, op_prog cfg o its)) its false) (mc_thr c)) (mc_hist c ++ [HInv tid (mc_nop c) o]) (S (mc_nop c))).
    assert (E : mstep cfg c (CInvoke tid o) = SStep c1). { unfold mstep. rewrite Et. cbn [ts_idle]. by rewrite decide_True. }
    assert (E' : ∀ s, exec cfg c (CInvoke tid o :: s) = exec cfg c1 s) by (intros s; cbn [exec]; by rewrite E).
    assert (X : ∀ (s1 s2 : list (choice K V)) c0 c1, exec cfg c0 s1 = Some c1 → exec cfg c0 (s1 ++ s2) = exec cfg c1 s2).
    { clear. induction s1 as [|ch s1 IH]; intros s2 c0 c1; cbn [exec app]; [by intros [= <-]|]. destruct (mstep cfg c0 ch); [apply IH|apply IH|done]. }
    assert (NU : ∀ s, exec cfg c1 s ≠ None). { intros s. rewrite <- E'. by eapply exec_app_ne. }
    set (I := λ σ : state K V, ∃ n c', exec cfg c1 (first_n n f) = Some c' ∧ mc_st c' = σ).
    assert (HI : ∀ n c', exec cfg c1 (first_n n f) = Some c' → I (mc_st c')) by (intros n c' En; by exists n, c').
    assert (Tc : mc_thr c1 !! tid = Some (TState (Some (mc_nop c, o, op_prog cfg o its)) its false)) by (cbn; apply list_lookup_insert; by eapply lookup_lt_Some).
    assert (EV : ev cfg tid c1 f (mc_nop c) o its (op_prog cfg o its)).
    { destruct o as [k|k v|k v|k|k pr|k g|k v|k g|k g v| |g|n| | |j]; try done; cbn [op_prog].
      - apply (wf_ev cfg tid I); try done. apply (wf_mono _ _ _ (λ _, True)); [|intros; by apply ev_ret].
        destruct (c_mode cfg) as [chunk|] eqn:Hm.
        + destruct (HT k eq_refl) as [|[T HT']]; [congruence|]. apply (w_get_inc cfg tid I k chunk T Hm). intros σ (n & c' & En & <-). split; [apply (HT' n); by rewrite E'|].
          intros t tb t' Etb Enx. assert (EX' : exec cfg (init_conf cap nsh nthr) (sched ++ CInvoke tid (OGet k) :: first_n n f) = Some c') by (rewrite (X _ _ _ _ EX), E'; done).
          destruct (reach_InvI cfg chunk Hm nthr nsh cap HS _ c' EX') as [γ IV]. pose proof (lookup_lt_Some _ _ _ Etb) as Lt. rewrite <- nt_tables in Lt. pose proof (ii_next _ _ _ IV t Lt) as Y.
          rewrite (proj1 (core_fld_table _ _ _ Etb)), Enx in Y. destruct (decide _); [|done]. injection Y as ->. lia.
        + by apply w_get_blocking.
      - apply (wf_ev cfg tid I); try done. apply (wf_mono _ _ _ (λ _, True)); [apply w_len|intros; by apply ev_ret].
      - apply (wf_ev cfg tid I); try done. apply (wf_mono _ _ _ (λ _, True)); [by apply w_iter_blocking|intros; by apply ev_ret].
      - destruct (its !! j) as [[[tb|] i]|]; try by apply ev_ret.
        apply (wf_ev cfg tid I); try done. apply (wf_mono _ _ _ (λ _, True)); [apply w_iter_next|intros; by apply ev_ret]. }
    destruct (EV 0 c1) as (n & c' & r & v & _ & En & Hl); [done|done|]. exists n, c', r, v. by rewrite E'.
  Qed.
  (** In particular the call returns when its thread runs alone from now on (get with incremental resizing: C41). *)
  Corollary C55_alone tid o its : mc_thr c !! tid = Some (ts_idle its) → tid ∈ pins (mc_st c) → reading cfg o → (∀ k, o = OGet k → c_mode cfg = Blocking) →
    ∃ n c' r v, exec cfg c (CInvoke tid o :: replicate n (CRun tid false)) = Some c' ∧ list.last (mc_hist c') = Some (HRes tid (mc_nop c) o r v).
  Proof.
    intros Et Hp Ho Hb. destruct (C55_reads_do_not_wait tid o its (λ _, CRun tid false)) as (n & c' & r & v & E & H); try done.
    - intros n. by exists n, false.
    - intros k Ek. left. by apply (Hb k).
    - exists n, c', r, v. split; [|done]. rewrite <- E. f_equal. f_equal. unfold first_n. clear. generalize 0. induction n as [|n IH]; intros a; [done|]. cbn. by rewrite <- IH.
  Qed.
End main.
