(** C20: the theorems about [reserve] and about the sizes of the tables at the level of the machine. *)
From Verif Require Import Reserve PureLemmas PropArith.

(** * Part 1: [reserve] *)
Section reserve.
  Context {K V : Type} {Keq : EqDecision K} (cfg : config K) (nthr nsh cap : nat) (HS : 0 < nsh).
  Notation state := (state K V).

  Lemma exec_app' (s1 s2 : list (choice K V)) c0 c1 : exec cfg c0 s1 = Some c1 → exec cfg c0 (s1 ++ s2) = exec cfg c1 s2.
  Proof. revert c0. induction s1 as [|ch s1 IH]; intros c0; cbn [exec app]; [by intros [= <-]|]. destruct (mstep cfg c0 ch); [apply IH|apply IH|done]. Qed.
  Lemma run_sp i id o its (Q : pres K V → state → Prop) bs : ∀ sched (c c' : mconf K V) p, exec cfg (init_conf cap nsh nthr) sched = Some c →
    mc_thr c !! i = Some (TState (Some (id, o, p)) its false) → sp cfg i p Q (mc_st c) → exec cfg c (map (CRun i) bs) = Some c' →
    (mc_hist c' = mc_hist c) ∨
    (∃ r v its', mc_hist c' = mc_hist c ++ [HRes i id o r v] ∧ Q r (mc_st c') ∧ to_vals o (mc_st c') r = Some v ∧ mc_thr c' !! i = Some (ts_idle its')) ∨
    (∃ why, mc_hist c' = mc_hist c ++ [HPanic i id o why]).
  Proof using HS.
    induction bs as [|b bs IH]; intros sched c c' p EX Et D E; [injection E as <-; by left|].
    cbn [map exec] in E. destruct (mstep cfg c (CRun i b)) as [c1| |] eqn:E1; [|by eapply IH|done].
    assert (EX1 : exec cfg (init_conf cap nsh nthr) (sched ++ [CRun i b]) = Some c1) by (rewrite (exec_app' _ _ _ _ EX); cbn [exec]; by rewrite E1).
    assert (Lt : i < length (mc_thr c)) by (by eapply lookup_lt_Some).
    assert (STAY : ∀ l (c0 : mconf K V), (∀ b, mstep cfg c0 (CRun i b) = SSkip) → exec cfg c0 (map (CRun i) l) = Some c' → c' = c0).
    { clear. induction l as [|b l IH]; intros c0 N; cbn [map exec]; [by intros [= <-]|]. rewrite N. by apply IH. }
    cbn [mstep] in E1. rewrite Et in E1.
    assert (RC : ∀ {T} (q : Prog.prog K V T) (fin : T → option (vres K V * list iterst * hevent K V)) (inj : Prog.prog K V T → Prog.prog K V (pres K V)) (QT : T → state → Prop),
      sp cfg i q QT (mc_st c) → (∀ σ q', sp cfg i q' QT σ → sp cfg i (inj q') Q σ) →
      runq c i b id o its q fin inj = SStep c1 →
      (mc_hist c1 = mc_hist c ∧ ∃ p', mc_thr c1 !! i = Some (TState (Some (id, o, p')) its false) ∧ sp cfg i p' Q (mc_st c1)) ∨
      (mc_st c1 = mc_st c ∧ ∃ a x, fin a = Some x ∧ QT a (mc_st c) ∧ mc_hist c1 = mc_hist c ++ [x.2] ∧ mc_thr c1 !! i = Some (ts_idle x.1.2)) ∨
      (∃ why, mc_hist c1 = mc_hist c ++ [HPanic i id o why] ∧ mc_thr c1 !! i = Some (TState None [] true))).
    { intros T q fin inj QT Dq Hinj X. destruct q as [T a|X' T f k|S' B' T body s k|T why]; cbn [sp] in Dq; cbn [runq] in X.
      - right; left. destruct (fin a) as [[[v its'] ev]|] eqn:Fa; [|done]. injection X as <-. cbn [mc_st mc_hist mc_thr]. split; [done|]. exists a, (v, its', ev). split_and!; try done. unfold set_thr. by rewrite list_lookup_insert.
      - left. destruct (f i b (mc_st c)) as [x σ'| |] eqn:Ef; [|done|done]. injection X as <-. cbn [mc_st mc_hist mc_thr]. split; [done|]. eexists. split; [unfold set_thr; by rewrite list_lookup_insert|]. apply Hinj. eapply Dq; [by eapply reach_J'|by eapply (reach_J' cfg nthr nsh cap HS _ _ EX1)|exact Ef].
      - left. injection X as <-. cbn [mc_st mc_hist mc_thr]. split; [done|]. eexists. split; [unfold set_thr; by rewrite list_lookup_insert|]. apply Hinj. destruct Dq as (I & QB & Hi & Hb & Hk).
        eapply sp_bind; [by apply Hb|]. intros [s'|x] σ' H1; [|by apply Hk]. exists I, QB. by split_and!.
      - right; right. injection X as <-. cbn [mc_st mc_hist mc_thr]. exists why. split; [done|]. unfold set_thr. by rewrite list_lookup_insert. }
    destruct (RC _ p _ (λ p, p) _ D (λ _ _ H, H) E1) as [(H1 & p' & T1 & D1)|[(S1 & a & x & Fa & Qa & H1 & T1)|(why & H1 & T1)]].
    - rewrite <- H1. by eapply (IH _ c1).
    - right; left. apply STAY in E; [subst c1|intros b'; cbn [mstep]; by rewrite T1]. apply fmap_Some in Fa as (v & Ev & ->). cbn [fst snd] in *. exists a, v, (finish_iters a its). rewrite S1. by split_and!.
    - right; right. apply STAY in E; [subst c1|intros b'; cbn [mstep]; by rewrite T1]. by exists why.
  Qed.
  Lemma invoke_run i o its sched (c c' : mconf K V) bs (Q : pres K V → state → Prop) : exec cfg (init_conf cap nsh nthr) sched = Some c → mc_thr c !! i = Some (ts_idle its) → i ∈ pins (mc_st c) →
    sp cfg i (op_prog cfg o its) Q (mc_st c) → exec cfg c (CInvoke i o :: map (CRun i) bs) = Some c' → ∀ id r v, list.last (mc_hist c') = Some (HRes i id o r v) →
    Q r (mc_st c') ∧ to_vals o (mc_st c') r = Some v ∧ ∃ its', mc_thr c' !! i = Some (ts_idle its').
  Proof using HS.
    intros EX Et Hp D E id r v Hr. cbn [exec] in E. destruct (mstep cfg c (CInvoke i o)) as [c1| |] eqn:E1; cbn [mstep] in E1; rewrite Et in E1; cbn [ts_idle] in E1; destruct (decide _); try done.
    assert (EX1 : exec cfg (init_conf cap nsh nthr) (sched ++ [CInvoke i o]) = Some c1).
    { rewrite (exec_app' _ _ _ _ EX). cbn [exec mstep]. rewrite Et. cbn [ts_idle]. destruct (decide _); [|done]. f_equal. by injection E1. }
    injection E1 as <-. assert (Lt : i < length (mc_thr c)) by (by eapply lookup_lt_Some).
    eapply run_sp in E; [|exact EX1|cbn [mc_thr]; unfold set_thr; by rewrite list_lookup_insert|exact D]. cbn [mc_hist] in E.
    destruct E as [H|[(r' & v' & its' & H & HQ & HV & HT)|(why & H)]]; rewrite H, last_snoc in Hr; [done| |done]. injection Hr as _ <- <-. split_and!; [done..|by exists its'].
  Qed.

  Lemma stay_run i bs (c : mconf K V) its : mc_thr c !! i = Some (ts_idle its) → exec cfg c (map (CRun i) bs) = Some c.
  Proof. intros Et. induction bs as [|b bs IH]; cbn [map exec]; [done|]. cbn [mstep]. rewrite Et. exact IH. Qed.
  (** A call of [len] that runs alone returns the sum of the counter shards. *)
  Lemma len_run i its sched (c c' : mconf K V) bs : exec cfg (init_conf cap nsh nthr) sched = Some c → mc_thr c !! i = Some (ts_idle its) → i ∈ pins (mc_st c) →
    exec cfg c (CInvoke i OLen :: map (CRun i) bs) = Some c' → ∀ id r m, list.last (mc_hist c') = Some (HRes i id OLen r (VLen m)) → m = Z.to_nat (zsum (counts (mc_st c'))) ∧ ∃ its', mc_thr c' !! i = Some (ts_idle its').
  Proof using HS.
    intros EX Et Hp E id r m Hr.
    destruct (invoke_run i OLen its sched c c' bs (λ r σ', r = PLen (Z.to_nat (zsum (counts σ')))) EX Et Hp) with (id := id) (r := r) (v := VLen (K:=K) (V:=V) m) as (-> & Ev & T); [|done|done|].
    { cbn [op_prog]. eapply sp_bind; [apply s_len|]. intros n σ' [(_ & Ec & _) ->]. cbn [sp]. by rewrite Ec. }
    cbn [to_vals] in Ev. injection Ev as <-. by split.
  Qed.
  (** [reserve(n)] that runs alone and returns: the current table has room for the counted elements and [n] more. *)
  Lemma reserve_run i its sched (c c' : mconf K V) bs n : exec cfg (init_conf cap nsh nthr) sched = Some c → mc_thr c !! i = Some (ts_idle its) → i ∈ pins (mc_st c) →
    exec cfg c (CInvoke i (OReserve n) :: map (CRun i) bs) = Some c' → ∀ id r v, list.last (mc_hist c') = Some (HRes i id (OReserve n) r v) →
    ∃ t tb, root (mc_st c') = Some t ∧ tables (mc_st c') !! t = Some tb ∧ entries_for (Z.to_nat (zsum (counts (mc_st c))) + n) ≤ length (t_slots tb).
  Proof using HS.
    intros EX Et Hp E id r v Hr.
    destruct (invoke_run i (OReserve n) its sched c c' bs (λ _ σ', ∃ tb, at_root (counts (mc_st c)) tb σ' ∧ entries_for (Z.to_nat (zsum (counts (mc_st c))) + n) ≤ th_len tb) EX Et Hp) with (id := id) (r := r) (v := v) as ((tb & (R & _ & T) & Le) & _); [|done|done|].
    { cbn [op_prog]. eapply sp_bind; [apply s_reserve|]. intros [] σ' [_ X]. by cbn [sp]. }
    unfold tl, tln in T. apply fmap_Some in T as (tb' & Et' & El). exists (th tb), tb'. rewrite El in Le. by split_and!.
  Qed.

  (** C20: a thread calls [len()], which returns [m], and then [reserve(n)], and no other thread runs in between. When [reserve] returns, the current table has
      at least [entries_for(m + n)] slots, so that [m + n] elements load it to at most three quarters. Both resize modes, any starting point. *)
  Theorem C20_reserve sched (c c1 c2 : mconf K V) i its bs1 bs2 n id1 id2 r1 r2 m v :
    exec cfg (init_conf cap nsh nthr) sched = Some c → mc_thr c !! i = Some (ts_idle its) → i ∈ pins (mc_st c) →
    exec cfg c (CInvoke i OLen :: map (CRun i) bs1) = Some c1 → list.last (mc_hist c1) = Some (HRes i id1 OLen r1 (VLen m)) →
    exec cfg c1 (CInvoke i (OReserve n) :: map (CRun i) bs2) = Some c2 → list.last (mc_hist c2) = Some (HRes i id2 (OReserve n) r2 v) →
    ∃ t tb, root (mc_st c2) = Some t ∧ tables (mc_st c2) !! t = Some tb ∧ entries_for (m + n) ≤ length (t_slots tb) ∧ 4 * (m + n) ≤ 3 * length (t_slots tb).
  Proof using HS.
    intros EX Et Hp E1 H1 E2 H2. destruct (len_run i its sched c c1 bs1 EX Et Hp E1 id1 r1 m H1) as (Em & its1 & T1).
    assert (EX1 : exec cfg (init_conf cap nsh nthr) (sched ++ CInvoke i OLen :: map (CRun i) bs1) = Some c1) by (by rewrite (exec_app' _ _ _ _ EX)).
    destruct (decide (i ∈ pins (mc_st c1))) as [P1|P1].
    - destruct (reserve_run i its1 _ c1 c2 bs2 n EX1 T1 P1 E2 id2 r2 v H2) as (t & tb & R & Etb & Le). rewrite <- Em in Le. exists t, tb. split_and!; [done..|].
      assert (EX2 : exec cfg (init_conf cap nsh nthr) ((sched ++ CInvoke i OLen :: map (CRun i) bs1) ++ CInvoke i (OReserve n) :: map (CRun i) bs2) = Some c2) by (by rewrite (exec_app' _ _ _ _ EX1)).
      destruct (reach_J' cfg nthr nsh cap HS _ _ EX2) as [γ I]. destruct (tln_nt (mc_st c2) t (length (t_slots tb)) (tln_eq _ _ _ Etb)) as [Lt El].
      destruct (i_pow _ _ _ I t Lt) as (b & Lb & Eb). rewrite El in Eb. assert (8 ≤ length (t_slots tb)) by (rewrite Eb; change 8 with (2 ^ 3); by apply Nat.pow_le_mono_r).
      destruct (C20_entries_for_load (m + n)) as [X _]. lia.
    - exfalso. cbn [exec mstep] in E2. rewrite T1 in E2. cbn [ts_idle] in E2. destruct (decide _); [done|]. rewrite (stay_run _ _ _ _ T1) in E2. injection E2 as <-. rewrite H1 in H2. done.
  Qed.
End reserve.

(** * Part 2: no table is smaller than the capacity given at construction *)
Section sizes.
  Context {K V : Type} {Keq : EqDecision K} (cfg : config K).
  Notation prog := (prog K V). Notation action := (action K V). Notation state := (state K V).
  Notation ini := (c_initial cfg).

  (** Every table has at least [ini] slots, and the first table is allocated at construction unless [ini] is at most 1. *)
  Definition LI (σ : state) : Prop := (∀ t tb, tables σ !! t = Some tb → ini ≤ length (t_slots tb)) ∧ (root σ = None → ini ≤ 1).
  Fixpoint pv {A} (p : prog A) : (A → Prop) → Prop :=
    match p in Prog.prog _ _ A return (A → Prop) → Prop with
    | Ret a => λ Q, Q a
    | Fail r => λ _, True
    | Act f k => λ Q, ∃ G, (∀ me b σ x σ', LI σ → f me b σ = Ok x σ' → LI σ' ∧ G x) ∧ ∀ x, G x → pv (k x) Q
    | @Loop _ _ X B _ body s k => λ Q, ∃ (I : X → Prop) (QB : B → Prop), I s ∧
        (∀ s, I s → pv (body s) (λ r, match r with inl s' => I s' | inr b => QB b end)) ∧ ∀ b, QB b → pv (k b) Q
    end.
  Lemma pv_mono {A} (p : prog A) : ∀ (Q Q' : A → Prop), (∀ a, Q a → Q' a) → pv p Q → pv p Q'.
  Proof.
    induction p as [A a|X A f k IH|S' X A body IHb s k IH|A r]; cbn [pv]; intros Q Q' HQ; [by auto| | |done].
    - intros (G & H1 & H2). exists G. split; [done|]. intros x Gx. eapply IH; eauto.
    - intros (I & QB & H0 & H1 & H2). exists I, QB. split_and!; [done..|]. intros b Hb. eapply IH; eauto.
  Qed.
  Lemma pv_bind {A B} (p : prog A) (k : A → prog B) Q R : pv p R → (∀ a, R a → pv (k a) Q) → pv (bind p k) Q.
  Proof.
    intros D Hk. revert D. induction p as [A a|X A f k1 IH|S' X A body IHb s k1 IH|A r]; cbn [pv bind]; [apply Hk| | |done].
    - intros (G & H1 & H2). exists G. split; [done|]. intros x Gx. eapply IH; eauto.
    - intros (I & QB & H0 & H1 & H2). exists I, QB. split_and!; auto. intros b Hb. eapply IH; eauto.
  Qed.
  (** What is known about a value, by its type. *)
  Class gd (A : Type) := gdp : A → Prop.
  #[local] Instance gd_any A : gd A | 100 := λ _, True.
  #[local] Instance gd_tref : gd tref | 0 := λ tb, ini ≤ th_len tb.
  #[local] Instance gd_opt A `{gd A} : gd (option A) | 1 := λ o, match o with Some a => gdp a | None => True end.
  #[local] Instance gd_sum A B `{gd A} `{gd B} : gd (A + B) | 1 := λ o, match o with inl a => gdp a | inr b => gdp b end.
  #[local] Instance gd_prod A B `{gd A} `{gd B} : gd (A * B) | 1 := λ o, gdp o.1 ∧ gdp o.2.
  Definition pg {A} {G : gd A} (p : prog A) : Prop := pv p gdp.
  Definition fg {A} {G : gd A} (f : action A) : Prop := ∀ me b σ x σ', LI σ → f me b σ = Ok x σ' → LI σ' ∧ gdp x.
  Lemma pg_ret {A} {G : gd A} (a : A) : gdp a → pg (Ret a). Proof. done. Qed.
  Lemma pg_fail {A} {G : gd A} r : pg (A:=A) (Fail r). Proof. done. Qed.
  Lemma pg_act {X A} {GX : gd X} {G : gd A} (f : action X) (k : X → prog A) : fg f → (∀ x, gdp x → pg (k x)) → pg (Act f k).
  Proof. intros F Hk. exists gdp. by split. Qed.
  Lemma pg_act' {X} {GX : gd X} (f : action X) : fg f → pg (act f). Proof. intros F. by apply pg_act. Qed.
  Lemma pg_bind {A B} {GA : gd A} {GB : gd B} (p : prog A) (k : A → prog B) : pg p → (∀ a, gdp a → pg (k a)) → pg (bind p k).
  Proof. intros D Hk. by eapply pv_bind. Qed.
  Lemma pg_loop {S' B A} {GS : gd S'} {GB : gd B} {GA : gd A} (body : S' → prog (S' + B)) s (k : B → prog A) : gdp s → (∀ s, gdp s → pg (body s)) → (∀ b, gdp b → pg (k b)) → pg (Loop body s k).
  Proof. intros Hs Hb Hk. exists gdp, gdp. split_and!; [done| |done]. intros s' Hs'. eapply pv_mono; [|by apply Hb]. by intros [?|?]. Qed.
  Lemma pg_loop' {S' B} {GS : gd S'} {GB : gd B} (body : S' → prog (S' + B)) s : gdp s → (∀ s, gdp s → pg (body s)) → pg (loop body s).
  Proof. intros Hs Hb. by apply pg_loop. Qed.

  Lemma LI_tables (σ σ' : state) : LI σ → tables σ' = tables σ → root σ' = root σ → LI σ'.
  Proof. intros [A B] E1 E2. split; [by rewrite E1|by rewrite E2]. Qed.
  Lemma LI_upd t tb tb0 (σ : state) : LI σ → tables σ !! t = Some tb0 → length (t_slots tb) = length (t_slots tb0) → LI (upd_table t tb σ).
  Proof.
    intros [A B] E S. split; [|done]. intros x y Ey. cbn in Ey. apply list_lookup_insert_Some in Ey as [(-> & <- & _)|(_ & Ey)]; [|by eapply A]. rewrite S. by eapply A.
  Qed.
  Lemma LI_slot t i tb s (σ : state) : LI σ → tables σ !! t = Some tb → LI (upd_slot t i tb s σ).
  Proof. intros A E. unfold upd_slot. eapply LI_upd; [done|exact E|]. cbn. by rewrite insert_length. Qed.
  Lemma LI_handle t tb (σ : state) : LI σ → tables σ !! t = Some tb → ini ≤ th_len (handle t tb).
  Proof. intros [A _] E. apply A in E. unfold th_len, handle, t_len. cbn [th_mask]. lia. Qed.
  Ltac gs := cbv beta iota delta [gdp gd_any gd_tref gd_opt gd_sum gd_prod fst snd] in *; repeat match goal with
    | |- True => exact I
    | |- _ ∧ _ => split
    | H : _ ∧ _ |- _ => destruct H
    | |- match ?x with _ => _ end => destruct x
    | |- _ => assumption
    end.
  Ltac ff := let me := fresh "me" in let b := fresh "b" in let σ := fresh "σ" in let x := fresh "x" in let σ' := fresh "σ'" in let E := fresh "E" in let H := fresh "H" in
    intros me b σ x σ' H E; 
    cbv beta iota delta [a_root a_root_raw a_next a_load_meta a_store_meta a_load_ent a_store_ent a_fetch_or_copying a_cas_ent a_cas_pub a_deref a_load_copied a_add_copied a_load_claim a_add_claim
      a_load_status a_store_status a_try_lock a_lock a_unlock a_poison a_load_shard a_shards a_retire a_defer a_count a_cas_root a_ub a_pk_announce a_pk_register a_pk_remove a_pk_contains a_pk_pending a_pk_take a_park a_unpark] in E;
    repeat match type of E with
      | with_slot _ _ _ _ = Ok _ _ => apply ws_ok' in E as (? & ? & ? & ? & E)
      | with_table _ _ _ = Ok _ _ => apply wt_ok in E as (? & ? & E)
      | (if ?x then _ else _) = Ok _ _ => destruct x
      | match ?x with _ => _ end = Ok _ _ => destruct x
      end; try discriminate E; injection E as <- <-; cbv zeta;
    (split; [first [ assumption | eapply LI_upd; [eassumption|eassumption|reflexivity] | eapply LI_slot; [eassumption|eassumption] | eapply LI_tables; [eassumption|reflexivity|reflexivity] | idtac ]
      | first [exact I | eapply LI_handle; eassumption | solve [gs] | idtac]]).
  (** [a_root] also tells whether the first table may still have to be allocated. *)
  Definition rootg (r : option tref) : Prop := match r with Some tb => ini ≤ th_len tb | None => ini ≤ 1 end.
  Lemma g_root me b σ x σ' : LI σ → a_root me b σ = Ok x σ' → LI σ' ∧ rootg x.
  Proof.
    intros H. unfold a_root. destruct (root σ) as [t|] eqn:R; [|intros [= <- <-]; split; [done|by apply H]]. intros (tb & Et & E)%wt_ok. injection E as <- <-. split; [done|]. by eapply LI_handle.
  Qed.
  Lemma pg_root {A} {G : gd A} (k : option tref → prog A) : (∀ x, rootg x → pg (k x)) → pg (Act a_root k).
  Proof. intros Hk. exists rootg. split; [apply g_root|done]. Qed.
  Lemma pg_root' : pg (act a_root). Proof. apply pg_root. intros [tb|] H; by apply pg_ret. Qed.
  Lemma g_root_raw : fg a_root_raw. Proof. ff. Qed.
  Lemma g_next tb : fg (a_next tb). Proof. ff. Qed.
  Lemma g_load_meta tb i : fg (a_load_meta tb i). Proof. ff. Qed.
  Lemma g_store_meta tb i m : fg (a_store_meta tb i m). Proof. ff. Qed.
  Lemma g_load_ent tb i : fg (a_load_ent tb i). Proof. ff. Qed.
  Lemma g_store_ent tb i m : fg (a_store_ent tb i m). Proof. ff. Qed.
  Lemma g_fetch tb i : fg (a_fetch_or_copying tb i). Proof. ff. Qed.
  Lemma g_cas w tb i e n : fg (a_cas_ent w tb i e n). Proof. ff. Qed.
  Lemma g_pub w tb i e n : fg (a_cas_pub w tb i e n). Proof. ff. Qed.
  Lemma g_deref p : fg (a_deref p). Proof. ff. Qed.
  Lemma g_load_copied tb : fg (a_load_copied tb). Proof. ff. Qed.
  Lemma g_add_copied tb n : fg (a_add_copied tb n). Proof. ff. Qed.
  Lemma g_load_claim tb : fg (a_load_claim tb). Proof. ff. Qed.
  Lemma g_add_claim tb n : fg (a_add_claim tb n). Proof. ff. Qed.
  Lemma g_load_status tb : fg (a_load_status tb). Proof. ff. Qed.
  Lemma g_store_status tb s : fg (a_store_status tb s). Proof. ff. Qed.
  Lemma g_try_lock tb : fg (a_try_lock tb). Proof. ff. Qed.
  Lemma g_lock tb : fg (a_lock tb). Proof. ff. Qed.
  Lemma g_unlock tb : fg (a_unlock tb). Proof. ff. Qed.
  Lemma g_poison tb : fg (a_poison tb). Proof. ff. Qed.
  Lemma g_shard j : fg (a_load_shard j). Proof. ff. Qed.
  Lemma g_shards : fg a_shards. Proof. ff. Qed.
  Lemma g_count d : fg (a_count d). Proof. ff. Qed.
  Lemma g_retire o : fg (a_retire o). Proof. ff. Qed.
  Lemma g_defer tb p : fg (a_defer tb p). Proof. ff. Qed.
  Lemma g_announce tb d : fg (a_pk_announce tb d). Proof. ff. Qed.
  Lemma g_register tb k : fg (a_pk_register tb k). Proof. ff. Qed.
  Lemma g_remove tb k i : fg (a_pk_remove tb k i). Proof. ff. Qed.
  Lemma g_contains tb k i : fg (a_pk_contains tb k i). Proof. ff. Qed.
  Lemma g_pending tb : fg (a_pk_pending tb). Proof. ff. Qed.
  Lemma g_take tb k : fg (a_pk_take tb k). Proof. ff. Qed.
  Lemma g_park : fg a_park. Proof. ff. Qed.
  Lemma g_unpark j : fg (a_unpark j). Proof. ff. Qed.
  Lemma g_ub {X} {G : gd X} : fg (a_ub (A:=X)). Proof. ff. Qed.
  Lemma g_should tb k : fg (a_should_park tb k). Proof. destruct k; unfold a_should_park; ff. Qed.
  Lemma g_cas_root tb nx : fg (a_cas_root tb nx).
  Proof. ff. destruct H as [A B]. by split. Qed.
  Lemma LI_app (σ : state) l s : LI σ → ini ≤ l → LI (set_tables (λ ts, ts ++ [new_table l s]) σ).
  Proof.
    intros [A B] L. split; [|done]. intros t tb E. cbn in E. apply lookup_app_Some in E as [E|[_ E]]; [by eapply A|]. apply list_lookup_singleton_Some in E as [_ <-]. cbn. by rewrite replicate_length.
  Qed.
  Lemma g_publish tb len : ini ≤ len → fg (a_publish_next tb len).
  Proof.
    intros L me b σ x σ' H E. apply wt_ok in E as (t & Et & E). injection E as <- <-. split.
    - apply LI_app; [|done]. eapply LI_upd; [done|exact Et|done].
    - unfold gdp, gd_tref, th_len, handle, t_len. cbn. rewrite replicate_length. lia.
  Qed.
  Lemma g_init len : ini ≤ len → fg (a_init len).
  Proof.
    intros L me b σ x σ' H E. unfold a_init in E. destruct (root σ) as [t|] eqn:R.
    - apply wt_ok in E as (tb & Et & E). injection E as <- <-. split; [done|]. by eapply LI_handle.
    - injection E as <- <-. split.
      + destruct (LI_app σ len PROMOTED H L) as [A B]. by split.
      + unfold gdp, gd_tref, th_len, handle, t_len. cbn. rewrite replicate_length. lia.
  Qed.
  Hint Resolve g_root_raw g_next g_load_meta g_store_meta g_load_ent g_store_ent g_fetch g_cas g_pub g_deref g_load_copied g_add_copied g_load_claim g_add_claim g_load_status g_store_status
    g_try_lock g_lock g_unlock g_poison g_shard g_shards g_count g_retire g_defer g_announce g_register g_remove g_contains g_pending g_take g_park g_unpark g_should g_cas_root : gfd.
  Ltac gq := repeat lazymatch goal with
    | H : gdp (_, _) |- _ => destruct H; cbn [fst snd] in *
    | H : gdp (Some ?x) |- _ => change (gdp x) in H
    | H : gdp (inl ?x) |- _ => change (gdp x) in H
    | H : gdp (inr ?x) |- _ => change (gdp x) in H
    | H : rootg (Some ?x) |- _ => change (gdp x) in H
    | |- ∀ _, _ => intros ?
    | |- pg (bind (act a_root) _) => apply pg_root; intros [?|] ?
    | |- pg (bind _ _) => apply pg_bind
    | |- pg (act a_root) => apply pg_root'
    | |- pg (act a_ub) => apply pg_act', g_ub
    | |- pg (act _) => apply pg_act'; solve [auto with gfd]
    | |- pg (Act _ _) => apply pg_act; [solve [auto with gfd]|]
    | |- pg (Ret _) => apply pg_ret; solve [gs]
    | |- pg (Fail _) => apply pg_fail
    | |- pg (loop _ _) => apply pg_loop'; [solve [gs]|]
    | |- pg (Loop _ _ _) => apply pg_loop; [solve [gs]| |]
    | |- pg (match ?x with _ => _ end) => destruct x eqn:?
    | |- pg (let '_ := ?x in _) => destruct x eqn:?
    | |- pg _ => first [ solve [match goal with H : context [pg] |- _ => apply H end; gs] | solve [eauto 3 with gpd] | cbv zeta; progress cbv beta | fail ]
    end.
  Lemma q_spin_next n tb : pg (spin_next n tb). Proof. induction n; cbn [spin_next]; gq. Qed.
  Lemma q_sums n j acc : pg (sum_shards n j acc). Proof. revert j acc. induction n; intros j acc; cbn [sum_shards]; gq. Qed.
  Hint Resolve q_spin_next q_sums : gpd.
  Lemma q_len : pg map_len. Proof. unfold map_len. gq. Qed.
  Hint Resolve q_len : gpd.
  Lemma q_park tb k : pg (park tb k). Proof. unfold park. gq. Qed.
  Lemma q_ua l : pg (unpark_all l). Proof. induction l; cbn [unpark_all]; gq. Qed.
  Hint Resolve q_ua q_park : gpd.
  Lemma q_unpark tb k : pg (unpark tb k). Proof. unfold unpark. gq. Qed.
  Hint Resolve q_unpark : gpd.
  Lemma alloc_ge n len : alloc_len n = Some len → n ≤ len ∧ 8 ≤ len.
  Proof. unfold alloc_len. destruct (is_pow2 n); [|done]. intros [= <-]. lia. Qed.
  Definition capok (cap : option nat) : Prop := match cap with Some c => ini ≤ c | None => True end.
  Lemma q_al cap tb : capok cap → gdp tb → pg (alloc_locked cfg cap tb).
  Proof.
    intros Hc Ht. unfold alloc_locked. apply pg_bind; [apply pg_act'; auto with gfd|]. intros [nx|] Hx; [gq|]. apply pg_bind; [apply q_len|]. intros n _. cbv zeta.
    destruct (alloc_len _) as [len|] eqn:E; [|gq]. apply alloc_ge in E as [E _].
    assert (L : ini ≤ len). { etrans; [|exact E]. destruct cap as [c|]; cbn [default]; [exact Hc|]. apply C20_never_below_initial. exact Ht. }
    apply pg_bind; [by apply pg_act', g_publish|]. gq.
  Qed.
  Lemma q_goan cap tb : capok cap → gdp tb → pg (get_or_alloc_next cfg cap tb).
  Proof. intros Hc Ht. pose proof (q_al cap tb Hc Ht) as QA. unfold get_or_alloc_next. gq. Qed.
  Lemma q_goan0 tb : gdp tb → pg (get_or_alloc_next cfg None tb). Proof. by apply q_goan. Qed.
  Hint Resolve q_goan0 : gpd.
  Lemma q_init cap : ini ≤ 1 → pg (init (K:=K) (V:=V) cap).
  Proof. intros Hi. unfold init. destruct (alloc_len _) as [len|] eqn:E; [|apply pg_fail]. apply alloc_ge in E as [_ E]. apply pg_act', g_init. lia. Qed.
  Hint Resolve q_init : gpd.
  Lemma q_promote tb nx n : pg (try_promote tb nx n). Proof. unfold try_promote. gq. Qed.
  Hint Resolve q_promote : gpd.
  Lemma q_icp f tb e k i l : pg (insert_copy_probe cfg f tb e k i l). Proof. revert i l. induction f; intros i l; cbn [insert_copy_probe]; gq. Qed.
  Hint Resolve q_icp : gpd.
  Lemma q_ic e p r tb : gdp tb → pg (insert_copy cfg e p r tb). Proof. intros H. unfold insert_copy. gq. Qed.
  Hint Resolve q_ic : gpd.
  Lemma q_cab i tb nx : gdp nx → pg (copy_at_blocking cfg i tb nx). Proof. intros H. unfold copy_at_blocking. gq. Qed.
  Lemma q_cai i tb nx : gdp nx → pg (copy_at_incremental cfg i tb nx). Proof. intros H. unfold copy_at_incremental. gq. Qed.
  Hint Resolve q_cab q_cai : gpd.
  Lemma q_ccb n i tb nx c : gdp nx → pg (copy_chunk_blocking cfg n i tb nx c). Proof. intros H. revert i c. induction n; intros i c; cbn [copy_chunk_blocking]; gq. Qed.
  Lemma q_cci n i tb nx c : gdp nx → pg (copy_chunk_incremental cfg n i tb nx c). Proof. intros H. revert i c. induction n; intros i c; cbn [copy_chunk_incremental]; gq. Qed.
  Hint Resolve q_ccb q_cci : gpd.
  Lemma q_ss n nx : pg (spin_status n nx). Proof. induction n; cbn [spin_status]; gq. Qed.
  Hint Resolve q_ss : gpd.
  Lemma q_ws nx : pg (wait_status cfg nx). Proof. unfold wait_status. gq. Qed.
  Hint Resolve q_ws : gpd.
  Lemma q_hci ch b : pg (help_copy_incremental cfg ch b). Proof. unfold help_copy_incremental. gq. Qed.
  Lemma q_hcb tb : pg (help_copy_blocking cfg tb). Proof. unfold help_copy_blocking. gq. Qed.
  Hint Resolve q_hci q_hcb : gpd.
  Lemma q_help b tb : pg (help_copy cfg b tb). Proof. unfold help_copy. gq. Qed.
  Hint Resolve q_help : gpd.
  Lemma q_lin tb : gdp tb → pg (linearize cfg tb). Proof. intros H. unfold linearize. gq. Qed.
  Lemma q_spc n i tb : pg (spin_copied n i tb). Proof. induction n; cbn [spin_copied]; gq. Qed.
  Hint Resolve q_lin q_spc : gpd.
  Lemma q_wc i tb : pg (wait_copied cfg i tb). Proof. unfold wait_copied. gq. Qed.
  Lemma q_dr e tb : gdp tb → pg (defer_retire cfg e tb). Proof. intros H. unfold defer_retire. cbv zeta. gq. Qed.
  Lemma q_ia i m kv tb : pg (insert_at cfg i m kv tb). Proof. unfold insert_at. gq. Qed.
  Hint Resolve q_wc q_dr q_ia : gpd.
  Lemma q_ua' i e n tb : gdp tb → pg (update_at cfg i e n tb). Proof. intros H. unfold update_at. gq. Qed.
  Hint Resolve q_ua' : gpd.
  Lemma q_is i e kv tb : gdp tb → pg (insert_slow cfg i e kv tb). Proof. intros H. unfold insert_slow. gq. Qed.
  Lemma q_gp f tb k i l : pg (get_probe cfg f tb k i l). Proof. revert i l. induction f; intros i l; cbn [get_probe]; cbv zeta; gq. Qed.
  Hint Resolve q_is q_gp : gpd.
  Lemma q_get k : pg (get cfg k). Proof. unfold get. gq. Qed.
  Lemma q_pri c h tb : gdp tb → pg (prepare_retry_insert cfg c h tb). Proof. intros H. unfold prepare_retry_insert. gq. Qed.
  Lemma q_ip f r tb kv i l : gdp tb → pg (insert_probe cfg f r tb kv i l). Proof. intros H. revert i l. induction f; intros i l; cbn [insert_probe]; cbv zeta; gq. Qed.
  Hint Resolve q_pri q_ip : gpd.
  Lemma q_ii k v r : pg (insert_inner cfg k v r). Proof. unfold insert_inner. gq. Qed.
  Hint Resolve q_ii : gpd.
  Lemma q_ins k v r : pg (insert cfg k v r). Proof. unfold insert. gq. Qed.
  Lemma q_pr c h tb : gdp tb → pg (prepare_retry cfg c h tb). Proof. intros H. unfold prepare_retry. gq. Qed.
  Lemma q_re pr tb i e : gdp tb → pg (remove_entry cfg pr tb i e). Proof. intros H. unfold remove_entry. gq. Qed.
  Hint Resolve q_ins q_pr q_re : gpd.
  Lemma q_rp f pr tb k i l : gdp tb → pg (remove_probe cfg f pr tb k i l). Proof. intros H. revert i l. induction f; intros i l; cbn [remove_probe]; cbv zeta; gq. Qed.
  Hint Resolve q_rp : gpd.
  Lemma q_rem k pr : pg (remove_if cfg k pr). Proof. unfold remove_if. gq. Qed.
  Lemma q_csn o f cs : pg (cs_next_none (K:=K) (V:=V) o f cs). Proof. unfold cs_next_none. gq. Qed.
  Lemma q_css f cs p : pg (cs_next_some (K:=K) (V:=V) f cs p). Proof. unfold cs_next_some. cbv zeta. gq. Qed.
  Hint Resolve q_rem q_csn q_css : gpd.
  Lemma q_ce o f tb k i cs e : gdp tb → pg (compute_entry cfg o f tb k i cs e). Proof. intros H. unfold compute_entry. cbv zeta. gq. Qed.
  Hint Resolve q_ce : gpd.
  Lemma q_cp fu o f tb k i l cs : gdp tb → pg (compute_probe cfg fu o f tb k i l cs). Proof. intros H. revert i l cs. induction fu; intros i l cs; cbn [compute_probe]; cbv zeta; gq. Qed.
  Hint Resolve q_cp : gpd.
  Lemma q_comp o k f : pg (compute cfg o k f). Proof. unfold compute. cbv zeta. gq. Qed.
  Lemma q_de t tb i e : gdp tb → pg (delete_entry cfg t tb i e). Proof. intros H. unfold delete_entry. gq. Qed.
  Hint Resolve q_comp q_de : gpd.
  Lemma q_sw n i t tb c : gdp tb → pg (sweep cfg n i t tb c). Proof. intros H. revert i c. induction n; intros i c; cbn [sweep]; cbv zeta; gq. Qed.
  Hint Resolve q_sw : gpd.
  Lemma q_cr t : pg (clear_or_retain cfg t). Proof. unfold clear_or_retain. gq. Qed.
  Lemma q_iter : pg (iter cfg). Proof. unfold iter. gq. Qed.
  Lemma q_in f i tb : pg (iter_next f i tb). Proof. revert i. induction f; intros i; cbn [iter_next]; gq. Qed.
  Lemma q_res n : pg (reserve cfg n).
  Proof.
    unfold reserve. apply pg_root. intros r Hr. apply (pg_bind (GA:=gd_tref)).
    { destruct r as [tb|]; [by apply pg_ret|by apply q_init]. }
    intros tb Ht. apply pg_loop'; [done|]. clear tb Ht r Hr. intros tb Ht. apply pg_bind; [apply q_len|]. intros m _. cbv zeta. destruct (_ <=? _) eqn:Le; [gq|]. apply Nat.leb_gt in Le.
    apply pg_bind; [apply q_goan; [|done]|gq]. cbn [capok]. unfold gdp, gd_tref in Ht. lia.
  Qed.
  Hint Resolve q_get q_cr q_iter q_in q_res : gpd.
  Lemma q_op o its : pg (op_prog cfg o its).
  Proof. destruct o; cbn [op_prog]; gq. Qed.

  Definition CI (c : mconf K V) : Prop := LI (mc_st c) ∧ ∀ i id o p its d, mc_thr c !! i = Some (TState (Some (id, o, p)) its d) → pv p (λ _, True).
  Lemma LI_retire_all l : ∀ σ σ' : state, retire_all l σ = Some σ' → LI σ → LI σ'.
  Proof. induction l as [|p l IH]; cbn [retire_all]; intros σ σ' E H; [by injection E as <-|]. destruct (decide _); [done|]. eapply IH; [exact E|]. by eapply LI_tables. Qed.
  Lemma LI_reclaim r rest (σ σ' : state) : reclaim r rest σ = Some σ' → LI σ → LI σ'.
  Proof.
    unfold reclaim. intros E H. destruct (r_obj r) as [p|t].
    - destruct (decide _); [done|]. injection E as <-. by eapply LI_tables.
    - cbn [set_retired tables] in E. destruct (tables σ !! t) as [tb|] eqn:Et; [|done]. destruct (t_freed tb); [done|]. destruct (retire_all _ _) as [σ1|] eqn:R; [|done]. cbn in E. injection E as <-.
      assert (H1 : LI σ1) by (eapply LI_retire_all; [exact R|]; by eapply LI_tables). apply retire_all_same in R as [R1 R2]. cbn in R1.
      eapply (LI_upd t _ tb); [done|by rewrite R1|done].
  Qed.
  Lemma CI_mstep (c c' : mconf K V) ch : CI c → mstep cfg c ch = SStep c' → CI c'.
  Proof.
    intros [H1 H2] E.
    assert (SET : ∀ i ts l σ' h n, LI σ' → l = mc_thr c → (∀ id o p its d, ts = TState (Some (id, o, p)) its d → pv p (λ _, True)) → CI (MConf σ' (set_thr i ts l) h n)).
    { intros i ts l σ' h n L -> T. split; [done|]. cbn [mc_thr]. unfold set_thr. intros j id o p its d [(-> & Ej & _)|(_ & Ej)]%list_lookup_insert_Some; [by eapply T|by eapply H2]. }
    destruct ch as [i|i|i o|i b|j]; cbn [mstep] in E.
    - destruct (mc_thr c !! i) as [[[] its []]|] eqn:Ei; try done. destruct (decide _); [done|]. injection E as <-. split; [|done]. by eapply LI_tables.
    - destruct (mc_thr c !! i) as [[[] its []]|] eqn:Ei; try done. destruct (decide _); [|done]. injection E as <-. apply SET; [by eapply LI_tables|done|done].
    - destruct (mc_thr c !! i) as [[[] its []]|] eqn:Ei; try done. destruct (decide _); [|done]. injection E as <-. apply SET; [done|done|]. intros ? ? ? ? ? [= <- <- <- <- <-]. eapply pv_mono; [|apply q_op]. done.
    - destruct (mc_thr c !! i) as [[[[[id o] p]|] its []]|] eqn:Ei; try done. pose proof (H2 _ _ _ _ _ _ Ei) as D.
      assert (RC : ∀ {T} (q : Prog.prog K V T) fin inj (Q : T → Prop), pv q Q → (∀ q', pv q' Q → pv (inj q') (λ _, True)) → runq c i b id o its q fin inj = SStep c' → CI c').
      { intros T q fin inj Q Dq Hinj X. destruct q as [T a|X' T f k|S' B' T body s k|T why]; cbn [pv] in Dq; cbn [runq] in X.
        - destruct (fin a) as [[[v its'] ev]|]; [|done]. injection X as <-. by apply SET.
        - destruct (f i b (mc_st c)) as [x σ'| |] eqn:Ef; [|done|done]. injection X as <-. destruct Dq as (G & Dq & Dk). destruct (Dq _ _ _ _ _ H1 Ef) as [L' Gx]. apply SET; [done|done|].
          intros ? ? ? ? ? [= <- <- <- <- <-]. by apply Hinj, Dk.
        - destruct Dq as (I & QB & Hi & Hb & Hk). injection X as <-. apply SET; [done|done|]. intros ? ? ? ? ? [= <- <- <- <- <-]. apply Hinj. eapply pv_bind; [by apply Hb|].
          intros [s'|x] Hx; [|by apply Hk]. exists I, QB. by split_and!.
        - injection X as <-. apply SET; [by eapply LI_tables|done|done]. }
      exact (RC _ p _ (λ p, p) _ D (λ _ H, H) E).
    - destruct (retired (mc_st c) !! j) as [r|]; [|done]. destruct (decide _); [|done]. destruct (reclaim _ _ _) as [σ'|] eqn:R; [|done]. injection E as <-. split; [|done]. by eapply LI_reclaim.
  Qed.
End sizes.

(** C20: in every state that any number of threads can reach, every table ever allocated, in particular the current one, has at least as many slots as the capacity
    given at construction. *)
Theorem C20_never_below_capacity {K V : Type} `{EqDecision K} (hash : K → N) (mode : rmode) (cap sa sw sc nsh nthr : nat) (sched : list (choice K V)) (c : mconf K V) :
  exec (mk_config hash mode cap sa sw sc) (init_conf cap nsh nthr) sched = Some c → ∀ t tb, tables (mc_st c) !! t = Some tb → cap ≤ length (t_slots tb).
Proof.
  set (cfg := mk_config hash mode cap sa sw sc).
  assert (G : ∀ s (c0 c : mconf K V), CI cfg c0 → exec cfg c0 s = Some c → CI cfg c).
  { clear c. induction s as [|ch s IH]; intros c0 c H0; cbn [exec]; [by intros [= <-]|]. destruct (mstep cfg c0 ch) as [c1| |] eqn:E; [|by apply IH|done]. apply IH. by eapply CI_mstep. }
  intros E t tb Et. apply G in E.
  - destruct E as [[A _] _]. pose proof (A _ _ Et) as X. unfold cfg in X. cbn in X. destruct (Nat.eqb_spec cap 0); lia.
  - split; [|intros i id o p its d X; apply lookup_replicate in X as [X _]; done]. split; cbn [init_conf init_state mc_st tables root cfg c_initial mk_config]; destruct (Nat.eqb_spec cap 0); [done| |lia|done].
    intros x y Ex. apply list_lookup_singleton_Some in Ex as [_ <-]. cbn. rewrite replicate_length. destruct (C20_entries_for_load cap) as [L _]. lia.
Qed.
