(** In incremental mode, when no call is running, no entry is marked as being copied without having been copied. *)
From Verif Require Export Marks.

Section inc.
  Context {K V : Type} {Keq : EqDecision K} (cfg : config K) (chunk : nat) (HM : c_mode cfg = Incremental chunk).
  Notation msame := (msame cfg). Notation mplain := (mplain cfg).
  Notation prog := (prog K V). Notation action := (action K V). Notation state := (state K V).

  (** What a thread holds: the slots [u..b) of table [t] that it claimed and has not copied; whether it has marked slot [u]. *)
  Definition hI : Type := option (nat * nat * nat * bool).
  Definition rng (h : hI) (t j : nat) : Prop := match h with Some (t', u, b, _) => t = t' ∧ u ≤ j ∧ j < b | None => False end.
  Definition unm (h : hI) (t j : nat) : Prop := match h with Some (t', u, b, m) => t = t' ∧ u ≤ j ∧ j < b ∧ (m = true → j ≠ u) | None => False end.
  Definition mk (h : hI) (t j : nat) : Prop := match h with Some (t', u, _, m) => t = t' ∧ j = u ∧ m = true | None => False end.
  Definition wkI (h h' : hI) : Prop := h' = h ∨ (h' = None ∧ ∀ t j, ¬ mk h t j).
  Definition ownI (h : hI) (σ : state) : Prop := ∀ t j, unm h t j → ¬ marked (wrd σ t j).
  Definition transI (me : nat) (h h' : hI) (σ σ' : state) : Prop :=
    (∀ t, clm σ t ≤ clm σ' t) ∧
    (∀ t j, rng h' t j → rng h t j ∨ (clm σ (S t) ≤ j ∧ j < clm σ' (S t))) ∧
    (∀ t j, unm h' t j → unm h t j ∨ ¬ marked (wrd σ t j)) ∧
    (∀ t j, marked (wrd σ' t j) → marked (wrd σ t j) ∨ (rng h t j ∧ ¬ unm h' t j)) ∧
    (∀ t j, pending (wrd σ' t j) → mk h' t j ∨ (pending (wrd σ t j) ∧ ¬ mk h t j)).
  Definition glI (H : nat → hI) (σ : state) : Prop :=
    (∀ i t j, rng (H i) t j → j < clm σ (S t)) ∧
    (∀ i, ownI (H i) σ) ∧
    (∀ i i' t j, i ≠ i' → rng (H i) t j → ¬ rng (H i') t j) ∧
    (∀ t j, pending (wrd σ t j) → ∃ i, mk (H i) t j).

  Lemma unm_rng h t j : unm h t j → rng h t j. Proof. destruct h as [[[[t' u] b] m]|]; cbn; [|done]. by intros (? & ? & ? & _). Qed.
  Lemma mk_dec h t j : mk h t j ∨ ¬ mk h t j.
  Proof. destruct h as [[[[t' u] b] m]|]; cbn; [|right; by intros []]. destruct (decide (t = t')) as [->|]; [|by right; intros (? & _)]. destruct (decide (j = u)) as [->|]; [|by right; intros (_ & ? & _)]. destruct m; [by left|by right; intros (_ & _ & ?)]. Qed.
  Lemma wkI_refl h : wkI h h. Proof. by left. Qed.
  Lemma wkI_trans h1 h2 h3 : wkI h1 h2 → wkI h2 h3 → wkI h1 h3.
  Proof. intros [->|[-> N]] [->|[-> N']]; [by left|by right|by right|by right]. Qed.
  Lemma trI_wk me h h0 h' σ σ' : wkI h h0 → transI me h0 h' σ σ' → transI me h h' σ σ'.
  Proof.
    intros [->|[-> N]] T; [done|]. destruct T as (A & B & C & D & E). split_and!; [done| | | |].
    - intros t j R. destruct (B t j R); [done|by right].
    - intros t j R. destruct (C t j R); [done|by right].
    - intros t j R. destruct (D t j R) as [|[[] _]]. by left.
    - intros t j R. destruct (E t j R) as [|[? _]]; [by left|right]. split; [done|apply N].
  Qed.
  Lemma ownI_wk h h0 σ : wkI h h0 → ownI h σ → ownI h0 σ.
  Proof. intros [->|[-> N]] T; [done|]. by intros t j []. Qed.
  Lemma trI_plain me h (σ σ' : state) : msame σ σ' → transI me h h σ σ'.
  Proof.
    intros (_ & A & B & _). split_and!; [done|by left|by left| |].
    - intros t j R. destruct (B t j) as [E|N]; [rewrite E in R; by left|done].
    - intros t j R. destruct (B t j) as [E|N]; [rewrite E in R|by destruct R]. destruct (mk_dec h t j); [by left|by right].
  Qed.
  Notation dm := (dm cfg hI wkI ownI transI). Notation dmh := (dmh cfg hI wkI ownI transI).

  Lemma wrd_ge (σ : state) t j : lnc (core_of σ) t ≤ j → wrd σ t j = NULLW.
  Proof. intros L. unfold wrd. by apply en_oob. Qed.
  Lemma clm_fld (σ : state) t : fld 0 (k_cl (core_of σ)) t = clm σ t.
  Proof. unfold fld, clm, core_of. cbn [k_cl]. rewrite list_lookup_fmap. by destruct (tables σ !! t). Qed.
  Lemma J_unclaimed (σ : state) t j : J cfg σ → S t < nt (core_of σ) → clm σ (S t) ≤ j → ¬ marked (wrd σ t j).
  Proof.
    intros [γ I] L C [M1 M2]. apply (Inv_inc cfg _ _ _ HM) in I. destruct (decide (j < lnc (core_of σ) t)) as [Lj|Lj]; [|rewrite wrd_ge in M1 by lia; done].
    rewrite <- clm_fld in C. apply (ii_claim _ _ _ I) in C; [|done|done]. pose proof (ii_phase _ _ _ I t j Lj) as P. unfold phase_ok in P. rewrite C in P. done.
  Qed.
  Lemma J_next (σ : state) tb nx me b σ' : J cfg σ → a_next tb me b σ = Ok (Some nx) σ' → th nx = S (th tb) ∧ S (th tb) < nt (core_of σ).
  Proof.
    intros [γ I] E. apply wt_ok in E as (t & Et & E). destruct (t_next t) as [n|] eqn:En; [|done]. apply wt_ok in E as (t' & Et' & E). injection E as <- _. cbn [handle th].
    pose proof (lookup_lt_Some _ _ _ Et) as L. assert (L' : th tb < nt (core_of σ)) by (unfold nt, core_of; cbn; by rewrite map_length).
    pose proof (i_next _ _ _ I _ L') as N. unfold fld, core_of in N. cbn [k_nx] in N. rewrite list_lookup_fmap, Et in N. cbn in N. rewrite En in N. destruct (decide _); [|done]. by injection N as ->.
  Qed.

  Ltac plain_act := eapply dmh_act; [apply trI_plain|solve [auto using q_root, q_next, q_load_copied, q_add_copied, q_root_raw, q_store_status, q_retire, q_load_claim, q_store_meta]|].
  Notation LD L := (L K V Keq cfg hI wkI ownI transI) (only parsing).
  Lemma dI_bind {A B} (p : prog A) (k : A → prog B) Q R h : dm p R h → (∀ a h', R a h' → dm (k a) Q h') → dm (bind p k) Q h.
  Proof. apply dm_bind; [exact wkI_trans|exact trI_wk|exact ownI_wk]. Qed.
  Lemma dIh_bind {A B} h (p : prog A) (k : A → prog B) : dmh h p → (∀ a, dmh h (k a)) → dmh h (bind p k).
  Proof. apply dmh_bind; [exact wkI_trans|exact trI_wk|exact ownI_wk]. Qed.
  Lemma dI_fr {A B} (p : prog A) (k : A → prog B) Q h : dmh h p → (∀ a, dm (k a) Q h) → dm (bind p k) Q h.
  Proof. intros D Hk. eapply dI_bind; [exact D|]. intros a h' ->. apply Hk. Qed.
  Lemma dI_pl {X A} h (f : action X) (k : X → prog A) Q : mplain f → (∀ x, dm (k x) Q h) → dm (Act f k) Q h.
  Proof. intros P Hk me b σ x σ' _ _ E. exists h. split; [eapply trI_plain, P, E|apply Hk]. Qed.

  Ltac dhyps := first [exact wkI_refl|exact wkI_trans|exact trI_wk|exact ownI_wk|exact trI_plain|exact (None : hI)].
  Lemma trI_root me (σ : state) r : transI me None None σ (set_root r σ).
  Proof. split_and!; [done|by left|by left|by left|]. intros t j R. right. split; [exact R|]. by intros []. Qed.
  Lemma d_promote tb n c : dmh None (try_promote tb n c).
  Proof.
    unfold try_promote. apply dIh_bind.
    { destruct (0 <? c); [apply dIh_bind; [|intros; apply dmh_ret, wkI_refl]|]; apply dmh_act'; auto using wkI_refl, trI_plain, q_add_copied, q_load_copied. }
    intros x. destruct (_ =? _); [|apply dmh_ret, wkI_refl]. cbn [bind act]. apply dI_pl; [apply q_root_raw|]. intros r. destruct (bool_decide _); [|apply dmh_ret, wkI_refl].
    intros me b σ y σ' _ _ E. exists None. split.
    { unfold a_cas_root in E. destruct (decide _); injection E as <- <-; [apply trI_root|apply trI_plain, msame_refl]. }
    destruct y; cbn [bind].
    - apply dI_pl; [apply q_store_status|]. intros []. apply dI_pl; [apply q_retire|]. intros []. apply dIh_bind; [apply d_unpark; dhyps|]. intros _. apply dmh_ret, wkI_refl.
    - apply dIh_bind; [apply d_unpark; dhyps|]. intros _. apply dmh_ret, wkI_refl.
  Qed.

  Lemma d_cai i tb n b : i < b → dm (copy_at_incremental cfg i tb n) (λ _ h, h = Some (th tb, S i, b, false)) (Some (th tb, i, b, false)).
  Proof.
    intros Lb. unfold copy_at_incremental. cbn [bind act]. intros me o σ e σ' Hj Ow E. apply ws_ok' in E as (t & s & Et & Es & E). injection E as <- <-.
    assert (We : wrd σ (th tb) i = s_ent s) by by rewrite wrd_eq, Et, Es.
    assert (Nm : ¬ marked (s_ent s)) by (rewrite <- We; apply Ow; cbn; split_and!; [done|lia|lia|done]).
    destruct (e_ptr (s_ent s)) as [p|] eqn:Ep.
    - exists (Some (th tb, i, b, true)). split.
      { split_and!.
        - intros t'. by rewrite clm_upd_slot.
        - intros t' j R. by left.
        - intros t' j (-> & R1 & R2 & _). left. by split_and!.
        - intros t' j R. rewrite (wrd_upd_slot _ _ _ _ _ s) in R by done. destruct (decide _) as [[-> ->]|N]; [|by left]. right. cbn. split; [split_and!; [done|lia|done]|]. intros (_ & _ & _ & X). by apply X.
        - intros t' j R. rewrite (wrd_upd_slot _ _ _ _ _ s) in R by done. destruct (decide _) as [[-> ->]|N]; [by left|]. right. split; [done|]. cbn. intros (-> & -> & X); by (discriminate X || (apply N; done)). }
      rewrite bool_decide_false by (intros X; rewrite X in Ep; done).
      assert (Nc : e_copying (s_ent s) = false) by (destruct (e_copying (s_ent s)) eqn:X; [|done]; destruct Nm; split; [done|by rewrite Ep]).
      apply dI_fr; [apply d_ic; try dhyps; rewrite Nc; by intros [? _]|]. intros []; [|done]. cbn [bind].
      intros me' o' σ1 x σ1' Hj1 Ow1 E1. apply ws_ok' in E1 as (t1 & s1 & Et1 & Es1 & E1). injection E1 as <- <-. exists (Some (th tb, S i, b, false)). split.
      { split_and!.
        - intros t'. by rewrite clm_upd_slot.
        - intros t' j (-> & R1 & R2). left. cbn. split_and!; [done|lia|done].
        - intros t' j (-> & R1 & R2 & _). left. cbn. split_and!; [done|lia|done|lia].
        - intros t' j R. rewrite (wrd_upd_slot _ _ _ _ _ s1) in R by done. destruct (decide _) as [[-> ->]|N]; [|by left]. right. cbn. split; [split_and!; [done|lia|done]|]. intros (_ & X & _). lia.
        - intros t' j R. rewrite (wrd_upd_slot _ _ _ _ _ s1) in R by done. destruct (decide _) as [[-> ->]|N]; [by destruct R|]. right. split; [done|]. cbn. intros (-> & -> & X); by (discriminate X || (apply N; done)). }
      apply d_unpark; dhyps.
    - exists (Some (th tb, S i, b, false)). split.
      { split_and!.
        - intros t'. by rewrite clm_upd_slot.
        - intros t' j (-> & R1 & R2). left. cbn. split_and!; [done|lia|done].
        - intros t' j (-> & R1 & R2 & _). left. cbn. split_and!; [done|lia|done|done].
        - intros t' j R. rewrite (wrd_upd_slot _ _ _ _ _ s) in R by done. destruct (decide _) as [[-> ->]|N]; [|by left]. destruct R as [_ R]. cbn in R. rewrite Ep in R. by destruct R.
        - intros t' j R. rewrite (wrd_upd_slot _ _ _ _ _ s) in R by done. destruct (decide _) as [[-> ->]|N]; [destruct R as [[_ R] _]; cbn in R; rewrite Ep in R; by destruct R|]. right. split; [done|]. cbn. intros (-> & -> & X); by (discriminate X || (apply N; done)). }
      destruct (bool_decide _); [by apply dmh_ret, wkI_refl|]. apply dmh_act'; [dhyps|dhyps|apply q_store_meta].
  Qed.
  Lemma d_cci n i tb nx c : dm (copy_chunk_incremental cfg n i tb nx c) (λ _ h, h = None) (Some (th tb, i, i + n, false)).
  Proof.
    revert i c. induction n as [|n IH]; intros i c; cbn [copy_chunk_incremental].
    - exists None. split; [|done]. right. split; [done|]. cbn. intros t j (_ & _ & X). discriminate X.
    - destruct (_ <=? _).
      + exists None. split; [|done]. right. split; [done|]. cbn. intros t j (_ & _ & X). discriminate X.
      + eapply dI_bind; [apply d_cai; lia|]. intros a h' ->. replace (i + S n) with (S i + n) by lia. apply IH.
  Qed.
  Lemma d_hci b : dmh None (help_copy_incremental cfg chunk b).
  Proof.
    unfold help_copy_incremental. cbn [bind act]. apply dI_pl; [apply q_root|]. intros [tb|]; [|done]. cbn [bind].
    intros me o σ nx σ' Hj Ow E. exists None. split; [eapply trI_plain, q_next, E|]. destruct nx as [nx|]; [|apply dmh_ret; dhyps].
    destruct (J_next _ _ _ _ _ _ Hj E) as [Nx Ln]. clear E Hj Ow.
    apply dmh_loop; [dhyps| |intros; apply dmh_ret; dhyps]. intros _. apply dIh_bind; [apply d_promote|]. intros []; [apply dmh_ret; dhyps|].
    apply dIh_bind.
    - apply dmh_loop; [dhyps| |intros; apply dmh_ret; dhyps]. intros _. cbn [bind act]. apply dI_pl; [apply q_load_claim|]. intros c. destruct (_ <=? _); [apply dmh_ret; dhyps|].
      cbn [bind]. intros me1 o1 σ1 s σ1' Hj1 Ow1 E1. apply wt_ok in E1 as (t & Et & E1). injection E1 as <- <-. rewrite Nx in *.
      assert (Ln1 : S (th tb) < nt (core_of σ1)) by (apply lookup_lt_Some in Et; unfold nt, core_of; cbn; by rewrite map_length).
      assert (Cl : clm σ1 (S (th tb)) = t_claim t) by (unfold clm; by rewrite Et).
      assert (Cl' : clm (upd_table (S (th tb)) (t_set_claim (t_claim t + chunk) t) σ1) (S (th tb)) = t_claim t + chunk).
      { unfold clm. rewrite upd_lookup, decide_True; [done|]. split; [done|]. by eapply lookup_lt_Some. }
      assert (Ms : msame σ1 (upd_table (S (th tb)) (t_set_claim (t_claim t + chunk) t) σ1)) by (eapply msame_upd; [done|cbn; lia|done|by left]).
      exists (Some (th tb, t_claim t, t_claim t + chunk, false)). split.
      { destruct (trI_plain me1 None _ _ Ms) as (A & _ & _ & D & F). split_and!; [done| | | |].
        - intros t' j (-> & R1 & R2). right. rewrite Cl, Cl'. lia.
        - intros t' j (-> & R1 & R2 & _). right. apply J_unclaimed; [done|done|lia].
        - intros t' j R. destruct (D t' j R) as [X|[X _]]; [by left|destruct X].
        - intros t' j R. destruct (F t' j R) as [X|[X _]]; [destruct X|]. right. split; [done|]. by intros []. }
      eapply dI_bind; [apply d_cci|]. intros a h' ->. apply dIh_bind; [apply d_promote|]. intros []; cbn [orb]; [apply dmh_ret; dhyps|]. destruct (negb b); apply dmh_ret; dhyps.
    - intros x. destruct (_ || _); [apply dmh_ret; dhyps|]. apply dIh_bind; [apply d_ws; dhyps|]. intros s. destruct (bool_decide _); apply dmh_ret; dhyps.
  Qed.
  Lemma d_hc_inc b tb : dmh None (help_copy cfg b tb).
  Proof.
    unfold help_copy. rewrite HM. apply dIh_bind; [apply d_hci|]. intros x. destruct (negb b); [|apply dmh_ret; dhyps]. cbn [bind act]. apply dI_pl; [apply q_next|].
    intros [y|]; [apply dmh_ret; dhyps|done].
  Qed.
  Lemma d_init_inc cp : dmh None (init cp).
  Proof.
    unfold init. destruct (alloc_len _) as [len|]; [|done]. cbn [act]. intros me b σ x σ' Hj Ow E. exists None. split; [|apply dmh_ret; dhyps]. unfold a_init in E.
    destruct (root σ) as [r|]; [apply wt_ok in E as (? & _ & E); injection E as <- <-; apply trI_plain, msame_refl|]. cbn zeta in E. injection E as <- <-.
    exact (trI_plain me None _ _ (msame_push cfg σ len PROMOTED)).
  Qed.
  Lemma op_dm_inc o its : dmh None (op_prog cfg o its).
  Proof. apply d_op; try dhyps; [apply d_hc_inc|apply d_init_inc]. Qed.

  Lemma gl_tr_inc H (σ : state) i h' σ' : glI H σ → transI i (H i) h' σ σ' → glI (hset hI H i h') σ'.
  Proof.
    intros (A & B & C & D) (T1 & T2 & T3 & T4 & T5). unfold hset. split_and!.
    - intros i' t j. destruct (decide (i' = i)) as [->|N]; intros R.
      + destruct (T2 t j R) as [R'|[_ R']]; [|done]. pose proof (A _ _ _ R'). pose proof (T1 (S t)). lia.
      + pose proof (A _ _ _ R). pose proof (T1 (S t)). lia.
    - intros i' t j. destruct (decide (i' = i)) as [->|N]; intros R M.
      + destruct (T4 t j M) as [M'|[_ M']]; [|done]. destruct (T3 t j R) as [R'|R']; [|done]. by apply (B i t j R').
      + destruct (T4 t j M) as [M'|[M' _]]; [by apply (B i' t j R)|]. apply (C i' i t j N); [by apply unm_rng|done].
    - intros i1 i2 t j N. destruct (decide (i1 = i)) as [->|N1], (decide (i2 = i)) as [->|N2]; [done| | |by apply C].
      + intros R R2. destruct (T2 t j R) as [R'|[R' _]]; [by apply (C i i2 t j)|]. pose proof (A _ _ _ R2). lia.
      + intros R2 R. destruct (T2 t j R) as [R'|[R' _]]; [by apply (C i1 i t j)|]. pose proof (A _ _ _ R2). lia.
    - intros t j P. destruct (T5 t j P) as [M|[P' Nm]]; [exists i; by rewrite decide_True|]. destruct (D t j P') as [i' M]. exists i'. rewrite decide_False; [done|]. by intros ->.
  Qed.
  Lemma gl_plain_inc H (σ σ' : state) : glI H σ → msame σ σ' → glI H σ'.
  Proof.
    intros G M. pose proof (gl_tr_inc H σ 0 (H 0) σ' G (trI_plain 0 (H 0) _ _ M)) as G'. unfold hset in G'.
    assert (X : ∀ j, (if decide (j = 0) then H 0 else H j) = H j) by (intros j; destruct (decide (j = 0)) as [->|]; done).
    destruct G' as (A & B & C & D). split_and!.
    - intros i. specialize (A i). by rewrite X in A.
    - intros i. specialize (B i). by rewrite X in B.
    - intros i i'. specialize (C i i'). by rewrite !X in C.
    - intros t j P. destruct (D t j P) as [i R]. exists i. by rewrite X in R.
  Qed.
  Lemma gl_wk_inc H (σ : state) i h' : glI H σ → wkI (H i) h' → glI (hset hI H i h') σ.
  Proof. intros G W. apply (gl_tr_inc H σ i h' σ G). eapply trI_wk; [exact W|]. apply trI_plain, msame_refl. Qed.

  Context (nthr nsh cap : nat) (HS : 0 < nsh).
  Lemma gl_init_inc : glI (λ _, None) (init_state cap nsh).
  Proof.
    split_and!; [by intros i t j []|by intros i t j []|by intros i i' t j _ []|]. intros t j [[_ [p M]] _]. exfalso. rewrite wrd_eq in M. unfold init_state in M. cbn [tables] in M.
    destruct (cap =? 0); [done|]. destruct t as [|[|t]]; [|done|done]. cbn in M. destruct (replicate _ slot0 !! j) as [s|] eqn:Es; [|done]. apply lookup_replicate in Es as [-> _]. done.
  Qed.
  (** If no call is running and no thread has panicked, every entry marked as being copied has been copied. *)
  Theorem idle_no_pending sched (c : mconf K V) : exec cfg (init_conf cap nsh nthr) sched = Some c → (∀ i ts, mc_thr c !! i = Some ts → ts_run ts = None ∧ ts_dead ts = false) →
    ∀ t j, ¬ pending (wrd (mc_st c) t j).
  Proof.
    intros E Hq t j P. destruct (reach_gl cfg hI None wkI ownI transI wkI_refl wkI_trans trI_wk ownI_wk trI_plain glI) with (nthr:=nthr) (nsh:=nsh) (cap:=cap) (sched:=sched) (c:=c) as (H & G & N); auto.
    - intros H σ i (_ & B & _). apply B.
    - intros H σ i h' σ' _. apply gl_tr_inc.
    - apply gl_wk_inc.
    - apply gl_plain_inc.
    - apply op_dm_inc.
    - apply gl_init_inc.
    - destruct G as (_ & _ & _ & D). destruct (D t j P) as [i M]. by rewrite N in M.
  Qed.
End inc.
