(** In blocking mode, when no call is running, no entry of the root table is marked as being copied. *)
From Verif Require Export Marks2.

Section blk.
  Context {K V : Type} {Keq : EqDecision K} (cfg : config K) (HM : c_mode cfg = Blocking).
  Notation msame := (msame cfg). Notation mplain := (mplain cfg).
  Notation prog := (prog K V). Notation action := (action K V). Notation state := (state K V).

  (** What a thread holds: the table it may have marked entries of. *)
  Definition hB : Type := option nat.
  Definition wkB (h h' : hB) : Prop := h' = h ∨ h = None.
  Definition ownB (h : hB) (σ : state) : Prop := True.
  Definition rmk (σ : state) (r : nat) : Prop := root σ = Some r ∧ ∃ j, marked (wrd σ r j).
  Definition transB (me : nat) (h h' : hB) (σ σ' : state) : Prop := ∀ r, rmk σ' r → h' = Some r ∨ (rmk σ r ∧ h ≠ Some r).
  Definition glB (H : nat → hB) (σ : state) : Prop := ∀ r, rmk σ r → ∃ i, H i = Some r.

  Lemma wkB_refl h : wkB h h. Proof. by left. Qed.
  Lemma wkB_trans h1 h2 h3 : wkB h1 h2 → wkB h2 h3 → wkB h1 h3.
  Proof. intros [->| ->] [->| ->]; [by left|by right|by right|by right]. Qed.
  Lemma trB_wk me h h0 h' σ σ' : wkB h h0 → transB me h0 h' σ σ' → transB me h h' σ σ'.
  Proof. intros [->| ->] T; [done|]. intros r R. destruct (T r R) as [|[? _]]; [by left|right]. by split. Qed.
  Lemma ownB_wk h h0 σ : wkB h h0 → ownB h σ → ownB h0 σ. Proof. done. Qed.
  Lemma rmk_plain (σ σ' : state) r : msame σ σ' → rmk σ' r → rmk σ r.
  Proof. intros (A & _ & B & _) [R [j M]]. split; [congruence|]. exists j. destruct (B r j) as [E|N]; [by rewrite <- E|done]. Qed.
  Lemma trB_plain me h (σ σ' : state) : msame σ σ' → transB me h h σ σ'.
  Proof. intros M r R. destruct (decide (h = Some r)); [by left|right]. split; [by eapply rmk_plain|done]. Qed.
  Notation dm := (dm cfg hB wkB ownB transB). Notation dmh := (dmh cfg hB wkB ownB transB).
  Ltac dhyps := first [exact wkB_refl|exact wkB_trans|exact trB_wk|exact ownB_wk|exact trB_plain|exact (None : hB)].

  Lemma dB_bind {A B} (p : prog A) (k : A → prog B) Q R h : dm p R h → (∀ a h', R a h' → dm (k a) Q h') → dm (bind p k) Q h.
  Proof. apply dm_bind; [exact wkB_trans|exact trB_wk|exact ownB_wk]. Qed.
  Lemma dBh_bind {A B} h (p : prog A) (k : A → prog B) : dmh h p → (∀ a, dmh h (k a)) → dmh h (bind p k).
  Proof. apply dmh_bind; [exact wkB_trans|exact trB_wk|exact ownB_wk]. Qed.
  Lemma dB_fr {A B} (p : prog A) (k : A → prog B) Q h : dmh h p → (∀ a, dm (k a) Q h) → dm (bind p k) Q h.
  Proof. intros D Hk. eapply dB_bind; [exact D|]. intros a h' ->. apply Hk. Qed.
  Lemma dB_pl {X A} h (f : action X) (k : X → prog A) Q : mplain f → (∀ x, dm (k x) Q h) → dm (Act f k) Q h.
  Proof. intros P Hk me b σ x σ' _ _ E. exists h. split; [eapply trB_plain, P, E|apply Hk]. Qed.
  Lemma dB_ret {A} (a : A) (Q : A → hB → Prop) h : Q a h → dm (Ret a) Q h.
  Proof. intros H. exists h. by split; [left|]. Qed.

  Lemma rt_some (σ : state) r : root σ = Some r → rt (core_of σ) = r.
  Proof. unfold rt, core_of. cbn. by intros ->. Qed.
  Lemma J_high (σ : state) t j : J cfg σ → rt (core_of σ) < t → ¬ marked (wrd σ t j).
  Proof. intros [γ I] L [M _]. apply (Inv_blk cfg _ _ HM) in I. by apply (b_high _ _ _ I t j). Qed.

  (** The copying thread of table [tb]; what it holds is given up when it has made sure that [tb] is no longer the root. *)
  Lemma tryp tb n c : th tb < th n → dm (try_promote tb n c) (λ b h, h = if b : bool then None else Some (th tb)) (Some (th tb)).
  Proof.
    intros Ln. unfold try_promote. apply dB_fr.
    { destruct (0 <? c); [apply dBh_bind; [|intros; apply dmh_ret; dhyps]|]; apply dmh_act'; try dhyps; auto using q_add_copied, q_load_copied. }
    intros x. destruct (_ =? _); [|by apply dB_ret]. cbn [bind act]. apply dB_pl; [apply q_root_raw|]. intros r. destruct (bool_decide _); [|by apply dB_ret].
    intros me b σ y σ' Hj _ E. exists None. split.
    { unfold a_cas_root in E. destruct (decide _) as [R|R]; injection E as <- <-.
      - intros r' [R1 [j M]]. exfalso. cbn in R1. injection R1 as <-. rewrite (wrd_tables σ) in M by done. eapply J_high; [exact Hj| |exact M]. by rewrite (rt_some _ _ R).
      - intros r' R'. right. split; [done|]. intros [= X]. destruct R' as [R' _]. congruence. }
    destruct y; cbn [bind].
    - apply dB_pl; [apply q_store_status|]. intros []. apply dB_pl; [apply q_retire|]. intros []. apply dB_fr; [apply d_unpark; dhyps|]. intros _. by apply dB_ret.
    - apply dB_fr; [apply d_unpark; dhyps|]. intros _. by apply dB_ret.
  Qed.
  Lemma ld_status {A} tb n (k : status → prog A) Q : th tb < th n → (∀ s, dm (k s) Q (if decide (s = PROMOTED) then None else Some (th tb))) → dm (Act (a_load_status n) k) Q (Some (th tb)).
  Proof.
    intros Ln Hk me b σ s σ' Hj _ E. exists (if decide (s = PROMOTED) then None else Some (th tb)). split; [|apply Hk].
    apply wt_ok in E as (t & Et & E). injection E as <- <-. destruct (decide _) as [P|P]; [|apply trB_plain, msame_refl].
    intros r R. right. split; [done|]. intros [= X0]. destruct R as [R _]. destruct Hj as [γ I]. apply (Inv_blk cfg _ _ HM) in I.
    assert (X : th n ≤ rt (core_of σ)). { apply (b_status _ _ _ I). unfold fld, core_of. cbn [k_st]. rewrite list_lookup_fmap, Et. cbn. done. }
    rewrite (rt_some _ _ R) in X. lia.
  Qed.
  Lemma spins tb n m : th tb < th n → dm (spin_status m n) (λ o h, h = if decide (o = Some PROMOTED) then None else Some (th tb)) (Some (th tb)).
  Proof.
    intros Ln. induction m as [|m IH]; cbn [spin_status]; [by apply dB_ret|]. cbn [bind act]. apply ld_status; [done|]. intros s.
    destruct s; [apply IH|apply dB_ret; done|by apply dB_ret].
  Qed.
  Lemma waits tb n : th tb < th n → dm (wait_status cfg n) (λ s h, h = if decide (s = PROMOTED) then None else Some (th tb)) (Some (th tb)).
  Proof.
    intros Ln. unfold wait_status, loop. exists (λ _ h, h = Some (th tb)), (λ s h, h = if decide (s = PROMOTED) then None else Some (th tb)), (Some (th tb)). split_and!; [by left|done| |].
    - intros m h ->. eapply dB_bind; [by apply spins|]. intros [s|] h' ->.
      + apply dB_ret. destruct s; done.
      + cbn [bind act]. rewrite decide_False by done. apply ld_status; [done|]. intros s. destruct s; [|by apply dB_ret|by apply dB_ret].
        rewrite bool_decide_true by done. cbn [decide]. apply dB_fr; [apply d_park; dhyps|]. intros _. by apply dB_ret.
    - intros s h ->. by apply dB_ret.
  Qed.
  (** The next table comes after the table. *)
  Lemma nexts {A} tb (k : option tref → prog A) Q h : (∀ n, th tb < th n → dm (k (Some n)) Q h) → dm (k None) Q h → dm (Act (a_next tb) k) Q h.
  Proof.
    intros H1 H2 me b σ x σ' Hj _ E. exists h. split; [eapply trB_plain, q_next, E|]. destruct x as [n|]; [|done]. apply H1. destruct (J_next _ _ _ _ _ _ _ Hj E). lia.
  Qed.
  Lemma spinn m tb h : dm (spin_next m tb) (λ o h', h' = h ∧ ∀ n, o = Some n → th tb < th n) h.
  Proof.
    induction m as [|m IH]; cbn [spin_next]; [by apply dB_ret|]. cbn [bind act]. apply nexts; [|done]. intros n L. apply dB_ret. split; [done|]. by intros n' [= <-].
  Qed.
  Lemma allocs cp tb h : dm (alloc_locked cfg cp tb) (λ n h', h' = h ∧ th tb < th n) h.
  Proof.
    unfold alloc_locked. cbn [bind act]. apply nexts; [intros n L; cbn [bind act]; apply dB_pl; [apply q_unlock|]; intros []; by apply dB_ret|].
    apply dB_fr; [apply d_len; dhyps|]. intros a. destruct (alloc_len _) as [len|]; cbn [bind act]; [|apply dB_pl; [apply q_poison|]; done].
    intros me b σ x σ' Hj _ E. exists h. split; [eapply trB_plain, q_publish, E|]. apply wt_ok in E as (t & Et & E). cbn zeta in E. injection E as <- _.
    apply dB_pl; [apply q_unlock|]. intros []. apply dB_ret. split; [done|]. cbn. by eapply lookup_lt_Some.
  Qed.
  Lemma goans cp tb h : dm (get_or_alloc_next cfg cp tb) (λ n h', h' = h ∧ th tb < th n) h.
  Proof.
    unfold get_or_alloc_next. cbn [bind act]. apply nexts; [intros n L; by apply dB_ret|]. cbn [bind act]. apply dB_pl; [apply q_try_lock|]. intros []; [apply allocs|].
    eapply dB_bind; [apply spinn|]. intros [n|] h' [-> L]; [apply dB_ret; by auto|]. cbn [bind act]. apply dB_pl; [apply q_lock|]. intros []; [apply allocs|done].
  Qed.
  Lemma cab i tb n : dmh (Some (th tb)) (copy_at_blocking cfg i tb n).
  Proof.
    unfold copy_at_blocking. cbn [bind act]. intros me o σ e σ' Hj _ E. exists (Some (th tb)). split.
    - apply ws_ok' in E as (t & s & Et & Es & E). injection E as <- <-. intros r [R1 [j M]]. destruct (decide (r = th tb)) as [->|N]; [by left|right]. split; [|congruence].
      split; [done|]. exists j. rewrite (wrd_upd_slot _ _ _ _ _ s) in M by done. by rewrite decide_False in M by (by intros [? _]).
    - destruct (bool_decide _); [apply dmh_ret; dhyps|]. destruct (e_ptr e); [apply d_ic; try dhyps; by intros [? _]|]. cbn [bind act]. apply dB_pl; [apply q_store_meta|]. intros []. by apply dB_ret.
  Qed.
  Lemma ccb m i tb n c : dmh (Some (th tb)) (copy_chunk_blocking cfg m i tb n c).
  Proof.
    revert i c. induction m as [|m IH]; intros i c; cbn [copy_chunk_blocking]; [apply dmh_ret; dhyps|]. destruct (_ <=? _); [apply dmh_ret; dhyps|].
    apply dBh_bind; [apply cab|]. intros []; [apply IH|apply dmh_ret; dhyps].
  Qed.
  Lemma hcb tb : dmh None (help_copy_blocking cfg tb).
  Proof.
    unfold help_copy_blocking. cbn [bind act]. apply nexts; [|done]. intros n0 L0.
    exists (λ n h, h = Some (th tb) ∧ th tb < th n), (λ _ h, h = None), (Some (th tb)). split_and!; [by right|done|done| |intros b h ->; by apply dB_ret].
    intros n h [-> L].
    eapply (dB_bind _ _ _ (λ n h, h = Some (th tb) ∧ th tb < th n)).
    { exists (λ n h, h = Some (th tb) ∧ th tb < th n), (λ n h, h = Some (th tb) ∧ th tb < th n), (Some (th tb)). split_and!; [by left|done|done| |].
      - intros m h [-> Lm]. cbn [bind act]. apply dB_pl; [apply q_load_status|]. intros s. destruct (bool_decide _); [|by apply dB_ret].
        eapply dB_bind; [apply goans|]. intros m' h [-> Lm']. apply dB_ret. split; [done|lia].
      - intros b h [-> Lb]. by apply dB_ret. }
    clear n L. intros n h [-> L]. eapply dB_bind; [by apply tryp|]. intros [] h ->; [by apply dB_ret|].
    eapply (dB_bind _ _ _ (λ r h, match r with Some (inr _) => h = None | Some (inl n) => h = Some (th tb) ∧ th tb < th n | None => h = Some (th tb) end)).
    { exists (λ _ h, h = Some (th tb)), (λ r h, match r with Some (inr _) => h = None | Some (inl n) => h = Some (th tb) ∧ th tb < th n | None => h = Some (th tb) end), (Some (th tb)).
      split_and!; [by left|done| |intros b h Hb; by apply dB_ret].
      intros _ h ->. cbn [bind act]. apply dB_pl; [apply q_load_claim|]. intros c. destruct (_ <=? _); [by apply dB_ret|]. cbn [bind act]. apply dB_pl; [apply q_add_claim|]. intros s.
      apply dB_fr; [apply ccb|]. intros [cp|].
      - eapply dB_bind; [by apply tryp|]. intros [] h ->; [by apply dB_ret|]. cbn [bind act]. apply dB_pl; [apply q_load_status|]. intros x. destruct (bool_decide _); by apply dB_ret.
      - cbn [bind act]. apply dB_pl; [apply q_store_status|]. intros []. eapply dB_bind; [apply goans|]. intros m h [-> Lm]. apply dB_fr; [apply d_unpark; dhyps|]. intros _. apply dB_ret. split; [done|lia]. }
    intros [[m|m]|] h Hh.
    - by apply dB_ret.
    - by apply dB_ret.
    - subst h. eapply dB_bind; [by apply waits|]. intros s h ->. destruct s; rewrite ?decide_False, ?decide_True by done; by apply dB_ret.
  Qed.
  Lemma d_hc_blk b tb : dmh None (help_copy cfg b tb).
  Proof. unfold help_copy. rewrite HM. apply hcb. Qed.
  Lemma d_init_blk cp : dmh None (init cp).
  Proof.
    unfold init. destruct (alloc_len _) as [len|]; [|done]. cbn [act]. intros me b σ x σ' Hj Ow E. exists None. split; [|apply dmh_ret; dhyps]. unfold a_init in E.
    destruct (root σ) as [r|] eqn:R; [apply wt_ok in E as (? & _ & E); injection E as <- <-; apply trB_plain, msame_refl|]. cbn zeta in E. injection E as <- <-.
    intros r [Er [j M]]. exfalso. cbn in Er. injection Er as <-. destruct (msame_push cfg σ len PROMOTED) as (_ & _ & X & _). destruct (X (length (tables σ)) j) as [E|N]; [|by destruct N].
    rewrite (wrd_tables (set_tables (λ l, l ++ [new_table len PROMOTED]) σ)) in M by done. rewrite E, wrd_eq in M. rewrite lookup_ge_None_2 in M by done. by destruct M as [? _].
  Qed.
  Lemma op_dm_blk o its : dmh None (op_prog cfg o its).
  Proof. apply d_op; try dhyps; [apply d_hc_blk|apply d_init_blk]. Qed.

  Lemma gl_tr_blk H (σ : state) i h' σ' : glB H σ → transB i (H i) h' σ σ' → glB (hset hB H i h') σ'.
  Proof.
    intros G T r R. unfold hset. destruct (T r R) as [->|[R' N]]; [exists i; by rewrite decide_True|]. destruct (G r R') as [i' E]. exists i'. rewrite decide_False; [done|]. by intros ->.
  Qed.
  Context (nthr nsh cap : nat) (HS : 0 < nsh).
  Lemma wrd_init (t j : nat) : ¬ marked (wrd (init_state (K:=K) (V:=V) cap nsh) t j).
  Proof.
    intros [_ [p M]]. rewrite wrd_eq in M. unfold init_state in M. cbn [tables] in M.
    destruct (cap =? 0); [done|]. destruct t as [|[|t]]; [|done|done]. cbn in M. destruct (replicate _ slot0 !! j) as [s|] eqn:Es; [|done]. apply lookup_replicate in Es as [-> _]. done.
  Qed.
  (** If no call is running and no thread has panicked, no entry of the root table is marked as being copied. *)
  Theorem idle_no_marked sched (c : mconf K V) : exec cfg (init_conf cap nsh nthr) sched = Some c → (∀ i ts, mc_thr c !! i = Some ts → ts_run ts = None ∧ ts_dead ts = false) →
    ∀ r j, root (mc_st c) = Some r → ¬ marked (wrd (mc_st c) r j).
  Proof.
    intros E Hq r j R M. destruct (reach_gl cfg hB None wkB ownB transB wkB_refl wkB_trans trB_wk ownB_wk trB_plain glB) with (nthr:=nthr) (nsh:=nsh) (cap:=cap) (sched:=sched) (c:=c) as (H & G & N); auto.
    - done.
    - intros H σ i h' σ' _. apply gl_tr_blk.
    - intros H σ i h' G W. apply (gl_tr_blk H σ i h' σ G). eapply trB_wk; [exact W|]. apply trB_plain, msame_refl.
    - intros H σ σ' G S r' R'. apply G. by eapply rmk_plain.
    - apply op_dm_blk.
    - intros r' [_ [j' M']]. by apply wrd_init in M'.
    - destruct (G r) as [i E']; [split; [done|by exists j]|]. by rewrite N in E'.
  Qed.
End blk.
