(** Threads between calls have no copy in progress: every entry marked as being copied is being taken care of by a running
    call. Needed for C16: what is dropped with the map. A small program logic with one piece of auxiliary state per thread. *)
From Verif Require Export Main1 Guards Locks.

Section logic.
  Context {K V : Type} {Keq : EqDecision K} (cfg : config K).
  Notation prog := (prog K V). Notation action := (action K V). Notation state := (state K V).

  (** The entry word of a slot; the claim counter of a table. *)
  Definition wrd (σ : state) (t j : nat) : eword := en (k_sl (core_of σ)) t j.
  Definition clm (σ : state) (t : nat) : nat := match tables σ !! t with Some tb => t_claim tb | None => 0 end.
  Definition marked (e : eword) : Prop := e_copying e = true ∧ is_Some (e_ptr e).
  Definition pending (e : eword) : Prop := marked e ∧ e_copied e = false.
  Definition J (σ : state) : Prop := ∃ γ, Inv cfg (core_of σ) γ.

  (** No retirement is deferred to a table. *)
  Definition def0 (σ : state) : Prop := ∀ t tb, tables σ !! t = Some tb → t_deferred tb = [].

  (** No entry word becomes marked; claim counters do not decrease; in blocking mode, no retirement is deferred. *)
  Definition msame (σ σ' : state) : Prop :=
    root σ' = root σ ∧ (∀ t, clm σ t ≤ clm σ' t) ∧
    (∀ t j, wrd σ' t j = wrd σ t j ∨ ¬ marked (wrd σ' t j)) ∧
    (c_mode cfg = Blocking → def0 σ → def0 σ').

  Context (held : Type) (none : held) (wk : held → held → Prop) (own : held → state → Prop) (trans : nat → held → held → state → state → Prop).
  Context (wk_refl : ∀ h, wk h h) (wk_trans : ∀ h1 h2 h3, wk h1 h2 → wk h2 h3 → wk h1 h3).
  Context (tr_wk : ∀ me h h0 h' σ σ', wk h h0 → trans me h0 h' σ σ' → trans me h h' σ σ').
  Context (own_wk : ∀ h h0 σ, wk h h0 → own h σ → own h0 σ).
  Context (tr_plain : ∀ me h σ σ', msame σ σ' → trans me h h σ σ').

  Fixpoint dm {A} (p : prog A) : (A → held → Prop) → held → Prop :=
    match p in Prog.prog _ _ A return (A → held → Prop) → held → Prop with
    | Ret a => λ Q h, ∃ h', wk h h' ∧ Q a h'
    | Fail _ => λ Q h, True
    | Act f k => λ Q h, ∀ me b σ x σ', J σ → own h σ → f me b σ = Ok x σ' → ∃ h', trans me h h' σ σ' ∧ dm (k x) Q h'
    | @Loop _ _ X B _ body s k => λ Q h, ∃ (I : X → held → Prop) (QB : B → held → Prop) h', wk h h' ∧ I s h' ∧
        (∀ s h, I s h → dm (body s) (λ r h', match r with inl s' => I s' h' | inr b => QB b h' end) h) ∧
        ∀ b h', QB b h' → dm (k b) Q h'
    end.
  Lemma dm_wk {A} (p : prog A) Q h h0 : wk h h0 → dm p Q h0 → dm p Q h.
  Proof using wk_trans tr_wk own_wk.
    destruct p as [A a|X A f k|S' X A body s k|A r]; cbn [dm]; intros W.
    - intros (h' & W' & H). exists h'. split; [by eapply wk_trans|done].
    - intros H me b σ x σ' Hj Ho E. destruct (H me b σ x σ' Hj) as (h' & T & D); [by eapply own_wk|done|]. exists h'. split; [by eapply tr_wk|done].
    - intros (I & QB & h' & W' & H). exists I, QB, h'. split; [by eapply wk_trans|done].
    - done.
  Qed.
  Lemma dm_mono {A} (p : prog A) : ∀ (Q Q' : A → held → Prop) h, (∀ a h, Q a h → Q' a h) → dm p Q h → dm p Q' h.
  Proof.
    induction p as [A a|X A f k IH|S' X A body IHb s k IH|A r]; cbn [dm]; intros Q Q' h HQ.
    - intros (h' & W & H). exists h'. auto.
    - intros H me b σ x σ' Hj Ho E. destruct (H me b σ x σ' Hj Ho E) as (h' & T & D). exists h'. split; [done|]. by eapply IH.
    - intros (I & QB & h' & W & H0 & H1 & H2). exists I, QB, h'. split_and!; auto. intros b h1 Hb. eapply IH; eauto.
    - done.
  Qed.
  Lemma dm_bind {A B} (p : prog A) (k : A → prog B) Q R h : dm p R h → (∀ a h', R a h' → dm (k a) Q h') → dm (bind p k) Q h.
  Proof using wk_trans tr_wk own_wk.
    intros D Hk. revert h D. induction p as [A a|X A f k1 IH|S' X A body IHb s k1 IH|A r]; intros h; cbn [dm bind].
    - intros (h' & W & H). eapply dm_wk; [exact W|]. by apply Hk.
    - intros H me b σ x σ' Hj Ho E. destruct (H me b σ x σ' Hj Ho E) as (h' & T & D). exists h'. split; [done|]. by eapply IH.
    - intros (I & QB & h' & W & H0 & H1 & H2). exists I, QB, h'. split_and!; auto. intros b h1 Hb. eapply IH; eauto.
    - done.
  Qed.

  (** Programs that leave the auxiliary state as it is. *)
  Definition dmh {A} (h : held) (p : prog A) : Prop := dm p (λ _ h', h' = h) h.
  Lemma dmh_bind {A B} h (p : prog A) (k : A → prog B) : dmh h p → (∀ a, dmh h (k a)) → dmh h (bind p k).
  Proof using wk_trans tr_wk own_wk. intros D Hk. eapply dm_bind; [exact D|]. intros a h' ->. apply Hk. Qed.
  Definition mplain {X} (f : action X) : Prop := ∀ me b σ x σ', f me b σ = Ok x σ' → msame σ σ'.
  Lemma dmh_act {X A} h (f : action X) (k : X → prog A) : mplain f → (∀ x, dmh h (k x)) → dmh h (Act f k).
  Proof using tr_plain. intros P Hk me b σ x σ' _ _ E. exists h. split; [eapply tr_plain, P, E|apply Hk]. Qed.
  Lemma dmh_ret {A} h (a : A) : dmh h (Ret a). Proof using wk_refl. by exists h. Qed.
  Lemma dmh_act' {X} h (f : action X) : mplain f → dmh h (act f).
  Proof using tr_plain wk_refl. intros P. apply dmh_act; [done|]. intros x. apply dmh_ret. Qed.
  Lemma dmh_loop {S' B A} h (body : S' → prog (S' + B)) s (k : B → prog A) : (∀ s, dmh h (body s)) → (∀ b, dmh h (k b)) → dmh h (Loop body s k).
  Proof using wk_refl.
    intros Hb Hk. exists (λ _ h', h' = h), (λ _ h', h' = h), h. split_and!; auto.
    - intros s' h' ->. eapply dm_mono; [|apply Hb]. by intros [?|?] h' ->.
    - intros b h' ->. apply Hk.
  Qed.
  Lemma dmh_fail {A} h r : dmh (A:=A) h (Fail r). Proof. done. Qed.

  (** ** The accesses *)
  Lemma wrd_tables σ σ' t j : tables σ' = tables σ → wrd σ' t j = wrd σ t j.
  Proof. intros E. unfold wrd, core_of. cbn [k_sl]. by rewrite E. Qed.
  Lemma clm_tables σ σ' t : tables σ' = tables σ → clm σ' t = clm σ t.
  Proof. intros E. unfold clm. by rewrite E. Qed.
  Lemma wrd_eq σ t j : wrd σ t j = match tables σ !! t with Some tb => match t_slots tb !! j with Some s => s_ent s | None => NULLW end | None => NULLW end.
  Proof. unfold wrd, en, core_of. cbn [k_sl]. rewrite list_lookup_fmap. by destruct (tables σ !! t). Qed.
  Lemma msame_refl σ : msame σ σ. Proof. split; [done|]. split; [done|]. split; [|done]. intros t j. by left. Qed.
  Lemma msame_tables σ σ' : tables σ' = tables σ → root σ' = root σ → msame σ σ'.
  Proof. intros E R. split; [done|]. split; [intros t; by rewrite (clm_tables _ _ _ E)|]. split; [intros t j; left; by apply wrd_tables|]. intros _ D t tb. rewrite E. apply D. Qed.
  Lemma msame_upd t tb tb0 σ : tables σ !! t = Some tb0 → t_claim tb0 ≤ t_claim tb → t_slots tb = t_slots tb0 → t_deferred tb = t_deferred tb0 ∨ t_deferred tb = [] ∨ c_mode cfg ≠ Blocking → msame σ (upd_table t tb σ).
  Proof.
    intros E C S F. split; [done|]. split; [|split].
    - intros x. unfold clm. rewrite upd_lookup. destruct (decide _) as [[-> L]|N]; [|done]. by rewrite E.
    - intros x j. left. rewrite !wrd_eq, upd_lookup. destruct (decide _) as [[-> L]|N]; [|done]. by rewrite E, S.
    - intros HM D x tb1. rewrite upd_lookup. destruct (decide _) as [[-> L]|N]; [|apply D]. intros [= <-]. destruct F as [->|[F|F]]; [by eapply D|done|done].
  Qed.
  Lemma msame_trans σ1 σ2 σ3 : msame σ1 σ2 → msame σ2 σ3 → msame σ1 σ3.
  Proof.
    intros (A1 & B1 & C1 & D1) (A2 & B2 & C2 & D2). split; [congruence|]. split; [intros t; specialize (B1 t); specialize (B2 t); lia|]. split; [|by auto].
    intros t j. destruct (C2 t j) as [E|N]; [|by right]. rewrite E. apply C1.
  Qed.
  Lemma wrd_upd_slot σ t i tb s s0 t' i' : tables σ !! t = Some tb → t_slots tb !! i = Some s0 →
    wrd (upd_slot t i tb s σ) t' i' = if decide (t' = t ∧ i' = i) then s_ent s else wrd σ t' i'.
  Proof.
    intros E Es. pose proof (lookup_lt_Some _ _ _ E) as Lt. pose proof (lookup_lt_Some _ _ _ Es) as Li.
    unfold upd_slot. rewrite !wrd_eq, upd_lookup. destruct (decide (t' = t ∧ t < _)) as [[-> L]|N].
    - cbn [t_set_slots t_slots]. rewrite E. destruct (decide (i' = i)) as [->|Ni].
      + rewrite decide_True by done. by rewrite list_lookup_insert.
      + rewrite decide_False by (by intros [? ?]). by rewrite list_lookup_insert_ne.
    - destruct (decide _) as [[-> ->]|]; [by destruct N|done].
  Qed.
  Lemma clm_upd_slot σ t i tb s t' : tables σ !! t = Some tb → clm (upd_slot t i tb s σ) t' = clm σ t'.
  Proof. intros E. unfold upd_slot, clm. rewrite upd_lookup. destruct (decide _) as [[-> L]|N]; [|done]. by rewrite E. Qed.
  Lemma msame_slot σ t i tb s s0 : tables σ !! t = Some tb → t_slots tb !! i = Some s0 → s_ent s = s_ent s0 ∨ ¬ marked (s_ent s) → msame σ (upd_slot t i tb s σ).
  Proof.
    intros E Es H. split; [done|]. split; [intros t'; by rewrite clm_upd_slot|]. split; [|intros _ D x tb1; unfold upd_slot; rewrite upd_lookup; destruct (decide _) as [[-> L]|N]; [intros [= <-]; cbn; by eapply D|apply D]].
    intros t' j. rewrite (wrd_upd_slot _ _ _ _ _ s0) by done.
    destruct (decide _) as [[-> ->]|]; [|by left]. destruct H as [H|H]; [left|by right]. rewrite H, wrd_eq, E, Es. done.
  Qed.
  Lemma ws_ok' {A} t i (σ : state) (f : table → slot → outcome K V A) x σ' : with_slot t i σ f = Ok x σ' → ∃ tb s, tables σ !! t = Some tb ∧ t_slots tb !! i = Some s ∧ f tb s = Ok x σ'.
  Proof. intros (tb & E & H)%wt_ok. destruct (t_slots tb !! i) as [s|] eqn:Es; [|done]. by exists tb, s. Qed.

  Ltac pl := let me := fresh "me" in let b := fresh "b" in let σ := fresh "σ" in let x := fresh "x" in let σ' := fresh "σ'" in let E := fresh "E" in
    intros me b σ x σ' E; cbv beta iota delta [a_load_meta a_store_meta a_load_ent a_store_ent a_fetch_or_copying a_cas_ent a_cas_pub a_deref a_load_copied a_add_copied
      a_load_claim a_add_claim a_load_status a_store_status a_count a_load_shard a_shards a_retire a_defer a_pk_announce a_pk_register a_pk_remove a_pk_contains
      a_pk_pending a_pk_take a_park a_unpark a_root a_root_raw a_should_park a_try_lock a_lock a_unlock a_poison a_ub] in E;
    repeat match type of E with
      | with_slot _ _ _ _ = _ => apply ws_ok' in E as (? & ? & ? & ? & E)
      | with_table _ _ _ = _ => apply wt_ok in E as (? & ? & E)
      | (if ?c then _ else _) = _ => destruct c; try discriminate E
      | match ?c with _ => _ end = _ => destruct c; try discriminate E
      end; try discriminate E;
    injection E as <- <-; cbv zeta; first [ apply msame_refl | eapply msame_upd; [eassumption|cbn; lia|reflexivity|first [by left|by right; left|by right; right]]
      | eapply msame_slot; [eassumption|eassumption|first [by left|right; cbn; intros [? ?]; cbn in *; done]]
      | apply msame_tables; [reflexivity|reflexivity]
      | eapply msame_trans; [eapply msame_slot; [eassumption|eassumption|right; cbn; intros [? ?]; cbn in *; done]|apply msame_tables; reflexivity] ].
  Lemma q_load_meta tb i : mplain (a_load_meta tb i). Proof. pl. Qed.
  Lemma q_store_meta tb i m : mplain (a_store_meta tb i m). Proof. pl. Qed.
  Lemma q_load_ent tb i : mplain (a_load_ent tb i). Proof. pl. Qed.
  Lemma q_cas_ent w tb i e n : ¬ marked n → mplain (a_cas_ent w tb i e n).
  Proof.
    intros N me b σ x σ' E. apply ws_ok' in E as (t & s & Et & Es & E). destruct (exp_freed _ _); [done|]. destruct (decide _); injection E as <- <-; [|apply msame_refl].
    eapply msame_slot; [done|done|by right].
  Qed.
  Lemma q_cas_tomb w tb i e : mplain (a_cas_ent w tb i e TOMBW). Proof. apply q_cas_ent. by intros [? [? ?]]. Qed.
  Lemma q_cas_pub w tb i e n : mplain (a_cas_pub w tb i e n). Proof. pl. Qed.
  Lemma q_deref p : mplain (a_deref p). Proof. pl. Qed.
  Lemma q_load_copied tb : mplain (a_load_copied tb). Proof. pl. Qed.
  Lemma q_add_copied tb n : mplain (a_add_copied tb n). Proof. pl. Qed.
  Lemma q_load_claim tb : mplain (a_load_claim tb). Proof. pl. Qed.
  Lemma q_add_claim tb n : mplain (a_add_claim tb n). Proof. pl. Qed.
  Lemma q_load_status tb : mplain (a_load_status tb). Proof. pl. Qed.
  Lemma q_store_status tb x : mplain (a_store_status tb x). Proof. pl. Qed.
  Lemma q_count d : mplain (a_count d). Proof. pl. Qed.
  Lemma q_load_shard j : mplain (a_load_shard j). Proof. pl. Qed.
  Lemma q_shards : mplain a_shards. Proof. pl. Qed.
  Lemma q_retire o : mplain (a_retire o). Proof. pl. Qed.
  Lemma q_defer tb p : c_mode cfg ≠ Blocking → mplain (a_defer tb p). Proof. intros NB. pl. Qed.
  Lemma q_announce tb d : mplain (a_pk_announce tb d). Proof. pl. Qed.
  Lemma q_register tb k : mplain (a_pk_register tb k). Proof. pl. Qed.
  Lemma q_remove tb k i : mplain (a_pk_remove tb k i). Proof. pl. Qed.
  Lemma q_contains tb k i : mplain (a_pk_contains tb k i). Proof. pl. Qed.
  Lemma q_pending tb : mplain (a_pk_pending tb). Proof. pl. Qed.
  Lemma q_take tb k : mplain (a_pk_take tb k). Proof. pl. Qed.
  Lemma q_park : mplain a_park. Proof. pl. Qed.
  Lemma q_unpark j : mplain (a_unpark j). Proof. pl. Qed.
  Lemma q_root : mplain a_root. Proof. pl. Qed.
  Lemma q_root_raw : mplain a_root_raw. Proof. pl. Qed.
  Lemma q_try_lock tb : mplain (a_try_lock tb). Proof. pl. Qed.
  Lemma q_lock tb : mplain (a_lock tb). Proof. pl. Qed.
  Lemma q_unlock tb : mplain (a_unlock tb). Proof. pl. Qed.
  Lemma q_poison tb : mplain (a_poison tb). Proof. pl. Qed.
  Lemma q_ub : mplain (a_ub (K:=K) (V:=V) (A:=pres K V)). Proof. by intros me b σ x σ' E. Qed.
  Lemma q_should tb k : mplain (a_should_park tb k). Proof. destruct k; pl. Qed.
  Lemma q_next tb : mplain (a_next tb).
  Proof. intros me b σ x σ' E. apply wt_ok in E as (t & _ & E). destruct (t_next t); [apply wt_ok in E as (? & _ & E)|]; injection E as <- <-; apply msame_refl. Qed.
  Lemma msame_push σ len st : msame σ (set_tables (λ l, l ++ [new_table len st]) σ).
  Proof.
    split; [done|]. split; [|split].
    - intros t. unfold clm. cbn [set_tables tables]. destruct (tables σ !! t) as [tb|] eqn:E; [by rewrite (lookup_app_l_Some _ _ _ _ E)|apply Nat.le_0_l].
    - intros t j. left. rewrite !wrd_eq. cbn [set_tables tables]. destruct (tables σ !! t) as [tb|] eqn:E; [by rewrite (lookup_app_l_Some _ _ _ _ E)|].
      apply lookup_ge_None_1 in E. rewrite lookup_app_r by done. destruct (t - length (tables σ)) as [|n]; cbn; [|done].
      destruct (replicate len slot0 !! j) as [s|] eqn:Es; [|done]. apply lookup_replicate in Es as [-> _]. done.
    - intros _ D t tb. cbn [set_tables tables]. intros H. apply lookup_app_Some in H as [H|[_ H]]; [by eapply D|]. apply list_lookup_singleton_Some in H as [_ <-]. done.
  Qed.
  Lemma q_publish tb len : mplain (a_publish_next tb len).
  Proof.
    intros me b σ x σ' E. apply wt_ok in E as (t & Et & E). cbn zeta in E. injection E as <- <-.
    eapply msame_trans; [eapply (msame_upd (th tb) (t_set_next (Some (length (tables σ))) t)); [exact Et|cbn; lia|reflexivity|by left]|]. apply msame_push.
  Qed.

  Hint Resolve q_load_meta q_store_meta q_load_ent q_cas_tomb q_cas_pub q_deref q_load_copied q_add_copied q_load_claim q_add_claim
    q_load_status q_store_status q_count q_load_shard q_shards q_retire q_announce q_register q_remove q_contains q_pending q_take q_park q_unpark
    q_root q_root_raw q_try_lock q_lock q_unlock q_poison q_ub q_should q_next q_publish : pla.
  Create HintDb dmp.
  Ltac ds1 := lazymatch goal with
    | |- dmh _ (bind _ _) => apply dmh_bind
    | |- dmh _ (act _) => apply dmh_act'; solve [eauto 2 with pla]
    | |- dmh _ (Act _ _) => apply dmh_act; [solve [eauto 2 with pla]|]
    | |- dmh _ (loop _ _) => apply dmh_loop
    | |- dmh _ (Loop _ _ _) => apply dmh_loop
    | |- dmh _ (Ret _) => apply dmh_ret
    | |- dmh _ (Fail _) => apply dmh_fail
    | |- dmh _ (if ?b then _ else _) => destruct b
    | |- dmh _ (match ?x with _ => _ end) => destruct x
    | |- dmh _ (let '_ := ?x in _) => destruct x
    | |- dmh _ (let _ := _ in _) => cbv zeta
    | |- ∀ _, _ => intros ?
    | |- dmh _ _ => first [solve [eauto 2 with dmp] | progress cbv beta]
    end.
  Ltac ds := repeat ds1.

  (** ** Programs that mark no entry *)
  Section any.
    Context (h : held).
    Set Default Proof Using "Type*".
    Lemma d_spin_next n tb : dmh h (spin_next n tb). Proof. induction n; cbn [spin_next]; ds. Qed.
    Hint Resolve d_spin_next : dmp.
    Lemma d_park tb k : dmh h (park tb k). Proof. unfold park. ds. Qed.
    Lemma d_unpark_all l : dmh h (unpark_all l). Proof. induction l; cbn [unpark_all]; ds. Qed.
    Hint Resolve d_park d_unpark_all : dmp.
    Lemma d_unpark tb k : dmh h (unpark tb k). Proof. unfold unpark. ds. Qed.
    Lemma d_sums n j acc : dmh h (sum_shards n j acc). Proof. revert j acc. induction n; intros j acc; cbn [sum_shards]; ds. Qed.
    Hint Resolve d_unpark d_sums : dmp.
    Lemma d_len : dmh h map_len. Proof. unfold map_len. ds. Qed.
    Hint Resolve d_len : dmp.
    Lemma d_alloc_locked cap tb : dmh h (alloc_locked cfg cap tb). Proof. unfold alloc_locked. ds. Qed.
    Hint Resolve d_alloc_locked : dmp.
    Lemma d_goan cap tb : dmh h (get_or_alloc_next cfg cap tb). Proof. unfold get_or_alloc_next. ds. Qed.
    Hint Resolve d_goan : dmp.
    Lemma d_icp f tb e k i l : ¬ marked e → dmh h (insert_copy_probe cfg f tb e k i l).
    Proof. intros N. pose proof (q_cas_ent false tb). revert i l. induction f; intros i l; cbn [insert_copy_probe]; ds. Qed.
    Hint Resolve d_icp : dmp.
    Lemma d_ic e p r tb : ¬ marked e → dmh h (insert_copy cfg e p r tb). Proof. intros N. unfold insert_copy. ds. Qed.
    Lemma d_spin_status n tb : dmh h (spin_status n tb). Proof. induction n; cbn [spin_status]; ds. Qed.
    Hint Resolve d_ic d_spin_status : dmp.
    Lemma d_ws n : dmh h (wait_status cfg n). Proof. unfold wait_status. ds. Qed.
    Lemma d_spin_copied n i tb : dmh h (spin_copied n i tb). Proof. induction n; cbn [spin_copied]; ds. Qed.
    Hint Resolve d_ws d_spin_copied : dmp.
    Lemma d_wc i tb : dmh h (wait_copied cfg i tb). Proof. unfold wait_copied. ds. Qed.
    Lemma d_dr e tb : dmh h (defer_retire cfg e tb).
    Proof. unfold defer_retire. destruct (c_mode cfg) eqn:HMd; [|ds]. assert (HNB : c_mode cfg ≠ Blocking) by (by rewrite HMd). pose proof (λ tb p, q_defer tb p HNB). ds. Qed.
    Lemma d_ia i m kv tb : dmh h (insert_at cfg i m kv tb). Proof. unfold insert_at. ds. Qed.
    Hint Resolve d_wc d_dr d_ia : dmp.
    Lemma d_ua i c n tb : dmh h (update_at cfg i c n tb). Proof. unfold update_at. ds. Qed.
    Hint Resolve d_ua : dmp.
    Lemma d_is i e kv tb : dmh h (insert_slow cfg i e kv tb). Proof. unfold insert_slow. ds. Qed.
    Lemma d_gp f tb k i l : dmh h (get_probe cfg f tb k i l). Proof. revert i l. induction f; intros i l; cbn [get_probe]; ds. Qed.
    Hint Resolve d_is d_gp : dmp.
    Lemma d_get k : dmh h (get cfg k). Proof. unfold get. ds. Qed.
    Lemma d_ip f r tb kv i l : dmh h (insert_probe cfg f r tb kv i l). Proof. revert i l. induction f; intros i l; cbn [insert_probe]; ds. Qed.
    Lemma d_re p tb i e : dmh h (remove_entry cfg p tb i e). Proof. unfold remove_entry. ds. Qed.
    Hint Resolve d_get d_ip d_re : dmp.
    Lemma d_rp f p tb k i l : dmh h (remove_probe cfg f p tb k i l). Proof. revert i l. induction f; intros i l; cbn [remove_probe]; ds. Qed.
    Lemma d_nn o f cs : dmh h (cs_next_none (K:=K) (V:=V) o f cs). Proof. unfold cs_next_none. ds. Qed.
    Lemma d_ns f cs p : dmh h (cs_next_some f cs p). Proof. unfold cs_next_some. ds. Qed.
    Hint Resolve d_rp d_nn d_ns : dmp.
    Lemma d_ce o f tb k i cs e : dmh h (compute_entry cfg o f tb k i cs e). Proof. unfold compute_entry. ds. Qed.
    Hint Resolve d_ce : dmp.
    Lemma d_cp fu o f tb k i l cs : dmh h (compute_probe cfg fu o f tb k i l cs). Proof. revert i l cs. induction fu; intros i l cs; cbn [compute_probe]; ds. Qed.
    Lemma d_de t tb i e : dmh h (delete_entry cfg t tb i e). Proof. unfold delete_entry. ds. Qed.
    Hint Resolve d_cp d_de : dmp.
    Lemma d_sw n i t tb c : dmh h (sweep cfg n i t tb c). Proof. revert i c. induction n; intros i c; cbn [sweep]; ds. Qed.
    Lemma d_in f i tb : dmh h (iter_next f i tb). Proof. revert i. induction f; intros i; cbn [iter_next]; ds. Qed.
    Hint Resolve d_sw d_in : dmp.

    (** *** Operations, given the copying routine and the creation of the first table *)
    Context (d_hc : ∀ b tb, dmh h (help_copy cfg b tb)) (d_init : ∀ cap, dmh h (init cap)).
    Hint Resolve d_hc d_init : dmp.
    Lemma d_lin tb : dmh h (linearize cfg tb). Proof. unfold linearize. ds. Qed.
    Lemma d_pri c b tb : dmh h (prepare_retry_insert cfg c b tb). Proof. unfold prepare_retry_insert. ds. Qed.
    Lemma d_pr c b tb : dmh h (prepare_retry cfg c b tb). Proof. unfold prepare_retry. ds. Qed.
    Hint Resolve d_lin d_pri d_pr : dmp.
    Lemma d_insert k v r : dmh h (insert cfg k v r). Proof. unfold insert, insert_inner. ds. Qed.
    Lemma d_remove k p : dmh h (remove_if cfg k p). Proof. unfold remove_if. ds. Qed.
    Lemma d_compute o k f : dmh h (compute cfg o k f). Proof. unfold compute. ds. Qed.
    Lemma d_cor t : dmh h (clear_or_retain cfg t). Proof. unfold clear_or_retain. ds. Qed.
    Lemma d_iter : dmh h (iter cfg). Proof. unfold iter. ds. Qed.
    Lemma d_res n : dmh h (reserve cfg n). Proof. unfold reserve. ds. Qed.
    Hint Resolve d_insert d_remove d_compute d_cor d_iter d_res : dmp.
    Lemma d_op o its : dmh h (op_prog cfg o its). Proof. destruct o; cbn [op_prog]; ds. Qed.
  End any.

  (** ** The machine *)
  Section mach.
    Context (gl : (nat → held) → state → Prop).
    Definition hset (H : nat → held) (i : nat) (h : held) : nat → held := λ j, if decide (j = i) then h else H j.
    Context (gl_own : ∀ H σ i, gl H σ → own (H i) σ).
    Context (gl_tr : ∀ H σ i h' σ', J σ → gl H σ → trans i (H i) h' σ σ' → gl (hset H i h') σ').
    Context (gl_wk : ∀ H σ i h', gl H σ → wk (H i) h' → gl (hset H i h') σ).
    Context (gl_plain : ∀ H σ σ', gl H σ → msame σ σ' → gl H σ').
    Context (op_dm : ∀ o its, dmh none (op_prog cfg o its)).
    Set Default Proof Using "Type*".

    Definition thr_mk (ts : tstate K V) (h : held) : Prop :=
      match ts_run ts with Some (_, p) => dm p (λ _ h', h' = none) h | None => ts_dead ts = true ∨ h = none end.
    Definition MK (c : mconf K V) : Prop :=
      ∃ H, gl H (mc_st c) ∧ (∀ i ts, mc_thr c !! i = Some ts → thr_mk ts (H i)) ∧ ∀ i, mc_thr c !! i = None → H i = none.

    Lemma msame_unpin i σ : msame σ (unpin i σ). Proof using Type. by apply msame_tables. Qed.
    Lemma retire_all_root l : ∀ (σ σ' : state), retire_all l σ = Some σ' → root σ' = root σ.
    Proof using Type. induction l as [|p l IH]; cbn [retire_all]; intros σ σ' E; [by injection E as <-|]. destruct (decide _); [done|]. by apply IH in E. Qed.
    Lemma msame_reclaim r rest (σ σ' : state) : reclaim r rest σ = Some σ' → msame σ σ'.
    Proof using Type.
      unfold reclaim. destruct (r_obj r) as [p|t].
      - destruct (decide _); [done|]. intros [= <-]. by apply msame_tables.
      - cbn [set_retired tables]. destruct (tables σ !! t) as [tb|] eqn:E; [|done]. destruct (t_freed tb); [done|]. destruct (retire_all _ _) as [σ1|] eqn:R; [|done].
        cbn. intros [= <-]. pose proof (retire_all_root _ _ _ R) as R3. apply retire_all_same in R as [R1 R2]. cbn in R1, R2, R3.
        eapply msame_trans; [apply (msame_tables σ σ1); done|]. eapply (msame_upd t); [by rewrite R1|cbn; lia|reflexivity|by right; left].
    Qed.
    Lemma MK_step (c c' : mconf K V) i ts ts' h' H : gl H (mc_st c) → (∀ i ts, mc_thr c !! i = Some ts → thr_mk ts (H i)) → (∀ i, mc_thr c !! i = None → H i = none) →
      mc_thr c !! i = Some ts → mc_thr c' = set_thr i ts' (mc_thr c) → gl (hset H i h') (mc_st c') → thr_mk ts' h' → MK c'.
    Proof.
      intros A B C Ei E G T. exists (hset H i h'). split; [done|]. rewrite E. unfold set_thr, hset. split.
      - intros j tj Ej. destruct (decide (j = i)) as [->|N]; [|rewrite list_lookup_insert_ne in Ej by done; by apply B].
        rewrite list_lookup_insert in Ej by (by eapply lookup_lt_Some). by injection Ej as <-.
      - intros j Ej. destruct (decide (j = i)) as [->|N]; [by rewrite list_lookup_insert in Ej by (by eapply lookup_lt_Some)|].
        rewrite list_lookup_insert_ne in Ej by done. by apply C.
    Qed.
    Lemma MK_mstep (c c' : mconf K V) ch : J (mc_st c) → MK c → mstep cfg c ch = SStep c' → MK c'.
    Proof.
      intros Hj (H & A & B & C) E.
      assert (PL : ∀ σ', msame (mc_st c) σ' → gl H σ') by (intros σ'; by apply gl_plain).
      assert (SF : ∀ i σ', msame (mc_st c) σ' → gl (hset H i (H i)) σ') by (intros i σ' S; eapply gl_tr; [done|done|by apply tr_plain]).
      destruct ch as [i|i|i o|i b|j]; cbn [mstep] in E.
      - destruct (mc_thr c !! i) as [[[] its []]|] eqn:Ei; try done. destruct (decide _); [done|]. injection E as <-.
        exists H. cbn [mc_st mc_thr]. split; [apply PL; by apply msame_tables|done].
      - destruct (mc_thr c !! i) as [[[] its []]|] eqn:Ei; try done. destruct (decide _); [|done]. injection E as <-.
        eapply (MK_step c _ i _ _ (H i) H A B C Ei); [reflexivity|apply SF, msame_unpin|]. destruct (B _ _ Ei) as [X|X]; [done|]. by right.
      - destruct (mc_thr c !! i) as [[[] its []]|] eqn:Ei; try done. destruct (decide _); [|done]. injection E as <-.
        eapply (MK_step c _ i _ _ (H i) H A B C Ei); [reflexivity|apply SF, msame_refl|]. destruct (B _ _ Ei) as [X|X]; [done|]. unfold thr_mk. cbn [ts_run]. rewrite X. apply op_dm.
      - destruct (mc_thr c !! i) as [[[[[id o] p]|] its []]|] eqn:Ei; try done. pose proof (B _ _ Ei) as D. unfold thr_mk in D. cbn [ts_run] in D.
        assert (RC : ∀ {T} (q : Prog.prog K V T) fin (inj : Prog.prog K V T → prog (pres K V)) (Q : T → held → Prop), dm q Q (H i) → (∀ a h, Q a h → h = none) → (∀ h' q', dm q' Q h' → dm (inj q') (λ _ h, h = none) h') →
          match q in Prog.prog _ _ T return (T → option (vres K V * (list iterst) * hevent K V)) → (Prog.prog K V T → Prog.prog K V (pres K V)) → sres with
          | Ret a => λ fin _,
            match fin a with
            | Some (v, its', ev) => SStep (MConf (mc_st c) (set_thr i (ts_idle its') (mc_thr c)) (mc_hist c ++ [ev]) (mc_nop c))
            | None => SUB
            end
          | Act f k => λ _ inj,
            match f i b (mc_st c) with
            | Ok x σ' => SStep (MConf σ' (set_thr i (TState (Some (id, o, inj (k x))) its false) (mc_thr c)) (mc_hist c) (mc_nop c))
            | Block => SSkip
            | UB => SUB
            end
          | Loop body s k => λ _ inj,
            SStep (MConf (mc_st c) (set_thr i (TState (Some (id, o,
                inj (bind (body s) (λ r, match r with inl s' => Loop body s' k | inr b => k b end)))) its false) (mc_thr c))
               (mc_hist c) (mc_nop c))
          | Fail why => λ _ _,
            SStep (MConf (unpin i (mc_st c)) (set_thr i (TState None [] true) (mc_thr c)) (mc_hist c ++ [HPanic i id o why]) (mc_nop c))
          end fin inj = SStep c' → MK c').
        { intros T q fin inj Q Dq HQ Hinj X. destruct q as [T a|X' T f k|S' B' T body s k|T why]; cbn [dm] in Dq.
          - destruct Dq as (h' & W & Hh). apply HQ in Hh as ->. destruct (fin a) as [[[v its'] ev]|]; [|done]. injection X as <-.
            eapply (MK_step c _ i _ _ none H A B C Ei); [reflexivity|by apply gl_wk|]. by right.
          - destruct (f i b (mc_st c)) as [x σ'| |] eqn:Ef; [|done|done]. injection X as <-.
            destruct (Dq i b (mc_st c) x σ' Hj (gl_own _ _ _ A) Ef) as (h' & T' & D').
            eapply (MK_step c _ i _ _ h' H A B C Ei); [reflexivity|by eapply gl_tr|]. by apply Hinj.
          - destruct Dq as (I & QB & h' & W & Hi & Hb & Hk). injection X as <-.
            eapply (MK_step c _ i _ _ h' H A B C Ei); [reflexivity|by apply gl_wk|]. apply Hinj. eapply dm_bind; [by apply Hb|].
            intros [s'|x] h1 H1; [|by apply Hk]. exists I, QB, h1. split_and!; auto.
          - injection X as <-. eapply (MK_step c _ i _ _ (H i) H A B C Ei); [reflexivity|apply SF, msame_unpin|]. by left. }
        exact (RC _ p _ (λ p, p) _ D (λ _ _ H, H) (λ _ _ H, H) E).
      - destruct (retired (mc_st c) !! j) as [r|]; [|done]. destruct (decide _); [|done]. destruct (reclaim _ _ _) as [σ'|] eqn:R; [|done]. injection E as <-.
        apply msame_reclaim in R. exists H. cbn [mc_st mc_thr]. split; [by apply PL|done].
    Qed.

    Context (nthr nsh cap : nat) (HS : 0 < nsh) (gl_init : gl (λ _, none) (init_state cap nsh)).
    Lemma reach_J sched c : exec cfg (init_conf cap nsh nthr) sched = Some c → J (mc_st c).
    Proof. intros (w & D & G & M)%(reach_MI cfg nthr nsh cap HS). exists (wg w). rewrite <- (mi_st _ _ _ _ _ _ _ M). apply M. Qed.
    Lemma reach_MK sched : ∀ c, exec cfg (init_conf cap nsh nthr) sched = Some c → MK c.
    Proof.
      induction sched as [|ch s IH] using rev_ind; intros c E.
      - injection E as <-. exists (λ _, none). split; [done|]. split; [|done]. intros i ts Ei. cbn in Ei. apply lookup_replicate in Ei as [-> _]. by right.
      - destruct (exec cfg (init_conf cap nsh nthr) s) as [c1|] eqn:E1.
        + rewrite (exec_snoc _ _ _ _ _ E1) in E. destruct (mstep cfg c1 ch) as [c2| |] eqn:M; [| |done]; injection E as <-; [|by apply IH].
          eapply MK_mstep; [by eapply reach_J|by apply IH|done].
        + exfalso. clear -E E1. revert E E1. generalize (init_conf (K:=K) (V:=V) cap nsh nthr). induction s as [|x s IH]; intros c0; cbn [exec app]; [done|].
          destruct (mstep cfg c0 x); [apply IH|apply IH|done].
    Qed.
    (** No thread in the middle of a call, none has panicked: nothing is held. *)
    Lemma reach_gl sched c : exec cfg (init_conf cap nsh nthr) sched = Some c → (∀ i ts, mc_thr c !! i = Some ts → ts_run ts = None ∧ ts_dead ts = false) →
      ∃ H, gl H (mc_st c) ∧ ∀ i, H i = none.
    Proof.
      intros E Hq. destruct (reach_MK _ _ E) as (H & A & B & C). exists H. split; [done|]. intros i. destruct (mc_thr c !! i) as [ts|] eqn:Ei; [|by apply C].
      pose proof (B _ _ Ei) as T. destruct (Hq _ _ Ei) as [Q1 Q2]. unfold thr_mk in T. rewrite Q1, Q2 in T. by destruct T.
    Qed.
  End mach.
End logic.
