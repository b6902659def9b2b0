(** C20: [reserve] at the level of the machine. Part 1: a partial-correctness logic for one thread that runs alone. *)
From Verif Require Export Dead6.

Section logic.
  Context {K V : Type} {Keq : EqDecision K} (cfg : config K) (me : nat).
  Notation prog := (prog K V). Notation action := (action K V). Notation state := (state K V).
  Notation J := (J (K:=K) (V:=V) cfg).

  (** [sp p Q σ]: if the thread runs [p] alone from [σ] and [p] returns, [Q] holds. *)
  Fixpoint sp {A} (p : prog A) : (A → state → Prop) → state → Prop :=
    match p in Prog.prog _ _ A return (A → state → Prop) → state → Prop with
    | Ret a => λ Q σ, Q a σ
    | Fail r => λ _ _, True
    | Act f k => λ Q σ, ∀ b x σ', J σ → J σ' → f me b σ = Ok x σ' → sp (k x) Q σ'
    | @Loop _ _ X B _ body s k => λ Q σ, ∃ (I : X → state → Prop) (QB : B → state → Prop), I s σ ∧
        (∀ s σ, I s σ → sp (body s) (λ r σ', match r with inl s' => I s' σ' | inr b => QB b σ' end) σ) ∧
        ∀ b σ', QB b σ' → sp (k b) Q σ'
    end.
  Lemma sp_mono {A} (p : prog A) : ∀ (Q Q' : A → state → Prop) σ, (∀ a σ, Q a σ → Q' a σ) → sp p Q σ → sp p Q' σ.
  Proof.
    induction p as [A a|X A f k IH|S' X A body IHb s k IH|A r]; cbn [sp]; intros Q Q' σ HQ; [by auto| | |done].
    - intros H b x σ' Hj Hj' E. eapply IH; eauto.
    - intros (I & QB & H0 & H1 & H2). exists I, QB. split_and!; [done..|]. intros b σ' Hb. eapply IH; eauto.
  Qed.
  Lemma sp_bind {A B} (p : prog A) (k : A → prog B) Q R σ : sp p R σ → (∀ a σ', R a σ' → sp (k a) Q σ') → sp (bind p k) Q σ.
  Proof.
    intros D Hk. revert σ D. induction p as [A a|X A f k1 IH|S' X A body IHb s k1 IH|A r]; intros σ; cbn [sp bind]; [apply Hk| | |done].
    - intros H b x σ' Hj Hj' E. eapply IH; [exact Hk|]. by eapply H.
    - intros (I & QB & H0 & H1 & H2). exists I, QB. split_and!; auto. intros b σ1 Hb. eapply IH; eauto.
  Qed.
  Lemma sp_loop {S' B A} (I : S' → state → Prop) (QB : B → state → Prop) (body : S' → prog (S' + B)) s (k : B → prog A) Q σ : I s σ →
    (∀ s σ, I s σ → sp (body s) (λ r σ', match r with inl s' => I s' σ' | inr b => QB b σ' end) σ) → (∀ b σ', QB b σ' → sp (k b) Q σ') → sp (Loop body s k) Q σ.
  Proof. intros H0 H1 H2. exists I, QB. by split_and!. Qed.

  (** Changes that leave the current table, the counters and the sizes of the tables alone. *)
  Definition ke (σ0 σ : state) : Prop := root σ = root σ0 ∧ counts σ = counts σ0 ∧ tmono σ0 σ.
  Lemma ke_refl σ : ke σ σ. Proof. split_and!; [done..|]. by intros t l. Qed.
  Lemma ke_trans σ1 σ2 σ3 : ke σ1 σ2 → ke σ2 σ3 → ke σ1 σ3.
  Proof. intros (A & B & C) (A' & B' & C'). split_and!; [congruence..|]. intros t l X. by apply C', C. Qed.
  Lemma ke_tables (σ σ' : state) : tables σ' = tables σ → root σ' = root σ → counts σ' = counts σ → ke σ σ'.
  Proof. intros A B C. split_and!; [done..|]. intros t l. unfold tln. by rewrite A. Qed.
  Lemma ke_upd t tb tb0 (σ : state) : tables σ !! t = Some tb0 → t_slots tb = t_slots tb0 → ke σ (upd_table t tb σ).
  Proof. intros E S. split_and!; [done..|]. intros x l X. rewrite tln_upd. destruct (decide _) as [[-> Ll]|]; [|done]. by rewrite S, <- X, (tln_eq _ _ _ E). Qed.
  Lemma ke_slot t i tb s (σ : state) : tables σ !! t = Some tb → ke σ (upd_slot t i tb s σ).
  Proof. intros E. split_and!; [done..|]. intros x l X. by rewrite tln_slot. Qed.

  Definition kf {X} (f : action X) : Prop := ∀ b σ x σ', f me b σ = Ok x σ' → ke σ σ'.
  Definition kp {A} (p : prog A) : Prop := ∀ σ0 σ, ke σ0 σ → sp p (λ _ σ', ke σ0 σ') σ.
  Lemma kp_ret {A} (a : A) : kp (Ret a). Proof. by intros σ0 σ. Qed.
  Lemma kp_fail {A} r : kp (A:=A) (Fail r). Proof. by intros σ0 σ. Qed.
  Lemma kp_act {X A} (f : action X) (k : X → prog A) : kf f → (∀ x, kp (k x)) → kp (Act f k).
  Proof. intros F Hk σ0 σ E b x σ' _ _ X'. apply Hk. eapply ke_trans; [exact E|]. by eapply F. Qed.
  Lemma kp_act' {X} (f : action X) : kf f → kp (act f). Proof. intros F. apply kp_act; [done|]. intros x. apply kp_ret. Qed.
  Lemma kp_bind {A B} (p : prog A) (k : A → prog B) : kp p → (∀ a, kp (k a)) → kp (bind p k).
  Proof. intros D Hk σ0 σ E. eapply sp_bind; [by apply D|]. intros a σ' E'. by apply Hk. Qed.
  Lemma sp_kp {A B} (p : prog A) (k : A → prog B) Q σ : kp p → (∀ a σ', ke σ σ' → sp (k a) Q σ') → sp (bind p k) Q σ.
  Proof. intros D Hk. eapply sp_bind; [apply D, ke_refl|done]. Qed.
  Lemma kp_loop {S' B A} (body : S' → prog (S' + B)) s (k : B → prog A) : (∀ s, kp (body s)) → (∀ b, kp (k b)) → kp (Loop body s k).
  Proof.
    intros Hb Hk σ0 σ E. apply (sp_loop (λ _ σ', ke σ0 σ') (λ _ σ', ke σ0 σ')); [done| |intros b σ' E'; by apply Hk].
    intros s' σ' E'. eapply sp_mono; [|by apply Hb]. by intros [?|?].
  Qed.
  Ltac kf := let b := fresh "b" in let σ := fresh "σ" in let x := fresh "x" in let σ' := fresh "σ'" in let E := fresh "E" in
    intros b σ x σ' E; 
    cbv beta iota delta [a_root a_root_raw a_next a_load_meta a_store_meta a_load_ent a_store_ent a_fetch_or_copying a_cas_ent a_deref a_load_copied a_add_copied a_load_claim a_add_claim
      a_load_status a_store_status a_try_lock a_lock a_unlock a_poison a_load_shard a_shards a_retire a_pk_announce a_pk_register a_pk_remove a_pk_contains a_pk_pending a_pk_take a_park a_unpark] in E;
    repeat match type of E with
      | with_slot _ _ _ _ = Ok _ _ => apply ws_ok' in E as (? & ? & ? & ? & E)
      | with_table _ _ _ = Ok _ _ => apply wt_ok in E as (? & ? & E)
      | (if ?x then _ else _) = Ok _ _ => destruct x
      | match ?x with _ => _ end = Ok _ _ => destruct x
      end; try discriminate E; injection E as <- <-; cbv zeta;
    first [ apply ke_refl | eapply ke_upd; [eassumption|reflexivity] | eapply ke_slot; eassumption | apply ke_tables; reflexivity ].
  Lemma f_root : kf a_root. Proof. kf. Qed.
  Lemma f_root_raw : kf a_root_raw. Proof. kf. Qed.
  Lemma f_next tb : kf (a_next tb). Proof. kf. Qed.
  Lemma f_load_meta tb i : kf (a_load_meta tb i). Proof. kf. Qed.
  Lemma f_store_meta tb i m : kf (a_store_meta tb i m). Proof. kf. Qed.
  Lemma f_load_ent tb i : kf (a_load_ent tb i). Proof. kf. Qed.
  Lemma f_store_ent tb i m : kf (a_store_ent tb i m). Proof. kf. Qed.
  Lemma f_fetch tb i : kf (a_fetch_or_copying tb i). Proof. kf. Qed.
  Lemma f_cas w tb i e n : kf (a_cas_ent w tb i e n). Proof. kf. Qed.
  Lemma f_deref p : kf (a_deref p). Proof. kf. Qed.
  Lemma f_load_copied tb : kf (a_load_copied tb). Proof. kf. Qed.
  Lemma f_add_copied tb n : kf (a_add_copied tb n). Proof. kf. Qed.
  Lemma f_load_claim tb : kf (a_load_claim tb). Proof. kf. Qed.
  Lemma f_add_claim tb n : kf (a_add_claim tb n). Proof. kf. Qed.
  Lemma f_load_status tb : kf (a_load_status tb). Proof. kf. Qed.
  Lemma f_store_status tb s : kf (a_store_status tb s). Proof. kf. Qed.
  Lemma f_try_lock tb : kf (a_try_lock tb). Proof. kf. Qed.
  Lemma f_lock tb : kf (a_lock tb). Proof. kf. Qed.
  Lemma f_unlock tb : kf (a_unlock tb). Proof. kf. Qed.
  Lemma f_poison tb : kf (a_poison tb). Proof. kf. Qed.
  Lemma f_shard j : kf (a_load_shard j). Proof. kf. Qed.
  Lemma f_shards : kf a_shards. Proof. kf. Qed.
  Lemma f_retire o : kf (a_retire o). Proof. kf. Qed.
  Lemma f_announce tb d : kf (a_pk_announce tb d). Proof. kf. Qed.
  Lemma f_register tb k : kf (a_pk_register tb k). Proof. kf. Qed.
  Lemma f_remove tb k i : kf (a_pk_remove tb k i). Proof. kf. Qed.
  Lemma f_contains tb k i : kf (a_pk_contains tb k i). Proof. kf. Qed.
  Lemma f_pending tb : kf (a_pk_pending tb). Proof. kf. Qed.
  Lemma f_take tb k : kf (a_pk_take tb k). Proof. kf. Qed.
  Lemma f_park : kf a_park. Proof. kf. Qed.
  Lemma f_unpark j : kf (a_unpark j). Proof. kf. Qed.
  Lemma f_should tb k : kf (a_should_park tb k). Proof. destruct k; unfold a_should_park; kf. Qed.
  Lemma f_publish tb len : kf (a_publish_next tb len).
  Proof.
    intros b σ x σ' E. apply wt_ok in E as (t & Et & E). injection E as <- <-. eapply ke_trans; [eapply (ke_upd (th tb) (t_set_next (Some (length (tables σ))) t)); [exact Et|reflexivity]|].
    split_and!; [done..|]. intros y l. unfold tln. cbn [tables set_tables]. intros X. apply fmap_Some in X as (z & Ez & ->). rewrite lookup_app_l by (by eapply lookup_lt_Some). by rewrite Ez.
  Qed.
  Hint Resolve f_root f_root_raw f_next f_load_meta f_store_meta f_load_ent f_store_ent f_fetch f_cas f_deref f_load_copied f_add_copied f_load_claim f_add_claim f_load_status f_store_status
    f_try_lock f_lock f_unlock f_poison f_shard f_shards f_retire f_announce f_register f_remove f_contains f_pending f_take f_park f_unpark f_should f_publish : kfd.
  Ltac kq := repeat lazymatch goal with
    | |- ∀ _, _ => intros ?
    | |- kp (bind _ _) => apply kp_bind
    | |- kp (act _) => apply kp_act'; solve [auto with kfd]
    | |- kp (Act _ _) => apply kp_act; [solve [auto with kfd]|]
    | |- kp (Ret _) => apply kp_ret
    | |- kp (Fail _) => apply kp_fail
    | |- kp (loop _ _) => apply kp_loop
    | |- kp (Loop _ _ _) => apply kp_loop
    | |- kp (match ?x with _ => _ end) => destruct x
    | |- kp (let '_ := ?x in _) => destruct x
    | H : context [kp] |- kp _ => first [solve [apply H] | solve [auto with kpd]]
    | |- kp _ => solve [auto with kpd]
    end.
  Lemma k_spin_next n tb : kp (spin_next n tb). Proof. induction n; cbn [spin_next]; kq. Qed.
  Lemma k_sums n j acc : kp (sum_shards n j acc). Proof. revert j acc. induction n; intros j acc; cbn [sum_shards]; kq. Qed.
  Hint Resolve k_spin_next k_sums : kpd.
  Lemma k_len : kp map_len. Proof. unfold map_len. kq. Qed.
  Hint Resolve k_len : kpd.
  Lemma k_park tb k : kp (park tb k). Proof. unfold park. kq. Qed.
  Lemma k_ua l : kp (unpark_all l). Proof. induction l; cbn [unpark_all]; kq. Qed.
  Hint Resolve k_ua k_park : kpd.
  Lemma k_unpark tb k : kp (unpark tb k). Proof. unfold unpark. kq. Qed.
  Hint Resolve k_unpark : kpd.
  Lemma k_al cap tb : kp (alloc_locked cfg cap tb). Proof. unfold alloc_locked. kq. Qed.
  Hint Resolve k_al : kpd.
  Lemma k_goan cap tb : kp (get_or_alloc_next cfg cap tb). Proof. unfold get_or_alloc_next. kq. Qed.
  Hint Resolve k_goan : kpd.
  Lemma k_icp f tb e k i l : kp (insert_copy_probe cfg f tb e k i l). Proof. revert i l. induction f; intros i l; cbn [insert_copy_probe]; kq. Qed.
  Hint Resolve k_icp : kpd.
  Lemma k_ic e p r tb : kp (insert_copy cfg e p r tb). Proof. unfold insert_copy. kq. Qed.
  Hint Resolve k_ic : kpd.
  Lemma k_cab i tb nx : kp (copy_at_blocking cfg i tb nx). Proof. unfold copy_at_blocking. kq. Qed.
  Lemma k_cai i tb nx : kp (copy_at_incremental cfg i tb nx). Proof. unfold copy_at_incremental. kq. Qed.
  Hint Resolve k_cab k_cai : kpd.
  Lemma k_ccb n i tb nx c : kp (copy_chunk_blocking cfg n i tb nx c). Proof. revert i c. induction n; intros i c; cbn [copy_chunk_blocking]; kq. Qed.
  Lemma k_cci n i tb nx c : kp (copy_chunk_incremental cfg n i tb nx c). Proof. revert i c. induction n; intros i c; cbn [copy_chunk_incremental]; kq. Qed.
  Hint Resolve k_ccb k_cci : kpd.

  (** ** The current table *)
  Definition tl (tb : tref) (σ : state) : Prop := tln σ (th tb) = Some (th_len tb).
  Lemma tl_ke tb σ σ' : ke σ σ' → tl tb σ → tl tb σ'. Proof. intros (_ & _ & M) X. by apply M. Qed.
  Lemma tl_handle (σ : state) t tb : J σ → tables σ !! t = Some tb → tl (handle t tb) σ.
  Proof.
    intros [γ I] E. unfold tl, handle, th_len. cbn [th th_mask]. rewrite (tln_eq _ _ _ E). f_equal. unfold t_len.
    assert (P : 0 < length (t_slots tb)); [|lia]. destruct (tln_nt σ t (length (t_slots tb))) as [Lt El]; [by rewrite (tln_eq _ _ _ E)|]. rewrite <- El.
    destruct (i_pow _ _ _ I t Lt) as (b & _ & ->). by apply Nat.neq_0_lt_0, Nat.pow_nonzero.
  Qed.
  Lemma next_tl (σ : state) tb nx b σ' : J σ → a_next tb me b σ = Ok (Some nx) σ' → σ' = σ ∧ th tb < th nx ∧ tl nx σ.
  Proof.
    intros Hj E. destruct (J_next cfg σ tb nx me b σ' Hj E) as [Nx _]. apply wt_ok in E as (t & Et & E). destruct (t_next t) as [n|]; [|done]. apply wt_ok in E as (t' & Et' & E). injection E as <- <-.
    split; [done|]. split; [lia|]. by apply tl_handle.
  Qed.
  Definition gq (σ0 : state) (tb : tref) (n : tref) (σ : state) : Prop := ke σ0 σ ∧ th tb < th n ∧ tl n σ.
  Lemma s_next (σ0 : state) tb {A} (k : option tref → prog A) Q σ : ke σ0 σ → (∀ nx, th tb < th nx → tl nx σ → sp (k (Some nx)) Q σ) → (sp (k None) Q σ) → sp (Act (a_next tb) k) Q σ.
  Proof.
    intros E H1 H2 b x σ' Hj _ X. destruct x as [nx|].
    - destruct (next_tl _ _ _ _ _ Hj X) as (-> & L & T). by apply H1.
    - apply wt_ok in X as (t & Et & X). destruct (t_next t) as [n|]; [by apply wt_ok in X as (? & _ & ?)|]. by injection X as <-.
  Qed.
  Lemma s_spinn σ0 n tb σ : ke σ0 σ → sp (spin_next n tb) (λ o σ', ke σ0 σ' ∧ ∀ nx, o = Some nx → gq σ0 tb nx σ') σ.
  Proof.
    revert σ. induction n as [|n IH]; intros σ E; cbn [spin_next]; [by split|]. cbn [bind act]. apply (s_next σ0); [done| |by apply IH].
    intros nx L T. cbn [sp]. split; [done|]. by intros nx' [= <-].
  Qed.
  Lemma s_al σ0 cap tb σ : ke σ0 σ → sp (alloc_locked cfg cap tb) (gq σ0 tb) σ.
  Proof.
    intros E. unfold alloc_locked. cbn [bind act]. apply (s_next σ0); [done| |].
    - intros nx L T. cbn [bind act]. intros b [] σ' _ _ X. cbn [sp]. pose proof (f_unlock _ _ _ _ _ X) as X'. split; [by eapply ke_trans|]. split; [done|]. by eapply tl_ke.
    - eapply sp_bind; [by apply k_len|]. intros m σ1 E1. cbv zeta. destruct (alloc_len _) as [len|]; [|cbn [bind act]; by intros b [] σ' _ _ _].
      cbn [bind act]. intros b nx σ2 Hj Hj' X. pose proof (f_publish _ _ _ _ _ _ X) as E2. apply wt_ok in X as (t & Et & X). injection X as <- <-.
      intros b' [] σ3 _ _ X. pose proof (f_unlock _ _ _ _ _ X) as E3. cbn [sp]. split; [eapply ke_trans; [exact E1|]; eapply ke_trans; [exact E2|exact E3]|]. split; [cbn; by eapply lookup_lt_Some|].
      eapply tl_ke; [exact E3|]. apply tl_handle; [done|]. cbn [tables set_tables]. unfold upd_table. cbn [tables set_tables]. rewrite lookup_app_r by (rewrite insert_length; lia). rewrite insert_length, Nat.sub_diag. done.
  Qed.
  Lemma s_goan σ0 cap tb σ : ke σ0 σ → sp (get_or_alloc_next cfg cap tb) (gq σ0 tb) σ.
  Proof.
    intros E. unfold get_or_alloc_next. cbn [bind act]. apply (s_next σ0); [done|by intros nx L T|].
    intros b ok σ1 _ _ X. pose proof (f_try_lock _ _ _ _ _ X) as E1. assert (E' : ke σ0 σ1) by (by eapply ke_trans). clear X E E1. destruct ok; [by apply s_al|].
    eapply sp_bind; [by apply (s_spinn σ0)|]. intros [nx|] σ2 [E2 G]; [cbn [sp]; by apply G|]. cbn [bind act]. intros b2 ok σ3 _ _ X. pose proof (f_lock _ _ _ _ _ X) as E3.
    destruct ok; [|done]. apply s_al. by eapply ke_trans.
  Qed.

  (** The thread sees the current table [tb]; [cs] are the counters. *)
  Definition at_root (cs : list Z) (tb : tref) (σ : state) : Prop := root σ = Some (th tb) ∧ counts σ = cs ∧ tl tb σ.
  Lemma ar_ke cs tb σ σ' : ke σ σ' → at_root cs tb σ → at_root cs tb σ'.
  Proof. intros E (A & B & C). split_and!; [|..|by eapply tl_ke]; destruct E as (? & ? & ?); congruence. Qed.
  Lemma s_promote cs tb nx n σ : at_root cs tb σ → tl nx σ → sp (try_promote tb nx n) (λ b σ', if b then at_root cs nx σ' else at_root cs tb σ' ∧ tl nx σ') σ.
  Proof.
    intros A T. unfold try_promote. eapply (sp_bind _ _ _ (λ _ σ', ke σ σ')).
    { destruct (0 <? n); [|apply kp_act'; [auto with kfd|apply ke_refl]]. apply kp_bind; [apply kp_act'; auto with kfd| |apply ke_refl]. intros c. apply kp_ret. }
    intros c σ1 E1. pose proof (ar_ke _ _ _ _ E1 A) as A1. pose proof (tl_ke _ _ _ E1 T) as T1. clear A T E1. destruct (_ =? _); [|by cbn [sp]]. cbn [bind act].
    intros b r σ2 _ _ X. injection X as <- <-. destruct (bool_decide _); [|by cbn [sp]]. intros b1 ok σ2 Hj Hj' X. unfold a_cas_root in X. destruct A1 as (R & Cs & T1').
    destruct (decide _); [|done]. injection X as <- <-.
    eapply (sp_bind _ _ _ (λ _ σ', at_root cs nx σ')).
    - eapply sp_mono; [|apply (kp_bind (act (a_store_status nx PROMOTED)) (λ _, act (a_retire (RTable (th tb))))); [apply kp_act'; auto with kfd|intros; apply kp_act'; auto with kfd|apply ke_refl]].
      cbv beta. intros _ σ3 E3. eapply ar_ke; [exact E3|]. by split_and!.
    - intros _ σ3 A3. apply sp_kp; [apply k_unpark|]. intros ? σ4 E4. cbn [sp]. by eapply ar_ke.
  Qed.
  Lemma s_spin_status cs tb nx n σ : at_root cs tb σ → th tb < th nx → sp (spin_status n nx) (λ o σ', ke σ σ' ∧ o ≠ Some PROMOTED) σ.
  Proof.
    intros A L. assert (G : ∀ σ1, ke σ σ1 → sp (spin_status n nx) (λ o σ', ke σ σ' ∧ o ≠ Some PROMOTED) σ1); [|apply G, ke_refl].
    induction n as [|n IH]; intros σ1 E; cbn [spin_status]; [by cbn [sp]|]. cbn [bind act]. intros b s σ2 Hj _ X. pose proof (f_load_status _ _ _ _ _ X) as E2.
    assert (E' : ke σ σ2) by (by eapply ke_trans). destruct (bool_decide _); [by apply IH|]. cbn [sp]. split; [done|]. intros [= ->].
    apply wt_ok in X as (t & Et & X). injection X as St <-. destruct Hj as [γ I]. pose proof (i_status _ _ _ I (th nx)) as S. unfold fld, core_of in S. cbn [k_st] in S. rewrite list_lookup_fmap, Et in S. cbn in S.
    specialize (S St). unfold rt in S. destruct E' as (R & _ & _). destruct A as (R' & _). cbn in S. rewrite R, R' in S. cbn in S. lia.
  Qed.
  Lemma s_wait cs tb nx σ : at_root cs tb σ → th tb < th nx → sp (wait_status cfg nx) (λ s σ', ke σ σ' ∧ s ≠ PROMOTED) σ.
  Proof.
    intros A L. unfold wait_status. apply (sp_loop (λ _ σ', ke σ σ') (λ s σ', ke σ σ' ∧ s ≠ PROMOTED)); [apply ke_refl| |by intros s σ' X].
    intros n σ1 E1. eapply sp_bind; [eapply (s_spin_status cs tb); [by eapply ar_ke|done]|]. intros [s|] σ2 [E2 N2]; [cbn [sp]; split; [by eapply ke_trans|congruence]|].
    assert (E' : ke σ σ2) by (by eapply ke_trans). clear E1 E2 N2. cbn [bind act]. intros b s σ3 Hj _ X. pose proof (f_load_status _ _ _ _ _ X) as E3. destruct (bool_decide _).
    - apply sp_kp; [apply k_park|]. intros ? σ4 E4. cbn [sp]. eapply ke_trans; [exact E'|]. by eapply ke_trans.
    - cbn [sp]. split; [by eapply ke_trans|]. intros ->. apply wt_ok in X as (t & Et & X). injection X as St <-. destruct Hj as [γ I].
      pose proof (i_status _ _ _ I (th nx)) as S. unfold fld, core_of in S. cbn [k_st] in S. rewrite list_lookup_fmap, Et in S. cbn in S.
      specialize (S St). unfold rt in S. destruct E' as (R & _ & _). destruct A as (R' & _). cbn in S. rewrite R, R' in S. cbn in S. lia.
  Qed.
  Lemma root_tl (σ : state) b tb σ' : J σ → a_root me b σ = Ok (Some tb) σ' → σ' = σ ∧ at_root (counts σ) tb σ.
  Proof.
    intros Hj. unfold a_root. destruct (root σ) as [t|] eqn:R; [|done]. intros (t' & Et & X)%wt_ok. injection X as <- <-. split; [done|]. split_and!; [by cbn|done|by apply tl_handle].
  Qed.
  Lemma s_hci chunk cs tb0 σ : at_root cs tb0 σ → sp (help_copy_incremental cfg chunk true) (at_root cs) σ.
  Proof.
    intros A0. unfold help_copy_incremental. cbn [bind act]. intros b r σ1 Hj _ X. destruct r as [tb|]; [|done]. destruct (root_tl _ _ _ _ Hj X) as [-> A]. destruct A0 as (_ & <- & _).
    apply (s_next σ); [apply ke_refl| |done]. intros nx L T.
    apply (sp_loop (λ (_ : unit) σ', at_root (counts σ) tb σ' ∧ tl nx σ') (λ x σ', at_root (counts σ) x σ')); [done| |by intros x σ' ?].
    intros _ σ1 [A1 T1]. eapply sp_bind; [by eapply s_promote|]. intros [] σ2 A2; [by cbn [sp]|]. destruct A2 as [A2 T2].
    eapply (sp_bind _ _ _ (λ (d : bool) σ', if d then at_root (counts σ) nx σ' else at_root (counts σ) tb σ' ∧ tl nx σ')).
    { apply (sp_loop (λ (_ : unit) σ', at_root (counts σ) tb σ' ∧ tl nx σ') (λ (d : bool) σ', if d then at_root (counts σ) nx σ' else at_root (counts σ) tb σ' ∧ tl nx σ')); [done| |by intros x σ' ?].
      intros _ σ3 [A3 T3]. cbn [bind act]. intros b1 c σ4 _ _ X4. pose proof (f_load_claim _ _ _ _ _ X4) as E4. pose proof (ar_ke _ _ _ _ E4 A3) as A4. pose proof (tl_ke _ _ _ E4 T3) as T4.
      destruct (_ <=? _); [by cbn [sp]|]. cbn [bind act]. intros b2 st σ5 _ _ X5. pose proof (f_add_claim _ _ _ _ _ _ X5) as E5. pose proof (ar_ke _ _ _ _ E5 A4) as A5. pose proof (tl_ke _ _ _ E5 T4) as T5.
      apply sp_kp; [apply k_cci|]. intros n σ6 E6. eapply sp_bind; [eapply (s_promote (counts σ)); [by eapply ar_ke|by eapply tl_ke]|]. intros [] σ7 A7; by cbn [orb negb sp]. }
    intros [] σ3 A3; [by cbn [orb negb sp]|]. destruct A3 as [A3 T3]. cbn [orb negb]. eapply sp_bind; [by eapply (s_wait (counts σ) tb nx)|]. intros s σ4 [E4 N4]. rewrite bool_decide_eq_false_2 by done. cbn [sp]. split; [by eapply ar_ke|by eapply tl_ke].
  Qed.
  Lemma s_hcb cs tb σ : at_root cs tb σ → sp (help_copy_blocking cfg tb) (at_root cs) σ.
  Proof.
    intros A. unfold help_copy_blocking. cbn [bind act]. apply (s_next σ); [apply ke_refl| |done]. intros nx L T.
    apply (sp_loop (λ nx σ', at_root cs tb σ' ∧ tl nx σ' ∧ th tb < th nx) (λ x σ', at_root cs x σ')); [done| |by intros x σ' ?]. clear nx L T A σ.
    intros nx σ (A & T & L). eapply (sp_bind _ _ _ (λ nx σ', at_root cs tb σ' ∧ tl nx σ' ∧ th tb < th nx)).
    { apply (sp_loop (λ nx σ', at_root cs tb σ' ∧ tl nx σ' ∧ th tb < th nx) (λ nx σ', at_root cs tb σ' ∧ tl nx σ' ∧ th tb < th nx)); [done| |by intros x σ' ?]. clear nx σ A T L.
      intros nx σ (A & T & L). cbn [bind act]. intros b s σ1 _ _ X. pose proof (f_load_status _ _ _ _ _ X) as E. pose proof (ar_ke _ _ _ _ E A) as A1. pose proof (tl_ke _ _ _ E T) as T1. destruct (bool_decide _); [|by cbn [sp]].
      eapply sp_bind; [apply s_goan, ke_refl|]. intros n σ2 (E2 & L2 & T2). cbn [sp]. split_and!; [by eapply ar_ke|done|lia]. }
    clear nx σ A T L. intros nx σ (A & T & L). eapply sp_bind; [by eapply s_promote|]. intros [] σ2 A2; [by cbn [sp]|]. destruct A2 as [A2 T2]. cbv zeta.
    eapply (sp_bind _ _ _ (λ (r : option (tref + tref)) σ', match r with Some (inl n) => at_root cs tb σ' ∧ tl n σ' ∧ th tb < th n | Some (inr n) => at_root cs n σ' | None => at_root cs tb σ' ∧ tl nx σ' end)).
    { apply (sp_loop (λ (_ : unit) σ', at_root cs tb σ' ∧ tl nx σ') (λ (r : option (tref + tref)) σ', match r with Some (inl n) => at_root cs tb σ' ∧ tl n σ' ∧ th tb < th n | Some (inr n) => at_root cs n σ' | None => at_root cs tb σ' ∧ tl nx σ' end)); [done| |by intros x σ' ?].
      intros _ σ3 [A3 T3]. cbn [bind act]. intros b1 c σ4 _ _ X4. pose proof (f_load_claim _ _ _ _ _ X4) as E4. pose proof (ar_ke _ _ _ _ E4 A3) as A4. pose proof (tl_ke _ _ _ E4 T3) as T4.
      destruct (_ <=? _); [by cbn [sp]|]. cbn [bind act]. intros b2 st σ5 _ _ X5. pose proof (f_add_claim _ _ _ _ _ _ X5) as E5. pose proof (ar_ke _ _ _ _ E5 A4) as A5. pose proof (tl_ke _ _ _ E5 T4) as T5.
      apply sp_kp; [apply k_ccb|]. intros [n|] σ6 E6; pose proof (ar_ke _ _ _ _ E6 A5) as A6; pose proof (tl_ke _ _ _ E6 T5) as T6.
      - eapply sp_bind; [by eapply (s_promote cs)|]. intros [] σ7 A7; [by cbn [sp]|]. destruct A7 as [A7 T7]. cbn [bind act]. intros b3 s σ8 _ _ X8. pose proof (f_load_status _ _ _ _ _ X8) as E8.
        pose proof (ar_ke _ _ _ _ E8 A7) as A8. pose proof (tl_ke _ _ _ E8 T7) as T8. destruct (bool_decide _); by cbn [sp].
      - cbn [bind act]. intros b3 [] σ7 _ _ X7. pose proof (f_store_status _ _ _ _ _ _ X7) as E7. eapply sp_bind; [apply s_goan, ke_refl|]. intros n σ8 (E8 & L8 & T8).
        apply sp_kp; [apply k_unpark|]. intros ? σ9 E9. cbn [sp]. split_and!; [|by eapply tl_ke|lia]. eapply ar_ke; [exact E9|]. eapply ar_ke; [exact E8|]. by eapply ar_ke. }
    intros [[n|n]|] σ3 A3; [by cbn [sp]|by cbn [sp]|]. destruct A3 as [A3 T3]. eapply sp_bind; [by eapply (s_wait cs tb nx)|]. intros s σ4 [E4 N4]. rewrite bool_decide_eq_false_2 by done. cbn [sp].
    split_and!; [by eapply ar_ke|by eapply tl_ke|done].
  Qed.
  Lemma s_help cs tb σ : at_root cs tb σ → sp (help_copy cfg true tb) (at_root cs) σ.
  Proof.
    intros A. unfold help_copy. destruct (c_mode cfg) as [ch|]; [|by apply s_hcb]. eapply sp_bind; [by eapply s_hci|]. intros x σ' A'. by cbn [negb sp].
  Qed.
  Lemma s_sums (σ0 : state) n : ∀ j acc σ, ke σ0 σ → n = length (counts σ0) - j → sp (sum_shards n j acc) (λ z σ', ke σ0 σ' ∧ z = (acc + zsum (drop j (counts σ0)))%Z) σ.
  Proof.
    induction n as [|n IH]; intros j acc σ E L; cbn [sum_shards].
    - cbn [sp]. split; [done|]. rewrite drop_ge by lia. cbn. lia.
    - cbn [bind act]. intros b x σ' _ _ X. injection X as <- <-. destruct E as (E1 & E2 & E3). rewrite E2. destruct (lookup_lt_is_Some_2 (counts σ0) j) as [z Ez]; [lia|].
      eapply sp_mono; [|apply (IH (S j)); [by split_and!|lia]]. intros z' σ' [E' ->]. split; [done|]. rewrite Ez, (drop_S _ _ _ Ez). unfold zsum. cbn [default id foldr]. lia.
  Qed.
  Lemma s_len (σ : state) : sp map_len (λ m σ', ke σ σ' ∧ m = Z.to_nat (zsum (counts σ))) σ.
  Proof.
    unfold map_len. cbn [bind act]. intros b n σ' _ _ X. injection X as <- <-. eapply sp_bind; [apply (s_sums σ); [apply ke_refl|lia]|]. intros z σ' [E ->]. cbn [sp]. rewrite drop_0. by split.
  Qed.
  (** [reserve(n)] run alone: on return the current table has at least [entries_for(sum + n)] slots. *)
  Lemma s_reserve (σ : state) n : sp (reserve cfg n) (λ _ σ', counts σ' = counts σ ∧ ∃ tb, at_root (counts σ) tb σ' ∧ entries_for (Z.to_nat (zsum (counts σ)) + n) ≤ th_len tb) σ.
  Proof.
    unfold reserve. cbn [bind act]. intros b r σ1 Hj _ X.
    eapply (sp_bind _ _ _ (λ tb σ', at_root (counts σ) tb σ')).
    { destruct r as [tb|]; [destruct (root_tl _ _ _ _ Hj X) as [-> A]; by cbn [sp]|]. assert (σ1 = σ) as -> by (unfold a_root in X; destruct (root σ); [by apply wt_ok in X as (? & _ & ?)|by injection X as <-]).
      unfold init. destruct (alloc_len _) as [len|]; [|done]. intros b1 tb σ2 Hj2 Hj2' X2. cbn [sp]. unfold a_init in X2. destruct (root σ) as [t|] eqn:R.
      - apply wt_ok in X2 as (t' & Et & X2). injection X2 as <- <-. split_and!; [done|done|by apply tl_handle].
      - injection X2 as <- <-. split_and!; [done|done|]. apply tl_handle; [done|]. cbn. rewrite lookup_app_r by lia. by rewrite Nat.sub_diag. }
    intros tb σ2 A2. apply (sp_loop (λ tb σ', at_root (counts σ) tb σ') (λ _ σ', counts σ' = counts σ ∧ ∃ tb, at_root (counts σ) tb σ' ∧ entries_for (Z.to_nat (zsum (counts σ)) + n) ≤ th_len tb)); [done| |by intros x σ' ?].
    clear. intros tb σ1 A1. eapply sp_bind; [apply s_len|]. intros m σ2 [E2 ->]. cbv zeta. pose proof (ar_ke _ _ _ _ E2 A1) as A2. assert (Cs : counts σ1 = counts σ) by (by destruct A1 as (_ & ? & _)). rewrite Cs.
    destruct (_ <=? _) eqn:Le; [cbn [sp]; split; [by destruct A2 as (_ & ? & _)|]; exists tb; split; [done|by apply Nat.leb_le]|].
    apply sp_kp; [apply k_goan|]. intros ? σ3 E3. eapply sp_bind; [eapply s_help, ar_ke; [exact E3|done]|]. intros tb' σ4 A4. by cbn [sp].
  Qed.
End logic.
