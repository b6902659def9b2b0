(** Incremental resizing, one thread running alone while no other call is in progress: it can finish any resize by itself. *)
From Verif Require Export SoloG.

Section solo.
  Context {K V : Type} {Keq : EqDecision K} (cfg : config K) (me : nat) (chunk : nat) (Hinc : c_mode cfg = Incremental chunk) (Hch : 0 < chunk).
  Notation state := (state K V). Notation prog := (prog K V).
  Notation tm := (tm (K:=K) (V:=V) me).
  Notation SN := (SO None None None None None).
  Notation acts_in := (acts_in (K:=K) (V:=V) me).

  (** What probing, allocating a table and copying slots change: not the root, nor the counters of a resize; new tables have zero counters. *)
  Definition R (σ σ' : state) : Prop :=
    root σ' = root σ ∧ length (tables σ) ≤ length (tables σ') ∧ ∀ t tb', tables σ' !! t = Some tb' →
      match tables σ !! t with
      | Some tb => t_copied tb' = t_copied tb ∧ t_claim tb' = t_claim tb ∧ length (t_slots tb') = length (t_slots tb) ∧ t_limit tb' = t_limit tb
      | None => t_copied tb' = 0 ∧ t_claim tb' = 0
      end.
  Lemma R_tab (σ σ' : state) : root σ' = root σ → tables σ' = tables σ → R σ σ'.
  Proof. intros E1 E2. split; [done|]. split; [by rewrite E2|]. intros t tb'. rewrite E2. by intros ->. Qed.
  Lemma R_refl σ : R σ σ.
  Proof. by apply R_tab. Qed.
  Lemma R_trans σ1 σ2 σ3 : R σ1 σ2 → R σ2 σ3 → R σ1 σ3.
  Proof.
    intros (A1 & A2 & A3) (B1 & B2 & B3). split; [congruence|]. split; [lia|]. intros t tb' E. specialize (B3 t tb' E).
    destruct (tables σ2 !! t) as [tb2|] eqn:E2.
    - specialize (A3 t tb2 E2). destruct (tables σ1 !! t); [|by destruct B3 as (-> & -> & _)].
      destruct A3 as (? & ? & ? & ?), B3 as (? & ? & ? & ?). split_and!; congruence.
    - apply lookup_ge_None in E2. by rewrite lookup_ge_None_2 by lia.
  Qed.
  Lemma R_upd t tb tb' σ : tables σ !! t = Some tb → t_copied tb' = t_copied tb → t_claim tb' = t_claim tb → length (t_slots tb') = length (t_slots tb) → t_limit tb' = t_limit tb →
    R σ (upd_table t tb' σ).
  Proof.
    intros Et E1 E2 E3 E4. split; [done|]. split; [cbn; by rewrite insert_length|]. intros u ub. cbn. destruct (decide (u = t)) as [->|N].
    - rewrite list_lookup_insert by (by eapply lookup_lt_Some). intros [= <-]. by rewrite Et.
    - rewrite list_lookup_insert_ne by done. by intros ->.
  Qed.
  Lemma R_slot t i tb s σ : tables σ !! t = Some tb → R σ (upd_slot t i tb s σ).
  Proof. intros Et. eapply R_upd; [done|done|done| |done]. cbn. by rewrite insert_length. Qed.
  Lemma R_app l s σ : R σ (set_tables (λ ts, ts ++ [new_table l s]) σ).
  Proof.
    split; [done|]. split; [cbn; rewrite app_length; cbn; lia|]. intros u ub. cbn. rewrite lookup_app. destruct (tables σ !! u) as [x|] eqn:E; [by intros [= <-]|].
    intros [_ <-]%list_lookup_singleton_Some. done.
  Qed.
  Lemma wtR {A} t σ (f : table → outcome K V A) x σ' : with_table t σ f = Ok x σ' → ∃ tb, tables σ !! t = Some tb ∧ f tb = Ok x σ'.
  Proof. unfold with_table. destruct (tables σ !! t) as [tb|]; [|done]. destruct (t_freed tb); [done|]. eauto. Qed.
  Lemma wsR {A} t i σ (f : table → slot → outcome K V A) x σ' : with_slot t i σ f = Ok x σ' → ∃ tb s, tables σ !! t = Some tb ∧ t_slots tb !! i = Some s ∧ f tb s = Ok x σ'.
  Proof. intros (tb & Et & E)%wtR. destruct (t_slots tb !! i) as [s|] eqn:Es; [|done]. eauto. Qed.

  Ltac rr := cbn [act Solo.tm SoloX.acts_in bind]; repeat match goal with |- True => exact I | |- _ ∧ _ => split | |- ∀ _, _ => intro end.
  Ltac r1 :=
    match goal with
    | E : with_table _ _ _ = Ok _ _ |- R _ _ => apply wtR in E as (? & ? & E)
    | E : with_slot _ _ _ _ = Ok _ _ |- R _ _ => apply wsR in E as (? & ? & ? & ? & E)
    | E : (if ?b then _ else _) = Ok _ _ |- R _ _ => destruct b
    | E : match ?b with _ => _ end = Ok _ _ |- R _ _ => destruct b
    | E : Ok _ _ = Ok _ _ |- R _ _ => injection E as <- <-
    | E : UB = Ok _ _ |- R _ _ => discriminate E
    | E : Block = Ok _ _ |- R _ _ => discriminate E
    | |- R ?x ?x => apply R_refl
    end.
  Ltac rdone := repeat r1; first [by eapply R_slot | eapply R_upd; (eassumption || reflexivity) | by apply R_tab | idtac].
  Definition ar {X} (f : action K V X) : Prop := ∀ σ x σ', f me false σ = Ok x σ' → R σ σ'.
  Lemma ar_next tb : ar (a_next tb). Proof. intros σ x σ' E. unfold a_next in E. rdone. Qed.
  Lemma ar_load_meta tb i : ar (a_load_meta tb i). Proof. intros σ x σ' E. unfold a_load_meta in E. rdone. Qed.
  Lemma ar_store_meta tb i m : ar (a_store_meta tb i m). Proof. intros σ x σ' E. unfold a_store_meta in E. rdone. Qed.
  Lemma ar_cas w tb i e n : ar (a_cas_ent w tb i e n). Proof. intros σ x σ' E. unfold a_cas_ent in E. rdone. Qed.
  Lemma ar_deref p : ar (a_deref p). Proof. intros σ x σ' E. unfold a_deref in E. rdone. Qed.
  Lemma ar_try_lock tb : ar (a_try_lock tb). Proof. intros σ x σ' E. unfold a_try_lock in E. rdone. Qed.
  Lemma ar_lock tb : ar (a_lock tb). Proof. intros σ x σ' E. unfold a_lock in E. rdone. Qed.
  Lemma ar_unlock tb : ar (a_unlock tb). Proof. intros σ x σ' E. unfold a_unlock in E. rdone. Qed.
  Lemma ar_poison tb : ar (a_poison tb). Proof. intros σ x σ' E. unfold a_poison in E. rdone. Qed.
  Lemma ar_publish tb l : ar (a_publish_next tb l).
  Proof.
    intros σ x σ' E. unfold a_publish_next in E. apply wtR in E as (t & Et & E). cbv zeta in E. injection E as <- <-.
    eapply R_trans; [|apply R_app]. eapply R_upd; (eassumption || reflexivity).
  Qed.
  Lemma ar_shards : ar a_shards. Proof. intros σ x σ' E. unfold a_shards in E. rdone. Qed.
  Lemma ar_shard j : ar (a_load_shard j). Proof. intros σ x σ' E. unfold a_load_shard in E. rdone. Qed.
  Lemma ar_fetch tb i : ar (a_fetch_or_copying tb i). Proof. intros σ x σ' E. unfold a_fetch_or_copying in E. rdone. Qed.
  Lemma ar_store_ent tb i e : ar (a_store_ent tb i e). Proof. intros σ x σ' E. unfold a_store_ent in E. rdone. Qed.
  Lemma ar_store_status tb x : ar (a_store_status tb x). Proof. intros σ y σ' E. unfold a_store_status in E. rdone. Qed.
  Lemma ar_retire o : ar (a_retire o). Proof. intros σ y σ' E. unfold a_retire in E. rdone. Qed.
  Lemma ar_pending tb : ar (a_pk_pending tb). Proof. intros σ x σ' E. unfold a_pk_pending in E. rdone. Qed.
  Lemma ar_take tb k : ar (a_pk_take tb k). Proof. intros σ x σ' E. unfold a_pk_take in E. cbv zeta in E. rdone. Qed.
  Lemma ar_announce tb d : ar (a_pk_announce tb d). Proof. intros σ x σ' E. unfold a_pk_announce in E. cbv zeta in E. rdone. Qed.
  Lemma ar_unpark j : ar (a_unpark j). Proof. intros σ x σ' E. unfold a_unpark in E. rdone. Qed.

  Lemma acts_act {A B} (f : action K V A) (k : A → prog B) : ar f → (∀ x, acts_in R (k x)) → acts_in R (bind (act f) k).
  Proof. by split. Qed.
  Lemma acts_acte {A} (f : action K V A) : ar f → acts_in R (act f).
  Proof. by split. Qed.
  Lemma acts_loop {S0 B} (body : S0 → prog (S0 + B)) s : (∀ s, acts_in R (body s)) → acts_in R (loop body s).
  Proof. by split. Qed.
  Lemma in_sum n : ∀ j acc, acts_in R (sum_shards n j acc).
  Proof. induction n as [|n IH]; intros j acc; [done|]. cbn [sum_shards]. apply acts_act; [apply ar_shard|]. intros; apply IH. Qed.
  Lemma in_map_len : acts_in R map_len.
  Proof. unfold map_len. apply acts_act; [apply ar_shards|]. intros n. apply acts_bind; [apply in_sum|]. done. Qed.
  Lemma in_alloc_locked cap tb : acts_in R (alloc_locked cfg cap tb).
  Proof.
    unfold alloc_locked. apply acts_act; [apply ar_next|]. intros [nx|].
    - apply acts_act; [apply ar_unlock|done].
    - apply acts_bind; [apply in_map_len|]. intros a. cbv zeta. destruct (alloc_len _) as [len|].
      + apply acts_act; [apply ar_publish|]. intros nx. apply acts_act; [apply ar_unlock|done].
      + apply acts_act; [apply ar_poison|done].
  Qed.
  Lemma in_spin_next n tb : acts_in R (spin_next n tb).
  Proof. induction n as [|n IH]; [done|]. cbn [spin_next]. apply acts_act; [apply ar_next|]. by intros [nx|]. Qed.
  Lemma in_get_or_alloc cap tb : acts_in R (get_or_alloc_next cfg cap tb).
  Proof.
    unfold get_or_alloc_next. apply acts_act; [apply ar_next|]. intros [nx|]; [done|]. apply acts_act; [apply ar_try_lock|]. intros []; [apply in_alloc_locked|].
    apply acts_bind; [apply in_spin_next|]. intros [nx|]; [done|]. apply acts_act; [apply ar_lock|]. intros []; [apply in_alloc_locked|done].
  Qed.
  Lemma in_icp fuel tb e k : ∀ i len, acts_in R (insert_copy_probe cfg fuel tb e k i len).
  Proof.
    induction fuel as [|fuel IH]; intros i len; [done|]. cbn [insert_copy_probe]. cbv zeta. apply acts_act; [apply ar_load_meta|]. intros m.
    destruct (m =? EMPTY)%N; [|apply IH]. apply acts_act; [apply ar_cas|]. intros [u|found].
    - apply acts_act; [apply ar_store_meta|done].
    - apply acts_bind.
      + destruct (e_ptr found) as [p|]; [|done]. apply acts_act; [apply ar_deref|done].
      + intros meta. apply acts_act; [apply ar_load_meta|]. intros m2. apply acts_bind; [destruct (m2 =? EMPTY)%N; [apply acts_acte, ar_store_meta|done]|]. intros _. apply IH.
  Qed.
  Lemma in_insert_copy e p r tb : acts_in R (insert_copy cfg e p r tb).
  Proof.
    unfold insert_copy. apply acts_act; [apply ar_deref|]. intros kv. apply acts_loop. intros t. apply acts_bind; [apply in_icp|]. intros [|]; [done|]. destruct (negb r); [done|].
    apply acts_bind; [apply in_get_or_alloc|done].
  Qed.
  Lemma in_unpark_all l : acts_in R (unpark_all l).
  Proof. induction l as [|j l IH]; [done|]. cbn [unpark_all]. apply acts_act; [apply ar_unpark|done]. Qed.
  Lemma in_unpark tb k : acts_in R (unpark tb k).
  Proof.
    unfold unpark. apply acts_act; [apply ar_pending|]. intros n. destruct (n =? 0)%Z; [done|]. apply acts_act; [apply ar_take|]. intros [|a l]; [done|].
    apply acts_act; [apply ar_announce|]. intros _. apply in_unpark_all.
  Qed.
  Lemma in_copy_at i tb nx : acts_in R (copy_at_incremental cfg i tb nx).
  Proof.
    unfold copy_at_incremental. apply acts_act; [apply ar_fetch|]. intros e. case_bool_decide; [done|]. destruct (e_ptr e) as [p|]; [|apply acts_acte, ar_store_meta].
    apply acts_bind; [apply in_insert_copy|]. intros [|]; [|done]. apply acts_act; [apply ar_store_ent|]. intros _. apply in_unpark.
  Qed.
  Lemma in_copy_chunk n : ∀ i tb nx copied, acts_in R (copy_chunk_incremental cfg n i tb nx copied).
  Proof.
    induction n as [|n IH]; intros i tb nx copied; [done|]. cbn [copy_chunk_incremental]. destruct (th_len tb <=? i); [done|]. apply acts_bind; [apply in_copy_at|]. intros _. apply IH.
  Qed.
  (** How many slots a chunk has. *)
  Lemma vp_copy_chunk n : ∀ i tb nx copied, vp (K:=K) (V:=V) (λ r, r = copied + Nat.min n (th_len tb - i)) (copy_chunk_incremental cfg n i tb nx copied).
  Proof.
    induction n as [|n IH]; intros i tb nx copied; cbn [copy_chunk_incremental]; [cbn [vp]; lia|]. destruct (Nat.leb_spec (th_len tb) i) as [L|L]; [cbn [vp]; lia|].
    apply vp_bind. intros _. specialize (IH (Datatypes.S i) tb nx (Datatypes.S copied)). assert (Y : ∀ A (P Q : A → Prop) (p : prog A), vp P p → (∀ a, P a → Q a) → vp Q p).
    { clear. intros A P Q p. induction p as [A a|X A f k1 IH|S0 C A body IHb s k1 IHk|A r]; cbn; intros H1 H2; eauto. }
    eapply Y; [exact IH|]. intros a ->. lia.
  Qed.

  Lemma R_handle σ σ' t tb h : R σ σ' → tables σ !! t = Some tb → handle t tb = h → ∃ tb', tables σ' !! t = Some tb' ∧ handle t tb' = h ∧ t_claim tb' = t_claim tb ∧ t_copied tb' = t_copied tb.
  Proof.
    intros (_ & Hl & H) Et <-. destruct (lookup_lt_is_Some_2 (tables σ') t) as [tb' Et']; [apply lookup_lt_Some in Et; lia|].
    specialize (H t tb' Et'). rewrite Et in H. destruct H as (H1 & H2 & H3 & H4). exists tb'. split; [done|]. split; [|done]. unfold handle, t_len. by rewrite H3, H4.
  Qed.

  (** [h] is the root table; if it is being replaced by the next one then all slots that were claimed have been copied; no resize of
      later tables has begun. *)
  Definition CT (h : tref) (σ : state) : Prop :=
    root σ = Some (th h) ∧ (∃ tb, tables σ !! th h = Some tb ∧ handle (th h) tb = h) ∧
    ∀ m tbm, th h < m → tables σ !! m = Some tbm → t_copied tbm = Nat.min (t_claim tbm) (th_len h) ∧ (m ≠ Datatypes.S (th h) → t_claim tbm = 0).
  (** The resize from [h] to [nx], with its counters. *)
  Definition CX (h nx : tref) (cl cd : nat) (σ : state) : Prop :=
    root σ = Some (th h) ∧ th nx = Datatypes.S (th h) ∧ (∃ tb, tables σ !! th h = Some tb ∧ handle (th h) tb = h) ∧
    (∃ tbn, tables σ !! th nx = Some tbn ∧ handle (th nx) tbn = nx ∧ t_claim tbn = cl ∧ t_copied tbn = cd) ∧
    ∀ m tbm, th nx < m → tables σ !! m = Some tbm → t_copied tbm = 0 ∧ t_claim tbm = 0.
  Lemma CT_R h σ σ' : CT h σ → R σ σ' → CT h σ'.
  Proof.
    intros (A1 & (tb & A2 & A3) & A4) HR. split; [by rewrite (proj1 HR)|]. split.
    - destruct (R_handle _ _ _ _ _ HR A2 A3) as (tb' & ? & ? & _). by exists tb'.
    - intros m tbm Lm Em. destruct HR as (_ & _ & HR). specialize (HR m tbm Em). destruct (tables σ !! m) as [tb0|] eqn:E0.
      + destruct HR as (-> & -> & _). by apply (A4 m).
      + by destruct HR as (-> & ->).
  Qed.
  Lemma CX_R h nx cl cd σ σ' : CX h nx cl cd σ → R σ σ' → CX h nx cl cd σ'.
  Proof.
    intros (A1 & A0 & (tb & A2 & A3) & (tbn & B1 & B2 & <- & <-) & A4) HR. split; [by rewrite (proj1 HR)|]. split; [done|]. split; [|split].
    - destruct (R_handle _ _ _ _ _ HR A2 A3) as (tb' & ? & ? & _). by exists tb'.
    - destruct (R_handle _ _ _ _ _ HR B1 B2) as (tb' & ? & ? & ? & ?). by exists tb'.
    - intros m tbm Lm Em. destruct HR as (_ & _ & HR). specialize (HR m tbm Em). destruct (tables σ !! m) as [tb0|] eqn:E0; [|done].
      destruct HR as (-> & -> & _). by apply (A4 m).
  Qed.
  Lemma CX_upd h nx cl cd cl' cd' tbn tb' (σ : state) : CX h nx cl cd σ → tables σ !! th nx = Some tbn → length (t_slots tb') = length (t_slots tbn) → t_limit tb' = t_limit tbn →
    t_claim tb' = cl' → t_copied tb' = cd' → CX h nx cl' cd' (upd_table (th nx) tb' σ).
  Proof.
    intros (A1 & A0 & (tb & A2 & A3) & (tbn' & B1 & B2 & _ & _) & A4) Et E1 E2 <- <-. rewrite Et in B1. injection B1 as <-. split; [done|]. split; [done|]. split; [|split].
    - exists tb. cbn. by rewrite list_lookup_insert_ne by lia.
    - exists tb'. cbn. rewrite list_lookup_insert by (by eapply lookup_lt_Some). split; [done|]. split; [|done]. rewrite <- B2. unfold handle, t_len. by rewrite E1, E2.
    - intros m tbm Lm. cbn. rewrite list_lookup_insert_ne by lia. by apply A4.
  Qed.
  Lemma CX_CT h nx cl (σ : state) : CX h nx cl (Nat.min cl (th_len h)) σ → CT h σ.
  Proof.
    intros (A1 & A0 & A2 & (tbn & B1 & B2 & B3 & B4) & A4). split; [done|]. split; [done|]. intros m tbm Lm Em. destruct (decide (m = th nx)) as [->|N].
    - rewrite Em in B1. injection B1 as ->. rewrite B3, B4. split; [done|]. intros; lia.
    - destruct (A4 m tbm ltac:(lia) Em) as [-> ->]. split; [lia|done].
  Qed.
  Lemma CT_CX h nx tbn (σ : state) : CT h σ → th nx = Datatypes.S (th h) → tables σ !! th nx = Some tbn → handle (th nx) tbn = nx → ∃ cl, CX h nx cl (Nat.min cl (th_len h)) σ.
  Proof.
    intros (A1 & A2 & A4) E Et Eh. exists (t_claim tbn). split; [done|]. split; [done|]. split; [done|]. split.
    - exists tbn. split_and!; [done|done|done|]. by apply (A4 (th nx)); [lia|].
    - intros m tbm Lm Em. destruct (A4 m tbm ltac:(lia) Em) as [-> X]. rewrite X by lia. split; [lia|done].
  Qed.
  (** After the promotion. *)
  Lemma CX_promoted h nx cl cd (σ : state) : CX h nx cl cd σ → CT nx (set_root (Some (th nx)) σ).
  Proof.
    intros (A1 & A0 & A2 & (tbn & B1 & B2 & _) & A4). split; [done|]. split; [by exists tbn|]. intros m tbm Lm Em. destruct (A4 m tbm Lm Em) as [-> ->]. split; [lia|done].
  Qed.

  (** Reachable states. *)
  Context (G E : state → Prop).
  Context (G_next : ∀ σ t tb, G σ → tables σ !! t = Some tb → t_next tb = if decide (Datatypes.S t < length (tables σ)) then Some (Datatypes.S t) else None).
  Notation tmg := (tmg (K:=K) (V:=V) me G E).

  Lemma gd_ok {A} (I : state → Prop) (f : action K V A) φ σ x σ' : gd me I f φ → I σ → f me false σ = Ok x σ' → I σ' ∧ φ x σ'.
  Proof. intros H Hi Ef. specialize (H σ Hi). by rewrite Ef in H. Qed.
  Lemma gd_nb {A} (I : state → Prop) (f : action K V A) φ σ : gd me I f φ → I σ → f me false σ ≠ Block.
  Proof. intros H Hi Ef. specialize (H σ Hi). by rewrite Ef in H. Qed.
  Lemma tmg_gd {A B} (I : state → Prop) (f : action K V A) φ (k : A → prog B) Q σ : gd me I f φ → I σ →
    (∀ x σ', f me false σ = Ok x σ' → G σ' → I σ' → φ x σ' → tmg (k x) Q σ') → tmg (bind (act f) k) Q σ.
  Proof. intros H Hi Hk. apply tmg_act; [by eapply gd_nb|]. intros x σ' Ef Hg. right. destruct (gd_ok _ _ _ _ _ _ H Hi Ef). by apply Hk. Qed.

  Lemma g_promote h nx n cl cd L σ : SN L σ → G σ → CX h nx cl cd σ →
    tmg (try_promote h nx n) (λ b σ', SN L σ' ∧ G σ' ∧ ((b = true ∧ CT nx σ') ∨ (b = false ∧ cd + n ≠ th_len h ∧ CX h nx cl (cd + n) σ'))) σ.
  Proof.
    intros HS HG HC. unfold try_promote. eapply (tmg_seq _ _ _ _ _ (λ x σ', x = cd + n ∧ SN L σ' ∧ G σ' ∧ CX h nx cl (cd + n) σ')).
    { destruct (Nat.ltb_spec 0 n) as [Ln|Ln].
      - eapply tmg_gd; [apply (g_add_copied me None None None None None L)|done|]. intros x σ1 Ef Hg S1 _. unfold a_add_copied in Ef. apply wtR in Ef as (tbn & Et & Ef). injection Ef as <- <-.
        pose proof HC as (_ & _ & _ & (tbn' & B1 & _ & B3 & B4) & _). rewrite Et in B1. injection B1 as <-. apply tmg_ret. split; [by rewrite B4|]. split; [done|]. split; [done|].
        eapply CX_upd; [done|done|done|done|done|]. cbn. lia.
      - replace n with 0 by lia. rewrite Nat.add_0_r. apply tmg_acte; [eapply gd_nb; [apply (g_load_copied me None None None None None L)|done]|]. intros x σ1 Ef Hg. right.
        unfold a_load_copied in Ef. apply wtR in Ef as (tbn & Et & Ef). injection Ef as <- <-.
        pose proof HC as (_ & _ & _ & (tbn' & B1 & _ & B3 & B4) & _). rewrite Et in B1. by injection B1 as <-. }
    intros x σ1 (-> & S1 & G1 & C1). destruct (Nat.eqb_spec (cd + n) (th_len h)) as [Q|Q]; [|apply tmg_ret; split; [done|]; split; [done|]; by right].
    eapply tmg_gd; [apply (g_root_raw me None None None None None L)|exact S1|]. intros r σ2 Ef G2 S2 _. unfold a_root_raw in Ef. injection Ef as <- <-.
    rewrite (proj1 C1). rewrite bool_decide_eq_true_2 by done.
    eapply tmg_gd; [apply (g_cas_root me None None None None None L)|exact S1|]. intros ok σ2 Ef G2' S2' _. unfold a_cas_root in Ef. rewrite decide_True in Ef by apply C1. injection Ef as <- <-.
    pose proof (CX_promoted _ _ _ _ _ C1) as CP. eapply (tmg_seq _ _ _ _ _ (λ _ σ', SN L σ' ∧ G σ' ∧ CT nx σ')).
    { eapply tmg_gd; [apply (g_store_status me None None None None None L)|exact S2'|]. intros u σ3 Ef G3 S3 _. pose proof (CT_R _ _ _ CP (ar_store_status _ _ _ _ _ Ef)) as C3.
      apply tmg_acte; [eapply gd_nb; [apply (g_retire me None None None None None L)|exact S3]|]. intros u2 σ4 Ef4 G4. right.
      destruct (gd_ok _ _ _ _ _ _ (g_retire me None None None None None L _) S3 Ef4) as [S4 _]. split; [done|]. split; [done|]. eapply CT_R; [exact C3|by eapply ar_retire]. }
    intros _ σ3 (S3 & G3 & C3). eapply tm_tmg_seq; [|exact G3|].
    { eapply (tm_frame me R R_trans); [apply in_unpark|left; reflexivity|]. by apply (p_unpark me None None None None None L). }
    intros u σ4 [S4 F4] G4. apply tmg_ret. split; [done|]. split; [done|]. left. split; [done|]. destruct F4 as [<-|F4]; [done|by eapply CT_R].
  Qed.

  (** Finishing a resize alone. *)
  Lemma g_help L h h0 σ : SN L σ → G σ → CT h σ →
    tmg (help_copy cfg true h0) (λ nx σ', ∃ L', L ≤ L' ∧ SN L' σ' ∧ G σ' ∧ CT nx σ' ∧ (th nx = Datatypes.S (th h) ∨ (nx = h ∧ L ≤ Datatypes.S (th h)))) σ.
  Proof.
    intros HS HG HC. unfold help_copy. rewrite Hinc. apply tmg_bind. set (Q := λ nx (σ' : state), ∃ L', L ≤ L' ∧ SN L' σ' ∧ G σ' ∧ CT nx σ' ∧ (th nx = Datatypes.S (th h) ∨ (nx = h ∧ L ≤ Datatypes.S (th h)))).
    enough (Y : tmg (help_copy_incremental cfg chunk true) Q σ) by (eapply tmg_mono; [exact Y|]; intros nx σ' H; exact H).
    unfold help_copy_incremental. eapply tmg_gd; [apply (g_root me None None None None None L)|done|]. intros r σ1 Ef _ _ _. unfold a_root in Ef. pose proof HC as (A1 & (tb & A2 & A3) & A4).
    rewrite A1 in Ef. apply wtR in Ef as (tb' & Et & Ef). rewrite A2 in Et. injection Et as <-. injection Ef as <- <-. rewrite A3.
    eapply tmg_gd; [apply (g_next me None None None None None L)|done|]. intros r σ1 Ef _ _ _. unfold a_next in Ef. apply wtR in Ef as (tb' & Et & Ef). rewrite A2 in Et. injection Et as <-.
    rewrite (G_next _ _ _ HG A2) in Ef. pose proof (so_len _ _ _ _ _ _ _ HS) as EL. rewrite EL in Ef. destruct (decide (Datatypes.S (th h) < L)) as [Ln|Ln].
    2: { injection Ef as <- <-. apply tmg_ret. exists L. split_and!; [done|done|done|done|]. right. split; [done|lia]. }
    apply wtR in Ef as (tbn & En & Ef). injection Ef as <- <-. set (nx := handle (Datatypes.S (th h)) tbn).
    destruct (CT_CX h nx tbn σ HC) as [cl CX0]; [done|done|done|]. clear A1 A2 A3 A4 HC EL. assert (Enx : th nx = Datatypes.S (th h)) by done. clearbody nx.
    apply tmg_loop1. eapply tmg_seq; [by eapply g_promote|]. intros b σ1 (S1 & G1 & [(-> & C1)|(-> & N1 & C1)]).
    { apply tmg_ret. exists L. split_and!; [done|done|done|done|]. by left. }
    rewrite Nat.add_0_r in N1, C1. assert (Lc : cl < th_len h) by lia. clear N1.
    eapply (tmg_seq _ _ _ _ _ (λ d σ', d = true ∧ Q nx σ')).
    2: { intros d σ2 [-> H]. cbn [orb negb]. by apply tmg_ret. }
    assert (INV : ∀ d L1 cl σ1, d = th_len h - cl → L ≤ L1 → SN L1 σ1 → G σ1 → CX h nx cl (cl `min` th_len h) σ1 → cl < th_len h →
      tmg (loop (λ _ : unit,
                (c ← act (a_load_claim nx);
                 if th_len h <=? c then Ret (inr false) else
                 (start ← act (a_add_claim nx chunk);
                  copied ← copy_chunk_incremental cfg chunk start h nx 0;
                  ok ← try_promote h nx copied;
                  if (ok : bool) || negb true then Ret (inr true) else Ret (inl tt))))%prog tt) (λ d σ', d = true ∧ Q nx σ') σ1); [|by eapply INV].
    clear σ HS HG CX0 En σ1 S1 G1 C1 cl Lc. intros d. induction (lt_wf d) as [d _ IH]. intros L1 cl σ Ed LL HS HG HC Lc. apply tmg_loop1.
    eapply tmg_gd; [apply (g_load_claim me None None None None None L1)|exact HS|]. intros c σ1 Ef _ _ _. unfold a_load_claim in Ef. apply wtR in Ef as (tb1 & Et & Ef). injection Ef as <- <-.
    pose proof HC as (_ & _ & _ & (tb1' & B1 & _ & B3 & B4) & _). rewrite Et in B1. injection B1 as <-. rewrite B3. destruct (Nat.leb_spec (th_len h) cl) as [X|_]; [lia|].
    eapply tmg_gd; [apply (g_add_claim me None None None None None L1)|exact HS|]. intros st σ1 Ef G1 S1 _. unfold a_add_claim in Ef. apply wtR in Ef as (tb2 & Et2 & Ef). rewrite Et in Et2. injection Et2 as <-. injection Ef as <- <-.
    rewrite B3 in G1, S1 |- *. assert (C1 : CX h nx (cl + chunk) (cl `min` th_len h) (upd_table (th nx) (t_set_claim (cl + chunk) tb1) σ)) by (by eapply CX_upd).
    revert C1 S1 G1. generalize (upd_table (th nx) (t_set_claim (cl + chunk) tb1) σ). clear σ HS HG HC Et B3 B4. intros σ HC HS HG.
    assert (Lx : th nx < L1). { pose proof HC as (_ & _ & _ & (t' & B1 & _) & _). rewrite <- (so_len _ _ _ _ _ _ _ HS). by eapply lookup_lt_Some. }
    eapply tm_tmg_seq; [|exact HG|].
    { eapply (tm_frame me R R_trans); [apply in_copy_chunk|left; reflexivity|]. eapply (tm_vp me); [apply vp_copy_chunk|].
      eapply (p_copy_chunk cfg me chunk cl h nx 0 None L1); [exact HS|done|exact Lx]. }
    intros n σ1 [[(L2 & LL2 & S2) En] F2] G2. assert (C2 : CX h nx (cl + chunk) (cl `min` th_len h) σ1) by (destruct F2 as [<-|F2]; [done|by eapply CX_R]).
    assert (D : cl `min` th_len h + n = (cl + chunk) `min` th_len h) by lia.
    eapply tmg_seq; [by eapply g_promote|]. intros b σ2 (S3 & G3 & [(-> & C3)|(-> & N3 & C3)]).
    - apply tmg_ret. split; [done|]. exists L2. split_and!; [lia|done|done|done|]. by left.
    - apply tmg_ret. rewrite D in C3, N3. eapply (IH (th_len h - (cl + chunk))); [lia|done| |exact S3|done|exact C3|lia]. lia.
  Qed.
End solo.
