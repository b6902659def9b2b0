(** Blocking resizing, one thread running alone from a state without a resize in progress: each call ends, or allocates tables
    without bound. *)
From Verif Require Export SoloX.

Section solo.
  Context {K V : Type} {Keq : EqDecision K} (cfg : config K) (me : nat) (Hblk : c_mode cfg = Blocking).
  (** The escape: it holds as soon as the map has had [N] tables. *)
  Context (ESC : state K V → Prop) (N : nat) (HE : ∀ σ : state K V, N ≤ length (tables σ) → ESC σ).
  Notation state := (state K V). Notation prog := (prog K V).
  Notation cout := (cout (K:=K) (V:=V)).
  Notation tmx := (tmx (K:=K) (V:=V) me ESC).

  Definition goodt (tb : table) (cl cd : nat) (st : status) : Prop :=
    t_next tb = None ∧ (∀ j, t_lock tb ≠ LHeld j) ∧ (∀ i s, t_slots tb !! i = Some s → e_copying (s_ent s) = false) ∧
    t_claim tb = cl ∧ t_copied tb = cd ∧ t_status tb = st.
  (** [r]: the root table; [L]: the last table, which has no next table, is not being allocated from, and has no marked entries;
      its resize counters. *)
  Definition LT (r L cl cd : nat) (st : status) (σ : state) : Prop :=
    root σ = Some r ∧ length (tables σ) = S L ∧ ∃ tb, tables σ !! L = Some tb ∧ goodt tb cl cd st.
  (** The root is the last table. *)
  Definition BQ (L : nat) (σ : state) : Prop := ∃ cl cd st, LT L L cl cd st σ.

  Lemma LT_upd r L cl cd st cl' cd' st' σ t tb tb' : LT r L cl cd st σ → tables σ !! t = Some tb →
    (t = L → goodt tb cl cd st → goodt tb' cl' cd' st') → (t ≠ L → cl' = cl ∧ cd' = cd ∧ st' = st) → LT r L cl' cd' st' (upd_table t tb' σ).
  Proof.
    intros (R & Ln & tl & El & G) Et H1 H2. split; [done|]. split; [cbn; by rewrite insert_length|].
    destruct (decide (t = L)) as [->|Nt].
    - exists tb'. split; [cbn; apply list_lookup_insert; by eapply lookup_lt_Some|]. rewrite Et in El. injection El as ->. auto.
    - destruct (H2 Nt) as (-> & -> & ->). exists tl. split; [cbn; by rewrite list_lookup_insert_ne|done].
  Qed.
  Lemma LT_slot r L cl cd st σ t i tb s s' : LT r L cl cd st σ → tables σ !! t = Some tb → t_slots tb !! i = Some s →
    (t = L → e_copying (s_ent s) = false → e_copying (s_ent s') = false) → LT r L cl cd st (upd_slot t i tb s' σ).
  Proof.
    intros H Et Es Hs. eapply LT_upd; [done..| |done]. intros -> (G1 & G2 & G3 & G4). split; [done|]. split; [done|]. split; [|done].
    intros j x. cbn. destruct (decide (j = i)) as [->|Ne]; [|rewrite list_lookup_insert_ne by done; apply G3].
    rewrite list_lookup_insert by (by eapply lookup_lt_Some). intros [= <-]. apply Hs; [done|]. by eapply G3.
  Qed.
  Lemma LT_eq r L cl cd st σ σ' : LT r L cl cd st σ → tables σ' = tables σ → root σ' = root σ → LT r L cl cd st σ'.
  Proof. unfold LT. by intros H -> ->. Qed.
  Lemma BQ_slot L σ i tb s s' : BQ L σ → tables σ !! L = Some tb → t_slots tb !! i = Some s →
    (e_copying (s_ent s) = false → e_copying (s_ent s') = false) → BQ L (upd_slot L i tb s' σ).
  Proof. intros (cl & cd & st & H) Et Es Hs. exists cl, cd, st. eapply LT_slot; eauto. Qed.
  Lemma BQ_eq L σ σ' : BQ L σ → tables σ' = tables σ → root σ' = root σ → BQ L σ'.
  Proof. intros (cl & cd & st & H) E1 E2. exists cl, cd, st. by eapply LT_eq. Qed.
  Lemma BQ_unmarked L σ i e : BQ L σ → is_ent L i e σ → e_copying e = false.
  Proof.
    intros (cl & cd & st & _ & _ & tl & El & _ & _ & G & _) (tb & s & Et & Es & <-). rewrite Et in El. injection El as ->. by eapply G.
  Qed.
  Lemma ent_eq t i e (σ σ' : state) : is_ent t i e σ → tables σ' = tables σ → is_ent t i e σ'.
  Proof. unfold is_ent. by intros H ->. Qed.

  (** ** Actions *)
  Lemma wt {A} t σ (f : table → outcome K V A) (P : A → state → Prop) :
    (∀ tb, tables σ !! t = Some tb → match f tb with Ok x σ' => P x σ' | Block => False | UB => True end) →
    match with_table t σ f with Ok x σ' => P x σ' | Block => False | UB => True end.
  Proof. apply with_table_spec. Qed.
  Lemma ws {A} t i σ (f : table → slot → outcome K V A) (P : A → state → Prop) :
    (∀ tb s, tables σ !! t = Some tb → t_slots tb !! i = Some s → match f tb s with Ok x σ' => P x σ' | Block => False | UB => True end) →
    match with_slot t i σ f with Ok x σ' => P x σ' | Block => False | UB => True end.
  Proof. apply with_slot_spec. Qed.
  (** Reads leave the state alone. *)
  Definition rd {A} (f : action K V A) (φ : A → state → Prop) : Prop :=
    ∀ σ, match f me false σ with Ok x σ' => σ' = σ ∧ φ x σ | Block => False | UB => True end.
  Lemma x_rd {A B} (f : action K V A) φ (k : A → prog B) Q σ : rd f φ → (∀ x, φ x σ → tmx (k x) Q σ) → tmx (bind (act f) k) Q σ.
  Proof.
    intros H Hk. eapply (tmx_act _ _ _ (λ x σ', σ' = σ ∧ φ x σ)).
    - specialize (H σ). destruct (f me false σ); auto.
    - by intros x σ' [-> Hx]; apply Hk.
  Qed.
  Lemma rd_meta tb i : rd (a_load_meta tb i) tru. Proof. intros σ. by apply (ws _ _ σ _ (λ _ σ', σ' = σ ∧ _)). Qed.
  Lemma rd_ent tb i : rd (a_load_ent tb i) (λ e σ, is_ent (th tb) i e σ).
  Proof. intros σ. apply (ws _ _ σ _ (λ x σ', σ' = σ ∧ _)). intros t s Et Es. split; [done|]. by exists t, s. Qed.
  Lemma rd_deref p : rd (a_deref p) tru.
  Proof. intros σ. unfold a_deref. destruct (decide _); [done|]. by destruct (heap σ !! p). Qed.
  Lemma rd_next tb : rd (a_next tb) (λ r σ, ∃ t, tables σ !! th tb = Some t ∧ option_map th r = t_next t).
  Proof.
    intros σ. apply (wt _ σ _ (λ _ σ', σ' = σ ∧ _)). intros t Et. destruct (t_next t) as [t'|] eqn:En.
    - apply (wt _ σ _ (λ _ σ', σ' = σ ∧ _)). intros t1 Et1. split; [done|]. exists t. by rewrite En.
    - split; [done|]. exists t. by rewrite En.
  Qed.
  Lemma rd_copied tb : rd (a_load_copied tb) (λ c σ, ∃ t, tables σ !! th tb = Some t ∧ c = t_copied t).
  Proof. intros σ. apply (wt _ σ _ (λ x σ', σ' = σ ∧ _)). intros t Et. eauto. Qed.
  Lemma rd_claim tb : rd (a_load_claim tb) (λ c σ, ∃ t, tables σ !! th tb = Some t ∧ c = t_claim t).
  Proof. intros σ. apply (wt _ σ _ (λ x σ', σ' = σ ∧ _)). intros t Et. eauto. Qed.
  Lemma rd_status tb : rd (a_load_status tb) (λ c σ, ∃ t, tables σ !! th tb = Some t ∧ c = t_status t).
  Proof. intros σ. apply (wt _ σ _ (λ x σ', σ' = σ ∧ _)). intros t Et. eauto. Qed.
  Lemma rd_root : rd a_root (λ r σ, option_map th r = root σ).
  Proof. intros σ. unfold a_root. destruct (root σ) as [t|]; [|done]. by apply (wt _ σ _ (λ x σ', σ' = σ ∧ option_map th x = Some t)). Qed.
  Lemma rd_root_raw : rd a_root_raw (λ r σ, r = root σ). Proof. by intros σ. Qed.
  Lemma rd_shards : rd a_shards tru. Proof. by intros σ. Qed.
  Lemma rd_shard j : rd (a_load_shard j) tru. Proof. by intros σ. Qed.
  Lemma rd_pending tb : rd (a_pk_pending tb) tru. Proof. intros σ. by apply (wt _ σ _ (λ _ σ', σ' = σ ∧ _)). Qed.

  (** Invariants kept by the actions that concern neither slots nor counters. *)
  Definition kept (I : state → Prop) : Prop := (∀ σ σ', I σ → tables σ' = tables σ → root σ' = root σ → I σ') ∧
    (∀ σ t tb p, I σ → tables σ !! t = Some tb → I (upd_table t (t_set_parker p tb) σ)).
  Lemma kept_LT r L cl cd st : kept (LT r L cl cd st).
  Proof. split; [intros; by eapply LT_eq|]. intros σ t tb p H Et. eapply LT_upd; [done..| |done]. by intros _ G. Qed.
  Lemma kept_BQ L : kept (BQ L).
  Proof. split; [intros; by eapply BQ_eq|]. intros σ t tb p (cl & cd & st & H) Et. exists cl, cd, st. by apply kept_LT. Qed.
  Lemma x_retire {B} (I : state → Prop) o (k : unit → prog B) Q σ : kept I → I σ → (∀ σ', I σ' → tmx (k tt) Q σ') → tmx (bind (act (a_retire o)) k) Q σ.
  Proof.
    intros [HI _] H Hk. eapply (tmx_act _ _ _ (λ _ σ', I σ')); [|by intros []]. unfold a_retire. destruct (decide _); [done|]. right. by eapply HI.
  Qed.
  Lemma x_retiree (I : state → Prop) o σ : kept I → I σ → tmx (act (a_retire o)) (λ _ σ', I σ') σ.
  Proof. intros [HI _] H. apply tmx_acte. unfold a_retire. destruct (decide _); [done|]. right. by eapply HI. Qed.
  Lemma x_count {B} (I : state → Prop) d (k : unit → prog B) Q σ : kept I → I σ → (∀ σ', I σ' → tmx (k tt) Q σ') → tmx (bind (act (a_count d)) k) Q σ.
  Proof. intros [HI _] H Hk. eapply (tmx_act _ _ _ (λ _ σ', I σ')); [|by intros []]. right. by eapply HI. Qed.
  Lemma x_unpark_all (I : state → Prop) l : kept I → ∀ σ, I σ → tmx (unpark_all l) (λ _ σ', I σ') σ.
  Proof.
    intros HI. induction l as [|j l IH]; intros σ H; [done|]. cbn [unpark_all]. eapply (tmx_act _ _ _ (λ _ σ', I σ')); [|by intros; apply IH].
    cbn. right. destruct HI as [HI _]. by eapply HI.
  Qed.
  Lemma x_unpark (I : state → Prop) tb k σ : kept I → I σ → tmx (unpark tb k) (λ _ σ', I σ') σ.
  Proof.
    intros HI H. unfold unpark. eapply x_rd; [apply rd_pending|]. intros n _. destruct (n =? 0)%Z; [done|].
    eapply (tmx_act _ _ _ (λ _ σ', I σ')).
    { apply (wt _ σ _ (λ _ σ', ESC σ' ∨ I σ')). intros t Et. cbn zeta. right. by apply HI. }
    intros [|t l] σ1 H1; [done|]. eapply (tmx_act _ _ _ (λ _ σ', I σ')).
    { apply (wt _ σ1 _ (λ _ σ', ESC σ' ∨ I σ')). intros t' Et. cbn zeta. right. by apply HI. }
    intros _ σ2 H2. by apply x_unpark_all.
  Qed.
  Lemma x_sum n : ∀ j acc (Q : Z → state → Prop) σ, (∀ z, Q z σ) → tmx (sum_shards n j acc) Q σ.
  Proof. induction n as [|n IH]; intros j acc Q σ H; [apply H|]. cbn [sum_shards]. eapply x_rd; [apply rd_shard|]. intros; by apply IH. Qed.
  Lemma x_map_len (Q : nat → state → Prop) σ : (∀ z, Q z σ) → tmx map_len Q σ.
  Proof. intros H. unfold map_len. eapply x_rd; [apply rd_shards|]. intros n _. apply tmx_bind. apply x_sum. intros; apply tmx_ret, H. Qed.
  (** Stores of meta words keep the invariants and the entries. *)
  Lemma x_meta {B} L tb i m (k : unit → prog B) Q σ : BQ L σ → th tb = L →
    (∀ σ', BQ L σ' → (∀ j e, is_ent L j e σ → is_ent L j e σ') → tmx (k tt) Q σ') → tmx (bind (act (a_store_meta tb i m)) k) Q σ.
  Proof.
    intros H <- Hk. eapply (tmx_act _ _ _ (λ _ σ', BQ (th tb) σ' ∧ ∀ j e, is_ent (th tb) j e σ → is_ent (th tb) j e σ')).
    - apply (ws _ _ σ _ (λ _ σ', ESC σ' ∨ BQ (th tb) σ' ∧ ∀ j e, is_ent (th tb) j e σ → is_ent (th tb) j e σ')). intros t s Et Es. right.
      split; [by eapply BQ_slot|]. intros j e (t' & s' & Et' & Es' & He). rewrite Et in Et'. injection Et' as <-.
      destruct (decide (j = i)) as [->|Nj].
      + rewrite Es in Es'. injection Es' as <-. exists (t_set_slots (<[i := Slot m (s_ent s)]>) t), (Slot m (s_ent s)).
        split; [cbn; apply list_lookup_insert; by eapply lookup_lt_Some|]. split; [cbn; apply list_lookup_insert; by eapply lookup_lt_Some|done].
      + eexists _, s'. split; [cbn; apply list_lookup_insert; by eapply lookup_lt_Some|]. split; [cbn; by rewrite list_lookup_insert_ne|done].
    - intros [] σ' []. by apply Hk.
  Qed.

  (** ** Updates of slots of the root *)
  Lemma x_defer e L tb σ : BQ L σ → tmx (defer_retire cfg e tb) (λ _ σ', BQ L σ') σ.
  Proof. intros H. unfold defer_retire. rewrite Hblk. apply x_retiree; [apply kept_BQ|done]. Qed.
  Lemma x_update_at i cur new tb L σ : BQ L σ → th tb = L → is_ent L i cur σ →
    tmx (update_at cfg i cur new tb) (λ r σ', BQ L σ' ∧ ∃ a b, r = UReplaced a b) σ.
  Proof.
    intros H <- (t & s & Et & Es & Ee).
    assert (Tr : ∀ w : bool, s_ent s = cur ∧ ¬ (w = true ∧ false = true)) by (intros w; split; [done|by intros []]).
    destruct new as [kv|]; cbn [update_at].
    - eapply (tmx_act _ _ _ (λ r σ', BQ (th tb) σ' ∧ ∃ p, r = inl p)).
      + unfold a_cas_pub, with_slot, with_table. rewrite Et. destruct (t_freed t); [done|]. rewrite Es. destruct (exp_freed cur σ); [done|].
        rewrite decide_True by (exact (Tr true)). right. split; [|eauto]. eapply BQ_eq; [eapply BQ_slot; [exact H|exact Et|exact Es|]|done|done]. done.
      + intros r σ1 [H1 [p ->]]. eapply tmx_seq; [by apply x_defer|]. intros u σ2 H2. apply tmx_ret. split; [done|eauto].
    - eapply (tmx_act _ _ _ (λ r σ', BQ (th tb) σ' ∧ r = inl tt)).
      + unfold a_cas_ent, with_slot, with_table. rewrite Et. destruct (t_freed t); [done|]. rewrite Es. destruct (exp_freed cur σ); [done|].
        rewrite decide_True by (exact (Tr true)). right. split; [|done]. eapply BQ_slot; [exact H|exact Et|exact Es|]. done.
      + intros r σ1 [H1 ->]. eapply tmx_seq; [by apply x_defer|]. intros u σ2 H2. apply tmx_ret. split; [done|eauto].
  Qed.
  Lemma x_insert_slow i e kv tb L σ : BQ L σ → th tb = L → is_ent L i e σ →
    tmx (insert_slow cfg i e kv tb) (λ r σ', BQ L σ' ∧ ∃ a b, r = UReplaced a b) σ.
  Proof.
    intros H Et He. unfold insert_slow. apply tmx_loop1. eapply tmx_seq; [by eapply x_update_at|]. intros r σ1 [H1 (a & b & ->)]. apply tmx_ret. eauto.
  Qed.
  Lemma x_insert_at i m kv tb L σ : BQ L σ → th tb = L →
    tmx (insert_at cfg i m kv tb) (λ r σ', BQ L σ' ∧ match r with IFound (SCopied _) => False | IFound (SValue e) => is_ent L i e σ' | _ => True end) σ.
  Proof.
    intros H <-. unfold insert_at. eapply (tmx_act _ _ _ (λ r σ', BQ (th tb) σ' ∧ ∀ f, r = inr f → is_ent (th tb) i f σ')).
    - apply (ws _ _ σ _ (λ r σ', ESC σ' ∨ BQ (th tb) σ' ∧ ∀ f, r = inr f → is_ent (th tb) i f σ')). intros t s Et Es. cbn [exp_freed e_ptr NULLW].
      destruct (decide _); right.
      + split; [|done]. eapply BQ_eq; [eapply BQ_slot; [exact H|exact Et|exact Es|]|done|done]. done.
      + split; [done|]. intros f [= <-]. by exists t, s.
    - intros [p|f] σ1 [H1 Hf].
      + eapply x_meta; [done|done|]. intros σ2 H2 _. by apply tmx_ret.
      + specialize (Hf f eq_refl). destruct (e_ptr f) as [p|].
        * cbn [bind]. eapply x_rd; [apply rd_deref|]. intros kv' _. cbn [bind]. eapply x_rd; [apply rd_meta|]. intros m2 _. destruct (m2 =? EMPTY)%N; [|done].
          eapply x_meta; [done|done|]. intros σ2 H2 K2. apply tmx_ret. split; [done|]. by apply K2.
        * cbn [bind]. eapply x_rd; [apply rd_meta|]. intros m2 _. destruct (m2 =? EMPTY)%N; [|done].
          eapply x_meta; [done|done|]. intros σ2 H2 K2. by apply tmx_ret.
  Qed.

  (** ** Allocating *)
  Lemma x_alloc_locked cap r L cl cd st tb σ : root σ = Some r → length (tables σ) = S L → th tb = L →
    (∃ t, tables σ !! L = Some t ∧ goodt (t_set_lock LFree t) cl cd st) →
    tmx (alloc_locked cfg cap tb) (λ nx σ', th nx = S L ∧ LT r (S L) 0 0 PENDING σ' ∧ (∃ t, tables σ' !! L = Some t ∧ t_next t = Some (S L)) ∧ S (S L) < N) σ.
  Proof.
    intros R Ln <- (t & Et & G). unfold alloc_locked. eapply x_rd; [apply rd_next|]. intros nx (t' & Et' & En). rewrite Et in Et'. injection Et' as <-.
    destruct G as (G1 & G2 & G3 & G4). cbn in G1. rewrite G1 in En. destruct nx as [nx|]; [done|]. clear En.
    apply tmx_bind. apply x_map_len. intros act. cbn zeta. destruct (alloc_len _) as [len|].
    - eapply (tmx_act _ _ _ (λ nx σ', th nx = S (th tb) ∧ S (S (th tb)) < N ∧ LT r (S (th tb)) 0 0 PENDING σ' ∧ ∃ t, tables σ' !! th tb = Some t ∧ t_next t = Some (S (th tb)))).
      + apply (wt _ σ _ (λ nx σ', ESC σ' ∨ th nx = S (th tb) ∧ S (S (th tb)) < N ∧ LT r (S (th tb)) 0 0 PENDING σ' ∧ ∃ t, tables σ' !! th tb = Some t ∧ t_next t = Some (S (th tb)))).
        intros t' Et'. rewrite Et in Et'. injection Et' as <-. cbn zeta. rewrite Ln.
        set (σ' := set_tables _ _). assert (Ls : length (tables σ') = S (S (th tb))) by (cbn; rewrite app_length, insert_length, Ln; cbn; lia).
        destruct (decide (N ≤ S (S (th tb)))) as [Le|Gt]; [left; apply HE; by rewrite Ls|right].
        split; [done|]. split; [lia|]. split.
        * split; [done|]. split; [done|]. exists (new_table len PENDING). split.
          { cbn. rewrite lookup_app_r; rewrite insert_length, Ln; [|lia]. by replace (S (th tb) - S (th tb)) with 0 by lia. }
          split; [done|]. split; [done|]. split; [|done]. cbn. by intros i s [-> _]%lookup_replicate.
        * exists (t_set_next (Some (S (th tb))) t). split; [|done]. cbn. rewrite lookup_app_l by (rewrite insert_length; lia).
          apply list_lookup_insert. lia.
      + intros nx σ1 (E1 & E2 & H1 & t1 & Et1 & Nt1). eapply (tmx_act _ _ _ (λ _ σ', LT r (S (th tb)) 0 0 PENDING σ' ∧ ∃ t, tables σ' !! th tb = Some t ∧ t_next t = Some (S (th tb)))).
        * apply (wt _ σ1 _ (λ _ σ', ESC σ' ∨ LT r (S (th tb)) 0 0 PENDING σ' ∧ ∃ t, tables σ' !! th tb = Some t ∧ t_next t = Some (S (th tb)))).
          intros t' Et'. rewrite Et1 in Et'. injection Et' as <-. right. split; [eapply LT_upd; [exact H1|exact Et1|lia|done]|].
          eexists. split; [cbn; apply list_lookup_insert; by eapply lookup_lt_Some|]. done.
        * intros _ σ2 [H2 H3]. by apply tmx_ret.
    - cbn. unfold a_poison, with_table. rewrite Et. destruct (t_freed t); [done|]. by right.
  Qed.
  Lemma x_goa cap r L cl cd st tb σ : LT r L cl cd st σ → th tb = L →
    tmx (get_or_alloc_next cfg cap tb) (λ nx σ', th nx = S L ∧ LT r (S L) 0 0 PENDING σ' ∧ (∃ t, tables σ' !! L = Some t ∧ t_next t = Some (S L)) ∧ S (S L) < N) σ.
  Proof.
    intros (R & Ln & t & Et & G) <-. unfold get_or_alloc_next. eapply x_rd; [apply rd_next|]. intros nx (t' & Et' & En). rewrite Et in Et'. injection Et' as <-.
    rewrite (proj1 G) in En. destruct nx as [nx|]; [done|]. clear En.
    assert (AL : ∀ σ' : state, σ' = upd_table (th tb) (t_set_lock (LHeld me) t) σ →
      tmx (alloc_locked cfg cap tb) (λ nx σ', th nx = S (th tb) ∧ LT r (S (th tb)) 0 0 PENDING σ' ∧ (∃ t, tables σ' !! th tb = Some t ∧ t_next t = Some (S (th tb))) ∧ S (S (th tb)) < N) σ').
    { intros σ' ->. eapply (x_alloc_locked cap r (th tb) cl cd st); [done|cbn; by rewrite insert_length|done|].
      exists (t_set_lock (LHeld me) t). split; [cbn; apply list_lookup_insert; by eapply lookup_lt_Some|].
      destruct G as (G1 & G2 & G3 & G4). split; [done|]. split; [done|]. by split. }
    eapply (tmx_act _ _ _ (λ ok σ', (ok = true ∧ σ' = upd_table (th tb) (t_set_lock (LHeld me) t) σ) ∨ (ok = false ∧ σ' = σ))).
    { unfold a_try_lock, with_table. rewrite Et. destruct (t_freed t); [done|]. destruct (t_lock t); auto. }
    intros ok σ1 [[-> E1]|[-> ->]]; [by apply AL|].
    apply tmx_bind. assert (SP : ∀ n, tmx (spin_next n tb) (λ r σ', r = None ∧ σ' = σ) σ).
    { induction n as [|n IH]; [done|]. cbn [spin_next]. eapply x_rd; [apply rd_next|]. intros nx (t' & Et' & En). rewrite Et in Et'. injection Et' as <-.
      rewrite (proj1 G) in En. by destruct nx. }
    eapply tmx_mono; [apply SP|]. intros r0 σ2 [-> ->].
    eapply (tmx_act _ _ _ (λ ok σ', (ok = true ∧ σ' = upd_table (th tb) (t_set_lock (LHeld me) t) σ) ∨ (ok = false ∧ σ' = σ))).
    { unfold a_lock, with_table. rewrite Et. destruct (t_freed t); [done|]. destruct (t_lock t) eqn:El; auto. by destruct (proj1 (proj2 G) _ El). }
    intros ok σ2 [[-> E1]|[-> ->]]; [by apply AL|done].
  Qed.

  (** ** Copying *)
  Lemma x_icp fuel : ∀ r L cl cd st tb e k i len σ, LT r L cl cd st σ → th tb = L → e_copying e = false →
    tmx (insert_copy_probe cfg fuel tb e k i len) (λ _ σ', LT r L cl cd st σ') σ.
  Proof.
    induction fuel as [|fuel IH]; intros r L cl cd st tb e k i len σ H Et Ee; [done|]. cbn [insert_copy_probe].
    assert (ST : ∀ {B} m (kk : unit → prog B) Q σ, LT r L cl cd st σ → (∀ σ', LT r L cl cd st σ' → tmx (kk tt) Q σ') → tmx (bind (act (a_store_meta tb i m)) kk) Q σ).
    { clear. intros B m kk Q σ H Hk. eapply (tmx_act _ _ _ (λ _ σ', LT r L cl cd st σ')); [|by intros []].
      apply (ws _ _ σ _ (λ _ σ', ESC σ' ∨ _ σ')). intros t s Et Es. right. by eapply LT_slot. }
    eapply x_rd; [apply rd_meta|]. intros m _. destruct (m =? EMPTY)%N; [|by apply IH].
    eapply (tmx_act _ _ _ (λ _ σ', LT r L cl cd st σ')).
    { apply (ws _ _ σ _ (λ _ σ', ESC σ' ∨ _ σ')). intros t s Et' Es. cbn [exp_freed e_ptr NULLW]. destruct (decide _); right; [|done]. by eapply LT_slot. }
    intros [[]|f] σ1 H1; [by apply ST|].
    assert (CT : ∀ x, tmx (m2 ← act (a_load_meta tb i); (if (m2 =? EMPTY)%N then act (a_store_meta tb i x) else Ret tt);;
       insert_copy_probe cfg fuel tb e k (probe_next i (S len) (th_mask tb)) (S len))%prog (λ _ σ', LT r L cl cd st σ') σ1).
    { intros x. eapply x_rd; [apply rd_meta|]. intros m2 _. destruct (m2 =? EMPTY)%N; [|by apply IH]. apply ST; [done|]. intros; by apply IH. }
    destruct (e_ptr f) as [p|]; cbn [bind]; [|apply CT]. eapply x_rd; [apply rd_deref|]. intros kv _. cbn [bind]. apply CT.
  Qed.
  Lemma x_insert_copy r L cl cd st e p tb σ : LT r L cl cd st σ → th tb = L → e_copying e = false →
    tmx (insert_copy cfg e p false tb) (λ _ σ', LT r L cl cd st σ') σ.
  Proof.
    intros H Et Ee. unfold insert_copy. eapply x_rd; [apply rd_deref|]. intros kv _. apply tmx_loop1. eapply tmx_seq; [by eapply x_icp|]. by intros [] σ1 H1.
  Qed.
  Lemma x_copy_at i r L cl cd st tb nx σ : LT r L cl cd st σ → th nx = L → th tb = r → r < L →
    tmx (copy_at_blocking cfg i tb nx) (λ _ σ', LT r L cl cd st σ') σ.
  Proof.
    intros H E1 E2 Lt. unfold copy_at_blocking. eapply (tmx_act _ _ _ (λ _ σ', LT r L cl cd st σ')).
    { apply (ws _ _ σ _ (λ _ σ', ESC σ' ∨ _ σ')). intros t s Et' Es. right. eapply LT_slot; [done..|]. lia. }
    intros e σ1 H1. case_bool_decide; [done|]. destruct (e_ptr e) as [p|]; [by apply x_insert_copy|].
    eapply (tmx_act _ _ _ (λ _ σ', LT r L cl cd st σ')); [|done].
    apply (ws _ _ σ1 _ (λ _ σ', ESC σ' ∨ _ σ')). intros t s Et' Es. right. by eapply LT_slot.
  Qed.
  Lemma x_copy_chunk n : ∀ i c0 r L cl cd st tb nx σ, LT r L cl cd st σ → th nx = L → th tb = r → r < L →
    tmx (copy_chunk_blocking cfg n i tb nx c0) (λ res σ', LT r L cl cd st σ' ∧ ∀ c, res = Some c → c = c0 + Nat.min n (th_len tb - i)) σ.
  Proof.
    induction n as [|n IH]; intros i c0 r L cl cd st tb nx σ H E1 E2 Lt; cbn [copy_chunk_blocking].
    { apply tmx_ret. split; [done|]. intros c [= <-]. cbn. lia. }
    destruct (Nat.leb_spec (th_len tb) i) as [Le|Gt].
    { apply tmx_ret. split; [done|]. intros c [= <-]. lia. }
    eapply tmx_seq; [by eapply x_copy_at|]. intros [] σ1 H1; [|by apply tmx_ret].
    eapply tmx_mono; [by eapply IH|]. intros res σ2 [H2 H3]. split; [done|]. intros c Ec. specialize (H3 c Ec). lia.
  Qed.
  (** Promotion. *)
  Lemma x_promote r L cl cd tb nx n σ : LT r L cl cd PENDING σ → th nx = L → th tb = r → r < L →
    tmx (try_promote tb nx n) (λ ok σ', match ok with true => BQ L σ' | false => cd + n ≠ th_len tb ∧ LT r L cl (cd + n) PENDING σ' end) σ.
  Proof.
    intros H E1 E2 Lt. unfold try_promote.
    eapply (tmx_seq _ _ _ _ (λ c σ', c = cd + n ∧ LT r L cl (cd + n) PENDING σ')).
    - destruct (Nat.ltb_spec 0 n) as [Hn|Hn].
      + eapply (tmx_act _ _ _ (λ c σ', c = cd ∧ LT r L cl (cd + n) PENDING σ')); [|by intros c σ' [-> H']].
        apply (wt _ σ _ (λ x σ', ESC σ' ∨ x = cd ∧ _ σ')). intros t Et. right. pose proof H as (_ & _ & tl & El & G). rewrite <- E1, Et in El. injection El as <-.
        pose proof G as (_ & _ & _ & _ & G5 & _). split; [done|]. eapply LT_upd; [exact H|exact Et| |done].
        intros _ (A1 & A2 & A3 & A4 & A5 & A6). repeat split; try done. cbn. by rewrite A5.
      + assert (n = 0) as -> by lia. rewrite Nat.add_0_r. apply tmx_acte. pose proof (rd_copied nx σ) as X.
        destruct (a_load_copied nx me false σ) as [x σ'| |]; [|done|done]. destruct X as [-> (t & Et & ->)]. right.
        pose proof H as (_ & _ & tl & El & G). rewrite <- E1, Et in El. injection El as <-. split; [by apply G|done].
    - intros c σ1 [-> H1]. destruct (Nat.eqb_spec (cd + n) (th_len tb)) as [Eq|Ne]; [|by apply tmx_ret].
      eapply x_rd; [apply rd_root_raw|]. intros r0 ->. rewrite (proj1 H1). rewrite bool_decide_true by congruence.
      eapply (tmx_act _ _ _ (λ ok σ', ok = true ∧ LT L L cl (cd + n) PENDING σ')).
      { unfold a_cas_root. rewrite decide_True by (rewrite (proj1 H1); congruence). right. split; [done|]. destruct H1 as (_ & H1 & H2). split; [cbn; congruence|]. done. }
      intros ok σ2 [-> H2]. cbn [bind].
      eapply (tmx_act _ _ _ (λ _ σ', BQ L σ')).
      { apply (wt _ σ2 _ (λ _ σ', ESC σ' ∨ BQ L σ')). intros t Et. right. exists cl, (cd + n), PROMOTED. eapply LT_upd; [exact H2|exact Et| |lia].
        intros _ (A1 & A2 & A3 & A4 & A5 & A6). by repeat split. }
      intros _ σ3 H3. apply (x_retire (BQ L)); [apply kept_BQ|done|]. intros σ4 H4.
      eapply tmx_seq; [apply (x_unpark (BQ L)); [apply kept_BQ|done]|]. intros u σ5 H5. by apply tmx_ret.
  Qed.
  (** The outer loop of help_copy_blocking, started with a fresh next table. *)
  Lemma x_help tb : ∀ r L σ, th tb = r → r < L → L < N → LT r L 0 0 PENDING σ → (∃ t, tables σ !! r = Some t ∧ t_next t = Some L) →
    tmx (help_copy_blocking cfg tb) (λ nx σ', ∃ L', th nx = L' ∧ L ≤ L' ∧ L' < N ∧ BQ L' σ') σ.
  Proof.
    intros r L0 σ Etb Lt0 LN H (t & Et & Nt). unfold help_copy_blocking. eapply x_rd; [apply rd_next|]. intros nx (t' & Et' & En). rewrite Etb, Et in Et'. injection Et' as <-.
    rewrite Nt in En. destruct nx as [nx|]; [|done]. cbn in En. injection En as En. clear t Et Nt.
    set (body := λ next : tref, _ : prog (tref + tref)).
    assert (OUT : ∀ d L nx σ, d = N - L → L0 ≤ L → L < N → th nx = L → LT r L 0 0 PENDING σ → tmx (loop body nx) (λ nx σ', ∃ L', th nx = L' ∧ L0 ≤ L' ∧ L' < N ∧ BQ L' σ') σ).
    2: { by eapply OUT. }
    clear σ H nx En. induction d as [d IH] using (well_founded_induction lt_wf). intros L nx σ Ed LL LN' En H.
    apply tmx_loop1. unfold body at 1.
    assert (Lst : ∀ cl cd σ, LT r L cl cd PENDING σ → ∀ t, tables σ !! th nx = Some t → t_status t = PENDING ∧ t_claim t = cl).
    { intros cl cd σ0 (_ & _ & tl & El & G) t0 Et0. rewrite <- En, Et0 in El. injection El as <-. split; by apply G. }
    eapply (tmx_seq _ _ _ _ (λ nx' σ', nx' = nx ∧ σ' = σ)).
    { apply tmx_loop1. eapply x_rd; [apply rd_status|]. intros s (t & Et & ->). destruct (Lst _ _ _ H _ Et) as [-> _]. by apply tmx_ret. }
    intros nx' σ' [-> ->]. eapply tmx_seq; [by eapply x_promote; [exact H|done|done|lia]|]. intros [] σ1 H1; [apply tmx_ret; by exists L|].
    destruct H1 as [_ H1]. cbn beta iota zeta. cbn [Nat.add] in H1.
    set (inner := loop _ tt). 
    eapply (tmx_seq _ _ _ _ (λ res σ', match res with None => False | Some (inr n) => n = nx ∧ BQ L σ' | Some (inl n) => th n = S L ∧ S (S L) < N ∧ LT r (S L) 0 0 PENDING σ' end)).
    { unfold inner. clear inner. set (ib := λ _ : unit, _ : prog (unit + option (tref + tref))).
      assert (IN : ∀ m cl σ, m = th_len tb - cl → cl < th_len tb → LT r L cl cl PENDING σ →
        tmx (loop ib tt) (λ res σ', match res with None => False | Some (inr n) => n = nx ∧ BQ L σ' | Some (inl n) => th n = S L ∧ S (S L) < N ∧ LT r (S L) 0 0 PENDING σ' end) σ).
      2: { eapply IN; [done| |exact H1]. unfold th_len. lia. }
      clear IH σ H σ1 H1. induction m as [m IH] using (well_founded_induction lt_wf). intros cl σ Em Lc H. apply tmx_loop1. unfold ib at 1.
      eapply x_rd; [apply rd_claim|]. intros c (t & Et & ->). destruct (Lst _ _ _ H _ Et) as [_ ->].
      destruct (Nat.leb_spec (th_len tb) cl) as [|_]; [lia|].
      eapply (tmx_act _ _ _ (λ st σ', st = cl ∧ LT r L (cl + Nat.min (th_len tb) 4096) cl PENDING σ')).
      { apply (wt _ σ _ (λ x σ', ESC σ' ∨ x = cl ∧ _ σ')). intros t' Et'. right. destruct (Lst _ _ _ H _ Et') as [_ Ec]. split; [done|].
        eapply LT_upd; [exact H|exact Et'| |congruence]. intros _ (A1 & A2 & A3 & A4 & A5 & A6). repeat split; try done. cbn. by rewrite A4. }
      intros st σ2 [-> H2]. eapply tmx_seq; [by eapply x_copy_chunk; [exact H2|done|done|lia]|]. intros [c|] σ3 [H3 Hc].
      - specialize (Hc c eq_refl). cbn [Nat.add] in Hc. eapply tmx_seq; [by eapply x_promote; [exact H3|done|done|lia]|]. intros [] σ4 H4; [by apply tmx_ret|].
        destruct H4 as [Ne H4]. eapply x_rd; [apply rd_status|]. intros s (t' & Et' & ->). destruct (Lst _ _ _ H4 _ Et') as [-> _].
        rewrite bool_decide_false by done. apply tmx_ret.
        assert (Ec : c = Nat.min (th_len tb) 4096) by lia. rewrite <- Ec in H4. assert (0 < c) by (unfold th_len in *; lia).
        eapply (IH (th_len tb - (cl + c))); [lia|done|lia|done].
      - eapply (tmx_act _ _ _ (λ _ σ', LT r L (cl + Nat.min (th_len tb) 4096) cl ABORTED σ')).
        { apply (wt _ σ3 _ (λ _ σ', ESC σ' ∨ _ σ')). intros t' Et'. right. eapply LT_upd; [exact H3|exact Et'| |congruence]. intros _ (A1 & A2 & A3 & A4 & A5 & A6). by repeat split. }
        intros _ σ4 H4. eapply tmx_seq; [by eapply x_goa; [exact H4|done]|]. intros al σ5 (E5 & H5 & _ & L5).
        eapply tmx_seq; [apply x_unpark; [apply kept_LT|exact H5]|]. intros u σ6 H6. apply tmx_ret. by split. }
    intros [[n|n]|] σ2 H2; [| |done].
    - destruct H2 as (E2 & L2 & H2). apply tmx_ret. eapply (IH (N - S L)); [lia|done|lia|lia|done|done].
    - destruct H2 as [-> H2]. apply tmx_ret. by exists L.
  Qed.
  (** A resize started in a quiet state. *)
  Lemma x_resize {B} cap L tb (k : tref → prog B) Q σ : BQ L σ → th tb = L →
    (∀ nx L' σ', th nx = L' → L < L' → L' < N → BQ L' σ' → tmx (k nx) Q σ') →
    tmx (nx0 ← get_or_alloc_next cfg cap tb; nx ← help_copy_blocking cfg tb; k nx)%prog Q σ.
  Proof.
    intros (cl & cd & st & H) Et Hk. eapply tmx_seq; [by eapply x_goa|]. intros nx σ1 (E1 & H1 & H2 & L1).
    eapply tmx_seq; [eapply (x_help tb L (S L)); [done|lia|lia|done|done]|]. intros nx2 σ2 (L' & E2 & L2 & L3 & H3). by eapply Hk; [| | |exact H3]; try done; lia.
  Qed.
End solo.
