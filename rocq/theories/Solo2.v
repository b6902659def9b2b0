(** Termination of the single-key operations in incremental mode, when the calling thread runs alone and nobody else is in the
    middle of copying an entry or of allocating a table. *)
From Verif Require Export Solo.

Section solo.
  Context {K V : Type} {Keq : EqDecision K} (cfg : config K) (me : nat) (chunk : nat) (Hinc : c_mode cfg = Incremental chunk).
  Notation state := (state K V). Notation prog := (prog K V).
  Notation tm := (tm (K:=K) (V:=V) me).

  Definition pend (e : eword) : Prop := e_copying e = true ∧ is_Some (e_ptr e) ∧ e_copied e = false.
  Definition cped (e : eword) : Prop := e_copied e = true ∧ is_Some (e_ptr e).

  (** [H]: the table whose allocation lock I hold; [X]: the slot I am copying; [C]: a slot known to be copied; [F]: a table that is
      still empty; [M]: a table without marked entries; [L]: the number of tables. *)
  Record SO (H : option nat) (X C : option (nat * nat)) (F M : option nat) (L : nat) (σ : state) : Prop := MkSO {
    so_nx : ∀ t tb t', tables σ !! t = Some tb → t_next tb = Some t' → t < t';
    so_lk : ∀ t tb j, tables σ !! t = Some tb → t_lock tb = LHeld j → H = Some t;
    so_pd : ∀ t tb i s, tables σ !! t = Some tb → t_slots tb !! i = Some s → X ≠ Some (t, i) → ¬ pend (s_ent s);
    so_cp : ∀ t tb i s, C = Some (t, i) → tables σ !! t = Some tb → t_slots tb !! i = Some s → cped (s_ent s);
    so_fr : ∀ t tb i s, F = Some t → tables σ !! t = Some tb → t_slots tb !! i = Some s → s = slot0;
    so_mk : ∀ t tb i s, M = Some t → tables σ !! t = Some tb → t_slots tb !! i = Some s → e_copying (s_ent s) = false;
    so_len : length (tables σ) = L }.

  (** Updates of a table that leave its slots alone. *)
  Lemma SO_upd H X C F M L σ t tb tb' H' : SO H X C F M L σ → tables σ !! t = Some tb → t_slots tb' = t_slots tb →
    (∀ t', t_next tb' = Some t' → t < t') → (∀ j, t_lock tb' = LHeld j → H' = Some t) → (∀ t', H = Some t' → t' ≠ t → H' = Some t') →
    SO H' X C F M L (upd_table t tb' σ).
  Proof.
    intros S Et Es En El Hh. destruct S as [A B D E G MK LE].
    assert (Q : ∀ u ub, tables (upd_table t tb' σ) !! u = Some ub → (u = t ∧ ub = tb') ∨ (u ≠ t ∧ tables σ !! u = Some ub)).
    { intros u ub. cbn. destruct (decide (u = t)) as [->|N]; [|rewrite list_lookup_insert_ne by done; auto].
      rewrite list_lookup_insert by (by eapply lookup_lt_Some). intros [= <-]. auto. }
    split.
    - intros u ub t' [[-> ->]|[N Eu]]%Q; eauto.
    - intros u ub j [[-> ->]|[N Eu]]%Q El'; eauto.
    - intros u ub i s [[-> ->]|[N Eu]]%Q; [rewrite Es|]; eauto.
    - intros u ub i s EC [[-> ->]|[N Eu]]%Q; [rewrite Es|]; eauto.
    - intros u ub i s EF [[-> ->]|[N Eu]]%Q; [rewrite Es|]; eauto.
    - intros u ub i s EF [[-> ->]|[N Eu]]%Q; [rewrite Es|]; eauto.
    - cbn. by rewrite insert_length.
  Qed.
  Lemma SO_slot H X X' C F M L σ t tb i s s' : SO H X C F M L σ → tables σ !! t = Some tb → t_slots tb !! i = Some s →
    F ≠ Some t → (X' ≠ Some (t, i) → ¬ pend (s_ent s')) → (∀ y, X = Some y → y ≠ (t, i) → X' = Some y) → (C = Some (t, i) → cped (s_ent s) → cped (s_ent s')) →
    (M = Some t → e_copying (s_ent s) = false → e_copying (s_ent s') = false) →
    SO H X' C F M L (upd_slot t i tb s' σ).
  Proof.
    intros S Et Es NF Np HX Hc Hm. destruct S as [A B D E G MK LE].
    assert (Q : ∀ u ub, tables (upd_slot t i tb s' σ) !! u = Some ub → (u = t ∧ ub = t_set_slots (<[i := s']>) tb) ∨ (u ≠ t ∧ tables σ !! u = Some ub)).
    { intros u ub. cbn. destruct (decide (u = t)) as [->|N]; [|rewrite list_lookup_insert_ne by done; auto].
      rewrite list_lookup_insert by (by eapply lookup_lt_Some). intros [= <-]. auto. }
    assert (Q2 : ∀ j x, t_slots (t_set_slots (<[i := s']>) tb) !! j = Some x → (j = i ∧ x = s') ∨ (j ≠ i ∧ t_slots tb !! j = Some x)).
    { intros j x. cbn. destruct (decide (j = i)) as [->|N]; [|rewrite list_lookup_insert_ne by done; auto].
      rewrite list_lookup_insert by (by eapply lookup_lt_Some). intros [= <-]. auto. }
    assert (HX' : ∀ u j, (u, j) ≠ (t, i) → X' ≠ Some (u, j) → X ≠ Some (u, j)) by (intros u j N N' EX; apply N'; eauto).
    split.
    - intros u ub t' [[-> ->]|[N Eu]]%Q; [cbn|]; eauto.
    - intros u ub j [[-> ->]|[N Eu]]%Q; [cbn|]; eauto.
    - intros u ub j x [[-> ->]|[N Eu]]%Q; [intros [[-> ->]|[N Ej]]%Q2|]; [auto|..].
      + intros NX. eapply D; [done..|]. apply HX'; [congruence|done].
      + intros Ej NX. eapply D; [done..|]. apply HX'; [congruence|done].
    - intros u ub j x EC [[-> ->]|[N Eu]]%Q; [intros [[-> ->]|[N Ej]]%Q2|]; eauto.
    - intros u ub j x EF [[-> ->]|[N Eu]]%Q; [done|]. eauto.
    - intros u ub j x EM [[-> ->]|[N Eu]]%Q; [intros [[-> ->]|[N Ej]]%Q2|]; eauto.
    - cbn. by rewrite insert_length.
  Qed.
  (** Changes that do not concern the tables. *)
  Lemma SO_eq H X C F M L σ σ' : SO H X C F M L σ → tables σ' = tables σ → SO H X C F M L σ'.
  Proof. intros S E. destruct S. split; rewrite E; eauto. Qed.
  Lemma SO_heap H X C F M L h σ : SO H X C F M L σ → SO H X C F M L (set_heap h σ).
  Proof. intros S. by eapply SO_eq. Qed.
  Lemma SO_weakF H X C F M L σ : SO H X C F M L σ → SO H X C None M L σ.
  Proof. intros S. destruct S. split; eauto. intros; done. Qed.
  Lemma SO_weakC H X C F M L σ : SO H X C F M L σ → SO H X None F M L σ.
  Proof. intros S. destruct S. split; eauto. intros; done. Qed.

  (** ** Actions *)
  Definition gd {A} (I : state → Prop) (f : action K V A) (φ : A → state → Prop) : Prop :=
    ∀ σ, I σ → match f me false σ with Ok x σ' => I σ' ∧ φ x σ' | Block => False | UB => True end.
  Lemma tm_gd {A B} (I : state → Prop) (f : action K V A) φ (k : A → prog B) (Q : B → state → Prop) σ : gd I f φ → I σ →
    (∀ x σ', I σ' → φ x σ' → tm (k x) Q σ') → tm (bind (act f) k) Q σ.
  Proof. intros G Hi Hk. cbn. specialize (G σ Hi). destruct (f me false σ) as [x σ'| |]; [|done|done]. destruct G as [A1 A2]. by apply Hk. Qed.
  (** The same, for an action at the end of a program. *)
  Lemma tm_gde {A} (I : state → Prop) (f : action K V A) φ (Q : A → state → Prop) σ : gd I f φ → I σ →
    (∀ x σ', I σ' → φ x σ' → Q x σ') → tm (act f) Q σ.
  Proof. intros G Hi Hk. cbn. specialize (G σ Hi). destruct (f me false σ) as [x σ'| |]; [|done|done]. destruct G as [A1 A2]. by apply Hk. Qed.
  Definition tru {A} (x : A) (σ : state) : Prop := True.

  Lemma with_table_spec {A} t σ (f : table → outcome K V A) (P : A → state → Prop) :
    (∀ tb, tables σ !! t = Some tb → match f tb with Ok x σ' => P x σ' | Block => False | UB => True end) →
    match with_table t σ f with Ok x σ' => P x σ' | Block => False | UB => True end.
  Proof. intros Hf. unfold with_table. destruct (tables σ !! t) as [tb|]; [|done]. destruct (t_freed tb); [done|]. by apply Hf. Qed.
  Lemma with_slot_spec {A} t i σ (f : table → slot → outcome K V A) (P : A → state → Prop) :
    (∀ tb s, tables σ !! t = Some tb → t_slots tb !! i = Some s → match f tb s with Ok x σ' => P x σ' | Block => False | UB => True end) →
    match with_slot t i σ f with Ok x σ' => P x σ' | Block => False | UB => True end.
  Proof. intros Hf. apply with_table_spec. intros tb Et. destruct (t_slots tb !! i) as [s|] eqn:Es; [|done]. by apply Hf. Qed.

  Section acts.
    Context (H : option nat) (X C : option (nat * nat)) (F M : option nat) (L : nat).
    Notation I := (SO H X C F M L).
    Lemma g_root : gd I a_root (λ r σ, ∀ tb, r = Some tb → th tb < L).
    Proof.
      intros σ S. unfold a_root. destruct (root σ) as [t|]; [|done]. apply with_table_spec. intros tb Et. split; [done|].
      intros ? [= <-]. cbn. rewrite <- (so_len _ _ _ _ _ _ _ S). by eapply lookup_lt_Some.
    Qed.
    Lemma g_root_raw : gd I a_root_raw tru. Proof. by intros σ S. Qed.
    Lemma g_load_meta tb i : gd I (a_load_meta tb i) (λ m _, F = Some (th tb) → m = EMPTY).
    Proof. intros σ S. apply with_slot_spec. intros t s Et Es. split; [done|]. intros EF. by rewrite (so_fr _ _ _ _ _ _ _ S _ _ _ _ EF Et Es). Qed.
    Lemma g_load_ent tb i : gd I (a_load_ent tb i) (λ e σ, (X ≠ Some (th tb, i) → ¬ pend e) ∧ (C = Some (th tb, i) → e_copied e = true)).
    Proof.
      intros σ S. apply with_slot_spec. intros t s Et Es. split; [done|]. split; [|intros EC; by apply (so_cp _ _ _ _ _ _ _ S _ _ _ _ EC Et Es)].
      by eapply so_pd.
    Qed.
    Lemma g_store_meta tb i m : F ≠ Some (th tb) → gd I (a_store_meta tb i m) tru.
    Proof.
      intros NF σ S. apply with_slot_spec. intros t s Et Es. split; [|done].
      eapply SO_slot; [done..| |done|done|done]. cbn. by eapply so_pd.
    Qed.
    Lemma g_deref p : gd I (a_deref p) tru.
    Proof. intros σ S. unfold a_deref. destruct (decide _); [done|]. by destruct (heap σ !! p). Qed.
    Lemma g_next tb : gd I (a_next tb) (λ r σ, ∀ nx, r = Some nx → th tb < th nx ∧ th nx < L).
    Proof.
      intros σ S. apply with_table_spec. intros t Et. destruct (t_next t) as [t'|] eqn:En; [|done].
      apply with_table_spec. intros t1 Et1. split; [done|]. intros ? [= <-]. cbn. split; [by eapply so_nx|]. rewrite <- (so_len _ _ _ _ _ _ _ S). by eapply lookup_lt_Some.
    Qed.
    Lemma g_load_copied tb : gd I (a_load_copied tb) tru. Proof. intros σ S. by apply with_table_spec. Qed.
    Lemma g_load_claim tb : gd I (a_load_claim tb) tru. Proof. intros σ S. by apply with_table_spec. Qed.
    Lemma g_load_status tb : gd I (a_load_status tb) tru. Proof. intros σ S. by apply with_table_spec. Qed.
    Lemma g_pk_pending tb : gd I (a_pk_pending tb) tru. Proof. intros σ S. by apply with_table_spec. Qed.
    Local Ltac upd := intros σ S; apply with_table_spec; intros t Et; cbn zeta; split; [|done]; eapply SO_upd;
      [done|done|done|cbn; intros; by eapply so_nx|cbn; intros; by eapply so_lk|auto].
    Lemma g_add_copied tb n : gd I (a_add_copied tb n) tru. Proof. upd. Qed.
    Lemma g_add_claim tb n : gd I (a_add_claim tb n) tru. Proof. upd. Qed.
    Lemma g_store_status tb x : gd I (a_store_status tb x) tru. Proof. upd. Qed.
    Lemma g_defer tb p : gd I (a_defer tb p) tru. Proof. upd. Qed.
    Lemma g_pk_announce tb d : gd I (a_pk_announce tb d) tru. Proof. upd. Qed.
    Lemma g_pk_register tb k : gd I (a_pk_register tb k) tru. Proof. upd. Qed.
    Lemma g_pk_remove tb k id : gd I (a_pk_remove tb k id) tru. Proof. upd. Qed.
    Lemma g_pk_take tb k : gd I (a_pk_take tb k) tru. Proof. upd. Qed.
    Lemma g_unpark j : gd I (a_unpark j) tru. Proof. intros σ S. split; [|done]. by eapply SO_eq. Qed.
    Lemma g_cas_root tb nx : gd I (a_cas_root tb nx) tru.
    Proof. intros σ S. unfold a_cas_root. destruct (decide _); (split; [|done]); [by eapply SO_eq|done]. Qed.
    Lemma g_count d : gd I (a_count d) tru. Proof. intros σ S. split; [|done]. by eapply SO_eq. Qed.
    Lemma g_shard j : gd I (a_load_shard j) tru. Proof. by intros σ S. Qed.
    Lemma g_shards : gd I a_shards tru. Proof. by intros σ S. Qed.
    Lemma g_retire o : gd I (a_retire o) tru.
    Proof. intros σ S. unfold a_retire. destruct (decide _); [done|]. split; [|done]. by eapply SO_eq. Qed.
    (** CAS from null. *)
    Lemma g_cas_null tb i e : F ≠ Some (th tb) → ¬ pend e → (M = Some (th tb) → e_copying e = false) → gd I (a_cas_ent false tb i NULLW e) tru.
    Proof.
      intros NF Ne NM σ S. apply with_slot_spec. intros t s Et Es. cbn [exp_freed e_ptr NULLW]. destruct (decide _) as [[E _]|N]; [|done].
      split; [|done]. eapply SO_slot; [done..| |done| |auto]; [by intros _|]. intros _ [_ [p Hp]]. by rewrite E in Hp.
    Qed.
  End acts.
  (** CAS on a word: the loser learns the current word, so a second attempt succeeds. *)
  Definition is_ent (t i : nat) (e : eword) (σ : state) : Prop := ∃ tb s, tables σ !! t = Some tb ∧ t_slots tb !! i = Some s ∧ s_ent s = e.
  Lemma SO_C t i e H X F M L σ : SO H X None F M L σ → is_ent t i e σ → cped e → SO H X (Some (t, i)) F M L σ.
  Proof.
    intros S (tb & s & Et & Es & Ee) Hc. destruct S. split; eauto. intros t' tb' i' s' [= <- <-] Et' Es'. rewrite Et in Et'. injection Et' as <-.
    rewrite Es in Es'. injection Es' as <-. by rewrite Ee.
  Qed.
  Lemma ent_np H C F M L t i e σ : SO H None C F M L σ → is_ent t i e σ → ¬ pend e.
  Proof. intros S (tb & s & Et & Es & <-). by eapply so_pd. Qed.
  Lemma np_cped e : ¬ pend e → e_copying e = true → is_Some (e_ptr e) → cped e.
  Proof. intros Np Hc Hs. split; [|done]. destruct (e_copied e) eqn:Ec; [done|]. by destruct Np. Qed.
  Lemma g_load_ent2 H C F M L tb i : gd (SO H None C F M L) (a_load_ent tb i) (λ e σ, is_ent (th tb) i e σ ∧ (M = Some (th tb) → e_copying e = false)).
  Proof. intros σ S. apply with_slot_spec. intros t s Et Es. split; [done|]. split; [by exists t, s|]. intros EM. by eapply so_mk. Qed.
  Lemma g_cas_ent H M L w tb i e : gd (SO H None None None M L) (a_cas_ent w tb i e TOMBW) (λ r σ, ∀ f, r = inr f → is_ent (th tb) i f σ ∧ (M = Some (th tb) → e_copying f = false)).
  Proof.
    intros σ S. apply with_slot_spec. intros t s Et Es. destruct (exp_freed e σ); [done|]. destruct (decide _) as [[E _]|N].
    - split; [|done]. eapply SO_slot; [done..| |done|done|done]. intros _ (_ & [p Hp] & _). done.
    - split; [done|]. intros f [= <-]. split; [by exists t, s|]. intros EM. by eapply so_mk.
  Qed.
  Lemma g_cas_pub H F M L w tb i e kv : F ≠ Some (th tb) → gd (SO H None None F M L) (a_cas_pub w tb i e kv) (λ r σ, ∀ f, r = inr f → is_ent (th tb) i f σ).
  Proof.
    intros NF σ S. apply with_slot_spec. intros t s Et Es. destruct (exp_freed e σ); [done|]. destruct (decide _) as [[E _]|N].
    - split; [|done]. apply SO_heap. eapply SO_slot; [exact S|done..| |done|done|done]. intros _ (Hc & _). done.
    - split; [done|]. intros f [= <-]. by exists t, s.
  Qed.
  Lemma tm_cas_ent_win {B} H M L w tb i e (k : unit + eword → prog B) Q σ : SO H None None None M L σ → is_ent (th tb) i e σ →
    (∀ σ', SO H None None None M L σ' → tm (k (inl tt)) Q σ') → tm (bind (act (a_cas_ent w tb i e TOMBW)) k) Q σ.
  Proof.
    intros S (t & s & Et & Es & Ee) Hk. cbn. unfold a_cas_ent, with_slot, with_table. rewrite Et. destruct (t_freed t); [done|]. rewrite Es.
    destruct (exp_freed e σ); [done|]. rewrite decide_True by (split; [done|intros []; done]). apply Hk.
    eapply SO_slot; [done..| |done|done|done]. intros _ (_ & [p Hp] & _). done.
  Qed.
  Lemma tm_cas_pub_win {B} H M L w tb i e kv (k : nat + eword → prog B) Q σ : SO H None None None M L σ → is_ent (th tb) i e σ →
    (∀ p σ', SO H None None None M L σ' → tm (k (inl p)) Q σ') → tm (bind (act (a_cas_pub w tb i e kv)) k) Q σ.
  Proof.
    intros S (t & s & Et & Es & Ee) Hk. cbn. unfold a_cas_pub, with_slot, with_table. rewrite Et. destruct (t_freed t); [done|]. rewrite Es.
    destruct (exp_freed e σ); [done|]. rewrite decide_True by (split; [done|intros []; done]). apply Hk.
    apply SO_heap. eapply SO_slot; [exact S|done..| |done|done|done]. intros _ (Hc & _). done.
  Qed.
  (** The first insertion into an empty table succeeds. *)
  Lemma tm_cas_pub_fresh {B} H M L w tb i kv (k : nat + eword → prog B) Q σ : SO H None None (Some (th tb)) M L σ →
    (∀ p σ', SO H None None None M L σ' → tm (k (inl p)) Q σ') → tm (bind (act (a_cas_pub w tb i NULLW kv)) k) Q σ.
  Proof.
    intros S Hk. destruct (tables σ !! th tb) as [t|] eqn:Et; [destruct (t_slots t !! i) as [s|] eqn:Es|].
    - eapply tm_cas_pub_win; [by eapply SO_weakF| |done]. exists t, s. split; [done|]. split; [done|].
      by rewrite (so_fr _ _ _ _ _ _ _ S _ _ _ _ eq_refl Et Es).
    - cbn. unfold a_cas_pub, with_slot, with_table. rewrite Et. destruct (t_freed t); [done|]. by rewrite Es.
    - cbn. unfold a_cas_pub, with_slot, with_table. by rewrite Et.
  Qed.
  Lemma tm_cas_copy_fresh {B} H X C L tb i e (k : unit + eword → prog B) Q σ : SO H X C (Some (th tb)) None L σ → ¬ pend e →
    (∀ σ', SO H X C None None L σ' → tm (k (inl tt)) Q σ') → tm (bind (act (a_cas_ent false tb i NULLW e)) k) Q σ.
  Proof.
    intros S Ne Hk. cbn. unfold a_cas_ent, with_slot, with_table. destruct (tables σ !! th tb) as [t|] eqn:Et; [|done]. destruct (t_freed t); [done|].
    destruct (t_slots t !! i) as [s|] eqn:Es; [|done]. cbn [exp_freed e_ptr NULLW]. rewrite (so_fr _ _ _ _ _ _ _ S _ _ _ _ eq_refl Et Es).
    rewrite decide_True by (split; [done|intros []; done]). apply Hk. eapply SO_slot; [by eapply SO_weakF|done..| |done| |done]; [by intros _|].
    intros EC _. exfalso. pose proof (so_cp _ _ _ _ _ _ _ S _ _ _ _ EC Et Es) as [_ [p Hp]]. by rewrite (so_fr _ _ _ _ _ _ _ S _ _ _ _ eq_refl Et Es) in Hp.
  Qed.

  (** ** Locks and allocation *)
  Lemma tm_try_lock {B} X C F M L tb (k : bool → prog B) Q σ : SO None X C F M L σ →
    (∀ σ', SO (Some (th tb)) X C F M L σ' → tm (k true) Q σ') → (∀ σ', SO None X C F M L σ' → tm (k false) Q σ') →
    tm (bind (act (a_try_lock tb)) k) Q σ.
  Proof.
    intros S H1 H2. cbn. unfold a_try_lock, with_table. destruct (tables σ !! th tb) as [t|] eqn:Et; [|done]. destruct (t_freed t); [done|].
    destruct (t_lock t) eqn:El; auto. apply H1. eapply SO_upd; [done|done|done|cbn; intros; by eapply so_nx|done|]. intros t' [=].
  Qed.
  Lemma tm_lock {B} X C F M L tb (k : bool → prog B) Q σ : SO None X C F M L σ →
    (∀ σ', SO (Some (th tb)) X C F M L σ' → tm (k true) Q σ') → (∀ σ', SO None X C F M L σ' → tm (k false) Q σ') →
    tm (bind (act (a_lock tb)) k) Q σ.
  Proof.
    intros S H1 H2. cbn. unfold a_lock, with_table. destruct (tables σ !! th tb) as [t|] eqn:Et; [|done]. destruct (t_freed t); [done|].
    destruct (t_lock t) eqn:El; auto.
    - apply H1. eapply SO_upd; [done|done|done|cbn; intros; by eapply so_nx|done|]. intros t' [=].
    - by pose proof (so_lk _ _ _ _ _ _ _ S _ _ _ Et El).
  Qed.
  Lemma tm_unlock {B} X C F M L tb (k : unit → prog B) Q σ : SO (Some (th tb)) X C F M L σ →
    (∀ σ', SO None X C F M L σ' → tm (k tt) Q σ') → tm (bind (act (a_unlock tb)) k) Q σ.
  Proof.
    intros S H1. cbn. unfold a_unlock, with_table. destruct (tables σ !! th tb) as [t|] eqn:Et; [|done]. destruct (t_freed t); [done|].
    apply H1. eapply SO_upd; [done|done|done|cbn; intros; by eapply so_nx|done|]. intros t' [= <-]. done.
  Qed.
  Lemma tm_publish {B} X C F M L tb len (k : tref → prog B) Q σ : SO (Some (th tb)) X C F M L σ → (∀ i, C ≠ Some (L, i)) → 
    (∀ nx σ', SO (Some (th tb)) X C (Some L) None (Datatypes.S L) σ' → th nx = L → th tb < L → tm (k nx) Q σ') → tm (bind (act (a_publish_next tb len)) k) Q σ.
  Proof.
    intros S HC H1. cbn. unfold a_publish_next, with_table. destruct (tables σ !! th tb) as [t|] eqn:Et; [|done]. destruct (t_freed t); [done|].
    pose proof (lookup_lt_Some _ _ _ Et) as Lt. pose proof (so_len _ _ _ _ _ _ _ S) as EL.
    assert (S2 : SO (Some (th tb)) X C None None L (upd_table (th tb) (t_set_next (Some (length (tables σ))) t) σ)).
    { eapply SO_upd; [eapply SO_weakF; destruct S; split; eauto; intros; done|done|done| |cbn; auto|auto]. cbn. intros t' [= <-]. done. }
    apply H1; [|cbn; lia|lia].
    assert (Q1 : ∀ u ub, (tables (set_tables (λ l, l ++ [new_table len PENDING]) (upd_table (th tb) (t_set_next (Some (length (tables σ))) t) σ))) !! u = Some ub →
        (u = L ∧ ub = new_table len PENDING) ∨ (u ≠ L ∧ tables (upd_table (th tb) (t_set_next (Some (length (tables σ))) t) σ) !! u = Some ub)).
    { intros u ub. cbn. rewrite lookup_app, insert_length. destruct (<[_:=_]> (tables σ) !! u) as [x|] eqn:Ex.
      - intros [= <-]. right. split; [|done]. apply lookup_lt_Some in Ex. rewrite insert_length in Ex. lia.
      - intros E2. apply lookup_ge_None in Ex. rewrite insert_length in Ex. apply list_lookup_singleton_Some in E2 as [E2 ->]. left. split; [lia|done]. }
    assert (Q2 : ∀ i s, t_slots (new_table len PENDING) !! i = Some s → s = slot0).
    { intros i s Es. cbn in Es. by apply lookup_replicate in Es as [-> _]. }
    destruct S2 as [A1 A2 A3 A4 A5 A6 A7]. split.
    - intros u ub t' [[-> ->]|[N Eu]]%Q1; [done|]. by eapply A1.
    - intros u ub j [[-> ->]|[N Eu]]%Q1; [done|]. by eapply A2.
    - intros u ub i s [[-> ->]|[N Eu]]%Q1; [|by eapply A3]. intros ->%Q2 _ (? & _). done.
    - intros u ub i s EC [[-> ->]|[N Eu]]%Q1; [by destruct (HC i)|by eapply A4].
    - intros u ub i s [= <-] [[_ ->]|[N Eu]]%Q1; [apply Q2|done].
    - intros; done.
    - cbn. rewrite app_length, insert_length. cbn. lia.
  Qed.
  Lemma p_sum n : ∀ H X C F M L j acc σ, SO H X C F M L σ → tm (sum_shards n j acc) (λ _ σ', SO H X C F M L σ') σ.
  Proof.
    induction n as [|n IH]; intros H X C F M L j acc σ S; [done|]. cbn [sum_shards]. eapply tm_gd; [apply g_shard|exact S|]. intros; by apply IH.
  Qed.
  Lemma p_map_len H X C F M L σ : SO H X C F M L σ → tm map_len (λ _ σ', SO H X C F M L σ') σ.
  Proof.
    intros S. unfold map_len. eapply tm_gd; [apply g_shards|exact S|]. intros n σ1 S1 _. apply tm_bind. eapply tm_mono; [by apply p_sum|]. done.
  Qed.
  Definition getn (X C : option (nat * nat)) (L : nat) (tb nx : tref) (σ : state) : Prop :=
    ∃ F L', SO None X C F None L' σ ∧ L ≤ L' ∧ th tb < th nx ∧ th nx < L' ∧ (L' = L ∨ F = Some (th nx)).
  Definition Cb (C : option (nat * nat)) (L : nat) : Prop := ∀ t i, C = Some (t, i) → t < L.
  Lemma Cb_mono C L L' : Cb C L → L ≤ L' → Cb C L'.
  Proof. intros H LL t i E. specialize (H t i E). lia. Qed.
  Lemma SO_M H X C F M L σ : SO H X C F M L σ → SO H X C F None L σ.
  Proof. intros S. destruct S. split; eauto. intros; done. Qed.
  Lemma p_alloc_locked cap X C F L tb σ : SO (Some (th tb)) X C F None L σ → Cb C L →
    tm (alloc_locked cfg cap tb) (λ nx σ', getn X C L tb nx σ') σ.
  Proof.
    intros S HC. unfold alloc_locked. eapply tm_gd; [apply g_next|exact S|]. intros [nx|] σ1 S1 Hn.
    - destruct (Hn nx eq_refl). eapply tm_unlock; [exact S1|]. intros σ2 S2. exists F, L; split_and!; auto.
    - apply tm_bind. eapply tm_mono; [by apply p_map_len|]. intros a σ2 S2. cbn beta zeta. destruct (alloc_len _) as [len|].
      + eapply tm_publish; [exact S2| |]; [intros i E; specialize (HC _ _ E); lia|]. intros nx σ3 S3 En Lt. eapply tm_unlock; [exact S3|].
        intros σ4 S4. exists (Some L), (Datatypes.S L). rewrite En. split; [done|]. split; [lia|]. split; [lia|]. split; [lia|by right].
      + cbn. unfold a_poison, with_table. destruct (tables σ2 !! th tb) as [t|]; [|done]. by destruct (t_freed t).
  Qed.
  Lemma p_spin_next n : ∀ H X C F M L tb σ, SO H X C F M L σ →
    tm (spin_next n tb) (λ r σ', SO H X C F M L σ' ∧ ∀ nx, r = Some nx → th tb < th nx ∧ th nx < L) σ.
  Proof.
    induction n as [|n IH]; intros H X C F M L tb σ S; [done|]. cbn [spin_next]. eapply tm_gd; [apply g_next|exact S|].
    intros [nx|] σ1 S1 Hn; [|by apply IH]. split; [done|]. intros ? [= <-]. by apply Hn.
  Qed.
  Lemma p_get_or_alloc cap X C F L tb σ : SO None X C F None L σ → Cb C L →
    tm (get_or_alloc_next cfg cap tb) (λ nx σ', getn X C L tb nx σ') σ.
  Proof.
    intros S HC. unfold get_or_alloc_next. eapply tm_gd; [apply g_next|exact S|]. intros [nx|] σ1 S1 Hn.
    - destruct (Hn nx eq_refl). exists F, L; split_and!; auto.
    - eapply tm_try_lock; [exact S1|by intros; eapply p_alloc_locked|]. intros σ2 S2. apply tm_bind. eapply tm_mono; [by apply p_spin_next|].
      intros [nx|] σ3 [S3 H3].
      + destruct (H3 nx eq_refl). exists F, L; split_and!; auto.
      + eapply tm_lock; [exact S3|by intros; eapply p_alloc_locked|done].
  Qed.

  (** ** Parker *)
  Lemma p_unpark_all l : ∀ H X C F M L σ, SO H X C F M L σ → tm (unpark_all l) (λ _ σ', SO H X C F M L σ') σ.
  Proof. induction l as [|j l IH]; intros H X C F M L σ S; [done|]. cbn [unpark_all]. eapply tm_gd; [apply g_unpark|exact S|]. intros; by apply IH. Qed.
  Lemma p_unpark H X C F M L tb k σ : SO H X C F M L σ → tm (unpark tb k) (λ _ σ', SO H X C F M L σ') σ.
  Proof.
    intros S. unfold unpark. eapply tm_gd; [apply g_pk_pending|exact S|]. intros n σ1 S1 _. destruct (n =? 0)%Z; [done|].
    eapply tm_gd; [apply g_pk_take|exact S1|]. intros [|t l] σ2 S2 _; [done|]. eapply tm_gd; [apply g_pk_announce|exact S2|]. intros; by apply p_unpark_all.
  Qed.
  Lemma p_park H X F M L tb i σ : SO H X (Some (th tb, i)) F M L σ → tm (park tb (KEntry i)) (λ _ σ', SO H X (Some (th tb, i)) F M L σ') σ.
  Proof.
    intros S. unfold park. apply tm_loop1. eapply tm_gd; [apply g_pk_announce|exact S|]. intros _ σ1 S1 _.
    eapply tm_gd; [apply g_pk_register|exact S1|]. intros id σ2 S2 _.
    eapply (tm_gd (SO H X (Some (th tb, i)) F M L) _ (λ c _, c = false)); [|exact S2|].
    { intros σ0 S0. apply with_slot_spec. intros t s Et Es. split; [done|]. by destruct (so_cp _ _ _ _ _ _ _ S0 _ _ _ _ eq_refl Et Es) as [-> _]. }
    intros c σ3 S3 ->. cbn [negb]. eapply tm_gd; [apply g_pk_remove|exact S3|]. intros [] σ4 S4 _; [|done].
    eapply tm_gd; [apply g_pk_announce|exact S4|]. done.
  Qed.
  Lemma p_spin_copied n : ∀ H X C F M L i tb σ, SO H X C F M L σ → tm (spin_copied n i tb) (λ _ σ', SO H X C F M L σ') σ.
  Proof.
    induction n as [|n IH]; intros H X C F M L i tb σ S; [done|]. cbn [spin_copied]. eapply tm_gd; [apply g_load_ent|exact S|].
    intros e σ1 S1 _. destruct (e_copied e); [done|]. by apply IH.
  Qed.
  Lemma p_wait_copied H X F M L tb i σ : SO H X (Some (th tb, i)) F M L σ → tm (wait_copied cfg i tb) (λ _ σ', SO H X (Some (th tb, i)) F M L σ') σ.
  Proof. intros S. unfold wait_copied. apply tm_bind. eapply tm_mono; [by apply p_spin_copied|]. intros [] σ1 S1; [done|]. by apply p_park. Qed.

  (** ** Copying *)
  Lemma p_try_promote X C F M L tb nx n σ : SO None X C F M L σ → tm (try_promote tb nx n) (λ _ σ', SO None X C F M L σ') σ.
  Proof.
    intros S. unfold try_promote. apply tm_bind.
    assert (Y : tm (if 0 <? n then (c ← act (a_add_copied nx n); Ret (c + n)) else act (a_load_copied nx))%prog (λ _ σ', SO None X C F M L σ') σ).
    { destruct (0 <? n); [eapply tm_gd; [apply g_add_copied|exact S|done]|eapply tm_gde; [apply g_load_copied|exact S|done]]. }
    eapply tm_mono; [exact Y|]. intros c σ1 S1. destruct (c =? th_len tb); [|done].
    eapply tm_gd; [apply g_root_raw|exact S1|]. intros r σ2 S2 _. case_bool_decide; [|done].
    eapply tm_gd; [apply g_cas_root|exact S2|]. intros ok σ3 S3 _. apply tm_bind. destruct ok.
    - eapply tm_gd; [apply g_store_status|exact S3|]. intros _ σ4 S4 _. eapply tm_gde; [apply g_retire|exact S4|]. intros _ σ5 S5 _.
      apply tm_bind. eapply tm_mono; [by apply p_unpark|]. done.
    - apply tm_ret, tm_bind. eapply tm_mono; [by apply p_unpark|]. done.
  Qed.
  Lemma p_icp fuel : ∀ H X C F L tb e k i len σ, SO H X C F None L σ → F ≠ Some (th tb) → ¬ pend e →
    tm (insert_copy_probe cfg fuel tb e k i len) (λ _ σ', SO H X C F None L σ') σ.
  Proof.
    induction fuel as [|fuel IH]; intros H X C F L tb e k i len σ S NF Ne; [done|]. cbn [insert_copy_probe].
    eapply tm_gd; [apply g_load_meta|exact S|]. intros m σ1 S1 _. destruct (m =? EMPTY)%N; [|by apply IH].
    eapply tm_gd; [by apply (g_cas_null H X C F None L)|exact S1|]. intros [[]|f] σ2 S2 _.
    - eapply tm_gd; [by apply g_store_meta|exact S2|]. done.
    - apply tm_bind. destruct (e_ptr f) as [p|].
      + eapply tm_gd; [apply g_deref|exact S2|]. intros kv σ3 S3 _. apply tm_ret. eapply tm_gd; [apply g_load_meta|exact S3|]. intros m2 σ4 S4 _.
        apply tm_bind. destruct (m2 =? EMPTY)%N; [|apply tm_ret; by apply IH]. eapply tm_gde; [by apply g_store_meta|exact S4|]. intros _ σ5 S5 _. by apply IH.
      + apply tm_ret. eapply tm_gd; [apply g_load_meta|exact S2|]. intros m2 σ4 S4 _.
        apply tm_bind. destruct (m2 =? EMPTY)%N; [|apply tm_ret; by apply IH]. eapply tm_gde; [by apply g_store_meta|exact S4|]. intros _ σ5 S5 _. by apply IH.
  Qed.
  Lemma p_icp_fresh fuel H X C L tb e k i len σ : SO H X C (Some (th tb)) None L σ → ¬ pend e →
    tm (insert_copy_probe cfg (Datatypes.S fuel) tb e k i len) (λ r σ', r = true ∧ SO H X C None None L σ') σ.
  Proof.
    intros S Ne. cbn [insert_copy_probe]. eapply tm_gd; [apply g_load_meta|exact S|]. intros m σ1 S1 Hm. rewrite (Hm eq_refl). cbn [N.eqb].
    replace (EMPTY =? EMPTY)%N with true by (symmetry; apply N.eqb_refl).
    eapply tm_cas_copy_fresh; [exact S1|done|]. intros σ2 S2. eapply tm_gd; [by apply (g_store_meta H X C None None L)|exact S2|]. done.
  Qed.
  Lemma p_insert_copy e p : ¬ pend e → ∀ X C L tb σ, SO None X C None None L σ → Cb C L → th tb < L →
    tm (insert_copy cfg e p true tb) (λ _ σ', ∃ L', L ≤ L' ∧ SO None X C None None L' σ') σ.
  Proof.
    intros Ne X C L tb σ S HC Lt. unfold insert_copy. eapply tm_gd; [apply g_deref|exact S|]. intros kv σ1 S1 _. clear σ S.
    remember (L - th tb) as d eqn:Ed. revert tb Lt Ed σ1 S1. induction (lt_wf d) as [d _ IH]. intros tb Lt Ed σ S.
    apply tm_loop1. apply tm_bind. eapply tm_mono; [by eapply p_icp|]. intros ok σ1 S1. cbn beta. destruct ok; [exists L; auto|]. cbn [negb].
    apply tm_bind. eapply tm_mono; [by eapply p_get_or_alloc|]. intros nx σ2 (F & L' & S2 & LL & L1 & L2 & D). apply tm_ret.
    destruct D as [->| ->].
    - eapply (IH (L - th nx)); [lia|lia|done|by eapply SO_weakF].
    - apply tm_loop1. apply tm_bind. eapply tm_mono; [by apply p_icp_fresh|]. intros ok σ3 [-> S3]. exists L'. auto.
  Qed.
  Lemma p_copy_at i tb nx C L σ : SO None None C None None L σ → Cb C L → th nx < L →
    tm (copy_at_incremental cfg i tb nx) (λ _ σ', ∃ L', L ≤ L' ∧ SO None None C None None L' σ') σ.
  Proof.
    intros S HC Lt. unfold copy_at_incremental.
    cbn [tm Solo.tm bind act]. unfold a_fetch_or_copying. 
    apply (with_slot_spec (th tb) i σ _ (λ x σ', tm (if bool_decide (x = TOMBW) then Ret tt else match e_ptr x with None => act (a_store_meta tb i TOMBMETA)
      | Some p => (ok ← insert_copy cfg (EW (Some p) (e_copying x) (e_copied x) true) p true nx;
        if (ok : bool) then (act (a_store_ent tb i (EW (Some p) true true (e_borrowed x)));; unpark tb (KEntry i)) else Fail PUnwrap)%prog end)
      (λ _ σ', ∃ L', L ≤ L' ∧ SO None None C None None L' σ') σ')).
    intros t s Et Es. pose proof (so_pd _ _ _ _ _ _ _ S _ _ _ _ Et Es) as Np. specialize (Np ltac:(done)).
    assert (HCp : C = Some (th tb, i) → cped (s_ent s) → cped (s_ent (set_ent (set_copying (s_ent s)) s))) by (by intros _ []).
    case_bool_decide as Eb.
    { cbn. exists L. split; [done|]. eapply SO_slot; [done..| |done|done|done]. rewrite Eb. intros _ (_ & [p Hp] & _). done. }
    destruct (e_ptr (s_ent s)) as [p|] eqn:Ep.
    - assert (Ne : ¬ pend (EW (Some p) (e_copying (s_ent s)) (e_copied (s_ent s)) true)).
      { intros (P1 & _ & P2). apply Np. split; [done|]. split; [by rewrite Ep|done]. }
      assert (S1 : SO None (Some (th tb, i)) C None None L (upd_slot (th tb) i t (set_ent (set_copying (s_ent s)) s) σ)).
      { eapply SO_slot; [done..| |done|done|done]. congruence. }
      apply tm_bind. eapply tm_mono; [by eapply p_insert_copy|]. intros ok σ1 (L' & LL & S2). destruct ok; [|done].
      cbn [tm Solo.tm bind act]. unfold a_store_ent.
      apply (with_slot_spec (th tb) i σ1 _ (λ (_ : unit) σ', tm (unpark tb (KEntry i)) (λ _ σ', ∃ L', L ≤ L' ∧ SO None None C None None L' σ') σ')).
      intros t1 s1 Et1 Es1. eapply tm_mono; [apply (p_unpark None None C None None L'); eapply SO_slot; [exact S2|done..| | | |done]|].
      + intros _ (_ & _ & P3). done.
      + intros y [= <-] N. done.
      + intros _ _. split; [done|by exists p].
      + intros u σ' S'. exists L'. auto.
    - eapply tm_gde; [by apply (g_store_meta None None C None None L)| |].
      + eapply SO_slot; [done..| |done|done|done]. intros _ (_ & [p Hp] & _). cbn in Hp. by rewrite Ep in Hp.
      + intros _ σ' S' _. exists L. auto.
  Qed.
  Lemma p_copy_chunk n : ∀ i tb nx copied C L σ, SO None None C None None L σ → Cb C L → th nx < L →
    tm (copy_chunk_incremental cfg n i tb nx copied) (λ _ σ', ∃ L', L ≤ L' ∧ SO None None C None None L' σ') σ.
  Proof.
    induction n as [|n IH]; intros i tb nx copied C L σ S HC Lt; cbn [copy_chunk_incremental]; [exists L; auto|].
    destruct (th_len tb <=? i); [exists L; auto|]. apply tm_bind. eapply tm_mono; [by apply p_copy_at|]. intros _ σ1 (L1 & LL & S1).
    eapply tm_mono; [apply IH; [exact S1|by eapply Cb_mono|lia]|]. intros _ σ2 (L2 & LL2 & S2). exists L2. split; [lia|done].
  Qed.
  Lemma p_help C L tb σ : SO None None C None None L σ → Cb C L →
    tm (help_copy cfg false tb) (λ nx σ', ∃ L', L ≤ L' ∧ SO None None C None None L' σ' ∧ th tb < th nx ∧ th nx < L') σ.
  Proof.
    intros S HC. unfold help_copy. rewrite Hinc. apply tm_bind.
    assert (Y : tm (help_copy_incremental cfg chunk false) (λ _ σ', ∃ L', L ≤ L' ∧ SO None None C None None L' σ') σ).
    { unfold help_copy_incremental. eapply tm_gd; [apply g_root|exact S|]. intros [rt|] σ1 S1 Hr; [|done].
      eapply tm_gd; [apply g_next|exact S1|]. intros [nx|] σ2 S2 Hn; [|exists L; auto]. destruct (Hn nx eq_refl) as [_ Ln].
      apply tm_loop1. apply tm_bind. eapply tm_mono; [by apply p_try_promote|]. intros [] σ3 S3; [exists L; auto|]. cbn beta iota. cbn [negb].
      apply tm_bind. eapply (tm_mono _ _ (λ _ σ', ∃ L', L ≤ L' ∧ SO None None C None None L' σ')).
      - apply tm_loop1. eapply tm_gd; [apply g_load_claim|exact S3|]. intros c σ4 S4 _. destruct (th_len rt <=? c); [exists L; auto|].
        eapply tm_gd; [apply g_add_claim|exact S4|]. intros st σ5 S5 _. apply tm_bind. eapply tm_mono; [by apply p_copy_chunk|].
        intros cp σ6 (L' & LL & S6). apply tm_bind. eapply tm_mono; [by apply p_try_promote|]. intros ok σ7 S7. rewrite orb_true_r. exists L'. auto.
      - intros dn σ4 (L' & LL & S4). rewrite orb_true_r. exists L'. auto. }
    eapply tm_mono; [exact Y|]. intros x σ1 (L' & LL & S1). cbn [negb]. eapply tm_gd; [apply g_next|exact S1|]. intros [nx|] σ2 S2 Hn; [|done].
    exists L'. split; [done|]. split; [done|]. by apply Hn.
  Qed.
End solo.
