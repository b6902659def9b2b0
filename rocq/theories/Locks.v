(** C37: the allocation lock, in both resize modes. *)
From Verif Require Export WaitFree.

Section locks.
  Context {K V : Type} {Keq : EqDecision K} (cfg : config K) (nsh : nat).
  Notation prog := (prog K V). Notation action := (action K V). Notation state := (state K V).

  (** What matters of a table here: its lock and its next pointer. *)
  Definition lk (σ : state) (t : nat) : option lockst := t_lock <$> tables σ !! t.
  Definition nx (σ : state) (t : nat) : option nat := tables σ !! t ≫= t_next.
  (** [σ'] differs from [σ] at most in tables that did not exist, and they are not locked and have no next table. *)
  Definition same_at (P : nat → Prop) (σ σ' : state) : Prop :=
    length (counts σ') = length (counts σ) ∧
    ∀ t, P t → (lk σ' t = lk σ t ∨ lk σ t = None ∧ lk σ' t = Some LFree) ∧ nx σ' t = nx σ t.
  Definition same := same_at (λ _, True).

  (** What a thread holds: nothing; the lock of a table, with a bound on the number of steps until it is released, and
      whether it has seen that the table has no next table yet. *)
  Definition held : Type := option (nat * nat * bool).

  Definition trans (me : nat) (h h' : held) (σ σ' : state) : Prop :=
    match h, h' with
    | None, None => same σ σ'
    | None, Some (t, n, b) => b = false ∧ n ≤ nsh + 4 ∧ lk σ t = Some LFree ∧ lk σ' t = Some (LHeld me) ∧ nx σ' t = nx σ t ∧ same_at (λ x, x ≠ t) σ σ'
    | Some (t, n, b), Some (t', n', b') =>
        t' = t ∧ n' < n ∧
        (same σ σ' ∧ (b' = true → b = true ∨ nx σ t = None) ∨
         b = true ∧ b' = false ∧ lk σ' t = lk σ t ∧ is_Some (nx σ' t) ∧ same_at (λ x, x ≠ t) σ σ')
    | Some (t, n, b), None => (lk σ' t = Some LFree ∨ lk σ' t = Some LPoisoned) ∧ nx σ' t = nx σ t ∧ same_at (λ x, x ≠ t) σ σ'
    end.

  Fixpoint dis {A} (h : held) (p : prog A) : Prop :=
    match p with
    | Ret _ | Fail _ => h = None
    | Loop body s k => h = None ∧ (∀ s, dis None (body s)) ∧ ∀ b, dis None (k b)
    | Act f k =>
      match h with None => True | Some (_, n, _) => enabled f ∧ 0 < n end ∧
      ∀ me b σ x σ', length (counts σ) = nsh → f me b σ = Ok x σ' → ∃ h', trans me h h' σ σ' ∧ dis h' (k x)
    end.

  Lemma dis_bind {A B} (p : prog A) (k : A → prog B) h : dis h p → (∀ a, dis None (k a)) → dis h (bind p k).
  Proof.
    intros D Hk. revert h D. induction p as [A a|X A f k1 IH|S' X A body IHb s k1 IH|A r]; intros h; cbn [dis bind].
    - intros ->. apply Hk.
    - intros [E H]. split; [done|]. intros me b σ x σ' L Ef. destruct (H me b σ x σ' L Ef) as (h' & T & D). exists h'. split; [done|]. by apply IH.
    - intros (-> & Hb & Hd). split; [done|]. split; [done|]. intros b. by apply IH.
    - done.
  Qed.

  Lemma same_refl P σ : same_at P σ σ. Proof. split; [done|]. intros t _. by split; [left|]. Qed.

  (** The ordinary accesses. *)
  Definition plain {X} (f : action X) : Prop := ∀ me b σ x σ', f me b σ = Ok x σ' → same σ σ'.
  Lemma dis_act {X A} (f : action X) (k : X → prog A) : plain f → (∀ x, dis None (k x)) → dis None (Act f k).
  Proof. intros P Hk. split; [done|]. intros me b σ x σ' _ E. exists None. split; [by eapply P|done]. Qed.
  Lemma dis_act' {X} (f : action X) : plain f → dis None (act f).
  Proof. intros P. by apply dis_act. Qed.

  Lemma upd_lookup t tb (σ : state) x : tables (upd_table t tb σ) !! x = if decide (x = t ∧ t < length (tables σ)) then Some tb else tables σ !! x.
  Proof.
    unfold upd_table, set_tables. cbn [tables]. destruct (decide _) as [[-> L]|N]; [by apply list_lookup_insert|].
    destruct (decide (x = t)) as [->|Nx]; [|by rewrite list_lookup_insert_ne by done].
    rewrite !lookup_ge_None_2; [done| |rewrite insert_length]; lia.
  Qed.
  Lemma same_upd t tb tb0 (σ : state) : tables σ !! t = Some tb0 → t_lock tb = t_lock tb0 → t_next tb = t_next tb0 → same σ (upd_table t tb σ).
  Proof.
    intros E A B. split; [done|]. intros x _. unfold lk, nx. rewrite upd_lookup. destruct (decide _) as [[-> L]|N]; [|by split; [left|]].
    rewrite E. cbn. by rewrite A, B; split; [left|].
  Qed.
  Lemma same_tables (σ σ' : state) : tables σ' = tables σ → length (counts σ') = length (counts σ) → same σ σ'.
  Proof. intros E L. split; [done|]. intros x _. unfold lk, nx. rewrite E. by split; [left|]. Qed.
  Lemma same_trans (σ1 σ2 σ3 : state) : same σ1 σ2 → same σ2 σ3 → same σ1 σ3.
  Proof.
    intros [L1 H1] [L2 H2]. split; [congruence|]. intros t _. destruct (H1 t I) as [A B], (H2 t I) as [C D]. split; [|congruence].
    destruct A as [A|[A A']], C as [C|[C C']]; [left; congruence|right; split; congruence|right; split; congruence|congruence].
  Qed.

  Lemma wt_ok {A} t (σ : state) (f : table → outcome K V A) x σ' : with_table t σ f = Ok x σ' → ∃ tb, tables σ !! t = Some tb ∧ f tb = Ok x σ'.
  Proof. unfold with_table. destruct (tables σ !! t) as [tb|]; [|done]. destruct (t_freed tb); [done|]. by exists tb. Qed.
  Lemma ws_ok {A} t i (σ : state) (f : table → slot → outcome K V A) x σ' : with_slot t i σ f = Ok x σ' → ∃ tb s, tables σ !! t = Some tb ∧ f tb s = Ok x σ'.
  Proof. intros (tb & E & H)%wt_ok. destruct (t_slots tb !! i) as [s|]; [|done]. by exists tb, s. Qed.

  Ltac pl := let me := fresh "me" in let b := fresh "b" in let σ := fresh "σ" in let x := fresh "x" in let σ' := fresh "σ'" in let E := fresh "E" in
    intros me b σ x σ' E; cbv beta iota delta [a_load_meta a_store_meta a_load_ent a_store_ent a_fetch_or_copying a_cas_ent a_cas_pub a_deref a_load_copied a_add_copied
      a_load_claim a_add_claim a_load_status a_store_status a_count a_load_shard a_shards a_retire a_defer a_pk_announce a_pk_register a_pk_remove a_pk_contains
      a_pk_pending a_pk_take a_park a_unpark a_root a_root_raw a_cas_root a_should_park] in E;
    repeat match type of E with
      | with_slot _ _ _ _ = _ => apply ws_ok in E as (? & ? & ? & E)
      | with_table _ _ _ = _ => apply wt_ok in E as (? & ? & E)
      | (if ?c then _ else _) = _ => destruct c; try discriminate E
      | match ?c with _ => _ end = _ => destruct c; try discriminate E
      end;
    injection E as <- <-; cbv zeta; first [ apply same_refl | eapply same_upd; [eassumption|reflexivity..] | apply same_tables; [reflexivity|first [reflexivity|cbn; apply alter_length]]
      | eapply same_trans; [eapply same_upd; [eassumption|reflexivity..]|apply same_tables; reflexivity] ].
  Lemma p_load_meta tb i : plain (a_load_meta tb i). Proof. pl. Qed.
  Lemma p_store_meta tb i m : plain (a_store_meta tb i m). Proof. pl. Qed.
  Lemma p_load_ent tb i : plain (a_load_ent tb i). Proof. pl. Qed.
  Lemma p_store_ent tb i e : plain (a_store_ent tb i e). Proof. pl. Qed.
  Lemma p_for tb i : plain (a_fetch_or_copying tb i). Proof. pl. Qed.
  Lemma p_cas_ent w tb i e n : plain (a_cas_ent w tb i e n). Proof. pl. Qed.
  Lemma p_cas_pub w tb i e n : plain (a_cas_pub w tb i e n). Proof. pl. Qed.
  Lemma p_deref p : plain (a_deref p). Proof. pl. Qed.
  Lemma p_load_copied tb : plain (a_load_copied tb). Proof. pl. Qed.
  Lemma p_add_copied tb n : plain (a_add_copied tb n). Proof. pl. Qed.
  Lemma p_load_claim tb : plain (a_load_claim tb). Proof. pl. Qed.
  Lemma p_add_claim tb n : plain (a_add_claim tb n). Proof. pl. Qed.
  Lemma p_load_status tb : plain (a_load_status tb). Proof. pl. Qed.
  Lemma p_store_status tb x : plain (a_store_status tb x). Proof. pl. Qed.
  Lemma p_count d : plain (a_count d). Proof. pl. Qed.
  Lemma p_load_shard j : plain (a_load_shard j). Proof. pl. Qed.
  Lemma p_shards : plain a_shards. Proof. pl. Qed.
  Lemma p_retire o : plain (a_retire o). Proof. pl. Qed.
  Lemma p_defer tb p : plain (a_defer tb p). Proof. pl. Qed.
  Lemma p_announce tb d : plain (a_pk_announce tb d). Proof. pl. Qed.
  Lemma p_register tb k : plain (a_pk_register tb k). Proof. pl. Qed.
  Lemma p_remove tb k i : plain (a_pk_remove tb k i). Proof. pl. Qed.
  Lemma p_contains tb k i : plain (a_pk_contains tb k i). Proof. pl. Qed.
  Lemma p_pending tb : plain (a_pk_pending tb). Proof. pl. Qed.
  Lemma p_take tb k : plain (a_pk_take tb k). Proof. pl. Qed.
  Lemma p_park : plain a_park. Proof. pl. Qed.
  Lemma p_unpark j : plain (a_unpark j). Proof. pl. Qed.
  Lemma p_root : plain a_root. Proof. pl. Qed.
  Lemma p_root_raw : plain a_root_raw. Proof. pl. Qed.
  Lemma p_cas_root tb n : plain (a_cas_root tb n). Proof. pl. Qed.
  Lemma p_should tb k : plain (a_should_park tb k). Proof. destruct k; pl. Qed.
  Lemma p_next tb : plain (a_next tb).
  Proof. intros me b σ x σ' E. apply wt_ok in E as (t & _ & E). destruct (t_next t); [apply wt_ok in E as (? & _ & E)|]; injection E as <- <-; apply same_refl. Qed.
  Lemma p_init len : plain (a_init len).
  Proof.
    intros me b σ x σ' E. unfold a_init in E. destruct (root σ); [apply wt_ok in E as (? & _ & E); injection E as <- <-; apply same_refl|].
    injection E as <- <-. split; [done|]. intros t _. unfold lk, nx. cbn [set_root set_tables tables].
    destruct (decide (t < length (tables σ))) as [L|L]; [rewrite lookup_app_l by done; by split; [left|]|].
    rewrite (lookup_ge_None_2 (tables σ) t) by lia. rewrite lookup_app_r by lia. destruct (t - length (tables σ)) as [|n] eqn:En; cbn; [by split; [right|]|by split; [left|]].
  Qed.

  (** ** The lock-protected section *)
  Lemma same_lock t tb l (σ : state) : tables σ !! t = Some tb → let σ' := upd_table t (t_set_lock l tb) σ in
    lk σ' t = Some l ∧ nx σ' t = nx σ t ∧ same_at (λ x, x ≠ t) σ σ'.
  Proof.
    intros E. pose proof (lookup_lt_Some _ _ _ E) as L. cbn zeta. unfold lk, nx. rewrite upd_lookup, decide_True by done. rewrite E. split; [done|]. split; [done|].
    split; [done|]. intros x Nx. unfold lk, nx. rewrite upd_lookup, decide_False by (by intros [? _]). by split; [left|].
  Qed.
  Lemma dis_held {X A} (f : action X) (k : X → prog A) t n b : enabled f → plain f → (∀ x, dis (Some (t, n, b)) (k x)) → dis (Some (t, S n, b)) (Act f k).
  Proof.
    intros E P Hk. split; [split; [done|lia]|]. intros me o σ x σ' _ Ef. exists (Some (t, n, b)). split; [|done]. split; [done|]. split; [lia|]. left. split; [by eapply P|]. by left.
  Qed.
  Lemma dis_weaken {A} (p : prog A) t n m b : n ≤ m → dis (Some (t, n, b)) p → dis (Some (t, m, b)) p.
  Proof.
    intros L. destruct p as [A a|X A f k|S' X A body s k|A r]; cbn [dis]; [done| |by intros [? _]|done].
    intros [[E L0] H]. split; [split; [done|lia]|]. intros me o σ x σ' Lc Ef. destruct (H me o σ x σ' Lc Ef) as (h' & T & D). exists h'. split; [|done].
    destruct h' as [[[t' n'] b']|]; [|done]. destruct T as (-> & Ln & T). split; [done|]. split; [lia|done].
  Qed.
  Lemma en_next tb : enabled (a_next (K:=K) (V:=V) tb).
  Proof. intros me b σ. apply en_table. intros t. destruct (t_next t); [by apply en_table|done]. Qed.
  Lemma en_unlock tb : enabled (a_unlock (K:=K) (V:=V) tb). Proof. intros me b σ. by apply en_table. Qed.
  Lemma en_poison tb : enabled (a_poison (K:=K) (V:=V) tb). Proof. intros me b σ. by apply en_table. Qed.
  Lemma en_publish tb len : enabled (a_publish_next (K:=K) (V:=V) tb len). Proof. intros me b σ. by apply en_table. Qed.

  Lemma dis_unlock {A} tb (k : unit → prog A) n b : (∀ x, dis None (k x)) → dis (Some (th tb, S n, b)) (Act (a_unlock tb) k).
  Proof.
    intros Hk. split; [split; [apply en_unlock|lia]|]. intros me o σ x σ' _ E. apply wt_ok in E as (t & Et & E). injection E as <- <-. exists None. split; [|done].
    destruct (same_lock _ _ LFree σ Et) as (A1 & B1 & C1). split; [by left|done].
  Qed.
  Lemma dis_poison {A} tb (k : unit → prog A) n b : (∀ x, dis None (k x)) → dis (Some (th tb, S n, b)) (Act (a_poison tb) k).
  Proof.
    intros Hk. split; [split; [apply en_poison|lia]|]. intros me o σ x σ' _ E. apply wt_ok in E as (t & Et & E). injection E as <- <-. exists None. split; [|done].
    destruct (same_lock _ _ LPoisoned σ Et) as (A1 & B1 & C1). split; [by right|done].
  Qed.
  Lemma dis_publish {A} tb len (k : tref → prog A) n : (∀ x, dis (Some (th tb, n, false)) (k x)) → dis (Some (th tb, S n, true)) (Act (a_publish_next tb len) k).
  Proof.
    intros Hk. split; [split; [apply en_publish|lia]|]. intros me o σ x σ' _ E. apply wt_ok in E as (t & Et & E). cbn zeta in E. injection E as <- <-.
    exists (Some (th tb, n, false)). split; [|done]. split; [done|]. split; [lia|]. right. split; [done|]. split; [done|].
    pose proof (lookup_lt_Some _ _ _ Et) as L.
    assert (X : ∀ x, tables (set_tables (λ l, l ++ [new_table len PENDING]) (upd_table (th tb) (t_set_next (Some (length (tables σ))) t) σ)) !! x =
       if decide (x = length (tables σ)) then Some (new_table len PENDING) else if decide (x = th tb) then Some (t_set_next (Some (length (tables σ))) t) else tables σ !! x).
    { intros x. cbn [set_tables tables]. destruct (decide (x = length (tables σ))) as [->|N1].
      - rewrite lookup_app_r; unfold upd_table; cbn [set_tables tables]; rewrite insert_length; [by rewrite Nat.sub_diag|done].
      - assert (Y : tables (upd_table (th tb) (t_set_next (Some (length (tables σ))) t) σ) !! x = if decide (x = th tb) then Some (t_set_next (Some (length (tables σ))) t) else tables σ !! x).
        { rewrite upd_lookup. destruct (decide (x = th tb)); [rewrite decide_True by done|rewrite decide_False by (by intros [? _])]; done. }
        rewrite <- Y. destruct (decide (x < length (tables σ))) as [Lx|Lx].
        + apply lookup_app_l. unfold upd_table; cbn [set_tables tables]. by rewrite insert_length.
        + rewrite !lookup_ge_None_2; [done|..]; unfold upd_table; cbn [set_tables tables]; rewrite ?app_length, insert_length; cbn; lia. }
    split; [|split].
    - unfold lk. rewrite X, decide_False by lia. rewrite decide_True by done. by rewrite Et.
    - unfold nx. rewrite X, decide_False by lia. rewrite decide_True by done. by eexists.
    - split; [done|]. intros x Nx. unfold lk, nx. rewrite X. destruct (decide _) as [->|N1].
      + rewrite (lookup_ge_None_2 (tables σ)) by done. by split; [right|].
      + rewrite decide_False by done. by split; [left|].
  Qed.
  Lemma dis_sum {A} t b (k : Z → prog A) n : ∀ m j acc, (∀ z, dis (Some (t, n, b)) (k z)) → dis (Some (t, m + n, b)) (bind (sum_shards m j acc) k).
  Proof.
    induction m as [|m IH]; intros j acc Hk; [apply Hk|]. cbn [sum_shards bind act Nat.add]. apply dis_held; [done|apply p_load_shard|]. intros c. by apply IH.
  Qed.

  Lemma dis_alloc_locked cap tb : dis (Some (th tb, nsh + 4, false)) (alloc_locked cfg cap tb).
  Proof.
    unfold alloc_locked. cbn [bind act]. split; [split; [apply en_next|lia]|]. intros me o σ x σ' _ E.
    assert (S : same σ σ') by by eapply p_next. destruct x as [y|].
    - exists (Some (th tb, nsh + 3, false)). split; [split; [done|]; split; [lia|]; left; by split|]. replace (nsh + 3) with (Datatypes.S (nsh + 2)) by lia. apply dis_unlock. done.
    - exists (Some (th tb, nsh + 3, true)). split.
      { split; [done|]. split; [lia|]. left. split; [done|]. intros _. right. apply wt_ok in E as (t & Et & E). unfold nx. rewrite Et. cbn.
        destruct (t_next t); [apply wt_ok in E as (? & _ & E); discriminate|done]. }
      unfold map_len. cbn [bind act].
      split; [split; [done|lia]|]. intros me' o' σ1 n σ1' Ln E1. injection E1 as <- <-. exists (Some (th tb, nsh + 2, true)).
      split; [split; [done|]; split; [lia|]; left; split; [apply same_refl|by left]|].
      assert (BB : ∀ (p : prog Z) (f : Z → prog nat) (g : nat → prog tref), dis (Some (th tb, nsh + 2, true)) (bind p (λ z, bind (f z) g)) → dis (Some (th tb, nsh + 2, true)) (bind (bind p f) g)).
      { intros p f g. generalize (Some (th tb, nsh + 2, true)). induction p as [A a|X A f' k1 IH|S' X A body IHb s k1 IH|A r]; intros h; cbn [bind dis]; [done| | |done].
        - intros [En H]. split; [done|]. intros me1 b1 σ2 x σ2' L1 E1. destruct (H _ _ _ _ _ L1 E1) as (h' & T & D). exists h'. split; [done|]. by apply IH.
        - intros (-> & Hb & Hk). split; [done|]. split; [done|]. intros b. by apply IH. }
      apply BB. rewrite Ln. apply dis_sum. intros z. cbn [bind]. destruct (alloc_len _) as [len|]; cbn [bind act].
      + apply dis_publish. intros x. apply dis_unlock. done.
      + by apply dis_poison.
  Qed.

  Lemma dis_try_lock {A} tb (k : bool → prog A) : dis (Some (th tb, nsh + 4, false)) (k true) → dis None (k false) → dis None (Act (a_try_lock tb) k).
  Proof.
    intros H1 H2. split; [done|]. intros me o σ x σ' _ E. apply wt_ok in E as (t & Et & E). destruct (t_lock t) eqn:El; injection E as <- <-.
    - exists (Some (th tb, nsh + 4, false)). split; [|done]. destruct (same_lock _ _ (LHeld me) σ Et) as (A1 & B1 & C1).
      split; [done|]. split; [done|]. split; [unfold lk; rewrite Et; cbn; by rewrite El|]. done.
    - exists None. split; [apply same_refl|done].
    - exists None. split; [apply same_refl|done].
  Qed.
  Lemma dis_lock {A} tb (k : bool → prog A) : dis (Some (th tb, nsh + 4, false)) (k true) → dis None (k false) → dis None (Act (a_lock tb) k).
  Proof.
    intros H1 H2. split; [done|]. intros me o σ x σ' _ E. apply wt_ok in E as (t & Et & E). destruct (t_lock t) eqn:El; [|discriminate|]; injection E as <- <-.
    - exists (Some (th tb, nsh + 4, false)). split; [|done]. destruct (same_lock _ _ (LHeld me) σ Et) as (A1 & B1 & C1).
      split; [done|]. split; [done|]. split; [unfold lk; rewrite Et; cbn; by rewrite El|]. done.
    - exists None. split; [apply same_refl|done].
  Qed.

  Lemma dis_loop {S' B A} (body : S' → prog (S' + B)) s (k : B → prog A) : (∀ s, dis None (body s)) → (∀ b, dis None (k b)) → dis None (Loop body s k).
  Proof. done. Qed.
  Lemma dis_ret {A} (a : A) : dis None (Ret a). Proof. done. Qed.
  Lemma dis_fail {A} r : dis (A:=A) None (Fail r). Proof. done. Qed.
  Hint Resolve p_load_meta p_store_meta p_load_ent p_store_ent p_for p_cas_ent p_cas_pub p_deref p_load_copied p_add_copied p_load_claim p_add_claim
    p_load_status p_store_status p_count p_load_shard p_shards p_retire p_defer p_announce p_register p_remove p_contains p_pending p_take p_park p_unpark
    p_root p_root_raw p_cas_root p_should p_next p_init : pla.
  Create HintDb dsp.
  Ltac ds1 := lazymatch goal with
    | |- dis None (bind _ _) => apply dis_bind
    | |- dis None (act _) => apply dis_act'; solve [eauto 1 with pla]
    | |- dis None (Act _ _) => apply dis_act; [solve [eauto 1 with pla]|]
    | |- dis None (loop _ _) => apply dis_loop
    | |- dis None (Loop _ _ _) => apply dis_loop
    | |- dis None (Ret _) => apply dis_ret
    | |- dis None (Fail _) => apply dis_fail
    | |- dis None (if ?b then _ else _) => destruct b
    | |- dis None (match ?x with _ => _ end) => destruct x
    | |- dis None (let '_ := ?x in _) => destruct x
    | |- dis None (let _ := _ in _) => cbv zeta
    | |- ∀ _, _ => intros ?
    | |- dis None _ => first [solve [eauto 2 with dsp] | progress cbv beta]
    end.
  Ltac ds := repeat ds1.

  Lemma dis_spin_next n tb : dis None (spin_next n tb). Proof. induction n; cbn [spin_next]; ds. Qed.
  Hint Resolve dis_spin_next : dsp.
  Lemma dis_goan cap tb : dis None (get_or_alloc_next cfg cap tb).
  Proof.
    unfold get_or_alloc_next. apply dis_bind; [ds|]. intros [x|]; [ds|]. cbn [bind act]. apply dis_try_lock; [apply dis_alloc_locked|].
    apply dis_bind; [ds|]. intros [x|]; [ds|]. cbn [bind act]. apply dis_lock; [apply dis_alloc_locked|ds].
  Qed.
  Hint Resolve dis_goan : dsp.
  Lemma dis_park tb k : dis None (park tb k). Proof. unfold park. ds. Qed.
  Lemma dis_unpark_all l : dis None (unpark_all l). Proof. induction l; cbn [unpark_all]; ds. Qed.
  Hint Resolve dis_park dis_unpark_all : dsp.
  Lemma dis_unpark tb k : dis None (unpark tb k). Proof. unfold unpark. ds. Qed.
  Lemma dis_sums n j acc : dis None (sum_shards n j acc). Proof. revert j acc. induction n; intros j acc; cbn [sum_shards]; ds. Qed.
  Hint Resolve dis_unpark dis_sums : dsp.
  Lemma dis_len : dis None map_len. Proof. unfold map_len. ds. Qed.
  Lemma dis_init cap : dis None (init cap). Proof. unfold init. ds. Qed.
  Lemma dis_promote tb n c : dis None (try_promote tb n c). Proof. unfold try_promote. ds. Qed.
  Lemma dis_icp f tb e k i l : dis None (insert_copy_probe cfg f tb e k i l). Proof. revert i l. induction f; intros i l; cbn [insert_copy_probe]; ds. Qed.
  Hint Resolve dis_len dis_init dis_promote dis_icp : dsp.
  Lemma dis_ic e p r tb : dis None (insert_copy cfg e p r tb). Proof. unfold insert_copy. ds. Qed.
  Hint Resolve dis_ic : dsp.
  Lemma dis_cab i tb n : dis None (copy_at_blocking cfg i tb n). Proof. unfold copy_at_blocking. ds. Qed.
  Lemma dis_cai i tb n : dis None (copy_at_incremental cfg i tb n). Proof. unfold copy_at_incremental. ds. Qed.
  Hint Resolve dis_cab dis_cai : dsp.
  Lemma dis_cci n i tb nt c : dis None (copy_chunk_incremental cfg n i tb nt c). Proof. revert i c. induction n; intros i c; cbn [copy_chunk_incremental]; ds. Qed.
  Lemma dis_ccb n i tb nt c : dis None (copy_chunk_blocking cfg n i tb nt c). Proof. revert i c. induction n; intros i c; cbn [copy_chunk_blocking]; ds. Qed.
  Lemma dis_spin_status n tb : dis None (spin_status n tb). Proof. induction n; cbn [spin_status]; ds. Qed.
  Hint Resolve dis_cci dis_ccb dis_spin_status : dsp.
  Lemma dis_ws n : dis None (wait_status cfg n). Proof. unfold wait_status. ds. Qed.
  Hint Resolve dis_ws : dsp.
  Lemma dis_hci c b : dis None (help_copy_incremental cfg c b). Proof. unfold help_copy_incremental. ds. Qed.
  Lemma dis_hcb tb : dis None (help_copy_blocking cfg tb). Proof. unfold help_copy_blocking. ds. Qed.
  Hint Resolve dis_hci dis_hcb : dsp.
  Lemma dis_hc b tb : dis None (help_copy cfg b tb). Proof. unfold help_copy. ds. Qed.
  Hint Resolve dis_hc : dsp.
  Lemma dis_lin tb : dis None (linearize cfg tb). Proof. unfold linearize. ds. Qed.
  Lemma dis_spin_copied n i tb : dis None (spin_copied n i tb). Proof. induction n; cbn [spin_copied]; ds. Qed.
  Hint Resolve dis_lin dis_spin_copied : dsp.
  Lemma dis_wc i tb : dis None (wait_copied cfg i tb). Proof. unfold wait_copied. ds. Qed.
  Lemma dis_dr e tb : dis None (defer_retire cfg e tb). Proof. unfold defer_retire. ds. Qed.
  Lemma dis_ia i m kv tb : dis None (insert_at cfg i m kv tb). Proof. unfold insert_at. ds. Qed.
  Hint Resolve dis_wc dis_dr dis_ia : dsp.
  Lemma dis_ua i c n tb : dis None (update_at cfg i c n tb). Proof. unfold update_at. ds. Qed.
  Hint Resolve dis_ua : dsp.
  Lemma dis_is i e kv tb : dis None (insert_slow cfg i e kv tb). Proof. unfold insert_slow. ds. Qed.
  Lemma dis_gp f tb k i l : dis None (get_probe cfg f tb k i l). Proof. revert i l. induction f; intros i l; cbn [get_probe]; ds. Qed.
  Hint Resolve dis_is dis_gp : dsp.
  Lemma dis_get k : dis None (get cfg k). Proof. unfold get. ds. Qed.
  Lemma dis_pri c h tb : dis None (prepare_retry_insert cfg c h tb). Proof. unfold prepare_retry_insert. ds. Qed.
  Lemma dis_pr c h tb : dis None (prepare_retry cfg c h tb). Proof. unfold prepare_retry. ds. Qed.
  Lemma dis_ip f r tb kv i l : dis None (insert_probe cfg f r tb kv i l). Proof. revert i l. induction f; intros i l; cbn [insert_probe]; ds. Qed.
  Hint Resolve dis_get dis_pri dis_pr dis_ip : dsp.
  Lemma dis_insert k v r : dis None (insert cfg k v r). Proof. unfold insert, insert_inner. ds. Qed.
  Lemma dis_re p tb i e : dis None (remove_entry cfg p tb i e). Proof. unfold remove_entry. ds. Qed.
  Hint Resolve dis_insert dis_re : dsp.
  Lemma dis_rp f p tb k i l : dis None (remove_probe cfg f p tb k i l). Proof. revert i l. induction f; intros i l; cbn [remove_probe]; ds. Qed.
  Hint Resolve dis_rp : dsp.
  Lemma dis_remove k p : dis None (remove_if cfg k p). Proof. unfold remove_if. ds. Qed.
  Lemma dis_nn o f cs : dis None (cs_next_none o f cs). Proof. unfold cs_next_none. ds. Qed.
  Lemma dis_ns f cs p : dis None (cs_next_some f cs p). Proof. unfold cs_next_some. ds. Qed.
  Hint Resolve dis_remove dis_nn dis_ns : dsp.
  Lemma dis_ce o f tb k i cs e : dis None (compute_entry cfg o f tb k i cs e). Proof. unfold compute_entry. ds. Qed.
  Hint Resolve dis_ce : dsp.
  Lemma dis_cp fu o f tb k i l cs : dis None (compute_probe cfg fu o f tb k i l cs). Proof. revert i l cs. induction fu; intros i l cs; cbn [compute_probe]; ds. Qed.
  Hint Resolve dis_cp : dsp.
  Lemma dis_compute o k f : dis None (compute cfg o k f). Proof. unfold compute. ds. Qed.
  Lemma dis_de t tb i e : dis None (delete_entry cfg t tb i e). Proof. unfold delete_entry. ds. Qed.
  Hint Resolve dis_compute dis_de : dsp.
  Lemma dis_sw n i t tb c : dis None (sweep cfg n i t tb c). Proof. revert i c. induction n; intros i c; cbn [sweep]; ds. Qed.
  Hint Resolve dis_sw : dsp.
  Lemma dis_cor t : dis None (clear_or_retain cfg t). Proof. unfold clear_or_retain. ds. Qed.
  Lemma dis_iter : dis None (iter cfg). Proof. unfold iter. ds. Qed.
  Lemma dis_in f i tb : dis None (iter_next f i tb). Proof. revert i. induction f; intros i; cbn [iter_next]; ds. Qed.
  Lemma dis_res n : dis None (reserve cfg n). Proof. unfold reserve. ds. Qed.
  Hint Resolve dis_cor dis_iter dis_in dis_res : dsp.
  Lemma p_ub {A} : plain (a_ub (A:=A)). Proof. by intros ? ? ? ? ?. Qed.
  Hint Resolve p_ub : pla.
  Lemma dis_op o its : dis None (op_prog cfg o its). Proof. destruct o; cbn [op_prog]; ds. Qed.

  (** ** The machine *)
  Definition holds (i : nat) (h : held) (σ : state) : Prop :=
    (∀ t, lk σ t = Some (LHeld i) → ∃ n b, h = Some (t, n, b)) ∧
    match h with
    | None => True
    | Some (t, n, b) => n ≤ nsh + 4 ∧ lk σ t = Some (LHeld i) ∧ (b = true → nx σ t = None)
    end.
  Definition thr_lk (i : nat) (σ : state) (ts : tstate K V) : Prop :=
    ∃ h, holds i h σ ∧ match ts_run ts with None => h = None | Some (_, p) => if ts_dead ts then h = None else dis h p end.
  Definition LI (c : mconf K V) : Prop :=
    length (counts (mc_st c)) = nsh ∧ (∀ i ts, mc_thr c !! i = Some ts → thr_lk i (mc_st c) ts) ∧
    ∀ t i, lk (mc_st c) t = Some (LHeld i) → is_Some (mc_thr c !! i).

  Lemma holds_same i h (σ σ' : state) : same σ σ' → holds i h σ → holds i h σ'.
  Proof.
    intros [L S] [A B]. split.
    - intros t Ht. apply A. destruct (S t I) as [[E|[E1 E2]] _]; congruence.
    - destruct h as [[[t n] b]|]; [|done]. destruct B as (B1 & B2 & B3). split; [done|]. destruct (S t I) as [[E|[E1 E2]] N]; [|congruence]. rewrite E, N. done.
  Qed.
  (** A step of thread [me] does not take the locks of others away. *)
  Lemma holds_other i me h0 h h' (σ σ' : state) : i ≠ me → holds me h σ → trans me h h' σ σ' → holds i h0 σ → holds i h0 σ'.
  Proof.
    intros Ni Hm T H0.
    assert (K1 : ∀ t, same_at (λ x, x ≠ t) σ σ' → lk σ t ≠ Some (LHeld i) → lk σ' t ≠ Some (LHeld i) → holds i h0 σ').
    { intros t [L S] N1 N2. destruct H0 as [A B]. split.
      - intros x Hx. assert (x ≠ t) by (intros ->; done). apply A. destruct (S x) as [[E|[E1 E2]] _]; [done|congruence|congruence].
      - destruct h0 as [[[x n] b]|]; [|done]. destruct B as (B1 & B2 & B3). assert (x ≠ t) by (intros ->; done). split; [done|].
        destruct (S x) as [[E|[E1 E2]] N]; [done| |congruence]. rewrite E, N. done. }
    destruct h as [[[t n] b]|], h' as [[[t' n'] b']|]; cbn [trans] in T.
    - destruct T as (-> & _ & [[S _]|(_ & _ & El & _ & S)]); [by eapply holds_same|]. destruct Hm as [_ (_ & Hl & _)]. apply (K1 t S); congruence.
    - destruct T as (Hl' & _ & S). destruct Hm as [_ (_ & Hl & _)]. apply (K1 t S); [congruence|]. destruct Hl'; congruence.
    - destruct T as (_ & _ & Hl & Hl' & _ & S). apply (K1 t' S); congruence.
    - by eapply holds_same.
  Qed.
  Lemma holds_self i h h' (σ σ' : state) : holds i h σ → trans i h h' σ σ' → holds i h' σ'.
  Proof.
    intros [A B] T. destruct h as [[[t n] b]|], h' as [[[t' n'] b']|]; cbn [trans] in T.
    - destruct T as (-> & Ln & T). destruct B as (B1 & B2 & B3).
      destruct T as [[S Hb]|(-> & -> & El & _ & S)].
      + destruct (holds_same i (Some (t, n, b)) _ _ S (conj A (conj B1 (conj B2 B3)))) as [A' (_ & C2 & C3)]. split.
        * intros x Hx. destruct (A' x Hx) as (? & ? & [= -> -> ->]). by eexists _, _.
        * split; [lia|]. split; [done|]. intros Hb'. destruct S as [_ S]. destruct (S t I) as [_ ->]. destruct (Hb Hb'); [by apply B3|done].
      + split; [|split; [lia|]; split; [congruence|done]]. intros x Hx. destruct (decide (x = t)) as [->|Nx]; [by eexists _, _|].
        destruct S as [_ S]. destruct (S x Nx) as [[E|[E1 E2]] _]; [|congruence]. rewrite E in Hx. destruct (A x Hx) as (? & ? & [= -> _ _]). done.
    - destruct T as (Hl & _ & S). split; [|done]. intros x Hx. destruct (decide (x = t)) as [->|Nx]; [destruct Hl; congruence|].
      destruct S as [_ S]. destruct (S x Nx) as [[E|[E1 E2]] _]; [|congruence]. rewrite E in Hx. destruct (A x Hx) as (? & ? & [= -> _ _]). done.
    - destruct T as (-> & Ln & Hl & Hl' & _ & S). split; [|by split].
      intros x Hx. destruct (decide (x = t')) as [->|Nx]; [by eexists _, _|].
      destruct S as [_ S]. destruct (S x Nx) as [[E|[E1 E2]] _]; [|congruence]. rewrite E in Hx. destruct (A x Hx) as (? & ? & [=]).
    - by eapply holds_same.
  Qed.
  Lemma trans_counts me h h' (σ σ' : state) : trans me h h' σ σ' → length (counts σ') = length (counts σ).
  Proof.
    destruct h as [[[t n] b]|], h' as [[[t' n'] b']|]; cbn [trans].
    - by intros (_ & _ & [[[? _] _]|(_ & _ & _ & _ & ? & _)]).
    - by intros (_ & _ & ? & _).
    - by intros (_ & _ & _ & _ & _ & ? & _).
    - by intros [? _].
  Qed.
  (** Next pointers are written once. *)
  Lemma trans_next me h h' (σ σ' : state) t n : holds me h σ → trans me h h' σ σ' → nx σ t = Some n → nx σ' t = Some n.
  Proof.
    intros [_ H] T N.
    assert (K1 : ∀ P, same_at P σ σ' → P t → nx σ' t = Some n) by (intros P [_ S] Pt; by rewrite (proj2 (S t Pt))).
    destruct h as [[[t0 n0] b]|], h' as [[[t' n'] b']|]; cbn [trans] in T.
    - destruct T as (-> & _ & [[S _]|(-> & _ & _ & _ & S)]); [by apply (K1 _ S)|]. destruct H as (_ & _ & H). apply (K1 _ S). intros ->. rewrite H in N; done.
    - destruct T as (_ & E & S). destruct (decide (t = t0)) as [->|Nt]; [congruence|by apply (K1 _ S)].
    - destruct T as (_ & _ & _ & _ & E & S). destruct (decide (t = t')) as [->|Nt]; [congruence|by apply (K1 _ S)].
    - by apply (K1 _ T).
  Qed.
  Lemma trans_held me h h' (σ σ' : state) t i : holds me h σ → trans me h h' σ σ' → lk σ' t = Some (LHeld i) → i ≠ me → lk σ t = Some (LHeld i).
  Proof.
    intros [_ H] T N Ni.
    assert (K1 : ∀ P, same_at P σ σ' → P t → lk σ t = Some (LHeld i)) by (intros P [_ S] Pt; destruct (S t Pt) as [[E|[E1 E2]] _]; congruence).
    destruct h as [[[t0 n0] b]|], h' as [[[t' n'] b']|]; cbn [trans] in T.
    - destruct T as (-> & _ & [[S _]|(-> & _ & E & _ & S)]); [by apply (K1 _ S)|]. destruct (decide (t = t0)) as [->|Nt]; [congruence|by apply (K1 _ S)].
    - destruct T as (E & _ & S). destruct (decide (t = t0)) as [->|Nt]; [destruct E; congruence|by apply (K1 _ S)].
    - destruct T as (_ & _ & _ & E & _ & S). destruct (decide (t = t')) as [->|Nt]; [congruence|by apply (K1 _ S)].
    - by apply (K1 _ T).
  Qed.

  Lemma same_unpin i (σ : state) : same σ (unpin i σ). Proof. by apply same_tables. Qed.
  Lemma retire_all_same l : ∀ (σ σ' : state), retire_all l σ = Some σ' → tables σ' = tables σ ∧ counts σ' = counts σ.
  Proof. induction l as [|p l IH]; cbn [retire_all]; intros σ σ' E; [by injection E as <-|]. destruct (decide _); [done|]. by apply IH in E. Qed.
  Lemma same_reclaim r rest (σ σ' : state) : reclaim r rest σ = Some σ' → same σ σ'.
  Proof.
    unfold reclaim. destruct (r_obj r) as [p|t].
    - destruct (decide _); [done|]. intros [= <-]. by apply same_tables.
    - cbn [set_retired tables]. destruct (tables σ !! t) as [tb|] eqn:E; [|done]. destruct (t_freed tb); [done|]. destruct (retire_all _ _) as [σ1|] eqn:R; [|done].
      cbn. intros [= <-]. apply retire_all_same in R as [R1 R2]. cbn in R1, R2. split; [cbn; by rewrite R2|]. intros x _. unfold lk, nx. cbn [set_tables tables]. rewrite R1.
      destruct (decide (x = t)) as [->|N]; [|rewrite list_lookup_insert_ne by done; by split; [left|]].
      rewrite list_lookup_insert by (by eapply lookup_lt_Some). rewrite E. by split; [left|].
  Qed.

  Lemma LI_same (c c' : mconf K V) : LI c → same (mc_st c) (mc_st c') → mc_thr c' = mc_thr c → LI c'.
  Proof.
    intros (A & B & C) S E. split; [destruct S as [-> _]; done|]. rewrite E. split.
    - intros i ts Ei. destruct (B i ts Ei) as (h & H1 & H2). exists h. split; [by eapply holds_same|done].
    - intros t i H. destruct S as [_ S]. destruct (S t I) as [[X|[X1 X2]] _]; [|congruence]. rewrite X in H. by eapply C.
  Qed.
  (** Thread [i] goes on with [ts'], having made transition [h] to [h']. *)
  Lemma LI_step (c c' : mconf K V) i ts ts' h h' : LI c → mc_thr c !! i = Some ts → holds i h (mc_st c) → trans i h h' (mc_st c) (mc_st c') →
    mc_thr c' = set_thr i ts' (mc_thr c) → match ts_run ts' with None => h' = None | Some (_, p) => if ts_dead ts' then h' = None else dis h' p end → LI c'.
  Proof.
    intros (A & B & C) Ei H T E D. split; [erewrite trans_counts by done; done|]. rewrite E. unfold set_thr. split.
    - intros j tj Ej. destruct (decide (j = i)) as [->|N].
      + rewrite list_lookup_insert in Ej by (by eapply lookup_lt_Some). injection Ej as <-. exists h'. split; [by eapply holds_self|done].
      + rewrite list_lookup_insert_ne in Ej by done. destruct (B j tj Ej) as (h0 & H1 & H2). exists h0. split; [by eapply holds_other|done].
    - intros t j Hj. destruct (decide (j = i)) as [->|N]; [rewrite list_lookup_insert by (by eapply lookup_lt_Some); by eexists|].
      rewrite list_lookup_insert_ne by done. eapply (C t). by eapply trans_held.
  Qed.

  Lemma thr_none i (c : mconf K V) ts : LI c → mc_thr c !! i = Some ts → ts_run ts = None → holds i None (mc_st c).
  Proof. intros (_ & B & _) Ei R. destruct (B i ts Ei) as (h & H & D). rewrite R in D. by subst h. Qed.

  Lemma LI_mstep (c c' : mconf K V) ch : LI c → mstep cfg c ch = SStep c' → LI c' ∧ ∀ t n, nx (mc_st c) t = Some n → nx (mc_st c') t = Some n.
  Proof.
    intros L E.
    assert (SN : ∀ σ', same (mc_st c) σ' → ∀ t n, nx (mc_st c) t = Some n → nx σ' t = Some n) by (intros σ' [_ S] t n N; by rewrite (proj2 (S t I))).
    destruct ch as [i|i|i o|i b|j]; cbn [mstep] in E.
    - destruct (mc_thr c !! i) as [[[] its []]|] eqn:Ei; try done. destruct (decide _); [done|]. injection E as <-.
      assert (S : same (mc_st c) (set_pins (i :: pins (mc_st c)) (mc_st c))) by by apply same_tables. split; [by eapply LI_same|by apply SN].
    - destruct (mc_thr c !! i) as [[[] its []]|] eqn:Ei; try done. destruct (decide _); [|done]. injection E as <-. split; [|apply SN, same_unpin].
      eapply (LI_step c _ i _ _ None None L Ei); [by eapply thr_none|apply same_unpin|reflexivity|done].
    - destruct (mc_thr c !! i) as [[[] its []]|] eqn:Ei; try done. destruct (decide _); [|done]. injection E as <-. split; [|apply SN, same_refl].
      eapply (LI_step c _ i _ _ None None L Ei); [by eapply thr_none|apply same_refl|reflexivity|]. apply dis_op.
    - destruct (mc_thr c !! i) as [[[[[id o] p]|] its []]|] eqn:Ei; try done.
      destruct L as (LA & LB & LC). destruct (LB i _ Ei) as (h & H & D). cbn [ts_run ts_dead] in D.
      assert (L : LI c) by done.
      assert (RC : ∀ {T} (q : Prog.prog K V T) fin (inj : Prog.prog K V T → prog (pres K V)), dis h q → (∀ h' q', dis h' q' → dis h' (inj q')) →
        match q in Prog.prog _ _ T return (T → option (vres K V * (list iterst) * hevent K V)) → (Prog.prog K V T → Prog.prog K V (pres K V)) → sres with
        | Ret a => λ fin _,
          match fin a with
          | Some (v, its', ev) => SStep (MConf (mc_st c) (set_thr i (ts_idle its') (mc_thr c)) (mc_hist c ++ [ev]) (mc_nop c))
          | None => SUB
          end
        | Act f k => λ _ inj,
          match f i b (mc_st c) with
          | Ok x σ' => SStep (MConf σ' (set_thr i (TState (Some (id, o, inj (k x))) its false) (mc_thr c)) (mc_hist c) (mc_nop c))
          | Block => SSkip
          | UB => SUB
          end
        | Loop body s k => λ _ inj,
          SStep (MConf (mc_st c) (set_thr i (TState (Some (id, o,
              inj (bind (body s) (λ r, match r with inl s' => Loop body s' k | inr b => k b end)))) its false) (mc_thr c))
             (mc_hist c) (mc_nop c))
        | Fail why => λ _ _,
          SStep (MConf (unpin i (mc_st c)) (set_thr i (TState None [] true) (mc_thr c)) (mc_hist c ++ [HPanic i id o why]) (mc_nop c))
        end fin inj = SStep c' → LI c' ∧ ∀ t n, nx (mc_st c) t = Some n → nx (mc_st c') t = Some n).
      { intros T q fin inj Dq Hinj X. destruct q as [T a|X' T f k|S B T body s k|T why]; cbn [dis] in Dq.
        - subst h. destruct (fin a) as [[[v its'] ev]|]; [|done]. injection X as <-. split; [|apply SN, same_refl].
          eapply (LI_step c _ i _ _ None None L Ei); [done|apply same_refl|reflexivity|done].
        - destruct Dq as [En Hk]. destruct (f i b (mc_st c)) as [x σ'| |] eqn:Ef; [|done|done]. injection X as <-.
          destruct (Hk i b (mc_st c) x σ' LA Ef) as (h' & T' & D'). split; [|intros t n; by eapply trans_next].
          eapply (LI_step c _ i _ _ h h' L Ei); [done|done|reflexivity|]. by apply Hinj.
        - destruct Dq as (-> & Hb & Hk). injection X as <-. split; [|apply SN, same_refl].
          eapply (LI_step c _ i _ _ None None L Ei); [done|apply same_refl|reflexivity|]. apply Hinj. apply dis_bind; [apply Hb|]. intros [s'|x]; [by split|apply Hk].
        - subst h. injection X as <-. split; [|apply SN, same_unpin]. eapply (LI_step c _ i _ _ None None L Ei); [done|apply same_unpin|reflexivity|done]. }
      exact (RC _ p _ (λ p, p) D (λ _ _ H, H) E).
    - destruct (retired (mc_st c) !! j) as [r|]; [|done]. destruct (decide _); [|done]. destruct (reclaim _ _ _) as [σ'|] eqn:R; [|done]. injection E as <-.
      apply same_reclaim in R. split; [by eapply LI_same|by apply SN].
  Qed.
  Lemma LI_exec sched : ∀ (c c' : mconf K V), LI c → exec cfg c sched = Some c' → LI c' ∧ ∀ t n, nx (mc_st c) t = Some n → nx (mc_st c') t = Some n.
  Proof.
    induction sched as [|ch sched IH]; cbn [exec]; intros c c' L E; [injection E as <-; done|].
    destruct (mstep cfg c ch) as [c1| |] eqn:M; [|by apply IH|done]. destruct (LI_mstep _ _ _ L M) as [L1 N1]. destruct (IH _ _ L1 E) as [L2 N2]. split; [done|]. auto.
  Qed.
  Lemma LI_init cap nthr : LI (init_conf cap nsh nthr).
  Proof.
    split; [cbn; by rewrite replicate_length|].
    assert (F : ∀ t i, lk (init_state (K:=K) (V:=V) cap nsh) t ≠ Some (LHeld i)).
    { intros t i. unfold lk, init_state. cbn [tables]. destruct (cap =? 0); [done|]. by destruct t as [|[|?]]. }
    split; [|intros t i H; by apply F in H]. intros i ts Ei. cbn in Ei. apply lookup_replicate in Ei as [-> _]. exists None. split; [|done]. split; [|done].
    intros t H. by apply F in H.
  Qed.
End locks.

(** ** The properties, in terms of the machine. [holder c t i]: thread [i] holds the allocation lock of table [t];
    [next_of c t = Some n]: the next table of [t] is [n]. *)
Definition holder {K V} (c : mconf K V) (t i : nat) : Prop := ∃ tb, tables (mc_st c) !! t = Some tb ∧ t_lock tb = LHeld i.
Definition next_of {K V} (c : mconf K V) (t n : nat) : Prop := ∃ tb, tables (mc_st c) !! t = Some tb ∧ t_next tb = Some n.

Section thms.
  Context {K V : Type} {Keq : EqDecision K} (cfg : config K).
  Context (cap nsh nthr : nat) (sched : list (choice K V)) (c : mconf K V).
  Context (EX : exec cfg (init_conf cap nsh nthr) sched = Some c).

  Lemma reach_LI : LI nsh c.
  Proof. by destruct (LI_exec cfg nsh _ _ _ (LI_init nsh cap nthr) EX). Qed.
  Lemma holder_lk (c0 : mconf K V) t i : holder c0 t i ↔ lk (mc_st c0) t = Some (LHeld i).
  Proof.
    unfold holder, lk. split; [intros (tb & -> & <-); done|]. destruct (tables _ !! t) as [tb|]; [|done]. cbn. intros [= E]. by exists tb.
  Qed.
  Lemma holder_dec (c0 : mconf K V) t i : holder c0 t i ∨ ¬ holder c0 t i.
  Proof.
    rewrite holder_lk. destruct (lk (mc_st c0) t) as [[|j|]|]; try (by right). destruct (decide (j = i)) as [->|]; [by left|right; congruence].
  Qed.
  Lemma next_nx (c0 : mconf K V) t n : next_of c0 t n ↔ nx (mc_st c0) t = Some n.
  Proof.
    unfold next_of, nx. split; [intros (tb & -> & <-); done|]. destruct (tables _ !! t) as [tb|]; [|done]. cbn. intros E. by exists tb.
  Qed.

  (** The holder of the lock is in the middle of a call, at a step that is enabled, at most [n] steps away from releasing the lock. *)
  Lemma holder_runs (c0 : mconf K V) t i : LI nsh c0 → holder c0 t i → ∃ id o p its n b,
    mc_thr c0 !! i = Some (TState (Some (id, o, p)) its false) ∧ n ≤ nsh + 4 ∧ dis nsh (Some (t, n, b)) p.
  Proof.
    intros (A & B & C) Hl%holder_lk. destruct (C t i Hl) as [ts Ei]. destruct (B i ts Ei) as (h & [H1 H2] & D).
    destruct (H1 t Hl) as (n & b & ->). destruct ts as [[[[id o] p]|] its []]; try done. exists id, o, p, its, n, b. by destruct H2.
  Qed.
  Lemma holder_step (c0 : mconf K V) i id o p its t n b orc : mc_thr c0 !! i = Some (TState (Some (id, o, p)) its false) → dis nsh (Some (t, n, b)) p → length (counts (mc_st c0)) = nsh →
    mstep cfg c0 (CRun i orc) = SUB ∨ ∃ c1 p1 h, mstep cfg c0 (CRun i orc) = SStep c1 ∧ mc_thr c1 !! i = Some (TState (Some (id, o, p1)) its false) ∧ dis nsh h p1 ∧
      trans nsh i (Some (t, n, b)) h (mc_st c0) (mc_st c1).
  Proof.
    intros Ei D Ln. assert (Li : i < length (mc_thr c0)) by by eapply lookup_lt_Some. cbn [mstep]. rewrite Ei.
    assert (RC : ∀ {T} (q : Prog.prog K V T) fin (inj : Prog.prog K V T → Prog.prog K V (pres K V)), dis nsh (Some (t, n, b)) q → (∀ h' q', dis nsh h' q' → dis nsh h' (inj q')) →
        ∀ res, res = match q in Prog.prog _ _ T return (T → option (vres K V * (list iterst) * hevent K V)) → (Prog.prog K V T → Prog.prog K V (pres K V)) → sres with
        | Ret a => λ fin _,
          match fin a with
          | Some (v, its', ev) => SStep (MConf (mc_st c0) (set_thr i (ts_idle its') (mc_thr c0)) (mc_hist c0 ++ [ev]) (mc_nop c0))
          | None => SUB
          end
        | Act f k => λ _ inj,
          match f i orc (mc_st c0) with
          | Ok x σ' => SStep (MConf σ' (set_thr i (TState (Some (id, o, inj (k x))) its false) (mc_thr c0)) (mc_hist c0) (mc_nop c0))
          | Block => SSkip
          | UB => SUB
          end
        | Loop body s k => λ _ inj,
          SStep (MConf (mc_st c0) (set_thr i (TState (Some (id, o,
              inj (bind (body s) (λ r, match r with inl s' => Loop body s' k | inr b => k b end)))) its false) (mc_thr c0))
             (mc_hist c0) (mc_nop c0))
        | Fail why => λ _ _,
          SStep (MConf (unpin i (mc_st c0)) (set_thr i (TState None [] true) (mc_thr c0)) (mc_hist c0 ++ [HPanic i id o why]) (mc_nop c0))
        end fin inj → res = SUB ∨ ∃ c1 p1 h, res = SStep c1 ∧ mc_thr c1 !! i = Some (TState (Some (id, o, p1)) its false) ∧ dis nsh h p1 ∧
      trans nsh i (Some (t, n, b)) h (mc_st c0) (mc_st c1)).
    { intros T q fin inj Dq Hinj res ->. destruct q as [T a|X' T f k|S B T body s k|T why]; cbn [dis] in Dq; [done| |by destruct Dq|done].
      destruct Dq as [En Hk]. destruct (f i orc (mc_st c0)) as [x σ'| |] eqn:Ef; [|by apply (proj1 En) in Ef|by left]. right.
      destruct (Hk i orc (mc_st c0) x σ' Ln Ef) as (h' & T' & D'). eexists _, _, h'. split; [reflexivity|]. cbn [mc_thr mc_st]. unfold set_thr. rewrite list_lookup_insert by done.
      split; [reflexivity|]. split; [by apply Hinj|done]. }
    exact (RC _ p _ (λ p, p) D (λ _ _ H, H) _ eq_refl).
  Qed.

  (** C37 (1): whoever holds an allocation lock is never blocked: it is in the middle of a call and its next step is enabled. *)
  Theorem C37_holder_never_waits : ∀ t i, holder c t i → ∀ b, mstep cfg c (CRun i b) ≠ SSkip.
  Proof.
    intros t i H b E. pose proof reach_LI as L. destruct (holder_runs _ _ _ L H) as (id & o & p & its & n & b' & Ei & _ & D).
    destruct (holder_step c i id o p its t n b' b Ei D) as [X|(c1 & p1 & h & X & _)]; [by destruct L|congruence|congruence].
  Qed.
  (** So a configuration in which no thread can step has no lock held: nobody waits for a lock for ever. *)
  Corollary C37_no_lock_deadlock : (∀ i b, mstep cfg c (CRun i b) = SSkip) → ∀ t i, ¬ holder c t i.
  Proof. intros S t i H. by apply (C37_holder_never_waits t i H false). Qed.

  (** C37 (2): the lock is released after at most [nsh + 4] further steps of the holder ([nsh] = number of counter shards, which the
      holder sums up), whatever the others do: in any continuation in which the holder is scheduled that often, there is a moment when it
      does not hold the lock. *)
  Theorem C37_lock_released : ∀ t i s c', holder c t i → exec cfg c s = Some c' → nsh + 4 ≤ runs_of i s →
    ∃ s1 s2 c1, s = s1 ++ s2 ∧ exec cfg c s1 = Some c1 ∧ ¬ holder c1 t i.
  Proof.
    intros t i s c' H E R. pose proof reach_LI as L. destruct (holder_runs _ _ _ L H) as (id & o & p & its & n & b & Ei & Ln & D).
    assert (R' : n ≤ runs_of i s) by lia. clear R Ln EX. revert c c' p n b L H E Ei D R'.
    induction s as [|ch s IH]; intros c0 c' p n b L H E Ei D R'.
    - cbn in R'. assert (n = 0) as -> by lia. exfalso. clear -D.
      destruct p as [A a|X' A f k|S B A body s k|A why]; cbn [dis] in D; [done| |by destruct D|done]. destruct D as [[_ D] _]. lia.
    - cbn [exec] in E.
      assert (ST : ∀ c1, mstep cfg c0 ch = SStep c1 → ∀ s1 s2 c2, s = s1 ++ s2 → exec cfg c1 s1 = Some c2 → ¬ holder c2 t i →
         ∃ s1 s2 c1, ch :: s = s1 ++ s2 ∧ exec cfg c0 s1 = Some c1 ∧ ¬ holder c1 t i).
      { intros c1 M s1 s2 c2 -> X N. exists (ch :: s1), s2, c2. split; [done|]. split; [|done]. cbn [exec]. by rewrite M. }
      assert (DC : (∃ b, ch = CRun i b) ∨ ¬ ∃ b, ch = CRun i b).
      { destruct ch as [| | |j b0|]; try (right; by intros [? ?]). destruct (decide (j = i)) as [->|]; [left; by exists b0|right; intros [? ?]; congruence]. }
      destruct DC as [[b0 ->]|Nc].
      + unfold runs_of in R'. cbn [List.filter] in R'. rewrite Nat.eqb_refl in R'. cbn [length] in R'. fold (runs_of i s) in R'.
        destruct (holder_step c0 i id o p its t n b b0 Ei D) as [X|(c1 & p1 & h & X & E1 & Dh & T)]; [by destruct L|by rewrite X in E|].
        rewrite X in E. destruct (LI_mstep cfg nsh _ _ _ L X) as [L1 _].
        destruct h as [[[t' n'] b']|].
        * destruct T as (-> & Ln & _). destruct (holder_dec c1 t i) as [H1|H1]; [|by apply (ST c1 X [] s c1)].
          destruct (IH c1 c' p1 n' b' L1 H1 E E1 Dh) as (s1 & s2 & c2 & Es & Ec & Nh); [lia|]. by eapply ST.
        * destruct T as (Hl & _). eapply (ST c1 X [] s c1); [done|done|]. rewrite holder_lk. destruct Hl; congruence.
      + assert (R'' : n ≤ runs_of i s).
        { revert R'. unfold runs_of. cbn [List.filter]. destruct ch as [| | |j b0|]; try done. destruct (j =? i) eqn:Ej; [|done]. apply Nat.eqb_eq in Ej as ->. destruct Nc. by eexists. }
        assert (Nc' : ∀ b0, ch ≠ CRun i b0) by (intros b0 ->; apply Nc; by eexists).
        destruct (mstep cfg c0 ch) as [c1| |] eqn:M; [| |done].
        * pose proof (mstep_other _ _ _ _ _ _ _ Ei Nc' M) as E1. destruct (LI_mstep cfg nsh _ _ _ L M) as [L1 _].
          destruct (holder_dec c1 t i) as [H1|H1]; [|by apply (ST c1 eq_refl [] s c1)].
          destruct (IH c1 c' p n b L1 H1 E E1 D R'') as (s1 & s2 & c2 & Es & Ec & Nh). by eapply ST.
        * destruct (IH c0 c' p n b L H E Ei D R'') as (s1 & s2 & c2 & Es & Ec & Nh). exists (ch :: s1), s2, c2. split; [by rewrite Es|]. split; [|done]. cbn [exec]. by rewrite M.
  Qed.

  (** C37 (3): at most one next table: once a table has a next table, that one stays its next table for ever. *)
  Theorem C37_one_next_table : ∀ t n s c', next_of c t n → exec cfg c s = Some c' → next_of c' t n.
  Proof. intros t n s c' H%next_nx E. apply next_nx. pose proof reach_LI as L. by apply (LI_exec cfg nsh _ _ _ L E). Qed.
End thms.

(** A case that meets the hypotheses: a resize in progress; thread 0 holds the lock, thread 1 is blocked on it. *)
Definition lk_cfg := mk_config (K:=nat) (λ _, 0%N) Blocking 0 0 1 1.
Definition lk_sched : list (choice nat nat) :=
  [CPin 0; CPin 1] ++ concat (map (λ k, CInvoke 0 (OInsert k k) :: replicate 100 (CRun 0 false)) (seq 0 5)) ++
  [CInvoke 0 (OReserve 100); CInvoke 1 (OReserve 100)] ++ replicate 9 (CRun 0 false) ++ replicate 20 (CRun 1 false).
Example C37_example : match exec lk_cfg (init_conf 0 2 2) lk_sched with
  | Some c => match tables (mc_st c) !! 0 with Some tb => match t_lock tb with LHeld 0 => true | _ => false end | None => false end &&
      match mstep lk_cfg c (CRun 1 false) with SSkip => true | _ => false end &&
      match mstep lk_cfg c (CRun 0 false) with SStep _ => true | _ => false end
  | None => false end = true.
Proof. by vm_compute. Qed.
