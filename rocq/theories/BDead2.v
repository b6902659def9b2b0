(** C52, part 2: accesses and programs that neither copy nor park. *)
From Verif Require Export BDead1.

Section dead.
  Context {K V : Type} {Keq : EqDecision K} (cfg : config K) (HM : c_mode cfg = Blocking) (N : nat) (Lf : nat → nat).
  Notation prog := (prog K V). Notation action := (action K V). Notation state := (state K V).
  Notation gl := (gl (K:=K) (V:=V) N). Notation dm := (dm (K:=K) (V:=V) cfg N Lf). Notation dmh := (dmh (K:=K) (V:=V) cfg N Lf). Notation dk := (dk (K:=K) (V:=V) cfg N Lf).
  Notation plain := (plain (K:=K) (V:=V)).

  Lemma tfld_upd {A} d (f : table → A) t tb (σ : state) x : tfld d f (upd_table t tb σ) x = if decide (x = t ∧ t < length (tables σ)) then f tb else tfld d f σ x.
  Proof. unfold tfld. rewrite upd_lookup. by destruct (decide _). Qed.
  Lemma tln_upd t tb (σ : state) x : tln (upd_table t tb σ) x = if decide (x = t ∧ t < length (tables σ)) then Some (length (t_slots tb)) else tln σ x.
  Proof. unfold tln. rewrite upd_lookup. by destruct (decide _). Qed.
  Lemma clm_upd t tb (σ : state) x : clm (upd_table t tb σ) x = if decide (x = t ∧ t < length (tables σ)) then t_claim tb else clm σ x.
  Proof. unfold clm. rewrite upd_lookup. by destruct (decide _). Qed.
  Lemma tfld_eq {A} d (f : table → A) (σ : state) t tb : tables σ !! t = Some tb → tfld d f σ t = f tb. Proof. intros E. unfold tfld. by rewrite E. Qed.
  Lemma clm_eq (σ : state) t tb : tables σ !! t = Some tb → clm σ t = t_claim tb. Proof. intros E. unfold clm. by rewrite E. Qed.
  Lemma tln_eq (σ : state) t tb : tables σ !! t = Some tb → tln σ t = Some (length (t_slots tb)). Proof. intros E. unfold tln. by rewrite E. Qed.
  Lemma us_refl (σ : state) : usame σ σ. Proof. split; [|done]. by split_and!. Qed.
  Lemma us_tables (σ σ' : state) : tables σ' = tables σ → root σ' = root σ → tokens σ' = tokens σ → usame σ σ'.
  Proof.
    intros E R T. assert (X : ∀ A d (f : table → A) t, tfld d f σ' t = tfld d f σ t) by (intros; unfold tfld; by rewrite E).
    split; [|split; [intros; apply X|done]]. split_and!; [done|intros; apply X|intros; apply X|intros; apply X|].
    intros t l. unfold tln. by rewrite E.
  Qed.
  Lemma cs_upd t tb tb0 (σ : state) : tables σ !! t = Some tb0 → t_claim tb = t_claim tb0 → t_copied tb = t_copied tb0 → t_status tb = t_status tb0 →
    t_slots tb = t_slots tb0 → csame σ (upd_table t tb σ).
  Proof.
    intros E A B C S. split_and!; [done| | | |].
    - intros x. rewrite clm_upd. destruct (decide _) as [[-> Ll]|]; [|done]. by rewrite A, (clm_eq _ _ _ E).
    - intros x. unfold cpd. rewrite tfld_upd. destruct (decide _) as [[-> Ll]|]; [|done]. by rewrite B, (tfld_eq _ _ _ _ _ E).
    - intros x. unfold sts. rewrite tfld_upd. destruct (decide _) as [[-> Ll]|]; [|done]. by rewrite C, (tfld_eq _ _ _ _ _ E).
    - intros x l X. rewrite tln_upd. destruct (decide _) as [[-> Ll]|]; [|done]. by rewrite S, <- X, (tln_eq _ _ _ E).
  Qed.
  Lemma us_upd t tb tb0 (σ : state) : tables σ !! t = Some tb0 → t_claim tb = t_claim tb0 → t_copied tb = t_copied tb0 → t_status tb = t_status tb0 → t_parker tb = t_parker tb0 →
    t_slots tb = t_slots tb0 → usame σ (upd_table t tb σ).
  Proof.
    intros E A B C P S. split; [by eapply cs_upd|]. split; [|done]. intros x. unfold pkr. rewrite tfld_upd. destruct (decide _) as [[-> Ll]|]; [|done]. by rewrite P, (tfld_eq _ _ _ _ _ E).
  Qed.
  Lemma us_trans (σ1 σ2 σ3 : state) : usame σ1 σ2 → usame σ2 σ3 → usame σ1 σ3.
  Proof.
    intros [(A1 & B1 & C1 & D1 & E1) (G1 & H1)] [(A2 & B2 & C2 & D2 & E2) (G2 & H2)]. split; [split_and!|split]; try (intros; congruence). intros t l X. auto.
  Qed.
  Lemma tfld_slot {A} d (f : table → A) t i tb s (σ : state) x : tables σ !! t = Some tb → (∀ g, f (t_set_slots g tb) = f tb) → tfld d f (upd_slot t i tb s σ) x = tfld d f σ x.
  Proof. intros E F. unfold upd_slot. rewrite tfld_upd. destruct (decide _) as [[-> Ll]|]; [|done]. by rewrite F, (tfld_eq _ _ _ _ _ E). Qed.
  Lemma tln_slot t i tb s (σ : state) x : tables σ !! t = Some tb → tln (upd_slot t i tb s σ) x = tln σ x.
  Proof. intros E. unfold upd_slot. rewrite tln_upd. destruct (decide _) as [[-> Ll]|]; [|done]. cbn. by rewrite insert_length, (tln_eq _ _ _ E). Qed.
  Lemma us_slot (σ : state) t i tb s : tables σ !! t = Some tb → usame σ (upd_slot t i tb s σ).
  Proof.
    intros E. split; [split_and!|split]; try (intros; by apply tfld_slot); try done.
    intros x l. by rewrite tln_slot.
  Qed.

  Lemma nb_table {A} t (σ : state) (f : table → outcome K V A) : (∀ tb, f tb ≠ Block) → with_table t σ f ≠ Block.
  Proof. intros H. unfold with_table. destruct (tables σ !! t) as [tb|]; [|done]. destruct (t_freed tb); [done|]. apply H. Qed.
  Lemma nb_slot {A} t i (σ : state) (f : table → slot → outcome K V A) : (∀ tb s, f tb s ≠ Block) → with_slot t i σ f ≠ Block.
  Proof. intros H. apply nb_table. intros tb. destruct (t_slots tb !! i); [apply H|done]. Qed.
  Ltac nb := let me := fresh "me" in let σ := fresh "σ" in let E := fresh "E" in intros me σ E; exfalso; revert E;
    cbv beta iota delta [a_load_meta a_store_meta a_load_ent a_store_ent a_fetch_or_copying a_cas_ent a_cas_pub a_deref a_load_copied a_add_copied
      a_load_claim a_add_claim a_load_status a_store_status a_count a_load_shard a_shards a_retire a_defer a_pk_announce a_pk_register a_pk_remove a_pk_contains
      a_pk_pending a_pk_take a_unpark a_root a_root_raw a_cas_root a_should_park a_try_lock a_unlock a_poison a_ub a_next a_publish_next a_init];
    repeat match goal with
      | |- with_slot _ _ _ _ ≠ _ => apply nb_slot; intros ? ?
      | |- with_table _ _ _ ≠ _ => apply nb_table; intros ?
      | |- with_slot _ _ _ _ = _ → False => apply nb_slot; intros ? ?
      | |- with_table _ _ _ = _ → False => apply nb_table; intros ?
      | |- (if ?c then _ else _) ≠ _ => destruct c
      | |- match ?c with _ => _ end ≠ _ => destruct c
      | |- (if ?c then _ else _) = _ → False => destruct c
      | |- match ?c with _ => _ end = _ → False => destruct c
      end; cbv zeta; try done; discriminate.
  Ltac ok := let me := fresh "me" in let b := fresh "b" in let σ := fresh "σ" in let x := fresh "x" in let σ' := fresh "σ'" in let E := fresh "E" in
    intros me b σ x σ' E; cbv beta iota delta [a_load_meta a_store_meta a_load_ent a_store_ent a_fetch_or_copying a_deref a_load_copied
      a_load_claim a_load_status a_count a_load_shard a_shards a_retire a_defer a_pk_contains
      a_pk_pending a_root a_root_raw a_should_park a_try_lock a_lock a_unlock a_poison a_ub] in E;
    repeat match type of E with
      | with_slot _ _ _ _ = _ => apply ws_ok' in E as (? & ? & ? & ? & E)
      | with_table _ _ _ = _ => apply wt_ok in E as (? & ? & E)
      | (if ?c then _ else _) = _ => destruct c; try discriminate E
      | match ?c with _ => _ end = _ => destruct c; try discriminate E
      end; try discriminate E;
    injection E as <- <-; cbv zeta; first [ apply us_refl | eapply us_upd; [eassumption|reflexivity..]
      | eapply us_slot; eassumption | apply us_tables; reflexivity ].
  Ltac pl := split; [nb|ok].
  Lemma q_load_meta tb i : plain (a_load_meta tb i). Proof. pl. Qed.
  Lemma q_store_meta tb i m : plain (a_store_meta tb i m). Proof. pl. Qed.
  Lemma q_load_ent tb i : plain (a_load_ent tb i). Proof. pl. Qed.
  Lemma q_deref p : plain (a_deref p). Proof. pl. Qed.
  Lemma q_load_copied tb : plain (a_load_copied tb). Proof. pl. Qed.
  Lemma q_load_claim tb : plain (a_load_claim tb). Proof. pl. Qed.
  Lemma q_load_status tb : plain (a_load_status tb). Proof. pl. Qed.
  Lemma q_count d : plain (a_count d). Proof. pl. Qed.
  Lemma q_load_shard j : plain (a_load_shard j). Proof. pl. Qed.
  Lemma q_shards : plain a_shards. Proof. pl. Qed.
  Lemma q_retire o : plain (a_retire o). Proof. pl. Qed.
  Lemma q_defer tb p : plain (a_defer tb p). Proof. pl. Qed.
  Lemma q_root : plain a_root. Proof. pl. Qed.
  Lemma q_root_raw : plain a_root_raw. Proof. pl. Qed.
  Lemma q_try_lock tb : plain (a_try_lock tb). Proof. pl. Qed.
  Lemma q_lock tb : plain (a_lock tb).
  Proof.
    split; [|ok]. intros me σ. unfold a_lock, with_table. destruct (tables σ !! th tb) as [t|] eqn:E; [|done]. destruct (t_freed t); [done|].
    destruct (t_lock t) as [|j|] eqn:L; [done| |done]. intros _. by exists (th tb), t, j.
  Qed.
  Lemma q_unlock tb : plain (a_unlock tb). Proof. pl. Qed.
  Lemma q_poison tb : plain (a_poison tb). Proof. pl. Qed.
  Lemma q_ub : plain (a_ub (K:=K) (V:=V) (A:=pres K V)). Proof. split; [nb|]. by intros me b σ x σ' E. Qed.
  Lemma q_next tb : plain (a_next tb).
  Proof. split; [nb|]. intros me b σ x σ' E. apply wt_ok in E as (t & _ & E). destruct (t_next t); [apply wt_ok in E as (? & _ & E)|]; injection E as <- <-; apply us_refl. Qed.
  Lemma us_push (σ : state) len : usame σ (set_tables (λ l, l ++ [new_table len PENDING]) σ).
  Proof.
    assert (X : ∀ A d (f : table → A) t, f (new_table len PENDING) = d → tfld d f (set_tables (λ l, l ++ [new_table len PENDING]) σ) t = tfld d f σ t).
    { intros A d f t F. unfold tfld. cbn [set_tables tables]. destruct (tables σ !! t) as [tb|] eqn:E; [by rewrite (lookup_app_l_Some _ _ _ _ E)|].
      apply lookup_ge_None_1 in E. rewrite lookup_app_r by done. by destruct (t - length (tables σ)) as [|n]. }
    split; [split_and!|split]; try done; try (intros; by apply X).
    - intros t l. unfold tln. cbn [set_tables tables]. destruct (tables σ !! t) as [tb|] eqn:E; [by rewrite (lookup_app_l_Some _ _ _ _ E)|done].
  Qed.
  Lemma q_publish tb len : plain (a_publish_next tb len).
  Proof.
    split; [nb|]. intros me b σ x σ' E. apply wt_ok in E as (t & Et & E). cbn zeta in E. injection E as <- <-.
    eapply us_trans; [eapply (us_upd (th tb) (t_set_next (Some (length (tables σ))) t)); [exact Et|reflexivity..]|]. apply us_push.
  Qed.
  Lemma q_store_ent tb i e : plain (a_store_ent tb i e). Proof. pl. Qed.
  Lemma q_for tb i : plain (a_fetch_or_copying tb i). Proof. pl. Qed.
  Lemma q_cas_ent w tb i e n : plain (a_cas_ent w tb i e n).
  Proof.
    split; [nb|]. intros me b σ x σ' E. apply ws_ok' in E as (t & s & Et & Es & E). destruct (exp_freed _ _); [done|]. destruct (decide _) as [[Ee _]|_]; injection E as <- <-; [|apply us_refl].
    by eapply us_slot.
  Qed.
  Lemma q_cas_pub w tb i e n : plain (a_cas_pub w tb i e n).
  Proof.
    split; [nb|]. intros me b σ x σ' E. apply ws_ok' in E as (t & s & Et & Es & E). destruct (exp_freed _ _); [done|]. destruct (decide _) as [[Ee _]|_]; injection E as <- <-; [|apply us_refl].
    eapply us_trans; [by eapply us_slot|by apply us_tables].
  Qed.

  Hint Resolve q_load_meta q_store_meta q_load_ent q_cas_ent q_cas_pub q_store_ent q_for q_deref q_load_copied q_load_claim
    q_load_status q_count q_load_shard q_shards q_retire q_defer q_root q_root_raw q_try_lock q_lock q_unlock q_poison q_ub q_next q_publish : pld.
  Create HintDb dmq.
  Ltac ds1 := lazymatch goal with
    | |- BDead1.dmh _ _ _ _ (bind _ _) => apply dmh_bind
    | |- BDead1.dmh _ _ _ _ (act _) => apply dmh_act'; solve [eauto 2 with pld]
    | |- BDead1.dmh _ _ _ _ (Act _ _) => apply dmh_act; [solve [eauto 2 with pld]|]
    | |- BDead1.dmh _ _ _ _ (loop _ _) => apply dmh_loop
    | |- BDead1.dmh _ _ _ _ (Loop _ _ _) => apply dmh_loop
    | |- BDead1.dmh _ _ _ _ (Ret _) => apply dmh_ret
    | |- BDead1.dmh _ _ _ _ (Fail _) => apply dmh_fail; reflexivity
    | |- BDead1.dmh _ _ _ _ (if ?b then _ else _) => destruct b eqn:?
    | |- BDead1.dmh _ _ _ _ (match ?x with _ => _ end) => destruct x eqn:?
    | |- BDead1.dmh _ _ _ _ (let '_ := ?x in _) => destruct x
    | |- BDead1.dmh _ _ _ _ (let _ := _ in _) => cbv zeta
    | |- ∀ _, _ => intros ?
    | |- BDead1.dmh _ _ _ _ _ => first [solve [eauto 2 with dmq] | progress cbv beta]
    end.
  Ltac ds := repeat ds1.
  Section any.
    Context (h : hd).
    Lemma d_spin_next n tb : dmh h (spin_next n tb). Proof. induction n; cbn [spin_next]; ds. Qed.
    Lemma d_sums n j acc : dmh h (sum_shards n j acc). Proof. revert j acc. induction n; intros j acc; cbn [sum_shards]; ds. Qed.
    Hint Resolve d_spin_next d_sums : dmq.
    Lemma d_len : dmh h map_len. Proof. unfold map_len. ds. Qed.
    Hint Resolve d_len : dmq.
    Lemma d_alloc_locked cap tb : dmh h (alloc_locked cfg cap tb). Proof. unfold alloc_locked. ds. Qed.
    Hint Resolve d_alloc_locked : dmq.
    Lemma d_goan cap tb : dmh h (get_or_alloc_next cfg cap tb). Proof. unfold get_or_alloc_next. ds. Qed.
    Hint Resolve d_goan : dmq.
    Lemma d_icp f tb e k i l : dmh h (insert_copy_probe cfg f tb e k i l).
    Proof.
      revert i l. induction f; intros i l; cbn [insert_copy_probe]; ds.
    Qed.
    Hint Resolve d_icp : dmq.
    Lemma d_ic e p r tb : dmh h (insert_copy cfg e p r tb). Proof. unfold insert_copy. ds. Qed.
    Lemma d_spin_status n tb : dmh h (spin_status n tb). Proof. induction n; cbn [spin_status]; ds. Qed.
    Lemma d_spin_copied n i tb : dmh h (spin_copied n i tb). Proof. induction n; cbn [spin_copied]; ds. Qed.
    Lemma d_dr e tb : dmh h (defer_retire cfg e tb).
    Proof. unfold defer_retire. destruct (c_mode cfg) eqn:HMd; ds. Qed.
    Lemma d_gp f tb k i l : dmh h (get_probe cfg f tb k i l). Proof. revert i l. induction f; intros i l; cbn [get_probe]; ds. Qed.
    Hint Resolve d_ic d_spin_status d_spin_copied d_dr d_gp : dmq.
    Lemma d_get k : dmh h (get cfg k). Proof. unfold get. ds. Qed.
    Lemma d_ns f cs p : dmh h (cs_next_some f cs p). Proof. unfold cs_next_some. ds. Qed.
    Lemma d_nn o f cs : dmh h (cs_next_none (K:=K) (V:=V) o f cs). Proof. unfold cs_next_none. ds. Qed.
    Lemma d_de t tb i e : dmh h (delete_entry cfg t tb i e).
    Proof. unfold delete_entry. ds. Qed.
    Hint Resolve d_de : dmq.
    Lemma d_sw n i t tb c : dmh h (sweep cfg n i t tb c). Proof. revert i c. induction n; intros i c; cbn [sweep]; ds. Qed.
    Lemma d_in f i tb : dmh h (iter_next f i tb). Proof. revert i. induction f; intros i; cbn [iter_next]; ds. Qed.
  End any.
End dead.
