(** C46: the shared counters of a resize stay within bounds: the claim counter never exceeds the largest table by more than one chunk per thread, and the
    waiter count of a parker is never smaller than the number of registered waiters. A pure program logic with one ghost value per thread. *)
From Verif Require Import Reserve Dead6.

(** Where a thread is: nothing special; it has seen that table [t]'s claim counter is below the length and will add a chunk to it; it owes table [t]'s
    parker [n] decrements (or has made an increment for a registration it has not made yet). *)
Inductive gh := G0 | GC (t : nat) | GA (t n : nat).
Definition gc (g : gh) (t : nat) : nat := match g with GC t' => if decide (t' = t) then 1 else 0 | _ => 0 end.
Definition cr (g : gh) (t : nat) : nat := match g with GA t' n => if decide (t' = t) then n else 0 | _ => 0 end.
(** The largest number of slots claimed at once (src/raw/mod.rs:2034, 2192). *)
Definition chunk_size {K} (cfg : config K) : nat := match c_mode cfg with Incremental n => n | Blocking => 4096 end.

Section counters.
  Context {K V : Type} {Keq : EqDecision K} (cfg : config K) (M : nat) (HM0 : 0 < M).
  Notation prog := (prog K V). Notation action := (action K V). Notation state := (state K V).
  Notation CH := (chunk_size cfg).
  Definition pkm (σ : state) (t : nat) : Z := match tables σ !! t with Some tb => (Z.of_nat (length (pk_threads (t_parker tb))) - pk_pending (t_parker tb))%Z | None => 0%Z end.
  Definition LM (σ : state) : Prop := ∀ t l, tln σ t = Some l → l ≤ M.
  Definition trans (g : gh) (σ : state) (g' : gh) (σ' : state) : Prop :=
    (∀ t, clm σ' t + CH * gc g' t ≤ clm σ t + CH * gc g t ∨ clm σ' t ≤ M) ∧ (∀ t, (pkm σ' t + Z.of_nat (cr g' t) ≤ pkm σ t + Z.of_nat (cr g t))%Z).
  Fixpoint pv {A} (p : prog A) : gh → (A → gh → Prop) → Prop :=
    match p in Prog.prog _ _ A return gh → (A → gh → Prop) → Prop with
    | Ret a => λ g Q, Q a g
    | Fail r => λ _ _, True
    | Act f k => λ g Q, (∀ me b σ x σ', f me b σ = Ok x σ' → tmono σ σ') ∧
       ∃ R, (∀ me b σ x σ', LM σ → LM σ' → f me b σ = Ok x σ' → ∃ g', trans g σ g' σ' ∧ R x g') ∧ ∀ x g', R x g' → pv (k x) g' Q
    | @Loop _ _ X B _ body s k => λ g Q, ∃ (I : X → gh → Prop) (QB : B → gh → Prop), I s g ∧
        (∀ s g, I s g → pv (body s) g (λ r g', match r with inl s' => I s' g' | inr b => QB b g' end)) ∧ ∀ b g', QB b g' → pv (k b) g' Q
    end.
  Lemma pv_mono {A} (p : prog A) : ∀ g (Q Q' : A → gh → Prop), (∀ a g, Q a g → Q' a g) → pv p g Q → pv p g Q'.
  Proof.
    induction p as [A a|X A f k IH|S' X A body IHb s k IH|A r]; cbn [pv]; intros g Q Q' HQ; [by auto| | |done].
    - intros (T & R & H1 & H2). split; [done|]. exists R. split; [done|]. intros x g' Gx. eapply IH; eauto.
    - intros (I & QB & H0 & H1 & H2). exists I, QB. split_and!; [done..|]. intros b g' Hb. eapply IH; eauto.
  Qed.
  Lemma pv_bind {A B} (p : prog A) (k : A → prog B) g Q R : pv p g R → (∀ a g', R a g' → pv (k a) g' Q) → pv (bind p k) g Q.
  Proof.
    intros D Hk. revert g D. induction p as [A a|X A f k1 IH|S' X A body IHb s k1 IH|A r]; intros g; cbn [pv bind]; [apply Hk| | |done].
    - intros (T & G & H1 & H2). split; [done|]. exists G. split; [done|]. intros x g' Gx. eapply IH; eauto.
    - intros (I & QB & H0 & H1 & H2). exists I, QB. split_and!; auto. intros b g' Hb. eapply IH; eauto.
  Qed.
  Class gd (A : Type) := gdp : A → Prop.
  #[local] Instance gd_any A : gd A | 100 := λ _, True.
  #[local] Instance gd_tref : gd tref | 0 := λ tb, th_len tb ≤ M.
  #[local] Instance gd_opt A `{gd A} : gd (option A) | 1 := λ o, match o with Some a => gdp a | None => True end.
  #[local] Instance gd_sum A B `{gd A} `{gd B} : gd (A + B) | 1 := λ o, match o with inl a => gdp a | inr b => gdp b end.
  #[local] Instance gd_prod A B `{gd A} `{gd B} : gd (A * B) | 1 := λ o, gdp o.1 ∧ gdp o.2.
  Definition g0 {A} {G : gd A} (a : A) (g : gh) : Prop := g = G0 ∧ gdp a.
  Definition pg {A} {G : gd A} (p : prog A) : Prop := pv p G0 g0.
  (** An action that does not touch the counters (except on tables it creates). *)
  Definition fg {A} {G : gd A} (f : action A) : Prop := ∀ me b σ x σ', f me b σ = Ok x σ' → tmono σ σ' ∧ (∀ t, clm σ' t ≤ clm σ t) ∧ (∀ t, (pkm σ' t ≤ pkm σ t)%Z) ∧ (LM σ → LM σ' → gdp x).
  Lemma pg_ret {A} {G : gd A} (a : A) : gdp a → pg (Ret a). Proof. done. Qed.
  Lemma pg_fail {A} {G : gd A} r : pg (A:=A) (Fail r). Proof. done. Qed.
  Lemma pv_act {X A} {GX : gd X} (f : action X) (k : X → prog A) g Q : fg f → (∀ x, gdp x → pv (k x) g Q) → pv (Act f k) g Q.
  Proof.
    intros F Hk. cbn [pv]. split; [intros; by eapply F|]. exists (λ x g', g' = g ∧ gdp x). split.
    - intros me b σ x σ' L L' E. destruct (F _ _ _ _ _ E) as (_ & C & P & D). exists g. split; [|split; [done|by apply D]]. split; intros t; [left; specialize (C t); lia|specialize (P t); lia].
    - intros x g' [-> D]. by apply Hk.
  Qed.
  Lemma pg_act {X A} {GX : gd X} {G : gd A} (f : action X) (k : X → prog A) : fg f → (∀ x, gdp x → pg (k x)) → pg (Act f k).
  Proof. intros F Hk. by apply pv_act. Qed.
  Lemma pg_act' {X} {GX : gd X} (f : action X) : fg f → pg (act f). Proof. intros F. apply pg_act; [done|]. intros x D. by apply pg_ret. Qed.
  Lemma pg_bind {A B} {GA : gd A} {GB : gd B} (p : prog A) (k : A → prog B) : pg p → (∀ a, gdp a → pg (k a)) → pg (bind p k).
  Proof. intros D Hk. eapply pv_bind; [exact D|]. intros a g [-> H]. by apply Hk. Qed.
  Lemma pg_loop {S' B A} {GS : gd S'} {GB : gd B} {GA : gd A} (body : S' → prog (S' + B)) s (k : B → prog A) : gdp s → (∀ s, gdp s → pg (body s)) → (∀ b, gdp b → pg (k b)) → pg (Loop body s k).
  Proof.
    intros Hs Hb Hk. exists g0, g0. split_and!; [done| |].
    - intros s' g [-> Hs']. eapply pv_mono; [|by apply Hb]. intros [?|?] g [-> ?]; by split.
    - intros b g [-> H]. by apply Hk.
  Qed.
  Lemma pg_loop' {S' B} {GS : gd S'} {GB : gd B} (body : S' → prog (S' + B)) s : gdp s → (∀ s, gdp s → pg (body s)) → pg (loop body s).
  Proof. intros Hs Hb. apply pg_loop; [done..|]. intros b H. by apply pg_ret. Qed.

  (** *** Actions *)
  Definition qt (σ σ' : state) : Prop := tmono σ σ' ∧ (∀ t, clm σ' t ≤ clm σ t) ∧ (∀ t, (pkm σ' t ≤ pkm σ t)%Z).
  Lemma qt_tables (σ σ' : state) : tables σ' = tables σ → qt σ σ'.
  Proof. intros E. unfold qt, tmono, tln, clm, pkm. rewrite E. split_and!; [done|intros; lia|intros; lia]. Qed.
  Lemma upd_clm t tb tb0 (σ : state) x : tables σ !! t = Some tb0 → clm (upd_table t tb σ) x = if decide (x = t) then t_claim tb else clm σ x.
  Proof.
    intros E. unfold clm, upd_table. cbn. destruct (decide (x = t)) as [->|N]; [rewrite list_lookup_insert by (by eapply lookup_lt_Some); done|by rewrite list_lookup_insert_ne by done].
  Qed.
  Lemma upd_pkm t tb tb0 (σ : state) x : tables σ !! t = Some tb0 → pkm (upd_table t tb σ) x = if decide (x = t) then (Z.of_nat (length (pk_threads (t_parker tb))) - pk_pending (t_parker tb))%Z else pkm σ x.
  Proof.
    intros E. unfold pkm, upd_table. cbn. destruct (decide (x = t)) as [->|N]; [rewrite list_lookup_insert by (by eapply lookup_lt_Some); done|by rewrite list_lookup_insert_ne by done].
  Qed.
  Lemma upd_tm t tb tb0 (σ : state) : tables σ !! t = Some tb0 → length (t_slots tb) = length (t_slots tb0) → tmono σ (upd_table t tb σ).
  Proof. intros E S x l. rewrite tln_upd. destruct (decide _) as [[-> _]|]; [|done]. rewrite (tln_eq _ _ _ E). congruence. Qed.
  Lemma qt_upd t tb tb0 (σ : state) : tables σ !! t = Some tb0 → length (t_slots tb) = length (t_slots tb0) → t_claim tb = t_claim tb0 → t_parker tb = t_parker tb0 → qt σ (upd_table t tb σ).
  Proof.
    intros E S C P. split; [by eapply upd_tm|]. split; intros x; [rewrite (upd_clm _ _ _ _ _ E)|rewrite (upd_pkm _ _ _ _ _ E)]; destruct (decide _) as [->|]; try lia.
    - unfold clm. rewrite E. lia.
    - unfold pkm. rewrite E, P. lia.
  Qed.
  Lemma qt_slot t i tb s (σ : state) : tables σ !! t = Some tb → qt σ (upd_slot t i tb s σ).
  Proof. intros E. unfold upd_slot. eapply qt_upd; [exact E|cbn; by rewrite insert_length|done|done]. Qed.
  Lemma qt_trans σ1 σ2 σ3 : qt σ1 σ2 → qt σ2 σ3 → qt σ1 σ3.
  Proof. intros (A & B & C) (A' & B' & C'). split_and!; [intros t l X; by apply A', A|intros t; specialize (B t); specialize (B' t); lia|intros t; specialize (C t); specialize (C' t); lia]. Qed.
  Lemma qt_app (σ : state) l s : qt σ (set_tables (λ ts, ts ++ [new_table l s]) σ).
  Proof.
    assert (X : ∀ t, (tables σ ++ [new_table l s]) !! t = tables σ !! t ∨ (tables σ !! t = None ∧ (tables σ ++ [new_table l s]) !! t = Some (new_table l s))).
    { intros t. destruct (decide (t < length (tables σ))) as [L|L]; [left; by apply lookup_app_l|]. rewrite (lookup_ge_None_2 (tables σ) t) by lia.
      destruct (decide (t = length (tables σ))) as [->|]; [right; split; [done|]; by rewrite lookup_app_r, Nat.sub_diag by lia|left; apply lookup_ge_None_2; rewrite app_length; cbn; lia]. }
    unfold qt, tmono, tln, clm, pkm. cbn [set_tables tables]. split_and!; intros t; (destruct (X t) as [->|[-> ->]]; [done || lia|cbn; done || lia]).
  Qed.
  Lemma LM_handle t tb (σ : state) : tables σ !! t = Some tb → LM σ → th_len (handle t tb) ≤ M.
  Proof using HM0. intros E L. pose proof (L t _ (tln_eq _ _ _ E)) as X. unfold th_len, handle, t_len. cbn [th_mask]. lia. Qed.
  Lemma fg_qt {A} {G : gd A} (f : action A) : (∀ me b σ x σ', f me b σ = Ok x σ' → qt σ σ' ∧ (LM σ → LM σ' → gdp x)) → fg f.
  Proof. intros F me b σ x σ' E. destruct (F _ _ _ _ _ E) as ((A1 & A2 & A3) & D). by split_and!. Qed.
  Ltac gs := cbv beta iota delta [gdp gd_any gd_tref gd_opt gd_sum gd_prod fst snd] in *; repeat match goal with
    | |- True => exact I
    | |- _ ∧ _ => split
    | H : _ ∧ _ |- _ => destruct H
    | |- match ?x with _ => _ end => destruct x
    | |- _ => assumption
    end.
  Ltac ff := apply fg_qt; let me := fresh "me" in let b := fresh "b" in let σ := fresh "σ" in let x := fresh "x" in let σ' := fresh "σ'" in let E := fresh "E" in
    intros me b σ x σ' E; 
    cbv beta iota delta [a_root a_root_raw a_next a_load_meta a_store_meta a_load_ent a_store_ent a_fetch_or_copying a_cas_ent a_cas_pub a_deref a_load_copied a_add_copied a_load_claim
      a_load_status a_store_status a_try_lock a_lock a_unlock a_poison a_load_shard a_shards a_retire a_defer a_count a_cas_root a_ub a_pk_contains a_pk_pending a_park a_unpark] in E;
    repeat match type of E with
      | with_slot _ _ _ _ = Ok _ _ => apply ws_ok' in E as (? & ? & ? & ? & E)
      | with_table _ _ _ = Ok _ _ => apply wt_ok in E as (? & ? & E)
      | (if ?x then _ else _) = Ok _ _ => destruct x
      | match ?x with _ => _ end = Ok _ _ => destruct x
      end; try discriminate E; injection E as <- <-; cbv zeta;
    (split; [first [ apply qt_tables; reflexivity | eapply qt_upd; [eassumption|reflexivity|reflexivity|reflexivity] | eapply qt_slot; eassumption | idtac ]
      | let L := fresh "L" in let L' := fresh "L'" in intros L L'; first [exact I | eapply LM_handle; eassumption | solve [gs] | idtac]]).
  Lemma g_root : fg a_root. Proof using HM0. ff. Qed.
  Lemma g_root_raw : fg a_root_raw. Proof. ff. Qed.
  Lemma g_next tb : fg (a_next tb). Proof. ff. Qed.
  Lemma g_load_meta tb i : fg (a_load_meta tb i). Proof. ff. Qed.
  Lemma g_store_meta tb i m : fg (a_store_meta tb i m). Proof. ff. Qed.
  Lemma g_load_ent tb i : fg (a_load_ent tb i). Proof. ff. Qed.
  Lemma g_store_ent tb i m : fg (a_store_ent tb i m). Proof. ff. Qed.
  Lemma g_fetch tb i : fg (a_fetch_or_copying tb i). Proof. ff. Qed.
  Lemma g_cas w tb i e n : fg (a_cas_ent w tb i e n). Proof. ff. Qed.
  Lemma g_pub w tb i e n : fg (a_cas_pub w tb i e n). Proof. ff. Qed.
  Lemma g_deref p : fg (a_deref p). Proof. ff. Qed.
  Lemma g_load_copied tb : fg (a_load_copied tb). Proof. ff. Qed.
  Lemma g_add_copied tb n : fg (a_add_copied tb n). Proof. ff. Qed.
  Lemma g_load_claim tb : fg (a_load_claim tb). Proof. ff. Qed.
  Lemma g_load_status tb : fg (a_load_status tb). Proof. ff. Qed.
  Lemma g_store_status tb s : fg (a_store_status tb s). Proof. ff. Qed.
  Lemma g_try_lock tb : fg (a_try_lock tb). Proof. ff. Qed.
  Lemma g_lock tb : fg (a_lock tb). Proof. ff. Qed.
  Lemma g_unlock tb : fg (a_unlock tb). Proof. ff. Qed.
  Lemma g_poison tb : fg (a_poison tb). Proof. ff. Qed.
  Lemma g_shard j : fg (a_load_shard j). Proof. ff. Qed.
  Lemma g_shards : fg a_shards. Proof. ff. Qed.
  Lemma g_count d : fg (a_count d). Proof. ff. Qed.
  Lemma g_retire o : fg (a_retire o). Proof. ff. Qed.
  Lemma g_defer tb p : fg (a_defer tb p). Proof. ff. Qed.
  Lemma g_contains tb k i : fg (a_pk_contains tb k i). Proof. ff. Qed.
  Lemma g_pending tb : fg (a_pk_pending tb). Proof. ff. Qed.
  Lemma g_park : fg a_park. Proof. ff. Qed.
  Lemma g_unpark j : fg (a_unpark j). Proof. ff. Qed.
  Lemma g_ub {X} {G : gd X} : fg (a_ub (A:=X)). Proof. ff. Qed.
  Lemma g_should tb k : fg (a_should_park tb k). Proof. destruct k; unfold a_should_park; ff. Qed.
  Lemma g_cas_root tb nx : fg (a_cas_root tb nx). Proof. ff. Qed.
  Lemma g_publish tb len : fg (a_publish_next tb len).
  Proof using HM0.
    apply fg_qt. intros me b σ x σ' E. apply wt_ok in E as (t & Et & E). injection E as <- <-. split.
    - eapply qt_trans; [|apply (qt_app _ len PENDING)]. eapply qt_upd; [exact Et|done..].
    - intros _ L. eapply LM_handle; [|exact L]. cbn. rewrite lookup_app_r by (rewrite insert_length; lia). by rewrite insert_length, Nat.sub_diag.
  Qed.
  Lemma g_init len : fg (a_init len).
  Proof using HM0.
    apply fg_qt. intros me b σ x σ' E. unfold a_init in E. destruct (root σ) as [t|] eqn:R.
    - apply wt_ok in E as (tb & Et & E). injection E as <- <-. split; [by apply qt_tables|]. intros L _. by eapply LM_handle.
    - injection E as <- <-. split.
      + eapply qt_trans; [apply (qt_app σ len PROMOTED)|]. by apply qt_tables.
      + intros _ L. eapply LM_handle; [|exact L]. cbn. by rewrite lookup_app_r, Nat.sub_diag by lia.
  Qed.
  Hint Resolve g_root g_root_raw g_next g_load_meta g_store_meta g_load_ent g_store_ent g_fetch g_cas g_pub g_deref g_load_copied g_add_copied g_load_claim g_load_status g_store_status
    g_try_lock g_lock g_unlock g_poison g_shard g_shards g_count g_retire g_defer g_contains g_pending g_park g_unpark g_should g_cas_root g_publish g_init : gfd.
  Ltac gq := repeat lazymatch goal with
    | H : gdp (_, _) |- _ => destruct H; cbn [fst snd] in *
    | H : gdp (Some ?x) |- _ => change (gdp x) in H
    | H : gdp (inl ?x) |- _ => change (gdp x) in H
    | H : gdp (inr ?x) |- _ => change (gdp x) in H
    | |- ∀ _, _ => intros ?
    | |- pg (bind _ _) => apply pg_bind
    | |- pg (act a_ub) => apply pg_act', g_ub
    | |- pg (act _) => apply pg_act'; solve [auto with gfd]
    | |- pg (Act _ _) => apply pg_act; [solve [auto with gfd]|]
    | |- pg (Ret _) => apply pg_ret; solve [gs]
    | |- pg (Fail _) => apply pg_fail
    | |- pg (loop _ _) => apply pg_loop'; [solve [gs]|]
    | |- pg (Loop _ _ _) => apply pg_loop; [solve [gs]| |]
    | |- pg (match ?x with _ => _ end) => destruct x eqn:?
    | |- pg (let '_ := ?x in _) => destruct x eqn:?
    | |- pg _ => first [ solve [match goal with H : context [pg] |- _ => apply H end; gs] | solve [eauto 3 with gpd] | cbv zeta; progress cbv beta | fail ]
    end.
  (** *** The actions that do *)
  Lemma add_claim {A} (tb : tref) n (k : nat → prog A) (Q : A → gh → Prop) : n ≤ CH → (∀ x, pv (k x) G0 Q) → pv (bind (act (a_add_claim tb n)) k) (GC (th tb)) Q.
  Proof.
    intros Ln Hk. cbn [bind act pv]. split.
    { intros me b σ x σ' E. apply wt_ok in E as (t & Et & E). injection E as <- <-. by eapply upd_tm. }
    exists (λ _ g, g = G0). split; [|by intros x g ->]. intros me b σ x σ' _ _ E. apply wt_ok in E as (t & Et & E). injection E as <- <-. exists G0. split; [|done]. split; intros y.
    - left. rewrite (upd_clm _ _ _ _ _ Et). cbn [gc]. destruct (decide (y = th tb)) as [->|N]; [rewrite decide_True by done; unfold clm; rewrite Et; cbn; lia|rewrite (decide_False (P := th tb = y)) by done; lia].
    - rewrite (upd_pkm _ _ _ _ _ Et). cbn [cr t_set_claim t_parker]. destruct (decide (y = th tb)) as [->|N]; [unfold pkm; rewrite Et; lia|lia].
  Qed.
  Lemma load_claim {A} (tb nx : tref) (k : nat → prog A) (Q : A → gh → Prop) : th_len tb ≤ M → (∀ c, th_len tb ≤ c → pv (k c) G0 Q) → (∀ c, c < th_len tb → pv (k c) (GC (th nx)) Q) → pv (bind (act (a_load_claim nx)) k) G0 Q.
  Proof.
    intros LM' H1 H2. cbn [bind act pv]. split.
    { intros me b σ x σ' E. by apply g_load_claim in E as [? _]. }
    exists (λ c g, g = if decide (th_len tb ≤ c) then G0 else GC (th nx)). split.
    - intros me b σ x σ' _ _ E. apply wt_ok in E as (t & Et & E). injection E as <- <-. eexists. split; [|done]. destruct (decide _) as [D|D]; split; intros y; try (left; lia); try lia.
      + cbn [gc]. destruct (decide (th nx = y)) as [<-|N]; [right|left; lia]. unfold clm. rewrite Et. lia.
      + cbn [cr]. lia.
    - intros c g ->. destruct (decide _); [by apply H1|apply H2; lia].
  Qed.
  Lemma announce {A} (tb : tref) (d : Z) g g' (k : unit → prog A) (Q : A → gh → Prop) : (∀ t, gc g' t = 0) → (∀ t, (Z.of_nat (cr g' t) - Z.of_nat (cr g t) ≤ if decide (t = th tb) then d else 0)%Z) → pv (k tt) g' Q → pv (bind (act (a_pk_announce tb d)) k) g Q.
  Proof.
    intros Hg Hc Hk. cbn [bind act pv]. split.
    { intros me b σ x σ' E. apply wt_ok in E as (t & Et & E). injection E as <- <-. by eapply upd_tm. }
    exists (λ _ g, g = g'). split; [|by intros [] g2 ->]. intros me b σ x σ' _ _ E. apply wt_ok in E as (t & Et & E). injection E as <- <-. exists g'. split; [|done]. split; intros y.
    - left. rewrite (upd_clm _ _ _ _ _ Et), Hg. destruct (decide (y = th tb)) as [->|N]; [unfold clm; rewrite Et; cbn; lia|lia].
    - rewrite (upd_pkm _ _ _ _ _ Et). specialize (Hc y). destruct (decide (y = th tb)) as [->|N]; [unfold pkm; rewrite Et; cbn; lia|lia].
  Qed.
  Lemma register {A} (tb : tref) key (k : nat → prog A) (Q : A → gh → Prop) : (∀ x, pv (k x) G0 Q) → pv (bind (act (a_pk_register tb key)) k) (GA (th tb) 1) Q.
  Proof.
    intros Hk. cbn [bind act pv]. split.
    { intros me b σ x σ' E. apply wt_ok in E as (t & Et & E). injection E as <- <-. by eapply upd_tm. }
    exists (λ _ g, g = G0). split; [|by intros x g2 ->]. intros me b σ x σ' _ _ E. apply wt_ok in E as (t & Et & E). injection E as <- <-. exists G0. split; [|done]. split; intros y.
    - left. rewrite (upd_clm _ _ _ _ _ Et). cbn [gc]. destruct (decide (y = th tb)) as [->|N]; [unfold clm; rewrite Et; cbn; lia|lia].
    - rewrite (upd_pkm _ _ _ _ _ Et). cbn [cr]. destruct (decide (y = th tb)) as [->|N]; [rewrite decide_True by done; unfold pkm; rewrite Et; cbn; lia|rewrite (decide_False (P := th tb = y)) by done; lia].
  Qed.
  Lemma flen {X} (f : X → bool) l : length (List.filter f l) + length (List.filter (λ x, negb (f x)) l) = length l.
  Proof. induction l as [|x l IH]; [done|]. cbn. destruct (f x); cbn; lia. Qed.
  Lemma fex {X} (f : X → bool) l : existsb f l = true → 0 < length (List.filter f l).
  Proof. intros (x & I & E)%existsb_exists. assert (In x (List.filter f l)) by (by apply filter_In). destruct (List.filter f l); [done|cbn; lia]. Qed.
  Lemma remove {A} (tb : tref) key id (k : bool → prog A) (Q : A → gh → Prop) : pv (k true) (GA (th tb) 1) Q → pv (k false) G0 Q → pv (bind (act (a_pk_remove tb key id)) k) G0 Q.
  Proof.
    intros H1 H2. cbn [bind act pv]. split.
    { intros me b σ x σ' E. apply wt_ok in E as (t & Et & E). injection E as <- <-. by eapply upd_tm. }
    exists (λ (h : bool) g, g = if h then GA (th tb) 1 else G0). split; [|by intros [] g2 ->]. intros me b σ x σ' _ _ E. apply wt_ok in E as (t & Et & E). injection E as <- <-. eexists. split; [|done]. split; intros y.
    - left. rewrite (upd_clm _ _ _ _ _ Et). replace (gc _ y) with 0 by (by destruct (existsb _ _)). destruct (decide (y = th tb)) as [->|N]; [unfold clm; rewrite Et; cbn; lia|lia].
    - rewrite (upd_pkm _ _ _ _ _ Et). cbn [t_set_parker t_parker pk_threads pk_pending]. set (f := λ x : pkey * nat * nat, bool_decide (x.1.1 = key ∧ x.1.2 = id)).
      pose proof (flen f (pk_threads (t_parker t))) as FL. pose proof (fex f (pk_threads (t_parker t))) as FE. destruct (existsb f _); cbn [cr].
      + specialize (FE eq_refl). destruct (decide (y = th tb)) as [->|N]; [rewrite decide_True by done; unfold pkm; rewrite Et; cbn; unfold f in *; lia|rewrite (decide_False (P := th tb = y)) by done; lia].
      + destruct (decide (y = th tb)) as [->|N]; [unfold pkm; rewrite Et; cbn; unfold f in *; lia|lia].
  Qed.
  Lemma take_ {A} (tb : tref) key (k : list nat → prog A) (Q : A → gh → Prop) : pv (k []) G0 Q → (∀ j l, pv (k (j :: l)) (GA (th tb) (length (j :: l))) Q) → pv (bind (act (a_pk_take tb key)) k) G0 Q.
  Proof.
    intros H0 H1. cbn [bind act pv]. split.
    { intros me b σ x σ' E. apply wt_ok in E as (t & Et & E). injection E as <- <-. by eapply upd_tm. }
    exists (λ l g, g = match l with [] => G0 | _ => GA (th tb) (length l) end). split; [|by intros [] g2 ->]. intros me b σ x σ' _ _ E. apply wt_ok in E as (t & Et & E). injection E as <- <-. eexists. split; [|done]. split; intros y.
    - left. rewrite (upd_clm _ _ _ _ _ Et). replace (gc _ y) with 0 by (by destruct (map _ _)). destruct (decide (y = th tb)) as [->|N]; [unfold clm; rewrite Et; cbn; lia|lia].
    - rewrite (upd_pkm _ _ _ _ _ Et). cbn [t_set_parker t_parker pk_threads pk_pending]. pose proof (flen (λ x : pkey * nat * nat, bool_decide (x.1.1 = key)) (pk_threads (t_parker t))) as FL.
      replace (cr (match map _ _ with [] => _ | _ => _ end) y) with (if decide (th tb = y) then length (List.filter (λ x : pkey * nat * nat, bool_decide (x.1.1 = key)) (pk_threads (t_parker t))) else 0).
      2:{ rewrite <- (map_length snd). destruct (map _ _); [by destruct (decide _)|done]. }
      cbn [cr]. destruct (decide (y = th tb)) as [->|N]; [rewrite decide_True by done; unfold pkm; rewrite Et; cbn; lia|rewrite (decide_False (P := th tb = y)) by done; lia].
  Qed.
  Lemma q_spin_next n tb : pg (spin_next n tb). Proof. induction n; cbn [spin_next]; gq. Qed.
  Lemma q_sums n j acc : pg (sum_shards n j acc). Proof. revert j acc. induction n; intros j acc; cbn [sum_shards]; gq. Qed.
  Hint Resolve q_spin_next q_sums : gpd.
  Lemma q_len : pg map_len. Proof. unfold map_len. gq. Qed.
  Hint Resolve q_len : gpd.
  Lemma q_park tb k : pg (park tb k).
  Proof using HM0.
    unfold park. apply pg_loop'; [done|]. intros _ _. unfold pg. apply (announce tb 1 G0 (GA (th tb) 1)); [done| |].
    { intros t. cbn [cr]. destruct (decide (th tb = t)) as [<-|N]; [by rewrite decide_True|rewrite decide_False by congruence; lia]. }
    apply register. intros id. apply (pg_bind (act (a_should_park tb k))); [apply pg_act'; auto with gfd|]. intros [] _; cbn [negb].
    - gq.
    - unfold pg. apply remove; [|by apply pg_ret]. apply (announce tb (-1) (GA (th tb) 1) G0); [done| |by apply pg_ret].
      intros t. cbn [cr]. destruct (decide (th tb = t)) as [<-|N]; [by rewrite decide_True|rewrite decide_False by congruence; lia].
  Qed.
  Lemma q_ua l : pg (unpark_all l). Proof. induction l; cbn [unpark_all]; gq. Qed.
  Hint Resolve q_ua q_park : gpd.
  Lemma q_unpark tb k : pg (unpark tb k).
  Proof using HM0.
    unfold unpark. apply pg_bind; [apply pg_act'; auto with gfd|]. intros n _. destruct (n =? 0)%Z; [by apply pg_ret|]. unfold pg. apply take_; [by apply pg_ret|]. intros j l.
    apply (announce tb _ _ G0); [done| |apply q_ua]. intros t. cbn [cr]. destruct (decide (th tb = t)) as [<-|N]; [rewrite decide_True by done; lia|rewrite decide_False by congruence; lia].
  Qed.
  Hint Resolve q_unpark : gpd.
  Lemma q_al cap tb : gdp tb → pg (alloc_locked cfg cap tb).
  Proof using HM0. intros Ht. unfold alloc_locked. gq. Qed.
  Lemma q_goan cap tb : gdp tb → pg (get_or_alloc_next cfg cap tb).
  Proof using HM0. intros Ht. pose proof (q_al cap tb Ht) as QA. unfold get_or_alloc_next. gq. Qed.
  Hint Resolve q_goan : gpd.
  Lemma q_init cap : pg (init (K:=K) (V:=V) cap).
  Proof using HM0. unfold init. gq. Qed.
  Hint Resolve q_init : gpd.
  Lemma q_promote tb nx n : pg (try_promote tb nx n). Proof. unfold try_promote. gq. Qed.
  Hint Resolve q_promote : gpd.
  Lemma q_icp f tb e k i l : pg (insert_copy_probe cfg f tb e k i l). Proof. revert i l. induction f; intros i l; cbn [insert_copy_probe]; gq. Qed.
  Hint Resolve q_icp : gpd.
  Lemma q_ic e p r tb : gdp tb → pg (insert_copy cfg e p r tb). Proof. intros H. unfold insert_copy. gq. Qed.
  Hint Resolve q_ic : gpd.
  Lemma q_cab i tb nx : gdp nx → pg (copy_at_blocking cfg i tb nx). Proof. intros H. unfold copy_at_blocking. gq. Qed.
  Lemma q_cai i tb nx : gdp nx → pg (copy_at_incremental cfg i tb nx). Proof. intros H. unfold copy_at_incremental. gq. Qed.
  Hint Resolve q_cab q_cai : gpd.
  Lemma q_ccb n i tb nx c : gdp nx → pg (copy_chunk_blocking cfg n i tb nx c). Proof. intros H. revert i c. induction n; intros i c; cbn [copy_chunk_blocking]; gq. Qed.
  Lemma q_cci n i tb nx c : gdp nx → pg (copy_chunk_incremental cfg n i tb nx c). Proof. intros H. revert i c. induction n; intros i c; cbn [copy_chunk_incremental]; gq. Qed.
  Hint Resolve q_ccb q_cci : gpd.
  Lemma q_ss n nx : pg (spin_status n nx). Proof. induction n; cbn [spin_status]; gq. Qed.
  Hint Resolve q_ss : gpd.
  Lemma q_ws nx : pg (wait_status cfg nx). Proof. unfold wait_status. gq. Qed.
  Hint Resolve q_ws : gpd.
  Lemma q_hci ch b : ch ≤ CH → pg (help_copy_incremental cfg ch b).
  Proof using HM0.
    intros Lc. unfold help_copy_incremental. apply pg_bind; [apply pg_act'; auto with gfd|]. intros [tb|] Ht; [|apply pg_fail]. apply pg_bind; [apply pg_act'; auto with gfd|]. intros [nx|] Hn; [|by apply pg_ret].
    apply pg_loop'; [done|]. intros _ _. apply pg_bind; [apply q_promote|]. intros [] _; [by apply pg_ret|]. apply (pg_bind (GA := gd_any bool)); [|gq].
    apply pg_loop'; [done|]. intros _ _. unfold pg. apply (load_claim tb nx); [exact Ht| |].
    - intros c D. rewrite (proj2 (Nat.leb_le _ _) D). by apply pg_ret.
    - intros c D. rewrite (proj2 (Nat.leb_gt _ _) D). apply add_claim; [done|]. intros st. change (pg (copied ← copy_chunk_incremental cfg ch st tb nx 0; ok ← try_promote tb nx copied; if ok || negb b then Ret (inr (A:=unit) true) else Ret (inl tt))). gq.
  Qed.
  Lemma q_hcb tb : 4096 ≤ CH → gdp tb → pg (help_copy_blocking cfg tb).
  Proof using HM0.
    intros Lc Ht. unfold help_copy_blocking. apply pg_bind; [apply pg_act'; auto with gfd|]. intros [nx|] Hn; [|by apply pg_fail]. apply pg_loop'; [done|]. clear nx Hn. intros nx0 Hn0.
    apply (pg_bind (GA := gd_tref)); [gq|]. intros nx Hn. apply pg_bind; [apply q_promote|]. intros [] _; [by apply pg_ret|]. cbv zeta. apply (pg_bind (GA := gd_opt _)); [|gq].
    apply pg_loop'; [done|]. intros _ _. unfold pg. apply (load_claim tb nx); [exact Ht| |].
    - intros c D. rewrite (proj2 (Nat.leb_le _ _) D). by apply pg_ret.
    - intros c D. rewrite (proj2 (Nat.leb_gt _ _) D). apply add_claim; [lia|]. intros st.
      lazymatch goal with |- pv ?p G0 _ => change (pg p) end. gq.
  Qed.
  Lemma q_help b tb : gdp tb → pg (help_copy cfg b tb).
  Proof using HM0.
    intros Ht. unfold help_copy. destruct (c_mode cfg) as [ch|] eqn:E; [|by apply q_hcb; [unfold chunk_size; rewrite E|]].
    apply pg_bind; [apply q_hci; unfold chunk_size; by rewrite E|]. gq.
  Qed.
  Hint Resolve q_help : gpd.
  Lemma q_lin tb : gdp tb → pg (linearize cfg tb). Proof. intros H. unfold linearize. gq. Qed.
  Lemma q_spc n i tb : pg (spin_copied n i tb). Proof. induction n; cbn [spin_copied]; gq. Qed.
  Hint Resolve q_lin q_spc : gpd.
  Lemma q_wc i tb : pg (wait_copied cfg i tb). Proof. unfold wait_copied. gq. Qed.
  Lemma q_dr e tb : gdp tb → pg (defer_retire cfg e tb). Proof. intros H. unfold defer_retire. cbv zeta. gq. Qed.
  Lemma q_ia i m kv tb : pg (insert_at cfg i m kv tb). Proof. unfold insert_at. gq. Qed.
  Hint Resolve q_wc q_dr q_ia : gpd.
  Lemma q_ua' i e n tb : gdp tb → pg (update_at cfg i e n tb). Proof. intros H. unfold update_at. gq. Qed.
  Hint Resolve q_ua' : gpd.
  Lemma q_is i e kv tb : gdp tb → pg (insert_slow cfg i e kv tb). Proof. intros H. unfold insert_slow. gq. Qed.
  Lemma q_gp f tb k i l : pg (get_probe cfg f tb k i l). Proof. revert i l. induction f; intros i l; cbn [get_probe]; cbv zeta; gq. Qed.
  Hint Resolve q_is q_gp : gpd.
  Lemma q_get k : pg (get cfg k). Proof. unfold get. gq. Qed.
  Lemma q_pri c h tb : gdp tb → pg (prepare_retry_insert cfg c h tb). Proof. intros H. unfold prepare_retry_insert. gq. Qed.
  Lemma q_ip f r tb kv i l : gdp tb → pg (insert_probe cfg f r tb kv i l). Proof. intros H. revert i l. induction f; intros i l; cbn [insert_probe]; cbv zeta; gq. Qed.
  Hint Resolve q_pri q_ip : gpd.
  Lemma q_ii k v r : pg (insert_inner cfg k v r). Proof. unfold insert_inner. gq. Qed.
  Hint Resolve q_ii : gpd.
  Lemma q_ins k v r : pg (insert cfg k v r). Proof. unfold insert. gq. Qed.
  Lemma q_pr c h tb : gdp tb → pg (prepare_retry cfg c h tb). Proof. intros H. unfold prepare_retry. gq. Qed.
  Lemma q_re pr tb i e : gdp tb → pg (remove_entry cfg pr tb i e). Proof. intros H. unfold remove_entry. gq. Qed.
  Hint Resolve q_ins q_pr q_re : gpd.
  Lemma q_rp f pr tb k i l : gdp tb → pg (remove_probe cfg f pr tb k i l). Proof. intros H. revert i l. induction f; intros i l; cbn [remove_probe]; cbv zeta; gq. Qed.
  Hint Resolve q_rp : gpd.
  Lemma q_rem k pr : pg (remove_if cfg k pr). Proof. unfold remove_if. gq. Qed.
  Lemma q_csn o f cs : pg (cs_next_none (K:=K) (V:=V) o f cs). Proof. unfold cs_next_none. gq. Qed.
  Lemma q_css f cs p : pg (cs_next_some (K:=K) (V:=V) f cs p). Proof. unfold cs_next_some. cbv zeta. gq. Qed.
  Hint Resolve q_rem q_csn q_css : gpd.
  Lemma q_ce o f tb k i cs e : gdp tb → pg (compute_entry cfg o f tb k i cs e). Proof. intros H. unfold compute_entry. cbv zeta. gq. Qed.
  Hint Resolve q_ce : gpd.
  Lemma q_cp fu o f tb k i l cs : gdp tb → pg (compute_probe cfg fu o f tb k i l cs). Proof. intros H. revert i l cs. induction fu; intros i l cs; cbn [compute_probe]; cbv zeta; gq. Qed.
  Hint Resolve q_cp : gpd.
  Lemma q_comp o k f : pg (compute cfg o k f). Proof. unfold compute. cbv zeta. gq. Qed.
  Lemma q_de t tb i e : gdp tb → pg (delete_entry cfg t tb i e). Proof. intros H. unfold delete_entry. gq. Qed.
  Hint Resolve q_comp q_de : gpd.
  Lemma q_sw n i t tb c : gdp tb → pg (sweep cfg n i t tb c). Proof. intros H. revert i c. induction n; intros i c; cbn [sweep]; cbv zeta; gq. Qed.
  Hint Resolve q_sw : gpd.
  Lemma q_cr t : pg (clear_or_retain cfg t). Proof. unfold clear_or_retain. gq. Qed.
  Lemma q_iter : pg (iter cfg). Proof. unfold iter. gq. Qed.
  Lemma q_in f i tb : pg (iter_next f i tb). Proof. revert i. induction f; intros i; cbn [iter_next]; gq. Qed.
  Lemma q_res n : pg (reserve cfg n). Proof using HM0. unfold reserve. cbv zeta. gq. Qed.
  Hint Resolve q_get q_cr q_iter q_in q_res : gpd.
  Lemma q_op o its : pg (op_prog cfg o its).
  Proof. destruct o; cbn [op_prog]; gq. Qed.


  Context (N : nat).
  (** The counters, in terms of where the threads are. *)
  Definition gl (H : nat → gh) (σ : state) : Prop :=
    ∀ t, clm σ t + CH * sm N (λ i, gc (H i) t) ≤ M + CH * N ∧ (pkm σ t + Z.of_nat (sm N (λ i, cr (H i) t)) ≤ 0)%Z.
  Definition CI (c : mconf K V) : Prop := ∃ H, length (mc_thr c) = N ∧ gl H (mc_st c) ∧
    ∀ i id o p its d, mc_thr c !! i = Some (TState (Some (id, o, p)) its d) → pv p (H i) (λ _ _, True).
  Lemma sm_le n f : (∀ i, f i ≤ 1) → sm n f ≤ n.
  Proof. intros X. induction n as [|n IH]; cbn; [done|]. specialize (X n). lia. Qed.
  Lemma gl_step H σ i g' σ' : i < N → gl H σ → trans (H i) σ g' σ' → gl (λ j, if decide (j = i) then g' else H j) σ'.
  Proof.
    intros Li G [T1 T2] t. destruct (G t) as [A B]. specialize (T1 t). specialize (T2 t). split.
    - pose proof (sm_le N (λ j, gc (if decide (j = i) then g' else H j) t)) as L1. cbv beta in L1. specialize (L1 ltac:(intros j; unfold gc; destruct (decide (j = i)); [destruct g'|destruct (H j)]; try destruct (decide _); lia)).
      pose proof (sm_upd N (λ j, gc (H j) t) (λ j, gc (if decide (j = i) then g' else H j) t) i Li) as U. cbv beta in U. rewrite (decide_True (P := i = i)) in U by done.
      specialize (U ltac:(intros j Nj; by rewrite decide_False)). destruct T1 as [T1|T1]; nia.
    - pose proof (sm_upd N (λ j, cr (H j) t) (λ j, cr (if decide (j = i) then g' else H j) t) i Li) as U. cbv beta in U. rewrite (decide_True (P := i = i)) in U by done.
      specialize (U ltac:(intros j Nj; by rewrite decide_False)). lia.
  Qed.
  Lemma qt_trans_g g σ σ' : qt σ σ' → trans g σ g σ'.
  Proof. intros (_ & A & B). split; intros t; [left; specialize (A t); lia|specialize (B t); lia]. Qed.
  Lemma qt_retire_all l : ∀ σ σ' : state, retire_all l σ = Some σ' → tables σ' = tables σ.
  Proof. induction l as [|p l IH]; cbn [retire_all]; intros σ σ' E; [by injection E as <-|]. destruct (decide _); [done|]. by apply IH in E. Qed.
  Lemma qt_reclaim r rest (σ σ' : state) : reclaim r rest σ = Some σ' → qt σ σ'.
  Proof.
    unfold reclaim. intros E. destruct (r_obj r) as [p|t].
    - destruct (decide _); [done|]. injection E as <-. by apply qt_tables.
    - cbn [set_retired tables] in E. destruct (tables σ !! t) as [tb|] eqn:Et; [|done]. destruct (t_freed tb); [done|]. destruct (retire_all _ _) as [σ1|] eqn:R; [|done]. cbn in E. injection E as <-.
      apply qt_retire_all in R. cbn in R. eapply qt_trans; [by apply (qt_tables σ σ1)|]. eapply (qt_upd t _ tb); [by rewrite R|done..].
  Qed.
  (** One step: the lengths of the tables do not change, and if they are within [M] afterwards, the invariant is kept. *)
  Lemma CI_mstep (c c' : mconf K V) ch : CI c → mstep cfg c ch = SStep c' → tmono (mc_st c) (mc_st c') ∧ (LM (mc_st c) → LM (mc_st c') → CI c').
  Proof using HM0.
    intros (H & Ln & HG & HT) E.
    assert (SET : ∀ i ts ts0 g' σ' h n, mc_thr c !! i = Some ts0 → trans (H i) (mc_st c) g' σ' → (∀ id o p its d, ts = TState (Some (id, o, p)) its d → pv p g' (λ _ _, True)) → CI (MConf σ' (set_thr i ts (mc_thr c)) h n)).
    { intros i ts ts0 g' σ' h n Ei T P. assert (Li : i < N) by (rewrite <- Ln; by eapply lookup_lt_Some). exists (λ j, if decide (j = i) then g' else H j). cbn [mc_thr mc_st]. unfold set_thr. rewrite insert_length. split; [done|].
      split; [by apply (gl_step H (mc_st c))|]. intros j id o p its d [(-> & Ej & _)|(Nj & Ej)]%list_lookup_insert_Some.
      - rewrite decide_True by done. by eapply P.
      - rewrite decide_False by done. by eapply HT. }
    assert (QQ : ∀ σ', qt (mc_st c) σ' → tmono (mc_st c) σ') by (by intros σ' [? _]).
    assert (RF : qt (mc_st c) (mc_st c)) by (by apply qt_tables).
    destruct ch as [i|i|i o|i b|j]; cbn [mstep] in E.
    - destruct (mc_thr c !! i) as [[[] its []]|] eqn:Ei; try done. destruct (decide _); [done|]. injection E as <-. cbn [mc_st]. split; [by apply QQ, qt_tables|]. intros _ _. exists H. split; [done|]. split; [|done].
      intros t. exact (HG t).
    - destruct (mc_thr c !! i) as [[[] its []]|] eqn:Ei; try done. destruct (decide _); [|done]. injection E as <-. cbn [mc_st]. split; [by apply QQ, qt_tables|]. intros _ _. eapply (SET i _ _ (H i)); [exact Ei|by apply qt_trans_g, qt_tables|done].
    - destruct (mc_thr c !! i) as [[[] its []]|] eqn:Ei; try done. destruct (decide _); [|done]. injection E as <-. cbn [mc_st]. split; [by apply QQ|]. intros _ _. 
      assert (Z : trans (H i) (mc_st c) G0 (mc_st c)). { split; intros t; cbn [gc cr]; [left; lia|lia]. }
      eapply (SET i _ _ G0); [exact Ei|exact Z|]. intros ? ? ? ? ? [= <- <- <- <- <-]. eapply pv_mono; [|apply q_op]. done.
    - destruct (mc_thr c !! i) as [[[[[id o] p]|] its []]|] eqn:Ei; try done. pose proof (HT _ _ _ _ _ _ Ei) as D.
      assert (RC : ∀ {T} (q : Prog.prog K V T) fin inj (Q : T → gh → Prop), pv q (H i) Q → (∀ q' g, pv q' g Q → pv (inj q') g (λ _ _, True)) → runq c i b id o its q fin inj = SStep c' →
        tmono (mc_st c) (mc_st c') ∧ (LM (mc_st c) → LM (mc_st c') → CI c')).
      { intros T q fin inj Q Dq Hinj X. destruct q as [T a|X' T f k|S' B' T body s k|T why]; cbn [pv] in Dq; cbn [runq] in X.
        - destruct (fin a) as [[[v its'] ev]|]; [|done]. injection X as <-. split; [by apply QQ|]. intros _ _. eapply (SET i _ _ (H i)); [exact Ei|by apply qt_trans_g|done].
        - destruct (f i b (mc_st c)) as [x σ'| |] eqn:Ef; [|done|done]. injection X as <-. cbn [mc_st]. destruct Dq as (TM & R & Dq & Dk). split; [by eapply TM|]. intros L L'. destruct (Dq _ _ _ _ _ L L' Ef) as (g' & Tr & Rx).
          eapply (SET i _ _ g'); [exact Ei|exact Tr|]. intros ? ? ? ? ? [= <- <- <- <- <-]. by apply Hinj, Dk.
        - destruct Dq as (I & QB & Hi & Hb & Hk). injection X as <-. split; [by apply QQ|]. intros _ _. eapply (SET i _ _ (H i)); [exact Ei|by apply qt_trans_g|]. intros ? ? ? ? ? [= <- <- <- <- <-]. apply Hinj. eapply pv_bind; [by apply Hb|].
          intros [s'|x] g' Hx; [|by apply Hk]. exists I, QB. by split_and!.
        - injection X as <-. cbn [mc_st]. split; [by apply QQ, qt_tables|]. intros _ _. eapply (SET i _ _ (H i)); [exact Ei|by apply qt_trans_g, qt_tables|done]. }
      exact (RC _ p _ (λ p, p) _ D (λ _ _ H, H) E).
    - destruct (retired (mc_st c) !! j) as [r|]; [|done]. destruct (decide _); [|done]. destruct (reclaim _ _ _) as [σ'|] eqn:R; [|done]. injection E as <-. cbn [mc_st]. apply qt_reclaim in R. split; [by apply QQ|].
      intros _ _. exists H. split; [done|]. split; [|done]. cbn [mc_st]. intros t. destruct (HG t) as [A B]. destruct R as (_ & R1 & R2). specialize (R1 t). specialize (R2 t). split; lia.
  Qed.
End counters.

Section main.
  Context {K V : Type} {Keq : EqDecision K} (cfg : config K) (nthr nsh cap : nat).
  Lemma reach_CI sched : ∀ c : mconf K V, exec cfg (init_conf cap nsh nthr) sched = Some c → ∀ M, 0 < M → LM M (mc_st c) → CI cfg M nthr c.
  Proof.
    induction sched as [|ch s IH] using rev_ind; intros c E M HM LMc.
    - injection E as <-. exists (λ _, G0). cbn [init_conf mc_thr mc_st]. rewrite replicate_length. split; [done|]. split.
      + intros t. rewrite !sm_zero by done.
        assert (Z1 : clm (init_state (K:=K) (V:=V) cap nsh) t = 0) by (unfold clm, init_state; destruct (cap =? 0); cbn; [done|by destruct t]).
        assert (Z2 : pkm (init_state (K:=K) (V:=V) cap nsh) t = 0%Z) by (unfold pkm, init_state; destruct (cap =? 0); cbn; [done|by destruct t]).
        rewrite Z1, Z2. split; lia.
      + intros i id o p its d X. apply lookup_replicate in X as [X _]. done.
    - destruct (exec cfg (init_conf cap nsh nthr) s) as [c1|] eqn:E1.
      + rewrite (exec_snoc _ _ _ _ _ E1) in E. destruct (mstep cfg c1 ch) as [c2| |] eqn:Ms; [| |done]; injection E as <-; [|by apply IH].
        assert (TM : tmono (mc_st c1) (mc_st c2)).
        { set (M1 := Nat.max 1 (list_max (map (length ∘ t_slots) (tables (mc_st c1))))).
          eapply (CI_mstep cfg M1 ltac:(unfold M1; lia) nthr); [|exact Ms]. apply IH; [done|unfold M1; lia|]. intros t l El. unfold tln in El. apply fmap_Some in El as (tb & Et & ->). unfold M1.
          pose proof (proj1 (list_max_le (map (length ∘ t_slots) (tables (mc_st c1))) _) (le_n _)) as F. rewrite Forall_forall in F. etrans; [apply F|lia]. apply elem_of_list_In, elem_of_list_fmap. exists tb. split; [done|by eapply elem_of_list_lookup_2]. }
        assert (L1 : LM M (mc_st c1)) by (intros t l X; by eapply LMc, TM).
        eapply (CI_mstep cfg M HM nthr c1 c2 ch); [by apply IH|done|done|done].
      + exfalso. clear -E E1. revert E E1. generalize (init_conf (K:=K) (V:=V) cap nsh nthr) as c0. induction s as [|a s IH]; intros c0; cbn [app exec]; [done|]. destruct (mstep cfg c0 a); [apply IH|apply IH|done].
  Qed.

  (** C46: for every table of every reachable state (both resize modes): the claim counter, which the threads advance by at most [chunk_size] at a time, exceeds
      the largest table by at most one chunk per thread; and the parker's count of waiters is at least the number of registered waiters (so the unsigned
      counter never goes below zero). *)
  Theorem C46_counters_bounded sched (c : mconf K V) M : exec cfg (init_conf cap nsh nthr) sched = Some c → 0 < M →
    (∀ t tb, tables (mc_st c) !! t = Some tb → length (t_slots tb) ≤ M) →
    ∀ t tb, tables (mc_st c) !! t = Some tb →
      t_claim tb ≤ M + nthr * chunk_size cfg ∧ (Z.of_nat (length (pk_threads (t_parker tb))) ≤ pk_pending (t_parker tb))%Z.
  Proof.
    intros E HM LMc t tb Et. destruct (reach_CI sched c E M HM) as (H & _ & G & _).
    { intros x l X. unfold tln in X. apply fmap_Some in X as (y & Ey & ->). by eapply LMc. }
    destruct (G t) as [A B]. unfold clm, pkm in A, B. rewrite Et in A, B. split; lia.
  Qed.
  (** C46 (incremental mode): the count of copied slots never exceeds the length of the table copied from, nor the claim counter. *)
  Theorem C46_copied_bounded chunk sched (c : mconf K V) : 0 < nsh → 0 < nthr → c_mode cfg = Incremental chunk → exec cfg (init_conf cap nsh nthr) sched = Some c →
    ∀ t tb tb', tables (mc_st c) !! t = Some tb → tables (mc_st c) !! S t = Some tb' → t_copied tb' ≤ length (t_slots tb) ∧ t_copied tb' ≤ t_claim tb'.
  Proof.
    intros HS HN Hm E t tb tb' E1 E2. destruct (reach_DI cfg chunk Hm nthr nsh cap HS sched HN c E (λ t, default 0 (tln (mc_st c) t))) as (Ln & H & A & _); [by intros x l ->|]. destruct A as [GC' _].
      pose proof (gc_cnt _ _ _ GC' t _ (tln_eq _ _ _ E1)) as X. unfold cpd, tfld, clm in X. rewrite E2 in X. lia.
  Qed.
End main.
