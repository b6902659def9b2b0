(** C58: with blocking resizing no resize is left unfinished when no call is running. A small program logic with one piece of auxiliary
    state per thread: the table whose resize the running call has begun and must see through. *)
From Verif Require Export SoloBMain BlkRules.

Section owe.
  Context {K V : Type} {Keq : EqDecision K} (cfg : config K) (HM : c_mode cfg = Blocking).
  Notation prog := (prog K V). Notation action := (action K V). Notation state := (state K V). Notation ghost := (@ghost K).
  Definition wd : Type := state * ghost.
  Definition co (w : wd) : core K V := core_of w.1.
  Definition Iw (w : wd) : Prop := InvB cfg (co w) w.2.
  (** What every step of every thread preserves. *)
  Record VM (w w' : wd) : Prop := MkVM {
    vm_nt : nt (co w) ≤ nt (co w');
    vm_ln : ∀ t, t < nt (co w) → lnc (co w') t = lnc (co w) t;
    vm_lim : ∀ t, t < nt (co w) → lim (co w') t = lim (co w) t;
    vm_rt : rt (co w) ≤ rt (co w');
    vm_cnt : ∀ t i, g_ph w.2 t i = PCnt → g_ph w'.2 t i = PCnt;
    vm_st : ∀ t, al (co w') t → al (co w) t;
    vm_al : ∀ t, t ≤ rt (co w) → al (co w) t → al (co w') t }.
  Lemma VM_refl w : VM w w. Proof. by split. Qed.
  Lemma VM_trans w1 w2 w3 : VM w1 w2 → VM w2 w3 → VM w1 w3.
  Proof.
    intros [A1 A2 A3 A4 A5 A6 A7] [B1 B2 B3 B4 B5 B6 B7]. split; try lia; try by auto.
    - intros t L. rewrite B2 by lia. by apply A2.
    - intros t L. rewrite B3 by lia. by apply A3.
    - intros t L A. apply B7; [lia|by apply A7].
  Qed.
  Lemma VM_ext0 i (w w' : wd) : ext0 i (co w) w.2 (co w') w'.2 → VM w w'.
  Proof. intros X. split; apply X. Qed.

  Notation held := (option nat).
  Definition disch (h h' : held) (w : wd) : Prop := h' = h ∨ (h' = None ∧ ∀ u, h = Some u → u < rt (co w)).
  (** The resize begun is still owed (or a later one), or is over; a table is added only by a call that then owes its resize. *)
  Definition otr (h h' : held) (σ σ' : state) : Prop :=
    (∀ u, h = Some u → (∃ u', h' = Some u' ∧ u ≤ u') ∨ u < rt (core_of σ')) ∧
    (length (tables σ') = length (tables σ) ∨
     (length (tables σ') = S (length (tables σ)) ∧ (length (tables σ) = 0 ∨ ∃ u, h' = Some u ∧ length (tables σ) ≤ S u))).
  Lemma disch_vm h h' w w' : VM w w' → disch h h' w → disch h h' w'.
  Proof. intros M [->|[-> H]]; [by left|right]. split; [done|]. intros u E. pose proof (vm_rt _ _ M). specialize (H u E). lia. Qed.
  Lemma disch_trans h1 h2 h3 w : disch h1 h2 w → disch h2 h3 w → disch h1 h3 w.
  Proof. intros [->|[-> H]] [->|[-> H']]; try (by left); right; split; auto. Qed.

  (** The panics that a user's closure brings about: nothing may be owed then. *)
  Definition ufail (r : preason) : Prop := r = PUser ∨ r = PRemoveNone.
  Fixpoint dm {A} (p : prog A) : (A → held → wd → Prop) → held → wd → Prop :=
    match p in Prog.prog _ _ A return (A → held → wd → Prop) → held → wd → Prop with
    | Ret a => λ Q h w0, ∀ w, VM w0 w → ∃ h', disch h h' w ∧ Q a h' w
    | Fail r => λ Q h w0, ufail r → ∀ w, VM w0 w → disch h None w
    | Act f k => λ Q h w0, ∀ me b σ γ x σ' γ', VM w0 (σ, γ) → Iw (σ, γ) → VM (σ, γ) (σ', γ') → Iw (σ', γ') → f me b σ = Ok x σ' →
        ∃ h', otr h h' σ σ' ∧ dm (k x) Q h' (σ', γ')
    | @Loop _ _ X B _ body s k => λ Q h w0, ∃ (I : X → held → wd → Prop) (QB : B → held → wd → Prop),
        (∀ w, VM w0 w → ∃ h', disch h h' w ∧ I s h' w) ∧
        (∀ s h w, I s h w → dm (body s) (λ r h' w', match r with inl s' => I s' h' w' | inr b => QB b h' w' end) h w) ∧
        (∀ b h w, QB b h w → dm (k b) Q h w)
    end.
  Lemma dm_vm {A} (p : prog A) Q h w w' : VM w w' → dm p Q h w → dm p Q h w'.
  Proof.
    intros M. destruct p as [A a|X A f k|S' X A body s k|A r]; cbn [dm].
    - intros H w2 M2. apply H. by eapply VM_trans.
    - intros H me b σ γ x σ' γ' M2. apply H. by eapply VM_trans.
    - intros (I & QB & H & Hb & Hk). exists I, QB. split; [|done]. intros w2 M2. apply H. by eapply VM_trans.
    - intros H U w2 M2. apply (H U). by eapply VM_trans.
  Qed.
  Lemma dm_disch {A} (p : prog A) Q h h' w : disch h h' w → dm p Q h' w → dm p Q h w.
  Proof.
    intros D. destruct p as [A a|X A f k|S' X A body s k|A r]; cbn [dm].
    - intros H w2 M2. destruct (H w2 M2) as (h2 & D2 & HQ). exists h2. split; [|done]. eapply disch_trans; [by eapply disch_vm|done].
    - intros H me b σ γ x σ' γ' M1 I1 M2 I2 E. destruct (H me b σ γ x σ' γ' M1 I1 M2 I2 E) as (h2 & [T1 T2] & HD). exists h2. split; [|done]. split; [|done].
      intros u Eu. destruct D as [->|[-> D]]; [by apply T1|]. right. specialize (D u Eu). pose proof (vm_rt _ _ M1). pose proof (vm_rt _ _ M2). unfold co in *. cbn [fst] in *. lia.
    - intros (I & QB & H & Hb & Hk). exists I, QB. split; [|done]. intros w2 M2. destruct (H w2 M2) as (h2 & D2 & HI). exists h2. split; [|done].
      eapply disch_trans; [by eapply disch_vm|done].
    - intros H U w2 M2. eapply disch_trans; [by eapply disch_vm|by apply H].
  Qed.
  Lemma dm_mono {A} (p : prog A) : ∀ (Q Q' : A → held → wd → Prop) h w, (∀ a h w, Q a h w → Q' a h w) → dm p Q h w → dm p Q' h w.
  Proof.
    induction p as [A a|X A f k IH|S' X A body IHb s k IH|A r]; cbn [dm]; intros Q Q' h w HQ.
    - intros H w2 M. destruct (H w2 M) as (h' & D & HQ'). exists h'. auto.
    - intros H me b σ γ x σ' γ' M1 I1 M2 I2 E. destruct (H me b σ γ x σ' γ' M1 I1 M2 I2 E) as (h2 & T & HD). exists h2. split; [done|]. by eapply IH.
    - intros (I & QB & H & Hb & Hk). exists I, QB. split; [done|]. split; [done|]. intros b h1 w1 Hq. eapply IH; eauto.
    - done.
  Qed.
  Lemma dm_mono_vm {A} (p : prog A) w : ∀ (Q Q' : A → held → wd → Prop) h w1, VM w w1 → (∀ a h w2, VM w w2 → Q a h w2 → Q' a h w2) → dm p Q h w1 → dm p Q' h w1.
  Proof.
    induction p as [A a|X A f k IH|S' X A body IHb s k IH|A r]; cbn [dm]; intros Q Q' h w0 M0 HQ.
    - intros H w2 M. destruct (H w2 M) as (h' & D & HQ'). exists h'. split; [done|]. apply HQ; [|done]. by eapply VM_trans.
    - intros H me b σ γ x σ' γ' M1 I1 M2 I2 E. destruct (H me b σ γ x σ' γ' M1 I1 M2 I2 E) as (h2 & T & HD). exists h2. split; [done|].
      eapply IH; [|done|done]. eapply VM_trans; [exact M0|]. eapply VM_trans; [exact M1|done].
    - intros (I & QB & H & Hb & Hk). exists (λ s h w1, VM w w1 ∧ I s h w1), (λ b h w1, VM w w1 ∧ QB b h w1). split; [|split].
      + intros w1 M. destruct (H w1 M) as (h' & D & HI). exists h'. split; [done|]. split; [by eapply VM_trans|done].
      + intros s1 h1 w1 [M1 HI]. eapply IHb; [done| |by apply Hb]. intros [?|?] h2 w2 M2 H2; by split.
      + intros b h1 w1 [M1 H1]. eapply IH; [done|done|by apply Hk].
    - done.
  Qed.
  Lemma dm_bind {A B} (p : prog A) (k : A → prog B) : ∀ Q R h w, dm p R h w → (∀ a h' w', VM w w' → R a h' w' → dm (k a) Q h' w') → dm (bind p k) Q h w.
  Proof.
    induction p as [A a|X A f k1 IH|S' X A body IHb s k1 IH|A r]; intros Q R h w D Hk; cbn [dm bind] in *.
    - destruct (D w (VM_refl w)) as (h' & W & H). eapply dm_disch; [exact W|]. apply Hk; [apply VM_refl|done].
    - intros me b σ γ x σ' γ' M1 I1 M2 I2 E. destruct (D me b σ γ x σ' γ' M1 I1 M2 I2 E) as (h2 & T & HD). exists h2. split; [done|]. eapply IH; [exact HD|].
      intros a h' w' M. apply Hk. eapply VM_trans; [exact M1|]. by eapply VM_trans.
    - destruct D as (I & QB & H & Hb & Hq). exists (λ s h w1, VM w w1 ∧ I s h w1), (λ b h w1, VM w w1 ∧ QB b h w1). split; [|split].
      + intros w1 M. destruct (H w1 M) as (h' & D1 & D2). exists h'. auto.
      + intros s1 h1 w1 [M1 HI]. eapply dm_mono_vm; [exact M1| |by apply Hb]. intros [?|?] h2 w2 M2 H2; by split.
      + intros b h1 w1 [M1 H1]. eapply IH; [by apply Hq|]. intros a h' w' M. apply Hk. by eapply VM_trans.
    - done.
  Qed.
  (** The outcome still holds whatever the other threads do next. *)
  Lemma dm_close {A} (p : prog A) : ∀ (Q : A → held → wd → Prop) h w, dm p Q h w → dm p (λ a h w, ∀ w', VM w w' → ∃ h', disch h h' w' ∧ Q a h' w') h w.
  Proof.
    induction p as [A a|X A f k IH|S' X A body IHb s k IH|A r]; cbn [dm]; intros Q h w.
    - intros H w1 M1. exists h. split; [by left|]. intros w2 M2. apply H. by eapply VM_trans.
    - intros H me b σ γ x σ' γ' M1 I1 M2 I2 E. destruct (H me b σ γ x σ' γ' M1 I1 M2 I2 E) as (h2 & T & HD). exists h2. split; [done|]. by apply IH.
    - intros (I & QB & H & Hb & Hk). exists I, QB. split; [done|]. split; [done|]. intros b h1 w1 Hq. apply IH. by apply Hk.
    - done.
  Qed.
  Lemma dm_ret {A} (a : A) (Q : A → held → wd → Prop) h w : (∀ w', VM w w' → Q a h w') → dm (Ret a) Q h w.
  Proof. intros H w' M. exists h. split; [by left|by apply H]. Qed.
  Lemma dm_loop {X B A} (body : X → prog (X + B)) s (k : B → prog A) Q h w (I : X → held → wd → Prop) (QB : B → held → wd → Prop) :
    (∀ w', VM w w' → I s h w') → (∀ s h w, I s h w → dm (body s) (λ r h' w', match r with inl s' => I s' h' w' | inr b => QB b h' w' end) h w) →
    (∀ b h w, QB b h w → dm (k b) Q h w) → dm (Loop body s k) Q h w.
  Proof. intros A1 A2 A3. exists I, QB. split; [|done]. intros w' M. exists h. split; [by left|by apply A1]. Qed.

  (** Accesses that add no table. *)
  Definition pact {X} (f : action X) : Prop := ∀ me b σ x σ', f me b σ = Ok x σ' → length (tables σ') = length (tables σ).
  (** Programs that add no table; [u]: the user's closure may panic. *)
  Fixpoint plain (u : bool) {A} (p : prog A) : Prop :=
    match p with
    | Ret _ => True
    | Fail r => u = true ∨ ¬ ufail r
    | Act f k => pact f ∧ ∀ x, plain u (k x)
    | Loop body s k => (∀ s, plain u (body s)) ∧ ∀ b, plain u (k b)
    end.
  Lemma otr_same h (σ σ' : state) : length (tables σ') = length (tables σ) → otr h h σ σ'.
  Proof. intros E. split; [|by left]. intros u ->. left. by exists u. Qed.
  Lemma dm_plain u {A} (p : prog A) : ∀ (Q : A → held → wd → Prop) h w, plain u p → (u = true → h = None) → (∀ a w', VM w w' → Q a h w') → dm p Q h w.
  Proof.
    induction p as [A a|X A f k IH|S' X A body IHb s k IH|A r]; cbn [dm plain]; intros Q h w P Hu HQ.
    - intros w' M. exists h. split; [by left|by apply HQ].
    - destruct P as [Pf Pk]. intros me b σ γ x σ' γ' M1 I1 M2 I2 E. exists h. split; [eapply otr_same, Pf, E|]. apply IH; [done|done|].
      intros a w' M. apply HQ. eapply VM_trans; [exact M1|]. by eapply VM_trans.
    - destruct P as [Pb Pk]. exists (λ _ h' w', h' = h ∧ VM w w'), (λ _ h' w', h' = h ∧ VM w w'). split; [|split].
      + intros w' M. exists h. split; [by left|done].
      + intros s1 h1 w1 [-> M]. apply IHb; [done|done|]. intros [?|?] w' M'; (split; [done|by eapply VM_trans]).
      + intros b h1 w1 [-> M]. apply IH; [done|done|]. intros a w' M'. apply HQ. by eapply VM_trans.
    - intros U w' M. destruct P as [P|P]; [left; by rewrite Hu|done].
  Qed.
  Lemma dm_pbind {A B} (p : prog A) (k : A → prog B) Q h w : plain false p → (∀ a w', VM w w' → dm (k a) Q h w') → dm (bind p k) Q h w.
  Proof.
    intros P Hk. eapply dm_bind; [eapply (dm_plain false p (λ _ h' w', h' = h)); done|]. intros a h' w' M ->. by apply Hk.
  Qed.
  Lemma dm_pbindN {A B} (p : prog A) (k : A → prog B) Q h w : h = None → plain true p → (∀ a w', VM w w' → dm (k a) Q h w') → dm (bind p k) Q h w.
  Proof.
    intros Hh P Hk. eapply dm_bind; [eapply (dm_plain true p (λ _ h' w', h' = h)); done|]. intros a h' w' M ->. by apply Hk.
  Qed.
  Lemma dm_act {X A} (f : action X) (k : X → prog A) Q h w : pact f →
    (∀ me b σ γ x σ' γ', VM w (σ, γ) → Iw (σ, γ) → VM (σ, γ) (σ', γ') → Iw (σ', γ') → f me b σ = Ok x σ' → dm (k x) Q h (σ', γ')) → dm (Act f k) Q h w.
  Proof. intros P H me b σ γ x σ' γ' M1 I1 M2 I2 E. exists h. split; [eapply otr_same, P, E|by eapply H]. Qed.

  (** ** The accesses that add no table *)
  Lemma len_upd t tb (σ : state) : length (tables (upd_table t tb σ)) = length (tables σ).
  Proof. cbn. by rewrite insert_length. Qed.
  Lemma ws_ok' {A} t i (σ : state) (f : table → slot → outcome K V A) x σ' : with_slot t i σ f = Ok x σ' → ∃ tb s, tables σ !! t = Some tb ∧ t_slots tb !! i = Some s ∧ f tb s = Ok x σ'.
  Proof. intros (tb & E & H)%wt_ok. destruct (t_slots tb !! i) as [s|] eqn:Es; [|done]. by exists tb, s. Qed.
  Ltac pl := let me := fresh "me" in let b := fresh "b" in let σ := fresh "σ" in let x := fresh "x" in let σ' := fresh "σ'" in let E := fresh "E" in
    intros me b σ x σ' E; cbv beta iota delta [a_load_meta a_store_meta a_load_ent a_store_ent a_fetch_or_copying a_cas_ent a_cas_pub a_deref a_load_copied a_add_copied
      a_load_claim a_add_claim a_load_status a_store_status a_count a_load_shard a_shards a_retire a_defer a_pk_announce a_pk_register a_pk_remove a_pk_contains
      a_pk_pending a_pk_take a_park a_unpark a_root a_root_raw a_cas_root a_next a_should_park a_try_lock a_lock a_unlock a_poison a_ub] in E;
    repeat match type of E with
      | with_slot _ _ _ _ = _ => apply ws_ok' in E as (? & ? & ? & ? & E)
      | with_table _ _ _ = _ => apply wt_ok in E as (? & ? & E)
      | (if ?c then _ else _) = _ => destruct c; try discriminate E
      | match ?c with _ => _ end = _ => destruct c; try discriminate E
      end; try discriminate E;
    injection E as <- <-; cbv zeta; try reflexivity; unfold upd_slot; cbn; rewrite ?insert_length; reflexivity.
  Lemma q_load_meta tb i : pact (a_load_meta tb i). Proof. pl. Qed.
  Lemma q_store_meta tb i m : pact (a_store_meta tb i m). Proof. pl. Qed.
  Lemma q_load_ent tb i : pact (a_load_ent tb i). Proof. pl. Qed.
  Lemma q_store_ent tb i e : pact (a_store_ent tb i e). Proof. pl. Qed.
  Lemma q_fetch tb i : pact (a_fetch_or_copying tb i). Proof. pl. Qed.
  Lemma q_cas_ent w tb i e n : pact (a_cas_ent w tb i e n). Proof. pl. Qed.
  Lemma q_cas_pub w tb i e n : pact (a_cas_pub w tb i e n). Proof. pl. Qed.
  Lemma q_deref p : pact (a_deref p). Proof. pl. Qed.
  Lemma q_load_copied tb : pact (a_load_copied tb). Proof. pl. Qed.
  Lemma q_add_copied tb n : pact (a_add_copied tb n). Proof. pl. Qed.
  Lemma q_load_claim tb : pact (a_load_claim tb). Proof. pl. Qed.
  Lemma q_add_claim tb n : pact (a_add_claim tb n). Proof. pl. Qed.
  Lemma q_load_status tb : pact (a_load_status tb). Proof. pl. Qed.
  Lemma q_store_status tb x : pact (a_store_status tb x). Proof. pl. Qed.
  Lemma q_count d : pact (a_count d). Proof. pl. Qed.
  Lemma q_load_shard j : pact (a_load_shard j). Proof. pl. Qed.
  Lemma q_shards : pact a_shards. Proof. pl. Qed.
  Lemma q_retire o : pact (a_retire o). Proof. pl. Qed.
  Lemma q_defer tb p : pact (a_defer tb p). Proof. pl. Qed.
  Lemma q_announce tb d : pact (a_pk_announce tb d). Proof. pl. Qed.
  Lemma q_register tb k : pact (a_pk_register tb k). Proof. pl. Qed.
  Lemma q_remove tb k i : pact (a_pk_remove tb k i). Proof. pl. Qed.
  Lemma q_contains tb k i : pact (a_pk_contains tb k i). Proof. pl. Qed.
  Lemma q_pending tb : pact (a_pk_pending tb). Proof. pl. Qed.
  Lemma q_take tb k : pact (a_pk_take tb k). Proof. pl. Qed.
  Lemma q_park : pact a_park. Proof. pl. Qed.
  Lemma q_unpark j : pact (a_unpark j). Proof. pl. Qed.
  Lemma q_root : pact a_root. Proof. pl. Qed.
  Lemma q_root_raw : pact a_root_raw. Proof. pl. Qed.
  Lemma q_cas_root tb n : pact (a_cas_root tb n). Proof. pl. Qed.
  Lemma q_next tb : pact (a_next tb). Proof. pl. Qed.
  Lemma q_try_lock tb : pact (a_try_lock tb). Proof. pl. Qed.
  Lemma q_lock tb : pact (a_lock tb). Proof. pl. Qed.
  Lemma q_unlock tb : pact (a_unlock tb). Proof. pl. Qed.
  Lemma q_poison tb : pact (a_poison tb). Proof. pl. Qed.
  Lemma q_ub : pact (a_ub (K:=K) (V:=V) (A:=pres K V)). Proof. by intros me b σ x σ' E. Qed.
  Lemma q_should tb k : pact (a_should_park tb k). Proof. destruct k; pl. Qed.
  Hint Resolve q_load_meta q_store_meta q_load_ent q_store_ent q_fetch q_cas_ent q_cas_pub q_deref q_load_copied q_add_copied q_load_claim q_add_claim
    q_load_status q_store_status q_count q_load_shard q_shards q_retire q_defer q_announce q_register q_remove q_contains q_pending q_take q_park q_unpark
    q_root q_root_raw q_cas_root q_try_lock q_lock q_unlock q_poison q_ub q_should q_next : pla.

  Lemma plain_bind u {A B} (p : prog A) (k : A → prog B) : plain u p → (∀ a, plain u (k a)) → plain u (bind p k).
  Proof. induction p as [A a|X A f k1 IH|S' X A body IHb s k1 IH|A r]; cbn [plain bind]; intros P H; [done| | |done]; destruct P as [P1 P2]; split; auto. Qed.
  Lemma plain_act u {X} (f : action X) : pact f → plain u (act f). Proof. by split. Qed.
  Lemma plain_act' u {X A} (f : action X) (k : X → prog A) : pact f → (∀ x, plain u (k x)) → plain u (Act f k). Proof. by split. Qed.
  Lemma plain_loop u {X B} (body : X → prog (X + B)) s : (∀ s, plain u (body s)) → plain u (loop body s). Proof. by split. Qed.
  Lemma plain_loop' u {X B A} (body : X → prog (X + B)) s (k : B → prog A) : (∀ s, plain u (body s)) → (∀ b, plain u (k b)) → plain u (Loop body s k). Proof. by split. Qed.
  Create HintDb plp.
  Ltac ds1 := lazymatch goal with
    | |- plain _ (bind _ _) => apply plain_bind
    | |- plain _ (act _) => apply plain_act; solve [eauto 2 with pla]
    | |- plain _ (Act _ _) => apply plain_act'; [solve [eauto 2 with pla]|]
    | |- plain _ (loop _ _) => apply plain_loop
    | |- plain _ (Loop _ _ _) => apply plain_loop'
    | |- plain _ (Ret _) => exact I
    | |- plain _ (Fail _) => first [by left|right; by intros [?|?]]
    | |- plain _ (if negb false then _ else _) => cbn [negb]
    | |- plain _ (if ?b then _ else _) => destruct b
    | |- plain _ (match ?x with _ => _ end) => destruct x
    | |- plain _ (let '_ := ?x in _) => destruct x
    | |- plain _ (let _ := _ in _) => cbv zeta
    | |- ∀ _, _ => intros ?
    | |- plain _ _ => first [solve [eauto 2 with plp] | progress cbv beta]
    end.
  Ltac ds := repeat ds1.
  Lemma d_spin_next u n tb : plain u (spin_next n tb). Proof. induction n; cbn [spin_next]; ds. Qed.
  Hint Resolve d_spin_next : plp.
  Lemma d_park u tb k : plain u (park tb k). Proof. unfold park. ds. Qed.
  Lemma d_unpark_all u l : plain u (unpark_all l). Proof. induction l; cbn [unpark_all]; ds. Qed.
  Hint Resolve d_park d_unpark_all : plp.
  Lemma d_unpark u tb k : plain u (unpark tb k). Proof. unfold unpark. ds. Qed.
  Lemma d_sums u n j acc : plain u (sum_shards n j acc). Proof. revert j acc. induction n; intros j acc; cbn [sum_shards]; ds. Qed.
  Hint Resolve d_unpark d_sums : plp.
  Lemma d_len u : plain u map_len. Proof. unfold map_len. ds. Qed.
  Hint Resolve d_len : plp.
  Lemma d_icp u f tb e k i l : plain u (insert_copy_probe cfg f tb e k i l).
  Proof. revert i l. induction f; intros i l; cbn [insert_copy_probe]; ds. Qed.
  Hint Resolve d_icp : plp.
  Lemma d_ic u e p tb : plain u (insert_copy cfg e p false tb). Proof. unfold insert_copy. ds. Qed.
  Lemma d_spin_status u n tb : plain u (spin_status n tb). Proof. induction n; cbn [spin_status]; ds. Qed.
  Lemma d_spin_copied u n i tb : plain u (spin_copied n i tb). Proof. induction n; cbn [spin_copied]; ds. Qed.
  Hint Resolve d_ic d_spin_status d_spin_copied : plp.
  Lemma d_wc u i tb : plain u (wait_copied cfg i tb). Proof. unfold wait_copied. ds. Qed.
  Lemma d_dr u e tb : plain u (defer_retire cfg e tb). Proof. unfold defer_retire. ds. Qed.
  Lemma d_ia u i m kv tb : plain u (insert_at cfg i m kv tb). Proof. unfold insert_at. ds. Qed.
  Hint Resolve d_wc d_dr d_ia : plp.
  Lemma d_ua u i c n tb : plain u (update_at cfg i c n tb). Proof. unfold update_at. ds. Qed.
  Hint Resolve d_ua : plp.
  Lemma d_is u i e kv tb : plain u (insert_slow cfg i e kv tb). Proof. unfold insert_slow. ds. Qed.
  Lemma d_gp u f tb k i l : plain u (get_probe cfg f tb k i l). Proof. revert i l. induction f; intros i l; cbn [get_probe]; ds. Qed.
  Hint Resolve d_is d_gp : plp.
  Lemma d_ip u f r tb kv i l : plain u (insert_probe cfg f r tb kv i l). Proof. revert i l. induction f; intros i l; cbn [insert_probe]; ds. Qed.
  Lemma d_re u p tb i e : plain u (remove_entry cfg p tb i e). Proof. unfold remove_entry. ds. Qed.
  Hint Resolve d_ip d_re : plp.
  Lemma d_rp u f p tb k i l : plain u (remove_probe cfg f p tb k i l). Proof. revert i l. induction f; intros i l; cbn [remove_probe]; ds. Qed.
  Lemma d_nn o f cs : plain true (cs_next_none (K:=K) (V:=V) o f cs). Proof. unfold cs_next_none. ds. Qed.
  Lemma d_ns f cs p : plain true (cs_next_some f cs p). Proof. unfold cs_next_some. ds. Qed.
  Hint Resolve d_rp d_nn d_ns : plp.
  Lemma d_ce o f tb k i cs e : plain true (compute_entry cfg o f tb k i cs e). Proof. unfold compute_entry. ds. Qed.
  Hint Resolve d_ce : plp.
  Lemma d_cp fu o f tb k i l cs : plain true (compute_probe cfg fu o f tb k i l cs). Proof. revert i l cs. induction fu; intros i l cs; cbn [compute_probe]; ds. Qed.
  Lemma d_de u t tb i e : plain u (delete_entry cfg t tb i e). Proof. unfold delete_entry. ds. Qed.
  Hint Resolve d_cp d_de : plp.
  Lemma d_sw u n i t tb c : plain u (sweep cfg n i t tb c). Proof. revert i c. induction n; intros i c; cbn [sweep]; ds. Qed.
  Lemma d_in u f i tb : plain u (iter_next f i tb). Proof. revert i. induction f; intros i; cbn [iter_next]; ds. Qed.
  Hint Resolve d_sw d_in : plp.
  Lemma d_lin u tb : plain u (linearize cfg tb). Proof. unfold linearize. unfold incremental. rewrite HM. ds. Qed.
  Hint Resolve d_lin : plp.
  Lemma d_iter u : plain u (iter cfg). Proof. unfold iter. ds. Qed.
  Lemma d_get u k : plain u (get cfg k). Proof. unfold get. ds. Qed.
  Lemma d_cab u i tb nx : plain u (copy_at_blocking cfg i tb nx). Proof. unfold copy_at_blocking. ds. Qed.
  Hint Resolve d_cab d_get d_iter : plp.
  Lemma d_ccb u n i tb nx c : plain u (copy_chunk_blocking cfg n i tb nx c). Proof. revert i c. induction n; intros i c; cbn [copy_chunk_blocking]; ds. Qed.
  Hint Resolve d_ccb : plp.

  (** ** Facts that no thread can undo *)
  Definition hv (w : wd) (tb : tref) : Prop := hvalid (co w) tb.
  Definition rw (w : wd) (t : nat) : Prop := t ≤ rt (co w) ∧ al (co w) t.
  Definition sr (w : wd) (n t : nat) : Prop := rw w t ∧ n < nt (co w) ∧ src (co w) n t.
  Definition ful (w : wd) (n l : nat) : Prop := ∀ i, i < l → g_ph w.2 n i = PCnt.
  Lemma hv_vm w w' tb : VM w w' → hv w tb → hv w' tb.
  Proof.
    intros M (A & B & C). pose proof (vm_nt _ _ M). pose proof (vm_ln _ _ M _ A) as L. pose proof (vm_lim _ _ M _ A) as L2. unfold lnc, lim in *.
    split; [lia|]. split; congruence.
  Qed.
  Lemma rw_vm w w' t : VM w w' → rw w t → rw w' t.
  Proof. intros M [A B]. pose proof (vm_rt _ _ M). split; [lia|by apply (vm_al _ _ M)]. Qed.
  Lemma nal_vm w w' t : VM w w' → ¬ al (co w) t → ¬ al (co w') t.
  Proof. intros M A B. by apply A, (vm_st _ _ M). Qed.
  Lemma sr_vm w w' n t : VM w w' → sr w n t → sr w' n t.
  Proof.
    intros M (R & L & S1 & S2 & S3). pose proof (rw_vm _ _ _ M R) as R'. pose proof (vm_nt _ _ M). split; [done|]. split; [lia|]. split; [done|]. split; [apply R'|].
    intros m A B. eapply nal_vm; [done|by apply S3].
  Qed.
  Lemma ful_vm w w' n l : VM w w' → ful w n l → ful w' n l.
  Proof. intros M F i L. apply (vm_cnt _ _ M). by apply F. Qed.
  Lemma hv_len w tb : Iw w → hv w tb → th_len tb = lnc (co w) (th tb).
  Proof. intros I (A & B & C). destruct (b_pow _ _ _ I _ A) as (b & Lb & E). unfold th_len, lnc in *. rewrite B, E. pose proof (Nat.pow_nonzero 2 b). lia. Qed.
  Lemma sr_next w t : rw w t → S t < nt (co w) → sr w (S t) t.
  Proof. intros R L. split; [done|]. split; [done|]. split; [lia|]. split; [apply R|]. intros m A B. lia. Qed.
  Lemma sr_skip w n t : sr w n t → ¬ al (co w) n → S n < nt (co w) → sr w (S n) t.
  Proof.
    intros (R & L & S1 & S2 & S3) A L'. split; [done|]. split; [done|]. split; [lia|]. split; [done|]. intros m B C.
    destruct (decide (m = n)) as [->|]; [done|]. apply S3; lia.
  Qed.
  Lemma ful_rw w n t : Iw w → sr w n t → ful w n (lnc (co w) t) → rt (co w) ≠ t → rw w n.
  Proof.
    intros I (R & L & S) F N. destruct (src_cases _ _ _ I _ _ S L) as [[-> _]|[_ Ln]]; [done|]. split; [done|].
    destruct (al_dec (co w) n) as [|NA]; [done|]. destruct (b_abort _ _ _ I n t S L NA) as (i & j & i' & B & C). rewrite F in C by done. done.
  Qed.
  Lemma next_of w tb x : Iw w → th tb < nt (co w) → fld None (k_nx (co w)) (th tb) = Some x → x = S (th tb) ∧ S (th tb) < nt (co w).
  Proof. intros I L E. rewrite (b_next _ _ _ I _ L) in E. destruct (decide _); [|done]. injection E as <-. by split. Qed.
  Lemma root_rw w : Iw w → rw w (rt (co w)).
  Proof. intros I. split; [done|]. apply (b_alrt _ _ _ I). Qed.
  Definition bnd (h : held) (n : nat) : Prop := ∀ u, h = Some u → u < n.

  (** ** Reading the next table *)
  Lemma m_next {A} tb (k : option tref → prog A) Q h w : (∀ x w', VM w w' → Iw w' → match x with Some nx => th nx = S (th tb) ∧ hv w' nx | None => True end → dm (k x) Q h w') → dm (Act (a_next tb) k) Q h w.
  Proof.
    intros H. apply dm_act; [apply q_next|]. intros me b σ γ x σ' γ' M1 I1 M2 I2 E. apply H; [by eapply VM_trans|done|].
    apply eff_next in E as (Ec & Lt & E). destruct x as [nx|]; [|done]. destruct E as [E Hv]. apply (next_of (σ, γ)) in E as [E _]; [|done|done].
    split; [done|]. unfold hv, co. cbn [fst]. rewrite Ec. exact Hv.
  Qed.
  (** ** Publishing a new table: the caller owes its resize *)
  Lemma m_publish {A} tb len (k : tref → prog A) Q h w : bnd h (S (th tb)) → (∀ x w', VM w w' → th x = S (th tb) → hv w' x → dm (k x) Q (Some (th tb)) w') →
    dm (Act (a_publish_next tb len) k) Q h w.
  Proof.
    intros Bh H me b σ γ x σ' γ' M1 I1 M2 I2 E. exists (Some (th tb)).
    assert (P : length (tables σ') = S (length (tables σ)) ∧ length (tables σ) = S (th tb) ∧ th x = S (th tb) ∧ hvalid (core_of σ') x).
    { pose proof E as E0. apply eff_publish_next in E0 as (Lt & Ec & _). apply wt_ok in E as (t & Et & E). cbv zeta in E. injection E as <- <-.
      set (σ2 := set_tables _ _) in *. pose proof (lookup_lt_Some _ _ _ Et) as Lt'.
      assert (El : length (tables σ2) = S (length (tables σ))) by (cbn; rewrite app_length, insert_length; cbn; lia).
      assert (Et2 : tables σ2 !! th tb = Some (t_set_next (Some (length (tables σ))) t)).
      { cbn. rewrite lookup_app_l by (by rewrite insert_length). by rewrite list_lookup_insert. }
      assert (En : tables σ2 !! length (tables σ) = Some (new_table len PENDING)).
      { cbn. rewrite lookup_app_r by (by rewrite insert_length). rewrite insert_length, Nat.sub_diag. done. }
      assert (X : fld None (k_nx (core_of σ2)) (th tb) = Some (length (tables σ))).
      { destruct (core_fld_table _ _ _ Et2) as (X & _). rewrite X. done. }
      apply (next_of (σ2, γ')) in X as [X _]; [|done|unfold co; cbn [fst]; rewrite nt_tables; lia].
      split; [done|]. split; [done|]. split; [done|]. by apply handle_valid. }
    destruct P as (P1 & P2 & P3 & P4). split.
    - split.
      + intros u Eu. left. exists (th tb). split; [done|]. specialize (Bh u Eu). lia.
      + right. split; [done|]. right. exists (th tb). split; [done|]. lia.
    - apply H; [by eapply VM_trans|done|exact P4].
  Qed.
  Definition GN (tb nx : tref) (h : held) (w : wd) : Prop := th nx = S (th tb) ∧ hv w nx ∧ bnd h (S (th tb)).
  Lemma m_alloc_locked cap tb h w : bnd h (S (th tb)) → dm (alloc_locked cfg cap tb) (GN tb) h w.
  Proof.
    intros Bh. unfold alloc_locked. apply m_next. intros [nx|] w1 M1 I1 Hx.
    - apply dm_pbind; [ds|]. intros [] w2 M2. apply dm_ret. intros w3 M3. destruct Hx as [Hx Hv]. split; [done|]. split; [|done].
      eapply hv_vm; [exact M3|]. eapply hv_vm; [exact M2|done].
    - apply dm_pbind; [ds|]. intros n w2 M2. cbv zeta. destruct (alloc_len _) as [len|].
      + apply m_publish; [done|]. intros x w3 M3 Ex Hv. apply dm_pbind; [ds|]. intros [] w4 M4. apply dm_ret. intros w5 M5. split; [done|]. split.
        * eapply hv_vm; [exact M5|]. eapply hv_vm; [exact M4|done].
        * intros u [= <-]. lia.
      + apply dm_pbind; [ds|]. intros [] w3 M3. by intros [?|?].
  Qed.
  Lemma m_spin_next n tb h w : dm (spin_next n tb) (λ r h' w', h' = h ∧ match r with Some nx => th nx = S (th tb) ∧ hv w' nx | None => True end) h w.
  Proof.
    revert w. induction n as [|n IH]; intros w; cbn [spin_next]; [by apply dm_ret|]. apply m_next. intros [nx|] w1 M1 I1 Hx; [|apply IH].
    apply dm_ret. intros w2 M2. split; [done|]. destruct Hx as [Hx Hv]. split; [done|]. by eapply hv_vm.
  Qed.
  Lemma m_goan cap tb h w : bnd h (S (th tb)) → dm (get_or_alloc_next cfg cap tb) (GN tb) h w.
  Proof.
    intros Bh. unfold get_or_alloc_next. apply m_next. intros [nx|] w1 M1 I1 Hx.
    - apply dm_ret. intros w2 M2. destruct Hx as [Hx Hv]. split; [done|]. split; [|done]. by eapply hv_vm.
    - apply dm_pbind; [ds|]. intros [] w2 M2; [by apply m_alloc_locked|].
      eapply dm_bind; [apply m_spin_next|]. intros [nx|] h' w3 M3 [-> Hn].
      + apply dm_ret. intros w4 M4. destruct Hn as [Hn Hv]. split; [done|]. split; [|done]. by eapply hv_vm.
      + apply dm_pbind; [ds|]. intros [] w4 M4; [by apply m_alloc_locked|by intros [?|?]].
  Qed.

  (** ** Promotion *)
  Lemma m_root_swap {A} tb next (k : bool → prog A) Q h w : hv w tb → sr w (th next) (th tb) → ful w (th next) (th_len tb) →
    (∀ x w', VM w w' → rw w' (th next) → dm (k x) Q h w') → dm (Act (a_cas_root tb next) k) Q h w.
  Proof.
    intros Hv Sr F H. apply dm_act; [apply q_cas_root|]. intros me b σ γ x σ' γ' M1 I1 M2 I2 E. apply H; [by eapply VM_trans|].
    apply eff_cas_root in E. destruct x.
    - destruct E as [_ Ec]. assert (R : rt (co (σ', γ')) = th next) by (unfold co; cbn [fst]; by rewrite Ec). rewrite <- R. by apply root_rw.
    - destruct E as [Ec Er]. eapply rw_vm; [exact M2|]. eapply (ful_rw _ _ (th tb)); [done|by eapply sr_vm| |].
      + rewrite <- (hv_len _ tb); [by eapply ful_vm|done|by eapply hv_vm].
      + intros Et. pose proof (b_root _ _ _ I1) as Br. change (default 0 (k_rt (core_of σ)) = th tb) in Et.
        change (match k_rt (core_of σ) with None => nt (core_of σ) = 0 | Some r => r < nt (core_of σ) end) in Br.
        destruct (sr_vm _ _ _ _ M1 Sr) as (_ & Ln & _). change (th next < nt (core_of σ)) in Ln.
        destruct (k_rt (core_of σ)) as [r|]; [|lia]. apply Er. f_equal. exact Et.
  Qed.
  (** The counter says that everything was copied. *)
  Definition full_or (w : wd) (tb next : tref) : Prop := ful w (th next) (th_len tb) ∨ th tb < rt (co w).
  Lemma full_or_vm w w' tb next : VM w w' → full_or w tb next → full_or w' tb next.
  Proof. intros M [F|L]; [left; by eapply ful_vm|right]. pose proof (vm_rt _ _ M). lia. Qed.
  Lemma copied_full w tb next : Iw w → hv w tb → sr w (th next) (th tb) → fld 0 (k_cd (co w)) (th next) = th_len tb → full_or w tb next.
  Proof.
    intros I Hv (R & L & S) E. destruct (src_cases _ _ _ I _ _ S L) as [[X Ln]|[Ln _]]; [left|by right]. intros i Li.
    pose proof (b_copied _ _ _ I (th next) Ln L) as C. rewrite <- X, E, (hv_len w tb I Hv) in C.
    eapply cnt_full; [symmetry; exact C|by rewrite <- (hv_len w tb I Hv)].
  Qed.
  Lemma m_try_promote tb next n h w : hv w tb → sr w (th next) (th tb) → dm (try_promote tb next n) (λ ok h' w', h' = h ∧ (ok = true → rw w' (th next))) h w.
  Proof.
    intros Hv Sr. unfold try_promote.
    eapply (dm_bind _ _ _ (λ c h' w', h' = h ∧ (c = th_len tb → full_or w' tb next))).
    { destruct (0 <? n).
      - apply dm_act; [apply q_add_copied|]. intros me b σ γ x σ' γ' M1 I1 M2 I2 E. apply dm_ret. intros w' M3. split; [done|]. intros El.
        eapply full_or_vm; [exact M3|]. assert (M : VM w (σ', γ')) by (by eapply VM_trans). apply copied_full; [done|by eapply hv_vm|by eapply sr_vm|].
        apply eff_add_copied in E as (Lt & Ex & Ec). unfold co. cbn [fst]. rewrite Ec. cbn [c_cd k_cd]. unfold fld. rewrite list_lookup_insert; [exact El|].
        destruct (core_of_lens σ) as (_ & _ & _ & Lc & _). by rewrite Lc.
      - apply dm_act; [apply q_load_copied|]. intros me b σ γ x σ' γ' M1 I1 M2 I2 E. apply dm_ret. intros w' M3. split; [done|]. intros El.
        eapply full_or_vm; [exact M3|]. assert (M : VM w (σ', γ')) by (by eapply VM_trans). apply copied_full; [done|by eapply hv_vm|by eapply sr_vm|].
        apply eff_load_copied in E as (Ec & Lt & Ex). unfold co. cbn [fst]. rewrite Ec, <- Ex. done. }
    intros c h' w1 M1 [-> Hc]. destruct (Nat.eqb_spec c (th_len tb)) as [Ec|_]; [|apply dm_ret; by intros]. specialize (Hc Ec).
    apply dm_act; [apply q_root_raw|]. intros me b σ γ x σ' γ' M2 I2 M3 I3 E. apply eff_root_raw in E as [Ec' ->].
    destruct (bool_decide_reflect (k_rt (core_of σ) = Some (th tb))) as [Er|]; [|apply dm_ret; by intros].
    assert (Fu : ful (σ', γ') (th next) (th_len tb)).
    { eapply ful_vm; [exact M3|]. apply (full_or_vm _ _ _ _ M2) in Hc as [?|L]; [done|]. unfold rt, co in L. cbn [fst] in L. rewrite Er in L. cbn in L. lia. }
    assert (M : VM w (σ', γ')) by (eapply VM_trans; [exact M1|]; by eapply VM_trans).
    apply m_root_swap; [by eapply hv_vm|by eapply sr_vm|done|]. intros ok w2 M4 R.
    eapply (dm_plain false); [destruct ok; ds|done|]. intros a w' M5. split; [done|]. intros _. by eapply rw_vm.
  Qed.

  (** ** Waiting and helping *)
  Definition SP (tb : tref) (h : held) (s : status) (h' : held) (w' : wd) : Prop := h' = h ∧ (s = PROMOTED → rw w' (th tb)).
  Lemma m_load_status {A} tb (k : status → prog A) Q h w : (∀ s w', VM w w' → (s = PROMOTED → rw w' (th tb)) → (s = ABORTED → ¬ al (co w') (th tb)) → dm (k s) Q h w') → dm (Act (a_load_status tb) k) Q h w.
  Proof.
    intros H. apply dm_act; [apply q_load_status|]. intros me b σ γ x σ' γ' M1 I1 M2 I2 E. apply eff_load_status in E as (Ec & Lt & ->).
    apply H; [by eapply VM_trans| |].
    - intros Es. eapply rw_vm; [exact M2|]. split; [by apply (b_status _ _ _ I1)|]. unfold al, co. cbn [fst]. by rewrite Es.
    - intros Es. eapply nal_vm; [exact M2|]. intros Al. by apply Al.
  Qed.
  Lemma m_spin_status n tb h w : dm (spin_status n tb) (λ r h' w', h' = h ∧ ∀ s, r = Some s → s = PROMOTED → rw w' (th tb)) h w.
  Proof.
    revert w. induction n as [|n IH]; intros w; cbn [spin_status]; [by apply dm_ret|]. apply m_load_status. intros s w1 M1 H1 _.
    destruct (bool_decide _); [apply IH|]. apply dm_ret. intros w2 M2. split; [done|]. intros s' [= <-] Es. eapply rw_vm; [exact M2|by apply H1].
  Qed.
  Lemma m_wait_status tb h w : dm (wait_status cfg tb) (SP tb h) h w.
  Proof.
    unfold wait_status. eapply (dm_loop _ _ _ _ _ _ (λ _ h' _, h' = h) (SP tb h)); [done| |].
    - intros n h1 w1 ->. eapply dm_bind; [apply m_spin_status|]. intros [s|] h2 w2 M2 [-> H2].
      + apply dm_ret. intros w3 M3. split; [done|]. intros Es. eapply rw_vm; [exact M3|by eapply H2].
      + apply m_load_status. intros s w3 M3 H3 _. destruct (bool_decide _).
        * apply dm_pbind; [ds|]. intros [] w4 M4. by apply dm_ret.
        * apply dm_ret. intros w4 M4. split; [done|]. intros Es. eapply rw_vm; [exact M4|by apply H3].
    - intros s h1 w1 [-> H]. apply dm_ret. intros w2 M2. split; [done|]. intros Es. eapply rw_vm; [exact M2|by apply H].
  Qed.
  (** The copy of [tb] goes to [next]. *)
  Definition CI (tb next : tref) (h : held) (w : wd) : Prop := hv w tb ∧ hv w next ∧ sr w (th next) (th tb) ∧ bnd h (th next).
  Definition DN (next : tref) (h : held) (w : wd) : Prop := hv w next ∧ rw w (th next) ∧ bnd h (th next).
  Lemma CI_vm tb next h w w' : VM w w' → CI tb next h w → CI tb next h w'.
  Proof. intros M (A & B & C & D). split; [by eapply hv_vm|]. split; [by eapply hv_vm|]. split; [by eapply sr_vm|done]. Qed.
  Lemma DN_vm next h w w' : VM w w' → DN next h w → DN next h w'.
  Proof. intros M (A & B & C). split; [by eapply hv_vm|]. split; [by eapply rw_vm|done]. Qed.
  Lemma bnd_S h n : bnd h n → bnd h (S n). Proof. intros B u E. specialize (B u E). lia. Qed.
  Lemma CI_goan tb next h w cap : CI tb next h w → ¬ al (co w) (th next) → dm (get_or_alloc_next cfg cap next) (λ n h' w', CI tb n h' w') h w.
  Proof.
    intros (A & B & C & D) N. eapply dm_mono_vm; [apply VM_refl| |apply m_goan; by apply bnd_S]. intros n h' w' M (E & Hn & Bn).
    split; [by eapply hv_vm|]. split; [done|]. rewrite E. split; [|done]. apply sr_skip; [by eapply sr_vm|by eapply nal_vm|]. rewrite <- E. apply Hn.
  Qed.
  Lemma m_hcb tb h w : hv w tb → rw w (th tb) → bnd h (S (th tb)) → dm (help_copy_blocking cfg tb) (λ nx h' w', h' = None ∧ hv w' nx ∧ rw w' (th nx)) h w.
  Proof.
    intros Hv Rw Bh. unfold help_copy_blocking. apply m_next. intros [next|] w1 M1 I1 Hx; [|by intros [?|?]]. destruct Hx as [En Hn].
    assert (C0 : CI tb next h w1).
    { split; [by eapply hv_vm|]. split; [done|]. rewrite En. split; [|done]. apply sr_next; [by eapply rw_vm|]. rewrite <- En. apply Hn. }
    clear Hv Rw Bh Hn En M1 I1. eapply (dm_loop _ _ _ _ _ _ (λ n h' w', CI tb n h' w') (λ n h' w', DN n h' w')).
    { intros w2 M2. by eapply CI_vm. }
    2:{ intros n h1 w2 (A & B & C) w3 M3. exists None. split; [|split; [done|split; [by eapply hv_vm|by eapply rw_vm]]].
        right. split; [done|]. intros u Eu. specialize (C u Eu). apply (rw_vm _ _ _ M3) in B as [B _]. lia. }
    clear C0 next h w w1. intros next h w C. 
    eapply (dm_bind _ _ _ (λ n h' w', CI tb n h' w')).
    { eapply (dm_loop _ _ _ _ _ _ (λ n h' w', CI tb n h' w') (λ n h' w', CI tb n h' w')).
      - intros w2 M2. by eapply CI_vm.
      - clear C next h w. intros next h w C. apply m_load_status. intros s w1 M1 _ Ha. apply (CI_vm _ _ _ _ _ M1) in C.
        destruct (bool_decide_reflect (s = ABORTED)) as [Es|].
        + eapply dm_bind; [eapply CI_goan; [exact C|by apply Ha]|]. intros n h' w' M' C'. apply dm_ret. intros w2 M2. by eapply CI_vm.
        + apply dm_ret. intros w2 M2. by eapply CI_vm.
      - intros n h1 w1 C1. apply dm_ret. intros w2 M2. by eapply CI_vm. }
    intros nx1 hx wx0 M0 C1. clear M0 C next h w. rename nx1 into next, hx into h, wx0 into w, C1 into C.
    eapply dm_bind; [apply m_try_promote; apply C|]. intros ok h1 w1 M1 [-> Hok]. apply (CI_vm _ _ _ _ _ M1) in C. destruct ok.
    { apply dm_ret. intros w2 M2. eapply DN_vm; [exact M2|]. destruct C as (A & B & C' & D). split; [done|]. split; [by apply Hok|done]. }
    clear Hok M1 w. cbv zeta.
    eapply (dm_bind _ _ _ (λ r h' w', match r with None => CI tb next h' w' | Some (inl n) => CI tb n h' w' | Some (inr n) => DN n h' w' end)).
    { eapply (dm_loop _ _ _ _ _ _ (λ _ h' w', CI tb next h' w') (λ r h' w', match r with None => CI tb next h' w' | Some (inl n) => CI tb n h' w' | Some (inr n) => DN n h' w' end)).
      - intros w2 M2. by eapply CI_vm.
      - clear C h w1. intros [] h w C. apply dm_pbind; [ds|]. intros cl w1 M1. apply (CI_vm _ _ _ _ _ M1) in C.
        destruct (th_len tb <=? cl); [apply dm_ret; intros w2 M2; by eapply CI_vm|].
        apply dm_pbind; [ds|]. intros st w2 M2. apply (CI_vm _ _ _ _ _ M2) in C.
        apply dm_pbind; [ds|]. intros cp w3 M3. apply (CI_vm _ _ _ _ _ M3) in C. destruct cp as [cp|].
        + eapply dm_bind; [apply m_try_promote; apply C|]. intros ok h1 w4 M4 [-> Hok]. apply (CI_vm _ _ _ _ _ M4) in C. destruct ok.
          { apply dm_ret. intros w5 M5. eapply DN_vm; [exact M5|]. destruct C as (A & B & C' & D). split; [done|]. split; [by apply Hok|done]. }
          apply dm_pbind; [ds|]. intros s w5 M5. apply (CI_vm _ _ _ _ _ M5) in C. destruct (bool_decide _); apply dm_ret; intros w6 M6; by eapply CI_vm.
        + apply dm_act; [apply q_store_status|]. intros me b σ γ x σ' γ' N1 J1 N2 J2 E. apply (CI_vm _ _ _ _ _ N1) in C.
          assert (Na : ¬ al (co (σ', γ')) (th next)).
          { apply eff_store_status in E as (Lt & Ec). unfold al, co. cbn [fst]. rewrite Ec. cbn [c_st k_st]. unfold fld.
            rewrite list_lookup_insert; [by intros []|]. destruct (core_of_lens σ) as (_ & _ & _ & _ & _ & Ls). by rewrite Ls. }
          apply (CI_vm _ _ _ _ _ N2) in C. eapply dm_bind; [eapply CI_goan; [exact C|exact Na]|]. intros n h' w' M' C'.
          apply dm_pbind; [ds|]. intros [] w6 M6. apply dm_ret. intros w7 M7. eapply CI_vm; [exact M7|]. by eapply CI_vm.
      - intros r h1 w2 H. apply dm_ret. intros w3 M3. destruct r as [[n|n]|]; [by eapply CI_vm|by eapply DN_vm|by eapply CI_vm]. }
    intros r h2 w2 M0 H. clear M0 C h w1. rename h2 into h, w2 into w. destruct r as [[n|n]|].
    - apply dm_ret. intros w2 M2. by eapply CI_vm.
    - apply dm_ret. intros w2 M2. by eapply DN_vm.
    - eapply dm_bind; [apply m_wait_status|]. intros s h1 w1 M1 [-> Hs]. apply (CI_vm _ _ _ _ _ M1) in H. destruct (bool_decide_reflect (s = PROMOTED)) as [Es|].
      + apply dm_ret. intros w2 M2. eapply DN_vm; [exact M2|]. destruct H as (A & B & C' & D). split; [done|]. split; [by apply Hs|done].
      + apply dm_ret. intros w2 M2. by eapply CI_vm.
  Qed.

  (** ** The calls *)
  Definition LI0 (tb : tref) (h : held) (w : wd) : Prop := h = None ∧ hv w tb ∧ rw w (th tb).
  Lemma LI0_vm tb h w w' : VM w w' → LI0 tb h w → LI0 tb h w'.
  Proof. intros M (A & B & C). split; [done|]. split; [by eapply hv_vm|by eapply rw_vm]. Qed.
  Lemma m_help_copy b tb h w : hv w tb → rw w (th tb) → bnd h (S (th tb)) → dm (help_copy cfg b tb) LI0 h w.
  Proof. intros. unfold help_copy. rewrite HM. by apply m_hcb. Qed.
  Lemma bnd_None n : bnd None n. Proof. done. Qed.
  Lemma m_pri c b tb h w : LI0 tb h w → dm (prepare_retry_insert cfg c b tb) LI0 h w.
  Proof.
    intros (-> & Hv & Rw). unfold prepare_retry_insert. eapply dm_bind; [apply m_goan; apply bnd_None|]. intros n h' w' M (E & Hn & Bn). rewrite HM.
    apply m_help_copy; [by eapply hv_vm|by eapply rw_vm|done].
  Qed.
  Lemma m_pr c b tb h w : LI0 tb h w → dm (prepare_retry cfg c b tb) (λ r h' w', match r with Some nx => LI0 nx h' w' | None => h' = None ∧ hv w' tb ∧ rw w' (th tb) end) h w.
  Proof.
    intros L. unfold prepare_retry. rewrite HM. destruct c as [i|].
    - destruct L as (-> & Hv & Rw). eapply dm_bind; [by apply m_help_copy|]. intros n h' w' M L. apply dm_ret. intros w2 M2. by eapply LI0_vm.
    - apply dm_ret. intros w2 M2. by eapply LI0_vm.
  Qed.
  Lemma m_root {A} (k : option tref → prog A) Q w : (∀ x w', VM w w' → match x with Some tb => LI0 tb None w' | None => True end → dm (k x) Q None w') → dm (Act a_root k) Q None w.
  Proof.
    intros H. apply dm_act; [apply q_root|]. intros me b σ γ x σ' γ' M1 I1 M2 I2 E. apply eff_root in E as [Ec E]. apply H; [by eapply VM_trans|].
    destruct x as [tb|]; [|done]. destruct E as [Er Hv]. eapply LI0_vm; [exact M2|]. split; [done|]. split; [done|].
    assert (R : th tb = rt (co (σ, γ))) by (unfold rt, co; cbn [fst]; by rewrite Er). rewrite R. by apply root_rw.
  Qed.
  Lemma m_init cap w : dm (init cap) LI0 None w.
  Proof.
    unfold init. destruct (alloc_len _) as [len|]; [|by intros [?|?]]. intros me b σ γ x σ' γ' M1 I1 M2 I2 E. exists None. pose proof E as E0. unfold a_init in E0. apply eff_init in E.
    pose proof (b_root _ _ _ I1) as Br. unfold co in Br. cbn [fst] in Br. change (k_rt (core_of σ)) with (root σ) in *. destruct (root σ) as [t|] eqn:R.
    - apply wt_ok in E0 as (tb & Et & E0). injection E0 as <- <-. split; [by apply otr_same|]. destruct E as (_ & Ex & Hv). apply dm_ret. intros w3 M3.
      eapply LI0_vm; [exact M3|]. split; [done|]. split; [exact Hv|].
      assert (Q : t = rt (co (σ, γ'))) by (unfold rt, co; cbn [fst]; change (k_rt (core_of σ)) with (root σ); by rewrite R). change (th (handle t tb)) with t. rewrite Q. by apply root_rw.
    - rewrite nt_tables in Br. injection E0 as <- <-. cbv zeta in *. set (σ2 := set_root _ _) in *. split.
      + split; [done|]. right. split; [unfold σ2; cbn; rewrite app_length; cbn; lia|by left].
      + apply dm_ret. intros w3 M3. eapply LI0_vm; [exact M3|]. split; [done|]. split.
        * unfold hv, co. cbn [fst]. apply handle_valid. unfold σ2. cbn. rewrite lookup_app_r by lia. by rewrite Nat.sub_diag.
        * change (th (handle (length (tables σ)) (new_table len PROMOTED))) with (length (tables σ)).
          assert (Q : length (tables σ) = rt (co (σ2, γ'))) by done. rewrite Q. by apply root_rw.
  Qed.
  Definition DONE {A} (_ : A) (h : held) (_ : wd) : Prop := h = None.
  Lemma m_insert k v r w : dm (insert cfg k v r) DONE None w.
  Proof.
    unfold insert. eapply (dm_bind _ _ _ DONE).
    - unfold insert_inner. apply m_root. intros x w1 M1 Hx.
      eapply (dm_bind _ _ _ LI0).
      { destruct x as [tb|]; [|apply m_init]. apply dm_ret. intros w2 M2. by eapply LI0_vm. }
      intros tb h w2 M2 L. eapply (dm_loop _ _ _ _ _ _ (λ st h' w', LI0 st.1 h' w') DONE).
      + intros w3 M3. by eapply LI0_vm.
      + clear -HM. intros [tb b] h w L. cbn [fst] in L. cbv beta iota. apply dm_pbind; [ds|]. intros [res|c] w1 M1; [apply dm_ret; intros; by destruct L|].
        eapply dm_bind; [eapply m_pri; by eapply LI0_vm|]. intros n h' w' M' L'. apply dm_ret. intros w2 M2. by eapply LI0_vm.
      + intros b h1 w3 ->. by apply dm_ret.
    - intros [] h w' M ->; (eapply (dm_plain true); [ds|done|done]).
  Qed.
  Lemma m_remove k p w : dm (remove_if cfg k p) DONE None w.
  Proof.
    unfold remove_if. apply m_root. intros [tb|] w1 M1 Hx; [|by apply dm_ret]. eapply (dm_loop _ _ _ _ _ _ (λ st h' w', LI0 st.1 h' w') DONE).
    + intros w3 M3. by eapply LI0_vm.
    + clear -HM. intros [tb b] h w L. cbn [fst] in L. cbv beta iota. apply dm_pbind; [ds|]. intros [res|c] w1 M1; [apply dm_ret; intros; by destruct L|].
      eapply dm_bind; [eapply m_pr; by eapply LI0_vm|]. intros [n|] h' w' M' L'; apply dm_ret; intros w2 M2; [by eapply LI0_vm|by destruct L'].
    + intros b h1 w3 ->. by apply dm_ret.
  Qed.
  Lemma m_compute o k f w : dm (compute cfg o k f) DONE None w.
  Proof.
    unfold compute. cbv zeta. apply m_root. intros x w1 M1 Hx.
    eapply (dm_bind _ _ _ (λ r h' w', match r with inl (tb, cs) => LI0 tb h' w' | inr _ => h' = None end)).
    { destruct x as [tb|]; [apply dm_ret; intros w2 M2; by eapply LI0_vm|]. apply dm_pbindN; [done|ds|]. intros [[v| | |] cs] w2 M2; [|intros _ w3 M3; by left|by apply dm_ret|intros _ w3 M3; by left].
      eapply dm_bind; [apply m_init|]. intros tb h w3 M3 L. apply dm_ret. intros w4 M4. by eapply LI0_vm. }
    intros [[tb cs]|res] h w2 M2 L; [|rewrite L; by apply dm_ret]. eapply (dm_loop _ _ _ _ _ _ (λ st h' w', LI0 st.1 h' w') DONE).
    + intros w3 M3. by eapply LI0_vm.
    + clear -HM. intros [tb cs] h w L. cbn [fst] in L. cbv beta iota. apply dm_pbindN; [apply L|ds|]. intros [res|[c cs1]] w1 M1; [apply dm_ret; intros; by destruct L|].
      eapply dm_bind; [eapply m_pr; by eapply LI0_vm|]. intros [n|] h' w' M' L'; [apply dm_ret; intros w2 M2; by eapply LI0_vm|].
      apply dm_pbindN; [apply L'|ds|]. destruct L' as (-> & L').
      intros [[v| | |] cs2] w2 M2; [|intros _ w3 M3; by left|by apply dm_ret|intros _ w3 M3; by left].
      eapply dm_bind; [eapply m_pri; eapply LI0_vm; [exact M2|by split]|]. intros n h2 w3 M3 L3. apply dm_ret. intros w4 M4. by eapply LI0_vm.
    + intros b h1 w3 ->. by apply dm_ret.
  Qed.
  Lemma m_cor t w : dm (clear_or_retain cfg t) DONE None w.
  Proof.
    unfold clear_or_retain. apply m_root. intros [tb|] w1 M1 Hx; [|by apply dm_ret]. eapply (dm_loop _ _ _ _ _ _ LI0 DONE).
    + intros w3 M3. by eapply LI0_vm.
    + clear -HM. intros tb h w L. unfold linearize, incremental. rewrite HM. cbn [bind].
      apply dm_pbind; [ds|]. intros [] w1 M1; cbn [negb]; [|apply dm_ret; intros; by destruct L].
      apply (LI0_vm _ _ _ _ M1) in L. destruct L as (-> & Hv & Rw). eapply dm_bind; [by apply m_help_copy|]. intros n h' w' M' L'. apply dm_ret. intros w2 M2. by eapply LI0_vm.
    + intros b h1 w3 ->. by apply dm_ret.
  Qed.
  Lemma m_reserve n w : dm (reserve cfg n) DONE None w.
  Proof.
    unfold reserve. apply m_root. intros x w1 M1 Hx.
    eapply (dm_bind _ _ _ LI0).
    { destruct x as [tb|]; [|apply m_init]. apply dm_ret. intros w2 M2. by eapply LI0_vm. }
    intros tb h w2 M2 L. eapply (dm_loop _ _ _ _ _ _ LI0 DONE).
    + intros w3 M3. by eapply LI0_vm.
    + clear -HM. intros tb h w L. apply dm_pbind; [ds|]. intros m w1 M1. cbv zeta. apply (LI0_vm _ _ _ _ M1) in L. destruct (_ <=? _); [apply dm_ret; intros; by destruct L|].
      destruct L as (-> & Hv & Rw). eapply dm_bind; [apply m_goan, bnd_None|]. intros nx h' w' M' (E & Hn & Bn).
      eapply dm_bind; [apply m_help_copy; [by eapply hv_vm|by eapply rw_vm|done]|]. intros n' h2 w2 M2 L'. apply dm_ret. intros w3 M3. by eapply LI0_vm.
    + intros b h1 w3 ->. by apply dm_ret.
  Qed.
  Lemma m_op o its w : dm (op_prog cfg o its) DONE None w.
  Proof.
    assert (PL : ∀ {A B} (p : prog A) (k : A → prog B), dm p DONE None w → (∀ a, plain true (k a)) → dm (bind p k) DONE None w).
    { intros A B p k D P. eapply dm_bind; [exact D|]. intros a h' w' M ->. eapply (dm_plain true); [apply P|done|done]. }
    destruct o as [k|k v|k v|k|k pr|k f|k v|k g|k g v| |f|n| | |j]; cbn [op_prog].
    - eapply (dm_plain true); [ds|done|done].
    - apply PL; [apply m_insert|intros; ds].
    - apply PL; [apply m_insert|intros; ds].
    - apply PL; [apply m_remove|intros; ds].
    - apply PL; [apply m_remove|intros; ds].
    - apply PL; [apply m_compute|intros; ds].
    - apply PL; [apply m_compute|intros; ds].
    - apply PL; [apply m_compute|intros; ds].
    - apply PL; [apply m_compute|intros; ds].
    - apply PL; [apply m_cor|intros; ds].
    - apply PL; [apply m_cor|intros; ds].
    - apply PL; [apply m_reserve|intros; ds].
    - eapply (dm_plain true); [ds|done|done].
    - eapply (dm_plain true); [ds|done|done].
    - eapply (dm_plain true); [ds|done|done].
  Qed.
End owe.
