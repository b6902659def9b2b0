(** Non-termination of a thread that runs alone (used for C24 and C40): lockstep simulation between an execution and the
    same execution with its tables renumbered. *)
From Verif Require Export WaitFree.

Section pr.
  Context {K V : Type} {Keq : EqDecision K}.
  Notation prog := (prog K V). Notation action := (action K V). Notation state := (state K V).

  (** One step of a thread that runs alone, without spurious failures. *)
  Definition pstep {A} (i : nat) (p : prog A) (σ : state) : option (prog A * state) :=
    match p in Prog.prog _ _ A return option (prog A * state) with
    | Act f k => match f i false σ with Ok x σ' => Some (k x, σ') | _ => None end
    | Loop body s k => Some (bind (body s) (λ r, match r with inl s' => Loop body s' k | inr b => k b end), σ)
    | _ => None
    end.
  Fixpoint psteps {A} (n : nat) (i : nat) (p : prog A) (σ : state) : option (prog A * state) :=
    match n with
    | 0 => Some (p, σ)
    | S n => match pstep i p σ with Some (p', σ') => psteps n i p' σ' | None => None end
    end.
  (** Evaluation of a program by a thread that runs alone. *)
  Fixpoint run {A} (fuel : nat) (i : nat) (p : prog A) (σ : state) : option (A * state) :=
    match fuel with
    | 0 => None
    | S fuel =>
      match p in Prog.prog _ _ A return option (A * state) with
      | Ret a => Some (a, σ)
      | Act f k => match f i false σ with Ok x σ' => run fuel i (k x) σ' | _ => None end
      | Loop body s k =>
        match run fuel i (body s) σ with
        | Some (inl s', σ') => run fuel i (Loop body s' k) σ'
        | Some (inr b, σ') => run fuel i (k b) σ'
        | None => None
        end
      | Fail _ => None
      end
    end.

  Lemma psteps_add {A} n m i (p : prog A) σ : psteps (n + m) i p σ = match psteps n i p σ with Some (p', σ') => psteps m i p' σ' | None => None end.
  Proof. revert p σ. induction n as [|n IH]; intros p σ; cbn; [done|]. destruct (pstep i p σ) as [[p' σ']|]; [apply IH|done]. Qed.

  Lemma run_psteps {A} fuel i : ∀ (p : prog A) σ a σ', run fuel i p σ = Some (a, σ') →
    ∀ B (k : A → prog B), ∃ n, psteps n i (bind p k) σ = Some (k a, σ').
  Proof.
    revert A. induction fuel as [|fuel IH]; intros A p σ a σ' R B k; [done|].
    destruct p as [A a0|X A f k1|S' X A body s k1|A r]; cbn [run] in R; [injection R as -> ->; by exists 0| | |done].
    - destruct (f i false σ) as [x σ1| |] eqn:E; try done. destruct (IH _ _ _ _ _ R B k) as [n Hn]. exists (S n). cbn. by rewrite E.
    - destruct (run fuel i (body s) σ) as [[[s'|b] σ1]|] eqn:E; try done; destruct (IH _ _ _ _ _ R B k) as [n Hn];
        destruct (IH _ _ _ _ _ E _ (λ r, match r with inl s' => Loop body s' (λ x, bind (k1 x) k) | inr b => bind (k1 b) k end)) as [m Hm];
        exists (S (m + n)); cbn [bind psteps pstep]; rewrite psteps_add, Hm; exact Hn.
  Qed.
  (** A round of a loop takes at least one step. *)
  Lemma run_round {S' B A} fuel i (body : S' → prog (S' + B)) s s' σ σ' (k : B → prog A) : run fuel i (body s) σ = Some (inl s', σ') →
    ∃ n, psteps (S n) i (Loop body s k) σ = Some (Loop body s' k, σ').
  Proof.
    intros R. destruct (run_psteps _ _ _ _ _ _ R _ (λ r, match r with inl s' => Loop body s' k | inr b => k b end)) as [n Hn].
    exists n. exact Hn.
  Qed.

  (** ** Renumbering the tables: table [t ≥ b] of the first state is table [t + d] of the second. *)
  Context (b d : nat).
  Definition t_shift (tb : table) : table := t_set_next ((λ x, x + d) <$> t_next tb) tb.
  Record srel (σ σ2 : state) : Prop := {
    s_len : length (tables σ2) = length (tables σ) + d;
    s_b : b ≤ length (tables σ);
    s_tab : ∀ t, b ≤ t → tables σ2 !! (t + d) = t_shift <$> tables σ !! t;
    s_nge : ∀ t tb n, b ≤ t → tables σ !! t = Some tb → t_next tb = Some n → b ≤ n;
    s_root : root σ2 = (λ x, x + d) <$> root σ;
    s_rge : ∀ r, root σ = Some r → b ≤ r;
    s_heap : heap σ2 = heap σ;
    s_counts : counts σ2 = counts σ;
    s_freed : freed σ2 = freed σ;
    s_tokens : tokens σ2 = tokens σ;
    s_eent : ∀ p, REntry p ∈ retired_ever σ2 → REntry p ∈ retired_ever σ;
    s_etab : ∀ t, b ≤ t → RTable (t + d) ∈ retired_ever σ2 → RTable t ∈ retired_ever σ }.

  Definition RAct {X} (RX : X → X → Prop) (f f' : action X) : Prop := ∀ me σ σ2 x σ', srel σ σ2 → f me false σ = Ok x σ' →
    ∃ x2 σ2', f' me false σ2 = Ok x2 σ2' ∧ RX x x2 ∧ srel σ' σ2'.
  Definition rsum {X Y} (RX : X → X → Prop) (RY : Y → Y → Prop) (a a' : X + Y) : Prop :=
    match a, a' with inl x, inl x' => RX x x' | inr y, inr y' => RY y y' | _, _ => False end.
  Definition ropt {X} (RX : X → X → Prop) (a a' : option X) : Prop :=
    match a, a' with Some x, Some x' => RX x x' | None, None => True | _, _ => False end.

  (** Lockstep programs. *)
  Fixpoint PR {A} (p : prog A) : (A → A → Prop) → prog A → Prop :=
    match p in Prog.prog _ _ A return (A → A → Prop) → prog A → Prop with
    | Ret a => λ RA p', ∃ a', p' = Ret a' ∧ RA a a'
    | @Act _ _ X A f k => λ RA p', ∃ f' k' (RX : X → X → Prop), p' = Act f' k' ∧ RAct RX f f' ∧ ∀ x x', RX x x' → PR (k x) RA (k' x')
    | @Loop _ _ S' B A body s k => λ RA p', ∃ body' s' k' (RS : S' → S' → Prop) (RB : B → B → Prop), p' = Loop body' s' k' ∧ RS s s' ∧
        (∀ s s', RS s s' → PR (body s) (rsum RS RB) (body' s')) ∧ ∀ x x', RB x x' → PR (k x) RA (k' x')
    | Fail r => λ RA p', p' = Fail r
    end.

  Lemma PR_ret {A} (RA : A → A → Prop) a a' : RA a a' → PR (Ret a) RA (Ret a').
  Proof. intros H. by exists a'. Qed.
  Lemma PR_fail {A} (RA : A → A → Prop) r : PR (Fail r) RA (Fail r).
  Proof. done. Qed.
  Lemma PR_bind {A B} (p p' : prog A) (RX : A → A → Prop) (k k' : A → prog B) RB :
    PR p RX p' → (∀ x x', RX x x' → PR (k x) RB (k' x')) → PR (bind p k) RB (bind p' k').
  Proof.
    intros H Hk. revert p' RX k k' Hk H. induction p as [A a|X A f k1 IH|S' X A body IHb s k1 IH|A r]; cbn [PR bind]; intros p' RX k k' Hk H.
    - destruct H as (a' & -> & Ha). by apply Hk.
    - destruct H as (f' & k1' & RX' & -> & HR & H). exists f', (λ x, bind (k1' x) k'), RX'. split; [done|]. split; [done|]. intros x x' Hx. by eapply IH, H.
    - destruct H as (body' & s' & k1' & RS & RB' & -> & Hs & Hb & H). exists body', s', (λ x, bind (k1' x) k'), RS, RB'. split; [done|]. split; [done|]. split; [done|].
      intros x x' Hx. by eapply IH, H.
    - by subst p'.
  Qed.
  Lemma PR_act {X A} (RX : X → X → Prop) (f f' : action X) (k k' : X → prog A) RA : RAct RX f f' →
    (∀ x x', RX x x' → PR (k x) RA (k' x')) → PR (bind (act f) k) RA (bind (act f') k').
  Proof. intros H Hk. by exists f', k', RX. Qed.
  Lemma PR_act' {X} (RX : X → X → Prop) (f f' : action X) : RAct RX f f' → PR (act f) RX (act f').
  Proof. intros H. exists f', Ret, RX. split; [done|]. split; [done|]. intros x x' Hx. by apply PR_ret. Qed.
  Lemma PR_loop {S' B} (body body' : S' → prog (S' + B)) s s' (RS : S' → S' → Prop) (RB : B → B → Prop) : RS s s' → (∀ s s', RS s s' → PR (body s) (rsum RS RB) (body' s')) →
    PR (loop body s) RB (loop body' s').
  Proof. intros Hs Hb. exists body', s', Ret, RS, RB. split; [done|]. split; [done|]. split; [done|]. intros x x' Hx. by apply PR_ret. Qed.

  Lemma PR_step {A} i (p p2 : prog A) RA σ σ2 p' σ' : PR p RA p2 → srel σ σ2 → pstep i p σ = Some (p', σ') →
    ∃ p2' σ2', pstep i p2 σ2 = Some (p2', σ2') ∧ PR p' RA p2' ∧ srel σ' σ2'.
  Proof.
    intros H HS E. destruct p as [A a|X A f k1|S' X A body s k1|A r]; cbn [PR pstep] in *; try done.
    - destruct H as (f' & k1' & RX' & -> & HR & H). destruct (f i false σ) as [x σ1| |] eqn:Ef; try done. injection E as <- <-.
      destruct (HR _ _ _ _ _ HS Ef) as (x2 & σ2' & E2 & Hx & HS'). exists (k1' x2), σ2'. cbn. rewrite E2. split; [done|]. split; [by apply H|done].
    - destruct H as (body' & s' & k1' & RS & RB' & -> & Hs & Hb & H). injection E as <- <-. eexists _, σ2. split; [reflexivity|]. split; [|done].
      eapply PR_bind; [by apply Hb|]. intros [x|x] [x'|x'] Hx; try done; [|by apply H]. by exists body', x', k1', RS, RB'.
  Qed.
  Lemma PR_steps {A} n i (p p2 : prog A) RA σ σ2 : PR p RA p2 → srel σ σ2 → is_Some (psteps n i p σ) → is_Some (psteps n i p2 σ2).
  Proof.
    revert p p2 σ σ2. induction n as [|n IH]; intros p p2 σ σ2 H HS E; [done|]. cbn [psteps] in *. destruct (pstep i p σ) as [[p' σ']|] eqn:Ep; [|by destruct E].
    destruct (PR_step _ _ _ _ _ _ _ _ H HS Ep) as (p2' & σ2' & -> & H' & HS'). eapply IH; eauto.
  Qed.
  (** If a program, run alone, comes back to a renumbered copy of its starting point, it runs forever. *)
  Lemma forever {A} N i (p p2 : prog A) RA σ σ2 : psteps (S N) i p σ = Some (p2, σ2) → PR p RA p2 → srel σ σ2 → ∀ n, is_Some (psteps n i p σ).
  Proof.
    intros E H HS. induction n as [n IH] using lt_wf_ind. destruct (decide (n ≤ S N)) as [L|L].
    - replace (S N) with (n + (S N - n)) in E by lia. rewrite psteps_add in E. destruct (psteps n i p σ) as [[p' σ']|]; [done|done].
    - replace n with (S N + (n - S N)) by lia. rewrite psteps_add, E. eapply PR_steps; [exact H|exact HS|]. apply IH. lia.
  Qed.

  (** ** The actions *)
  Definition RT (tb tb2 : tref) : Prop := b ≤ th tb ∧ tb2 = TRef (th tb + d) (th_mask tb) (th_limit tb).

  Lemma s_wt {X} tb tb2 σ σ2 (f : table → outcome K V X) x σ' : srel σ σ2 → RT tb tb2 → with_table (th tb) σ f = Ok x σ' →
    ∃ t, tables σ !! th tb = Some t ∧ f t = Ok x σ' ∧ ∀ Y (g : table → outcome K V Y), with_table (th tb2) σ2 g = g (t_shift t).
  Proof.
    intros HS [L ->]. unfold with_table. destruct (tables σ !! th tb) as [t|] eqn:E; [|done]. destruct (t_freed t) eqn:F; [done|]. intros Ef. exists t. split; [done|]. split; [done|].
    intros Y g. cbn [th]. rewrite (s_tab _ _ HS _ L), E. cbn. by rewrite F.
  Qed.
  Lemma s_ws {X} tb tb2 j σ σ2 (f : table → slot → outcome K V X) x σ' : srel σ σ2 → RT tb tb2 → with_slot (th tb) j σ f = Ok x σ' →
    ∃ t s, tables σ !! th tb = Some t ∧ f t s = Ok x σ' ∧ ∀ Y (g : table → slot → outcome K V Y), with_slot (th tb2) j σ2 g = g (t_shift t) s.
  Proof.
    intros HS HT. unfold with_slot. intros (t & E & Ef & G)%(s_wt _ _ _ _ _ _ _ HS HT). destruct (t_slots t !! j) as [s|] eqn:Es; [|done].
    exists t, s. split; [done|]. split; [done|]. intros Y g. rewrite G. cbn. by rewrite Es.
  Qed.
  Lemma s_upd tb tb2 t t' σ σ2 : srel σ σ2 → RT tb tb2 → tables σ !! th tb = Some t → t_next t' = t_next t →
    srel (upd_table (th tb) t' σ) (upd_table (th tb2) (t_shift t') σ2).
  Proof.
    intros HS [L ->] E En. pose proof (lookup_lt_Some _ _ _ E) as Lt. pose proof (s_len _ _ HS) as Ll. split; cbn [th upd_table set_tables tables root heap counts freed tokens retired_ever]; try solve [destruct HS; assumption].
    - rewrite !insert_length. exact (s_len _ _ HS).
    - rewrite insert_length. exact (s_b _ _ HS).
    - intros x Lx. destruct (decide (x = th tb)) as [->|Nx]; [rewrite !list_lookup_insert by lia; done|].
      rewrite !list_lookup_insert_ne by lia. by apply (s_tab _ _ HS).
    - intros x tb' n Lx. destruct (decide (x = th tb)) as [->|Nx]; [rewrite list_lookup_insert by done; intros [= <-]; rewrite En; by eapply (s_nge _ _ HS)|].
      rewrite list_lookup_insert_ne by done. by eapply (s_nge _ _ HS).
  Qed.

  Ltac sr HS := split; cbn [upd_table set_tables set_root set_heap set_counts set_retired set_freed set_pins set_tokens tables root heap counts freed tokens retired_ever]; try solve [destruct HS; assumption].
  Ltac ra := let me := fresh "me" in let σ := fresh "σ" in let σ2 := fresh "σ2" in let x := fresh "x" in let σ' := fresh "σ'" in let E := fresh "E" in
    let HS := fresh "HS" in intros me σ σ2 x σ' HS E;
    cbv beta iota delta [a_load_meta a_store_meta a_load_ent a_store_ent a_fetch_or_copying a_cas_ent a_load_copied a_add_copied
      a_load_claim a_add_claim a_load_status a_store_status a_defer a_pk_announce a_pk_register a_pk_remove a_pk_contains
      a_pk_pending a_pk_take a_should_park a_try_lock a_lock a_unlock a_poison a_cas_pub] in *;
    match goal with
    | HT : RT ?tb ?tb2 |- _ => let t := fresh "t" in let s := fresh "s" in let Et := fresh "Et" in let G := fresh "G" in let Ef := fresh "Ef" in
       first [ destruct (s_ws _ _ _ _ _ _ _ _ HS HT E) as (t & s & Et & Ef & G) | destruct (s_wt _ _ _ _ _ _ _ HS HT E) as (t & Et & Ef & G) ]; rewrite G; clear G E;
       unfold exp_freed in *; rewrite ?(s_freed _ _ HS), ?(s_heap _ _ HS); cbv beta zeta in *; cbn [t_shift t_set_next t_lock t_parker] in *;
       repeat match type of Ef with
         | (if ?c then _ else _) = _ => destruct c; try discriminate Ef
         | match ?c with _ => _ end = _ => destruct c; try discriminate Ef
         end;
       injection Ef as <- <-; eexists _, _; split; [reflexivity|]; split; [reflexivity|];
       first [ exact HS | refine (s_upd tb tb2 t _ σ σ2 HS HT Et _); reflexivity
             | let HU := fresh in pose proof (s_upd tb tb2 t (t_set_slots (<[_ := _]>) t) σ σ2 HS HT Et eq_refl) as HU; sr HU; reflexivity ]
    end.

  Lemma r_load_meta tb tb2 j : RT tb tb2 → RAct eq (a_load_meta tb j) (a_load_meta tb2 j). Proof. intros HT. ra. Qed.
  Lemma r_store_meta tb tb2 j m : RT tb tb2 → RAct eq (a_store_meta tb j m) (a_store_meta tb2 j m). Proof. intros HT. ra. Qed.
  Lemma r_load_ent tb tb2 j : RT tb tb2 → RAct eq (a_load_ent tb j) (a_load_ent tb2 j). Proof. intros HT. ra. Qed.
  Lemma r_store_ent tb tb2 j e : RT tb tb2 → RAct eq (a_store_ent tb j e) (a_store_ent tb2 j e). Proof. intros HT. ra. Qed.
  Lemma r_for tb tb2 j : RT tb tb2 → RAct eq (a_fetch_or_copying tb j) (a_fetch_or_copying tb2 j). Proof. intros HT. ra. Qed.
  Lemma r_cas_ent w tb tb2 j e n : RT tb tb2 → RAct eq (a_cas_ent w tb j e n) (a_cas_ent w tb2 j e n).
  Proof.
    intros HT me σ σ2 x σ' HS E. unfold a_cas_ent in *. destruct (s_ws _ _ _ _ _ _ _ _ HS HT E) as (t & s & Et & Ef & G). rewrite G. clear G E.
    unfold exp_freed in *. rewrite (s_freed _ _ HS). destruct (match e_ptr e with Some _ => _ | None => _ end); [done|].
    destruct (decide _); injection Ef as <- <-; eexists _, _; (split; [reflexivity|]); (split; [reflexivity|]); [|done].
    by apply (s_upd tb tb2 t (t_set_slots (<[j := set_ent n s]>) t) σ σ2 HS HT Et).
  Qed.
  Lemma r_load_copied tb tb2 : RT tb tb2 → RAct eq (a_load_copied tb) (a_load_copied tb2). Proof. intros HT. ra. Qed.
  Lemma r_add_copied tb tb2 n : RT tb tb2 → RAct eq (a_add_copied tb n) (a_add_copied tb2 n). Proof. intros HT. ra. Qed.
  Lemma r_load_claim tb tb2 : RT tb tb2 → RAct eq (a_load_claim tb) (a_load_claim tb2). Proof. intros HT. ra. Qed.
  Lemma r_add_claim tb tb2 n : RT tb tb2 → RAct eq (a_add_claim tb n) (a_add_claim tb2 n). Proof. intros HT. ra. Qed.
  Lemma r_load_status tb tb2 : RT tb tb2 → RAct eq (a_load_status tb) (a_load_status tb2). Proof. intros HT. ra. Qed.
  Lemma r_store_status tb tb2 x : RT tb tb2 → RAct eq (a_store_status tb x) (a_store_status tb2 x). Proof. intros HT. ra. Qed.
  Lemma r_defer tb tb2 p : RT tb tb2 → RAct eq (a_defer tb p) (a_defer tb2 p). Proof. intros HT. ra. Qed.
  Lemma r_announce tb tb2 z : RT tb tb2 → RAct eq (a_pk_announce tb z) (a_pk_announce tb2 z). Proof. intros HT. ra. Qed.
  Lemma r_register tb tb2 k : RT tb tb2 → RAct eq (a_pk_register tb k) (a_pk_register tb2 k). Proof. intros HT. ra. Qed.
  Lemma r_remove tb tb2 k j : RT tb tb2 → RAct eq (a_pk_remove tb k j) (a_pk_remove tb2 k j). Proof. intros HT. ra. Qed.
  Lemma r_contains tb tb2 k j : RT tb tb2 → RAct eq (a_pk_contains tb k j) (a_pk_contains tb2 k j). Proof. intros HT. ra. Qed.
  Lemma r_pending tb tb2 : RT tb tb2 → RAct eq (a_pk_pending tb) (a_pk_pending tb2). Proof. intros HT. ra. Qed.
  Lemma r_take tb tb2 k : RT tb tb2 → RAct eq (a_pk_take tb k) (a_pk_take tb2 k). Proof. intros HT. ra. Qed.
  Lemma r_should tb tb2 k : RT tb tb2 → RAct eq (a_should_park tb k) (a_should_park tb2 k). Proof. intros HT. destruct k; ra. Qed.
  Lemma r_try_lock tb tb2 : RT tb tb2 → RAct eq (a_try_lock tb) (a_try_lock tb2).
  Proof.
    intros HT me σ σ2 x σ' HS E. unfold a_try_lock in *. destruct (s_wt _ _ _ _ _ _ _ HS HT E) as (t & Et & Ef & G). rewrite G. clear G E. cbn [t_shift t_set_next t_lock] in *.
    destruct (t_lock t); try discriminate Ef; injection Ef as <- <-; (eexists _, _; split; [reflexivity|]; split; [reflexivity|]); [|exact HS..].
    exact (s_upd tb tb2 t (t_set_lock (LHeld me) t) σ σ2 HS HT Et eq_refl).
  Qed.
  Lemma r_lock tb tb2 : RT tb tb2 → RAct eq (a_lock tb) (a_lock tb2).
  Proof.
    intros HT me σ σ2 x σ' HS E. unfold a_lock in *. destruct (s_wt _ _ _ _ _ _ _ HS HT E) as (t & Et & Ef & G). rewrite G. clear G E. cbn [t_shift t_set_next t_lock] in *.
    destruct (t_lock t); try discriminate Ef; injection Ef as <- <-; (eexists _, _; split; [reflexivity|]; split; [reflexivity|]); [|exact HS..].
    exact (s_upd tb tb2 t (t_set_lock (LHeld me) t) σ σ2 HS HT Et eq_refl).
  Qed.
  Lemma r_unlock tb tb2 : RT tb tb2 → RAct eq (a_unlock tb) (a_unlock tb2). Proof. intros HT. ra. Qed.
  Lemma r_poison tb tb2 : RT tb tb2 → RAct eq (a_poison tb) (a_poison tb2). Proof. intros HT. ra. Qed.
  Lemma r_cas_pub w tb tb2 j e kv : RT tb tb2 → RAct eq (a_cas_pub w tb j e kv) (a_cas_pub w tb2 j e kv).
  Proof.
    intros HT me σ σ2 x σ' HS E. unfold a_cas_pub in *. destruct (s_ws _ _ _ _ _ _ _ _ HS HT E) as (t & s & Et & Ef & G). rewrite G. clear G E.
    unfold exp_freed in *. rewrite (s_freed _ _ HS), (s_heap _ _ HS). destruct (match e_ptr e with Some _ => _ | None => _ end); [done|].
    destruct (decide _); injection Ef as <- <-; eexists _, _; (split; [reflexivity|]); (split; [reflexivity|]); [|done].
    pose proof (s_upd tb tb2 t (t_set_slots (<[j := set_ent (EW (Some (length (heap σ))) false false false) s]>) t) σ σ2 HS HT Et eq_refl) as HU. sr HU. reflexivity.
  Qed.
  Definition ro := ropt RT.
  Lemma h_shift t tb : b ≤ t → RT (handle t tb) (handle (t + d) (t_shift tb)).
  Proof. intros L. by split. Qed.
  Lemma s_wh σ σ2 t x σ' (k : tref → option tref) : srel σ σ2 → b ≤ t →
    with_table t σ (λ tb, Ok (k (handle t tb)) σ) = Ok x σ' → (∀ h h', RT h h' → ro (k h) (k h')) →
    ∃ x2, with_table (t + d) σ2 (λ tb, Ok (k (handle (t + d) tb)) σ2) = Ok x2 σ2 ∧ ro x x2 ∧ σ' = σ.
  Proof.
    intros HS L E Hk. unfold with_table in *. rewrite (s_tab _ _ HS _ L). destruct (tables σ !! t) as [tb|]; [|done]. cbn. destruct (t_freed tb); [done|].
    injection E as <- <-. eexists. split; [reflexivity|]. split; [|done]. apply Hk, h_shift, L.
  Qed.
  Lemma r_root : RAct ro a_root a_root.
  Proof.
    intros me σ σ2 x σ' HS E. unfold a_root in *. rewrite (s_root _ _ HS). destruct (root σ) as [r|] eqn:Er; cbn; [|injection E as <- <-; by exists None, σ2].
    destruct (s_wh _ _ _ _ _ Some HS (s_rge _ _ HS _ Er) E) as (x2 & E2 & Hx & ->); [by intros|]. by exists x2, σ2.
  Qed.
  Lemma r_root_raw : RAct (λ r r', r' = (λ x, x + d) <$> r) a_root_raw a_root_raw.
  Proof. intros me σ σ2 x σ' HS E. injection E as <- <-. eexists _, σ2. split; [reflexivity|]. split; [apply HS|done]. Qed.
  Lemma r_next tb tb2 : RT tb tb2 → RAct ro (a_next tb) (a_next tb2).
  Proof.
    intros HT me σ σ2 x σ' HS E. unfold a_next in *. destruct (s_wt _ _ _ _ _ _ _ HS HT E) as (t & Et & Ef & G). rewrite G. clear G E. cbn [t_shift t_set_next t_next].
    destruct (t_next t) as [n|] eqn:En; cbn [fmap option_fmap option_map]; [|injection Ef as <- <-; by exists None, σ2].
    destruct (s_wh _ _ _ _ _ Some HS (s_nge _ _ HS _ _ _ (proj1 HT) Et En) Ef) as (x2 & E2 & Hx & ->); [by intros|]. by exists x2, σ2.
  Qed.
  Lemma r_deref p : RAct eq (a_deref p) (a_deref p).
  Proof.
    intros me σ σ2 x σ' HS E. unfold a_deref in *. rewrite (s_freed _ _ HS), (s_heap _ _ HS). destruct (decide _); [done|]. destruct (heap σ !! p); [|done].
    injection E as <- <-. eexists _, σ2. by split.
  Qed.
  Lemma r_cas_root tb tb2 nx nx2 : RT tb tb2 → RT nx nx2 → RAct eq (a_cas_root tb nx) (a_cas_root tb2 nx2).
  Proof.
    intros [L1 ->] [L2 ->] me σ σ2 x σ' HS E. unfold a_cas_root in *. rewrite (s_root _ _ HS). cbn [th].
    destruct (decide (root σ = Some (th tb))) as [Er|Nr]; injection E as <- <-.
    - rewrite Er. cbn. rewrite decide_True by done. eexists _, _. split; [reflexivity|]. split; [done|]. sr HS; [done|]. by intros r [= <-].
    - rewrite decide_False; [by eexists _, _|]. intros E. apply Nr. destruct (root σ) as [r|]; [|done]. injection E as E. f_equal. lia.
  Qed.
  Lemma r_count z : RAct eq (a_count z) (a_count z).
  Proof. intros me σ σ2 x σ' HS E. unfold a_count, shard in *. injection E as <- <-. rewrite (s_counts _ _ HS). eexists _, _. split; [reflexivity|]. split; [done|]. by sr HS. Qed.
  Lemma r_shard j : RAct eq (a_load_shard j) (a_load_shard j).
  Proof. intros me σ σ2 x σ' HS E. unfold a_load_shard in *. injection E as <- <-. rewrite (s_counts _ _ HS). by eexists _, _. Qed.
  Lemma r_shards : RAct eq a_shards a_shards.
  Proof. intros me σ σ2 x σ' HS E. unfold a_shards in *. injection E as <- <-. rewrite (s_counts _ _ HS). by eexists _, _. Qed.
  Lemma r_park : RAct eq a_park a_park.
  Proof.
    intros me σ σ2 x σ' HS E. unfold a_park in *. rewrite (s_tokens _ _ HS). destruct (decide _); [|done]. injection E as <- <-. eexists _, _. split; [reflexivity|]. split; [done|]. by sr HS.
  Qed.
  Lemma r_unpark j : RAct eq (a_unpark j) (a_unpark j).
  Proof. intros me σ σ2 x σ' HS E. unfold a_unpark in *. injection E as <- <-. rewrite (s_tokens _ _ HS). eexists _, _. split; [reflexivity|]. split; [done|]. by sr HS. Qed.
  Lemma r_retire_e p : RAct eq (a_retire (REntry p)) (a_retire (REntry p)).
  Proof.
    intros me σ σ2 x σ' HS E. unfold a_retire, do_retire in *. destruct (decide _) as [|N]; [done|]. injection E as <- <-. rewrite decide_False by (intros H; by apply N, (s_eent _ _ HS)).
    eexists _, _. split; [reflexivity|]. split; [done|]. sr HS.
    - intros q [H|H]%elem_of_cons; [rewrite H; left|right; by apply (s_eent _ _ HS)].
    - intros t L [H|H]%elem_of_cons; [done|right; by apply (s_etab _ _ HS)].
  Qed.
  Lemma r_retire_t tb tb2 : RT tb tb2 → RAct eq (a_retire (RTable (th tb))) (a_retire (RTable (th tb2))).
  Proof.
    intros [L ->] me σ σ2 x σ' HS E. unfold a_retire, do_retire in *. destruct (decide _) as [|N]; [done|]. injection E as <- <-. cbn [th].
    rewrite decide_False by (intros H; by apply N, (s_etab _ _ HS)).
    eexists _, _. split; [reflexivity|]. split; [done|]. sr HS.
    - intros q [H|H]%elem_of_cons; [done|right; by apply (s_eent _ _ HS)].
    - intros t Lt [H|H]%elem_of_cons; [|right; by apply (s_etab _ _ HS)]. injection H as H. replace t with (th tb) by lia. left.
  Qed.
  Lemma r_publish tb tb2 len : RT tb tb2 → RAct RT (a_publish_next tb len) (a_publish_next tb2 len).
  Proof.
    intros HT me σ σ2 x σ' HS E. unfold a_publish_next in *. destruct (s_wt _ _ _ _ _ _ _ HS HT E) as (t & Et & Ef & G). rewrite G. clear G E.
    injection Ef as <- <-. pose proof (s_len _ _ HS) as Ll. pose proof (s_b _ _ HS) as Lb. pose proof (lookup_lt_Some _ _ _ Et) as Lt. rewrite Ll.
    eexists _, _. split; [reflexivity|]. split; [by apply (h_shift _ (new_table len PENDING))|]. destruct HT as [L ->]. cbn [th]. sr HS.
    - rewrite !app_length, !insert_length. cbn. lia.
    - rewrite app_length, insert_length. lia.
    - intros x Lx. destruct (decide (x < length (tables σ))) as [Lx'|Lx'].
      + rewrite !lookup_app_l by (rewrite insert_length; lia). destruct (decide (x = th tb)) as [->|Nx]; [by rewrite !list_lookup_insert by lia|].
        rewrite !list_lookup_insert_ne by lia. by apply (s_tab _ _ HS).
      + rewrite !lookup_app_r by (rewrite insert_length; lia). rewrite !insert_length, Ll. replace (x + d - (length (tables σ) + d)) with (x - length (tables σ)) by lia.
        destruct (x - length (tables σ)) as [|y]; cbn; done.
    - intros x tb' n Lx. destruct (decide (x < length (tables σ))) as [Lx'|Lx'].
      + rewrite lookup_app_l by (rewrite insert_length; lia). destruct (decide (x = th tb)) as [->|Nx]; [rewrite list_lookup_insert by lia; intros [= <-] [= <-]; done|].
        rewrite list_lookup_insert_ne by lia. by apply (s_nge _ _ HS).
      + rewrite lookup_app_r by (rewrite insert_length; lia). rewrite insert_length. destruct (x - length (tables σ)) as [|y]; cbn; [by intros [= <-]|done].
  Qed.

  (** ** The functions *)
  Context (cfg : config K).
  Notation wk := (λ _ _, True).

  Ltac rt := repeat match goal with H : ro ?x ?y |- _ => destruct x, y; cbn in H; try contradiction | H : rsum _ _ ?x ?y |- _ => destruct x, y; cbn in H; try contradiction end.
  Ltac ar := first [eapply r_load_meta|eapply r_store_meta|eapply r_load_ent|eapply r_store_ent|eapply r_for|eapply r_cas_ent|eapply r_load_copied|eapply r_add_copied
     |eapply r_load_claim|eapply r_add_claim|eapply r_load_status|eapply r_store_status|eapply r_defer|eapply r_announce|eapply r_register|eapply r_remove|eapply r_contains
     |eapply r_pending|eapply r_take|eapply r_should|eapply r_try_lock|eapply r_lock|eapply r_unlock|eapply r_poison|eapply r_cas_pub|eapply r_root|eapply r_root_raw
     |eapply r_next|eapply r_deref|eapply r_cas_root|eapply r_count|eapply r_shard|eapply r_shards|eapply r_park|eapply r_unpark|eapply r_retire_e|eapply r_retire_t|eapply r_publish]; eassumption.
  (** Steps through one program construct. *)
  Ltac st := first
    [ eapply PR_act; [ar|let x := fresh "x" in let x' := fresh "x" in let H := fresh "H" in intros x x' H; cbv beta in H; try subst x'; rt]
    | eapply PR_act'; ar
    | apply PR_fail
    | apply PR_ret; first [reflexivity|done|assumption]
    | case_match ].

  Lemma R_unpark_all l : PR (unpark_all l) eq (unpark_all l).
  Proof. induction l as [|j l IH]; cbn [unpark_all]; [by apply PR_ret|]. st. apply IH. Qed.
  Lemma R_unpark tb tb2 key : RT tb tb2 → PR (unpark tb key) eq (unpark tb2 key).
  Proof. intros HT. unfold unpark. repeat st. apply R_unpark_all. Qed.
  Lemma R_park tb tb2 key : RT tb tb2 → PR (park tb key) eq (park tb2 key).
  Proof.
    intros HT. unfold park. apply (PR_loop _ _ _ _ eq eq); [done|]. intros s s' <-. st. st. st. st; [repeat st|].
    eapply PR_bind; [apply (PR_loop _ _ _ _ eq eq); [done|]; intros ? ? <-; repeat st|]. intros ? ? <-. repeat st.
  Qed.
  Lemma R_sum n j acc : PR (sum_shards n j acc) eq (sum_shards n j acc).
  Proof. revert j acc. induction n as [|n IH]; intros j acc; cbn [sum_shards]; [by apply PR_ret|]. st. apply IH. Qed.
  Lemma R_len : PR map_len eq map_len.
  Proof. unfold map_len. st. eapply PR_bind; [apply R_sum|]. intros ? ? <-. by apply PR_ret. Qed.
  Lemma R_spin_next n tb tb2 : RT tb tb2 → PR (spin_next n tb) ro (spin_next n tb2).
  Proof. intros HT. induction n as [|n IH]; cbn [spin_next]; [by apply PR_ret|]. st; [by apply PR_ret|apply IH]. Qed.
  Lemma th_len_eq tb tb2 : RT tb tb2 → th_len tb2 = th_len tb. Proof. by intros [_ ->]. Qed.
  Lemma R_alloc_locked c tb tb2 : RT tb tb2 → PR (alloc_locked cfg c tb) RT (alloc_locked cfg c tb2).
  Proof.
    intros HT. unfold alloc_locked. st; [st; by apply PR_ret|]. eapply PR_bind; [apply R_len|]. intros n ? <-. rewrite (th_len_eq _ _ HT). cbv zeta.
    destruct (alloc_len _); [st; st; by apply PR_ret|repeat st].
  Qed.
  Lemma R_goan c tb tb2 : RT tb tb2 → PR (get_or_alloc_next cfg c tb) RT (get_or_alloc_next cfg c tb2).
  Proof.
    intros HT. unfold get_or_alloc_next. st; [by apply PR_ret|]. st. st; [by apply R_alloc_locked|]. eapply PR_bind; [by apply R_spin_next|]. intros ? ? Hx. rt; [by apply PR_ret|].
    st. st; [by apply R_alloc_locked|st].
  Qed.
  Lemma R_try_promote tb tb2 nx nx2 c : RT tb tb2 → RT nx nx2 → PR (try_promote tb nx c) eq (try_promote tb2 nx2 c).
  Proof.
    intros HT HN. unfold try_promote. rewrite (th_len_eq _ _ HT). eapply PR_bind with (RX := eq); [repeat st|]. intros ? ? <-. st; [|st].
    eapply PR_act; [apply r_root_raw|]. cbv beta. intros r r2 Hr.
    assert (bool_decide (r2 = Some (th tb2)) = bool_decide (r = Some (th tb))) as ->.
    { apply bool_decide_ext. destruct HT as [_ ->]. cbn. rewrite Hr. destruct r as [r|]; cbn; [|done]. split; intros [= E]; f_equal; lia. }
    st; [|st]. st. eapply PR_bind with (RX := eq); [repeat st|]. intros ? ? <-. eapply PR_bind; [by apply R_unpark|]. intros ? ? <-. st.
  Qed.
  Lemma mask_eq tb tb2 : RT tb tb2 → th_mask tb2 = th_mask tb. Proof. by intros [_ ->]. Qed.
  Lemma fuel_eq tb tb2 : RT tb tb2 → probe_fuel tb2 = probe_fuel tb. Proof. by intros [_ ->]. Qed.
  Lemma R_icp fuel tb tb2 e k i len : RT tb tb2 → PR (insert_copy_probe cfg fuel tb e k i len) eq (insert_copy_probe cfg fuel tb2 e k i len).
  Proof.
    intros HT. revert i len. induction fuel as [|f IH]; intros i len; cbn [insert_copy_probe]; [st|]. rewrite (mask_eq _ _ HT).
    st. st; [|apply IH]. st. case_match; [st; st|]. eapply PR_bind with (RX := eq); [repeat st|]. intros ? ? <-. st. eapply PR_bind with (RX := eq); [repeat st|]. intros ? ? <-. apply IH.
  Qed.
  Lemma R_insert_copy e p r tb tb2 : RT tb tb2 → PR (insert_copy cfg e p r tb) eq (insert_copy cfg e p r tb2).
  Proof.
    intros HT. unfold insert_copy. st. apply (PR_loop _ _ _ _ RT eq); [done|]. intros s s' Hs. rewrite (mask_eq _ _ Hs), (fuel_eq _ _ Hs).
    eapply PR_bind; [by apply R_icp|]. intros ? ? <-. st; [st|]. st; [st|]. eapply PR_bind; [by apply R_goan|]. intros ? ? Hn. by apply PR_ret.
  Qed.
  Lemma R_cab i tb tb2 nx nx2 : RT tb tb2 → RT nx nx2 → PR (copy_at_blocking cfg i tb nx) eq (copy_at_blocking cfg i tb2 nx2).
  Proof. intros HT HN. unfold copy_at_blocking. st. st; [st|]. case_match; [by apply R_insert_copy|repeat st]. Qed.
  Lemma R_cai i tb tb2 nx nx2 : RT tb tb2 → RT nx nx2 → PR (copy_at_incremental cfg i tb nx) eq (copy_at_incremental cfg i tb2 nx2).
  Proof.
    intros HT HN. unfold copy_at_incremental. st. st; [st|]. case_match; [|repeat st]. eapply PR_bind; [by apply R_insert_copy|]. intros ? ? <-. st; [|st]. st. by apply R_unpark.
  Qed.
  Lemma R_cci n i tb tb2 nx nx2 c : RT tb tb2 → RT nx nx2 → PR (copy_chunk_incremental cfg n i tb nx c) eq (copy_chunk_incremental cfg n i tb2 nx2 c).
  Proof.
    intros HT HN. revert i c. induction n as [|n IH]; intros i c; cbn [copy_chunk_incremental]; [st|]. rewrite (th_len_eq _ _ HT). st; [st|].
    eapply PR_bind; [by apply R_cai|]. intros ? ? <-. apply IH.
  Qed.
  Lemma R_ccb n i tb tb2 nx nx2 c : RT tb tb2 → RT nx nx2 → PR (copy_chunk_blocking cfg n i tb nx c) eq (copy_chunk_blocking cfg n i tb2 nx2 c).
  Proof.
    intros HT HN. revert i c. induction n as [|n IH]; intros i c; cbn [copy_chunk_blocking]; [st|]. rewrite (th_len_eq _ _ HT). st; [st|].
    eapply PR_bind; [by apply R_cab|]. intros ? ? <-. st; [apply IH|st].
  Qed.
  Lemma R_spin_status n tb tb2 : RT tb tb2 → PR (spin_status n tb) eq (spin_status n tb2).
  Proof. intros HT. induction n as [|n IH]; cbn [spin_status]; [st|]. st. st; [apply IH|st]. Qed.
  Lemma R_wait_status tb tb2 : RT tb tb2 → PR (wait_status cfg tb) eq (wait_status cfg tb2).
  Proof.
    intros HT. unfold wait_status. apply (PR_loop _ _ _ _ eq eq); [done|]. intros n ? <-. eapply PR_bind; [by apply R_spin_status|]. intros ? ? <-. case_match; [st|].
    st. st; [|st]. eapply PR_bind; [by apply R_park|]. intros ? ? <-. st.
  Qed.
  Lemma R_hci chunk bl : PR (help_copy_incremental cfg chunk bl) RT (help_copy_incremental cfg chunk bl).
  Proof.
    unfold help_copy_incremental. st; [|st]. st; [|by apply PR_ret]. match goal with H1 : RT ?a ?b, H2 : RT ?c ?d |- PR _ _ (loop _ _) => rename H1 into HA, H2 into HB, a into ta, b into tb, c into na, d into nb end.
    apply (PR_loop _ _ _ _ eq RT); [done|]. intros ? ? _. eapply PR_bind; [by apply R_try_promote|]. intros ? ? <-. st; [by apply PR_ret|].
    eapply PR_bind with (RX := eq).
    { apply (PR_loop _ _ _ _ eq eq); [done|]. intros ? ? _. rewrite (th_len_eq _ _ HA). st. st; [st|]. st. eapply PR_bind; [by apply R_cci|]. intros ? ? <-.
      eapply PR_bind; [by apply R_try_promote|]. intros ? ? <-. st; st. }
    intros ? ? <-. st; [by apply PR_ret|]. eapply PR_bind; [by apply R_wait_status|]. intros ? ? <-. st; by apply PR_ret.
  Qed.
  Lemma R_hcb tb tb2 : RT tb tb2 → PR (help_copy_blocking cfg tb) RT (help_copy_blocking cfg tb2).
  Proof.
    intros HT. unfold help_copy_blocking. st; [|st]. apply (PR_loop _ _ _ _ RT RT); [done|]. intros n n2 Hn. eapply PR_bind with (RX := RT).
    { apply (PR_loop _ _ _ _ RT RT); [done|]. intros m m2 Hm. st. st; [|by apply PR_ret]. eapply PR_bind; [by apply R_goan|]. intros ? ? ?. by apply PR_ret. }
    intros m m2 Hm. eapply PR_bind; [by apply R_try_promote|]. intros ? ? <-. st; [by apply PR_ret|]. rewrite (th_len_eq _ _ HT). cbv zeta.
    eapply PR_bind with (RX := ropt (rsum RT RT)).
    { apply (PR_loop _ _ _ _ eq (ropt (rsum RT RT))); [done|]. intros ? ? _. st. st; [by apply PR_ret|]. st. eapply PR_bind; [by apply R_ccb|]. intros ? ? <-. case_match.
      - eapply PR_bind; [by apply R_try_promote|]. intros ? ? <-. st; [by apply PR_ret|]. st. st; by apply PR_ret.
      - st. eapply PR_bind; [by apply R_goan|]. intros ? ? ?. eapply PR_bind; [by apply R_unpark|]. intros ? ? <-. by apply PR_ret. }
    intros [[r|r]|] [[r2|r2]|] Hr; try contradiction; cbn in Hr; [by apply PR_ret..|]. eapply PR_bind; [by apply R_wait_status|]. intros ? ? <-. st; by apply PR_ret.
  Qed.
  Lemma R_help_copy bl tb tb2 : RT tb tb2 → PR (help_copy cfg bl tb) RT (help_copy cfg bl tb2).
  Proof.
    intros HT. unfold help_copy. destruct (c_mode cfg); [|by apply R_hcb]. eapply PR_bind; [apply R_hci|]. intros ? ? Hn. st; [|by apply PR_ret]. st; [by apply PR_ret|st].
  Qed.
  Definition lin_body (tb : tref) : prog (tref + tref) :=
    bind (act (a_next tb)) (λ nx, match nx with None => Ret (inr tb) | Some _ => bind (help_copy cfg true tb) (λ tb', Ret (inl tb')) end).
  Lemma R_lin_body tb tb2 : RT tb tb2 → PR (lin_body tb) (rsum RT RT) (lin_body tb2).
  Proof. intros HT. unfold lin_body. st; [|by apply PR_ret]. eapply PR_bind; [by apply R_help_copy|]. intros ? ? Hn. by apply PR_ret. Qed.
  Lemma R_spin_copied n i tb tb2 : RT tb tb2 → PR (spin_copied n i tb) eq (spin_copied n i tb2).
  Proof. intros HT. induction n as [|n IH]; cbn [spin_copied]; [st|]. st. st; [st|apply IH]. Qed.
  Lemma R_wait_copied i tb tb2 : RT tb tb2 → PR (wait_copied cfg i tb) eq (wait_copied cfg i tb2).
  Proof. intros HT. unfold wait_copied. eapply PR_bind; [by apply R_spin_copied|]. intros ? ? <-. st; [st|by apply R_park]. Qed.
  Lemma th_eqb a a2 c c2 : RT a a2 → RT c c2 → (th a2 =? th c2) = (th a =? th c).
  Proof. intros [_ ->] [_ ->]. cbn. destruct (Nat.eqb_spec (th a) (th c)) as [->|N]; [apply Nat.eqb_refl|]. apply Nat.eqb_neq. lia. Qed.
  Lemma R_defer e tb tb2 : RT tb tb2 → PR (defer_retire cfg e tb) eq (defer_retire cfg e tb2).
  Proof.
    intros HT. unfold defer_retire. cbv zeta. destruct (c_mode cfg); [|apply PR_act', r_retire_e]. st; [apply PR_act', r_retire_e|]. st; [|st]. match goal with H : RT t ?x |- _ => rename x into t2, H into HR end. eapply PR_bind with (RX := eq).
    { apply (PR_loop _ _ _ _ RT eq); [done|]. intros c c2 Hc. rewrite (th_eqb _ _ _ _ Hc HR). st; [st|]. st; by apply PR_ret. }
    intros ? ? <-. st; [apply PR_act', r_retire_e|]. apply (PR_loop _ _ _ _ RT eq); [done|]. intros c c2 Hc. st; [|st]. match goal with H : RT ?x ?y |- PR (if th ?x =? _ then _ else _) _ _ => rewrite (th_eqb _ _ _ _ H HT) end.
    st; [st; st|by apply PR_ret].
  Qed.
  Lemma R_insert_at i m kv tb tb2 : RT tb tb2 → PR (insert_at cfg i m kv tb) eq (insert_at cfg i m kv tb2).
  Proof. intros HT. unfold insert_at. st. case_match; [st; st|]. eapply PR_bind with (RX := eq); [repeat st|]. intros ? ? <-. st. eapply PR_bind with (RX := eq); [repeat st|]. intros ? ? <-. st. Qed.
  Lemma R_update_at i e n tb tb2 : RT tb tb2 → PR (update_at cfg i e n tb) eq (update_at cfg i e n tb2).
  Proof.
    intros HT. unfold update_at. destruct n; (st; case_match; [|st]); (eapply PR_bind; [by apply R_defer|]; intros ? ? <-; st).
  Qed.
  Lemma R_insert_slow i e kv tb tb2 : RT tb tb2 → PR (insert_slow cfg i e kv tb) eq (insert_slow cfg i e kv tb2).
  Proof. intros HT. unfold insert_slow. apply (PR_loop _ _ _ _ eq eq); [done|]. intros ? ? <-. eapply PR_bind; [by apply R_update_at|]. intros ? ? <-. repeat st. Qed.
  Lemma R_pri c h tb tb2 : RT tb tb2 → PR (prepare_retry_insert cfg c h tb) RT (prepare_retry_insert cfg c h tb2).
  Proof.
    intros HT. unfold prepare_retry_insert. eapply PR_bind; [by apply R_goan|]. intros n n2 Hn. destruct (c_mode cfg); [|by apply R_help_copy].
    eapply PR_bind with (RX := RT); [destruct h; [by apply R_help_copy|by apply PR_ret]|]. intros ? ? ?. eapply PR_bind with (RX := eq); [destruct c; [by apply R_wait_copied|st]|].
    intros ? ? <-. by apply PR_ret.
  Qed.
  Lemma R_insert_probe fuel r tb tb2 kv i len : RT tb tb2 → PR (insert_probe cfg fuel r tb kv i len) eq (insert_probe cfg fuel r tb2 kv i len).
  Proof.
    intros HT. revert i len. induction fuel as [|f IH]; intros i len; cbn [insert_probe]; [st|]. rewrite (mask_eq _ _ HT).
    assert (FE : ∀ e, PR
      (bind (act (a_deref (key_of_ptr e))) (λ kv', if negb (bool_decide (kv'.1 = kv.1)) then insert_probe cfg f r tb kv (probe_next i (S len) (th_mask tb)) (S len) else
         if e_copying e then Ret (inr (Some i)) else if negb r then Ret (inl (RError (key_of_ptr e))) else
         bind (insert_slow cfg i e kv tb) (λ s, match s with
          | UReplaced old _ => Ret (inl (RReplaced (key_of_ptr old)))
          | UFound (SCopied _) => Ret (inr (Some i))
          | UFound SNull => insert_probe cfg f r tb kv (probe_next i (S len) (th_mask tb)) (S len)
          | UFound (SValue _) => Fail PUnreachable
          end))) eq
      (bind (act (a_deref (key_of_ptr e))) (λ kv', if negb (bool_decide (kv'.1 = kv.1)) then insert_probe cfg f r tb2 kv (probe_next i (S len) (th_mask tb)) (S len) else
         if e_copying e then Ret (inr (Some i)) else if negb r then Ret (inl (RError (key_of_ptr e))) else
         bind (insert_slow cfg i e kv tb2) (λ s, match s with
          | UReplaced old _ => Ret (inl (RReplaced (key_of_ptr old)))
          | UFound (SCopied _) => Ret (inr (Some i))
          | UFound SNull => insert_probe cfg f r tb2 kv (probe_next i (S len) (th_mask tb)) (S len)
          | UFound (SValue _) => Fail PUnreachable
          end)))).
    { intros e. st. st; [apply IH|]. st; [st|]. st; [st|]. eapply PR_bind; [by apply R_insert_slow|]. intros ? ? <-. repeat (st || apply IH). }
    eapply PR_act; [by apply r_load_meta|]. intros m ? <-. destruct (m =? EMPTY)%N; [|destruct (m =? _)%N; [|apply IH]].
    - eapply PR_bind; [by apply R_insert_at|]. intros [p|[]] ? <-; [st|apply IH|apply FE..].
    - eapply PR_act; [by apply r_load_ent|]. intros e ? <-. destruct (e_ptr e); [apply FE|apply IH].
  Qed.
  Definition ins_body (k : K) (v : V) (replace : bool) (st : tref * bool) : prog ((tref * bool) + iresult) :=
    let '(tb, help) := st in
    bind (insert_probe cfg (probe_fuel tb) replace tb (k, v) (probe_start (h1_of cfg k) (th_mask tb)) 0) (λ r,
        match r with
        | inl res => Ret (inr res)
        | inr copying => bind (prepare_retry_insert cfg copying help tb) (λ next, Ret (inl (next, false)))
        end).
  Definition RTB (x y : tref * bool) : Prop := RT x.1 y.1 ∧ x.2 = y.2.
  Lemma R_ins_body k v r x y : RTB x y → PR (ins_body k v r x) (rsum RTB eq) (ins_body k v r y).
  Proof.
    destruct x as [tb h], y as [tb2 h2]. intros [HT E]. cbn in HT, E. subst h2. unfold ins_body. rewrite (mask_eq _ _ HT), (fuel_eq _ _ HT).
    eapply PR_bind; [by apply R_insert_probe|]. intros ? ? <-. case_match; [by apply PR_ret|]. eapply PR_bind; [by apply R_pri|]. intros ? ? ?. by apply PR_ret.
  Qed.
End pr.
