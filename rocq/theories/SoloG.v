(** Runs of one thread on its own from a reachable configuration, which may escape: like SoloX, and after each step the reached
    state may be assumed to satisfy [G] (used with a property of all reachable states). *)
From Verif Require Export SoloX.

Section logic.
  Context {K V : Type} (me : nat) (G E : state K V → Prop).
  Notation state := (state K V). Notation prog := (prog K V).

  Fixpoint tmg {A} (p : prog A) : (A → state → Prop) → state → Prop :=
    match p in Prog.prog _ _ A return (A → state → Prop) → state → Prop with
    | Ret a => λ Q σ, Q a σ
    | Act f k => λ Q σ, match f me false σ with Ok x σ' => G σ' → E σ' ∨ tmg (k x) Q σ' | Block => False | UB => True end
    | Loop body s k => λ Q σ, ∀ P : _ → state → Prop,
        (∀ s σ, tmg (body s) (λ r σ', match r with inl s' => P s' σ' | inr b => tmg (k b) Q σ' end) σ → P s σ) → P s σ
    | Fail r => λ _ _, True
    end.

  Lemma tmg_mono {A} (p : prog A) (Q Q' : A → state → Prop) σ : tmg p Q σ → (∀ a σ', Q a σ' → Q' a σ') → tmg p Q' σ.
  Proof.
    revert Q Q' σ. induction p as [A a|X A f k IH|S0 B A body IHb s k IHk|A r]; cbn; intros Q Q' σ H I; auto.
    - destruct (f me false σ); auto. intros Hg. destruct (H Hg) as [H'|H']; [by left|right]. eapply IH; eauto.
    - intros P HP. apply H. intros s' σ' H'. apply HP. eapply IHb; [exact H'|]. intros [s''|b] σ''; cbn; auto. intros Hk. eapply IHk; eauto.
  Qed.
  Lemma tmg_bind {A B} (p : prog A) (k : A → prog B) Q σ : tmg p (λ a σ', tmg (k a) Q σ') σ → tmg (bind p k) Q σ.
  Proof.
    revert k Q σ. induction p as [A a|X A f k1 IH|S0 C A body IHb s k1 IHk|A r]; cbn; intros k Q σ H; auto.
    - destruct (f me false σ); auto. intros Hg. destruct (H Hg) as [H'|H']; auto.
    - intros P HP. apply H. intros s' σ' H'. apply HP. eapply tmg_mono; [exact H'|]. intros [s''|b] σ''; cbn; auto.
  Qed.
  Lemma tmg_seq {A B} (p : prog A) (k : A → prog B) (R : A → state → Prop) Q σ : tmg p R σ → (∀ a σ', R a σ' → tmg (k a) Q σ') → tmg (bind p k) Q σ.
  Proof. intros H1 H2. apply tmg_bind. eapply tmg_mono; [exact H1|exact H2]. Qed.
  Lemma tmg_ret {A} (a : A) (Q : A → state → Prop) σ : Q a σ → tmg (Ret a) Q σ.
  Proof. done. Qed.
  Lemma tmg_loop1 {S0 B} (body : S0 → prog (S0 + B)) s (Q : B → state → Prop) σ :
    tmg (body s) (λ r σ', match r with inl s' => tmg (loop body s') Q σ' | inr b => Q b σ' end) σ → tmg (loop body s) Q σ.
  Proof. intros H P HP. apply HP. eapply tmg_mono; [exact H|]. intros [s'|b] σ' H'; [|done]. by apply H'. Qed.
  (** One action. *)
  Lemma tmg_act {A B} (f : action K V A) (k : A → prog B) Q σ : f me false σ ≠ Block →
    (∀ x σ', f me false σ = Ok x σ' → G σ' → E σ' ∨ tmg (k x) Q σ') → tmg (bind (act f) k) Q σ.
  Proof. intros N H. cbn. destruct (f me false σ) as [x σ'| |]; [|done|done]. by apply H. Qed.
  Lemma tmg_acte {A} (f : action K V A) (Q : A → state → Prop) σ : f me false σ ≠ Block →
    (∀ x σ', f me false σ = Ok x σ' → G σ' → E σ' ∨ Q x σ') → tmg (act f) Q σ.
  Proof. intros N H. cbn. destruct (f me false σ) as [x σ'| |]; [|done|done]. by apply H. Qed.
  (** A run that ends without escaping. *)
  Lemma tm_tmg {A} (p : prog A) (Q : A → state → Prop) σ : tm me p Q σ → tmg p Q σ.
  Proof.
    revert Q σ. induction p as [A a|X A f k IH|S0 B A body IHb s k IHk|A r]; cbn; intros Q σ H; auto.
    - destruct (f me false σ); auto.
    - intros P HP. apply H. intros s' σ' H'. apply HP. apply IHb. eapply tm_mono; [exact H'|]. intros [s''|b] σ''; cbn; auto.
  Qed.
  (** [G] holds at the end. *)
  Lemma tmg_G {A} (p : prog A) (Q : A → state → Prop) σ : tmg p Q σ → G σ → tmg p (λ a σ', Q a σ' ∧ G σ') σ.
  Proof.
    revert Q σ. induction p as [A a|X A f k IH|S0 B A body IHb s k IHk|A r]; cbn; intros Q σ H Hg; auto.
    - destruct (f me false σ); auto. intros Hg'. destruct (H Hg') as [H'|H']; auto.
    - intros P HP. apply (H (λ s σ, G σ → P s σ)); [|done]. clear s σ H Hg. intros s σ H Hg. apply HP.
      eapply tmg_mono; [by apply IHb|]. intros [s'|b] σ' [H' Hg']; auto.
  Qed.
  Lemma tm_tmg_seq {A B} (p : prog A) (k : A → prog B) (R : A → state → Prop) Q σ : tm me p R σ → G σ → (∀ a σ', R a σ' → G σ' → tmg (k a) Q σ') → tmg (bind p k) Q σ.
  Proof. intros H1 Hg H2. eapply tmg_seq; [apply tmg_G; [by apply tm_tmg|done]|]. intros a σ' []. auto. Qed.

  (** ** Values returned by a program, whatever its actions answer. *)
  Fixpoint vp {A} (P : A → Prop) (p : prog A) : Prop :=
    match p in Prog.prog _ _ A return (A → Prop) → Prop with
    | Ret a => λ P, P a
    | Act f k => λ P, ∀ x, vp P (k x)
    | Loop body s k => λ P, ∀ b, vp P (k b)
    | Fail r => λ _, True
    end P.
  Lemma vp_bind {A B} (P : B → Prop) (p : prog A) (k : A → prog B) : (∀ a, vp P (k a)) → vp P (bind p k).
  Proof. intros H. induction p as [A a|X A f k1 IH|S0 C A body IHb s k1 IHk|A r]; cbn; auto. Qed.
  Lemma tm_vp {A} (P : A → Prop) (p : prog A) (Q : A → state → Prop) σ : vp P p → tm me p Q σ → tm me p (λ a σ', Q a σ' ∧ P a) σ.
  Proof.
    revert Q σ. induction p as [A a|X A f k IH|S0 B A body IHb s k IHk|A r]; cbn; intros Q σ Hv H; auto.
    - destruct (f me false σ); auto.
    - intros P' HP. apply H. intros s' σ' H'. apply HP. eapply tm_mono; [exact H'|]. intros [s''|b] σ''; cbn; auto.
  Qed.
End logic.

(** Adequacy. *)
Section adq.
  Context {K V : Type} {Keq : EqDecision K} (cfg : config K) (tid : nat) (G E : state K V → Prop).

  Definition endsg (id : nat) (o : op K V) (c : mconf K V) : Prop :=
    (∀ s c', exec cfg c s = Some c' → G (mc_st c')) →
    ∃ n, ∀ c', exec cfg c (replicate n (CRun tid false)) = Some c' → ended tid id o c' ∨ E (mc_st c').
  Definition runsg (id : nat) (o : op K V) (its : list iterst) (p : prog K V (pres K V)) (σ : state K V) : Prop :=
    ∀ c : mconf K V, mc_st c = σ → mc_thr c !! tid = Some (TState (Some (id, o, p)) its false) → endsg id o c.

  Lemma endsg_step id o (c : mconf K V) : match mstep cfg c (CRun tid false) with SStep c1 => G (mc_st c1) → endsg id o c1 | SSkip => False | SUB => True end → endsg id o c.
  Proof.
    destruct (mstep cfg c (CRun tid false)) as [c1| |] eqn:X; [|done|].
    - intros H HG. assert (Y : ∀ s, exec cfg c (CRun tid false :: s) = exec cfg c1 s) by (intros s; cbn [exec]; by rewrite X).
      destruct H as [n H]; [apply (HG [CRun tid false] c1); by rewrite Y|intros s c' Es; apply (HG (CRun tid false :: s)); by rewrite Y|].
      exists (S n). intros c'. cbn [replicate]. rewrite Y. apply H.
    - intros _ _. exists 1. cbn [replicate exec]. by rewrite X.
  Qed.
  Lemma runsg_ret id o its a σ : runsg id o its (Ret a) σ.
  Proof.
    intros c <- Et. apply endsg_step. unfold mstep. rewrite Et. destruct (to_vals o (mc_st c) a) as [v|]; cbn; [|done].
    intros _ _. exists 0. intros c' [= <-]. left. left. exists a, v. cbn. by rewrite last_snoc.
  Qed.
  Lemma runsg_fail id o its why σ : runsg id o its (Fail why) σ.
  Proof.
    intros c <- Et. apply endsg_step. unfold mstep. rewrite Et. cbn.
    intros _ _. exists 0. intros c' [= <-]. left. right. exists why. cbn. by rewrite last_snoc.
  Qed.
  Lemma runsg_act id o its X (f : action K V X) k σ :
    match f tid false σ with Ok x σ' => G σ' → E σ' ∨ runsg id o its (k x) σ' | Block => False | UB => True end → runsg id o its (Act f k) σ.
  Proof.
    intros H c <- Et. apply endsg_step. unfold mstep. rewrite Et. destruct (f tid false (mc_st c)) as [x σ'| |]; [|done|done].
    cbn. intros Hg. destruct (H Hg) as [H'|H'].
    - intros _. exists 0. intros c' [= <-]. by right.
    - apply H'; [done|]. cbn. apply list_lookup_insert. by eapply lookup_lt_Some.
  Qed.
  Lemma runsg_loop id o its S0 B (body : S0 → prog K V (S0 + B)) s k σ :
    runsg id o its (bind (body s) (λ r, match r with inl s' => Loop body s' k | inr b => k b end)) σ → runsg id o its (Loop body s k) σ.
  Proof.
    intros H c <- Et. apply endsg_step. unfold mstep. rewrite Et. intros _. apply H; [done|]. cbn. apply list_lookup_insert. by eapply lookup_lt_Some.
  Qed.
  Lemma tmg_runsg id o its A (p : prog K V A) : ∀ (k : A → prog K V (pres K V)) σ,
    tmg tid G E p (λ a σ', runsg id o its (k a) σ') σ → runsg id o its (bind p k) σ.
  Proof.
    induction p as [A a|X A f k1 IH|S0 C A body IHb s k1 IHk|A r]; cbn [tmg bind]; intros k σ H.
    - done.
    - apply runsg_act. destruct (f tid false σ); auto. intros Hg. destruct (H Hg) as [H'|H']; auto.
    - apply (H (λ s σ, runsg id o its (Loop body s (λ x, bind (k1 x) k)) σ)). clear s σ H. intros s σ H.
      apply runsg_loop, IHb. eapply tmg_mono; [exact H|]. intros [s'|b] σ'; auto.
    - apply runsg_fail.
  Qed.
  Lemma call_endsg (c : mconf K V) o its :
    (∀ s, exec cfg c s ≠ None) → (∀ s c', exec cfg c s = Some c' → G (mc_st c')) →
    mc_thr c !! tid = Some (ts_idle its) → tid ∈ pins (mc_st c) →
    runsg (mc_nop c) o its (op_prog cfg o its) (mc_st c) →
    ∃ n c', exec cfg c (CInvoke tid o :: replicate n (CRun tid false)) = Some c' ∧ (ended tid (mc_nop c) o c' ∨ E (mc_st c')).
  Proof.
    intros NU HG Et Hp R.
    set (c1 := MConf (mc_st c) (set_thr tid (TState (Some (mc_nop c, o, op_prog cfg o its)) its false) (mc_thr c))
                   (mc_hist c ++ [HInv tid (mc_nop c) o]) (S (mc_nop c))).
    assert (X : mstep cfg c (CInvoke tid o) = SStep c1).
    { unfold mstep. rewrite Et. cbn [ts_idle]. by rewrite decide_True. }
    assert (Y : ∀ s, exec cfg c (CInvoke tid o :: s) = exec cfg c1 s) by (intros s; cbn [exec]; by rewrite X).
    destruct (R c1) as [n H]; [done| | |].
    { cbn. apply list_lookup_insert. by eapply lookup_lt_Some. }
    { intros s c' Es. apply (HG (CInvoke tid o :: s)). by rewrite Y. }
    exists n. destruct (exec cfg c (CInvoke tid o :: replicate n (CRun tid false))) as [c'|] eqn:Z; [|by destruct (NU _ Z)].
    exists c'. split; [done|]. apply H. by rewrite Y in Z.
  Qed.
End adq.
