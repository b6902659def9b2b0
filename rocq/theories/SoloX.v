(** Runs of one thread on its own that may escape: a total-correctness logic in which a run may also end by reaching a state with [E]
    (used with: "the map has at least [N] tables"). *)
From Verif Require Export SoloMain.

Section logic.
  Context {K V : Type} (me : nat) (E : state K V → Prop).
  Notation state := (state K V). Notation prog := (prog K V).

  (** [tmx p Q σ]: run alone from [σ] (weak CAS and park do not fail spuriously), [p] never blocks, and after finitely many steps it
      reaches a state with [E], or panics, or returns with [Q]. *)
  Fixpoint tmx {A} (p : prog A) : (A → state → Prop) → state → Prop :=
    match p in Prog.prog _ _ A return (A → state → Prop) → state → Prop with
    | Ret a => λ Q σ, Q a σ
    | Act f k => λ Q σ, match f me false σ with Ok x σ' => E σ' ∨ tmx (k x) Q σ' | Block => False | UB => True end
    | Loop body s k => λ Q σ, ∀ P : _ → state → Prop,
        (∀ s σ, tmx (body s) (λ r σ', match r with inl s' => P s' σ' | inr b => tmx (k b) Q σ' end) σ → P s σ) → P s σ
    | Fail r => λ _ _, True
    end.

  Lemma tmx_mono {A} (p : prog A) (Q Q' : A → state → Prop) σ : tmx p Q σ → (∀ a σ', Q a σ' → Q' a σ') → tmx p Q' σ.
  Proof.
    revert Q Q' σ. induction p as [A a|X A f k IH|S0 B A body IHb s k IHk|A r]; cbn; intros Q Q' σ H I; auto.
    - destruct (f me false σ); auto. destruct H as [H|H]; [by left|right]. eapply IH; eauto.
    - intros P HP. apply H. intros s' σ' H'. apply HP. eapply IHb; [exact H'|]. intros [s''|b] σ''; cbn; auto. intros Hk. eapply IHk; eauto.
  Qed.
  Lemma tmx_bind {A B} (p : prog A) (k : A → prog B) Q σ : tmx p (λ a σ', tmx (k a) Q σ') σ → tmx (bind p k) Q σ.
  Proof.
    revert k Q σ. induction p as [A a|X A f k1 IH|S0 C A body IHb s k1 IHk|A r]; cbn; intros k Q σ H; auto.
    - destruct (f me false σ); auto. destruct H as [H|H]; auto.
    - intros P HP. apply H. intros s' σ' H'. apply HP. eapply tmx_mono; [exact H'|]. intros [s''|b] σ''; cbn; auto.
  Qed.
  (** A program followed by another. *)
  Lemma tmx_seq {A B} (p : prog A) (k : A → prog B) (R : A → state → Prop) Q σ : tmx p R σ → (∀ a σ', R a σ' → tmx (k a) Q σ') → tmx (bind p k) Q σ.
  Proof. intros H1 H2. apply tmx_bind. eapply tmx_mono; [exact H1|exact H2]. Qed.
  Lemma tmx_ret {A} (a : A) (Q : A → state → Prop) σ : Q a σ → tmx (Ret a) Q σ.
  Proof. done. Qed.
  Lemma tmx_loop1 {S0 B} (body : S0 → prog (S0 + B)) s (Q : B → state → Prop) σ :
    tmx (body s) (λ r σ', match r with inl s' => tmx (loop body s') Q σ' | inr b => Q b σ' end) σ → tmx (loop body s) Q σ.
  Proof. intros H P HP. apply HP. eapply tmx_mono; [exact H|]. intros [s'|b] σ' H'; [|done]. by apply H'. Qed.
  (** One action. *)
  Lemma tmx_act {A B} (f : action K V A) (φ : A → state → Prop) (k : A → prog B) Q σ :
    match f me false σ with Ok x σ' => E σ' ∨ φ x σ' | Block => False | UB => True end →
    (∀ x σ', φ x σ' → tmx (k x) Q σ') → tmx (bind (act f) k) Q σ.
  Proof. intros H Hk. cbn. destruct (f me false σ) as [x σ'| |]; [|done|done]. destruct H as [H|H]; auto. Qed.
  Lemma tmx_acte {A} (f : action K V A) (Q : A → state → Prop) σ :
    match f me false σ with Ok x σ' => E σ' ∨ Q x σ' | Block => False | UB => True end → tmx (act f) Q σ.
  Proof. done. Qed.
  (** A run that ends without escaping. *)
  Lemma tm_tmx {A} (p : prog A) (Q : A → state → Prop) σ : tm me p Q σ → tmx p Q σ.
  Proof.
    revert Q σ. induction p as [A a|X A f k IH|S0 B A body IHb s k IHk|A r]; cbn; intros Q σ H; auto.
    - destruct (f me false σ); auto.
    - intros P HP. apply H. intros s' σ' H'. apply HP. apply IHb. eapply tm_mono; [exact H'|]. intros [s''|b] σ''; cbn; auto.
  Qed.

  (** ** Frames: what no action of a program changes. *)
  Fixpoint acts_in {A} (R : state → state → Prop) (p : prog A) : Prop :=
    match p with
    | Ret _ => True
    | Act f k => (∀ σ x σ', f me false σ = Ok x σ' → R σ σ') ∧ ∀ x, acts_in R (k x)
    | Loop body s k => (∀ s, acts_in R (body s)) ∧ ∀ b, acts_in R (k b)
    | Fail _ => True
    end.
  Lemma tm_frame {A} (R : state → state → Prop) (HR : ∀ a b c, R a b → R b c → R a c) (p : prog A) :
    acts_in R p → ∀ (Q : A → state → Prop) σ σ0, (σ0 = σ ∨ R σ0 σ) → tm me p Q σ → tm me p (λ a σ', Q a σ' ∧ (σ0 = σ' ∨ R σ0 σ')) σ.
  Proof.
    induction p as [A a|X A f k IH|S0 B A body IHb s k IHk|A r]; cbn; intros Ha Q σ σ0 H0 H; auto.
    - destruct Ha as [Hf Hk]. destruct (f me false σ) as [x σ'| |] eqn:Ef; [|done|done]. apply IH; auto. right. destruct H0 as [->|H0]; eauto.
    - destruct Ha as [Hb Hk]. intros P HP.
      apply (H (λ s σ, (σ0 = σ ∨ R σ0 σ) → P s σ)); [|done]. clear s σ H0 H. intros s σ H H0. apply HP.
      pose proof (IHb s (Hb s) _ _ _ H0 H) as H'. eapply tm_mono; [exact H'|]. intros [s'|b] σ' [G1 G2]; [by apply G1|]. by apply IHk.
  Qed.
  Lemma acts_bind {A B} R (p : prog A) (k : A → prog B) : acts_in R p → (∀ a, acts_in R (k a)) → acts_in R (bind p k).
  Proof.
    revert k. induction p as [A a|X A f k1 IH|S0 C A body IHb s k1 IHk|A r]; cbn; intros k H1 H2; auto.
    - destruct H1. split; auto.
    - destruct H1. split; auto.
  Qed.
End logic.

(** Adequacy. *)
Section adq.
  Context {K V : Type} {Keq : EqDecision K} (cfg : config K) (tid : nat) (E : state K V → Prop).

  (** Thread [tid], scheduled alone, ends its call or reaches [E]. *)
  Definition endsx (id : nat) (o : op K V) (c : mconf K V) : Prop :=
    ∃ n, ∀ c', exec cfg c (replicate n (CRun tid false)) = Some c' → ended tid id o c' ∨ E (mc_st c').
  Definition runsx (id : nat) (o : op K V) (its : list iterst) (p : prog K V (pres K V)) (σ : state K V) : Prop :=
    ∀ c : mconf K V, mc_st c = σ → mc_thr c !! tid = Some (TState (Some (id, o, p)) its false) → endsx id o c.

  Lemma endsx_step id o (c : mconf K V) : match mstep cfg c (CRun tid false) with SStep c1 => endsx id o c1 | SSkip => False | SUB => True end → endsx id o c.
  Proof.
    destruct (mstep cfg c (CRun tid false)) as [c1| |] eqn:X; [|done|].
    - intros [n H]. exists (S n). intros c'. cbn [replicate exec]. rewrite X. apply H.
    - intros _. exists 1. cbn [replicate exec]. by rewrite X.
  Qed.
  Lemma runsx_ret id o its a σ : runsx id o its (Ret a) σ.
  Proof.
    intros c <- Et. apply endsx_step. unfold mstep. rewrite Et. destruct (to_vals o (mc_st c) a) as [v|]; cbn; [|done].
    exists 0. intros c' [= <-]. left. left. exists a, v. cbn. by rewrite last_snoc.
  Qed.
  Lemma runsx_fail id o its why σ : runsx id o its (Fail why) σ.
  Proof.
    intros c <- Et. apply endsx_step. unfold mstep. rewrite Et. cbn.
    exists 0. intros c' [= <-]. left. right. exists why. cbn. by rewrite last_snoc.
  Qed.
  Lemma runsx_act id o its X (f : action K V X) k σ :
    match f tid false σ with Ok x σ' => E σ' ∨ runsx id o its (k x) σ' | Block => False | UB => True end → runsx id o its (Act f k) σ.
  Proof.
    intros H c <- Et. apply endsx_step. unfold mstep. rewrite Et. destruct (f tid false (mc_st c)) as [x σ'| |]; [|done|done].
    destruct H as [H|H].
    - exists 0. intros c' [= <-]. by right.
    - apply H; [done|]. cbn. apply list_lookup_insert. by eapply lookup_lt_Some.
  Qed.
  Lemma runsx_loop id o its S0 B (body : S0 → prog K V (S0 + B)) s k σ :
    runsx id o its (bind (body s) (λ r, match r with inl s' => Loop body s' k | inr b => k b end)) σ → runsx id o its (Loop body s k) σ.
  Proof.
    intros H c <- Et. apply endsx_step. unfold mstep. rewrite Et. apply H; [done|]. cbn. apply list_lookup_insert. by eapply lookup_lt_Some.
  Qed.
  Lemma tmx_runsx id o its A (p : prog K V A) : ∀ (k : A → prog K V (pres K V)) σ,
    tmx tid E p (λ a σ', runsx id o its (k a) σ') σ → runsx id o its (bind p k) σ.
  Proof.
    induction p as [A a|X A f k1 IH|S0 C A body IHb s k1 IHk|A r]; cbn [tmx bind]; intros k σ H.
    - done.
    - apply runsx_act. destruct (f tid false σ); auto. destruct H as [H|H]; auto.
    - apply (H (λ s σ, runsx id o its (Loop body s (λ x, bind (k1 x) k)) σ)). clear s σ H. intros s σ H.
      apply runsx_loop, IHb. eapply tmx_mono; [exact H|]. intros [s'|b] σ'; auto.
    - apply runsx_fail.
  Qed.
  Lemma call_endsx (c : mconf K V) o its :
    (∀ s, exec cfg c s ≠ None) →
    mc_thr c !! tid = Some (ts_idle its) → tid ∈ pins (mc_st c) →
    runsx (mc_nop c) o its (op_prog cfg o its) (mc_st c) →
    ∃ n c', exec cfg c (CInvoke tid o :: replicate n (CRun tid false)) = Some c' ∧ (ended tid (mc_nop c) o c' ∨ E (mc_st c')).
  Proof.
    intros NU Et Hp R.
    assert (X : mstep cfg c (CInvoke tid o) = SStep (MConf (mc_st c) (set_thr tid (TState (Some (mc_nop c, o, op_prog cfg o its)) its false) (mc_thr c))
                   (mc_hist c ++ [HInv tid (mc_nop c) o]) (S (mc_nop c)))).
    { unfold mstep. rewrite Et. cbn [ts_idle]. by rewrite decide_True. }
    destruct (R (MConf (mc_st c) (set_thr tid (TState (Some (mc_nop c, o, op_prog cfg o its)) its false) (mc_thr c))
                   (mc_hist c ++ [HInv tid (mc_nop c) o]) (S (mc_nop c)))) as [n H]; [done| |].
    { cbn. apply list_lookup_insert. by eapply lookup_lt_Some. }
    exists n. destruct (exec cfg c (CInvoke tid o :: replicate n (CRun tid false))) as [c'|] eqn:Y; [|by destruct (NU _ Y)].
    exists c'. split; [done|]. apply H. cbn [exec] in Y. by rewrite X in Y.
  Qed.
End adq.
