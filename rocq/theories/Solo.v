(** Runs of one thread on its own: a total-correctness logic for programs without interference (a panic counts as the end of
    a call). *)
From Verif Require Export Marks4.

Section logic.
  Context {K V : Type} (me : nat).
  Notation state := (state K V). Notation prog := (prog K V).

  (** [tm p Q σ]: run alone from [σ] (weak CAS and park do not fail spuriously), [p] ends after finitely many steps, with [Q] if it
      returns.  The loop case is the least fixed point of the loop body. *)
  Fixpoint tm {A} (p : prog A) : (A → state → Prop) → state → Prop :=
    match p in Prog.prog _ _ A return (A → state → Prop) → state → Prop with
    | Ret a => λ Q σ, Q a σ
    | Act f k => λ Q σ, match f me false σ with Ok x σ' => tm (k x) Q σ' | Block => False | UB => True end
    | Loop body s k => λ Q σ, ∀ P : _ → state → Prop,
        (∀ s σ, tm (body s) (λ r σ', match r with inl s' => P s' σ' | inr b => tm (k b) Q σ' end) σ → P s σ) → P s σ
    | Fail r => λ _ _, True
    end.

  Lemma tm_mono {A} (p : prog A) (Q Q' : A → state → Prop) σ : tm p Q σ → (∀ a σ', Q a σ' → Q' a σ') → tm p Q' σ.
  Proof.
    revert Q Q' σ. induction p as [A a|X A f k IH|S0 B A body IHb s k IHk|A r]; cbn; intros Q Q' σ H I; auto.
    - destruct (f me false σ); auto. eapply IH; eauto.
    - intros P HP. apply H. intros s' σ' H'. apply HP. eapply IHb; [exact H'|]. intros [s''|b] σ''; cbn; auto. intros Hk. eapply IHk; eauto.
  Qed.
  Lemma tm_bind {A B} (p : prog A) (k : A → prog B) Q σ : tm p (λ a σ', tm (k a) Q σ') σ → tm (bind p k) Q σ.
  Proof.
    revert k Q σ. induction p as [A a|X A f k1 IH|S0 C A body IHb s k1 IHk|A r]; cbn; intros k Q σ H; auto.
    - destruct (f me false σ); auto.
    - intros P HP. apply H. intros s' σ' H'. apply HP. eapply tm_mono; [exact H'|]. intros [s''|b] σ''; cbn; auto.
  Qed.
  Lemma tm_act {A} (f : action K V A) (Q : A → state → Prop) σ :
    match f me false σ with Ok x σ' => Q x σ' | Block => False | UB => True end → tm (act f) Q σ.
  Proof. done. Qed.
  Lemma tm_ret {A} (a : A) (Q : A → state → Prop) σ : Q a σ → tm (Ret a) Q σ.
  Proof. done. Qed.
  (** One iteration of a loop. *)
  Lemma tm_loop1 {S0 B} (body : S0 → prog (S0 + B)) s (Q : B → state → Prop) σ :
    tm (body s) (λ r σ', match r with inl s' => tm (loop body s') Q σ' | inr b => Q b σ' end) σ → tm (loop body s) Q σ.
  Proof.
    intros H P HP. apply HP. eapply tm_mono; [exact H|]. intros [s'|b] σ' H'; [|done]. by apply H'.
  Qed.
End logic.

(** Adequacy: a thread that runs a terminating program ends its call. *)
Section adq.
  Context {K V : Type} {Keq : EqDecision K} (cfg : config K) (tid : nat).

  (** The configurations that thread [tid], scheduled alone, leads to the end of the call it is executing. *)
  Definition ended (id : nat) (o : op K V) (c : mconf K V) : Prop :=
    (∃ r v, list.last (mc_hist c) = Some (HRes tid id o r v)) ∨ (∃ why, list.last (mc_hist c) = Some (HPanic tid id o why)).
  Definition ends (id : nat) (o : op K V) (c : mconf K V) : Prop := ∃ n, ∀ c', exec cfg c (replicate n (CRun tid false)) = Some c' → ended id o c'.

  Definition runsp (id : nat) (o : op K V) (its : list iterst) (p : prog K V (pres K V)) (σ : state K V) : Prop :=
    ∀ c : mconf K V, mc_st c = σ → mc_thr c !! tid = Some (TState (Some (id, o, p)) its false) → ends id o c.

  Lemma ends_step id o (c : mconf K V) : match mstep cfg c (CRun tid false) with SStep c1 => ends id o c1 | SSkip => False | SUB => True end → ends id o c.
  Proof.
    destruct (mstep cfg c (CRun tid false)) as [c1| |] eqn:E; [|done|].
    - intros [n H]. exists (S n). intros c'. cbn [replicate exec]. rewrite E. apply H.
    - intros _. exists 1. cbn [replicate exec]. by rewrite E.
  Qed.
  Lemma runsp_ret id o its a σ : runsp id o its (Ret a) σ.
  Proof.
    intros c <- Et. apply ends_step. unfold mstep. rewrite Et. destruct (to_vals o (mc_st c) a) as [v|]; cbn; [|done].
    exists 0. intros c' [= <-]. left. exists a, v. cbn. by rewrite last_snoc.
  Qed.
  Lemma runsp_fail id o its why σ : runsp id o its (Fail why) σ.
  Proof.
    intros c <- Et. apply ends_step. unfold mstep. rewrite Et. cbn.
    exists 0. intros c' [= <-]. right. exists why. cbn. by rewrite last_snoc.
  Qed.
  Lemma runsp_act id o its X (f : action K V X) k σ :
    match f tid false σ with Ok x σ' => runsp id o its (k x) σ' | Block => False | UB => True end → runsp id o its (Act f k) σ.
  Proof.
    intros H c <- Et. apply ends_step. unfold mstep. rewrite Et. destruct (f tid false (mc_st c)) as [x σ'| |]; [|done|done].
    apply H; [done|]. cbn. apply list_lookup_insert. by eapply lookup_lt_Some.
  Qed.
  Lemma runsp_loop id o its S0 B (body : S0 → prog K V (S0 + B)) s k σ :
    runsp id o its (bind (body s) (λ r, match r with inl s' => Loop body s' k | inr b => k b end)) σ → runsp id o its (Loop body s k) σ.
  Proof.
    intros H c <- Et. apply ends_step. unfold mstep. rewrite Et. apply H; [done|]. cbn. apply list_lookup_insert. by eapply lookup_lt_Some.
  Qed.
  Lemma tm_runsp id o its A (p : prog K V A) : ∀ (k : A → prog K V (pres K V)) σ,
    tm tid p (λ a σ', runsp id o its (k a) σ') σ → runsp id o its (bind p k) σ.
  Proof.
    induction p as [A a|X A f k1 IH|S0 C A body IHb s k1 IHk|A r]; cbn [tm bind]; intros k σ H.
    - done.
    - apply runsp_act. destruct (f tid false σ); auto.
    - apply (H (λ s σ, runsp id o its (Loop body s (λ x, bind (k1 x) k)) σ)). clear s σ H. intros s σ H.
      apply runsp_loop, IHb. eapply tm_mono; [exact H|]. intros [s'|b] σ'; auto.
    - apply runsp_fail.
  Qed.
  (** A call whose program terminates alone ends when its thread is scheduled often enough on its own. *)
  Lemma call_ends (c : mconf K V) o its :
    (∀ s, exec cfg c s ≠ None) →
    mc_thr c !! tid = Some (ts_idle its) → tid ∈ pins (mc_st c) →
    runsp (mc_nop c) o its (op_prog cfg o its) (mc_st c) →
    ∃ n c', exec cfg c (CInvoke tid o :: replicate n (CRun tid false)) = Some c' ∧ ended (mc_nop c) o c'.
  Proof.
    intros NU Et Hp R.
    assert (E : mstep cfg c (CInvoke tid o) = SStep (MConf (mc_st c) (set_thr tid (TState (Some (mc_nop c, o, op_prog cfg o its)) its false) (mc_thr c))
                   (mc_hist c ++ [HInv tid (mc_nop c) o]) (S (mc_nop c)))).
    { unfold mstep. rewrite Et. cbn [ts_idle]. by rewrite decide_True. }
    destruct (R (MConf (mc_st c) (set_thr tid (TState (Some (mc_nop c, o, op_prog cfg o its)) its false) (mc_thr c))
                   (mc_hist c ++ [HInv tid (mc_nop c) o]) (S (mc_nop c)))) as [n H]; [done| |].
    { cbn. apply list_lookup_insert. by eapply lookup_lt_Some. }
    exists n. destruct (exec cfg c (CInvoke tid o :: replicate n (CRun tid false))) as [c'|] eqn:X; [|by destruct (NU _ X)].
    exists c'. split; [done|]. apply H. cbn [exec] in X. by rewrite E in X.
  Qed.
End adq.
