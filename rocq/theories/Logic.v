(** A rely-guarantee logic for [prog], by structural recursion on programs.
    Parameters: the acting thread, the global invariant [Inv] on worlds (state + ghost), the rely [ext] of
    the running thread (a preorder), its guarantee [grd], which panics are tolerated ([okfail]), and
    whether undefined behaviour is tolerated ([okub]). *)
From Verif Require Export Prog.

Section logic.
  Context {K V G : Type}.
  Notation world := (state K V * G)%type.
  Context (tid : nat) (Inv : world → Prop) (ext grd : world → world → Prop)
          (okfail : preason → state K V * G → Prop) (okub : Prop).
  Context (ext_refl : ∀ w, ext w w) (ext_trans : ∀ a b c, ext a b → ext b c → ext a c).

  (** [wp p Q w]: started in [w], interleaved with environment steps in [ext], every step of [p]
      preserves [Inv] (for a suitable ghost update) and respects [grd]; when [p] returns, [Q] holds. A loop is
      given by an invariant on its state. *)
  Fixpoint wp {A} (p : prog K V A) : (A → world → Prop) → world → Prop :=
    match p in prog _ _ A return (A → world → Prop) → world → Prop with
    | Ret a => λ Q w, ∀ w', ext w w' → Inv w' → Q a w'
    | Act f k => λ Q w, ∀ w', ext w w' → Inv w' → ∀ o,
        match f tid o w'.1 with
        | Ok x σ' => ∃ γ', Inv (σ', γ') ∧ grd w' (σ', γ') ∧ wp (k x) Q (σ', γ')
        | Block => True
        | UB => okub
        end
    | Loop body s k => λ Q w, ∀ w', ext w w' → Inv w' →
        ∃ I : _ → world → Prop, I s w' ∧
          ∀ s w, I s w → Inv w →
            wp (body s) (λ r w', match r with
                                 | inl s' => ∀ w'', ext w' w'' → Inv w'' → I s' w''
                                 | inr b => wp (k b) Q w' end) w
    | Fail r => λ _ w, ∀ w', ext w w' → Inv w' → okfail r w'
    end.

  Lemma wp_close {A} (p : prog K V A) Q w :
    (∀ w', ext w w' → Inv w' → wp p Q w') → wp p Q w.
  Proof.
    intros H. destruct p as [A a|X A f k|S B A body s k|A r]; cbn.
    - intros w' E I'. apply (H w' E I'); auto.
    - intros w' E I'. apply (H w' E I'); auto.
    - intros w' E I'. apply (H w' E I'); auto.
    - intros w' E I'. eapply (H w' E I'); auto.
  Qed.

  Lemma wp_ext {A} (p : prog K V A) Q w w' : wp p Q w → ext w w' → wp p Q w'.
  Proof.
    intros H E0. destruct p as [A a|X A f k|S B A body s k|A r]; cbn in *; intros w'' E I';
      apply (H w''); eauto.
  Qed.

  Lemma wp_mono {A} (p : prog K V A) (Q Q' : A → world → Prop) w :
    wp p Q w → (∀ a w, Inv w → Q a w → Q' a w) → wp p Q' w.
  Proof.
    revert Q Q' w. induction p as [A a|X A f k IH|S B A body IHb s k IHk|A r]; cbn; intros Q Q' w Hw HQ.
    - intros w' E I'. apply HQ; auto.
    - intros w' E I' o. specialize (Hw w' E I' o).
      destruct (f tid o w'.1) as [x σ'| |]; [|exact I|exact Hw].
      destruct Hw as (γ' & H1 & H2 & H3). exists γ'. split; [exact H1|]. split; [exact H2|].
      eapply IH; eauto.
    - intros w' E I'. destruct (Hw w' E I') as (J & HJ & Hb). exists J. split; [exact HJ|].
      intros s' w1 H1 I1. eapply IHb; [apply Hb; assumption|].
      intros [s''|b] w2 I2; [auto|]. intros H2. eapply IHk; eauto.
    - exact Hw.
  Qed.

  Lemma wp_bind {A B} (p : prog K V A) (k : A → prog K V B) Q w :
    wp p (λ a w', wp (k a) Q w') w → wp (bind p k) Q w.
  Proof.
    revert Q w. induction p as [A a|X A f k1 IH|S C A body IHb s k1 IHk|A r]; cbn; intros Q w Hw.
    - apply wp_close. exact Hw.
    - intros w' E I' o. specialize (Hw w' E I' o).
      destruct (f tid o w'.1) as [x σ'| |]; [|exact I|exact Hw].
      destruct Hw as (γ' & H1 & H2 & H3). exists γ'. split; [exact H1|]. split; [exact H2|].
      apply IH. exact H3.
    - intros w' E I'. destruct (Hw w' E I') as (J & HJ & Hb). exists J. split; [exact HJ|].
      intros s' w1 H1 I1. eapply wp_mono; [apply Hb; assumption|].
      intros [s''|b] w2 I2; [auto|]. intros H2. apply IHk. exact H2.
    - exact Hw.
  Qed.

  Lemma wp_ret {A} (a : A) (Q : A → world → Prop) w :
    (∀ w', ext w w' → Inv w' → Q a w') → wp (Ret a) Q w.
  Proof. exact id. Qed.

  Lemma wp_fail {A} r Q w :
    (∀ w', ext w w' → Inv w' → okfail r w') → wp (Fail r : prog K V A) Q w.
  Proof. exact id. Qed.

  Lemma wp_post_close {A} (p : prog K V A) Q w :
    wp p Q w → wp p (λ a w', ∀ w'', ext w' w'' → Inv w'' → Q a w'') w.
  Proof.
    revert Q w. induction p as [A a|X A f k IH|S B A body IHb s k IHk|A r]; cbn; intros Q w Hw.
    - intros w' E I' w'' E' I''. eauto.
    - intros w' E I' o. specialize (Hw w' E I' o).
      destruct (f tid o w'.1) as [x σ'| |]; [|exact I|exact Hw].
      destruct Hw as (γ' & H1 & H2 & H3). exists γ'. split; [exact H1|]. split; [exact H2|].
      eapply IH; eauto.
    - intros w' E I'. destruct (Hw w' E I') as (J & HJ & Hb). exists J. split; [exact HJ|].
      intros s' w1 H1 I1. eapply wp_mono; [apply Hb; assumption|].
      intros [s''|b] w2 I2; [auto|]. intros H2. apply IHk. exact H2.
    - exact Hw.
  Qed.

  Lemma wp_loop {S B} (J : S → world → Prop) (body : S → prog K V (S + B)) s Q w :
    (∀ w', ext w w' → Inv w' → J s w') →
    (∀ s w, J s w → Inv w →
       wp (body s) (λ r w', match r with inl s' => J s' w' | inr b => Q b w' end) w) →
    wp (loop body s) Q w.
  Proof.
    intros H0 Hb w' E I'. exists J. split; [auto|].
    intros s1 w1 H1 I1. eapply wp_mono; [apply wp_post_close, Hb; assumption|].
    intros [s2|b] w2 I2 H2; exact H2.
  Qed.

  Lemma wp_act {A} (f : action K V A) (Q : A → world → Prop) w :
    (∀ w', ext w w' → Inv w' → ∀ o,
        match f tid o w'.1 with
        | Ok x σ' => ∃ γ', Inv (σ', γ') ∧ grd w' (σ', γ') ∧ (∀ w'', ext (σ', γ') w'' → Inv w'' → Q x w'')
        | Block => True
        | UB => okub
        end) →
    wp (act f) Q w.
  Proof. intros H w' E I' o. exact (H w' E I' o). Qed.

  (** A step that does not change the state. *)
  Lemma wp_read {A} (f : action K V A) (Q : A → world → Prop) w :
    (∀ w, grd w w) →
    (∀ w' o, ext w w' → Inv w' →
       match f tid o w'.1 with
       | Ok x σ' => σ' = w'.1 ∧ (∀ w'', ext w' w'' → Inv w'' → Q x w'')
       | Block => True
       | UB => okub
       end) →
    wp (act f) Q w.
  Proof.
    intros Hg H. apply wp_act. intros w' E I' o. specialize (H w' o E I').
    destruct (f tid o w'.1) as [x σ'| |]; [|exact I|exact H].
    destruct H as [-> H]. destruct w' as [σ γ]. exists γ. cbn in *. auto.
  Qed.

  (** One machine step of a running program. *)
  Lemma wp_step_act {X A} (f : action K V X) (k : X → prog K V A) Q w o :
    wp (Act f k) Q w → Inv w →
    match f tid o w.1 with
    | Ok x σ' => ∃ γ', Inv (σ', γ') ∧ grd w (σ', γ') ∧ wp (k x) Q (σ', γ')
    | Block => True
    | UB => okub
    end.
  Proof. intros H I'. exact (H w (ext_refl w) I' o). Qed.

  Lemma wp_step_loop {S B A} (body : S → prog K V (S + B)) s (k : B → prog K V A) Q w :
    wp (Loop body s k) Q w → Inv w →
    wp (bind (body s) (λ r, match r with inl s' => Loop body s' k | inr b => k b end)) Q w.
  Proof.
    intros H I'. destruct (H w (ext_refl w) I') as (J & HJ & Hb).
    apply wp_bind. eapply wp_mono; [apply Hb; assumption|].
    intros [s'|b] w' _ H'; [|exact H']. cbn. intros w2 E2 I2. exists J. auto.
  Qed.
End logic.
