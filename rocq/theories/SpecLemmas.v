(** Consequences of linearizability, for any history [H] with linearization [S] (independent of the implementation). *)
From Verif Require Export Props.

Section lemmas.
  Context {K V : Type} {Keq : EqDecision K}.
  Notation op := (op K V). Notation vres := (vres K V). Notation hevent := (hevent K V). Notation lact := (@lact K V).
  Context (H : list hevent) (S : list lact) (cut : nat → nat) (WF : wf_hist H) (L : linearizes H S cut).

  Definition a_touches (a : lact) (k : K) : Prop :=
    match a with LOp _ o _ => key_of o = Some k ∧ o ≠ OGet k | LDel _ k' _ => k' = k end.
  Lemma sval_S n a : S !! n = Some a → sval S (n + 1) = lapply (sval S n) a.
  Proof. intros E. unfold sval. rewrite Nat.add_1_r, (take_S_r _ _ _ E), foldl_app. done. Qed.
  Lemma lapply_other (m : smap) a k : lallowed m a → ¬ a_touches a k → lapply m a k = m k.
  Proof.
    destruct a as [id o r|id k' v]; cbn.
    - intros (k' & x & Ek & E) N. rewrite Ek, E. unfold supd. case_decide as D; [|done]. subst k'.
      destruct o; cbn in *; try (exfalso; apply N; by split); try done. injection Ek as ->. by injection E as <- _.
    - intros _ N. unfold supd. case_decide as D; [|done]. by subst.
  Qed.
  Lemma lapply_op (m : smap) id (o : op) r k x : key_of o = Some k → seq_op o (m k) = Some (x, r) → lapply m (LOp id o r) k = x.
  Proof. intros Ek E. cbn. rewrite Ek, E. unfold supd. by rewrite decide_True. Qed.
  Lemma sval_ge n m : length S ≤ n → length S ≤ m → sval S n = sval S m.
  Proof. intros A B. unfold sval. by rewrite !take_ge. Qed.
  (** Without actions that touch [k], its binding does not change. *)
  Lemma quiet_range k n n' : n ≤ n' → (∀ m a, n ≤ m → m < n' → S !! m = Some a → ¬ a_touches a k) → sval S n' k = sval S n k.
  Proof.
    induction 1 as [|n' Ln IH]; intros Q; [done|]. rewrite <- IH by (intros m a A B; apply Q; lia).
    destruct (S !! n') as [a|] eqn:E.
    - rewrite <- Nat.add_1_r, (sval_S _ _ E). apply lapply_other; [by eapply l_legal|]. apply (Q n'); [lia|lia|done].
    - apply lookup_ge_None in E. erewrite sval_ge; [done|lia|lia].
  Qed.
  Lemma touch_inv n a k : S !! n = Some a → a_touches a k → ∃ h i o, H !! h = Some (HInv i (a_id a) o) ∧ touches o k ∧ belongs a o ∧ cut (h + 1) ≤ n.
  Proof.
    intros E T. destruct (l_inv _ _ _ L n a E) as (h & i & o & A & B & C). exists h, i, o. split; [done|]. split; [|done].
    destruct a as [id o' r|id k' v]; cbn in *.
    - subst o'. unfold touches. destruct T as [-> T]. done.
    - unfold touches. destruct B as [->|(f & -> & _)]; cbn; [by left|right; by exists f].
  Qed.
  Lemma act_before n a h i o : S !! n = Some a → returned_before H h i (a_id a) o → n < cut h.
  Proof.
    intros E (h' & r & v & Lt & Eh). pose proof (l_res _ _ _ L n a h' i o r v E Eh). pose proof (l_mono _ _ _ L (h' + 1) h ltac:(lia)). lia.
  Qed.
  Lemma act_over n a h i o : S !! n = Some a → over_before H h i (a_id a) o → n < cut h.
  Proof.
    intros E [R|(h' & why & Eh & C)]; [by eapply act_before|]. destruct (l_panic _ _ _ L n a h' i o why E Eh) as [Ek Ln].
    destruct C as [Lt|]; [|done]. pose proof (l_mono _ _ _ L (h' + 1) h ltac:(lia)). lia.
  Qed.
  Lemma act_after n a h h' i o : S !! n = Some a → H !! h = Some (HInv i (a_id a) o) → h' ≤ h → cut h' ≤ n.
  Proof.
    intros E Eh Lt. destruct (l_inv _ _ _ L n a E) as (h2 & i2 & o2 & A & B & C).
    pose proof (wf_inv _ WF _ _ _ _ _ _ _ Eh A) as <-. pose proof (l_mono _ _ _ L h' (h + 1) ltac:(lia)). lia.
  Qed.
  (** In a window where only the calls in [P] may touch [k], every action on [k] is by a call in [P]. *)
  Lemma window_act P k h1 h2 n a : only_writers P k h1 h2 H → cut h1 ≤ n → n < cut h2 → S !! n = Some a → a_touches a k →
    ∃ h i o, H !! h = Some (HInv i (a_id a) o) ∧ P (a_id a) o ∧ belongs a o ∧ cut (h + 1) ≤ n.
  Proof.
    intros O A B E T. destruct (touch_inv n a k E T) as (h & i & o & Eh & To & Be & Lc). exists h, i, o. split; [done|]. split; [|done].
    destruct (O h i (a_id a) o Eh To) as [?|[R|G]]; [done| |].
    - pose proof (act_over n a h1 i o E R). lia.
    - pose proof (act_after n a h h2 i o E Eh G). lia.
  Qed.
  Lemma window_quiet k h1 h2 n n' : only_writers (λ _ _, False) k h1 h2 H → cut h1 ≤ n → n ≤ n' → n' ≤ cut h2 → sval S n' k = sval S n k.
  Proof.
    intros O A B C. apply quiet_range; [done|]. intros m a M1 M2 E T. destruct (window_act _ k h1 h2 m a O ltac:(lia) ltac:(lia) E T) as (h & i & o & _ & [] & _).
  Qed.
  Lemma inv_cut n a h i o : S !! n = Some a → H !! h = Some (HInv i (a_id a) o) → cut (h + 1) ≤ n.
  Proof.
    intros E Eh. destruct (l_inv _ _ _ L n a E) as (h2 & i2 & o2 & A & B & C). by pose proof (wf_inv _ WF _ _ _ _ _ _ _ Eh A) as <-.
  Qed.
  (** A completed single-key call took effect at one moment between its invocation and its response. *)
  Lemma call_act h0 h1 i id o v k : call H h0 h1 i id o v → key_of o = Some k → ∃ n x, S !! n = Some (LOp id o v) ∧ cut (h0 + 1) ≤ n ∧ n < cut (h1 + 1) ∧
    seq_op o (sval S n k) = Some (x, v) ∧ sval S (n + 1) k = x ∧ ∀ k', k' ≠ k → sval S (n + 1) k' = sval S n k'.
  Proof.
    intros (r & E0 & E1) Ek. destruct (l_done _ _ _ L h1 i id o r v E1) as [n E]; [by rewrite Ek|].
    destruct (l_legal _ _ _ L n _ E) as (k' & x & Ek' & SQ). assert (k' = k) by congruence. subst k'. exists n, x. split; [done|].
    split; [by eapply inv_cut|]. split; [by eapply l_res|]. split; [done|]. rewrite (sval_S _ _ E). split; [by apply lapply_op|].
    intros k' N. apply lapply_other; [by eapply l_legal|]. cbn. intros [X _]. congruence.
  Qed.
  Lemma call_lt h0 h1 i id o v : call H h0 h1 i id o v → h0 < h1.
  Proof.
    intros (r & E0 & E1). destruct (wf_res _ WF _ _ _ _ _ _ E1) as (h & Lt & E). by pose proof (wf_inv _ WF _ _ _ _ _ _ _ E0 E) as ->.
  Qed.
  (** Last writer: after a call on [k] during and after which nobody else touches [k], the binding is the one it left. *)
  Lemma last_writer h0 h1 h2 i id o v k : call H h0 h1 i id o v → key_of o = Some k → h1 < h2 →
    only_writers (λ id' _, id' = id) k h0 h2 H →
    ∃ n x, S !! n = Some (LOp id o v) ∧ cut (h0 + 1) ≤ n ∧ n < cut (h1 + 1) ∧ seq_op o (sval S n k) = Some (x, v) ∧
      (∀ m, n < m → m ≤ cut h2 → sval S m k = x) ∧ ∀ m, cut h0 ≤ m → m ≤ n → sval S m k = sval S n k.
  Proof.
    intros C Ek Lt O. destruct (call_act _ _ _ _ _ _ _ C Ek) as (n & x & E & A & B & SQ & X & _). exists n, x. split_and!; try done.
    - intros m Lm Lc. rewrite <- X. apply quiet_range; [lia|]. intros m' a M1 M2 E' T.
      pose proof (l_mono _ _ _ L h0 (h0 + 1) ltac:(lia)).
      destruct (window_act _ k h0 h2 m' a O ltac:(lia) ltac:(lia) E' T) as (h & j & o' & _ & Eid & _).
      destruct a as [id' o'' r'|id' k' v']; cbn in Eid; subst id'.
      + assert (m' = n) by (by eapply (l_once _ _ _ L)). lia.
      + destruct (l_inv _ _ _ L m' _ E') as (h' & i' & o2 & E2 & Be & _). destruct C as (r & E0 & _). cbn in E2.
        pose proof (wf_inv _ WF _ _ _ _ _ _ _ E0 E2) as <-. rewrite E0 in E2. injection E2 as _ <-. destruct Be as [->|(f & -> & _)]; done.
    - intros m Lm Ln. symmetry. apply quiet_range; [lia|]. intros m' a M1 M2 E' T.
      pose proof (l_mono _ _ _ L (h1 + 1) h2 ltac:(lia)).
      destruct (window_act _ k h0 h2 m' a O ltac:(lia) ltac:(lia) E' T) as (h & j & o' & _ & Eid & _).
      destruct a as [id' o'' r'|id' k' v']; cbn in Eid; subst id'.
      + assert (m' = n) by (by eapply (l_once _ _ _ L)). lia.
      + destruct (l_inv _ _ _ L m' _ E') as (h' & i' & o2 & E2 & Be & _). destruct C as (r & E0 & _). cbn in E2.
        pose proof (wf_inv _ WF _ _ _ _ _ _ _ E0 E2) as <-. rewrite E0 in E2. injection E2 as _ <-. destruct Be as [->|(f & -> & _)]; done.
  Qed.
End lemmas.
