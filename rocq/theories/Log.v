(** The ghost log of successful writes and the abstract map it defines. *)
From Verif Require Export Core.

(** A write event: operation [ev_op] changed the entry of [ev_key] from [ev_old] to [ev_new]. *)
Record event (K : Type) := Ev { ev_key : K; ev_op : nat; ev_old : option nat; ev_new : option nat }.
Arguments Ev {K}. Arguments ev_key {K}. Arguments ev_op {K}. Arguments ev_old {K}. Arguments ev_new {K}.

Section log.
  Context {K V : Type} {Keq : EqDecision K}.
  Notation event := (event K).

  (** The entry of [k] after the events of [l]. *)
  Definition replay (l : list event) (k : K) : option nat :=
    foldl (λ acc e, if decide (ev_key e = k) then ev_new e else acc) None l.
  (** ... after the first [n] events. *)
  Definition rp (n : nat) (l : list event) (k : K) : option nat := replay (take n l) k.
  Definition lin (l : list event) (p : nat) : Prop := ∃ e, e ∈ l ∧ ev_new e = Some p.

  Lemma replay_snoc l e k : replay (l ++ [e]) k = if decide (ev_key e = k) then ev_new e else replay l k.
  Proof. unfold replay. rewrite foldl_app. reflexivity. Qed.
  Lemma rp_all l k n : length l ≤ n → rp n l k = replay l k.
  Proof. intros H. unfold rp. rewrite take_ge by exact H. reflexivity. Qed.
  Lemma rp_app n l l' k : n ≤ length l → rp n (l ++ l') k = rp n l k.
  Proof. intros H. unfold rp. rewrite take_app_le by exact H. reflexivity. Qed.
  Lemma rp_prefix n l l' k : l `prefix_of` l' → n ≤ length l → rp n l' k = rp n l k.
  Proof. intros [x ->] H. apply rp_app. exact H. Qed.
  Lemma rp_prefix_len l l' k : l `prefix_of` l' → rp (length l) l' k = replay l k.
  Proof. intros H. rewrite (rp_prefix _ _ _ _ H) by lia. apply rp_all. lia. Qed.
  Lemma rp_S n l e k : l !! n = Some e → rp (S n) l k = if decide (ev_key e = k) then ev_new e else rp n l k.
  Proof. intros H. unfold rp. rewrite (take_S_r _ _ _ H). apply replay_snoc. Qed.

  Lemma lin_app l l' p : lin (l ++ l') p ↔ lin l p ∨ lin l' p.
  Proof. unfold lin. setoid_rewrite elem_of_app. naive_solver. Qed.
  Lemma lin_snoc l e p : lin (l ++ [e]) p ↔ lin l p ∨ ev_new e = Some p.
  Proof. rewrite lin_app. unfold lin. setoid_rewrite elem_of_list_singleton. naive_solver. Qed.
  Lemma lin_prefix l l' p : l `prefix_of` l' → lin l p → lin l' p.
  Proof. intros [x ->]. rewrite lin_app. auto. Qed.
  Lemma lin_dec l p : lin l p ∨ ¬ lin l p.
  Proof.
    induction l as [|e l IH].
    - right. intros (e & H & _). inversion H.
    - change (e :: l) with ([e] ++ l). rewrite lin_app.
      assert (D : lin [e] p ∨ ¬ lin [e] p).
      { unfold lin. setoid_rewrite elem_of_list_singleton.
        destruct (decide (ev_new e = Some p)); [left; eauto|right; naive_solver]. }
      tauto.
  Qed.
  Lemma replay_lin l k p : replay l k = Some p → lin l p.
  Proof.
    induction l as [|e l IH] using rev_ind; [discriminate|]. rewrite replay_snoc, lin_snoc. case_decide; auto.
  Qed.

  (** Each event finds the entry it says it replaces. *)
  Definition legal (l : list event) : Prop := ∀ n e, l !! n = Some e → rp n l (ev_key e) = ev_old e.
  Lemma legal_nil : legal [].
  Proof. intros n e H. rewrite lookup_nil in H. discriminate. Qed.
  Lemma legal_snoc l e : legal l → replay l (ev_key e) = ev_old e → legal (l ++ [e]).
  Proof.
    intros H E n e' Hn. destruct (decide (n < length l)) as [L|L].
    - rewrite lookup_app_l in Hn by exact L. rewrite rp_app by lia. auto.
    - assert (n = length l).
      { apply lookup_lt_Some in Hn. rewrite app_length in Hn. cbn in Hn. lia. }
      subst. rewrite list_lookup_middle in Hn by reflexivity. injection Hn as <-.
      rewrite rp_app by lia. rewrite rp_all by lia. exact E.
  Qed.
End log.
Global Arguments replay : simpl never.
Global Arguments rp : simpl never.
