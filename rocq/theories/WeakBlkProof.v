(** C59: invariants of WeakBlk.v. *)
From stdpp Require Import base sets list option numbers.
From Verif Require Import WeakBlk.
Local Open Scope nat_scope.

Lemma fset_eq {B} (f : nat → B) a b : fset f a b a = b.
Proof. unfold fset. by rewrite decide_True. Qed.
Lemma fset_ne {B} (f : nat → B) a b a' : a' ≠ a → fset f a b a' = f a'.
Proof. intros N. unfold fset. by rewrite decide_False. Qed.

Section Inv.
Context (tot : nat → nat).
Implicit Types (s : wst) (w u : view).

Definition isroot s t : Prop := ∃ r u, root s !! r = Some (t, u).
Definition cdon s n : list nat := concat (fst <$> don s n).
(** Table [n] is the one table [t] is copied to: those in between are aborted. *)
Definition tgt s t n : Prop := isroot s t ∧ t < n ∧ ∀ m, t < m < n → lost s m ≠ None.
Definition hold s i t n (l : list nat) : Prop := NoDup l ∧ ∀ k, k ∈ l → own s n k = Some i ∧ k ∉ cdon s n ∧ k < tot t.
Definition hl (p : point) : option (nat * nat * list nat) :=
  match p with Cp t n ks dn => Some (t, n, ks ++ dn) | Ci t n k _ ks dn | Cm t n k _ _ ks dn => Some (t, n, k :: ks ++ dn) | _ => None end.
Definition pt (p : point) : option (nat * nat) :=
  match p with Hp t n | Cp t n _ _ | Ci t n _ _ _ _ | Cm t n _ _ _ _ _ | Ab t n | Al t n | Ck t n => Some (t, n) | _ => None end.
(** The slots a thread has yet to copy. *)
Definition todo (p : point) : list nat := match p with Cp _ _ ks _ => ks | Ci _ _ k _ ks _ => k :: ks | Cm _ _ _ _ _ ks _ => ks | _ => [] end.
Definition pcG s i (p : point) : Prop :=
  (∀ t n, pt p = Some (t, n) → tgt s t n) ∧
  (∀ t n l, hl p = Some (t, n, l) → hold s i t n l ∧ ∀ k, k ∈ todo p → dst s n k = None) ∧
  match p with Use t => isroot s t | Ab t n | Al t n => lost s n ≠ None | Ck t n => ∀ k, k < tot t → k ∈ cdon s n | Ps t n => isroot s n ∧ isroot s t ∧ t < n | _ => True end.
Record G s : Prop := MkG {
  g_root0 : ∃ u, root s !! 0 = Some (0, u);
  g_succ : ∀ r t u n u', root s !! r = Some (t, u) → root s !! S r = Some (n, u') → tgt s t n ∧ ∀ k, k < tot t → k ∈ cdon s n;
  g_ab : ∀ n u, (false, u) ∈ sta s n → lost s n ≠ None;
  g_lost : ∀ m k, lost s m = Some k → ¬ isroot s m ∧ ∃ t, tgt s t m ∧ k < tot t ∧ k ∉ cdon s m ∧ own s m k ≠ None ∧ ∀ i t' l, hl (pc s i) = Some (t', m, l) → k ∉ l;
  g_own : ∀ n k, own s n k ≠ None → k < cl s n;
  g_dst : ∀ n k, dst s n k ≠ None → own s n k ≠ None;
  g_don : ∀ n, NoDup (cdon s n) ∧ ∀ k, k ∈ cdon s n → own s n k ≠ None ∧ ∃ t, tgt s t n ∧ k < tot t;
  g_pc : ∀ i, pcG s i (pc s i) }.

Lemma tgt_uni s t t' n : G s → tgt s t n → tgt s t' n → t = t'.
Proof.
  intros H (R1 & L1 & B1) (R2 & L2 & B2). destruct (Nat.lt_trichotomy t t') as [X|[X|X]]; [|done|].
  - exfalso. specialize (B1 t' ltac:(lia)). destruct (lost s t') as [k|] eqn:E; [|done]. by destruct (g_lost _ H _ _ E) as [Y _].
  - exfalso. specialize (B2 t ltac:(lia)). destruct (lost s t) as [k|] eqn:E; [|done]. by destruct (g_lost _ H _ _ E) as [Y _].
Qed.
(** Predecessor of a root. *)
Lemma root_pred s n r u : G s → root s !! r = Some (n, u) → n = 0 ∧ r = 0 ∨ ∃ r' t u', r = S r' ∧ root s !! r' = Some (t, u') ∧ tgt s t n ∧ ∀ k, k < tot t → k ∈ cdon s n.
Proof.
  intros H E. destruct r as [|r']; [left; destruct (g_root0 _ H) as [u0 E0]; split; congruence|]. right.
  destruct (root s !! r') as [[t u']|] eqn:E'; [|apply lookup_ge_None in E'; apply lookup_lt_Some in E; lia]. exists r', t, u'. split; [done|]. split; [done|]. by eapply (g_succ _ H).
Qed.

Record sle s s' : Prop := MkSle {
  sl_root : ∀ t, isroot s t → isroot s' t;
  sl_lost : ∀ m, lost s m ≠ None → lost s' m ≠ None;
  sl_own : ∀ n k i, own s n k = Some i → own s' n k = Some i;
  sl_don : ∀ n k, k ∈ cdon s n → k ∈ cdon s' n }.
Lemma tgt_le s s' t n : sle s s' → tgt s t n → tgt s' t n.
Proof. intros X (A & B & C). split; [by apply X|]. split; [done|]. intros m L. apply X. by apply C. Qed.
Lemma pcG_le s s' i p : sle s s' → (∀ n k, own s n k = Some i → (k ∈ cdon s' n → k ∈ cdon s n) ∧ dst s' n k = dst s n k) → pcG s i p → pcG s' i p.
Proof.
  intros X Y (A & B & C). split; [|split].
  - intros t n E. eapply tgt_le; [done|by apply A].
  - intros t n l E. destruct (B _ _ _ E) as [[N H] D]. split; [split; [done|]|].
    + intros k Hk. destruct (H k Hk) as (O & Z & L). split; [by apply X|]. split; [|done]. intros Z'. by apply Z, (Y n k O).
    + intros k Hk. rewrite <- (D k Hk). apply Y. apply H. destruct p; cbn in *; simplify_eq/=; set_unfold; naive_solver.
  - destruct p; try done; try (by apply X); try (by intros k Hk; apply X, C). destruct C as (C1 & C2 & C3). split; [by apply X|]. split; [by apply X|done].
Qed.
Lemma sle_eq s s' : root s' = root s → lost s' = lost s → own s' = own s → don s' = don s → sle s s'.
Proof. intros A B C D. unfold cdon. split; unfold isroot, cdon; rewrite ?A, ?B, ?C, ?D; done. Qed.

Lemma G_quiet s s' i p' : G s → root s' = root s → lost s' = lost s → own s' = own s → don s' = don s → cl s' = cl s → dst s' = dst s →
  (∀ n u, (false, u) ∈ sta s' n → (false, u) ∈ sta s n ∨ lost s n ≠ None) → pc s' = fset (pc s) i p' →
  (∀ t n l, hl p' = Some (t, n, l) → ∃ l', hl (pc s i) = Some (t, n, l') ∧ ∀ k, k ∈ l → k ∈ l') → pcG s i p' → G s'.
Proof.
  intros H A1 A2 A3 A4 A5 A6 A7 A8 Hh Hp.
  assert (CD : ∀ n, cdon s' n = cdon s n) by (intros n; unfold cdon; by rewrite A4).
  pose proof (sle_eq s s' A1 A2 A3 A4) as LE.
  assert (IR : ∀ t, isroot s' t ↔ isroot s t) by (intros t; unfold isroot; by rewrite A1).
  split.
  - rewrite A1. apply H.
  - intros r t u n u'. rewrite A1. intros E1 E2. rewrite CD. destruct (g_succ _ H _ _ _ _ _ E1 E2) as [X Y]. split; [by eapply tgt_le|done].
  - intros n u X. rewrite A2. destruct (A7 _ _ X) as [Y|Y]; [by eapply (g_ab _ H)|done].
  - intros m k. rewrite A2. intros E. destruct (g_lost _ H _ _ E) as (X & t & X1 & X2 & X3 & X4 & X5). split; [by rewrite IR|]. exists t. split; [by eapply tgt_le|].
    rewrite CD, A3. repeat split; try done. intros j t' l9. rewrite A8. unfold fset. destruct (decide (j = i)) as [->|]; [|apply X5].
    intros E'. destruct (Hh _ _ _ E') as (l' & E2 & SB). intros Hk. by apply (X5 _ _ _ E2), SB.
  - rewrite A3, A5. apply H.
  - rewrite A3, A6. apply H.
  - intros n. rewrite CD, A3. destruct (g_don _ H n) as [N D]. split; [done|]. intros k Hk. destruct (D _ Hk) as (O & t & T & L). split; [done|]. exists t. split; [by eapply tgt_le|done].
  - intros j. rewrite A8. eapply pcG_le; [done| |].
    + intros n k _. by rewrite CD, A6.
    + unfold fset. destruct (decide (j = i)) as [->|]; [done|apply H].
Qed.

Lemma pcG_simple s i p : hl p = None → (∀ t n, pt p = Some (t, n) → tgt s t n) →
  match p with Use t => isroot s t | Ab t n | Al t n => lost s n ≠ None | Ck t n => ∀ k, k < tot t → k ∈ cdon s n | Ps t n => isroot s n ∧ isroot s t ∧ t < n | _ => True end → pcG s i p.
Proof. intros A B C. split; [done|]. split; [|done]. intros t n l E. congruence. Qed.

Lemma pigeon (l : list nat) (n : nat) : NoDup l → (∀ a, a ∈ l → a < n) → n ≤ length l → ∀ a, a < n → a ∈ l.
Proof.
  intros ND B L a La. destruct (decide (a ∈ l)) as [|N]; [done|]. exfalso.
  assert (SB : submseteq (a :: l) (seq 0 n)).
  { apply NoDup_submseteq; [by apply list.NoDup_cons|]. intros x Hx. apply elem_of_list_In, in_seq. apply elem_of_cons in Hx as [->|Hx]; [lia|]. specialize (B _ Hx). lia. }
  apply submseteq_length in SB. cbn in SB. rewrite seq_length in SB. lia.
Qed.
Lemma counted_all s n : counted s n (length (don s n)) = cdon s n.
Proof. unfold counted, cdon. by rewrite firstn_all. Qed.
Lemma counted_sub s n l k : k ∈ counted s n l → k ∈ cdon s n.
Proof. unfold counted, cdon. rewrite <- (take_drop l (don s n)) at 2. rewrite fmap_app, concat_app. set_solver. Qed.
Lemma counted_nodup s n l : NoDup (cdon s n) → NoDup (counted s n l).
Proof. unfold counted, cdon. rewrite <- (take_drop l (don s n)) at 1. rewrite fmap_app, concat_app. intros X. by apply list.NoDup_app in X as (X & _). Qed.

Lemma all_done s t n l : G s → tgt s t n → length (counted s n l) = tot t → ∀ k, k < tot t → k ∈ counted s n l.
Proof.
  intros H T E k Hk. eapply pigeon; [eapply counted_nodup; apply H| |by apply Nat.eq_le_incl; symmetry|done].
  intros a Ha. apply counted_sub in Ha. destruct (proj2 (g_don _ H n) _ Ha) as (_ & t' & T' & L). by rewrite (tgt_uni _ _ _ _ H T T').
Qed.

Lemma ret_lt s s' i p' : sle s s' → pc s' = fset (pc s) i p' → ∀ j, j ≠ i → pc s' j = pc s j.
Proof. intros _ E j N. by rewrite E, fset_ne. Qed.

Definition knows s w t : Prop := ∃ r u, root s !! r = Some (t, u) ∧ r ≤ vr w.
Lemma succ_uni s t n n' : G s → tgt s t n → (∀ k, k < tot t → k ∈ cdon s n) → tgt s t n' → isroot s n' → n' = n.
Proof.
  intros H T A T' R'. destruct T as (R & L & B), T' as (_ & L' & B'). destruct (Nat.lt_trichotomy n n') as [X|[X|X]]; [|done|].
  - specialize (B' n ltac:(lia)). destruct (lost s n) as [k|] eqn:E; [|done]. destruct (g_lost _ H _ _ E) as (_ & t1 & X1 & X2 & X3 & _).
    destruct X3. apply A. by rewrite (tgt_uni _ _ _ n H (conj R (conj L B)) X1).
  - specialize (B n' ltac:(lia)). destruct (lost s n') as [k|] eqn:E; [|done]. by destruct (g_lost _ H _ _ E) as (Y & _).
Qed.

Theorem G_pres s s' : G s → (∀ i t n, pt (pc s i) = Some (t, n) → knows s (vw s i) t) → (∀ n u, (true, u) ∈ sta s n → isroot s n) → wstep tot s s' → G s'.
Proof.
  intros H KN ST St. inversion St; subst; clear St; pose proof (λ x, g_pc _ H x) as P.
  - (* root *) eapply (G_quiet s _ i (Use t)); try done; [by left|]. apply pcG_simple; [done|done|]. by exists r, u.
  - eapply (G_quiet s _ i Idle); try done; by left.
  - eapply (G_quiet s _ i (pc s i)); try done; try (by left); try (apply P); intros t1 n1 l1 E; by exists l1.
  - eapply (G_quiet s _ i (pc s i)); try done; try (by left); try (apply P); intros t1 n1 l1 E; by exists l1.
  - destruct (wc x); (eapply (G_quiet s _ i (pc s i)); try done; try (by left); try (apply P); intros t1 n1 l1 E; by exists l1).
  - eapply (G_quiet s _ i (Use t)); try done; [by left|]. specialize (P i). rewrite H0 in P. apply P.
  - (* alloc *) eapply (G_quiet s _ i (pc s i)); try done; try (by left); try (apply P); intros t1 n1 l E; by exists l.
  - (* help *) specialize (P i). rewrite H0 in P. destruct P as (_ & _ & P). eapply (G_quiet s _ i (Hp t (S t))); try done; [by left|]. apply pcG_simple; [done| |done].
    intros t1 n1 [= <- <-]. split; [done|]. split; [lia|]. intros m Lm. lia.
  - (* aborted *) specialize (P i). rewrite H0 in P. destruct P as (P & _). eapply (G_quiet s _ i (Al t n)); try done; [by left|]. apply pcG_simple; [done|done|]. by eapply (g_ab _ H).
  - (* next *) specialize (P i). rewrite H0 in P. destruct P as (P & _ & P2). eapply (G_quiet s _ i (Hp t (S n))); try done; [by left|]. apply pcG_simple; [done| |done].
    intros t1 n1 [= <- <-]. destruct (P _ _ eq_refl) as (Q1 & Q2 & Q3). split; [done|]. split; [lia|]. intros m Lm. destruct (decide (m = n)) as [->|]; [done|]. apply Q3. lia.
  - (* copied *) specialize (P i). rewrite H0 in P. destruct P as (P & _). eapply (G_quiet s _ i (Ck t n)); try done; [by left|]. apply pcG_simple; [done|done|].
    intros k Hk. eapply counted_sub. eapply all_done; [done|by apply P|done|done].
  - (* claim *) specialize (P i). rewrite H0 in P. destruct P as (P & _). set (s' := thr _ _ _ _).
    assert (LE : sle s s'). { split; try done. intros n' k j O. cbn. rewrite decide_False; [done|]. intros [-> L]. assert (k < cl s n) by (eapply (g_own _ H); congruence). lia. }
    assert (FR : ∀ k, cl s n ≤ k → own s n k = None). { intros k L. destruct (own s n k) as [j|] eqn:E; [|done]. assert (k < cl s n) by (eapply (g_own _ H); congruence). lia. }
    split.
    + apply H.
    + intros r t1 u n1 u'. cbn. intros E1 E2. destruct (g_succ _ H _ _ _ _ _ E1 E2) as [X Y]. split; [by eapply tgt_le|done].
    + apply H.
    + cbn [s' thr lost claim]. intros m k E. destruct (g_lost _ H _ _ E) as (X & t1 & X1 & X2 & X3 & X4 & X5). split; [done|]. exists t1. split; [by eapply tgt_le|]. split; [done|]. split; [done|]. split.
      * destruct (own s m k) as [j|] eqn:Eo; [|done]. by rewrite (sl_own _ _ LE _ _ _ Eo).
      * intros j t' l9. cbn. unfold fset. destruct (decide (j = i)) as [->|]; [|apply X5]. cbn. intros [= <- <- <-]. rewrite app_nil_r. rewrite elem_of_list_In, filter_In, in_seq. intros [L _].
        rewrite FR in X4 by lia. done.
    + intros n' k. cbn. unfold fset. destruct (decide (n' = n ∧ cl s n ≤ k < cl s n + c)) as [[-> L]|N].
      * intros _. rewrite decide_True by done. lia.
      * intros O. pose proof (g_own _ H _ _ O). destruct (decide (n' = n)) as [->|]; lia.
    + intros n' k D. pose proof (g_dst _ H _ _ D) as O. destruct (own s n' k) as [j|] eqn:Eo; [|done]. by rewrite (sl_own _ _ LE _ _ _ Eo).
    + intros n'. destruct (g_don _ H n') as [N D]. split; [done|]. intros k Hk. destruct (D _ Hk) as (O & t1 & T & L). split.
      * destruct (own s n' k) as [j|] eqn:Eo; [|done]. by rewrite (sl_own _ _ LE _ _ _ Eo).
      * exists t1. split; [by eapply tgt_le|done].
    + intros j. cbn [s' thr pc claim]. unfold fset. destruct (decide (j = i)) as [->|].
      2:{ eapply pcG_le; [done| |apply H]. done. }
      split; [|split; [|done]].
      * intros t1 n1 [= <- <-]. eapply tgt_le; [done|by apply P].
      * intros t1 n1 l [= <- <- <-]. rewrite app_nil_r. split; [split|].
        -- apply NoDup_ListNoDup, List.NoDup_filter, seq_NoDup.
        -- intros k. rewrite elem_of_list_In, filter_In, in_seq. intros [L1 L2]. apply Nat.ltb_lt in L2. split; [|split; [|done]].
           ++ cbn. rewrite decide_True; [done|]. split; [done|lia].
           ++ intros Hd. destruct (proj2 (g_don _ H n) _ Hd) as (O & _). rewrite FR in O by lia. done.
        -- intros k. cbn. rewrite elem_of_list_In, filter_In, in_seq. intros [L1 L2]. destruct (dst s n k) as [d|] eqn:E; [|done].
           assert (own s n k ≠ None) as O by (eapply (g_dst _ H); congruence). rewrite FR in O by lia. done.
  - (* mark *) specialize (P i). rewrite H0 in P. destruct P as (P1 & P2 & _).
    destruct (P2 _ _ _ eq_refl) as [Q1 Q2]. cbn [todo] in Q2.
    eapply (G_quiet s _ i (match c with CEnt e => Ci t n k e ks dn | _ => Cp t n ks (k :: dn) end)); try done; [by left| |].
    + rewrite H0. cbn [hl]. destruct c; intros t1 n1 l1 [= <- <- <-]; eexists; (split; [done|]); intros k1; rewrite ?elem_of_app, ?elem_of_cons, ?elem_of_app, ?elem_of_cons; tauto.
    + assert (PM : (k :: ks) ++ dn ≡ₚ ks ++ k :: dn) by (cbn; by rewrite Permutation_middle).
      assert (Q1' : hold s i t n (ks ++ k :: dn)). { destruct Q1 as [N A]. split; [by rewrite <- PM|]. intros k1. rewrite <- PM. apply A. }
      destruct c; (split; [|split; [|done]]).
      * intros t1 n1 [= <- <-]. by apply P1.
      * intros t1 n1 l1 [= <- <- <-]. split; [done|]. intros k1 Hk. apply Q2. cbn in Hk. by right.
      * intros t1 n1 [= <- <-]. by apply P1.
      * intros t1 n1 l1 [= <- <- <-]. split; [done|]. intros k1 Hk. apply Q2. cbn in Hk. by right.
      * intros t1 n1 [= <- <-]. by apply P1.
      * intros t1 n1 l1 [= <- <- <-]. split; [done|]. done.
  - (* put *) specialize (P i). rewrite H0 in P. destruct P as (P1 & P2 & _). destruct (P2 _ _ _ eq_refl) as [Q1 Q2]. cbn [todo] in Q2. set (s' := add_ev _ _).
    assert (LE : sle s s') by (by apply sle_eq).
    assert (OW : own s n k = Some i). { apply Q1. by left. }
    split; try apply H.
    + intros m k1 E. destruct (g_lost _ H _ _ E) as (X & t1 & X1 & X2 & X3 & X4 & X5). split; [done|]. exists t1. split; [done|]. split; [done|]. split; [done|]. split; [done|].
      intros j t' l9. cbn. unfold fset. destruct (decide (j = i)) as [->|]; [|apply X5]. intros E'. apply (X5 i t' l9). rewrite H0. done.
    + intros n1 k1. cbn. unfold fset2. destruct (decide (n1 = n ∧ k1 = k)) as [[-> ->]|]; [|apply H]. intros _. congruence.
    + intros j. cbn [s' add_ev thr pc]. unfold fset. destruct (decide (j = i)) as [->|].
      * split; [|split; [|done]].
        -- intros t1 n1 [= <- <-]. by apply P1.
        -- intros t1 n1 l1 [= <- <- <-]. split; [done|]. cbn [todo]. intros k1 Hk. cbn. unfold fset2. rewrite decide_False.
           ++ apply Q2. by right.
           ++ intros [_ ->]. destruct Q1 as [N _]. apply list.NoDup_cons in N as [N _]. apply N. apply elem_of_app. by left.
      * eapply pcG_le; [done| |apply H]. intros n1 k1 O. split; [done|]. cbn. unfold fset2. rewrite decide_False; [done|]. intros [-> ->]. congruence.
  - (* put_meta *) specialize (P i). rewrite H0 in P. destruct P as (P1 & P2 & _). destruct (P2 _ _ _ eq_refl) as [Q1 Q2]. cbn [todo] in Q2.
    assert (PM : k :: ks ++ dn ≡ₚ ks ++ k :: dn) by (by rewrite Permutation_middle).
    eapply (G_quiet s _ i (Cp t n ks (k :: dn))); try done; [by left| |].
    + rewrite H0. intros t1 n1 l1 [= <- <- <-]. eexists; (split; [done|]). intros k1. by rewrite PM.
    + split; [|split; [|done]]; [intros t1 n1 [= <- <-]; by apply P1|]. intros t1 n1 l1 [= <- <- <-]. split; [|done].
      destruct Q1 as [N A]. split; [by rewrite <- PM|]. intros k1. rewrite <- PM. apply A.
  - (* full *) specialize (P i). rewrite H0 in P. destruct P as (P1 & P2 & _). destruct (P2 _ _ _ eq_refl) as [[Q0 Q1] Q2]. set (s' := thr _ _ _ _). pose proof (P1 _ _ eq_refl) as T.
    destruct (Q1 k ltac:(by left)) as (OW & ND & LT).
    assert (LL : ∀ m, lost s m ≠ None → lost s' m ≠ None). { intros m. cbn. unfold fset. destruct (decide (m = n)) as [->|]; [|done]. by destruct (lost s n). }
    assert (LE : sle s s') by (split; done).
    split; try apply H.
    + intros r t1 u n1 u' E1 E2. destruct (g_succ _ H _ _ _ _ _ E1 E2) as [X Y]. split; [by eapply tgt_le|done].
    + intros n1 u X. apply LL. by eapply (g_ab _ H).
    + assert (OLD : ∀ m k1, lost s m = Some k1 → ¬ isroot s' m ∧ ∃ t1, tgt s' t1 m ∧ k1 < tot t1 ∧ k1 ∉ cdon s' m ∧ own s' m k1 ≠ None ∧ ∀ j t' l, hl (pc s' j) = Some (t', m, l) → k1 ∉ l).
      { intros m k1 E. destruct (g_lost _ H _ _ E) as (X & t1 & X1 & X2 & X3 & X4 & X5). split; [done|]. exists t1. split; [by eapply tgt_le|]. split; [done|]. split; [done|]. split; [done|].
        intros j t' l9. cbn. unfold fset. destruct (decide (j = i)) as [->|]; [done|apply X5]. }
      intros m k1. cbn [s' thr lost lose]. unfold fset. destruct (decide (m = n)) as [->|]; [|apply OLD].
      destruct (lost s n) as [k0|] eqn:E; [intros [= <-]; by apply OLD|]. intros [= <-]. split.
      * intros (r & u & Er). destruct (root_pred _ _ _ _ H Er) as [[-> _]|(r' & t0 & u' & -> & _ & T0 & A)]; [destruct T; lia|].
        pose proof (tgt_uni _ _ _ _ H T T0) as ->. by apply ND, A.
      * exists t. split; [by eapply tgt_le|]. split; [done|]. split; [done|]. split; [cbn; congruence|]. intros j t' l9. cbn. unfold fset. destruct (decide (j = i)) as [->|N]; [done|].
        intros E' Hk. destruct (g_pc _ H j) as (_ & P3 & _). destruct (P3 _ _ _ E') as [[_ Z] _]. destruct (Z _ Hk) as [O _]. congruence.
    + intros n1. destruct (g_don _ H n1) as [N D]. split; [done|]. intros k1 Hk. destruct (D _ Hk) as (O & t1 & T1 & L). split; [done|]. exists t1. split; [by eapply tgt_le|done].
    + intros j. cbn [s' thr pc lose]. unfold fset. destruct (decide (j = i)) as [->|].
      * apply pcG_simple; [done| |].
        -- intros t1 n1 [= <- <-]. by eapply tgt_le.
        -- cbn. rewrite fset_eq. by destruct (lost s n).
      * eapply pcG_le; [done| |apply H]. done.
  - (* abort *) specialize (P i). rewrite H0 in P. destruct P as (P1 & _ & P2). eapply (G_quiet s _ i (Al t n)); try done; try (by apply pcG_simple).
    intros n1 u. cbn. unfold fset. destruct (decide (n1 = n)) as [->|]; [|by left]. intros [E|X]%elem_of_cons; [by right|by left].
  - (* count *) specialize (P i). rewrite H0 in P. destruct P as (P1 & P2 & _). destruct (P2 _ _ _ eq_refl) as [[Q0 Q1] _]. cbn [app] in Q0, Q1. pose proof (P1 _ _ eq_refl) as T. set (s' := thr _ _ _ _).
    assert (CE : cdon s' n = cdon s n ++ dn). { unfold cdon. cbn. rewrite fset_eq, fmap_app, concat_app. cbn. by rewrite app_nil_r. }
    assert (CN : ∀ n1, n1 ≠ n → cdon s' n1 = cdon s n1). { intros n1 N. unfold cdon. cbn. by rewrite fset_ne. }
    assert (LE : sle s s'). { split; try done. intros n1 k1 Hk. destruct (decide (n1 = n)) as [->|]; [rewrite CE; apply elem_of_app; by left|by rewrite CN]. }
    assert (ND : NoDup (cdon s' n)). { rewrite CE. apply list.NoDup_app. split; [apply H|]. split; [|done]. intros x Hx Hd. by destruct (Q1 _ Hd) as (_ & Z & _). }
    assert (DON : ∀ k, k ∈ cdon s' n → own s n k ≠ None ∧ ∃ t1, tgt s t1 n ∧ k < tot t1). { intros k. rewrite CE. intros [Hk|Hk]%elem_of_app; [by apply H|]. destruct (Q1 _ Hk) as (O & _ & L). split; [congruence|]. by exists t. }
    split; try apply H.
    + intros r t1 u0 n1 u' E1 E2. destruct (g_succ _ H _ _ _ _ _ E1 E2) as [X Y]. split; [by eapply tgt_le|]. intros k Hk. by apply LE, Y.
    + intros m k1 E. destruct (g_lost _ H _ _ E) as (X & t1 & X1 & X2 & X3 & X4 & X5). split; [done|]. exists t1. split; [by eapply tgt_le|]. split; [done|]. split; [|split; [done|]].
      * destruct (decide (m = n)) as [->|]; [|by rewrite CN]. rewrite CE. intros [Hk|Hk]%elem_of_app; [done|]. apply (X5 i t dn); [|done]. by rewrite H0.
      * intros j t' l9. cbn. unfold fset. destruct (decide (j = i)) as [->|]; [|apply X5]. destruct (decide _); done.
    + intros n1. destruct (decide (n1 = n)) as [->|]; [split; [done|]|rewrite CN by done; split; [apply H|]].
      * intros k Hk. destruct (DON _ Hk) as (O & t1 & T1 & L). split; [done|]. exists t1. split; [by eapply tgt_le|done].
      * intros k Hk. destruct (proj2 (g_don _ H n1) _ Hk) as (O & t1 & T1 & L). split; [done|]. exists t1. split; [by eapply tgt_le|done].
    + intros j. cbn [s' thr pc add_don]. unfold fset. destruct (decide (j = i)) as [->|].
      * destruct (decide _) as [E|_]; (apply pcG_simple; [done| |]); try done; try (intros t1 n1 [= <- <-]; by eapply tgt_le).
        intros k Hk. rewrite counted_all in E. eapply pigeon; [done| | |exact Hk].
        -- intros a Ha. destruct (DON _ Ha) as (_ & t1 & T1 & L). by rewrite (tgt_uni _ _ _ _ H T T1).
        -- rewrite CE, app_length. lia.
      * eapply pcG_le; [done| |apply H]. intros n1 k1 O. split; [|done]. destruct (decide (n1 = n)) as [->|]; [|by rewrite CN]. rewrite CE. intros [Hk|Hk]%elem_of_app; [done|]. destruct (Q1 _ Hk) as (O' & _). congruence.
  - (* count0 *) specialize (P i). rewrite H0 in P. destruct P as (P1 & _). eapply (G_quiet s _ i (Hp t n)); try done; try (by left); by apply pcG_simple.
  - (* no *) specialize (P i). rewrite H0 in P. destruct P as (P1 & _). eapply (G_quiet s _ i (Hp t n)); try done; try (by left); by apply pcG_simple.
  - (* promote *) specialize (P i). rewrite H0 in P. destruct P as (P1 & _ & P2). pose proof (P1 _ _ eq_refl) as T. set (s' := thr _ _ _ _).
    assert (IR : ∀ m, isroot s' m ↔ isroot s m ∨ m = n).
    { intros m. unfold isroot. cbn. split.
      - intros (r1 & u1 & E). apply lookup_app_Some in E as [E|[L E]]; [left; by eauto|]. right. apply list_lookup_singleton_Some in E as [_ E]. congruence.
      - intros [(r1 & u1 & E)| ->]; [exists r1, u1; by apply lookup_app_l_Some|]. exists (length (root s)). eexists. rewrite lookup_app_r by lia. by rewrite Nat.sub_diag. }
    assert (LE : sle s s'). { split; try done. intros m Hm. apply IR. by left. }
    assert (LN : lost s n = None). { destruct (lost s n) as [k|] eqn:E; [|done]. destruct (g_lost _ H _ _ E) as (_ & t1 & X1 & X2 & X3 & _). destruct X3. rewrite <- (tgt_uni _ _ _ _ H T X1) in X2. by apply P2. }
    split; try apply H.
    + destruct (g_root0 _ H) as [u0 E0]. exists u0. cbn. by apply lookup_app_l_Some.
    + intros r1 t1 u1 n1 u1' E1 E2. cbn in E1, E2. apply lookup_app_Some in E2 as [E2|[L2 E2]].
      * apply lookup_app_Some in E1 as [E1|[L1 _]]; [|apply lookup_lt_Some in E2; lia]. destruct (g_succ _ H _ _ _ _ _ E1 E2) as [X Y]. split; [by eapply tgt_le|done].
      * apply list_lookup_singleton_Some in E2 as [L3 [= <- _]]. apply lookup_app_Some in E1 as [E1|[L1 _]]; [|lia].
        assert (t1 = t) as ->. { rewrite last_lookup in H1. replace (Nat.pred (length (root s))) with r1 in H1 by lia. congruence. }
        split; [by eapply tgt_le|done].
    + intros m k E. cbn in E. destruct (g_lost _ H _ _ E) as (X & t1 & X1 & X2 & X3 & X4 & X5). split.
      * rewrite IR. intros [Y| ->]; [done|congruence].
      * exists t1. split; [by eapply tgt_le|]. split; [done|]. split; [done|]. split; [done|]. intros j t' l9. cbn. unfold fset. destruct (decide (j = i)) as [->|]; [done|apply X5].
    + intros n1. destruct (g_don _ H n1) as [N D]. split; [done|]. intros k1 Hk. destruct (D _ Hk) as (O & t1 & T1 & L). split; [done|]. exists t1. split; [by eapply tgt_le|done].
    + intros j. cbn [s' thr pc add_root]. unfold fset. destruct (decide (j = i)) as [->|].
      * apply pcG_simple; [done|done|]. split; [apply IR; by right|]. split; [apply LE, T|apply T].
      * eapply pcG_le; [done| |apply H]. done.
  - (* promote_fail *) specialize (P i). rewrite H0 in P. destruct P as (P1 & _ & P2). eapply (G_quiet s _ i (Use n)); try done; [by left|]. apply pcG_simple; [done|done|].
    destruct (KN i t n) as (r0 & u0 & E0 & L0); [by rewrite H0|]. assert (r0 ≠ r) by (intros ->; congruence).
    destruct (root s !! S r0) as [[n1 u1]|] eqn:E1; [|apply lookup_ge_None in E1; apply lookup_lt_Some in H1; lia].
    destruct (g_succ _ H _ _ _ _ _ E0 E1) as [T1 _]. assert (isroot s n1) as R1 by by exists (S r0), u1. by rewrite <- (succ_uni s t n n1 H (P1 _ _ eq_refl) P2 T1 R1).
  - (* promoted *) specialize (P i). rewrite H0 in P. destruct P as (_ & _ & P). eapply (G_quiet s _ i (Use n)); try done; [|apply pcG_simple; [done|done|apply P]].
    intros n1 u. cbn. unfold fset. destruct (decide (n1 = n)) as [->|]; [|by left]. intros [E|X]%elem_of_cons; [done|by left].
  - (* waited *) eapply (G_quiet s _ i (Use n)); try done; [by left|]. apply pcG_simple; [done|done|]. by eapply ST.
  - eapply (G_quiet s _ i (pc s i)); try done; try (by left); try (apply P); intros t1 n1 l E; by exists l.
Qed.
End Inv.
