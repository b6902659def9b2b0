(** Linearizability implies the history-level properties of [Props], continued. *)
From Verif Require Export PropsProofs2.

Section proofs3.
  Context {K V : Type} {Keq : EqDecision K}.
  Notation op := (op K V). Notation vres := (vres K V). Notation hevent := (hevent K V). Notation lact := (@lact K V).
  Context (H : list hevent) (S : list lact) (cut : nat → nat) (WF : wf_hist H) (L : linearizes H S cut).
  Notation cut_le := (cut_le H S cut L).

  Lemma write_or_keep (o : op) k m v r : key_of o = Some k → seq_op o m = Some (Some v, r) → may_write o k v ∨ m = Some v.
  Proof.
    destruct o; cbn; try done; intros [= ->]; intros E; repeat (case_match; simplify_eq/=; auto); simplify_eq/=; eauto 6.
  Qed.
  (** A value present was written by an action, and stayed since. *)
  Lemma writer n k v : sval S n k = Some v →
    ∃ m id o r, m < n ∧ S !! m = Some (LOp id o r) ∧ may_write o k v ∧ ∀ q, m < q → q ≤ n → sval S q k = Some v.
  Proof.
    induction n as [|n IH]; [done|]. intros E.
    assert (KEEP : sval S n k = Some v → ∃ m id o r, m < Datatypes.S n ∧ S !! m = Some (LOp id o r) ∧ may_write o k v ∧ ∀ q, m < q → q ≤ Datatypes.S n → sval S q k = Some v).
    { intros E'. destruct (IH E') as (m & id & o & r & A & B & C & D). exists m, id, o, r. split; [lia|]. split; [done|]. split; [done|].
      intros q Q1 Q2. destruct (decide (q = Datatypes.S n)) as [->|]; [done|]. apply D; lia. }
    destruct (S !! n) as [a|] eqn:Ea.
    2:{ apply lookup_ge_None in Ea. apply KEEP. by rewrite (sval_ge S n (Datatypes.S n)) by lia. }
    rewrite <- Nat.add_1_r, (sval_S _ _ _ Ea) in E. pose proof (l_legal _ _ _ L _ _ Ea) as LG.
    destruct (touch_dec a k) as [T|T]; [|rewrite lapply_other in E by done; by apply KEEP].
    destruct a as [id o r|id k' v']; cbn in T; [|subst k'; cbn in E; unfold supd in E; by rewrite decide_True in E].
    destruct LG as (k' & x & Ek & SQ). destruct T as [T _]. assert (k' = k) by congruence. subst k'. rewrite (lapply_op _ _ _ _ k x Ek SQ) in E. subst x.
    destruct (write_or_keep _ _ _ _ _ Ek SQ) as [W|W]; [|by apply KEEP]. exists n, id, o, r. split; [lia|]. split; [done|]. split; [done|].
    intros q Q1 Q2. assert (q = n + 1) by lia. subst q. rewrite (sval_S _ _ _ Ea). by apply lapply_op.
  Qed.
  Lemma one_act k v n n' id id' o o' r r' : one_writer H k v → S !! n = Some (LOp id o r) → S !! n' = Some (LOp id' o' r') → may_write o k v → may_write o' k v → n' = n.
  Proof.
    intros O E E' W W'. destruct (l_inv _ _ _ L _ _ E) as (h & i & oo & Eh & Be & _). destruct (l_inv _ _ _ L _ _ E') as (h' & i' & oo' & Eh' & Be' & _).
    cbn in Eh, Eh', Be, Be'. subst oo oo'. pose proof (O _ _ _ _ _ _ _ _ Eh Eh' W W') as ->. by eapply (l_once _ _ _ L).
  Qed.
  Lemma takes_eff (m : @smap K V) a k v : lallowed m a → takes m a k v → lapply m a k = None ∨ ∃ id o r w, a = LOp id o r ∧ may_write o k w ∧ lapply m a k = Some w.
  Proof.
    destruct a as [id o r|id k' v']; cbn [lallowed takes].
    - intros (k' & x & Ek & SQ) (Em & Ek' & T). assert (k' = k) by congruence. subst k'.
      rewrite (lapply_op m id o r k x Ek SQ). rewrite Em in SQ. destruct x as [w|]; [right; exists id, o, r, w; split; [done|]; split; [|done]|by left].
      destruct o; cbn in *; try done; injection Ek as ->; repeat (case_match; simplify_eq/=; eauto 6); simplify_eq/=; eauto 6.
    - intros _ (_ & ->). left. cbn. unfold supd. by rewrite decide_True.
  Qed.
  Lemma p_removed_once : removed_once H S.
  Proof.
    intros k v O. assert (X : ∀ n n' a a', n < n' → S !! n = Some a → S !! n' = Some a' → takes (sval S n) a k v → takes (sval S n') a' k v → False).
    { intros n n' a a' Lt E E' T T'. destruct (writer n' k v (proj1 T')) as (m & id & o & r & A & B & C & D).
      destruct (writer n k v (proj1 T)) as (m0 & id0 & o0 & r0 & A0 & B0 & C0 & D0).
      assert (m0 = m) by (by eapply one_act). subst m0. pose proof (D (n + 1) ltac:(lia) ltac:(lia)) as X. rewrite (sval_S _ _ _ E) in X.
      destruct (takes_eff _ _ _ _ (l_legal _ _ _ L _ _ E) T) as [Y|(id1 & o1 & r1 & w & -> & W & Y)]; [congruence|]. assert (w = v) by congruence. subst w.
      assert (m = n) by (by eapply one_act). lia. }
    intros n n' a a' E E' T T'. destruct (lt_eq_lt_dec n' n) as [[Y|Y]|Y]; [|done|]; exfalso; [by eapply (X n' n)|by eapply (X n n')].
  Qed.
  Lemma taken_takes (o : op) m x v y k : key_of o = Some k → seq_op o m = Some (y, x) → taken o x = Some v → m = Some v.
  Proof. destruct o; cbn; try done; intros [= ->]; intros E T; repeat (case_match; simplify_eq/=; auto); simplify_eq/=; auto. destruct m; by simplify_eq/=. Qed.
  Lemma p_handed_out_once : handed_out_once H.
  Proof.
    intros k v O a b i id o x a' b' i' id' o' x' C C' Ek Ek' T T'.
    destruct (call_act H S cut WF L _ _ _ _ _ _ k C Ek) as (n & y & E & _ & _ & SQ & _).
    destruct (call_act H S cut WF L _ _ _ _ _ _ k C' Ek') as (n' & y' & E' & _ & _ & SQ' & _).
    assert (n' = n) as ->; [|congruence]. eapply (p_removed_once k v O n n' _ _ E E').
    - split; [by apply (taken_takes _ _ _ _ _ _ Ek SQ T)|]. split; [done|]. by destruct o.
    - split; [by apply (taken_takes _ _ _ _ _ _ Ek' SQ' T')|]. split; [done|]. by destruct o'.
  Qed.
  Lemma p_real_time : real_time H S.
  Proof.
    intros a b i id o x a' b' i' id' o' x' n n' y y' C C' Lt E E'. destruct C as (r & _ & Cb). destruct C' as (r' & Ca & _).
    pose proof (l_res _ _ _ L n _ _ _ _ _ _ E Cb). pose proof (inv_cut H S cut WF L n' _ _ _ _ E' Ca). pose proof (cut_le (b + 1) (a' + 1) ltac:(lia)). lia.
  Qed.
  Lemma p_reads_monotone : reads_monotone H.
  Proof.
    intros k u v a b i w C N Ou Ov g0 g1 j jd h0 h1 l ld y CG CH Lt ->.
    destruct (call_act H S cut WF L _ _ _ _ _ _ k C eq_refl) as (n & x & E & _ & _ & SQ & X & _).
    destruct (call_act H S cut WF L _ _ _ _ _ _ k CG eq_refl) as (m & x1 & E1 & _ & _ & SQ1 & _).
    destruct (call_act H S cut WF L _ _ _ _ _ _ k CH eq_refl) as (q & x2 & E2 & _ & _ & SQ2 & _).
    pose proof (p_real_time _ _ _ _ _ _ _ _ _ _ _ _ _ _ _ _ CG CH Lt E1 E2) as Lq.
    cbn in SQ, SQ1, SQ2. injection SQ as _ Eu. injection SQ1 as _ Ev. injection SQ2 as _ Eu2.
    assert (Ev' : sval S m k = Some v) by (destruct (sval S m k); [by injection Ev as ->|done]).
    assert (Eu' : sval S q k = Some u) by (destruct (sval S q k); [by injection Eu2 as ->|done]).
    destruct (writer m k v Ev') as (p & id & o & r & P1 & P2 & P3 & P4). assert (p = n) by (eapply (one_act k v n p); [done|exact E|exact P2|done|done]). subst p.
    destruct (writer q k u Eu') as (p & id2 & o2 & r2 & Q1 & Q2 & Q3 & Q4).
    destruct (writer n k u Eu) as (p' & id3 & o3 & r3 & R1 & R2 & R3 & R4).
    assert (p' = p) by (exact (one_act k u _ _ _ _ _ _ _ _ Ou Q2 R2 Q3 R3)). subst p'. pose proof (Q4 m ltac:(lia) ltac:(lia)). congruence.
  Qed.
  Lemma call_only a b i id (o : op) k x n : call H a b i id o x → key_of o = Some k → S !! n = Some (LOp id o x) → ∀ m c, S !! m = Some c → a_id c = id → m = n.
  Proof. intros C Ek E m c Em Ec. by eapply act_once. Qed.
  Lemma p_try_insert : try_insert_spec H S cut.
  Proof.
    intros a b i id k v x C. destruct (call_act H S cut WF L _ _ _ _ _ _ k C eq_refl) as (n & y & E & A & B & SQ & X & XO). exists n. split; [done|]. split; [done|].
    split; [by eapply call_only|]. cbn in SQ. destruct (sval S n k) as [c|] eqn:Es; injection SQ as <- <-; [right|by left]. exists c. split; [done|]. split; [done|].
    intros k'. destruct (decide (k' = k)) as [->|]; [congruence|by apply XO].
  Qed.
  Lemma p_remove_if : remove_if_spec H S cut.
  Proof.
    intros a b i id k f x C. destruct (call_act H S cut WF L _ _ _ _ _ _ k C eq_refl) as (n & y & E & A & B & SQ & X & XO). exists n. split; [done|]. split; [done|].
    assert (Z : y = sval S n k → ∀ k', sval S (n + 1) k' = sval S n k') by (intros Ey k'; destruct (decide (k' = k)) as [->|]; [congruence|by apply XO]).
    cbn in SQ. destruct (sval S n k) as [c|] eqn:Es; [destruct (f k c) eqn:Ef|]; injection SQ as <- <-.
    - right; right. by exists c.
    - right; left. exists c. auto.
    - left. auto.
  Qed.
  Lemma p_update : update_spec H S cut.
  Proof.
    intros a b i id k g x C. destruct (call_act H S cut WF L _ _ _ _ _ _ k C eq_refl) as (n & y & E & A & B & SQ & X & XO). exists n. split; [done|]. split; [done|].
    split; [by eapply call_only|]. cbn in SQ. destruct (sval S n k) as [c|] eqn:Es; injection SQ as <- <-; [right|by left]. by exists c.
  Qed.
  Lemma p_iter_nodup : iterates H S cut → iter_no_duplicates H.
  Proof.
    intros (I1 & I2 & I3) i j c.
    assert (X : ∀ h h' k v v', h < h' → yields H i j c h k v → yields H i j c h' k v' →
      (∀ q t id o, H !! q = Some (HInv t id o) → may_remove o k → returned_before H c t id o ∨ h' ≤ q) → False).
    { intros h h' k v v' Lt Y Y' NR. destruct (I2 i j c h h' k v v' Y Y' Lt) as (n & n' & A & B & C & D & E).
      destruct (sval S n k) as [w|] eqn:Ew; [|done]. clear D.
      assert (Z : ∀ m, n ≤ m → m ≤ n' → sval S m k ≠ None); [|by apply (Z n' ltac:(lia) ltac:(lia))].
      induction 1 as [|m Lm IH]; intros Ln; [congruence|]. specialize (IH ltac:(lia)).
      destruct (S !! m) as [a|] eqn:Ea; [|apply lookup_ge_None in Ea; by rewrite (sval_ge S _ m) by lia].
      pose proof (l_legal _ _ _ L _ _ Ea) as LG. rewrite <- Nat.add_1_r, (sval_S _ _ _ Ea).
      destruct (touch_dec a k) as [T|T]; [|by rewrite lapply_other]. intros EN. destruct (l_inv _ _ _ L _ _ Ea) as (q & t & o & Eq & Be & Lc).
      assert (MR : may_remove o k).
      { destruct a as [id o' r|id k' v1]; cbn in T, Be.
        - subst o'. destruct LG as (k' & x & Ek & SQ). destruct T as [T NG]. assert (k' = k) by congruence. subst k'.
          rewrite (lapply_op _ _ _ _ k x Ek SQ) in EN. subst x. destruct (sval S m k) as [z|]; [|done]. clear -Ek SQ.
          destruct o; cbn in *; try done; injection Ek as ->; repeat (case_match; simplify_eq/=; eauto); simplify_eq/=; eauto.
        - subst k'. destruct Be as [->|(f & -> & Ef)]; [done|]. by exists v1. }
      destruct (NR q t _ o Eq MR) as [R|G].
      - pose proof (act_before H S cut L m a c t o Ea R). pose proof (cut_le c (c + 1) ltac:(lia)). lia.
      - pose proof (cut_le (h' + 1) (q + 1) ltac:(lia)). lia. }
    intros h h' k v v' Y Y' NR. destruct (lt_eq_lt_dec h' h) as [[Z|Z]|Z]; [|done|]; exfalso.
    - apply (X h' h k v' v Z Y' Y). intros q t id o A B. destruct (NR q t id o A B) as [|[? ?]]; auto.
    - apply (X h h' k v v' Z Y Y'). intros q t id o A B. destruct (NR q t id o A B) as [|[? ?]]; auto.
  Qed.
End proofs3.
