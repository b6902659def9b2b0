(** Linearizability implies the history-level properties of [Props]. *)
From Verif Require Export SpecLemmas.

Section proofs.
  Context {K V : Type} {Keq : EqDecision K}.
  Notation op := (op K V). Notation vres := (vres K V). Notation hevent := (hevent K V). Notation lact := (@lact K V).
  Context (H : list hevent) (S : list lact) (cut : nat → nat) (WF : wf_hist H) (L : linearizes H S cut).

  Lemma left_by_spec (o : op) m x r : seq_op o m = Some (x, r) → x = left_by o r.
  Proof.
    destruct o; cbn; try done.
    - intros [= <- <-]. cbn. by destruct m.
    - by intros [= <- <-].
    - destruct m; by intros [= <- <-].
    - by intros [= <- <-].
    - destruct m as [c|]; [|by intros [= <- <-]]. destruct (pred _ _); by intros [= <- <-].
    - destruct (f _); destruct m; by intros [= <- <-].
    - destruct m; by intros [= <- <-].
    - destruct m; by intros [= <- <-].
    - destruct m; by intros [= <- <-].
  Qed.
  Lemma ow_res P k h1 g i id o r v : H !! g = Some (HRes i id o r v) → only_writers P k h1 g H → only_writers P k h1 (g + 1) H.
  Proof.
    intros E O h i' id' o' Eh T. destruct (O h i' id' o' Eh T) as [?|[?|G]]; [by left|by right; left|right; right].
    assert (h ≠ g) by (intros ->; congruence). lia.
  Qed.
  Lemma cut_le h h' : h ≤ h' → cut h ≤ cut h'.
  Proof. apply (l_mono _ _ _ L). Qed.

  Lemma p_reads_last_write : reads_last_write H.
  Proof.
    intros h0 h1 i id o x k g0 g1 j jd y C Ek CG Lt O. pose proof (call_lt H WF _ _ _ _ _ _ CG) as LG.
    assert (O' : only_writers (λ id' _, id' = id) k h0 (g1 + 1) H) by (destruct CG as (r & _ & E); by eapply ow_res).
    destruct (last_writer H S cut WF L h0 h1 (g1 + 1) i id o x k C Ek ltac:(lia) O') as (n & b & E & A & B & SQ & ST & _).
    destruct (call_act H S cut WF L _ _ _ _ _ _ k CG eq_refl) as (m & b' & E' & A' & B' & SQ' & _).
    pose proof (cut_le (h1 + 1) (g0 + 1) ltac:(lia)).
    rewrite (ST m) in SQ' by lia. apply left_by_spec in SQ. subst b. cbn in SQ'. by injection SQ' as _ <-.
  Qed.

  (** ** try_insert *)
  Lemma try_act k (o : op) m x r : is_try k o → seq_op o m = Some (x, r) →
    ∃ w won, try_res r = Some (w, won) ∧ x = Some w ∧ (m = None → won = true ∧ (o = OTryInsert k w ∨ o = OTryInsertWith k w)) ∧ (∀ c, m = Some c → w = c ∧ won = false).
  Proof.
    intros (v & [->| ->]) E; cbn in E; destruct m as [c|]; injection E as <- <-; cbn.
    - exists c, false. split_and!; try done. by intros ? [= <-].
    - exists v, true. split_and!; try done. auto.
    - exists c, false. split_and!; try done. by intros ? [= <-].
    - exists v, true. split_and!; try done. auto.
  Qed.
  Lemma try_key k (o : op) : is_try k o → key_of o = Some k.
  Proof. by intros (v & [->| ->]). Qed.
  Lemma try_touch k (o : op) : is_try k o → touches o k.
  Proof. by intros (v & [->| ->]). Qed.
  (** In a window where only try_insert-like calls write [k], a bound key keeps its value. *)
  Lemma try_keep (P : nat → op → Prop) k h0 h2 n m w : (∀ id o, P id o → is_try k o) → only_writers P k h0 h2 H → cut h0 ≤ n → n ≤ m → m ≤ cut h2 →
    sval S n k = Some w → sval S m k = Some w.
  Proof.
    intros HP O A. induction 1 as [|m Lm IH]; intros B E; [done|]. specialize (IH ltac:(lia) E).
    destruct (S !! m) as [a|] eqn:Ea; [|apply lookup_ge_None in Ea; rewrite <- IH; erewrite sval_ge; [done|lia|lia]].
    rewrite <- Nat.add_1_r, (sval_S _ _ _ Ea).
    destruct a as [id o r|id k' v].
    - destruct (decide (key_of o = Some k)) as [Ek|Nk]; [|rewrite lapply_other; [done|by eapply l_legal|cbn; intros [? _]; done]].
      destruct (l_legal _ _ _ L _ _ Ea) as (k1 & x & Ek1 & SQ). assert (k1 = k) by congruence. subst k1.
      rewrite (lapply_op _ _ _ _ k x Ek SQ). rewrite IH in SQ.
      assert (T : o = OGet k ∨ is_try k o).
      { destruct (l_inv _ _ _ L _ _ Ea) as (h & i & o' & Eh & Be & Lc). cbn in Be. subst o'.
        destruct o; try (by left; cbn in Ek; injection Ek as ->).
        all: right; destruct (window_act H S cut WF L P k h0 h2 m _ O ltac:(lia) ltac:(lia) Ea) as (h3 & i3 & o3 & Eh3 & Pt & Be & _);
          [split; [done|done]|]; cbn in Be; subst; by eapply HP. }
      destruct T as [->|T]; [cbn in SQ; by injection SQ as <- _|].
      destruct (try_act k o _ _ _ T SQ) as (w' & won & _ & -> & _ & X). by destruct (X w eq_refl) as [-> _].
    - destruct (decide (k' = k)) as [->|N].
      + destruct (window_act H S cut WF L P k h0 h2 m _ O ltac:(lia) ltac:(lia) Ea) as (h3 & i3 & o3 & Eh3 & Pt & Be & _); [done|].
        apply HP in Pt. destruct Be as [->|(f & -> & _)]; by destruct Pt as (v0 & [?|?]).
      + rewrite lapply_other; [done|by eapply l_legal|done].
  Qed.
  Lemma try_call k a b i id (o : op) x : call H a b i id o x → is_try k o → ∃ n w won, S !! n = Some (LOp id o x) ∧ cut (a + 1) ≤ n ∧ n < cut (b + 1) ∧
    try_res x = Some (w, won) ∧ sval S (n + 1) k = Some w ∧ (won = true ↔ sval S n k = None) ∧ (∀ c, sval S n k = Some c → w = c) ∧
    (won = true → o = OTryInsert k w ∨ o = OTryInsertWith k w).
  Proof.
    intros C T. destruct (call_act H S cut WF L _ _ _ _ _ _ k C (try_key _ _ T)) as (n & y & E & A & B & SQ & X & _).
    destruct (try_act k o _ _ _ T SQ) as (w & won & R & -> & N1 & N2). exists n, w, won. split_and!; try done.
    - split; [|by intros N; apply N1]. intros ->. destruct (sval S n k) as [c|]; [|done]. by destruct (N2 c eq_refl).
    - intros c E'. by apply N2.
    - intros ->. destruct (sval S n k) as [c|]; [by destruct (N2 c eq_refl)|by apply N1].
  Qed.
  Lemma tries_order k h0 h2 a b i id (o : op) x a' b' i' id' o' x' : only_writers (λ _ o, is_try k o) k h0 h2 H →
    call H a b i id o x → is_try k o → h0 ≤ a → b < h2 → call H a' b' i' id' o' x' → is_try k o' → h0 ≤ a' → b' < h2 →
    ∃ w won won', try_res x = Some (w, won) ∧ try_res x' = Some (w, won') ∧ (won = true → won' = true → id' = id).
  Proof.
    intros O C T A B C' T' A' B'.
    destruct (try_call k _ _ _ _ _ _ C T) as (n & w & won & E & N1 & N2 & R & X & W1 & W2 & _).
    destruct (try_call k _ _ _ _ _ _ C' T') as (n' & w' & won' & E' & N1' & N2' & R' & X' & W1' & W2' & _).
    pose proof (cut_le h0 (a + 1) ltac:(lia)). pose proof (cut_le h0 (a' + 1) ltac:(lia)).
    pose proof (cut_le (b + 1) h2 ltac:(lia)). pose proof (cut_le (b' + 1) h2 ltac:(lia)).
    destruct (lt_eq_lt_dec n n') as [[Lt|Eq]|Gt].
    - assert (Y : sval S n' k = Some w) by (eapply (try_keep _ k h0 h2 (n + 1)); [|done|lia|lia|lia|done]; done).
      apply W2' in Y as Y2. subst w'. exists w, won, won'. split_and!; try done. intros _ Z. apply W1' in Z. congruence.
    - subst n'. rewrite E in E'. injection E' as -> -> ->. rewrite R in R'. injection R' as <- <-. by exists w, won, won.
    - assert (Y : sval S n k = Some w') by (eapply (try_keep _ k h0 h2 (n' + 1)); [|done|lia|lia|lia|done]; done).
      apply W2 in Y as Y2. subst w'. exists w, won, won'. split_and!; try done. intros Z _. apply W1 in Z. congruence.
  Qed.
  Lemma p_tries_agree : tries_agree H.
  Proof.
    intros k h0 h2 O a b i id o x C T A B. destruct (try_call k _ _ _ _ _ _ C T) as (n & w & won & E & N1 & N2 & R & X & W1 & W2 & _).
    exists w, won. split; [done|]. split.
    - intros a' b' i' id' o' x' C' T' A' B'.
      destruct (tries_order _ _ _ _ _ _ _ _ _ _ _ _ _ _ _ O C T A B C' T' A' B') as (w1 & won1 & won' & R1 & R1' & U).
      rewrite R in R1. injection R1 as <- <-. by exists won'.
    - intros a' b' i' id' y C' A' B'. destruct (call_act H S cut WF L _ _ _ _ _ _ k C' eq_refl) as (m & z & E' & M1 & M2 & SQ & _).
      pose proof (cut_le h0 (a + 1) ltac:(lia)). pose proof (cut_le (b + 1) (a' + 1) ltac:(lia)). pose proof (cut_le (b' + 1) h2 ltac:(lia)).
      assert (Y : sval S m k = Some w) by (eapply (try_keep _ k h0 h2 (n + 1)); [|done|lia|lia|lia|done]; done).
      rewrite Y in SQ. cbn in SQ. by injection SQ as _ <-.
  Qed.
  Lemma absent_sval k b : absent_at k b H → sval S (cut b) k = None.
  Proof.
    intros [A|(h0 & h1 & i & id & o & x & C & Ek & Lb & Lt & O)].
    - rewrite (quiet_range H S cut L k 0 (cut b)); [done|lia|]. intros m a _ Lm E T.
      destruct (touch_inv H S cut L m a k E T) as (h & i & o & Eh & To & _ & Lc). pose proof (A h i _ o Eh To).
      pose proof (cut_le b (h + 1) ltac:(lia)). lia.
    - destruct (last_writer H S cut WF L h0 h1 b i id o x k C Ek Lt O) as (n & y & E & A & B & SQ & ST & _).
      pose proof (cut_le (h1 + 1) b ltac:(lia)). rewrite (ST (cut b)); [|lia|lia]. apply left_by_spec in SQ. congruence.
  Qed.
  Lemma res_call h i id (o : op) r v : H !! h = Some (HRes i id o r v) → ∃ h0, call H h0 h i id o v.
  Proof. intros E. destruct (wf_res _ WF _ _ _ _ _ _ E) as (h0 & _ & E0). exists h0. by exists r. Qed.
  (** Strong induction on a window: the first action on [k]. *)
  Lemma first_touch k n n' : n ≤ n' → (∀ m a, n ≤ m → m < n' → S !! m = Some a → ¬ a_touches a k) ∨
    ∃ m a, n ≤ m ∧ m < n' ∧ S !! m = Some a ∧ a_touches a k ∧ sval S m k = sval S n k.
  Proof.
    induction 1 as [|n' Ln IH]; [left; intros; lia|]. destruct IH as [Q|(m & a & A & B & X)]; [|right; exists m, a; split; [done|]; split; [lia|done]].
    destruct (S !! n') as [a|] eqn:E.
    - assert (D : Decision (a_touches a k)).
      { destruct a as [id o r|id k' v]; cbn; [|apply _]. apply and_dec; [apply _|]. destruct o; try (left; done). destruct (decide (k0 = k)) as [->|N]; [by right; intros []|left; congruence]. }
      destruct D as [T|T].
      + right. exists n', a. split_and!; try done; try lia. by apply (quiet_range H S cut L).
      + left. intros m a' A B E'. destruct (decide (m = n')) as [->|]; [rewrite E in E'; by injection E' as <-|]. eapply Q; [done|lia|done].
    - left. intros m a' A B E'. destruct (decide (m = n')) as [->|]; [congruence|]. eapply Q; [done|lia|done].
  Qed.
  Lemma p_unique_winner : unique_winner H.
  Proof.
    intros k b h2 AB TR (h & i & id & o & Eh & To & Lb & Lh).
    assert (O : only_writers (λ _ o, is_try k o) k b h2 H).
    { intros h' i' id' o' Eh' To'. destruct (decide (h2 ≤ h')) as [|N2]; [by right; right|].
      destruct (decide (b ≤ h')) as [G|N1]; [left; eapply TR; [done|done|done|lia]|]. right. left.
      destruct AB as [A|(h0 & h1 & i0 & id0 & o0 & x0 & C & Ek & Lb' & Lt & OW)]; [apply A in Eh'; [lia|done]|].
      destruct (OW h' i' id' o' Eh' To') as [->|[R|?]]; [| |lia].
      - destruct C as (r & E0 & E1). pose proof (wf_inv _ WF _ _ _ _ _ _ _ E0 Eh') as <-. rewrite E0 in Eh'. injection Eh' as <- <-. left. by exists h1, r, x0.
      - pose proof (call_lt H WF _ _ _ _ _ _ C). destruct R as [(h3 & r & v & L3 & E3)|(h3 & why & E3 & [L3|NK])].
        + left. exists h3, r, v. split; [lia|done].
        + right. exists h3, why. split; [done|left; lia].
        + right. exists h3, why. auto. }
    pose proof (absent_sval k b AB) as EN.
    destruct (TR h i id o Eh To Lb Lh) as [T0 (h' & r & v & Lr & Er)].
    destruct (res_call _ _ _ _ _ _ Er) as (h0' & C0). assert (h0' = h).
    { destruct C0 as (r' & E0 & _). by eapply (wf_inv _ WF). } subst h0'.
    destruct (try_call k _ _ _ _ _ _ C0 T0) as (n & w0 & won0 & E & N1 & N2 & R & X & W1 & W2 & _).
    pose proof (cut_le b (h + 1) ltac:(lia)). pose proof (cut_le (h' + 1) h2 ltac:(lia)).
    destruct (first_touch k (cut b) (n + 1) ltac:(lia)) as [Q|(m & a & M1 & M2 & Ea & Ta & Ev)].
    { exfalso. apply (Q n _ ltac:(lia) ltac:(lia) E). split; [by apply try_key|]. intros ->. by destruct T0 as (? & [?|?]). }
    rewrite EN in Ev. destruct (window_act H S cut WF L _ k b h2 m a O ltac:(lia) ltac:(lia) Ea Ta) as (h3 & i3 & o3 & E3 & T3 & Be & L3).
    destruct a as [id3 o3' r3|id3 k3 v3]; cbn in *; [|destruct Be as [->|(f & -> & _)]; by destruct T3 as (? & [?|?])]. subst o3'.
    destruct (l_legal _ _ _ L _ _ Ea) as (k1 & y & Ek1 & SQ). assert (k1 = k) by (apply try_key in T3; congruence). subst k1. rewrite Ev in SQ.
    destruct (try_act k o3 _ _ _ T3 SQ) as (w & won & R3 & -> & NN & _). destruct (NN eq_refl) as [-> OW].
    assert (AFT : sval S (m + 1) k = Some w) by (rewrite (sval_S _ _ _ Ea); apply lapply_op; [done|by rewrite Ev]).
    exists w, id3. split; [by exists h3, i3, o3|]. intros a c i' id' o' x' C' T' La Lc.
    destruct (try_call k _ _ _ _ _ _ C' T') as (n' & w' & won' & E' & N1' & N2' & R' & X' & W1' & W2' & _).
    pose proof (cut_le b (a + 1) ltac:(lia)). pose proof (cut_le (c + 1) h2 ltac:(lia)).
    destruct (lt_eq_lt_dec m n') as [[Lt|Eq]|Gt].
    - assert (Y : sval S n' k = Some w) by (eapply (try_keep _ k b h2 (m + 1)); [|done|lia|lia|lia|done]; done).
      apply W2' in Y as Y2. subst w'. rewrite R'. destruct won'; [by rewrite (proj1 W1' eq_refl) in Y|]. rewrite bool_decide_eq_false_2; [done|].
      intros ->. assert (n' = m) by (by eapply (l_once _ _ _ L)). lia.
    - subst n'. rewrite Ea in E'. injection E' as <- <- <-. by rewrite bool_decide_eq_true_2.
    - exfalso. assert (Y : sval S m k = Some w') by (eapply (try_keep _ k b h2 (n' + 1)); [|done|lia|lia|lia|done]; done). congruence.
  Qed.
End proofs.
