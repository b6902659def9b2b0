(** Proofs of the client programs of [Client], for any history with an explaining linearization. *)
From Verif Require Export Client PropsProofs3.

Section one.
  Context {K V : Type} {Keq : EqDecision K}.
  Notation op := (op K V). Notation vres := (vres K V). Notation hevent := (hevent K V). Notation lact := (@lact K V).
  Context (t : nat) (H : list hevent) (S : list lact) (cut : nat → nat) (WF : wf_hist H) (EXP : explains H S cut).
  Let L : linearizes H S cut := proj1 EXP.
  Implicit Types (p q : nat) (k : K).

  (** The contents after [p] events. *)
  Definition at_ p : @smap K V := sval S (cut p).
  (** Every call invoked before [p] has returned. *)
  Definition qat p : Prop := ∀ h i id o, H !! h = Some (HInv i id o) → h < p → returned_before H p i id o.
  (** In [p, q), only thread [t] invokes calls. *)
  Definition mine p q : Prop := ∀ h i id o, H !! h = Some (HInv i id o) → p ≤ h → h < q → i = t.

  Lemma alone_qat a b : a ≤ b → alone t H a b → qat a.
  Proof. intros Lab A h i id o E Lt. destruct (A h i id o E ltac:(lia)) as [[_ ?]|?]; [lia|done]. Qed.
  Lemma alone_mine a b : alone t H a b → mine a b.
  Proof.
    intros A h i id o E Lt Lt'. destruct (A h i id o E Lt') as [[? _]|(h' & r & v & Lh & E')]; [done|].
    destruct (wf_res _ WF _ _ _ _ _ _ E') as (h2 & Lt2 & E2). pose proof (wf_inv _ WF _ _ _ _ _ _ _ E E2). lia.
  Qed.
  Lemma mine_sub p q p' q' : mine p q → p ≤ p' → q' ≤ q → mine p' q'.
  Proof. intros M A B h i id o E C D. apply (M h i id o E); lia. Qed.

  Lemma next_qat p o v q : qat p → mine p q → next_call t H p o v q → qat q ∧ p < q.
  Proof.
    intros Q M (h0 & h1 & id & Lp & C & -> & X). pose proof (call_lt _ WF _ _ _ _ _ _ C) as Lt. split; [|lia].
    intros h i id' o' E Lh. destruct (decide (h < p)) as [Lhp|Nhp].
    - destruct (Q h i id' o' E Lhp) as (h' & r & v' & ? & ?). exists h', r, v'. split; [lia|done].
    - pose proof (M h i id' o' E ltac:(lia) Lh) as ->. destruct (decide (h = h0)) as [->|N0].
      + destruct C as (r & E0 & E1). rewrite E0 in E. injection E as <- <-. exists h1, r, v. split; [lia|done].
      + destruct (decide (h = h1)) as [->|N1]; [destruct C as (r & _ & E1); congruence|].
        by destruct (X h _ ltac:(lia) Lh N0 N1 E).
  Qed.
  (** The only call in the window is this one. *)
  Lemma next_only p o v q : qat p → mine p q → next_call t H p o v q →
    ∃ h0 h1 id, p ≤ h0 ∧ h0 < h1 ∧ q = h1 + 1 ∧ call H h0 h1 t id o v ∧
      (∀ h i id' o', H !! h = Some (HInv i id' o') → h < q → h = h0 ∨ returned_before H p i id' o') ∧
      (∀ n a, S !! n = Some a → cut p ≤ n → n < cut q → a_id a = id ∧ belongs a o) ∧
      (∀ h e, p ≤ h → h < q → h ≠ h0 → h ≠ h1 → H !! h = Some e → ¬ by_thread t e).
  Proof.
    intros Q M (h0 & h1 & id & Lp & C & -> & X). pose proof (call_lt _ WF _ _ _ _ _ _ C) as Lt.
    assert (ON : ∀ h i id' o', H !! h = Some (HInv i id' o') → h < h1 + 1 → h = h0 ∨ returned_before H p i id' o').
    { intros h i id' o' E Lh. destruct (decide (h < p)) as [Lhp|Nhp]; [right; by eapply Q|left].
      pose proof (M h i id' o' E ltac:(lia) Lh) as ->. destruct (decide (h = h0)) as [->|N0]; [done|].
      destruct (decide (h = h1)) as [->|N1]; [destruct C as (r & _ & E1); congruence|]. by destruct (X h _ ltac:(lia) Lh N0 N1 E). }
    exists h0, h1, id. split_and!; try done.
    intros n a E A B. destruct (l_inv _ _ _ L n a E) as (h & i & o' & Eh & Be & Lc).
    assert (Lh : h < h1 + 1).
    { destruct (decide (h < h1 + 1)); [done|]. pose proof (l_mono _ _ _ L (h1 + 1) (h + 1) ltac:(lia)). lia. }
    destruct (ON h i (a_id a) o' Eh Lh) as [->|R].
    - destruct C as (r & E0 & E1). rewrite E0 in Eh. injection Eh as _ <- <-. done.
    - pose proof (act_before H S cut L n a p i o' E R). lia.
  Qed.

  Lemma sval_same n n' : n ≤ n' → (∀ m a, n ≤ m → m < n' → S !! m = Some a → ∀ k, ¬ a_touches a k) → ∀ k, sval S n' k = sval S n k.
  Proof. intros A B k. eapply quiet_range; [done|done|]. intros m a M1 M2 E. by apply (B m a M1 M2 E). Qed.

  Lemma fresh_empty p : new_map H p → ∀ k, at_ p k = None.
  Proof.
    intros F. unfold at_. assert (E : cut p = 0).
    { destruct (decide (cut p = 0)) as [|N]; [done|]. exfalso. pose proof (l_bound _ _ _ L p). destruct (lookup_lt_is_Some_2 S 0 ltac:(lia)) as [a E].
      destruct (l_inv _ _ _ L 0 a E) as (h & i & o & Eh & _ & Lc). apply F in Eh. pose proof (l_mono _ _ _ L p (h + 1) ltac:(lia)). lia. }
    rewrite E. done.
  Qed.

  (** A call that changes nothing. *)
  Definition silent (o : op) : Prop := match o with OGet _ | OReserve _ | OLen | OIter | OIterNext _ => True | _ => False end.
  Lemma silent_touch (o : op) a k : silent o → belongs a o → ¬ a_touches a k.
  Proof.
    destruct a as [id o' r|id k' v]; cbn.
    - intros Si -> [Ek N]. destruct o; cbn in *; try done. congruence.
    - intros Si [->|(f & -> & _)]; done.
  Qed.
  Lemma next_silent p o v q : silent o → qat p → mine p q → next_call t H p o v q →
    ∀ n, cut p ≤ n → n ≤ cut q → ∀ k, sval S n k = at_ p k.
  Proof.
    intros Si Q M N n A B. destruct (next_only _ _ _ _ Q M N) as (h0 & h1 & id & _ & _ & _ & _ & _ & X & _).
    apply sval_same; [done|]. intros m a M1 M2 E k. destruct (X m a E M1 ltac:(lia)) as [_ Be]. by eapply silent_touch.
  Qed.
  Lemma cut_mono p q : p ≤ q → cut p ≤ cut q.
  Proof. apply (l_mono _ _ _ L). Qed.
  Lemma next_silent_at p o v q : silent o → qat p → mine p q → next_call t H p o v q → ∀ k, at_ q k = at_ p k.
  Proof.
    intros Si Q M N. destruct (next_qat _ _ _ _ Q M N) as [_ Lt]. apply (next_silent _ _ _ _ Si Q M N); [|done]. apply cut_mono. lia.
  Qed.
  (** A single-key call follows the sequential specification. *)
  Lemma next_key p o v q k : key_of o = Some k → qat p → mine p q → next_call t H p o v q →
    ∃ x, seq_op o (at_ p k) = Some (x, v) ∧ ∀ k', at_ q k' = supd (at_ p) k x k'.
  Proof.
    intros Ek Q M N. destruct (next_only _ _ _ _ Q M N) as (h0 & h1 & id & Lp & Lt & -> & C & _ & X & _).
    destruct (call_act H S cut WF L _ _ _ _ _ _ _ C Ek) as (n & x & E & A & B & SQ & X1 & X2).
    pose proof (cut_mono p (h0 + 1) ltac:(lia)).
    assert (U : ∀ m a, S !! m = Some a → cut p ≤ m → m < cut (h1 + 1) → m = n).
    { intros m a E' M1 M2. destruct (X m a E' M1 M2) as [Ei Be]. destruct a as [id' o' r|id' k' v']; cbn in *.
      - subst id' o'. by eapply (l_once _ _ _ L).
      - destruct Be as [->|(f & -> & _)]; done. }
    assert (P1 : ∀ k', sval S n k' = at_ p k').
    { intros k'. symmetry. symmetry. apply (sval_same (cut p) n); [lia|]. intros m a M1 M2 E' k2 _. pose proof (U m a E' M1 ltac:(lia)). lia. }
    assert (P2 : ∀ k', at_ (h1 + 1) k' = sval S (n + 1) k').
    { intros k'. apply (sval_same (n + 1) (cut (h1 + 1))); [lia|]. intros m a M1 M2 E' k2 _. pose proof (U m a E' ltac:(lia) M2). lia. }
    exists x. rewrite <- P1. split; [done|]. intros k'. rewrite P2. unfold supd. case_decide as D; [by subst|]. by rewrite X2.
  Qed.
  Lemma next_insert p k v r q : qat p → mine p q → next_call t H p (OInsert k v) r q → ∀ k', at_ q k' = supd (at_ p) k (Some v) k'.
  Proof. intros Q M N. destruct (next_key p (OInsert k v) r q k eq_refl Q M N) as (x & E & X). by injection E as <- _. Qed.
  Lemma next_get p k r q : qat p → mine p q → next_call t H p (OGet k) r q → r = VGet ((λ v, (k, v)) <$> at_ p k).
  Proof. intros Q M N. destruct (next_key p (OGet k) r q k eq_refl Q M N) as (x & E & X). by injection E as _ <-. Qed.
  (** [len] counts the bindings. *)
  Lemma next_len p n q : qat p → mine p q → next_call t H p OLen (VLen n) q → ∃ ks, NoDup ks ∧ (∀ k, k ∈ ks ↔ at_ p k ≠ None) ∧ length ks = n.
  Proof.
    intros Q M N. pose proof (next_silent_at p OLen _ q I Q M N) as EQ.
    destruct (next_only _ _ _ _ Q M N) as (h0 & h1 & id & Lp & Lt & -> & C & ON & _). destruct C as (r & E0 & E1).
    pose proof EXP as (_ & _ & _ & _ & LE). destruct (LE h0 h1 t id r n E0 E1) as (ks & A & B & D).
    - intros h i id' o' Lh E. destruct (ON h i id' o' E ltac:(lia)) as [->|(h' & r' & v' & ? & ?)].
      + left. rewrite E0 in E. by injection E.
      + right. exists h', r', v'. split; [lia|done].
    - exists ks. split; [done|]. split; [|done]. intros k. rewrite B. by rewrite <- EQ.
  Qed.

  (** *** Iterators *)
  Definition itf p := foldl (it_step (K:=K) (V:=V) t) (0, 0, []) (take p H).
  Lemma itf_S p e : H !! p = Some e → itf (p + 1) = it_step t (itf p) e.
  Proof. intros E. unfold itf. rewrite Nat.add_1_r, (take_S_r _ _ _ E), foldl_app. done. Qed.
  Lemma itf_pos p : p ≤ length H → (itf p).1.1 = p.
  Proof.
    induction p as [|p IH]; intros Lp; [done|]. destruct (lookup_lt_is_Some_2 H p ltac:(lia)) as [e E].
    rewrite <- Nat.add_1_r, (itf_S _ _ E). specialize (IH ltac:(lia)). destruct (itf p) as [[h last] acc]. cbn in IH. subst h.
    destruct e as [j id o|j id o r v| | |]; cbn; try lia. destruct o; cbn; lia.
  Qed.
  Lemma itf_skip p q : p ≤ q → (∀ h e, p ≤ h → h < q → H !! h = Some e → ¬ by_thread t e) → (itf q).1.2 = (itf p).1.2 ∧ (itf q).2 = (itf p).2.
  Proof.
    induction 1 as [|q Lq IH]; intros X; [done|]. destruct IH as [I1 I2]; [intros h e A B; apply X; lia|].
    destruct (H !! q) as [e|] eqn:E.
    - specialize (X q e ltac:(lia) ltac:(lia) E). rewrite <- Nat.add_1_r, (itf_S _ _ E). destruct (itf q) as [[h last] acc]. cbn in *.
      destruct e as [j id o|j id o r v|j id o w|j|j]; cbn in *; try (rewrite decide_False by done); try done. destruct o; done.
    - apply lookup_ge_None in E. unfold itf in *. rewrite !(take_ge H (Datatypes.S q)) by lia. rewrite (take_ge H q) in I1, I2 by lia. done.
  Qed.
  (** After a call, the iterators are as before, plus one if the call was [iter]. *)
  Lemma next_iters p o v q : qat p → mine p q → next_call t H p o v q →
    ∃ h0 h1, p ≤ h0 ∧ h0 < h1 ∧ q = h1 + 1 ∧ (∃ id r, H !! h1 = Some (HRes t id o r v)) ∧
      iters_of t (take h1 H) = iters_of t (take p H) ∧
      iters_of t (take q H) = match o with OIter => iters_of t (take p H) ++ [h0] | _ => iters_of t (take p H) end.
  Proof.
    intros Q M N. destruct (next_only _ _ _ _ Q M N) as (h0 & h1 & id & Lp & Lt & -> & (r & E0 & E1) & _ & _ & X).
    exists h0, h1. split_and!; try done; [by exists id, r|..].
    all: change (iters_of t (take p H)) with (itf p).2; unfold iters_of; fold (itf h1); fold (itf (h1 + 1)).
    all: destruct (itf_skip p h0 Lp) as [_ A2]; [intros h e ? ?; apply X; lia|].
    all: destruct (itf_skip (h0 + 1) h1 ltac:(lia)) as [B1 B2]; [intros h e ? ?; apply X; lia|].
    all: pose proof (itf_pos h0 (Nat.lt_le_incl _ _ (lookup_lt_Some _ _ _ E0))) as P0.
    all: rewrite (itf_S _ _ E0) in B1, B2; destruct (itf h0) as [[x1 x2] x3]; cbn in A2, B1, B2, P0; subst x3; rewrite decide_True in B1 by done.
    - done.
    - rewrite (itf_S _ _ E1). destruct (itf h1) as [[y1 y2] y3]. cbn in B1, B2. subst x1 y2 y3. cbn. destruct o; try done. cbn. by rewrite decide_True.
  Qed.

  (** Pulling the items [l] from iterator [j], with nothing else happening on this map in between. *)
  Inductive pulls (j : nat) : nat → list (K * V) → nat → Prop :=
    | pulls_nil p : pulls j p [] p
    | pulls_snoc p l q k v q' : pulls j p l q → next_call t H q (OIterNext j) (VNext (Some (k, v))) q' → pulls j p (l ++ [(k, v)]) q'.

  Lemma pulls_le j p l q : pulls j p l q → p ≤ q.
  Proof. induction 1 as [|p l q k v q' P IH (h0 & h1 & id & Lp & C & -> & _)]; [done|]. pose proof (call_lt _ WF _ _ _ _ _ _ C). lia. Qed.
  (** Everything about the state of an iteration after some items were pulled. *)
  Lemma pulls_ok p0 v0 p j l q : qat p0 → next_call t H p0 OIter v0 p → j = n_iters t H p0 → mine p0 q → pulls j p l q →
    qat q ∧ (∀ n, cut p0 ≤ n → n ≤ cut q → ∀ k, sval S n k = at_ p0 k) ∧
    ∃ c, p0 ≤ c ∧ iters_of t (take q H) !! j = Some c ∧
      ∀ k v, (k, v) ∈ l ↔ ∃ h, h < q ∧ p ≤ h ∧ yields H t j c h k v.
  Proof.
    intros Q0 NI Ej MI P. assert (Lpq := pulls_le _ _ _ _ P). revert MI. induction P as [p|p l q k v q' P IH N]; intros MI.
    - destruct (next_qat _ _ _ _ Q0 MI NI) as [Q1 Lt]. split; [done|]. split; [by eapply (next_silent _ OIter _ _ I)|].
      destruct (next_iters _ _ _ _ Q0 MI NI) as (h0 & h1 & A & B & -> & _ & _ & EI). exists h0. split; [done|]. split.
      + rewrite EI, Ej. unfold n_iters. by rewrite lookup_app_r, Nat.sub_diag by lia.
      + intros k v. split; [by intros ?%elem_of_nil|]. intros (h & ? & ? & _). lia.
    - pose proof (pulls_le _ _ _ _ P) as Lp1. assert (q < q') by (destruct N as (h0 & h1 & id & ? & C & -> & _); pose proof (call_lt _ WF _ _ _ _ _ _ C); lia).
      destruct IH as (Qq & SV & c & Lc & EI & HL); [done|done|by eapply mine_sub; [exact MI|lia|lia]|].
      assert (Mq : mine q q').
      { eapply mine_sub; [exact MI| |lia]. destruct (next_qat _ _ _ _ Q0 (mine_sub _ _ p0 p MI ltac:(lia) ltac:(lia)) NI). lia. }
      destruct (next_qat _ _ _ _ Qq Mq N) as [Qq' _]. split; [done|]. split.
      + intros n A B k'. destruct (decide (n ≤ cut q)) as [|Nq]; [by apply SV|].
        rewrite (next_silent _ (OIterNext j) _ _ I Qq Mq N n ltac:(lia) B). apply SV; [|lia]. apply cut_mono.
        destruct (next_qat _ _ _ _ Q0 (mine_sub _ _ p0 p MI ltac:(lia) ltac:(lia)) NI). lia.
      + destruct (next_iters _ _ _ _ Qq Mq N) as (h0 & h1 & A & B & -> & (id & r & E1) & EI1 & EI2). exists c. split; [done|].
        split; [by rewrite EI2|]. intros k' v'. rewrite elem_of_app, elem_of_list_singleton, HL. split.
        * intros [(h & ? & ? & Y)|[= -> ->]]; [exists h; split; [lia|]; split; [lia|done]|].
          exists h1. split; [lia|]. split; [lia|]. exists id, r. split; [done|]. by rewrite EI1.
        * intros (h & Lh & Lh' & Y). destruct (decide (h < q)) as [|Nh]; [left; exists h; by split_and!|right].
          destruct Y as (id' & r' & Y & _). destruct (decide (h = h1)) as [->|Nh1]; [rewrite Y in E1; by injection E1 as _ _ -> ->|].
          destruct (next_only _ _ _ _ Qq Mq N) as (g0 & g1 & gd & _ & _ & Eg & C & _ & _ & X). assert (g1 = h1) as -> by lia.
          destruct (decide (h = g0)) as [->|Ng]; [destruct C as (? & C0 & _); congruence|].
          by destruct (X h _ ltac:(lia) ltac:(lia) Ng Nh1 Y).
  Qed.
  Lemma itf_lt p c : p ≤ length H → c ∈ (itf p).2 ∨ (c = (itf p).1.2 ∧ 0 < c) → c < p.
  Proof.
    induction p as [|p IH] in c |- *; intros Lp; [unfold itf; rewrite take_0; cbn; intros [A%elem_of_nil|[-> A]]; [done|lia]|].
    destruct (lookup_lt_is_Some_2 H p ltac:(lia)) as [e E]. pose proof (itf_pos p ltac:(lia)) as P0. specialize (λ c, IH c ltac:(lia)) as IH'.
    rewrite <- Nat.add_1_r, (itf_S _ _ E). destruct (itf p) as [[h last] acc]. cbn in P0, IH'. subst h.
    destruct e as [j id o|j id o r v|j id o w|j|j]; cbn.
    - intros [A|[-> A]]; [specialize (IH' c (or_introl A)); lia|]. case_decide; [lia|]. specialize (IH' last (or_intror (conj eq_refl A))). lia.
    - destruct o; cbn; try (intros X; specialize (IH' c X); lia). case_decide; [|intros X; specialize (IH' c X); lia].
      intros [A|[-> A]]; [|specialize (IH' last (or_intror (conj eq_refl A))); lia].
      apply elem_of_app in A as [A|A%elem_of_list_singleton]; [specialize (IH' c (or_introl A)); lia|]. subst c.
      destruct (decide (last = 0)); [lia|]. assert (P1 : 0 < last) by lia. specialize (IH' last (or_intror (conj eq_refl P1))). lia.
    - case_decide; [|intros X; specialize (IH' c X); lia]. intros [A%elem_of_nil|[-> A]]; [done|]. specialize (IH' last (or_intror (conj eq_refl A))). lia.
    - intros X; specialize (IH' c X); lia.
    - case_decide; [|intros X; specialize (IH' c X); lia]. intros [A%elem_of_nil|[-> A]]; [done|]. specialize (IH' last (or_intror (conj eq_refl A))). lia.
  Qed.

  Lemma pulls_items p0 v0 p j l q : qat p0 → next_call t H p0 OIter v0 p → j = n_iters t H p0 → mine p0 q → pulls j p l q →
    NoDup l.*1 ∧ ∀ k v, (k, v) ∈ l → at_ p0 k = Some v.
  Proof.
    intros Q0 NI Ej MI P. assert (C : ∀ l q, mine p0 q → pulls j p l q → ∀ k v, (k, v) ∈ l → at_ p0 k = Some v).
    { clear l q MI P. intros l q MI P k v Hin. destruct (pulls_ok _ _ _ _ _ _ Q0 NI Ej MI P) as (Qq & SV & c & Lc & EI & HL).
      apply HL in Hin as (h & Lh & Lh' & Y). pose proof EXP as (_ & _ & (IT & _) & _). destruct (IT _ _ _ _ _ _ Y) as (n & A & B & E).
      rewrite <- E. symmetry. apply SV.
      - pose proof (cut_mono p0 (c + 1) ltac:(lia)). lia.
      - pose proof (cut_mono (h + 1) q ltac:(lia)). lia. }
    split; [|by eapply C]. revert MI. induction P as [p|p l q k v q' P IH N]; intros MI; [constructor|].
    assert (q < q') by (destruct N as (h0 & h1 & id & ? & Ca & -> & _); pose proof (call_lt _ WF _ _ _ _ _ _ Ca); lia).
    rewrite fmap_app. apply list.NoDup_app. split; [apply IH; [done|done|by eapply mine_sub; [exact MI|lia|lia]]|]. split; [|by apply NoDup_singleton].
    intros k' Hk Hk'. apply elem_of_list_singleton in Hk'. cbn in Hk'. subst k'. apply elem_of_list_fmap in Hk as ([k' v'] & -> & Hk). cbn in *.
    destruct (pulls_ok _ _ _ _ _ _ Q0 NI Ej MI (pulls_snoc _ _ _ _ _ _ _ P N)) as (Qq' & SV & c & Lc & EI & HL).
    pose proof (pulls_le _ _ _ _ P) as Lpq.
    assert (Mq : mine q q') by (eapply mine_sub; [exact MI| |lia]; destruct (next_qat _ _ _ _ Q0 (mine_sub _ _ p0 p MI ltac:(lia) ltac:(lia)) NI); lia).
    assert (MI0 : mine p0 q) by (eapply mine_sub; [exact MI|lia|lia]).
    destruct (pulls_ok _ _ _ _ _ _ Q0 NI Ej MI0 P) as (Qq & _ & c2 & _ & EI2 & HL2).
    destruct (next_iters _ _ _ _ Qq Mq N) as (h0 & h1 & Lq & Lt & -> & (id & r & E1) & EI1 & EI3).
    assert (c2 = c) as -> by (rewrite EI3 in EI; congruence).
    apply HL2 in Hk as (h & Lh & _ & Y).
    assert (Y' : yields H t j c h1 k' v) by (exists id, r; split; [done|]; by rewrite EI1).
    pose proof EXP as (_ & _ & (_ & IT & _) & _). destruct (IT _ _ _ _ _ _ _ _ Y Y' ltac:(lia)) as (n & n' & A1 & A2 & A3 & A4 & A5).
    apply A4. pose proof (cut_mono p0 (c + 1) ltac:(lia)). rewrite (SV n ltac:(lia) ltac:(lia)), <- (SV n' ltac:(lia) ltac:(lia)). done.
  Qed.
  (** A finished iteration has yielded every binding exactly once. *)
  Lemma pulls_done p0 v0 p j l q q' : qat p0 → next_call t H p0 OIter v0 p → j = n_iters t H p0 → mine p0 q' → pulls j p l q →
    next_call t H q (OIterNext j) (VNext None) q' →
    enumerates l (at_ p0) ∧ qat q' ∧ p0 ≤ q' ∧ ∀ k, at_ q' k = at_ p0 k.
  Proof.
    intros Q0 NI Ej MI P N. pose proof (pulls_le _ _ _ _ P) as Lpq.
    assert (q < q') by (destruct N as (h0 & h1 & id & ? & Ca & -> & _); pose proof (call_lt _ WF _ _ _ _ _ _ Ca); lia).
    assert (MI0 : mine p0 q) by (eapply mine_sub; [exact MI|lia|lia]).
    destruct (pulls_ok _ _ _ _ _ _ Q0 NI Ej MI0 P) as (Qq & SV & c & Lc & EI & HL).
    assert (Lp0 : p0 < p) by (by destruct (next_qat _ _ _ _ Q0 (mine_sub _ _ p0 p MI ltac:(lia) ltac:(lia)) NI)).
    assert (Mq : mine q q') by (eapply mine_sub; [exact MI|lia|lia]). destruct (next_qat _ _ _ _ Qq Mq N) as [Qq' _].
    destruct (pulls_items _ _ _ _ _ _ Q0 NI Ej MI0 P) as [ND IN].
    assert (SV' : ∀ n, cut p0 ≤ n → n ≤ cut q' → ∀ k, sval S n k = at_ p0 k).
    { intros n A B k. destruct (decide (n ≤ cut q)); [by apply SV|]. rewrite (next_silent _ (OIterNext j) _ _ I Qq Mq N n ltac:(lia) B k).
      apply SV; [apply cut_mono; lia|lia]. }
    split; [|split; [done|]; split; [lia|]; intros k; apply SV'; [apply cut_mono; lia|lia]].
    split; [done|]. intros k v. split; [apply IN|]. intros Ek.
    destruct (next_iters _ _ _ _ Qq Mq N) as (h0 & h1 & Lq & Lt & -> & (id & r & E1) & EI1 & _).
    pose proof EXP as (_ & _ & (_ & _ & IT) & _). rewrite <- EI1 in EI.
    destruct (IT _ _ _ _ _ _ E1 EI k) as [(h & v' & Lh & Y)|(n & A & B & E)].
    - assert (D : (k, v') ∈ l).
      { apply HL. exists h. destruct (decide (h < q)) as [Lhq|Nhq].
        - split; [done|]. split; [|done]. destruct (decide (p ≤ h)); [done|]. exfalso. destruct Y as (id' & r' & Y & YI).
          assert (c < h). { apply itf_lt; [by apply Nat.lt_le_incl; eapply lookup_lt_Some|]. left. by eapply elem_of_list_lookup_2. }
          destruct (next_only _ _ _ _ Q0 (mine_sub _ _ p0 p MI ltac:(lia) ltac:(lia)) NI) as (g0 & g1 & gd & ? & ? & Eg & (? & C0 & C1) & _ & _ & X).
          destruct (decide (h = g0)) as [->|]; [congruence|]. destruct (decide (h = g1)) as [->|]; [congruence|].
          by apply (X h _ ltac:(lia) ltac:(lia) ltac:(done) ltac:(done) Y).
        - exfalso. destruct (next_only _ _ _ _ Qq Mq N) as (g0 & g1 & gd & ? & ? & Eg & (? & C0 & C1) & _ & _ & X).
          destruct Y as (id' & r' & Y & YI). assert (g1 = h1) as -> by lia. destruct (decide (h = g0)) as [->|]; [congruence|].
          by apply (X h _ ltac:(lia) ltac:(lia) ltac:(done) ltac:(lia) Y). }
      pose proof (IN _ _ D). congruence.
    - exfalso. pose proof (cut_mono p0 (c + 1) ltac:(lia)). rewrite (SV' n ltac:(lia) B k) in E. congruence.
  Qed.
End one.

Section progs.
  Context {K V : Type} {Keq : EqDecision K}.
  Notation op := (op K V). Notation vres := (vres K V). Notation hevent := (hevent K V). Notation lact := (@lact K V).
  Context (t : nat) (Hs : nat → list hevent) (Ss : nat → list lact) (cuts : nat → nat → nat).
  Context (WF : ∀ m, wf_hist (Hs m)) (EXP : ∀ m, explains (Hs m) (Ss m) (cuts m)) (TY : ∀ m, typed (Hs m)).
  Implicit Types (p : pos).
  Notation At m q := (at_ (Ss m) (cuts m) q).
  Notation "'[qat]' m q" := (qat (Hs m) q) (at level 10, m at level 9, q at level 9).
  Notation Mine m a b := (mine t (Hs m) a b).

  Lemma next_le m q o v q' : next_call t (Hs m) q o v q' → q < q'.
  Proof. intros (h0 & h1 & id & ? & C & -> & _). pose proof (call_lt _ (WF m) _ _ _ _ _ _ C). lia. Qed.
  Lemma next_typed m q o v q' : next_call t (Hs m) q o v q' →
    match o with OLen => ∃ n, v = VLen n | OIterNext _ => ∃ x, v = VNext x | OIter => v = VIter | OReserve _ => v = VUnit | _ => True end.
  Proof. intros (h0 & h1 & id & ? & (r & _ & E) & -> & _). by apply (TY m h1 t id o r v). Qed.

  Lemma for_insert m (l : list (K * V)) p p' : cfor l (λ kv, ccall t Hs m (OInsert kv.1 kv.2);;; cret tt) p tt p' →
    p m ≤ p' m ∧ (∀ m', m' ≠ m → p' m' = p m') ∧
    (qat (Hs m) (p m) → Mine m (p m) (p' m) → qat (Hs m) (p' m) ∧ ∀ k, At m (p' m) k = write_all (At m (p m)) l k).
  Proof.
    revert p. induction l as [|[k v] l IH]; intros p; cbn.
    - intros [_ E]. split; [by rewrite E|]. split; [done|]. intros Q _. by rewrite E.
    - intros (a & p1 & (r & p2 & [N O] & [_ E2]) & F). apply IH in F as (Le & Ot & R). rewrite E2 in Le.
      assert (Lt := next_le _ _ _ _ _ N). split; [lia|]. split; [intros m' Hm; rewrite (Ot m' Hm), E2; by apply O|].
      intros Q M. rewrite E2 in R. assert (M1 : Mine m (p m) (p2 m)) by (eapply mine_sub; [exact M|lia|lia]).
      destruct (next_qat t (Hs m) (WF m) _ _ _ _ Q M1 N) as [Q1 _].
      destruct R as [Q2 R]; [done|by eapply mine_sub; [exact M|lia|lia]|]. split; [done|]. intros k'. rewrite R.
      pose proof (next_insert t (Hs m) (Ss m) (cuts m) (WF m) (EXP m) _ _ _ _ _ Q M1 N k') as X.
      change (write_all (At m (p m)) ((k, v) :: l) k') with (write_all (supd (At m (p m)) k (Some v)) l k').
      rewrite write_all_spec, X. symmetry. exact (write_all_spec l (supd (At m (p m)) k (Some v)) k').
  Qed.

  (** Iterating over map [m] while the body works on other maps only. *)
  Lemma iterate_ok {S} (Inv E : S → list (K * V) → pos → Prop) m j body (s : S) p a p' :
    c_iterate t Hs m j body s p a p' →
    (∀ l s k v p1 r p2, Inv s l p1 → body s k v p1 r p2 →
      p2 m = p1 m ∧ match r with inl s' => Inv s' (l ++ [(k, v)]) p2 | inr s' => E s' (l ++ [(k, v)]) p2 end) →
    (∀ s l p1 p2, Inv s l p1 → (∀ m', m' ≠ m → p2 m' = p1 m') → Inv s l p2) →
    Inv s [] p →
    p m ≤ p' m ∧ (∃ l, Inv a l p' ∨ E a l p') ∧
    (qat (Hs m) (p m) → j = n_iters t (Hs m) (p m) → Mine m (p m) (p' m) → ∃ l,
      (Inv a l p' ∧ enumerates l (At m (p m)) ∧ qat (Hs m) (p' m) ∧ ∀ k, At m (p' m) k = At m (p m) k) ∨
      (E a l p' ∧ NoDup l.*1 ∧ (∀ k v, (k, v) ∈ l → At m (p m) k = Some v) ∧ qat (Hs m) (p' m) ∧ ∀ k, At m (p' m) k = At m (p m) k)).
  Proof.
    intros (v0 & p0 & [NI O] & LP) HB HE H0. pose proof (next_le _ _ _ _ _ NI) as L0.
    assert (X : ∀ l, Inv s l p0 → pulls t (Hs m) j (p0 m) l (p0 m) → p0 m ≤ p0 m) by done. clear X.
    assert (GEN : ∀ l, Inv s l p0 → ∀ q, pulls t (Hs m) j q l (p0 m) → q = q →
       p0 m ≤ p' m ∧ ∃ l', (Inv a l' p' ∧ ∃ q1, pulls t (Hs m) j q l' q1 ∧ next_call t (Hs m) q1 (OIterNext j) (VNext None) (p' m)) ∨
          (E a l' p' ∧ pulls t (Hs m) j q l' (p' m))).
    { clear NI O L0 H0. induction LP as [s p0 a p' B|s p0 s' p1 a p' B LP IH]; intros l HI q P _.
      - destruct B as (x & p2 & [N O2] & B). pose proof (next_le _ _ _ _ _ N) as L2. destruct (next_typed _ _ _ _ _ N) as [y ->].
        destruct y as [[k v]|].
        + apply (HB l s k v p2 (inr a) p') in B as [Em HE']; [|by eapply HE]. rewrite Em. split; [lia|]. exists (l ++ [(k, v)]). right. split; [done|].
          by econstructor.
        + destruct B as [[= ->] Ep]. rewrite Ep. split; [lia|]. exists l. left. split.
          * eapply HE; [exact HI|]. intros m' Hm. rewrite Ep. by apply O2.
          * exists (p0 m). split; [done|]. done.
      - destruct B as (x & p2 & [N O2] & B). pose proof (next_le _ _ _ _ _ N) as L2. destruct (next_typed _ _ _ _ _ N) as [y ->].
        destruct y as [[k v]|]; [|by destruct B].
        apply (HB l s k v p2 (inl s') p1) in B as [Em HI']; [|by eapply HE].
        destruct (IH (l ++ [(k, v)]) HI' q) as (Le & R); [|done|]; [rewrite Em; by econstructor|]. split; [lia|done]. }
    destruct (GEN []) with (q := p0 m) as (Le & l & R); [by eapply HE|constructor|done|]. split; [lia|].
    split; [exists l; destruct R as [[? _]|[? _]]; auto|].
    intros Q Ej M. exists l. destruct R as [(HI & q1 & P & N)|(HI & P)]; [left|right].
    - destruct (pulls_done t (Hs m) (Ss m) (cuts m) (WF m) (EXP m) _ _ _ _ _ _ _ Q NI Ej M P N) as (A & B & _ & C). by split_and!.
    - split; [done|]. destruct (pulls_items t (Hs m) (Ss m) (cuts m) (WF m) (EXP m) _ _ _ _ _ _ Q NI Ej M P) as [A B].
      destruct (pulls_ok t (Hs m) (Ss m) (cuts m) (WF m) (EXP m) _ _ _ _ _ _ Q NI Ej M P) as (C & D & _).
      split_and!; [done..|]. apply D; [|lia]. apply (l_mono _ _ _ (proj1 (EXP m))). lia.
  Qed.

  Lemma enum_len (l : list (K * V)) (f : @smap K V) ks : enumerates l f → NoDup ks → (∀ k, k ∈ ks ↔ f k ≠ None) → l.*1 ≡ₚ ks.
  Proof.
    intros [ND HL] ND' HK. apply NoDup_Permutation; [done|done|]. intros k. rewrite HK, elem_of_list_fmap. split.
    - intros ([k' v] & -> & A%HL). cbn. congruence.
    - destruct (f k) as [v|] eqn:E; [|done]. intros _. exists (k, v). split; [done|]. by apply HL.
  Qed.

  (** *** [==] *)
  Lemma eq_ok veq a b j p r p' : a ≠ b → c_eq t Hs veq a b j p r p' → alone t (Hs a) (p a) (p' a) → alone t (Hs b) (p b) (p' b) →
    j = n_iters t (Hs a) (p a) →
    (r = true ↔ same_contents veq (At a (p a)) (At b (p b))) ∧ p a ≤ p' a ∧ p b ≤ p' b ∧
    (∀ k, At a (p' a) k = At a (p a) k) ∧ (∀ k, At b (p' b) k = At b (p b) k).
  Proof.
    intros Nab. intros (na & p1 & [N1 O1] & nb & p2 & [N2 O2] & R) AA AB Ej.
    pose proof (next_typed _ _ _ _ _ N1) as [x ->]. pose proof (next_typed _ _ _ _ _ N2) as [y ->]. cbn in R.
    pose proof (next_le _ _ _ _ _ N1) as L1. pose proof (next_le _ _ _ _ _ N2) as L2.
    assert (p2 a = p1 a) as E2a by (by apply O2). assert (p1 b = p b) as E1b by (apply O1; done).
    set (Inv := λ (r : bool) (l : list (K * V)) (q : pos), r = true ∧ p2 b ≤ q b ∧ (qat (Hs b) (p2 b) → Mine b (p2 b) (q b) → qat (Hs b) (q b) ∧ (∀ k, At b (q b) k = At b (p2 b) k) ∧
      ∀ k v, (k, v) ∈ l → ∃ w, At b (p2 b) k = Some w ∧ veq v w = true)).
    set (E := λ (r : bool) (l : list (K * V)) (q : pos), r = false ∧ p2 b ≤ q b ∧ (qat (Hs b) (p2 b) → Mine b (p2 b) (q b) → (∀ k, At b (q b) k = At b (p2 b) k) ∧
      ∃ k v, (k, v) ∈ l ∧ ∀ w, At b (p2 b) k = Some w → veq v w = false)).
    assert (Fin : ∀ q, p2 a ≤ q a → p2 b ≤ q b → alone t (Hs a) (p a) (q a) → alone t (Hs b) (p b) (q b) →
      qat (Hs a) (p1 a) ∧ qat (Hs b) (p2 b) ∧ (∀ k, At a (p1 a) k = At a (p a) k) ∧ (∀ k, At b (p2 b) k = At b (p b) k) ∧
      (∃ ks, NoDup ks ∧ (∀ k, k ∈ ks ↔ At a (p a) k ≠ None) ∧ length ks = x) ∧ (∃ ks, NoDup ks ∧ (∀ k, k ∈ ks ↔ At b (p b) k ≠ None) ∧ length ks = y)).
    { intros q La Lb A B. rewrite E1b in *. assert (Qa : qat (Hs a) (p a)) by (eapply (alone_qat t _ (p a) (q a)); [lia|done]).
      assert (Qb : qat (Hs b) (p b)) by (eapply (alone_qat t _ (p b) (q b)); [lia|done]).
      assert (Ma : Mine a (p a) (p1 a)) by (eapply mine_sub; [by apply alone_mine|lia|lia]).
      assert (Mb : Mine b (p b) (p2 b)) by (eapply mine_sub; [by apply alone_mine|lia|lia]).
      split_and!.
      - by eapply (next_qat t (Hs a) (WF a) _ _ _ _ Qa Ma N1).
      - by eapply (next_qat t (Hs b) (WF b) _ _ _ _ Qb Mb N2).
      - by eapply (next_silent_at t (Hs a) _ _ (WF a) (EXP a) _ _ _ _ (I : silent OLen) Qa Ma N1).
      - by eapply (next_silent_at t (Hs b) _ _ (WF b) (EXP b) _ _ _ _ (I : silent OLen) Qb Mb N2).
      - by eapply (next_len t (Hs a) _ _ (WF a) (EXP a) _ _ _ Qa Ma N1).
      - by eapply (next_len t (Hs b) _ _ (WF b) (EXP b) _ _ _ Qb Mb N2). }
    assert (BODY : ∀ l s k v q rr q2, Inv s l q → (y ⇐ ccall t Hs b (OGet k);
       match y with
       | VGet (Some (_, w)) => if veq v w then cret (inl true) else cret (inr false)
       | _ => cret (inr false)
       end) q rr q2 → q2 a = q a ∧ match rr with inl s' => Inv s' (l ++ [(k, v)]) q2 | inr s' => E s' (l ++ [(k, v)]) q2 end).
    {intros l s k v q rr q2 HI (yy & q1 & [N3 O3] & B). destruct HI as (-> & Lq & HI). pose proof (next_le _ _ _ _ _ N3) as L3.
      assert (q1 a = q a) as Ea by (by apply O3).
      assert (F : q2 a = q1 a ∧ q2 b = q1 b) by (destruct yy as [[[? ?]|]| | | | | | | | | | | |]; try destruct (veq _ _); destruct B as [_ B]; by rewrite !B).
      destruct F as [F1 F2]. split; [lia|].
      assert (G : qat (Hs b) (p2 b) → Mine b (p2 b) (q2 b) → qat (Hs b) (q1 b) ∧ (∀ k, At b (q1 b) k = At b (p2 b) k) ∧ yy = VGet ((λ v, (k, v)) <$> At b (p2 b) k) ∧ ∀ k v, (k, v) ∈ l → ∃ w, At b (p2 b) k = Some w ∧ veq v w = true).
      { intros Q M. rewrite F2 in M. destruct HI as (A1 & A2 & A3); [done|by eapply mine_sub; [exact M|lia|lia]|].
        assert (M' : Mine b (q b) (q1 b)) by (eapply mine_sub; [exact M|lia|lia]).
        pose proof (next_get t (Hs b) _ _ (WF b) (EXP b) _ _ _ _ A1 M' N3) as ->.
        pose proof (next_silent_at t (Hs b) _ _ (WF b) (EXP b) _ _ _ _ (I : silent (OGet k)) A1 M' N3) as A4.
        split; [by eapply (next_qat t (Hs b) (WF b) _ _ _ _ A1 M' N3)|]. split; [intros k'; by rewrite A4|]. split; [by rewrite A2|done]. }
      destruct yy as [[[k2 w]|]| | | | | | | | | | | |]; try destruct (veq v w) eqn:Ev; destruct B as [-> _]; (split; [done|]; split; [lia|]; intros Q M).
      all: destruct (G Q M) as (G1 & G2 & G3 & G4); rewrite F2.
      all: try done.
      * injection G3 as G3. destruct (At b (p2 b) k) as [w'|] eqn:Ew; [|done]. injection G3 as -> ->. split_and!; [done..|].
        intros k' v' [A|A%elem_of_list_singleton]%elem_of_app; [by eapply G4|]. injection A as -> ->. by exists w'.
      * injection G3 as G3. destruct (At b (p2 b) k) as [w'|] eqn:Ew; [|done]. injection G3 as -> ->. split; [done|]. exists k, v.
        split; [apply elem_of_app; right; by apply elem_of_list_singleton|]. rewrite Ew. by intros ? [= <-].
      * injection G3 as G3. destruct (At b (p2 b) k) as [w'|] eqn:Ew; [done|]. split; [done|]. exists k, v.
        split; [apply elem_of_app; right; by apply elem_of_list_singleton|]. by rewrite Ew.
    }
    destruct (x =? y) eqn:Exy; cbn in R.
    - apply Nat.eqb_eq in Exy. subst y.
      destruct (iterate_ok Inv E a j _ true p2 r p' R) as (Le & EXL & RR).
      { exact BODY. }
      { intros s l q q2 (A1 & A2 & A3) Hq. unfold Inv. by rewrite (Hq b ltac:(done)). }
      { split; [done|]. split; [done|]. intros Q _. split; [done|]. split; [done|]. by intros k v ?%elem_of_nil. }
      assert (Lb : p2 b ≤ p' b) by (by destruct EXL as [l [(_ & ? & _)|(_ & ? & _)]]).
      destruct (Fin p' Le Lb AA AB) as (Qa & Qb & EA & EB & (ka & KA1 & KA2 & KA3) & (kb & KB1 & KB2 & KB3)).
      destruct RR as [l [(HI & EN & Q' & EA')|(HI & ND & IN & Q' & EA')]].
      + by rewrite E2a.
      + rewrite E2a, Ej. assert (Qp : qat (Hs a) (p a)) by (eapply (alone_qat t _ (p a) (p' a)); [lia|done]).
        assert (Mp : Mine a (p a) (p1 a)) by (eapply mine_sub; [by apply alone_mine|lia|lia]).
        destruct (next_iters t (Hs a) (Ss a) (cuts a) (WF a) (EXP a) _ _ _ _ Qp Mp N1) as (_ & _ & _ & _ & _ & _ & _ & X).
        unfold n_iters. by rewrite X.
      + eapply mine_sub; [by apply alone_mine|lia|lia].
      + destruct HI as (-> & _ & HI). destruct HI as (_ & EB' & HI); [done|eapply mine_sub; [by apply alone_mine|lia|lia]|].
        rewrite E2a in EN, EA'. split_and!; [|lia|lia|intros k; by rewrite EA'|intros k; by rewrite EB'].
        split; [|done]. intros _ k. rewrite <- EB.
        destruct (At a (p a) k) as [v|] eqn:Ek.
        * destruct EN as [_ EN]. rewrite <- EA in Ek. apply EN in Ek. destruct (HI k v Ek) as (w & -> & ?). done.
        * destruct (At b (p2 b) k) as [w|] eqn:Ew; [|done]. rewrite EB in Ew.
          assert (IN : ka ⊆ kb).
          { intros k' Hk%KA2. apply KB2. rewrite <- EB. destruct (At a (p a) k') as [v|] eqn:Ek'; [|done].
            destruct EN as [_ EN]. rewrite <- EA in Ek'. apply EN in Ek'. destruct (HI k' v Ek') as (w' & -> & ?). done. }
          assert (PE : ka ≡ₚ kb).
          { apply submseteq_Permutation_length_le; [lia|by apply NoDup_submseteq]. }
          assert (Hk : k ∈ kb) by (apply KB2; congruence). rewrite <- PE in Hk. apply KA2 in Hk. congruence.
      + destruct HI as (-> & _ & HI). destruct HI as (EB' & k & v & Hin & HV); [done|eapply mine_sub; [by apply alone_mine|lia|lia]|].
        rewrite E2a in IN, EA'. split_and!; [|lia|lia|intros k'; by rewrite EA'|intros k'; by rewrite EB'].
        split; [done|]. intros SC. specialize (SC k). rewrite <- EA, (IN _ _ Hin), <- EB in SC.
        destruct (At b (p2 b) k) as [w|] eqn:Ew; [|done]. by rewrite (HV w eq_refl) in SC.
    - destruct R as [-> Ep]. destruct (Fin p') as (Qa & Qb & EA & EB & (ka & KA1 & KA2 & KA3) & (kb & KB1 & KB2 & KB3)); [by rewrite Ep..|done|done|].
      rewrite !Ep, E2a. split_and!; [|lia|lia|done|done]. split; [done|]. intros SC. exfalso. apply Nat.eqb_neq in Exy. apply Exy.
      rewrite <- KA3, <- KB3. apply Permutation_length. apply NoDup_Permutation; [done|done|]. intros k. rewrite KA2, KB2. specialize (SC k).
      destruct (At a (p a) k), (At b (p b) k); done.
  Qed.

  (** *** [extend], [from_iter] / [deserialize] *)
  Lemma from_ok m l p p' : c_from t Hs m l p tt p' → alone t (Hs m) (p m) (p' m) →
    p m ≤ p' m ∧ qat (Hs m) (p' m) ∧ ∀ k, At m (p' m) k = write_all (At m (p m)) l k.
  Proof.
    intros F A. apply for_insert in F as (Le & _ & R). split; [done|]. apply R; [by eapply alone_qat|by apply alone_mine].
  Qed.
  Lemma extend_ok m hint l p p' : c_extend t Hs m hint l p tt p' → alone t (Hs m) (p m) (p' m) →
    p m ≤ p' m ∧ ∀ k, At m (p' m) k = write_all (At m (p m)) l k.
  Proof.
    intros (n & p1 & [N1 O1] & v & p2 & [N2 O2] & F) A. apply for_insert in F as (Le & _ & R).
    pose proof (next_le _ _ _ _ _ N1). pose proof (next_le _ _ _ _ _ N2). split; [lia|].
    assert (M := alone_mine _ _ (WF m) _ _ A). assert (Q : qat (Hs m) (p m)) by (eapply alone_qat; [|exact A]; lia).
    assert (M1 : Mine m (p m) (p1 m)) by (eapply mine_sub; [exact M|lia|lia]). assert (M2 : Mine m (p1 m) (p2 m)) by (eapply mine_sub; [exact M|lia|lia]).
    destruct (next_qat t (Hs m) (WF m) _ _ _ _ Q M1 N1) as [Q1 _]. destruct (next_qat t (Hs m) (WF m) _ _ _ _ Q1 M2 N2) as [Q2 _].
    destruct R as [_ R]; [done|eapply mine_sub; [exact M|lia|lia]|]. intros k. rewrite R, !write_all_spec.
    pose proof (next_silent_at t (Hs m) _ _ (WF m) (EXP m) _ _ _ _ (I : silent OLen) Q M1 N1 k) as X1.
    assert (X2 : At m (p2 m) k = At m (p1 m) k).
    { eapply (next_silent_at t (Hs m) _ _ (WF m) (EXP m) _ (OReserve _)); [done|exact Q1|exact M2|exact N2]. }
    by rewrite X2, X1.
  Qed.

  (** *** Cloning *)
  Lemma write_all_enum (l : list (K * V)) (f g : @smap K V) : enumerates l f → (∀ k, g k = None) → ∀ k, write_all g l k = f k.
  Proof.
    intros [ND HL] G k. rewrite write_all_spec, G. unfold last_write. destruct (List.find _ (reverse l)) as [[k' v]|] eqn:E.
    - apply List.find_some in E as [A B]. apply bool_decide_eq_true in B. cbn in *. subst k'. apply elem_of_list_In in A. apply elem_of_reverse, HL in A. done.
    - destruct (f k) as [v|] eqn:Ef; [|done]. apply HL in Ef. apply elem_of_reverse in Ef. apply elem_of_list_In in Ef. pose proof (List.find_none _ _ E _ Ef) as X. cbv beta in X. by rewrite bool_decide_eq_true_2 in X.
  Qed.
  Lemma write_all_app (g : @smap K V) l k v k' : write_all g (l ++ [(k, v)]) k' = supd (write_all g l) k (Some v) k'.
  Proof. unfold write_all. by rewrite foldl_app. Qed.
  Lemma clone_ok a b j p p' : a ≠ b → c_clone t Hs a b j p tt p' → alone t (Hs a) (p a) (p' a) → alone t (Hs b) (p b) (p' b) →
    j = n_iters t (Hs a) (p a) → (∀ k, At b (p b) k = None) →
    p a ≤ p' a ∧ p b ≤ p' b ∧ (∀ k, At b (p' b) k = At a (p a) k) ∧ ∀ k, At a (p' a) k = At a (p a) k.
  Proof.
    intros Nab (na & p1 & [N1 O1] & R) AA AB Ej Em. pose proof (next_le _ _ _ _ _ N1) as L1.
    assert (p1 b = p b) as E1b by (apply O1; done). assert (Ma := alone_mine _ _ (WF a) _ _ AA). assert (Mb := alone_mine _ _ (WF b) _ _ AB).
    set (Inv := λ (r : unit) (l : list (K * V)) (q : pos), p1 b ≤ q b ∧ (qat (Hs b) (p1 b) → Mine b (p1 b) (q b) → qat (Hs b) (q b) ∧
      ∀ k, At b (q b) k = write_all (At b (p1 b)) l k)).
    destruct (iterate_ok Inv (λ _ _ _, False) a j _ tt p1 tt p' R) as (Le & EXL & RR).
    - intros l s k v q rr q2 (Lq & HI) (y & q1 & [N3 O3] & [-> Eq]). pose proof (next_le _ _ _ _ _ N3) as L3.
      rewrite Eq. split; [by apply O3|]. split; [rewrite Eq; lia|]. rewrite Eq. intros Q M.
      destruct HI as [A1 A2]; [done|by eapply mine_sub; [exact M|lia|lia]|]. assert (M' : Mine b (q b) (q1 b)) by (eapply mine_sub; [exact M|lia|lia]).
      split; [by eapply (next_qat t (Hs b) (WF b) _ _ _ _ A1 M' N3)|]. intros k'.
      rewrite (next_insert t (Hs b) _ _ (WF b) (EXP b) _ _ _ _ _ A1 M' N3), write_all_app. unfold supd. case_decide; [done|]. apply A2.
    - intros s l q q2 (A1 & A2) Hq. unfold Inv. by rewrite (Hq b ltac:(done)).
    - split; [done|]. intros Q _. split; [done|]. done.
    - assert (Lb : p1 b ≤ p' b) by (by destruct EXL as [l [[? _]|?]]).
      assert (Qa : qat (Hs a) (p a)) by (eapply alone_qat; [|exact AA]; lia). assert (Qb : qat (Hs b) (p b)) by (eapply alone_qat; [|exact AB]; lia).
      assert (M1 : Mine a (p a) (p1 a)) by (eapply mine_sub; [exact Ma|lia|lia]).
      pose proof (next_silent_at t (Hs a) _ _ (WF a) (EXP a) _ _ _ _ (I : silent OLen) Qa M1 N1) as EA.
      destruct RR as [l [((_ & HI) & EN & Q' & EA')|(HI & _)]]; [| | |..|done].
      + by eapply (next_qat t (Hs a) (WF a) _ _ _ _ Qa M1 N1).
      + rewrite Ej. destruct (next_iters t (Hs a) (Ss a) (cuts a) (WF a) (EXP a) _ _ _ _ Qa M1 N1) as (_ & _ & _ & _ & _ & _ & _ & X).
        unfold n_iters. by rewrite X.
      + eapply mine_sub; [exact Ma|lia|lia].
      + split; [lia|]. split; [lia|]. split; [|intros k; by rewrite EA'].
        destruct HI as [_ HI]; [by rewrite E1b|by rewrite E1b|]. intros k. rewrite HI, <- EA. apply write_all_enum; [done|]. intros k'. by rewrite E1b.
  Qed.

  Lemma serialize_ok a j p l p' : c_serialize t Hs a j p l p' → alone t (Hs a) (p a) (p' a) → j = n_iters t (Hs a) (p a) →
    enumerates l (At a (p a)) ∧ p a ≤ p' a ∧ ∀ k, At a (p' a) k = At a (p a) k.
  Proof.
    intros R AA Ej. destruct (iterate_ok (λ s l _, s = l) (λ _ _ _, False) a j _ [] p l p' R) as (Le & _ & RR).
    - intros l0 s k v q rr q2 -> [-> Eq]. rewrite Eq. done.
    - done.
    - done.
    - destruct RR as [l' [(<- & EN & Q' & EA')|(HI & _)]]; [by eapply alone_qat|done|by apply alone_mine| |done]. by split_and!.
  Qed.
End progs.
