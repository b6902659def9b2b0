(** Linearizability implies the history-level properties of [Props], continued. *)
From Verif Require Export PropsProofs.

Section proofs2.
  Context {K V : Type} {Keq : EqDecision K}.
  Notation op := (op K V). Notation vres := (vres K V). Notation hevent := (hevent K V). Notation lact := (@lact K V).
  Context (H : list hevent) (S : list lact) (cut : nat → nat) (WF : wf_hist H) (L : linearizes H S cut).
  Notation cut_le := (cut_le H S cut L).

  Lemma call_uniq a b i id (o : op) x a' i' o' : call H a b i id o x → H !! a' = Some (HInv i' id o') → a' = a ∧ i' = i ∧ o' = o.
  Proof. intros (r & E & _) E'. pose proof (wf_inv _ WF _ _ _ _ _ _ _ E E') as <-. rewrite E in E'. by injection E' as <- <-. Qed.
  Lemma act_call n a b e i (o : op) x : S !! n = Some a → call H b e i (a_id a) o x → belongs a o.
  Proof. intros E C. destruct (l_inv _ _ _ L n a E) as (h & i' & o' & Eh & Be & _). by destruct (call_uniq _ _ _ _ _ _ _ _ _ C Eh) as (_ & _ & ->). Qed.
  (** An action of the single-key call [id] at another position is impossible. *)
  Lemma act_once n m a b e i id (o : op) k x y : S !! n = Some (LOp id o x) → S !! m = Some a → a_id a = id → call H b e i id o y → key_of o = Some k → m = n.
  Proof.
    intros E E' Ei C Ek. subst id. pose proof (act_call m a b e i o y E' C) as Be. destruct a as [id o' r|id k' v]; cbn in *.
    - by eapply (l_once _ _ _ L).
    - by destruct Be as [->|(f & -> & _)].
  Qed.
  Lemma touch_dec (a : lact) k : Decision (a_touches a k).
  Proof.
    destruct a as [id o r|id k' v]; cbn; [|apply _]. apply and_dec; [apply _|]. destruct o; try (left; done).
    destruct (decide (k0 = k)) as [->|N]; [by right; intros []|left; congruence].
  Qed.

  Lemma p_counts_updates : counts_updates H.
  Proof.
    intros h0 h1 i id o x k v0 g g0 g1 j jd y ids C Ek Lb CG Lt ND IDS O.
    pose proof (call_lt H WF _ _ _ _ _ _ CG) as LG. pose proof (call_lt H WF _ _ _ _ _ _ C) as LC.
    assert (O' : only_writers (λ id' _, id' = id ∨ id' ∈ ids) k h0 (g1 + 1) H) by (destruct CG as (r & _ & E); by eapply ow_res).
    destruct (call_act H S cut WF L _ _ _ _ _ _ k C Ek) as (n & b & E & A & B & SQ & X & _). apply left_by_spec in SQ. rewrite Lb in SQ. subst b.
    destruct (call_act H S cut WF L _ _ _ _ _ _ k CG eq_refl) as (m & b' & E' & A' & B' & SQ' & _).
    pose proof (cut_le (h1 + 1) (g0 + 1) ltac:(lia)) as C1. pose proof (cut_le h0 (h0 + 1) ltac:(lia)) as C2.
    assert (Z : ∀ p, n + 1 ≤ p → p ≤ m → ∃ l, NoDup l ∧ (∀ u, u ∈ l ↔ u ∈ ids ∧ ∃ q r, n < q ∧ q < p ∧ S !! q = Some (LOp u (OUpdate k g) r)) ∧ sval S p k = Some (Nat.iter (length l) g v0)).
    { induction 1 as [|p Lp IH]; intros Lm.
      - exists []. split; [constructor|]. split; [|done]. intros u. split; [by intros ?%elem_of_nil|]. intros (_ & q & r & ? & ? & _). lia.
      - destruct (IH ltac:(lia)) as (l & NL & IL & EL). clear IH.
        assert (KEEP : (∀ u r, S !! p ≠ Some (LOp u (OUpdate k g) r)) → sval S (Datatypes.S p) k = sval S p k →
          ∃ l, NoDup l ∧ (∀ u, u ∈ l ↔ u ∈ ids ∧ ∃ q r, n < q ∧ q < Datatypes.S p ∧ S !! q = Some (LOp u (OUpdate k g) r)) ∧ sval S (Datatypes.S p) k = Some (Nat.iter (length l) g v0)).
        { intros NS ES. exists l. split; [done|]. split; [|congruence]. intros u. rewrite IL. split; intros (I1 & q & r & Q1 & Q2 & Q3); (split; [done|]); exists q, r.
          - split_and!; [done|lia|done].
          - split_and!; [done| |done]. assert (q ≠ p) by (intros ->; by apply NS in Q3). lia. }
        destruct (S !! p) as [a|] eqn:Ea; [|apply lookup_ge_None in Ea; apply KEEP; [done|]; erewrite sval_ge; [done|lia|lia]].
        assert (ES : sval S (Datatypes.S p) = lapply (sval S p) a) by (by rewrite <- Nat.add_1_r, (sval_S _ _ _ Ea)).
        destruct (touch_dec a k) as [T|T].
        2:{ apply KEEP; [|rewrite ES; apply lapply_other; [by eapply l_legal|done]]. intros u r [= ->]. apply T. done. }
        destruct (window_act H S cut WF L _ k h0 (g1 + 1) p a O' ltac:(lia) ltac:(lia) Ea T) as (h3 & i3 & o3 & E3 & [Ei|Ei] & Be & L3).
        { exfalso. assert (p = n) by (by eapply act_once). lia. }
        pose proof Ei as Ei2. apply IDS in Ei2 as (a1 & b1 & t1 & z1 & Cu & La & Lb1). pose proof (act_call _ _ _ _ _ _ _ Ea Cu) as Bu.
        destruct a as [u o' r|u k' v']; cbn in Bu; [|by destruct Bu as [?|(f & ? & _)]]. subst o'. cbn in Ei.
        exists (l ++ [u]). split; [|split].
        + apply NoDup_app. split; [done|]. split; [|apply NoDup_singleton]. intros u' Hu ->%elem_of_list_singleton.
          apply IL in Hu as (_ & q & r' & Q1 & Q2 & Q3). assert (q = p) by (by eapply (l_once _ _ _ L)). lia.
        + intros u'. rewrite elem_of_app, elem_of_list_singleton, IL. split.
          * intros [(I1 & q & r' & Q1 & Q2 & Q3)| ->]; (split; [done|]); [exists q, r'|exists p, r]; split_and!; try done; lia.
          * intros (I1 & q & r' & Q1 & Q2 & Q3). destruct (decide (q = p)) as [->|]; [right; congruence|left]. split; [done|]. exists q, r'. split_and!; try done. lia.
        + rewrite ES. destruct (l_legal _ _ _ L _ _ Ea) as (k1 & b1' & Ek1 & SQ1). assert (k1 = k) by (cbn in Ek1; congruence). subst k1.
          rewrite (lapply_op _ _ _ _ k b1' Ek1 SQ1). rewrite EL in SQ1. cbn in SQ1. injection SQ1 as <- _. by rewrite app_length, Nat.add_1_r. }
    destruct (Z m ltac:(lia) ltac:(lia)) as (l & NL & IL & EL).
    assert (LEN : length l = length ids).
    { apply Permutation_length, NoDup_Permutation; [done|done|]. intros u. rewrite IL. split; [by intros [? _]|]. intros Hu. split; [done|].
      apply IDS in Hu as (a & b & t & z & Cu & La & Lb1). destruct (call_act H S cut WF L _ _ _ _ _ _ k Cu eq_refl) as (q & z' & Eq & Q1 & Q2 & _).
      exists q, z. pose proof (cut_le (h1 + 1) (a + 1) ltac:(lia)). pose proof (cut_le (b + 1) (g0 + 1) ltac:(lia)). split_and!; [lia|lia|done]. }
    rewrite EL, LEN in SQ'. cbn in SQ'. by injection SQ' as _ <-.
  Qed.

  Lemma p_iter_complete : iterates H S cut → iter_complete H.
  Proof.
    intros (I1 & I2 & I3) h0 h1 i id o x k v t j c e id' r' C Ek Lb Lc Ee Ei O. pose proof (call_lt H WF _ _ _ _ _ _ C) as LC.
    assert (Lt : c < e).
    { assert (X : ∀ l : list hevent, ∀ q, q ∈ (foldl (it_step t) (0, 0, []) l).2 → q < (foldl (it_step t) (0, 0, []) l).1.1 ∧ (foldl (it_step t) (0, 0, []) l).1.1 = length l).
      { assert (Y : ∀ l : list hevent, (foldl (it_step t) (0, 0, []) l).1.1 = length l ∧ (∀ q, q ∈ (foldl (it_step t) (0, 0, []) l).2 → q < length l) ∧ (l = [] ∨ (foldl (it_step t) (0, 0, []) l).1.2 < length l)).
        { induction l as [|e' l IH] using rev_ind; [split; [done|]; split; [by intros q ?%elem_of_nil|by left]|].
          rewrite foldl_app. destruct (foldl (it_step t) (0, 0, []) l) as [[p q] acc] eqn:EF. cbn in IH. destruct IH as (IH1 & IH2 & IH3). rewrite app_length. cbn.
          assert (IH2' : ∀ q0, q0 ∈ acc → q0 < length l + 1) by (intros q0 Hq; apply IH2 in Hq; lia).
          assert (Q0 : q < length l + 1) by (destruct IH3 as [->|]; [cbn in EF; injection EF as _ <- _; cbn; lia|lia]).
          destruct e' as [j' d' o'|j' d' o' r1 v1|j' d' o' w'|j'|j']; cbn.
          - split; [lia|]. split; [done|]. right. case_decide; lia.
          - destruct o'; cbn; (split; [lia|]; split; [|right; lia]); try done. case_decide; [|done]. intros q0 [?| ->%elem_of_list_singleton]%elem_of_app; [auto|lia].
          - split; [lia|]. split; [|right; lia]. case_decide; [by intros q0 ?%elem_of_nil|done].
          - split; [lia|]. split; [done|right; lia].
          - split; [lia|]. split; [|right; lia]. case_decide; [by intros q0 ?%elem_of_nil|done]. }
        intros l q Hq. destruct (Y l) as (Y1 & Y2 & _). rewrite Y1. auto. }
      apply elem_of_list_lookup_2, X in Ei as [Ei1 Ei2]. rewrite Ei2, take_length in Ei1. lia. }
    assert (O' : only_writers (λ id' _, id' = id) k h0 (e + 1) H) by (by eapply ow_res).
    destruct (last_writer H S cut WF L h0 h1 (e + 1) i id o x k C Ek ltac:(lia) O') as (n & b & E & A & B & SQ & ST & _).
    apply left_by_spec in SQ. rewrite Lb in SQ. subst b. pose proof (cut_le (h1 + 1) (c + 1) ltac:(lia)) as C1.
    assert (UN : ∀ m, cut (c + 1) ≤ m → m ≤ cut (e + 1) → sval S m k = Some v) by (intros m M1 M2; apply ST; lia).
    destruct (I3 t j c e id' r' Ee Ei k) as [(h & v' & Lh & Y)|(m & M1 & M2 & M3)]; [|rewrite UN in M3 by done; done].
    assert (v' = v).
    { destruct (I1 t j c h k v' Y) as (m & M1 & M2 & M3). pose proof (cut_le (h + 1) (e + 1) ltac:(lia)). rewrite UN in M3 by lia. by injection M3. } subst v'.
    exists h. split; [done|]. split; [done|]. intros h' v' Lh' Y'.
    assert (NO : ∀ p q w w', p < q → q < e → yields H t j c p k w → yields H t j c q k w' → False).
    { intros p q w w' Lp Lq Yp Yq. destruct (I2 t j c p q k w w' Yp Yq Lp) as (m & m' & M1 & M2 & M3 & _ & M4). pose proof (cut_le (q + 1) (e + 1) ltac:(lia)). rewrite UN in M4 by lia. done. }
    destruct (lt_eq_lt_dec h' h) as [[X|X]|X]; [|done|]; exfalso; [by eapply (NO h' h)|by eapply (NO h h')].
  Qed.

  (** In a range where all actions on [k] are deletions by the sweeping call [s]. *)
  Lemma del_range k (s : op) n n' : n ≤ n' → (∀ m a, n ≤ m → m < n' → S !! m = Some a → a_touches a k → ∃ id v, a = LDel id k v ∧ belongs a s) →
    match sval S n k with
    | None => sval S n' k = None
    | Some v => sval S n' k = Some v ∨ (sval S n' k = None ∧ keeps s k v = false)
    end.
  Proof.
    induction 1 as [|n' Ln IH]; intros Q; [by destruct (sval S n k); [left|]|].
    specialize (IH ltac:(intros m a M1 M2; apply Q; lia)).
    destruct (S !! n') as [a|] eqn:Ea.
    - rewrite <- Nat.add_1_r, (sval_S _ _ _ Ea). pose proof (l_legal _ _ _ L _ _ Ea) as LG. destruct (touch_dec a k) as [T|T]; [|by rewrite !lapply_other].
      destruct (Q n' a ltac:(lia) ltac:(lia) Ea T) as (id & v & -> & Be). cbn in LG, Be |- *. unfold supd. rewrite decide_True by done.
      destruct (sval S n k) as [v0|]; [|done]. right. split; [done|]. destruct IH as [IH|[IH _]]; [|congruence]. assert (v0 = v) by congruence. subst v0.
      by destruct Be as [->|(f & -> & Ef)].
    - apply lookup_ge_None in Ea. by rewrite (sval_ge S (Datatypes.S n') n') by lia.
  Qed.
  Lemma p_swept : sweeps H S cut → swept H.
  Proof.
    intros SW h0 h1 i id o x k v a b t sd s z g0 g1 j jd y C Ek Lb La CS Es CG Lg O.
    pose proof (call_lt H WF _ _ _ _ _ _ CG) as LG. pose proof (call_lt H WF _ _ _ _ _ _ C) as LC. pose proof (call_lt H WF _ _ _ _ _ _ CS) as LS.
    assert (O' : only_writers (λ id' _, id' = id ∨ id' = sd) k h0 (g1 + 1) H) by (destruct CG as (r & _ & E); by eapply ow_res).
    destruct (call_act H S cut WF L _ _ _ _ _ _ k C Ek) as (n & b' & E & A & B & SQ & X & _). apply left_by_spec in SQ. rewrite Lb in SQ. subst b'.
    destruct (call_act H S cut WF L _ _ _ _ _ _ k CG eq_refl) as (m & b' & E' & A' & B' & SQ' & _).
    pose proof (cut_le (h1 + 1) (a + 1) ltac:(lia)) as C1. pose proof (cut_le h0 (h0 + 1) ltac:(lia)) as C2.
    pose proof (cut_le (b + 1) (g0 + 1) ltac:(lia)) as C3. pose proof (cut_le (a + 1) (b + 1) ltac:(lia)) as C4.
    assert (Q : ∀ q c, n + 1 ≤ q → q < m → S !! q = Some c → a_touches c k → ∃ id v, c = LDel id k v ∧ belongs c s).
    { intros q c Q1 Q2 Eq T. destruct (window_act H S cut WF L _ k h0 (g1 + 1) q c O' ltac:(lia) ltac:(lia) Eq T) as (h3 & i3 & o3 & E3 & [Ei|Ei] & Be & L3).
      - exfalso. assert (q = n) by (by eapply act_once). lia.
      - rewrite Ei in E3. destruct (call_uniq _ _ _ _ _ _ _ _ _ CS E3) as (_ & _ & ->). destruct c as [u o' r|u k' v']; cbn in *.
        + subst o'. destruct T as [T _]. destruct Es as [->|(f & ->)]; done.
        + subst k'. by exists u, v'. }
    pose proof CS as (rs & ES0 & ES1). destruct (SW a b t sd s rs z ES0 ES1 Es k) as (p & P1 & P2 & P3).
    assert (D1 := del_range k s (n + 1) p ltac:(lia) ltac:(intros q c Q1 Q2; apply (Q q c); lia)). rewrite X in D1.
    assert (D2 := del_range k s p m ltac:(lia) ltac:(intros q c Q1 Q2; apply (Q q c); lia)).
    assert (D3 := del_range k s (n + 1) m ltac:(lia) Q). rewrite X in D3.
    destruct (keeps s k v) eqn:EK.
    - destruct D3 as [D3|[_ ?]]; [|done]. rewrite D3 in SQ'. cbn in SQ'. by injection SQ' as _ <-.
    - destruct D1 as [D1|[D1 _]]; rewrite D1 in P3, D2; [congruence|]. rewrite D2 in SQ'. cbn in SQ'. by injection SQ' as _ <-.
  Qed.

  (** ** Sequential histories *)
  (** Which calls can act between events [h] and [h + w]: those invoked there. *)
  Lemma seq_act h w n a : sequential H → (∀ i id o r v, H !! h ≠ Some (HRes i id o r v)) → h < length H → cut h ≤ n → n < cut (h + w) → S !! n = Some a →
    ∃ q i o, h ≤ q ∧ q < h + w ∧ H !! q = Some (HInv i (a_id a) o) ∧ belongs a o.
  Proof.
    intros SH NR Lh A B E. destruct (l_inv _ _ _ L n a E) as (q & i & o & Eq & Be & Lc). exists q, i, o.
    assert (h ≤ q).
    { destruct (decide (h ≤ q)) as [|N]; [done|]. exfalso. pose proof (SH q _ Eq) as X. cbn in X. destruct X as [X|[(r & v & X)|(NK & why & X)]]; [| |by destruct (l_panic _ _ _ L n a _ _ _ _ E X)].
      - apply lookup_ge_None in X. lia.
      - assert (q + 1 ≠ h) by (intros <-; by apply NR in X). pose proof (l_res _ _ _ L n a _ _ _ _ _ E X). pose proof (cut_le (q + 1 + 1) h ltac:(lia)). lia. }
    split; [done|]. split; [|done]. destruct (decide (q < h + w)) as [|N]; [done|]. pose proof (cut_le (h + w) (q + 1) ltac:(lia)). lia.
  Qed.
  Lemma seq_map_S h e : H !! h = Some e → seq_map H (Datatypes.S h) = seq_step (seq_map H h) e.
  Proof. intros E. unfold seq_map. by rewrite (take_S_r _ _ _ E), foldl_app. Qed.

  Lemma seq_boundary : sequential H → sweeps H S cut → ∀ h, h < length H → (∀ i id o r v, H !! h ≠ Some (HRes i id o r v)) → ∀ k, sval S (cut h) k = seq_map H h k.
  Proof.
    intros SH SW. induction h as [h IH] using (well_founded_induction lt_wf). intros Lh NR k. destruct h as [|h].
    { cbn. rewrite (quiet_range H S cut L k 0); [done|lia|]. intros m a _ Lm E _. destruct (l_inv _ _ _ L m a E) as (q & i & o & _ & _ & Lc).
      pose proof (cut_le 0 (q + 1) ltac:(lia)). lia. }
    destruct (lookup_lt_is_Some_2 H h ltac:(lia)) as [e E]. pose proof (SH h e E) as SE.
    assert (SIMPLE : (∀ i id o r v, e ≠ HRes i id o r v) → (∀ i id o, e ≠ HInv i id o) → sval S (cut (Datatypes.S h)) k = seq_map H (Datatypes.S h) k).
    { intros N1 N2. rewrite (seq_map_S _ _ E).
      assert (EQ : seq_step (seq_map H h) e = seq_map H h) by (destruct e; try done; by edestruct N1). rewrite EQ.
      rewrite <- (IH h) by (try lia; intros; rewrite E; intros [= ->]; by edestruct N1).
      apply (quiet_range H S cut L); [apply cut_le; lia|]. intros m a M1 M2 Em _.
      destruct (seq_act h 1 m a SH) as (q & i & o & Q1 & Q2 & Q3 & _); [intros; rewrite E; intros [= ->]; by edestruct N1|lia|done|by rewrite Nat.add_1_r|done|].
      assert (q = h) by lia. subst q. rewrite E in Q3. injection Q3 as ->. by edestruct N2. }
    destruct e as [i id o|i id o r v|i id o wy|i|i]; [|clear SIMPLE|by apply SIMPLE|by apply SIMPLE|by apply SIMPLE].
    { destruct SE as [X|[(r & v & X)|(NK & why & X)]]; [exfalso; apply lookup_ge_None in X; lia|exfalso; rewrite Nat.add_1_r in X; by apply NR in X|].
      rewrite (seq_map_S _ _ E). cbn [seq_step]. rewrite <- (IH h) by (try lia; intros; by rewrite E).
      apply (quiet_range H S cut L); [apply cut_le; lia|]. intros m a M1 M2 Em _.
      destruct (seq_act h 1 m a SH) as (q & i' & o' & Q1 & Q2 & Q3 & _); [intros; by rewrite E|lia|done|by rewrite Nat.add_1_r|done|].
      assert (q = h) by lia. subst q. rewrite E in Q3. injection Q3 as -> -> ->. by destruct (l_panic _ _ _ L m a _ _ _ _ Em X). }
    destruct (wf_res _ WF _ _ _ _ _ _ E) as (q & Lq & Eq). pose proof (SH q _ Eq) as X. cbn in X.
    assert (EL : H !! (q + 1) = None → False) by (intros Z; apply lookup_ge_None in Z; lia).
    destruct X as [X|[(r' & v' & X)|(NK & why & X)]]; [by apply EL in X| |exfalso].
    2:{ destruct (key_of o) as [k0|] eqn:Ek; [|done]. destruct (l_done _ _ _ L _ _ _ _ _ _ E) as [n En]; [by rewrite Ek|].
        destruct (l_panic _ _ _ L n _ _ _ _ _ En X). congruence. }
    pose proof (wf_res1 _ WF _ _ _ _ _ _ _ _ _ _ _ E X) as Eh. assert (h = Datatypes.S q) by lia. clear Eh. subst h. clear r' v' X Lq EL.
    assert (NRq : ∀ i id o r v, H !! q ≠ Some (HRes i id o r v)) by (intros; by rewrite Eq).
    pose proof (IH q ltac:(lia) ltac:(lia) NRq) as IHq. clear IH.
    rewrite (seq_map_S _ _ E), (seq_map_S _ _ Eq). cbn [seq_step].
    assert (RG : ∀ m a, cut q ≤ m → m < cut (Datatypes.S (Datatypes.S q)) → S !! m = Some a → a_id a = id ∧ belongs a o).
    { intros m a M1 M2 Em. destruct (seq_act q 2 m a SH NRq ltac:(lia) M1) as (q' & i' & o' & Q1 & Q2 & Q3 & Be); [by replace (q + 2) with (Datatypes.S (Datatypes.S q)) by lia|done|].
      destruct (decide (q' = q)) as [->|]; [|assert (q' = Datatypes.S q) by lia; subst q'; congruence]. rewrite Eq in Q3. by injection Q3 as _ <- <-. }
    pose proof (cut_le q (q + 1) ltac:(lia)) as C0. pose proof (cut_le (q + 1) (Datatypes.S (Datatypes.S q)) ltac:(lia)) as C1.
    assert (CALL : call H q (Datatypes.S q) i id o v) by (by exists r).
    destruct (key_of o) as [k0|] eqn:Ek.
    - destruct (call_act H S cut WF L _ _ _ _ _ _ k0 CALL Ek) as (n & x & En & A & B & SQ & X & XO).
      replace (Datatypes.S q + 1) with (Datatypes.S (Datatypes.S q)) in B by lia.
      assert (ON : ∀ m a, cut q ≤ m → m < cut (Datatypes.S (Datatypes.S q)) → S !! m = Some a → m = n).
      { intros m a M1 M2 Em. destruct (RG m a M1 M2 Em) as [R1 R2]. by eapply act_once. }
      assert (PRE : ∀ k', sval S n k' = seq_map H q k').
      { intros k'. rewrite <- IHq. apply (quiet_range H S cut L); [lia|]. intros m a M1 M2 Em _. pose proof (ON m a M1 ltac:(lia) Em). lia. }
      assert (POST : ∀ k', sval S (cut (Datatypes.S (Datatypes.S q))) k' = sval S (n + 1) k').
      { intros k'. apply (quiet_range H S cut L); [lia|]. intros m a M1 M2 Em _. pose proof (ON m a ltac:(lia) M2 Em). lia. }
      rewrite POST. assert (SQ2 : seq_op o (seq_map H q k0) = Some (x, v)) by (by rewrite <- PRE). rewrite SQ2.
      unfold supd. case_decide as D; [by subst|]. by rewrite XO, PRE.
    - assert (DR : ∀ m a, cut q ≤ m → m < cut (Datatypes.S (Datatypes.S q)) → S !! m = Some a → a_touches a k → ∃ id v, a = LDel id k v ∧ belongs a o).
      { intros m a M1 M2 Em T. destruct (RG m a M1 M2 Em) as [R1 R2]. destruct a as [u o' r'|u k' v']; cbn in *; [subst; by destruct T as [T _]; rewrite Ek in T|]. subst k'. by exists u, v'. }
      pose proof (del_range k o _ _ (Nat.le_trans _ _ _ C0 C1) DR) as D. rewrite IHq in D.
      assert (OTHER : ¬ (o = OClear ∨ ∃ f, o = ORetain f) → sval S (cut (Datatypes.S (Datatypes.S q))) k = seq_map H q k).
      { intros N. rewrite <- IHq. apply (quiet_range H S cut L); [lia|]. intros m a M1 M2 Em T. destruct (DR m a M1 M2 Em T) as (u & v' & -> & Be).
        destruct Be as [->|(f & -> & _)]; apply N; eauto. }
      assert (SWP : (o = OClear ∨ ∃ f, o = ORetain f) → sval S (cut (Datatypes.S (Datatypes.S q))) k =
         match seq_map H q k with Some v => if keeps o k v then Some v else None | None => None end).
      { intros Es. destruct (seq_map H q k) as [v0|] eqn:E0; [|done]. destruct (keeps o k v0) eqn:EK; [by destruct D as [D|[_ ?]]|].
        destruct (SW q (Datatypes.S q) i id o r v Eq E Es k) as (p & P1 & P2 & P3). replace (Datatypes.S q + 1) with (Datatypes.S (Datatypes.S q)) in P2 by lia.
        assert (D1 := del_range k o (cut q) p ltac:(lia) ltac:(intros q0 c0 Q1 Q2; apply (DR q0 c0); lia)). rewrite IHq, E0 in D1.
        assert (D2 := del_range k o p _ P2 ltac:(intros q0 c0 Q1 Q2; apply (DR q0 c0); lia)).
        destruct D1 as [D1|[D1 _]]; rewrite D1 in P3, D2; [congruence|done]. }
      destruct o; try done; try (apply OTHER; by intros [?|(f & ?)]).
      + rewrite SWP by auto. cbn. by destruct (seq_map H q k).
      + rewrite SWP by eauto. done.
  Qed.
  Lemma p_sequential : sweeps H S cut → sequential_semantics H.
  Proof.
    intros SW SH h i id o r v k E Ek. destruct (wf_res _ WF _ _ _ _ _ _ E) as (q & Lq & Eq). pose proof (SH q _ Eq) as X. cbn in X. pose proof (lookup_lt_Some _ _ _ E) as LE.
    destruct X as [X|[(r' & v' & X)|(NK & why & X)]]; [apply lookup_ge_None in X; lia| |exfalso].
    2:{ destruct (l_done _ _ _ L _ _ _ _ _ _ E) as [n En]; [by rewrite Ek|]. destruct (l_panic _ _ _ L n _ _ _ _ _ En X). congruence. }
    pose proof (wf_res1 _ WF _ _ _ _ _ _ _ _ _ _ _ E X) as Eh. assert (h = Datatypes.S q) by lia. clear Eh. subst h. clear r' v' X Lq.
    assert (NRq : ∀ i id o r v, H !! q ≠ Some (HRes i id o r v)) by (intros; by rewrite Eq).
    assert (CALL : call H q (Datatypes.S q) i id o v) by (by exists r).
    destruct (call_act H S cut WF L _ _ _ _ _ _ k CALL Ek) as (n & x & En & A & B & SQ & _).
    exists x. rewrite (seq_map_S _ _ Eq). cbn. rewrite <- (seq_boundary SH SW q ltac:(lia) NRq k).
    rewrite <- (quiet_range H S cut L k (cut q) n); [done|pose proof (cut_le q (q + 1) ltac:(lia)); lia|].
    intros m a M1 M2 Em _. destruct (seq_act q 2 m a SH NRq ltac:(lia) M1) as (q' & i' & o' & Q1 & Q2 & Q3 & Be); [replace (q + 2) with (Datatypes.S q + 1) by lia; lia|done|].
    destruct (decide (q' = q)) as [->|]; [|assert (q' = Datatypes.S q) by lia; subst q'; congruence]. rewrite Eq in Q3. injection Q3 as _ Ei <-.
    assert (m = n) by (by eapply act_once). lia.
  Qed.
End proofs2.
