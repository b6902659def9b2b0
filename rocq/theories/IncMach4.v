(** Appending an event to the history. *)
From Verif Require Export IncMach3.

Section app.
  Context {K V : Type} {Keq : EqDecision K} (cfg : config K) (nthr nsh : nat).
  Notation op := (op K V). Notation hevent := (hevent K V). Notation world := (@world K V). Notation vres := (vres K V).
  Notation WI := (WI cfg nthr nsh). Notation lg w := (length (g_log (wg w))). Notation hpo w := (k_hp (wc w)).
  Implicit Types (H : list hevent) (w : world).
  Notation dat := (list (nat * nat)). Notation HI := (HI cfg). Notation rdrec := (@rdrec K V).

  Record evt_ok w H (D : dat) (ex : list rdrec) (e : hevent) : Prop := MkEvt {
    ek_inv : ∀ i id o, e = HInv i id o → r_ops (wr w) !! id = Some o ∧ ∀ h i' o', H !! h ≠ Some (HInv i' id o');
    ek_panic : ∀ i id o why, e = HPanic i id o why → okf cfg id o why w ∧ (∃ h0, H !! h0 = Some (HInv i id o)) ∧ ∀ h' j o' r v, H !! h' ≠ Some (HRes j id o' r v);
    ek_ex : ex = [] ∨ ∃ i id o r v n, e = HRes i id o r v ∧ ex = [Rd id o v n];
    ek_res : ∀ i id o r v, e = HRes i id o r v →
      ((∀ h i' o' r' v', H !! h ≠ Some (HRes i' id o' r' v')) ∧ ∀ h i' o' why, H !! h ≠ Some (HPanic i' id o' why)) ∧
      (npub id w ∨ multi o = false ∧ ∃ e, didw id w e) ∧
      ∃ h0, H !! h0 = Some (HInv i id o) ∧
        (∀ n, ex = [Rd id o v n] → unused (wg w) id ∧ Lof D h0 ≤ n ∧ n ≤ lg w ∧ ∃ k, key_of o = Some k ∧ seq_op o (vm w n k) = Some (vm w n k, v)) ∧
        (∀ k, key_of o = Some k → (∃ n e, g_log (wg w) !! n = Some e ∧ ev_op e = id ∧ ev_key e = k ∧ seq_op o (valp (hpo w) (ev_old e)) = Some (valp (hpo w) (ev_new e), v)) ∨
            ∃ n, ex = [Rd id o v n]) ∧
        ((o = OClear ∨ ∃ f, o = ORetain f) → ∀ k, ∃ n, Lof D h0 ≤ n ∧ n ≤ lg w ∧ match vm w n k with None => True | Some x => keeps o k x = true end) ∧
        (∀ k, key_of o = Some k → length (filter (λ c, c = None) (calls_of r)) ≤ 1 ∧
            ∀ c, c ∈ calls_of r → ∃ n, Lof D h0 ≤ n ∧ n ≤ lg w ∧ c = (λ x, (k, x)) <$> vm w n k);
    ek_it1 : ∀ i id j r k v h1, e = HRes i id (OIterNext j) r (VNext (Some (k, v))) → iters_of i H !! j = Some h1 →
      (∃ n, Lof D h1 ≤ n ∧ n ≤ lg w ∧ vm w n k = Some v) ∧
      ∀ h v', yields H i j h1 h k v' → ∃ m n, Lof D h1 ≤ m ∧ m ≤ n ∧ n ≤ lg w ∧ vm w m k ≠ None ∧ vm w n k = None;
    ek_it3 : ∀ i id j r h1, e = HRes i id (OIterNext j) r (VNext None) → iters_of i H !! j = Some h1 →
      ∀ k, (∃ h' v, yields H i j h1 h' k v) ∨ ∃ n, Lof D h1 ≤ n ∧ n ≤ lg w ∧ vm w n k = None }.

  Lemma HI_app w H D G e ex : WI w → HI w H D G → evt_ok w H D ex e →
    HI w (H ++ [e]) (D ++ [(lg w, length (G ++ ex))]) (G ++ ex).
  Proof.
    intros W I E. pose proof (hi_len _ _ _ _ _ I) as EL. set (x0 := (lg w, length (G ++ ex))).
    assert (LA : ∀ h, h < length H → Lof (D ++ [x0]) h = Lof D h) by (intros; apply Lof_app; lia).
    assert (RA : ∀ h, h < length H → Rof (D ++ [x0]) h = Rof D h) by (intros; apply Rof_app; lia).
    assert (LN : Lof (D ++ [x0]) (length H) = lg w) by (rewrite <- EL; apply Lof_new).
    assert (RN : Rof (D ++ [x0]) (length H) = length (G ++ ex)) by (rewrite <- EL; apply Rof_new).
    assert (LT : ∀ h x, H !! h = Some x → h < length H) by (intros; by eapply lookup_lt_Some).
    assert (TOP : ∀ h, Lof D h ≤ lg w) by (intros; by eapply Lof_top).
    assert (APP : ∀ h x, H !! h = Some x → (H ++ [e]) !! h = Some x) by (intros; by apply lookup_app_l_Some).
    assert (WFI : ∀ h h' i i' id o o', (H ++ [e]) !! h = Some (HInv i id o) → (H ++ [e]) !! h' = Some (HInv i' id o') → h = h').
    { intros h h' i i' id o o' A B. destruct (hi_wf _ _ _ _ _ I) as [W1 _ _].
      apply snoc_cases in A as [[LA1 A]|[-> A]], B as [[LB B]|[-> B]]; [by eapply W1| | |done].
      - destruct (ek_inv _ _ _ _ _ E i' id o' (eq_sym B)) as [_ N]. by apply N in A.
      - destruct (ek_inv _ _ _ _ _ E i id o (eq_sym A)) as [_ N]. by apply N in B. }
    assert (RES : ∀ h i id o r v, (H ++ [e]) !! h = Some (HRes i id o r v) → ∃ h', h' < h ∧ H !! h' = Some (HInv i id o)).
    { intros h i id o r v A. apply snoc_cases in A as [[LA1 A]|[-> A]].
      - by destruct (wf_res _ (hi_wf _ _ _ _ _ I) h i id o r v A) as (h' & B & C); exists h'.
      - destruct (ek_res _ _ _ _ _ E i id o r v (eq_sym A)) as (_ & _ & h0 & B & _). exists h0. split; [by eapply LT|done]. }
    assert (WF : wf_hist (H ++ [e])).
    { split; [done| |].
      - intros h i id o r v A. apply RES in A as (h' & B & C). exists h'. auto.
      - intros h h' i i' id o o' r r' v v' A B.
        apply snoc_cases in A as [[LA1 A]|[-> A]], B as [[LB B]|[-> B]]; [by eapply (wf_res1 _ (hi_wf _ _ _ _ _ I))| | |done].
        + destruct (ek_res _ _ _ _ _ E _ _ _ _ _ (eq_sym B)) as ([N _] & _). by apply N in A.
        + destruct (ek_res _ _ _ _ _ E _ _ _ _ _ (eq_sym A)) as ([N _] & _). by apply N in B. }
    (* the invocation matching a response is an old event *)
    assert (INVOLD : ∀ h0 h i id o r v, (H ++ [e]) !! h0 = Some (HInv i id o) → (H ++ [e]) !! h = Some (HRes i id o r v) → H !! h0 = Some (HInv i id o)).
    { intros h0 h i id o r v A B. destruct (RES _ _ _ _ _ _ B) as (h' & _ & C). assert (h0 = h') by (eapply WFI; [done|by apply APP]). by subst. }
    split.
    - rewrite !app_length. cbn. lia.
    - intros h h' x x' A B L.
      apply snoc_cases in A as [[LA1 A]|[-> A]], B as [[LB B]|[-> B]].
      + by eapply (hi_mono _ _ _ _ _ I).
      + subst x'. destruct (hi_top _ _ _ _ _ I h x A) as [T1 T2]. cbn. rewrite app_length. lia.
      + lia.
      + by subst.
    - intros h x A. apply snoc_cases in A as [[LA1 A]|[-> ->]]; [|done]. destruct (hi_top _ _ _ _ _ I h x A) as [T1 T2].
      rewrite app_length. lia.
    - done.
    - intros h i id o A. apply snoc_cases in A as [[LA1 A]|[-> A]]; [by eapply (hi_inv _ _ _ _ _ I)|].
      by destruct (ek_inv _ _ _ _ _ E _ _ _ (eq_sym A)).
    - intros n ev A. destruct (hi_ev _ _ _ _ _ I n ev A) as (h & i & o & B & C). exists h, i, o. split; [by apply APP|]. rewrite LA; [done|by eapply LT].
    - intros h i id o r v A. apply snoc_cases in A as [[LA1 A]|[-> A]].
      + rewrite LA by done. by eapply (hi_fin _ _ _ _ _ I).
      + rewrite LN. destruct (ek_res _ _ _ _ _ E _ _ _ _ _ (eq_sym A)) as (_ & B & _). split; [done|]. intros n ev Hn _. by apply lookup_lt_Some in Hn.
    - intros j id o v n A. destruct (decide (j < length G)) as [L|L].
      + rewrite lookup_app_l in A by done. destruct (hi_g _ _ _ _ _ I j id o v n A) as (U & h0 & h & i & r & k & A1 & A2 & A3).
        split; [done|]. exists h0, h, i, r, k. rewrite !LA, !RA by (by eapply LT). split; [by apply APP|]. split; [by apply APP|done].
      + destruct (ek_ex _ _ _ _ _ E) as [->|(i & id' & o' & r & v' & n' & -> & ->)]; [rewrite app_nil_r in A; apply lookup_lt_Some in A; lia|].
        assert (j = length G) by (apply lookup_lt_Some in A; rewrite app_length in A; cbn in A; lia). subst j.
        rewrite list_lookup_middle in A by done. injection A as -> -> -> ->.
        destruct (ek_res _ _ _ _ _ E _ _ _ _ _ eq_refl) as (_ & _ & h0 & B0 & B1 & _). destruct (B1 n eq_refl) as (U & C1 & C2 & k & C3 & C4).
        split; [done|]. exists h0, (length H), i, r, k. rewrite LN, RN. rewrite LA, RA by (by eapply LT).
        split; [by apply APP|]. split; [by rewrite list_lookup_middle|]. split; [done|]. split; [done|]. split; [|split; [rewrite app_length; cbn; lia|done]].
        unfold Rof. destruct (D !! h0) as [y|] eqn:Ey; [|cbn; lia]. by apply (hi_top _ _ _ _ _ I) in Ey as [_ ?].
    - assert (NEW : ∀ j x, (G ++ ex) !! j = Some x → length G ≤ j → j = length G ∧ ∀ j' x', G !! j' = Some x' → rd_id x ≠ rd_id x').
      { intros j x A L. destruct (ek_ex _ _ _ _ _ E) as [->|(i & id' & o' & r & v' & n' & -> & ->)]; [rewrite app_nil_r in A; apply lookup_lt_Some in A; lia|].
        assert (j = length G) by (apply lookup_lt_Some in A; rewrite app_length in A; cbn in A; lia). subst j. split; [done|].
        rewrite list_lookup_middle in A by done. injection A as <-. intros j' x' B Ex. destruct x' as [id o v n].
        destruct (hi_g _ _ _ _ _ I j' id o v n B) as (_ & h0 & h & i1 & r1 & k & _ & A2 & _). cbn in Ex. subst id'.
        destruct (ek_res _ _ _ _ _ E _ _ _ _ _ eq_refl) as ([N _] & _). by apply N in A2. }
      intros j j' x x' A B Ex. destruct (decide (j < length G)) as [L|L], (decide (j' < length G)) as [L'|L'].
      + rewrite lookup_app_l in A, B by done. by eapply (hi_g1 _ _ _ _ _ I).
      + rewrite lookup_app_l in A by done. destruct (NEW j' x' B) as [_ N]; [lia|]. by destruct (N j x A).
      + rewrite lookup_app_l in B by done. destruct (NEW j x A) as [_ N]; [lia|]. by destruct (N j' x' B).
      + destruct (NEW j x A) as [-> _]; [lia|]. destruct (NEW j' x' B) as [-> _]; [lia|]. done.
    - intros h i id o r v k A Ek. apply snoc_cases in A as [[LA1 A]|[-> A]].
      + destruct (hi_done _ _ _ _ _ I h i id o r v k A Ek) as [?|(j & n & Hj)]; [by left|right]. exists j, n. by apply lookup_app_l_Some.
      + destruct (ek_res _ _ _ _ _ E _ _ _ _ _ (eq_sym A)) as (_ & _ & h0 & _ & _ & B & _). destruct (B k Ek) as [?|(n & ->)]; [by left|right].
        exists (length G), n. by rewrite list_lookup_middle.
    - intros h0 h i id o r v A B Eo k. pose proof (INVOLD _ _ _ _ _ _ _ A B) as A0. rewrite (LA h0) by (by eapply LT).
      apply snoc_cases in B as [[LB B]|[-> B]].
      + rewrite LA by done. by eapply (hi_sweep _ _ _ _ _ I).
      + rewrite LN. destruct (ek_res _ _ _ _ _ E _ _ _ _ _ (eq_sym B)) as (_ & _ & h1 & B0 & _ & _ & C & _).
        assert (h0 = h1) by (by eapply (wf_inv _ (hi_wf _ _ _ _ _ I))). subst h1. by apply C.
    - intros h0 h i id o k r v A B Ek. pose proof (INVOLD _ _ _ _ _ _ _ A B) as A0. rewrite (LA h0) by (by eapply LT).
      apply snoc_cases in B as [[LB B]|[-> B]].
      + rewrite LA by done. by eapply (hi_clos _ _ _ _ _ I).
      + rewrite LN. destruct (ek_res _ _ _ _ _ E _ _ _ _ _ (eq_sym B)) as (_ & _ & h1 & B0 & _ & _ & _ & C).
        assert (h0 = h1) by (by eapply (wf_inv _ (hi_wf _ _ _ _ _ I))). subst h1. by apply C.
    - intros i j h0 h k v Y. pose proof (yields_lt _ _ _ _ _ _ _ Y) as [L1 L2]. rewrite app_length in L1. cbn in L1.
      destruct (decide (h < length H)) as [L|L].
      + apply (proj1 (yields_app H e i j h0 h k v L)) in Y. rewrite !LA by lia. by eapply (hi_it1 _ _ _ _ _ I).
      + assert (h = length H) by lia. subst h. apply yields_new in Y as [(id & r & Ee) Y]. rewrite LN, LA by lia.
        by destruct (ek_it1 _ _ _ _ _ E _ _ _ _ _ _ _ Ee Y).
    - intros i j h0 h h' k v v' Y Y' Lh. pose proof (yields_lt _ _ _ _ _ _ _ Y) as [L1 L2]. pose proof (yields_lt _ _ _ _ _ _ _ Y') as [L1' L2'].
      rewrite app_length in L1, L1'. cbn in L1, L1'. rewrite (LA h0) by lia. apply (proj1 (yields_app H e i j h0 h k v ltac:(lia))) in Y.
      destruct (decide (h' < length H)) as [L|L].
      + apply (proj1 (yields_app H e i j h0 h' k v' L)) in Y'. rewrite !LA by lia. by eapply (hi_it2 _ _ _ _ _ I _ _ _ h h').
      + assert (h' = length H) by lia. subst h'. apply yields_new in Y' as [(id & r & Ee) Y']. rewrite LN.
        destruct (ek_it1 _ _ _ _ _ E _ _ _ _ _ _ _ Ee Y') as [_ Z]. by eapply Z.
    - intros i j h0 h id r A Ej k. pose proof Ej as Ej'. apply elem_of_list_lookup_2, it_lt in Ej'. rewrite take_length in Ej'.
      apply snoc_cases in A as [[LA1 A]|[-> A]].
      + rewrite take_app_le in Ej by lia. rewrite !LA by lia. destruct (hi_it3 _ _ _ _ _ I i j h0 h id r A Ej k) as [(h' & v & B & C)|?]; [left|by right].
        exists h', v. split; [done|]. apply yields_app; [lia|done].
      + rewrite take_app_le, take_ge in Ej by lia. rewrite LN, LA by lia. destruct (ek_it3 _ _ _ _ _ E i id j r h0 (eq_sym A) Ej k) as [(h' & v & Y)|?]; [left|by right].
        pose proof (yields_lt _ _ _ _ _ _ _ Y) as [L1 L2]. exists h', v. split; [done|]. by apply yields_app.
    - intros h i id o why A. apply snoc_cases in A as [[LA1 A]|[-> A]].
      + destruct (hi_panic _ _ _ _ _ I h i id o why A) as (B1 & B2 & B3 & B4 & (h0 & B5) & B6). rewrite LA by done.
        split_and!; [done|done|done|done|exists h0; by apply APP|]. intros h' j o' r v C. apply snoc_cases in C as [[LC C]|[-> C]]; [by apply B6 in C|].
        destruct (ek_res _ _ _ _ _ E _ _ _ _ _ (eq_sym C)) as ([_ N] & _). by apply N in A.
      + rewrite LN. destruct (ek_panic _ _ _ _ _ E _ _ _ _ (eq_sym A)) as ([B1 [B2 B3]] & (h0 & B5) & B6).
        split_and!; [done|done|done|intros n ev Hn _; by apply lookup_lt_Some in Hn|exists h0; by apply APP|].
        intros h' j o' r v C. apply snoc_cases in C as [[LC C]|[-> C]]; [by apply B6 in C|congruence].
  Qed.
  (** Events that are not responses. *)
  Lemma evt_other w H D e : (∀ i id o r v, e ≠ HRes i id o r v) →
    (∀ i id o, e = HInv i id o → r_ops (wr w) !! id = Some o ∧ ∀ h i' o', H !! h ≠ Some (HInv i' id o')) →
    (∀ i id o why, e = HPanic i id o why → okf cfg id o why w ∧ (∃ h0, H !! h0 = Some (HInv i id o)) ∧ ∀ h' j o' r v, H !! h' ≠ Some (HRes j id o' r v)) → evt_ok w H D [] e.
  Proof.
    intros N A B. split; [done|done|by left| | |].
    - intros ? ? ? ? ? E. by destruct (N _ _ _ _ _ E).
    - intros ? ? ? ? ? ? ? E. by destruct (N _ _ _ _ _ E).
    - intros ? ? ? ? ? E. by destruct (N _ _ _ _ _ E).
  Qed.
End app.
