(** History bookkeeping: how the ghost state of the map explains the history of API calls. *)
From Verif Require Export IncMach2.

Section hist.
  Context {K V : Type} {Keq : EqDecision K}.
  Notation op := (op K V). Notation hevent := (hevent K V). Notation world := (@world K V).
  Implicit Types (H : list hevent).

  Definition ev_thr (e : hevent) : nat := match e with HInv i _ _ | HRes i _ _ _ _ | HPanic i _ _ _ | HPin i | HUnpin i => i end.
  Notation itf i H := (foldl (it_step i) (0, 0, []) H).
  Definition lastc (i : nat) H : nat := (itf i H).1.2.

  Lemma itf_len i H : (itf i H).1.1 = length H.
  Proof.
    induction H as [|e H IH] using rev_ind; [done|]. rewrite foldl_app, app_length. cbn.
    destruct (itf i H) as [[h l] acc]. cbn in IH. subst h.
    destruct e as [j x o|j x [] r v|j x o w|j|j]; cbn; lia.
  Qed.
  Lemma itf_snoc i H e : itf i (H ++ [e]) = it_step i (length H, lastc i H, iters_of i H) e.
  Proof. rewrite foldl_app. cbn. f_equal. unfold lastc, iters_of. rewrite <- (itf_len i H). by destruct (itf i H) as [[h l] acc]. Qed.
  Lemma it_lt i H : lastc i H ≤ length H ∧ ∀ x, x ∈ iters_of i H → x < length H.
  Proof.
    induction H as [|e H [IH1 IH2]] using rev_ind; [split; [done|intros x ?%elem_of_nil; done]|].
    unfold lastc at 1, iters_of at 1. rewrite itf_snoc, app_length. cbn [length].
    assert (B1 : lastc i H ≤ length H + 1) by lia. assert (B2 : ∀ x, x ∈ iters_of i H → x < length H + 1) by (intros x Hx; apply IH2 in Hx; lia).
    assert (B3 : ∀ x, x ∈ @nil nat → x < length H + 1) by (intros x ?%elem_of_nil; done).
    destruct e as [j x o|j x o r v|j x o w|j|j]; cbn.
    - split; [case_decide; lia|done].
    - destruct o; cbn; try done. split; [done|]. case_decide; [|done]. intros x' [?|?]%elem_of_app; [auto|].
      apply elem_of_list_singleton in H1. lia.
    - case_decide; done.
    - done.
    - case_decide; done.
  Qed.
  Lemma it_other i H e : ev_thr e ≠ i → iters_of i (H ++ [e]) = iters_of i H ∧ lastc i (H ++ [e]) = lastc i H.
  Proof.
    intros N. unfold lastc at 1, iters_of at 1. rewrite itf_snoc.
    destruct e as [j x o|j x o r v|j x o w|j|j]; cbn in *; rewrite ?decide_False by done; [done| |done|done|done].
    destruct o; cbn; rewrite ?decide_False by done; done.
  Qed.

  Lemma yields_lt H i j h0 h k v : yields H i j h0 h k v → h < length H ∧ h0 < h.
  Proof.
    intros (id & r & A & B). apply lookup_lt_Some in A. split; [done|]. apply elem_of_list_lookup_2 in B. apply it_lt in B.
    rewrite take_length in B. lia.
  Qed.
  Lemma yields_app H e i j h0 h k v : h < length H → yields (H ++ [e]) i j h0 h k v ↔ yields H i j h0 h k v.
  Proof. intros L. unfold yields. rewrite lookup_app_l by done. by rewrite take_app_le by lia. Qed.
  Lemma yields_new H e i j h0 k v : yields (H ++ [e]) i j h0 (length H) k v ↔
    (∃ id r, e = HRes i id (OIterNext j) r (VNext (Some (k, v)))) ∧ iters_of i H !! j = Some h0.
  Proof.
    unfold yields. rewrite take_app_le, take_ge by lia. rewrite list_lookup_middle by done. naive_solver.
  Qed.
  Lemma snoc_cases {A0} (H : list A0) e h x : (H ++ [e]) !! h = Some x → (h < length H ∧ H !! h = Some x) ∨ (h = length H ∧ x = e).
  Proof.
    intros A. destruct (decide (h < length H)) as [L|L]; [left; by rewrite lookup_app_l in A|right].
    pose proof (lookup_lt_Some _ _ _ A) as L2. rewrite app_length in L2. cbn in L2. assert (h = length H) by lia. subst h.
    rewrite list_lookup_middle in A by done. by injection A as <-.
  Qed.

  Notation dat := (list (nat * nat)).
  Definition Lof (D : dat) (h : nat) : nat := (default (0, 0) (D !! h)).1.
  Definition Rof (D : dat) (h : nat) : nat := (default (0, 0) (D !! h)).2.
  Lemma Lof_app D x h : h < length D → Lof (D ++ [x]) h = Lof D h.
  Proof. intros L. unfold Lof. by rewrite lookup_app_l. Qed.
  Lemma Rof_app D x h : h < length D → Rof (D ++ [x]) h = Rof D h.
  Proof. intros L. unfold Rof. by rewrite lookup_app_l. Qed.
  Lemma Lof_new D x : Lof (D ++ [x]) (length D) = x.1.
  Proof. unfold Lof. by rewrite list_lookup_middle. Qed.
  Lemma Rof_new D x : Rof (D ++ [x]) (length D) = x.2.
  Proof. unfold Rof. by rewrite list_lookup_middle. Qed.

  (** The iterators of thread [i]: for each, the length of the log when it was created (at least) and the keys yielded. *)
  Definition itg H (D : dat) (i : nat) (gs : list (nat * list K)) : Prop :=
    length gs = length (iters_of i H) ∧
    ∀ j g h0, gs !! j = Some g → iters_of i H !! j = Some h0 → Lof D h0 ≤ g.1 ∧ ∀ k, k ∈ g.2 ↔ ∃ h v, yields H i j h0 h k v.
  Lemma itg_other H D i gs e x : length D = length H → ev_thr e ≠ i → itg H D i gs → itg (H ++ [e]) (D ++ [x]) i gs.
  Proof.
    intros EL N [A B]. destruct (it_other i H e N) as [E1 E2]. split; [by rewrite E1|]. intros j g h0 Hg. rewrite E1. intros Hh.
    destruct (B j g h0 Hg Hh) as [B1 B2]. split.
    - rewrite Lof_app; [done|]. rewrite EL. apply elem_of_list_lookup_2 in Hh. by apply it_lt in Hh.
    - intros k. rewrite B2. split; intros (h & v & Y); exists h, v.
      { pose proof (yields_lt _ _ _ _ _ _ _ Y) as [? _]. by apply yields_app. }
      destruct (decide (h < length H)) as [L|L]; [by apply (proj1 (yields_app H e i j h0 h k v L))|].
      pose proof (yields_lt _ _ _ _ _ _ _ Y) as [L2 _]. rewrite app_length in L2. cbn in L2. assert (h = length H) by lia. subst h.
      apply yields_new in Y as [(id & r & ->) _]. by destruct N.
  Qed.
End hist.

(** ** Values at a moment of the log *)
Section vm.
  Context {K V : Type} {Keq : EqDecision K} (cfg : config K) (nthr nsh : nat).
  Notation op := (op K V). Notation hevent := (hevent K V). Notation world := (@world K V). Notation vres := (vres K V).
  Notation WI := (WI cfg nthr nsh). Notation lg w := (length (g_log (wg w))). Notation hpo w := (k_hp (wc w)).
  Implicit Types (H : list hevent) (w : world).
  Notation dat := (list (nat * nat)).

  Definition vm w (n : nat) (k : K) : option V := valp (hpo w) (rp n (g_log (wg w)) k).
  Record grows w w' : Prop := MkGrows {
    gr_wi : WI w; gr_wi' : WI w';
    gr_log : g_log (wg w) `prefix_of` g_log (wg w');
    gr_hp : hpo w `prefix_of` hpo w';
    gr_ops : r_ops (wr w) `prefix_of` r_ops (wr w');
    gr_ext : ∃ i, ext0 i (wc w) (wg w) (wc w') (wg w') }.
  Lemma valp_grow w w' c : grows w w' → (∀ p, c = Some p → is_Some (ky (wc w) p)) → valp (hpo w') c = valp (hpo w) c.
  Proof.
    intros G Hc. unfold valp. destruct c as [p|]; [|done]. change (snd <$> (hpo w' !! p) = snd <$> (hpo w !! p)).
    destruct (Hc p eq_refl) as [k Hk]. unfold ky in Hk.
    destruct (k_hp (wc w) !! p) as [kv|] eqn:E; [|done]. by rewrite (prefix_lookup _ _ _ _ E (gr_hp _ _ G)).
  Qed.
  Lemma ev_new_ky w e p : WI w → e ∈ g_log (wg w) → ev_new e = Some p → is_Some (ky (wc w) p).
  Proof. intros W A B. destruct (i_evkey _ _ _ (wi_inv _ _ _ _ W) e p A B) as [C _]. eauto. Qed.
  Lemma ev_old_ky w e p : WI w → e ∈ g_log (wg w) → ev_old e = Some p → is_Some (ky (wc w) p).
  Proof. intros W A B. pose proof (eo_old _ _ _ (wi_eo _ _ _ _ W) e p A B). eauto. Qed.
  Lemma rp_ky w n k p : WI w → rp n (g_log (wg w)) k = Some p → ky (wc w) p = Some k.
  Proof.
    intros W A.
    assert (B : ∀ l, (∀ e, e ∈ l → e ∈ g_log (wg w)) → replay l k = Some p → ky (wc w) p = Some k).
    { induction l as [|e l IH] using rev_ind; intros Hl; [done|]. rewrite replay_snoc. case_decide as E.
      - intros En. destruct (i_evkey _ _ _ (wi_inv _ _ _ _ W) e p) as [C _]; [apply Hl, elem_of_app; right; by apply elem_of_list_singleton|done|]. by rewrite C, E.
      - apply IH. intros e' He'. apply Hl, elem_of_app. by left. }
    apply (B (take n (g_log (wg w)))); [|done]. intros e He. rewrite <- (take_drop n). apply elem_of_app. by left.
  Qed.
  Lemma vm_grow w w' n k : grows w w' → n ≤ lg w → vm w' n k = vm w n k.
  Proof.
    intros G L. unfold vm. rewrite (rp_prefix _ _ _ _ (gr_log _ _ G)) by done. apply valp_grow; [done|].
    intros p E. rewrite (rp_ky w n k p); [eauto|apply G|done].
  Qed.
  Lemma wit_vm w n0 k c : wit w n0 k c → ∃ n, n0 ≤ n ∧ n ≤ lg w ∧ vm w n k = valp (hpo w) c.
  Proof. intros (n & A & B & <-). exists n. done. Qed.

  (** ** The history and the ghost state *)
  Record rdrec := Rd { rd_id : nat; rd_op : op; rd_v : vres; rd_n : nat }.

  Record HI w H (D : dat) (G : list rdrec) : Prop := MkHI {
    hi_len : length D = length H;
    hi_mono : ∀ h h' x x', D !! h = Some x → D !! h' = Some x' → h ≤ h' → x.1 ≤ x'.1 ∧ x.2 ≤ x'.2;
    hi_top : ∀ h x, D !! h = Some x → x.1 ≤ lg w ∧ x.2 ≤ length G;
    hi_wf : wf_hist H;
    hi_inv : ∀ h i id o, H !! h = Some (HInv i id o) → r_ops (wr w) !! id = Some o;
    hi_ev : ∀ n e, g_log (wg w) !! n = Some e → ∃ h i o, H !! h = Some (HInv i (ev_op e) o) ∧ Lof D h ≤ n;
    hi_fin : ∀ h i id o r v, H !! h = Some (HRes i id o r v) →
      (npub id w ∨ multi o = false ∧ ∃ e, didw id w e) ∧ ∀ n e, g_log (wg w) !! n = Some e → ev_op e = id → n < Lof D h;
    hi_g : ∀ j id o v n, G !! j = Some (Rd id o v n) → unused (wg w) id ∧ ∃ h0 h i r k, H !! h0 = Some (HInv i id o) ∧ H !! h = Some (HRes i id o r v) ∧
      Lof D h0 ≤ n ∧ n ≤ Lof D h ∧ Rof D h0 ≤ j ∧ j < Rof D h ∧ key_of o = Some k ∧ seq_op o (vm w n k) = Some (vm w n k, v);
    hi_g1 : ∀ j j' x x', G !! j = Some x → G !! j' = Some x' → rd_id x = rd_id x' → j = j';
    hi_done : ∀ h i id o r v k, H !! h = Some (HRes i id o r v) → key_of o = Some k →
      (∃ n e, g_log (wg w) !! n = Some e ∧ ev_op e = id ∧ ev_key e = k ∧ seq_op o (valp (hpo w) (ev_old e)) = Some (valp (hpo w) (ev_new e), v)) ∨
      ∃ j n, G !! j = Some (Rd id o v n);
    hi_sweep : ∀ h0 h i id o r v, H !! h0 = Some (HInv i id o) → H !! h = Some (HRes i id o r v) → (o = OClear ∨ ∃ f, o = ORetain f) →
      ∀ k, ∃ n, Lof D h0 ≤ n ∧ n ≤ Lof D h ∧ match vm w n k with None => True | Some x => keeps o k x = true end;
    hi_clos : ∀ h0 h i id o k r v, H !! h0 = Some (HInv i id o) → H !! h = Some (HRes i id o r v) → key_of o = Some k →
      length (filter (λ c, c = None) (calls_of r)) ≤ 1 ∧
      ∀ c, c ∈ calls_of r → ∃ n, Lof D h0 ≤ n ∧ n ≤ Lof D h ∧ c = (λ x, (k, x)) <$> vm w n k;
    hi_it1 : ∀ i j h0 h k v, yields H i j h0 h k v → ∃ n, Lof D h0 ≤ n ∧ n ≤ Lof D h ∧ vm w n k = Some v;
    hi_it2 : ∀ i j h0 h h' k v v', yields H i j h0 h k v → yields H i j h0 h' k v' → h < h' → ∃ m n, Lof D h0 ≤ m ∧ m ≤ n ∧ n ≤ Lof D h' ∧ vm w m k ≠ None ∧ vm w n k = None;
    hi_it3 : ∀ i j h0 h id r, H !! h = Some (HRes i id (OIterNext j) r (VNext None)) → iters_of i (take h H) !! j = Some h0 →
       ∀ k, (∃ h' v, h' < h ∧ yields H i j h0 h' k v) ∨ ∃ n, Lof D h0 ≤ n ∧ n ≤ Lof D h ∧ vm w n k = None;
    hi_panic : ∀ h i id o why, H !! h = Some (HPanic i id o why) → okr cfg o why ∧ npub id w ∧ (multi o = true ∨ unused (wg w) id) ∧
      (∀ n e, g_log (wg w) !! n = Some e → ev_op e = id → n < Lof D h) ∧
      (∃ h0, H !! h0 = Some (HInv i id o)) ∧ ∀ h' j o' r v, H !! h' ≠ Some (HRes j id o' r v) }.

  Lemma Lof_top w H D G h : HI w H D G → Lof D h ≤ lg w.
  Proof. intros I. unfold Lof. destruct (D !! h) as [x|] eqn:E; [|cbn; lia]. by apply (hi_top _ _ _ _ I) in E as [? _]. Qed.
  Lemma Lof_mono w H D G h h' : HI w H D G → h ≤ h' → h' < length H → Lof D h ≤ Lof D h'.
  Proof.
    intros I L L'. rewrite <- (hi_len _ _ _ _ I) in L'. unfold Lof. destruct (lookup_lt_is_Some_2 _ _ L') as [x' E'].
    destruct (lookup_lt_is_Some_2 D h) as [x E]; [lia|]. rewrite E, E'. cbn. by eapply (hi_mono _ _ _ _ I).
  Qed.

  Lemma npub_grow id w w' : ext0 id (wc w) (wg w) (wc w') (wg w') → npub id w → npub id w'.
  Proof.
    intros X N p h' Hp'. pose proof (x_pubs _ _ _ _ _ X p h' Hp') as L. destruct (lookup_lt_is_Some_2 _ _ L) as [y Ey].
    pose proof (prefix_lookup _ _ _ _ Ey (x_pub _ _ _ _ _ X)) as E2. rewrite E2 in Hp'. injection Hp' as ->. by apply N in Ey.
  Qed.
  (** The map moves on, the history does not. *)
  Lemma HI_grow w w' H D G : grows w w' → HI w H D G →
    (∀ h i id o r v, H !! h = Some (HRes i id o r v) → ext0 id (wc w) (wg w) (wc w') (wg w')) →
    (∀ h i id o why, H !! h = Some (HPanic i id o why) → ext0 id (wc w) (wg w) (wc w') (wg w')) →
    (∀ n e, g_log (wg w') !! n = Some e → lg w ≤ n → ∃ h i o, H !! h = Some (HInv i (ev_op e) o)) → HI w' H D G.
  Proof.
    intros GR I FX FP INV. pose proof (prefix_length _ _ (gr_log _ _ GR)) as LL.
    assert (LT : ∀ h, Lof D h ≤ lg w) by (intros; by eapply Lof_top).
    assert (VM : ∀ h n k, n ≤ Lof D h → vm w' n k = vm w n k) by (intros h n k Hn; apply vm_grow; [done|]; specialize (LT h); lia).
    assert (OLD : ∀ n e, g_log (wg w') !! n = Some e → n < lg w → g_log (wg w) !! n = Some e).
    { intros n e A B. destruct (gr_log _ _ GR) as [x E]. rewrite E in A. by rewrite lookup_app_l in A. }
    split; try apply I.
    - intros h x E. destruct (hi_top _ _ _ _ I h x E) as [A B]. split; [lia|done].
    - intros h i id o E. eapply prefix_lookup; [by eapply (hi_inv _ _ _ _ I)|apply GR].
    - intros n e E. destruct (decide (n < lg w)) as [L|L]; [by apply (hi_ev _ _ _ _ I), OLD|].
      destruct (INV n e E) as (h & i & o & A); [lia|]. exists h, i, o. split; [done|]. specialize (LT h). lia.
    - intros h i id o r v E. destruct (hi_fin _ _ _ _ I h i id o r v E) as [A B]. pose proof (FX h i id o r v E) as X.
      assert (NP : npub id w → npub id w').
      { intros N p h' Hp'. pose proof (x_pubs _ _ _ _ _ X p h' Hp') as L. destruct (lookup_lt_is_Some_2 _ _ L) as [y Ey].
        pose proof (prefix_lookup _ _ _ _ Ey (x_pub _ _ _ _ _ X)) as E2. rewrite E2 in Hp'. injection Hp' as ->. by apply N in Ey. }
      assert (A' : npub id w' ∨ multi o = false ∧ ∃ e, didw id w' e).
      { destruct A as [A|(M & e & D1 & D2)]; [left; auto|right]. split; [done|]. exists e. split; [|done]. eapply elem_of_prefix; [done|apply GR]. }
      split; [done|]. intros n e En Ee. destruct (decide (n < lg w)) as [L|L]; [by eapply B; [apply OLD|]|]. exfalso.
      destruct (x_evs _ _ _ _ _ X n e En) as (p & h' & _ & C2 & C3); [lia|done|].
      destruct A as [A|(M & e0 & D1 & D2)]; [by apply A in C2|]. apply elem_of_list_lookup in D1 as [n0 D1].
      assert (N : n = n0).
      { destruct (hi_wf _ _ _ _ I) as [_ WR _]. destruct (WR _ _ _ _ _ _ E) as (hh & _ & Hh). apply (hi_inv _ _ _ _ I) in Hh.
        eapply (eo_uniq _ _ _ (wi_eo _ _ _ _ (gr_wi' _ _ GR)) n n0 e e0 o); [done|by eapply prefix_lookup; [done|apply GR]|congruence| |done].
        rewrite Ee. eapply prefix_lookup; [done|apply GR]. }
      subst n0. apply lookup_lt_Some in D1. lia.
    - intros j id o v n E. destruct (hi_g _ _ _ _ I j id o v n E) as (U & h0 & h & i & r & k & A1 & A2 & A3 & A4 & A5 & A6 & A7 & A8). split.
      + pose proof (FX _ _ _ _ _ _ A2) as X. destruct U as [U1 U2]. split.
        * intros e He Ee. apply elem_of_list_lookup in He as [m Hm]. destruct (decide (m < lg w)) as [L|L].
          -- apply (U1 e); [eapply elem_of_list_lookup_2; by apply OLD|done].
          -- destruct (x_evs _ _ _ _ _ X m e Hm) as (p & h' & _ & C2 & _); [lia|done|]. by apply U2 in C2.
        * intros p h' Hp'. pose proof (x_pubs _ _ _ _ _ X p h' Hp') as L. destruct (lookup_lt_is_Some_2 _ _ L) as [y Ey].
          pose proof (prefix_lookup _ _ _ _ Ey (x_pub _ _ _ _ _ X)) as E2. rewrite E2 in Hp'. injection Hp' as ->. by apply U2 in Ey.
      + exists h0, h, i, r, k. rewrite (VM h) by done. split_and!; done.
    - intros h i id o r v k E Ek. destruct (hi_done _ _ _ _ I h i id o r v k E Ek) as [(n & e & A1 & A2 & A3 & A4)|X]; [left|by right].
      assert (Ein : e ∈ g_log (wg w)) by (by eapply elem_of_list_lookup_2).
      exists n, e. split; [by eapply prefix_lookup; [done|apply GR]|]. split; [done|]. split; [done|].
      rewrite !(valp_grow w w'); [done|done| |done|].
      + intros p Ep. eapply ev_new_ky; [apply GR|done|done].
      + intros p Ep. eapply ev_old_ky; [apply GR|done|done].
    - intros h0 h i id o r v E0 E Eo k. destruct (hi_sweep _ _ _ _ I h0 h i id o r v E0 E Eo k) as (n & A & B & C). exists n.
      by rewrite (VM h).
    - intros h0 h i id o k r v E0 E Ek. destruct (hi_clos _ _ _ _ I h0 h i id o k r v E0 E Ek) as [A B]. split; [done|].
      intros c Hc. destruct (B c Hc) as (n & C1 & C2 & C3). exists n. by rewrite (VM h).
    - intros i j h0 h k v Y. destruct (hi_it1 _ _ _ _ I i j h0 h k v Y) as (n & C1 & C2 & C3). exists n. by rewrite (VM h).
    - intros i j h0 h h' k v v' Y Y' L. destruct (hi_it2 _ _ _ _ I i j h0 h h' k v v' Y Y' L) as (m & n & C1 & C2 & C3 & C4). exists m, n. rewrite !(VM h') by lia. done.
    - intros i j h0 h id r E Ej k. destruct (hi_it3 _ _ _ _ I i j h0 h id r E Ej k) as [?|(n & C1 & C2 & C3)]; [by left|right]. exists n. by rewrite (VM h).
    - intros h i id o why E. destruct (hi_panic _ _ _ _ I h i id o why E) as (A1 & A2 & A3 & A4 & A5 & A6). pose proof (FP h i id o why E) as X.
      split; [done|]. split; [by eapply npub_grow|].
      assert (NE : ∀ n e, g_log (wg w') !! n = Some e → ev_op e = id → n < lg w).
      { intros n e En Ee. destruct (decide (n < lg w)) as [L|L]; [done|]. exfalso.
        destruct (x_evs _ _ _ _ _ X n e En) as (p & h' & _ & C2 & _); [lia|done|]. by apply A2 in C2. }
      split; [|split; [|done]].
      + destruct A3 as [A3|[U1 U2]]; [by left|right]. split; [|by eapply npub_grow].
        intros e He Ee. apply elem_of_list_lookup in He as [m Hm]. apply (U1 e); [|done]. eapply elem_of_list_lookup_2, OLD; [done|by eapply NE].
      + intros n e En Ee. eapply A4; [apply OLD; [done|by eapply NE]|done].
  Qed.
End vm.
