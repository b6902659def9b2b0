(** C10: the counters agree with the number of keys when nothing is running. *)
From Verif Require Export Main1 Props.

Section keys.
  Context {K : Type} {Keq : EqDecision K}.
  Notation event := (event K).
  Definition adds (e : event) : Prop := ev_old e = None ∧ ev_new e ≠ None.
  Definition dels (e : event) : Prop := ev_old e ≠ None ∧ ev_new e = None.
  Global Instance adds_dec e : Decision (adds e).
  Proof. unfold adds. apply _. Defined.
  Global Instance dels_dec e : Decision (dels e).
  Proof. unfold dels. apply _. Defined.

  Lemma legal_take (l : list event) e : legal (l ++ [e]) → legal l ∧ replay l (ev_key e) = ev_old e.
  Proof.
    intros Lg. split.
    - intros n e' Hn. specialize (Lg n e'). pose proof (lookup_lt_Some _ _ _ Hn).
      rewrite rp_app in Lg by lia. apply Lg. by rewrite lookup_app_l.
    - specialize (Lg (length l) e). rewrite list_lookup_middle in Lg by done. specialize (Lg eq_refl).
      by rewrite rp_app, rp_all in Lg by lia.
  Qed.
  (** The keys after a legal log. *)
  Lemma log_keys (l : list event) : legal l → ∃ ks, NoDup ks ∧ (∀ k, k ∈ ks ↔ replay l k ≠ None) ∧
    Z.of_nat (length ks) = (Z.of_nat (length (filter adds l)) - Z.of_nat (length (filter dels l)))%Z.
  Proof.
    induction l as [|e l IH] using rev_ind; intros Lg.
    { exists []. split; [by constructor|]. split; [|done]. intros k. split; [by intros ?%elem_of_nil|done]. }
    apply legal_take in Lg as [Lg Eo]. destruct (IH Lg) as (ks & ND & HK & HL).
    rewrite !list.filter_app, !app_length, !list.filter_cons, !list.filter_nil.
    destruct (ev_old e) as [po|] eqn:E1, (ev_new e) as [pn|] eqn:E2.
    - exists ks. rewrite (decide_False (P := adds e)), (decide_False (P := dels e)) by (unfold adds, dels; rewrite E1, E2; naive_solver).
      split; [done|]. split; [|cbn; lia]. intros k. rewrite replay_snoc. case_decide as D; [|by apply HK]. subst k. rewrite HK, Eo, E2. done.
    - rewrite (decide_False (P := adds e)), (decide_True (P := dels e)) by (unfold adds, dels; rewrite E1, E2; naive_solver).
      assert (Hin : ev_key e ∈ ks) by (apply HK; by rewrite Eo). apply elem_of_Permutation in Hin as [ks' Pm].
      assert (ND' : NoDup (ev_key e :: ks')) by (by rewrite <- Pm). apply list.NoDup_cons in ND' as [N1 N2].
      exists ks'. split; [done|]. split; [|apply Permutation_length in Pm; cbn in *; lia].
      intros k. rewrite replay_snoc. assert (X : k ∈ ks ↔ k = ev_key e ∨ k ∈ ks') by (rewrite Pm; apply elem_of_cons).
      case_decide as D; [subst k; rewrite E2; split; [done|done]|]. rewrite <- HK, X. naive_solver.
    - rewrite (decide_True (P := adds e)), (decide_False (P := dels e)) by (unfold adds, dels; rewrite E1, E2; naive_solver).
      exists (ev_key e :: ks). split.
      { apply list.NoDup_cons. split; [|done]. rewrite HK, Eo. naive_solver. }
      split; [|cbn; lia]. intros k. rewrite elem_of_cons, replay_snoc. case_decide as D; [subst k; rewrite E2; naive_solver|]. rewrite <- HK. naive_solver.
    - exists ks. rewrite (decide_False (P := adds e)), (decide_False (P := dels e)) by (unfold adds, dels; rewrite E1, E2; naive_solver).
      split; [done|]. split; [|cbn; lia]. intros k. rewrite replay_snoc. case_decide as D; [|by apply HK]. subst k. rewrite HK, Eo, E2. done.
  Qed.
End keys.

Lemma filter_idx {A} (P : A → Prop) `{∀ x, Decision (P x)} (l : list A) :
  ∃ ks, NoDup ks ∧ (∀ p, p ∈ ks ↔ ∃ x, l !! p = Some x ∧ P x) ∧ length ks = length (filter P l).
Proof.
  induction l as [|x l IH] using rev_ind.
  { exists []. split; [by constructor|]. split; [|done]. intros p. split; [by intros ?%elem_of_nil|by intros (x & ? & _)]. }
  destruct IH as (ks & ND & HK & HL). rewrite list.filter_app, app_length, list.filter_cons, list.filter_nil.
  assert (SN : ∀ p y, (l ++ [x]) !! p = Some y ↔ l !! p = Some y ∨ p = length l ∧ y = x).
  { intros p y. split.
    - intros E. apply snoc_cases in E as [[_ E]|[-> ->]]; auto.
    - intros [E|[-> ->]]; [by apply lookup_app_l_Some|by apply list_lookup_middle]. }
  destruct (decide (P x)) as [Px|Px].
  - exists (length l :: ks). split.
    { apply list.NoDup_cons. split; [|done]. rewrite HK. intros (y & E & _). apply lookup_lt_Some in E. lia. }
    split; [|cbn; lia]. intros p. rewrite elem_of_cons, HK. setoid_rewrite SN. naive_solver.
  - exists ks. split; [done|]. split; [|cbn; lia]. intros p. rewrite HK. setoid_rewrite SN. naive_solver.
Qed.

Section len.
  Context {K V : Type} {Keq : EqDecision K} (cfg : config K) (nthr nsh : nat).
  Notation op := (op K V). Notation hevent := (hevent K V). Notation world := (@world K V).
  Notation WI := (WI cfg nthr nsh). Notation lg w := (length (g_log (wg w))). Notation hpo w := (k_hp (wc w)).
  Implicit Types (H : list hevent) (w : world) (c : mconf K V).
  Notation MI := (MI cfg nthr nsh).

  Lemma filter_eq {A} (P Q : A → Prop) `{∀ x, Decision (P x), ∀ x, Decision (Q x)} (l : list A) : (∀ x, x ∈ l → P x ↔ Q x) → filter P l = filter Q l.
  Proof.
    induction l as [|x l IH]; intros E; [done|]. rewrite !list.filter_cons. rewrite IH by (intros; apply E; by apply elem_of_cons; right).
    pose proof (E x ltac:(by apply elem_of_cons; left)). destruct (decide (P x)), (decide (Q x)); naive_solver.
  Qed.
  Lemma rem_old w e : WI w → e ∈ g_log (wg w) → ev_new e = None → ev_old e ≠ None.
  Proof.
    intros W He En Eo. destruct (eo_ev _ _ _ (wi_eo _ _ _ _ W) e He) as (o & _ & EV).
    destruct o as [k|k v|k v|k|k f|k f|k v|k g|k g v| |f| | | |]; cbn in EV; rewrite ?En, ?Eo in EV; cbn in EV.
    all: repeat match goal with X : _ ∧ _ |- _ => destruct X end; try done.
    all: try match goal with X : is_Some None |- _ => by destruct X end.
    all: try match goal with X : context [match ?f None with _ => _ end] |- _ => destruct (f None); [destruct X as [[? ?] ?]|destruct X as [[? ?] ?]| |]; done end.
    all: naive_solver.
  Qed.
  Lemma dels_eq w : WI w → length (filter dels (g_log (wg w))) = n_rem (wg w).
  Proof.
    intros W. unfold n_rem. f_equal. apply filter_eq. intros e He. unfold dels. split; [by intros [_ ?]|]. intros En. split; [by eapply rem_old|done].
  Qed.
  Lemma adds_eq w : WI w → (∀ p i h, g_pub (wg w) !! p = Some (i, Some h) → lin (g_log (wg w)) p) →
    length (filter adds (g_log (wg w))) = n_ins (wg w).
  Proof.
    intros W LIN. pose proof (wi_inv _ _ _ _ W) as I. pose proof (wi_eo _ _ _ _ W) as E.
    unfold n_ins. match goal with |- _ = length (@filter _ _ _ ?P ?d ?l) => destruct (@filter_idx _ P d l) as (ps & ND & HP & <-) end.
    assert (X : ∀ l, l `prefix_of` g_log (wg w) → NoDup (omap ev_new (filter adds l)) ∧ length (omap ev_new (filter adds l)) = length (filter adds l)).
    { induction l as [|e l IH] using rev_ind; intros P; [split; [constructor|done]|].
      destruct IH as [A B]; [etrans; [by eexists|done]|].
      rewrite list.filter_app, omap_app, list.filter_cons, list.filter_nil. destruct (decide (adds e)) as [[E1 E2]|N]; [|by rewrite !app_nil_r].
      destruct (ev_new e) as [p|] eqn:En; [|done]. cbn. rewrite En. cbn. rewrite !app_length, B. split; [|done].
      apply NoDup_app. split; [done|]. split; [|apply NoDup_singleton]. intros q Hq ->%elem_of_list_singleton.
      apply elem_of_list_omap in Hq as (e' & He' & En'). apply elem_of_list_filter in He' as [_ He']. apply elem_of_list_lookup in He' as [n Hn].
      assert (n = length l); [|apply lookup_lt_Some in Hn; lia].
      eapply (i_news _ _ _ I n (length l) e' e p); [|by eapply prefix_lookup; [by apply list_lookup_middle|done]|done|done].
      eapply prefix_lookup; [by apply lookup_app_l_Some|done]. }
    destruct (X (g_log (wg w)) ltac:(done)) as [N <-]. apply Permutation_length, NoDup_Permutation; [done|done|].
    intros p. rewrite elem_of_list_omap, HP. split.
    - intros (e & He & En). apply elem_of_list_filter in He as [[E1 _] He].
      destruct (i_evkey _ _ _ I e p He En) as [_ [h Hh]]. exists (ev_op e, h). split; [done|]. destruct h as [h|]; [by cbn; eauto|].
      destruct (eo_upd _ _ _ E p _ e Hh He eq_refl) as [? ?]. congruence.
    - intros ([i h] & Hx & [y Hy]). cbn in Hy. subst h. destruct (LIN _ _ _ Hx) as (e & He & En). exists e. split; [|done].
      apply elem_of_list_filter. split; [|done]. destruct (i_evkey _ _ _ I e p He En) as [_ [h Hh]]. rewrite Hh in Hx. injection Hx as <- ->.
      split; [by eapply (eo_ins _ _ _ E)|by rewrite En].
  Qed.

  (** Every call invoked has returned. *)
  Definition complete H : Prop := ∀ q t id o, H !! q = Some (HInv t id o) → ∃ hr r v, H !! hr = Some (HRes t id o r v).
  (** The call at which a dead thread died never returned. *)
  Definition dead_ok c : Prop := ∀ i ts, mc_thr c !! i = Some ts → ts_dead ts = true →
    ∃ h id o, mc_hist c !! h = Some (HInv i id o) ∧ ∀ h j o' r v, mc_hist c !! h ≠ Some (HRes j id o' r v).

  Lemma zsum0 (l : list Z) : (∀ z, z ∈ l → z = 0%Z) → zsum l = 0%Z.
  Proof.
    induction l as [|z l IH]; intros E; [done|]. cbn. fold (zsum l). rewrite IH by (intros; apply E; by apply elem_of_cons; right).
    rewrite (E z); [done|by apply elem_of_cons; left].
  Qed.
  Lemma count_complete c w D G : MI c w D G → dead_ok c → complete (mc_hist c) →
    ∃ ks, NoDup ks ∧ (∀ k, k ∈ ks ↔ vm w (lg w) k ≠ None) ∧ Z.of_nat (length ks) = zsum (counts (mc_st c)).
  Proof.
    intros M DE CO. pose proof (mi_wi _ _ _ _ _ _ _ M) as W. pose proof (mi_hi _ _ _ _ _ _ _ M) as I. pose proof (wi_eo _ _ _ _ W) as E.
    assert (PEND : zsum (map (r_pend (wr w)) (seq 0 nthr)) = 0%Z).
    { apply zsum0. intros z Hz. apply elem_of_list_fmap in Hz as (i & -> & Hi). apply elem_of_list_In, in_seq in Hi.
      destruct (lookup_lt_is_Some_2 (mc_thr c) i) as [ts Et]; [rewrite (mi_len _ _ _ _ _ _ _ M); lia|].
      pose proof (mi_t _ _ _ _ _ _ _ M i ts Et) as T. destruct ts as [[[[id o] p]|] its []]; cbn in T.
      - done.
      - destruct T as (_ & NR & _ & _ & h0 & _ & _ & A & _). destruct (CO _ _ _ _ A) as (hr & r & v & B). by apply NR in B.
      - destruct (DE i _ Et eq_refl) as (h & id & o & A & B). destruct (CO _ _ _ _ A) as (hr & r & v & C). by apply B in C.
      - apply T. }
    assert (LIN : ∀ p i h, g_pub (wg w) !! p = Some (i, Some h) → lin (g_log (wg w)) p).
    { intros p i h Hp. pose proof (eo_publt _ _ _ E p i _ Hp) as L. destruct (lookup_lt_is_Some_2 _ _ L) as [o Ho].
      destruct (mi_all _ _ _ _ _ _ _ M i o Ho) as (q & t & Hq). destruct (CO _ _ _ _ Hq) as (hr & r & v & Hr).
      destruct (hi_fin _ _ _ _ _ I _ _ _ _ _ _ Hr) as [[NP|(_ & e & He & Ee)] _]; [by apply NP in Hp|].
      exists e. split; [done|]. by eapply (eo_pubev _ _ _ E). }
    destruct (log_keys (g_log (wg w)) (i_legal _ _ _ (wi_inv _ _ _ _ W))) as (ks & ND & HK & HL).
    exists ks. split; [done|]. split.
    - intros k. rewrite HK. unfold vm. rewrite rp_all by done. destruct (replay (g_log (wg w)) k) as [p|] eqn:Er; [|done].
      assert (X : ky (wc w) p = Some k) by (eapply (rp_ky cfg nthr nsh w (lg w)); [done|by rewrite rp_all]).
      unfold ky in X. unfold valp. change (Some p ≠ None ↔ snd <$> (hpo w !! p) ≠ None). destruct (hpo w !! p) as [kv|]; done.
    - rewrite HL, adds_eq, dels_eq by done. pose proof (ct_sum _ _ _ _ _ (wi_ct _ _ _ _ W)) as CT. rewrite PEND, Z.add_0_r in CT.
      rewrite <- CT, <- (mi_st _ _ _ _ _ _ _ M). done.
  Qed.
End len.
