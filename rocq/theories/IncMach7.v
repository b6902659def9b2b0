(** Every execution is linearizable: construction of the linearization from the ghost state. *)
From Verif Require Export IncMach6.

Section filt.
  Context {A : Type} (P : A → Prop) `{∀ x, Decision (P x)}.
  Lemma filter_pos (l : list A) j' x : filter P l !! j' = Some x → ∃ j, l !! j = Some x ∧ P x ∧ j' = length (filter P (take j l)).
  Proof.
    revert j'. induction l as [|y l IH] using rev_ind; intros j'; [done|]. rewrite list.filter_app. intros E.
    destruct (decide (j' < length (filter P l))) as [L|L].
    - rewrite lookup_app_l in E by done. destruct (IH j' E) as (j & A1 & A2 & A3). pose proof (lookup_lt_Some _ _ _ A1).
      exists j. rewrite take_app_le by lia. split; [by apply lookup_app_l_Some|done].
    - rewrite lookup_app_r in E by lia. rewrite list.filter_cons in E. destruct (decide (P y)) as [Py|Py]; [|done].
      rewrite list.filter_nil in E. destruct (j' - length (filter P l)) eqn:E2; [|done]. injection E as <-. exists (length l).
      split; [by apply list_lookup_middle|]. split; [done|]. rewrite take_app. lia.
  Qed.
  Lemma filter_pos_2 (l : list A) j x : l !! j = Some x → P x → filter P l !! length (filter P (take j l)) = Some x.
  Proof.
    intros E Px. assert (X : filter P l = filter P (take j l) ++ x :: filter P (drop (S j) l)).
    { transitivity (filter P (take j l ++ x :: drop (S j) l)); [by rewrite (take_drop_middle _ _ _ E)|]. by rewrite list.filter_app, list.filter_cons, decide_True by done. }
    rewrite X. by apply list_lookup_middle.
  Qed.
  Lemma filter_take_mono (l : list A) n m : n ≤ m → length (filter P (take n l)) ≤ length (filter P (take m l)).
  Proof.
    intros L. assert (E : take m l = take n l ++ take (m - n) (drop n l)).
    { replace m with (n + (m - n)) at 1 by lia. by rewrite <- take_take_drop. }
    rewrite E, list.filter_app, app_length. lia.
  Qed.
  Lemma filter_take_lt (l : list A) j x m : l !! j = Some x → P x → j < m → length (filter P (take j l)) < length (filter P (take m l)).
  Proof.
    intros E Px L. assert (X : length (filter P (take (S j) l)) ≤ length (filter P (take m l))) by (apply filter_take_mono; lia).
    rewrite (take_S_r _ _ _ E), list.filter_app, list.filter_cons, decide_True, app_length in X by done. cbn in X. lia.
  Qed.
  Lemma filter_take_all (l : list A) n : length (filter P (take n l)) ≤ length (filter P l).
  Proof. assert (X : filter P l = filter P (take n l) ++ filter P (drop n l)) by (by rewrite <- list.filter_app, take_drop). rewrite X, app_length. lia. Qed.
End filt.

Section lin.
  Context {K V : Type} {Keq : EqDecision K} (cfg : config K) (nthr nsh : nat).
  Notation op := (op K V). Notation hevent := (hevent K V). Notation world := (@world K V). Notation vres := (vres K V). Notation lact := (@lact K V).
  Notation WI := (WI cfg nthr nsh). Notation lg w := (length (g_log (wg w))). Notation hpo w := (k_hp (wc w)).
  Notation dat := (list (nat * nat)). Notation HI := (HI cfg). Notation rdrec := (@rdrec K V). Notation event := (event K).
  Notation smap := (@smap K V).
  Context (w : world) (H : list hevent) (D : dat) (G : list rdrec) (W : WI w) (I : HI w H D G).

  (** The action of a write. *)
  Definition actok (e : event) (a : lact) : Prop :=
    match a with
    | LOp id o r => id = ev_op e ∧ r_ops (wr w) !! id = Some o ∧ key_of o = Some (ev_key e) ∧
                    seq_op o (valp (hpo w) (ev_old e)) = Some (valp (hpo w) (ev_new e), r)
    | LDel id k v => id = ev_op e ∧ k = ev_key e ∧ valp (hpo w) (ev_old e) = Some v ∧ ev_new e = None ∧
                     ∃ o, r_ops (wr w) !! id = Some o ∧ (o = OClear ∨ ∃ f, o = ORetain f ∧ f k v = false)
    end.
  Lemma valp_bind c (kv : K * V) : c ≫= (hpo w !!.) = Some kv → valp (hpo w) c = Some kv.2.
  Proof. intros E. destruct c as [p|]; [|done]. change (hpo w !! p = Some kv) in E. change (snd <$> (hpo w !! p) = Some kv.2). by rewrite E. Qed.
  Lemma old_bind e : e ∈ g_log (wg w) → ev_old e ≫= (hpo w !!.) = (λ v, (ev_key e, v)) <$> valp (hpo w) (ev_old e).
  Proof.
    intros He. destruct (ev_old e) as [p|] eqn:E; [|done]. pose proof (eo_old _ _ _ (wi_eo _ _ _ _ W) e p He E) as X. unfold ky in X.
    change (hpo w !! p = (λ v, (ev_key e, v)) <$> (snd <$> (hpo w !! p))). destruct (hpo w !! p) as [[k v]|]; [|done]. cbn in *. by injection X as ->.
  Qed.
  Lemma old_some e : e ∈ g_log (wg w) → is_Some (ev_old e) → ∃ v, valp (hpo w) (ev_old e) = Some v.
  Proof.
    intros He [p E]. pose proof (eo_old _ _ _ (wi_eo _ _ _ _ W) e p He E) as X. rewrite E. unfold ky in X.
    change (∃ v, snd <$> (hpo w !! p) = Some v). destruct (hpo w !! p) as [[k v]|]; [|done]. eauto.
  Qed.
  Lemma comp_act e (o : op) k (f : option (K * V) → cop V) : e ∈ g_log (wg w) → ev_key e = k →
    match f (ev_old e ≫= (hpo w !!.)) with
      | OpInsert v => is_Some (ev_new e) ∧ ev_new e ≫= (hpo w !!.) = Some (k, v)
      | OpRemove => is_Some (ev_old e) ∧ ev_new e = None
      | OpAbort | OpPanic => False
    end →
    match f ((λ v, (k, v)) <$> valp (hpo w) (ev_old e)), valp (hpo w) (ev_old e) with
      | OpInsert v, _ => valp (hpo w) (ev_new e) = Some v
      | OpRemove, Some _ => valp (hpo w) (ev_new e) = None
      | _, _ => False
    end.
  Proof.
    intros He Ek. rewrite (old_bind e He), Ek. destruct (f _) as [v| | |]; [| |done|done].
    - intros [_ A]. by rewrite (valp_bind _ _ A).
    - intros [A B]. destruct (old_some e He A) as [v ->]. by rewrite B.
  Qed.
  Lemma ev_act e : e ∈ g_log (wg w) → ∃ a, actok e a.
  Proof.
    intros He. destruct (eo_ev _ _ _ (wi_eo _ _ _ _ W) e He) as (o & Ho & EV).
    assert (MK : ∀ x r, key_of o = Some (ev_key e) → seq_op o (valp (hpo w) (ev_old e)) = Some (x, r) → x = valp (hpo w) (ev_new e) → ∃ a, actok e a).
    { intros x r A B ->. exists (LOp (ev_op e) o r). done. }
    destruct o as [k|k v|k v|k|k f|k f|k v|k g|k g v| |f| | | |]; cbn [evok] in EV; try done.
    - destruct EV as [<- EV]. eapply MK; [done|cbn; reflexivity|]. by rewrite (valp_bind _ _ EV).
    - destruct EV as (<- & E0 & EV). eapply MK; [done|rewrite E0; cbn; reflexivity|]. by rewrite (valp_bind _ _ EV).
    - destruct EV as (<- & Eo & En). destruct (old_some e He Eo) as [v Ev]. eapply MK; [done|cbn; reflexivity|]. by rewrite En.
    - destruct EV as (<- & En & k' & v' & Eo & Ef). pose proof (valp_bind _ _ Eo) as Ev. rewrite (old_bind e He), Ev in Eo. cbn in Eo. injection Eo as <-.
      eapply MK; [done|rewrite Ev; cbn; rewrite Ef; reflexivity|]. by rewrite En.
    - destruct EV as [<- EV]. apply (comp_act e (OCompute (ev_key e) f) (ev_key e) f He eq_refl) in EV.
      destruct (f _) as [v| | |] eqn:Ef; destruct (valp (hpo w) (ev_old e)) as [c|] eqn:Ec; try done; (eapply MK; [done|rewrite Ec || idtac; cbn; cbn in Ef; rewrite Ef; reflexivity|done]).
    - destruct EV as [<- EV]. apply (comp_act e (OTryInsertWith (ev_key e) v) (ev_key e) (f_try_insert v) He eq_refl) in EV.
      destruct (valp (hpo w) (ev_old e)) as [c|] eqn:Ec; cbn in EV; [done|]. eapply MK; [done|cbn; reflexivity|done].
    - destruct EV as [<- EV]. apply (comp_act e (OUpdate (ev_key e) g) (ev_key e) (f_update g) He eq_refl) in EV.
      destruct (valp (hpo w) (ev_old e)) as [c|] eqn:Ec; cbn in EV; [|done]. eapply MK; [done|cbn; reflexivity|done].
    - destruct EV as [<- EV]. apply (comp_act e (OUpdateOrInsert (ev_key e) g v) (ev_key e) (f_update_or_insert g v) He eq_refl) in EV.
      destruct (valp (hpo w) (ev_old e)) as [c|] eqn:Ec; cbn in EV; (eapply MK; [done|cbn; reflexivity|done]).
    - destruct EV as [Eo En]. destruct (old_some e He Eo) as [v Ev]. exists (LDel (ev_op e) (ev_key e) v). split; [done|]. split; [done|]. split; [done|]. split; [done|].
      exists OClear. split; [done|by left].
    - destruct EV as (En & k' & v' & Eo & Ef). pose proof (valp_bind _ _ Eo) as Ev. rewrite (old_bind e He), Ev in Eo. cbn in Eo. injection Eo as Ek'. subst k'.
      exists (LDel (ev_op e) (ev_key e) v'). split; [done|]. split; [done|]. split; [done|]. split; [done|].
      exists (ORetain f). split; [done|]. right. by exists f.
  Qed.
  Lemma acts_ex : ∃ A, Forall2 actok (g_log (wg w)) A.
  Proof.
    assert (X : ∀ l, (∀ e, e ∈ l → e ∈ g_log (wg w)) → ∃ A, Forall2 actok l A).
    { induction l as [|e l IH]; intros Hl; [exists []; by constructor|]. destruct IH as [A HA]; [intros; apply Hl; by apply elem_of_cons; right|].
      destruct (ev_act e) as [a Ha]; [apply Hl; by apply elem_of_cons; left|]. exists (a :: A). by constructor. }
    by apply X.
  Qed.

  Context (A : list lact) (HA : Forall2 actok (g_log (wg w)) A).
  Notation at_ n := (λ x : rdrec, rd_n x = n).
  Definition ra (x : rdrec) : lact := LOp (rd_id x) (rd_op x) (rd_v x).
  Definition rds (n : nat) : list lact := ra <$> filter (at_ n) G.
  Definition blk (n : nat) : list lact := rds n ++ match A !! n with Some a => [a] | None => [] end.
  Fixpoint pre (n : nat) : list lact := match n with 0 => [] | S n => pre n ++ blk n end.
  Definition SS : list lact := pre (S (lg w)).
  Definition start (n : nat) : nat := length (pre n).
  Definition cutf (x : nat * nat) : nat := start x.1 + length (filter (at_ x.1) (take x.2 G)).
  Definition cut (h : nat) : nat := match h with 0 => 0 | S h => match D !! h with Some x => cutf x | None => length SS end end.

  Lemma A_len : length A = lg w.
  Proof. symmetry. by eapply Forall2_length. Qed.
  Lemma A_at n : n < lg w → ∃ e a, g_log (wg w) !! n = Some e ∧ A !! n = Some a ∧ actok e a.
  Proof.
    intros L. destruct (lookup_lt_is_Some_2 _ _ L) as [e He]. destruct (Forall2_lookup_l _ _ _ _ _ HA He) as (a & Ha & X). eauto.
  Qed.
  Lemma A_inv n a : A !! n = Some a → ∃ e, g_log (wg w) !! n = Some e ∧ actok e a ∧ n < lg w.
  Proof. intros E. destruct (Forall2_lookup_r _ _ _ _ _ HA E) as (e & He & X). exists e. split; [done|]. split; [done|]. by eapply lookup_lt_Some. Qed.
  Lemma pre_prefix n m : n ≤ m → pre n `prefix_of` pre m.
  Proof. induction 1 as [|m L IH]; [done|]. etrans; [exact IH|]. cbn. by eexists. Qed.
  Lemma start_mono n m : n ≤ m → start n ≤ start m.
  Proof. intros L. apply prefix_length. by apply pre_prefix. Qed.
  Lemma start_S n : start (S n) = start n + length (blk n).
  Proof. unfold start. cbn. by rewrite app_length. Qed.
  Lemma rds_le n : length (rds n) ≤ length (blk n).
  Proof. unfold blk. rewrite app_length. lia. Qed.
  Lemma blk_ev n : n < lg w → length (blk n) = length (rds n) + 1.
  Proof. intros L. destruct (A_at n L) as (e & a & _ & E & _). unfold blk. rewrite E, app_length. done. Qed.
  Lemma rds_len n : length (rds n) = length (filter (at_ n) G).
  Proof. unfold rds. by rewrite fmap_length. Qed.

  Lemma SS_inv q a : SS !! q = Some a → ∃ n, n ≤ lg w ∧
    ((∃ j, rds n !! j = Some a ∧ q = start n + j) ∨ (A !! n = Some a ∧ q = start n + length (rds n))).
  Proof.
    assert (X : ∀ m, pre m !! q = Some a → ∃ n, n < m ∧ ((∃ j, rds n !! j = Some a ∧ q = start n + j) ∨ (A !! n = Some a ∧ q = start n + length (rds n)))).
    { induction m as [|m IH]; [done|]. cbn. intros E. apply lookup_app_Some in E as [E|[L E]].
      - destruct (IH E) as (n & L & X). exists n. split; [lia|done].
      - exists m. split; [lia|]. fold (start m) in L, E. unfold blk in E. apply lookup_app_Some in E as [E|[L2 E]].
        + left. exists (q - start m). split; [done|lia].
        + right. destruct (A !! m) as [a'|]; [|done]. destruct (q - start m - length (rds m)) eqn:Z; [|done]. cbn in E. split; [done|lia]. }
    intros E. destruct (X _ E) as (n & L & Y). exists n. split; [lia|done].
  Qed.
  Lemma SS_blk n j a : n ≤ lg w → blk n !! j = Some a → SS !! (start n + j) = Some a.
  Proof.
    intros L E. unfold SS. eapply prefix_lookup; [|apply (pre_prefix (S n)); lia]. cbn. unfold start. rewrite lookup_app_r by lia.
    by replace (length (pre n) + j - length (pre n)) with j by lia.
  Qed.
  Lemma SS_rd n j a : n ≤ lg w → rds n !! j = Some a → SS !! (start n + j) = Some a.
  Proof. intros L E. apply SS_blk; [done|]. unfold blk. by apply lookup_app_l_Some. Qed.
  Lemma SS_ev n a : A !! n = Some a → SS !! (start n + length (rds n)) = Some a.
  Proof.
    intros E. apply SS_blk; [pose proof A_len; apply lookup_lt_Some in E; lia|]. unfold blk. rewrite E. by apply list_lookup_middle.
  Qed.

  (** The sequential map along the linearization. *)
  Definition meq (m m' : smap) : Prop := ∀ k, m k = m' k.
  Lemma lapply_meq m m' a : meq m m' → meq (lapply m a) (lapply m' a).
  Proof.
    intros E k. destruct a as [id o r|id k' v]; cbn.
    - destruct (key_of o) as [k'|]; [|done]. rewrite (E k'). destruct (seq_op o (m' k')) as [[x r']|]; [|done]. unfold supd. by case_decide.
    - unfold supd. by case_decide.
  Qed.
  Lemma G_read x n : x ∈ G → rd_n x = n → meq (lapply (vm w n) (ra x)) (vm w n) ∧ lallowed (vm w n) (ra x).
  Proof.
    intros Hx E. apply elem_of_list_lookup in Hx as [j Hj]. destruct x as [id o v n']. cbn in E. subst n'.
    destruct (hi_g _ _ _ _ _ I j id o v n Hj) as (_ & h0 & h & i & r & k & _ & _ & _ & _ & _ & _ & Ek & SQ). split.
    - intros k'. cbn. rewrite Ek, SQ. unfold supd. case_decide; [by subst|done].
    - cbn. exists k, (vm w n k). done.
  Qed.
  Lemma ev_step n e a : g_log (wg w) !! n = Some e → actok e a → meq (lapply (vm w n) a) (vm w (S n)) ∧ lallowed (vm w n) a.
  Proof.
    intros He Ha. pose proof (i_legal _ _ _ (wi_inv _ _ _ _ W) n e He) as LG.
    assert (E1 : vm w n (ev_key e) = valp (hpo w) (ev_old e)) by (unfold vm; by rewrite LG).
    assert (E2 : ∀ k, vm w (S n) k = if decide (ev_key e = k) then valp (hpo w) (ev_new e) else vm w n k).
    { intros k. unfold vm. rewrite (rp_S _ _ _ _ He). by case_decide. }
    destruct a as [id o r|id k' v]; cbn [actok] in Ha; cbn [lapply lallowed].
    - destruct Ha as (-> & Ho & Ek & SQ). split.
      + intros k. rewrite Ek, E1, SQ, E2. unfold supd. destruct (decide (ev_key e = k)) as [D1|D1], (decide (k = ev_key e)) as [D2|D2]; congruence.
      + exists (ev_key e). rewrite Ek, E1, SQ. eauto.
    - destruct Ha as (-> & -> & Ev & En & _). split.
      + intros k. rewrite E2. unfold supd. rewrite En. destruct (decide (ev_key e = k)) as [D1|D1], (decide (k = ev_key e)) as [D2|D2]; first [done|congruence].
      + by rewrite E1.
  Qed.
  Lemma fold_reads n l : (∀ x, x ∈ l → x ∈ G ∧ rd_n x = n) → ∀ m, meq m (vm w n) → meq (foldl lapply m (ra <$> l)) (vm w n).
  Proof.
    induction l as [|x l IH]; intros Hl m E; [done|]. cbn. apply IH; [intros; apply Hl; by apply elem_of_cons; right|].
    destruct (Hl x) as [X1 X2]; [by apply elem_of_cons; left|]. intros k. etransitivity; [apply (lapply_meq _ _ (ra x) E k)|]. by apply G_read.
  Qed.
  Lemma rd_in n x : x ∈ filter (at_ n) G → x ∈ G ∧ rd_n x = n.
  Proof. intros [A1 A2]%elem_of_list_filter. done. Qed.
  Lemma sval_pre n : n ≤ lg w → meq (foldl lapply sempty (pre n)) (vm w n).
  Proof.
    induction n as [|n IH]; intros L; [by intros k|]. cbn. rewrite foldl_app. unfold blk. rewrite foldl_app.
    assert (E : meq (foldl lapply (foldl lapply sempty (pre n)) (rds n)) (vm w n)).
    { apply fold_reads; [apply rd_in|apply IH; lia]. }
    destruct (A_at n L) as (e & a & He & Ha & X). rewrite Ha. cbn. intros k. etransitivity; [apply (lapply_meq _ _ a E k)|]. by apply (ev_step n e a).
  Qed.
  Lemma sval_at n j : n ≤ lg w → j ≤ length (rds n) → meq (sval SS (start n + j)) (vm w n).
  Proof.
    intros L Lj. unfold sval. assert (E : take (start n + j) SS = pre n ++ take j (rds n)).
    { destruct (pre_prefix (S n) (S (lg w)) ltac:(lia)) as [y Ey]. unfold SS. rewrite Ey. cbn. rewrite <- app_assoc. unfold start. rewrite (take_add_app _ _ _ _ eq_refl).
      f_equal. unfold blk. rewrite <- app_assoc. by rewrite take_app_le. }
    rewrite E, foldl_app. unfold rds. rewrite <- fmap_take. apply fold_reads; [|by apply sval_pre].
    intros x Hx. apply rd_in. rewrite <- (take_drop j). apply elem_of_app. by left.
  Qed.

  (** Moments *)
  Lemma cutf_rds x : cutf x ≤ start x.1 + length (rds x.1).
  Proof. unfold cutf. rewrite rds_len. pose proof (filter_take_all (at_ x.1) G x.2). lia. Qed.
  Lemma cutf_next x n : x.1 < n → cutf x ≤ start n.
  Proof.
    intros L. pose proof (cutf_rds x). pose proof (rds_le x.1). pose proof (start_S x.1). pose proof (start_mono (S x.1) n ltac:(lia)). lia.
  Qed.
  Lemma cutf_mono x y : x.1 ≤ y.1 → x.2 ≤ y.2 → cutf x ≤ cutf y.
  Proof.
    intros L1 L2. destruct (decide (x.1 < y.1)) as [L|L].
    - pose proof (cutf_next x y.1 L). unfold cutf at 2. lia.
    - assert (E : x.1 = y.1) by lia. unfold cutf. rewrite E. pose proof (filter_take_mono (at_ y.1) G x.2 y.2 L2). lia.
  Qed.
  Lemma cutf_bound x : x.1 ≤ lg w → cutf x ≤ length SS.
  Proof. intros L. pose proof (cutf_next x (S (lg w)) ltac:(lia)). unfold SS, start in *. lia. Qed.
  Lemma cut_S h x : D !! h = Some x → cut (h + 1) = cutf x.
  Proof. intros E. rewrite Nat.add_1_r. cbn. by rewrite E. Qed.
  Lemma D_at h x : H !! h = Some x → D !! h = Some (Lof D h, Rof D h).
  Proof.
    intros E. apply lookup_lt_Some in E. rewrite <- (hi_len _ _ _ _ _ I) in E. destruct (lookup_lt_is_Some_2 _ _ E) as [[a b] Ed].
    unfold Lof, Rof. by rewrite Ed.
  Qed.
  Lemma cut_mono h h' : h ≤ h' → cut h ≤ cut h'.
  Proof.
    intros L. destruct h as [|h]; [cbn; lia|]. destruct h' as [|h']; [lia|]. cbn.
    destruct (D !! h) as [x|] eqn:E.
    - destruct (D !! h') as [x'|] eqn:E'.
      + destruct (hi_mono _ _ _ _ _ I h h' x x' E E') as [A1 A2]; [lia|]. by apply cutf_mono.
      + apply cutf_bound. by apply (hi_top _ _ _ _ _ I) in E as [? _].
    - assert (D !! h' = None) as ->; [|done]. apply lookup_ge_None in E. apply lookup_ge_None. lia.
  Qed.
  Lemma pos_wit h0 h x0 x n : H !! h0 = Some x0 → H !! h = Some x → h0 ≤ h → Lof D h0 ≤ n → n ≤ Lof D h →
    ∃ q, cut (h0 + 1) ≤ q ∧ q ≤ cut (h + 1) ∧ ∀ k, sval SS q k = vm w n k.
  Proof.
    intros E0 E L L0 L1. pose proof (Lof_top _ _ _ _ _ h I) as T. pose proof (cut_mono (h0 + 1) (h + 1) ltac:(lia)) as CM.
    destruct (decide (n = Lof D h0)) as [->|N].
    - exists (cut (h0 + 1)). split; [lia|]. split; [done|]. rewrite (cut_S _ _ (D_at _ _ E0)). unfold cutf. cbn [fst snd].
      apply sval_at; [lia|]. rewrite rds_len. apply filter_take_all.
    - exists (start n + 0). rewrite (cut_S _ _ (D_at _ _ E0)), (cut_S _ _ (D_at _ _ E)). split; [|split].
      + pose proof (cutf_next (Lof D h0, Rof D h0) n ltac:(cbn; lia)). lia.
      + unfold cutf. cbn [fst snd]. pose proof (start_mono n (Lof D h) L1). lia.
      + apply sval_at; lia.
  Qed.

  Lemma pos_wit2 h0 h x0 x n n' : H !! h0 = Some x0 → H !! h = Some x → h0 ≤ h → Lof D h0 ≤ n → n ≤ n' → n' ≤ Lof D h →
    ∃ q q', cut (h0 + 1) ≤ q ∧ q ≤ q' ∧ q' ≤ cut (h + 1) ∧ (∀ k, sval SS q k = vm w n k) ∧ ∀ k, sval SS q' k = vm w n' k.
  Proof.
    intros E0 E L L0 Ln L1. pose proof (Lof_top _ _ _ _ _ h I) as T. pose proof (cut_mono (h0 + 1) (h + 1) ltac:(lia)) as CM.
    destruct (decide (n' = n)) as [->|Nn].
    { destruct (pos_wit h0 h x0 x n E0 E L L0 L1) as (q & X1 & X2 & X3). exists q, q. auto. }
    assert (Q' : cut (h0 + 1) ≤ start n' + 0 ∧ start n' + 0 ≤ cut (h + 1) ∧ ∀ k, sval SS (start n' + 0) k = vm w n' k).
    { rewrite (cut_S _ _ (D_at _ _ E0)), (cut_S _ _ (D_at _ _ E)). split; [|split].
      + pose proof (cutf_next (Lof D h0, Rof D h0) n' ltac:(cbn; lia)). lia.
      + unfold cutf. cbn [fst snd]. pose proof (start_mono n' (Lof D h) L1). lia.
      + apply sval_at; lia. }
    destruct Q' as (Q1 & Q2 & Q3).
    destruct (decide (n = Lof D h0)) as [->|N].
    - exists (cut (h0 + 1)), (start n' + 0). split; [lia|]. split; [done|]. split; [done|]. split; [|done].
      rewrite (cut_S _ _ (D_at _ _ E0)). unfold cutf. cbn [fst snd]. apply sval_at; [lia|]. rewrite rds_len. apply filter_take_all.
    - exists (start n + 0), (start n' + 0). split; [|split; [pose proof (start_mono n n' Ln); lia|split; [done|]]].
      + rewrite (cut_S _ _ (D_at _ _ E0)). pose proof (cutf_next (Lof D h0, Rof D h0) n ltac:(cbn; lia)). lia.
      + split; [|done]. apply sval_at; lia.
  Qed.

  Lemma rds_at n j a : rds n !! j = Some a → ∃ jG id o v, G !! jG = Some (Rd id o v n) ∧ j = length (filter (at_ n) (take jG G)) ∧ a = LOp id o v.
  Proof.
    unfold rds. rewrite list_lookup_fmap. destruct (filter (at_ n) G !! j) as [x|] eqn:E; [|done]. intros [= <-].
    apply filter_pos in E as (jG & E1 & E2 & E3). destruct x as [id o v n']. cbn in E2. subst n'. by exists jG, id, o, v.
  Qed.
  Lemma ev_unused n e j id o v m : g_log (wg w) !! n = Some e → G !! j = Some (Rd id o v m) → ev_op e ≠ id.
  Proof. intros A1 A2. destruct (hi_g _ _ _ _ _ I j id o v m A2) as ([U _] & _). apply U. by eapply elem_of_list_lookup_2. Qed.
  Lemma G_n j id o v n : G !! j = Some (Rd id o v n) → n ≤ lg w.
  Proof.
    intros E. destruct (hi_g _ _ _ _ _ I j id o v n E) as (_ & h0 & h & i & r & k & _ & _ & _ & L & _). pose proof (Lof_top _ _ _ _ _ h I). lia.
  Qed.
  Lemma a_id_ev e a : actok e a → a_id a = ev_op e.
  Proof. destruct a; cbn; [by intros [? _]|by intros [? _]]. Qed.

  Lemma lin_ok : linearizes H SS cut.
  Proof.
    pose proof (hi_wf _ _ _ _ _ I) as [WF1 WF2 WF3]. split.
    - apply cut_mono.
    - intros [|h]; [cbn; lia|]. cbn. destruct (D !! h) as [x|] eqn:E; [|done]. apply cutf_bound. by apply (hi_top _ _ _ _ _ I) in E as [? _].
    - intros q a E. apply SS_inv in E as (n & L & [(j & E & ->)|[E ->]]).
      + pose proof (sval_at n j L) as X. assert (Lj : j ≤ length (rds n)) by (apply lookup_lt_Some in E; lia). specialize (X Lj).
        unfold rds in E. rewrite list_lookup_fmap in E. destruct (filter (at_ n) G !! j) as [x|] eqn:E1; [|done]. injection E as <-.
        apply elem_of_list_lookup_2, rd_in in E1 as [X1 X2]. destruct (G_read x n X1 X2) as [_ Y].
        cbn in *. destruct Y as (k & y & Y1 & Y2). exists k, y. by rewrite X.
      + pose proof (sval_at n (length (rds n)) L (le_n _)) as X. destruct (A_inv n a E) as (e & He & Ha & _).
        destruct (ev_step n e a He Ha) as [_ Y]. destruct a as [id o r|id k v]; cbn in *; [|by rewrite X].
        destruct Y as (k & y & Y1 & Y2). exists k, y. by rewrite X.
    - intros q a E. apply SS_inv in E as (n & L & [(j & E & ->)|[E ->]]).
      + apply rds_at in E as (jG & id & o & v & EG & -> & ->). destruct (hi_g _ _ _ _ _ I jG id o v n EG) as (_ & h0 & h & i & r & k & B1 & B2 & B3 & B4 & B5 & B6 & _).
        exists h0, i, o. split; [done|]. split; [done|]. rewrite (cut_S _ _ (D_at _ _ B1)).
        destruct (decide (Lof D h0 < n)) as [L1|L1]; [pose proof (cutf_next (Lof D h0, Rof D h0) n L1); lia|].
        assert (E1 : Lof D h0 = n) by lia. unfold cutf. cbn [fst snd]. rewrite E1. pose proof (filter_take_mono (at_ n) G _ _ B5). lia.
      + destruct (A_inv n a E) as (e & He & Ha & L1). destruct (hi_ev _ _ _ _ _ I n e He) as (h & i & o & B1 & B2).
        rewrite (a_id_ev _ _ Ha). exists h, i, o. split; [done|]. pose proof (hi_inv _ _ _ _ _ I _ _ _ _ B1) as Ho. split.
        * destruct a as [id o' r|id k v]; cbn in *; [destruct Ha as (-> & Ho' & _); congruence|].
          destruct Ha as (-> & _ & _ & _ & o' & Ho' & X). assert (o' = o) by congruence. by subst.
        * rewrite (cut_S _ _ (D_at _ _ B1)). destruct (decide (Lof D h < n)) as [L2|L2]; [pose proof (cutf_next (Lof D h, Rof D h) n L2); lia|].
          assert (E1 : Lof D h = n) by lia. pose proof (cutf_rds (Lof D h, Rof D h)) as X. cbn in X. rewrite E1 in X at 3. by rewrite E1 in *.
    - intros q a h i o r v E Hh. rewrite (cut_S _ _ (D_at _ _ Hh)). apply SS_inv in E as (n & L & [(j & E & ->)|[E ->]]).
      + apply rds_at in E as (jG & id & o' & v' & EG & -> & ->). destruct (hi_g _ _ _ _ _ I jG id o' v' n EG) as (_ & h0 & h' & i' & r' & k & B1 & B2 & B3 & B4 & B5 & B6 & _).
        cbn in Hh. assert (h = h') by (by eapply WF3). subst h'.
        assert (F : length (filter (at_ n) (take jG G)) < length (rds n)) by (rewrite rds_len; pose proof (filter_take_lt (at_ n) G jG _ (length G) EG eq_refl (lookup_lt_Some _ _ _ EG)) as X; by rewrite firstn_all in X).
        destruct (decide (n < Lof D h)) as [L1|L1].
        * pose proof (start_mono (S n) (Lof D h) ltac:(lia)). pose proof (start_S n). pose proof (rds_le n). unfold cutf. cbn [fst snd]. lia.
        * assert (E1 : Lof D h = n) by lia. unfold cutf. cbn [fst snd]. rewrite E1. pose proof (filter_take_lt (at_ n) G jG _ _ EG eq_refl B6). lia.
      + destruct (A_inv n a E) as (e & He & Ha & L1). rewrite (a_id_ev _ _ Ha) in Hh.
        destruct (hi_fin _ _ _ _ _ I _ _ _ _ _ _ Hh) as [_ FN]. pose proof (FN n e He eq_refl) as L2.
        pose proof (start_mono (S n) (Lof D h) ltac:(lia)). pose proof (start_S n). pose proof (blk_ev n L1). unfold cutf. cbn [fst snd]. lia.
    - intros q q' id o o' r r' E E'. apply SS_inv in E as (n & L & [(j & E & ->)|[E ->]]), E' as (n' & L' & [(j' & E' & ->)|[E' ->]]).
      + apply rds_at in E as (jG & id1 & o1 & v1 & EG & -> & [= -> -> ->]). apply rds_at in E' as (jG' & id2 & o2 & v2 & EG' & -> & [= -> -> ->]).
        assert (jG = jG') by (by eapply (hi_g1 _ _ _ _ _ I)). subst jG'. rewrite EG in EG'. by injection EG' as _ _ ->.
      + apply rds_at in E as (jG & id1 & o1 & v1 & EG & -> & [= -> -> ->]). destruct (A_inv n' _ E') as (e & He & (Ha & _) & L1).
        pose proof (ev_unused _ _ _ _ _ _ _ He EG). congruence.
      + apply rds_at in E' as (jG & id1 & o1 & v1 & EG & -> & [= -> -> ->]). destruct (A_inv n _ E) as (e & He & (Ha & _) & L1).
        pose proof (ev_unused _ _ _ _ _ _ _ He EG). congruence.
      + destruct (A_inv n _ E) as (e & He & (Ea & Ho & Ek & _) & L1). destruct (A_inv n' _ E') as (e' & He' & (Ea' & _) & L1').
        assert (n = n'); [|by subst]. eapply (eo_uniq _ _ _ (wi_eo _ _ _ _ W) n n' e e' o); [done|done|congruence|by rewrite <- Ea|by eapply key_multi].
    - intros h i id o r v Hh Ek. destruct (key_of o) as [k|] eqn:Ek'; [|done].
      destruct (hi_done _ _ _ _ _ I h i id o r v k Hh Ek') as [(n & e & B1 & B2 & B3 & B4)|(j & n & EG)].
      + destruct (A_at n) as (e' & a & He & Ha & X); [by eapply lookup_lt_Some|]. assert (e' = e) by congruence. subst e'.
        exists (start n + length (rds n)). rewrite (SS_ev n a Ha). f_equal.
        destruct (WF2 _ _ _ _ _ _ Hh) as (h' & _ & Hi). apply (hi_inv _ _ _ _ _ I) in Hi.
        destruct a as [id' o' r'|id' k' v']; cbn [actok] in X.
        * destruct X as (-> & Ho & Ek2 & SQ). rewrite B2 in *. assert (o' = o) by congruence. subst o'. rewrite B4 in SQ. by injection SQ as ->.
        * destruct X as (-> & _ & _ & _ & o' & Ho & X). rewrite B2 in Ho. assert (o' = o) by congruence. subst o'. by destruct X as [->|(f & -> & _)].
      + exists (start n + length (filter (at_ n) (take j G))). apply SS_rd; [by eapply G_n|]. unfold rds. rewrite list_lookup_fmap.
        by rewrite (filter_pos_2 (at_ n) G j _ EG eq_refl).
    - intros q a h i o why E Hh. destruct (hi_panic _ _ _ _ _ I _ _ _ _ _ Hh) as (_ & _ & PU & PL & _ & PR).
      rewrite (cut_S _ _ (D_at _ _ Hh)). apply SS_inv in E as (n & L & [(j & E & ->)|[E ->]]).
      + exfalso. apply rds_at in E as (jG & id & o' & v' & EG & -> & ->). destruct (hi_g _ _ _ _ _ I jG id o' v' n EG) as (_ & h0 & h' & i' & r' & k & _ & B2 & _).
        by apply PR in B2.
      + destruct (A_inv n a E) as (e & He & Ha & L1). rewrite (a_id_ev _ _ Ha) in *. split.
        * destruct PU as [PU|[PU _]]; [by destruct o|]. by destruct (PU e (elem_of_list_lookup_2 _ _ _ He)).
        * pose proof (PL n e He eq_refl) as L2. pose proof (start_mono (S n) (Lof D h) ltac:(lia)). pose proof (start_S n).
          pose proof (blk_ev n L1). unfold cutf. cbn [fst snd]. lia.
  Qed.
  Lemma inv_before h0 h i id (o : op) r v : H !! h0 = Some (HInv i id o) → H !! h = Some (HRes i id o r v) → h0 ≤ h.
  Proof.
    intros A1 A2. pose proof (hi_wf _ _ _ _ _ I) as [WF1 WF2 WF3]. destruct (WF2 _ _ _ _ _ _ A2) as (h' & L & A3).
    assert (h0 = h') by (by eapply WF1). lia.
  Qed.
  Lemma sweeps_ok : sweeps H SS cut.
  Proof.
    intros h0 h i id o r v A1 A2 Eo k. destruct (hi_sweep _ _ _ _ _ I h0 h i id o r v A1 A2 Eo k) as (n & B1 & B2 & B3).
    destruct (pos_wit _ _ _ _ n A1 A2 (inv_before _ _ _ _ _ _ _ A1 A2) B1 B2) as (q & C1 & C2 & C3). exists q. by rewrite C3.
  Qed.
  Lemma clos_ok : closures_ok H SS cut.
  Proof.
    intros h0 h i id o k r v A1 A2 Ek. destruct (hi_clos _ _ _ _ _ I h0 h i id o k r v A1 A2 Ek) as [X Y]. split; [done|].
    intros c Hc. destruct (Y c Hc) as (n & B1 & B2 & B3).
    destruct (pos_wit _ _ _ _ n A1 A2 (inv_before _ _ _ _ _ _ _ A1 A2) B1 B2) as (q & C1 & C2 & C3). exists q. by rewrite C3.
  Qed.
  Lemma H_at h : h < length H → ∃ x, H !! h = Some x.
  Proof. intros L. by apply lookup_lt_is_Some_2. Qed.
  Lemma iter_ok : iterates H SS cut.
  Proof.
    split; [|split].
    - intros i j h0 h k v Y. destruct (hi_it1 _ _ _ _ _ I _ _ _ _ _ _ Y) as (n & B1 & B2 & B3). pose proof (yields_lt _ _ _ _ _ _ _ Y) as [L1 L2].
      destruct (H_at h L1) as [x E]. destruct (H_at h0) as [x0 E0]; [lia|].
      destruct (pos_wit _ _ _ _ n E0 E ltac:(lia) B1 B2) as (q & C1 & C2 & C3). exists q. by rewrite C3.
    - intros i j h0 h h' k v v' Y Y' L. destruct (hi_it2 _ _ _ _ _ I _ _ _ _ _ _ _ _ Y Y' L) as (m & n & B1 & B0 & B2 & B3 & B4). pose proof (yields_lt _ _ _ _ _ _ _ Y') as [L1 L2].
      destruct (H_at h' L1) as [x E]. destruct (H_at h0) as [x0 E0]; [lia|].
      destruct (pos_wit2 _ _ _ _ m n E0 E ltac:(lia) B1 B0 B2) as (q & q' & C1 & C2 & C3 & C4 & C5). exists q, q'. by rewrite C4, C5.
    - intros i j h0 h id r E Ei k. destruct (hi_it3 _ _ _ _ _ I _ _ _ _ _ _ E Ei k) as [?|(n & B1 & B2 & B3)]; [by left|right].
      pose proof Ei as Lt. apply elem_of_list_lookup_2, it_lt in Lt. rewrite take_length in Lt. pose proof (lookup_lt_Some _ _ _ E) as L1.
      destruct (H_at h0) as [x0 E0]; [lia|].
      destruct (pos_wit _ _ _ _ n E0 E ltac:(lia) B1 B2) as (q & C1 & C2 & C3). exists q. by rewrite C3.
  Qed.
End lin.
