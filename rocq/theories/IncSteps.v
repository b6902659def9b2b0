(** Every kind of atomic step preserves the invariant and respects the rely of the other threads. *)
From Verif Require Export IncFacts.

Section steps.
  Context {K V : Type} {Keq : EqDecision K} (cfg : config K).
  Notation core := (core K V). Notation ghost := (@ghost K).
  Notation InvI := (InvI cfg).
  Notation ix := (ix cfg). Notation passes := (passes cfg). Notation exhausted := (exhausted cfg).
  Notation pass := (pass cfg). Notation exhM := (exhM cfg).

  (** One slot is written (and possibly an entry is allocated). *)
  Record slotstep (c c' : core) (t0 i0 : nat) (m : N) (w : eword) (hx : list (K * V)) : Prop := MkSS {
    ss_en : ∀ t i, en (k_sl c') t i = if decide (t = t0 ∧ i = i0) then w else en (k_sl c) t i;
    ss_mt : ∀ t i, mt (k_sl c') t i = if decide (t = t0 ∧ i = i0) then m else mt (k_sl c) t i;
    ss_ln : ∀ t, ln (k_sl c') t = ln (k_sl c) t;
    ss_nt : nt c' = nt c;
    ss_lim : k_lim c' = k_lim c;
    ss_nx : k_nx c' = k_nx c;
    ss_lk : k_lk c' = k_lk c;
    ss_cd : k_cd c' = k_cd c;
    ss_cl : k_cl c' = k_cl c;
    ss_st : k_st c' = k_st c;
    ss_rt : k_rt c' = k_rt c;
    ss_hp : k_hp c' = k_hp c ++ hx }.

  Lemma slotstep_upd c t0 i0 s : inb c t0 i0 →
    slotstep c (c_sl (λ sl, upd2 sl t0 i0 s) c) t0 i0 (s_meta s) (s_ent s) [].
  Proof.
    intros [H1 H2]. split; try reflexivity; cbn.
    - intros. by apply en_upd2.
    - intros. by apply mt_upd2.
    - intros. apply ln_upd2.
    - unfold nt. cbn. apply upd2_length.
    - rewrite app_nil_r. reflexivity.
  Qed.
  Lemma slotstep_upd_hp c t0 i0 s kv : inb c t0 i0 →
    slotstep c (c_hp (λ h, h ++ [kv]) (c_sl (λ sl, upd2 sl t0 i0 s) c)) t0 i0 (s_meta s) (s_ent s) [kv].
  Proof.
    intros [H1 H2]. split; try reflexivity; cbn.
    - intros. by apply en_upd2.
    - intros. by apply mt_upd2.
    - intros. apply ln_upd2.
    - unfold nt. cbn. apply upd2_length.
  Qed.

  Section ss.
    Context (c c' : core) (t0 i0 : nat) (m : N) (w : eword) (hx : list (K * V)) (SS : slotstep c c' t0 i0 m w hx).
    Lemma ss_Hp t i p : Hp c' t i p ↔ (if decide (t = t0 ∧ i = i0) then e_ptr w = Some p else Hp c t i p).
    Proof. unfold Hp. rewrite (ss_en _ _ _ _ _ _ _ SS). by case_decide. Qed.
    Lemma ss_Mt t i : Mt c' t i ↔ (if decide (t = t0 ∧ i = i0) then m ≠ EMPTY else Mt c t i).
    Proof. unfold Mt. rewrite (ss_mt _ _ _ _ _ _ _ SS). by case_decide. Qed.
    Lemma ss_CP t i : CP c' t i ↔ (if decide (t = t0 ∧ i = i0) then e_copying w = true else CP c t i).
    Proof. unfold CP. rewrite (ss_en _ _ _ _ _ _ _ SS). by case_decide. Qed.
    Lemma ss_CD t i : CD c' t i ↔ (if decide (t = t0 ∧ i = i0) then e_copied w = true else CD c t i).
    Proof. unfold CD. rewrite (ss_en _ _ _ _ _ _ _ SS). by case_decide. Qed.
    Lemma ss_ky p k : ky c p = Some k → ky c' p = Some k.
    Proof. apply ky_prefix. rewrite (ss_hp _ _ _ _ _ _ _ SS). by eexists. Qed.
    Lemma ss_ky_inv p k : p < length (k_hp c) → ky c' p = Some k → ky c p = Some k.
    Proof. intros L. unfold ky. rewrite (ss_hp _ _ _ _ _ _ _ SS), lookup_app_l by exact L. auto. Qed.
    Lemma ss_rtc : rt c' = rt c.
    Proof. unfold rt. rewrite (ss_rt _ _ _ _ _ _ _ SS). reflexivity. Qed.
    Lemma ss_limc t : lim c' t = lim c t.
    Proof. unfold lim. rewrite (ss_lim _ _ _ _ _ _ _ SS). reflexivity. Qed.
    Lemma ss_lnc t : lnc c' t = lnc c t.
    Proof. apply (ss_ln _ _ _ _ _ _ _ SS). Qed.
    Lemma ss_ix t k q : ix c' t k q = ix c t k q.
    Proof. unfold IncInv.ix. rewrite (ss_ln _ _ _ _ _ _ _ SS). reflexivity. Qed.
    Lemma ss_lens : lens c → lens c'.
    Proof.
      unfold lens. rewrite (ss_nt _ _ _ _ _ _ _ SS), (ss_lim _ _ _ _ _ _ _ SS), (ss_nx _ _ _ _ _ _ _ SS),
        (ss_lk _ _ _ _ _ _ _ SS), (ss_cd _ _ _ _ _ _ _ SS), (ss_cl _ _ _ _ _ _ _ SS), (ss_st _ _ _ _ _ _ _ SS). auto.
    Qed.
    Lemma ss_HK γ t i k : InvI c γ → ¬ (t = t0 ∧ i = i0) → HK c' t i k ↔ HK c t i k.
    Proof.
      intros I N. split; intros (p & H1 & H2).
      - apply ss_Hp in H1. rewrite decide_False in H1 by exact N. exists p. split; [exact H1|].
        apply ss_ky_inv; [eapply ii_ptr; eauto|exact H2].
      - exists p. split; [apply ss_Hp; rewrite decide_False by exact N; exact H1|by apply ss_ky].
    Qed.
    (** When the pointer is unchanged. *)
    Lemma ss_HK_same γ t i k : InvI c γ → e_ptr w = e_ptr (en (k_sl c) t0 i0) → HK c' t i k ↔ HK c t i k.
    Proof.
      intros I E. destruct (decide (t = t0 ∧ i = i0)) as [[-> ->]|N]; [|by eapply ss_HK].
      split; intros (p & H1 & H2); exists p.
      - apply ss_Hp in H1. rewrite decide_True in H1 by auto. assert (Hp c t0 i0 p) by (unfold Hp; congruence).
        split; [done|]. apply ss_ky_inv; [eapply ii_ptr; eauto|done].
      - split; [|by apply ss_ky]. apply ss_Hp. rewrite decide_True by auto. unfold Hp in H1. congruence.
    Qed.
    Lemma ss_Hp_same t i p : e_ptr w = e_ptr (en (k_sl c) t0 i0) → Hp c' t i p ↔ Hp c t i p.
    Proof.
      intros E. rewrite ss_Hp. case_decide as D; [|done]. destruct D as [-> ->]. unfold Hp. rewrite E. done.
    Qed.

    (** The rely, from its slot part. *)
    Lemma ss_ext0 o (γ γ' : ghost) :
      slot_ext c γ c' γ' t0 i0 → InvI c γ →
      g_pub γ `prefix_of` g_pub γ' → g_log γ `prefix_of` g_log γ' → g_pr γ' = g_pr γ →
      (∀ n e, g_log γ' !! n = Some e → length (g_log γ) ≤ n → ev_op e = o →
              ∃ p h, ev_new e = Some p ∧ g_pub γ !! p = Some (o, h) ∧ ¬ lin (g_log γ) p) →
      (∀ p h, g_pub γ' !! p = Some (o, h) → p < length (g_pub γ)) →
      (∀ t i, g_ph γ t i = PCnt → g_ph γ' t i = PCnt) →
      ext0 o c γ c' γ'.
    Proof.
      intros S0 I Pp Pl Pr He Hb Hc. split; auto.
      - rewrite (ss_nt _ _ _ _ _ _ _ SS). lia.
      - intros. apply ss_lnc.
      - intros. apply ss_limc.
      - rewrite ss_rtc. lia.
      - rewrite (ss_rt _ _ _ _ _ _ _ SS). auto.
      - intros t i. destruct (decide (t = t0 ∧ i = i0)) as [[-> ->]|N]; [done|].
        assert (E1 : en (k_sl c') t i = en (k_sl c) t i) by (rewrite (ss_en _ _ _ _ _ _ _ SS); by case_decide).
        assert (E2 : mt (k_sl c') t i = mt (k_sl c) t i) by (rewrite (ss_mt _ _ _ _ _ _ _ SS); by case_decide).
        split; unfold Mt, CP, CD, Hp; rewrite ?E1, ?E2; auto.
        intros p k H1 H2. left. exists p. split; [unfold Hp; congruence|by apply ss_ky].
      - rewrite (ss_hp _ _ _ _ _ _ _ SS). by eexists.
      - rewrite Pr. done.
      - rewrite Pr. intros t n H L. apply lookup_lt_Some in H. lia.
      - intros t. unfold al. by rewrite (ss_st _ _ _ _ _ _ _ SS).
      - intros t _. unfold al. by rewrite (ss_st _ _ _ _ _ _ _ SS).
    Qed.
    Lemma ss_extp me (γ γ' : ghost) :
      (∀ t i, ph_owner (g_ph γ t i) = Some me → g_ph γ' t i = g_ph γ t i) → extp me c γ c' γ'.
    Proof. intros H. split; [exact H|]. intros t. rewrite (ss_lk _ _ _ _ _ _ _ SS), (ss_nx _ _ _ _ _ _ _ SS). auto. Qed.

    (** Clauses that no slot write can break. *)
    Lemma ss_struct (γ γ' : ghost) : InvI c γ → 
      g_ph γ' = g_ph γ → g_pr γ' = g_pr γ → 
      lens c' ∧ match k_rt c' with None => nt c' = 0 | Some r => r < nt c' end ∧
      (∀ t, t < nt c' → fld None (k_nx c') t = if decide (S t < nt c') then Some (S t) else None) ∧
      (∀ t, t < nt c' → ∃ b, 3 ≤ b ∧ lnc c' t = 2 ^ b) ∧
      (∀ t i, t < rt c' → i < lnc c' t → g_ph γ' t i = PCnt) ∧
      (∀ t i, rt c' < t → g_ph γ' t i = PFree) ∧
      (∀ t i, nt c' ≤ S t → g_ph γ' t i = PFree) ∧
      (∀ t i, S t < nt c' → i < lnc c' t → (g_ph γ' t i = PFree ↔ fld 0 (k_cl c') (S t) ≤ i)) ∧
      (∀ t, S t < nt c' → fld 0 (k_cd c') (S t) = cnt (g_ph γ' t) (lnc c' t)) ∧
      length (g_pr γ') = rt c' ∧
      (∀ t, fld PENDING (k_st c') t = PROMOTED → t ≤ rt c') ∧ (∀ t, al c' t) ∧
      (∀ t, fld LFree (k_lk c') t = LPoisoned → ¬ good_cfg cfg).
    Proof.
      intros I E1 E2. unfold al. rewrite E1, E2, (ss_nt _ _ _ _ _ _ _ SS), (ss_rt _ _ _ _ _ _ _ SS), (ss_nx _ _ _ _ _ _ _ SS),
        (ss_cl _ _ _ _ _ _ _ SS), (ss_cd _ _ _ _ _ _ _ SS), (ss_st _ _ _ _ _ _ _ SS), (ss_lk _ _ _ _ _ _ _ SS), ss_rtc.
      setoid_rewrite ss_lnc.
      split_and!; first [apply ss_lens|idtac]; apply I.
    Qed.
  End ss.

  Lemma prefix_snoc {A} (l : list A) x : l `prefix_of` l ++ [x].
  Proof. by eexists. Qed.
  Lemma lookup_snoc_ge {A} (l : list A) x n y : (l ++ [x]) !! n = Some y → length l ≤ n → n = length l ∧ y = x.
  Proof.
    intros H L. assert (n = length l) by (apply lookup_lt_Some in H; rewrite app_length in H; cbn in H; lia).
    subst. rewrite list_lookup_middle in H by reflexivity. split; congruence.
  Qed.
  Lemma lookup_snoc_inv {A} (l : list A) x n y : (l ++ [x]) !! n = Some y → l !! n = Some y ∨ (n = length l ∧ y = x).
  Proof.
    intros H. destruct (decide (n < length l)) as [L|L].
    - rewrite lookup_app_l in H by exact L. auto.
    - right. apply lookup_snoc_ge; [done|lia].
  Qed.

  Lemma first_pos (P : nat → Prop) `{∀ q, Decision (P q)} n :
    (∃ q, q < n ∧ P q ∧ ∀ q', q' < q → ¬ P q') ∨ (∀ q, q < n → ¬ P q).
  Proof.
    induction n as [|n IH]; [right; lia|]. destruct IH as [(q & ? & ? & ?)|IH]; [left; exists q; auto with lia|].
    destruct (decide (P n)); [left; exists n; auto with lia|]. right. intros q Hq.
    destruct (decide (q = n)); [subst; done|]. apply IH. lia.
  Qed.

  (** ** Storing metadata *)
  Definition add_log (γ : ghost) (l : list (event K)) : ghost := Gh (g_log γ ++ l) (g_pub γ) (g_ph γ) (g_pr γ).

  (** Delayed insertion events: the entry was published before and not yet linearized. *)
  Definition pubevs (γ : ghost) (l : list (event K)) : Prop :=
    ∀ e, e ∈ l → ev_old e = None ∧ ∃ p h, ev_new e = Some p ∧ g_pub γ !! p = Some (ev_op e, h) ∧ ¬ lin (g_log γ) p.

  Lemma step_meta c γ c' t0 i0 m :
    InvI c γ → inb c t0 i0 → slotstep c c' t0 i0 m (en (k_sl c) t0 i0) [] →
    m ≠ EMPTY → en (k_sl c) t0 i0 ≠ NULLW →
    (∀ k, HK c t0 i0 k → m = h2_of cfg k) →
    ∃ γ', InvI c' γ' ∧ (∀ o, ext0 o c γ c' γ') ∧ (∀ me, extp me c γ c' γ') ∧
      g_pub γ' = g_pub γ ∧ g_ph γ' = g_ph γ ∧ ∃ l, g_log γ' = g_log γ ++ l ∧ pubevs γ l.
  Proof.
    intros I B SS Hm Hnl Hk.
    assert (HPe : ∀ t i p, Hp c' t i p ↔ Hp c t i p) by (intros; by eapply ss_Hp_same).
    assert (HKe : ∀ t i k, HK c' t i k ↔ HK c t i k) by (intros; by eapply ss_HK_same).
    assert (Ene : ∀ t i, en (k_sl c') t i = en (k_sl c) t i).
    { intros. rewrite (ss_en _ _ _ _ _ _ _ SS). case_decide as D; [destruct D; subst|]; done. }
    assert (CPe : ∀ t i, CP c' t i ↔ CP c t i) by (intros; unfold CP; by rewrite Ene).
    assert (CDe : ∀ t i, CD c' t i ↔ CD c t i) by (intros; unfold CD; by rewrite Ene).
    assert (kye : ∀ p, ky c' p = ky c p) by (intros; unfold ky; rewrite (ss_hp _ _ _ _ _ _ _ SS), app_nil_r; done).
    pose proof (ss_Mt _ _ _ _ _ _ _ SS) as MtE.
    assert (Mmono : ∀ t i, Mt c t i → Mt c' t i) by (intros; apply MtE; by case_decide).
    assert (Mnew : Mt c' t0 i0) by (apply MtE; by rewrite decide_True).
    assert (Minv : ∀ t i, Mt c' t i → Mt c t i ∨ (t = t0 ∧ i = i0)).
    { intros t i H. apply MtE in H. case_decide; auto. }
    assert (Rte := ss_rtc _ _ _ _ _ _ _ SS).
    (* which event, if any *)
    assert (CASES :
      (∃ p o k, rt c ≤ t0 ∧ ¬ Mt c t0 i0 ∧ Hp c t0 i0 p ∧ ky c p = Some k ∧ g_pub γ !! p = Some (o, Some (t0, i0))) ∨
      (∀ p o, rt c ≤ t0 → Hp c t0 i0 p → g_pub γ !! p = Some (o, Some (t0, i0)) → Mt c t0 i0)).
    { destruct (Mt_dec c t0 i0) as [M|M]; [right; auto|].
      destruct (decide (rt c ≤ t0)) as [L|L]; [|right; intros; lia].
      destruct (e_ptr (en (k_sl c) t0 i0)) as [p|] eqn:E; [|right; intros p o _ H; unfold Hp in H; congruence].
      destruct (g_pub γ !! p) as [[o h]|] eqn:Hp0.
      - destruct (decide (h = Some (t0, i0))) as [->|N].
        + left. destruct (HK_get _ _ _ _ _ _ I E) as [k Hk0]. exists p, o, k. auto.
        + right. intros p' o' _ H1 H2. assert (p' = p) by (unfold Hp in H1; congruence). subst. congruence.
      - right. intros p' o' _ H1 H2. assert (p' = p) by (unfold Hp in H1; congruence). subst. congruence. }
    assert (STALE : ∀ t k q n, t < rt c' → g_pr γ !! t = Some n → q ≤ lim c' t → passes c' t k q → ¬ Mt c' t (ix c' t k q) →
               rp n (g_log γ) k = None).
    { intros t k q n H1 H2 H3 H4 H5. rewrite Rte in H1. rewrite (ss_limc _ _ _ _ _ _ _ SS) in H3.
      rewrite (ss_ix _ _ _ _ _ _ _ SS) in H5.
      assert (H4' : ∀ q', q' < q → Mt c' t (ix c t k q') ∧ ¬ HK c t (ix c t k q') k).
      { intros q' L. destruct (H4 q' L) as [X Y]. rewrite (ss_ix _ _ _ _ _ _ _ SS) in X, Y. rewrite HKe in Y. auto. }
      destruct (first_pos (λ q', t = t0 ∧ ix c t k q' = i0) q) as [(q0 & L0 & [-> E0] & Min)|E].
      2:{ eapply ii_stale; eauto. intros q' L. destruct (H4' q' L) as [X Y]. split; [|exact Y].
          destruct (Minv _ _ X) as [|[-> E']]; [done|]. exfalso. eapply E; eauto. }
      destruct (Mt_dec c t0 i0) as [M|M].
      { eapply ii_stale; eauto. intros q' L. destruct (H4' q' L) as [X Y]. split; [|exact Y].
          destruct (Minv _ _ X) as [|[_ E']]; [done|]. rewrite E'. done. }
      eapply (ii_stale _ _ _ I t0 k q0); eauto; [lia| |rewrite E0; done].
      intros q' L. destruct (H4' q') as [X Y]; [lia|]. split; [|exact Y].
      destruct (Minv _ _ X) as [|[_ E']]; [done|]. destruct (Min q' L). auto. }
    assert (LIVEk : ∀ k p, (HK c t0 i0 k → Mt c t0 i0 ∨ t0 < rt c) → live c' k p ↔ live c k p).
    { intros k p Hno.
      assert (MtI : ∀ t i, rt c ≤ t → HK c t i k → Mt c' t i ↔ Mt c t i).
      { intros t i Lr Hi. split; [|apply Mmono]. intros M. destruct (Minv _ _ M) as [|[-> ->]]; [done|].
        destruct (Hno Hi); [done|lia]. }
      unfold live. rewrite Rte. split; intros (t & i & L & H1 & H2 & M & D & R); exists t, i.
      - apply HPe in H1. rewrite kye in H2. rewrite CDe in D. assert (HKt : HK c t i k) by (exists p; auto).
        rewrite MtI in M by auto. split_and!; auto. destruct R as [|R]; [auto|right]. intros j Hj.
        destruct (R j) as [R1 R2]; [by apply HKe|]. rewrite CDe in R1. rewrite MtI in R2 by auto. auto.
      - assert (HKt : HK c t i k) by (exists p; auto).
        split_and!; [done|by apply HPe|by rewrite kye|by apply Mmono|by rewrite CDe|].
        destruct R as [|R]; [auto|right]. intros j Hj. apply HKe in Hj. destruct (R j Hj) as [R1 R2].
        rewrite CDe. auto. }
    assert (PHOK : ∀ γ' t i, g_ph γ' = g_ph γ → i < lnc c' t → phase_ok c' γ' t i).
    { intros γ' t i E L. rewrite (ss_lnc _ _ _ _ _ _ _ SS) in L. pose proof (ii_phase _ _ _ I t i L) as P.
      unfold phase_ok in *. rewrite E, Rte. destruct (g_ph γ t i); rewrite ?CPe, ?CDe; auto.
      - destruct P as (P1 & P2 & P3 & P4). split_and!; auto.
        + intros p H. apply HPe in H. rewrite CDe. eauto.
        + intros k t' i' H. apply HKe in H. rewrite HKe. eauto.
      - destruct P as (P1 & P2 & P3 & P4 & p & P5 & P6). split_and!; auto. exists p. rewrite !HPe. auto.
      - destruct P as (P1 & P2). split; [done|]. intros p H. apply HPe in H. rewrite CDe. eauto.
      - destruct P as (P1 & P2). split; [done|]. intros p H. apply HPe in H. rewrite CDe. eauto. }
    assert (SX : ∀ γ', g_log γ `prefix_of` g_log γ' → slot_ext c γ c' γ' t0 i0).
    { intros γ' _. split; auto.
      - by rewrite Ene.
      - by rewrite Ene.
      - intros p k H1 H2. left. apply HKe. exists p. auto.
      - rewrite CPe, Ene. auto.
      - rewrite CDe. auto.
      - by rewrite Ene. }
    assert (COMMON : ∀ γ', g_ph γ' = g_ph γ → g_pr γ' = g_pr γ → g_pub γ' = g_pub γ →
        (∀ k p, replay (g_log γ') k = Some p ↔ live c' k p) → legal (g_log γ') →
        (∀ n n' e e' p, g_log γ' !! n = Some e → g_log γ' !! n' = Some e' → ev_new e = Some p → ev_new e' = Some p → n = n') →
        (∀ e p, e ∈ g_log γ' → ev_new e = Some p → ky c p = Some (ev_key e) ∧ ∃ h, g_pub γ !! p = Some (ev_op e, h)) →
        g_log γ `prefix_of` g_log γ' →
        (∀ p o t i, g_pub γ !! p = Some (o, Some (t, i)) → rt c ≤ t → Hp c t i p → ¬ Mt c' t i → ¬ lin (g_log γ') p) →
        (∀ p o t i, g_pub γ !! p = Some (o, Some (t, i)) → rt c ≤ t → lin (g_log γ') p ∨ (Hp c t i p ∧ ¬ Mt c' t i)) →
        InvI c' γ').
    { intros γ' E1 E2 E3 Habs Hleg Hnews Hev Hpre Hfr Hhl.
      destruct (ss_struct _ _ _ _ _ _ _ SS γ γ' I E1 E2) as (S1 & S2 & S3 & S4 & S5 & S6 & S7 & S8 & S9 & S10 & S11 & S11a & S12).
      split; try assumption.
      - intros t i H. rewrite Ene. destruct (Minv _ _ H) as [|[-> ->]]; [eapply ii_claimed; eauto|done].
      - intros t i p k H1 H2 H3. apply HPe in H1. rewrite kye in H2. rewrite (ss_mt _ _ _ _ _ _ _ SS).
        case_decide as D; [destruct D; subst; apply Hk; exists p; auto|].
        eapply ii_meta; eauto. apply MtE in H3. by rewrite decide_False in H3.
      - intros t i p H. apply HPe in H. rewrite (ss_hp _ _ _ _ _ _ _ SS), app_nil_r. eapply ii_ptr; eauto.
      - intros t i k H. apply HKe in H. destruct (ii_place _ _ _ I _ _ _ H) as (q & Q1 & Q2 & Q3).
        exists q. rewrite (ss_limc _ _ _ _ _ _ _ SS), (ss_ix _ _ _ _ _ _ _ SS). split_and!; auto.
        intros q' L. rewrite (ss_ix _ _ _ _ _ _ _ SS). auto.
      - intros t i j k. rewrite !HKe. apply I.
      - intros t i p H. apply HPe in H. rewrite CDe, CPe. eapply ii_cdcp; eauto.
      - intros. by apply PHOK.
      - intros t t' i i' k. rewrite Rte, !HKe, CDe, E1. apply I.
      - intros t t' i' k. rewrite Rte, HKe. intros L1 L2 H. destruct (ii_mid _ _ _ I t t' i' k L1 L2 H) as [X|[-> (i & X)]].
        + left. intros q Q. rewrite (ss_ix _ _ _ _ _ _ _ SS). apply Mmono, X. by rewrite <- (ss_limc _ _ _ _ _ _ _ SS).
        + right. split; [done|]. exists i. by apply HKe.
      - intros i p. rewrite Rte, HPe, CDe. intros H1 H2 H3.
        destruct (ii_u7 _ _ _ I i p H1 H2) as (t' & i' & ? & ? & ?); [intros M; apply H3; by apply Mmono|].
        exists t', i'. rewrite HPe. auto.
      - rewrite E3, (ss_hp _ _ _ _ _ _ _ SS), app_nil_r. apply I.
      - rewrite E3. intros p o H. eapply lin_prefix; [exact Hpre|]. eapply ii_home_upd; eauto.
      - rewrite E3, Rte. intros p o t i H L. eapply lin_prefix; [exact Hpre|]. eapply ii_home_low; eauto.
      - rewrite E3, Rte. intros p o t i. rewrite HPe. apply Hfr.
      - rewrite E3, Rte. intros p o t i. rewrite HPe. apply Hhl.
      - rewrite E3, Rte, E1. intros t i p L H M. apply HPe in H. rewrite (ss_lnc _ _ _ _ _ _ _ SS).
        eapply ii_nonhome; eauto.
      - rewrite E3. intros t i p o t' i' H. apply HPe in H. eapply ii_ptrloc; eauto.
      - intros e p H1 H2. rewrite kye, E3. eauto.
      - rewrite E2. intros t n H. pose proof (ii_prle _ _ _ I _ _ H). apply prefix_length in Hpre. lia.
      - rewrite E2. apply I.
      - rewrite E2. intros t k q n H1 H2 H3 H4 H5. rewrite (rp_prefix _ _ _ _ Hpre); [eapply STALE; eauto|].
        eapply ii_prle; eauto. }
    destruct CASES as [(p0 & o0 & k0 & L0 & NM0 & H0 & Hk0 & Hpub0)|NOEV].
    - (* the store makes a freshly inserted entry visible *)
      set (e0 := Ev k0 o0 None (Some p0)).
      assert (NL0 : ¬ lin (g_log γ) p0) by (eapply ii_home_fresh; eauto).
      assert (HK0 : HK c t0 i0 k0) by (exists p0; auto).
      assert (HROOT : t0 ≠ rt c → ∀ j, HK c (rt c) j k0 → CD c (rt c) j ∧ Mt c (rt c) j).
      { intros Hr j Hj. destruct (ii_uniq _ _ _ I (rt c) t0 j i0 k0 (le_n _) ltac:(lia) Hj HK0) as [_ [D|(x & Hx)]].
        - split; [done|]. destruct (Mt_dec c (rt c) j) as [M|M]; [done|]. exfalso.
          destruct Hj as (p & Hj1 & Hj2). destruct (ii_u7 _ _ _ I j p Hj1 D M) as (t' & i' & Lt & Ht & Mt').
          destruct (high_uniq _ _ _ I t' t0 i' i0 k0) as [-> ->]; [lia|lia|exists p; auto|done|done].
        - exfalso. destruct Hj as (p & Hj1 & Hj2).
          destruct (insd_copy _ _ _ I _ _ _ _ _ (Hp_inb _ _ _ _ Hj1) Hx Hj1) as (_ & P2 & P0 & _).
          assert (p = p0) by (unfold Hp in *; congruence). subst p.
          destruct (Mt_dec c (rt c) j) as [M|M].
          + apply NL0. apply (replay_lin _ k0). apply (ii_abs _ _ _ I). exists (rt c), j. split_and!; auto.
          + destruct (ii_nonhome _ _ _ I (rt c) j p0 (le_n _) Hj1 M) as [(o & Ho)|[? _]]; [|lia].
            rewrite Hpub0 in Ho. injection Ho as _ -> _. done. }
      (* before the step k0 is absent *)
      assert (ABS0 : replay (g_log γ) k0 = None).
      { destruct (replay (g_log γ) k0) as [p|] eqn:E; [|done]. exfalso.
        apply (ii_abs _ _ _ I) in E as (t & i & L & H1 & H2 & M & D & R).
        assert (HKt : HK c t i k0) by (exists p; auto).
        destruct (decide (t = t0)) as [->|Hne].
        { assert (i = i0) by (eapply ii_u1; eauto). subst. done. }
        destruct (decide (t0 = rt c)) as [E0|Hr].
        - destruct R as [->|R]; [congruence|]. subst t0. destruct (R i0 HK0). done.
        - destruct (decide (t = rt c)) as [->|Hr2].
          + destruct (HROOT Hr i HKt). done.
          + destruct (high_uniq _ _ _ I t t0 i i0 k0); [lia|lia|done|done|done]. }
      (* who is live for k0 afterwards *)
      assert (LIVE0 : ∀ p, live c' k0 p ↔ p = p0).
      { intros p. split.
        - intros (t & i & L & H1 & H2 & M & D & R). rewrite Rte in L, R. apply HPe in H1. rewrite kye in H2. rewrite CDe in D.
          assert (HKt : HK c t i k0) by (exists p; auto).
          destruct (decide (t = t0)) as [->|Hne].
          { assert (i = i0) by (eapply ii_u1; eauto). subst. unfold Hp in *. congruence. }
          destruct (decide (t < t0)) as [Lt|Lt].
          + exfalso. destruct (ii_uniq _ _ _ I t t0 i i0 k0 ltac:(lia) Lt HKt HK0) as [-> _].
            destruct (HROOT ltac:(lia) i HKt) as [? _]. done.
          + destruct (ii_uniq _ _ _ I t0 t i0 i k0 L0 ltac:(lia) HK0 HKt) as [E0 [D'|(j & Hj)]]; rewrite E0 in *.
            * destruct (ii_u7 _ _ _ I i0 p0 H0 D' NM0) as (t' & i' & Lt' & Ht' & Mt').
              destruct (high_uniq _ _ _ I t t' i i' k0) as [-> ->]; [lia|lia|done|exists p0; auto|].
              unfold Hp in *. congruence.
            * destruct (insd_copy _ _ _ I _ _ _ _ _ (Hp_inb _ _ _ _ H0) Hj H0) as (_ & _ & P0 & _).
              destruct R as [|R]; [lia|]. destruct (R i0) as [R1 _]; [by apply HKe|]. rewrite CDe in R1. done.
        - intros ->. destruct (decide (t0 = rt c)) as [E0|Hr].
          + destruct (CD_dec c t0 i0) as [D|D].
            * rewrite E0 in *. destruct (ii_u7 _ _ _ I i0 p0 H0 D NM0) as (t' & i' & Lt' & Ht' & Mt').
              exists t', i'. rewrite Rte. split_and!; [lia|by apply HPe|by rewrite kye|by apply Mmono| |right].
              { rewrite CDe. eapply CD_high; eauto. }
              intros j Hj. apply HKe in Hj. assert (j = i0) by (eapply ii_u1; eauto). subst j. rewrite CDe. auto.
            * exists t0, i0. rewrite Rte. split_and!; [lia|by apply HPe|by rewrite kye|done|by rewrite CDe|auto].
          + exists t0, i0. rewrite Rte. split_and!; [lia|by apply HPe|by rewrite kye|done| |right].
            { rewrite CDe. eapply CD_high; eauto. lia. }
            intros j Hj. apply HKe in Hj. destruct (HROOT Hr j Hj). rewrite CDe. auto. }
      exists (add_log γ [e0]).
      assert (PRE : g_log γ `prefix_of` g_log (add_log γ [e0])) by apply prefix_snoc.
      split; [|split; [|split; [|split_and!; [done|done|]]]].
      + apply COMMON; auto; cbn.
        * intros k p. rewrite replay_snoc. cbn. case_decide as E; [subst k; rewrite LIVE0; naive_solver|].
          rewrite LIVEk; [apply I|]. intros Hk1. destruct (E (HK_keys _ _ _ _ _ HK0 Hk1)).
        * apply legal_snoc; [apply I|done].
        * intros n n' e e' p H1 H2 H3 H4.
          assert (∀ n e, g_log γ !! n = Some e → ev_new e = Some p0 → False).
          { intros n1 e1 X Y. apply NL0. exists e1. split; [eapply elem_of_list_lookup_2; eauto|done]. }
          apply lookup_snoc_inv in H1 as [H1|[-> ->]]; apply lookup_snoc_inv in H2 as [H2|[-> ->]]; cbn in *; simplify_eq; eauto; try (exfalso; eauto; fail); eapply ii_news; eauto.
        * intros e p He Hn. apply elem_of_app in He as [He|He]; [eapply ii_evkey; eauto|].
          apply elem_of_list_singleton in He as ->. cbn in *. simplify_eq. eauto.
        * intros p o t i H1 H2 H3 H4 Hl. apply lin_snoc in Hl as [Hl|Hl]; cbn in *.
          -- eapply ii_home_fresh; eauto.
          -- by simplify_eq.
        * intros p o t i H1 H2. rewrite lin_snoc. cbn.
          destruct (ii_home_lin _ _ _ I _ _ _ _ H1 H2) as [|[H3 H4]]; [auto|].
          destruct (decide (t = t0 ∧ i = i0)) as [[-> ->]|N]; [left; right; unfold Hp in *; congruence|].
          right. split; [done|]. intros M. destruct (Minv _ _ M); [done|]. by apply N.
      + intros o. eapply ss_ext0; [exact SS|apply SX, PRE|exact I|done|exact PRE|done| | |auto]; cbn.
        * intros n e H1 H2 H3. apply lookup_snoc_ge in H1 as [-> ->]; [|done]. cbn in *. subst. eauto.
        * intros p h H. apply lookup_lt_Some in H. done.
      + intros me. eapply ss_extp; eauto.
      + exists [e0]. split; [done|]. intros e ->%elem_of_list_singleton. split; [done|]. exists p0, (Some (t0, i0)). auto.
    - exists γ. split; [|split; [|split; [|split_and!; [done|done|]]]].
      + apply COMMON; auto; try apply I.
        * intros k p. rewrite (ii_abs _ _ _ I k p).
          destruct (Mt_dec c t0 i0) as [M|M]; [by rewrite LIVEk by auto|].
          destruct (decide (t0 < rt c)) as [L|L]; [by rewrite LIVEk by auto|].
          destruct (e_ptr (en (k_sl c) t0 i0)) as [p0|] eqn:E.
          2:{ rewrite LIVEk; [done|]. intros (p' & Hx & _). unfold Hp in Hx. congruence. }
          destruct (ii_nonhome _ _ _ I t0 i0 p0 ltac:(lia) E M) as [(o & Ho)|(L2 & j & x & Lj & Hj)].
          { exfalso. eapply M, NOEV; eauto. lia. }
          (* the metadata of a copy in flight *)
          assert (exists pp, Hp c (rt c) j pp) as [pp Hpp].
          { pose proof (ii_phase _ _ _ I _ _ Lj) as P. unfold phase_ok in P. rewrite Hj in P.
            destruct P as (_ & _ & _ & _ & pp & P1 & _). eauto. }
          destruct (insd_copy _ _ _ I _ _ _ _ _ Lj Hj Hpp) as (_ & P2 & P0 & _).
          assert (pp = p0) by (unfold Hp in *; congruence). subst pp.
          destruct (HK_get _ _ _ _ _ _ I E) as [k0 Hk0].
          destruct (decide (k = k0)) as [->|Nk].
          2:{ rewrite LIVEk; [done|]. intros Hx. assert (HK c t0 i0 k0) by (exists p0; auto).
              destruct Nk. eapply HK_keys; eauto. }
          assert (HKr : HK c (rt c) j k0) by (exists p0; auto).
          unfold live. rewrite Rte. split; intros (t & i & Lt & H1 & H2 & Hm1 & D & R); exists t, i.
          { split_and!; [done|by apply HPe|by rewrite kye|by apply Mmono|by rewrite CDe|].
            destruct R as [|R]; [auto|]. destruct (R j HKr). done. }
          { apply HPe in H1. rewrite kye in H2. rewrite CDe in D.
            destruct R as [->|R].
            2:{ destruct (R j) as [R1 _]; [by apply HKe|]. rewrite CDe in R1. done. }
            split_and!; auto. destruct (Minv _ _ Hm1) as [|[? _]]; [done|lia]. }
        * intros p o t i H1 H2 H3 H4. eapply ii_home_fresh; eauto.
        * intros p o t i H1 H2. destruct (ii_home_lin _ _ _ I _ _ _ _ H1 H2) as [|[H3 H4]]; [auto|].
          right. split; [done|]. intros M. destruct (Minv _ _ M) as [|[-> ->]]; [done|].
          eapply H4, NOEV; eauto.
      + intros o. eapply ss_ext0; [exact SS|by apply SX|exact I|done|done|done| | |auto].
        * intros n e H1 H2 H3. apply lookup_lt_Some in H1. lia.
        * intros p h H. apply lookup_lt_Some in H. done.
      + intros me. eapply ss_extp; eauto.
      + exists []. rewrite app_nil_r. split; [done|]. intros e H. by apply elem_of_nil in H.
  Qed.
End steps.
