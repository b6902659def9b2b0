(** The invariant of the map in either resize mode, and what probes learn from it. *)
From Verif Require Export BlkSteps4.

Section gen.
  Context {K V : Type} {Keq : EqDecision K} (cfg : config K).
  Notation core := (core K V). Notation ghost := (@ghost K).
  Notation ix := (ix cfg). Notation passes := (passes cfg). Notation exhausted := (exhausted cfg). Notation pass := (pass cfg).

  Definition Inv (c : core) (γ : ghost) : Prop :=
    match c_mode cfg with Incremental _ => InvI cfg c γ | Blocking => InvB cfg c γ end.
  (** A probe for [k] may use table [t]. *)
  Definition visited (c : core) (t : nat) (k : K) : Prop :=
    match c_mode cfg with Incremental _ => visitedI cfg c t k | Blocking => visitedB c t end.

  Lemma Inv_inc c γ ch : c_mode cfg = Incremental ch → Inv c γ → InvI cfg c γ.
  Proof. unfold Inv. by intros ->. Qed.
  Lemma Inv_blk c γ : c_mode cfg = Blocking → Inv c γ → InvB cfg c γ.
  Proof. unfold Inv. by intros ->. Qed.
  Lemma inc_Inv c γ ch : c_mode cfg = Incremental ch → InvI cfg c γ → Inv c γ.
  Proof. unfold Inv. by intros ->. Qed.
  Lemma blk_Inv c γ : c_mode cfg = Blocking → InvB cfg c γ → Inv c γ.
  Proof. unfold Inv. by intros ->. Qed.

  Ltac both := let I := fresh "I" in let HM := fresh "HM" in
    unfold Inv; destruct (c_mode cfg) eqn:HM; intros I; apply I.
  Lemma i_lens c γ : Inv c γ → lens c. Proof. both. Qed.
  Lemma i_root c γ : Inv c γ → match k_rt c with None => nt c = 0 | Some r => r < nt c end. Proof. both. Qed.
  Lemma i_next c γ : Inv c γ → ∀ t, t < nt c → fld None (k_nx c) t = if decide (S t < nt c) then Some (S t) else None. Proof. both. Qed.
  Lemma i_pow c γ : Inv c γ → ∀ t, t < nt c → ∃ b, 3 ≤ b ∧ lnc c t = 2 ^ b. Proof. both. Qed.
  Lemma i_claimed c γ : Inv c γ → ∀ t i, Mt c t i → en (k_sl c) t i ≠ NULLW. Proof. both. Qed.
  Lemma i_meta c γ : Inv c γ → ∀ t i p k, Hp c t i p → ky c p = Some k → Mt c t i → mt (k_sl c) t i = h2_of cfg k. Proof. both. Qed.
  Lemma i_ptr c γ : Inv c γ → ∀ t i p, Hp c t i p → p < length (k_hp c). Proof. both. Qed.
  Lemma i_publen c γ : Inv c γ → length (g_pub γ) = length (k_hp c). Proof. both. Qed.
  Lemma i_home_upd c γ : Inv c γ → ∀ p o, g_pub γ !! p = Some (o, None) → lin (g_log γ) p. Proof. both. Qed.
  Lemma i_home_low c γ : Inv c γ → ∀ p o t i, g_pub γ !! p = Some (o, Some (t, i)) → t < rt c → lin (g_log γ) p. Proof. both. Qed.
  Lemma i_legal c γ : Inv c γ → legal (g_log γ). Proof. both. Qed.
  Lemma i_news c γ : Inv c γ → ∀ n n' e e' p, g_log γ !! n = Some e → g_log γ !! n' = Some e' → ev_new e = Some p → ev_new e' = Some p → n = n'.
  Proof. both. Qed.
  Lemma i_evkey c γ : Inv c γ → ∀ e p, e ∈ g_log γ → ev_new e = Some p → ky c p = Some (ev_key e) ∧ ∃ h, g_pub γ !! p = Some (ev_op e, h).
  Proof. both. Qed.
  Lemma i_prlen c γ : Inv c γ → length (g_pr γ) = rt c. Proof. both. Qed.
  Lemma i_prle c γ : Inv c γ → ∀ t n, g_pr γ !! t = Some n → n ≤ length (g_log γ). Proof. both. Qed.
  Lemma i_prsort c γ : Inv c γ → ∀ t n n', g_pr γ !! t = Some n → g_pr γ !! S t = Some n' → n ≤ n'. Proof. both. Qed.
  Lemma i_status c γ : Inv c γ → ∀ t, fld PENDING (k_st c) t = PROMOTED → t ≤ rt c. Proof. both. Qed.
  Lemma i_poison c γ : Inv c γ → ∀ t, fld LFree (k_lk c) t = LPoisoned → ¬ good_cfg cfg. Proof. both. Qed.
  Lemma i_u1 c γ : Inv c γ → ∀ t i j k, al c t → HK c t i k → HK c t j k → i = j.
  Proof. unfold Inv. destruct (c_mode cfg); swap 1 2; intros I t i j k A; [by apply (b_u1 _ _ _ I)|apply (ii_u1 _ _ _ I)]. Qed.
  Lemma i_cdcp c γ : Inv c γ → ∀ t i p, Hp c t i p → CD c t i → CP c t i.
  Proof. unfold Inv. destruct (c_mode cfg); swap 1 2; intros I t i p H D; [by destruct (b_nocd _ _ _ I t i p H)|by eapply (ii_cdcp _ _ _ I)]. Qed.
  Lemma al_rt c γ : Inv c γ → al c (rt c). Proof. both. Qed.
  Lemma al_inc c γ ch t : c_mode cfg = Incremental ch → Inv c γ → al c t.
  Proof. intros HM I. apply (Inv_inc _ _ _ HM I). Qed.

  Lemma HK_get c γ t i p : Inv c γ → Hp c t i p → ∃ k, ky c p = Some k.
  Proof. intros I H. pose proof (i_ptr _ _ I _ _ _ H) as L. unfold ky. destruct (lookup_lt_is_Some_2 _ _ L) as [x ->]. eauto. Qed.
  Lemma rt_lt c γ : Inv c γ → ∀ t, t < nt c → rt c < nt c.
  Proof. intros I t H. pose proof (i_root _ _ I) as R. unfold rt. destruct (k_rt c); cbn; lia. Qed.
  Lemma ix_lt c γ : Inv c γ → ∀ t k q, t < nt c → ix c t k q < lnc c t.
  Proof.
    intros I t k q H. destruct (i_pow _ _ I t H) as (b & _ & E). unfold IncInv.ix. fold (lnc c t). rewrite E. apply probe_idx_lt.
  Qed.
  Lemma fresh_S c γ : Inv c γ → ∀ n0 t, fresh c γ n0 t → fresh c γ n0 (S t).
  Proof.
    intros I n0 t F n Hn. pose proof (lookup_lt_Some _ _ _ Hn). destruct (lookup_lt_is_Some_2 (g_pr γ) t) as [n' Hn']; [lia|].
    pose proof (F _ Hn'). pose proof (i_prsort _ _ I _ _ _ Hn' Hn). lia.
  Qed.
  Lemma fresh_le c γ : Inv c γ → ∀ n0 t t', t ≤ t' → fresh c γ n0 t → fresh c γ n0 t'.
  Proof. intros I n0 t t' L F. induction L as [|t' L IH]; [done|]. by apply fresh_S. Qed.
  Lemma fresh_root c γ : Inv c γ → fresh c γ (length (g_log γ)) (rt c).
  Proof. intros I n Hn. apply lookup_lt_Some in Hn. rewrite (i_prlen _ _ I) in Hn. lia. Qed.
  Lemma M_lin c γ : Inv c γ → ∀ t i p o, g_pub γ !! p = Some (o, Some (t, i)) → Mt c t i → lin (g_log γ) p.
  Proof.
    intros I t i p o H M. destruct (decide (t < rt c)); [by eapply i_home_low|]. unfold Inv in I. destruct (c_mode cfg); swap 1 2.
    - pose proof (b_home_le _ _ _ I _ _ _ _ H). assert (t = rt c) as -> by lia.
      destruct (b_home_lin _ _ _ I _ _ _ H) as [|[_ N]]; [done|contradiction].
    - destruct (ii_home_lin _ _ _ I _ _ _ _ H) as [|[_ N]]; [lia|done|contradiction].
  Qed.
  Lemma CP_low c γ : Inv c γ → ∀ t i, t < rt c → al c t → i < lnc c t → CP c t i.
  Proof. unfold Inv. destruct (c_mode cfg); swap 1 2; intros I t i L A B; [by apply I|by eapply IncFacts.CP_low]. Qed.
  Lemma CP_next c γ : Inv c γ → ∀ t i, CP c t i → S t < nt c.
  Proof. unfold Inv. destruct (c_mode cfg); swap 1 2; intros I t i C; [by eapply I|by eapply IncFacts.CP_next]. Qed.
  Lemma CD_high c γ : Inv c γ → ∀ t i p, rt c < t → Hp c t i p → ¬ CD c t i.
  Proof. unfold Inv. destruct (c_mode cfg); swap 1 2; intros I t i p L H; [by eapply I|by eapply IncFacts.CD_high]. Qed.

  (** Entries of tables from the root on are found in tables that were not given up. *)
  Lemma al_find c γ : Inv c γ → ∀ t i p, rt c ≤ t → Hp c t i p → al c t ∨ ∃ i', Hp c (rt c) i' p ∧ CP c (rt c) i'.
  Proof.
    unfold Inv. destruct (c_mode cfg); swap 1 2; intros I t i p L H; [|left; by apply I]. destruct (al_dec c t) as [|N]; [by left|right].
    assert (t ≠ rt c) by (intros ->; apply N, I). eapply (b_gsrc _ _ _ I t); [|done|done].
    apply (src_root cfg _ _ I); [lia|by eapply Hp_tab].
  Qed.

  Section stab.
    Context (o : nat) (c : core) (γ : ghost) (c' : core) (γ' : ghost) (X : ext0 o c γ c' γ') (I : Inv c γ).
    Lemma st_notHK t i k : en (k_sl c) t i ≠ NULLW → ¬ HK c t i k → ¬ HK c' t i k.
    Proof.
      intros N H H'. pose proof (x_slot _ _ _ _ _ X t i) as S.
      destruct (e_ptr (en (k_sl c) t i)) as [p|] eqn:E.
      - destruct (HK_get _ _ _ _ _ I E) as [k' Hk'].
        destruct (sx_ptr _ _ _ _ _ _ S p k' E Hk') as [H2|[H2 _]].
        + pose proof (HK_keys _ _ _ _ _ H2 H'). subst. apply H. exists p. auto.
        + destruct H' as (p' & H' & _). unfold Hp in H'. congruence.
      - pose proof (sx_dead _ _ _ _ _ _ S N E) as D. destruct H' as (p' & H' & _). unfold Hp in H'. congruence.
    Qed.
    Lemma st_skip t i k : skip c t i k → skip c' t i k.
    Proof. intros [H1 H2]. split; [by eapply st_Mt|]. apply st_notHK; auto. eapply i_claimed; eauto. Qed.
    Lemma st_passes t k q : t < nt c → passes c t k q → passes c' t k q.
    Proof. intros Ht H q' L. erewrite st_ix by eauto. apply st_skip; auto. Qed.
    Lemma st_exhausted t k : exhausted c t k → exhausted c' t k.
    Proof.
      intros H. pose proof (exhausted_tab cfg _ _ _ H) as Ht. unfold IncInv.exhausted.
      rewrite (x_lim _ _ _ _ _ X _ Ht). apply st_passes; assumption.
    Qed.
    Lemma st_pass t k : pass c t k → pass c' t k.
    Proof.
      intros [H|(i & H1 & H2 & H3)]; [left; by apply st_exhausted|right].
      assert (C : CP c t i) by (destruct H1 as (p & H1 & _); eapply i_cdcp; eauto).
      exists i. split; [by eapply st_HKcp|]. split; [by eapply st_CD|by eapply st_Mt].
    Qed.
    Lemma st_visited t k : visited c t k → visited c' t k.
    Proof.
      unfold visited, Inv in *. destruct (c_mode cfg); swap 1 2; [|by eapply IncFacts.st_visited].
      intros [A B]. split; [etrans; [done|apply X]|]. by apply (x_al _ _ _ _ _ X).
    Qed.
  End stab.

  Section inv.
    Context (c : core) (γ : ghost) (I : Inv c γ).

    Lemma visited_root t k : t ≤ rt c → al c t → visited c t k.
    Proof. unfold visited. destruct (c_mode cfg); swap 1 2; intros L A; [by split|by apply IncFacts.visited_root]. Qed.
    Lemma visited_al t k : visited c t k → al c t.
    Proof. unfold visited, Inv in *. destruct (c_mode cfg); swap 1 2; [by intros [_ ?]|intros _; apply I]. Qed.
    Lemma absent_noroot k : k_rt c = None → replay (g_log γ) k = None.
    Proof.
      intros R. pose proof (i_root _ _ I) as R'. rewrite R in R'. unfold Inv in I. destruct (c_mode cfg); swap 1 2; [|by eapply IncFacts.absent_noroot].
      eapply b_absent_nohk; [done|]. intros i (p & H & _). apply Hp_tab in H. lia.
    Qed.
    Lemma stale_absent n0 t k q : fresh c γ n0 t → n0 ≤ length (g_log γ) → visited c t k → passes c t k q → q ≤ lim c t →
      ¬ Mt c t (ix c t k q) → ∃ n, n0 ≤ n ∧ n ≤ length (g_log γ) ∧ rp n (g_log γ) k = None.
    Proof.
      unfold visited, Inv in *. destruct (c_mode cfg); swap 1 2; intros F L V0 P Q N; [by eapply b_stale_absent|by eapply IncFacts.stale_absent].
    Qed.
    (** A probe that ran over the limit. *)
    Lemma stale_exhausted n0 t k : fresh c γ n0 t → n0 ≤ length (g_log γ) → visited c t k → exhausted c t k →
      c_mode cfg = Blocking ∨ S t = nt c → ∃ n, n0 ≤ n ∧ n ≤ length (g_log γ) ∧ rp n (g_log γ) k = None.
    Proof.
      pose proof (rt_lt _ _ I t) as RL. unfold visited, Inv in *. destruct (c_mode cfg); swap 1 2; intros F L V0 E D.
      - eapply b_stale_nohk; eauto. intros i. eapply b_exhausted_no; [done|apply V0|done].
      - destruct D as [|D]; [done|]. exists (length (g_log γ)). split; [done|]. split; [done|]. rewrite rp_all by done.
        assert (LT : t < nt c) by lia. specialize (RL LT). eapply (absent_exhausted cfg _ _ I t); [lia|done..].
    Qed.
    (** A visible, not yet copied entry is the current one. *)
    Lemma present_visible t i p k : visited c t k → Hp c t i p → ky c p = Some k → ¬ CD c t i → Mt c t i → ¬ CP c t i ∨ rt c ≤ t →
      replay (g_log γ) k = Some p.
    Proof.
      unfold visited, Inv in *. destruct (c_mode cfg); swap 1 2; intros V0 H Hk D M A; [|by eapply IncFacts.present_visible].
      destruct V0 as [V1 V2]. assert (t = rt c) as ->.
      { destruct A as [A|A]; [|lia]. destruct (decide (t = rt c)); [done|]. destruct A. apply (b_low _ _ _ I); [lia|done|by eapply Hp_inb]. }
      apply (b_abs _ _ _ I). eauto.
    Qed.
    Lemma present_seen n0 t i p k : fresh c γ n0 t → n0 ≤ length (g_log γ) → visited c t k → Hp c t i p → ky c p = Some k →
      ¬ CD c t i → Mt c t i → ∃ n, n0 ≤ n ∧ n ≤ length (g_log γ) ∧ rp n (g_log γ) k = Some p.
    Proof.
      unfold visited, Inv in *. destruct (c_mode cfg); swap 1 2; intros F L V0 H Hk D M; [by eapply b_present|].
      exists (length (g_log γ)). split; [done|]. split; [done|]. rewrite rp_all by done. by eapply IncFacts.present_visible.
    Qed.
    Lemma present_invisible t i p k : rt c ≤ t → visited c t k → Hp c t i p → ky c p = Some k → ¬ CD c t i → ¬ Mt c t i →
      ¬ lin (g_log γ) p ∧ ∃ o, g_pub γ !! p = Some (o, Some (t, i)).
    Proof.
      unfold visited, Inv in *. destruct (c_mode cfg); swap 1 2; intros L V0 H Hk D M; [|by eapply IncFacts.present_invisible].
      destruct V0 as [V1 V2]. assert (t = rt c) as -> by lia. destruct (b_nonhome _ _ _ I i p H M) as [o Ho].
      split; [|eauto]. eapply (b_home_fresh _ _ _ I); eauto.
    Qed.
    (** Entries of the root that are not visible yet. *)
    Lemma root_hidden i p : Hp c (rt c) i p → ¬ Mt c (rt c) i → ¬ lin (g_log γ) p ∧ ∃ o, g_pub γ !! p = Some (o, Some (rt c, i)).
    Proof.
      unfold Inv in *. destruct (c_mode cfg); swap 1 2; intros H M.
      - destruct (b_nonhome _ _ _ I i p H M) as [o Ho]. split; [|eauto]. eapply (b_home_fresh _ _ _ I); eauto.
      - destruct (ii_nonhome _ _ _ I (rt c) i p (le_n _) H M) as [(o & Ho)|[L _]]; [|lia]. split; [|eauto].
        eapply (ii_home_fresh _ _ _ I); eauto.
    Qed.
    Lemma peok_gen : peok c γ.
    Proof. unfold Inv in I. destruct (c_mode cfg); swap 1 2; [by eapply b_peok|by eapply inv_peok]. Qed.
    (** A current entry is stored, visible, in some table from the root on. *)
    Lemma abs_find k p : replay (g_log γ) k = Some p →
      ∃ t i, rt c ≤ t ∧ Hp c t i p ∧ ky c p = Some k ∧ Mt c t i ∧ ¬ CD c t i.
    Proof.
      unfold Inv in I. destruct (c_mode cfg); swap 1 2; intros H.
      - apply (b_abs _ _ _ I) in H as (i & A & B & C). exists (rt c), i. split_and!; auto. by eapply I.
      - apply (ii_abs _ _ _ I) in H as (t & i & A & B & C & D & E & _). eauto 10.
    Qed.
  End inv.
End gen.

(** ** Steps common to both modes *)
Section gensteps.
  Context {K V : Type} {Keq : EqDecision K} (cfg : config K).
  Notation core := (core K V). Notation ghost := (@ghost K).
  Notation ix := (ix cfg). Notation passes := (passes cfg). Notation Inv := (Inv cfg). Notation visited := (visited cfg).
  Ltac md := unfold IncGen.Inv, IncGen.visited in *; destruct (c_mode cfg); swap 1 2.

  Lemma step_meta (c : core) γ c' t0 i0 m :
    Inv c γ → inb c t0 i0 → slotstep c c' t0 i0 m (en (k_sl c) t0 i0) [] →
    m ≠ EMPTY → en (k_sl c) t0 i0 ≠ NULLW →
    (∀ k, HK c t0 i0 k → m = h2_of cfg k) →
    ∃ γ', Inv c' γ' ∧ (∀ o, ext0 o c γ c' γ') ∧ (∀ me, extp me c γ c' γ') ∧
      g_pub γ' = g_pub γ ∧ g_ph γ' = g_ph γ ∧ ∃ l, g_log γ' = g_log γ ++ l ∧ pubevs γ l.
  Proof. md; [apply step_metaB|apply IncSteps.step_meta]. Qed.
  Lemma step_ins (c : core) γ c' opid t0 i0 q0 k0 v0 :
    Inv c γ → inb c t0 i0 →
    slotstep c c' t0 i0 (mt (k_sl c) t0 i0) (EW (Some (length (k_hp c))) false false false) [(k0, v0)] →
    en (k_sl c) t0 i0 = NULLW → visited c t0 k0 → passes c t0 k0 q0 → q0 ≤ lim c t0 → ix c t0 k0 q0 = i0 →
    let γ' := Gh (g_log γ) (g_pub γ ++ [(opid, Some (t0, i0))]) (g_ph γ) (g_pr γ) in
    Inv c' γ' ∧ (∀ o, o ≠ opid → ext0 o c γ c' γ') ∧ (∀ me, extp me c γ c' γ').
  Proof. md; [apply step_insB|apply IncSteps2.step_ins]. Qed.
  Lemma step_upd (c : core) γ c' opid t0 i0 k0 v0 p0 :
    Inv c γ →
    slotstep c c' t0 i0 (mt (k_sl c) t0 i0) (EW (Some (length (k_hp c))) false false false) [(k0, v0)] →
    Hp c t0 i0 p0 → ky c p0 = Some k0 → ¬ CP c t0 i0 → Mt c t0 i0 → visited c t0 k0 →
    let γ' := Gh (g_log γ ++ [Ev k0 opid (Some p0) (Some (length (k_hp c)))]) (g_pub γ ++ [(opid, None)]) (g_ph γ) (g_pr γ) in
    Inv c' γ' ∧ (∀ o, o ≠ opid → ext0 o c γ c' γ') ∧ (∀ me, extp me c γ c' γ').
  Proof. md; [apply step_updB|apply IncSteps2.step_upd]. Qed.
  Lemma step_rem (c : core) γ c' opid t0 i0 k0 p0 :
    Inv c γ →
    slotstep c c' t0 i0 (mt (k_sl c) t0 i0) TOMBW [] →
    Hp c t0 i0 p0 → ky c p0 = Some k0 → ¬ CP c t0 i0 → visited c t0 k0 →
    ∃ γ' pre, g_log γ' = (g_log γ ++ pre) ++ [Ev k0 opid (Some p0) None] ∧ g_pub γ' = g_pub γ ∧
      g_ph γ' = g_ph γ ∧ g_pr γ' = g_pr γ ∧
      (pre = [] ∧ lin (g_log γ) p0 ∨ ∃ o0 h, pre = [Ev k0 o0 None (Some p0)] ∧ g_pub γ !! p0 = Some (o0, h) ∧ ¬ lin (g_log γ) p0) ∧
      replay (g_log γ ++ pre) k0 = Some p0 ∧
      Inv c' γ' ∧ (∀ o, o ≠ opid → ext0 o c γ c' γ') ∧ (∀ me, extp me c γ c' γ').
  Proof. md; [apply step_remB|apply IncSteps3.step_rem]. Qed.
  Lemma step_lock (c : core) γ me t0 x : Inv c γ → t0 < nt c → (x = LPoisoned → ¬ good_cfg cfg) →
    (∀ me', me' ≠ me → fld LFree (k_lk c) t0 ≠ LHeld me') →
    let c' := c_lk (<[t0 := x]>) c in
    Inv c' γ ∧ (∀ o, ext0 o c γ c' γ) ∧ (∀ me', me' ≠ me → extp me' c γ c' γ).
  Proof. md; [apply step_lockB|apply IncSteps5.step_lock]. Qed.
  Lemma step_newtab (c : core) γ c' len b (nx' : list (option nat)) st' :
    Inv c γ → len = 2 ^ b → 3 ≤ b →
    k_sl c' = k_sl c ++ [replicate len slot0] → k_lim c' = k_lim c ++ [probe_limit len] →
    k_nx c' = nx' ++ [None] → length nx' = nt c →
    (∀ t, t < nt c → fld None nx' t = Some (S t)) →
    k_lk c' = k_lk c ++ [LFree] → k_cd c' = k_cd c ++ [0] → k_cl c' = k_cl c ++ [0] → k_st c' = k_st c ++ [st'] →
    (st' = PROMOTED → nt c = 0) → st' ≠ ABORTED →
    (k_rt c' = k_rt c ∧ 0 < nt c ∨ nt c = 0 ∧ k_rt c' = Some 0) → k_hp c' = k_hp c →
    (c_mode cfg = Blocking → ∀ t, S t = nt c → t = rt c ∨ ¬ al c t) →
    Inv c' γ ∧ (∀ o, ext0 o c γ c' γ) ∧
    (∀ me, (∀ t, fld LFree (k_lk c) t = LHeld me → fld None nx' t = fld None (k_nx c) t) → extp me c γ c' γ).
  Proof.
    md; intros; [eapply step_newtabB|eapply IncSteps5.step_newtab]; eauto.
  Qed.
  (** The table that became the root is marked as promoted. *)
  Lemma step_promoted (c : core) γ t0 : Inv c γ → t0 < nt c → t0 ≤ rt c → al c t0 →
    let c' := c_st (<[t0 := PROMOTED]>) c in
    Inv c' γ ∧ (∀ o, ext0 o c γ c' γ) ∧ (∀ me, extp me c γ c' γ).
  Proof. md; intros I L0 L1 A; [by apply step_statusB|by apply IncSteps5.step_status]. Qed.
End gensteps.
