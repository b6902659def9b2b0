(** Steps on table headers: claims, counters, status, locks, promotion, new tables. *)
From Verif Require Export IncSteps4.

Section steps.
  Context {K V : Type} {Keq : EqDecision K} (cfg : config K).
  Notation core := (core K V). Notation ghost := (@ghost K).
  Notation InvI := (InvI cfg).
  Notation ix := (ix cfg). Notation passes := (passes cfg). Notation exhausted := (exhausted cfg).
  Notation pass := (pass cfg). Notation exhM := (exhM cfg). Notation visitedI := (visitedI cfg).

  (** ** Steps that change only counters, status words or locks *)
  Record sidestep (c c' : core) : Prop := MkSide {
    sd_sl : k_sl c' = k_sl c; sd_lim : k_lim c' = k_lim c; sd_nx : k_nx c' = k_nx c;
    sd_rt : k_rt c' = k_rt c; sd_hp : k_hp c' = k_hp c }.
  (** The ghost phases changed by such a step. *)
  Definition phases (γ : ghost) (f : nat → nat → phase) : ghost := Gh (g_log γ) (g_pub γ) f (g_pr γ).

  Lemma side_inv (c c' : core) γ f : sidestep c c' → InvI c γ → lens c' →
    (∀ t i, i < lnc c t → phase_ok c (phases γ f) t i) →
    (∀ t i j t' i', g_ph γ t i = PInsd j t' i' → f t i = PInsd j t' i') →
    (∀ t i, t < rt c → i < lnc c t → f t i = PCnt) →
    (∀ t i, rt c < t → f t i = PFree) →
    (∀ t i, nt c ≤ S t → f t i = PFree) →
    (∀ t i, S t < nt c → i < lnc c t → (f t i = PFree ↔ fld 0 (k_cl c') (S t) ≤ i)) →
    (∀ t, S t < nt c → fld 0 (k_cd c') (S t) = cnt (f t) (lnc c t)) →
    (∀ t, fld PENDING (k_st c') t = PROMOTED → t ≤ rt c) → (∀ t, al c' t) →
    (∀ t, fld LFree (k_lk c') t = LPoisoned → ¬ good_cfg cfg) →
    InvI c' (phases γ f).
  Proof.
    intros [E1 E2 E3 E4 E5] I H1 H2 H3 H4 H5 H6 H7 H8 H9 H9' H10.
    destruct c as [sl lim0 nx lk cd cl st rt0 hp], c' as [sl' lim' nx' lk' cd' cl' st' rt' hp'].
    cbn in E1, E2, E3, E4, E5. subst.
    split; try assumption.
    - apply (ii_root _ _ _ I).
    - apply (ii_next _ _ _ I).
    - apply (ii_pow _ _ _ I).
    - apply (ii_claimed _ _ _ I).
    - apply (ii_meta _ _ _ I).
    - apply (ii_ptr _ _ _ I).
    - apply (ii_place _ _ _ I).
    - apply (ii_u1 _ _ _ I).
    - apply (ii_cdcp _ _ _ I).
    - intros t t' i i' k L1 L2 A B. destruct (ii_uniq _ _ _ I t t' i i' k L1 L2 A B) as [-> [?|(j & Hj)]]; [auto|].
      split; [done|]. right. exists j. apply H3, Hj.
    - apply (ii_mid _ _ _ I).
    - apply (ii_u7 _ _ _ I).
    - apply (ii_publen _ _ _ I).
    - apply (ii_home_upd _ _ _ I).
    - apply (ii_home_low _ _ _ I).
    - apply (ii_home_fresh _ _ _ I).
    - apply (ii_home_lin _ _ _ I).
    - intros t i p L1 A B. destruct (ii_nonhome _ _ _ I t i p L1 A B) as [?|(L2 & i0 & j & L3 & Hj)]; [auto|].
      right. split; [done|]. exists i0, j. split; [done|]. apply H3, Hj.
    - apply (ii_ptrloc _ _ _ I).
    - apply (ii_abs _ _ _ I).
    - apply (ii_legal _ _ _ I).
    - apply (ii_news _ _ _ I).
    - apply (ii_evkey _ _ _ I).
    - apply (ii_prlen _ _ _ I).
    - apply (ii_prle _ _ _ I).
    - apply (ii_prsort _ _ _ I).
    - apply (ii_stale _ _ _ I).
  Qed.

  Lemma side_ext0 o (c c' : core) γ f : sidestep c c' →
    (∀ t i, g_ph γ t i = PCnt → f t i = PCnt) →
    (∀ t, al c' t → al c t) → (∀ t, t ≤ rt c → al c t → al c' t) → ext0 o c γ c' (phases γ f).
  Proof.
    intros [E1 E2 E3 E4 E5] Hc Hs1 Hs2.
    destruct c as [sl lim0 nx lk cd cl st rt0 hp], c' as [sl' lim' nx' lk' cd' cl' st' rt' hp'].
    cbn in E1, E2, E3, E4, E5. subst. split; auto.
    - intros t i. split; auto. intros p k A B. left. exists p. auto.
    - intros t n H L. apply lookup_lt_Some in H. cbn in *. lia.
    - intros n e H L. apply lookup_lt_Some in H. cbn in *. lia.
    - intros p h H. apply lookup_lt_Some in H. cbn in *. lia.
  Qed.
  Lemma side_extp me (c c' : core) γ f : sidestep c c' →
    (∀ t i, ph_owner (g_ph γ t i) = Some me → f t i = g_ph γ t i) →
    (∀ t, fld LFree (k_lk c) t = LHeld me → fld LFree (k_lk c') t = LHeld me) →
    extp me c γ c' (phases γ f).
  Proof. intros S H1 H2. split; [exact H1|]. intros t H. split; [auto|]. by rewrite (sd_nx _ _ S). Qed.
  Lemma phases_id γ : phases γ (g_ph γ) = γ.
  Proof. by destruct γ. Qed.

  Lemma phase_ok_eq (c : core) γ γ' t i : g_ph γ' t i = g_ph γ t i → phase_ok c γ t i → phase_ok c γ' t i.
  Proof. unfold phase_ok. by intros ->. Qed.

  (** ** Claiming a chunk *)
  Lemma step_claim (c : core) γ me t0 n : InvI c γ → t0 ≤ rt c → S t0 < nt c →
    let s := fld 0 (k_cl c) (S t0) in
    let c' := c_cl (<[S t0 := s + n]>) c in
    ∃ f, InvI c' (phases γ f) ∧ (∀ o, ext0 o c γ c' (phases γ f)) ∧ (∀ me', me' ≠ me → extp me' c γ c' (phases γ f)) ∧
      (∀ i, s ≤ i → i < s + n → i < lnc c t0 → f t0 i = POwn me).
  Proof.
    intros I L0 Ln s c'.
    set (f := λ t i, if decide (t = t0 ∧ s ≤ i ∧ i < s + n ∧ i < lnc c t0) then POwn me else g_ph γ t i).
    assert (SD : sidestep c c') by (split; reflexivity).
    assert (Hlen := ii_lens _ _ _ I). destruct Hlen as (Z1 & Z2 & Z3 & Z4 & Z5 & Z6).
    assert (FREE : ∀ i, s ≤ i → i < lnc c t0 → g_ph γ t0 i = PFree).
    { intros i A B. apply (ii_claim _ _ _ I); done. }
    assert (FE : ∀ t i, f t i = g_ph γ t i ∨ (g_ph γ t i = PFree ∧ f t i = POwn me)).
    { intros t i. unfold f. case_decide as D; [|auto]. destruct D as (-> & A & B & C). right. split; [by apply FREE|done]. }
    assert (NEQ : ∀ t i, g_ph γ t i ≠ PFree → f t i = g_ph γ t i).
    { intros t i N. destruct (FE t i) as [?|[? _]]; done. }
    exists f. split_and!.
    - apply (side_inv c); auto.
      + unfold lens, nt in *. cbn. rewrite insert_length. auto 10.
      + intros t i L. pose proof (ii_phase _ _ _ I t i L) as P. destruct (FE t i) as [E|[E1 E2]].
        * by apply (phase_ok_eq _ γ).
        * unfold phase_ok in *. cbn. rewrite E2. by rewrite E1 in P.
      + intros t i j t' i' H. rewrite NEQ; congruence.
      + intros t i A B. rewrite NEQ; rewrite (ii_low _ _ _ I); done.
      + intros t i A. unfold f. rewrite decide_False by lia. by apply (ii_high _ _ _ I).
      + intros t i A. unfold f. rewrite decide_False by lia. by apply (ii_last _ _ _ I).
      + intros t i A B. cbn. rewrite fld_insert by (rewrite Z5; lia). case_decide as D.
        * assert (t = t0) as -> by lia. unfold f. case_decide as D2; [split; [done|lia]|].
          rewrite (ii_claim _ _ _ I) by done. fold s. lia.
        * unfold f. rewrite decide_False by lia. by apply (ii_claim _ _ _ I).
      + intros t A. cbn. rewrite (ii_copied _ _ _ I) by done. apply cnt_ext. intros i Hi.
        destruct (FE t i) as [->|[-> ->]]; done.
      + cbn. apply I.
      + cbn. apply (ii_al _ _ _ I).
      + cbn. apply I.
    - intros o. apply side_ext0; [done| |done|done]. intros t i E. rewrite NEQ; congruence.
    - intros me' Hm. apply side_extp; auto. intros t i E. apply NEQ. intros X. by rewrite X in E.
    - intros i A B C. unfold f. by rewrite decide_True.
  Qed.

  Lemma cnt_range f g a n m : a + n ≤ m → (∀ i, a ≤ i → i < a + n → f i ≠ PCnt ∧ g i = PCnt) →
    (∀ i, i < m → ¬ (a ≤ i ∧ i < a + n) → f i = PCnt ↔ g i = PCnt) → cnt g m = cnt f m + n.
  Proof.
    destruct (decide (n = 0)) as [->|Nn].
    { intros _ _ H2. rewrite (cnt_ext g f); [lia|]. intros i Hi. rewrite H2 by lia. done. }
    revert n Nn. induction m as [|m IH]; intros n Nn L H1 H2; cbn; [lia|].
    destruct (decide (n = 1 ∧ a + n = S m)) as [[-> E]|Nn1].
    - destruct (H1 m) as [A B]; [lia|lia|]. rewrite (decide_False _ _ A), (decide_True _ _ B).
      rewrite (cnt_ext g f); [lia|]. intros i Hi. rewrite H2 by lia. done.
    - destruct (decide (a + n = S m)) as [E|E].
      + destruct (H1 m) as [A B]; [lia|lia|]. rewrite (decide_False _ _ A), (decide_True _ _ B).
        rewrite (IH (n - 1)); [lia|lia|lia|intros; apply H1; lia|intros; apply H2; lia].
      + rewrite (IH n); [|done|lia|done|intros; apply H2; lia].
        destruct (decide (f m = PCnt)) as [A|A]; destruct (decide (g m = PCnt)) as [B|B]; try lia.
        * rewrite H2 in A by lia. done.
        * rewrite <- H2 in B by lia. done.
  Qed.

  (** ** Counting finished slots *)
  Lemma step_count (c : core) γ me t0 a n : InvI c γ → S t0 < nt c → a + n ≤ lnc c t0 →
    (∀ i, a ≤ i → i < a + n → g_ph γ t0 i = PDone me) →
    let s := fld 0 (k_cd c) (S t0) in
    let c' := c_cd (<[S t0 := s + n]>) c in
    ∃ f, InvI c' (phases γ f) ∧ (∀ o, ext0 o c γ c' (phases γ f)) ∧ (∀ me', me' ≠ me → extp me' c γ c' (phases γ f)) ∧
      s + n = cnt (f t0) (lnc c t0).
  Proof.
    intros I Ln Ll Own s c'.
    set (f := λ t i, if decide (t = t0 ∧ a ≤ i ∧ i < a + n) then PCnt else g_ph γ t i).
    assert (SD : sidestep c c') by (split; reflexivity).
    assert (Hlen := ii_lens _ _ _ I). destruct Hlen as (Z1 & Z2 & Z3 & Z4 & Z5 & Z6).
    assert (FE : ∀ t i, f t i = g_ph γ t i ∨ (t = t0 ∧ a ≤ i ∧ i < a + n ∧ g_ph γ t i = PDone me ∧ f t i = PCnt)).
    { intros t i. unfold f. case_decide as D; [|auto]. destruct D as (-> & A & B). right. split_and!; auto. }
    assert (NEQ : ∀ t i, g_ph γ t i ≠ PDone me → f t i = g_ph γ t i).
    { intros t i N. destruct (FE t i) as [?|(_&_&_&?&_)]; done. }
    assert (CNT : s + n = cnt (f t0) (lnc c t0)).
    { rewrite (cnt_range (g_ph γ t0) (f t0) a n).
      - unfold s. by rewrite (ii_copied _ _ _ I).
      - done.
      - intros i A B. rewrite Own by done. unfold f. by rewrite decide_True.
      - intros i A B. unfold f. by rewrite decide_False by naive_solver. }
    exists f. split_and!; [| | |done].
    - apply (side_inv c); auto.
      + unfold lens, nt in *. cbn. rewrite insert_length. auto 10.
      + intros t i L. pose proof (ii_phase _ _ _ I t i L) as P. destruct (FE t i) as [E|(_ & _ & _ & E1 & E2)].
        * by apply (phase_ok_eq _ γ).
        * unfold phase_ok in *. cbn. rewrite E2. by rewrite E1 in P.
      + intros t i j t' i' H. rewrite NEQ; congruence.
      + intros t i A B. destruct (FE t i) as [->|(_ & _ & _ & _ & ->)]; [|done]. by apply (ii_low _ _ _ I).
      + intros t i A. destruct (FE t i) as [->|(_ & _ & _ & E & _)]; [by apply (ii_high _ _ _ I)|].
        by rewrite (ii_high _ _ _ I) in E.
      + intros t i A. destruct (FE t i) as [->|(_ & _ & _ & E & _)]; [by apply (ii_last _ _ _ I)|].
        by rewrite (ii_last _ _ _ I) in E.
      + intros t i A B. cbn. rewrite <- (ii_claim _ _ _ I) by done. destruct (FE t i) as [->|(_ & _ & _ & -> & ->)]; done.
      + intros t A. cbn. rewrite fld_insert by (rewrite Z4; lia). case_decide as D.
        * assert (t = t0) as -> by lia. done.
        * rewrite (ii_copied _ _ _ I) by done. apply cnt_ext. intros i Hi. unfold f. by rewrite decide_False by lia.
      + cbn. apply I.
      + cbn. apply (ii_al _ _ _ I).
      + cbn. apply I.
    - intros o. apply side_ext0; [done| |done|done]. intros t i E. rewrite NEQ; congruence.
    - intros me' Hm. apply side_extp; auto. intros t i E. apply NEQ. intros X. rewrite X in E. cbn in E. congruence.
  Qed.

  (** ** Status and lock words *)
  Lemma step_status (c : core) γ t0 s : InvI c γ → t0 < nt c → (s = PROMOTED → t0 ≤ rt c) → s ≠ ABORTED →
    let c' := c_st (<[t0 := s]>) c in
    InvI c' γ ∧ (∀ o, ext0 o c γ c' γ) ∧ (∀ me, extp me c γ c' γ).
  Proof.
    intros I L0 Hs Ha c'. assert (SD : sidestep c c') by (split; reflexivity).
    assert (Hlen := ii_lens _ _ _ I). destruct Hlen as (Z1 & Z2 & Z3 & Z4 & Z5 & Z6).
    split_and!.
    - rewrite <- (phases_id γ). apply (side_inv c); auto; try apply I.
      + unfold lens, nt in *. cbn. rewrite insert_length. auto 10.
      + intros t. cbn. rewrite fld_insert by (rewrite Z6; lia). case_decide; [subst; auto|apply I].
      + intros t. unfold al. cbn. rewrite fld_insert by (rewrite Z6; lia). case_decide; [done|apply (ii_al _ _ _ I)].
    - intros o. rewrite <- (phases_id γ) at 2. apply side_ext0; auto; intros t; [intros _; apply (ii_al _ _ _ I)|].
      intros _ _. unfold al. cbn. rewrite fld_insert by (rewrite Z6; lia). case_decide; [done|apply (ii_al _ _ _ I)].
    - intros me. rewrite <- (phases_id γ) at 2. by apply side_extp.
  Qed.
  Lemma step_lock (c : core) γ me t0 x : InvI c γ → t0 < nt c → (x = LPoisoned → ¬ good_cfg cfg) →
    (∀ me', me' ≠ me → fld LFree (k_lk c) t0 ≠ LHeld me') →
    let c' := c_lk (<[t0 := x]>) c in
    InvI c' γ ∧ (∀ o, ext0 o c γ c' γ) ∧ (∀ me', me' ≠ me → extp me' c γ c' γ).
  Proof.
    intros I L0 Hs Own c'. assert (SD : sidestep c c') by (split; reflexivity).
    assert (Hlen := ii_lens _ _ _ I). destruct Hlen as (Z1 & Z2 & Z3 & Z4 & Z5 & Z6).
    split_and!.
    - rewrite <- (phases_id γ). apply (side_inv c); auto; try apply I.
      + unfold lens, nt in *. cbn. rewrite insert_length. auto 10.
      + intros t. cbn. rewrite fld_insert by (rewrite Z3; lia). case_decide; [subst; auto|apply I].
    - intros o. rewrite <- (phases_id γ) at 2. by apply side_ext0.
    - intros me' Hm. rewrite <- (phases_id γ) at 2. apply side_extp; auto. intros t. cbn. rewrite fld_insert by (rewrite Z3; lia).
      case_decide; [subst; intros X; by destruct (Own me' Hm)|auto].
  Qed.

  (** ** A new table *)
  Lemma cnt_free n : cnt (λ _, PFree) n = 0.
  Proof. induction n; cbn; [done|]. rewrite IHn. done. Qed.

  Lemma step_newtab (c : core) γ c' len b (nx' : list (option nat)) st' :
    InvI c γ → len = 2 ^ b → 3 ≤ b →
    k_sl c' = k_sl c ++ [replicate len slot0] → k_lim c' = k_lim c ++ [probe_limit len] →
    k_nx c' = nx' ++ [None] → length nx' = nt c →
    (∀ t, t < nt c → fld None nx' t = Some (S t)) →
    k_lk c' = k_lk c ++ [LFree] → k_cd c' = k_cd c ++ [0] → k_cl c' = k_cl c ++ [0] → k_st c' = k_st c ++ [st'] →
    (st' = PROMOTED → nt c = 0) → st' ≠ ABORTED →
    (k_rt c' = k_rt c ∧ 0 < nt c ∨ nt c = 0 ∧ k_rt c' = Some 0) → k_hp c' = k_hp c →
    InvI c' γ ∧ (∀ o, ext0 o c γ c' γ) ∧
    (∀ me, (∀ t, fld LFree (k_lk c) t = LHeld me → fld None nx' t = fld None (k_nx c) t) → extp me c γ c' γ).
  Proof.
    intros I Hlen Hb Esl Elim Enx Lnx Hnx Elk Ecd Ecl Est Hst Hst2 Ert Ehp.
    destruct (ii_lens _ _ _ I) as (Z1 & Z2 & Z3 & Z4 & Z5 & Z6).
    assert (NT : nt c' = S (nt c)) by (unfold nt; rewrite Esl, app_length; cbn; lia).
    assert (EN : ∀ t i, en (k_sl c') t i = en (k_sl c) t i) by (intros; rewrite Esl; apply en_app_new).
    assert (MT : ∀ t i, mt (k_sl c') t i = mt (k_sl c) t i) by (intros; rewrite Esl; apply mt_app_new).
    assert (LN : ∀ t, t < nt c → lnc c' t = lnc c t).
    { intros t H. unfold lnc. rewrite Esl, ln_app_new. rewrite decide_False; [done|]. unfold nt in H. lia. }
    assert (LNn : lnc c' (nt c) = len).
    { unfold lnc. rewrite Esl, ln_app_new. by rewrite decide_True. }
    assert (LIM : ∀ t, t < nt c → lim c' t = lim c t).
    { intros t H. unfold lim. rewrite Elim, fld_app. rewrite decide_False; [done|]. lia. }
    assert (IX : ∀ t k q, t < nt c → ix c' t k q = ix c t k q).
    { intros t k q H. unfold IncInv.ix. fold (lnc c' t) (lnc c t). by rewrite LN. }
    assert (RT : rt c' = rt c).
    { unfold rt. destruct Ert as [[-> _]|[E ->]]; [done|]. pose proof (ii_root _ _ _ I) as R. destruct (k_rt c); cbn; lia. }
    assert (RTlt : rt c' < nt c').
    { rewrite RT, NT. destruct (decide (0 < nt c)) as [H|H]; [pose proof (rt_lt _ _ _ I _ H); lia|].
      pose proof (ii_root _ _ _ I) as R. unfold rt. destruct (k_rt c); cbn; lia. }
    assert (MTe : ∀ t i, Mt c' t i ↔ Mt c t i) by (intros; unfold Mt; by rewrite MT).
    assert (HPe : ∀ t i p, Hp c' t i p ↔ Hp c t i p) by (intros; unfold Hp; by rewrite EN).
    assert (CPe : ∀ t i, CP c' t i ↔ CP c t i) by (intros; unfold CP; by rewrite EN).
    assert (CDe : ∀ t i, CD c' t i ↔ CD c t i) by (intros; unfold CD; by rewrite EN).
    assert (KYe : ∀ p, ky c' p = ky c p) by (intros; unfold ky; by rewrite Ehp).
    assert (HKe : ∀ t i k, HK c' t i k ↔ HK c t i k).
    { intros. unfold HK. setoid_rewrite KYe. setoid_rewrite HPe. done. }
    assert (HKt : ∀ t i k, HK c t i k → t < nt c) by (intros t i k (p & H & _); by eapply Hp_tab).
    assert (LVe : ∀ k p, live c' k p ↔ live c k p).
    { intros k p. unfold live. rewrite RT. setoid_rewrite KYe. setoid_rewrite HPe. setoid_rewrite MTe. setoid_rewrite CDe.
      setoid_rewrite HKe. done. }
    split_and!.
    - split; try (rewrite ?RT; apply I).
      + unfold lens. rewrite NT, Elim, Enx, Elk, Ecd, Ecl, Est, !app_length. cbn. lia.
      + destruct Ert as [[E Hpos]|[E ->]]; [|lia]. rewrite E. pose proof (ii_root _ _ _ I) as R. destruct (k_rt c); lia.
      + intros t H. rewrite Enx, fld_app, Lnx, NT. rewrite NT in H. case_decide; [by rewrite decide_False by lia|].
        rewrite decide_True by lia. apply Hnx. lia.
      + intros t H. rewrite NT in H. destruct (decide (t = nt c)) as [->|N]; [rewrite LNn; eauto|].
        rewrite LN by lia. apply I. lia.
      + intros t i. rewrite MTe, EN. apply I.
      + intros t i p k. rewrite HPe, KYe, MTe, MT. apply I.
      + intros t i p. rewrite HPe, Ehp. apply I.
      + intros t i k H. apply HKe in H. pose proof (HKt _ _ _ H). rewrite LIM by done.
        destruct (ii_place _ _ _ I t i k H) as (q & A & B & C). exists q. rewrite IX by done. split_and!; auto.
        intros q' Hq. rewrite IX, MTe by done. auto.
      + intros t i j k. rewrite !HKe. apply I.
      + intros t i p. rewrite HPe, CDe, CPe. apply I.
      + intros t i L. assert (PE : phase_ok c' γ t i ↔ phase_ok c γ t i); [unfold phase_ok; rewrite RT; destruct (g_ph γ t i); rewrite ?CPe, ?CDe; try (setoid_rewrite HPe); try (setoid_rewrite HKe); try (setoid_rewrite CDe); done|]. apply PE. clear PE.
        destruct (decide (t < nt c)) as [H|H]; [rewrite LN in L by done; by apply (ii_phase _ _ _ I)|].
        unfold phase_ok. rewrite (ii_last _ _ _ I) by lia. intros X%CP_inb. unfold lnc in X. rewrite ln_oob in X; [lia|unfold nt in H; lia].
      + intros t i A. rewrite RT in A. intros L. apply (ii_low _ _ _ I); [done|]. destruct (decide (t < nt c)) as [H|H]; [by rewrite LN in L|].
        rewrite RT, NT in RTlt. lia.
      + intros t i A. apply (ii_last _ _ _ I). lia.
      + intros t i A. rewrite NT in A. rewrite LN by lia. intros L. rewrite Ecl, fld_app, Z5. case_decide.
        * rewrite (ii_last _ _ _ I) by lia. split; [lia|done].
        * apply (ii_claim _ _ _ I); [lia|done].
      + intros t A. rewrite NT in A. rewrite LN by lia. rewrite Ecd, fld_app, Z4. case_decide.
        * rewrite (cnt_ext _ (λ _, PFree)); [by rewrite cnt_free|]. intros i _. by rewrite (ii_last _ _ _ I) by lia.
        * apply (ii_copied _ _ _ I). lia.
      + intros t t' i i' k. rewrite RT, CDe, !HKe. apply I.
      + intros t t' i' k. rewrite RT. setoid_rewrite HKe. intros A B C. pose proof (HKt _ _ _ C).
        destruct (ii_mid _ _ _ I t t' i' k A B C) as [X|X]; [left|auto]. intros q. rewrite LIM, IX, MTe by lia. apply X.
      + intros i p. rewrite RT, HPe, CDe, MTe. setoid_rewrite HPe. setoid_rewrite MTe. apply I.
      + rewrite Ehp. apply I.
      + setoid_rewrite HPe. setoid_rewrite MTe. rewrite RT. apply I.
      + setoid_rewrite HPe. setoid_rewrite MTe. rewrite RT. apply I.
      + intros t i p. rewrite HPe, MTe, RT. intros A B C. destruct (ii_nonhome _ _ _ I t i p A B C) as [?|(L2 & i0 & j & L3 & Hj)]; [auto|].
        right. split; [done|]. exists i0, j. split; [|done]. rewrite LN; [done|].
        apply Hp_tab in B. by eapply rt_lt.
      + setoid_rewrite HPe. apply I.
      + setoid_rewrite LVe. apply I.
      + setoid_rewrite KYe. apply I.
      + intros t k q n A B. rewrite RT in A. assert (t < nt c) by (rewrite RT, NT in RTlt; lia). rewrite LIM by done.
        unfold IncInv.passes, skip. setoid_rewrite MTe. setoid_rewrite HKe. rewrite IX by done. intros C D E.
        eapply (ii_stale _ _ _ I); eauto. intros q' Hq. specialize (D q' Hq). rewrite IX in D by done. done.
      + intros t. rewrite Est, fld_app, Z6, RT. case_decide; [|apply I]. intros X. specialize (Hst X).
        pose proof (ii_root _ _ _ I) as R. unfold rt. destruct (k_rt c); cbn; lia.
      + intros t. unfold al. rewrite Est, fld_app, Z6. case_decide; [done|apply (ii_al _ _ _ I)].
      + intros t. rewrite Elk, fld_app, Z3. case_decide; [done|apply I].
    - intros o. split; auto; try lia.
      + intros A. destruct Ert as [[-> _]|[_ ->]]; done.
      + intros t i. split; rewrite ?MTe, ?EN, ?CPe, ?CDe; auto. intros p k A B. left. exists p. by rewrite HPe, KYe.
      + by rewrite Ehp.
      + intros t n H L. apply lookup_lt_Some in H. lia.
      + intros n e H L. apply lookup_lt_Some in H. lia.
      + intros p h H. apply lookup_lt_Some in H. lia.
      + intros t _. apply (ii_al _ _ _ I).
      + intros t _ _. unfold al. rewrite Est, fld_app, Z6. case_decide; [done|apply (ii_al _ _ _ I)].
    - intros me Hm. split; [done|]. intros t H.
      assert (t < nt c). { destruct (decide (t < nt c)); [done|]. unfold fld in H. rewrite lookup_ge_None_2 in H; [done|lia]. }
      rewrite Elk, fld_app, Z3, decide_False by lia. split; [done|]. rewrite Enx, fld_app, Lnx, decide_False by lia. auto.
  Qed.
End steps.
