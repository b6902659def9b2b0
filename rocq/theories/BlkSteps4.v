(** Blocking mode: steps on table headers, abandoned copies, promotion, new tables. *)
From Verif Require Export BlkSteps3.

Section steps.
  Context {K V : Type} {Keq : EqDecision K} (cfg : config K).
  Notation core := (core K V). Notation ghost := (@ghost K).
  Notation InvB := (InvB cfg).
  Notation ix := (ix cfg). Notation passes := (passes cfg). Notation exhausted := (exhausted cfg).

  Definition adv (x : phase) (n i' : nat) : Prop := (∃ j, x = PInsd j n i') ∨ (∃ j, x = PDone j) ∨ x = PCnt.

  Lemma side_invB (c c' : core) γ f : sidestep c c' → InvB c γ → lens c' →
    (∀ t, al c' t ↔ al c t) →
    (∀ n i, nt c ≤ n → f n i = PFree) →
    (∀ n tb i, src c n tb → n < nt c → i < lnc c tb → (f n i = PFree ↔ fld 0 (k_cl c') n ≤ i)) →
    (∀ n, rt c < n → n < nt c → fld 0 (k_cd c') n = cnt (f n) (lnc c (rt c))) →
    (∀ n i, g_ph γ n i = PCnt → f n i = PCnt) →
    (∀ n i, rt c < n → n < nt c → al c n → i < lnc c (rt c) → phase_okB c (phases γ f) n i) →
    (∀ n i j i', g_ph γ n i = PInsd j 0 i' → f n i = PInsd j 0 i') →
    (∀ n i i', rt c < n → al c n → adv (g_ph γ n i) n i' → adv (f n i) n i') →
    (∀ t, fld PENDING (k_st c') t = PROMOTED → t ≤ rt c) →
    (∀ t, fld LFree (k_lk c') t = LPoisoned → ¬ good_cfg cfg) →
    InvB c' (phases γ f).
  Proof.
    intros [E1 E2 E3 E4 E5] I H1 Ha H2 H3 H4 H5 H6 H7 H8 H9 H10.
    assert (Sr : ∀ n tb, src c' n tb ↔ src c n tb) by (intros; unfold src; setoid_rewrite Ha; done).
    destruct c as [sl lim0 nx lk cd cl st rt0 hp], c' as [sl' lim' nx' lk' cd' cl' st' rt' hp'].
    cbn in E1, E2, E3, E4, E5. subst.
    split; try assumption; try (setoid_rewrite Ha); try (setoid_rewrite Sr).
    - apply (b_root _ _ _ I).
    - apply (b_next _ _ _ I).
    - apply (b_pow _ _ _ I).
    - apply (b_claimed _ _ _ I).
    - apply (b_meta _ _ _ I).
    - apply (b_ptr _ _ _ I).
    - apply (b_place _ _ _ I).
    - apply (b_u1 _ _ _ I).
    - apply (b_nocd _ _ _ I).
    - apply (b_low _ _ _ I).
    - apply (b_high _ _ _ I).
    - apply (b_cpnx _ _ _ I).
    - apply (b_hid _ _ _ I).
    - apply (b_alrt _ _ _ I).
    - apply H3.
    - intros n tb i A B C D. apply H5. by apply (b_done _ _ _ I n tb).
    - apply H6.
    - intros n tb A B C. destruct (b_abort _ _ _ I n tb A B C) as (i & j & i' & L & E). exists i, j, i'. split; [done|by apply H7].
    - intros n i' p A B C. destruct (b_src _ _ _ I n i' p A B C) as (i & X & Y & Z). exists i. split_and!; [done|done|]. by apply H8.
    - apply (b_gsrc _ _ _ I).
    - apply (b_publen _ _ _ I).
    - apply (b_home_upd _ _ _ I).
    - apply (b_home_le _ _ _ I).
    - apply (b_home_low _ _ _ I).
    - apply (b_home_fresh _ _ _ I).
    - apply (b_home_lin _ _ _ I).
    - apply (b_nonhome _ _ _ I).
    - apply (b_abs _ _ _ I).
    - apply (b_legal _ _ _ I).
    - apply (b_news _ _ _ I).
    - apply (b_evkey _ _ _ I).
    - apply (b_prlen _ _ _ I).
    - apply (b_prle _ _ _ I).
    - apply (b_prsort _ _ _ I).
    - apply (b_stale _ _ _ I).
    - apply (b_stale1 _ _ _ I).
    - apply (b_stale2 _ _ _ I).
  Qed.
  Lemma phase_okB_eq (c : core) γ γ' t i : g_ph γ' t i = g_ph γ t i → phase_okB c γ t i → phase_okB c γ' t i.
  Proof. unfold phase_okB. by intros ->. Qed.

  (** ** The copy of a slot is finished once its metadata is stored (no step of the program) *)
  Lemma step_doneB (c : core) γ me n tb i1 i0 : InvB c γ → n < nt c → src c n tb → i1 < lnc c tb →
    g_ph γ n i1 = PInsd me n i0 → Mt c n i0 →
    let γ' := set_ph γ n i1 (PDone me) in
    InvB c γ' ∧ (∀ o, ext0 o c γ c γ') ∧ (∀ me', me' ≠ me → extp me' c γ c γ').
  Proof.
    intros I Ln Sr L1 E1 M γ'. pose proof (src_cases _ _ _ I _ _ Sr Ln) as SC.
    assert (Nz : n ≠ 0) by (destruct Sr; lia).
    destruct (set_ph_struct γ n i1 (PDone me)) as (F1 & F2 & F3); [by rewrite E1|done|rewrite E1; congruence|]. fold γ' in F1, F2, F3.
    assert (SD : sidestep c c) by (split; reflexivity).
    assert (GE : γ' = phases γ (g_ph γ')) by done.
    split_and!.
    - rewrite GE. apply (side_invB c); auto; try apply I.
      + intros n' i L. apply F1. by apply (b_new _ _ _ I).
      + intros n' tb' i A B C. rewrite F1. by apply (b_claim _ _ _ I n' tb').
      + intros n' A B. rewrite (b_copied _ _ _ I) by done. apply cnt_ext. intros i _. by rewrite F2.
      + intros n' i. by apply F2.
      + intros n' i A1 A2 A3 A4. pose proof (b_phase _ _ _ I n' i A1 A2 A3 A4) as P.
        destruct (set_ph_cases γ n i1 (PDone me) n' i) as [(-> & -> & E)|(Ne & E)]; [|by apply (phase_okB_eq _ γ)].
        destruct SC as [[-> _]|]; [|lia]. unfold phase_okB in *. rewrite E1 in P. destruct P as [?|(P1 & _ & p & P2 & P3)]; [done|].
        cbn [g_ph phases]. fold γ' in E. rewrite E. split; [done|]. intros p' H. assert (p' = p) as -> by (unfold Hp in *; congruence). eauto.
      + intros n' i i' A B C. destruct (set_ph_cases γ n i1 (PDone me) n' i) as [(-> & -> & E)|(Ne & E)]; fold γ' in E; rewrite E; [|done].
        right. left. eauto.
    - intros o. rewrite GE. apply side_ext0; auto. intros t i H. by apply F2.
    - intros me' Nm. rewrite GE. apply side_extp; auto. intros t i H. unfold γ'. rewrite set_ph_ne; [done|]. intros [-> ->].
      rewrite E1 in H. cbn in H. congruence.
  Qed.

  (** ** Giving up the copy to a table that has no room *)
  Lemma step_abortB (c : core) γ me n tb i1 : InvB c γ → n < nt c → src c n tb → i1 < lnc c tb → g_ph γ n i1 = PMark me →
    let c' := c_st (<[n := ABORTED]>) c in
    let γ' := set_ph γ n i1 (PInsd me 0 0) in
    InvB c' γ' ∧ (∀ o, ext0 o c γ c' γ') ∧ (∀ me', me' ≠ me → extp me' c γ c' γ') ∧ ¬ al c' n.
  Proof.
    intros I Ln Sr L1 E1 c' γ'. pose proof (src_cases _ _ _ I _ _ Sr Ln) as SC.
    destruct (b_lens _ _ _ I) as (Z1 & Z2 & Z3 & Z4 & Z5 & Z6).
    assert (AL : ∀ t, al c' t ↔ al c t ∧ t ≠ n).
    { intros t. unfold al. cbn. rewrite fld_insert by (rewrite Z6; lia). case_decide; [subst; naive_solver|naive_solver]. }
    assert (Hal : al c n → tb = rt c ∧ rt c < n ∧ S n = nt c).
    { intros A. destruct SC as [[-> L]|[? L]].
      - split_and!; auto. destruct (decide (S n < nt c)) as [X|]; [|lia]. by destruct (b_hid _ _ _ I n).
      - rewrite (b_done _ _ _ I n tb i1) in E1; done. }
    assert (Nr : n ≠ rt c). { intros ->. destruct (Hal (b_alrt _ _ _ I)) as (? & ? & ?). lia. }
    assert (SRb : ∀ n' tb', src c' n' tb' → n' < nt c → src c n' tb').
    { intros n' tb' (A & B & C) L. split; [done|]. split; [by apply AL|]. intros m M1 M2 Am. destruct (decide (m = n)) as [->|Ne].
      - destruct (Hal Am) as (_ & _ & ?). lia.
      - apply (C m M1 M2). by apply AL. }
    destruct (set_ph_struct γ n i1 (PInsd me 0 0)) as (F1 & F2 & F3); [by rewrite E1|done|by rewrite E1|]. fold γ' in F1, F2, F3.
    split_and!.
    - split; try (cbn; apply I).
      + unfold lens, nt in *. cbn. rewrite insert_length. auto 10.
      + intros t i k A H. apply AL in A as [A _]. by apply (b_place _ _ _ I t i k).
      + intros t i j k A. apply AL in A as [A _]. by apply (b_u1 _ _ _ I t i j k).
      + intros t i L A. apply AL in A as [A _]. by apply (b_low _ _ _ I).
      + intros t L1' L2' A. apply AL in A as [A _]. by apply (b_hid _ _ _ I t).
      + apply AL. split; [apply I|done].
      + intros t. cbn. rewrite fld_insert by (rewrite Z6; lia). case_decide; [done|apply I].
      + intros n' i L. apply F1. by apply (b_new _ _ _ I).
      + intros n' tb' i A B C. rewrite F1. apply (b_claim _ _ _ I n' tb'); auto.
      + intros n' A B. change (k_cd c') with (k_cd c). rewrite (b_copied _ _ _ I) by done. apply cnt_ext. intros i _. by rewrite F2.
      + intros n' tb' i A B C D. apply F2. apply AL in B as [B Nn]. apply (b_done _ _ _ I n' tb'); auto.
        apply SRb; [done|]. pose proof (b_rt_lt _ _ _ I _ Ln). cbn in *. unfold rt in *. cbn in *. lia.
      + intros n' i A1 A2 A3 A4. apply AL in A3 as [A3 Nn]. pose proof (b_phase _ _ _ I n' i A1 A2 A3 A4) as P.
        apply (phase_okB_eq c γ γ'); [|done]. unfold γ'. by rewrite set_ph_ne by naive_solver.
      + intros n' tb' A B C. pose proof (SRb _ _ A B) as A'. destruct (decide (n' = n)) as [->|Nn].
        * exists i1, me, 0. unfold γ'. rewrite set_ph_eq. split; [|done]. by rewrite (src_uniq _ _ _ _ A' Sr).
        * destruct (b_abort _ _ _ I n' tb' A' B) as (i & j & i' & L & E); [intros X; apply C, AL; auto|]. exists i, j, i'. split; [done|by apply F3].
      + intros n' i' p A B C. apply AL in B as [B Nn]. destruct (b_src _ _ _ I n' i' p A B C) as (i & X & Y & Z).
        exists i. split_and!; [done|done|]. unfold γ'. rewrite set_ph_ne by naive_solver. done.
      + intros n' tb' i' p A B C. pose proof (Hp_tab _ _ _ _ C) as Ln'. pose proof (SRb _ _ A Ln') as A'.
        destruct (al_dec c n') as [X|X]; [|by apply (b_gsrc _ _ _ I n' tb' i' p)].
        assert (n' = n) as ->. { destruct (decide (n' = n)); [done|]. destruct B. by apply AL. }
        destruct (Hal X) as (E & L & _). rewrite <- (src_uniq _ _ _ _ Sr A'), E.
        destruct (b_src _ _ _ I n i' p L X C) as (i & Y1 & Y2 & _). exists i. auto.
      + intros t k q m A B. apply AL in B as [B _]. by apply (b_stale _ _ _ I t k q m).
      + intros t k m A B. apply AL in B as [B _]. by apply (b_stale1 _ _ _ I t k m).
      + intros t i p k m A B. apply AL in B as [B _]. by apply (b_stale2 _ _ _ I t i p k m).
    - intros o. replace γ' with (phases γ (g_ph γ')) by done. apply side_ext0; [split; reflexivity|intros t i H; by apply F2| |].
      + intros t A. by apply AL in A as [A _].
      + intros t L A. apply AL. split; [done|]. intros ->. destruct (Hal A) as (_ & ? & _). lia.
    - intros me' Nm. replace γ' with (phases γ (g_ph γ')) by done. apply side_extp; auto; [split; reflexivity|]. intros t i H.
      unfold γ'. rewrite set_ph_ne; [done|]. intros [-> ->]. rewrite E1 in H. cbn in H. congruence.
    - intros X. by apply AL in X as [_ X].
  Qed.

  (** ** Claiming a chunk *)
  Lemma step_claimB (c : core) γ me n0 tb w : InvB c γ → n0 < nt c → src c n0 tb →
    let s := fld 0 (k_cl c) n0 in
    let c' := c_cl (<[n0 := s + w]>) c in
    ∃ f, InvB c' (phases γ f) ∧ (∀ o, ext0 o c γ c' (phases γ f)) ∧ (∀ me', me' ≠ me → extp me' c γ c' (phases γ f)) ∧
      (∀ i, s ≤ i → i < s + w → i < lnc c tb → f n0 i = POwn me).
  Proof.
    intros I Ln Sr s c'.
    set (f := λ t i, if decide (t = n0 ∧ s ≤ i ∧ i < s + w ∧ i < lnc c tb) then POwn me else g_ph γ t i).
    assert (SD : sidestep c c') by (split; reflexivity).
    destruct (b_lens _ _ _ I) as (Z1 & Z2 & Z3 & Z4 & Z5 & Z6).
    assert (FREE : ∀ i, s ≤ i → i < lnc c tb → g_ph γ n0 i = PFree).
    { intros i A B. apply (b_claim _ _ _ I n0 tb); done. }
    assert (FE : ∀ t i, f t i = g_ph γ t i ∨ (t = n0 ∧ i < lnc c tb ∧ g_ph γ t i = PFree ∧ f t i = POwn me)).
    { intros t i. unfold f. case_decide as D; [|auto]. destruct D as (-> & A & B & C). right. split_and!; auto. }
    assert (NEQ : ∀ t i, g_ph γ t i ≠ PFree → f t i = g_ph γ t i).
    { intros t i N. destruct (FE t i) as [?|(_ & _ & ? & _)]; done. }
    exists f. split_and!.
    - apply (side_invB c); auto; try (cbn; apply I).
      + unfold lens, nt in *. cbn. rewrite insert_length. auto 10.
      + intros n i L. unfold f. rewrite decide_False by lia. by apply (b_new _ _ _ I).
      + intros n tb' i A B C. cbn. rewrite fld_insert by (rewrite Z5; lia). case_decide as D.
        * subst n. rewrite (src_uniq _ _ _ _ A Sr) in *. unfold f. case_decide as D2; [split; [done|lia]|].
          rewrite (b_claim _ _ _ I n0 tb) by done. fold s. lia.
        * unfold f. rewrite decide_False by naive_solver. by apply (b_claim _ _ _ I n tb').
      + intros n A B. cbn. rewrite (b_copied _ _ _ I) by done. apply cnt_ext. intros i Hi.
        destruct (FE n i) as [->|(_ & _ & -> & ->)]; done.
      + intros n i H. rewrite NEQ; congruence.
      + intros n i A1 A2 A3 A4. pose proof (b_phase _ _ _ I n i A1 A2 A3 A4) as P. destruct (FE n i) as [E|(_ & _ & E1 & E2)].
        * by apply (phase_okB_eq _ γ).
        * unfold phase_okB in *. cbn. by rewrite E2.
      + intros n i j i' H. rewrite NEQ; congruence.
      + intros n i i' A B C. rewrite NEQ; [done|]. intros X. rewrite X in C. destruct C as [(?&?)|[(?&?)|?]]; congruence.
    - intros o. apply side_ext0; [done| |done|done]. intros t i E. rewrite NEQ; congruence.
    - intros me' Hm. apply side_extp; auto. intros t i E. apply NEQ. intros X. by rewrite X in E.
    - intros i A B C. unfold f. by rewrite decide_True.
  Qed.

  (** ** Counting finished slots *)
  Lemma step_countB (c : core) γ me n0 tb a w : InvB c γ → n0 < nt c → src c n0 tb → a + w ≤ lnc c tb →
    (∀ i, a ≤ i → i < a + w → g_ph γ n0 i = PDone me) →
    let s := fld 0 (k_cd c) n0 in
    let c' := c_cd (<[n0 := s + w]>) c in
    ∃ f, InvB c' (phases γ f) ∧ (∀ o, ext0 o c γ c' (phases γ f)) ∧ (∀ me', me' ≠ me → extp me' c γ c' (phases γ f)) ∧
      (rt c < n0 → s + w = cnt (f n0) (lnc c tb)).
  Proof.
    intros I Ln Sr Ll Own s c'. pose proof (src_cases _ _ _ I _ _ Sr Ln) as SC.
    set (f := λ t i, if decide (t = n0 ∧ a ≤ i ∧ i < a + w) then PCnt else g_ph γ t i).
    assert (SD : sidestep c c') by (split; reflexivity).
    destruct (b_lens _ _ _ I) as (Z1 & Z2 & Z3 & Z4 & Z5 & Z6).
    assert (FE : ∀ t i, f t i = g_ph γ t i ∨ (t = n0 ∧ a ≤ i ∧ i < a + w ∧ g_ph γ t i = PDone me ∧ f t i = PCnt)).
    { intros t i. unfold f. case_decide as D; [|auto]. destruct D as (-> & A & B). right. split_and!; auto. }
    assert (NEQ : ∀ t i, g_ph γ t i ≠ PDone me → f t i = g_ph γ t i).
    { intros t i N. destruct (FE t i) as [?|(_&_&_&?&_)]; done. }
    assert (CNT : rt c < n0 → s + w = cnt (f n0) (lnc c tb)).
    { intros L. destruct SC as [[-> _]|]; [|lia]. rewrite (cnt_range (g_ph γ n0) (f n0) a w).
      - unfold s. by rewrite (b_copied _ _ _ I).
      - done.
      - intros i A B. rewrite Own by done. unfold f. by rewrite decide_True.
      - intros i A B. unfold f. by rewrite decide_False by naive_solver. }
    exists f. split_and!; [| | |done].
    - apply (side_invB c); auto; try (cbn; apply I).
      + unfold lens, nt in *. cbn. rewrite insert_length. auto 10.
      + intros n i L. unfold f. rewrite decide_False by lia. by apply (b_new _ _ _ I).
      + intros n tb' i A B C. cbn. rewrite <- (b_claim _ _ _ I n tb') by done. destruct (FE n i) as [->|(_ & _ & _ & -> & ->)]; done.
      + intros n A B. cbn. rewrite fld_insert by (rewrite Z4; lia). case_decide as D.
        * subst n. destruct SC as [[-> _]|]; [|lia]. by apply CNT.
        * rewrite (b_copied _ _ _ I) by done. apply cnt_ext. intros i Hi. unfold f. by rewrite decide_False by naive_solver.
      + intros n i H. rewrite NEQ; congruence.
      + intros n i A1 A2 A3 A4. pose proof (b_phase _ _ _ I n i A1 A2 A3 A4) as P. destruct (FE n i) as [E|(_ & _ & _ & E1 & E2)].
        * by apply (phase_okB_eq _ γ).
        * unfold phase_okB in *. cbn. rewrite E2. by rewrite E1 in P.
      + intros n i j i' H. rewrite NEQ; congruence.
      + intros n i i' A B C. destruct (FE n i) as [->|(_ & _ & _ & _ & ->)]; [done|]. right. right. done.
    - intros o. apply side_ext0; [done| |done|done]. intros t i E. rewrite NEQ; congruence.
    - intros me' Hm. apply side_extp; auto. intros t i E. apply NEQ. intros X. rewrite X in E. cbn in E. congruence.
  Qed.

  (** ** Status and lock words *)
  Lemma step_statusB (c : core) γ t0 : InvB c γ → t0 ≤ rt c → al c t0 →
    let c' := c_st (<[t0 := PROMOTED]>) c in
    InvB c' γ ∧ (∀ o, ext0 o c γ c' γ) ∧ (∀ me, extp me c γ c' γ).
  Proof.
    intros I L0 A0 c'. assert (SD : sidestep c c') by (split; reflexivity).
    destruct (b_lens _ _ _ I) as (Z1 & Z2 & Z3 & Z4 & Z5 & Z6).
    assert (AL : ∀ t, al c' t ↔ al c t).
    { intros t. unfold al. cbn. destruct (decide (t0 < nt c)) as [L|L].
      - rewrite fld_insert by (rewrite Z6; lia). case_decide; [subst; naive_solver|done].
      - by rewrite list_insert_ge by (rewrite Z6; lia). }
    split_and!.
    - rewrite <- (phases_id γ). apply (side_invB c); auto; try apply I.
      + unfold lens, nt in *. cbn. rewrite insert_length. auto 10.
      + intros t. cbn. destruct (decide (t0 < nt c)) as [L|L].
        * rewrite fld_insert by (rewrite Z6; lia). case_decide; [subst; auto|apply I].
        * rewrite list_insert_ge by (rewrite Z6; lia). apply I.
    - intros o. rewrite <- (phases_id γ) at 2. apply side_ext0; auto; intros t; [by rewrite AL|by rewrite AL].
    - intros me. rewrite <- (phases_id γ) at 2. by apply side_extp.
  Qed.
  Lemma step_lockB (c : core) γ me t0 x : InvB c γ → t0 < nt c → (x = LPoisoned → ¬ good_cfg cfg) →
    (∀ me', me' ≠ me → fld LFree (k_lk c) t0 ≠ LHeld me') →
    let c' := c_lk (<[t0 := x]>) c in
    InvB c' γ ∧ (∀ o, ext0 o c γ c' γ) ∧ (∀ me', me' ≠ me → extp me' c γ c' γ).
  Proof.
    intros I L0 Hs Own c'. assert (SD : sidestep c c') by (split; reflexivity).
    destruct (b_lens _ _ _ I) as (Z1 & Z2 & Z3 & Z4 & Z5 & Z6).
    split_and!.
    - rewrite <- (phases_id γ). apply (side_invB c); auto; try apply I.
      + unfold lens, nt in *. cbn. rewrite insert_length. auto 10.
      + intros t. cbn. rewrite fld_insert by (rewrite Z3; lia). case_decide; [subst; auto|apply I].
    - intros o. rewrite <- (phases_id γ) at 2. by apply side_ext0.
    - intros me' Hm. rewrite <- (phases_id γ) at 2. apply side_extp; auto. intros t. cbn. rewrite fld_insert by (rewrite Z3; lia).
      case_decide; [subst; intros X; by destruct (Own me' Hm)|auto].
  Qed.

  (** ** Promotion of the copy target *)
  Lemma step_promoteB (c : core) γ tb n : InvB c γ → k_rt c = Some tb → src c n tb → n < nt c →
    (∀ i, i < lnc c tb → g_ph γ n i = PCnt) →
    let c' := c_rt (Some n) c in
    let γ' := Gh (g_log γ ++ pevs c γ (lnc c tb)) (g_pub γ) (g_ph γ) (g_pr γ ++ replicate (n - tb) (length (g_log γ))) in
    InvB c' γ' ∧ (∀ o, ext0 o c γ c' γ') ∧ (∀ me, extp me c γ c' γ') ∧ al c n.
  Proof.
    intros I Rt Sr Ln Cn c' γ'. pose proof (b_peok _ _ _ I) as PK.
    assert (R0 : rt c = tb) by (unfold rt; by rewrite Rt).
    assert (R1 : rt c' = n) by done.
    assert (Lt : tb < n) by apply Sr.
    assert (An : al c n).
    { destruct (al_dec c n) as [|X]; [done|]. destruct (b_abort _ _ _ I n tb) as (i & j & i' & L & E); [done|done|done|].
      rewrite Cn in E by done. done. }
    assert (Sn : S n = nt c). { destruct (decide (S n < nt c)) as [X|]; [|lia]. destruct (b_hid _ _ _ I n); auto. lia. }
    set (N := lnc c tb) in *.
    assert (FSi : ∀ i p k o, fs c γ i p k o → i < N).
    { intros i p k o (H & _). unfold N. rewrite <- R0. by eapply Hp_inb. }
    assert (PHd : ∀ i, i < N → CP c tb i ∧ ∀ p, Hp c tb i p → ∃ i', Hp c n i' p ∧ Mt c n i').
    { intros i L. pose proof (b_phase _ _ _ I n i) as P. unfold phase_okB in P. rewrite R0, Cn in P by done. apply P; auto. }
    assert (BACK : ∀ i' p, Hp c n i' p → ∃ i, Hp c tb i p ∧ i < N).
    { intros i' p H. destruct (b_src _ _ _ I n i' p) as (i & A & _); [lia|done|done|]. rewrite R0 in A. exists i. split; [done|]. by eapply Hp_inb. }
    assert (MtN : ∀ i' p, Hp c n i' p → Mt c n i').
    { intros i' p H. destruct (BACK _ _ H) as (i & A & L). destruct (PHd i L) as [_ X]. destruct (X p A) as (i2 & B & M).
      destruct (bHK_get _ _ _ I _ _ _ H) as [k Hk]. rewrite (b_u1 _ _ _ I n i' i2 k An); [done|exists p; auto|exists p; auto]. }
    assert (linM : ∀ p, lin (g_log γ) p → lin (g_log γ') p) by (intros p H; apply lin_app; auto).
    assert (REP : ∀ k p, replay (g_log γ') k = Some p ↔ ∃ i, Hp c tb i p ∧ ky c p = Some k).
    { intros k p. cbn. destruct (fs_dec _ _ PK k N) as [(i & q & o & Li & F)|NF].
      - rewrite (pevs_replay_yes _ _ PK N i q k o Li F). destruct F as (F1 & F2 & F3 & F4). rewrite R0 in F1. split.
        + intros [= <-]. eauto.
        + intros (i' & A & B). assert (i' = i) as ->. { apply (b_u1 _ _ _ I tb i' i k); [apply Sr|exists p; auto|exists q; auto]. }
          unfold Hp in *. congruence.
      - rewrite (pevs_replay_no _ _ PK); [|exact NF]. rewrite (b_abs _ _ _ I k p), R0. split; intros (i & A & B); [naive_solver|].
        exists i. split_and!; auto. destruct (Mt_dec c tb i) as [|M]; [done|]. exfalso. rewrite <- R0 in A, M.
        destruct (fs_get _ _ PK _ _ A M) as (k' & o & F). assert (k' = k) as -> by (destruct F as (_ & _ & ? & _); congruence).
        apply (NF i p o); [by eapply FSi|done]. }
    assert (SL : ∀ t i, slot_ext c γ c' γ' t i).
    { intros t i. split; auto. intros p k A B. left. exists p. auto. }
    assert (PRc : ∀ t m, g_pr γ' !! t = Some m → (g_pr γ !! t = Some m ∧ t < tb) ∨ (tb ≤ t ∧ t < n ∧ m = length (g_log γ))).
    { intros t m H. cbn in H. pose proof (b_prlen _ _ _ I) as PL. rewrite R0 in PL. apply lookup_app_Some in H as [H|[L H]].
      - left. split; [done|]. apply lookup_lt_Some in H. lia.
      - right. apply lookup_replicate in H as [-> X]. lia. }
    assert (AlT : ∀ t, tb < t → t < n → ¬ al c t) by apply Sr.
    split_and!.
    - split; rewrite ?R1; try apply I.
      + exact Ln.
      + intros t i A B C. destruct (decide (t = tb)) as [->|]; [by apply PHd|].
        apply (b_low _ _ _ I); auto. destruct (decide (t < tb)); [lia|]. destruct (AlT t); auto; lia.
      + intros t i A. apply (b_high _ _ _ I). lia.
      + intros t A B. unfold nt in *. cbn in *. lia.
      + done.
      + intros t H. pose proof (b_status _ _ _ I t H). lia.
      + intros n' A B. unfold nt in *. cbn in *. lia.
      + intros n' tb' i A B C D. destruct (decide (n' = n)) as [->|].
        * assert (tb' = tb) as -> by (by eapply (src_uniq c)). by apply Cn.
        * apply (b_done _ _ _ I n' tb'); auto. destruct (decide (n' ≤ tb)); [lia|]. destruct (AlT n'); auto; lia.
      + intros n' i A B. unfold nt in *. cbn in *. lia.
      + intros n' i' p A B C. apply Hp_tab in C. unfold nt in *. cbn in *. lia.
      + intros p o H. apply linM. by eapply (b_home_upd _ _ _ I).
      + intros p o t i H. pose proof (b_home_le _ _ _ I p o t i H). lia.
      + intros p o t i H L. pose proof (b_home_le _ _ _ I p o t i H) as Ht.
        destruct (decide (t = tb)) as [->|]; [|apply linM; eapply (b_home_low _ _ _ I); eauto; lia]. rewrite <- R0 in H.
        destruct (b_home_lin _ _ _ I _ _ _ H) as [?|[H1 H2]]; [auto|].
        apply (pevs_lin _ _ PK). right.
        destruct (fs_get _ _ PK _ _ H1 H2) as (k & o' & F). exists i, k, o'. split; [by eapply FSi|done].
      + intros p o i H. pose proof (b_home_le _ _ _ I p o n i H). lia.
      + intros p o i H. pose proof (b_home_le _ _ _ I p o n i H). lia.
      + intros i p H M. destruct M. by eapply MtN.
      + intros k p. rewrite REP. split.
        * intros (i & A & B). destruct (PHd i) as [_ X]; [by eapply Hp_inb|]. destruct (X p A) as (i' & Y & Z). exists i'. auto.
        * intros (i & A & B & _). destruct (BACK _ _ A) as (i' & X & _). eauto.
      + apply (pevs_legal _ _ PK).
      + apply (pevs_news _ _ PK).
      + intros e p H1 H2. apply elem_of_app in H1 as [H1|H1]; [by apply (b_evkey _ _ _ I)|].
        destruct (pevs_in _ _ PK _ _ H1) as (i & q & k & o & L & (F1 & F2 & F3 & F4) & ->). cbn in *. simplify_eq. eauto.
      + cbn. rewrite app_length, (b_prlen _ _ _ I), replicate_length. lia.
      + intros t m H. cbn [g_log γ']. rewrite app_length. apply PRc in H as [[H _]|(_ & _ & ->)]; [|lia].
        pose proof (b_prle _ _ _ I _ _ H). lia.
      + intros t m m' H H'. apply PRc in H as [[H ?]|(? & _ & ->)]; apply PRc in H' as [[H' ?]|(? & _ & ->)]; try lia.
        * eapply (b_prsort _ _ _ I); eauto.
        * by eapply (b_prle _ _ _ I).
      + intros t k q m A B H C D E. apply PRc in H as [[H X]|(X & Y & ->)]; cbn.
        * rewrite rp_app by (by eapply (b_prle _ _ _ I)). eapply (b_stale _ _ _ I t k q); eauto. lia.
        * rewrite rp_app, rp_all by lia. destruct (decide (t = tb)) as [->|]; [|destruct (AlT t); auto; lia].
          rewrite <- R0 in C, D, E. by eapply (b_absent_empty _ _ _ I k q).
      + intros t k m A B H C. apply PRc in H as [[H X]|(X & Y & ->)]; cbn.
        * rewrite rp_app by (by eapply (b_prle _ _ _ I)). eapply (b_stale1 _ _ _ I t k); eauto. lia.
        * rewrite rp_app, rp_all by lia. destruct (decide (t = tb)) as [->|]; [|destruct (AlT t); auto; lia].
          rewrite <- R0 in C. by eapply (b_absent_nohk _ _ _ I k).
      + intros t i p k m A B H C D. apply PRc in H as [[H X]|(X & Y & ->)]; cbn.
        * destruct (b_stale2 _ _ _ I t i p k m) as (m' & Z1 & Z2 & Z3); auto; [lia|]. exists m'. rewrite app_length. split_and!; [done|lia|].
          by rewrite rp_app.
        * destruct (decide (t = tb)) as [->|]; [|destruct (AlT t); auto; lia].
          exists (length (g_log γ')). cbn [g_log γ']. rewrite app_length. split_and!; [lia|lia|].
          rewrite rp_all by (rewrite app_length; lia). apply REP. eauto.
    - intros o. split; auto; cbn.
      + lia.
      + by eexists.
      + by eexists.
      + intros t m H L. apply PRc in H as [[H X]|(_ & _ & ->)]; [apply lookup_lt_Some in H|]; lia.
      + intros m e H L Eo. rewrite lookup_app_r in H by lia.
        apply elem_of_list_lookup_2 in H. destruct (pevs_in _ _ PK _ _ H) as (i & q & k & o' & L2 & F & ->). cbn in *. subst.
        exists q, (Some (rt c, i)). split_and!; [done|apply F|by eapply (fs_nolin _ _ PK)].
      + intros p h H. by apply lookup_lt_Some in H.
    - intros me. split; auto.
    - done.
  Qed.

  (** ** A new table *)
  Lemma step_newtabB (c : core) γ c' len b (nx' : list (option nat)) st' :
    InvB c γ → len = 2 ^ b → 3 ≤ b →
    k_sl c' = k_sl c ++ [replicate len slot0] → k_lim c' = k_lim c ++ [probe_limit len] →
    k_nx c' = nx' ++ [None] → length nx' = nt c →
    (∀ t, t < nt c → fld None nx' t = Some (S t)) →
    k_lk c' = k_lk c ++ [LFree] → k_cd c' = k_cd c ++ [0] → k_cl c' = k_cl c ++ [0] → k_st c' = k_st c ++ [st'] →
    (st' = PROMOTED → nt c = 0) → st' ≠ ABORTED →
    (k_rt c' = k_rt c ∧ 0 < nt c ∨ nt c = 0 ∧ k_rt c' = Some 0) → k_hp c' = k_hp c →
    (∀ t, S t = nt c → t = rt c ∨ ¬ al c t) →
    InvB c' γ ∧ (∀ o, ext0 o c γ c' γ) ∧
    (∀ me, (∀ t, fld LFree (k_lk c) t = LHeld me → fld None nx' t = fld None (k_nx c) t) → extp me c γ c' γ).
  Proof.
    intros I Hlen Hb Esl Elim Enx Lnx Hnx Elk Ecd Ecl Est Hst Hst2 Ert Ehp Hlast.
    destruct (b_lens _ _ _ I) as (Z1 & Z2 & Z3 & Z4 & Z5 & Z6).
    assert (NT : nt c' = S (nt c)) by (unfold nt; rewrite Esl, app_length; cbn; lia).
    assert (EN : ∀ t i, en (k_sl c') t i = en (k_sl c) t i) by (intros; rewrite Esl; apply en_app_new).
    assert (MT : ∀ t i, mt (k_sl c') t i = mt (k_sl c) t i) by (intros; rewrite Esl; apply mt_app_new).
    assert (LN : ∀ t, t < nt c → lnc c' t = lnc c t).
    { intros t H. unfold lnc. rewrite Esl, ln_app_new. rewrite decide_False; [done|]. unfold nt in H. lia. }
    assert (LNn : lnc c' (nt c) = len).
    { unfold lnc. rewrite Esl, ln_app_new. by rewrite decide_True. }
    assert (LIM : ∀ t, t < nt c → lim c' t = lim c t).
    { intros t H. unfold lim. rewrite Elim, fld_app. rewrite decide_False; [done|]. lia. }
    assert (IX : ∀ t k q, t < nt c → ix c' t k q = ix c t k q).
    { intros t k q H. unfold IncInv.ix. fold (lnc c' t) (lnc c t). by rewrite LN. }
    assert (RT : rt c' = rt c).
    { unfold rt. destruct Ert as [[-> _]|[E ->]]; [done|]. pose proof (b_root _ _ _ I) as R. destruct (k_rt c); cbn; lia. }
    assert (RTlt : rt c' < nt c').
    { rewrite RT, NT. destruct (decide (0 < nt c)) as [H|H]; [pose proof (b_rt_lt _ _ _ I _ H); lia|].
      pose proof (b_root _ _ _ I) as R. unfold rt. destruct (k_rt c); cbn; lia. }
    assert (MTe : ∀ t i, Mt c' t i ↔ Mt c t i) by (intros; unfold Mt; by rewrite MT).
    assert (HPe : ∀ t i p, Hp c' t i p ↔ Hp c t i p) by (intros; unfold Hp; by rewrite EN).
    assert (CPe : ∀ t i, CP c' t i ↔ CP c t i) by (intros; unfold CP; by rewrite EN).
    assert (CDe : ∀ t i, CD c' t i ↔ CD c t i) by (intros; unfold CD; by rewrite EN).
    assert (KYe : ∀ p, ky c' p = ky c p) by (intros; unfold ky; by rewrite Ehp).
    assert (HKe : ∀ t i k, HK c' t i k ↔ HK c t i k).
    { intros. unfold HK. setoid_rewrite KYe. setoid_rewrite HPe. done. }
    assert (HKt : ∀ t i k, HK c t i k → t < nt c) by (intros t i k (p & H & _); by eapply Hp_tab).
    assert (ALe : ∀ t, al c' t ↔ al c t).
    { intros t. unfold al. rewrite Est, fld_app, Z6. case_decide; [|done]. subst t. unfold fld at 1. rewrite lookup_ge_None_2 by lia. done. }
    assert (SRe : ∀ n tb, src c' n tb ↔ src c n tb) by (intros; unfold src; setoid_rewrite ALe; done).
    split_and!.
    - split; rewrite ?RT; try apply I.
      + unfold lens. rewrite NT, Elim, Enx, Elk, Ecd, Ecl, Est, !app_length. cbn. lia.
      + destruct Ert as [[E Hpos]|[E ->]]; [|lia]. rewrite E. pose proof (b_root _ _ _ I) as R. destruct (k_rt c); lia.
      + intros t H. rewrite Enx, fld_app, Lnx, NT. rewrite NT in H. case_decide; [by rewrite decide_False by lia|].
        rewrite decide_True by lia. apply Hnx. lia.
      + intros t H. rewrite NT in H. destruct (decide (t = nt c)) as [->|N]; [rewrite LNn; eauto|].
        rewrite LN by lia. apply I. lia.
      + intros t i. rewrite MTe, EN. apply I.
      + intros t i p k. rewrite HPe, KYe, MTe, MT. apply I.
      + intros t i p. rewrite HPe, Ehp. apply I.
      + intros t i k A H. rewrite ALe in A. apply HKe in H. pose proof (HKt _ _ _ H). rewrite LIM by done.
        destruct (b_place _ _ _ I t i k A H) as (q & A1 & B & C). exists q. rewrite IX by done. split_and!; auto.
        intros q' Hq. rewrite IX, MTe by done. auto.
      + intros t i j k. rewrite !HKe, ALe. apply I.
      + intros t i p. rewrite HPe, CDe. apply I.
      + intros t i L A Li. rewrite ALe in A. rewrite CPe. apply (b_low _ _ _ I); auto. rewrite LN in Li; [done|]. rewrite RT, NT in RTlt. lia.
      + intros t i. rewrite CPe. apply I.
      + intros t i. rewrite CPe, NT. intros X. pose proof (b_cpnx _ _ _ I _ _ X). lia.
      + intros t A B. rewrite NT in B. rewrite ALe. destruct (decide (S t < nt c)) as [X|X]; [by apply (b_hid _ _ _ I)|].
        destruct (Hlast t) as [->|]; [lia|lia|done].
      + by rewrite ALe; apply (b_alrt _ _ _ I).
      + intros t. rewrite Est, fld_app, Z6. case_decide; [|apply I]. intros X. specialize (Hst X). lia.
      + intros n i A. rewrite NT in A. apply (b_new _ _ _ I). lia.
      + intros n tb i A B. rewrite SRe in A. rewrite NT in B. assert (tb < n) by apply A. rewrite LN by lia. intros L.
        rewrite Ecl, fld_app, Z5. case_decide.
        * rewrite (b_new _ _ _ I) by lia. split; [lia|done].
        * apply (b_claim _ _ _ I n tb); auto. lia.
      + intros n A B. rewrite NT in B. rewrite LN by lia. rewrite Ecd, fld_app, Z4. case_decide.
        * rewrite (cnt_ext _ (λ _, PFree)); [by rewrite cnt_free|]. intros i _. by rewrite (b_new _ _ _ I) by lia.
        * apply (b_copied _ _ _ I); lia.
      + intros n tb i A B C. rewrite SRe in A. rewrite ALe in B. assert (tb < n) by apply A. rewrite RT, NT in RTlt. rewrite LN by lia.
        by apply (b_done _ _ _ I n tb).
      + intros n i A B C. rewrite NT in B. rewrite ALe in C. rewrite LN by lia. intros L.
        assert (PE : phase_okB c' γ n i ↔ phase_okB c γ n i).
        { unfold phase_okB. rewrite RT. destruct (g_ph γ n i); rewrite ?CPe; try (setoid_rewrite HPe); try (setoid_rewrite MTe); done. }
        apply PE. destruct (decide (n < nt c)); [by apply (b_phase _ _ _ I)|].
        unfold phase_okB. by rewrite (b_new _ _ _ I) by lia.
      + intros n tb A B C. rewrite SRe in A. rewrite NT in B. rewrite ALe in C. assert (tb < n) by apply A. rewrite LN by lia.
        apply (b_abort _ _ _ I); auto. destruct (decide (n < nt c)); [done|]. destruct C. unfold al, fld. rewrite lookup_ge_None_2 by lia. done.
      + intros n i' p A B. rewrite ALe in B. rewrite HPe. setoid_rewrite HPe. setoid_rewrite CPe. by apply (b_src _ _ _ I).
      + intros n tb i' p. rewrite SRe, ALe, HPe. setoid_rewrite HPe. setoid_rewrite CPe. apply (b_gsrc _ _ _ I).
      + rewrite Ehp. apply I.
      + setoid_rewrite HPe. setoid_rewrite MTe. apply I.
      + setoid_rewrite HPe. setoid_rewrite MTe. apply I.
      + setoid_rewrite HPe. setoid_rewrite MTe. apply I.
      + setoid_rewrite HPe. setoid_rewrite MTe. setoid_rewrite KYe. apply I.
      + setoid_rewrite KYe. apply I.
      + intros t k q n A B C. rewrite ALe in B. assert (t < nt c) by (rewrite RT, NT in RTlt; lia). rewrite LIM by done.
        unfold IncInv.passes, skip. setoid_rewrite MTe. setoid_rewrite HKe. rewrite IX by done. intros C' D E.
        eapply (b_stale _ _ _ I); eauto. intros q' Hq. specialize (D q' Hq). rewrite IX in D by done. done.
      + intros t k n. rewrite ALe. setoid_rewrite HKe. apply I.
      + intros t i p k n. rewrite ALe, HPe, KYe. apply I.
      + intros t. rewrite Elk, fld_app, Z3. case_decide; [done|apply I].
    - intros o. split; auto; try lia.
      + intros A. destruct Ert as [[-> _]|[_ ->]]; done.
      + intros t i. split; rewrite ?MTe, ?EN, ?CPe, ?CDe; auto. intros p k A B. left. exists p. by rewrite HPe, KYe.
      + by rewrite Ehp.
      + intros t n H L. apply lookup_lt_Some in H. lia.
      + intros n e H L. apply lookup_lt_Some in H. lia.
      + intros p h H. apply lookup_lt_Some in H. lia.
      + intros t. by rewrite ALe.
      + intros t _. by rewrite ALe.
    - intros me Hm. split; [done|]. intros t H.
      assert (t < nt c). { destruct (decide (t < nt c)); [done|]. unfold fld in H. rewrite lookup_ge_None_2 in H; [done|lia]. }
      rewrite Elk, fld_app, Z3, decide_False by lia. split; [done|]. rewrite Enx, fld_app, Lnx, decide_False by lia. auto.
  Qed.
End steps.
