(** Invariant and rely of the map in incremental resize mode. *)
From Verif Require Export Log Model.

(** Progress of the copy of a slot: unclaimed; claimed by thread [j]; marked COPYING by [j]; inserted
    by [j] in the target slot; finished by [j]; finished and counted. *)
Inductive phase := PFree | POwn (j : nat) | PMark (j : nat) | PInsd (j t i : nat) | PDone (j : nat) | PCnt.
Global Instance phase_eq_dec : EqDecision phase.
Proof. solve_decision. Defined.
Definition ph_owner (x : phase) : option nat :=
  match x with POwn j | PMark j | PInsd j _ _ | PDone j => Some j | PFree | PCnt => None end.

(** Number of counted slots among the first [n]. *)
Fixpoint cnt (f : nat → phase) (n : nat) : nat :=
  match n with 0 => 0 | S n => cnt f n + (if decide (f n = PCnt) then 1 else 0) end.
Lemma cnt_le f n : cnt f n ≤ n.
Proof. induction n; cbn; [lia|]. case_decide; lia. Qed.
Lemma cnt_full f n : cnt f n = n → ∀ i, i < n → f i = PCnt.
Proof.
  induction n as [|n IH]; cbn; intros H i Hi; [lia|]. pose proof (cnt_le f n). case_decide; [|lia].
  destruct (decide (i = n)); [subst; done|]. apply IH; lia.
Qed.
Lemma cnt_full_2 f n : (∀ i, i < n → f i = PCnt) → cnt f n = n.
Proof.
  induction n as [|n IH]; cbn; intros H; [lia|]. rewrite IH by (intros; apply H; lia).
  rewrite decide_True by (apply H; lia). lia.
Qed.
Lemma cnt_ext f g n : (∀ i, i < n → f i = PCnt ↔ g i = PCnt) → cnt f n = cnt g n.
Proof.
  induction n as [|n IH]; cbn; intros H; [lia|]. rewrite IH by (intros; apply H; lia).
  f_equal. destruct (decide (f n = PCnt)), (decide (g n = PCnt)); try reflexivity; specialize (H n); naive_solver.
Qed.

Section inv.
  Context {K V : Type} {Keq : EqDecision K} (cfg : config K).
  Notation core := (core K V). Notation event := (event K).

  (** Ghost state: log of writes; for every published entry, the operation that published it and the slot where
      an insertion put it; copy phases; for every superseded table, the length of the log when it was superseded. *)
  Record ghost := Gh {
    g_log : list event;
    g_pub : list (nat * option (nat * nat));
    g_ph : nat → nat → phase;
    g_pr : list nat }.

  Definition rt (c : core) : nat := default 0 (k_rt c).
  Definition Hp (c : core) t i p : Prop := e_ptr (en (k_sl c) t i) = Some p.
  Definition Mt (c : core) t i : Prop := mt (k_sl c) t i ≠ EMPTY.
  Definition CP (c : core) t i : Prop := e_copying (en (k_sl c) t i) = true.
  Definition CD (c : core) t i : Prop := e_copied (en (k_sl c) t i) = true.
  Definition ky (c : core) p : option K := fst <$> (k_hp c !! p).
  Definition HK (c : core) t i k : Prop := ∃ p, Hp c t i p ∧ ky c p = Some k.
  Definition lim (c : core) t : nat := fld 0 (k_lim c) t.
  Definition ix (c : core) t k q : nat := probe_idx (c_hash cfg k) (ln (k_sl c) t - 1) q.
  Definition lnc (c : core) t : nat := ln (k_sl c) t.
  (** The copy into table [t] was not given up. *)
  Definition al (c : core) t : Prop := fld PENDING (k_st c) t ≠ ABORTED.

  (** Slot [i] of [t] is used and does not (and never will) hold [k]. *)
  Definition skip (c : core) t i k : Prop := Mt c t i ∧ ¬ HK c t i k.
  Definition passes (c : core) t k q : Prop := ∀ q', q' < q → skip c t (ix c t k q') k.
  Definition exhausted (c : core) t k : Prop := passes c t k (S (lim c t)).
  (** A probe for [k] moved on from table [t] to the next table. *)
  Definition pass (c : core) t k : Prop :=
    exhausted c t k ∨ ∃ i, HK c t i k ∧ CD c t i ∧ Mt c t i.
  Definition exhM (c : core) t k : Prop := ∀ q, q ≤ lim c t → Mt c t (ix c t k q).

  (** The entry of [k] as a reader starting at the root would find it. *)
  Definition live (c : core) k p : Prop :=
    ∃ t i, rt c ≤ t ∧ Hp c t i p ∧ ky c p = Some k ∧ Mt c t i ∧ ¬ CD c t i ∧
      (t = rt c ∨ ∀ j, HK c (rt c) j k → CD c (rt c) j ∧ Mt c (rt c) j).

  Definition phase_ok (c : core) (γ : ghost) t i : Prop :=
    match g_ph γ t i with
    | PFree | POwn _ => ¬ CP c t i
    | PMark _ => CP c t i ∧ t = rt c ∧ (∀ p, Hp c t i p → ¬ CD c t i) ∧
                 (∀ k t' i', HK c t i k → t < t' → ¬ HK c t' i' k)
    | PInsd _ t' i' => CP c t i ∧ t = rt c ∧ t < t' ∧ ¬ CD c t i ∧ ∃ p, Hp c t i p ∧ Hp c t' i' p
    | PDone _ | PCnt => CP c t i ∧ (∀ p, Hp c t i p → CD c t i)
    end.

  Definition good_cfg : Prop :=
    is_pow2 (c_initial cfg) = true ∨ c_initial cfg < 5.

  Record InvI (c : core) (γ : ghost) : Prop := MkInv {
    ii_lens : lens c;
    ii_root : match k_rt c with None => nt c = 0 | Some r => r < nt c end;
    ii_next : ∀ t, t < nt c → fld None (k_nx c) t = if decide (S t < nt c) then Some (S t) else None;
    ii_pow : ∀ t, t < nt c → ∃ b, 3 ≤ b ∧ lnc c t = 2 ^ b;
    ii_claimed : ∀ t i, Mt c t i → en (k_sl c) t i ≠ NULLW;
    ii_meta : ∀ t i p k, Hp c t i p → ky c p = Some k → Mt c t i → mt (k_sl c) t i = h2_of cfg k;
    ii_ptr : ∀ t i p, Hp c t i p → p < length (k_hp c);
    ii_place : ∀ t i k, HK c t i k → ∃ q, q ≤ lim c t ∧ ix c t k q = i ∧ ∀ q', q' < q → Mt c t (ix c t k q');
    ii_u1 : ∀ t i j k, HK c t i k → HK c t j k → i = j;
    ii_cdcp : ∀ t i p, Hp c t i p → CD c t i → CP c t i;
    ii_phase : ∀ t i, i < lnc c t → phase_ok c γ t i;
    ii_low : ∀ t i, t < rt c → i < lnc c t → g_ph γ t i = PCnt;
    ii_high : ∀ t i, rt c < t → g_ph γ t i = PFree;
    ii_last : ∀ t i, nt c ≤ S t → g_ph γ t i = PFree;
    ii_claim : ∀ t i, S t < nt c → i < lnc c t → (g_ph γ t i = PFree ↔ fld 0 (k_cl c) (S t) ≤ i);
    ii_copied : ∀ t, S t < nt c → fld 0 (k_cd c) (S t) = cnt (g_ph γ t) (lnc c t);
    ii_uniq : ∀ t t' i i' k, rt c ≤ t → t < t' → HK c t i k → HK c t' i' k →
               t = rt c ∧ (CD c t i ∨ ∃ j, g_ph γ t i = PInsd j t' i');
    ii_mid : ∀ t t' i' k, rt c ≤ t → t < t' → HK c t' i' k →
               exhM c t k ∨ (t = rt c ∧ ∃ i, HK c t i k);
    ii_u7 : ∀ i p, Hp c (rt c) i p → CD c (rt c) i → ¬ Mt c (rt c) i →
               ∃ t' i', rt c < t' ∧ Hp c t' i' p ∧ Mt c t' i';
    ii_publen : length (g_pub γ) = length (k_hp c);
    ii_home_upd : ∀ p o, g_pub γ !! p = Some (o, None) → lin (g_log γ) p;
    ii_home_low : ∀ p o t i, g_pub γ !! p = Some (o, Some (t, i)) → t < rt c → lin (g_log γ) p;
    ii_home_fresh : ∀ p o t i, g_pub γ !! p = Some (o, Some (t, i)) → rt c ≤ t → Hp c t i p → ¬ Mt c t i → ¬ lin (g_log γ) p;
    ii_home_lin : ∀ p o t i, g_pub γ !! p = Some (o, Some (t, i)) → rt c ≤ t → lin (g_log γ) p ∨ (Hp c t i p ∧ ¬ Mt c t i);
    ii_nonhome : ∀ t i p, rt c ≤ t → Hp c t i p → ¬ Mt c t i →
               (∃ o, g_pub γ !! p = Some (o, Some (t, i))) ∨ (rt c < t ∧ ∃ i0 j, i0 < lnc c (rt c) ∧ g_ph γ (rt c) i0 = PInsd j t i);
    ii_ptrloc : ∀ t i p o t' i', Hp c t i p → g_pub γ !! p = Some (o, Some (t', i')) → t' ≤ t;
    ii_abs : ∀ k p, replay (g_log γ) k = Some p ↔ live c k p;
    ii_legal : legal (g_log γ);
    ii_news : ∀ n n' e e' p, g_log γ !! n = Some e → g_log γ !! n' = Some e' → ev_new e = Some p → ev_new e' = Some p → n = n';
    ii_evkey : ∀ e p, e ∈ g_log γ → ev_new e = Some p → ky c p = Some (ev_key e) ∧ ∃ h, g_pub γ !! p = Some (ev_op e, h);
    ii_prlen : length (g_pr γ) = rt c;
    ii_prle : ∀ t n, g_pr γ !! t = Some n → n ≤ length (g_log γ);
    ii_prsort : ∀ t n n', g_pr γ !! t = Some n → g_pr γ !! S t = Some n' → n ≤ n';
    ii_stale : ∀ t k q n, t < rt c → g_pr γ !! t = Some n → q ≤ lim c t → passes c t k q → ¬ Mt c t (ix c t k q) →
               rp n (g_log γ) k = None;
    ii_status : ∀ t, fld PENDING (k_st c) t = PROMOTED → t ≤ rt c;
    ii_al : ∀ t, al c t;
    ii_poison : ∀ t, fld LFree (k_lk c) t = LPoisoned → ¬ good_cfg
  }.

  (** ** Rely *)
  Record slot_ext (c : core) (γ : ghost) (c' : core) (γ' : ghost) (t i : nat) : Prop := MkSx {
    sx_M : Mt c t i → Mt c' t i;
    sx_nl : en (k_sl c) t i ≠ NULLW → en (k_sl c') t i ≠ NULLW;
    sx_dead : en (k_sl c) t i ≠ NULLW → e_ptr (en (k_sl c) t i) = None → e_ptr (en (k_sl c') t i) = None;
    sx_ptr : ∀ p k, Hp c t i p → ky c p = Some k → HK c' t i k ∨
       (e_ptr (en (k_sl c') t i) = None ∧ ∃ n, length (g_log γ) ≤ n ∧ n ≤ length (g_log γ') ∧ rp n (g_log γ') k = None);
    sx_cp : CP c t i → CP c' t i ∧ e_ptr (en (k_sl c') t i) = e_ptr (en (k_sl c) t i);
    sx_cd : CP c t i → CD c t i → CD c' t i;
    sx_bw : CP c t i → e_borrowed (en (k_sl c') t i) = e_borrowed (en (k_sl c) t i) }.

  Record ext0 (opid : nat) (c : core) (γ : ghost) (c' : core) (γ' : ghost) : Prop := MkExt {
    x_nt : nt c ≤ nt c';
    x_ln : ∀ t, t < nt c → lnc c' t = lnc c t;
    x_lim : ∀ t, t < nt c → lim c' t = lim c t;
    x_rt : rt c ≤ rt c';
    x_some : k_rt c ≠ None → k_rt c' ≠ None;
    x_slot : ∀ t i, slot_ext c γ c' γ' t i;
    x_hp : k_hp c `prefix_of` k_hp c';
    x_pub : g_pub γ `prefix_of` g_pub γ';
    x_log : g_log γ `prefix_of` g_log γ';
    x_pr : g_pr γ `prefix_of` g_pr γ';
    x_prn : ∀ t n, g_pr γ' !! t = Some n → length (g_pr γ) ≤ t → length (g_log γ) ≤ n;
    x_evs : ∀ n e, g_log γ' !! n = Some e → length (g_log γ) ≤ n → ev_op e = opid →
              ∃ p h, ev_new e = Some p ∧ g_pub γ !! p = Some (opid, h) ∧ ¬ lin (g_log γ) p;
    x_pubs : ∀ p h, g_pub γ' !! p = Some (opid, h) → p < length (g_pub γ);
    x_cnt : ∀ t i, g_ph γ t i = PCnt → g_ph γ' t i = PCnt;
    x_st : ∀ t, al c' t → al c t;
    x_al : ∀ t, t ≤ rt c → al c t → al c' t }.

  Record extp (me : nat) (c : core) (γ : ghost) (c' : core) (γ' : ghost) : Prop := MkExtp {
    x_ph : ∀ t i, ph_owner (g_ph γ t i) = Some me → g_ph γ' t i = g_ph γ t i;
    x_lk : ∀ t, fld LFree (k_lk c) t = LHeld me →
             fld LFree (k_lk c') t = LHeld me ∧ fld None (k_nx c') t = fld None (k_nx c) t }.

  Definition ext (me opid : nat) c γ c' γ' : Prop := ext0 opid c γ c' γ' ∧ extp me c γ c' γ'.

  (** What a step of thread [me] for operation [opid] guarantees to every other thread. *)
  Definition grd (me opid : nat) c γ c' γ' : Prop :=
    ∀ me' opid', me' ≠ me → opid' ≠ opid → ext me' opid' c γ c' γ'.

  Lemma ky_prefix c c' p k : k_hp c `prefix_of` k_hp c' → ky c p = Some k → ky c' p = Some k.
  Proof.
    intros Hpre H. unfold ky in *. destruct (k_hp c !! p) as [x|] eqn:E; [|discriminate].
    rewrite (prefix_lookup _ _ _ _ E Hpre). exact H.
  Qed.
  Lemma HK_key c t i k p : HK c t i k → Hp c t i p → ky c p = Some k.
  Proof. intros (p' & H & H') Hp0. unfold Hp in *. congruence. Qed.
  Lemma HK_keys c t i k k' : HK c t i k → HK c t i k' → k = k'.
  Proof. intros (p & H & H') H2. pose proof (HK_key _ _ _ _ _ H2 H). congruence. Qed.
  Lemma Hp_nn c t i p : Hp c t i p → en (k_sl c) t i ≠ NULLW.
  Proof. unfold Hp. intros H E. rewrite E in H. discriminate. Qed.
  Lemma Hp_inb c t i p : Hp c t i p → i < lnc c t.
  Proof.
    intros H. destruct (decide (i < lnc c t)) as [|Hn]; [done|]. unfold Hp, lnc in *.
    rewrite en_oob in H by lia. discriminate.
  Qed.
  Lemma Hp_tab c t i p : Hp c t i p → t < nt c.
  Proof.
    intros H%Hp_inb. destruct (decide (t < nt c)) as [|Hn]; [done|]. unfold lnc, nt in *.
    rewrite ln_oob in H by lia. lia.
  Qed.
  Lemma Mt_inb c t i : Mt c t i → i < lnc c t.
  Proof.
    intros H. destruct (decide (i < lnc c t)) as [|Hn]; [done|]. unfold Mt, lnc in *.
    rewrite mt_oob in H by lia. done.
  Qed.
  Lemma CP_inb c t i : CP c t i → i < lnc c t.
  Proof.
    intros H. destruct (decide (i < lnc c t)) as [|Hn]; [done|]. unfold CP, lnc in *.
    rewrite en_oob in H by lia. done.
  Qed.
  Lemma HK_get c γ t i p : InvI c γ → Hp c t i p → ∃ k, ky c p = Some k.
  Proof.
    intros I H. pose proof (ii_ptr _ _ I _ _ _ H) as L. unfold ky.
    destruct (lookup_lt_is_Some_2 _ _ L) as [x ->]. eauto.
  Qed.
  Lemma Mt_dec c t i : Mt c t i ∨ ¬ Mt c t i.
  Proof. unfold Mt. destruct (decide (mt (k_sl c) t i = EMPTY)); tauto. Qed.
  Lemma CD_dec c t i : CD c t i ∨ ¬ CD c t i.
  Proof. unfold CD. destruct (e_copied _); [left|right]; congruence. Qed.
  Lemma CP_dec c t i : CP c t i ∨ ¬ CP c t i.
  Proof. unfold CP. destruct (e_copying _); [left|right]; congruence. Qed.

  Lemma slot_ext_refl c γ t i : slot_ext c γ c γ t i.
  Proof. split; auto. intros p k H1 H2. left. exists p. auto. Qed.

  Lemma slot_ext_trans c γ c1 γ1 c2 γ2 t i :
    g_log γ `prefix_of` g_log γ1 → g_log γ1 `prefix_of` g_log γ2 →
    slot_ext c γ c1 γ1 t i → slot_ext c1 γ1 c2 γ2 t i → slot_ext c γ c2 γ2 t i.
  Proof.
    intros P1 P2 A B. pose proof (prefix_length _ _ P1). pose proof (prefix_length _ _ P2). split.
    - intros H1. apply (sx_M _ _ _ _ _ _ B), (sx_M _ _ _ _ _ _ A), H1.
    - intros H1. apply (sx_nl _ _ _ _ _ _ B), (sx_nl _ _ _ _ _ _ A), H1.
    - intros H1 H2. apply (sx_dead _ _ _ _ _ _ B); [apply (sx_nl _ _ _ _ _ _ A), H1|].
      apply (sx_dead _ _ _ _ _ _ A); assumption.
    - intros p k H1 H2. destruct (sx_ptr _ _ _ _ _ _ A p k H1 H2) as [(p1 & H3 & H4)|(H3 & n & ? & ? & H4)].
      + destruct (sx_ptr _ _ _ _ _ _ B p1 k H3 H4) as [H5|(H5 & n & ? & ? & H6)]; [auto|].
        right. split; [exact H5|]. exists n. split; [lia|]. auto.
      + right. split.
        * apply (sx_dead _ _ _ _ _ _ B); [|exact H3]. apply (sx_nl _ _ _ _ _ _ A). eapply Hp_nn; eauto.
        * exists n. split; [lia|]. split; [lia|]. rewrite (rp_prefix _ _ _ _ P2) by lia. exact H4.
    - intros H1. destruct (sx_cp _ _ _ _ _ _ A H1) as [H2 H3]. destruct (sx_cp _ _ _ _ _ _ B H2) as [H4 H5].
      split; congruence.
    - intros H1 H2. destruct (sx_cp _ _ _ _ _ _ A H1) as [H3 _].
      apply (sx_cd _ _ _ _ _ _ B H3), (sx_cd _ _ _ _ _ _ A H1 H2).
    - intros H1. destruct (sx_cp _ _ _ _ _ _ A H1) as [H3 _]. by rewrite (sx_bw _ _ _ _ _ _ B H3), (sx_bw _ _ _ _ _ _ A H1).
  Qed.

  Lemma ext0_refl o c γ : ext0 o c γ c γ.
  Proof.
    split; auto; try lia.
    - intros; apply slot_ext_refl.
    - intros t n H L. apply lookup_lt_Some in H. lia.
    - intros n e H L. apply lookup_lt_Some in H. lia.
    - intros p h H. apply lookup_lt_Some in H. lia.
  Qed.
  Lemma extp_refl me c γ : extp me c γ c γ.
  Proof. split; auto. Qed.
  Lemma ext_refl me o c γ : ext me o c γ c γ.
  Proof. split; [apply ext0_refl|apply extp_refl]. Qed.
  Lemma grd_refl me o c γ : grd me o c γ c γ.
  Proof. intros me' o' _ _. apply ext_refl. Qed.

  Lemma ext0_trans o c γ c1 γ1 c2 γ2 : ext0 o c γ c1 γ1 → ext0 o c1 γ1 c2 γ2 → ext0 o c γ c2 γ2.
  Proof.
    intros A B. pose proof (x_nt _ _ _ _ _ A). pose proof (x_log _ _ _ _ _ A) as PL. pose proof (x_log _ _ _ _ _ B) as PL2.
    pose proof (x_pub _ _ _ _ _ A) as PP. pose proof (x_pr _ _ _ _ _ A) as PR. pose proof (x_pr _ _ _ _ _ B) as PR2.
    split.
    - etrans; [apply A|apply B].
    - intros t Ht. rewrite (x_ln _ _ _ _ _ B) by lia. apply A; lia.
    - intros t Ht. rewrite (x_lim _ _ _ _ _ B) by lia. apply A; lia.
    - etrans; [apply A|apply B].
    - intros Hr. apply (x_some _ _ _ _ _ B), (x_some _ _ _ _ _ A), Hr.
    - intros t i. eapply slot_ext_trans; [exact PL|exact PL2|apply A|apply B].
    - etrans; [apply A|apply B].
    - etrans; [apply A|apply B].
    - etrans; [apply A|apply B].
    - etrans; [apply A|apply B].
    - intros t n H1 H2. destruct (decide (length (g_pr γ1) ≤ t)) as [L|L].
      + pose proof (x_prn _ _ _ _ _ B _ _ H1 L). apply prefix_length in PL. lia.
      + destruct (lookup_lt_is_Some_2 (g_pr γ1) t) as [n' Hn']; [lia|].
        pose proof (prefix_lookup _ _ _ _ Hn' PR2). assert (n' = n) by congruence. subst.
        exact (x_prn _ _ _ _ _ A _ _ Hn' H2).
    - intros n e H1 H2 H3. destruct (decide (length (g_log γ1) ≤ n)) as [L|L].
      + destruct (x_evs _ _ _ _ _ B _ _ H1 L H3) as (p & h & E1 & E2 & E3). exists p, h. split; [done|].
        split; [|intros Hl; apply E3; eapply lin_prefix; eauto].
        pose proof (x_pubs _ _ _ _ _ A _ _ E2) as L2. destruct (lookup_lt_is_Some_2 (g_pub γ) p L2) as [y Hy].
        pose proof (prefix_lookup _ _ _ _ Hy PP). congruence.
      + destruct (lookup_lt_is_Some_2 (g_log γ1) n) as [e' He']; [lia|].
        pose proof (prefix_lookup _ _ _ _ He' PL2). assert (e' = e) by congruence. subst.
        exact (x_evs _ _ _ _ _ A _ _ He' H2 eq_refl).
    - intros p h H1. pose proof (x_pubs _ _ _ _ _ B _ _ H1) as L.
      destruct (lookup_lt_is_Some_2 (g_pub γ1) p L) as [y Hy].
      pose proof (prefix_lookup _ _ _ _ Hy (x_pub _ _ _ _ _ B)). assert (y = (o, h)) by congruence. subst.
      exact (x_pubs _ _ _ _ _ A _ _ Hy).
    - intros t i E. apply (x_cnt _ _ _ _ _ B), (x_cnt _ _ _ _ _ A), E.
    - intros t E. apply (x_st _ _ _ _ _ A), (x_st _ _ _ _ _ B), E.
    - intros t L E. apply (x_al _ _ _ _ _ B); [pose proof (x_rt _ _ _ _ _ A); lia|]. apply (x_al _ _ _ _ _ A); assumption.
  Qed.
  Lemma extp_trans me c γ c1 γ1 c2 γ2 : extp me c γ c1 γ1 → extp me c1 γ1 c2 γ2 → extp me c γ c2 γ2.
  Proof.
    intros A B. split.
    - intros t i H. pose proof (x_ph _ _ _ _ _ A _ _ H) as E. rewrite <- E. apply B. rewrite E. exact H.
    - intros t H. destruct (x_lk _ _ _ _ _ A _ H) as [E1 E2]. destruct (x_lk _ _ _ _ _ B _ E1) as [E3 E4].
      split; congruence.
  Qed.
  Lemma ext_trans me o c γ c1 γ1 c2 γ2 : ext me o c γ c1 γ1 → ext me o c1 γ1 c2 γ2 → ext me o c γ c2 γ2.
  Proof. intros [A1 A2] [B1 B2]. split; [eapply ext0_trans; eauto|eapply extp_trans; eauto]. Qed.
End inv.
