(** Invariant of the map in blocking resize mode.  A table whose copy was given up has status ABORTED; the tables
    that are, or once were, the root are the other tables up to the root.  Copy phases are indexed by the target. *)
From Verif Require Export IncSteps6.

Section binv.
  Context {K V : Type} {Keq : EqDecision K} (cfg : config K).
  Notation core := (core K V). Notation ghost := (@ghost K).
  Notation ix := (ix cfg). Notation passes := (passes cfg). Notation exhausted := (exhausted cfg).

  (** [tb] is the table whose entries are (or were) copied to [n]. *)
  Definition src (c : core) (n tb : nat) : Prop := tb < n ∧ al c tb ∧ ∀ m, tb < m → m < n → ¬ al c m.

  (** [PInsd _ 0 _]: the copy of the slot found no room in the target, which is being given up. *)
  Definition phase_okB (c : core) (γ : ghost) n i : Prop :=
    match g_ph γ n i with
    | PFree | POwn _ => True
    | PMark _ => CP c (rt c) i
    | PInsd _ n' i' => n' = 0 ∨ (CP c (rt c) i ∧ n' = n ∧ ∃ p, Hp c (rt c) i p ∧ Hp c n i' p)
    | PDone _ | PCnt => CP c (rt c) i ∧ ∀ p, Hp c (rt c) i p → ∃ i', Hp c n i' p ∧ Mt c n i'
    end.

  Record InvB (c : core) (γ : ghost) : Prop := MkInvB {
    b_lens : lens c;
    b_root : match k_rt c with None => nt c = 0 | Some r => r < nt c end;
    b_next : ∀ t, t < nt c → fld None (k_nx c) t = if decide (S t < nt c) then Some (S t) else None;
    b_pow : ∀ t, t < nt c → ∃ b, 3 ≤ b ∧ lnc c t = 2 ^ b;
    b_claimed : ∀ t i, Mt c t i → en (k_sl c) t i ≠ NULLW;
    b_meta : ∀ t i p k, Hp c t i p → ky c p = Some k → Mt c t i → mt (k_sl c) t i = h2_of cfg k;
    b_ptr : ∀ t i p, Hp c t i p → p < length (k_hp c);
    b_place : ∀ t i k, al c t → HK c t i k → ∃ q, q ≤ lim c t ∧ ix c t k q = i ∧ ∀ q', q' < q → Mt c t (ix c t k q');
    b_u1 : ∀ t i j k, al c t → HK c t i k → HK c t j k → i = j;
    b_nocd : ∀ t i p, Hp c t i p → ¬ CD c t i;
    b_low : ∀ t i, t < rt c → al c t → i < lnc c t → CP c t i;
    b_high : ∀ t i, rt c < t → ¬ CP c t i;
    b_cpnx : ∀ t i, CP c t i → S t < nt c;
    b_hid : ∀ t, rt c < t → S t < nt c → ¬ al c t;
    b_alrt : al c (rt c);
    b_status : ∀ t, fld PENDING (k_st c) t = PROMOTED → t ≤ rt c;
    b_new : ∀ n i, nt c ≤ n → g_ph γ n i = PFree;
    b_claim : ∀ n tb i, src c n tb → n < nt c → i < lnc c tb → (g_ph γ n i = PFree ↔ fld 0 (k_cl c) n ≤ i);
    b_copied : ∀ n, rt c < n → n < nt c → fld 0 (k_cd c) n = cnt (g_ph γ n) (lnc c (rt c));
    b_done : ∀ n tb i, src c n tb → al c n → n ≤ rt c → i < lnc c tb → g_ph γ n i = PCnt;
    b_phase : ∀ n i, rt c < n → n < nt c → al c n → i < lnc c (rt c) → phase_okB c γ n i;
    b_abort : ∀ n tb, src c n tb → n < nt c → ¬ al c n → ∃ i j i', i < lnc c tb ∧ g_ph γ n i = PInsd j 0 i';
    b_src : ∀ n i' p, rt c < n → al c n → Hp c n i' p → ∃ i, Hp c (rt c) i p ∧ CP c (rt c) i ∧
              ((∃ j, g_ph γ n i = PInsd j n i') ∨ (∃ j, g_ph γ n i = PDone j) ∨ g_ph γ n i = PCnt);
    b_gsrc : ∀ n tb i' p, src c n tb → ¬ al c n → Hp c n i' p → ∃ i, Hp c tb i p ∧ CP c tb i;
    b_publen : length (g_pub γ) = length (k_hp c);
    b_home_upd : ∀ p o, g_pub γ !! p = Some (o, None) → lin (g_log γ) p;
    b_home_le : ∀ p o t i, g_pub γ !! p = Some (o, Some (t, i)) → t ≤ rt c;
    b_home_low : ∀ p o t i, g_pub γ !! p = Some (o, Some (t, i)) → t < rt c → lin (g_log γ) p;
    b_home_fresh : ∀ p o i, g_pub γ !! p = Some (o, Some (rt c, i)) → Hp c (rt c) i p → ¬ Mt c (rt c) i → ¬ lin (g_log γ) p;
    b_home_lin : ∀ p o i, g_pub γ !! p = Some (o, Some (rt c, i)) → lin (g_log γ) p ∨ (Hp c (rt c) i p ∧ ¬ Mt c (rt c) i);
    b_nonhome : ∀ i p, Hp c (rt c) i p → ¬ Mt c (rt c) i → ∃ o, g_pub γ !! p = Some (o, Some (rt c, i));
    b_abs : ∀ k p, replay (g_log γ) k = Some p ↔ ∃ i, Hp c (rt c) i p ∧ ky c p = Some k ∧ Mt c (rt c) i;
    b_legal : legal (g_log γ);
    b_news : ∀ n n' e e' p, g_log γ !! n = Some e → g_log γ !! n' = Some e' → ev_new e = Some p → ev_new e' = Some p → n = n';
    b_evkey : ∀ e p, e ∈ g_log γ → ev_new e = Some p → ky c p = Some (ev_key e) ∧ ∃ h, g_pub γ !! p = Some (ev_op e, h);
    b_prlen : length (g_pr γ) = rt c;
    b_prle : ∀ t n, g_pr γ !! t = Some n → n ≤ length (g_log γ);
    b_prsort : ∀ t n n', g_pr γ !! t = Some n → g_pr γ !! S t = Some n' → n ≤ n';
    b_stale : ∀ t k q n, t < rt c → al c t → g_pr γ !! t = Some n → q ≤ lim c t → passes c t k q → ¬ Mt c t (ix c t k q) →
               rp n (g_log γ) k = None;
    b_stale1 : ∀ t k n, t < rt c → al c t → g_pr γ !! t = Some n → (∀ i, ¬ HK c t i k) → rp n (g_log γ) k = None;
    b_stale2 : ∀ t i p k n, t < rt c → al c t → g_pr γ !! t = Some n → Hp c t i p → ky c p = Some k →
               ∃ n', n ≤ n' ∧ n' ≤ length (g_log γ) ∧ rp n' (g_log γ) k = Some p;
    b_poison : ∀ t, fld LFree (k_lk c) t = LPoisoned → ¬ good_cfg cfg
  }.

  (** A probe for [k] may use table [t]: it is or was the root. *)
  Definition visitedB (c : core) (t : nat) : Prop := t ≤ rt c ∧ al c t.

  Section facts.
    Context (c : core) (γ : ghost) (I : InvB c γ).

    Lemma al_dec t : al c t ∨ ¬ al c t.
    Proof. unfold al. destruct (decide (fld PENDING (k_st c) t = ABORTED)); [right|left]; [intros X; by apply X|done]. Qed.
    Lemma src_uniq n tb tb' : src c n tb → src c n tb' → tb = tb'.
    Proof.
      intros (A1 & A2 & A3) (B1 & B2 & B3). destruct (lt_eq_lt_dec tb tb') as [[X|X]|X]; [|done|].
      - by destruct (A3 tb').
      - by destruct (B3 tb).
    Qed.
    Lemma src_root n : rt c < n → n < nt c → src c n (rt c).
    Proof. intros L N. split; [done|]. split; [apply I|]. intros m M1 M2. apply (b_hid _ _ I); lia. Qed.
    Lemma src_cases n tb : src c n tb → n < nt c → (tb = rt c ∧ rt c < n) ∨ (tb < rt c ∧ n ≤ rt c).
    Proof.
      intros S0 N. destruct (decide (rt c < n)) as [L|L].
      - left. split; [|done]. eapply src_uniq; [done|]. by apply src_root.
      - right. destruct S0. split; lia.
    Qed.
    Lemma bHK_get t i p : Hp c t i p → ∃ k, ky c p = Some k.
    Proof.
      intros H. pose proof (b_ptr _ _ I _ _ _ H) as L. unfold ky. destruct (lookup_lt_is_Some_2 _ _ L) as [x ->]. eauto.
    Qed.
    Lemma b_place_passes t i k q : al c t → HK c t i k → passes c t k q →
      ∃ q', q ≤ q' ∧ q' ≤ lim c t ∧ ix c t k q' = i ∧ ∀ q'', q'' < q' → Mt c t (ix c t k q'').
    Proof.
      intros A H P. destruct (b_place _ _ I t i k A H) as (q' & L & E & M). exists q'. split_and!; auto.
      destruct (decide (q ≤ q')); [done|]. destruct (P q') as [_ N]; [lia|]. rewrite E in N. contradiction.
    Qed.
    Lemma b_exhausted_no t i k : al c t → exhausted c t k → ¬ HK c t i k.
    Proof. intros A E H. destruct (b_place_passes _ _ _ _ A H E) as (q & ? & ? & _). lia. Qed.
    Lemma b_rt_lt t : t < nt c → rt c < nt c.
    Proof. intros H. pose proof (b_root _ _ I) as R. unfold rt. destruct (k_rt c); cbn; lia. Qed.
    Lemma b_above t i : al c t → i < lnc c t → ¬ CP c t i → rt c ≤ t.
    Proof. intros A L N. destruct (decide (rt c ≤ t)); [done|]. destruct N. apply (b_low _ _ I); [lia|done|done]. Qed.
    Lemma b_absent_empty k q : passes c (rt c) k q → q ≤ lim c (rt c) → ¬ Mt c (rt c) (ix c (rt c) k q) → replay (g_log γ) k = None.
    Proof.
      intros P Q N. destruct (replay (g_log γ) k) as [p|] eqn:E; [|done]. exfalso.
      apply (b_abs _ _ I) in E as (i & H1 & H2 & M).
      destruct (b_place_passes (rt c) i k q (b_alrt _ _ I)) as (q' & L1 & L2 & E & M'); [exists p; auto|done|].
      destruct (decide (q' = q)); [subst; contradiction|]. apply N, M'. lia.
    Qed.
    Lemma b_absent_nohk k : (∀ i, ¬ HK c (rt c) i k) → replay (g_log γ) k = None.
    Proof.
      intros N. destruct (replay (g_log γ) k) as [p|] eqn:E; [|done]. exfalso.
      apply (b_abs _ _ I) in E as (i & H1 & H2 & M). apply (N i). exists p. auto.
    Qed.
    Lemma b_absent_invis i p k : Hp c (rt c) i p → ky c p = Some k → ¬ Mt c (rt c) i → replay (g_log γ) k = None.
    Proof.
      intros H Hk N. destruct (replay (g_log γ) k) as [p'|] eqn:E; [|done]. exfalso.
      apply (b_abs _ _ I) in E as (i' & H1 & H2 & M).
      assert (HK c (rt c) i k) as A by (exists p; auto). assert (HK c (rt c) i' k) as B by (exists p'; auto).
      by rewrite (b_u1 _ _ I _ _ _ _ (b_alrt _ _ I) B A) in M.
    Qed.
    Lemma b_pr t : t < rt c → ∃ n, g_pr γ !! t = Some n.
    Proof. intros L. destruct (lookup_lt_is_Some_2 (g_pr γ) t) as [n Hn]; [rewrite (b_prlen _ _ I); lia|eauto]. Qed.
    (** What a probe that meets an empty slot, or no slot of the key, learns. *)
    Lemma b_stale_absent n0 t k q : fresh c γ n0 t → n0 ≤ length (g_log γ) → visitedB c t → passes c t k q → q ≤ lim c t →
      ¬ Mt c t (ix c t k q) → ∃ n, n0 ≤ n ∧ n ≤ length (g_log γ) ∧ rp n (g_log γ) k = None.
    Proof.
      intros F L0 [V1 V2] P Q N. destruct (decide (t = rt c)) as [->|Ne].
      - exists (length (g_log γ)). split; [lia|]. split; [lia|]. rewrite rp_all by lia. eapply b_absent_empty; eauto.
      - destruct (b_pr t) as [n Hn]; [lia|].
        exists n. split; [by apply F|]. split; [eapply b_prle; eauto|]. eapply b_stale; eauto. lia.
    Qed.
    Lemma b_stale_nohk n0 t k : fresh c γ n0 t → n0 ≤ length (g_log γ) → visitedB c t → (∀ i, ¬ HK c t i k) →
      ∃ n, n0 ≤ n ∧ n ≤ length (g_log γ) ∧ rp n (g_log γ) k = None.
    Proof.
      intros F L0 [V1 V2] N. destruct (decide (t = rt c)) as [->|Ne].
      - exists (length (g_log γ)). split; [lia|]. split; [lia|]. rewrite rp_all by lia. by apply b_absent_nohk.
      - destruct (b_pr t) as [n Hn]; [lia|].
        exists n. split; [by apply F|]. split; [eapply b_prle; eauto|]. eapply b_stale1; eauto. lia.
    Qed.
    Lemma b_present n0 t i p k : fresh c γ n0 t → n0 ≤ length (g_log γ) → visitedB c t → Hp c t i p → ky c p = Some k → Mt c t i →
      ∃ n, n0 ≤ n ∧ n ≤ length (g_log γ) ∧ rp n (g_log γ) k = Some p.
    Proof.
      intros F L0 [V1 V2] H Hk M. destruct (decide (t = rt c)) as [->|Ne].
      - exists (length (g_log γ)). split; [lia|]. split; [lia|]. rewrite rp_all by lia. apply (b_abs _ _ I). eauto.
      - destruct (b_pr t) as [n Hn]; [lia|].
        destruct (b_stale2 _ _ I t i p k n) as (n' & A & B & C); auto; [lia|]. exists n'. split_and!; auto.
        pose proof (F _ Hn). lia.
    Qed.
    Lemma b_peok : peok c γ.
    Proof.
      split; try apply I.
      - intros i p H. by eapply bHK_get.
      - intros i p k H M Hk. by eapply b_absent_invis.
      - intros i j k. apply (b_u1 _ _ I), I.
    Qed.
  End facts.
End binv.
