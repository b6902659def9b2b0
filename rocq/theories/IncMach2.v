(** Machine steps other than those of running operations, at the level of worlds; the initial world. *)
From Verif Require Export IncMach1.

Section mach2.
  Context {K V : Type} {Keq : EqDecision K} (cfg : config K) (nthr nsh : nat).
  Notation core := (core K V). Notation ghost := (@ghost K). Notation event := (event K).
  Notation world := (@world K V). Notation rghost := (@rghost K V). Notation state := (state K V).
  Notation Inv := (Inv cfg). Notation WI := (WI cfg nthr nsh). Notation CT := (CT nthr nsh).
  Implicit Types w : world.

  Lemma WI_quiet w w' : WI w → wc w' = wc w → wg w' = wg w → EO (wc w) (wg w) (r_ops (wr w')) →
    RR (wc w) (wg w) (wr w') (wd w') → d_cnt (wd w') = d_cnt (wd w) → r_pend (wr w') = r_pend (wr w) → WI w'.
  Proof.
    intros [A B C D F] Ec Eg E R Ed Ep. split; rewrite ?Ec, ?Eg; auto. destruct F as [F1 F2]. split; rewrite ?Ed, ?Ep; auto.
  Qed.

  Lemma pin_step w i : WI w → let w' := (set_pins (i :: pins w.1) w.1, (wg w, rs_base (upd1 (r_base (wr w)) i (rt (wc w))) (wr w))) in
    WI w' ∧ ∀ me x, me ≠ i → wx me x w w'.
  Proof.
    intros W w'. destruct w as [σ [γ ρ]]. pose proof (RR_pin _ _ _ _ _ i (wi_inv _ _ _ _ W) (wi_rr _ _ _ _ W)) as R.
    assert (W' : WI w') by (eapply WI_quiet; [exact W|done|done|apply W|exact R|done|done]).
    split; [done|]. intros me x N. apply (wx_quiet cfg); [apply W|done|done| |done]. split.
    - intros H. unfold wd. cbn. apply elem_of_cons. by right.
    - unfold wr. cbn. by rewrite upd1_ne.
    - done.
    - done.
  Qed.

  Lemma unpin_step w i : WI w → let w' := (unpin i w.1, w.2) in WI w' ∧ ∀ me x, me ≠ i → wx me x w w'.
  Proof.
    intros W w'. destruct w as [σ [γ ρ]]. pose proof (RR_unpin _ _ _ _ i (wi_rr _ _ _ _ W)) as R.
    assert (W' : WI w') by (eapply WI_quiet; [exact W|done|done|apply W|exact R|done|done]).
    split; [done|]. intros me x N. apply (wx_quiet cfg); [apply W|done|done| |done]. split.
    - intros H. change (me ∈ flt i (pins σ)). apply elem_flt. by split.
    - done.
    - intros p _ P. by apply (prot_unpin i me (wd (σ, (γ, ρ)))).
    - done.
  Qed.

  (** ** Reclamation *)
  Lemma retire_all_ok l : ∀ σ : state, NoDup l → (∀ p, p ∈ l → REntry p ∉ retired_ever σ) →
    retire_all l σ = Some (State (tables σ) (root σ) (heap σ) (counts σ) (retired σ ++ map (λ p, RItem (REntry p) (pins σ)) l)
                             (rev (map REntry l) ++ retired_ever σ) (freed σ) (pins σ) (tokens σ)).
  Proof.
    induction l as [|p l IH]; intros σ N H; cbn.
    - rewrite app_nil_r. by destruct σ.
    - apply stdpp.list.NoDup_cons in N as [N1 N2]. rewrite decide_False by (apply H; apply elem_of_cons; by left). rewrite IH; [|done|].
      + cbn. f_equal. f_equal; by rewrite <- app_assoc.
      + intros q Hq. cbn. intros [[= ->]|X]%elem_of_cons; [done|]. revert X. apply H. apply elem_of_cons. by right.
  Qed.

  Lemma reclaim_step w j it : WI w → retired w.1 !! j = Some it → r_blockers it = [] →
    ∃ σ', reclaim it (take j (retired w.1) ++ drop (S j) (retired w.1)) w.1 = Some σ' ∧ WI (σ', w.2) ∧ pins σ' = pins w.1 ∧
      ∀ me x, wx me x w (σ', w.2).
  Proof.
    intros W Hj Hb. destruct w as [σ [γ ρ]]. cbn in Hj |- *. pose proof (wi_rr _ _ _ _ W) as R. unfold reclaim.
    destruct (r_obj it) as [p|t] eqn:Eo.
    - destruct (RR_free _ _ _ _ j it p R Hj Eo Hb) as [NF R']. eexists. split; [by rewrite decide_False|].
      assert (W' : WI (set_freed (p :: freed σ) (set_retired (take j (retired σ) ++ drop (S j) (retired σ)) (retired_ever σ) σ), (γ, ρ))).
      { eapply WI_quiet; [exact W|done|done|apply W|exact R'|done|done]. }
      split; [done|]. split; [done|]. intros me x. apply (wx_quiet cfg); [apply W|done|done| |done]. split; [done|done| |done].
      intros q _ P. by apply (prot_free j p (wd (σ, (γ, ρ))) it me q).
    - destruct (RR_freetab _ _ _ _ _ j it t (wi_inv _ _ _ _ W) R Hj Eo Hb) as (FR & ND & NE & R').
      assert (Ht : ∃ tb, tables σ !! t = Some tb ∧ t_freed tb = false).
      { destruct (tok_inv σ t FR) as (tb & A & B & _). eauto. }
      destruct Ht as (tb & Ht & Ef). cbn [tables set_retired]. rewrite Ht, Ef.
      assert (Edf : fld [] (d_df (side_of σ)) t = t_deferred tb) by (unfold fld; cbn; by rewrite list_lookup_fmap, Ht).
      unfold wd in *. cbn [fst] in *. rewrite Edf in ND, NE.
      rewrite retire_all_ok; [|done|done]. eexists. split; [reflexivity|].
      set (σ' := set_tables _ _).
      assert (Ec : core_of σ' = core_of σ).
      { unfold core_of, σ'. cbn. f_equal; eapply map_insert_same; done. }
      assert (Ed : side_of σ' = s_freetab j t (side_of σ)).
      { unfold side_of, s_freetab, σ'. cbn -[take drop]. f_equal.
        - change (map t_freed (<[t := ?y]> ?l)) with (t_freed <$> <[t := y]> l). by rewrite list_fmap_insert.
        - change (map t_deferred (<[t := ?y]> ?l)) with (t_deferred <$> <[t := y]> l). by rewrite list_fmap_insert.
        - by rewrite <- Edf.
        - by rewrite <- Edf. }
      assert (W' : WI (σ', (γ, ρ))).
      { eapply WI_quiet; [exact W|unfold wc; cbn; by rewrite Ec|done|apply W| | |done].
        - unfold wd. cbn [fst]. rewrite Ed. exact R'.
        - unfold wd. cbn [fst]. by rewrite Ed. }
      split; [done|]. split; [done|]. intros me x. apply (wx_quiet cfg); [apply W|unfold wc; cbn; by rewrite Ec|done| |done]. split; [done|done| |done].
      intros q Hm P. unfold wd. cbn [fst]. rewrite Ed. by eapply prot_freetab.
  Qed.

  (** ** Invocation *)
  Lemma EO_ops (c : core) (γ : ghost) ops o : EO c γ ops → EO c γ (ops ++ [o]).
  Proof.
    intros E. split; try apply E.
    - intros e He. destruct (eo_ev _ _ _ E e He) as (o' & A & B). exists o'. split; [by apply lookup_app_l_Some|done].
    - intros p i h H. destruct (eo_pub _ _ _ E p i h H) as (o' & k & A & B). exists o', k. split; [by apply lookup_app_l_Some|done].
    - intros p i h H. rewrite app_length. pose proof (eo_publt _ _ _ E p i h H). lia.
    - intros n n' e e' o' H H' X Ho M. destruct (eo_ev _ _ _ E e) as (o'' & A & B); [by eapply elem_of_list_lookup_2|].
      eapply (eo_uniq _ _ _ E n n' e e' o''); try done. rewrite (lookup_app_l_Some _ _ _ _ A) in Ho. by injection Ho as ->.
  Qed.
  Lemma invoke_step w o : WI w → let w' := (w.1, (wg w, rs_ops (r_ops (wr w) ++ [o]) (wr w))) in
    WI w' ∧ unused (wg w') (length (r_ops (wr w))) ∧ ∀ me x, wx me x w w'.
  Proof.
    intros W w'. destruct w as [σ [γ ρ]]. cbn [fst].
    assert (W' : WI w').
    { destruct W as [A B C D F]. split; [exact A|exact B|by apply EO_ops| |split; apply F]. destruct D. by split. }
    split; [done|]. split.
    - destruct W as [A B C D F]. split.
      + intros e He E. destruct (eo_ev _ _ _ C e He) as (o' & X & _). apply lookup_lt_Some in X. unfold wr in *. cbn in *. lia.
      + intros p h H. apply (eo_publt _ _ _ C) in H. unfold wr in *. cbn in *. lia.
    - intros me x. apply (wx_quiet cfg); [apply W|done|done| |done]. split; [done|done|done|]. unfold wr. cbn. by eexists.
  Qed.
End mach2.

(** ** The initial state *)
Section init.
  Context {K V : Type} {Keq : EqDecision K} (cfg : config K) (nthr nsh : nat).
  Notation core := (core K V). Notation ghost := (@ghost K). Notation rghost := (@rghost K V).
  Definition g_init : ghost := Gh [] [] (λ _ _, PFree) [].
  Definition r_init : rghost := RG (λ _, 0) (λ _, None) (λ _, 0%Z) [].
  Definition w_init (cap : nat) : @world K V := (init_state cap nsh, (g_init, r_init)).

  Lemma en_init cap t i : en (k_sl (core_of (init_state (K:=K) (V:=V) cap nsh))) t i = NULLW.
  Proof.
    unfold en, init_state, core_of. cbn -[Nat.max]. destruct (cap =? 0); [done|]. cbn -[Nat.max]. destruct t as [|t]; [|done]. cbn -[Nat.max].
    destruct (replicate _ _ !! i) as [s|] eqn:E; [|done]. apply lookup_replicate in E as [-> _]. done.
  Qed.
  Lemma mt_init cap t i : mt (k_sl (core_of (init_state (K:=K) (V:=V) cap nsh))) t i = EMPTY.
  Proof.
    unfold mt, init_state, core_of. cbn -[Nat.max]. destruct (cap =? 0); [done|]. cbn -[Nat.max]. destruct t as [|t]; [|done]. cbn -[Nat.max].
    destruct (replicate _ _ !! i) as [s|] eqn:E; [|done]. apply lookup_replicate in E as [-> _]. done.
  Qed.
  Lemma nt_init cap : nt (core_of (init_state (K:=K) (V:=V) cap nsh)) = if cap =? 0 then 0 else 1.
  Proof. unfold nt. cbn -[Nat.max]. by destruct (cap =? 0). Qed.
  Lemma max_pow2 n : ∃ b, 3 ≤ b ∧ Nat.max (entries_for n) 8 = 2 ^ b.
  Proof.
    destruct (entries_for_pow2 n) as [b ->]. destruct (decide (3 ≤ b)) as [L|L].
    - exists b. split; [done|]. apply Nat.max_l. change 8 with (2 ^ 3). by apply Nat.pow_le_mono_r.
    - exists 3. split; [done|]. apply Nat.max_r. change 8 with (2 ^ 3). apply Nat.pow_le_mono_r; lia.
  Qed.

  Lemma WI_init cap : 0 < nsh → WI cfg nthr nsh (w_init cap).
  Proof.
    intros Hs. unfold w_init.
    assert (EN : ∀ t i, en (k_sl (wc (init_state (V:=V) cap nsh, (g_init, r_init)))) t i = NULLW) by (intros; apply en_init).
    assert (MT : ∀ t i, mt (k_sl (wc (init_state (V:=V) cap nsh, (g_init, r_init)))) t i = EMPTY) by (intros; apply mt_init).
    assert (NT : nt (wc (init_state (V:=V) cap nsh, (g_init, r_init))) = if cap =? 0 then 0 else 1) by apply nt_init.
    assert (RT : rt (wc (init_state (V:=V) cap nsh, (g_init, r_init))) = 0) by (unfold rt; cbn; by destruct (cap =? 0)).
    assert (HR : k_rt (wc (init_state (V:=V) cap nsh, (g_init, r_init))) = if cap =? 0 then None else Some 0) by done.
    assert (LN : 0 < nt (wc (init_state (V:=V) cap nsh, (g_init, r_init))) → lnc (wc (init_state (V:=V) cap nsh, (g_init, r_init))) 0 = Nat.max (entries_for cap) 8).
    { intros L. rewrite NT in L. unfold lnc, ln. cbn -[Nat.max]. destruct (cap =? 0); [lia|]. cbn -[Nat.max]. by rewrite replicate_length. }
    assert (HP : ∀ t i p, ¬ Hp (wc (init_state (V:=V) cap nsh, (g_init, r_init))) t i p) by (intros t i p H; unfold Hp in H; by rewrite EN in H).
    assert (NM : ∀ t i, ¬ Mt (wc (init_state (V:=V) cap nsh, (g_init, r_init))) t i) by (intros t i H; unfold Mt in H; by rewrite MT in H).
    assert (HKN : ∀ t i k, ¬ HK (wc (init_state (V:=V) cap nsh, (g_init, r_init))) t i k) by (intros t i k (p & H & _); by apply HP in H).
    assert (NTAB : nt (wc (init_state (V:=V) cap nsh, (g_init, r_init))) ≤ 1) by (rewrite NT; destruct (cap =? 0); lia).
    assert (TAB : ∀ (f : table → Prop) t tb, tables (init_state (K:=K) (V:=V) cap nsh) !! t = Some tb → t = 0 ∧ tb = new_table (Nat.max (entries_for cap) 8) PROMOTED).
    { intros f t tb. unfold init_state. cbn -[Nat.max]. destruct (cap =? 0); [done|]. destruct t; [|done]. intros [= <-]. done. }
    assert (A_root : match k_rt (wc (init_state (K:=K) (V:=V) cap nsh, (g_init, r_init))) with None => nt (wc (init_state (V:=V) cap nsh, (g_init, r_init))) = 0 | Some r => r < nt (wc (init_state (V:=V) cap nsh, (g_init, r_init))) end).
    { rewrite HR. destruct (cap =? 0) eqn:E; [by rewrite NT|]. rewrite NT. lia. }
    assert (A_next : ∀ t, t < nt (wc (init_state (K:=K) (V:=V) cap nsh, (g_init, r_init))) → fld None (k_nx (wc (init_state (V:=V) cap nsh, (g_init, r_init)))) t =
       if decide (S t < nt (wc (init_state (V:=V) cap nsh, (g_init, r_init)))) then Some (S t) else None).
    { intros t Ht. rewrite decide_False by lia. unfold fld. destruct (k_nx _ !! t) as [x|] eqn:E; [|done].
      change (t_next <$> tables (init_state (K:=K) (V:=V) cap nsh) !! t = Some x) in E || (cbn in E; rewrite list_lookup_fmap in E).
      destruct ((if cap =? 0 then _ else _) !! t) as [tb|] eqn:E2; [|done]. cbn in E. injection E as <-.
      destruct (TAB (λ _, True) t tb) as [_ ->]; [by cbn|]. done. }
    assert (A_status : ∀ t, fld PENDING (k_st (wc (init_state (K:=K) (V:=V) cap nsh, (g_init, r_init)))) t = PROMOTED → t ≤ rt (wc (init_state (V:=V) cap nsh, (g_init, r_init)))).
    { intros t H. destruct (decide (t < nt (wc (init_state (V:=V) cap nsh, (g_init, r_init))))); [lia|].
      unfold fld in H. rewrite lookup_ge_None_2 in H; [done|]. cbn. rewrite map_length. unfold nt in n. cbn in n. rewrite map_length in n. cbn in *. lia. }
    assert (A_al : ∀ t, al (wc (init_state (K:=K) (V:=V) cap nsh, (g_init, r_init))) t).
    { intros t H. unfold fld in H. destruct (k_st _ !! t) as [x|] eqn:E; [|done]. cbn in E. rewrite list_lookup_fmap in E.
      destruct ((if cap =? 0 then _ else _) !! t) as [tb|] eqn:E2; [|done]. cbn in E. injection E as <-.
      destruct (TAB (λ _, True) t tb) as [_ ->]; [by cbn|]. done. }
    assert (A_poison : ∀ t, fld LFree (k_lk (wc (init_state (K:=K) (V:=V) cap nsh, (g_init, r_init)))) t = LPoisoned → ¬ good_cfg cfg).
    { intros t H. exfalso. unfold fld in H. destruct (k_lk _ !! t) as [x|] eqn:E; [|done]. cbn in E. rewrite list_lookup_fmap in E.
      destruct ((if cap =? 0 then _ else _) !! t) as [tb|] eqn:E2; [|done]. cbn in E. injection E as <-.
      destruct (TAB (λ _, True) t tb) as [_ ->]; [by cbn|]. done. }
    split.
    - unfold IncGen.Inv. destruct (c_mode cfg).
      { split; unfold wg; cbn [fst snd g_init g_log g_pub g_ph g_pr].
      + apply core_of_lens.
      + exact A_root.
      + exact A_next.
      + intros t Ht. assert (t = 0) by lia. subst t. rewrite LN by done. apply max_pow2.
      + intros t i H. by apply NM in H.
      + intros t i p k H. by apply HP in H.
      + intros t i p H. by apply HP in H.
      + intros t i k H. by apply HKN in H.
      + intros t i j k H. by apply HKN in H.
      + intros t i p H. by apply HP in H.
      + intros t i _. unfold phase_ok. cbn. unfold CP. by rewrite EN.
      + intros t i H. rewrite RT in H. lia.
      + done.
      + done.
      + intros t i H. lia.
      + intros t H. lia.
      + intros t t' i i' k _ _ H. by apply HKN in H.
      + intros t t' i' k _ _ H. by apply HKN in H.
      + intros i p H. by apply HP in H.
      + done.
      + intros p o H. by rewrite lookup_nil in H.
      + intros p o t i H. by rewrite lookup_nil in H.
      + intros p o t i H. by rewrite lookup_nil in H.
      + intros p o t i H. by rewrite lookup_nil in H.
      + intros t i p _ H. by apply HP in H.
      + intros t i p o t' i' H. by apply HP in H.
      + intros k p. split; [done|]. intros (t & i & _ & H & _). by apply HP in H.
      + apply legal_nil.
      + intros n n' e e' p H. by rewrite lookup_nil in H.
      + intros e p H. by apply elem_of_nil in H.
      + by rewrite RT.
      + intros t n H. by rewrite lookup_nil in H.
      + intros t n n' H. by rewrite lookup_nil in H.
      + intros t k q n H. rewrite RT in H. lia.
      + exact A_status.
      + exact A_al.
      + exact A_poison. }
      { split; unfold wg; cbn [fst snd g_init g_log g_pub g_ph g_pr].
      + apply core_of_lens.
      + exact A_root.
      + exact A_next.
      + intros t Ht. assert (t = 0) by lia. subst t. rewrite LN by done. apply max_pow2.
      + intros t i H. by apply NM in H.
      + intros t i p k H. by apply HP in H.
      + intros t i p H. by apply HP in H.
      + intros t i k _ H. by apply HKN in H.
      + intros t i j k _ H. by apply HKN in H.
      + intros t i p H. by apply HP in H.
      + intros t i H. rewrite RT in H. lia.
      + intros t i H. unfold CP. by rewrite EN.
      + intros t i H. unfold CP in H. by rewrite EN in H.
      + intros t H. lia.
      + apply A_al.
      + exact A_status.
      + done.
      + intros n tb i [H _] Hn. lia.
      + intros n H. lia.
      + intros n tb i [H _] _ Hn. rewrite RT in Hn. lia.
      + intros n i H. lia.
      + intros n tb _ _ H. by destruct H.
      + intros n i' p _ _ H. by apply HP in H.
      + intros n tb i' p _ _ H. by apply HP in H.
      + done.
      + intros p o H. by rewrite lookup_nil in H.
      + intros p o t i H. by rewrite lookup_nil in H.
      + intros p o t i H. by rewrite lookup_nil in H.
      + intros p o i H. by rewrite lookup_nil in H.
      + intros p o i H. by rewrite lookup_nil in H.
      + intros i p H. by apply HP in H.
      + intros k p. split; [done|]. intros (i & H & _). by apply HP in H.
      + apply legal_nil.
      + intros n n' e e' p H. by rewrite lookup_nil in H.
      + intros e p H. by apply elem_of_nil in H.
      + by rewrite RT.
      + intros t n H. by rewrite lookup_nil in H.
      + intros t n n' H. by rewrite lookup_nil in H.
      + intros t k q n H. rewrite RT in H. lia.
      + intros t k n H. rewrite RT in H. lia.
      + intros t i p k n H. rewrite RT in H. lia.
      + exact A_poison. }
    - split.
      + intros _ t t' i i' p _ H. by apply HP in H.
      + intros p t i (e & H & _). by apply elem_of_nil in H.
      + intros p (e & H & _). by apply elem_of_nil in H.
    - split; unfold wg, wr; cbn [fst snd g_init g_log g_pub r_init r_ops].
      + intros e H. by apply elem_of_nil in H.
      + intros e p H. by apply elem_of_nil in H.
      + intros p i h H. by rewrite lookup_nil in H.
      + intros p i h H. by rewrite lookup_nil in H.
      + intros n n' e e' o H. by rewrite lookup_nil in H.
      + intros p p' i h h' H. by rewrite lookup_nil in H.
      + intros p i h e H. by rewrite lookup_nil in H.
      + intros p i h e H. by rewrite lookup_nil in H.
      + intros p i e H. by rewrite lookup_nil in H.
    - assert (DF : ∀ t p, p ∉ fld [] (d_df (wd (init_state (K:=K) (V:=V) cap nsh, (g_init, r_init)))) t).
      { intros t p. unfold fld, wd. cbn. rewrite list_lookup_fmap. destruct ((if cap =? 0 then _ else _) !! t) as [tb|] eqn:E; [|by intros ?%elem_of_nil].
        destruct (TAB (λ _, True) t tb) as [_ ->]; [by cbn|]. cbn. by intros ?%elem_of_nil. }
      assert (FR : ∀ t x, d_fr (wd (init_state (K:=K) (V:=V) cap nsh, (g_init, r_init))) !! t = Some x → x = false).
      { intros t x. unfold wd. cbn. rewrite list_lookup_fmap. destruct ((if cap =? 0 then _ else _) !! t) as [tb|] eqn:E; [|done].
        destruct (TAB (λ _, True) t tb) as [_ ->]; [by cbn|]. by intros [= <-]. }
      split.
      + apply side_lens.
      + intros t H. by apply FR in H.
      + intros t H. by apply elem_of_nil in H.
      + done.
      + done.
      + intros t H. rewrite RT in H. lia.
      + intros p H. by apply elem_of_nil in H.
      + done.
      + intros t p H. by apply DF in H.
      + intros t. destruct (fld _ _ t) as [|p l] eqn:E; [by apply stdpp.list.NoDup_nil|]. destruct (DF t p). rewrite E. apply elem_of_cons. by left.
      + intros t t' p H. by apply DF in H.
      + intros t H. by apply FR in H.
      + intros p (e & H & _). by apply elem_of_nil in H.
      + intros it H. by apply elem_of_nil in H.
      + by apply stdpp.list.NoDup_nil.
      + intros p H. by apply elem_of_nil in H.
      + intros o H. by apply elem_of_nil in H.
      + by apply stdpp.list.NoDup_nil.
      + by apply stdpp.list.NoDup_nil.
      + intros it me H. by apply elem_of_nil in H.
      + intros me H. by apply elem_of_nil in H.
      + intros me t H. by apply elem_of_nil in H.
      + intros me t i p H. by apply elem_of_nil in H.
    - split.
      + unfold wd. cbn. by rewrite replicate_length.
      + unfold wd, wr. cbn. assert (Z1 : ∀ n, zsum (replicate n 0%Z) = 0%Z) by (unfold zsum; induction n as [|n IH]; [done|cbn [replicate foldr]; by rewrite IH]). rewrite Z1.
        assert (Z2 : ∀ l : list nat, zsum (map (λ _, 0%Z) l) = 0%Z) by (unfold zsum; induction l as [|? l IH]; [done|cbn [map foldr]; by rewrite IH]). by rewrite Z2.
  Qed.
End init.
