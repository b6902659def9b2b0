(** Program logic of a running operation: stable facts, and a rule for every primitive read. *)
From Verif Require Export IncLift3.

Global Arguments wp : simpl never.

Section rules.
  Context {K V : Type} {Keq : EqDecision K} (cfg : config K) (nthr nsh me opid : nat) (o : op K V).
  Notation core := (core K V). Notation ghost := (@ghost K). Notation event := (event K).
  Notation world := (@world K V). Notation rghost := (@rghost K V). Notation prog := (prog K V).
  Notation Inv := (Inv cfg). Notation WI := (WI cfg nthr nsh).
  Notation fr := (fr cfg nthr nsh me opid). Notation fx := (fx cfg nthr nsh me opid). Notation mv := (mv cfg nthr nsh me).
  Notation wext := (wext cfg nthr nsh me opid). Notation wgrd := (wgrd me opid).
  Notation ix := (ix cfg). Notation passes := (passes cfg). Notation visited := (visited cfg).
  Notation fresh := IncFacts.fresh.
  Implicit Types w : world.

  (** Which panics an operation may raise. *)
  Definition okr (r : preason) : Prop :=
    match r with
    | PRemoveNone => ∃ k f, o = OCompute k f ∧ f None = OpRemove
    | PUser => ∃ k f x, o = OCompute k f ∧ f x = OpPanic
    | PAllocPow2 | PPoison => ¬ good_cfg cfg
    | _ => False
    end.
  (** A call that panics has not acted on the map (a sweep: has no deletion under way). *)
  Definition qtw (w : world) : Prop := (∀ p h, g_pub (wg w) !! p ≠ Some (opid, h)) ∧ (multi o = true ∨ unused (wg w) opid).
  Definition okf (r : preason) (w : world) : Prop := okr r ∧ qtw w.
  Record TI (w : world) : Prop := MkTI {
    ti_wi : WI w;
    ti_pin : me ∈ d_pins (wd w);
    ti_thr : me < nthr;
    ti_op : r_ops (wr w) !! opid = Some o }.
  (** What a step guarantees: to the other threads, and to the thread itself (its references stay protected). *)
  Definition wgm (w w' : world) : Prop := wgrd w w' ∧ mv w w'.
  Definition WP {A} (p : prog A) (Q : A → world → Prop) (w : world) : Prop := wp me TI wext wgm okf False p Q w.

  Lemma TI_mv w w' : TI w → WI w' → mv w w' → TI w'.
  Proof.
    intros [A B C D] W M. pose proof (mv_extm _ _ _ _ _ _ M) as X. split; auto.
    - by apply (xm_pin _ _ _ _ _ X).
    - eapply prefix_lookup; [done|apply X].
  Qed.
  Lemma TI_inv w : TI w → Inv (wc w) (wg w).
  Proof. intros T. apply T. Qed.

  (** ** Rules for program structure *)
  Lemma WP_bind {A B} (p : prog A) (k : A → prog B) Q w : WP p (λ a w', WP (k a) Q w') w → WP (bind p k) Q w.
  Proof. apply wp_bind. intros. apply wext_refl. Qed.
  Lemma WP_mono {A} (p : prog A) (Q Q' : A → world → Prop) w :
    WP p Q w → (∀ a w', TI w' → Q a w' → Q' a w') → WP p Q' w.
  Proof. apply wp_mono. Qed.
  (** Sequencing through a specification. *)
  Lemma WP_seq {A B} (p : prog A) (k : A → prog B) (P : A → world → Prop) Q w :
    WP p P w → (∀ a w', TI w' → P a w' → WP (k a) Q w') → WP (bind p k) Q w.
  Proof. intros H1 H2. apply WP_bind. eapply WP_mono; [exact H1|]. auto. Qed.
  Lemma WP_ret {A} (a : A) (Q : A → world → Prop) w : (∀ w', wext w w' → TI w' → Q a w') → WP (Ret a) Q w.
  Proof. apply wp_ret. Qed.
  Lemma WP_fail {A} r (Q : A → world → Prop) w : (∀ w', wext w w' → TI w' → okf r w') → WP (Fail r) Q w.
  Proof. apply wp_fail. Qed.
  Lemma WP_loop {S B} (J : S → world → Prop) (body : S → prog (S + B)) s Q w :
    (∀ w', wext w w' → TI w' → J s w') →
    (∀ s w, J s w → TI w → WP (body s) (λ r w', match r with inl s' => J s' w' | inr b => Q b w' end) w) →
    WP (loop body s) Q w.
  Proof. apply wp_loop. intros. by eapply wext_trans. Qed.

  (** One atomic step. *)
  Lemma WP_act {X A} (f : action K V X) (k : X → prog A) Q w :
    (∀ w', wext w w' → TI w' → ∀ b, f me b w'.1 ≠ UB ∧ ∀ x σ', f me b w'.1 = Ok x σ' →
       ∃ γ', WI (σ', γ') ∧ wgrd w' (σ', γ') ∧ mv w' (σ', γ') ∧ (TI (σ', γ') → WP (k x) Q (σ', γ'))) →
    WP (Act f k) Q w.
  Proof.
    intros H w' E T b. destruct (H w' E T b) as [NU S]. destruct (f me b w'.1) as [x σ'| |]; [|done|done].
    destruct (S x σ' eq_refl) as (γ' & W & G & M & P). assert (T' : TI (σ', γ')) by (by eapply TI_mv).
    exists γ'. split; [done|]. split; [done|]. by apply P.
  Qed.

  (** A step that changes neither the core nor the side state. *)
  Lemma WP_noop {X A} (f : action K V X) (k : X → prog A) Q w :
    inert f → sneutral f →
    (∀ w', wext w w' → TI w' → ∀ b, f me b w'.1 ≠ UB ∧ ∀ x σ', f me b w'.1 = Ok x σ' → 
       ∀ w2, w2 = (σ', w'.2) → wc w2 = wc w' → wd w2 = wd w' → fr w' w2 → TI w2 → WP (k x) Q w2) →
    WP (Act f k) Q w.
  Proof.
    intros IN SN H. apply WP_act. intros w' E T b. destruct (H w' E T b) as [NU S]. split; [done|].
    intros x σ' Ef. destruct (lift_noop cfg nthr nsh me w' σ' (ti_wi _ T) (IN _ _ _ _ _ Ef) (SN _ _ _ _ _ Ef)) as [W F].
    destruct (F opid) as [G R]. exists w'.2. split; [done|]. split; [done|]. split; [by eapply fr_mv|].
    intros T2. eapply S; eauto. all: unfold wc, wd; cbn [fst]; [by eapply IN|by eapply SN].
  Qed.

  (** ** Facts *)
  Definition hok (w : world) (tb : tref) : Prop := hvalid (wc w) tb ∧ r_base (wr w) me ≤ th tb.
  Definition psd (w : world) (t : nat) (k : K) (q : nat) : Prop := t < nt (wc w) ∧ passes (wc w) t k q.
  Definition frs (w : world) (n0 t : nat) : Prop := n0 ≤ length (g_log (wg w)) ∧ fresh (wc w) (wg w) n0 t.
  Definition pro (w : world) (p : nat) : Prop := prot me (wd w) p ∧ me ∈ d_pins (wd w).
  Definition hpw (w : world) (p : nat) (kv : K * V) : Prop := k_hp (wc w) !! p = Some kv.
  Definition visw (w : world) (t : nat) (k : K) : Prop := visited (wc w) t k.
  Definition Mtw (w : world) (t i : nat) : Prop := Mt (wc w) t i.
  Definition CPw (w : world) (t i : nat) : Prop := CP (wc w) t i.
  Definition passw (w : world) (t : nat) (k : K) : Prop := pass cfg (wc w) t k.
  Definition hk2 (w : world) (t i : nat) (m : N) : Prop :=
    en (k_sl (wc w)) t i ≠ NULLW ∧ ∀ k, HK (wc w) t i k → h2_of cfg k = m.
  Definition skipw (w : world) (t i : nat) (k : K) : Prop := en (k_sl (wc w)) t i ≠ NULLW ∧ ¬ HK (wc w) t i k.
  Definition wit (w : world) (n0 : nat) (k : K) (r : option nat) : Prop :=
    ∃ n, n0 ≤ n ∧ n ≤ length (g_log (wg w)) ∧ rp n (g_log (wg w)) k = r.
  Definition rtw (w : world) (t : nat) : Prop := t ≤ rt (wc w).
  (** [t] is or was the root. *)
  Definition raw (w : world) (t : nat) : Prop := t ≤ rt (wc w) ∧ al (wc w) t.
  Definition ntw (w : world) (t : nat) : Prop := t < nt (wc w).
  Definition nrt (w : world) : Prop := k_rt (wc w) ≠ None.
  Definition didw (w : world) (e : event) : Prop := e ∈ g_log (wg w) ∧ ev_op e = opid.
  Definition nohp (w : world) (p t0 : nat) : Prop := gone (wg w) p ∧ ∀ t i, t0 ≤ t → al (wc w) t → ¬ Hp (wc w) t i p.
  (** Facts that only other threads preserve. *)
  Definition clean (w : world) : Prop := unused (wg w) opid.
  Definition npub (w : world) : Prop := ∀ p h, g_pub (wg w) !! p ≠ Some (opid, h).
  Definition own (w : world) (x : option robj) (z : Z) : Prop := r_own (wr w) me = x ∧ r_pend (wr w) me = z.

  Lemma mv_ext w w' : mv w w' → w = w' ∨ (Inv (wc w) (wg w) ∧ ∃ j, ext0 j (wc w) (wg w) (wc w') (wg w')).
  Proof.
    intros M. pose proof (mv_ext0 _ _ _ _ _ _ M) as X. destruct M as [->|(A & B & _)]; [auto|]. right. split; [apply A|done].
  Qed.
  Ltac st M := let E := fresh in let I := fresh "I" in let j := fresh in let X := fresh "X" in
    destruct (mv_ext _ _ M) as [<-|(I & j & X)]; [done|].
  Lemma st_hok w w' tb : mv w w' → hok w tb → hok w' tb.
  Proof.
    intros M [A B]. split; [|by rewrite (xm_base _ _ _ _ _ (mv_extm _ _ _ _ _ _ M))]. st M. by eapply st_hvalid.
  Qed.
  Lemma st_psd w w' t k q : mv w w' → psd w t k q → psd w' t k q.
  Proof. intros M [A B]. st M. split; [by eapply Nat.lt_le_trans; [|apply X]|]. by eapply st_passes. Qed.
  Lemma st_frs w w' n0 t : mv w w' → frs w n0 t → frs w' n0 t.
  Proof. intros M [A B]. st M. split; [etrans; [done|by eapply st_loglen]|]. by eapply st_fresh. Qed.
  Lemma st_pro w w' p : mv w w' → pro w p → pro w' p.
  Proof.
    intros M [A B]. pose proof (mv_extm _ _ _ _ _ _ M) as X. split; [by apply (xm_prot _ _ _ _ _ X)|by apply (xm_pin _ _ _ _ _ X)].
  Qed.
  Lemma st_hpw w w' p kv : mv w w' → hpw w p kv → hpw w' p kv.
  Proof. intros M A. st M. eapply prefix_lookup; [done|apply X]. Qed.
  Lemma st_visw w w' t k : mv w w' → visw w t k → visw w' t k.
  Proof. intros M A. st M. by eapply st_visited. Qed.
  Lemma st_Mtw w w' t i : mv w w' → Mtw w t i → Mtw w' t i.
  Proof. intros M A. st M. by eapply st_Mt. Qed.
  Lemma st_CPw w w' t i : mv w w' → CPw w t i → CPw w' t i.
  Proof. intros M A. st M. by eapply st_CP. Qed.
  Lemma st_passw w w' t k : mv w w' → passw w t k → passw w' t k.
  Proof. intros M A. st M. by eapply st_pass. Qed.
  Lemma st_hk2 w w' t i m : mv w w' → hk2 w t i m → hk2 w' t i m.
  Proof.
    intros M [A B]. st M. split; [by eapply st_nl|]. intros k Hk. destruct (decide (h2_of cfg k = m)) as [|N]; [done|].
    exfalso. revert Hk. eapply st_notHK; eauto.
  Qed.
  Lemma st_skipw w w' t i k : mv w w' → skipw w t i k → skipw w' t i k.
  Proof. intros M [A B]. st M. split; [by eapply st_nl|]. by eapply st_notHK. Qed.
  Lemma st_wit w w' n0 k r : mv w w' → wit w n0 k r → wit w' n0 k r.
  Proof.
    intros M W. st M. destruct W as (n & A & B & C). exists n. split; [done|]. split; [etrans; [done|by eapply st_loglen]|]. by erewrite st_rp.
  Qed.
  Lemma st_rtw w w' t : mv w w' → rtw w t → rtw w' t.
  Proof. intros M A. st M. unfold rtw in *. etrans; [done|apply X]. Qed.
  Lemma st_raw w w' t : mv w w' → raw w t → raw w' t.
  Proof. intros M [A B]. st M. split; [etrans; [done|apply X]|by apply (x_al _ _ _ _ _ X)]. Qed.
  Lemma st_ntw w w' t : mv w w' → ntw w t → ntw w' t.
  Proof. intros M A. st M. unfold ntw in *. eapply Nat.lt_le_trans; [done|apply X]. Qed.
  Lemma st_nrt w w' : mv w w' → nrt w → nrt w'.
  Proof. intros M A. st M. by apply X. Qed.
  Lemma st_didw w w' e : mv w w' → didw w e → didw w' e.
  Proof. intros M [A B]. st M. split; [|done]. eapply elem_of_prefix; [done|apply X]. Qed.
  Lemma st_nohp w w' p t0 : mv w w' → nohp w p t0 → nohp w' p t0.
  Proof.
    intros M [A B]. destruct M as [<-|(I1 & I2 & [M0 Ml Mm])]; [done|].
    destruct (unused_ex (wg w')) as [j Hj]. pose proof (M0 j Hj) as X. split.
    - eapply goneL_prefix; [apply X|done].
    - intros t i L Al H. eapply B; [done|by apply (x_st _ _ _ _ _ X)|]. by apply (xl_gone _ _ _ _ Ml).
  Qed.
  Lemma st_len w w' : mv w w' → length (g_log (wg w)) ≤ length (g_log (wg w')).
  Proof. intros M. st M. by eapply st_loglen. Qed.

  Lemma fr_clean w w' : fr w w' → clean w → clean w'.
  Proof.
    intros [F _] [U1 U2]. pose proof (fx_ext0 _ _ _ _ _ _ _ F) as X. split.
    - intros e He E. apply elem_of_list_lookup in He as [n Hn]. destruct (decide (n < length (g_log (wg w)))) as [L|L].
      + destruct (lookup_lt_is_Some_2 (g_log (wg w)) n L) as [e' He']. pose proof (prefix_lookup _ _ _ _ He' (x_log _ _ _ _ _ X)).
        assert (e' = e) as -> by congruence. exact (U1 e (elem_of_list_lookup_2 _ _ _ He') E).
      + destruct (x_evs _ _ _ _ _ X n e Hn ltac:(lia) E) as (p & h & _ & P & _). by apply U2 in P.
    - intros p h H. pose proof (x_pubs _ _ _ _ _ X p h H) as L. destruct (lookup_lt_is_Some_2 _ _ L) as [y Hy].
      pose proof (prefix_lookup _ _ _ _ Hy (x_pub _ _ _ _ _ X)). simplify_eq. by apply U2 in Hy.
  Qed.
  Lemma fr_npub w w' : fr w w' → npub w → npub w'.
  Proof.
    intros [F _] U2 p h H. pose proof (fx_ext0 _ _ _ _ _ _ _ F) as X.
    pose proof (x_pubs _ _ _ _ _ X p h H) as L. destruct (lookup_lt_is_Some_2 _ _ L) as [y Hy].
    pose proof (prefix_lookup _ _ _ _ Hy (x_pub _ _ _ _ _ X)). simplify_eq. by apply U2 in Hy.
  Qed.
  Lemma clean_npub w : clean w → npub w.
  Proof. intros [_ A]. exact A. Qed.
  Lemma fx_clean w w' : fx w w' → clean w → clean w'.
  Proof.
    intros F C. pose proof (fx_ext0 _ _ _ _ _ _ _ F) as X. destruct C as [U1 U2]. split.
    - intros e He E. apply elem_of_list_lookup in He as [n Hn]. destruct (decide (n < length (g_log (wg w)))) as [L|L].
      + destruct (lookup_lt_is_Some_2 (g_log (wg w)) n L) as [e' He']. pose proof (prefix_lookup _ _ _ _ He' (x_log _ _ _ _ _ X)).
        assert (e' = e) as -> by congruence. exact (U1 e (elem_of_list_lookup_2 _ _ _ He') E).
      + destruct (x_evs _ _ _ _ _ X n e Hn ltac:(lia) E) as (p & h & _ & P & _). by apply U2 in P.
    - intros p h H. pose proof (x_pubs _ _ _ _ _ X p h H) as L. destruct (lookup_lt_is_Some_2 _ _ L) as [y Hy].
      pose proof (prefix_lookup _ _ _ _ Hy (x_pub _ _ _ _ _ X)). simplify_eq. by apply U2 in Hy.
  Qed.
  Lemma fx_npub w w' : fx w w' → npub w → npub w'.
  Proof.
    intros F U2 p h H. pose proof (fx_ext0 _ _ _ _ _ _ _ F) as X.
    pose proof (x_pubs _ _ _ _ _ X p h H) as L. destruct (lookup_lt_is_Some_2 _ _ L) as [y Hy].
    pose proof (prefix_lookup _ _ _ _ Hy (x_pub _ _ _ _ _ X)). simplify_eq. by apply U2 in Hy.
  Qed.
  Lemma fr_qtw w w' : fr w w' → qtw w → qtw w'.
  Proof. intros F [A B]. split; [by apply (fr_npub w w' F)|]. destruct B as [B|B]; [by left|right; by apply (fr_clean w w' F)]. Qed.
  Lemma fx_qtw w w' : fx w w' → qtw w → qtw w'.
  Proof. intros F [A B]. split; [by apply (fx_npub w w' F)|]. destruct B as [B|B]; [by left|right; by apply (fx_clean w w' F)]. Qed.
  Lemma clean_qtw w : clean w → qtw w.
  Proof. intros C. split; [by apply clean_npub|by right]. Qed.
  Lemma npub_qtw w : multi o = true → npub w → qtw w.
  Proof. intros M C. split; [done|by left]. Qed.
  Lemma fr_own w w' x z : fr w w' → own w x z → own w' x z.
  Proof. intros [_ R] [A B]. split; [by rewrite (xr_own _ _ _ R)|by rewrite (xr_pend _ _ _ R)]. Qed.

  (** ** Using facts *)
  Lemma hok_len w tb : TI w → hok w tb → lnc (wc w) (th tb) = th_len tb ∧ lim (wc w) (th tb) = th_limit tb ∧ th tb < nt (wc w).
  Proof.
    intros T [(A & B & C) _]. destruct (i_pow _ _ _ (TI_inv _ T) _ A) as (b & _ & E). unfold th_len, lnc, lim in *.
    pose proof (pow2_pos b). split_and!; auto; lia.
  Qed.
  Lemma hok_ix w tb k q : TI w → hok w tb → ix (wc w) (th tb) k q = probe_idx (c_hash cfg k) (th_mask tb) q.
  Proof. intros T [(A & B & C) _]. unfold IncInv.ix. by rewrite B. Qed.
  Lemma hok_tok w tb : TI w → hok w tb → tok (wd w) (th tb).
  Proof. intros T [(A & B & C) L]. exact (proj1 (rr_pint _ _ _ _ (wi_rr _ _ _ _ (ti_wi _ T)) me (th tb) (ti_pin _ T) L A)). Qed.
  Lemma root_tok w t : TI w → k_rt (wc w) = Some t → tok (wd w) t.
  Proof.
    intros T E. pose proof (wi_rr _ _ _ _ (ti_wi _ T)) as R. pose proof (i_root _ _ _ (TI_inv _ T)) as L. rewrite E in L.
    apply (rr_pint _ _ _ _ R me); [apply T| |done]. destruct (rr_base _ _ _ _ R me (ti_pin _ T)) as [X _]. unfold rt in X. by rewrite E in X.
  Qed.
  Lemma root_base w t : TI w → k_rt (wc w) = Some t → r_base (wr w) me ≤ t.
  Proof.
    intros T E. pose proof (wi_rr _ _ _ _ (ti_wi _ T)) as R.
    destruct (rr_base _ _ _ _ R me (ti_pin _ T)) as [X _]. unfold rt in X. by rewrite E in X.
  Qed.
  Lemma hok_pro w tb i p : TI w → hok w tb → Hp (wc w) (th tb) i p → pro w p ∧ ∃ kv, hpw w p kv.
  Proof.
    intros T [A L] H. split.
    - split; [|apply T]. exact (rr_pine _ _ _ _ (wi_rr _ _ _ _ (ti_wi _ T)) me (th tb) i p (ti_pin _ T) L H).
    - apply lookup_lt_is_Some_2. by eapply (i_ptr _ _ _ (TI_inv _ T)).
  Qed.
  Lemma hok_next w tb : TI w → hok w tb → 
    fld None (k_nx (wc w)) (th tb) = if decide (S (th tb) < nt (wc w)) then Some (S (th tb)) else None.
  Proof. intros T [(A & _) L]. by apply (i_next _ _ _ (TI_inv _ T)). Qed.
  Lemma inb_of w tb i : TI w → hok w tb → i < th_len tb → inb (wc w) (th tb) i.
  Proof. intros T H L. destruct (hok_len _ _ T H) as (E & _ & B). split; [done|]. unfold lnc in E. lia. Qed.

  Lemma wext_mv w w' : wext w w' → mv w w'.
  Proof. intros X. by eapply fr_mv, wext_fr. Qed.

  (** ** Reads *)
  Lemma WP_read {X A} (f : action K V X) (k : X → prog A) Q w (E : core → X → core → Prop) :
    effect f (λ _, E) → sneutral f → (∀ me' b σ x σ', f me' b σ = Ok x σ' → σ' = σ) →
    (∀ w', wext w w' → TI w' → (∀ b, f me b w'.1 ≠ UB) ∧ ∀ x, E (wc w') x (wc w') → WP (k x) Q w') →
    WP (Act f k) Q w.
  Proof.
    intros EF SN RD H. apply WP_noop; [|done|].
    { intros ? ? ? ? ? Ef. by rewrite (RD _ _ _ _ _ Ef). }
    intros w' X' T b. destruct (H w' X' T) as [NU S]. split; [done|]. intros x σ' Ef w2 -> _ _ _ T2.
    pose proof (RD _ _ _ _ _ Ef) as ->. assert (Ew : (w'.1, w'.2) = w') by (by destruct w'). rewrite Ew. apply S.
    by apply (EF _ _ _ _ _ Ef).
  Qed.

  Ltac rd_slot := let H := fresh in intros ? ? ? ? ? H; by apply with_slot_inv in H as (? & ? & _ & _ & _ & [= <- <-] & _).
  Ltac rd_tab := let H := fresh in intros ? ? ? ? ? H; by apply with_table_inv in H as (? & _ & _ & [= <- <-] & _).

  Lemma r_load_meta {A} tb i (k : N → prog A) Q w : hok w tb → i < th_len tb →
    (∀ w', wext w w' → TI w' → WP (k (mt (k_sl (wc w')) (th tb) i)) Q w') → WP (Act (a_load_meta tb i) k) Q w.
  Proof.
    intros H L S. eapply WP_read; [apply eff_load_meta|apply sn_load_meta|rd_slot|]. intros w' X T.
    pose proof (st_hok _ _ _ (wext_mv _ _ X) H) as H'. split.
    - intros b. apply nub_slot; [by apply hok_tok|by apply inb_of|done].
    - intros x (_ & _ & ->). by apply S.
  Qed.
  Lemma r_load_ent {A} tb i (k : eword → prog A) Q w : hok w tb → i < th_len tb →
    (∀ w', wext w w' → TI w' → WP (k (en (k_sl (wc w')) (th tb) i)) Q w') → WP (Act (a_load_ent tb i) k) Q w.
  Proof.
    intros H L S. eapply WP_read; [apply eff_load_ent|apply sn_load_ent|rd_slot|]. intros w' X T.
    pose proof (st_hok _ _ _ (wext_mv _ _ X) H) as H'. split.
    - intros b. apply nub_slot; [by apply hok_tok|by apply inb_of|done].
    - intros x (_ & _ & ->). by apply S.
  Qed.
  Lemma r_deref {A} p kv (k : K * V → prog A) Q w : pro w p → hpw w p kv →
    (∀ w', wext w w' → TI w' → WP (k kv) Q w') → WP (Act (a_deref p) k) Q w.
  Proof.
    intros P H S. eapply WP_read; [apply eff_deref|apply sn_deref| |].
    { intros ? ? σ ? ?. unfold a_deref. case_decide; [done|]. destruct (heap σ !! p); [|done]. by intros [= <- <-]. }
    intros w' X T. apply (st_pro _ _ _ (wext_mv _ _ X)) in P. apply (st_hpw _ _ _ _ (wext_mv _ _ X)) in H. split.
    - intros b. apply nub_deref; [apply P|by eapply lookup_lt_Some].
    - intros x (_ & E). unfold hpw in H. rewrite H in E. injection E as <-. by apply S.
  Qed.
  Lemma r_root {A} (k : option tref → prog A) Q w :
    (∀ w', wext w w' → TI w' → (k_rt (wc w') = None → WP (k None) Q w') ∧
        ∀ tb, k_rt (wc w') = Some (th tb) → hok w' tb → WP (k (Some tb)) Q w') → WP (Act a_root k) Q w.
  Proof.
    intros S. eapply WP_read; [apply eff_root|apply sn_root| |].
    { intros ? ? σ ? ?. unfold a_root. destruct (root σ) as [t|]; [|by intros [= <- <-]].
      intros H. by apply with_table_inv in H as (? & _ & _ & [= <- <-] & _). }
    intros w' X T. destruct (S w' X T) as [S1 S2]. split.
    - intros b. apply nub_root. intros t. by apply root_tok.
    - intros [tb|] [_ E]; [|by apply S1]. destruct E as [E H]. apply S2; [done|]. split; [done|]. by apply root_base.
  Qed.
  Lemma r_root_raw {A} (k : option nat → prog A) Q w :
    (∀ w', wext w w' → TI w' → WP (k (k_rt (wc w'))) Q w') → WP (Act a_root_raw k) Q w.
  Proof.
    intros S. eapply WP_read; [apply eff_root_raw|apply sn_root_raw| |].
    { by intros ? ? σ ? ? [= <- <-]. }
    intros w' X T. split; [done|]. intros x [_ ->]. by apply S.
  Qed.
  Lemma r_next {A} tb (k : option tref → prog A) Q w : hok w tb →
    (∀ w', wext w w' → TI w' → (S (th tb) = nt (wc w') → WP (k None) Q w') ∧
        ∀ nx, th nx = S (th tb) → hok w' nx → WP (k (Some nx)) Q w') → WP (Act (a_next tb) k) Q w.
  Proof.
    intros H S. eapply WP_read; [apply eff_next|apply sn_next| |].
    { intros ? ? σ ? ? E. apply with_table_inv in E as (t & _ & _ & E & _). destruct (t_next t); [|by injection E as <- <-].
      by apply with_table_inv in E as (? & _ & _ & [= <- <-] & _). }
    intros w' X T. apply (st_hok _ _ _ (wext_mv _ _ X)) in H. destruct (S w' X T) as [S1 S2]. pose proof (hok_next _ _ T H) as N.
    destruct H as [Hv Hb] eqn:EH. split.
    - intros b. apply nub_next; [by apply hok_tok|]. intros t E. change (core_of w'.1) with (wc w') in E. rewrite N in E.
      case_decide as D; [|done]. injection E as <-.
      apply (rr_pint _ _ _ _ (wi_rr _ _ _ _ (ti_wi _ T)) me); [apply T|lia|done].
    - intros [nx|] (_ & L & E).
      + destruct E as [E Hn]. rewrite N in E. case_decide; [|done]. injection E as E. apply S2; [done|]. split; [done|lia].
      + apply S1. rewrite N in E. case_decide; [done|]. lia.
  Qed.
  Lemma r_load_copied {A} tb (k : nat → prog A) Q w : hok w tb →
    (∀ w', wext w w' → TI w' → WP (k (fld 0 (k_cd (wc w')) (th tb))) Q w') → WP (Act (a_load_copied tb) k) Q w.
  Proof.
    intros H S. eapply WP_read; [apply eff_load_copied|apply sn_load_copied|rd_tab|]. intros w' X T.
    apply (st_hok _ _ _ (wext_mv _ _ X)) in H. split; [intros b; apply nub_table; [by apply hok_tok|done]|].
    intros x (_ & _ & ->). by apply S.
  Qed.
  Lemma r_load_claim {A} tb (k : nat → prog A) Q w : hok w tb →
    (∀ w', wext w w' → TI w' → WP (k (fld 0 (k_cl (wc w')) (th tb))) Q w') → WP (Act (a_load_claim tb) k) Q w.
  Proof.
    intros H S. eapply WP_read; [apply eff_load_claim|apply sn_load_claim|rd_tab|]. intros w' X T.
    apply (st_hok _ _ _ (wext_mv _ _ X)) in H. split; [intros b; apply nub_table; [by apply hok_tok|done]|].
    intros x (_ & _ & ->). by apply S.
  Qed.
  Lemma r_load_status {A} tb (k : status → prog A) Q w : hok w tb →
    (∀ w', wext w w' → TI w' → WP (k (fld PENDING (k_st (wc w')) (th tb))) Q w') → WP (Act (a_load_status tb) k) Q w.
  Proof.
    intros H S. eapply WP_read; [apply eff_load_status|apply sn_load_status|rd_tab|]. intros w' X T.
    apply (st_hok _ _ _ (wext_mv _ _ X)) in H. split; [intros b; apply nub_table; [by apply hok_tok|done]|].
    intros x (_ & _ & ->). by apply S.
  Qed.
  Lemma r_shards {A} (k : nat → prog A) Q w : (∀ w', wext w w' → TI w' → WP (k (length (d_cnt (wd w')))) Q w') → WP (Act a_shards k) Q w.
  Proof.
    intros S. apply WP_noop; [apply inert_shards|apply sn_shards|]. intros w' X T b. split; [done|].
    intros x σ' [= <- <-] w2 -> _ _ _ T2. assert (Ew : (w'.1, w'.2) = w') by (by destruct w'). rewrite Ew. by apply S.
  Qed.
  Lemma r_load_shard {A} j (k : Z → prog A) Q w :
    (∀ w', wext w w' → TI w' → WP (k (default 0%Z (d_cnt (wd w') !! j))) Q w') → WP (Act (a_load_shard j) k) Q w.
  Proof.
    intros S. apply WP_noop; [apply inert_load_shard|apply sn_load_shard|]. intros w' X T b. split; [done|].
    intros x σ' [= <- <-] w2 -> _ _ _ T2. assert (Ew : (w'.1, w'.2) = w') by (by destruct w'). rewrite Ew. by apply S.
  Qed.

  (** Steps on the parkers. *)
  Lemma r_parker {X A} (f : action K V X) (k : X → prog A) Q w :
    inert f → sneutral f → (∀ w' b, TI w' → mv w w' → f me b w'.1 ≠ UB) →
    (∀ x w1 w', wext w w1 → TI w1 → fr w1 w' → TI w' → wc w' = wc w1 → wg w' = wg w1 → WP (k x) Q w') → WP (Act f k) Q w.
  Proof.
    intros IN SN NU S. apply WP_noop; [done|done|]. intros w' X' T b. split; [apply NU; [done|by apply wext_mv]|].
    intros x σ' Ef w2 -> Ec Ed F T2. by eapply S.
  Qed.
  Lemma r_should_park {A} tb key (k : bool → prog A) Q w : hok w tb → (∀ i, key = KEntry i → i < th_len tb) →
    (∀ w', wext w w' → TI w' → ∀ b, (b = false → match key with
        | KStatus => fld PENDING (k_st (wc w')) (th tb) ≠ PENDING
        | KEntry i => CD (wc w') (th tb) i end) → WP (k b) Q w') → WP (Act (a_should_park tb key) k) Q w.
  Proof.
    intros H L S. eapply WP_read; [apply eff_should_park|apply sn_should_park| |].
    { intros ? ? ? ? ? E. destruct key; [by apply with_table_inv in E as (? & _ & _ & [= <- <-] & _)|].
      by apply with_slot_inv in E as (? & ? & _ & _ & _ & [= <- <-] & _). }
    intros w' X T. apply (st_hok _ _ _ (wext_mv _ _ X)) in H. split.
    - intros b. destruct key; [apply nub_table; [by apply hok_tok|done]|apply nub_slot; [by apply hok_tok|apply inb_of; auto|done]].
    - intros x (_ & _ & E). apply S; auto. intros ->. destruct key.
      + symmetry in E. by apply bool_decide_eq_false in E.
      + destruct E as [_ E]. unfold CD. by destruct (e_copied _).
  Qed.
End rules.
