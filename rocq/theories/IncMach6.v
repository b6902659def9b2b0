(** The invariant of the machine and its preservation by every step. *)
From Verif Require Export IncMach5.

Section mi.
  Context {K V : Type} {Keq : EqDecision K} (cfg : config K) (nthr nsh : nat).
  Notation op := (op K V). Notation hevent := (hevent K V). Notation world := (@world K V). Notation vres := (vres K V).
  Notation WI := (WI cfg nthr nsh). Notation lg w := (length (g_log (wg w))). Notation hpo w := (k_hp (wc w)).
  Implicit Types (H : list hevent) (w : world) (c : mconf K V).
  Notation dat := (list (nat * nat)). Notation HI := (HI cfg). Notation rdrec := (@rdrec K V).
  Notation mv := (mv cfg nthr nsh). Notation itsok := (itsok cfg nthr nsh). Notation itok := (itok cfg nthr nsh).
  Notation TI := (TI cfg nthr nsh). Notation WP := (WP cfg nthr nsh). Notation opost := (opost cfg nthr nsh).
  Notation thr_ok := (thr_ok cfg nthr nsh). Notation run_ok := (run_ok cfg nthr nsh). Notation idle_ok := (idle_ok cfg nthr nsh).
  Notation grows := (grows cfg nthr nsh). Notation HC := (mc_hist).

  (** References returned to a thread stay readable, and protected, as long as it holds its guard. *)
  Definition refok w H : Prop := ∀ h i id o r v, H !! h = Some (HRes i id o r v) → guard_held i h H →
    to_vals o w.1 r = Some v ∧ ∀ p, p ∈ refs r → pro i w p.
  Lemma rd_mono (σ σ' : state K V) p kv : heap σ `prefix_of` heap σ' → p ∉ freed σ' → rd σ p = Some kv → rd σ' p = Some kv.
  Proof. intros P N. unfold rd. rewrite (decide_False (P := p ∈ freed σ')) by done. case_decide; [done|]. intros E. by eapply prefix_lookup. Qed.
  Lemma to_vals_mono (σ σ' : state K V) o r v : heap σ `prefix_of` heap σ' → (∀ p, p ∈ refs r → p ∉ freed σ') →
    to_vals o σ r = Some v → to_vals o σ' r = Some v.
  Proof.
    intros P N E.
    assert (M : ∀ p kv, p ∈ refs r → rd σ p = Some kv → rd σ' p = Some kv) by (intros p kv Hp; apply rd_mono; auto).
    assert (M1 : ∀ (A : Type) (f : K * V → A) p a, p ∈ refs r → f <$> rd σ p = Some a → f <$> rd σ' p = Some a).
    { intros A f p a Hp. destruct (rd σ p) as [kv|] eqn:Er; [|done]. by rewrite (M p kv Hp Er). }
    assert (M2 : ∀ (A : Type) (f : option (K * V) → A) q a, (∀ p, q = Some p → p ∈ refs r) → f <$> rd_opt σ q = Some a → f <$> rd_opt σ' q = Some a).
    { intros A f [p|] a Hp; [|done]. cbn. destruct (rd σ p) as [kv|] eqn:Er; [|done]. by rewrite (M p kv (Hp p eq_refl) Er). }
    destruct o; destruct r as [[p|]|[p|p|p]|[p| |p]|[p|p q|p|[p|]] cs| |n1|q|j1 i1 [p|]]; cbn [to_vals] in *; try done;
      try (by eapply M1; [by apply elem_of_list_singleton|]);
      try (by eapply M2; [intros ? [= <-]; by apply elem_of_list_singleton|]);
      try (by eapply M1; [by apply elem_of_cons; right; apply elem_of_list_singleton|]).
    destruct (rd σ p) as [a|] eqn:E1; [|done]. destruct (rd σ q) as [b|] eqn:E2; [|done].
    rewrite (M p a), (M q b); [done|by apply elem_of_cons; right; apply elem_of_list_singleton|done|by apply elem_of_cons; left|done].
  Qed.
  Lemma ref_env w w' H H' : heap w.1 `prefix_of` heap w'.1 →
    (∀ h i id o r v, H' !! h = Some (HRes i id o r v) → guard_held i h H' →
       H !! h = Some (HRes i id o r v) ∧ guard_held i h H ∧ (i ∈ pins w.1 → mv i w w')) → refok w H → refok w' H'.
  Proof.
    intros P X R h i id o r v E L. destruct (X h i id o r v E L) as (E' & L' & M). destruct (R h i id o r v E' L') as [V1 PR].
    assert (PR' : ∀ p, p ∈ refs r → pro i w' p). { intros p Hp. pose proof (PR p Hp) as PRp. eapply st_pro; [apply M, PRp|done]. }
    split; [|done]. eapply to_vals_mono; [done| |done]. intros p Hp. exact (proj1 (proj1 (PR' p Hp))).
  Qed.
  Lemma gh_app i h H e : guard_held i h (H ++ [e]) → guard_held i h H.
  Proof. intros L h' e' A B. apply (L h' e' A). by apply lookup_app_l_Some. Qed.
  Lemma ref_app w w' H e : heap w.1 `prefix_of` heap w'.1 → (∀ i id o r v, e ≠ HRes i id o r v) →
    (∀ i, i ∈ pins w.1 → mv i w w' ∨ e = HUnpin i ∨ ∃ id o why, e = HPanic i id o why) → refok w H → refok w' (H ++ [e]).
  Proof.
    intros P N X. apply ref_env; [done|]. intros h i id o r v E L. apply snoc_cases in E as [[Lt E]|[-> E]]; [|by symmetry in E; apply N in E].
    split; [done|]. split; [by eapply gh_app|]. intros Hp. destruct (X i Hp) as [M|Y]; [done|]. exfalso.
    destruct (L (length H) e Lt) as [L1 L2]; [by apply list_lookup_middle|]. destruct Y as [->|(id' & o' & why & ->)]; [done|by eapply L2].
  Qed.

  Record MI c w D (G : list rdrec) : Prop := MkMI {
    mi_wi : WI w;
    mi_st : w.1 = mc_st c;
    mi_len : length (mc_thr c) = nthr;
    mi_nop : mc_nop c = length (r_ops (wr w));
    mi_hi : HI w (mc_hist c) D G;
    mi_all : ∀ id o, r_ops (wr w) !! id = Some o → ∃ h i, mc_hist c !! h = Some (HInv i id o);
    mi_t : ∀ i ts, mc_thr c !! i = Some ts → thr_ok i ts w (mc_hist c) D;
    mi_ref : refok w (mc_hist c) }.

  Lemma wgrd_refl i id w : WI w → wgrd i id w w.
  Proof. intros W. split; [done|]. intros j x _ _. apply (wx_quiet cfg); [apply W|done|done|apply extm_refl|apply extr_refl]. Qed.

  Lemma run_match {T} (p : prog K V T) (fin : T → option (vres * list iterst * hevent)) (inj : prog K V T → prog K V (pres K V))
      (i id : nat) (o : op) its c orc (Q : T → world → Prop) w (P : sres → Prop) :
    WP i id o p Q w → TI i id o w → mc_st c = w.1 →
    (∀ a, WP i id o (Ret a) Q w → P (match fin a with
          | Some (v, its', ev) => SStep (MConf (mc_st c) (set_thr i (ts_idle its') (mc_thr c)) (mc_hist c ++ [ev]) (mc_nop c))
          | None => SUB end)) →
    (∀ p' w', WI w' → wgrd i id w w' → mv i w w' → TI i id o w' → WP i id o p' Q w' →
       P (SStep (MConf w'.1 (set_thr i (TState (Some (id, o, inj p')) its false) (mc_thr c)) (mc_hist c) (mc_nop c)))) →
    P SSkip →
    (∀ why, okf cfg id o why w → P (SStep (MConf (unpin i (mc_st c)) (set_thr i (TState None [] true) (mc_thr c)) (mc_hist c ++ [HPanic i id o why]) (mc_nop c)))) →
    P (match p in prog _ _ T return (T → option (vres * (list iterst) * hevent)) →
                                      (prog K V T → prog K V (pres K V)) → sres with
        | Ret a => λ fin _,
          match fin a with
          | Some (v, its', ev) => SStep (MConf (mc_st c) (set_thr i (ts_idle its') (mc_thr c)) (mc_hist c ++ [ev]) (mc_nop c))
          | None => SUB
          end
        | Act f k => λ _ inj,
          match f i orc (mc_st c) with
          | Ok x σ' => SStep (MConf σ' (set_thr i (TState (Some (id, o, inj (k x))) its false) (mc_thr c)) (mc_hist c) (mc_nop c))
          | Block => SSkip
          | UB => SUB
          end
        | Loop body s k => λ _ inj,
          SStep (MConf (mc_st c) (set_thr i (TState (Some (id, o,
              inj (bind (body s) (λ r, match r with inl s' => Loop body s' k | inr b => k b end)))) its false) (mc_thr c))
             (mc_hist c) (mc_nop c))
        | Fail why => λ _ _,
          SStep (MConf (unpin i (mc_st c)) (set_thr i (TState None [] true) (mc_thr c)) (mc_hist c ++ [HPanic i id o why]) (mc_nop c))
        end fin inj).
  Proof.
    intros HW HT Est HR HS HK HF. destruct p as [T a|X T f k|S B T body s k|T why].
    - by apply HR.
    - assert (X1 := wp_step_act i (TI i id o) (wext cfg nthr nsh i id) (wgm cfg nthr nsh i id) (okf cfg id o) False (wext_refl cfg nthr nsh i id) f k Q w orc HW HT).
      rewrite Est. destruct (f i orc w.1) as [x σ'| |]; [|done|done]. destruct X1 as (γ' & A & [B B'] & C).
      apply (HS (k x) (σ', γ')); [apply A|done|done|done|done].
    - rewrite Est. apply (HS (bind (body s) (λ r, match r with inl s' => Loop body s' k | inr b => k b end)) w); [apply HT|apply wgrd_refl, HT|apply mv_refl|done|].
      apply wp_step_loop; [apply wext_refl|done|done].
    - apply HF. exact (HW w (wext_refl _ _ _ _ _ _) HT).
  Qed.

  Lemma wx_grows i x w w' : WI w → WI w' → wx i x w w' → grows w w'.
  Proof. intros A B [C D E F G]. split; [done|done|apply C|apply C|apply F|by exists x]. Qed.

  Lemma wx_own i x w w' : wx i x w w' → r_own (wr w') i = r_own (wr w) i.
  Proof. intros A. apply A. Qed.

  (** Distinct running operations have distinct identifiers. *)
  Lemma run_ids c w D G i j id1 id2 o1 o2 p1 p2 its1 its2 : MI c w D G → mc_thr c !! i = Some (TState (Some (id1, o1, p1)) its1 false) →
    mc_thr c !! j = Some (TState (Some (id2, o2, p2)) its2 false) → i ≠ j → id1 ≠ id2.
  Proof.
    intros M A B N ->. destruct (mi_t _ _ _ _ M _ _ A) as (_ & _ & w1 & g1 & h1 & _ & _ & A1 & _).
    destruct (mi_t _ _ _ _ M _ _ B) as (_ & _ & w2 & g2 & h2 & _ & _ & B1 & _).
    pose proof (wf_inv _ (hi_wf _ _ _ _ _ (mi_hi _ _ _ _ M)) _ _ _ _ _ _ _ A1 B1) as E. subst h2. rewrite A1 in B1. by injection B1 as ->.
  Qed.

  Lemma set_thr_cases i ts (l : list (tstate K V)) j x : set_thr i ts l !! j = Some x → (j = i ∧ x = ts) ∨ (j ≠ i ∧ l !! j = Some x).
  Proof.
    unfold set_thr. intros A. destruct (decide (j = i)) as [->|N].
    - left. split; [done|]. assert (L : i < length l) by (apply lookup_lt_Some in A; by rewrite insert_length in A).
      rewrite list_lookup_insert in A by done. by injection A as <-.
    - right. split; [done|]. by rewrite list_lookup_insert_ne in A.
  Qed.

  Lemma HI_len w H D G : HI w H D G → length D = length H.
  Proof. intros I. apply I. Qed.

  (** Quiet steps: the log, the heap and the operations do not change (pin, unpin, reclamation). *)
  Lemma HI_same w w' H D G : WI w → WI w' → wc w' = wc w → wg w' = wg w → r_ops (wr w) `prefix_of` r_ops (wr w') → HI w H D G → HI w' H D G.
  Proof.
    intros W W' Ec Eg Eo I. eapply (HI_grow cfg nthr nsh w w'); [|done| | |].
    - split; [done|done| | |done|exists 0]; rewrite ?Ec, ?Eg; first [done|apply ext0_refl].
    - intros. rewrite Ec, Eg. apply ext0_refl.
    - intros. rewrite Ec, Eg. apply ext0_refl.
    - intros n e Hn L. rewrite Eg in Hn. apply lookup_lt_Some in Hn. lia.
  Qed.

  Lemma step_ok c w D G ch : MI c w D G →
    match mstep cfg c ch with SStep c' => ∃ w' D' G', MI c' w' D' G' ∧ grows w w' ∧ D `prefix_of` D' ∧ (∀ me, nthr ≤ me → r_own (wr w') me = r_own (wr w) me) | SSkip => True | SUB => False end.
  Proof.
    intros M. destruct M as [W Est Elen Enop I ALL TH RF] eqn:EM. clear EM.
    assert (EL : length D = length (mc_hist c)) by apply I.
    assert (TL : ∀ i ts, mc_thr c !! i = Some ts → i < nthr) by (intros i ts A; rewrite <- Elen; by eapply lookup_lt_Some).
    destruct ch as [i|i|i o|i orc|j]; unfold mstep.
    - (* pin *)
      destruct (mc_thr c !! i) as [[[rn|] its []]|] eqn:Et; try done. case_decide as Dp; [done|].
      destruct (pin_step cfg nthr nsh w i W) as [W' X]. set (w' := (set_pins (i :: pins w.1) w.1, _)) in *.
      assert (I' : HI w' (mc_hist c) D G) by (eapply (HI_same w); done).
      assert (T' := TH i _ Et). cbn in T'. destruct T' as (O & P & gs & A & B). rewrite P in * by (by rewrite Est).
      exists w', (D ++ [(lg w', length (G ++ []))]), (G ++ []). split; [|split; [eapply (wx_grows (S i) 0); [done|done|apply X; lia]|split; [by eexists|intros me Hm; apply (wx_own me 0), X; try (pose proof (TL i _ Et); lia)]]]. split; cbn [mc_st mc_thr mc_hist mc_nop]; [done|by cbn; rewrite Est|done|done| | | |eapply (ref_app w); [reflexivity|done| |done]; intros i1 H1; left; eapply (wx_mv cfg nthr nsh i1 0); [done|done|apply X; intros ->; rewrite Est in H1; done]].
      + apply (HI_app cfg nthr nsh); [done|done|]. by apply evt_other.
      + intros id o A1. destruct (ALL id o A1) as (h & i' & B1). exists h, i'. by apply lookup_app_l_Some.
      + intros j ts Hj. destruct (decide (j = i)) as [->|N].
        * rewrite Et in Hj. injection Hj as <-. split; [done|]. split; [done|]. exists []. split; [split; [done|intros ? ? ? Z; by rewrite lookup_nil in Z]|].
          assert (gs = []) as -> by (destruct A as [A _]; by destruct gs). apply itg_keep; [done|by apply it_same|done|done].
        * apply thr_hist; [done|by cbn|by destruct (ts_run ts) as [[[]]|]|]. eapply (thr_env _ _ _ _ _ w); [done|done|done|by eapply TL| |by apply TH].
          destruct (ts_run ts) as [[[id o] p]|]; [by apply X|]. exists 0. by apply X.
    - (* unpin *)
      destruct (mc_thr c !! i) as [[[rn|] its []]|] eqn:Et; try done. case_decide as Dp; [|done].
      destruct (unpin_step cfg nthr nsh w i W) as [W' X]. set (w' := (unpin i w.1, w.2)) in *.
      assert (I' : HI w' (mc_hist c) D G) by (eapply (HI_same w); done).
      assert (T' := TH i _ Et). cbn in T'. destruct T' as (O & P & gs & A & B).
      exists w', (D ++ [(lg w', length (G ++ []))]), (G ++ []). split; [|split; [eapply (wx_grows (S i) 0); [done|done|apply X; lia]|split; [by eexists|intros me Hm; apply (wx_own me 0), X; try (pose proof (TL i _ Et); lia)]]]. split; cbn [mc_st mc_thr mc_hist mc_nop]; [done|by cbn; rewrite Est|by unfold set_thr; rewrite insert_length|done| | | |eapply (ref_app w); [reflexivity|done| |done]; intros i1 H1; destruct (decide (i1 = i)) as [->|N1]; [by right; left|left; eapply (wx_mv cfg nthr nsh i1 0); [done|done|by apply X]]].
      + apply (HI_app cfg nthr nsh); [done|done|]. by apply evt_other.
      + intros id o A1. destruct (ALL id o A1) as (h & i' & B1). exists h, i'. by apply lookup_app_l_Some.
      + intros j ts Hj. apply set_thr_cases in Hj as [[-> ->]|[N Hj]].
        * cbn. split; [done|]. split; [done|]. exists []. split; [split; [done|intros ? ? ? Z; by rewrite lookup_nil in Z]|].
          split; [|intros ? ? ? Z; by rewrite lookup_nil in Z]. unfold iters_of. rewrite itf_snoc. cbn. by rewrite decide_True.
        * apply thr_hist; [done|by cbn|by destruct (ts_run ts) as [[[]]|]|]. eapply (thr_env _ _ _ _ _ w); [done|done|done|by eapply TL| |by apply TH].
          destruct (ts_run ts) as [[[id o] p]|]; [by apply X|]. exists 0. by apply X.
    - (* invoke *)
      destruct (mc_thr c !! i) as [[[rn|] its []]|] eqn:Et; try done. case_decide as Dp; [|done].
      destruct (invoke_step cfg nthr nsh w o W) as (W' & U & X). set (w' := (w.1, _)) in *.
      assert (I' : HI w' (mc_hist c) D G) by (eapply (HI_same w); try done; unfold wr; cbn; by eexists).
      assert (T' := TH i _ Et). cbn in T'. destruct T' as (O & P & gs & A & B).
      assert (FRESH : ∀ h i' o', mc_hist c !! h ≠ Some (HInv i' (mc_nop c) o')).
      { intros h i' o' Z. apply (hi_inv _ _ _ _ _ I) in Z. apply lookup_lt_Some in Z. lia. }
      assert (Eid : r_ops (wr w') !! mc_nop c = Some o) by (unfold wr; cbn; rewrite Enop; by apply list_lookup_middle).
      exists w', (D ++ [(lg w', length (G ++ []))]), (G ++ []). split; [|split; [eapply (wx_grows i 0); [done|done|apply X]|split; [by eexists|intros me Hm; apply (wx_own me 0), X; try (pose proof (TL i _ Et); lia)]]]. split; cbn [mc_st mc_thr mc_hist mc_nop]; [done|by cbn|by unfold set_thr; rewrite insert_length| | | | |eapply (ref_app w); [reflexivity|done| |done]; intros i1 H1; left; eapply (wx_mv cfg nthr nsh i1 0); [done|done|by apply X]].
      + unfold wr. cbn. rewrite app_length, Enop. unfold wr. cbn. lia.
      + apply (HI_app cfg nthr nsh); [done|done|]. apply evt_other; [done| |done]. intros ? ? ? [= <- <- <-]. done.
      + intros id o' A1. apply snoc_cases in A1 as [[L A1]|[-> ->]].
        * destruct (ALL id o' A1) as (h & i' & B1). exists h, i'. by apply lookup_app_l_Some.
        * exists (length (mc_hist c)), i. rewrite list_lookup_middle by done. by rewrite Enop.
      + intros j ts Hj. apply set_thr_cases in Hj as [[-> ->]|[N Hj]].
        * assert (Mv : mv i w w') by (eapply (wx_mv cfg nthr nsh i 0); [done|done|apply X]).
          assert (T1 : TI i (mc_nop c) o w') by (split; [done|by cbn; rewrite Est|by eapply TL|done]).
          assert (IS : itsok i w' its gs) by (by eapply st_itsok).
          split; [done|]. split.
          { split.
            - intros h j o' r v Z. apply snoc_cases in Z as [[L Z]|[-> Z]]; [|done].
              apply (wf_res _ (hi_wf _ _ _ _ _ I)) in Z as (h' & _ & Z). by apply FRESH in Z.
            - intros h j o' why Z. apply snoc_cases in Z as [[L Z]|[-> Z]]; [|done].
              destruct (hi_panic _ _ _ _ _ I _ _ _ _ _ Z) as (_ & _ & _ & _ & (h' & Z') & _). by apply FRESH in Z'. }
          exists w', gs, (length (mc_hist c)). split; [done|]. split; [apply itg_keep; [done|by apply it_same|done|done]|].
          split; [by rewrite list_lookup_middle|]. split; [by rewrite <- EL, Lof_new|].
          split; [unfold lastc; rewrite itf_snoc; cbn; by rewrite decide_True|]. split.
          { intros h Lh Z. assert (Q : length (mc_hist c) < length (mc_hist c)); [|lia].
            destruct (decide (h ≤ length (mc_hist c))) as [L|L].
            - rewrite take_app_le in Z by done. apply it_lt in Z. rewrite take_length in Z. lia.
            - rewrite take_ge in Z by (rewrite app_length in *; cbn in *; lia). rewrite it_same in Z by done. by apply it_lt in Z. }
          apply (op_spec cfg nthr nsh i (mc_nop c)); [done| |done|done]. rewrite Enop. exact U.
        * apply thr_hist; [done|by cbn|by destruct (ts_run ts) as [[[]]|]|]. eapply (thr_env _ _ _ _ _ w); [done|done|done|by eapply TL| |by apply TH].
          destruct (ts_run ts) as [[[id o'] p]|]; [by apply X|]. exists 0. by apply X.
    - (* run *)
      destruct (mc_thr c !! i) as [[[[[id o] p]|] its []]|] eqn:Et; try done.
      pose proof (TH i _ Et) as R. cbn in R. pose proof R as (T & NR & wi & gs & h0 & A1 & A2 & A3 & A4 & A5 & A6 & A7).
      assert (NID : ∀ j id' o' p' its', j ≠ i → mc_thr c !! j = Some (TState (Some (id', o', p')) its' false) → id' ≠ id).
      { intros j id' o' p' its' N Hj. by eapply (run_ids c w D G j i); [split|..]. }
      eapply (run_match p _ (λ q, q) i id o its c orc _ w (λ r, match r with SStep c' => ∃ w' D' G', MI c' w' D' G' ∧ grows w w' ∧ D `prefix_of` D' ∧ (∀ me, nthr ≤ me → r_own (wr w') me = r_own (wr w) me) | SSkip => True | SUB => False end)); [exact A7|done|done| | |done|].
      + intros r Hr.
        assert (R' : run_ok i id o (Ret r) its w (mc_hist c) D) by (split; [done|]; split; [done|]; by exists wi, gs, h0).
        destruct (finish_ok cfg nthr nsh i id o r its w _ D G W I R') as (v & ex & TV & EK & ID).
        rewrite <- Est, TV. cbn [fmap option_fmap option_map].
        exists w, (D ++ [(lg w, length (G ++ ex))]), (G ++ ex). split; [|split; [split; [done|done|done|done|done|exists 0; apply ext0_refl]|split; [by eexists|done]]]. split; cbn [mc_st mc_thr mc_hist mc_nop]; [done|done|by unfold set_thr; rewrite insert_length|done| | | |].
        4:{ intros h1 i1 id1 o1 r1 v1 E1 L1. apply snoc_cases in E1 as [[Lt E1]|[-> E1]].
            - apply (RF h1 i1 id1 o1 r1 v1 E1). by eapply gh_app.
            - injection E1 as -> -> -> -> ->. split; [done|]. by eapply finish_refs. }
        * by apply (HI_app cfg nthr nsh).
        * intros id' o' B1. destruct (ALL id' o' B1) as (h & i' & B2). exists h, i'. by apply lookup_app_l_Some.
        * intros j ts Hj. apply set_thr_cases in Hj as [[-> ->]|[N Hj]]; [apply ID|].
          apply thr_hist; [done|by cbn| |by apply TH]. destruct (ts_run ts) as [[[id' o'] p']|] eqn:Er; [|done].
          split; [|done]. intros ? ? ? ? [= _ -> _ _ _]. destruct ts as [rn' its' []]; cbn in Er; subst rn'; [by apply TH in Hj|]. by apply (NID j id' o' p' its') in Hj.
      + intros p' w' W' GR MVi T' HP.
        assert (XE : ∀ j id', j ≠ i → id' ≠ id → wx j id' w w') by (intros; by apply GR).
        assert (Gr : grows w w') by (eapply (wx_grows (S i) (S id)); [done|done|apply XE; lia]).
        assert (EO : r_ops (wr w') = r_ops (wr w)).
        { apply GR. }
        exists w', D, G. split; [|split; [done|split; [done|]]; intros me Hm; apply (wx_own me (S id)), XE; [pose proof (TL i _ Et); lia|lia]]. split; cbn [mc_st mc_thr mc_hist mc_nop]; [done|done|by unfold set_thr; rewrite insert_length|by rewrite EO| | | |].
        4:{ eapply ref_env; [apply Gr| |done]. intros h1 i1 id1 o1 r1 v1 E1 L1. split; [done|]. split; [done|]. intros _.
            destruct (decide (i1 = i)) as [->|N1]; [done|]. eapply (wx_mv cfg nthr nsh i1 (S id)); [done|done|]. apply XE; [done|lia]. }
        * eapply (HI_grow cfg nthr nsh w w'); [done|done| | |].
          -- intros h j id' o' r v Z. apply (XE (S i)); [lia|]. intros ->. by apply NR in Z.
          -- intros h j id' o' why Z. apply (XE (S i)); [lia|]. intros ->. by apply NR in Z.
          -- intros n e Hn _. destruct (eo_ev _ _ _ (wi_eo _ _ _ _ W') e) as (o' & B1 & _); [by eapply elem_of_list_lookup_2|].
             rewrite EO in B1. destruct (ALL _ _ B1) as (h & i' & B2). by exists h, i', o'.
        * rewrite EO. exact ALL.
        * intros j ts Hj. apply set_thr_cases in Hj as [[-> ->]|[N Hj]].
          -- split; [done|]. split; [done|]. by exists wi, gs, h0.
          -- eapply (thr_env _ _ _ _ _ w); [done|done|done|by eapply TL| |by apply TH].
             destruct ts as [[[[id' o'] q]|] its' []]; cbn; [by apply TH in Hj| |exists (S id); apply XE; [done|lia]|exists (S id); apply XE; [done|lia]].
             apply XE; [done|by eapply NID].
      + intros why OK. destruct (unpin_step cfg nthr nsh w i W) as [W' X]. set (w' := (unpin i w.1, w.2)) in *.
        assert (I' : HI w' (mc_hist c) D G) by (eapply (HI_same w); done).
        exists w', (D ++ [(lg w', length (G ++ []))]), (G ++ []). split; [|split; [eapply (wx_grows (S i) 0); [done|done|apply X; lia]|split; [by eexists|intros me Hm; apply (wx_own me 0), X; try (pose proof (TL i _ Et); lia)]]]. split; cbn [mc_st mc_thr mc_hist mc_nop]; [done|by cbn; rewrite Est|by unfold set_thr; rewrite insert_length|done| | | |eapply (ref_app w); [reflexivity|done| |done]; intros i1 H1; destruct (decide (i1 = i)) as [->|N1]; [right; right; by eauto|left; eapply (wx_mv cfg nthr nsh i1 0); [done|done|by apply X]]].
        * apply (HI_app cfg nthr nsh); [done|done|]. apply evt_other; [done|done|]. intros ? ? ? ? [= <- <- <- <-]. split; [exact OK|]. split; [by exists h0|apply NR].
        * intros id' o' B1. destruct (ALL id' o' B1) as (h & i' & B2). exists h, i'. by apply lookup_app_l_Some.
        * intros j ts Hj. apply set_thr_cases in Hj as [[-> ->]|[N Hj]]; [done|].
          apply thr_hist; [done|by cbn| |].
          { destruct (ts_run ts) as [[[id' o'] p']|] eqn:Er; [|done]. split; [done|].
            intros ? ? ? [= _ -> _ _]. destruct ts as [rn' its' []]; cbn in Er; subst rn'; [by apply TH in Hj|]. by apply (NID j id' o' p' its') in Hj. }
           eapply (thr_env _ _ _ _ _ w); [done|done|done|by eapply TL| |by apply TH].
          destruct (ts_run ts) as [[[id' o'] q]|]; [by apply X|]. exists 0. by apply X.
    - (* reclaim *)
      destruct (retired (mc_st c) !! j) as [it|] eqn:Ej; [|done]. case_decide as Db; [|done].
      rewrite <- Est in Ej. destruct (reclaim_step cfg nthr nsh w j it W Ej Db) as (σ' & RC & W' & Ep & X). rewrite <- Est, RC.
      assert (Gr : grows w (σ', w.2)) by (by eapply (wx_grows 0 0)).
      exists (σ', w.2), D, G. split; [|split; [done|split; [done|]]; intros me Hm; apply (wx_own me 0), X]. split; cbn [mc_st mc_thr mc_hist mc_nop]; [done|done|done|done| |exact ALL| |eapply ref_env; [apply Gr| |done]; intros h1 i1 id1 o1 r1 v1 E1 L1; split; [done|]; split; [done|]; intros _; eapply (wx_mv cfg nthr nsh i1 0); [done|done|by apply X]].
      + eapply (HI_grow cfg nthr nsh w); [done|done| | |].
        * intros h i id o r v _. apply (X 0 id).
        * intros h i id o why _. apply (X 0 id).
        * intros n e Hn L. apply lookup_lt_Some in Hn. unfold wg in *. cbn in *. lia.
      + intros i ts Hi. eapply (thr_env _ _ _ _ _ w); [done|done|done|by eapply TL| |by apply TH].
        destruct (ts_run ts) as [[[id o] p]|]; [by apply X|]. exists 0. by apply X.
  Qed.
End mi.
