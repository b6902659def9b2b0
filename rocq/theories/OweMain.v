(** C58: with blocking resizing, once no call is running no resize is left unfinished; what C56 says then holds of every such state. *)
From Verif Require Export Owe.

(** No call is running; calls whose closure panicked may have left their threads dead. *)
Definition no_running {K V} (c : mconf K V) : Prop := ∀ i ts, mc_thr c !! i = Some ts → ts_run ts = None.

Section mach.
  Context {K V : Type} {Keq : EqDecision K} (cfg : config K) (HM : c_mode cfg = Blocking).
  Context (nthr nsh cap : nat) (HS : 0 < nsh).
  Notation held := (option nat).
  Notation dm := (dm cfg). Notation Iw := (Iw cfg).

  (** Every table but those before the root has its resize owed by some thread. *)
  Definition gl (H : nat → held) (σ : state K V) : Prop :=
    ∀ t, S t < length (tables σ) → t < rt (core_of σ) ∨ ∃ i u, H i = Some u ∧ t ≤ u.
  Definition hset (H : nat → held) (i : nat) (h : held) : nat → held := λ j, if decide (j = i) then h else H j.
  (** The panic of a thread that died owing something did not come from a user's closure. *)
  Definition okd (i : nat) (hist : list (hevent K V)) (h : held) : Prop := h = None ∨ ∃ id o why, HPanic i id o why ∈ hist ∧ ¬ ufail why.
  Definition thr_owe (i : nat) (ts : tstate K V) (hist : list (hevent K V)) (h : held) (w : wd) : Prop :=
    match ts_run ts with Some (_, p) => dm p (λ _ h' _, h' = None) h w | None => if ts_dead ts then okd i hist h else h = None end.
  Definition OW (c : mconf K V) (w : wd) : Prop :=
    w.1 = mc_st c ∧ ∃ H, gl H (mc_st c) ∧ (∀ i ts, mc_thr c !! i = Some ts → thr_owe i ts (mc_hist c) (H i) w) ∧ ∀ i, mc_thr c !! i = None → H i = None.

  Lemma gl_same H (w w' : wd) : VM w w' → length (tables w'.1) = length (tables w.1) → gl H w.1 → gl H w'.1.
  Proof. intros M E G t L. rewrite E in L. destruct (G t L) as [X|X]; [left|by right]. pose proof (vm_rt _ _ M) as R. unfold co in R. lia. Qed.
  Lemma gl_disch H i h' (w : wd) : disch (H i) h' w → gl H w.1 → gl (hset H i h') w.1.
  Proof.
    intros D G t L. destruct (G t L) as [X|(j & u & Ej & Lu)]; [by left|]. destruct (decide (j = i)) as [->|N].
    - destruct D as [->|[-> D]]; [right; exists i, u; unfold hset; by rewrite decide_True|]. left. specialize (D u Ej). unfold co in D. lia.
    - right. exists j, u. unfold hset. by rewrite decide_False.
  Qed.
  Lemma gl_otr H i h' (w w' : wd) : VM w w' → otr (H i) h' w.1 w'.1 → gl H w.1 → gl (hset H i h') w'.1.
  Proof.
    intros M [T1 T2] G t L. pose proof (vm_rt _ _ M) as R. unfold co in R.
    assert (OLD : S t < length (tables w.1) → t < rt (core_of w'.1) ∨ ∃ j u, hset H i h' j = Some u ∧ t ≤ u).
    { intros L0. destruct (G t L0) as [X|(j & u & Ej & Lu)]; [left; lia|]. destruct (decide (j = i)) as [->|N].
      - destruct (T1 u Ej) as [(u' & -> & Lu')|Lu']; [|left; lia]. right. exists i, u'. unfold hset. rewrite decide_True by done. split; [done|lia].
      - right. exists j, u. unfold hset. by rewrite decide_False. }
    destruct T2 as [E|[E [E0|(u & Eh & Lu)]]]; [apply OLD; lia|lia|].
    destruct (decide (S t < length (tables w.1))) as [L0|L0]; [by apply OLD|]. right. exists i, u. unfold hset. rewrite decide_True by done. split; [done|lia].
  Qed.

  Lemma thr_owe_vm i ts hist hist' h w w' : VM w w' → hist `prefix_of` hist' → thr_owe i ts hist h w → thr_owe i ts hist' h w'.
  Proof.
    intros M P. unfold thr_owe. destruct (ts_run ts) as [[? p]|]; [by apply dm_vm|]. destruct (ts_dead ts); [|done]. intros [->|(id & o & why & Hin & Hu)]; [by left|]. right.
    exists id, o, why. split; [|done]. destruct P as [l ->]. apply elem_of_app. by left.
  Qed.
  (** One thread moves. *)
  Lemma OW_move (c c' : mconf K V) i ts ts' h' H w w' : (∀ i ts, mc_thr c !! i = Some ts → thr_owe i ts (mc_hist c) (H i) w) → (∀ i, mc_thr c !! i = None → H i = None) →
    mc_thr c !! i = Some ts → mc_thr c' = set_thr i ts' (mc_thr c) → mc_hist c `prefix_of` mc_hist c' → VM w w' → w'.1 = mc_st c' →
    gl (hset H i h') (mc_st c') → thr_owe i ts' (mc_hist c') h' w' → OW c' w'.
  Proof.
    intros B C Ei E P M Ew G T. split; [done|]. exists (hset H i h'). split; [done|]. rewrite E. unfold set_thr, hset. split.
    - intros j tj Ej. destruct (decide (j = i)) as [->|N].
      + rewrite list_lookup_insert in Ej by (by eapply lookup_lt_Some). by injection Ej as <-.
      + rewrite list_lookup_insert_ne in Ej by done. eapply thr_owe_vm; [exact M|exact P|]. by apply B.
    - intros j Ej. destruct (decide (j = i)) as [->|N]; [by rewrite list_lookup_insert in Ej by (by eapply lookup_lt_Some)|].
      rewrite list_lookup_insert_ne in Ej by done. by apply C.
  Qed.
  Lemma reclaim_len r rest (σ σ' : state K V) : reclaim r rest σ = Some σ' → length (tables σ') = length (tables σ).
  Proof.
    unfold reclaim. destruct (r_obj r) as [p|t].
    - destruct (decide _); [done|]. by intros [= <-].
    - cbn [set_retired tables]. destruct (tables σ !! t) as [tb|] eqn:E; [|done]. destruct (t_freed tb); [done|]. destruct (retire_all _ _) as [σ1|] eqn:R; [|done].
      cbn. intros [= <-]. apply retire_all_same in R as [R1 R2]. cbn. by rewrite insert_length, R1.
  Qed.

  Lemma OW_mstep (c c' : mconf K V) ch (w w' : wd) : OW c w → mstep cfg c ch = SStep c' → w'.1 = mc_st c' → VM w w' → Iw w → Iw w' → OW c' w'.
  Proof.
    intros (Ew & H & A & B & C) E Ew' M Iv Iv'.
    assert (SAME : length (tables (mc_st c')) = length (tables (mc_st c)) → gl H (mc_st c')).
    { intros El. rewrite <- Ew'. eapply gl_same; [exact M|by rewrite Ew, Ew'|by rewrite Ew]. }
    assert (SF : ∀ i, length (tables (mc_st c')) = length (tables (mc_st c)) → gl (hset H i (H i)) (mc_st c')).
    { intros i El. rewrite <- Ew'. apply gl_disch; [by left|rewrite Ew'; by apply SAME]. }
    destruct ch as [i|i|i o|i b|j]; cbn [mstep] in E.
    - destruct (mc_thr c !! i) as [[[] its []]|] eqn:Ei; try done. destruct (decide _); [done|]. injection E as <-. cbn [mc_st] in *.
      split; [done|]. exists H. split; [by apply SAME|]. cbn [mc_thr mc_hist]. split; [|done]. intros j ts Ej. eapply thr_owe_vm; [exact M|by eexists|by apply B].
    - destruct (mc_thr c !! i) as [[[] its []]|] eqn:Ei; try done. destruct (decide _); [|done]. injection E as <-. cbn [mc_st] in *.
      eapply (OW_move c _ i _ _ (H i) H w w' B C Ei); [reflexivity|by eexists|done|done|by apply SF|]. exact (B _ _ Ei).
    - destruct (mc_thr c !! i) as [[[] its []]|] eqn:Ei; try done. destruct (decide _); [|done]. injection E as <-. cbn [mc_st] in *.
      eapply (OW_move c _ i _ _ (H i) H w w' B C Ei); [reflexivity|by eexists|done|done|by apply SF|]. pose proof (B _ _ Ei) as X. unfold thr_owe in *. cbn [ts_run ts_dead] in *.
      rewrite X. by apply m_op.
    - destruct (mc_thr c !! i) as [[[[[id o] p]|] its []]|] eqn:Ei; try done. pose proof (B _ _ Ei) as D. unfold thr_owe in D. cbn [ts_run] in D.
      assert (RC : ∀ {T} (q : Prog.prog K V T) fin (inj : Prog.prog K V T → prog K V (pres K V)) (Q : T → held → wd → Prop), dm q Q (H i) w → (∀ a h w, Q a h w → h = None) →
        (∀ h' w' q', dm q' Q h' w' → dm (inj q') (λ _ h _, h = None) h' w') →
        match q in Prog.prog _ _ T return (T → option (vres K V * (list iterst) * hevent K V)) → (Prog.prog K V T → Prog.prog K V (pres K V)) → sres with
        | Ret a => λ fin _,
          match fin a with
          | Some (v, its', ev) => SStep (MConf (mc_st c) (set_thr i (ts_idle its') (mc_thr c)) (mc_hist c ++ [ev]) (mc_nop c))
          | None => SUB
          end
        | Act f k => λ _ inj,
          match f i b (mc_st c) with
          | Ok x σ' => SStep (MConf σ' (set_thr i (TState (Some (id, o, inj (k x))) its false) (mc_thr c)) (mc_hist c) (mc_nop c))
          | Block => SSkip
          | UB => SUB
          end
        | Loop body s k => λ _ inj,
          SStep (MConf (mc_st c) (set_thr i (TState (Some (id, o,
              inj (bind (body s) (λ r, match r with inl s' => Loop body s' k | inr b => k b end)))) its false) (mc_thr c))
             (mc_hist c) (mc_nop c))
        | Fail why => λ _ _,
          SStep (MConf (unpin i (mc_st c)) (set_thr i (TState None [] true) (mc_thr c)) (mc_hist c ++ [HPanic i id o why]) (mc_nop c))
        end fin inj = SStep c' → OW c' w').
      { intros T q fin inj Q Dq HQ Hinj X. destruct q as [T a|X' T f k|S' B' T body s k|T why]; cbn [Owe.dm] in Dq.
        - destruct (Dq w' M) as (h' & W & Hh). apply HQ in Hh as ->. destruct (fin a) as [[[v its'] ev]|]; [|done]. injection X as <-. cbn [mc_st] in *.
          eapply (OW_move c _ i _ _ None H w w' B C Ei); [reflexivity|by eexists|done|done| |done]. cbn [mc_st].
          rewrite <- Ew'. apply gl_disch; [done|]. rewrite Ew'. by apply SAME.
        - destruct (f i b (mc_st c)) as [x σ'| |] eqn:Ef; [|done|done]. injection X as <-. cbn [mc_st] in *. destruct w as [σ0 γ0], w' as [σ1 γ1]. cbn [fst] in *. subst σ0 σ1.
          destruct (Dq i b (mc_st c) γ0 x σ' γ1 (VM_refl _) Iv M Iv' Ef) as (h' & T' & D').
          eapply (OW_move c _ i _ _ h' H _ (σ', γ1) B C Ei); [reflexivity|done|done|done| |by apply Hinj]. cbn [mc_st].
          exact (gl_otr H i h' _ (σ', γ1) M T' A).
        - destruct Dq as (I & QB & Hi & Hb & Hk). destruct (Hi w' M) as (h' & W & HI). injection X as <-. cbn [mc_st] in *.
          eapply (OW_move c _ i _ _ h' H w w' B C Ei); [reflexivity|done|done|done| |].
          + cbn [mc_st]. rewrite <- Ew'. apply gl_disch; [done|]. rewrite Ew'. by apply SAME.
          + apply Hinj. eapply dm_bind; [apply dm_close, Hb, HI|]. cbv beta. intros [s'|x] h1 w1 M1 H1; [by exists I, QB|].
            destruct (H1 w1 (VM_refl w1)) as (h2 & D2 & H2). eapply dm_disch; [exact D2|by apply Hk].
        - injection X as <-. cbn [mc_st] in *. assert (ufail why ∨ ¬ ufail why) as [U|U] by (unfold ufail; destruct why; auto; right; by intros [?|?]).
          + eapply (OW_move c _ i _ _ None H w w' B C Ei); [reflexivity|by eexists|done|done| |by left]. cbn [mc_st].
            rewrite <- Ew'. apply gl_disch; [by apply Dq|]. rewrite Ew'. by apply SAME.
          + eapply (OW_move c _ i _ _ (H i) H w w' B C Ei); [reflexivity|by eexists|done|done|by apply SF|]. right. exists id, o, why. split; [|done].
            apply elem_of_app. right. by apply elem_of_list_singleton. }
      exact (RC _ p _ (λ p, p) _ D (λ _ _ _ H, H) (λ _ _ _ H, H) E).
    - destruct (retired (mc_st c) !! j) as [r|]; [|done]. destruct (decide _); [|done]. destruct (reclaim _ _ _) as [σ'|] eqn:R; [|done]. injection E as <-. cbn [mc_st] in *.
      apply reclaim_len in R. split; [done|]. exists H. split; [by apply SAME|]. cbn [mc_thr mc_hist]. split; [|done]. intros i ts Ei. eapply thr_owe_vm; [exact M|done|by apply B].
  Qed.

  Lemma reach_OW_MI sched : ∀ c, exec cfg (init_conf cap nsh nthr) sched = Some c → ∃ w D G, MI cfg nthr nsh c w D G ∧ OW c (w.1, wg w).
  Proof.
    induction sched as [|ch s IH] using rev_ind; intros c E.
    - injection E as <-. eexists _, [], []. split; [by apply MI_init|]. split; [done|]. exists (λ _, None). split; [|split; [|done]].
      + intros t L. cbn in L. destruct (cap =? 0); cbn in L; lia.
      + intros i ts Ei. cbn in Ei. apply lookup_replicate in Ei as [-> _]. done.
    - destruct (exec cfg (init_conf cap nsh nthr) s) as [c1|] eqn:E1.
      2:{ exfalso. clear -E E1. revert E E1. generalize (init_conf (K:=K) (V:=V) cap nsh nthr). induction s as [|x s IH]; intros c0; cbn [exec app]; [done|].
          destruct (mstep cfg c0 x); [apply IH|apply IH|done]. }
      rewrite (exec_snoc _ _ _ _ _ E1) in E. destruct (IH c1 eq_refl) as (w & D & G & M & O).
      pose proof (step_ok cfg nthr nsh c1 w D G ch M) as St. destruct (mstep cfg c1 ch) as [c2| |] eqn:Es; [| |done]; injection E as <-; [|by exists w, D, G].
      destruct St as (w' & D' & G' & M' & Gr & _). exists w', D', G'. split; [done|]. destruct (gr_ext _ _ _ _ _ Gr) as [i X].
      eapply (OW_mstep c1 c2 ch (w.1, wg w) (w'.1, wg w') O Es).
      + apply M'.
      + eapply VM_ext0. exact X.
      + unfold Owe.Iw, co. cbn [fst snd]. apply Inv_blk; [done|]. apply M.
      + unfold Owe.Iw, co. cbn [fst snd]. apply Inv_blk; [done|]. apply M'.
  Qed.

  (** ** C58 *)
  Section reach.
    Context (sched : list (choice K V)) (c : mconf K V) (EX : exec cfg (init_conf cap nsh nthr) sched = Some c).
    Lemma none_owed : (∀ i ts, mc_thr c !! i = Some ts → ts_run ts = None ∧ (ts_dead ts = true → ∀ id o why, HPanic i id o why ∈ mc_hist c → ufail why)) →
      ∀ t, root (mc_st c) = Some t → S t = length (tables (mc_st c)).
    Proof.
      intros Hq t Et. destruct (reach_OW_MI _ _ EX) as (w & D & G & M & (Ew & H & A & B & C)). cbn [fst] in Ew.
      assert (HN : ∀ i, H i = None).
      { intros i. destruct (mc_thr c !! i) as [ts|] eqn:Ei; [|by apply C]. pose proof (B _ _ Ei) as T. destruct (Hq _ _ Ei) as [Q1 Q2]. unfold thr_owe in T. rewrite Q1 in T.
        destruct (ts_dead ts); [|done]. destruct T as [T|(id & o & why & T1 & T2)]; [done|]. destruct T2. by eapply Q2. }
      destruct (reach_InvB cfg HM nthr nsh cap HS sched c EX) as [γ I]. pose proof (b_root _ _ _ I) as Br. change (k_rt (core_of (mc_st c))) with (root (mc_st c)) in Br. rewrite Et, nt_tables in Br.
      destruct (decide (S t < length (tables (mc_st c)))) as [L|]; [|lia]. destruct (A t L) as [X|(i & u & X & _)]; [|by rewrite HN in X].
      unfold rt in X. change (k_rt (core_of (mc_st c))) with (root (mc_st c)) in X. rewrite Et in X. cbn in X. lia.
    Qed.
    Lemma last_no_resize : (∀ t, root (mc_st c) = Some t → S t = length (tables (mc_st c))) → no_resize (mc_st c).
    Proof.
      intros HL t tb Et Etb. destruct (reach_InvB cfg HM nthr nsh cap HS sched c EX) as [γ I]. specialize (HL t Et). pose proof (lookup_lt_Some _ _ _ Etb) as L.
      pose proof (b_next _ _ _ I t) as X. rewrite nt_tables in X. specialize (X L). rewrite (proj1 (core_fld_table _ _ _ Etb)) in X. rewrite X. by rewrite decide_False by lia.
    Qed.
    (** No call is running: the root is the last table ever allocated; no resize is under way. *)
    Theorem C58_no_unfinished_resize : (is_pow2 (c_initial cfg) = true ∨ c_initial cfg < 5) → no_running c →
      no_resize (mc_st c) ∧ ∀ t, root (mc_st c) = Some t → S t = length (tables (mc_st c)).
    Proof.
      intros GC NR. assert (HL : ∀ t, root (mc_st c) = Some t → S t = length (tables (mc_st c))); [|split; [by apply last_no_resize|done]].
      apply none_owed. intros i ts Ei. split; [by eapply NR|]. intros _ id o why Hin. apply elem_of_list_lookup in Hin as [h Eh].
      destruct (C19_panics_partial cfg nthr nsh cap HS GC sched c EX h i id o why Eh) as (k & f & _ & [[-> _]|[-> _]]); [by right|by left].
    Qed.
    (** Whatever the initial capacity, when no call has panicked. *)
    Theorem C58_no_unfinished_resize_any_capacity : all_idle c → no_resize (mc_st c) ∧ ∀ t, root (mc_st c) = Some t → S t = length (tables (mc_st c)).
    Proof.
      intros NR. assert (HL : ∀ t, root (mc_st c) = Some t → S t = length (tables (mc_st c))); [|split; [by apply last_no_resize|done]].
      apply none_owed. intros i ts Ei. destruct (NR _ _ Ei) as [A1 A2]. split; [done|]. by rewrite A2.
    Qed.
    (** C56 of every state in which no call is running. *)
    Theorem C56_ends_or_allocates_idle : all_idle c →
      ∀ (T tid : nat) o its, mc_thr c !! tid = Some (ts_idle its) → tid ∈ pins (mc_st c) →
      ∃ n c', exec cfg c (CInvoke tid o :: replicate n (CRun tid false)) = Some c' ∧ (ended tid (mc_nop c) o c' ∨ T ≤ length (tables (mc_st c'))).
    Proof. intros A. eapply C56_ends_or_allocates; [exact HM|exact HS|exact EX|done|]. by apply C58_no_unfinished_resize_any_capacity. Qed.
    Theorem C56_no_alloc_ends_idle : all_idle c →
      ∀ (tid : nat) o its, mc_thr c !! tid = Some (ts_idle its) → tid ∈ pins (mc_st c) → no_alloc o →
      ∃ n c', exec cfg c (CInvoke tid o :: replicate n (CRun tid false)) = Some c' ∧ ended tid (mc_nop c) o c'.
    Proof. intros A. eapply C56_no_alloc_ends; [exact HM|exact HS|exact EX|done|]. by apply C58_no_unfinished_resize_any_capacity. Qed.
  End reach.
End mach.
