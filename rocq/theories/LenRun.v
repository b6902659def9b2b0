(** C10: [len] called when nothing else is running returns the number of keys. *)
From Verif Require Export LenCount.

Section run.
  Context {K V : Type} {Keq : EqDecision K} (cfg : config K).
  Notation op := (op K V). Notation hevent := (hevent K V).
  Implicit Types (H : list hevent) (c : mconf K V).

  Lemma retire_all_counts l (σ σ' : state K V) : retire_all l σ = Some σ' → counts σ' = counts σ.
  Proof.
    revert σ. induction l as [|p l IH]; intros σ; cbn; [by intros [= ->]|]. case_decide; [done|]. intros E. by apply IH in E.
  Qed.
  Lemma reclaim_counts r rest (σ σ' : state K V) : reclaim r rest σ = Some σ' → counts σ' = counts σ.
  Proof.
    unfold reclaim. destruct (r_obj r) as [p|t].
    - case_decide; [done|]. by intros [= <-].
    - destruct (tables _ !! t) as [tb|]; [|done]. destruct (t_freed tb); [done|].
      destruct (retire_all _ _) as [σ1|] eqn:E; [|done]. cbn. intros [= <-]. cbn. by apply retire_all_counts in E.
  Qed.

  (** What a machine step does to threads, history and counters. *)
  Inductive mcase c c' : Prop :=
    | MCEnv l : counts (mc_st c') = counts (mc_st c) → mc_hist c' = mc_hist c ++ l → (l = [] ∨ ∃ i, l = [HPin i] ∨ l = [HUnpin i]) →
        (∀ j ts, mc_thr c' !! j = Some ts → mc_thr c !! j = Some ts ∨ (ts_run ts = None ∧ ts_dead ts = false)) → mcase c c'
    | MCInv i o its : mc_thr c !! i = Some (TState None its false) → mc_st c' = mc_st c → mc_hist c' = mc_hist c ++ [HInv i (mc_nop c) o] →
        mc_thr c' = set_thr i (TState (Some (mc_nop c, o, op_prog cfg o its)) its false) (mc_thr c) → mcase c c'
    | MCRun i orc id o p p' its : mc_thr c !! i = Some (TState (Some (id, o, p)) its false) → mc_hist c' = mc_hist c →
        mc_thr c' = set_thr i (TState (Some (id, o, p')) its false) (mc_thr c) → mstep cfg c (CRun i orc) = SStep c' → mcase c c'
    | MCRet i id o r v its its' : mc_thr c !! i = Some (TState (Some (id, o, Ret r)) its false) → mc_hist c' = mc_hist c ++ [HRes i id o r v] →
        to_vals o (mc_st c) r = Some v →
        mc_st c' = mc_st c → mc_thr c' = set_thr i (ts_idle its') (mc_thr c) → mcase c c'
    | MCFail i id o p why its : mc_thr c !! i = Some (TState (Some (id, o, p)) its false) → mc_hist c' = mc_hist c ++ [HPanic i id o why] →
        counts (mc_st c') = counts (mc_st c) → mc_thr c' = set_thr i (TState None [] true) (mc_thr c) → mcase c c'.

  Lemma set_thr_cases' i ts (l : list (tstate K V)) j ts' : set_thr i ts l !! j = Some ts' → (j = i ∧ ts' = ts) ∨ (j ≠ i ∧ l !! j = Some ts').
  Proof. unfold set_thr. intros E. apply list_lookup_insert_Some in E. naive_solver. Qed.

  Lemma run_cases {T} (p : prog K V T) (fin : T → option (vres K V * list iterst * hevent)) (inj : prog K V T → prog K V (pres K V))
      (i id : nat) (o : op) its c orc (P : sres → Prop) :
    (∀ a, p = Ret a → P (match fin a with
          | Some (v, its', ev) => SStep (MConf (mc_st c) (set_thr i (ts_idle its') (mc_thr c)) (mc_hist c ++ [ev]) (mc_nop c))
          | None => SUB end)) →
    (∀ p' σ', P (SStep (MConf σ' (set_thr i (TState (Some (id, o, inj p')) its false) (mc_thr c)) (mc_hist c) (mc_nop c)))) →
    P SSkip → P SUB →
    (∀ why, P (SStep (MConf (unpin i (mc_st c)) (set_thr i (TState None [] true) (mc_thr c)) (mc_hist c ++ [HPanic i id o why]) (mc_nop c)))) →
    P (match p in prog _ _ T return (T → option (vres K V * (list iterst) * hevent)) →
                                      (prog K V T → prog K V (pres K V)) → sres with
        | Ret a => λ fin _,
          match fin a with
          | Some (v, its', ev) => SStep (MConf (mc_st c) (set_thr i (ts_idle its') (mc_thr c)) (mc_hist c ++ [ev]) (mc_nop c))
          | None => SUB
          end
        | Act f k => λ _ inj,
          match f i orc (mc_st c) with
          | Ok x σ' => SStep (MConf σ' (set_thr i (TState (Some (id, o, inj (k x))) its false) (mc_thr c)) (mc_hist c) (mc_nop c))
          | Block => SSkip
          | UB => SUB
          end
        | Loop body s k => λ _ inj,
          SStep (MConf (mc_st c) (set_thr i (TState (Some (id, o,
              inj (bind (body s) (λ r, match r with inl s' => Loop body s' k | inr b => k b end)))) its false) (mc_thr c))
             (mc_hist c) (mc_nop c))
        | Fail why => λ _ _,
          SStep (MConf (unpin i (mc_st c)) (set_thr i (TState None [] true) (mc_thr c)) (mc_hist c ++ [HPanic i id o why]) (mc_nop c))
        end fin inj).
  Proof.
    intros HR HS HK HU HF. destruct p as [T a|X T f k|S B T body s k|T why]; auto.
    destruct (f i orc (mc_st c)); auto.
  Qed.

  Lemma mstep_cases c ch c' : mstep cfg c ch = SStep c' → mcase c c'.
  Proof.
    destruct ch as [i|i|i o|i orc|j].
    - cbn. destruct (mc_thr c !! i) as [[[rn|] its []]|] eqn:Et; try done. case_decide; [done|]. intros [= <-].
      eapply (MCEnv _ _ [HPin i]); cbn; auto. right. eauto.
    - cbn. destruct (mc_thr c !! i) as [[[rn|] its []]|] eqn:Et; try done. case_decide; [|done]. intros [= <-].
      eapply (MCEnv _ _ [HUnpin i]); cbn; auto; [right; eauto|]. intros j ts Hj. apply set_thr_cases' in Hj as [[-> ->]|[_ ?]]; auto.
    - cbn. destruct (mc_thr c !! i) as [[[rn|] its []]|] eqn:Et; try done. case_decide; [|done]. intros [= <-].
      by eapply (MCInv _ _ i o its).
    - intros E0. pose proof E0 as E. unfold mstep in E.
      destruct (mc_thr c !! i) as [[[[[id o] p]|] its []]|] eqn:Et; try done. revert E.
      match goal with |- ?X = _ → _ => set (R := X) end.
      cut (R = SStep c' → mcase c c'); [done|]. subst R.
      apply (run_cases p _ (λ q, q) i id o its c orc (λ r, r = SStep c' → mcase c c')); [| |done|done|].
      + intros r ->. destruct (to_vals o (mc_st c) r) as [v|] eqn:TV; [|done]. cbn. intros [= <-]. by eapply (MCRet _ _ i id o r v its).
      + intros p' σ' [= <-]. by eapply (MCRun _ _ i orc id o p p' its).
      + intros why [= <-]. by eapply (MCFail _ _ i id o p why its).
    - cbn. destruct (retired (mc_st c) !! j) as [it|] eqn:Ej; [|done]. case_decide; [|done].
      destruct (reclaim _ _ _) as [σ'|] eqn:Er; [|done]. intros [= <-]. apply reclaim_counts in Er.
      eapply (MCEnv _ _ []); cbn; auto. by rewrite app_nil_r.
  Qed.

  (** A [len] call in progress, when the counters have not changed since it started. *)
  Definition LP (n j : nat) (acc : Z) : prog K V (pres K V) :=
    bind (bind (sum_shards n j acc) (λ s, Ret (Z.to_nat s))) (λ n, Ret (PLen n)).
  Definition lenres (cs : list Z) (p : prog K V (pres K V)) : Prop :=
    p = op_prog cfg OLen [] ∨ ∃ n j, p = LP n j (zsum (take j cs)) ∧ j + n = length cs.

  Lemma zsum_app l l' : zsum (l ++ l') = (zsum l + zsum l')%Z.
  Proof. induction l as [|z l IH]; [done|]. cbn. fold (zsum (l ++ l')). rewrite IH. fold (zsum l). lia. Qed.
  Definition ret_of {T} (p : prog K V T) : option T := match p with Ret a => Some a | _ => None end.
  Lemma lenres_ret cs r : lenres cs (Ret r) → r = PLen (Z.to_nat (zsum cs)).
  Proof.
    intros [E|(n & j & E & L)]; [done|]. destruct n as [|n]; [|done]. apply (f_equal ret_of) in E. cbn in E. injection E as ->. rewrite take_ge by lia. done.
  Qed.
  Lemma lenres_step c i orc id p its c' : mc_thr c !! i = Some (TState (Some (id, OLen, p)) its false) → lenres (counts (mc_st c)) p →
    mstep cfg c (CRun i orc) = SStep c' → mc_hist c' = mc_hist c → counts (mc_st c') = counts (mc_st c) ∧
      ∃ p', mc_thr c' !! i = Some (TState (Some (id, OLen, p')) its false) ∧ lenres (counts (mc_st c)) p'.
  Proof.
    intros Et R. pose proof (lookup_lt_Some _ _ _ Et) as L. unfold mstep. rewrite Et.
    destruct R as [->|(n & j & -> & Ln)].
    - cbn. intros [= <-] _. cbn. split; [done|]. eexists. split; [apply list_lookup_insert; done|]. right.
      exists (length (counts (mc_st c))), 0. split; [done|lia].
    - destruct n as [|n].
      + cbn. intros [= <-]. cbn. intros E. apply (f_equal length) in E. rewrite app_length in E. cbn in E. lia.
      + cbn. intros [= <-] _. cbn. split; [done|]. eexists. split; [apply list_lookup_insert; done|]. right.
        exists n, (S j). split; [|lia]. destruct (lookup_lt_is_Some_2 (counts (mc_st c)) j) as [z Ez]; [lia|].
        rewrite (take_S_r _ _ _ Ez), zsum_app, Ez. cbn. by rewrite Z.add_0_r.
  Qed.
End run.

Section len.
  Context {K V : Type} {Keq : EqDecision K} (cfg : config K) (nthr nsh : nat).
  Notation op := (op K V). Notation hevent := (hevent K V). Notation world := (@world K V).
  Notation lg w := (length (g_log (wg w))).
  Implicit Types (H : list hevent) (w : world) (c : mconf K V).
  Notation MI := (MI cfg nthr nsh).

  Definition lenrun c : Prop := ∀ i id p its h0, mc_thr c !! i = Some (TState (Some (id, OLen, p)) its false) →
    mc_hist c !! h0 = Some (HInv i id OLen) → quiet (mc_hist c) h0 (length (mc_hist c)) id → lenres cfg (counts (mc_st c)) p.
  Definition lenx c w D : Prop := ∀ h0 h i id r n, mc_hist c !! h0 = Some (HInv i id OLen) → mc_hist c !! h = Some (HRes i id OLen r (VLen n)) →
    quiet (mc_hist c) h0 h id → ∃ ks, NoDup ks ∧ (∀ k, k ∈ ks ↔ vm w (Lof D h) k ≠ None) ∧ length ks = n.

  Lemma returned_app H l h t id o : h ≤ length H → returned_before (H ++ l) h t id o → returned_before H h t id o.
  Proof. intros L (h' & r & v & A & B). rewrite lookup_app_l in B by lia. by exists h', r, v. Qed.
  Lemma quiet_app H l h0 h h' id : h0 ≤ length H → h ≤ h' → h ≤ length H → quiet (H ++ l) h0 h' id → quiet H h0 h id.
  Proof.
    intros L L1 L2 Q q t id' o Lq E. destruct (Q q t id' o) as [?|X]; [lia|by apply lookup_app_l_Some|by left|right]. by eapply returned_app.
  Qed.
  Lemma app_hres H e h i id o r v : (H ++ [e]) !! h = Some (HRes i id o r v) → H !! h = Some (HRes i id o r v) ∨ e = HRes i id o r v.
  Proof. intros E. apply snoc_cases in E as [[_ E]|[_ E]]; auto. Qed.

  Lemma dead_step c w D G c' ch : MI c w D G → mstep cfg c ch = SStep c' → dead_ok c → dead_ok c'.
  Proof.
    intros M E DE. pose proof (mi_hi _ _ _ _ _ _ _ M) as I.
    assert (KEEP : ∀ i ts e, mc_thr c !! i = Some ts → ts_dead ts = true → (∀ j id o r v, e = HRes j id o r v → j ≠ i ∧ ∃ h, mc_hist c !! h = Some (HInv j id o)) →
       ∃ h id o, (mc_hist c ++ [e]) !! h = Some (HInv i id o) ∧ ∀ h j o' r v, (mc_hist c ++ [e]) !! h ≠ Some (HRes j id o' r v)).
    { intros i ts e Et Ed N. destruct (DE i ts Et Ed) as (h & id & o & A & B). exists h, id, o. split; [by apply lookup_app_l_Some|].
      intros h' j o' r v X. apply app_hres in X as [X|X]; [by apply B in X|]. destruct (N _ _ _ _ _ X) as (N1 & h2 & X2).
      pose proof (wf_inv _ (hi_wf _ _ _ _ _ I) _ _ _ _ _ _ _ A X2) as Eh. subst h2. rewrite A in X2. injection X2 as -> _. done. }
    destruct (mstep_cases _ _ _ _ E) as [l Ec Eh El Ht|i o its Et Es Eh Ht|i orc id o p p' its Et Eh Ht _|i id o r v its its' Et Eh TV Es Ht|i id o p why its Et Eh Ec Ht];
      intros j ts Hj Hd; rewrite Eh.
    - apply Ht in Hj as [Hj|[_ ?]]; [|congruence]. destruct El as [->|(i & [->| ->])]; [rewrite app_nil_r; by eapply DE|by eapply KEEP|by eapply KEEP].
    - rewrite Ht in Hj. apply set_thr_cases' in Hj as [[-> ->]|[_ Hj]]; [done|]. by eapply KEEP.
    - rewrite Ht in Hj. apply set_thr_cases' in Hj as [[-> ->]|[_ Hj]]; [done|]. by eapply DE.
    - rewrite Ht in Hj. apply set_thr_cases' in Hj as [[-> ->]|[N Hj]]; [done|]. eapply KEEP; [done|done|]. intros ? ? ? ? ? [= <- <- <- <- <-]. split; [done|].
      pose proof (mi_t _ _ _ _ _ _ _ M i _ Et) as (_ & _ & _ & _ & h0 & _ & _ & A & _). by exists h0.
    - rewrite Ht in Hj. apply set_thr_cases' in Hj as [[-> ->]|[N Hj]]; [|by eapply KEEP].
      pose proof (mi_t _ _ _ _ _ _ _ M i _ Et) as (_ & NR & _ & _ & h0 & _ & _ & A & _). exists h0, id, o. split; [by apply lookup_app_l_Some|].
      intros h' j o' r v X. apply app_hres in X as [X|X]; [by apply NR in X|done].
  Qed.

  Lemma lenrun_step c w D G c' ch : MI c w D G → wf_hist (mc_hist c') → mc_nop c = length (r_ops (wr w)) →
    mstep cfg c ch = SStep c' → lenrun c → lenrun c'.
  Proof.
    intros M WF EN E LR. pose proof (mi_hi _ _ _ _ _ _ _ M) as I.
    assert (KEEP : ∀ i id p its h0 l, mc_hist c' = mc_hist c ++ l → mc_thr c !! i = Some (TState (Some (id, OLen, p)) its false) →
       mc_hist c' !! h0 = Some (HInv i id OLen) →
       quiet (mc_hist c') h0 (length (mc_hist c')) id → lenres cfg (counts (mc_st c)) p).
    { intros i id p its h0 l Eh Et E0 Q. pose proof (mi_t _ _ _ _ _ _ _ M i _ Et) as (_ & NR & _ & _ & h1 & _ & _ & A & _).
      assert (E1 : mc_hist c' !! h1 = Some (HInv i id OLen)) by (rewrite Eh; by apply lookup_app_l_Some).
      pose proof (wf_inv _ WF _ _ _ _ _ _ _ E0 E1). subst h1. pose proof (lookup_lt_Some _ _ _ A). rewrite Eh in Q.
      eapply LR; [done|done|]. eapply quiet_app; [| | |exact Q]; rewrite ?app_length; lia. }
    destruct (mstep_cases _ _ _ _ E) as [l Ec Eh El Ht|i o its Et Es Eh Ht|i orc id o p p' its Et Eh Ht SR|i id o r v its its' Et Eh TV Es Ht|i id o p why its Et Eh Ec Ht];
      intros j idj pj itsj h0 Hj E0 Q.
    - rewrite Ec. apply Ht in Hj as [Hj|[? _]]; [|done]. by eapply KEEP.
    - rewrite Es. rewrite Ht in Hj. apply set_thr_cases' in Hj as [[-> X]|[N Hj]]; [|by eapply KEEP]. injection X as -> <- -> ->. by left.
    - rewrite Ht in Hj. apply set_thr_cases' in Hj as [[-> X]|[N Hj]].
      + injection X as -> <- -> ->. assert (R : lenres cfg (counts (mc_st c)) p) by (eapply (KEEP i id p its h0 []); [by rewrite app_nil_r|done..]).
        destruct (lenres_step cfg c i orc id p its c' Et R SR Eh) as (Ec & p2 & Ep & R2). rewrite Ht in Ep. unfold set_thr in Ep.
        rewrite list_lookup_insert in Ep by (by eapply lookup_lt_Some). injection Ep as ->. by rewrite Ec.
      + exfalso. pose proof (mi_t _ _ _ _ _ _ _ M i _ Et) as (_ & NR & _ & _ & h1 & _ & _ & A & _). rewrite Eh in Q.
        destruct (Q h1 i id o) as [->|(h' & r & v & _ & B)]; [by eapply lookup_lt_Some|done| |by apply NR in B].
        by eapply (run_ids cfg nthr nsh c w D G j i).
    - rewrite Es. rewrite Ht in Hj. apply set_thr_cases' in Hj as [[-> ?]|[N Hj]]; [done|]. by eapply KEEP.
    - rewrite Ec. rewrite Ht in Hj. apply set_thr_cases' in Hj as [[-> ?]|[N Hj]]; [done|]. by eapply KEEP.
  Qed.

  Lemma lenx_step c w D G c' w' D' G' ch : MI c w D G → MI c' w' D' G' → grows cfg nthr nsh w w' → D `prefix_of` D' →
    mstep cfg c ch = SStep c' → lenrun c → dead_ok c' → lenx c w D → lenx c' w' D'.
  Proof.
    intros M M' Gr PD E LR DE LX. pose proof (mi_hi _ _ _ _ _ _ _ M) as I. pose proof (mi_hi _ _ _ _ _ _ _ M') as I'.
    pose proof (hi_wf _ _ _ _ _ I') as WF.
    assert (KEEP : ∀ l, mc_hist c' = mc_hist c ++ l → ∀ h0 h i id r n, h < length (mc_hist c) → mc_hist c' !! h0 = Some (HInv i id OLen) →
       mc_hist c' !! h = Some (HRes i id OLen r (VLen n)) → quiet (mc_hist c') h0 h id → ∃ ks, NoDup ks ∧ (∀ k, k ∈ ks ↔ vm w' (Lof D' h) k ≠ None) ∧ length ks = n).
    { intros l Eh h0 h i id r n Lh E0 E1 Q. destruct (wf_res _ WF _ _ _ _ _ _ E1) as (h2 & L2 & E2).
      pose proof (wf_inv _ WF _ _ _ _ _ _ _ E0 E2). subst h2. rewrite Eh in E0, E1, Q. rewrite lookup_app_l in E0, E1 by lia.
      destruct (LX h0 h i id r n E0 E1) as (ks & A & B & C); [eapply quiet_app; [| | |exact Q]; lia|].
      exists ks. split; [done|]. split; [|done]. intros k. rewrite B.
      assert (EL : Lof D' h = Lof D h). { destruct PD as [x ->]. unfold Lof. rewrite lookup_app_l; [done|]. by rewrite (hi_len _ _ _ _ _ I). }
      rewrite EL, (vm_grow cfg nthr nsh w w'); [done|done|by eapply Lof_top]. }
    destruct (mstep_cases _ _ _ _ E) as [l Ec Eh El Ht|i o its Et Es Eh Ht|i orc id o p p' its Et Eh Ht SR|i id o r v its its' Et Eh TV Es Ht|i id o p why its Et Eh Ec Ht];
      intros h0 h j idj rj n E0 E1 Q.
    - eapply KEEP; try done. pose proof E1 as E2. rewrite Eh in E2. destruct El as [->|(i & El)]; [rewrite app_nil_r in E2; by eapply lookup_lt_Some|].
      assert (∃ e, l = [e] ∧ ∀ j id o r v, e ≠ HRes j id o r v) as (e & -> & Ne) by (destruct El as [->| ->]; eauto).
      apply snoc_cases in E2 as [[? _]|[_ ?]]; [done|]. subst. by destruct (Ne j idj OLen rj (VLen n)).
    - eapply KEEP; try done. rewrite Eh in E1. by apply snoc_cases in E1 as [[? _]|[_ ?]].
    - eapply (KEEP []); try done; [by rewrite app_nil_r|]. rewrite Eh in E1. by eapply lookup_lt_Some.
    - pose proof E1 as E2. rewrite Eh in E2. apply snoc_cases in E2 as [[L _]|[-> X]]; [by eapply KEEP|]. injection X as -> -> <- -> <-.
      pose proof (mi_t _ _ _ _ _ _ _ M i _ Et) as (_ & NR & _ & _ & h1 & _ & _ & A & _).
      assert (A' : mc_hist c' !! h1 = Some (HInv i id OLen)) by (rewrite Eh; by apply lookup_app_l_Some).
      pose proof (wf_inv _ WF _ _ _ _ _ _ _ E0 A'). subst h1. pose proof (lookup_lt_Some _ _ _ A) as L0.
      assert (R : lenres cfg (counts (mc_st c)) (Ret r)).
      { eapply LR; [done|done|]. rewrite Eh in Q. eapply quiet_app; [| | |exact Q]; lia. }
      apply lenres_ret in R. subst r. cbn in TV. injection TV as TV.
      assert (CO : ∀ q t id' o, mc_hist c' !! q = Some (HInv t id' o) → ∃ hr r v, hr ≤ length (mc_hist c) ∧ mc_hist c' !! hr = Some (HRes t id' o r v)).
      { intros q t id' o Eq. assert (Lq : q < length (mc_hist c)).
        { rewrite Eh in Eq. by apply snoc_cases in Eq as [[? _]|[_ ?]]. }
        destruct (Q q t id' o Lq Eq) as [->|(hr & r & v & Lr & Er)]; [|exists hr, r, v; split; [lia|done]].
        pose proof (wf_inv _ WF _ _ _ _ _ _ _ E0 Eq). subst q. rewrite E0 in Eq. injection Eq as <- <-. eexists _, _, _. split; [|exact E1]. lia. }
      destruct (count_complete cfg nthr nsh c' w' D' G' M' DE) as (ks & ND & HK & HL).
      { intros q t id' o Eq. destruct (CO q t id' o Eq) as (hr & r & v & _ & B). by exists hr, r, v. }
      exists ks. split; [done|]. split; [|by rewrite <- TV, <- Es, <- HL, Nat2Z.id].
      assert (EL : Lof D' (length (mc_hist c)) = lg w').
      { pose proof (Lof_top _ _ _ _ _ (length (mc_hist c)) I') as T. destruct (decide (lg w' ≤ Lof D' (length (mc_hist c)))) as [|N]; [lia|]. exfalso.
        destruct (lookup_lt_is_Some_2 (g_log (wg w')) (Lof D' (length (mc_hist c)))) as [e He]; [lia|].
        destruct (hi_ev _ _ _ _ _ I' _ _ He) as (q & t & o & Eq & _). destruct (CO _ _ _ _ Eq) as (hr & r & v & Lr & Er).
        destruct (hi_fin _ _ _ _ _ I' _ _ _ _ _ _ Er) as [_ F]. specialize (F _ _ He eq_refl).
        pose proof (Lof_mono _ _ _ _ _ hr (length (mc_hist c)) I' Lr ltac:(by eapply lookup_lt_Some)). lia. }
      by rewrite EL.
    - eapply KEEP; try done. rewrite Eh in E1. by apply snoc_cases in E1 as [[? _]|[_ ?]].
  Qed.

  Lemma exec_len (sched : list (choice K V)) c w D G c' : MI c w D G → dead_ok c → lenrun c → lenx c w D → exec cfg c sched = Some c' →
    ∃ w' D' G', MI c' w' D' G' ∧ lenx c' w' D'.
  Proof.
    revert c w D G. induction sched as [|ch sched IH]; intros c w D G M DE LR LX; cbn; [intros [= <-]; by exists w, D, G|].
    pose proof (step_ok cfg nthr nsh c w D G ch M) as St. destruct (mstep cfg c ch) as [c1| |] eqn:Em; [|by eapply IH|by destruct St].
    destruct St as (w1 & D1 & G1 & M1 & Gr & PD & _). assert (DE1 : dead_ok c1) by (by eapply (dead_step c w D G)).
    assert (LR1 : lenrun c1) by (eapply (lenrun_step c w D G c1 ch); [done|apply M1|apply M|done|done]).
    assert (LX1 : lenx c1 w1 D1) by (by eapply (lenx_step c w D G)).
    by apply (IH c1 w1 D1 G1).
  Qed.
End len.

Section main.
  Context {K V : Type} {Keq : EqDecision K} (cfg : config K) (nthr nsh cap : nat).
  Context (HS : 0 < nsh).

  (** C10: in every execution, every [len] call that ran in quiescence returned exactly the number of keys of the map at
      that moment, for one and the same linearization of the history. *)
  Theorem C10_len_exact (sched : list (choice K V)) c : exec cfg (init_conf cap nsh nthr) sched = Some c →
    ∃ S cut, linearizes (mc_hist c) S cut ∧ len_exact (mc_hist c) S cut.
  Proof.
    intros E. destruct (exec_len cfg nthr nsh sched (init_conf cap nsh nthr) (w_init nsh cap) [] [] c) as (w & D & G & M & LX).
    - by apply MI_init.
    - intros i ts Ei. cbn in Ei. apply lookup_replicate in Ei as [-> _]. done.
    - intros i id p its h0 Ei. cbn in Ei. by apply lookup_replicate in Ei as [? _].
    - by intros h0 h i id r n ?.
    - done.
    - pose proof (mi_wi _ _ _ _ _ _ _ M) as W. pose proof (mi_hi _ _ _ _ _ _ _ M) as I.
      destruct (acts_ex cfg nthr nsh w W) as [A HA]. exists (SS w G A), (cut w D G A). split; [by eapply lin_ok|].
      intros h0 h i id r n E0 E1 Q. destruct (LX h0 h i id r n E0 E1 Q) as (ks & B1 & B2 & B3). exists ks. split; [done|]. split; [|done].
      destruct (pos_wit cfg nthr nsh w (mc_hist c) D G W I A HA h h _ _ (Lof D h) E1 E1) as (q & C1 & C2 & C3); [lia..|].
      intros k. rewrite B2, <- C3. by replace q with (cut w D G A (h + 1)) by lia.
  Qed.
End main.
