(** C24, C40: runs of a single thread that never return. *)
From Verif Require Export Livelock.

Section forever.
  Context {K V : Type} {Keq : EqDecision K} (cfg : config K).

  (** The thread can always take another step, and no number of its steps makes its operation return (or panic). *)
  Definition runs_forever (c : mconf K V) (i : nat) : Prop := ∀ n, ∃ c' c'',
    exec cfg c (replicate n (CRun i false)) = Some c' ∧ mc_hist c' = mc_hist c ∧ mstep cfg c' (CRun i false) = SStep c''.

  Lemma exec_app_l s1 s2 (c : mconf K V) : exec cfg c (s1 ++ s2) = match exec cfg c s1 with Some c' => exec cfg c' s2 | None => None end.
  Proof. revert c. induction s1 as [|ch s1 IH]; intros c; cbn [app exec]; [done|]. destruct (mstep cfg c ch); [apply IH|apply IH|done]. Qed.

  Lemma pstep_mstep (c : mconf K V) i id o p its p' σ' : mc_thr c !! i = Some (TState (Some (id, o, p)) its false) →
    pstep i p (mc_st c) = Some (p', σ') →
    mstep cfg c (CRun i false) = SStep (MConf σ' (set_thr i (TState (Some (id, o, p')) its false) (mc_thr c)) (mc_hist c) (mc_nop c)).
  Proof.
    intros E P. unfold mstep. rewrite E.
    assert (G : ∀ T (q : prog K V T) (fin : T → option (vres K V * list iterst * hevent K V)) (inj : prog K V T → prog K V (pres K V)) q',
      pstep i q (mc_st c) = Some (q', σ') →
      match q in Prog.prog _ _ T return (T → option (vres K V * (list iterst) * hevent K V)) → (Prog.prog K V T → Prog.prog K V (pres K V)) → sres with
        | Ret a => λ fin _,
          match fin a with
          | Some (v, its', ev) => SStep (MConf (mc_st c) (set_thr i (ts_idle its') (mc_thr c)) (mc_hist c ++ [ev]) (mc_nop c))
          | None => SUB
          end
        | Act f k => λ _ inj,
          match f i false (mc_st c) with
          | Ok x σ' => SStep (MConf σ' (set_thr i (TState (Some (id, o, inj (k x))) its false) (mc_thr c)) (mc_hist c) (mc_nop c))
          | Block => SSkip
          | UB => SUB
          end
        | Loop body s k => λ _ inj,
          SStep (MConf (mc_st c) (set_thr i (TState (Some (id, o,
              inj (bind (body s) (λ r, match r with inl s' => Loop body s' k | inr b => k b end)))) its false) (mc_thr c))
             (mc_hist c) (mc_nop c))
        | Fail why => λ _ _,
          SStep (MConf (unpin i (mc_st c)) (set_thr i (TState None [] true) (mc_thr c)) (mc_hist c ++ [HPanic i id o why]) (mc_nop c))
        end fin inj = SStep (MConf σ' (set_thr i (TState (Some (id, o, inj q')) its false) (mc_thr c)) (mc_hist c) (mc_nop c))).
    { intros T q fin inj q' Pq. destruct q as [A a|X A f k|S' X A body s k|A r]; cbn [pstep] in Pq; try discriminate Pq.
      - destruct (f i false (mc_st c)) as [x σ1| |]; try discriminate Pq. by injection Pq as <- <-.
      - by injection Pq as <- <-. }
    apply (G _ p _ (λ p, p)), P.
  Qed.

  Lemma psteps_exec n i id o its : ∀ (c : mconf K V) p, mc_thr c !! i = Some (TState (Some (id, o, p)) its false) → is_Some (psteps (S n) i p (mc_st c)) →
    ∃ c' c'', exec cfg c (replicate n (CRun i false)) = Some c' ∧ mc_hist c' = mc_hist c ∧ mstep cfg c' (CRun i false) = SStep c''.
  Proof.
    induction n as [|n IH]; intros c p E [x P].
    - cbn [psteps] in P. destruct (pstep i p (mc_st c)) as [[p' σ']|] eqn:Ep; [|discriminate P]. exists c. eexists. split; [done|]. split; [done|]. by eapply pstep_mstep.
    - change (psteps (S (S n)) i p (mc_st c)) with (match pstep i p (mc_st c) with Some (p', σ') => psteps (S n) i p' σ' | None => None end) in P.
      destruct (pstep i p (mc_st c)) as [[p' σ']|] eqn:Ep; [|discriminate P]. cbn [replicate exec]. rewrite (pstep_mstep _ _ _ _ _ _ _ _ E Ep).
      set (c1 := MConf _ _ _ _). destruct (IH c1 p') as (c' & c'' & A & B & C); [|by exists x|by exists c', c''].
      unfold c1, set_thr. cbn [mc_thr]. apply list_lookup_insert. by eapply lookup_lt_Some.
  Qed.

  Lemma forever_from (c : mconf K V) i id o p its : mc_thr c !! i = Some (TState (Some (id, o, p)) its false) →
    (∀ n, is_Some (psteps n i p (mc_st c))) → runs_forever c i.
  Proof. intros E P n. eapply psteps_exec; [exact E|apply P]. Qed.

  (** Rounds of a loop, evaluated. *)
  Fixpoint rounds {S' B} (fuel n i : nat) (body : S' → prog K V (S' + B)) (s : S') (σ : state K V) : option (S' * state K V) :=
    match n with
    | 0 => Some (s, σ)
    | S n => match run fuel i (body s) σ with Some (inl s', σ') => rounds fuel n i body s' σ' | _ => None end
    end.
  Lemma rounds_psteps {S' B A} fuel n i (body : S' → prog K V (S' + B)) s s' σ σ' (k : B → prog K V A) :
    rounds fuel n i body s σ = Some (s', σ') → ∃ m, n ≤ m ∧ psteps m i (Loop body s k) σ = Some (Loop body s' k, σ').
  Proof.
    revert s σ. induction n as [|n IH]; intros s σ; cbn [rounds]; [intros [= -> ->]; by exists 0|].
    destruct (run fuel i (body s) σ) as [[[s1|?] σ1]|] eqn:R; try discriminate. intros (m & L & P)%IH.
    destruct (run_round _ _ _ _ _ _ _ k R) as [m' P']. exists (S m' + m). split; [lia|]. by rewrite psteps_add, P'.
  Qed.

  (** A check that implies [srel]. *)
  Definition srel_check (b d : nat) (σ σ2 : state K V) : Prop :=
    length (tables σ2) = length (tables σ) + d ∧ (b <=? length (tables σ)) = true ∧
    drop (b + d) (tables σ2) = map (t_shift d) (drop b (tables σ)) ∧
    forallb (λ t, match t_next t with Some n => b <=? n | None => true end) (drop b (tables σ)) = true ∧
    root σ2 = (λ x, x + d) <$> root σ ∧ match root σ with Some r => b <=? r | None => true end = true ∧
    heap σ2 = heap σ ∧ counts σ2 = counts σ ∧ freed σ2 = freed σ ∧ tokens σ2 = tokens σ ∧
    forallb (λ o, match o with RTable t => t <? b + d | REntry _ => false end) (retired_ever σ2) = true.
  Lemma srel_check_ok b d σ σ2 : srel_check b d σ σ2 → srel b d σ σ2.
  Proof.
    intros (L & B & T & N & R & RG & H1 & H2 & H3 & H4 & EV). apply Nat.leb_le in B. rewrite forallb_forall in EV. split; try done.
    - intros t Lt. assert (T' : drop (b + d) (tables σ2) !! (t - b) = map (t_shift d) (drop b (tables σ)) !! (t - b)) by (by rewrite T).
      rewrite lookup_drop in T'. replace (b + d + (t - b)) with (t + d) in T' by lia. rewrite T', list_lookup_fmap, lookup_drop. do 2 f_equal. lia.
    - intros t tb n Lt E En. rewrite forallb_forall in N. assert (I : In tb (drop b (tables σ))).
      { apply elem_of_list_In, elem_of_list_lookup. exists (t - b). rewrite lookup_drop. rewrite <- E. f_equal. lia. }
      specialize (N _ I). rewrite En in N. by apply Nat.leb_le in N.
    - intros r E. rewrite E in RG. by apply Nat.leb_le in RG.
    - intros p I%elem_of_list_In. by specialize (EV _ I).
    - intros t Lt I%elem_of_list_In. specialize (EV _ I). cbn in EV. apply Nat.ltb_lt in EV. lia.
  Qed.

  Lemma forever_after {A} a i (p p1 : prog K V A) σ σ1 : psteps a i p σ = Some (p1, σ1) → (∀ n, is_Some (psteps n i p1 σ1)) → ∀ n, is_Some (psteps n i p σ).
  Proof.
    intros E H n. destruct (decide (n ≤ a)) as [L|L].
    - replace a with (n + (a - n)) in E by lia. rewrite psteps_add in E. by destruct (psteps n i p σ).
    - replace n with (a + (n - a)) by lia. by rewrite psteps_add, E.
  Qed.

  (** A loop that, after some rounds, repeats itself up to the numbering of the tables runs forever. *)
  Lemma loop_forever {S' B A} fuel w n b d i (body : S' → prog K V (S' + B)) (RS : S' → S' → Prop) (RB : B → B → Prop) (k : B → prog K V A) s σ s1 σ1 s2 σ2 :
    rounds fuel w i body s σ = Some (s1, σ1) → rounds fuel (S n) i body s1 σ1 = Some (s2, σ2) →
    srel_check b d σ1 σ2 → RS s1 s2 → (∀ s s', RS s s' → PR b d (body s) (rsum RS RB) (body s')) →
    (∀ x x', RB x x' → PR b d (k x) (λ _ _, True) (k x')) → ∀ m, is_Some (psteps m i (Loop body s k) σ).
  Proof.
    intros R1 R2 C HS HB HK. destruct (rounds_psteps _ _ _ _ _ _ _ _ k R1) as (m1 & _ & P1). destruct (rounds_psteps _ _ _ _ _ _ _ _ k R2) as (m2 & L2 & P2).
    eapply forever_after; [exact P1|]. destruct m2 as [|m2]; [lia|].
    eapply (forever b d m2 i _ _ (λ _ _, True) σ1 σ2 P2); [|by apply srel_check_ok].
    exists body, s2, k, RS, RB. split; [done|]. split; [done|]. by split.
  Qed.
End forever.

(** ** Default (incremental) mode: after inserting 37 keys with the same hash, [iter] (and [clear], [retain], [==], [clone], ...,
    which all first finish the resize) never returns, although no other thread exists. *)
Definition lcfg := mk_config (K:=nat) (λ _, 0%N) (Incremental 64) 0 2 1 1.
Definition l_full (o : op nat nat) : list (choice nat nat) := CInvoke 0 o :: replicate 20000 (CRun 0 false).
Definition l_sched (n : nat) : list (choice nat nat) := CPin 0 :: concat (map (λ k, l_full (OInsert k k)) (seq 0 n)).
Definition lA : option (mconf nat nat) := Eval vm_compute in exec lcfg (init_conf 0 1 1) (l_sched 37).
Definition lc : mconf nat nat := Eval vm_compute in default (init_conf 0 1 1) lA.
Definition l_root : tref := Eval vm_compute in match root (mc_st lc) with Some t => match tables (mc_st lc) !! t with Some tb => handle t tb | None => TRef 0 0 0 end | None => TRef 0 0 0 end.

Definition is_shift (d : nat) (a a' : tref) : Prop := a' = TRef (th a + d) (th_mask a) (th_limit a).
Lemma l_rounds : ∃ s1 σ1 s2 σ2, rounds (B:=tref) 20000 2 0 (lin_body lcfg) l_root (mc_st lc) = Some (s1, σ1) ∧
  rounds (B:=tref) 20000 108 0 (lin_body lcfg) s1 σ1 = Some (s2, σ2) ∧ th s1 = 6 ∧ is_shift 108 s1 s2 ∧ srel_check 6 108 σ1 σ2.
Proof.
  assert (H : match rounds (B:=tref) 20000 2 0 (lin_body lcfg) l_root (mc_st lc) with
    | Some (s1, σ1) => match rounds (B:=tref) 20000 108 0 (lin_body lcfg) s1 σ1 with
       | Some (s2, σ2) => th s1 = 6 ∧ is_shift 108 s1 s2 ∧ srel_check 6 108 σ1 σ2
       | None => False end
    | None => False end).
  { vm_compute. repeat split; reflexivity. }
  destruct (rounds (B:=tref) 20000 2 0 (lin_body lcfg) l_root (mc_st lc)) as [[s1 σ1]|]; [|contradiction].
  destruct (rounds (B:=tref) 20000 108 0 (lin_body lcfg) s1 σ1) as [[s2 σ2]|] eqn:E; [|contradiction]. exists s1, σ1, s2, σ2. split; [done|]. split; [exact E|]. exact H.
Qed.

Lemma l_exec : exec lcfg (init_conf 0 1 1) (l_sched 37) = Some lc.
Proof. vm_compute. reflexivity. Qed.

Theorem C40_iter_never_returns_refuted : ∃ c, exec lcfg (init_conf 0 1 1) (l_sched 37 ++ [CInvoke 0 OIter]) = Some c ∧
  map (λ e, match e with HRes _ _ (OInsert k _) _ _ => Some k | _ => None end) (List.filter (λ e, match e with HRes _ _ _ _ _ => true | _ => false end) (mc_hist c)) = map Some (seq 0 37) ∧
  list.last (mc_hist c) = Some (HInv 0 37 OIter) ∧ runs_forever lcfg c 0.
Proof.
  exists (MConf (mc_st lc) (set_thr 0 (TState (Some (37, OIter, op_prog lcfg OIter [])) [] false) (mc_thr lc)) (mc_hist lc ++ [HInv 0 37 OIter]) 38). split; [|split; [|split]].
  - etransitivity; [apply exec_app_l|]. rewrite l_exec. reflexivity.
  - reflexivity.
  - reflexivity.
  - eapply (forever_from lcfg _ 0 37 OIter (op_prog lcfg OIter []) []); [reflexivity|]. change (mc_st _) with (mc_st lc).
    apply (forever_after 1 0 _ (Loop (lin_body lcfg) l_root (λ tb, Ret (PIter (Some tb)))) _ (mc_st lc)); [reflexivity|].
    destruct l_rounds as (s1 & σ1 & s2 & σ2 & R1 & R2 & B1 & B2 & C).
    apply (loop_forever 20000 2 107 6 108 0 (lin_body lcfg) (RT 6 108) (RT 6 108) _ _ _ _ _ _ _ R1 R2 C).
    + split; [rewrite B1; apply le_n|exact B2].
    + intros s s' HS. apply R_lin_body. exact HS.
    + intros x x' HX. eexists. split; [reflexivity|exact I].
Qed.

(** ** Blocking mode: after inserting 31 keys with the same hash (they fill the probe sequence of a table of 64 slots, but are fewer
    than half of it), inserting one more never returns: each resize allocates a table of the same size. *)
Definition bcfg := mk_config (K:=nat) (λ _, 0%N) Blocking 0 2 1 1.
Definition bA : option (mconf nat nat) := Eval vm_compute in exec bcfg (init_conf 0 1 1) (l_sched 31).
Definition bc : mconf nat nat := Eval vm_compute in default (init_conf 0 1 1) bA.
Definition b_root : tref := Eval vm_compute in match root (mc_st bc) with Some t => match tables (mc_st bc) !! t with Some tb => handle t tb | None => TRef 0 0 0 end | None => TRef 0 0 0 end.

Lemma b_rounds : ∃ s1 σ1 s2 σ2, rounds (B:=iresult) 20000 2 0 (ins_body bcfg 31 31 true) (b_root, true) (mc_st bc) = Some (s1, σ1) ∧
  rounds (B:=iresult) 20000 78 0 (ins_body bcfg 31 31 true) s1 σ1 = Some (s2, σ2) ∧ th s1.1 = 3 ∧ is_shift 78 s1.1 s2.1 ∧ s1.2 = s2.2 ∧ srel_check 3 78 σ1 σ2.
Proof.
  assert (H : match rounds (B:=iresult) 20000 2 0 (ins_body bcfg 31 31 true) (b_root, true) (mc_st bc) with
    | Some (s1, σ1) => match rounds (B:=iresult) 20000 78 0 (ins_body bcfg 31 31 true) s1 σ1 with
       | Some (s2, σ2) => th s1.1 = 3 ∧ is_shift 78 s1.1 s2.1 ∧ s1.2 = s2.2 ∧ srel_check 3 78 σ1 σ2
       | None => False end
    | None => False end).
  { vm_compute. repeat split; reflexivity. }
  destruct (rounds (B:=iresult) 20000 2 0 (ins_body bcfg 31 31 true) (b_root, true) (mc_st bc)) as [[s1 σ1]|]; [|contradiction].
  destruct (rounds (B:=iresult) 20000 78 0 (ins_body bcfg 31 31 true) s1 σ1) as [[s2 σ2]|] eqn:E; [|contradiction]. exists s1, σ1, s2, σ2. split; [reflexivity|]. split; [exact E|]. exact H.
Qed.
Lemma b_exec : exec bcfg (init_conf 0 1 1) (l_sched 31) = Some bc.
Proof. vm_compute. reflexivity. Qed.

Definition ins_tail (r : iresult) : prog nat nat (pres nat nat) :=
  bind (match r with RInserted _ => bind (act (a_count 1)) (λ _, Ret r) | _ => Ret r end) (λ r, match r with RError _ => Fail PUnreachable | _ => Ret (PIns r) end).

Theorem C24_insert_never_returns_refuted : ∃ c, exec bcfg (init_conf 0 1 1) (l_sched 31 ++ [CInvoke 0 (OInsert 31 31)]) = Some c ∧
  map (λ e, match e with HRes _ _ (OInsert k _) _ _ => Some k | _ => None end) (List.filter (λ e, match e with HRes _ _ _ _ _ => true | _ => false end) (mc_hist c)) = map Some (seq 0 31) ∧
  list.last (mc_hist c) = Some (HInv 0 31 (OInsert 31 31)) ∧ runs_forever bcfg c 0.
Proof.
  exists (MConf (mc_st bc) (set_thr 0 (TState (Some (31, OInsert 31 31, op_prog bcfg (OInsert 31 31) [])) [] false) (mc_thr bc)) (mc_hist bc ++ [HInv 0 31 (OInsert 31 31)]) 32).
  split; [|split; [|split]].
  - etransitivity; [apply exec_app_l|]. rewrite b_exec. reflexivity.
  - reflexivity.
  - reflexivity.
  - eapply (forever_from bcfg _ 0 31 (OInsert 31 31) (op_prog bcfg (OInsert 31 31) []) []); [reflexivity|]. change (mc_st _) with (mc_st bc).
    apply (forever_after 1 0 _ (Loop (ins_body bcfg 31 31 true) (b_root, true) ins_tail) _ (mc_st bc)); [reflexivity|].
    destruct b_rounds as (s1 & σ1 & s2 & σ2 & R1 & R2 & B1 & B2 & B3 & C).
    apply (loop_forever 20000 2 77 3 78 0 (ins_body bcfg 31 31 true) (RTB 3 78) eq _ _ _ _ _ _ _ R1 R2 C).
    + split; [split; [rewrite B1; apply le_n|exact B2]|exact B3].
    + intros s s' HS. apply R_ins_body. exact HS.
    + intros x x' <-. unfold ins_tail. eapply (PR_bind 3 78 _ _ eq).
      * destruct x; [|apply PR_ret; reflexivity..]. eapply PR_act; [apply r_count|]. intros ? ? _. apply PR_ret. reflexivity.
      * intros y y' <-. destruct y; [apply PR_ret; exact I|apply PR_ret; exact I|apply PR_fail].
Qed.
