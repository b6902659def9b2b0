(** C33: guards of another map are rejected. Several maps, each with its own collector (mod.rs:216-246 creates one per map),
    used by the same threads. Every public method takes a guard and passes [self.raw.verify(guard)] on (map.rs:426-1005,
    set.rs:372-569); [verify] (mod.rs:262-274) compares the guard's collector with the map's and panics if they differ.
    Guards made by [guard()]/[owned_guard()] or [pin()] of map [g] are identified with [g]: a thread holds a guard of map [g]
    when it is pinned in the configuration of [g]. *)
From Verif Require Export WaitFree Main1.

Section guards.
  Context {K V : Type} {Keq : EqDecision K} (cfgs : list (config K)).

  (** The maps, and the threads that have panicked because of a wrong guard. *)
  Record xconf := XConf { x_maps : list (mconf K V); x_rejected : list (nat * nat * op K V * nat) }.
  Inductive xchoice :=
    | XCall (m i : nat) (o : op K V) (g : nat)          (* thread [i] calls [o] on map [m] with a guard of map [g] *)
    | XOther (m : nat) (ch : choice K V).               (* any step of map [m] that is not the start of a call *)

  Definition is_invoke (ch : choice K V) : bool := match ch with CInvoke _ _ => true | _ => false end.
  Definition x_on (c : xconf) (m : nat) (ch : choice K V) : option xconf :=
    match cfgs !! m, x_maps c !! m with
    | Some cfg, Some mc => match mstep cfg mc ch with SStep mc' => Some (XConf (<[m := mc']> (x_maps c)) (x_rejected c)) | SSkip => Some c | SUB => None end
    | _, _ => Some c
    end.
  (** [verify], then the method. A rejected call panics in the caller: it is recorded, nothing else happens to any map
      (the guards of the unwinding thread are dropped by ordinary unpin steps). [verify = false]: a version without the check. *)
  Definition x_step (verify : bool) (c : xconf) (ch : xchoice) : option xconf :=
    match ch with
    | XOther m ch => if is_invoke ch then Some c else x_on c m ch
    | XCall m i o g =>
      match x_maps c !! g with
      | Some gc =>
        if decide (i ∈ pins (mc_st gc)) then                                      (* the thread does hold that guard *)
          if g =? m then x_on c m (CInvoke i o)
          else if verify then Some (XConf (x_maps c) (x_rejected c ++ [(m, i, o, g)])) else
          (* no check: the call goes ahead although thread [i] is not protected in map [m] *)
          match cfgs !! m, x_maps c !! m with
          | Some cfg, Some mc =>
            match mc_thr mc !! i with
            | Some (TState None its false) =>
              Some (XConf (<[m := MConf (mc_st mc) (set_thr i (TState (Some (mc_nop mc, o, op_prog cfg o its)) its false) (mc_thr mc))
                                        (mc_hist mc ++ [HInv i (mc_nop mc) o]) (S (mc_nop mc))]> (x_maps c)) (x_rejected c))
            | _ => Some c
            end
          | _, _ => Some c
          end
        else Some c
      | None => Some c
      end
    end.
  Fixpoint x_exec (verify : bool) (c : xconf) (sched : list xchoice) : option xconf :=
    match sched with [] => Some c | ch :: sched => c' ← x_step verify c ch; x_exec verify c' sched end%stdpp.

  (** C33 (1): a call with a guard of another map is rejected, and no map is touched. *)
  Theorem C33_wrong_guard_rejected c m i o g gc : x_maps c !! g = Some gc → i ∈ pins (mc_st gc) → g ≠ m →
    ∃ c', x_step true c (XCall m i o g) = Some c' ∧ x_maps c' = x_maps c ∧ x_rejected c' = x_rejected c ++ [(m, i, o, g)].
  Proof. intros E P N. cbn [x_step]. rewrite E, decide_True by done. apply Nat.eqb_neq in N. rewrite N. eexists. done. Qed.
  (** C33 (2): a call with a guard of the same map is never rejected: the operation starts. *)
  Theorem C33_own_guard_accepted c m i o mc cfg its : cfgs !! m = Some cfg → x_maps c !! m = Some mc → i ∈ pins (mc_st mc) → mc_thr mc !! i = Some (ts_idle its) →
    ∃ c' mc', x_step true c (XCall m i o m) = Some c' ∧ x_rejected c' = x_rejected c ∧ x_maps c' !! m = Some mc' ∧ mc_hist mc' = mc_hist mc ++ [HInv i (mc_nop mc) o].
  Proof.
    intros Ec Em P Ei. cbn [x_step]. rewrite Em, decide_True, Nat.eqb_refl by done. unfold x_on. rewrite Ec, Em. cbn [mstep]. rewrite Ei. unfold ts_idle. rewrite decide_True by done.
    eexists _, _. split; [reflexivity|]. split; [done|]. cbn [x_maps]. rewrite list_lookup_insert by (by eapply lookup_lt_Some). done.
  Qed.

  Lemma exec_snoc cfg (s : list (choice K V)) ch : ∀ c c1, exec cfg c s = Some c1 → exec cfg c (s ++ [ch]) = match mstep cfg c1 ch with SStep c2 => Some c2 | SSkip => Some c1 | SUB => None end.
  Proof.
    induction s as [|x s IH]; intros c c1 E; cbn [exec app] in *; [injection E as <-; by destruct (mstep cfg c ch)|].
    destruct (mstep cfg c x) as [c2| |]; [by apply IH|by apply IH|done].
  Qed.
  Lemma x_step_proj verify c ch c' : verify = true → x_step verify c ch = Some c' →
    ∀ m mc', x_maps c' !! m = Some mc' → ∃ mc, x_maps c !! m = Some mc ∧ (mc' = mc ∨ ∃ cfg a, cfgs !! m = Some cfg ∧ mstep cfg mc a = SStep mc').
  Proof.
    intros -> E m mc' Em. assert (Hon : ∀ m' a, x_on c m' a = Some c' → ∃ mc, x_maps c !! m = Some mc ∧ (mc' = mc ∨ ∃ cfg a, cfgs !! m = Some cfg ∧ mstep cfg mc a = SStep mc')).
    { intros m' a H. unfold x_on in H. destruct (cfgs !! m') as [cfg|] eqn:Ec; [|injection H as <-; by exists mc'; auto].
      destruct (x_maps c !! m') as [mc|] eqn:Em'; [|injection H as <-; by exists mc'; auto]. destruct (mstep cfg mc a) as [mc1| |] eqn:M; [|injection H as <-; by exists mc'; auto|done].
      injection H as <-. cbn [x_maps] in Em. destruct (decide (m = m')) as [->|N].
      - rewrite list_lookup_insert in Em by (by eapply lookup_lt_Some). injection Em as <-. exists mc. split; [done|]. right. by exists cfg, a.
      - rewrite list_lookup_insert_ne in Em by done. by exists mc'; auto. }
    assert (Hid : Some c = Some c' → ∃ mc, x_maps c !! m = Some mc ∧ (mc' = mc ∨ ∃ cfg a, cfgs !! m = Some cfg ∧ mstep cfg mc a = SStep mc')) by (intros [= ->]; exists mc'; auto).
    destruct ch as [m' i o g|m' a]; cbn [x_step] in E.
    - destruct (x_maps c !! g) as [gc|]; [|by apply Hid]. destruct (decide _); [|by apply Hid]. destruct (g =? m'); [by eapply Hon|]. injection E as <-. exists mc'; auto.
    - destruct (is_invoke a); [by apply Hid|by eapply Hon].
  Qed.

  (** C33 (3): whatever guards the threads pass, every map sees only an execution of the single-map machine, in which operations run
      only under a guard of that map: so every theorem about one map holds for each of the maps. *)
  Theorem C33_each_map_runs_alone sched : ∀ c c', x_exec true c sched = Some c' → ∀ m mc', x_maps c' !! m = Some mc' →
    ∃ mc, x_maps c !! m = Some mc ∧ (mc' = mc ∨ ∃ cfg s, cfgs !! m = Some cfg ∧ exec cfg mc s = Some mc').
  Proof.
    induction sched as [|ch sched IH]; intros c c' E m mc' Em; cbn [x_exec] in E; [injection E as <-; by exists mc'; auto|].
    destruct (x_step true c ch) as [c1|] eqn:S; [|done]. cbn in E. destruct (IH c1 c' E m mc' Em) as (mc1 & E1 & H1).
    destruct (x_step_proj true c ch c1 eq_refl S m mc1 E1) as (mc & E0 & H0). exists mc. split; [done|].
    destruct H0 as [->|(cfg & a & Ec & M)]; [done|]. right. destruct H1 as [->|(cfg' & s & Ec' & X)].
    - exists cfg, [a]. split; [done|]. cbn [exec]. by rewrite M.
    - assert (cfg' = cfg) as -> by congruence. exists cfg, (a :: s). split; [done|]. cbn [exec]. by rewrite M.
  Qed.
  Lemma x_no_ub_step c ch : (∀ m mc cfg a, x_maps c !! m = Some mc → cfgs !! m = Some cfg → mstep cfg mc a ≠ SUB) → x_step true c ch ≠ None.
  Proof.
    intros H. assert (Hon : ∀ m a, x_on c m a ≠ None).
    { intros m a. unfold x_on. destruct (cfgs !! m) as [cfg|] eqn:Ec; [|done]. destruct (x_maps c !! m) as [mc|] eqn:Em; [|done]. pose proof (H m mc cfg a Em Ec). by destruct (mstep cfg mc a). }
    destruct ch as [m i o g|m a]; cbn [x_step].
    - destruct (x_maps c !! g); [|done]. destruct (decide _); [|done]. destruct (g =? m); [apply Hon|done].
    - destruct (is_invoke a); [done|apply Hon].
  Qed.
End guards.

Section safe.
  Context {K V : Type} {Keq : EqDecision K}.
  (** C33 (4): with the check, no use of guards leads to undefined behaviour, for any number of maps (in either mode). *)
  Theorem C33_no_undefined_behaviour : ∀ (cfgs : list (config K)) (inits : list (nat * nat)) nthr,
    (∀ m cap nsh, inits !! m = Some (cap, nsh) → 0 < nsh) →
    ∀ sched, x_exec cfgs true (XConf (map (λ x, init_conf (V:=V) x.1 x.2 nthr) inits) []) sched ≠ None.
  Proof.
    intros cfgs inits nthr HS sched.
    assert (P : ∀ s c, (∀ m mc cfg, x_maps c !! m = Some mc → cfgs !! m = Some cfg → ∃ cap nsh s, 0 < nsh ∧ exec cfg (init_conf cap nsh nthr) s = Some mc) → x_exec (V:=V) cfgs true c s ≠ None).
    { induction s as [|ch s IH]; intros c R; cbn [x_exec]; [done|].
      destruct (x_step cfgs true c ch) as [c1|] eqn:E.
      - cbn. apply IH. intros m mc1 cfg E1 Ec. destruct (x_step_proj cfgs true c ch c1 eq_refl E m mc1 E1) as (mc & E0 & [->|(cfg' & a & Ec' & M)]); [by eapply R|].
        destruct (R m mc cfg E0 Ec) as (cap & nsh & s0 & Ns & X). exists cap, nsh, (s0 ++ [a]). split; [done|]. rewrite (exec_snoc _ _ _ _ _ X). assert (cfg' = cfg) as -> by congruence. by rewrite M.
      - exfalso. revert E. apply x_no_ub_step. intros m mc cfg a Em Ec M. destruct (R m mc cfg Em Ec) as (cap & nsh & s0 & Ns & X).
        apply (C15_no_undefined_behaviour (V:=V) cfg nthr nsh cap Ns (s0 ++ [a])). rewrite (exec_snoc _ _ _ _ _ X). by rewrite M. }
    apply P. cbn [x_maps]. intros m mc cfg E Ec. change (map ?f ?l) with (f <$> l) in E. rewrite list_lookup_fmap in E. destruct (inits !! m) as [[cap nsh]|] eqn:Ei; [|done]. cbn in E. injection E as <-.
    exists cap, nsh, []. split; [by eapply HS|done].
  Qed.
End safe.

(** Without the check the claim is false: thread 0 reads map 0 under a guard of map 1, thread 1 removes the entry, it is
    reclaimed because nobody is registered with the collector of map 0 any more, and thread 0 dereferences it. With the check the same
    schedule is harmless and the call is rejected. *)
Definition gcfg := mk_config (K:=nat) N.of_nat (Incremental 64) 0 2 1 1.
Definition on0 (l : list (choice nat nat)) : list xchoice := map (XOther 0) l.
Definition gsched : list (xchoice (K:=nat) (V:=nat)) :=
  [XOther 0 (CPin 1); XOther 1 (CPin 0); XCall 0 1 (OInsert 5 50) 0] ++ on0 (replicate 30 (CRun 1 false)) ++
  [XCall 0 0 (OGet 5) 1] ++ on0 (replicate 4 (CRun 0 false)) ++                 (* root, loop, meta, entry *)
  [XCall 0 1 (ORemove 5) 0] ++ on0 (replicate 30 (CRun 1 false)) ++ [XOther 0 (CUnpin 1); XOther 0 (CReclaim 0); XOther 0 (CRun 0 false)].
Definition ginit : xconf (K:=nat) (V:=nat) := XConf [init_conf 0 2 2; init_conf 0 2 2] [].
Example C33_check_is_needed :
  x_exec [gcfg; gcfg] false ginit gsched = None ∧
  match x_exec [gcfg; gcfg] true ginit gsched with Some c => match x_rejected c with [(0, 0, OGet 5, 1)] => true | _ => false end | None => false end = true.
Proof. split; vm_compute; reflexivity. Qed.
