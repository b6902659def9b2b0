(** An instance of C55 with incremental resizing: a resize is in progress (and makes no progress: chunk size 0), thread 1 has stopped in the middle of an insertion, and runs in turn with thread 0, which calls [get]. *)
From Verif Require Export NoWait Findings.

Definition s55 : list (choice nat nat) := CPin 1 :: s34 ++ [CInvoke 1 (OInsert 50 50); CRun 1 false; CRun 1 false; CRun 1 false; CRun 1 false].
Definition f55 (n : nat) : choice nat nat := CRun (n mod 2) false.
Definition still (c : mconf nat nat) : bool := forallb (λ ts, match ts_run ts with None => true | Some _ => false end) (mc_thr c).
Definition check55 (sched : list (choice nat nat)) (n T : nat) : bool :=
  match exec cfg0 (init_conf 0 2 2) sched with
  | Some c =>
    resizing_b (mc_st c) && match mc_thr c with [ts0; ts1] => match ts_run ts0, ts_run ts1 with None, Some (_, OInsert a b, _) => (a =? 50) && (b =? 50) && negb (ts_dead ts0) && (length (ts_iters ts0) =? 0) && negb (ts_dead ts1) | _, _ => false end | _ => false end && existsb (Nat.eqb 0) (pins (mc_st c)) &&
    forallb (λ n, match exec cfg0 c (CInvoke 0 (OGet 29) :: first_n n f55) with Some c' => length (tables (mc_st c')) <=? T | None => false end) (seq 0 (S n)) &&
    match exec cfg0 c (CInvoke 0 (OGet 29) :: first_n n f55) with Some c' => still c' | None => false end
  | None => false
  end.
Lemma still_stays (c : mconf nat nat) i : still c = true → mstep cfg0 c (CRun i false) = SSkip.
Proof.
  intros S. unfold still in S. rewrite forallb_forall in S. cbn [mstep]. destruct (mc_thr c !! i) as [ts|] eqn:E; [|done].
  specialize (S ts (proj1 (elem_of_list_In _ _) (elem_of_list_lookup_2 _ _ _ E))). destruct ts as [[r|] its []]; done.
Qed.
Lemma check_sound55 sched n T : check55 sched n T = true →
  ∃ c id p its, exec cfg0 (init_conf 0 2 2) sched = Some c ∧ resizing (mc_st c) ∧ mc_thr c !! 0 = Some (ts_idle []) ∧ mc_thr c !! 1 = Some (TState (Some (id, OInsert 50 50, p)) its false) ∧ 0 ∈ pins (mc_st c) ∧
    ∀ m c', exec cfg0 c (CInvoke 0 (OGet 29) :: first_n m f55) = Some c' → length (tables (mc_st c')) ≤ T.
Proof.
  unfold check55. destruct (exec cfg0 (init_conf 0 2 2) sched) as [c|]; [|done]. intros H. rewrite !andb_true_iff in H. destruct H as ((((X1 & X2) & X3) & X4) & X5).
  destruct (mc_thr c) as [|[r0 its0 d0] [|[r1 its1 d1] [|]]] eqn:ET; try done. cbn in X2. destruct r0; [done|]. destruct r1 as [[[id o] p]|]; [|done].
  assert (o = OInsert 50 50 ∧ d0 = false ∧ its0 = [] ∧ d1 = false) as (-> & -> & -> & ->).
  { destruct o as [|a b| | | | | | | | | | | | |]; try done. rewrite !andb_true_iff, !negb_true_iff in X2. destruct X2 as ((((A & B) & X2) & X2') & X2'').
    apply Nat.eqb_eq in A as ->. apply Nat.eqb_eq in B as ->. by destruct its0. }
  exists c, id, p, its1. split; [done|]. split; [by apply resizing_b_ok|]. rewrite ET. split; [done|]. split; [done|].
  split. { apply existsb_exists in X3 as (x & Hx & Ex). apply Nat.eqb_eq in Ex as <-. by apply elem_of_list_In. }
  intros m c' E. destruct (decide (m < S n)) as [L|L].
  - rewrite forallb_forall in X4. specialize (X4 m). rewrite E in X4. apply Nat.leb_le, X4. apply (proj2 (in_seq (S n) 0 m)). lia.
  - assert (Y : ∀ d c2, exec cfg0 c (CInvoke 0 (OGet 29) :: first_n n f55) = Some c2 → exec cfg0 c (CInvoke 0 (OGet 29) :: first_n (n + d) f55) = Some c2).
    { intros d c2 E2. rewrite E2 in X5. induction d as [|d IH]; [by rewrite Nat.add_0_r|].
      assert (X : ∀ (s1 s2 : list (choice nat nat)) c0 c1, exec cfg0 c0 s1 = Some c1 → exec cfg0 c0 (s1 ++ s2) = exec cfg0 c1 s2).
      { clear. induction s1 as [|ch s1 IH]; intros s2 c0 c1; cbn [exec app]; [by intros [= <-]|]. destruct (mstep cfg0 c0 ch); [apply IH|apply IH|done]. }
      rewrite Nat.add_succ_r, first_S, app_comm_cons, (X _ _ _ _ IH). cbn [exec]. unfold f55. by rewrite still_stays. }
    rewrite forallb_forall in X4. specialize (X4 n (proj2 (in_seq (S n) 0 n) ltac:(lia))).
    destruct (exec cfg0 c (CInvoke 0 (OGet 29) :: first_n n f55)) as [c2|] eqn:E2; [|done]. specialize (Y (m - n) c2 eq_refl). replace (n + (m - n)) with m in Y by lia.
    rewrite Y in E. injection E as <-. by apply Nat.leb_le.
Qed.
Lemma ok55 : check55 s55 400 3 = true.
Proof. vm_cast_no_check (eq_refl true). Qed.
Example C55_example : ∃ c id p its, exec cfg0 (init_conf 0 2 2) s55 = Some c ∧ resizing (mc_st c) ∧ mc_thr c !! 1 = Some (TState (Some (id, OInsert 50 50, p)) its false) ∧
  ∃ n c' r v, exec cfg0 c (CInvoke 0 (OGet 29) :: first_n n f55) = Some c' ∧ list.last (mc_hist c') = Some (HRes 0 (mc_nop c) (OGet 29) r v).
Proof.
  destruct (check_sound55 _ _ _ ok55) as (c & id & p & its & E & R & T0 & T1 & P & B). exists c, id, p, its. split; [exact E|]. split; [exact R|]. split; [exact T1|].
  apply (C55_reads_do_not_wait cfg0 2 2 0 ltac:(lia) s55 c E 0 (OGet 29) [] f55 T0 P I).
  - intros n. exists (2 * n), false. split; [lia|]. unfold f55. rewrite Nat.mul_comm. by rewrite Nat.mod_mul.
  - intros k _. right. exists 3. exact B.
Qed.
