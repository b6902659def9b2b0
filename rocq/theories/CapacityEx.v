(** A run that meets the hypotheses of [C20_reserve]: seven keys in a map with incremental resizing and a resize in progress; [len()] returns 7; [reserve(100)]
    finishes the pending resize, allocates and copies a larger table and returns. *)
From Verif Require Import Capacity SoloEx.

Definition idle0_b (c : mconf nat nat) : bool := match mc_thr c !! 0 with Some (TState None its false) => true | _ => false end.
Lemma idle0_sound c : idle0_b c = true → ∃ its, mc_thr c !! 0 = Some (ts_idle its).
Proof. unfold idle0_b. destruct (mc_thr c !! 0) as [[[|] its []]|]; try done. intros _. by exists its. Qed.
Definition cl := CInvoke (K:=nat) (V:=nat) 0 OLen :: map (CRun 0) (replicate 40 false).
Definition cr := CInvoke (K:=nat) (V:=nat) 0 (OReserve 100) :: map (CRun 0) (replicate 3000 false).
Definition check20 (x : option (mconf nat nat)) : bool :=
  match x with
  | Some c => idle0_b c && bool_decide (0 ∈ pins (mc_st c)) &&
    match exec cfg16 c cl with
    | Some c1 => match list.last (mc_hist c1) with
                 | Some (HRes 0 _ OLen _ (VLen m)) => (m =? 7) && match exec cfg16 c1 cr with Some c2 => match list.last (mc_hist c2) with Some (HRes 0 _ (OReserve n) _ _) => n =? 100 | _ => false end | None => false end
                 | _ => false end
    | None => false end
  | None => false end.
Lemma check20_sound x : check20 x = true → ∃ c its c1 c2 id1 id2 r1 r2 v, x = Some c ∧ mc_thr c !! 0 = Some (ts_idle its) ∧ 0 ∈ pins (mc_st c) ∧ exec cfg16 c cl = Some c1 ∧ list.last (mc_hist c1) = Some (HRes 0 id1 OLen r1 (VLen 7)) ∧
  exec cfg16 c1 cr = Some c2 ∧ list.last (mc_hist c2) = Some (HRes 0 id2 (OReserve 100) r2 v).
Proof.
  unfold check20. generalize cl cr. intros l1 l2 X. destruct x as [c|]; [|discriminate X]. apply andb_true_iff in X as [X X2]. apply andb_true_iff in X as [X0 X1].
  destruct (idle0_sound _ X0) as [its Et]. apply bool_decide_eq_true in X1.
  destruct (exec cfg16 c l1) as [c1|] eqn:E1; [|discriminate X2]. destruct (list.last (mc_hist c1)) as [h1|] eqn:H1; [|discriminate X2].
  destruct h1 as [| i id o r v | | |]; try discriminate X2. destruct i; [|discriminate X2]. destruct o; try discriminate X2. destruct v; try discriminate X2.
  apply andb_true_iff in X2 as [X3 X2]. apply Nat.eqb_eq in X3. subst n.
  destruct (exec cfg16 c1 l2) as [c2|] eqn:E2; [|discriminate X2]. destruct (list.last (mc_hist c2)) as [h2|] eqn:H2; [|discriminate X2].
  destruct h2 as [| i id2 o r2 v2 | | |]; try discriminate X2. destruct i; [|discriminate X2]. destruct o; try discriminate X2. apply Nat.eqb_eq in X2. subst.
  exists c, its, c1, c2, id, id2, r, r2, v2. split_and!; first [reflexivity|assumption].
Qed.
Lemma check20_ok : check20 (exec cfg16 (init_conf 4 2 1) s41) = true. Proof. vm_cast_no_check (eq_refl true). Qed.
Example ex20 : ∃ (c2 : mconf nat nat) t tb, root (mc_st c2) = Some t ∧ tables (mc_st c2) !! t = Some tb ∧ entries_for 107 ≤ length (t_slots tb).
Proof.
  destruct (check20_sound _ check20_ok) as (c & its & c1 & c2 & id1 & id2 & r1 & r2 & v & E & Et & Hp & E1 & H1 & E2 & H2).
  destruct (C20_reserve cfg16 1 2 4 ltac:(lia) s41 c c1 c2 0 its _ _ 100 id1 id2 r1 r2 7 v E Et Hp E1 H1 E2 H2) as (t & tb & R & T & L & _). exists c2, t, tb. split; [exact R|]. split; [exact T|exact L].
Qed.
