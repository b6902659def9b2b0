(** C16: examples and refutations. *)
From Verif Require Import Drop Findings.

Definition idle_all (c : mconf nat nat) : bool := forallb idle_b (mc_thr c).
Lemma idle_all_sound (c : mconf nat nat) : idle_all c = true → ∀ i ts, mc_thr c !! i = Some ts → ts_run ts = None ∧ ts_dead ts = false.
Proof.
  unfold idle_all. rewrite forallb_forall. intros H i ts E. specialize (H ts (proj1 (elem_of_list_In _ _) (elem_of_list_lookup_2 _ _ _ E))).
  destruct ts as [r its d]. unfold idle_b in H. cbn in *. destruct r; [discriminate H|]. by destruct d.
Qed.

(** ** A map with a resize half done, a removed entry still referenced by the old table, and live entries in two tables. *)
Definition cfg16 := mk_config (K:=nat) N.of_nat (Incremental 1) 0 2 1 1.
Definition s16 := CPin 0 :: concat (map (λ k, full 0 (OInsert k k)) (seq 0 9)) 
  ++ full 0 (OInsert 0 7) ++ full 0 (ORemove 1) ++ full 0 (ORemove 4) ++ [CUnpin 0].
Definition c16 : option (mconf nat nat) := exec cfg16 (init_conf 4 2 1) s16.
(** The premises of the theorem hold, the resize is in progress (root 0, second table allocated), entries 0 and 1 are
    deferred to table 0, entry 4 is retired, the others live; the drop frees all ten entries and both tables. *)
Example C16_example : ∃ c σ', c16 = Some c ∧ idle_all c = true ∧ pins (mc_st c) = [] ∧ root (mc_st c) = Some 0 ∧ map t_deferred (tables (mc_st c)) = [[1; 0]; []] ∧
  map r_obj (retired (mc_st c)) = [REntry 4] ∧ length (heap (mc_st c)) = 10 ∧ drop_map (mc_st c) = Some σ' ∧ freed σ' = [0; 1; 8; 2; 9; 7; 6; 5; 3; 4] ∧ map t_freed (tables σ') = [true; true].
Proof. eexists _, _. split; [by vm_compute|]. split_and!; by vm_compute. Qed.

(** ** Blocking mode: the table of an aborted resize is never freed. *)
Definition s16l := [CPin 0; CPin 2] ++ fulln 0 2000 (OReserve 300) ++ concat (map (λ k, full 0 (OInsert k k)) (seq 0 44))
   ++ concat (map (λ k, full 0 (OInsert k k) ++ full 0 (ORemove k)) (seq 100 46))
   ++ fulln 0 200 (OInsert 199 46) ++ concat (map (λ k, full 2 (OInsert k k)) (seq 300 100)) ++ runs 0 15000 ++ [CUnpin 0; CUnpin 2].
Definition check16l (x : option (mconf nat nat)) : bool :=
  match x with
  | Some c => idle_all c && bool_decide (pins (mc_st c) = []) &&
     match drop_map (mc_st c) with Some σ' => match tables σ' with [a; b; d] => t_freed a && negb (t_freed b) && (t_len b =? 256) && t_freed d | _ => false end | None => false end
  | None => false
  end.
Lemma check16l_ok : check16l (exec cfgb (init_conf 0 2 3) s16l) = true. Proof. vm_cast_no_check (eq_refl true). Qed.
Lemma check16l_sound x : check16l x = true →
  ∃ c σ' tb, x = Some c ∧
    (∀ i ts, mc_thr c !! i = Some ts → ts_run ts = None ∧ ts_dead ts = false) ∧ pins (mc_st c) = [] ∧
    drop_map (mc_st c) = Some σ' ∧ tables σ' !! 1 = Some tb ∧ t_freed tb = false ∧ t_len tb = 256.
Proof.
  unfold check16l. intros X. destruct x as [c|]; [|discriminate X].
  rewrite !andb_true_iff in X. destruct X as [[X1 X2] X3]. exists c. destruct (drop_map (mc_st c)) as [σ'|]; [|discriminate X3]. exists σ'.
  destruct (tables σ') as [|a [|b [|d [|]]]]; try discriminate X3. rewrite !andb_true_iff, negb_true_iff, Nat.eqb_eq in X3. destruct X3 as (((_ & Y1) & Y2) & _).
  exists b. split_and!; try reflexivity; [by apply idle_all_sound|by apply bool_decide_eq_true in X2|exact Y1|exact Y2].
Qed.
Theorem C16_aborted_table_leaks_refuted :
  ∃ (sched : list (choice nat nat)) c σ' tb, exec cfgb (init_conf 0 2 3) sched = Some c ∧
    (∀ i ts, mc_thr c !! i = Some ts → ts_run ts = None ∧ ts_dead ts = false) ∧ pins (mc_st c) = [] ∧
    drop_map (mc_st c) = Some σ' ∧ tables σ' !! 1 = Some tb ∧ t_freed tb = false ∧ t_len tb = 256.
Proof. exists s16l. apply check16l_sound, check16l_ok. Qed.

(** ** Blocking mode: after a resize that panicked, dropping the map frees an entry twice. The map was created with a capacity
    that is not a power of two (C19). The resize of a table of 512 slots is aborted twice (256 and 128 slots: too many
    colliding keys, and the length lags behind because 30 insertions have not updated it yet), and the third
    allocation (100 slots) panics. Both aborted tables hold copies of the same entries, and the drop visits both (mod.rs:2734-2752). *)
Definition cfgd := mk_config (K:=nat) hb Blocking 100 2 1 1.
Definition s16d := map CPin (seq 0 32) ++ fulln 0 3000 (OReserve 300) ++ concat (map (λ k, full 0 (OInsert k k)) (seq 0 14))
   ++ concat (map (λ k, full 0 (OInsert k k) ++ full 0 (ORemove k)) (seq 100 46))
   ++ concat (map (λ k, fulln (k - 12) (47 + 3 * (k - 14)) (OInsert k k)) (seq 14 30)) ++ fulln 0 20000 (OInsert 199 46)
   ++ concat (map (λ i, runs i 50) (seq 2 30)) ++ map CUnpin (seq 1 31).
Definition holds0 (p : nat) (tb : table) : bool := existsb (λ s, bool_decide (e_ptr (s_ent s) = Some p) && negb (e_copying (s_ent s))) (t_slots tb).
Definition check16d (x : option (mconf nat nat)) : bool :=
  match x with
  | Some c => forallb (λ ts, match ts_run ts with None => true | Some _ => false end) (mc_thr c) && bool_decide (pins (mc_st c) = []) &&
     match mc_thr c with t0 :: l => ts_dead t0 && forallb (λ ts, negb (ts_dead ts)) l | [] => false end &&
     bool_decide (root (mc_st c) = Some 1) && match tables (mc_st c) with [_; a; b; d] => bool_decide (t_next a = Some 2) && bool_decide (t_next b = Some 3) && holds0 0 b && holds0 0 d | _ => false end &&
     match drop_map (mc_st c) with Some _ => false | None => true end
  | None => false
  end.
Lemma check16d_ok : check16d (exec cfgd (init_conf 100 2 32) s16d) = true. Proof. vm_cast_no_check (eq_refl true). Qed.
(** The slot [s] of table [tb] would be freed by the drop: it holds [p], not marked. *)
Definition dropped_from (σ : state nat nat) (t p : nat) : Prop := ∃ tb i s, tables σ !! t = Some tb ∧ t_slots tb !! i = Some s ∧ e_ptr (s_ent s) = Some p ∧ e_copying (s_ent s) = false.
Lemma holds0_sound (σ : state nat nat) t tb p : tables σ !! t = Some tb → holds0 p tb = true → dropped_from σ t p.
Proof.
  unfold holds0. intros Et H. apply existsb_exists in H as (s & Hs & E). apply elem_of_list_In, elem_of_list_lookup in Hs as [i Hi]. apply andb_true_iff in E as [E1 E2].
  exists tb, i, s. split_and!; [done|done|by apply bool_decide_eq_true in E1|by apply negb_true_iff in E2].
Qed.
Lemma check16d_sound x : check16d x = true →
  ∃ c, x = Some c ∧
    (∀ i ts, mc_thr c !! i = Some ts → ts_run ts = None ∧ (ts_dead ts = true → i = 0)) ∧ pins (mc_st c) = [] ∧
    root (mc_st c) = Some 1 ∧ (t_next <$> tables (mc_st c) !! 1) = Some (Some 2) ∧ (t_next <$> tables (mc_st c) !! 2) = Some (Some 3) ∧
    dropped_from (mc_st c) 2 0 ∧ dropped_from (mc_st c) 3 0 ∧ drop_map (mc_st c) = None.
Proof.
  unfold check16d. intros X. destruct x as [c|]; [|discriminate X].
  rewrite !andb_true_iff in X. destruct X as (((((X1 & X2) & X3) & X4) & X5) & X6). exists c. split; [reflexivity|].
  destruct (drop_map (mc_st c)) as [σ'|]; [discriminate X6|].
  destruct (tables (mc_st c)) as [|z [|a [|b [|d [|]]]]] eqn:Et; try discriminate X5. rewrite !andb_true_iff in X5. destruct X5 as (((Y1 & Y2) & Y3) & Y4).
  apply bool_decide_eq_true in X2, X4, Y1, Y2. split.
  { intros i ts Ei. rewrite forallb_forall in X1. pose proof (X1 ts (proj1 (elem_of_list_In _ _) (elem_of_list_lookup_2 _ _ _ Ei))) as R. split; [by destruct (ts_run ts)|].
    intros D. destruct (mc_thr c) as [|t0 l]; [discriminate X3|]. destruct i as [|i]; [reflexivity|]. rewrite andb_true_iff, forallb_forall in X3. destruct X3 as [_ X3].
    specialize (X3 ts (proj1 (elem_of_list_In _ _) (elem_of_list_lookup_2 _ i _ Ei))). by rewrite D in X3. }
  split; [exact X2|]. split; [exact X4|]. cbn. split; [by rewrite Y1|]. split; [by rewrite Y2|]. split; [|split; [|reflexivity]].
  - apply (holds0_sound _ 2 b); [by rewrite Et|done].
  - apply (holds0_sound _ 3 d); [by rewrite Et|done].
Qed.
Theorem C16_double_free_after_panic_refuted :
  ∃ (sched : list (choice nat nat)) c, exec cfgd (init_conf 100 2 32) sched = Some c ∧
    (∀ i ts, mc_thr c !! i = Some ts → ts_run ts = None ∧ (ts_dead ts = true → i = 0)) ∧ pins (mc_st c) = [] ∧
    root (mc_st c) = Some 1 ∧ (t_next <$> tables (mc_st c) !! 1) = Some (Some 2) ∧ (t_next <$> tables (mc_st c) !! 2) = Some (Some 3) ∧
    dropped_from (mc_st c) 2 0 ∧ dropped_from (mc_st c) 3 0 ∧ drop_map (mc_st c) = None.
Proof. exists s16d. apply check16d_sound, check16d_ok. Qed.
