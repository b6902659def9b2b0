(** Concrete, non-trivial executions (with interleavings and resizes) that meet the hypotheses of the theorems of [Main1]
    and [Main2]: none of them is vacuous. The histories are computed by running the machine inside Coq. *)
From Verif Require Export Main2 LenRun.

Module ExInc.
Definition hcfg := mk_config (K:=nat) N.of_nat (Incremental 1) 0 2 1 1.
Definition runs (i n : nat) : list (choice nat nat) := replicate n (CRun i false).
Definition full (i : nat) (o : op nat nat) := CInvoke i o :: runs i 600.
Definition par (n : nat) : list (choice nat nat) := concat (replicate n [CRun 0 false; CRun 1 false; CRun 2 false]).
Definition pins3 : list (choice nat nat) := [CPin 0; CPin 1; CPin 2].
Definition go (s : list (choice nat nat)) := exec hcfg (init_conf 0 2 3) s.
Definition hist (s : list (choice nat nat)) : list (hevent nat nat) := match go s with Some c => mc_hist c | None => [] end.
Lemma hcfg_mode : c_mode hcfg = Incremental 1. Proof. done. Qed.
Lemma hist_exec s : go s ≠ None → ∃ c, exec hcfg (init_conf 0 2 3) s = Some c ∧ mc_hist c = hist s.
Proof. unfold hist. destruct (go s) as [c|] eqn:E; [|done]. intros _. by exists c. Qed.
Ltac hcases h E := intros E; repeat (destruct h as [|h]; cbn in E; [try discriminate E|try discriminate E]).

(** C07, C08: an insert, two updates of the same key interleaved step by step (one of them has to retry), and a get. *)
Definition sA := pins3 ++ full 0 (OInsert 5 50) ++ [CInvoke 1 (OUpdate 5 S); CInvoke 2 (OUpdate 5 S)] ++ par 200 ++ full 0 (OGet 5).
Definition HA := Eval vm_compute in hist sA.
Example runA : go sA ≠ None ∧ hist sA = HA. Proof. by vm_compute. Qed.
Example exA : call HA 3 4 0 0 (OInsert 5 50) (VInsert None) ∧ call HA 9 10 0 3 (OGet 5) (VGet (Some (5, 52))) ∧
  (∀ u, u ∈ [1; 2] ↔ ∃ a b t z, call HA a b t u (OUpdate 5 S) z ∧ 4 < a ∧ b < 9) ∧ only_writers (λ id' _, id' = 0 ∨ id' ∈ [1; 2]) 5 3 10 HA ∧
  ∃ h r, HA !! h = Some (HRes 2 2 (OUpdate 5 S) r (VUpdate (Some 52))) ∧ calls_of r = [Some (5, 51); Some (5, 50)].
Proof.
  split; [by eexists|]. split; [by eexists|]. split; [|split].
  - intros u. split.
    + rewrite !elem_of_cons, elem_of_nil. intros [->|[->|[]]].
      * exists 5, 7, 1, (VUpdate (Some 51)). split; [by eexists|lia].
      * exists 6, 8, 2, (VUpdate (Some 52)). split; [by eexists|lia].
    + intros (a & b & t & z & (r & E1 & E2) & L1 & L2). revert E1. hcases a E1; injection E1 as <- <-; (rewrite ?elem_of_cons, ?elem_of_nil; lia).
  - intros h i id o. hcases h E; injection E as <- <- <-; intros T; first [by destruct T as [_ []]|left; rewrite ?elem_of_cons, ?elem_of_nil; lia].
  - exists 8. by eexists.
Qed.

(** C04, C31: inserts, an overwrite, a resize of the table by another thread interleaved with a writer of other keys, gets. *)
Definition sB := pins3 ++ full 0 (OInsert 5 50) ++ full 0 (OInsert 5 51) ++ [CInvoke 1 (OReserve 60); CInvoke 2 (OInsert 6 60); CInvoke 0 (OGet 5)] ++ par 300
   ++ full 2 (ORemove 6) ++ full 0 (OGet 5).
Definition HB := Eval vm_compute in hist sB.
Example runB : ∃ c, go sB = Some c ∧ mc_hist c = HB ∧ length (tables (mc_st c)) = 2 ∧ root (mc_st c) = Some 1.
Proof. eexists. vm_compute. done. Qed.
Ltac tcase := intros T; first [by destruct T as [_ []]|by destruct T as [? _]|by destruct T as [?|(f & ?)]|by left|by left; left|by left; right|idtac].
Example exB : call HB 5 6 0 1 (OInsert 5 51) (VInsert (Some 50)) ∧ (call HB 15 16 0 6 (OGet 5) (VGet (Some (5, 51))) ∧ only_writers (λ id' _, id' = 1) 5 5 16 HB) ∧
  call HB 9 10 0 4 (OGet 5) (VGet (Some (5, 51))) ∧ one_writer HB 5 50 ∧ one_writer HB 5 51.
Proof.
  split; [by eexists|]. split; [|split; [by eexists|split]].
  - split; [by eexists|]. intros h i id o. hcases h E; injection E as <- <- <-; tcase.
    right; left; left. exists 4, (PIns (RInserted 0)), (VInsert None). split; [lia|done].
  - intros h h' i i' id id' o o'. hcases h E; injection E as <- <- <-; hcases h' E; injection E as <- <- <-; cbn; intuition congruence.
  - intros h h' i i' id id' o o'. hcases h E; injection E as <- <- <-; hcases h' E; injection E as <- <- <-; cbn; intuition congruence.
Qed.

(** C05, C09, C08, C35: three threads race to insert the same absent key (the third one had already called its initialiser). *)
Definition sC := pins3 ++ [CInvoke 0 (OTryInsert 7 70); CInvoke 1 (OTryInsert 7 71); CInvoke 2 (OTryInsertWith 7 72)] ++ par 200 ++ full 1 (OGet 7).
Definition HC := Eval vm_compute in hist sC.
Example runC : go sC ≠ None ∧ hist sC = HC. Proof. by vm_compute. Qed.
Example exC : absent_at 7 3 HC ∧
  (∀ h i id o, HC !! h = Some (HInv i id o) → touches o 7 → 3 ≤ h → h < 9 → is_try 7 o ∧ returned_before HC 9 i id o) ∧
  (∃ h i id o, HC !! h = Some (HInv i id o) ∧ touches o 7 ∧ 3 ≤ h ∧ h < 9) ∧ only_writers (λ _ o, is_try 7 o) 7 3 11 HC ∧
  call HC 3 6 0 0 (OTryInsert 7 70) (VTry (inl 70)) ∧ call HC 4 7 1 1 (OTryInsert 7 71) (VTry (inr (70, 71))) ∧ call HC 5 8 2 2 (OTryInsertWith 7 72) (VTryWith (inr 70)) ∧
  (∃ r, HC !! 8 = Some (HRes 2 2 (OTryInsertWith 7 72) r (VTryWith (inr 70))) ∧ calls_of r = [Some (7, 70); None]).
Proof.
  split; [|split; [|split; [|split; [|split; [|split; [|split]]]]]].
  - left. intros h i id o. hcases h E; injection E as <- <- <-; intros _; lia.
  - intros h i id o. hcases h E; injection E as <- <- <-; intros T L1 L2; try lia; (split; [by eexists; auto|]).
    + exists 6, (PIns (RInserted 0)), (VTry (inl 70)). split; [lia|done].
    + exists 7, (PIns (RError 0)), (VTry (inr (70, 71))). split; [lia|done].
    + eexists 8, _, _. split; [lia|done].
  - exists 3, 0, 0, (OTryInsert 7 70). split; [done|]. split; [done|lia].
  - intros h i id o. hcases h E; injection E as <- <- <-; tcase; left; eexists; auto.
  - by eexists.
  - by eexists.
  - by eexists.
  - by eexists.
Qed.

(** C06: two removes and an overwrite race for one entry. *)
Definition sD := pins3 ++ full 0 (OInsert 5 50) ++ [CInvoke 0 (ORemove 5); CInvoke 1 (ORemove 5); CInvoke 2 (OInsert 5 51)] ++ par 200.
Definition HD := Eval vm_compute in hist sD.
Example runD : go sD ≠ None ∧ hist sD = HD. Proof. by vm_compute. Qed.
Example exD : one_writer HD 5 50 ∧ one_writer HD 5 51 ∧ call HD 7 8 2 3 (OInsert 5 51) (VInsert (Some 50)) ∧ call HD 6 9 1 2 (ORemove 5) (VRemove None) ∧
  call HD 5 10 0 1 (ORemove 5) (VRemove (Some (5, 51))) ∧ taken (OInsert 5 51) (VInsert (Some 50)) = Some 50.
Proof.
  split; [|split; [|split; [by eexists|split; [by eexists|split; [by eexists|done]]]]];
  intros h h' i i' id id' o o'; hcases h E; injection E as <- <- <-; hcases h' E; injection E as <- <- <-; cbn; intuition congruence.
Qed.

(** C11, C12, C36: an iteration during which another thread inserts and a third one resizes the table. *)
Definition sE := pins3 ++ full 0 (OInsert 5 50) ++ full 0 OIter ++ [CInvoke 0 (OIterNext 0); CInvoke 1 (OInsert 6 60); CInvoke 2 (OReserve 80)] ++ par 400
  ++ full 0 (OIterNext 0) ++ full 0 (OIterNext 0).
Definition HE := Eval vm_compute in hist sE.
Example runE : ∃ c, go sE = Some c ∧ mc_hist c = HE ∧ length (tables (mc_st c)) = 2. Proof. eexists. by vm_compute. Qed.
Example exE : call HE 3 4 0 0 (OInsert 5 50) (VInsert None) ∧ left_by (OInsert 5 50) (VInsert None) = Some 50 ∧
  (∃ r, HE !! 16 = Some (HRes 0 6 (OIterNext 0) r (VNext None))) ∧ iters_of 0 (take 16 HE) !! 0 = Some 5 ∧ only_writers (λ id' _, id' = 0) 5 3 16 HE ∧
  yields HE 0 0 5 11 5 50 ∧ yields HE 0 0 5 14 6 60 ∧ (∀ q t id o, HE !! q = Some (HInv t id o) → ¬ may_remove o 5).
Proof.
  split; [by eexists|]. split; [done|]. split; [by eexists|]. split; [done|]. split; [|split; [|split]].
  - intros h i id o. hcases h E; injection E as <- <- <-; tcase.
  - by eexists _, _.
  - by eexists _, _.
  - intros h i id o. hcases h E; injection E as <- <- <-; by intros [].
Qed.

(** C13, C14: retain, with a concurrent insert and a concurrent resize. *)
Definition sF := pins3 ++ full 0 (OInsert 5 50) ++ full 0 (OInsert 6 61) ++ [CInvoke 0 (ORetain (λ k v, v =? 50)); CInvoke 1 (OInsert 7 71); CInvoke 2 (OReserve 80)]
  ++ par 600 ++ full 0 (OGet 5)++ full 0 (OGet 6).
Definition HF := Eval vm_compute in hist sF.
Example runF : ∃ c, go sF = Some c ∧ mc_hist c = HF ∧ length (tables (mc_st c)) = 2. Proof. eexists. by vm_compute. Qed.
Example exF : call HF 3 4 0 0 (OInsert 5 50) (VInsert None) ∧ call HF 5 6 0 1 (OInsert 6 61) (VInsert None) ∧ call HF 7 11 0 2 (ORetain (λ k v, v =? 50)) VUnit ∧
  only_writers (λ id' _, id' = 0 ∨ id' = 2) 5 3 14 HF ∧ only_writers (λ id' _, id' = 1 ∨ id' = 2) 6 5 16 HF ∧
  call HF 13 14 0 5 (OGet 5) (VGet (Some (5, 50))) ∧ call HF 15 16 0 6 (OGet 6) (VGet None).
Proof.
  split; [by eexists|]. split; [by eexists|]. split; [by eexists|]. split; [|split; [|split; by eexists]].
  - intros h i id o. hcases h E; injection E as <- <- <-; tcase.
  - intros h i id o. hcases h E; injection E as <- <- <-; tcase.
Qed.

(** C15: a reference obtained by thread 0 stays readable although the entry was removed by thread 1, whose guard is gone, and
    the reclaimer tried; it is freed after the other threads drop their guards. *)
Definition sG := pins3 ++ full 0 (OInsert 5 50) ++ full 0 (OGet 5) ++ full 1 (ORemove 5) ++ [CUnpin 1; CReclaim 0] ++ full 2 (OInsert 5 55).
Example exG : ∃ c, go sG = Some c ∧ mc_hist c !! 6 = Some (HRes 0 1 (OGet 5) (PGet (Some 0)) (VGet (Some (5, 50)))) ∧ guard_held 0 6 (mc_hist c) ∧
  (∃ h, 6 < h ∧ mc_hist c !! h = Some (HRes 1 2 (ORemove 5) (PRem (RRemoved 0)) (VRemove (Some (5, 50))))) ∧
  ∃ c', go (sG ++ [CUnpin 0; CUnpin 2; CReclaim 0]) = Some c' ∧ freed (mc_st c') = [0].
Proof.
  destruct (go sG) as [c|] eqn:E; [|by vm_compute in E]. exists c. vm_compute in E. injection E as <-. split; [done|]. split; [done|]. split; [|split].
  - intros h e L. hcases h E; injection E as <-; split; try done; lia.
  - exists 8. split; [lia|done].
  - eexists. by vm_compute.
Qed.

(** C03: a sequential history. *)
Definition sH := [CPin 0 : choice nat nat] ++ full 0 (OInsert 5 50) ++ full 0 (OTryInsert 5 51) ++ full 0 (OInsert 37 1) ++ full 0 (ORetain (λ k v, v =? 50)) ++ full 0 (OGet 37) ++ full 0 (OUpdate 5 S)
  ++ full 0 OClear ++ full 0 (OGet 5).
Definition HH := Eval vm_compute in hist sH.
Example runH : go sH ≠ None ∧ hist sH = HH. Proof. by vm_compute. Qed.
Example exH : sequential HH ∧ length HH = 17 ∧ seq_map HH 10 37 = None ∧ seq_map HH 12 5 = Some 50 ∧ seq_map HH 16 5 = None.
Proof.
  split; [|by vm_compute]. intros h e. hcases h E; injection E as <-; cbn; try done; right; left; by eexists _, _.
Qed.

(** C10: concurrent inserts, a removal and a resize; a quiet [len]; and a [len] that overlaps a write. *)
Definition sI := pins3 ++ [CInvoke 0 (OInsert 5 50); CInvoke 1 (OInsert 6 60); CInvoke 2 (OInsert 7 70)] ++ par 200 ++ [CInvoke 0 (ORemove 5); CInvoke 1 (OReserve 60)] ++ par 300
   ++ full 2 OLen ++ [CInvoke 0 (OInsert 8 80)] ++ runs 0 3 ++ full 1 OLen ++ runs 0 600.
Definition HI_ := Eval vm_compute in hist sI.
Example runI : go sI ≠ None ∧ hist sI = HI_. Proof. by vm_compute. Qed.
Example exI : HI_ !! 13 = Some (HInv 2 5 OLen) ∧ HI_ !! 14 = Some (HRes 2 5 OLen (PLen 2) (VLen 2)) ∧ quiet HI_ 13 14 5 ∧ length HI_ = 19.
Proof.
  split; [done|]. split; [done|]. split; [|done]. intros q t id o L. hcases q E; try lia; injection E as <- <- <-.
  all: first [by left|right].
  - by exists 6; eexists _, _; split; [lia|].
  - by exists 7; eexists _, _; split; [lia|].
  - by exists 8; eexists _, _; split; [lia|].
  - by exists 11; eexists _, _; split; [lia|].
  - by exists 12; eexists _, _; split; [lia|].
Qed.
End ExInc.
