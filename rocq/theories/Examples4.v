(** Concrete executions in the blocking resize mode: the theorems of [Main1] and [Main2] that speak about it are not vacuous.
    The histories are computed by running the machine inside Coq. *)
From Verif Require Export Main2 LenRun Examples2 Findings.

Module ExBlk.
Import ExInc.
Definition bcfg := mk_config (K:=nat) N.of_nat Blocking 0 2 1 1.
Definition gob (s : list (choice nat nat)) := exec bcfg (init_conf 0 2 3) s.
Definition histb (s : list (choice nat nat)) : list (hevent nat nat) := match gob s with Some c => mc_hist c | None => [] end.
Lemma bcfg_mode : c_mode bcfg = Blocking. Proof. done. Qed.

(** C02, C04: a blocking resize interleaved step by step with an insert of another key and a get. *)
Definition HB := Eval vm_compute in histb sB.
Example runB : ∃ c, gob sB = Some c ∧ mc_hist c = HB ∧ length (tables (mc_st c)) = 2 ∧ root (mc_st c) = Some 1.
Proof. eexists. vm_compute. done. Qed.

(** C02: a reader is stopped after loading the root table; the table is then migrated and the key overwritten in the new
    table; the reader goes on in the old table and still returns the value of the key at some moment of its call. *)
Definition sS := pins3 ++ full 0 (OInsert 5 50) ++ [CInvoke 1 (OGet 5)] ++ ExInc.runs 1 3 ++ full 2 (OReserve 60) ++ full 0 (OInsert 5 51) ++ ExInc.runs 1 600 ++ full 1 (OGet 5).
Definition HS_ := Eval vm_compute in histb sS.
Example runS : ∃ c, gob sS = Some c ∧ mc_hist c = HS_ ∧ length (tables (mc_st c)) = 2 ∧ root (mc_st c) = Some 1.
Proof. eexists. vm_compute. done. Qed.

(** C02, C12: an iteration during which another thread inserts and a third one resizes the table. *)
Definition HE := Eval vm_compute in histb sE.
Example runE : ∃ c, gob sE = Some c ∧ mc_hist c = HE ∧ length (tables (mc_st c)) = 2. Proof. eexists. by vm_compute. Qed.

Definition HF := Eval vm_compute in histb sF.
Example runF : ∃ c, gob sF = Some c ∧ mc_hist c = HF ∧ length (tables (mc_st c)) = 2. Proof. eexists. by vm_compute. Qed.

Ltac hcases h E := intros E; repeat (destruct h as [|h]; cbn in E; [try discriminate E|try discriminate E]).
Ltac tcase := intros T; first [by destruct T as [_ []]|by destruct T as [? _]|by destruct T as [?|(f & ?)]|by left|by left; left|by left; right|idtac].
(** The premises of C04, C06, C31 hold of the run with the resize. *)
Example exB : call HB 5 6 0 1 (OInsert 5 51) (VInsert (Some 50)) ∧ (call HB 15 16 0 6 (OGet 5) (VGet (Some (5, 51))) ∧ only_writers (λ id' _, id' = 1) 5 5 16 HB) ∧
  call HB 9 10 0 4 (OGet 5) (VGet (Some (5, 51))) ∧ one_writer HB 5 50 ∧ one_writer HB 5 51.
Proof.
  split; [by eexists|]. split; [|split; [by eexists|split]].
  - split; [by eexists|]. intros h i id o. hcases h E; injection E as <- <- <-; tcase.
    right; left; left. exists 4, (PIns (RInserted 0)), (VInsert None). split; [lia|done].
  - intros h h' i i' id id' o o'. hcases h E; injection E as <- <- <-; hcases h' E; injection E as <- <- <-; cbn; intuition congruence.
  - intros h h' i i' id id' o o'. hcases h E; injection E as <- <- <-; hcases h' E; injection E as <- <- <-; cbn; intuition congruence.
Qed.
(** The stale reader returns the old value although the overwrite has returned: it linearizes before it. *)
Example exS : call HS_ 5 10 1 1 (OGet 5) (VGet (Some (5, 50))) ∧ call HS_ 8 9 0 3 (OInsert 5 51) (VInsert (Some 50)) ∧ call HS_ 11 12 1 4 (OGet 5) (VGet (Some (5, 51))).
Proof. split_and!; by eexists. Qed.
Example exE : call HE 3 4 0 0 (OInsert 5 50) (VInsert None) ∧ left_by (OInsert 5 50) (VInsert None) = Some 50 ∧
  (∃ r, HE !! 16 = Some (HRes 0 6 (OIterNext 0) r (VNext None))) ∧ iters_of 0 (take 16 HE) !! 0 = Some 5 ∧ only_writers (λ id' _, id' = 0) 5 3 16 HE ∧
  yields HE 0 0 5 11 5 50 ∧ yields HE 0 0 5 14 6 60 ∧ (∀ q t id o, HE !! q = Some (HInv t id o) → ¬ may_remove o 5).
Proof.
  split; [by eexists|]. split; [done|]. split; [by eexists|]. split; [done|]. split; [|split; [|split]].
  - intros h i id o. hcases h E; injection E as <- <- <-; tcase.
  - by eexists _, _.
  - by eexists _, _.
  - intros h i id o. hcases h E; injection E as <- <- <-; by intros [].
Qed.

(** A writer blocks on a resize that is aborted (the new table is too small): the copy restarts in a third table, which is
    promoted, and the keys of the first table (here 300) and those inserted during the copy (399) are all there. The waiter of the aborted resize sleeps (C18). *)
Definition sA2 := s18 ++ full 2 (OGet 0) ++ full 2 (OGet 300) ++ full 2 (OGet 399) ++ full 2 (OGet 101).
Definition HA2 := Eval vm_compute in match exec cfgb (init_conf 0 2 3) sA2 with Some c => drop 480 (mc_hist c) | None => [] end.
Example runA2 : HA2 = [HInv 2 239 (OGet 0); HRes 2 239 (OGet 0) (PGet (Some 0)) (VGet (Some (0, 0)));
  HInv 2 240 (OGet 300); HRes 2 240 (OGet 300) (PGet (Some 90)) (VGet (Some (300, 300)));
  HInv 2 241 (OGet 399); HRes 2 241 (OGet 399) (PGet (Some 189)) (VGet (Some (399, 399)));
  HInv 2 242 (OGet 101); HRes 2 242 (OGet 101) (PGet None) (VGet None)].
Proof. done. Qed.
End ExBlk.
