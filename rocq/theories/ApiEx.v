(** A concrete run for C45. *)
From Verif Require Export Api Examples2.

(** The theorems are not vacuous: one thread calls every method of a new map, first on an absent key, then on a present one; a second thread pinned a guard.
    The results are computed by running the machine, and the run meets the hypotheses of C45_methods_sequential. *)
Module ExApi.
Import ExInc.
Definition ms : list (method nat nat) :=
  [MIsEmpty; MGet 1; MInsert 1 10; MInsert 1 11; MContainsKey 1; MContainsKey 2; MGet 1; MGetKeyValue 1; MTryInsert 1 12; MTryInsert 2 20;
   MTryInsertWith 2 (λ _, 21); MTryInsertWith 3 (λ _, 30); MGetOrInsert 3 31; MGetOrInsert 4 40; MGetOrInsertWith 4 (λ _, 41); MGetOrInsertWith 5 (λ _, 50);
   MUpdate 5 S; MUpdate 6 S; MUpdateOrInsert 6 S 60; MUpdateOrInsert 6 S 60; MUpdateOrInsertWith 6 S (λ _, 0); MUpdateOrInsertWith 7 S (λ _, 70);
   MCompute 7 (λ o, match o with Some (_, v) => if v =? 70 then OpInsert 71 else OpRemove | None => OpAbort end);
   MCompute 7 (λ o, match o with Some (_, v) => if v =? 70 then OpInsert 71 else OpRemove | None => OpAbort end);
   MCompute 7 (λ o, match o with Some (_, v) => if v =? 70 then OpInsert 71 else OpRemove | None => OpAbort end);
   MLen; MReserve 100; MRemove 1; MRemove 1; MRemoveEntry 2; MRemoveIf 3 (λ _ v, v =? 31); MRemoveIf 3 (λ _ v, v =? 30); MRemoveIf 3 (λ _ _, true);
   MLen; MIsEmpty; MRetain (λ k _, 5 <? k); MLen; MGet 5; MGet 6; MClear; MIsEmpty].
Definition rs : list (ret nat nat) :=
  [RBool true; ROptVal None; ROptVal None; ROptVal (Some 10); RBool true; RBool false; ROptVal (Some 11); ROptPair (Some (1, 11)); ROccupied (inr (11, 12)); ROccupied (inl 20);
   RResVal (inr 20); RResVal (inl 30); RVal 30; RVal 40; RVal 40; RVal 50;
   ROptVal (Some 51); ROptVal None; RVal 60; RVal 61; RVal 62; RVal 70;
   RCompute (VUpdated (7, 70) (7, 71)); RCompute (VRemoved (7, 71)); RCompute (VAborted None);
   RUsize 6; RUnit; ROptVal (Some 11); ROptVal None; ROptPair (Some (2, 20)); RRemoveIf (inr (3, 30)); RRemoveIf (inl (Some (3, 30))); RRemoveIf (inl None);
   RUsize 3; RBool false; RUnit; RUsize 1; ROptVal None; ROptVal (Some 62); RUnit; RBool true].
Definition acfg := mk_config (K:=nat) N.of_nat (Incremental 4) 0 2 1 1.
Definition sched : list (choice nat nat) := [CPin 1; CPin 0] ++ concat (map (λ m, full 0 (m_op m)) ms).
Definition HApi := Eval vm_compute in match exec acfg (init_conf 0 2 2) sched with Some c => mc_hist c | None => [] end.
Example run_api : ∃ c, exec acfg (init_conf 0 2 2) sched = Some c ∧ mc_hist c = HApi. Proof. eexists. vm_compute. done. Qed.
Example ex45 : m_run 0 HApi 2 (zip ms rs) 84 ∧ alone 0 HApi 2 84 ∧ new_map HApi 2 ∧ length ms = 41 ∧ length rs = 41.
Proof.
  split; [|split; [|split; [|done]]].
  - unfold ms, rs. cbn [zip zip_with].
    repeat (eapply mr_cons; [match goal with |- next_call _ _ ?p _ _ _ => exists p, (Datatypes.S p); eexists; split; [lia|]; split; [eexists; split; vm_compute; reflexivity|]; split; [reflexivity|intros; lia] end|vm_compute; reflexivity|]; cbn [Nat.add]).
    apply mr_nil.
  - intros h i id o. do 84 (destruct h as [|h]; [first [discriminate 1|intros [= <- <- <-] _; left; split; [done|lia]]|]). intros _ ?; lia.
  - intros h i id o. destruct h as [|[|h]]; [discriminate 1..|lia].
Qed.
End ExApi.
