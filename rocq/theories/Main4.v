(** Positive counterparts of refuted properties, and consequences. *)
From Verif Require Import Main1 Main2 Props Findings.

(** C43 is [C36_duplicates_need_removal] (Main2.v). C44: with a capacity that is a power of two or at most 4 the only panics are those of the caller's closure and the documented one. *)
Theorem C44_only_documented_panic {K V : Type} `{EqDecision K} (hash : K → N) (mode : rmode) (cap sa sw sc nsh nthr : nat) :
  0 < nsh → (cap < 5 ∨ ∃ b, cap = 2 ^ b) →
  ∀ (sched : list (choice K V)) c, exec (mk_config hash mode cap sa sw sc) (init_conf cap nsh nthr) sched = Some c →
  ∀ i id o why, HPanic i id o why ∈ mc_hist c → ∃ k f, o = OCompute k f ∧ (f None = OpRemove ∨ ∃ x, f x = OpPanic).
Proof.
  intros HS HC sched c E i id o why X. apply elem_of_list_lookup in X as [h X].
  assert (G : is_pow2 (c_initial (mk_config (K:=K) hash mode cap sa sw sc)) = true ∨ c_initial (mk_config (K:=K) hash mode cap sa sw sc) < 5).
  { cbn. destruct (Nat.eqb_spec cap 0) as [->|N]; [right; lia|]. destruct HC as [|[b ->]]; [by right|left]. unfold is_pow2. rewrite Nat.log2_pow2 by lia. apply andb_true_iff. split; [apply Nat.ltb_lt; lia|by apply Nat.eqb_eq]. }
  destruct (C19_panics_partial _ nthr nsh cap HS G sched c E h i id o why X) as (k & f & Y & [[_ Z]|[_ Z]]); exists k, f; auto.
Qed.
Print Assumptions C44_only_documented_panic.
(** Conversely the documented panic does happen. *)
Definition s44 := CPin 0 :: full 0 (OInsert 1 1) ++ full 0 (OCompute 2 (λ _, OpRemove)).
Definition check44 (x : option (mconf nat nat)) : bool := match x with Some c => match list.last (mc_hist c) with Some (HPanic 0 1 _ PRemoveNone) => true | _ => false end | None => false end.
Example ex44 : check44 (exec (mk_config N.of_nat (Incremental 64) 4 2 1 1) (init_conf 4 2 1) s44) = true. Proof. by vm_compute. Qed.
