(** Concrete executions that meet the hypotheses of the theorems of [Main3], and the finding C39. *)
From Verif Require Export Main3 Examples2.

Module ExLib.
Import ExInc.
(** Map 0: two keys inserted by thread 1 while thread 2 resizes the table; then thread 0 clones it into map 1 (a new map), and then
    compares the two. *)
Definition s0 := pins3 ++ [CInvoke 1 (OInsert 1 10); CInvoke 2 (OReserve 60)] ++ par 300 ++ full 1 (OInsert 2 20) ++
  full 0 OLen ++ full 0 OIter ++ full 0 (OIterNext 0) ++ full 0 (OIterNext 0) ++ full 0 (OIterNext 0) ++
  full 0 OLen ++ full 0 OIter ++ full 0 (OIterNext 1) ++ full 0 (OIterNext 1) ++ full 0 (OIterNext 1).
Definition s1 := [CPin 0] ++ full 0 (OInsert 1 10) ++ full 0 (OInsert 2 20) ++ full 0 OLen ++ full 0 (OGet 1) ++ full 0 (OGet 2).
Definition H0 := Eval vm_compute in hist s0.
Definition H1 := Eval vm_compute in hist s1.
Example run0 : map_history H0.
Proof.
  destruct (hist_exec s0) as (c & E & EH); [by vm_compute|]. exists hcfg, 3, 2, 0, s0, c. split; [lia|]. split; [done|].
  rewrite EH. clear. by vm_compute.
Qed.
Example run1 : map_history H1.
Proof.
  destruct (hist_exec s1) as (c & E & EH); [by vm_compute|]. exists hcfg, 3, 2, 0, s1, c. split; [lia|]. split; [done|].
  rewrite EH. clear. by vm_compute.
Qed.
Definition at2 (x y : nat) (m : nat) : nat := match m with 0 => x | 1 => y | _ => 0 end.
Lemma next_adj (H : list (hevent nat nat)) t p q o v id r : H !! p = Some (HInv t id o) → H !! (p + 1) = Some (HRes t id o r v) → q = p + 2 → next_call t H p o v q.
Proof.
  intros A B ->. exists p, (p + 1), id. split; [lia|]. split; [by exists r|]. split; [lia|]. intros h e ? ? ? ? _. lia.
Qed.
Lemma call0 t p x y o v id r : H0 !! x = Some (HInv t id o) → H0 !! (x + 1) = Some (HRes t id o r v) → p = x + 2 → ccall t (two H0 H1) 0 o (at2 x y) v (at2 p y).
Proof. intros A B C. split; [by eapply next_adj|]. by intros [|[]]. Qed.
Lemma call1 t p x y o v id r : H1 !! y = Some (HInv t id o) → H1 !! (y + 1) = Some (HRes t id o r v) → p = y + 2 → ccall t (two H0 H1) 1 o (at2 x y) v (at2 x p).
Proof. intros A B C. split; [by eapply next_adj|]. by intros [|[]]. Qed.
Lemma alone_ex (H : list (hevent nat nat)) t a b : (∀ h i id o, H !! h = Some (HInv i id o) → h < b → (i = t ∧ a ≤ h) ∨ returned_before H a i id o) → alone t H a b.
Proof. done. Qed.

Ltac c0 := eexists _, (at2 _ _); split; [eapply call0; [reflexivity|reflexivity|reflexivity]|cbn].
Ltac c1 := eexists _, (at2 _ _); split; [eapply call1; [reflexivity|reflexivity|reflexivity]|cbn].
(** C28: the clone. Map 0 is used alone by thread 0 from event 9 to 19, map 1 from the beginning. *)
Example ex_clone : c_clone 0 (two H0 H1) 0 1 0 (at2 9 1) tt (at2 19 5) ∧ alone 0 H0 9 19 ∧ alone 0 H1 1 5 ∧ 0 = n_iters 0 H0 9 ∧ new_map H1 1.
Proof.
  split_and!.
  - c0. unfold c_iterate. c0.
    eapply cl_more. { c0. c1. by split. } eapply cl_more. { c0. c1. by split. } eapply cl_last. { c0. by split. }
  - intros h i id o. hcases h E; injection E as <- <- <-; intros L; try lia.
    all: try (left; split; [done|lia]). all: right.
    + exists 5, (PIns (RInserted 0)), (VInsert None). split; [lia|done].
    + exists 6, PUnit, VUnit. split; [lia|done].
    + exists 8, (PIns (RInserted 1)), (VInsert None). split; [lia|done].
  - intros h i id o. hcases h E; injection E as <- <- <-; intros L; try lia. all: left; split; [done|lia].
  - done.
  - intros h i id o. hcases h E; lia.
Qed.
(** C26: the comparison that follows. *)
Example ex_eq : c_eq 0 (two H0 H1) Nat.eqb 0 1 1 (at2 19 5) true (at2 29 11) ∧ 1 = n_iters 0 H0 19.
Proof.
  split; [|done]. c0. c1. unfold c_iterate. c0.
  eapply cl_more. { c0. c1. by split. } eapply cl_more. { c0. c1. by split. } eapply cl_last. { c0. by split. }
Qed.
End ExLib.

(** ** C39: which key does [insert] keep?
    Keys that are [==] without being identical: the model's [K] is the equivalence class of a key, and the key as stored is carried along
    in the value, [V = R * W] with [R] the representatives: an entry is a key and a value, allocated together (src/raw/mod.rs:446). *)
Section keys.
  Context {K R W : Type} {Keq : EqDecision K}.
  (** What the documentation says (src/map.rs:490-494, src/set.rs:409-412): inserting over an existing entry updates the value, not the key. *)
  Definition keeps_old_key (H : list (hevent K (R * W))) : Prop :=
    ∀ k r w r' w' a b i id c d j jd y, call H a b i id (OInsert k (r', w')) (VInsert (Some (r, w))) → call H c d j jd (OGet k) (VGet y) → b < c →
      only_writers (λ id' _, id' = id) k a d H → y = Some (k, (r, w')).
  (** What the code does: the key is replaced as well. *)
  Definition replaces_key (H : list (hevent K (R * W))) : Prop :=
    ∀ k r w r' w' a b i id c d j jd y, call H a b i id (OInsert k (r', w')) (VInsert (Some (r, w))) → call H c d j jd (OGet k) (VGet y) → b < c →
      only_writers (λ id' _, id' = id) k a d H → y = Some (k, (r', w')).
  Theorem C39_insert_replaces_key (cfg : config K) (nthr nsh cap : nat) : 0 < nsh →
    ∀ sched (c : mconf K (R * W)), exec cfg (init_conf cap nsh nthr) sched = Some c → replaces_key (mc_hist c).
  Proof.
    intros HS sched c E k r w r' w' a b i id g d j jd y C1 C2 L O.
    by rewrite (C04_reads_last_write cfg nthr nsh cap HS sched c E a b i id _ _ k g d j jd y C1 eq_refl C2 L O).
  Qed.
End keys.
(** Representatives "a" = 1 and "A" = 2 of the key 5. *)
Definition kcfg := mk_config (K:=nat) N.of_nat (Incremental 64) 0 2 1 1.
Definition ksched : list (choice nat (nat * nat)) :=
  CPin 0 :: CInvoke 0 (OInsert 5 (1, 10)) :: replicate 100 (CRun 0 false) ++ CInvoke 0 (OInsert 5 (2, 20)) :: replicate 100 (CRun 0 false) ++
  CInvoke 0 (OGet 5) :: replicate 100 (CRun 0 false).
Definition KH := Eval vm_compute in match exec kcfg (init_conf 0 2 1) ksched with Some c => mc_hist c | None => [] end.
Theorem C39_old_key_kept_refuted : ∃ c, exec kcfg (init_conf 0 2 1) ksched = Some c ∧ ¬ keeps_old_key (mc_hist c).
Proof.
  assert (X : ∃ c, exec kcfg (init_conf 0 2 1) ksched = Some c ∧ mc_hist c = KH).
  { assert (Y : match exec kcfg (init_conf 0 2 1) ksched with Some c => mc_hist c = KH | None => False end) by (vm_compute; reflexivity).
    destruct (exec kcfg (init_conf 0 2 1) ksched) as [c|]; [by exists c|destruct Y]. }
  destruct X as (c & E & EH). exists c. split; [exact E|]. rewrite EH. clear. intros X.
  assert (Y : Some (5, (2, 20)) = Some (5, (1, 20))); [|discriminate Y].
  eapply (X 5 1 10 2 20 3 4 0 1 5 6 0 2 (Some (5, (2, 20)))).
  - eexists. split; reflexivity.
  - eexists. split; reflexivity.
  - lia.
  - intros h i id o. ExInc.hcases h E; injection E as <- <- <-; intros T; [right; left; left|by left|by destruct T as [_ []]].
    exists 2, (PIns (RInserted 0)), (VInsert None). split; [lia|done].
Qed.
