(** Theorems about the library code on top of the map: [==], [extend], [from_iter], [clone],
    serialization, and [HashSet]. *)
From Verif Require Export Main2 LenRun ClientProofs WaitFree.

Section typed.
  Context {K V : Type} {Keq : EqDecision K} (cfg : config K).
  (** Every response in a history was computed by [to_vals] (both modes). *)
  Definition res_ok (H : list (hevent K V)) : Prop := ∀ h i id o r v, H !! h = Some (HRes i id o r v) → ∃ σ, to_vals o σ r = Some v.
  Lemma run_cases_v {T} (p : prog K V T) (fin : T → option (vres K V * list iterst * hevent K V)) (inj : prog K V T → prog K V (pres K V))
      (i id : nat) (o : op K V) its (c : mconf K V) orc (P : sres → Prop) :
    (∀ a v its' ev, fin a = Some (v, its', ev) → P (SStep (MConf (mc_st c) (set_thr i (ts_idle its') (mc_thr c)) (mc_hist c ++ [ev]) (mc_nop c)))) →
    (∀ p' σ', P (SStep (MConf σ' (set_thr i (TState (Some (id, o, p')) its false) (mc_thr c)) (mc_hist c) (mc_nop c)))) →
    P SSkip → P SUB →
    (∀ why, P (SStep (MConf (unpin i (mc_st c)) (set_thr i (TState None [] true) (mc_thr c)) (mc_hist c ++ [HPanic i id o why]) (mc_nop c)))) →
    P (match p in Prog.prog _ _ T return (T → option (vres K V * (list iterst) * hevent K V)) → (Prog.prog K V T → Prog.prog K V (pres K V)) → sres with
        | Ret a => λ fin _,
          match fin a with
          | Some (v, its', ev) => SStep (MConf (mc_st c) (set_thr i (ts_idle its') (mc_thr c)) (mc_hist c ++ [ev]) (mc_nop c))
          | None => SUB
          end
        | Act f k => λ _ inj,
          match f i orc (mc_st c) with
          | Ok x σ' => SStep (MConf σ' (set_thr i (TState (Some (id, o, inj (k x))) its false) (mc_thr c)) (mc_hist c) (mc_nop c))
          | Block => SSkip
          | UB => SUB
          end
        | Loop body s k => λ _ inj,
          SStep (MConf (mc_st c) (set_thr i (TState (Some (id, o,
              inj (bind (body s) (λ r, match r with inl s' => Loop body s' k | inr b => k b end)))) its false) (mc_thr c))
             (mc_hist c) (mc_nop c))
        | Fail why => λ _ _,
          SStep (MConf (unpin i (mc_st c)) (set_thr i (TState None [] true) (mc_thr c)) (mc_hist c ++ [HPanic i id o why]) (mc_nop c))
        end fin inj).
  Proof.
    intros H1 H2 H3 H4 H5. destruct p as [T a|X T f k|S B T body s k|T why]; auto.
    - destruct (fin a) as [[[? ?] ?]|] eqn:E; [by eapply H1|done].
    - destruct (f i orc (mc_st c)); auto.
  Qed.
  Lemma res_snoc H e : res_ok H → (∀ i id o r v, e = HRes i id o r v → ∃ σ, to_vals o σ r = Some v) → res_ok (H ++ [e]).
  Proof.
    intros R X h i id o r v E. apply lookup_app_Some in E as [E|[Le E]]; [by eapply R|]. destruct (h - length H) as [|[]]; try done. cbn in E. injection E as ->. by eapply X.
  Qed.
  Lemma res_step (c c' : mconf K V) ch : res_ok (mc_hist c) → mstep cfg c ch = SStep c' → res_ok (mc_hist c').
  Proof.
    intros R E. assert (T : ∀ c0, SStep c0 = SStep c' → mc_hist c0 = mc_hist c → res_ok (mc_hist c')) by (by intros c0 [= <-] ->).
    assert (T1 : ∀ c0 e, SStep c0 = SStep c' → mc_hist c0 = mc_hist c ++ [e] → (∀ i id o r v, e ≠ HRes i id o r v) → res_ok (mc_hist c')).
    { intros c0 e [= <-] -> N. apply res_snoc; [done|]. intros i id o r v ->. by destruct (N i id o r v). }
    destruct ch as [i|i|i o|i b|j]; cbn [mstep] in E.
    - destruct (mc_thr c !! i) as [[[] its []]|]; try done. destruct (decide _); [done|]. by eapply T1.
    - destruct (mc_thr c !! i) as [[[] its []]|]; try done. destruct (decide _); [|done]. by eapply T1.
    - destruct (mc_thr c !! i) as [[[] its []]|]; try done. destruct (decide _); [|done]. by eapply T1.
    - destruct (mc_thr c !! i) as [[[[[id o] p]|] its []]|]; try done.
      revert E. apply (run_cases_v p _ _ i id o its c b (λ x, x = SStep c' → res_ok (mc_hist c'))); intros; try first [done|by eapply T|by eapply T1].
      match goal with X : SStep _ = SStep _ |- _ => injection X as <- end. cbn [mc_hist]. apply res_snoc; [done|].
      match goal with X : _ <$> _ = Some _ |- _ => apply fmap_Some in X as (v' & Ev & [= -> -> ->]) end.
      intros i' id' o' r' w [= <- <- <- <- <-]. by eexists.
    - destruct (retired (mc_st c) !! j) as [r|]; [|done]. destruct (decide _); [|done]. destruct (reclaim _ _ _); [|done]. by eapply T.
  Qed.
  Lemma res_exec sched : ∀ (c c' : mconf K V), res_ok (mc_hist c) → exec cfg c sched = Some c' → res_ok (mc_hist c').
  Proof.
    induction sched as [|ch sched IH]; cbn [exec]; intros c c' R E; [by injection E as <-|].
    destruct (mstep cfg c ch) as [c1| |] eqn:M; [|by eapply IH|done]. eapply IH; [|exact E]. by eapply res_step.
  Qed.
  Lemma res_typed H : res_ok H → typed H.
  Proof.
    intros R h i id o r v E. destruct (R _ _ _ _ _ _ E) as [σ X]. destruct o; try done; destruct r; cbn in X; try done; try (injection X as <-; by eexists); try congruence.
    apply fmap_Some in X as (x & _ & ->). by eexists.
  Qed.
  Lemma exec_typed cap nsh nthr sched (c : mconf K V) : exec cfg (init_conf cap nsh nthr) sched = Some c → typed (mc_hist c).
  Proof. intros E. apply res_typed. eapply res_exec; [|exact E]. by intros h i id o r v ?. Qed.
End typed.

Section full.
  Context {K V : Type} {Keq : EqDecision K} (cfg : config K) (nthr nsh cap : nat).
  Context (HS : 0 < nsh).
  (** One linearization that explains everything. *)
  Theorem C01_C02_explained (sched : list (choice K V)) c : exec cfg (init_conf cap nsh nthr) sched = Some c → ∃ S cut, explains (mc_hist c) S cut.
  Proof.
    intros E. destruct (exec_len cfg nthr nsh sched (init_conf cap nsh nthr) (w_init nsh cap) [] [] c) as (w & D & G & M & LX).
    - by apply MI_init.
    - intros i ts Ei. cbn in Ei. apply lookup_replicate in Ei as [-> _]. done.
    - intros i id p its h0 Ei. cbn in Ei. by apply lookup_replicate in Ei as [? _].
    - by intros h0 h i id r n ?.
    - done.
    - pose proof (mi_wi _ _ _ _ _ _ _ M) as W. pose proof (mi_hi _ _ _ _ _ _ _ M) as I.
      destruct (acts_ex cfg nthr nsh w W) as [A HA]. exists (SS w G A), (cut w D G A). split_and!; [by eapply lin_ok|by eapply sweeps_ok|by eapply iter_ok|by eapply clos_ok|].
      intros h0 h i id r n E0 E1 Q. destruct (LX h0 h i id r n E0 E1 Q) as (ks & B1 & B2 & B3). exists ks. split; [done|]. split; [|done].
      destruct (pos_wit cfg nthr nsh w (mc_hist c) D G W I A HA h h _ _ (Lof D h) E1 E1) as (q & C1 & C2 & C3); [lia..|].
      intros k. rewrite B2, <- C3. by replace q with (cut w D G A (h + 1)) by lia.
  Qed.
End full.

(** [H] is the history of an execution of a map (either resize mode; any number of threads, shards, capacity, chunk size,
    hash function, schedule). *)
Definition map_history {K V : Type} {Keq : EqDecision K} (H : list (hevent K V)) : Prop :=
  ∃ cfg nthr nsh cap sched c, 0 < nsh ∧ exec cfg (init_conf cap nsh nthr) sched = Some c ∧ H = mc_hist c.
(** Two maps: number 0 and number 1. *)
Definition two {A} (x y : A) (m : nat) : A := match m with 0 => x | _ => y end.

Section main.
  Context {K V : Type} {Keq : EqDecision K}.
  Implicit Types (H : list (hevent K V)) (p : pos) (t j : nat).

  Lemma map_explained H : map_history H → wf_hist H ∧ typed H ∧ ∃ S cut, explains H S cut.
  Proof.
    intros (cfg & nthr & nsh & cap & sched & c & HS & E & ->). split; [|split].
    - by destruct (run_good cfg nthr nsh cap HS sched c E).
    - by eapply exec_typed.
    - by eapply C01_C02_explained.
  Qed.

  (** C26: [a == b], with nobody else using the two maps meanwhile, returns true iff the maps have the same keys, with
      equal values. *)
  Theorem C26_eq H0 H1 : map_history H0 → map_history H1 → ∃ S0 cut0 S1 cut1, explains H0 S0 cut0 ∧ explains H1 S1 cut1 ∧
    ∀ t veq j p r p', c_eq t (two H0 H1) veq 0 1 j p r p' → alone t H0 (p 0) (p' 0) → alone t H1 (p 1) (p' 1) → j = n_iters t H0 (p 0) →
      (r = true ↔ same_contents veq (sval S0 (cut0 (p 0))) (sval S1 (cut1 (p 1)))) ∧
      (∀ k, sval S0 (cut0 (p' 0)) k = sval S0 (cut0 (p 0)) k) ∧ (∀ k, sval S1 (cut1 (p' 1)) k = sval S1 (cut1 (p 1)) k).
  Proof.
    intros A B. destruct (map_explained _ A) as (W0 & T0 & S0 & c0 & X0). destruct (map_explained _ B) as (W1 & T1 & S1 & c1 & X1).
    exists S0, c0, S1, c1. split; [done|]. split; [done|]. intros t veq j p r p' E AA AB Ej.
    destruct (eq_ok t (two H0 H1) (two S0 S1) (two c0 c1) ltac:(by intros []) ltac:(by intros []) ltac:(by intros []) veq 0 1 j p r p' ltac:(done) E AA AB Ej) as (Z1 & _ & _ & Z2 & Z3).
    done.
  Qed.

  (** C27: [extend] binds each key of the list to the last value given for it, and leaves the other keys alone; a map made by
      [from_iter] / [From] / deserialization contains exactly the last values given. *)
  Theorem C27_extend H : map_history H → ∃ S cut, explains H S cut ∧
    ∀ t hint l p p', c_extend t (λ _, H) 0 hint l p tt p' → alone t H (p 0) (p' 0) →
      ∀ k, sval S (cut (p' 0)) k = match last_write l k with Some v => Some v | None => sval S (cut (p 0)) k end.
  Proof.
    intros A. destruct (map_explained _ A) as (W & T & S & c & X). exists S, c. split; [done|]. intros t hint l p p' E AL k.
    destruct (extend_ok t (λ _, H) (λ _, S) (λ _, c) ltac:(done) ltac:(done) 0 hint l p p' E AL) as [_ Z].
    rewrite <- write_all_spec. apply Z.
  Qed.
  Theorem C27_from_iter H : map_history H → ∃ S cut, explains H S cut ∧
    ∀ t l p p', c_from t (λ _, H) 0 l p tt p' → alone t H (p 0) (p' 0) → new_map H (p 0) → ∀ k, sval S (cut (p' 0)) k = last_write l k.
  Proof.
    intros A. destruct (map_explained _ A) as (W & T & S & c & X). exists S, c. split; [done|]. intros t l p p' E AL NM k.
    destruct (from_ok t (λ _, H) (λ _, S) (λ _, c) ltac:(done) ltac:(done) 0 l p p' E AL) as (_ & _ & Z).
    specialize (Z k). rewrite write_all_spec in Z. etrans; [apply Z|]. destruct (last_write l k); [done|]. by apply (fresh_empty H S c X).
  Qed.

  (** C28: cloning a map nobody else is using gives a map with the same contents, and leaves the original alone. (Later calls on one
      of them do not affect the other: they are two maps with two histories; see C33_each_map_runs_alone.) *)
  Theorem C28_clone H0 H1 : map_history H0 → map_history H1 → ∃ S0 cut0 S1 cut1, explains H0 S0 cut0 ∧ explains H1 S1 cut1 ∧
    ∀ t j p p', c_clone t (two H0 H1) 0 1 j p tt p' → alone t H0 (p 0) (p' 0) → alone t H1 (p 1) (p' 1) → j = n_iters t H0 (p 0) → new_map H1 (p 1) →
      (∀ k, sval S1 (cut1 (p' 1)) k = sval S0 (cut0 (p 0)) k) ∧ (∀ k, sval S0 (cut0 (p' 0)) k = sval S0 (cut0 (p 0)) k).
  Proof.
    intros A B. destruct (map_explained _ A) as (W0 & T0 & S0 & c0 & X0). destruct (map_explained _ B) as (W1 & T1 & S1 & c1 & X1).
    exists S0, c0, S1, c1. split; [done|]. split; [done|]. intros t j p p' E AA AB Ej NM.
    destruct (clone_ok t (two H0 H1) (two S0 S1) (two c0 c1) ltac:(by intros []) ltac:(by intros []) ltac:(by intros []) 0 1 j p p' ltac:(done) E AA AB Ej) as (_ & _ & Z1 & Z2).
    - by apply (fresh_empty H1 S1 c1 X1).
    - done.
  Qed.

  (** C29: serializing a map nobody else is using writes every binding exactly once; deserializing the pairs into a new map gives a map with
      the same contents. *)
  Theorem C29_round_trip H0 H1 : map_history H0 → map_history H1 → ∃ S0 cut0 S1 cut1, explains H0 S0 cut0 ∧ explains H1 S1 cut1 ∧
    ∀ t j p l p' t' q q', c_serialize t (λ _, H0) 0 j p l p' → alone t H0 (p 0) (p' 0) → j = n_iters t H0 (p 0) →
      c_from t' (λ _, H1) 0 l q tt q' → alone t' H1 (q 0) (q' 0) → new_map H1 (q 0) →
      enumerates l (sval S0 (cut0 (p 0))) ∧ (∀ k, sval S0 (cut0 (p' 0)) k = sval S0 (cut0 (p 0)) k) ∧
      ∀ k, sval S1 (cut1 (q' 0)) k = sval S0 (cut0 (p 0)) k.
  Proof.
    intros A B. destruct (map_explained _ A) as (W0 & T0 & S0 & c0 & X0). destruct (map_explained _ B) as (W1 & T1 & S1 & c1 & X1).
    exists S0, c0, S1, c1. split; [done|]. split; [done|]. intros t j p l p' t' q q' E AA Ej E' AB NM.
    destruct (serialize_ok t (λ _, H0) (λ _, S0) (λ _, c0) ltac:(done) ltac:(done) ltac:(done) 0 j p l p' E AA Ej) as (Z1 & _ & Z2).
    destruct (from_ok t' (λ _, H1) (λ _, S1) (λ _, c1) ltac:(done) ltac:(done) 0 l q q' E' AB) as (_ & _ & Z3).
    split; [done|]. split; [done|]. intros k. etrans; [apply Z3|]. apply write_all_enum; [exact Z1|]. by apply (fresh_empty H1 S1 c1 X1).
  Qed.
End main.

(** ** HashSet *)
Section set.
  Context {K : Type} {Keq : EqDecision K}.
  (** A [HashSet<K>] is a raw map from [K] to [()]. src/set.rs:367-373 (contains), 429-435 (insert: raw insert with
      replace = true), 455-463 (remove). *)
  Inductive sop := SContains (k : K) | SInsert (k : K) | SRemove (k : K).
  Definition sop_key (o : sop) : K := match o with SContains k | SInsert k | SRemove k => k end.
  Definition sop_call (o : sop) : op K unit := match o with SContains k => OGet k | SInsert k => OInsert k tt | SRemove k => ORemove k end.
  Definition sop_ret (o : sop) (v : vres K unit) : option bool :=
    match o, v with
    | SContains _, VGet x => Some (bool_decide (x ≠ None))
    | SInsert _, VInsert x => Some (bool_decide (x = None))
    | SRemove _, VRemove x => Some (bool_decide (x ≠ None))
    | _, _ => None
    end.
  (** A mathematical set, and what the operations do to it: the new membership of the key, and the result. *)
  Definition set_op (o : sop) (mem : bool) : bool * bool :=
    match o with SContains _ => (mem, mem) | SInsert _ => (true, negb mem) | SRemove _ => (false, mem) end.
  Definition mem (m : @smap K unit) (k : K) : bool := bool_decide (m k ≠ None).

  (** C30: every HashSet call takes effect atomically at one moment between its invocation and its response, as on a mathematical set. *)
  Theorem C30_set (H : list (hevent K unit)) : map_history H → ∃ S cut, explains H S cut ∧
    ∀ h0 h1 i id o v, call H h0 h1 i id (sop_call o) v →
      ∃ n, cut (h0 + 1) ≤ n ∧ n < cut (h1 + 1) ∧
        sop_ret o v = Some (set_op o (mem (sval S n) (sop_key o))).2 ∧
        mem (sval S (n + 1)) (sop_key o) = (set_op o (mem (sval S n) (sop_key o))).1 ∧
        ∀ k, k ≠ sop_key o → mem (sval S (n + 1)) k = mem (sval S n) k.
  Proof.
    intros A. destruct (map_explained _ A) as (W & T & S & c & X). exists S, c. split; [done|]. intros h0 h1 i id o v C.
    destruct (call_act H S c W (proj1 X) _ _ _ _ _ _ (sop_key o) C) as (n & x & _ & L1 & L2 & SQ & E1 & E2); [by destruct o|].
    exists n. split; [done|]. split; [done|]. unfold mem. rewrite E1. split; [|split].
    - destruct o as [k|k|k]; cbn in SQ |- *; injection SQ as <- <-; cbn in *; destruct (sval S n k) as [[]|]; done.
    - destruct o as [k|k|k]; cbn in SQ |- *; injection SQ as <- <-; cbn in *; destruct (sval S n k) as [[]|]; done.
    - intros k N. by rewrite E2.
  Qed.
  (** [==] on sets, src/set.rs:574-589 (equal lengths, and every element of one is in the other). *)
  Theorem C30_set_eq (H0 H1 : list (hevent K unit)) : map_history H0 → map_history H1 → ∃ S0 cut0 S1 cut1, explains H0 S0 cut0 ∧ explains H1 S1 cut1 ∧
    ∀ t j p r p', c_eq t (two H0 H1) (λ _ _, true) 0 1 j p r p' → alone t H0 (p 0) (p' 0) → alone t H1 (p 1) (p' 1) → j = n_iters t H0 (p 0) →
      (r = true ↔ ∀ k, mem (sval S0 (cut0 (p 0))) k = mem (sval S1 (cut1 (p 1))) k).
  Proof.
    intros A B. destruct (C26_eq _ _ A B) as (S0 & c0 & S1 & c1 & X0 & X1 & R). exists S0, c0, S1, c1. split; [done|]. split; [done|].
    intros t j p r p' E AA AB Ej. destruct (R t _ j p r p' E AA AB Ej) as [-> _]. unfold same_contents, mem.
    split; intros Z k; specialize (Z k); destruct (sval S0 _ k), (sval S1 _ k); done.
  Qed.
End set.
