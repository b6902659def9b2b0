(** C54: proofs about WeakMap.v. *)
From stdpp Require Import base list option numbers.
From Verif Require Import WeakMap.
Local Open Scope nat_scope.

Section Inv.
Context {V : Type} (plen extra : nat → nat).
Notation wst := (@wst V).
Implicit Types (s : wst) (w u : view) (x y : word).

Definition dead x : Prop := match wc x with COther | CTomb _ => True | CNull => copying x = true | CMine _ => False end.
Definition gone x : Prop := match wc x with CMine _ => copying x = true ∧ copied x = true | _ => False end.
Definition fin x : Prop := dead x ∨ gone x.
Definition nonnull x : Prop := x ≠ NULL.
Definition mcop x : Prop := match wc x with CMine _ => copying x = true | _ => False end.

(** Successive words of a slot. *)
Definition tr y x : Prop :=
  match wc y with
  | CNull => y = NULL ∧ ((∃ n, x = W (CMine n) false false) ∨ x = W COther false false ∨ x = W CNull true false)
  | CMine n => (y = W (CMine n) false false ∧ ((∃ n', x = W (CMine n') false false ∨ x = W (CTomb n') false false) ∨ x = W (CMine n) true false))
               ∨ (y = W (CMine n) true false ∧ x = W (CMine n) true true)
  | CTomb n => y = W (CTomb n) false false ∧ x = W (CTomb n) true false
  | COther => wc x = COther ∧ (copying y = true → copying x = true) ∧ copied x = false
  end.
Lemma tr_dead y x : tr y x → dead y → dead x.
Proof.
  unfold tr, dead. destruct y as [[| | |] b c]; simpl; intros T D; [destruct T as [[=] _]; congruence|done|destruct T as [_ ->]; done|by rewrite (proj1 T)].
Qed.
Lemma tr_gone y x : tr y x → gone y → False.
Proof.
  unfold tr, gone. destruct y as [[| | |] b c]; simpl; intros T D; [done| |done..]. destruct D as [-> ->], T as [[[=] _]|[[=] _]].
Qed.
Lemma tr_nonnull y x : tr y x → nonnull x.
Proof.
  unfold nonnull, tr. destruct y as [[| n | n |] b c]; simpl; intros T ->; [|destruct T as [[_ [[n' [?|?]]|?]]|[_ ?]]; congruence|by destruct T as [_ ?]|by destruct T as [? _]].
  destruct T as [_ [[n T]|[T|T]]]; congruence.
Qed.
Lemma tr_mcop y x : tr y x → mcop y → mcop x.
Proof.
  unfold mcop, tr. destruct y as [[| n | n |] b c]; simpl; intros T D; [done| |done..]. subst b. destruct T as [[[=] _]|[_ ->]]. done.
Qed.
Lemma tr_copying y x : tr y x → copying y = true → copying x = true.
Proof.
  unfold tr. destruct y as [[| n | n |] b c]; simpl; intros T ->; [by destruct T as [[=] _]|destruct T as [[[=] _]|[_ ->]]; done|by destruct T as [[=] _]|by apply T].
Qed.
Lemma tr_mark y n b : tr y (W (CMine n) true b) → (y = W (CMine n) false false ∧ b = false) ∨ (y = W (CMine n) true false ∧ b = true).
Proof.
  unfold tr. destruct y as [[| m | m |] c d]; simpl; intros T; [destruct T as [_ [[? ?]|[?|?]]]; congruence| |by destruct T|by destruct T].
  destruct T as [[E1 [[n' [?|?]]|E2]]|[E1 E2]]; [congruence..|left; split; congruence|right; split; congruence].
Qed.
Lemma tr_kidx y x n : tr y x → kidx y = Some n → is_Some (kidx x).
Proof.
  unfold kidx, tr. destruct y as [[| m | m |] b c]; simpl; intros T D; [done| | |done].
  - destruct T as [[_ [[n' [->| ->]]| ->]]|[_ ->]]; simpl; eauto.
  - destruct T as [_ ->]; simpl; eauto.
Qed.

(** Message [k] of slot [j] of table [t]. *)
Definition mg s t j k x : Prop := ∃ u, ent s t j !! k = Some (x, u).
Definition kmsg s t j k n : Prop := ∃ x, mg s t j k x ∧ kidx x = Some n.
Definition known s w t j (P : word → Prop) : Prop := ∃ k x, k ≤ ve w t j ∧ mg s t j k x ∧ P x.
Definition deadm s w t j : Prop := known s w t j dead ∧ 0 < vm w t j.
Definition gonem s w t j : Prop := known s w t j gone ∧ 0 < vm w t j.
Definition passed s w t : Prop := vx w t = true ∧ ∃ k, k ≤ plen t ∧ (∀ j, j < k → deadm s w t j) ∧ (k = plen t ∨ k < plen t ∧ gonem s w t k).
Definition cover s w r t j k : Prop := (∀ t0, r ≤ t0 → t0 < t → passed s w t0) ∧ (r ≤ t → (∀ j0, j0 < j → deadm s w t j0) ∧ k ≤ ve w t j ∧ 0 < vm w t j).

Record VI s w : Prop := {
  v_ve : ∀ t j, ve w t j < length (ent s t j);
  v_vr : vr w < length (root s);
  v_vn : vn w = 0 ∨ ∃ t j k, kmsg s t j k (vn w) ∧ cover s w (vr w) t j k;
  v_gone : ∀ t j, known s w t j gone → ∃ tc jc, cp s t j = Some (tc, jc) ∧ vx w t = true ∧ cover s w (S t) tc jc 1 }.

(** Lexicographic order of slots. *)
Definition slt (t j t' j' : nat) : Prop := t < t' ∨ t = t' ∧ j < j'.
Definition ldead s t j : Prop := ∃ x, lw s t j = Some x ∧ dead x.
Definition gpass s t : Prop := ∃ k, k ≤ plen t ∧ (∀ j, j < k → ldead s t j) ∧ (k = plen t ∨ k < plen t ∧ ∃ x, lw s t k = Some x ∧ mcop x).

Record Str s : Prop := {
  g_tr : ∀ t j k y x, mg s t j k y → mg s t j (S k) x → tr y x;
  g_0 : ∀ t j, mg s t j 0 NULL;
  g_lt : ∀ t j k n, kmsg s t j k n → j < plen t;
  g_mono : ∀ t j k n t' j' k' n', kmsg s t j k n → kmsg s t' j' k' n' → slt t j t' j' ∨ (t = t' ∧ j = j' ∧ k ≤ k') → n ≤ n';
  g_log : ∀ t j k x n, mg s t j k x → kidx x = Some n → 1 ≤ n ∧ match wc x with CTomb _ => log s !! n = Some None | _ => ∃ v, log s !! n = Some (Some v) end;
  g_log0 : log s !! 0 = Some None;
  g_last : ∀ n, 1 ≤ n → n < length (log s) → ∃ t j k, kmsg s t j k n;
  g_path : ∀ t j k n, kmsg s t j k n → (∀ j0, j0 < j → ldead s t j0) ∧ (∀ t0, t0 < t → gpass s t0);
  g_cp : ∀ t j n b, lw s t j = Some (W (CMine n) true b) →
           match cp s t j with
           | None => b = false ∧ ∀ t' j' k' n', kmsg s t' j' k' n' → ¬ slt t j t' j'
           | Some (tc, jc) => t < tc ∧ kmsg s tc jc 1 n
           end;
  g_cpn : ∀ t j x, lw s t j = Some x → copying x = false → cp s t j = None;
  g_own : ∀ t j, own s t j = None → ∀ x, lw s t j = Some x → copying x = false }.

Record Msg s : Prop := {
  m_ent : ∀ t j k x u, ent s t j !! k = Some (x, u) → VI s u ∧ k ≤ ve u t j;
  m_met : ∀ t j k a u, met s t j k = Some (a, u) → VI s u ∧ (a = MEmpty ↔ k = 0) ∧ (a = MEmpty → u = bot) ∧ (a = MH2 → known s u t j nonnull) ∧ (a = MOther ∨ a = MTomb → known s u t j dead);
  m_nxt : ∀ t u, nxt s t = Some u → VI s u;
  m_root : ∀ k u, root s !! k = Some u → VI s u ∧ ∀ t j, t < k → j < plen t → known s u t j fin;
  m_don : ∀ t l k u, don s t !! l = Some (k, u) → VI s u ∧ ∀ l' k' u', l' ≤ l → don s t !! l' = Some (k', u') → k' < plen t → known s u t k' fin;
  m_dup : ∀ t, NoDup (don s t).*1;
  m_lt : ∀ t k, k ∈ (don s t).*1 → k < tot plen extra t ∧ own s t k ≠ None }.

Definition since s i : nat := list_max (kn_start (hist s) i).
Definition Cursor s w (a t j : nat) : Prop :=
  ∃ r, r ≤ t ∧ r ≤ vr w ∧ (∀ t0 j0, t0 < r → j0 < plen t0 → known s w t0 j0 fin) ∧ (∀ t0, r ≤ t0 → t0 < t → passed s w t0) ∧ (∀ j0, j0 < j → deadm s w t j0) ∧ j ≤ plen t ∧
    (a = 0 ∨ ∃ a' ta ja ka, a ≤ a' ∧ kmsg s ta ja ka a' ∧ cover s w r ta ja ka).
Definition found s w (a t j : nat) x : Prop := (∃ k, k ≤ ve w t j ∧ mg s t j k x) ∧ x ≠ NULL ∧ ∀ n, wc x = CMine n → copied x = false → a ≤ n.
Definition wrote s (a : nat) (d : option V → dec) (n : nat) : Prop :=
  a < n ∧ ∃ old new, log s !! (n - 1) = Some old ∧ log s !! n = Some new ∧ match d old with Put v => new = Some v | Del => is_Some old ∧ new = None | Keep => False end.
Definition holds s i (t k : nat) : Prop := own s t k = Some i ∧ k < tot plen extra t ∧ k ∉ (don s t).*1.
Definition cpath s w (t t' j' : nat) : Prop := t < t' ∧ (∀ t0, t < t0 → t0 < t' → vx w t0 = true ∧ ∀ j0, j0 < plen t0 → deadm s w t0 j0) ∧ (∀ j0, j0 < j' → deadm s w t' j0).
Definition PI s i w (p : point) : Prop :=
  let a := since s i in
  match p with
  | Idle => True
  | Root0 q => a ≤ vn w
  | Pr q t j => Cursor s w a t j
  | He q t j => j < plen t ∧ Cursor s w a t j ∧ 0 < vm w t j ∧ known s w t j nonnull
  | In q t j v => j < plen t ∧ Cursor s w a t j ∧ wr q = Some v
  | Fx q t j x => j < plen t ∧ Cursor s w a t j ∧ found s w a t j x
  | Fd q t j x => j < plen t ∧ Cursor s w a t j ∧ 0 < vm w t j ∧ found s w a t j x
  | Up q t j n => j < plen t ∧ Cursor s w a t j ∧ 0 < vm w t j ∧ a ≤ n ∧ known s w t j (λ x, kidx x = Some n)
  | Ms d t j m n => j < plen t ∧ Cursor s w a t j ∧ wrote s a d n ∧ (∃ k, k ≤ ve w t j ∧ kmsg s t j k n) ∧ (m = MH2 ∧ known s w t j nonnull ∨ m = MTomb ∧ known s w t j dead)
  | Wt q t j => j < plen t ∧ Cursor s w a t j ∧ 0 < vm w t j
  | Nx q t => ∃ k, Cursor s w a t k ∧ (k = plen t ∨ k < plen t ∧ gonem s w t k)
  | Cc t k => holds s i t k ∧ k < plen t ∧ vx w t = true ∧ ∀ x, lw s t k = Some x → copying x = false
  | Ct t k => holds s i t k ∧ k < plen t ∧ known s w t k dead
  | Ci t k n t' j' => holds s i t k ∧ k < plen t ∧ vx w t = true ∧ lw s t k = Some (W (CMine n) true false) ∧ cp s t k = None ∧ cpath s w t t' j' ∧ j' ≤ plen t'
  | CI t k n t' j' => holds s i t k ∧ k < plen t ∧ vx w t = true ∧ lw s t k = Some (W (CMine n) true false) ∧ cp s t k = None ∧ cpath s w t t' j' ∧ j' < plen t'
  | Cf t k n t' j' x => holds s i t k ∧ k < plen t ∧ vx w t = true ∧ lw s t k = Some (W (CMine n) true false) ∧ cp s t k = None ∧ cpath s w t t' j' ∧ j' < plen t' ∧ known s w t' j' (λ y, y = x) ∧ x ≠ NULL
  | Cm t k n t' j' => holds s i t k ∧ k < plen t ∧ vx w t = true ∧ lw s t k = Some (W (CMine n) true false) ∧ cp s t k = Some (t', j') ∧ cpath s w t t' j' ∧ j' < plen t' ∧ 1 ≤ ve w t' j' ∧ known s w t' j' nonnull
  | Cw t k n => holds s i t k ∧ k < plen t ∧ vx w t = true ∧ lw s t k = Some (W (CMine n) true false) ∧ ∃ t' j', cp s t k = Some (t', j') ∧ cover s w (S t) t' j' 1
  | Cd t k => holds s i t k ∧ (k < plen t → known s w t k fin)
  | Pm t => ∀ j, j < plen t → known s w t j fin
  end.

Fixpoint hist_ok s (tr : list ev) : Prop :=
  match tr with
  | [] => True
  | ERead i q n r :: tr => (list_max (kn_start tr i) ≤ n ∧ log s !! n = Some r ∧ match q with Get => True | Cmp d => d r = Keep ∨ d r = Del ∧ r = None end) ∧ hist_ok s tr
  | EWrite i d n :: tr => wrote s (list_max (kn_start tr i)) d n ∧ hist_ok s tr
  | _ :: tr => hist_ok s tr
  end.
Record Inv s : Prop := {
  i_str : Str s; i_msg : Msg s;
  i_vi : ∀ i, VI s (vw s i);
  i_pi : ∀ i, PI s i (vw s i) (pc s i);
  i_hist : hist_ok s (hist s);
  i_kn : ∀ i, list_max (kn (hist s) i) ≤ vn (vw s i) }.

(** ** Messages of a slot *)
Lemma mg_lt s t j k x : mg s t j k x → k < length (ent s t j).
Proof. intros [u H]. by eapply lookup_lt_Some. Qed.
Lemma mg_fun s t j k x y : mg s t j k x → mg s t j k y → x = y.
Proof. intros [u H] [u' H']. congruence. Qed.
Lemma mg_ex s t j k : k < length (ent s t j) → ∃ x, mg s t j k x.
Proof. intros H. destruct (lookup_lt_is_Some_2 _ _ H) as [[x u] E]. by exists x, u. Qed.
Lemma lw_mg s t j x : lw s t j = Some x ↔ mg s t j (length (ent s t j) - 1) x ∧ 0 < length (ent s t j).
Proof.
  unfold lw, mg. rewrite last_lookup. generalize (ent s t j) as l. intros l. replace (Nat.pred (length l)) with (length l - 1) by lia. split.
  - destruct (l !! (length l - 1)) as [[y u]|] eqn:E; [|done]. intros [= <-]. split; [by exists u|]. apply lookup_lt_Some in E. lia.
  - intros [[u ->] _]. done.
Qed.
Lemma lw_of s t j x u : list.last (ent s t j) = Some (x, u) → lw s t j = Some x.
Proof. unfold lw. by intros ->. Qed.
Lemma last_msg s t j x u : list.last (ent s t j) = Some (x, u) → ent s t j !! (length (ent s t j) - 1) = Some (x, u) ∧ 0 < length (ent s t j).
Proof.
  rewrite last_lookup. intros H. split; [by replace (length (ent s t j) - 1) with (Nat.pred (length (ent s t j))) by lia|]. destruct (ent s t j); [done|simpl; lia].
Qed.

Section Str.
Context (s : wst) (G : Str s).
Lemma len_pos t j : 0 < length (ent s t j).
Proof. exact (mg_lt _ _ _ _ _ (g_0 s G t j)). Qed.
Lemma lw_ex t j : ∃ x, lw s t j = Some x.
Proof.
  pose proof (len_pos t j). destruct (mg_ex s t j (length (ent s t j) - 1)) as [x Hx]; [lia|]. exists x. by apply lw_mg.
Qed.
(** A predicate that successors keep holds of all later messages. *)
Lemma stable (P : word → Prop) t j : (∀ y x, tr y x → P y → P x) → ∀ k k' y x, k ≤ k' → mg s t j k y → mg s t j k' x → P y → P x.
Proof.
  intros HP k k' y x Hk Hy Hx Py. revert x Hx. induction Hk as [|k' Hk IH]; intros x Hx; [by rewrite <- (mg_fun _ _ _ _ _ _ Hy Hx)|].
  destruct (mg_ex s t j k') as [z Hz]; [pose proof (mg_lt _ _ _ _ _ Hx); lia|]. eapply HP; [exact (g_tr s G _ _ _ _ _ Hz Hx)|eauto].
Qed.
Lemma stable_lw (P : word → Prop) t j : (∀ y x, tr y x → P y → P x) → ∀ k y x, mg s t j k y → lw s t j = Some x → P y → P x.
Proof. intros HP k y x Hy [Hx _]%lw_mg Py. eapply (stable P t j HP k); [|exact Hy|exact Hx|done]. pose proof (mg_lt _ _ _ _ _ Hy); lia. Qed.
Lemma gone_last t j k y : mg s t j k y → gone y → k = length (ent s t j) - 1.
Proof.
  intros Hy Gy. pose proof (mg_lt _ _ _ _ _ Hy). destruct (decide (S k = length (ent s t j))); [lia|].
  destruct (mg_ex s t j (S k)) as [z Hz]; [lia|]. destruct (tr_gone _ _ (g_tr s G _ _ _ _ _ Hy Hz) Gy).
Qed.
Lemma gone_lw t j k y : mg s t j k y → gone y → lw s t j = Some y.
Proof. intros Hy Gy. apply lw_mg. rewrite <- (gone_last _ _ _ _ Hy Gy). split; [done|]. apply len_pos. Qed.
Lemma words_ok t j k x : mg s t j k x → (wc x = CNull → x = NULL ∨ copying x = true) ∧ (copied x = true → ∃ n, x = W (CMine n) true true).
Proof.
  destruct k as [|k]; intros Hx; [rewrite (mg_fun _ _ _ _ _ _ Hx (g_0 s G t j)); split; [by left|done]|].
  destruct (mg_ex s t j k) as [y Hy]; [pose proof (mg_lt _ _ _ _ _ Hx); lia|]. pose proof (g_tr s G _ _ _ _ _ Hy Hx) as T. unfold tr in T.
  destruct (wc y) as [|n|n|].
  - destruct T as [_ [[n ->]|[->| ->]]]; simpl; split; try done. by right.
  - destruct T as [[_ [[n' [->| ->]]| ->]]|[_ ->]]; simpl; split; try done. by exists n.
  - destruct T as [_ ->]; simpl; by split.
  - destruct T as (-> & _ & ->). by split.
Qed.
Lemma null_first t j k : mg s t j k NULL → k = 0.
Proof.
  intros H. destruct k as [|k]; [done|]. destruct (mg_ex s t j k) as [y Hy]; [pose proof (mg_lt _ _ _ _ _ H); lia|].
  by destruct (tr_nonnull _ _ (g_tr s G _ _ _ _ _ Hy H)).
Qed.
Lemma null_lw t j : lw s t j = Some NULL → length (ent s t j) = 1.
Proof. intros [H ?]%lw_mg. apply null_first in H. lia. Qed.
Lemma kmsg_lk t j k n : kmsg s t j k n → ∃ n', lk s t j = Some n' ∧ n ≤ n' ∧ kmsg s t j (length (ent s t j) - 1) n'.
Proof.
  intros (y & Hy & Hn). destruct (lw_ex t j) as [x Hx].
  destruct (stable_lw (λ x, is_Some (kidx x)) t j (λ y x T '(ex_intro _ n H), tr_kidx y x n T H) k y x Hy Hx (mk_is_Some _ _ Hn)) as [n' Hn'].
  assert (kmsg s t j (length (ent s t j) - 1) n') by (apply lw_mg in Hx as [Hx _]; by exists x).
  exists n'. unfold lk. rewrite Hx. split; [done|]. split; [|done].
  eapply (g_mono s G t j k n); [by exists y|eassumption|]. right. pose proof (mg_lt _ _ _ _ _ Hy). split; [done|]. split; [done|lia].
Qed.
Lemma lk_kmsg t j n : lk s t j = Some n → kmsg s t j (length (ent s t j) - 1) n.
Proof. unfold lk. destruct (lw s t j) as [x|] eqn:E; [|done]. simpl. intros H. apply lw_mg in E as [E _]. by exists x. Qed.
Lemma known_lw (P : word → Prop) w t j x : (∀ y x, tr y x → P y → P x) → known s w t j P → lw s t j = Some x → P x.
Proof. intros HP (k & y & _ & Hy & Py) Hx. by eapply stable_lw. Qed.
Lemma known_at (P : word → Prop) w t j k x : (∀ y x, tr y x → P y → P x) → known s w t j P → ve w t j ≤ k → mg s t j k x → P x.
Proof. intros HP (k0 & y & Hk0 & Hy & Py) Hk Hx. eapply (stable P t j HP k0 k); [lia|done..]. Qed.
Lemma dead_gone x : dead x → gone x → False.
Proof. destruct x as [[| | |] ? ?]; unfold dead, gone; simpl; tauto. Qed.
Lemma dead_mcop x : dead x → mcop x → False.
Proof. destruct x as [[| | |] ? ?]; unfold dead, mcop; simpl; tauto. Qed.
Lemma gone_mcop x : gone x → mcop x.
Proof. destruct x as [[| | |] ? ?]; unfold gone, mcop; simpl; tauto. Qed.
Lemma known_dead_gone w t j : known s w t j dead → known s w t j gone → False.
Proof.
  intros D (k & y & _ & Hy & Gy). eapply dead_gone; [|exact Gy]. refine (known_lw dead _ _ _ _ tr_dead D _). by eapply gone_lw.
Qed.
Lemma ldead_of w t j : known s w t j dead → ldead s t j.
Proof. intros D. destruct (lw_ex t j) as [x Hx]. exists x. split; [done|]. by eapply known_lw; [apply tr_dead|..]. Qed.
Lemma passed_gpass w t : passed s w t → gpass s t.
Proof.
  intros [_ (k & Hk & Hd & He)]. exists k. split; [done|]. split; [intros j Hj; eapply ldead_of, Hd, Hj|].
  destruct He as [He|[He [(l & y & _ & Hy & Gy) _]]]; [by left|]. right. split; [done|]. exists y. split; [by eapply gone_lw|by apply gone_mcop].
Qed.

(** A slot that is neither dead nor a marked entry of the key has no message of the key after it. *)
Lemma nothing_after t j x t' j' k n : j < plen t → lw s t j = Some x → ¬ dead x → (mcop x → False) → (∀ j0, j0 < j → ldead s t j0) → kmsg s t' j' k n → slt t j t' j' → False.
Proof.
  intros Hj Hx Hnd Hnm Hb K. destruct (g_path s G _ _ _ _ K) as [P1 P2]. intros [Hlt|[<- Hlt]].
  - destruct (P2 _ Hlt) as (k0 & Hk0 & Hd & He). destruct (decide (j < k0)) as [H|H].
    { destruct (Hd _ H) as (x' & Hx' & D). assert (x' = x) as -> by congruence. done. }
    destruct He as [->|[He (x' & Hx' & M)]]; [lia|]. destruct (decide (j = k0)) as [->|]; [assert (x' = x) as -> by congruence; done|].
    destruct (Hb k0) as (x2 & Hx2 & D2); [lia|]. assert (x2 = x') as -> by congruence. by eapply dead_mcop.
  - destruct (P1 _ Hlt) as (x' & Hx' & D). assert (x' = x) as -> by congruence. done.
Qed.
Lemma slt_tri t j t' j' : slt t j t' j' ∨ (t = t' ∧ j = j') ∨ slt t' j' t j.
Proof. unfold slt. lia. Qed.
Lemma is_last t j n : j < plen t → lw s t j = Some (W (CMine n) false false) → S n = length (log s).
Proof.
  intros Hj Hx. pose proof Hx as [Hm _]%lw_mg. assert (K : kmsg s t j (length (ent s t j) - 1) n) by (eexists; split; [exact Hm|done]).
  destruct (g_log s G _ _ _ _ n Hm eq_refl) as [? [v Hv]]. simpl in Hv. pose proof (lookup_lt_Some _ _ _ Hv).
  destruct (decide (S n = length (log s))) as [|Hne]; [done|exfalso]. destruct (g_last s G (S n)) as (t' & j' & k' & K'); [lia..|].
  destruct (slt_tri t j t' j') as [H1|[[-> ->]|H1]].
  - eapply (nothing_after t j); [done|exact Hx|by intros ?|by intros ?| |exact K'|exact H1]. exact (proj1 (g_path s G _ _ _ _ K)).
  - assert (S n ≤ n); [|lia]. eapply (g_mono s G); [exact K'|exact K|]. right. destruct K' as (? & K' & _). pose proof (mg_lt _ _ _ _ _ K'). split; [done|]. split; [done|lia].
  - assert (S n ≤ n); [|lia]. eapply (g_mono s G); [exact K'|exact K|]. by left.
Qed.

(** [bef] is the last write in the earlier slots. *)
Lemma bef_spec t j : j ≤ plen t →
  (bef plen s t j = 0 ∧ ∀ t0 j0, slt t0 j0 t j → j0 < plen t0 → lk s t0 j0 = None) ∨
  (∃ t1 j1, slt t1 j1 t j ∧ j1 < plen t1 ∧ lk s t1 j1 = Some (bef plen s t j) ∧ ∀ t0 j0, slt t1 j1 t0 j0 → slt t0 j0 t j → j0 < plen t0 → lk s t0 j0 = None).
Proof.
  unfold slt. revert j. induction t as [|t IHt]; intros j.
  - simpl. induction j as [|j IH]; intros Hj; [left; split; [done|intros; lia]|]. simpl. destruct (lk s 0 j) as [n|] eqn:E.
    + right. exists 0, j. split; [lia|]. split; [lia|]. split; [done|intros; lia].
    + destruct IH as [[E0 HN]|(t1 & j1 & H1 & H2 & H3 & H4)]; [lia| |].
      * left. split; [done|]. intros t0 j0 Hs H0. destruct (decide (t0 = 0 ∧ j0 = j)) as [[-> ->]|]; [done|apply HN; lia].
      * right. exists t1, j1. split; [lia|]. split; [done|]. split; [done|]. intros t0 j0 Ha Hb Hc. destruct (decide (t0 = 0 ∧ j0 = j)) as [[-> ->]|]; [done|apply H4; lia].
  - induction j as [|j IH]; intros Hj.
    + simpl. destruct (IHt (plen t)) as [[E0 HN]|(t1 & j1 & H1 & H2 & H3 & H4)]; [lia| |].
      * left. split; [done|]. intros t0 j0 Hs H0. apply HN; [|done]. destruct (decide (t0 = t)) as [->|]; lia.
      * right. exists t1, j1. split; [lia|]. split; [done|]. split; [done|]. intros t0 j0 Ha Hb Hc. apply H4; [done| |done]. destruct (decide (t0 = t)) as [->|]; lia.
    + simpl. destruct (lk s (S t) j) as [n|] eqn:E.
      * right. exists (S t), j. split; [lia|]. split; [lia|]. split; [done|intros; lia].
      * destruct IH as [[E0 HN]|(t1 & j1 & H1 & H2 & H3 & H4)]; [lia| |].
        -- left. split; [done|]. intros t0 j0 Hs H0. destruct (decide (t0 = S t ∧ j0 = j)) as [[-> ->]|]; [done|apply HN; lia].
        -- right. exists t1, j1. split; [lia|]. split; [done|]. split; [done|]. intros t0 j0 Ha Hb Hc. destruct (decide (t0 = S t ∧ j0 = j)) as [[-> ->]|]; [done|apply H4; lia].
Qed.

(** A thread about to look at slot [j] of table [t] does not know anything at or after it. *)
Definition fresh w t j : Prop := (j < plen t ∧ vm w t j = 0) ∨ (j = plen t ∧ vx w t = false).
Lemma cover_before w t j r ta ja ka : (∀ j0, j0 < j → deadm s w t j0) → fresh w t j → r ≤ t → cover s w r ta ja ka → ja < plen ta → slt ta ja t j.
Proof.
  intros Hd Hf Hr [C1 C2] Hja. unfold slt. destruct (decide (ta < t)); [by left|]. right. destruct (decide (ta = t)) as [->|].
  - split; [done|]. destruct (C2 Hr) as (D & _ & M). destruct Hf as [[? Hf]|[-> Hf]]; [|done]. destruct (decide (ja = j)) as [->|]; [lia|].
    destruct (decide (ja < j)); [done|]. destruct (D j) as [_ ?]; lia.
  - exfalso. destruct (C1 t Hr) as [X (k & Hk & D & E)]; [lia|]. destruct Hf as [[Hj Hf]|[-> Hf]]; [|congruence].
    destruct (decide (j < k)) as [H|H]; [destruct (D j H); lia|]. destruct E as [->|[E [Gk M]]]; [lia|].
    destruct (decide (k = j)) as [->|]; [lia|]. destruct (Hd k) as [Dk _]; [lia|]. by eapply known_dead_gone.
Qed.
Lemma none_before' w a t j : VI s w → Cursor s w a t j → (∀ r ta ja ka n, kmsg s ta ja ka n → r ≤ t → cover s w r ta ja ka → slt ta ja t j) →
  a ≤ bef plen s t j ∧ log s !! bef plen s t j = Some None ∧ (∀ n ta ja ka, kmsg s ta ja ka n → slt ta ja t j → n ≤ bef plen s t j) ∧
  (bef plen s t j = 0 ∨ ∃ t1 j1 k1, kmsg s t1 j1 k1 (bef plen s t j) ∧ cover s w (vr w) t1 j1 k1).
Proof.
  intros Vw (r & Hr & Hvr & HF & HP & HD & Hj & Ha) Hf.
  assert (Hbound : ∀ n ta ja ka, kmsg s ta ja ka n → slt ta ja t j → n ≤ bef plen s t j).
  { intros n ta ja ka K Hs. destruct (kmsg_lk _ _ _ _ K) as (n' & L & Hle & K'). pose proof (g_lt s G _ _ _ _ K).
    destruct (bef_spec t j Hj) as [[_ HN]|(t1 & j1 & H1 & H2 & H3 & H4)]; [by rewrite HN in L|].
    etransitivity; [exact Hle|]. destruct (slt_tri t1 j1 ta ja) as [Hx|[[-> ->]|Hx]]; [by rewrite H4 in L| |].
    - assert (n' = bef plen s t j) by congruence. lia.
    - eapply (g_mono s G); [exact K'|exact (lk_kmsg _ _ _ H3)|by left]. }
  split; [|match goal with |- ?A ∧ ?B ∧ ?C => enough (A ∧ C) as [? ?] by done end].
  - destruct Ha as [->|(a' & ta & ja & ka & Hle & K & C)]; [lia|]. etransitivity; [exact Hle|]. eapply Hbound; [exact K|]. by eapply Hf.
  - destruct (bef_spec t j Hj) as [[-> HN]|(t1 & j1 & H1 & H2 & H3 & H4)]; [split; [apply (g_log0 s G)|by left]|].
    pose proof (lk_kmsg _ _ _ H3) as (x & Hx & Hn). destruct (g_log s G _ _ _ _ _ Hx Hn) as [_ Hl].
    destruct (lw_ex t1 j1) as [x' Hx']. assert (x' = x) as -> by (apply lw_mg in Hx' as [Hx' _]; by eapply mg_fun).
    assert (Hfin : known s w t1 j1 dead ∨ known s w t1 j1 gone).
    { assert (Hpp : passed s w t1 → known s w t1 j1 dead ∨ known s w t1 j1 gone).
      { intros [_ (k & Hk & D & E)]. destruct (decide (j1 < k)) as [H|H]; [left; by apply D|]. destruct E as [->|[E [Gk M]]]; [lia|].
        destruct (decide (j1 = k)) as [->|]; [by right|]. exfalso. destruct (proj1 (g_path s G _ _ _ _ (lk_kmsg _ _ _ H3)) k) as (z & Hz & Dz); [lia|].
        destruct Gk as (l & y & _ & Hy & Gy). rewrite (gone_lw _ _ _ _ Hy Gy) in Hz. injection Hz as <-. by eapply dead_gone. }
      destruct (decide (t1 < r)) as [Hlt|Hge].
      - destruct (HF t1 j1 Hlt H2) as (k & y & Hk & Hy & [Dy|Gy]); [left|right]; by exists k, y.
      - destruct H1 as [H1|[-> H1]]; [apply Hpp, HP; lia|]. left. by apply HD. }
    destruct Hfin as [D|Gn].
    + pose proof (known_lw dead _ _ _ _ tr_dead D Hx') as Dx. split; [unfold dead, kidx in *; by destruct (wc x)|]. right.
      destruct D as (k1 & y & Hk1 & Hy & Dy). exists t1, j1, k1. split.
      { exists y. split; [done|]. destruct (wc y) as [|m|m|] eqn:Ey; [|unfold dead in Dy; by rewrite Ey in Dy| |].
        - pose proof (stable_lw (λ x, wc x = CNull ∧ copying x = true) t1 j1 ltac:(intros [[| | |] b c] z T' [? ?]; unfold tr in T'; simpl in *; try done; destruct T' as [[= -> _] _]; done) k1 y x Hy Hx') as Ex.
          unfold dead in Dy. rewrite Ey in Dy. destruct (Ex (conj Ey Dy)) as [Ex' _]. unfold kidx in Hn. by rewrite Ex' in Hn.
        - pose proof (stable_lw (λ x, wc x = CTomb m) t1 j1 ltac:(intros [[|m'|m'|] b c] z T' E'; unfold tr in T'; simpl in *; try done; destruct T' as [_ ->]; done) k1 y x Hy Hx' Ey) as Ex.
          unfold kidx in *. rewrite Ex in Hn. by rewrite Ey.
        - pose proof (stable_lw (λ x, wc x = COther) t1 j1 ltac:(intros [[|m'|m'|] b c] z T' E'; unfold tr in T'; simpl in *; try done; destruct T' as [T' _]; done) k1 y x Hy Hx' Ey) as Ex.
          unfold kidx in Hn. by rewrite Ex in Hn. }
      assert (Ht : t1 ≤ t) by (unfold slt in H1; lia). split; [intros t0 A1 A2; apply HP; lia|]. intros Hvr1.
      assert (Hd1 : ∀ j0, j0 ≤ j1 → deadm s w t1 j0).
      { intros j0 Hj0. destruct H1 as [H1|[-> H1]]; [|apply HD; lia]. destruct (HP t1) as [_ (k & Hk & D & E)]; [lia..|]. destruct (decide (j1 < k)) as [H|H]; [apply D; lia|].
        exfalso. destruct E as [->|[E [Gk M]]]; [lia|]. destruct (decide (j1 = k)) as [->|].
        - eapply known_dead_gone; [|exact Gk]. by exists k1, y.
        - destruct (proj1 (g_path s G _ _ _ _ (lk_kmsg _ _ _ H3)) k) as (z & Hz & Dz); [lia|]. destruct Gk as (l & y' & _ & Hy' & Gy). rewrite (gone_lw _ _ _ _ Hy' Gy) in Hz. injection Hz as <-. by eapply dead_gone. }
      split; [intros; apply Hd1; lia|]. split; [done|]. by apply (Hd1 j1).
    + exfalso. pose proof Gn as Gn0. destruct (v_gone s w Vw _ _ Gn) as (tc & jc & Hcp & _ & Cv). destruct Gn as (k & y & _ & Hy & Gy).
      pose proof (gone_lw _ _ _ _ Hy Gy) as Hy'. assert (y = x) as -> by congruence.
      assert (∃ n b, x = W (CMine n) true b) as (n & b & ->) by (destruct x as [[| | |] [] []]; unfold gone in Gy; simpl in Gy; try tauto; try (destruct Gy; congruence); eauto).
      pose proof (g_cp s G _ _ _ _ Hx') as Hc. rewrite Hcp in Hc. destruct Hc as [Htc Kc]. pose proof (g_lt s G _ _ _ _ Kc) as Hjc.
      destruct (kmsg_lk _ _ _ _ Kc) as (n' & L & _ & _).
      assert (Hs : slt tc jc t j).
      { destruct (decide (S t1 ≤ t)) as [|Hgt].
        - by eapply Hf.
        - destruct H1 as [H1|[-> H1]]; [lia|]. exfalso. destruct (HD _ H1) as [Dk _]. by eapply known_dead_gone. }
      rewrite H4 in L; [done| |done|done]. unfold slt. lia.
Qed.
Lemma none_before w a t j : VI s w → Cursor s w a t j → fresh w t j → a ≤ bef plen s t j ∧ log s !! bef plen s t j = Some None ∧
  (bef plen s t j = 0 ∨ ∃ t1 j1 k1, kmsg s t1 j1 k1 (bef plen s t j) ∧ cover s w (vr w) t1 j1 k1).
Proof.
  intros Vw C Hf. destruct (none_before' w a t j Vw C) as (H1 & H2 & _ & H4); [|done]. intros r ta ja ka n K Hr Cv. destruct C as (_ & _ & _ & _ & _ & HD & _ & _).
  eapply cover_before; [exact HD|exact Hf|exact Hr|exact Cv|exact (g_lt s G _ _ _ _ K)].
Qed.
(** What a thread at slot [j] reads there is not older than what it knew. *)
Lemma read_mine w a t j k x n : Cursor s w a t j → j < plen t → ve w t j ≤ k → mg s t j k x → wc x = CMine n → copied x = false → a ≤ n.
Proof.
  intros (r & Hr & Hvr & HF & HP & HD & Hj & Ha) Hlt Hk Hx Hn Hc. destruct Ha as [->|(a' & ta & ja & ka & Hle & K & [C1 C2])]; [lia|]. etransitivity; [exact Hle|].
  assert (K' : kmsg s t j k n) by (exists x; split; [done|]; unfold kidx; by rewrite Hn).
  assert (Hnd : known s w t j dead → False). { intros D. pose proof (known_at dead _ _ _ _ _ tr_dead D Hk Hx) as D'. unfold dead in D'. by rewrite Hn in D'. }
  destruct (slt_tri ta ja t j) as [H|[[-> ->]|H]].
  - eapply (g_mono s G); [exact K|exact K'|by left].
  - destruct (C2 Hr) as (_ & ? & _). eapply (g_mono s G); [exact K|exact K'|]. right. split; [done|]. split; [done|lia].
  - exfalso. destruct H as [H|[-> H]]; [|destruct (C2 Hr) as (D & _); destruct (D j H); tauto].
    destruct (C1 t Hr H) as [_ (k0 & Hk0 & D & E)]. destruct (decide (j < k0)) as [H0|H0]; [destruct (D j H0); tauto|]. destruct E as [->|[E [Gk M]]]; [lia|].
    destruct (decide (j = k0)) as [->|]; [|destruct (HD k0) as [Dk _]; [lia|by eapply known_dead_gone]].
    destruct Gk as (l & y & Hl & Hy & Gy). pose proof (gone_last _ _ _ _ Hy Gy) as El. pose proof (mg_lt _ _ _ _ _ Hx). assert (k = l) as -> by lia.
    rewrite (mg_fun _ _ _ _ _ _ Hx Hy) in *. unfold gone in Gy. rewrite Hn in Gy. destruct Gy. congruence.
Qed.
Lemma all_before t j t' j' k n : j < plen t → lw s t j = Some NULL → (∀ j0, j0 < j → ldead s t j0) → kmsg s t' j' k n → slt t' j' t j.
Proof.
  intros Hj Hx HD K. destruct (slt_tri t j t' j') as [H|[[-> ->]|H]]; [|exfalso|done].
  - exfalso. refine (nothing_after t j _ _ _ _ _ Hj Hx _ _ HD K H); by unfold dead, mcop.
  - destruct K as (x & Hm & Hn). pose proof (null_lw _ _ Hx) as E. pose proof (mg_lt _ _ _ _ _ Hm). assert (k = 0) as -> by lia.
    rewrite (mg_fun _ _ _ _ _ _ Hm (g_0 s G t' j')) in Hn. done.
Qed.
Lemma ins_last w a t j : VI s w → Cursor s w a t j → j < plen t → lw s t j = Some NULL →
  log s !! (length (log s) - 1) = Some None ∧ 1 ≤ length (log s) ∧ a < length (log s) ∧ (∀ t' j' k n, kmsg s t' j' k n → slt t' j' t j) ∧
  (∀ j0, j0 < j → ldead s t j0) ∧ (∀ t0, t0 < t → gpass s t0) ∧ (∀ t0 j0 n0 b, slt t0 j0 t j → lw s t0 j0 = Some (W (CMine n0) true b) → cp s t0 j0 ≠ None).
Proof.
  intros Vw C Hj Hx. assert (HD' : ∀ j0, j0 < j → ldead s t j0). { destruct C as (_ & _ & _ & _ & _ & HD & _ & _). intros j0 H0. eapply ldead_of. by apply HD. }
  assert (AB := λ t' j' k n, all_before t j t' j' k n Hj Hx HD'). destruct (none_before' w a t j Vw C) as (H1 & H2 & H3 & _); [intros; by eapply AB|].
  pose proof (lookup_lt_Some _ _ _ H2) as Hlt. assert (E : bef plen s t j = length (log s) - 1).
  { destruct (decide (length (log s) = 1)); [lia|]. destruct (g_last s G (length (log s) - 1)) as (t' & j' & k' & K); [lia..|]. pose proof (H3 _ _ _ _ K (AB _ _ _ _ K)). lia. }
  rewrite E in *. split; [done|]. split; [lia|]. split; [lia|]. split; [exact AB|]. split; [done|]. destruct C as (r & Hr & Hvr & HF & HP & HD & _ & Ha).
  assert (HF' : ∀ t0 j0, t0 < r → j0 < plen t0 → ldead s t0 j0 ∨ known s w t0 j0 gone).
  { intros t0 j0 Hlt0 Hj0. destruct (HF t0 j0 Hlt0 Hj0) as (k & y & Hk & Hy & [Dy|Gy]); [left|right; by exists k, y]. apply (ldead_of w). by exists k, y. }
  assert (GP : ∀ t0, t0 < r → gpass s t0).
  { intros t0 H0. assert (Hi : ∀ m, m ≤ plen t0 → (∀ j0, j0 < m → ldead s t0 j0) ∨ gpass s t0).
    { intros m. induction m as [|m IH]; intros Hm; [left; intros; lia|]. destruct IH as [IH|IH]; [lia| |by right].
      destruct (HF' t0 m) as [Dm|Gm]; [done|lia|left; intros j0 ?; destruct (decide (j0 = m)) as [->|]; [done|apply IH; lia]|].
      right. destruct Gm as (l & y & _ & Hy & Gy). exists m. split; [lia|]. split; [done|]. right. split; [lia|]. exists y. split; [by eapply gone_lw|by apply gone_mcop]. }
    destruct (Hi (plen t0)) as [H|H]; [lia| |done]. exists (plen t0). split; [done|]. split; [done|by left]. }
  split.
  { intros t0 H0. destruct (decide (t0 < r)); [by apply GP|]. eapply passed_gpass, HP; lia. }
  intros t0 j0 n0 b Hs Hl Hcp.
  assert (K0 : kmsg s t0 j0 (length (ent s t0 j0) - 1) n0) by (apply lw_mg in Hl as [Hl _]; eexists; split; [exact Hl|done]). pose proof (g_lt s G _ _ _ _ K0) as Hj0.
  assert (Hg : known s w t0 j0 gone).
  { assert (Hnd : ldead s t0 j0 → False). { intros (z & Hz & Dz). assert (z = W (CMine n0) true b) as -> by congruence. done. }
    destruct (decide (t0 < r)) as [H0|H0]; [destruct (HF' t0 j0 H0 Hj0); tauto|]. destruct Hs as [Hs|[-> Hs]]; [|destruct (Hnd (HD' _ Hs))].
    destruct (HP t0) as [_ (k & Hk & D & E0)]; [lia..|]. destruct (decide (j0 < k)) as [H|H]; [destruct Hnd; eapply ldead_of, D, H|]. destruct E0 as [->|[E0 [Gk M]]]; [lia|].
    destruct (decide (j0 = k)) as [->|]; [done|]. exfalso. destruct (proj1 (g_path s G _ _ _ _ K0) k) as (z & Hz & Dz); [lia|].
    destruct Gk as (l & y & _ & Hy & Gy). rewrite (gone_lw _ _ _ _ Hy Gy) in Hz. injection Hz as <-. by eapply dead_gone. }
  destruct (v_gone s w Vw _ _ Hg) as (? & ? & ? & _). congruence.
Qed.
End Str.

(** ** Extension of the state and of views *)
Record pre s s' : Prop := {
  x_ent : ∀ t j, ent s t j `prefix_of` ent s' t j;
  x_log : log s `prefix_of` log s';
  x_root : length (root s) ≤ length (root s');
  x_cp : ∀ t j p, cp s t j = Some p → cp s' t j = Some p }.
Record vle w w' : Prop := {
  l_ve : ∀ t j, ve w t j ≤ ve w' t j; l_vm : ∀ t j, vm w t j ≤ vm w' t j; l_vx : ∀ t, vx w t = true → vx w' t = true; l_vr : vr w ≤ vr w'; l_vn : vn w ≤ vn w' }.
Lemma vle_refl w : vle w w.
Proof. split; try done; intros; lia. Qed.
Lemma vle_trans w1 w2 w3 : vle w1 w2 → vle w2 w3 → vle w1 w3.
Proof. intros [] []. split; intros; try (etransitivity; eauto; fail); eauto. Qed.
Lemma vle_l w w' : vle w (join w w').
Proof. split; simpl; intros; try lia. by apply orb_true_iff; left. Qed.
Lemma vle_r w w' : vle w' (join w w').
Proof. split; simpl; intros; try lia. by apply orb_true_iff; right. Qed.
Lemma pre_refl s : pre s s.
Proof. by split. Qed.
Lemma mg_pre s s' t j k x : pre s s' → mg s t j k x → mg s' t j k x.
Proof. intros P [u H]. exists u. eapply prefix_lookup; [exact H|apply P]. Qed.
Lemma kmsg_pre s s' t j k n : pre s s' → kmsg s t j k n → kmsg s' t j k n.
Proof. intros P (x & H & ?). exists x. split; [by eapply mg_pre|done]. Qed.
Lemma known_le s s' w w' t j P : pre s s' → vle w w' → known s w t j P → known s' w' t j P.
Proof. intros X L (k & x & Hk & Hx & Px). exists k, x. split; [pose proof (l_ve _ _ L t j); lia|]. split; [by eapply mg_pre|done]. Qed.
Lemma deadm_le s s' w w' t j : pre s s' → vle w w' → deadm s w t j → deadm s' w' t j.
Proof. intros X L [H H']. split; [by eapply known_le|]. pose proof (l_vm _ _ L t j). lia. Qed.
Lemma gonem_le s s' w w' t j : pre s s' → vle w w' → gonem s w t j → gonem s' w' t j.
Proof. intros X L [H H']. split; [by eapply known_le|]. pose proof (l_vm _ _ L t j). lia. Qed.
Lemma passed_le s s' w w' t : pre s s' → vle w w' → passed s w t → passed s' w' t.
Proof.
  intros X L [H (k & H1 & H2 & H3)]. split; [by eapply l_vx|]. exists k. split; [done|]. split; [intros; eapply deadm_le; eauto|]. destruct H3 as [|[? ?]]; [by left|right].
  split; [done|]. by eapply gonem_le.
Qed.
Lemma cover_le s s' w w' r r' t j k : pre s s' → vle w w' → r ≤ r' → cover s w r t j k → cover s' w' r' t j k.
Proof.
  intros X L Hr [H1 H2]. split; [intros; eapply passed_le; eauto; apply H1; lia|]. intros Hr'. destruct H2 as (H2 & H3 & H4); [lia|].
  pose proof (l_ve _ _ L t j). pose proof (l_vm _ _ L t j). split; [intros; eapply deadm_le; eauto|lia].
Qed.
Lemma Cursor_le s s' w w' a t j : pre s s' → vle w w' → Cursor s w a t j → Cursor s' w' a t j.
Proof.
  intros X L (r & H1 & H2 & H3 & H4 & H5 & H6 & H7). exists r. split; [done|]. split; [pose proof (l_vr _ _ L); lia|]. split; [intros; eapply known_le; eauto|].
  split; [intros; eapply passed_le; eauto|]. split; [intros; eapply deadm_le; eauto|]. split; [done|]. destruct H7 as [|(a' & ta & ja & ka & ? & ? & ?)]; [by left|right].
  exists a', ta, ja, ka. split; [done|]. split; [by eapply kmsg_pre|by eapply cover_le].
Qed.
Lemma VI_pre s s' w : pre s s' → VI s w → VI s' w.
Proof.
  intros X W. pose proof (vle_refl w). split.
  - intros t j. eapply Nat.lt_le_trans; [apply W|]. apply prefix_length, X.
  - eapply Nat.lt_le_trans; [apply W|apply X].
  - destruct (v_vn _ _ W) as [|(t & j & k & ? & ?)]; [by left|right]. exists t, j, k. split; [by eapply kmsg_pre|by eapply cover_le].
  - intros t j (k & x & Hk & Hx & Px). assert (K : known s w t j gone).
    { exists k, x. split; [done|]. split; [|done]. destruct (mg_ex s t j k) as [y Hy]; [pose proof (v_ve _ _ W t j); lia|].
      by rewrite (mg_fun _ _ _ _ _ _ Hx (mg_pre _ _ _ _ _ _ X Hy)). }
    destruct (v_gone _ _ W _ _ K) as (tc & jc & H1 & H2 & H3). exists tc, jc. split; [by apply X|]. split; [done|]. by eapply cover_le.
Qed.
Lemma VI_bot s : Str s → 0 < length (root s) → VI s bot.
Proof.
  intros G Hr. split; [intros; by apply len_pos|done|by left|]. intros t j (k & x & Hk & Hx & Px). simpl in Hk. assert (k = 0) as -> by lia.
  rewrite (mg_fun _ _ _ _ _ _ Hx (g_0 s G t j)) in Px. done.
Qed.
(** A view that knows nothing of an entry that one of two good views does not. *)
Lemma VI_union s w w' v : VI s w → VI s w' → vle w v → vle w' v → (∀ t j, ve v t j ≤ ve w t j ∨ ve v t j ≤ ve w' t j) → vr v < length (root s) → vn v = vn w ∨ vn v = vn w' → VI s v.
Proof.
  intros W W' L L' HE HR HN. pose proof (pre_refl s) as X. split.
  - intros t j. pose proof (v_ve _ _ W t j). pose proof (v_ve _ _ W' t j). destruct (HE t j); lia.
  - done.
  - destruct HN as [->| ->]; [destruct (v_vn _ _ W) as [|(t & j & k & ? & ?)]|destruct (v_vn _ _ W') as [|(t & j & k & ? & ?)]]; try (by left); right; exists t, j, k; (split; [done|]).
    + eapply cover_le; [exact X|exact L|apply L|done].
    + eapply cover_le; [exact X|exact L'|apply L'|done].
  - intros t j (k & x & Hk & Hx & Px). destruct (HE t j).
    + destruct (v_gone _ _ W t j) as (tc & jc & H1 & H2 & H3); [exists k, x; split; [lia|done]|]. exists tc, jc. split; [done|]. split; [by apply L|]. exact (cover_le _ _ _ _ _ _ _ _ _ X L (Nat.le_refl _) H3).
    + destruct (v_gone _ _ W' t j) as (tc & jc & H1 & H2 & H3); [exists k, x; split; [lia|done]|]. exists tc, jc. split; [done|]. split; [by apply L'|]. exact (cover_le _ _ _ _ _ _ _ _ _ X L' (Nat.le_refl _) H3).
Qed.
Lemma VI_join s w w' : VI s w → VI s w' → VI s (join w w').
Proof.
  intros W W'. eapply (VI_union s w w'); [done|done|apply vle_l|apply vle_r| | |]; simpl; [intros; lia| |lia]. pose proof (v_vr _ _ W). pose proof (v_vr _ _ W'). lia.
Qed.
(** Reading message [k] of a slot with its view. *)
Lemma VI_rd_e s w u t j k : VI s w → VI s u → k ≤ ve u t j → VI s (join (join w (at_e t j k)) u).
Proof.
  intros W W' Hk. eapply (VI_union s w u); [done|done|eapply vle_trans; [apply vle_l|apply vle_l]|apply vle_r| | |]; simpl.
  - intros t' j'. unfold one2. destruct (decide _) as [[-> ->]|]; lia.
  - pose proof (v_vr _ _ W). pose proof (v_vr _ _ W'). lia.
  - lia.
Qed.
Lemma VI_m s w t j k : VI s w → VI s (join w (at_m t j k)).
Proof. intros W. eapply (VI_union s w w); [done|done|apply vle_l|apply vle_l| | |]; simpl; [intros; lia| |lia]. pose proof (v_vr _ _ W). lia. Qed.
Lemma VI_x s w t : VI s w → VI s (join w (at_x t)).
Proof. intros W. eapply (VI_union s w w); [done|done|apply vle_l|apply vle_l| | |]; simpl; [intros; lia| |lia]. pose proof (v_vr _ _ W). lia. Qed.
Lemma VI_r s w k : VI s w → k < length (root s) → VI s (join w (at_r k)).
Proof. intros W ?. eapply (VI_union s w w); [done|done|apply vle_l|apply vle_l| | |]; simpl; [intros; lia| |lia]. pose proof (v_vr _ _ W). lia. Qed.
Lemma VI_bj s w : VI s w → VI s (join w bot).
Proof. intros W. eapply (VI_union s w w); [done|done|apply vle_l|apply vle_l| | |]; simpl; [intros; lia| |lia]. pose proof (v_vr _ _ W). lia. Qed.
(** The thread learns of write [n]. *)
Lemma VI_nc s w n : VI s w → (n = 0 ∨ ∃ t j k, kmsg s t j k n ∧ cover s w (vr w) t j k) → VI s (join w (at_n n)).
Proof.
  intros W HN. pose proof (pre_refl s) as X. assert (L := vle_l w (at_n n)). split.
  - intros t' j'. simpl. pose proof (v_ve _ _ W t' j'). lia.
  - simpl. pose proof (v_vr _ _ W). lia.
  - simpl. destruct (decide (n ≤ vn w)).
    + replace (vn w `max` n) with (vn w) by lia. destruct (v_vn _ _ W) as [|(t' & j' & k' & ? & ?)]; [by left|right]. exists t', j', k'. split; [done|].
      eapply cover_le; [exact X|exact L| |eassumption]. lia.
    + replace (vn w `max` n) with n by lia. destruct HN as [|(t & j & k & K & C)]; [by left|right]. exists t, j, k. split; [done|]. eapply cover_le; [exact X|exact L| |exact C]. lia.
  - intros t' j' (k' & x & Hk' & Hx & Px). simpl in Hk'. destruct (v_gone _ _ W t' j') as (tc & jc & A1 & A2 & A3); [exists k', x; split; [lia|done]|].
    exists tc, jc. split; [done|]. split; [by apply L|]. exact (cover_le _ _ _ _ _ _ _ _ _ X L (Nat.le_refl _) A3).
Qed.
Lemma VI_n s w a t j k n : VI s w → Cursor s w a t j → kmsg s t j k n → k ≤ ve w t j → 0 < vm w t j → VI s (join w (at_n n)).
Proof.
  intros W (r & H1 & H2 & H3 & H4 & H5 & _) K Hk Hm. apply VI_nc; [done|]. right. exists t, j, k. split; [done|]. split; [intros; apply H4; lia|]. done.
Qed.
Lemma vn_known s w : VI s w → Str s → vn w < length (log s).
Proof.
  intros W G. destruct (v_vn _ _ W) as [->|(t & j & k & (x & Hm & Hn) & _)]; [eapply lookup_lt_Some, (g_log0 s G)|].
  destruct (g_log s G _ _ _ _ _ Hm Hn) as [_ H]. destruct (wc x); first [exact (lookup_lt_Some _ _ _ H)|destruct H as [v H]; exact (lookup_lt_Some _ _ _ H)].
Qed.

(** ** What other threads rely on *)
Record ext (E : nat → Prop) s s' : Prop := {
  x_pre : pre s s';
  x_own : ∀ t k i, own s t k = Some i → own s' t k = Some i;
  x_lk : ∀ i t k, ¬ E i → own s t k = Some i → (∀ x, lw s t k = Some x → copying x = true → lw s' t k = Some x) ∧ ((∀ x, lw s t k = Some x → copying x = false) → ∀ x, lw s' t k = Some x → copying x = false) ∧
           cp s' t k = cp s t k ∧ (k ∈ (don s' t).*1 → k ∈ (don s t).*1);
  x_since : ∀ i, ¬ E i → since s' i = since s i }.
Lemma wrote_pre s s' a d n : pre s s' → wrote s a d n → wrote s' a d n.
Proof.
  intros X (H & old & new & H1 & H2 & H3). split; [done|]. exists old, new. split; [eapply prefix_lookup; [done|apply X]|]. split; [eapply prefix_lookup; [done|apply X]|done].
Qed.
Lemma cpath_le s s' w w' t t' j' : pre s s' → vle w w' → cpath s w t t' j' → cpath s' w' t t' j'.
Proof.
  intros X L (H1 & H2 & H3). split; [done|]. split; [|intros; eapply deadm_le; eauto]. intros t0 ? ?. destruct (H2 t0) as [A B]; [done..|]. split; [by apply L|]. intros; eapply deadm_le; eauto.
Qed.
Lemma found_le s s' w w' a t j x : pre s s' → vle w w' → found s w a t j x → found s' w' a t j x.
Proof. intros X L ((k & Hk & Hx) & H1 & H2). split; [|done]. exists k. split; [pose proof (l_ve _ _ L t j); lia|by eapply mg_pre]. Qed.
Lemma PI_ext E s s' i w w' p : ext E s s' → ¬ E i → vle w w' → PI s i w p → PI s' i w' p.
Proof.
  intros [X XO XL XS] Hi L. specialize (XS i Hi).
  assert (HH : ∀ t k, holds s i t k → holds s' i t k ∧ (∀ x, lw s t k = Some x → copying x = true → lw s' t k = Some x) ∧ ((∀ x, lw s t k = Some x → copying x = false) → ∀ x, lw s' t k = Some x → copying x = false) ∧ cp s' t k = cp s t k).
  { intros t k (H1 & H2 & H3). destruct (XL i t k Hi H1) as (A & B & C & D). split; [|done]. split; [by apply XO|]. split; [done|]. tauto. }
  unfold PI. rewrite XS. pose proof (l_vm _ _ L) as LM. pose proof (l_vx _ _ L) as LX.
  destruct p; try done.
  - pose proof (l_vn _ _ L). lia.
  - by apply Cursor_le.
  - intros (H1 & H2 & H3 & H4). split; [done|]. split; [by eapply Cursor_le|]. split; [specialize (LM t j); lia|by eapply known_le].
  - intros (H1 & H2 & H3). split; [done|]. split; [by eapply Cursor_le|done].
  - intros (H1 & H2 & H3). split; [done|]. split; [by eapply Cursor_le|by eapply found_le].
  - intros (H1 & H2 & H3 & H4). split; [done|]. split; [by eapply Cursor_le|]. split; [specialize (LM t j); lia|by eapply found_le].
  - intros (H1 & H2 & H3 & H4 & H5). split; [done|]. split; [by eapply Cursor_le|]. split; [specialize (LM t j); lia|]. split; [done|by eapply known_le].
  - intros (H1 & H2 & H3 & (k & H4 & H4') & H5). split; [done|]. split; [by eapply Cursor_le|]. split; [by eapply wrote_pre|]. split; [exists k; split; [pose proof (l_ve _ _ L t j); lia|by eapply kmsg_pre]|].
    destruct H5 as [[? ?]|[? ?]]; [left|right]; (split; [done|by eapply known_le]).
  - intros (H1 & H2 & H3). split; [done|]. split; [by eapply Cursor_le|]. specialize (LM t j); lia.
  - intros (k & H1 & H2). exists k. split; [by eapply Cursor_le|]. destruct H2 as [|[? ?]]; [by left|right]. split; [done|by eapply gonem_le].
  - intros (H1 & H2 & H3 & H4). destruct (HH _ _ H1) as (A & B & C & D). split; [done|]. split; [done|]. split; [by apply LX|]. by apply C.
  - intros (H1 & H2 & H3). destruct (HH _ _ H1) as (A & B & C & D). split; [done|]. split; [done|by eapply known_le].
  - intros (H1 & H2 & H3 & H4 & H5 & H6 & H7). destruct (HH _ _ H1) as (A & B & C & D). rewrite D. repeat (split; [first [done|by apply LX|by apply B]|]). split; [by eapply cpath_le|done].
  - intros (H1 & H2 & H3 & H4 & H5 & H6 & H7). destruct (HH _ _ H1) as (A & B & C & D). rewrite D. repeat (split; [first [done|by apply LX|by apply B]|]). split; [by eapply cpath_le|done].
  - intros (H1 & H2 & H3 & H4 & H5 & H6 & H7 & H8 & H9). destruct (HH _ _ H1) as (A & B & C & D). rewrite D. repeat (split; [first [done|by apply LX|by apply B]|]). split; [by eapply cpath_le|]. split; [done|].
    split; [by eapply known_le|done].
  - intros (H1 & H2 & H3 & H4 & H5 & H6 & H7 & H8 & H9). destruct (HH _ _ H1) as (A & B & C & D). rewrite D. repeat (split; [first [done|by apply LX|by apply B]|]). split; [by eapply cpath_le|]. split; [done|].
    split; [pose proof (l_ve _ _ L t' j'); lia|by eapply known_le].
  - intros (H1 & H2 & H3 & H4 & t' & j' & H5 & H6). destruct (HH _ _ H1) as (A & B & C & D). rewrite D. repeat (split; [first [done|by apply LX|by apply B]|]). exists t', j'. split; [done|].
    by eapply cover_le.
  - intros (H1 & H2). destruct (HH _ _ H1) as (A & B & C & D). split; [done|]. intros. eapply known_le; eauto.
  - intros H j Hj. eapply known_le; eauto.
Qed.
Lemma hist_pre s s' tr : pre s s' → hist_ok s tr → hist_ok s' tr.
Proof.
  intros X. induction tr as [|[i q|i q n r|i d n|i j] tr IH]; simpl; [done|done| | |done].
  - intros [(H1 & H2 & H3) H]. split; [|by apply IH]. split; [done|]. split; [|done]. eapply prefix_lookup; [done|apply X].
  - intros [H1 H]. split; [by eapply wrote_pre|by apply IH].
Qed.
Lemma Str_eq s s' : ent s' = ent s → log s' = log s → cp s' = cp s → own s' = own s → Str s → Str s'.
Proof.
  destruct s, s'; simpl; intros -> -> -> -> [H1 H2 H3 H4 H5 H6 H7 H8 H9 H10 H11]. split;
    [exact H1|exact H2|exact H3|exact H4|exact H5|exact H6|exact H7|exact H8|exact H9|exact H10|exact H11].
Qed.

(** ** A new message of a slot *)
Section Add.
Context (s s' : wst) (G : Str s) (t j : nat) (y x : word) (u : view).
Context (EE : ent s' = fset2 (ent s) t j (ent s t j ++ [(x, u)])) (EO : own s' = own s) (Ly : lw s t j = Some y) (T : tr y x).
Notation len := (length (ent s t j)).
Lemma ent_at : ent s' t j = ent s t j ++ [(x, u)].
Proof. rewrite EE. unfold fset2. rewrite decide_True; done. Qed.
Lemma ent_ne t0 j0 : ¬ (t0 = t ∧ j0 = j) → ent s' t0 j0 = ent s t0 j0.
Proof. intros H. rewrite EE. unfold fset2. by rewrite decide_False. Qed.
Lemma pre_add : log s `prefix_of` log s' → length (root s) ≤ length (root s') → (∀ t j p, cp s t j = Some p → cp s' t j = Some p) → pre s s'.
Proof.
  intros ? ? ?. split; [|done..]. intros t0 j0. destruct (decide (t0 = t ∧ j0 = j)) as [[-> ->]|Hne]; [|by rewrite ent_ne]. rewrite ent_at. by eexists.
Qed.
Lemma mg_add t0 j0 k z : mg s' t0 j0 k z → mg s t0 j0 k z ∨ (t0 = t ∧ j0 = j ∧ k = len ∧ z = x).
Proof.
  unfold mg. destruct (decide (t0 = t ∧ j0 = j)) as [[-> ->]|H]; [|rewrite ent_ne; [by left|done]]. rewrite ent_at. intros [u' H].
  apply lookup_app_Some in H as [H|[H1 H2]]; [left; by exists u'|]. apply list_lookup_singleton_Some in H2 as [H2 [= -> ->]]. right. split; [done|]. split; [done|]. split; [lia|done].
Qed.
Lemma mg_new : mg s' t j len x.
Proof. exists u. rewrite ent_at, lookup_app_r, Nat.sub_diag; done. Qed.
Lemma mg_old t0 j0 k z : mg s t0 j0 k z → mg s' t0 j0 k z.
Proof.
  intros [u' H]. exists u'. destruct (decide (t0 = t ∧ j0 = j)) as [[-> ->]|Hn]; [|by rewrite ent_ne]. rewrite ent_at. by apply lookup_app_l_Some.
Qed.
Lemma lw_new : lw s' t j = Some x.
Proof. unfold lw. by rewrite ent_at, last_snoc. Qed.
Lemma lw_ne t0 j0 : ¬ (t0 = t ∧ j0 = j) → lw s' t0 j0 = lw s t0 j0.
Proof. intros. unfold lw. by rewrite ent_ne. Qed.
Lemma mg_y : mg s t j (len - 1) y ∧ 0 < len.
Proof. by apply lw_mg. Qed.
Lemma ldead_add t0 j0 : ldead s t0 j0 → ldead s' t0 j0.
Proof.
  intros (z & Hz & D). destruct (decide (t0 = t ∧ j0 = j)) as [[-> ->]|Hn]; [|exists z; by rewrite lw_ne]. exists x. split; [apply lw_new|]. assert (z = y) as -> by congruence. by eapply tr_dead.
Qed.
Lemma gpass_add t0 : gpass s t0 → gpass s' t0.
Proof.
  intros (k & H1 & H2 & H3). exists k. split; [done|]. split; [intros; by apply ldead_add, H2|]. destruct H3 as [|[? (z & Hz & M)]]; [by left|right]. split; [done|].
  destruct (decide (t0 = t ∧ k = j)) as [[-> ->]|Hn]; [|exists z; by rewrite lw_ne]. exists x. split; [apply lw_new|]. assert (z = y) as -> by congruence. by eapply tr_mcop.
Qed.
Lemma tr_add t0 j0 k a b : mg s' t0 j0 k a → mg s' t0 j0 (S k) b → tr a b.
Proof.
  intros Ha Hb. apply mg_add in Hb as [Hb|(-> & -> & E & ->)].
  - apply mg_add in Ha as [Ha|(-> & -> & -> & ->)]; [by eapply (g_tr s G)|]. apply mg_lt in Hb. lia.
  - apply mg_add in Ha as [Ha|(_ & _ & E' & _)]; [|lia]. assert (k = len - 1) as -> by lia. by rewrite (mg_fun _ _ _ _ _ _ Ha (proj1 mg_y)).
Qed.
Lemma cpn_add : (∀ t0 j0, cp s' t0 j0 = cp s t0 j0 ∨ (∃ z, lw s t0 j0 = Some z ∧ copying z = true)) → ∀ t0 j0 z, lw s' t0 j0 = Some z → copying z = false → cp s' t0 j0 = None.
Proof.
  intros HC t0 j0 z Hz Cz. assert (∃ z', lw s t0 j0 = Some z' ∧ copying z' = false) as (z' & Hz' & Cz').
  { destruct (decide (t0 = t ∧ j0 = j)) as [[-> ->]|Hn]; [|exists z; by rewrite <- lw_ne]. rewrite lw_new in Hz. injection Hz as <-. exists y. split; [done|].
    destruct (copying y) eqn:Cy; [|done]. rewrite (tr_copying _ _ T Cy) in Cz. done. }
  destruct (HC t0 j0) as [->|(z2 & Hz2 & ?)]; [by eapply (g_cpn s G)|]. congruence.
Qed.
Lemma own_add : (copying x = true → own s t j ≠ None) → ∀ t0 j0, own s' t0 j0 = None → ∀ z, lw s' t0 j0 = Some z → copying z = false.
Proof.
  intros HO t0 j0. rewrite EO. intros H z. destruct (decide (t0 = t ∧ j0 = j)) as [[-> ->]|Hn]; [|rewrite lw_ne; [by apply (g_own s G)|done]]. rewrite lw_new. intros [= <-].
  destruct (copying x); [|done]. by destruct HO.
Qed.

(** Marks and words of other keys. *)
Lemma Str_mark : log s' = log s → cp s' = cp s → (kidx x = None ∨ wc x = wc y) → (copying x = true → own s t j ≠ None) →
  (∀ n, y = W (CMine n) true false → cp s t j ≠ None) → j < plen t → Str s'.
Proof.
  intros EL EC HK HO HM Hj. destruct mg_y as [My Lp].
  assert (KA : ∀ t0 j0 k n, kmsg s' t0 j0 k n → ∃ k0, kmsg s t0 j0 k0 n ∧ (k0 = k ∨ t0 = t ∧ j0 = j ∧ k = len ∧ k0 = len - 1)).
  { intros t0 j0 k n (z & Hz & Hn). apply mg_add in Hz as [Hz|(-> & -> & -> & ->)]; [exists k; split; [by exists z|by left]|].
    exists (len - 1). split; [|by right]. exists y. split; [done|]. destruct HK as [HK|HK]; [congruence|]. unfold kidx in *. by rewrite <- HK. }
  split.
  - apply tr_add.
  - intros. apply mg_old, G.
  - intros t0 j0 k n K. apply KA in K as (k0 & K & _). by eapply (g_lt s G).
  - intros t0 j0 k n t1 j1 k1 n1 K K1 HL. assert (K' := K). assert (K1' := K1). apply KA in K as (k0 & K & HK0). apply KA in K1 as (k2 & K1 & HK1).
    eapply (g_mono s G); [exact K|exact K1|]. destruct HL as [HL|(-> & -> & HL)]; [by left|]. right. split; [done|]. split; [done|].
    destruct K as (z & Hz & _). destruct K1 as (z1 & Hz1 & _). apply mg_lt in Hz. apply mg_lt in Hz1.
    destruct HK0 as [->|(-> & -> & -> & ->)], HK1 as [->|(E1 & E2 & -> & ->)]; subst; lia.
  - intros t0 j0 k z n Hz Hn. rewrite EL. apply mg_add in Hz as [Hz|(-> & -> & -> & ->)]; [by eapply (g_log s G)|].
    destruct HK as [HK|HK]; [congruence|]. rewrite HK. apply (g_log s G _ _ _ y n My). unfold kidx in *. by rewrite <- HK.
  - rewrite EL. apply G.
  - intros n H1 H2. rewrite EL in H2. destruct (g_last s G n H1 H2) as (t0 & j0 & k & z & Hz & Hn). exists t0, j0, k, z. split; [by apply mg_old|done].
  - intros t0 j0 k n K. apply KA in K as (k0 & K & _). destruct (g_path s G _ _ _ _ K) as [P1 P2]. split; intros; [by apply ldead_add, P1|by apply gpass_add, P2].
  - intros t0 j0 n b Hl. rewrite EC. destruct (decide (t0 = t ∧ j0 = j)) as [[-> ->]|Hn].
    + rewrite lw_new in Hl. pose proof T as T'. replace x with (W (CMine n) true b) in T' by congruence. destruct (tr_mark _ _ _ T') as [[Ey ->]|[Ey ->]].
      * assert (Ly' := Ly). rewrite Ey in Ly'. rewrite (g_cpn s G _ _ _ Ly' eq_refl). split; [done|]. intros t' j' k' n' K' Hs. apply KA in K' as (k0 & K' & _).
        refine (nothing_after s G t j _ _ _ _ _ Hj Ly' _ _ _ K' Hs); [by intros ?|by intros ?|].
        refine (proj1 (g_path s G t j (len - 1) n _)). exists y. split; [done|by rewrite Ey].
      * assert (Ly' := Ly). rewrite Ey in Ly'. pose proof (g_cp s G _ _ _ _ Ly') as Hc. specialize (HM n Ey). destruct (cp s t j) as [[tc jc]|]; [|done]. destruct Hc as [? K]. split; [done|].
        destruct K as (z & Hz & ?). exists z. split; [by apply mg_old|done].
    + rewrite lw_ne in Hl by done. pose proof (g_cp s G _ _ _ _ Hl) as Hc. destruct (cp s t0 j0) as [[tc jc]|].
      * destruct Hc as [? (z & Hz & ?)]. split; [done|]. exists z. split; [by apply mg_old|done].
      * destruct Hc as [? Hc]. split; [done|]. intros t' j' k' n' K'. apply KA in K' as (k0 & K' & _). by eapply Hc.
  - apply cpn_add. intros. left. by rewrite EC.
  - by apply own_add.
Qed.

(** A new write of the key. *)
Lemma Str_write o : log s' = log s ++ [o] → cp s' = cp s → kidx x = Some (length (log s)) → copying x = false → j < plen t → match wc x with CTomb _ => o = None | _ => is_Some o end →
  (∀ t' j' k n', kmsg s t' j' k n' → ¬ slt t j t' j') → (∀ j0, j0 < j → ldead s t j0) → (∀ t0, t0 < t → gpass s t0) →
  (∀ t0 j0 n0 b, slt t0 j0 t j → lw s t0 j0 = Some (W (CMine n0) true b) → cp s t0 j0 ≠ None) → Str s'.
Proof.
  intros EL EC HK Cx Hj Ho NA HD HP HC. destruct mg_y as [My Lp]. assert (L1 : 1 ≤ length (log s)) by (pose proof (lookup_lt_Some _ _ _ (g_log0 s G)); lia).
  assert (KA : ∀ t0 j0 k n, kmsg s' t0 j0 k n → kmsg s t0 j0 k n ∨ (t0 = t ∧ j0 = j ∧ k = len ∧ n = length (log s))).
  { intros t0 j0 k n (z & Hz & Hn). apply mg_add in Hz as [Hz|(-> & -> & -> & ->)]; [left; by exists z|]. right. rewrite HK in Hn. by injection Hn as <-. }
  assert (KL : ∀ t0 j0 k n, kmsg s t0 j0 k n → n < length (log s)).
  { intros t0 j0 k n (z & Hz & Hn). destruct (g_log s G _ _ _ _ _ Hz Hn) as [_ H]. destruct (wc z); first [exact (lookup_lt_Some _ _ _ H)|destruct H as [v H]; exact (lookup_lt_Some _ _ _ H)]. }
  split.
  - apply tr_add.
  - intros. apply mg_old, G.
  - intros t0 j0 k n K. apply KA in K as [K|(-> & -> & _)]; [by eapply (g_lt s G)|done].
  - intros t0 j0 k n t1 j1 k1 n1 K K1 HL. apply KA in K as [K|(-> & -> & -> & ->)], K1 as [K1|(-> & -> & -> & ->)]; [by eapply (g_mono s G)|apply KL in K; lia| |lia].
    exfalso. destruct HL as [HL|(<- & <- & HL)]; [by destruct (NA _ _ _ _ K1)|]. destruct K1 as (z & Hz & _). apply mg_lt in Hz. lia.
  - intros t0 j0 k z n Hz Hn. apply mg_add in Hz as [Hz|(-> & -> & -> & ->)].
    + destruct (g_log s G _ _ _ _ _ Hz Hn) as [H1 H2]. split; [done|]. rewrite EL. destruct (wc z); first [by apply lookup_app_l_Some|destruct H2 as [v H2]; exists v; by apply lookup_app_l_Some].
    + rewrite HK in Hn. injection Hn as <-. split; [done|]. rewrite EL, lookup_app_r, Nat.sub_diag by lia. simpl. destruct (wc x); first [by rewrite Ho|destruct Ho as [v ->]; by exists v].
  - rewrite EL. apply lookup_app_l_Some, G.
  - intros n H1 H2. rewrite EL, app_length in H2. simpl in H2. destruct (decide (n = length (log s))) as [->|].
    + exists t, j, len, x. split; [apply mg_new|done].
    + destruct (g_last s G n H1) as (t0 & j0 & k & z & Hz & Hn); [lia|]. exists t0, j0, k, z. split; [by apply mg_old|done].
  - intros t0 j0 k n K. apply KA in K as [K|(-> & -> & _)].
    + destruct (g_path s G _ _ _ _ K) as [P1 P2]. split; intros; [by apply ldead_add, P1|by apply gpass_add, P2].
    + split; intros; [by apply ldead_add, HD|by apply gpass_add, HP].
  - intros t0 j0 n b Hl. rewrite EC. destruct (decide (t0 = t ∧ j0 = j)) as [[-> ->]|Hn].
    + rewrite lw_new in Hl. injection Hl as Ex. rewrite Ex in Cx. done.
    + rewrite lw_ne in Hl by done. pose proof (g_cp s G _ _ _ _ Hl) as Hc. destruct (cp s t0 j0) as [[tc jc]|] eqn:Ec.
      * destruct Hc as [? (z & Hz & ?)]. split; [done|]. exists z. split; [by apply mg_old|done].
      * destruct Hc as [? Hc]. split; [done|]. intros t' j' k' n' K'. apply KA in K' as [K'|(-> & -> & _)]; [by eapply Hc|]. intros Hs. by destruct (HC _ _ _ _ Hs Hl).
  - apply cpn_add. intros. left. by rewrite EC.
  - apply own_add. congruence.
Qed.

(** A copy of entry [n] of slot [js] of table [ts]. *)
Lemma Str_copy ts js n : log s' = log s → cp s' = fset2 (cp s) ts js (Some (t, j)) → y = NULL → x = W (CMine n) false false → lw s ts js = Some (W (CMine n) true false) → cp s ts js = None →
  ts < t → j < plen t → (∀ j0, j0 < j → ldead s t j0) → (∀ t0, ts < t0 → t0 < t → gpass s t0) → Str s'.
Proof.
  intros EL EC Ey Ex Hs Hcp Hlt Hj HD HP. destruct mg_y as [My Lp].
  assert (Ms : mg s ts js (length (ent s ts js) - 1) (W (CMine n) true false)) by (by apply lw_mg in Hs as [Hs _]).
  assert (Ks : kmsg s ts js (length (ent s ts js) - 1) n) by (by eexists).
  pose proof (g_cp s G _ _ _ _ Hs) as Hc. rewrite Hcp in Hc. destruct Hc as [_ NA].
  assert (HM : ∀ t0 j0 k n0, kmsg s t0 j0 k n0 → n0 ≤ n).
  { intros t0 j0 k n0 K. eapply (g_mono s G); [exact K|exact Ks|]. destruct (slt_tri ts js t0 j0) as [H|[[-> ->]|H]]; [by destruct (NA _ _ _ _ K)| |by left].
    right. split; [done|]. split; [done|]. destruct K as (z & Hz & _). apply mg_lt in Hz. lia. }
  assert (NA' : ∀ t0 j0 k n0, kmsg s t0 j0 k n0 → t0 < t). { intros t0 j0 k n0 K. pose proof (NA _ _ _ _ K) as H. unfold slt in H. lia. }
  assert (KA : ∀ t0 j0 k n0, kmsg s' t0 j0 k n0 → kmsg s t0 j0 k n0 ∨ (t0 = t ∧ j0 = j ∧ k = len ∧ n0 = n)).
  { intros t0 j0 k n0 (z & Hz & Hn). apply mg_add in Hz as [Hz|(-> & -> & -> & ->)]; [left; by exists z|]. right. rewrite Ex in Hn. by injection Hn as <-. }
  assert (Hne : ¬ (ts = t ∧ js = j)) by lia.
  split.
  - apply tr_add.
  - intros. apply mg_old, G.
  - intros t0 j0 k n0 K. apply KA in K as [K|(-> & -> & _)]; [by eapply (g_lt s G)|done].
  - intros t0 j0 k n0 t1 j1 k1 n1 K K1 HL. apply KA in K as [K|(-> & -> & -> & ->)], K1 as [K1|(-> & -> & -> & ->)]; [by eapply (g_mono s G)|by eapply HM| |done].
    exfalso. apply NA' in K1. unfold slt in HL. lia.
  - intros t0 j0 k z n0 Hz Hn. rewrite EL. apply mg_add in Hz as [Hz|(-> & -> & -> & ->)]; [by eapply (g_log s G)|]. rewrite Ex in Hn |- *. simpl. injection Hn as <-.
    exact (g_log s G _ _ _ _ _ Ms eq_refl).
  - rewrite EL. apply G.
  - intros n0 H1 H2. rewrite EL in H2. destruct (g_last s G n0 H1 H2) as (t0 & j0 & k & z & Hz & Hn). exists t0, j0, k, z. split; [by apply mg_old|done].
  - intros t0 j0 k n0 K. apply KA in K as [K|(-> & -> & _)].
    + destruct (g_path s G _ _ _ _ K) as [P1 P2]. split; intros; [by apply ldead_add, P1|by apply gpass_add, P2].
    + destruct (g_path s G _ _ _ _ Ks) as [P1 P2]. split; intros; [by apply ldead_add, HD|]. apply gpass_add. destruct (decide (t0 < ts)); [by apply P2|].
      destruct (decide (t0 = ts)) as [->|]; [|apply HP; lia]. pose proof (g_lt s G _ _ _ _ Ks). exists js. split; [lia|]. split; [done|]. right. split; [done|]. by eexists.
  - intros t0 j0 n0 b Hl. rewrite EC. unfold fset2. destruct (decide (t0 = t ∧ j0 = j)) as [[-> ->]|Hn].
    { rewrite lw_new, Ex in Hl. done. }
    rewrite lw_ne in Hl by done. destruct (decide (t0 = ts ∧ j0 = js)) as [[-> ->]|Hn'].
    + split; [done|]. exists x. assert (n0 = n) as -> by congruence. split; [|by rewrite Ex]. rewrite <- (null_lw s G t j); [apply mg_new|congruence].
    + pose proof (g_cp s G _ _ _ _ Hl) as Hc. destruct (cp s t0 j0) as [[tc jc]|] eqn:Ec.
      * destruct Hc as [? (z & Hz & ?)]. split; [done|]. exists z. split; [by apply mg_old|done].
      * exfalso. destruct Hc as [_ Hc]. apply Hc in Ks as H1. assert (K0 : kmsg s t0 j0 (length (ent s t0 j0) - 1) n0) by (apply lw_mg in Hl as [Hl _]; by eexists).
        apply NA in K0. unfold slt in H1, K0. lia.
  - apply cpn_add. intros t0 j0. rewrite EC. unfold fset2. destruct (decide (t0 = ts ∧ j0 = js)) as [[-> ->]|]; [right; eexists; split; [exact Hs|done]|by left].
  - apply own_add. by rewrite Ex.
Qed.

(** The view of the thread that wrote the message. *)
Lemma VI_new w : VI s w → pre s s' → (gone x → ∃ tc jc, cp s t j = Some (tc, jc) ∧ vx w t = true ∧ cover s w (S t) tc jc 1) → VI s' (join w (at_e t j len)).
Proof.
  intros W X HG. assert (L := vle_l w (at_e t j len)). split.
  - intros t0 j0. simpl. unfold one2. pose proof (v_ve _ _ W t0 j0). destruct (decide _) as [[-> ->]|]; [rewrite ent_at, app_length; simpl; lia|].
    pose proof (prefix_length _ _ (x_ent _ _ X t0 j0)). lia.
  - simpl. pose proof (v_vr _ _ W). pose proof (x_root _ _ X). lia.
  - simpl. rewrite !Nat.max_0_r. destruct (v_vn _ _ W) as [|(t0 & j0 & k & K & C)]; [by left|right]. exists t0, j0, k. split; [by eapply kmsg_pre|].
    exact (cover_le _ _ _ _ _ _ _ _ _ X L (Nat.le_refl _) C).
  - assert (HS : ∀ t0 j0, (∃ tc jc, cp s t0 j0 = Some (tc, jc) ∧ vx w t0 = true ∧ cover s w (S t0) tc jc 1) →
      ∃ tc jc, cp s' t0 j0 = Some (tc, jc) ∧ vx (join w (at_e t j len)) t0 = true ∧ cover s' (join w (at_e t j len)) (S t0) tc jc 1).
    { intros t0 j0 (tc & jc & H1 & H2 & H3). exists tc, jc. split; [by apply X|]. split; [by apply L|]. exact (cover_le _ _ _ _ _ _ _ _ _ X L (Nat.le_refl _) H3). }
    intros t0 j0 (k & z & Hk & Hz & Gz). apply HS. apply mg_add in Hz as [Hz|(-> & -> & -> & ->)]; [|by apply HG].
    apply (v_gone _ _ W). exists k, z. split; [|done]. simpl in Hk. unfold one2 in Hk. destruct (decide _) as [[-> ->]|]; [|lia]. exfalso.
    pose proof (gone_lw s G _ _ _ _ Hz Gz) as Hl. assert (z = y) as -> by congruence. by eapply tr_gone.
Qed.
Lemma ext_add (E : nat → Prop) : pre s s' → don s' = don s → (∀ i, ¬ E i → since s' i = since s i) → (∀ t0 k0 i, ¬ E i → own s t0 k0 = Some i → cp s' t0 k0 = cp s t0 k0) →
  (∀ i, ¬ E i → own s t j = Some i → copying y = false ∧ copying x = false) → ext E s s'.
Proof.
  intros X ED HS HC HO. split; [done|by rewrite EO| |done]. intros i t0 k0 Hi Ho. rewrite ED. split; [|split; [|split; [by eapply HC|done]]].
  - intros z Hz Cz. destruct (decide (t0 = t ∧ k0 = j)) as [[-> ->]|Hn]; [|by rewrite lw_ne]. destruct (HO _ Hi Ho) as [Cy _]. congruence.
  - intros Hz z Hz'. destruct (decide (t0 = t ∧ k0 = j)) as [[-> ->]|Hn]; [|rewrite lw_ne in Hz' by done; by apply Hz]. rewrite lw_new in Hz'. injection Hz' as <-. by destruct (HO _ Hi Ho).
Qed.
End Add.

Lemma Msg_ext s s' : Msg s → pre s s' → (∀ t k, own s t k ≠ None → own s' t k ≠ None) → don s' = don s →
  (∀ t j k x u, ent s' t j !! k = Some (x, u) → ent s t j !! k = Some (x, u) ∨ (VI s' u ∧ k ≤ ve u t j)) →
  (∀ t j k a u, met s' t j k = Some (a, u) → met s t j k = Some (a, u) ∨ (VI s' u ∧ k ≠ 0 ∧ (a = MH2 ∧ known s' u t j nonnull ∨ (a = MOther ∨ a = MTomb ∨ a = MH2) ∧ known s' u t j dead))) →
  (∀ t u, nxt s' t = Some u → nxt s t = Some u ∨ VI s' u) →
  (∀ k u, root s' !! k = Some u → root s !! k = Some u ∨ (VI s' u ∧ ∀ t j, t < k → j < plen t → known s' u t j fin)) → Msg s'.
Proof.
  intros [M1 M2 M3 M4 M5 M6 M7] X XO XD H1 H2 H3 H4. assert (KL := λ u t j P, known_le s s' u u t j P X (vle_refl u)). split.
  - intros t j k x u H. destruct (H1 _ _ _ _ _ H) as [H'|]; [|done]. destruct (M1 _ _ _ _ _ H'). split; [by eapply VI_pre|done].
  - intros t j k a u H. destruct (H2 _ _ _ _ _ H) as [H'|(A & B & C)].
    + destruct (M2 _ _ _ _ _ H') as (A & B & C & D & F). split; [by eapply VI_pre|]. split; [done|]. split; [done|]. split; intros; [by apply KL, D|by apply KL, F].
    + split; [done|]. destruct C as [[-> C]|[C K]]; [split; [done|]; split; [done|]; split; [done|]; by intros [?|?]|].
      split; [destruct C as [->|[->| ->]]; done|]. split; [destruct C as [->|[->| ->]]; done|]. split; [|done]. intros _. destruct K as (k0 & y & ? & ? & D). exists k0, y. split; [done|]. split; [done|].
      intros ->. done.
  - intros t u H. destruct (H3 _ _ H) as [H'|]; [|done]. by eapply VI_pre, M3.
  - intros k u H. destruct (H4 _ _ H) as [H'|]; [|done]. destruct (M4 _ _ H') as [A B]. split; [by eapply VI_pre|]. intros; by apply KL, B.
  - intros t l k u. rewrite XD. intros H. destruct (M5 _ _ _ _ H) as [A B]. split; [by eapply VI_pre|]. intros; eapply KL, B; eauto.
  - intros. rewrite XD. apply M6.
  - intros t k. rewrite XD. intros H. destruct (M7 _ _ H). split; [done|by apply XO].
Qed.
Lemma inv_step i s s' : Inv s → ext (λ i', i' = i) s s' → Str s' → Msg s' → (∀ i', i' ≠ i → vw s' i' = vw s i' ∧ pc s' i' = pc s i') → VI s' (vw s' i) → PI s' i (vw s' i) (pc s' i) →
  hist_ok s' (hist s') → (∀ i', list_max (kn (hist s') i') ≤ vn (vw s' i')) → Inv s'.
Proof.
  intros I X G M HO W P HH HN. split; [done|done| | |done|done].
  - intros i'. destruct (decide (i' = i)) as [->|Hn]; [done|]. destruct (HO i' Hn) as [-> _]. eapply VI_pre; [apply X|apply I].
  - intros i'. destruct (decide (i' = i)) as [->|Hn]; [done|]. destruct (HO i' Hn) as [-> ->]. eapply PI_ext; [exact X|done|apply vle_refl|apply I].
Qed.
End Inv.
