(** C59: what a thread that has learned of a promotion knows. *)
From stdpp Require Import base sets list option numbers.
From Verif Require Import WeakBlk WeakBlkProof.
Local Open Scope nat_scope.

Section V.
Local Arguments wrv : simpl never.
Local Arguments rdv : simpl never.
Context (tot : nat → nat).
Implicit Types (s : wst) (w u : view).
Notation G := (G tot).

(** ** Entry words *)
Record E s : Prop := MkE {
  e_first : ∀ t k, ent s t k !! 0 = Some (W CNull false, bot);
  e_frz : ∀ t k j j' c x u u', ent s t k !! j = Some (W c true, u) → ent s t k !! j' = Some (x, u') → j ≤ j' → x = W c true;
  e_nn : ∀ t k j j' x x' u u', ent s t k !! j = Some (x, u) → ent s t k !! j' = Some (x', u') → j ≤ j' → wc x ≠ CNull → wc x' ≠ CNull }.
Lemma E_same s s' : E s → ent s' = ent s → E s'.
Proof. intros H A. split; rewrite A; apply H. Qed.
Lemma E_add s s' t k x0 u0 x u : E s → list.last (ent s t k) = Some (x0, u0) → ent s' = fset2 (ent s) t k (ent s t k ++ [(x, u)]) →
  (wm x0 = true → x = x0) → (wc x0 ≠ CNull → wc x ≠ CNull) → E s'.
Proof.
  intros H L A M N. pose proof L as L0. rewrite last_lookup in L. set (z := Nat.pred (length (ent s t k))) in L. assert (length (ent s t k) = S z) as Lz by (apply lookup_lt_Some in L; unfold z in *; lia).
  assert (LK : ∀ t1 k1 j x1 u1, ent s' t1 k1 !! j = Some (x1, u1) → ent s t1 k1 !! j = Some (x1, u1) ∨ (t1 = t ∧ k1 = k ∧ j = S z ∧ x1 = x)).
  { intros t1 k1 j x1 u1. rewrite A. unfold fset2. destruct (decide (t1 = t ∧ k1 = k)) as [[-> ->]|]; [|by left]. intros [B|[B1 B2]]%lookup_app_Some; [by left|]. right.
    apply list_lookup_singleton_Some in B2 as [B2 B3]. rewrite Lz in *. split; [done|]. split; [done|]. split; [lia|congruence]. }
  assert (UP : ∀ j x1 u1, ent s t k !! j = Some (x1, u1) → j ≤ z) by (intros j x1 u1 B; apply lookup_lt_Some in B; lia).
  split.
  - intros t1 k1. rewrite A. unfold fset2. destruct (decide (t1 = t ∧ k1 = k)) as [[-> ->]|]; [|apply H]. apply lookup_app_l_Some, H.
  - intros t1 k1 j j' c y u1 u1' B1 B2 Lj. destruct (LK _ _ _ _ _ B1) as [C1|(-> & -> & -> & C1)], (LK _ _ _ _ _ B2) as [C2|(D1 & D2 & D3 & C2)].
    + by eapply (e_frz _ H).
    + subst. pose proof (e_frz _ H _ _ _ _ _ _ _ _ C1 L (UP _ _ _ C1)) as ->. by rewrite M.
    + apply UP in C2. lia.
    + by subst.
  - intros t1 k1 j j' y y' u1 u1' B1 B2 Lj. destruct (LK _ _ _ _ _ B1) as [C1|(-> & -> & -> & C1)], (LK _ _ _ _ _ B2) as [C2|(D1 & D2 & D3 & C2)].
    + by eapply (e_nn _ H).
    + subst. intros Ny. apply N. by eapply (e_nn _ H _ _ _ _ _ _ _ _ C1 L (UP _ _ _ C1)).
    + apply UP in C2. lia.
    + by subst.
Qed.
Theorem E_pres s s' : E s → wstep tot s s' → E s'.
Proof.
  intros H St. inversion St; subst; clear St; try (by eapply E_same; [exact H|]).
  - cbv zeta. destruct (wc x); (eapply E_same; [exact H|done]).
  - eapply (E_add s); [done|done|reflexivity|done|done].
  - eapply (E_add s); [done|done|reflexivity|..]; destruct b; cbn; intros; congruence.
  - eapply (E_add s); [done|done|reflexivity|done|done].
Qed.

(** ** Views *)
Record vle w w' : Prop := MkVle { vle_e : ∀ t k, ve w t k ≤ ve w' t k; vle_m : ∀ t k, vm w t k ≤ vm w' t k; vle_r : vr w ≤ vr w'; vle_k : ∀ e, vk w e = true → vk w' e = true }.
Lemma vle_refl w : vle w w. Proof. split; done. Qed.
Lemma vle_trans w1 w2 w3 : vle w1 w2 → vle w2 w3 → vle w1 w3.
Proof. intros A B. split; intros; try (etrans; [apply A|apply B]). by apply B, A. Qed.
Lemma vle_jl w u : vle w (join w u). Proof. split; intros; cbn; try lia. apply orb_true_iff. by left. Qed.
Lemma vle_jr w u : vle u (join w u). Proof. split; intros; cbn; try lia. apply orb_true_iff. by right. Qed.
Lemma vle_rd o w x u : vle w (rdv o w x u).
Proof. unfold rdv. eapply vle_trans; [apply vle_jl|apply vle_jl]. Qed.
Lemma vle_rdx o w x u : vle x (rdv o w x u).
Proof. unfold rdv. eapply vle_trans; [apply vle_jr|apply vle_jl]. Qed.
Lemma vle_rdu o w x u : is_acq o = true → vle u (rdv o w x u).
Proof. unfold rdv. intros ->. apply vle_jr. Qed.
Lemma vle_wr o w x : is_rel o = true → vle w (wrv o w x).
Proof. unfold wrv. intros ->. apply vle_jl. Qed.

(** The last thing in slot [k] of table [t] is known, and so is its copy in table [n]. *)
Definition copyk s w n k k' e : Prop := ∃ l' u', dst s n k = Some k' ∧ ent s n k' !! l' = Some (W (CEnt e) false, u') ∧ l' ≤ ve w n k'.
Definition fin s w t n k : Prop :=
  ∃ l c u, ent s t k !! l = Some (W c true, u) ∧ l ≤ ve w t k ∧ ∀ e, c = CEnt e → ∃ k', copyk s w n k k' e ∧ 1 ≤ vm w n k'.
Definition VI s w : Prop :=
  vr w < length (root s) ∧ ∀ r t u n u', root s !! r = Some (t, u) → root s !! S r = Some (n, u') → S r ≤ vr w → ∀ k, k < tot t → fin s w t n k.

Record ext s s' : Prop := MkExt {
  x_sle : sle s s';
  x_root : ∀ r x, root s !! r = Some x → root s' !! r = Some x;
  x_ent : ∀ t k l x, ent s t k !! l = Some x → ent s' t k !! l = Some x;
  x_dst : ∀ n k k', dst s n k = Some k' → dst s' n k = Some k' }.
Lemma copyk_ext s s' w w' n k k' e : ext s s' → vle w w' → copyk s w n k k' e → copyk s' w' n k k' e.
Proof. intros X L (l' & u' & A & B & C). exists l', u'. split; [by apply X|]. split; [by apply X|]. etrans; [exact C|apply L]. Qed.
Lemma fin_ext s s' w w' t n k : ext s s' → vle w w' → fin s w t n k → fin s' w' t n k.
Proof.
  intros X L (l & c & u & A & B & C). exists l, c, u. split; [by apply X|]. split; [etrans; [exact B|apply L]|]. intros e Ee. destruct (C e Ee) as (k' & D & F). exists k'. split; [by eapply copyk_ext|].
  etrans; [exact F|apply L].
Qed.
Lemma knows_ext s s' w w' t : ext s s' → vle w w' → knows s w t → knows s' w' t.
Proof. intros X L (r & u & A & B). exists r, u. split; [by apply X|]. etrans; [exact B|apply L]. Qed.
Lemma x_back s s' r x : ext s s' → r < length (root s) → root s' !! r = Some x → root s !! r = Some x.
Proof. intros X L A. destruct (lookup_lt_is_Some_2 _ _ L) as [y B]. rewrite (x_root _ _ X _ _ B) in A. congruence. Qed.
Lemma ext_refl s : ext s s. Proof. split; done. Qed.
Lemma VI_ext s s' w : ext s s' → VI s w → VI s' w.
Proof.
  intros X [L A]. assert (length (root s) ≤ length (root s')) as LL.
  { destruct (root s) as [|z l] eqn:Er; [cbn; lia|]. rewrite <- Er. destruct (lookup_lt_is_Some_2 (root s) (Nat.pred (length (root s)))) as [y B]; [rewrite Er; cbn; lia|].
    apply (x_root _ _ X) in B. apply lookup_lt_Some in B. rewrite Er in *. cbn in *. lia. }
  split; [lia|]. intros r t u n u' A1 A2 L2 k Hk. apply x_back with (s := s) in A1; [|done|lia]. apply x_back with (s := s) in A2; [|done|lia].
  eapply fin_ext; [exact X|apply vle_refl|]. by eapply A.
Qed.
Lemma VI_le s w w' : VI s w → vle w w' → vr w' = vr w → VI s w'.
Proof. intros [L A] X E'. split; [by rewrite E'|]. intros r t u n u' A1 A2 L2 k Hk. eapply fin_ext; [apply ext_refl|exact X|]. eapply A; try done. lia. Qed.
Lemma VI_join s w u : VI s w → VI s u → VI s (join w u).
Proof.
  intros [L A] [L' A']. split; [cbn; lia|]. intros r t u1 n u1' A1 A2 L2 k Hk. cbn in L2. destruct (decide (S r ≤ vr w)) as [Y|Y].
  - eapply fin_ext; [apply ext_refl|apply vle_jl|]. by eapply A.
  - eapply fin_ext; [apply ext_refl|apply vle_jr|]. eapply A'; try done. lia.
Qed.
Lemma VI_0 s w : G s → vr w = 0 → VI s w.
Proof. intros H E'. destruct (g_root0 _ _ H) as [u A]. apply lookup_lt_Some in A. split; [lia|]. intros. lia. Qed.
Lemma VI_rd s o w x u : G s → VI s w → VI s u → vr x = 0 → VI s (rdv o w x u).
Proof. intros H A B C. unfold rdv. apply VI_join; [apply VI_join; [done|by apply VI_0]|]. destruct (is_acq o); [done|by apply VI_0]. Qed.
Lemma VI_wr s o w x : G s → VI s w → vr x = 0 → VI s (wrv o w x).
Proof. intros H A B. unfold wrv. destruct (is_rel o); [apply VI_join; [done|by apply VI_0]|by apply VI_0]. Qed.
(** Reading message [r] of the root. *)
Lemma VI_root s o w r u : VI s w → VI s u → r ≤ vr u → is_acq o = true → VI s (rdv o w (at_r r) u).
Proof. intros A B L O. unfold rdv. rewrite O. eapply (VI_le _ (join w u)); [by apply VI_join| |cbn; lia]. split; intros; cbn in *; try lia. rewrite orb_false_r. done. Qed.

Definition mkd s w t k e : Prop := ∃ l u, ent s t k !! l = Some (W (CEnt e) true, u) ∧ l ≤ ve w t k.
Definition pcV s w (p : point) : Prop :=
  (∀ t n, pt p = Some (t, n) → knows s w t) ∧
  match p with
  | Use t => knows s w t
  | Ps t n => knows s w n
  | Cp t n ks dn => ∀ k, k ∈ dn → fin s w t n k
  | Ci t n k e ks dn => (mkd s w t k e ∧ vk w e = true) ∧ ∀ k, k ∈ dn → fin s w t n k
  | Cm t n k e k' ks dn => mkd s w t k e ∧ copyk s w n k k' e ∧ ∀ k, k ∈ dn → fin s w t n k
  | Ck t n => ∀ k, k < tot t → fin s w t n k
  | _ => True
  end.
Lemma mkd_ext s s' w w' t k e : ext s s' → vle w w' → mkd s w t k e → mkd s' w' t k e.
Proof. intros X L (l & u & A & B). exists l, u. split; [by apply X|]. etrans; [exact B|apply L]. Qed.
Lemma pcV_ext s s' w w' p : ext s s' → vle w w' → pcV s w p → pcV s' w' p.
Proof.
  intros X L [A B]. split; [intros t n Ep; eapply knows_ext; [done|done|by eapply A]|]. destruct p; try done.
  - by eapply knows_ext.
  - intros k Hk. eapply fin_ext; [done|done|by apply B].
  - destruct B as [[B1 B0] B2]. split; [split; [by eapply mkd_ext|by apply L]|]. intros k1 Hk. eapply fin_ext; [done|done|by apply B2].
  - destruct B as (B1 & B2 & B3). split; [by eapply mkd_ext|]. split; [by eapply copyk_ext|]. intros k1 Hk. eapply fin_ext; [done|done|by apply B3].
  - intros k Hk. eapply fin_ext; [done|done|by apply B].
  - by eapply knows_ext.
Qed.

Record Vw s : Prop := MkVw {
  v_thr : ∀ i, VI s (vw s i);
  v_ent : ∀ t k l x u, ent s t k !! l = Some (x, u) → VI s u;
  v_ini : ∀ t k l e b u, ent s t k !! l = Some (W (CEnt e) b, u) → vk u e = true;
  v_met : ∀ t k l b u, met s t k l = Some (b, u) → VI s u ∧ (b = false → l = 0);
  v_nxt : ∀ t u, nxt s t = Some u → VI s u;
  v_root : ∀ r n u, root s !! r = Some (n, u) → VI s u ∧ r ≤ vr u;
  v_don : ∀ n l d u, don s n !! l = Some (d, u) → VI s u ∧ ∃ t, tgt s t n ∧ ∀ k, k ∈ counted s n (S l) → fin s u t n k;
  v_sta : ∀ n b u, (b, u) ∈ sta s n → VI s u ∧ (b = true → knows s u n);
  v_pc : ∀ i, pcV s (vw s i) (pc s i);
  v_kn : ∀ i m, m ∈ kn (hist s) i → knows s (vw s i) m;
  v_find : ∀ i e, EFind i e ∈ hist s → vk (vw s i) e = true }.

Lemma step_ext s s' : G s → wstep tot s s' → ext s s'.
Proof.
  intros H St. inversion St; subst; clear St; try (split; [by apply sle_eq|done|done|done]).
  - cbv zeta. destruct (wc x); (split; [by apply sle_eq|done|done|done]).
  - split; [by apply sle_eq|done| |done]. intros t1 k1 l1 x B. cbn. unfold fset2. destruct (decide _) as [[-> ->]|]; [by apply lookup_app_l_Some|done].
  - (* claim *) split; [|done|done|done]. split; try done. intros n' k j O. cbn. rewrite decide_False; [done|]. intros [-> L]. assert (k < cl s n) by (eapply (g_own _ _ H); congruence). lia.
  - split; [by apply sle_eq|done| |done]. intros t1 k1 l1 x B. cbn. unfold fset2. destruct (decide _) as [[-> ->]|]; [by apply lookup_app_l_Some|done].
  - (* put *) split; [by apply sle_eq|done| |].
    + intros t1 k1 l1 x B. cbn. unfold fset2. destruct (decide _) as [[-> ->]|]; [by apply lookup_app_l_Some|done].
    + intros n1 k1 k1' B. cbn. unfold fset2. destruct (decide _) as [[-> ->]|]; [|done]. destruct (g_pc _ _ H i) as (_ & P & _). rewrite H0 in P. destruct (P _ _ _ eq_refl) as [_ D]. rewrite D in B; [done|cbn; by left].
  - (* full *) split; [|done|done|done]. split; try done. intros m. cbn. unfold fset. destruct (decide (m = n)) as [->|]; [|done]. by destruct (lost s n).
  - (* count *) split; [|done|done|done]. split; try done. intros n1 k1. unfold cdon. cbn. unfold fset. destruct (decide (n1 = n)) as [->|]; [|done]. rewrite fmap_app, concat_app. intros B. apply elem_of_app. by left.
  - (* promote *) split; [split; try done|..]; try done.
    + intros m (r1 & u1 & B). exists r1, u1. cbn. by apply lookup_app_l_Some.
    + intros r1 x B. cbn. by apply lookup_app_l_Some.
Qed.

Lemma V_frame s s' i w' p' : Vw s → ext s s' → vw s' = fset (vw s) i w' → pc s' = fset (pc s) i p' → vle (vw s i) w' → VI s' w' → pcV s' w' p' →
  (∀ t k l x u, ent s' t k !! l = Some (x, u) → ent s t k !! l = Some (x, u) ∨ VI s' u ∧ ∀ e, wc x = CEnt e → vk u e = true) →
  (∀ t k l b u, met s' t k l = Some (b, u) → met s t k l = Some (b, u) ∨ b = true ∧ VI s' u) →
  (∀ t u, nxt s' t = Some u → nxt s t = Some u ∨ VI s' u) →
  (∀ r n u, root s' !! r = Some (n, u) → root s !! r = Some (n, u) ∨ VI s' u ∧ r ≤ vr u) →
  (∀ n, ∃ d, don s' n = don s n ++ d) →
  (∀ n l d u, don s' n !! l = Some (d, u) → don s n !! l = Some (d, u) ∨ VI s' u ∧ ∃ t, tgt s' t n ∧ ∀ k, k ∈ counted s' n (S l) → fin s' u t n k) →
  (∀ n b u, (b, u) ∈ sta s' n → (b, u) ∈ sta s n ∨ VI s' u ∧ (b = true → knows s' u n)) →
  (∀ m, m ∈ kn (hist s') i → knows s' w' m) → (∀ j m, j ≠ i → m ∈ kn (hist s') j → m ∈ kn (hist s) j) →
  (∀ j e, EFind j e ∈ hist s' → EFind j e ∈ hist s ∨ j = i ∧ vk w' e = true) → Vw s'.
Proof.
  intros H X A1 A2 L A3 A4 NE NM NX NR DP ND NS K1 K2 KF. split.
  - intros j. rewrite A1. unfold fset. destruct (decide (j = i)); [done|]. eapply VI_ext; [done|apply H].
  - intros t k l x u B. destruct (NE _ _ _ _ _ B) as [C|C]; [|apply C]. eapply VI_ext; [done|by eapply (v_ent _ H)].
  - intros t k l e b u B. destruct (NE _ _ _ _ _ B) as [C|C]; [by eapply (v_ini _ H)|by apply C].
  - intros t k l b u B. destruct (NM _ _ _ _ _ B) as [C|[-> C]]; [|done]. destruct (v_met _ H _ _ _ _ _ C) as [D F]. split; [by eapply VI_ext|done].
  - intros t u B. destruct (NX _ _ B) as [C|C]; [|done]. eapply VI_ext; [done|by eapply (v_nxt _ H)].
  - intros r n u B. destruct (NR _ _ _ B) as [C|C]; [|done]. destruct (v_root _ H _ _ _ C) as [D F]. split; [by eapply VI_ext|done].
  - intros n l d u B. destruct (ND _ _ _ _ B) as [C|C]; [|done]. destruct (v_don _ H _ _ _ _ C) as (D & t & T & F). split; [by eapply VI_ext|]. exists t. split; [by eapply tgt_le; [apply X|]|].
    intros k Hk. eapply fin_ext; [done|apply vle_refl|]. apply F. destruct (DP n) as [d' Ed]. unfold counted in *. rewrite Ed in Hk. apply lookup_lt_Some in C. by rewrite take_app_le in Hk by lia; done.
  - intros n b u B. destruct (NS _ _ _ B) as [C|C]; [|done]. destruct (v_sta _ H _ _ _ C) as [D F]. split; [by eapply VI_ext|]. intros Eb. eapply knows_ext; [done|apply vle_refl|by apply F].
  - intros j. rewrite A1, A2. unfold fset. destruct (decide (j = i)); [done|]. eapply pcV_ext; [done|apply vle_refl|apply H].
  - intros j m Hm. rewrite A1. unfold fset. destruct (decide (j = i)) as [->|N]; [by apply K1|]. eapply knows_ext; [done|apply vle_refl|]. apply H. by apply K2.
  - intros j e B. rewrite A1. unfold fset. destruct (KF _ _ B) as [C|[-> C]]; [|by rewrite decide_True]. destruct (decide (j = i)) as [->|]; [apply L|]; by eapply (v_find _ H).
Qed.

Lemma kn_use h i n b m : m ∈ kn (EUse i n b :: h) i → m = n ∨ m ∈ kn h i.
Proof. cbn. rewrite decide_True by done. by intros [->|X]%elem_of_cons; [left|right]. Qed.
Lemma kn_use_ne h i n b j m : j ≠ i → m ∈ kn (EUse i n b :: h) j → m ∈ kn h j.
Proof. intros N. cbn. by rewrite decide_False. Qed.
(** Reading the count. *)
Lemma cview_VI s n l : G s → Vw s → VI s (cview s n l).
Proof. intros H V. unfold cview. destruct l as [|l]; [by apply VI_0|]. destruct (don s n !! l) as [[d u]|] eqn:B; [by eapply (v_don _ V)|by apply VI_0]. Qed.
Lemma cview_fin s n l t : G s → Vw s → l ≤ length (don s n) → tgt s t n → ∀ k, k ∈ counted s n l → fin s (cview s n l) t n k.
Proof.
  intros H V L T k Hk. unfold cview. destruct l as [|l]; [by apply elem_of_nil in Hk|]. destruct (lookup_lt_is_Some_2 (don s n) l) as [[d u] B]; [lia|]. rewrite B.
  destruct (v_don _ V _ _ _ _ B) as (_ & t' & T' & F). rewrite (tgt_uni _ _ _ _ _ H T T'). by apply F.
Qed.

Local Ltac fr H X L :=
  try (intros; by left); try (intros ?; exists []; by rewrite app_nil_r); try done;
  try (intros ? ?; eapply knows_ext; [exact X|exact L|by apply (v_kn _ H)]);
  try (intros ? [->|?]%kn_use; [|eapply knows_ext; [exact X|exact L|by apply (v_kn _ H)]]);
  try (intros ? ? ? ?%kn_use_ne; done);
  try (intros ? ? [?|?]%elem_of_cons; [done|by left]).
Lemma lookup_add {A} (f : nat → nat → list A) t k (x : A) t1 k1 j y : fset2 f t k (f t k ++ [x]) t1 k1 !! j = Some y → f t1 k1 !! j = Some y ∨ (t1 = t ∧ k1 = k ∧ j = length (f t k) ∧ y = x).
Proof.
  unfold fset2. destruct (decide (t1 = t ∧ k1 = k)) as [[-> ->]|]; [|by left]. intros [B|[B1 B2]]%lookup_app_Some; [by left|]. right. apply list_lookup_singleton_Some in B2 as [B2 B3]. repeat split; [lia|done].
Qed.
Lemma add_self {A} (f : nat → nat → list A) t k (x : A) : fset2 f t k (f t k ++ [x]) t k !! length (f t k) = Some x.
Proof. unfold fset2. rewrite decide_True by done. rewrite lookup_app_r by lia. by rewrite Nat.sub_diag. Qed.
Lemma one2_eq t k l : one2 t k l t k = l.
Proof. unfold one2. by rewrite decide_True. Qed.

Lemma root_lt s r r' t t' u u' : G s → root s !! r = Some (t, u) → root s !! r' = Some (t', u') → r < r' → t < t'.
Proof.
  intros H A. revert t' u'. induction r' as [|r' IH]; [lia|]. intros t' u' B L. destruct (root_pred _ _ _ _ _ H B) as [[_ ?]|(r2 & t2 & u2 & [= <-] & B2 & T & _)]; [lia|]. destruct T as (_ & LT & _).
  destruct (decide (r = r')) as [->|]; [assert (t2 = t) by congruence; lia|]. specialize (IH _ _ B2 ltac:(lia)). lia.
Qed.
Lemma root_le s r r' t t' u u' : G s → root s !! r = Some (t, u) → root s !! r' = Some (t', u') → t ≤ t' → r ≤ r'.
Proof. intros H A B L. destruct (decide (r' < r)) as [L'|]; [|lia]. pose proof (root_lt _ _ _ _ _ _ _ H B A L'). lia. Qed.

Theorem V_pres s s' : G s → E s → Vw s → wstep tot s s' → G s' → Vw s'.
Proof.
  intros HG HE H St HG'. pose proof (step_ext _ _ HG St) as X. inversion St; subst; clear St;
    match goal with |- context [thr ?j] => pose proof (v_thr _ H j) as VT; pose proof (v_pc _ H j) as VP | |- context [use ?j] => pose proof (v_thr _ H j) as VT; pose proof (v_pc _ H j) as VP end;
    match goal with E' : pc s _ = _ |- _ => rewrite E' in VP | _ => idtac end.
  - (* root *) destruct (v_root _ H _ _ _ H1) as [VU LU].
    assert (L : vle (vw s i) (rdv o_root (vw s i) (at_r r) u)) by apply vle_rd.
    assert (KT : knows s (rdv o_root (vw s i) (at_r r) u) t). { exists r, u. split; [done|]. etrans; [|apply vle_rdx]. done. }
    eapply (V_frame s _ i _ (Use t)); [exact H|exact X|reflexivity|reflexivity|exact L| | |fr H X L..].
    + eapply VI_ext; [exact X|]. by apply VI_root.
    + eapply pcV_ext; [exact X|apply vle_refl|]. by split.
    + eapply knows_ext; [exact X|apply vle_refl|done].
  - (* end *) assert (L : vle (vw s i) (vw s i)) by apply vle_refl. eapply (V_frame s _ i _ Idle); [exact H|exact X|reflexivity|reflexivity|exact L| | |fr H X L..]; [by eapply VI_ext|done].
  - (* meta *) destruct (v_met _ H _ _ _ _ _ H0) as [VU _]. assert (L : vle (vw s i) (rdv o (vw s i) (at_m t k l) u)) by apply vle_rd.
    eapply (V_frame s _ i _ (pc s i)); [exact H|exact X|reflexivity|reflexivity|exact L| | |fr H X L..].
    + eapply VI_ext; [exact X|]. by apply VI_rd.
    + by eapply pcV_ext.
  - (* meta_st *) assert (L : vle (vw s i) (join (vw s i) (at_m t k l))) by apply vle_jl.
    eapply (V_frame s _ i _ (pc s i)); [exact H|exact X|reflexivity|reflexivity|exact L| | |fr H X L..].
    + eapply VI_ext; [exact X|]. apply VI_join; [done|by apply VI_0].
    + by eapply pcV_ext.
    + intros t1 k1 l1 b u. cbn. unfold fset2, fset. destruct (decide (t1 = t ∧ k1 = k)) as [[-> ->]|]; [|by left]. destruct (decide (l1 = l)) as [->|]; [|by left]. intros [= <- <-]. right. split; [done|].
      eapply VI_ext; [exact X|]. by apply VI_wr.
  - (* read *) pose proof (v_ent _ H _ _ _ _ _ H0) as VU. assert (L : vle (vw s i) (rdv o_ent (vw s i) (at_e t k l) u)) by apply vle_rd.
    assert (VE : ∀ e, wc x = CEnt e → vk (rdv o_ent (vw s i) (at_e t k l) u) e = true). { intros e Ee. apply (vle_rdu o_ent (vw s i) (at_e t k l) u eq_refl). destruct x as [c b]. cbn in Ee. subst c. by eapply (v_ini _ H). }
    cbv zeta in *. destruct (wc x) as [| |e] eqn:Ec; (eapply (V_frame s _ i _ (pc s i)); [exact H|exact X|reflexivity|reflexivity|exact L| | |fr H X L..]); try (eapply VI_ext; [exact X|]; by apply VI_rd); try (by eapply pcV_ext).
    intros j e1 [[= -> ->]|B]%elem_of_cons; [right; split; [done|by apply VE]|by left].
  - (* write *) assert (VU : VI s u). { rewrite last_lookup in H2. by eapply (v_ent _ H). } assert (Lw : vle (vw s i) w) by apply vle_jl. assert (L : vle (vw s i) (join w (at_e t k l))) by (eapply vle_trans; [exact Lw|apply vle_jl]).
    assert (VW : VI s w). { apply VI_join; [done|]. apply VI_0; [done|]. by destruct c'. }
    eapply (V_frame s _ i _ (Use t)); [exact H|exact X|reflexivity|reflexivity|exact L| | |fr H X L..].
    + eapply VI_ext; [exact X|]. apply VI_join; [done|by apply VI_0].
    + by eapply pcV_ext.
    + intros t1 k1 l1 x u1 B. cbn in B. apply lookup_add in B as [B|(_ & _ & _ & [= -> ->])]; [by left|]. right. split; [eapply VI_ext; [exact X|]; apply VI_join; [done|]; by apply VI_wr|].
      intros e Ee. cbn in Ee. subst c'. apply (vle_jr u). apply (vle_wr o_cas w (at_e t k l) eq_refl). apply vle_jr. cbn. by apply bool_decide_eq_true.
  - (* alloc *) assert (L : vle (vw s i) (vw s i)) by apply vle_refl. eapply (V_frame s _ i _ (pc s i)); [exact H|exact X|reflexivity|reflexivity|exact L| | |fr H X L..].
    + by eapply VI_ext.
    + by eapply pcV_ext.
    + intros t1 u1. cbn. unfold fset. destruct (decide (t1 = t)) as [->|]; [|by left]. intros [= <-]. right. eapply VI_ext; [exact X|]. by apply VI_wr.
  - (* help *) pose proof (v_nxt _ H _ _ H1) as VU. assert (L : vle (vw s i) (rdv o_next (vw s i) bot u)) by apply vle_rd.
    eapply (V_frame s _ i _ (Hp t (S t))); [exact H|exact X|reflexivity|reflexivity|exact L| | |fr H X L..].
    + eapply VI_ext; [exact X|]. by apply VI_rd.
    + eapply pcV_ext; [exact X|exact L|]. split; [|done]. intros t1 n1 [= <- <-]. apply VP.
  - (* aborted *) destruct (v_sta _ H _ _ _ H1) as [VU _]. assert (L : vle (vw s i) (rdv o_status_ab (vw s i) bot u)) by apply vle_rd.
    eapply (V_frame s _ i _ (Al t n)); [exact H|exact X|reflexivity|reflexivity|exact L| | |fr H X L..].
    + eapply VI_ext; [exact X|]. by apply VI_rd.
    + eapply pcV_ext; [exact X|exact L|]. split; [|done]. intros t1 n1 [= <- <-]. by eapply (proj1 VP).
  - (* next *) pose proof (v_nxt _ H _ _ H1) as VU. assert (L : vle (vw s i) (rdv o_next (vw s i) bot u)) by apply vle_rd.
    eapply (V_frame s _ i _ (Hp t (S n))); [exact H|exact X|reflexivity|reflexivity|exact L| | |fr H X L..].
    + eapply VI_ext; [exact X|]. by apply VI_rd.
    + eapply pcV_ext; [exact X|exact L|]. split; [|done]. intros t1 n1 [= <- <-]. by eapply (proj1 VP).
  - (* copied *) assert (L : vle (vw s i) (rdv o_done_ld (vw s i) bot (cview s n l))) by apply vle_rd.
    destruct (g_pc _ _ HG i) as (T & _). rewrite H0 in T. specialize (T _ _ eq_refl).
    eapply (V_frame s _ i _ (Ck t n)); [exact H|exact X|reflexivity|reflexivity|exact L| | |fr H X L..].
    + eapply VI_ext; [exact X|]. apply VI_rd; [done|done| |done]. by apply cview_VI.
    + eapply pcV_ext; [exact X|apply vle_refl|]. split.
      * intros t1 n1 [= <- <-]. eapply knows_ext; [apply ext_refl|exact L|]. by eapply (proj1 VP).
      * intros k Hk. eapply fin_ext; [apply ext_refl|by apply vle_rdu|]. apply cview_fin; [done|done|done|done|]. by eapply all_done.
  - (* claim *) assert (L : vle (vw s i) (vw s i)) by apply vle_refl. eapply (V_frame s _ i _ _); [exact H|exact X|reflexivity|reflexivity|exact L| | |fr H X L..].
    + by eapply VI_ext.
    + eapply pcV_ext; [exact X|exact L|]. split; [|intros k Hk; by apply elem_of_nil in Hk]. intros t1 n1 [= <- <-]. by eapply (proj1 VP).
  - (* mark *) assert (VK : ∀ e, c = CEnt e → vk u e = true). { intros e ->. rewrite last_lookup in H1. by eapply (v_ini _ H). } assert (VU : VI s u). { rewrite last_lookup in H1. by eapply (v_ent _ H). } assert (L : vle (vw s i) (rdv o_mark (vw s i) (at_e t k l) u)) by apply vle_rd.
    assert (LE : l ≤ ve (rdv o_mark (vw s i) (at_e t k l) u) t k). { etrans; [|apply (vle_e _ _ (vle_rdx o_mark (vw s i) (at_e t k l) u))]. cbn. by rewrite one2_eq. }
    destruct VP as [VP1 VP2]. specialize (VP1 _ _ eq_refl).
    set (s' := thr _ _ _ _) in *. assert (NEW : ent s' t k !! l = Some (W c true, join u (wrv o_mark (vw s i) (at_e t k l)))) by apply add_self.
    eapply (V_frame s _ i _ _); [exact H|exact X|reflexivity|reflexivity|exact L| | |fr H X L..].
    + eapply VI_ext; [exact X|]. by apply VI_rd.
    + assert (DN : ∀ k1, k1 ∈ dn → fin s' (rdv o_mark (vw s i) (at_e t k l) u) t n k1) by (intros k1 Hk; eapply fin_ext; [exact X|exact L|by apply VP2]).
      assert (KT : knows s' (rdv o_mark (vw s i) (at_e t k l) u) t) by by eapply knows_ext.
      assert (FK : (∀ e, c ≠ CEnt e) → fin s' (rdv o_mark (vw s i) (at_e t k l) u) t n k). { intros Nc. eexists l, c, _. split; [exact NEW|]. split; [exact LE|]. intros e ->. by destruct (Nc e). }
      destruct c; (split; [intros t1 n1 [= <- <-]; done|]).
      * intros k1 [->|Hk]%elem_of_cons; [by apply FK|by apply DN].
      * intros k1 [->|Hk]%elem_of_cons; [by apply FK|by apply DN].
      * split; [|done]. split; [eexists l, _; split; [exact NEW|exact LE]|]. apply (vle_rdu o_mark (vw s i) (at_e t k l) u eq_refl). by apply VK.
    + intros t1 k1 l1 x u1 B. cbn in B. apply lookup_add in B as [B|(_ & _ & _ & [= -> ->])]; [by left|]. right. split; [eapply VI_ext; [exact X|]; apply VI_join; [done|]; by apply VI_wr|].
      intros e Ee. apply vle_jl. by apply VK.
  - (* put *) assert (VU : VI s u). { rewrite last_lookup in H1. by eapply (v_ent _ H). } assert (L : vle (vw s i) (join (vw s i) (at_e n k' l))) by apply vle_jl.
    destruct VP as (VP1 & [VP2 VPK] & VP3). specialize (VP1 _ _ eq_refl). set (s' := add_ev _ _) in *.
    eapply (V_frame s s' i (join (vw s i) (at_e n k' l)) (Cm t n k e k' ks dn)); [exact H|exact X|reflexivity|reflexivity|exact L| | |fr H X L..].
    + eapply VI_ext; [exact X|]. apply VI_join; [done|by apply VI_0].
    + split; [intros t1 n1 [= <- <-]; by eapply knows_ext|]. split; [by eapply mkd_ext|]. split; [|intros k1 Hk; eapply fin_ext; [exact X|exact L|by apply VP3]].
      eexists l, _. split; [|split].
      * cbn. unfold fset2. by rewrite decide_True.
      * apply add_self.
      * cbn. rewrite one2_eq. lia.
    + intros t1 k1 l1 x u1 B. cbn in B. apply lookup_add in B as [B|(_ & _ & _ & [= -> ->])]; [by left|]. right. split; [eapply VI_ext; [exact X|]; apply VI_join; [done|]; by apply VI_wr|].
      intros e1 [= <-]. apply (vle_jr u). by apply (vle_wr o_copy (vw s i) (at_e n k' l) eq_refl).
  - (* put_meta *) assert (L : vle (vw s i) (join (vw s i) (at_m n k' l))) by apply vle_jl. destruct VP as (VP1 & (l1 & u1 & VP2 & VP3) & VP4 & VP5). specialize (VP1 _ _ eq_refl).
    eapply (V_frame s _ i _ (Cp t n ks (k :: dn))); [exact H|exact X|reflexivity|reflexivity|exact L| | |fr H X L..].
    + eapply VI_ext; [exact X|]. apply VI_join; [done|by apply VI_0].
    + split; [intros t1 n1 [= <- <-]; by eapply knows_ext|]. intros k1 [->|Hk]%elem_of_cons; [|eapply fin_ext; [exact X|exact L|by apply VP5]].
      exists l1, (CEnt e), u1. split; [by apply X|]. split; [etrans; [exact VP3|apply L]|]. intros e' [= <-]. exists k'. split; [by eapply copyk_ext|]. cbn. rewrite one2_eq. lia.
    + intros t1 k1 l2 b u. cbn. unfold fset2, fset. destruct (decide (t1 = n ∧ k1 = k')) as [[-> ->]|]; [|by left]. destruct (decide (l2 = l)) as [->|]; [|by left]. intros [= <- <-]. right. split; [done|].
      eapply VI_ext; [exact X|]. by apply VI_wr.
  - (* full *) assert (L : vle (vw s i) (vw s i)) by apply vle_refl. eapply (V_frame s _ i _ (Ab t n)); [exact H|exact X|reflexivity|reflexivity|exact L| | |fr H X L..].
    + by eapply VI_ext.
    + eapply pcV_ext; [exact X|exact L|]. split; [|done]. intros t1 n1 [= <- <-]. by eapply (proj1 VP).
  - (* abort *) assert (L : vle (vw s i) (vw s i)) by apply vle_refl. eapply (V_frame s _ i _ (Al t n)); [exact H|exact X|reflexivity|reflexivity|exact L| | |fr H X L..].
    + by eapply VI_ext.
    + eapply pcV_ext; [exact X|exact L|]. split; [|done]. intros t1 n1 [= <- <-]. by eapply (proj1 VP).
    + intros n1 b u. cbn. unfold fset. destruct (decide (n1 = n)) as [->|]; [|by left]. intros [[= -> ->]|B]%elem_of_cons; [|by left]. right. split; [|done]. eapply VI_ext; [exact X|]. by apply VI_wr.
  - (* count *) assert (L : vle (vw s i) w) by apply vle_rd. destruct VP as [VP1 VP2]. specialize (VP1 _ _ eq_refl).
    destruct (g_pc _ _ HG i) as (T & _). rewrite H0 in T. specialize (T _ _ eq_refl). set (s' := thr _ _ _ _) in *.
    assert (VW : VI s w) by (unfold w; apply VI_rd; [done|done|by apply cview_VI|done]).
    assert (T' : tgt s' t n) by (eapply tgt_le; [apply X|exact T]).
    assert (CE : counted s' n (S (length (don s n))) = counted s n (length (don s n)) ++ dn).
    { unfold counted. cbn. rewrite fset_eq. rewrite (firstn_all2 (don s n ++ _)) by (rewrite app_length; cbn; lia). rewrite fmap_app, concat_app, firstn_all. cbn. by rewrite app_nil_r. }
    assert (FN : ∀ w1, vle w w1 → ∀ k, k ∈ counted s' n (S (length (don s n))) → fin s' w1 t n k).
    { intros w1 L1 k. rewrite CE. intros [Hk|Hk]%elem_of_app.
      - eapply fin_ext; [exact X| |apply cview_fin; [done|done|done|exact T|exact Hk]]. eapply vle_trans; [|exact L1]. unfold w. by apply vle_rdu.
      - eapply fin_ext; [exact X| |by apply VP2]. by eapply vle_trans. }
    eapply (V_frame s s' i w _); [exact H|exact X|reflexivity|reflexivity|exact L| | |fr H X L..].
    + by eapply VI_ext.
    + assert (KT : knows s' w t) by by eapply knows_ext. destruct (decide _) as [Ed|_]; (split; [intros t1 n1 [= <- <-]; done|try done]).
      intros k Hk. apply FN; [apply vle_refl|]. assert (PE : pc s' i = Ck t n) by (cbn [s' thr pc]; by rewrite fset_eq). destruct (g_pc _ _ HG' i) as (_ & _ & P). rewrite PE in P. specialize (P k Hk).
      rewrite <- counted_all in P. cbn [don s' thr add_don] in P. rewrite fset_eq, app_length in P. cbn in P. by rewrite Nat.add_1_r in P.
    + intros n1. cbn. unfold fset. destruct (decide (n1 = n)) as [->|]; [by eexists|]. exists []. by rewrite app_nil_r.
    + intros n1 l1 d u1 B. cbn in B. unfold fset in B. destruct (decide (n1 = n)) as [->|]; [|by left]. apply lookup_app_Some in B as [B|[B1 B2]]; [by left|]. right.
      apply list_lookup_singleton_Some in B2 as [B2 [= <- <-]]. assert (l1 = length (don s n)) as -> by lia. split.
      * eapply VI_ext; [exact X|]. apply VI_join; [by apply cview_VI|]. by apply VI_wr.
      * exists t. split; [exact T'|]. apply FN. eapply vle_trans; [|apply vle_jr]. by apply vle_wr.
  - (* count0 *) assert (L : vle (vw s i) (vw s i)) by apply vle_refl. eapply (V_frame s _ i _ (Hp t n)); [exact H|exact X|reflexivity|reflexivity|exact L| | |fr H X L..].
    + by eapply VI_ext.
    + eapply pcV_ext; [exact X|exact L|]. split; [|done]. intros t1 n1 [= <- <-]. by eapply (proj1 VP).
  - (* no *) assert (L : vle (vw s i) (vw s i)) by apply vle_refl. eapply (V_frame s _ i _ (Hp t n)); [exact H|exact X|reflexivity|reflexivity|exact L| | |fr H X L..].
    + by eapply VI_ext.
    + eapply pcV_ext; [exact X|exact L|]. split; [|done]. intros t1 n1 [= <- <-]. by eapply (proj1 VP).
  - (* promote *) assert (L : vle (vw s i) (join (vw s i) (at_r r))) by apply vle_jl. destruct VP as [VP1 VP2]. specialize (VP1 _ _ eq_refl). set (s' := thr _ _ _ _) in *.
    pose proof H1 as H1'. rewrite last_lookup in H1'. destruct (v_root _ H _ _ _ H1') as [VU LU]. pose proof (lookup_lt_Some _ _ _ H1') as LL.
    assert (NR : ∀ r1 n1 u1, root s' !! r1 = Some (n1, u1) → root s !! r1 = Some (n1, u1) ∨ r1 = r ∧ n1 = n ∧ u1 = join u (wrv o_promote (vw s i) (at_r r))).
    { intros r1 n1 u1 B. cbn in B. apply lookup_app_Some in B as [B|[B1 B2]]; [by left|]. right. apply list_lookup_singleton_Some in B2 as [B2 B3]. unfold r. split; [lia|]. inversion B3; subst; by split. }
    assert (NEWV : ∀ w1, (∀ w2, vle (vw s i) w2 → vr w2 ≤ r → vle w2 w1 → True) → vle (vw s i) w1 → vr w1 = r → (∀ r1 t1 u1 n1 u1', root s !! r1 = Some (t1, u1) → root s !! S r1 = Some (n1, u1') → ∀ k, k < tot t1 → fin s w1 t1 n1 k) → VI s' w1).
    { intros w1 _ L1 R1 OLD. split; [cbn; rewrite app_length; cbn; unfold r in R1; lia|]. intros r1 t1 u1 n1 u1' B1 B2 L2 k Hk.
      destruct (NR _ _ _ B2) as [C2|(C2 & -> & _)].
      - destruct (NR _ _ _ B1) as [C1|(C1 & _)]; [|apply lookup_lt_Some in C2; unfold r in C1; lia]. eapply fin_ext; [exact X|apply vle_refl|]. by eapply OLD.
      - destruct (NR _ _ _ B1) as [C1|(C1 & _)]; [|lia]. replace (Nat.pred (length (root s))) with r1 in H1' by (unfold r in C2; lia). assert (t1 = t) as -> by congruence.
        eapply fin_ext; [exact X|exact L1|]. by apply VP2. }
    assert (OLDU : ∀ r1 t1 u1 n1 u1', root s !! r1 = Some (t1, u1) → root s !! S r1 = Some (n1, u1') → ∀ k, k < tot t1 → fin s u t1 n1 k).
    { intros r1 t1 u1 n1 u1' B1 B2 k Hk. destruct VU as [VU1 VU2]. eapply VU2; [done|done| |done]. apply lookup_lt_Some in B2. lia. }
    eapply (V_frame s s' i (join (vw s i) (at_r r)) (Ps t n)); [exact H|exact X|reflexivity|reflexivity|exact L| | |fr H X L..].
    + apply NEWV; [done|exact L| |].
      * destruct VT as [VT1 _]. unfold wrv; cbn; unfold r; lia.
      * intros r1 t1 u1 n1 u1' B1 B2 k Hk. eapply fin_ext; [apply ext_refl|exact L|]. destruct VT as [_ VT2]. eapply VT2; [done|done| |done].
        destruct VP1 as (r0 & u0 & B0 & L0). pose proof (root_le _ _ _ _ _ _ _ HG H1' B0 (le_n _)). apply lookup_lt_Some in B2. lia.
    + split; [done|]. exists r. eexists. split; [|cbn; lia]. cbn. rewrite lookup_app_r by (unfold r; lia). unfold r. by rewrite Nat.sub_diag.
    + intros r1 n1 u1 B. destruct (NR _ _ _ B) as [C|(-> & -> & ->)]; [by left|]. right. split.
      * apply NEWV; [done| | |].
        -- eapply vle_trans; [|apply vle_jr]. by apply vle_wr.
        -- destruct VU as [VU1 _], VT as [VT1 _]. unfold wrv; cbn; unfold r; lia.
        -- intros r1 t1 u1 n1' u1' B1 B2 k Hk. eapply fin_ext; [apply ext_refl|apply vle_jl|]. by eapply OLDU.
      * unfold wrv; cbn; lia.
  - (* promote_fail *) destruct (v_root _ H _ _ _ H1) as [VU LU]. assert (L : vle (vw s i) (rdv o_promote_fail (vw s i) (at_r r) u)) by apply vle_rd.
    destruct VP as [VP1 VP2]. destruct (VP1 _ _ eq_refl) as (r0 & u0 & E0 & L0). assert (r0 ≠ r) by (intros ->; congruence).
    destruct (g_pc _ _ HG i) as (T & _ & P2). rewrite H0 in T, P2. specialize (T _ _ eq_refl).
    assert (KN : knows s (rdv o_promote_fail (vw s i) (at_r r) u) n).
    { destruct (root s !! S r0) as [[n1 u1]|] eqn:E1; [|apply lookup_ge_None in E1; apply lookup_lt_Some in H1; lia].
      destruct (g_succ _ _ HG _ _ _ _ _ E0 E1) as [T1 _]. assert (isroot s n1) as R1 by by exists (S r0), u1. rewrite <- (succ_uni _ s t n n1 HG T P2 T1 R1).
      exists (S r0), u1. split; [done|]. etrans; [|apply vle_rdx]. cbn. lia. }
    eapply (V_frame s _ i _ (Use n)); [exact H|exact X|reflexivity|reflexivity|exact L| | |fr H X L..].
    + eapply VI_ext; [exact X|]. by apply VI_root.
    + eapply pcV_ext; [exact X|apply vle_refl|]. by split.
    + eapply knows_ext; [exact X|apply vle_refl|done].
  - (* promoted *) destruct VP as [_ VP]. assert (L : vle (vw s i) (vw s i)) by apply vle_refl. eapply (V_frame s _ i _ (Use n)); [exact H|exact X|reflexivity|reflexivity|exact L| | |fr H X L..].
    + by eapply VI_ext.
    + eapply pcV_ext; [exact X|apply vle_refl|]. by split.
    + intros n1 b u. cbn. unfold fset. destruct (decide (n1 = n)) as [->|]; [|by left]. intros [[= -> ->]|B]%elem_of_cons; [|by left]. right. split; [eapply VI_ext; [exact X|]; by apply VI_wr|]. intros _.
      eapply knows_ext; [exact X|by apply vle_wr|done].
    + eapply knows_ext; [exact X|apply vle_refl|done].
  - (* waited *) destruct (v_sta _ H _ _ _ H1) as [VU KU]. specialize (KU eq_refl). assert (L : vle (vw s i) (rdv o_status (vw s i) bot u)) by apply vle_rd.
    assert (KN : knows s (rdv o_status (vw s i) bot u) n). { eapply knows_ext; [apply ext_refl|by apply vle_rdu|exact KU]. }
    eapply (V_frame s _ i _ (Use n)); [exact H|exact X|reflexivity|reflexivity|exact L| | |fr H X L..].
    + eapply VI_ext; [exact X|]. by apply VI_rd.
    + eapply pcV_ext; [exact X|apply vle_refl|]. by split.
    + eapply knows_ext; [exact X|apply vle_refl|done].
  - (* sync *) assert (L : vle (vw s i) (join (vw s i) (vw s j))) by apply vle_jl. eapply (V_frame s _ i _ (pc s i)); [exact H|exact X|reflexivity|reflexivity|exact L| | |fr H X L..].
    + eapply VI_ext; [exact X|]. apply VI_join; [done|apply H].
    + by eapply pcV_ext.
    + intros m. cbn. rewrite decide_True by done. intros [B|B]%elem_of_app; (eapply knows_ext; [exact X| |by apply (v_kn _ H)]); [apply vle_jl|apply vle_jr].
    + intros j1 m N. cbn. by rewrite decide_False.
Qed.

Lemma G_init : G winit.
Proof.
  split; cbn.
  - by exists bot.
  - intros r t u n u' _ B. done.
  - intros n u B. by apply elem_of_nil in B.
  - done.
  - done.
  - done.
  - intros n. split; [apply NoDup_nil_2|]. intros k B. by apply elem_of_nil in B.
  - intros i. by split.
Qed.
Lemma E_init : E winit.
Proof.
  split; cbn.
  - done.
  - intros t k j j' c x u u' B. by apply list_lookup_singleton_Some in B as [_ B].
  - intros t k j j' x x' u u' B1 B2 _. apply list_lookup_singleton_Some in B1 as [_ B1], B2 as [_ B2]. congruence.
Qed.
Lemma V_init : Vw winit.
Proof.
  pose proof G_init as H. split; cbn.
  - intros i. by apply VI_0.
  - intros t k l x u B. apply list_lookup_singleton_Some in B as [_ [= <- <-]]. by apply VI_0.
  - intros t k l e b u B. by apply list_lookup_singleton_Some in B as [_ B].
  - intros t k l b u. destruct (decide (l = 0)); [|done]. intros [= <- <-]. split; [by apply VI_0|done].
  - done.
  - intros r n u B. apply list_lookup_singleton_Some in B as [-> [= <- <-]]. split; [by apply VI_0|done].
  - done.
  - intros n b u B. by apply elem_of_nil in B.
  - intros i. by split.
  - intros i m B. by apply elem_of_nil in B.
  - intros i e B. by apply elem_of_nil in B.
Qed.
Theorem reach_inv s : reachable tot s → G s ∧ E s ∧ Vw s.
Proof.
  induction 1 as [|s s' _ (IG & IE & IV) St]; [split; [apply G_init|split; [apply E_init|apply V_init]]|].
  assert (G s') as IG'. { eapply G_pres; [exact IG| | |exact St]. - intros i t n Ep. by eapply (proj1 (v_pc _ IV i)). - intros n u B. destruct (v_sta _ IV _ _ _ B) as [_ K]. destruct (K eq_refl) as (r & u' & A & _). by exists r, u'. }
  split; [done|]. split; [by eapply E_pres|exact (V_pres _ _ IG IE IV St IG')].
Qed.

(** ** C59 *)
(** A thread uses table [n]. Every write that ever succeeded in a table [t] that was the current one before lies below the last message of its slot that the thread knows: no write is lost, none can follow. *)
Lemma use_fin s i n t : reachable tot s → pc s i = Use n → isroot s t → t < n → ∃ n', isroot s n' ∧ t < n' ≤ n ∧ ∀ k, k < tot t → fin s (vw s i) t n' k.
Proof.
  intros R Ep (r & u & B) L. destruct (reach_inv _ R) as (HG & HE & HV). pose proof (v_pc _ HV i) as [_ VP]. rewrite Ep in VP. destruct VP as (r' & u' & B' & L').
  assert (r < r') as Lr. { destruct (decide (r' ≤ r)) as [X|]; [|lia]. destruct (decide (r = r')) as [->|]; [assert (n = t) by congruence; lia|]. pose proof (root_lt _ _ _ _ _ _ _ HG B' B ltac:(lia)). lia. }
  destruct (root s !! S r) as [[n' u1]|] eqn:B1; [|apply lookup_ge_None in B1; apply lookup_lt_Some in B'; lia].
  exists n'. split; [by exists (S r), u1|]. split; [split; [by eapply (root_lt s r (S r)); [exact HG|exact B|exact B1|lia]|]|].
  - destruct (decide (S r = r')) as [Y|]; [rewrite Y in B1; assert (n' = n) by congruence; lia|]. pose proof (root_lt _ _ _ _ _ _ _ HG B1 B' ltac:(lia)). lia.
  - destruct (v_thr _ HV i) as [_ VI2]. eapply VI2; [done|done|lia].
Qed.
Theorem C59_no_write_lost s i n t k : reachable tot s → pc s i = Use n → isroot s t → t < n → k < tot t →
  (∃ c u, list.last (ent s t k) = Some (W c true, u)) ∧ ∀ l c u, ent s t k !! l = Some (W c false, u) → l < ve (vw s i) t k.
Proof.
  intros R Ep Rt L Hk. destruct (use_fin _ _ _ _ R Ep Rt L) as (n' & _ & _ & F). destruct (F k Hk) as (l0 & c0 & u0 & B0 & L0 & _). destruct (reach_inv _ R) as (_ & HE & _). split.
  - destruct (list.last (ent s t k)) as [[x u]|] eqn:El; [|apply last_None in El; rewrite El in B0; done]. rewrite last_lookup in El.
    pose proof (lookup_lt_Some _ _ _ B0). rewrite (e_frz _ HE _ _ _ _ _ _ _ _ B0 El ltac:(lia)). by eexists _, _.
  - intros l c u B. destruct (decide (l0 ≤ l)) as [Y|]; [|lia]. pose proof (e_frz _ HE _ _ _ _ _ _ _ _ B0 B Y). congruence.
Qed.
(** The entry left in slot [k] of table [t] is in a slot of the table after it; whatever message of that slot, or of its metadata, the thread may still read, it does not find it empty. *)
Theorem C59_copy_known s i n t k e u : reachable tot s → pc s i = Use n → isroot s t → t < n → k < tot t → list.last (ent s t k) = Some (W (CEnt e) true, u) →
  ∃ n' k', isroot s n' ∧ t < n' ≤ n ∧ (∃ l u', ent s n' k' !! l = Some (W (CEnt e) false, u') ∧ l ≤ ve (vw s i) n' k') ∧
    (∀ l x u', ve (vw s i) n' k' ≤ l → ent s n' k' !! l = Some (x, u') → wc x ≠ CNull) ∧
    (∀ l b u', vm (vw s i) n' k' ≤ l → met s n' k' l = Some (b, u') → b = true).
Proof.
  intros R Ep Rt L Hk El. destruct (use_fin _ _ _ _ R Ep Rt L) as (n' & Rn & Ln & F). destruct (F k Hk) as (l0 & c0 & u0 & B0 & L0 & C0). destruct (reach_inv _ R) as (HG & HE & HV).
  rewrite last_lookup in El. pose proof (lookup_lt_Some _ _ _ B0). pose proof (e_frz _ HE _ _ _ _ _ _ _ _ B0 El ltac:(lia)) as Ec. injection Ec as <-.
  destruct (C0 e eq_refl) as (k' & (l' & u' & D & B' & L') & M). exists n', k'. split; [done|]. split; [done|split; [by exists l', u'|split]].
  - intros l x u1 Lv Bx. eapply (e_nn _ HE _ _ _ _ _ _ _ _ B' Bx); [lia|done].
  - intros l b u1 Lv Bm. destruct b; [done|]. destruct (v_met _ HV _ _ _ _ _ Bm) as [_ Z]. specialize (Z eq_refl). lia.
Qed.

(** Copies are made once. *)
Definition ckey (e : ev) : option (nat * nat) := match e with ECopy _ n k _ _ => Some (n, k) | _ => None end.
Lemma copies_inv s : reachable tot s → NoDup (omap ckey (hist s)) ∧ ∀ n k, (n, k) ∈ omap ckey (hist s) → dst s n k ≠ None.
Proof.
  induction 1 as [|s s' R [IN ID] St]; [split; [apply NoDup_nil_2|intros n k B; by apply elem_of_nil in B]|]. destruct (reach_inv _ R) as (HG & _).
  pose proof (step_ext _ _ HG St) as X.
  assert (K : omap ckey (hist s') = omap ckey (hist s) ∨ ∃ n k, omap ckey (hist s') = (n, k) :: omap ckey (hist s) ∧ dst s n k = None ∧ dst s' n k ≠ None).
  { inversion St; subst; try (by left); [cbv zeta; left; by destruct (wc x)|]. right. exists n, k. split; [done|]. destruct (g_pc _ _ HG i) as (_ & P & _). rewrite H in P. destruct (P _ _ _ eq_refl) as [_ D]. split; [apply D; cbn; by left|].
    cbn. unfold fset2. by rewrite decide_True. }
  assert (MD : ∀ n k, dst s n k ≠ None → dst s' n k ≠ None). { intros n k. destruct (dst s n k) as [k'|] eqn:D; [|done]. intros _. by rewrite (x_dst _ _ X _ _ _ D). }
  destruct K as [->|(n & k & -> & D1 & D2)].
  - split; [done|]. intros n k B. apply MD. by apply ID.
  - split; [apply list.NoDup_cons; split; [|done]; intros B; by apply ID in B|]. intros n1 k1 [[= -> ->]|B]%elem_of_cons; [done|]. apply MD. by apply ID.
Qed.
Theorem C59_copied_once s tr1 tr2 tr3 t t' n k k1 k2 e1 e2 : reachable tot s → hist s ≠ tr1 ++ ECopy t n k k1 e1 :: tr2 ++ ECopy t' n k k2 e2 :: tr3.
Proof.
  intros R Eh. destruct (copies_inv _ R) as [N _]. rewrite Eh in N. rewrite omap_app in N. cbn in N. rewrite omap_app in N. cbn in N. apply list.NoDup_app in N as (_ & _ & N). apply list.NoDup_cons in N as [N _].
  apply N. apply elem_of_app. right. by left.
Qed.

(** An aborted table is never the current one; no thread uses it; its status is never PROMOTED. *)
Theorem C59_aborted s n u : reachable tot s → (false, u) ∈ sta s n → ¬ isroot s n ∧ (∀ i, pc s i ≠ Use n) ∧ ∀ u', (true, u') ∉ sta s n.
Proof.
  intros R B. destruct (reach_inv _ R) as (HG & _ & HV). assert (¬ isroot s n) as N. { pose proof (g_ab _ _ HG _ _ B) as Z. destruct (lost s n) as [k|] eqn:El; [|done]. by destruct (g_lost _ _ HG _ _ El). }
  split; [done|]. split.
  - intros i Ep. apply N. destruct (g_pc _ _ HG i) as (_ & _ & P). by rewrite Ep in P.
  - intros u' B'. destruct (v_sta _ HV _ _ _ B') as [_ K]. destruct (K eq_refl) as (r & u1 & A & _). apply N. by exists r, u1.
Qed.
(** When a table becomes the current one, every slot of the one before it has been counted, once. *)
Theorem C59_complete s r t n u u' : reachable tot s → root s !! r = Some (t, u) → root s !! S r = Some (n, u') → t < n ∧ NoDup (cdon s n) ∧ ∀ k, k < tot t ↔ k ∈ cdon s n.
Proof.
  intros R A B. destruct (reach_inv _ R) as (HG & _). destruct (g_succ _ _ HG _ _ _ _ _ A B) as [T D]. split; [apply T|]. split; [apply HG|]. intros k. split; [apply D|]. intros Hk.
  destruct (proj2 (g_don _ _ HG n) _ Hk) as (_ & t' & T' & L). by rewrite (tgt_uni _ _ _ _ _ HG T T').
Qed.

(** A thread that finds an entry, in whatever table it is or was copied to, sees its contents. *)
Theorem C59_entry_known s i e : reachable tot s → EFind i e ∈ hist s → vk (vw s i) e = true.
Proof. intros R. destruct (reach_inv _ R) as (_ & _ & HV). apply HV. Qed.

(** Calls go forward: the root that a call loads is not older than any table that the calls of its thread, and those of threads it has synchronised with, have used before. *)
Definition fwd (tr : list ev) : Prop := ∀ tr1 i n tr2, tr = tr1 ++ EUse i n true :: tr2 → ∀ m, m ∈ kn tr2 i → m ≤ n.
Lemma fwd_cons e tr : fwd tr → (∀ i n, e = EUse i n true → ∀ m, m ∈ kn tr i → m ≤ n) → fwd (e :: tr).
Proof. intros A B tr1 i n tr2 Eh m Hm. destruct tr1 as [|e1 tr1]; [injection Eh as -> <-; by eapply B|]. injection Eh as -> Eh. by eapply A. Qed.
Theorem C59_forward s tr1 tr2 i n m : reachable tot s → hist s = tr1 ++ EUse i n true :: tr2 → m ∈ kn tr2 i → m ≤ n.
Proof.
  intros R. assert (fwd (hist s)) as F; [|intros Eh Hm; by eapply F]. clear tr1 tr2 i n m. induction R as [|s s' R IH St]; [intros tr1 i n tr2 Eh; by destruct tr1|]. destruct (reach_inv _ R) as (HG & _ & HV).
  inversion St; subst; try exact IH; [| |cbn; apply fwd_cons; try exact IH; try done..].
  2:{ cbv zeta. destruct (wc x); try exact IH. cbn. apply fwd_cons; [exact IH|done]. }
  cbn. apply fwd_cons; [exact IH|].
  intros i' n' [= <- <-] m Hm. destruct (v_kn _ HV _ _ Hm) as (r' & u' & B & L). destruct (decide (r' = r)) as [->|]; [assert (m = t) by congruence; lia|].
  pose proof (root_lt _ _ _ _ _ _ _ HG B H0 ltac:(lia)). lia.
Qed.
End V.

(** A run. Thread 0 writes entry 7 to slot 0 of table 0. Thread 1 allocates table 1 and copies to it, but there is no room: table 1 is aborted, and table 2 allocated. Threads 1 and 2 copy one slot each to table 2;
    thread 2, the last, replaces the root; thread 0, which waits, learns of it, uses table 2 and finds the entry there. Thread 3, which has not synchronised with anybody, still loads table 0. *)
Definition tot59 : nat → nat := λ _, 2.
Local Ltac fin :=
  lazymatch goal with
  | |- _ = _ => reflexivity
  | |- _ ≤ _ => apply Nat.leb_le; vm_compute; reflexivity
  | |- _ < _ => apply Nat.ltb_lt; vm_compute; reflexivity
  | |- (_, _) ∈ _ => vm_compute; by left
  | |- _ ∨ _ => first [left; reflexivity|right; eexists; reflexivity]
  | |- _ ≠ _ => discriminate
  | |- _ => idtac
  end.
Local Tactic Notation "go" constr(R) ident(R') uconstr(c) :=
  eassert (R' : reachable tot59 _); [eapply R_step; [exact R|]; let c' := open_constr:(c) in eapply c'; fin|clear R];
  lazymatch type of R' with reachable _ ?s => let s' := fresh "st" in set (s' := s) in R' end.
Example C59_example : ∃ s, reachable tot59 s ∧ pc s 0 = Use 2 ∧ pc s 3 = Use 0 ∧ map fst (root s) = [0; 2] ∧ list.last (ent s 0 0) ≠ None ∧ map fst (sta s 1) = [false] ∧
  hist s = [EFind 0 7; EUse 3 0 true; EUse 0 2 false; EUse 2 2 false; ECopy 0 2 0 5 7; EUse 2 0 true; EUse 1 0 true; EUse 0 0 true].
Proof.
  pose proof (R_init tot59) as R.
  go R R1 (S_root _ _ 0 0 0 bot).
  go R1 R2 (S_write _ _ 0 0 0 CNull (CEnt 7) bot).
  go R2 R3 (S_root _ _ 1 0 0 bot).
  go R3 R4 (S_alloc _ _ 1 0).
  go R4 R5 (S_help _ _ 1 0).
  go R5 R6 (S_claim _ _ 1 0 1 1).
  go R6 R7 (S_mark _ _ 1 0 1 0 [] [] (CEnt 7) false).
  go R7 R8 (S_full _ _ 1 0 1 0 7 [] []).
  go R8 R9 (S_abort _ _ 1 0 1).
  go R9 R10 (S_alloc _ _ 1 1).
  go R10 R11 (S_next _ _ 1 0 1).
  go R11 R12 (S_root _ _ 2 0 0 bot).
  go R12 R13 (S_help _ _ 2 0).
  go R13 R14 (S_aborted _ _ 2 0 1).
  go R14 R15 (S_next _ _ 2 0 1).
  go R15 R16 (S_claim _ _ 1 0 2 1).
  go R16 R17 (S_claim _ _ 2 0 2 1).
  go R17 R18 (S_mark _ _ 2 0 2 1 [] [] CNull false).
  go R18 R19 (S_mark _ _ 1 0 2 0 [] [] (CEnt 7) true).
  go R19 R20 (S_put _ _ 1 0 2 0 7 [] [] 5 bot).
  go R20 R21 (S_put_meta _ _ 1 0 2 0 7 5 [] [] 1).
  go R21 R22 (S_count _ _ 1 0 2 [0]).
  go R22 R23 (S_count _ _ 2 0 2 [1]).
  go R23 R24 (S_promote _ _ 2 0 2).
  go R24 R25 (S_promoted _ _ 2 0 2).
  go R25 R26 (S_help _ _ 0 0).
  go R26 R27 (S_aborted _ _ 0 0 1).
  go R27 R28 (S_next _ _ 0 0 1).
  go R28 R29 (S_waited _ _ 0 0 2).
  go R29 R30 (S_root _ _ 3 0 0 bot).
  go R30 R31 (S_read _ _ 0 2 5 1 (W (CEnt 7) false)).
  eexists. split; [exact R31|]. split; [reflexivity|]. split; [reflexivity|]. split; [vm_compute; reflexivity|]. split; [vm_compute; discriminate|]. split; vm_compute; reflexivity.
Qed.
