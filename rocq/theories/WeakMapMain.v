(** C54: one key of the map under weak memory: the invariant holds in all reachable states; the theorems. *)
From stdpp Require Import base list option numbers.
From Verif Require Import WeakMap WeakMapProof.
Local Open Scope nat_scope.

Section Main.
Context {V : Type} (plen extra : nat → nat).
Notation wst := (@wst V).
Notation Inv := (Inv plen extra). Notation PI := (PI plen extra). Notation VI := (VI plen). Notation Str := (Str plen). Notation Msg := (Msg plen extra).
Notation Cursor := (Cursor plen). Notation cover := (cover plen). Notation ext := (@ext V).
Implicit Types (s : wst) (w u : view) (x y : word).

Inductive hstep s s' i w' : Prop :=
  | h_none : hist s' = hist s → vn (vw s i) ≤ vn w' → hstep s s' i w'
  | h_start q : hist s' = EStart i q :: hist s → vn (vw s i) ≤ vn w' → hstep s s' i w'
  | h_rd q n r : hist s' = ERead i q n r :: hist s → vn (vw s i) ≤ vn w' → n ≤ vn w' → since s i ≤ n → log s' !! n = Some r →
      match q with Get => True | Cmp d => d r = Keep ∨ d r = Del ∧ r = None end → hstep s s' i w'
  | h_wr d n : hist s' = EWrite i d n :: hist s → vn (vw s i) ≤ vn w' → n ≤ vn w' → wrote s' (since s i) d n → hstep s s' i w'
  | h_sync j : hist s' = ESync i j :: hist s → vn (vw s i) ≤ vn w' → vn (vw s j) ≤ vn w' → hstep s s' i w'.
Lemma hstep_since s s' i w' i' : hstep s s' i w' → i' ≠ i → since s' i' = since s i'.
Proof. unfold since. intros [-> ?|q -> ?|q n r -> ?|d n -> ?|j -> ?] Hn; simpl; try done. by rewrite decide_False. Qed.
Lemma list_max_app' l l' : list_max (l ++ l') = list_max l `max` list_max l'.
Proof. apply list_max_app. Qed.
Lemma hstep_ok s s' i w' : Inv s → pre s s' → hstep s s' i w' → vw s' = fset (vw s) i w' → hist_ok s' (hist s') ∧ ∀ i', list_max (kn (hist s') i') ≤ vn (vw s' i').
Proof.
  intros I X H EV. pose proof (hist_pre _ _ _ X (i_hist _ _ _ I)) as HH. pose proof (i_kn _ _ _ I) as HN.
  assert (HV : ∀ i', vn (vw s' i') = if decide (i' = i) then vn w' else vn (vw s i')). { intros. rewrite EV. unfold fset. by destruct (decide _). }
  assert (HV' : ∀ i', vn (vw s i) ≤ vn w' → list_max (kn (hist s) i') ≤ vn (vw s' i')). { intros i' Hle. rewrite HV. pose proof (HN i'). destruct (decide _) as [->|]; lia. }
  destruct H as [-> ?|q -> ?|q n r -> H1 H2 H3 H4 H5|d n -> H1 H2 H3|j -> H1 H2].
  - split; [done|]. intros. by apply HV'.
  - split; [done|]. intros. by apply HV'.
  - split; [done|]. intros i'. specialize (HV' i' H1). rewrite HV in *. simpl. destruct (decide (i = i')) as [->|]; [|done]. rewrite decide_True in * by done. simpl. lia.
  - split; [done|]. intros i'. specialize (HV' i' H1). rewrite HV in *. simpl. destruct (decide (i = i')) as [->|]; [|done]. rewrite decide_True in * by done. simpl. lia.
  - split; [done|]. intros i'. specialize (HV' i' H1). rewrite HV in *. simpl. destruct (decide (i = i')) as [->|]; [|done]. rewrite decide_True in * by done. rewrite list_max_app.
    specialize (HN j). lia.
Qed.
Lemma inv_gen i s s' w' p' : Inv s → hstep s s' i w' → ext (λ i', i' = i) s s' → Str s' → Msg s' → vw s' = fset (vw s) i w' → pc s' = fset (pc s) i p' → VI s' w' → PI s' i w' p' → Inv s'.
Proof.
  intros I H X G M EV EP W P. destruct (hstep_ok s s' i w' I (x_pre _ _ _ X) H EV) as [H1 H2]. eapply (inv_step plen extra i s); [done|done|done|done| | | |done|done].
  - intros i' Hn. rewrite EV, EP. unfold fset. by rewrite !decide_False.
  - rewrite EV. unfold fset. by rewrite decide_True.
  - rewrite EV, EP. unfold fset. by rewrite !decide_True.
Qed.
Lemma pre_same s s' : ent s' = ent s → log s' = log s → length (root s) ≤ length (root s') → cp s' = cp s → pre s s'.
Proof. intros E1 E2 E3 E4. split; [intros; by rewrite E1|by rewrite E2|done|by rewrite E4]. Qed.
Lemma ext_same E s s' : ent s' = ent s → log s' = log s → length (root s) ≤ length (root s') → cp s' = cp s → own s' = own s → don s' = don s → (∀ i, ¬ E i → since s' i = since s i) → ext E s s'.
Proof.
  intros E1 E2 E3 E4 E5 E6 E7. split; [by apply pre_same|by rewrite E5| |done]. intros i t k Hi Ho. unfold lw. rewrite E1, E4, E6. done.
Qed.
(** Steps that change nothing but the thread, the metadata, the next pointers, the root. *)
Lemma inv_mem i s s' w' p' : Inv s → hstep s s' i w' → ent s' = ent s → log s' = log s → length (root s) ≤ length (root s') → cp s' = cp s → own s' = own s → don s' = don s →
  Msg s' → vw s' = fset (vw s) i w' → pc s' = fset (pc s) i p' → VI s w' → PI s' i w' p' → Inv s'.
Proof.
  intros I H E1 E2 E3 E4 E5 E6 M EV EP W P. eapply (inv_gen i s s'); try done.
  - apply ext_same; try done. intros i' Hi. by eapply hstep_since.
  - eapply Str_eq; try done. apply I.
  - eapply VI_pre; [|done]. by apply pre_same.
Qed.
Lemma Msg_same s s' : Msg s → ent s' = ent s → log s' = log s → root s' = root s → cp s' = cp s → own s' = own s → don s' = don s → met s' = met s → nxt s' = nxt s → Msg s'.
Proof.
  intros M E1 E2 E3 E4 E5 E6 E7 E8. eapply Msg_ext; [exact M|apply pre_same; [done|done|by rewrite E3|done]|by rewrite E5|done|..]; intros; left; congruence.
Qed.
Lemma PI_le E s s' i w w' p : ext E s s' → ¬ E i → vle w w' → PI s i w p → PI s' i w' p.
Proof. apply PI_ext. Qed.
(** Only the thread changes. *)
Lemma inv0 i s s' w' p' : Inv s → hstep s s' i w' → since s' i = since s i → ent s' = ent s → log s' = log s → root s' = root s → cp s' = cp s → own s' = own s → don s' = don s → met s' = met s → nxt s' = nxt s →
  vw s' = fset (vw s) i w' → pc s' = fset (pc s) i p' → VI s w' → PI s i w' p' → Inv s'.
Proof.
  intros I H ES E1 E2 E3 E4 E5 E6 E7 E8 EV EP W P. eapply (inv_mem i s s' w' p'); try done; [by rewrite E3|eapply Msg_same; eauto; apply I|].
  eapply (PI_ext plen extra (λ i', i' ≠ i) s s'); [|naive_solver|apply vle_refl|exact P]. apply ext_same; try done; [by rewrite E3|].
  intros i' Hi'. destruct (decide (i' = i)) as [->|]; [done|]. destruct Hi'. done.
Qed.
Lemma inv_thr i s w' p' : Inv s → VI s w' → vn (vw s i) ≤ vn w' → PI s i w' p' → Inv (thr i w' p' s).
Proof. intros. eapply (inv0 i s _ w' p'); try done. by apply h_none. Qed.
Lemma inv_rd i s w' q n r : Inv s → VI s (join w' (at_n n)) → vn (vw s i) ≤ vn w' → since s i ≤ n → log s !! n = Some r → match q with Get => True | Cmp d => d r = Keep ∨ d r = Del ∧ r = None end →
  Inv (ret_rd i w' q n r s).
Proof. intros. eapply (inv0 i s _ (join w' (at_n n)) Idle); try done. eapply h_rd; try done; simpl; lia. Qed.
(** A store of metadata. *)
Lemma inv_met i s s' w w' p' t j k a u : Inv s → hstep s s' i w' → since s' i = since s i → ent s' = ent s → log s' = log s → root s' = root s → cp s' = cp s → own s' = own s → don s' = don s →
  met s' = fset2 (met s) t j (fset (met s t j) k (Some (a, u))) → nxt s' = nxt s → vw s' = fset (vw s) i w' → pc s' = fset (pc s) i p' →
  VI s w → k ≠ 0 → u = join w (at_m t j k) → (a = MH2 ∧ known s w t j nonnull ∨ (a = MOther ∨ a = MTomb ∨ a = MH2) ∧ known s w t j dead) → VI s w' → PI s i w' p' → Inv s'.
Proof.
  intros I H ES E1 E2 E3 E4 E5 E6 E7 E8 EV EP W Hk Eu Ha W' P. assert (X : pre s s') by (apply pre_same; try done; by rewrite E3).
  eapply (inv_mem i s s' w' p'); try done; [by rewrite E3| |].
  - eapply (Msg_ext plen extra s); [apply I|done|by rewrite E5|done|..]; [intros; left; congruence| |intros; left; congruence|intros; left; congruence].
    intros t0 j0 k0 a0 u0. rewrite E7. unfold fset2. destruct (decide (t0 = t ∧ j0 = j)) as [[-> ->]|]; [|by left]. unfold fset. destruct (decide (k0 = k)) as [->|]; [|by left].
    intros [= <- <-]. right. rewrite Eu. split; [eapply VI_pre; [done|by apply VI_m]|]. split; [done|].
    destruct Ha as [[-> K]|[? K]]; [left|right]; (split; [done|]); (eapply known_le; [exact X|apply vle_l|exact K]).
  - eapply (PI_ext plen extra (λ i', i' ≠ i) s s'); [|naive_solver|apply vle_refl|exact P]. apply ext_same; try done; [by rewrite E3|].
    intros i' Hi'. destruct (decide (i' = i)) as [->|]; [done|]. destruct Hi'. done.
Qed.

Lemma Cursor_S s w a t j : Cursor s w a t j → j < plen t → deadm s w t j → Cursor s w a t (S j).
Proof.
  intros (r & H1 & H2 & H3 & H4 & H5 & H6 & H7) Hj D. exists r. repeat (split; [done|]). split; [|split; [lia|done]]. intros j0 ?. destruct (decide (j0 = j)) as [->|]; [done|apply H5; lia].
Qed.
Lemma Cursor_next s w a t k : Cursor s w a t k → k = plen t ∨ k < plen t ∧ gonem s w t k → vx w t = true → Cursor s w a (S t) 0.
Proof.
  intros (r & H1 & H2 & H3 & H4 & H5 & H6 & H7) Hk X. exists r. split; [lia|]. split; [done|]. split; [done|]. split; [|split; [intros; lia|split; [lia|done]]].
  intros t0 Ha Hb. destruct (decide (t0 = t)) as [->|]; [|apply H4; lia]. split; [done|]. by exists k.
Qed.
Lemma found_rd s w w' a t j k x u : Str s → Cursor s w a t j → j < plen t → ve w t j ≤ k → ent s t j !! k = Some (x, u) → x ≠ NULL → k ≤ ve w' t j → found s w' a t j x.
Proof.
  intros G C Hj Hk Hx Hn Hk'. assert (M : mg s t j k x) by (by exists u). split; [by exists k|]. split; [done|]. intros n Hm Hc. by eapply (read_mine plen extra).
Qed.
Lemma rd_e s w w' u t j k : w' = join (join w (at_e t j k)) u → vle w w' ∧ vle u w' ∧ k ≤ ve w' t j ∧ vm w t j ≤ vm w' t j.
Proof.
  intros ->. split; [eapply vle_trans; apply vle_l|]. split; [apply vle_r|]. simpl. unfold one2. rewrite decide_True by done. lia.
Qed.
Lemma rd_m s w w' u t j k : w' = join (join w (at_m t j k)) u → vle w w' ∧ vle u w' ∧ k ≤ vm w' t j.
Proof.
  intros ->. split; [eapply vle_trans; apply vle_l|]. split; [apply vle_r|]. simpl. unfold one2. rewrite decide_True by done. lia.
Qed.


(** A new message of an entry slot. *)
Lemma inv_ent i s s' t j y x u' w' p' : Inv s → hstep s s' i w' → ent s' = fset2 (ent s) t j (ent s t j ++ [(x, u')]) → own s' = own s → don s' = don s → met s' = met s → nxt s' = nxt s → root s' = root s →
  pre s s' → lw s t j = Some y → Str s' → (∀ t0 k0 i', i' ≠ i → own s t0 k0 = Some i' → cp s' t0 k0 = cp s t0 k0) →
  (∀ i', i' ≠ i → own s t j = Some i' → copying y = false ∧ copying x = false) → VI s' u' → length (ent s t j) ≤ ve u' t j →
  vw s' = fset (vw s) i w' → pc s' = fset (pc s) i p' → VI s' w' → PI s' i w' p' → Inv s'.
Proof.
  intros I H EE EO ED EM EN ER X Ly G' HC HO Wu Hu EV EP W' P. eapply (inv_gen i s s' w' p'); try done.
  - eapply (ext_add s s' t j y x u'); try done. intros i' Hi'. by eapply hstep_since.
  - eapply (Msg_ext plen extra s); [apply I|done|by rewrite EO|done| |intros; left; congruence|intros; left; congruence|intros; left; congruence].
    intros t0 j0 k0 x0 u0. rewrite EE. unfold fset2. destruct (decide (t0 = t ∧ j0 = j)) as [[-> ->]|]; [|by left]. intros E. apply lookup_app_Some in E as [E|[E1 E2]]; [by left|].
    apply list_lookup_singleton_Some in E2 as [E2 [= <- <-]]. right. split; [done|]. lia.
Qed.
Lemma nokey s t k n t' j' k' x : Str s → lw s t k = Some (W (CMine n) true false) → cp s t k = None → t < t' → mg s t' j' k' x → x ≠ NULL → dead x.
Proof.
  intros G Hl Hc Ht Hm Hn. pose proof (g_cp _ _ G _ _ _ _ Hl) as H. rewrite Hc in H. destruct H as [_ NK]. destruct (words_ok plen s G _ _ _ _ Hm) as [Hw _].
  assert (Hk : kidx x = None → dead x). { unfold kidx, dead. destruct (wc x) as [| | |] eqn:E; try done. intros _. by destruct Hw. }
  destruct (kidx x) as [m|] eqn:E; [|by apply Hk]. exfalso. eapply (NK t' j' k' m); [by exists x|by left].
Qed.
Lemma cpath_S s w t t' j' : cpath plen s w t t' j' → deadm s w t' j' → cpath plen s w t t' (S j').
Proof. intros (H1 & H2 & H3) D. split; [done|]. split; [done|]. intros j0 ?. destruct (decide (j0 = j')) as [->|]; [done|apply H3; lia]. Qed.
Lemma log_mine s t j k n b c : Str s → mg s t j k (W (CMine n) b c) → ∃ v, log s !! n = Some (Some v) ∧ val s n = Some v.
Proof. intros G H. destruct (g_log _ _ G _ _ _ _ n H eq_refl) as [_ [v E]]. exists v. split; [done|]. unfold val. by rewrite E. Qed.
Lemma pigeon (l : list nat) (n : nat) : NoDup l → (∀ a : nat, a ∈ l → a < n) → n ≤ length l → ∀ a : nat, a < n → a ∈ l.
Proof.
  intros ND HB HL a Hx. apply elem_of_list_In. assert (HI : incl (seq 0 n) l).
  { apply NoDup_length_incl; [by apply NoDup_ListNoDup|by rewrite seq_length|]. intros b Hy. apply in_seq. apply elem_of_list_In in Hy. apply HB in Hy. lia. }
  apply HI, in_seq. lia.
Qed.

Theorem inv_pres s s' : Inv s → wstep plen extra s s' → Inv s'.
Proof.
  intros I St. pose proof (i_str _ _ _ I) as G. pose proof (i_msg _ _ _ I) as M. pose proof (i_vi _ _ _ I) as HW.
  destruct St.
  - (* S_start *) pose proof (i_kn _ _ _ I i). eapply (inv_mem i s _ (vw s i) (Root0 q)); try done; [by apply (h_start _ _ _ _ q)|by apply (Msg_same s)|].
    simpl. unfold since. simpl. rewrite decide_True; done.
  - (* S_root *) destruct (m_root _ _ _ M _ _ H0) as [Wu Hu]. pose proof (i_pi _ _ _ I i) as P. rewrite H in P. simpl in P.
    pose proof (lookup_lt_Some _ _ _ H0).
    eapply inv_thr; [done|by apply VI_join; [apply VI_r|]|simpl; lia|]. simpl. exists k. split; [done|]. split; [simpl; lia|].
    assert (L : vle (vw s i) (rdv o_root (vw s i) (at_r k) u)) by (eapply vle_trans; apply vle_l).
    split; [intros t0 j0 ? ?; eapply known_le; [apply pre_refl|apply vle_r|]; by apply Hu|]. split; [intros; lia|]. split; [intros; lia|]. split; [lia|].
    destruct (v_vn _ _ _ (HW i)) as [E|(t & j & k0 & K & C)]; [left; lia|right]. exists (vn (vw s i)), t, j, k0. split; [done|]. split; [done|]. eapply cover_le; [apply pre_refl|exact L|exact H1|exact C].
  - (* S_meta_none *) destruct (m_met _ _ _ M _ _ _ _ _ H1) as (Wu & E1 & E2 & _). rewrite (proj1 E1 eq_refl) in *. rewrite (E2 eq_refl) in *. pose proof (i_pi _ _ _ I i) as P. rewrite H in P. simpl in P.
    destruct (rd_m s _ (rdv o_meta (vw s i) (at_m t j 0) bot) _ _ _ _ eq_refl) as (L & _ & _). assert (W' : VI s (rdv o_meta (vw s i) (at_m t j 0) bot)) by (apply VI_join; [by apply VI_m|done]).
    destruct (none_before plen extra s G _ _ t j W' (Cursor_le plen s s _ _ _ _ _ (pre_refl s) L P)) as (N1 & N2 & N3).
    { left. split; [done|]. simpl. unfold one2. rewrite decide_True by done. lia. }
    eapply inv_rd; [done|by apply VI_nc|simpl; lia|done|done|]. destruct q as [|d]; [done|]. simpl in H3. destruct (d None); [by left|done|by right].
  - (* S_meta_ins *) destruct (m_met _ _ _ M _ _ _ _ _ H1) as (Wu & E1 & E2 & _). pose proof (i_pi _ _ _ I i) as P. rewrite H in P. simpl in P.
    destruct (rd_m s _ (rdv o_meta (vw s i) (at_m t j k) u) _ _ _ _ eq_refl) as (L & _ & _).
    eapply inv_thr; [done|apply VI_join; [by apply VI_m|done]|apply L|]. split; [done|]. split; [|done]. eapply Cursor_le; [apply pre_refl|exact L|done].
  - (* S_meta_pass *) destruct (m_met _ _ _ M _ _ _ _ _ H1) as (Wu & E1 & E2 & _ & E4). pose proof (i_pi _ _ _ I i) as P. rewrite H in P. simpl in P.
    destruct (rd_m s _ (rdv o_meta (vw s i) (at_m t j k) u) _ _ _ _ eq_refl) as (L & L' & L3).
    eapply inv_thr; [done|apply VI_join; [by apply VI_m|done]|apply L|]. apply Cursor_S; [eapply Cursor_le; [apply pre_refl|exact L|done]|done|].
    split; [eapply known_le; [apply pre_refl|exact L'|by apply E4]|]. assert (k ≠ 0); [|lia]. intros ->. pose proof (proj2 E1 eq_refl) as ->. by destruct H3.
  - (* S_meta_h2 *) destruct (m_met _ _ _ M _ _ _ _ _ H1) as (Wu & E1 & E2 & E3 & E4). pose proof (i_pi _ _ _ I i) as P. rewrite H in P. simpl in P.
    destruct (rd_m s _ (rdv o_meta (vw s i) (at_m t j k) u) _ _ _ _ eq_refl) as (L & L' & L3).
    eapply inv_thr; [done|apply VI_join; [by apply VI_m|done]|apply L|]. split; [done|]. split; [eapply Cursor_le; [apply pre_refl|exact L|done]|].
    split; [|eapply known_le; [apply pre_refl|exact L'|by apply E3]]. assert (k ≠ 0); [|lia]. intros ->. by pose proof (proj2 E1 eq_refl).
  - (* S_over *) pose proof (i_pi _ _ _ I i) as P. rewrite H in P. simpl in P. eapply inv_thr; [done|apply HW|done|]. exists (plen t). split; [done|by left].
  - (* S_next *) pose proof (i_pi _ _ _ I i) as P. rewrite H in P. destruct P as (k & C & Hk). assert (L : vle (vw s i) (rdv o_next (vw s i) (at_x t) u)) by (eapply vle_trans; apply vle_l).
    eapply inv_thr; [done|apply VI_join; [by apply VI_x|by eapply (m_nxt _ _ _ M)]|apply L|]. eapply (Cursor_next _ _ _ t k); [eapply Cursor_le; [apply pre_refl|exact L|done]| |].
    + destruct Hk as [|[? ?]]; [by left|right]. split; [done|]. eapply gonem_le; [apply pre_refl|exact L|done].
    + simpl. rewrite bool_decide_true by done. by rewrite orb_true_r.
  - (* S_next_none *) pose proof (i_pi _ _ _ I i) as P. rewrite H in P. destruct P as (k & C & Hk). assert (k = plen t) as ->.
    { destruct Hk as [|[_ [Gk _]]]; [done|]. destruct (v_gone _ _ _ (HW i) _ _ Gk) as (_ & _ & _ & E & _). congruence. }
    destruct (none_before plen extra s G _ _ t (plen t) (HW i) C) as (N1 & N2 & N3); [by right|].
    eapply inv_rd; [done|by apply VI_nc|done|done|done|]. destruct q as [|d]; [done|]. simpl in H1. destruct (d None); [by left|done|by right].
  - (* S_ent *) pose proof (i_pi _ _ _ I i) as P. rewrite H in P. destruct P as (P1 & P2 & P3 & P4). destruct (m_ent _ _ _ M _ _ _ _ _ H0) as [Wu Hu].
    destruct (rd_e s _ (rdv o_ent (vw s i) (at_e t j k) u) _ _ _ _ eq_refl) as (L & L' & L3 & L4).
    eapply inv_thr; [done|by apply VI_rd_e|apply L|]. split; [done|]. split; [eapply Cursor_le; [apply pre_refl|exact L|done]|]. split; [lia|].
    eapply found_rd; [done|exact P2|done|done|done| |done]. eapply (known_at plen s G nonnull); [intros ? ? T _; by eapply tr_nonnull|exact P4|exact H1|by exists u].
  - (* S_pass *) pose proof (i_pi _ _ _ I i) as P. rewrite H in P. destruct P as (P1 & P2 & P3 & (k & Hk & Hx) & P5 & P6). eapply inv_thr; [done|apply HW|done|]. apply Cursor_S; [done|done|].
    split; [|done]. exists k, x. split; [done|]. split; [done|]. destruct (words_ok plen s G _ _ _ _ Hx) as [Hw _]. unfold disp in H0. unfold dead. destruct (wc x) as [|n|n|]; try done.
    + by destruct Hw.
    + destruct q as [|d]; [by destruct (copied x)|]. destruct (copying x); [done|]. by destruct (d _).
  - (* S_ret *) pose proof (i_pi _ _ _ I i) as P. rewrite H in P. destruct P as (P1 & P2 & P3 & (k & Hk & Hx) & P5 & P6). destruct (words_ok plen s G _ _ _ _ Hx) as [_ Hw].
    assert (∃ b, x = W (CMine n) b false ∧ match q with Get => True | Cmp d => d (val s n) = Keep end) as (b & -> & Hq).
    { unfold disp in H0. destruct x as [[|m|m|] b c]; simpl in *; try done. destruct q as [|d].
      - destruct c; [done|]. injection H0 as ->. by exists b.
      - destruct b; [done|]. destruct c; [by destruct Hw as [? [=]]|]. destruct (d (val s m)) eqn:Ed; try done. injection H0 as ->. by exists false. }
    destruct (log_mine _ _ _ _ _ _ _ G Hx) as (v & Hv & Ev). rewrite Ev in *. eapply inv_rd; [done|eapply VI_n; [done|exact P2|by exists (W (CMine n) b false)|done|done]|done|by apply P6|done|].
    destruct q; [done|]. by left.
  - (* S_move *) pose proof (i_pi _ _ _ I i) as P. rewrite H in P. destruct P as (P1 & P2 & P3 & (k & Hk & Hx) & P5 & P6). destruct (words_ok plen s G _ _ _ _ Hx) as [_ Hw].
    eapply inv_thr; [done|apply HW|done|]. exists j. split; [done|]. right. split; [done|]. split; [|done]. exists k, x. split; [done|]. split; [done|].
    unfold disp in H0. destruct x as [[|m|m|] b c]; simpl in *; try done. destruct q as [|d]; [|destruct b; [done|]; by destruct (d _)]. destruct c; [|done]. destruct Hw as [n' [= -> ->]]; [done|]. done.
  - (* S_wait *) pose proof (i_pi _ _ _ I i) as P. rewrite H in P. destruct P as (P1 & P2 & P3 & _). by eapply inv_thr.
  - (* S_up *) pose proof (i_pi _ _ _ I i) as P. rewrite H in P. destruct P as (P1 & P2 & P3 & (k & Hk & Hx) & P5 & P6). destruct (words_ok plen s G _ _ _ _ Hx) as [_ Hw].
    eapply inv_thr; [done|apply HW|done|]. split; [done|]. split; [done|]. split; [done|].
    unfold disp in H0. destruct x as [[|m|m|] b c]; simpl in *; try done. destruct q as [|d]; [by destruct c|]. destruct b; [done|]. assert (m = n) as -> by (destruct (d _); congruence).
    destruct c; [by destruct Hw as [? [=]]|]. split; [by apply P6|]. exists k, (W (CMine n) false false). by split.
  - (* S_waited *) pose proof (i_pi _ _ _ I i) as P. rewrite H in P. destruct P as (P1 & P2 & P3). destruct (m_ent _ _ _ M _ _ _ _ _ H0) as [Wu Hu].
    destruct (rd_e s _ (rdv o_ent (vw s i) (at_e t j k) u) _ _ _ _ eq_refl) as (L & L' & L3 & L4). assert (Hx : mg s t j k x) by (by exists u). destruct (words_ok plen s G _ _ _ _ Hx) as [_ Hw].
    eapply inv_thr; [done|by apply VI_rd_e|apply L|]. exists j. split; [eapply Cursor_le; [apply pre_refl|exact L|done]|]. right. split; [done|]. split; [|lia]. exists k, x. split; [done|]. split; [done|].
    destruct Hw as [n ->]; [done|]. done.
  - (* S_in_ok *) pose proof (i_pi _ _ _ I i) as P. rewrite H in P. destruct P as (P1 & P2 & P3). destruct (last_msg _ _ _ _ _ H0) as [Hm Hp]. apply lw_of in H0 as Hl.
    destruct (m_ent _ _ _ M _ _ _ _ _ Hm) as [Wu Hu]. destruct (ins_last plen extra s G _ _ t j (HW i) P2 P1 Hl) as (N1 & N2 & N3 & N4 & N5 & N6 & N7).
    set (u' := join u (wrv o_cas (vw s i) (at_e t j k))). set (s' := thr _ _ _ _). set (x := W (CMine n) false false).
    assert (EE : ent s' = fset2 (ent s) t j (ent s t j ++ [(x, u')])) by done. assert (T : tr NULL x) by (split; [done|left; by eexists]).
    assert (X : pre s s') by (eapply (pre_add s s' t j x u'); try done; by eexists).
    assert (W' : VI s' (join (vw s i) (at_e t j k))) by (refine (VI_new plen s s' G t j NULL x u' EE Hl T _ (HW i) X _); by intros []). assert (L := vle_l (vw s i) (at_e t j k)).
    assert (Hve : k ≤ ve (join (vw s i) (at_e t j k)) t j) by (simpl; unfold one2; rewrite decide_True by done; lia). pose proof (mg_new s s' t j x u' EE) as Hnew.
    eapply (inv_ent i s s' t j NULL x u' (join (vw s i) (at_e t j k)) (Ms d t j MH2 n)); try done.
    + apply h_none; [done|apply L].
    + refine (Str_write plen s s' G t j NULL x u' EE eq_refl Hl T (Some v) eq_refl eq_refl eq_refl eq_refl P1 _ _ N5 N6 N7); [by eexists|]. intros t' j' k' n' K Hs. apply N4 in K. unfold slt in *. lia.
    + apply VI_join; [by eapply VI_pre|done].
    + etransitivity; [exact Hve|]. apply (l_ve _ _ (vle_r _ _)).
    + split; [done|]. split; [eapply Cursor_le; [exact X|exact L|exact P2]|]. split; [|split].
      * split; [exact N3|]. exists None, (Some v). split; [apply lookup_app_l_Some; exact N1|]. split; [simpl; by rewrite lookup_app_r, Nat.sub_diag by done|].
        simpl in P3. destruct (d None); congruence.
      * exists k. split; [done|]. by exists x.
      * left. split; [done|]. exists k, x. done.
  - (* S_in_fail *) pose proof (i_pi _ _ _ I i) as P. rewrite H in P. destruct P as (P1 & P2 & P3). destruct (m_ent _ _ _ M _ _ _ _ _ H0) as [Wu Hu].
    destruct (rd_e s _ (rdv o_cas_fail (vw s i) (at_e t j k) u) _ _ _ _ eq_refl) as (L & L' & L3 & L4).
    eapply inv_thr; [done|by apply VI_rd_e|apply L|]. split; [done|]. split; [eapply Cursor_le; [apply pre_refl|exact L|done]|]. by eapply found_rd.
  - (* S_fix_skip *) pose proof (i_pi _ _ _ I i) as P. rewrite H in P. destruct P as (P1 & P2 & P3). destruct (m_met _ _ _ M _ _ _ _ _ H0) as (_ & E1 & _).
    destruct (rd_m s _ (rdv o_meta_fix (vw s i) (at_m t j k) u) _ _ _ _ eq_refl) as (L & _ & L3).
    eapply inv_thr; [done|by apply VI_bj, VI_m|apply L|]. split; [done|]. split; [eapply Cursor_le; [apply pre_refl|exact L|done]|]. split; [|eapply found_le; [apply pre_refl|exact L|done]].
    assert (k ≠ 0); [|lia]. intros ->. by apply H2, E1.
  - (* S_fix *) pose proof (i_pi _ _ _ I i) as P. rewrite H in P. destruct P as (P1 & P2 & P3). destruct H0 as [_ Hk]. assert (L := vle_l (vw s i) (at_m t j k)).
    eapply (inv_met i s _ (vw s i) (join (vw s i) (at_m t j k)) (Fd q t j x) t j k m); try done; [by apply h_none, L|lia| |by apply VI_m|].
    + destruct P3 as ((k0 & Hk0 & Hx) & Hn & _). destruct (words_ok plen s G _ _ _ _ Hx) as [Hw _]. unfold fix_meta in H1.
      assert (D : (wc x = CMine 0 → False) → dead x → known s (vw s i) t j dead) by (intros _ ?; by exists k0, x). unfold dead in D.
      destruct (wc x) as [|n|n|] eqn:Ex.
      * right. split; [tauto|]. apply D; [done|]. by destruct Hw.
      * left. split; [done|]. by exists k0, x.
      * right. split; [tauto|]. by apply D.
      * right. split; [tauto|]. by apply D.
    + split; [done|]. split; [eapply Cursor_le; [apply pre_refl|exact L|done]|]. split; [|eapply found_le; [apply pre_refl|exact L|done]]. simpl. unfold one2. rewrite decide_True by done. lia.
  - (* S_up_put *) pose proof (i_pi _ _ _ I i) as P. rewrite H in P. destruct P as (P1 & P2 & P3 & P4 & P5). destruct (last_msg _ _ _ _ _ H0) as [Hm Hp]. apply lw_of in H0 as Hl.
    destruct (m_ent _ _ _ M _ _ _ _ _ Hm) as [Wu Hu]. pose proof (is_last plen extra s G _ _ _ P1 Hl) as En.
    assert (Mn : mg s t j (length (ent s t j) - 1) (W (CMine n) false false)) by (by exists u). assert (Kn : kmsg s t j (length (ent s t j) - 1) n) by (by eexists).
    destruct (g_path _ _ G _ _ _ _ Kn) as [N5 N6]. destruct (log_mine _ _ _ _ _ _ _ G Mn) as (v0 & Hv0 & Ev0).
    set (u' := join u (wrv o_cas (vw s i) (at_e t j k))). set (s' := ret_wr _ _ _ _ _). set (x := W (CMine n') false false).
    assert (EE : ent s' = fset2 (ent s) t j (ent s t j ++ [(x, u')])) by done. assert (T : tr (W (CMine n) false false) x) by (left; split; [done|left; exists n'; by left]).
    assert (X : pre s s') by (eapply (pre_add s s' t j x u'); try done; by eexists).
    assert (W' : VI s' (join (vw s i) (at_e t j k))) by (refine (VI_new plen s s' G t j _ x u' EE Hl T _ (HW i) X _); by intros []). assert (L := vle_l (vw s i) (at_e t j k)).
    assert (Hve : k ≤ ve (join (vw s i) (at_e t j k)) t j) by (simpl; unfold one2; rewrite decide_True by done; lia). pose proof (mg_new s s' t j x u' EE) as Hnew.
    eapply (inv_ent i s s' t j (W (CMine n) false false) x u' (join (join (vw s i) (at_e t j k)) (at_n n')) Idle); try done.
    + eapply (h_wr _ _ _ _ d n'); [done|simpl; lia|simpl; lia|]. split; [lia|]. exists (Some v0), (Some v). split; [replace (n' - 1) with n by lia; apply lookup_app_l_Some; exact Hv0|].
      split; [simpl; by rewrite lookup_app_r, Nat.sub_diag by done|]. rewrite <- Ev0, H1. done.
    + refine (Str_write plen s s' G t j _ x u' EE eq_refl Hl T (Some v) eq_refl eq_refl eq_refl eq_refl P1 _ _ N5 N6 _); [by eexists|..].
      * intros t' j' k' m' K Hs. refine (nothing_after plen extra s G t j _ _ _ _ _ P1 Hl _ _ N5 K Hs); by intros ?.
      * intros t0 j0 n0 b Hs Hl0 Hc. pose proof (g_cp _ _ G _ _ _ _ Hl0) as Hg. rewrite Hc in Hg. destruct Hg as [_ Hg]. by eapply Hg.
    + apply VI_join; [by eapply VI_pre|done].
    + etransitivity; [exact Hve|]. apply (l_ve _ _ (vle_r _ _)).
    + eapply VI_n; [done|eapply Cursor_le; [exact X|exact L|exact P2]|by exists x|done|]. simpl. lia.
  - (* S_up_del *) pose proof (i_pi _ _ _ I i) as P. rewrite H in P. destruct P as (P1 & P2 & P3 & P4 & P5). destruct (last_msg _ _ _ _ _ H0) as [Hm Hp]. apply lw_of in H0 as Hl.
    destruct (m_ent _ _ _ M _ _ _ _ _ Hm) as [Wu Hu]. pose proof (is_last plen extra s G _ _ _ P1 Hl) as En.
    assert (Mn : mg s t j (length (ent s t j) - 1) (W (CMine n) false false)) by (by exists u). assert (Kn : kmsg s t j (length (ent s t j) - 1) n) by (by eexists).
    destruct (g_path _ _ G _ _ _ _ Kn) as [N5 N6]. destruct (log_mine _ _ _ _ _ _ _ G Mn) as (v0 & Hv0 & Ev0).
    set (u' := join u (wrv o_cas (vw s i) (at_e t j k))). set (s' := thr _ _ _ _). set (x := W (CTomb n') false false).
    assert (EE : ent s' = fset2 (ent s) t j (ent s t j ++ [(x, u')])) by done. assert (T : tr (W (CMine n) false false) x) by (left; split; [done|left; exists n'; by right]).
    assert (X : pre s s') by (eapply (pre_add s s' t j x u'); try done; by eexists).
    assert (W' : VI s' (join (vw s i) (at_e t j k))) by (refine (VI_new plen s s' G t j _ x u' EE Hl T _ (HW i) X _); by intros []). assert (L := vle_l (vw s i) (at_e t j k)).
    assert (Hve : k ≤ ve (join (vw s i) (at_e t j k)) t j) by (simpl; unfold one2; rewrite decide_True by done; lia). pose proof (mg_new s s' t j x u' EE) as Hnew.
    eapply (inv_ent i s s' t j (W (CMine n) false false) x u' (join (vw s i) (at_e t j k)) (Ms d t j MTomb n')); try done.
    + apply h_none; [done|apply L].
    + refine (Str_write plen s s' G t j _ x u' EE eq_refl Hl T None eq_refl eq_refl eq_refl eq_refl P1 eq_refl _ N5 N6 _).
      * intros t' j' k' m' K Hs. refine (nothing_after plen extra s G t j _ _ _ _ _ P1 Hl _ _ N5 K Hs); by intros ?.
      * intros t0 j0 n0 b Hs Hl0 Hc. pose proof (g_cp _ _ G _ _ _ _ Hl0) as Hg. rewrite Hc in Hg. destruct Hg as [_ Hg]. by eapply Hg.
    + apply VI_join; [by eapply VI_pre|done].
    + etransitivity; [exact Hve|]. apply (l_ve _ _ (vle_r _ _)).
    + split; [done|]. split; [eapply Cursor_le; [exact X|exact L|exact P2]|]. split; [|split].
      * change (since s' i) with (since s i). split; [lia|]. exists (Some v0), None. split; [replace (n' - 1) with n by lia; apply lookup_app_l_Some; exact Hv0|].
        split; [simpl; by rewrite lookup_app_r, Nat.sub_diag by done|]. rewrite <- Ev0, H1, Ev0. done.
      * exists k. split; [done|]. by exists x.
      * right. split; [done|]. exists k, x. done.
  - (* S_up_fail *) pose proof (i_pi _ _ _ I i) as P. rewrite H in P. destruct P as (P1 & P2 & P3 & P4 & P5). destruct (m_ent _ _ _ M _ _ _ _ _ H0) as [Wu Hu].
    destruct (rd_e s _ (rdv o_cas_fail (vw s i) (at_e t j k) u) _ _ _ _ eq_refl) as (L & L' & L3 & L4).
    eapply inv_thr; [done|by apply VI_rd_e|apply L|]. split; [done|]. split; [eapply Cursor_le; [apply pre_refl|exact L|done]|]. split; [lia|].
    eapply found_rd; [done|exact P2|done|done|done| |done]. eapply (known_at plen s G nonnull); [intros ? ? T _; by eapply tr_nonnull| |exact H1|by exists u].
    destruct P5 as (k0 & y & A & B & C). exists k0, y. split; [done|]. split; [done|]. intros ->. done.
  - (* S_up_gone *) pose proof (i_pi _ _ _ I i) as P. rewrite H in P. destruct P as (P1 & P2 & P3 & P4 & P5). destruct (m_ent _ _ _ M _ _ _ _ _ H0) as [Wu Hu].
    destruct (rd_e s _ (rdv o_cas_fail (vw s i) (at_e t j k) u) _ _ _ _ eq_refl) as (L & L' & L3 & L4). assert (Mx : mg s t j k (W (CTomb n') b c)) by (by exists u).
    assert (Kx : kmsg s t j k n') by (by eexists). eapply inv_rd; [done| |apply L| | |].
    + eapply VI_n; [by apply VI_rd_e|eapply Cursor_le; [apply pre_refl|exact L|exact P2]|exact Kx|done|lia].
    + destruct P5 as (k0 & y & A & B & C). etransitivity; [exact P4|]. eapply (g_mono _ _ G); [by exists y|exact Kx|]. right. split; [done|]. split; [done|]. lia.
    + by destruct (g_log _ _ G _ _ _ _ n' Mx eq_refl).
    + destruct q as [|d]; [done|]. simpl in H2. destruct (d None); [by left|done|by right].
  - (* S_ms *) pose proof (i_pi _ _ _ I i) as P. rewrite H in P. destruct P as (P1 & P2 & P3 & (k0 & Hk0 & K) & P5). destruct H0 as [_ Hk]. assert (L := vle_l (vw s i) (at_m t j k)).
    eapply (inv_met i s _ (vw s i) (join (join (vw s i) (at_m t j k)) (at_n n)) Idle t j k m); try done; [|lia| |].
    + eapply (h_wr _ _ _ _ d n); [done|simpl; lia|simpl; lia|done].
    + destruct P5 as [[-> ?]|[-> ?]]; [by left|right; tauto].
    + eapply VI_n; [by apply VI_m|eapply Cursor_le; [apply pre_refl|exact L|exact P2]|exact K|simpl; lia|]. simpl. unfold one2. rewrite decide_True by done. lia.
  - (* S_claim *) eapply (inv_gen i s _ (vw s i) (if decide (k < plen t) then Cc t k else Cd t k)); try done; [by apply h_none| | | | |].
    + split; [by split| |by intros|done]. intros t0 k0 i0 Ho. simpl. unfold fset2. destruct (decide _) as [[-> ->]|]; [congruence|done].
    + destruct G as [G1 G2 G3 G4 G5 G6 G7 G8 G9 G10 G11]. split; [exact G1|exact G2|exact G3|exact G4|exact G5|exact G6|exact G7|exact G8|exact G9|exact G10|].
      intros t0 j0 Ho. apply G11. simpl in Ho. unfold fset2 in Ho. by destruct (decide _).
    + eapply (Msg_ext plen extra s); [done|by split| |done|by left..]. intros t0 k0 Ho. simpl. unfold fset2. by destruct (decide _).
    + eapply VI_pre; [|apply HW]. by split.
    + assert (Hh : holds plen extra (thr i (vw s i) (if decide (k < plen t) then Cc t k else Cd t k) (set_own t k i s)) i t k).
      { split; [simpl; unfold fset2; by rewrite decide_True|]. split; [done|]. intros Hin. by destruct (m_lt _ _ _ M _ _ Hin). }
      destruct (decide (k < plen t)); (split; [exact Hh|]); [|done]. split; [done|]. split; [done|]. by apply (g_own _ _ G).
  - (* S_mark *) pose proof (i_pi _ _ _ I i) as P. rewrite H in P. destruct P as ((Ho & Hk & Hd) & P2 & P3 & P4). destruct (last_msg _ _ _ _ _ H0) as [Hm Hp]. apply lw_of in H0 as Hl.
    destruct (m_ent _ _ _ M _ _ _ _ _ Hm) as [Wu Hu]. pose proof (P4 _ Hl) as Eb. simpl in Eb. subst b.
    set (u' := join u (wrv o_mark (vw s i) (at_e t k l))). set (s' := thr _ _ _ _). set (x := W c true false).
    assert (EE : ent s' = fset2 (ent s) t k (ent s t k ++ [(x, u')])) by done.
    assert (T : tr (W c false false) x). { unfold tr. simpl. destruct c as [|n|n|]; [split; [done|by right; right]|left; split; [done|by right]|by split|by split]. }
    assert (X : pre s s') by (eapply (pre_add s s' t k x u'); done).
    assert (W' : VI s' (join (vw s i) (at_e t k l))). { refine (VI_new plen s s' G t k _ x u' EE Hl T _ (HW i) X _). unfold gone, x. simpl. destruct c; naive_solver. }
    assert (Hve : l ≤ ve (join (vw s i) (at_e t k l)) t k) by (simpl; unfold one2; rewrite decide_True by done; lia). pose proof (mg_new s s' t k x u' EE) as Hnew.
    set (w' := rdv o_mark (vw s i) (at_e t k l) u). destruct (rd_e s (vw s i) w' u t k l eq_refl) as (L & L' & L3 & _).
    assert (Hx : known s' w' t k (λ z, z = x)) by (exists l, x; done).
    eapply (inv_ent i s s' t k (W c false false) x u' w' (match c with CMine n => Ci t k n (S t) 0 | CNull => Ct t k | _ => Cd t k end)); try done.
    + apply h_none; [done|apply L].
    + refine (Str_mark plen extra s s' G t k _ x u' EE eq_refl Hl T eq_refl eq_refl _ _ _ P2); [by right|by rewrite Ho|congruence].
    + intros i' Hi' Ho'. congruence.
    + apply VI_join; [by eapply VI_pre|done].
    + etransitivity; [exact Hve|]. apply (l_ve _ _ (vle_r _ _)).
    + apply VI_join; [done|by eapply VI_pre].
    + assert (Hh : holds plen extra s' i t k) by done. assert (HF : fin x → known s' w' t k fin) by (intros; by exists l, x).
      destruct c as [|n|n|]; simpl.
      * split; [done|]. split; [done|]. by exists l, x.
      * split; [done|]. split; [done|]. split; [by apply L|]. split; [exact (lw_new s s' t k x u' EE)|]. split; [exact (g_cpn _ _ G _ _ _ Hl eq_refl)|]. split; [|lia].
        split; [lia|]. split; [intros; lia|intros; lia].
      * split; [done|]. intros _. apply HF. by left.
      * split; [done|]. intros _. apply HF. by left.
  - (* S_null *) pose proof (i_pi _ _ _ I i) as P. rewrite H in P. destruct P as (P1 & P2 & P3). destruct H0 as [_ Hk]. assert (L := vle_l (vw s i) (at_m t k l)).
    eapply (inv_met i s _ (vw s i) (join (vw s i) (at_m t k l)) (Cd t k) t k l MTomb); try done; [by apply h_none, L|lia|right; tauto|by apply VI_m|].
    split; [done|]. intros _. eapply known_le; [apply pre_refl|exact L|]. destruct P3 as (k0 & y & A & B & C). exists k0, y. split; [done|]. split; [done|]. by left.
  - (* S_ci_meta *) pose proof (i_pi _ _ _ I i) as P. rewrite H in P. destruct P as (P1 & P2 & P3 & P4 & P5 & P6 & P7). destruct (m_met _ _ _ M _ _ _ _ _ H1) as (Wu & E1 & E2 & E3 & E4).
    destruct (rd_m s _ (rdv o_meta (vw s i) (at_m t' j' l) u) _ _ _ _ eq_refl) as (L & L' & L3).
    eapply inv_thr; [done|apply VI_join; [by apply VI_m|done]|apply L|]. pose proof (cpath_le plen s s _ _ _ _ _ (pre_refl s) L P6) as P6'. destruct (decide (m = MEmpty)) as [->|Hne].
    + repeat (split; [first [done|by apply L]|]). done.
    + repeat (split; [first [done|by apply L]|]). split; [|lia]. apply cpath_S; [done|]. split; [|assert (l ≠ 0); [|lia]; intros ->; by apply Hne, E1].
      eapply known_le; [apply pre_refl|exact L'|]. destruct m; [done| |apply E4; by left|apply E4; by right]. destruct (E3 eq_refl) as (k0 & y & A & B & C). exists k0, y. split; [done|]. split; [done|].
      eapply nokey; [done|exact P4|done|apply P6|exact B|exact C].
  - (* S_ci_over *) pose proof (i_pi _ _ _ I i) as P. rewrite H in P. destruct P as (P1 & P2 & P3 & P4 & P5 & (A1 & A2 & A3) & P7). eapply inv_thr; [done|apply HW|done|].
    repeat (split; [done|]). split; [|lia]. split; [lia|]. split; [|intros; lia]. intros t0 ? ?. destruct (decide (t0 = t')) as [->|]; [by split|apply A2; lia].
  - (* S_ci_ok *) pose proof (i_pi _ _ _ I i) as P. rewrite H in P. destruct P as (P1 & P2 & P3 & P4 & P5 & P6 & P7). destruct P1 as (Ho & Hk & Hd). destruct (last_msg _ _ _ _ _ H0) as [Hm Hp]. apply lw_of in H0 as Hl.
    destruct (m_ent _ _ _ M _ _ _ _ _ Hm) as [Wu Hu].
    set (u' := join u (wrv o_copy (vw s i) (at_e t' j' l))). set (s' := thr _ _ _ _). set (x := W (CMine n) false false).
    assert (EE : ent s' = fset2 (ent s) t' j' (ent s t' j' ++ [(x, u')])) by done. assert (T : tr NULL x) by (split; [done|left; by eexists]).
    assert (Hcp : ∀ t0 j0 p, cp s t0 j0 = Some p → cp s' t0 j0 = Some p). { intros t0 j0 p Hc. simpl. unfold fset2. destruct (decide _) as [[-> ->]|]; [congruence|done]. }
    assert (X : pre s s') by (eapply (pre_add s s' t' j' x u'); done).
    assert (W' : VI s' (join (vw s i) (at_e t' j' l))) by (refine (VI_new plen s s' G t' j' _ x u' EE Hl T _ (HW i) X _); by intros []). assert (L := vle_l (vw s i) (at_e t' j' l)).
    assert (Hve : l ≤ ve (join (vw s i) (at_e t' j' l)) t' j') by (simpl; unfold one2; rewrite decide_True by done; lia). pose proof (mg_new s s' t' j' x u' EE) as Hnew.
    destruct P6 as (Ht & A2 & A3).
    eapply (inv_ent i s s' t' j' NULL x u' (join (vw s i) (at_e t' j' l)) (Cm t k n t' j')); try done.
    + apply h_none; [done|apply L].
    + refine (Str_copy plen s s' G t' j' _ x u' EE eq_refl Hl T t k n eq_refl eq_refl eq_refl eq_refl P4 P5 Ht P7 _ _).
      * intros j0 Hj0. destruct (A3 j0 Hj0) as [D _]. by eapply ldead_of.
      * intros t0 B1 B2. apply (passed_gpass plen extra s G (vw s i)). destruct (A2 t0 B1 B2) as [C1 C2]. split; [exact C1|]. exists (plen t0). split; [done|]. split; [exact C2|by left].
    + intros t0 k0 i' Hi' Ho'. simpl. unfold fset2. destruct (decide _) as [[-> ->]|]; [congruence|done].
    + apply VI_join; [by eapply VI_pre|done].
    + etransitivity; [exact Hve|]. apply (l_ve _ _ (vle_r _ _)).
    + split; [done|]. split; [done|]. split; [by apply L|]. split; [rewrite (lw_ne s s' t' j' x u' EE); [done|lia]|]. split; [simpl; unfold fset2; by rewrite decide_True|].
      split; [eapply cpath_le; [exact X|exact L|by split]|]. split; [done|]. split; [|exists l, x; done]. etransitivity; [|exact Hve]. unfold l. by rewrite (null_lw plen s G _ _ Hl).
  - (* S_ci_fail *) pose proof (i_pi _ _ _ I i) as P. rewrite H in P. destruct P as (P1 & P2 & P3 & P4 & P5 & P6 & P7). destruct (m_ent _ _ _ M _ _ _ _ _ H0) as [Wu Hu].
    destruct (rd_e s _ (rdv o_cas_fail (vw s i) (at_e t' j' l) u) _ _ _ _ eq_refl) as (L & L' & L3 & L4).
    eapply inv_thr; [done|by apply VI_rd_e|apply L|]. pose proof (cpath_le plen s s _ _ _ _ _ (pre_refl s) L P6) as P6'. repeat (split; [first [done|by apply L]|]). split; [|done].
    exists l, x. split; [done|]. split; [by exists u|done].
  - (* S_cf_skip *) pose proof (i_pi _ _ _ I i) as P. rewrite H in P. destruct P as (P1 & P2 & P3 & P4 & P5 & P6 & P7 & P8 & P9). destruct (m_met _ _ _ M _ _ _ _ _ H0) as (_ & E1 & _).
    destruct (rd_m s _ (rdv o_meta_fix (vw s i) (at_m t' j' l) u) _ _ _ _ eq_refl) as (L & _ & L3).
    eapply inv_thr; [done|by apply VI_bj, VI_m|apply L|]. pose proof (cpath_le plen s s _ _ _ _ _ (pre_refl s) L P6) as P6'. repeat (split; [first [done|by apply L]|]). split; [|lia].
    apply cpath_S; [done|]. split; [|assert (l ≠ 0); [|lia]; intros ->; by apply H2, E1]. eapply known_le; [apply pre_refl|exact L|]. destruct P8 as (k0 & y & A & B & ->). exists k0, x. split; [done|]. split; [done|].
    eapply nokey; [done|exact P4|done|apply P6|exact B|exact P9].
  - (* S_cf *) pose proof (i_pi _ _ _ I i) as P. rewrite H in P. destruct P as (P1 & P2 & P3 & P4 & P5 & P6 & P7 & P8 & P9). destruct H0 as [_ Hk]. assert (L := vle_l (vw s i) (at_m t' j' l)).
    destruct P8 as (k0 & y & A & B & ->). assert (D : dead x) by (eapply nokey; [done|exact P4|done|apply P6|exact B|exact P9]). assert (KD : known s (vw s i) t' j' dead) by (exists k0, x; done).
    eapply (inv_met i s _ (vw s i) (join (vw s i) (at_m t' j' l)) (Ci t k n t' (S j')) t' j' l m); try done; [by apply h_none, L|lia| |by apply VI_m|].
    + right. split; [|done]. unfold fix_meta in H1. destruct (wc x); tauto.
    + pose proof (cpath_le plen s s _ _ _ _ _ (pre_refl s) L P6) as P6'. repeat (split; [first [done|by apply L]|]). split; [|lia]. apply cpath_S; [done|].
      split; [eapply known_le; [apply pre_refl|exact L|done]|]. simpl. unfold one2. rewrite decide_True by done. lia.
  - (* S_cm *) pose proof (i_pi _ _ _ I i) as P. rewrite H in P. destruct P as (P1 & P2 & P3 & P4 & P5 & P6 & P7 & P8 & P9). destruct H0 as [_ Hk]. assert (L := vle_l (vw s i) (at_m t' j' l)).
    eapply (inv_met i s _ (vw s i) (join (vw s i) (at_m t' j' l)) (Cw t k n) t' j' l MH2); try done; [by apply h_none, L|lia|by left|by apply VI_m|].
    destruct (cpath_le plen s s _ _ _ _ _ (pre_refl s) L P6) as (A1 & A2 & A3). repeat (split; [first [done|by apply L]|]). exists t', j'. split; [done|]. split.
    + intros t0 B1 B2. destruct (A2 t0) as [C1 C2]; [lia..|]. split; [done|]. exists (plen t0). split; [done|]. split; [done|by left].
    + intros _. split; [done|]. split; [pose proof (l_ve _ _ L t' j'); lia|]. simpl. unfold one2. rewrite decide_True by done. lia.
  - (* S_cw *) pose proof (i_pi _ _ _ I i) as P. rewrite H in P. destruct P as ((Ho & Hk & Hd) & P2 & P3 & Hl & t' & j' & P5 & P6).
    set (u' := wrv o_copied (vw s i) (at_e t k l)). set (s' := thr _ _ _ _). set (x := W (CMine n) true true).
    assert (EE : ent s' = fset2 (ent s) t k (ent s t k ++ [(x, u')])) by done. assert (T : tr (W (CMine n) true false) x) by (right; by split).
    assert (X : pre s s') by (eapply (pre_add s s' t k x u'); done).
    assert (W' : VI s' (join (vw s i) (at_e t k l))) by (refine (VI_new plen s s' G t k _ x u' EE Hl T _ (HW i) X _); intros _; by exists t', j'). assert (L := vle_l (vw s i) (at_e t k l)).
    assert (Hve : l ≤ ve (join (vw s i) (at_e t k l)) t k) by (simpl; unfold one2; rewrite decide_True by done; lia). pose proof (mg_new s s' t k x u' EE) as Hnew.
    eapply (inv_ent i s s' t k (W (CMine n) true false) x u' (join (vw s i) (at_e t k l)) (Cd t k)); try done.
    + apply h_none; [done|apply L].
    + refine (Str_mark plen extra s s' G t k _ x u' EE eq_refl Hl T eq_refl eq_refl _ _ _ P2); [by right|by rewrite Ho|congruence].
    + intros i' Hi' Ho'. congruence.
    + split; [done|]. intros _. exists l, x. split; [done|]. split; [done|]. by right.
  - (* S_cd *) pose proof (i_pi _ _ _ I i) as P. rewrite H in P. destruct P as ((Ho & Hk & Hd) & P2).
    assert (Wu : VI s u ∧ ∀ l' k' u', don s t !! l' = Some (k', u') → k' < plen t → known s u t k' fin).
    { unfold u. rewrite last_lookup. destruct (don s t !! Nat.pred (length (don s t))) as [[k0 u0]|] eqn:E.
      - destruct (m_don _ _ _ M _ _ _ _ E) as [A B]. split; [done|]. intros l' k' u' Hl'. eapply B; [|exact Hl']. apply lookup_lt_Some in Hl'. lia.
      - split; [eapply VI_bot; [done|]; pose proof (v_vr _ _ _ (HW i)); lia|]. intros l' k' u' Hl'. apply lookup_ge_None in E. apply lookup_lt_Some in Hl'. lia. }
    destruct Wu as [Wu Hu]. assert (L : vle (vw s i) (rdv o_done (vw s i) bot u)) by (eapply vle_trans; apply vle_l).
    set (s' := thr _ _ _ _). assert (X : pre s s') by (by split). assert (ED : don s' = fset (don s) t (don s t ++ [(k, join u (wrv o_done (vw s i) bot))])) by done.
    assert (EDf : ∀ t0, (don s' t0).*1 = if decide (t0 = t) then (don s t).*1 ++ [k] else (don s t0).*1). { intros t0. rewrite ED. unfold fset. destruct (decide _) as [->|]; [by rewrite fmap_app|done]. }
    eapply (inv_gen i s s' (rdv o_done (vw s i) bot u) Idle); try done.
    + apply h_none; [done|apply L].
    + split; [done|done| |done]. intros i' t0 k0 Hi' Ho'. split; [done|]. split; [done|]. split; [done|]. rewrite EDf. destruct (decide (t0 = t)) as [->|]; [|done].
      rewrite elem_of_app, elem_of_list_singleton. intros [?| ->]; [done|]. congruence.
    + by apply (Str_eq plen s s').
    + assert (KL := λ u t j P, known_le s s' u u t j P X (vle_refl u)). destruct M as [M1 M2 M3 M4 M5 M6 M7]. split.
      * intros ? ? ? ? ? E. destruct (M1 _ _ _ _ _ E). split; [by eapply VI_pre|done].
      * intros ? ? ? ? ? E. destruct (M2 _ _ _ _ _ E) as [A B]. split; [by eapply VI_pre|done].
      * intros ? ? E. by eapply VI_pre, M3.
      * intros ? ? E. destruct (M4 _ _ E) as [A B]. split; [by eapply VI_pre|done].
      * intros t0 l0 k0 u0. rewrite ED. unfold fset. destruct (decide (t0 = t)) as [->|].
        -- intros E. apply lookup_app_Some in E as [E|[E1 E2]].
           ++ destruct (M5 _ _ _ _ E) as [A B]. split; [by eapply VI_pre|]. intros l' k' u' Hle E' Hlt. apply KL. eapply B; [exact Hle| |exact Hlt]. rewrite lookup_app_l in E'; [done|]. apply lookup_lt_Some in E. lia.
           ++ apply list_lookup_singleton_Some in E2 as [E2 [= <- <-]]. split; [eapply VI_pre; [done|]; apply VI_join; [done|by apply VI_bj]|].
              intros l' k' u' Hle E' Hlt. apply lookup_app_Some in E' as [E'|[E1' E2']].
              ** eapply known_le; [exact X|apply vle_l|]. by eapply Hu.
              ** apply list_lookup_singleton_Some in E2' as [_ [= <- <-]]. eapply known_le; [exact X| |by apply P2]. eapply vle_trans; [|apply vle_r]. apply vle_l.
        -- intros E. destruct (M5 _ _ _ _ E) as [A B]. split; [by eapply VI_pre|done].
      * intros t0. rewrite EDf. destruct (decide (t0 = t)) as [->|]; [|done]. apply list.NoDup_app. split; [done|]. split; [|apply NoDup_singleton]. intros a Ha Hb. apply elem_of_list_singleton in Hb as ->. done.
      * intros t0 k0. rewrite EDf. destruct (decide (t0 = t)) as [->|]; [|by apply M7]. rewrite elem_of_app, elem_of_list_singleton. intros [Hi| ->]; [by apply M7|]. split; [done|]. simpl. by rewrite Ho.
    + eapply VI_pre; [done|]. apply VI_join; [by apply VI_bj|done].
  - (* S_done *) destruct (m_don _ _ _ M _ _ _ _ H0) as [A B]. assert (L : vle u (rdv o_done_ld (vw s i) bot u)) by apply vle_r.
    eapply inv_thr; [done|apply VI_join; [by apply VI_bj|done]|simpl; lia|]. intros j Hj. eapply known_le; [apply pre_refl|exact L|].
    assert (Hl : length ((don s t).*1) ≤ tot plen extra t).
    { assert (HI : incl (don s t).*1 (seq 0 (tot plen extra t))). { intros a Ha. apply elem_of_list_In in Ha. apply in_seq. pose proof (proj1 (m_lt _ _ _ M _ _ Ha)). lia. }
      pose proof (NoDup_incl_length (proj1 (NoDup_ListNoDup _) (m_dup _ _ _ M t)) HI) as E. by rewrite seq_length in E. }
    pose proof (lookup_lt_Some _ _ _ H0) as Hlt. rewrite fmap_length in Hl.
    assert (Hin : j ∈ (don s t).*1). { eapply pigeon; [apply (m_dup _ _ _ M)|intros a Ha; exact (proj1 (m_lt _ _ _ M _ _ Ha))|rewrite fmap_length; lia|]. unfold tot in *. lia. }
    apply elem_of_list_lookup in Hin as [l' Hl']. rewrite list_lookup_fmap in Hl'. destruct (don s t !! l') as [[k' u']|] eqn:E; [|done]. injection Hl' as ->.
    eapply B; [|exact E|done]. apply lookup_lt_Some in E. lia.
  - (* S_promote *) pose proof (i_pi _ _ _ I i) as P. rewrite H in P. rewrite last_lookup in H0. rewrite H1 in H0. simpl in H0. destruct (m_root _ _ _ M _ _ H0) as [A B].
    set (s' := thr _ _ _ _). assert (ER : root s' = root s ++ [join u (wrv o_promote (vw s i) (at_r (S t)))]) by done.
    assert (X : pre s s') by (apply pre_same; try done; rewrite ER, app_length; simpl; lia). assert (L := vle_l (vw s i) (at_r (S t))).
    assert (W' : VI s' (join (vw s i) (at_r (S t)))) by (apply VI_r; [eapply VI_pre; [done|apply HW]|rewrite ER, app_length; simpl; lia]).
    eapply (inv_gen i s s' (join (vw s i) (at_r (S t))) Idle); try done.
    + apply h_none; [done|apply L].
    + by apply (Str_eq plen s s').
    + eapply (Msg_ext plen extra s); [done|done|done|done|by left..|]. intros k0 u0. rewrite ER. intros E. apply lookup_app_Some in E as [E|[E1 E2]]; [by left|].
      apply list_lookup_singleton_Some in E2 as [E2 <-]. right. split; [apply VI_join; [by eapply VI_pre|done]|]. intros t0 j0 Ht0 Hj0.
      destruct (decide (t0 < t)).
      * eapply known_le; [exact X|apply vle_l|by apply B].
      * assert (t0 = t) as -> by lia. eapply known_le; [exact X|eapply vle_trans; [exact L|apply vle_r]|by apply P].
  - (* S_promote_no *) by eapply inv_thr.
  - (* S_alloc *) assert (L := vle_l (vw s i) (at_x t)). eapply (inv_mem i s _ (join (vw s i) (at_x t)) (pc s i)); try done; [apply h_none; [done|apply L]| |by apply VI_x|].
    + eapply (Msg_ext plen extra s); [done|by split|done|done|by left|by left| |by left]. intros t0 u0. simpl. unfold fset. destruct (decide _); [|by left]. intros [= <-]. right. eapply VI_pre; [|by apply VI_x]. by split.
    + eapply (PI_ext plen extra (λ _, False) s); [by apply ext_same|by intros []|exact L|apply I].
  - (* S_load_next *) assert (L : vle (vw s i) (rdv o_next (vw s i) (at_x t) u)) by (eapply vle_trans; apply vle_l).
    eapply inv_thr; [done|apply VI_join; [by apply VI_x|by eapply (m_nxt _ _ _ M)]|apply L|]. eapply (PI_ext plen extra (λ _, False) s); [by apply ext_same|by intros []|exact L|apply I].
  - (* S_other *) destruct (last_msg _ _ _ _ _ H0) as [Hm Hp]. apply lw_of in H0 as Hl. destruct (m_ent _ _ _ M _ _ _ _ _ Hm) as [Wu Hu].
    set (u' := join u (wrv o_cas (vw s i) (at_e t j l))). set (s' := thr _ _ _ _). set (x := W COther false false).
    assert (EE : ent s' = fset2 (ent s) t j (ent s t j ++ [(x, u')])) by done. assert (T : tr NULL x) by (split; [done|by right; left]).
    assert (X : pre s s') by (eapply (pre_add s s' t j x u'); done).
    assert (W' : VI s' (join (vw s i) (at_e t j l))) by (refine (VI_new plen s s' G t j NULL x u' EE Hl T _ (HW i) X _); by intros []). assert (L := vle_l (vw s i) (at_e t j l)).
    assert (Hve : l ≤ ve (join (vw s i) (at_e t j l)) t j) by (simpl; unfold one2; rewrite decide_True by done; lia).
    eapply (inv_ent i s s' t j NULL x u' (join (vw s i) (at_e t j l)) (pc s i)); try done.
    + apply h_none; [done|apply L].
    + refine (Str_mark plen extra s s' G t j _ x u' EE eq_refl Hl T eq_refl eq_refl _ _ _ H); [by left|done|done].
    + apply VI_join; [by eapply VI_pre|done].
    + etransitivity; [exact Hve|]. apply (l_ve _ _ (vle_r _ _)).
    + eapply (PI_ext plen extra (λ _, False) s s'); [|by intros []|exact L|apply I]. by eapply (ext_add s s' t j NULL x u').
  - (* S_other_up *) destruct (last_msg _ _ _ _ _ H0) as [Hm Hp]. apply lw_of in H0 as Hl. destruct (m_ent _ _ _ M _ _ _ _ _ Hm) as [Wu Hu].
    set (u' := join u (wrv o_cas (vw s i) (at_e t j l))). set (s' := thr _ _ _ _). set (x := W COther false false).
    assert (EE : ent s' = fset2 (ent s) t j (ent s t j ++ [(x, u')])) by done. assert (T : tr x x) by (split; [done|by split]).
    assert (X : pre s s') by (eapply (pre_add s s' t j x u'); done).
    assert (W' : VI s' (join (vw s i) (at_e t j l))) by (refine (VI_new plen s s' G t j x x u' EE Hl T _ (HW i) X _); by intros []). assert (L := vle_l (vw s i) (at_e t j l)).
    assert (Hve : l ≤ ve (join (vw s i) (at_e t j l)) t j) by (simpl; unfold one2; rewrite decide_True by done; lia).
    eapply (inv_ent i s s' t j x x u' (join (vw s i) (at_e t j l)) (pc s i)); try done.
    + apply h_none; [done|apply L].
    + refine (Str_mark plen extra s s' G t j _ x u' EE eq_refl Hl T eq_refl eq_refl _ _ _ H); [by left|done|done].
    + apply VI_join; [by eapply VI_pre|done].
    + etransitivity; [exact Hve|]. apply (l_ve _ _ (vle_r _ _)).
    + eapply (PI_ext plen extra (λ _, False) s s'); [|by intros []|exact L|apply I]. by eapply (ext_add s s' t j x x u').
  - (* S_other_meta *) destruct H3 as [_ Hk]. assert (L := vle_l (vw s i) (at_m t j l)).
    eapply (inv_met i s _ (vw s i) (join (vw s i) (at_m t j l)) (pc s i) t j l m); try done; [by apply h_none, L|lia| |by apply VI_m|].
    + right. split; [destruct m; tauto|]. exists k, x. split; [done|]. split; [by exists u|]. unfold dead. by rewrite H1.
    + eapply (PI_ext plen extra (λ _, False) s); [by apply ext_same|by intros []|exact L|apply I].
  - (* S_other_ld *) destruct (m_ent _ _ _ M _ _ _ _ _ H) as [Wu Hu]. destruct (rd_e s _ (rdv o_ent (vw s i) (at_e t j k) u) _ _ _ _ eq_refl) as (L & L' & L3 & L4).
    eapply inv_thr; [done|by apply VI_rd_e|apply L|]. eapply (PI_ext plen extra (λ _, False) s); [by apply ext_same|by intros []|exact L|apply I].
  - (* S_sync *) assert (L := vle_l (vw s i) (vw s j)). eapply (inv0 i s _ (join (vw s i) (vw s j)) (pc s i)); try done; [|by apply VI_join|].
    + apply (h_sync _ _ _ _ j); [done|simpl; lia|simpl; lia].
    + eapply (PI_ext plen extra (λ _, False) s); [by apply ext_same|by intros []|exact L|apply I].
Qed.

Theorem inv_init : Inv (winit : wst).
Proof.
  assert (MG : ∀ t j k x, mg (@winit V) t j k x → k = 0 ∧ x = NULL). { intros t j k x [u H]. simpl in H. apply list_lookup_singleton_Some in H as [? [= <- _]]. done. }
  assert (KM : ∀ t j k n, kmsg (@winit V) t j k n → False). { intros t j k n (x & H & K). apply MG in H as [_ ->]. done. }
  assert (G : Str (winit : wst)).
  { split; try (intros; exfalso; eapply KM; eassumption).
    - intros t j k y x _ H. apply MG in H as [? _]. done.
    - intros t j. by exists bot.
    - intros t j k x n H K. apply MG in H as [_ ->]. done.
    - done.
    - intros n H1 H2. simpl in H2. lia.
    - intros t j n b H. unfold lw in H. simpl in H. congruence.
    - done.
    - intros t j _ x H. unfold lw in H. simpl in H. injection H as <-. done. }
  assert (VB : VI (winit : wst) bot) by (by apply VI_bot; simpl; [|lia]).
  split; [done| |done|done|done|simpl; intros; lia].
  split; simpl.
  - intros t j k x u H. apply list_lookup_singleton_Some in H as [-> [= <- <-]]. by split.
  - intros t j k a u. destruct (decide (k = 0)) as [->|]; [|done]. intros [= <- <-]. split; [done|]. split; [done|]. split; [done|]. split; [done|]. by intros [?|?].
  - done.
  - intros k u H. apply list_lookup_singleton_Some in H as [-> <-]. split; [done|]. intros; lia.
  - done.
  - intros. apply NoDup_nil_2.
  - intros t k H. by apply elem_of_nil in H.
Qed.
Theorem reach_inv s : reachable plen extra s → Inv s.
Proof. induction 1; [apply inv_init|by eapply inv_pres]. Qed.

(** ** Every write is made by one call *)
Definition wrs (tr : list (@ev V)) : list nat := omap (λ e, match e with EWrite _ _ n => Some n | _ => None end) tr.
Record Uni s : Prop := {
  u_dup : NoDup (wrs (hist s));
  u_lt : ∀ n, n ∈ wrs (hist s) → n < length (log s);
  u_ms : ∀ i d t j m n, pc s i = Ms d t j m n → n < length (log s) ∧ n ∉ wrs (hist s);
  u_one : ∀ i d t j m i' d' t' j' m' n, pc s i = Ms d t j m n → pc s i' = Ms d' t' j' m' n → i = i';
  u_all : 1 ≤ length (log s) ∧ ∀ n, 1 ≤ n → n < length (log s) → n ∈ wrs (hist s) ∨ ∃ i d t j m, pc s i = Ms d t j m n }.
Definition is_ms (p : @point V) : option nat := match p with Ms _ _ _ _ n => Some n | _ => None end.
Lemma ms_is (p : @point V) n : is_ms p = Some n ↔ ∃ d t j m, p = Ms d t j m n.
Proof. split; [destruct p; simpl; try done; intros [= ->]; eauto|]. by intros (d & t & j & m & ->). Qed.
(** Steps without a write. *)
Lemma uni_none s s' i p' : Uni s → wrs (hist s') = wrs (hist s) → log s' = log s → pc s' = fset (pc s) i p' → is_ms p' = is_ms (pc s i) → Uni s'.
Proof.
  intros [U1 U2 U3 U4 U5] E1 E2 E3 E4. assert (HP : ∀ i', is_ms (pc s' i') = is_ms (pc s i')). { intros i'. rewrite E3. unfold fset. by destruct (decide _) as [->|]. }
  assert (HM : ∀ i' d t j m n, pc s' i' = Ms d t j m n → ∃ d t j m, pc s i' = Ms d t j m n). { intros i' d t j m n H. apply ms_is. rewrite <- HP, H. done. }
  split.
  - by rewrite E1.
  - intros n. rewrite E1, E2. apply U2.
  - intros i' d t j m n H. rewrite E1, E2. apply HM in H as (? & ? & ? & ? & H). by eapply U3.
  - intros i1 d t j m i2 d' t' j' m' n H H'. apply HM in H as (? & ? & ? & ? & H). apply HM in H' as (? & ? & ? & ? & H'). by eapply U4.
  - rewrite E1, E2. split; [apply U5|]. intros n A B. destruct U5 as [_ U5]. destruct (U5 n A B) as [|(i' & H)]; [by left|right]. exists i'. apply ms_is. rewrite HP. by apply ms_is.
Qed.
(** A write whose call goes on. *)
Lemma uni_ms s s' i d t j m o : Uni s → wrs (hist s') = wrs (hist s) → log s' = log s ++ [o] → pc s' = fset (pc s) i (Ms d t j m (length (log s))) → is_ms (pc s i) = None → Uni s'.
Proof.
  intros [U1 U2 U3 U4 U5] E1 E2 E3 E4. assert (HL : length (log s') = S (length (log s))) by (rewrite E2, app_length; simpl; lia).
  assert (HM : ∀ i' d' t' j' m' n, pc s' i' = Ms d' t' j' m' n → (i' = i ∧ n = length (log s)) ∨ (i' ≠ i ∧ pc s i' = Ms d' t' j' m' n)).
  { intros i' d' t' j' m' n. rewrite E3. unfold fset. destruct (decide (i' = i)) as [->|]; [|by right]. intros [= _ _ _ _ <-]. by left. }
  split.
  - by rewrite E1.
  - intros n. rewrite E1, HL. intros H. apply U2 in H. lia.
  - intros i' d' t' j' m' n H. rewrite E1, HL. apply HM in H as [[-> ->]|[_ H]]; [split; [lia|]; intros H; apply U2 in H; lia|]. destruct (U3 _ _ _ _ _ _ H). split; [lia|done].
  - intros i1 ? ? ? ? i2 ? ? ? ? n H H'. apply HM in H as [[-> ->]|[_ H]], H' as [[-> E]|[_ H']]; try done.
    + apply U3 in H' as [? _]. lia.
    + apply U3 in H as [? _]. lia.
    + by eapply U4.
  - rewrite E1, HL. split; [lia|]. intros n A B. destruct (decide (n = length (log s))) as [->|].
    + right. exists i, d, t, j, m. rewrite E3. unfold fset. by rewrite decide_True.
    + destruct U5 as [_ U5]. destruct (U5 n A) as [|(i' & d' & t' & j' & m' & H)]; [lia|by left|right]. exists i', d', t', j', m'. rewrite E3. unfold fset. rewrite decide_False; [done|]. intros ->. by rewrite H in E4.
Qed.
(** A write whose call ends. *)
Lemma uni_up s s' i n : Uni s → wrs (hist s') = n :: wrs (hist s) → n = length (log s) → length (log s') = S (length (log s)) → pc s' = fset (pc s) i Idle → is_ms (pc s i) = None → Uni s'.
Proof.
  intros [U1 U2 U3 U4 U5] E1 -> HL E3 E4.
  assert (HM : ∀ i' d' t' j' m' n, pc s' i' = Ms d' t' j' m' n → pc s i' = Ms d' t' j' m' n). { intros i' d' t' j' m' n. rewrite E3. unfold fset. by destruct (decide (i' = i)). }
  split.
  - rewrite E1. apply list.NoDup_cons. split; [|done]. intros H. apply U2 in H. lia.
  - intros n. rewrite E1, HL, elem_of_cons. intros [->|H]; [lia|]. apply U2 in H. lia.
  - intros i' d' t' j' m' n H. apply HM, U3 in H as [H1 H2]. rewrite E1, HL, elem_of_cons. split; [lia|]. intros [->|]; [lia|done].
  - intros i1 ? ? ? ? i2 ? ? ? ? n H H'. apply HM in H, H'. by eapply U4.
  - rewrite E1, HL. split; [lia|]. intros n A B. rewrite elem_of_cons. destruct (decide (n = length (log s))) as [->|]; [by left; left|].
    destruct U5 as [_ U5]. destruct (U5 n A) as [|(i' & d' & t' & j' & m' & H)]; [lia|by left; right|right]. exists i', d', t', j', m'. rewrite E3. unfold fset. rewrite decide_False; [done|]. intros ->. by rewrite H in E4.
Qed.
Lemma uni_end s s' i d t j m n : Uni s → wrs (hist s') = n :: wrs (hist s) → log s' = log s → pc s' = fset (pc s) i Idle → pc s i = Ms d t j m n → Uni s'.
Proof.
  intros [U1 U2 U3 U4 U5] E1 E2 E3 E4. destruct (U3 _ _ _ _ _ _ E4) as [Hlt Hnin].
  assert (HM : ∀ i' d' t' j' m' n, pc s' i' = Ms d' t' j' m' n → i' ≠ i ∧ pc s i' = Ms d' t' j' m' n). { intros i' d' t' j' m' n'. rewrite E3. unfold fset. by destruct (decide (i' = i)). }
  split.
  - rewrite E1. apply list.NoDup_cons. by split.
  - intros n'. rewrite E1, E2, elem_of_cons. intros [->|H]; [done|by apply U2].
  - intros i' d' t' j' m' n' H. apply HM in H as [Hne H]. destruct (U3 _ _ _ _ _ _ H) as [H1 H2]. rewrite E1, E2, elem_of_cons. split; [done|]. intros [->|]; [|done]. destruct Hne. by eapply U4.
  - intros i1 ? ? ? ? i2 ? ? ? ? n' H H'. apply HM in H as [_ H], H' as [_ H']. by eapply U4.
  - rewrite E1, E2. split; [apply U5|]. intros n' A B. rewrite elem_of_cons. destruct (decide (n' = n)) as [->|]; [by left; left|].
    destruct U5 as [_ U5]. destruct (U5 n' A B) as [|(i' & d' & t' & j' & m' & H)]; [by left; right|right]. exists i', d', t', j', m'. rewrite E3. unfold fset. rewrite decide_False; [done|]. intros ->. congruence.
Qed.
Lemma reach_uni s : reachable plen extra s → Uni s.
Proof.
  induction 1 as [|s s' R IH St].
  - split; simpl; try done; [apply NoDup_nil_2|by intros ? ?%elem_of_nil|]. split; [lia|]. intros; lia.
  - destruct St; try (eapply (uni_none s _ i _ IH); [reflexivity|reflexivity|reflexivity|]; simpl; first [done|rewrite H; simpl; first [done|by destruct (decide _)|by destruct c]]; fail).
    + by eapply (uni_ms s _ i d t j MH2 (Some v)); try done; rewrite H.
    + eapply (uni_up s _ i n'); try done; [simpl; rewrite app_length; simpl; lia|by rewrite H].
    + by eapply (uni_ms s _ i d t j MTomb None); try done; rewrite H.
    + by eapply uni_end.
Qed.

(** ** Calls of a thread do not overlap *)
Fixpoint act (tr : list (@ev V)) (i : nat) : bool :=
  match tr with
  | [] => false
  | EStart j _ :: tr => if decide (j = i) then true else act tr i
  | ERead j _ _ _ :: tr | EWrite j _ _ :: tr => if decide (j = i) then false else act tr i
  | ESync _ _ :: tr => act tr i
  end.
Fixpoint seq_ok (tr : list (@ev V)) : Prop :=
  match tr with
  | [] => True
  | EStart i _ :: tr => act tr i = false ∧ seq_ok tr
  | ERead i _ _ _ :: tr | EWrite i _ _ :: tr => act tr i = true ∧ seq_ok tr
  | ESync _ _ :: tr => seq_ok tr
  end.
Definition in_call (p : @point V) : bool := match p with Root0 _ | Pr _ _ _ | He _ _ _ | In _ _ _ _ | Fx _ _ _ _ | Fd _ _ _ _ | Up _ _ _ _ | Ms _ _ _ _ _ | Wt _ _ _ | Nx _ _ => true | _ => false end.
Lemma reach_seq s : reachable plen extra s → seq_ok (hist s) ∧ ∀ i, act (hist s) i = in_call (pc s i).
Proof.
  induction 1 as [|s s' R [IH1 IH2] St]; [done|].
  assert (HS : ∀ s' i p', hist s' = hist s → pc s' = fset (pc s) i p' → in_call p' = in_call (pc s i) → seq_ok (hist s') ∧ ∀ i, act (hist s') i = in_call (pc s' i)).
  { intros s1 i p' E1 E2 E3. rewrite E1, E2. split; [done|]. intros i'. rewrite IH2. unfold fset. by destruct (decide _) as [->|]. }
  assert (HR : ∀ s' i q n r, hist s' = ERead i q n r :: hist s → pc s' = fset (pc s) i Idle → in_call (pc s i) = true → seq_ok (hist s') ∧ ∀ i, act (hist s') i = in_call (pc s' i)).
  { intros s1 i q n r E1 E2 E3. rewrite E1, E2. split; [simpl; by rewrite IH2|]. intros i'. simpl. unfold fset. destruct (decide (i = i')) as [->|]; [by rewrite decide_True|]. rewrite decide_False by done. apply IH2. }
  assert (HWr : ∀ s' i d n, hist s' = EWrite i d n :: hist s → pc s' = fset (pc s) i Idle → in_call (pc s i) = true → seq_ok (hist s') ∧ ∀ i, act (hist s') i = in_call (pc s' i)).
  { intros s1 i q n E1 E2 E3. rewrite E1, E2. split; [simpl; by rewrite IH2|]. intros i'. simpl. unfold fset. destruct (decide (i = i')) as [->|]; [by rewrite decide_True|]. rewrite decide_False by done. apply IH2. }
  destruct St; try (eapply (HS _ i); [reflexivity|reflexivity|]; simpl; first [done|rewrite H; simpl; first [done|by destruct (decide _)|by destruct c]]; fail);
    try (eapply (HR _ i); [reflexivity|reflexivity|]; by rewrite H); try (eapply (HWr _ i); [reflexivity|reflexivity|]; by rewrite H).
  - split; [simpl; rewrite IH2, H; done|]. intros i'. simpl. unfold fset. destruct (decide (i = i')) as [->|]; [by rewrite decide_True|]. rewrite decide_False by done. apply IH2.
  - split; [done|]. intros i'. simpl. rewrite IH2. unfold fset. by destruct (decide _) as [->|].
Qed.

Lemma hist_app s tr1 tr2 : hist_ok s (tr1 ++ tr2) → hist_ok s tr2.
Proof. induction tr1 as [|[] ? IH]; simpl; [done|done|by intros [_ ?%IH]|by intros [_ ?%IH]|done]. Qed.
Lemma seq_app tr1 tr2 : seq_ok (tr1 ++ tr2) → seq_ok tr2.
Proof. induction tr1 as [|[] ? IH]; simpl; [done|by intros [_ ?%IH]|by intros [_ ?%IH]|by intros [_ ?%IH]|done]. Qed.
Lemma max_le (l : list nat) m n : m ∈ l → list_max l ≤ n → m ≤ n.
Proof. intros H1 H2. apply list_max_le in H2. rewrite Forall_forall in H2. by apply H2, elem_of_list_In. Qed.

(** C54 (1): what a call finds is a value the key has had, and not an older one than any write its thread knew of when the call started. If the call could have written, it found a reason not to. *)
Theorem C54_reads s tr1 tr2 i q n r :
  reachable plen extra s → hist s = tr1 ++ ERead i q n r :: tr2 →
  log s !! n = Some r ∧ (∀ m, m ∈ kn_start tr2 i → m ≤ n) ∧ (∀ d, q = Cmp d → d r = Keep ∨ d r = Del ∧ r = None).
Proof.
  intros R E. pose proof (i_hist _ _ _ (reach_inv s R)) as H. rewrite E in H. apply hist_app in H as [(H1 & H2 & H3) _]. split; [done|]. split; [intros m Hm; by eapply max_le|]. by intros d ->.
Qed.
(** C54 (2): a call that writes replaces exactly the value before it in the sequence, by what its function says about that value; that value is not older than any write the thread knew of. *)
Theorem C54_writes s tr1 tr2 i d n :
  reachable plen extra s → hist s = tr1 ++ EWrite i d n :: tr2 →
  ∃ old new, log s !! (n - 1) = Some old ∧ log s !! n = Some new ∧ (∀ m, m ∈ kn_start tr2 i → m < n) ∧
    match d old with Put v => new = Some v | Del => is_Some old ∧ new = None | Keep => False end.
Proof.
  intros R E. pose proof (i_hist _ _ _ (reach_inv s R)) as H. rewrite E in H. apply hist_app in H as [(H1 & old & new & H2 & H3 & H4) _]. exists old, new. split; [done|]. split; [done|]. split; [|done].
  intros m Hm. assert (m ≤ list_max (kn_start tr2 i)); [by eapply max_le|lia].
Qed.
(** C54 (3): every value of the sequence was written by one call, which has returned or has only its metadata store left; no two calls made the same write. *)
Theorem C54_one_writer s : reachable plen extra s →
  log s !! 0 = Some None ∧ NoDup (wrs (hist s)) ∧ ∀ n, 1 ≤ n → n < length (log s) → (∃ i d, EWrite i d n ∈ hist s) ∨ (∃ i d t j m, pc s i = Ms d t j m n).
Proof.
  intros R. destruct (reach_uni s R) as [U1 U2 U3 U4 [_ U5]]. split; [apply (g_log0 _ _ (i_str _ _ _ (reach_inv s R)))|]. split; [done|]. intros n A B. destruct (U5 n A B) as [H|H]; [left|by right].
  apply elem_of_list_omap in H as (e & He & Ee). destruct e; try done. injection Ee as ->. eauto.
Qed.
(** C54 (4): the calls of one thread see the sequence in order (read-read, write-read, read-write and write-write coherence across slots and tables). *)
Definition res (e : @ev V) : option (nat * nat) := match e with ERead i _ n _ | EWrite i _ n => Some (i, n) | _ => None end.
Theorem C54_program_order s tr1 tr2 tr3 e1 e2 i n1 n2 :
  reachable plen extra s → hist s = tr1 ++ e2 :: tr2 ++ e1 :: tr3 → res e1 = Some (i, n1) → res e2 = Some (i, n2) → n1 ≤ n2.
Proof.
  intros R E R1 R2. destruct (reach_seq s R) as [Sq _]. rewrite E in Sq. apply seq_app in Sq.
  assert (Ha : act (tr2 ++ e1 :: tr3) i = true) by (destruct e2; try done; injection R2 as -> ->; apply Sq).
  assert (Hk : ∀ l, n1 ∈ kn (l ++ e1 :: tr3) i). { intros l. induction l as [|[] l IH]; simpl; try done; try (by destruct (decide _); [right|]); try (destruct (decide _); [rewrite elem_of_app; by left|done]). destruct e1; try done; injection R1 as -> ->; simpl; rewrite decide_True by done; by left. }
  assert (Hs : n1 ∈ kn_start (tr2 ++ e1 :: tr3) i).
  { clear E Sq. induction tr2 as [|e tr2 IH]; [destruct e1; try done; injection R1 as -> ->; simpl in Ha; by rewrite decide_True in Ha|].
    destruct e as [i' q|i' q n r|i' d n|i' i'']; simpl in *; [|destruct (decide (i' = i)); [done|by apply IH]..|by apply IH]. destruct (decide (i' = i)) as [->|]; [apply Hk|by apply IH]. }
  destruct e2 as [|i' q n r|i' d n|]; try done; injection R2 as -> ->.
  - destruct (C54_reads _ _ _ _ _ _ _ R E) as (_ & H & _). by apply H.
  - destruct (C54_writes _ _ _ _ _ _ R E) as (old & new & _ & _ & H & _). specialize (H _ Hs). lia.
Qed.
(** C54 (5): ... and a call that starts after its thread has synchronised with another thread sees at least what that thread's earlier calls saw or wrote. *)
Theorem C54_synchronised s tr1 tr2 tr3 tr4 tr5 e1 e2 i j q n1 n2 :
  reachable plen extra s → hist s = tr1 ++ e2 :: tr2 ++ EStart i q :: tr3 ++ ESync i j :: tr4 ++ e1 :: tr5 → (∀ q', EStart i q' ∉ tr2) → res e1 = Some (j, n1) → res e2 = Some (i, n2) → n1 ≤ n2.
Proof.
  intros R E Hno R1 R2.
  assert (Hk : ∀ (l : list (@ev V)) i', (∀ l' : list (@ev V), n1 ∈ kn l' i' → ∀ e, n1 ∈ kn (e :: l') i') ∧ (n1 ∈ kn l i' → ∀ l2, n1 ∈ kn (l2 ++ l) i')).
  { intros l i'. assert (H : ∀ l' : list (@ev V), n1 ∈ kn l' i' → ∀ e, n1 ∈ kn (e :: l') i').
    { intros l' H e. destruct e; simpl; try done; destruct (decide _); try done; [by right|by right|]. rewrite elem_of_app. by left. }
    split; [done|]. intros Hl l2. induction l2; simpl app; [done|by apply H]. }
  assert (H1 : n1 ∈ kn (e1 :: tr5) j) by (destruct e1; try done; injection R1 as -> ->; simpl; rewrite decide_True by done; by left).
  assert (H2 : n1 ∈ kn (ESync i j :: tr4 ++ e1 :: tr5) i). { simpl. rewrite decide_True, elem_of_app by done. right. by apply Hk. }
  assert (H3 : n1 ∈ kn_start (tr2 ++ EStart i q :: tr3 ++ ESync i j :: tr4 ++ e1 :: tr5) i).
  { clear E. induction tr2 as [|e tr2 IH]; [simpl app; cbn [kn_start]; rewrite decide_True by done; by apply Hk|].
    assert (Hno' : ∀ q', EStart i q' ∉ tr2) by (intros q' Hq; apply (Hno q'); by right).
    destruct e as [i' q'| | |]; cbn [app kn_start]; try (by apply IH). destruct (decide (i' = i)) as [->|]; [|by apply IH]. destruct (Hno q'). by left. }
  destruct e2 as [|i' q' n r|i' d n|]; try done; injection R2 as -> ->.
  - destruct (C54_reads _ _ _ _ _ _ _ R E) as (_ & H & _). by apply H.
  - destruct (C54_writes _ _ _ _ _ _ R E) as (old & new & _ & _ & H & _). specialize (H _ H3). lia.
Qed.
End Main.

(** A run. Thread 0 inserts 5; thread 1 allocates the next table and copies the entry; thread 2, which has not synchronised with anybody, still reads the empty metadata and finds the key absent (an older value);
    thread 0 finds its entry copied and reads it in the next table; thread 3 synchronises with thread 0, and replaces 5 by 6 in the next table. *)
Definition pl54 : nat → nat := λ _, 2.
Definition ex54 : nat → nat := λ _, 0.
Definition ins54 (v : nat) : option nat → @dec nat := λ _, Put v.
Local Ltac fin :=
  lazymatch goal with
  | |- _ = _ => reflexivity
  | |- _ ≤ _ => apply Nat.leb_le; vm_compute; reflexivity
  | |- _ < _ => apply Nat.ltb_lt; vm_compute; reflexivity
  | |- can_meta _ _ _ _ _ => split; [reflexivity|apply Nat.ltb_lt; vm_compute; reflexivity]
  | |- _ => idtac
  end.
Local Tactic Notation "go" constr(R) ident(R') uconstr(c) :=
  eassert (R' : reachable pl54 ex54 _); [eapply R_step; [exact R|]; let c' := open_constr:(c) in eapply c'; fin|clear R];
  lazymatch type of R' with reachable _ _ ?s => let s' := fresh "st" in set (s' := s) in R' end.
Example C54_example : ∃ s, reachable pl54 ex54 s ∧
  hist s = [EWrite 3 (ins54 6) 2; EStart 3 (Cmp (ins54 6)); ESync 3 0; ERead 0 Get 1 (Some 5); EStart 0 Get; ERead 2 Get 0 None; EStart 2 Get; EWrite 0 (ins54 5) 1; EStart 0 (Cmp (ins54 5))] ∧
  log s = [None; Some 5; Some 6].
Proof.
  pose proof (@R_init nat pl54 ex54) as R.
  go R R1 (S_start _ _ _ 0 (Cmp (ins54 5))).
  go R1 R2 (S_root _ _ _ 0 (Cmp (ins54 5)) 0).
  go R2 R3 (S_meta_ins _ _ _ 0 (Cmp (ins54 5)) 0 0 0 bot 5).
  go R3 R4 (S_in_ok _ _ _ 0 (ins54 5) 0 0 5).
  go R4 R5 (S_ms _ _ _ 0 (ins54 5) 0 0 MH2 1 1).
  go R5 R6 (S_alloc _ _ _ 1 0).
  go R6 R7 (S_claim _ _ _ 1 0 0).
  go R7 R8 (S_mark _ _ _ 1 0 0 (CMine 1) false).
  go R8 R9 (S_ci_meta _ _ _ 1 0 0 1 1 0 0 MEmpty bot).
  go R9 R10 (S_ci_ok _ _ _ 1 0 0 1 1 0).
  go R10 R11 (S_cm _ _ _ 1 0 0 1 1 0 1).
  go R11 R12 (S_cw _ _ _ 1 0 0 1).
  go R12 R13 (S_cd _ _ _ 1 0 0).
  go R13 R14 (S_start _ _ _ 2 Get).
  go R14 R15 (S_root _ _ _ 2 Get 0).
  go R15 R16 (S_meta_none _ _ _ 2 Get 0 0 0 bot).
  go R16 R17 (S_start _ _ _ 0 Get).
  go R17 R18 (S_root _ _ _ 0 Get 0).
  go R18 R19 (S_meta_h2 _ _ _ 0 Get 0 0 1).
  go R19 R20 (S_ent _ _ _ 0 Get 0 0 3).
  go R20 R21 (S_move _ _ _ 0 Get 0 0).
  go R21 R22 (S_next _ _ _ 0 Get 0).
  go R22 R23 (S_meta_h2 _ _ _ 0 Get 1 0 1).
  go R23 R24 (S_ent _ _ _ 0 Get 1 0 1).
  go R24 R25 (S_ret _ _ _ 0 Get 1 0 _ 1).
  go R25 R26 (S_sync _ _ _ 3 0).
  go R26 R27 (S_start _ _ _ 3 (Cmp (ins54 6))).
  go R27 R28 (S_root _ _ _ 3 (Cmp (ins54 6)) 0).
  go R28 R29 (S_meta_h2 _ _ _ 3 (Cmp (ins54 6)) 0 0 1).
  go R29 R30 (S_ent _ _ _ 3 (Cmp (ins54 6)) 0 0 3).
  go R30 R31 (S_wait _ _ _ 3 (Cmp (ins54 6)) 0 0).
  go R31 R32 (S_waited _ _ _ 3 (Cmp (ins54 6)) 0 0 3).
  go R32 R33 (S_next _ _ _ 3 (Cmp (ins54 6)) 0).
  go R33 R34 (S_meta_h2 _ _ _ 3 (Cmp (ins54 6)) 1 0 1).
  go R34 R35 (S_ent _ _ _ 3 (Cmp (ins54 6)) 1 0 1).
  go R35 R36 (S_up _ _ _ 3 (Cmp (ins54 6)) 1 0 _ 1).
  go R36 R37 (S_up_put _ _ _ 3 (ins54 6) 1 0 1 6).
  eexists. split; [exact R37|]. split; vm_compute; reflexivity.
Qed.
