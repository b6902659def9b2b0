(** The full invariant of the map: linearization ghost state, operation bookkeeping, memory
    reclamation and counters; rely, guarantee and frame relations of a running operation. *)
From Verif Require Export IncGen Side Machine.

(** ** Pure lemmas on logs *)
Section logs.
  Context {K : Type} {Keq : EqDecision K}.
  Notation event := (event K).
  Implicit Types (l : list event).

  Definition goneL l (p : nat) : Prop := ∃ e, e ∈ l ∧ ev_old e = Some p.
  Lemma goneL_app l l' p : goneL (l ++ l') p ↔ goneL l p ∨ goneL l' p.
  Proof. unfold goneL. setoid_rewrite elem_of_app. naive_solver. Qed.
  Lemma goneL_prefix l l' p : l `prefix_of` l' → goneL l p → goneL l' p.
  Proof. intros [x ->]. rewrite goneL_app. auto. Qed.
  (** Entries removed from the log: a linearized entry that was not removed is current. *)
  Lemma lin_current l k p : legal l → (∀ e, e ∈ l → ev_new e = Some p → ev_key e = k) →
    lin l p → ¬ goneL l p → replay l k = Some p.
  Proof.
    induction l as [|e l IH] using rev_ind; intros Lg Hk Hl Hg.
    - destruct Hl as (e & H & _). by apply elem_of_nil in H.
    - rewrite replay_snoc. assert (Lg' : legal l).
      { intros n e' Hn. specialize (Lg n e'). pose proof (lookup_lt_Some _ _ _ Hn).
        rewrite rp_app in Lg by lia. apply Lg. by rewrite lookup_app_l. }
      assert (Hg' : ¬ goneL l p) by (intros X; apply Hg; apply goneL_app; auto).
      destruct (decide (ev_new e = Some p)) as [E|E].
      { rewrite decide_True; [done|]. apply Hk; [|done]. apply elem_of_app. right. by apply elem_of_list_singleton. }
      apply lin_snoc in Hl as [Hl|Hl]; [|done].
      assert (IH' : replay l k = Some p).
      { apply IH; auto. intros e' He'. apply Hk. apply elem_of_app. auto. }
      case_decide as D; [|done]. exfalso. apply Hg. exists e. split; [apply elem_of_app; right; by apply elem_of_list_singleton|].
      specialize (Lg (length l) e). rewrite list_lookup_middle in Lg by done. specialize (Lg eq_refl).
      rewrite rp_app, rp_all in Lg by lia. congruence.
  Qed.
  (** An entry linearized between two moments was current at a moment in between. *)
  Lemma lin_between l l' k p : l `prefix_of` l' → ¬ lin l p → lin l' p →
    (∀ e, e ∈ l' → ev_new e = Some p → ev_key e = k) → ∃ n, length l ≤ n ∧ n ≤ length l' ∧ rp n l' k = Some p.
  Proof.
    intros [x ->] N (e & He & En) Hk. pose proof (Hk _ He En) as Hke. apply elem_of_list_lookup in He as [n Hn].
    pose proof (lookup_lt_Some _ _ _ Hn).
    exists (S n). split; [|split; [lia|rewrite (rp_S _ _ _ _ Hn); by rewrite decide_True]].
    destruct (decide (n < length l)) as [L|L]; [|lia]. exfalso. apply N. rewrite lookup_app_l in Hn by done.
    exists e. split; [by eapply elem_of_list_lookup_2|done].
  Qed.
End logs.

Definition upd1 {A} (f : nat → A) (i : nat) (x : A) : nat → A := λ j, if decide (j = i) then x else f j.
Lemma upd1_eq {A} (f : nat → A) i x : upd1 f i x i = x.
Proof. unfold upd1. by rewrite decide_True. Qed.
Lemma upd1_ne {A} (f : nat → A) i x j : j ≠ i → upd1 f i x j = f j.
Proof. intros. unfold upd1. by rewrite decide_False. Qed.

Definition zsum (l : list Z) : Z := foldr Z.add 0%Z l.

Section world.
  Context {K V : Type} {Keq : EqDecision K} (cfg : config K) (nthr nsh : nat).
  Notation core := (core K V). Notation ghost := (@ghost K). Notation event := (event K).
  Notation Inv := (Inv cfg).

  (** Ghost state of the machine around the map: root at the time a thread pinned, object a thread must still
      retire, counter adjustment a thread must still make, all operations invoked so far. *)
  Record rghost := RG { r_base : nat → nat; r_own : nat → option robj; r_pend : nat → Z; r_ops : list (op K V) }.

  Definition gone (γ : ghost) (p : nat) : Prop := goneL (g_log γ) p.

  Record RC (c : core) (γ : ghost) : Prop := MkRC {
    rc_borrow : c_mode cfg ≠ Blocking → ∀ t t' i i' p, t' < t → Hp c t' i' p → Hp c t i p → e_borrowed (en (k_sl c) t i) = true;
    rc_gone : ∀ p t i, gone γ p → rt c ≤ t → Hp c t i p → CD c t i;
    rc_lt : ∀ p, gone γ p → p < length (k_hp c) }.

  (** Which write an operation may perform. *)
  Definition evok (h : list (K * V)) (o : op K V) (e : event) : Prop :=
    let old := ev_old e ≫= (h !!.) in let new := ev_new e ≫= (h !!.) in
    let comp k f := ev_key e = k ∧
      match f old with
      | OpInsert v => is_Some (ev_new e) ∧ new = Some (k, v)
      | OpRemove => is_Some (ev_old e) ∧ ev_new e = None
      | OpAbort | OpPanic => False
      end in
    match o with
    | OInsert k v => ev_key e = k ∧ new = Some (k, v)
    | OTryInsert k v => ev_key e = k ∧ ev_old e = None ∧ new = Some (k, v)
    | ORemove k => ev_key e = k ∧ is_Some (ev_old e) ∧ ev_new e = None
    | ORemoveIf k f => ev_key e = k ∧ ev_new e = None ∧ ∃ k' v', old = Some (k', v') ∧ f k' v' = true
    | OCompute k f => comp k f
    | OTryInsertWith k v => comp k (f_try_insert v)
    | OUpdate k g => comp k (f_update g)
    | OUpdateOrInsert k g v => comp k (f_update_or_insert g v)
    | OClear => is_Some (ev_old e) ∧ ev_new e = None
    | ORetain f => ev_new e = None ∧ ∃ k' v', old = Some (k', v') ∧ f k' v' = false
    | _ => False
    end.
  Definition multi (o : op K V) : bool := match o with OClear | ORetain _ => true | _ => false end.

  (** Every write belongs to an operation that may perform it, single-key operations write at most once. *)
  Record EO (c : core) (γ : ghost) (ops : list (op K V)) : Prop := MkEO {
    eo_ev : ∀ e, e ∈ g_log γ → ∃ o, ops !! ev_op e = Some o ∧ evok (k_hp c) o e;
    eo_old : ∀ e p, e ∈ g_log γ → ev_old e = Some p → ky c p = Some (ev_key e);
    eo_pub : ∀ p i h, g_pub γ !! p = Some (i, Some h) → ∃ o k, ops !! i = Some o ∧ ky c p = Some k ∧ evok (k_hp c) o (Ev k i None (Some p));
    eo_publt : ∀ p i h, g_pub γ !! p = Some (i, h) → i < length ops;
    eo_uniq : ∀ n n' e e' o, g_log γ !! n = Some e → g_log γ !! n' = Some e' → ev_op e = ev_op e' →
                ops !! ev_op e = Some o → multi o = false → n = n';
    eo_pub1 : ∀ p p' i h h', g_pub γ !! p = Some (i, h) → g_pub γ !! p' = Some (i, h') → p = p';
    eo_pubev : ∀ p i h e, g_pub γ !! p = Some (i, h) → e ∈ g_log γ → ev_op e = i → ev_new e = Some p;
    eo_ins : ∀ p i h e, g_pub γ !! p = Some (i, Some h) → e ∈ g_log γ → ev_op e = i → ev_old e = None;
    eo_upd : ∀ p i e, g_pub γ !! p = Some (i, None) → e ∈ g_log γ → ev_op e = i → is_Some (ev_old e) }.

  Definition prot (me : nat) (d : side) (p : nat) : Prop :=
    p ∉ d_freed d ∧ ∀ it, it ∈ d_ret d → r_obj it = REntry p → me ∈ r_blockers it.

  (** Memory reclamation. *)
  Record RR (c : core) (γ : ghost) (ρ : rghost) (d : side) : Prop := MkRR {
    rr_len : length (d_fr d) = nt c ∧ length (d_df d) = nt c;
    rr_tfr : ∀ t, d_fr d !! t = Some true → RTable t ∈ d_ever d;
    rr_tever : ∀ t, RTable t ∈ d_ever d → t < rt c;
    rr_town : ∀ me t, r_own ρ me = Some (RTable t) → t < rt c ∧ RTable t ∉ d_ever d;
    rr_inj : ∀ me me' x, r_own ρ me = Some x → r_own ρ me' = Some x → me = me';
    rr_tall : ∀ t, t < rt c → al c t → RTable t ∈ d_ever d ∨ ∃ me, r_own ρ me = Some (RTable t);
    rr_eever : ∀ p, REntry p ∈ d_ever d → gone γ p ∧ ∀ t i, rt c ≤ t → ¬ Hp c t i p;
    rr_eown : ∀ me p, r_own ρ me = Some (REntry p) → gone γ p ∧ REntry p ∉ d_ever d ∧ ∀ t, p ∉ fld [] (d_df d) t;
    rr_edef : ∀ t p, p ∈ fld [] (d_df d) t → gone γ p ∧ REntry p ∉ d_ever d ∧ ∀ t' i, t < t' → al c t' → ¬ Hp c t' i p;
    rr_dnd : ∀ t, NoDup (fld [] (d_df d) t);
    rr_dinj : ∀ t t' p, p ∈ fld [] (d_df d) t → p ∈ fld [] (d_df d) t' → t = t';
    rr_dfr : ∀ t, d_fr d !! t = Some true → fld [] (d_df d) t = [];
    rr_eall : ∀ p, gone γ p → REntry p ∈ d_ever d ∨ (∃ me, r_own ρ me = Some (REntry p)) ∨ ∃ t, p ∈ fld [] (d_df d) t;
    rr_ret : ∀ it, it ∈ d_ret d → r_obj it ∈ d_ever d ∧
               match r_obj it with REntry p => p ∉ d_freed d | RTable t => d_fr d !! t = Some false end;
    rr_retnd : NoDup (map r_obj (d_ret d));
    rr_efr : ∀ p, p ∈ d_freed d → REntry p ∈ d_ever d;
    rr_all : ∀ o, o ∈ d_ever d → (∃ it, it ∈ d_ret d ∧ r_obj it = o) ∨
               match o with REntry p => p ∈ d_freed d | RTable t => d_fr d !! t = Some true end;
    rr_evnd : NoDup (d_ever d);
    rr_frnd : NoDup (d_freed d);
    rr_blk : ∀ it me, it ∈ d_ret d → me ∈ r_blockers it → me ∈ d_pins d;
    rr_base : ∀ me, me ∈ d_pins d → r_base ρ me ≤ rt c ∧ al c (r_base ρ me);
    rr_pint : ∀ me t, me ∈ d_pins d → r_base ρ me ≤ t → t < nt c → d_fr d !! t = Some false ∧
               ∀ it, it ∈ d_ret d → r_obj it = RTable t → me ∈ r_blockers it;
    rr_pine : ∀ me t i p, me ∈ d_pins d → r_base ρ me ≤ t → Hp c t i p → prot me d p }.

  (** Counters: published insertions minus removals. *)
  Definition n_ins (γ : ghost) : nat := length (filter (λ x, is_Some x.2) (g_pub γ)).
  Definition n_rem (γ : ghost) : nat := length (filter (λ e : event, ev_new e = None) (g_log γ)).
  Record CT (γ : ghost) (ρ : rghost) (d : side) : Prop := MkCT {
    ct_len : length (d_cnt d) = nsh ∧ 0 < nsh;
    ct_sum : (zsum (d_cnt d) + zsum (map (r_pend ρ) (seq 0 nthr)) = Z.of_nat (n_ins γ) - Z.of_nat (n_rem γ))%Z }.

  Definition world : Type := state K V * (ghost * rghost).
  Definition wc (w : world) : core := core_of w.1.
  Definition wd (w : world) : side := side_of w.1.
  Definition wg (w : world) : ghost := w.2.1.
  Definition wr (w : world) : rghost := w.2.2.

  Record WI (w : world) : Prop := MkWI {
    wi_inv : Inv (wc w) (wg w);
    wi_rc : RC (wc w) (wg w);
    wi_eo : EO (wc w) (wg w) (r_ops (wr w));
    wi_rr : RR (wc w) (wg w) (wr w) (wd w);
    wi_ct : CT (wg w) (wr w) (wd w) }.

  (** ** Rely *)
  Record extl (c : core) (γ : ghost) (c' : core) (γ' : ghost) : Prop := MkXl {
    xl_keep : ∀ t i p, Hp c t i p → Hp c' t i p ∨ gone γ' p;
    xl_new : ∀ t i p, t ≤ rt c → al c' t → p < length (k_hp c) → Hp c' t i p → Hp c t i p;
    xl_gone : ∀ t i p, gone γ p → al c' t → Hp c' t i p → Hp c t i p;
    xl_live : ∀ t i p k, t = rt c → ¬ CD c t i ∨ ¬ Mt c t i → Hp c' t i p → Mt c' t i ∨ t < rt c' → ky c' p = Some k →
      ∃ n, length (g_log γ) ≤ n ∧ n ≤ length (g_log γ') ∧ rp n (g_log γ') k = Some p }.
  Record extm (me : nat) (ρ : rghost) (d : side) (ρ' : rghost) (d' : side) : Prop := MkXm {
    xm_pin : me ∈ d_pins d → me ∈ d_pins d';
    xm_base : r_base ρ' me = r_base ρ me;
    xm_prot : ∀ p, me ∈ d_pins d → prot me d p → prot me d' p;
    xm_ops : r_ops ρ `prefix_of` r_ops ρ' }.
  Record extr (me : nat) (ρ ρ' : rghost) : Prop := MkXr {
    xr_own : r_own ρ' me = r_own ρ me;
    xr_pend : r_pend ρ' me = r_pend ρ me }.

  (** A step of another thread, seen by thread [me] running operation [i]. *)
  Record wx (me i : nat) (w w' : world) : Prop := MkWx {
    wx_0 : ext0 i (wc w) (wg w) (wc w') (wg w');
    wx_p : extp me (wc w) (wg w) (wc w') (wg w');
    wx_l : extl (wc w) (wg w) (wc w') (wg w');
    wx_m : extm me (wr w) (wd w) (wr w') (wd w');
    wx_r : extr me (wr w) (wr w') }.
  Definition wext (me i : nat) (w w' : world) : Prop := w = w' ∨ (WI w ∧ WI w' ∧ wx me i w w').
  Definition wgrd (me i : nat) (w w' : world) : Prop :=
    r_ops (wr w') = r_ops (wr w) ∧ ∀ me' i', me' ≠ me → i' ≠ i → wx me' i' w w'.

  (** Frame of helper routines: [me]'s events are untouched ([fx]), and so are its pending obligations ([fr]). *)
  Record fx_ (me i : nat) (w w' : world) : Prop := MkFx {
    fx_0 : ext0 i (wc w) (wg w) (wc w') (wg w');
    fx_l : extl (wc w) (wg w) (wc w') (wg w');
    fx_m : extm me (wr w) (wd w) (wr w') (wd w') }.
  Definition fx (me i : nat) (w w' : world) : Prop := w = w' ∨ (WI w ∧ WI w' ∧ fx_ me i w w').
  Definition fr (me i : nat) (w w' : world) : Prop := fx me i w w' ∧ extr me (wr w) (wr w').

  (** Any progress of the map, including [me]'s own writes. *)
  Definition unused (γ : ghost) (i : nat) : Prop := (∀ e, e ∈ g_log γ → ev_op e ≠ i) ∧ ∀ p h, g_pub γ !! p ≠ Some (i, h).
  Record mv_ (me : nat) (w w' : world) : Prop := MkMv {
    mv_0 : ∀ i, unused (wg w') i → ext0 i (wc w) (wg w) (wc w') (wg w');
    mv_l : extl (wc w) (wg w) (wc w') (wg w');
    mv_m : extm me (wr w) (wd w) (wr w') (wd w') }.
  Definition mv (me : nat) (w w' : world) : Prop := w = w' ∨ (WI w ∧ WI w' ∧ mv_ me w w').

  Lemma extl_refl c γ : Inv c γ → extl c γ c γ.
  Proof.
    intros I. split; auto. intros t i p k -> Hor H [M|?] Hk; [|lia]. destruct Hor as [D|]; [|done].
    exists (length (g_log γ)). split; [done|]. split; [done|]. rewrite rp_all by done.
    eapply (present_visible cfg _ _ I (rt c) i p k); auto. apply visited_root; [done|]. by eapply al_rt.
  Qed.
  Lemma extl_trans o c γ c1 γ1 c2 γ2 : Inv c γ → Inv c1 γ1 → Inv c2 γ2 → ext0 o c γ c1 γ1 → ext0 o c1 γ1 c2 γ2 →
    extl c γ c1 γ1 → extl c1 γ1 c2 γ2 → extl c γ c2 γ2.
  Proof.
    intros I0 I1 I2 X Y A B. pose proof (x_log _ _ _ _ _ X) as P1. pose proof (x_log _ _ _ _ _ Y) as P2.
    pose proof (prefix_length _ _ P1). pose proof (prefix_length _ _ P2). split.
    - intros t i p H1. destruct (xl_keep _ _ _ _ A _ _ _ H1) as [H2|H2]; [by apply (xl_keep _ _ _ _ B)|].
      right. by eapply goneL_prefix.
    - intros t i p L La Lp H1. apply (xl_new _ _ _ _ A); [done|by apply (x_st _ _ _ _ _ Y)|done|]. apply (xl_new _ _ _ _ B); [|done|  |done].
      + pose proof (x_rt _ _ _ _ _ X). lia.
      + pose proof (prefix_length _ _ (x_hp _ _ _ _ _ X)). lia.
    - intros t i p G La H1. apply (xl_gone _ _ _ _ A); [done|by apply (x_st _ _ _ _ _ Y)|]. apply (xl_gone _ _ _ _ B); [|done|done]. by eapply goneL_prefix.
    - intros t i p k -> Hor H1 Hm Hk. pose proof (x_rt _ _ _ _ _ X) as L1. pose proof (x_rt _ _ _ _ _ Y) as L2.
      pose proof (Hp_inb _ _ _ _ H1) as Li.
      assert (FIRST : CP c1 (rt c) i → Mt c1 (rt c) i ∨ rt c < rt c1 →
        ∃ n, length (g_log γ) ≤ n ∧ n ≤ length (g_log γ2) ∧ rp n (g_log γ2) k = Some p).
      { intros C M1. destruct (sx_cp _ _ _ _ _ _ (x_slot _ _ _ _ _ Y (rt c) i) C) as [_ E].
        assert (H1' : Hp c1 (rt c) i p) by (unfold Hp in *; congruence).
        destruct (HK_get _ _ _ _ _ _ I1 H1') as [k' Hk']. pose proof (st_ky _ _ _ _ _ Y _ _ Hk') as Hk2.
        assert (k' = k) by congruence. subst k'.
        destruct (xl_live _ _ _ _ A (rt c) i p k eq_refl Hor H1' M1 Hk') as (n & N1 & N2 & N3).
        exists n. split; [done|]. split; [lia|]. by rewrite (rp_prefix _ _ _ _ P2) by done. }
      destruct (decide (rt c < rt c1)) as [L|L].
      { apply FIRST; [|auto]. apply (CP_low _ _ _ I1); [done|apply (x_al _ _ _ _ _ X); [done|by eapply al_rt]|].
        assert (L3 : rt c < nt c1).
        { assert (L4 : rt c1 < nt c1); [|lia]. pose proof (i_root _ _ _ I1) as R.
          assert (Z : 0 < rt c1) by lia. revert Z R. unfold rt. destruct (k_rt c1); cbn; lia. }
        by rewrite <- (x_ln _ _ _ _ _ Y). }
      assert (Er : rt c = rt c1) by lia.
      assert (SECOND : ¬ CD c1 (rt c) i ∨ ¬ Mt c1 (rt c) i →
        ∃ n, length (g_log γ) ≤ n ∧ n ≤ length (g_log γ2) ∧ rp n (g_log γ2) k = Some p).
      { intros Hor1. destruct (xl_live _ _ _ _ B (rt c) i p k Er Hor1 H1 Hm Hk) as (n & N1 & N2 & N3). exists n. split; [lia|auto]. }
      destruct (CD_dec c1 (rt c) i) as [D|D]; [|auto]. destruct (Mt_dec c1 (rt c) i) as [M|M]; [|auto].
      destruct (e_ptr (en (k_sl c1) (rt c) i)) as [p1|] eqn:E1.
      + apply FIRST; [|auto]. by eapply (i_cdcp _ _ _ I1).
      + exfalso. assert (N : en (k_sl c1) (rt c) i ≠ NULLW) by (by eapply (i_claimed _ _ _ I1)).
        pose proof (sx_dead _ _ _ _ _ _ (x_slot _ _ _ _ _ Y (rt c) i) N E1). unfold Hp in H1. congruence.
  Qed.
  Lemma extm_refl me ρ d : extm me ρ d ρ d.
  Proof. split; auto. Qed.
  Lemma extm_trans me ρ d ρ1 d1 ρ2 d2 : extm me ρ d ρ1 d1 → extm me ρ1 d1 ρ2 d2 → extm me ρ d ρ2 d2.
  Proof.
    intros A B. split.
    - intros H. by apply (xm_pin _ _ _ _ _ B), (xm_pin _ _ _ _ _ A).
    - rewrite (xm_base _ _ _ _ _ B). apply A.
    - intros p H H1. apply (xm_prot _ _ _ _ _ B); [by apply (xm_pin _ _ _ _ _ A)|]. by apply (xm_prot _ _ _ _ _ A).
    - etrans; [apply A|apply B].
  Qed.
  Lemma extr_refl me ρ : extr me ρ ρ.
  Proof. split; auto. Qed.
  Lemma extr_trans me ρ ρ1 ρ2 : extr me ρ ρ1 → extr me ρ1 ρ2 → extr me ρ ρ2.
  Proof. intros [A1 A2] [B1 B2]. split; congruence. Qed.

  Lemma wext_refl me i w : wext me i w w.
  Proof. by left. Qed.
  Lemma wext_trans me i w1 w2 w3 : wext me i w1 w2 → wext me i w2 w3 → wext me i w1 w3.
  Proof.
    intros [->|(I1 & I2 & [A0 Ap Al Am Ar])]; [done|]. intros [<-|(_ & I3 & [B0 Bp Bl Bm Br])]; [right; by split_and!|].
    right. split_and!; auto. split.
    - by eapply ext0_trans.
    - by eapply extp_trans.
    - eapply extl_trans; eauto; [apply I1|apply I2|apply I3].
    - by eapply extm_trans.
    - by eapply extr_trans.
  Qed.
  Lemma fx_refl me i w : fx me i w w.
  Proof. by left. Qed.
  Lemma fx_trans me i w1 w2 w3 : fx me i w1 w2 → fx me i w2 w3 → fx me i w1 w3.
  Proof.
    intros [->|(I1 & I2 & [A0 Al Am])]; [done|]. intros [<-|(_ & I3 & [B0 Bl Bm])]; [right; by split_and!|].
    right. split_and!; auto. split.
    - by eapply ext0_trans.
    - eapply extl_trans; eauto; [apply I1|apply I2|apply I3].
    - by eapply extm_trans.
  Qed.
  Lemma fr_refl me i w : fr me i w w.
  Proof. split; [apply fx_refl|apply extr_refl]. Qed.
  Lemma fr_trans me i w1 w2 w3 : fr me i w1 w2 → fr me i w2 w3 → fr me i w1 w3.
  Proof. intros [A B] [C D]. split; [by eapply fx_trans|by eapply extr_trans]. Qed.
  Lemma wext_fr me i w w' : wext me i w w' → fr me i w w'.
  Proof.
    intros [->|(A & B & [C D E F G])]; [apply fr_refl|]. split; [right|done]. split_and!; auto. by split.
  Qed.

  Lemma ext0_unused i j (c : core) γ c' γ' : ext0 i c γ c' γ' → unused γ' j → ext0 j c γ c' γ'.
  Proof.
    intros X [U1 U2]. split; try apply X.
    - intros n e H _ E. destruct (U1 e); [by eapply elem_of_list_lookup_2|done].
    - intros p h H. by destruct (U2 p h).
  Qed.
  Lemma unused_ex γ : ∃ i, unused γ i.
  Proof.
    exists (S (foldr Nat.max 0 (map ev_op (g_log γ)) + foldr Nat.max 0 (map fst (g_pub γ)))).
    assert (MX : ∀ (l : list nat) x, x ∈ l → x ≤ foldr Nat.max 0 l).
    { intros l x H. induction H; cbn; lia. }
    split.
    - intros e H E. assert (A : ev_op e ∈ map ev_op (g_log γ)) by (by apply elem_of_list_fmap_1). apply MX in A. lia.
    - intros p h H. apply elem_of_list_lookup_2 in H. apply (elem_of_list_fmap_1 fst) in H. apply MX in H. cbn in H. unfold fmap in H.
      change (list_fmap _ _ fst (g_pub γ)) with (map fst (g_pub γ)) in H. lia.
  Qed.
  Lemma mv_refl me w : mv me w w.
  Proof. by left. Qed.
  Lemma mv_trans me w1 w2 w3 : mv me w1 w2 → mv me w2 w3 → mv me w1 w3.
  Proof.
    intros [->|(I1 & I2 & [A0 Al Am])]; [done|]. intros [<-|(_ & I3 & [B0 Bl Bm])]; [right; by split_and!|].
    assert (U : ∀ i, unused (wg w3) i → unused (wg w2) i).
    { intros i Hi. pose proof (B0 i Hi) as Y. destruct Hi as [U1 U2]. split.
      - intros e H. apply U1. eapply elem_of_prefix; [done|apply Y].
      - intros p h H. apply (U2 p h). eapply prefix_lookup; [done|apply Y]. }
    right. split_and!; auto. split.
    - intros i Hi. eapply ext0_trans; eauto.
    - destruct (unused_ex (wg w3)) as [i Hi]. eapply (extl_trans i); eauto; [apply I1|apply I2|apply I3].
    - by eapply extm_trans.
  Qed.
  Lemma fx_mv me i w w' : fx me i w w' → mv me w w'.
  Proof.
    intros [->|(A & B & [C D E])]; [by left|right]. split_and!; auto. split; auto.
    intros j Hj. by eapply ext0_unused.
  Qed.
  Lemma fr_mv me i w w' : fr me i w w' → mv me w w'.
  Proof. intros [A _]. by eapply fx_mv. Qed.
  Lemma mv_ext0 me w w' : mv me w w' → ∃ i, ext0 i (wc w) (wg w) (wc w') (wg w').
  Proof.
    intros [->|(_ & _ & X)]; [exists 0; apply ext0_refl|]. destruct (unused_ex (wg w')) as [i Hi]. exists i. by apply X.
  Qed.
  Lemma mv_extm me w w' : mv me w w' → extm me (wr w) (wd w) (wr w') (wd w').
  Proof. intros [->|(_ & _ & X)]; [apply extm_refl|apply X]. Qed.
  Lemma mv_extl me w w' : WI w → mv me w w' → extl (wc w) (wg w) (wc w') (wg w').
  Proof. intros I [->|(_ & _ & X)]; [apply extl_refl, I|apply X]. Qed.
  Lemma fx_ext0 me i w w' : fx me i w w' → ext0 i (wc w) (wg w) (wc w') (wg w').
  Proof. intros [->|(_ & _ & X)]; [apply ext0_refl|apply X]. Qed.
  Lemma wext_extp me i w w' : wext me i w w' → extp me (wc w) (wg w) (wc w') (wg w').
  Proof. intros [->|(_ & _ & X)]; [apply extp_refl|apply X]. Qed.
End world.
