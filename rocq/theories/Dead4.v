(** C42, part 4: copying. *)
From Verif Require Export Dead3.

Section dead.
  Context {K V : Type} {Keq : EqDecision K} (cfg : config K) (chunk : nat) (HM : c_mode cfg = Incremental chunk) (N : nat) (Lf : nat → nat).
  Notation prog := (prog K V). Notation action := (action K V). Notation state := (state K V).
  Notation gl := (gl (K:=K) (V:=V) N). Notation dm := (dm (K:=K) (V:=V) cfg N Lf). Notation dmh := (dmh (K:=K) (V:=V) cfg N Lf). Notation dk := (dk (K:=K) (V:=V) cfg N Lf).
  Notation plain := (plain (K:=K) (V:=V)). Notation JL := (JL (K:=K) (V:=V) cfg Lf).

  Lemma trP_us me p' (σ σ' : state) : (p' = KN ∨ ∃ t key, p' = US t key) → (∀ t key, know σ t key → know σ' t key) →
    (∀ t key, know σ t key → cond σ t key → cond σ' t key ∨ p' = US t key) → psame σ σ' → trP me KN p' σ σ'.
  Proof.
    intros Hp Kn Cd [A B].
    assert (TE : ∀ t, thrs σ' t = thrs σ t) by (intros t; unfold thrs; by rewrite A).
    split.
    - done.
    - intros t key X. by destruct Hp as [-> | (? & ? & ->)].
    - intros t. by rewrite A.
    - intros t x. rewrite TE. by left.
    - intros t key id X. by destruct Hp as [-> | (? & ? & ->)].
    - intros t key id X. by destruct Hp as [-> | (? & ? & ->)].
    - intros t. rewrite A, TE. destruct Hp as [-> | (? & ? & ->)]; cbn [cb]; lia.
    - intros i t x Hn Hx _. left. by rewrite TE.
    - intros i _. by rewrite B.
    - done.
    - intros t key id X. destruct Hp as [-> | (? & ? & ->)]; by destruct X.
    - done.
    - done.
    - intros t key id X. destruct Hp as [-> | (? & ? & ->)]; by destruct X.
  Qed.
  Lemma upd_flds n tb tb' (σ : state) : tables σ !! n = Some tb → t_slots tb' = t_slots tb →
    (∀ y, clm (upd_table n tb' σ) y = if decide (y = n) then t_claim tb' else clm σ y) ∧
    (∀ y, cpd (upd_table n tb' σ) y = if decide (y = n) then t_copied tb' else cpd σ y) ∧
    (∀ y, sts (upd_table n tb' σ) y = if decide (y = n) then t_status tb' else sts σ y) ∧
    (∀ y, pkr (upd_table n tb' σ) y = if decide (y = n) then t_parker tb' else pkr σ y) ∧
    (∀ y, tln (upd_table n tb' σ) y = tln σ y) ∧ ∀ y j, wrd (upd_table n tb' σ) y j = wrd σ y j.
  Proof.
    intros E S. pose proof (lookup_lt_Some _ _ _ E) as Lt.
    assert (D : ∀ A y (a b : A), (if decide (y = n ∧ n < length (tables σ)) then a else b) = if decide (y = n) then a else b).
    { intros A y a b. destruct (decide (y = n)); [by rewrite decide_True|]. by rewrite decide_False by (by intros [? _]). }
    split_and!; intros y; unfold cpd, sts, pkr; rewrite ?clm_upd, ?tfld_upd, ?tln_upd, ?D; [done|done|done|done| |].
    - destruct (decide (y = n)) as [->|]; [|done]. by rewrite S, (tln_eq _ _ _ E).
    - intros j. by eapply wrd_upd.
  Qed.
  Lemma tln_nt (σ : state) t l : tln σ t = Some l → t < nt (core_of σ) ∧ lnc (core_of σ) t = l.
  Proof.
    unfold tln. intros E. apply fmap_Some in E as (tb & Et & ->). pose proof (lookup_lt_Some _ _ _ Et) as Lt.
    split; [unfold nt, core_of; cbn; by rewrite map_length|]. unfold lnc, ln, core_of. cbn [k_sl]. rewrite list_lookup_fmap, Et. cbn. done.
  Qed.
  Lemma nt_tln (σ : state) t : t < nt (core_of σ) → ∃ l, tln σ t = Some l.
  Proof. unfold nt, core_of, tln. cbn. rewrite map_length. intros [tb Et]%lookup_lt_is_Some. rewrite Et. cbn. eauto. Qed.
  Lemma J_pos (σ : state) t l : JL σ → tln σ t = Some l → 0 < l ∧ l = Lf t.
  Proof using HM.
    intros [[γ I] Lo] E. split; [|by apply Lo]. apply tln_nt in E as [Lt <-]. apply (Inv_inc cfg _ _ _ HM) in I. destruct (ii_pow _ _ _ I t Lt) as (b & _ & ->).
    apply Nat.neq_0_lt_0, Nat.pow_nonzero. lia.
  Qed.
  Lemma J_root (σ : state) t : JL σ → clm σ (S t) ≠ 0 → ∃ r, root σ = Some r ∧ t ≤ r.
  Proof using HM.
    intros Hj C. pose proof Hj as [[γ I] Lo]. apply (Inv_inc cfg _ _ _ HM) in I. rewrite <- clm_fld in C.
    assert (Lt : S t < nt (core_of σ)).
    { destruct (decide (S t < nt (core_of σ))) as [|Nl]; [done|]. destruct C. rewrite clm_fld. unfold clm. rewrite lookup_ge_None_2; [done|]. unfold nt, core_of in Nl. cbn in Nl. rewrite map_length in Nl. lia. }
    destruct (nt_tln σ t) as [l El]; [lia|]. destruct (J_pos _ _ _ Hj El) as [Pl _]. apply tln_nt in El as [_ El].
    assert (P : g_ph γ t 0 ≠ PFree). { intros X. apply (ii_claim _ _ _ I t 0) in X; [lia|done|lia]. }
    pose proof (ii_root _ _ _ I) as R. assert (Rk : k_rt (core_of σ) = root σ) by done. rewrite Rk in R. destruct (root σ) as [r|] eqn:Er; [|lia].
    exists r. split; [done|]. destruct (decide (t ≤ r)) as [|Nr]; [done|]. destruct P. apply (ii_high _ _ _ I). unfold rt. rewrite Rk. cbn. lia.
  Qed.

  (** Claiming a chunk. *)
  Lemma gl_claim H (σ : state) me t tb : me < N → JL σ → gl H σ → hc (H me) = CN → tables σ !! S t = Some tb →
    gl (hst H me (HD (Cp t (t_claim tb) (t_claim tb) (t_claim tb + chunk) false) (hp (H me)) (hk (H me)))) (upd_table (S t) (t_set_claim (t_claim tb + chunk) tb) σ).
  Proof using HM.
    intros LN Hj G Ec E. destruct (upd_flds (S t) tb (t_set_claim (t_claim tb + chunk) tb) σ E eq_refl) as (F1 & F2 & F3 & F4 & F5 & F6). cbn [t_set_claim t_claim t_copied t_status t_parker] in *.
    assert (C0 : clm σ (S t) = t_claim tb) by by apply clm_eq.
    assert (C1 : ∀ y, clm σ y ≤ clm (upd_table (S t) (t_set_claim (t_claim tb + chunk) tb) σ) y). { intros y. rewrite F1. destruct (decide _) as [->|]; lia. }
    assert (C2 : ∀ y, cpd (upd_table (S t) (t_set_claim (t_claim tb + chunk) tb) σ) y = cpd σ y). { intros y. rewrite F2. destruct (decide _) as [->|]; [|done]. by rewrite (tfld_eq _ _ _ _ _ E : cpd σ (S t) = _). }
    assert (C3 : ∀ y, sts (upd_table (S t) (t_set_claim (t_claim tb + chunk) tb) σ) y = sts σ y). { intros y. rewrite F3. destruct (decide _) as [->|]; [|done]. by rewrite (tfld_eq _ _ _ _ _ E : sts σ (S t) = _). }
    assert (C4 : ∀ y, pkr (upd_table (S t) (t_set_claim (t_claim tb + chunk) tb) σ) y = pkr σ y). { intros y. rewrite F4. destruct (decide _) as [->|]; [|done]. by rewrite (tfld_eq _ _ _ _ _ E : pkr σ (S t) = _). }
    assert (Ln : S t < nt (core_of σ)) by (apply lookup_lt_Some in E; unfold nt, core_of; cbn; by rewrite map_length).
    eapply gl_tr; [done|exact G| | |by left]; cbn [hc hp hk].
    - rewrite Ec. split.
      + done.
      + intros y l X. by rewrite F5.
      + intros y X. destruct (tln_none _ _ X) as [Z1 Z2]. rewrite C2, F1. split; [|done]. destruct (decide _) as [[= ->]|]; [|done]. exfalso. destruct (nt_tln σ t) as [l El]; [lia|]. congruence.
      + intros y a u b m [= <- <- <- <- <-]. rewrite F1, decide_True by done. split_and!; [lia|lia|lia|right; lia].
      + intros y j (a & u & b & m & [= <- <- <- <- <-] & U1 & U2 & _). rewrite F6. intros M. exfalso. revert M. eapply J_unclaimed; [exact HM|apply Hj|done|lia].
      + intros y j. rewrite F6. by left.
      + intros y j P. rewrite F6 in P. right. split; [done|]. by intros.
      + intros y l X. rewrite C2, F1. cbn [fl]. destruct (decide (S y = S t)) as [[= ->]|Ny]; [rewrite decide_True by done; lia|]. rewrite decide_False by congruence. lia.
      + intros y l X Er Ey. rewrite F5 in X. rewrite C2 in Ey. right. split_and!; [done|done|done|discriminate].
      + intros y r Er Lr. right. right. exists r. rewrite C3. split_and!; [done|done|discriminate|done].
    - apply trP_same.
      + intros y [|j]; cbn [know]; [|by rewrite F6]. intros (t0 & l & r & -> & X1 & X2 & X3 & X4). exists t0, l, r. rewrite F5. specialize (C1 (S t0)). split_and!; [done|done|lia|done|done].
      + intros y [|j] _; cbn [cond]; [by rewrite C3|by rewrite F6].
      + split; [done|done].
  Qed.
  (** Adding to the count of copied slots. *)
  Definition cst (t : nat) (d : bool) (c : cpst) : Prop := c = CN ∨ (c = Pr t ∧ d = true).
  Lemma gl_copied H (σ : state) me t a u b tb n : me < N → JL σ → gl H σ → hc (H me) = Cp t a u b false → tables σ !! S t = Some tb → n = b `min` Lf t - a `min` Lf t →
    ∃ c, cst t (t_copied tb + n =? Lf t) c ∧ gl (hst H me (HD c (hp (H me)) (hk (H me)))) (upd_table (S t) (t_set_copied (t_copied tb + n) tb) σ).
  Proof using HM.
    intros LN Hj G Ec E En. destruct (upd_flds (S t) tb (t_set_copied (t_copied tb + n) tb) σ E eq_refl) as (F1 & F2 & F3 & F4 & F5 & F6). cbn [t_set_copied t_claim t_copied t_status t_parker] in *.
    assert (C0 : cpd σ (S t) = t_copied tb) by by apply (tfld_eq 0 t_copied).
    assert (C1 : ∀ y, clm (upd_table (S t) (t_set_copied (t_copied tb + n) tb) σ) y = clm σ y). { intros y. rewrite F1. destruct (decide _) as [->|]; [|done]. by rewrite (clm_eq _ _ _ E). }
    assert (C3 : ∀ y, sts (upd_table (S t) (t_set_copied (t_copied tb + n) tb) σ) y = sts σ y). { intros y. rewrite F3. destruct (decide _) as [->|]; [|done]. by rewrite (tfld_eq _ _ _ _ _ E : sts σ (S t) = _). }
    assert (C4 : ∀ y, pkr (upd_table (S t) (t_set_copied (t_copied tb + n) tb) σ) y = pkr σ y). { intros y. rewrite F4. destruct (decide _) as [->|]; [|done]. by rewrite (tfld_eq _ _ _ _ _ E : pkr σ (S t) = _). }
    assert (Ln : S t < nt (core_of σ)) by (apply lookup_lt_Some in E; unfold nt, core_of; cbn; by rewrite map_length).
    destruct (nt_tln σ t) as [l0 El]; [lia|]. destruct (J_pos _ _ _ Hj El) as [Pl ->].
    exists (if decide (root σ = Some t ∧ t_copied tb + n = Lf t) then Pr t else CN). split.
    { unfold cst. destruct (decide _) as [[_ X]|]; [right|by left]. split; [done|]. by apply Nat.eqb_eq. }
    eapply gl_tr; [done|exact G| | |by left]; cbn [hc hp hk].
    - rewrite Ec. set (c' := if decide _ then _ else _). assert (Nc : ∀ x a u b m, c' ≠ Cp x a u b m) by (intros; unfold c'; by destruct (decide _)).
      assert (Nl : ∀ l x, fl l x c' = 0) by (intros; unfold c'; by destruct (decide _)).
      split.
      + intros y. by rewrite C1.
      + intros y l X. by rewrite F5.
      + intros y X. destruct (tln_none _ _ X) as [Z1 Z2]. rewrite C1, F2. split; [done|]. destruct (decide (S y = S t)) as [[= ->]|]; [|done]. congruence.
      + intros y a' u' b' m' X. by apply Nc in X.
      + intros y j (a' & u' & b' & m' & X & _). by apply Nc in X.
      + intros y j. rewrite F6. by left.
      + intros y j P. rewrite F6 in P. right. split; [done|]. intros a' b' X. discriminate X.
      + intros y l X. rewrite C1, F2, Nl. cbn [fl]. destruct (decide (S y = S t)) as [[= ->]|Ny]; [|rewrite decide_False by congruence; lia]. rewrite decide_True by done. rewrite El in X. injection X as <-. lia.
      + intros y l X Er Ey. rewrite F5 in X. rewrite F2 in Ey. cbn in Er. destruct (decide (S y = S t)) as [[= ->]|Ny].
        * left. unfold c'. rewrite El in X. injection X as <-. by rewrite decide_True.
        * right. split_and!; [done|done|done|discriminate].
      + intros y r Er Lr. right. right. exists r. rewrite C3. split_and!; [done|done|discriminate|done].
    - apply trP_same.
      + intros y [|j]; cbn [know]; [|by rewrite F6]. intros (t0 & l & r & -> & X1 & X2 & X3 & X4). exists t0, l, r. by rewrite F5, C1.
      + intros y [|j] _; cbn [cond]; [by rewrite C3|by rewrite F6].
      + split; [done|done].
  Qed.
  (** Giving up: nothing was copied; the table is not the current one (any more). *)
  Lemma gl_giveup H (σ : state) me : me < N → JL σ → gl H σ → hc (H me) = CN ∨ (∃ t, hc (H me) = Pr t ∧ root σ ≠ Some t) ∨
    (∃ t a u b, hc (H me) = Cp t a u b false ∧ b `min` Lf t - a `min` Lf t = 0) → gl (hst H me (HD CN (hp (H me)) (hk (H me)))) σ.
  Proof using HM.
    intros LN Hj G Hc. eapply gl_tr; [done|exact G| | |by left]; cbn [hc hp hk]; [|by apply trP_same].
    assert (X1 : ∀ t l, tln σ t = Some l → fl l t (hc (H me)) = 0).
    { intros t l E. destruct (J_pos _ _ _ Hj E) as [_ ->]. destruct Hc as [->|[(t1 & -> & _)|(t1 & a & u & b & -> & Z)]]; [done|done|]. cbn [fl]. destruct (decide _) as [->|]; done. }
    assert (X2 : ∀ t a j b, hc (H me) ≠ Cp t a j b true) by (intros t a j b; destruct Hc as [->|[(t1 & -> & _)|(t1 & a1 & u & b1 & -> & Z)]]; done).
    assert (X3 : ∀ t, root σ = Some t → hc (H me) ≠ Pr t) by (intros t R; destruct Hc as [->|[(t1 & -> & ?)|(t1 & a1 & u & b1 & -> & Z)]]; [done|congruence|done]).
    assert (X4 : ∀ t, hc (H me) ≠ St t) by (intros t; destruct Hc as [->|[(t1 & -> & _)|(t1 & a1 & u & b1 & -> & Z)]]; done).
    split.
    - done.
    - done.
    - intros t E. by apply tln_none.
    - done.
    - intros t j (a & u & b & m & X & _). done.
    - by left.
    - intros t j P. by right.
    - intros t l E. rewrite (X1 _ _ E). cbn [fl]. lia.
    - intros t l E R C. right. split_and!; [done|done|done|by apply X3].
    - intros t r R Lr. right. right. by exists r.
  Qed.
  (** Installing the new table. *)
  Lemma gl_casroot H (σ : state) me t : me < N → JL σ → gl H σ → hc (H me) = CN ∨ hc (H me) = Pr t → root σ = Some t →
    gl (hst H me (HD (St t) (hp (H me)) (hk (H me)))) (set_root (Some (S t)) σ).
  Proof using HM.
    intros LN Hj G Hc R. eapply gl_tr; [done|exact G| | |by left]; cbn [hc hp hk].
    - assert (X1 : ∀ y l, fl l y (hc (H me)) = 0) by (by destruct Hc as [-> | ->]).
      split.
      + done.
      + done.
      + intros y E. by apply tln_none.
      + done.
      + intros y j (a & u & b & m & X & _). done.
      + by left.
      + intros y j P. right. split; [done|]. by destruct Hc as [-> | ->].
      + intros y l E. rewrite X1. cbn [fl]. change (clm (set_root (Some (S t)) σ)) with (clm σ). change (cpd (set_root (Some (S t)) σ)) with (cpd σ). lia.
      + intros y l E [= <-] C. exfalso. change (tln σ (S t) = Some l) in E. change (cpd σ (S (S t)) = l) in C. destruct (J_pos _ _ _ Hj E) as [Pl _]. destruct G as (GC & _). pose proof (gc_cnt _ _ _ GC (S t) l E) as X.
        destruct (J_root σ (S t) Hj) as (r & Er & Lr); [lia|]. rewrite R in Er. injection Er as <-. lia.
      + intros y r [= <-] Lr. destruct (decide (y = t)) as [->|Ny]; [by right; left|]. right. right. exists t. split_and!; [done|lia|by destruct Hc as [-> | ->]|done].
    - apply trP_same.
      + intros y [|j]; cbn [know]; [|done]. intros (t0 & l & r & -> & Y1 & Y2 & Y3 & Y4). exists t0, l, (S t). rewrite R in Y3. injection Y3 as <-. split_and!; [done|done|done|done|lia].
      + done.
      + done.
  Qed.
  (** Setting the status. *)
  Lemma gl_status H (σ : state) me t tb : me < N → JL σ → gl H σ → hc (H me) = St t → hp (H me) = KN → tables σ !! S t = Some tb →
    gl (hst H me (HD CN (US (S t) KStatus) (hk (H me)))) (upd_table (S t) (t_set_status PROMOTED tb) σ).
  Proof using HM.
    intros LN Hj G Ec Ep E. destruct (upd_flds (S t) tb (t_set_status PROMOTED tb) σ E eq_refl) as (F1 & F2 & F3 & F4 & F5 & F6). cbn [t_set_status t_claim t_copied t_status t_parker] in *.
    assert (C1 : ∀ y, clm (upd_table (S t) (t_set_status PROMOTED tb) σ) y = clm σ y). { intros y. rewrite F1. destruct (decide _) as [->|]; [|done]. by rewrite (clm_eq _ _ _ E). }
    assert (C2 : ∀ y, cpd (upd_table (S t) (t_set_status PROMOTED tb) σ) y = cpd σ y). { intros y. rewrite F2. destruct (decide _) as [->|]; [|done]. by rewrite (tfld_eq _ _ _ _ _ E : cpd σ (S t) = _). }
    assert (C4 : ∀ y, pkr (upd_table (S t) (t_set_status PROMOTED tb) σ) y = pkr σ y). { intros y. rewrite F4. destruct (decide _) as [->|]; [|done]. by rewrite (tfld_eq _ _ _ _ _ E : pkr σ (S t) = _). }
    eapply gl_tr; [done|exact G| | |by left]; cbn [hc hp hk].
    - rewrite Ec. split.
      + intros y. by rewrite C1.
      + intros y l X. by rewrite F5.
      + intros y X. rewrite C1, C2. by apply tln_none.
      + done.
      + intros y j (a' & u' & b' & m' & X & _). done.
      + intros y j. rewrite F6. by left.
      + intros y j P. rewrite F6 in P. by right.
      + intros y l X. rewrite C1, C2. cbn [fl]. lia.
      + intros y l X Er Ey. rewrite F5 in X. rewrite C2 in Ey. right. by split_and!.
      + intros y r Er Lr. destruct (decide (y = t)) as [->|Ny]; [left; rewrite F3; by rewrite decide_True|]. right. right. exists r. rewrite F3. rewrite decide_False by congruence. split_and!; [done|done|congruence|done].
    - rewrite Ep. apply trP_us.
      + right. eauto.
      + intros y [|j]; cbn [know]; [|by rewrite F6]. intros (t0 & l & r & -> & X1 & X2 & X3 & X4). exists t0, l, r. by rewrite F5, C1.
      + intros y [|j] _; cbn [cond]; [|rewrite F6; by left]. intros X. rewrite F3. destruct (decide (y = S t)) as [->|]; [by right|by left].
      + split; [done|done].
  Qed.
  (** Writing the entry that is being copied. *)
  Lemma gl_slot H (σ : state) me t i tb s s0 a b u m u' m' p' : me < N → JL σ → gl H σ → hc (H me) = Cp t a u b m → hp (H me) = KN → tables σ !! t = Some tb → t_slots tb !! i = Some s0 →
    a ≤ u' → a ≤ i → i < b → (m = true → u = i) →
    (∀ j, unm (Cp t a u' b m') t j → (j ≠ i ∨ ¬ marked (s_ent s)) ∧ unm (Cp t a u b m) t j) →
    (pending (s_ent s) → u' = i ∧ m' = true) → (marked (s_ent s0) → marked (s_ent s)) →
    (p' = KN ∧ (e_copied (s_ent s0) = false → e_copied (s_ent s) = false) ∨ p' = US t (KEntry i)) →
    gl (hst H me (HD (Cp t a u' b m') p' (hk (H me)))) (upd_slot t i tb s σ).
  Proof using HM.
    intros LN Hj G Ec Ep E Es A1 A2 A3 A4 A5 A6 A7 A8. pose proof G as (GC & _). destruct (gc_rng _ _ _ GC me _ _ _ _ _ Ec) as (R1 & R2 & R3).
    assert (W : ∀ y j, wrd (upd_slot t i tb s σ) y j = if decide (y = t ∧ j = i) then s_ent s else wrd σ y j) by (intros y j; by apply (wrd_upd_slot _ _ _ _ _ s0)).
    assert (W0 : wrd σ t i = s_ent s0) by by rewrite wrd_eq, E, Es.
    assert (F : ∀ A d (f : table → A) y, (∀ g, f (t_set_slots g tb) = f tb) → tfld d f (upd_slot t i tb s σ) y = tfld d f σ y) by (intros; by apply tfld_slot).
    assert (C1 : ∀ y, clm (upd_slot t i tb s σ) y = clm σ y) by (intros y; apply (F _ 0 t_claim); done).
    assert (C2 : ∀ y, cpd (upd_slot t i tb s σ) y = cpd σ y) by (intros y; by apply F).
    assert (C3 : ∀ y, sts (upd_slot t i tb s σ) y = sts σ y) by (intros y; by apply F).
    assert (C4 : ∀ y, pkr (upd_slot t i tb s σ) y = pkr σ y) by (intros y; by apply F).
    assert (C5 : ∀ y, tln (upd_slot t i tb s σ) y = tln σ y) by (intros y; by apply tln_slot).
    eapply gl_tr; [done|exact G| | |by left]; cbn [hc hp hk].
    - rewrite Ec. split.
      + intros y. by rewrite C1.
      + intros y l X. by rewrite C5.
      + intros y X. rewrite C1, C2. by apply tln_none.
      + intros y a1 u1 b1 m1 [= <- <- <- <- <-]. rewrite C1. split_and!; [done|done|done|]. left. eauto.
      + intros y j U M. pose proof U as (a1 & u1 & b1 & m1 & [= <- <- <- <- <-] & _). destruct (A5 j U) as [X U']. split; [|done]. rewrite W in M. destruct (decide _) as [[_ ->]|]; [|done]. by destruct X.
      + intros y j M. rewrite W in M. destruct (decide _) as [[-> ->]|]; [|by left]. right. exists a, u, b, m. by split_and!.
      + intros y j P. rewrite W in P. destruct (decide _) as [[-> ->]|Nj]; [left; destruct (A6 P) as [-> ->]; eauto|]. right. split; [done|]. intros a1 b1 [= <- <- <- <- ->]. destruct Nj. split; [done|]. by apply A4.
      + intros y l X. rewrite C1, C2. cbn [fl]. lia.
      + intros y l X Er Ey. rewrite C5 in X. rewrite C2 in Ey. right. split_and!; [done|done|done|discriminate].
      + intros y r Er Lr. right. right. exists r. rewrite C3. split_and!; [done|done|discriminate|done].
    - rewrite Ep. apply trP_us.
      + destruct A8 as [[-> _] | ->]; [by left|right; eauto].
      + intros y [|j]; cbn [know].
        * intros (t0 & l & r & -> & X1 & X2 & X3 & X4). exists t0, l, r. by rewrite C5, C1.
        * rewrite W. destruct (decide _) as [[-> ->]|]; [|done]. rewrite W0. exact A7.
      + intros y [|j] _; cbn [cond]; [rewrite C3; by left|]. rewrite W. destruct (decide _) as [[-> ->]|]; [|by left]. rewrite W0. destruct A8 as [[-> X] | ->]; [left; by apply X|by right].
      + split; [done|done].
  Qed.

  (** ** The programs *)
  Lemma tm_slot {A} t i (σ : state) (f : table → slot → outcome K V A) x σ' : with_slot t i σ f = Ok x σ' → (∀ tb s, tables σ !! t = Some tb → t_slots tb !! i = Some s → f tb s = Ok x σ' → tmono σ σ') → tmono σ σ'.
  Proof. intros E Hf. apply ws_ok' in E as (tb & s & Et & Es & E). by eapply Hf. Qed.
  Lemma tm_upd n tb tb' (σ : state) : tables σ !! n = Some tb → t_slots tb' = t_slots tb → tmono σ (upd_table n tb' σ).
  Proof. intros E S t l X. destruct (upd_flds n tb tb' σ E S) as (_ & _ & _ & _ & F & _). by rewrite F. Qed.
  Lemma tm_upds n i tb s (σ : state) : tables σ !! n = Some tb → tmono σ (upd_slot n i tb s σ).
  Proof. intros E t l X. by rewrite tln_slot. Qed.
  Lemma d_cai i tb n a b k : i < b → a ≤ i →
    dm (copy_at_incremental cfg i tb n) (λ _ h, h = HD (Cp (th tb) a (S i) b false) KN k) (HD (Cp (th tb) a i b false) KN k).
  Proof using HM.
    intros Lb La. unfold copy_at_incremental. cbn [bind act].
    split; [intros me σ E; exfalso; revert E; by apply nb_slot|]. split; [intros me o σ x σ' E; eapply tm_slot; [exact E|]; intros t s Et Es E'; injection E' as _ <-; by apply tm_upds|].
    intros H me o σ e σ' LN Hj Hj' G Em E. apply ws_ok' in E as (t & s & Et & Es & E). injection E as <- <-.
    assert (We : wrd σ (th tb) i = s_ent s) by by rewrite wrd_eq, Et, Es.
    assert (Nm : ¬ marked (s_ent s)). { rewrite <- We. destruct G as (GC & _). eapply (gc_own _ _ _ GC me). rewrite Em. exists a, i, b, false. split_and!; [done|lia|lia|done]. }
    destruct (e_ptr (s_ent s)) as [p|] eqn:Ep.
    - exists (HD (Cp (th tb) a i b true) KN k). split.
      { replace k with (hk (H me)) by by rewrite Em. eapply (gl_slot H σ me); [done|done|done|by rewrite Em|by rewrite Em|done|done|lia|lia|lia|done|..]; cbn [set_ent s_ent set_copying e_ptr e_copying e_copied].
        - intros j (a1 & u1 & b1 & m1 & [= <- <- <- <-] & U1 & U2 & U3). split; [left; by apply U3|]. exists a, i, b, false. by split_and!.
        - done.
        - done.
        - by left. }
      rewrite bool_decide_false by (intros X; rewrite X in Ep; done).
      assert (Nc : e_copying (s_ent s) = false) by (destruct (e_copying (s_ent s)) eqn:X; [|done]; destruct Nm; split; [done|by rewrite Ep]).
      eapply dm_bind; [apply d_ic; rewrite Nc; by intros [? _]|]. intros [] h' ->; [|done]. clear -HM Lb La. cbn [bind act].
      split; [intros me σ E; exfalso; revert E; by apply nb_slot|]. split; [intros me o σ x σ' E; eapply tm_slot; [exact E|]; intros t s' Et Es E'; injection E' as _ <-; by apply tm_upds|].
      intros H me o σ x σ' LN Hj Hj' G Em E. apply ws_ok' in E as (t & s1 & Et & Es & E). injection E as <- <-.
      exists (HD (Cp (th tb) a (S i) b false) (US (th tb) (KEntry i)) k). split; [|apply d_unpark; by right].
      replace k with (hk (H me)) by by rewrite Em. eapply (gl_slot H σ me); [done|done|done|by rewrite Em|by rewrite Em|done|done|lia|lia|lia|done|..]; cbn [set_ent s_ent e_ptr e_copying e_copied].
      + intros j (a1 & u1 & b1 & m1 & [= <- <- <- <-] & U1 & U2 & U3). split; [left; lia|]. exists a, i, b, true. split_and!; [done|lia|lia|lia].
      + by intros [_ X].
      + intros _. split; [done|]. cbn. eauto.
      + by right.
    - exists (HD (Cp (th tb) a (S i) b false) KN k). split.
      { replace k with (hk (H me)) by by rewrite Em. eapply (gl_slot H σ me); [done|done|done|by rewrite Em|by rewrite Em|done|done|lia|lia|lia|done|..]; cbn [set_ent s_ent set_copying e_ptr e_copying e_copied].
        - intros j (a1 & u1 & b1 & m1 & [= <- <- <- <-] & U1 & U2 & U3). split; [left; lia|]. exists a, i, b, false. split_and!; [done|lia|lia|done].
        - intros [[_ X] _]. cbn in X. rewrite Ep in X. by destruct X.
        - done.
        - by left. }
      destruct (bool_decide _); [by cbn [dm]|]. apply dmh_act', q_store_meta.
  Qed.
  Lemma d_cci n i tb nx c a b k : b = i + n → a ≤ i →
    dm (copy_chunk_incremental cfg n i tb nx c) (λ r h, (∃ u, h = HD (Cp (th tb) a u b false) KN k) ∧ r = c + (b `min` th_len tb - i `min` th_len tb)) (HD (Cp (th tb) a i b false) KN k).
  Proof using HM.
    revert i c. induction n as [|n IH]; intros i c Eb La; cbn [copy_chunk_incremental].
    - cbn [dm]. split; [eauto|]. subst b. rewrite Nat.add_0_r. lia.
    - destruct (Nat.leb_spec (th_len tb) i).
      + cbn [dm]. split; [eauto|]. lia.
      + eapply dm_bind; [apply d_cai; lia|]. intros [] h' ->. eapply dm_mono; [|apply IH; lia]. intros r h' [A ->]. split; [done|]. lia.
  Qed.

  (** The end of try_promote, from the comparison on. *)
  Definition ptail (tb next : tref) (c : nat) : prog bool :=
    if c =? th_len tb then
      (r ← act a_root_raw;
       if bool_decide (r = Some (th tb)) then
         (ok ← act (a_cas_root tb next);
          (if (ok : bool) then (act (a_store_status next PROMOTED);; act (a_retire (RTable (th tb)))) else Ret tt);;
          unpark next KStatus;;
          Ret true)
       else Ret false)
    else Ret false.
  Lemma d_ptail tb nx c cc k : th nx = S (th tb) → cst (th tb) (c =? th_len tb) cc → dm (ptail tb nx c) (λ _ h, h = HD CN KN k) (HD cc KN k).
  Proof using HM.
    intros Nx Cc. unfold ptail. destruct (c =? th_len tb) eqn:Q; [|destruct Cc as [->|[_ Cc]]; [by cbn [dm]|done]].
    assert (Cc' : cc = CN ∨ cc = Pr (th tb)) by (destruct Cc as [->|[-> _]]; auto). clear Cc. cbn [bind act].
    split; [done|]. split; [intros me b σ x σ' [= _ <-]; by intros t l|].
    intros H me b σ r σ' LN Hj Hj' G Em E. injection E as <- <-. destruct (bool_decide _) eqn:Er.
    2:{ apply bool_decide_eq_false in Er. exists (HD CN KN k). split; [|by cbn [dm]]. pose proof (gl_giveup H σ me LN Hj G) as X. rewrite Em in X. apply X. cbn [hc]. destruct Cc' as [-> | ->]; [by left|right; left; eauto]. }
    exists (HD cc KN k). split. { rewrite <- Em. apply (gl_same (K:=K) cfg N Lf H σ me σ LN Hj G), us_refl. }
    clear Er H me b σ LN Hj Hj' G Em. cbn [bind act].
    split; [intros me σ E; unfold a_cas_root in E; by destruct (decide _)|]. split; [intros me b σ x σ' E; unfold a_cas_root in E; destruct (decide _); injection E as _ <-; by intros t l|].
    intros H me b σ ok σ' LN Hj Hj' G Em E. unfold a_cas_root in E. destruct (decide _) as [R|R]; injection E as <- <-.
    - exists (HD (St (th tb)) KN k). split. { pose proof (gl_casroot H σ me (th tb) LN Hj G) as X. rewrite Em, <- Nx in X. apply X; [|done]. cbn [hc]. done. }
      clear -HM Nx. cbn [bind act].
      split; [intros me σ E; exfalso; revert E; by apply nb_table|]. split; [intros me b σ x σ' E; eapply wt_ok in E as (t & Et & E); injection E as _ <-; by eapply tm_upd|].
      intros H me b σ x σ' LN Hj Hj' G Em E. apply wt_ok in E as (t & Et & E). injection E as <- <-. rewrite Nx in *.
      exists (HD CN (US (S (th tb)) KStatus) k). split. { pose proof (gl_status H σ me (th tb) t LN Hj G) as X. rewrite Em in X. by apply X. }
      cbn [bind act]. apply dm_plain; [apply q_retire|]. intros []. cbn [bind]. eapply dm_bind; [apply d_unpark; right; by rewrite Nx|]. intros [] h ->. by cbn [dm].
    - exists (HD CN KN k). split. { pose proof (gl_giveup H σ me LN Hj G) as X. rewrite Em in X. apply X. cbn [hc]. destruct Cc' as [-> | ->]; [by left|right; left; eauto]. }
      cbn [bind]. eapply dm_bind; [apply d_unpark; by left|]. intros [] h ->. by cbn [dm].
  Qed.
  Lemma d_promote0 tb nx k : th nx = S (th tb) → dmh (HD CN KN k) (try_promote tb nx 0).
  Proof using HM.
    intros Nx. unfold try_promote. cbn [Nat.ltb Nat.leb bind act]. apply dm_plain; [apply q_load_copied|]. intros c. apply (d_ptail tb nx c CN k Nx). by left.
  Qed.
  Lemma d_promote tb nx a u b c k : th nx = S (th tb) → th_len tb = Lf (th tb) → c = b `min` th_len tb - a `min` th_len tb →
    dm (try_promote tb nx c) (λ _ h, h = HD CN KN k) (HD (Cp (th tb) a u b false) KN k).
  Proof using HM.
    intros Nx Ln Ec. unfold try_promote. destruct (Nat.ltb_spec 0 c) as [L0|L0]; cbn [bind act].
    - split; [intros me σ E; exfalso; revert E; by apply nb_table|]. split; [intros me o σ x σ' E; eapply wt_ok in E as (t & Et & E); injection E as _ <-; by eapply tm_upd|].
      intros H me o σ x σ' LN Hj Hj' G Em E. apply wt_ok in E as (t & Et & E). injection E as <- <-. rewrite Nx in *. rewrite Ln in Ec.
      destruct (gl_copied H σ me (th tb) a u b t c LN Hj G) as (c' & Cs & G'); [by rewrite Em|done|done|]. rewrite Em in G'. cbn [hp hk] in G'. exists (HD c' KN k). split; [done|].
      apply (d_ptail tb nx _ c' k Nx). by rewrite Ln.
    - split; [intros me σ E; exfalso; revert E; by apply nb_table|]. split; [intros me o σ x σ' E; eapply wt_ok in E as (t & Et & E); injection E as _ <-; by intros y l|].
      intros H me o σ x σ' LN Hj Hj' G Em E. apply wt_ok in E as (t & Et & E). injection E as <- <-.
      exists (HD CN KN k). split; [|apply (d_ptail tb nx _ CN k Nx); by left]. pose proof (gl_giveup H σ me LN Hj G) as X. rewrite Em in X. apply X. cbn [hc]. right. right. exists (th tb), a, u, b. rewrite <- Ln. split; [done|lia].
  Qed.
  Lemma d_ws tb : dmh (HD CN KN (Some (th tb, KStatus))) (wait_status cfg tb).
  Proof.
    unfold wait_status. apply dmh_loop; [|intros; apply dmh_ret]. intros n. apply dmh_bind; [apply d_spin_status|]. intros [s|]; [apply dmh_ret|]. cbn [bind act].
    apply dmh_act; [apply q_load_status|]. intros s. destruct (bool_decide _); [|apply dmh_ret]. apply dmh_bind; [apply d_park|]. intros []. apply dmh_ret.
  Qed.
  Lemma d_wc i tb : dmh (HD CN KN (Some (th tb, KEntry i))) (wait_copied cfg i tb).
  Proof. unfold wait_copied. apply dmh_bind; [apply d_spin_copied|]. intros []; [apply dmh_ret|apply d_park]. Qed.

  (** mod.rs:2192-2288. Without blocking, knowledge is kept. *)
  Lemma d_hci b k : dm (help_copy_incremental cfg chunk b) (λ _ h, if b then kh h else h = HD CN KN k) (HD CN KN k).
  Proof using HM.
    unfold help_copy_incremental. cbn [bind act].
    split; [intros me σ E; unfold a_root in E; destruct (root σ); [exfalso; revert E; by apply nb_table|done]|].
    split; [intros me o σ x σ' E; apply cs_tmono; eapply q_root, E|].
    intros H me o σ r σ' LN Hj Hj' G Em E. exists (HD CN KN k). split. { rewrite <- Em. apply (gl_same (K:=K) cfg N Lf H σ me σ' LN Hj G). eapply q_root, E. }
    destruct r as [tb|]; [|by cbn [dm]].
    assert (Ln : th_len tb = Lf (th tb)).
    { unfold a_root in E. destruct (root σ) as [r|] eqn:R; [|done]. apply wt_ok in E as (t & Et & E). injection E as <- _. cbn [handle th th_len th_mask]. unfold th_len, handle. cbn [th_mask th].
      destruct (J_pos _ _ _ Hj (tln_eq _ _ _ Et)) as [P <-]. unfold t_len. lia. }
    clear H me o σ σ' LN Hj Hj' G Em E. cbn [bind].
    split; [intros me σ E; exfalso; revert E; apply nb_table; intros t; destruct (t_next t); [by apply nb_table|done]|].
    split; [intros me o σ x σ' E; apply cs_tmono; eapply q_next, E|].
    intros H me o σ r σ' LN Hj Hj' G Em E. exists (HD CN KN k). split. { rewrite <- Em. apply (gl_same (K:=K) cfg N Lf H σ me σ' LN Hj G). eapply q_next, E. }
    destruct r as [nx|]; [|cbn [dm]; by destruct b].
    destruct (J_next cfg _ _ _ _ _ _ (proj1 Hj) E) as [Nx _]. clear H me o σ σ' LN Hj Hj' G Em E.
    apply (dm_loop (K:=K) cfg N Lf (λ _ h, if b then kh h else h = HD CN KN k) (λ _ h, if b then kh h else h = HD CN KN k)); [by destruct b| |intros x h Hh; by cbn [dm]].
    intros _ h Hh. assert (Ek : ∃ k', h = HD CN KN k' ∧ (b = false → k' = k)).
    { destruct b; [destruct h as [? ? k0], Hh as [Hh1 Hh2]; cbn in *; subst; by exists k0|]. by exists k. }
    destruct Ek as (k' & -> & Ek). clear Hh.
    eapply dm_bind; [apply (d_promote0 tb nx k' Nx)|]. intros ok h ->. destruct ok; [cbn [dm]; destruct b; [done|by rewrite Ek]|].
    eapply (dm_bind (K:=K) cfg N Lf _ _ _ (λ (r : bool) h, ∃ k'', h = HD CN KN k'' ∧ (b = false → k'' = k') ∧ (b = true → r = false → k'' = Some (th nx, KStatus)))).
    { apply (dm_loop (K:=K) cfg N Lf (λ _ h, ∃ k'', h = HD CN KN k'' ∧ (b = false → k'' = k')) (λ (r : bool) h, ∃ k'', h = HD CN KN k'' ∧ (b = false → k'' = k') ∧ (b = true → r = false → k'' = Some (th nx, KStatus))));
        [eauto| |intros x h Hh; by cbn [dm]].
      intros _ h (k1 & -> & Ek1). cbn [bind act].
      split; [intros me σ E; exfalso; revert E; by apply nb_table|]. split; [intros me o σ x σ' E; apply cs_tmono; eapply q_load_claim, E|].
      intros H me o σ x σ' LN Hj Hj' G Em E. apply wt_ok in E as (t & Et & E). injection E as <- <-. destruct (Nat.leb_spec (th_len tb) (t_claim t)) as [Lc|Lc].
      - exists (HD CN KN (if b then Some (th nx, KStatus) else k1)). split; [|cbn [dm]; eexists; split; [done|]; destruct b; auto; done].
        destruct b; [|rewrite <- Em; apply (gl_same (K:=K) cfg N Lf H σ me σ LN Hj G), us_refl].
        pose proof (gl_same (K:=K) cfg N Lf H σ me σ LN Hj G (us_refl σ)) as G'. rewrite Nx in Et.
        eapply (gl_tr N H σ me (HD CN KN (Some (th nx, KStatus))) σ LN G).
        + rewrite Em. cbn [hc]. eapply trC_same; [exact Hj|apply cs_refl|done].
        + rewrite Em. cbn [hp]. by apply trP_same; [|..|by split].
        + right. cbn [hk]. intros t1 key [= <- <-]. cbn [know]. assert (C : clm σ (S (th tb)) = t_claim t) by by apply clm_eq.
          destruct (nt_tln σ (th tb)) as [l El]. { apply lookup_lt_Some in Et. unfold nt, core_of. cbn. rewrite map_length. lia. }
          destruct (J_pos _ _ _ Hj El) as [Pl ->]. destruct (J_root σ (th tb) Hj) as (r & Er & Lr); [lia|]. exists (th tb), (Lf (th tb)), r. rewrite Nx. split_and!; [done|done|lia|done|done].
      - exists (HD CN KN k1). split. { rewrite <- Em. apply (gl_same (K:=K) cfg N Lf H σ me σ LN Hj G), us_refl. }
        clear H me o σ LN Hj Hj' G Em t Et Lc. cbn [bind act].
        split; [intros me σ E; exfalso; revert E; by apply nb_table|]. split; [intros me o σ x σ' E; eapply wt_ok in E as (t & Et & E); injection E as _ <-; by eapply tm_upd|].
        intros H me o σ x σ' LN Hj Hj' G Em E. apply wt_ok in E as (t & Et & E). injection E as <- <-. rewrite Nx in *.
        exists (HD (Cp (th tb) (t_claim t) (t_claim t) (t_claim t + chunk) false) KN k1). split.
        { pose proof (gl_claim H σ me (th tb) t LN Hj G) as X. rewrite Em in X. by apply X. }
        eapply dm_bind; [apply d_cci; lia|]. intros r h [[u ->] ->]. eapply dm_bind; [apply (d_promote tb nx); [done|done|lia]|]. intros ok h ->.
        assert (Z : ∀ x : bool, ∃ k'', HD CN KN k1 = HD CN KN k'' ∧ (b = false → k'' = k')) by (intros _; eauto).
        destruct ok; cbn [orb]; [cbn [dm]; eexists; split; [done|]; split; [done|done]|]. destruct (negb b); cbn [dm]; eexists; (split; [done|]); [split; done|done]. }
    intros r h (k2 & -> & Ek2 & Kn). destruct r; cbn [orb]; [cbn [dm]; destruct b; [done|]; rewrite Ek2, Ek by done; done|]. destruct b; cbn [negb]; [|cbn [dm]; by rewrite Ek2, Ek].
    rewrite Kn by done. eapply dm_bind; [apply d_ws|]. intros s h ->. destruct (bool_decide _); by cbn [dm].
  Qed.
  Lemma d_hc_t tb h : kh h → dm (help_copy cfg true tb) (λ _ h', kh h') h.
  Proof using HM.
    destruct h as [c p k]. intros [Hc Hp]. cbn in Hc, Hp. subst c p. unfold help_copy. rewrite HM. eapply dm_bind; [apply d_hci|]. intros x h Hh. by cbn [negb dm].
  Qed.
  Lemma d_hc_f tb k : dmh (HD CN KN k) (help_copy cfg false tb).
  Proof using HM.
    unfold help_copy. rewrite HM. eapply dm_bind; [apply d_hci|]. intros x h ->. cbn [negb bind act]. apply dm_plain; [apply q_next|]. intros [y|]; [by cbn [dm]|by cbn [dm]].
  Qed.
  Lemma d_init cp h : dmh h (init cp).
  Proof using HM.
    unfold init. destruct (alloc_len _) as [len|]; [|by apply dmh_fail]. cbn [act].
    split; [intros me σ E; unfold a_init in E; destruct (root σ); [exfalso; revert E; by apply nb_table|done]|].
    assert (TM : ∀ σ : state, tmono σ (set_root (Some (length (tables σ))) (set_tables (λ l, l ++ [new_table len PROMOTED]) σ))).
    { intros σ t l. unfold tln. cbn [set_root set_tables tables]. intros E. apply fmap_Some in E as (tb & Et & ->). by rewrite (lookup_app_l_Some _ _ _ _ Et). }
    split. { intros me b σ x σ' E. unfold a_init in E. destruct (root σ); [apply wt_ok in E as (? & _ & E); injection E as _ <-; by intros t l|]. cbn zeta in E. injection E as _ <-. apply TM. }
    intros H me b σ x σ' LN Hj Hj' G Em E. exists h. split; [|by cbn [dm]]. unfold a_init in E. destruct (root σ) as [r|] eqn:R.
    { apply wt_ok in E as (? & _ & E). injection E as <- <-. rewrite <- Em. apply (gl_same (K:=K) cfg N Lf H σ me σ LN Hj G), us_refl. }
    cbn zeta in E. injection E as <- <-.
    assert (T0 : tables σ = []).
    { destruct Hj as [[γ I] _]. pose proof (i_root _ _ _ I) as X. unfold core_of, nt in X. cbn in X. rewrite R, map_length in X. by apply nil_length_inv. }
    set (σ' := set_root _ _). assert (Ts : tables σ' = [new_table len PROMOTED]) by (unfold σ'; cbn; by rewrite T0).
    assert (W0 : ∀ y j, wrd σ y j = NULLW) by (intros; by rewrite wrd_eq, T0).
    assert (W1 : ∀ y j, wrd σ' y j = NULLW).
    { intros y j. rewrite wrd_eq, Ts. destruct y as [|y]; cbn; [|done]. destruct (replicate len slot0 !! j) as [s|] eqn:Es; [|done]. apply lookup_replicate in Es as [-> _]. done. }
    assert (PK : ∀ y, pkr σ y = parker0) by (intros; unfold pkr, tfld; by rewrite T0).
    assert (PK1 : ∀ y, pkr σ' y = parker0) by (intros [|y]; unfold pkr, tfld; rewrite Ts; done).
    assert (Kn : ∀ y key, ¬ know σ y key). { intros y [|j]; cbn; [|rewrite W0; by intros [? _]]. intros (t0 & l & r & _ & _ & _ & X & _). congruence. }
    rewrite <- Em. eapply gl_tr; [done|exact G| | |by left].
    - pose proof G as (GC & _).
      assert (C0 : ∀ y, clm σ y = 0) by (intros; unfold clm; by rewrite T0). assert (C1 : ∀ y, clm σ' y = 0) by (intros [|y]; unfold clm; rewrite Ts; done).
      assert (D0 : ∀ y, cpd σ y = 0) by (intros; unfold cpd, tfld; by rewrite T0). assert (D1 : ∀ y, cpd σ' y = 0) by (intros [|y]; unfold cpd, tfld; rewrite Ts; done).
      split.
      + intros y. rewrite C0. lia.
      + intros y l. unfold tln. by rewrite T0.
      + intros y _. by rewrite C1, D1.
      + intros y a u b' m X. destruct (gc_rng _ _ _ GC me _ _ _ _ _ X) as (R1 & R2 & R3). rewrite C0 in R3. rewrite C1. split_and!; [done|done|done|]. left. eauto.
      + intros y j _ [X _]. by rewrite W1 in X.
      + intros y j [X _]. by rewrite W1 in X.
      + intros y j [[X _] _]. by rewrite W1 in X.
      + intros y l. unfold tln. by rewrite T0.
      + intros y l X _ Y. rewrite D1 in Y. subst l. destruct (J_pos _ _ _ Hj' X). lia.
      + intros y r X Lr. unfold σ' in X. cbn in X. rewrite T0 in X. injection X as <-. cbn in Lr. lia.
    - apply trP_same; [intros y key X; by apply Kn in X|intros y key X; by apply Kn in X|]. split; [intros y; by rewrite PK, PK1|done].
  Qed.
End dead.
