(** C16: dropping the map frees every entry exactly once. *)
From Verif Require Export DropModel Marks4.

(** ** Lists *)
Lemma NoDup_bind {A B} (f : A → list B) (l : list A) : (∀ i x, l !! i = Some x → NoDup (f x)) →
  (∀ i j x y p, i < j → l !! i = Some x → l !! j = Some y → p ∈ f x → p ∈ f y → False) → NoDup (l ≫= f).
Proof.
  induction l as [|x l IH]; cbn; intros A1 A2; [constructor|]. apply list.NoDup_app. split_and!.
  - by apply (A1 0).
  - intros p H1 H2. apply elem_of_list_bind in H2 as (y & H2 & Hy). apply elem_of_list_lookup in Hy as [j Hy].
    apply (A2 0 (Datatypes.S j) x y p); [lia|done|done|done|done].
  - apply IH; [intros i y H; by apply (A1 (Datatypes.S i))|]. intros i j y z p L H1 H2. apply (A2 (Datatypes.S i) (Datatypes.S j)); [lia|done|done].
Qed.
Lemma NoDup_omap' {A B} (f : A → option B) (l : list A) :
  (∀ i j x y p, i < j → l !! i = Some x → l !! j = Some y → f x = Some p → f y = Some p → False) → NoDup (omap f l).
Proof.
  induction l as [|x l IH]; cbn; intros H; [constructor|].
  assert (N : NoDup (omap f l)) by (apply IH; intros i j y z p L; apply (H (Datatypes.S i) (Datatypes.S j)); lia).
  destruct (f x) as [p|] eqn:E; [|done]. constructor; [|done]. intros (y & Hy & E')%elem_of_list_omap. apply elem_of_list_lookup in Hy as [j Hy].
  apply (H 0 (Datatypes.S j) x y p); [lia|done|done|done|done].
Qed.

Section drop.
  Context {K V : Type} {Keq : EqDecision K} (cfg : config K) (nthr nsh : nat).
  Notation state := (state K V). Notation core := (core K V). Notation world := (@world K V).
  Notation WI := (WI cfg nthr nsh).

  Definition live_ent (s : slot) : option nat := if e_copying (s_ent s) then None else e_ptr (s_ent s).
  Definition lives (tb : table) : list nat := omap live_ent (t_slots tb).

  Lemma drop_entries_ok l : ∀ fr, NoDup (fr ++ omap live_ent l) → ∃ fr', drop_entries l fr = Some fr' ∧ fr' ≡ₚ fr ++ omap live_ent l.
  Proof.
    induction l as [|s l IH]; intros fr N; cbn; [exists fr; by rewrite app_nil_r|]. cbn in N. unfold live_ent at 1 in N. unfold live_ent at 1.
    destruct (e_ptr (s_ent s)) as [p|], (e_copying (s_ent s)); try by apply IH. rewrite <- Permutation_middle in N. apply list.NoDup_cons in N as [N1 N2].
    rewrite decide_False by (intros X; apply N1, elem_of_app; by left). destruct (IH (p :: fr)) as (fr' & E & P).
    - cbn. by apply list.NoDup_cons.
    - exists fr'. split; [done|]. rewrite P. cbn. by rewrite Permutation_middle.
  Qed.

  (** ** Draining retired entries when no table is retired *)
  Definition ent_of (it : ritem) : option nat := match r_obj it with REntry p => Some p | RTable _ => None end.
  Lemma drain_entries n : ∀ (σ : state), length (retired σ) ≤ n → (∀ it, it ∈ retired σ → ∃ p, r_obj it = REntry p) → NoDup (freed σ ++ omap ent_of (retired σ)) →
    ∃ σ', reclaim_all n σ = Some σ' ∧ freed σ' ≡ₚ freed σ ++ omap ent_of (retired σ) ∧ tables σ' = tables σ ∧ root σ' = root σ ∧ heap σ' = heap σ ∧ retired σ' = [].
  Proof.
    induction n as [|n IH]; intros σ L A N.
    - destruct (retired σ) as [|r rest] eqn:E; cbn in L; [|lia]. exists σ. cbn. rewrite E. cbn. by rewrite app_nil_r.
    - cbn. destruct (retired σ) as [|r rest] eqn:E; [exists σ; cbn; by rewrite app_nil_r|]. cbn in L.
      destruct (A r) as [p Ep]; [by left|]. unfold reclaim. rewrite Ep. cbn [freed set_retired].
      assert (Eo : omap ent_of (r :: rest) = p :: omap ent_of rest) by (cbn; unfold ent_of at 1; by rewrite Ep). rewrite Eo in *.
      rewrite <- Permutation_middle in N. apply list.NoDup_cons in N as [N1 N2]. rewrite decide_False by (intros X; apply N1, elem_of_app; by left). cbn [mbind option_bind].
      set (σ1 := set_freed _ _). destruct (IH σ1) as (σ' & E1 & P & T); cbn.
      + lia.
      + intros it Hi. apply A. by right.
      + by apply list.NoDup_cons.
      + exists σ'. split; [exact E1|]. split; [|exact T]. rewrite P. cbn. by rewrite Permutation_middle.
  Qed.

  Lemma ent_of_fmap (l : list nat) : omap ent_of ((λ p : nat, RItem (REntry p) []) <$> l) = l.
  Proof. induction l as [|q l IH]; [done|]. cbn. by f_equal. Qed.

  Lemma retire_all_ret l : ∀ (σ : state), NoDup l → (∀ p, p ∈ l → REntry p ∉ retired_ever σ) →
    ∃ σ', retire_all l σ = Some σ' ∧ tables σ' = tables σ ∧ root σ' = root σ ∧ heap σ' = heap σ ∧ freed σ' = freed σ ∧
      retired σ' = retired σ ++ ((λ p, RItem (REntry p) (pins σ)) <$> l) ∧ (∀ o, o ∈ retired_ever σ' ↔ o ∈ retired_ever σ ∨ ∃ p, o = REntry p ∧ p ∈ l).
  Proof.
    induction l as [|p l IH]; intros σ ND H; cbn.
    - exists σ. rewrite app_nil_r. split_and!; try done. intros o. split; [by left|]. intros [|(p & _ & X)]; [done|by apply elem_of_nil in X].
    - apply list.NoDup_cons in ND as [N1 N2]. rewrite decide_False by (apply H; by left). destruct (IH (do_retire (REntry p) σ)) as (σ' & E & A1 & A2 & A3 & A4 & A5 & A6); [done| |].
      + intros q Hq X. apply elem_of_cons in X as [[= ->]|X]; [done|]. revert X. apply H. by right.
      + exists σ'. split_and!; try done.
        * rewrite A5. cbn. by rewrite <- app_assoc.
        * intros o. rewrite A6. cbn. rewrite elem_of_cons. split.
          -- intros [[->|X]|(q & -> & X)]; [right; exists p; split; [done|by left]|by left|right; exists q; split; [done|by right]].
          -- intros [X|(q & -> & X)]; [left; by right|]. apply elem_of_cons in X as [->|X]; [left; by left|right; by exists q].
  Qed.

  (** ** The loop over the tables *)
  Definition chain (t : nat) (σ : state) : Prop := ∀ u tb, t ≤ u → tables σ !! u = Some tb →
    t_freed tb = false ∧ t_next tb = if decide (Datatypes.S u < length (tables σ)) then Some (Datatypes.S u) else None.
  Lemma drop_tables_ok n : ∀ t (σ : state), length (tables σ) = t + n → chain t σ →
    NoDup (freed σ ++ (drop t (tables σ) ≫= lives)) → NoDup (drop t (tables σ) ≫= t_deferred) →
    (∀ p, p ∈ drop t (tables σ) ≫= t_deferred → REntry p ∉ retired_ever σ) →
    ∃ σ', drop_tables n (if decide (0 < n) then Some t else None) σ = Some σ' ∧ freed σ' ≡ₚ freed σ ++ (drop t (tables σ) ≫= lives) ∧
      retired σ' = retired σ ++ ((λ p, RItem (REntry p) (pins σ)) <$> (drop t (tables σ) ≫= t_deferred)) ∧ heap σ' = heap σ ∧
      length (tables σ') = length (tables σ) ∧ take t (tables σ') = take t (tables σ) ∧ ∀ u tb, t ≤ u → tables σ' !! u = Some tb → t_freed tb = true.
  Proof.
    induction n as [|n IH]; intros t σ L C N1 N2 N3.
    - exists σ. cbn. rewrite drop_ge in * by lia. cbn. rewrite !app_nil_r. split_and!; try done. intros u tb Lu E. apply lookup_lt_Some in E. lia.
    - rewrite decide_True by lia. destruct (lookup_lt_is_Some_2 (tables σ) t) as [tb Et]; [lia|]. cbn. rewrite Et.
      destruct (C t tb) as [Cf Cn]; [done|done|]. rewrite Cf. rewrite (drop_S _ tb) in * by done. cbn in N1, N2, N3. rewrite app_assoc in N1.
      destruct (drop_entries_ok (t_slots tb) (freed σ)) as (fr & Ef & Pf); [by apply list.NoDup_app in N1 as (? & _)|]. fold (lives tb) in Pf. rewrite Ef. cbn [mbind option_bind].
      apply list.NoDup_app in N2 as (N2a & N2b & N2c).
      destruct (retire_all_ret (t_deferred tb) (set_freed fr σ)) as (σ1 & E1 & A1 & A2 & A3 & A4 & A5 & A6); [done|intros p Hp; apply N3, elem_of_app; by left|].
      cbn in A1, A2, A3, A4, A5, A6. unfold drop_table. rewrite E1. cbn [mbind option_bind]. set (σ2 := set_tables _ σ1).
      assert (T2 : tables σ2 = <[t := t_set_freed true (t_set_deferred [] tb)]> (tables σ)) by (unfold σ2; cbn; by rewrite A1).
      assert (L2 : length (tables σ2) = length (tables σ)) by (by rewrite T2, insert_length).
      assert (D2 : drop (Datatypes.S t) (tables σ2) = drop (Datatypes.S t) (tables σ)) by (rewrite T2, drop_insert_gt by lia; done).
      destruct (IH (Datatypes.S t) σ2) as (σ' & E2 & B1 & B2 & B3 & B4 & B5 & B6).
      + lia.
      + intros u tb' Lu Eu. rewrite L2. apply C; [lia|]. rewrite T2, list_lookup_insert_ne in Eu by lia. done.
      + rewrite D2. change (freed σ2) with (freed σ1). rewrite A4, Pf. done.
      + by rewrite D2.
      + rewrite D2. intros p Hp. change (retired_ever σ2) with (retired_ever σ1). intros [X|(q & [= <-] & X)]%A6.
        * revert X. apply N3, elem_of_app. by right.
        * by apply (N2b p).
      + exists σ'. split_and!.
        * rewrite Cn. replace (if decide (Datatypes.S t < length (tables σ)) then Some (Datatypes.S t) else None) with (if decide (0 < n) then Some (Datatypes.S t) else None); [done|].
          destruct (decide (0 < n)), (decide (Datatypes.S t < length (tables σ))); try done; lia.
        * rewrite B1, D2. change (freed σ2) with (freed σ1). rewrite A4, Pf. cbn. by rewrite <- app_assoc.
        * rewrite B2, D2. change (retired σ2) with (retired σ1). rewrite A5. change (pins σ2) with (pins σ1).
          assert (pins σ1 = pins σ) as ->. { clear -E1. change (pins σ) with (pins (set_freed fr σ)). revert E1. generalize (set_freed fr σ). induction (t_deferred tb) as [|p l IH]; cbn; intros x E; [by injection E as <-|]. destruct (decide _); [done|]. by apply IH in E. }
          cbn. rewrite fmap_app, <- app_assoc. done.
        * rewrite B3. done.
        * by rewrite B4.
        * replace t with (t `min` Datatypes.S t) by lia. rewrite <- !take_take, B5, T2, take_take. replace (t `min` Datatypes.S t) with t by lia.
          rewrite take_take. replace (t `min` Datatypes.S t) with t by lia. by rewrite take_insert by lia.
        * intros u tb' Lu Eu. destruct (decide (u = t)) as [->|]; [|apply (B6 u); [lia|done]].
          assert (X : take (Datatypes.S t) (tables σ') !! t = take (Datatypes.S t) (tables σ2) !! t) by (by rewrite B5).
          rewrite !lookup_take in X by lia. rewrite Eu, T2, list_lookup_insert in X by lia. by injection X as ->.
  Qed.

  (** ** The first reclamation *)
  Lemma bind_insert_len {A B} (f : A → list B) (l : list A) t x y : l !! t = Some x → length (<[t := y]> l ≫= f) + length (f x) = length (l ≫= f) + length (f y).
  Proof.
    revert t. induction l as [|z l IH]; intros [|t] E; cbn in E; [done|done| |].
    - injection E as ->. change (<[0:=y]> (x :: l)) with (y :: l). rewrite !bind_cons, !app_length. lia.
    - change (<[Datatypes.S t:=y]> (z :: l)) with (z :: <[t:=y]> l). rewrite !bind_cons, !app_length. specialize (IH t E). lia.
  Qed.
  Lemma retire_all_shape l : ∀ (σ σ' : state), retire_all l σ = Some σ' → length (retired σ') = length (retired σ) + length l ∧ heap σ' = heap σ.
  Proof.
    induction l as [|p l IH]; cbn; intros σ σ' E; [injection E as <-; split; [lia|done]|]. destruct (decide _); [done|]. apply IH in E as [E1 E2]. cbn in E1, E2. rewrite app_length in E1. cbn in E1. split; [lia|done].
  Qed.
  Lemma reclaim_work r rest (σ σ' : state) : retired σ = r :: rest → reclaim r rest σ = Some σ' → Datatypes.S (work σ') = work σ ∧ heap σ' = heap σ ∧ length (tables σ') = length (tables σ).
  Proof.
    intros R E. unfold reclaim in E. unfold work. rewrite R. cbn [length]. destruct (r_obj r) as [p|t].
    - destruct (decide _); [done|]. injection E as <-. done.
    - cbn [set_retired tables] in E. destruct (tables σ !! t) as [tb|] eqn:Et; [|done]. destruct (t_freed tb); [done|]. destruct (retire_all _ _) as [σ1|] eqn:RA; [|done]. cbn [mbind option_bind] in E. injection E as <-.
      pose proof (retire_all_same _ _ _ RA) as [E1 _]. apply retire_all_shape in RA as [E2 E3]. cbn in E1, E2, E3. cbn [set_tables tables retired heap]. rewrite E1, E2, insert_length.
      pose proof (bind_insert_len t_deferred (tables σ) t tb (t_set_freed true (t_set_deferred [] tb)) Et) as X. change (t_deferred (t_set_freed true (t_set_deferred [] tb))) with (@nil nat) in X. cbn [length] in X. split_and!; [lia|done|done].
  Qed.
  Lemma drain_ok n : ∀ w : world, WI w → pins w.1 = [] → work w.1 ≤ n →
    ∃ σ1, reclaim_all n w.1 = Some σ1 ∧ WI (σ1, w.2) ∧ retired σ1 = [] ∧ pins σ1 = [] ∧ msame cfg w.1 σ1 ∧ heap σ1 = heap w.1 ∧ length (tables σ1) = length (tables w.1).
  Proof.
    induction n as [|n IH]; intros w W P L.
    - unfold work in L. cbn. destruct (retired w.1) as [|r rest] eqn:E; cbn in L; [|lia]. exists w.1. split; [done|]. split; [by destruct w|]. split_and!; try done. apply msame_refl.
    - cbn. destruct (retired w.1) as [|r rest] eqn:E.
      + exists w.1. split; [done|]. split; [by destruct w|]. split_and!; try done. apply msame_refl.
      + assert (Hb : r_blockers r = []).
        { destruct (r_blockers r) as [|me l] eqn:Eb; [done|]. exfalso. pose proof (rr_blk _ _ _ _ (wi_rr _ _ _ _ W) r me) as B. unfold wd in B. cbn in B. rewrite E, P in B.
          assert (X : me ∈ (@nil nat)); [|by apply elem_of_nil in X]. apply B; [by left|rewrite Eb; by left]. }
        destruct (reclaim_step cfg nthr nsh w 0 r W) as (σ1 & RC & W1 & P1 & _); [by rewrite E|done|].
        assert (Er : take 0 (retired w.1) ++ drop 1 (retired w.1) = rest) by (by rewrite E). rewrite Er in RC. rewrite RC. cbn [mbind option_bind].
        destruct (reclaim_work _ _ _ _ E RC) as (Wk & Hp' & Lt). destruct (IH (σ1, w.2)) as (σ2 & E2 & W2 & R2 & P2 & M2 & H2 & L2); [done|cbn; congruence|cbn; lia|].
        exists σ2. cbn in *. split_and!; [done|done|done|done| |congruence|lia]. eapply msame_trans; [eapply msame_reclaim; exact RC|done].
  Qed.
  Lemma drop_tables_fuel n : ∀ m raw (σ σ' : state), n ≤ m → drop_tables n raw σ = Some σ' → drop_tables m raw σ = Some σ'.
  Proof.
    induction n as [|n IH]; intros m raw σ σ' L E.
    - destruct raw as [t|]; [done|]. by destruct m.
    - destruct m as [|m]; [lia|]. destruct raw as [t|]; [|done]. cbn in *. destruct (tables σ !! t) as [tb|]; [|done]. destruct (t_freed tb); [done|].
      destruct (drop_entries _ _) as [fr|]; [|done]. cbn in *. destruct (drop_table _ _ _) as [σ1|]; [|done]. cbn in *. eapply IH; [lia|done].
  Qed.

  (** ** What the invariant says about what is dropped *)
  Lemma lives_elem (σ : state) t tb p : tables σ !! t = Some tb → p ∈ lives tb ↔ ∃ i, Hp (core_of σ) t i p ∧ ¬ CP (core_of σ) t i.
  Proof.
    intros Et. unfold lives. rewrite elem_of_list_omap. unfold Hp, CP. fold (wrd σ). split.
    - intros (s & Hs & E). apply elem_of_list_lookup in Hs as [i Hi]. exists i. change (en (k_sl (core_of σ)) t i) with (wrd σ t i). rewrite wrd_eq, Et, Hi. unfold live_ent in E. by destruct (e_copying _).
    - intros (i & H1 & H2). change (en (k_sl (core_of σ)) t i) with (wrd σ t i) in H1, H2. rewrite wrd_eq, Et in H1, H2. destruct (t_slots tb !! i) as [s|] eqn:Es; [|done].
      exists s. split; [by eapply elem_of_list_lookup_2|]. unfold live_ent. by destruct (e_copying _).
  Qed.
  Definition unmarked (σ : state) : Prop := c_mode cfg = Blocking → ∀ r j, root σ = Some r → ¬ marked (wrd σ r j).

  Section facts.
    Context (w : world) (W : WI w) (U : unmarked w.1).
    Lemma root_unmarked i p : c_mode cfg = Blocking → Hp (wc w) (rt (wc w)) i p → CP (wc w) (rt (wc w)) i → False.
    Proof.
      intros HM H1 H2. pose proof (Hp_tab _ _ _ _ H1) as Lt. pose proof (i_root cfg _ _ (wi_inv _ _ _ _ W)) as R. unfold rt in H1, H2. change (k_rt (wc w)) with (root w.1) in *. destruct (root w.1) as [r|] eqn:Er; [|rewrite R in Lt; lia].
      eapply (U HM r i Er). split; [done|]. by exists p.
    Qed.
    Lemma blk_hidden t i p : c_mode cfg = Blocking → rt (wc w) ≤ t → Hp (wc w) t i p → t = rt (wc w).
    Proof.
      intros HM L H. destruct (decide (t = rt (wc w))) as [|N]; [done|]. exfalso. pose proof (Inv_blk cfg _ _ HM (wi_inv _ _ _ _ W)) as I.
      destruct (al_find cfg _ _ (wi_inv _ _ _ _ W) t i p L H) as [A|(i' & A & B)]; [|by eapply root_unmarked].
      destruct (b_src _ _ _ I t i p) as (i' & A1 & A2 & _); [lia|done|done|]. by eapply root_unmarked.
    Qed.
    Lemma live_once t t' i i' p : rt (wc w) ≤ t → rt (wc w) ≤ t' → Hp (wc w) t i p → ¬ CP (wc w) t i → Hp (wc w) t' i' p → ¬ CP (wc w) t' i' → t = t' ∧ i = i'.
    Proof.
      intros L L' H N H' N'. pose proof (wi_inv _ _ _ _ W) as I. destruct (HK_get cfg _ _ _ _ _ I H) as [k Ek].
      assert (K1 : HK (wc w) t i k) by (by exists p). assert (K2 : HK (wc w) t' i' k) by (by exists p).
      destruct (c_mode cfg) as [ch|] eqn:HM.
      - pose proof (Inv_inc cfg _ _ _ HM I) as II.
        assert (X : ∀ t t' i i', rt (wc w) ≤ t → HK (wc w) t i k → ¬ CP (wc w) t i → HK (wc w) t' i' k → Hp (wc w) t i p → t < t' → False).
        { intros u u' j j' Lu Q1 Q2 Q3 Q4 Lt. destruct (ii_uniq _ _ _ II u u' j j' k Lu Lt Q1 Q3) as [-> [D|[z Z]]]; [apply Q2; exact (ii_cdcp _ _ _ II _ _ _ Q4 D)|].
          pose proof (ii_phase _ _ _ II (rt (wc w)) j) as F. assert (Lj : j < lnc (wc w) (rt (wc w))).
          { destruct (decide (j < lnc (wc w) (rt (wc w)))) as [|G]; [done|]. exfalso. unfold Hp in Q4. rewrite en_oob in Q4; [done|]. unfold lnc in G. lia. }
          specialize (F Lj). unfold phase_ok in F. rewrite Z in F. exact (Q2 (proj1 F)). }
        destruct (lt_eq_lt_dec t t') as [[Lt|<-]|Lt]; [by destruct (X t t' i i')|split; [done|]|by destruct (X t' t i' i)].
        eapply (ii_u1 _ _ _ II); done.
      - pose proof (blk_hidden t i p HM L H) as ->. pose proof (blk_hidden t' i' p HM L' H') as ->. split; [done|]. eapply (i_u1 cfg _ _ I); [by eapply al_rt|done|done].
    Qed.
    (** A published entry that was not removed is in a slot from which it will be dropped. *)
    Lemma live_some p : (c_mode cfg ≠ Blocking → ∀ t j, ¬ pending (wrd w.1 t j)) → p < length (k_hp (wc w)) → ¬ gone (wg w) p → ∃ t i, rt (wc w) ≤ t ∧ Hp (wc w) t i p ∧ ¬ CP (wc w) t i.
    Proof.
      intros NP Lp NG. pose proof (wi_inv _ _ _ _ W) as I. rewrite <- (i_publen cfg _ _ I) in Lp. destruct (lookup_lt_is_Some_2 _ _ Lp) as [[o h] Ep].
      assert (CUR : lin (g_log (wg w)) p → ∃ k, replay (g_log (wg w)) k = Some p).
      { intros Li. pose proof Li as (e & He & En). exists (ev_key e). apply lin_current; [by apply (i_legal cfg _ _ I)| |done|done].
        intros e' He' En'. destruct (i_evkey cfg _ _ I e p He En) as [K1 _]. destruct (i_evkey cfg _ _ I e' p He' En') as [K2 _]. congruence. }
      destruct (c_mode cfg) as [ch|] eqn:HM.
      - pose proof (Inv_inc cfg _ _ _ HM I) as II.
        assert (NC : ∀ t i, Hp (wc w) t i p → ¬ CD (wc w) t i → ¬ CP (wc w) t i).
        { intros t i H D C. apply (NP ltac:(done) t i). unfold wrd. split; [split; [done|by exists p]|]. unfold CD in D. unfold wc in D. by destruct (e_copied _). }
        assert (FIN : lin (g_log (wg w)) p → ∃ t i, rt (wc w) ≤ t ∧ Hp (wc w) t i p ∧ ¬ CP (wc w) t i).
        { intros Li. destruct (CUR Li) as [k R]. apply (ii_abs _ _ _ II) in R as (t & i & A1 & A2 & A3 & A4 & A5 & _). exists t, i. auto. }
        destruct h as [[t i]|]; [|by apply FIN, (ii_home_upd _ _ _ II p o)].
        destruct (decide (t < rt (wc w))) as [Lt|Lt]; [by apply FIN, (ii_home_low _ _ _ II p o t i)|].
        destruct (ii_home_lin _ _ _ II p o t i Ep) as [Li|[A B]]; [lia|by apply FIN|].
        destruct (decide (e_copied (en (k_sl (wc w)) t i) = true)) as [D|D]; [|exists t, i; split; [lia|]; auto].
        destruct (decide (t = rt (wc w))) as [->|Nt].
        + destruct (ii_u7 _ _ _ II i p A D B) as (t' & i' & A1 & A2 & A3). exists t', i'. split; [lia|]. split; [done|]. apply NC; [done|]. by eapply (CD_high cfg _ _ I).
        + exfalso. eapply (CD_high cfg _ _ I t i p); [lia|done|done].
      - pose proof (Inv_blk cfg _ _ HM I) as IB.
        assert (FIN : lin (g_log (wg w)) p → ∃ t i, rt (wc w) ≤ t ∧ Hp (wc w) t i p ∧ ¬ CP (wc w) t i).
        { intros Li. destruct (CUR Li) as [k R]. apply (b_abs _ _ _ IB) in R as (i & A1 & _). exists (rt (wc w)), i. split; [done|]. split; [done|]. intros X. by eapply root_unmarked. }
        destruct h as [[t i]|]; [|by apply FIN, (b_home_upd _ _ _ IB p o)].
        pose proof (b_home_le _ _ _ IB p o t i Ep). destruct (decide (t < rt (wc w))) as [Lt|Lt]; [by apply FIN, (b_home_low _ _ _ IB p o t i)|].
        assert (t = rt (wc w)) as -> by lia. destruct (b_home_lin _ _ _ IB p o i Ep) as [Li|[A B]]; [by apply FIN|].
        exists (rt (wc w)), i. split; [done|]. split; [done|]. intros X. by eapply root_unmarked.
    Qed.
  End facts.

  Lemma dfr_tab (σ : state) t tb : tables σ !! t = Some tb → fld [] (d_df (side_of σ)) t = t_deferred tb.
  Proof. intros E. unfold fld. cbn. by rewrite list_lookup_fmap, E. Qed.

  (** ** Dropping a map in a state that satisfies the invariant *)
  Lemma drop_ok (w : world) : WI w → pins w.1 = [] → unmarked w.1 →
    ∃ σ' fr, drop_map w.1 = Some σ' ∧ freed σ' ≡ₚ fr ∧ NoDup fr ∧ (∀ p, p ∈ fr → p < length (heap w.1)) ∧
      ((∀ me, r_own (wr w) me = None) → (c_mode cfg ≠ Blocking → ∀ t j, ¬ pending (wrd w.1 t j)) → (c_mode cfg = Blocking → def0 w.1) →
         (∀ p, p < length (heap w.1) → p ∈ fr) ∧ ∀ t tb, tables σ' !! t = Some tb → (c_mode cfg = Blocking → t_status tb ≠ ABORTED) → t_freed tb = true).
  Proof.
    intros W P U. destruct (drain_ok (work w.1) w W P) as (σ1 & E1 & W1 & R1 & P1 & M1 & H1 & L1); [done|].
    set (w1 := (σ1, w.2) : world) in *.
    assert (U1 : unmarked w1.1).
    { intros HM r j Er. cbn in Er |- *. destruct M1 as (Mr & _ & Mw & _). rewrite Mr in Er. destruct (Mw r j) as [->|]; [|done]. by apply U. }
    pose proof (wi_inv _ _ _ _ W1) as I. pose proof (wi_rr _ _ _ _ W1) as RR1. pose proof (wi_rc _ _ _ _ W1) as RC1.
    set (c := wc w1) in *. set (r := rt c). set (T := tables σ1).
    assert (ET : nt c = length T) by (unfold nt, c, wc, T; cbn; by rewrite map_length).
    assert (Lr : r ≤ length T).
    { unfold r, rt. pose proof (i_root cfg _ _ I) as X. fold c in X. destruct (k_rt c); cbn in *; lia. }
    assert (DRT : ∀ i tb, drop r T !! i = Some tb → T !! (r + i) = Some tb) by (intros i tb; by rewrite lookup_drop).
    assert (FRT : ∀ t tb, T !! t = Some tb → d_fr (wd w1) !! t = Some (t_freed tb)) by (intros t tb E; change (d_fr (wd w1)) with (t_freed <$> T); by rewrite list_lookup_fmap, E).
    assert (DFT : ∀ t tb, T !! t = Some tb → fld [] (d_df (wd w1)) t = t_deferred tb) by (intros t tb E; by apply dfr_tab).
    assert (FREED : ∀ p, p ∈ freed σ1 → gone (wg w1) p ∧ REntry p ∈ retired_ever σ1 ∧ ∀ t i, r ≤ t → ¬ Hp c t i p).
    { intros p Hp'. pose proof (rr_efr _ _ _ _ RR1 p Hp') as X. destruct (rr_eever _ _ _ _ RR1 p X) as [A B]. by split_and!. }
    assert (DEF : ∀ t tb p, T !! t = Some tb → p ∈ t_deferred tb → gone (wg w1) p ∧ REntry p ∉ retired_ever σ1).
    { intros t tb p Et Hp'. rewrite <- (DFT _ _ Et) in Hp'. destruct (rr_edef _ _ _ _ RR1 t p Hp') as (A & B & _). by split. }
    assert (LIV : ∀ p, p ∈ drop r T ≫= lives ↔ ∃ t i, r ≤ t ∧ Hp c t i p ∧ ¬ CP c t i).
    { intros p. rewrite elem_of_list_bind. split.
      - intros (tb & X & Y). apply elem_of_list_lookup in Y as [j Y]. apply DRT in Y. destruct (proj1 (lives_elem σ1 _ _ _ Y) X) as (i & A & B). exists (r + j), i. split; [lia|done].
      - intros (t & i & A & B & C). pose proof (Hp_tab _ _ _ _ B) as Lt. rewrite ET in Lt. destruct (lookup_lt_is_Some_2 _ _ Lt) as [tb Et]. exists tb. split; [apply (proj2 (lives_elem σ1 t tb p Et)); by exists i|].
        apply elem_of_list_lookup. exists (t - r). rewrite lookup_drop. by replace (r + (t - r)) with t by lia. }
    assert (DEFb : ∀ p, p ∈ drop r T ≫= t_deferred ↔ ∃ t tb, r ≤ t ∧ T !! t = Some tb ∧ p ∈ t_deferred tb).
    { intros p. rewrite elem_of_list_bind. split.
      - intros (tb & X & Y). apply elem_of_list_lookup in Y as [j Y]. apply DRT in Y. exists (r + j), tb. split; [lia|done].
      - intros (t & tb & A & B & C). exists tb. split; [done|]. apply elem_of_list_lookup. exists (t - r). rewrite lookup_drop. by replace (r + (t - r)) with t by lia. }
    assert (N1 : NoDup (freed σ1 ++ (drop r T ≫= lives))).
    { apply list.NoDup_app. split_and!.
      - apply (rr_frnd _ _ _ _ RR1).
      - intros p X Y. apply FREED in X as (_ & _ & X). apply LIV in Y as (t & i & A & B & _). by apply (X t i).
      - apply NoDup_bind.
        + intros i tb Ei. apply DRT in Ei. unfold lives. apply NoDup_omap'. intros a b x y p Lt Ea Eb X Y.
          assert (Z : a = b); [|lia]. unfold live_ent in X, Y.
          assert (HX : ∀ a x, t_slots tb !! a = Some x → (if e_copying (s_ent x) then None else e_ptr (s_ent x)) = Some p → Hp c (r + i) a p ∧ ¬ CP c (r + i) a).
          { intros a' x' Ea' X'. unfold Hp, CP. change (en (k_sl c) (r + i) a') with (wrd σ1 (r + i) a'). rewrite wrd_eq. fold T. rewrite Ei, Ea'. destruct (e_copying (s_ent x')); [discriminate X'|]. split; [exact X'|]. intros Z; discriminate Z. }
          destruct (HX a x Ea X) as [X1 X2], (HX b y Eb Y) as [Y1 Y2]. eapply (live_once w1 W1 U1 (r + i) (r + i) a b p); try done; unfold r; fold c; lia.
        + intros i j tb tb' p Lt Ei Ej X Y. apply DRT in Ei, Ej. destruct (proj1 (lives_elem σ1 _ _ _ Ei) X) as (a & A1 & A2). destruct (proj1 (lives_elem σ1 _ _ _ Ej) Y) as (b & B1 & B2).
          destruct (live_once w1 W1 U1 (r + i) (r + j) a b p) as [Z _]; try done; unfold r; fold c; lia. }
    assert (N2 : NoDup (drop r T ≫= t_deferred)).
    { apply NoDup_bind.
      - intros i tb Ei. apply DRT in Ei. rewrite <- (DFT _ _ Ei). apply (rr_dnd _ _ _ _ RR1).
      - intros i j tb tb' p Lt Ei Ej X Y. apply DRT in Ei, Ej. rewrite <- (DFT _ _ Ei) in X. rewrite <- (DFT _ _ Ej) in Y. pose proof (rr_dinj _ _ _ _ RR1 _ _ _ X Y). lia. }
    assert (N3 : ∀ p, p ∈ drop r T ≫= t_deferred → REntry p ∉ retired_ever σ1) by (intros p (t & tb & _ & Et & Hp')%DEFb; by eapply DEF).
    assert (CH : chain r σ1).
    { intros t tb Lt Et. split.
      - destruct (t_freed tb) eqn:F; [|done]. exfalso. assert (X : d_fr (wd w1) !! t = Some true) by (by rewrite (FRT _ _ Et), F).
        apply (rr_tfr _ _ _ _ RR1), (rr_tever _ _ _ _ RR1) in X. unfold r in Lt. fold c in X. lia.
      - pose proof (i_next cfg _ _ I t) as X. fold c in X. rewrite ET in X. fold T. rewrite <- X by (by eapply lookup_lt_Some). change (k_nx c) with (t_next <$> T). unfold fld. fold T in Et. by rewrite list_lookup_fmap, Et. }
    destruct (drop_tables_ok (length T - r) r σ1) as (σ2 & E2 & B1 & B2 & B3 & B4 & B5 & B6); [fold T; lia|done|done|done|done|]. fold T in B1, B2, B4, B5.
    assert (E2' : drop_tables (length (tables σ1)) (root σ1) σ1 = Some σ2).
    { apply (drop_tables_fuel (length T - r)); [unfold T; lia|]. rewrite <- E2. f_equal. pose proof (i_root cfg _ _ I) as X. unfold r, rt. change (k_rt c) with (root σ1) in *. fold c in X. rewrite ET in X.
      destruct (root σ1) as [r'|]; cbn; [rewrite decide_True by lia; done|rewrite decide_False by lia; done]. }
    rewrite R1, P1 in B2. cbn in B2.
    assert (NF : NoDup (freed σ1 ++ (drop r T ≫= lives) ++ (drop r T ≫= t_deferred))).
    { rewrite app_assoc. apply list.NoDup_app. split_and!; [done| |done]. intros p X Y. apply DEFb in Y as (t & tb & _ & Et & Hp'). destruct (DEF _ _ _ Et Hp') as [G NE]. apply elem_of_app in X as [X|X].
      - by apply FREED in X as (_ & X & _).
      - apply LIV in X as (t' & i & Lt & A & B). apply B. eapply (i_cdcp cfg _ _ I); [done|]. eapply (rc_gone _ _ _ RC1); done. }
    destruct (drain_entries (work σ2) σ2) as (σ3 & E3 & C1 & C2 & C3 & C4 & C5).
    - unfold work. lia.
    - rewrite B2. intros it (p & -> & _)%elem_of_list_fmap. by exists p.
    - rewrite B1, B2, ent_of_fmap. by rewrite <- app_assoc.
    - rewrite B1, B2, ent_of_fmap, <- app_assoc in C1.
      exists σ3, (freed σ1 ++ (drop r T ≫= lives) ++ (drop r T ≫= t_deferred)). split; [unfold drop_map; rewrite E1; cbn [mbind option_bind]; rewrite E2'; done|].
      assert (HH : length (k_hp c) = length (heap w.1)) by (unfold c, wc, w1; cbn; by rewrite H1).
      split; [done|]. split; [done|]. split.
      { intros p X. rewrite <- HH. apply elem_of_app in X as [X|X]; [|apply elem_of_app in X as [X|X]].
        - apply FREED in X as (X & _). by apply (rc_lt _ _ _ RC1).
        - apply LIV in X as (t & i & _ & A & _). by eapply (i_ptr cfg _ _ I).
        - apply DEFb in X as (t & tb & _ & Et & Hp'). apply (rc_lt _ _ _ RC1). by eapply DEF. }
      intros OWN NP D0.
      assert (TF : ∀ t tb, t < r → T !! t = Some tb → al c t → t_freed tb = true).
      { intros t tb Lt Et A. destruct (rr_tall _ _ _ _ RR1 t Lt A) as [X|[me X]]; [|change (wr w1) with (wr w) in X; by rewrite OWN in X].
        destruct (rr_all _ _ _ _ RR1 _ X) as [(it & Hi & _)|Y]; [cbn in Hi; rewrite R1 in Hi; by apply elem_of_nil in Hi|]. rewrite (FRT _ _ Et) in Y. by injection Y. }
      split.
      + intros p Lp. rewrite <- HH in Lp. destruct (decide (p ∈ freed σ1 ++ (drop r T ≫= lives) ++ (drop r T ≫= t_deferred))) as [|N]; [done|]. exfalso.
        assert (G : gone (wg w1) p).
        { destruct (decide (Exists (λ e : event K, ev_old e = Some p) (g_log (wg w1)))) as [X|X]; [apply list.Exists_exists in X as (e & He & X); by exists e|].
          exfalso. destruct (live_some w1 W1 U1 p) as (t & i & A & B & C); [|done|intros (e & He & Y); apply X, list.Exists_exists; by exists e|apply N; rewrite !elem_of_app; right; left; apply LIV; by exists t, i].
          intros NB t j. cbn. destruct M1 as (_ & _ & Mw & _). destruct (Mw t j) as [->|Y]; [by apply NP|]. intros [? _]. done. }
        destruct (rr_eall _ _ _ _ RR1 p G) as [X|[[me X]|[t X]]].
        * destruct (rr_all _ _ _ _ RR1 _ X) as [(it & Hi & _)|Y]; [cbn in Hi; rewrite R1 in Hi; by apply elem_of_nil in Hi|]. apply N. rewrite elem_of_app. by left.
        * change (wr w1) with (wr w) in X. by rewrite OWN in X.
        * unfold fld in X. destruct (d_df (wd w1) !! t) as [l|] eqn:El; [|by apply elem_of_nil in X]. cbn in El. rewrite list_lookup_fmap in El. destruct (T !! t) as [tb|] eqn:Et; unfold T in Et; rewrite Et in El; [|done]. cbn in El, X. injection El as <-. fold T in Et.
          destruct (decide (r ≤ t)) as [Lt|Lt]; [apply N; rewrite !elem_of_app; right; right; apply DEFb; by exists t, tb|].
          destruct (c_mode cfg) as [ch|] eqn:HM.
          -- assert (F : t_freed tb = true) by (eapply (TF t); [lia|done|]; by eapply (al_inc cfg _ _ _ _ HM)).
             assert (Y : fld [] (d_df (wd w1)) t = []) by (apply (rr_dfr _ _ _ _ RR1); by rewrite (FRT _ _ Et), F). rewrite (DFT _ _ Et) in Y. rewrite Y in X. by apply elem_of_nil in X.
          -- destruct M1 as (_ & _ & _ & Md). specialize (Md HM (D0 eq_refl) t tb Et). rewrite Md in X. by apply elem_of_nil in X.
      + rewrite C2. intros t tb Et St. destruct (decide (r ≤ t)) as [Lt|Lt]; [by eapply B6|].
        assert (Et' : T !! t = Some tb).
        { assert (X : take r (tables σ2) !! t = take r T !! t) by (by rewrite B5). rewrite !lookup_take in X by lia. by rewrite <- X. }
        apply (TF t); [lia|done|]. destruct (c_mode cfg) as [ch|] eqn:HM; [by eapply (al_inc cfg _ _ _ _ HM)|]. specialize (St eq_refl). unfold al, fld. change (k_st c) with (t_status <$> T). rewrite list_lookup_fmap. by rewrite Et'.
  Qed.
End drop.

Section main.
  Context {K V : Type} {Keq : EqDecision K} (cfg : config K) (nthr nsh cap : nat).
  Context (HS : 0 < nsh).

  Lemma drop_reach sched (c : mconf K V) : exec cfg (init_conf cap nsh nthr) sched = Some c →
    (∀ i ts, mc_thr c !! i = Some ts → ts_run ts = None ∧ ts_dead ts = false) → pins (mc_st c) = [] →
    ∃ σ', drop_map (mc_st c) = Some σ' ∧ freed σ' ≡ₚ seq 0 (length (heap (mc_st c))) ∧
      ∀ t tb, tables σ' !! t = Some tb → (c_mode cfg = Blocking → t_status tb ≠ ABORTED) → t_freed tb = true.
  Proof.
    intros E Hq P. destruct (reach_MI_own cfg nthr nsh cap HS sched c E) as (w & D & G & M & O).
    pose proof (mi_st _ _ _ _ _ _ _ M) as Es. pose proof (mi_wi _ _ _ _ _ _ _ M) as W.
    assert (OW : ∀ me, r_own (wr w) me = None).
    { intros me. destruct (mc_thr c !! me) as [ts|] eqn:Et; [|apply O; rewrite <- (mi_len _ _ _ _ _ _ _ M); by apply lookup_ge_None_1].
      pose proof (mi_t _ _ _ _ _ _ _ M me ts Et) as T. destruct (Hq me ts Et) as [Q1 Q2]. destruct ts as [rn its dd]. cbn in Q1, Q2. subst rn dd. destruct T as [[T _] _]. exact T. }
    assert (U : unmarked cfg w.1) by (intros HM r j R; rewrite Es in *; by eapply (idle_no_marked cfg HM nthr nsh cap HS sched c)).
    destruct (drop_ok cfg nthr nsh w W) as (σ' & fr & E' & Pf & ND & LT & REST); [by rewrite Es|done|]. rewrite Es in *.
    destruct REST as [ALL TF].
    - done.
    - intros NB t j. destruct (c_mode cfg) as [ch|] eqn:HM; [|done]. by eapply (idle_no_pending cfg ch HM nthr nsh cap HS sched c).
    - intros HM. by eapply (blocking_never_defers cfg HM nthr nsh cap HS sched c).
    - exists σ'. split; [done|]. split; [|intros t tb Et Sa; by apply (TF t)]. rewrite Pf. apply NoDup_Permutation; [done|apply NoDup_ListNoDup, seq_NoDup|]. intros p. rewrite (elem_of_list_In (seq _ _)), in_seq, Nat.add_0_l. split; [intros X; split; [lia|by apply LT]|intros [_ X]; by apply ALL].
  Qed.

  (** C16: dropping the map. No call is running, no call has panicked and no guard is alive (the map is owned): the drop
      performs no double free and no access to freed memory, and afterwards every entry ever published has been freed exactly
      once. Every table has been freed too, except tables whose copy was given up (blocking mode only). *)
  Theorem C16_drop_frees_every_entry_once sched (c : mconf K V) : exec cfg (init_conf cap nsh nthr) sched = Some c →
    (∀ i ts, mc_thr c !! i = Some ts → ts_run ts = None ∧ ts_dead ts = false) → pins (mc_st c) = [] →
    ∃ σ', drop_map (mc_st c) = Some σ' ∧ freed σ' ≡ₚ seq 0 (length (heap (mc_st c))) ∧
      ∀ t tb, tables σ' !! t = Some tb → t_status tb ≠ ABORTED → t_freed tb = true.
  Proof. intros E Hq P. destruct (drop_reach sched c E Hq P) as (σ' & A & B & C). exists σ'. split_and!; [done|done|]. intros t tb Et Sa. by apply (C t). Qed.
  (** In incremental mode no table is leaked either. *)
  Theorem C16_incremental_drop_frees_everything (chunk : nat) sched (c : mconf K V) : c_mode cfg = Incremental chunk → exec cfg (init_conf cap nsh nthr) sched = Some c →
    (∀ i ts, mc_thr c !! i = Some ts → ts_run ts = None ∧ ts_dead ts = false) → pins (mc_st c) = [] →
    ∃ σ', drop_map (mc_st c) = Some σ' ∧ freed σ' ≡ₚ seq 0 (length (heap (mc_st c))) ∧ ∀ t tb, tables σ' !! t = Some tb → t_freed tb = true.
  Proof. intros HM E Hq P. destruct (drop_reach sched c E Hq P) as (σ' & A & B & C). exists σ'. split_and!; [done|done|]. intros t tb Et. apply (C t); [done|]. congruence. Qed.
  (** In incremental mode the drop is free of double frees even after calls have panicked. *)
  Theorem C16_incremental_drop_safe_after_panic (chunk : nat) sched (c : mconf K V) : c_mode cfg = Incremental chunk → exec cfg (init_conf cap nsh nthr) sched = Some c → pins (mc_st c) = [] →
    ∃ σ', drop_map (mc_st c) = Some σ' ∧ NoDup (freed σ') ∧ ∀ p, p ∈ freed σ' → p < length (heap (mc_st c)).
  Proof.
    intros HM E P. destruct (reach_MI_own cfg nthr nsh cap HS sched c E) as (w & D & G & M & O).
    pose proof (mi_st _ _ _ _ _ _ _ M) as Es. pose proof (mi_wi _ _ _ _ _ _ _ M) as W.
    destruct (drop_ok cfg nthr nsh w W) as (σ' & fr & E' & Pf & ND & LT & _); [by rewrite Es|intros HM'; congruence|]. rewrite Es in *.
    exists σ'. split; [done|]. split; [by rewrite Pf|]. intros p. rewrite Pf. apply LT.
  Qed.
End main.
