(** Steps of the machine around the map: pinning, unpinning, reclamation, invocation of operations; initial state. *)
From Verif Require Export IncOp.

Section mach1.
  Context {K V : Type} {Keq : EqDecision K} (cfg : config K) (nthr nsh : nat).
  Notation core := (core K V). Notation ghost := (@ghost K). Notation event := (event K).
  Notation world := (@world K V). Notation rghost := (@rghost K V). Notation state := (state K V).
  Notation Inv := (Inv cfg). Notation WI := (WI cfg nthr nsh). Notation CT := (CT nthr nsh).
  Implicit Types w : world.

  (** Steps that leave the core of the map and the linearization ghost state alone. *)
  Lemma wx_quiet me x w w' : Inv (wc w) (wg w) → wc w' = wc w → wg w' = wg w → extm me (wr w) (wd w) (wr w') (wd w') → extr me (wr w) (wr w') → wx me x w w'.
  Proof.
    intros I Ec Eg M R. split; [| | |done|done].
    - rewrite Ec, Eg. apply ext0_refl.
    - rewrite Ec, Eg. apply extp_refl.
    - rewrite Ec, Eg. by apply (extl_refl cfg).
  Qed.

  Definition s_pin (me : nat) (d : side) : side := Side (d_fr d) (d_df d) (d_ret d) (d_ever d) (d_freed d) (me :: d_pins d) (d_cnt d).
  Definition rs_base (b : nat → nat) (ρ : rghost) : rghost := RG b (r_own ρ) (r_pend ρ) (r_ops ρ).
  Definition rs_ops (l : list (op K V)) (ρ : rghost) : rghost := RG (r_base ρ) (r_own ρ) (r_pend ρ) l.

  Lemma RR_pin (c : core) γ ρ d me : Inv c γ → RR c γ ρ d → RR c γ (rs_base (upd1 (r_base ρ) me (rt c)) ρ) (s_pin me d).
  Proof.
    intros IV R. split; try apply R; cbn.
    - intros it me' Hi Hb. apply elem_of_cons. right. by eapply (rr_blk _ _ _ _ R).
    - intros me' Hm. destruct (decide (me' = me)) as [->|N]; [rewrite upd1_eq; split; [done|by eapply al_rt]|]. rewrite upd1_ne by done.
      apply elem_of_cons in Hm as [|Hm]; [done|]. by apply R.
    - intros me' t Hm Hb Ht. destruct (decide (me' = me)) as [->|N].
      + rewrite upd1_eq in Hb. split.
        * destruct (rr_len _ _ _ _ R) as [L _]. destruct (d_fr d !! t) as [[]|] eqn:E; [|done|].
          -- apply (rr_tfr _ _ _ _ R), (rr_tever _ _ _ _ R) in E. lia.
          -- apply lookup_ge_None in E. unfold nt in *. lia.
        * intros it Hi Eo. destruct (rr_ret _ _ _ _ R it Hi) as [H _]. rewrite Eo in H. apply (rr_tever _ _ _ _ R) in H. lia.
      + rewrite upd1_ne in Hb by done. apply elem_of_cons in Hm as [|Hm]; [done|]. by eapply (rr_pint _ _ _ _ R).
    - intros me' t i p Hm Hb Hp0. destruct (decide (me' = me)) as [->|N].
      + rewrite upd1_eq in Hb. split; cbn.
        * intros Hf. apply (rr_efr _ _ _ _ R), (rr_eever _ _ _ _ R) in Hf as [_ Hf]. by eapply Hf.
        * intros it Hi Eo. destruct (rr_ret _ _ _ _ R it Hi) as [H _]. rewrite Eo in H. apply (rr_eever _ _ _ _ R) in H as [_ Hf]. by exfalso; eapply Hf.
      + rewrite upd1_ne in Hb by done. apply elem_of_cons in Hm as [|Hm]; [done|]. by eapply (rr_pine _ _ _ _ R).
  Qed.

  Definition flt (me : nat) : list nat → list nat := List.filter (λ x, negb (x =? me)).
  Lemma elem_flt me x l : x ∈ flt me l ↔ x ∈ l ∧ x ≠ me.
  Proof.
    unfold flt. rewrite elem_of_list_In, List.filter_In, <- elem_of_list_In. rewrite negb_true_iff, Nat.eqb_neq. done.
  Qed.
  Definition s_unpin (me : nat) (d : side) : side :=
    Side (d_fr d) (d_df d) (map (λ r, RItem (r_obj r) (flt me (r_blockers r))) (d_ret d)) (d_ever d) (d_freed d) (flt me (d_pins d)) (d_cnt d).
  Lemma elem_unpin me d it : it ∈ d_ret (s_unpin me d) ↔ ∃ it0, it0 ∈ d_ret d ∧ it = RItem (r_obj it0) (flt me (r_blockers it0)).
  Proof. cbn. change (map ?f ?l) with (f <$> l). rewrite elem_of_list_fmap. naive_solver. Qed.
  Lemma prot_unpin me me' d p : me' ≠ me → prot me' d p → prot me' (s_unpin me d) p.
  Proof.
    intros N [A B]. split; [done|]. intros it (it0 & Hi & ->)%elem_unpin. cbn. intros Eo. apply elem_flt. split; [by apply B|done].
  Qed.
  Lemma RR_unpin (c : core) γ ρ d me : RR c γ ρ d → RR c γ ρ (s_unpin me d).
  Proof.
    intros R. split; try apply R.
    - intros it (it0 & Hi & ->)%elem_unpin. cbn. by apply (rr_ret _ _ _ _ R).
    - cbn. change (map ?f ?l) with (f <$> l). rewrite <- list_fmap_compose. apply R.
    - intros o0 Ho. destruct (rr_all _ _ _ _ R o0 Ho) as [(it & Hi & Eo)|?]; [left|by right].
      eexists. split; [apply elem_unpin; eauto|done].
    - intros it me' (it0 & Hi & ->)%elem_unpin. cbn. intros [A B]%elem_flt. apply elem_flt. split; [by eapply (rr_blk _ _ _ _ R)|done].
    - intros me' Hm. cbn in Hm. apply elem_flt in Hm as [Hm _]. by apply R.
    - intros me' t Hm Hb Ht. cbn in Hm. apply elem_flt in Hm as [Hm N]. destruct (rr_pint _ _ _ _ R me' t Hm Hb Ht) as [A B]. split; [done|].
      intros it (it0 & Hi & ->)%elem_unpin. cbn. intros Eo. apply elem_flt. split; [by apply B|done].
    - intros me' t i p Hm Hb Hp0. cbn in Hm. apply elem_flt in Hm as [Hm N]. apply prot_unpin; [done|]. by eapply (rr_pine _ _ _ _ R).
  Qed.

  (** ** Reclamation *)
  Lemma elem_del {A} (l : list A) j it it0 : l !! j = Some it0 → it ∈ take j l ++ drop (S j) l → it ∈ l.
  Proof. intros H Hi. rewrite <- (take_drop_middle _ _ _ H). apply elem_of_app in Hi as [|]; apply elem_of_app; [by left|right]. by apply elem_of_cons; right. Qed.
  Lemma elem_del' {A} (l : list A) j it it0 : l !! j = Some it0 → it ∈ l → it = it0 ∨ it ∈ take j l ++ drop (S j) l.
  Proof.
    intros H Hi. rewrite <- (take_drop_middle _ _ _ H) in Hi. apply elem_of_app in Hi as [Hi|Hi]; [right; apply elem_of_app; by left|].
    apply elem_of_cons in Hi as [|Hi]; [by left|right; apply elem_of_app; by right].
  Qed.
  Lemma map_del {A B} (f : A → B) (l : list A) j : map f (take j l ++ drop (S j) l) = take j (map f l) ++ drop (S j) (map f l).
  Proof. rewrite map_app. change (map ?g ?x) with (g <$> x). by rewrite fmap_take, fmap_drop. Qed.
  Lemma NoDup_del {A} (l : list A) j x : l !! j = Some x → NoDup l → NoDup (take j l ++ drop (S j) l) ∧ x ∉ take j l ++ drop (S j) l.
  Proof.
    intros H N. rewrite <- (take_drop_middle _ _ _ H) in N. apply NoDup_app in N as (N1 & N2 & N3). apply stdpp.list.NoDup_cons in N3 as [N4 N5]. split.
    - apply NoDup_app. split_and!; auto. intros y Hy Hy'. apply (N2 y Hy). by apply elem_of_cons; right.
    - intros [Hx|Hx]%elem_of_app; [|done]. apply (N2 x Hx). by apply elem_of_cons; left.
  Qed.

  Definition s_free (j p : nat) (d : side) : side :=
    Side (d_fr d) (d_df d) (take j (d_ret d) ++ drop (S j) (d_ret d)) (d_ever d) (p :: d_freed d) (d_pins d) (d_cnt d).
  Lemma prot_free j p d it me q : d_ret d !! j = Some it → r_obj it = REntry p → r_blockers it = [] → prot me d q → prot me (s_free j p d) q.
  Proof.
    intros Hj Eo Eb [A B]. assert (Hi : it ∈ d_ret d) by (by eapply elem_of_list_lookup_2). split; cbn.
    - intros [->|Hq]%elem_of_cons; [|done]. specialize (B it Hi Eo). rewrite Eb in B. by apply elem_of_nil in B.
    - intros it' Hi' Eo'. apply B; [|done]. by eapply elem_del.
  Qed.
  Lemma RR_free (c : core) γ ρ d j it p : RR c γ ρ d → d_ret d !! j = Some it → r_obj it = REntry p → r_blockers it = [] →
    p ∉ d_freed d ∧ RR c γ ρ (s_free j p d).
  Proof.
    intros R Hj Eo Eb. assert (Hi : it ∈ d_ret d) by (by eapply elem_of_list_lookup_2).
    destruct (rr_ret _ _ _ _ R it Hi) as [Hev Hfr]. rewrite Eo in Hev, Hfr. split; [done|].
    assert (Hm : map r_obj (d_ret d) !! j = Some (REntry p)) by (change (map r_obj (d_ret d)) with (r_obj <$> d_ret d); rewrite list_lookup_fmap, Hj; cbn; by rewrite Eo).
    destruct (NoDup_del _ _ _ Hm (rr_retnd _ _ _ _ R)) as [ND NI].
    split; try apply R.
    - intros it' Hi'. cbn in Hi'. destruct (rr_ret _ _ _ _ R it' (elem_del _ _ _ _ Hj Hi')) as [A B]. split; [done|].
      destruct (r_obj it') as [p'|t'] eqn:E'; [|done]. cbn. intros [->|?]%elem_of_cons; [|done].
      apply NI. rewrite <- map_del. change (map ?g ?x) with (g <$> x). rewrite <- E'. by apply elem_of_list_fmap_1.
    - cbn. by rewrite map_del.
    - intros q Hq. cbn in Hq. apply elem_of_cons in Hq as [->|Hq]; [done|by apply R].
    - intros o0 Ho. destruct (rr_all _ _ _ _ R o0 Ho) as [(it' & Hi' & Eo')|X].
      + destruct (elem_del' _ _ _ _ Hj Hi') as [->|H'].
        * right. rewrite Eo in Eo'. subst o0. cbn. by apply elem_of_cons; left.
        * left. exists it'. done.
      + right. destruct o0; [cbn; by apply elem_of_cons; right|done].
    - cbn. apply stdpp.list.NoDup_cons. split; [done|apply R].
    - intros it' me Hi' Hb. apply (rr_blk _ _ _ _ R it'); [by eapply elem_del|done].
    - intros me t Hm' Hb Ht. destruct (rr_pint _ _ _ _ R me t Hm' Hb Ht) as [A B]. split; [done|]. intros it' Hi'. apply B. by eapply elem_del.
    - intros me t i q Hm' Hb Hp0. eapply prot_free; [done|done|done|]. by eapply (rr_pine _ _ _ _ R).
  Qed.

  Definition s_freetab (j t : nat) (d : side) : side :=
    let l := fld [] (d_df d) t in
    Side (<[t := true]> (d_fr d)) (<[t := []]> (d_df d))
         ((take j (d_ret d) ++ drop (S j) (d_ret d)) ++ map (λ p, RItem (REntry p) (d_pins d)) l)
         (rev (map REntry l) ++ d_ever d) (d_freed d) (d_pins d) (d_cnt d).
  Lemma elem_newr l pins it : it ∈ map (λ p, RItem (REntry p) pins) l ↔ ∃ p, p ∈ l ∧ it = RItem (REntry p) pins.
  Proof. change (map ?g ?x) with (g <$> x). rewrite elem_of_list_fmap. naive_solver. Qed.
  Lemma elem_newe l (o : robj) : o ∈ rev (map REntry l) ↔ ∃ p, p ∈ l ∧ o = REntry p.
  Proof. rewrite elem_of_list_In, <- in_rev, <- elem_of_list_In. change (map ?g ?x) with (g <$> x). rewrite elem_of_list_fmap. naive_solver. Qed.
  Lemma prot_freetab j t d it me q : d_ret d !! j = Some it → me ∈ d_pins d → prot me d q → prot me (s_freetab j t d) q.
  Proof.
    intros Hj Hm [A B]. split; cbn; [done|].
    intros it' [Hi'|Hi']%elem_of_app Eo'; [apply B; [by eapply elem_del|done]|]. apply elem_newr in Hi' as (p & _ & ->). done.
  Qed.
  Lemma fld_ins (l : list (list nat)) t t' : t < length l → fld [] (<[t := []]> l) t' = if decide (t' = t) then [] else fld [] l t'.
  Proof.
    intros L. unfold fld. case_decide as D; [subst; by rewrite list_lookup_insert|]. by rewrite list_lookup_insert_ne.
  Qed.
  Lemma RR_freetab (c : core) γ ρ d j it t : Inv c γ → RR c γ ρ d → d_ret d !! j = Some it → r_obj it = RTable t → r_blockers it = [] →
    d_fr d !! t = Some false ∧ NoDup (fld [] (d_df d) t) ∧ (∀ p, p ∈ fld [] (d_df d) t → REntry p ∉ d_ever d) ∧ RR c γ ρ (s_freetab j t d).
  Proof.
    intros IV R Hj Eo Eb. assert (Hi : it ∈ d_ret d) by (by eapply elem_of_list_lookup_2).
    destruct (rr_ret _ _ _ _ R it Hi) as [Hev Hfr]. rewrite Eo in Hev, Hfr. split; [done|]. split; [apply R|].
    assert (DE : ∀ p, p ∈ fld [] (d_df d) t → REntry p ∉ d_ever d) by (intros p Hp0; by apply (rr_edef _ _ _ _ R t p)). split; [done|].
    assert (Hm : map r_obj (d_ret d) !! j = Some (RTable t)) by (change (map r_obj (d_ret d)) with (r_obj <$> d_ret d); rewrite list_lookup_fmap, Hj; cbn; by rewrite Eo).
    destruct (NoDup_del _ _ _ Hm (rr_retnd _ _ _ _ R)) as [ND NI].
    pose proof (rr_tever _ _ _ _ R t Hev) as Lt. destruct (rr_len _ _ _ _ R) as [L1 L2].
    assert (Lfr : t < length (d_fr d)) by (by eapply lookup_lt_Some). assert (Ldf : t < length (d_df d)) by lia.
    assert (FR : ∀ t', d_fr (s_freetab j t d) !! t' = if decide (t' = t) then Some true else d_fr d !! t').
    { intros t'. cbn. case_decide as D; [subst; by rewrite list_lookup_insert|]. by rewrite list_lookup_insert_ne. }
    assert (DF : ∀ t', fld [] (d_df (s_freetab j t d)) t' = if decide (t' = t) then [] else fld [] (d_df d) t') by (intros; by apply fld_ins).
    assert (DF' : ∀ t' p, p ∈ fld [] (d_df (s_freetab j t d)) t' → p ∈ fld [] (d_df d) t' ∧ p ∉ fld [] (d_df d) t).
    { intros t' p. rewrite DF. case_decide as D; [intros X; by apply elem_of_nil in X|]. intros X. split; [done|]. intros Y. apply D. by apply (rr_dinj _ _ _ _ R t' t p). }
    assert (EV : ∀ o, o ∈ d_ever (s_freetab j t d) ↔ (∃ p, p ∈ fld [] (d_df d) t ∧ o = REntry p) ∨ o ∈ d_ever d).
    { intros o. cbn. rewrite elem_of_app, elem_newe. done. }
    assert (RT : ∀ it', it' ∈ d_ret (s_freetab j t d) ↔ it' ∈ take j (d_ret d) ++ drop (S j) (d_ret d) ∨ ∃ p, p ∈ fld [] (d_df d) t ∧ it' = RItem (REntry p) (d_pins d)).
    { intros it'. cbn. by rewrite elem_of_app, elem_newr. }
    split.
    - cbn. by rewrite !insert_length.
    - intros t'. rewrite FR. case_decide as D; [subst; intros _; apply EV; by right|]. intros X. apply EV. right. by apply R.
    - intros t' [(p & _ & ?)|X]%EV; [done|]. by apply R.
    - intros me t' X. destruct (rr_town _ _ _ _ R me t' X) as [A B]. split; [done|]. intros [(p & _ & ?)|Y]%EV; done.
    - apply R.
    - intros t' X Xa. destruct (rr_tall _ _ _ _ R t' X Xa) as [A|A]; [left; apply EV; by right|by right].
    - intros p [(p' & Hp' & [= <-])|X]%EV; [|by apply R]. destruct (rr_edef _ _ _ _ R t p Hp') as (A & _ & B). split; [done|].
      intros t' i Ht' H'. destruct (al_find _ _ _ IV _ _ _ Ht' H') as [A'|(i' & H2 & _)]; [by apply (B t' i); [lia|..]|].
      apply (B (rt c) i'); [lia|by eapply al_rt|done].
    - intros me p X. destruct (rr_eown _ _ _ _ R me p X) as (A & B & C). split; [done|]. split.
      + intros [(p' & Hp' & [= <-])|Y]%EV; [by eapply C|done].
      + intros t' Y. apply DF' in Y as [Y _]. by eapply C.
    - intros t' p Y. apply DF' in Y as [Y NY]. destruct (rr_edef _ _ _ _ R t' p Y) as (A & B & C). split; [done|]. split; [|done].
      intros [(p' & Hp' & [= <-])|Z]%EV; done.
    - intros t'. rewrite DF. case_decide; [by apply stdpp.list.NoDup_nil|apply R].
    - intros t1 t2 p Y1 Y2. apply DF' in Y1 as [Y1 _]. apply DF' in Y2 as [Y2 _]. by eapply (rr_dinj _ _ _ _ R).
    - intros t'. rewrite FR, DF. case_decide; [done|]. apply R.
    - intros p G. destruct (rr_eall _ _ _ _ R p G) as [A|[A|(t' & A)]]; [left; apply EV; by right|right; by left|].
      destruct (decide (t' = t)) as [->|N]; [left; apply EV; left; eauto|]. right. right. exists t'. by rewrite DF, decide_False.
    - intros it' [X|(p & Hp0 & ->)]%RT.
      + destruct (rr_ret _ _ _ _ R it' (elem_del _ _ _ _ Hj X)) as [A B]. split; [apply EV; by right|].
        destruct (r_obj it') as [p|t'] eqn:E'; [done|]. rewrite FR. rewrite decide_False; [done|]. intros ->. apply NI. rewrite <- map_del. change (map ?g ?x) with (g <$> x). rewrite <- E'. by apply elem_of_list_fmap_1.
      + cbn [r_obj]. split; [apply EV; left; eauto|]. cbn. intros F. apply (DE p Hp0). by apply R.
    - cbn. rewrite map_app, map_del, map_map. cbn. apply NoDup_app. split; [done|]. split.
      + intros o0 Ho Ho'. change (map ?g ?x) with (g <$> x) in Ho'. apply elem_of_list_fmap in Ho' as (p & -> & Hp0).
        rewrite <- map_del in Ho. change (map ?g ?x) with (g <$> x) in Ho. apply elem_of_list_fmap in Ho as (it' & E' & Hi').
        apply (DE p Hp0). rewrite E'. apply (rr_ret _ _ _ _ R). by eapply elem_del.
      + change (map ?g ?x) with (g <$> x). apply NoDup_fmap; [by intros ? ? [= ->]|apply R].
    - intros p F. apply EV. right. by apply R.
    - intros o0 [(p & Hp0 & ->)|X]%EV.
      + left. eexists. split; [apply RT; right; eauto|done].
      + destruct (rr_all _ _ _ _ R o0 X) as [(it' & Hi' & Eo')|Y].
        * destruct (elem_del' _ _ _ _ Hj Hi') as [->|H'].
          -- right. rewrite Eo in Eo'. subst o0. by rewrite FR, decide_True.
          -- left. exists it'. split; [apply RT; by left|done].
        * right. destruct o0 as [p|t']; [done|]. rewrite FR. by case_decide.
    - cbn. apply NoDup_app. split.
      + assert (E : rev (map REntry (fld [] (d_df d) t)) ≡ₚ (REntry <$> fld [] (d_df d) t)) by (symmetry; apply Permutation_rev).
        rewrite E. apply NoDup_fmap; [by intros ? ? [= ->]|apply R].
      + split; [|apply R]. intros o0 Ho Ho'. apply elem_newe in Ho as (p & Hp0 & ->). by apply (DE p).
    - apply R.
    - intros it' me [X|(p & Hp0 & ->)]%RT; [|by cbn]. apply R. by eapply elem_del.
    - apply R.
    - intros me t' Hm' Hb Ht. cbn in Hm'. destruct (rr_pint _ _ _ _ R me t' Hm' Hb Ht) as [A B].
      assert (N : t' ≠ t). { intros ->. specialize (B it Hi Eo). rewrite Eb in B. by apply elem_of_nil in B. }
      split; [by rewrite FR, decide_False|]. intros it' [X|(p & Hp0 & ->)]%RT; [|done]. apply B. by eapply elem_del.
    - intros me t' i q Hm' Hb Hp0. eapply prot_freetab; [done|done|]. by eapply (rr_pine _ _ _ _ R).
  Qed.
End mach1.
