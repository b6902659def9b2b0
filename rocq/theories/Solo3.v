(** Termination of the single-key operations in incremental mode (continued): updates, probe loops, calls. *)
From Verif Require Export Solo2.

Section solo.
  Context {K V : Type} {Keq : EqDecision K} (cfg : config K) (me : nat) (chunk : nat) (Hinc : c_mode cfg = Incremental chunk).
  Notation state := (state K V). Notation prog := (prog K V).
  Notation tm := (tm (K:=K) (V:=V) me).
  Notation cout := (cout (K:=K) (V:=V)).
  Notation SO := (SO (K:=K) (V:=V)).
  Notation SN := (SO None None None None None).
  Notation SM M := (SO None None None None M).

  Lemma p_defer e tb M L σ : SM M L σ → th tb < L → tm (defer_retire cfg e tb) (λ _ σ', SM M L σ') σ.
  Proof.
    intros S Lt. unfold defer_retire. rewrite Hinc. destruct (negb (e_borrowed e)).
    { eapply tm_gde; [apply g_retire|exact S|done]. }
    eapply tm_gd; [apply g_root|exact S|]. intros [rt|] σ1 S1 Hr; [|done]. apply tm_bind.
    eapply (tm_mono _ _ (λ _ σ', SM M L σ')).
    - clear σ S. generalize tb Lt. clear tb Lt. intros tb Lt. remember (L - th tb) as d eqn:Ed. revert tb Lt Ed σ1 S1. induction (lt_wf d) as [d _ IH]. intros tb Lt Ed σ S.
      apply tm_loop1. destruct (th tb =? th rt); [by apply tm_ret|]. eapply tm_gd; [apply g_next|exact S|]. intros [nx|] σ1 S1 Hn; [|by apply tm_ret].
      destruct (Hn nx eq_refl). apply tm_ret. eapply (IH (L - th nx)); [lia|lia|done|done].
    - intros hit σ2 S2. destruct hit; [eapply tm_gde; [apply g_retire|exact S2|done]|].
      specialize (Hr rt eq_refl). clear σ σ1 S S1. remember (L - th rt) as d eqn:Ed. revert rt Hr Ed σ2 S2. induction (lt_wf d) as [d _ IH]. intros rt Hr Ed σ S.
      apply tm_loop1. eapply tm_gd; [apply g_next|exact S|]. intros [nx|] σ1 S1 Hn; [|done]. destruct (Hn nx eq_refl).
      destruct (th nx =? th tb).
      + eapply tm_gd; [apply g_defer|exact S1|]. done.
      + apply tm_ret. eapply (IH (L - th nx)); [lia|lia|done|done].
  Qed.

  Definition ufound (t i : nat) (M : option nat) (r : ustatus) (σ : state) : Prop :=
    match r with UReplaced _ _ => True | UFound s => ∃ f, s = estatus_of f ∧ is_ent t i f σ end.
  Lemma p_update_at i cur new tb L σ : SN L σ → th tb < L →
    tm (update_at cfg i cur new tb) (λ r σ', SN L σ' ∧ ufound (th tb) i None r σ') σ.
  Proof.
    intros S Lt. destruct new as [kv|]; cbn [update_at].
    - eapply tm_gd; [by apply (g_cas_pub me None None None L)|exact S|]. intros [p|f] σ1 S1 Hf.
      + apply tm_bind. eapply tm_mono; [by eapply p_defer|]. done.
      + apply tm_ret. split; [done|]. exists f. auto.
    - eapply tm_gd; [apply g_cas_ent|exact S|]. intros [p|f] σ1 S1 Hf.
      + apply tm_bind. eapply tm_mono; [by eapply p_defer|]. done.
      + apply tm_ret. split; [done|]. exists f. split; [done|]. by apply Hf.
  Qed.
  Lemma p_update_win i cur new tb L σ : SN L σ → th tb < L → is_ent (th tb) i cur σ →
    tm (update_at cfg i cur new tb) (λ r σ', SN L σ' ∧ ∃ a b, r = UReplaced a b) σ.
  Proof.
    intros S Lt E. destruct new as [kv|]; cbn [update_at].
    - eapply tm_cas_pub_win; [exact S|done|]. intros p σ1 S1. apply tm_bind. eapply tm_mono; [by eapply p_defer|]. intros; cbn; eauto.
    - eapply tm_cas_ent_win; [exact S|done|]. intros σ1 S1. apply tm_bind. eapply tm_mono; [by eapply p_defer|]. intros; cbn; eauto.
  Qed.
  (** What a lost update found: a word that is copied, deleted, or current. *)
  Lemma est_copied f e : estatus_of f = SCopied e → e = f ∧ e_copying f = true ∧ is_Some (e_ptr f).
  Proof. unfold estatus_of. destruct (e_ptr f) eqn:E; [|done]. destruct (e_copying f) eqn:E2; [|done]. intros [= <-]. eauto. Qed.
  Lemma est_value f e : estatus_of f = SValue e → e = f.
  Proof. unfold estatus_of. destruct (e_ptr f) eqn:E; [|done]. by destruct (e_copying f); [|intros [= <-]]. Qed.
  Lemma SO_cop t i e L σ : SN L σ → is_ent t i e σ → e_copying e = true → is_Some (e_ptr e) → SO None None (Some (t, i)) None None L σ.
  Proof. intros S E Hc Hs. eapply SO_C; [done|done|]. apply np_cped; [by eapply ent_np|done|done]. Qed.

  Lemma p_insert_slow i e kv tb L σ : SN L σ → th tb < L →
    tm (insert_slow cfg i e kv tb) (λ r σ', match r with UReplaced _ _ => SN L σ' | UFound (SCopied _) => SO None None (Some (th tb, i)) None None L σ'
      | UFound SNull => SN L σ' | UFound (SValue _) => False end) σ.
  Proof.
    intros S Lt. unfold insert_slow. apply tm_loop1. apply tm_bind. eapply tm_mono; [by eapply p_update_at|].
    intros [a b|st] σ1 [S1 H1]; [by apply tm_ret|]. destruct H1 as (f & -> & Hf). destruct (estatus_of f) as [|e'|e'] eqn:Ef; apply tm_ret; [done| |].
    - apply est_copied in Ef as (-> & Hc & Hs). by eapply SO_cop.
    - apply est_value in Ef as ->. apply tm_loop1. apply tm_bind. eapply tm_mono; [by eapply p_update_win|]. by intros r σ2 [S2 (a & b & ->)].
  Qed.
  Lemma p_insert_at i m kv tb L σ : SN L σ →
    tm (insert_at cfg i m kv tb) (λ r σ', match r with IInserted _ => SN L σ' | IFound SNull => SN L σ' | IFound (SCopied _) => False
      | IFound (SValue e) => SN L σ' ∧ (e_copying e = true → SO None None (Some (th tb, i)) None None L σ') end) σ.
  Proof.
    intros S. unfold insert_at. eapply tm_gd; [by apply (g_cas_pub me None None None L)|exact S|]. intros [p|f] σ1 S1 Hf.
    - eapply tm_gd; [by apply (g_store_meta me None None None None None L)|exact S1|]. done.
    - specialize (Hf f eq_refl). apply tm_bind. destruct (e_ptr f) as [p|] eqn:Ep.
      + assert (Y : ∀ C, SO None None C None None L σ1 → tm (kv' ← act (a_deref p); Ret (h2_of cfg kv'.1, SValue f))%prog
          (λ ms σ, tm (m0 ← act (a_load_meta tb i); (if (m0 =? EMPTY)%N then act (a_store_meta tb i ms.1) else Ret ());; Ret (IFound ms.2))%prog
             (λ r σ', r = IFound (SValue f) ∧ SO None None C None None L σ') σ) σ1).
        { intros C SC. eapply tm_gd; [apply g_deref|exact SC|]. intros kv' σ2 S2 _. apply tm_ret. eapply tm_gd; [apply g_load_meta|exact S2|].
          intros m0 σ3 S3 _. apply tm_bind. destruct (m0 =? EMPTY)%N; [|by apply tm_ret]. eapply tm_gde; [by apply (g_store_meta me None None C None None L)|exact S3|]. done. }
        destruct (e_copying f) eqn:Ec.
        * eapply tm_mono; [apply (Y (Some (th tb, i))); by eapply SO_cop|]. cbn beta. intros ms σ2 H2. eapply tm_mono; [exact H2|].
          intros r σ3 [-> S3]. cbn beta iota. split; [by eapply SO_weakC|done].
        * eapply tm_mono; [apply (Y None); done|]. cbn beta. intros ms σ2 H2. eapply tm_mono; [exact H2|].
          intros r σ3 [-> S3]. cbn beta iota. split; [done|congruence].
      + apply tm_ret. eapply tm_gd; [apply g_load_meta|exact S1|].
        intros m0 σ3 S3 _. apply tm_bind. destruct (m0 =? EMPTY)%N; [|by apply tm_ret]. eapply tm_gde; [by apply (g_store_meta me None None None None None L)|exact S3|]. done.
  Qed.
  Lemma p_insert_at_fresh i m kv tb L σ : SO None None None (Some (th tb)) None L σ →
    tm (insert_at cfg i m kv tb) (λ r σ', (∃ p, r = IInserted p) ∧ SN L σ') σ.
  Proof.
    intros S. unfold insert_at. eapply tm_cas_pub_fresh; [exact S|]. intros p σ1 S1.
    eapply tm_gd; [by apply (g_store_meta me None None None None None L)|exact S1|]. intros; apply tm_ret. eauto.
  Qed.

  Definition Cof (tb : tref) (copying : option nat) : option (nat * nat) := match copying with Some i => Some (th tb, i) | None => None end.
  Lemma p_insert_probe fuel : ∀ rep tb kv i len L σ, SN L σ → th tb < L →
    tm (insert_probe cfg fuel rep tb kv i len) (λ r σ', match r with inl _ => True | inr copying => SO None None (Cof tb copying) None None L σ' end) σ.
  Proof.
    induction fuel as [|fuel IH]; intros rep tb kv i len L σ S Lt; [done|]. cbn [insert_probe].
    assert (FE : ∀ e σ, SN L σ → (e_copying e = true → SO None None (Some (th tb, i)) None None L σ) →
      tm (kv' ← act (a_deref (key_of_ptr e));
         if negb (bool_decide (kv'.1 = kv.1)) then insert_probe cfg fuel rep tb kv (probe_next i (Datatypes.S len) (th_mask tb)) (Datatypes.S len) else
         if e_copying e then Ret (inr (Some i)) else
         if negb rep then Ret (inl (RError (key_of_ptr e))) else
         (s ← insert_slow cfg i e kv tb;
          match s with
          | UReplaced old _ => Ret (inl (RReplaced (key_of_ptr old)))
          | UFound (SCopied _) => Ret (inr (Some i))
          | UFound SNull => insert_probe cfg fuel rep tb kv (probe_next i (Datatypes.S len) (th_mask tb)) (Datatypes.S len)
          | UFound (SValue _) => Fail PUnreachable
          end))%prog (λ r σ', match r with inl _ => True | inr copying => SO None None (Cof tb copying) None None L σ' end) σ).
    { clear σ S. intros e σ S HC.
      assert (Y : ∀ C, SO None None C None None L σ → (e_copying e = true → C = Some (th tb, i)) → tm (kv' ← act (a_deref (key_of_ptr e));
         if negb (bool_decide (kv'.1 = kv.1)) then insert_probe cfg fuel rep tb kv (probe_next i (Datatypes.S len) (th_mask tb)) (Datatypes.S len) else
         if e_copying e then Ret (inr (Some i)) else
         if negb rep then Ret (inl (RError (key_of_ptr e))) else
         (s ← insert_slow cfg i e kv tb;
          match s with
          | UReplaced old _ => Ret (inl (RReplaced (key_of_ptr old)))
          | UFound (SCopied _) => Ret (inr (Some i))
          | UFound SNull => insert_probe cfg fuel rep tb kv (probe_next i (Datatypes.S len) (th_mask tb)) (Datatypes.S len)
          | UFound (SValue _) => Fail PUnreachable
          end))%prog (λ r σ', match r with inl _ => True | inr copying => SO None None (Cof tb copying) None None L σ' end) σ).
      { intros C SC EC. eapply tm_gd; [apply g_deref|exact SC|]. intros kv' σ1 S1 _.
        destruct (negb _); [apply IH; [by eapply SO_weakC|done]|]. destruct (e_copying e); [apply tm_ret; cbn; by rewrite <- EC|].
        destruct (negb rep); [done|]. apply tm_bind. eapply tm_mono; [apply p_insert_slow; [by eapply SO_weakC|done]|].
        intros [a b|[|e'|e']] σ2 S2; [done| |done|done]. by apply IH. }
      destruct (e_copying e) eqn:Ec; [by apply (Y (Some (th tb, i))); [apply HC|]|by apply (Y None)]. }
    eapply tm_gd; [apply g_load_meta|exact S|]. intros m σ1 S1 _. destruct (m =? EMPTY)%N; [|destruct (m =? h2_of cfg kv.1)%N; [|by apply IH]].
    - apply tm_bind. eapply tm_mono; [by eapply p_insert_at|]. intros [p|[|e|e]] σ2 S2; [done|by apply IH|done|]. destruct S2. by apply FE.
    - eapply tm_gd; [apply g_load_ent2|exact S1|]. intros e σ2 S2 [He _]. destruct (e_ptr e) as [p|] eqn:Ep; [|by apply IH]. apply FE; [done|].
      intros Hc. eapply SO_cop; [done|done|done|]. by rewrite Ep.
  Qed.
  Lemma p_insert_probe_fresh fuel rep tb kv i len L σ : SO None None None (Some (th tb)) None L σ →
    tm (insert_probe cfg (Datatypes.S fuel) rep tb kv i len) (λ r σ', match r with inl _ => True | inr copying => False end) σ.
  Proof.
    intros S. cbn [insert_probe]. eapply tm_gd; [apply g_load_meta|exact S|]. intros m σ1 S1 Hm. rewrite (Hm eq_refl).
    replace (EMPTY =? EMPTY)%N with true by (symmetry; apply N.eqb_refl). apply tm_bind. eapply tm_mono; [by eapply p_insert_at_fresh|].
    by intros r σ2 [[p ->] S2].
  Qed.
  Lemma Cb_Cof tb c L : th tb < L → Cb (Cof tb c) L.
  Proof. intros Lt t i. destruct c; cbn; [|done]. intros [= <- <-]. done. Qed.
  Lemma p_wait tb c H X F M L σ : SO H X (Cof tb c) F M L σ → tm (match c with Some i => wait_copied cfg i tb | None => Ret tt end) (λ _ σ', SO H X None F M L σ') σ.
  Proof. destruct c as [i|]; intros S; [|done]. eapply tm_mono; [by apply (p_wait_copied cfg me H X F M L)|]. intros u σ' S'. exact (SO_weakC _ _ _ _ _ _ _ S'). Qed.
  Lemma p_retry_insert c (help : bool) tb L σ : SO None None (Cof tb c) None None L σ → th tb < L →
    tm (prepare_retry_insert cfg c help tb) (λ nx σ', ∃ F L', SO None None None F None L' σ' ∧ L ≤ L' ∧ th tb < th nx ∧ th nx < L' ∧ (help = false → L' = L ∨ F = Some (th nx))) σ.
  Proof.
    intros S Lt. unfold prepare_retry_insert. apply tm_bind. eapply tm_mono; [by eapply p_get_or_alloc, Cb_Cof|].
    intros nx σ1 (F & L' & S1 & LL & L1 & L2 & D). rewrite Hinc. apply tm_bind. destruct help.
    - eapply tm_mono; [apply (p_help cfg me chunk Hinc (Cof tb c) L'); [by eapply SO_weakF|apply Cb_Cof; lia]|].
      intros nx2 σ2 (L3 & LL3 & S2 & L4 & L5). apply tm_bind. eapply tm_mono; [by eapply p_wait|]. intros u3 σ3 S3. exists None, L3. split_and!; [done|lia|lia|lia|done].
    - apply tm_ret. apply tm_bind. eapply tm_mono; [by eapply p_wait|]. intros u3 σ3 S3. exists F, L'. split_and!; auto.
  Qed.
  Lemma p_init cap L σ : SN L σ → tm (init cap) (λ tb σ', ∃ L', SN L' σ' ∧ th tb < L') σ.
  Proof.
    intros S. unfold init. destruct (alloc_len _) as [len|]; [|done]. unfold act. cbn [Solo.tm]. unfold a_init. destruct (root σ) as [t|].
    - apply (with_table_spec t σ _ (λ tb σ', ∃ L', SN L' σ' ∧ th tb < L')). intros tb Et. exists L. split; [done|]. cbn.
      rewrite <- (so_len _ _ _ _ _ _ _ S). by eapply lookup_lt_Some.
    - exists (Datatypes.S L). pose proof (so_len _ _ _ _ _ _ _ S) as EL. split; [|cbn; lia].
      assert (Q1 : ∀ u ub, (tables σ ++ [new_table len PROMOTED]) !! u = Some ub → (u = L ∧ ub = new_table len PROMOTED) ∨ (u ≠ L ∧ tables σ !! u = Some ub)).
      { intros u ub. rewrite lookup_app. destruct (tables σ !! u) as [x|] eqn:Ex.
        - intros [= <-]. right. split; [|done]. apply lookup_lt_Some in Ex. lia.
        - intros E2. apply lookup_ge_None in Ex. apply list_lookup_singleton_Some in E2 as [E2 ->]. left. split; [lia|done]. }
      destruct S as [A1 A2 A3 A4 A5 A6 A7]. split; cbn [tables set_root set_tables].
      + intros u ub t' [[-> ->]|[N Eu]]%Q1; [done|]. by eapply A1.
      + intros u ub j [[-> ->]|[N Eu]]%Q1; [done|]. by eapply A2.
      + intros u ub i s [[-> ->]|[N Eu]]%Q1; [|by eapply A3]. cbn. intros [-> _]%lookup_replicate _ (? & _). done.
      + intros; done.
      + intros; done.
      + intros; done.
      + rewrite app_length. cbn. lia.
  Qed.
  Lemma p_insert_inner k v rep L σ : SN L σ → tm (insert_inner cfg k v rep) (λ _ _, True) σ.
  Proof.
    intros S. unfold insert_inner. eapply tm_gd; [apply g_root|exact S|]. intros r σ1 S1 Hr. apply tm_bind.
    set (body := λ st : tref * bool, _ : prog ((tref * bool) + iresult)).
    assert (FR : ∀ tb h L σ, SO None None None (Some (th tb)) None L σ → tm (loop body (tb, h)) (λ _ _, True) σ).
    { clear. intros tb h L σ S. apply tm_loop1. unfold body. apply tm_bind. eapply tm_mono; [by eapply p_insert_probe_fresh|]. by intros [x|x] σ1 S1. }
    assert (LF : ∀ d tb L σ, d = L - th tb → SN L σ → th tb < L → tm (loop body (tb, false)) (λ _ _, True) σ).
    { clear -FR Hinc. induction d as [d IH] using (well_founded_induction lt_wf). intros tb L σ Ed S Lt. apply tm_loop1. unfold body at 1. apply tm_bind.
      eapply tm_mono; [by eapply p_insert_probe|]. intros [x|c] σ1 S1; [done|]. cbn beta iota. apply tm_bind. eapply tm_mono; [by eapply p_retry_insert|].
      intros nx σ2 (F & L' & S2 & LL & L1 & L2 & D). apply tm_ret. destruct (D eq_refl) as [->| ->].
      - eapply (IH (L - th nx)); [lia|done|by eapply SO_weakF|done].
      - by eapply FR. }
    assert (LT : ∀ tb L σ, SN L σ → th tb < L → tm (loop body (tb, true)) (λ _ _, True) σ).
    { clear -LF Hinc. intros tb L σ S Lt. apply tm_loop1. unfold body at 1. apply tm_bind.
      eapply tm_mono; [by eapply p_insert_probe|]. intros [x|c] σ1 S1; [done|]. cbn beta iota. apply tm_bind. eapply tm_mono; [by eapply p_retry_insert|].
      intros nx σ2 (F & L' & S2 & LL & L1 & L2 & D). apply tm_ret. eapply LF; [done|by eapply SO_weakF|done]. }
    destruct r as [tb|].
    - apply tm_ret. eapply LT; [exact S1|by apply Hr].
    - eapply tm_mono; [by eapply p_init|]. intros tb σ2 (L' & S2 & L2). by eapply LT.
  Qed.
  Lemma p_insert k v rep L σ : SN L σ → tm (insert cfg k v rep) (λ _ _, True) σ.
  Proof. intros S. unfold insert. apply tm_bind. eapply tm_mono; [by eapply p_insert_inner|]. by intros [p|p|p] σ1 _. Qed.

  (** get *)
  Lemma p_get_probe fuel : ∀ tb k i len L σ, SN L σ → tm (get_probe cfg fuel tb k i len) (λ _ σ', SN L σ') σ.
  Proof.
    induction fuel as [|fuel IH]; intros tb k i len L σ S; [done|]. cbn [get_probe]. eapply tm_gd; [apply g_load_meta|exact S|]. intros m σ1 S1 _. cbn zeta.
    destruct (m =? h2_of cfg k)%N.
    - eapply tm_gd; [apply g_load_ent|exact S1|]. intros e σ2 S2 _. destruct (e_ptr e) as [p|]; [|by apply IH].
      eapply tm_gd; [apply g_deref|exact S2|]. intros kv σ3 S3 _. case_bool_decide; [by destruct (e_copied e)|]. destruct (m =? EMPTY)%N; [done|by apply IH].
    - destruct (m =? EMPTY)%N; [done|by apply IH].
  Qed.
  Lemma p_get k L σ : SN L σ → tm (get cfg k) (λ _ _, True) σ.
  Proof.
    intros S. unfold get, incremental. rewrite Hinc. eapply tm_gd; [apply g_root|exact S|]. intros [tb|] σ1 S1 Hr; [|done]. specialize (Hr tb eq_refl). clear σ S.
    remember (L - th tb) as d eqn:Ed. revert tb Hr Ed σ1 S1. induction (lt_wf d) as [d _ IH]. intros tb Hr Ed σ S. apply tm_loop1. apply tm_bind.
    eapply tm_mono; [by eapply p_get_probe|]. intros [r|] σ1 S1; [done|]. cbn beta iota.
    eapply tm_gd; [apply g_next|exact S1|]. intros [nx|] σ2 S2 Hn; [|done]. destruct (Hn nx eq_refl). apply tm_ret. eapply (IH (L - th nx)); [lia|done|done|done].
  Qed.

  (** remove *)
  Lemma p_retry c (help : bool) tb L σ : SO None None (Cof tb c) None None L σ → th tb < L →
    tm (prepare_retry cfg c help tb) (λ r σ', ∃ L', SN L' σ' ∧ (help = false → L' = L) ∧ ∀ nx, r = Some nx → th tb < th nx ∧ th nx < L') σ.
  Proof.
    intros S Lt. unfold prepare_retry. rewrite Hinc. eapply tm_gd; [apply g_next|exact S|]. intros [nx|] σ1 S1 Hn.
    - destruct (Hn nx eq_refl) as [L1 L2]. apply tm_bind. destruct help.
      + apply tm_bind. eapply tm_mono; [apply (p_help cfg me chunk Hinc (Cof tb c) L); [done|by apply Cb_Cof]|].
        intros nx2 σ2 (L3 & LL3 & S2 & L4 & L5). apply tm_ret. apply tm_bind. eapply tm_mono; [by eapply p_wait|]. intros u3 σ3 S3. exists L3.
        split; [done|]. split; [done|]. intros ? [= <-]. lia.
      + apply tm_ret. apply tm_bind. eapply tm_mono; [by eapply p_wait|]. intros u3 σ3 S3. exists L. split; [done|]. split; [done|]. intros ? [= <-]. lia.
    - apply tm_ret. exists L. split; [by eapply SO_weakC|done].
  Qed.
  Lemma p_remove_entry pred tb i e L σ : SN L σ → th tb < L →
    tm (remove_entry cfg pred tb i e) (λ r σ', match r with inl _ => True | inr c => SO None None (Cof tb c) None None L σ' end) σ.
  Proof.
    intros S Lt. unfold remove_entry. apply tm_loop1. eapply tm_gd; [apply g_deref|exact S|]. intros kv σ1 S1 _. destruct (negb _); [done|].
    apply tm_bind. eapply tm_mono; [by eapply p_update_at|]. intros [a b|st] σ2 [S2 H2].
    - eapply tm_gd; [by apply (g_store_meta me None None None None None L)|exact S2|]. intros _ σ3 S3 _. eapply tm_gd; [apply g_count|exact S3|]. done.
    - destruct H2 as (f & -> & Hf). destruct (estatus_of f) as [|e'|e'] eqn:Ef; apply tm_ret; [done| |].
      + apply est_copied in Ef as (-> & Hc & Hs). by eapply SO_cop.
      + apply est_value in Ef as ->. apply tm_loop1. cbn [bind act]. eapply (tm_gd _ (λ σ, SN L σ ∧ is_ent (th tb) i f σ) _ tru); [|done|].
        { intros σ3 [S3 E3]. unfold a_deref. destruct (decide _); [done|]. by destruct (heap σ3 !! _). }
        intros kv2 σ3 [S3 E3] _. destruct (negb _); [done|]. apply tm_bind. eapply tm_mono; [by eapply p_update_win|]. intros r σ4 [S4 (a & b & ->)].
        eapply tm_gd; [by apply (g_store_meta me None None None None None L)|exact S4|]. intros _ σ5 S5 _. eapply tm_gd; [apply g_count|exact S5|]. done.
  Qed.
  Lemma p_remove_probe fuel : ∀ pred tb k i len L σ, SN L σ → th tb < L →
    tm (remove_probe cfg fuel pred tb k i len) (λ r σ', match r with inl _ => True | inr c => SO None None (Cof tb c) None None L σ' end) σ.
  Proof.
    induction fuel as [|fuel IH]; intros pred tb k i len L σ S Lt; [done|]. cbn [remove_probe]. eapply tm_gd; [apply g_load_meta|exact S|]. intros m σ1 S1 _.
    destruct (m =? EMPTY)%N; [done|]. destruct (negb (m =? h2_of cfg k)%N); [by apply IH|].
    eapply tm_gd; [apply g_load_ent2|exact S1|]. intros e σ2 S2 [He _]. destruct (e_ptr e) as [p|] eqn:Ep; [|by apply IH].
    eapply (tm_gd _ (λ σ, SN L σ ∧ is_ent (th tb) i e σ) _ tru); [|done|].
    { intros σ3 [S3 E3]. unfold a_deref. destruct (decide _); [done|]. by destruct (heap σ3 !! _). }
    intros kv σ3 [S3 E3] _. destruct (negb _); [by apply IH|]. destruct (e_copying e) eqn:Ec.
    - apply tm_ret. eapply SO_cop; [done|done|done|]. by rewrite Ep.
    - by apply p_remove_entry.
  Qed.
  Lemma p_remove_if k pred L σ : SN L σ → tm (remove_if cfg k pred) (λ _ _, True) σ.
  Proof.
    intros S. unfold remove_if. eapply tm_gd; [apply g_root|exact S|]. intros [tb|] σ1 S1 Hr; [|done]. specialize (Hr tb eq_refl).
    set (body := λ st : tref * bool, _ : prog ((tref * bool) + rresult)).
    assert (LF : ∀ d tb L σ, d = L - th tb → SN L σ → th tb < L → tm (loop body (tb, false)) (λ _ _, True) σ).
    { clear -Hinc. induction d as [d IH] using (well_founded_induction lt_wf). intros tb L σ Ed S Lt. apply tm_loop1. unfold body at 1. apply tm_bind.
      eapply tm_mono; [by eapply p_remove_probe|]. intros [x|c] σ1 S1; [done|]. cbn beta iota. apply tm_bind. eapply tm_mono; [by eapply p_retry|].
      intros [nx|] σ2 (L' & S2 & EL & D); [|done]. rewrite (EL eq_refl) in *. destruct (D nx eq_refl). apply tm_ret. eapply (IH (L - th nx)); [lia|done|done|done]. }
    apply tm_loop1. unfold body at 1. apply tm_bind.
    eapply tm_mono; [by eapply p_remove_probe|]. intros [x|c] σ2 S2; [done|]. cbn beta iota. apply tm_bind. eapply tm_mono; [by eapply p_retry|].
    intros [nx|] σ3 (L' & S3 & EL & D); [|done]. destruct (D nx eq_refl). apply tm_ret. by eapply LF.
  Qed.

  (** compute *)
  Lemma p_next_none once f cs (Q : cop V * cstate K V → state → Prop) σ : (∀ x, Q x σ) → tm (cs_next_none once f cs) Q σ.
  Proof. intros H. unfold cs_next_none. destruct (cs_insert cs); [by apply tm_ret|]. destruct (_ && _); [done|]. by apply tm_ret. Qed.
  Lemma p_next_some (I : state → Prop) f cs p (Q : cop V * cstate K V → state → Prop) σ : (∀ σ, I σ → match a_deref p me false σ with Ok x σ' => I σ' | Block => False | UB => True end) → I σ →
    (∀ x σ', I σ' → Q x σ') → tm (cs_next_some f cs p) Q σ.
  Proof.
    intros Hd Hi HQ. unfold cs_next_some. cbn zeta.
    assert (Y : tm (kv ← act (a_deref p); Ret (f (Some kv), CState (cs_insert cs) None (Some kv :: cs_calls cs)))%prog Q σ).
    { cbn. specialize (Hd σ Hi). destruct (a_deref p me false σ); auto. }
    destruct (cs_update cs) as [[inp out]|]; [|done]. destruct (inp =? p); [|done]. apply tm_ret. auto.
  Qed.
  Lemma deref_SN L t i e p : ∀ σ, (SN L σ ∧ is_ent t i e σ) → match a_deref (K:=K) (V:=V) p me false σ with Ok x σ' => SN L σ' ∧ is_ent t i e σ' | Block => False | UB => True end.
  Proof. intros σ S. unfold a_deref. destruct (decide _); [done|]. by destruct (heap σ !! p). Qed.
  Definition cpost (tb : tref) (i : nat) (L : nat) (r : (cout + (option nat * cstate K V)) + cstate K V) (σ : state) : Prop :=
    match r with inl (inl _) => True | inl (inr (c, _)) => SO None None (Cof tb c) None None L σ | inr _ => SN L σ end.
  Lemma p_compute_entry once f tb k i cs e L σ : SN L σ → th tb < L →
    tm (compute_entry cfg once f tb k i cs e) (cpost tb i L) σ.
  Proof.
    intros S Lt. unfold compute_entry. cbn zeta.
    set (body := λ st : cstate K V * eword, _ : prog ((cstate K V * eword) + ((cout + (option nat * cstate K V)) + cstate K V))).
    assert (W : ∀ cs e σ, SN L σ → is_ent (th tb) i e σ → tm (loop body (cs, e)) (cpost tb i L) σ).
    { clear -Lt Hinc. intros cs e σ S E. apply tm_loop1. unfold body at 1. apply tm_bind.
      eapply (p_next_some (λ σ, SN L σ ∧ is_ent (th tb) i e σ)); [apply deref_SN|done|]. intros [[v| | |] cs1] σ1 [S1 E1]; [| |done|done].
      - apply tm_bind. eapply tm_mono; [by eapply p_update_win|]. by intros r σ2 [S2 (a & b & ->)].
      - apply tm_bind. eapply tm_mono; [by eapply p_update_win|]. intros r σ2 [S2 (a & b & ->)].
        eapply tm_gd; [by apply (g_store_meta me None None None None None L)|exact S2|]. intros _ σ5 S5 _. eapply tm_gd; [apply g_count|exact S5|]. done. }
    assert (OF : ∀ r cs σ, SN L σ → ufound (th tb) i None r σ → (∀ a b, r ≠ UReplaced a b) →
      tm (match r with
      | UFound (SCopied _) => Ret (inr (inl (inr (Some i, cs))))
      | UFound SNull =>
        (r ← cs_next_none once f cs;
         match r with
         | (OpInsert v, cs) => Ret (inr (inr (cs_restore_none v cs)))
         | (OpRemove, _) => Fail PRemoveNone
         | (OpPanic, _) => Fail PUser
         | (OpAbort, cs) => Ret (inr (inl (inl (CAborted None, cs))))
         end)
      | UFound (SValue found) => Ret (inl (cs, found))
      | UReplaced _ _ => Fail PUnreachable
      end)%prog (λ r σ', match r with inl s' => tm (loop body s') (cpost tb i L) σ' | inr b => cpost tb i L b σ' end) σ).
    { clear -W. intros [a b|st] cs σ S H N; [done|]. destruct H as (fd & -> & Hf). destruct (estatus_of fd) as [|e'|e'] eqn:Ef.
      - apply tm_bind. apply p_next_none. intros [[v| | |] cs1]; [done|done|done|done].
      - apply est_copied in Ef as (-> & Hc & Hs). apply tm_ret. by eapply SO_cop.
      - apply est_value in Ef as ->. apply tm_ret. by apply W. }
    apply tm_loop1. unfold body at 1. apply tm_bind.
    assert (DS : ∀ σ, SN L σ → match a_deref (K:=K) (V:=V) (key_of_ptr e) me false σ with Ok x σ' => SN L σ' | Block => False | UB => True end).
    { intros σ0 S0. unfold a_deref. destruct (decide _); [done|]. by destruct (heap σ0 !! _). }
    eapply (p_next_some (SN L)); [exact DS|done|]. intros [[v| | |] cs1] σ1 S1; [| |done|done].
    - apply tm_bind. eapply tm_mono; [by eapply p_update_at|]. intros [a b|st] σ2 [S2 H2]; [done|]. by apply (OF (UFound st)).
    - apply tm_bind. eapply tm_mono; [by eapply p_update_at|]. intros [a b|st] σ2 [S2 H2]; [|by apply (OF (UFound st))].
      eapply tm_gd; [by apply (g_store_meta me None None None None None L)|exact S2|]. intros _ σ5 S5 _. eapply tm_gd; [apply g_count|exact S5|]. done.
  Qed.
  Lemma p_compute_probe fuel : ∀ once f tb k i len cs L σ, SN L σ → th tb < L →
    tm (compute_probe cfg fuel once f tb k i len cs) (λ r σ', match r with inl _ => True | inr (c, _) => SO None None (Cof tb c) None None L σ' end) σ.
  Proof.
    induction fuel as [|fuel IH]; intros once f tb k i len cs L σ S Lt; [done|]. cbn [compute_probe]. cbn zeta.
    set (cont := λ cs : cstate K V, compute_probe cfg fuel once f tb k (probe_next i (Datatypes.S len) (th_mask tb)) (Datatypes.S len) cs).
    set (fe := λ (e : eword) (cs : cstate K V), (kv' ← act (a_deref (key_of_ptr e)); if negb (bool_decide (kv'.1 = k)) then cont cs else
      if e_copying e then Ret (inr (Some i, cs)) else (r ← compute_entry cfg once f tb k i cs e; match r with inl r => Ret r | inr cs => cont cs end))%prog
      : prog (cout + (option nat * cstate K V))).
    set (Q := λ (r : cout + (option nat * cstate K V)) (σ' : state), match r with inl _ => True | inr (c, _) => SO None None (Cof tb c) None None L σ' end).
    assert (CT : ∀ cs σ, SN L σ → tm (cont cs) Q σ) by (intros; by apply IH).
    assert (FE : ∀ e cs σ, SN L σ → (e_copying e = true → SO None None (Some (th tb, i)) None None L σ) → tm (fe e cs) Q σ).
    { clear -CT Lt Hinc. intros e cs σ S HC.
      assert (Y : ∀ C, SO None None C None None L σ → (e_copying e = true → C = Some (th tb, i)) → tm (fe e cs) Q σ).
      { intros C SC EC. unfold fe. eapply tm_gd; [apply g_deref|exact SC|]. intros kv' σ1 S1 _.
        destruct (negb _); [apply CT; by eapply SO_weakC|]. destruct (e_copying e); [apply tm_ret; cbn; by rewrite <- EC|].
        apply tm_bind. eapply tm_mono; [apply p_compute_entry; [by eapply SO_weakC|done]|].
        intros [[r|[c cs1]]|cs1] σ2 S2; [done|done|]. by apply CT. }
      destruct (e_copying e) eqn:Ec; [by apply (Y (Some (th tb, i))); [apply HC|]|by apply (Y None)]. }
    eapply tm_gd; [apply g_load_meta|exact S|]. intros m σ1 S1 _. destruct (m =? EMPTY)%N; [|destruct (m =? h2_of cfg k)%N; [|by apply CT]].
    - apply tm_bind. apply p_next_none. intros [[v| | |] cs1]; [|done|done|done].
      apply tm_bind. eapply tm_mono; [by eapply p_insert_at|]. intros [p|[|e|e]] σ2 S2; [|by apply CT|done|destruct S2 as [S2 S2']; exact (FE e _ _ S2 S2')].
      eapply tm_gd; [apply g_count|exact S2|]. done.
    - eapply tm_gd; [apply g_load_ent2|exact S1|]. intros e σ2 S2 [He _]. destruct (e_ptr e) as [p|] eqn:Ep; [|by apply CT]. refine (FE e cs _ S2 _).
      intros Hc. eapply SO_cop; [done|done|done|]. by rewrite Ep.
  Qed.
  Lemma p_compute_probe_fresh fuel once f tb k i len cs L σ : SO None None None (Some (th tb)) None L σ →
    tm (compute_probe cfg (Datatypes.S fuel) once f tb k i len cs) (λ r σ', match r with inl _ => True | inr _ => False end) σ.
  Proof.
    intros S. cbn [compute_probe]. cbn zeta. eapply tm_gd; [apply g_load_meta|exact S|]. intros m σ1 S1 Hm. rewrite (Hm eq_refl).
    replace (EMPTY =? EMPTY)%N with true by (symmetry; apply N.eqb_refl). apply tm_bind. apply p_next_none. intros [[v| | |] cs1]; [|done|done|done].
    apply tm_bind. eapply tm_mono; [by eapply p_insert_at_fresh|]. intros r σ2 [[p ->] S2]. eapply tm_gd; [apply g_count|exact S2|]. done.
  Qed.
  Lemma p_compute once k f L σ : SN L σ → tm (compute cfg once k f) (λ _ _, True) σ.
  Proof.
    intros S. unfold compute. cbn zeta. eapply tm_gd; [apply g_root|exact S|]. intros r σ1 S1 Hr. apply tm_bind.
    set (body := λ st : tref * cstate K V, _ : prog ((tref * cstate K V) + cout)).
    assert (FR : ∀ tb cs L σ, SO None None None (Some (th tb)) None L σ → tm (loop body (tb, cs)) (λ _ _, True) σ).
    { clear. intros tb h L σ S. apply tm_loop1. unfold body. apply tm_bind. eapply tm_mono; [by eapply p_compute_probe_fresh|]. by intros [x|x] σ1 S1. }
    assert (LF : ∀ d tb cs L σ, d = L - th tb → SN L σ → th tb < L → tm (loop body (tb, cs)) (λ _ _, True) σ).
    { clear -FR Hinc. induction d as [d IH] using (well_founded_induction lt_wf). intros tb cs L σ Ed S Lt. apply tm_loop1. unfold body at 1. apply tm_bind.
      eapply tm_mono; [by eapply p_compute_probe|]. intros [x|[c cs1]] σ1 S1; [done|]. cbn beta iota. apply tm_bind. eapply tm_mono; [by eapply p_retry|].
      intros [nx|] σ2 (L' & S2 & EL & D); rewrite (EL eq_refl) in *.
      - destruct (D nx eq_refl). apply tm_ret. eapply (IH (L - th nx)); [lia|done|done|done].
      - apply tm_bind. apply p_next_none. intros [[v| | |] cs2]; [|done|done|done]. apply tm_bind. eapply tm_mono; [by apply (p_retry_insert None)|].
        intros nx σ3 (F & L3 & S3 & LL & L1 & L2 & D3). apply tm_ret. destruct (D3 eq_refl) as [->| ->].
        + eapply (IH (L - th nx)); [lia|done|by eapply SO_weakF|done].
        + by eapply FR. }
    destruct r as [tb|].
    - apply tm_ret. eapply LF; [done|exact S1|by apply Hr].
    - apply tm_bind. apply p_next_none. intros [[v| | |] cs1]; [|done|done|done]. apply tm_bind.
      eapply tm_mono; [by eapply p_init|]. intros tb σ2 (L' & S2 & L2). apply tm_ret. by eapply LF.
  Qed.

  (** ** clear, retain and iter, when no resize is in progress *)
  Lemma p_delete_entry test tb i e L σ : SM (Some (th tb)) L σ → th tb < L → e_copying e = false →
    tm (delete_entry cfg test tb i e) (λ r σ', r = false ∧ SM (Some (th tb)) L σ') σ.
  Proof.
    intros S Lt Ec. unfold delete_entry.
    set (body := λ e : eword, _ : prog (eword + bool)).
    assert (WIN : ∀ e σ, SM (Some (th tb)) L σ → is_ent (th tb) i e σ → e_copying e = false → tm (loop body e) (λ r σ', r = false ∧ SM (Some (th tb)) L σ') σ).
    { clear -Lt Hinc. intros e σ S E Ec. apply tm_loop1. unfold body at 1. destruct (e_ptr e) as [p|]; [|done]. rewrite Ec. apply tm_bind.
      eapply (tm_mono _ _ (λ _ σ, SM (Some (th tb)) L σ ∧ is_ent (th tb) i e σ)).
      - destruct test as [f|]; [|by apply tm_ret]. eapply (tm_gd _ (λ σ, SM (Some (th tb)) L σ ∧ is_ent (th tb) i e σ) _ tru); [|done|done].
        intros σ3 [S3 E3]. unfold a_deref. destruct (decide _); [done|]. by destruct (heap σ3 !! _).
      - intros [] σ1 [S1 E1]; [done|]. eapply tm_cas_ent_win; [exact S1|done|]. intros σ2 S2.
        eapply tm_gd; [by apply (g_store_meta me None None None None (Some (th tb)) L)|exact S2|]. intros _ σ3 S3 _. eapply tm_gd; [apply g_count|exact S3|]. intros _ σ4 S4 _.
        apply tm_bind. eapply tm_mono; [by eapply p_defer|]. intros u σ5 S5. by apply tm_ret. }
    apply tm_loop1. unfold body at 1. destruct (e_ptr e) as [p|]; [|done]. rewrite Ec. apply tm_bind.
    eapply (tm_mono _ _ (λ _ σ, SM (Some (th tb)) L σ)).
    - destruct test as [f|]; [|by apply tm_ret]. eapply tm_gd; [apply g_deref|exact S|]. done.
    - intros [] σ1 S1; [done|]. eapply tm_gd; [apply g_cas_ent|exact S1|]. intros [[]|f] σ2 S2 Hf.
      + eapply tm_gd; [by apply (g_store_meta me None None None None (Some (th tb)) L)|exact S2|]. intros _ σ3 S3 _. eapply tm_gd; [apply g_count|exact S3|]. intros _ σ4 S4 _.
        apply tm_bind. eapply tm_mono; [by eapply p_defer|]. intros u σ5 S5. by apply tm_ret.
      + destruct (Hf f eq_refl) as [H1 H2]. apply tm_ret. apply WIN; auto.
  Qed.
  Lemma p_sweep n : ∀ i test tb L σ, SM (Some (th tb)) L σ → th tb < L →
    tm (sweep cfg n i test tb false) (λ r σ', r = false ∧ SM (Some (th tb)) L σ') σ.
  Proof.
    induction n as [|n IH]; intros i test tb L σ S Lt; [done|]. cbn [sweep]. cbn zeta.
    assert (B : ∀ σ, SM (Some (th tb)) L σ → tm (e ← act (a_load_ent tb i); delete_entry cfg test tb i e)%prog (λ r σ', r = false ∧ SM (Some (th tb)) L σ') σ).
    { intros σ1 S1. eapply tm_gd; [apply g_load_ent2|exact S1|]. intros e σ2 S2 [_ H2]. apply p_delete_entry; auto. }
    apply tm_bind. eapply (tm_mono _ _ (λ r σ', r = false ∧ SM (Some (th tb)) L σ')).
    - destruct test as [f|]; [|by apply B]. eapply tm_gd; [apply g_load_meta|exact S|]. intros m σ1 S1 _. destruct (_ || _); [done|]. by apply B.
    - intros c σ1 [-> S1]. cbn [orb]. by apply IH.
  Qed.
  Definition nonext (t : nat) (σ : state) : Prop := ∀ tb, tables σ !! t = Some tb → t_next tb = None.
  Lemma p_linearize (Q : tref → state → Prop) tb σ : nonext (th tb) σ → Q tb σ → tm (linearize cfg tb) Q σ.
  Proof.
    intros N HQ. unfold linearize. destruct (incremental cfg); [|by apply tm_ret]. apply tm_loop1. cbn [bind act Solo.tm]. unfold a_next.
    eapply (with_table_spec (th tb) σ _). intros t Et. rewrite (N t Et). by apply tm_ret.
  Qed.
  Lemma p_clear test L t σ : SM (Some t) L σ → root σ = Some t → nonext t σ → tm (clear_or_retain cfg test) (λ _ _, True) σ.
  Proof.
    intros S R N. unfold clear_or_retain. cbn [bind act Solo.tm]. unfold a_root. rewrite R.
    eapply (with_table_spec t σ _). intros tb Et. set (h := handle t tb). assert (Lt : th h < L).
    { rewrite <- (so_len _ _ _ _ _ _ _ S). by eapply lookup_lt_Some. }
    apply tm_loop1. apply tm_bind. apply p_linearize; [done|]. apply tm_bind. eapply tm_mono; [by eapply p_sweep|]. by intros c σ1 [-> S1].
  Qed.
  Lemma p_iter t σ : root σ = Some t → nonext t σ → tm (iter cfg) (λ _ _, True) σ.
  Proof.
    intros R N. unfold iter. cbn [bind act Solo.tm]. unfold a_root. rewrite R. eapply (with_table_spec t σ _). intros tb Et. apply tm_bind. by apply p_linearize.
  Qed.
  Lemma p_iter_next fuel : ∀ i tb L σ, SN L σ → tm (iter_next fuel i tb) (λ _ _, True) σ.
  Proof.
    induction fuel as [|fuel IH]; intros i tb L σ S; [done|]. cbn [iter_next]. eapply tm_gd; [apply g_load_meta|exact S|]. intros m σ1 S1 _.
    destruct (_ || _); [by eapply IH|]. eapply tm_gd; [apply g_load_ent|exact S1|]. intros e σ2 S2 _. destruct (e_ptr e); [done|by eapply IH].
  Qed.
End solo.
