(** Blocking resizing, one thread alone (continued): the operations. *)
From Verif Require Export SoloB.

Section solo.
  Context {K V : Type} {Keq : EqDecision K} (cfg : config K) (me : nat) (Hblk : c_mode cfg = Blocking).
  Context (ESC : state K V → Prop) (N : nat) (HE : ∀ σ : state K V, N ≤ length (tables σ) → ESC σ).
  Notation state := (state K V). Notation prog := (prog K V).
  Notation cout := (cout (K:=K) (V:=V)).
  Notation tmx := (tmx (K:=K) (V:=V) me ESC).
  Notation BQ := (BQ (K:=K) (V:=V)).

  (** insert *)
  Lemma b_insert_probe fuel : ∀ rep tb kv i len L σ, BQ L σ → th tb = L →
    tmx (insert_probe cfg fuel rep tb kv i len) (λ r σ', match r with inl _ => True | inr _ => BQ L σ' end) σ.
  Proof.
    induction fuel as [|fuel IH]; intros rep tb kv i len L σ H Et; [done|]. cbn [insert_probe].
    assert (FE : ∀ e σ, BQ L σ → is_ent L i e σ →
      tmx (kv' ← act (a_deref (key_of_ptr e));
         if negb (bool_decide (kv'.1 = kv.1)) then insert_probe cfg fuel rep tb kv (probe_next i (S len) (th_mask tb)) (S len) else
         if e_copying e then Ret (inr (Some i)) else
         if negb rep then Ret (inl (RError (key_of_ptr e))) else
         (s ← insert_slow cfg i e kv tb;
          match s with
          | UReplaced old _ => Ret (inl (RReplaced (key_of_ptr old)))
          | UFound (SCopied _) => Ret (inr (Some i))
          | UFound SNull => insert_probe cfg fuel rep tb kv (probe_next i (S len) (th_mask tb)) (S len)
          | UFound (SValue _) => Fail PUnreachable
          end))%prog (λ r σ', match r with inl _ => True | inr copying => BQ L σ' end) σ).
    { clear σ H. intros e σ H He. eapply x_rd; [apply rd_deref|]. intros kv' _. destruct (negb _); [by apply IH|].
      destruct (e_copying e); [by apply tmx_ret|]. destruct (negb rep); [done|].
      eapply tmx_seq; [by eapply x_insert_slow|]. intros r σ1 [H1 (a & b & ->)]. by apply tmx_ret. }
    eapply x_rd; [apply rd_meta|]. intros m _. destruct (m =? EMPTY)%N; [|destruct (m =? h2_of cfg kv.1)%N; [|by apply IH]].
    - eapply tmx_seq; [by eapply x_insert_at|]. intros [p|[|e|e]] σ1 [H1 H2]; [done|by apply IH|done|by apply FE].
    - eapply x_rd; [apply rd_ent|]. intros e He. destruct (e_ptr e); [|by apply IH]. apply FE; [done|]. by rewrite <- Et.
  Qed.
  Definition ins_body (k : K) (v : V) (rep : bool) (st : tref * bool) : prog ((tref * bool) + iresult) :=
    let '(tb, help) := st in
    (r ← insert_probe cfg (probe_fuel tb) rep tb (k, v) (probe_start (h1_of cfg k) (th_mask tb)) 0;
     match r with
     | inl res => Ret (inr res)
     | inr copying => (next ← prepare_retry_insert cfg copying help tb; Ret (inl (next, false)))
     end)%prog.
  Lemma b_loop_insert k v rep : ∀ d L tb h σ, d = N - L → BQ L σ → th tb = L → tmx (loop (ins_body k v rep) (tb, h)) (λ _ _, True) σ.
  Proof.
    induction d as [d IH] using (well_founded_induction lt_wf). intros L tb h σ Ed H Et. apply tmx_loop1. unfold ins_body at 1.
    eapply tmx_seq; [by eapply b_insert_probe|]. intros [x|c] σ1 H1; [done|]. apply tmx_bind. unfold prepare_retry_insert, help_copy. rewrite Hblk.
    destruct H1 as (cl & cd & st & H1). eapply tmx_seq; [eapply x_goa; [exact HE|exact H1|exact Et]|]. intros nx σ2 (E2 & H2 & H3 & L2).
    eapply tmx_mono; [eapply (x_help cfg me ESC N HE tb L (S L)); [done|lia|lia|done|done]|]. intros nx2 σ3 (L' & E3 & L3 & L4 & H4).
    apply tmx_ret. eapply (IH (N - L')); [lia|done|exact H4|done].
  Qed.
  (** The first insertion allocates the first table. *)
  Lemma b_init cap σ : root σ = None → tables σ = [] → tmx (init cap) (λ tb σ', BQ 0 σ' ∧ th tb = 0) σ.
  Proof.
    intros R T. unfold init. destruct (alloc_len _) as [len|]; [|done]. apply tmx_acte. unfold a_init. rewrite R. cbn zeta. right. rewrite T. cbn [length app].
    split; [|done]. exists 0, 0, PROMOTED. split; [done|]. split; [cbn; by rewrite T|]. exists (new_table len PROMOTED). split; [cbn; by rewrite T|].
    split; [done|]. split; [done|]. split; [|done]. cbn. by intros i s [-> _]%lookup_replicate.
  Qed.
  (** Quiet: no table yet, or the root is the last table and quiet. *)
  Definition quiet (σ : state) : Prop := (root σ = None ∧ tables σ = []) ∨ ∃ L, BQ L σ.
  Lemma quiet_root σ : quiet σ → tmx (act a_root) (λ r σ', σ' = σ ∧ match r with Some tb => BQ (th tb) σ | None => root σ = None ∧ tables σ = [] end) σ.
  Proof.
    intros Q. apply tmx_acte. pose proof (rd_root (K:=K) (V:=V) me σ) as X. destruct (a_root me false σ) as [r σ'| |]; [|done|done]. destruct X as [-> X]. right. split; [done|].
    destruct Q as [[R T]|[L H]].
    - rewrite R in X. by destruct r.
    - rewrite (match H with ex_intro _ _ (ex_intro _ _ (ex_intro _ _ H)) => proj1 H end) in X. destruct r as [tb|]; [|done]. injection X as ->. done.
  Qed.
  Lemma b_insert k v rep σ : quiet σ → tmx (insert cfg k v rep) (λ _ _, True) σ.
  Proof.
    intros Q. unfold insert. apply tmx_bind. eapply (tmx_mono _ _ _ (λ _ _, True)); [|by intros [p|p|p] σ1 _; [right|..]].
    unfold insert_inner. eapply tmx_seq; [by apply quiet_root|]. intros [tb|] σ1 [-> H1].
    - cbn [bind]. by eapply b_loop_insert.
    - eapply tmx_seq; [apply b_init; apply H1|]. intros tb σ2 [H2 E2]. by eapply b_loop_insert.
  Qed.

  (** get *)
  Lemma b_get_probe fuel : ∀ tb k i len σ, tmx (get_probe cfg fuel tb k i len) (λ _ _, True) σ.
  Proof.
    induction fuel as [|fuel IH]; intros tb k i len σ; [done|]. cbn [get_probe]. eapply x_rd; [apply rd_meta|]. intros m _. cbn zeta.
    destruct (m =? h2_of cfg k)%N; [|destruct (m =? EMPTY)%N; [done|apply IH]].
    eapply x_rd; [apply rd_ent|]. intros e _. destruct (e_ptr e) as [p|]; [|apply IH].
    eapply x_rd; [apply rd_deref|]. intros kv _. case_bool_decide; [by destruct (e_copied e)|]. destruct (m =? EMPTY)%N; [done|apply IH].
  Qed.
  Lemma b_get k σ : tmx (get cfg k) (λ _ _, True) σ.
  Proof.
    unfold get, incremental. rewrite Hblk. eapply x_rd; [apply rd_root|]. intros [tb|] _; [|done]. apply tmx_loop1. eapply tmx_seq; [apply b_get_probe|]. by intros [r|] σ1 _.
  Qed.

  (** remove *)
  Lemma b_remove_entry pred tb i e L σ : BQ L σ → th tb = L → is_ent L i e σ →
    tmx (remove_entry cfg pred tb i e) (λ r _, match r with inl _ => True | inr c => False end) σ.
  Proof.
    intros H Et He. unfold remove_entry. apply tmx_loop1. eapply x_rd; [apply rd_deref|]. intros kv _. destruct (negb _); [done|].
    eapply tmx_seq; [by eapply x_update_at|]. intros r σ1 [H1 (a & b & ->)]. eapply x_meta; [done|done|]. intros σ2 H2 _.
    eapply x_count; [apply (kept_BQ L)|done|]. intros; done.
  Qed.
  Lemma b_remove_probe fuel : ∀ pred tb k i len L σ, BQ L σ → th tb = L →
    tmx (remove_probe cfg fuel pred tb k i len) (λ r _, match r with inl _ => True | inr c => c = None end) σ.
  Proof.
    induction fuel as [|fuel IH]; intros pred tb k i len L σ H Et; [done|]. cbn [remove_probe]. eapply x_rd; [apply rd_meta|]. intros m _.
    destruct (m =? EMPTY)%N; [done|]. destruct (negb (m =? h2_of cfg k)%N); [by eapply IH|].
    eapply x_rd; [apply rd_ent|]. intros e He. rewrite Et in He. destruct (e_ptr e) as [p|] eqn:Ep; [|by eapply IH].
    eapply x_rd; [apply rd_deref|]. intros kv _. destruct (negb _); [by eapply IH|]. rewrite (BQ_unmarked _ _ _ _ H He).
    eapply tmx_mono; [by eapply b_remove_entry|]. by intros [x|x] σ1.
  Qed.
  Lemma b_remove_if k pred σ : quiet σ → tmx (remove_if cfg k pred) (λ _ _, True) σ.
  Proof.
    intros Q. unfold remove_if. eapply tmx_seq; [by apply quiet_root|]. intros [tb|] σ1 [-> H1]; [|done]. apply tmx_loop1.
    eapply tmx_seq; [by eapply b_remove_probe|]. intros [x|c] σ1 H2; [done|]. subst c. cbn [bind]. unfold prepare_retry. rewrite Hblk. done.
  Qed.

  (** compute *)
  Lemma b_next_none once f cs (Q : cop V * cstate K V → state → Prop) σ : (∀ x, Q x σ) → tmx (cs_next_none once f cs) Q σ.
  Proof. intros H. unfold cs_next_none. destruct (cs_insert cs); [by apply tmx_ret|]. destruct (_ && _); [done|]. by apply tmx_ret. Qed.
  Lemma b_next_some f cs p (Q : cop V * cstate K V → state → Prop) σ : (∀ x, Q x σ) → tmx (cs_next_some f cs p) Q σ.
  Proof.
    intros H. unfold cs_next_some. cbn zeta.
    assert (Y : tmx (kv ← act (a_deref p); Ret (f (Some kv), CState (cs_insert cs) None (Some kv :: cs_calls cs)))%prog Q σ).
    { eapply x_rd; [apply rd_deref|]. intros kv _. apply tmx_ret, H. }
    destruct (cs_update cs) as [[inp out]|]; [|done]. destruct (inp =? p); [|done]. apply tmx_ret. auto.
  Qed.
  Lemma b_compute_entry once f tb k i cs e L σ : BQ L σ → th tb = L → is_ent L i e σ →
    tmx (compute_entry cfg once f tb k i cs e) (λ r _, match r with inl (inl _) => True | _ => False end) σ.
  Proof.
    intros H Et He. unfold compute_entry. cbn zeta. apply tmx_loop1. apply tmx_bind. apply b_next_some. intros [[v| | |] cs1]; [| |done|done].
    - eapply tmx_seq; [by eapply x_update_at|]. intros r σ1 [H1 (a & b & ->)]. done.
    - eapply tmx_seq; [by eapply x_update_at|]. intros r σ1 [H1 (a & b & ->)]. eapply x_meta; [done|done|]. intros σ2 H2 _.
      eapply x_count; [apply (kept_BQ L)|done|]. intros; done.
  Qed.
  Lemma b_compute_probe fuel : ∀ once f tb k i len cs L σ, BQ L σ → th tb = L →
    tmx (compute_probe cfg fuel once f tb k i len cs) (λ r σ', match r with inl _ => True | inr (c, _) => c = None ∧ BQ L σ' end) σ.
  Proof.
    induction fuel as [|fuel IH]; intros once f tb k i len cs L σ H Et; [done|]. cbn [compute_probe]. cbn zeta.
    set (cont := λ cs : cstate K V, compute_probe cfg fuel once f tb k (probe_next i (S len) (th_mask tb)) (S len) cs).
    set (Q := λ (r : cout + (option nat * cstate K V)) (σ' : state), match r with inl _ => True | inr (c, _) => c = None ∧ BQ L σ' end).
    assert (FE : ∀ e cs σ, BQ L σ → is_ent L i e σ → tmx (kv' ← act (a_deref (key_of_ptr e)); if negb (bool_decide (kv'.1 = k)) then cont cs else
      if e_copying e then Ret (inr (Some i, cs)) else (r ← compute_entry cfg once f tb k i cs e; match r with inl r => Ret r | inr cs => cont cs end))%prog Q σ).
    { clear σ H. intros e cs' σ H He. eapply x_rd; [apply rd_deref|]. intros kv' _. destruct (negb _); [by apply IH|]. rewrite (BQ_unmarked _ _ _ _ H He).
      eapply tmx_seq; [by eapply b_compute_entry|]. by intros [[r|r]|r] σ1 H1. }
    eapply x_rd; [apply rd_meta|]. intros m _. destruct (m =? EMPTY)%N; [|destruct (m =? h2_of cfg k)%N; [|by apply IH]].
    - apply tmx_bind. apply b_next_none. intros [[v| | |] cs1]; [|done|done|done].
      eapply tmx_seq; [by eapply x_insert_at|]. intros [p|[|e|e]] σ1 [H1 H2]; [|by apply IH|done|by refine (FE _ _ _ _ _)].
      eapply x_count; [apply (kept_BQ L)|done|]. intros; done.
    - eapply x_rd; [apply rd_ent|]. intros e He. rewrite Et in He. destruct (e_ptr e) as [p|] eqn:Ep; [|by apply IH]. by refine (FE _ _ _ _ _).
  Qed.
  Lemma b_compute once k f σ : quiet σ → tmx (compute cfg once k f) (λ _ _, True) σ.
  Proof.
    intros Q. unfold compute. cbn zeta. eapply tmx_seq; [by apply quiet_root|]. intros r σ1 [-> Hr].
    set (body := λ st : tref * cstate K V, _ : prog ((tref * cstate K V) + cout)).
    assert (LF : ∀ d L tb cs σ, d = N - L → BQ L σ → th tb = L → tmx (loop body (tb, cs)) (λ _ _, True) σ).
    { clear -Hblk HE. induction d as [d IH] using (well_founded_induction lt_wf). intros L tb cs σ Ed H Et. apply tmx_loop1. unfold body at 1.
      eapply tmx_seq; [by eapply b_compute_probe|]. intros [x|[c cs1]] σ1 H1; [done|]. destruct H1 as [-> H1]. cbn beta iota. unfold prepare_retry. rewrite Hblk. cbn [bind].
      apply tmx_bind. apply b_next_none. intros [[v| | |] cs2]; [|done|done|done]. unfold prepare_retry_insert, help_copy. rewrite Hblk. apply tmx_bind.
      destruct H1 as (cl & cd & st & H1). eapply tmx_seq; [eapply x_goa; [exact HE|exact H1|exact Et]|]. intros nx σ2 (E2 & H2 & H3 & L2).
      eapply tmx_mono; [eapply (x_help cfg me ESC N HE tb L (S L)); [done|lia|lia|done|done]|]. intros nx2 σ3 (L' & E3 & L3 & L4 & H4).
      apply tmx_ret. eapply (IH (N - L')); [lia|done|done|done]. }
    destruct r as [tb|]; cbn [bind].
    - by eapply LF.
    - apply tmx_bind, tmx_bind. apply b_next_none. intros [[v| | |] cs1]; [|done|done|done].
      eapply tmx_seq; [apply b_init; apply Hr|]. intros tb σ2 [H2 E2]. apply tmx_ret. by eapply LF.
  Qed.

  (** clear, retain, iter, next, reserve *)
  Lemma b_delete_entry test tb i e L σ : BQ L σ → th tb = L → is_ent L i e σ →
    tmx (delete_entry cfg test tb i e) (λ r σ', r = false ∧ BQ L σ') σ.
  Proof.
    intros H Et He. unfold delete_entry. apply tmx_loop1. rewrite (BQ_unmarked _ _ _ _ H He). destruct (e_ptr e) as [p|]; [|by apply tmx_ret].
    apply (tmx_seq _ _ _ _ (λ _ σ', σ' = σ)). { destruct test as [f|]; [|done]. eapply x_rd; [apply rd_deref|]. intros; by apply tmx_ret. }
    intros [] σ' ->; [by apply tmx_ret|]. destruct He as (t & s & Ett & Es & Ee).
    eapply (tmx_act _ _ _ (λ r σ', BQ (th tb) σ' ∧ r = inl tt)).
    - unfold a_cas_ent, with_slot, with_table. rewrite Et, Ett. destruct (t_freed t); [done|]. rewrite Es. destruct (exp_freed e σ); [done|].
      rewrite decide_True by (split; [done|by intros []]). right. split; [|done]. eapply BQ_slot; [exact H|exact Ett|exact Es|]. done.
    - intros r σ1 [H1 ->]. rewrite Et in H1. eapply x_meta; [done|done|]. intros σ2 H2 _. eapply x_count; [apply (kept_BQ L)|done|]. intros σ3 H3.
      eapply tmx_seq; [by eapply x_defer|]. intros u σ4 H4. by apply tmx_ret.
  Qed.
  Lemma b_sweep n : ∀ i test tb L σ, BQ L σ → th tb = L → tmx (sweep cfg n i test tb false) (λ r σ', r = false ∧ BQ L σ') σ.
  Proof.
    induction n as [|n IH]; intros i test tb L σ H Et; [done|]. cbn [sweep]. cbn zeta.
    assert (B : tmx (e ← act (a_load_ent tb i); delete_entry cfg test tb i e)%prog (λ r σ', r = false ∧ BQ L σ') σ).
    { eapply x_rd; [apply rd_ent|]. intros e He. rewrite Et in He. by apply b_delete_entry. }
    apply (tmx_seq _ _ _ _ (λ r σ', r = false ∧ BQ L σ')).
    - destruct test as [f|]; [|done]. eapply x_rd; [apply rd_meta|]. intros m _. destruct (_ || _); [by apply tmx_ret|done].
    - intros c σ1 [-> H1]. cbn [orb]. by apply IH.
  Qed.
  Lemma b_clear test σ : quiet σ → tmx (clear_or_retain cfg test) (λ _ _, True) σ.
  Proof.
    intros Q. unfold clear_or_retain. eapply tmx_seq; [by apply quiet_root|]. intros [tb|] σ1 [-> H1]; [|done]. apply tmx_loop1.
    unfold linearize, incremental. rewrite Hblk. cbn [bind]. eapply tmx_seq; [by eapply b_sweep|]. intros c σ2 [-> H2]. done.
  Qed.
  Lemma b_iter σ : tmx (iter cfg) (λ _ _, True) σ.
  Proof.
    unfold iter. eapply x_rd; [apply rd_root|]. intros [tb|] _; [|done]. unfold linearize, incremental. by rewrite Hblk.
  Qed.
  Lemma b_iter_next fuel : ∀ i tb σ, tmx (iter_next fuel i tb) (λ _ _, True) σ.
  Proof.
    induction fuel as [|fuel IH]; intros i tb σ; [done|]. cbn [iter_next]. eapply x_rd; [apply rd_meta|]. intros m _.
    destruct (_ || _); [by eapply IH|]. eapply x_rd; [apply rd_ent|]. intros e _. destruct (e_ptr e); [done|by eapply IH].
  Qed.
  Lemma b_reserve n σ : quiet σ → tmx (reserve cfg n) (λ _ _, True) σ.
  Proof.
    intros Q. unfold reserve. cbn zeta. set (body := λ tb : tref, _ : prog (tref + unit)).
    assert (LF : ∀ d L tb σ, d = N - L → BQ L σ → th tb = L → tmx (loop body tb) (λ _ _, True) σ).
    { clear σ Q. induction d as [d IH] using (well_founded_induction lt_wf). intros L tb σ Ed H Et. apply tmx_loop1. unfold body at 1.
      apply tmx_bind, x_map_len. intros z. destruct (_ <=? _); [done|]. unfold help_copy. rewrite Hblk. eapply x_resize; [exact HE|exact H|done|].
      intros nx L' σ' E' L1 L2 H'. apply tmx_ret. eapply (IH (N - L')); [lia|done|done|done]. }
    eapply tmx_seq; [by apply quiet_root|]. intros [tb|] σ1 [-> H1].
    - cbn [bind]. by eapply LF.
    - eapply tmx_seq; [apply b_init; apply H1|]. intros tb σ2 [H2 E2]. by eapply LF.
  Qed.
  Lemma b_map_len σ : tmx map_len (λ _ _, True) σ.
  Proof. by apply x_map_len. Qed.
End solo.
