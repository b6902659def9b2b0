(** In blocking mode no retirement is ever deferred to a table. *)
From Verif Require Export Marks3 Marks2.

Section def.
  Context {K V : Type} {Keq : EqDecision K} (cfg : config K) (HM : c_mode cfg = Blocking).
  Notation msame := (msame cfg). Notation mplain := (mplain cfg).
  Notation prog := (prog K V). Notation action := (action K V). Notation state := (state K V).

  Definition wkD (h h' : unit) : Prop := True.
  Definition ownD (h : unit) (σ : state) : Prop := True.
  Definition transD (me : nat) (h h' : unit) (σ σ' : state) : Prop := def0 σ → def0 σ'.
  Lemma wkD_refl h : wkD h h. Proof. done. Qed.
  Lemma wkD_trans h1 h2 h3 : wkD h1 h2 → wkD h2 h3 → wkD h1 h3. Proof. done. Qed.
  Lemma trD_wk me h h0 h' σ σ' : wkD h h0 → transD me h0 h' σ σ' → transD me h h' σ σ'. Proof. done. Qed.
  Lemma ownD_wk h h0 σ : wkD h h0 → ownD h σ → ownD h0 σ. Proof. done. Qed.
  Lemma trD_plain me h (σ σ' : state) : msame σ σ' → transD me h h σ σ'.
  Proof. intros (_ & _ & _ & D). exact (D HM). Qed.
  Notation dmh := (dmh cfg unit wkD ownD transD tt).
  Ltac dhyps := first [exact wkD_refl|exact wkD_trans|exact trD_wk|exact ownD_wk|exact trD_plain|exact tt].

  Definition pd {X} (f : action X) : Prop := ∀ me b σ x σ', f me b σ = Ok x σ' → def0 σ → def0 σ'.
  Lemma pd_plain {X} (f : action X) : mplain f → pd f.
  Proof. intros P me b σ x σ' E. eapply (trD_plain 0 tt), P, E. Qed.
  Lemma dD_bind {A B} (p : prog A) (k : A → prog B) : dmh p → (∀ a, dmh (k a)) → dmh (bind p k).
  Proof. apply dmh_bind; dhyps. Qed.
  Lemma dD_act {X A} (f : action X) (k : X → prog A) : pd f → (∀ x, dmh (k x)) → dmh (Act f k).
  Proof. intros P Hk me b σ x σ' _ _ E. exists tt. split; [exact (P _ _ _ _ _ E)|apply Hk]. Qed.
  Lemma dD_ret {A} (a : A) : dmh (Ret a). Proof. by exists tt. Qed.
  Lemma dD_act' {X} (f : action X) : pd f → dmh (act f).
  Proof. intros P. apply dD_act; [done|]. intros x. apply dD_ret. Qed.
  Lemma dD_loop {S' B A} (body : S' → prog (S' + B)) s (k : B → prog A) : (∀ s, dmh (body s)) → (∀ b, dmh (k b)) → dmh (Loop body s k).
  Proof. apply dmh_loop; dhyps. Qed.

  Lemma def0_upd t tb tb0 (σ : state) : tables σ !! t = Some tb0 → t_deferred tb = t_deferred tb0 → def0 σ → def0 (upd_table t tb σ).
  Proof.
    intros E F D x tb1. rewrite upd_lookup. destruct (decide _) as [[-> L]|N]; [|apply D]. intros [= <-]. rewrite F. by eapply D.
  Qed.
  Lemma pd_for tb i : pd (a_fetch_or_copying tb i).
  Proof. intros me b σ x σ' E. apply ws_ok' in E as (t & s & Et & Es & E). injection E as <- <-. by eapply def0_upd. Qed.
  Lemma pd_cas w tb i e n : pd (a_cas_ent w tb i e n).
  Proof. intros me b σ x σ' E. apply ws_ok' in E as (t & s & Et & Es & E). destruct (exp_freed _ _); [done|]. destruct (decide _); injection E as <- <-; [by eapply def0_upd|done]. Qed.
  Lemma pd_casroot tb n : pd (a_cas_root tb n).
  Proof. intros me b σ x σ' E. unfold a_cas_root in E. destruct (decide _); injection E as <- <-; done. Qed.
  Lemma pd_init len : pd (a_init len).
  Proof.
    intros me b σ x σ' E D. unfold a_init in E. destruct (root σ) as [r|] eqn:R; [apply wt_ok in E as (? & _ & E); by injection E as <- <-|]. cbn zeta in E. injection E as <- <-.
    intros t tb Et. apply (trD_plain 0 tt _ _ (msame_push cfg σ len PROMOTED) D t tb). exact Et.
  Qed.

  Ltac pla := first [apply pd_for|apply pd_cas|apply pd_casroot|apply pd_init|apply pd_plain; first [apply q_load_meta|apply q_store_meta|apply q_load_ent|apply q_deref|apply q_load_copied|apply q_add_copied|apply q_load_claim|apply q_add_claim
    |apply q_load_status|apply q_store_status|apply q_retire|apply q_root|apply q_root_raw|apply q_next]].
  Ltac ds1 := lazymatch goal with
    | |- dmh (bind _ _) => apply dD_bind
    | |- dmh (act _) => apply dD_act'; solve [pla]
    | |- dmh (Act _ _) => apply dD_act; [solve [pla]|]
    | |- dmh (loop _ _) => apply dD_loop
    | |- dmh (Loop _ _ _) => apply dD_loop
    | |- dmh (Ret _) => apply dD_ret
    | |- dmh (Fail _) => exact I
    | |- dmh (if ?b then _ else _) => destruct b
    | |- dmh (match ?x with _ => _ end) => destruct x
    | |- dmh (let '_ := ?x in _) => destruct x
    | |- dmh (let _ := _ in _) => cbv zeta
    | |- ∀ _, _ => intros ?
    | |- dmh (get_or_alloc_next _ _ _) => apply d_goan; dhyps
    | |- dmh (unpark _ _) => apply d_unpark; dhyps
    | |- dmh (wait_status _ _) => apply d_ws; dhyps
    | |- dmh _ => first [solve [eauto 2] | progress cbv beta]
    end.
  Ltac ds := repeat ds1.
  Lemma tp tb n c : dmh (try_promote tb n c). Proof. unfold try_promote. ds. Qed.
  Lemma icp f tb e k i l : dmh (insert_copy_probe cfg f tb e k i l). Proof. revert i l. induction f; intros i l; cbn [insert_copy_probe]; ds. Qed.
  Lemma ic e p r tb : dmh (insert_copy cfg e p r tb). Proof. pose proof icp. unfold insert_copy. ds. Qed.
  Lemma cab i tb n : dmh (copy_at_blocking cfg i tb n). Proof. pose proof ic. unfold copy_at_blocking. ds. Qed.
  Lemma ccbD n i tb nx c : dmh (copy_chunk_blocking cfg n i tb nx c). Proof. pose proof cab. revert i c. induction n; intros i c; cbn [copy_chunk_blocking]; ds. Qed.
  Lemma hcbD tb : dmh (help_copy_blocking cfg tb). Proof. pose proof ccbD. pose proof tp. unfold help_copy_blocking. ds. Qed.
  Lemma d_hc_def b tb : dmh (help_copy cfg b tb). Proof. unfold help_copy. rewrite HM. apply hcbD. Qed.
  Lemma d_init_def cp : dmh (init cp). Proof. unfold init. ds. Qed.
  Lemma op_dm_def o its : dmh (op_prog cfg o its). Proof. apply d_op; try dhyps; [apply d_hc_def|apply d_init_def]. Qed.

  Context (nthr nsh cap : nat) (HS : 0 < nsh).
  Theorem blocking_never_defers sched (c : mconf K V) : exec cfg (init_conf cap nsh nthr) sched = Some c → def0 (mc_st c).
  Proof.
    intros E. destruct (reach_MK cfg unit tt wkD ownD transD wkD_refl wkD_trans trD_wk ownD_wk trD_plain (λ _ σ, def0 σ)) with (nthr:=nthr) (nsh:=nsh) (cap:=cap) (sched:=sched) (c:=c) as (H & G & _); auto.
    - done.
    - intros H σ σ' D M. exact (trD_plain 0 tt _ _ M D).
    - apply op_dm_def.
    - intros t tb Et. unfold init_state in Et. cbn [tables] in Et. destruct (cap =? 0); [done|]. destruct t as [|[|t]]; [|done|done]. cbn in Et. by injection Et as <-.
  Qed.
End def.
