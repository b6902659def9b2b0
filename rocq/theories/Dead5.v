(** C42, part 5: every operation. *)
From Verif Require Export Dead4.

Section dead.
  Context {K V : Type} {Keq : EqDecision K} (cfg : config K) (chunk : nat) (HM : c_mode cfg = Incremental chunk) (N : nat) (Lf : nat → nat).
  Notation prog := (prog K V). Notation action := (action K V). Notation state := (state K V).
  Notation gl := (gl (K:=K) (V:=V) N). Notation dm := (dm (K:=K) (V:=V) cfg N Lf). Notation dmh := (dmh (K:=K) (V:=V) cfg N Lf). Notation dk := (dk (K:=K) (V:=V) cfg N Lf).
  Notation plain := (plain (K:=K) (V:=V)). Notation JL := (JL (K:=K) (V:=V) cfg Lf).

  Definition kE (tb : tref) (i : nat) : hd := HD CN KN (Some (th tb, KEntry i)).
  Definition hwp (tb : tref) (i : nat) (e : eword) (h : hd) : Prop := kh h ∧ (marked e → h = kE tb i).
  Definition pq (tb : tref) (c : option nat) (h : hd) : Prop := match c with Some i => h = kE tb i | None => kh h end.
  Lemma kh_ex h : kh h → ∃ k, h = HD CN KN k. Proof. destruct h as [c p k]. intros [A B]. cbn in *. subst. eauto. Qed.
  Lemma kh_k k : kh (HD CN KN k). Proof. done. Qed.
  Lemma pq_kh tb c h : pq tb c h → kh h. Proof. destruct c; [by intros -> | done]. Qed.

  Lemma marked_dec e : Decision (marked e).
  Proof. unfold marked. apply _. Qed.
  (** Seeing a marked entry. *)
  Lemma dm_see {X A} (f : action X) (w : X → option eword) tb i (k : X → prog A) Q h : kh h → plain f →
    (∀ me b σ x σ' e, f me b σ = Ok x σ' → w x = Some e → wrd σ' (th tb) i = e) →
    (∀ x h', kh h' → (∀ e, w x = Some e → hwp tb i e h') → dm (k x) Q h') → dm (Act f k) Q h.
  Proof.
    intros Hh [P1 P2] Hw Hk. split; [intros me σ E; left; by eapply P1|]. split; [intros me b σ x σ' E; apply cs_tmono; by eapply P2|].
    intros H me b σ x σ' LN Hj Hj' G Em E.
    assert (G' : gl (hst H me h) σ') by (rewrite <- Em; exact (gl_same (K:=K) cfg N Lf H σ me σ' LN Hj G (P2 _ _ _ _ _ E))).
    destruct (w x) as [e|] eqn:Ew; [|exists h; split; [done|]; apply Hk; [done|]; intros e EX; congruence].
    destruct (marked_dec e) as [M|M].
    - exists (kE tb i). split; [|apply Hk; [done|]; intros e' EX; assert (e' = e) as -> by congruence; done].
      pose proof (P2 _ _ _ _ _ E) as [CS PS]. eapply (gl_tr N H σ me (kE tb i) σ' LN G).
      + rewrite Em. destruct (kh_ex _ Hh) as [k0 ->]. cbn [hc kE]. eapply trC_same; [exact Hj|done|done].
      + rewrite Em. destruct (kh_ex _ Hh) as [k0 ->]. cbn [hp kE]. apply trP_same; [by apply know_same|by apply cond_same|done].
      + right. cbn [hk kE]. intros t key [= <- <-]. cbn. rewrite (Hw _ _ _ _ _ _ E Ew). done.
    - exists h. split; [done|]. apply Hk; [done|]. intros e' EX. assert (e' = e) as -> by congruence. by split.
  Qed.
  Lemma wrd_of (σ : state) t i tb s : tables σ !! t = Some tb → t_slots tb !! i = Some s → wrd σ t i = s_ent s.
  Proof. intros E Es. by rewrite wrd_eq, E, Es. Qed.
  Lemma dm_load tb i {A} (k : eword → prog A) Q h : kh h → (∀ e h', hwp tb i e h' → dm (k e) Q h') → dm (Act (a_load_ent tb i) k) Q h.
  Proof.
    intros Hh Hk. apply (dm_see _ (λ e, Some e) tb i); [done|apply q_load_ent| |intros x h' _ X; by apply Hk, X].
    intros me b σ x σ' e E [= <-]. apply ws_ok' in E as (t & s & Et & Es & E). injection E as <- <-. by eapply wrd_of.
  Qed.
  Definition wr {X} (x : X + eword) : option eword := match x with inl _ => None | inr e => Some e end.
  Lemma dm_cas w tb i e0 e1 {A} (k : unit + eword → prog A) Q h : kh h → plain (a_cas_ent w tb i e0 e1) →
    (∀ h', kh h' → dm (k (inl tt)) Q h') → (∀ e h', hwp tb i e h' → dm (k (inr e)) Q h') → dm (Act (a_cas_ent w tb i e0 e1) k) Q h.
  Proof.
    intros Hh P H1 H2. apply (dm_see _ wr tb i); [done|done| |].
    - intros me b σ x σ' e E Ew. apply ws_ok' in E as (t & s & Et & Es & E). destruct (exp_freed _ _); [done|]. destruct (decide _); injection E as <- <-; [done|]. injection Ew as <-. by eapply wrd_of.
    - intros [[]|e] h' Hh' X; [by apply H1|by apply H2, X].
  Qed.
  Lemma dm_pub w tb i e0 kv {A} (k : nat + eword → prog A) Q h : kh h → plain (a_cas_pub w tb i e0 kv) →
    (∀ p h', kh h' → dm (k (inl p)) Q h') → (∀ e h', hwp tb i e h' → dm (k (inr e)) Q h') → dm (Act (a_cas_pub w tb i e0 kv) k) Q h.
  Proof.
    intros Hh P H1 H2. apply (dm_see _ wr tb i); [done|done| |].
    - intros me b σ x σ' e E Ew. apply ws_ok' in E as (t & s & Et & Es & E). destruct (exp_freed _ _); [done|]. destruct (decide _); injection E as <- <-; [done|]. injection Ew as <-. by eapply wrd_of.
    - intros [p|e] h' Hh' X; [by apply H1|by apply H2, X].
  Qed.
  Lemma dm_h {A B} (p : prog A) (k : A → prog B) Q h : dmh h p → (∀ a, dm (k a) Q h) → dm (bind p k) Q h.
  Proof. intros D Hk. eapply dm_bind; [exact D|]. intros a h' ->. apply Hk. Qed.

  Definition iq tb i (s : istatus) h : Prop := match s with IFound (SValue e) | IFound (SCopied e) => hwp tb i e h ∧ is_Some (e_ptr e) | _ => kh h end.
  Definition uq tb i (s : ustatus) h : Prop := match s with UFound (SCopied _) => h = kE tb i | UFound (SValue e) => kh h ∧ e_copying e = false | _ => kh h end.
  Lemma d_ia i m kv tb h : kh h → dm (insert_at cfg i m kv tb) (iq tb i) h.
  Proof.
    intros Hh. unfold insert_at. cbn [bind act]. apply dm_pub; [done|apply q_cas_null| |].
    - intros p h' Hh'. cbn [bind act]. apply dm_plain; [apply q_store_meta|]. intros []. by cbn [dm].
    - intros e h' [Hk He]. destruct (e_ptr e) as [p|] eqn:Ep; cbn [bind act].
      + apply dm_plain; [apply q_deref|]. intros kv'. apply dm_plain; [apply q_load_meta|]. intros m'. destruct (_ =? _)%N; cbn [bind act fst snd]; [apply dm_plain; [apply q_store_meta|]; intros []|]; cbn [dm iq]; by rewrite Ep.
      + apply dm_plain; [apply q_load_meta|]. intros m'. destruct (_ =? _)%N; cbn [bind act fst snd]; [apply dm_plain; [apply q_store_meta|]; intros []|]; by cbn [dm iq].
  Qed.
  Lemma uq_est tb i e h : hwp tb i e h → uq tb i (UFound (estatus_of e)) h.
  Proof.
    intros [Hk He]. unfold estatus_of. destruct (e_ptr e) as [p|] eqn:Ep; [|done]. destruct (e_copying e) eqn:Ec; cbn; [|done]. apply He. split; [done|]. by rewrite Ep.
  Qed.
  Lemma d_ua i e nw tb h : e_copying e = false → kh h → dm (update_at cfg i e nw tb) (uq tb i) h.
  Proof.
    intros Ec Hh. unfold update_at. destruct nw as [kv|]; cbn [bind act].
    - apply dm_pub; [done|by apply q_cas_pub'| |].
      + intros p h' Hh'. apply dm_h; [apply (d_dr cfg chunk HM)|]. intros []. by cbn [dm].
      + intros e' h' He. cbn [dm]. by apply uq_est.
    - apply dm_cas; [done|by apply q_cas_tomb| |].
      + intros h' Hh'. apply dm_h; [apply (d_dr cfg chunk HM)|]. intros []. by cbn [dm].
      + intros e' h' He. cbn [dm]. by apply uq_est.
  Qed.
  Lemma d_is i e kv tb h : e_copying e = false → kh h → dm (insert_slow cfg i e kv tb) (λ s h, uq tb i s h ∧ ∀ e, s ≠ UFound (SValue e)) h.
  Proof.
    intros Ec Hh. unfold insert_slow. apply (dm_loop (K:=K) cfg N Lf (λ e h, e_copying e = false ∧ kh h) (λ s h, uq tb i s h ∧ ∀ e, s ≠ UFound (SValue e))); [done| |intros s h' X; by cbn [dm]].
    intros e' h' [Ec' Hh']. eapply dm_bind; [by apply d_ua|]. intros [old nw|[|e1|e1]] h1 Hu; cbn [dm uq] in *; [split; [done|]; intros; discriminate|split; [done|]; intros; discriminate|split; [done|]; intros; discriminate|]. destruct Hu. by split.
  Qed.
  Definition prq {A} tb (r : A + option nat) h : Prop := match r with inr c => pq tb c h | inl _ => kh h end.
  Lemma d_ip f r tb kv i l h : kh h → dm (insert_probe cfg f r tb kv i l) (prq tb) h.
  Proof.
    revert i l h. induction f as [|f IH]; intros i l h Hh; cbn [insert_probe]; [by cbn [dm]|]. cbn [bind act].
    assert (FE : ∀ (e : eword) h, hwp tb i e h → is_Some (e_ptr e) →
      dm (Act (a_deref (key_of_ptr e)) (λ kv', if negb (bool_decide (kv'.1 = kv.1)) then insert_probe cfg f r tb kv (probe_next i (S l) (th_mask tb)) (S l) else
         if e_copying e then Ret (inr (Some i)) else
         if negb r then Ret (inl (RError (key_of_ptr e))) else
         bind (insert_slow cfg i e kv tb) (λ s,
          match s with
          | UReplaced old _ => Ret (inl (RReplaced (key_of_ptr old)))
          | UFound (SCopied _) => Ret (inr (Some i))
          | UFound SNull => insert_probe cfg f r tb kv (probe_next i (S l) (th_mask tb)) (S l)
          | UFound (SValue _) => Fail PUnreachable
          end))) (prq tb) h).
    { intros e h1 [Hk He] Hp. apply dm_plain; [apply q_deref|]. intros kv'. destruct (negb _); [by apply IH|]. destruct (e_copying e) eqn:Ec; [cbn [dm prq pq]; by apply He|]. destruct (negb r); [by cbn [dm prq]|].
      eapply dm_bind; [by apply d_is|]. intros [old nw|[|e1|e1]] h2 [Hu Hn]; cbn [uq] in Hu; [by cbn [dm prq]|by apply IH|by cbn [dm prq pq]|by destruct (Hn e1)]. }
    apply dm_plain; [apply q_load_meta|]. intros m. destruct (m =? EMPTY)%N.
    - eapply dm_bind; [by apply d_ia|]. intros [p|[|e|e]] h1 Hi; cbn [iq] in Hi; [by cbn [dm prq]|by apply IH|destruct Hi; by apply FE|destruct Hi; by apply FE].
    - destruct (_ =? _)%N; [|by apply IH]. cbn [bind act]. apply dm_load; [done|]. intros e h1 He. destruct (e_ptr e) as [p|] eqn:Ep; [|apply IH, He]. apply FE; [done|by rewrite Ep].
  Qed.
  Lemma d_re p tb i e h : e_copying e = false → kh h → dm (remove_entry cfg p tb i e) (prq tb) h.
  Proof.
    intros Ec Hh. unfold remove_entry. apply (dm_loop (K:=K) cfg N Lf (λ e h, e_copying e = false ∧ kh h) (prq tb)); [done| |intros s h' X; by cbn [dm]].
    clear e h Ec Hh. intros e h [Ec Hh]. cbn [bind act]. apply dm_plain; [apply q_deref|]. intros kv. destruct (negb _); [by cbn [dm prq]|]. eapply dm_bind; [by apply d_ua|].
    intros [old nw|[|e1|e1]] h2 Hu; cbn [uq] in Hu; [|by cbn [dm prq]|by cbn [dm prq pq]|cbn [dm]; by destruct Hu]. cbn [bind act].
    apply dm_plain; [apply q_store_meta|]. intros []. apply dm_plain; [apply q_count|]. intros []. by cbn [dm prq].
  Qed.
  Lemma d_rp f p tb k i l h : kh h → dm (remove_probe cfg f p tb k i l) (prq tb) h.
  Proof.
    revert i l h. induction f as [|f IH]; intros i l h Hh; cbn [remove_probe]; [by cbn [dm]|]. cbn [bind act]. apply dm_plain; [apply q_load_meta|]. intros m. destruct (_ =? _)%N; [by cbn [dm prq]|].
    destruct (negb _); [by apply IH|]. cbn [bind act]. apply dm_load; [done|]. intros e h1 [Hk He]. destruct (e_ptr e) as [q|] eqn:Ep; [|by apply IH]. cbn [bind act]. apply dm_plain; [apply q_deref|]. intros kv.
    destruct (negb _); [by apply IH|]. destruct (e_copying e) eqn:Ec; [cbn [dm prq pq]; apply He; split; [done|by rewrite Ep]|]. by apply d_re.
  Qed.
  Definition ceq {A B C} tb (r : (A + (option nat * B)) + C) h : Prop := match r with inl (inr (c, _)) => pq tb c h | _ => kh h end.
  Lemma d_ce o f tb k i cs e h : e_copying e = false → kh h → dm (compute_entry cfg o f tb k i cs e) (ceq tb) h.
  Proof.
    intros Ec Hh. unfold compute_entry. cbv zeta. apply (dm_loop (K:=K) cfg N Lf (λ st h, e_copying st.2 = false ∧ kh h) (ceq tb)); [done| |intros s h' X; by cbn [dm]].
    clear cs e h Ec Hh. intros [cs e] h [Ec Hh]. cbn [snd] in Ec.
    assert (OF : ∀ s cs h, uq tb i s h → kh h → dm (match s with
      | UFound (SCopied _) => Ret (inr (inl (inr (Some i, cs))))
      | UFound SNull =>
        bind (cs_next_none o f cs) (λ r, match r with
         | (OpInsert v, cs) => Ret (inr (inr (cs_restore_none v cs)))
         | (OpRemove, _) => Fail PRemoveNone
         | (OpPanic, _) => Fail PUser
         | (OpAbort, cs) => Ret (inr (inl (inl (CAborted None, cs))))
         end)
      | UFound (SValue found) => Ret (inl (cs, found))
      | UReplaced _ _ => Fail PUnreachable
      end : prog ((cstate K V * eword) + ((cout + (option nat * cstate K V)) + cstate K V)))
      (λ r h', match r with inl st => e_copying st.2 = false ∧ kh h' | inr b => ceq tb b h' end) h).
    { intros s cs1 h1 Hu Hk. destruct s as [old nw|[|e1|e1]]; cbn [uq] in Hu.
      - by cbn [dm].
      - apply dm_h; [apply d_nn|]. intros [[v| | |] cs2]; by cbn [dm ceq].
      - by cbn [dm ceq pq].
      - cbn [dm]. by destruct Hu. }
    assert (UK : ∀ s h, uq tb i s h → kh h) by (intros [old nw|[|e1|e1]] h1; cbn [uq]; [done|done|by intros -> |by intros [? _]]).
    apply dm_h; [apply d_ns|]. intros [[v| | |] cs1].
    - eapply dm_bind; [by apply d_ua|]. intros s h1 Hu. pose proof (UK _ _ Hu) as Hk. destruct s as [old nw|s]; [by cbn [dm ceq]|]. exact (OF (UFound s) _ h1 Hu Hk).
    - eapply dm_bind; [by apply d_ua|]. intros s h1 Hu. pose proof (UK _ _ Hu) as Hk. destruct s as [old nw|s]; [|exact (OF (UFound s) _ h1 Hu Hk)]. cbn [bind act].
      apply dm_plain; [apply q_store_meta|]. intros []. apply dm_plain; [apply q_count|]. intros []. by cbn [dm ceq].
    - by cbn [dm ceq].
    - by cbn [dm ceq].
  Qed.
  Definition cpq {A B} tb (r : A + (option nat * B)) h : Prop := match r with inr (c, _) => pq tb c h | _ => kh h end.
  Lemma d_cp fu o f tb k i l cs h : kh h → dm (compute_probe cfg fu o f tb k i l cs) (cpq tb) h.
  Proof.
    revert i l cs h. induction fu as [|fu IH]; intros i l cs h Hh; cbn [compute_probe]; [by cbn [dm]|]. cbn [bind act].
    assert (FE : ∀ (e : eword) cs h, hwp tb i e h → is_Some (e_ptr e) →
      dm (Act (a_deref (key_of_ptr e)) (λ kv', if negb (bool_decide (kv'.1 = k)) then compute_probe cfg fu o f tb k (probe_next i (S l) (th_mask tb)) (S l) cs else
         if e_copying e then Ret (inr (Some i, cs)) else
         bind (compute_entry cfg o f tb k i cs e) (λ r, match r with inl r => Ret r | inr cs => compute_probe cfg fu o f tb k (probe_next i (S l) (th_mask tb)) (S l) cs end))) (cpq tb) h).
    { intros e cs1 h1 [Hk He] Hp. apply dm_plain; [apply q_deref|]. intros kv'. destruct (negb _); [by apply IH|]. destruct (e_copying e) eqn:Ec; [cbn [dm cpq pq]; by apply He|].
      eapply dm_bind; [by apply d_ce|]. intros [[r|[c cs2]]|cs2] h2 Hu; cbn [ceq] in Hu; [by cbn [dm cpq]|by cbn [dm cpq]|by apply IH]. }
    apply dm_plain; [apply q_load_meta|]. intros m. destruct (m =? EMPTY)%N.
    - apply dm_h; [apply d_nn|]. intros [[v| | |] cs1]; [|by cbn [dm]|by cbn [dm cpq]|by cbn [dm]].
      eapply dm_bind; [by apply d_ia|]. intros [p|[|e|e]] h1 Hi; cbn [iq] in Hi; [|by apply IH|destruct Hi; by apply FE|destruct Hi; by apply FE].
      cbn [bind act]. apply dm_plain; [apply q_count|]. intros []. by cbn [dm cpq].
    - destruct (_ =? _)%N; [|by apply IH]. cbn [bind act]. apply dm_load; [done|]. intros e h1 He. destruct (e_ptr e) as [p|] eqn:Ep; [|apply IH, He]. apply FE; [done|by rewrite Ep].
  Qed.
  Lemma d_wait tb c h : pq tb c h → dm (match c with Some i => wait_copied cfg i tb | None => Ret tt end) (λ _ h', kh h') h.
  Proof using HM. destruct c as [i|]; cbn [pq]; [|intros; by cbn [dm]]. intros ->. eapply dm_mono; [|apply d_wc]. by intros a h ->. Qed.
  Lemma d_pr c b tb h : pq tb c h → dm (prepare_retry cfg c b tb) (λ _ h', kh h') h.
  Proof using HM.
    intros Hq. unfold prepare_retry. rewrite HM. cbn [bind act]. apply dm_plain; [apply q_next|]. intros [nx|]; [|cbn [dm]; by eapply pq_kh].
    destruct (kh_ex h) as [k ->]; [by eapply pq_kh|].
    apply dm_h. { destruct b; [|by cbn]. apply dmh_bind; [by apply (d_hc_f cfg chunk HM)|]. intros _. apply dmh_ret. }
    intros []. eapply dm_bind; [by apply d_wait|]. intros [] h Hh. by cbn [dm].
  Qed.
  Lemma d_pri c b tb h : pq tb c h → dm (prepare_retry_insert cfg c b tb) (λ _ h', kh h') h.
  Proof using HM.
    intros Hq. unfold prepare_retry_insert. apply dm_h; [apply d_goan|]. intros nx. rewrite HM. destruct (kh_ex h) as [k ->]; [by eapply pq_kh|].
    apply dm_h. { destruct b; [by apply (d_hc_f cfg chunk HM)|by cbn]. }
    intros nx'. eapply dm_bind; [by apply d_wait|]. intros [] h Hh. by cbn [dm].
  Qed.
  Lemma d_insert k v r : dk (insert cfg k v r).
  Proof using HM.
    unfold insert, insert_inner. apply dk_bind.
    - apply dk_bind; [apply dk_act', q_root|]. intros rt. apply dk_bind; [destruct rt; [apply dk_ret|apply dk_dmh; intros h; by apply (d_init cfg chunk HM)]|]. intros tb.
      apply dk_loop; [|intros; apply dk_ret]. intros [tb' hp] h Hh. eapply dm_bind; [by apply d_ip|]. intros [x|c] h1 H1; cbn [prq] in H1; [by cbn [dm]|].
      eapply dm_bind; [by apply d_pri|]. intros nx h2 H2. by cbn [dm].
    - intros [p|p|p]; [|apply dk_ret|apply dk_ret]. apply dk_bind; [apply dk_act', q_count|]. intros _. apply dk_ret.
  Qed.
  Lemma d_remove k p : dk (remove_if cfg k p).
  Proof using HM.
    unfold remove_if. apply dk_bind; [apply dk_act', q_root|]. intros [tb|]; [|apply dk_ret]. apply dk_loop; [|intros; apply dk_ret]. intros [tb' hp] h Hh. eapply dm_bind; [by apply d_rp|].
    intros [x|c] h1 H1; cbn [prq] in H1; [by cbn [dm]|]. eapply dm_bind; [by apply d_pr|]. intros [nx|] h2 H2; by cbn [dm].
  Qed.
  Lemma d_compute o k f : dk (compute cfg o k f).
  Proof using HM.
    unfold compute. cbv zeta. apply dk_bind; [apply dk_act', q_root|]. intros rt. apply dk_bind.
    { destruct rt as [tb|]; [apply dk_ret|]. apply dk_bind; [apply dk_dmh; intros h; apply d_nn|]. intros [[v| | |] cs]; [|apply dk_fail|apply dk_ret|apply dk_fail]. apply dk_bind; [apply dk_dmh; intros h; by apply (d_init cfg chunk HM)|]. intros tb. apply dk_ret. }
    intros [[tb cs]|res]; [|apply dk_ret]. apply dk_loop; [|intros; apply dk_ret]. intros [tb' cs'] h Hh. eapply dm_bind; [by apply d_cp|].
    intros [x|[c cs1]] h1 H1; cbn [cpq] in H1; [by cbn [dm]|]. eapply dm_bind; [by apply d_pr|]. intros [nx|] h2 H2; [by cbn [dm]|].
    apply dm_h; [apply d_nn|]. intros [[v| | |] cs2]; [|by cbn [dm]|by cbn [dm]|by cbn [dm]]. eapply dm_bind; [by apply d_pri|]. intros nx h3 H3. by cbn [dm].
  Qed.
  Lemma d_lin tb : dk (linearize cfg tb).
  Proof using HM.
    unfold linearize. destruct (incremental cfg); [|apply dk_ret]. apply dk_loop; [|intros; apply dk_ret]. intros tb'. apply dk_bind; [apply dk_act', q_next|]. intros [nx|]; [|apply dk_ret].
    apply dk_bind; [intros h Hh; by apply (d_hc_t cfg chunk HM)|]. intros; apply dk_ret.
  Qed.
  Lemma d_cor t : dk (clear_or_retain cfg t).
  Proof using HM.
    unfold clear_or_retain. apply dk_bind; [apply dk_act', q_root|]. intros [tb|]; [|apply dk_ret]. apply dk_loop; [|intros; apply dk_ret]. intros tb'. apply dk_bind; [apply d_lin|]. intros tb1.
    apply dk_bind; [apply dk_dmh; intros h; apply (d_sw cfg chunk HM)|]. intros c. destruct (negb c); [apply dk_ret|]. apply dk_bind; [intros h Hh; by apply (d_hc_t cfg chunk HM)|]. intros; apply dk_ret.
  Qed.
  Lemma d_iter : dk (iter cfg).
  Proof using HM. unfold iter. apply dk_bind; [apply dk_act', q_root|]. intros [tb|]; [|apply dk_ret]. apply dk_bind; [apply d_lin|]. intros; apply dk_ret. Qed.
  Lemma d_res n : dk (reserve cfg n).
  Proof using HM.
    unfold reserve. apply dk_bind; [apply dk_act', q_root|]. intros rt. apply dk_bind; [destruct rt; [apply dk_ret|apply dk_dmh; intros h; by apply (d_init cfg chunk HM)]|]. intros tb.
    apply dk_loop; [|intros; apply dk_ret]. intros tb'. apply dk_bind; [apply dk_dmh; intros h; apply d_len|]. intros m. cbv zeta. destruct (_ <=? _); [apply dk_ret|].
    apply dk_bind; [apply dk_dmh; intros h; apply d_goan|]. intros _. apply dk_bind; [intros h Hh; by apply (d_hc_t cfg chunk HM)|]. intros; apply dk_ret.
  Qed.
  Ltac dq := lazymatch goal with
    | |- Dead1.dk _ _ _ (bind _ _) => apply dk_bind
    | |- Dead1.dk _ _ _ (act _) => apply dk_act'; apply q_ub
    | |- Dead1.dk _ _ _ (Ret _) => apply dk_ret
    | |- Dead1.dk _ _ _ (Fail _) => apply dk_fail
    | |- Dead1.dk _ _ _ (match ?x with _ => _ end) => destruct x
    | |- Dead1.dk _ _ _ (let '_ := ?x in _) => destruct x
    | |- ∀ _, _ => intros ?
    | |- Dead1.dk _ _ _ _ => first [apply d_insert|apply d_remove|apply d_compute|apply d_cor|apply d_iter|apply d_res|apply dk_dmh; intros h; first [apply d_get|apply d_len|apply d_in]]
    end.
  Lemma op_dk o its : dk (op_prog cfg o its).
  Proof using HM. destruct o; cbn [op_prog]; repeat dq. Qed.
End dead.
