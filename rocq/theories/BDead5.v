(** C52, part 5: every operation. *)
From Verif Require Export BDead4.

Section dead.
  Context {K V : Type} {Keq : EqDecision K} (cfg : config K) (HM : c_mode cfg = Blocking) (N : nat) (Lf : nat → nat).
  Notation prog := (prog K V). Notation action := (action K V). Notation state := (state K V).
  Notation gl := (gl (K:=K) (V:=V) N). Notation dm := (dm (K:=K) (V:=V) cfg N Lf). Notation dmh := (dmh (K:=K) (V:=V) cfg N Lf). Notation dk := (dk (K:=K) (V:=V) cfg N Lf).
  Notation plain := (plain (K:=K) (V:=V)). Notation JL := (JL (K:=K) (V:=V) cfg Lf). Notation okt := (okt Lf).
  Notation dkq := (dkq (K:=K) (V:=V) cfg N Lf).

  Lemma dkq_dk {A} (P : A → Prop) (p : prog A) : dkq P p → dk p.
  Proof. intros D h Hh. eapply dm_mono; [|by apply D]. by intros a h' [? _]. Qed.
  Lemma dkq_bind {A B} (P : A → Prop) (Q : B → Prop) (p : prog A) (k : A → prog B) : dkq P p → (∀ a, P a → dkq Q (k a)) → dkq Q (bind p k).
  Proof. intros D Hk h Hh. eapply dm_bind; [by apply D|]. intros a h' [Hh' Pa]. by apply Hk. Qed.
  Lemma dkq_dkb {A B} (Q : B → Prop) (p : prog A) (k : A → prog B) : dk p → (∀ a, dkq Q (k a)) → dkq Q (bind p k).
  Proof. intros D Hk h Hh. eapply dm_bind; [by apply D|]. intros a h' Hh'. by apply Hk. Qed.
  Lemma dkq_loop {S' B A} (I : S' → Prop) (QB : B → Prop) (Q : A → Prop) (body : S' → prog (S' + B)) s (k : B → prog A) : I s →
    (∀ s, I s → dkq (λ r, match r with inl s' => I s' | inr b => QB b end) (body s)) → (∀ b, QB b → dkq Q (k b)) → dkq Q (Loop body s k).
  Proof.
    intros H0 Hb Hk h Hh. apply (dm_loop cfg N Lf (λ s h, kh h ∧ I s) (λ b h, kh h ∧ QB b)); [done| |].
    - intros s' h' [Hh' Is]. eapply dm_mono; [|by apply Hb]. by intros [?|?].
    - intros b h' [Hh' Qb]. by apply Hk.
  Qed.
  Lemma dkq_ret {A} (P : A → Prop) (a : A) : P a → dkq P (Ret a). Proof. intros X h Hh. by cbn [dm]. Qed.
  Lemma dkq_fail {A} (P : A → Prop) r : dkq P (Fail r). Proof. intros h X Y. exact X. Qed.
  Lemma dkq_true {A} (p : prog A) : dk p → dkq (λ _, True) p. Proof. intros D h Hh. eapply dm_mono; [|by apply D]. done. Qed.
  Lemma dkq_root {A} (P : A → Prop) (k : option tref → prog A) : (∀ r, (∀ tb, r = Some tb → okt tb) → dkq P (k r)) → dkq P (Act a_root k).
  Proof using HM. intros Hk h Hh. apply (dm_root cfg HM). intros r Hr. by apply Hk. Qed.

  Hint Resolve q_load_meta q_store_meta q_load_ent q_cas_ent q_cas_pub q_store_ent q_for q_deref q_load_copied q_load_claim
    q_load_status q_count q_load_shard q_shards q_retire q_defer q_root q_root_raw q_try_lock q_lock q_unlock q_poison q_ub q_next q_publish : pld.
  Create HintDb dkd.
  Ltac ks1 := lazymatch goal with
    | |- BDead1.dk _ _ _ (bind _ _) => apply dk_bind
    | |- BDead1.dk _ _ _ (act _) => apply dk_act'; solve [eauto 2 with pld]
    | |- BDead1.dk _ _ _ (Act _ _) => apply dk_act; [solve [eauto 2 with pld]|]
    | |- BDead1.dk _ _ _ (loop _ _) => apply dk_loop
    | |- BDead1.dk _ _ _ (Loop _ _ _) => apply dk_loop
    | |- BDead1.dk _ _ _ (Ret _) => apply dk_ret
    | |- BDead1.dk _ _ _ (Fail _) => apply dk_fail
    | |- BDead1.dk _ _ _ (if ?b then _ else _) => destruct b eqn:?
    | |- BDead1.dk _ _ _ (match ?x with _ => _ end) => destruct x eqn:?
    | |- BDead1.dk _ _ _ (let '_ := ?x in _) => destruct x
    | |- BDead1.dk _ _ _ (let _ := _ in _) => cbv zeta
    | |- ∀ _, _ => intros ?
    | |- BDead1.dk _ _ _ _ => first [solve [eauto 2 with dkd] | progress cbv beta]
    end.
  Ltac ks := repeat ks1.
  Lemma k_dr e tb : dk (defer_retire cfg e tb). Proof. apply dk_dmh. intros h. apply (d_dr cfg HM). Qed.
  Lemma k_goan c tb : dk (get_or_alloc_next cfg c tb). Proof. apply dk_dmh. intros h. apply d_goan. Qed.
  Lemma k_ns f cs p : dk (cs_next_some (K:=K) (V:=V) f cs p). Proof. apply dk_dmh. intros h. apply d_ns. Qed.
  Lemma k_nn o f cs : dk (cs_next_none (K:=K) (V:=V) o f cs). Proof. apply dk_dmh. intros h. apply d_nn. Qed.
  Lemma k_len : dk map_len. Proof. apply dk_dmh. intros h. apply d_len. Qed.
  Lemma k_get k : dk (get cfg k). Proof. apply dk_dmh. intros h. apply d_get. Qed.
  Lemma k_in f i tb : dk (iter_next f i tb). Proof. apply dk_dmh. intros h. apply d_in. Qed.
  Lemma k_sw n i t tb c : dk (sweep cfg n i t tb c). Proof. apply dk_dmh. intros h. apply (d_sw cfg HM). Qed.
  Hint Resolve k_dr k_goan k_ns k_nn k_len k_get k_in k_sw : dkd.
  Lemma k_ia i m kv tb : dk (insert_at cfg i m kv tb). Proof. unfold insert_at. ks. Qed.
  Lemma k_ua i e nw tb : dk (update_at cfg i e nw tb). Proof. unfold update_at. ks. Qed.
  Hint Resolve k_ia k_ua : dkd.
  Lemma k_is i e kv tb : dk (insert_slow cfg i e kv tb). Proof. unfold insert_slow. ks. Qed.
  Hint Resolve k_is : dkd.
  Lemma k_ip f r tb kv i l : dk (insert_probe cfg f r tb kv i l). Proof. revert i l. induction f; intros i l; cbn [insert_probe]; cbv zeta; ks. Qed.
  Lemma k_re p tb i e : dk (remove_entry cfg p tb i e). Proof. unfold remove_entry. ks. Qed.
  Hint Resolve k_ip k_re : dkd.
  Lemma k_rp f p tb k i l : dk (remove_probe cfg f p tb k i l). Proof. revert i l. induction f; intros i l; cbn [remove_probe]; cbv zeta; ks. Qed.
  Lemma k_ce o f tb k i cs e : dk (compute_entry cfg o f tb k i cs e). Proof. unfold compute_entry. cbv zeta. ks. Qed.
  Hint Resolve k_rp k_ce : dkd.
  Lemma k_cp fu o f tb k i l cs : dk (compute_probe cfg fu o f tb k i l cs). Proof. revert i l cs. induction fu; intros i l cs; cbn [compute_probe]; cbv zeta; ks. Qed.

  Lemma k_pr c b tb : okt tb → dkq (λ r, ∀ tb, r = Some tb → okt tb) (prepare_retry cfg c b tb).
  Proof using HM.
    intros Ot. unfold prepare_retry. rewrite HM. destruct c as [i|]; [|by apply dkq_ret].
    eapply dkq_bind; [by apply (d_hc cfg HM)|]. intros nx' On. apply dkq_ret. by intros tb' [= <-].
  Qed.
  Lemma k_pri c b tb : okt tb → dkq okt (prepare_retry_insert cfg c b tb).
  Proof using HM. intros Ot. unfold prepare_retry_insert. rewrite HM. apply dkq_dkb; [apply k_goan|]. intros nx. by apply (d_hc cfg HM). Qed.
  Lemma k_insert k v r : dk (insert cfg k v r).
  Proof using HM.
    unfold insert, insert_inner. apply dk_bind.
    - eapply dkq_dk, (dkq_root (λ _, True)). intros rt Hr. cbn [bind]. eapply (dkq_bind okt); [destruct rt; [by apply dkq_ret, Hr|by apply (d_init cfg HM)]|]. intros tb Ot.
      eapply (dkq_loop (λ s, okt s.1) (λ _, True)); [done| |intros; by apply dkq_ret]. intros [tb' hp] Ot'. cbn [fst] in Ot'. apply dkq_dkb; [apply k_ip|]. intros [x|c]; [by apply dkq_ret|].
      eapply dkq_bind; [by apply k_pri|]. intros nx On. by apply dkq_ret.
    - intros [p|p|p]; ks.
  Qed.
  Lemma k_remove k p : dk (remove_if cfg k p).
  Proof using HM.
    unfold remove_if. eapply dkq_dk, (dkq_root (λ _, True)). intros [tb|] Hr; [|by apply dkq_ret].
    eapply (dkq_loop (λ s, okt s.1) (λ _, True)); [by apply Hr| |intros; by apply dkq_ret]. intros [tb' hp] Ot'. cbn [fst] in Ot'. apply dkq_dkb; [apply k_rp|]. intros [x|c]; [by apply dkq_ret|].
    eapply dkq_bind; [by apply k_pr|]. intros [nx|] On; apply dkq_ret; [by apply On|done].
  Qed.
  Lemma k_compute o k f : dk (compute cfg o k f).
  Proof using HM.
    unfold compute. cbv zeta. eapply dkq_dk, (dkq_root (λ _, True)). intros rt Hr. cbn [bind].
    eapply (dkq_bind (λ r, match r with inl (tb, _) => okt tb | inr _ => True end)).
    { destruct rt as [tb|]; [by apply dkq_ret, Hr|]. apply dkq_dkb; [apply k_nn|]. intros [[v| | |] cs]; [|apply dkq_fail|by apply dkq_ret|apply dkq_fail]. eapply dkq_bind; [by apply (d_init cfg HM)|]. intros tb Ot. by apply dkq_ret. }
    intros [[tb cs]|res] Ot; [|by apply dkq_ret]. eapply (dkq_loop (λ s, okt s.1) (λ _, True)); [done| |intros; by apply dkq_ret]. intros [tb' cs'] Ot'. cbn [fst] in Ot'. apply dkq_dkb; [apply k_cp|].
    intros [x|[c cs1]]; [by apply dkq_ret|]. eapply dkq_bind; [by apply k_pr|]. intros [nx|] On; [by apply dkq_ret, On|].
    apply dkq_dkb; [apply k_nn|]. intros [[v| | |] cs2]; [|by apply dkq_fail|by apply dkq_ret|by apply dkq_fail]. eapply dkq_bind; [by apply k_pri|]. intros nx Onx. by apply dkq_ret.
  Qed.
  Lemma k_lin tb : okt tb → dkq okt (linearize cfg tb).
  Proof using HM. intros Ot. unfold linearize, incremental. rewrite HM. by apply dkq_ret. Qed.
  Lemma k_cor t : dk (clear_or_retain cfg t).
  Proof using HM.
    unfold clear_or_retain. eapply dkq_dk, (dkq_root (λ _, True)). intros [tb|] Hr; [|by apply dkq_ret]. eapply (dkq_loop okt (λ _, True)); [by apply Hr| |intros; by apply dkq_ret].
    intros tb' Ot. eapply dkq_bind; [by apply k_lin|]. intros tb1 Ot1. apply dkq_dkb; [apply k_sw|]. intros c. destruct (negb c); [by apply dkq_ret|]. eapply dkq_bind; [by apply (d_hc cfg HM)|]. intros nx On. by apply dkq_ret.
  Qed.
  Lemma k_iter : dk (iter cfg).
  Proof using HM. unfold iter. eapply dkq_dk, (dkq_root (λ _, True)). intros [tb|] Hr; [|by apply dkq_ret]. eapply dkq_bind; [by apply k_lin, Hr|]. intros tb1 Ot1. by apply dkq_ret. Qed.
  Lemma k_res n : dk (reserve cfg n).
  Proof using HM.
    unfold reserve. eapply dkq_dk, (dkq_root (λ _, True)). intros rt Hr. cbn [bind]. eapply (dkq_bind okt); [destruct rt; [by apply dkq_ret, Hr|by apply (d_init cfg HM)]|]. intros tb Ot.
    eapply (dkq_loop okt (λ _, True)); [done| |intros; by apply dkq_ret]. intros tb' Ot'. apply dkq_dkb; [apply k_len|]. intros m. cbv zeta. destruct (_ <=? _); [by apply dkq_ret|].
    apply dkq_dkb; [apply k_goan|]. intros _. eapply dkq_bind; [by apply (d_hc cfg HM)|]. intros nx On. by apply dkq_ret.
  Qed.
  Hint Resolve k_insert k_remove k_compute k_cor k_iter k_res : dkd.
  Lemma op_dk o its : dk (op_prog cfg o its).
  Proof using HM. destruct o; cbn [op_prog]; ks. Qed.
End dead.
