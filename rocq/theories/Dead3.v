(** C42, part 3: parking and waking up. *)
From Verif Require Export Dead2.

Section dead.
  Context {K V : Type} {Keq : EqDecision K} (cfg : config K) (chunk : nat) (HM : c_mode cfg = Incremental chunk) (N : nat) (Lf : nat → nat).
  Notation prog := (prog K V). Notation action := (action K V). Notation state := (state K V).
  Notation gl := (gl (K:=K) (V:=V) N). Notation dm := (dm (K:=K) (V:=V) cfg N Lf). Notation dmh := (dmh (K:=K) (V:=V) cfg N Lf). Notation dk := (dk (K:=K) (V:=V) cfg N Lf).
  Notation plain := (plain (K:=K) (V:=V)). Notation JL := (JL (K:=K) (V:=V) cfg Lf).

  Lemma cs_tmono (σ σ' : state) : csame σ σ' → tmono σ σ'. Proof. intros (_ & _ & _ & _ & E & _). exact E. Qed.
  Lemma pkr_upd t tb k (σ : state) x : tables σ !! t = Some tb → pkr (upd_table t (t_set_parker k tb) σ) x = if decide (x = t) then k else pkr σ x.
  Proof.
    intros E. unfold pkr. rewrite tfld_upd. destruct (decide (x = t)) as [->|Ne]; [|by rewrite decide_False by (by intros [? _])].
    rewrite decide_True; [done|]. split; [done|]. by eapply lookup_lt_Some.
  Qed.
  Lemma cs_pk t tb k (σ : state) : tables σ !! t = Some tb → csame σ (upd_table t (t_set_parker k tb) σ).
  Proof. intros E. by eapply cs_upd. Qed.
  Lemma gl_pk H (σ : state) me t tb k' p' : me < N → JL σ → gl H σ → tables σ !! t = Some tb →
    (∀ x key, kno p' = Some (x, key) → kno (hp (H me)) = Some (x, key) ∨ know σ x key) →
    pk_count (t_parker tb) ≤ pk_count k' →
    (∀ x, x ∈ pk_threads k' → x ∈ pk_threads (t_parker tb) ∨ (pk_count (t_parker tb) < x.1.2 ∧ x.1.2 ≤ pk_count k' ∧ x.2 = me)) →
    (∀ t1 key id, rid p' = Some (t1, key, id) → rid (hp (H me)) = Some (t1, key, id) ∨
       (t1 = t ∧ id = pk_count k' ∧ pk_count (t_parker tb) < id ∧ ∀ x, x ∈ pk_threads k' → x ∈ pk_threads (t_parker tb) ∨ x = (key, id, me))) →
    (∀ key id, rid p' = Some (t, key, id) → rid (hp (H me)) = Some (t, key, id) → pk_count k' = pk_count (t_parker tb)) →
    (pk_pending (t_parker tb) - Z.of_nat (length (pk_threads (t_parker tb)) + cb t (hp (H me))) ≤ pk_pending k' - Z.of_nat (length (pk_threads k') + cb t p'))%Z →
    (∀ x, x ≠ t → cb x p' ≤ cb x (hp (H me))) →
    (∀ x, x ∈ pk_threads (t_parker tb) → x.2 ≠ me → x ∈ pk_threads k' ∨ ∃ t' n l, p' = UL t' n l ∧ x.2 ∈ l) →
    (∀ i t n l, hp (H me) = UL t n l → i ∈ l → ∃ t' n' l', p' = UL t' n' l' ∧ i ∈ l') →
    (∀ t1 key id, p' = PR t1 key id ∨ p' = PT t1 key id → t1 = t ∧ (key, id, me) ∈ pk_threads k') →
    (∀ t1 key, hp (H me) = US t1 key → p' = US t1 key ∨ (t1 = t ∧ ∀ x, x ∈ pk_threads k' → x.1.1 ≠ key)) →
    (∀ t1 key id, p' ≠ PT t1 key id ∧ p' ≠ PC t1 key id) →
    gl (hst H me (HD (hc (H me)) p' (hk (H me)))) (upd_table t (t_set_parker k' tb) σ).
  Proof.
    intros LN Hj G E A1 A2 A3 A4 A5 A6 A7 A8 A9 A10 A11 A12. pose proof (cs_pk t tb k' σ E) as CS.
    assert (PK : pkr σ t = t_parker tb) by by apply tfld_eq.
    assert (PKx : ∀ x, x ≠ t → pkr (upd_table t (t_set_parker k' tb) σ) x = pkr σ x) by (intros x Hx; rewrite (pkr_upd _ _ _ _ _ E); by rewrite decide_False).
    assert (PKt : pkr (upd_table t (t_set_parker k' tb) σ) t = k') by (rewrite (pkr_upd _ _ _ _ _ E); by rewrite decide_True).
    eapply gl_tr; [done|exact G| | |by left]; cbn [hc hp hk].
    { destruct G as (GC & _). eapply trC_same; [exact Hj|done|]. intros. by eapply gc_rng. }
    unfold thrs in *. split.
    - by apply know_same.
    - intros x key X. destruct (A1 _ _ X) as [Y|Y]; [by left|right]. by eapply know_same.
    - intros x. destruct (decide (x = t)) as [->|Nx]; [rewrite PKt, PK|rewrite PKx by done]; lia.
    - unfold thrs. intros x y. destruct (decide (x = t)) as [->|Nx]; [rewrite PKt, PK; apply A3|rewrite PKx by done; by left].
    - unfold thrs. intros t1 key id X. destruct (A4 _ _ _ X) as [Y|(-> & Y)]; [by left|right]. rewrite PKt, PK. exact Y.
    - intros t1 key id X Y. destruct (decide (t1 = t)) as [->|Nx]; [rewrite PKt, PK; by eapply A5|by rewrite PKx].
    - unfold thrs. intros x. destruct (decide (x = t)) as [->|Nx]; [by rewrite PKt, PK|]. rewrite PKx by done. specialize (A7 x Nx). lia.
    - unfold thrs. intros i x y Ni Hy Ey. destruct (decide (x = t)) as [->|Nx]; [|left; by rewrite PKx]. rewrite PK in Hy. rewrite PKt. destruct (A8 y Hy) as [Z|(t' & n & l & Z1 & Z2)]; [congruence|by left|].
      right. exists t', n, l. by rewrite <- Ey.
    - done.
    - intros i x n l X Y. right. by eapply A9.
    - unfold thrs. intros t1 key id X. left. destruct (A10 _ _ _ X) as [-> Y]. by rewrite PKt.
    - intros t1 key X Y. left. by eapply cond_same.
    - unfold thrs. intros t1 key X. destruct (A11 _ _ X) as [Y|[-> Y]]; [by left|right]. by rewrite PKt.
    - intros t1 key id X. destruct (A12 t1 key id) as [Z1 Z2]. by destruct X.
  Qed.
  Lemma gl_pt H (σ σ' : state) me p' : me < N → JL σ → gl H σ → csame σ σ' → (∀ t, pkr σ' t = pkr σ t) →
    (∀ x, kno p' = Some x → kno (hp (H me)) = Some x) → (∀ x, rid p' = Some x → rid (hp (H me)) = Some x) → (∀ x, cb x p' ≤ cb x (hp (H me))) →
    (∀ i, i ≠ me → i ∈ tokens σ → i ∈ tokens σ') →
    (∀ i t n l, hp (H me) = UL t n l → i ∈ l → i ∈ tokens σ' ∨ ∃ t' n' l', p' = UL t' n' l' ∧ i ∈ l') →
    (∀ t key id, p' = PR t key id ∨ p' = PT t key id → (key, id, me) ∈ thrs σ t ∨ ((hp (H me) = PR t key id ∨ hp (H me) = PT t key id) ∧ tokens σ' = tokens σ)) →
    (∀ t key, hp (H me) = US t key → p' = US t key ∨ ∀ x, x ∈ thrs σ t → x.1.1 ≠ key) →
    (∀ t key id, p' = PT t key id ∨ p' = PC t key id → cond σ' t key ∨ hp (H me) = PT t key id ∨ hp (H me) = PC t key id) →
    gl (hst H me (HD (hc (H me)) p' (hk (H me)))) σ'.
  Proof.
    intros LN Hj G CS PK A1 A2 A3 A4 A5 A6 A7 A8.
    assert (TE : ∀ t, thrs σ' t = thrs σ t) by (intros t; unfold thrs; by rewrite PK).
    eapply gl_tr; [done|exact G| | |by left]; cbn [hc hp hk].
    { destruct G as (GC & _). eapply trC_same; [exact Hj|done|]. intros. by eapply gc_rng. }
    split.
    - by apply know_same.
    - intros x key X. left. by apply A1.
    - intros x. by rewrite PK.
    - intros x y. rewrite TE. by left.
    - intros t1 key id X. left. by apply A2.
    - intros t1 key id X Y. by rewrite PK.
    - intros x. rewrite PK, TE. specialize (A3 x). lia.
    - intros i x y Ni Hy Ey. left. by rewrite TE.
    - done.
    - done.
    - intros t1 key id X. rewrite TE. destruct (A6 _ _ _ X) as [Y|[Y Z]]; [by left|by right].
    - intros t1 key X Y. left. by eapply cond_same.
    - intros t1 key X. rewrite TE. by apply A7.
    - intros t1 key id X. rewrite TE. destruct (A8 _ _ _ X) as [Y|Y]; [by left|by right].
  Qed.
  Lemma cs_tok (σ : state) x : csame σ (set_tokens x σ).
  Proof. split_and!; try done. intros t j. by left. Qed.
  Lemma cs_refl (σ : state) : csame σ σ. Proof. apply us_refl. Qed.
  Lemma tm_table {A} t (σ : state) (f : table → outcome K V A) x σ' : with_table t σ f = Ok x σ' → (∀ tb, tables σ !! t = Some tb → f tb = Ok x σ' → csame σ σ') → tmono σ σ'.
  Proof. intros E Hf. apply wt_ok in E as (tb & Et & E). apply cs_tmono. by eapply Hf. Qed.

  Ltac hne := intros; cbn in *; (discriminate || done || lia).
  Ltac vac := solve [intros; done | intros; cbn in *; discriminate | intros ? ? ? [?|?]; discriminate | intros ? ? ? ?; split; discriminate | split; discriminate].

  (** parker.rs:104-130 [unpark]. *)
  Lemma d_ua c k l t : l ≠ [] → dm (unpark_all l) (λ _ h', h' = HD c KN k) (HD c (UL t 0 l) k).
  Proof.
    induction l as [|j l IH]; [done|]. intros _. cbn [unpark_all bind act]. split; [done|]. split; [intros me b σ x σ' E; injection E as <- <-; by apply cs_tmono, cs_tok|].
    intros H me b σ x σ' LN Hj Hj' G Em E. injection E as <- <-.
    assert (GG : ∀ p', p' = UL t 0 l ∨ (l = [] ∧ p' = KN) → gl (hst H me (HD c p' k)) (set_tokens (j :: tokens σ) σ)).
    { intros p' Hp. replace c with (hc (H me)) by by rewrite Em. replace k with (hk (H me)) by by rewrite Em.
      eapply (gl_pt H σ); [done|done|done|apply cs_tok|done|..]; rewrite ?Em; cbn [hp].
      - destruct Hp as [-> | [_ ->]]; done.
      - destruct Hp as [-> | [_ ->]]; done.
      - intros x. destruct Hp as [-> | [_ ->]]; cbn; [done|lia].
      - intros i _ Hi. cbn. by right.
      - intros i t1 n l1 [= <- <- <-] Hi. cbn. apply elem_of_cons in Hi as [->|Hi]; [left; by left|]. destruct Hp as [-> | [-> _]]; [right; eauto|by apply elem_of_nil in Hi].
      - intros t1 key id X. destruct Hp as [-> | [_ ->]]; by destruct X.
      - done.
      - intros t1 key id X. destruct Hp as [-> | [_ ->]]; by destruct X. }
    destruct l as [|j' l].
    - exists (HD c KN k). split; [apply GG; by right|]. cbn. done.
    - exists (HD c (UL t 0 (j' :: l)) k). split; [apply GG; by left|]. by apply IH.
  Qed.
  Lemma d_unpark tb key c p k : p = KN ∨ p = US (th tb) key → dm (unpark tb key) (λ _ h', h' = HD c KN k) (HD c p k).
  Proof.
    intros Hp. unfold unpark. cbn [bind act].
    assert (Pn : kno p = None ∧ rid p = None ∧ ∀ x, cb x p = 0) by (by destruct Hp as [-> | ->]).
    assert (Pul : ∀ t n l, p ≠ UL t n l) by (by destruct Hp as [-> | ->]).
    destruct Pn as (P1 & P2 & P3).
    split; [intros me σ E; exfalso; revert E; apply nb_table; done|]. split; [intros me b σ x σ' E; eapply tm_table; [exact E|]; intros t _ E'; injection E' as _ <-; apply cs_refl|].
    intros H me b σ x σ' LN Hj Hj' G Em E. apply wt_ok in E as (t & Et & E). injection E as <- <-.
    destruct (Z.eqb_spec (pk_pending (t_parker t)) 0) as [Z0|Z0].
    { exists (HD c KN k). split; [|by cbn [dm]]. replace c with (hc (H me)) by by rewrite Em. replace k with (hk (H me)) by by rewrite Em.
      eapply (gl_pt H σ); [done|done|done|apply cs_refl|done|..]; rewrite ?Em; cbn [hp hc hk]; try vac.
      - intros x. cbn. lia.
      - intros i t1 n l X. by destruct (Pul t1 n l).
      - intros t1 key1 X. right. destruct Hp as [-> | ->]; [done|]. injection X as <- <-. destruct G as (_ & GP & _). pose proof (gp_cnt _ _ _ GP (th tb)) as Cn.
        assert (PK : pkr σ (th tb) = t_parker t) by by apply tfld_eq. rewrite PK, Z0 in Cn. intros x Hx. unfold thrs in *. rewrite PK in *. destruct (pk_threads (t_parker t)); [by apply elem_of_nil in Hx|cbn in Cn; lia]. }
    exists (HD c p k). split. { rewrite <- Em. apply (gl_same (K:=K) cfg N Lf H σ me σ LN Hj G), us_refl. }
    cbn [bind act]. clear H me b σ Hj Hj' G Em t Et LN Z0.
    split; [intros me σ E; exfalso; revert E; apply nb_table; done|]. split; [intros me b σ x σ' E; eapply tm_table; [exact E|]; intros t Et E'; cbn zeta in E'; injection E' as _ <-; by apply cs_pk|].
    intros H me b σ x σ' LN Hj Hj' G Em E. apply wt_ok in E as (t & Et & E). cbn zeta in E. injection E as <- <-.
    set (mine := List.filter (λ x, bool_decide (x.1.1 = key)) (pk_threads (t_parker t))). set (rest := List.filter (λ x, negb (bool_decide (x.1.1 = key))) (pk_threads (t_parker t))).
    assert (Ln : length mine + length rest = length (pk_threads (t_parker t))).
    { unfold mine, rest. clear. induction (pk_threads (t_parker t)) as [|y l IH]; [done|]. cbn. destruct (bool_decide _); cbn; lia. }
    assert (Mr : ∀ y, y ∈ rest ↔ y ∈ pk_threads (t_parker t) ∧ y.1.1 ≠ key).
    { intros y. unfold rest. rewrite !elem_of_list_In, filter_In. rewrite negb_true_iff, bool_decide_eq_false. done. }
    assert (Mm : ∀ y, y ∈ pk_threads (t_parker t) → y.1.1 = key → y.2 ∈ map snd mine).
    { intros y Hy Ey. apply elem_of_list_In, in_map. unfold mine. apply filter_In. rewrite bool_decide_eq_true. by rewrite <- elem_of_list_In. }
    assert (GG : ∀ p', (p' = UL (th tb) (length mine) (map snd mine)) ∨ (map snd mine = [] ∧ p' = KN) →
      gl (hst H me (HD c p' k)) (upd_table (th tb) (t_set_parker (Parker (pk_pending (t_parker t)) (pk_count (t_parker t)) rest) t) σ)).
    { intros p' Hp'. replace c with (hc (H me)) by by rewrite Em. replace k with (hk (H me)) by by rewrite Em.
      assert (Cb : cb (th tb) p' = length mine). { destruct Hp' as [-> | [E ->]]; cbn; [by rewrite decide_True|]. apply map_eq_nil in E. by rewrite E. }
      eapply (gl_pk H σ); [done|done|done|done|..]; rewrite ?Em; cbn [hp hc hk pk_count pk_threads pk_pending].
      - intros x key1. destruct Hp' as [-> | [_ ->]]; done.
      - done.
      - intros y Hy. left. by apply Mr.
      - intros t1 key1 id X. destruct Hp' as [-> | [_ ->]]; done.
      - intros key1 id X. destruct Hp' as [-> | [_ ->]]; done.
      - rewrite Cb, P3. lia.
      - intros x Nx. destruct Hp' as [-> | [_ ->]]; cbn; [|lia]. rewrite decide_False by done. lia.
      - intros y Hy _. destruct (decide (y.1.1 = key)) as [Ey|Ny]; [right|left; by apply Mr]. pose proof (Mm y Hy Ey) as X. destruct Hp' as [-> | [E _]]; [eauto|]. rewrite E in X. by apply elem_of_nil in X.
      - intros i t1 n l X. by destruct (Pul t1 n l).
      - intros t1 key1 id X. destruct Hp' as [-> | [_ ->]]; by destruct X.
      - intros t1 key1 X. right. destruct Hp as [-> | ->]; [done|]. injection X as <- <-. split; [done|]. intros y Hy. apply Mr in Hy as [_ Hy]. exact Hy.
      - intros t1 key1 id. destruct Hp' as [-> | [_ ->]]; split; discriminate. }
    destruct (map snd mine) as [|j l] eqn:Ex.
    { exists (HD c KN k). split; [apply GG; by right|]. by cbn [dm]. }
    exists (HD c (UL (th tb) (length mine) (j :: l)) k). split; [apply GG; by left|].
    assert (Ll : length mine = length (j :: l)) by by rewrite <- Ex, map_length. rewrite Ll. assert (Hl : j :: l ≠ []) by done. clear -Hl. revert Hl. generalize (j :: l). clear j l. intros l Hl.
    cbn [bind act].
    split; [intros me σ E; exfalso; revert E; apply nb_table; done|]. split; [intros me b σ x σ' E; eapply tm_table; [exact E|]; intros t Et E'; cbn zeta in E'; injection E' as _ <-; by apply cs_pk|].
    intros H me b σ x σ' LN Hj Hj' G Em E. apply wt_ok in E as (t & Et & E). cbn zeta in E. injection E as <- <-.
    exists (HD c (UL (th tb) 0 l) k). split; [|by apply d_ua].
    replace c with (hc (H me)) by by rewrite Em. replace k with (hk (H me)) by by rewrite Em.
    eapply (gl_pk H σ); [done|done|done|done|..]; rewrite ?Em; cbn [hp hc hk pk_count pk_threads pk_pending cb]; try vac.
    - by left.
    - rewrite !decide_True by done. lia.
    - intros x Nx. rewrite decide_False by done. lia.
    - by left.
    - intros i t1 n l1 [= <- <- <-] Hi. eauto.
  Qed.

  (** parker.rs:32-97 [park]. *)
  Lemma d_park tb key : dmh (HD CN KN (Some (th tb, key))) (park tb key).
  Proof.
    unfold park. set (kk := Some (th tb, key)). apply dmh_loop; [intros _|intros; apply dmh_ret]. cbn [bind act].
    (* announce *)
    split; [intros me σ E; exfalso; revert E; apply nb_table; done|]. split; [intros me b σ x σ' E; eapply tm_table; [exact E|]; intros t Et E'; cbn zeta in E'; injection E' as _ <-; by apply cs_pk|].
    intros H me b σ x σ' LN Hj Hj' G Em E. apply wt_ok in E as (t & Et & E). cbn zeta in E. injection E as <- <-.
    exists (HD CN (PA (th tb) key) kk). split.
    { replace CN with (hc (H me)) by by rewrite Em. replace kk with (hk (H me)) by by rewrite Em.
      eapply (gl_pk H σ); [done|done|done|done|..]; rewrite ?Em; cbn [hp hc hk pk_count pk_threads pk_pending cb kno rid]; try vac.
      - intros x key1 [= <- <-]. right. destruct G as (_ & _ & GK). eapply (GK me). by rewrite Em.
      - by left.
      - rewrite decide_True by done. lia.
      - intros x Nx. by rewrite decide_False.
      - by left. }
    clear. cbn [bind act].
    (* register *)
    split; [intros me σ E; exfalso; revert E; apply nb_table; done|]. split; [intros me b σ x σ' E; eapply tm_table; [exact E|]; intros t Et E'; cbn zeta in E'; injection E' as _ <-; by apply cs_pk|].
    intros H me b σ id σ' LN Hj Hj' G Em E. apply wt_ok in E as (t & Et & E). cbn zeta in E. injection E as <- <-.
    exists (HD CN (PR (th tb) key (S (pk_count (t_parker t)))) kk). split.
    { replace CN with (hc (H me)) by by rewrite Em. replace kk with (hk (H me)) by by rewrite Em.
      eapply (gl_pk H σ); [done|done|done|done|..]; rewrite ?Em; cbn [hp hc hk pk_count pk_threads pk_pending cb kno rid]; try vac.
      - by left.
      - lia.
      - intros x Hx. apply elem_of_cons in Hx as [->|Hx]; [right; cbn; split_and!; [lia|lia|done]|by left].
      - intros t1 key1 id [= <- <- <-]. right. split_and!; [done|done|lia|]. intros x Hx. apply elem_of_cons in Hx as [->|Hx]; [by right|by left].
      - rewrite decide_True by done. cbn. lia.
      - intros x Nx. lia.
      - intros x Hx _. left. by right.
      - intros t1 key1 id [X|X]; [|done]. injection X as <- <- <-. split; [done|]. by left. }
    clear. generalize (S (pk_count (t_parker t))). clear t. intros id. cbn [bind act].
    (* should_park *)
    assert (SPb : ∀ me b σ, a_should_park (K:=K) (V:=V) tb key me b σ ≠ Block).
    { intros me b σ. destruct key; cbn; [by apply nb_table|by apply nb_slot]. }
    assert (SPok : ∀ me b σ x σ', a_should_park (K:=K) (V:=V) tb key me b σ = Ok x σ' → σ' = σ ∧ (x = true → cond σ (th tb) key)).
    { intros me b σ x σ'. destruct key as [|i]; cbn.
      - intros (t & Et & E)%wt_ok. injection E as <- <-. split; [done|]. intros X%bool_decide_eq_true. by rewrite (tfld_eq _ _ _ _ _ Et : sts σ (th tb) = _).
      - intros (t & s & Et & Es & E)%ws_ok'. injection E as <- <-. split; [done|]. rewrite wrd_eq, Et, Es. by destruct (e_copied _). }
    assert (SPp : plain (a_should_park tb key)).
    { split; [intros me σ E; by destruct (SPb me false σ)|]. intros me b σ x σ' E. destruct (SPok _ _ _ _ _ E) as [-> _]. apply us_refl. }
    split; [intros me σ E; by destruct (SPb me false σ)|]. split; [intros me b σ x σ' E; destruct (SPok _ _ _ _ _ E) as [-> _]; apply cs_tmono, cs_refl|].
    intros H me b σ c σ' LN Hj Hj' G Em E. destruct (SPok _ _ _ _ _ E) as [-> Cd]. clear E. destruct c; cbn [negb].
    - (* wait *)
      specialize (Cd eq_refl). exists (HD CN (PT (th tb) key id) kk). split.
      { replace CN with (hc (H me)) by by rewrite Em. replace kk with (hk (H me)) by by rewrite Em.
        eapply (gl_pt H σ); [done|done|done|apply cs_refl|done|..]; rewrite ?Em; cbn [hp hc hk cb kno rid]; try vac.
        - intros t1 key1 id1 [X|X]; [done|]. injection X as <- <- <-. right. by split; [left|].
        - intros t1 key1 id1 [X|X]; [|done]. injection X as <- <- <-. by left. }
      clear LN Hj Hj' G Em Cd H me b σ. cbn [bind loop].
      apply (dm_loop (K:=K) cfg N Lf (λ _ h, h = HD CN (PT (th tb) key id) kk) (λ _ h, h = HD CN KN kk)); [done| |].
      + intros _ h ->. cbn [bind act]. split.
        { intros me σ E. right. split; [split; [done|]; cbn; eauto|]. unfold a_park in E. by destruct (decide _). }
        split. { intros me b σ x σ'. unfold a_park. destruct b; [intros [= _ <-]; apply cs_tmono, cs_refl|]. destruct (decide _); [|done]. intros [= _ <-]. apply cs_tmono, cs_tok. }
        intros H me b σ [] σ' LN Hj Hj' G Em E. exists (HD CN (PC (th tb) key id) kk). split.
        { assert (T : csame σ σ' ∧ (∀ t, pkr σ' t = pkr σ t) ∧ ∀ i, i ≠ me → i ∈ tokens σ → i ∈ tokens σ').
          { unfold a_park in E. destruct b; [injection E as <-; split_and!; [apply cs_refl|done|done]|]. destruct (decide _); [|done]. injection E as <-. split_and!; [apply cs_tok|done|].
            intros i Ni Hi. cbn. apply elem_of_list_In, filter_In. split; [by apply elem_of_list_In|]. apply negb_true_iff, Nat.eqb_neq. done. }
          destruct T as (T1 & T2 & T3). replace CN with (hc (H me)) by by rewrite Em. replace kk with (hk (H me)) by by rewrite Em.
          eapply (gl_pt H σ); [done|done|done|done|done|..]; rewrite ?Em; cbn [hp hc hk cb kno rid]; try vac; try done.
          - intros t1 key1 id1 [X|X]; [done|]. injection X as <- <- <-. right. by left. }
        clear LN Hj Hj' G Em E H me b σ σ'. cbn [bind act].
        split; [intros me σ E; exfalso; revert E; apply nb_table; done|]. split; [intros me b σ x σ' E; eapply tm_table; [exact E|]; intros t _ E'; injection E' as _ <-; apply cs_refl|].
        intros H me b σ x σ' LN Hj Hj' G Em E. apply wt_ok in E as (t & Et & E). injection E as Ex <-.
        assert (PK : thrs σ (th tb) = pk_threads (t_parker t)) by (unfold thrs; by rewrite (tfld_eq _ _ _ _ _ Et : pkr σ (th tb) = _)).
        destruct x.
        * exists (HD CN (PT (th tb) key id) kk). split; [|by cbn [dm]]. apply existsb_exists in Ex as (y & Hy & Ey). apply bool_decide_eq_true in Ey as [Y1 Y2]. apply elem_of_list_In in Hy. rewrite <- PK in Hy.
          pose proof G as (GC & GP & GK). destruct (gp_un _ _ _ GP me (th tb) key id) as [_ Un]; [by rewrite Em|]. pose proof (Un y Hy Y2) as ->.
          replace CN with (hc (H me)) by by rewrite Em. replace kk with (hk (H me)) by by rewrite Em.
          eapply (gl_pt H σ); [done|done|done|apply cs_refl|done|..]; rewrite ?Em; cbn [hp hc hk cb kno rid]; try vac; try done.
          -- intros t1 key1 id1 [X|X]; [done|]. injection X as <- <- <-. by left.
          -- intros t1 key1 id1 [X|X]; [|done]. injection X as <- <- <-. right. by right.
        * exists (HD CN KN kk). split; [|by cbn [dm]].
          replace CN with (hc (H me)) by by rewrite Em. replace kk with (hk (H me)) by by rewrite Em.
          eapply (gl_pt H σ); [done|done|done|apply cs_refl|done|..]; rewrite ?Em; cbn [hp hc hk cb kno rid]; try vac; try done.
      + intros [] h ->. cbn [bind act]. apply dm_plain; [done|]. intros c2. destruct (negb c2); by cbn [dm].
    - (* the condition has changed: remove the registration *)
      clear Cd. exists (HD CN (PR (th tb) key id) kk). split. { rewrite <- Em. apply (gl_same (K:=K) cfg N Lf H σ me σ LN Hj G), us_refl. }
      clear LN Hj Hj' G Em H me b σ. cbn [bind act].
      split; [intros me σ E; exfalso; revert E; apply nb_table; done|]. split; [intros me b σ x σ' E; eapply tm_table; [exact E|]; intros t Et E'; cbn zeta in E'; injection E' as _ <-; by apply cs_pk|].
      intros H me b σ x σ' LN Hj Hj' G Em E. apply wt_ok in E as (t & Et & E). cbn zeta in E. injection E as Ex <-.
      assert (PK : thrs σ (th tb) = pk_threads (t_parker t)) by (unfold thrs; by rewrite (tfld_eq _ _ _ _ _ Et : pkr σ (th tb) = _)).
      pose proof G as (GC & GP & GK). destruct (gp_un _ _ _ GP me (th tb) key id) as [_ Un]; [by rewrite Em|].
      set (rest := List.filter (λ x, negb (bool_decide (x.1.1 = key ∧ x.1.2 = id))) (pk_threads (t_parker t))).
      assert (Mr : ∀ y, y ∈ rest → y ∈ pk_threads (t_parker t)) by (intros y Hy; apply elem_of_list_In, filter_In in Hy as [Hy _]; by apply elem_of_list_In).
      assert (Mo : ∀ y, y ∈ pk_threads (t_parker t) → y.2 ≠ me → y ∈ rest).
      { intros y Hy Ny. apply elem_of_list_In, filter_In. split; [by apply elem_of_list_In|]. apply negb_true_iff, bool_decide_eq_false. intros [_ Y2]. rewrite <- PK in Hy. rewrite (Un y Hy Y2) in Ny. done. }
      assert (Ln : length rest + (if x then 1 else 0) ≤ length (pk_threads (t_parker t))).
      { subst x. unfold rest. clear. induction (pk_threads (t_parker t)) as [|y l IH]; cbn; [done|]. destruct (bool_decide _); cbn in *; [|destruct (existsb _ _); lia]. destruct (existsb _ _); lia. }
      assert (GG : ∀ p', p' = (if x then PX (th tb) key else KN) →
        gl (hst H me (HD CN p' kk)) (upd_table (th tb) (t_set_parker (Parker (pk_pending (t_parker t)) (pk_count (t_parker t)) rest) t) σ)).
      { intros p' ->. replace CN with (hc (H me)) by by rewrite Em. replace kk with (hk (H me)) by by rewrite Em.
        eapply (gl_pk H σ); [done|done|done|done|..]; rewrite ?Em; cbn [hp hc hk pk_count pk_threads pk_pending cb kno rid].
        - by destruct x.
        - done.
        - intros y Hy. left. by apply Mr.
        - by destruct x.
        - by destruct x.
        - destruct x; cbn [cb]; [rewrite decide_True by done|]; lia.
        - intros y Ny. destruct x; cbn [cb]; [by rewrite decide_False|done].
        - intros y Hy Ny. left. by apply Mo.
        - done.
        - intros t1 key1 id1 [X|X]; by destruct x.
        - done.
        - intros. by destruct x. }
      destruct x.
      + exists (HD CN (PX (th tb) key) kk). split; [by apply GG|]. clear. cbn [bind act].
        split; [intros me σ E; exfalso; revert E; apply nb_table; done|]. split; [intros me b σ x σ' E; eapply tm_table; [exact E|]; intros t Et E'; cbn zeta in E'; injection E' as _ <-; by apply cs_pk|].
        intros H me b σ x σ' LN Hj Hj' G Em E. apply wt_ok in E as (t & Et & E). cbn zeta in E. injection E as <- <-.
        exists (HD CN KN kk). split; [|by cbn [dm]].
        replace CN with (hc (H me)) by by rewrite Em. replace kk with (hk (H me)) by by rewrite Em.
        eapply (gl_pk H σ); [done|done|done|done|..]; rewrite ?Em; cbn [hp hc hk pk_count pk_threads pk_pending cb kno rid]; try vac.
        * by left.
        * rewrite decide_True by done. lia.
        * intros y Ny. by rewrite decide_False.
        * by left.
      + exists (HD CN KN kk). split; [by apply GG|]. by cbn [dm].
  Qed.
End dead.
