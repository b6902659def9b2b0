(** Threads of the machine: idle, running, and the completion of an operation. *)
From Verif Require Export IncMach4.

Lemma alter_none {A} (f : A → A) j (l : list A) : l !! j = None → alter f j l = l.
Proof.
  intros E. apply list_eq. intros m. destruct (decide (m = j)) as [->|N]; [by rewrite list_lookup_alter, E|by rewrite list_lookup_alter_ne].
Qed.
Lemma lookup_alter_at {A} (f : A → A) j (l : list A) x y : l !! j = Some x → alter f j l !! j = Some y → y = f x.
Proof. intros E. rewrite list_lookup_alter, E. by intros [= <-]. Qed.

Section thr.
  Context {K V : Type} {Keq : EqDecision K} (cfg : config K) (nthr nsh : nat).
  Notation op := (op K V). Notation hevent := (hevent K V). Notation world := (@world K V). Notation vres := (vres K V).
  Notation WI := (WI cfg nthr nsh). Notation lg w := (length (g_log (wg w))). Notation hpo w := (k_hp (wc w)).
  Implicit Types (H : list hevent) (w : world).
  Notation dat := (list (nat * nat)). Notation HI := (HI cfg). Notation rdrec := (@rdrec K V).
  Notation mv := (mv cfg nthr nsh). Notation itsok := (itsok cfg nthr nsh). Notation itok := (itok cfg nthr nsh).
  Notation TI := (TI cfg nthr nsh). Notation WP := (WP cfg nthr nsh). Notation opost := (opost cfg nthr nsh).

  Definition idle_ok (i : nat) (its : list iterst) w H D : Prop :=
    own i w None 0 ∧ (i ∉ pins w.1 → its = []) ∧ ∃ gs, itsok i w its gs ∧ itg H D i gs.
  Definition run_ok (i id : nat) (o : op) (p : prog K V (pres K V)) (its : list iterst) w H D : Prop :=
    TI i id o w ∧ ((∀ h j o' r v, H !! h ≠ Some (HRes j id o' r v)) ∧ ∀ h j o' why, H !! h ≠ Some (HPanic j id o' why)) ∧
    ∃ wi gs h0, itsok i wi its gs ∧ itg H D i gs ∧ H !! h0 = Some (HInv i id o) ∧ Lof D h0 = lg wi ∧ lastc i H = h0 ∧
      (∀ h, h ≤ length H → h0 ∉ iters_of i (take h H)) ∧
      WP i id o p (λ r w', mv i wi w' ∧ opost i id o w' (lg wi) its gs r) w.
  Definition thr_ok (i : nat) (ts : tstate K V) w H D : Prop :=
    match ts with
    | TState None its false => idle_ok i its w H D
    | TState (Some (id, o, p)) its false => run_ok i id o p its w H D
    | TState None _ true => True
    | TState (Some _) _ true => False
    end.

  Lemma st_itsok i w w' its gs : mv i w w' → itsok i w its gs → itsok i w' its gs.
  Proof. intros M [A B]. split; [done|]. intros j x g Hx Hg. eapply st_itok; [done|by eapply B]. Qed.
  Lemma wx_mv i x w w' : WI w → WI w' → wx i x w w' → mv i w w'.
  Proof. intros A B [C D E F G]. right. split_and!; auto. split; [|done|done]. intros y U. by eapply ext0_unused. Qed.

  Lemma itg_keep H D i gs e x : length D = length H → iters_of i (H ++ [e]) = iters_of i H →
    (∀ j id r k v, e ≠ HRes i id (OIterNext j) r (VNext (Some (k, v)))) → itg H D i gs → itg (H ++ [e]) (D ++ [x]) i gs.
  Proof.
    intros EL E1 N [A B]. split; [by rewrite E1|]. intros j g h0 Hg. rewrite E1. intros Hh.
    destruct (B j g h0 Hg Hh) as [B1 B2]. split.
    - rewrite Lof_app; [done|]. rewrite EL. apply elem_of_list_lookup_2 in Hh. by apply it_lt in Hh.
    - intros k. rewrite B2. split; intros (h & v & Y); exists h, v.
      { pose proof (yields_lt _ _ _ _ _ _ _ Y) as [? _]. by apply yields_app. }
      destruct (decide (h < length H)) as [L|L]; [by apply (proj1 (yields_app H e i j h0 h k v L))|].
      pose proof (yields_lt _ _ _ _ _ _ _ Y) as [L2 _]. rewrite app_length in L2. cbn in L2. assert (h = length H) by lia. subst h.
      apply yields_new in Y as [(id & r & ->) _]. by destruct (N j id r k v).
  Qed.

  (** Interference: a step of the environment (another thread, or the reclaimer). *)
  Lemma thr_env i ts w w' H D : WI w → WI w' → length D = length H → i < nthr →
    match ts_run ts with Some (id, _, _) => wx i id w w' | None => ∃ x, wx i x w w' end →
    thr_ok i ts w H D → thr_ok i ts w' H D.
  Proof.
    intros W W' EL Li X T. destruct ts as [[[[id o] p]|] its []]; cbn in *; [done| |done|].
    - destruct T as (T & NR & wi & gs & h0 & A1 & A2 & A3 & A4 & A5 & A6 & A7).
      assert (E : wext cfg nthr nsh i id w w') by (right; by split_and!).
      split; [eapply TI_mv; [done|done|by eapply wx_mv]|]. split; [done|]. exists wi, gs, h0. split_and!; try done.
      eapply wp_ext; [|exact A7|exact E]. intros. by eapply wext_trans.
    - destruct X as [x X]. pose proof (wx_mv _ _ _ _ W W' X) as M. destruct T as (O & P & gs & A & B). split; [|split].
      + destruct O as [O1 O2]. destruct X as [_ _ _ _ [R1 R2]]. split; congruence.
      + intros N. apply P. intros Hp. apply N. apply (xm_pin _ _ _ _ _ (wx_m _ _ _ _ X)). exact Hp.
      + exists gs. split; [by eapply st_itsok|done].
  Qed.
  (** Another thread adds an event to the history. *)
  Lemma thr_hist i ts w H D e x : length D = length H → ev_thr e ≠ i →
    match ts_run ts with Some (id, _, _) => (∀ j o r v, e ≠ HRes j id o r v) ∧ ∀ j o why, e ≠ HPanic j id o why | None => True end →
    thr_ok i ts w H D → thr_ok i ts w (H ++ [e]) (D ++ [x]).
  Proof.
    intros EL N NR T. destruct (it_other i H e N) as [E1 E2]. destruct ts as [[[[id o] p]|] its []]; cbn in *; [done| |done|].
    - destruct T as (T & NR' & wi & gs & h0 & A1 & A2 & A3 & A4 & A5 & A6 & A7). split; [done|]. split.
      { destruct NR as [NR1 NR2], NR' as [N1 N2]. split.
        - intros h j o' r v A. apply snoc_cases in A as [[LA1 A]|[-> A]]; [by apply N1 in A|by eapply NR1].
        - intros h j o' why A. apply snoc_cases in A as [[LA1 A]|[-> A]]; [by apply N2 in A|by eapply NR2]. }
      exists wi, gs, h0. pose proof (lookup_lt_Some _ _ _ A3) as L0. split; [done|]. split; [by apply itg_other|].
      split; [by apply lookup_app_l_Some|]. split; [rewrite Lof_app; [done|lia]|]. split; [by rewrite E2|]. split; [|done].
      intros h Lh. rewrite app_length in Lh. cbn in Lh. destruct (decide (h ≤ length H)) as [L|L].
      + rewrite take_app_le by done. by apply A6.
      + rewrite take_ge by (rewrite app_length; cbn; lia). rewrite E1. specialize (A6 (length H) ltac:(lia)). by rewrite take_ge in A6 by lia.
    - destruct T as (O & P & gs & A & B). split; [done|]. split; [done|]. exists gs. split; [done|by apply itg_other].
  Qed.

  Lemma key_multi (o : op) k : key_of o = Some k → multi o = false.
  Proof. by destruct o. Qed.
  Lemma callw_vm w n0 k c : WI w → callw w n0 k c → ∃ n, n0 ≤ n ∧ n ≤ lg w ∧ c = (λ x, (k, x)) <$> vm w n k.
  Proof.
    intros W. destruct c as [kv|]; cbn.
    - intros (p & Hp0 & Hw & Ek). destruct (wit_vm _ _ _ _ Hw) as (n & A & B & C). exists n. split; [done|]. split; [done|].
      rewrite C, (valp_hp _ _ _ Hp0). cbn. subst k. by destruct kv.
    - intros Hw. destruct (wit_vm _ _ _ _ Hw) as (n & A & B & C). exists n. split; [done|]. split; [done|]. by rewrite C.
  Qed.
  Lemma okw_vm (o : op) w n0 k : okw (λ kv, negb (keeps o kv.1 kv.2)) n0 k w → (∀ n p, rp n (g_log (wg w)) k = Some p → ky (wc w) p = Some k) →
    ∃ n, n0 ≤ n ∧ n ≤ lg w ∧ match vm w n k with None => True | Some x => keeps o k x = true end.
  Proof.
    intros [Hw|(p & kv & (n & A & B & E) & Hp0 & R)] KY.
    - destruct (wit_vm _ _ _ _ Hw) as (n & A & B & C). exists n. rewrite C. done.
    - exists n. split; [done|]. split; [done|]. unfold vm. rewrite E, (valp_hp _ _ _ Hp0).
      pose proof (KY n p E) as Hk. unfold ky in Hk. unfold hpw in Hp0. rewrite Hp0 in Hk. cbn in Hk. injection Hk as <-. by apply negb_false_iff in R.
  Qed.

  Lemma it_same i H (e : hevent) : (∀ id r v, e ≠ HRes i id OIter r v) → e ≠ HUnpin i → (∀ id o x, e ≠ HPanic i id o x) → iters_of i (H ++ [e]) = iters_of i H.
  Proof.
    intros A B C. unfold iters_of at 1. rewrite itf_snoc. destruct e as [j x o|j x o r v|j x o w|j|j]; cbn; [done| | |done|].
    - destruct o; cbn; try done. rewrite decide_False; [done|]. intros ->. by eapply A.
    - rewrite decide_False; [done|]. intros ->. by eapply C.
    - rewrite decide_False; [done|]. intros ->. by eapply B.
  Qed.
  Lemma it_iter i H id r v : iters_of i (H ++ [HRes i id OIter r v]) = iters_of i H ++ [lastc i H].
  Proof. unfold iters_of at 1. rewrite itf_snoc. cbn. by rewrite decide_True. Qed.

  (** The completion of an operation. *)
  Lemma finish_refs i id o r its w H D : run_ok i id o (Ret r) its w H D → ∀ p, p ∈ refs r → pro i w p.
  Proof. intros (T & _ & wi & gs & h0 & _ & _ & _ & _ & _ & _ & A7). by destruct (A7 w (wext_refl _ _ _ _ _ _) T) as [_ [_ [RF _]]]. Qed.
  Lemma finish_ok i id o r its w H D G : WI w → HI w H D G → run_ok i id o (Ret r) its w H D →
    ∃ v ex, to_vals o w.1 r = Some v ∧ evt_ok cfg w H D ex (HRes i id o r v) ∧
      ∀ x, idle_ok i (finish_iters r its) w (H ++ [HRes i id o r v]) (D ++ [x]).
  Proof.
    intros W I (T & NR & wi & gs & h0 & A1 & A2 & A3 & A4 & A5 & A6 & A7).
    destruct (A7 w (wext_refl _ _ _ _ _ _) T) as [M [O [RF P]]]. pose proof (hi_len _ _ _ _ _ I) as EL.
    assert (PIN : i ∈ pins w.1) by apply T. pose proof (st_itsok _ _ _ _ _ M A1) as A1'.
    assert (KY : ∀ k n p, rp n (g_log (wg w)) k = Some p → ky (wc w) p = Some k) by (intros; by eapply rp_ky).
    assert (IDLE : ∀ v, finish_iters r its = its → (∀ id' r' v', HRes i id o r v ≠ HRes i id' OIter r' v') →
      (∀ j id' r' k v', HRes i id o r v ≠ HRes i id' (OIterNext j) r' (VNext (Some (k, v')))) →
      ∀ x, idle_ok i (finish_iters r its) w (H ++ [HRes i id o r v]) (D ++ [x])).
    { intros v FI N1 N2 x. split; [done|]. split; [done|]. exists gs. rewrite FI. split; [done|]. apply itg_keep; [done| |done|done].
      apply it_same; done. }
    assert (RES0 : ∀ v, key_of o = None → (npub id w) →
      ((o = OClear ∨ ∃ f, o = ORetain f) → ∀ k, ∃ n, Lof D h0 ≤ n ∧ n ≤ lg w ∧ match vm w n k with None => True | Some x => keeps o k x = true end) →
      (∀ j, o ≠ OIterNext j) → evt_ok cfg w H D [] (HRes i id o r v)).
    { intros v Ek NP SW NN. split; [done|done|by left| | |].
      - intros ? ? ? ? ? [= <- <- <- <- <-]. split; [done|]. split; [by left|]. exists h0. split; [done|]. split; [done|]. rewrite Ek. split; [done|]. by split.
      - intros ? ? ? ? ? ? ? [= _ _ X _ _]. by apply NN in X.
      - intros ? ? ? ? ? [= _ _ X _ _]. by apply NN in X. }
    destruct (key_of o) as [k|] eqn:Ek.
    - destruct P as (v & TV & P & NC & CL & FI). 
      assert (NI : ∀ id' r' v', HRes i id o r v ≠ HRes i id' OIter r' v') by (intros ? ? ? [= _ X _ _]; by rewrite X in Ek).
      assert (NJ : ∀ i2 j id' r' v', HRes i id o r v ≠ HRes i2 id' (OIterNext j) r' v') by (intros ? ? ? ? ? [= _ _ X _ _]; by rewrite X in Ek).
      assert (MU : multi o = false) by (by eapply key_multi).
      assert (CLO : ∀ k', key_of o = Some k' → length (filter (λ c, c = None) (calls_of r)) ≤ 1 ∧
            ∀ c, c ∈ calls_of r → ∃ n, Lof D h0 ≤ n ∧ n ≤ lg w ∧ c = (λ x, (k', x)) <$> vm w n k').
      { intros k' Ek'. assert (k' = k) by congruence. subst k'. split; [exact NC|]. intros c Hc. rewrite A4. apply callw_vm; [done|by apply CL]. }
      assert (NSW : ¬ (o = OClear ∨ ∃ f, o = ORetain f)) by (intros [->|[f ->]]; done).
      destruct P as [(e & DW & Eke & SQ)|(CN & c & WT & SQ)].
      + exists v, []. split; [done|]. split; [|apply IDLE; [done|done|intros; apply NJ]]. split; [done|done|by left| | |].
        * intros ? ? ? ? ? [= <- <- <- <- <-]. split; [done|]. split; [right; split; [done|]; by exists e|]. exists h0. split; [done|]. split; [done|].
          split; [|split; [done|exact CLO]]. intros k' Ek'. left. destruct DW as [D1 D2]. apply elem_of_list_lookup in D1 as [n D1].
          exists n, e. split_and!; try done. congruence.
        * intros ? ? ? ? ? ? ? X. by apply NJ in X.
        * intros ? ? ? ? ? X. by apply NJ in X.
      + destruct (wit_vm _ _ _ _ WT) as (n & N1 & N2 & N3).
        exists v, [Rd id o v n]. split; [done|]. split; [|apply IDLE; [done|done|intros; apply NJ]]. split; [done|done|right; by eexists _, _, _, _, _, _| | |].
        * intros ? ? ? ? ? [= <- <- <- <- <-]. split; [done|]. split; [left; exact (proj2 CN)|]. exists h0. split; [done|].
          split; [|split; [|split; [done|exact CLO]]].
          -- intros n' [= <-]. split; [done|]. rewrite A4. split; [done|]. split; [done|]. exists k. split; [done|]. by rewrite N3.
          -- intros k' Ek'. right. by exists n.
        * intros ? ? ? ? ? ? ? X. by apply NJ in X.
        * intros ? ? ? ? ? X. by apply NJ in X.
    - assert (SWEEP : (∀ k, okw (λ kv, negb (keeps o kv.1 kv.2)) (lg wi) k w) → ∀ k, ∃ n, Lof D h0 ≤ n ∧ n ≤ lg w ∧ match vm w n k with None => True | Some x => keeps o k x = true end).
      { intros S k. rewrite A4. apply okw_vm; [done|by apply KY]. }
      destruct o; try done.
      + destruct P as (-> & NP & S). exists VUnit, []. split; [done|]. split; [|by apply IDLE]. apply RES0; auto.
      + destruct P as (-> & NP & S). exists VUnit, []. split; [done|]. split; [|by apply IDLE]. apply RES0; auto.
      + destruct P as (-> & CN). exists VUnit, []. split; [done|]. split; [|by apply IDLE]. apply RES0; auto; [exact (proj2 CN)|]. by intros [|[? ?]].
      + destruct P as ((n & ->) & CN). exists (VLen n), []. split; [done|]. split; [|by apply IDLE]. apply RES0; auto; [exact (proj2 CN)|]. by intros [|[? ?]].
      + destruct P as (CN & x & -> & IT). exists VIter, []. split; [done|]. split; [apply RES0; auto; [exact (proj2 CN)|]; by intros [|[? ?]]|].
        intros y. split; [done|]. split; [done|]. exists (gs ++ [(lg wi, [])]). destruct A1' as [B1 B2]. destruct A2 as [C1 C2]. split.
        * split; [cbn; rewrite !app_length, B1; done|]. cbn. intros j x' g Hx Hg.
          apply snoc_cases in Hx as [[L Hx]|[-> ->]].
          -- rewrite lookup_app_l in Hg by lia. by eapply B2.
          -- rewrite <- B1, list_lookup_middle in Hg by done. injection Hg as <-. exact IT.
        * split; [rewrite it_iter, !app_length, C1; done|]. intros j g h1 Hg. rewrite it_iter. intros Hh.
          apply snoc_cases in Hg as [[L Hg]|[-> ->]].
          -- rewrite lookup_app_l in Hh by lia. destruct (C2 j g h1 Hg Hh) as [B3 B4]. split.
             ++ rewrite Lof_app; [done|]. rewrite EL. apply elem_of_list_lookup_2 in Hh. by apply it_lt in Hh.
             ++ intros k. rewrite B4. split; intros (h & v & Y); exists h, v.
                { pose proof (yields_lt _ _ _ _ _ _ _ Y) as [? _]. by apply yields_app. }
                destruct (decide (h < length H)) as [L'|L']; [by apply (proj1 (yields_app _ _ _ _ _ _ _ _ L')) in Y|].
                pose proof (yields_lt _ _ _ _ _ _ _ Y) as [L2 _]. rewrite app_length in L2. cbn in L2. assert (h = length H) by lia. subst h.
                by apply yields_new in Y as [(id' & r' & ?) _].
          -- rewrite C1, list_lookup_middle in Hh by done. injection Hh as <-. pose proof (lookup_lt_Some _ _ _ A3) as L0. rewrite A5. split.
             ++ rewrite Lof_app by lia. cbn. lia.
             ++ intros k. cbn. split; [by intros ?%elem_of_nil|]. intros (h & v & (id' & r' & Y1 & Y2)). exfalso.
                pose proof (lookup_lt_Some _ _ _ Y1) as L. rewrite app_length in L. cbn in L.
                rewrite take_app_le in Y2 by lia. apply (A6 h); [lia|]. by eapply elem_of_list_lookup_2.
      + destruct P as (CN & i' & p & -> & P).
        assert (NPW : npub id w) by exact (proj2 CN).
        destruct A1' as [B1 B2]. destruct A2 as [C1 C2].
        destruct (its !! j) as [x|] eqn:Ex.
        2:{ assert (Eg : gs !! j = None) by (apply lookup_ge_None_2; apply lookup_ge_None_1 in Ex; rewrite B1; exact Ex).
            assert (Eh : iters_of i H !! j = None) by (apply lookup_ge_None_2; apply lookup_ge_None_1 in Eg; rewrite <- C1; exact Eg).
            rewrite ?Eg in P. subst p. exists (VNext None), []. split; [done|]. split.
            - split; [done|done|by left| | |].
              + intros ? ? ? ? ? [= <- <- <- <- <-]. split; [done|]. split; [by left|]. exists h0. split; [done|]. split; [done|]. rewrite Ek. split; [done|]. split; [|done]. by intros [|[? ?]].
              + intros ? ? ? ? ? ? ? [=].
              + intros ? ? ? ? ? [= <- _ <- _] Y. congruence.
            - apply IDLE; [|done|done]. by apply alter_none. }
        destruct (lookup_lt_is_Some_2 gs j) as [[n1 Y] Eg]; [apply lookup_lt_Some in Ex; rewrite B1; exact Ex|].
        destruct (lookup_lt_is_Some_2 (iters_of i H) j) as [h1 Eh]; [apply lookup_lt_Some in Eg; rewrite <- C1; exact Eg|].
        rewrite Eg in P. destruct (C2 j (n1, Y) h1 Eg Eh) as [C3 C4]. cbn in C3, C4.
        assert (RESJ : ∀ v, (∀ k v' h1', v = VNext (Some (k, v')) → iters_of i H !! j = Some h1' →
              (∃ n, Lof D h1' ≤ n ∧ n ≤ lg w ∧ vm w n k = Some v') ∧ ∀ h v', yields H i j h1' h k v' → ∃ m n, Lof D h1' ≤ m ∧ m ≤ n ∧ n ≤ lg w ∧ vm w m k ≠ None ∧ vm w n k = None) →
           (∀ h1', v = VNext None → iters_of i H !! j = Some h1' → ∀ k, (∃ h' v, yields H i j h1' h' k v) ∨ ∃ n, Lof D h1' ≤ n ∧ n ≤ lg w ∧ vm w n k = None) →
           evt_ok cfg w H D [] (HRes i id (OIterNext j) (PNext j i' p) v)).
        { intros v E1 E3. split; [done|done|by left| | |].
          - intros ? ? ? ? ? [= <- <- <- <- <-]. split; [done|]. split; [by left|]. exists h0. split; [done|]. split; [done|]. rewrite Ek. split; [done|]. split; [|done]. by intros [|[? ?]].
          - intros ? ? ? ? ? ? ? [= <- <- <- <- ->] Y'. by apply E1.
          - intros ? ? ? ? ? [= <- <- <- <- ->] Y'. by apply E3. }
        assert (ALT : ∀ g', itok i w g'.1 (x.1, i') g'.2 → itsok i w (alter (λ x : iterst, (x.1, i')) j its) (<[j := g']> gs)).
        { intros g' IT. split; [by rewrite insert_length, alter_length|]. intros m x' g Hx Hg. destruct (decide (m = j)) as [->|Nm].
          - apply (lookup_alter_at _ _ _ _ _ Ex) in Hx. subst x'. rewrite list_lookup_insert in Hg by (by eapply lookup_lt_Some). by injection Hg as <-.
          - rewrite list_lookup_alter_ne in Hx by done. rewrite list_lookup_insert_ne in Hg by done. by eapply B2. }
        assert (ES : ∀ v, iters_of i (H ++ [HRes i id (OIterNext j) (PNext j i' p) v]) = iters_of i H) by (intros; by apply it_same).
        destruct p as [p|].
        * destruct P as (k & v & Hp0 & PR & WT & DUP & IT). exists (VNext (Some (k, v))), []. split; [|split].
          -- cbn. by rewrite (rd_pro _ _ _ _ PR Hp0).
          -- apply RESJ; [|done]. intros k' v' h1' [= <- <-] Eh'. assert (h1' = h1) by congruence. subst h1'. split.
             ++ destruct (wit_vm _ _ _ _ WT) as (n & N1 & N2 & N3). exists n. split; [lia|]. split; [done|]. by rewrite N3, (valp_hp _ _ _ Hp0).
             ++ intros h v' Yd. destruct (DUP (proj2 (C4 k) (ex_intro _ h (ex_intro _ v' Yd)))) as (m & q & n & N1 & N2 & N3 & N4 & N5).
                exists m, n. split; [lia|]. split; [done|]. split; [done|]. unfold vm. rewrite N4, N5. split; [|done].
                assert (X : is_Some (ky (wc w) q)) by (rewrite (rp_ky cfg nthr nsh w m k q); [eauto|done|done]).
                unfold valp. change (snd <$> (k_hp (wc w) !! q) ≠ None). unfold ky in X. destruct (k_hp (wc w) !! q) as [kv|]; [done|]. by destruct X.
          -- intros y. split; [done|]. split; [done|]. exists (<[j := (n1, k :: Y)]> gs). split; [by apply ALT|].
             split; [by rewrite insert_length, ES|]. intros m g hm Hg. rewrite ES. intros Hm.
             assert (Lm : Lof (D ++ [y]) hm = Lof D hm) by (apply Lof_app; rewrite EL; by apply elem_of_list_lookup_2, it_lt in Hm). rewrite Lm.
             assert (YA : ∀ h k' v', h < length H → yields (H ++ [HRes i id (OIterNext j) (PNext j i' (Some p)) (VNext (Some (k, v)))]) i m hm h k' v' ↔ yields H i m hm h k' v') by (intros; by apply yields_app).
             destruct (decide (m = j)) as [->|Nm].
             ++ rewrite list_lookup_insert in Hg by (by eapply lookup_lt_Some). injection Hg as <-. assert (hm = h1) by congruence. subst hm. split; [done|].
                intros k'. cbn. rewrite elem_of_cons, C4. split.
                ** intros [->|(h & v' & Yd)].
                   --- exists (length H), v. apply yields_new. split; [by eexists _, _|done].
                   --- exists h, v'. pose proof (yields_lt _ _ _ _ _ _ _ Yd) as [? _]. by apply YA.
                ** intros (h & v' & Yd). destruct (decide (h < length H)) as [L'|L']; [right; exists h, v'; by apply YA|left].
                   pose proof (yields_lt _ _ _ _ _ _ _ Yd) as [L2 _]. rewrite app_length in L2. cbn in L2. assert (h = length H) by lia. subst h.
                   apply yields_new in Yd as [(id' & r' & X) _]. by injection X as _ _ ->.
             ++ rewrite list_lookup_insert_ne in Hg by done. destruct (C2 m g hm Hg Hm) as [C5 C6]. split; [done|]. intros k'. rewrite C6. split.
                ** intros (h & v' & Yd). exists h, v'. pose proof (yields_lt _ _ _ _ _ _ _ Yd) as [? _]. by apply YA.
                ** intros (h & v' & Yd). exists h, v'. destruct (decide (h < length H)) as [L'|L']; [by apply YA|].
                   pose proof (yields_lt _ _ _ _ _ _ _ Yd) as [L2 _]. rewrite app_length in L2. cbn in L2. assert (h = length H) by lia. subst h.
                   apply yields_new in Yd as [(id' & r' & X) _]. injection X as X1 X2 X3. congruence.
        * destruct P as (IT & ALL). exists (VNext None), []. split; [done|]. split.
          -- apply RESJ; [done|]. intros h1' _ Eh' k. assert (h1' = h1) by congruence. subst h1'. destruct (ALL k) as [HY|WT]; [left; by apply C4|right].
             destruct (wit_vm _ _ _ _ WT) as (n & N1 & N2 & N3). exists n. split; [lia|done].
          -- intros y. split; [done|]. split; [done|]. exists gs. split.
             ++ specialize (ALT (n1, Y) IT). by rewrite list_insert_id in ALT.
             ++ apply itg_keep; [done|by apply ES|done|]. by split.
  Qed.
End thr.
