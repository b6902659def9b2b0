(** Every step of the map preserves the world invariant and respects the rely of the other threads. *)
From Verif Require Export IncWorld.

Lemma lookup_snoc_inv {A} (l : list A) x n y : (l ++ [x]) !! n = Some y → l !! n = Some y ∨ (n = length l ∧ y = x).
Proof.
  intros H. apply lookup_app_Some in H as [|[L H]]; [auto|]. right.
  destruct (n - length l) as [|z] eqn:X; [|done]. cbn in H. injection H as <-. split; [lia|done].
Qed.

Section zsum.
  Lemma zsum_app l l' : zsum (l ++ l') = (zsum l + zsum l')%Z.
  Proof. induction l as [|x l IH]; [done|]. change (zsum ((x :: l) ++ l')) with (x + zsum (l ++ l'))%Z.
    change (zsum (x :: l)) with (x + zsum l)%Z. rewrite IH. lia. Qed.
  Lemma zsum_alter l i d : i < length l → zsum (alter (λ c, c + d)%Z i l) = (zsum l + d)%Z.
  Proof.
    revert i. induction l as [|x l IH]; intros i H; cbn in H; [lia|]. destruct i as [|i].
    - change ((x + d) + zsum l = x + zsum l + d)%Z. lia.
    - change (x + zsum (alter (λ c, (c + d)%Z) i l) = x + zsum l + d)%Z. rewrite IH by lia. lia.
  Qed.
  Lemma zsum_upd1 f n me z : me < n → zsum (map (upd1 f me z) (seq 0 n)) = (zsum (map f (seq 0 n)) + (z - f me))%Z.
  Proof.
    induction n as [|n IH]; intros H; [lia|]. rewrite seq_S, !map_app, !zsum_app. cbn [map Nat.add].
    change (zsum [upd1 f me z n]) with (upd1 f me z n + 0)%Z. change (zsum [f n]) with (f n + 0)%Z.
    destruct (decide (me = n)) as [->|N].
    - rewrite upd1_eq. assert (E : map (upd1 f n z) (seq 0 n) = map f (seq 0 n)).
      { apply map_ext_in. intros j Hj. apply in_seq in Hj. apply upd1_ne. lia. }
      rewrite E. lia.
    - rewrite IH by lia. rewrite upd1_ne by congruence. lia.
  Qed.
End zsum.

Section lift.
  Context {K V : Type} {Keq : EqDecision K} (cfg : config K) (nthr nsh : nat).
  Notation core := (core K V). Notation ghost := (@ghost K). Notation event := (event K).
  Notation Inv := (Inv cfg). Notation WI := (WI cfg nthr nsh). Notation world := (@world K V). Notation rghost := (@rghost K V).
  Notation fr := (fr cfg nthr nsh). Notation fx := (fx cfg nthr nsh). Notation mv := (mv cfg nthr nsh).
  Notation CT := (CT nthr nsh).

  (** ** Operations and events *)
  Lemma evok_eq (h h' : list (K * V)) o (e : event) :
    (∀ p, ev_old e = Some p → h' !! p = h !! p) → (∀ p, ev_new e = Some p → h' !! p = h !! p) →
    evok h o e → evok h' o e.
  Proof.
    intros A B. assert (E1 : ev_old e ≫= (λ p, h' !! p) = ev_old e ≫= (λ p, h !! p)) by (destruct (ev_old e); cbn; auto).
    assert (E2 : ev_new e ≫= (λ p, h' !! p) = ev_new e ≫= (λ p, h !! p)) by (destruct (ev_new e); cbn; auto).
    unfold evok. cbv zeta. by rewrite E1, E2.
  Qed.
  Lemma evok_prefix (c c' : core) o (e : event) : k_hp c `prefix_of` k_hp c' →
    (∀ p, ev_old e = Some p → is_Some (ky c p)) → (∀ p, ev_new e = Some p → is_Some (ky c p)) →
    evok (k_hp c) o e → evok (k_hp c') o e.
  Proof.
    intros P A B. assert (X : ∀ p, is_Some (ky c p) → k_hp c' !! p = k_hp c !! p).
    { intros p [k Hk]. unfold ky in Hk. destruct (k_hp c !! p) eqn:E; [|done]. by eapply prefix_lookup. }
    apply evok_eq; auto.
  Qed.

  Lemma EO_hp (c c' : core) γ γ' ops : (∀ e p, e ∈ g_log γ → ev_new e = Some p → is_Some (ky c p)) → EO c γ ops → k_hp c `prefix_of` k_hp c' → g_log γ' = g_log γ → g_pub γ' = g_pub γ → EO c' γ' ops.
  Proof.
    intros I E P EL EP. split; rewrite ?EL, ?EP; try apply E.
    - intros e H. destruct (eo_ev _ _ _ E e H) as (o & Ho & He). exists o. split; [done|]. eapply evok_prefix; eauto.
      intros p Hp0. rewrite (eo_old _ _ _ E e p H Hp0). eauto.
    - intros e p H H1. eapply ky_prefix; eauto. by apply E.
    - intros p i h H. destruct (eo_pub _ _ _ E p i h H) as (o & k & A & B & C). exists o, k. split; [done|].
      split; [by eapply ky_prefix|]. eapply evok_prefix; eauto; cbn; [done|]. intros ? [= <-]. rewrite B. eauto.
  Qed.

  (** Adding linearization events of published entries. *)
  Lemma EO_pubevs (c : core) γ γ' ops l : Inv c γ → EO c γ ops → g_log γ' = g_log γ ++ l → g_pub γ' = g_pub γ →
    pubevs γ l → (∀ e p, e ∈ l → ev_new e = Some p → ky c p = Some (ev_key e)) →
    (∀ n n' e e' p, g_log γ' !! n = Some e → g_log γ' !! n' = Some e' → ev_new e = Some p → ev_new e' = Some p → n = n') →
    EO c γ' ops.
  Proof.
    intros I E EL EP PE KE NW.
    assert (LIN : ∀ e, e ∈ l → ∃ p h, ev_new e = Some p ∧ g_pub γ !! p = Some (ev_op e, h) ∧ ¬ lin (g_log γ) p) by (intros e He; by apply PE).
    split; rewrite ?EP; try apply E.
    - rewrite EL. intros e [H|H]%elem_of_app; [by apply E|]. destruct (PE e H) as (O & p & h & N & P & NL).
      destruct h as [h|]; [|by destruct NL; eapply (i_home_upd _ _ _ I)].
      destruct (eo_pub _ _ _ E _ _ _ P) as (o & k & Ho & Hk & Ev0). exists o. split; [done|].
      pose proof (KE e p H N) as Hk'. destruct e as [ke oe olde newe]. cbn in *. subst. assert (ke = k) by congruence. by subst.
    - rewrite EL. intros e p [H|H]%elem_of_app Ho; [by eapply E|]. destruct (PE e H) as (O & _). congruence.
    - intros n n' e e' o H1 H2 Eo Ho M.
      assert (CASE : ∀ n e, g_log γ' !! n = Some e → g_log γ !! n = Some e ∨ e ∈ l).
      { intros m x Hm. rewrite EL in Hm. destruct (decide (m < length (g_log γ))) as [L|L].
        - left. by rewrite lookup_app_l in Hm.
        - right. rewrite lookup_app_r in Hm by lia. by eapply elem_of_list_lookup_2. }
      destruct (CASE _ _ H1) as [A|A]; destruct (CASE _ _ H2) as [B|B].
      + by eapply (eo_uniq _ _ _ E).
      + exfalso. destruct (LIN _ B) as (p & h & N & P & NL). apply NL. exists e. split; [by eapply elem_of_list_lookup_2|].
        eapply (eo_pubev _ _ _ E); eauto. by eapply elem_of_list_lookup_2.
      + exfalso. destruct (LIN _ A) as (p & h & N & P & NL). apply NL. exists e'. split; [by eapply elem_of_list_lookup_2|].
        eapply (eo_pubev _ _ _ E); eauto. by eapply elem_of_list_lookup_2.
      + destruct (LIN _ A) as (p & h & N & P & NL). destruct (LIN _ B) as (p' & h' & N' & P' & NL'). rewrite <- Eo in P'.
        assert (p = p') by (by eapply (eo_pub1 _ _ _ E)). subst. by eapply NW.
    - intros p i h e P H Eo. rewrite EL in H. apply elem_of_app in H as [H|H]; [by eapply (eo_pubev _ _ _ E)|].
      destruct (LIN _ H) as (p' & h' & N & P' & NL). rewrite Eo in P'. assert (p = p') by (by eapply (eo_pub1 _ _ _ E)). by subst.
    - intros p i h e P H Eo. rewrite EL in H. apply elem_of_app in H as [H|H]; [by eapply (eo_ins _ _ _ E)|]. by apply PE.
    - intros p i e P H Eo. rewrite EL in H. apply elem_of_app in H as [H|H]; [by eapply (eo_upd _ _ _ E)|].
      destruct (LIN _ H) as (p' & h' & N & P' & NL). rewrite Eo in P'. assert (p = p') by (by eapply (eo_pub1 _ _ _ E)). subst.
      destruct NL. by eapply (i_home_upd _ _ _ I).
  Qed.

  (** The operation's own event. *)
  Lemma EO_event (c : core) γ γ' ops e o : EO c γ ops → g_log γ' = g_log γ ++ [e] →
    (g_pub γ' = g_pub γ ∧ (∀ p h, g_pub γ !! p ≠ Some (ev_op e, h)) ∨
     g_pub γ' = g_pub γ ++ [(ev_op e, None)] ∧ (∀ p h, g_pub γ !! p ≠ Some (ev_op e, h)) ∧ ev_new e = Some (length (g_pub γ)) ∧ is_Some (ev_old e) ∧
       (∀ e', e' ∈ g_log γ → ev_op e' ≠ ev_op e)) →
    ops !! ev_op e = Some o → evok (k_hp c) o e → (∀ p, ev_old e = Some p → ky c p = Some (ev_key e)) →
    (multi o = true ∨ ∀ e', e' ∈ g_log γ → ev_op e' ≠ ev_op e) → EO c γ' ops.
  Proof.
    intros E EL EP Ho Hev Hold Hm.
    assert (PUB : ∀ p i h, g_pub γ' !! p = Some (i, h) → g_pub γ !! p = Some (i, h) ∨ (p = length (g_pub γ) ∧ i = ev_op e ∧ h = None ∧ ev_new e = Some p ∧ ∀ e', e' ∈ g_log γ → ev_op e' ≠ ev_op e)).
    { intros p i h H. destruct EP as [[EP _]|(EP & _ & N & _ & U)]; rewrite EP in H; [auto|].
      apply lookup_snoc_inv in H as [H|[-> [= -> ->]]]; auto 10. }
    assert (NP : ∀ p h, g_pub γ !! p ≠ Some (ev_op e, h)) by (destruct EP as [[_ ?]|(_ & ? & _)]; auto).
    split.
    - rewrite EL. intros e' [H|H]%elem_of_app; [by apply E|]. apply elem_of_list_singleton in H as ->. eauto.
    - rewrite EL. intros e' p [H|H]%elem_of_app; [by apply E|]. apply elem_of_list_singleton in H as ->. auto.
    - intros p i h H. apply PUB in H as [H|(_ & _ & H & _)]; [by eapply E|done].
    - intros p i h H. apply PUB in H as [H|(_ & -> & _ & _)]; [by eapply E|by eapply lookup_lt_Some].
    - rewrite EL. intros n n' e1 e2 o' H1 H2 Eo Ho' M.
      assert (CASE : ∀ n x, (g_log γ ++ [e]) !! n = Some x → g_log γ !! n = Some x ∨ (n = length (g_log γ) ∧ x = e)).
      { intros m x Hm0. by apply lookup_snoc_inv. }
      destruct (CASE _ _ H1) as [A|[-> ->]]; destruct (CASE _ _ H2) as [B|[-> ->]].
      + by eapply (eo_uniq _ _ _ E).
      + exfalso. rewrite Eo in Ho'. destruct Hm as [Hm|Hm]; [congruence|]. apply (Hm e1); [by eapply elem_of_list_lookup_2|done].
      + exfalso. destruct Hm as [Hm|Hm]; [congruence|]. apply (Hm e2); [by eapply elem_of_list_lookup_2|done].
      + done.
    - intros p p' i h h' H1 H2. apply PUB in H1 as [H1|(-> & -> & _ & _)]; apply PUB in H2 as [H2|(-> & E2 & _ & _)].
      + by eapply (eo_pub1 _ _ _ E).
      + subst. by apply NP in H1.
      + by apply NP in H2.
      + done.
    - rewrite EL. intros p i h e' H1 [H|H]%elem_of_app Eo.
      + apply PUB in H1 as [H1|(-> & -> & _ & _ & U)]; [by eapply (eo_pubev _ _ _ E)|]. by apply U in H.
      + apply elem_of_list_singleton in H as ->. apply PUB in H1 as [H1|(-> & -> & _ & N & _)]; [|done]. subst. by apply NP in H1.
    - rewrite EL. intros p i h e' H1 H Eo. apply PUB in H1 as [H1|(_ & _ & [=] & _)]. apply elem_of_app in H as [H|H]; [by eapply (eo_ins _ _ _ E)|].
      apply elem_of_list_singleton in H as ->. subst. by apply NP in H1.
    - rewrite EL. intros p i e' H1 H Eo. apply elem_of_app in H as [H|H].
      + apply PUB in H1 as [H1|(-> & -> & _ & _ & U)]; [by eapply (eo_upd _ _ _ E)|]. by apply U in H.
      + apply elem_of_list_singleton in H as ->. destruct EP as [[EP _]|(_ & _ & _ & X & _)]; [|done]. rewrite EP in H1. subst. by apply NP in H1.
  Qed.

  (** A published insertion. *)
  Lemma EO_publish (c : core) γ γ' ops opid h k o : EO c γ ops → g_log γ' = g_log γ → g_pub γ' = g_pub γ ++ [(opid, Some h)] →
    unused γ opid → ops !! opid = Some o → ky c (length (g_pub γ)) = Some k →
    evok (k_hp c) o (Ev k opid None (Some (length (g_pub γ)))) → EO c γ' ops.
  Proof.
    intros E EL EP [U1 U2] Ho Hk Hev.
    assert (PUB : ∀ p i x, g_pub γ' !! p = Some (i, x) → g_pub γ !! p = Some (i, x) ∨ (p = length (g_pub γ) ∧ i = opid ∧ x = Some h)).
    { intros p i x H. rewrite EP in H.
      apply lookup_snoc_inv in H as [H|[-> [= -> ->]]]; auto. }
    split; rewrite ?EL; try apply E.
    - intros p i x H. apply PUB in H as [H|(-> & -> & [= <-])]; [by eapply E|]. eauto.
    - intros p i x H. apply PUB in H as [H|(-> & -> & _)]; [by eapply E|by eapply lookup_lt_Some].
    - intros p p' i x x' H1 H2. apply PUB in H1 as [H1|(-> & -> & _)]; apply PUB in H2 as [H2|(-> & E2 & _)].
      + by eapply (eo_pub1 _ _ _ E).
      + subst. by apply U2 in H1.
      + by apply U2 in H2.
      + done.
    - intros p i x e H1 H Eo. apply PUB in H1 as [H1|(-> & -> & _)]; [by eapply (eo_pubev _ _ _ E)|]. by apply U1 in H.
    - intros p i x e H1 H Eo. apply PUB in H1 as [H1|(-> & -> & _)]; [by eapply (eo_ins _ _ _ E)|]. by apply U1 in H.
    - intros p i e H1 H Eo. apply PUB in H1 as [H1|(-> & -> & _)]; [by eapply (eo_upd _ _ _ E)|]. by apply U1 in H.
  Qed.

  (** ** Reclamation *)
  (** Tables are not given up once they were the root, and those given up stay so. *)
  Definition alx (c c' : core) : Prop := (∀ t, al c' t → al c t) ∧ (∀ t, t ≤ rt c → al c t → al c' t).
  Lemma ext0_alx o (c : core) γ c' γ' : ext0 o c γ c' γ' → alx c c'.
  Proof. intros X. split; [apply X|apply X]. Qed.
  Lemma RR_core (c c' : core) γ γ' ρ d : RR c γ ρ d → nt c' = nt c → rt c' = rt c → alx c c' → (∀ p, gone γ' p ↔ gone γ p) →
    (∀ t i p, Hp c' t i p → gone γ p → al c' t ∨ rt c ≤ t → Hp c t i p) →
    (∀ me t i p, me ∈ d_pins d → r_base ρ me ≤ t → Hp c' t i p → prot me d p) → RR c' γ' ρ d.
  Proof.
    intros R En Er [A1 A2] G H P. split; rewrite ?En, ?Er; try apply R; try done.
    - intros t L A. apply (rr_tall _ _ _ _ R); auto.
    - intros p X. apply (rr_eever _ _ _ _ R) in X as [A B]. split; [by apply G|]. intros t i L X. eapply B, H; eauto.
    - intros me p X. apply (rr_eown _ _ _ _ R) in X as [A B]. split; [by apply G|done].
    - intros t p X. apply (rr_edef _ _ _ _ R) in X as (A & B & C). split; [by apply G|]. split; [done|]. intros t' i L Al X. eapply C, H; eauto.
    - intros p X. by apply (rr_eall _ _ _ _ R), G.
    - intros me X. destruct (rr_base _ _ _ _ R me X). split; auto.
  Qed.
  Lemma RR_own (c c' : core) γ γ' ρ ρ' d me p0 : RR c γ ρ d → nt c' = nt c → rt c' = rt c → alx c c' → (∀ p, gone γ' p ↔ gone γ p ∨ p = p0) →
    ¬ gone γ p0 → r_own ρ me = None → r_base ρ' = r_base ρ → r_own ρ' = upd1 (r_own ρ) me (Some (REntry p0)) →
    (∀ t i p, Hp c' t i p → gone γ p → al c' t ∨ rt c ≤ t → Hp c t i p) →
    (∀ me t i p, me ∈ d_pins d → r_base ρ me ≤ t → Hp c' t i p → prot me d p) → RR c' γ' ρ' d.
  Proof.
    intros R En Er [A1 A2] G N0 O0 EB EO' H P.
    assert (OWN : ∀ me' x, r_own ρ' me' = Some x → (me' = me ∧ x = REntry p0) ∨ (me' ≠ me ∧ r_own ρ me' = Some x)).
    { intros me' x X. rewrite EO' in X. destruct (decide (me' = me)) as [->|N]; [rewrite upd1_eq in X; left; split; congruence|].
      rewrite upd1_ne in X by done. auto. }
    assert (OWN' : ∀ me' x, r_own ρ me' = Some x → r_own ρ' me' = Some x).
    { intros me' x X. rewrite EO'. rewrite upd1_ne; [done|]. intros ->. congruence. }
    assert (GP : ∀ p, gone γ p → p ≠ p0) by (intros p X ->; done).
    split; rewrite ?En, ?Er, ?EB; try apply R; try done.
    - intros me' t X. apply OWN in X as [[_ ?]|[_ X]]; [done|]. by eapply R.
    - intros me' me'' x X Y. apply OWN in X as [[-> ->]|[N X]]; apply OWN in Y as [[-> E]|[N' Y]].
      + done.
      + apply (rr_eown _ _ _ _ R) in Y as [Y _]. done.
      + subst. apply (rr_eown _ _ _ _ R) in X as [X _]. done.
      + by eapply R.
    - intros t L Al. destruct (rr_tall _ _ _ _ R t L (A1 _ Al)) as [|(me' & X)]; [auto|right]. eauto.
    - intros p X. apply (rr_eever _ _ _ _ R) in X as [A B]. split; [apply G; auto|]. intros t i L X. eapply B, H; eauto.
    - intros me' p X. apply OWN in X as [[-> [= ->]]|[N X]].
      + split; [apply G; auto|]. split; [intros X; by apply (rr_eever _ _ _ _ R) in X as [X _]|].
        intros t X. by apply (rr_edef _ _ _ _ R) in X as [X _].
      + apply (rr_eown _ _ _ _ R) in X as [A B]. split; [apply G; auto|done].
    - intros t p X. apply (rr_edef _ _ _ _ R) in X as (A & B & C). split; [apply G; auto|]. split; [done|]. intros t' i L Al X. eapply C, H; eauto.
    - intros p X. apply G in X as [X| ->].
      + destruct (rr_eall _ _ _ _ R p X) as [|[(me' & Y)|]]; [auto| |auto]. right. left. eauto.
      + right. left. exists me. rewrite EO'. by rewrite upd1_eq.
    - intros me' X. destruct (rr_base _ _ _ _ R me' X). split; auto.
  Qed.

  Lemma prot_new (c : core) γ ρ d me p : RR c γ ρ d → ¬ gone γ p → prot me d p.
  Proof.
    intros R N. split.
    - intros X. apply (rr_efr _ _ _ _ R) in X. by apply (rr_eever _ _ _ _ R) in X as [X _].
    - intros it X E. apply (rr_ret _ _ _ _ R) in X as [X _]. rewrite E in X. by apply (rr_eever _ _ _ _ R) in X as [X _].
  Qed.
  Lemma gone_pubevs (γ γ' : ghost) l p : g_log γ' = g_log γ ++ l → pubevs γ l → gone γ' p ↔ gone γ p.
  Proof.
    intros E P. unfold gone. rewrite E, goneL_app. split; [|auto]. intros [|(e & H & X)]; [done|]. destruct (P e H) as [O _]. congruence.
  Qed.
  Lemma n_rem_pubevs (γ γ' : ghost) l : g_log γ' = g_log γ ++ l → pubevs γ l → n_rem γ' = n_rem γ.
  Proof.
    intros E P. unfold n_rem. rewrite E, stdpp.list.filter_app, app_length.
    assert (X : filter (λ e : event, ev_new e = None) l = []).
    { clear E. induction l as [|e l IH]; [done|]. rewrite filter_cons_False.
      - apply IH. intros e' H. apply P. by right.
      - destruct (P e) as (_ & p & h & N & _); [by left|]. congruence. }
    rewrite X. cbn. lia.
  Qed.

  (** ** Effects on readers *)
  Lemma extl_live_old (c : core) γ c' γ' o i p k : Inv c γ → Inv c' γ' → ext0 o c γ c' γ' →
    ¬ CD c (rt c) i ∨ ¬ Mt c (rt c) i → Hp c (rt c) i p → Mt c' (rt c) i ∨ rt c < rt c' → ky c' p = Some k →
    ∃ n, length (g_log γ) ≤ n ∧ n ≤ length (g_log γ') ∧ rp n (g_log γ') k = Some p.
  Proof.
    intros I I' X Hor H M' Hk'. pose proof (x_log _ _ _ _ _ X) as PL.
    destruct (HK_get _ _ _ _ _ _ I H) as [k1 Hk]. pose proof (st_ky _ _ _ _ _ X _ _ Hk). assert (k1 = k) by congruence. subst k1.
    destruct (Mt_dec c (rt c) i) as [M|M].
    - destruct Hor as [D|]; [|done]. exists (length (g_log γ)). split; [done|]. split; [by apply prefix_length|].
      rewrite (rp_prefix_len _ _ _ PL). eapply (present_visible cfg _ _ I (rt c) i p k); auto. apply visited_root; [done|]. by eapply al_rt.
    - destruct (root_hidden _ _ _ I i p H M) as (NL & o1 & Ho).
      pose proof (prefix_lookup _ _ _ _ Ho (x_pub _ _ _ _ _ X)) as Ho'.
      assert (LL : lin (g_log γ') p).
      { destruct M' as [M'|M']; [by eapply (M_lin cfg _ _ I')|by eapply (i_home_low _ _ _ I')]. }
      eapply lin_between; eauto. intros e He Hn. destruct (i_evkey _ _ _ I' e p He Hn) as [E _]. congruence.
  Qed.

  Lemma CT_same (γ γ' : ghost) (ρ : rghost) d : CT γ ρ d → g_pub γ' = g_pub γ → n_rem γ' = n_rem γ → CT γ' ρ d.
  Proof. intros [A B] E1 E2. split; [done|]. rewrite B, E2. unfold n_ins. by rewrite E1. Qed.

  (** ** Quiet steps *)
  Lemma lift_quiet me (w : world) σ' γ' l : WI w →
    let c := wc w in let γ := wg w in let c' := core_of σ' in
    side_of σ' = wd w → Inv c' γ' → (∀ o, ext0 o c γ c' γ') → (∀ me', me' ≠ me → extp me' c γ c' γ') →
    rt c' = rt c → nt c' = nt c → k_hp c' = k_hp c → (∀ t i p, Hp c' t i p ↔ Hp c t i p) →
    (∀ t i p, Hp c t i p → e_borrowed (en (k_sl c') t i) = e_borrowed (en (k_sl c) t i)) →
    g_pub γ' = g_pub γ → g_log γ' = g_log γ ++ l → pubevs γ l →
    let w' := (σ', (γ', wr w)) in WI w' ∧ ∀ opid, wgrd me opid w w' ∧ fr me opid w w'.
  Proof.
    intros [I RC0 E0 R0 C0] c γ c' SD I' X0 Xp Er En Eh HP HB EP EL PE w'.
    fold c γ in I, RC0, E0, R0, C0.
    assert (G : ∀ p, gone γ' p ↔ gone γ p) by (intros; by eapply gone_pubevs).
    assert (W' : WI w').
    { split; unfold wc, wg, wr, wd; cbn.
      - done.
      - split.
        + intros NB t t' i i' p L H1 H2. apply HP in H1, H2. fold c'. rewrite (HB t i p H2). by eapply (rc_borrow _ _ _ RC0).
        + intros p t i Gp L H. apply G in Gp. apply HP in H. fold c' in L. rewrite Er in L. pose proof (rc_gone _ _ _ RC0 p t i Gp L H) as D.
          apply (st_CD _ _ _ _ _ (X0 0)); [by eapply (i_cdcp _ _ _ I)|done].
        + intros p Gp. apply G in Gp. fold c'. rewrite Eh. by apply RC0.
      - eapply (EO_hp c); [| |fold c'; by rewrite Eh|reflexivity|reflexivity].
        { intros e p He Hn. destruct (i_evkey _ _ _ I' e p He Hn) as [Hk _]. unfold ky in *. rewrite <- Eh. rewrite Hk. eauto. }
        eapply (EO_pubevs c γ); eauto.
        + intros e p He Hn. destruct (i_evkey _ _ _ I' e p) as [Hk _]; [rewrite EL; apply elem_of_app; auto|done|].
          unfold ky in *. by rewrite Eh in Hk.
        + apply (i_news _ _ _ I').
      - rewrite SD. eapply RR_core; eauto; fold c'.
        + by eapply ext0_alx, (X0 0).
        + intros t i p H _ _. by apply HP.
        + intros me' t i p Hm L H. apply HP in H. by eapply (rr_pine _ _ _ _ R0).
      - rewrite SD. eapply CT_same; eauto. by eapply n_rem_pubevs. }
    assert (XL : extl c γ c' γ').
    { split.
      - intros t i p H. left. by apply HP.
      - intros t i p _ _ _ H. by apply HP.
      - intros t i p _ _ H. by apply HP.
      - intros t i p k -> Hor H M Hk. apply HP in H. by eapply (extl_live_old c γ c' γ' 0). }
    assert (XM : ∀ me', extm me' (wr w) (wd w) (wr w') (wd w')).
    { intros me'. unfold wd at 2. cbn. rewrite SD. apply extm_refl. }
    split; [done|]. intros opid. split.
    - split; [done|]. intros me' i' Hm Hi. split; auto; try apply X0; try apply extr_refl.
    - split; [|apply extr_refl]. right. split; [by split|]. split; [done|]. split; auto; apply X0.
  Qed.
End lift.
