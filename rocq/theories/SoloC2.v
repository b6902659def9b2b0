(** iter, clear, retain and reserve with incremental resizing, alone. *)
From Verif Require Export SoloC.

Section solo.
  Context {K V : Type} {Keq : EqDecision K} (cfg : config K) (me : nat) (chunk : nat) (Hinc : c_mode cfg = Incremental chunk) (Hch : 0 < chunk).
  Notation state := (state K V). Notation prog := (prog K V).
  Notation SN := (SO None None None None None).
  Context (G E : state → Prop) (N : nat) (HE : ∀ σ : state, N ≤ length (tables σ) → E σ).
  Context (G_next : ∀ (σ : state) t tb, G σ → tables σ !! t = Some tb → t_next tb = if decide (Datatypes.S t < length (tables σ)) then Some (Datatypes.S t) else None).
  Context (G_mark : ∀ (σ : state) t tb i s, G σ → tables σ !! t = Some tb → t_next tb = None → t_slots tb !! i = Some s → e_copying (s_ent s) = false).
  Notation tmg := (tmg (K:=K) (V:=V) me G E).

  Lemma CT_lt h L (σ : state) : SN L σ → CT h σ → th h < L.
  Proof. intros HS (_ & (tb & Et & _) & _). rewrite <- (so_len _ _ _ _ _ _ _ HS). by eapply lookup_lt_Some. Qed.
  Lemma g_linearize : ∀ d L h σ, d = N - th h → SN L σ → G σ → CT h σ →
    tmg (linearize cfg h) (λ h' σ', ∃ L', SN L' σ' ∧ G σ' ∧ CT h' σ' ∧ nonext (th h') σ') σ.
  Proof.
    intros d. induction (lt_wf d) as [d _ IH]. intros L h σ Ed HS HG HC. assert (IH' : ∀ L' h' σ', th h < th h' → th h < N → SN L' σ' → G σ' → CT h' σ' →
      tmg (linearize cfg h') (λ h' σ', ∃ L', SN L' σ' ∧ G σ' ∧ CT h' σ' ∧ nonext (th h') σ') σ').
    { intros L' h' σ' L1 L2. eapply (IH (N - th h')); lia. }
    clear IH Ed. revert IH'. unfold linearize. unfold incremental. rewrite Hinc. intros IH. apply tmg_loop1.
    apply tmg_act; [eapply gd_nb; [apply (g_next me None None None None None L)|done]|].
    intros r σ1 Ef _. unfold a_next in Ef. apply wtR in Ef as (tb & Et & Ef). rewrite (G_next _ _ _ HG Et) in Ef. rewrite (so_len _ _ _ _ _ _ _ HS) in Ef.
    pose proof (CT_lt _ _ _ HS HC) as Lh. destruct (decide (Datatypes.S (th h) < L)) as [Ln|Ln].
    2: { injection Ef as <- <-. right. apply tmg_ret. exists L. split; [done|]. split; [done|]. split; [done|]. intros tb' Et'. rewrite (G_next _ _ _ HG Et'). rewrite (so_len _ _ _ _ _ _ _ HS). by rewrite decide_False by done. }
    apply wtR in Ef as (tbn & En & Ef). injection Ef as <- <-. destruct (decide (N ≤ L)) as [LN|LN]; [left; apply HE; by rewrite (so_len _ _ _ _ _ _ _ HS)|]. right.
    eapply tmg_seq; [by apply (g_help cfg me chunk Hinc Hch G E G_next L h)|]. intros nx σ1 (L' & LL & S1 & G1 & C1 & [X|[_ X]]); [|lia]. apply tmg_ret.
    eapply IH; [lia|lia|exact S1|done|done].
  Qed.
  Definition ready (σ : state) : Prop := (root σ = None ∧ tables σ = []) ∨ ∃ h, CT h σ.
  Lemma g_root_act {B} L σ (k : option tref → prog B) Q : SN L σ → G σ → ready σ →
    (root σ = None → tables σ = [] → tmg (k None) Q σ) → (∀ h, CT h σ → tmg (k (Some h)) Q σ) → tmg (bind (act a_root) k) Q σ.
  Proof.
    intros HS HG HR H1 H2. eapply tmg_gd; [apply (g_root me None None None None None L)|done|]. intros r σ1 Ef _ _ _. unfold a_root in Ef. destruct HR as [[E0 E1]|[h HC]].
    - rewrite E0 in Ef. injection Ef as <- <-. auto.
    - pose proof HC as (A1 & (tb & A2 & A3) & _). rewrite A1 in Ef. apply wtR in Ef as (tb' & Et & Ef). rewrite A2 in Et. injection Et as <-. injection Ef as <- <-. rewrite A3. auto.
  Qed.
  Lemma g_iter L σ : SN L σ → G σ → ready σ → tmg (iter cfg) (λ _ _, True) σ.
  Proof.
    intros HS HG HR. unfold iter. eapply g_root_act; [done..|by intros; apply tmg_ret|]. intros h HC. eapply tmg_seq; [by eapply g_linearize|]. intros h' σ' _. by apply tmg_ret.
  Qed.
  Lemma g_clear test L σ : SN L σ → G σ → ready σ → tmg (clear_or_retain cfg test) (λ _ _, True) σ.
  Proof.
    intros HS HG HR. unfold clear_or_retain. eapply g_root_act; [done..|by intros; apply tmg_ret|]. intros h HC. apply tmg_loop1.
    eapply tmg_seq; [by eapply g_linearize|]. intros h' σ1 (L1 & S1 & G1 & C1 & N1). eapply tmg_seq; [apply tm_tmg; eapply (p_sweep cfg me chunk Hinc _ _ _ _ L1)|].
    - destruct S1 as [A1 A2 A3 A4 A5 A6 A7]. split; [exact A1|exact A2|exact A3|exact A4|exact A5| |exact A7]. intros t tb i s [= <-] Et Es. eapply G_mark; [exact G1|exact Et|by apply N1|exact Es].
    - by eapply CT_lt.
    - intros c σ2 [-> _]. by apply tmg_ret.
  Qed.
  Lemma g_init cap L σ : SN L σ → G σ → root σ = None → tables σ = [] → tmg (init cap) (λ h σ', ∃ L', SN L' σ' ∧ G σ' ∧ CT h σ') σ.
  Proof.
    intros HS HG R T. pose proof (p_init me cap L σ HS) as P. unfold init in *. destruct (alloc_len _) as [len|]; [|done].
    cbn [act tm] in P. apply tmg_acte.
    - intros Y. by rewrite Y in P.
    - intros x σ' Ef G'. right. rewrite Ef in P. destruct P as (L' & S' & _). exists L'. split; [done|]. split; [done|]. unfold a_init in Ef. rewrite R in Ef. cbv zeta in Ef. injection Ef as <- <-.
      split; [done|]. split; [exists (new_table len PROMOTED); split; [cbn; by rewrite T|done]|]. intros m tbm Lm Em. cbn in Lm, Em. rewrite T in Lm, Em. apply list_lookup_singleton_Some in Em as [-> _]. cbn in Lm. lia.
  Qed.
  Lemma g_reserve n L σ : SN L σ → G σ → ready σ → tmg (reserve cfg n) (λ _ _, True) σ.
  Proof.
    intros HS HG HR. unfold reserve.
    assert (LP : ∀ d L h σ, d = N - th h → SN L σ → G σ → CT h σ → tmg (loop (λ tb : tref,
       (n0 ← map_len;
        let cap := entries_for (n0 + n) in
        if cap <=? th_len tb then Ret (inr tt) else
        (get_or_alloc_next cfg (Some cap) tb;;
         tb' ← help_copy cfg true tb; Ret (inl tb'))))%prog h) (λ _ _, True) σ).
    { clear σ L HS HG HR. intros d. induction (lt_wf d) as [d _ IH]. intros L h σ Ed HS HG HC. apply tmg_loop1.
      destruct (decide (N ≤ L)) as [LN|LN].
      { unfold map_len. cbn [bind act SoloG.tmg]. unfold a_shards. intros _. left. apply HE. by rewrite (so_len _ _ _ _ _ _ _ HS). }
      pose proof (CT_lt _ _ _ HS HC) as Lh.
      eapply tm_tmg_seq; [|exact HG|].
      { eapply (tm_frame me R (R_trans chunk Hch)); [apply in_map_len|left; reflexivity|]. by apply (p_map_len me None None None None None L). }
      intros m σ1 [S1 F1] G1. assert (C1 : CT h σ1) by (destruct F1 as [<-|F1]; [done|by eapply (CT_R chunk Hch)]). cbv zeta. destruct (_ <=? _); [by apply tmg_ret|].
      eapply tm_tmg_seq; [|exact G1|].
      { eapply (tm_frame me R (R_trans chunk Hch)); [apply (in_get_or_alloc cfg me chunk Hch)|left; reflexivity|]. apply (p_get_or_alloc cfg me _ None None None L h); [exact S1|done]. }
      intros x σ2 [(F & L' & S2 & LL & L1 & L2 & _) F2] G2. assert (C2 : CT h σ2) by (destruct F2 as [<-|F2]; [done|by eapply (CT_R chunk Hch)]). apply SO_weakF in S2.
      eapply tmg_seq; [by apply (g_help cfg me chunk Hinc Hch G E G_next L' h)|]. intros nx σ3 (L3 & LL3 & S3 & G3 & C3 & [X|[_ X]]); [|lia]. apply tmg_ret.
      eapply (IH (N - th nx)); [lia|done|exact S3|done|done]. }
    eapply g_root_act; [done..| |].
    - intros R T. eapply tmg_seq; [by eapply g_init|]. intros h σ1 (L1 & S1 & G1 & C1). by eapply LP.
    - intros h HC. apply tmg_bind, tmg_ret. by eapply LP.
  Qed.
End solo.
