(** C42: no deadlock in incremental mode. Part 1: what every running call holds (the slots it is copying, an entry or a resize it waits
    for, threads it has to wake up), the global invariant about that, and a program logic for it. *)
From Verif Require Export Marks2.

(** Copying: nothing; the claimed slots [a..b) of table [t], of which [a..u) are copied, [m]: slot [u] is marked; all slots of [t] are
    copied and [t] is about to be replaced as the current table; it has been, and the status is about to be set. *)
Inductive cpst := CN | Cp (t a u b : nat) (m : bool) | Pr (t : nat) | St (t : nat).
Global Instance cpst_dec : EqDecision cpst. Proof. solve_decision. Defined.
(** Parking: nothing; announced; registered; parked; woken up, to check the registration; registration
    removed, to be announced; a condition has changed, waiting threads are to be woken up; threads to be woken up. *)
Inductive pkst := KN | PA (t : nat) (key : pkey) | PR (t : nat) (key : pkey) (id : nat) | PT (t : nat) (key : pkey) (id : nat)
  | PC (t : nat) (key : pkey) (id : nat) | PX (t : nat) (key : pkey) | US (t : nat) (key : pkey) | UL (t n : nat) (l : list nat).
(** The third component: something known to be worth waiting for. *)
Record hd := HD { hc : cpst; hp : pkst; hk : option (nat * pkey) }.
(** Panics the caller asked for: its closure panics, or it returns [Remove] for an absent key. *)
Definition user_panic (r : preason) : bool := match r with PRemoveNone | PUser => true | _ => false end.
Definition kh (h : hd) : Prop := hc h = CN ∧ hp h = KN.
Definition parked (h : hd) : Prop := hc h = CN ∧ ∃ t key id, hp h = PT t key id.
Definition fl (l t : nat) (c : cpst) : nat := match c with Cp t' a _ b _ => if decide (t' = t) then b `min` l - a `min` l else 0 | _ => 0 end.
Definition unm (c : cpst) (t j : nat) : Prop := ∃ a u b m, c = Cp t a u b m ∧ u ≤ j ∧ j < b ∧ (m = true → j ≠ u).
Definition cb (t : nat) (p : pkst) : nat :=
  match p with PA t' _ | PX t' _ => if decide (t' = t) then 1 else 0 | UL t' n _ => if decide (t' = t) then n else 0 | _ => 0 end.
Definition kno (p : pkst) : option (nat * pkey) :=
  match p with PA t k | PR t k _ | PT t k _ | PC t k _ => Some (t, k) | _ => None end.
Definition rid (p : pkst) : option (nat * pkey * nat) := match p with PR t k i | PT t k i | PC t k i => Some (t, k, i) | _ => None end.
Definition hst (H : nat → hd) (i : nat) (h : hd) : nat → hd := λ j, if decide (j = i) then h else H j.
Lemma hst_me H i h : hst H i h i = h. Proof. unfold hst. by rewrite decide_True. Qed.
Lemma hst_ne H i h j : j ≠ i → hst H i h j = H j. Proof. intros. unfold hst. by rewrite decide_False. Qed.

(** Sums over the threads. *)
Fixpoint sm (n : nat) (f : nat → nat) : nat := match n with 0 => 0 | S n => sm n f + f n end.
Lemma sm_ext n f g : (∀ i, i < n → f i = g i) → sm n f = sm n g.
Proof. induction n as [|n IH]; cbn; intros E; [done|]. rewrite (E n) by lia. rewrite IH; [done|]. intros i Hi. apply E. lia. Qed.
Lemma sm_upd n f g i : i < n → (∀ j, j ≠ i → g j = f j) → sm n g + f i = sm n f + g i.
Proof.
  induction n as [|n IH]; cbn; intros L E; [lia|]. destruct (decide (i = n)) as [->|Nn].
  - rewrite (sm_ext n g f); [lia|]. intros j Hj. apply E. lia.
  - rewrite (E n) by lia. assert (i < n) by lia. specialize (IH H E). lia.
Qed.
Lemma sm_zero n f : (∀ i, f i = 0) → sm n f = 0. Proof. intros E. induction n as [|n IH]; cbn; [done|]. by rewrite IH, E. Qed.
Lemma sm_pos n f : sm n f ≠ 0 → ∃ i, i < n ∧ f i ≠ 0.
Proof. induction n as [|n IH]; cbn; [done|]. intros E. destruct (decide (f n = 0)) as [Z|Z]; [|exists n; split; [lia|done]]. destruct IH as (i & L & F); [lia|]. exists i. split; [lia|done]. Qed.

Section dead.
  Context {K V : Type} {Keq : EqDecision K} (cfg : config K) (chunk : nat) (HM : c_mode cfg = Incremental chunk) (N : nat) (Lf : nat → nat).
  Notation prog := (prog K V). Notation action := (action K V). Notation state := (state K V).

  Definition tfld {A} (d : A) (f : table → A) (σ : state) (t : nat) : A := match tables σ !! t with Some tb => f tb | None => d end.
  Definition cpd := tfld 0 t_copied.
  Definition sts := tfld PENDING t_status.
  Definition pkr := tfld parker0 t_parker.
  Definition tln (σ : state) (t : nat) : option nat := length ∘ t_slots <$> tables σ !! t.
  (** [Lf] are the lengths of the tables (which do not change). *)
  Definition lenok (σ : state) : Prop := ∀ t l, tln σ t = Some l → l = Lf t.
  Definition tmono (σ σ' : state) : Prop := ∀ t l, tln σ t = Some l → tln σ' t = Some l.
  Definition JL (σ : state) : Prop := J (K:=K) (V:=V) cfg σ ∧ lenok σ.
  Definition thrs σ t := pk_threads (pkr σ t).

  Record glC (H : nat → hd) (σ : state) : Prop := MkGlC {
    gc_rng : ∀ i t a u b m, hc (H i) = Cp t a u b m → a ≤ u ∧ a ≤ b ∧ b ≤ clm σ (S t);
    gc_own : ∀ i t j, unm (hc (H i)) t j → ¬ marked (wrd σ t j);
    gc_dis : ∀ i i' t a u b m a' u' b' m', i ≠ i' → hc (H i) = Cp t a u b m → hc (H i') = Cp t a' u' b' m' → b ≤ a' ∨ b' ≤ a;
    gc_pend : ∀ t j, pending (wrd σ t j) → ∃ i a b, hc (H i) = Cp t a j b true;
    gc_cnt : ∀ t l, tln σ t = Some l → cpd σ (S t) + sm N (λ i, fl l t (hc (H i))) = clm σ (S t) `min` l;
    gc_pr : ∀ t l, tln σ t = Some l → root σ = Some t → cpd σ (S t) = l → ∃ i, hc (H i) = Pr t;
    gc_st : ∀ t r, root σ = Some r → t < r → sts σ (S t) = PROMOTED ∨ ∃ i, hc (H i) = St t }.

  Record trC (c c' : cpst) (σ σ' : state) : Prop := MkTrC {
    t_clm : ∀ t, clm σ t ≤ clm σ' t;
    t_tln : ∀ t l, tln σ t = Some l → tln σ' t = Some l;
    t_new : ∀ t, tln σ t = None → clm σ' (S t) = 0 ∧ cpd σ' (S t) = 0;
    t_rng : ∀ t a u b m, c' = Cp t a u b m → a ≤ u ∧ a ≤ b ∧ b ≤ clm σ' (S t) ∧ ((∃ u0 m0, c = Cp t a u0 b m0) ∨ clm σ (S t) ≤ a);
    t_own : ∀ t j, unm c' t j → marked (wrd σ' t j) → marked (wrd σ t j) ∧ unm c t j;
    t_mrk : ∀ t j, marked (wrd σ' t j) → marked (wrd σ t j) ∨ ∃ a u b m, c = Cp t a u b m ∧ a ≤ j ∧ j < b;
    t_pnd : ∀ t j, pending (wrd σ' t j) → (∃ a b, c' = Cp t a j b true) ∨ (pending (wrd σ t j) ∧ ∀ a b, c ≠ Cp t a j b true);
    t_cnt : ∀ t l, tln σ t = Some l → cpd σ' (S t) + fl l t c' + clm σ (S t) `min` l = cpd σ (S t) + fl l t c + clm σ' (S t) `min` l;
    t_pr : ∀ t l, tln σ' t = Some l → root σ' = Some t → cpd σ' (S t) = l → c' = Pr t ∨ (tln σ t = Some l ∧ root σ = Some t ∧ cpd σ (S t) = l ∧ c ≠ Pr t);
    t_st : ∀ t r, root σ' = Some r → t < r → sts σ' (S t) = PROMOTED ∨ c' = St t ∨
      (∃ r0, root σ = Some r0 ∧ t < r0 ∧ c ≠ St t ∧ (sts σ (S t) = PROMOTED → sts σ' (S t) = PROMOTED)) }.

  Lemma glC_tr H (σ : state) me h' σ' : me < N → glC H σ → trC (hc (H me)) (hc h') σ σ' → glC (hst H me h') σ'.
  Proof.
    intros LN G T. destruct G as [R O D P C PR' ST]. destruct T as [T1 T2 T3 T4 T5 T6 T7 T8 T9 T10].
    assert (RG : ∀ i t a u b m, hc (hst H me h' i) = Cp t a u b m → a ≤ u ∧ a ≤ b ∧ b ≤ clm σ' (S t)).
    { intros i t a u b m. unfold hst. destruct (decide (i = me)) as [->|Ni]; intros E.
      + destruct (T4 _ _ _ _ _ E) as (? & ? & ? & _). by split_and!.
      + destruct (R _ _ _ _ _ _ E) as (? & ? & ?). specialize (T1 (S t)). split_and!; lia. }
    split.
    - exact RG.
    - intros i t j. unfold hst. destruct (decide (i = me)) as [->|Ni]; intros U M.
      + destruct (T5 t j U M) as [M' U']. by eapply O.
      + destruct (T6 t j M) as [M'|(a & u & b & m & E & La & Lb)]; [by eapply O|].
        destruct U as (a' & u' & b' & m' & E' & U1 & U2 & _). destruct (R _ _ _ _ _ _ E') as (Ra & _). destruct (D _ _ _ _ _ _ _ _ _ _ _ Ni E' E); lia.
    - intros i i' t a u b m a' u' b' m' Nii. unfold hst. destruct (decide (i = me)) as [->|Ni], (decide (i' = me)) as [->|Ni']; [done| | |by eapply D].
      + intros E E'. destruct (T4 _ _ _ _ _ E) as (_ & _ & _ & [(u0 & m0 & E0)|L]); [by eapply (D me i')|]. destruct (R _ _ _ _ _ _ E') as (_ & _ & ?). right. lia.
      + intros E E'. destruct (T4 _ _ _ _ _ E') as (_ & _ & _ & [(u0 & m0 & E0)|L]); [by eapply (D i me)|]. destruct (R _ _ _ _ _ _ E) as (_ & _ & ?). left. lia.
    - intros t j Pj. destruct (T7 t j Pj) as [(a & b & E)|[Pj' NE]]; [exists me, a, b; by rewrite hst_me|].
      destruct (P t j Pj') as (i & a & b & E). exists i, a, b. rewrite hst_ne; [done|]. intros ->. by eapply NE.
    - intros t l E. destruct (tln σ t) as [l0|] eqn:E0.
      + pose proof (T2 t l0 E0) as E1. rewrite E1 in E. injection E as <-.
        pose proof (sm_upd N (λ i, fl l0 t (hc (H i))) (λ i, fl l0 t (hc (hst H me h' i))) me LN) as X. cbv beta in X. rewrite hst_me in X.
        specialize (X ltac:(intros j Nj; by rewrite hst_ne)). specialize (T8 t l0 E0). specialize (C t l0 E0). lia.
      + destruct (T3 t E0) as [Z1 Z2]. rewrite Z1, Z2, sm_zero; [lia|]. intros i. unfold fl. destruct (hc (hst H me h' i)) as [|t' a u b m| |] eqn:Ei; [done| |done|done].
        destruct (decide (t' = t)) as [->|]; [|done]. destruct (RG _ _ _ _ _ _ Ei) as (? & ? & ?). lia.
    - intros t l E Er Ec. destruct (T9 t l E Er Ec) as [E'|(E1 & E2 & E3 & NE)]; [exists me; by rewrite hst_me|].
      destruct (PR' t l E1 E2 E3) as [i Ei]. exists i. rewrite hst_ne; [done|]. by intros ->.
    - intros t r Er L. destruct (T10 t r Er L) as [X|[X|(r0 & E0 & L0 & NE & X)]]; [by left|right; exists me; by rewrite hst_me|].
      destruct (ST t r0 E0 L0) as [Y|[i Ei]]; [left; by apply X|right]. exists i. rewrite hst_ne; [done|]. by intros ->.
  Qed.

  (** ** Parking *)
  Definition cond (σ : state) (t : nat) (key : pkey) : Prop := match key with KStatus => sts σ t = PENDING | KEntry j => e_copied (wrd σ t j) = false end.
  Definition know (σ : state) (t : nat) (key : pkey) : Prop :=
    match key with
    | KEntry j => marked (wrd σ t j)
    | KStatus => ∃ t0 l r, t = S t0 ∧ tln σ t0 = Some l ∧ l ≤ clm σ t ∧ root σ = Some r ∧ t0 ≤ r
    end.
  Record glP (H : nat → hd) (σ : state) : Prop := MkGlP {
    gp_kn : ∀ i t key, kno (hp (H i)) = Some (t, key) → know σ t key;
    gp_id : ∀ t x, x ∈ thrs σ t → x.1.2 ≤ pk_count (pkr σ t);
    gp_un : ∀ i t key id, rid (hp (H i)) = Some (t, key, id) → id ≤ pk_count (pkr σ t) ∧ ∀ x, x ∈ thrs σ t → x.1.2 = id → x = (key, id, i);
    gp_cnt : ∀ t, (Z.of_nat (length (thrs σ t) + sm N (λ i, cb t (hp (H i)))) ≤ pk_pending (pkr σ t))%Z;
    gp_reg : ∀ i t key id, hp (H i) = PR t key id ∨ hp (H i) = PT t key id →
      (key, id, i) ∈ thrs σ t ∨ i ∈ tokens σ ∨ ∃ j t' n l, hp (H j) = UL t' n l ∧ i ∈ l;
    gp_cond : ∀ i t key id, hp (H i) = PT t key id ∨ hp (H i) = PC t key id → (key, id, i) ∈ thrs σ t → cond σ t key ∨ ∃ j, hp (H j) = US t key }.

  Record trP (me : nat) (p p' : pkst) (σ σ' : state) : Prop := MkTrP {
    u_st : ∀ t key, know σ t key → know σ' t key;
    u_kn : ∀ t key, kno p' = Some (t, key) → kno p = Some (t, key) ∨ know σ' t key;
    u_cn : ∀ t, pk_count (pkr σ t) ≤ pk_count (pkr σ' t);
    u_thr : ∀ t x, x ∈ thrs σ' t → x ∈ thrs σ t ∨ (pk_count (pkr σ t) < x.1.2 ∧ x.1.2 ≤ pk_count (pkr σ' t) ∧ x.2 = me);
    u_un : ∀ t key id, rid p' = Some (t, key, id) → rid p = Some (t, key, id) ∨
      (id = pk_count (pkr σ' t) ∧ pk_count (pkr σ t) < id ∧ ∀ x, x ∈ thrs σ' t → x ∈ thrs σ t ∨ x = (key, id, me));
    u_old : ∀ t key id, rid p' = Some (t, key, id) → rid p = Some (t, key, id) → pk_count (pkr σ' t) = pk_count (pkr σ t);
    u_cnt : ∀ t, (pk_pending (pkr σ t) - Z.of_nat (length (thrs σ t) + cb t p) ≤ pk_pending (pkr σ' t) - Z.of_nat (length (thrs σ' t) + cb t p'))%Z;
    u_reg : ∀ i t x, i ≠ me → x ∈ thrs σ t → x.2 = i → x ∈ thrs σ' t ∨ ∃ t' n l, p' = UL t' n l ∧ i ∈ l;
    u_tok : ∀ i, i ≠ me → i ∈ tokens σ → i ∈ tokens σ';
    u_ul : ∀ i t n l, p = UL t n l → i ∈ l → i ∈ tokens σ' ∨ ∃ t' n' l', p' = UL t' n' l' ∧ i ∈ l';
    u_rme : ∀ t key id, p' = PR t key id ∨ p' = PT t key id → (key, id, me) ∈ thrs σ' t ∨
      ((p = PR t key id ∨ p = PT t key id) ∧ thrs σ' t = thrs σ t ∧ tokens σ' = tokens σ);
    u_cd : ∀ t key, know σ t key → cond σ t key → cond σ' t key ∨ p' = US t key;
    u_us : ∀ t key, p = US t key → p' = US t key ∨ ∀ x, x ∈ thrs σ' t → x.1.1 ≠ key;
    u_cme : ∀ t key id, p' = PT t key id ∨ p' = PC t key id → cond σ' t key ∨ ((p = PT t key id ∨ p = PC t key id) ∧ thrs σ' t = thrs σ t) }.

  Lemma glP_tr H (σ : state) me h' σ' : me < N → glP H σ → trP me (hp (H me)) (hp h') σ σ' → glP (hst H me h') σ'.
  Proof.
    intros LN G T. destruct G as [A B C D E F]. destruct T as [T1 T2 T3 T4 T5 T5' T6 T7 T8 T9 T10 T11 T12 T13].
    split.
    - intros i t key. unfold hst. destruct (decide (i = me)) as [->|Ni]; intros X; [|by eapply T1, A]. destruct (T2 _ _ X) as [X'|X']; [by eapply T1, A|done].
    - intros t x X. destruct (T4 _ _ X) as [X'|(_ & X' & _)]; [|done]. specialize (B t x X'). specialize (T3 t). lia.
    - intros i t key id. unfold hst. destruct (decide (i = me)) as [->|Ni]; intros X.
      + destruct (T5 _ _ _ X) as [X'|(E1 & E2 & E3)].
        * destruct (C _ _ _ _ X') as [C1 C2]. pose proof (T5' _ _ _ X X') as Ec. split; [lia|]. intros x Hx Ex. destruct (T4 _ _ Hx) as [Hx'|(Y1 & Y2 & _)]; [by apply C2|lia].
        * split; [lia|]. intros x Hx Ex. destruct (E3 x Hx) as [Hx'| ->]; [|done]. specialize (B t x Hx'). lia.
      + destruct (C _ _ _ _ X) as [C1 C2]. specialize (T3 t). split; [lia|]. intros x Hx Ex. destruct (T4 _ _ Hx) as [Hx'|(Y1 & Y2 & _)]; [by apply C2|lia].
    - intros t. pose proof (sm_upd N (λ i, cb t (hp (H i))) (λ i, cb t (hp (hst H me h' i))) me LN) as X. cbv beta in X. rewrite hst_me in X.
      specialize (X ltac:(intros j Nj; by rewrite hst_ne)). specialize (T6 t). specialize (D t). lia.
    - assert (UL' : ∀ i, (∃ j t' n l, hp (H j) = UL t' n l ∧ i ∈ l) → i ∈ tokens σ' ∨ ∃ j t' n l, hp (hst H me h' j) = UL t' n l ∧ i ∈ l).
      { intros i (j & t' & n & l & Ej & Hi). destruct (decide (j = me)) as [->|Nj].
        - destruct (T9 i _ _ _ Ej Hi) as [X|(t1 & n1 & l1 & X & Y)]; [by left|right]. exists me, t1, n1, l1. by rewrite hst_me.
        - right. exists j, t', n, l. by rewrite hst_ne. }
      intros i t key id. destruct (decide (i = me)) as [->|Ni].
      + rewrite hst_me. intros X. destruct (T10 _ _ _ X) as [Y|(Y & Y1 & Y2)]; [by left|]. rewrite Y1, Y2. destruct (E _ _ _ _ Y) as [Z|[Z|Z]]; [by left|by right; left|].
        right. rewrite <- Y2. by apply UL'.
      + rewrite hst_ne by done. intros X. destruct (E _ _ _ _ X) as [Z|[Z|Z]]; [|right; left; by apply T8|right; by apply UL'].
        destruct (T7 i t _ Ni Z eq_refl) as [Z'|(t1 & n1 & l1 & X1 & Y1)]; [by left|]. right. right. exists me, t1, n1, l1. by rewrite hst_me.
    - assert (CD' : ∀ t key x, know σ t key → x ∈ thrs σ' t → x.1.1 = key → (cond σ t key ∨ ∃ j, hp (H j) = US t key) → cond σ' t key ∨ ∃ j, hp (hst H me h' j) = US t key).
      { intros t key x Kx Hx Ex [X|[j Ej]].
        - destruct (T11 _ _ Kx X) as [Y|Y]; [by left|right; exists me; by rewrite hst_me].
        - destruct (decide (j = me)) as [->|Nj]; [|right; exists j; by rewrite hst_ne]. destruct (T12 _ _ Ej) as [Y|Y]; [right; exists me; by rewrite hst_me|]. by destruct (Y x Hx). }
      intros i t key id. destruct (decide (i = me)) as [->|Ni].
      + rewrite hst_me. intros X Hx. destruct (T13 _ _ _ X) as [Y|[Y1 Y2]]; [by left|]. eapply CD'; [eapply (A me); destruct Y1 as [-> | ->]; reflexivity|exact Hx|done|]. rewrite Y2 in Hx. by eapply F.
      + rewrite hst_ne by done. intros X Hx. eapply CD'; [eapply (A i); destruct X as [-> | ->]; reflexivity|exact Hx|done|]. destruct (T4 _ _ Hx) as [Hx'|(_ & _ & Y)]; [by eapply F|]. by cbn in Y.
  Qed.

  Definition glK (H : nat → hd) (σ : state) : Prop := ∀ i t key, hk (H i) = Some (t, key) → know σ t key.
  Definition gl (H : nat → hd) (σ : state) : Prop := glC H σ ∧ glP H σ ∧ glK H σ.
  Lemma gl_tr H (σ : state) me h' σ' : me < N → gl H σ → trC (hc (H me)) (hc h') σ σ' → trP me (hp (H me)) (hp h') σ σ' →
    (hk h' = hk (H me) ∨ ∀ t key, hk h' = Some (t, key) → know σ' t key) → gl (hst H me h') σ'.
  Proof.
    intros LN (A & B & C) TC TP TK. split_and!; [by eapply glC_tr|by eapply glP_tr|]. intros i t key. unfold hst. destruct (decide (i = me)) as [->|Ni]; intros X.
    - destruct TK as [E|E]; [rewrite E in X; eapply u_st, C, X; exact TP|by apply E].
    - eapply u_st, C, X. exact TP.
  Qed.

  (** ** Changes that do not matter *)
  Definition csame (σ σ' : state) : Prop :=
    root σ' = root σ ∧ (∀ t, clm σ' t = clm σ t) ∧ (∀ t, cpd σ' t = cpd σ t) ∧ (∀ t, sts σ' t = sts σ t) ∧ (∀ t l, tln σ t = Some l → tln σ' t = Some l) ∧
    ∀ t j, wrd σ' t j = wrd σ t j ∨ (¬ marked (wrd σ t j) ∧ ¬ marked (wrd σ' t j)).
  Definition psame (σ σ' : state) : Prop := (∀ t, pkr σ' t = pkr σ t) ∧ tokens σ' = tokens σ.
  Definition usame (σ σ' : state) : Prop := csame σ σ' ∧ psame σ σ'.
  Lemma tln_none (σ : state) t : tln σ t = None → clm σ (S t) = 0 ∧ cpd σ (S t) = 0.
  Proof.
    unfold tln, clm, cpd, tfld. intros E. apply fmap_None in E. apply lookup_ge_None in E. rewrite !lookup_ge_None_2 by lia. done.
  Qed.
  Lemma J_ex (σ : state) t : JL σ → root σ = Some t → ∃ l, tln σ t = Some l.
  Proof.
    intros [[γ I] _] E. pose proof (i_root _ _ _ I) as R. unfold core_of in R. cbn [k_rt] in R. rewrite E in R. unfold nt in R. cbn in R. rewrite map_length in R.
    unfold tln. apply lookup_lt_is_Some in R as [tb ->]. cbn. eauto.
  Qed.
  Lemma trC_same c (σ σ' : state) : JL σ → csame σ σ' → (∀ t a u b m, c = Cp t a u b m → a ≤ u ∧ a ≤ b ∧ b ≤ clm σ (S t)) → trC c c σ σ'.
  Proof.
    intros Hj (A & B & C & D & E & F) R. split.
    - intros t. by rewrite B.
    - done.
    - intros t X. rewrite B, C. by apply tln_none.
    - intros t a u b m Ec. rewrite B. destruct (R _ _ _ _ _ Ec) as (? & ? & ?). split_and!; [done..|]. left. eauto.
    - intros t j U M. split; [|done]. destruct (F t j) as [<-|(? & ?)]; done.
    - intros t j M. left. destruct (F t j) as [<-|(? & ?)]; done.
    - intros t j P. assert (P' : pending (wrd σ t j)) by (destruct (F t j) as [<-|(? & X)]; [done|by destruct P]).
      destruct c as [|t' a u b m| |]; [by right|..|by right|by right]. destruct (decide (t' = t ∧ u = j ∧ m = true)) as [(-> & -> & ->)|Nx]; [left; eauto|right].
      split; [done|]. intros a' b' X. injection X as -> _ -> _ ->. by destruct Nx.
    - intros t l X. rewrite B, C. lia.
    - intros t l X Er Ec. rewrite A in Er. rewrite C in Ec. destruct (J_ex _ _ Hj Er) as [l0 E0]. pose proof (E _ _ E0) as E1. rewrite E1 in X. injection X as ->.
      destruct (decide (c = Pr t)) as [->|]; [by left|by right].
    - intros t r Er L. rewrite A in Er. rewrite D. destruct (decide (c = St t)) as [->|]; [by right; left|]. right. right. by exists r.
  Qed.
  Lemma know_same (σ σ' : state) : csame σ σ' → ∀ t key, know σ t key → know σ' t key.
  Proof.
    intros (A & B & C & D & E & F) t [|j]; cbn.
    - intros (t0 & l & r & ? & ? & ? & ? & ?). exists t0, l, r. rewrite A, B. eauto 10.
    - intros M. destruct (F t j) as [->|(? & ?)]; done.
  Qed.
  Lemma cond_same (σ σ' : state) : csame σ σ' → ∀ t key, know σ t key → cond σ t key → cond σ' t key.
  Proof. intros (A & B & C & D & E & F) t [|j]; cbn; [by rewrite D|]. intros M. destruct (F t j) as [->|(? & ?)]; done. Qed.
  (** Parking states not affected by a change that leaves the parkers alone. *)
  Lemma trP_same me p (σ σ' : state) : (∀ t key, know σ t key → know σ' t key) → (∀ t key, know σ t key → cond σ t key → cond σ' t key) → psame σ σ' → trP me p p σ σ'.
  Proof.
    intros Kn Cd [A B].
    assert (TE : ∀ t, thrs σ' t = thrs σ t) by (intros t; unfold thrs; by rewrite A).
    split.
    - done.
    - intros t key X. by left.
    - intros t. by rewrite A.
    - intros t x. rewrite TE. by left.
    - intros t key id X. by left.
    - intros t key id X _. by rewrite A.
    - intros t. rewrite A, TE. lia.
    - intros i t x Hn Hx _. left. by rewrite TE.
    - intros i _. by rewrite B.
    - intros i t n l -> Hi. right. eauto 10.
    - intros t key id X. right. by rewrite TE, B.
    - intros t key X Y. left. by apply Cd.
    - intros t key X. by left.
    - intros t key id X. right. by rewrite TE.
  Qed.
  Lemma gl_same H (σ : state) me σ' : me < N → JL σ → gl H σ → usame σ σ' → gl (hst H me (H me)) σ'.
  Proof.
    intros LN Hj G [C D]. apply (gl_tr H σ me (H me) σ' LN G).
    - destruct G as [A _]. apply trC_same; [done|done|]. intros t a u b m E. by eapply gc_rng.
    - apply trP_same; [by apply know_same|by apply cond_same|done].
    - by left.
  Qed.
  Lemma gl_frame H H' (σ : state) : gl H σ → (∀ i, H' i = H i) → gl H' σ.
  Proof.
    intros (A & B & C0) E. split_and!.
    - destruct A as [R O D P C PR' ST]. split.
      + intros i. rewrite E. apply R.
      + intros i. rewrite E. apply O.
      + intros i i'. rewrite !E. apply D.
      + intros t j X. destruct (P t j X) as (i & ?). exists i. by rewrite E.
      + intros t l X. rewrite <- (C t l X). f_equal. apply sm_ext. intros i _. by rewrite E.
      + intros t l X1 X2 X3. destruct (PR' t l X1 X2 X3) as (i & ?). exists i. by rewrite E.
      + intros t r X1 X2. destruct (ST t r X1 X2) as [|(i & ?)]; [by left|right]. exists i. by rewrite E.
    - destruct B as [A1 B C D F G]. split.
      + intros i. rewrite E. apply A1.
      + done.
      + intros i. rewrite E. apply C.
      + intros t. specialize (D t). erewrite sm_ext; [exact D|]. intros i _. cbv beta. by rewrite E.
      + intros i t key id. rewrite E. intros X. destruct (F _ _ _ _ X) as [|[|(j & t' & n & l & Ej & ?)]]; [by left|by right; left|right; right]. exists j, t', n, l. by rewrite E.
      + intros i t key id. rewrite E. intros X Y. destruct (G _ _ _ _ X Y) as [|(j & Ej)]; [by left|right]. exists j. by rewrite E.
    - intros i. rewrite E. apply C0.
  Qed.

  (** ** The logic *)
  Definition lkd (σ : state) : Prop := ∃ t tb j, tables σ !! t = Some tb ∧ t_lock tb = LHeld j.
  Fixpoint dm {A} (p : prog A) : (A → hd → Prop) → hd → Prop :=
    match p in Prog.prog _ _ A return (A → hd → Prop) → hd → Prop with
    | Ret a => λ Q h, Q a h
    | Fail r => λ Q h, user_panic r = true → kh h
    | Act f k => λ Q h, (∀ me σ, f me false σ = Block → lkd σ ∨ (parked h ∧ me ∉ tokens σ)) ∧ (∀ me b σ x σ', f me b σ = Ok x σ' → tmono σ σ') ∧
        ∀ H me b σ x σ', me < N → JL σ → JL σ' → gl H σ → H me = h → f me b σ = Ok x σ' → ∃ h', gl (hst H me h') σ' ∧ dm (k x) Q h'
    | @Loop _ _ X B _ body s k => λ Q h, ∃ (I : X → hd → Prop) (QB : B → hd → Prop), I s h ∧
        (∀ s h, I s h → dm (body s) (λ r h', match r with inl s' => I s' h' | inr b => QB b h' end) h) ∧
        ∀ b h', QB b h' → dm (k b) Q h'
    end.
  Lemma dm_mono {A} (p : prog A) : ∀ (Q Q' : A → hd → Prop) h, (∀ a h, Q a h → Q' a h) → dm p Q h → dm p Q' h.
  Proof.
    induction p as [A a|X A f k IH|S' X A body IHb s k IH|A r]; cbn [dm]; intros Q Q' h HQ.
    - auto.
    - intros (E0 & E1 & H). split; [done|]. split; [done|]. intros Hh me b σ x σ' LN Hj Hj' Ho Em E. destruct (H Hh me b σ x σ' LN Hj Hj' Ho Em E) as (h' & T & D). exists h'. split; [done|]. by eapply IH.
    - intros (I & QB & H0 & H1 & H2). exists I, QB. split_and!; auto. intros b h1 Hb. eapply IH; eauto.
    - done.
  Qed.
  Lemma dm_bind {A B} (p : prog A) (k : A → prog B) Q R h : dm p R h → (∀ a h', R a h' → dm (k a) Q h') → dm (bind p k) Q h.
  Proof.
    intros D Hk. revert h D. induction p as [A a|X A f k1 IH|S' X A body IHb s k1 IH|A r]; intros h; cbn [dm bind].
    - apply Hk.
    - intros (E0 & E1 & H). split; [done|]. split; [done|]. intros Hh me b σ x σ' LN Hj Hj' Ho Em E. destruct (H Hh me b σ x σ' LN Hj Hj' Ho Em E) as (h' & T & D). exists h'. split; [done|]. by eapply IH.
    - intros (I & QB & H0 & H1 & H2). exists I, QB. split_and!; auto. intros b h1 Hb. eapply IH; eauto.
    - done.
  Qed.
  Lemma dm_loop {S' B A} (I : S' → hd → Prop) (QB : B → hd → Prop) (body : S' → prog (S' + B)) s (k : B → prog A) Q h : I s h →
    (∀ s h, I s h → dm (body s) (λ r h', match r with inl s' => I s' h' | inr b => QB b h' end) h) → (∀ b h', QB b h' → dm (k b) Q h') → dm (Loop body s k) Q h.
  Proof. intros H0 H1 H2. exists I, QB. split; [exact H0|]. split; [exact H1|exact H2]. Qed.

  (** Programs that hold the same at the end as at the beginning; programs that begin and end with at most some knowledge. *)
  Definition dmh {A} (h : hd) (p : prog A) : Prop := dm p (λ _ h', h' = h) h.
  Definition dk {A} (p : prog A) : Prop := ∀ h, kh h → dm p (λ _ h', kh h') h.
  Lemma dmh_bind {A B} h (p : prog A) (k : A → prog B) : dmh h p → (∀ a, dmh h (k a)) → dmh h (bind p k).
  Proof. intros D Hk. eapply dm_bind; [exact D|]. intros a h' ->. apply Hk. Qed.
  Lemma dk_bind {A B} (p : prog A) (k : A → prog B) : dk p → (∀ a, dk (k a)) → dk (bind p k).
  Proof. intros D Hk h Hh. eapply dm_bind; [by apply D|]. intros a h' Hh'. by apply Hk. Qed.
  Definition mayblk {X} (f : action X) : Prop := ∀ me σ, f me false σ = Block → lkd σ.
  Definition plain {X} (f : action X) : Prop := mayblk f ∧ ∀ me b σ x σ', f me b σ = Ok x σ' → usame σ σ'.
  Lemma dm_plain {X A} (f : action X) (k : X → prog A) Q h : plain f → (∀ x, dm (k x) Q h) → dm (Act f k) Q h.
  Proof.
    intros [P1 P2] Hk. split; [intros me σ E; left; by eapply P1|]. split; [intros me b σ x σ' E t l; apply (P2 _ _ _ _ _ E)|]. intros H me b σ x σ' LN Hj Hj' G Em E. exists h. split; [|apply Hk]. rewrite <- Em.
    exact (gl_same H σ me σ' LN Hj G (P2 _ _ _ _ _ E)).
  Qed.
  Lemma dmh_act {X A} h (f : action X) (k : X → prog A) : plain f → (∀ x, dmh h (k x)) → dmh h (Act f k). Proof. apply dm_plain. Qed.
  Lemma dmh_ret {A} h (a : A) : dmh h (Ret a). Proof. unfold dmh. by cbn [dm]. Qed.
  Lemma dmh_act' {X} h (f : action X) : plain f → dmh h (act f). Proof. intros P. apply dmh_act; [done|]. intros x. apply dmh_ret. Qed.
  Lemma dmh_loop {S' B A} h (body : S' → prog (S' + B)) s (k : B → prog A) : (∀ s, dmh h (body s)) → (∀ b, dmh h (k b)) → dmh h (Loop body s k).
  Proof.
    intros Hb Hk. apply (dm_loop (λ _ h', h' = h) (λ _ h', h' = h)); [done| |].
    - intros s' h' ->. eapply dm_mono; [|apply Hb]. by intros [?|?] h' ->.
    - intros b h' ->. apply Hk.
  Qed.
  Lemma dmh_fail {A} h r : user_panic r = false → dmh (A:=A) h (Fail r). Proof. intros X Y. congruence. Qed.
  Lemma dk_ret {A} (a : A) : dk (Ret a). Proof. intros h Hh. by cbn [dm]. Qed.
  Lemma dk_fail {A} r : dk (A:=A) (Fail r). Proof. intros h X Y. exact X. Qed.
  Lemma dk_dmh {A} (p : prog A) : (∀ h, dmh h p) → dk p.
  Proof. intros D h Hh. eapply dm_mono; [|apply D]. by intros a h' ->. Qed.
  Lemma dk_loop {S' B A} (body : S' → prog (S' + B)) s (k : B → prog A) : (∀ s, dk (body s)) → (∀ b, dk (k b)) → dk (Loop body s k).
  Proof.
    intros Hb Hk h Hh. apply (dm_loop (λ _ h', kh h') (λ _ h', kh h')); [done| |].
    - intros s' h' Hh'. eapply dm_mono; [|by apply Hb]. by intros [?|?].
    - intros b h' Hh'. by apply Hk.
  Qed.
  Lemma dk_act {X A} (f : action X) (k : X → prog A) : plain f → (∀ x, dk (k x)) → dk (Act f k).
  Proof. intros P Hk h Hh. apply dm_plain; [done|]. intros x. by apply Hk. Qed.
  Lemma dk_act' {X} (f : action X) : plain f → dk (act f). Proof. intros P. apply dk_act; [done|]. intros x. apply dk_ret. Qed.
End dead.
