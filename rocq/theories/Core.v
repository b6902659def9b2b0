(** The part of the shared state that matters for linearizability, as a "struct of arrays", and the effect of every
    primitive action on it. *)
From Verif Require Export Logic.

Record core (K V : Type) := Core {
  k_sl : list (list slot);      (* slots of every table *)
  k_lim : list nat;             (* probe limits *)
  k_nx : list (option nat);     (* next pointers *)
  k_lk : list lockst;           (* allocation locks *)
  k_cd : list nat;              (* copied counters *)
  k_cl : list nat;              (* claim counters *)
  k_st : list status;
  k_rt : option nat;
  k_hp : list (K * V) }.
Arguments Core {K V}. Arguments k_sl {K V}. Arguments k_lim {K V}. Arguments k_nx {K V}. Arguments k_lk {K V}.
Arguments k_cd {K V}. Arguments k_cl {K V}. Arguments k_st {K V}. Arguments k_rt {K V}. Arguments k_hp {K V}.

(** Entry word and metadata of slot [i] of table [t] (null / empty outside the tables). *)
Definition en (sl : list (list slot)) (t i : nat) : eword :=
  match sl !! t with Some l => match l !! i with Some s => s_ent s | None => NULLW end | None => NULLW end.
Definition mt (sl : list (list slot)) (t i : nat) : N :=
  match sl !! t with Some l => match l !! i with Some s => s_meta s | None => EMPTY end | None => EMPTY end.
Definition ln (sl : list (list slot)) (t : nat) : nat :=
  match sl !! t with Some l => length l | None => 0 end.
Definition upd2 (sl : list (list slot)) (t i : nat) (s : slot) : list (list slot) :=
  alter (λ l, <[i := s]> l) t sl.

Lemma en_oob sl t i : ln sl t ≤ i → en sl t i = NULLW.
Proof.
  unfold ln, en. destruct (sl !! t) as [l|]; [|auto]. intros H.
  rewrite (lookup_ge_None_2 l i) by exact H. reflexivity.
Qed.
Lemma mt_oob sl t i : ln sl t ≤ i → mt sl t i = EMPTY.
Proof.
  unfold ln, mt. destruct (sl !! t) as [l|]; [|auto]. intros H.
  rewrite (lookup_ge_None_2 l i) by exact H. reflexivity.
Qed.
Lemma ln_oob sl t : length sl ≤ t → ln sl t = 0.
Proof. unfold ln. intros H. rewrite (lookup_ge_None_2 sl t) by exact H. reflexivity. Qed.

Lemma upd2_length sl t i s : length (upd2 sl t i s) = length sl.
Proof. apply alter_length. Qed.
Lemma ln_upd2 sl t i s t' : ln (upd2 sl t i s) t' = ln sl t'.
Proof.
  unfold ln, upd2. destruct (decide (t = t')) as [->|Hn].
  - rewrite list_lookup_alter. destruct (sl !! t'); [|reflexivity]. cbn. apply insert_length.
  - rewrite list_lookup_alter_ne by exact Hn. reflexivity.
Qed.
Lemma en_upd2 sl t i s t' i' :
  i < ln sl t → en (upd2 sl t i s) t' i' = if decide (t' = t ∧ i' = i) then s_ent s else en sl t' i'.
Proof.
  unfold ln, en, upd2. intros H. destruct (decide (t = t')) as [->|Hn].
  - rewrite list_lookup_alter. destruct (sl !! t') as [l|]; [|lia]. cbn.
    case_decide as D.
    + destruct D as [_ ->]. rewrite list_lookup_insert by exact H. reflexivity.
    + rewrite list_lookup_insert_ne by naive_solver. reflexivity.
  - rewrite list_lookup_alter_ne by exact Hn. case_decide; [naive_solver|reflexivity].
Qed.
Lemma mt_upd2 sl t i s t' i' :
  i < ln sl t → mt (upd2 sl t i s) t' i' = if decide (t' = t ∧ i' = i) then s_meta s else mt sl t' i'.
Proof.
  unfold ln, mt, upd2. intros H. destruct (decide (t = t')) as [->|Hn].
  - rewrite list_lookup_alter. destruct (sl !! t') as [l|]; [|lia]. cbn.
    case_decide as D.
    + destruct D as [_ ->]. rewrite list_lookup_insert by exact H. reflexivity.
    + rewrite list_lookup_insert_ne by naive_solver. reflexivity.
  - rewrite list_lookup_alter_ne by exact Hn. case_decide; [naive_solver|reflexivity].
Qed.

Global Arguments en : simpl never.
Global Arguments mt : simpl never.
Global Arguments ln : simpl never.
Global Arguments upd2 : simpl never.

(** Appending an empty table. *)
Lemma en_app_new sl n t i : en (sl ++ [replicate n slot0]) t i = en sl t i.
Proof.
  unfold en. destruct (decide (t < length sl)) as [H|H].
  - rewrite lookup_app_l by exact H. reflexivity.
  - rewrite lookup_app_r by lia. rewrite (lookup_ge_None_2 sl t) by lia.
    destruct (t - length sl); cbn; [|reflexivity].
    destruct (replicate n slot0 !! i) eqn:E; [|reflexivity].
    apply lookup_replicate in E as [-> _]. reflexivity.
Qed.
Lemma mt_app_new sl n t i : mt (sl ++ [replicate n slot0]) t i = mt sl t i.
Proof.
  unfold mt. destruct (decide (t < length sl)) as [H|H].
  - rewrite lookup_app_l by exact H. reflexivity.
  - rewrite lookup_app_r by lia. rewrite (lookup_ge_None_2 sl t) by lia.
    destruct (t - length sl); cbn; [|reflexivity].
    destruct (replicate n slot0 !! i) eqn:E; [|reflexivity].
    apply lookup_replicate in E as [-> _]. reflexivity.
Qed.
Lemma ln_app_new sl n t :
  ln (sl ++ [replicate n slot0]) t = if decide (t = length sl) then n else ln sl t.
Proof.
  unfold ln. case_decide as D.
  - subst. rewrite lookup_app_r by lia. rewrite Nat.sub_diag. cbn. apply replicate_length.
  - destruct (decide (t < length sl)) as [H|H].
    + rewrite lookup_app_l by exact H. reflexivity.
    + rewrite (lookup_ge_None_2 (sl ++ _) t); [|rewrite app_length; cbn; lia].
      rewrite (lookup_ge_None_2 sl t) by lia. reflexivity.
Qed.

(** Field access with defaults. *)
Definition fld {A} (d : A) (l : list A) (t : nat) : A := default d (l !! t).
Lemma fld_insert {A} (d : A) l t x t' :
  t < length l → fld d (<[t := x]> l) t' = if decide (t' = t) then x else fld d l t'.
Proof.
  intros H. unfold fld. case_decide; subst.
  - rewrite list_lookup_insert by exact H. reflexivity.
  - rewrite list_lookup_insert_ne by congruence. reflexivity.
Qed.
Lemma fld_app {A} (d : A) l x t : fld d (l ++ [x]) t = if decide (t = length l) then x else fld d l t.
Proof.
  unfold fld. case_decide; subst.
  - rewrite lookup_app_r by lia. rewrite Nat.sub_diag. reflexivity.
  - destruct (decide (t < length l)).
    + rewrite lookup_app_l by lia. reflexivity.
    + rewrite (lookup_ge_None_2 (l ++ [x])) by (rewrite app_length; cbn; lia).
      rewrite (lookup_ge_None_2 l) by lia. reflexivity.
Qed.

Global Arguments fld : simpl never.

Section core.
  Context {K V : Type}.
  Notation state := (state K V). Notation core := (core K V).

  Definition core_of (σ : state) : core :=
    Core (map t_slots (tables σ)) (map t_limit (tables σ)) (map t_next (tables σ)) (map t_lock (tables σ))
         (map t_copied (tables σ)) (map t_claim (tables σ)) (map t_status (tables σ)) (root σ) (heap σ).

  Definition c_sl (f : list (list slot) → list (list slot)) (c : core) : core :=
    Core (f (k_sl c)) (k_lim c) (k_nx c) (k_lk c) (k_cd c) (k_cl c) (k_st c) (k_rt c) (k_hp c).
  Definition c_lk (f : list lockst → list lockst) (c : core) : core :=
    Core (k_sl c) (k_lim c) (k_nx c) (f (k_lk c)) (k_cd c) (k_cl c) (k_st c) (k_rt c) (k_hp c).
  Definition c_cd (f : list nat → list nat) (c : core) : core :=
    Core (k_sl c) (k_lim c) (k_nx c) (k_lk c) (f (k_cd c)) (k_cl c) (k_st c) (k_rt c) (k_hp c).
  Definition c_cl (f : list nat → list nat) (c : core) : core :=
    Core (k_sl c) (k_lim c) (k_nx c) (k_lk c) (k_cd c) (f (k_cl c)) (k_st c) (k_rt c) (k_hp c).
  Definition c_st (f : list status → list status) (c : core) : core :=
    Core (k_sl c) (k_lim c) (k_nx c) (k_lk c) (k_cd c) (k_cl c) (f (k_st c)) (k_rt c) (k_hp c).
  Definition c_rt (r : option nat) (c : core) : core :=
    Core (k_sl c) (k_lim c) (k_nx c) (k_lk c) (k_cd c) (k_cl c) (k_st c) r (k_hp c).
  Definition c_hp (f : list (K * V) → list (K * V)) (c : core) : core :=
    Core (k_sl c) (k_lim c) (k_nx c) (k_lk c) (k_cd c) (k_cl c) (k_st c) (k_rt c) (f (k_hp c)).
  Definition c_newtab (len : nat) (st : status) (nx : list (option nat) → list (option nat)) (c : core) : core :=
    Core (k_sl c ++ [replicate len slot0]) (k_lim c ++ [probe_limit len]) (nx (k_nx c) ++ [None]) (k_lk c ++ [LFree])
      (k_cd c ++ [0]) (k_cl c ++ [0]) (k_st c ++ [st]) (k_rt c) (k_hp c).

  (** All arrays have the same length. *)
  Definition nt (c : core) : nat := length (k_sl c).
  Definition lens (c : core) : Prop :=
    length (k_lim c) = nt c ∧ length (k_nx c) = nt c ∧ length (k_lk c) = nt c ∧
    length (k_cd c) = nt c ∧ length (k_cl c) = nt c ∧ length (k_st c) = nt c.
  Lemma core_of_lens σ : lens (core_of σ).
  Proof. unfold lens, nt. cbn. rewrite !map_length. auto 10. Qed.

  (** A handle agrees with the table it points to. *)
  Definition hvalid (c : core) (tb : tref) : Prop :=
    th tb < nt c ∧ th_mask tb = ln (k_sl c) (th tb) - 1 ∧ th_limit tb = fld 0 (k_lim c) (th tb).

  Lemma handle_valid σ t tbl : tables σ !! t = Some tbl → hvalid (core_of σ) (handle t tbl).
  Proof.
    intros H. unfold hvalid, nt, fld, ln. cbn. rewrite map_length, !list_lookup_fmap, H. cbn.
    split; [apply lookup_lt_is_Some; eauto|]. auto.
  Qed.

  (** Updating one table entry leaves the other arrays unchanged. *)
  Lemma map_insert_same {B} (f : table → B) (l : list table) t tb tb' :
    l !! t = Some tb → f tb' = f tb → map f (<[t := tb']> l) = map f l.
  Proof. intros H E. rewrite list_fmap_insert, E, list_insert_id; [reflexivity|]. rewrite list_lookup_fmap, H. reflexivity. Qed.
  Lemma map_insert_slot (l : list table) t tb i s :
    l !! t = Some tb →
    map t_slots (<[t := t_set_slots (<[i := s]>) tb]> l) = upd2 (map t_slots l) t i s.
  Proof.
    intros H. apply list_eq. intros j. unfold upd2. rewrite list_lookup_fmap.
    destruct (decide (t = j)) as [->|Hn].
    - rewrite list_lookup_insert by (apply lookup_lt_is_Some; eauto).
      rewrite list_lookup_alter, list_lookup_fmap, H. reflexivity.
    - rewrite list_lookup_insert_ne, list_lookup_alter_ne by exact Hn. rewrite list_lookup_fmap. reflexivity.
  Qed.

  Lemma with_slot_inv {A} t i σ (f : table → slot → outcome K V A) x σ' :
    with_slot t i σ f = Ok x σ' →
    ∃ tb s, tables σ !! t = Some tb ∧ t_freed tb = false ∧ t_slots tb !! i = Some s ∧ f tb s = Ok x σ' ∧
            i < ln (k_sl (core_of σ)) t ∧ t < nt (core_of σ) ∧
            s_ent s = en (k_sl (core_of σ)) t i ∧ s_meta s = mt (k_sl (core_of σ)) t i.
  Proof.
    unfold with_slot, with_table. destruct (tables σ !! t) as [tb|] eqn:E; [|discriminate].
    destruct (t_freed tb) eqn:F; [discriminate|]. destruct (t_slots tb !! i) as [s|] eqn:S; [|discriminate].
    intros H. exists tb, s. split_and!; try done.
    - unfold ln. cbn. rewrite list_lookup_fmap, E. cbn. apply lookup_lt_is_Some; eauto.
    - unfold nt. cbn. rewrite map_length. apply lookup_lt_is_Some; eauto.
    - unfold en. cbn. rewrite list_lookup_fmap, E. cbn. rewrite S. reflexivity.
    - unfold mt. cbn. rewrite list_lookup_fmap, E. cbn. rewrite S. reflexivity.
  Qed.

  Lemma with_table_inv {A} t σ (f : table → outcome K V A) x σ' :
    with_table t σ f = Ok x σ' →
    ∃ tb, tables σ !! t = Some tb ∧ t_freed tb = false ∧ f tb = Ok x σ' ∧ t < nt (core_of σ).
  Proof.
    unfold with_table. destruct (tables σ !! t) as [tb|] eqn:E; [|discriminate].
    destruct (t_freed tb) eqn:F; [discriminate|].
    intros H. exists tb. split_and!; try done. unfold nt. cbn. rewrite map_length. apply lookup_lt_is_Some; eauto.
  Qed.

  Lemma core_upd_slot σ t i tb s :
    tables σ !! t = Some tb →
    core_of (upd_slot t i tb s σ) = c_sl (λ sl, upd2 sl t i s) (core_of σ).
  Proof.
    intros H. unfold core_of, upd_slot, upd_table, c_sl, set_tables. cbn.
    rewrite (map_insert_slot _ _ _ _ _ H). f_equal; eapply map_insert_same; eauto.
  Qed.

  (** Updating a table in a way that keeps all core fields. *)
  Lemma core_upd_other σ t tb tb' :
    tables σ !! t = Some tb →
    t_slots tb' = t_slots tb → t_limit tb' = t_limit tb → t_next tb' = t_next tb → t_lock tb' = t_lock tb →
    t_copied tb' = t_copied tb → t_claim tb' = t_claim tb → t_status tb' = t_status tb →
    core_of (upd_table t tb' σ) = core_of σ.
  Proof.
    intros H ? ? ? ? ? ? ?. unfold core_of, upd_table, set_tables. cbn.
    f_equal; eapply map_insert_same; eauto.
  Qed.

  Ltac core_tab H := unfold core_of, upd_table, set_tables, c_lk, c_cd, c_cl, c_st; cbn; f_equal;
    first [eapply map_insert_same; [exact H|reflexivity]
          | exact (list_fmap_insert _ _ _ _)].
  Lemma core_upd_lock σ t tb x : tables σ !! t = Some tb →
    core_of (upd_table t (t_set_lock x tb) σ) = c_lk (<[t := x]>) (core_of σ).
  Proof. intros H. core_tab H. Qed.
  Lemma core_upd_copied σ t tb x : tables σ !! t = Some tb →
    core_of (upd_table t (t_set_copied x tb) σ) = c_cd (<[t := x]>) (core_of σ).
  Proof. intros H. core_tab H. Qed.
  Lemma core_upd_claim σ t tb x : tables σ !! t = Some tb →
    core_of (upd_table t (t_set_claim x tb) σ) = c_cl (<[t := x]>) (core_of σ).
  Proof. intros H. core_tab H. Qed.
  Lemma core_upd_status σ t tb x : tables σ !! t = Some tb →
    core_of (upd_table t (t_set_status x tb) σ) = c_st (<[t := x]>) (core_of σ).
  Proof. intros H. core_tab H. Qed.
  Lemma core_upd_parker σ t tb x : tables σ !! t = Some tb →
    core_of (upd_table t (t_set_parker x tb) σ) = core_of σ.
  Proof. intros H. eapply core_upd_other; eauto. Qed.
  Lemma core_upd_deferred σ t tb x : tables σ !! t = Some tb →
    core_of (upd_table t (t_set_deferred x tb) σ) = core_of σ.
  Proof. intros H. eapply core_upd_other; eauto. Qed.

  Lemma core_fld_table σ t tb : tables σ !! t = Some tb →
    fld None (k_nx (core_of σ)) t = t_next tb ∧ fld LFree (k_lk (core_of σ)) t = t_lock tb ∧
    fld 0 (k_cd (core_of σ)) t = t_copied tb ∧ fld 0 (k_cl (core_of σ)) t = t_claim tb ∧
    fld PENDING (k_st (core_of σ)) t = t_status tb ∧ fld 0 (k_lim (core_of σ)) t = t_limit tb.
  Proof. intros H. unfold fld. cbn. rewrite !list_lookup_fmap, H. cbn. auto 10. Qed.

  (** ** Effects of the actions *)
  Definition effect {A} (f : action K V A) (E : nat → core → A → core → Prop) : Prop :=
    ∀ me o σ x σ', f me o σ = Ok x σ' → E me (core_of σ) x (core_of σ').

  Definition inb (c : core) (t i : nat) : Prop := t < nt c ∧ i < ln (k_sl c) t.

  Lemma eff_load_meta tb i : effect (a_load_meta tb i) (λ _ c x c', c' = c ∧ inb c (th tb) i ∧ x = mt (k_sl c) (th tb) i).
  Proof. intros me o σ x σ' H. apply with_slot_inv in H as (t & s & ? & ? & ? & [= <- <-] & ? & ? & ? & ?). split_and!; done. Qed.
  Lemma eff_load_ent tb i : effect (a_load_ent tb i) (λ _ c x c', c' = c ∧ inb c (th tb) i ∧ x = en (k_sl c) (th tb) i).
  Proof. intros me o σ x σ' H. apply with_slot_inv in H as (t & s & ? & ? & ? & [= <- <-] & ? & ? & ? & ?). split_and!; done. Qed.
  Lemma eff_store_meta tb i m : effect (a_store_meta tb i m) (λ _ c x c', inb c (th tb) i ∧
    c' = c_sl (λ sl, upd2 sl (th tb) i (Slot m (en sl (th tb) i))) c).
  Proof.
    intros me o σ x σ' H. apply with_slot_inv in H as (t & s & ? & ? & ? & [= <- <-] & ? & ? & E & ?).
    split; [done|]. rewrite core_upd_slot by done. unfold set_meta. rewrite E. reflexivity.
  Qed.
  Lemma eff_store_ent tb i e : effect (a_store_ent tb i e) (λ _ c x c', inb c (th tb) i ∧
    c' = c_sl (λ sl, upd2 sl (th tb) i (Slot (mt sl (th tb) i) e)) c).
  Proof.
    intros me o σ x σ' H. apply with_slot_inv in H as (t & s & ? & ? & ? & [= <- <-] & ? & ? & ? & E).
    split; [done|]. rewrite core_upd_slot by done. unfold set_ent. rewrite E. reflexivity.
  Qed.
  Lemma eff_fetch_or tb i : effect (a_fetch_or_copying tb i) (λ _ c x c', inb c (th tb) i ∧ x = en (k_sl c) (th tb) i ∧
    c' = c_sl (λ sl, upd2 sl (th tb) i (Slot (mt sl (th tb) i) (set_copying (en sl (th tb) i)))) c).
  Proof.
    intros me o σ x σ' H. apply with_slot_inv in H as (t & s & ? & ? & ? & [= <- <-] & ? & ? & E1 & E).
    split; [done|]. split; [done|]. rewrite core_upd_slot by done. unfold set_ent. rewrite E, E1. reflexivity.
  Qed.
  Lemma eff_cas_ent weak tb i e n : effect (a_cas_ent weak tb i e n) (λ _ c x c', inb c (th tb) i ∧
    match x with
    | inl _ => en (k_sl c) (th tb) i = e ∧ c' = c_sl (λ sl, upd2 sl (th tb) i (Slot (mt sl (th tb) i) n)) c
    | inr f => f = en (k_sl c) (th tb) i ∧ (weak = false → f ≠ e) ∧ c' = c
    end).
  Proof.
    intros me o σ x σ' H. apply with_slot_inv in H as (t & s & ? & ? & ? & H & ? & ? & E1 & E).
    split; [done|]. destruct (exp_freed e σ); [discriminate|]. case_decide as D; injection H as <- <-.
    - destruct D as [D _]. split; [congruence|]. rewrite core_upd_slot by done. unfold set_ent. rewrite E. reflexivity.
    - split; [done|]. split; [|done]. intros ->. intros Hf. apply D. split; [done|]. intros [? _]. discriminate.
  Qed.
  Lemma eff_cas_pub weak tb i e kv : effect (a_cas_pub weak tb i e kv) (λ _ c x c', inb c (th tb) i ∧
    match x with
    | inl p => p = length (k_hp c) ∧ en (k_sl c) (th tb) i = e ∧
        c' = c_hp (λ h, h ++ [kv]) (c_sl (λ sl, upd2 sl (th tb) i (Slot (mt sl (th tb) i) (EW (Some (length (k_hp c))) false false false))) c)
    | inr f => f = en (k_sl c) (th tb) i ∧ (weak = false → f ≠ e) ∧ c' = c
    end).
  Proof.
    intros me o σ x σ' H. apply with_slot_inv in H as (t & s & ? & ? & ? & H & ? & ? & E1 & E).
    split; [done|]. destruct (exp_freed e σ); [discriminate|]. case_decide as D; injection H as <- <-.
    - destruct D as [D _]. split; [done|]. split; [congruence|].
      transitivity (c_hp (λ h, h ++ [kv]) (core_of (upd_slot (th tb) i t (set_ent (EW (Some (length (heap σ))) false false false) s) σ))); [reflexivity|].
      rewrite core_upd_slot by done. unfold set_ent. rewrite E. reflexivity.
    - split; [done|]. split; [|done]. intros ->. intros Hf. apply D. split; [done|]. intros [? _]. discriminate.
  Qed.
  Lemma eff_deref p : effect (a_deref p) (λ _ c x c', c' = c ∧ k_hp c !! p = Some x).
  Proof.
    intros me o σ x σ'. unfold a_deref. case_decide; [discriminate|].
    destruct (heap σ !! p) eqn:E; [|discriminate]. intros [= <- <-]. done.
  Qed.
  Lemma eff_root : effect a_root (λ _ c x c', c' = c ∧
    match x with None => k_rt c = None | Some tb => k_rt c = Some (th tb) ∧ hvalid c tb end).
  Proof.
    intros me o σ x σ'. unfold a_root. destruct (root σ) as [t|] eqn:R.
    - intros H. apply with_table_inv in H as (tb & Ht & _ & [= <- <-] & _). split; [done|]. split; [done|].
      by apply handle_valid.
    - intros [= <- <-]. done.
  Qed.
  Lemma eff_root_raw : effect a_root_raw (λ _ c x c', c' = c ∧ x = k_rt c).
  Proof. intros me o σ x σ' [= <- <-]. done. Qed.
  Lemma eff_next tb : effect (a_next tb) (λ _ c x c', c' = c ∧ th tb < nt c ∧
    match x with None => fld None (k_nx c) (th tb) = None
               | Some tb' => fld None (k_nx c) (th tb) = Some (th tb') ∧ hvalid c tb' end).
  Proof.
    intros me o σ x σ' H. apply with_table_inv in H as (t & Ht & _ & H & Hlt).
    pose proof (core_fld_table _ _ _ Ht) as (Hn & _). destruct (t_next t) as [t'|] eqn:N.
    - apply with_table_inv in H as (t2 & Ht2 & _ & [= <- <-] & _).
      split; [done|]. split; [done|]. split; [done|]. by apply handle_valid.
    - injection H as <- <-. done.
  Qed.
  Ltac tab_eff lem := 
    let me := fresh in let o := fresh in let σ := fresh "σ" in let x := fresh "x" in let σ' := fresh "σ'" in
    let H := fresh "H" in let t := fresh "t" in let Ht := fresh "Ht" in let Hlt := fresh "Hlt" in
    intros me o σ x σ' H; apply with_table_inv in H as (t & Ht & _ & [= <- <-] & Hlt);
    pose proof (core_fld_table _ _ _ Ht) as (? & ? & ? & ? & ? & ?);
    split_and!; try done; try congruence; rewrite ?lem by done; try congruence; try done.
  Lemma eff_load_copied tb : effect (a_load_copied tb) (λ _ c x c', c' = c ∧ th tb < nt c ∧ x = fld 0 (k_cd c) (th tb)).
  Proof. tab_eff core_upd_copied. Qed.
  Lemma eff_add_copied tb n : effect (a_add_copied tb n) (λ _ c x c', th tb < nt c ∧ x = fld 0 (k_cd c) (th tb) ∧
    c' = c_cd (<[th tb := x + n]>) c).
  Proof. tab_eff core_upd_copied. Qed.
  Lemma eff_load_claim tb : effect (a_load_claim tb) (λ _ c x c', c' = c ∧ th tb < nt c ∧ x = fld 0 (k_cl c) (th tb)).
  Proof. tab_eff core_upd_claim. Qed.
  Lemma eff_add_claim tb n : effect (a_add_claim tb n) (λ _ c x c', th tb < nt c ∧ x = fld 0 (k_cl c) (th tb) ∧
    c' = c_cl (<[th tb := x + n]>) c).
  Proof. tab_eff core_upd_claim. Qed.
  Lemma eff_load_status tb : effect (a_load_status tb) (λ _ c x c', c' = c ∧ th tb < nt c ∧ x = fld PENDING (k_st c) (th tb)).
  Proof. tab_eff core_upd_claim. Qed.
  Lemma eff_store_status tb s : effect (a_store_status tb s) (λ _ c x c', th tb < nt c ∧ c' = c_st (<[th tb := s]>) c).
  Proof. tab_eff core_upd_status. Qed.
  Lemma eff_try_lock tb : effect (a_try_lock tb) (λ me c x c', th tb < nt c ∧
    if x then fld LFree (k_lk c) (th tb) = LFree ∧ c' = c_lk (<[th tb := LHeld me]>) c else c' = c).
  Proof.
    intros me o σ x σ' H. apply with_table_inv in H as (t & Ht & _ & H & Hlt).
    pose proof (core_fld_table _ _ _ Ht) as (_ & Hl & _). split; [done|].
    destruct (t_lock t); injection H as <- <-; try done. split; [done|]. by apply core_upd_lock.
  Qed.
  Lemma eff_lock tb : effect (a_lock tb) (λ me c x c', th tb < nt c ∧
    if x then fld LFree (k_lk c) (th tb) = LFree ∧ c' = c_lk (<[th tb := LHeld me]>) c
    else fld LFree (k_lk c) (th tb) = LPoisoned ∧ c' = c).
  Proof.
    intros me o σ x σ' H. apply with_table_inv in H as (t & Ht & _ & H & Hlt).
    pose proof (core_fld_table _ _ _ Ht) as (_ & Hl & _). split; [done|].
    destruct (t_lock t); try discriminate; injection H as <- <-; try done. split; [done|]. by apply core_upd_lock.
  Qed.
  Lemma eff_unlock tb : effect (a_unlock tb) (λ _ c x c', th tb < nt c ∧ c' = c_lk (<[th tb := LFree]>) c).
  Proof. tab_eff core_upd_lock. Qed.
  Lemma eff_poison tb : effect (a_poison tb) (λ _ c x c', th tb < nt c ∧ c' = c_lk (<[th tb := LPoisoned]>) c).
  Proof. tab_eff core_upd_lock. Qed.
  Lemma eff_publish_next tb len : effect (a_publish_next tb len) (λ _ c x c', th tb < nt c ∧
    c' = c_newtab len PENDING (<[th tb := Some (nt c)]>) c ∧ x = TRef (nt c) (len - 1) (probe_limit len)).
  Proof.
    intros me o σ x σ' H. apply with_table_inv in H as (t & Ht & _ & [= <- <-] & Hlt). split; [done|]. split.
    - unfold core_of, c_newtab, upd_table, set_tables. cbn.
      rewrite !map_app. cbn.
      f_equal; f_equal; try (eapply map_insert_same; [exact Ht|reflexivity]).
      rewrite list_fmap_insert. cbn. unfold nt. cbn. rewrite map_length. reflexivity.
    - unfold handle, nt, t_len. cbn. rewrite map_length, replicate_length. reflexivity.
  Qed.
  Lemma eff_init len : effect (a_init len) (λ _ c x c',
    match k_rt c with
    | None => c' = c_rt (Some (nt c)) (c_newtab len PROMOTED id c) ∧ x = TRef (nt c) (len - 1) (probe_limit len)
    | Some t => c' = c ∧ th x = t ∧ hvalid c x
    end).
  Proof.
    intros me o σ x σ'. unfold a_init. cbn. destruct (root σ) as [t|] eqn:R.
    - intros H. apply with_table_inv in H as (tb & Ht & _ & [= <- <-] & _). split; [done|]. split; [done|]. by apply handle_valid.
    - intros [= <- <-]. split.
      + unfold core_of, c_newtab, c_rt, set_tables, set_root. cbn. rewrite !map_app. cbn.
        unfold nt. cbn. rewrite map_length. reflexivity.
      + unfold handle, nt, t_len. cbn. rewrite map_length, replicate_length. reflexivity.
  Qed.
  Lemma eff_cas_root tb next : effect (a_cas_root tb next) (λ _ c x c',
    if x then k_rt c = Some (th tb) ∧ c' = c_rt (Some (th next)) c else c' = c ∧ k_rt c ≠ Some (th tb)).
  Proof.
    intros me o σ x σ'. unfold a_cas_root. cbn. case_decide; intros [= <- <-]; done.
  Qed.

  (** Actions that do not touch the core. *)
  Definition inert {A} (f : action K V A) : Prop := ∀ me o σ x σ', f me o σ = Ok x σ' → core_of σ' = core_of σ.
  Lemma inert_count d : inert (a_count d).
  Proof. intros me o σ x σ' [= <- <-]. reflexivity. Qed.
  Lemma inert_load_shard j : inert (a_load_shard j).
  Proof. intros me o σ x σ' [= <- <-]. reflexivity. Qed.
  Lemma inert_shards : inert a_shards.
  Proof. intros me o σ x σ' [= <- <-]. reflexivity. Qed.
  Lemma inert_retire ob : inert (a_retire ob).
  Proof. intros me o σ x σ'. unfold a_retire. case_decide; [discriminate|]. intros [= <- <-]. reflexivity. Qed.
  Ltac inert_tab := 
    let me := fresh in let o := fresh in let σ := fresh "σ" in let x := fresh "x" in let σ' := fresh "σ'" in
    let H := fresh "H" in let t := fresh "t" in let Ht := fresh "Ht" in let Hlt := fresh "Hlt" in
    intros me o σ x σ' H; apply with_table_inv in H as (t & Ht & _ & [= <- <-] & Hlt);
    first [reflexivity | (by apply core_upd_parker) | (by apply core_upd_deferred)].
  Lemma inert_defer tb p : inert (a_defer tb p).
  Proof. inert_tab. Qed.
  Lemma inert_pk_announce tb d : inert (a_pk_announce tb d).
  Proof. inert_tab. Qed.
  Lemma inert_pk_register tb k : inert (a_pk_register tb k).
  Proof. inert_tab. Qed.
  Lemma inert_pk_remove tb k i : inert (a_pk_remove tb k i).
  Proof. inert_tab. Qed.
  Lemma inert_pk_contains tb k i : inert (a_pk_contains tb k i).
  Proof. inert_tab. Qed.
  Lemma inert_pk_pending tb : inert (a_pk_pending tb).
  Proof. inert_tab. Qed.
  Lemma inert_pk_take tb k : inert (a_pk_take tb k).
  Proof. inert_tab. Qed.
  Lemma inert_park : inert a_park.
  Proof. intros me o σ x σ'. unfold a_park. destruct o; [intros [= <- <-]; reflexivity|].
    case_decide; [|discriminate]. intros [= <- <-]. reflexivity. Qed.
  Lemma inert_unpark j : inert (a_unpark j).
  Proof. intros me o σ x σ' [= <- <-]. reflexivity. Qed.
End core.
