(** The rest of the shared state: reclamation bookkeeping and counters; how the primitive actions change it and when
    they have no undefined behaviour. *)
From Verif Require Export Core Model.

Record side := Side {
  d_fr : list bool;         (* per table: deallocated? *)
  d_df : list (list nat);   (* per table: deferred entries *)
  d_ret : list ritem; d_ever : list robj; d_freed : list nat; d_pins : list nat; d_cnt : list Z }.

Section side.
  Context {K V : Type} {Keq : EqDecision K}.
  Notation state := (state K V). Notation core := (core K V).

  Definition side_of (σ : state) : side :=
    Side (map t_freed (tables σ)) (map t_deferred (tables σ)) (retired σ) (retired_ever σ) (freed σ) (pins σ) (counts σ).
  Definition d_newtab (s : side) : side :=
    Side (d_fr s ++ [false]) (d_df s ++ [[]]) (d_ret s) (d_ever s) (d_freed s) (d_pins s) (d_cnt s).
  Definition d_retire (o : robj) (s : side) : side :=
    Side (d_fr s) (d_df s) (d_ret s ++ [RItem o (d_pins s)]) (o :: d_ever s) (d_freed s) (d_pins s) (d_cnt s).
  Definition d_defer (t p : nat) (s : side) : side :=
    Side (d_fr s) (<[t := p :: fld [] (d_df s) t]> (d_df s)) (d_ret s) (d_ever s) (d_freed s) (d_pins s) (d_cnt s).
  Definition d_count (me : nat) (d : Z) (s : side) : side :=
    Side (d_fr s) (d_df s) (d_ret s) (d_ever s) (d_freed s) (d_pins s)
      (alter (λ c, c + d)%Z (Nat.land me (length (d_cnt s) - 1)) (d_cnt s)).

  Lemma side_lens σ : length (d_fr (side_of σ)) = nt (core_of σ) ∧ length (d_df (side_of σ)) = nt (core_of σ).
  Proof. unfold nt. cbn. rewrite !map_length. auto. Qed.

  Lemma side_upd σ t tb tb' : tables σ !! t = Some tb → t_freed tb' = t_freed tb → t_deferred tb' = t_deferred tb →
    side_of (upd_table t tb' σ) = side_of σ.
  Proof. intros H A B. unfold side_of, upd_table. cbn. by rewrite !(map_insert_same _ _ _ _ _ H). Qed.

  (** What a side-neutral action does. *)
  Definition sneutral {A} (f : action K V A) : Prop := ∀ me o σ x σ', f me o σ = Ok x σ' → side_of σ' = side_of σ.

  Ltac sn_tab := let H := fresh in let tb := fresh in let Ht := fresh in
    intros ? ? ? ? ? H; apply with_table_inv in H as (tb & Ht & _ & [= <- <-] & _);
    first [reflexivity | (by eapply side_upd)].
  Ltac sn_slot := let H := fresh in let tb := fresh in let s := fresh in let Ht := fresh in
    intros ? ? ? ? ? H; apply with_slot_inv in H as (tb & s & Ht & _ & _ & [= <- <-] & _);
    first [reflexivity | (by eapply side_upd)].

  Lemma sn_load_meta tb i : sneutral (a_load_meta tb i). Proof. sn_slot. Qed.
  Lemma sn_load_ent tb i : sneutral (a_load_ent tb i). Proof. sn_slot. Qed.
  Lemma sn_store_meta tb i m : sneutral (a_store_meta tb i m). Proof. sn_slot. Qed.
  Lemma sn_store_ent tb i m : sneutral (a_store_ent tb i m). Proof. sn_slot. Qed.
  Lemma sn_fetch_or tb i : sneutral (a_fetch_or_copying tb i). Proof. sn_slot. Qed.
  Lemma sn_cas_ent w tb i e n : sneutral (a_cas_ent w tb i e n).
  Proof.
    intros ? ? ? ? ? H. apply with_slot_inv in H as (t & s & Ht & _ & _ & H & _). destruct (exp_freed _ _); [done|].
    case_decide; injection H as <- <-; [by eapply side_upd|done].
  Qed.
  Lemma sn_cas_pub w tb i e kv : sneutral (a_cas_pub w tb i e kv).
  Proof.
    intros ? ? ? ? ? H. apply with_slot_inv in H as (t & s & Ht & _ & _ & H & _). destruct (exp_freed _ _); [done|].
    case_decide; injection H as <- <-; [|done].
    etrans; [|eapply (side_upd _ _ _ (t_set_slots (<[i:=_]>) t) Ht); done]. reflexivity.
  Qed.
  Lemma sn_deref p : sneutral (a_deref p).
  Proof. intros ? ? σ ? ?. unfold a_deref. case_decide; [done|]. destruct (heap σ !! p); [|done]. intros [= <- <-]. done. Qed.
  Lemma sn_root : sneutral a_root.
  Proof. intros ? ? σ ? ?. unfold a_root. destruct (root σ); [|intros [= <- <-]; done].
    intros H. by apply with_table_inv in H as (? & _ & _ & [= <- <-] & _). Qed.
  Lemma sn_root_raw : sneutral a_root_raw.
  Proof. intros ? ? σ ? ? [= <- <-]. done. Qed.
  Lemma sn_next tb : sneutral (a_next tb).
  Proof. intros ? ? σ ? ? H. apply with_table_inv in H as (t & _ & _ & H & _). destruct (t_next t); [|by injection H as <- <-].
    by apply with_table_inv in H as (? & _ & _ & [= <- <-] & _). Qed.
  Lemma sn_load_copied tb : sneutral (a_load_copied tb). Proof. sn_tab. Qed.
  Lemma sn_add_copied tb n : sneutral (a_add_copied tb n). Proof. sn_tab. Qed.
  Lemma sn_load_claim tb : sneutral (a_load_claim tb). Proof. sn_tab. Qed.
  Lemma sn_add_claim tb n : sneutral (a_add_claim tb n). Proof. sn_tab. Qed.
  Lemma sn_load_status tb : sneutral (a_load_status tb). Proof. sn_tab. Qed.
  Lemma sn_store_status tb x : sneutral (a_store_status tb x). Proof. sn_tab. Qed.
  Lemma sn_try_lock tb : sneutral (a_try_lock tb).
  Proof. intros ? ? σ ? ? H. apply with_table_inv in H as (t & Ht & _ & H & _).
    destruct (t_lock t); injection H as <- <-; first [done|by eapply side_upd]. Qed.
  Lemma sn_lock tb : sneutral (a_lock tb).
  Proof. intros ? ? σ ? ? H. apply with_table_inv in H as (t & Ht & _ & H & _).
    destruct (t_lock t); try done; injection H as <- <-; first [done|by eapply side_upd]. Qed.
  Lemma sn_unlock tb : sneutral (a_unlock tb). Proof. sn_tab. Qed.
  Lemma sn_poison tb : sneutral (a_poison tb). Proof. sn_tab. Qed.
  Lemma sn_cas_root tb n : sneutral (a_cas_root tb n).
  Proof. intros ? ? σ ? ?. unfold a_cas_root. case_decide; intros [= <- <-]; done. Qed.
  Lemma sn_load_shard j : sneutral (a_load_shard j). Proof. intros ? ? σ ? ? [= <- <-]. done. Qed.
  Lemma sn_shards : sneutral a_shards. Proof. intros ? ? σ ? ? [= <- <-]. done. Qed.
  Lemma sn_pk_announce tb d : sneutral (a_pk_announce tb d). Proof. sn_tab. Qed.
  Lemma sn_pk_register tb k : sneutral (a_pk_register tb k). Proof. sn_tab. Qed.
  Lemma sn_pk_remove tb k i : sneutral (a_pk_remove tb k i). Proof. sn_tab. Qed.
  Lemma sn_pk_contains tb k i : sneutral (a_pk_contains tb k i). Proof. sn_tab. Qed.
  Lemma sn_pk_pending tb : sneutral (a_pk_pending tb). Proof. sn_tab. Qed.
  Lemma sn_pk_take tb k : sneutral (a_pk_take tb k). Proof. sn_tab. Qed.
  Lemma sn_park : sneutral a_park.
  Proof. intros ? o σ ? ?. unfold a_park. destruct o; [intros [= <- <-]; done|]. case_decide; [|done]. intros [= <- <-]. done. Qed.
  Lemma sn_unpark j : sneutral (a_unpark j). Proof. intros ? ? σ ? ? [= <- <-]. done. Qed.
  Lemma sn_should_park tb k : sneutral (a_should_park tb k).
  Proof. destruct k; [sn_tab|sn_slot]. Qed.

  Lemma inert_should_park tb k : inert (K:=K) (V:=V) (a_should_park tb k).
  Proof.
    destruct k; intros ? ? ? ? ? H.
    - by apply with_table_inv in H as (? & _ & _ & [= <- <-] & _).
    - by apply with_slot_inv in H as (? & ? & _ & _ & _ & [= <- <-] & _).
  Qed.
  Lemma eff_should_park tb k : effect (K:=K) (V:=V) (a_should_park tb k) (λ _ c x c', c' = c ∧ th tb < nt c ∧
    match k with
    | KStatus => x = bool_decide (fld PENDING (k_st c) (th tb) = PENDING)
    | KEntry i => inb c (th tb) i ∧ x = negb (e_copied (en (k_sl c) (th tb) i))
    end).
  Proof.
    destruct k; intros me o σ x σ' H.
    - apply with_table_inv in H as (t & Ht & _ & [= <- <-] & Hlt).
      pose proof (core_fld_table _ _ _ Ht) as (? & ? & ? & ? & E & ?). rewrite E. auto.
    - apply with_slot_inv in H as (t & s & ? & ? & ? & [= <- <-] & ? & ? & E & ?). rewrite <- E. split_and!; auto. split; auto.
  Qed.

  (** The actions that change the side state. *)
  Lemma sd_publish_next tb len me o σ x σ' : a_publish_next (K:=K) (V:=V) tb len me o σ = Ok x σ' →
    side_of σ' = d_newtab (side_of σ).
  Proof.
    intros H. apply with_table_inv in H as (t & Ht & _ & [= <- <-] & Hlt).
    unfold side_of, d_newtab. cbn. rewrite !map_app. cbn. by rewrite !(map_insert_same _ _ _ _ _ Ht).
  Qed.
  Lemma sd_init len me o σ x σ' : a_init (K:=K) (V:=V) len me o σ = Ok x σ' →
    side_of σ' = match k_rt (core_of σ) with None => d_newtab (side_of σ) | Some _ => side_of σ end.
  Proof.
    unfold a_init. cbn. destruct (root σ) as [t|] eqn:R.
    - intros H. by apply with_table_inv in H as (? & _ & _ & [= <- <-] & _).
    - intros [= <- <-]. unfold side_of, d_newtab. cbn. by rewrite !map_app.
  Qed.
  Lemma sd_count d me o σ x σ' : a_count (K:=K) (V:=V) d me o σ = Ok x σ' → side_of σ' = d_count me d (side_of σ).
  Proof. intros [= <- <-]. done. Qed.
  Lemma sd_retire ob me o σ x σ' : a_retire (K:=K) (V:=V) ob me o σ = Ok x σ' → side_of σ' = d_retire ob (side_of σ).
  Proof. unfold a_retire. case_decide; [done|]. intros [= <- <-]. done. Qed.
  Lemma sd_defer tb p me o σ x σ' : a_defer (K:=K) (V:=V) tb p me o σ = Ok x σ' → side_of σ' = d_defer (th tb) p (side_of σ).
  Proof.
    intros H. apply with_table_inv in H as (t & Ht & _ & [= <- <-] & Hlt).
    unfold side_of, d_defer, upd_table. cbn. rewrite (map_insert_same t_freed _ _ _ _ Ht) by done. f_equal.
    rewrite list_fmap_insert. cbn. unfold fld. by rewrite list_lookup_fmap, Ht.
  Qed.

  (** ** Absence of undefined behaviour *)
  Definition tok (s : side) (t : nat) : Prop := d_fr s !! t = Some false.
  Lemma tok_inv σ t : tok (side_of σ) t → ∃ tb, tables σ !! t = Some tb ∧ t_freed tb = false ∧ t < nt (core_of σ).
  Proof.
    unfold tok. cbn. rewrite list_lookup_fmap. destruct (tables σ !! t) as [tb|] eqn:E; [|done]. intros [= F]. exists tb.
    split_and!; auto. unfold nt. cbn. rewrite map_length. by eapply lookup_lt_Some.
  Qed.
  Lemma nub_table {A} t σ (f : table → outcome K V A) : tok (side_of σ) t → (∀ tb, f tb ≠ UB) → with_table t σ f ≠ UB.
  Proof. intros H Hf. unfold with_table. destruct (tok_inv _ _ H) as (tb & E & F & _). rewrite E. cbv beta iota. rewrite F. auto. Qed.
  Lemma nub_slot {A} t i σ (f : table → slot → outcome K V A) : tok (side_of σ) t → i < ln (k_sl (core_of σ)) t →
    (∀ tb s, f tb s ≠ UB) → with_slot t i σ f ≠ UB.
  Proof.
    intros H L Hf. unfold with_slot, with_table. destruct (tok_inv _ _ H) as (tb & E & F & _). rewrite E. cbv beta iota. rewrite F.
    unfold ln in L. cbn in L. rewrite list_lookup_fmap, E in L. cbn in L.
    destruct (lookup_lt_is_Some_2 _ _ L) as [s ->]. auto.
  Qed.
  Lemma nub_cas_ent me o σ w tb i e n : tok (side_of σ) (th tb) → i < ln (k_sl (core_of σ)) (th tb) →
    (∀ p, e_ptr e = Some p → p ∉ d_freed (side_of σ)) → a_cas_ent (K:=K) (V:=V) w tb i e n me o σ ≠ UB.
  Proof.
    intros H L F. apply nub_slot; auto. intros t s. unfold exp_freed. destruct (e_ptr e) as [p|].
    - rewrite bool_decide_false by (by apply F). by case_decide.
    - by case_decide.
  Qed.
  Lemma nub_cas_pub me o σ w tb i e kv : tok (side_of σ) (th tb) → i < ln (k_sl (core_of σ)) (th tb) →
    (∀ p, e_ptr e = Some p → p ∉ d_freed (side_of σ)) → a_cas_pub (K:=K) (V:=V) w tb i e kv me o σ ≠ UB.
  Proof.
    intros H L F. apply nub_slot; auto. intros t s. unfold exp_freed. destruct (e_ptr e) as [p|].
    - rewrite bool_decide_false by (by apply F). by case_decide.
    - by case_decide.
  Qed.
  Lemma nub_deref me o σ p : p ∉ d_freed (side_of σ) → p < length (k_hp (core_of σ)) → a_deref (K:=K) (V:=V) p me o σ ≠ UB.
  Proof. intros H L. unfold a_deref. rewrite decide_False by done. destruct (lookup_lt_is_Some_2 _ _ L) as [x E]. cbn in E. by rewrite E. Qed.
  Lemma nub_root me o σ : (∀ t, k_rt (core_of σ) = Some t → tok (side_of σ) t) → a_root (K:=K) (V:=V) me o σ ≠ UB.
  Proof. intros H. unfold a_root. cbn in *. destruct (root σ) as [t|]; [|done]. by apply nub_table; auto. Qed.
  Lemma nub_next me o σ tb : tok (side_of σ) (th tb) →
    (∀ t, fld None (k_nx (core_of σ)) (th tb) = Some t → tok (side_of σ) t) → a_next (K:=K) (V:=V) tb me o σ ≠ UB.
  Proof.
    intros H N. unfold a_next, with_table. destruct (tok_inv _ _ H) as (t & E & F & _). rewrite E. cbv beta iota. rewrite F.
    pose proof (core_fld_table _ _ _ E) as (En & _). destruct (t_next t) as [t'|]; [|done].
    apply nub_table; [by apply N|done].
  Qed.
  Lemma nub_retire me o σ ob : ob ∉ d_ever (side_of σ) → a_retire (K:=K) (V:=V) ob me o σ ≠ UB.
  Proof. intros H. unfold a_retire. by rewrite decide_False. Qed.
  Lemma nub_init me o σ len : (∀ t, k_rt (core_of σ) = Some t → tok (side_of σ) t) → a_init (K:=K) (V:=V) len me o σ ≠ UB.
  Proof. intros H. unfold a_init. cbn in *. destruct (root σ) as [t|]; [|done]. by apply nub_table; auto. Qed.
  Lemma nub_park me o σ : a_park (K:=K) (V:=V) me o σ ≠ UB.
  Proof. unfold a_park. destruct o; [done|]. by case_decide. Qed.
End side.
