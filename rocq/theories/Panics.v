(** C47: a single-key call that panics (the closure given to [compute], [update], [get_or_insert_with]... panics, or asks to remove an absent
    entry) has no effect on the map: the histories of the map can be explained without it, and stay explained when it is erased. *)
From Verif Require Import Main1 Main2 Main3 Main4 IncMach7 Findings DropEx.

Section erase.
  Context {K V : Type} {Keq : EqDecision K}.
  Notation hevent := (hevent K V). Notation lact := (@lact K V).
  Implicit Types (H : list hevent).
  (** The single-key calls that panic. *)
  Definition panicked H : list nat := omap (λ e, match e with HPanic _ id o _ => match key_of o with Some _ => Some id | None => None end | _ => None end) H.
  Definition kept (P : list nat) (e : hevent) : Prop := match e with HInv _ id _ | HPanic _ id _ _ => id ∉ P | _ => True end.
  Global Instance kept_dec P e : Decision (kept P e).
  Proof. destruct e; cbn; apply _. Defined.
  (** The history as seen by somebody who does not know that these calls were made: their invocations and their panics are erased. *)
  Definition erase H : list hevent := filter (kept (panicked H)) H.

  Lemma panicked_spec H id : id ∈ panicked H ↔ ∃ h i o why, H !! h = Some (HPanic i id o why) ∧ key_of o ≠ None.
  Proof.
    unfold panicked. rewrite elem_of_list_omap. split.
    - intros (e & He & E). apply elem_of_list_lookup in He as [h He]. destruct e as [| |i id' o why| |]; try done. destruct (key_of o) eqn:Ek; [|done].
      injection E as ->. exists h, i, o, why. by rewrite Ek.
    - intros (h & i & o & why & E & Ek). exists (HPanic i id o why). split; [by eapply elem_of_list_lookup_2|]. by destruct (key_of o).
  Qed.
  (** Positions in the erased history, in the full one. *)
  Fixpoint orig (P : list nat) H (h : nat) {struct H} : nat :=
    match H, h with
    | e :: H, S h' => if decide (kept P e) then S (orig P H h') else S (orig P H h)
    | _, _ => 0
    end.
  Lemma orig_mono P H : ∀ h h', h ≤ h' → orig P H h ≤ orig P H h'.
  Proof.
    induction H as [|e H IH]; intros h h' Lh; [done|]. destruct h as [|h]; [cbn; lia|]. destruct h' as [|h']; [lia|]. cbn [orig].
    destruct (decide _).
    - pose proof (IH h h' ltac:(lia)). lia.
    - pose proof (IH (S h) (S h') Lh). lia.
  Qed.
  Lemma orig_at P H : ∀ h' e, filter (kept P) H !! h' = Some e → H !! (orig P H (h' + 1) - 1) = Some e ∧ 0 < orig P H (h' + 1).
  Proof.
    induction H as [|x H IH]; intros h' e E; [done|]. rewrite list.filter_cons in E. replace (h' + 1) with (S h') by lia. cbn [orig].
    destruct (decide (kept P x)).
    - destruct h' as [|h']; cbn in E; [injection E as <-; destruct H; cbn; split; [done|lia|done|lia]|].
      destruct (IH h' e E) as [A B]. replace (h' + 1) with (S h') in * by lia. split; [|lia]. destruct (orig P H (S h')) as [|y] eqn:Ey; [lia|]. cbn in A |- *. by rewrite ?Nat.sub_0_r in *.
    - destruct (IH h' e E) as [A B]. replace (h' + 1) with (S h') in * by lia. split; [|lia]. destruct (orig P H (S h')) as [|y] eqn:Ey; [lia|]. cbn in A |- *. by rewrite ?Nat.sub_0_r in *.
  Qed.
  Lemma orig_of P H : ∀ h e, H !! h = Some e → kept P e → ∃ h', filter (kept P) H !! h' = Some e ∧ orig P H (h' + 1) = h + 1.
  Proof.
    induction H as [|x H IH]; intros h e E Ke; [done|]. rewrite list.filter_cons. destruct h as [|h]; cbn in E.
    - injection E as ->. exists 0. rewrite decide_True by done. split; [done|]. cbn. rewrite decide_True by done. by destruct H.
    - destruct (IH h e E Ke) as (h' & A & B). destruct (decide (kept P x)) as [Kx|Kx].
      + exists (S h'). split; [done|]. cbn [orig Nat.add]. rewrite decide_True by done. rewrite B. done.
      + exists h'. split; [done|]. replace (h' + 1) with (S h') in * by lia. cbn [orig]. rewrite decide_False by done. by rewrite B.
  Qed.

  Theorem erase_linearizes H S cut : linearizes H S cut → linearizes (erase H) S (λ h, cut (orig (panicked H) H h)).
  Proof.
    intros L. set (P := panicked H).
    assert (BK : ∀ h' e, erase H !! h' = Some e → ∃ h, H !! h = Some e ∧ orig P H (h' + 1) = h + 1).
    { intros h' e E. destruct (orig_at P H h' e E) as [A B]. exists (orig P H (h' + 1) - 1). split; [done|lia]. }
    split.
    - intros h h' Lh. apply (l_mono _ _ _ L). by apply orig_mono.
    - intros h. apply (l_bound _ _ _ L).
    - apply (l_legal _ _ _ L).
    - intros n a E. destruct (l_inv _ _ _ L n a E) as (h & i & o & Eh & Be & Lc).
      destruct (orig_of P H h _ Eh) as (h' & A & B).
      { cbn. unfold P. rewrite panicked_spec. intros (h2 & i2 & o2 & why & E2 & Nk). by destruct (l_panic _ _ _ L n a h2 i2 o2 why E E2). }
      exists h', i, o. fold P. by rewrite B.
    - intros n a h' i o r v E Eh. destruct (BK _ _ Eh) as (h & A & B). fold P. rewrite B. by eapply (l_res _ _ _ L).
    - apply (l_once _ _ _ L).
    - intros h' i id o r v Eh Ek. destruct (BK _ _ Eh) as (h & A & B). by eapply (l_done _ _ _ L).
    - intros n a h' i o why E Eh. destruct (BK _ _ Eh) as (h & A & B). fold P. rewrite B. by eapply (l_panic _ _ _ L).
  Qed.
End erase.

(** C47: in every execution, the calls that panic are explained as making no action at all... *)
Theorem C47_panicked_call_has_no_effect {K V : Type} `{EqDecision K} (H : list (hevent K V)) : map_history H →
  ∃ S cut, explains H S cut ∧ ∀ i id o why k, HPanic i id o why ∈ H → key_of o = Some k → ∀ a, a ∈ S → a_id a ≠ id.
Proof.
  intros MH. destruct (map_explained _ MH) as (_ & _ & S & cut & EX). exists S, cut. split; [exact EX|].
  intros i id o why k Hp Ek a Ha <-. apply elem_of_list_lookup in Hp as [h Hp]. apply elem_of_list_lookup in Ha as [n Ha].
  destruct EX as (L & _). destruct (l_panic _ _ _ L n a h i o why Ha Hp) as [X _]. congruence.
Qed.
(** ... the history from which their invocations and panics are erased is the history of a correct map as well... *)
Theorem C47_erasable {K V : Type} `{EqDecision K} (H : list (hevent K V)) : map_history H → ∃ S cut, linearizes (erase H) S cut.
Proof.
  intros MH. destruct (map_explained _ MH) as (_ & _ & S & cut & L & _). eexists S, _. by apply erase_linearizes.
Qed.
(** ... and the map goes on working: a [get] returns what the last call that did not panic left ([only_writers] disregards the calls that panic). *)
Theorem C47_reads_unaffected {K V : Type} `{EqDecision K} (H : list (hevent K V)) : map_history H →
  ∀ h0 h1 i id o x k g0 g1 j jd y, call H h0 h1 i id o x → key_of o = Some k → call H g0 g1 j jd (OGet k) (VGet y) → h1 < g0 →
    (∀ h i' id' o', H !! h = Some (HInv i' id' o') → touches o' k → h < g1 →
       id' = id ∨ returned_before H h0 i' id' o' ∨ (key_of o' ≠ None ∧ ∃ h' why, H !! h' = Some (HPanic i' id' o' why))) →
    y = (λ v, (k, v)) <$> left_by o x.
Proof.
  intros (cfg & nthr & nsh & cap & sched & c & HS & E & ->) h0 h1 i id o x k g0 g1 j jd y C Ek CG Lt O.
  apply (C04_reads_last_write cfg nthr nsh cap HS sched c E h0 h1 i id o x k g0 g1 j jd y C Ek CG Lt).
  intros h i' id' o' Eh T. destruct (decide (h < g1)) as [Lh|]; [|right; right; lia].
  destruct (O h i' id' o' Eh T Lh) as [?|[?|(Nk & h' & why & X)]]; [by left|right; left; by left|right; left; right]. exists h', why. auto.
Qed.

(** A run: key 5 is bound to 50; while thread 1's [compute] is in progress, thread 0 updates it to 51; thread 1's closure panics; thread 0 reads 51. *)
Definition f47 (x : option (nat * nat)) : cop nat := match x with Some (_, 50) => OpInsert 60 | _ => OpPanic end.
Definition s47 : list (choice nat nat) := [CPin 0; CPin 1] ++ full 0 (OInsert 5 50) ++ [CInvoke 1 (OCompute 5 f47)] ++ replicate 7 (CRun 1 false)
  ++ full 0 (OUpdate 5 S) ++ replicate 60 (CRun 1 false) ++ full 0 (OGet 5).
Definition H47 : list (hevent nat nat) := match exec cfg16 (init_conf 4 2 2) s47 with Some c => mc_hist c | None => [] end.
Definition check47 (x : option (mconf nat nat)) : bool :=
  match x with
  | Some c => match mc_hist c with
     | [HPin 0; HPin 1; HInv 0 0 (OInsert 5 50); HRes 0 0 (OInsert 5 50) _ (VInsert None); HInv 1 1 (OCompute 5 _); HInv 0 2 (OUpdate 5 _); HRes 0 2 (OUpdate 5 _) _ (VUpdate (Some 51));
        HPanic 1 1 (OCompute 5 _) PUser; HInv 0 3 (OGet 5); HRes 0 3 (OGet 5) _ (VGet (Some (5, 51)))] => true
     | _ => false end
  | None => false end.
Example run47 : check47 (exec cfg16 (init_conf 4 2 2) s47) = true. Proof. by vm_compute. Qed.
Example hist47 : map_history H47.
Proof.
  assert (X := C15_no_undefined_behaviour cfg16 2 2 4 ltac:(lia) s47). unfold H47. destruct (exec cfg16 (init_conf 4 2 2) s47) as [c|] eqn:E; [|by destruct X].
  exists cfg16, 2, 2, 4, s47, c. split; [lia|]. split; [exact E|reflexivity].
Qed.
Example ex47 : panicked H47 = [1] ∧ length H47 = 10 ∧ length (erase H47) = 8 ∧ call H47 2 3 0 0 (OInsert 5 50) (VInsert None) ∧
  (∃ u, call H47 5 6 0 2 (OUpdate 5 u) (VUpdate (Some 51))) ∧ call H47 8 9 0 3 (OGet 5) (VGet (Some (5, 51))) ∧
  ∃ f, H47 !! 4 = Some (HInv 1 1 (OCompute 5 f)) ∧ H47 !! 7 = Some (HPanic 1 1 (OCompute 5 f) PUser).
Proof.
  split; [by vm_compute|]. split; [by vm_compute|]. split; [by vm_compute|]. split; [eexists; split; vm_compute; reflexivity|].
  split; [eexists _, _; split; vm_compute; reflexivity|]. split; [eexists; split; vm_compute; reflexivity|]. eexists. split; vm_compute; reflexivity.
Qed.
Print Assumptions C47_panicked_call_has_no_effect.
Print Assumptions C47_erasable.
Print Assumptions C47_reads_unaffected.
