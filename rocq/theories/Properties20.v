(** * Elements which cannot be copied (C68)

    See the head of Properties1.v for the form of the statements. *)

From Coq Require Import List Arith Lia Bool Permutation.
From Verif Require Import Base Vec Backend Segment Coll Spec SpecFail Reach ProofBase ProofSeg ProofMap ProofView ProofColl
  ProofRange ProofReach ProofObs ProofProp ProofProp2 ProofProp3 ProofProp4 ProofNever ProofFail Demo Properties4.
Import ListNotations.

(** ** C68 What cannot be copied is not inserted by copy *)

Lemma copies_never {V} {E : Env V} w c g d t m vals : reach w (c :: g) d -> copies g c t m vals ->
  env_copyable t = false -> never m.
Proof.
  intros H C N. assert (U : forall x, copied t x -> uncopyable x) by (intros x (Hh & <-); split; auto).
  assert (Us : forall xs x, In x xs -> copied t x -> Exists uncopyable xs) by (intros xs x Hi Hx; apply Exists_exists; eauto).
  destruct C.
  - apply never_l, never_c_insert; auto.
  - apply never_l, never_c_insert_hint; auto.
  - apply never_l, never_c_insert_pos; auto.
  - apply never_c_range; eauto.
  - subst t. apply never_c_terminal; auto.
  - apply never_c_hint_range; eauto.
  - subst t. apply never_c_hint_terminal; auto.
  - destruct (reach_wf_in _ _ _ _ _ H H0) as (Ry & Ky & Wy & Oy).
    apply (located_at w y first i Ry Ky Wy Oy) in H1. apply (located_at w y last j Ry Ky Wy Oy) in H2.
    destruct H1 as (-> & Hi), H2 as (-> & Hj). apply in_map_iff in H4. destruct H4 as ([t' v] & Q & Hin). simpl in Q. subst t'.
    eapply never_c_from; eauto. rewrite flat_length. auto.
  - destruct (reach_wf_in _ _ _ _ _ H H1) as (Ry & Ky & Wy & Oy).
    apply (located_at w y first i Ry Ky Wy Oy) in H2. apply (located_at w y last j Ry Ky Wy Oy) in H3.
    destruct H2 as (-> & Hi), H3 as (-> & Hj). apply in_map_iff in H6. destruct H6 as ([t' v] & Q & Hin). simpl in Q. subst t'.
    eapply never_c_hint_from; eauto. rewrite flat_length. auto.
  - subst t. apply never_c_local; auto.
  - subst t. apply never_c_hint_local; auto.
  - apply never_l, never_c_pos_range, (Us _ x); auto. split; auto.
    clear - H1 H2. induction H1 as [|y v ys vs (Hy & _) F IH]; [contradiction|]. destruct H2 as [<-|H2]; auto.
  - apply never_l, never_c_lpos_range; auto. apply Exists_exists. eexists; split; [eassumption|]. simpl. auto.
Qed.

Lemma copies_excuse {V} {E : Env V} w c g d t m vals : reach w (c :: g) d -> copies g c t m vals ->
  wp m (c, w) (fun _ _ => True) (fun '(c', w') e => excuse c vals w w' e).
Proof.
  intros H C.
  assert (X : forall a fwd_xs w' e, env_ty a = t -> fwd_xs <> [] -> threw (env_ty a) HCopy (length (elems c (env_ty a))) (length fwd_xs) w w' e ->
    excuse c (map (pair t) fwd_xs) w w' e).
  { intros a xs w' e <- Ne T. eapply excuse_threw; eauto; [rewrite of_type_len; lia|destruct xs; [congruence|left; auto]]. }
  destruct C; repeat match goal with K : copied _ _ |- _ => destruct K as (? & <-) | K : env_ty _ = t |- _ => subst t end.
  - eapply wp_void_mono; [eapply spec_insert; eauto|auto|]. intros [c' w'] e R. eapply excuse_rejected; eauto.
  - eapply wp_void_mono; [eapply spec_insert_hint; eauto|auto|]. intros [c' w'] e R. eapply excuse_rejected; eauto.
  - eapply wp_void_mono; [eapply spec_insert_pos; eauto|auto|]. intros [c' w'] e R. eapply excuse_refused; eauto.
  - eapply wp_mono; [eapply spec_insert_range; eauto|auto|]. intros [c' w'] e R. eapply excuse_broke; eauto.
  - eapply wp_mono; [eapply spec_insert_range_terminal; eauto|auto|]. intros [c' w'] e (Ne & _ & T & _). eapply X; eauto.
  - eapply wp_mono; [eapply spec_insert_hint_range; eauto|auto|]. intros [c' w'] e R. eapply excuse_broke; eauto.
  - eapply wp_mono; [eapply spec_insert_hint_range_terminal; eauto|auto|]. intros [c' w'] e (Ne & _ & T & _). eapply X; eauto.
  - eapply wp_mono; [eapply spec_insert_from; eauto|auto|]. intros [c' w'] e R. eapply excuse_broke; eauto.
  - eapply wp_mono; [eapply spec_insert_hint_from; eauto|auto|]. intros [c' w'] e R. eapply excuse_broke; eauto.
  - eapply wp_mono; [eapply spec_insert_local; eauto|auto|]. intros [c' w'] e R. eapply excuse_broke; eauto.
  - eapply wp_mono; [eapply spec_insert_hint_local; eauto|auto|]. intros [c' w'] e R. eapply excuse_broke; eauto.
  - eapply wp_void_mono; [eapply spec_insert_pos_range; eauto|auto|]. intros [c' w'] e R. eapply excuse_broke; eauto.
  - eapply wp_void_mono; [eapply spec_insert_lpos_range; eauto|auto|]. intros [c' w'] e R. eapply excuse_broke; eauto.
Qed.

(** Such a call throws if the type has no copy constructor, and has an excuse for what it throws.  (What it leaves is described by C08 to
    C14, and how much is undone by C31 to C34.) *)
Theorem C68_refused {V} {E : Env V} w c g d t m vals : reach w (c :: g) d -> copies g c t m vals -> env_copyable t = false ->
  exists c' w' e, m (c, w) = Exn (c', w') e /\ excuse c vals w w' e.
Proof.
  intros H C N. assert (Nv := copies_never w c g d t m vals H C N (c, w)).
  assert (P := copies_excuse w c g d t m vals H C). unfold wp in P.
  destruct (m (c, w)) as [s a|[c' w'] e|]; [elim (Nv s a eq_refl)| |contradiction]. eauto.
Qed.
(* type 3 is not copyable; of the collection made by [dm], it holds one *)
Example C68_refused_ex lay : let E := dE lay in let x := mkarg 30 30 true true HCopy (SVal 4) in
  reach (dw lay) [dc lay; dx lay] [] /\ copies [dx lay] (dc lay) 3 (void (c_insert x)) [(3, 4)] /\
  copies [dx lay] (dc lay) 3 (c_insert_range [mkarg 20 20 true true HCopy (SVal 8); x]) [(2, 8); (3, 4)] /\
  copies [dx lay] (dc lay) 3 (c_insert_range_terminal 30 HCopy false [4; 5]) [(3, 4); (3, 5)] /\
  env_copyable 3 = false.
Proof.
  cbv zeta. csplit; [apply d_reach| | | |reflexivity].
  - refine (copies_insert (E := dE lay) _ _ _ _ 4 _ _ _); [intros _; reflexivity|left; reflexivity|split; reflexivity].
  - refine (copies_range (E := dE lay) _ _ _ _ _ (mkarg 30 30 true true HCopy (SVal 4)) _ _ _); [|right; left; reflexivity|split; reflexivity].
    repeat constructor; try (intros _; reflexivity).
  - refine (copies_range_terminal (E := dE lay) _ _ 3 30 false [4; 5] _ _); [reflexivity|discriminate].
Qed.
(* and all elements of a collection which has one of them *)
Example C68_refused_from_ex lay : let E := dE lay in let y := fst (dm lay) in let l := firstn (length (flat y) - 0) (skipn 0 (flat y)) in
  reach (snd (dm lay)) [dx lay; y] [] /\
  copies [y] (dx lay) 3 (c_insert_from (length (flat y)) y (c_begin y) (c_end y)) l /\
  length l = 7 /\ env_copyable 3 = false.
Proof.
  cbv zeta. csplit.
  - eapply r_perm; [apply dm_reach|apply perm_swap|constructor].
  - refine (copies_from (E := dE lay) [fst (dm lay)] (dx lay) 3 (fst (dm lay)) _ _ 0 (length (flat (fst (dm lay)))) _ _ _ _ _).
    + left; auto.
    + eapply begin_located, dm_reach.
    + apply end_located.
    + lia.
    + destruct lay; vm_compute; tauto.
  - destruct lay; vm_compute; reflexivity.
  - reflexivity.
Qed.

(** If memory and element operations do not fail, the types are registered and the segments do not become too big,
    it is not_copy_constructible which is thrown, for a type which is indeed not copyable. *)
Theorem C68_not_copy_constructible {V} {E : Env V} w c g d t m vals : reach w (c :: g) d -> copies g c t m vals ->
  env_copyable t = false -> (forall k, env_fault k = false) -> incl (map fst vals) (types c) ->
  (forall t', ~ too_big t' (1 + length (elems c t') + length (of_type t' vals))) ->
  exists c' w' t', m (c, w) = Exn (c', w') (NotCopyConstructible t') /\
    env_copyable t' = false /\ (elems c t' <> [] \/ In t' (map fst vals)).
Proof.
  intros H C N Nf Inc Fit. destruct (C68_refused w c g d t m vals H C N) as (c' & w' & e & Q & Ca).
  exists c', w'. destruct e as [| | |t'|t'|t']; cbn in Ca.
  - destruct Ca as (k & _ & F). rewrite Nf in F. discriminate.
  - destruct Ca as (t' & B). elim (Fit t' B).
  - destruct Ca as ((k & _ & F) & _). rewrite Nf in F. discriminate.
  - destruct Ca as (A & B). elim A. apply Inc, B.
  - exists t'. auto.
  - contradiction.
Qed.
Example C68_not_copy_constructible_ex lay : let E := dE lay in let c := dc lay in let x := mkarg 30 30 true true HCopy (SVal 4) in
  reach (dw lay) [c; dx lay] [] /\ copies [dx lay] c 3 (void (c_insert x)) [(3, 4)] /\ env_copyable 3 = false /\
  (forall k, env_fault k = false) /\ incl (map fst [(3, 4)]) (types c) /\
  (forall t, ~ too_big t (1 + length (elems c t) + length (of_type t [(3, 4)]))).
Proof.
  assert (D : forall t, elems (dc lay) t = match t with 1 => [5; 6; 7] | 2 => [8; 9] | 4 => [1] | _ => [] end).
  { intros t. unfold elems, seg_of. rewrite dc_content. destruct lay; destruct t as [|[|[|[|[|t]]]]]; reflexivity. }
  cbv zeta. csplit; [apply d_reach|apply C68_refused_ex|reflexivity| | |].
  - intros k. destruct lay; reflexivity.
  - destruct lay; vm_compute; intros t [<-|[]]; auto.
  - intros t. rewrite D. destruct t as [|[|[|[|[|[|[|[|t]]]]]]]]; intros [L|(_ & L)]; destruct lay; vm_compute in L; lia.
Qed.

Print Assumptions C68_refused.
Print Assumptions C68_not_copy_constructible.
