(** * After an exception: clearing, copying *)

From Coq Require Import List Arith Lia Bool Permutation.
From Verif Require Import Base Vec Backend Segment Coll Spec Reach ProofBase ProofVec ProofBackend ProofOps ProofOps2
  ProofSeg ProofMap ProofView ProofColl ProofIns ProofEach ProofErase ProofRange ProofRange2 ProofEq ProofCopy ProofReach
  ProofObs ProofProp ProofProp2 ProofProp3.
Import ListNotations.

Section PRecover.
Context {V : Type} {E : Env V}.
Notation CW := (coll V * world)%type.

(** What an exception leaves. *)
Lemma left_over w c g d m safe new vals c' w' e : reach w (c :: g) d -> api g c m safe new vals -> m (c, w) = Exn (c', w') e ->
  wfc0 w' c' /\ cown w' c' (PR g d) (PK g d) /\ alive w' g (c' :: d).
Proof.
  intros H A Q. pose proof (reach_alive _ _ _ H) as Al. pose proof (api_sound g d c m safe new vals w Al A) as S.
  eapply wp_exn in S; [|exact Q]. destruct S as (W & O & _). csplit; auto.
  apply (step_alive _ _ _ _ _ _ Al (s_call_wreck _ _ _ _ _ _ _ _ _ _ _ A Q)).
Qed.

Lemma wiped_all w w' (c c' : coll V) R K : all_did clr_rel R K w c w' c' -> wiped c c' (fun _ => True).
Proof.
  intros (W' & O' & L & Al & Bk & F). assert (Sg := fun t => nrel_seg_at _ c c' t F).
  split; auto.
  - rewrite !types_nodes. eapply nrel_types; eauto.
  - intros t _. rewrite elems_seg_at. specialize (Sg t). destruct (seg_at c t), (seg_at c' t); try contradiction; auto. apply Sg.
  - tauto.
  - intros t. unfold cap_of. specialize (Sg t). destruct (seg_at c t), (seg_at c' t); try contradiction; auto. apply Sg.
  - intros t. unfold data_of. specialize (Sg t). destruct (seg_at c t), (seg_at c' t); try contradiction; auto.
    destruct Sg as (_ & _ & Q & _). unfold vptr. rewrite Q. auto.
  - tauto.
Qed.

Lemma recover_clear w c g d m safe new vals c' w' e : reach w (c :: g) d -> api g c m safe new vals -> m (c, w) = Exn (c', w') e ->
  wp c_clear (c', w') (fun '(c2, w2) _ => reach w2 (c2 :: g) d /\ wiped c' c2 (fun _ => True)) (fun _ _ => False).
Proof.
  intros H A Q. destruct (left_over _ _ _ _ _ _ _ _ _ _ _ H A Q) as (W0 & O & _).
  pose proof (wp_c_clear0 c' w' _ _ (fun s _ => wiped c' (fst s) (fun _ => True)) (fun _ _ => False) W0 O
    (fun w2 c2 D => wiped_all _ _ _ _ _ _ D)) as S.
  unfold wp in *. destruct (c_clear (c', w')) as [[c2 w2] []|[c2 w2] e2|] eqn:Qc; auto. split; auto. eapply r_call_clear; eauto.
Qed.

Lemma crel_seg_at L (c c' : coll V) t : Forall2 (crel L) (c_nodes c) (c_nodes c') ->
  (~ In t L -> seg_at c' t = seg_at c t) /\
  (In t L -> match seg_at c t, seg_at c' t with Some s, Some s' => clr_rel s s' | None, None => True | _, _ => False end).
Proof.
  unfold seg_at. intros F. induction F as [|n n' l l' C F IH]; simpl; [tauto|]. pose proof (crel_ty _ _ _ C) as Et.
  unfold n_ty in Et. rewrite Et. destruct (Nat.eqb_spec (sg_ty (n_seg n)) t) as [<-|Ne]; [|exact IH]. simpl. split; intros Hin.
  - f_equal. f_equal. apply C. auto.
  - apply C. auto.
Qed.
Lemma crel_types L (l l' : list (node V)) : Forall2 (crel L) l l' -> map n_ty l' = map n_ty l.
Proof. induction 1 as [|n n' l l' C F IH]; simpl; auto. rewrite IH, (crel_ty _ _ _ C). auto. Qed.

Lemma recover_clear_types w c g d m safe new vals c' w' e l : reach w (c :: g) d -> api g c m safe new vals -> m (c, w) = Exn (c', w') e ->
  (forall t, ~ In t (map env_ty l) -> seg_at c' t = seg_at c t) ->
  wp (clear_types l) (c', w')
    (fun '(c2, w2) _ => reach w2 (c2 :: g) d /\ c_al c2 = c_al c' /\ types c2 = types c' /\
       (forall t, ~ In t (map env_ty l) -> seg_at c2 t = seg_at c t) /\
       (forall t, In t (map env_ty l) -> elems c2 t = [] /\ cap_of c2 t = cap_of c' t)) (fun _ _ => False).
Proof.
  intros H A Q Sg. destruct (left_over _ _ _ _ _ _ _ _ _ _ _ H A Q) as (W0 & O & _).
  pose proof (wp_clear_types (PR g d) (PK g d) l c' w' (fun s _ => c_al (fst s) = c_al c' /\
    Forall2 (crel (map env_ty l)) (c_nodes c') (c_nodes (fst s))) (fun _ _ => False) W0 O) as S.
  assert (S' : wp (clear_types l) (c', w') (fun s _ => c_al (fst s) = c_al c' /\
    Forall2 (crel (map env_ty l)) (c_nodes c') (c_nodes (fst s))) (fun _ _ => False)) by (apply S; intros; auto).
  clear S. unfold wp in *. destruct (clear_types l (c', w')) as [[c2 w2] []|[c2 w2] e2|] eqn:Qc; auto.
  destruct S' as (Al & F). cbn [fst] in *. csplit; auto.
  - eapply r_call_clear_types; eauto.
  - rewrite !types_nodes. eapply crel_types; eauto.
  - intros t N. rewrite (proj1 (crel_seg_at _ _ _ t F) N). auto.
  - intros t Hin. apply (proj2 (crel_seg_at _ _ _ t F)) in Hin. rewrite elems_seg_at. unfold cap_of.
    destruct (seg_at c' t), (seg_at c2 t); try contradiction; auto. split; apply Hin.
Qed.

Lemma recover_copy w c g d m safe new vals c' w' e : reach w (c :: g) d -> api g c m safe new vals -> m (c, w) = Exn (c', w') e ->
  wp (c_copy c') w'
    (fun w2 c2 => reach w2 (c2 :: g) (c' :: d) /\ same_content c' c2 /\ c_al c2 = env_socc (c_al c'))
    (fun w2 e2 => reach w2 g (c' :: d) /\ copy_threw true c' w' w2 e2).
Proof.
  intros H A Q. destruct (left_over _ _ _ _ _ _ _ _ _ _ _ H A Q) as (W0 & O & Al).
  pose proof (wp_c_copy_al c' (env_socc (c_al c')) w' _ _
    (fun w2 c2 => same_content c' c2 /\ c_al c2 = env_socc (c_al c')) (fun w2 e2 => copy_threw true c' w' w2 e2) W0 (al_own _ _ _ Al)) as S.
  change (c_copy_al c' (env_socc (c_al c'))) with (c_copy c') in S.
  assert (S' : wp (c_copy c') w' (fun w2 c2 => same_content c' c2 /\ c_al c2 = env_socc (c_al c')) (fun w2 e2 => copy_threw true c' w' w2 e2)).
  { apply S.
    - intros w2 c2 W2 O2 L2 A2 Rb _ _. split; auto. eapply rebuilt_same; [apply W0|exact Rb].
    - intros w2 e2 O2 L2 Rs. eapply copy_reason_threw; [apply W0|exact Rs]. }
  clear S. unfold wp in *. destruct (c_copy c' w') as [w2 c2|w2 e2|] eqn:Qc; auto.
  - destruct S'. csplit; auto. eapply r_call_copy; eauto.
  - split; auto. eapply r_call_copy_exn; eauto.
Qed.

End PRecover.
