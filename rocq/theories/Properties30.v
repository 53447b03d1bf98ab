(** * Changes made on a copy (C74) *)

From Coq Require Import List Arith Lia Bool Permutation.
From Verif Require Import Base Vec Backend Segment Coll Spec Reach SpecHist ProofBase ProofVec ProofBackend ProofSeg ProofMap ProofView ProofColl
  ProofRange ProofReach ProofObs ProofProp ProofProp2 ProofProp3 ProofProp4 ProofProp5 ProofHist Loops SpecTxn Demo Properties5 Properties11.
Import ListNotations.

Lemma script_spec {V} {E : Env V} g bs d : Forall2 holds g bs -> forall b l b', scripted g bs d b l b' ->
  forall t w, reach w (t :: g) d -> holds t b ->
  wp (calls_of (map snd l)) (t, w)
    (fun '(t', w') _ => reach w' (t' :: g) d /\ holds t' b' /\ c_al t' = c_al t)
    (fun '(t', w') e => reach w' g (t' :: d)).
Proof.
  intros F b l b' Sc. induction Sc as [b|b k m b1 l b' P O Sc IH]; intros t w R Hb; cbn [map snd calls_of].
  - unfold wp, ret. auto.
  - specialize (P t w R Hb).
    destruct (performs_api w (t :: g) 0 t d k (m t) R P) as (sf & nw & vl & A).
    pose proof (api_kept w t g d _ _ _ _ R A) as K.
    assert (Pe := performs_effect w (t :: g) 0 t d k (m t) (b :: bs) b R eq_refl (Forall2_cons _ _ Hb F) eq_refl Hb P).
    unfold wp, bind, getx in *. cbn [fst snd] in *. destruct (m t (t, w)) as [[t1 w1] []|[t1 w1] e|] eqn:Q.
    + assert (R1 : reach w1 (t1 :: g) d) by (eapply r_call; eauto).
      destruct (Pe R1) as (b2 & O2 & H2). rewrite O in O2. inversion O2; subst b2. destruct K as (_ & _ & Ka).
      specialize (IH t1 w1 R1 H2). destruct (calls_of (map snd l) (t1, w1)) as [[t' w'] []|[t' w'] e|]; auto.
      destruct IH as (R' & H' & A'). rewrite A'. auto.
    + eapply r_call_wreck; eauto.
    + exact Pe.
Qed.

Lemma wreck_destroy {V} {E : Env V} w c g d : reach w g (c :: d) -> exists w', c_destroy c w = Ok w' tt /\ reach w' g d.
Proof.
  intros H. assert (P : wp (c_destroy c) w (fun _ _ => True) (fun _ _ => False)).
  { destruct (alive_focus_bad _ _ _ _ (reach_alive _ _ _ H)) as (N & O & _). eapply (wp_c_destroy c w _ _); eauto. }
  unfold wp in P. destruct (c_destroy c w) as [w' []|w' e|] eqn:Q; try contradiction. exists w'. split; auto. eapply r_destroy; eauto.
Qed.

Lemma nothing_left {V} {E : Env V} w w' g d : reach w g d -> reach w' g d -> w_objs w' = w_objs w /\ Permutation (w_live w') (w_live w).
Proof.
  intros H H'. pose proof (al_own _ _ _ (reach_alive _ _ _ H)) as O. pose proof (al_own _ _ _ (reach_alive _ _ _ H')) as O'. split.
  - rewrite (own_objs _ _ _ O), (own_objs _ _ _ O'). reflexivity.
  - apply (Permutation_count_occ Nat.eq_dec). intros x. pose proof (own_cnt _ _ _ O x) as A. pose proof (own_cnt _ _ _ O' x) as A'.
    unfold cnt in *. congruence.
Qed.

(** ** C74 Working on a copy and swapping it in gives the strong guarantee for everything *)

(** Whatever the calls are: if all goes well the collection contains what they lead to; if any of
    them throws, or copying does, the collection is the same object as before in all respects,
    nothing is lost or leaked and no other collection is affected. *)
Theorem C74_transaction {V} {E : Env V} w c g d bs b l b' : reach w (c :: g) d ->
  Forall2 (fun c b => forall t, seg_of c t = b t) (c :: g) bs -> (forall t, seg_of c t = b t) ->
  scripted (c :: g) bs d b l b' ->
  wp (transact (map snd l)) (c, w)
    (fun '(c', w') _ => reach w' (c' :: g) d /\ (forall t, seg_of c' t = b' t) /\ c_al c' = c_al c)
    (fun '(c', w') e => c' = c /\ reach w' (c :: g) d /\ w_objs w' = w_objs w /\ Permutation (w_live w') (w_live w)).
Proof.
  intros R F Hb Sc.
  assert (Z : forall w', reach w' (c :: g) d -> c = c /\ reach w' (c :: g) d /\ w_objs w' = w_objs w /\ Permutation (w_live w') (w_live w)).
  { intros w' R'. split; [auto|split; [auto|]]. exact (nothing_left _ _ _ _ R R'). }
  pose proof (spec_copy_al w (c :: g) d c (c_al c) R (or_introl eq_refl)) as Cp.
  unfold wp, transact in *. destruct (c_copy_al c (c_al c) w) as [w1 tmp|w1 e|]; [|apply Z, Cp|auto].
  destruct Cp as ((_ & Sg) & Al & _ & R1).
  assert (Ht : holds tmp b) by (intros t; rewrite Sg; apply Hb).
  pose proof (script_spec (c :: g) bs d F b l b' Sc tmp w1 R1 Ht) as S. unfold wp in S.
  destruct (calls_of (map snd l) (tmp, w1)) as [[t2 w2] []|[t2 w2] e|]; [| |exact S].
  - destruct S as (R2 & H2 & A2).
    assert (R3 : reach w2 (c :: t2 :: g) d) by (eapply r_perm; [exact R2|apply perm_swap|auto]).
    assert (Eq : env_pocs = true \/ c_al c = c_al t2) by (right; congruence).
    pose proof (spec_swap w2 g d c t2 R3 Eq) as Sw. unfold wp in Sw.
    destruct (c_swap ((c, t2), w2)) as [[[c' old] w3] []|[[c' old] w3] e|] eqn:Qs; [|destruct Sw|exact Sw].
    destruct Sw as (-> & -> & ->).
    assert (R4 : reach w2 (t2 :: c :: g) d) by (eapply r_swap; eauto).
    assert (R5 : reach w2 (t2 :: g) (c :: d)).
    { apply r_weaken. eapply r_perm; [exact R4|apply perm_swap|auto]. }
    destruct (wreck_destroy w2 c (t2 :: g) d R5) as (w4 & -> & R6). csplit; auto. congruence.
  - destruct (wreck_destroy w2 t2 (c :: g) d S) as (w3 & -> & R3). auto.
Qed.

(** Inserting an element and then all elements of the collection itself; and a body which throws
    after its first call. *)
Definition body1 lay : list (cmd nat * (coll nat -> M (coll nat * world) unit)) := let E := dE lay in let c := dc lay in
  [(Put None [(2, 4)], fun _ => void (c_emplace 20 (SVal 4)));
   (PutFrom None 1, fun _ => c_insert_from (length (flat c)) c (c_begin c) (c_end c))].
Definition body2 lay : list (cmd nat * (coll nat -> M (coll nat * world) unit)) := let E := dE lay in
  [(Put None [(2, 4)], fun _ => void (c_emplace 20 (SVal 4))); (Tune, fun _ => c_reserve_info 66 3)].
Lemma d_holds lay : Forall2 (fun (c : coll nat) b => forall t, seg_of c t = b t) [dc lay; dx lay] (map seg_of [dc lay; dx lay]).
Proof. repeat constructor. Qed.
Example C74_transaction_ex lay : let E := dE lay in let c := dc lay in
  reach (dw lay) [dc lay; dx lay] [] /\
  Forall2 (fun c b => forall t, seg_of c t = b t) [dc lay; dx lay] (map seg_of [dc lay; dx lay]) /\
  (exists b', scripted [dc lay; dx lay] (map seg_of [dc lay; dx lay]) [] (seg_of c) (body1 lay) b' /\
     b' 1 = Some [5; 6; 7; 5; 6; 7] /\ b' 2 = Some [8; 9; 4; 8; 9]) /\
  (exists b', scripted [dc lay; dx lay] (map seg_of [dc lay; dx lay]) [] (seg_of c) (body2 lay) b') /\
  (let s := state (transact (map snd (body1 lay)) (c, dw lay)) in
   transact (map snd (body1 lay)) (c, dw lay) = Ok s tt /\ elems (fst s) 1 = [5; 6; 7; 5; 6; 7]) /\
  match transact (map snd (body2 lay)) (c, dw lay) with Exn _ e => e = UnregisteredType 6 | _ => False end.
Proof.
  cbv zeta.
  assert (P1 : forall t w, reach (E := dE lay) w [t; dc lay; dx lay] [] -> performs (E := dE lay) [t; dc lay; dx lay] 0 t (Put None [(2, 4)])
    (void (c_emplace (E := dE lay) 20 (SVal 4)))).
  { intros t w _. apply (p_emplace (E := dE lay) _ _ _ 20 (SVal 4) 4). left. reflexivity. }
  csplit; [demo_fact lay|apply d_holds| | | | |].
  - eexists. split.
    + eapply sc_call; [intros t w R _; eapply P1; exact R|reflexivity|]. eapply sc_call; [|reflexivity|apply sc_end].
      intros t w R _. apply (p_all (E := dE lay)); [lia|reflexivity|]. apply (begin_located (E := dE lay) w (dc lay) [t; dx lay] []).
      eapply r_perm; [exact R|apply perm_swap|apply Permutation_refl].
    + split; destruct lay; vm_compute; reflexivity.
  - eexists. eapply sc_call; [intros t w R _; eapply P1; exact R|reflexivity|]. eapply sc_call; [|reflexivity|apply sc_end].
    intros t w R _. apply (p_reserve_info (E := dE lay)).
  - demo_fact lay.
  - demo_fact lay.
  - destruct lay; vm_compute; reflexivity.
Qed.

Print Assumptions C74_transaction.
