(** * The order of calls about different types does not matter (C73)

    SpecShuffle.v says which actions of a history have nothing to do with each other. *)

From Coq Require Import List Arith Lia Bool Permutation.
From Verif Require Import Base Vec Backend Segment Coll Spec Reach SpecHist ProofBase ProofVec ProofBackend ProofSeg ProofMap ProofView ProofColl
  ProofRange ProofReach ProofObs ProofProp ProofProp2 ProofProp3 ProofProp4 ProofProp5 ProofHist SpecShuffle ProofShuffle Demo Properties5 Properties11.
Import ListNotations.

(** ** C73 Only the order of calls about the same type matters *)

(** Two programs which make the same calls, but calls that have nothing to do with each other in
    another order, have the same elements in the same order within each type, though perhaps
    under other circumstances. *)
Theorem C73_shuffled {V} (E1 E2 : Env V) h h' w1 g1 d1 w2 g2 d2 :
  history (E := E1) h w1 g1 d1 -> history (E := E2) h' w2 g2 d2 -> Forall steady h -> shuffled h h' ->
  Forall2 (fun c1 c2 => (forall t, seg_of c1 t = seg_of c2 t) /\ Permutation (content c1) (content c2) /\
                        Permutation (flat c1) (flat c2)) g1 g2.
Proof.
  intros H1 H2 S Sh. destruct (history_spec _ _ _ _ H1) as (R1 & bs & Q1 & F1). destruct (history_spec _ _ _ _ H2) as (R2 & bs' & Q2 & F2).
  apply runs_run in Q1; auto. apply runs_run in Q2; [|eapply steady_shuffled; eauto].
  destruct (shuffled_run h h' Sh _ _ Q1) as (x & Qx & A). rewrite Q2 in Qx. inversion Qx; subst x. clear Qx.
  apply (same_contents E1 E2 _ _ _ _ _ _ bs R1 R2 F1). clear - F2 A. destruct A as (L & A). revert bs L A.
  induction F2 as [|c b g bs' Hb F2 IH]; intros bs L A; destruct bs as [|b0 bs]; try discriminate; constructor.
  - intros t. rewrite (Hb t). specialize (A 0 t). unfold cell in A. cbn in A. congruence.
  - apply IH; [simpl in L; lia|]. intros i t. apply (A (S i) t).
Qed.

(** Nor does it matter for whether the calls can be made: what the machine of SpecHist.v accepts
    in one order it accepts in the other. *)
Theorem C73_admitted {V} (h h' : list (act V)) bs : run [] h = Some bs -> shuffled h h' ->
  exists bs', run [] h' = Some bs' /\ Forall2 (fun b b' => forall t, b t = b' t) bs bs'.
Proof.
  intros Q Sh. destruct (shuffled_run h h' Sh _ _ Q) as (x & Qx & L & A). exists x. split; auto. clear - L A. revert x L A.
  induction bs as [|b bs IH]; intros [|y x] L A; try discriminate; constructor.
  - intros t. specialize (A 0 t). unfold cell in A. cbn in A. congruence.
  - apply IH; [simpl in L; lia|]. intros i t. apply (A (S i) t).
Qed.

(** The elements of a type follow from what the calls say about that type alone. *)
Theorem C73_by_type {V} (E1 E2 : Env V) ks ks' t w1 c1 d1 w2 c2 d2 :
  history (E := E1) (New :: map (On 0) ks) w1 [c1] d1 -> history (E := E2) (New :: map (On 0) ks') w2 [c2] d2 ->
  Forall alone ks -> Forall alone ks' ->
  flat_map (about t) ks = flat_map (about t) ks' -> seg_of c1 t = seg_of c2 t.
Proof.
  intros H1 H2 A1 A2 Q.
  assert (St : forall ks : list (cmd V), Forall steady (New :: map (On 0) ks)).
  { intros l. constructor; [exact I|]. apply Forall_forall. intros a J. apply in_map_iff in J. destruct J as (k & <- & _). exact I. }
  destruct (C58_computed (E := E1) _ _ _ _ H1 (St ks)) as (bs & R1 & F1). destruct (C58_computed (E := E2) _ _ _ _ H2 (St ks')) as (bs' & R2 & F2).
  cbn [run act1] in R1, R2. destruct (run_about ks none [] bs A1 R1) as (b & -> & B1). destruct (run_about ks' none [] bs' A2 R2) as (b' & -> & B2).
  inversion F1; subst. inversion F2; subst. transitivity (b t); auto. transitivity (b' t); [|auto]. rewrite B1, B2, Q. reflexivity.
Qed.

(** Two collections of one program built so compare equal, provided every element equals itself. *)
Theorem C73_equal {V} {E : Env V} ks ks' w x y d :
  history ((New :: map (On 0) ks) ++ (New :: map (On 0) ks')) w [y; x] d -> Forall alone ks -> Forall alone ks' ->
  (forall t, flat_map (about t) ks = flat_map (about t) ks') ->
  (forall t v, In v (elems x t) -> env_veq t v v = true) ->
  (forall t, elems x t = elems y t /\ (In t (types x) <-> In t (types y))) /\
  wp (c_equal x y) w (fun _ b => b = true) (fun _ _ => True) /\ wp (c_equal y x) w (fun _ b => b = true) (fun _ _ => True).
Proof.
  intros H A1 A2 Q Rf.
  assert (St : forall ks : list (cmd V), Forall steady (New :: map (On 0) ks)).
  { intros l. constructor; [exact I|]. apply Forall_forall. intros a J. apply in_map_iff in J. destruct J as (k & <- & _). exact I. }
  destruct (C58_computed _ _ _ _ H) as (bs & R & F); [apply Forall_app; auto|]. rewrite run_app in R.
  destruct (run [] (New :: map (On 0) ks)) as [bs1|] eqn:R1; [|discriminate]. cbn [run act1] in R1, R.
  destruct (run_about ks none [] bs1 A1 R1) as (b & -> & B1). destruct (run_about ks' none [b] bs A2 R) as (b' & -> & B2).
  inversion F as [|? ? ? ? Fy F']; subst. inversion F' as [|? ? ? ? Fx F'']; subst.
  assert (K : forall t, seg_of x t = seg_of y t) by (intros t; rewrite Fx, Fy, B1, B2, Q; reflexivity).
  assert (Ke : forall t, elems x t = elems y t) by (intros t; unfold elems; rewrite K; reflexivity).
  assert (Z : coll_eq x y /\ coll_eq y x).
  { split; intros t; [rewrite <- Ke|rewrite <- Ke]; unfold veqs; specialize (Rf t); induction (elems x t); constructor; auto;
      try (apply Rf; left; reflexivity); apply IHl; intros; apply Rf; right; auto. }
  pose proof (C58_reachable _ _ _ _ H) as Rc. split; [|split].
  - intros t. split; [apply Ke|]. assert (T : forall c : coll V, In t (types c) <-> seg_of c t <> None).
    { intros c. unfold types, seg_of. induction (content c) as [|[u xs] l IH]; cbn [map fst assoc]; [split; [intros []|congruence]|].
      destruct (Nat.eqb_spec u t) as [->|Ne]; [split; [discriminate|left; auto]|]. rewrite <- IH. simpl. split; [intros [Z1|Z1]; [congruence|auto]|auto]. }
    rewrite !T, K. reflexivity.
  - eapply wp_mono; [eapply spec_equal; [exact Rc|right; left; auto|left; auto]| |]; [|auto]. intros w' r (B & _). apply B. apply Z.
  - eapply wp_mono; [eapply spec_equal; [exact Rc|left; auto|right; left; auto]| |]; [|auto]. intros w' r (B & _). apply B. apply Z.
Qed.

(** ** Beside the theorems *)

(** The same elements inserted in different orders, the second time two of them at once. *)
Definition ks1 : list (cmd nat) := [Put None [(1, 5)]; Put None [(2, 8)]; PutAt 1 1 [6; 7]; Put None [(2, 3)]].
Definition ks2 : list (cmd nat) := [Put None [(2, 8); (2, 3)]; Put None [(1, 5)]; Tune; PutAt 1 1 [6; 7]].
Definition on_insert1 {E : Env nat} : list (coll nat) -> coll nat -> M (coll nat * world) unit := fun _ _ => void (c_emplace 10 (SVal 5)).
Definition on_insert2 {E : Env nat} : list (coll nat) -> coll nat -> M (coll nat * world) unit := fun _ _ => void (c_insert (mkarg 21 21 true false HCopy (SVal 8))).
Definition on_insert3 {E : Env nat} : list (coll nat) -> coll nat -> M (coll nat * world) unit := fun _ c => void (c_insert_pos_range (li_base c 1 1)
  [mkarg 10 10 true false HCopy (SVal 6); mkarg 11 11 true false HMove (SVal 7)]).
Definition on_insert4 {E : Env nat} : list (coll nat) -> coll nat -> M (coll nat * world) unit := fun _ _ => void (c_emplace 20 (SVal 3)).
Definition on_range {E : Env nat} : list (coll nat) -> coll nat -> M (coll nat * world) unit := fun _ _ =>
  c_insert_range [mkarg 20 20 true false HCopy (SVal 8); mkarg 21 21 true false HMove (SVal 3)].
Definition new (s : gw) : gw := (c_empty 0 :: fst s, snd s).
Definition way1 lay (s : gw) : gw := let E := dE lay in doo 0 on_insert4 (doo 0 on_insert3 (doo 0 on_insert2 (doo 0 on_insert1 (new s)))).
Definition way2 lay (s : gw) : gw := let E := dE lay in doo 0 on_insert3 (doo 0 (fun _ _ => c_reserve_all 3) (doo 0 on_insert1 (doo 0 on_range (new s)))).
Definition nothing : gw := ([], mkworld 1 [] 0 0 0).

Lemma way1_history lay h s d : In s [nothing; way2 lay nothing] -> history (E := dE lay) h (snd s) (fst s) d ->
  history (E := dE lay) (h ++ New :: map (On 0) ks1) (snd (way1 lay s)) (fst (way1 lay s)) d.
Proof.
  intros Is H. replace (h ++ New :: map (On 0) ks1) with (((((h ++ [New]) ++ [On 0 (Put None [(1, 5)])]) ++ [On 0 (Put None [(2, 8)])]) ++ [On 0 (PutAt 1 1 [6; 7])]) ++ [On 0 (Put None [(2, 3)])])
    by (rewrite <- !app_assoc; reflexivity).
  apply (doo_history (dE lay)); [apply (doo_history (dE lay)); [apply (doo_history (dE lay)); [apply (doo_history (dE lay));
    [apply (h_new (E := dE lay)); exact H|]|]|]|]; cbv zeta.
  - csplit; [destruct Is as [<-|[<-|[]]], lay; vm_compute; reflexivity| |destruct Is as [<-|[<-|[]]], lay; vm_compute; reflexivity].
    apply (p_emplace (E := dE lay) _ _ _ 10 (SVal 5) 5). left. reflexivity.
  - csplit; [destruct Is as [<-|[<-|[]]], lay; vm_compute; reflexivity| |destruct Is as [<-|[<-|[]]], lay; vm_compute; reflexivity].
    apply (p_insert (E := dE lay) _ _ _ (mkarg 21 21 true false HCopy (SVal 8)) 8); [discriminate|left; reflexivity].
  - csplit; [destruct Is as [<-|[<-|[]]], lay; vm_compute; reflexivity| |destruct Is as [<-|[<-|[]]], lay; vm_compute; reflexivity].
    apply (p_pos_range (E := dE lay) _ _ _ _ 1 1); [|repeat constructor].
    destruct Is as [<-|[<-|[]]], lay; (eapply li_base_points; [vm_compute; reflexivity|lia]).
  - csplit; [destruct Is as [<-|[<-|[]]], lay; vm_compute; reflexivity| |destruct Is as [<-|[<-|[]]], lay; vm_compute; reflexivity].
    apply (p_emplace (E := dE lay) _ _ _ 20 (SVal 3) 3). left. reflexivity.
Qed.
Lemma way2_history lay h s d : In s [nothing; way1 lay nothing] -> history (E := dE lay) h (snd s) (fst s) d ->
  history (E := dE lay) (h ++ New :: map (On 0) ks2) (snd (way2 lay s)) (fst (way2 lay s)) d.
Proof.
  intros Is H. replace (h ++ New :: map (On 0) ks2) with (((((h ++ [New]) ++ [On 0 (Put None [(2, 8); (2, 3)])]) ++ [On 0 (Put None [(1, 5)])]) ++ [On 0 Tune]) ++ [On 0 (PutAt 1 1 [6; 7])])
    by (rewrite <- !app_assoc; reflexivity).
  apply (doo_history (dE lay)); [apply (doo_history (dE lay)); [apply (doo_history (dE lay)); [apply (doo_history (dE lay));
    [apply (h_new (E := dE lay)); exact H|]|]|]|]; cbv zeta.
  - csplit; [destruct Is as [<-|[<-|[]]], lay; vm_compute; reflexivity| |destruct Is as [<-|[<-|[]]], lay; vm_compute; reflexivity].
    apply (p_range (E := dE lay)). repeat constructor; discriminate.
  - csplit; [destruct Is as [<-|[<-|[]]], lay; vm_compute; reflexivity| |destruct Is as [<-|[<-|[]]], lay; vm_compute; reflexivity].
    apply (p_emplace (E := dE lay) _ _ _ 10 (SVal 5) 5). left. reflexivity.
  - csplit; [destruct Is as [<-|[<-|[]]], lay; vm_compute; reflexivity| |destruct Is as [<-|[<-|[]]], lay; vm_compute; reflexivity].
    apply (p_reserve (E := dE lay)).
  - csplit; [destruct Is as [<-|[<-|[]]], lay; vm_compute; reflexivity| |destruct Is as [<-|[<-|[]]], lay; vm_compute; reflexivity].
    apply (p_pos_range (E := dE lay) _ _ _ _ 1 1); [|repeat constructor].
    destruct Is as [<-|[<-|[]]], lay; (eapply li_base_points; [vm_compute; reflexivity|lia]).
Qed.
Lemma ks_about t : flat_map (about t) ks1 = flat_map (about t) ks2.
Proof.
  destruct t as [|[|[|t]]]; reflexivity.
Qed.

(** Calls about different types, and a call which only changes capacities; two calls about the same
    type cannot be exchanged. *)
Definition h1 : list (act nat) := New :: map (On 0) ks1.
Definition h1' : list (act nat) := New :: map (On 0) [Put None [(2, 8)]; Put None [(1, 5)]; Put None [(2, 3)]; PutAt 1 1 [6; 7]].
Lemma h1_shuffled : shuffled h1 h1'.
Proof.
  eapply sh_trans.
  - apply (sh_swap [New] (On 0 (Put None [(1, 5)])) (On 0 (Put None [(2, 8)])) [On 0 (PutAt 1 1 [6; 7]); On 0 (Put None [(2, 3)])]).
    split; [exact I|split; [exact I|]]. intros i t. unfold uses. cbn. split; intros Z; decompose [and or ex] Z; try contradiction; try congruence.
  - apply (sh_swap [New; On 0 (Put None [(2, 8)]); On 0 (Put None [(1, 5)])] (On 0 (PutAt 1 1 [6; 7])) (On 0 (Put None [(2, 3)])) []).
    split; [exact I|split; [exact I|]]. intros i t. unfold uses. cbn. split; intros Z; decompose [and or ex] Z; try contradiction; try congruence.
Qed.
Definition way1' lay (s : gw) : gw := let E := dE lay in doo 0 on_insert3 (doo 0 on_insert4 (doo 0 on_insert1 (doo 0 on_insert2 (new s)))).
Lemma way1'_history lay : history (E := dE lay) h1' (snd (way1' lay nothing)) (fst (way1' lay nothing)) [].
Proof.
  change h1' with (((((([] : list (act nat)) ++ [New]) ++ [On 0 (Put None [(2, 8)])]) ++ [On 0 (Put None [(1, 5)])]) ++ [On 0 (Put None [(2, 3)])]) ++ [On 0 (PutAt 1 1 [6; 7])]).
  apply (doo_history (dE lay)); [apply (doo_history (dE lay)); [apply (doo_history (dE lay)); [apply (doo_history (dE lay));
    [apply (h_new (E := dE lay)); apply h_start|]|]|]|]; cbv zeta.
  - csplit; [destruct lay; vm_compute; reflexivity| |destruct lay; vm_compute; reflexivity].
    apply (p_insert (E := dE lay) _ _ _ (mkarg 21 21 true false HCopy (SVal 8)) 8); [discriminate|left; reflexivity].
  - csplit; [destruct lay; vm_compute; reflexivity| |destruct lay; vm_compute; reflexivity].
    apply (p_emplace (E := dE lay) _ _ _ 10 (SVal 5) 5). left. reflexivity.
  - csplit; [destruct lay; vm_compute; reflexivity| |destruct lay; vm_compute; reflexivity].
    apply (p_emplace (E := dE lay) _ _ _ 20 (SVal 3) 3). left. reflexivity.
  - csplit; [destruct lay; vm_compute; reflexivity| |destruct lay; vm_compute; reflexivity].
    apply (p_pos_range (E := dE lay) _ _ _ _ 1 1); [|repeat constructor].
    destruct lay; (eapply li_base_points; [vm_compute; reflexivity|lia]).
Qed.

Example C73_shuffled_ex lay lay' :
  history (E := dE lay) h1 (snd (way1 lay nothing)) (fst (way1 lay nothing)) [] /\
  history (E := dE lay') h1' (snd (way1' lay' nothing)) (fst (way1' lay' nothing)) [] /\ Forall steady h1 /\ shuffled h1 h1' /\
  map content (fst (way1 lay nothing)) <> [] /\
  ~ independent (On 0 (Put None [(1, 5)])) (On 0 (PutAt 1 1 [6; 7])).
Proof.
  csplit; [apply (way1_history lay [] nothing []); [left; auto|apply h_start]|apply way1'_history|repeat constructor|apply h1_shuffled| |].
  - destruct lay; vm_compute; discriminate.
  - intros (_ & _ & D). apply (proj1 (D 0 1)). split; [split; [auto|right; left; auto]|left; split; [auto|reflexivity]].
Qed.
Example C73_admitted_ex : exists b, run [] h1 = Some [b] /\ shuffled h1 h1' /\ b 1 = Some [5; 6; 7] /\ b 2 = Some [8; 3].
Proof. eexists. csplit; [reflexivity|exact h1_shuffled|reflexivity|reflexivity]. Qed.
Example C73_by_type_ex lay lay' :
  history (E := dE lay) (New :: map (On 0) ks1) (snd (way1 lay nothing)) (fst (way1 lay nothing)) [] /\
  history (E := dE lay') (New :: map (On 0) ks2) (snd (way2 lay' nothing)) (fst (way2 lay' nothing)) [] /\
  length (fst (way1 lay nothing)) = 1 /\ length (fst (way2 lay' nothing)) = 1 /\
  Forall alone ks1 /\ Forall alone ks2 /\ (forall t, flat_map (about t) ks1 = flat_map (about t) ks2) /\
  Forall (fun c => elems c 1 = [5; 6; 7] /\ elems c 2 = [8; 3]) (fst (way1 lay nothing) ++ fst (way2 lay' nothing)).
Proof.
  csplit; [apply (way1_history lay [] nothing []); [left; auto|apply h_start]|apply (way2_history lay' [] nothing []); [left; auto|apply h_start]
    |destruct lay; reflexivity|destruct lay'; reflexivity|repeat constructor|repeat constructor|exact ks_about|].
  destruct lay, lay'; vm_compute; repeat constructor.
Qed.
Example C73_equal_ex lay : let E := dE lay in let s := way2 lay (way1 lay nothing) in exists x y,
  fst s = [y; x] /\ history ((New :: map (On 0) ks1) ++ (New :: map (On 0) ks2)) (snd s) [y; x] [] /\
  Forall alone ks1 /\ Forall alone ks2 /\ (forall t, flat_map (about t) ks1 = flat_map (about t) ks2) /\
  (forall t v, In v (elems x t) -> env_veq t v v = true) /\ content x <> [] /\ done (c_equal x y (snd s)) = true.
Proof.
  cbv zeta. exists (nth 1 (fst (way2 lay (way1 lay nothing))) (c_empty 0)), (nth 0 (fst (way2 lay (way1 lay nothing))) (c_empty 0)).
  assert (Q : fst (way2 lay (way1 lay nothing)) = [nth 0 (fst (way2 lay (way1 lay nothing))) (c_empty 0); nth 1 (fst (way2 lay (way1 lay nothing))) (c_empty 0)])
    by (destruct lay; vm_compute; reflexivity).
  csplit; [exact Q| |repeat constructor|repeat constructor|exact ks_about| | |].
  - rewrite <- Q. apply way2_history; [right; left; auto|]. apply (way1_history lay [] nothing []); [left; auto|apply h_start].
  - intros t v _. destruct lay; apply Nat.eqb_refl.
  - destruct lay; vm_compute; discriminate.
  - destruct lay; vm_compute; reflexivity.
Qed.

Print Assumptions C73_shuffled.
Print Assumptions C73_admitted.
Print Assumptions C73_by_type.
Print Assumptions C73_equal.
