(** * Type restitution (C47) and segment splitting (C48)

    The algorithms of C37-C46 are compared with the standard algorithms on the sequence
    [views c Ts i j].  Here is what these are, and that they do not matter to function
    objects which do not look at the type they are passed an element as. *)

From Coq Require Import List Arith Lia Bool Permutation.
From Verif Require Import Base Vec Backend Segment Coll StdAlg Algo Spec SpecAlg Reach ProofBase ProofSeg ProofMap ProofView
  ProofAlgo ProofAlgo2 ProofAlgo3 ProofAlgo4 ProofAlgo5 ProofAlgo6 ProofAlgo7 ProofColl ProofReach ProofObs Demo Properties6.
Import ListNotations.

(** ** C47 Type restitution *)

(** A function object is passed a reference to the very element, through its own type if
    that is one of [Ts], through value_type otherwise.  The elements of the range [i], ...,
    [j-1] are passed in this order. *)
Theorem C47_references {V} {E : Env V} w c g d Ts i j t k : reach w (c :: g) d ->
  In t (types c) -> k < length (elems c t) -> i <= offset (content c) t + k -> offset (content c) t + k < j ->
  exists x, nth_error (views c Ts i j) (offset (content c) t + k - i) = Some x /\
    r_ty (snd x) = t /\ nth_error (elems c t) k = Some (r_val (snd x)) /\ addr_of c t k = Some (r_addr (snd x)) /\
    (In t Ts -> fst x = Some t) /\ (~ In t Ts -> fst x = None).
Proof.
  intros H Ht Hk Li Lj. destruct (reach_wf w c g d H) as (W & O).
  destruct (nth_error (refs c) (offset (content c) t + k)) as [r|] eqn:Q.
  2:{ exfalso. destruct (nth_flat w c g d t k H Hk) as [_ B]. apply nth_error_None in Q. rewrite refs_length, <- flat_length in Q. lia. }
  exists (seen Ts r). destruct (proj1 (nth_refs w c _ _ t k r W O Ht Hk) Q) as (A & B & C). csplit; auto.
  - unfold views. rewrite nth_error_map, between_nth by lia. replace (i + (offset (content c) t + k - i)) with (offset (content c) t + k) by lia.
    rewrite Q. reflexivity.
  - intros Hin. unfold seen. cbn [fst]. rewrite A. destruct (existsb (Nat.eqb t) Ts) eqn:X; auto.
    assert (existsb (Nat.eqb t) Ts = true); [|congruence]. apply existsb_exists. exists t. split; auto. apply Nat.eqb_refl.
  - intros Nin. unfold seen. cbn [fst]. rewrite A. destruct (existsb (Nat.eqb t) Ts) eqn:X; auto.
    apply existsb_exists in X. destruct X as (t' & Hin & Q'). apply Nat.eqb_eq in Q'. subst. contradiction.
Qed.
Example C47_references_ex lay : let E := dE lay in
  reach (dw lay) [dc lay; dx lay] [] /\ In 2 (types (dc lay)) /\ 1 < length (elems (dc lay) 2) /\
  1 <= offset (content (dc lay)) 2 + 1 /\ offset (content (dc lay)) 2 + 1 < 5 /\
  map (fun x => (fst x, r_ty (snd x), r_val (snd x))) (views (dc lay) [4; 2] 2 6) = [(None, 1, 7); (Some 2, 2, 8); (Some 2, 2, 9); (Some 4, 4, 1)].
Proof. demo lay. Qed.

(** What for_each passes to its function object, the whole log of it. *)
Theorem C47_passed {V} {E : Env V} w c g d Ts first last i j : reach w (c :: g) d ->
  located c first i -> located c last j -> i <= j ->
  forall l, pc_for_each c Ts first last (fun x => fun l => Ok (l ++ [x]) tt) l = Ok (l ++ views c Ts i j) tt.
Proof.
  intros H L1 L2 L l. set (f := fun (x : view V) (l : list (view V)) => Ok (l ++ [x]) tt).
  assert (Q : forall xs l, std_for_each f xs l = Ok (l ++ xs) tt).
  { induction xs as [|x xs IH]; intros l0; [simpl; rewrite app_nil_r; auto|].
    cbn [std_for_each]. unfold bind, f at 1. rewrite IH, <- app_assoc. auto. }
  destruct (same_ok _ _ _ _ _ _ (C37_for_each w c g d Ts first last i j f H L1 L2 L) (Q (views c Ts i j) l)) as ([] & Qa & _). exact Qa.
Qed.
Example C47_passed_ex lay : let E := dE lay in
  reach (dw lay) [dc lay; dx lay] [] /\ located (dc lay) (it_at (dc lay) 1 1) 1 /\ located (dc lay) (it_at (dc lay) 4 0) 5 /\ 1 <= 5.
Proof. demo lay. Qed.

(** Function objects which do not distinguish the ways an element is passed give the same
    results, with the same effects, whatever the types restituted are. *)
Section Blind.
Context {V : Type} {E : Env V}.
Lemma blind_ext {A} (f : view V -> A) Ts Ts' r : blind f -> f (seen Ts r) = f (seen Ts' r).
Proof. intros H. apply H. Qed.
Lemma blind2_ext {A} (f : view V -> view V -> A) Ts Ts' r r' : blind2 f -> f (seen Ts r) (seen Ts r') = f (seen Ts' r) (seen Ts' r').
Proof.
  intros H. unfold seen. etransitivity; [apply (proj1 (H _ None r _))|]. etransitivity; [apply (proj2 (H _ None r' (None, r)))|]. symmetry.
  etransitivity; [apply (proj1 (H _ None r _))|]. apply (proj2 (H _ None r' (None, r))).
Qed.
Lemma blind2_unaware {A} (f : view V -> view V -> A) Ts : blind2 f -> unaware Ts f.
Proof. intros H r x. unfold seen. apply H. Qed.
Lemma no_types_unaware {A} (f : view V -> view V -> A) : unaware [] f.
Proof. intros r x. reflexivity. Qed.
Lemma same_two {S A} (m m' : M S A) {B} (n n' : M S B) R : same_as m n R -> same_as n n' eq -> same_as m' n' R ->
  (forall a a' b, R a b -> R a' b -> a = a') -> same_as m m' eq.
Proof.
  intros H1 H2 H3 F s. specialize (H1 s). specialize (H2 s). specialize (H3 s).
  destruct (m s), (n s), (n' s), (m' s); try contradiction; auto;
    destruct H1 as [-> Q1], H2 as [-> Q2], H3 as [-> Q3]; subst; split; eauto.
Qed.
Lemma same_two_eq {S A} (m m' n n' : M S A) : same_as m n eq -> same_as n n' eq -> same_as m' n' eq -> same_as m m' eq.
Proof. intros H1 H2 H3. eapply same_two; eauto. intros; congruence. Qed.
End Blind.

Theorem C47_independent_queries {V} {E : Env V} w c g d Ts Ts' first last i j {S Y} f p (p2 : view V -> Y -> M S bool) ys : reach w (c :: g) d ->
  located c first i -> located c last j -> i <= j -> blind f -> blind p -> (forall y, blind (fun x => p2 x y)) ->
  let alike {A} (m : list tyid -> M S A) := same_as (m Ts) (m Ts') eq in
  alike (fun Ts => pc_for_each c Ts first last f) /\
  (forall n, i + n <= length (flat c) -> alike (fun Ts => pc_for_each_n c Ts first n f)) /\
  alike (fun Ts => pc_all_of c Ts first last p) /\
  alike (fun Ts => pc_any_of c Ts first last p) /\
  alike (fun Ts => pc_none_of c Ts first last p) /\
  alike (fun Ts => pc_count_if c Ts first last p) /\
  (forall y, alike (fun Ts => pc_count c Ts first last p2 y)) /\
  alike (fun Ts => pc_find_if c Ts first last p) /\
  alike (fun Ts => pc_find_if_not c Ts first last p) /\
  (forall y, alike (fun Ts => pc_find c Ts first last p2 y)) /\
  alike (fun Ts => pc_find_first_of c Ts first last p2 ys) /\
  (forall bounded, alike (fun Ts => pc_mismatch bounded c Ts first last ys p2)) /\
  (forall bounded, alike (fun Ts => pc_equal bounded c Ts first last ys p2)) /\
  alike (fun Ts => pc_is_partitioned c Ts first last p).
Proof.
  intros H L1 L2 L Bf Bp B2 alike.
  assert (Ep : forall r, p (seen Ts r) = p (seen Ts' r)) by (intros; apply blind_ext; auto).
  assert (Ef : forall r, f (seen Ts r) = f (seen Ts' r)) by (intros; apply blind_ext; auto).
  assert (E2 : forall r y, p2 (seen Ts r) y = p2 (seen Ts' r) y) by (intros r y; apply (blind_ext (fun x => p2 x y)); auto).
  assert (Pos : forall (m m' : M S iter) (n n' : M S nat), same_as m n (fun it k => located c it (i + k)) -> same_as n n' eq ->
    same_as m' n' (fun it k => located c it (i + k)) -> same_as m m' eq).
  { intros m m' n n' H1 H2 H3. eapply same_two; eauto. cbn beta. intros a a' b Q1 Q2. exact (located_inj _ _ _ _ _ _ _ H Q1 Q2). }
  unfold alike; cbn beta. csplit.
  - eapply same_two_eq; [eapply C37_for_each; eauto|apply ext_for_each; exact Ef|eapply C37_for_each; eauto].
  - intros n Ln. eapply same_two with (R := fun it (_ : unit) => located c it (i + n)).
    + eapply C37_for_each_n; eauto.
    + apply ext_for_each; exact Ef.
    + eapply C37_for_each_n; eauto.
    + cbn beta. intros a a' _ Q1 Q2. exact (located_inj _ _ _ _ _ _ _ H Q1 Q2).
  - eapply same_two_eq; [eapply C38_all_of; eauto|apply ext_all_of; exact Ep|eapply C38_all_of; eauto].
  - eapply same_two_eq; [eapply C38_any_of; eauto|apply ext_any_of; exact Ep|eapply C38_any_of; eauto].
  - eapply same_two_eq; [eapply C38_none_of; eauto|apply ext_none_of; exact Ep|eapply C38_none_of; eauto].
  - eapply same_two_eq; [eapply C38_count_if; eauto|apply ext_count_if; exact Ep|eapply C38_count_if; eauto].
  - intros y. eapply same_two_eq; [eapply C38_count; eauto|apply ext_count_if; intros; apply E2|eapply C38_count; eauto].
  - eapply Pos; [eapply C39_find_if; eauto|apply ext_find_if; exact Ep|eapply C39_find_if; eauto].
  - eapply Pos; [eapply C39_find_if_not; eauto|apply ext_find_if_not; exact Ep|eapply C39_find_if_not; eauto].
  - intros y. eapply Pos; [eapply C39_find; eauto|apply ext_find_if; intros; apply E2|eapply C39_find; eauto].
  - eapply Pos; [eapply C39_find_first_of; eauto|apply ext_find_first_of; exact E2|eapply C39_find_first_of; eauto].
  - intros bounded. eapply same_two; [eapply C41_mismatch; eauto| |eapply C41_mismatch; eauto|].
    + destruct bounded; [apply ext_mismatch_to|apply ext_mismatch]; exact E2.
    + cbn beta. intros [a1 a2] [b1 b2] k (Q1 & Q2) (Q3 & Q4). cbn [fst snd] in *. rewrite (located_inj _ _ _ _ _ _ _ H Q1 Q3). congruence.
  - intros bounded. eapply same_two_eq; [eapply C41_equal; eauto| |eapply C41_equal; eauto].
    destruct bounded; [apply ext_equal_to|apply ext_equal]; exact E2.
  - eapply same_two_eq; [eapply C46_is_partitioned_calls; eauto|apply ext_is_partitioned; exact Ep|eapply C46_is_partitioned_calls; eauto].
Qed.
Example C47_independent_queries_ex lay : let E := dE lay in
  reach (dw lay) [dc lay; dx lay] [] /\ located (dc lay) (dfirst lay) 1 /\ located (dc lay) (dlast lay) 5 /\ 1 <= 5 /\ 1 + 2 <= length (flat (dc lay)) /\ blind (fun x : view nat => ret (S := nat) (val x =? 8)).
Proof. demo lay. Qed.

Theorem C47_independent_copies {V} {E : Env V} w c g d Ts Ts' first last i j {S Y O N} p put (op : view V -> M S O) (op2 : view V -> Y -> M S O) puto
  (new : N) putn ys (q : view V -> view V -> bool) o : reach w (c :: g) d ->
  located c first i -> located c last j -> i <= j -> blind p -> (forall o, blind (put o)) -> blind op -> (forall y, blind (fun x => op2 x y)) ->
  (forall o, blind (fun x => putn o (inr x))) -> equivalence q -> blind2 q ->
  let alike {A} (m : list tyid -> M S A) := same_as (m Ts) (m Ts') eq in
  alike (fun Ts => pc_copy c Ts first last put o) /\
  (forall n, i + n <= length (flat c) -> alike (fun Ts => pc_copy_n c Ts first n put o)) /\
  alike (fun Ts => pc_copy_if c Ts first last put p o) /\
  alike (fun Ts => pc_transform c Ts first last puto op o) /\
  alike (fun Ts => pc_transform2 c Ts first last ys puto op2 o) /\
  alike (fun Ts => pc_replace_copy_if c Ts first last putn p new o) /\
  alike (fun Ts => pc_remove_copy_if c Ts first last put p o) /\
  alike (fun Ts => pc_unique_copy c Ts first last put (pure2 q) o) /\
  (forall middle m, located c middle m -> i <= m -> m <= j -> alike (fun Ts => pc_rotate_copy c Ts first middle last put o)) /\
  (forall n draw, alike (fun Ts => pc_sample c Ts first last put n draw o)) /\
  (forall o2, alike (fun Ts => pc_partition_copy c Ts first last put put p (o, o2))).
Proof.
  intros H L1 L2 L Bp Bput Bop Bop2 Bn HE B2 alike.
  assert (Ep : forall r, p (seen Ts r) = p (seen Ts' r)) by (intros; apply blind_ext; auto).
  assert (Eput : forall o r, put o (seen Ts r) = put o (seen Ts' r)) by (intros; apply blind_ext; auto).
  assert (Eop : forall r, op (seen Ts r) = op (seen Ts' r)) by (intros; apply blind_ext; auto).
  assert (Eop2 : forall r y, op2 (seen Ts r) y = op2 (seen Ts' r) y) by (intros r y; apply (blind_ext (fun x => op2 x y)); auto).
  assert (En : forall o r, putn o (inr (seen Ts r)) = putn o (inr (seen Ts' r))) by (intros o' r; apply (blind_ext (fun x => putn o' (inr x))); auto).
  unfold alike; cbn beta. csplit.
  - eapply same_two_eq; [eapply C44_copy; eauto|apply ext_copy; exact Eput|eapply C44_copy; eauto].
  - intros n Ln. eapply same_two_eq; [eapply C44_copy_n; eauto|apply ext_copy; exact Eput|eapply C44_copy_n; eauto].
  - eapply same_two_eq; [eapply C44_copy_if; eauto|apply ext_copy_if; [exact Ep|exact Eput]|eapply C44_copy_if; eauto].
  - eapply same_two_eq; [eapply C44_transform; eauto|apply ext_transform; exact Eop|eapply C44_transform; eauto].
  - eapply same_two_eq; [eapply C44_transform_binary; eauto|apply ext_transform2; exact Eop2|eapply C44_transform_binary; eauto].
  - eapply same_two_eq; [eapply C44_replace_copy_if; eauto|apply ext_replace_copy_if; [exact Ep|exact En]|eapply C44_replace_copy_if; eauto].
  - eapply same_two_eq; [eapply C44_remove_copy_if; eauto|apply ext_remove_copy_if; [exact Ep|exact Eput]|eapply C44_remove_copy_if; eauto].
  - eapply same_two_eq; [eapply C44_unique_copy; eauto using blind2_unaware| |eapply C44_unique_copy; eauto using blind2_unaware].
    apply ext_unique_copy; [|exact Eput]. intros a b. unfold pure2. f_equal. apply blind2_ext; auto.
  - intros middle m L3 Lm Lm'. eapply same_two_eq; [eapply C44_rotate_copy; eauto|apply ext_rotate_copy; exact Eput|eapply C44_rotate_copy; eauto].
  - intros n draw. eapply same_two_eq; [eapply C45_sample_calls; eauto|apply ext_sample; exact Eput|eapply C45_sample_calls; eauto].
  - intros o2. eapply same_two_eq; [eapply C44_partition_copy; eauto|apply ext_partition_copy; [exact Ep|exact Eput|exact Eput]|eapply C44_partition_copy; eauto].
Qed.
Example C47_independent_copies_ex lay : let E := dE lay in
  reach (dw lay) [dc lay; dx lay] [] /\ located (dc lay) (dfirst lay) 1 /\ located (dc lay) (dlast lay) 5 /\ 1 <= 5 /\ 1 + 2 <= length (flat (dc lay)) /\ located (dc lay) (it_at (dc lay) 2 0) 3 /\
  equivalence (fun x y : view nat => val x / 7 =? val y / 7) /\ blind2 (fun x y : view nat => val x / 7 =? val y / 7) /\
  (forall o, blind (fun x : view nat => records (G := unit) o (val x))).
Proof.
  cbv zeta. csplit; try (demo_fact lay); try (intros T T' r x; split; reflexivity); try (intros o T T' r; reflexivity).
  split; [intros; apply Nat.eqb_refl|split; [intros; apply Nat.eqb_sym|]].
  intros x y z H1 H2. apply Nat.eqb_eq in H1, H2. apply Nat.eqb_eq. congruence.
Qed.

(** The same for the algorithms which were characterised for predicates without effects. *)
Theorem C47_independent_searches {V} {E : Env V} w c g d Ts Ts' first last i j {S Y} (p : view V -> bool) (p2 : view V -> Y -> bool) (q : view V -> view V -> bool)
  (R : view V + Y -> view V + Y -> bool) ys : reach w (c :: g) d ->
  located c first i -> located c last j -> i <= j -> blind p -> (forall y, blind (fun x => p2 x y)) -> blind2 q ->
  equivalence R -> (forall y, blind (fun x => R (inl x) (inr y))) ->
  let alike {A} (m : list tyid -> M S A) := same_as (m Ts) (m Ts') eq in
  alike (fun Ts => pc_search c Ts first last ys (pure2 p2)) /\
  alike (fun Ts => pc_find_end c Ts first last ys (pure2 p2)) /\
  (forall n, alike (fun Ts => pc_search_n c Ts first last n (pure p))) /\
  (forall bounded, (bounded = false -> j - i <= length ys) ->
     alike (fun Ts => pc_is_permutation bounded c Ts first last ys (pure2 (fun x z => R (inl x) z)))) /\
  (forall ts fs, views c Ts i j = ts ++ fs -> Forall (fun x => p x = true) ts -> Forall (fun x => p x = false) fs ->
     alike (fun Ts => pc_partition_point c Ts first last (pure p))) /\
  (env_layout = SplitLayout \/ separate c ->
     alike (fun Ts => pc_adjacent_find c Ts first last (pure2 q))).
Proof.
  intros H L1 L2 L Bp B2 Bq HR BR alike.
  assert (Inj : forall a b k k', located c a (i + k) -> located c b (i + k') -> k = k' -> a = b).
  { intros a b k k' Q1 Q2 ->. exact (located_inj _ _ _ _ _ _ _ H Q1 Q2). }
  unfold alike; cbn beta. csplit.
  - eapply yields_both; [eapply C43_search; eauto|eapply C43_search; eauto|]. cbn beta. intros a b (k & K1 & K2) (k' & K1' & K2').
    eapply Inj; eauto. eapply foe_fun; [exact K2|]. eapply foe_ext; [|exact K2']. intros n. split; apply occurs_blind; auto.
  - eapply yields_both; [eapply C43_find_end; eauto|eapply C43_find_end; eauto|]. cbn beta. intros a b (k & K1 & K2) (k' & K1' & K2').
    eapply Inj; eauto. assert (Q : forall n, occurs p2 ys (views c Ts i j) n <-> occurs p2 ys (views c Ts' i j) n) by (intros n; split; apply occurs_blind; auto).
    destruct K2 as [[Ny [A B]]|[-> A]], K2' as [[Ny' [A' B']]|[-> A']]; auto.
    + apply Q in A. apply Q in A'. apply B' in A. apply B in A'. lia.
    + elim (A' k Ny). apply Q, A.
    + elim (A k' Ny'). apply Q, A'.
  - intros n. eapply yields_both; [eapply C43_search_n; eauto|eapply C43_search_n; eauto|]. cbn beta. intros a b (k & K1 & K2) (k' & K1' & K2').
    eapply Inj; eauto. eapply foe_fun; [exact K2|]. eapply foe_ext; [|exact K2']. intros m. split; apply run_blind; auto.
  - intros bounded Hb. eapply yields_both; [eapply C42_is_permutation; eauto|eapply C42_is_permutation; eauto|]. cbn beta. intros a b Q1 Q2.
    assert (Q : a = true <-> b = true) by (rewrite Q1, Q2; split; apply permuted_blind; auto).
    destruct a, b; try reflexivity; [symmetry|]; apply Q; reflexivity.
  - intros ts fs Hv Ft Ff. set (k := length ts). assert (Hv' : map snd (views c Ts i j) = map snd (views c Ts' i j)).
    { unfold views. rewrite !map_map. reflexivity. }
    assert (Bs : forall x y : view V, snd x = snd y -> p x = p y) by (intros [T r] [T' r'] Q; cbn [snd] in Q; subst; apply Bp).
    eapply yields_both; [eapply C46_partition_point; eauto| |].
    + apply (C46_partition_point w c g d Ts' first last i j p (firstn k (views c Ts' i j)) (skipn k (views c Ts' i j))); auto.
      * symmetry. apply firstn_skipn.
      * assert (F : Forall (fun r => p (None, r) = true) (map snd (firstn k (views c Ts' i j)))).
        { replace (map snd (firstn k (views c Ts' i j))) with (firstn k (map snd (views c Ts i j))) by (rewrite Hv'; apply firstn_map).
          rewrite Hv, map_app, firstn_app, map_length. unfold k. rewrite Nat.sub_diag. cbn [firstn]. rewrite app_nil_r, firstn_all2 by (rewrite map_length; lia).
          rewrite Forall_map. eapply Forall_impl; [|exact Ft]. cbn beta. intros x Qx. rewrite <- Qx. apply Bs. reflexivity. }
        rewrite Forall_map in F. eapply Forall_impl; [|exact F]. cbn beta. intros x Qx. rewrite <- Qx. apply Bs. reflexivity.
      * assert (F : Forall (fun r => p (None, r) = false) (map snd (skipn k (views c Ts' i j)))).
        { replace (map snd (skipn k (views c Ts' i j))) with (skipn k (map snd (views c Ts i j))) by (rewrite Hv'; apply skipn_map).
          rewrite Hv, map_app, skipn_app, map_length. unfold k. rewrite Nat.sub_diag. cbn [skipn]. rewrite skipn_all2 by (rewrite map_length; lia).
          cbn [app]. rewrite Forall_map. eapply Forall_impl; [|exact Ff]. cbn beta. intros x Qx. rewrite <- Qx. apply Bs. reflexivity. }
        rewrite Forall_map in F. eapply Forall_impl; [|exact F]. cbn beta. intros x Qx. rewrite <- Qx. apply Bs. reflexivity.
    + cbn beta. intros a b Q1 Q2. eapply Inj; eauto. rewrite firstn_length. unfold k.
      destruct (loc _ _ _ _ _ _ H L2) as [_ B].
      assert (Hl := f_equal (@length _) Hv). rewrite app_length, views_length in Hl by auto. rewrite views_length by auto. lia.
  - intros Ap. eapply same_two; [eapply C40_adjacent_find_partial; eauto; eapply blind2_unaware| |eapply C40_adjacent_find_partial; eauto; eapply blind2_unaware|].
    + intros T T' r x. unfold pure2. split; f_equal; apply Bq.
    + apply ext_adjacent_find. intros a b. unfold pure2. f_equal. apply blind2_ext; auto.
    + intros T T' r x. unfold pure2. split; f_equal; apply Bq.
    + cbn beta. intros a a' b Q1 Q2. eapply Inj; eauto.
Qed.
Example C47_independent_searches_ex lay : let E := dE lay in
  reach (dw lay) [dc lay; dx lay] [] /\ located (dc lay) (dfirst lay) 1 /\ located (dc lay) (dlast lay) 5 /\ 1 <= 5 /\ blind2 (fun x y : view nat => val x =? val y) /\
  equivalence (fun x y : view nat + nat => match x with inl v => val v | inr n => n end =? match y with inl v => val v | inr n => n end) /\
  views (dc lay) [2] 1 5 = views (dc lay) [2] 1 3 ++ views (dc lay) [2] 3 5 /\
  Forall (fun x => (val x <? 8) = true) (views (dc lay) [2] 1 3) /\ Forall (fun x => (val x <? 8) = false) (views (dc lay) [2] 3 5).
Proof.
  cbv zeta. csplit; try (demo_fact lay); try (intros T T' r x; split; reflexivity); try (destruct lay; vm_compute; repeat constructor; fail).
  split; [intros; apply Nat.eqb_refl|split; [intros; apply Nat.eqb_sym|]].
  intros x y z H1 H2. apply Nat.eqb_eq in H1, H2. apply Nat.eqb_eq. congruence.
Qed.

(** adjacent_find and unique_copy do not keep the rule: when two elements of different
    segments are compared, the first one is always passed through value_type, although its
    type, here 1, is one of those restituted. *)
Theorem C47_adjacent_find_refuted : exists (E : Env nat) w c g d Ts first last,
  reach w (c :: g) d /\ located c first 0 /\ located c last 6 /\
  exists log, pc_adjacent_find c Ts first last (fun x y => fun l => Ok (l ++ [(x, y)]) false) [] = Ok log last /\
    exists x y, In (x, y) log /\ In (r_ty (snd x)) Ts /\ fst x = None.
Proof.
  pose (E := dE PackedLayout).
  exists (dE PackedLayout), (dw PackedLayout), (dc PackedLayout), [dx PackedLayout], [], [1], (it_at (dc PackedLayout) 1 0), (c_end (dc PackedLayout)).
  csplit; [exact (d_reach PackedLayout)|demo_fact PackedLayout|left; split; vm_compute; reflexivity|].
  eexists. split; [vm_compute; reflexivity|].
  eexists (None, mkref 1 7 _), _. csplit; [do 2 right; left; reflexivity|left; reflexivity|reflexivity].
Qed.
Theorem C47_unique_copy_refuted : exists (E : Env nat) w c g d Ts first last,
  reach w (c :: g) d /\ located c first 0 /\ located c last 6 /\
  exists log n, pc_unique_copy c Ts first last (fun _ _ => ret tt) (fun x y => fun l => Ok (l ++ [(x, y)]) false) 0 [] = Ok log n /\
    exists x y, In (x, y) log /\ In (r_ty (snd x)) Ts /\ fst x = None.
Proof.
  pose (E := dE PackedLayout).
  exists (dE PackedLayout), (dw PackedLayout), (dc PackedLayout), [dx PackedLayout], [], [1], (it_at (dc PackedLayout) 1 0), (c_end (dc PackedLayout)).
  csplit; [exact (d_reach PackedLayout)|demo_fact PackedLayout|left; split; vm_compute; reflexivity|].
  do 2 eexists. split; [vm_compute; reflexivity|].
  eexists (None, mkref 1 7 _), _. csplit; [do 2 right; left; reflexivity|left; reflexivity|reflexivity].
Qed.

(** ** C48 Segment splitting *)

(** A range is decomposed into local ranges [a,b) of segments of types [t], [parts], which
    are consecutive segments, each with its type_info; together they are exactly the range. *)
Theorem C48_segment_split {V} {E : Env V} w c g d first last i j : reach w (c :: g) d ->
  located c first i -> located c last j -> i <= j ->
  exists ps parts, segment_split c first last = Some ps /\
    Forall2 (fun p '(t, a, b) => pc_ty p = t /\ a <= b /\
      lpoints c (mkliter (pc_id p) (PBase (pc_beg p))) t a /\ lpoints c (mkliter (pc_id p) (PBase (pc_end p))) t b) ps parts /\
    (exists l1 l2, types c = l1 ++ map (fun '(t, a, b) => t) parts ++ l2) /\
    flat_map (fun '(t, a, b) => seq (offset (content c) t + a) (b - a)) parts = seq i (j - i).
Proof.
  intros H L1 L2 L. alg H L1 L2. destruct (reach_wf w c g d H) as (Wf & O).
  destruct (split_ok c i j W L B') as (ps & Q & C). destruct (cover_parts w c _ _ ps i j Wf O C) as (parts & F & Qs).
  exists ps, parts. csplit; auto. destruct (split_types c _ _ ps W Q) as (l1 & l2 & Et). exists l1, l2. rewrite Et. f_equal. f_equal.
  clear - F. induction F as [|p [[t a] b] ps parts Hp F IH]; cbn [map]; auto. destruct Hp as (-> & _). f_equal. exact IH.
Qed.
Example C48_segment_split_ex lay : let E := dE lay in
  reach (dw lay) [dc lay; dx lay] [] /\ located (dc lay) (dfirst lay) 1 /\ located (dc lay) (dlast lay) 5 /\ 1 <= 5 /\ types (dc lay) = match lay with PackedLayout => [3; 1; 2; 4] | SplitLayout => [1; 3; 2; 4] end.
Proof. demo lay. Qed.

(** No other segments take part than those with elements of the range, except empty ones. *)
Theorem C48_types {V} {E : Env V} w c g d first last i j ps : reach w (c :: g) d ->
  located c first i -> located c last j -> i <= j -> segment_split c first last = Some ps ->
  NoDup (map pc_ty ps) /\ (forall r, In r (between i j (refs c)) -> In (r_ty r) (map pc_ty ps)).
Proof.
  intros H L1 L2 L Q. alg H L1 L2. destruct (reach_wf w c g d H) as (Wf & O). split.
  - destruct (split_types c _ _ ps W Q) as (l1 & l2 & Et). assert (ND : NoDup (types c)) by (rewrite types_nodes; apply Wf).
    rewrite Et in ND. clear - ND. induction l1 as [|x l1 IH]; cbn [app] in ND; [|apply IH; inversion ND; auto].
    induction (map pc_ty ps) as [|y l IH]; [constructor|]. cbn [app] in ND. inversion ND as [|? ? Nin ND']; subst. constructor; auto.
    intros Hin. apply Nin, in_or_app. auto.
  - destruct (split_ok c i j W L B') as (ps' & Q' & C). assert (ps' = ps) as -> by congruence. clear Q Q' L L1 L2 B B'.
    intros r Hr. induction C as [i|p ps i j k P C IH]; [rewrite between_nil in Hr; inversion Hr|].
    destruct (piece_le _ _ _ _ P) as [Lp _]. rewrite <- (between_app i j k) in Hr by (auto; apply cover_le in C; auto).
    apply in_app_or in Hr. destruct Hr as [Hr|Hr]; [left|right; auto].
    destruct P as (l1 & n & l2 & a & b & En & -> & _ & Lb & -> & ->). cbn [pc_ty].
    rewrite refs_nodes, En, flat_map_app in Hr. rewrite <- (flat_nrefs_length l1), between_app_r in Hr. cbn [flat_map] in Hr.
    rewrite between_app_l in Hr by (rewrite nrefs_length; auto). apply between_in in Hr. symmetry. apply nrefs_ty; auto.
Qed.
Example C48_types_ex lay : let E := dE lay in
  reach (dw lay) [dc lay; dx lay] [] /\ located (dc lay) (dfirst lay) 1 /\ located (dc lay) (dlast lay) 5 /\ 1 <= 5 /\ option_map (map pc_ty) (segment_split (dc lay) (dfirst lay) (dlast lay)) =
    Some match lay with PackedLayout => [1; 2; 4] | SplitLayout => [1; 3; 2; 4] end.
Proof. demo lay. Qed.

(** for_each_segment visits these local ranges, in this order. *)
Theorem C48_for_each_segment {V} {E : Env V} w c g d first last i j {S} f : reach w (c :: g) d ->
  located c first i -> located c last j -> i <= j ->
  exists ps, segment_split c first last = Some ps /\ same_as (S := S) (for_each_segment c first last f) (std_for_each f ps) eq.
Proof.
  intros H L1 L2 L. alg H L1 L2. destruct (split_ok c i j W L B') as (ps & Q & C). exists ps. split; auto.
  apply (for_each_segment_split c W i j L B' f ps Q).
Qed.
Example C48_for_each_segment_ex lay : let E := dE lay in
  reach (dw lay) [dc lay; dx lay] [] /\ located (dc lay) (dfirst lay) 1 /\ located (dc lay) (dlast lay) 5 /\ 1 <= 5.
Proof. demo lay. Qed.

Print Assumptions C47_references.
Print Assumptions C47_passed.
Print Assumptions C47_independent_queries.
Print Assumptions C47_independent_copies.
Print Assumptions C47_independent_searches.
Print Assumptions C47_adjacent_find_refuted.
Print Assumptions C47_unique_copy_refuted.
Print Assumptions C48_segment_split.
Print Assumptions C48_types.
Print Assumptions C48_for_each_segment.
