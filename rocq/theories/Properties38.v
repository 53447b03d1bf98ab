(** * Algorithms on two ranges (C82)

    See the heads of Properties1.v and Properties6.v for the form of the statements.  The second range is given by iterators of any type, [sequence F its ys] saying that
    [its 0], [its 1], ... go over the elements [ys] (SpecTwo.v), or by iterators of a collection, the same or another one. *)

From Coq Require Import List Arith Lia Bool Permutation.
From Verif Require Import Base Vec Backend Segment Coll StdAlg Algo Loops Two Spec SpecAlg SpecTwo Reach ProofBase ProofVec ProofBackend
  ProofOps ProofSeg ProofMap ProofView ProofColl ProofAlgo ProofReach ProofObs ProofProp ProofTwo Properties6 Demo.
Import ListNotations.

(** Any range: an array, with indices as iterators. *)
Definition array {Y} (ys : list Y) : forward nat Y := mkforward (fun k => nth_error ys k) (fun k => if k <? length ys then Some (1 + k) else None) Nat.eqb.
Lemma array_sequence {Y} (ys : list Y) : sequence (array ys) (fun k => k) ys.
Proof.
  split; [|intros a b _ _; reflexivity]. intros k y Hk. assert (Lk : k < length ys) by (apply nth_error_Some; congruence).
  split; [exact Hk|]. change ((if k <? length ys then Some (1 + k) else None) = Some (1 + k)). apply Nat.ltb_lt in Lk. rewrite Lk. reflexivity.
Qed.

(** In the examples: the place of the first object of type 1 in the second collection, and comparisons by value. *)
Definition dp (lay : layout) : nat := match lay with PackedLayout => 1 | SplitLayout => 2 end.
Definition val_or (z : view nat + nat) : nat := match z with inl x => val x | inr y => y end.
Definition val_of (z : view nat + tyid * nat) : nat := match z with inl x => val x | inr y => snd y end.
Lemma by_value_equivalence {X} (f : X -> nat) : equivalence (fun x y => f x =? f y).
Proof.
  split; [intros x; apply Nat.eqb_refl|split; [intros x y; apply Nat.eqb_sym|]]. intros x y z H K. apply Nat.eqb_eq in H, K. apply Nat.eqb_eq. congruence.
Qed.

(** ** Any iterators *)

(** mismatch and equal do what those of the standard library do on the sequences, with and without the end of the second range; the result has the iterator for the
    second range. *)
Theorem C82_mismatch {V} {E : Env V} w c g d Ts first last i j {S I Y} (F : forward I Y) its ys (p : view V -> Y -> M S bool) : reach w (c :: g) d ->
  located c first i -> located c last j -> i <= j -> sequence F its ys ->
  follows (pi_mismatch F c Ts first last (its 0) (Some (its (length ys))) p) (std_mismatch_to p (views c Ts i j) ys)
    (fun r k => located c (fst r) (i + k) /\ snd r = its k) /\
  follows (pi_mismatch F c Ts first last (its 0) None p) (std_mismatch p (views c Ts i j) ys)
    (fun r k => located c (fst r) (i + k) /\ snd r = its k).
Proof.
  intros H L1 L2 L Sq. split.
  - eapply follows_mono; [|eapply follows_same; [apply (pi_mismatch_follows F c Ts first last p (Some (its (length ys))) true its ys Sq); split; reflexivity|
      apply (C41_mismatch w c g d Ts first last i j true p ys H L1 L2 L)]].
    intros r k (r' & (Q1 & Q2 & _) & Q3 & Q4). split; congruence.
  - eapply follows_mono; [|eapply follows_same; [apply (pi_mismatch_follows F c Ts first last p None false its ys Sq); reflexivity|
      apply (C41_mismatch w c g d Ts first last i j false p ys H L1 L2 L)]].
    intros r k (r' & (Q1 & Q2 & _) & Q3 & Q4). split; congruence.
Qed.
Example C82_mismatch_ex lay : let E := dE lay in
  reach (dw lay) [dc lay; dx lay] [] /\ located (dc lay) (dfirst lay) 1 /\ located (dc lay) (dlast lay) 5 /\ 1 <= 5 /\
  sequence (array [6; 7; 8; 10]) (fun k => k) [6; 7; 8; 10] /\
  match pi_mismatch (array [6; 7; 8; 10]) (dc lay) [] (dfirst lay) (dlast lay) 0 (Some 4) (fun x y => ret (val x =? y)) tt with
  | Ok tt (it, k) => k = 3 /\ it_deref (dc lay) it = Some (2, 9) | _ => False end.
Proof. cbv zeta. csplit; try apply array_sequence; demo lay. Qed.
Theorem C82_equal {V} {E : Env V} w c g d Ts first last i j {S I Y} (F : forward I Y) its ys (p : view V -> Y -> M S bool) : reach w (c :: g) d ->
  located c first i -> located c last j -> i <= j -> sequence F its ys ->
  follows (pi_equal F c Ts first last (its 0) (Some (its (length ys))) p) (std_equal_to p (views c Ts i j) ys) eq /\
  follows (pi_equal F c Ts first last (its 0) None p) (std_equal p (views c Ts i j) ys) eq.
Proof.
  intros H L1 L2 L Sq. split.
  - eapply follows_mono; [|eapply follows_same; [apply (pi_equal_follows F c Ts first last p (Some (its (length ys))) true its ys Sq); split; reflexivity|
      apply (C41_equal w c g d Ts first last i j true p ys H L1 L2 L)]]. intros r k (r' & -> & ->). reflexivity.
  - eapply follows_mono; [|eapply follows_same; [apply (pi_equal_follows F c Ts first last p None false its ys Sq); reflexivity|
      apply (C41_equal w c g d Ts first last i j false p ys H L1 L2 L)]]. intros r k (r' & -> & ->). reflexivity.
Qed.
Example C82_equal_ex lay : let E := dE lay in
  reach (dw lay) [dc lay; dx lay] [] /\ located (dc lay) (dfirst lay) 1 /\ located (dc lay) (dlast lay) 5 /\ 1 <= 5 /\
  sequence (array [6; 7; 8; 9]) (fun k => k) [6; 7; 8; 9] /\
  pi_equal (array [6; 7; 8; 9]) (dc lay) [1] (dfirst lay) (dlast lay) 0 (Some 4) (fun x y => ret (val x =? y)) tt = Ok tt true /\
  pi_equal (array [6; 7; 8; 9]) (dc lay) [1] (dfirst lay) (dlast lay) 0 (Some 3) (fun x y => ret (val x =? y)) tt = Ok tt false.
Proof. cbv zeta. csplit; try apply array_sequence; demo lay. Qed.
Theorem C82_find_first_of {V} {E : Env V} w c g d Ts first last i j {S I Y} (F : forward I Y) its ys fuel (p : view V -> Y -> M S bool) : reach w (c :: g) d ->
  located c first i -> located c last j -> i <= j -> sequence F its ys -> length ys <= fuel ->
  follows (pi_find_first_of F fuel c Ts first last p (its 0) (its (length ys))) (std_find_first_of p ys (views c Ts i j)) (fun it k => located c it (i + k)).
Proof.
  intros H L1 L2 L Sq Lf. eapply follows_mono; [|eapply follows_same; [apply (pi_find_first_of_follows F fuel c Ts first last p its ys Sq Lf)|
    apply (C39_find_first_of w c g d Ts first last i j p ys H L1 L2 L)]]. intros it k (r' & -> & Q). exact Q.
Qed.
Example C82_find_first_of_ex lay : let E := dE lay in
  reach (dw lay) [dc lay; dx lay] [] /\ located (dc lay) (dfirst lay) 1 /\ located (dc lay) (dlast lay) 5 /\ 1 <= 5 /\
  sequence (array [9; 8]) (fun k => k) [9; 8] /\ length [9; 8] <= 2 /\
  match pi_find_first_of (array [9; 8]) 2 (dc lay) [] (dfirst lay) (dlast lay) (fun x y => ret (val x =? y)) 0 2 tt with
  | Ok tt it => it_deref (dc lay) it = Some (2, 8) | _ => False end.
Proof. cbv zeta. csplit; try apply array_sequence; demo lay. Qed.
Theorem C82_transform {V} {E : Env V} w c g d Ts first last i j {S I Y O} (F : forward I Y) its ys (op : view V -> Y -> M S O) put o : reach w (c :: g) d ->
  located c first i -> located c last j -> i <= j -> sequence F its ys ->
  follows (pi_transform2 F c Ts first last (its 0) put op o) (std_transform2 op put (views c Ts i j) ys o) eq.
Proof.
  intros H L1 L2 L Sq. eapply follows_mono; [|eapply follows_same; [apply (pi_transform2_follows F c Ts first last op put o its ys Sq)|
    apply (C44_transform_binary w c g d Ts first last i j op put ys o H L1 L2 L)]]. intros it k (r' & -> & Q). exact Q.
Qed.
Example C82_transform_ex lay : let E := dE lay in
  reach (dw lay) [dc lay; dx lay] [] /\ located (dc lay) (dfirst lay) 1 /\ located (dc lay) (dlast lay) 5 /\ 1 <= 5 /\
  sequence (array [1; 2; 3; 4]) (fun k => k) [1; 2; 3; 4] /\
  pi_transform2 (array [1; 2; 3; 4]) (dc lay) [] (dfirst lay) (dlast lay) 0 (fun o y s => Ok (s ++ [(o, y)]) tt) (fun x y => ret (val x + y)) 20 [] = Ok [(20, 7); (21, 9); (22, 11); (23, 13)] 24.
Proof. cbv zeta. csplit; try apply array_sequence; demo lay. Qed.
(** For equivalences is_permutation tells whether the sequences are permutations of each other; the second one is as long as the first one if its end is not given. *)
Theorem C82_is_permutation {V} {E : Env V} w c g d Ts first last i j {S I Y} (F : forward I Y) its ys fuel (R : view V + Y -> view V + Y -> bool) : reach w (c :: g) d ->
  located c first i -> located c last j -> i <= j -> sequence F its ys -> length ys <= fuel -> equivalence R ->
  yields (S := S) (pi_is_permutation F fuel c Ts first last (its 0) (Some (its (length ys))) (pure2 (fun x z => R (inl x) z)))
    (fun b => b = true <-> permuted (fun x y => R (inl x) (inr y)) (views c Ts i j) ys) /\
  (j - i <= length ys ->
   yields (S := S) (pi_is_permutation F fuel c Ts first last (its 0) None (pure2 (fun x z => R (inl x) z)))
     (fun b => b = true <-> permuted (fun x y => R (inl x) (inr y)) (views c Ts i j) (firstn (j - i) ys))).
Proof.
  intros H L1 L2 L Sq Lf HR.
  split; [|intros Lj; pose proof (fun _ : false = false => Lj) as Lj'].
  - eapply ProofAlgo4.yields_mono; [|eapply follows_yields; [apply (pi_is_permutation_follows F fuel c Ts first last _ (Some (its (length ys))) true its ys Sq); [split; reflexivity|exact Lf]|
      apply (C42_is_permutation w c g d Ts first last i j R true ys H L1 L2 L HR); discriminate]]. intros b (b' & -> & Q). exact Q.
  - eapply ProofAlgo4.yields_mono; [|eapply follows_yields; [apply (pi_is_permutation_follows F fuel c Ts first last _ None false its ys Sq); [reflexivity|exact Lf]|
      apply (C42_is_permutation w c g d Ts first last i j R false ys H L1 L2 L HR Lj')]]. intros b (b' & -> & Q). exact Q.
Qed.
Example C82_is_permutation_ex lay : let E := dE lay in
  reach (dw lay) [dc lay; dx lay] [] /\ located (dc lay) (dfirst lay) 1 /\ located (dc lay) (dlast lay) 5 /\ 1 <= 5 /\
  sequence (array [9; 8; 7; 6; 5]) (fun k => k) [9; 8; 7; 6; 5] /\ length [9; 8; 7; 6; 5] <= 5 /\ 5 - 1 <= length [9; 8; 7; 6; 5] /\
  equivalence (fun x y : view nat + nat => val_or x =? val_or y) /\
  pi_is_permutation (array [9; 8; 7; 6; 5]) 5 (dc lay) [] (dfirst lay) (dlast lay) 0 (Some 4) (fun x z => ret (val x =? val_or z)) tt = Ok tt true /\
  pi_is_permutation (array [9; 8; 7; 6; 5]) 5 (dc lay) [] (dfirst lay) (dlast lay) 0 (Some 5) (fun x z => ret (val x =? val_or z)) tt = Ok tt false /\
  pi_is_permutation (array [9; 8; 7; 6; 5]) 5 (dc lay) [] (dfirst lay) (dlast lay) 0 None (fun x z => ret (val x =? val_or z)) tt = Ok tt true.
Proof. cbv zeta. csplit; try apply array_sequence; try apply (by_value_equivalence val_or); demo lay. Qed.
Theorem C82_search {V} {E : Env V} w c g d Ts first last i j {S I Y} (F : forward I Y) its ys (p : view V -> Y -> bool) : reach w (c :: g) d ->
  located c first i -> located c last j -> i <= j -> sequence F its ys ->
  yields (S := S) (pi_search F c Ts first last (its 0) (its (length ys)) (pure2 p))
    (fun it => exists k, located c it (i + k) /\ first_or_end (occurs p ys (views c Ts i j)) (j - i) k) /\
  yields (S := S) (pi_find_end F c Ts first last (its 0) (its (length ys)) (pure2 p))
    (fun it => exists k, located c it (i + k) /\
       ((ys <> [] /\ latest (occurs p ys (views c Ts i j)) k) \/
        (k = j - i /\ forall k', ys <> [] -> ~ occurs p ys (views c Ts i j) k'))).
Proof.
  intros H L1 L2 L Sq. split.
  - eapply ProofAlgo4.yields_mono; [|eapply follows_yields; [apply (pi_search_follows F c Ts first last _ its ys Sq)|apply (C43_search w c g d Ts first last i j p ys H L1 L2 L)]].
    intros it (it' & -> & Q). exact Q.
  - eapply ProofAlgo4.yields_mono; [|eapply follows_yields; [apply (pi_find_end_follows F c Ts first last _ its ys Sq)|apply (C43_find_end w c g d Ts first last i j p ys H L1 L2 L)]].
    intros it (it' & -> & Q). exact Q.
Qed.
Example C82_search_ex lay : let E := dE lay in
  reach (dw lay) [dc lay; dx lay] [] /\ located (dc lay) (dfirst lay) 1 /\ located (dc lay) (dlast lay) 5 /\ 1 <= 5 /\
  sequence (array [7; 8]) (fun k => k) [7; 8] /\
  match pi_search (array [7; 8]) (dc lay) [] (dfirst lay) (dlast lay) 0 2 (fun x y => ret (val x =? y)) tt with
  | Ok tt it => it_deref (dc lay) it = Some (1, 7) | _ => False end /\
  match pi_find_end (array [7; 8]) (dc lay) [] (dfirst lay) (dlast lay) 0 2 (fun x y => ret (y <=? val x)) tt with
  | Ok tt it => it_deref (dc lay) it = Some (2, 8) | _ => False end.
Proof. cbv zeta. csplit; try apply array_sequence; demo lay. Qed.

(** ** Two collections *)

Lemma located_bounds {V} {E : Env V} w g d c it i : reach w g d -> In c g -> located c it i -> i <= length (flat c).
Proof.
  intros H Hi L. destruct (in_split _ _ Hi) as (g1 & g2 & ->).
  assert (H' : reach w (c :: g1 ++ g2) d) by (eapply r_perm; [exact H|symmetry; apply Permutation_middle|reflexivity]).
  rewrite flat_length. apply (loc _ _ _ _ _ _ H' L).
Qed.

(** The iterators of a collection between two positions go over its elements there. *)
Theorem C82_collection {V} {E : Env V} w g d c2 first2 last2 i2 j2 : reach w g d -> In c2 g ->
  located c2 first2 i2 -> located c2 last2 j2 -> i2 <= j2 ->
  exists its, sequence (coll_forward c2) its (between i2 j2 (flat c2)) /\ its 0 = first2 /\ its (length (between i2 j2 (flat c2))) = last2 /\
    forall k, k <= j2 - i2 -> located c2 (its k) (i2 + k).
Proof.
  intros H Hi L1 L2 L. destruct (in_split _ _ Hi) as (g1 & g2 & ->).
  assert (H' : reach w (c2 :: g1 ++ g2) d) by (eapply r_perm; [exact H|symmetry; apply Permutation_middle|reflexivity]).
  destruct (loc _ _ _ _ _ _ H' L1) as [-> B1]. destruct (loc _ _ _ _ _ _ H' L2) as [-> B2]. pose proof (reach_vok _ _ _ _ H') as W.
  pose proof (flat_length c2) as Lf. assert (Lb : length (between i2 j2 (flat c2)) = j2 - i2) by (apply between_length; lia).
  exists (fun k => at_ (c_nodes c2) (i2 + k)). rewrite Lb. csplit.
  - split; rewrite ?Lb.
    + intros k y Hk. assert (k < j2 - i2) by (rewrite <- Lb; apply nth_error_Some; congruence). rewrite between_nth in Hk by lia. cbn [coll_forward f_deref f_next].
      rewrite it_deref_at, it_next_at by (auto; lia). rewrite flat_nodes in Hk. rewrite <- plus_n_Sm. split; [exact Hk|reflexivity].
    + intros a b Ha Hb. cbn [coll_forward f_eq]. rewrite it_eq_at by (auto; lia). destruct (Nat.eqb_spec a b) as [->|Ne]; [apply Nat.eqb_refl|apply Nat.eqb_neq; lia].
  - f_equal. lia.
  - f_equal. lia.
  - intros k Hk. eapply unloc; [exact H'|lia].
Qed.
Example C82_collection_ex lay : let E := dE lay in
  reach (dw lay) [dc lay; dx lay] [] /\ located (dc lay) (dfirst lay) 1 /\ located (dc lay) (dlast lay) 5 /\ 1 <= 5 /\
  In (dx lay) [dc lay; dx lay] /\ located (dx lay) (it_at (dx lay) 1 0) (dp lay) /\ located (dx lay) (it_at (dx lay) 1 2) (2 + dp lay) /\ dp lay <= 2 + dp lay /\
  between (dp lay) (2 + dp lay) (flat (dx lay)) = [(1, 5); (1, 6)].
Proof. demo lay. Qed.

(** mismatch: iterators to the first pair of elements for which the predicate does not hold, one in each collection.  equal: it holds for all pairs and, if the end of the
    second range is given, the ranges have as many elements. *)
Theorem C82_mismatch_collections {V} {E : Env V} w c g d Ts first last i j c2 first2 last2 i2 j2 {S} (p : view V -> tyid * V -> bool) : reach w (c :: g) d ->
  located c first i -> located c last j -> i <= j -> In c2 (c :: g) -> located c2 first2 i2 -> located c2 last2 j2 -> i2 <= j2 ->
  yields (S := S) (pi_mismatch (coll_forward c2) c Ts first last first2 (Some last2) (pure2 p))
    (fun r => exists k, located c (fst r) (i + k) /\ located c2 (snd r) (i2 + k) /\
              first_or_end (differ p (views c Ts i j) (between i2 j2 (flat c2))) (Nat.min (j - i) (j2 - i2)) k) /\
  (j - i <= j2 - i2 ->
   yields (S := S) (pi_mismatch (coll_forward c2) c Ts first last first2 None (pure2 p))
     (fun r => exists k, located c (fst r) (i + k) /\ located c2 (snd r) (i2 + k) /\
               first_or_end (differ p (views c Ts i j) (between i2 j2 (flat c2))) (j - i) k)).
Proof.
  intros H L1 L2 L Hi K1 K2 K. destruct (C82_collection w (c :: g) d c2 first2 last2 i2 j2 H Hi K1 K2 K) as (its & Sq & E0 & El & At). subst first2 last2.
  assert (Lb : length (between i2 j2 (flat c2)) = j2 - i2) by (apply between_length; apply (located_bounds _ _ _ _ _ _ H Hi K2)).
  assert (Fe : forall P n k, first_or_end P n k -> (forall k', P k' -> k' < n) -> k <= n) by (intros P n k [[Pk _]|[-> _]] B; [apply B in Pk; lia|lia]).
  assert (Db : forall k', differ p (views c Ts i j) (between i2 j2 (flat c2)) k' -> k' < Nat.min (j - i) (j2 - i2)).
  { intros k' (x & y & N1 & N2 & _). assert (k' < length (views c Ts i j)) by (apply nth_error_Some; congruence). assert (k' < length (between i2 j2 (flat c2))) by (apply nth_error_Some; congruence).
    destruct (loc _ _ _ _ _ _ H L2) as [_ B]. rewrite (views_length c Ts i j B) in *. lia. }
  split; [|intros Lj].
  - eapply ProofAlgo4.yields_mono; [|eapply follows_yields; [apply (pi_mismatch_follows (coll_forward c2) c Ts first last (pure2 p) (Some (its (length (between i2 j2 (flat c2))))) true its _ Sq); split; reflexivity|
      apply (C41_values w c g d Ts first last i j true p (between i2 j2 (flat c2)) H L1 L2 L); discriminate]].
    intros r (r' & (Q1 & Q2 & Q3) & k & Q4 & Q5 & Q6). exists k. rewrite Lb in Q6. csplit; [congruence| |exact Q6]. rewrite Q2, Q5. apply At. pose proof (Fe _ _ _ Q6 Db). lia.
  - pose proof (fun _ : false = false => Lj) as Lj'. rewrite <- Lb in Lj'.
    eapply ProofAlgo4.yields_mono; [|eapply follows_yields; [apply (pi_mismatch_follows (coll_forward c2) c Ts first last (pure2 p) None false its _ Sq); reflexivity|
      apply (C41_values w c g d Ts first last i j false p (between i2 j2 (flat c2)) H L1 L2 L Lj')]].
    intros r (r' & (Q1 & Q2 & Q3) & k & Q4 & Q5 & Q6). exists k. rewrite Lb in Q6. rewrite Nat.min_l in Q6 by exact Lj.
    csplit; [congruence| |exact Q6]. rewrite Q2, Q5. apply At. rewrite Q5, Lb in Q3. exact Q3.
Qed.
Example C82_mismatch_collections_ex lay : let E := dE lay in
  reach (dw lay) [dc lay; dx lay] [] /\ located (dc lay) (dfirst lay) 1 /\ located (dc lay) (dlast lay) 5 /\ 1 <= 5 /\
  In (dx lay) [dc lay; dx lay] /\ located (dx lay) (it_at (dx lay) 1 0) (dp lay) /\ located (dx lay) (it_at (dx lay) 1 2) (2 + dp lay) /\ dp lay <= 2 + dp lay /\
  between (dp lay) (2 + dp lay) (flat (dx lay)) = [(1, 5); (1, 6)] /\
  match pi_mismatch (coll_forward (dx lay)) (dc lay) [] (dfirst lay) (dlast lay) (it_at (dx lay) 1 0) (Some (it_at (dx lay) 1 2)) (fun x y => ret (val x =? 1 + snd y)) tt with
  | Ok tt (it, it2) => it_deref (dc lay) it = Some (2, 8) /\ it_deref (dx lay) it2 = Some (1, 7) | _ => False end.
Proof. demo lay. Qed.
Theorem C82_equal_collections {V} {E : Env V} w c g d Ts first last i j c2 first2 last2 i2 j2 {S} (p : view V -> tyid * V -> bool) : reach w (c :: g) d ->
  located c first i -> located c last j -> i <= j -> In c2 (c :: g) -> located c2 first2 i2 -> located c2 last2 j2 -> i2 <= j2 ->
  yields (S := S) (pi_equal (coll_forward c2) c Ts first last first2 (Some last2) (pure2 p))
    (fun b => b = true <-> Forall2 (fun x y => p x y = true) (views c Ts i j) (between i2 j2 (flat c2))) /\
  (j - i <= j2 - i2 ->
   yields (S := S) (pi_equal (coll_forward c2) c Ts first last first2 None (pure2 p))
     (fun b => b = true <-> Forall2 (fun x y => p x y = true) (views c Ts i j) (firstn (j - i) (between i2 j2 (flat c2))))).
Proof.
  intros H L1 L2 L Hi K1 K2 K. destruct (C82_collection w (c :: g) d c2 first2 last2 i2 j2 H Hi K1 K2 K) as (its & Sq & E0 & El & At). subst first2 last2.
  assert (Lb : length (between i2 j2 (flat c2)) = j2 - i2) by (apply between_length; apply (located_bounds _ _ _ _ _ _ H Hi K2)).
  split; [|intros Lj].
  - eapply ProofAlgo4.yields_mono; [|eapply follows_yields; [apply (pi_equal_follows (coll_forward c2) c Ts first last (pure2 p) (Some (its (length (between i2 j2 (flat c2))))) true its _ Sq); split; reflexivity|
      apply (C41_values w c g d Ts first last i j true p (between i2 j2 (flat c2)) H L1 L2 L); discriminate]].
    intros b (b' & -> & Q). exact Q.
  - pose proof (fun _ : false = false => Lj) as Lj'. rewrite <- Lb in Lj'.
    eapply ProofAlgo4.yields_mono; [|eapply follows_yields; [apply (pi_equal_follows (coll_forward c2) c Ts first last (pure2 p) None false its _ Sq); reflexivity|
      apply (C41_values w c g d Ts first last i j false p (between i2 j2 (flat c2)) H L1 L2 L Lj')]].
    intros b (b' & -> & Q). exact Q.
Qed.
Example C82_equal_collections_ex lay : let E := dE lay in
  reach (dw lay) [dc lay; dx lay] [] /\ located (dc lay) (dfirst lay) 1 /\ located (dc lay) (dlast lay) 5 /\ 1 <= 5 /\
  In (dx lay) [dc lay; dx lay] /\ located (dx lay) (it_at (dx lay) 1 0) (dp lay) /\ located (dx lay) (it_at (dx lay) 1 2) (2 + dp lay) /\ dp lay <= 2 + dp lay /\
  between (dp lay) (2 + dp lay) (flat (dx lay)) = [(1, 5); (1, 6)] /\
  pi_equal (coll_forward (dx lay)) (dc lay) [1] (dfirst lay) (it_at (dc lay) 2 0) (it_at (dx lay) 1 0) (Some (it_at (dx lay) 1 2)) (fun x y => ret (val x =? 1 + snd y)) tt = Ok tt true /\
  pi_equal (coll_forward (dx lay)) (dc lay) [1] (dfirst lay) (dlast lay) (it_at (dx lay) 1 0) (Some (it_at (dx lay) 1 2)) (fun x y => ret (val x =? 1 + snd y)) tt = Ok tt false.
Proof. demo lay. Qed.
Theorem C82_is_permutation_collections {V} {E : Env V} w c g d Ts first last i j c2 first2 last2 i2 j2 {S} fuel (R : view V + tyid * V -> view V + tyid * V -> bool) :
  reach w (c :: g) d ->
  located c first i -> located c last j -> i <= j -> In c2 (c :: g) -> located c2 first2 i2 -> located c2 last2 j2 -> i2 <= j2 -> j2 - i2 <= fuel -> equivalence R ->
  yields (S := S) (pi_is_permutation (coll_forward c2) fuel c Ts first last first2 (Some last2) (pure2 (fun x z => R (inl x) z)))
    (fun b => b = true <-> permuted (fun x y => R (inl x) (inr y)) (views c Ts i j) (between i2 j2 (flat c2))) /\
  (j - i <= j2 - i2 ->
   yields (S := S) (pi_is_permutation (coll_forward c2) fuel c Ts first last first2 None (pure2 (fun x z => R (inl x) z)))
     (fun b => b = true <-> permuted (fun x y => R (inl x) (inr y)) (views c Ts i j) (firstn (j - i) (between i2 j2 (flat c2))))).
Proof.
  intros H L1 L2 L Hi K1 K2 K Lf HR. destruct (C82_collection w (c :: g) d c2 first2 last2 i2 j2 H Hi K1 K2 K) as (its & Sq & E0 & El & At). subst first2 last2.
  assert (Lb : length (between i2 j2 (flat c2)) = j2 - i2) by (apply between_length; apply (located_bounds _ _ _ _ _ _ H Hi K2)).
  rewrite <- Lb in Lf. pose proof (C82_is_permutation w c g d Ts first last i j (S := S) (coll_forward c2) its _ fuel R H L1 L2 L Sq Lf HR) as Q. rewrite Lb in *. exact Q.
Qed.
Example C82_is_permutation_collections_ex lay : let E := dE lay in
  reach (dw lay) [dc lay; dx lay] [] /\ located (dc lay) (dfirst lay) 1 /\ located (dc lay) (dlast lay) 5 /\ 1 <= 5 /\
  In (dc lay) [dc lay; dx lay] /\ 5 - 1 <= 4 /\ equivalence (fun x y : view nat + tyid * nat => val_of x =? val_of y) /\
  pi_is_permutation (coll_forward (dc lay)) 4 (dc lay) [] (dfirst lay) (dlast lay) (dfirst lay) (Some (dlast lay)) (fun x z => ret (val x =? val_of z)) tt = Ok tt true /\
  pi_is_permutation (coll_forward (dc lay)) 4 (dc lay) [] (dfirst lay) (dlast lay) (it_at (dc lay) 1 0) (Some (it_at (dc lay) 2 1)) (fun x z => ret (val x =? val_of z)) tt = Ok tt false.
Proof. cbv zeta. csplit; try apply (by_value_equivalence val_of); demo lay. Qed.
(** find_first_of: the first element for which the predicate holds with some element of the second range.  search and find_end: the first and the last place where the
    elements of the second range occur one after the other. *)
Theorem C82_find_collections {V} {E : Env V} w c g d Ts first last i j c2 first2 last2 i2 j2 {S} fuel (p : view V -> tyid * V -> bool) : reach w (c :: g) d ->
  located c first i -> located c last j -> i <= j -> In c2 (c :: g) -> located c2 first2 i2 -> located c2 last2 j2 -> i2 <= j2 -> j2 - i2 <= fuel ->
  let xs := views c Ts i j in let ys := between i2 j2 (flat c2) in
  yields (S := S) (pi_find_first_of (coll_forward c2) fuel c Ts first last (pure2 p) first2 last2)
    (fun it => exists k, located c it (i + k) /\ first_or_end (satisfies (fun x => existsb (p x) ys) xs) (j - i) k) /\
  yields (S := S) (pi_search (coll_forward c2) c Ts first last first2 last2 (pure2 p))
    (fun it => exists k, located c it (i + k) /\ first_or_end (occurs p ys xs) (j - i) k) /\
  yields (S := S) (pi_find_end (coll_forward c2) c Ts first last first2 last2 (pure2 p))
    (fun it => exists k, located c it (i + k) /\
       ((ys <> [] /\ latest (occurs p ys xs) k) \/ (k = j - i /\ forall k', ys <> [] -> ~ occurs p ys xs k'))).
Proof.
  intros H L1 L2 L Hi K1 K2 K Lf. cbv zeta. destruct (C82_collection w (c :: g) d c2 first2 last2 i2 j2 H Hi K1 K2 K) as (its & Sq & E0 & El & At). subst first2 last2.
  assert (Lb : length (between i2 j2 (flat c2)) = j2 - i2) by (apply between_length; apply (located_bounds _ _ _ _ _ _ H Hi K2)).
  rewrite <- Lb in Lf. split; [|apply (C82_search w c g d Ts first last i j (coll_forward c2) its _ p H L1 L2 L Sq)].
  eapply ProofAlgo4.yields_mono; [|eapply follows_yields; [apply (pi_find_first_of_follows (coll_forward c2) fuel c Ts first last (pure2 p) its _ Sq Lf)|
    apply (C39_values w c g d Ts first last i j (fun _ => true) p _ H L1 L2 L)]]. intros it (b' & -> & Q). exact Q.
Qed.
Example C82_find_collections_ex lay : let E := dE lay in
  reach (dw lay) [dc lay; dx lay] [] /\ located (dc lay) (dfirst lay) 1 /\ located (dc lay) (dlast lay) 5 /\ 1 <= 5 /\
  In (dx lay) [dc lay; dx lay] /\ located (dx lay) (it_at (dx lay) 1 0) (dp lay) /\ located (dx lay) (it_at (dx lay) 1 2) (2 + dp lay) /\ dp lay <= 2 + dp lay /\
  between (dp lay) (2 + dp lay) (flat (dx lay)) = [(1, 5); (1, 6)] /\ 2 + dp lay - dp lay <= 2 /\
  match pi_find_first_of (coll_forward (dx lay)) 2 (dc lay) [] (dfirst lay) (dlast lay) (fun x y => ret (val x =? 2 + snd y)) (it_at (dx lay) 1 0) (it_at (dx lay) 1 2) tt with
  | Ok tt it => it_deref (dc lay) it = Some (1, 7) | _ => False end /\
  match pi_search (coll_forward (dx lay)) (dc lay) [] (dfirst lay) (dlast lay) (it_at (dx lay) 1 0) (it_at (dx lay) 1 2) (fun x y => ret (val x =? 2 + snd y)) tt with
  | Ok tt it => it_deref (dc lay) it = Some (1, 7) | _ => False end /\
  match pi_find_end (coll_forward (dx lay)) (dc lay) [] (dfirst lay) (dlast lay) (it_at (dx lay) 1 0) (it_at (dx lay) 1 2) (fun x y => ret (snd y <=? val x)) tt with
  | Ok tt it => it_deref (dc lay) it = Some (2, 8) | _ => False end.
Proof. demo lay. Qed.

Print Assumptions C82_mismatch.
Print Assumptions C82_equal.
Print Assumptions C82_find_first_of.
Print Assumptions C82_transform.
Print Assumptions C82_is_permutation.
Print Assumptions C82_search.
Print Assumptions C82_collection.
Print Assumptions C82_mismatch_collections.
Print Assumptions C82_equal_collections.
Print Assumptions C82_is_permutation_collections.
Print Assumptions C82_find_collections.
