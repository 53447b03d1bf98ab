(** * Algorithms on two ranges, the second one given by local iterators (C82)

    See the heads of Properties1.v and Properties38.v for the form of the statements. *)

From Coq Require Import List Arith Lia Bool Permutation.
From Verif Require Import Base Vec Backend Segment Coll StdAlg Algo Loops Info Two TwoLocal Spec SpecAlg SpecTwo Reach SpecRead ProofBase ProofVec ProofBackend
  ProofOps ProofSeg ProofMap ProofView ProofColl ProofAlgo ProofReach ProofObs ProofProp ProofTwo Properties6 Properties38 Properties40 Demo.
Import ListNotations.

(** Of the same kind: both local_base_iterator, or both local_iterator<T>. *)
Definition alike (x y : liter) : Prop := based x <-> based y.

Definition bump (k : nat) (l : liter) : liter :=
  mkliter (li_map l) (match li_pos l with PBase p => PBase (fst p, snd p + k) | PConc p => PConc (fst p, snd p + k) end).

Lemma bump_0 l : bump 0 l = l.
Proof. destruct l as [i [[a b]|[a b]]]; unfold bump; cbn [li_map li_pos fst snd]; rewrite Nat.add_0_r; reflexivity. Qed.
Lemma bump_alike k l : alike (bump k l) l.
Proof. unfold alike, based, bump. destruct (li_pos l); cbn [li_pos]; split; intros (q & Q); eauto; discriminate. Qed.

Section Local.
Context {V : Type} {E : Env V}.

Lemma li_next_bump (c : coll V) l k l' : li_next c (bump k l) = Some l' -> l' = bump (S k) l.
Proof.
  unfold li_next, bump. cbn [li_map li_pos]. destruct (node_at (c_nodes c) (li_map l)); [|discriminate].
  destruct (li_pos l) as [p|p]; cbn [fst snd]; destruct (_ <? _); try discriminate; intros Q; injection Q as <-; rewrite <- plus_n_Sm; reflexivity.
Qed.
Lemma bump_points w (c : coll V) g d l t i : reach w (c :: g) d -> lpoints c l t i -> forall k, i + k <= length (elems c t) -> lpoints c (bump k l) t (i + k).
Proof.
  intros H P k. induction k as [|k IH]; intros L; [rewrite bump_0, Nat.add_0_r; exact P|].
  assert (Pk : lpoints c (bump k l) t (i + k)) by (apply IH; lia).
  destruct (li_next_to w c g d _ t _ H Pk ltac:(lia)) as (l' & N & P' & _). apply li_next_bump in N. subst l'. rewrite <- plus_n_Sm. exact P'.
Qed.
Lemma lpoints_same w (c : coll V) g d x y t k : reach w (c :: g) d -> lpoints c x t k -> lpoints c y t k -> alike x y -> x = y.
Proof.
  intros H P P' A. destruct (lpoints_unpack _ _ _ _ _ _ _ H P) as (n & Hin & Hat & Hid & Et & Ws & El & Hk & Hp).
  destruct (lpoints_unpack _ _ _ _ _ _ _ H P') as (n' & Hin' & Hat' & Hid' & Et' & Ws' & El' & Hk' & Hp').
  assert (n = n').
  { destruct (reach_wf _ _ _ _ H) as (W & O). pose proof (find_ty_in _ n (wm_tys _ _ (wc_map _ _ W)) Hin) as Q. pose proof (find_ty_in _ n' (wm_tys _ _ (wc_map _ _ W)) Hin') as R.
    rewrite Et in Q. rewrite Et' in R. congruence. }
  subst n'. unfold alike, based in A. destruct x as [ix px], y as [iy py]; cbn [li_map li_pos] in *.
  destruct Hp as [->| ->], Hp' as [->| ->]; try congruence.
  - destruct (proj1 A) as (q & Q); [eauto|discriminate].
  - destruct (proj2 A) as (q & Q); [eauto|discriminate].
Qed.
Lemma li_eq_alike w (c : coll V) g d x y t i j : reach w (c :: g) d -> lpoints c x t i -> lpoints c y t j -> alike x y -> li_eq x y = (i =? j).
Proof.
  intros H P P' A. destruct (lpoints_unpack _ _ _ _ _ _ _ H P) as (n & Hin & Hat & Hid & Et & Ws & El & Hk & Hp).
  destruct (lpoints_unpack _ _ _ _ _ _ _ H P') as (n' & Hin' & Hat' & Hid' & Et' & Ws' & El' & Hk' & Hp').
  assert (n = n').
  { destruct (reach_wf _ _ _ _ H) as (W & O). pose proof (find_ty_in _ n (wm_tys _ _ (wc_map _ _ W)) Hin) as Q. pose proof (find_ty_in _ n' (wm_tys _ _ (wc_map _ _ W)) Hin') as R.
    rewrite Et in Q. rewrite Et' in R. congruence. }
  subst n'. unfold alike, based in A. unfold li_eq. destruct x as [ix px], y as [iy py]; cbn [li_map li_pos] in *.
  destruct Hp as [->| ->], Hp' as [->| ->].
  - rewrite !be_ptr_eq. unfold bpos_eqb, ptr_eqb; cbn [fst snd]. rewrite Nat.eqb_refl. reflexivity.
  - destruct (proj1 A) as (q & Q); [eauto|discriminate].
  - destruct (proj2 A) as (q & Q); [eauto|discriminate].
  - unfold bpos_eqb, ptr_eqb, vptr; cbn [fst snd]. rewrite Nat.eqb_refl. reflexivity.
Qed.
End Local.

(** The local iterators between two positions of a segment go over its elements there, each with the type of the segment. *)
Theorem C82_local {V} {E : Env V} w g d c2 t first2 last2 i2 j2 : reach w g d -> In c2 g ->
  lpoints c2 first2 t i2 -> lpoints c2 last2 t j2 -> alike first2 last2 -> i2 <= j2 ->
  exists its, sequence (local_forward c2) its (map (pair t) (between i2 j2 (elems c2 t))) /\ its 0 = first2 /\ its (j2 - i2) = last2 /\
    forall k, k <= j2 - i2 -> lpoints c2 (its k) t (i2 + k) /\ alike (its k) first2.
Proof.
  intros H Hi P1 P2 A L. destruct (in_split _ _ Hi) as (g1 & g2 & ->).
  assert (H' : reach w (c2 :: g1 ++ g2) d) by (eapply r_perm; [exact H|symmetry; apply Permutation_middle|reflexivity]).
  pose proof (lpoints_le _ _ _ _ _ _ _ H' P2) as B. assert (Lb : length (between i2 j2 (elems c2 t)) = j2 - i2) by (apply between_length; lia).
  assert (At : forall k, k <= j2 - i2 -> lpoints c2 (bump k first2) t (i2 + k)) by (intros k Hk; apply (bump_points _ _ _ _ _ _ _ H' P1); lia).
  exists (fun k => bump k first2). csplit.
  - split; rewrite ?map_length, ?Lb.
    + intros k y Hk. assert (k < j2 - i2) by (rewrite <- Lb, <- (map_length (pair t)); apply nth_error_Some; congruence).
      rewrite nth_error_map, between_nth in Hk by lia. cbn [local_forward f_deref f_next]. pose proof (At k ltac:(lia)) as Pk. split.
      * rewrite (li_deref_spec _ _ _ _ _ _ _ H' Pk). exact Hk.
      * destruct (li_next_to _ _ _ _ _ _ _ H' Pk ltac:(lia)) as (l' & N & _). rewrite N. apply li_next_bump in N. subst l'. reflexivity.
    + intros a b Ha Hb. cbn [local_forward f_eq].
      rewrite (li_eq_alike _ _ _ _ _ _ _ _ _ H' (At a Ha) (At b Hb)) by (pose proof (bump_alike a first2); pose proof (bump_alike b first2); unfold alike in *; tauto).
      destruct (Nat.eqb_spec a b) as [->|Ne]; [apply Nat.eqb_refl|apply Nat.eqb_neq; lia].
  - apply bump_0.
  - apply (lpoints_same _ _ _ _ _ _ _ _ H' (At (j2 - i2) (le_n _))); [replace (i2 + (j2 - i2)) with j2 by lia; exact P2|].
    pose proof (bump_alike (j2 - i2) first2). unfold alike in *. tauto.
  - intros k Hk. split; [apply At; exact Hk|apply bump_alike].
Qed.
Ltac demo_alike lay := split; intros (q & Q); destruct lay; first [vm_compute in Q; discriminate Q|eexists; vm_compute; reflexivity].
Example C82_local_ex lay : let E := dE lay in
  reach (dw lay) [dc lay; dx lay] [] /\ In (dx lay) [dc lay; dx lay] /\
  lpoints (dx lay) (li_base (dx lay) 1 0) 1 0 /\ lpoints (dx lay) (li_base (dx lay) 1 2) 1 2 /\ alike (li_base (dx lay) 1 0) (li_base (dx lay) 1 2) /\
  lpoints (dc lay) (li_conc (dc lay) 1 1) 1 1 /\ lpoints (dc lay) (li_conc (dc lay) 1 3) 1 3 /\ alike (li_conc (dc lay) 1 1) (li_conc (dc lay) 1 3) /\
  map (pair 1) (between 0 2 (elems (dx lay) 1)) = [(1, 5); (1, 6)].
Proof. cbv zeta. csplit; first [demo_alike lay|demo lay]. Qed.

(** mismatch, equal, is_permutation, find_first_of, search and find_end with a local range: what those with the iterators of a collection give (C82_mismatch_collections
    and the others), on the elements of the segment there. *)
Theorem C82_mismatch_local {V} {E : Env V} w c g d Ts first last i j c2 t first2 last2 i2 j2 {S} (p : view V -> tyid * V -> bool) : reach w (c :: g) d ->
  located c first i -> located c last j -> i <= j -> In c2 (c :: g) -> lpoints c2 first2 t i2 -> lpoints c2 last2 t j2 -> alike first2 last2 -> i2 <= j2 ->
  let ys := map (pair t) (between i2 j2 (elems c2 t)) in
  yields (S := S) (pi_mismatch (local_forward c2) c Ts first last first2 (Some last2) (pure2 p))
    (fun r => exists k, located c (fst r) (i + k) /\ lpoints c2 (snd r) t (i2 + k) /\
              first_or_end (differ p (views c Ts i j) ys) (Nat.min (j - i) (j2 - i2)) k) /\
  yields (S := S) (pi_equal (local_forward c2) c Ts first last first2 (Some last2) (pure2 p))
    (fun b => b = true <-> Forall2 (fun x y => p x y = true) (views c Ts i j) ys) /\
  (j - i <= j2 - i2 ->
   yields (S := S) (pi_mismatch (local_forward c2) c Ts first last first2 None (pure2 p))
     (fun r => exists k, located c (fst r) (i + k) /\ lpoints c2 (snd r) t (i2 + k) /\
               first_or_end (differ p (views c Ts i j) ys) (j - i) k) /\
   yields (S := S) (pi_equal (local_forward c2) c Ts first last first2 None (pure2 p))
     (fun b => b = true <-> Forall2 (fun x y => p x y = true) (views c Ts i j) (firstn (j - i) ys))).
Proof.
  intros H L1 L2 L Hi K1 K2 A K. cbv zeta. destruct (C82_local w (c :: g) d c2 t first2 last2 i2 j2 H Hi K1 K2 A K) as (its & Sq & E0 & El & At).
  assert (Lb : length (map (pair t) (between i2 j2 (elems c2 t))) = j2 - i2).
  { rewrite map_length. apply between_length. destruct (in_split _ _ Hi) as (g1 & g2 & Eg). eapply (lpoints_le w c2 (g1 ++ g2) d); [|exact K2].
    eapply r_perm; [exact H|rewrite Eg; symmetry; apply Permutation_middle|reflexivity]. }
  set (ys := map (pair t) (between i2 j2 (elems c2 t))) in *. clearbody ys. subst first2. rewrite <- Lb in El. subst last2.
  assert (Fe : forall P n k, first_or_end P n k -> (forall k', P k' -> k' < n) -> k <= n) by (intros P n k [[Pk _]|[-> _]] B; [apply B in Pk; lia|lia]).
  assert (Db : forall k', differ p (views c Ts i j) ys k' -> k' < Nat.min (j - i) (j2 - i2)).
  { intros k' (x & y & N1 & N2 & _). assert (k' < length (views c Ts i j)) by (apply nth_error_Some; congruence). assert (k' < length ys) by (apply nth_error_Some; congruence).
    destruct (loc _ _ _ _ _ _ H L2) as [_ B]. rewrite (views_length c Ts i j B) in *. lia. }
  csplit; [| |intros Lj; pose proof (fun _ : false = false => Lj) as Lj'; rewrite <- Lb in Lj'; split].
  - eapply ProofAlgo4.yields_mono; [|eapply follows_yields; [apply (pi_mismatch_follows (local_forward c2) c Ts first last (pure2 p) (Some (its (length ys))) true its _ Sq); split; reflexivity|
      apply (C41_values w c g d Ts first last i j true p ys H L1 L2 L); discriminate]].
    intros r (r' & (Q1 & Q2 & Q3) & k & Q4 & Q5 & Q6). exists k. rewrite Lb in Q6. csplit; [congruence| |exact Q6]. rewrite Q2, Q5. apply At. pose proof (Fe _ _ _ Q6 Db). lia.
  - eapply ProofAlgo4.yields_mono; [|eapply follows_yields; [apply (pi_equal_follows (local_forward c2) c Ts first last (pure2 p) (Some (its (length ys))) true its _ Sq); split; reflexivity|
      apply (C41_values w c g d Ts first last i j true p ys H L1 L2 L); discriminate]].
    intros b (b' & -> & Q). exact Q.
  - eapply ProofAlgo4.yields_mono; [|eapply follows_yields; [apply (pi_mismatch_follows (local_forward c2) c Ts first last (pure2 p) None false its _ Sq); reflexivity|
      apply (C41_values w c g d Ts first last i j false p ys H L1 L2 L Lj')]].
    intros r (r' & (Q1 & Q2 & Q3) & k & Q4 & Q5 & Q6). exists k. rewrite Lb in Q6. rewrite Nat.min_l in Q6 by exact Lj.
    csplit; [congruence| |exact Q6]. rewrite Q2, Q5. apply At. rewrite Q5, Lb in Q3. exact Q3.
  - eapply ProofAlgo4.yields_mono; [|eapply follows_yields; [apply (pi_equal_follows (local_forward c2) c Ts first last (pure2 p) None false its _ Sq); reflexivity|
      apply (C41_values w c g d Ts first last i j false p ys H L1 L2 L Lj')]].
    intros b (b' & -> & Q). exact Q.
Qed.
Example C82_mismatch_local_ex lay : let E := dE lay in
  reach (dw lay) [dc lay; dx lay] [] /\ located (dc lay) (dfirst lay) 1 /\ located (dc lay) (dlast lay) 5 /\ 1 <= 5 /\
  In (dx lay) [dc lay; dx lay] /\ lpoints (dx lay) (li_base (dx lay) 1 0) 1 0 /\ lpoints (dx lay) (li_base (dx lay) 1 2) 1 2 /\
  alike (li_base (dx lay) 1 0) (li_base (dx lay) 1 2) /\ map (pair 1) (between 0 2 (elems (dx lay) 1)) = [(1, 5); (1, 6)] /\
  match pi_mismatch (local_forward (dx lay)) (dc lay) [] (dfirst lay) (dlast lay) (li_base (dx lay) 1 0) (Some (li_base (dx lay) 1 2)) (fun x y => ret (val x =? 1 + snd y)) tt with
  | Ok tt (it, l) => it_deref (dc lay) it = Some (2, 8) /\ li_deref (dx lay) l = Some (1, 7) | _ => False end /\
  pi_equal (local_forward (dx lay)) (dc lay) [1] (dfirst lay) (it_at (dc lay) 2 0) (li_base (dx lay) 1 0) (Some (li_base (dx lay) 1 2)) (fun x y => ret (val x =? 1 + snd y)) tt = Ok tt true.
Proof. cbv zeta. csplit; first [demo_alike lay|demo lay]. Qed.
Theorem C82_find_local {V} {E : Env V} w c g d Ts first last i j c2 t first2 last2 i2 j2 {S} fuel (p : view V -> tyid * V -> bool) : reach w (c :: g) d ->
  located c first i -> located c last j -> i <= j -> In c2 (c :: g) -> lpoints c2 first2 t i2 -> lpoints c2 last2 t j2 -> alike first2 last2 -> i2 <= j2 -> j2 - i2 <= fuel ->
  let xs := views c Ts i j in let ys := map (pair t) (between i2 j2 (elems c2 t)) in
  yields (S := S) (pi_find_first_of (local_forward c2) fuel c Ts first last (pure2 p) first2 last2)
    (fun it => exists k, located c it (i + k) /\ first_or_end (satisfies (fun x => existsb (p x) ys) xs) (j - i) k) /\
  yields (S := S) (pi_search (local_forward c2) c Ts first last first2 last2 (pure2 p))
    (fun it => exists k, located c it (i + k) /\ first_or_end (occurs p ys xs) (j - i) k) /\
  yields (S := S) (pi_find_end (local_forward c2) c Ts first last first2 last2 (pure2 p))
    (fun it => exists k, located c it (i + k) /\
       ((ys <> [] /\ latest (occurs p ys xs) k) \/ (k = j - i /\ forall k', ys <> [] -> ~ occurs p ys xs k'))).
Proof.
  intros H L1 L2 L Hi K1 K2 A K Lf. cbv zeta. destruct (C82_local w (c :: g) d c2 t first2 last2 i2 j2 H Hi K1 K2 A K) as (its & Sq & E0 & El & At).
  assert (Lb : length (map (pair t) (between i2 j2 (elems c2 t))) = j2 - i2).
  { rewrite map_length. apply between_length. destruct (in_split _ _ Hi) as (g1 & g2 & Eg). eapply (lpoints_le w c2 (g1 ++ g2) d); [|exact K2].
    eapply r_perm; [exact H|rewrite Eg; symmetry; apply Permutation_middle|reflexivity]. }
  set (ys := map (pair t) (between i2 j2 (elems c2 t))) in *. clearbody ys. subst first2. rewrite <- Lb in El, Lf. subst last2.
  split; [|apply (C82_search w c g d Ts first last i j (local_forward c2) its _ p H L1 L2 L Sq)].
  eapply ProofAlgo4.yields_mono; [|eapply follows_yields; [apply (pi_find_first_of_follows (local_forward c2) fuel c Ts first last (pure2 p) its _ Sq Lf)|
    apply (C39_values w c g d Ts first last i j (fun _ => true) p _ H L1 L2 L)]]. intros it (b' & -> & Q). exact Q.
Qed.
Example C82_find_local_ex lay : let E := dE lay in
  reach (dw lay) [dc lay; dx lay] [] /\ located (dc lay) (dfirst lay) 1 /\ located (dc lay) (dlast lay) 5 /\ 1 <= 5 /\
  In (dx lay) [dc lay; dx lay] /\ lpoints (dx lay) (li_base (dx lay) 1 0) 1 0 /\ lpoints (dx lay) (li_base (dx lay) 1 2) 1 2 /\
  alike (li_base (dx lay) 1 0) (li_base (dx lay) 1 2) /\ map (pair 1) (between 0 2 (elems (dx lay) 1)) = [(1, 5); (1, 6)] /\
  match pi_find_first_of (local_forward (dx lay)) 2 (dc lay) [] (dfirst lay) (dlast lay) (fun x y => ret (val x =? 2 + snd y)) (li_base (dx lay) 1 0) (li_base (dx lay) 1 2) tt with
  | Ok tt it => it_deref (dc lay) it = Some (1, 7) | _ => False end /\
  match pi_search (local_forward (dx lay)) (dc lay) [] (dfirst lay) (dlast lay) (li_base (dx lay) 1 0) (li_base (dx lay) 1 2) (fun x y => ret (val x =? 2 + snd y)) tt with
  | Ok tt it => it_deref (dc lay) it = Some (1, 7) | _ => False end /\
  match pi_find_end (local_forward (dx lay)) (dc lay) [] (dfirst lay) (dlast lay) (li_base (dx lay) 1 0) (li_base (dx lay) 1 2) (fun x y => ret (snd y <=? val x)) tt with
  | Ok tt it => it_deref (dc lay) it = Some (2, 8) | _ => False end.
Proof. cbv zeta. csplit; first [demo_alike lay|demo lay]. Qed.
Theorem C82_is_permutation_local {V} {E : Env V} w c g d Ts first last i j c2 t first2 last2 i2 j2 {S} fuel (R : view V + tyid * V -> view V + tyid * V -> bool) :
  reach w (c :: g) d ->
  located c first i -> located c last j -> i <= j -> In c2 (c :: g) -> lpoints c2 first2 t i2 -> lpoints c2 last2 t j2 -> alike first2 last2 -> i2 <= j2 -> j2 - i2 <= fuel ->
  equivalence R -> let ys := map (pair t) (between i2 j2 (elems c2 t)) in
  yields (S := S) (pi_is_permutation (local_forward c2) fuel c Ts first last first2 (Some last2) (pure2 (fun x z => R (inl x) z)))
    (fun b => b = true <-> permuted (fun x y => R (inl x) (inr y)) (views c Ts i j) ys) /\
  (j - i <= j2 - i2 ->
   yields (S := S) (pi_is_permutation (local_forward c2) fuel c Ts first last first2 None (pure2 (fun x z => R (inl x) z)))
     (fun b => b = true <-> permuted (fun x y => R (inl x) (inr y)) (views c Ts i j) (firstn (j - i) ys))).
Proof.
  intros H L1 L2 L Hi K1 K2 A K Lf HR. cbv zeta. destruct (C82_local w (c :: g) d c2 t first2 last2 i2 j2 H Hi K1 K2 A K) as (its & Sq & E0 & El & At).
  assert (Lb : length (map (pair t) (between i2 j2 (elems c2 t))) = j2 - i2).
  { rewrite map_length. apply between_length. destruct (in_split _ _ Hi) as (g1 & g2 & Eg). eapply (lpoints_le w c2 (g1 ++ g2) d); [|exact K2].
    eapply r_perm; [exact H|rewrite Eg; symmetry; apply Permutation_middle|reflexivity]. }
  set (ys := map (pair t) (between i2 j2 (elems c2 t))) in *. clearbody ys. subst first2. rewrite <- Lb in El, Lf. subst last2.
  pose proof (C82_is_permutation w c g d Ts first last i j (S := S) (local_forward c2) its _ fuel R H L1 L2 L Sq Lf HR) as Q. rewrite Lb in *. exact Q.
Qed.
Example C82_is_permutation_local_ex lay : let E := dE lay in
  reach (dw lay) [dc lay; dx lay] [] /\ located (dc lay) (dfirst lay) 1 /\ located (dc lay) (it_at (dc lay) 2 0) 3 /\ 1 <= 3 /\
  In (dc lay) [dc lay; dx lay] /\ lpoints (dc lay) (li_conc (dc lay) 1 1) 1 1 /\ lpoints (dc lay) (li_conc (dc lay) 1 3) 1 3 /\
  alike (li_conc (dc lay) 1 1) (li_conc (dc lay) 1 3) /\ equivalence (fun x y : view nat + tyid * nat => val_of x =? val_of y) /\
  pi_is_permutation (local_forward (dc lay)) 2 (dc lay) [] (dfirst lay) (it_at (dc lay) 2 0) (li_conc (dc lay) 1 1) (Some (li_conc (dc lay) 1 3)) (fun x z => ret (val x =? val_of z)) tt = Ok tt true /\
  pi_is_permutation (local_forward (dc lay)) 2 (dc lay) [] (dfirst lay) (it_at (dc lay) 2 0) (li_conc (dc lay) 1 0) (Some (li_conc (dc lay) 1 2)) (fun x z => ret (val x =? val_of z)) tt = Ok tt false.
Proof. cbv zeta. csplit; try apply (by_value_equivalence val_of); first [demo_alike lay|demo lay]. Qed.

Print Assumptions C82_local.
Print Assumptions C82_mismatch_local.
Print Assumptions C82_find_local.
Print Assumptions C82_is_permutation_local.
