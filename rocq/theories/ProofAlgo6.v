(** * The standard algorithms with predicates without effects; independence of restitution *)

From Coq Require Import List Arith Lia Bool Permutation.
From Verif Require Import Base Vec Backend Segment Coll StdAlg Algo Spec SpecAlg ProofBase ProofVec ProofBackend ProofOps ProofOps2 ProofSeg ProofMap ProofView ProofAlgo ProofAlgo2 ProofAlgo3 ProofAlgo4 ProofAlgo5.
Import ListNotations.

Lemma in_skipn {A} k (l : list A) x : In x (skipn k l) -> In x l.
Proof. intros H. rewrite <- (firstn_skipn k l). apply in_or_app. auto. Qed.

Section Values.
Context {S X Y : Type}.
Implicit Types (p : X -> bool) (l : list X).

Lemma pure_all_of p l : yields (S := S) (std_all_of (pure p) l) (fun b => b = true <-> Forall (fun x => p x = true) l).
Proof.
  induction l as [|x l IH]; cbn [std_all_of]; [apply yields_ret; split; auto|].
  unfold pure at 1. rewrite bind_ret_l. destruct (p x) eqn:Q.
  - eapply yields_mono; [|exact IH]. cbn beta. intros b ->. split; auto. intros H. inversion H; auto.
  - apply yields_ret. split; [discriminate|]. intros H. inversion H; congruence.
Qed.
Lemma pure_any_of p l : yields (S := S) (std_any_of (pure p) l) (fun b => b = true <-> Exists (fun x => p x = true) l).
Proof.
  induction l as [|x l IH]; cbn [std_any_of]; [apply yields_ret; split; [discriminate|intros H; inversion H]|].
  unfold pure at 1. rewrite bind_ret_l. destruct (p x) eqn:Q.
  - apply yields_ret. split; auto.
  - eapply yields_mono; [|exact IH]. cbn beta. intros b ->. split; auto. intros H. inversion H; auto; congruence.
Qed.
Lemma pure_none_of p l : yields (S := S) (std_none_of (pure p) l) (fun b => b = true <-> Forall (fun x => p x = false) l).
Proof.
  induction l as [|x l IH]; cbn [std_none_of]; [apply yields_ret; split; auto|].
  unfold pure at 1. rewrite bind_ret_l. destruct (p x) eqn:Q.
  - apply yields_ret. split; [discriminate|]. intros H. inversion H; congruence.
  - eapply yields_mono; [|exact IH]. cbn beta. intros b ->. split; auto. intros H. inversion H; auto.
Qed.
Lemma foe_zero (P : nat -> Prop) n : P 0 -> first_or_end P n 0.
Proof. intros H. left. split; auto. intros; lia. Qed.
Lemma foe_succ (P Q : nat -> Prop) n k : ~ P 0 -> (forall k, P (Datatypes.S k) <-> Q k) -> first_or_end Q n k -> first_or_end P (1 + n) (1 + k).
Proof.
  intros H0 HQ [[H1 H2]|[-> H]].
  - left. split; [apply HQ; auto|]. intros [|k'] Hk; [contradiction|]. apply HQ in Hk. apply H2 in Hk. lia.
  - right. split; auto. intros [|k'] Hk; [contradiction|]. apply HQ in Hk. apply (H k'). auto.
Qed.
Lemma foe_none (P : nat -> Prop) n : (forall k, ~ P k) -> first_or_end P n n.
Proof. intros H. right. auto. Qed.

Lemma pure_find p l : yields (S := S) (std_find_if (pure p) l) (first_or_end (satisfies p l) (length l)).
Proof.
  induction l as [|x l IH]; cbn [std_find_if].
  - apply yields_ret. apply foe_none. intros k (x & H & _). destruct k; discriminate.
  - unfold pure at 1. rewrite bind_ret_l. destruct (p x) eqn:Q.
    + apply yields_ret, foe_zero. exists x. auto.
    + eapply yields_bind; [exact IH|]. intros k H. apply yields_ret. eapply foe_succ; [| |exact H]; [|intros k'; unfold satisfies; simpl; tauto].
      intros (y & Hy & Py). simpl in Hy. congruence.
Qed.
Lemma pure_find_not p l : yields (S := S) (std_find_if_not (pure p) l) (first_or_end (satisfies (fun x => negb (p x)) l) (length l)).
Proof.
  induction l as [|x l IH]; cbn [std_find_if_not].
  - apply yields_ret. apply foe_none. intros k (x & H & _). destruct k; discriminate.
  - unfold pure at 1. rewrite bind_ret_l. destruct (p x) eqn:Q.
    + eapply yields_bind; [exact IH|]. intros k H. apply yields_ret. eapply foe_succ; [| |exact H]; [|intros k'; unfold satisfies; simpl; tauto].
      intros (y & Hy & Py). simpl in Hy. inversion Hy; subst. rewrite Q in Py. discriminate.
    + apply yields_ret, foe_zero. exists x. rewrite Q. auto.
Qed.
Lemma pure_any_of2 (p : X -> Y -> bool) x ys : yields (S := S) (std_any_of2 (pure2 p) x ys) (fun b => b = existsb (p x) ys).
Proof.
  induction ys as [|y ys IH]; cbn [std_any_of2]; [apply yields_ret; auto|].
  unfold pure2 at 1. rewrite bind_ret_l. simpl. destruct (p x y); auto. apply yields_ret. auto.
Qed.
Lemma pure_find_first_of (p : X -> Y -> bool) ys l : yields (S := S) (std_find_first_of (pure2 p) ys l)
  (first_or_end (satisfies (fun x => existsb (p x) ys) l) (length l)).
Proof.
  induction l as [|x l IH]; cbn [std_find_first_of].
  - apply yields_ret. apply foe_none. intros k (x & H & _). destruct k; discriminate.
  - eapply yields_bind; [apply pure_any_of2|]. cbn beta. intros b ->. destruct (existsb (p x) ys) eqn:Q.
    + apply yields_ret, foe_zero. exists x. auto.
    + eapply yields_bind; [exact IH|]. intros k H. apply yields_ret. eapply foe_succ; [| |exact H]; [|intros k'; unfold satisfies; simpl; tauto].
      intros (y & Hy & Py). simpl in Hy. congruence.
Qed.
Lemma pure_adjacent_find (p : X -> X -> bool) l : yields (S := S) (std_adjacent_find (pure2 p) l)
  (first_or_end (adjacent p l) (length l)).
Proof.
  induction l as [|x l IH]; cbn [std_adjacent_find].
  - apply yields_ret. apply foe_none. intros k (x & y & H & _). destruct k; discriminate.
  - destruct l as [|y l].
    + apply yields_ret. apply foe_none. intros k (x1 & y1 & _ & H & _). destruct k; discriminate.
    + unfold pure2 at 1. rewrite bind_ret_l. destruct (p x y) eqn:Q.
      * apply yields_ret, foe_zero. exists x, y. auto.
      * eapply yields_bind; [exact IH|]. intros k H. apply yields_ret. eapply foe_succ; [| |exact H]; [|intros k'; unfold adjacent; simpl; tauto].
        intros (x1 & y1 & H1 & H2 & H3). simpl in *. congruence.
Qed.
Lemma mm_foe (p : X -> Y -> bool) l ys : first_or_end (differ p l ys) (Nat.min (length l) (length ys)) (mm p l ys).
Proof.
  revert ys. induction l as [|x l IH]; intros [|y ys]; cbn [mm].
  1-3: apply foe_none; intros k (x1 & y1 & H1 & H2 & _); destruct k; discriminate.
  destruct (p x y) eqn:Q.
  - eapply foe_succ; [| |apply IH]; [|intros k; unfold differ; simpl; tauto]. intros (x1 & y1 & H1 & H2 & H3). simpl in *. congruence.
  - apply foe_zero. exists x, y. auto.
Qed.
Lemma pure_equal (p : X -> Y -> bool) l ys : length l <= length ys ->
  yields (S := S) (std_equal (pure2 p) l ys) (fun b => b = true <-> Forall2 (fun x y => p x y = true) l (firstn (length l) ys)).
Proof.
  revert ys. induction l as [|x l IH]; intros [|y ys] H; cbn [std_equal length] in *; try lia; try (apply yields_ret; simpl; split; auto; fail).
  unfold pure2 at 1. rewrite bind_ret_l. cbn [firstn]. destruct (p x y) eqn:Q.
  - eapply yields_mono; [|apply IH; lia]. cbn beta. intros b ->. split; auto. intros F. inversion F; auto.
  - apply yields_ret. split; [discriminate|]. intros F. inversion F; congruence.
Qed.
Lemma pure_equal_to (p : X -> Y -> bool) l ys :
  yields (S := S) (std_equal_to (pure2 p) l ys) (fun b => b = true <-> Forall2 (fun x y => p x y = true) l ys).
Proof.
  revert ys. induction l as [|x l IH]; intros [|y ys]; cbn [std_equal_to]; try (apply yields_ret; split; auto; try discriminate; intros F; inversion F; fail).
  unfold pure2 at 1. rewrite bind_ret_l. destruct (p x y) eqn:Q.
  - eapply yields_mono; [|apply IH]. cbn beta. intros b ->. split; auto. intros F. inversion F; auto.
  - apply yields_ret. split; [discriminate|]. intros F. inversion F; congruence.
Qed.
Lemma pure_is_partitioned p l : yields (S := S) (std_is_partitioned (pure p) l)
  (fun b => b = true <-> exists ts fs, l = ts ++ fs /\ Forall (fun x => p x = true) ts /\ Forall (fun x => p x = false) fs).
Proof.
  unfold std_is_partitioned. eapply yields_bind; [apply pure_find_not|]. intros k H.
  eapply yields_mono; [|apply pure_none_of]. cbn beta. intros b ->.
  assert (Hf : forall k', k' < k -> forall x, nth_error l k' = Some x -> p x = true).
  { intros k' Hk x Hx. destruct (p x) eqn:Q; auto. exfalso.
    assert (Sa : satisfies (fun x => negb (p x)) l k') by (exists x; rewrite Q; auto).
    destruct H as [[_ H]|[_ H]]; [apply H in Sa; lia|apply (H k'); auto]. }
  assert (Fp : Forall (fun x => p x = true) (firstn k l)).
  { apply Forall_forall. intros x Hx. apply In_nth_error in Hx. destruct Hx as [m Hm].
    assert (Lm := nth_error_Some_lt _ _ _ Hm). rewrite firstn_length in Lm. apply (Hf m); [lia|].
    rewrite <- (firstn_skipn k l). rewrite nth_error_app1; auto. rewrite firstn_length. lia. }
  split.
  - intros F. destruct H as [[(x & Hx & Px) _]|[-> _]].
    + exists (firstn k l), (skipn k l). csplit; [symmetry; apply firstn_skipn|auto|].
      assert (Q : skipn k l = x :: skipn (1 + k) l).
      { clear - Hx. revert l Hx. induction k as [|k IH]; intros [|y l] Hx; simpl in *; try discriminate; [congruence|]. apply IH. auto. }
      rewrite Q. constructor; auto. destruct (p x); auto; discriminate.
    + exists l, []. rewrite app_nil_r. csplit; auto. rewrite firstn_all in Fp. auto.
  - intros (ts & fs & -> & Ft & Ff).
    assert (Hk : length ts <= k).
    { destruct H as [[(x & Hx & Px) _]|[-> _]]; [|rewrite app_length; lia]. destruct (Nat.lt_ge_cases k (length ts)) as [Lt|]; auto. exfalso.
      rewrite nth_error_app1 in Hx by auto. apply nth_error_In in Hx. rewrite Forall_forall in Ft. rewrite (Ft x Hx) in Px. discriminate. }
    rewrite skipn_app. rewrite (skipn_all2 ts) by lia. cbn [app].
    apply Forall_forall. intros x Hx. rewrite Forall_forall in Ff. apply Ff. eapply in_skipn; eauto.
Qed.
End Values.

(** ** Output *)

Lemma same_ok {S A B} (m : M S A) (m' : M S B) (R : A -> B -> Prop) s s' b : same_as m m' R -> m' s = Ok s' b ->
  exists a, m s = Ok s' a /\ R a b.
Proof. intros H Q. specialize (H s). rewrite Q in H. destruct (m s) as [s1 a|s1 e|]; try tauto. destruct H as [-> Hr]. eauto. Qed.

Section Output.
Context {G X : Type}.
Notation St O := (G * list (nat * O))%type.

Lemma out_copy (l : list X) o g w : std_copy (records (G := G)) l o (g, w) = Ok (g, w ++ number o l) (o + length l).
Proof.
  revert o w. induction l as [|x l IH]; intros o w; cbn [std_copy number length].
  - rewrite app_nil_r, Nat.add_0_r. auto.
  - unfold bind, records at 1. cbn [fst snd]. rewrite IH, <- app_assoc. f_equal. lia.
Qed.
Lemma out_copy_if p (l : list X) o g w : std_copy_if (pure p) (records (G := G)) l o (g, w) = Ok (g, w ++ number o (filter p l)) (o + length (filter p l)).
Proof.
  revert o w. induction l as [|x l IH]; intros o w; cbn [std_copy_if filter].
  - simpl. rewrite app_nil_r, Nat.add_0_r. auto.
  - unfold pure at 1. rewrite bind_ret_l. destruct (p x); [|apply IH].
    unfold bind, records at 1. cbn [fst snd]. rewrite IH, <- app_assoc. cbn [number length app]. f_equal. lia.
Qed.
Lemma out_remove_copy_if p (l : list X) o g w : std_remove_copy_if (pure p) (records (G := G)) l o (g, w) =
  Ok (g, w ++ number o (filter (fun x => negb (p x)) l)) (o + length (filter (fun x => negb (p x)) l)).
Proof.
  revert o w. induction l as [|x l IH]; intros o w; cbn [std_remove_copy_if filter].
  - simpl. rewrite app_nil_r, Nat.add_0_r. auto.
  - unfold pure at 1. rewrite bind_ret_l. destruct (p x); cbn [negb]; [apply IH|].
    unfold bind, records at 1. cbn [fst snd]. rewrite IH, <- app_assoc. cbn [number length app]. f_equal. lia.
Qed.
Lemma out_transform {O} (op : X -> O) (l : list X) o g w : std_transform (fun x => ret (op x)) (records (G := G)) l o (g, w) =
  Ok (g, w ++ number o (map op l)) (o + length l).
Proof.
  revert o w. induction l as [|x l IH]; intros o w; cbn [std_transform map number length].
  - rewrite app_nil_r, Nat.add_0_r. auto.
  - rewrite bind_ret_l. unfold bind, records at 1. cbn [fst snd]. rewrite IH, <- app_assoc. f_equal. lia.
Qed.
Lemma out_transform2 {Y O} (op : X -> Y -> O) (l : list X) (ys : list Y) o g w : length l <= length ys ->
  std_transform2 (fun x y => ret (op x y)) (records (G := G)) l ys o (g, w) =
  Ok (g, w ++ number o (map (fun xy => op (fst xy) (snd xy)) (combine l ys))) (o + length l).
Proof.
  revert ys o w. induction l as [|x l IH]; intros [|y ys] o w H; cbn [std_transform2 map number length combine] in *; try lia.
  1,2: rewrite app_nil_r, Nat.add_0_r; auto.
  rewrite bind_ret_l. unfold bind, records at 1. cbn [fst snd]. rewrite IH, <- app_assoc by lia. f_equal. lia.
Qed.
Lemma out_replace {N} p (new : N) (l : list X) o g w : std_replace_copy_if (pure p) new (records (G := G)) l o (g, w) =
  Ok (g, w ++ number o (map (fun x => if p x then inl new else inr x) l)) (o + length l).
Proof.
  revert o w. induction l as [|x l IH]; intros o w; cbn [std_replace_copy_if map number length].
  - rewrite app_nil_r, Nat.add_0_r. auto.
  - unfold pure at 1. rewrite bind_ret_l. unfold bind, records at 1. cbn [fst snd]. rewrite IH, <- app_assoc. f_equal. lia.
Qed.
Lemma out_unique_after p x (l : list X) o g w : std_unique_copy_after (pure2 p) (records (G := G)) x l o (g, w) =
  Ok (g, w ++ number o (changes p x l)) (o + length (changes p x l)).
Proof.
  revert x o w. induction l as [|y l IH]; intros x o w; cbn [std_unique_copy_after changes].
  - simpl. rewrite app_nil_r, Nat.add_0_r. auto.
  - unfold pure2 at 1. rewrite bind_ret_l. destruct (p x y); [apply IH|].
    unfold bind, records at 1. cbn [fst snd]. rewrite IH, <- app_assoc. cbn [number length app]. f_equal. lia.
Qed.
Lemma out_unique p (l : list X) o g w : std_unique_copy (pure2 p) (records (G := G)) l o (g, w) =
  Ok (g, w ++ number o (leaders p l)) (o + length (leaders p l)).
Proof.
  destruct l as [|x l]; cbn [std_unique_copy leaders].
  - simpl. rewrite app_nil_r, Nat.add_0_r. auto.
  - unfold bind, records at 1. cbn [fst snd]. rewrite out_unique_after, <- app_assoc. cbn [number length app]. f_equal. lia.
Qed.
End Output.

Lemma out_partition {X} p (l : list X) o1 o2 w1 w2 :
  std_partition_copy (pure p) records1 records l (o1, o2) (w1, w2) =
  Ok (w1 ++ number o1 (filter p l), w2 ++ number o2 (filter (fun x => negb (p x)) l))
     (o1 + length (filter p l), o2 + length (filter (fun x => negb (p x)) l)).
Proof.
  revert o1 o2 w1 w2. induction l as [|x l IH]; intros o1 o2 w1 w2; cbn [std_partition_copy filter].
  - simpl. rewrite !app_nil_r, !Nat.add_0_r. auto.
  - unfold pure at 1. rewrite bind_ret_l. cbn [fst snd]. destruct (p x); cbn [negb].
    + unfold bind, records1 at 1. cbn [fst snd]. rewrite IH, <- app_assoc. cbn [number length app]. f_equal. f_equal. lia.
    + unfold bind, records at 1. cbn [fst snd]. rewrite IH, <- app_assoc. cbn [number length app]. f_equal. f_equal. lia.
Qed.

(** ** The same results whichever way the elements are passed *)

Section Map.
Context {S A X Y : Type} (f h : A -> X).
Implicit Types (p : X -> M S bool) (l : list A).
Notation eqo m m' := (same_as m m' eq).

Lemma ext_all_of p l : (forall a, p (f a) = p (h a)) -> eqo (std_all_of p (map f l)) (std_all_of p (map h l)).
Proof. intros H. induction l as [|a l IH]; cbn [map std_all_of]; [apply same_eq|]. rewrite H. apply same_bind_eq. intros [|]; [exact IH|apply same_eq]. Qed.
Lemma ext_any_of p l : (forall a, p (f a) = p (h a)) -> eqo (std_any_of p (map f l)) (std_any_of p (map h l)).
Proof. intros H. induction l as [|a l IH]; cbn [map std_any_of]; [apply same_eq|]. rewrite H. apply same_bind_eq. intros [|]; [apply same_eq|exact IH]. Qed.
Lemma ext_none_of p l : (forall a, p (f a) = p (h a)) -> eqo (std_none_of p (map f l)) (std_none_of p (map h l)).
Proof. intros H. induction l as [|a l IH]; cbn [map std_none_of]; [apply same_eq|]. rewrite H. apply same_bind_eq. intros [|]; [apply same_eq|exact IH]. Qed.
Lemma ext_for_each (q : X -> M S unit) l : (forall a, q (f a) = q (h a)) -> eqo (std_for_each q (map f l)) (std_for_each q (map h l)).
Proof. intros H. induction l as [|a l IH]; cbn [map std_for_each]; [apply same_eq|]. rewrite H. apply same_bind_eq. intros []. exact IH. Qed.
Lemma ext_find_if p l : (forall a, p (f a) = p (h a)) -> eqo (std_find_if p (map f l)) (std_find_if p (map h l)).
Proof.
  intros H. induction l as [|a l IH]; cbn [map std_find_if]; [apply same_eq|]. rewrite H. apply same_bind_eq. intros [|]; [apply same_eq|].
  eapply same_bind; [exact IH|]. intros k k' ->. apply same_eq.
Qed.
Lemma ext_count_if p l : (forall a, p (f a) = p (h a)) -> eqo (std_count_if p (map f l)) (std_count_if p (map h l)).
Proof.
  intros H. induction l as [|a l IH]; cbn [map std_count_if]; [apply same_eq|]. rewrite H. apply same_bind_eq. intros b.
  eapply same_bind; [exact IH|]. intros k k' ->. apply same_eq.
Qed.
Lemma ext_mismatch_to (p : X -> Y -> M S bool) l ys : (forall a y, p (f a) y = p (h a) y) -> eqo (std_mismatch_to p (map f l) ys) (std_mismatch_to p (map h l) ys).
Proof.
  intros H. revert ys. induction l as [|a l IH]; intros [|y ys]; cbn [map std_mismatch_to]; try apply same_eq. rewrite H.
  apply same_bind_eq. intros [|]; [|apply same_eq]. eapply same_bind; [apply IH|]. intros k k' ->. apply same_eq.
Qed.
Lemma ext_equal_to (p : X -> Y -> M S bool) l ys : (forall a y, p (f a) y = p (h a) y) -> eqo (std_equal_to p (map f l) ys) (std_equal_to p (map h l) ys).
Proof.
  intros H. revert ys. induction l as [|a l IH]; intros [|y ys]; cbn [map std_equal_to]; try apply same_eq. rewrite H.
  apply same_bind_eq. intros [|]; [apply IH|apply same_eq].
Qed.
Lemma ext_copy_if p put l o : (forall a, p (f a) = p (h a)) -> (forall o a, put o (f a) = put o (h a)) ->
  eqo (std_copy_if p put (map f l) o) (std_copy_if p put (map h l) o).
Proof.
  intros H Hp. revert o. induction l as [|a l IH]; intros o; cbn [map std_copy_if]; [apply same_eq|]. rewrite H. apply same_bind_eq. intros [|]; [|apply IH].
  rewrite Hp. apply same_bind_eq. intros _. apply IH.
Qed.
Lemma ext_transform {O} (op : X -> M S O) put l o : (forall a, op (f a) = op (h a)) ->
  eqo (std_transform op put (map f l) o) (std_transform op put (map h l) o).
Proof.
  intros H. revert o. induction l as [|a l IH]; intros o; cbn [map std_transform]; [apply same_eq|]. rewrite H. apply same_bind_eq. intros x.
  apply same_bind_eq. intros _. apply IH.
Qed.
End Map.
