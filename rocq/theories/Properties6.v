(** * Algorithms (C37-C46)

    [c] is a collection in an arbitrary reachable state, [first] and [last] the iterators to
    its positions [i] and [j] in traversal order, [views c Ts i j] the references which a
    function object is passed for the elements in between when the types [Ts] are
    restituted (SpecAlg.v; what these references are is the subject of C47).  Function
    objects run in the monad [M S] over an arbitrary state [S] of the caller: they may have
    effects, throw, or behave undefinedly.  [same_as m m' R] says that the algorithm [m] does
    to that state exactly what the standard algorithm [m'] does on the plain sequence, so it
    makes the same calls in the same order; [yields m P] that it has no effect and gives a
    result with [P].

    For each algorithm there is a theorem with [same_as], for arbitrary function objects, and
    one which gives the result in elementary terms for function objects without effects.

    Positions are as in the rest of the files: the collection is not changed meanwhile. *)

From Coq Require Import List Arith Lia Bool Permutation.
From Verif Require Import Base Vec Backend Segment Coll StdAlg Algo Spec SpecAlg Reach ProofBase ProofBackend ProofSeg ProofMap ProofView
  ProofAlgo ProofAlgo2 ProofAlgo3 ProofAlgo4 ProofAlgo5 ProofAlgo6 ProofColl ProofReach ProofObs ProofProp Demo.
Import ListNotations.

Section Facts.
Context {V : Type} {E : Env V}.
Lemma aok_of w c g d : reach w (c :: g) d -> aok c.
Proof.
  intros H. split; [eapply reach_vok; eauto|]. apply reach_wf in H. destruct H as ((W & _) & _).
  apply Forall_forall. intros n Hn. pose proof (wm_key _ _ W) as K. rewrite Forall_forall in K. apply K. auto.
Qed.
Lemma loc w c g d it i : reach w (c :: g) d -> located c it i -> it = at_ (c_nodes c) i /\ i <= tot (c_nodes c).
Proof. intros H L. destruct (reach_wf w c g d H) as (W & O). apply (located_at w c _ _ _ _ W O). auto. Qed.
Lemma unloc w c g d i : reach w (c :: g) d -> i <= tot (c_nodes c) -> located c (at_ (c_nodes c) i) i.
Proof. intros H L. destruct (reach_wf w c g d H) as (W & O). apply (located_at w c _ _ _ _ W O). auto. Qed.
Lemma apart_of w c g d : reach w (c :: g) d -> env_layout = SplitLayout \/ separate c -> apart c.
Proof.
  intros H [A|A]; [left; auto|right]. destruct (reach_wf w c g d H) as (W & O). assert (ND : NoDup (map n_ty (c_nodes c))) by apply W.
  intros n n' k Hn Hn' Ne P F Hk. assert (Nt : n_ty n <> n_ty n').
  { intros Q. apply Ne. eapply node_same_seg; eauto. apply W. }
  specialize (A (n_ty n) (n_ty n') k). unfold addr_of, cap_of in A. rewrite (seg_at_node c n ND Hn), (seg_at_node c n' ND Hn') in A.
  rewrite (elems_node w c n (wc_map _ _ W) Hn) in A. change (elems_of (n_seg n)) with (n_elems n) in A. change (elems_of (n_seg n')) with (n_elems n') in A.
  rewrite !n_elems_length in A. destruct (Nat.ltb_spec 0 (bsize (sg_be (n_seg n)))); [|lia]. destruct (Nat.ltb_spec k (bsize (sg_be (n_seg n')))); [|lia].
  exact (A _ _ Nt eq_refl F eq_refl).
Qed.
End Facts.

Ltac alg H L1 L2 :=
  let W := fresh "W" in let B := fresh "B" in let B' := fresh "B'" in
  pose proof (aok_of _ _ _ _ H) as W; destruct (loc _ _ _ _ _ _ H L1) as [-> B]; destruct (loc _ _ _ _ _ _ H L2) as [-> B'].
(** an iterator which is at offset [k] of the range *)
Ltac at_off H := intros ? ? [-> ?]; eapply unloc; [exact H|lia].

(** The examples are about the positions 1 to 4 of [dc lay]: two elements of type 1, values 6
    and 7, and two of type 2, values 8 and 9 (in the second layout there is an empty segment
    in between). *)
Notation dfirst lay := (it_at (dc lay) 1 1).
Notation dlast lay := (it_at (dc lay) 4 0).
Definition val {V} (x : view V) : V := r_val (snd x).
Definition big (n : nat) (x : view nat) : bool := n <? val x.

(** ** C37 for_each, for_each_n *)

(** [f] is applied to exactly the elements of the range, each once, in traversal order, and its
    effects accumulate. *)
Theorem C37_for_each {V} {E : Env V} w c g d Ts first last i j {S} f : reach w (c :: g) d ->
  located c first i -> located c last j -> i <= j ->
  same_as (S := S) (pc_for_each c Ts first last f)
    (std_for_each f (views c Ts i j)) eq.
Proof.
  intros H L1 L2 L. alg H L1 L2. apply (for_each_ok c Ts W i j L B').
Qed.
Example C37_for_each_ex lay : let E := dE lay in
  reach (dw lay) [dc lay; dx lay] [] /\ located (dc lay) (dfirst lay) 1 /\ located (dc lay) (dlast lay) 5 /\ 1 <= 5 /\
  map (fun x => (fst x, val x)) (views (dc lay) [2] 1 5) = [(None, 6); (None, 7); (Some 2, 8); (Some 2, 9)].
Proof. demo lay. Qed.

(** for_each_n: the first [n] elements from [first] on, and the iterator after them is
    returned. *)
Theorem C37_for_each_n {V} {E : Env V} w c g d Ts first i n {S} f : reach w (c :: g) d ->
  located c first i -> i + n <= length (flat c) ->
  same_as (S := S) (pc_for_each_n c Ts first n f) (std_for_each f (views c Ts i (i + n)))
    (fun it _ => located c it (i + n)).
Proof.
  intros H L1 L. pose proof (aok_of _ _ _ _ H) as W. destruct (loc _ _ _ _ _ _ H L1) as [-> B]. rewrite flat_length in L.
  eapply same_mono; [|apply (for_each_n_ok c Ts W f i n L)]. intros it u ->. eapply unloc; eauto.
Qed.
Example C37_for_each_n_ex lay : let E := dE lay in
  reach (dw lay) [dc lay; dx lay] [] /\ located (dc lay) (dfirst lay) 1 /\ 1 + 4 <= length (flat (dc lay)) /\
  1 + 5 <= length (flat (dc lay)).
Proof. demo lay. Qed.

(** In elementary terms: a function object which records its arguments records this. *)
Definition visit {X} (x : X) : M (list X) unit := fun s => Ok (s ++ [x]) tt.
Lemma visit_all {X} (l s : list X) : std_for_each visit l s = Ok (s ++ l) tt.
Proof.
  revert s. induction l as [|x l IH]; intros s; cbn [std_for_each]; [rewrite app_nil_r; auto|].
  unfold bind, visit at 1. rewrite IH, <- app_assoc. auto.
Qed.
Theorem C37_visits {V} {E : Env V} w c g d Ts first last i j n s : reach w (c :: g) d ->
  located c first i -> located c last j -> i <= j -> i + n <= length (flat c) ->
  pc_for_each c Ts first last visit s = Ok (s ++ views c Ts i j) tt /\
  exists it, pc_for_each_n c Ts first n visit s = Ok (s ++ views c Ts i (i + n)) it /\ located c it (i + n).
Proof.
  intros H L1 L2 L Ln. split.
  - destruct (same_ok _ _ _ s _ _ (C37_for_each w c g d Ts first last i j visit H L1 L2 L) (visit_all _ s)) as ([] & Q & _). exact Q.
  - destruct (same_ok _ _ _ s _ _ (C37_for_each_n w c g d Ts first i n visit H L1 Ln) (visit_all _ s)) as (it & Q & R). eauto.
Qed.
Example C37_visits_ex lay : let E := dE lay in
  reach (dw lay) [dc lay; dx lay] [] /\ located (dc lay) (dfirst lay) 1 /\ located (dc lay) (dlast lay) 5 /\ 1 <= 5 /\ 1 + 3 <= length (flat (dc lay)) /\
  map val (views (dc lay) [] 1 (1 + 3)) = [6; 7; 8].
Proof. demo lay. Qed.

(** ** C38 all_of, any_of, none_of, count, count_if *)

Theorem C38_all_of {V} {E : Env V} w c g d Ts first last i j {S} p : reach w (c :: g) d ->
  located c first i -> located c last j -> i <= j ->
  same_as (S := S) (pc_all_of c Ts first last p)
    (std_all_of p (views c Ts i j)) eq.
Proof.
  intros H L1 L2 L. alg H L1 L2. apply (all_of_ok c Ts W i j L B').
Qed.
Example C38_all_of_ex lay : let E := dE lay in
  reach (dw lay) [dc lay; dx lay] [] /\ located (dc lay) (dfirst lay) 1 /\ located (dc lay) (dlast lay) 5 /\ 1 <= 5 /\
  pc_all_of (dc lay) [1] (dfirst lay) (dlast lay) (pure (big 5)) tt = Ok tt true.
Proof. demo lay. Qed.

Theorem C38_any_of {V} {E : Env V} w c g d Ts first last i j {S} p : reach w (c :: g) d ->
  located c first i -> located c last j -> i <= j ->
  same_as (S := S) (pc_any_of c Ts first last p)
    (std_any_of p (views c Ts i j)) eq.
Proof.
  intros H L1 L2 L. alg H L1 L2. apply (any_of_ok c Ts W i j L B').
Qed.
Example C38_any_of_ex lay : let E := dE lay in
  reach (dw lay) [dc lay; dx lay] [] /\ located (dc lay) (dfirst lay) 1 /\ located (dc lay) (dlast lay) 5 /\ 1 <= 5 /\
  pc_any_of (dc lay) [1] (dfirst lay) (dlast lay) (pure (big 8)) tt = Ok tt true.
Proof. demo lay. Qed.

Theorem C38_none_of {V} {E : Env V} w c g d Ts first last i j {S} p : reach w (c :: g) d ->
  located c first i -> located c last j -> i <= j ->
  same_as (S := S) (pc_none_of c Ts first last p)
    (std_none_of p (views c Ts i j)) eq.
Proof.
  intros H L1 L2 L. alg H L1 L2. apply (none_of_ok c Ts W i j L B').
Qed.
Example C38_none_of_ex lay : let E := dE lay in
  reach (dw lay) [dc lay; dx lay] [] /\ located (dc lay) (dfirst lay) 1 /\ located (dc lay) (dlast lay) 5 /\ 1 <= 5 /\
  pc_none_of (dc lay) [1] (dfirst lay) (dlast lay) (pure (big 8)) tt = Ok tt false.
Proof. demo lay. Qed.

Theorem C38_count_if {V} {E : Env V} w c g d Ts first last i j {S} p : reach w (c :: g) d ->
  located c first i -> located c last j -> i <= j ->
  same_as (S := S) (pc_count_if c Ts first last p)
    (std_count_if p (views c Ts i j)) eq.
Proof.
  intros H L1 L2 L. alg H L1 L2. apply (count_if_ok c Ts W i j L B').
Qed.
Example C38_count_if_ex lay : let E := dE lay in
  reach (dw lay) [dc lay; dx lay] [] /\ located (dc lay) (dfirst lay) 1 /\ located (dc lay) (dlast lay) 5 /\ 1 <= 5 /\
  pc_count_if (dc lay) [1] (dfirst lay) (dlast lay) (pure (big 6)) tt = Ok tt 3.
Proof. demo lay. Qed.

Theorem C38_count {V} {E : Env V} w c g d Ts first last i j {S} {Y} (eq : view V -> Y -> M S bool) y : reach w (c :: g) d ->
  located c first i -> located c last j -> i <= j ->
  same_as (S := S) (pc_count c Ts first last eq y)
    (std_count_if (fun x => eq x y) (views c Ts i j)) Logic.eq.
Proof.
  intros H L1 L2 L. alg H L1 L2. unfold pc_count. apply (count_if_ok c Ts W i j L B').
Qed.
Example C38_count_ex lay : let E := dE lay in
  reach (dw lay) [dc lay; dx lay] [] /\ located (dc lay) (dfirst lay) 1 /\ located (dc lay) (dlast lay) 5 /\ 1 <= 5 /\
  pc_count (dc lay) [1] (dfirst lay) (dlast lay) (fun x y => ret (val x =? y)) 8 tt = Ok tt 1.
Proof. demo lay. Qed.

Theorem C38_values {V} {E : Env V} w c g d Ts first last i j {S} p : reach w (c :: g) d ->
  located c first i -> located c last j -> i <= j ->
  yields (S := S) (pc_all_of c Ts first last (pure p)) (fun b => b = true <-> Forall (fun x => p x = true) (views c Ts i j)) /\
  yields (S := S) (pc_any_of c Ts first last (pure p)) (fun b => b = true <-> Exists (fun x => p x = true) (views c Ts i j)) /\
  yields (S := S) (pc_none_of c Ts first last (pure p)) (fun b => b = true <-> Forall (fun x => p x = false) (views c Ts i j)) /\
  yields (S := S) (pc_count_if c Ts first last (pure p)) (fun n => n = length (filter p (views c Ts i j))).
Proof.
  intros H L1 L2 L. csplit.
  - eapply yields_same; [eapply C38_all_of; eauto|apply pure_all_of|]. intros a b -> K. exact K.
  - eapply yields_same; [eapply C38_any_of; eauto|apply pure_any_of|]. intros a b -> K. exact K.
  - eapply yields_same; [eapply C38_none_of; eauto|apply pure_none_of|]. intros a b -> K. exact K.
  - eapply yields_same; [eapply C38_count_if; eauto|apply pure_count_if|]. intros a b -> K. exact K.
Qed.
Example C38_values_ex lay : let E := dE lay in
  reach (dw lay) [dc lay; dx lay] [] /\ located (dc lay) (dfirst lay) 1 /\ located (dc lay) (dlast lay) 5 /\ 1 <= 5 /\
  length (filter (big 6) (views (dc lay) [] 1 5)) = 3.
Proof. demo lay. Qed.

(** ** C39 find, find_if, find_if_not, find_first_of *)

Theorem C39_find_if {V} {E : Env V} w c g d Ts first last i j {S} p : reach w (c :: g) d ->
  located c first i -> located c last j -> i <= j ->
  same_as (S := S) (pc_find_if c Ts first last p)
    (std_find_if p (views c Ts i j)) (fun it k => located c it (i + k)).
Proof.
  intros H L1 L2 L. alg H L1 L2. eapply same_mono; [|apply (find_if_ok c Ts W i j L B')]. at_off H.
Qed.
Example C39_find_if_ex lay : let E := dE lay in
  reach (dw lay) [dc lay; dx lay] [] /\ located (dc lay) (dfirst lay) 1 /\ located (dc lay) (dlast lay) 5 /\ 1 <= 5 /\
  pc_find_if (dc lay) [1] (dfirst lay) (dlast lay) (pure (big 7)) tt = Ok tt (it_at (dc lay) 2 0).
Proof. demo lay. Qed.

Theorem C39_find_if_not {V} {E : Env V} w c g d Ts first last i j {S} p : reach w (c :: g) d ->
  located c first i -> located c last j -> i <= j ->
  same_as (S := S) (pc_find_if_not c Ts first last p)
    (std_find_if_not p (views c Ts i j)) (fun it k => located c it (i + k)).
Proof.
  intros H L1 L2 L. alg H L1 L2. eapply same_mono; [|apply (find_if_not_ok c Ts W i j L B')]. at_off H.
Qed.
Example C39_find_if_not_ex lay : let E := dE lay in
  reach (dw lay) [dc lay; dx lay] [] /\ located (dc lay) (dfirst lay) 1 /\ located (dc lay) (dlast lay) 5 /\ 1 <= 5 /\
  pc_find_if_not (dc lay) [1] (dfirst lay) (dlast lay) (pure (fun x => val x <? 8)) tt = Ok tt (it_at (dc lay) 2 0).
Proof. demo lay. Qed.

Theorem C39_find {V} {E : Env V} w c g d Ts first last i j {S} {Y} (eq : view V -> Y -> M S bool) y : reach w (c :: g) d ->
  located c first i -> located c last j -> i <= j ->
  same_as (S := S) (pc_find c Ts first last eq y)
    (std_find_if (fun x => eq x y) (views c Ts i j)) (fun it k => located c it (i + k)).
Proof.
  intros H L1 L2 L. alg H L1 L2. eapply same_mono; [|apply (find_if_ok c Ts W i j L B' (fun x => eq x y))]. at_off H.
Qed.
Example C39_find_ex lay : let E := dE lay in
  reach (dw lay) [dc lay; dx lay] [] /\ located (dc lay) (dfirst lay) 1 /\ located (dc lay) (dlast lay) 5 /\ 1 <= 5 /\
  pc_find (dc lay) [1] (dfirst lay) (dlast lay) (fun x y => ret (val x =? y)) 100 tt = Ok tt (dlast lay).
Proof. demo lay. Qed.

Theorem C39_find_first_of {V} {E : Env V} w c g d Ts first last i j {S} {Y} (p : view V -> Y -> M S bool) ys : reach w (c :: g) d ->
  located c first i -> located c last j -> i <= j ->
  same_as (S := S) (pc_find_first_of c Ts first last p ys)
    (std_find_first_of p ys (views c Ts i j)) (fun it k => located c it (i + k)).
Proof.
  intros H L1 L2 L. alg H L1 L2. eapply same_mono; [|apply (find_first_of_ok c Ts W i j L B')]. at_off H.
Qed.
Example C39_find_first_of_ex lay : let E := dE lay in
  reach (dw lay) [dc lay; dx lay] [] /\ located (dc lay) (dfirst lay) 1 /\ located (dc lay) (dlast lay) 5 /\ 1 <= 5 /\
  pc_find_first_of (dc lay) [1] (dfirst lay) (dlast lay) (fun x y => ret (val x =? y)) [9; 8] tt = Ok tt (it_at (dc lay) 2 0).
Proof. demo lay. Qed.

(** The iterator to the first element which satisfies the predicate, [last] if there is none. *)
Theorem C39_values {V} {E : Env V} w c g d Ts first last i j {S} {Y} p (q : view V -> Y -> bool) ys : reach w (c :: g) d ->
  located c first i -> located c last j -> i <= j ->
  yields (S := S) (pc_find_if c Ts first last (pure p))
    (fun it => exists k, located c it (i + k) /\ first_or_end (satisfies p (views c Ts i j)) (j - i) k) /\
  yields (S := S) (pc_find_if_not c Ts first last (pure p))
    (fun it => exists k, located c it (i + k) /\ first_or_end (satisfies (fun x => negb (p x)) (views c Ts i j)) (j - i) k) /\
  yields (S := S) (pc_find_first_of c Ts first last (pure2 q) ys)
    (fun it => exists k, located c it (i + k) /\ first_or_end (satisfies (fun x => existsb (q x) ys) (views c Ts i j)) (j - i) k).
Proof.
  intros H L1 L2 L. destruct (loc _ _ _ _ _ _ H L2) as [_ B]. rewrite <- (views_length c Ts i j B). csplit.
  - eapply yields_same; [eapply C39_find_if; eauto|apply pure_find|]. intros a b Q K. exists b. auto.
  - eapply yields_same; [eapply C39_find_if_not; eauto|apply pure_find_not|]. intros a b Q K. exists b. auto.
  - eapply yields_same; [eapply C39_find_first_of; eauto|apply pure_find_first_of|]. intros a b Q K. exists b. auto.
Qed.
Example C39_values_ex lay : let E := dE lay in
  reach (dw lay) [dc lay; dx lay] [] /\ located (dc lay) (dfirst lay) 1 /\ located (dc lay) (dlast lay) 5 /\ 1 <= 5 /\
  map val (views (dc lay) [] 1 5) = [6; 7; 8; 9].
Proof. demo lay. Qed.

(** ** C40 adjacent_find *)

(** The first element of the first pair of adjacent elements related by [p], also where the
    two are in different segments.  Missing: the case, for base_collection, that the storage
    of one segment begins at the very address where that of another one ends, or nearly so
    (there the statement is false, see below), and predicates which look at whether their first argument
    is passed as one of [Ts] (see C47). *)
Theorem C40_adjacent_find_partial {V} {E : Env V} w c g d Ts first last i j {S} p : reach w (c :: g) d ->
  located c first i -> located c last j -> i <= j ->
  env_layout = SplitLayout \/ separate c -> unaware Ts p ->
  same_as (S := S) (pc_adjacent_find c Ts first last p)
    (std_adjacent_find p (views c Ts i j)) (fun it k => located c it (i + k)).
Proof.
  intros H L1 L2 L Ap U. alg H L1 L2. eapply same_mono; [|apply (adjacent_find_ok c Ts W p i j (apart_of _ _ _ _ H Ap) U L B')]. at_off H.
Qed.
Example C40_adjacent_find_partial_ex lay : let E := dE lay in
  reach (dw lay) [dc lay; dx lay] [] /\ located (dc lay) (dfirst lay) 1 /\ located (dc lay) (dlast lay) 5 /\ 1 <= 5 /\
  separate (dc lay) /\
  pc_adjacent_find (dc lay) [] (dfirst lay) (dlast lay) (fun x y => ret (val x + val y =? 15)) tt = Ok tt (it_at (dc lay) 1 2).
Proof. demo lay. Qed.

Theorem C40_values_partial {V} {E : Env V} w c g d Ts first last i j {S} p : reach w (c :: g) d ->
  located c first i -> located c last j -> i <= j ->
  env_layout = SplitLayout \/ separate c -> unaware Ts p ->
  yields (S := S) (pc_adjacent_find c Ts first last (pure2 p))
    (fun it => exists k, located c it (i + k) /\ first_or_end (adjacent p (views c Ts i j)) (j - i) k).
Proof.
  intros H L1 L2 L Ap U. destruct (loc _ _ _ _ _ _ H L2) as [_ B]. rewrite <- (views_length c Ts i j B).
  eapply yields_same; [eapply C40_adjacent_find_partial; eauto|apply pure_adjacent_find|]; [|intros a b Q K; exists b; auto].
  intros r x. unfold pure2. rewrite U. auto.
Qed.
Example C40_values_partial_ex lay : let E := dE lay in
  reach (dw lay) [dc lay; dx lay] [] /\ located (dc lay) (dfirst lay) 1 /\ located (dc lay) (dlast lay) 5 /\ 1 <= 5 /\
  separate (dc lay) /\
  adjacent (fun x y => val x + val y =? 15) (views (dc lay) [] 1 5) 1.
Proof. cbv zeta. csplit; try (demo_fact lay). destruct lay; do 2 eexists; vm_compute; auto. Qed.

(** In general it is false: the element before the current segment is mistaken for the end of
    the current segment if it is stored right after it, and then the match is skipped.  Here
    the collection has one element of each of two types, with equal values, and adjacent_find
    returns [last]. *)
Definition adjE : Env nat := let D := demo PackedLayout calm true in {|
  env_layout := PackedLayout; env_fault := calm; env_grow := @env_grow nat D; env_vmax := @env_vmax nat D;
  env_imax := @env_imax nat D; env_junk_len := @env_junk_len nat D; env_junk := @env_junk nat D;
  env_shrink_noop := @env_shrink_noop nat D; env_shrink_swallow := @env_shrink_swallow nat D;
  env_copyable := @env_copyable nat D; env_eqcomp := @env_eqcomp nat D; env_nt_move := @env_nt_move nat D;
  env_assignable := @env_assignable nat D; env_nt_assign := @env_nt_assign nat D; env_veq := @env_veq nat D;
  env_ty := @env_ty nat D; env_buckets := @env_buckets nat D; env_codes := @env_codes nat D;
  env_rehash_stable := true; env_pocca := @env_pocca nat D; env_pocma := @env_pocma nat D;
  env_pocs := @env_pocs nat D; env_socc := @env_socc nat D; env_umap_clears := @env_umap_clears nat D;
  env_counted := env_counted;
  env_adjacent := fun b p => (b =? 8) && (fst p =? 4) && (snd p =? 0) |}.
Definition adj_run := let E := adjE in state (script [(10, Some 5); (20, Some 5)] (c_empty 0, mkworld 1 [] 0 0 0)).
Theorem C40_adjacent_find_refuted : exists (E : Env nat) w c p,
  reach w [c] [] /\ content c = [(1, [5]); (2, [5])] /\ equivalence p /\ blind2 p /\
  adjacent p (views c [] 0 2) 0 /\
  pc_adjacent_find (S := unit) c [] (c_begin c) (c_end c) (pure2 p) tt = Ok tt (c_end c).
Proof.
  exists adjE, (snd adj_run), (fst adj_run), (fun x y => val x =? val y). csplit.
  - apply (run_reach adjE [(10, Some 5); (20, Some 5)] (mkworld 1 [] 0 0 0) [] [] 0 adj_run); [constructor|vm_compute; reflexivity].
  - vm_compute. reflexivity.
  - split; [intros; apply Nat.eqb_refl|split; [intros; apply Nat.eqb_sym|]].
    intros x y z H1 H2. apply Nat.eqb_eq in H1, H2. apply Nat.eqb_eq. congruence.
  - intros T T' r x. split; reflexivity.
  - exists (seen [] (mkref 1 5 (4, 0))), (seen [] (mkref 2 5 (8, 0))). vm_compute. auto.
  - vm_compute. reflexivity.
Qed.

(** ** C41 mismatch, equal *)

(** [bounded] tells whether the end of the second sequence [ys] is passed too.  If not, the
    second sequence must be long enough, otherwise both are undefined. *)
Theorem C41_mismatch {V} {E : Env V} w c g d Ts first last i j {S} {Y} bounded (p : view V -> Y -> M S bool) ys : reach w (c :: g) d ->
  located c first i -> located c last j -> i <= j ->
  same_as (S := S) (pc_mismatch bounded c Ts first last ys p)
    ((if bounded then std_mismatch_to else std_mismatch) p (views c Ts i j) ys) (fun r k => located c (fst r) (i + k) /\ snd r = k).
Proof.
  intros H L1 L2 L. alg H L1 L2. eapply same_mono; [|apply (mismatch_ok c Ts W i j L B' bounded ys p)].
  intros r k (-> & K1 & K2). split; auto. cbn [fst]. eapply unloc; [exact H|lia].
Qed.
Example C41_mismatch_ex lay : let E := dE lay in
  reach (dw lay) [dc lay; dx lay] [] /\ located (dc lay) (dfirst lay) 1 /\ located (dc lay) (dlast lay) 5 /\ 1 <= 5 /\
  pc_mismatch true (dc lay) [1] (dfirst lay) (dlast lay) [6; 7; 8; 10] (fun x y => ret (val x =? y)) tt = Ok tt (it_at (dc lay) 2 1, 3).
Proof. demo lay. Qed.

Theorem C41_equal {V} {E : Env V} w c g d Ts first last i j {S} {Y} bounded (p : view V -> Y -> M S bool) ys : reach w (c :: g) d ->
  located c first i -> located c last j -> i <= j ->
  same_as (S := S) (pc_equal bounded c Ts first last ys p)
    ((if bounded then std_equal_to else std_equal) p (views c Ts i j) ys) eq.
Proof.
  intros H L1 L2 L. alg H L1 L2. apply (equal_ok c Ts W i j L B').
Qed.
Example C41_equal_ex lay : let E := dE lay in
  reach (dw lay) [dc lay; dx lay] [] /\ located (dc lay) (dfirst lay) 1 /\ located (dc lay) (dlast lay) 5 /\ 1 <= 5 /\
  pc_equal true (dc lay) [1] (dfirst lay) (dlast lay) [6; 7; 8; 9] (fun x y => ret (val x =? y)) tt = Ok tt true.
Proof. demo lay. Qed.

Theorem C41_values {V} {E : Env V} w c g d Ts first last i j {S} {Y} bounded (p : view V -> Y -> bool) ys : reach w (c :: g) d ->
  located c first i -> located c last j -> i <= j ->
  (bounded = false -> j - i <= length ys) ->
  yields (S := S) (pc_mismatch bounded c Ts first last ys (pure2 p))
    (fun r => exists k, located c (fst r) (i + k) /\ snd r = k /\
              first_or_end (differ p (views c Ts i j) ys) (Nat.min (j - i) (length ys)) k) /\
  yields (S := S) (pc_equal bounded c Ts first last ys (pure2 p))
    (fun b => b = true <-> Forall2 (fun x y => p x y = true) (views c Ts i j) (if bounded then ys else firstn (j - i) ys)).
Proof.
  intros H L1 L2 L Hb. destruct (loc _ _ _ _ _ _ H L2) as [_ B]. rewrite <- (views_length c Ts i j B) in *. split.
  - eapply yields_same with (P := fun k => k = mm p (views c Ts i j) ys); [eapply C41_mismatch; eauto| |].
    + destruct bounded; [apply pure_mismatch_to|apply pure_mismatch; auto].
    + intros r k (Q1 & Q2) ->. eexists. csplit; [exact Q1|exact Q2|apply mm_foe].
  - eapply yields_same; [eapply C41_equal; eauto| |].
    + instantiate (1 := fun b => b = true <-> Forall2 (fun x y => p x y = true) (views c Ts i j) (if bounded then ys else firstn (length (views c Ts i j)) ys)).
      destruct bounded; [apply pure_equal_to|apply pure_equal; auto].
    + intros a b -> K. exact K.
Qed.
Example C41_values_ex lay : let E := dE lay in
  reach (dw lay) [dc lay; dx lay] [] /\ located (dc lay) (dfirst lay) 1 /\ located (dc lay) (dlast lay) 5 /\ 1 <= 5 /\
  5 - 1 <= length [6; 7; 8; 10; 11] /\ map val (views (dc lay) [] 1 5) = [6; 7; 8; 9].
Proof. demo lay. Qed.

(** ** C42 is_permutation *)

(** The predicate is an equivalence relation [R] between the elements of both sequences; the
    predicate never compares two elements of the second sequence. *)
Theorem C42_is_permutation {V} {E : Env V} w c g d Ts first last i j {S} {Y} (R : view V + Y -> view V + Y -> bool) bounded ys : reach w (c :: g) d ->
  located c first i -> located c last j -> i <= j ->
  equivalence R -> (bounded = false -> j - i <= length ys) ->
  yields (S := S) (pc_is_permutation bounded c Ts first last ys (pure2 (fun x z => R (inl x) z)))
    (fun b => b = true <-> permuted (fun x y => R (inl x) (inr y)) (views c Ts i j) (if bounded then ys else firstn (j - i) ys)).
Proof.
  intros H L1 L2 L HR Hb. alg H L1 L2. apply (is_permutation_ok c Ts W R i j ys bounded HR L B' Hb).
Qed.
Example C42_is_permutation_ex lay : let E := dE lay in
  reach (dw lay) [dc lay; dx lay] [] /\ located (dc lay) (dfirst lay) 1 /\ located (dc lay) (dlast lay) 5 /\ 1 <= 5 /\
  equivalence (fun x y : view nat + nat => match x with inl v => val v | inr n => n end =? match y with inl v => val v | inr n => n end) /\
  pc_is_permutation true (dc lay) [2] (dfirst lay) (dlast lay) [6; 9; 7; 8]
    (fun x z => ret (val x =? match z with inl v => val v | inr n => n end)) tt = Ok tt true.
Proof.
  cbv zeta. csplit; try (demo_fact lay).
  split; [intros; apply Nat.eqb_refl|split; [intros; apply Nat.eqb_sym|]].
  intros x y z H1 H2. apply Nat.eqb_eq in H1, H2. apply Nat.eqb_eq. congruence.
Qed.

(** ** C43 search, find_end, search_n *)

(** The first place where the second sequence occurs, [last] if there is none. *)
Theorem C43_search {V} {E : Env V} w c g d Ts first last i j {S} {Y} (p : view V -> Y -> bool) ys : reach w (c :: g) d ->
  located c first i -> located c last j -> i <= j ->
  yields (S := S) (pc_search c Ts first last ys (pure2 p))
    (fun it => exists k, located c it (i + k) /\ first_or_end (occurs p ys (views c Ts i j)) (j - i) k).
Proof.
  intros H L1 L2 L. alg H L1 L2. eapply yields_mono; [|apply (search_ok c Ts W p ys j B' i L)].
  intros it (k & K1 & K2 & -> & K3 & K4). exists (k - i). replace (i + (k - i)) with k by lia. split; [eapply unloc; [exact H|lia]|].
  assert (Ho : forall k', i + k' < j -> occurs p ys (views c Ts i j) k' <-> starts c Ts p ys j (i + k')) by (intros k' Hk; apply occurs_at; lia).
  destruct (Nat.eq_dec k j) as [->|Ne].
  - destruct ys as [|y ys'].
    + assert (i = j). { destruct (Nat.eq_dec i j); auto. exfalso. apply (K4 i); [lia|lia|]. unfold starts. destruct (views c Ts i j); reflexivity. }
      subst. rewrite Nat.sub_diag, views_nil. left. split; [split; [simpl; lia|constructor]|intros; lia].
    + right. split; auto. intros k' Hk. assert (Hl := proj1 Hk). rewrite views_length in Hl by auto. cbn [length] in Hl.
      apply (K4 (i + k')); [lia|lia|]. apply Ho; auto. lia.
  - left. split.
    + apply Ho; [lia|]. replace (i + (k - i)) with k by lia. apply K3. lia.
    + intros k' Hk. destruct (Nat.le_gt_cases (k - i) k') as [|Lt]; auto. exfalso. apply (K4 (i + k')); [lia|lia|]. apply Ho; auto. lia.
Qed.
Example C43_search_ex lay : let E := dE lay in
  reach (dw lay) [dc lay; dx lay] [] /\ located (dc lay) (dfirst lay) 1 /\ located (dc lay) (dlast lay) 5 /\ 1 <= 5 /\
  pc_search (dc lay) [2] (dfirst lay) (dlast lay) [7; 8] (fun x y => ret (val x =? y)) tt = Ok tt (it_at (dc lay) 1 2).
Proof. demo lay. Qed.

(** The last such place; [last] if there is none or if the second sequence is empty. *)
Theorem C43_find_end {V} {E : Env V} w c g d Ts first last i j {S} {Y} (p : view V -> Y -> bool) ys : reach w (c :: g) d ->
  located c first i -> located c last j -> i <= j ->
  yields (S := S) (pc_find_end c Ts first last ys (pure2 p))
    (fun it => exists k, located c it (i + k) /\
       ((ys <> [] /\ latest (occurs p ys (views c Ts i j)) k) \/
        (k = j - i /\ forall k', ys <> [] -> ~ occurs p ys (views c Ts i j) k'))).
Proof.
  intros H L1 L2 L. alg H L1 L2. eapply yields_mono; [|apply (find_end_ok c Ts W p ys j B' i L)].
  intros it (k & K1 & K2 & -> & K3). exists (k - i). replace (i + (k - i)) with k by lia. split; [eapply unloc; [exact H|lia]|].
  assert (Ho : forall k', i + k' < j -> occurs p ys (views c Ts i j) k' <-> starts c Ts p ys j (i + k')) by (intros k' Hk; apply occurs_at; lia).
  assert (Hl : forall k', ys <> [] -> occurs p ys (views c Ts i j) k' -> i + k' < j).
  { intros k' Ny Hk. apply proj1 in Hk. rewrite views_length in Hk by auto. destruct ys; [congruence|]. cbn [length] in Hk. lia. }
  destruct K3 as [[-> ->]|[Ny [K3 K4]]]; [right; split; auto; intros; congruence|].
  destruct (Nat.eq_dec k j) as [->|Ne].
  - right. split; auto. intros k' _ Hk. destruct (K4 (i + k')) as [F _]; [lia|apply Hl; auto|apply Ho; auto|congruence].
  - left. split; auto. split.
    + apply Ho; [lia|]. replace (i + (k - i)) with k by lia. apply K3. lia.
    + intros k' Hk. destruct (K4 (i + k')) as [_ F]; [lia|apply Hl; auto|apply Ho; auto|lia].
Qed.
Example C43_find_end_ex lay : let E := dE lay in
  reach (dw lay) [dc lay; dx lay] [] /\ located (dc lay) (dfirst lay) 1 /\ located (dc lay) (dlast lay) 5 /\ 1 <= 5 /\
  pc_find_end (dc lay) [2] (dfirst lay) (dlast lay) [7; 8] (fun x y => ret (val x <=? y)) tt = Ok tt (it_at (dc lay) 1 2).
Proof. demo lay. Qed.

(** The first run of [n] elements which satisfy the predicate; [first] if [n] is 0. *)
Theorem C43_search_n {V} {E : Env V} w c g d Ts first last i j {S} p n : reach w (c :: g) d ->
  located c first i -> located c last j -> i <= j ->
  yields (S := S) (pc_search_n c Ts first last n (pure p))
    (fun it => exists k, located c it (i + k) /\ first_or_end (run_of p n (views c Ts i j)) (j - i) k).
Proof.
  intros H L1 L2 L. alg H L1 L2. destruct (Nat.eq_dec n 0) as [->|Nn].
  - apply yields_ret. exists 0. rewrite Nat.add_0_r. split; [eapply unloc; eauto|]. left. split; [|intros; lia].
    split; [rewrite views_length; lia|]. unfold between. simpl. constructor.
  - eapply yields_mono; [|apply (search_n_ok c Ts W p n); auto; lia]. intros it (k & -> & K1 & K2). exists k.
    split; [eapply unloc; [exact H|lia]|]. destruct K2 as [K2|[K2 ->]]; [left|right]; auto.
Qed.
Example C43_search_n_ex lay : let E := dE lay in
  reach (dw lay) [dc lay; dx lay] [] /\ located (dc lay) (dfirst lay) 1 /\ located (dc lay) (dlast lay) 5 /\ 1 <= 5 /\
  pc_search_n (dc lay) [2] (dfirst lay) (dlast lay) 3 (pure (big 6)) tt = Ok tt (it_at (dc lay) 1 2).
Proof. demo lay. Qed.

(** ** C44 Copying algorithms

    [put o x] writes [x] through the output iterator, which is at its [o]-th place; it may
    have effects and throw.  (copy and move are the same here: for move, writing means moving
    from the element.) *)

Theorem C44_copy {V} {E : Env V} w c g d Ts first last i j {S} put o : reach w (c :: g) d ->
  located c first i -> located c last j -> i <= j ->
  same_as (S := S) (pc_copy c Ts first last put o)
    (std_copy put (views c Ts i j) o) eq.
Proof.
  intros H L1 L2 L. alg H L1 L2. unfold pc_copy. apply (generic_copy_ok c Ts W i j L B' (fun o xs => std_copy put xs o) o), copy_out.
Qed.
Example C44_copy_ex lay : let E := dE lay in
  reach (dw lay) [dc lay; dx lay] [] /\ located (dc lay) (dfirst lay) 1 /\ located (dc lay) (dlast lay) 5 /\ 1 <= 5.
Proof. demo lay. Qed.

Theorem C44_copy_n {V} {E : Env V} w c g d Ts first i n {S} put o : reach w (c :: g) d ->
  located c first i -> i + n <= length (flat c) ->
  same_as (S := S) (pc_copy_n c Ts first n put o) (std_copy put (views c Ts i (i + n)) o) eq.
Proof.
  intros H L1 L. pose proof (aok_of _ _ _ _ H) as W. destruct (loc _ _ _ _ _ _ H L1) as [-> B]. rewrite flat_length in L.
  apply (copy_n_ok c Ts W put i n o L).
Qed.
Example C44_copy_n_ex lay : let E := dE lay in
  reach (dw lay) [dc lay; dx lay] [] /\ located (dc lay) (dfirst lay) 1 /\ 1 + 3 <= length (flat (dc lay)).
Proof. demo lay. Qed.

Theorem C44_copy_if {V} {E : Env V} w c g d Ts first last i j {S} p put o : reach w (c :: g) d ->
  located c first i -> located c last j -> i <= j ->
  same_as (S := S) (pc_copy_if c Ts first last put p o)
    (std_copy_if p put (views c Ts i j) o) eq.
Proof.
  intros H L1 L2 L. alg H L1 L2. unfold pc_copy_if. apply (generic_copy_ok c Ts W i j L B' (fun o xs => std_copy_if p put xs o) o), copy_if_out.
Qed.
Example C44_copy_if_ex lay : let E := dE lay in
  reach (dw lay) [dc lay; dx lay] [] /\ located (dc lay) (dfirst lay) 1 /\ located (dc lay) (dlast lay) 5 /\ 1 <= 5.
Proof. demo lay. Qed.

Theorem C44_transform {V} {E : Env V} w c g d Ts first last i j {S} {O} (op : view V -> M S O) put o : reach w (c :: g) d ->
  located c first i -> located c last j -> i <= j ->
  same_as (S := S) (pc_transform c Ts first last put op o)
    (std_transform op put (views c Ts i j) o) eq.
Proof.
  intros H L1 L2 L. alg H L1 L2. unfold pc_transform. apply (generic_copy_ok c Ts W i j L B' (fun o xs => std_transform op put xs o) o), transform_out.
Qed.
Example C44_transform_ex lay : let E := dE lay in
  reach (dw lay) [dc lay; dx lay] [] /\ located (dc lay) (dfirst lay) 1 /\ located (dc lay) (dlast lay) 5 /\ 1 <= 5.
Proof. demo lay. Qed.

Theorem C44_transform_binary {V} {E : Env V} w c g d Ts first last i j {S} {Y O} (op : view V -> Y -> M S O) put ys o : reach w (c :: g) d ->
  located c first i -> located c last j -> i <= j ->
  same_as (S := S) (pc_transform2 c Ts first last ys put op o)
    (std_transform2 op put (views c Ts i j) ys o) eq.
Proof.
  intros H L1 L2 L. alg H L1 L2. apply (transform2_ok c Ts W i j L B').
Qed.
Example C44_transform_binary_ex lay : let E := dE lay in
  reach (dw lay) [dc lay; dx lay] [] /\ located (dc lay) (dfirst lay) 1 /\ located (dc lay) (dlast lay) 5 /\ 1 <= 5.
Proof. demo lay. Qed.

Theorem C44_replace_copy_if {V} {E : Env V} w c g d Ts first last i j {S} {N} (new : N) p put o : reach w (c :: g) d ->
  located c first i -> located c last j -> i <= j ->
  same_as (S := S) (pc_replace_copy_if c Ts first last put p new o)
    (std_replace_copy_if p new put (views c Ts i j) o) eq.
Proof.
  intros H L1 L2 L. alg H L1 L2. apply (replace_copy_if_ok c Ts W i j L B').
Qed.
Example C44_replace_copy_if_ex lay : let E := dE lay in
  reach (dw lay) [dc lay; dx lay] [] /\ located (dc lay) (dfirst lay) 1 /\ located (dc lay) (dlast lay) 5 /\ 1 <= 5.
Proof. demo lay. Qed.

Theorem C44_replace_copy {V} {E : Env V} w c g d Ts first last i j {S} {N} (eq : view V -> N -> M S bool) old new put o : reach w (c :: g) d ->
  located c first i -> located c last j -> i <= j ->
  same_as (S := S) (pc_replace_copy c Ts first last put eq old new o)
    (std_replace_copy_if (fun x => eq x old) new put (views c Ts i j) o) Logic.eq.
Proof.
  intros H L1 L2 L. alg H L1 L2. apply (replace_copy_if_ok c Ts W i j L B').
Qed.
Example C44_replace_copy_ex lay : let E := dE lay in
  reach (dw lay) [dc lay; dx lay] [] /\ located (dc lay) (dfirst lay) 1 /\ located (dc lay) (dlast lay) 5 /\ 1 <= 5.
Proof. demo lay. Qed.

Theorem C44_remove_copy_if {V} {E : Env V} w c g d Ts first last i j {S} p put o : reach w (c :: g) d ->
  located c first i -> located c last j -> i <= j ->
  same_as (S := S) (pc_remove_copy_if c Ts first last put p o)
    (std_remove_copy_if p put (views c Ts i j) o) eq.
Proof.
  intros H L1 L2 L. alg H L1 L2. unfold pc_remove_copy_if. apply (generic_copy_ok c Ts W i j L B' (fun o xs => std_remove_copy_if p put xs o) o), remove_copy_if_out.
Qed.
Example C44_remove_copy_if_ex lay : let E := dE lay in
  reach (dw lay) [dc lay; dx lay] [] /\ located (dc lay) (dfirst lay) 1 /\ located (dc lay) (dlast lay) 5 /\ 1 <= 5.
Proof. demo lay. Qed.

Theorem C44_remove_copy {V} {E : Env V} w c g d Ts first last i j {S} {Y} (eq : view V -> Y -> M S bool) y put o : reach w (c :: g) d ->
  located c first i -> located c last j -> i <= j ->
  same_as (S := S) (pc_remove_copy c Ts first last put eq y o)
    (std_remove_copy_if (fun x => eq x y) put (views c Ts i j) o) Logic.eq.
Proof.
  intros H L1 L2 L. alg H L1 L2. unfold pc_remove_copy. apply (generic_copy_ok c Ts W i j L B' (fun o xs => std_remove_copy_if (fun x => eq x y) put xs o) o), remove_copy_if_out.
Qed.
Example C44_remove_copy_ex lay : let E := dE lay in
  reach (dw lay) [dc lay; dx lay] [] /\ located (dc lay) (dfirst lay) 1 /\ located (dc lay) (dlast lay) 5 /\ 1 <= 5.
Proof. demo lay. Qed.

(** As in the standard, the predicate must be an equivalence relation.  It must not depend on
    whether its first argument is passed as one of [Ts] (see C47). *)
Theorem C44_unique_copy {V} {E : Env V} w c g d Ts first last i j {S} p put o : reach w (c :: g) d ->
  located c first i -> located c last j -> i <= j ->
  equivalence p -> unaware Ts p ->
  same_as (S := S) (pc_unique_copy c Ts first last put (pure2 p) o)
    (std_unique_copy (pure2 p) put (views c Ts i j) o) eq.
Proof.
  intros H L1 L2 L HE U. alg H L1 L2. apply (unique_copy_ok c Ts W p put i j o HE U L B').
Qed.
Example C44_unique_copy_ex lay : let E := dE lay in
  reach (dw lay) [dc lay; dx lay] [] /\ located (dc lay) (dfirst lay) 1 /\ located (dc lay) (dlast lay) 5 /\ 1 <= 5 /\
  equivalence (fun x y : view nat => val x / 7 =? val y / 7) /\ unaware [1; 2] (fun x y : view nat => val x / 7 =? val y / 7) /\
  map val (leaders (fun x y : view nat => val x / 7 =? val y / 7) (views (dc lay) [1; 2] 1 5)) = [6; 7].
Proof.
  cbv zeta. csplit; try (demo_fact lay); try (intros r x; reflexivity).
  split; [intros; apply Nat.eqb_refl|split; [intros; apply Nat.eqb_sym|]].
  intros x y z H1 H2. apply Nat.eqb_eq in H1, H2. apply Nat.eqb_eq. congruence.
Qed.

Theorem C44_rotate_copy {V} {E : Env V} w c g d Ts first middle last i m j {S} put o : reach w (c :: g) d ->
  located c first i -> located c middle m -> located c last j -> i <= m -> m <= j ->
  same_as (S := S) (pc_rotate_copy c Ts first middle last put o) (std_rotate_copy put (m - i) (views c Ts i j) o) eq.
Proof.
  intros H L1 L3 L2 L L'. alg H L1 L2. destruct (loc _ _ _ _ _ _ H L3) as [-> B3]. apply (rotate_copy_ok c Ts W put i m j o); auto.
Qed.
Example C44_rotate_copy_ex lay : let E := dE lay in
  reach (dw lay) [dc lay; dx lay] [] /\ located (dc lay) (dfirst lay) 1 /\ located (dc lay) (dlast lay) 5 /\ 1 <= 5 /\ located (dc lay) (it_at (dc lay) 2 0) 3 /\ 1 <= 3 /\ 3 <= 5.
Proof. demo lay. Qed.

Theorem C44_partition_copy {V} {E : Env V} w c g d Ts first last i j {S} p put1 put2 o : reach w (c :: g) d ->
  located c first i -> located c last j -> i <= j ->
  same_as (S := S) (pc_partition_copy c Ts first last put1 put2 p o)
    (std_partition_copy p put1 put2 (views c Ts i j) o) eq.
Proof.
  intros H L1 L2 L. alg H L1 L2. unfold pc_partition_copy. apply (generic_copy_ok c Ts W i j L B' (fun o xs => std_partition_copy p put1 put2 xs o) o), partition_copy_out.
Qed.
Example C44_partition_copy_ex lay : let E := dE lay in
  reach (dw lay) [dc lay; dx lay] [] /\ located (dc lay) (dfirst lay) 1 /\ located (dc lay) (dlast lay) 5 /\ 1 <= 5.
Proof. demo lay. Qed.

(** What is written where, for function objects without effects: [number o l] are the elements
    of [l], written at [o], [o+1] and so on. *)
Theorem C44_outputs {V} {E : Env V} w c g d Ts first last i j {G N} p q (new : N) (o : nat) (gs : G) out out' out1 : reach w (c :: g) d ->
  located c first i -> located c last j -> i <= j -> equivalence q -> unaware Ts q ->
  let l := views c Ts i j in
  let wrote (m : M (G * list (nat * view V)) nat) l' := m (gs, out) = Ok (gs, out ++ number o l') (o + length l') in
  wrote (pc_copy c Ts first last records o) l /\
  wrote (pc_copy_if c Ts first last records (pure p) o) (filter p l) /\
  wrote (pc_remove_copy_if c Ts first last records (pure p) o) (filter (fun x => negb (p x)) l) /\
  wrote (pc_unique_copy c Ts first last records (pure2 q) o) (leaders q l) /\
  (forall m middle, located c middle m -> i <= m -> m <= j ->
     wrote (pc_rotate_copy c Ts first middle last records o) (views c Ts m j ++ views c Ts i m)) /\
  (forall n, i + n <= j -> wrote (pc_copy_n c Ts first n records o) (firstn n l)) /\
  pc_replace_copy_if c Ts first last (records (G := G)) (pure p) new o (gs, out') =
    Ok (gs, out' ++ number o (map (fun x => if p x then inl new else inr x) l)) (o + length l) /\
  (forall o2, pc_partition_copy c Ts first last records1 records (pure p) (o, o2) (out1, out) =
    Ok (out1 ++ number o (filter p l), out ++ number o2 (filter (fun x => negb (p x)) l))
       (o + length (filter p l), o2 + length (filter (fun x => negb (p x)) l))).
Proof.
  intros H L1 L2 L HE U l wrote. destruct (loc _ _ _ _ _ _ H L2) as [_ B].
  assert (K : forall (m m' : M (G * list (nat * view V)) nat) l', same_as m m' eq ->
    m' (gs, out) = Ok (gs, out ++ number o l') (o + length l') -> wrote m l').
  { intros m m' l' Sm Q. destruct (same_ok _ _ _ _ _ _ Sm Q) as (a & Qa & ->). exact Qa. }
  csplit.
  - eapply K; [eapply C44_copy; eauto|apply out_copy].
  - eapply K; [eapply C44_copy_if; eauto|apply out_copy_if].
  - eapply K; [eapply C44_remove_copy_if; eauto|apply out_remove_copy_if].
  - eapply K; [eapply C44_unique_copy; eauto|apply out_unique].
  - intros m middle L3 Lm Lm'. eapply K; [eapply C44_rotate_copy; eauto|]. unfold std_rotate_copy. rewrite out_copy.
    rewrite (views_skip c Ts i j (m - i)) by lia. replace (i + (m - i)) with m by lia.
    assert (Q : firstn (m - i) (views c Ts i j) = views c Ts i m).
    { rewrite <- (views_app c Ts i m j) by lia. rewrite firstn_app, views_length by lia. rewrite Nat.sub_diag. simpl. rewrite app_nil_r.
      apply firstn_all2. rewrite views_length; lia. }
    rewrite Q. reflexivity.
  - intros n Ln. eapply K; [eapply C44_copy_n; eauto; rewrite flat_length; lia|].
    assert (Q : firstn n l = views c Ts i (i + n)).
    { unfold l. rewrite <- (views_app c Ts i (i + n) j) by lia. rewrite firstn_app, views_length by lia. replace (n - (i + n - i)) with 0 by lia. simpl. rewrite app_nil_r.
      apply firstn_all2. rewrite views_length; lia. }
    rewrite Q. apply out_copy.
  - destruct (same_ok _ _ _ _ _ _ (C44_replace_copy_if w c g d Ts first last i j new (pure p) records o H L1 L2 L) (out_replace p new l o gs out')) as (a & Qa & ->). exact Qa.
  - intros o2. destruct (same_ok _ _ _ _ _ _ (C44_partition_copy w c g d Ts first last i j (pure p) records1 records (o, o2) H L1 L2 L) (out_partition p l o o2 out1 out)) as (a & Qa & ->). exact Qa.
Qed.
Theorem C44_transforms {V} {E : Env V} w c g d Ts first last i j {G O Y} (op : view V -> O) (op2 : view V -> Y -> O) ys o (gs : G) out : reach w (c :: g) d ->
  located c first i -> located c last j -> i <= j -> j - i <= length ys ->
  pc_transform c Ts first last (records (G := G)) (fun x => ret (op x)) o (gs, out) =
    Ok (gs, out ++ number o (map op (views c Ts i j))) (o + (j - i)) /\
  pc_transform2 c Ts first last ys (records (G := G)) (fun x y => ret (op2 x y)) o (gs, out) =
    Ok (gs, out ++ number o (map (fun xy => op2 (fst xy) (snd xy)) (combine (views c Ts i j) ys))) (o + (j - i)).
Proof.
  intros H L1 L2 L Ly. destruct (loc _ _ _ _ _ _ H L2) as [_ B]. rewrite <- (views_length c Ts i j B) in *. split.
  - destruct (same_ok _ _ _ _ _ _ (C44_transform w c g d Ts first last i j (fun x => ret (op x)) records o H L1 L2 L) (out_transform op _ o gs out)) as (a & Qa & ->). exact Qa.
  - destruct (same_ok _ _ _ _ _ _ (C44_transform_binary w c g d Ts first last i j (fun x y => ret (op2 x y)) records ys o H L1 L2 L) (out_transform2 op2 _ ys o gs out Ly)) as (a & Qa & ->). exact Qa.
Qed.
Example C44_outputs_ex lay : let E := dE lay in
  reach (dw lay) [dc lay; dx lay] [] /\ located (dc lay) (dfirst lay) 1 /\ located (dc lay) (dlast lay) 5 /\ 1 <= 5 /\ 5 - 1 <= length [1; 2; 3; 4] /\ located (dc lay) (it_at (dc lay) 2 0) 3 /\
  equivalence (fun x y : view nat => val x / 7 =? val y / 7) /\ unaware [1; 2] (fun x y : view nat => val x / 7 =? val y / 7) /\
  map val (filter (big 6) (views (dc lay) [2] 1 5)) = [7; 8; 9].
Proof.
  cbv zeta. csplit; try (demo_fact lay); try (intros r x; reflexivity).
  split; [intros; apply Nat.eqb_refl|split; [intros; apply Nat.eqb_sym|]].
  intros x y z H1 H2. apply Nat.eqb_eq in H1, H2. apply Nat.eqb_eq. congruence.
Qed.

(** ** C45 sample *)

(** Whatever numbers the generator gives (below the bound asked for), the output is a
    selection of [n] elements, or all if there are fewer, in the order of the range. *)
Theorem C45_sample {V} {E : Env V} w c g d Ts first last i j {G} (gen : nat -> G -> nat * G) n o gs out : reach w (c :: g) d ->
  located c first i -> located c last j -> i <= j -> (forall m gs, fst (gen m gs) <= m) ->
  exists sel gs', pc_sample c Ts first last records n (draws gen) o (gs, out) = Ok (gs', out ++ number o sel) (o + length sel) /\
    selection sel (views c Ts i j) /\ length sel = Nat.min n (j - i).
Proof. intros H L1 L2 L Hg. alg H L1 L2. apply (sample_ok c Ts W gen i j n o gs out Hg L B'). Qed.
Example C45_sample_ex lay : let E := dE lay in
  reach (dw lay) [dc lay; dx lay] [] /\ located (dc lay) (dfirst lay) 1 /\ located (dc lay) (dlast lay) 5 /\ 1 <= 5 /\ (forall m gs : nat, fst (Nat.min m gs, gs + 1) <= m).
Proof. cbv zeta. csplit; try (demo_fact lay). intros m gs. cbn [fst]. lia. Qed.

(** Whatever the generator and the output iterator do, be it to throw: the calls are those of
    selection sampling on the sequence of elements. *)
Theorem C45_sample_calls {V} {E : Env V} w c g d Ts first last i j {S} (draw : nat -> M S nat) put n o : reach w (c :: g) d ->
  located c first i -> located c last j -> i <= j ->
  same_as (S := S) (pc_sample c Ts first last put n draw o) (std_sample draw put n (views c Ts i j) o) eq.
Proof. intros H L1 L2 L. alg H L1 L2. apply (sample_calls c Ts W draw put i j n o L B'). Qed.
Example C45_sample_calls_ex lay : let E := dE lay in
  reach (dw lay) [dc lay; dx lay] [] /\ located (dc lay) (dfirst lay) 1 /\ located (dc lay) (dlast lay) 5 /\ 1 <= 5.
Proof. demo lay. Qed.

(** Every such selection is possible. *)
Theorem C45_every_selection {V} {E : Env V} w c g d Ts first last i j n sel o : reach w (c :: g) d ->
  located c first i -> located c last j -> i <= j -> selection sel (views c Ts i j) -> length sel = Nat.min n (j - i) ->
  exists G (gen : nat -> G -> nat * G) gs gs', (forall m gs, fst (gen m gs) <= m) /\
    forall out, pc_sample c Ts first last records n (draws gen) o (gs, out) = Ok (gs', out ++ number o sel) (o + length sel).
Proof.
  intros H L1 L2 L Hs Hl. alg H L1 L2. destruct (sample_any c Ts W i j n sel o L B' Hs Hl) as (gs & Q).
  exists (list nat), scripted, gs, []. split; auto. intros m l. cbn [scripted fst]. lia.
Qed.
Example C45_every_selection_ex lay : let E := dE lay in
  reach (dw lay) [dc lay; dx lay] [] /\ located (dc lay) (dfirst lay) 1 /\ located (dc lay) (dlast lay) 5 /\ 1 <= 5 /\ selection (views (dc lay) [] 2 3 ++ views (dc lay) [] 4 5) (views (dc lay) [] 1 5) /\
  length (views (dc lay) [] 2 3 ++ views (dc lay) [] 4 5) = Nat.min 2 (5 - 1).
Proof. cbv zeta. csplit; try (demo_fact lay). destruct lay; vm_compute; repeat constructor. Qed.

(** ** C46 is_partitioned, partition_point *)

Theorem C46_is_partitioned_calls {V} {E : Env V} w c g d Ts first last i j {S} p : reach w (c :: g) d ->
  located c first i -> located c last j -> i <= j ->
  same_as (S := S) (pc_is_partitioned c Ts first last p)
    (std_is_partitioned p (views c Ts i j)) eq.
Proof.
  intros H L1 L2 L. alg H L1 L2. apply (is_partitioned_ok c Ts W i j p L B').
Qed.
Example C46_is_partitioned_calls_ex lay : let E := dE lay in
  reach (dw lay) [dc lay; dx lay] [] /\ located (dc lay) (dfirst lay) 1 /\ located (dc lay) (dlast lay) 5 /\ 1 <= 5 /\
  pc_is_partitioned (dc lay) [] (dfirst lay) (dlast lay) (pure (fun x => val x <? 8)) tt = Ok tt true.
Proof. demo lay. Qed.

Theorem C46_is_partitioned {V} {E : Env V} w c g d Ts first last i j {S} p : reach w (c :: g) d ->
  located c first i -> located c last j -> i <= j ->
  yields (S := S) (pc_is_partitioned c Ts first last (pure p))
    (fun b => b = true <-> exists ts fs, views c Ts i j = ts ++ fs /\
               Forall (fun x => p x = true) ts /\ Forall (fun x => p x = false) fs).
Proof.
  intros H L1 L2 L. eapply yields_same; [eapply C46_is_partitioned_calls; eauto|apply pure_is_partitioned|]. intros a b -> K. exact K.
Qed.
Example C46_is_partitioned_ex lay : let E := dE lay in
  reach (dw lay) [dc lay; dx lay] [] /\ located (dc lay) (dfirst lay) 1 /\ located (dc lay) (dlast lay) 5 /\ 1 <= 5 /\
  pc_is_partitioned (dc lay) [] (dfirst lay) (dlast lay) (pure (big 6)) tt = Ok tt false.
Proof. demo lay. Qed.

(** On a partitioned range, the first element which does not satisfy the predicate. *)
Theorem C46_partition_point {V} {E : Env V} w c g d Ts first last i j {S} p ts fs : reach w (c :: g) d ->
  located c first i -> located c last j -> i <= j ->
  views c Ts i j = ts ++ fs ->
  Forall (fun x => p x = true) ts -> Forall (fun x => p x = false) fs ->
  yields (S := S) (pc_partition_point c Ts first last (pure p))
    (fun it => located c it (i + length ts)).
Proof.
  intros H L1 L2 L Hv Ft Ff. alg H L1 L2. assert (Hl := f_equal (@length _) Hv). rewrite views_length, app_length in Hl by auto.
  eapply yields_mono; [|apply (partition_point_ok c Ts W p i j ts fs L B' Hv Ft Ff)]. intros it ->. eapply unloc; [exact H|lia].
Qed.
Example C46_partition_point_ex lay : let E := dE lay in
  reach (dw lay) [dc lay; dx lay] [] /\ located (dc lay) (dfirst lay) 1 /\ located (dc lay) (dlast lay) 5 /\ 1 <= 5 /\
  views (dc lay) [] 1 5 = views (dc lay) [] 1 3 ++ views (dc lay) [] 3 5 /\
  Forall (fun x => (val x <? 8) = true) (views (dc lay) [] 1 3) /\ Forall (fun x => (val x <? 8) = false) (views (dc lay) [] 3 5).
Proof. cbv zeta. csplit; try (demo_fact lay); destruct lay; vm_compute; repeat constructor. Qed.

Print Assumptions C37_for_each.
Print Assumptions C37_for_each_n.
Print Assumptions C37_visits.
Print Assumptions C38_all_of.
Print Assumptions C38_any_of.
Print Assumptions C38_none_of.
Print Assumptions C38_count_if.
Print Assumptions C38_count.
Print Assumptions C38_values.
Print Assumptions C39_find_if.
Print Assumptions C39_find_if_not.
Print Assumptions C39_find.
Print Assumptions C39_find_first_of.
Print Assumptions C39_values.
Print Assumptions C40_adjacent_find_partial.
Print Assumptions C40_values_partial.
Print Assumptions C40_adjacent_find_refuted.
Print Assumptions C41_mismatch.
Print Assumptions C41_equal.
Print Assumptions C41_values.
Print Assumptions C42_is_permutation.
Print Assumptions C43_search.
Print Assumptions C43_find_end.
Print Assumptions C43_search_n.
Print Assumptions C44_copy.
Print Assumptions C44_copy_n.
Print Assumptions C44_copy_if.
Print Assumptions C44_transform.
Print Assumptions C44_transform_binary.
Print Assumptions C44_replace_copy_if.
Print Assumptions C44_replace_copy.
Print Assumptions C44_remove_copy_if.
Print Assumptions C44_remove_copy.
Print Assumptions C44_unique_copy.
Print Assumptions C44_rotate_copy.
Print Assumptions C44_partition_copy.
Print Assumptions C44_outputs.
Print Assumptions C44_transforms.
Print Assumptions C45_sample.
Print Assumptions C45_sample_calls.
Print Assumptions C45_every_selection.
Print Assumptions C46_is_partitioned_calls.
Print Assumptions C46_is_partitioned.
Print Assumptions C46_partition_point.
