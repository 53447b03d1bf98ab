(** * The calls which algorithms make (C70), and search, find_end, search_n, is_permutation,
    partition_point and adjacent_find with arbitrary function objects (C40, C42, C43, C46)

    As in Properties6.v, [c] is a collection in an arbitrary reachable state, [first] and [last] the
    iterators to its positions [i] and [j], and function objects run in the monad [M S]: they may have
    effects, throw, or be undefined.

    [calls m f D most Q] (SpecCalls.v): the algorithm [m], given [f], calls it only on arguments with
    [D] and, unless [f] is undefined on one of these, is not undefined; if it returns, the number of
    calls and the result are related by [Q]; if it throws, it does so after at most [most] calls, and
    what it throws is what the last of the calls has thrown. *)

From Coq Require Import List Arith Lia Bool Permutation.
From Verif Require Import Base Vec Backend Segment Coll StdAlg Algo Spec SpecAlg SpecCalls Reach ProofBase ProofBackend ProofSeg ProofMap ProofView
  ProofAlgo ProofAlgo2 ProofAlgo3 ProofAlgo4 ProofAlgo5 ProofAlgo6 ProofColl ProofReach ProofObs ProofProp ProofCalls ProofCalls2 ProofCalls3 Demo Properties6.
Import ListNotations.

(** ** The same calls as on a sequence *)

(** search, find_end, search_n, is_permutation and partition_point call the function object with the
    same arguments in the same order as the straightforward procedures of SpecCalls.v on the plain sequence. *)
Theorem C43_search_calls {V} {E : Env V} w c g d Ts first last i j {S} {Y} (p : view V -> Y -> M S bool) ys n q : reach w (c :: g) d ->
  located c first i -> located c last j -> i <= j ->
  same_as (S := S) (pc_search c Ts first last ys p) (std_search p ys (views c Ts i j)) (fun it k => located c it (i + k)) /\
  same_as (S := S) (pc_find_end c Ts first last ys p) (std_find_end p ys (views c Ts i j)) (fun it k => located c it (i + k)) /\
  same_as (S := S) (pc_search_n c Ts first last n q) (std_search_n n q (views c Ts i j)) (fun it k => located c it (i + k)).
Proof.
  intros H L1 L2 L. alg H L1 L2. csplit; (eapply same_mono; [|(apply (search_calls c Ts W p ys j B' i L) || apply (find_end_calls c Ts W p ys j B' i L) || apply (search_n_calls c Ts W q n i j L B'))]; at_off H).
Qed.
Example C43_search_calls_ex lay : let E := dE lay in
  reach (dw lay) [dc lay; dx lay] [] /\ located (dc lay) (dfirst lay) 1 /\ located (dc lay) (dlast lay) 5 /\ 1 <= 5 /\
  pc_search (dc lay) [] (dfirst lay) (dlast lay) [8; 9] (fun x y s => Ok (s ++ [(val x, y)]) (val x =? y)) [] =
    Ok [(6, 8); (7, 8); (8, 8); (9, 9)] (it_at (dc lay) 2 0) /\
  pc_find_end (dc lay) [] (dfirst lay) (dlast lay) [8; 9] (fun x y s => Ok (s ++ [(val x, y)]) (val x =? y)) [] =
    Ok [(6, 8); (7, 8); (8, 8); (9, 9); (9, 8)] (it_at (dc lay) 2 0) /\
  pc_search_n (dc lay) [] (dfirst lay) (dlast lay) 2 (fun x s => Ok (s ++ [val x]) (6 <? val x)) [] =
    Ok [6; 7; 8] (it_at (dc lay) 1 2).
Proof. demo lay. Qed.

Theorem C42_calls {V} {E : Env V} w c g d Ts first last i j {S} {Y} (p : view V -> view V + Y -> M S bool) bounded ys : reach w (c :: g) d ->
  located c first i -> located c last j -> i <= j ->
  same_as (S := S) (pc_is_permutation bounded c Ts first last ys p) (std_is_permutation bounded p (views c Ts i j) ys) eq.
Proof. intros H L1 L2 L. alg H L1 L2. apply (is_permutation_calls c Ts W p i j ys bounded L B'). Qed.
Example C42_calls_ex lay : let E := dE lay in let of z := match z with inl x => val x | inr y => y end in
  reach (dw lay) [dc lay; dx lay] [] /\ located (dc lay) (dfirst lay) 1 /\ located (dc lay) (dlast lay) 5 /\ 1 <= 5 /\
  pc_is_permutation true (dc lay) [] (dfirst lay) (dlast lay) [6; 7; 9; 8] (fun x z s => Ok (s ++ [(val x, of z)]) (val x =? of z)) [] =
    Ok [(6, 6); (7, 7); (8, 9); (8, 9); (8, 8); (8, 8); (8, 9); (9, 8); (9, 9); (9, 8); (9, 9)] true.
Proof. demo lay. Qed.

Theorem C46_partition_point_calls {V} {E : Env V} w c g d Ts first last i j {S} p : reach w (c :: g) d ->
  located c first i -> located c last j -> i <= j ->
  same_as (S := S) (pc_partition_point c Ts first last p) (std_partition_point p (views c Ts i j)) (fun it k => located c it (i + k)).
Proof. intros H L1 L2 L. alg H L1 L2. eapply same_mono; [|apply (partition_point_calls c Ts W p i j L B')]. at_off H. Qed.
Example C46_partition_point_calls_ex lay : let E := dE lay in
  reach (dw lay) [dc lay; dx lay] [] /\ located (dc lay) (dfirst lay) 1 /\ located (dc lay) (dlast lay) 5 /\ 1 <= 5 /\
  pc_partition_point (dc lay) [] (dfirst lay) (dlast lay) (fun x s => Ok (s ++ [val x]) (val x <? 8)) [] = Ok [8; 7] (it_at (dc lay) 2 0).
Proof. demo lay. Qed.

(** adjacent_find, whatever the predicate does with the type its first argument is passed as: where
    the two elements are of different types, it is value_type.  (Missing: adjacent storage, see
    C40_adjacent_find_refuted.) *)
Theorem C40_across_partial {V} {E : Env V} w c g d Ts first last i j {S} p : reach w (c :: g) d ->
  located c first i -> located c last j -> i <= j -> env_layout = SplitLayout \/ separate c ->
  same_as (S := S) (pc_adjacent_find c Ts first last p) (std_adjacent_find (across p) (views c Ts i j)) (fun it k => located c it (i + k)).
Proof.
  intros H L1 L2 L Ap. destruct (reach_wf w c g d H) as (Wc & _). assert (ND : NoDup (map n_ty (c_nodes c))) by apply Wc. alg H L1 L2.
  eapply same_mono; [|apply (adjacent_find_calls c Ts W p ND i j (apart_of _ _ _ _ H Ap) L B')]. at_off H.
Qed.
Example C40_across_partial_ex lay : let E := dE lay in
  reach (dw lay) [dc lay; dx lay] [] /\ located (dc lay) (dfirst lay) 1 /\ located (dc lay) (dlast lay) 5 /\ 1 <= 5 /\
  separate (dc lay) /\
  pc_adjacent_find (dc lay) [1; 2] (dfirst lay) (dlast lay) (fun x y s => Ok (s ++ [(fst x, val x, fst y, val y)]) false) [] =
    Ok [(Some 1, 6, Some 1, 7); (None, 7, Some 2, 8); (Some 2, 8, Some 2, 9)] (dlast lay).
Proof. demo lay. Qed.

(** ** C70 *)

Section Tactics.
Context {V : Type} {E : Env V} {S : Type}.
Lemma once_all {A} T (f : view V -> M S A) (l : list (view V)) : (forall x s, In x l -> f x s <> UB) ->
  Forall (fun x => once T f (fun x => In x l) (logged f x)) l.
Proof. intros H. apply Forall_forall. intros x Hx. apply once_logged; auto. Qed.
Lemma once_pairs {A X Y} T (f : X -> Y -> M S A) (D : X * Y -> Prop) : (forall x s, D x -> both f x s <> UB) ->
  forall x y, D (x, y) -> once T (both f) D (apiece (logged (both f)) x y).
Proof. intros H x y Hx. apply once_logged; auto. Qed.
Lemma never_pairs {A X Y Z B} (T : S -> exn -> Prop) (f : Z -> M S A) D (h : X -> Y -> M S B) : (forall x s, both h x s <> UB) ->
  (forall s e, throws (both h) s e -> T s e) -> forall x y, never T f D (apiece (unlogged (both h)) x y).
Proof. intros H Ht x y. apply never_unlogged; auto. intros s s' e Q. apply Ht. exists (x, y), s. auto. Qed.
End Tactics.
Ltac len B' := match type of B' with ?j <= tot (c_nodes ?c) => match goal with Ts : list tyid, i : nat |- context [j - ?i] => rewrite <- (views_length c Ts i j B') end end.
Ltac calling := apply made_calls; let Hf := fresh "Hf" in intros Hf.
(** an iterator at the position which the algorithm on the sequence gives *)
Ltac placed := let k := fresh "k" in let it := fresh "it" in let r := fresh "r" in let Hl := fresh "Hl" in let Hk := fresh "Hk" in
  cbn beta; intros k it r Hl Hk; exists r; split; [exact Hl|tauto].

(** for_each and for_each_n call the function once for each element of the range. *)
Theorem C70_for_each {V} {E : Env V} w c g d Ts first last i j n {S} (f : view V -> M S unit) : reach w (c :: g) d ->
  located c first i -> located c last j -> i <= j -> i + n <= length (flat c) ->
  calls (pc_for_each c Ts first last) f (fun x => In x (views c Ts i j)) (j - i) (fun k _ => k = j - i) /\
  calls (pc_for_each_n c Ts first n) f (fun x => In x (views c Ts i (i + n))) n (fun k it => k = n /\ located c it (i + n)).
Proof.
  intros H L1 L2 L Ln. destruct (loc _ _ _ _ _ _ H L2) as [_ B]. split.
  - len B. calling. eapply made_same; [eapply C37_for_each; eauto|apply made_for_each, once_all; auto|]. auto.
  - rewrite <- refs_flat, map_length, refs_length in Ln.
    assert (Lv : length (views c Ts i (i + n)) = n) by (rewrite views_length; lia).
    calling. eapply made_mono with (h1 := length (views c Ts i (i + n))); [|lia|intros k a Q; exact Q].
    eapply made_same; [eapply C37_for_each_n; eauto|apply made_for_each, once_all; auto|].
    + rewrite <- refs_flat, map_length, refs_length. auto.
    + cbn beta. rewrite Lv. auto.
Qed.
(** what is written down by a function object with the state [s] *)
Definition wrote_down {S X A} (s : S) (m : M (S * list X) A) : list X :=
  match m (s, []) with Ok (_, log) _ => log | Exn (_, log) _ => log | UB => [] end.
Example C70_for_each_ex lay : let E := dE lay in
  reach (dw lay) [dc lay; dx lay] [] /\ located (dc lay) (dfirst lay) 1 /\ located (dc lay) (dlast lay) 5 /\ 1 <= 5 /\ 1 + 3 <= length (flat (dc lay)) /\
  map val (wrote_down 0 (pc_for_each (dc lay) [] (dfirst lay) (dlast lay) (logged (fun x s => Ok (s + val x) tt)))) = [6; 7; 8; 9] /\
  map val (wrote_down 0 (pc_for_each_n (dc lay) [] (dfirst lay) 3 (logged (fun x s => if val x =? 7 then Exn s UserExn else Ok (s + val x) tt)))) = [6; 7].
Proof. demo lay. Qed.

(** The algorithms with one predicate.  Those which look for the first element with some property
    call it for the elements up to this one. *)
Theorem C70_predicates {V} {E : Env V} w c g d Ts first last i j n {S} (p : view V -> M S bool) : reach w (c :: g) d ->
  located c first i -> located c last j -> i <= j ->
  let D x := In x (views c Ts i j) in
  calls (pc_all_of c Ts first last) p D (j - i) (fun k b => k <= j - i /\ (b = true -> k = j - i)) /\
  calls (pc_any_of c Ts first last) p D (j - i) (fun k b => k <= j - i /\ (b = false -> k = j - i)) /\
  calls (pc_none_of c Ts first last) p D (j - i) (fun k b => k <= j - i /\ (b = true -> k = j - i)) /\
  calls (pc_find_if c Ts first last) p D (j - i) (fun k it => exists r, located c it (i + r) /\ k = Nat.min (1 + r) (j - i)) /\
  calls (pc_find_if_not c Ts first last) p D (j - i) (fun k it => exists r, located c it (i + r) /\ k = Nat.min (1 + r) (j - i)) /\
  calls (pc_count_if c Ts first last) p D (j - i) (fun k r => k = j - i) /\
  calls (pc_is_partitioned c Ts first last) p D (j - i) (fun k _ => k <= j - i) /\
  calls (pc_search_n c Ts first last n) p D (j - i) (fun k _ => k <= j - i) /\
  calls (pc_partition_point c Ts first last) p D (1 + Nat.log2 (j - i)) (fun k _ => k <= 1 + Nat.log2 (j - i) /\ (i = j -> k = 0)).
Proof.
  intros H L1 L2 L D. destruct (loc _ _ _ _ _ _ H L2) as [_ B]. csplit.
  - len B. calling. eapply made_same; [eapply C38_all_of; eauto|apply made_all_of, once_all; auto|]. intros k a b ->. auto.
  - len B. calling. eapply made_same; [eapply C38_any_of; eauto|apply made_any_of, once_all; auto|]. intros k a b ->. auto.
  - len B. calling. eapply made_same; [eapply C38_none_of; eauto|apply made_none_of, once_all; auto|]. intros k a b ->. auto.
  - len B. calling. eapply made_same; [eapply C39_find_if; eauto|apply made_find_if, once_all; auto|]. placed.
  - len B. calling. eapply made_same; [eapply C39_find_if_not; eauto|apply made_find_if_not, once_all; auto|]. placed.
  - len B. calling. eapply made_same; [eapply C38_count_if; eauto|apply made_count_if, once_all; auto|]. cbn beta. tauto.
  - len B. calling. eapply made_same; [eapply C46_is_partitioned_calls; eauto|apply made_is_partitioned, once_all; auto|]. auto.
  - len B. calling. eapply made_same; [eapply (C43_search_calls (Y := unit) w c g d Ts first last i j (fun _ _ => ret true) [] n); eauto|apply made_search_n, once_all; auto|]. auto.
  - calling. assert (Lv := views_length c Ts i j B).
    assert (Hb : bis (length (views c Ts i j)) <= 1 + Nat.log2 (j - i)) by (rewrite Lv; unfold bis; destruct (_ =? _); lia).
    eapply made_mono with (h1 := bis (length (views c Ts i j))); [|exact Hb|intros k a Q; exact Q].
    eapply made_same; [eapply C46_partition_point_calls; eauto|apply made_partition_point, once_all; auto|]. cbn beta. intros k a b _ Hk. split; [lia|].
    intros ->. rewrite Lv, Nat.sub_diag in Hk. unfold bis in Hk. simpl in Hk. lia.
Qed.
Example C70_predicates_ex lay : let E := dE lay in
  let p x s := if val x =? 9 then Exn s UserExn else Ok (s + 1) (val x <? 8) in
  reach (dw lay) [dc lay; dx lay] [] /\ located (dc lay) (dfirst lay) 1 /\ located (dc lay) (dlast lay) 5 /\ 1 <= 5 /\
  (forall x (s : nat), In x (views (dc lay) [] 1 5) -> p x s <> UB) /\
  map val (wrote_down 0 (pc_all_of (dc lay) [] (dfirst lay) (dlast lay) (logged p))) = [6; 7; 8] /\
  map val (wrote_down 0 (pc_any_of (dc lay) [] (dfirst lay) (dlast lay) (logged p))) = [6] /\
  map val (wrote_down 0 (pc_count_if (dc lay) [] (dfirst lay) (dlast lay) (logged p))) = [6; 7; 8; 9] /\
  pc_count_if (dc lay) [] (dfirst lay) (dlast lay) p 0 = Exn 3 UserExn.
Proof. cbv zeta. csplit; try (demo_fact lay). intros x s _. destruct (val x =? 9); discriminate. Qed.

(** find and count call operator== with the element and the given value; the algorithms with two
    ranges call the predicate with an element of either. *)
Theorem C70_two_ranges {V} {E : Env V} w c g d Ts first last i j bounded {S Y} (p : view V -> Y -> M S bool) y ys : reach w (c :: g) d ->
  located c first i -> located c last j -> i <= j -> (bounded = false -> j - i <= length ys) ->
  let D xy := In (fst xy) (views c Ts i j) /\ In (snd xy) ys in
  let Dy xy := In (fst xy) (views c Ts i j) /\ snd xy = y in
  calls (fun q => pc_find c Ts first last (apiece q) y) (both p) Dy (j - i) (fun k it => exists r, located c it (i + r) /\ k = Nat.min (1 + r) (j - i)) /\
  calls (fun q => pc_count c Ts first last (apiece q) y) (both p) Dy (j - i) (fun k r => k = j - i) /\
  calls (fun q => pc_find_first_of c Ts first last (apiece q) ys) (both p) D ((j - i) * length ys) (fun k _ => k <= (j - i) * length ys) /\
  calls (fun q => pc_mismatch bounded c Ts first last ys (apiece q)) (both p) D (Nat.min (j - i) (length ys))
    (fun k r => k = Nat.min (1 + snd r) (Nat.min (j - i) (length ys))) /\
  calls (fun q => pc_equal bounded c Ts first last ys (apiece q)) (both p) D (Nat.min (j - i) (length ys))
    (fun k b => k <= Nat.min (j - i) (length ys) /\ (b = true -> k = j - i)) /\
  calls (fun q => pc_search c Ts first last ys (apiece q)) (both p) D ((j - i) * length ys) (fun k _ => k <= (j - i) * length ys) /\
  calls (fun q => pc_find_end c Ts first last ys (apiece q)) (both p) D ((j - i) * length ys) (fun k _ => k <= (j - i) * length ys).
Proof.
  intros H L1 L2 L Hb D Dy. destruct (loc _ _ _ _ _ _ H L2) as [_ B]. csplit.
  - len B. calling. eapply made_same; [eapply C39_find; eauto|apply made_find_if; apply Forall_forall; intros x Hx; apply once_pairs; auto|].
    + split; auto.
    + placed.
  - len B. calling. eapply made_same; [eapply C38_count; eauto|apply made_count_if; apply Forall_forall; intros x Hx; apply once_pairs; auto|].
    + split; auto.
    + cbn beta. tauto.
  - len B. calling. eapply made_same; [eapply C39_find_first_of; eauto|apply made_find_first_of; intros x z Hx Hz; apply once_pairs; auto; split; auto|]. auto.
  - assert (Lv := views_length c Ts i j B). calling. destruct bounded.
    + eapply made_mono with (h1 := Nat.min (length (views c Ts i j)) (length ys)); [|lia|intros k a Q; exact Q].
      eapply made_same; [eapply (C41_mismatch w c g d Ts first last i j true); eauto|apply made_mismatch_to; intros x z Hx Hz; apply once_pairs; auto; split; auto|].
      cbn beta. intros k a b [_ ->] [Hk _]. lia.
    + assert (Ly := Hb eq_refl). eapply made_mono with (h1 := length (views c Ts i j)); [|lia|intros k a Q; exact Q].
      eapply made_same; [eapply (C41_mismatch w c g d Ts first last i j false); eauto|apply made_mismatch; [intros x z Hx Hz; apply once_pairs; auto; split; auto|lia]|].
      cbn beta. intros k a b [_ ->] [Hk _]. lia.
  - assert (Lv := views_length c Ts i j B). calling. destruct bounded.
    + eapply made_mono with (h1 := Nat.min (length (views c Ts i j)) (length ys)); [|lia|intros k a Q; exact Q].
      eapply made_same; [eapply (C41_equal w c g d Ts first last i j true); eauto|apply made_equal_to; intros x z Hx Hz; apply once_pairs; auto; split; auto|].
      cbn beta. intros k a b -> [Hk H1]. split; [lia|]. intros Q. destruct (H1 Q). lia.
    + assert (Ly := Hb eq_refl). eapply made_mono with (h1 := length (views c Ts i j)); [|lia|intros k a Q; exact Q].
      eapply made_same; [eapply (C41_equal w c g d Ts first last i j false); eauto|apply made_equal; [intros x z Hx Hz; apply once_pairs; auto; split; auto|lia]|].
      cbn beta. intros k a b -> [Hk H1]. split; [lia|]. intros Q. rewrite H1; auto.
  - len B. calling. eapply made_same; [eapply (C43_search_calls w c g d Ts first last i j _ ys 0 (fun _ => ret true)); eauto|apply made_search; intros x z Hx Hz; apply once_pairs; auto; split; auto|]. auto.
  - len B. calling. eapply made_same; [eapply (C43_search_calls w c g d Ts first last i j _ ys 0 (fun _ => ret true)); eauto|apply made_find_end; intros x z Hx Hz; apply once_pairs; auto; split; auto|]. auto.
Qed.
Example C70_two_ranges_ex lay : let E := dE lay in
  let p x y s := if y =? 9 then Exn s UserExn else Ok (s + 1) (val x =? y) in
  let pairs := map (fun xy : view nat * nat => (val (fst xy), snd xy)) in
  reach (dw lay) [dc lay; dx lay] [] /\ located (dc lay) (dfirst lay) 1 /\ located (dc lay) (dlast lay) 5 /\ 1 <= 5 /\
  (forall xy (s : nat), both p xy s <> UB) /\ 5 - 1 <= length [6; 7; 9; 8] /\
  pairs (wrote_down 0 (pc_find (dc lay) [] (dfirst lay) (dlast lay) (apiece (logged (both p))) 8)) = [(6, 8); (7, 8); (8, 8)] /\
  pairs (wrote_down 0 (pc_mismatch false (dc lay) [] (dfirst lay) (dlast lay) [6; 7; 9; 8] (apiece (logged (both p))))) = [(6, 6); (7, 7); (8, 9)] /\
  pairs (wrote_down 0 (pc_search (dc lay) [] (dfirst lay) (dlast lay) [7; 8] (apiece (logged (both p))))) = [(6, 7); (7, 7); (8, 8)].
Proof. cbv zeta. csplit; try (demo_fact lay). intros x s. unfold both. destruct (snd x =? 9); discriminate. Qed.

(** For find_end the standard says: at most m * (n - m + 1) comparisons, n and m being the lengths of
    the two ranges.  This does not hold: it also compares where not enough elements are left for a
    match.  Here it makes 18 comparisons instead of 12. *)
Theorem C70_find_end_refuted : exists (E : Env nat) w c ys (p : view nat -> nat -> bool),
  reach w [c; dx PackedLayout] [] /\ length (flat c) = 6 /\ length ys = 4 /\
  length ys * (length (flat c) - length ys + 1) = 12 /\
  length (wrote_down tt (pc_find_end c [] (c_begin c) (c_end c) ys (apiece (logged (both (pure2 p)))))) = 18.
Proof.
  exists (dE PackedLayout), (dw PackedLayout), (dc PackedLayout), [0; 0; 0; 0], (fun _ _ => true). csplit; try (vm_compute; reflexivity).
  demo_fact PackedLayout.
Qed.

(** is_permutation calls the predicate with an element of the collection and an element of either range;
    at most a quadratic number of times, and a linear number if the ranges differ in length. *)
Theorem C70_is_permutation {V} {E : Env V} w c g d Ts first last i j {S Y} (p : view V -> view V + Y -> M S bool) ys : reach w (c :: g) d ->
  located c first i -> located c last j -> i <= j ->
  let n := j - i in
  let D xz := In (fst xz) (views c Ts i j) /\ In (snd xz) (map inl (views c Ts i j) ++ map inr ys) in
  calls (fun q => pc_is_permutation true c Ts first last ys (apiece q)) (both p) D (n + 2 * (n * n))
    (fun k b => k <= n + 2 * (n * n) /\ (n <> length ys -> k <= Nat.min n (length ys) /\ b = false)) /\
  (n <= length ys ->
   calls (fun q => pc_is_permutation false c Ts first last ys (apiece q)) (both p) D (n + 2 * (n * n)) (fun k b => k <= n + 2 * (n * n))).
Proof.
  intros H L1 L2 L n D. destruct (loc _ _ _ _ _ _ H L2) as [_ B]. assert (Lv := views_length c Ts i j B). subst n. split; [|intros Ly]; rewrite <- Lv in *.
  - calling. eapply made_same; [eapply C42_calls; eauto|apply made_is_permutation_to; intros x z Hx Hz; apply once_pairs; auto; split; auto|]. intros k a b ->. auto.
  - calling. eapply made_same; [eapply C42_calls; eauto|apply made_is_permutation; [intros x z Hx Hz; apply once_pairs; auto; split; auto|auto]|]. intros k a b ->. auto.
Qed.
Example C70_is_permutation_ex lay : let E := dE lay in
  let p x (z : view nat + nat) (s : unit) := Ok s (val x =? match z with inl x => val x | inr y => y end) in
  reach (dw lay) [dc lay; dx lay] [] /\ located (dc lay) (dfirst lay) 1 /\ located (dc lay) (dlast lay) 5 /\ 1 <= 5 /\
  (forall xz s, both p xz s <> UB) /\ 5 - 1 <= length [6; 7; 9; 8; 1] /\
  length (wrote_down tt (pc_is_permutation true (dc lay) [] (dfirst lay) (dlast lay) [6; 7; 9; 8] (apiece (logged (both p))))) = 11 /\
  length (wrote_down tt (pc_is_permutation true (dc lay) [] (dfirst lay) (dlast lay) [6; 7; 9; 8; 1] (apiece (logged (both p))))) = 3 /\
  length (wrote_down tt (pc_is_permutation false (dc lay) [] (dfirst lay) (dlast lay) [6; 7; 9; 8; 1] (apiece (logged (both p))))) = 11.
Proof. cbv zeta. csplit; try (demo_fact lay). Qed.

(** adjacent_find compares at most n-1 times; the first argument of the predicate may be passed as value_type. *)
Theorem C70_adjacent_find {V} {E : Env V} w c g d Ts first last i j {S} (p : view V -> view V -> M S bool) : reach w (c :: g) d ->
  located c first i -> located c last j -> i <= j ->
  calls (fun q => pc_adjacent_find c Ts first last (apiece q)) (both p)
    (fun xy => In (fst xy) (views c Ts i j ++ views c [] i j) /\ In (snd xy) (views c Ts i j)) (j - i - 1) (fun k _ => k <= j - i - 1).
Proof.
  intros H L1 L2 L. alg H L1 L2. calling. apply (adjacent_find_made c Ts W); auto. intros x y Hx Hy. apply once_pairs; auto.
Qed.
Example C70_adjacent_find_ex lay : let E := dE lay in
  let p (x y : view nat) (s : nat) := Ok (s + 1) false in
  reach (dw lay) [dc lay; dx lay] [] /\ located (dc lay) (dfirst lay) 1 /\ located (dc lay) (dlast lay) 5 /\ 1 <= 5 /\
  (forall xy s, both p xy s <> UB) /\
  map (fun xy : view nat * view nat => (val (fst xy), val (snd xy))) (wrote_down 0 (pc_adjacent_find (dc lay) [] (dfirst lay) (dlast lay) (apiece (logged (both p))))) =
    [(6, 7); (7, 8); (8, 9)].
Proof. cbv zeta. csplit; try (demo_fact lay). Qed.

(** Each element is compared with the next, up to the first match.  (Missing: adjacent storage, as in C40.) *)
Theorem C70_adjacent_find_partial {V} {E : Env V} w c g d Ts first last i j {S} (p : view V -> view V -> M S bool) : reach w (c :: g) d ->
  located c first i -> located c last j -> i <= j -> env_layout = SplitLayout \/ separate c ->
  calls (fun q => pc_adjacent_find c Ts first last (apiece q)) (both p) (consecutive (views c Ts i j)) (j - i - 1)
    (fun k it => exists r, located c it (i + r) /\ k = Nat.min (1 + r) (j - i - 1)).
Proof.
  intros H L1 L2 L Ap. destruct (loc _ _ _ _ _ _ H L2) as [_ B]. len B. calling.
  eapply made_same; [eapply C40_across_partial; eauto|apply made_adjacent_find|placed].
  intros k x y Hx Hy. unfold across. destruct (_ =? _); apply once_pairs; auto; exists k, x; auto.
Qed.
Example C70_adjacent_find_partial_ex lay : let E := dE lay in
  let p x y (s : nat) := Ok (s + 1) (val x + val y =? 15) in
  reach (dw lay) [dc lay; dx lay] [] /\ located (dc lay) (dfirst lay) 1 /\ located (dc lay) (dlast lay) 5 /\ 1 <= 5 /\ separate (dc lay) /\
  (forall xy s, both p xy s <> UB) /\
  map (fun xy : view nat * view nat => (val (fst xy), val (snd xy))) (wrote_down 0 (pc_adjacent_find (dc lay) [1] (dfirst lay) (dlast lay) (apiece (logged (both p))))) =
    [(6, 7); (7, 8)].
Proof. cbv zeta. csplit; try (demo_fact lay). Qed.

(** The algorithms which write: the predicate or operation is called once for each element
    (unique_copy: for each but the first), whatever else there is to call. *)
Theorem C70_copying {V} {E : Env V} w c g d Ts first last i j {S O N} (p : view V -> M S bool) (p2 : view V -> view V -> M S bool) (op : view V -> M S O)
  (put put' : nat -> view V -> M S unit) (puto : nat -> O -> M S unit) (putn : nat -> N + view V -> M S unit) (new : N) o oo : reach w (c :: g) d ->
  located c first i -> located c last j -> i <= j ->
  (forall x s, both put x s <> UB) -> (forall x s, both put' x s <> UB) -> (forall x s, both puto x s <> UB) -> (forall x s, both putn x s <> UB) ->
  let D x := In x (views c Ts i j) in
  let out {X A} (h : X -> M S A) : X -> M (S * list (view V)) A := unlogged h in
  calls_among (throws (both put)) (fun q => pc_copy_if c Ts first last (apiece (out (both put))) q o) p D (j - i) (fun k _ => k = j - i) /\
  calls_among (throws (both put)) (fun q => pc_remove_copy_if c Ts first last (apiece (out (both put))) q o) p D (j - i) (fun k _ => k = j - i) /\
  calls_among (throws (both putn)) (fun q => pc_replace_copy_if c Ts first last (apiece (out (both putn))) q new o) p D (j - i) (fun k _ => k = j - i) /\
  calls_among (fun s e => throws (both put) s e \/ throws (both put') s e)
    (fun q => pc_partition_copy c Ts first last (apiece (out (both put))) (apiece (out (both put'))) q oo) p D (j - i) (fun k _ => k = j - i) /\
  calls_among (throws (both puto)) (fun q => pc_transform c Ts first last (apiece (out (both puto))) q o) op D (j - i) (fun k _ => k = j - i) /\
  calls_among (throws (both put)) (fun q => pc_unique_copy c Ts first last (apiece (unlogged (both put))) (apiece q) o) (both p2)
    (fun xy => In (fst xy) (views c Ts i j ++ views c [] i j) /\ In (snd xy) (views c Ts i j)) (j - i - 1) (fun k _ => k = j - i - 1).
Proof.
  intros H L1 L2 L U1 U2 U3 U4 D out. destruct (loc _ _ _ _ _ _ H L2) as [_ B]. csplit.
  - len B. calling. eapply made_same; [eapply C44_copy_if; eauto|apply made_copy_if; [apply once_all; auto|intros; apply never_pairs; auto]|]. auto.
  - len B. calling. eapply made_same; [eapply C44_remove_copy_if; eauto|apply made_remove_copy_if; [apply once_all; auto|intros; apply never_pairs; auto]|]. auto.
  - len B. calling. eapply made_same; [eapply C44_replace_copy_if; eauto|apply made_replace_copy_if; [apply once_all; auto|intros; apply never_pairs; auto]|]. auto.
  - len B. calling. eapply made_same; [eapply C44_partition_copy; eauto|apply made_partition_copy; [apply once_all; auto|intros; apply never_pairs; auto|intros; apply never_pairs; auto]|]. auto.
  - len B. calling. eapply made_same; [eapply C44_transform; eauto|apply made_transform; [apply once_all; auto|intros; apply never_pairs; auto]|]. auto.
  - alg H L1 L2. calling. apply (unique_copy_made c Ts W); auto.
    + intros x y Hx Hy. apply once_pairs; auto.
    + intros o' x Hx. apply never_pairs; auto.
Qed.
Example C70_copying_ex lay : let E := dE lay in
  let put o (x : view nat) s := if o =? 9 then Exn s LengthError else Ok (s + 1) tt in
  let p x s := Ok (s + 10) (val x <? 8) in
  let p2 x y s := Ok (s + 10) (val x <? val y) in
  reach (dw lay) [dc lay; dx lay] [] /\ located (dc lay) (dfirst lay) 1 /\ located (dc lay) (dlast lay) 5 /\ 1 <= 5 /\
  (forall x (s : nat), both put x s <> UB) /\ (forall x (s : nat), p x s <> UB) /\ (forall xy (s : nat), both p2 xy s <> UB) /\
  map val (wrote_down 0 (pc_copy_if (dc lay) [] (dfirst lay) (dlast lay) (apiece (unlogged (both put))) (logged p) 5)) = [6; 7; 8; 9] /\
  map val (wrote_down 0 (pc_copy_if (dc lay) [] (dfirst lay) (dlast lay) (apiece (unlogged (both put))) (logged p) 8)) = [6; 7] /\
  pc_copy_if (dc lay) [] (dfirst lay) (dlast lay) put p 8 0 = Exn 21 LengthError /\
  map (fun xy : view nat * view nat => (val (fst xy), val (snd xy)))
    (wrote_down 0 (pc_unique_copy (dc lay) [] (dfirst lay) (dlast lay) (apiece (unlogged (both put))) (apiece (logged (both p2))) 5)) = [(6, 7); (7, 8); (7, 9)].
Proof.
  cbv zeta. csplit; try (demo_fact lay); intros x s; unfold both; try discriminate. destruct (fst x =? 9); discriminate.
Qed.

(** One write for each step of the output iterator, of an element of the range; copy, copy_n and transform
    write one for each element. *)
Theorem C70_writing {V} {E : Env V} w c g d Ts first last i j n {S O} (p : view V -> M S bool) (op : view V -> M S O)
  (put : nat -> view V -> M S unit) (puto : nat -> O -> M S unit) o : reach w (c :: g) d ->
  located c first i -> located c last j -> i <= j -> i + n <= length (flat c) ->
  (forall x s, p x s <> UB) -> (forall x s, op x s <> UB) ->
  let D ox := In (snd ox) (views c Ts i j) in
  let aside {X Y A} (h : X -> M S A) : X -> M (S * list (nat * Y)) A := unlogged h in
  calls (fun q => pc_copy c Ts first last (apiece q) o) (both put) D (j - i) (fun k o' => k = j - i /\ o' = o + k) /\
  calls (fun q => pc_copy_n c Ts first n (apiece q) o) (both put) (fun ox => In (snd ox) (views c Ts i (i + n))) n (fun k o' => k = n /\ o' = o + k) /\
  calls_among (throws p) (fun q => pc_copy_if c Ts first last (apiece q) (aside p) o) (both put) D (j - i) (fun k o' => k <= j - i /\ o' = o + k) /\
  calls_among (throws p) (fun q => pc_remove_copy_if c Ts first last (apiece q) (aside p) o) (both put) D (j - i) (fun k o' => k <= j - i /\ o' = o + k) /\
  calls_among (throws op) (fun q => pc_transform c Ts first last (apiece q) (aside op) o) (both puto) (fun _ => True) (j - i) (fun k o' => k = j - i /\ o' = o + k).
Proof.
  intros H L1 L2 L Ln U1 U2 D aside. destruct (loc _ _ _ _ _ _ H L2) as [_ B].
  assert (Nv : forall X A Y (T : S -> exn -> Prop) (f : nat * Y -> M S unit) D (h : X -> M S A) x, (forall x s, h x s <> UB) -> (forall s e, throws h s e -> T s e) -> never T f D (aside X Y A h x)).
  { intros X A Y T f D' h x U Ht. apply never_unlogged; auto. intros s s' e Q. apply Ht. exists x, s. auto. }
  csplit.
  - len B. calling. eapply made_same; [eapply C44_copy; eauto|apply made_copy; intros o' x Hx; apply once_pairs; auto|]. intros k a b ->. auto.
  - assert (Ln' := Ln). rewrite <- refs_flat, map_length, refs_length in Ln'. assert (Lv := views_length c Ts i (i + n) Ln').
    replace (i + n - i) with n in Lv by lia. calling. eapply made_mono with (h1 := length (views c Ts i (i + n))); [|lia|intros k a Q; exact Q].
    eapply made_same; [eapply C44_copy_n; eauto|apply made_copy; intros o' x Hx; apply once_pairs; auto|]. intros k a b -> [Hk Hb]. lia.
  - len B. calling. eapply made_same; [eapply C44_copy_if; eauto|apply made_put_copy_if; [intros; apply Nv; auto|intros o' x Hx; apply once_pairs; auto]|]. intros k a b ->. auto.
  - len B. calling. eapply made_same; [eapply C44_remove_copy_if; eauto|apply made_put_remove_copy_if; [intros; apply Nv; auto|intros o' x Hx; apply once_pairs; auto]|]. intros k a b ->. auto.
  - len B. calling. eapply made_same; [eapply C44_transform; eauto|apply made_put_transform; [intros; apply Nv; auto|intros o' x; apply once_pairs; auto]|]. intros k a b ->. auto.
Qed.
Example C70_writing_ex lay : let E := dE lay in
  let put o (x : view nat) s := if o =? 9 then Exn s LengthError else Ok (s + 1) tt in
  let p x s := Ok (s + 10) (val x <? 8) in
  reach (dw lay) [dc lay; dx lay] [] /\ located (dc lay) (dfirst lay) 1 /\ located (dc lay) (dlast lay) 5 /\ 1 <= 5 /\ 1 + 3 <= length (flat (dc lay)) /\
  (forall x (s : nat), both put x s <> UB) /\ (forall x (s : nat), p x s <> UB) /\
  map (fun ox : nat * view nat => (fst ox, val (snd ox))) (wrote_down 0 (pc_copy (dc lay) [] (dfirst lay) (dlast lay) (apiece (logged (both put))) 2)) = [(2, 6); (3, 7); (4, 8); (5, 9)] /\
  map (fun ox : nat * view nat => (fst ox, val (snd ox))) (wrote_down 0 (pc_copy_if (dc lay) [] (dfirst lay) (dlast lay) (apiece (logged (both put))) (unlogged p) 8)) = [(8, 6); (9, 7)].
Proof.
  cbv zeta. csplit; try (demo_fact lay); intros x s; unfold both; try discriminate. destruct (fst x =? 9); discriminate.
Qed.

Print Assumptions C43_search_calls.
Print Assumptions C42_calls.
Print Assumptions C46_partition_point_calls.
Print Assumptions C40_across_partial.
Print Assumptions C70_for_each.
Print Assumptions C70_predicates.
Print Assumptions C70_two_ranges.
Print Assumptions C70_find_end_refuted.
Print Assumptions C70_is_permutation.
Print Assumptions C70_adjacent_find.
Print Assumptions C70_adjacent_find_partial.
Print Assumptions C70_copying.
Print Assumptions C70_writing.
