(** * C85: a call of insert means what its arguments say *)

From Coq Require Import List Arith Bool Lia.
From Verif Require Import Base Vec Backend Segment Coll Types Overload SpecOver.
Import ListNotations.

Section Helpers.
Context (L : lang) (k : model) (N : names).

Lemma insertable_eq ct : insertable L k ct <-> is_implementation L k ct = true.
Proof. destruct k; cbn; tauto. Qed.
Lemma alike_eq ct : alike L k ct <-> is_terminal L k ct = true.
Proof. destruct k; cbn; [tauto| |]; destruct ct as [|t [] ? ? ?|]; cbn; intuition (auto; discriminate). Qed.
Lemma insertable_not ct : ~ insertable L k ct <-> is_implementation L k ct = false.
Proof. rewrite insertable_eq. destruct (is_implementation L k ct); intuition congruence. Qed.
Lemma same_aty_eq a b : one_type a b -> (same_aty a b = true <-> a = b).
Proof.
  intros O. destruct a as [x|[t|] x|c v h p], b as [y|[u|] y|d w i q]; cbn in *; try (split; congruence).
  - rewrite Bool.eqb_true_iff. intuition congruence.
  - rewrite andb_true_iff, Nat.eqb_eq, Bool.eqb_true_iff. intuition congruence.
  - rewrite Bool.eqb_true_iff. intuition congruence.
  - rewrite Nat.eqb_eq. split; [apply O|]. congruence.
Qed.
Lemma same_aty_refl a : same_aty a a = true.
Proof. destruct a as [x|[t|] x|c v h p]; cbn; rewrite ?Nat.eqb_refl, ?Bool.eqb_reflx; reflexivity. Qed.
Lemma same_aty_not a b : one_type a b -> (same_aty a b = false <-> a <> b).
Proof. intros O. rewrite <- (same_aty_eq a b O). destruct (same_aty a b); intuition congruence. Qed.
Lemma yields_eq a : yields_elements L k N a <-> derefs_to_implementation L k N a = true.
Proof.
  unfold derefs_to_implementation. destruct a as [x|[t|] x|c [v|] h p]; cbn; rewrite ?insertable_eq; try tauto.
  - split; [intros (ct & Q & R); injection Q as <-; now apply insertable_eq|]. intros H. exists v. split; [reflexivity|now apply insertable_eq].
  - split; [intros (ct & Q & R); discriminate|discriminate].
Qed.
Lemma const_same b : same_aty (AIter true) b = true <-> b = AIter true.
Proof. destruct b as [[]|t x|]; cbn; split; congruence. Qed.


(** What overload resolution leaves, as a function of the facts it depends on. *)
Definition table2 (s own loc imp der ter : bool) (hint : conv) (notc : bool) : resolved over2 :=
  if s && (own || loc || der) then Chosen (if own then OFrom else if loc then OFromLocal else if ter then ORangeTerminal else ORange)
  else if notc && imp && match hint with Impossible => false | _ => true end then Chosen OHint
  else if negb s && loc && imp then Chosen OPos else NoMatch.
Lemma insert2_table a b :
  (is_local a = true -> to_const_iterator a = Impossible) -> (is_iter a = true -> is_local a = false) ->
  (same_aty a b = true -> to_const_iterator a = Exact -> same_aty (AIter true) b = true) ->
  insert2 L k N a b = table2 (same_aty a b) (is_iter a) (is_local a) (is_implementation L k (aty_ct N b)) (derefs_to_implementation L k N a) (derefs_to_terminal L k N a)
    (to_const_iterator a) (negb (same_aty (AIter true) b)).
Proof.
  intros A B C. unfold insert2, resolve, all2, table2.
  cbn [filter viable viable2]. unfold viable, viable2, better, only_if, deduced.
  destruct (same_aty a b), (is_iter a), (is_local a), (to_const_iterator a), (same_aty (AIter true) b), (is_implementation L k (aty_ct N b)),
    (derefs_to_implementation L k N a), (derefs_to_terminal L k N a); cbn; try reflexivity;
    try (specialize (A eq_refl); discriminate); try (specialize (B eq_refl); discriminate); try (specialize (C eq_refl eq_refl); discriminate).
Qed.


Definition ok (c : conv) : bool := match c with Impossible => false | _ => true end.
Definition local_t (p : aty) : option bool := match p with ALocal (Some _) b => Some b | _ => None end.
Definition table3 (s own loc der ter : bool) (hint pos : conv) (lt : option bool) : resolved over3 :=
  match lt with
  | Some b => if s then Chosen (if b then PConst else PLocal) else NoMatch
  | None =>
      if s && (own || loc || der) && ok hint then
        Chosen (if own then PHintFrom else if loc then PHintFromLocal else if ter then PHintTerminal else PHint)
      else if s && der && ok pos then Chosen PPos else NoMatch
  end.
Lemma insert3_table p a b :
  (is_iter a = true -> is_local a = false) -> ok (to_const_iterator p) && ok (to_local_base p) = false ->
  insert3 L k N p a b = table3 (same_aty a b) (is_iter a) (is_local a) (derefs_to_implementation L k N a) (derefs_to_terminal L k N a)
    (to_const_iterator p) (to_local_base p) (local_t p).
Proof.
  intros B C. unfold insert3, resolve, all3, table3.
  cbn [filter viable viable3]. unfold viable, viable3, better, only_if, deduced.
  destruct (same_aty a b), (is_iter a), (is_local a), (derefs_to_implementation L k N a), (derefs_to_terminal L k N a);
    try (specialize (B eq_refl); discriminate);
    destruct p as [[]|[t|] []|c v [] []]; cbn in *; try reflexivity; discriminate.
Qed.

End Helpers.

Lemma range_of_eq L k N a b : one_type a b ->
  (range_of L k N a b <-> same_aty a b && (is_iter a || is_local a || derefs_to_implementation L k N a) = true).
Proof.
  intros O. unfold range_of. rewrite <- (same_aty_eq a b O), yields_eq, andb_true_iff, !orb_true_iff.
  assert (A : own_iterator a <-> is_iter a = true).
  { unfold own_iterator. destruct a as [x|t x|c v h p]; cbn; split; try congruence; eauto; intros (y & Q); congruence. }
  assert (B : own_local a <-> is_local a = true).
  { unfold own_local. destruct a as [x|t x|c v h p]; cbn; split; try congruence; eauto; intros (y & z & Q); congruence. }
  tauto.
Qed.
Lemma hint_eq L k N a b : hint_and_element L k N a b <->
  negb (same_aty (AIter true) b) && is_implementation L k (aty_ct N b) && ok (to_const_iterator a) = true.
Proof.
  unfold hint_and_element. rewrite !andb_true_iff, negb_true_iff, insertable_eq.
  assert (A : as_hint a <-> ok (to_const_iterator a) = true) by (destruct a as [[]|t x|c v [] p]; cbn; intuition congruence).
  assert (B : b <> AIter true <-> same_aty (AIter true) b = false) by (rewrite <- const_same; destruct (same_aty (AIter true) b); intuition congruence).
  change (as_type N b) with (aty_ct N b). tauto.
Qed.
Lemma pos_eq L k N a b : one_type a b -> (pos_and_element L k N a b <->
  negb (same_aty a b) && is_local a && is_implementation L k (aty_ct N b) = true).
Proof.
  intros O. unfold pos_and_element. rewrite !andb_true_iff, negb_true_iff, insertable_eq, (same_aty_not a b O).
  assert (B : own_local a <-> is_local a = true).
  { unfold own_local. destruct a as [x|t x|c v h p]; cbn; split; try congruence; eauto; intros (y & z & Q); congruence. }
  change (as_type N b) with (aty_ct N b). intuition congruence.
Qed.
Lemma table_ok L k N a b : insert2 L k N a b = table2 (same_aty a b) (is_iter a) (is_local a) (is_implementation L k (aty_ct N b)) (derefs_to_implementation L k N a)
  (derefs_to_terminal L k N a) (to_const_iterator a) (negb (same_aty (AIter true) b)).
Proof.
  apply insert2_table.
  - destruct a; cbn; congruence.
  - destruct a; cbn; congruence.
  - destruct a as [[]|[t|] x|c v [] q], b as [[]|[u|] y|d w i r]; cbn; try congruence.
Qed.
(** C85: whatever the types of the arguments, insert(a,b) with a range inserts the range; otherwise it inserts b with the hint a, or at the local position a, if that is
    what they are; otherwise it does not compile.  It is never ambiguous. *)
Theorem C85_two_arguments L k N a b : one_type a b ->
  insert2 L k N a b <> Ambiguous /\
  (range_of L k N a b -> exists o, insert2 L k N a b = Chosen o /\ range_overload L k a o) /\
  (~ range_of L k N a b -> hint_and_element L k N a b -> insert2 L k N a b = Chosen OHint) /\
  (~ range_of L k N a b -> pos_and_element L k N a b -> insert2 L k N a b = Chosen OPos) /\
  (~ range_of L k N a b -> ~ hint_and_element L k N a b -> ~ pos_and_element L k N a b -> insert2 L k N a b = NoMatch).
Proof.
  intros O. rewrite (range_of_eq L k N a b O), (hint_eq L k N a b), (pos_eq L k N a b O), table_ok. unfold table2.
  destruct (same_aty a b && (is_iter a || is_local a || derefs_to_implementation L k N a)) eqn:R.
  { split; [discriminate|]. split; [|split; [congruence|split; congruence]]. intros _. eexists. split; [reflexivity|].
    apply andb_true_iff in R as (_ & R). destruct a as [x|t x|c v h p]; cbn in *; [reflexivity|reflexivity|].
    unfold derefs_to_implementation, derefs_to_terminal in *. cbn in *. destruct v as [v|]; [|discriminate]. exists v. split; [reflexivity|].
    rewrite alike_eq. destruct (is_terminal L k v); [left|right]; split; congruence. }
  assert (X : is_local a = true -> ok (to_const_iterator a) = false) by (destruct a; cbn; congruence).
  unfold ok in *.
  destruct (negb (same_aty (AIter true) b)), (is_implementation L k (aty_ct N b)), (to_const_iterator a), (same_aty a b), (is_local a); cbn in *;
    try (specialize (X eq_refl); discriminate); repeat split; try congruence; try (intros; exfalso; congruence); intros; try congruence; intuition congruence.
Qed.


(** The program of the examples: base class 1, derived 2 and the final class 3; 4 is an int, 5 a pointer to 2, 6 a pointer to 3, 7 a pointer to int, 8 a class with a
    conversion to const_iterator; 20 to 27 are the iterators of the collection, 9 its value type. *)
Definition oL : lang :=
  mklang (fun b d => (b =? d) || ((b =? 1) && ((d =? 2) || (d =? 3) || (d =? 9)))) (fun t => t =? 3) (fun _ => true) (fun _ _ => 0) (fun _ => true) (fun _ => true)
    (fun _ => true) (fun _ => false) (fun t => t) (fun _ t => t) 0.
Definition oN : names :=
  mknames (fun b => CType (if b then 20 else 21)) (fun t b => CType ((if b then 22 else 23) + match t with Some _ => 2 | None => 0 end)) (CType 9).
Definition oint : aty := AOther (CType 4) None false false.
Definition oder : aty := AOther (CType 2) None false false.
Definition optr (t : tyid) : aty := AOther (CType (t + 3)) (Some (CType t)) false false.
Definition ointptr : aty := AOther (CType 7) (Some (CType 4)) false false.
Definition oconv : aty := AOther (CType 8) None true false.
Example C85_two_arguments_ex :
  (* ranges of pointers to 2, of pointers to 3, of own iterators; into an any_collection, which can hold iterators, of own iterators and of pointers to int *)
  one_type (optr 2) (optr 2) /\ range_of oL (KBase 1) oN (optr 2) (optr 2) /\ insert2 oL (KBase 1) oN (optr 2) (optr 2) = Chosen ORange /\
  range_of oL (KBase 1) oN (optr 3) (optr 3) /\ insert2 oL (KBase 1) oN (optr 3) (optr 3) = Chosen ORangeTerminal /\
  range_of oL (KBase 1) oN (AIter false) (AIter false) /\ insert2 oL (KBase 1) oN (AIter false) (AIter false) = Chosen OFrom /\
  range_of oL KAny oN (AIter false) (AIter false) /\ hint_and_element oL KAny oN (AIter false) (AIter false) /\
  insert2 oL KAny oN (AIter false) (AIter false) = Chosen OFrom /\
  range_of oL KAny oN ointptr ointptr /\ insert2 oL KAny oN ointptr ointptr = Chosen ORangeTerminal /\
  (* hints and positions *)
  ~ range_of oL (KBase 1) oN (AIter false) oder /\ hint_and_element oL (KBase 1) oN (AIter false) oder /\ insert2 oL (KBase 1) oN (AIter false) oder = Chosen OHint /\
  hint_and_element oL (KBase 1) oN oconv oder /\ insert2 oL (KBase 1) oN oconv oder = Chosen OHint /\
  pos_and_element oL (KBase 1) oN (ALocal (Some 2) false) oder /\ insert2 oL (KBase 1) oN (ALocal (Some 2) false) oder = Chosen OPos /\
  (* neither *)
  ~ range_of oL (KBase 1) oN ointptr ointptr /\ ~ hint_and_element oL (KBase 1) oN ointptr ointptr /\ ~ pos_and_element oL (KBase 1) oN ointptr ointptr /\
  insert2 oL (KBase 1) oN ointptr ointptr = NoMatch /\ insert2 oL (KBase 1) oN (AIter true) oint = NoMatch.
Proof.
  unfold one_type, range_of, hint_and_element, pos_and_element, own_iterator, own_local, yields_elements, insertable, optr, ointptr, oder, oint, oconv. cbn.
  repeat split; try reflexivity; try discriminate; eauto 6.
  - intros (Q & _). discriminate.
  - intros (_ & [(b & Q)|[(t & b & Q)|(ct & Q & R)]]); try discriminate. injection Q as <-. discriminate.
  - intros (Q & _). discriminate.
  - intros ((t & b & Q) & _). discriminate.
Qed.

(** Mixing iterator and const_iterator does not make a range: in a collection which can hold iterators insert(cbegin(),end()) compiles, and inserts the iterator end() with the
    hint cbegin(); otherwise, and the other way round, the call does not compile. *)
Theorem C85_mixed_iterators L k N :
  insert2 L k N (AIter false) (AIter true) = NoMatch /\
  (insertable L k (n_iter N false) -> insert2 L k N (AIter true) (AIter false) = Chosen OHint) /\
  (~ insertable L k (n_iter N false) -> insert2 L k N (AIter true) (AIter false) = NoMatch).
Proof.
  rewrite !table_ok. cbn. rewrite insertable_eq. destruct (is_implementation L k (n_iter N false)); cbn; repeat split; try reflexivity; try congruence.
Qed.
Example C85_mixed_iterators_ex : insertable oL KAny (n_iter oN false) /\ ~ insertable oL (KBase 1) (n_iter oN false).
Proof. split; [exact I|discriminate]. Qed.

(** C85, three arguments: a hint and a range; a local_base_iterator and a range of elements; a local_iterator<T> and two iterators of one type, from which a T may be
    made; nothing else compiles.  [p] should not be of a type that converts to both a const_iterator and a const_local_base_iterator. *)
Theorem C85_three_arguments L k N p a b : one_type a b -> ~ (as_hint p /\ as_base_pos p) ->
  insert3 L k N p a b <> Ambiguous /\
  (as_hint p -> range_of L k N a b -> exists o, insert3 L k N p a b = Chosen o /\ hint_range_overload L k a o) /\
  (as_base_pos p -> a = b -> yields_elements L k N a -> insert3 L k N p a b = Chosen PPos) /\
  (forall t, p = ALocal (Some t) false -> a = b -> insert3 L k N p a b = Chosen PLocal) /\
  (forall t, p = ALocal (Some t) true -> a = b -> insert3 L k N p a b = Chosen PConst) /\
  (insert3 L k N p a b <> NoMatch ->
     a = b /\ (as_hint p /\ range_of L k N a b \/ as_base_pos p /\ yields_elements L k N a \/ exists t c, p = ALocal (Some t) c)).
Proof.
  intros O X.
  assert (H : as_hint p <-> ok (to_const_iterator p) = true) by (destruct p as [[]|t x|c v [] q]; cbn; intuition congruence).
  assert (P : as_base_pos p <-> ok (to_local_base p) = true) by (destruct p as [[]|[t|] []|c v h []]; cbn; intuition congruence).
  assert (T : forall t c, p = ALocal (Some t) c -> local_t p = Some c) by (intros t c ->; reflexivity).
  assert (T' : forall c, local_t p = Some c -> exists t, p = ALocal (Some t) c) by (destruct p as [|[t|] x|]; cbn; try discriminate; intros c [= <-]; eauto).
  assert (T2 : forall c, local_t p = Some c -> ok (to_const_iterator p) = false /\ ok (to_local_base p) = false)
    by (destruct p as [|[t|] x|]; cbn; try discriminate; auto).
  assert (XX : ok (to_const_iterator p) && ok (to_local_base p) = false) by (apply not_true_is_false; rewrite andb_true_iff; tauto).
  assert (LI : is_iter a = true -> is_local a = false) by (destruct a; cbn; congruence).
  rewrite H, P, (range_of_eq L k N a b O), yields_eq, <- (same_aty_eq a b O), (insert3_table L k N p a b LI XX).
  assert (G : is_iter a || is_local a || derefs_to_implementation L k N a = true ->
    hint_range_overload L k a (if is_iter a then PHintFrom else if is_local a then PHintFromLocal else if derefs_to_terminal L k N a then PHintTerminal else PHint)).
  { destruct a as [x|t x|c v h q]; cbn; try reflexivity. unfold derefs_to_implementation, derefs_to_terminal. cbn. destruct v as [v|]; [|discriminate]. intros _.
    exists v. split; [reflexivity|]. rewrite alike_eq. destruct (is_terminal L k v); [left|right]; split; congruence. }
  clear X H P. unfold table3. destruct (local_t p) as [c|] eqn:Lt.
  - destruct (T2 c eq_refl) as (-> & ->). destruct (T' c eq_refl) as (t & Q). split; [destruct (same_aty a b); discriminate|].
    split; [discriminate|]. split; [discriminate|].
    split; [intros u R S; rewrite <- S, same_aty_refl; rewrite R in Q; injection Q as _ <-; reflexivity|].
    split; [intros u R S; rewrite <- S, same_aty_refl; rewrite R in Q; injection Q as _ <-; reflexivity|].
    destruct (same_aty a b); [|congruence]. intros _. split; [reflexivity|]. right. right. exists t, c. exact Q.
  - assert (NT : forall t c, p = ALocal (Some t) c -> False) by (intros t c Q; specialize (T t c Q); discriminate).
    destruct (is_iter a || is_local a || derefs_to_implementation L k N a) eqn:R.
    + destruct (same_aty a b), (ok (to_const_iterator p)), (ok (to_local_base p)), (derefs_to_implementation L k N a); cbn in *; try discriminate;
        repeat split; try congruence; try (intros; exfalso; eauto; congruence); eauto; intuition congruence.
    + assert (D : derefs_to_implementation L k N a = false) by (apply orb_false_iff in R; tauto). rewrite D in *.
      destruct (same_aty a b), (ok (to_const_iterator p)), (ok (to_local_base p)); cbn in *; try discriminate;
        repeat split; try congruence; try (intros; exfalso; eauto; congruence); eauto; intuition congruence.
Qed.
Example C85_three_arguments_ex :
  one_type (optr 2) (optr 2) /\ ~ (as_hint (AIter false) /\ as_base_pos (AIter false)) /\ range_of oL (KBase 1) oN (optr 2) (optr 2) /\
  insert3 oL (KBase 1) oN (AIter false) (optr 2) (optr 2) = Chosen PHint /\ insert3 oL KAny oN (AIter true) (AIter true) (AIter true) = Chosen PHintFrom /\
  as_base_pos (ALocal None false) /\ yields_elements oL (KBase 1) oN (AIter true) /\
  insert3 oL (KBase 1) oN (ALocal None false) (AIter true) (AIter true) = Chosen PPos /\
  insert3 oL (KBase 1) oN (ALocal (Some 2) false) ointptr ointptr = Chosen PLocal /\ insert3 oL (KBase 1) oN (ALocal (Some 2) true) ointptr ointptr = Chosen PConst /\
  insert3 oL (KBase 1) oN (AIter true) ointptr ointptr = NoMatch.
Proof.
  unfold one_type, range_of, own_iterator, own_local, yields_elements, insertable, optr, ointptr. cbn.
  repeat split; try reflexivity; try discriminate; eauto 6. tauto.
Qed.

Print Assumptions C85_two_arguments.
Print Assumptions C85_mixed_iterators.
Print Assumptions C85_three_arguments.
