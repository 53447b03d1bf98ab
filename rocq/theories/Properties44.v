(** * C86: calls of erase and emplace_pos mean what their arguments say *)

From Coq Require Import List Arith Bool Lia.
From Verif Require Import Base Vec Backend Segment Coll Types Overload OverPos Spec SpecOver Reach ProofBase ProofVec ProofBackend ProofOps ProofSeg ProofMap ProofView ProofColl ProofReach ProofIns
  ProofObs ProofProp Demo Properties42.
Import ListNotations.

(** What can be stored: insertable, and movable in a way vectors can use (for an any, by its concepts). *)
Definition storable (L : lang) (k : model) (T : ctype) : Prop :=
  insertable L k T /\ l_move_con L (ct_id T) = true /\ (l_move_asg L (ct_id T) = true \/ l_nt_move_con L (ct_id T) = true) /\
  match k, T with KAny, CAny _ _ relaxed asg asg_move => relaxed = true \/ asg = true \/ asg_move = true | _, _ => True end.
(** What a local iterator refers to; for a local_base_iterator, the value type of the collection. *)
Definition refers_to (N : names) (p : aty) (u : tyid) : Prop :=
  match p with ALocal (Some t) _ => u = t | ALocal None _ => u = ct_id (n_value N) | _ => False end.

Lemma storable_eq L k T : storable L k T <-> is_acceptable L k T = true.
Proof.
  unfold storable, is_acceptable. rewrite insertable_eq.
  destruct k, T as [t|t h r s m|t]; cbn [ct_id]; rewrite ?andb_true_iff, ?orb_true_iff; tauto.
Qed.

(** erase(a): of an iterator, const or not, or a local iterator of any kind; nothing else. *)
Theorem C86_erase_one a :
  (as_hint a -> erase1 a = Chosen RIter) /\ (own_local a -> erase1 a = Chosen RLocal) /\ (~ as_hint a -> ~ own_local a -> erase1 a = NoMatch).
Proof.
  unfold own_local. destruct a as [[]|t c|ct v [] p]; cbn; repeat split; intros; try reflexivity; try contradiction; try congruence;
    repeat match goal with H : exists _, _ |- _ => destruct H; try discriminate end; exfalso; eauto 6.
Qed.
Example C86_erase_one_ex : as_hint (AIter false) /\ own_local (ALocal (Some 2) true) /\ ~ as_hint oint /\ ~ own_local oint.
Proof. unfold own_local, oint. cbn. split; [exact I|split; [eauto|split; [discriminate|]]]. intros (? & ? & ?). discriminate. Qed.

(** erase(a,b): of a range of iterators, of which some may be const and others not; of a range given by local iterators of one type.  Nothing else compiles. *)
Theorem C86_erase_two a b : one_type a b ->
  (as_hint a -> as_hint b -> erase2 a b = Chosen RIter) /\ (own_local a -> a = b -> erase2 a b = Chosen RLocal) /\
  (~ (as_hint a /\ as_hint b) -> ~ (own_local a /\ a = b) -> erase2 a b = NoMatch).
Proof.
  intros O.
  assert (Ha : as_hint a <-> ok (to_const_iterator a) = true) by (destruct a as [[]|t x|c v [] q]; cbn; intuition congruence).
  assert (Hb : as_hint b <-> ok (to_const_iterator b) = true) by (destruct b as [[]|t x|c v [] q]; cbn; intuition congruence).
  assert (Hl : own_local a <-> is_local a = true).
  { unfold own_local. destruct a as [x|t x|c v h p]; cbn; split; try congruence; eauto; intros (y & z & Q); congruence. }
  assert (X : is_local a = true -> to_const_iterator a = Impossible) by (destruct a; cbn; congruence).
  rewrite Ha, Hb, Hl, <- (same_aty_eq a b O). unfold erase2, resolve, all_erase, viable_erase2. cbn [filter]. unfold viable, better, deduced, both, ok in *.
  destruct (same_aty a b), (is_local a), (to_const_iterator a), (to_const_iterator b); cbn; try (specialize (X eq_refl); discriminate);
    repeat split; intros; try reflexivity; try congruence; exfalso; intuition congruence.
Qed.
Example C86_erase_two_ex :
  one_type (AIter true) (AIter false) /\ as_hint (AIter true) /\ as_hint (AIter false) /\ erase2 (AIter true) (AIter false) = Chosen RIter /\
  one_type (ALocal (Some 2) true) (ALocal (Some 2) true) /\ own_local (ALocal (Some 2) true) /\
  ~ (as_hint (ALocal (Some 2) true) /\ as_hint (ALocal (Some 2) false)) /\ ~ (own_local (ALocal (Some 2) true) /\ ALocal (Some 2) true = ALocal (Some 2) false) /\
  erase2 (ALocal (Some 2) true) (ALocal (Some 2) false) = NoMatch.
Proof. unfold own_local. cbn. repeat split; eauto; try tauto; intros (_ & Q); discriminate. Qed.

(** emplace_pos(p,...) takes a local_iterator<T>, const or not, and makes a T; nothing else compiles. *)
Theorem C86_emplace_pos_deduced p :
  (forall t, p = ALocal (Some t) false -> emplace_pos_deduced p = Chosen ELocal) /\ (forall t, p = ALocal (Some t) true -> emplace_pos_deduced p = Chosen EConst) /\
  ((forall t c, p <> ALocal (Some t) c) -> emplace_pos_deduced p = NoMatch).
Proof.
  destruct p as [c|[t|] c|ct v h q]; cbn; repeat split; intros; try reflexivity; try discriminate; try congruence.
  - injection H as -> ->. reflexivity.
  - injection H as -> ->. reflexivity.
  - exfalso. exact (H t c eq_refl).
Qed.
Example C86_emplace_pos_deduced_ex :
  emplace_pos_deduced (ALocal (Some 2) false) = Chosen ELocal /\ emplace_pos_deduced (ALocal (Some 2) true) = Chosen EConst /\ (forall t c, ALocal None true <> ALocal (Some t) c).
Proof. repeat split; try reflexivity. discriminate. Qed.

(** emplace_pos<T>(p,...) takes a local_base_iterator, if a T can be stored, and a local_iterator<T>, and is never ambiguous.  What else compiles is a local iterator which refers to a class
    derived from T (see the next theorem). *)
Theorem C86_emplace_pos_partial L k N T p :
  emplace_pos_of L k N T p <> Ambiguous /\
  (as_base_pos p -> storable L k T -> emplace_pos_of L k N T p = Chosen match p with ALocal _ false => EBase | _ => EBaseConst end) /\
  (forall c, p = ALocal (Some (ct_id T)) c -> emplace_pos_of L k N T p = Chosen (if c then EConst else ELocal)) /\
  (emplace_pos_of L k N T p <> NoMatch ->
     as_base_pos p /\ storable L k T \/ (exists c, p = ALocal (Some (ct_id T)) c) \/
     exists u, refers_to N p u /\ (u = ct_id T /\ ~ storable L k T \/ u <> ct_id T /\ l_base_of L (ct_id T) u = true)).
Proof.
  pose proof (storable_eq L k T) as St. set (ac := storable L k T) in *. clearbody ac.
  unfold emplace_pos_of, resolve, all_pos, viable_pos. cbn [filter]. unfold viable, better, only_if.
  destruct p as [c|[u|] c|ct v h q].
  - cbn. destruct (is_acceptable L k T); cbn; repeat split; intros; try congruence; try contradiction; rewrite St in *; congruence.
  - cbn. unfold to_pointer, by_constructor. destruct (Nat.eqb_spec (ct_id T) u) as [E1|E1].
    + subst u. destruct (is_acceptable L k T), c; cbn in *; (split; [discriminate|]; split; [contradiction|]; split; [intros c' [= <-]; reflexivity|eauto]).
    + destruct (l_base_of L (ct_id T) u) eqn:B, (is_acceptable L k T), c; cbn; (split; [discriminate|]; split; [contradiction|]; split; [intros c' [= Q _]; congruence|]);
        try congruence; intros _; right; right; exists u; auto.
  - cbn. unfold to_pointer, by_constructor. destruct (Nat.eqb_spec (ct_id T) (ct_id (n_value N))) as [E1|E1].
    + destruct (is_acceptable L k T), c; cbn; (split; [discriminate|]; split; [intros; first [reflexivity|rewrite St in *; congruence]|]; split; [discriminate|]);
        intros _; first [left; split; [exact I|apply St; reflexivity]|right; right; exists (ct_id (n_value N)); split; auto; left; split; [congruence|rewrite St; discriminate]].
    + destruct (l_base_of L (ct_id T) (ct_id (n_value N))) eqn:B, (is_acceptable L k T), c; cbn; (split; [discriminate|]; split; [intros; first [reflexivity|rewrite St in *; congruence]|]; split; [discriminate|]);
        try congruence; intros _; first [left; split; [exact I|apply St; reflexivity]|right; right; exists (ct_id (n_value N)); split; auto].
  - cbn. destruct (is_acceptable L k T), q; cbn; repeat split; intros; try congruence; try (left; split; [exact eq_refl|apply St; reflexivity]); rewrite St in *; congruence.
Qed.
Example C86_emplace_pos_partial_ex :
  as_base_pos (ALocal None false) /\ storable oL (KBase 1) (CType 2) /\ emplace_pos_of oL (KBase 1) oN (CType 2) (ALocal None false) = Chosen EBase /\
  emplace_pos_of oL (KBase 1) oN (CType 2) (ALocal None true) = Chosen EBaseConst /\ emplace_pos_of oL (KBase 1) oN (CType 2) (ALocal (Some 2) false) = Chosen ELocal /\
  emplace_pos_of oL (KBase 1) oN (CType 2) (ALocal (Some 3) false) = NoMatch /\ emplace_pos_of oL (KBase 1) oN (CType 4) (ALocal None false) = NoMatch.
Proof. unfold storable, insertable. cbn. repeat split; auto. Qed.

(** What cannot be relied on: that a call of emplace_pos<T> which compiles makes a T in the segment of the T.  A local iterator to elements of a class derived from T is accepted as well, without
    an assertion, and whatever the collection and the position, the call then treats the segment of the other class as one of T: its behavior is undefined. *)
Theorem C86_emplace_pos_refuted L k N T u c {V} {E : Env V} w c0 g d pos n a x :
  u <> ct_id T -> l_base_of L (ct_id T) u = true -> reach w (c0 :: g) d -> lpoints c0 pos u n -> env_ty a = ct_id T ->
  emplace_pos_of L k N T (ALocal (Some u) c) = Chosen EConst /\ c_emplace_pos pos a x (c0, w) = UB.
Proof.
  intros Ne B H Lp Ea. split.
  - unfold emplace_pos_of, resolve, all_pos, viable_pos. cbn [filter]. unfold viable, better, only_if. cbn. unfold to_pointer, by_constructor.
    destruct (Nat.eqb_spec (ct_id T) u) as [Q|Q]; [congruence|]. rewrite B. destruct (is_acceptable L k T), c; reflexivity.
  - destruct (reach_wf _ _ _ _ H) as (W & _). destruct (lpoints_node _ _ _ _ Lp (wm_ids _ _ (wc_map _ _ W))) as (nd & Hin & Hat & En & Et & _).
    unfold c_emplace_pos, bind, on_seg. rewrite Hat. unfold seg_emplace, bind, check_ty, bind, getx. cbn [fst]. unfold n_ty in Et. rewrite Et, Ea.
    destruct (Nat.eqb_spec u (ct_id T)); [contradiction|]. reflexivity.
Qed.

(* class 2 is the base of class 3 here; the collection has segments for both *)
Definition pL : lang :=
  mklang (fun b d => (b =? d) || (b =? 1) || ((b =? 2) && (d =? 3))) (fun _ => false) (fun _ => true) (fun _ _ => 0) (fun _ => true) (fun _ => true)
    (fun _ => true) (fun _ => false) (fun t => t) (fun _ t => t) 0.
Example C86_emplace_pos_refuted_ex lay : let E := dE lay in
  3 <> ct_id (CType 2) /\ l_base_of pL (ct_id (CType 2)) 3 = true /\ storable pL (KBase 1) (CType 2) /\ storable pL (KBase 1) (CType 3) /\
  reach (dw lay) [dc lay; dx lay] [] /\ lpoints (dc lay) (li_conc (dc lay) 3 0) 3 0 /\ env_ty 20 = ct_id (CType 2).
Proof. cbv zeta. unfold storable, insertable. csplit; try reflexivity; try discriminate; try (left; reflexivity); demo lay. Qed.

(** With the right type the call does what it should. *)
Theorem C86_emplace_pos_right L k N T c {V} {E : Env V} w c0 g d pos n a x v :
  reach w (c0 :: g) d -> lpoints c0 pos (ct_id T) n -> env_ty a = ct_id T -> src_c c0 (ct_id T) HEmplace x v ->
  emplace_pos_of L k N T (ALocal (Some (ct_id T)) c) = Chosen (if c then EConst else ELocal) /\
  match c_emplace_pos pos a x (c0, w) with
  | Ok (c1, _) l => inserted c0 c1 (ct_id T) n v /\ lpoints c1 l (ct_id T) n
  | Exn (c1, w1) e => refused c0 c1 w w1 (ct_id T) HEmplace n e
  | UB => False
  end.
Proof.
  intros H Lp Ea Hs. split; [apply (C86_emplace_pos_partial L k N T (ALocal (Some (ct_id T)) c)); reflexivity|].
  pose proof (spec_emplace_pos w c0 g d pos n a x v H) as Q. cbv zeta in Q. rewrite Ea in Q. specialize (Q Lp Hs). unfold wp in Q.
  destruct (c_emplace_pos pos a x (c0, w)) as [[c1 w1] l|[c1 w1] e|]; auto.
Qed.
Example C86_emplace_pos_right_ex lay : let E := dE lay in
  reach (dw lay) [dc lay; dx lay] [] /\ lpoints (dc lay) (li_conc (dc lay) 2 1) (ct_id (CType 2)) 1 /\ env_ty 20 = ct_id (CType 2) /\ src_c (dc lay) (ct_id (CType 2)) HEmplace (SVal 3) 3.
Proof. cbv zeta. csplit; demo lay. Qed.

Print Assumptions C86_erase_one.
Print Assumptions C86_erase_two.
Print Assumptions C86_emplace_pos_deduced.
Print Assumptions C86_emplace_pos_partial.
Print Assumptions C86_emplace_pos_refuted.
Print Assumptions C86_emplace_pos_right.
