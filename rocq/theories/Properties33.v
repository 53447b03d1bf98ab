(** * Insertion through std::inserter (C77)

    See the head of Properties1.v for the form of the statements. *)

From Coq Require Import List Arith Lia Bool Permutation.
From Verif Require Import Base Vec Backend Segment Coll Loops Spec SpecVia Reach ProofBase ProofVec ProofBackend ProofOps
  ProofSeg ProofMap ProofView ProofColl ProofIns ProofRange ProofReach ProofObs ProofProp ProofProp4 ProofProp5 ProofCost7 Demo ProofVia.
Import ListNotations.

(** ** C77 Insertion through std::inserter *)

(** The program stopped at an element [x], of type [t]: the elements [pre] before it had been inserted, as [D] describes with the
    position [j] held then, and inserting this one failed as an insertion with that hint does. *)
Definition stopped_at {V} {E : Env V} (xs : list (arg V)) (l : list (tyid * V)) (D : list (tyid * V) -> coll V -> nat -> Prop) g d
  (c' : coll V) (w' : world) (e : exn) : Prop :=
  exists pre t v post x w1 c1 j, l = pre ++ (t, v) :: post /\ nth_error xs (length pre) = Some x /\
    reach w1 (c1 :: g) d /\ D pre c1 j /\ rejected c1 c' w1 w' x (goes (content c1) j t) e.

(** What std::copy(...,std::inserter(c,hint)) puts in: every element once, in the segment of its type; the elements that were there stay
    and keep their order, and segments of other types are not touched. *)
Theorem C77_inserter {V} {E : Env V} w c g d hint h i xs l : reach w (c :: g) d -> hint_is c hint h -> located c hint i ->
  Forall2 gives xs l -> via_safe h c l ->
  let put l1 c1 := (forall t, Permutation (elems c1 t) (elems c t ++ of_type t l1) /\ subseq (elems c t) (elems c1 t)) /\
    (forall t, In t (types c1) <-> In t (types c) \/ In t (map fst l1)) /\ (forall t, ~ In t (map fst l1) -> seg_at c1 t = seg_at c t) /\ c_al c1 = c_al c in
  wp (insert_via hint xs) (c, w)
    (fun '(c', w') it => reach w' (c' :: g) d /\ put l c' /\ exists j, located c' it j)
    (fun '(c', w') e => stopped_at xs l (fun pre c1 _ => put pre c1) g d c' w' e).
Proof.
  intros H Hi L F Sf put. eapply wp_mono; [exact (wp_insert_via xs w c g d hint h i l H Hi L F Sf)| |].
  - intros [c' w'] it (j & R & (D1 & D2 & D3 & _ & _ & D6) & Lj). unfold put. csplit; eauto; apply D1.
  - intros [c' w'] e (pre & t & v & post & x & w1 & c1 & j & -> & Nx & R & (D1 & D2 & D3 & _ & _ & D6) & Rj).
    exists pre, t, v, post, x, w1, c1, j. unfold put. csplit; auto; apply D1.
Qed.

(** For registered types the result is determined: each element goes to the position held if that is an element of its type and to the
    end of its segment if not, and the position held is then the one behind it in the traversal. *)
Theorem C77_inserter_exact {V} {E : Env V} w c g d hint i xs l : reach w (c :: g) d -> located c hint i ->
  Forall2 gives xs l -> incl (map fst l) (types c) ->
  wp (insert_via hint xs) (c, w)
    (fun '(c', w') it => reach w' (c' :: g) d /\ content c' = fst (put_via (content c) i l) /\ located c' it (snd (put_via (content c) i l)))
    (fun '(c', w') e => stopped_at xs l (fun pre c1 j => (content c1, j) = put_via (content c) i pre) g d c' w' e).
Proof.
  intros H L F Inc. destruct (located_hint _ _ _ L) as (h & Hi).
  eapply wp_mono; [exact (wp_insert_via xs w c g d hint h i l H Hi L F (or_intror (or_introl Inc)))| |].
  - intros [c' w'] it (j & R & (_ & _ & _ & D4 & _) & Lj). rewrite <- (D4 Inc). csplit; auto.
  - intros [c' w'] e (pre & t & v & post & x & w1 & c1 & j & -> & Nx & R & (_ & _ & _ & D4 & _) & Rj).
    exists pre, t, v, post, x, w1, c1, j. csplit; auto. apply D4. intros u Hu. apply Inc. rewrite map_app. apply in_or_app. auto.
Qed.

(** Elements of one type end up where c.insert(hint,first,last) puts them (C12), in the order in which they come. *)
Theorem C77_inserter_one_type {V} {E : Env V} w c g d hint h xs t vs : reach w (c :: g) d -> hint_is c hint h ->
  Forall2 gives xs (map (pair t) vs) -> via_safe h c (map (pair t) vs) ->
  let put us c1 := elems c1 t = firstn (slot h c t) (elems c t) ++ us ++ skipn (slot h c t) (elems c t) /\
    forall u, u <> t -> seg_at c1 u = seg_at c u in
  wp (insert_via hint xs) (c, w)
    (fun '(c', w') _ => reach w' (c' :: g) d /\ put vs c')
    (fun '(c', w') e => stopped_at xs (map (pair t) vs) (fun pre c1 _ => put (map snd pre) c1) g d c' w' e).
Proof.
  intros H Hi F Sf put. destruct (hint_of w c g d hint h t H Hi) as ((i & L) & _).
  assert (Ms : forall us : list V, map snd (map (pair t) us) = us) by (intros us; rewrite map_map; cbn; apply map_id).
  assert (Nt : forall (l : list (tyid * V)) u, (forall e, In e l -> fst e = t) -> u <> t -> ~ In u (map fst l)).
  { intros l u A Ne Hu. apply in_map_iff in Hu. destruct Hu as (e & <- & He). apply Ne, A, He. }
  assert (Al : forall e : tyid * V, In e (map (pair t) vs) -> fst e = t) by (intros e He; apply in_map_iff in He; destruct He as (v & <- & _); reflexivity).
  eapply wp_mono; [exact (wp_insert_via xs w c g d hint h i _ H Hi L F Sf)| |].
  - intros [c' w'] it (j & R & (_ & _ & D3 & _ & D5 & _) & Lj). unfold put. csplit; auto. rewrite <- (Ms vs). apply D5. exact Al.
  - intros [c' w'] e (pre & t' & v & post & x & w1 & c1 & j & Q & Nx & R & (_ & _ & D3 & _ & D5 & _) & Rj).
    exists pre, t', v, post, x, w1, c1, j. assert (Al' : forall e, In e pre -> fst e = t) by (intros e0 He; apply Al; rewrite Q; apply in_or_app; auto).
    unfold put. csplit; auto.
Qed.

(** *** Instances *)

Definition t_ref {V} (a : tiaddr) (v : V) : arg V := mkarg a a true false HCopy (SVal v).
Example C77_inserter_ex lay : let E := dE lay in let xs := [t_ref 10 3; t_ref 20 4; t_ref 10 5; t_ref 50 6] in let l := [(1, 3); (2, 4); (1, 5); (5, 6)] in
  let c' := fst (state (void (insert_via (it_at (dc lay) 1 1) xs) (dc lay, dw lay))) in
  reach (dw lay) [dc lay; dx lay] [] /\ hint_is (dc lay) (it_at (dc lay) 1 1) (Some (1, 1)) /\ located (dc lay) (it_at (dc lay) 1 1) (offset (content (dc lay)) 1 + 1) /\
  Forall2 gives xs l /\ via_safe (Some (1, 1)) (dc lay) l /\
  done (insert_via (it_at (dc lay) 1 1) xs (dc lay, dw lay)) = true /\ elems c' 5 = [6] /\ length (elems c' 1) = 5.
Proof.
  intros E xs l c'. assert (P : points (dc lay) (it_at (dc lay) 1 1) 1 1) by (subst E; demo_fact lay). subst E xs l c'.
  csplit; [demo_fact lay|exact P|right; eauto| |left; reflexivity|demo_fact lay..].
  repeat constructor; try (intros _; reflexivity); intros Q; discriminate.
Qed.
Example C77_inserter_exact_ex lay : let E := dE lay in let xs := [t_ref 10 3; t_ref 20 4; t_ref 20 5] in let l := [(1, 3); (2, 4); (2, 5)] in
  reach (dw lay) [dc lay; dx lay] [] /\ located (dc lay) (c_end (dc lay)) (length (flat (dc lay))) /\ Forall2 gives xs l /\ incl (map fst l) (types (dc lay)) /\
  put_via [(1, [5; 6; 7]); (2, [8; 9]); (4, [1])] 6 l = ([(1, [5; 6; 7; 3]); (2, [4; 5; 8; 9]); (4, [1])], 6).
Proof.
  cbv zeta. csplit; [demo_fact lay|apply end_located| |intros t Ht; destruct lay; vm_compute in Ht |- *; tauto|reflexivity].
  repeat constructor; try (intros _; reflexivity); intros Q; discriminate.
Qed.
Example C77_inserter_one_type_ex lay : let E := dE lay in let xs := [t_ref 50 3; t_ref 50 4] in
  reach (dw lay) [dc lay; dx lay] [] /\ hint_is (dc lay) (c_end (dc lay)) None /\ Forall2 gives xs (map (pair 5) [3; 4]) /\
  via_safe None (dc lay) (map (pair 5) [3; 4]).
Proof.
  cbv zeta. csplit; [demo_fact lay|reflexivity| |right; right; split; [reflexivity|exists 5; intros e [<-|[<-|[]]]; reflexivity]].
  repeat constructor; try (intros _; reflexivity); intros Q; discriminate.
Qed.

(** With elements of several types the result is another one than that of c.insert(hint,first,last), and the elements of one type need not
    keep the order in which they come, not even with c.end() as hint: a new element moves the position held to the beginning of the next segment. *)
Theorem C77_order_refuted lay :
  ~ (forall w c g d xs l c1 w1 it c2 w2, let E := dE lay in reach w (c :: g) d -> Forall2 gives xs l -> incl (map fst l) (types c) ->
       insert_via (c_end c) xs (c, w) = Ok (c1, w1) it -> c_insert_hint_range (c_end c) xs (c, w) = Ok (c2, w2) tt ->
       forall t, elems c1 t = elems c2 t) /\
  ~ (forall w c g d xs l c1 w1 it, let E := dE lay in reach w (c :: g) d -> Forall2 gives xs l -> incl (map fst l) (types c) ->
       insert_via (c_end c) xs (c, w) = Ok (c1, w1) it -> forall t, subseq (of_type t l) (elems c1 t)).
Proof.
  split; intros C.
  - set (xs := [t_ref 10 3; t_ref 20 4]).
    assert (F1 : match insert_via (E := dE lay) (c_end (dc lay)) xs (dc lay, dw lay) with Ok (c1, _) _ => elems c1 2 | _ => [] end = [4; 8; 9]) by (destruct lay; vm_compute; reflexivity).
    assert (F2 : match c_insert_hint_range (E := dE lay) (c_end (dc lay)) xs (dc lay, dw lay) with Ok (c1, _) _ => elems c1 2 | _ => [] end = [8; 9; 4]) by (destruct lay; vm_compute; reflexivity).
    assert (G : Forall2 (gives (E := dE lay)) xs [(1, 3); (2, 4)]) by (repeat constructor; try (intros _; reflexivity); intros Q; discriminate).
    assert (I : incl (map fst [(1, 3); (2, 4)]) (types (dc lay))) by (intros t Ht; destruct lay; vm_compute in Ht |- *; tauto).
    specialize (C (dw lay) (dc lay) [dx lay] [] xs [(1, 3); (2, 4)]). cbv zeta in C.
    destruct (insert_via _ xs _) as [[c1 w1] it|?|]; [|discriminate F1..].
    destruct (c_insert_hint_range _ xs _) as [[c2 w2] []|?|]; [|discriminate F2..].
    specialize (C c1 w1 it c2 w2 (d_reach lay) G I eq_refl eq_refl 2). rewrite F1, F2 in C. discriminate C.
  - set (xs := [t_ref 20 3; t_ref 10 4; t_ref 20 5]). set (l := [(2, 3); (1, 4); (2, 5)]).
    assert (F1 : match insert_via (E := dE lay) (c_end (dc lay)) xs (dc lay, dw lay) with Ok (c1, _) _ => elems c1 2 | _ => [] end = [5; 8; 9; 3]) by (destruct lay; vm_compute; reflexivity).
    assert (G : Forall2 (gives (E := dE lay)) xs l) by (repeat constructor; try (intros _; reflexivity); intros Q; discriminate).
    assert (I : incl (map fst l) (types (dc lay))) by (intros t Ht; destruct lay; vm_compute in Ht |- *; tauto).
    specialize (C (dw lay) (dc lay) [dx lay] [] xs l). cbv zeta in C.
    destruct (insert_via _ xs _) as [[c1 w1] it|?|]; [|discriminate F1..].
    specialize (C c1 w1 it (d_reach lay) G I eq_refl 2). rewrite F1 in C. change (of_type 2 l) with [3; 5] in C. clear - C.
    repeat match goal with Q : subseq (_ :: _) _ |- _ => inversion Q; clear Q; subst | Q : subseq [] _ |- _ => fail 1 | _ => idtac end.
Qed.

Print Assumptions C77_inserter.
Print Assumptions C77_inserter_exact.
Print Assumptions C77_inserter_one_type.
Print Assumptions C77_order_refuted.
