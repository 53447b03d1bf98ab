(** * Iterators kept while a collection changes hands (C80)

    The iterators of End.v remember the end of the map they were obtained from; [kept k y it i] (SpecEnd.v): [it] is the [i]-th position of [y],
    and [y] is the collection it was obtained from or has got its contents from that one by swap, move construction or move
    assignment, in any number of steps, perhaps with other changes in between.  [k] is the kind of the std::unordered_map: the ends of
    its iterators are null or go along with the contents ([k <> EndStays]), or they stay with the object. *)

From Coq Require Import List Arith Lia Bool.
From Verif Require Import Base Vec Backend Segment Coll Spec Reach ProofBase ProofVec ProofBackend ProofSeg ProofMap ProofView ProofColl
  ProofRange ProofReach ProofObs ProofProp ProofProp2 ProofProp3 ProofProp4 ProofProp5 End SpecEnd ProofEnd Properties1 Properties3 Properties4 Demo.
Import ListNotations.

(** ** Obtaining *)

(** begin() and end() are the first and the last position, and may be used on the collection they are from with any standard library. *)
Theorem C80_begin {V} {E : Env V} k w x g d : reach w (e_c x :: g) d ->
  exists it, e_begin k x = Some it /\ obtained x it 0 /\ obtained x (e_end x) (length (flat (e_c x))) /\
    e_traverse k (c_size (e_c x)) x it (e_end x) = Some (flat (e_c x)).
Proof.
  intros H. assert (Q : same_end k (e_id x) (e_id x) = true) by (destruct k; cbn; auto; apply Nat.eqb_refl).
  exists (mkeiter (c_begin (e_c x)) (e_id x)). unfold e_begin. rewrite (e_nsp_same k _ _ _ Q). csplit; try reflexivity.
  - split; [eapply begin_located; eauto|reflexivity].
  - split; [apply end_located|reflexivity].
  - apply e_traverse_same; [exact Q|]. apply (C02_traversal w (e_c x) g d H).
Qed.
Example C80_begin_ex lay : let E := dE lay in reach (dw lay) [e_c (mkecoll (dc lay) 1); dx lay] [] /\ length (flat (dc lay)) = 6.
Proof. intros E0. csplit; [apply d_reach|demo_fact lay]. Qed.

(** ** Handing over *)

(** An iterator keeps its place in the sequence, which the new owner has as it was. *)
Theorem C80_handed {V} {E : Env V} k x y it i : handed k x y -> obtained x it i -> flat (e_c y) = flat (e_c x) /\ kept k y it i.
Proof.
  intros H (L & M). pose proof (handed_same k x y H) as Q. split; [congruence|]. split; [rewrite Q; exact L|].
  exists x. split; [apply handed_inherits, H|exact M].
Qed.
(** [dc] is swapped with [dx], the new owner moved. *)
Definition de lay : ecoll nat := mkecoll (dc lay) 1.
Definition dy lay : ecoll nat := mkecoll (dx lay) 2.
Definition lend (k : endkind) (a b : nat) : nat := match k with EndMoves => a | _ => b end.
Definition dz lay k : ecoll nat := mkecoll (dc lay) (lend k 1 3).
Lemma d_handed lay k : handed (E := dE lay) k (de lay) (dz lay k).
Proof.
  eapply (h_on (E := dE lay) k (de lay) (mkecoll (dc lay) (lend k 1 2))).
  - eapply (h_swap (E := dE lay) k (dw lay) (de lay) (dy lay) [] [] (mkecoll (dx lay) (lend k 2 1))); [apply d_reach|left; reflexivity|].
    destruct k; reflexivity.
  - eapply (h_on (E := dE lay)); [|apply h_here].
    eapply (h_move (E := dE lay) k (dw lay) _ [dx lay] [] 3 (mkecoll (c_empty (c_al (dc lay))) (lend k 3 2))); [apply d_reach|].
    destruct k; reflexivity.
Qed.
Example C80_handed_ex lay k : let E := dE lay in
  handed k (de lay) (dz lay k) /\ obtained (de lay) (mkeiter (it_at (dc lay) 4 0) 1) 5 /\ obtained (de lay) (e_end (de lay)) 6.
Proof.
  intros E0. csplit; [apply d_handed| |]; (split; [|reflexivity]).
  - change (located (dc lay) (it_at (dc lay) 4 0) 5). demo_fact lay.
  - change (located (dc lay) (c_end (dc lay)) 6). demo_fact lay.
Qed.

(** Dereference and comparison work with any standard library, also between old and new iterators. *)
Theorem C80_deref {V} {E : Env V} k w y g d it i : reach w (e_c y :: g) d -> kept k y it i -> i < length (flat (e_c y)) ->
  e_deref y it = nth_error (flat (e_c y)) i.
Proof. intros H (L & _) Hi. eapply deref_located; eauto. Qed.
Theorem C80_equal {V} {E : Env V} k w y g d it i it' j : reach w (e_c y :: g) d -> kept k y it i -> kept k y it' j -> e_eq it it' = (i =? j).
Proof. intros H (L & _) (L' & _). eapply eq_located; eauto. Qed.
(** The end obtained from the first owner and the end of the last. *)
Lemma d_kept lay k t q i : let E := dE lay in located (dc lay) (it_at (dc lay) t q) i -> kept k (dz lay k) (mkeiter (it_at (dc lay) t q) 1) i.
Proof. intros E0 L. apply (C80_handed (E := dE lay) k (de lay) (dz lay k) _ i (d_handed lay k)). split; [exact L|reflexivity]. Qed.
Lemma d_kept_end lay k : kept (E := dE lay) k (dz lay k) (e_end (de lay)) 6.
Proof.
  apply (C80_handed (E := dE lay) k (de lay) (dz lay k) _ 6 (d_handed lay k)). split; [|reflexivity].
  change (located (E := dE lay) (dc lay) (c_end (dc lay)) 6). demo_fact lay.
Qed.
Lemma d_kept_new lay k : kept (E := dE lay) k (dz lay k) (e_end (dz lay k)) 6.
Proof. split; [change (located (E := dE lay) (dc lay) (c_end (dc lay)) 6); demo_fact lay|]. exists (dz lay k). split; [apply i_here|reflexivity]. Qed.
Example C80_deref_ex lay k : let E := dE lay in
  reach (dw lay) [e_c (dz lay k); dx lay] [] /\ kept k (dz lay k) (mkeiter (it_at (dc lay) 4 0) 1) 5 /\ 5 < length (flat (e_c (dz lay k))).
Proof. intros E0. csplit; [apply d_reach|apply d_kept; demo_fact lay|demo_fact lay]. Qed.
Example C80_equal_ex lay k : let E := dE lay in
  reach (dw lay) [e_c (dz lay k); dx lay] [] /\ kept k (dz lay k) (e_end (de lay)) 6 /\ kept k (dz lay k) (e_end (dz lay k)) 6.
Proof. intros E0. csplit; [apply d_reach|apply d_kept_end|apply d_kept_new]. Qed.

(** ** Going on *)

Theorem C80_next {V} {E : Env V} k w y g d it i : reach w (e_c y :: g) d -> kept k y it i -> i < length (flat (e_c y)) -> k <> EndStays ->
  exists it', e_next k y it = Some it' /\ kept k y it' (S i).
Proof.
  intros H P Hi N. pose proof (kept_end k y it i N P) as Q. destruct P as (L & x & I & M).
  destruct (next_located w (e_c y) g d (e_it it) i H L Hi) as (n & Nx & Ln).
  exists (mkeiter n (e_mapend it)). split; [apply e_next_is; auto|]. split; [exact Ln|]. exists x. auto.
Qed.
Example C80_next_ex lay : let E := dE lay in let k := EndMoves in
  reach (dw lay) [e_c (dz lay k); dx lay] [] /\ kept k (dz lay k) (mkeiter (it_at (dc lay) 4 0) 1) 5 /\ 5 < length (flat (e_c (dz lay k))) /\ k <> EndStays.
Proof. intros E0 k. csplit; [apply d_reach|apply d_kept; demo_fact lay|demo_fact lay|discriminate]. Qed.

(** With any standard library if a further element follows. *)
Theorem C80_next_element {V} {E : Env V} k w y g d it i : reach w (e_c y :: g) d -> kept k y it i -> S i < length (flat (e_c y)) ->
  exists it', e_next k y it = Some it' /\ kept k y it' (S i).
Proof.
  intros H (L & x & I & M) Hi.
  destruct (next_located w (e_c y) g d (e_it it) i H L) as (n & Nx & Ln); [lia|].
  exists (mkeiter n (e_mapend it)). split; [apply e_next_is; [exact Nx|]|split; [exact Ln|exists x; auto]].
  right. eapply located_inside; eauto.
Qed.
Example C80_next_element_ex lay : let E := dE lay in let k := EndStays in
  reach (dw lay) [e_c (dz lay k); dx lay] [] /\ kept k (dz lay k) (mkeiter (it_at (dc lay) 1 2) 1) 2 /\ 3 < length (flat (e_c (dz lay k))).
Proof. intros E0 k. csplit; [apply d_reach|apply d_kept; demo_fact lay|demo_fact lay]. Qed.

(** A loop between two of them visits the elements in between. *)
Lemma traverse_kept {V} {E : Env V} k w y g d : reach w (e_c y :: g) d -> forall n first i last j, kept k y first i -> kept k y last j -> j = i + n ->
  k <> EndStays \/ j < length (flat (e_c y)) -> e_traverse k n y first last = Some (firstn n (skipn i (flat (e_c y)))).
Proof.
  intros H. induction n as [|n IH]; intros first i last j Pf Pl -> A.
  - cbn [e_traverse]. rewrite (C80_equal k w y g d first i last (i + 0) H Pf Pl).
    rewrite (proj2 (Nat.eqb_eq i (i + 0))) by lia. reflexivity.
  - cbn [e_traverse]. rewrite (C80_equal k w y g d first i last (i + S n) H Pf Pl).
    rewrite (proj2 (Nat.eqb_neq i (i + S n))) by lia.
    pose proof (located_le w (e_c y) g d (e_it last) (i + S n) H (proj1 Pl)) as Hl.
    rewrite (C80_deref k w y g d first i H Pf) by lia.
    assert (Hn : exists it', e_next k y first = Some it' /\ kept k y it' (S i)).
    { destruct A as [A|A]; [apply (C80_next k w y g d first i H Pf); auto; lia|apply (C80_next_element k w y g d first i H Pf); lia]. }
    destruct Hn as (it' & -> & P'). destruct (nth_error (flat (e_c y)) i) as [v|] eqn:Q.
    2:{ apply nth_error_None in Q. lia. }
    rewrite (IH it' (S i) last (i + S n) P' Pl) by (auto; lia). cbn [option_map].
    rewrite <- (firstn_skipn i (flat (e_c y))) at 2.
    apply nth_error_split in Q. destruct Q as (l1 & l2 & Q & Ql). rewrite Q.
    replace (skipn (S i) (l1 ++ v :: l2)) with l2.
    2:{ rewrite <- Ql. clear. induction l1; cbn in *; auto. }
    replace (skipn i (firstn i (l1 ++ v :: l2) ++ skipn i (l1 ++ v :: l2))) with (v :: l2); [reflexivity|].
    rewrite firstn_skipn. rewrite <- Ql. clear. induction l1; cbn; auto.
Qed.
Theorem C80_traverse {V} {E : Env V} k w y g d first i last j : reach w (e_c y :: g) d -> kept k y first i -> kept k y last j -> i <= j -> k <> EndStays ->
  e_traverse k (j - i) y first last = Some (firstn (j - i) (skipn i (flat (e_c y)))).
Proof. intros H Pf Pl Hij N. apply (traverse_kept k w y g d H (j - i) first i last j); auto; lia. Qed.
Example C80_traverse_ex lay : let E := dE lay in let k := EndMoves in
  reach (dw lay) [e_c (dz lay k); dx lay] [] /\ kept k (dz lay k) (mkeiter (it_at (dc lay) 1 1) 1) 1 /\ kept k (dz lay k) (e_end (de lay)) 6 /\
  kept k (dz lay k) (e_end (dz lay k)) 6 /\ 1 <= 6 /\ k <> EndStays.
Proof. intros E0 k. csplit; [apply d_reach|apply d_kept; demo_fact lay|apply d_kept_end|apply d_kept_new|lia|discriminate]. Qed.
Theorem C80_traverse_elements {V} {E : Env V} k w y g d first i last j : reach w (e_c y :: g) d -> kept k y first i -> kept k y last j -> i <= j ->
  j < length (flat (e_c y)) -> e_traverse k (j - i) y first last = Some (firstn (j - i) (skipn i (flat (e_c y)))).
Proof. intros H Pf Pl Hij N. apply (traverse_kept k w y g d H (j - i) first i last j); auto; lia. Qed.
Example C80_traverse_elements_ex lay : let E := dE lay in let k := EndStays in
  reach (dw lay) [e_c (dz lay k); dx lay] [] /\ kept k (dz lay k) (mkeiter (it_at (dc lay) 1 1) 1) 1 /\
  kept k (dz lay k) (mkeiter (it_at (dc lay) 4 0) 1) 5 /\ 1 <= 5 /\ 5 < length (flat (e_c (dz lay k))).
Proof. intros E0 k. csplit; [apply d_reach|apply d_kept; demo_fact lay|apply d_kept; demo_fact lay|lia|demo_fact lay]. Qed.

(** ** Erasing *)

(** As in C15 and C16, and the result can be used in the same way. *)
Theorem C80_erase {V} {E : Env V} k w y g d pos i : reach w (e_c y :: g) d -> kept k y pos i -> i < length (flat (e_c y)) -> k <> EndStays ->
  wp (e_erase k pos) (y, w)
    (fun '(y', w') it => reach w' (e_c y' :: g) d /\ inherits k y y' /\
       flat (e_c y') = firstn i (flat (e_c y)) ++ skipn (S i) (flat (e_c y)) /\ types (e_c y') = types (e_c y) /\ kept k y' it i)
    (fun '(y', w') e => exists t q, points (e_c y) (e_it pos) t q /\ erase_threw (e_c y) (e_c y') w w' t e).
Proof.
  intros H P Hi N. pose proof (kept_end k y pos i N P) as Q. destruct P as (L & x & I & M).
  eapply wp_mono; [eapply (wp_sim (e_id y)); [apply (sim_erase k (e_id y) pos Q)|reflexivity|eapply C15_erase; [exact H|exact L|exact Hi]]| |].
  - intros [[c' e'] w'] it (b & -> & Qe & H' & Fl & T & Lb & _). cbn [e_c e_id] in *. subst e'. csplit; auto.
    + eapply i_change, i_here.
    + split; [exact Lb|]. exists x. split; [apply inherits_snoc, I|exact M].
  - intros [y' w'] e (_ & X). exact X.
Qed.
Example C80_erase_ex lay : let E := dE lay in let k := EndMoves in
  reach (dw lay) [e_c (dz lay k); dx lay] [] /\ kept k (dz lay k) (mkeiter (it_at (dc lay) 4 0) 1) 5 /\ 5 < length (flat (e_c (dz lay k))) /\ k <> EndStays.
Proof. intros E0 k. csplit; [apply d_reach|apply d_kept; demo_fact lay|demo_fact lay|discriminate]. Qed.

Theorem C80_erase_range {V} {E : Env V} k w y g d first i last j : reach w (e_c y :: g) d -> kept k y first i -> kept k y last j -> i <= j ->
  k <> EndStays ->
  wp (e_erase_range k first last) (y, w)
    (fun '(y', w') it => reach w' (e_c y' :: g) d /\ inherits k y y' /\
       flat (e_c y') = firstn i (flat (e_c y)) ++ skipn j (flat (e_c y)) /\ types (e_c y') = types (e_c y) /\ kept k y' it i)
    (fun '(y', w') e => types (e_c y') = types (e_c y) /\ e = UserExn /\ erase_broke_off (e_c y) (e_c y') w w' i (e_it last) e).
Proof.
  intros H Pf Pl Hij N. pose proof (kept_end k y first i N Pf) as Qf. pose proof (kept_end k y last j N Pl) as Ql.
  pose proof (kept_ends k y first i last j N Pf Pl) as Qfl. destruct Pf as (L & x & I & M). destruct Pl as (Ll & _).
  eapply wp_mono; [eapply (wp_sim (e_id y)); [apply (sim_erase_range k (e_id y) first last Qf Ql Qfl)|reflexivity|eapply C16_erase_range; [exact H|exact L|exact Ll|exact Hij]]| |].
  - intros [[c' e'] w'] it (b & -> & Qe & H' & Fl & T & Lb & _). cbn [e_c e_id] in *. subst e'. csplit; auto.
    + eapply i_change, i_here.
    + split; [exact Lb|]. exists x. split; [apply inherits_snoc, I|exact M].
  - intros [y' w'] e (_ & T & _ & _ & Qe & _ & _ & X). auto.
Qed.
Example C80_erase_range_ex lay : let E := dE lay in let k := EndMoves in
  reach (dw lay) [e_c (dz lay k); dx lay] [] /\ kept k (dz lay k) (mkeiter (it_at (dc lay) 1 1) 1) 1 /\ kept k (dz lay k) (e_end (de lay)) 6 /\
  1 <= 6 /\ k <> EndStays.
Proof. intros E0 k. csplit; [apply d_reach|apply d_kept; demo_fact lay|apply d_kept_end|lia|discriminate]. Qed.

(** ** The standard library matters *)

(** If ends stayed with the map object, ++ on an iterator to the last element would be undefined after a swap and a move, and so
    would be a loop from an old iterator to the old end, or to the new one, and erase(first,end()). *)
Theorem C80_stays_undefined lay : let E := dE lay in let y := dz lay EndStays in let first := mkeiter (it_at (dc lay) 1 1) 1 in
  handed EndStays (de lay) y /\ reach (dw lay) [e_c y; dx lay] [] /\ kept EndStays y first 1 /\ kept EndStays y (e_end (de lay)) 6 /\
  e_next EndStays y (mkeiter (it_at (dc lay) 4 0) 1) = None /\
  (forall n, e_traverse EndStays n y first (e_end (de lay)) = None) /\
  (forall n, e_traverse EndStays n y first (e_end y) = None) /\
  e_erase_range EndStays first (e_end (de lay)) (y, dw lay) = UB.
Proof.
  intros E0 y first.
  assert (T : forall n, e_traverse EndStays n y first (e_end (de lay)) = None /\ e_traverse EndStays n y first (e_end y) = None).
  { intros n. split; (do 6 (destruct n as [|n]; [destruct lay; vm_compute; reflexivity|])); destruct lay; vm_compute; reflexivity. }
  csplit; [apply d_handed|apply d_reach|apply d_kept; demo_fact lay|apply d_kept_end|destruct lay; vm_compute; reflexivity|apply T|apply T|].
  destruct lay; vm_compute; reflexivity.
Qed.

(** With the other kinds the same works. *)
Example C80_null_or_moves_ex lay k : k <> EndStays -> let E := dE lay in let y := dz lay k in let first := mkeiter (it_at (dc lay) 1 1) 1 in
  e_traverse k 5 y first (e_end (de lay)) = Some (skipn 1 (flat (dc lay))).
Proof. intros N. destruct k; [| |contradiction]; destruct lay; vm_compute; reflexivity. Qed.

Print Assumptions C80_begin.
Print Assumptions C80_handed.
Print Assumptions C80_deref.
Print Assumptions C80_equal.
Print Assumptions C80_next.
Print Assumptions C80_next_element.
Print Assumptions C80_traverse.
Print Assumptions C80_traverse_elements.
Print Assumptions C80_erase.
Print Assumptions C80_erase_range.
Print Assumptions C80_stays_undefined.
