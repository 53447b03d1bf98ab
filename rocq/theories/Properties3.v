(** * Erasure, clearing, equality, capacity, stability (C15-C19, C25-C28)

    See the head of Properties1.v for the form of the statements.  [wp m s Q X]: the call [m] in
    state [s] has no undefined behaviour, satisfies [Q] if it returns and [X] if it throws. *)

From Coq Require Import List Arith Lia Bool Permutation.
From Verif Require Import Base Vec Backend Segment Coll Spec Reach ProofBase ProofVec ProofBackend ProofSeg ProofMap ProofView ProofColl
  ProofRange ProofReach ProofObs ProofProp ProofProp2 ProofProp3 ProofProp4 ProofProp5 Demo.
Import ListNotations.

(** ** C15 erase(pos) *)

(** In the terms of traversal: [flat c] is the traversal sequence, [i] the position of the
    erased element in it.  The result refers to what came next, if anything did. *)
Theorem C15_erase {V} {E : Env V} w c g d pos i : reach w (c :: g) d -> located c pos i -> i < length (flat c) ->
  wp (c_erase pos) (c, w)
    (fun '(c', w') it => reach w' (c' :: g) d /\
       flat c' = firstn i (flat c) ++ skipn (S i) (flat c) /\ types c' = types c /\
       located c' it i /\
       (S i < length (flat c) -> it_deref c' it = nth_error (flat c) (S i)) /\
       (S i = length (flat c) -> it = c_end c'))
    (fun '(c', w') e => exists t k, points c pos t k /\ erase_threw c c' w w' t e).
Proof.
  intros H L Hi. destruct (located_points w c g d pos i H L Hi) as (t & k & P & Ei).
  eapply wp_mono; [eapply (api_reach _ w c g d); [exact H|eapply api_erase; exact P|eapply spec_erase; [exact H|exact P]]| |].
  - intros [c' w'] it (H' & Cu & Li). cbn [fst snd] in H'. rewrite <- Ei in Cu, Li.
    pose proof (cut_flat _ _ _ _ Cu) as Fl. unfold remove_range in Fl.
    assert (Ln : length (flat c') = length (flat c) - 1).
    { rewrite Fl, app_length, firstn_length, skipn_length. lia. }
    csplit; auto.
    + apply Cu.
    + intros Hs. rewrite (deref_located w' c' g d it i H' Li) by lia. rewrite Fl.
      rewrite nth_error_app2; rewrite firstn_length; [|lia]. replace (i - Nat.min i (length (flat c))) with 0 by lia.
      rewrite (nth_skipn (S i) (flat c) 0). f_equal. lia.
    + intros Hs. apply (located_inj w' c' g d it (c_end c') i H' Li). replace i with (length (flat c')) by lia. apply end_located.
  - intros [c' w'] e X. exists t, k. auto.
Qed.
Example C15_erase_ex lay : let E := dE lay in
  reach (dw lay) [dc lay; dx lay] [] /\ located (dc lay) (it_at (dc lay) 1 2) 2 /\ 2 < length (flat (dc lay)) /\
  nth_error (flat (dc lay)) 3 = Some (2, 8) /\ located (dc lay) (it_at (dc lay) 4 0) 5 /\ length (flat (dc lay)) = 6.
Proof. demo lay. Qed.

(** Within its segment, with storage and iterators of everything before it ([cut]). *)
Theorem C15_erase_segment {V} {E : Env V} w c g d pos t k : let i := offset (content c) t + k in
  reach w (c :: g) d -> points c pos t k ->
  wp (c_erase pos) (c, w)
    (fun '(c', w') it => cut c c' i (S i) /\ located c' it i /\
       elems c' t = firstn k (elems c t) ++ skipn (S k) (elems c t) /\
       (forall t', t' <> t -> elems c' t' = elems c t'))
    (fun '(c', w') e => erase_threw c c' w w' t e).
Proof.
  intros i H P. eapply wp_mono; [eapply spec_erase; [exact H|exact P]| |]; [|auto].
  intros [c' w'] it (Cu & L). destruct (points_deref w c g d _ _ _ H P) as (Hk & _).
  csplit; auto; destruct (cut_one w c g d c' t k H Hk Cu); auto.
Qed.
Example C15_erase_segment_ex lay : let E := dE lay in
  reach (dw lay) [dc lay; dx lay] [] /\ points (dc lay) (it_at (dc lay) 1 1) 1 1.
Proof. demo lay. Qed.

(** The overload for local iterators; it returns a local iterator to the same position of the
    segment, which may be its end. *)
Theorem C15_erase_local {V} {E : Env V} w c g d pos t k : let i := offset (content c) t + k in
  reach w (c :: g) d -> lpoints c pos t k -> k < length (elems c t) ->
  wp (c_erase_local pos) (c, w)
    (fun '(c', w') l => cut c c' i (S i) /\ lpoints c' l t k /\
       elems c' t = firstn k (elems c t) ++ skipn (S k) (elems c t) /\
       (forall t', t' <> t -> elems c' t' = elems c t'))
    (fun '(c', w') e => erase_threw c c' w w' t e).
Proof.
  intros i H P Hk. eapply wp_mono; [eapply spec_erase_local; [exact H|exact P|exact Hk]| |]; [|auto].
  intros [c' w'] it (Cu & L). csplit; auto; destruct (cut_one w c g d c' t k H Hk Cu); auto.
Qed.
Example C15_erase_local_ex lay : let E := dE lay in
  reach (dw lay) [dc lay; dx lay] [] /\ lpoints (dc lay) (li_base (dc lay) 1 2) 1 2 /\
  lpoints (dc lay) (li_conc (dc lay) 2 0) 2 0 /\ 2 < length (elems (dc lay) 1) /\ 0 < length (elems (dc lay) 2).
Proof. demo lay. Qed.

(** ** C16 erase(first,last) *)

(** If it throws, it has removed the elements of the range that are in segments before that of
    [last], and failed in the latter (erase_broke_off). *)

Theorem C16_erase_range {V} {E : Env V} w c g d first last i j :
  reach w (c :: g) d -> located c first i -> located c last j -> i <= j ->
  wp (c_erase_range first last) (c, w)
    (fun '(c', w') it => reach w' (c' :: g) d /\
       flat c' = firstn i (flat c) ++ skipn j (flat c) /\ types c' = types c /\
       located c' it i /\
       (j < length (flat c) -> it_deref c' it = nth_error (flat c) j) /\
       (j = length (flat c) -> it = c_end c') /\
       cut c c' i j)
    (fun '(c', w') e => types c' = types c /\ c_al c' = c_al c /\ length (flat c') <= length (flat c) /\
       e = UserExn /\ fault_between w w' /\
       (exists t, elems c t <> [] /\ env_assignable t = true /\ env_nt_assign t = false) /\
       erase_broke_off c c' w w' i last e).
Proof.
  intros H Lf Ll Hij.
  eapply wp_mono; [eapply (api_reach _ w c g d); [exact H|eapply api_erase_range; eauto|eapply spec_erase_range; [exact H|exact Lf|exact Ll|exact Hij]]| |]; [|auto].
  intros [c' w'] it (H' & Cu & Li). cbn [fst snd] in H'.
  pose proof (cut_flat _ _ _ _ Cu) as Fl. unfold remove_range in Fl. pose proof (located_le w c g d last j H Ll) as Hj.
  assert (Ln : length (flat c') = length (flat c) - (j - i)).
  { rewrite Fl, app_length, firstn_length, skipn_length. lia. }
  csplit; auto.
  - apply Cu.
  - intros Hs. rewrite (deref_located w' c' g d it i H' Li) by lia. rewrite Fl.
    rewrite nth_error_app2; rewrite firstn_length; [|lia]. replace (i - Nat.min i (length (flat c))) with 0 by lia.
    rewrite (nth_skipn j (flat c) 0). f_equal. lia.
  - intros Hs. apply (located_inj w' c' g d it (c_end c') i H' Li). replace i with (length (flat c')) by lia. apply end_located.
Qed.
(** a range spanning several segments, an empty one among them for one of the layouts *)
Example C16_erase_range_ex lay : let E := dE lay in
  reach (dw lay) [dc lay; dx lay] [] /\ located (dc lay) (it_at (dc lay) 1 1) 1 /\
  located (dc lay) (it_at (dc lay) 4 0) 5 /\ 1 <= 5 /\ located (dc lay) (c_end (dc lay)) 6.
Proof. demo lay. Qed.

Theorem C16_erase_local_range {V} {E : Env V} w c g d first last t f l : let i := offset (content c) t in
  reach w (c :: g) d -> lpoints c first t f -> lpoints c last t l -> f <= l ->
  wp (c_erase_local_range first last) (c, w)
    (fun '(c', w') it => cut c c' (i + f) (i + l) /\ lpoints c' it t f /\
       elems c' t = firstn f (elems c t) ++ skipn l (elems c t) /\
       (forall t', t' <> t -> elems c' t' = elems c t'))
    (fun '(c', w') e => erase_threw c c' w w' t e).
Proof.
  intros i H Pf Pl Hfl. eapply wp_mono; [eapply spec_erase_local_range; [exact H|exact Pf|exact Pl|exact Hfl]| |]; [|auto].
  intros [c' w'] it (Cu & L). pose proof (lpoints_le w c g d _ _ _ H Pl) as Hl.
  csplit; auto; destruct (cut_some w c g d c' t f l H Hl Hfl Cu); auto.
Qed.
Example C16_erase_local_range_ex lay : let E := dE lay in
  reach (dw lay) [dc lay; dx lay] [] /\ lpoints (dc lay) (li_base (dc lay) 1 1) 1 1 /\
  lpoints (dc lay) (li_base (dc lay) 1 3) 1 3 /\ 1 <= 3.
Proof. demo lay. Qed.

(** erase(begin(),end()) empties the collection. *)
Theorem C16_erase_all {V} {E : Env V} w c g d : reach w (c :: g) d ->
  wp (c_erase_range (c_begin c) (c_end c)) (c, w)
    (fun '(c', w') it => flat c' = [] /\ types c' = types c /\ it = c_end c') (fun _ _ => True).
Proof.
  intros H. eapply wp_mono; [eapply C16_erase_range; [exact H|eapply begin_located; eauto|apply end_located|lia]| |]; [|auto].
  intros [c' w'] it (_ & Fl & T & _ & _ & It & _). csplit; auto. rewrite Fl, skipn_all. auto.
Qed.
Example C16_erase_all_ex lay : let E := dE lay in reach (dw lay) [dc lay; dx lay] [] /\ length (flat (dc lay)) = 6.
Proof. demo lay. Qed.

(** ** C17 clear *)

Theorem C17_clear {V} {E : Env V} w c g d : reach w (c :: g) d ->
  wp c_clear (c, w)
    (fun '(c', w') _ => types c' = types c /\ flat c' = [] /\ c_size c' = 0 /\ (forall t, elems c' t = []) /\
       (forall t, cap_of c' t = cap_of c t) /\ c_al c' = c_al c)
    (fun _ _ => False).
Proof.
  intros H. eapply wp_mono; [eapply spec_clear; exact H| |]; [|auto].
  intros [c' w'] _ Wi. assert (Fl : flat c' = []) by (apply no_elems_flat; [rewrite (wi_types _ _ _ Wi); eapply types_nodup; eauto|]; intros t; apply Wi; auto).
  csplit; auto; try apply Wi.
  - rewrite c_size_flat, Fl. auto.
  - intros t. apply Wi. auto.
Qed.
Example C17_clear_ex lay : let E := dE lay in reach (dw lay) [dc lay; dx lay] [] /\ length (flat (dc lay)) = 6.
Proof. demo lay. Qed.

(** clear(info) and clear<T>() *)
Theorem C17_clear_info {V} {E : Env V} w c g d a : let t := env_ty a in reach w (c :: g) d ->
  wp (c_clear_info a) (c, w)
    (fun '(c', w') _ => In t (types c) /\ types c' = types c /\ elems c' t = [] /\ cap_of c' t = cap_of c t /\
       (forall t', t' <> t -> elems c' t' = elems c t') /\ others_kept c c' t /\ other_iters_kept c c' t /\ c_al c' = c_al c)
    (fun '(c', w') e => ~ In t (types c) /\ e = UnregisteredType t /\ c' = c /\ w' = w).
Proof.
  intros t H. eapply wp_mono; [eapply spec_clear_info; exact H| |]; [|auto].
  intros [c' w'] _ (Ht & Wi). fold t in Ht, Wi. csplit; auto; try apply Wi; auto.
  - intros t' Ne. rewrite !elems_seg_at, (wi_others _ _ _ Wi) by congruence. auto.
  - intros t' Ne. apply Wi. congruence.
  - intros t' k Ne. apply Wi. congruence.
Qed.
Example C17_clear_info_ex lay : let E := dE lay in
  reach (dw lay) [dc lay; dx lay] [] /\ In (env_ty 12) (types (dc lay)) /\ elems (dc lay) (env_ty 12) = [5; 6; 7].
Proof. demo lay. Qed.

(** ** C18 Equality *)

(** [coll_eq x y]: for every type, the elements of [x] and [y] of this type have the same number
    and are pairwise equal; types that are not registered have no elements. *)
Theorem C18_equal {V} {E : Env V} w g d x y : reach w g d -> In x g -> In y g ->
  wp (c_equal x y) w
    (fun w' b => (b = true <-> coll_eq x y) /\ w_live w' = w_live w /\ w_objs w' = w_objs w)
    (fun w' e => equal_threw x y w w' e /\ w_live w' = w_live w /\ w_objs w' = w_objs w).
Proof. exact (spec_equal w g d x y). Qed.
Example C18_equal_ex lay : let E := dE lay in
  reach (dw lay) [dc lay; dx lay] [] /\ In (dc lay) [dc lay; dx lay] /\ In (dx lay) [dc lay; dx lay] /\
  done (c_equal (dc lay) (dx lay) (dw lay)) = true /\ done (c_equal (dc lay) (dc lay) (dw lay)) = true.
Proof. cbv zeta. csplit; try demo_fact lay; simpl; auto. Qed.

(** Two successful comparisons of collections with the same elements per type give the same
    answer: neither the order of the segments, nor registered types without elements, nor the
    rest of the history matters. *)
Theorem C18_order_irrelevant {V} {E : Env V} w g d x y w' g' d' x' y' w1 b w1' b' :
  reach w g d -> In x g -> In y g -> reach w' g' d' -> In x' g' -> In y' g' ->
  (forall t, elems x' t = elems x t) -> (forall t, elems y' t = elems y t) ->
  c_equal x y w = Ok w1 b -> c_equal x' y' w' = Ok w1' b' -> b = b'.
Proof.
  intros H Hx Hy H' Hx' Hy' Ex Ey Q Q'.
  pose proof (spec_equal w g d x y H Hx Hy) as A. pose proof (spec_equal w' g' d' x' y' H' Hx' Hy') as A'.
  unfold wp in A, A'. rewrite Q in A. rewrite Q' in A'. destruct A as (A & _), A' as (A' & _).
  assert (Z : coll_eq x' y' <-> coll_eq x y).
  { unfold coll_eq. split; intros Z t; specialize (Z t); rewrite ?Ex, ?Ey in *; auto. }
  destruct b, b'; auto.
  - symmetry. apply A', Z, A. auto.
  - apply A, Z, A'. auto.
Qed.
(** a copy has its segments in another order *)
Definition dy lay : outcome world (coll nat) := c_copy (E := dE lay) (dc lay) (dw lay).
Example C18_order_irrelevant_ex lay : let E := dE lay in
  exists w' y, dy lay = Ok w' y /\ reach w' [y; dc lay; dx lay] [] /\
    (forall t, elems y t = elems (dc lay) t) /\ done (c_equal (dc lay) y w') = true.
Proof.
  cbv zeta. pose proof (spec_copy (E := dE lay) (dw lay) [dc lay; dx lay] [] (dc lay) (d_reach lay) (or_introl eq_refl)) as H.
  unfold wp in H. fold (dy lay) in H. assert (Dn : done (dy lay) = true) by demo_fact lay.
  destruct (dy lay) as [w' y| |] eqn:Q; try discriminate. exists w', y. destruct H as (S & _ & _ & H). csplit; auto.
  - intros t. unfold elems. rewrite (proj2 S). auto.
  - assert (Z : match dy lay with Ok w' y => done (c_equal (E := dE lay) (dc lay) y w') | _ => false end = true) by demo_fact lay.
    rewrite Q in Z. exact Z.
Qed.

(** Equality of collections is an equivalence as far as equality of elements is. *)
Theorem C18_reflexive {V} {E : Env V} w g d x : reach w g d -> In x g ->
  (forall t v, In v (elems x t) -> env_veq t v v = true) ->
  wp (c_equal x x) w (fun _ b => b = true) (fun _ _ => True).
Proof.
  intros H Hx R. eapply wp_mono; [eapply spec_equal; [exact H|exact Hx|exact Hx]| |]; [|auto].
  intros w' b (B & _). apply B. intros t. unfold veqs. specialize (R t).
  induction (elems x t); constructor; auto. + apply R. left; auto. + apply IHl. intros v Hv. apply R. right; auto.
Qed.
Example C18_reflexive_ex lay : let E := dE lay in
  reach (dw lay) [dc lay; dx lay] [] /\ In (dc lay) [dc lay; dx lay] /\
  (forall t v, In v (elems (dc lay) t) -> env_veq t v v = true) /\ done (c_equal (dc lay) (dc lay) (dw lay)) = true.
Proof. cbv zeta. csplit; try demo_fact lay; simpl; auto. intros t v _. apply Nat.eqb_refl. Qed.

Theorem C18_symmetric {V} {E : Env V} w g d x y w1 w2 b1 b2 : reach w g d -> In x g -> In y g ->
  (forall t a b, env_veq t a b = env_veq t b a) ->
  c_equal x y w = Ok w1 b1 -> c_equal y x w = Ok w2 b2 -> b1 = b2.
Proof.
  intros H Hx Hy S Q1 Q2.
  pose proof (spec_equal w g d x y H Hx Hy) as A. pose proof (spec_equal w g d y x H Hy Hx) as B.
  unfold wp in A, B. rewrite Q1 in A. rewrite Q2 in B. destruct A as (A & _), B as (B & _).
  assert (Sy : forall x y, coll_eq x y -> coll_eq y x).
  { intros p q Z t. specialize (Z t). unfold veqs in *. induction Z; constructor; auto. rewrite S. auto. }
  destruct b1, b2; auto.
  - symmetry. apply B, Sy, A. auto.
  - apply A, Sy, B. auto.
Qed.
Example C18_symmetric_ex lay : let E := dE lay in
  reach (dw lay) [dc lay; dx lay] [] /\ In (dc lay) [dc lay; dx lay] /\ In (dx lay) [dc lay; dx lay] /\
  (forall t a b, env_veq t a b = env_veq t b a) /\
  done (c_equal (dc lay) (dx lay) (dw lay)) = true /\ done (c_equal (dx lay) (dc lay) (dw lay)) = true.
Proof. cbv zeta. csplit; try demo_fact lay; simpl; auto. intros t a b. apply Nat.eqb_sym. Qed.

Theorem C18_transitive {V} {E : Env V} w g d x y z w1 w2 : reach w g d -> In x g -> In y g -> In z g ->
  (forall t a b c, env_veq t a b = true -> env_veq t b c = true -> env_veq t a c = true) ->
  c_equal x y w = Ok w1 true -> c_equal y z w = Ok w2 true ->
  wp (c_equal x z) w (fun _ b => b = true) (fun _ _ => True).
Proof.
  intros H Hx Hy Hz T Q1 Q2.
  pose proof (spec_equal w g d x y H Hx Hy) as A. pose proof (spec_equal w g d y z H Hy Hz) as B.
  unfold wp in A, B. rewrite Q1 in A. rewrite Q2 in B. destruct A as (A & _), B as (B & _).
  eapply wp_mono; [eapply spec_equal; [exact H|exact Hx|exact Hz]| |]; [|auto].
  intros w' b (C & _). apply C. intros t. pose proof (proj1 A eq_refl t) as X. pose proof (proj1 B eq_refl t) as Y.
  unfold veqs in *. revert Y. generalize (elems z t). induction X; intros zs Y; inversion Y; subst; constructor; eauto.
Qed.
Example C18_transitive_ex lay : let E := dE lay in
  reach (dw lay) [dc lay; dx lay] [] /\ In (dc lay) [dc lay; dx lay] /\
  (forall t a b c, env_veq t a b = true -> env_veq t b c = true -> env_veq t a c = true) /\
  match c_equal (dc lay) (dc lay) (dw lay) with Ok _ b => b = true | _ => False end.
Proof.
  cbv zeta. csplit; try demo_fact lay; simpl; auto.
  intros t a b c A B. apply Nat.eqb_eq in A, B. apply Nat.eqb_eq. congruence.
Qed.

(** ** C19 not_equality_comparable *)

(** It is thrown only for a type that is not equality comparable and of which both collections
    hold the same non-zero number of elements; other exceptions come from element comparisons. *)
Theorem C19_thrown_only_if {V} {E : Env V} w g d x y w' e : reach w g d -> In x g -> In y g ->
  c_equal x y w = Exn w' e ->
  (e = UserExn /\ fault_between w w' /\ exists t, env_eqcomp t = true /\
     0 < length (elems x t) /\ length (elems x t) = length (elems y t)) \/
  (exists t, e = NotEqualityComparable t /\ env_eqcomp t = false /\
     0 < length (elems x t) /\ length (elems x t) = length (elems y t)).
Proof.
  intros H Hx Hy Q. pose proof (spec_equal w g d x y H Hx Hy) as A. unfold wp in A. rewrite Q in A.
  destruct A as ([(A1 & A2 & t & A3 & A4 & A5)|(t & A1 & A2 & A3 & A4)] & _); [left; csplit; auto|right]; exists t; csplit; auto;
    destruct (elems x t); try congruence; simpl; lia.
Qed.
Example C19_thrown_only_if_ex lay : let E := dE lay in
  reach (dw lay) [dc lay; dx lay] [] /\ In (dx lay) [dc lay; dx lay] /\
  match c_equal (dx lay) (dx lay) (dw lay) with Exn _ e => e = NotEqualityComparable 6 | _ => False end.
Proof. cbv zeta. csplit; try demo_fact lay; simpl; auto. Qed.

(** If every type stored in equal numbers is comparable and no comparison throws, operator== does
    not throw. *)
Theorem C19_never_otherwise {V} {E : Env V} w g d x y : reach w g d -> In x g -> In y g ->
  (forall t, elems x t <> [] -> length (elems x t) = length (elems y t) -> env_eqcomp t = true) ->
  (forall k, env_fault k = false) ->
  exists w' b, c_equal x y w = Ok w' b /\ (b = true <-> coll_eq x y).
Proof.
  intros H Hx Hy C F. pose proof (spec_equal w g d x y H Hx Hy) as A. unfold wp in A.
  destruct (c_equal x y w) as [w' b|w' e|]; [exists w', b; tauto| |contradiction].
  destruct A as ([(_ & (k & _ & A) & _)|(t & A1 & A2 & A3 & A4)] & _); [rewrite F in A; discriminate|].
  rewrite (C t A3 A4) in A2. discriminate.
Qed.
Example C19_never_otherwise_ex lay : let E := dE lay in
  reach (dw lay) [dc lay; dx lay] [] /\ In (dc lay) [dc lay; dx lay] /\ In (dx lay) [dc lay; dx lay] /\
  (forall t, elems (dc lay) t <> [] -> length (elems (dc lay) t) = length (elems (dx lay) t) -> env_eqcomp t = true) /\
  (forall k, env_fault k = false) /\ elems (dx lay) 6 = [3] /\ env_eqcomp 6 = false.
Proof.
  cbv zeta. csplit; try demo_fact lay; simpl; auto. intros t N L. destruct (Nat.eqb_spec t 6) as [->|]; auto.
  exfalso. apply N. demo_fact lay.
Qed.

(** ** C25 reserve and capacity *)

(** In every reachable state, capacity() of a type is at least size(). *)
Theorem C25_capacity_bounds_size {V} {E : Env V} w c g d a : let t := env_ty a in reach w (c :: g) d ->
  query (c_capacity_of a) c w t (fun n => n = cap_of c t /\ length (elems c t) <= n /\ n <= env_vmax t).
Proof.
  intros t H. unfold query, c_capacity_of. eapply wp_by_info; [exact H| |auto]. intros s Hs Ws Et. csplit; auto.
  - destruct (seg_at_in _ _ _ Hs) as (n & Hin & Ht & _). rewrite types_nodes. unfold t. rewrite <- Ht. exact (in_map n_ty _ _ Hin).
  - unfold cap_of, t. rewrite Hs. auto.
  - rewrite elems_seg_at. unfold t. rewrite Hs. apply (wfb_store _ _ (wfb_0 _ _ (wfs_be _ Ws))).
  - unfold t. rewrite <- Et. apply (wfb_store _ _ (wfb_0 _ _ (wfs_be _ Ws))).
Qed.
Example C25_capacity_bounds_size_ex lay : let E := dE lay in
  reach (dw lay) [dc lay; dx lay] [] /\ In (env_ty 10) (types (dc lay)).
Proof. demo lay. Qed.

(** [reserved c c' n P]: contents are kept, capacities of the types [P] are now the larger of
    [n] and the previous capacity, the others did not change. *)
Theorem C25_reserve_all {V} {E : Env V} w c g d n : reach w (c :: g) d ->
  wp (c_reserve_all n) (c, w)
    (fun '(c', w') _ => reserved c c' n (fun _ => True) /\ (forall t, In t (types c) -> n <= cap_of c' t))
    (fun '(c', w') e => content c' = content c /\ c_al c' = c_al c /\
       exists t, In t (types c) /\ reserve_threw c t n w w' e).
Proof.
  intros H. eapply wp_mono; [eapply spec_reserve; exact H| |]; [|auto].
  intros [c' w'] _ (R & _). split; auto. intros t Ht. rewrite (rs_cap _ _ _ _ R); auto. lia.
Qed.
Example C25_reserve_all_ex lay : let E := dE lay in
  reach (dw lay) [dc lay; dx lay] [] /\ done (c_reserve_all 20 (dc lay, dw lay)) = true.
Proof. demo lay. Qed.

Theorem C25_reserve_info {V} {E : Env V} w c g d a n : let t := env_ty a in reach w (c :: g) d ->
  wp (c_reserve_info a n) (c, w)
    (fun '(c', w') _ => In t (types c) /\ reserved c c' n (eq t) /\ n <= cap_of c' t)
    (fun '(c', w') e =>
       (~ In t (types c) /\ e = UnregisteredType t /\ c' = c /\ w' = w) \/
       (In t (types c) /\ content c' = content c /\ others_kept c c' t /\ other_iters_kept c c' t /\
        c_al c' = c_al c /\ reserve_threw c t n w w' e)).
Proof.
  intros t H. eapply wp_mono; [eapply spec_reserve_info; exact H| |]; [|auto].
  intros [c' w'] _ (Ht & R & _). csplit; auto. fold t in R, Ht. rewrite (rs_cap _ _ _ _ R); auto. lia.
Qed.
Example C25_reserve_info_ex lay : let E := dE lay in
  reach (dw lay) [dc lay; dx lay] [] /\ done (c_reserve_info 10 20 (dc lay, dw lay)) = true /\
  match c_reserve_info 70 20 (dx lay, dw lay) with Exn _ e => e = LengthError | _ => False end.
Proof. demo lay. Qed.

(** reserve<T>(n) registers the type if necessary. *)
Theorem C25_reserve_type {V} {E : Env V} w c g d a n : let t := env_ty a in reach w (c :: g) d ->
  wp (c_reserve_type a n) (c, w)
    (fun '(c', w') _ => same_but c c' t /\ others_kept c c' t /\ In t (types c') /\ n <= cap_of c' t /\
       (In t (types c) -> reserved c c' n (eq t)) /\
       (In t (types c) \/ env_rehash_stable = true -> other_iters_kept c c' t) /\ c_al c' = c_al c)
    (fun '(c', w') e => same_but c c' t /\ others_kept c c' t /\
       (In t (types c) \/ env_rehash_stable = true -> other_iters_kept c c' t) /\ c_al c' = c_al c /\
       (reserve_threw c t n w w' e \/ make_threw t w w' e)).
Proof. intros t H. eapply wp_mono; [eapply spec_reserve_type; exact H| |]; [|auto]. intros [c' w'] _ R. tauto. Qed.
Example C25_reserve_type_ex lay : let E := dE lay in
  reach (dw lay) [dc lay; dx lay] [] /\ done (c_reserve_type 10 20 (dc lay, dw lay)) = true /\
  done (c_reserve_type 50 20 (dc lay, dw lay)) = true /\ ~ In (env_ty 50) (types (dc lay)).
Proof. demo lay. Qed.

(** No call except shrink_to_fit decreases a capacity. *)
Theorem C25_capacity_monotone {V} {E : Env V} w c g d m safe new vals : reach w (c :: g) d -> api g c m safe new vals ->
  m = c_shrink_all \/ (exists a, m = c_shrink_info a) \/
  wp m (c, w) (fun '(c', w') _ => forall t, cap_of c t <= cap_of c' t) (fun _ _ => True).
Proof. exact (api_cap w c g d m safe new vals). Qed.
Example C25_capacity_monotone_ex lay : let E := dE lay in
  reach (dw lay) [dc lay; dx lay] [] /\ exists safe new vals, api [dx lay] (dc lay) (void (c_erase (it_at (dc lay) 1 1))) safe new vals.
Proof.
  cbv zeta. split; [apply d_reach|]. do 3 eexists. refine (api_erase (E := dE lay) [dx lay] (dc lay) _ 1 1 _). demo_fact lay.
Qed.

(** An insertion for which there is capacity keeps the capacity and moves nothing before the
    insertion point: here for emplace at the end, where all addresses stay. *)
Theorem C25_within_capacity {V} {E : Env V} w c g d a x v : let t := env_ty a in
  reach w (c :: g) d -> src_c c t HEmplace x v -> In t (types c) -> length (elems c t) < cap_of c t ->
  wp (c_emplace a x) (c, w)
    (fun '(c', w') _ => elems c' t = elems c t ++ [v] /\ cap_of c' t = cap_of c t /\
       (forall k, k < length (elems c t) -> addr_of c' t k = addr_of c t k) /\
       (forall k, k < length (elems c t) -> kept_at c c' t k))
    (fun '(c', w') e => refused c c' w w' t HEmplace (length (elems c t)) e).
Proof.
  intros t H Hx Ht Lt. eapply wp_mono; [eapply spec_emplace; [exact H|exact Hx]| |]; [|auto].
  intros [c' w'] it (I & _). fold t in I. pose proof (in_grew _ _ _ _ _ I) as G.
  assert (El : elems c' t = elems c t ++ [v]).
  { rewrite (g_elems _ _ _ _ G). unfold slot, of_type. rewrite Nat.eqb_refl. simpl.
    rewrite Nat.eqb_refl. simpl. rewrite firstn_all, skipn_all. auto. }
  assert (Ll : length (elems c' t) <= cap_of c t) by (rewrite El, app_length; simpl; lia).
  assert (Sl : slot (Some (t, length (elems c t))) c t = length (elems c t)) by (unfold slot; rewrite Nat.eqb_refl; auto).
  csplit; auto.
  - apply (g_cap _ _ _ _ G); auto.
  - intros k Hk. apply (g_stable _ _ _ _ G); auto. rewrite Sl. auto.
  - intros k Hk. apply (g_iters _ _ _ _ G); auto; [|rewrite Sl; auto]. left. intros y [<-|[]]. auto.
Qed.
Example C25_within_capacity_ex lay : let E := dE lay in
  reach (snd (dr lay)) [fst (dr lay); dx lay] [] /\ src_c (fst (dr lay)) 1 HEmplace (SVal 4) 4 /\ In 1 (types (fst (dr lay))) /\
  elems (fst (dr lay)) 1 = [5; 6; 7] /\ cap_of (fst (dr lay)) 1 = 9.
Proof. cbv zeta. csplit; [apply dr_reach|left; reflexivity|demo_fact lay..]. Qed.

(** ** C26 shrink_to_fit *)

(** [shrunk c c' P]: contents are kept, capacities did not grow, other types than [P] were not
    touched; this holds also if it throws. *)
Theorem C26_shrink_all {V} {E : Env V} w c g d : reach w (c :: g) d ->
  wp c_shrink_all (c, w)
    (fun '(c', w') _ => shrunk c c' (fun _ => True) /\ reach w' (c' :: g) d)
    (fun '(c', w') e => shrunk c c' (fun _ => True) /\ reach w' (c' :: g) d /\
       exists t, In t (types c) /\ shrink_threw c t w w' e).
Proof.
  intros H. eapply wp_mono; [eapply (api_reach_both _ w c g d); [exact H|apply api_shrink|eapply spec_shrink; exact H|intros; exact I]| |].
  - intros [c' w'] r (H' & S). auto.
  - intros [c' w'] e (H' & S & X). auto.
Qed.
Example C26_shrink_all_ex lay : let E := dE lay in
  reach (snd (dr lay)) [fst (dr lay); dx lay] [] /\ done (c_shrink_all (dr lay)) = true /\ cap_of (fst (dr lay)) 1 = 9 /\
  cap_of (fst (state (c_shrink_all (dr lay)))) 1 = 3.
Proof. cbv zeta. csplit; [apply dr_reach|demo_fact lay..]. Qed.

Theorem C26_shrink_info {V} {E : Env V} w c g d a : let t := env_ty a in reach w (c :: g) d ->
  wp (c_shrink_info a) (c, w)
    (fun '(c', w') _ => In t (types c) /\ shrunk c c' (eq t) /\ reach w' (c' :: g) d)
    (fun '(c', w') e =>
       (~ In t (types c) /\ e = UnregisteredType t /\ c' = c /\ w' = w) \/
       (In t (types c) /\ shrunk c c' (eq t) /\ shrink_threw c t w w' e /\ reach w' (c' :: g) d)).
Proof.
  intros t H. eapply wp_mono; [eapply (api_reach_both _ w c g d); [exact H|apply api_shrink_info|eapply spec_shrink_info; exact H|intros; exact I]| |].
  - intros [c' w'] r (H' & S & X). auto.
  - intros [c' w'] e (H' & [S|(S1 & S2 & S3)]); auto.
Qed.
Example C26_shrink_info_ex lay : let E := dE lay in
  reach (snd (dr lay)) [fst (dr lay); dx lay] [] /\ done (c_shrink_info 10 (dr lay)) = true /\
  cap_of (fst (state (c_shrink_info 10 (dr lay)))) 1 = 3.
Proof. cbv zeta. csplit; [apply dr_reach|demo_fact lay..]. Qed.

(** ** C27 Stability on erasure *)

(** Everything before the erased positions, and everything in segments where nothing is erased,
    stays where it is, and iterators and local iterators to it stay valid; so does end(). *)
Theorem C27_erase_range {V} {E : Env V} w c g d first last i j :
  reach w (c :: g) d -> located c first i -> located c last j -> i <= j ->
  wp (c_erase_range first last) (c, w)
    (fun '(c', w') _ =>
       (forall it k, k < i -> located c it k -> located c' it k) /\
       (forall t k, offset (content c) t + k < i -> k < length (elems c t) ->
          addr_of c' t k = addr_of c t k /\ kept_at c c' t k) /\
       (forall t k, elems c' t = elems c t -> addr_of c' t k = addr_of c t k /\ kept_at c c' t k) /\
       (forall t, cap_of c' t = cap_of c t) /\
       c_end c' = c_end c)
    (fun _ _ => True).
Proof.
  intros H Lf Ll Hij. eapply wp_mono; [eapply spec_erase_range; [exact H|exact Lf|exact Ll|exact Hij]| |]; [|auto].
  intros [c' w'] it (Cu & _). apply (cut_before w c g d c' i j H Hij); auto. eapply located_le; eauto.
Qed.
Example C27_erase_range_ex lay : let E := dE lay in
  reach (dw lay) [dc lay; dx lay] [] /\ located (dc lay) (it_at (dc lay) 1 2) 2 /\
  located (dc lay) (it_at (dc lay) 4 0) 5 /\ 2 <= 5 /\ located (dc lay) (it_at (dc lay) 1 1) 1.
Proof. demo lay. Qed.

Theorem C27_erase {V} {E : Env V} w c g d pos i : reach w (c :: g) d -> located c pos i -> i < length (flat c) ->
  wp (c_erase pos) (c, w)
    (fun '(c', w') _ =>
       (forall it k, k < i -> located c it k -> located c' it k) /\
       (forall t k, offset (content c) t + k < i -> k < length (elems c t) ->
          addr_of c' t k = addr_of c t k /\ kept_at c c' t k) /\
       (forall t k, elems c' t = elems c t -> addr_of c' t k = addr_of c t k /\ kept_at c c' t k) /\
       (forall t, cap_of c' t = cap_of c t) /\
       c_end c' = c_end c)
    (fun _ _ => True).
Proof.
  intros H L Hi. destruct (located_points w c g d pos i H L Hi) as (t & k & P & Ei).
  eapply wp_mono; [eapply spec_erase; [exact H|exact P]| |]; [|auto].
  intros [c' w'] it (Cu & _). rewrite <- Ei in Cu. apply (cut_before w c g d c' i (S i) H); auto; lia.
Qed.
Example C27_erase_ex lay : let E := dE lay in
  reach (dw lay) [dc lay; dx lay] [] /\ located (dc lay) (it_at (dc lay) 2 0) 3 /\ 3 < length (flat (dc lay)).
Proof. demo lay. Qed.

(** ** C28 Other segments are not disturbed *)

(** What is left alone when a call acts on type [t], whether or not it throws: elements, capacity
    and addresses of all other types, and the iterators and local iterators to them.  Where the
    call may create a segment, iterators survive if the creation of a segment does not
    invalidate the iterators of the underlying map (see C54). *)
Definition others_alone {V} {E : Env V} (c c' : coll V) (t : tyid) : Prop :=
  forall t', t' <> t ->
    (In t' (types c') <-> In t' (types c)) /\ elems c' t' = elems c t' /\ cap_of c' t' = cap_of c t' /\
    (forall k, addr_of c' t' k = addr_of c t' k) /\
    (In t (types c) \/ env_rehash_stable = true -> forall k, kept_at c c' t' k).
Definition undisturbed {V} {E : Env V} {A} (m : M (coll V * world) A) (c : coll V) (w : world) (t : tyid) : Prop :=
  wp m (c, w) (fun '(c', w') _ => others_alone c c' t) (fun '(c', w') _ => others_alone c c' t).

Lemma others_alone_kept {V} {E : Env V} (c c' : coll V) t :
  others_kept c c' t /\ (In t (types c) \/ env_rehash_stable = true -> other_iters_kept c c' t) -> others_alone c c' t.
Proof.
  intros (K & I) t' N. csplit.
  - rewrite !types_seg_at, (K t' N). tauto.
  - rewrite !elems_seg_at, (K t' N). auto.
  - unfold cap_of. rewrite (K t' N). auto.
  - intros k. unfold addr_of. rewrite (K t' N). auto.
  - intros S k. apply I; auto.
Qed.
Lemma others_alone_cut {V} {E : Env V} w c g d c' t f l : let i := offset (content c) t in
  reach w (c :: g) d -> l <= length (elems c t) -> f <= l -> cut c c' (i + f) (i + l) -> others_alone c c' t.
Proof.
  intros i H Hl Hf Cu t' N. destruct (cut_some w c g d c' t f l H Hl Hf Cu) as (_ & Q). specialize (Q t' N).
  csplit; auto.
  - rewrite (cut_types _ _ _ _ Cu). tauto.
  - apply Cu.
  - intros k. eapply cut_same_addr; eauto.
  - intros _ k. apply (cut_iters _ _ _ _ Cu). rewrite Q. auto.
Qed.

Lemma others_alone_refl {V} {E : Env V} (c : coll V) t : others_alone c c t.
Proof. intros t' N. csplit; auto; [tauto|]. intros _ k. apply kept_refl. Qed.
Lemma others_alone_reserved {V} {E : Env V} (c c' : coll V) n t : reserved c c' n (eq t) -> others_alone c c' t.
Proof.
  intros R t' N. destruct (rs_stable _ _ _ _ R t') as (A & B & C); [congruence|]. csplit; auto.
  - unfold types. rewrite (rs_content _ _ _ _ R). tauto.
  - unfold elems, seg_of. rewrite (rs_content _ _ _ _ R). auto.
Qed.

Theorem C28_emplace {V} {E : Env V} w c g d a x v : let t := env_ty a in
  reach w (c :: g) d -> src_c c t HEmplace x v -> undisturbed (c_emplace a x) c w t.
Proof.
  intros t H Hx. unfold undisturbed. eapply wp_mono; [eapply spec_emplace; [exact H|exact Hx]| |].
  - intros [c' w'] it (I & _). apply others_alone_kept; split; apply I.
  - intros [c' w'] e (I & _). apply others_alone_kept; split; apply I.
Qed.
Example C28_emplace_ex lay : let E := dE lay in
  reach (dw lay) [dc lay; dx lay] [] /\ src_c (dc lay) 1 HEmplace (SVal 4) 4 /\ In 2 (types (dc lay)).
Proof. cbv zeta. csplit; try (left; reflexivity); demo_fact lay. Qed.

Theorem C28_emplace_hint {V} {E : Env V} w c g d hint i k a x v : let t := env_ty a in
  reach w (c :: g) d -> located c hint i -> hint_at c hint t k -> hint_safe c hint t -> src_c c t HEmplace x v ->
  undisturbed (c_emplace_hint hint a x) c w t.
Proof.
  intros t H L Hh Hs Hx. unfold undisturbed.
  eapply wp_mono; [eapply spec_emplace_hint; [exact H|exact L|exact Hh|exact Hs|exact Hx]| |].
  - intros [c' w'] it (I & _). apply others_alone_kept; split; apply I.
  - intros [c' w'] e (I & _). apply others_alone_kept; split; apply I.
Qed.
Example C28_emplace_hint_ex lay : let E := dE lay in
  let it := it_at (dc lay) 1 1 in
  reach (dw lay) [dc lay; dx lay] [] /\ located (dc lay) it 1 /\ hint_at (dc lay) it 1 1 /\
  hint_safe (dc lay) it 1 /\ src_c (dc lay) 1 HEmplace (SVal 4) 4.
Proof. cbv zeta. csplit; [demo_fact lay|demo_fact lay|left; demo_fact lay|right; left; demo_fact lay|left; reflexivity]. Qed.

Theorem C28_emplace_pos {V} {E : Env V} w c g d pos k a x v : let t := env_ty a in
  reach w (c :: g) d -> lpoints c pos t k -> src_c c t HEmplace x v -> undisturbed (c_emplace_pos pos a x) c w t.
Proof.
  intros t H L Hx. unfold undisturbed. eapply wp_mono; [eapply spec_emplace_pos; [exact H|exact L|exact Hx]| |].
  - intros [c' w'] it (I & _). apply others_alone_kept; split; apply I.
  - intros [c' w'] e (I & _). apply others_alone_kept; split; apply I.
Qed.
Example C28_emplace_pos_ex lay : let E := dE lay in
  reach (dw lay) [dc lay; dx lay] [] /\ lpoints (dc lay) (li_base (dc lay) 2 1) (env_ty 20) 1 /\ src_c (dc lay) (env_ty 20) HEmplace (SVal 3) 3.
Proof. cbv zeta. change (env_ty (Env := dE lay) 20) with 2. csplit; [demo_fact lay..|left; reflexivity]. Qed.

Theorem C28_insert {V} {E : Env V} w c g d x v : let t := env_ty (a_dyn x) in
  reach w (c :: g) d -> arg_ok x -> src_c c t (a_how x) (a_src x) v -> undisturbed (c_insert x) c w t.
Proof.
  intros t H A Hx. unfold undisturbed. eapply wp_mono; [eapply spec_insert; [exact H|exact A|exact Hx]| |].
  - intros [c' w'] it (_ & I & _). apply others_alone_kept; split; apply I.
  - intros [c' w'] e [(_ & _ & U)|(_ & I & _)]; apply others_alone_kept; [apply unchanged_others; auto|split; apply I].
Qed.
Example C28_insert_ex lay : let E := dE lay in
  let x := mkarg 10 20 true false HCopy (SVal 3) in
  reach (dw lay) [dc lay; dx lay] [] /\ arg_ok x /\ src_c (dc lay) (env_ty 20) (a_how x) (a_src x) 3.
Proof. cbv zeta. csplit; try (left; reflexivity); try (intros Q; discriminate). demo_fact lay. Qed.

Theorem C28_insert_hint {V} {E : Env V} w c g d hint i k x v : let t := env_ty (a_dyn x) in
  reach w (c :: g) d -> located c hint i -> hint_at c hint t k -> hint_safe c hint t -> arg_ok x -> src_c c t (a_how x) (a_src x) v ->
  undisturbed (c_insert_hint hint x) c w t.
Proof.
  intros t H L Hh Hs A Hx. unfold undisturbed.
  eapply wp_mono; [eapply spec_insert_hint; [exact H|exact L|exact Hh|exact Hs|exact A|exact Hx]| |].
  - intros [c' w'] it (_ & I & _). apply others_alone_kept; split; apply I.
  - intros [c' w'] e [(_ & _ & U)|(_ & I & _)]; apply others_alone_kept; [apply unchanged_others; auto|split; apply I].
Qed.
Example C28_insert_hint_ex lay : let E := dE lay in
  let it := it_at (dc lay) 1 1 in let x := mkarg 10 10 true false HCopy (SVal 3) in
  reach (dw lay) [dc lay; dx lay] [] /\ located (dc lay) it 1 /\ hint_at (dc lay) it 1 1 /\
  hint_safe (dc lay) it 1 /\ arg_ok x /\ src_c (dc lay) 1 HEmplace (SVal 3) 3.
Proof. cbv zeta. csplit; [demo_fact lay|demo_fact lay|left; demo_fact lay|right; left; demo_fact lay|intros Q; discriminate|left; reflexivity]. Qed.

Theorem C28_insert_pos {V} {E : Env V} w c g d pos k x v : let t := env_ty (a_dyn x) in
  reach w (c :: g) d -> lpoints c pos t k -> src_c c t (a_how x) (a_src x) v -> undisturbed (c_insert_pos pos x) c w t.
Proof.
  intros t H L Hx. unfold undisturbed. eapply wp_mono; [eapply spec_insert_pos; [exact H|exact L|exact Hx]| |].
  - intros [c' w'] it (I & _). apply others_alone_kept; split; apply I.
  - intros [c' w'] e (I & _). apply others_alone_kept; split; apply I.
Qed.
Example C28_insert_pos_ex lay : let E := dE lay in
  let x := mkarg 20 20 true false HCopy (SVal 3) in
  reach (dw lay) [dc lay; dx lay] [] /\ lpoints (dc lay) (li_base (dc lay) 2 0) (env_ty (a_dyn x)) 0 /\
  src_c (dc lay) (env_ty (a_dyn x)) (a_how x) (a_src x) 3.
Proof. cbv zeta. change (env_ty (Env := dE lay) (a_dyn _)) with 2. csplit; [demo_fact lay..|left; reflexivity]. Qed.

Theorem C28_erase {V} {E : Env V} w c g d pos t k :
  reach w (c :: g) d -> points c pos t k -> undisturbed (c_erase pos) c w t.
Proof.
  intros H P. unfold undisturbed. destruct (points_deref w c g d _ _ _ H P) as (Hk & _).
  eapply wp_mono; [eapply spec_erase; [exact H|exact P]| |].
  - intros [c' w'] it (Cu & _). apply (others_alone_cut w c g d c' t k (S k)); auto. rewrite Nat.add_succ_r. exact Cu.
  - intros [c' w'] e X. apply others_alone_kept; split; [|intros _]; apply X.
Qed.
Example C28_erase_ex lay : let E := dE lay in
  reach (dw lay) [dc lay; dx lay] [] /\ points (dc lay) (it_at (dc lay) 1 1) 1 1.
Proof. demo lay. Qed.

Theorem C28_erase_local {V} {E : Env V} w c g d pos t k :
  reach w (c :: g) d -> lpoints c pos t k -> k < length (elems c t) -> undisturbed (c_erase_local pos) c w t.
Proof.
  intros H P Hk. unfold undisturbed.
  eapply wp_mono; [eapply spec_erase_local; [exact H|exact P|exact Hk]| |].
  - intros [c' w'] it (Cu & _). apply (others_alone_cut w c g d c' t k (S k)); auto. rewrite Nat.add_succ_r. exact Cu.
  - intros [c' w'] e X. apply others_alone_kept; split; [|intros _]; apply X.
Qed.
Example C28_erase_local_ex lay : let E := dE lay in
  reach (dw lay) [dc lay; dx lay] [] /\ lpoints (dc lay) (li_base (dc lay) 1 2) 1 2 /\ 2 < length (elems (dc lay) 1).
Proof. demo lay. Qed.

Theorem C28_erase_local_range {V} {E : Env V} w c g d first last t f l :
  reach w (c :: g) d -> lpoints c first t f -> lpoints c last t l -> f <= l -> undisturbed (c_erase_local_range first last) c w t.
Proof.
  intros H Pf Pl Hfl. unfold undisturbed.
  eapply wp_mono; [eapply spec_erase_local_range; [exact H|exact Pf|exact Pl|exact Hfl]| |].
  - intros [c' w'] it (Cu & _). apply (others_alone_cut w c g d c' t f l); auto. eapply lpoints_le; eauto.
  - intros [c' w'] e X. apply others_alone_kept; split; [|intros _]; apply X.
Qed.
Example C28_erase_local_range_ex lay : let E := dE lay in
  reach (dw lay) [dc lay; dx lay] [] /\ lpoints (dc lay) (li_base (dc lay) 1 1) 1 1 /\
  lpoints (dc lay) (li_base (dc lay) 1 3) 1 3 /\ 1 <= 3.
Proof. demo lay. Qed.

(** clear(info), reserve(info,n), reserve<T>(n), shrink_to_fit(info) *)
Theorem C28_by_type {V} {E : Env V} w c g d a n : let t := env_ty a in reach w (c :: g) d ->
  undisturbed (c_clear_info a) c w t /\ undisturbed (c_reserve_info a n) c w t /\
  undisturbed (c_reserve_type a n) c w t /\ undisturbed (c_shrink_info a) c w t.
Proof.
  intros t H. csplit; unfold undisturbed.
  - eapply wp_mono; [eapply spec_clear_info; exact H| |].
    + intros [c' w'] _ (_ & W). apply others_alone_kept; split; [intros t' N|intros _ t' k N]; apply W; unfold t in N; congruence.
    + intros [c' w'] e (_ & _ & -> & ->). apply others_alone_refl.
  - eapply wp_mono; [eapply spec_reserve_info; exact H| |].
    + intros [c' w'] _ (Ht & R & _). fold t in Ht, R. apply (others_alone_reserved c c' n t R).
    + intros [c' w'] e [(_ & _ & -> & ->)|(_ & _ & X1 & X2 & _)]; [apply others_alone_refl|apply others_alone_kept; split; auto].
  - eapply wp_mono; [eapply spec_reserve_type; exact H| |].
    + intros [c' w'] _ X. apply others_alone_kept; split; apply X.
    + intros [c' w'] e X. apply others_alone_kept; split; apply X.
  - eapply wp_mono; [eapply spec_shrink_info; exact H| |].
    + intros [c' w'] _ (_ & W). apply others_alone_kept; split; [intros t' N|intros _ t' k N]; apply W; unfold t in N; congruence.
    + intros [c' w'] e [(_ & _ & -> & ->)|(_ & W & _)]; [apply others_alone_refl|].
      apply others_alone_kept; split; [intros t' N|intros _ t' k N]; apply W; unfold t in N; congruence.
Qed.
Example C28_by_type_ex lay : let E := dE lay in
  reach (dw lay) [dc lay; dx lay] [] /\ In (env_ty 10) (types (dc lay)) /\ elems (dc lay) 2 = [8; 9].
Proof. demo lay. Qed.

(** Range insertion: types none of whose elements are in the range, if it succeeds. *)
Theorem C28_insert_range {V} {E : Env V} w c g d xs l t : reach w (c :: g) d -> Forall2 gives xs l -> ~ In t (map fst l) ->
  wp (c_insert_range xs) (c, w)
    (fun '(c', w') _ => seg_at c' t = seg_at c t /\
       (incl (map fst l) (types c) \/ env_rehash_stable = true -> forall k, kept_at c c' t k))
    (fun '(c', w') _ => seg_at c' t = seg_at c t /\
       (incl (map fst l) (types c) \/ env_rehash_stable = true -> forall k, kept_at c c' t k)).
Proof.
  intros H F N. eapply wp_mono; [eapply spec_insert_range; [exact H|exact F]| |].
  - intros [c' w'] _ (G & _). split; [apply G; auto|]. intros S k. eapply g_oiters; eauto.
  - intros [c' w'] e B. eapply broke_off_others; eauto.
Qed.
Example C28_insert_range_ex lay : let E := dE lay in
  reach (dw lay) [dc lay; dx lay] [] /\
  Forall2 gives [mkarg 10 20 true false HCopy (SVal 3); mkarg 10 10 true false HCopy (SVal 4)] [(2, 3); (1, 4)] /\
  ~ In 4 (map fst [(2, 3); (1, 4)]).
Proof.
  cbv zeta. csplit; [demo_fact lay| |simpl; intuition discriminate].
  repeat constructor; try discriminate; reflexivity.
Qed.

(** Every call which inserts elements, whether it succeeds or throws: the types of which it inserts none. *)
Theorem C28_calls {V} {E : Env V} w c g d m safe new vals t :
  reach w (c :: g) d -> api g c m safe new vals -> vals <> [] -> ~ In t (map fst vals) ->
  wp m (c, w)
    (fun '(c', w') _ => seg_at c' t = seg_at c t /\
       (incl (map fst vals) (types c) \/ env_rehash_stable = true -> forall k, kept_at c c' t k))
    (fun '(c', w') _ => seg_at c' t = seg_at c t /\
       (incl (map fst vals) (types c) \/ env_rehash_stable = true -> forall k, kept_at c c' t k)).
Proof. apply api_others. Qed.
Example C28_calls_ex lay : let E := dE lay in
  reach (dw lay) [dc lay; dx lay] [] /\
  api [dx lay] (dc lay) (c_insert_local 10 (env_ty 10) [3; 4]) (fun _ => range_safe None (dc lay) (map (pair (env_ty 10)) [3; 4]))
    (map fst (map (pair (env_ty 10)) [3; 4])) (map (pair (env_ty 10)) [3; 4]) /\
  map (pair (env_ty 10)) [3; 4] <> [] /\ ~ In 2 (map fst (map (pair (env_ty 10)) [3; 4])) /\ elems (dc lay) 2 = [8; 9].
Proof.
  cbv zeta. csplit; [demo_fact lay|apply api_local|intros Q; inversion Q|simpl; intuition discriminate|demo_fact lay].
Qed.

Print Assumptions C15_erase.
Print Assumptions C15_erase_segment.
Print Assumptions C15_erase_local.
Print Assumptions C16_erase_range.
Print Assumptions C16_erase_local_range.
Print Assumptions C16_erase_all.
Print Assumptions C17_clear.
Print Assumptions C17_clear_info.
Print Assumptions C18_equal.
Print Assumptions C18_order_irrelevant.
Print Assumptions C18_reflexive.
Print Assumptions C18_symmetric.
Print Assumptions C18_transitive.
Print Assumptions C19_thrown_only_if.
Print Assumptions C19_never_otherwise.
Print Assumptions C25_capacity_bounds_size.
Print Assumptions C25_reserve_all.
Print Assumptions C25_reserve_info.
Print Assumptions C25_reserve_type.
Print Assumptions C25_capacity_monotone.
Print Assumptions C25_within_capacity.
Print Assumptions C26_shrink_all.
Print Assumptions C26_shrink_info.
Print Assumptions C27_erase_range.
Print Assumptions C27_erase.
Print Assumptions C28_emplace.
Print Assumptions C28_emplace_hint.
Print Assumptions C28_emplace_pos.
Print Assumptions C28_insert.
Print Assumptions C28_insert_hint.
Print Assumptions C28_insert_pos.
Print Assumptions C28_erase.
Print Assumptions C28_erase_local.
Print Assumptions C28_erase_local_range.
Print Assumptions C28_by_type.
Print Assumptions C28_insert_range.
Print Assumptions C28_calls.
