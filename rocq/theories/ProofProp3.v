(** * Facts about all operations: registration is kept, allocators are kept *)

From Coq Require Import List Arith Lia Bool Permutation.
From Verif Require Import Base Vec Backend Segment Coll Spec Reach ProofBase ProofVec ProofBackend ProofOps ProofOps2
  ProofSeg ProofMap ProofView ProofColl ProofIns ProofEach ProofErase ProofRange ProofRange2 ProofEq ProofCopy ProofReach ProofObs ProofProp ProofProp2.
Import ListNotations.

Section PProp3.
Context {V : Type} {E : Env V}.
Notation CW := (coll V * world)%type.

(** ** Assignment between variables *)
Lemma set_nth_length i (c : coll V) g : i < length g -> length (set_nth i c g) = length g.
Proof. intros H. unfold set_nth. rewrite app_length, firstn_length. cbn [length]. rewrite skipn_length. lia. Qed.
Lemma same_content_refl (c : coll V) : same_content c c.
Proof. split; auto. Qed.

Lemma pick (g : list (coll V)) i c : nth_error g i = Some c -> exists g', Permutation g (c :: g') /\
  (forall j x, j <> i -> nth_error g j = Some x -> In x g') /\
  forall c', Permutation (set_nth i c' g) (c' :: g').
Proof.
  revert g. induction i as [|i IH]; intros [|a g] H; simpl in H; try discriminate.
  - inversion H; subst. exists g. csplit; auto.
    + intros [|j] x Hj Hx; [congruence|]. simpl in Hx. eapply nth_error_In; eauto.
  - destruct (IH g H) as (g' & P & I & S). exists (a :: g'). csplit.
    + eapply perm_trans; [apply perm_skip; exact P|apply perm_swap].
    + intros [|j] x Hj Hx; simpl in Hx; [inversion Hx; left; auto|]. right. apply (I j x); [congruence|exact Hx].
    + intros c'. change (set_nth (Datatypes.S i) c' (a :: g)) with (a :: set_nth i c' g). eapply perm_trans; [apply perm_skip; apply S|apply perm_swap].
Qed.

Lemma pick2 (g : list (coll V)) i j c x : nth_error g i = Some c -> nth_error g j = Some x -> i <> j -> exists r,
  Permutation g (c :: x :: r) /\ forall a b, Permutation (set_nth i a (set_nth j b g)) (a :: b :: r).
Proof.
  revert g j. induction i as [|i IH]; intros [|y g] [|j] Hi Hj Ne; simpl in Hi, Hj; try discriminate; try congruence.
  - inversion Hi; subst. destruct (pick _ _ _ Hj) as (r & P & _ & S). exists r. split; [constructor; exact P|].
    intros a b. change (Permutation (a :: set_nth j b g) (a :: b :: r)). constructor. apply S.
  - inversion Hj; subst. destruct (pick _ _ _ Hi) as (r & P & _ & S). exists r. split.
    + eapply perm_trans; [apply perm_skip; exact P|apply perm_swap].
    + intros a b. change (Permutation (b :: set_nth i a g) (a :: b :: r)). eapply perm_trans; [apply perm_skip, S|apply perm_swap].
  - destruct (IH g j Hi Hj) as (r & P & S); [congruence|]. exists (y :: r).
    assert (M : forall a b : coll V, Permutation (y :: a :: b :: r) (a :: b :: y :: r)).
    { intros a b. eapply perm_trans; [apply perm_swap|]. constructor. apply perm_swap. }
    split.
    + eapply perm_trans; [apply perm_skip; exact P|apply M].
    + intros a b. change (Permutation (y :: set_nth i a (set_nth j b g)) (a :: b :: y :: r)). eapply perm_trans; [apply perm_skip, S|apply M].
Qed.

Lemma spec_assign_var w g d i j c x : reach w g d -> nth_error g i = Some c -> nth_error g j = Some x ->
  wp (c_assign_var i j) (g, w)
    (fun '(g', w') _ => reach w' g' d /\ (i = j -> g' = g /\ w' = w) /\
       (forall k, k <> i -> nth_error g' k = nth_error g k) /\
       exists c', nth_error g' i = Some c' /\ same_content x c')
    (fun '(g', w') e => reach w' g' d /\ i <> j /\ copy_threw true x w w' e /\
       (forall k, k <> i -> nth_error g' k = nth_error g k) /\
       exists c', nth_error g' i = Some c' /\ blank c').
Proof.
  intros H Hi Hj. unfold wp, c_assign_var. cbn [fst snd]. destruct (Nat.eqb_spec i j) as [->|Ne].
  - csplit; auto. exists x. split; auto. apply same_content_refl.
  - rewrite Hi, Hj. destruct (pick _ _ _ Hi) as (g' & P & I & S).
    assert (Hx : In x g') by (eapply I; eauto).
    assert (Hlen : i < length g) by (apply nth_error_Some; congruence).
    pose proof (r_perm _ _ _ _ _ H P (Permutation_refl _)) as H'. apply r_weaken in H'.
    destruct (in_split _ _ Hx) as (g1 & g2 & Eg). assert (Px : Permutation g' (x :: g1 ++ g2)) by (rewrite Eg; symmetry; apply Permutation_middle).
    pose proof (r_perm _ _ _ _ _ H' Px (Permutation_refl _)) as H2.
    pose proof (spec_assign _ _ _ _ _ H' Hx) as Q. unfold wp in Q.
    destruct (c_copy_assign x (c, w)) as [[c' w'] []|[c' w'] e|] eqn:Ec; [| |exact Q].
    + destruct Q as (Q1 & Q2 & Q3). csplit.
      * eapply r_perm; [eapply r_assign; eauto| |apply Permutation_refl]. symmetry. rewrite S. constructor. exact Px.
      * congruence.
      * intros k Hk. rewrite nth_set_nth by auto. destruct (Nat.eqb_spec k i); congruence.
      * exists c'. split; auto. rewrite nth_set_nth by auto. rewrite Nat.eqb_refl. auto.
    + destruct Q as (Q1 & Q2). csplit; auto.
      * eapply r_perm; [eapply r_assign_exn; eauto| |apply Permutation_refl]. symmetry. rewrite S. constructor. exact Px.
      * intros k Hk. rewrite nth_set_nth by auto. destruct (Nat.eqb_spec k i); congruence.
      * exists c'. split; auto. rewrite nth_set_nth by auto. rewrite Nat.eqb_refl. auto.
Qed.

Lemma spec_move_assign_var w g d i j c x : reach w g d -> nth_error g i = Some c -> nth_error g j = Some x ->
  wp (c_move_assign_var i j) (g, w)
    (fun '(g', w') _ => (i = j -> g' = g /\ w' = w) /\
       (forall k, k <> i -> k <> j -> nth_error g' k = nth_error g k) /\
       (i <> j -> exists x' r, nth_error g' j = Some x' /\ Permutation g' (x' :: r) /\ reach w' r (x' :: d) /\ drained x x' /\
          (env_umap_clears = true \/ env_pocma = true \/ c_al c = c_al x -> blank x' /\ reach w' g' d)) /\
       exists c', nth_error g' i = Some c' /\ same_content x c')
    (fun '(g', w') e => reach w' g' d /\ i <> j /\ copy_threw false x w w' e /\
       (forall k, k <> i -> k <> j -> nth_error g' k = nth_error g k) /\
       exists c' x', nth_error g' i = Some c' /\ nth_error g' j = Some x' /\ blank c' /\ blank x').
Proof.
  intros H Hi Hj. unfold wp, c_move_assign_var. cbn [fst snd]. destruct (Nat.eqb_spec i j) as [->|Ne].
  - csplit; auto; [congruence|]. exists x. split; auto. apply same_content_refl.
  - rewrite Hi, Hj. destruct (pick2 _ _ _ _ _ Hi Hj Ne) as (r & P & S).
    assert (Hlen : i < length g) by (apply nth_error_Some; congruence).
    assert (Hlen' : j < length g) by (apply nth_error_Some; congruence).
    pose proof (r_perm _ _ _ _ _ H P (Permutation_refl _)) as H2. apply r_weaken in H2.
    pose proof (spec_move_assign _ _ _ _ _ H2) as Q. unfold wp in Q.
    assert (N : forall a b k, nth_error (set_nth i a (set_nth j b g)) k = if k =? i then Some a else if k =? j then Some b else nth_error g k).
    { intros a b k. rewrite nth_set_nth by (rewrite set_nth_length; auto). rewrite nth_set_nth by auto. auto. }
    destruct (c_move_assign ((c, x), w)) as [[[c' x'] w'] []|[[c' x'] w'] e|] eqn:Ec; [| |exact Q].
    + destruct Q as (Q1 & Q2 & Q3 & Q4 & Q5 & Q6). csplit.
      * congruence.
      * intros k Hk Hk'. rewrite N. destruct (Nat.eqb_spec k i), (Nat.eqb_spec k j); congruence.
      * intros _. exists x', (c' :: r). rewrite N, Nat.eqb_refl. destruct (Nat.eqb_spec j i); [congruence|]. csplit; auto.
        -- eapply perm_trans; [apply S|apply perm_swap].
        -- eapply r_move_assign; eauto.
        -- intros D. split; [destruct D as [Q|Q]; [apply Q6; exact Q|apply Q5; exact Q]|].
           eapply r_perm; [eapply (r_move_assign_src w x r c d); [exact H2|exact Ec|exact D]|symmetry; apply S|apply Permutation_refl].
      * exists c'. split; auto. rewrite N, Nat.eqb_refl. auto.
    + destruct Q as (Q1 & Q2 & Q3 & Q4 & Q5). csplit; auto.
      * eapply r_perm; [eapply r_move_assign_exn; eauto|symmetry; apply S|apply Permutation_refl].
      * intros k Hk Hk'. rewrite N. destruct (Nat.eqb_spec k i), (Nat.eqb_spec k j); congruence.
      * exists c', x'. csplit; auto; rewrite N, ?Nat.eqb_refl; auto. destruct (Nat.eqb_spec j i); [congruence|auto].
Qed.

(** ** No operation forgets a type, reorders segments without need, or changes the allocator *)
Definition kept (c c' : coll V) : Prop :=
  incl (types c) (types c') /\ (incl (types c') (types c) -> types c' = types c) /\ c_al c' = c_al c.

Lemma kept_same (c c' : coll V) : types c' = types c -> c_al c' = c_al c -> kept c c'.
Proof. intros Q A. unfold kept. rewrite Q. csplit; auto. apply incl_refl. Qed.
Lemma kept_content (c c' : coll V) : content c' = content c -> c_al c' = c_al c -> kept c c'.
Proof. intros Q A. apply kept_same; auto. unfold types. rewrite Q. auto. Qed.
Lemma kept_trans (a b c : coll V) : kept a b -> kept b c -> kept a c.
Proof.
  intros (A1 & A2 & A3) (B1 & B2 & B3). unfold kept; csplit; try congruence.
  - eapply incl_tran; eauto.
  - intros I. assert (Q : types b = types a) by (apply A2; eapply incl_tran; eauto). rewrite <- Q. apply B2. rewrite Q. auto.
Qed.
Lemma kept_registered (c c' : coll V) ts : registered c c' ts -> kept c c'.
Proof.
  intros [R1 R2 R3 R4 R5 R6]. unfold kept; csplit; auto.
  - intros t Ht. apply R1. auto.
  - intros I. unfold types. rewrite R3; auto. intros t Ht. apply I, R1. auto.
Qed.
Lemma kept_grew h (c c' : coll V) l : grew h c c' l -> c_al c' = c_al c -> kept c c'.
Proof.
  intros G A. unfold kept; csplit; auto.
  - intros t Ht. apply G. auto.
  - intros I. apply G. intros t Ht. apply I, G. auto.
Qed.
Lemma kept_harmed (c c' : coll V) t m : harmed c c' t m -> kept c c'.
Proof.
  intros [A _ _ _ B]. destruct A as [A|(N & P)]; [apply kept_same; auto|]. unfold kept; csplit; auto.
  - intros x Hx. eapply Permutation_in; [symmetry; exact P|]. right; auto.
  - intros I. exfalso. apply N, I. eapply Permutation_in; [symmetry; exact P|]. left; auto.
Qed.
Lemma kept_inserted (c c' : coll V) t k v : inserted c c' t k v -> kept c c'.
Proof. intros I. eapply kept_grew; [apply (in_grew _ _ _ _ _ I)|apply I]. Qed.
Lemma kept_unchanged (c c' : coll V) : unchanged c c' -> kept c c'.
Proof. intros [U1 _ _ _ U5]. apply kept_content; auto. Qed.
Lemma kept_rejected (c c' : coll V) w w' x k e : rejected c c' w w' x k e -> kept c c'.
Proof. intros [(_ & _ & U)|(_ & H & _)]; [apply kept_unchanged; auto|eapply kept_harmed; eauto]. Qed.
Lemma kept_broke xs hs h (c c' : coll V) w w' l e : broke_off xs hs h c c' w w' l e -> kept c c'.
Proof.
  intros (A & pre & t & v & post & c1 & _ & G & [(hw & _ & Hm & _)|(x & _ & _ & _ & _ & U)]).
  - eapply kept_trans; [eapply kept_grew; [exact G|]|eapply kept_harmed; eauto]. rewrite <- A. symmetry. apply Hm.
  - eapply kept_trans; [eapply kept_grew; [exact G|]|eapply kept_unchanged; eauto]. rewrite <- A. symmetry. apply U.
Qed.
Lemma kept_cut (c c' : coll V) i j : cut c c' i j -> kept c c'.
Proof. intros C. apply kept_same; apply C. Qed.
Lemma kept_same_but (c c' : coll V) t : same_but c c' t -> c_al c' = c_al c -> kept c c'.
Proof.
  intros [A|(N & P)] Al; [apply kept_content; auto|].
  apply (Permutation_map fst) in P. fold (types c') in P. simpl in P. fold (types c) in P.
  apply seg_of_none in N. rewrite <- types_nodes in N. unfold kept; csplit; auto.
  - intros x Hx. eapply Permutation_in; [symmetry; exact P|]. right; auto.
  - intros I. exfalso. apply N, I. eapply Permutation_in; [symmetry; exact P|]. left; auto.
Qed.

Lemma wp_void_mono {A} (m : M CW A) s (Q : CW -> A -> Prop) (Q' : CW -> unit -> Prop) (X X' : CW -> exn -> Prop) :
  wp m s Q X -> (forall s' a, Q s' a -> Q' s' tt) -> (forall s' e, X s' e -> X' s' e) -> wp (void m) s Q' X'.
Proof. unfold wp, void, bind, ret. intros H HQ HX. destruct (m s); simpl; eauto. Qed.

Theorem api_kept w c g d m safe new vals : reach w (c :: g) d -> api g c m safe new vals ->
  wp m (c, w) (fun '(c', w') _ => kept c c') (fun '(c', w') _ => kept c c').
Proof.
  intros H A. destruct A.
  - eapply wp_mono; [eapply spec_register; eauto| |].
    + intros [c' w'] _ R. eapply kept_registered; eauto.
    + intros [c' w'] e (pre & a & post & _ & [R|R] & _); eapply kept_registered; eauto.
  - eapply wp_mono; [eapply spec_reserve; eauto| |].
    + intros [c' w'] _ (R & _). apply kept_content; apply R.
    + intros [c' w'] e (R & Al & _). apply kept_content; auto.
  - eapply wp_mono; [eapply spec_reserve_info; eauto| |].
    + intros [c' w'] _ (_ & R & _). apply kept_content; apply R.
    + intros [c' w'] e [(_ & _ & -> & _)|(_ & R & _ & _ & Al & _)]; apply kept_content; auto.
  - eapply wp_mono; [eapply spec_reserve_type; eauto| |].
    + intros [c' w'] _ R. eapply kept_same_but; apply R.
    + intros [c' w'] e R. eapply kept_same_but; apply R.
  - eapply wp_mono; [eapply spec_shrink; eauto| |].
    + intros [c' w'] _ R. apply kept_content; apply R.
    + intros [c' w'] e (R & _). apply kept_content; apply R.
  - eapply wp_mono; [eapply spec_shrink_info; eauto| |].
    + intros [c' w'] _ (_ & R). apply kept_content; apply R.
    + intros [c' w'] e [(_ & _ & -> & _)|(_ & R & _)]; apply kept_content; auto; apply R.
  - eapply wp_mono; [eapply spec_clear; eauto| |].
    + intros [c' w'] _ R. apply kept_same; apply R.
    + intros [c' w'] e [].
  - eapply wp_mono; [eapply spec_clear_info; eauto| |].
    + intros [c' w'] _ (_ & R). apply kept_same; apply R.
    + intros [c' w'] e (_ & _ & -> & _). apply kept_content; auto.
  - eapply wp_void_mono; [eapply spec_emplace; eauto| |].
    + intros [c' w'] r (R & _). eapply kept_inserted; eauto.
    + intros [c' w'] e (R & _). eapply kept_harmed; eauto.
  - eapply wp_void_mono; [eapply spec_emplace_hint; eauto| |].
    + intros [c' w'] r (R & _). eapply kept_inserted; eauto.
    + intros [c' w'] e (R & _). eapply kept_harmed; eauto.
  - eapply wp_void_mono; [eapply spec_emplace_pos; eauto| |].
    + intros [c' w'] r (R & _). eapply kept_inserted; eauto.
    + intros [c' w'] e (R & _). eapply kept_harmed; eauto.
  - eapply wp_void_mono; [eapply spec_insert; eauto| |].
    + intros [c' w'] r (_ & R & _). eapply kept_inserted; eauto.
    + intros [c' w'] e R. eapply kept_rejected; eauto.
  - eapply wp_void_mono; [eapply spec_insert_hint; eauto| |].
    + intros [c' w'] r (_ & R & _). eapply kept_inserted; eauto.
    + intros [c' w'] e R. eapply kept_rejected; eauto.
  - eapply wp_void_mono; [eapply spec_insert_pos; eauto| |].
    + intros [c' w'] r (R & _). eapply kept_inserted; eauto.
    + intros [c' w'] e (R & _). eapply kept_harmed; eauto.
  - eapply wp_mono; [eapply spec_insert_range; eauto| |].
    + intros [c' w'] r (R & Al). eapply kept_grew; eauto.
    + intros [c' w'] e R. eapply kept_broke; eauto.
  - eapply wp_mono; [eapply spec_insert_range_terminal; eauto| |].
    + intros [c' w'] r (R & Al). eapply kept_grew; eauto.
    + intros [c' w'] e (_ & R & _). eapply kept_harmed; eauto.
  - eapply wp_mono; [eapply spec_insert_hint_range; eauto| |].
    + intros [c' w'] r (R & Al). eapply kept_grew; eauto.
    + intros [c' w'] e R. eapply kept_broke; eauto.
  - eapply wp_mono; [eapply spec_insert_hint_range_terminal; eauto| |].
    + intros [c' w'] r (R & Al). eapply kept_grew; eauto.
    + intros [c' w'] e (_ & R & _). eapply kept_harmed; eauto.
  - eapply wp_mono; [eapply spec_insert_from; eauto| |].
    + intros [c' w'] r (R & Al). eapply kept_grew; eauto.
    + intros [c' w'] e R. eapply kept_broke; eauto.
  - eapply wp_mono; [eapply spec_insert_hint_from; eauto| |].
    + intros [c' w'] r (R & Al). eapply kept_grew; eauto.
    + intros [c' w'] e R. eapply kept_broke; eauto.
  - eapply wp_mono; [eapply spec_insert_local; eauto| |].
    + intros [c' w'] r (R & Al). eapply kept_grew; eauto.
    + intros [c' w'] e R. eapply kept_broke; eauto.
  - eapply wp_mono; [eapply spec_insert_hint_local; eauto| |].
    + intros [c' w'] r (R & Al). eapply kept_grew; eauto.
    + intros [c' w'] e R. eapply kept_broke; eauto.
  - eapply wp_void_mono; [eapply spec_insert_pos_range; eauto| |].
    + intros [c' w'] r (R & _ & Al). eapply kept_grew; eauto.
    + intros [c' w'] e R. eapply kept_broke; eauto.
  - eapply wp_void_mono; [eapply spec_insert_lpos_range; eauto| |].
    + intros [c' w'] r (R & _ & Al). eapply kept_grew; eauto.
    + intros [c' w'] e R. eapply kept_broke; eauto.
  - eapply wp_void_mono; [eapply spec_erase; eauto| |].
    + intros [c' w'] r (R & _). eapply kept_cut; eauto.
    + intros [c' w'] e R. apply kept_same; apply R.
  - eapply wp_void_mono; [eapply spec_erase_local; eauto| |].
    + intros [c' w'] r (R & _). eapply kept_cut; eauto.
    + intros [c' w'] e R. apply kept_same; apply R.
  - eapply wp_void_mono; [eapply spec_erase_range; eauto| |].
    + intros [c' w'] r (R & _). eapply kept_cut; eauto.
    + intros [c' w'] e R. apply kept_same; apply R.
  - eapply wp_void_mono; [eapply spec_erase_local_range; eauto| |].
    + intros [c' w'] r (R & _). eapply kept_cut; eauto.
    + intros [c' w'] e R. apply kept_same; apply R.
Qed.

End PProp3.
