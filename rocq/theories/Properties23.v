(** * Complexity of copying, moving and destroying collections (C64, continued)

    As in Properties16.v, [w_work w] counts the constructions, assignments and destructions of
    elements and of index entries performed so far. *)

From Coq Require Import List Arith Lia Bool Permutation.
From Verif Require Import Base Vec Backend Segment Coll Spec Reach ProofBase ProofVec ProofBackend ProofOps ProofSeg ProofMap ProofView ProofColl ProofCopy
  ProofRange ProofReach ProofObs ProofProp ProofProp2 ProofProp3 ProofProp4 ProofProp5 ProofGrow ProofIns ProofCost ProofCost2 ProofCost3 ProofCost4 ProofCost5 ProofCost6 ProofCost7 ProofCost8
  Demo Properties4 Properties5 Properties16.
Import ListNotations.

Section Bounds.
Context {V : Type} {E : Env V}.

(** What copying a collection may cost: linear in the elements, plus a constant for each
    registered type. *)
Definition copying (x : coll V) : nat := 20 * length (flat x) + 18 * length (types x).
Definition destroying (c : coll V) : nat := 2 * length (flat c) + length (types c).
Definition relocating (x : coll V) : nat := 23 * length (flat x) + 19 * length (types x).

Lemma work_wp {S A} (f : S -> world) (m : M S A) (s : S) (k : nat) Q X : wp m s Q X -> cost f m s k ->
  wp m s (fun s' _ => w_work (f s') <= w_work (f s) + k) (fun s' _ => w_work (f s') <= w_work (f s) + k).
Proof. unfold wp, cost. destruct (m s); auto. Qed.
Lemma copying_eq (x : coll V) : 20 * nsizes (c_nodes x) + 18 * length (c_nodes x) = copying x.
Proof. unfold copying. rewrite sizes_size, length_types, c_size_flat. reflexivity. Qed.
Lemma destroying_le w (c : coll V) : wfc w c -> weights (c_nodes c) <= destroying c.
Proof. intros W. unfold destroying. rewrite <- c_size_flat. apply (weights_size w c W). Qed.
Lemma relocating_le w (x : coll V) : wfc w x -> weights (c_nodes x) + 21 * nsizes (c_nodes x) + 18 * length (c_nodes x) <= relocating x.
Proof. intros W. pose proof (weights_size w x W). rewrite sizes_size, length_types. unfold relocating. rewrite <- c_size_flat. lia. Qed.
End Bounds.

(** The copy constructors, also when they throw.  The index vectors of any_collection and
    function_collection must grow by a third at least. *)
Theorem C64_copy {V} {E : Env V} w x g d al : reach w (x :: g) d ->
  (env_layout = SplitLayout -> forall m, 4 * m <= 3 * env_grow m) ->
  wp (c_copy_al x al) w (fun w' _ => w_work w' <= w_work w + copying x) (fun w' _ => w_work w' <= w_work w + copying x).
Proof.
  intros H G. rewrite <- copying_eq. apply (work_wp (fun w => w) (c_copy_al x al) w _ _ _ (spec_copy_al w (x :: g) d x al H (or_introl eq_refl))).
  apply cost_c_copy_al. exact G.
Qed.
Example C64_copy_ex lay : let E := dE lay in
  reach (dw lay) [dx lay; dc lay] [] /\ (forall m, 4 * m <= 3 * env_grow m) /\ length (flat (dx lay)) = 5 /\ done (c_copy_al (dx lay) 4 (dw lay)) = true.
Proof. cbv zeta. csplit; [demo_fact lay|intros m; change (env_grow (Env := dE lay) m) with (2 * m); lia|demo_fact lay..]. Qed.

(** The destructor *)
Theorem C64_destroy {V} {E : Env V} w c g d : reach w (c :: g) d ->
  wp (c_destroy c) w (fun w' _ => w_work w' <= w_work w + destroying c) (fun _ _ => False).
Proof.
  intros H. destruct (reach_wf _ _ _ _ H) as (W & O). pose proof (destroying_le w c W) as L.
  assert (P : wp (c_destroy c) w (fun _ _ => True) (fun _ _ => False)) by (eapply (wp_c_destroy c w _ _); [exact (wfc_nodes0 _ _ W)|exact O|auto]).
  pose proof (destroy_work (c_nodes c) w) as C. unfold wp, c_destroy, cost in *. destruct (destroy_nodes (c_nodes c) w); auto. lia.
Qed.
Example C64_destroy_ex lay : let E := dE lay in reach (dw lay) [dc lay; dx lay] [] /\ length (flat (dc lay)) = 6.
Proof. demo lay. Qed.

(** Copy assignment: the old elements are destroyed, those of the source are copied. *)
Theorem C64_assign {V} {E : Env V} w x c g d : reach w (c :: x :: g) d ->
  (env_layout = SplitLayout -> forall m, 4 * m <= 3 * env_grow m) ->
  within (c_copy_assign x) c w (destroying c + copying x).
Proof.
  intros H G. destruct (reach_wf _ _ _ _ H) as (W & O). apply r_weaken in H. eapply within_mono.
  - eapply cost_within; [exact (spec_assign w (x :: g) c d x H (or_introl eq_refl))|apply cost_c_copy_assign; exact G].
  - pose proof (destroying_le w c W). rewrite <- copying_eq. lia.
Qed.
Example C64_assign_ex lay : let E := dE lay in
  reach (dw lay) [dc lay; dx lay] [] /\ (forall m, 4 * m <= 3 * env_grow m) /\ done (c_copy_assign (dx lay) (dc lay, dw lay)) = true.
Proof. cbv zeta. csplit; [demo_fact lay|intros m; change (env_grow (Env := dE lay) m) with (2 * m); lia|demo_fact lay]. Qed.

(** Move construction with the allocator of the source, and the swap, operate on no element;
    with another allocator each element is moved once. *)
Theorem C64_move {V} {E : Env V} w x g d : reach w (x :: g) d ->
  wp c_move (x, w) (fun '(x', w') _ => w_work w' = w_work w) (fun _ _ => False).
Proof.
  intros H. eapply wp_mono; [apply (spec_move w g d x H)| |auto]. intros [x' w'] c P. destruct P as (_ & -> & _). reflexivity.
Qed.
Example C64_move_ex lay : let E := dE lay in reach (dw lay) [dc lay; dx lay] [] /\ length (flat (dc lay)) = 6.
Proof. demo lay. Qed.

Theorem C64_move_al {V} {E : Env V} w x g d al : reach w (x :: g) d ->
  (env_layout = SplitLayout -> forall m, 4 * m <= 3 * env_grow m) ->
  let k := if c_al x =? al then 0 else relocating x in
  wp (c_move_al al) ((c_empty al, x), w) (fun '(_, w') _ => w_work w' <= w_work w + k) (fun '(_, w') _ => w_work w' <= w_work w + k).
Proof.
  intros H G k. destruct (reach_wf _ _ _ _ H) as (W & _).
  pose proof (work_wp snd (c_move_al al) ((c_empty al, x), w) _ _ _ (spec_move_al w g d x al H)
    (cost_c_move_al al x (c_empty al) w G (wfc_fit _ _ W) (wm_ids _ _ (wc_map _ _ W)) eq_refl)) as P.
  pose proof (relocating_le w x W) as L. subst k. eapply wp_mono; [exact P| |]; intros [p w'] ?; cbn [snd]; destruct (c_al x =? al); lia.
Qed.
Example C64_move_al_ex lay : let E := dE lay in
  reach (dw lay) [dc lay; dx lay] [] /\ c_al (dc lay) <> 4 /\ (forall m, 4 * m <= 3 * env_grow m) /\ done (c_move_al 4 ((c_empty 4, dc lay), dw lay)) = true.
Proof. cbv zeta. csplit; [demo_fact lay|demo_fact lay|intros m; change (env_grow (Env := dE lay) m) with (2 * m); lia|demo_fact lay]. Qed.

(** Move assignment: beyond destroying the old elements it operates on no element if the
    allocator is propagated or equal, and moves each element otherwise. *)
Theorem C64_move_assign {V} {E : Env V} w x c g d : reach w (c :: x :: g) d ->
  (env_layout = SplitLayout -> forall m, 4 * m <= 3 * env_grow m) ->
  let k := destroying c + if env_pocma || (c_al c =? c_al x) then 0 else relocating x in
  wp c_move_assign ((c, x), w) (fun '(_, w') _ => w_work w' <= w_work w + k) (fun '(_, w') _ => w_work w' <= w_work w + k).
Proof.
  intros H G k. destruct (reach_wf _ _ _ _ H) as (Wc & _). apply r_weaken in H. destruct (reach_wf _ _ _ _ H) as (W & _).
  pose proof (work_wp snd c_move_assign ((c, x), w) _ _ _ (spec_move_assign w g c d x H)
    (cost_c_move_assign x c w G (wfc_fit _ _ W) (wm_ids _ _ (wc_map _ _ W)))) as P.
  pose proof (relocating_le w x W) as L. pose proof (destroying_le w c Wc). subst k.
  eapply wp_mono; [exact P| |]; intros [p w'] ?; cbn [snd]; destruct (env_pocma || _); lia.
Qed.
Example C64_move_assign_ex lay : let E := dE lay in
  reach (dw lay) [dc lay; dx lay] [] /\ c_al (dc lay) <> c_al (dx lay) /\ env_pocma = false /\ (forall m, 4 * m <= 3 * env_grow m) /\
  done (c_move_assign ((dc lay, dx lay), dw lay)) = true.
Proof. cbv zeta. csplit; [demo_fact lay|demo_fact lay|demo_fact lay|intros m; change (env_grow (Env := dE lay) m) with (2 * m); lia|demo_fact lay]. Qed.

Theorem C64_swap {V} {E : Env V} w x y g d : reach w (x :: y :: g) d -> env_pocs = true \/ c_al x = c_al y ->
  wp c_swap ((x, y), w) (fun '(_, w') _ => w_work w' = w_work w) (fun _ _ => False).
Proof.
  intros H Al. eapply wp_mono; [apply (spec_swap w g d x y H Al)| |auto]. intros [[x' y'] w'] _ (_ & _ & ->). reflexivity.
Qed.
Example C64_swap_ex lay : let E := dE lay in
  reach (snd (db lay)) [fst (db lay); dc lay; dx lay] [] /\ c_al (fst (db lay)) = c_al (dc lay).
Proof. cbv zeta. csplit; [apply db_reach|demo_fact lay]. Qed.

(** Any sequence of insertions and erasures: [paid n k s s'] says that [s'] is reached from [s]
    by [n] successful calls, each of them an insertion of one element (with or without a hint or
    a position in a segment), an erasure or [clear()], and that the distances to the end of the
    segment and the erased elements add up to [k] (ProofCost6.v).  The growths of the vectors are
    paid for: the total is linear in [n + k], apart from a part for the elements there at first. *)
Theorem C64_sequence {V} {E : Env V} w c g d n k w' c' : reach w (c :: g) d ->
  (env_layout = PackedLayout -> forall m, 4 * m <= 3 * env_grow m) ->
  paid n k (c, w) (c', w') ->
  w_work w' <= w_work w + 9 * length (flat c) + 65 * n + k.
Proof.
  intros H G P. destruct (paid_pays w c g d n k (c', w') H G P) as (_ & B). cbn [fst snd] in B. pose proof (debt_le w c g d H). lia.
Qed.
Lemma pay {E : Env nat} n k s s1 m p : paid n k s s1 -> priced (fst s1) m p -> done (m s1) = true -> paid (S n) (k + p) s (state (m s1)).
Proof. intros P Pr D. destruct s1 as [c w]. destruct (m (c, w)) as [[c' w'] []| |] eqn:Q; [|discriminate..]. eapply paid_one; eauto. Qed.
(** An element of type 2 is added at the end, one of type 1 in the middle, one of type 1 erased. *)
Example C64_sequence_ex lay : let E := dE lay in
  let s1 := state (void (c_emplace 20 (SVal 3)) (dc lay, dw lay)) in
  let s2 := state (void (c_emplace_hint (it_at (fst s1) 1 1) 10 (SVal 4)) s1) in
  let s3 := state (void (c_erase (it_at (fst s2) 1 0)) s2) in
  reach (dw lay) [dc lay; dx lay] [] /\ (forall m, 4 * m <= 3 * env_grow m) /\
  paid 3 6 (dc lay, dw lay) s3 /\ elems (fst s3) 1 = [4; 6; 7] /\ elems (fst s3) 2 = [8; 9; 3].
Proof.
  intros E s1 s2 s3. csplit; [demo_fact lay|intros m; change (4 * m <= 3 * (2 * m)); lia| |destruct lay; vm_compute; reflexivity..].
  assert (P1 : paid 1 (0 + 0) (dc lay, dw lay) s1).
  { apply pay; [constructor| |destruct lay; vm_compute; reflexivity]. apply (pr_emplace _ 20 (SVal 3) 3); [left; reflexivity|]. destruct lay; apply Nat.leb_le; vm_compute; reflexivity. }
  assert (P2 : paid 2 (0 + 0 + (length (elems (fst s1) (env_ty 10)) - 1)) (dc lay, dw lay) s2).
  { apply pay; [exact P1| |destruct lay; vm_compute; reflexivity].
    assert (Pt : points (fst s1) (it_at (fst s1) 1 1) 1 1) by (subst s1; demo_fact lay).
    apply (pr_emplace_hint _ (it_at (fst s1) 1 1) (offset (content (fst s1)) 1 + 1) 1 10 (SVal 4) 4); [subst s1; demo_fact lay|left; exact Pt|right; left; destruct lay; vm_compute; auto|left; reflexivity|].
    destruct lay; apply Nat.leb_le; vm_compute; reflexivity. }
  assert (P3 : paid 3 (0 + 0 + (length (elems (fst s1) (env_ty 10)) - 1) + (length (elems (fst s2) 1) - 0)) (dc lay, dw lay) s3).
  { apply pay; [exact P2| |destruct lay; vm_compute; reflexivity]. apply (pr_erase _ _ 1 0). subst s2 s1. demo_fact lay. }
  replace 6 with (0 + 0 + (length (elems (fst s1) (env_ty 10)) - 1) + (length (elems (fst s2) 1) - 0)) by (destruct lay; vm_compute; reflexivity). exact P3.
Qed.

(** Insertion of a range of values, in a collection which can take them, also when it throws *)
Theorem C64_insert_range {V} {E : Env V} w c g d xs l : reach w (c :: g) d -> Forall2 gives xs l ->
  (env_layout = PackedLayout -> forall m, 4 * m <= 3 * env_grow m) ->
  (forall t, In t (map fst l) -> 3 * (length (elems c t) + length l) + 1 <= env_vmax t) ->
  within (c_insert_range xs) c w (65 * length xs + 9 * length (flat c)).
Proof.
  intros H F G Mx. pose proof (debt_le w c g d H). unfold within. eapply wp_mono; [exact (range_pays xs G w c g d l H F Mx)| |]; intros [c' w'] ?; lia.
Qed.

Example C64_insert_range_ex lay : let E := dE lay in
  let l := [(2, 3); (2, 4); (5, 3)] in
  reach (dw lay) [dc lay; dx lay] [] /\ (forall m, 4 * m <= 3 * env_grow m) /\
  Forall2 gives [mkarg 20 20 true false HCopy (SVal 3); mkarg 10 20 true false HCopy (SVal 4); mkarg 50 50 true true HMove (SVal 3)] l /\
  (forall t, In t (map fst l) -> 3 * (length (elems (dc lay) t) + length l) + 1 <= env_vmax t).
Proof.
  cbv zeta. csplit; [demo_fact lay|intros m; change (env_grow (Env := dE lay) m) with (2 * m); lia| |].
  - repeat constructor; try (intros _; reflexivity); intros Q; discriminate.
  - intros t [<-|[<-|[<-|[]]]]; destruct lay; apply Nat.leb_le; vm_compute; reflexivity.
Qed.

Lemma given_length {V} {E : Env V} xs l : Forall2 (gives (V := V)) xs l -> length xs = length l.
Proof. induction 1; cbn; auto. Qed.

(** Construction from a range: linear in its length.  (If it throws, what has been built is
    destroyed, [C64_destroy].) *)
Theorem C64_from_range {V} {E : Env V} w g d xs l al : reach w g d -> Forall2 gives xs l ->
  (env_layout = PackedLayout -> forall m, 4 * m <= 3 * env_grow m) ->
  (forall t, In t (map fst l) -> 3 * length l + 1 <= env_vmax t) ->
  wp (c_from_range xs al) w (fun w' _ => w_work w' <= w_work w + 65 * length xs) (fun _ _ => True).
Proof.
  intros H F G Mx. pose proof (range_pays xs G w (c_empty al) g d l (r_new _ _ _ al H) F Mx) as P.
  pose proof (spec_from_range w g d xs l al H F) as Sp. unfold wp, c_from_range, with_new in *.
  destruct (c_insert_range xs (c_empty al, w)) as [[c' w'] []|[c' w'] e|]; [|destruct (c_destroy c' w'); auto|exact Sp].
  change (debt (c_empty (V := V) al)) with 0 in P. lia.
Qed.
Example C64_from_range_ex lay : let E := dE lay in
  let l := [(2, 3); (2, 4); (5, 3)] in
  let xs := [mkarg 20 20 true false HCopy (SVal 3); mkarg 20 20 true false HCopy (SVal 4); mkarg 50 50 true true HMove (SVal 3)] in
  reach (dw lay) [dc lay; dx lay] [] /\ (forall m, 4 * m <= 3 * env_grow m) /\ Forall2 gives xs l /\
  (forall t, In t (map fst l) -> 3 * length l + 1 <= env_vmax t) /\
  (match c_from_range xs 4 (dw lay) with Ok w' c' => (length (flat c'), w_work w' - w_work (dw lay)) | _ => (0, 0) end) = (3, match lay with PackedLayout => 5 | SplitLayout => 26 end).
Proof.
  cbv zeta. csplit; [demo_fact lay|intros m; change (env_grow (Env := dE lay) m) with (2 * m); lia| | |demo_fact lay].
  - repeat constructor; try (intros _; reflexivity); intros Q; discriminate.
  - intros t [<-|[<-|[<-|[]]]]; destruct lay; apply Nat.leb_le; vm_compute; reflexivity.
Qed.

(** With a hint: an element of the type of the hint is inserted at its place, at the cost of the
    distance to the end of the segment. *)
Theorem C64_insert_hint_range {V} {E : Env V} w c g d hint h xs l : reach w (c :: g) d ->
  hint_is c hint h -> Forall2 gives xs l -> hsafe h c l ->
  (env_layout = PackedLayout -> forall m, 4 * m <= 3 * env_grow m) ->
  (forall t, In t (map fst l) -> 3 * (length (elems c t) + length l) + 1 <= env_vmax t) ->
  within (c_insert_hint_range hint xs) c w (65 * length l + behind h c l + 9 * length (flat c)).
Proof.
  intros H Hi F Sf G Mx. pose proof (debt_le w c g d H). pose proof (given_length _ _ F). unfold within.
  eapply wp_mono; [exact (hint_range_pays xs G w c g d hint h l H Hi F Sf Mx)| |]; intros [c' w'] ?; lia.
Qed.
Example C64_insert_hint_range_ex lay : let E := dE lay in
  let xs := [mkarg 20 20 true false HCopy (SVal 3); mkarg 10 10 true false HCopy (SVal 4); mkarg 20 20 true true HMove (SVal 5)] in
  let l := [(2, 3); (1, 4); (2, 5)] in let hint := it_at (dc lay) 2 1 in
  reach (dw lay) [dc lay; dx lay] [] /\ hint_is (dc lay) hint (Some (2, 1)) /\
  Forall2 gives xs l /\ hsafe (Some (2, 1)) (dc lay) l /\ (forall m, 4 * m <= 3 * env_grow m) /\
  (forall t, In t (map fst l) -> 3 * (length (elems (dc lay) t) + length l) + 1 <= env_vmax t) /\
  behind (Some (2, 1)) (dc lay) l = 2.
Proof.
  cbv zeta. csplit; [apply d_reach|cbn [hint_is]; demo_fact lay| | |intros m; change (env_grow (Env := dE lay) m) with (2 * m); lia| |demo_fact lay].
  - repeat constructor; try (intros _; reflexivity); intros Q; discriminate.
  - right. right. reflexivity.
  - intros t [<-|[<-|[<-|[]]]]; destruct lay; apply Nat.leb_le; vm_compute; reflexivity.
Qed.

(** A range of elements of another collection, by iterators or by local iterators *)
Theorem C64_insert_from {V} {E : Env V} w c g d y first last i j : let l := firstn (j - i) (skipn i (flat y)) in
  reach w (c :: g) d -> In y g -> located y first i -> located y last j -> i <= j ->
  (env_layout = PackedLayout -> forall m, 4 * m <= 3 * env_grow m) ->
  (forall t, In t (map fst l) -> 3 * (length (elems c t) + length l) + 1 <= env_vmax t) ->
  within (c_insert_from (length (flat y)) y first last) c w (65 * length l + 9 * length (flat c)).
Proof.
  intros l H Hy L1 L2 Hij G Mx. destruct (reach_wf_in _ _ _ _ _ H Hy) as (Ry & Ky & Wy & Oy).
  apply (located_at w y first i Ry Ky Wy Oy) in L1. apply (located_at w y last j Ry Ky Wy Oy) in L2. destruct L1 as (-> & Hi), L2 as (-> & Hj). rewrite <- flat_length in Hi, Hj.
  destruct (from_as_range y w Ry Ky (length (flat y)) Wy Oy i j Hij Hj) as (xs & F & Q & _); [lia|].
  change (slice i j (flat y)) with l in F. pose proof (C64_insert_range w c g d xs l H F G Mx) as P. rewrite (given_length _ _ F) in P. unfold within, wp in *.
  rewrite Q; [exact P|]. intros U. rewrite U in P. exact P.
Qed.
Example C64_insert_from_ex lay : let E := dE lay in let i := offset (content (dx lay)) 1 + 0 in let j := offset (content (dx lay)) 1 + 2 in
  let l := firstn (j - i) (skipn i (flat (dx lay))) in
  reach (dw lay) [dc lay; dx lay] [] /\ In (dx lay) [dx lay] /\ located (dx lay) (it_at (dx lay) 1 0) i /\ located (dx lay) (it_at (dx lay) 1 2) j /\ i <= j /\
  (forall m, 4 * m <= 3 * env_grow m) /\
  (forall t, In t (map fst l) -> 3 * (length (elems (dc lay) t) + length l) + 1 <= env_vmax t) /\ length l = 2.
Proof.
  cbv zeta. csplit; [apply d_reach|left; auto|right; exists 1, 0; split; [demo_fact lay|reflexivity]|right; exists 1, 2; split; [demo_fact lay|reflexivity]|apply Nat.add_le_mono_l; auto
    |intros m; change (env_grow (Env := dE lay) m) with (2 * m); lia| |demo_fact lay].
  match goal with |- forall t, In t ?m -> _ => assert (Q : m = [1; 1]) by demo_fact lay; rewrite Q end.
  intros t [<-|[<-|[]]]; destruct lay; apply Nat.leb_le; vm_compute; reflexivity.
Qed.

Theorem C64_insert_hint_from {V} {E : Env V} w c g d hint h y first last i j : let l := firstn (j - i) (skipn i (flat y)) in
  reach w (c :: g) d -> hint_is c hint h -> In y g -> located y first i -> located y last j -> i <= j -> hsafe h c l ->
  (env_layout = PackedLayout -> forall m, 4 * m <= 3 * env_grow m) ->
  (forall t, In t (map fst l) -> 3 * (length (elems c t) + length l) + 1 <= env_vmax t) ->
  within (c_insert_hint_from (length (flat y)) hint y first last) c w (65 * length l + behind h c l + 9 * length (flat c)).
Proof.
  intros l H Hi Hy L1 L2 Hij Sf G Mx. destruct (reach_wf_in _ _ _ _ _ H Hy) as (Ry & Ky & Wy & Oy).
  apply (located_at w y first i Ry Ky Wy Oy) in L1. apply (located_at w y last j Ry Ky Wy Oy) in L2. destruct L1 as (-> & Hf), L2 as (-> & Hj). rewrite <- flat_length in Hf, Hj.
  destruct (from_as_range y w Ry Ky (length (flat y)) Wy Oy i j Hij Hj) as (xs & F & _ & Q); [lia|].
  change (slice i j (flat y)) with l in F. pose proof (C64_insert_hint_range w c g d hint h xs l H Hi F Sf G Mx) as P. unfold within, wp in *.
  rewrite Q. exact P.
Qed.
Example C64_insert_hint_from_ex lay : let E := dE lay in let i := offset (content (dx lay)) 1 + 0 in let j := offset (content (dx lay)) 1 + 2 in
  let l := firstn (j - i) (skipn i (flat (dx lay))) in
  reach (dw lay) [dc lay; dx lay] [] /\ hint_is (dc lay) (it_at (dc lay) 1 1) (Some (1, 1)) /\
  In (dx lay) [dx lay] /\ located (dx lay) (it_at (dx lay) 1 0) i /\ located (dx lay) (it_at (dx lay) 1 2) j /\ i <= j /\ hsafe (Some (1, 1)) (dc lay) l /\
  (forall m, 4 * m <= 3 * env_grow m) /\
  (forall t, In t (map fst l) -> 3 * (length (elems (dc lay) t) + length l) + 1 <= env_vmax t) /\ behind (Some (1, 1)) (dc lay) l = 4.
Proof.
  cbv zeta. csplit; [apply d_reach|cbn [hint_is]; demo_fact lay|left; auto|right; exists 1, 0; split; [demo_fact lay|reflexivity]|right; exists 1, 2; split; [demo_fact lay|reflexivity]|apply Nat.add_le_mono_l; auto|right; right; reflexivity
    |intros m; change (env_grow (Env := dE lay) m) with (2 * m); lia| |demo_fact lay].
  match goal with |- forall t, In t ?m -> _ => assert (Q : m = [1; 1]) by demo_fact lay; rewrite Q end.
  intros t [<-|[<-|[]]]; destruct lay; apply Nat.leb_le; vm_compute; reflexivity.
Qed.

Lemma referring_all {V} {E : Env V} a (xs : list V) : Forall2 gives (map (referring a) xs) (map (pair (env_ty a)) xs).
Proof. induction xs; constructor; auto. apply referring_gives. Qed.
Lemma only_type {V} (t : tyid) (xs : list V) u : In u (map fst (map (pair t) xs)) -> u = t.
Proof. rewrite map_map, in_map_iff. intros (v & <- & _). reflexivity. Qed.

Theorem C64_insert_local {V} {E : Env V} w c g d a xs : let t := env_ty a in reach w (c :: g) d ->
  (env_layout = PackedLayout -> forall m, 4 * m <= 3 * env_grow m) ->
  3 * (length (elems c t) + length xs) + 1 <= env_vmax t ->
  within (c_insert_local a t xs) c w (65 * length xs + 9 * length (flat c)).
Proof.
  intros t H G Mx. destruct (reach_wf _ _ _ _ H) as (W & _).
  pose proof (C64_insert_range w c g d (map (referring a) xs) (map (pair t) xs) H (referring_all a xs) G) as P. rewrite !map_length in P. unfold within, wp in *.
  assert (P' := P (fun u Hu => eq_ind_r (fun u => 3 * (length (elems c u) + length xs) + 1 <= env_vmax u) Mx (only_type t xs u Hu))).
  subst t. rewrite local_as_range; [exact P'| |].
  - intros Q. destruct (wm_cache _ _ (wc_map _ _ W) _ _ Q) as (? & ? & _). discriminate.
  - intros U. rewrite U in P'. exact P'.
Qed.
Example C64_insert_local_ex lay : let E := dE lay in
  reach (dw lay) [dc lay; dx lay] [] /\ (forall m, 4 * m <= 3 * env_grow m) /\
  3 * (length (elems (dc lay) (env_ty 12)) + length (elems (dx lay) 1)) + 1 <= env_vmax (env_ty 12) /\ length (elems (dx lay) 1) = 3.
Proof. cbv zeta. csplit; [apply d_reach|intros m; change (env_grow (Env := dE lay) m) with (2 * m); lia|destruct lay; apply Nat.leb_le; vm_compute; reflexivity|demo_fact lay]. Qed.

Theorem C64_insert_hint_local {V} {E : Env V} w c g d hint h a xs : let t := env_ty a in reach w (c :: g) d ->
  hint_is c hint h -> hsafe h c (map (pair t) xs) ->
  (env_layout = PackedLayout -> forall m, 4 * m <= 3 * env_grow m) ->
  3 * (length (elems c t) + length xs) + 1 <= env_vmax t ->
  within (c_insert_hint_local hint a t xs) c w (65 * length xs + behind h c (map (pair t) xs) + 9 * length (flat c)).
Proof.
  intros t H Hi Sf G Mx.
  pose proof (C64_insert_hint_range w c g d hint h (map (referring a) xs) (map (pair t) xs) H Hi (referring_all a xs) Sf G) as P. rewrite !map_length in P. unfold within, wp in *.
  assert (P' := P (fun u Hu => eq_ind_r (fun u => 3 * (length (elems c u) + length xs) + 1 <= env_vmax u) Mx (only_type t xs u Hu))).
  subst t. rewrite (hint_local_as_range w c g d hint h a xs H Hi Sf); [exact P'|]. intros U. rewrite U in P'. exact P'.
Qed.
Example C64_insert_hint_local_ex lay : let E := dE lay in
  reach (dw lay) [dc lay; dx lay] [] /\ hint_is (dc lay) (it_at (dc lay) 1 2) (Some (1, 2)) /\
  hsafe (Some (1, 2)) (dc lay) (map (pair (env_ty 12)) (elems (dx lay) 1)) /\ (forall m, 4 * m <= 3 * env_grow m) /\
  3 * (length (elems (dc lay) (env_ty 12)) + length (elems (dx lay) 1)) + 1 <= env_vmax (env_ty 12).
Proof.
  cbv zeta. csplit; [apply d_reach|cbn [hint_is]; demo_fact lay|right; right; reflexivity|intros m; change (env_grow (Env := dE lay) m) with (2 * m); lia|destruct lay; apply Nat.leb_le; vm_compute; reflexivity].
Qed.

(** A range inserted at a position of a segment: the elements behind the position are shifted for
    each element inserted. *)
Theorem C64_insert_pos_range {V} {E : Env V} w c g d pos t k xs vs : reach w (c :: g) d ->
  lpoints c pos t k -> Forall2 (gives_at t) xs vs ->
  (env_layout = PackedLayout -> forall m, 4 * m <= 3 * env_grow m) ->
  3 * (length (elems c t) + length vs) + 1 <= env_vmax t ->
  within (c_insert_pos_range pos xs) c w ((65 + (length (elems c t) - k)) * length xs + 9 * length (flat c)).
Proof.
  intros H L F G Mx. pose proof (debt_le w c g d H) as D. destruct pos as [i p]. pose proof (pos_loop_pays xs G w c g d i p t k vs H L F Mx) as P.
  unfold within, c_insert_pos_range. cbn [li_map li_pos]. unfold wp, bind in *. destruct (c_insert_pos_loop i p xs (c, w)) as [[c' w'] [q|q]|[c' w'] e|]; [| | |contradiction]; revert P; generalize ((65 + (length (elems c t) - k)) * length xs); cbn; intros; lia.
Qed.
Example C64_insert_pos_range_ex lay : let E := dE lay in
  let xs := [mkarg 20 20 true false HCopy (SVal 3); mkarg 10 21 true false HCopy (SVal 4); mkarg 20 20 true false HMove (SVal 5)] in
  reach (dw lay) [dc lay; dx lay] [] /\ lpoints (dc lay) (li_base (dc lay) 2 1) 2 1 /\ Forall2 (gives_at 2) xs [3; 4; 5] /\
  (forall m, 4 * m <= 3 * env_grow m) /\ 3 * (length (elems (dc lay) 2) + length [3; 4; 5]) + 1 <= env_vmax 2 /\ length (elems (dc lay) 2) - 1 = 1.
Proof.
  cbv zeta. csplit; [apply d_reach|demo_fact lay|repeat constructor|intros m; change (env_grow (Env := dE lay) m) with (2 * m); lia|destruct lay; apply Nat.leb_le; vm_compute; reflexivity|demo_fact lay].
Qed.

Theorem C64_insert_lpos_range {V} {E : Env V} w c g d i p k a xs : let t := env_ty a in reach w (c :: g) d ->
  lpoints c (mkliter i (PConc p)) t k ->
  (env_layout = PackedLayout -> forall m, 4 * m <= 3 * env_grow m) ->
  3 * (length (elems c t) + length xs) + 1 <= env_vmax t ->
  within (c_insert_lpos_range i t p xs) c w ((65 + (length (elems c t) - k)) * length xs + 9 * length (flat c)).
Proof.
  intros t H L G Mx. pose proof (debt_le w c g d H) as D. pose proof (lpos_loop_pays a xs G w c g d i p k H L Mx) as P. fold t in P.
  unfold within, c_insert_lpos_range. unfold wp, bind in *. destruct (c_insert_lpos_loop i t p xs (c, w)) as [[c' w'] q|[c' w'] e|]; [| |contradiction]; revert P; generalize ((65 + (length (elems c t) - k)) * length xs); cbn; intros; lia.
Qed.
Example C64_insert_lpos_range_ex lay : let E := dE lay in
  let l := li_conc (dc lay) 2 1 in
  reach (dw lay) [dc lay; dx lay] [] /\ lpoints (dc lay) l 2 1 /\ (exists p, li_pos l = PConc p) /\
  (forall m, 4 * m <= 3 * env_grow m) /\ 3 * (length (elems (dc lay) 2) + 3) + 1 <= env_vmax 2.
Proof. cbv zeta. csplit; [apply d_reach|demo_fact lay|destruct lay; vm_compute; eauto|intros m; change (env_grow (Env := dE lay) m) with (2 * m); lia|destruct lay; apply Nat.leb_le; vm_compute; reflexivity]. Qed.

(** A range of [m] elements of one type, by forward iterators, inserted at once with [dist]
    elements behind it: linear in its length plus the distance to the end of the segment if the
    segment has room, linear in its length plus the size of the segment if not.  The constants
    depend on nothing. *)
Definition ranging {V} {E : Env V} (c : coll V) (t : tyid) (dist m : nat) : nat :=
  if length (elems c t) + m <=? cap_of c t then 3 * dist + 10 * m + 21 else 11 * length (elems c t) + 10 * m + 30.
Lemma ranging_work {V} {E : Env V} (c : coll V) t k m : 11 + range_work c t k m <= ranging c t (length (elems c t) - k) m.
Proof. unfold range_work, ranging. destruct (_ <=? _); lia. Qed.

Theorem C64_insert_range_terminal {V} {E : Env V} w c g d a h xs : let t := env_ty a in reach w (c :: g) d ->
  within (c_insert_range_terminal a h true xs) c w (ranging c t 0 (length xs)).
Proof.
  intros t H. destruct (reach_wf _ _ _ _ H) as (W & O).
  eapply within_mono; [eapply cost_within; [exact (spec_insert_range_terminal w c g d a h true xs H)|eapply cost_c_range_terminal; [exact W|exact O]]|].
  pose proof (ranging_work c t (length (elems c t)) (length xs)) as Q. rewrite Nat.sub_diag in Q. exact Q.
Qed.
(** without room (type 1), with room (type 1 after reserving), a new type *)
Example C64_insert_range_terminal_ex lay : let E := dE lay in
  let spent a (s : coll nat * world) := match c_insert_range_terminal a HCopy true [3; 4; 5] s with Ok s' _ => w_work (snd s') - w_work (snd s) | _ => 0 end in
  reach (dw lay) [dc lay; dx lay] [] /\ reach (snd (dr lay)) [fst (dr lay); dx lay] [] /\
  ranging (dc lay) (env_ty 10) 0 3 = 93 /\ ranging (fst (dr lay)) (env_ty 10) 0 3 = 51 /\ ranging (dc lay) (env_ty 50) 0 3 = 60 /\
  spent 10 (dc lay, dw lay) = match lay with PackedLayout => 9 | SplitLayout => 28 end /\
  spent 10 (dr lay) = match lay with PackedLayout => 3 | SplitLayout => 6 end.
Proof. cbv zeta. csplit; [demo_fact lay|exact (dr_reach lay)|demo_fact lay..]. Qed.

Theorem C64_insert_hint_range_terminal {V} {E : Env V} w c g d hint hn a h xs : let t := env_ty a in reach w (c :: g) d ->
  hint_is c hint hn -> hsafe hn c (map (pair t) xs) ->
  within (c_insert_hint_range_terminal hint a h true xs) c w (ranging c t (length (elems c t) - slot hn c t) (length xs)).
Proof.
  intros t H Hi Sf. destruct xs as [|x xs]; [unfold within; cbn [c_insert_hint_range_terminal]; apply wp_ret; lia|].
  destruct (reach_wf _ _ _ _ H) as (W & O). pose proof (spec_insert_hint_range_terminal w c g d hint hn a h true (x :: xs) H Hi Sf) as Sp.
  pose proof (upto_refl hn w c _ _ W O) as U. apply hint_is_hinv in Hi. destruct (hinv_located _ _ _ _ _ _ _ W O Hi) as (i & Lo).
  pose proof (hinv_at _ _ _ _ _ _ _ _ _ t U Hi) as Ha. change (of_type t (@nil (tyid * V))) with (@nil V) in Ha. rewrite Nat.add_0_r in Ha.
  pose proof (hsafe_step _ _ _ _ _ _ _ [] _ t x (map (pair t) xs) U Hi Sf) as Hs.
  pose proof (hint_at_le _ _ _ _ _ (wc_map _ _ W) Ha) as Hk.
  eapply within_mono; [eapply cost_within; [exact Sp|eapply cost_c_hint_range_terminal; [exact W|exact O|exact Lo|exact Ha|exact Hs|exact Hk]]|]. apply ranging_work.
Qed.
Example C64_insert_hint_range_terminal_ex lay : let E := dE lay in let hint := it_at (fst (dr lay)) 1 1 in
  reach (snd (dr lay)) [fst (dr lay); dx lay] [] /\ hint_is (fst (dr lay)) hint (Some (1, 1)) /\ hsafe (Some (1, 1)) (fst (dr lay)) (map (pair (env_ty 10)) [3; 4; 5]) /\
  ranging (fst (dr lay)) 1 (length (elems (fst (dr lay)) 1) - slot (Some (1, 1)) (fst (dr lay)) 1) 3 = 57 /\
  (match c_insert_hint_range_terminal hint 10 HCopy true [3; 4; 5] (dr lay) with Ok s' _ => w_work (snd s') - w_work (snd (dr lay)) | _ => 0 end) =
    match lay with PackedLayout => 9 | SplitLayout => 12 end.
Proof. cbv zeta. csplit; [exact (dr_reach lay)|cbn [hint_is]; demo_fact lay|right; right; reflexivity|demo_fact lay..]. Qed.

(** The bounds and what the calls on the demo collections cost *)
Example C64_measured lay : let E := dE lay in
  let spent (w' : world) := w_work w' - w_work (dw lay) in
  copying (dx lay) = 154 /\ destroying (dc lay) = 16 /\
  (match c_copy_al (dx lay) 4 (dw lay) with Ok w' _ => spent w' | _ => 0 end) = match lay with PackedLayout => 5 | SplitLayout => 23 end /\
  (match c_destroy (dc lay) (dw lay) with Ok w' _ => spent w' | _ => 0 end) = match lay with PackedLayout => 6 | SplitLayout => 16 end /\
  (match c_move_al 4 ((c_empty 4, dc lay), dw lay) with Ok s' _ => spent (snd s') | _ => 0 end) = match lay with PackedLayout => 12 | SplitLayout => 46 end.
Proof. demo lay. Qed.

Print Assumptions C64_copy.
Print Assumptions C64_destroy.
Print Assumptions C64_assign.
Print Assumptions C64_move.
Print Assumptions C64_move_al.
Print Assumptions C64_move_assign.
Print Assumptions C64_swap.
Print Assumptions C64_sequence.
Print Assumptions C64_insert_range.
Print Assumptions C64_from_range.
Print Assumptions C64_insert_hint_range.
Print Assumptions C64_insert_from.
Print Assumptions C64_insert_hint_from.
Print Assumptions C64_insert_local.
Print Assumptions C64_insert_hint_local.
Print Assumptions C64_insert_pos_range.
Print Assumptions C64_insert_lpos_range.
Print Assumptions C64_insert_range_terminal.
Print Assumptions C64_insert_hint_range_terminal.
