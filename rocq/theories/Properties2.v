(** * Insertion (C08-C14, C27, C28, C31, C34, C36, C54)

    See the head of Properties1.v for the form of the statements.  [wp m s Q X]: the call [m] in
    state [s] has no undefined behaviour, satisfies [Q] if it returns and [X] if it throws. *)

From Coq Require Import List Arith Lia Bool Permutation.
From Verif Require Import Base Vec Backend Segment Coll Spec Reach ProofBase ProofSeg ProofMap ProofView ProofColl
  ProofRange ProofReach ProofObs ProofProp ProofProp2 ProofProp3 ProofProp4 Demo.
Import ListNotations.

(** ** C08 insert(x) and emplace<T>(args...) append to the segment of the type *)

(** [inserted c c' t k v]: [v] is now the [k]-th element of type [t], the elements of that type
    from [k] on having moved up by one; the segment was created if needed; other types are
    left alone.  [points c' it t k]: [it] refers to it. *)
Theorem C08_emplace {V} {E : Env V} w c g d a x v : let t := env_ty a in let k := length (elems c t) in
  reach w (c :: g) d -> src_c c t HEmplace x v ->
  wp (c_emplace a x) (c, w)
    (fun '(c', w') it => inserted c c' t k v /\ points c' it t k)
    (fun '(c', w') e => refused c c' w w' t HEmplace k e).
Proof. exact (spec_emplace w c g d a x v). Qed.
Example C08_emplace_ex lay : let E := dE lay in
  reach (dw lay) [dc lay; dx lay] [] /\ src_c (dc lay) 1 HEmplace (SVal 4) 4 /\ elems (dc lay) 1 = [5; 6; 7] /\
  src_c (dc lay) 5 HEmplace (SVal 4) 4 /\ ~ In 5 (types (dc lay)).
Proof. cbv zeta. csplit; try (left; reflexivity); demo_fact lay. Qed.

Theorem C08_insert {V} {E : Env V} w c g d x v : let t := env_ty (a_dyn x) in let k := length (elems c t) in
  reach w (c :: g) d -> arg_ok x -> src_c c t (a_how x) (a_src x) v ->
  wp (c_insert x) (c, w)
    (fun '(c', w') it => ~ unregistrable c x /\ inserted c c' t k v /\ points c' it t k)
    (fun '(c', w') e => rejected c c' w w' x k e).
Proof. exact (spec_insert w c g d x v). Qed.
Example C08_insert_ex lay : let E := dE lay in
  let x := mkarg 10 20 true false HCopy (SVal 3) in let y := mkarg 50 50 true true HMove (SVal 3) in
  reach (dw lay) [dc lay; dx lay] [] /\ arg_ok x /\ src_c (dc lay) (env_ty 20) (a_how x) (a_src x) 3 /\
  arg_ok y /\ src_c (dc lay) (env_ty 50) (a_how y) (a_src y) 3.
Proof. cbv zeta. csplit; try (left; reflexivity); try (intros _; reflexivity); try (intros Q; discriminate). demo_fact lay. Qed.

(** In particular, with nothing else: the sequences of all types. *)
Theorem C08_contents {V} {E : Env V} c c' t k v : inserted c c' t k v -> k = length (elems c t) ->
  elems c' t = elems c t ++ [v] /\ (forall t', t' <> t -> elems c' t' = elems c t').
Proof.
  intros I ->. split.
  - rewrite (g_elems _ _ _ _ (in_grew _ _ _ _ _ I)). unfold slot, of_type. rewrite Nat.eqb_refl. simpl.
    rewrite Nat.eqb_refl. simpl. rewrite firstn_all, skipn_all. auto.
  - intros t' N. rewrite (elems_seg_at c' t'), (elems_seg_at c t'), (in_others _ _ _ _ _ I t' N). auto.
Qed.
Example C08_contents_ex lay : let E := dE lay in
  let s := state (void (c_emplace 10 (SVal 4)) (dc lay, dw lay)) in
  inserted (dc lay) (fst s) 1 3 4 /\ 3 = length (elems (dc lay) 1) /\ elems (fst s) 1 = [5; 6; 7; 4].
Proof.
  cbv zeta. csplit; [|demo_fact lay|demo_fact lay].
  destruct (wp_done _ _ _ _ (@C08_emplace nat (dE lay) (dw lay) (dc lay) [dx lay] [] 10 (SVal 4) 4 (d_reach lay) (or_introl eq_refl)))
    as (c' & w' & r & -> & I & _); [demo_fact lay|].
  assert (X : length (elems (dc lay) (env_ty (Env := dE lay) 10)) = 3) by demo_fact lay. rewrite X in I. exact I.
Qed.

(** ** C09 Position hints *)

(** [hint_at c hint t k]: [hint] points to the [k]-th element of type [t], or else not to an
    element of type [t] and [k] is the end of the segment. *)
Theorem C09_emplace_hint {V} {E : Env V} w c g d hint i k a x v : let t := env_ty a in
  reach w (c :: g) d -> located c hint i -> hint_at c hint t k -> hint_safe c hint t -> src_c c t HEmplace x v ->
  wp (c_emplace_hint hint a x) (c, w)
    (fun '(c', w') it => inserted c c' t k v /\ points c' it t k)
    (fun '(c', w') e => refused c c' w w' t HEmplace k e).
Proof. exact (spec_emplace_hint w c g d hint i k a x v). Qed.
Example C09_emplace_hint_ex lay : let E := dE lay in
  let it := it_at (dc lay) 1 1 in
  reach (dw lay) [dc lay; dx lay] [] /\ located (dc lay) it 1 /\ hint_at (dc lay) it 1 1 /\
  hint_safe (dc lay) it 1 /\ src_c (dc lay) 1 HEmplace (SVal 4) 4.
Proof. cbv zeta. csplit; [demo_fact lay|demo_fact lay|left; demo_fact lay|right; left; demo_fact lay|left; reflexivity]. Qed.

Theorem C09_insert_hint {V} {E : Env V} w c g d hint i k x v : let t := env_ty (a_dyn x) in
  reach w (c :: g) d -> located c hint i -> hint_at c hint t k -> hint_safe c hint t -> arg_ok x -> src_c c t (a_how x) (a_src x) v ->
  wp (c_insert_hint hint x) (c, w)
    (fun '(c', w') it => ~ unregistrable c x /\ inserted c c' t k v /\ points c' it t k)
    (fun '(c', w') e => rejected c c' w w' x k e).
Proof. exact (spec_insert_hint w c g d hint i k x v). Qed.
(** a hint into another segment: at the end *)
Example C09_insert_hint_ex lay : let E := dE lay in
  let it := it_at (dc lay) 1 1 in let x := mkarg 20 20 true false HCopy (SVal 3) in
  reach (dw lay) [dc lay; dx lay] [] /\ located (dc lay) it 1 /\ hint_at (dc lay) it 2 2 /\
  hint_safe (dc lay) it 2 /\ arg_ok x /\ src_c (dc lay) 2 HEmplace (SVal 3) 3.
Proof.
  cbv zeta. csplit; [demo_fact lay|demo_fact lay| |right; left; demo_fact lay|intros Q; discriminate|left; reflexivity].
  right. split; [|demo_fact lay]. intros j P.
  pose proof (points_deref (E := dE lay) _ _ _ _ _ _ _ (d_reach lay) P) as (_ & Q).
  assert (X : let E := dE lay in it_deref (dc lay) (it_at (dc lay) 1 1) = Some (1, 6)) by demo lay.
  cbv zeta in X. rewrite X in Q. destruct (nth_error _ j); discriminate.
Qed.

(** What a hint means is determined by the hint. *)
Theorem C09_hint_meaning {V} {E : Env V} w c g d hint i t : reach w (c :: g) d -> located c hint i ->
  exists k, hint_at c hint t k /\ (forall k', hint_at c hint t k' -> k' = k) /\ k <= length (elems c t).
Proof.
  intros H L. destruct (reach_wf w c g d H) as (W & O).
  assert (D : (exists k, points c hint t k) \/ (forall j, ~ points c hint t j)).
  { destruct (Nat.lt_ge_cases i (length (flat c))) as [Lt|Ge].
    - destruct (located_points w c g d hint i H L Lt) as (t' & k & P & _). destruct (Nat.eq_dec t' t) as [<-|Ne]; [left; eauto|].
      right. intros j P'. pose proof (points_deref w c g d _ _ _ H P) as (X & A). pose proof (points_deref w c g d _ _ _ H P') as (Y & B).
      rewrite A in B. apply nth_error_Some in X. destruct (nth_error (elems c t') k); [|congruence].
      destruct (nth_error (elems c t) j); simpl in B; congruence.
    - right. intros j P'. pose proof (points_located c hint t j P') as L'.
      pose proof (located_fun w c g d _ _ _ H L L') as Q. destruct (points_deref w c g d _ _ _ H P') as (X & _).
      destruct (nth_flat w c g d t j H X) as (_ & Y). lia. }
  destruct D as [(k & P)|N].
  - exists k. csplit; [left; auto| |apply (points_deref w c g d) in P; auto; lia].
    intros k' [P'|(N & _)]; [|elim (N k); auto].
    pose proof (points_located c hint t k P) as L1. pose proof (points_located c hint t k' P') as L2.
    pose proof (located_fun w c g d _ _ _ H L1 L2). lia.
  - exists (length (elems c t)). csplit; [right; auto| |lia]. intros k' [P'|(_ & Q)]; auto. elim (N k'); auto.
Qed.
Example C09_hint_meaning_ex lay : let E := dE lay in
  reach (dw lay) [dc lay; dx lay] [] /\ located (dc lay) (it_at (dc lay) 2 1) 4.
Proof. demo lay. Qed.

(** ** C10 Local positions insert exactly there *)

Theorem C10_emplace_pos {V} {E : Env V} w c g d pos k a x v : let t := env_ty a in
  reach w (c :: g) d -> lpoints c pos t k -> src_c c t HEmplace x v ->
  wp (c_emplace_pos pos a x) (c, w)
    (fun '(c', w') l => inserted c c' t k v /\ lpoints c' l t k)
    (fun '(c', w') e => refused c c' w w' t HEmplace k e).
Proof. exact (spec_emplace_pos w c g d pos k a x v). Qed.
Example C10_emplace_pos_ex lay : let E := dE lay in
  reach (dw lay) [dc lay; dx lay] [] /\ lpoints (dc lay) (li_base (dc lay) 2 1) (env_ty 20) 1 /\
  lpoints (dc lay) (li_conc (dc lay) 2 2) (env_ty 20) 2 /\ src_c (dc lay) (env_ty 20) HEmplace (SVal 3) 3.
Proof. cbv zeta. change (env_ty (Env := dE lay) 20) with 2. csplit; [demo_fact lay..|left; reflexivity]. Qed.

Theorem C10_insert_pos {V} {E : Env V} w c g d pos k x v : let t := env_ty (a_dyn x) in
  reach w (c :: g) d -> lpoints c pos t k -> src_c c t (a_how x) (a_src x) v ->
  wp (c_insert_pos pos x) (c, w)
    (fun '(c', w') l => inserted c c' t k v /\ lpoints c' l t k)
    (fun '(c', w') e => refused c c' w w' t (a_how x) k e).
Proof. exact (spec_insert_pos w c g d pos k x v). Qed.
Example C10_insert_pos_ex lay : let E := dE lay in
  let x := mkarg 20 20 true false HCopy (SVal 3) in
  reach (dw lay) [dc lay; dx lay] [] /\ lpoints (dc lay) (li_base (dc lay) 2 0) (env_ty (a_dyn x)) 0 /\
  src_c (dc lay) (env_ty (a_dyn x)) (a_how x) (a_src x) 3.
Proof. cbv zeta. cbn [a_dyn a_src]. change (env_ty (Env := dE lay) 20) with 2. csplit; [demo_fact lay..|left; reflexivity]. Qed.

(** Every index from 0 to size has a local iterator. *)
Theorem C10_every_index {V} {E : Env V} w c g d t k : reach w (c :: g) d -> In t (types c) -> k <= length (elems c t) ->
  exists l, lpoints c l t k.
Proof. exact (lpoints_exists w c g d t k). Qed.
Example C10_every_index_ex lay : let E := dE lay in
  reach (dw lay) [dc lay; dx lay] [] /\ In 1 (types (dc lay)) /\ 3 <= length (elems (dc lay) 1).
Proof. demo lay. Qed.

(** The contents after an insertion at index [k]. *)
Theorem C10_contents {V} {E : Env V} c c' t k v : inserted c c' t k v ->
  elems c' t = firstn k (elems c t) ++ v :: skipn k (elems c t) /\ (forall t', t' <> t -> elems c' t' = elems c t').
Proof.
  intros I. split.
  - rewrite (g_elems _ _ _ _ (in_grew _ _ _ _ _ I)). unfold slot, of_type. rewrite Nat.eqb_refl. simpl.
    rewrite Nat.eqb_refl. simpl. auto.
  - intros t' N. rewrite (elems_seg_at c' t'), (elems_seg_at c t'), (in_others _ _ _ _ _ I t' N). auto.
Qed.
Example C10_contents_ex lay : let E := dE lay in
  let s := state (void (c_emplace_pos (li_base (dc lay) 1 1) 10 (SVal 4)) (dc lay, dw lay)) in
  inserted (dc lay) (fst s) 1 1 4 /\ elems (fst s) 1 = [5; 4; 6; 7].
Proof.
  cbv zeta. csplit; [|demo_fact lay].
  assert (L : let E := dE lay in lpoints (dc lay) (li_base (dc lay) 1 1) 1 1) by demo lay.
  destruct (wp_done _ _ _ _ (@C10_emplace_pos nat (dE lay) (dw lay) (dc lay) [dx lay] [] _ 1 10 (SVal 4) 4 (d_reach lay) L (or_introl eq_refl)))
    as (c' & w' & r & -> & I & _); [demo_fact lay|]. exact I.
Qed.

(** ** C11 Range insertion equals inserting the elements one by one *)

(** [grew None c c' l]: the values of each type were appended in order, missing types were
    registered, nothing else happened.  [broke_off]: it stopped at some element, in making it by copy, move or
    construction as that element asks for. *)
Theorem C11_insert_range {V} {E : Env V} w c g d xs l : reach w (c :: g) d -> Forall2 gives xs l ->
  wp (c_insert_range xs) (c, w)
    (fun '(c', w') _ => grew None c c' l /\ c_al c' = c_al c)
    (fun '(c', w') e => broke_off xs (map a_how xs) None c c' w w' l e).
Proof. exact (spec_insert_range w c g d xs l). Qed.
Example C11_insert_range_ex lay : let E := dE lay in
  reach (dw lay) [dc lay; dx lay] [] /\
  Forall2 gives [mkarg 20 20 true false HCopy (SVal 3); mkarg 10 20 true false HCopy (SVal 4); mkarg 50 50 true true HMove (SVal 3)]
    [(2, 3); (2, 4); (5, 3)].
Proof.
  cbv zeta. split; [apply d_reach|]. repeat constructor; try (intros _; reflexivity); intros Q; discriminate.
Qed.

Theorem C11_insert_range_terminal {V} {E : Env V} w c g d a h fwd xs : let t := env_ty a in reach w (c :: g) d ->
  wp (c_insert_range_terminal a h fwd xs) (c, w)
    (fun '(c', w') _ => grew None c c' (map (pair t) xs) /\ c_al c' = c_al c)
    (fun '(c', w') e => xs <> [] /\ harmed c c' t (length xs) /\ threw t h (length (elems c t)) (length xs) w w' e /\
       (many_safe fwd e -> rolled_back c c' t)).
Proof. exact (spec_insert_range_terminal w c g d a h fwd xs). Qed.
Example C11_insert_range_terminal_ex lay : let E := dE lay in
  let s := state (c_insert_range_terminal 10 HCopy true [1; 2; 3] (dc lay, dw lay)) in
  reach (dw lay) [dc lay; dx lay] [] /\ elems (fst s) 1 = [5; 6; 7; 1; 2; 3].
Proof. demo lay. Qed.

(** The fast path for terminal types and the loop that inserts one by one have the same
    effect on contents and registration. *)
Theorem C11_fast_path_is_loop {V} {E : Env V} w c g d a h fwd xs (args : list (arg V)) c1 w1 c2 w2 w0 :
  reach w (c :: g) d -> reach w0 (c :: g) d -> Forall2 gives args (map (pair (env_ty a)) xs) ->
  c_insert_range_terminal a h fwd xs (c, w) = Ok (c1, w1) tt -> c_insert_range args (c, w0) = Ok (c2, w2) tt ->
  forall t, elems c1 t = elems c2 t /\ (In t (types c1) <-> In t (types c2)).
Proof.
  intros H H0 G Q1 Q2 t.
  pose proof (spec_insert_range_terminal w c g d a h fwd xs H) as A. eapply wp_ok in A; [|exact Q1].
  pose proof (spec_insert_range w0 c g d args _ H0 G) as B. eapply wp_ok in B; [|exact Q2].
  destruct A as (A & _), B as (B & _). rewrite (g_elems _ _ _ _ A t), (g_elems _ _ _ _ B t).
  split; auto. rewrite (g_types _ _ _ _ A t), (g_types _ _ _ _ B t). tauto.
Qed.
Example C11_fast_path_is_loop_ex lay : let E := dE lay in
  let s1 := state (c_insert_range_terminal 50 HCopy false [1; 2] (dc lay, dw lay)) in
  let args := [mkarg 50 50 true true HCopy (SVal 1); mkarg 50 50 true true HCopy (SVal 2)] in
  let s2 := state (c_insert_range args (dc lay, dw lay)) in
  reach (dw lay) [dc lay; dx lay] [] /\ Forall2 gives args (map (pair (env_ty 50)) [1; 2]) /\
  c_insert_range_terminal 50 HCopy false [1; 2] (dc lay, dw lay) = Ok (fst s1, snd s1) tt /\
  c_insert_range args (dc lay, dw lay) = Ok (fst s2, snd s2) tt.
Proof.
  cbv zeta. csplit; [apply d_reach| |demo_fact lay|demo_fact lay]. repeat constructor.
Qed.

(** Construction from a range. *)
Theorem C11_range_constructor {V} {E : Env V} w g d xs l al : reach w g d -> Forall2 gives xs l ->
  wp (c_from_range xs al) w
    (fun w' c => grew None (c_empty al) c l /\ c_al c = al)
    (fun w' e => exists c', broke_off xs (map a_how xs) None (c_empty al) c' w w' l e).
Proof. exact (spec_from_range w g d xs l al). Qed.
Example C11_range_constructor_ex lay : let E := dE lay in
  reach (dw lay) [dc lay; dx lay] [] /\
  Forall2 gives [mkarg 20 20 true false HCopy (SVal 3); mkarg 20 20 true false HCopy (SVal 4); mkarg 50 50 true true HMove (SVal 3)]
    [(2, 3); (2, 4); (5, 3)].
Proof.
  cbv zeta. split; [apply d_reach|]. repeat constructor; try (intros _; reflexivity); intros Q; discriminate.
Qed.

(** ** C12 Hinted range insertion keeps order immediately before the hint *)

(** [grew (Some (t, k)) c c' l]: the values of type [t] are now, in order, at index [k] of that
    segment, those of other types at the end of theirs. *)
Theorem C12_insert_hint_range {V} {E : Env V} w c g d hint h xs l : reach w (c :: g) d ->
  hint_is c hint h -> Forall2 gives xs l -> hsafe h c l ->
  wp (c_insert_hint_range hint xs) (c, w)
    (fun '(c', w') _ => grew h c c' l /\ c_al c' = c_al c)
    (fun '(c', w') e => broke_off xs (map a_how xs) h c c' w w' l e).
Proof. exact (spec_insert_hint_range w c g d hint h xs l). Qed.
Example C12_insert_hint_range_ex lay : let E := dE lay in
  let xs := [mkarg 20 20 true false HCopy (SVal 3); mkarg 10 10 true false HCopy (SVal 4); mkarg 20 20 true true HMove (SVal 5)] in
  let hint := it_at (dc lay) 2 1 in let s := state (c_insert_hint_range hint xs (dc lay, dw lay)) in
  reach (dw lay) [dc lay; dx lay] [] /\ hint_is (dc lay) hint (Some (2, 1)) /\
  Forall2 gives xs [(2, 3); (1, 4); (2, 5)] /\ hsafe (Some (2, 1)) (dc lay) [(2, 3); (1, 4); (2, 5)] /\
  elems (fst s) 2 = [8; 3; 5; 9].
Proof.
  cbv zeta. csplit; [apply d_reach|cbn [hint_is]; demo_fact lay| | |demo_fact lay].
  - repeat constructor; try (intros _; reflexivity); intros Q; discriminate.
  - right. right. reflexivity.
Qed.

Theorem C12_insert_hint_range_terminal {V} {E : Env V} w c g d hint hn a h fwd xs : let t := env_ty a in reach w (c :: g) d ->
  hint_is c hint hn -> hsafe hn c (map (pair t) xs) ->
  wp (c_insert_hint_range_terminal hint a h fwd xs) (c, w)
    (fun '(c', w') _ => grew hn c c' (map (pair t) xs) /\ c_al c' = c_al c)
    (fun '(c', w') e => xs <> [] /\ harmed c c' t (length xs) /\ threw t h (length (elems c t)) (length xs) w w' e /\
       (many_safe fwd e -> rolled_back c c' t)).
Proof. exact (spec_insert_hint_range_terminal w c g d hint hn a h fwd xs). Qed.
Example C12_insert_hint_range_terminal_ex lay : let E := dE lay in
  let hint := it_at (dc lay) 2 1 in
  reach (dw lay) [dc lay; dx lay] [] /\ hint_is (dc lay) hint (Some (2, 1)) /\
  hsafe (Some (2, 1)) (dc lay) (map (pair (env_ty 20)) [6; 7]).
Proof. cbv zeta. csplit; [apply d_reach|cbn [hint_is]; demo_fact lay|right; right; reflexivity]. Qed.

Theorem C12_insert_hint_from {V} {E : Env V} w c g d hint h y first last i j : reach w (c :: g) d -> hint_is c hint h ->
  In y g -> located y first i -> located y last j -> i <= j -> hsafe h c (firstn (j - i) (skipn i (flat y))) ->
  wp (c_insert_hint_from (length (flat y)) hint y first last) (c, w)
    (fun '(c', w') _ => grew h c c' (firstn (j - i) (skipn i (flat y))) /\ c_al c' = c_al c)
    (fun '(c', w') e => broke_off [] (repeat HCopy (length (firstn (j - i) (skipn i (flat y))))) h c c' w w' (firstn (j - i) (skipn i (flat y))) e).
Proof. exact (spec_insert_hint_from w c g d hint h y first last i j). Qed.
Example C12_insert_hint_from_ex lay : let E := dE lay in
  reach (dw lay) [dc lay; dx lay] [] /\ hint_is (dc lay) (it_at (dc lay) 1 2) (Some (1, 2)) /\
  In (dx lay) [dx lay] /\ located (dx lay) (c_begin (dx lay)) 0 /\ located (dx lay) (c_end (dx lay)) 5 /\
  hsafe (Some (1, 2)) (dc lay) (firstn (5 - 0) (skipn 0 (flat (dx lay)))).
Proof.
  cbv zeta. csplit; [apply d_reach|cbn [hint_is]; demo_fact lay|left; auto|eapply begin_located; apply dx_reach| |right; right; reflexivity].
  replace 5 with (length (flat (dx lay))) by demo lay. apply end_located.
Qed.

Theorem C12_insert_hint_local {V} {E : Env V} w c g d hint h a xs : let t := env_ty a in reach w (c :: g) d ->
  hint_is c hint h -> hsafe h c (map (pair t) xs) ->
  wp (c_insert_hint_local hint a t xs) (c, w)
    (fun '(c', w') _ => grew h c c' (map (pair t) xs) /\ c_al c' = c_al c)
    (fun '(c', w') e => broke_off [] (repeat HCopy (length xs)) h c c' w w' (map (pair t) xs) e).
Proof. exact (spec_insert_hint_local w c g d hint h a xs). Qed.
Example C12_insert_hint_local_ex lay : let E := dE lay in
  reach (dw lay) [dc lay; dx lay] [] /\ hint_is (dc lay) (it_at (dc lay) 1 2) (Some (1, 2)) /\
  hsafe (Some (1, 2)) (dc lay) (map (pair (env_ty 12)) (elems (dx lay) 1)).
Proof. cbv zeta. csplit; [apply d_reach|cbn [hint_is]; demo_fact lay|right; right; reflexivity]. Qed.

(** ** C13 Insertion from another collection needs no prior registration *)

Theorem C13_insert_from {V} {E : Env V} w c g d y first last i j : reach w (c :: g) d ->
  In y g -> located y first i -> located y last j -> i <= j ->
  wp (c_insert_from (length (flat y)) y first last) (c, w)
    (fun '(c', w') _ => grew None c c' (firstn (j - i) (skipn i (flat y))) /\ c_al c' = c_al c)
    (fun '(c', w') e => broke_off [] (repeat HCopy (length (firstn (j - i) (skipn i (flat y))))) None c c' w w' (firstn (j - i) (skipn i (flat y))) e).
Proof. exact (spec_insert_from w c g d y first last i j). Qed.
Example C13_insert_from_ex lay : let E := dE lay in
  let f := it_at (dx lay) 1 0 in let l := it_at (dx lay) 1 2 in
  let s := state (c_insert_from (length (flat (dx lay))) (dx lay) (c_begin (dx lay)) (c_end (dx lay)) (dc lay, dw lay)) in
  reach (dw lay) [dc lay; dx lay] [] /\ In (dx lay) [dx lay] /\
  points (dx lay) f 1 0 /\ points (dx lay) l 1 2 /\
  ~ In 7 (types (dc lay)) /\ In 7 (types (fst s)) /\ elems (fst s) 1 = [5; 6; 7; 5; 6; 7].
Proof. cbv zeta. csplit; [apply d_reach|left; auto|demo_fact lay..]. Qed.

Theorem C13_insert_local {V} {E : Env V} w c g d a xs : let t := env_ty a in reach w (c :: g) d ->
  wp (c_insert_local a t xs) (c, w)
    (fun '(c', w') _ => grew None c c' (map (pair t) xs) /\ c_al c' = c_al c)
    (fun '(c', w') e => broke_off [] (repeat HCopy (length xs)) None c c' w w' (map (pair t) xs) e).
Proof. exact (spec_insert_local w c g d a xs). Qed.
Example C13_insert_local_ex lay : let E := dE lay in
  let s := state (c_insert_local 70 7 (elems (dx lay) 7) (dc lay, dw lay)) in
  reach (dw lay) [dc lay; dx lay] [] /\ elems (fst s) 7 = [4].
Proof. demo lay. Qed.

(** unregistered_type is not among the exceptions of such insertions. *)
Lemma never_unregistered {V} {E : Env V} hs h c c' w w' l e : broke_off (V := V) [] hs h c c' w w' l e ->
  forall t, e <> UnregisteredType t.
Proof.
  intros (_ & pre & t & v & post & c1 & _ & _ & [(hw & _ & _ & T & _)|(x & Nx & _)]) u ->; [|destruct (length pre); discriminate Nx].
  destruct T as [([|(? & _)] & _)|[(? & _)|(? & _)]]; discriminate.
Qed.
Inductive from_other {V} {E : Env V} (g : list (coll V)) (c : coll V) : M (coll V * world) unit -> Prop :=
| fo_range y first last i j : In y g -> located y first i -> located y last j -> i <= j ->
    from_other g c (c_insert_from (length (flat y)) y first last)
| fo_hint_range hint h y first last i j : In y g -> located y first i -> located y last j -> i <= j ->
    hint_is c hint h -> hsafe h c (firstn (j - i) (skipn i (flat y))) ->
    from_other g c (c_insert_hint_from (length (flat y)) hint y first last)
| fo_local a xs : from_other g c (c_insert_local a (env_ty a) xs)
| fo_hint_local hint h a xs : hint_is c hint h -> hsafe h c (map (pair (env_ty a)) xs) ->
    from_other g c (c_insert_hint_local hint a (env_ty a) xs).
Theorem C13_never_unregistered {V} {E : Env V} w c g d m : reach w (c :: g) d -> from_other g c m ->
  wp m (c, w) (fun _ _ => True) (fun _ e => forall t, e <> UnregisteredType t).
Proof.
  intros H [y first last i j Hy L1 L2 Hij|hint h y first last i j Hy L1 L2 Hij Hh Hs|a xs|hint h a xs Hh Hs].
  - eapply wp_mono; [exact (spec_insert_from w c g d y first last i j H Hy L1 L2 Hij)|auto|].
    intros [c' w'] e B. eapply never_unregistered; exact B.
  - eapply wp_mono; [exact (spec_insert_hint_from w c g d hint h y first last i j H Hh Hy L1 L2 Hij Hs)|auto|].
    intros [c' w'] e B. eapply never_unregistered; exact B.
  - eapply wp_mono; [exact (spec_insert_local w c g d a xs H)|auto|]. intros [c' w'] e B. eapply never_unregistered; exact B.
  - eapply wp_mono; [exact (spec_insert_hint_local w c g d hint h a xs H Hh Hs)|auto|]. intros [c' w'] e B. eapply never_unregistered; exact B.
Qed.
(* a type not registered with dc, read from dx *)
Example C13_never_unregistered_ex lay : let E := dE lay in
  reach (dw lay) [dc lay; dx lay] [] /\ ~ In 7 (types (dc lay)) /\ In 7 (types (dx lay)) /\
  from_other [dx lay] (dc lay) (c_insert_from (length (flat (dx lay))) (dx lay) (c_begin (dx lay)) (c_end (dx lay))).
Proof.
  cbv zeta. csplit; [apply d_reach|demo_fact lay|demo_fact lay|].
  apply (fo_range _ _ _ _ _ 0 (length (flat (dx lay)))); [left; auto|eapply begin_located; apply dx_reach|apply end_located|lia].
Qed.

(** ** C14 Local range insertion returns the first inserted element *)

Theorem C14_insert_pos_range {V} {E : Env V} w c g d pos t k xs vs : reach w (c :: g) d ->
  lpoints c pos t k -> Forall2 (gives_at t) xs vs ->
  wp (c_insert_pos_range pos xs) (c, w)
    (fun '(c', w') l => grew (Some (t, k)) c c' (map (pair t) vs) /\ lpoints c' l t k /\ c_al c' = c_al c)
    (fun '(c', w') e => broke_off [] (map a_how xs) (Some (t, k)) c c' w w' (map (pair t) vs) e).
Proof. exact (spec_insert_pos_range w c g d pos t k xs vs). Qed.
Example C14_insert_pos_range_ex lay : let E := dE lay in
  let xs := [mkarg 20 20 true false HCopy (SVal 3); mkarg 10 21 true false HCopy (SVal 4); mkarg 20 20 true false HMove (SVal 5)] in
  let s := state (void (c_insert_pos_range (li_base (dc lay) 2 1) xs) (dc lay, dw lay)) in
  reach (dw lay) [dc lay; dx lay] [] /\ lpoints (dc lay) (li_base (dc lay) 2 1) 2 1 /\
  Forall2 (gives_at 2) xs [3; 4; 5] /\ elems (fst s) 2 = [8; 3; 4; 5; 9].
Proof. cbv zeta. csplit; [apply d_reach|demo_fact lay|repeat constructor|demo_fact lay]. Qed.

Theorem C14_insert_lpos_range {V} {E : Env V} w c g d i p k a xs : let t := env_ty a in reach w (c :: g) d ->
  lpoints c (mkliter i (PConc p)) t k ->
  wp (c_insert_lpos_range i t p xs) (c, w)
    (fun '(c', w') l => grew (Some (t, k)) c c' (map (pair t) (map snd xs)) /\ lpoints c' l t k /\ c_al c' = c_al c)
    (fun '(c', w') e => broke_off [] (map (way t) xs) (Some (t, k)) c c' w w' (map (pair t) (map snd xs)) e).
Proof. exact (spec_insert_lpos_range w c g d i p k a xs). Qed.
Example C14_insert_lpos_range_ex lay : let E := dE lay in
  let l := li_conc (dc lay) 2 1 in
  reach (dw lay) [dc lay; dx lay] [] /\ lpoints (dc lay) l 2 1 /\ exists p, li_pos l = PConc p.
Proof. cbv zeta. csplit; [apply d_reach|demo_fact lay|destruct lay; vm_compute; eauto]. Qed.

(** ** C27 Stability on insertion *)

(** [stable_below c c' t k]: the capacity of the segment of type [t] is what it was, its first
    [k] elements are at the same addresses, and iterators and local iterators to them still
    refer to them; end() is still end(). *)
Definition stable_below {V} {E : Env V} (c c' : coll V) (t : tyid) (k : nat) : Prop :=
  cap_of c' t = cap_of c t /\ c_end c' = c_end c /\
  forall j, j < k -> addr_of c' t j = addr_of c t j /\ kept_at c c' t j.

Lemma cap_registered {V} {E : Env V} (c : coll V) t : 0 < cap_of c t -> In t (types c).
Proof. intros H. apply types_seg_at. unfold cap_of in H. intros Q. rewrite Q in H. lia. Qed.
Lemma grew_below {V} {E : Env V} h c c' l t : grew h c c' l -> incl (map fst l) [t] ->
  length (elems c t) + length (of_type t l) <= cap_of c t -> 0 < cap_of c t -> stable_below c c' t (slot h c t).
Proof.
  intros G I Hc Hp. pose proof (cap_registered _ _ Hp) as Ht. pose proof (grew_length _ _ _ _ t G) as Hl.
  assert (J : incl (map fst l) (types c)) by (intros y Hy; destruct (I y Hy) as [<-|[]]; auto).
  split; [|split; auto].
  - apply (g_cap _ _ _ _ G); auto. lia.
  - intros j Hj. split.
    + apply (g_stable _ _ _ _ G); auto. lia.
    + apply (g_iters _ _ _ _ G); auto. lia.
Qed.
Lemma inserted_below {V} {E : Env V} c c' t k v : inserted c c' t k v -> length (elems c t) < cap_of c t -> stable_below c c' t k.
Proof.
  intros I H. pose proof (in_grew _ _ _ _ _ I) as G.
  replace k with (slot (Some (t, k)) c t) by (simpl; rewrite Nat.eqb_refl; auto).
  eapply grew_below; [exact G|apply incl_refl| |lia]. unfold of_type. simpl. rewrite Nat.eqb_refl. simpl. lia.
Qed.

Theorem C27_emplace_pos {V} {E : Env V} w c g d pos k a x v : let t := env_ty a in
  reach w (c :: g) d -> lpoints c pos t k -> src_c c t HEmplace x v -> length (elems c t) < cap_of c t ->
  wp (c_emplace_pos pos a x) (c, w) (fun '(c', w') _ => stable_below c c' t k) (fun _ _ => True).
Proof.
  intros t H L S Hc. eapply wp_mono; [exact (spec_emplace_pos w c g d pos k a x v H L S)| |auto].
  intros [c' w'] l (I & _). eapply inserted_below; eauto.
Qed.
Example C27_emplace_pos_ex lay : let E := dE lay in let c := fst (dr lay) in
  reach (snd (dr lay)) [c; dx lay] [] /\ lpoints c (li_base c 1 2) (env_ty 10) 2 /\ src_c c 1 HEmplace (SVal 4) 4 /\
  length (elems c 1) < cap_of c 1.
Proof.
  cbv zeta. change (env_ty (Env := dE lay) 10) with 1.
  csplit; [apply dr_reach|demo_fact lay|left; reflexivity|demo_fact lay].
Qed.

Theorem C27_insert {V} {E : Env V} w c g d x v : let t := env_ty (a_dyn x) in
  reach w (c :: g) d -> arg_ok x -> src_c c t (a_how x) (a_src x) v -> length (elems c t) < cap_of c t ->
  wp (c_insert x) (c, w) (fun '(c', w') _ => stable_below c c' t (length (elems c t))) (fun _ _ => True).
Proof.
  intros t H A S Hc. eapply wp_mono; [exact (spec_insert w c g d x v H A S)| |auto].
  intros [c' w'] l (_ & I & _). eapply inserted_below; eauto.
Qed.
Example C27_insert_ex lay : let E := dE lay in let c := fst (dr lay) in let x := mkarg 20 10 true false HCopy (SVal 3) in
  reach (snd (dr lay)) [c; dx lay] [] /\ arg_ok x /\ src_c c (env_ty (a_dyn x)) (a_how x) (a_src x) 3 /\
  length (elems c (env_ty (a_dyn x))) < cap_of c (env_ty (a_dyn x)).
Proof.
  cbv zeta. csplit; [apply dr_reach|intros Q; discriminate|left; reflexivity|demo_fact lay].
Qed.

Theorem C27_insert_pos_range {V} {E : Env V} w c g d pos t k xs vs : reach w (c :: g) d ->
  lpoints c pos t k -> Forall2 (gives_at t) xs vs -> length (elems c t) + length vs <= cap_of c t -> 0 < cap_of c t ->
  wp (c_insert_pos_range pos xs) (c, w) (fun '(c', w') _ => stable_below c c' t k) (fun _ _ => True).
Proof.
  intros H L F Hc Hp. eapply wp_mono; [exact (spec_insert_pos_range w c g d pos t k xs vs H L F)| |auto].
  intros [c' w'] l (G & _). replace k with (slot (Some (t, k)) c t) by (simpl; rewrite Nat.eqb_refl; auto).
  eapply grew_below; [exact G| | |exact Hp].
  - rewrite map_map. simpl. intros y Hy. apply in_map_iff in Hy. destruct Hy as (? & <- & _). left; auto.
  - rewrite of_type_same. exact Hc.
Qed.
Example C27_insert_pos_range_ex lay : let E := dE lay in let c := fst (dr lay) in
  let xs := [mkarg 10 10 true false HCopy (SVal 3); mkarg 10 11 true false HCopy (SVal 4); mkarg 10 10 true false HMove (SVal 5)] in
  reach (snd (dr lay)) [c; dx lay] [] /\ lpoints c (li_base c 1 2) 1 2 /\ Forall2 (gives_at 1) xs [3; 4; 5] /\
  length (elems c 1) + length [3; 4; 5] <= cap_of c 1 /\ 0 < cap_of c 1.
Proof.
  cbv zeta. csplit; [apply dr_reach|demo_fact lay|repeat constructor|demo_fact lay|demo_fact lay].
Qed.

(** ** C54 Iterators survive the creation of new segments *)

(** Inserting an element of any type, registered or not, and whether or not that succeeds,
    leaves iterators and local iterators for all other types valid, provided the standard
    library's map does not invalidate its iterators when it rehashes (as is the case in the
    usual implementations).  The standard does not promise that: see C54_hint_refuted in
    Properties5.v. *)
Theorem C54_insert_partial {V} {E : Env V} w c g d x v : let t := env_ty (a_dyn x) in
  reach w (c :: g) d -> arg_ok x -> src_c c t (a_how x) (a_src x) v -> env_rehash_stable = true ->
  wp (c_insert x) (c, w)
    (fun '(c', w') _ => forall t' k, t' <> t -> kept_at c c' t' k)
    (fun '(c', w') _ => forall t' k, t' <> t -> kept_at c c' t' k).
Proof.
  intros t H A S St. eapply wp_mono; [exact (spec_insert w c g d x v H A S)| |].
  - intros [c' w'] it (_ & I & _). apply (in_iters _ _ _ _ _ I). auto.
  - intros [c' w'] e [(_ & _ & U)|(_ & Hm & _)] t' k Ne.
    + split; intros i P; [apply (u_points _ _ U)|apply (u_lpoints _ _ U)]; auto.
    + apply (hm_iters _ _ _ _ Hm); auto.
Qed.
Example C54_insert_partial_ex lay : let E := dE lay in
  let x := mkarg 50 50 true false HCopy (SVal 3) in
  reach (dw lay) [dc lay; dx lay] [] /\ arg_ok x /\ src_c (dc lay) (env_ty (a_dyn x)) (a_how x) (a_src x) 3 /\
  env_rehash_stable = true /\ ~ In (env_ty (a_dyn x)) (types (dc lay)) /\ points (dc lay) (it_at (dc lay) 1 1) 1 1.
Proof. cbv zeta. csplit; [demo_fact lay|intros Q; discriminate|left; reflexivity|reflexivity|demo_fact lay|demo_fact lay]. Qed.

Theorem C54_emplace_partial {V} {E : Env V} w c g d a x v : let t := env_ty a in
  reach w (c :: g) d -> src_c c t HEmplace x v -> env_rehash_stable = true ->
  wp (c_emplace a x) (c, w)
    (fun '(c', w') _ => forall t' k, t' <> t -> kept_at c c' t' k)
    (fun '(c', w') _ => forall t' k, t' <> t -> kept_at c c' t' k).
Proof.
  intros t H S St. eapply wp_mono; [exact (spec_emplace w c g d a x v H S)| |].
  - intros [c' w'] it (I & _). apply (in_iters _ _ _ _ _ I). auto.
  - intros [c' w'] e (Hm & _) t' k Ne. apply (hm_iters _ _ _ _ Hm); auto.
Qed.
Example C54_emplace_partial_ex lay : let E := dE lay in
  reach (dw lay) [dc lay; dx lay] [] /\ src_c (dc lay) (env_ty 50) HEmplace (SVal 4) 4 /\ env_rehash_stable = true /\
  ~ In (env_ty 50) (types (dc lay)).
Proof. cbv zeta. csplit; [demo_fact lay|left; reflexivity|reflexivity|demo_fact lay]. Qed.

(** Registration touches no iterator at all, nor does a range insertion as far as types that
    are not in the range are concerned. *)
Theorem C54_register_partial {V} {E : Env V} w c g d l : reach w (c :: g) d -> env_rehash_stable = true ->
  wp (register_types l) (c, w)
    (fun '(c', w') _ => forall t k, kept_at c c' t k) (fun '(c', w') _ => forall t k, kept_at c c' t k).
Proof.
  intros H St. eapply wp_mono; [exact (spec_register w c g d l H)| |].
  - intros [c' w'] _ R. apply (re_iters _ _ _ R). auto.
  - intros [c' w'] e (pre & a & post & _ & [R|R] & _); apply (re_iters _ _ _ R); auto.
Qed.
Example C54_register_partial_ex lay : let E := dE lay in
  reach (dw lay) [dc lay; dx lay] [] /\ env_rehash_stable = true /\ ~ In (env_ty 50) (types (dc lay)).
Proof. demo lay. Qed.

Theorem C54_insert_range {V} {E : Env V} w c g d xs l : reach w (c :: g) d -> Forall2 gives xs l -> env_rehash_stable = true ->
  wp (c_insert_range xs) (c, w)
    (fun '(c', w') _ => forall t k, ~ In t (map fst l) -> kept_at c c' t k)
    (fun '(c', w') _ => forall t k, ~ In t (map fst l) -> kept_at c c' t k).
Proof.
  intros H F St. eapply wp_mono; [exact (spec_insert_range w c g d xs l H F)| |].
  - intros [c' w'] _ (G & _). apply (g_oiters _ _ _ _ G). auto.
  - intros [c' w'] e (_ & pre & t & v & post & c1 & -> & G & B) t' k N. rewrite map_app in N. simpl in N.
    assert (N1 : ~ In t' (map fst pre)) by (intros Q; apply N, in_or_app; auto).
    assert (Ne : t' <> t) by (intros ->; apply N, in_or_app; right; left; auto).
    eapply ProofColl.kept_trans; [apply (g_oiters _ _ _ _ G); auto|].
    destruct B as [(hw & _ & Hm & _)|(x & _ & _ & _ & _ & U)].
    + apply (hm_iters _ _ _ _ Hm); auto.
    + split; intros i P; [apply (u_points _ _ U)|apply (u_lpoints _ _ U)]; auto.
Qed.
Example C54_insert_range_ex lay : let E := dE lay in
  let xs := [mkarg 20 20 true false HCopy (SVal 3); mkarg 10 20 true false HCopy (SVal 4); mkarg 50 50 true true HMove (SVal 3)] in
  reach (dw lay) [dc lay; dx lay] [] /\ Forall2 gives xs [(2, 3); (2, 4); (5, 3)] /\ env_rehash_stable = true /\
  ~ In 1 (map fst [(2, 3); (2, 4); (5, 3)]) /\ points (dc lay) (it_at (dc lay) 1 1) 1 1.
Proof.
  cbv zeta. csplit; [apply d_reach| |reflexivity|simpl; intuition discriminate|demo_fact lay].
  repeat constructor; try (intros _; reflexivity); intros Q; discriminate.
Qed.

Print Assumptions C08_emplace.
Print Assumptions C08_insert.
Print Assumptions C08_contents.
Print Assumptions C09_emplace_hint.
Print Assumptions C09_insert_hint.
Print Assumptions C09_hint_meaning.
Print Assumptions C10_emplace_pos.
Print Assumptions C10_insert_pos.
Print Assumptions C10_every_index.
Print Assumptions C10_contents.
Print Assumptions C11_insert_range.
Print Assumptions C11_insert_range_terminal.
Print Assumptions C11_fast_path_is_loop.
Print Assumptions C11_range_constructor.
Print Assumptions C12_insert_hint_range.
Print Assumptions C12_insert_hint_range_terminal.
Print Assumptions C12_insert_hint_from.
Print Assumptions C12_insert_hint_local.
Print Assumptions C13_insert_from.
Print Assumptions C13_insert_local.
Print Assumptions C13_never_unregistered.
Print Assumptions C14_insert_pos_range.
Print Assumptions C14_insert_lpos_range.
Print Assumptions C27_emplace_pos.
Print Assumptions C27_insert.
Print Assumptions C27_insert_pos_range.
Print Assumptions C54_insert_partial.
Print Assumptions C54_emplace_partial.
Print Assumptions C54_register_partial.
Print Assumptions C54_insert_range.
