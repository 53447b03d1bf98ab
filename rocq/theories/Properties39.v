(** * Programs which use iterators of several collections (C83)

    See the heads of Properties1.v and Properties32.v for the form of the statements.  The state of a program is a list of collections and that of the caller ([S]); a
    variable holds the number of a collection in the list and an iterator of it. *)

From Coq Require Import List Arith Lia Bool Permutation Sorted.
From Verif Require Import Base Vec Backend Segment Coll StdAlg Algo Access Local Walk Many Spec SpecAlg SpecAcc SpecLocal SpecWalk SpecMany Reach ProofBase ProofVec ProofBackend ProofOps
  ProofSeg ProofMap ProofView ProofAlgo ProofColl ProofReach ProofObs ProofProp ProofProp4 ProofProp5 ProofAccess Demo Properties6 ProofLocal ProofWalk ProofMany Properties38.
Import ListNotations.

(** In the examples: objects ordered by value, and iterators into two collections. *)
Definition by_val (x y : tyid * nat) : bool := snd x <? snd y.
Lemma by_val_swo : swo by_val.
Proof.
  unfold by_val. split.
  - intros x. apply Nat.ltb_irrefl.
  - intros x y z H K. apply Nat.ltb_lt in H, K. apply Nat.ltb_lt. lia.
  - intros x y z H K. apply Nat.ltb_ge in H, K. apply Nat.ltb_ge. lia.
Qed.
Definition d_its (lay : layout) : list (nat * iter) := let E := dE lay in [(1, it_at (dx lay) 1 0); (1, it_at (dx lay) 1 2); (0, dfirst lay); (0, dlast lay)].
Definition d_places (lay : layout) : list (nat * nat) := [(1, dp lay); (1, 2 + dp lay); (0, 1); (0, 5)].
Lemma d_designates lay : let E := dE lay in Forall2 (designates_at [dc lay; dx lay]) (d_its lay) (d_places lay).
Proof.
  cbv zeta. unfold d_its, d_places. cbv zeta. repeat (apply Forall2_cons); try constructor; try reflexivity; eexists; (split; [reflexivity|]); cbn [snd]; demo_fact lay.
Qed.

(** ** C83 *)

(** Whatever a program does with iterators of any number of collections, it has the same result as on the sequences of their elements, an iterator being a position in one
    of the sequences.  What it changes in an element it changes in the collection of the element, and nothing else; iterators, segments and storage of all of them stay. *)
Theorem C83_programs {V} {E : Env V} {S X} w g d (p : walk V S X) its ks s : reach w g d -> Forall2 (designates_at g) its ks ->
  let did g' ls' := reach w g' d /\ map flat g' = ls' /\ Forall2 (fun c c' => map fst (flat c') = map fst (flat c) /\ updated c c' 0 (map snd (flat c'))) g g' in
  match run_seqs p ks (map flat g, s) with
  | Ok (ls', s') (x, ks') => exists g' its', run_walks p its (g, s) = Ok (g', s') (x, its') /\ did g' ls' /\ Forall2 (designates_at g') its' ks'
  | Exn (ls', s') e => exists g', run_walks p its (g, s) = Exn (g', s') e /\ did g' ls'
  | UB => True
  end.
Proof.
  intros H F did. pose proof (run_walks_seqs p its ks w g d s H F) as R. cbn zeta in R.
  assert (U : forall g', Forall2 changed g g' -> Forall2 (fun c c' => map fst (flat c') = map fst (flat c) /\ updated c c' 0 (map snd (flat c'))) g g').
  { intros g' Fc. assert (Gen : forall l l', Forall2 changed l l' -> (forall c, In c l -> In c g) ->
      Forall2 (fun c c' => map fst (flat c') = map fst (flat c) /\ updated c c' 0 (map snd (flat c'))) l l'); [|apply Gen; auto].
    intros l l' F'. induction F' as [|c c' l l' Q F' IH]; intros Hi; constructor.
    - split; [apply Q|]. destruct (In_nth_error g c (Hi c (or_introl eq_refl))) as (k & Hk). eapply changed_updated; eauto.
    - apply IH. intros x Hx. apply Hi. right. exact Hx. }
  destruct (run_seqs p ks (map flat g, s)) as [[ls' s'] [x ks']|[ls' s'] e|]; auto.
  - destruct R as (g' & its' & Q & (R1 & R2 & R3) & F'). exists g', its'. csplit; auto. unfold did. csplit; auto.
  - destruct R as (g' & Q & R1 & R2 & R3). exists g'. split; auto. unfold did. csplit; auto.
Qed.
Example C83_programs_ex lay : let E := dE lay in
  reach (dw lay) [dc lay; dx lay] [] /\ Forall2 (designates_at [dc lay; dx lay]) (d_its lay) (d_places lay) /\
  match run_seqs (w_lexicographical 2 (fun x y => ret (by_val x y))) (d_places lay) (map flat [dc lay; dx lay], tt) with Ok _ (b, _) => b = true | _ => False end.
Proof. cbv zeta. csplit; try apply d_designates; demo lay. Qed.

(** std::lexicographical_compare on ranges of two collections, or of one. *)
Theorem C83_lexicographical_compare {V} {E : Env V} {S} w g d n1 n2 c1 c2 first1 last1 i1 j1 first2 last2 i2 j2 lt (less : tyid * V -> tyid * V -> M S bool) fuel s :
  reach w g d -> nth_error g n1 = Some c1 -> nth_error g n2 = Some c2 -> located c1 first1 i1 -> located c1 last1 j1 -> i1 <= j1 ->
  located c2 first2 i2 -> located c2 last2 j2 -> i2 <= j2 -> j1 - i1 <= fuel -> implements lt less ->
  wp (run_walks (w_lexicographical fuel less) [(n1, first1); (n1, last1); (n2, first2); (n2, last2)]) (g, s)
    (fun '(g', _) r => map flat g' = map flat g /\ (fst r = true <-> lex_before lt (between i1 j1 (flat c1)) (between i2 j2 (flat c2))))
    (fun '(g', _) _ => map flat g' = map flat g).
Proof.
  intros H N1 N2 A1 A2 L1 B1 B2 L2 Lf Hl.
  assert (F : Forall2 (designates_at g) [(n1, first1); (n1, last1); (n2, first2); (n2, last2)] [(n1, i1); (n1, j1); (n2, i2); (n2, j2)]).
  { repeat (apply Forall2_cons); [split; [reflexivity|]; eauto..|constructor]. }
  pose proof (C83_programs w g d (w_lexicographical fuel less) _ _ s H F) as R. cbn zeta in R.
  pose proof (located_le w c1 _ d last1 j1 (reach_front w g d n1 c1 H N1) A2) as Bj1. pose proof (located_le w c2 _ d last2 j2 (reach_front w g d n2 c2 H N2) B2) as Bj2.
  pose proof (lexicographical_seqs lt less Hl fuel n1 n2 (flat c1) (flat c2) (map flat g) i1 j1 i2 j2 s) as Q. rewrite !nth_error_map, N1, N2 in Q.
  specialize (Q eq_refl eq_refl L1 Bj1 L2 Bj2 Lf). unfold wp in *.
  destruct (run_seqs (w_lexicographical fuel less) _ _) as [[ls' s'] [x ks']|[ls' s'] e|]; [| |destruct Q].
  - destruct Q as (-> & Q). destruct R as (g' & its' & -> & (_ & R & _) & _). cbn [fst] in *. auto.
  - destruct R as (g' & -> & (_ & R & _)). congruence.
Qed.
Example C83_lexicographical_compare_ex lay : let E := dE lay in
  reach (dw lay) [dc lay; dx lay] [] /\ nth_error [dc lay; dx lay] 1 = Some (dx lay) /\ nth_error [dc lay; dx lay] 0 = Some (dc lay) /\
  located (dx lay) (it_at (dx lay) 1 0) (dp lay) /\ located (dx lay) (it_at (dx lay) 1 2) (2 + dp lay) /\ dp lay <= 2 + dp lay /\
  located (dc lay) (dfirst lay) 1 /\ located (dc lay) (dlast lay) 5 /\ 1 <= 5 /\ 2 + dp lay - dp lay <= 2 /\ implements (S := unit) by_val (fun x y => ret (by_val x y)) /\
  match run_walks (w_lexicographical 2 (fun x y => ret (by_val x y))) (d_its lay) ([dc lay; dx lay], tt) with Ok _ (b, _) => b = true | _ => False end.
Proof. cbv zeta. csplit; try (intros x y s; reflexivity); demo lay. Qed.

(** std::merge of ranges of two collections, or of one. *)
Theorem C83_merge {V} {E : Env V} w g d n1 n2 c1 c2 first1 last1 i1 j1 first2 last2 i2 j2 (lt : tyid * V -> tyid * V -> bool) fuel out :
  reach w g d -> nth_error g n1 = Some c1 -> nth_error g n2 = Some c2 -> located c1 first1 i1 -> located c1 last1 j1 -> i1 <= j1 ->
  located c2 first2 i2 -> located c2 last2 j2 -> i2 <= j2 -> (j1 - i1) + (j2 - i2) <= fuel -> swo lt ->
  exists g' its out', run_walks (w_merge fuel (fun x y => ret (lt x y)) append) [(n1, first1); (n1, last1); (n2, first2); (n2, last2)] (g, out) = Ok (g', out ++ out') (tt, its) /\
    map flat g' = map flat g /\ merged lt (between i1 j1 (flat c1)) (between i2 j2 (flat c2)) out'.
Proof.
  intros H N1 N2 A1 A2 L1 B1 B2 L2 Lf Hl.
  assert (F : Forall2 (designates_at g) [(n1, first1); (n1, last1); (n2, first2); (n2, last2)] [(n1, i1); (n1, j1); (n2, i2); (n2, j2)]).
  { repeat (apply Forall2_cons); [split; [reflexivity|]; eauto..|constructor]. }
  pose proof (C83_programs w g d (w_merge fuel (fun x y => ret (lt x y)) append) _ _ out H F) as R. cbn zeta in R.
  pose proof (located_le w c1 _ d last1 j1 (reach_front w g d n1 c1 H N1) A2) as Bj1. pose proof (located_le w c2 _ d last2 j2 (reach_front w g d n2 c2 H N2) B2) as Bj2.
  pose proof (merge_seqs lt Hl fuel n1 n2 (flat c1) (flat c2) (map flat g) i1 j1 i2 j2 out) as Q. rewrite !nth_error_map, N1, N2 in Q.
  destruct (Q eq_refl eq_refl L1 Bj1 L2 Bj2 Lf) as (out' & Q' & Mg). rewrite Q' in R. destruct R as (g' & its & Qr & (_ & R & _) & _). exists g', its, out'. auto.
Qed.
Example C83_merge_ex lay : let E := dE lay in
  reach (dw lay) [dc lay; dx lay] [] /\ nth_error [dc lay; dx lay] 1 = Some (dx lay) /\ nth_error [dc lay; dx lay] 0 = Some (dc lay) /\
  located (dx lay) (it_at (dx lay) 1 0) (dp lay) /\ located (dx lay) (it_at (dx lay) 1 2) (2 + dp lay) /\ dp lay <= 2 + dp lay /\
  located (dc lay) (dfirst lay) 1 /\ located (dc lay) (dlast lay) 5 /\ 1 <= 5 /\ (2 + dp lay - dp lay) + (5 - 1) <= 6 /\ swo by_val /\
  match run_walks (w_merge 6 (fun x y => ret (by_val x y)) append) (d_its lay) ([dc lay; dx lay], []) with Ok (_, out) _ => map snd out = [5; 6; 6; 7; 8; 9] | _ => False end.
Proof. cbv zeta. csplit; try apply by_val_swo; demo lay. Qed.

(** A loop over a collection which changes the elements of another one: the values are those computed from the elements of both in corresponding positions; the first
    collection, the other elements and the types stay as they are. *)
Theorem C83_update {V} {E : Env V} {S} w g d n1 n2 c1 c2 first1 last1 i1 j1 first2 last2 i2 j2 (h : tyid * V -> tyid * V -> V) fuel (s : S) :
  reach w g d -> n1 <> n2 -> nth_error g n1 = Some c1 -> nth_error g n2 = Some c2 -> located c1 first1 i1 -> located c1 last1 j1 -> i1 <= j1 ->
  located c2 first2 i2 -> located c2 last2 j2 -> i2 <= j2 -> j1 - i1 <= j2 - i2 -> j1 - i1 <= fuel ->
  exists g' its c2', run_walks (w_update fuel (assigning h)) [(n1, first1); (n1, last1); (n2, first2); (n2, last2)] (g, s) = Ok (g', s) (tt, its) /\
    reach w g' d /\ (forall n c, n <> n2 -> nth_error g n = Some c -> exists c', nth_error g' n = Some c' /\ updated c c' 0 [] /\ flat c' = flat c) /\
    nth_error g' n2 = Some c2' /\
    updated c2 c2' i2 (map (fun xy => h (fst xy) (snd xy)) (combine (between i1 j1 (flat c1)) (between i2 (i2 + (j1 - i1)) (flat c2)))).
Proof.
  intros H Ne N1 N2 A1 A2 L1 B1 B2 L2 Lj Lf.
  assert (F : Forall2 (designates_at g) [(n1, first1); (n1, last1); (n2, first2); (n2, last2)] [(n1, i1); (n1, j1); (n2, i2); (n2, j2)]).
  { repeat (apply Forall2_cons); [split; [reflexivity|]; eauto..|constructor]. }
  pose proof (C83_programs w g d (w_update fuel (assigning h)) _ _ s H F) as R. cbn zeta in R.
  pose proof (located_le w c1 _ d last1 j1 (reach_front w g d n1 c1 H N1) A2) as Bj1. pose proof (located_le w c2 _ d last2 j2 (reach_front w g d n2 c2 H N2) B2) as Bj2.
  pose proof (update_seqs h fuel n1 n2 (flat c1) (flat c2) (map flat g) i1 j1 i2 j2 s Ne) as Q. rewrite !nth_error_map, N1, N2 in Q.
  rewrite (Q eq_refl eq_refl L1 Bj1 ltac:(lia) Lf) in R. destruct R as (g' & its & Qr & (R1 & R2 & R3) & _). clear Q.
  assert (Nth : forall n c, nth_error g n = Some c -> exists c', nth_error g' n = Some c' /\ updated c c' 0 (map snd (flat c')) /\ map fst (flat c') = map fst (flat c)).
  { intros n c Hn. clear - R3 Hn. revert n Hn. induction R3 as [|x y l l' [Q1 Q2] F IH]; intros [|n] Hn; try discriminate; cbn in *; [injection Hn as <-; eauto|auto]. }
  assert (Hn2 : n2 < length (map flat g)) by (rewrite map_length; apply nth_error_Some; congruence).
  assert (Flat : forall n c', nth_error g' n = Some c' -> nth_error (map flat g') n = Some (flat c')) by (intros n c' Hn; rewrite nth_error_map, Hn; reflexivity).
  destruct (Nth n2 c2 N2) as (c2' & Hc2' & U2 & _). exists g', its, c2'. csplit; auto.
  - intros n c Nn Hn. destruct (Nth n c Hn) as (c' & Hc' & U & _). exists c'. split; auto.
    assert (Ef : flat c' = flat c).
    { pose proof (Flat n c' Hc') as Q. rewrite R2, reg_set_nth, (proj2 (Nat.eqb_neq n n2) Nn), nth_error_map, Hn in Q by exact Hn2. cbn in Q. congruence. }
    split; [|exact Ef]. destruct U as [U1 U3 U4 U5 U6 U7 U8]. split; auto. rewrite Ef. reflexivity.
  - assert (Ef := Flat n2 c2' Hc2'). rewrite R2, reg_set_nth, Nat.eqb_refl in Ef by exact Hn2. injection Ef as Ef.
    destruct U2 as [U1 U3 U4 U5 U6 U7 U8]. split; auto.
    assert (Lb1 : length (between i1 j1 (flat c1)) = j1 - i1) by (apply between_length; auto).
    assert (Lb2 : length (between i2 (i2 + (j1 - i1)) (flat c2)) = j1 - i1) by (rewrite between_length; lia).
    rewrite map_length, combine_length, Lb1, Lb2, Nat.min_id. rewrite <- Ef, !map_app, map_map, firstn_map, skipn_map. reflexivity.
Qed.
Example C83_update_ex lay : let E := dE lay in
  reach (dw lay) [dc lay; dx lay] [] /\ 1 <> 0 /\ nth_error [dc lay; dx lay] 1 = Some (dx lay) /\ nth_error [dc lay; dx lay] 0 = Some (dc lay) /\
  located (dx lay) (it_at (dx lay) 1 0) (dp lay) /\ located (dx lay) (it_at (dx lay) 1 2) (2 + dp lay) /\ dp lay <= 2 + dp lay /\
  located (dc lay) (dfirst lay) 1 /\ located (dc lay) (dlast lay) 5 /\ 1 <= 5 /\ 2 + dp lay - dp lay <= 5 - 1 /\ 2 + dp lay - dp lay <= 2 /\
  match run_walks (w_update 2 (assigning (fun x y => 10 * snd x + snd y))) (d_its lay) ([dc lay; dx lay], tt) with
  | Ok ([c; x], _) _ => between 1 5 (flat c) = [(1, 56); (1, 67); (2, 8); (2, 9)] /\ flat x = flat (dx lay)
  | _ => False end.
Proof. demo lay. Qed.

Print Assumptions C83_programs.
Print Assumptions C83_lexicographical_compare.
Print Assumptions C83_merge.
Print Assumptions C83_update.
