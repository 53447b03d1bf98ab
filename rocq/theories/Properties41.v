(** * Function objects which use iterators they have captured (C84)

    See the heads of Properties1.v and Properties39.v for the form of the statements.  The state is that of C83 with the captured iterators; [enacts m m'] says that [m], run on the
    collections, does what [m'] does on the sequences of their elements. *)

From Coq Require Import List Arith Lia Bool Permutation.
From Verif Require Import Base Vec Backend Segment Coll StdAlg Algo Access Local Walk Many Body Spec SpecAlg SpecAcc SpecLocal SpecWalk SpecMany SpecBody Reach ProofBase ProofVec ProofBackend ProofOps
  ProofSeg ProofMap ProofView ProofAlgo ProofAlgo2 ProofColl ProofReach ProofObs ProofProp ProofProp4 ProofProp5 ProofAccess Demo Properties6 ProofLocal ProofWalk ProofMany ProofBody Properties38 Properties39.
Import ListNotations.

Lemma views_seq {V} {E : Env V} (c : coll V) Ts i j : i <= j -> j <= tot (c_nodes c) ->
  Forall2 (fun x m => exists r, x = seen Ts r /\ nth_error (refs c) m = Some r) (views c Ts i j) (seq i (j - i)).
Proof.
  intros L B. rewrite <- refs_length in B. pose proof (refs_seq c i j L B) as F. unfold views. induction F; cbn [map]; constructor; eauto.
Qed.

(** ** C84 *)

(** for_each with a function object which, besides the element it is called on, uses and changes the elements its captured iterators refer to: the calls are made on the
    positions of the range in order, each on the elements as they are then.  Nothing but values changes; the iterators of all the collections stay valid. *)
Theorem C84_for_each {V} {E : Env V} {S} w g d k c Ts first last i j its ks (F : option tyid -> act V S unit) : reach w g d -> nth_error g k = Some c ->
  located c first i -> located c last j -> i <= j -> Forall2 (designates_at g) its ks ->
  enacts w g d its ks (pc_for_each c Ts first last (calling k F)) (std_for_each (calling_seq Ts k F) (seq i (j - i))) eq.
Proof.
  intros H Hc L1 L2 L D. pose proof (reach_front w g d k c H Hc) as Hf. alg Hf L1 L2. apply simulates_enacts; auto.
  eapply sim_same; [apply (for_each_ok c Ts W i j L B')| |intros ? ? ? -> ->; reflexivity].
  eapply for_each_sim; [apply views_seq; auto|]. intros x m (r & -> & Hr). eapply calling_sim; eauto.
Qed.
(* in the examples: the captured iterators are two in the other collection and two in this one; the function object adds to the element what the first one refers to, changes what the
   third one refers to, and says whether the element has been changed to more than 12 *)
Definition meddle (_ : option tyid) : act nat unit bool :=
  There (Ref 0 (looking (fun y => ret (snd y))) (fun v => Ref 2 (fun _ => modify (fun vs => (100 + fst vs, snd vs))) (fun _ => Done v)))
    (fun v => Here (fun _ vs => Ok (v + fst vs, snd vs) (12 <? v + fst vs)) (fun b => Give b)).
Definition silent {X} (F : option tyid -> act nat unit X) (T : option tyid) : act nat unit unit := 
  let fix go a := match a with Give _ => Give tt | Here f next => Here f (fun b => go (next b)) | There p next => There p (fun b => go (next b)) end in go (F T).
Example C84_for_each_ex lay : let E := dE lay in
  reach (dw lay) [dc lay; dx lay] [] /\ nth_error [dc lay; dx lay] 0 = Some (dc lay) /\ located (dc lay) (dfirst lay) 1 /\ located (dc lay) (dlast lay) 5 /\ 1 <= 5 /\
  Forall2 (designates_at [dc lay; dx lay]) (d_its lay) (d_places lay) /\
  match pc_for_each (dc lay) [2] (dfirst lay) (dlast lay) (calling 0 (silent meddle)) (([dc lay; dx lay], tt), d_its lay) with
  | Ok ((g, _), _) _ => map flat g = [[(1, 5); (1, 411); (1, 12); (2, 13); (2, 14); (4, 1)]; flat (dx lay)]
  | _ => False
  end.
Proof. cbv zeta. csplit; try apply d_designates; demo lay. Qed.

(** for_each_n *)
Theorem C84_for_each_n {V} {E : Env V} {S} w g d k c Ts first i n its ks (F : option tyid -> act V S unit) : reach w g d -> nth_error g k = Some c ->
  located c first i -> i + n <= length (flat c) -> Forall2 (designates_at g) its ks ->
  enacts w g d its ks (pc_for_each_n c Ts first n (calling k F)) (std_for_each (calling_seq Ts k F) (seq i n)) (fun it _ => located c it (i + n)).
Proof.
  intros H Hc L1 L D. pose proof (reach_front w g d k c H Hc) as Hf. pose proof (aok_of _ _ _ _ Hf) as W. destruct (loc _ _ _ _ _ _ Hf L1) as [-> B]. rewrite flat_length in L.
  apply simulates_enacts; auto.
  eapply sim_same; [apply (for_each_n_ok c Ts W (calling k F) i n L)| |intros it ? ? -> _; eapply unloc; eauto].
  eapply for_each_sim; [pose proof (views_seq c Ts i (i + n) ltac:(lia) L) as Q; replace (i + n - i) with n in Q by lia; exact Q|]. intros x m (r & -> & Hr). eapply calling_sim; eauto.
Qed.
Example C84_for_each_n_ex lay : let E := dE lay in
  reach (dw lay) [dc lay; dx lay] [] /\ nth_error [dc lay; dx lay] 0 = Some (dc lay) /\ located (dc lay) (dfirst lay) 1 /\ 1 + 3 <= length (flat (dc lay)) /\
  Forall2 (designates_at [dc lay; dx lay]) (d_its lay) (d_places lay) /\
  match pc_for_each_n (dc lay) [2] (dfirst lay) 3 (calling 0 (silent meddle)) (([dc lay; dx lay], tt), d_its lay) with
  | Ok ((g, _), _) it => map flat g = [[(1, 5); (1, 311); (1, 12); (2, 13); (2, 9); (4, 1)]; flat (dx lay)] /\ it = it_at (dc lay) 2 1
  | _ => False
  end.
Proof. cbv zeta. csplit; try apply d_designates; demo lay. Qed.

(** find_if, count_if and all_of, whose function objects may do so as well *)
Theorem C84_find_if {V} {E : Env V} {S} w g d k c Ts first last i j its ks (F : option tyid -> act V S bool) : reach w g d -> nth_error g k = Some c ->
  located c first i -> located c last j -> i <= j -> Forall2 (designates_at g) its ks ->
  enacts w g d its ks (pc_find_if c Ts first last (calling k F)) (std_find_if (calling_seq Ts k F) (seq i (j - i))) (fun it m => located c it (i + m)).
Proof.
  intros H Hc L1 L2 L D. pose proof (reach_front w g d k c H Hc) as Hf. alg Hf L1 L2. apply simulates_enacts; auto.
  eapply sim_same; [apply (find_if_ok c Ts W i j L B')| |intros it ? ? [-> Q] <-; eapply unloc; [exact Hf|lia]].
  eapply find_if_sim; [apply views_seq; auto|]. intros x m (r & -> & Hr). eapply calling_sim; eauto.
Qed.
Example C84_find_if_ex lay : let E := dE lay in
  reach (dw lay) [dc lay; dx lay] [] /\ nth_error [dc lay; dx lay] 0 = Some (dc lay) /\ located (dc lay) (dfirst lay) 1 /\ located (dc lay) (dlast lay) 5 /\ 1 <= 5 /\
  Forall2 (designates_at [dc lay; dx lay]) (d_its lay) (d_places lay) /\
  match pc_find_if (dc lay) [2] (it_at (dc lay) 1 2) (dlast lay) (calling 0 meddle) (([dc lay; dx lay], tt), d_its lay) with
  | Ok ((g, _), _) it => map flat g = [[(1, 5); (1, 206); (1, 12); (2, 13); (2, 9); (4, 1)]; flat (dx lay)] /\ it = it_at (dc lay) 2 0
  | _ => False
  end.
Proof. cbv zeta. csplit; try apply d_designates; demo lay. Qed.
Theorem C84_count_if {V} {E : Env V} {S} w g d k c Ts first last i j its ks (F : option tyid -> act V S bool) : reach w g d -> nth_error g k = Some c ->
  located c first i -> located c last j -> i <= j -> Forall2 (designates_at g) its ks ->
  enacts w g d its ks (pc_count_if c Ts first last (calling k F)) (std_count_if (calling_seq Ts k F) (seq i (j - i))) eq.
Proof.
  intros H Hc L1 L2 L D. pose proof (reach_front w g d k c H Hc) as Hf. alg Hf L1 L2. apply simulates_enacts; auto.
  eapply sim_same; [apply (count_if_ok c Ts W i j L B')| |intros ? ? ? -> ->; reflexivity].
  eapply count_if_sim; [apply views_seq; auto|]. intros x m (r & -> & Hr). eapply calling_sim; eauto.
Qed.
Example C84_count_if_ex lay : let E := dE lay in
  reach (dw lay) [dc lay; dx lay] [] /\ nth_error [dc lay; dx lay] 0 = Some (dc lay) /\ located (dc lay) (dfirst lay) 1 /\ located (dc lay) (dlast lay) 5 /\ 1 <= 5 /\
  Forall2 (designates_at [dc lay; dx lay]) (d_its lay) (d_places lay) /\
  match pc_count_if (dc lay) [2] (dfirst lay) (dlast lay) (calling 0 meddle) (([dc lay; dx lay], tt), d_its lay) with
  | Ok ((g, _), _) n => map flat g = [[(1, 5); (1, 411); (1, 12); (2, 13); (2, 14); (4, 1)]; flat (dx lay)] /\ n = 3
  | _ => False
  end.
Proof. cbv zeta. csplit; try apply d_designates; demo lay. Qed.
Theorem C84_all_of {V} {E : Env V} {S} w g d k c Ts first last i j its ks (F : option tyid -> act V S bool) : reach w g d -> nth_error g k = Some c ->
  located c first i -> located c last j -> i <= j -> Forall2 (designates_at g) its ks ->
  enacts w g d its ks (pc_all_of c Ts first last (calling k F)) (std_all_of (calling_seq Ts k F) (seq i (j - i))) eq.
Proof.
  intros H Hc L1 L2 L D. pose proof (reach_front w g d k c H Hc) as Hf. alg Hf L1 L2. apply simulates_enacts; auto.
  eapply sim_same; [apply (all_of_ok c Ts W i j L B')| |intros ? ? ? -> ->; reflexivity].
  eapply all_of_sim; [apply views_seq; auto|]. intros x m (r & -> & Hr). eapply calling_sim; eauto.
Qed.
Example C84_all_of_ex lay : let E := dE lay in
  reach (dw lay) [dc lay; dx lay] [] /\ nth_error [dc lay; dx lay] 0 = Some (dc lay) /\ located (dc lay) (dfirst lay) 1 /\ located (dc lay) (dlast lay) 5 /\ 1 <= 5 /\
  Forall2 (designates_at [dc lay; dx lay]) (d_its lay) (d_places lay) /\
  match pc_all_of (dc lay) [2] (dfirst lay) (dlast lay) (calling 0 meddle) (([dc lay; dx lay], tt), d_its lay) with
  | Ok ((g, _), _) b => map flat g = [[(1, 5); (1, 211); (1, 12); (2, 8); (2, 9); (4, 1)]; flat (dx lay)] /\ b = false
  | _ => False
  end.
Proof. cbv zeta. csplit; try apply d_designates; demo lay. Qed.

(** The algorithms which write: [F o] is what is done with the element and the position [o] of the output (copy, move and transform). *)
Theorem C84_copy {V} {E : Env V} {S} w g d k c Ts first last i j its ks (F : nat -> option tyid -> act V S unit) o : reach w g d -> nth_error g k = Some c ->
  located c first i -> located c last j -> i <= j -> Forall2 (designates_at g) its ks ->
  enacts w g d its ks (pc_copy c Ts first last (fun o => calling k (F o)) o) (std_copy (fun o => calling_seq Ts k (F o)) (seq i (j - i)) o) eq.
Proof.
  intros H Hc L1 L2 L D. pose proof (reach_front w g d k c H Hc) as Hf. alg Hf L1 L2. apply simulates_enacts; auto.
  unfold pc_copy. eapply sim_same; [apply (generic_copy_ok c Ts W i j L B' (fun o xs => std_copy (fun o => calling k (F o)) xs o) o), copy_out| |intros ? ? ? -> ->; reflexivity].
  eapply copy_sim; [apply views_seq; auto|]. intros o' x m (r & -> & Hr). eapply calling_sim; eauto.
Qed.
Example C84_copy_ex lay : let E := dE lay in
  reach (dw lay) [dc lay; dx lay] [] /\ nth_error [dc lay; dx lay] 0 = Some (dc lay) /\ located (dc lay) (dfirst lay) 1 /\ located (dc lay) (dlast lay) 5 /\ 1 <= 5 /\
  Forall2 (designates_at [dc lay; dx lay]) (d_its lay) (d_places lay) /\
  match pc_copy (dc lay) [2] (dfirst lay) (dlast lay) (fun _ => calling 0 (silent meddle)) 7 (([dc lay; dx lay], tt), d_its lay) with
  | Ok ((g, _), _) o => map flat g = [[(1, 5); (1, 411); (1, 12); (2, 13); (2, 14); (4, 1)]; flat (dx lay)] /\ o = 11
  | _ => False
  end.
Proof. cbv zeta. csplit; try apply d_designates; demo lay. Qed.

(** [for_each(first,last,\[&\](auto& x){x=h( *prev,x);++prev;})], [prev] referring to the element before [first]: every call sees what the call before has made of the element
    before, also if that is in another segment; the other elements and collections stay as they are, and [prev] ends up at the last element of the range. *)
Theorem C84_scan {V} {E : Env V} {S} w g d k c Ts prev first last i j (h : tyid * V -> tyid * V -> V) x (s : S) : reach w g d -> nth_error g k = Some c ->
  located c prev i -> located c first (1 + i) -> located c last j -> 1 + i <= j -> nth_error (flat c) i = Some x ->
  exists g' c' prev', pc_for_each c Ts first last (calling k (scanning h)) ((g, s), [(k, prev)]) = Ok ((g', s), [(k, prev')]) tt /\
    reach w g' d /\ nth_error g' k = Some c' /\ located c' prev' (j - 1) /\
    updated c c' (1 + i) (map snd (scan (fun y z => (fst z, h y z)) x (between (1 + i) j (flat c)))) /\
    (forall n c0, n <> k -> nth_error g n = Some c0 -> exists c1, nth_error g' n = Some c1 /\ updated c0 c1 0 [] /\ flat c1 = flat c0).
Proof.
  intros H Hc Lp L1 L2 L Hx. assert (D : Forall2 (designates_at g) [(k, prev)] [(k, i)]) by (repeat constructor; cbn; eauto).
  pose proof (C84_for_each w g d k c Ts first last (1 + i) j [(k, prev)] [(k, i)] (scanning h) H Hc L1 L2 L D s) as R.
  pose proof (located_le w c _ d last j (reach_front w g d k c H Hc) L2) as Bj.
  set (l := flat c) in *.
  assert (Es : l = firstn i l ++ x :: between (1 + i) j l ++ skipn j l).
  { rewrite (split_nth i x l Hx) at 1. do 2 f_equal. unfold between. rewrite <- (firstn_skipn (j - (1 + i)) (skipn (1 + i) l)) at 1. f_equal. rewrite skipn_skipn. f_equal. lia. }
  assert (Lb : length (between (1 + i) j l) = j - (1 + i)) by (apply between_length; auto).
  assert (Lp' : length (firstn i l) = i) by (rewrite firstn_length; lia).
  pose proof (scan_seqs h Ts k (between (1 + i) j l) (firstn i l) x (skipn j l) (map flat g) s) as Q.
  rewrite nth_error_map, Hc in Q. cbn [option_map] in Q. fold l in Q. rewrite Lb, Lp' in Q. rewrite <- Es in Q. rewrite (Q eq_refl) in R. clear Q.
  destruct R as ([[g' s'] its'] & [] & Qr & (<- & R1 & R2 & R3 & R4) & _).
  inversion R3 as [|[n' prev'] ? l1 ? (Qn & c0 & Hc0 & Lo) F0]; subst. inversion F0; subst. cbn [fst snd] in *. subst n'.
  assert (Nth : forall n c, nth_error g n = Some c -> exists c', nth_error g' n = Some c' /\ updated c c' 0 (map snd (flat c')) /\ map fst (flat c') = map fst (flat c)).
  { intros n c1 Hn. clear - R4 Hn. revert n Hn. induction R4 as [|x y l l' [Q1 Q2] F IH]; intros [|n] Hn; try discriminate; cbn in *; [injection Hn as <-; eauto|auto]. }
  assert (Hk : k < length (map flat g)) by (rewrite map_length; apply nth_error_Some; congruence).
  assert (Flat : forall n c', nth_error g' n = Some c' -> nth_error (map flat g') n = Some (flat c')) by (intros n c1 Hn; rewrite nth_error_map, Hn; reflexivity).
  destruct (Nth k c Hc) as (c' & Hc' & U & _). assert (c0 = c') by congruence. subst c0.
  exists g', c', prev'. csplit; auto.
  - replace (j - 1) with (i + (j - (1 + i))) by lia. exact Lo.
  - assert (Ef := Flat k c' Hc'). rewrite R2, reg_set_nth, Nat.eqb_refl in Ef by exact Hk. injection Ef as Ef.
    destruct U as [U1 U3 U4 U5 U6 U7 U8]. split; auto.
    assert (Ls : forall a m, length (scan (fun y z => (fst z, h y z)) a m) = length m).
    { intros a m. revert a. induction m as [|z m IH]; intros a; cbn [scan length]; auto. }
    rewrite map_length, Ls, Lb. rewrite <- Ef. rewrite map_app. cbn [map]. rewrite map_app. fold l.
    replace (1 + i + (j - (1 + i))) with j by lia. rewrite skipn_map.
    change (firstn (1 + i) (map snd l)) with (firstn (Datatypes.S i) (map snd l)). rewrite (firstn_S_nth i (map snd l) (snd x)) by (apply map_nth_error; exact Hx).
    rewrite <- app_assoc, firstn_map. reflexivity.
  - intros n c1 Nn Hn. destruct (Nth n c1 Hn) as (c2 & Hc2 & U2 & _). exists c2. split; auto.
    assert (Ef : flat c2 = flat c1).
    { pose proof (Flat n c2 Hc2) as Q. rewrite R2, reg_set_nth, (proj2 (Nat.eqb_neq n k) Nn), nth_error_map, Hn in Q by exact Hk. cbn in Q. congruence. }
    split; [|exact Ef]. destruct U2 as [U1 U3 U4 U5 U6 U7 U8]. split; auto. rewrite Ef. reflexivity.
Qed.
Example C84_scan_ex lay : let E := dE lay in
  reach (dw lay) [dx lay; dc lay] [] /\ nth_error [dx lay; dc lay] 1 = Some (dc lay) /\ located (dc lay) (dfirst lay) 1 /\ located (dc lay) (it_at (dc lay) 1 2) (1 + 1) /\
  located (dc lay) (c_end (dc lay)) 6 /\ 1 + 1 <= 6 /\ nth_error (flat (dc lay)) 1 = Some (1, 6) /\
  match pc_for_each (dc lay) [2] (it_at (dc lay) 1 2) (c_end (dc lay)) (calling 1 (scanning (fun x y => snd x + snd y))) (([dx lay; dc lay], tt), [(1, dfirst lay)]) with
  | Ok ((g, _), _) _ => map flat g = [flat (dx lay); [(1, 5); (1, 6); (1, 13); (2, 21); (2, 30); (4, 31)]]
  | _ => False
  end.
Proof.
  cbv zeta. csplit; [eapply r_perm; [apply (d_reach lay)|apply perm_swap|reflexivity]|reflexivity|demo_fact lay..].
Qed.

Print Assumptions C84_for_each.
Print Assumptions C84_for_each_n.
Print Assumptions C84_find_if.
Print Assumptions C84_count_if.
Print Assumptions C84_all_of.
Print Assumptions C84_copy.
Print Assumptions C84_scan.
