(** * More algorithms whose function objects use iterators they have captured (C84)

    See the head of Properties41.v for the form of the statements. *)

From Coq Require Import List Arith Lia Bool Permutation.
From Verif Require Import Base Vec Backend Segment Coll StdAlg Algo Access Local Walk Many Body Spec SpecAlg SpecAcc SpecLocal SpecWalk SpecMany SpecBody Reach ProofBase ProofVec ProofBackend ProofOps
  ProofSeg ProofMap ProofView ProofAlgo ProofAlgo2 ProofColl ProofReach ProofObs ProofProp ProofProp4 ProofProp5 ProofAccess Demo Properties6 ProofLocal ProofWalk ProofMany ProofBody Properties38 Properties39
  Properties41.
Import ListNotations.

Section Lists.
Context {V : Type} {E : Env V} {S : Type} {X Y Z : Type} (w : world) (g d : list (coll V)) (Rx : X -> Y -> Prop).
Notation sims f f' := (forall x y, Rx x y -> simulates w g d (f x) (f' y) eq).
Notation puts f f' := (forall o x y, Rx x y -> simulates w g d (f o x) (f' o y) eq).

Lemma any_of_sim (f : X -> M (scene V S) bool) (f' : Y -> M (plot (V := V) (S := S)) bool) xs ys : Forall2 Rx xs ys -> sims f f' ->
  simulates w g d (std_any_of f xs) (std_any_of f' ys) eq.
Proof.
  intros F H. induction F as [|x y xs ys Q F IH]; cbn [std_any_of]; [apply sim_ret; reflexivity|]. eapply sim_bind; [apply H, Q|]. intros b ? <-.
  destruct b; [apply sim_ret; reflexivity|apply IH].
Qed.
Lemma none_of_sim (f : X -> M (scene V S) bool) (f' : Y -> M (plot (V := V) (S := S)) bool) xs ys : Forall2 Rx xs ys -> sims f f' ->
  simulates w g d (std_none_of f xs) (std_none_of f' ys) eq.
Proof.
  intros F H. induction F as [|x y xs ys Q F IH]; cbn [std_none_of]; [apply sim_ret; reflexivity|]. eapply sim_bind; [apply H, Q|]. intros b ? <-.
  destruct b; [apply sim_ret; reflexivity|apply IH].
Qed.
Lemma find_if_not_sim (f : X -> M (scene V S) bool) (f' : Y -> M (plot (V := V) (S := S)) bool) xs ys : Forall2 Rx xs ys -> sims f f' ->
  simulates w g d (std_find_if_not f xs) (std_find_if_not f' ys) eq.
Proof.
  intros F H. induction F as [|x y xs ys Q F IH]; cbn [std_find_if_not]; [apply sim_ret; reflexivity|]. eapply sim_bind; [apply H, Q|]. intros b ? <-.
  destruct b; [|apply sim_ret; reflexivity]. eapply sim_bind; [apply IH|]. intros n ? <-. apply sim_ret. reflexivity.
Qed.
Lemma Forall2_skipn n : forall (xs : list X) (ys : list Y), Forall2 Rx xs ys -> Forall2 Rx (skipn n xs) (skipn n ys).
Proof. induction n as [|n IH]; intros xs ys F; cbn [skipn]; auto. destruct F; auto. Qed.
Lemma is_partitioned_sim (f : X -> M (scene V S) bool) (f' : Y -> M (plot (V := V) (S := S)) bool) xs ys : Forall2 Rx xs ys -> sims f f' ->
  simulates w g d (std_is_partitioned f xs) (std_is_partitioned f' ys) eq.
Proof.
  intros F H. unfold std_is_partitioned. eapply sim_bind; [apply find_if_not_sim; eauto|]. intros n ? <-. apply none_of_sim; auto. apply Forall2_skipn, F.
Qed.
Lemma copy_if_sim (f : X -> M (scene V S) bool) (f' : Y -> M (plot (V := V) (S := S)) bool) (h : nat -> X -> M (scene V S) unit) (h' : nat -> Y -> M (plot (V := V) (S := S)) unit) xs ys :
  Forall2 Rx xs ys -> sims f f' -> puts h h' -> forall o, simulates w g d (std_copy_if f h xs o) (std_copy_if f' h' ys o) eq.
Proof.
  intros F H P. induction F as [|x y xs ys Q F IH]; intros o; cbn [std_copy_if]; [apply sim_ret; reflexivity|]. eapply sim_bind; [apply H, Q|]. intros b ? <-.
  destruct b; [|apply IH]. eapply sim_bind; [apply P, Q|]. intros _ _ _. apply IH.
Qed.
Lemma remove_copy_if_sim (f : X -> M (scene V S) bool) (f' : Y -> M (plot (V := V) (S := S)) bool) (h : nat -> X -> M (scene V S) unit) (h' : nat -> Y -> M (plot (V := V) (S := S)) unit) xs ys :
  Forall2 Rx xs ys -> sims f f' -> puts h h' -> forall o, simulates w g d (std_remove_copy_if f h xs o) (std_remove_copy_if f' h' ys o) eq.
Proof.
  intros F H P. induction F as [|x y xs ys Q F IH]; intros o; cbn [std_remove_copy_if]; [apply sim_ret; reflexivity|]. eapply sim_bind; [apply H, Q|]. intros b ? <-.
  destruct b; [apply IH|]. eapply sim_bind; [apply P, Q|]. intros _ _ _. apply IH.
Qed.
Lemma partition_copy_sim (f : X -> M (scene V S) bool) (f' : Y -> M (plot (V := V) (S := S)) bool) (h1 h2 : nat -> X -> M (scene V S) unit)
  (h1' h2' : nat -> Y -> M (plot (V := V) (S := S)) unit) xs ys :
  Forall2 Rx xs ys -> sims f f' -> puts h1 h1' -> puts h2 h2' -> forall o, simulates w g d (std_partition_copy f h1 h2 xs o) (std_partition_copy f' h1' h2' ys o) eq.
Proof.
  intros F H P1 P2. induction F as [|x y xs ys Q F IH]; intros o; cbn [std_partition_copy]; [apply sim_ret; reflexivity|]. eapply sim_bind; [apply H, Q|]. intros b ? <-.
  destruct b; (eapply sim_bind; [first [apply P1, Q|apply P2, Q]|]); intros _ _ _; apply IH.
Qed.
Lemma sim_ub {A B} (m : M (scene V S) A) (R : A -> B -> Prop) : simulates w g d m (fun _ : plot (V := V) (S := S) => UB) R.
Proof. intros st st' P. exact I. Qed.
Lemma mismatch_sim (bounded : bool) (f : X -> Z -> M (scene V S) bool) (f' : Y -> Z -> M (plot (V := V) (S := S)) bool) xs ys : Forall2 Rx xs ys ->
  (forall x y z, Rx x y -> simulates w g d (f x z) (f' y z) eq) -> forall zs,
  simulates w g d ((if bounded then std_mismatch_to else std_mismatch) f xs zs) ((if bounded then std_mismatch_to else std_mismatch) f' ys zs) eq.
Proof.
  intros F H. destruct bounded; induction F as [|x y xs ys Q F IH]; intros [|z zs]; cbn [std_mismatch_to std_mismatch]; try (apply sim_ret; reflexivity); try apply sim_ub;
    (eapply sim_bind; [apply H, Q|]; intros b ? <-; destruct b; [|apply sim_ret; reflexivity]; eapply sim_bind; [apply IH|]; intros n ? <-; apply sim_ret; reflexivity).
Qed.
Lemma equal_sim (bounded : bool) (f : X -> Z -> M (scene V S) bool) (f' : Y -> Z -> M (plot (V := V) (S := S)) bool) xs ys : Forall2 Rx xs ys ->
  (forall x y z, Rx x y -> simulates w g d (f x z) (f' y z) eq) -> forall zs,
  simulates w g d ((if bounded then std_equal_to else std_equal) f xs zs) ((if bounded then std_equal_to else std_equal) f' ys zs) eq.
Proof.
  intros F H. destruct bounded; induction F as [|x y xs ys Q F IH]; intros [|z zs]; cbn [std_equal_to std_equal]; try (apply sim_ret; reflexivity); try apply sim_ub;
    (eapply sim_bind; [apply H, Q|]; intros b ? <-; destruct b; [apply IH|apply sim_ret; reflexivity]).
Qed.
End Lists.

(** ** C84 *)

(** any_of: no call is made after the first answer [true]; [eq] says that the answers are the same. *)
Theorem C84_any_of {V} {E : Env V} {S} w g d k c Ts first last i j its ks (F : option tyid -> act V S bool) : reach w g d -> nth_error g k = Some c ->
  located c first i -> located c last j -> i <= j -> Forall2 (designates_at g) its ks ->
  enacts w g d its ks (pc_any_of c Ts first last (calling k F)) (std_any_of (calling_seq Ts k F) (seq i (j - i)))
    eq.
Proof.
  intros H Hc L1 L2 L D. pose proof (reach_front w g d k c H Hc) as Hf. pose proof (located_le w c _ d last j Hf L2) as B. rewrite flat_length in B. apply simulates_enacts; auto.
  eapply sim_same; [apply (C38_any_of w c _ d Ts first last i j _ Hf L1 L2 L); auto| |intros ? ? ? -> ->; reflexivity].
  eapply any_of_sim; [apply views_seq; auto|intros; cbv beta in *; match goal with H : exists _, _ |- _ => destruct H as (r & -> & Hr) end; eapply calling_sim; eauto..].
Qed.
Example C84_any_of_ex lay : let E := dE lay in
  reach (dw lay) [dc lay; dx lay] [] /\ nth_error [dc lay; dx lay] 0 = Some (dc lay) /\ located (dc lay) (dfirst lay) 1 /\ located (dc lay) (dlast lay) 5 /\ 1 <= 5 /\
  Forall2 (designates_at [dc lay; dx lay]) (d_its lay) (d_places lay) /\
  match pc_any_of (dc lay) [2] (dfirst lay) (dlast lay) (calling 0 meddle) (([dc lay; dx lay], tt), d_its lay) with
  | Ok ((g, _), _) r => (map flat g, r) = ([[(1, 5); (1, 111); (1, 7); (2, 8); (2, 9); (4, 1)]; flat (dx lay)], true)
  | _ => False
  end.
Proof. cbv zeta. csplit; try apply d_designates; demo lay. Qed.

(** none_of *)
Theorem C84_none_of {V} {E : Env V} {S} w g d k c Ts first last i j its ks (F : option tyid -> act V S bool) : reach w g d -> nth_error g k = Some c ->
  located c first i -> located c last j -> i <= j -> Forall2 (designates_at g) its ks ->
  enacts w g d its ks (pc_none_of c Ts first last (calling k F)) (std_none_of (calling_seq Ts k F) (seq i (j - i)))
    eq.
Proof.
  intros H Hc L1 L2 L D. pose proof (reach_front w g d k c H Hc) as Hf. pose proof (located_le w c _ d last j Hf L2) as B. rewrite flat_length in B. apply simulates_enacts; auto.
  eapply sim_same; [apply (C38_none_of w c _ d Ts first last i j _ Hf L1 L2 L); auto| |intros ? ? ? -> ->; reflexivity].
  eapply none_of_sim; [apply views_seq; auto|intros; cbv beta in *; match goal with H : exists _, _ |- _ => destruct H as (r & -> & Hr) end; eapply calling_sim; eauto..].
Qed.
Example C84_none_of_ex lay : let E := dE lay in
  reach (dw lay) [dc lay; dx lay] [] /\ nth_error [dc lay; dx lay] 0 = Some (dc lay) /\ located (dc lay) (dfirst lay) 1 /\ located (dc lay) (dlast lay) 5 /\ 1 <= 5 /\
  Forall2 (designates_at [dc lay; dx lay]) (d_its lay) (d_places lay) /\
  match pc_none_of (dc lay) [2] (dfirst lay) (dlast lay) (calling 0 meddle) (([dc lay; dx lay], tt), d_its lay) with
  | Ok ((g, _), _) r => (map flat g, r) = ([[(1, 5); (1, 111); (1, 7); (2, 8); (2, 9); (4, 1)]; flat (dx lay)], false)
  | _ => False
  end.
Proof. cbv zeta. csplit; try apply d_designates; demo lay. Qed.

(** find_if_not: the iterator returned is at the first position whose call answered [false]. *)
Theorem C84_find_if_not {V} {E : Env V} {S} w g d k c Ts first last i j its ks (F : option tyid -> act V S bool) : reach w g d -> nth_error g k = Some c ->
  located c first i -> located c last j -> i <= j -> Forall2 (designates_at g) its ks ->
  enacts w g d its ks (pc_find_if_not c Ts first last (calling k F)) (std_find_if_not (calling_seq Ts k F) (seq i (j - i)))
    (fun it m => located c it (i + m)).
Proof.
  intros H Hc L1 L2 L D. pose proof (reach_front w g d k c H Hc) as Hf. pose proof (located_le w c _ d last j Hf L2) as B. rewrite flat_length in B. apply simulates_enacts; auto.
  eapply sim_same; [apply (C39_find_if_not w c _ d Ts first last i j _ Hf L1 L2 L); auto| |intros it ? ? Q <-; exact Q].
  eapply find_if_not_sim; [apply views_seq; auto|intros; cbv beta in *; match goal with H : exists _, _ |- _ => destruct H as (r & -> & Hr) end; eapply calling_sim; eauto..].
Qed.
Example C84_find_if_not_ex lay : let E := dE lay in
  reach (dw lay) [dc lay; dx lay] [] /\ nth_error [dc lay; dx lay] 0 = Some (dc lay) /\ located (dc lay) (dfirst lay) 1 /\ located (dc lay) (dlast lay) 5 /\ 1 <= 5 /\
  Forall2 (designates_at [dc lay; dx lay]) (d_its lay) (d_places lay) /\
  match pc_find_if_not (dc lay) [2] (dfirst lay) (dlast lay) (calling 0 meddle) (([dc lay; dx lay], tt), d_its lay) with
  | Ok ((g, _), _) r => (map flat g, r) = ([[(1, 5); (1, 211); (1, 12); (2, 8); (2, 9); (4, 1)]; flat (dx lay)], it_at (dc lay) 1 2)
  | _ => False
  end.
Proof. cbv zeta. csplit; try apply d_designates; demo lay. Qed.

(** is_partitioned: find_if_not, then none_of on what is left, on the elements as the calls before have changed them. *)
Theorem C84_is_partitioned {V} {E : Env V} {S} w g d k c Ts first last i j its ks (F : option tyid -> act V S bool) : reach w g d -> nth_error g k = Some c ->
  located c first i -> located c last j -> i <= j -> Forall2 (designates_at g) its ks ->
  enacts w g d its ks (pc_is_partitioned c Ts first last (calling k F)) (std_is_partitioned (calling_seq Ts k F) (seq i (j - i)))
    eq.
Proof.
  intros H Hc L1 L2 L D. pose proof (reach_front w g d k c H Hc) as Hf. pose proof (located_le w c _ d last j Hf L2) as B. rewrite flat_length in B. apply simulates_enacts; auto.
  eapply sim_same; [apply (C46_is_partitioned_calls w c _ d Ts first last i j _ Hf L1 L2 L); auto| |intros ? ? ? -> ->; reflexivity].
  eapply is_partitioned_sim; [apply views_seq; auto|intros; cbv beta in *; match goal with H : exists _, _ |- _ => destruct H as (r & -> & Hr) end; eapply calling_sim; eauto..].
Qed.
Example C84_is_partitioned_ex lay : let E := dE lay in
  reach (dw lay) [dc lay; dx lay] [] /\ nth_error [dc lay; dx lay] 0 = Some (dc lay) /\ located (dc lay) (dfirst lay) 1 /\ located (dc lay) (dlast lay) 5 /\ 1 <= 5 /\
  Forall2 (designates_at [dc lay; dx lay]) (d_its lay) (d_places lay) /\
  match pc_is_partitioned (dc lay) [2] (dfirst lay) (dlast lay) (calling 0 meddle) (([dc lay; dx lay], tt), d_its lay) with
  | Ok ((g, _), _) r => (map flat g, r) = ([[(1, 5); (1, 311); (1, 12); (2, 13); (2, 9); (4, 1)]; flat (dx lay)], false)
  | _ => False
  end.
Proof. cbv zeta. csplit; try apply d_designates; demo lay. Qed.

(** copy_if: [G o] is what is done with the element and the output position [o]; it sees the element as the predicate has left it. *)
Theorem C84_copy_if {V} {E : Env V} {S} w g d k c Ts first last i j its ks (F : option tyid -> act V S bool) (G : nat -> option tyid -> act V S unit) o : reach w g d -> nth_error g k = Some c ->
  located c first i -> located c last j -> i <= j -> Forall2 (designates_at g) its ks ->
  enacts w g d its ks (pc_copy_if c Ts first last (fun o => calling k (G o)) (calling k F) o) (std_copy_if (calling_seq Ts k F) (fun o => calling_seq Ts k (G o)) (seq i (j - i)) o)
    eq.
Proof.
  intros H Hc L1 L2 L D. pose proof (reach_front w g d k c H Hc) as Hf. pose proof (located_le w c _ d last j Hf L2) as B. rewrite flat_length in B. apply simulates_enacts; auto.
  eapply sim_same; [apply (C44_copy_if w c _ d Ts first last i j _ _ _ Hf L1 L2 L); auto| |intros ? ? ? -> ->; reflexivity].
  eapply copy_if_sim; [apply views_seq; auto|intros; cbv beta in *; match goal with H : exists _, _ |- _ => destruct H as (r & -> & Hr) end; eapply calling_sim; eauto..].
Qed.
Example C84_copy_if_ex lay : let E := dE lay in
  reach (dw lay) [dc lay; dx lay] [] /\ nth_error [dc lay; dx lay] 0 = Some (dc lay) /\ located (dc lay) (dfirst lay) 1 /\ located (dc lay) (dlast lay) 5 /\ 1 <= 5 /\
  Forall2 (designates_at [dc lay; dx lay]) (d_its lay) (d_places lay) /\
  match pc_copy_if (dc lay) [2] (dfirst lay) (dlast lay) (fun _ => calling 0 (silent meddle)) (calling 0 meddle) 7 (([dc lay; dx lay], tt), d_its lay) with
  | Ok ((g, _), _) r => (map flat g, r) = ([[(1, 5); (1, 716); (1, 12); (2, 18); (2, 19); (4, 1)]; flat (dx lay)], 10)
  | _ => False
  end.
Proof. cbv zeta. csplit; try apply d_designates; demo lay. Qed.

(** remove_copy_if *)
Theorem C84_remove_copy_if {V} {E : Env V} {S} w g d k c Ts first last i j its ks (F : option tyid -> act V S bool) (G : nat -> option tyid -> act V S unit) o : reach w g d -> nth_error g k = Some c ->
  located c first i -> located c last j -> i <= j -> Forall2 (designates_at g) its ks ->
  enacts w g d its ks (pc_remove_copy_if c Ts first last (fun o => calling k (G o)) (calling k F) o) (std_remove_copy_if (calling_seq Ts k F) (fun o => calling_seq Ts k (G o)) (seq i (j - i)) o)
    eq.
Proof.
  intros H Hc L1 L2 L D. pose proof (reach_front w g d k c H Hc) as Hf. pose proof (located_le w c _ d last j Hf L2) as B. rewrite flat_length in B. apply simulates_enacts; auto.
  eapply sim_same; [apply (C44_remove_copy_if w c _ d Ts first last i j _ _ _ Hf L1 L2 L); auto| |intros ? ? ? -> ->; reflexivity].
  eapply remove_copy_if_sim; [apply views_seq; auto|intros; cbv beta in *; match goal with H : exists _, _ |- _ => destruct H as (r & -> & Hr) end; eapply calling_sim; eauto..].
Qed.
Example C84_remove_copy_if_ex lay : let E := dE lay in
  reach (dw lay) [dc lay; dx lay] [] /\ nth_error [dc lay; dx lay] 0 = Some (dc lay) /\ located (dc lay) (dfirst lay) 1 /\ located (dc lay) (dlast lay) 5 /\ 1 <= 5 /\
  Forall2 (designates_at [dc lay; dx lay]) (d_its lay) (d_places lay) /\
  match pc_remove_copy_if (dc lay) [2] (dfirst lay) (dlast lay) (fun _ => calling 0 (silent meddle)) (calling 0 meddle) 7 (([dc lay; dx lay], tt), d_its lay) with
  | Ok ((g, _), _) r => (map flat g, r) = ([[(1, 5); (1, 511); (1, 17); (2, 13); (2, 14); (4, 1)]; flat (dx lay)], 8)
  | _ => False
  end.
Proof. cbv zeta. csplit; try apply d_designates; demo lay. Qed.

(** partition_copy: [G] and [G'] are the two outputs. *)
Theorem C84_partition_copy {V} {E : Env V} {S} w g d k c Ts first last i j its ks (F : option tyid -> act V S bool) (G G' : nat -> option tyid -> act V S unit) o : reach w g d -> nth_error g k = Some c ->
  located c first i -> located c last j -> i <= j -> Forall2 (designates_at g) its ks ->
  enacts w g d its ks (pc_partition_copy c Ts first last (fun o => calling k (G o)) (fun o => calling k (G' o)) (calling k F) o) (std_partition_copy (calling_seq Ts k F) (fun o => calling_seq Ts k (G o)) (fun o => calling_seq Ts k (G' o)) (seq i (j - i)) o)
    eq.
Proof.
  intros H Hc L1 L2 L D. pose proof (reach_front w g d k c H Hc) as Hf. pose proof (located_le w c _ d last j Hf L2) as B. rewrite flat_length in B. apply simulates_enacts; auto.
  eapply sim_same; [apply (C44_partition_copy w c _ d Ts first last i j _ _ _ _ Hf L1 L2 L); auto| |intros ? ? ? -> ->; reflexivity].
  eapply partition_copy_sim; [apply views_seq; auto|intros; cbv beta in *; match goal with H : exists _, _ |- _ => destruct H as (r & -> & Hr) end; eapply calling_sim; eauto..].
Qed.
Example C84_partition_copy_ex lay : let E := dE lay in
  reach (dw lay) [dc lay; dx lay] [] /\ nth_error [dc lay; dx lay] 0 = Some (dc lay) /\ located (dc lay) (dfirst lay) 1 /\ located (dc lay) (dlast lay) 5 /\ 1 <= 5 /\
  Forall2 (designates_at [dc lay; dx lay]) (d_its lay) (d_places lay) /\
  match pc_partition_copy (dc lay) [2] (dfirst lay) (dlast lay) (fun _ => calling 0 (silent meddle)) (fun _ => calling 0 (fun _ => Give tt)) (calling 0 meddle) (7, 20) (([dc lay; dx lay], tt), d_its lay) with
  | Ok ((g, _), _) r => (map flat g, r) = ([[(1, 5); (1, 716); (1, 12); (2, 18); (2, 19); (4, 1)]; flat (dx lay)], (10, 21))
  | _ => False
  end.
Proof. cbv zeta. csplit; try apply d_designates; demo lay. Qed.

(* says whether the element, changed as by [meddle], is less than [z] *)
Definition weigh (z : nat) (_ : option tyid) : act nat unit bool :=
  There (Ref 0 (looking (fun y => ret (snd y))) (fun v => Ref 2 (fun _ => modify (fun vs => (100 + fst vs, snd vs))) (fun _ => Done v)))
    (fun v => Here (fun _ vs => Ok (v + fst vs, snd vs) (v + fst vs <? z)) (fun b => Give b)).
(** mismatch with another sequence [zs], whose end is given ([bounded]) or not: reading past an end which is not given is undefined, on both sides. *)
Theorem C84_mismatch {V} {E : Env V} {S} w g d k c Ts first last i j its ks {Z} bounded (F : Z -> option tyid -> act V S bool) (zs : list Z) : reach w g d -> nth_error g k = Some c ->
  located c first i -> located c last j -> i <= j -> Forall2 (designates_at g) its ks ->
  enacts w g d its ks (pc_mismatch bounded c Ts first last zs (fun x z => calling k (F z) x)) ((if bounded then std_mismatch_to else std_mismatch) (fun m z => calling_seq Ts k (F z) m) (seq i (j - i)) zs)
    (fun r m => located c (fst r) (i + m) /\ snd r = m).
Proof.
  intros H Hc L1 L2 L D. pose proof (reach_front w g d k c H Hc) as Hf. pose proof (located_le w c _ d last j Hf L2) as B. rewrite flat_length in B. apply simulates_enacts; auto.
  eapply sim_same; [apply (C41_mismatch w c _ d Ts first last i j bounded _ zs Hf L1 L2 L); auto| |intros r ? ? Q <-; exact Q].
  eapply (mismatch_sim (Z := Z)); [apply views_seq; auto|intros; cbv beta in *; match goal with H : exists _, _ |- _ => destruct H as (r & -> & Hr) end; eapply calling_sim; eauto..].
Qed.
Example C84_mismatch_ex lay : let E := dE lay in
  reach (dw lay) [dc lay; dx lay] [] /\ nth_error [dc lay; dx lay] 0 = Some (dc lay) /\ located (dc lay) (dfirst lay) 1 /\ located (dc lay) (dlast lay) 5 /\ 1 <= 5 /\
  Forall2 (designates_at [dc lay; dx lay]) (d_its lay) (d_places lay) /\
  match pc_mismatch true (dc lay) [2] (dfirst lay) (dlast lay) [112; 13; 13; 15] (fun x z => calling 0 (weigh z) x) (([dc lay; dx lay], tt), d_its lay) with
  | Ok ((g, _), _) r => (map flat g, r) = ([[(1, 5); (1, 311); (1, 12); (2, 13); (2, 9); (4, 1)]; flat (dx lay)], (it_at (dc lay) 2 0, 2))
  | _ => False
  end.
Proof. cbv zeta. csplit; try apply d_designates; demo lay. Qed.

(** equal *)
Theorem C84_equal {V} {E : Env V} {S} w g d k c Ts first last i j its ks {Z} bounded (F : Z -> option tyid -> act V S bool) (zs : list Z) : reach w g d -> nth_error g k = Some c ->
  located c first i -> located c last j -> i <= j -> Forall2 (designates_at g) its ks ->
  enacts w g d its ks (pc_equal bounded c Ts first last zs (fun x z => calling k (F z) x)) ((if bounded then std_equal_to else std_equal) (fun m z => calling_seq Ts k (F z) m) (seq i (j - i)) zs)
    eq.
Proof.
  intros H Hc L1 L2 L D. pose proof (reach_front w g d k c H Hc) as Hf. pose proof (located_le w c _ d last j Hf L2) as B. rewrite flat_length in B. apply simulates_enacts; auto.
  eapply sim_same; [apply (C41_equal w c _ d Ts first last i j bounded _ zs Hf L1 L2 L); auto| |intros ? ? ? -> ->; reflexivity].
  eapply (equal_sim (Z := Z)); [apply views_seq; auto|intros; cbv beta in *; match goal with H : exists _, _ |- _ => destruct H as (r & -> & Hr) end; eapply calling_sim; eauto..].
Qed.
Example C84_equal_ex lay : let E := dE lay in
  reach (dw lay) [dc lay; dx lay] [] /\ nth_error [dc lay; dx lay] 0 = Some (dc lay) /\ located (dc lay) (dfirst lay) 1 /\ located (dc lay) (dlast lay) 5 /\ 1 <= 5 /\
  Forall2 (designates_at [dc lay; dx lay]) (d_its lay) (d_places lay) /\
  match pc_equal true (dc lay) [2] (dfirst lay) (dlast lay) [112; 13; 13; 15] (fun x z => calling 0 (weigh z) x) (([dc lay; dx lay], tt), d_its lay) with
  | Ok ((g, _), _) r => (map flat g, r) = ([[(1, 5); (1, 311); (1, 12); (2, 13); (2, 9); (4, 1)]; flat (dx lay)], false)
  | _ => False
  end.
Proof. cbv zeta. csplit; try apply d_designates; demo lay. Qed.

Print Assumptions C84_any_of.
Print Assumptions C84_none_of.
Print Assumptions C84_find_if_not.
Print Assumptions C84_is_partitioned.
Print Assumptions C84_copy_if.
Print Assumptions C84_remove_copy_if.
Print Assumptions C84_partition_copy.
Print Assumptions C84_mismatch.
Print Assumptions C84_equal.
