(** * Still more algorithms whose function objects use iterators they have captured (C84)

    See the head of Properties41.v for the form of the statements.  Output iterators to which something other than an element is written, and
    random number generators, may use the captured iterators too ([with_captured]). *)

From Coq Require Import List Arith Lia Bool Permutation.
From Verif Require Import Base Vec Backend Segment Coll StdAlg Algo Access Local Walk Many Body Spec SpecAlg SpecAcc SpecLocal SpecWalk SpecMany SpecCalls SpecBody Reach ProofBase ProofVec ProofBackend ProofOps
  ProofSeg ProofMap ProofView ProofAlgo ProofAlgo2 ProofColl ProofReach ProofObs ProofProp ProofProp4 ProofProp5 ProofAccess Demo Properties6 ProofLocal ProofWalk ProofMany ProofBody Properties24 Properties38
  Properties39 Properties41 Properties43.
Import ListNotations.

Section Lists.
Context {V : Type} {E : Env V} {S : Type} {X Y Z : Type} (w : world) (g d : list (coll V)) (Rx : X -> Y -> Prop).
Notation sims f f' := (forall x y, Rx x y -> simulates w g d (f x) (f' y) eq).
Notation sims2 f f' := (forall x y z, Rx x y -> simulates w g d (f x z) (f' y z) eq).
Notation puts f f' := (forall o x y, Rx x y -> simulates w g d (f o x) (f' o y) eq).
Notation plot := (plot (V := V) (S := S)).

Lemma with_captured_sim {A} (p : walk V S A) : simulates w g d (with_captured p) (with_captured_seq p) eq.
Proof.
  intros [[g' s] its] [[ls s'] ks] (<- & H & El & F & Ch). unfold with_captured, with_captured_seq. cbn [fst snd]. subst ls.
  pose proof (run_walks_seqs p its ks w g' d s H F) as R. cbn zeta in R.
  destruct (run_seqs p ks (map flat g', s)) as [[ls' s'] [b ks']|[ls' s'] e|]; [| |exact I].
  - destruct R as (g1 & its1 & -> & (R1 & R2 & R3) & F1). do 2 eexists. split; [reflexivity|]. split; [|reflexivity]. unfold pictured. csplit; auto. eapply all_changed_trans; eauto.
  - destruct R as (g1 & -> & R1 & R2 & R3). eexists. split; [reflexivity|]. unfold pictured. csplit; auto.
    + clear - F R3 H R1. induction F as [|x y l l' (Q & c0 & Q1 & Q2) F IH]; constructor; auto. split; auto.
      destruct (Forall2_at _ _ _ _ _ R3 Q1) as (c1 & Hc1 & Sh & _). exists c1. split; auto. eapply Properties21.shape_located; eauto.
    + eapply all_changed_trans; eauto.
Qed.
Lemma F2_length (xs : list X) (ys : list Y) : Forall2 Rx xs ys -> length ys = length xs.
Proof. induction 1; cbn; auto. Qed.
Lemma F2_firstn n : forall (xs : list X) (ys : list Y), Forall2 Rx xs ys -> Forall2 Rx (firstn n xs) (firstn n ys).
Proof. induction n as [|n IH]; intros xs ys F; cbn [firstn]; auto. destruct F; auto. Qed.
Lemma transform_sim {O} (f : X -> M (scene V S) O) (f' : Y -> M plot O) (h : nat -> O -> M (scene V S) unit) (h' : nat -> O -> M plot unit) xs ys : Forall2 Rx xs ys -> sims f f' ->
  (forall o r, simulates w g d (h o r) (h' o r) eq) -> forall o, simulates w g d (std_transform f h xs o) (std_transform f' h' ys o) eq.
Proof.
  intros F H P. induction F as [|x y xs ys Q F IH]; intros o; cbn [std_transform]; [apply sim_ret; reflexivity|]. eapply sim_bind; [apply H, Q|]. intros r ? <-.
  eapply sim_bind; [apply P|]. intros _ _ _. apply IH.
Qed.
Lemma transform2_sim {O} (f : X -> Z -> M (scene V S) O) (f' : Y -> Z -> M plot O) (h : nat -> O -> M (scene V S) unit) (h' : nat -> O -> M plot unit) xs ys : Forall2 Rx xs ys -> sims2 f f' ->
  (forall o r, simulates w g d (h o r) (h' o r) eq) -> forall zs o, simulates w g d (std_transform2 f h xs zs o) (std_transform2 f' h' ys zs o) eq.
Proof.
  intros F H P. induction F as [|x y xs ys Q F IH]; intros [|z zs] o; cbn [std_transform2]; try (apply sim_ret; reflexivity); try apply sim_ub.
  eapply sim_bind; [apply H, Q|]. intros r ? <-. eapply sim_bind; [apply P|]. intros _ _ _. apply IH.
Qed.
Lemma replace_copy_if_sim {N} (new : N) (f : X -> M (scene V S) bool) (f' : Y -> M plot bool) (h : nat -> N + X -> M (scene V S) unit) (h' : nat -> N + Y -> M plot unit) xs ys : Forall2 Rx xs ys ->
  sims f f' -> (forall o x y, Rx x y -> simulates w g d (h o (inr x)) (h' o (inr y)) eq) -> (forall o, simulates w g d (h o (inl new)) (h' o (inl new)) eq) ->
  forall o, simulates w g d (std_replace_copy_if f new h xs o) (std_replace_copy_if f' new h' ys o) eq.
Proof.
  intros F H P P'. induction F as [|x y xs ys Q F IH]; intros o; cbn [std_replace_copy_if]; [apply sim_ret; reflexivity|]. eapply sim_bind; [apply H, Q|]. intros b ? <-.
  eapply sim_bind; [destruct b; [apply P'|apply P, Q]|]. intros _ _ _. apply IH.
Qed.
Lemma select_sim (q : nat -> M (scene V S) nat) (q' : nat -> M plot nat) (h : nat -> X -> M (scene V S) unit) (h' : nat -> Y -> M plot unit) xs ys : Forall2 Rx xs ys ->
  puts h h' -> (forall m, simulates w g d (q m) (q' m) eq) -> forall n m o, simulates w g d (std_select q h n m xs o) (std_select q' h' n m ys o) eq.
Proof.
  intros F P D. induction F as [|x y xs ys Q F IH]; intros n m o; cbn [std_select]; [apply sim_ret; reflexivity|]. destruct (n =? 0); [apply sim_ret; reflexivity|].
  eapply sim_bind; [apply D|]. intros r ? <-. destruct (r <? n); [|apply IH]. eapply sim_bind; [apply P, Q|]. intros _ _ _. apply IH.
Qed.
Lemma sample_sim (q : nat -> M (scene V S) nat) (q' : nat -> M plot nat) (h : nat -> X -> M (scene V S) unit) (h' : nat -> Y -> M plot unit) xs ys : Forall2 Rx xs ys ->
  puts h h' -> (forall m, simulates w g d (q m) (q' m) eq) -> forall n o, simulates w g d (std_sample q h n xs o) (std_sample q' h' n ys o) eq.
Proof. intros F P D n o. unfold std_sample. rewrite (F2_length _ _ F). apply select_sim; auto. Qed.
Lemma find_first_of_sim (f : X -> Z -> M (scene V S) bool) (f' : Y -> Z -> M plot bool) xs ys : Forall2 Rx xs ys -> sims2 f f' ->
  forall zs, simulates w g d (std_find_first_of f zs xs) (std_find_first_of f' zs ys) eq.
Proof.
  intros F H zs. assert (A : forall x y, Rx x y -> simulates w g d (std_any_of2 f x zs) (std_any_of2 f' y zs) eq).
  { intros x y Q. induction zs as [|z zs IH]; cbn [std_any_of2]; [apply sim_ret; reflexivity|]. eapply sim_bind; [apply H, Q|]. intros b ? <-. destruct b; [apply sim_ret; reflexivity|apply IH]. }
  induction F as [|x y xs ys Q F IH]; cbn [std_find_first_of]; [apply sim_ret; reflexivity|]. eapply sim_bind; [apply A, Q|]. intros b ? <-.
  destruct b; [apply sim_ret; reflexivity|]. eapply sim_bind; [apply IH|]. intros n ? <-. apply sim_ret. reflexivity.
Qed.
Lemma search_sim (f : X -> Z -> M (scene V S) bool) (f' : Y -> Z -> M plot bool) xs ys : Forall2 Rx xs ys -> sims2 f f' ->
  forall zs, simulates w g d (std_search f zs xs) (std_search f' zs ys) eq.
Proof.
  intros F H zs. induction F as [|x y xs ys Q F IH]; cbn [std_search]; [apply sim_ret; reflexivity|].
  eapply sim_bind; [apply (mismatch_sim w g d Rx true f f' (x :: xs) (y :: ys)); auto|]. intros n ? <-. destruct (n =? length zs); [apply sim_ret; reflexivity|].
  eapply sim_bind; [apply IH|]. intros m ? <-. apply sim_ret. reflexivity.
Qed.
Lemma find_end_sim (f : X -> Z -> M (scene V S) bool) (f' : Y -> Z -> M plot bool) xs ys : Forall2 Rx xs ys -> sims2 f f' ->
  forall zs, simulates w g d (std_find_end f zs xs) (std_find_end f' zs ys) eq.
Proof.
  intros F H zs. assert (A : forall k r, simulates w g d (std_last_match f zs xs k r) (std_last_match f' zs ys k r) eq).
  { induction F as [|x y xs ys Q F IH]; intros k r; cbn [std_last_match]; [apply sim_ret; reflexivity|].
    eapply sim_bind; [apply (mismatch_sim w g d Rx true f f' (x :: xs) (y :: ys)); auto|]. intros n ? <-. apply IH. }
  unfold std_find_end. rewrite (F2_length _ _ F). destruct zs; [apply sim_ret; reflexivity|apply A].
Qed.
Lemma search_n_sim n (f : X -> M (scene V S) bool) (f' : Y -> M plot bool) xs ys : Forall2 Rx xs ys -> sims f f' ->
  simulates w g d (std_search_n n f xs) (std_search_n n f' ys) eq.
Proof.
  intros F H. assert (A : forall k r, simulates w g d (std_runs n f xs k r) (std_runs n f' ys k r) eq).
  { induction F as [|x y xs ys Q F IH]; intros k r; cbn [std_runs]; [apply sim_ret; reflexivity|]. eapply sim_bind; [apply H, Q|]. intros b ? <-.
    destruct b; [|apply IH]. destruct (1 + r =? n); [apply sim_ret; reflexivity|apply IH]. }
  unfold std_search_n. rewrite (F2_length _ _ F). destruct (n =? 0); [apply sim_ret; reflexivity|]. eapply sim_bind; [apply A|]. intros r ? <-. apply sim_ret. reflexivity.
Qed.
Lemma partition_point_sim (f : X -> M (scene V S) bool) (f' : Y -> M plot bool) xs ys : Forall2 Rx xs ys -> sims f f' ->
  simulates w g d (std_partition_point f xs) (std_partition_point f' ys) eq.
Proof.
  intros F H. unfold std_partition_point. rewrite (F2_length _ _ F). generalize (length xs) at 1 3 as fuel. intros fuel. generalize 0 as k, (length xs) as len.
  induction fuel as [|fuel IH]; intros k len; cbn [std_bisect]; (destruct (len =? 0); [apply sim_ret; reflexivity|]); [apply sim_ub|].
  destruct (nth_error xs (k + Nat.div2 len)) as [x|] eqn:Qx.
  - destruct (Forall2_at _ _ _ _ _ F Qx) as (y & -> & Q). eapply sim_bind; [apply H, Q|]. intros b ? <-. destruct b; apply IH.
  - replace (nth_error ys (k + Nat.div2 len)) with (@None Y); [apply sim_ub|]. symmetry. apply nth_error_None. rewrite (F2_length _ _ F). apply nth_error_None. exact Qx.
Qed.
Lemma rotate_copy_sim m (h : nat -> X -> M (scene V S) unit) (h' : nat -> Y -> M plot unit) xs ys : Forall2 Rx xs ys -> puts h h' ->
  forall o, simulates w g d (std_rotate_copy h m xs o) (std_rotate_copy h' m ys o) eq.
Proof. intros F P o. unfold std_rotate_copy. eapply copy_sim; [|exact P]. apply Forall2_app; [apply Forall2_skipn, F|apply F2_firstn, F]. Qed.
End Lists.

(** ** C84 *)

(* in the examples: an output iterator which counts in the element the third captured iterator refers to, and a generator which takes its numbers from the first two *)
Definition store (b : bool) : walk nat unit unit := Ref 2 (fun _ => modify (fun vs => ((if b then 1000 else 1) + fst vs, snd vs))) (fun _ => Done tt).
Definition roll (m : nat) : walk nat unit nat := Ref 0 (looking (fun y => ret (snd y))) (fun v => Put 0 1 (Done (Nat.min m (v mod 4)))).
(** transform: [H o r] is what is done with the output position [o] and what the function object has returned. *)
Theorem C84_transform {V} {E : Env V} {S} w g d k c Ts first last i j its ks {O} (F : option tyid -> act V S O) (H : nat -> O -> walk V S unit) o : reach w g d -> nth_error g k = Some c ->
  located c first i -> located c last j -> i <= j -> Forall2 (designates_at g) its ks ->
  enacts w g d its ks (pc_transform c Ts first last (fun o r => with_captured (H o r)) (calling k F) o) (std_transform (calling_seq Ts k F) (fun o r => with_captured_seq (H o r)) (seq i (j - i)) o)
    eq.
Proof.
  intros Hre Hc L1 L2 L D. pose proof (reach_front w g d k c Hre Hc) as Hf. pose proof (located_le w c _ d last j Hf L2) as B. rewrite flat_length in B. apply simulates_enacts; auto.
  eapply sim_same; [apply (C44_transform w c _ d Ts first last i j _ _ _ Hf L1 L2 L); auto| |intros ? ? ? -> ->; reflexivity].
  eapply transform_sim; [apply views_seq; auto|intros; cbv beta in *; try apply with_captured_sim; match goal with H : exists _, _ |- _ => destruct H as (r & -> & Hr) end; eapply calling_sim; eauto..].
Qed.
Example C84_transform_ex lay : let E := dE lay in
  reach (dw lay) [dc lay; dx lay] [] /\ nth_error [dc lay; dx lay] 0 = Some (dc lay) /\ located (dc lay) (dfirst lay) 1 /\ located (dc lay) (dlast lay) 5 /\ 1 <= 5 /\
  Forall2 (designates_at [dc lay; dx lay]) (d_its lay) (d_places lay) /\
  match pc_transform (dc lay) [2] (dfirst lay) (dlast lay) (fun o b => with_captured (store b)) (calling 0 meddle) 7 (([dc lay; dx lay], tt), d_its lay) with
  | Ok ((g, _), _) r => (map flat g, r) = ([[(1, 5); (1, 3412); (1, 12); (2, 13); (2, 14); (4, 1)]; flat (dx lay)], 11)
  | _ => False
  end.
Proof. cbv zeta. csplit; try apply d_designates; demo lay. Qed.

(** transform with another sequence *)
Theorem C84_transform_binary {V} {E : Env V} {S} w g d k c Ts first last i j its ks {Z O} (F : Z -> option tyid -> act V S O) (H : nat -> O -> walk V S unit) (zs : list Z) o : reach w g d -> nth_error g k = Some c ->
  located c first i -> located c last j -> i <= j -> Forall2 (designates_at g) its ks ->
  enacts w g d its ks (pc_transform2 c Ts first last zs (fun o r => with_captured (H o r)) (fun x z => calling k (F z) x) o) (std_transform2 (fun m z => calling_seq Ts k (F z) m) (fun o r => with_captured_seq (H o r)) (seq i (j - i)) zs o)
    eq.
Proof.
  intros Hre Hc L1 L2 L D. pose proof (reach_front w g d k c Hre Hc) as Hf. pose proof (located_le w c _ d last j Hf L2) as B. rewrite flat_length in B. apply simulates_enacts; auto.
  eapply sim_same; [apply (C44_transform_binary w c _ d Ts first last i j _ _ zs o Hf L1 L2 L); auto| |intros ? ? ? -> ->; reflexivity].
  eapply (transform2_sim (Z := Z)); [apply views_seq; auto|intros; cbv beta in *; try apply with_captured_sim; match goal with H : exists _, _ |- _ => destruct H as (r & -> & Hr) end; eapply calling_sim; eauto..].
Qed.
Example C84_transform_binary_ex lay : let E := dE lay in
  reach (dw lay) [dc lay; dx lay] [] /\ nth_error [dc lay; dx lay] 0 = Some (dc lay) /\ located (dc lay) (dfirst lay) 1 /\ located (dc lay) (dlast lay) 5 /\ 1 <= 5 /\
  Forall2 (designates_at [dc lay; dx lay]) (d_its lay) (d_places lay) /\
  match pc_transform2 (dc lay) [2] (dfirst lay) (dlast lay) [112; 13; 13; 15] (fun o b => with_captured (store b)) (fun x z => calling 0 (weigh z) x) 7 (([dc lay; dx lay], tt), d_its lay) with
  | Ok ((g, _), _) r => (map flat g, r) = ([[(1, 5); (1, 3412); (1, 12); (2, 13); (2, 14); (4, 1)]; flat (dx lay)], 11)
  | _ => False
  end.
Proof. cbv zeta. csplit; try apply d_designates; demo lay. Qed.

(** replace_copy_if: [G o] is what is done with an element and [H o] what is done with the new value. *)
Theorem C84_replace_copy_if {V} {E : Env V} {S} w g d k c Ts first last i j its ks {N} (new : N) (F : option tyid -> act V S bool) (G : nat -> option tyid -> act V S unit) (H : nat -> N -> walk V S unit) o : reach w g d -> nth_error g k = Some c ->
  located c first i -> located c last j -> i <= j -> Forall2 (designates_at g) its ks ->
  enacts w g d its ks (pc_replace_copy_if c Ts first last (fun o z => match z with inl r => with_captured (H o r) | inr x => calling k (G o) x end) (calling k F) new o) (std_replace_copy_if (calling_seq Ts k F) new (fun o z => match z with inl r => with_captured_seq (H o r) | inr m => calling_seq Ts k (G o) m end) (seq i (j - i)) o)
    eq.
Proof.
  intros Hre Hc L1 L2 L D. pose proof (reach_front w g d k c Hre Hc) as Hf. pose proof (located_le w c _ d last j Hf L2) as B. rewrite flat_length in B. apply simulates_enacts; auto.
  eapply sim_same; [apply (C44_replace_copy_if w c _ d Ts first last i j new _ _ o Hf L1 L2 L); auto| |intros ? ? ? -> ->; reflexivity].
  eapply replace_copy_if_sim; [apply views_seq; auto|intros; cbv beta in *; try apply with_captured_sim; match goal with H : exists _, _ |- _ => destruct H as (r & -> & Hr) end; eapply calling_sim; eauto..].
Qed.
Example C84_replace_copy_if_ex lay : let E := dE lay in
  reach (dw lay) [dc lay; dx lay] [] /\ nth_error [dc lay; dx lay] 0 = Some (dc lay) /\ located (dc lay) (dfirst lay) 1 /\ located (dc lay) (dlast lay) 5 /\ 1 <= 5 /\
  Forall2 (designates_at [dc lay; dx lay]) (d_its lay) (d_places lay) /\
  match pc_replace_copy_if (dc lay) [2] (dfirst lay) (dlast lay) (fun o z => match z with inl b => with_captured (store b) | inr x => calling 0 (silent meddle) x end) (calling 0 meddle) true 7 (([dc lay; dx lay], tt), d_its lay) with
  | Ok ((g, _), _) r => (map flat g, r) = ([[(1, 5); (1, 3511); (1, 17); (2, 13); (2, 14); (4, 1)]; flat (dx lay)], 11)
  | _ => False
  end.
Proof. cbv zeta. csplit; try apply d_designates; demo lay. Qed.

(** sample: [H m] is the generator asked for a number up to [m]. *)
Theorem C84_sample {V} {E : Env V} {S} w g d k c Ts first last i j its ks n (G : nat -> option tyid -> act V S unit) (H : nat -> walk V S nat) o : reach w g d -> nth_error g k = Some c ->
  located c first i -> located c last j -> i <= j -> Forall2 (designates_at g) its ks ->
  enacts w g d its ks (pc_sample c Ts first last (fun o => calling k (G o)) n (fun m => with_captured (H m)) o) (std_sample (fun m => with_captured_seq (H m)) (fun o => calling_seq Ts k (G o)) n (seq i (j - i)) o)
    eq.
Proof.
  intros Hre Hc L1 L2 L D. pose proof (reach_front w g d k c Hre Hc) as Hf. pose proof (located_le w c _ d last j Hf L2) as B. rewrite flat_length in B. apply simulates_enacts; auto.
  eapply sim_same; [apply (C45_sample_calls w c _ d Ts first last i j _ _ n o Hf L1 L2 L); auto| |intros ? ? ? -> ->; reflexivity].
  eapply sample_sim; [apply views_seq; auto|intros; cbv beta in *; try apply with_captured_sim; match goal with H : exists _, _ |- _ => destruct H as (r & -> & Hr) end; eapply calling_sim; eauto..].
Qed.
Example C84_sample_ex lay : let E := dE lay in
  reach (dw lay) [dc lay; dx lay] [] /\ nth_error [dc lay; dx lay] 0 = Some (dc lay) /\ located (dc lay) (dfirst lay) 1 /\ located (dc lay) (dlast lay) 5 /\ 1 <= 5 /\
  Forall2 (designates_at [dc lay; dx lay]) (d_its lay) (d_places lay) /\
  match pc_sample (dc lay) [2] (dfirst lay) (dlast lay) (fun _ => calling 0 (silent meddle)) 2 (fun m => with_captured (roll m)) 7 (([dc lay; dx lay], tt), d_its lay) with
  | Ok ((g, _), _) r => (map flat g, r) = ([[(1, 5); (1, 213); (1, 7); (2, 8); (2, 16); (4, 1)]; flat (dx lay)], 9)
  | _ => False
  end.
Proof. cbv zeta. csplit; try apply d_designates; demo lay. Qed.

(** find_first_of: every element of the range is compared with those of [zs] until one fits. *)
Theorem C84_find_first_of {V} {E : Env V} {S} w g d k c Ts first last i j its ks {Z} (F : Z -> option tyid -> act V S bool) (zs : list Z) : reach w g d -> nth_error g k = Some c ->
  located c first i -> located c last j -> i <= j -> Forall2 (designates_at g) its ks ->
  enacts w g d its ks (pc_find_first_of c Ts first last (fun x z => calling k (F z) x) zs) (std_find_first_of (fun m z => calling_seq Ts k (F z) m) zs (seq i (j - i)))
    (fun it m => located c it (i + m)).
Proof.
  intros H Hc L1 L2 L D. pose proof (reach_front w g d k c H Hc) as Hf. pose proof (located_le w c _ d last j Hf L2) as B. rewrite flat_length in B. apply simulates_enacts; auto.
  eapply sim_same; [apply (C39_find_first_of w c _ d Ts first last i j _ zs Hf L1 L2 L); auto| |intros it ? ? Q <-; exact Q].
  eapply (find_first_of_sim (Z := Z)); [apply views_seq; auto|intros; cbv beta in *; try apply with_captured_sim; match goal with H : exists _, _ |- _ => destruct H as (r & -> & Hr) end; eapply calling_sim; eauto..].
Qed.
Example C84_find_first_of_ex lay : let E := dE lay in
  reach (dw lay) [dc lay; dx lay] [] /\ nth_error [dc lay; dx lay] 0 = Some (dc lay) /\ located (dc lay) (dfirst lay) 1 /\ located (dc lay) (dlast lay) 5 /\ 1 <= 5 /\
  Forall2 (designates_at [dc lay; dx lay]) (d_its lay) (d_places lay) /\
  match pc_find_first_of (dc lay) [2] (dfirst lay) (dlast lay) (fun x z => calling 0 (weigh z) x) [3; 28] (([dc lay; dx lay], tt), d_its lay) with
  | Ok ((g, _), _) r => (map flat g, r) = ([[(1, 5); (1, 416); (1, 17); (2, 8); (2, 9); (4, 1)]; flat (dx lay)], it_at (dc lay) 1 2)
  | _ => False
  end.
Proof. cbv zeta. csplit; try apply d_designates; demo lay. Qed.

(** search: the calls are those of the straightforward procedure of SpecCalls.v, although calls may change what later ones compare. *)
Theorem C84_search {V} {E : Env V} {S} w g d k c Ts first last i j its ks {Z} (F : Z -> option tyid -> act V S bool) (zs : list Z) : reach w g d -> nth_error g k = Some c ->
  located c first i -> located c last j -> i <= j -> Forall2 (designates_at g) its ks ->
  enacts w g d its ks (pc_search c Ts first last zs (fun x z => calling k (F z) x)) (std_search (fun m z => calling_seq Ts k (F z) m) zs (seq i (j - i)))
    (fun it m => located c it (i + m)).
Proof.
  intros H Hc L1 L2 L D. pose proof (reach_front w g d k c H Hc) as Hf. pose proof (located_le w c _ d last j Hf L2) as B. rewrite flat_length in B. apply simulates_enacts; auto.
  eapply sim_same; [apply (proj1 (C43_search_calls w c _ d Ts first last i j (fun x z => calling k (F z) x) zs 0 (fun _ => ret true) Hf L1 L2 L)); auto| |intros it ? ? Q <-; exact Q].
  eapply (search_sim (Z := Z)); [apply views_seq; auto|intros; cbv beta in *; try apply with_captured_sim; match goal with H : exists _, _ |- _ => destruct H as (r & -> & Hr) end; eapply calling_sim; eauto..].
Qed.
Example C84_search_ex lay : let E := dE lay in
  reach (dw lay) [dc lay; dx lay] [] /\ nth_error [dc lay; dx lay] 0 = Some (dc lay) /\ located (dc lay) (dfirst lay) 1 /\ located (dc lay) (dlast lay) 5 /\ 1 <= 5 /\
  Forall2 (designates_at [dc lay; dx lay]) (d_its lay) (d_places lay) /\
  match pc_search (dc lay) [2] (dfirst lay) (dlast lay) [15; 25] (fun x z => calling 0 (weigh z) x) (([dc lay; dx lay], tt), d_its lay) with
  | Ok ((g, _), _) r => (map flat g, r) = ([[(1, 5); (1, 311); (1, 12); (2, 13); (2, 9); (4, 1)]; flat (dx lay)], it_at (dc lay) 1 2)
  | _ => False
  end.
Proof. cbv zeta. csplit; try apply d_designates; demo lay. Qed.

(** find_end: the calls are those of the straightforward procedure of SpecCalls.v, although calls may change what later ones compare. *)
Theorem C84_find_end {V} {E : Env V} {S} w g d k c Ts first last i j its ks {Z} (F : Z -> option tyid -> act V S bool) (zs : list Z) : reach w g d -> nth_error g k = Some c ->
  located c first i -> located c last j -> i <= j -> Forall2 (designates_at g) its ks ->
  enacts w g d its ks (pc_find_end c Ts first last zs (fun x z => calling k (F z) x)) (std_find_end (fun m z => calling_seq Ts k (F z) m) zs (seq i (j - i)))
    (fun it m => located c it (i + m)).
Proof.
  intros H Hc L1 L2 L D. pose proof (reach_front w g d k c H Hc) as Hf. pose proof (located_le w c _ d last j Hf L2) as B. rewrite flat_length in B. apply simulates_enacts; auto.
  eapply sim_same; [apply (proj1 (proj2 (C43_search_calls w c _ d Ts first last i j (fun x z => calling k (F z) x) zs 0 (fun _ => ret true) Hf L1 L2 L))); auto| |intros it ? ? Q <-; exact Q].
  eapply (find_end_sim (Z := Z)); [apply views_seq; auto|intros; cbv beta in *; try apply with_captured_sim; match goal with H : exists _, _ |- _ => destruct H as (r & -> & Hr) end; eapply calling_sim; eauto..].
Qed.
Example C84_find_end_ex lay : let E := dE lay in
  reach (dw lay) [dc lay; dx lay] [] /\ nth_error [dc lay; dx lay] 0 = Some (dc lay) /\ located (dc lay) (dfirst lay) 1 /\ located (dc lay) (dlast lay) 5 /\ 1 <= 5 /\
  Forall2 (designates_at [dc lay; dx lay]) (d_its lay) (d_places lay) /\
  match pc_find_end (dc lay) [2] (dfirst lay) (dlast lay) [15; 25] (fun x z => calling 0 (weigh z) x) (([dc lay; dx lay], tt), d_its lay) with
  | Ok ((g, _), _) r => (map flat g, r) = ([[(1, 5); (1, 511); (1, 12); (2, 18); (2, 14); (4, 1)]; flat (dx lay)], it_at (dc lay) 1 2)
  | _ => False
  end.
Proof. cbv zeta. csplit; try apply d_designates; demo lay. Qed.

(** search_n *)
Theorem C84_search_n {V} {E : Env V} {S} w g d k c Ts first last i j its ks n (F : option tyid -> act V S bool) : reach w g d -> nth_error g k = Some c ->
  located c first i -> located c last j -> i <= j -> Forall2 (designates_at g) its ks ->
  enacts w g d its ks (pc_search_n c Ts first last n (calling k F)) (std_search_n n (calling_seq Ts k F) (seq i (j - i)))
    (fun it m => located c it (i + m)).
Proof.
  intros H Hc L1 L2 L D. pose proof (reach_front w g d k c H Hc) as Hf. pose proof (located_le w c _ d last j Hf L2) as B. rewrite flat_length in B. apply simulates_enacts; auto.
  eapply sim_same; [apply (proj2 (proj2 (C43_search_calls (Y := unit) w c _ d Ts first last i j (fun _ _ => ret true) [] n (calling k F) Hf L1 L2 L))); auto| |intros it ? ? Q <-; exact Q].
  eapply search_n_sim; [apply views_seq; auto|intros; cbv beta in *; try apply with_captured_sim; match goal with H : exists _, _ |- _ => destruct H as (r & -> & Hr) end; eapply calling_sim; eauto..].
Qed.
Example C84_search_n_ex lay : let E := dE lay in
  reach (dw lay) [dc lay; dx lay] [] /\ nth_error [dc lay; dx lay] 0 = Some (dc lay) /\ located (dc lay) (dfirst lay) 1 /\ located (dc lay) (dlast lay) 5 /\ 1 <= 5 /\
  Forall2 (designates_at [dc lay; dx lay]) (d_its lay) (d_places lay) /\
  match pc_search_n (dc lay) [2] (dfirst lay) (dlast lay) 2 (calling 0 meddle) (([dc lay; dx lay], tt), d_its lay) with
  | Ok ((g, _), _) r => (map flat g, r) = ([[(1, 5); (1, 411); (1, 12); (2, 13); (2, 14); (4, 1)]; flat (dx lay)], it_at (dc lay) 2 0)
  | _ => False
  end.
Proof. cbv zeta. csplit; try apply d_designates; demo lay. Qed.

(** partition_point: bisection, the same positions being asked about. *)
Theorem C84_partition_point {V} {E : Env V} {S} w g d k c Ts first last i j its ks (F : option tyid -> act V S bool) : reach w g d -> nth_error g k = Some c ->
  located c first i -> located c last j -> i <= j -> Forall2 (designates_at g) its ks ->
  enacts w g d its ks (pc_partition_point c Ts first last (calling k F)) (std_partition_point (calling_seq Ts k F) (seq i (j - i)))
    (fun it m => located c it (i + m)).
Proof.
  intros H Hc L1 L2 L D. pose proof (reach_front w g d k c H Hc) as Hf. pose proof (located_le w c _ d last j Hf L2) as B. rewrite flat_length in B. apply simulates_enacts; auto.
  eapply sim_same; [apply (C46_partition_point_calls w c _ d Ts first last i j _ Hf L1 L2 L); auto| |intros it ? ? Q <-; exact Q].
  eapply partition_point_sim; [apply views_seq; auto|intros; cbv beta in *; try apply with_captured_sim; match goal with H : exists _, _ |- _ => destruct H as (r & -> & Hr) end; eapply calling_sim; eauto..].
Qed.
Example C84_partition_point_ex lay : let E := dE lay in
  reach (dw lay) [dc lay; dx lay] [] /\ nth_error [dc lay; dx lay] 0 = Some (dc lay) /\ located (dc lay) (dfirst lay) 1 /\ located (dc lay) (dlast lay) 5 /\ 1 <= 5 /\
  Forall2 (designates_at [dc lay; dx lay]) (d_its lay) (d_places lay) /\
  match pc_partition_point (dc lay) [2] (dfirst lay) (dlast lay) (calling 0 meddle) (([dc lay; dx lay], tt), d_its lay) with
  | Ok ((g, _), _) r => (map flat g, r) = ([[(1, 5); (1, 206); (1, 7); (2, 13); (2, 14); (4, 1)]; flat (dx lay)], dlast lay)
  | _ => False
  end.
Proof. cbv zeta. csplit; try apply d_designates; demo lay. Qed.

(** copy_n *)
Theorem C84_copy_n {V} {E : Env V} {S} w g d k c Ts first i n its ks (G : nat -> option tyid -> act V S unit) o : reach w g d -> nth_error g k = Some c ->
  located c first i -> i + n <= length (flat c) -> Forall2 (designates_at g) its ks ->
  enacts w g d its ks (pc_copy_n c Ts first n (fun o => calling k (G o)) o) (std_copy (fun o => calling_seq Ts k (G o)) (seq i n) o) eq.
Proof.
  intros H Hc L1 L D. pose proof (reach_front w g d k c H Hc) as Hf. apply simulates_enacts; auto.
  eapply sim_same; [apply (C44_copy_n w c _ d Ts first i n _ o Hf L1 L)| |intros ? ? ? -> ->; reflexivity]. rewrite flat_length in L.
  eapply copy_sim; [pose proof (views_seq c Ts i (i + n) ltac:(lia) L) as Q; replace (i + n - i) with n in Q by lia; exact Q|]. intros o' x m (r & -> & Hr). eapply calling_sim; eauto.
Qed.
Example C84_copy_n_ex lay : let E := dE lay in
  reach (dw lay) [dc lay; dx lay] [] /\ nth_error [dc lay; dx lay] 0 = Some (dc lay) /\ located (dc lay) (dfirst lay) 1 /\ 1 + 3 <= length (flat (dc lay)) /\
  Forall2 (designates_at [dc lay; dx lay]) (d_its lay) (d_places lay) /\
  match pc_copy_n (dc lay) [2] (dfirst lay) 3 (fun _ => calling 0 (silent meddle)) 7 (([dc lay; dx lay], tt), d_its lay) with
  | Ok ((g, _), _) r => (map flat g, r) = ([[(1, 5); (1, 311); (1, 12); (2, 13); (2, 9); (4, 1)]; flat (dx lay)], 10)
  | _ => False
  end.
Proof. cbv zeta. csplit; try apply d_designates; demo lay. Qed.

(** rotate_copy: the positions from that of [middle] on, then those before it *)
Theorem C84_rotate_copy {V} {E : Env V} {S} w g d k c Ts first middle last i m j its ks (G : nat -> option tyid -> act V S unit) o : reach w g d -> nth_error g k = Some c ->
  located c first i -> located c middle m -> located c last j -> i <= m -> m <= j -> Forall2 (designates_at g) its ks ->
  enacts w g d its ks (pc_rotate_copy c Ts first middle last (fun o => calling k (G o)) o) (std_copy (fun o => calling_seq Ts k (G o)) (seq m (j - m) ++ seq i (m - i)) o) eq.
Proof.
  intros H Hc L1 L3 L2 L L' D. pose proof (reach_front w g d k c H Hc) as Hf. pose proof (located_le w c _ d last j Hf L2) as B. rewrite flat_length in B. apply simulates_enacts; auto.
  eapply sim_same; [apply (C44_rotate_copy w c _ d Ts first middle last i m j _ o Hf L1 L3 L2 L L')| |intros ? ? ? -> ->; reflexivity].
  assert (Q : seq m (j - m) ++ seq i (m - i) = skipn (m - i) (seq i (j - i)) ++ firstn (m - i) (seq i (j - i))).
  { replace (j - i) with ((m - i) + (j - m)) by lia. rewrite seq_app, skipn_app, firstn_app, seq_length, Nat.sub_diag. cbn [skipn firstn]. rewrite app_nil_r.
    rewrite skipn_all2, firstn_all2 by (rewrite seq_length; lia). replace (i + (m - i)) with m by lia. reflexivity. }
  rewrite Q. eapply (rotate_copy_sim w g d _ (m - i)); [apply (views_seq c Ts i j); lia|]. intros o' x m' (r & -> & Hr). eapply calling_sim; eauto.
Qed.
Example C84_rotate_copy_ex lay : let E := dE lay in
  reach (dw lay) [dc lay; dx lay] [] /\ nth_error [dc lay; dx lay] 0 = Some (dc lay) /\ located (dc lay) (dfirst lay) 1 /\ located (dc lay) (it_at (dc lay) 2 0) 3 /\ located (dc lay) (dlast lay) 5 /\ 1 <= 3 /\ 3 <= 5 /\
  Forall2 (designates_at [dc lay; dx lay]) (d_its lay) (d_places lay) /\
  match pc_rotate_copy (dc lay) [2] (dfirst lay) (it_at (dc lay) 2 0) (dlast lay) (fun _ => calling 0 (silent meddle)) 7 (([dc lay; dx lay], tt), d_its lay) with
  | Ok ((g, _), _) r => (map flat g, r) = ([[(1, 5); (1, 411); (1, 12); (2, 13); (2, 14); (4, 1)]; flat (dx lay)], 11)
  | _ => False
  end.
Proof. cbv zeta. csplit; try apply d_designates; demo lay. Qed.

Print Assumptions C84_transform.
Print Assumptions C84_transform_binary.
Print Assumptions C84_replace_copy_if.
Print Assumptions C84_sample.
Print Assumptions C84_find_first_of.
Print Assumptions C84_search.
Print Assumptions C84_find_end.
Print Assumptions C84_search_n.
Print Assumptions C84_partition_point.
Print Assumptions C84_copy_n.
Print Assumptions C84_rotate_copy.
