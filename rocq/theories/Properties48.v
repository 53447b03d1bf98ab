(** * Function objects called on two elements which use iterators they have captured (C84, C40)

    See the head of Properties41.v for the form of the statements. *)

From Coq Require Import List Arith Lia Bool Permutation.
From Verif Require Import Base Vec Backend Segment Coll StdAlg Algo Access Local Walk Many Body Pair Spec SpecAlg SpecAcc SpecLocal SpecWalk SpecMany SpecCalls SpecBody SpecPair Reach ProofBase ProofVec ProofBackend
  ProofOps ProofSeg ProofMap ProofView ProofAlgo ProofAlgo2 ProofColl ProofReach ProofObs ProofProp ProofProp4 ProofProp5 ProofAccess Demo Properties6 ProofLocal ProofWalk ProofMany ProofBody Properties24 Properties38
  Properties39 Properties41 Properties43 Properties47.
Import ListNotations.

Section Calls.
Context {V : Type} {E : Env V} {S : Type} (w : world) (g d : list (coll V)).
Notation plot := (plot (V := V) (S := S)).

Lemma run_act2_sim {X} k c Ts Ts' i j r q (a : act2 V S X) : nth_error g k = Some c -> nth_error (refs c) i = Some r -> nth_error (refs c) j = Some q ->
  simulates w g d (run_act2 k (seen Ts r) (seen Ts' q) a) (run_act2_seq k i j a) eq.
Proof.
  intros Hc Hr Hq. induction a as [x|A f next IH|A f next IH|A p next IH]; cbn [run_act2 run_act2_seq].
  - apply sim_ret. reflexivity.
  - eapply sim_bind; [eapply run_act_sim; eauto|]. intros b ? <-. apply IH.
  - eapply sim_bind; [eapply run_act_sim; eauto|]. intros b ? <-. apply IH.
  - eapply sim_bind; [apply with_captured_sim|]. intros b ? <-. apply IH.
Qed.
(** [t] and [u] are the types which the call is told *)
Lemma calling2_sim_gen {X} k c Ts Ts1 Ts2 i j r q (F F' : option tyid -> option tyid -> act2 V S X) : nth_error g k = Some c -> nth_error (refs c) i = Some r -> nth_error (refs c) j = Some q ->
  F (fst (seen Ts1 r)) (fst (seen Ts2 q)) = F' (fst (seen Ts r)) (fst (seen Ts q)) ->
  simulates w g d (calling2 k F (seen Ts1 r) (seen Ts2 q)) (calling2_seq Ts k F' i j) eq.
Proof.
  intros Hc Hr Hq Q st st' P. unfold calling2_seq, calling2. destruct st as [[g' s] its], st' as [[ls s'] ks]. pose proof P as P0. destruct P as (_ & _ & El & _ & Ch). cbn [fst snd].
  destruct (Forall2_at _ _ _ _ _ Ch Hc) as (c' & Hc' & Sh & Ef). rewrite <- El, nth_error_map, Hc'. cbn [option_map].
  assert (Ety : forall m x t v, nth_error (refs c) m = Some x -> nth_error (flat c') m = Some (t, v) -> r_ty x = t).
  { intros m x t v Hx Q'. apply (map_nth_error fst) in Q'. rewrite Ef in Q'. rewrite <- refs_flat, map_map, nth_error_map, Hx in Q'. cbn in Q'. congruence. }
  destruct (nth_error (flat c') i) as [[t v]|] eqn:Qi; [|exact I]. destruct (nth_error (flat c') j) as [[u v']|] eqn:Qj; [|exact I].
  pose proof (Ety _ _ _ _ Hr Qi) as Et. pose proof (Ety _ _ _ _ Hq Qj) as Eu. rewrite Q. rewrite <- El in P0.
  pose proof (run_act2_sim k c Ts1 Ts2 i j r q (F' (fst (seen Ts r)) (fst (seen Ts q))) Hc Hr Hq _ _ P0) as R. cbn [seen fst] in R |- *. rewrite Et, Eu in *. exact R.
Qed.
Lemma calling2_sim {X} k c Ts i j r q (F : option tyid -> option tyid -> act2 V S X) : nth_error g k = Some c -> nth_error (refs c) i = Some r -> nth_error (refs c) j = Some q ->
  simulates w g d (calling2 k F (seen Ts r) (seen Ts q)) (calling2_seq Ts k F i j) eq.
Proof. intros. eapply calling2_sim_gen; eauto. Qed.
Lemma across_sim k c Ts i j r q (F : option tyid -> option tyid -> act2 V S bool) : nth_error g k = Some c -> nth_error (refs c) i = Some r -> nth_error (refs c) j = Some q ->
  simulates w g d (across (calling2 k F) (seen Ts r) (seen Ts q)) (calling2_seq Ts k (if_equal F) i j) eq.
Proof.
  intros Hc Hr Hq. unfold across. cbn [seen snd]. destruct (Nat.eqb_spec (r_ty r) (r_ty q)) as [e|Ne].
  - eapply (calling2_sim_gen k c Ts Ts Ts); eauto. unfold seen. cbn [fst]. rewrite <- e. destruct (existsb (Nat.eqb (r_ty r)) Ts); cbn [if_equal]; [rewrite Nat.eqb_refl|]; reflexivity.
  - change (None, r) with (seen [] r). eapply (calling2_sim_gen k c Ts [] Ts); eauto. unfold seen. cbn [fst existsb].
    destruct (existsb (Nat.eqb (r_ty r)) Ts), (existsb (Nat.eqb (r_ty q)) Ts); cbn [if_equal]; try reflexivity. rewrite (proj2 (Nat.eqb_neq _ _) Ne). reflexivity.
Qed.
End Calls.

Section Lists.
Context {V : Type} {E : Env V} {S : Type} {X Y Z : Type} (w : world) (g d : list (coll V)) (Rx : X -> Y -> Prop).
Notation plot := (plot (V := V) (S := S)).

Lemma adjacent_find_sim (f : X -> X -> M (scene V S) bool) (f' : Y -> Y -> M plot bool) xs ys : Forall2 Rx xs ys ->
  (forall x y x' y', Rx x y -> Rx x' y' -> simulates w g d (f x x') (f' y y') eq) -> simulates w g d (std_adjacent_find f xs) (std_adjacent_find f' ys) eq.
Proof.
  intros F H. induction F as [|x y xs ys Q F IH]; cbn [std_adjacent_find]; [apply sim_ret; reflexivity|]. destruct F as [|x' y' xs ys Q' F]; [apply sim_ret; reflexivity|].
  eapply sim_bind; [apply H; auto|]. intros b ? <-. destruct b; [apply sim_ret; reflexivity|]. eapply sim_bind; [apply IH|]. intros n ? <-. apply sim_ret. reflexivity.
Qed.
Lemma plain_count_sim {T} (f : T -> M (scene V S) bool) (f' : T -> M plot bool) zs : (forall z, simulates w g d (f z) (f' z) eq) -> simulates w g d (std_count_if f zs) (std_count_if f' zs) eq.
Proof.
  intros H. induction zs as [|z zs IH]; cbn [std_count_if]; [apply sim_ret; reflexivity|]. eapply sim_bind; [apply H|]. intros b ? <-. eapply sim_bind; [apply IH|]. intros n ? <-.
  apply sim_ret. reflexivity.
Qed.
Lemma perm_sim (f : X -> X + Z -> M (scene V S) bool) (f' : Y -> Y + Z -> M plot bool) zs :
  (forall x y x' y', Rx x y -> Rx x' y' -> simulates w g d (f x (inl x')) (f' y (inl y')) eq) -> (forall x y z, Rx x y -> simulates w g d (f x (inr z)) (f' y (inr z)) eq) ->
  forall xs ys, Forall2 Rx xs ys -> forall pre pre', Forall2 Rx pre pre' -> simulates w g d (std_perm f zs pre xs) (std_perm f' zs pre' ys) eq.
Proof.
  intros H1 H2 xs ys F. induction F as [|x y xs ys Q F IH]; intros pre pre' F'; cbn [std_perm]; [apply sim_ret; reflexivity|].
  eapply sim_bind; [eapply (find_if_sim (X := X) (Y := Y)); [exact F'|intros; apply H1; auto]|]. intros n ? <-. rewrite (F2_length Rx pre pre' F').
  assert (F'' : Forall2 Rx (pre ++ [x]) (pre' ++ [y])) by (apply Forall2_app; auto).
  destruct (negb (n =? length pre)); [apply IH, F''|].
  eapply sim_bind; [apply plain_count_sim; intros z; apply H2, Q|]. intros m ? <-. destruct (m =? 0); [apply sim_ret; reflexivity|].
  eapply sim_bind; [eapply (count_if_sim (X := X) (Y := Y)); [constructor; [exact Q|exact F]|intros; apply H1; auto]|]. intros m' ? <-. destruct (m =? m'); [apply IH, F''|apply sim_ret; reflexivity].
Qed.
Lemma is_permutation_sim bounded (f : X -> X + Z -> M (scene V S) bool) (f' : Y -> Y + Z -> M plot bool) xs ys zs : Forall2 Rx xs ys ->
  (forall x y x' y', Rx x y -> Rx x' y' -> simulates w g d (f x (inl x')) (f' y (inl y')) eq) -> (forall x y z, Rx x y -> simulates w g d (f x (inr z)) (f' y (inr z)) eq) ->
  simulates w g d (std_is_permutation bounded f xs zs) (std_is_permutation bounded f' ys zs) eq.
Proof.
  intros F H1 H2. unfold std_is_permutation. eapply sim_bind; [eapply (mismatch_sim w g d Rx bounded); [exact F|exact H2]|]. intros n ? <-.
  pose proof (Forall2_skipn Rx n xs ys F) as Fn. cbv zeta. rewrite (F2_length Rx _ _ Fn).
  destruct bounded; [destruct (length (skipn n xs) =? length (skipn n zs)); [|apply sim_ret; reflexivity]|destruct (length (skipn n xs) <=? length (skipn n zs)); [|apply sim_ub]];
    apply perm_sim; auto.
Qed.
End Lists.

(** ** C84 *)

(** is_permutation: [F] is the predicate called on two elements of the range, [G z] called on one and on [z] of the other sequence. *)
Theorem C84_is_permutation {V} {E : Env V} {S} w g d k c Ts first last i j its ks {Z} bounded (F : option tyid -> option tyid -> act2 V S bool) (G : Z -> option tyid -> act V S bool) (zs : list Z) :
  reach w g d -> nth_error g k = Some c -> located c first i -> located c last j -> i <= j -> Forall2 (designates_at g) its ks ->
  enacts w g d its ks (pc_is_permutation bounded c Ts first last zs (fun x z => match z with inl y => calling2 k F x y | inr z => calling k (G z) x end))
    (std_is_permutation bounded (fun m z => match z with inl n => calling2_seq Ts k F m n | inr z => calling_seq Ts k (G z) m end) (seq i (j - i)) zs) eq.
Proof.
  intros H Hc L1 L2 L D. pose proof (reach_front w g d k c H Hc) as Hf. pose proof (located_le w c _ d last j Hf L2) as B. rewrite flat_length in B. apply simulates_enacts; auto.
  eapply sim_same; [apply (C42_calls w c _ d Ts first last i j _ bounded zs Hf L1 L2 L)| |intros ? ? ? -> ->; reflexivity].
  eapply (is_permutation_sim (Z := Z)); [apply views_seq; auto| |].
  - intros x y x' y' (r & -> & Hr) (r' & -> & Hr'). eapply calling2_sim; eauto.
  - intros x y z (r & -> & Hr). eapply calling_sim; eauto.
Qed.
(* in the examples: the arguments are compared after what the first captured iterator refers to has been added to the first one *)
Definition meddle2 (_ _ : option tyid) : act2 nat unit bool :=
  Elsewhere (Ref 0 (looking (fun y => ret (snd y))) (fun v => Done v)) (fun v => First (fun _ vs => Ok (v + fst vs, snd vs) (v + fst vs)) (fun a => Second (fun _ vs => Ok vs (fst vs)) (fun b => Give2 (a =? b)))).
Definition fits (z : nat) (_ : option tyid) : act nat unit bool :=
  There (Ref 2 (fun _ => modify (fun vs => (100 + fst vs, snd vs))) (fun _ => Done tt)) (fun _ => Here (fun _ vs => Ok vs (fst vs =? z)) (fun b => Give b)).
Example C84_is_permutation_ex lay : let E := dE lay in
  reach (dw lay) [dc lay; dx lay] [] /\ nth_error [dc lay; dx lay] 0 = Some (dc lay) /\ located (dc lay) (dfirst lay) 1 /\ located (dc lay) (dlast lay) 5 /\ 1 <= 5 /\
  Forall2 (designates_at [dc lay; dx lay]) (d_its lay) (d_places lay) /\
  match pc_is_permutation true (dc lay) [2] (dfirst lay) (dlast lay) [106; 7; 13; 8] (fun x z => match z with inl y => calling2 0 meddle2 x y | inr z => calling 0 (fits z) x end) (([dc lay; dx lay], tt), d_its lay) with
  | Ok ((g, _), _) r => (map flat g, r) = ([[(1, 5); (1, 706); (1, 7); (2, 18); (2, 14); (4, 1)]; flat (dx lay)], false)
  | _ => False
  end.
Proof. cbv zeta. csplit; try apply d_designates; demo lay. Qed.

(** ** C40 *)

(** adjacent_find; the type of the first argument is known only if it is that of the second.  (Missing: adjacent storage, see C40_adjacent_find_refuted.) *)
Theorem C40_captured_partial {V} {E : Env V} {S} w g d k c Ts first last i j its ks (F : option tyid -> option tyid -> act2 V S bool) : reach w g d -> nth_error g k = Some c ->
  located c first i -> located c last j -> i <= j -> Forall2 (designates_at g) its ks -> env_layout = SplitLayout \/ separate c ->
  enacts w g d its ks (pc_adjacent_find c Ts first last (calling2 k F)) (std_adjacent_find (calling2_seq Ts k (if_equal F)) (seq i (j - i))) (fun it m => located c it (i + m)).
Proof.
  intros H Hc L1 L2 L D Ap. pose proof (reach_front w g d k c H Hc) as Hf. pose proof (located_le w c _ d last j Hf L2) as B. rewrite flat_length in B. apply simulates_enacts; auto.
  eapply sim_same; [apply (C40_across_partial w c _ d Ts first last i j _ Hf L1 L2 L Ap)| |intros it ? ? Q <-; exact Q].
  eapply adjacent_find_sim; [apply views_seq; auto|]. intros x y x' y' (r & -> & Hr) (r' & -> & Hr'). eapply across_sim; eauto.
Qed.
Example C40_captured_partial_ex lay : let E := dE lay in
  reach (dw lay) [dc lay; dx lay] [] /\ nth_error [dc lay; dx lay] 0 = Some (dc lay) /\ located (dc lay) (dfirst lay) 1 /\ located (dc lay) (dlast lay) 5 /\ 1 <= 5 /\
  Forall2 (designates_at [dc lay; dx lay]) (d_its lay) (d_places lay) /\ separate (dc lay) /\
  match pc_adjacent_find (dc lay) [2] (dfirst lay) (dlast lay) (calling2 0 meddle2) (([dc lay; dx lay], tt), d_its lay) with
  | Ok ((g, _), _) r => (map flat g, r) = ([[(1, 5); (1, 11); (1, 12); (2, 13); (2, 9); (4, 1)]; flat (dx lay)], dlast lay)
  | _ => False
  end.
Proof. cbv zeta. csplit; try apply d_designates; demo lay. Qed.

Print Assumptions C84_is_permutation.
Print Assumptions C40_captured_partial.
