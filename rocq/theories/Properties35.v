(** * The algorithms do what those of the standard library do with the iterators (C79)

    See the head of Properties1.v for the form of the statements.  [does_as] is in SpecStd.v, the programs [w_...] are in WalkStd.v.
    The function objects look at the type and the value of the objects they are passed. *)

From Coq Require Import List Arith Lia Bool.
From Verif Require Import Base Vec Backend Segment Coll StdAlg Algo Access Local Walk WalkStd Spec SpecAlg SpecAcc SpecLocal SpecWalk SpecStd Reach ProofBase ProofVec ProofBackend ProofOps
  ProofSeg ProofMap ProofView ProofAlgo ProofColl ProofReach ProofObs ProofProp ProofProp4 ProofProp5 ProofAccess Demo Properties6 ProofLocal ProofWalk ProofStd.
Import ListNotations.

Tactic Notation "value" hyp(H) hyp(L1) hyp(L2) hyp(L) uconstr(thm) uconstr(ml) uconstr(sq) :=
  let F := fresh "F" in let Hj := fresh "Hj" in let Lb := fresh "Lb" in
  match type of H with reach ?w (?c :: ?g) ?d =>
    match type of L1 with located _ ?first ?i =>
      match type of L2 with located _ ?last ?j =>
        destruct (range_vars w c g d first last i j H L1 L2 L) as (F & Hj & Lb)
      end end end;
  eapply does_value; [exact H|exact L1|exact L2|exact L|eapply same_eq; [eapply thm; eauto|intros; unfold of_obj, into; rewrite ml, obj_views; reflexivity]|];
  intros; rewrite <- Lb; apply sq; lia.

(** all_of, any_of, none_of, for_each, count_if, count: the same value *)
Theorem C79_all_of {V} {E : Env V} {S} w c g d Ts first last i j fuel p : reach w (c :: g) d ->
  located c first i -> located c last j -> i <= j -> j - i <= fuel ->
  does_as (S := S) w c g d (pc_all_of c Ts first last (of_obj p)) (w_all_of fuel p) [first; last] returned.
Proof. intros H L1 L2 L Hf. value H L1 L2 L C38_all_of (m_all_of obj) all_of_seq. Qed.
Theorem C79_any_of {V} {E : Env V} {S} w c g d Ts first last i j fuel p : reach w (c :: g) d ->
  located c first i -> located c last j -> i <= j -> j - i <= fuel ->
  does_as (S := S) w c g d (pc_any_of c Ts first last (of_obj p)) (w_any_of fuel p) [first; last] returned.
Proof. intros H L1 L2 L Hf. value H L1 L2 L C38_any_of (m_any_of obj) any_of_seq. Qed.
Theorem C79_none_of {V} {E : Env V} {S} w c g d Ts first last i j fuel p : reach w (c :: g) d ->
  located c first i -> located c last j -> i <= j -> j - i <= fuel ->
  does_as (S := S) w c g d (pc_none_of c Ts first last (of_obj p)) (w_none_of fuel p) [first; last] returned.
Proof. intros H L1 L2 L Hf. value H L1 L2 L C38_none_of (m_none_of obj) none_of_seq. Qed.
Theorem C79_for_each {V} {E : Env V} {S} w c g d Ts first last i j fuel f : reach w (c :: g) d ->
  located c first i -> located c last j -> i <= j -> j - i <= fuel ->
  does_as (S := S) w c g d (pc_for_each c Ts first last (of_obj f)) (w_for_each fuel f) [first; last] returned.
Proof. intros H L1 L2 L Hf. value H L1 L2 L C37_for_each (m_for_each obj) for_each_seq. Qed.
Theorem C79_count_if {V} {E : Env V} {S} w c g d Ts first last i j fuel p : reach w (c :: g) d ->
  located c first i -> located c last j -> i <= j -> j - i <= fuel ->
  does_as (S := S) w c g d (pc_count_if c Ts first last (of_obj p)) (w_count_if fuel p) [first; last] returned.
Proof. intros H L1 L2 L Hf. value H L1 L2 L C38_count_if (m_count_if obj) count_if_seq. Qed.
(** the algorithms which write to an output iterator: they write the same, in the same order, and return the same *)
Theorem C79_copy {V} {E : Env V} {S} w c g d Ts first last i j fuel put o : reach w (c :: g) d ->
  located c first i -> located c last j -> i <= j -> j - i <= fuel ->
  does_as (S := S) w c g d (pc_copy c Ts first last (into put) o) (w_copy fuel put o) [first; last] returned.
Proof. intros H L1 L2 L Hf. value H L1 L2 L C44_copy (m_copy obj) copy_seq. Qed.
Theorem C79_copy_if {V} {E : Env V} {S} w c g d Ts first last i j fuel p put o : reach w (c :: g) d ->
  located c first i -> located c last j -> i <= j -> j - i <= fuel ->
  does_as (S := S) w c g d (pc_copy_if c Ts first last (into put) (of_obj p) o) (w_copy_if fuel p put o) [first; last] returned.
Proof. intros H L1 L2 L Hf. value H L1 L2 L C44_copy_if (m_copy_if obj) copy_if_seq. Qed.
Theorem C79_remove_copy_if {V} {E : Env V} {S} w c g d Ts first last i j fuel p put o : reach w (c :: g) d ->
  located c first i -> located c last j -> i <= j -> j - i <= fuel ->
  does_as (S := S) w c g d (pc_remove_copy_if c Ts first last (into put) (of_obj p) o) (w_remove_copy_if fuel p put o) [first; last] returned.
Proof. intros H L1 L2 L Hf. value H L1 L2 L C44_remove_copy_if (m_remove_copy_if obj) remove_copy_if_seq. Qed.
Theorem C79_transform {V} {E : Env V} {S} w c g d Ts first last i j fuel {O} (op : tyid * V -> M S O) put o : reach w (c :: g) d ->
  located c first i -> located c last j -> i <= j -> j - i <= fuel ->
  does_as (S := S) w c g d (pc_transform c Ts first last put (of_obj op) o) (w_transform fuel op put o) [first; last] returned.
Proof. intros H L1 L2 L Hf. value H L1 L2 L C44_transform (m_transform obj) transform_seq. Qed.
Theorem C79_transform_binary {V} {E : Env V} {S} w c g d Ts first last i j fuel {Y O} (op : tyid * V -> Y -> M S O) ys put o : reach w (c :: g) d ->
  located c first i -> located c last j -> i <= j -> j - i <= fuel ->
  does_as (S := S) w c g d (pc_transform2 c Ts first last ys put (of_obj op) o) (w_transform2 fuel op put ys o) [first; last] returned.
Proof. intros H L1 L2 L Hf. value H L1 L2 L C44_transform_binary (m_transform2 obj) transform2_seq. Qed.
Theorem C79_replace_copy_if {V} {E : Env V} {S N} w c g d Ts first last i j fuel p (new : N) put o : reach w (c :: g) d ->
  located c first i -> located c last j -> i <= j -> j - i <= fuel ->
  does_as (S := S) w c g d (pc_replace_copy_if c Ts first last (into_either put) (of_obj p) new o) (w_replace_copy_if fuel p new put o) [first; last] returned.
Proof.
  intros H L1 L2 L Hf. destruct (range_vars w c g d first last i j H L1 L2 L) as (F & Hj & Lb).
  eapply does_value; [exact H|exact L1|exact L2|exact L|eapply same_eq; [eapply C44_replace_copy_if; eauto|]|].
  - intros s. rewrite <- (obj_views c Ts) in *. exact (m_replace_copy_if obj p new put (views c Ts i j) o s).
  - intros s. rewrite <- Lb, obj_views. apply replace_copy_if_seq. lia.
Qed.
Theorem C79_partition_copy {V} {E : Env V} {S} w c g d Ts first last i j fuel p put1 put2 o : reach w (c :: g) d ->
  located c first i -> located c last j -> i <= j -> j - i <= fuel ->
  does_as (S := S) w c g d (pc_partition_copy c Ts first last (into put1) (into put2) (of_obj p) o) (w_partition_copy fuel p put1 put2 o) [first; last] returned.
Proof. intros H L1 L2 L Hf. value H L1 L2 L C44_partition_copy (m_partition_copy obj) partition_copy_seq. Qed.
(** as in the standard, the predicate must be an equivalence relation *)
Theorem C79_unique_copy {V} {E : Env V} {S} w c g d Ts first last i j fuel p put o : reach w (c :: g) d ->
  located c first i -> located c last j -> i <= j -> j - i <= fuel ->
  equivalence p ->
  does_as (S := S) w c g d (pc_unique_copy c Ts first last (into put) (pure2 (of_objs p)) o) (w_unique_copy fuel (pure2 p) put o) [first; last] returned.
Proof.
  intros H L1 L2 L Hf (P1 & P2 & P3). destruct (range_vars w c g d first last i j H L1 L2 L) as (F & Hj & Lb).
  eapply does_value; [exact H|exact L1|exact L2|exact L|eapply same_eq; [eapply C44_unique_copy; eauto|]|].
  - split; [|split]; unfold of_objs; intros; [apply P1|apply P2|eapply P3; eauto].
  - intros r x. reflexivity.
  - intros s. rewrite <- (obj_views c Ts) in *. exact (m_unique_copy obj (pure2 p) put (views c Ts i j) o s).
  - intros s. rewrite <- Lb, obj_views. apply unique_copy_seq. rewrite Lb. exact Hf.
Qed.
Theorem C79_is_partitioned {V} {E : Env V} {S} w c g d Ts first last i j fuel p : reach w (c :: g) d ->
  located c first i -> located c last j -> i <= j -> j - i <= fuel ->
  does_as (S := S) w c g d (pc_is_partitioned c Ts first last (of_obj p)) (w_is_partitioned fuel p) [first; last] returned.
Proof. intros H L1 L2 L Hf. value H L1 L2 L C46_is_partitioned_calls (m_is_partitioned obj) is_partitioned_seq. Qed.
(** of the [j-i] elements of the range, at most [n] *)
Theorem C79_sample {V} {E : Env V} {S} w c g d Ts first last i j fuel n draw put o : reach w (c :: g) d ->
  located c first i -> located c last j -> i <= j -> j - i <= fuel ->
  does_as (S := S) w c g d (pc_sample c Ts first last (into put) n draw o) (w_sample fuel draw put (Nat.min n (j - i)) (j - i) o) [first; last] returned.
Proof.
  intros H L1 L2 L Hf. destruct (range_vars w c g d first last i j H L1 L2 L) as (F & Hj & Lb).
  eapply does_value; [exact H|exact L1|exact L2|exact L|eapply same_eq; [eapply C45_sample_calls; eauto|intros; unfold into; rewrite (m_sample obj), obj_views; reflexivity]|].
  intros s. unfold std_sample. rewrite <- Lb. apply select_seq. lia.
Qed.
Theorem C79_equal {V} {E : Env V} {S Y} w c g d Ts first last i j fuel bounded (p : tyid * V -> Y -> M S bool) ys : reach w (c :: g) d ->
  located c first i -> located c last j -> i <= j -> j - i <= fuel ->
  does_as (S := S) w c g d (pc_equal bounded c Ts first last ys (of_obj p)) (w_equal bounded fuel p ys) [first; last] returned.
Proof.
  intros H L1 L2 L Hf. destruct (range_vars w c g d first last i j H L1 L2 L) as (F & Hj & Lb).
  eapply does_value; [exact H|exact L1|exact L2|exact L|eapply same_eq; [eapply C41_equal; eauto|]|].
  - intros s. instantiate (1 := (if bounded then std_equal_to else std_equal) p (between i j (flat c)) ys). rewrite <- (obj_views c Ts).
    destruct bounded; [exact (m_equal_to obj p _ ys s)|exact (m_equal obj p _ ys s)].
  - intros s. rewrite <- Lb. apply equal_seq. lia.
Qed.
(** mismatch: the iterator and the position in the second sequence *)
Theorem C79_mismatch {V} {E : Env V} {S Y} w c g d Ts first last i j fuel bounded (p : tyid * V -> Y -> M S bool) ys : reach w (c :: g) d ->
  located c first i -> located c last j -> i <= j -> j - i <= fuel ->
  does_as (S := S) w c g d (pc_mismatch bounded c Ts first last ys (of_obj p)) (w_mismatch bounded fuel p ys) [first; last]
    (fun r r' => returned (snd r) r' /\ left_in 0 (fst r) r').
Proof.
  intros H L1 L2 L Hf. destruct (range_vars w c g d first last i j H L1 L2 L) as (F & Hj & Lb).
  eapply does_bridge; [exact H|exact L|exact Hj|exact F|eapply same_eq; [eapply C41_mismatch; eauto|]| |].
  - intros s. instantiate (1 := (if bounded then std_mismatch_to else std_mismatch) p (between i j (flat c)) ys). rewrite <- (obj_views c Ts).
    destruct bounded; [exact (m_mismatch_to obj p _ ys s)|exact (m_mismatch obj p _ ys s)].
  - intros s. rewrite <- Lb. apply mismatch_seq. lia.
  - intros r k x its ks (Lk & <-) Q F'. injection Q as -> ->. split; [reflexivity|]. unfold left_in. cbn [snd].
    inversion F' as [|a b la lb P F1 Q1 Q2]; subst. cbn. f_equal. eapply located_inj; eauto.
Qed.
(** the algorithms which give an iterator: the same iterator *)
Theorem C79_find_if_not {V} {E : Env V} {S} w c g d Ts first last i j fuel p : reach w (c :: g) d ->
  located c first i -> located c last j -> i <= j -> j - i <= fuel ->
  does_as (S := S) w c g d (pc_find_if_not c Ts first last (of_obj p)) (w_find_if_not fuel p) [first; last] (left_in 0).
Proof.
  intros H L1 L2 L Hf. destruct (range_vars w c g d first last i j H L1 L2 L) as (F & Hj & Lb).
  eapply does_iter; [exact H|exact L1|exact L2|exact L|eapply same_eq; [eapply C39_find_if_not; eauto|intros; unfold of_obj, of_objs; rewrite (m_find_if_not obj), obj_views; reflexivity]|].
  intros s. rewrite <- Lb. eapply seq_mono; [apply find_if_not_seq; lia|]. unfold at_pos. intros k r Q. rewrite ?Q. first [reflexivity|exact Q].
Qed.
Theorem C79_find_first_of {V} {E : Env V} {S} w c g d Ts first last i j fuel {Y} (p : tyid * V -> Y -> M S bool) ys : reach w (c :: g) d ->
  located c first i -> located c last j -> i <= j -> j - i <= fuel ->
  does_as (S := S) w c g d (pc_find_first_of c Ts first last (of_obj p) ys) (w_find_first_of fuel p ys) [first; last] (left_in 0).
Proof.
  intros H L1 L2 L Hf. destruct (range_vars w c g d first last i j H L1 L2 L) as (F & Hj & Lb).
  eapply does_iter; [exact H|exact L1|exact L2|exact L|eapply same_eq; [eapply C39_find_first_of; eauto|intros; unfold of_obj, of_objs; rewrite (m_find_first_of obj), obj_views; reflexivity]|].
  intros s. rewrite <- Lb. eapply seq_mono; [apply find_first_of_seq; lia|]. unfold at_pos. intros k r Q. rewrite ?Q. first [reflexivity|exact Q].
Qed.
Theorem C79_find_if {V} {E : Env V} {S} w c g d Ts first last i j fuel p : reach w (c :: g) d ->
  located c first i -> located c last j -> i <= j -> j - i <= fuel ->
  does_as (S := S) w c g d (pc_find_if c Ts first last (of_obj p)) (w_find_if fuel p) [first; last] (left_in 0).
Proof.
  intros H L1 L2 L Hf. destruct (range_vars w c g d first last i j H L1 L2 L) as (F & Hj & Lb).
  eapply does_iter; [exact H|exact L1|exact L2|exact L|eapply same_eq; [eapply C39_find_if; eauto|intros; unfold of_obj; rewrite (m_find_if obj), obj_views; reflexivity]|].
  intros s. rewrite <- Lb. pose proof (find_if_seq p (j - i) fuel 0 (between i j (flat c)) s ltac:(lia) Hf) as Q. cbn [skipn Nat.add] in Q.
  unfold seq_ok. rewrite Q. destruct (std_find_if p (between i j (flat c)) s); auto. eexists. split; reflexivity.
Qed.
(** if no segment without spare capacity ends where an element of another begins (see C40) *)
Theorem C79_adjacent_find {V} {E : Env V} {S} w c g d Ts first last i j fuel p : reach w (c :: g) d ->
  located c first i -> located c last j -> i <= j -> j - i <= fuel ->
  env_layout = SplitLayout \/ separate c ->
  does_as (S := S) w c g d (pc_adjacent_find c Ts first last (of_objs p)) (w_adjacent_find fuel p) [first; last] (left_in 0).
Proof.
  intros H L1 L2 L Hf Ap. destruct (range_vars w c g d first last i j H L1 L2 L) as (F & Hj & Lb).
  eapply does_iter; [exact H|exact L1|exact L2|exact L|eapply same_eq; [eapply C40_adjacent_find_partial; eauto; intros r x; reflexivity|intros; unfold of_objs; rewrite (m_adjacent_find obj), obj_views; reflexivity]|].
  intros s. rewrite <- Lb. apply adjacent_find_seq. lia.
Qed.
(** for_each_n, copy_n: [n] elements from [first] on *)
Theorem C79_for_each_n {V} {E : Env V} {S} w c g d Ts first i n f : reach w (c :: g) d -> located c first i -> i + n <= length (flat c) ->
  does_as (S := S) w c g d (pc_for_each_n c Ts first n (of_obj f)) (w_for_each_n n f) [first] (left_in 0).
Proof.
  intros H L1 Ln. assert (F : Forall2 (fun it k => located c it (i + k) /\ k <= i + n - i) [first] [0]) by (constructor; [rewrite Nat.add_0_r; split; auto; lia|constructor]).
  assert (Lb : length (between i (i + n) (flat c)) = n) by (rewrite between_length; lia).
  eapply (does_bridge w c g d i (i + n)); [exact H|apply Nat.le_add_r|exact Ln|exact F|eapply same_eq; [eapply C37_for_each_n; eauto|intros; unfold of_obj; rewrite (m_for_each obj), obj_views; reflexivity]| |].
  - intros s. pose proof (for_each_n_seq f (between i (i + n) (flat c)) n 0 [] s ltac:(lia)) as Q.
    replace (between 0 (0 + n) (between i (i + n) (flat c))) with (between i (i + n) (flat c)) in Q; [exact Q|].
    clear - Lb. revert Lb. generalize (between i (i + n) (flat c)). intros l <-. symmetry. apply between_whole.
  - cbn beta. cbn [snd]. intros it _ x its ks Lk -> F'. inversion F' as [|a b la lb P F1 Q1 Q2]; subst. unfold left_in. cbn. f_equal. eapply located_inj; eauto.
Qed.
Theorem C79_copy_n {V} {E : Env V} {S} w c g d Ts first i n put o : reach w (c :: g) d -> located c first i -> i + n <= length (flat c) ->
  does_as (S := S) w c g d (pc_copy_n c Ts first n (into put) o) (w_copy_n n put o) [first] returned.
Proof.
  intros H L1 Ln. assert (F : Forall2 (fun it k => located c it (i + k) /\ k <= i + n - i) [first] [0]) by (constructor; [rewrite Nat.add_0_r; split; auto; lia|constructor]).
  assert (Lb : length (between i (i + n) (flat c)) = n) by (rewrite between_length; lia).
  eapply (does_bridge w c g d i (i + n)); [exact H|apply Nat.le_add_r|exact Ln|exact F|eapply same_eq; [eapply C44_copy_n; eauto|intros; unfold into; rewrite (m_copy obj), obj_views; reflexivity]| |].
  - intros s. pose proof (copy_n_seq put (between i (i + n) (flat c)) n 0 [] o s ltac:(lia)) as Q.
    replace (between 0 (0 + n) (between i (i + n) (flat c))) with (between i (i + n) (flat c)) in Q; [exact Q|].
    clear - Lb. revert Lb. generalize (between i (i + n) (flat c)). intros l <-. symmetry. apply between_whole.
  - intros a b x its ks -> Q _. exact Q.
Qed.
(** rotate_copy: the elements from [middle] on, then those before it *)
Theorem C79_rotate_copy {V} {E : Env V} {S} w c g d Ts first middle last i m j fuel put o : reach w (c :: g) d ->
  located c first i -> located c middle m -> located c last j -> i <= m -> m <= j -> j - i <= fuel ->
  does_as (S := S) w c g d (pc_rotate_copy c Ts first middle last (into put) o) (w_rotate_copy fuel put o) [middle; last; first] returned.
Proof.
  intros H L1 Lm L2 Hm Hm' Hf. destruct (range_vars w c g d first last i j H L1 L2 ltac:(lia)) as (F & Hj & Lb).
  assert (F' : Forall2 (fun it k => located c it (i + k) /\ k <= j - i) [middle; last; first] [m - i; j - i; 0]).
  { inversion F as [|a b la lb P F1 Q1 Q2]; subst. inversion F1 as [|a b la lb P' F2 Q1 Q2]; subst. constructor; auto. replace (i + (m - i)) with m by lia. split; auto. lia. }
  eapply does_bridge; [exact H| |exact Hj|exact F'|eapply same_eq; [eapply C44_rotate_copy; eauto|intros; unfold into; rewrite (m_rotate_copy obj), obj_views; reflexivity]| |]; [lia| |].
  - intros s. rewrite <- Lb. apply rotate_copy_seq; lia.
  - intros a b x its ks -> Q _. exact Q.
Qed.

(** *** Instances

    The state is the list of the values the function objects have seen, last one first; the range is 6 7 (type 1), 8 9 (type 2). *)
Definition u_p (f : nat -> bool) (x : tyid * nat) : M (list nat) bool := fun s => Ok (snd x :: s) (f (snd x)).
Definition u_q (x : tyid * nat) (y : nat) : M (list nat) bool := fun s => Ok (y :: snd x :: s) (snd x =? y).
Definition u_f (x : tyid * nat) : M (list nat) unit := fun s => if snd x =? 9 then Exn s UserExn else Ok (snd x :: s) tt.
Definition u_put (o : nat) (x : tyid * nat) : M (list nat) unit := fun s => Ok (snd x :: 100 + o :: s) tt.
Definition u_put' (o x : nat) : M (list nat) unit := fun s => Ok (x :: 100 + o :: s) tt.
Definition u_puts (o : nat) (x : nat + tyid * nat) : M (list nat) unit := u_put' o (match x with inl n => n | inr y => snd y end).
Definition u_pp (x y : tyid * nat) : M (list nat) bool := fun s => Ok (snd y :: snd x :: s) (snd x / 4 =? snd y / 4).

Example C79_all_of_ex lay : let E := dE lay in let c := dc lay in
  reach (dw lay) [c; dx lay] [] /\ located c (it_at c 1 1) 1 /\ located c (it_at c 4 0) 5 /\ 1 <= 5 /\ 5 - 1 <= 4 /\
  match run_walk (w_all_of 4 (u_p (fun x => x <? 8))) [it_at c 1 1; it_at c 4 0] (c, []), pc_all_of c [1] (it_at c 1 1) (it_at c 4 0) (of_obj (u_p (fun x => x <? 8))) [] with Ok (_, s) r, Ok s' a => s = [8; 7; 6] /\ s' = s /\ fst r = false /\ a = false | _, _ => False end.
Proof. cbv zeta; csplit; try solve [demo_fact lay]; destruct lay; vm_compute; auto. Qed.
Example C79_any_of_ex lay : let E := dE lay in let c := dc lay in
  reach (dw lay) [c; dx lay] [] /\ located c (it_at c 1 1) 1 /\ located c (it_at c 4 0) 5 /\ 1 <= 5 /\ 5 - 1 <= 4 /\
  match run_walk (w_any_of 4 (u_p (fun x => x =? 8))) [it_at c 1 1; it_at c 4 0] (c, []), pc_any_of c [1] (it_at c 1 1) (it_at c 4 0) (of_obj (u_p (fun x => x =? 8))) [] with Ok (_, s) r, Ok s' a => s = [8; 7; 6] /\ s' = s /\ fst r = true /\ a = true | _, _ => False end.
Proof. cbv zeta; csplit; try solve [demo_fact lay]; destruct lay; vm_compute; auto. Qed.
Example C79_none_of_ex lay : let E := dE lay in let c := dc lay in
  reach (dw lay) [c; dx lay] [] /\ located c (it_at c 1 1) 1 /\ located c (it_at c 4 0) 5 /\ 1 <= 5 /\ 5 - 1 <= 4 /\
  match run_walk (w_none_of 4 (u_p (fun x => x =? 7))) [it_at c 1 1; it_at c 4 0] (c, []), pc_none_of c [1] (it_at c 1 1) (it_at c 4 0) (of_obj (u_p (fun x => x =? 7))) [] with Ok (_, s) r, Ok s' a => s = [7; 6] /\ s' = s /\ fst r = false /\ a = false | _, _ => False end.
Proof. cbv zeta; csplit; try solve [demo_fact lay]; destruct lay; vm_compute; auto. Qed.
Example C79_for_each_ex lay : let E := dE lay in let c := dc lay in
  reach (dw lay) [c; dx lay] [] /\ located c (it_at c 1 1) 1 /\ located c (it_at c 4 0) 5 /\ 1 <= 5 /\ 5 - 1 <= 4 /\
  match run_walk (w_for_each 4 u_f) [it_at c 1 1; it_at c 4 0] (c, []), pc_for_each c [1] (it_at c 1 1) (it_at c 4 0) (of_obj u_f) [] with Exn (_, s) e, Exn s' e' => s = [8; 7; 6] /\ s' = s /\ e = UserExn /\ e' = e | _, _ => False end.
Proof. cbv zeta; csplit; try solve [demo_fact lay]; destruct lay; vm_compute; auto. Qed.
Example C79_count_if_ex lay : let E := dE lay in let c := dc lay in
  reach (dw lay) [c; dx lay] [] /\ located c (it_at c 1 1) 1 /\ located c (it_at c 4 0) 5 /\ 1 <= 5 /\ 5 - 1 <= 4 /\
  match run_walk (w_count_if 4 (u_p (fun x => 6 <? x))) [it_at c 1 1; it_at c 4 0] (c, []), pc_count_if c [1] (it_at c 1 1) (it_at c 4 0) (of_obj (u_p (fun x => 6 <? x))) [] with Ok (_, s) r, Ok s' a => s = [9; 8; 7; 6] /\ s' = s /\ fst r = 3 /\ a = 3 | _, _ => False end.
Proof. cbv zeta; csplit; try solve [demo_fact lay]; destruct lay; vm_compute; auto. Qed.
Example C79_copy_ex lay : let E := dE lay in let c := dc lay in
  reach (dw lay) [c; dx lay] [] /\ located c (it_at c 1 1) 1 /\ located c (it_at c 4 0) 5 /\ 1 <= 5 /\ 5 - 1 <= 4 /\
  match run_walk (w_copy 4 u_put 3) [it_at c 1 1; it_at c 4 0] (c, []), pc_copy c [2] (it_at c 1 1) (it_at c 4 0) (into u_put) 3 [] with Ok (_, s) r, Ok s' a => s = [9; 106; 8; 105; 7; 104; 6; 103] /\ s' = s /\ fst r = 7 /\ a = 7 | _, _ => False end.
Proof. cbv zeta; csplit; try solve [demo_fact lay]; destruct lay; vm_compute; auto. Qed.
Example C79_copy_if_ex lay : let E := dE lay in let c := dc lay in
  reach (dw lay) [c; dx lay] [] /\ located c (it_at c 1 1) 1 /\ located c (it_at c 4 0) 5 /\ 1 <= 5 /\ 5 - 1 <= 4 /\
  match run_walk (w_copy_if 4 (u_p (fun x => 7 <? x)) u_put 3) [it_at c 1 1; it_at c 4 0] (c, []), pc_copy_if c [2] (it_at c 1 1) (it_at c 4 0) (into u_put) (of_obj (u_p (fun x => 7 <? x))) 3 [] with Ok (_, s) r, Ok s' a => s = [9; 104; 9; 8; 103; 8; 7; 6] /\ s' = s /\ fst r = 5 /\ a = 5 | _, _ => False end.
Proof. cbv zeta; csplit; try solve [demo_fact lay]; destruct lay; vm_compute; auto. Qed.
Example C79_remove_copy_if_ex lay : let E := dE lay in let c := dc lay in
  reach (dw lay) [c; dx lay] [] /\ located c (it_at c 1 1) 1 /\ located c (it_at c 4 0) 5 /\ 1 <= 5 /\ 5 - 1 <= 4 /\
  match run_walk (w_remove_copy_if 4 (u_p (fun x => 7 <? x)) u_put 3) [it_at c 1 1; it_at c 4 0] (c, []), pc_remove_copy_if c [2] (it_at c 1 1) (it_at c 4 0) (into u_put) (of_obj (u_p (fun x => 7 <? x))) 3 [] with Ok (_, s) r, Ok s' a => s = [9; 8; 7; 104; 7; 6; 103; 6] /\ s' = s /\ fst r = 5 /\ a = 5 | _, _ => False end.
Proof. cbv zeta; csplit; try solve [demo_fact lay]; destruct lay; vm_compute; auto. Qed.
Example C79_transform_ex lay : let E := dE lay in let c := dc lay in
  reach (dw lay) [c; dx lay] [] /\ located c (it_at c 1 1) 1 /\ located c (it_at c 4 0) 5 /\ 1 <= 5 /\ 5 - 1 <= 4 /\
  match run_walk (w_transform 4 (fun x => ret (snd x * 2)) u_put' 0) [it_at c 1 1; it_at c 4 0] (c, []), pc_transform c [2] (it_at c 1 1) (it_at c 4 0) u_put' (of_obj (fun x => ret (snd x * 2))) 0 [] with Ok (_, s) r, Ok s' a => s = [18; 103; 16; 102; 14; 101; 12; 100] /\ s' = s /\ fst r = 4 /\ a = 4 | _, _ => False end.
Proof. cbv zeta; csplit; try solve [demo_fact lay]; destruct lay; vm_compute; auto. Qed.
Example C79_transform_binary_ex lay : let E := dE lay in let c := dc lay in
  reach (dw lay) [c; dx lay] [] /\ located c (it_at c 1 1) 1 /\ located c (it_at c 4 0) 5 /\ 1 <= 5 /\ 5 - 1 <= 4 /\
  match run_walk (w_transform2 4 (fun x y => ret (snd x * y)) u_put' [1; 2; 3; 4; 5] 0) [it_at c 1 1; it_at c 4 0] (c, []), pc_transform2 c [2] (it_at c 1 1) (it_at c 4 0) [1; 2; 3; 4; 5] u_put' (of_obj (fun x y => ret (snd x * y))) 0 [] with Ok (_, s) r, Ok s' a => s = [36; 103; 24; 102; 14; 101; 6; 100] /\ s' = s /\ fst r = 4 /\ a = 4 | _, _ => False end.
Proof. cbv zeta; csplit; try solve [demo_fact lay]; destruct lay; vm_compute; auto. Qed.
Example C79_replace_copy_if_ex lay : let E := dE lay in let c := dc lay in
  reach (dw lay) [c; dx lay] [] /\ located c (it_at c 1 1) 1 /\ located c (it_at c 4 0) 5 /\ 1 <= 5 /\ 5 - 1 <= 4 /\
  match run_walk (w_replace_copy_if 4 (u_p (fun x => x =? 8)) 0 u_puts 0) [it_at c 1 1; it_at c 4 0] (c, []), pc_replace_copy_if c [2] (it_at c 1 1) (it_at c 4 0) (into_either u_puts) (of_obj (u_p (fun x => x =? 8))) 0 0 [] with Ok (_, s) r, Ok s' a => s = [9; 103; 9; 0; 102; 8; 7; 101; 7; 6; 100; 6] /\ s' = s /\ fst r = 4 /\ a = 4 | _, _ => False end.
Proof. cbv zeta; csplit; try solve [demo_fact lay]; destruct lay; vm_compute; auto. Qed.
Example C79_partition_copy_ex lay : let E := dE lay in let c := dc lay in
  reach (dw lay) [c; dx lay] [] /\ located c (it_at c 1 1) 1 /\ located c (it_at c 4 0) 5 /\ 1 <= 5 /\ 5 - 1 <= 4 /\
  match run_walk (w_partition_copy 4 (u_p Nat.even) u_put u_put (0, 10)) [it_at c 1 1; it_at c 4 0] (c, []), pc_partition_copy c [2] (it_at c 1 1) (it_at c 4 0) (into u_put) (into u_put) (of_obj (u_p Nat.even)) (0, 10) [] with Ok (_, s) r, Ok s' a => s = [9; 111; 9; 8; 101; 8; 7; 110; 7; 6; 100; 6] /\ s' = s /\ fst r = (2, 12) /\ a = (2, 12) | _, _ => False end.
Proof. cbv zeta; csplit; try solve [demo_fact lay]; destruct lay; vm_compute; auto. Qed.
Definition u_eq (x y : tyid * nat) : bool := snd x / 4 =? snd y / 4.
Lemma u_eq_ok : equivalence u_eq.
Proof.
  split; [intros; apply Nat.eqb_refl|split; [intros; apply Nat.eqb_sym|]].
  intros x y z H1 H2. apply Nat.eqb_eq in H1, H2. apply Nat.eqb_eq. congruence.
Qed.
Example C79_unique_copy_ex lay : let E := dE lay in let c := dc lay in
  reach (dw lay) [c; dx lay] [] /\ located c (it_at c 1 1) 1 /\ located c (it_at c 4 0) 5 /\ 1 <= 5 /\ 5 - 1 <= 4 /\ equivalence u_eq /\
  match run_walk (w_unique_copy 4 (pure2 u_eq) u_put 0) [it_at c 1 1; it_at c 4 0] (c, []), pc_unique_copy c [2] (it_at c 1 1) (it_at c 4 0) (into u_put) (pure2 (of_objs u_eq)) 0 [] with Ok (_, s) r, Ok s' a => s = [8; 101; 6; 100] /\ s' = s /\ fst r = 2 /\ a = 2 | _, _ => False end.
Proof. cbv zeta; csplit; try solve [demo_fact lay]; try apply u_eq_ok; destruct lay; vm_compute; auto. Qed.
Example C79_is_partitioned_ex lay : let E := dE lay in let c := dc lay in
  reach (dw lay) [c; dx lay] [] /\ located c (it_at c 1 1) 1 /\ located c (it_at c 4 0) 5 /\ 1 <= 5 /\ 5 - 1 <= 4 /\
  match run_walk (w_is_partitioned 4 (u_p Nat.even)) [it_at c 1 1; it_at c 4 0] (c, []), pc_is_partitioned c [2] (it_at c 1 1) (it_at c 4 0) (of_obj (u_p Nat.even)) [] with Ok (_, s) r, Ok s' a => s = [8; 7; 6] /\ s' = s /\ fst r = false /\ a = false | _, _ => False end.
Proof. cbv zeta; csplit; try solve [demo_fact lay]; destruct lay; vm_compute; auto. Qed.
Example C79_sample_ex lay : let E := dE lay in let c := dc lay in
  reach (dw lay) [c; dx lay] [] /\ located c (it_at c 1 1) 1 /\ located c (it_at c 4 0) 5 /\ 1 <= 5 /\ 5 - 1 <= 4 /\
  match run_walk (w_sample 4 (fun m s => Ok s (m / 2)) u_put 2 4 0) [it_at c 1 1; it_at c 4 0] (c, []), pc_sample c [2] (it_at c 1 1) (it_at c 4 0) (into u_put) 2 (fun m s => Ok s (m / 2)) 0 [] with Ok (_, s) r, Ok s' a => s = [8; 101; 6; 100] /\ s' = s /\ fst r = 2 /\ a = 2 | _, _ => False end.
Proof. cbv zeta; csplit; try solve [demo_fact lay]; destruct lay; vm_compute; auto. Qed.
Example C79_equal_ex lay : let E := dE lay in let c := dc lay in
  reach (dw lay) [c; dx lay] [] /\ located c (it_at c 1 1) 1 /\ located c (it_at c 4 0) 5 /\ 1 <= 5 /\ 5 - 1 <= 4 /\
  match run_walk (w_equal true 4 u_q [6; 7; 8]) [it_at c 1 1; it_at c 4 0] (c, []), pc_equal true c [2] (it_at c 1 1) (it_at c 4 0) [6; 7; 8] (of_obj u_q) [] with Ok (_, s) r, Ok s' a => s = [8; 8; 7; 7; 6; 6] /\ s' = s /\ fst r = false /\ a = false | _, _ => False end.
Proof. cbv zeta; csplit; try solve [demo_fact lay]; destruct lay; vm_compute; auto. Qed.
Example C79_mismatch_ex lay : let E := dE lay in let c := dc lay in
  reach (dw lay) [c; dx lay] [] /\ located c (it_at c 1 1) 1 /\ located c (it_at c 4 0) 5 /\ 1 <= 5 /\ 5 - 1 <= 4 /\
  match run_walk (w_mismatch true 4 u_q [6; 7; 0; 9]) [it_at c 1 1; it_at c 4 0] (c, []), pc_mismatch true c [2] (it_at c 1 1) (it_at c 4 0) [6; 7; 0; 9] (of_obj u_q) [] with Ok (_, s) r, Ok s' a => s = [0; 8; 7; 7; 6; 6] /\ s' = s /\ r = (2, [it_at c 2 0; it_at c 4 0]) /\ a = (it_at c 2 0, 2) | _, _ => False end.
Proof. cbv zeta; csplit; try solve [demo_fact lay]; destruct lay; vm_compute; auto. Qed.
Example C79_find_if_not_ex lay : let E := dE lay in let c := dc lay in
  reach (dw lay) [c; dx lay] [] /\ located c (it_at c 1 1) 1 /\ located c (it_at c 4 0) 5 /\ 1 <= 5 /\ 5 - 1 <= 4 /\
  match run_walk (w_find_if_not 4 (u_p (fun x => x <? 8))) [it_at c 1 1; it_at c 4 0] (c, []), pc_find_if_not c [2] (it_at c 1 1) (it_at c 4 0) (of_obj (u_p (fun x => x <? 8))) [] with Ok (_, s) r, Ok s' a => s = [8; 7; 6] /\ s' = s /\ nth_error (snd r) 0 = Some (it_at c 2 0) /\ a = it_at c 2 0 | _, _ => False end.
Proof. cbv zeta; csplit; try solve [demo_fact lay]; destruct lay; vm_compute; auto. Qed.
Example C79_find_first_of_ex lay : let E := dE lay in let c := dc lay in
  reach (dw lay) [c; dx lay] [] /\ located c (it_at c 1 1) 1 /\ located c (it_at c 4 0) 5 /\ 1 <= 5 /\ 5 - 1 <= 4 /\
  match run_walk (w_find_first_of 4 u_q [9; 7]) [it_at c 1 1; it_at c 4 0] (c, []), pc_find_first_of c [2] (it_at c 1 1) (it_at c 4 0) (of_obj u_q) [9; 7] [] with Ok (_, s) r, Ok s' a => s = [7; 7; 9; 7; 7; 6; 9; 6] /\ s' = s /\ nth_error (snd r) 0 = Some (it_at c 1 2) /\ a = it_at c 1 2 | _, _ => False end.
Proof. cbv zeta; csplit; try solve [demo_fact lay]; destruct lay; vm_compute; auto. Qed.
Example C79_find_if_ex lay : let E := dE lay in let c := dc lay in
  reach (dw lay) [c; dx lay] [] /\ located c (it_at c 1 1) 1 /\ located c (it_at c 4 0) 5 /\ 1 <= 5 /\ 5 - 1 <= 4 /\
  match run_walk (w_find_if 4 (u_p (fun x => x =? 8))) [it_at c 1 1; it_at c 4 0] (c, []), pc_find_if c [2] (it_at c 1 1) (it_at c 4 0) (of_obj (u_p (fun x => x =? 8))) [] with Ok (_, s) r, Ok s' a => s = [8; 7; 6] /\ s' = s /\ nth_error (snd r) 0 = Some (it_at c 2 0) /\ a = it_at c 2 0 | _, _ => False end.
Proof. cbv zeta; csplit; try solve [demo_fact lay]; destruct lay; vm_compute; auto. Qed.
Example C79_for_each_n_ex lay : let E := dE lay in let c := dc lay in
  reach (dw lay) [c; dx lay] [] /\ located c (it_at c 1 1) 1 /\ 1 + 3 <= length (flat c) /\
  match run_walk (w_for_each_n 3 u_f) [it_at c 1 1] (c, []), pc_for_each_n c [2] (it_at c 1 1) 3 (of_obj u_f) [] with Ok (_, s) r, Ok s' a => s = [8; 7; 6] /\ s' = s /\ nth_error (snd r) 0 = Some (it_at c 2 1) /\ a = it_at c 2 1 | _, _ => False end.
Proof. cbv zeta; csplit; try solve [demo_fact lay]; destruct lay; vm_compute; auto. Qed.
Example C79_copy_n_ex lay : let E := dE lay in let c := dc lay in
  reach (dw lay) [c; dx lay] [] /\ located c (it_at c 1 1) 1 /\ 1 + 3 <= length (flat c) /\
  match run_walk (w_copy_n 3 u_put 0) [it_at c 1 1] (c, []), pc_copy_n c [2] (it_at c 1 1) 3 (into u_put) 0 [] with Ok (_, s) r, Ok s' a => s = [8; 102; 7; 101; 6; 100] /\ s' = s /\ fst r = 3 /\ a = 3 | _, _ => False end.
Proof. cbv zeta; csplit; try solve [demo_fact lay]; destruct lay; vm_compute; auto. Qed.
Example C79_rotate_copy_ex lay : let E := dE lay in let c := dc lay in
  reach (dw lay) [c; dx lay] [] /\ located c (it_at c 1 1) 1 /\ located c (it_at c 2 0) 3 /\ located c (it_at c 4 0) 5 /\ 1 <= 3 /\ 3 <= 5 /\ 5 - 1 <= 4 /\
  match run_walk (w_rotate_copy 4 u_put 0) [it_at c 2 0; it_at c 4 0; it_at c 1 1] (c, []), pc_rotate_copy c [2] (it_at c 1 1) (it_at c 2 0) (it_at c 4 0) (into u_put) 0 [] with Ok (_, s) r, Ok s' a => s = [7; 103; 6; 102; 9; 101; 8; 100] /\ s' = s /\ fst r = 4 /\ a = 4 | _, _ => False end.
Proof. cbv zeta; csplit; try solve [demo_fact lay]; destruct lay; vm_compute; auto. Qed.
Example C79_adjacent_find_ex lay : let E := dE lay in let c := dc lay in
  reach (dw lay) [c; dx lay] [] /\ located c (it_at c 1 1) 1 /\ located c (it_at c 4 0) 5 /\ 1 <= 5 /\ 5 - 1 <= 4 /\ separate c /\
  match run_walk (w_adjacent_find 4 (fun x y s => Ok (snd y :: snd x :: s) (snd x + snd y =? 15))) [it_at c 1 1; it_at c 4 0] (c, []),
        pc_adjacent_find c [2] (it_at c 1 1) (it_at c 4 0) (of_objs (fun x y s => Ok (snd y :: snd x :: s) (snd x + snd y =? 15))) [] with
  | Ok (_, s) r, Ok s' a => s = [8; 7; 7; 6] /\ s' = s /\ nth_error (snd r) 0 = Some (it_at c 1 2) /\ a = it_at c 1 2 | _, _ => False end.
Proof. cbv zeta; csplit; try solve [demo_fact lay]; destruct lay; vm_compute; auto. Qed.

Print Assumptions C79_all_of.
Print Assumptions C79_any_of.
Print Assumptions C79_none_of.
Print Assumptions C79_for_each.
Print Assumptions C79_count_if.
Print Assumptions C79_copy.
Print Assumptions C79_copy_if.
Print Assumptions C79_remove_copy_if.
Print Assumptions C79_transform.
Print Assumptions C79_transform_binary.
Print Assumptions C79_replace_copy_if.
Print Assumptions C79_partition_copy.
Print Assumptions C79_unique_copy.
Print Assumptions C79_is_partitioned.
Print Assumptions C79_sample.
Print Assumptions C79_equal.
Print Assumptions C79_mismatch.
Print Assumptions C79_find_if_not.
Print Assumptions C79_find_first_of.
Print Assumptions C79_find_if.
Print Assumptions C79_adjacent_find.
Print Assumptions C79_for_each_n.
Print Assumptions C79_copy_n.
Print Assumptions C79_rotate_copy.
