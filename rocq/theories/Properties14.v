(** * Memory and allocators (C61) *)

From Coq Require Import List Arith Lia Bool Permutation.
From Verif Require Import Base Vec Backend Segment Coll Spec Reach SpecStore ProofBase ProofVec ProofBackend ProofSeg ProofMap ProofView ProofColl
  ProofCopy ProofReach ProofObs ProofProp ProofProp2 ProofProp3 ProofProp4 ProofProp5 ProofStore Demo Properties4.
Import ListNotations.

(** ** C61 Memory is never handed to a collection whose allocator differs *)

(** At any time, the memory in use is exactly that held by the collections of the program, and no
    two of them (nor two parts of one) share any. *)
Theorem C61_one_owner {V} {E : Env V} w g d : reach w g d ->
  Permutation (w_live w) (flat_map storage (g ++ d)) /\ NoDup (w_live w).
Proof. apply reach_live. Qed.
Example C61_one_owner_ex lay : let E := dE lay in reach (dw lay) [dc lay; dx lay] [] /\
  length (storage (dc lay)) = match lay with PackedLayout => 7 | SplitLayout => 12 end.
Proof. demo lay. Qed.

(** After any operation, the memory of a collection was allocated by that operation, or it was
    held before by a collection with the same allocator. *)
Theorem C61_step {V} {E : Env V} w g d w' g' d' c' b :
  reach w g d -> step w g d w' g' d' -> In c' (g' ++ d') -> In b (storage c') ->
  made_after w b \/ exists c, In c (g ++ d) /\ In b (storage c) /\ c_al c = c_al c'.
Proof.
  intros R St Hc Hb. rewrite storage_cblocks in Hb. destruct (step_home _ _ _ _ _ _ R St c' b Hc Hb) as [Q|(c & ? & ? & ?)]; [left; auto|].
  right. exists c. rewrite storage_cblocks. auto.
Qed.

(** So over any number of operations, a block of memory is only held by collections having equal
    allocators: none is released through an allocator other than the one it came from. *)
Theorem C61_always {V} {E : Env V} w g d w' g' d' c c' b :
  reach w g d -> steps w g d w' g' d' -> In c (g ++ d) -> In c' (g' ++ d') ->
  In b (storage c) -> In b (storage c') -> c_al c = c_al c'.
Proof. apply steps_al. Qed.

Lemma dm_step lay : step (E := dE lay) (dw lay) [dc lay; dx lay] [] (snd (dm lay)) [fst (dm lay); dx lay] [].
Proof.
  eapply s_call; [eapply (api_emplace (E := dE lay) [dx lay] (dc lay) 30 (SVal 2) 2); left; reflexivity|].
  destruct lay; vm_compute; reflexivity.
Qed.
Example C61_step_ex lay : let E := dE lay in
  reach (dw lay) [dc lay; dx lay] [] /\ step (dw lay) [dc lay; dx lay] [] (snd (dm lay)) [fst (dm lay); dx lay] [] /\
  existsb (fun b => existsb (Nat.eqb b) (storage (dc lay))) (storage (fst (dm lay))) = true /\
  existsb (fun b => w_next (dw lay) <=? b) (storage (fst (dm lay))) = true.
Proof. cbv zeta. csplit; [demo_fact lay|apply dm_step|demo_fact lay..]. Qed.
Example C61_always_ex lay : let E := dE lay in
  reach (dw lay) [dc lay; dx lay] [] /\
  steps (dw lay) [dc lay; dx lay] [] (snd (dm lay)) [dx lay; fst (dm lay)] [] /\
  In (hd 0 (storage (dx lay))) (storage (dx lay)) /\ c_al (dx lay) = 9 /\ c_al (dc lay) = 0.
Proof.
  cbv zeta. csplit; [demo_fact lay| |destruct lay; vm_compute; auto|demo_fact lay..].
  eapply steps_more; [eapply steps_more; [apply steps_none|apply dm_step]|]. apply s_perm; [apply perm_swap|constructor].
Qed.

(** In particular a move between collections with different allocators takes none of the memory
    of its source: all the memory of the destination is new. *)
Theorem C61_move_al {V} {E : Env V} w x g d al : reach w (x :: g) d -> c_al x <> al ->
  wp (c_move_al al) ((c_empty al, x), w)
    (fun '((c, x'), w') _ => Forall (made_after w) (storage c)) (fun '((c, x'), w') _ => storage c = []).
Proof.
  intros R Na. destruct (reach_wf _ _ _ _ R) as (W & O).
  eapply (wp_c_move_al al x w); [exact W|exact O| |].
  - intros w' c' bk _ _ _ _ _ _ Nw. rewrite storage_cblocks. exact (Nw Na).
  - intros w' c' xn e Ec _ _ _ _ _. unfold storage. rewrite Ec. reflexivity.
Qed.
Example C61_move_al_ex lay : let E := dE lay in
  reach (dw lay) [dc lay; dx lay] [] /\ c_al (dc lay) <> 4 /\ done (c_move_al 4 ((c_empty 4, dc lay), dw lay)) = true.
Proof. demo lay. Qed.

Theorem C61_move_assign {V} {E : Env V} w x g c d : reach w (x :: g) (c :: d) -> env_pocma = false -> c_al c <> c_al x ->
  wp c_move_assign ((c, x), w)
    (fun '((c', x'), w') _ => Forall (made_after w) (storage c')) (fun '((c', x'), w') _ => storage c' = [] /\ storage x' = []).
Proof.
  intros R Ep Na. pose proof (reach_alive _ _ _ R) as A. destruct (bad_focus2 _ _ _ _ _ A) as (W & Nc & O & _).
  eapply (wp_c_move_assign c x w); [exact W|exact Nc|exact O| |].
  - intros w' c' xn bk _ _ _ _ _ _ _ _ _ Nw _. rewrite storage_cblocks. exact (Nw Ep Na).
  - intros w' bk bk' e _ _ _ _ _. split; reflexivity.
Qed.
Example C61_move_assign_ex lay : let E := dE lay in
  reach (snd (dm lay)) [fst (dm lay)] [dx lay] /\ c_al (dx lay) <> c_al (fst (dm lay)) /\ env_pocma = false /\
  done (c_move_assign ((dx lay, fst (dm lay)), snd (dm lay))) = true.
Proof.
  cbv zeta. csplit; [|demo_fact lay..]. apply r_weaken. eapply r_perm; [apply dm_reach|apply perm_swap|constructor].
Qed.

(** A copy assignment whose allocator propagates releases all the memory it held before. *)
Theorem C61_assign {V} {E : Env V} w x g c d : reach w g (c :: d) -> In x g ->
  wp (c_copy_assign x) (c, w)
    (fun '(c', w') _ => Forall (made_after w) (storage c')) (fun '(c', w') _ => storage c' = []).
Proof.
  intros R Hx. pose proof (reach_wfm_in _ _ _ _ R Hx) as W. pose proof (reach_alive _ _ _ R) as A.
  destruct (alive_focus_bad _ _ _ _ A) as (Nc & O & _).
  eapply (wp_c_copy_assign x c w); [apply wfc_0; exact W|exact Nc|exact O| |].
  - intros w' c' _ _ _ _ _ _ _ Nw. rewrite storage_cblocks. exact Nw.
  - intros w' bk al e _ _ _. reflexivity.
Qed.
Example C61_assign_ex lay : let E := dE lay in
  reach (dw lay) [dc lay] [dx lay] /\ c_al (dx lay) <> c_al (dc lay) /\ done (c_copy_assign (dc lay) (dx lay, dw lay)) = true.
Proof.
  cbv zeta. csplit; [|demo_fact lay..]. apply r_weaken. eapply r_perm; [apply d_reach|apply perm_swap|constructor].
Qed.

Print Assumptions C61_one_owner.
Print Assumptions C61_step.
Print Assumptions C61_always.
Print Assumptions C61_move_al.
Print Assumptions C61_move_assign.
Print Assumptions C61_assign.
