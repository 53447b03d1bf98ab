(** * Exceptions have documented causes (C59) *)

From Coq Require Import List Arith Lia Bool Permutation.
From Verif Require Import Base Vec Backend Segment Coll Spec Reach SpecFail ProofBase ProofVec ProofBackend ProofSeg ProofMap ProofView ProofColl
  ProofRange ProofReach ProofObs ProofProp ProofProp2 ProofProp3 ProofProp4 ProofProp5 ProofFail Demo.
Import ListNotations.

(** ** C59 Nothing throws without a reason *)

(** Whichever member function is called on whichever reachable collection: if it throws, it is
    because an allocation or a function of the element type failed during the call; or the type
    of the exception is unregistered and the call needs it; or an element which must be copied
    cannot; or a size limit is exceeded.  See [cause] in SpecFail.v.  *)
Theorem C59_cause {V} {E : Env V} w c g d m safe new vals : reach w (c :: g) d -> api g c m safe new vals ->
  wp m (c, w) (fun _ _ => True) (fun '(c', w') e => cause m c vals w w' e).
Proof. exact (api_cause w c g d m safe new vals). Qed.
Example C59_cause_ex lay : let E := dE lay in let c := dc lay in
  reach (dw lay) [c; dx lay] [] /\
  (exists safe new vals, api [dx lay] c (void (c_insert (mkarg 50 51 true false HCopy (SVal 3)))) safe new vals) /\
  (exists safe new vals, api [dx lay] c (c_clear_info 50) safe new vals) /\
  c_clear_info 50 (c, dw lay) = Exn (c, dw lay) (UnregisteredType 5) /\ types c <> [].
Proof.
  cbv zeta. csplit; [demo_fact lay| | |demo_fact lay..].
  - do 3 eexists. refine (api_insert (E := dE lay) _ _ _ 3 _ _); [discriminate|left; reflexivity].
  - do 3 eexists. apply (api_clear_info (E := dE lay)).
Qed.

(** A call which inserts nothing into a collection whose elements are moved and assigned without exceptions
    never lets an exception of an element through: memory may run out, and nothing else fails. *)
Theorem C59_no_element_exception {V} {E : Env V} w c g d m safe new : reach w (c :: g) d -> api g c m safe new [] ->
  (forall t, elems c t <> [] -> quiet t = true) ->
  wp m (c, w) (fun _ _ => True) (fun _ e => e <> UserExn).
Proof.
  intros H A Qt. eapply wp_mono; [exact (api_cause w c g d m safe new [] H A)|auto|].
  intros [c' w'] e Ca ->. cbn in Ca. destruct Ca as (_ & t & [[]|(Ne & Nq)]). rewrite Qt in Nq by exact Ne. discriminate.
Qed.
(** dx holds elements of the types 1, 6 and 7. *)
Example C59_no_element_exception_ex lay : let E := dE lay in let c := dx lay in
  reach (dw lay) [c; dc lay] [] /\ (exists safe new, api [dc lay] c (c_reserve_all 5) safe new []) /\
  (forall t, elems c t <> [] -> quiet t = true) /\ elems c 1 = [5; 6; 7].
Proof.
  assert (D : forall t, elems (dx lay) t = match t with 1 => [5; 6; 7] | 6 => [3] | 7 => [4] | _ => [] end).
  { intros t. unfold elems, seg_of. rewrite dx_content. destruct lay; destruct t as [|[|[|[|[|[|[|[|t]]]]]]]]; reflexivity. }
  cbv zeta. csplit; [| | |apply D].
  - eapply r_perm; [apply d_reach|apply perm_swap|apply Permutation_refl].
  - do 2 eexists. apply (api_reserve (E := dE lay)).
  - intros t. rewrite D. destruct t as [|[|[|[|[|[|[|[|t]]]]]]]]; intros Ne; try congruence; reflexivity.
Qed.

(** In particular a program whose allocations and element functions do not fail, which stays
    below the limits, registers its types and has copyable elements sees no exceptions - except
    by naming unregistered types in clear, shrink_to_fit and reserve, or by asking reserve for
    too much. *)
Theorem C59_no_failure {V} {E : Env V} w c g d m safe new vals : reach w (c :: g) d -> api g c m safe new vals ->
  (forall k, env_fault k = false) ->
  (forall t, elems c t <> [] \/ In t (map fst vals) -> env_copyable t = true) ->
  incl (map fst vals) (types c) ->
  (forall t, ~ too_big t (1 + length (elems c t) + length (of_type t vals))) ->
  wp m (c, w) (fun _ _ => True)
    (fun _ e => (exists a, info_call m a /\ ~ In (env_ty a) (types c) /\ e = UnregisteredType (env_ty a)) \/
                (exists t n, room_call m t n /\ too_big t n /\ e = LengthError)).
Proof.
  intros H A Nf Cp Inc Fit. eapply wp_mono; [exact (api_cause w c g d m safe new vals H A)|auto|].
  intros [c' w'] e Ca. destruct e as [| | |t|t|t]; cbn in Ca.
  - destruct Ca as (k & _ & F). rewrite Nf in F. discriminate.
  - destruct Ca as (t & n & B & [L|R]); [|right; exists t, n; auto]. exfalso. apply (Fit t).
    destruct B as [B|(S & B)]; [left; lia|right; split; auto; lia].
  - destruct Ca as ((k & _ & F) & _). rewrite Nf in F. discriminate.
  - destruct Ca as (N & [I|(_ & a & <- & C)]); [exfalso; apply N, Inc; auto|]. left. exists a. auto.
  - destruct Ca as (N & I). rewrite Cp in N; [discriminate|exact I].
  - destruct Ca.
Qed.
Example C59_no_failure_ex lay : let E := dE lay in let c := dc lay in
  reach (dw lay) [c; dx lay] [] /\
  (exists safe new, api [dx lay] c (void (c_insert (mkarg 11 21 true false HCopy (SVal 3)))) safe new [(2, 3)]) /\
  (forall k, env_fault k = false) /\ (forall t, elems c t <> [] \/ In t (map fst [(2, 3)]) -> env_copyable t = true) /\
  incl (map fst [(2, 3)]) (types c) /\ (forall t, ~ too_big t (1 + length (elems c t) + length (of_type t [(2, 3)]))).
Proof.
  assert (D : forall t, elems (dc lay) t = match t with 1 => [5; 6; 7] | 2 => [8; 9] | 4 => [1] | _ => [] end).
  { intros t. unfold elems, seg_of. rewrite dc_content. destruct lay; destruct t as [|[|[|[|[|t]]]]]; reflexivity. }
  cbv zeta. csplit; [demo_fact lay| | | | |].
  - do 2 eexists. refine (api_insert (E := dE lay) _ _ (mkarg 11 21 true false HCopy (SVal 3)) 3 _ _); [discriminate|left; reflexivity].
  - intros k. destruct lay; reflexivity.
  - intros t [N|[<-|[]]]; [|destruct lay; reflexivity]. rewrite D in N. destruct t as [|[|[|[|t]]]]; try (destruct lay; reflexivity). congruence.
  - destruct lay; vm_compute; intros t [<-|[]]; auto.
  - intros t. rewrite D. destruct t as [|[|[|[|[|[|[|[|t]]]]]]]]; intros [L|(_ & L)]; destruct lay; vm_compute in L; lia.
Qed.

(** The functions declared noexcept do not throw: clear(); begin(), end(), size(), empty() and
    is_registered() are total functions in the model and need no statement.  Swapping and moving
    do not throw either. *)
Theorem C59_noexcept {V} {E : Env V} w c y g d : reach w (c :: y :: g) d ->
  wp c_clear (c, w) (fun _ _ => True) (fun _ _ => False) /\
  wp c_move (c, w) (fun _ _ => True) (fun _ _ => False) /\
  (env_pocs = true \/ c_al c = c_al y -> wp c_swap ((c, y), w) (fun _ _ => True) (fun _ _ => False)) /\
  wp (c_destroy c) w (fun _ _ => True) (fun _ _ => False).
Proof.
  intros H. csplit.
  - eapply wp_mono; [eapply spec_clear; eauto|auto|auto].
  - eapply wp_mono; [eapply spec_move; eauto|auto|auto].
  - intros Q. eapply wp_mono; [eapply (spec_swap w g d c y H Q)|auto|auto].
  - destruct (reach_wf _ _ _ _ H) as (W & O). eapply (wp_c_destroy c w _ _); [exact (wfc_nodes0 _ _ W)|exact O|auto].
Qed.
Example C59_noexcept_ex lay : let E := dE lay in reach (dw lay) [dc lay; dx lay] [] /\ env_pocs = true.
Proof. demo lay. Qed.

Print Assumptions C59_cause.
Print Assumptions C59_no_element_exception.
Print Assumptions C59_no_failure.
Print Assumptions C59_noexcept.
