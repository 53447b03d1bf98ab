(** * Callable elements (C50) and elements modified by algorithms (C57) *)

From Coq Require Import List Arith Lia Bool Permutation.
From Verif Require Import Base Vec Backend Segment Coll StdAlg Algo Access Callable Spec SpecAlg SpecAcc Reach ProofBase ProofVec ProofBackend ProofSeg ProofMap ProofView
  ProofAlgo ProofAlgo2 ProofAlgo7 ProofColl ProofReach ProofObs ProofProp ProofAccess Demo Properties6.
Import ListNotations.

(** ** C50 Callable wrappers *)

Section Facts.
Context {V : Type} {E : Env V} {S Args R : Type}.
Lemma wrapper_in (invoke : tyid -> Args -> M (V * S) R) ns n k : env_layout = SplitLayout -> vok ns -> In n ns -> k < bsize (sg_be (n_seg n)) ->
  wrapper_nodes invoke ns (be_ptr (sg_be (n_seg n)) k) = Some (cw_make invoke (n_ty n) (vptr (be_store (sg_be (n_seg n))) k)).
Proof.
  intros Lay W Hn Hk. assert (Wn : wfs (n_seg n)) by (destruct W as [A _ _]; rewrite Forall_forall in A; auto).
  assert (Hp : 0 < nblk n) by (eapply pblk_pos; [apply Wn|]; lia).
  assert (Bp : forall m : node V, nblk m = v_blk (be_index (sg_be (n_seg m)))) by (intros; unfold nblk, pblk; rewrite Lay; auto).
  rewrite be_ptr_eq. fold (nblk n). rewrite Bp in *. induction ns as [|m ns IH]; [destruct Hn|]. cbn [wrapper_nodes fst snd]. destruct Hn as [->|Hn].
  - rewrite Nat.eqb_refl. destruct Wn as [[_ Wb] _]. rewrite Lay in Wb. destruct Wb as (_ & Ei & _). rewrite Ei, entries_nth by lia. reflexivity.
  - destruct (Nat.eqb_spec (v_blk (be_index (sg_be (n_seg n)))) (v_blk (be_index (sg_be (n_seg m))))) as [Q|_].
    + exfalso. apply (vok_head_other m ns n W Hn); rewrite !Bp; auto.
    + apply IH; auto. eapply vok_tail; eauto.
Qed.
End Facts.

(** What an iterator of a function_collection refers to tells the dynamic type and the address
    of the element, under target(), data() and the conversion of iterators to pointers, and
    under the functions used by insert. *)
Theorem C50_target {V} {E : Env V} {S Args R} (invoke : tyid -> Args -> M (V * S) R) w c g d it t k p :
  reach w (c :: g) d -> env_layout = SplitLayout -> points c it t k -> addr_of c t k = Some p ->
  exists f, fc_deref invoke c it = Some f /\
    cw_bool f = true /\ cw_target_type f = t /\ cw_target t f = Some p /\ (forall U, U <> t -> cw_target U f = None) /\
    cw_data f = p /\ cwi_to invoke c it = Some p /\ fm_subtypeid f = t /\ fm_subaddress f = p.
Proof.
  intros H Lay (n & Hn & Et & -> & Hk) Ha. assert (W := reach_vok _ _ _ _ H). destruct (reach_wf w c g d H) as (Wf & _).
  assert (Q : fc_deref invoke c (mkiter (Some (n_id n)) (be_ptr (sg_be (n_seg n)) k)) = Some (cw_make invoke t p)).
  { unfold fc_deref. cbn [it_pos]. rewrite wrapper_in; auto. rewrite <- Et in *. change (sg_ty (n_seg n)) with (n_ty n) in *. do 2 f_equal.
    unfold addr_of in Ha. rewrite (seg_at_node c n) in Ha by (auto; apply Wf). destruct (Nat.ltb_spec k (length (elems_of (n_seg n)))); [|lia].
    injection Ha. auto. }
  exists (cw_make invoke t p). csplit; auto.
  - unfold cw_target. cbn. rewrite Nat.eqb_refl. reflexivity.
  - intros U Ne. unfold cw_target. cbn. destruct (Nat.eqb_spec U t); [contradiction|auto].
  - unfold cwi_to. rewrite Q. reflexivity.
Qed.
(** Elements are numbers [v]; calling one with [a] gives [v + a], adds 1 to the element, and
    throws if [a] is 0. *)
Definition add_call (t : tyid) (a : nat) : M (nat * list nat) nat :=
  fun vs => if a =? 0 then Exn (1 + fst vs, snd vs) UserExn else Ok (1 + fst vs, snd vs ++ [t]) (fst vs + a).
Example C50_target_ex : let E := dE SplitLayout in let c := dc SplitLayout in
  reach (dw SplitLayout) [c; dx SplitLayout] [] /\ env_layout = SplitLayout /\ points c (it_at c 2 1) 2 1 /\
  exists p, addr_of c 2 1 = Some p /\ option_map cw_data (fc_deref add_call c (it_at c 2 1)) = Some p.
Proof. cbv zeta. csplit; try demo_fact SplitLayout. eexists. split; vm_compute; reflexivity. Qed.

(** Calling what an iterator referred to in some state [c] calls the element itself, in any
    later (or that) state [c'] in which the element, now at index [k'], is still at the same
    address.  If the call changes the object, that element and no other changes.  Converting
    to a std::function makes no difference. *)
Theorem C50_call {V} {E : Env V} {S Args R} (invoke : tyid -> Args -> M (V * S) R) w c g d it t k f w' c' g' d' k' v :
  reach w (c :: g) d -> env_layout = SplitLayout -> points c it t k -> fc_deref invoke c it = Some f ->
  reach w' (c' :: g') d' -> addr_of c' t k' = addr_of c t k -> nth_error (elems c' t) k' = Some v ->
  (forall args cs, cw_function f args cs = cw_call f args cs) /\
  forall args s,
    match invoke t args (v, s) with
    | Ok (v', s') r => exists c'', cw_call f args (c', s) = Ok (c'', s') r /\
        updated c' c'' (offset (content c') t + k') [v'] /\ nth_error (elems c'' t) k' = Some v' /\ reach w' (c'' :: g') d'
    | Exn (v', s') e => exists c'', cw_call f args (c', s) = Exn (c'', s') e /\
        updated c' c'' (offset (content c') t + k') [v'] /\ nth_error (elems c'' t) k' = Some v' /\ reach w' (c'' :: g') d'
    | UB => cw_call f args (c', s) = UB
    end.
Proof.
  intros H Lay Hp Hf H' Ha Hv.
  assert (Hk : k < length (elems c t)).
  { destruct (reach_wf w c g d H) as (Wf & _). destruct Hp as (n & Hn & <- & _ & Hk). change (sg_ty (n_seg n)) with (n_ty n). rewrite (elems_node w c n); auto. apply Wf. }
  assert (Hk' : k' < length (elems c' t)) by (apply nth_error_Some; congruence).
  assert (Ht' : In t (types c')) by (destruct (in_dec Nat.eq_dec t (types c')) as [|N]; auto; exfalso; rewrite types_nodes in N; apply seg_of_none in N; unfold elems in Hk'; rewrite N in Hk'; cbn in Hk'; lia).
  destruct (reach_wf w' c' g' d' H') as (W' & O'). assert (Vo := reach_vok _ _ _ _ H').
  destruct (nth_error (refs c') (offset (content c') t + k')) as [r|] eqn:Q.
  2:{ exfalso. destruct (nth_flat w' c' g' d' t k' H' Hk') as [_ B]. apply nth_error_None in Q. rewrite refs_length, <- flat_length in Q. lia. }
  destruct (proj1 (nth_refs w' c' _ _ t k' r W' O' Ht' Hk') Q) as (A & B & C). rewrite Hv in B. injection B as B.
  rewrite Ha in C. destruct (C50_target invoke w c g d it t k (r_addr r) H Lay Hp C) as (f' & Hf' & _). assert (f' = f) as -> by congruence. 
  assert (Ef : f = cw_make invoke t (r_addr r)).
  { destruct Hp as (n & Hn & Et & -> & Hk0). unfold fc_deref in Hf. cbn [it_pos] in Hf. rewrite wrapper_in in Hf by (auto; eapply reach_vok; eauto).
    injection Hf as <-. rewrite <- Et in *. change (sg_ty (n_seg n)) with (n_ty n) in *. f_equal.
    unfold addr_of in C. rewrite (seg_at_node c n) in C by (auto; apply (reach_wf w c g d H)). destruct (Nat.ltb_spec k (length (elems_of (n_seg n)))); [|lia].
    injection C. auto. }
  rewrite Ef. split; [reflexivity|]. intros args s. unfold cw_call. cbn [cw_make cw_pt cw_px info tb_call]. unfold ref_call, on_obj.
  rewrite obj_at_refs; [|exact Vo|rewrite <- refs_nodes; eapply nth_error_In; eauto]. rewrite A, <- B, Nat.eqb_refl.
  assert (Up : forall v', let c'' := c_write (r_addr r) v' c' in
    updated c' c'' (offset (content c') t + k') [v'] /\ nth_error (elems c'' t) k' = Some v' /\ reach w' (c'' :: g') d').
  { intros v' c''. assert (Ud : updated c' c'' (offset (content c') t + k') [v']).
    { apply shape_updated; [apply write_shape|]. unfold c''. rewrite (refs_write_at c' _ r v' Vo Q), map_app. cbn [map r_val length app].
      rewrite firstn_map, skipn_map. do 4 f_equal. lia. }
    assert (Rc : reach w' (c'' :: g') d') by (apply write_reach; auto). csplit; auto.
    destruct (reach_wf w' c'' g' d' Rc) as (W'' & O''). assert (Hk'' : k' < length (elems c'' t)) by (rewrite (up_sizes _ _ _ _ Ud); auto).
    assert (Ht'' : In t (types c'')) by (rewrite (up_types _ _ _ _ Ud); auto).
    assert (Ec : offset (content c'') t = offset (content c') t).
    { destruct (write_shape (r_addr r) v' c') as [F _]. fold c'' in F. rewrite !content_nodes. clear - F. induction F as [|n n' l l' Al F IH]; auto. cbn [map offset].
      destruct Al as (_ & _ & Et & _ & _ & _ & _ & _ & _ & Es). unfold n_ty. rewrite Et. destruct (sg_ty (n_seg n) =? t); auto. }
    assert (Qr : nth_error (refs c'') (offset (content c'') t + k') = Some (mkref (r_ty r) v' (r_addr r))).
    { rewrite Ec. unfold c''. rewrite (refs_write_at c' _ r v' Vo Q). assert (L : offset (content c') t + k' < length (refs c')) by (apply nth_error_Some; congruence).
      rewrite nth_error_app2 by (rewrite firstn_length; lia). rewrite firstn_length, Nat.min_l, Nat.sub_diag by lia. reflexivity. }
    destruct (proj1 (nth_refs w' c'' _ _ t k' _ W'' O'' Ht'' Hk'') Qr) as (_ & Bv & _). exact Bv. }
  destruct (invoke t args (v, s)) as [[v' s'] x|[v' s'] e|]; auto.
  - exists (c_write (r_addr r) v' c'). split; [reflexivity|apply Up].
  - exists (c_write (r_addr r) v' c'). split; [reflexivity|apply Up].
Qed.
(** The wrapper is taken before the collection gets another segment, the call made after. *)
Definition late : coll nat * world := let E := dE SplitLayout in state (void (c_emplace 50 (SVal 4)) (dc SplitLayout, dw SplitLayout)).
Example C50_call_ex : let E := dE SplitLayout in let c := dc SplitLayout in
  reach (dw SplitLayout) [c; dx SplitLayout] [] /\ env_layout = SplitLayout /\ points c (it_at c 2 1) 2 1 /\
  reach (snd late) [fst late; dx SplitLayout] [] /\ addr_of (fst late) 2 1 = addr_of c 2 1 /\ nth_error (elems (fst late) 2) 1 = Some 9 /\
  exists f, fc_deref add_call c (it_at c 2 1) = Some f /\
    match cw_call f 5 (fst late, []) with Ok (c', s') r => r = 14 /\ elems c' 2 = [8; 10] /\ s' = [2] | _ => False end.
Proof.
  cbv zeta. csplit; try demo_fact SplitLayout; try match goal with |- _ = _ => vm_compute; reflexivity end.
  - eapply (r_call (E := dE SplitLayout)) with (w := dw SplitLayout) (c := dc SplitLayout) (m := void (c_emplace 50 (SVal 4))).
    + exact (d_reach SplitLayout).
    + eapply api_emplace. left. reflexivity.
    + vm_compute. reflexivity.
  - eexists. split; [vm_compute; reflexivity|]. vm_compute. auto.
Qed.

(** ** C57 Algorithms which modify elements *)

(** for_each with a function which modifies the elements it is passed: each element of the
    range is left as the function left it, the function having been called on each of them
    once and in order, up to the call which throws; nothing else changes. *)
Theorem C57_for_each {V} {E : Env V} w c g d Ts first last i j {S} (f : view V -> tyid -> M (V * S) unit) : reach w (c :: g) d ->
  located c first i -> located c last j -> i <= j ->
  visits (pc_for_each c Ts first last (through f)) c Ts i j (fun _ => f) 0 (fun _ => True) (fun c' => reach w (c' :: g) d).
Proof.
  intros H L1 L2 L. alg H L1 L2. apply visits_each; auto.
  - intros p v x. apply write_reach.
  - eapply same_mono; [|apply (for_each_ok c Ts W i j L B')]. auto.
Qed.
(** Adds 1 to the element, or 10 if it is passed as type 2, and throws if the element is [n]. *)
Definition bump (n : nat) (x : view nat) (_ : tyid) : M (nat * list nat) unit := fun vs =>
  if fst vs =? n then Exn (99, snd vs) UserExn
  else Ok (match fst x with Some 2 => 10 | _ => 1 end + fst vs, snd vs ++ [fst vs]) tt.
Definition vals_after {S A} (o : outcome (coll nat * S) A) : option (list (tyid * nat) * S) :=
  match o with Ok (c, s) _ => Some (flat c, s) | Exn (c, s) _ => Some (flat c, s) | UB => None end.
Example C57_for_each_ex lay : let E := dE lay in
  reach (dw lay) [dc lay; dx lay] [] /\ located (dc lay) (dfirst lay) 1 /\ located (dc lay) (dlast lay) 5 /\ 1 <= 5 /\
  vals_after (pc_for_each (dc lay) [3; 2] (dfirst lay) (dlast lay) (through (bump 0)) (dc lay, [])) =
    Some ([(1, 5); (1, 7); (1, 8); (2, 18); (2, 19); (4, 1)], [6; 7; 8; 9]) /\
  vals_after (pc_for_each (dc lay) [3; 2] (dfirst lay) (dlast lay) (through (bump 8)) (dc lay, [])) =
    Some ([(1, 5); (1, 7); (1, 8); (2, 99); (2, 9); (4, 1)], [6; 7]).
Proof. demo lay. Qed.

(** for_each_n *)
Theorem C57_for_each_n {V} {E : Env V} w c g d Ts first i n {S} (f : view V -> tyid -> M (V * S) unit) : reach w (c :: g) d ->
  located c first i -> i + n <= length (flat c) ->
  visits (pc_for_each_n c Ts first n (through f)) c Ts i (i + n) (fun _ => f) 0 (fun it => located c it (i + n)) (fun c' => reach w (c' :: g) d).
Proof.
  intros H L1 L. pose proof (aok_of _ _ _ _ H) as W. destruct (loc _ _ _ _ _ _ H L1) as [-> B]. rewrite flat_length in L.
  apply visits_each; auto; [intros p v x; apply write_reach|lia|].
  eapply same_mono; [|apply (for_each_n_ok c Ts W (through f) i n L)]. intros it u ->. eapply unloc; eauto.
Qed.
Example C57_for_each_n_ex lay : let E := dE lay in
  reach (dw lay) [dc lay; dx lay] [] /\ located (dc lay) (dfirst lay) 1 /\ 1 + 3 <= length (flat (dc lay)) /\
  vals_after (pc_for_each_n (dc lay) [3; 2] (dfirst lay) 3 (through (bump 0)) (dc lay, [])) =
    Some ([(1, 5); (1, 7); (1, 8); (2, 18); (2, 9); (4, 1)], [6; 7; 8]).
Proof. demo lay. Qed.

(** move: [f o] moves from the element and assigns to the position [o] of the output.  The
    positions are consecutive, and the one after them is returned. *)
Theorem C57_move {V} {E : Env V} w c g d Ts first last i j {S} (f : nat -> view V -> tyid -> M (V * S) unit) o : reach w (c :: g) d ->
  located c first i -> located c last j -> i <= j ->
  visits (pc_copy c Ts first last (fun o => through (f o)) o) c Ts i j f o (fun r => r = o + (j - i)) (fun c' => reach w (c' :: g) d).
Proof.
  intros H L1 L2 L. alg H L1 L2. apply visits_copy; auto.
  - intros p v x. apply write_reach.
  - unfold pc_copy. eapply same_mono; [|apply (generic_copy_ok c Ts W i j L B' (fun o xs => std_copy (fun o => through (f o)) xs o) o), copy_out].
    intros a b -> Q. exact Q.
Qed.
Definition take (o : nat) (_ : view nat) (_ : tyid) : M (nat * list (nat * nat)) unit := fun vs => Ok (0, snd vs ++ [(o, fst vs)]) tt.
Example C57_move_ex lay : let E := dE lay in
  reach (dw lay) [dc lay; dx lay] [] /\ located (dc lay) (dfirst lay) 1 /\ located (dc lay) (dlast lay) 5 /\ 1 <= 5 /\
  vals_after (pc_copy (dc lay) [3; 2] (dfirst lay) (dlast lay) (fun o => through (take o)) 7 (dc lay, [])) =
    Some ([(1, 5); (1, 0); (1, 0); (2, 0); (2, 0); (4, 1)], [(7, 6); (8, 7); (9, 8); (10, 9)]).
Proof. demo lay. Qed.

(** What [visits] says of an element of the range: it is left with the value the call gave it,
    the call being passed a reference to the element with the value it has had. *)
Theorem C57_elements {V} {E : Env V} {S} (f : nat -> view V -> tyid -> M (V * S) unit) c Ts i j o s vs s' a : 
  run_over f o (views c Ts i j) s = (vs, Ok s' a) -> length vs = length (views c Ts i j) /\
  forall k x, nth_error (views c Ts i j) k = Some x ->
    exists s0 s1 v b, f (o + k) x (r_ty (snd x)) (r_val (snd x), s0) = Ok (v, s1) b /\ nth_error vs k = Some v.
Proof.
  generalize (views c Ts i j). intros xs. revert o s vs. induction xs as [|x xs IH]; intros o s vs Q; cbn [run_over] in Q.
  - injection Q as <- <- _. split; auto. intros [|k] x; discriminate.
  - destruct (f o x (r_ty (snd x)) (r_val (snd x), s)) as [[v s1] b|[v s1] e|] eqn:Ef; try discriminate.
    destruct (run_over f (1 + o) xs s1) as [vs1 oc] eqn:Qv. injection Q as <- ->. destruct (IH _ _ _ Qv) as [L K]. split; [cbn; f_equal; auto|].
    intros [|k] y Hy.
    + injection Hy as <-. rewrite Nat.add_0_r. exists s, s1, v, b. auto.
    + destruct (K k y Hy) as (s0 & s2 & v2 & b2 & A & B). exists s0, s2, v2, b2. split; auto. rewrite <- A. f_equal. lia.
Qed.
Example C57_elements_ex lay : let E := dE lay in
  run_over (fun _ => bump 0) 0 (views (dc lay) [3; 2] 1 5) [] = ([7; 8; 18; 19], Ok [6; 7; 8; 9] tt).
Proof. demo lay. Qed.

Print Assumptions C50_target.
Print Assumptions C50_call.
Print Assumptions C57_for_each.
Print Assumptions C57_for_each_n.
Print Assumptions C57_move.
Print Assumptions C57_elements.
