(** * C72 Function objects with a state of their own *)

From Coq Require Import List Arith Lia Bool Permutation.
From Verif Require Import Base Vec Backend Segment Coll StdAlg Algo Spec SpecAlg SpecObj Functors Reach ProofBase ProofBackend ProofSeg ProofMap ProofView
  ProofAlgo ProofAlgo2 ProofAlgo3 ProofAlgo4 ProofAlgo5 ProofAlgo6 ProofColl ProofAlgo7 ProofObj ProofObj2 ProofObj3 ProofReach ProofObs ProofProp Demo Properties6.
Import ListNotations.

(** The object is called on all of [l], one after the other; it is the result. *)
Fixpoint called_on {S F X} (call : fcall S F X unit) (l : list X) (f : F) : M S F :=
  match l with
  | [] => ret f
  | x :: l' => r <- call f x ;; called_on call l' (fst r)
  end.

Lemma called_on_ok {S F X} (call : fcall S F X unit) l f : same_as (on_it f (std_for_each (applied call) l)) (called_on call l f) eq.
Proof.
  revert f. induction l as [|x l IH]; intros f s; cbn [std_for_each called_on]; [cbn; auto|].
  unfold on_it, bind. unfold applied at 1. cbn [fst snd]. destruct (call f x s) as [s' [f' []]|s' e|]; cbn [fst snd]; auto.
  exact (IH f' s').
Qed.
Lemma on_it_same {S F A B} (f : F) (m : M (F * S) A) (m' : M (F * S) B) R : same_as m m' R -> same_as (on_it f m) (on_it f m') eq.
Proof.
  intros H s. specialize (H (f, s)). unfold on_it. destruct (m (f, s)), (m' (f, s)); auto.
  - destruct H as [-> H]. auto.
  - destruct H as [-> H]. auto.
Qed.
Lemma on_it_copy {S F A} (f : F) (m : M (F * S) A) (P : A -> Prop) m' : same_as m m' (fun a (_ : unit) => P a) -> same_as (on_copy f m) (on_it f m') (fun a _ => P a).
Proof.
  intros H s. specialize (H (f, s)). unfold on_it, on_copy. destruct (m (f, s)), (m' (f, s)); auto.
  - destruct H as [-> H]. auto.
  - destruct H as [-> H]. auto.
Qed.

(** ** for_each, for_each_n *)

(** It is one and the same object which is called on all elements of the range, and for_each
    returns it. *)
Theorem C72_for_each {V} {E : Env V} w c g d Ts first last i j {S F} (call : fcall S F (view V) unit) f : reach w (c :: g) d ->
  located c first i -> located c last j -> i <= j ->
  same_as (pf_for_each c Ts first last call f) (called_on call (views c Ts i j) f) eq.
Proof.
  intros H L1 L2 L. eapply same_eq_r; [apply called_on_ok|]. eapply on_it_same. eapply C37_for_each; eauto.
Qed.
(** an object which counts its calls, and writes to a list the number of each call *)
Definition counter : fcall (list nat) nat (view nat) unit := fun f x s => Ok (s ++ [val x - f]) (S f, tt).
Example C72_for_each_ex lay : let E := dE lay in
  reach (dw lay) [dc lay; dx lay] [] /\ located (dc lay) (dfirst lay) 1 /\ located (dc lay) (dlast lay) 5 /\ 1 <= 5 /\
  pf_for_each (dc lay) [2] (dfirst lay) (dlast lay) counter 3 [] = Ok [3; 3; 3; 3] 7.
Proof. demo lay. Qed.

Theorem C72_for_each_n {V} {E : Env V} w c g d Ts first i n {S F} (call : fcall S F (view V) unit) f : reach w (c :: g) d ->
  located c first i -> i + n <= length (flat c) ->
  same_as (pf_for_each_n c Ts first n call f) (called_on call (views c Ts i (i + n)) f) (fun it _ => located c it (i + n)).
Proof.
  intros H L1 L. eapply same_eq_r; [apply called_on_ok|]. eapply on_it_copy with (P := fun it => located c it (i + n)).
  eapply C37_for_each_n; eauto.
Qed.
Example C72_for_each_n_ex lay : let E := dE lay in
  reach (dw lay) [dc lay; dx lay] [] /\ located (dc lay) (dfirst lay) 1 /\ 1 + 4 <= length (flat (dc lay)) /\
  pf_for_each_n (dc lay) [2] (dfirst lay) 4 counter 3 [] = Ok [3; 3; 3; 3] (it_at (dc lay) 4 0).
Proof. demo lay. Qed.

(** ** Objects which do not change when they are called

    For these the algorithms are the std algorithms, whatever state they share with others. *)
Theorem C72_constant_queries {V} {E : Env V} w c g d Ts first last i j {S F Y} (call : fcall S F (view V) bool) (call2 : fcall S F (view V * Y) bool) f bounded ys :
  reach w (c :: g) d -> located c first i -> located c last j -> i <= j ->
  constant call f -> constant call2 f ->
  let p := result call f in
  let p2 x y := result call2 f (x, y) in
  let l := views c Ts i j in
  same_as (pf_all_of c Ts first last call f) (std_all_of p l) eq /\
  same_as (pf_any_of c Ts first last call f) (std_any_of p l) eq /\
  same_as (pf_none_of c Ts first last call f) (std_none_of p l) eq /\
  same_as (pf_count_if c Ts first last call f) (std_count_if p l) eq /\
  same_as (pf_find_if c Ts first last call f) (std_find_if p l) (fun it k => located c it (i + k)) /\
  same_as (pf_find_if_not c Ts first last call f) (std_find_if_not p l) (fun it k => located c it (i + k)) /\
  same_as (pf_find_first_of c Ts first last ys call2 f) (std_find_first_of p2 ys l) (fun it k => located c it (i + k)) /\
  same_as (pf_mismatch bounded c Ts first last ys call2 f) ((if bounded then std_mismatch_to else std_mismatch) p2 l ys)
    (fun r k => located c (fst r) (i + k) /\ snd r = k) /\
  same_as (pf_equal bounded c Ts first last ys call2 f) ((if bounded then std_equal_to else std_equal) p2 l ys) eq /\
  same_as (pf_is_partitioned c Ts first last call f) (std_is_partitioned p l) eq.
Proof.
  intros H L1 L2 L K K2. cbv zeta. csplit.
  - eapply same_eq_l; [apply pf_all_of_const, K|]. eapply C38_all_of; eauto.
  - eapply same_eq_l; [apply pf_any_of_const, K|]. eapply C38_any_of; eauto.
  - eapply same_eq_l; [apply pf_none_of_const, K|]. eapply C38_none_of; eauto.
  - eapply same_eq_l; [apply pf_count_if_const, K|]. eapply C38_count_if; eauto.
  - eapply same_eq_l; [apply pf_find_if_const, K|]. eapply C39_find_if; eauto.
  - eapply same_eq_l; [apply pf_find_if_not_const, K|]. eapply C39_find_if_not; eauto.
  - eapply same_eq_l; [apply pf_find_first_of_const, K2|]. eapply C39_find_first_of; eauto.
  - eapply same_eq_l; [apply pf_mismatch_const, K2|]. eapply C41_mismatch; eauto.
  - eapply same_eq_l; [apply pf_equal_const, K2|]. eapply C41_equal; eauto.
  - eapply same_eq_l; [apply pf_is_partitioned_const, K|]. eapply C46_is_partitioned_calls; eauto.
Qed.
(** objects which hold a limit, and count their calls in a state outside *)
Definition above : fcall nat nat (view nat) bool := fun f x s => Ok (S s) (f, f <? val x).
Definition sum_above : fcall nat nat (view nat * nat) bool := fun f x s => Ok (S s) (f, f <? val (fst x) + snd x).
Example C72_constant_queries_ex lay : let E := dE lay in
  reach (dw lay) [dc lay; dx lay] [] /\ located (dc lay) (dfirst lay) 1 /\ located (dc lay) (dlast lay) 5 /\ 1 <= 5 /\
  constant above 6 /\ constant sum_above 6 /\
  pf_count_if (dc lay) [2] (dfirst lay) (dlast lay) above 6 0 = Ok 4 3.
Proof. cbv zeta. csplit; try (demo_fact lay); intros x s s' r Q; injection Q as <- <-; reflexivity. Qed.

Theorem C72_constant_copies {V} {E : Env V} w c g d Ts first last i j {S F Y O N} (call : fcall S F (view V) bool) (op : fcall S F (view V) O)
    (op2 : fcall S F (view V * Y) O) f (new : N) put put1 puto putn ys o oo :
  reach w (c :: g) d -> located c first i -> located c last j -> i <= j ->
  constant call f -> constant op f -> constant op2 f ->
  let p := result call f in
  let l := views c Ts i j in
  same_as (pf_copy_if c Ts first last put call f o) (std_copy_if p put l o) eq /\
  same_as (pf_remove_copy_if c Ts first last put call f o) (std_remove_copy_if p put l o) eq /\
  same_as (pf_replace_copy_if c Ts first last putn call f new o) (std_replace_copy_if p new putn l o) eq /\
  same_as (pf_partition_copy c Ts first last put put1 call f oo) (std_partition_copy p put put1 l oo) eq /\
  same_as (pf_transform c Ts first last puto op f o) (std_transform (result op f) puto l o) eq /\
  same_as (pf_transform2 c Ts first last ys puto op2 f o) (std_transform2 (fun x y => result op2 f (x, y)) puto l ys o) eq.
Proof.
  intros H L1 L2 L K K1 K2. cbv zeta. csplit.
  - eapply same_eq_l; [apply pf_copy_if_const, K|]. eapply C44_copy_if; eauto.
  - eapply same_eq_l; [apply pf_remove_copy_if_const, K|]. eapply C44_remove_copy_if; eauto.
  - eapply same_eq_l; [apply pf_replace_copy_if_const, K|]. eapply C44_replace_copy_if; eauto.
  - eapply same_eq_l; [apply pf_partition_copy_const, K|]. eapply C44_partition_copy; eauto.
  - eapply same_eq_l; [apply pf_transform_const, K1|]. eapply C44_transform; eauto.
  - eapply same_eq_l; [apply pf_transform2_const, K2|]. eapply C44_transform_binary; eauto.
Qed.
Definition plus_limit : fcall nat nat (view nat) nat := fun f x s => Ok (S s) (f, f + val x).
Definition plus_both : fcall nat nat (view nat * nat) nat := fun f x s => Ok (S s) (f, f + val (fst x) + snd x).
Example C72_constant_copies_ex lay : let E := dE lay in
  reach (dw lay) [dc lay; dx lay] [] /\ located (dc lay) (dfirst lay) 1 /\ located (dc lay) (dlast lay) 5 /\ 1 <= 5 /\
  constant above 6 /\ constant plus_limit 6 /\ constant plus_both 6 /\
  pf_copy_if (dc lay) [2] (dfirst lay) (dlast lay) (fun o x s => Ok (s + o) tt) above 6 0 0 = Ok 7 3.
Proof. cbv zeta. csplit; try (demo_fact lay); intros x s s' r Q; injection Q as <- <-; reflexivity. Qed.

(** The other algorithms are, for such objects, those which C40, C42, C43, C44 and C46 are about. *)
Theorem C72_constant_others {V} {E : Env V} c Ts first last {S F Y} (call : fcall S F (view V) bool) (call2 : fcall S F (view V * Y) bool)
    (call3 : fcall S F (view V * (view V + Y)) bool) (call4 : fcall S F (view V * view V) bool) f bounded ys n put o :
  constant call f -> constant call2 f -> constant call3 f -> constant call4 f ->
  same_as (pf_partition_point c Ts first last call f) (pc_partition_point c Ts first last (result call f)) eq /\
  same_as (pf_search_n c Ts first last n call f) (pc_search_n c Ts first last n (result call f)) eq /\
  same_as (pf_search c Ts first last ys call2 f) (pc_search c Ts first last ys (fun x y => result call2 f (x, y))) eq /\
  same_as (pf_find_end c Ts first last ys call2 f) (pc_find_end c Ts first last ys (fun x y => result call2 f (x, y))) eq /\
  same_as (pf_is_permutation bounded c Ts first last ys call3 f) (pc_is_permutation bounded c Ts first last ys (fun x y => result call3 f (x, y))) eq /\
  same_as (pf_adjacent_find c Ts first last call4 f) (pc_adjacent_find c Ts first last (fun x y => result call4 f (x, y))) eq /\
  same_as (pf_unique_copy c Ts first last put call4 f o) (pc_unique_copy c Ts first last put (fun x y => result call4 f (x, y)) o) eq.
Proof.
  intros K K2 K3 K4. csplit.
  - apply pf_partition_point_const, K.
  - apply pf_search_n_const, K.
  - apply pf_search_const, K2.
  - apply pf_find_end_const, K2.
  - apply pf_is_permutation_const, K3.
  - apply pf_adjacent_find_const, K4.
  - apply pf_unique_copy_const, K4.
Qed.
Definition value_of (z : view nat + nat) : nat := match z with inl x => val x | inr y => y end.
Definition close : fcall nat nat (view nat * (view nat + nat)) bool := fun f x s => Ok (S s) (f, val (fst x) =? value_of (snd x) + f).
Definition same_half : fcall nat nat (view nat * view nat) bool := fun f x s => Ok (S s) (f, val (fst x) / f =? val (snd x) / f).
Example C72_constant_others_ex lay : let E := dE lay in
  reach (dw lay) [dc lay; dx lay] [] /\ constant above 2 /\ constant sum_above 2 /\ constant close 2 /\ constant same_half 2 /\
  pf_search (dc lay) [2] (dfirst lay) (dlast lay) [1; 0] sum_above 7 0 = Ok 3 (it_at (dc lay) 1 2) /\
  pf_adjacent_find (dc lay) [] (dfirst lay) (dlast lay) same_half 2 0 = Ok 1 (it_at (dc lay) 1 1).
Proof. cbv zeta. csplit; try (demo_fact lay); intros x s s' r Q; injection Q as <- <-; reflexivity. Qed.

(** ** Objects which do change

    What the std algorithm does on the range is done here on each of the longest runs of
    elements of the same type, each time with a copy of the object which was passed. *)
Theorem C72_copies_queries {V} {E : Env V} w c g d Ts first last i j {S F Y} (call : fcall S F (view V) bool) (call2 : fcall S F (view V * Y) bool) f bounded ys :
  reach w (c :: g) d -> located c first i -> located c last j -> i <= j ->
  let p := applied call in
  let p2 x y := applied call2 (x, y) in
  let runs := by_type (views c Ts i j) in
  same_as (pf_all_of c Ts first last call f) (std_all_of (fun l => on_copy f (std_all_of p l)) runs) eq /\
  same_as (pf_any_of c Ts first last call f) (std_any_of (fun l => on_copy f (std_any_of p l)) runs) eq /\
  same_as (pf_none_of c Ts first last call f) (std_all_of (fun l => on_copy f (std_none_of p l)) runs) eq /\
  same_as (pf_count_if c Ts first last call f) (sum_parts (fun l => on_copy f (std_count_if p l)) runs) eq /\
  same_as (pf_find_if c Ts first last call f)
    (find_parts (fun t l => k <- on_copy f (std_find_if p l) ;; ret (t, k)) tt runs) (fun it r => located c it (i + snd r)) /\
  same_as (pf_find_if_not c Ts first last call f)
    (find_parts (fun t l => k <- on_copy f (std_find_if_not p l) ;; ret (t, k)) tt runs) (fun it r => located c it (i + snd r)) /\
  same_as (pf_find_first_of c Ts first last ys call2 f)
    (find_parts (fun t l => k <- on_copy f (std_find_first_of p2 ys l) ;; ret (t, k)) tt runs) (fun it r => located c it (i + snd r)) /\
  same_as (pf_mismatch bounded c Ts first last ys call2 f)
    (find_parts (fun ys l => k <- on_copy f ((if bounded then std_mismatch_to else std_mismatch) p2 l ys) ;; ret (skipn k ys, k)) ys runs)
    (fun r r' => located c (fst r) (i + snd r') /\ snd r = length ys - length (fst r')).
Proof.
  intros H L1 L2 L. cbv zeta. assert (ND : NoDup (types c)).
  { destruct (reach_wf w c g d H) as (Wf & _). rewrite types_nodes. apply Wf. }
  alg H L1 L2. destruct (split_parts c W i j L B' ND) as (ps & Q & C & NDp).
  assert (FB : forall (alg : list (view V) -> M S nat), same_as (alg []) (ret 0) eq -> idx_le0 alg ->
    same_as (find_by c Ts alg (at_ (c_nodes c) i) (at_ (c_nodes c) j)) (find_parts (fun t l => k <- alg l ;; ret (t, k)) tt (by_type (views c Ts i j)))
      (fun it r => located c it (i + snd r))).
  { intros alg H0 Hle. eapply same_eq_r; [apply bind_ret_r|].
    unfold find_by, generic_find. rewrite Q, lift_some.
    eapply same_bind; [apply (find_segs_ok c Ts W); auto|].
    - intros t. eapply same_eq_l; [eapply same_bind; [apply H0|intros x x' ->; apply same_eq]|]. rewrite bind_ret_l. apply same_eq.
    - intros t l. eapply same_bind; [apply Hle|]. intros k k' [<- Hk]. apply same_ret. auto.
    - intros r r' (_ & -> & Lr). apply same_ret. eapply unloc; [exact H|lia]. }
  csplit.
  - unfold pf_all_of. rewrite Q, lift_some. apply (all_segs_ok c Ts W); auto. apply on_copy_ret.
  - unfold pf_any_of. rewrite Q, lift_some. apply (any_segs_ok c Ts W); auto. apply on_copy_ret.
  - unfold pf_none_of. rewrite Q, lift_some. apply (all_segs_ok c Ts W); auto. apply on_copy_ret.
  - unfold pf_count_if. rewrite Q, lift_some. eapply same_eq_l; [apply (count_segs_ok c Ts W _ ps i j 0); auto; apply on_copy_ret|]. apply bind_ret_r.
  - apply FB; [apply on_copy_ret|]. intros l. apply on_copy_same. eapply idx_le0_ext; [apply find_if_go|apply go_le].
  - apply FB; [apply on_copy_ret|]. intros l. apply on_copy_same. eapply idx_le0_ext; [apply find_if_not_go|apply go_le].
  - apply FB; [apply on_copy_ret|]. intros l. apply on_copy_same. eapply idx_le0_ext; [apply find_first_of_go|apply go_le].
  - assert (Ea : forall ys l, same_as (on_copy f (mismatch_alg bounded (fun x y => applied call2 (x, y)) ys l))
      (k <- on_copy f ((if bounded then std_mismatch_to else std_mismatch) (fun x y => applied call2 (x, y)) l ys) ;; ret (skipn k ys, k))
      (fun r r' => r = r' /\ snd r <= length l)).
    { intros ys0 l. eapply same_eq_l; [apply same_sym_eq, bind_ret_r|]. eapply same_bind; [apply on_copy_same, mismatch_alg_spec|].
      intros r k (-> & Kl & _). apply same_ret. auto. }
    unfold pf_mismatch, generic_find. rewrite Q, lift_some. eapply same_eq_r; [apply bind_ret_r|].
    eapply same_bind; [eapply same_eq_l; [apply find_loop_ext, at_index_ext; intros ys0 l; eapply same_mono; [|apply Ea]; intros r r' [-> _]; reflexivity|]|].
    + apply (find_segs_ok c Ts W); auto.
      * intros ys0. eapply same_eq_l; [eapply same_bind with (R := eq); [|intros x x' ->; apply same_eq]|].
        { destruct bounded, ys0; apply on_copy_ret. }
        rewrite bind_ret_l. apply same_eq.
      * intros ys0 l. eapply same_trans; [apply same_sym, Ea|apply Ea|]. cbn beta. intros r k r' (<- & Hk) (-> & _). auto.
    + intros r r' (E1 & E2 & E3). apply same_ret. cbn [fst snd]. rewrite E1, E2. split; auto. eapply unloc; [exact H|lia].
Qed.
(** a predicate which is satisfied by the first [f] elements it is called on *)
Definition first_few : fcall nat nat (view nat) bool := fun f x s => Ok (S s) (pred f, 0 <? f).
Definition first_two : fcall nat nat (view nat * nat) bool := fun f x s => Ok (S s) (pred f, 0 <? f).
Example C72_copies_queries_ex lay : let E := dE lay in
  reach (dw lay) [dc lay; dx lay] [] /\ located (dc lay) (dfirst lay) 1 /\ located (dc lay) (dlast lay) 5 /\ 1 <= 5 /\
  map (map val) (by_type (views (dc lay) [2] 1 5)) = [[6; 7]; [8; 9]] /\
  pf_count_if (dc lay) [2] (dfirst lay) (dlast lay) first_few 1 0 = Ok 4 2 /\
  pf_mismatch true (dc lay) [2] (dfirst lay) (dlast lay) [0; 0; 0] first_two 2 0 = Ok 3 (it_at (dc lay) 2 1, 3).
Proof. demo lay. Qed.

Theorem C72_copies_outputs {V} {E : Env V} w c g d Ts first last i j {S F O N} (call : fcall S F (view V) bool) (op : fcall S F (view V) O)
    f (new : N) put put1 puto putn o oo :
  reach w (c :: g) d -> located c first i -> located c last j -> i <= j ->
  let p := applied call in
  let runs := by_type (views c Ts i j) in
  same_as (pf_copy_if c Ts first last put call f o)
    (hand_on (fun o l => on_copy f (std_copy_if p (fun o x => aside (put o x)) l o)) o runs) eq /\
  same_as (pf_remove_copy_if c Ts first last put call f o)
    (hand_on (fun o l => on_copy f (std_remove_copy_if p (fun o x => aside (put o x)) l o)) o runs) eq /\
  same_as (pf_replace_copy_if c Ts first last putn call f new o)
    (hand_on (fun o l => on_copy f (std_replace_copy_if p new (fun o x => aside (putn o x)) l o)) o runs) eq /\
  same_as (pf_partition_copy c Ts first last put put1 call f oo)
    (hand_on (fun oo l => on_copy f (std_partition_copy p (fun o x => aside (put o x)) (fun o x => aside (put1 o x)) l oo)) oo runs) eq /\
  same_as (pf_transform c Ts first last puto op f o)
    (hand_on (fun o l => on_copy f (std_transform (applied op) (fun o x => aside (puto o x)) l o)) o runs) eq.
Proof.
  intros H L1 L2 L. cbv zeta. assert (ND : NoDup (types c)).
  { destruct (reach_wf w c g d H) as (Wf & _). rewrite types_nodes. apply Wf. }
  alg H L1 L2. destruct (split_parts c W i j L B' ND) as (ps & Q & C & NDp).
  csplit.
  - unfold pf_copy_if, generic_copy. rewrite Q, lift_some. apply (copy_segs_ok c Ts W); auto. intros t. apply on_copy_ret.
  - unfold pf_remove_copy_if, generic_copy. rewrite Q, lift_some. apply (copy_segs_ok c Ts W); auto. intros t. apply on_copy_ret.
  - unfold pf_replace_copy_if. eapply same_eq_l; [apply generic_copy_ext; intros t xs; apply on_copy_same, replace_copy_spec|].
    unfold generic_copy. rewrite Q, lift_some. apply (copy_segs_ok c Ts W); auto. intros t. apply on_copy_ret.
  - unfold pf_partition_copy, generic_copy. rewrite Q, lift_some. apply (copy_segs_ok c Ts W); auto. intros t. apply on_copy_ret.
  - unfold pf_transform, generic_copy. rewrite Q, lift_some. apply (copy_segs_ok c Ts W); auto. intros t. apply on_copy_ret.
Qed.
Example C72_copies_outputs_ex lay : let E := dE lay in
  reach (dw lay) [dc lay; dx lay] [] /\ located (dc lay) (dfirst lay) 1 /\ located (dc lay) (dlast lay) 5 /\ 1 <= 5 /\
  pf_copy_if (dc lay) [2] (dfirst lay) (dlast lay) (fun o x s => Ok (s + o) tt) first_few 1 0 5 = Ok 10 2.
Proof. demo lay. Qed.

(** equal makes the calls mismatch makes.  search and find_end do so from one position after the
    other; is_partitioned continues with new copies after the first element which does not
    satisfy the predicate; partition_point calls a copy of the object which was passed for each
    element it looks at. *)
Theorem C72_copies_others {V} {E : Env V} w c g d Ts first last i j {S F Y O} (call : fcall S F (view V) bool) (call2 : fcall S F (view V * Y) bool)
    (op2 : fcall S F (view V * Y) O) f bounded ys puto o :
  reach w (c :: g) d -> located c first i -> located c last j -> i <= j ->
  let p := applied call in
  let p2 x y := applied call2 (x, y) in
  let l := views c Ts i j in
  let compare bounded := find_parts (fun ys l => k <- on_copy f ((if bounded : bool then std_mismatch_to else std_mismatch) p2 l ys) ;; ret (skipn k ys, k)) ys in
  let matches l := r <- compare true (by_type l) ;; ret (length (fst r) =? 0) in
  same_as (pf_equal bounded c Ts first last ys call2 f)
    (r <- compare bounded (by_type l) ;; ret ((snd r =? length l) && (negb bounded || (length (fst r) =? 0)))) eq /\
  same_as (pf_search c Ts first last ys call2 f) (first_match matches l) (fun it k => located c it (i + k)) /\
  same_as (pf_find_end c Ts first last ys call2 f) (if length ys =? 0 then ret j else last_match matches l i j) (fun it k => located c it k) /\
  same_as (pf_is_partitioned c Ts first last call f)
    (r <- find_parts (fun t l => k <- on_copy f (std_find_if_not p l) ;; ret (t, k)) tt (by_type l) ;;
     std_all_of (fun l => on_copy f (std_none_of p l)) (by_type (skipn (1 + snd r) l))) eq /\
  same_as (pf_partition_point c Ts first last call f) (pc_partition_point c Ts first last (result call f)) eq /\
  same_as (pf_transform2 c Ts first last ys puto op2 f o)
    (r <- hand_on (fun t l => n <- on_copy f (std_transform2 (fun x y => applied op2 (x, y)) (fun o x => aside (puto o x)) l (snd t) (fst t)) ;;
                              ret (n, skipn (length l) (snd t))) (o, ys) (by_type l) ;; ret (fst r)) eq.
Proof.
  intros H L1 L2 L. cbv zeta. assert (ND : NoDup (types c)).
  { destruct (reach_wf w c g d H) as (Wf & _). rewrite types_nodes. apply Wf. }
  alg H L1 L2. destruct (split_parts c W i j L B' ND) as (ps & Q & C & NDp). csplit.
  - eapply same_eq_l; [apply (equal_parts c Ts W ND bounded call2 f ys i j L B')|]. rewrite views_length by lia. apply same_eq.
  - eapply same_mono; [|apply (search_parts c Ts W ND call2 f ys j B' i L)]. cbn beta. intros it k [-> Hk]. eapply unloc; [exact H|lia].
  - eapply same_mono; [|apply (find_end_parts c Ts W ND call2 f ys j B' i L)]. cbn beta. intros it k [-> Hk]. eapply unloc; [exact H|lia].
  - apply (is_partitioned_parts c Ts W ND call f i j L B').
  - apply partition_point_copies.
  - unfold pf_transform2. eapply same_bind with (R := eq); [|intros r r' ->; apply same_eq].
    eapply same_eq_l; [apply generic_copy_ext with (alg' := fun t l => n <- on_copy f (std_transform2 (fun x y => applied op2 (x, y)) (fun o x => aside (puto o x)) l (snd t) (fst t)) ;; ret (n, skipn (length l) (snd t)))|].
    + intros [o' ys'] l. eapply same_eq_l; [apply on_copy_same, transform2_part|apply on_copy_bind].
    + unfold generic_copy. rewrite Q, lift_some. apply (copy_segs_ok c Ts W); auto. intros [o' ys']. cbn [std_transform2 fst snd length skipn].
      eapply same_eq_l; [eapply same_bind; [apply on_copy_ret|intros x x' ->; apply same_eq]|]. rewrite bind_ret_l. apply same_eq.
Qed.
Example C72_copies_others_ex lay : let E := dE lay in
  reach (dw lay) [dc lay; dx lay] [] /\ located (dc lay) (dfirst lay) 1 /\ located (dc lay) (dlast lay) 5 /\ 1 <= 5 /\
  pf_equal true (dc lay) [2] (dfirst lay) (dlast lay) [0; 0; 0; 0] first_two 2 0 = Ok 4 true /\
  pf_search (dc lay) [2] (dfirst lay) (dlast lay) [0; 0] first_two 1 0 = Ok 4 (it_at (dc lay) 1 2) /\
  pf_is_partitioned (dc lay) [2] (dfirst lay) (dlast lay) first_few 1 0 = Ok 3 false.
Proof. demo lay. Qed.

(** search_n, unique_copy and is_permutation.  search_n hands on from type to type how many of the
    elements before satisfied the predicate. *)
Theorem C72_copies_rest {V} {E : Env V} w c g d Ts first last i j {S F Y} (call : fcall S F (view V) bool) (call2 : fcall S F (view V * view V) bool)
    (call3 : fcall S F (view V * (view V + Y)) bool) f n bounded ys put o :
  reach w (c :: g) d -> located c first i -> located c last j -> i <= j ->
  let l := views c Ts i j in
  let compare := find_parts (fun ys l => k <- on_copy f ((if bounded : bool then std_mismatch_to else std_mismatch) (fun x y => applied call3 (x, inr y)) l ys) ;;
                                         ret (skipn k ys, k)) ys in
  (0 < n -> same_as (pf_search_n c Ts first last n call f) (find_parts (fun r l => on_copy f (run_to n (applied call) r l)) 0 (by_type l))
     (fun it t => located c it (i + if fst t =? n then 1 + snd t - n else length l))) /\
  pf_search_n c Ts first last 0 call f = ret first /\
  same_as (pf_unique_copy c Ts first last put call2 f o) (unique_parts call2 f put None o (by_type l)) eq /\
  same_as (pf_is_permutation bounded c Ts first last ys call3 f)
    (r <- compare (by_type l) ;;
     let l' := skipn (snd r) l in
     if bounded then if length l' =? length (fst r) then perm_parts call3 f (fst r) [] l' else ret false
     else if length l' <=? length (fst r) then perm_parts call3 f (firstn (length l') (fst r)) [] l' else ub) eq.
Proof.
  intros H L1 L2 L. cbv zeta. assert (ND : NoDup (types c)).
  { destruct (reach_wf w c g d H) as (Wf & _). rewrite types_nodes. apply Wf. }
  alg H L1 L2. csplit.
  - intros Ln. eapply same_mono; [|apply (search_n_parts c Ts W ND call f n Ln i j L B')]. cbn beta. intros it t [-> Ht].
    rewrite views_length by lia. eapply unloc; [exact H|]. destruct (_ =? _); lia.
  - reflexivity.
  - apply (unique_copy_parts c Ts W ND call2 f put o i j L B').
  - apply (is_permutation_parts c Ts W ND bounded call3 f ys i j L B').
Qed.
(** predicates which are satisfied by all but the first [f] elements, resp. pairs, they are called on *)
Definition but_few : fcall nat nat (view nat) bool := fun f x s => Ok (S s) (pred f, f <=? 0).
Definition but_few2 : fcall nat nat (view nat * view nat) bool := fun f x s => Ok (S s) (pred f, f <=? 0).
Example C72_copies_rest_ex lay : let E := dE lay in
  reach (dw lay) [dc lay; dx lay] [] /\ located (dc lay) (dfirst lay) 1 /\ located (dc lay) (dlast lay) 5 /\ 1 <= 5 /\ 0 < 2 /\
  pf_search_n (dc lay) [2] (dfirst lay) (dlast lay) 2 but_few 0 0 = Ok 2 (dfirst lay) /\
  pf_search_n (dc lay) [2] (dfirst lay) (dlast lay) 2 but_few 1 0 = Ok 4 (dlast lay) /\
  pf_search_n (dc lay) [2] (dfirst lay) (dlast lay) 2 first_few 1 0 = Ok 4 (dlast lay) /\
  pf_unique_copy (dc lay) [2] (dfirst lay) (dlast lay) (fun o x s => Ok (s + 10) tt) but_few2 1 0 0 = Ok 43 4 /\
  pf_is_permutation true (dc lay) [2] (dfirst lay) (dlast lay) [8; 9; 6; 7] close 0 0 = Ok 33 true.
Proof. demo lay. Qed.

(** adjacent_find; as in C40, unless the storage of a segment of a base_collection begins where that
    of another one ends. *)
Theorem C72_copies_adjacent_find {V} {E : Env V} w c g d Ts first last i j {S F} (call : fcall S F (view V * view V) bool) f :
  reach w (c :: g) d -> located c first i -> located c last j -> i <= j -> env_layout = SplitLayout \/ separate c ->
  same_as (pf_adjacent_find c Ts first last call f) (adjacent_parts call f (by_type (views c Ts i j))) (fun it k => located c it (i + k)).
Proof.
  intros H L1 L2 L Ap. assert (ND : NoDup (types c)).
  { destruct (reach_wf w c g d H) as (Wf & _). rewrite types_nodes. apply Wf. }
  alg H L1 L2. eapply same_mono; [|apply (adjacent_find_parts c Ts W ND call f (apart_of _ _ _ _ H Ap) i j L B')]. at_off H.
Qed.
Example C72_copies_adjacent_find_ex lay : let E := dE lay in
  reach (dw lay) [dc lay; dx lay] [] /\ located (dc lay) (dfirst lay) 1 /\ located (dc lay) (dlast lay) 5 /\ 1 <= 5 /\ separate (dc lay) /\
  pf_adjacent_find (dc lay) [2] (dfirst lay) (dlast lay) but_few2 1 0 = Ok 3 (dlast lay).
Proof. demo lay. Qed.

(** So in a range of elements of one type, also objects which change give what std gives. *)
Theorem C72_one_type {V} {E : Env V} w c g d Ts first last i j {S F} (call : fcall S F (view V) bool) f put o t :
  reach w (c :: g) d -> located c first i -> located c last j -> i <= j ->
  Forall (fun x => r_ty (snd x) = t) (views c Ts i j) ->
  let p := applied call in
  let l := views c Ts i j in
  same_as (pf_all_of c Ts first last call f) (on_copy f (std_all_of p l)) eq /\
  same_as (pf_any_of c Ts first last call f) (on_copy f (std_any_of p l)) eq /\
  same_as (pf_none_of c Ts first last call f) (on_copy f (std_none_of p l)) eq /\
  same_as (pf_count_if c Ts first last call f) (on_copy f (std_count_if p l)) eq /\
  same_as (pf_copy_if c Ts first last put call f o) (on_copy f (std_copy_if p (fun o x => aside (put o x)) l o)) eq.
Proof.
  intros H L1 L2 L Ft. cbv zeta.
  destruct (C72_copies_queries w c g d Ts first last i j call (fun f (x : view V * unit) => ret (f, true)) f true [] H L1 L2 L) as (A1 & A2 & A3 & A4 & _).
  destruct (C72_copies_outputs w c g d Ts first last i j (O := unit) (N := unit) call (fun f (x : view V) => ret (f, tt)) f tt put put (fun _ _ => ret tt) (fun _ _ => ret tt) o (0, 0) H L1 L2 L) as (A5 & _).
  assert (D : {views c Ts i j = []} + {views c Ts i j <> []}) by (destruct (views c Ts i j); [left|right]; congruence).
  destruct D as [Z|Z].
  - rewrite Z in *. cbn [by_type std_all_of std_any_of sum_parts hand_on] in *.
    csplit; (eapply same_eq_l; [first [exact A1|exact A2|exact A3|exact A4|exact A5]|]); apply same_sym_eq, on_copy_ret.
  - rewrite (by_type_one _ t Z Ft) in *. cbn [std_all_of std_any_of sum_parts hand_on] in *. csplit.
    + eapply same_eq_l; [exact A1|]. eapply same_eq_r; [apply bind_ret_r|]. apply same_bind_eq. intros [|]; apply same_eq.
    + eapply same_eq_l; [exact A2|]. eapply same_eq_r; [apply bind_ret_r|]. apply same_bind_eq. intros [|]; apply same_eq.
    + eapply same_eq_l; [exact A3|]. eapply same_eq_r; [apply bind_ret_r|]. apply same_bind_eq. intros [|]; apply same_eq.
    + eapply same_eq_l; [exact A4|]. eapply same_eq_r; [apply bind_ret_r|]. apply same_bind_eq. intros n. rewrite bind_ret_l. apply same_ret. lia.
    + eapply same_eq_l; [exact A5|]. apply bind_ret_r.
Qed.
Example C72_one_type_ex lay : let E := dE lay in
  reach (dw lay) [dc lay; dx lay] [] /\ located (dc lay) (it_at (dc lay) 1 0) 0 /\ located (dc lay) (it_at (dc lay) 2 0) 3 /\ 0 <= 3 /\
  Forall (fun x => r_ty (snd x) = 1) (views (dc lay) [2] 0 3) /\
  pf_count_if (dc lay) [2] (it_at (dc lay) 1 0) (it_at (dc lay) 2 0) first_few 2 0 = Ok 3 2.
Proof. cbv zeta. csplit; try (demo_fact lay). destruct lay; vm_compute; repeat constructor. Qed.

Lemma one_part {S X T} (alg : T -> list X -> M S (T * nat)) t l : same_as (find_parts alg t [l]) (alg t l) eq.
Proof.
  cbn [find_parts]. eapply same_eq_r; [apply bind_ret_r|]. apply same_bind_eq. intros [t' k]. cbn [fst snd].
  destruct (Nat.eqb_spec k (length l)) as [->|]; [|apply same_eq]. rewrite bind_ret_l. apply same_ret. cbn [fst snd]. f_equal. lia.
Qed.
Theorem C72_one_type_others {V} {E : Env V} w c g d Ts first last i j {S F Y O N} (call : fcall S F (view V) bool) (call2 : fcall S F (view V * Y) bool)
    (call3 : fcall S F (view V * view V) bool) (op : fcall S F (view V) O) f bounded ys (new : N) put put1 puto putn o oo t :
  reach w (c :: g) d -> located c first i -> located c last j -> i <= j ->
  Forall (fun x => r_ty (snd x) = t) (views c Ts i j) ->
  let p := applied call in
  let p2 x y := applied call2 (x, y) in
  let p3 x y := applied call3 (x, y) in
  let l := views c Ts i j in
  same_as (pf_find_if c Ts first last call f) (on_copy f (std_find_if p l)) (fun it k => located c it (i + k)) /\
  same_as (pf_find_if_not c Ts first last call f) (on_copy f (std_find_if_not p l)) (fun it k => located c it (i + k)) /\
  same_as (pf_find_first_of c Ts first last ys call2 f) (on_copy f (std_find_first_of p2 ys l)) (fun it k => located c it (i + k)) /\
  same_as (pf_mismatch bounded c Ts first last ys call2 f) (on_copy f ((if bounded then std_mismatch_to else std_mismatch) p2 l ys))
    (fun r k => located c (fst r) (i + k) /\ snd r = k) /\
  same_as (pf_remove_copy_if c Ts first last put call f o) (on_copy f (std_remove_copy_if p (fun o x => aside (put o x)) l o)) eq /\
  same_as (pf_replace_copy_if c Ts first last putn call f new o) (on_copy f (std_replace_copy_if p new (fun o x => aside (putn o x)) l o)) eq /\
  same_as (pf_partition_copy c Ts first last put put1 call f oo)
    (on_copy f (std_partition_copy p (fun o x => aside (put o x)) (fun o x => aside (put1 o x)) l oo)) eq /\
  same_as (pf_transform c Ts first last puto op f o) (on_copy f (std_transform (applied op) (fun o x => aside (puto o x)) l o)) eq /\
  same_as (pf_unique_copy c Ts first last put call3 f o) (on_copy f (std_unique_copy p3 (fun o x => aside (put o x)) l o)) eq /\
  (env_layout = SplitLayout \/ separate c ->
   same_as (pf_adjacent_find c Ts first last call3 f) (on_copy f (std_adjacent_find p3 l)) (fun it k => located c it (i + k))).
Proof.
  intros H L1 L2 L Ft. cbv zeta.
  destruct (C72_copies_queries w c g d Ts first last i j call call2 f bounded ys H L1 L2 L) as (_ & _ & _ & _ & A1 & A2 & A3 & A4).
  destruct (C72_copies_outputs w c g d Ts first last i j call op f new put put1 puto putn o oo H L1 L2 L) as (_ & A5 & A6 & A7 & A8).
  destruct (C72_copies_rest (Y := unit) w c g d Ts first last i j call call3 (fun f _ => ret (f, true)) f 0 bounded [] put o H L1 L2 L) as (_ & _ & A9 & _).
  assert (A10 := C72_copies_adjacent_find w c g d Ts first last i j call3 f H L1 L2 L).
  assert (Pt : forall (alg : list (view V) -> M S nat), same_as (alg []) (ret 0) eq ->
    same_as (find_parts (fun t l => k <- alg l ;; ret (t, k)) tt (by_type (views c Ts i j))) (alg (views c Ts i j)) (fun r k => snd r = k)).
  { intros alg H0. destruct (views c Ts i j) as [|x l] eqn:Ev.
    - cbn [by_type find_parts]. eapply same_trans; [apply same_ret with (R := fun (r : unit * nat) k => snd r = k); reflexivity|apply same_sym_eq, H0|]. intros r k k' <- <-. reflexivity.
    - rewrite (by_type_one (x :: l) t ltac:(congruence) Ft). eapply same_trans; [apply one_part| |].
      + eapply same_eq_r; [apply bind_ret_r|]. apply same_bind_eq. intros k. apply (same_ret (tt, k) k (fun r k => snd r = k)). reflexivity.
      + cbn beta. intros a b k -> <-. reflexivity. }
  assert (Ps : forall {T} (alg : T -> list (view V) -> M S T) t0, same_as (alg t0 []) (ret t0) eq ->
    same_as (hand_on alg t0 (by_type (views c Ts i j))) (alg t0 (views c Ts i j)) eq).
  { intros T alg t0 H0. destruct (views c Ts i j) as [|x l] eqn:Ev.
    - apply same_sym_eq, H0.
    - rewrite (by_type_one (x :: l) t ltac:(congruence) Ft). cbn [hand_on]. apply bind_ret_r. }
  csplit.
  - eapply same_trans; [exact A1|apply Pt, on_copy_ret|]. cbn beta. intros it r k Hit <-. exact Hit.
  - eapply same_trans; [exact A2|apply Pt, on_copy_ret|]. cbn beta. intros it r k Hit <-. exact Hit.
  - eapply same_trans; [exact A3|apply Pt, on_copy_ret|]. cbn beta. intros it r k Hit <-. exact Hit.
  - eapply same_trans with (R' := fun r k => snd r = k /\ fst r = skipn k ys /\ k <= length ys); [exact A4| |].
    + assert (Mm : forall l, same_as (k <- on_copy f ((if bounded then std_mismatch_to else std_mismatch) (fun x y => applied call2 (x, y)) l ys) ;; ret (skipn k ys, k))
        (on_copy f ((if bounded then std_mismatch_to else std_mismatch) (fun x y => applied call2 (x, y)) l ys)) (fun r k => snd r = k /\ fst r = skipn k ys /\ k <= length ys)).
      { intros l. eapply same_eq_r; [apply bind_ret_r|]. eapply same_bind with (R := fun k k' => k = k' /\ k <= length ys).
        - apply on_copy_same. eapply same_trans; [apply same_sym, mismatch_alg_spec|apply mismatch_alg_spec|]. cbn beta. intros a r b (-> & _ & K1) (Q & _ & K2). injection Q as _ Q. auto.
        - intros k k' [<- Hk]. apply same_ret. auto. }
      destruct (views c Ts i j) as [|x l] eqn:Ev.
      * cbn [by_type find_parts]. eapply same_trans; [|apply Mm|]; [|intros r r' k <- Hr; exact Hr].
        apply same_sym_eq. eapply same_eq_l; [eapply same_bind with (R := eq); [|intros k k' ->; apply same_eq]|].
        { destruct bounded, ys; apply on_copy_ret. }
        rewrite bind_ret_l. apply same_eq.
      * rewrite (by_type_one (x :: l) t ltac:(congruence) Ft). eapply same_trans; [apply one_part|apply Mm|]. intros r r' k -> Hr. exact Hr.
    + cbn beta. intros r r' k [R1 R2] (<- & R3 & R4). split; auto. rewrite R2, R3, skipn_length. lia.
  - eapply same_eq_l; [exact A5|]. apply Ps, on_copy_ret.
  - eapply same_eq_l; [exact A6|]. apply Ps, on_copy_ret.
  - eapply same_eq_l; [exact A7|]. apply Ps, on_copy_ret.
  - eapply same_eq_l; [exact A8|]. apply Ps, on_copy_ret.
  - eapply same_eq_l; [exact A9|]. destruct (views c Ts i j) as [|x l] eqn:Ev; [apply same_sym_eq, on_copy_ret|].
    rewrite (by_type_one (x :: l) t ltac:(congruence) Ft). cbn [unique_parts]. rewrite bind_ret_l. apply bind_ret_r.
  - intros Ap. eapply same_trans; [exact (A10 Ap)| |intros it k k' Hit <-; exact Hit].
    destruct (views c Ts i j) as [|x l] eqn:Ev; [apply same_sym_eq, on_copy_ret|].
    rewrite (by_type_one (x :: l) t ltac:(congruence) Ft). cbn [adjacent_parts]. eapply same_eq_r; [apply bind_ret_r|].
    eapply same_bind; [apply on_copy_same, adj_le|]. intros k k' [<- Hk]. destruct (Nat.eqb_spec k (length (x :: l))) as [->|]; [|apply same_eq].
    assert (Z : match rev (x :: l) with [] | _ => ret false end = ret (S := S) false) by (destruct (rev (x :: l)); auto).
    rewrite Z, !bind_ret_l. apply same_ret. lia.
Qed.
Example C72_one_type_others_ex lay : let E := dE lay in
  reach (dw lay) [dc lay; dx lay] [] /\ located (dc lay) (it_at (dc lay) 1 0) 0 /\ located (dc lay) (it_at (dc lay) 2 0) 3 /\ 0 <= 3 /\
  Forall (fun x => r_ty (snd x) = 1) (views (dc lay) [2] 0 3) /\ separate (dc lay) /\
  pf_find_if_not (dc lay) [2] (it_at (dc lay) 1 0) (it_at (dc lay) 2 0) first_few 2 0 = Ok 3 (it_at (dc lay) 1 2) /\
  pf_adjacent_find (dc lay) [2] (it_at (dc lay) 1 0) (it_at (dc lay) 2 0) but_few2 1 0 = Ok 2 (it_at (dc lay) 1 1).
Proof. cbv zeta. csplit; try (demo_fact lay). destruct lay; vm_compute; repeat constructor. Qed.

(** In general they do not: the first element is counted twice here, once for each type. *)
Theorem C72_count_if_differs : exists (E : Env nat) w c g d first last i j (call : fcall nat nat (view nat) bool) f,
  reach w (c :: g) d /\ located c first i /\ located c last j /\ i <= j /\
  pf_count_if c [] first last call f 0 = Ok (j - i) 2 /\
  on_copy f (std_count_if (applied call) (views c [] i j)) 0 = Ok (j - i) 1.
Proof.
  exists (dE PackedLayout). pose (E := dE PackedLayout).
  exists (dw PackedLayout), (dc PackedLayout), [dx PackedLayout], [], (dfirst PackedLayout), (dlast PackedLayout), 1, 5, first_few, 1.
  csplit; try (demo_fact PackedLayout).
Qed.

Print Assumptions C72_for_each.
Print Assumptions C72_for_each_n.
Print Assumptions C72_constant_queries.
Print Assumptions C72_constant_copies.
Print Assumptions C72_constant_others.
Print Assumptions C72_copies_queries.
Print Assumptions C72_copies_outputs.
Print Assumptions C72_copies_others.
Print Assumptions C72_copies_rest.
Print Assumptions C72_copies_adjacent_find.
Print Assumptions C72_one_type.
Print Assumptions C72_one_type_others.
Print Assumptions C72_count_if_differs.
