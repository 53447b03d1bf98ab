(** * Function objects with a state of their own: proofs *)

From Coq Require Import List Arith Bool Lia.
From Verif Require Import Base Vec Backend Segment Coll StdAlg Algo Spec SpecAlg SpecObj Functors
  ProofBase ProofVec ProofBackend ProofOps ProofOps2 ProofSeg ProofMap ProofView ProofAlgo ProofAlgo2 ProofAlgo3 ProofAlgo4 ProofAlgo5 ProofAlgo6 ProofColl ProofAlgo7.
Import ListNotations.

(** ** Copies *)
Section Copy.
Context {S F : Type}.
Lemma on_copy_same {A B} (f : F) (m : M (F * S) A) (m' : M (F * S) B) R :
  same_as m m' R -> same_as (on_copy f m) (on_copy f m') R.
Proof.
  intros H s. specialize (H (f, s)). unfold on_copy. destruct (m (f, s)), (m' (f, s)); auto.
  - destruct H as [-> H]. auto.
  - destruct H as [-> H]. auto.
Qed.
Lemma on_copy_ret {A} (f : F) (a : A) : same_as (S := S) (on_copy f (ret a)) (ret a) eq.
Proof. intros s. cbn. auto. Qed.
Lemma on_copy_bind {A B} (f : F) (m : M (F * S) A) (k : A -> B) :
  same_as (on_copy f (a <- m ;; ret (k a))) (a <- on_copy f m ;; ret (k a)) eq.
Proof. intros s. unfold on_copy, bind, ret. destruct (m (f, s)); auto. Qed.

(** [m] leaves the object [f] as it is, and otherwise does what [m'] does *)
Definition steady {A} (f : F) (m : M (F * S) A) (m' : M S A) : Prop :=
  forall s, match m (f, s), m' s with
            | Ok s1 a, Ok s2 b => fst s1 = f /\ snd s1 = s2 /\ a = b
            | Exn s1 e1, Exn s2 e2 => snd s1 = s2 /\ e1 = e2
            | UB, UB => True
            | _, _ => False
            end.
Lemma steady_copy {A} f (m : M (F * S) A) m' : steady f m m' -> same_as (on_copy f m) m' eq.
Proof.
  intros H s. specialize (H s). unfold on_copy. destruct (m (f, s)), (m' s); auto.
  destruct H as (_ & -> & ->). auto.
Qed.
Lemma steady_ret {A} f (a : A) : steady f (ret a) (ret a).
Proof. intros s. cbn. auto. Qed.
Lemma steady_ub {A} f : steady (A := A) f ub ub.
Proof. intros s. exact I. Qed.
Lemma steady_bind {A B} f (m : M (F * S) A) m' (k : A -> M (F * S) B) k' :
  steady f m m' -> (forall a, steady f (k a) (k' a)) -> steady f (bind m k) (bind m' k').
Proof.
  intros H K s. specialize (H s). unfold bind. destruct (m (f, s)) as [[f1 s1] a|[f1 s1] e|], (m' s) as [s2 b|s2 e2|]; auto; try contradiction.
  cbn [fst snd] in H. destruct H as (-> & -> & ->). apply K.
Qed.
Lemma steady_call {X R} f (call : fcall S F X R) x : constant call f -> steady f (applied call x) (result call f x).
Proof.
  intros H s. unfold applied, result, bind, ret. cbn [fst snd]. destruct (call f x s) as [s' [f' r]|s' e|] eqn:Q; auto.
  apply H in Q. cbn [fst snd] in *. auto.
Qed.
Lemma steady_aside {A} f (m : M S A) : steady f (aside m) m.
Proof. intros s. unfold aside. cbn [fst snd]. destruct (m s); auto. Qed.
End Copy.

Ltac steady_tac H :=
  repeat first [exact (steady_ret _ _) | exact (steady_ub _) | exact (steady_call _ _ _ H) | exact (steady_aside _ _) | assumption
              | apply steady_bind; [|intros ?] | match goal with |- steady _ (if ?b then _ else _) _ => destruct b end | match goal with IH : forall _, _ |- _ => apply IH end].

Section Steady.
Context {S F X : Type} (call : fcall S F X bool) (f : F) (H : constant call f).
Notation p := (applied call).
Notation p' := (result call f).
Lemma all_of_steady l : steady f (std_all_of p l) (std_all_of p' l).
Proof. induction l; cbn [std_all_of]; steady_tac H. Qed.
Lemma any_of_steady l : steady f (std_any_of p l) (std_any_of p' l).
Proof. induction l; cbn [std_any_of]; steady_tac H. Qed.
Lemma none_of_steady l : steady f (std_none_of p l) (std_none_of p' l).
Proof. induction l; cbn [std_none_of]; steady_tac H. Qed.
Lemma count_if_steady l : steady f (std_count_if p l) (std_count_if p' l).
Proof. induction l; cbn [std_count_if]; steady_tac H. Qed.
Lemma find_if_steady l : steady f (std_find_if p l) (std_find_if p' l).
Proof. induction l; cbn [std_find_if]; steady_tac H. Qed.
Lemma find_if_not_steady l : steady f (std_find_if_not p l) (std_find_if_not p' l).
Proof. induction l; cbn [std_find_if_not]; steady_tac H. Qed.
Lemma copy_if_steady put l o : steady f (std_copy_if p (fun o x => aside (put o x)) l o) (std_copy_if p' put l o).
Proof. revert o. induction l; intros o; cbn [std_copy_if]; steady_tac H. Qed.
Lemma remove_copy_if_steady put l o : steady f (std_remove_copy_if p (fun o x => aside (put o x)) l o) (std_remove_copy_if p' put l o).
Proof. revert o. induction l; intros o; cbn [std_remove_copy_if]; steady_tac H. Qed.
Lemma partition_copy_steady put1 put2 l o :
  steady f (std_partition_copy p (fun o x => aside (put1 o x)) (fun o x => aside (put2 o x)) l o) (std_partition_copy p' put1 put2 l o).
Proof. revert o. induction l; intros o; cbn [std_partition_copy]; steady_tac H. Qed.
End Steady.
Lemma transform_steady {S F X O} (call : fcall S F X O) f put l o : constant call f ->
  steady f (std_transform (applied call) (fun o x => aside (put o x)) l o) (std_transform (result call f) put l o).
Proof. intros H. revert o. induction l; intros o; cbn [std_transform]; steady_tac H. Qed.

Section Steady2.
Context {S F X Y : Type} (call : fcall S F (X * Y) bool) (f : F) (H : constant call f).
Notation p := (fun x y => applied call (x, y)).
Notation p' := (fun x y => result call f (x, y)).
Lemma any_of2_steady x ys : steady f (std_any_of2 p x ys) (std_any_of2 p' x ys).
Proof. induction ys; cbn [std_any_of2]; steady_tac H. Qed.
Lemma find_first_of_steady ys l : steady f (std_find_first_of p ys l) (std_find_first_of p' ys l).
Proof. induction l; cbn [std_find_first_of]; [steady_tac H|]. apply steady_bind; [apply any_of2_steady|]. intros b. steady_tac H. Qed.
End Steady2.

Section SteadyV.
Context {V S F : Type}.
Section S1.
Context (call : fcall S F (view V) bool) (f : F) (H : constant call f).
Notation p := (applied call).
Notation p' := (result call f).
Lemma replace_copy_steady {N} (new : N) put o l :
  steady f (replace_copy_alg p new (fun o x => aside (put o x)) o l) (replace_copy_alg p' new put o l).
Proof. revert o. induction l; intros o; cbn [replace_copy_alg]; steady_tac H. Qed.
Lemma search_n_steady n l k m c r : steady f (search_n_scan n p l k m c r) (search_n_scan n p' l k m c r).
Proof. revert k m c r. induction l; intros k m c r; cbn [search_n_scan]; cbv zeta; steady_tac H. Qed.
End S1.
Section S2.
Context {Y : Type} (call : fcall S F (view V * Y) bool) (f : F) (H : constant call f).
Notation p := (fun x y => applied call (x, y)).
Notation p' := (fun x y => result call f (x, y)).
Lemma mismatch_steady bounded ys (l : list (view V)) : steady f (mismatch_alg bounded p ys l) (mismatch_alg bounded p' ys l).
Proof. revert ys. induction l; intros [|y ys]; cbn [mismatch_alg]; steady_tac H. Qed.
Lemma equal_steady bounded ys (l : list (view V)) : steady f (equal_alg bounded p ys l) (equal_alg bounded p' ys l).
Proof. revert ys. induction l; intros [|y ys]; cbn [equal_alg]; steady_tac H. Qed.
End S2.
Lemma transform2_steady {Y O} (call : fcall S F (view V * Y) O) f put t (l : list (view V)) : constant call f ->
  steady f (transform2_alg (fun x y => applied call (x, y)) (fun o x => aside (put o x)) t l)
    (transform2_alg (fun x y => result call f (x, y)) put t l).
Proof. intros H. revert t. induction l; intros [o [|y ys]]; cbn [transform2_alg fst snd]; steady_tac H. Qed.
Section S3.
Context (call : fcall S F (view V * view V) bool) (f : F) (H : constant call f).
Notation p := (fun x y => applied call (x, y)).
Notation p' := (fun x y => result call f (x, y)).
Lemma adjacent_find_steady l : steady f (std_adjacent_find p l) (std_adjacent_find p' l).
Proof. induction l as [|x [|y l] IH]; cbn [std_adjacent_find]; steady_tac H. Qed.
Lemma skip_same_steady x l : steady f (skip_same (fun y => applied call (x, y)) l) (skip_same (fun y => result call f (x, y)) l).
Proof. induction l; cbn [skip_same]; steady_tac H. Qed.
Lemma unique_after_steady put x l o : steady f (std_unique_copy_after p (fun o x => aside (put o x)) x l o) (std_unique_copy_after p' put x l o).
Proof. revert x o. induction l; intros x o; cbn [std_unique_copy_after]; steady_tac H. Qed.
Lemma unique_copy_steady put l o : steady f (std_unique_copy p (fun o x => aside (put o x)) l o) (std_unique_copy p' put l o).
Proof. destruct l; cbn [std_unique_copy]; steady_tac H. apply unique_after_steady. Qed.
End S3.
End SteadyV.

(** ** The loops over the segments *)
Section Loops.
Context {V : Type} {E : Env V} {S F : Type}.
Notation seg_range := (list (view V)).

Lemma all_segs_ext c Ts (alg alg' : seg_range -> M S bool) ps : (forall xs, same_as (alg xs) (alg' xs) eq) ->
  same_as (all_segs c Ts alg ps) (all_segs c Ts alg' ps) eq.
Proof.
  intros H. induction ps as [|i ps IH]; cbn [all_segs]; [apply same_eq|]. apply same_bind_eq. intros xs.
  eapply same_bind; [apply H|]. intros b b' ->. destruct b'; auto. apply same_eq.
Qed.
Lemma any_segs_ext c Ts (alg alg' : seg_range -> M S bool) ps : (forall xs, same_as (alg xs) (alg' xs) eq) ->
  same_as (any_segs c Ts alg ps) (any_segs c Ts alg' ps) eq.
Proof.
  intros H. induction ps as [|i ps IH]; cbn [any_segs]; [apply same_eq|]. apply same_bind_eq. intros xs.
  eapply same_bind; [apply H|]. intros b b' ->. destruct b'; auto. apply same_eq.
Qed.
Lemma count_segs_ext c Ts (alg alg' : seg_range -> M S nat) ps r : (forall xs, same_as (alg xs) (alg' xs) eq) ->
  same_as (count_segs c Ts alg ps r) (count_segs c Ts alg' ps r) eq.
Proof.
  intros H. revert r. induction ps as [|i ps IH]; intros r; cbn [count_segs]; [apply same_eq|]. apply same_bind_eq. intros xs.
  eapply same_bind; [apply H|]. intros b b' ->. apply IH.
Qed.
Lemma equal_segs_ext {Y} c Ts (alg alg' : list Y -> seg_range -> M S (list Y * bool)) ps ys : (forall ys xs, same_as (alg ys xs) (alg' ys xs) eq) ->
  same_as (equal_segs c Ts alg ys ps) (equal_segs c Ts alg' ys ps) eq.
Proof.
  intros H. revert ys. induction ps as [|i ps IH]; intros ys; cbn [equal_segs]; [apply same_eq|]. apply same_bind_eq. intros xs.
  eapply same_bind; [apply H|]. intros b b' ->. destruct (snd b'); [apply IH|apply same_eq].
Qed.
Lemma find_loop_ext {T} c Ts (alg alg' : T -> piece -> seg_range -> M S (T * (nat * ptr))) last ps t :
  (forall t i xs, same_as (alg t i xs) (alg' t i xs) eq) ->
  same_as (generic_find_loop c Ts alg t last ps) (generic_find_loop c Ts alg' t last ps) eq.
Proof.
  intros H. revert t. induction ps as [|i ps IH]; intros t; cbn [generic_find_loop]; [apply same_eq|]. apply same_bind_eq. intros xs.
  eapply same_bind; [apply H|]. intros b b' ->. destruct (lbi_eq _ _ _); [apply IH|apply same_eq].
Qed.
Lemma generic_find_ext {T} c Ts (alg alg' : T -> piece -> seg_range -> M S (T * (nat * ptr))) first last t :
  (forall t i xs, same_as (alg t i xs) (alg' t i xs) eq) ->
  same_as (generic_find c Ts alg t first last) (generic_find c Ts alg' t first last) eq.
Proof. intros H. unfold generic_find. apply same_bind_eq. intros ps. apply find_loop_ext. auto. Qed.
Lemma at_index_ext {T} c Ts (alg alg' : T -> seg_range -> M S (T * nat)) : (forall t xs, same_as (alg t xs) (alg' t xs) eq) ->
  forall t i xs, same_as (at_index c Ts alg t i xs) (at_index c Ts alg' t i xs) eq.
Proof. intros H t i xs. unfold at_index. eapply same_bind; [apply H|]. intros r r' ->. apply same_eq. Qed.
Lemma find_by_ext c Ts (alg alg' : seg_range -> M S nat) first last : (forall xs, same_as (alg xs) (alg' xs) eq) ->
  same_as (find_by c Ts alg first last) (find_by c Ts alg' first last) eq.
Proof.
  intros H. unfold find_by. eapply same_bind.
  - apply generic_find_ext. apply at_index_ext. intros t xs. eapply same_bind; [apply H|]. intros k k' ->. apply same_eq.
  - intros r r' ->. apply same_eq.
Qed.
Lemma generic_copy_ext {T} c Ts (alg alg' : T -> seg_range -> M S T) first last t :
  (forall t xs, same_as (alg t xs) (alg' t xs) eq) ->
  same_as (generic_copy c Ts alg first last t) (generic_copy c Ts alg' first last t) eq.
Proof.
  intros H. unfold generic_copy. apply same_bind_eq. intros ps. revert t.
  induction ps as [|i ps IH]; intros t; cbn [generic_copy_loop]; [apply same_eq|]. apply same_bind_eq. intros xs.
  eapply same_bind; [apply H|]. intros b b' ->. apply IH.
Qed.

(** *** Objects which calls do not change *)
Section Const1.
Context (c : coll V) (Ts : list tyid) (call : fcall S F (view V) bool) (f : F) (H : constant call f).
Lemma pf_all_of_const first last : same_as (pf_all_of c Ts first last call f) (pc_all_of c Ts first last (result call f)) eq.
Proof.
  unfold pf_all_of, pc_all_of. apply same_bind_eq. intros ps.
  eapply same_eq_l; [apply all_segs_ext; intros xs; apply steady_copy, all_of_steady, H|].
  induction ps as [|i ps IH]; cbn [all_segs all_of_loop]; [apply same_eq|]. apply same_bind_eq. intros xs.
  apply same_bind_eq. intros [|]; auto. apply same_eq.
Qed.
Lemma pf_any_of_const first last : same_as (pf_any_of c Ts first last call f) (pc_any_of c Ts first last (result call f)) eq.
Proof.
  unfold pf_any_of, pc_any_of. apply same_bind_eq. intros ps.
  eapply same_eq_l; [apply any_segs_ext; intros xs; apply steady_copy, any_of_steady, H|].
  induction ps as [|i ps IH]; cbn [any_segs any_of_loop]; [apply same_eq|]. apply same_bind_eq. intros xs.
  apply same_bind_eq. intros [|]; auto. apply same_eq.
Qed.
Lemma pf_none_of_const first last : same_as (pf_none_of c Ts first last call f) (pc_none_of c Ts first last (result call f)) eq.
Proof.
  unfold pf_none_of, pc_none_of. apply same_bind_eq. intros ps.
  eapply same_eq_l; [apply all_segs_ext; intros xs; apply steady_copy, none_of_steady, H|].
  induction ps as [|i ps IH]; cbn [all_segs none_of_loop]; [apply same_eq|]. apply same_bind_eq. intros xs.
  apply same_bind_eq. intros [|]; auto. apply same_eq.
Qed.
Lemma pf_count_if_const first last : same_as (pf_count_if c Ts first last call f) (pc_count_if c Ts first last (result call f)) eq.
Proof.
  unfold pf_count_if, pc_count_if. apply same_bind_eq. intros ps.
  eapply same_eq_l; [apply count_segs_ext; intros xs; apply steady_copy, count_if_steady, H|]. generalize 0.
  induction ps as [|i ps IH]; intros r; cbn [count_segs count_loop]; [apply same_eq|]. apply same_bind_eq. intros xs.
  apply same_bind_eq. intros n. apply IH.
Qed.
Lemma pf_find_if_const first last : same_as (pf_find_if c Ts first last call f) (pc_find_if c Ts first last (result call f)) eq.
Proof. apply find_by_ext. intros xs. apply steady_copy, find_if_steady, H. Qed.
Lemma pf_find_if_not_const first last : same_as (pf_find_if_not c Ts first last call f) (pc_find_if_not c Ts first last (result call f)) eq.
Proof. apply find_by_ext. intros xs. apply steady_copy, find_if_not_steady, H. Qed.
Lemma pf_copy_if_const first last put o : same_as (pf_copy_if c Ts first last put call f o) (pc_copy_if c Ts first last put (result call f) o) eq.
Proof. apply generic_copy_ext. intros t xs. apply steady_copy, copy_if_steady, H. Qed.
Lemma pf_remove_copy_if_const first last put o : same_as (pf_remove_copy_if c Ts first last put call f o) (pc_remove_copy_if c Ts first last put (result call f) o) eq.
Proof. apply generic_copy_ext. intros t xs. apply steady_copy, remove_copy_if_steady, H. Qed.
Lemma pf_replace_copy_if_const {N} first last put (new : N) o :
  same_as (pf_replace_copy_if c Ts first last put call f new o) (pc_replace_copy_if c Ts first last put (result call f) new o) eq.
Proof. apply generic_copy_ext. intros t xs. apply steady_copy, replace_copy_steady, H. Qed.
Lemma pf_partition_copy_const first last put1 put2 o :
  same_as (pf_partition_copy c Ts first last put1 put2 call f o) (pc_partition_copy c Ts first last put1 put2 (result call f) o) eq.
Proof. apply generic_copy_ext. intros t xs. apply steady_copy, partition_copy_steady, H. Qed.
Lemma pf_search_n_const first last n : same_as (pf_search_n c Ts first last n call f) (pc_search_n c Ts first last n (result call f)) eq.
Proof.
  unfold pf_search_n, pc_search_n. destruct (n =? 0); [apply same_eq|]. apply same_bind_eq. intros ps.
  generalize false, n at 2 4, (@None (nat * ptr)). induction ps as [|i ps IH]; intros b r prev; cbn [search_n_segs search_n_loop]; [apply same_eq|].
  apply same_bind_eq. intros xs. eapply same_bind; [apply steady_copy, search_n_steady, H|]. intros x x' ->.
  apply same_bind_eq. intros q. cbv zeta. destruct (lbi_eq _ _ _); [apply IH|]. destruct (_ =? 0); [apply same_eq|].
  destruct (fst (fst x')); apply IH.
Qed.
Lemma pf_is_partitioned_const first last : same_as (pf_is_partitioned c Ts first last call f) (pc_is_partitioned c Ts first last (result call f)) eq.
Proof.
  unfold pf_is_partitioned, pc_is_partitioned. eapply same_bind; [apply pf_find_if_not_const|]. intros it it' ->.
  destruct (it_eq it' last); [apply same_eq|]. apply same_bind_eq. intros it. apply pf_none_of_const.
Qed.
Lemma pf_partition_point_const first last : same_as (pf_partition_point c Ts first last call f) (pc_partition_point c Ts first last (result call f)) eq.
Proof.
  unfold pf_partition_point, pc_partition_point. apply same_bind_eq. intros n. generalize n at 1 3 as k. intros k.
  revert first n. induction k as [|k IH]; intros first n; cbn [bisect]; [apply same_eq|].
  destruct (n =? 0); [apply same_eq|]. apply same_bind_eq. intros mid. eapply same_bind with (R := eq).
  - unfold pred_at. apply same_bind_eq. intros [|m ns]; [apply same_eq|]. apply same_bind_eq. intros [|x [|y xs]]; try apply same_eq.
    apply steady_copy, steady_call, H.
  - intros b b' ->. destruct b'; [apply same_bind_eq; intros it; apply IH|apply IH].
Qed.
End Const1.

Section Const2.
Context (c : coll V) (Ts : list tyid) {Y : Type} (call : fcall S F (view V * Y) bool) (f : F) (H : constant call f).
Notation p := (fun x y => result call f (x, y)).
Lemma pf_find_first_of_const first last ys :
  same_as (pf_find_first_of c Ts first last ys call f) (pc_find_first_of c Ts first last p ys) eq.
Proof. apply find_by_ext. intros xs. apply steady_copy, find_first_of_steady, H. Qed.
Lemma pf_mismatch_const bounded first last ys :
  same_as (pf_mismatch bounded c Ts first last ys call f) (pc_mismatch bounded c Ts first last ys p) eq.
Proof.
  unfold pf_mismatch, pc_mismatch. eapply same_bind; [apply generic_find_ext, at_index_ext; intros t xs; apply steady_copy, mismatch_steady, H|].
  intros r r' ->. apply same_eq.
Qed.
Lemma pf_equal_const bounded first last ys :
  same_as (pf_equal bounded c Ts first last ys call f) (pc_equal bounded c Ts first last ys p) eq.
Proof.
  unfold pf_equal, pc_equal. apply same_bind_eq. intros ps. eapply same_bind with (R := eq); [|intros r r' ->; apply same_eq].
  eapply same_eq_l; [apply equal_segs_ext; intros t xs; apply steady_copy, equal_steady, H|].
  revert ys. induction ps as [|i ps IH]; intros ys; cbn [equal_segs equal_loop]; [apply same_eq|]. apply same_bind_eq. intros xs.
  apply same_bind_eq. intros r. destruct (snd r); [apply IH|apply same_eq].
Qed.
Lemma pf_search_const first last ys : same_as (pf_search c Ts first last ys call f) (pc_search c Ts first last ys p) eq.
Proof.
  unfold pf_search, pc_search. apply same_bind_eq. intros ps. induction ps as [|i ps IH]; cbn [search_segs search_loop]; [apply same_eq|].
  apply same_bind_eq. intros n. eapply same_bind with (R := eq); [|intros [it|] r' <-; [apply same_eq|apply IH]].
  generalize 0. induction n as [|n IHn]; intros k; cbn [search_scan_obj search_scan]; [apply same_eq|].
  apply same_bind_eq. intros it. eapply same_bind; [apply pf_mismatch_const|]. intros r r' ->. destruct (_ =? _); [apply same_eq|apply IHn].
Qed.
Lemma pf_find_end_const first last ys : same_as (pf_find_end c Ts first last ys call f) (pc_find_end c Ts first last ys p) eq.
Proof.
  unfold pf_find_end, pc_find_end. destruct ys as [|y ys]; [apply same_eq|].
  generalize last at 2 4. revert first. induction (1 + c_size c) as [|n IH]; intros first res; cbn [find_end_obj find_end_loop]; [apply same_eq|].
  eapply same_bind; [apply pf_search_const|]. intros r r' ->. destruct (it_eq r' last); [apply same_eq|]. apply same_bind_eq. intros it. apply IH.
Qed.
End Const2.
Lemma pf_transform_const {O} c Ts (call : fcall S F (view V) O) f first last put o : constant call f ->
  same_as (pf_transform c Ts first last put call f o) (pc_transform c Ts first last put (result call f) o) eq.
Proof. intros H. apply generic_copy_ext. intros t xs. apply steady_copy, transform_steady, H. Qed.
Lemma pf_transform2_const {Y O} c Ts (call : fcall S F (view V * Y) O) f first last ys put o : constant call f ->
  same_as (pf_transform2 c Ts first last ys put call f o) (pc_transform2 c Ts first last ys put (fun x y => result call f (x, y)) o) eq.
Proof.
  intros H. unfold pf_transform2, pc_transform2. eapply same_bind; [apply generic_copy_ext; intros t xs; apply steady_copy, transform2_steady, H|].
  intros r r' ->. apply same_eq.
Qed.
Lemma pf_is_permutation_const {Y} bounded c Ts (call : fcall S F (view V * (view V + Y)) bool) f first last ys : constant call f ->
  same_as (pf_is_permutation bounded c Ts first last ys call f) (pc_is_permutation bounded c Ts first last ys (fun x y => result call f (x, y))) eq.
Proof.
  intros H. assert (Hl : constant (on_left call) f) by (intros x s s' r; apply H). assert (Hr : constant (on_right call) f) by (intros x s s' r; apply H).
  assert (Sx : forall first ys, same_as (is_perm_suffix_obj c Ts first last ys call f) (is_perm_suffix c Ts first last ys (fun x y => result call f (x, y))) eq).
  { clear first ys. intros first ys. unfold is_perm_suffix_obj, is_perm_suffix. apply same_bind_eq. intros ps.
    induction ps as [|i ps IH]; cbn [is_perm_segs is_perm_loop]; [apply same_eq|]. apply same_bind_eq. intros xs.
    eapply same_bind with (R := eq); [|intros b b' ->; destruct b'; [apply IH|apply same_eq]]. clear IH.
    generalize 0. induction xs as [|x xs IH]; intros k; cbn [is_perm_scan_obj is_perm_scan]; [apply same_eq|].
    assert (Hx : constant (bound (on_left call) x) f) by (intros y s s' r; apply H).
    assert (Hy : constant (bound (on_right call) x) f) by (intros y s s' r; apply H).
    apply same_bind_eq. intros scan. eapply same_bind; [apply pf_find_if_const, Hx|]. intros it it' ->.
    destruct (negb _); [apply IH|]. eapply same_bind; [apply steady_copy, count_if_steady, Hy|]. intros m m' ->.
    destruct (m' =? 0); [apply same_eq|]. eapply same_bind; [apply pf_count_if_const, Hx|]. intros n n' ->.
    destruct (m' =? n'); [apply IH|apply same_eq]. }
  unfold pf_is_permutation, pc_is_permutation. eapply same_bind; [apply pf_mismatch_const, Hr|]. intros r r' ->.
  apply same_bind_eq. intros n. cbv zeta. destruct bounded; [destruct (_ =? _)|destruct (_ <=? _)]; first [apply Sx|apply same_eq].
Qed.
Section Const3.
Context (c : coll V) (Ts : list tyid) (call : fcall S F (view V * view V) bool) (f : F) (H : constant call f).
Notation p := (fun x y => result call f (x, y)).
Lemma pf_adjacent_find_const first last : same_as (pf_adjacent_find c Ts first last call f) (pc_adjacent_find c Ts first last p) eq.
Proof.
  unfold pf_adjacent_find, pc_adjacent_find. eapply same_bind with (R := eq); [|intros r r' ->; apply same_eq]. apply generic_find_ext.
  intros t i xs. unfold adjacent_find_obj, adjacent_find_alg. destruct xs as [|x xs]; [apply same_eq|].
  eapply same_bind with (R := eq).
  - destruct t as [prev|]; [|apply same_eq]. apply same_bind_eq. intros n. apply same_bind_eq. intros r. apply steady_copy, steady_call, H.
  - intros b b' ->. destruct b'; [apply same_eq|]. eapply same_bind; [apply steady_copy, adjacent_find_steady, H|]. intros k k' ->. apply same_eq.
Qed.
Lemma pf_unique_copy_const first last put o : same_as (pf_unique_copy c Ts first last put call f o) (pc_unique_copy c Ts first last put p o) eq.
Proof.
  unfold pf_unique_copy, pc_unique_copy. apply same_bind_eq. intros ps. generalize (@None (nat * ptr)). revert o.
  induction ps as [|i ps IH]; intros o prev; cbn [unique_copy_segs unique_copy_loop]; [apply same_eq|]. apply same_bind_eq. intros xs.
  eapply same_bind with (R := eq).
  - destruct prev as [l|]; [|apply same_eq]. apply same_bind_eq. intros n. apply same_bind_eq. intros r. apply steady_copy, skip_same_steady, H.
  - intros b b' ->. destruct b' as [|x xs']; [apply IH|]. eapply same_bind; [apply steady_copy, unique_copy_steady, H|]. intros k k' ->.
    apply same_bind_eq. intros q. apply IH.
Qed.
End Const3.

(** *** The parts of the same type *)
Lemma by_type_head (y : view V) l : exists p ps, by_type (y :: l) = (y :: p) :: ps.
Proof. cbn [by_type]. destruct (by_type l) as [|[|z q] r]; [eauto|eauto|]. destruct (_ =? _); eauto. Qed.
Lemma by_type_app t (l1 l2 : list (view V)) : l1 <> [] -> Forall (fun x => r_ty (snd x) = t) l1 -> Forall (fun x => r_ty (snd x) <> t) l2 ->
  by_type (l1 ++ l2) = l1 :: by_type l2.
Proof.
  intros Ne F1 F2. induction l1 as [|x l1 IH]; [congruence|]. inversion F1 as [|? ? Hx F1']; subst. destruct l1 as [|y l1].
  - cbn [app]. destruct l2 as [|z l2]; [reflexivity|]. destruct (by_type_head z l2) as (p & ps & Q).
    change (by_type (x :: z :: l2)) with (match by_type (z :: l2) with
      | (y :: p) :: ps => if r_ty (snd x) =? r_ty (snd y) then (x :: y :: p) :: ps else [x] :: (y :: p) :: ps
      | ps => [x] :: ps end).
    rewrite Q. inversion F2 as [|? ? Hz _]; subst. destruct (Nat.eqb_spec (r_ty (snd x)) (r_ty (snd z))); congruence.
  - change ((x :: y :: l1) ++ l2) with (x :: (y :: l1) ++ l2).
    change (by_type (x :: (y :: l1) ++ l2)) with (match by_type ((y :: l1) ++ l2) with
      | (y :: p) :: ps => if r_ty (snd x) =? r_ty (snd y) then (x :: y :: p) :: ps else [x] :: (y :: p) :: ps
      | ps => [x] :: ps end).
    rewrite (IH ltac:(congruence) F1'). inversion F1' as [|? ? Hy _]; subst. rewrite Hy, Nat.eqb_refl. auto.
Qed.
Lemma by_type_concat (l : list (view V)) : concat (by_type l) = l.
Proof.
  induction l as [|x l IH]; auto. cbn [by_type]. destruct (by_type l) as [|[|y p] ps] eqn:Q.
  - cbn in *. congruence.
  - cbn in *. congruence.
  - destruct (_ =? _); cbn [concat app] in *; congruence.
Qed.
Lemma by_type_one (l : list (view V)) t : l <> [] -> Forall (fun x => r_ty (snd x) = t) l -> by_type l = [l].
Proof. intros Ne Fa. rewrite <- (app_nil_r l) at 1. rewrite (by_type_app t l []); auto. Qed.

Lemma piece_type c Ts q a m : piece_ok c q a m -> Forall (fun x => r_ty (snd x) = pc_ty q) (views c Ts a m).
Proof.
  intros (l1 & n & l2 & x & y & En & -> & L & L' & -> & ->). rewrite (views_part c Ts l1 n l2 x y En L').
  apply Forall_forall. intros v Hv. apply in_map_iff in Hv. destruct Hv as (r & <- & Hr). apply between_in, nrefs_ty in Hr. exact Hr.
Qed.
Lemma cover_type c Ts ps a b : cover c ps a b -> Forall (fun x => In (r_ty (snd x)) (map pc_ty ps)) (views c Ts a b).
Proof.
  induction 1 as [i|q ps i j k P C IH]; [rewrite views_nil; constructor|].
  rewrite <- (views_app c Ts i j k) by (first [apply (piece_le c q i j P)|apply (cover_le c ps j k C)]). apply Forall_app. split.
  - eapply Forall_impl; [|apply (piece_type c Ts q i j P)]. intros x ->. left. auto.
  - eapply Forall_impl; [|exact IH]. intros x. right. auto.
Qed.
Lemma by_type_cover c Ts q ps i j k : piece_ok c q i j -> cover c ps j k -> NoDup (map pc_ty (q :: ps)) ->
  (views c Ts i j = [] /\ by_type (views c Ts i k) = by_type (views c Ts j k)) \/
  by_type (views c Ts i k) = views c Ts i j :: by_type (views c Ts j k).
Proof.
  intros P C ND. assert (Ev : views c Ts i k = views c Ts i j ++ views c Ts j k).
  { rewrite (views_app c Ts i j k); [auto|apply (piece_le c q i j P)|apply (cover_le c ps j k C)]. }
  assert (D : {views c Ts i j = []} + {views c Ts i j <> []}) by (destruct (views c Ts i j); [left|right]; congruence).
  destruct D as [Z|Z].
  - left. split; auto. rewrite Ev, Z. auto.
  - right. rewrite Ev. apply (by_type_app (pc_ty q)); [exact Z|apply (piece_type c Ts q i j P)|].
    eapply Forall_impl; [|apply (cover_type c Ts ps j k C)]. cbn beta. intros x Hx Q. rewrite Q in Hx.
    cbn [map] in ND. inversion ND. contradiction.
Qed.

Section Parts.
Context (c : coll V) (Ts : list tyid) (W : aok c).
Notation iat c := (at_ (c_nodes c)).

Lemma all_segs_ok (alg : seg_range -> M S bool) ps a b : same_as (alg []) (ret true) eq -> cover c ps a b -> NoDup (map pc_ty ps) ->
  same_as (all_segs c Ts alg ps) (std_all_of alg (by_type (views c Ts a b))) eq.
Proof.
  intros H0 C. induction C as [i|q ps i j k P C IH]; intros ND; [rewrite views_nil; apply same_eq|].
  assert (ND' : NoDup (map pc_ty ps)) by (inversion ND; auto). specialize (IH ND').
  cbn [all_segs]. rewrite (piece_views_ok c Ts q i j W P), lift_some. destruct (by_type_cover c Ts q ps i j k P C ND) as [[Z ->]| ->].
  - rewrite Z. eapply same_eq_l; [eapply same_bind; [exact H0|intros x x' ->; apply same_eq]|]. rewrite bind_ret_l. exact IH.
  - cbn [std_all_of]. apply same_bind_eq. intros [|]; [exact IH|apply same_eq].
Qed.
Lemma any_segs_ok (alg : seg_range -> M S bool) ps a b : same_as (alg []) (ret false) eq -> cover c ps a b -> NoDup (map pc_ty ps) ->
  same_as (any_segs c Ts alg ps) (std_any_of alg (by_type (views c Ts a b))) eq.
Proof.
  intros H0 C. induction C as [i|q ps i j k P C IH]; intros ND; [rewrite views_nil; apply same_eq|].
  assert (ND' : NoDup (map pc_ty ps)) by (inversion ND; auto). specialize (IH ND').
  cbn [any_segs]. rewrite (piece_views_ok c Ts q i j W P), lift_some. destruct (by_type_cover c Ts q ps i j k P C ND) as [[Z ->]| ->].
  - rewrite Z. eapply same_eq_l; [eapply same_bind; [exact H0|intros x x' ->; apply same_eq]|]. rewrite bind_ret_l. exact IH.
  - cbn [std_any_of]. apply same_bind_eq. intros [|]; [apply same_eq|exact IH].
Qed.
Lemma count_segs_ok (alg : seg_range -> M S nat) ps a b r : same_as (alg []) (ret 0) eq -> cover c ps a b -> NoDup (map pc_ty ps) ->
  same_as (count_segs c Ts alg ps r) (n <- sum_parts alg (by_type (views c Ts a b)) ;; ret (r + n)) eq.
Proof.
  intros H0 C. revert r. induction C as [i|q ps i j k P C IH]; intros r ND.
  - rewrite views_nil. cbn [count_segs by_type sum_parts]. rewrite bind_ret_l. apply same_ret. lia.
  - assert (ND' : NoDup (map pc_ty ps)) by (inversion ND; auto).
    cbn [count_segs]. rewrite (piece_views_ok c Ts q i j W P), lift_some. destruct (by_type_cover c Ts q ps i j k P C ND) as [[Z ->]| ->].
    + rewrite Z. eapply same_eq_l; [eapply same_bind; [exact H0|intros x x' ->; apply same_eq]|]. rewrite bind_ret_l, Nat.add_0_r. exact (IH r ND').
    + cbn [sum_parts]. eapply same_eq_r; [apply same_sym_eq, bind_assoc|]. apply same_bind_eq. intros n.
      eapply same_eq_l; [apply (IH (r + n) ND')|]. eapply same_eq_r; [apply same_sym_eq, bind_assoc|]. apply same_bind_eq. intros m.
      rewrite bind_ret_l. apply same_ret. lia.
Qed.
Lemma copy_segs_ok {T} (alg : T -> seg_range -> M S T) ps a b t : (forall t, same_as (alg t []) (ret t) eq) -> cover c ps a b -> NoDup (map pc_ty ps) ->
  same_as (generic_copy_loop c Ts alg t ps) (hand_on alg t (by_type (views c Ts a b))) eq.
Proof.
  intros H0 C. revert t. induction C as [i|q ps i j k P C IH]; intros t ND; [rewrite views_nil; apply same_eq|].
  assert (ND' : NoDup (map pc_ty ps)) by (inversion ND; auto).
  cbn [generic_copy_loop]. rewrite (piece_views_ok c Ts q i j W P), lift_some. destruct (by_type_cover c Ts q ps i j k P C ND) as [[Z ->]| ->].
  - rewrite Z. eapply same_eq_l; [eapply same_bind; [apply H0|intros x x' ->; apply same_eq]|]. rewrite bind_ret_l. exact (IH t ND').
  - cbn [hand_on]. apply same_bind_eq. intros t'. exact (IH t' ND').
Qed.
Lemma find_segs_ok {T} (alg : T -> seg_range -> M S (T * nat)) ps a b t :
  (forall t, same_as (alg t []) (ret (t, 0)) eq) -> idx_le alg -> cover c ps a b -> NoDup (map pc_ty ps) ->
  same_as (generic_find_loop c Ts (at_index c Ts alg) t (iat c b) ps) (find_parts alg t (by_type (views c Ts a b)))
    (fun r r' => fst r = fst r' /\ snd r = iat c (a + snd r') /\ snd r' <= b - a).
Proof.
  intros H0 Hle C. revert t. induction C as [i|q ps i j k P C IH]; intros t ND.
  - rewrite views_nil. apply same_ret. cbn [fst snd]. rewrite Nat.add_0_r. csplit; auto. lia.
  - assert (ND' : NoDup (map pc_ty ps)) by (inversion ND; auto).
    assert (La := piece_le c q i j P). assert (Lb := cover_le c ps j k C).
    cbn [generic_find_loop]. rewrite (piece_views_ok c Ts q i j W P), lift_some. unfold at_index at 1.
    eapply same_eq_l; [apply bind_assoc|].
    destruct (by_type_cover c Ts q ps i j k P C ND) as [[Z ->]| ->].
    + rewrite Z. eapply same_eq_l; [eapply same_bind; [apply H0|intros x x' ->; apply same_eq]|]. rewrite bind_ret_l.
      assert (Eij : j = i). { assert (B := views_length c Ts i j ltac:(lia)). rewrite Z in B. cbn in B. lia. }
      rewrite Eij in P.
      cbn [fst snd]. rewrite (piece_at_ok c Ts q i i 0) by (auto; lia). rewrite lift_some, bind_ret_l. cbn [fst snd].
      rewrite (piece_eq_end c q i i) by (auto; lia). rewrite Nat.sub_diag. cbn [Nat.eqb]. rewrite <- Eij. exact (IH t ND').
    + cbn [find_parts]. rewrite views_length by lia.
      eapply same_bind; [apply Hle|]. intros r r' [<- Hr]. rewrite views_length in Hr by lia.
      eapply same_eq_l; [apply bind_assoc|].
      rewrite (piece_at_ok c Ts q i j) by auto. rewrite lift_some, bind_ret_l. cbn [fst snd].
      rewrite (piece_eq_end c q i j) by auto.
      destruct (Nat.eqb_spec (snd r) (j - i)) as [Er|Er].
      * eapply same_eq_l; [apply same_sym_eq, bind_ret_r|].
        eapply same_bind; [apply (IH (fst r) ND')|]. intros x y (Ex & Ey & Lx). apply same_ret. cbn [fst snd].
        csplit; auto; [rewrite Ey; f_equal; lia|lia].
      * rewrite (piece_iter c q i j) by (auto; lia). rewrite lift_some. apply same_ret. cbn [fst snd]. csplit; auto. lia.
Qed.

(** *** The algorithms on a range *)
Context (i j : nat) (L : i <= j) (Lj : j <= tot (c_nodes c)) (NDt : NoDup (types c)).
Lemma split_parts : exists ps, segment_split c (iat c i) (iat c j) = Some ps /\ cover c ps i j /\ NoDup (map pc_ty ps).
Proof.
  destruct (split_ok c i j W L Lj) as (ps & Q & C). exists ps. csplit; auto.
  destruct (split_types c _ _ ps W Q) as (l1 & l2 & Et). rewrite Et in NDt.
  assert (ND1 : NoDup (map pc_ty ps ++ l2)) by (clear - NDt; induction l1 as [|x l1 IH]; auto; inversion NDt; auto). clear - ND1. rename ND1 into NDt. induction (map pc_ty ps) as [|t l IH]; constructor; inversion NDt as [|? ? Hn Hd]; subst; auto.
  intros Hi. apply Hn. apply in_or_app. auto.
Qed.
Lemma find_by_parts (alg : seg_range -> M S nat) : same_as (alg []) (ret 0) eq -> idx_le0 alg ->
  same_as (find_by c Ts alg (iat c i) (iat c j)) (r <- find_parts (fun t xs => k <- alg xs ;; ret (t, k)) tt (by_type (views c Ts i j)) ;; ret (snd r))
    (fun it k => it = iat c (i + k) /\ k <= j - i).
Proof.
  intros H0 Hle. destruct split_parts as (ps & Q & C & ND). unfold find_by, generic_find. rewrite Q, lift_some.
  eapply same_bind; [apply find_segs_ok; auto|].
  - intros t. eapply same_eq_l; [eapply same_bind; [apply H0|intros x x' ->; apply same_eq]|]. rewrite bind_ret_l. apply same_eq.
  - intros t l. eapply same_bind; [apply Hle|]. intros k k' [<- Hk]. apply same_ret. auto.
  - intros r r' (_ & E1 & E2). apply same_ret. auto.
Qed.
End Parts.
End Loops.
