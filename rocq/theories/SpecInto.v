(** * Vocabulary for algorithms which write into collections *)

From Coq Require Import List Arith Bool Permutation.
From Verif Require Import Base Vec Backend Segment Coll StdAlg Algo Spec SpecVia SpecStd Reach.
Import ListNotations.

Section SpecInto.
Context {V : Type} {E : Env V}.

(** The elements [xs] are passed to insert as the objects they are, under their types. *)
Definition faithful (pass : view V -> arg V) (xs : list (view V)) : Prop := forall x, In x xs -> gives (pass x) (obj x).

(** [y'] is [y] with the elements [l] added: for each type those that were there, in the same order, and the new ones among them; segments of
    other types are not touched. *)
Definition took (y y' : coll V) (l : list (tyid * V)) : Prop :=
  (forall t, Permutation (elems y' t) (elems y t ++ of_type t l) /\ subseq (elems y t) (elems y' t)) /\
  (forall t, In t (types y') <-> In t (types y) \/ In t (map fst l)) /\
  (forall t, ~ In t (map fst l) -> seg_at y' t = seg_at y t) /\
  c_al y' = c_al y.

(** [y] has no elements of the types in [l], as is the case if it is empty. *)
Definition without (y : coll V) (l : list (tyid * V)) : Prop := forall e, In e l -> elems y (fst e) = [].

(** An algorithm which was to write [xs] was stopped by an exception: it had written those before [x], with the effect [D], and inserting [x] failed as an
    insertion does. *)
Definition gave_up {X} (D : list X -> coll V -> Prop) (pass : X -> arg V) (xs : list X) g d (y' : coll V) (w' : world) (e : exn) : Prop :=
  exists pre x post w1 y1 q, xs = pre ++ x :: post /\ reach w1 (y1 :: g) d /\ D pre y1 /\ rejected y1 y' w1 w' (pass x) q e.
(** What an algorithm leaves which writes [l] through std::inserter(y,hint), the other collections in use being [g]: the elements are in [y], in the order
    they have in [l] for types of which [y] had none (this if [ordered]), and the iterator the output iterator holds can be used. *)
Definition received (ordered : Prop) (y : coll V) (l : list (tyid * V)) g d : (coll V * world) * iter -> Prop :=
  fun '((y', w'), it) => reach w' (y' :: g) d /\ took y y' l /\ (ordered -> without y l -> forall t, elems y' t = elems y t ++ of_type t l) /\
    exists n, located y' it n.
Definition write_stopped {X} (ob : X -> tyid * V) (pass : X -> arg V) (xs : list X) (y : coll V) g d : (coll V * world) * iter -> exn -> Prop :=
  fun '((y', w'), _) e => gave_up (fun pre y1 => took y y1 (map ob pre)) pass xs g d y' w' e.
(** The same with two collections: [p] tells which one [x] was for; the other is as it was. *)
Definition gave_up2 {X} (p : X -> bool) (D : list X -> coll V -> coll V -> Prop) (pass : X -> arg V) (xs : list X) g d (y' z' : coll V) (w' : world) (e : exn) : Prop :=
  exists pre x post w1 y1 z1 q, xs = pre ++ x :: post /\ reach w1 (y1 :: z1 :: g) d /\ D pre y1 z1 /\
    if p x then z' = z1 /\ rejected y1 y' w1 w' (pass x) q e else y' = y1 /\ rejected z1 z' w1 w' (pass x) q e.

End SpecInto.
