(** * Vocabulary for algorithms on two ranges *)

From Coq Require Import List Arith Bool.
From Verif Require Import Base Vec Backend Segment Coll StdAlg Algo Two Spec SpecAlg.
Import ListNotations.

(** [m] does what [m'] does, the results being related by [R], unless that is undefined. *)
Definition follows {S A B} (m : M S A) (m' : M S B) (R : A -> B -> Prop) : Prop :=
  forall s, match m' s with
            | Ok s' b => exists a, m s = Ok s' a /\ R a b
            | Exn s' e => m s = Exn s' e
            | UB => True
            end.

(** [its 0], [its 1], ... are the iterators to the elements of [ys] and, after them, to the end: [*] gives the element, [++] the next one, [==] tells them apart. *)
Definition sequence {I Y} (F : forward I Y) (its : nat -> I) (ys : list Y) : Prop :=
  (forall k y, nth_error ys k = Some y -> f_deref F (its k) = Some y /\ f_next F (its k) = Some (its (1 + k))) /\
  (forall a b, a <= length ys -> b <= length ys -> f_eq F (its a) (its b) = (a =? b)).
