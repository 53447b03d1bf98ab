(** * Function objects which are called on two elements and use iterators they have captured *)

From Coq Require Import List Arith Bool.
From Verif Require Import Base Vec Backend Segment Coll StdAlg Algo Access Walk Many Body.
Import ListNotations.

Section Pair.
Context {V : Type} {E : Env V} {S : Type}.

(** What a call does (user code, nothing in /repo). *)
Inductive act2 (X : Type) : Type :=
| Give2 (x : X)                                                                 (* returns *)
| First (A : Type) (f : tyid -> M (V * S) A) (next : A -> act2 X)               (* uses its first argument *)
| Second (A : Type) (f : tyid -> M (V * S) A) (next : A -> act2 X)              (* uses its second argument *)
| Elsewhere (A : Type) (p : walk V S A) (next : A -> act2 X).                   (* uses the captured iterators *)

(** A call on the elements referred to by [x] and [y], of the [k]-th collection: the binary predicates of adjacent_find (algorithm.hpp 238-292) and of is_permutation (495-602).
    Each use of an argument is as in [run_act]. *)
Fixpoint run_act2 {X} (k : nat) (x y : view V) (a : act2 X) : M (scene V S) X :=
  match a with
  | Give2 _ r => ret r
  | First _ _ f next => b <- run_act k x (Here f Give) ;; run_act2 k x y (next b)
  | Second _ _ f next => b <- run_act k y (Here f Give) ;; run_act2 k x y (next b)
  | Elsewhere _ _ p next => b <- with_captured p ;; run_act2 k x y (next b)
  end.

(** The function object: what it does may depend on the types its arguments are passed as (type_restitution.hpp 38-146). *)
Definition calling2 {X} (k : nat) (F : option tyid -> option tyid -> act2 X) (x y : view V) : M (scene V S) X := run_act2 k x y (F (fst x) (fst y)).

End Pair.
Arguments Give2 {V S X} x.
Arguments First {V S X A} f next.
Arguments Second {V S X A} f next.
Arguments Elsewhere {V S X A} p next.
Arguments act2 V S X : clear implicits.
