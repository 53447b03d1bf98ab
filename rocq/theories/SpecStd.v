(** * Vocabulary for algorithms compared with those of the standard library *)

From Coq Require Import List Arith Bool.
From Verif Require Import Base Vec Backend Segment Coll StdAlg Algo Access Walk Spec SpecAcc Reach.
Import ListNotations.

Section SpecStd.
Context {V : Type} {E : Env V} {S : Type}.

(** A function object which is passed an element, whatever as, looks at the type and the value of the object. *)
Definition obj (x : view V) : tyid * V := (r_ty (snd x), r_val (snd x)).
Definition of_obj {A} (f : tyid * V -> A) : view V -> A := fun x => f (obj x).
Definition of_objs {A} (f : tyid * V -> tyid * V -> A) : view V -> view V -> A := fun x y => f (obj x) (obj y).
Definition into {B A} (put : B -> tyid * V -> A) : B -> view V -> A := fun o x => put o (obj x).
Definition into_either {B N A} (put : B -> N + tyid * V -> A) : B -> N + view V -> A :=
  fun o x => put o (match x with inl n => inl n | inr v => inr (obj v) end).

(** The computation [m], which does not touch the collection, does the same as the program [p] run with the iterators [its]: with the
    same state of the caller it makes the same calls, so it has the same effects and throws the same exception; the results are
    related by [R]; and [p] changes nothing in the collection either.  Nothing is said if [m] is undefined. *)
Definition does_as {A X} w (c : coll V) g d (m : M S A) (p : walk V S X) (its : list iter) (R : A -> X * list iter -> Prop) : Prop :=
  forall s,
  match m s with
  | Ok s' a => exists c' r, run_walk p its (c, s) = Ok (c', s') r /\ R a r /\ updated c c' 0 [] /\ reach w (c' :: g) d
  | Exn s' e => exists c', run_walk p its (c, s) = Exn (c', s') e /\ updated c c' 0 [] /\ reach w (c' :: g) d
  | UB => True
  end.

(** The result is what the program returns, or the iterator in a variable. *)
Definition returned {X} (x : X) (r : X * list iter) : Prop := fst r = x.
Definition left_in {X} (k : nat) (it : iter) (r : X * list iter) : Prop := nth_error (snd r) k = Some it.

End SpecStd.
