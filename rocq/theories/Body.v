(** * Function objects which use iterators they have captured

    The function object passed to an algorithm may do more than look at the elements it is called on: a lambda expression may have captured iterators,
    of the collection the algorithm runs on or of others, advance them and use and change the elements they refer to, while the algorithm is running. *)

From Coq Require Import List Arith Bool.
From Verif Require Import Base Vec Backend Segment Coll StdAlg Algo Access Walk Many.
Import ListNotations.

Section Body.
Context {V : Type} {E : Env V} {S : Type}.

(** What a call does (user code, nothing in /repo). *)
Inductive act (X : Type) : Type :=
| Give (x : X)                                                             (* returns *)
| Here (A : Type) (f : tyid -> M (V * S) A) (next : A -> act X)            (* uses the element it has been called on, and may change it *)
| There (A : Type) (p : walk V S A) (next : A -> act X).                   (* uses the captured iterators *)

(** The state: the collections, that of the caller, and the captured iterators (by reference, so that they stay advanced from one call to the next). *)
(* nothing in /repo: what the program of C84 works on *)
Definition scene : Type := ((list (coll V) * S) * list (nat * iter))%type.

(** A call on the element referred to by [x], of the [k]-th collection (functional.hpp 60-140, as for [through] in Access.v); the captured iterators as in [run_walks].
    Simplification: if the use of the captured iterators throws, they have the values they had before it. *)
Fixpoint run_act {X} (k : nat) (x : view V) (a : act X) : M scene X :=
  match a with
  | Give _ r => ret r
  | Here _ A f next =>
      fun st =>
        match on_nth k (on_obj (fst x) (r_addr (snd x)) f) (fst st) with
        | Ok gs b => run_act k x (next b) (gs, snd st)
        | Exn gs e => Exn (gs, snd st) e
        | UB => UB
        end
  | There _ A p next =>
      fun st =>
        match run_walks p (snd st) (fst st) with
        | Ok gs (b, its) => run_act k x (next b) (gs, its)
        | Exn gs e => Exn (gs, snd st) e
        | UB => UB
        end
  end.

(** The function object: what it does may depend on the type the element is passed as, a type restituted or none (type_restitution.hpp 38-146). *)
Definition calling {X} (k : nat) (F : option tyid -> act X) (x : view V) : M scene X := run_act k x (F (fst x)).

(** What user code does which is not called on an element, with the captured iterators: the output iterators of algorithm.hpp 815-921, to which something else is written,
    and the generator of 1016-1056.  Simplification as for [run_act]. *)
Definition with_captured {X} (p : walk V S X) : M scene X :=
  fun st =>
    match run_walks p (snd st) (fst st) with
    | Ok gs (b, its) => Ok (gs, its) b
    | Exn gs e => Exn (gs, snd st) e
    | UB => UB
    end.

End Body.
Arguments Give {V S X} x.
Arguments Here {V S X A} f next.
Arguments There {V S X A} p next.
Arguments act V S X : clear implicits.
Arguments scene V S : clear implicits.

Section Scan.
Context {V S : Type}.

(** [\[&\](auto& x){x=h( *prev,x);++prev;}] (user code): the iterator captured is variable 0. *)
Definition scanning (h : tyid * V -> tyid * V -> V) (_ : option tyid) : act V S unit :=
  There (Ref 0 (looking (fun y => ret y)) (fun y => Inc 0 (Done y))) (fun y => Here (assigning h y) (fun _ => Give tt)).

End Scan.
