(** * Algorithms which write into collections

    The copying algorithms of algorithm.hpp (Algo.v) with std::inserter(y,hint) for another collection [y] as output iterator.  The state of the
    caller, [S] in Algo.v, then has [y], the rest of the world, and the iterator the output iterator holds. *)

From Coq Require Import List Arith Bool.
From Verif Require Import Base Vec Backend Segment Coll StdAlg Algo Loops.
Import ListNotations.

Section Into.
Context {V : Type} {E : Env V}.

(** std::insert_iterator::operator=(x): iter=y.insert(iter,x);++iter (standard library; insert(hint,x) poly_collection.hpp 688-702, ++
    iterator_impl.hpp 101-107).  The iterator held is assigned when insert returns. *)
Definition ins_step (hint : iter) (x : arg V) : M (coll V * world) iter :=
  it <- c_insert_hint hint x ;; y <- getx ;; match it_next y it with Some h => ret h | None => ub end.
Definition ins (x : arg V) : M ((coll V * world) * iter) unit :=
  fun '(s, hint) => match ins_step hint x s with
                    | Ok s' h => Ok (s', h) tt
                    | Exn s' e => Exn (s', hint) e
                    | UB => UB
                    end.
(** [*out=x;++out] as the algorithms do it; [pass] is how an element reaches insert, e.g. as a reference to the base class.  Where the output iterator stands
    (the number in Algo.v) does not matter. *)
Definition insert_out (pass : view V -> arg V) (o : nat) (x : view V) : M ((coll V * world) * iter) unit := ins (pass x).

(** Two output iterators for two collections. *)
Notation TS := (((coll V * coll V) * world) * (iter * iter))%type.
(* nothing in /repo: std::insert_iterator as the first output of partition_copy *)
Definition ins_first (x : arg V) : M TS unit :=
  fun '(((y, z), w), (h, h')) => match ins_step h x (y, w) with
                                 | Ok (y', w') h1 => Ok (((y', z), w'), (h1, h')) tt
                                 | Exn (y', w') e => Exn (((y', z), w'), (h, h')) e
                                 | UB => UB
                                 end.
(* nothing in /repo: std::insert_iterator as the second output of partition_copy *)
Definition ins_second (x : arg V) : M TS unit :=
  fun '(((y, z), w), (h, h')) => match ins_step h' x (z, w) with
                                 | Ok (z', w') h1 => Ok (((y, z'), w'), (h, h1)) tt
                                 | Exn (z', w') e => Exn (((y, z'), w'), (h, h')) e
                                 | UB => UB
                                 end.

End Into.
