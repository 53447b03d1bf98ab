(** * Copying a collection element by element

    Not code of the library but of its users: [for(const auto& v:x)y.insert(v);], where [x] and [y]
    are two collections.  Each call in it is a call of the model: begin, end, *it, ++it
    (poly_collection.hpp 437-442, iterator_impl.hpp 97-107) and insert(v) (681-686), which
    goes through get_map_iterator_for(const T&) (961-1000), T being the value type of [x].
    [arg_of] makes of the element the argument it is: a reference to the value type. The
    collection [x] is not changed. [fuel] bounds the number of rounds; running out of it is an error. *)

From Coq Require Import List Arith Bool.
From Verif Require Import Base Vec Backend Segment Coll Info.
Import ListNotations.

Section Each.
Context {V : Type} {E : Env V}.

Notation CM := (M (coll V * world)).

(** The state is that of [y]. *)
(* nothing in /repo: a loop of the user *)
Fixpoint copy_each (fuel : nat) (x : coll V) (arg_of : tyid * V -> arg V) (it : iter) : CM unit :=
  if it_eq it (c_end x) then ret tt
  else match fuel with
       | O => ub
       | S n =>
           match it_deref x it, it_next x it with
           | Some e, Some it' => c_insert (arg_of e) ;; copy_each n x arg_of it'
           | _, _ => ub
           end
       end.

End Each.
