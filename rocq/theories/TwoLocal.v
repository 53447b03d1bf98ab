(** * Local iterators as the second range of an algorithm

    The algorithms on two ranges take iterators of any type for the second one (Two.v); here they are those of a segment, local_base_iterator or local_iterator<T>. *)

From Coq Require Import List Arith.
From Verif Require Import Base Vec Backend Segment Coll Info Two.

(** what a local iterator does: * (iterator_impl.hpp 135-140), ++ and == (stride_iterator.hpp 135-137, or those of a pointer) *)
Definition local_forward {V} {E : Env V} (c : coll V) : forward liter (tyid * V) := mkforward (li_deref c) (li_next c) li_eq.
