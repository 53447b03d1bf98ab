(** * Loops over the elements of one type which insert elements of other types

    Not code of the library but of its users: the loop
    [for(auto it=c.begin(info);it!=c.end(info);++it)for(auto&& y:f( *it))c.insert(y);] with
    local_base_iterators.  Each call in it is a call of the model: begin(info), end(info)
    (poly_collection.hpp 444-454), *it, ++it and it!=end(info) (local_iterator_impl,
    iterator_impl.hpp 136-140: those of the iterator adapted) and insert(x) (681-686).
    [fuel] bounds the number of rounds; running out of it is an error. *)

From Coq Require Import List Arith Bool.
From Verif Require Import Base Vec Backend Segment Coll Info.
Import ListNotations.

Section Grow.
Context {V : Type} {E : Env V}.

Notation CM := (M (coll V * world)).

(** [for(auto&& y:ys)c.insert(y);] *)
(* nothing in /repo: a loop of the user *)
Fixpoint insert_each (ys : list (arg V)) : CM unit :=
  match ys with
  | [] => ret tt
  | y :: ys' => c_insert y ;; insert_each ys'
  end.

(** The outer loop, from [l] on.  The result is the list of the elements [f] was given. *)
(* nothing in /repo: a loop of the user *)
Fixpoint grow_while (fuel : nat) (a : tiaddr) (f : tyid * V -> list (arg V)) (l : liter)
  : CM (list (tyid * V)) :=
  e <- c_end_of a ;;
  if li_eq l e then ret []
  else match fuel with
       | O => ub
       | S n =>
           c <- getx ;;
           match li_deref c l with
           | None => ub
           | Some x =>
               insert_each (f x) ;;
               c' <- getx ;;
               match li_next c' l with
               | None => ub
               | Some l' => r <- grow_while n a f l' ;; ret (x :: r)
               end
           end
       end.

(** ** Calls about another type than the one traversed *)

(** insert(x) (681-686), emplace<T>(x) (621-630), clear(info) (943-946), reserve(info,n) (590-593), reserve<T>(n) (595-601),
    shrink_to_fit(info) (608-611) and [if(c.begin(info)!=c.end(info))c.erase(c.begin(info));] (444-454, 884-889). *)
Inductive ocall : Type :=
| OInsert (x : arg V)
| OEmplace (a : tiaddr) (v : V)
| OClear (a : tiaddr)
| OReserve (a : tiaddr) (n : nat)
| OReserveType (a : tiaddr) (n : nat)
| OShrink (a : tiaddr)
| OEraseFirst (a : tiaddr).
(* nothing in /repo: statements of the user, see above *)
Definition do_call (o : ocall) : CM unit :=
  match o with
  | OInsert x => c_insert x ;; ret tt
  | OEmplace a v => c_emplace a (SVal v) ;; ret tt
  | OClear a => c_clear_info a
  | OReserve a n => c_reserve_info a n
  | OReserveType a n => c_reserve_type a n
  | OShrink a => c_shrink_info a
  | OEraseFirst a =>
      b <- c_begin_of a ;;
      e <- c_end_of a ;;
      if li_eq b e then ret tt else c_erase_local b ;; ret tt
  end.
Fixpoint do_calls (os : list ocall) : CM unit :=
  match os with
  | [] => ret tt
  | o :: os' => do_call o ;; do_calls os'
  end.

(** [for(auto it=c.begin(info);it!=c.end(info);++it){...}] with such calls in the body, which depend on *it. *)
(* nothing in /repo: a loop of the user *)
Fixpoint visit_while (fuel : nat) (a : tiaddr) (f : tyid * V -> list ocall) (l : liter)
  : CM (list (tyid * V)) :=
  e <- c_end_of a ;;
  if li_eq l e then ret []
  else match fuel with
       | O => ub
       | S n =>
           c <- getx ;;
           match li_deref c l with
           | None => ub
           | Some x =>
               do_calls (f x) ;;
               c' <- getx ;;
               match li_next c' l with
               | None => ub
               | Some l' => r <- visit_while n a f l' ;; ret (x :: r)
               end
           end
       end.

End Grow.
