(** * Loops which change the collections they traverse

    Not code of the library but of its users: the usual loops around the members of
    poly_collection.hpp.  Each call in them is a call of the model: *it, ++it and it!=end()
    (iterator_impl.hpp 97-107), erase(it) (poly_collection.hpp 879-889), insert(first,last)
    with iterators of another collection (744-751), begin, end, begin(info), end(info) and
    empty (437-498).  [fuel] bounds the number of rounds; running out of it is an error. *)

From Coq Require Import List Arith Bool.
From Verif Require Import Base Vec Backend Segment Coll Info.
Import ListNotations.

Section Loops.
Context {V : Type} {E : Env V}.

Notation CM := (M (coll V * world)).

(** [for(auto it=c.begin();it!=c.end();){if(p( *it))it=c.erase(it);else ++it;}], from [it] on.
    The result is the list of the elements [p] was asked about. *)
(* nothing in /repo: a loop of the user *)
Fixpoint erase_if (fuel : nat) (p : tyid * V -> bool) (it : iter) : CM (list (tyid * V)) :=
  c <- getx ;;
  if it_eq it (c_end c) then ret []
  else match fuel with
       | O => ub
       | S f =>
           match it_deref c it with
           | None => ub
           | Some x =>
               it' <- (if p x then c_erase it
                       else match it_next c it with Some it' => ret it' | None => ub end) ;;
               l <- erase_if f p it' ;;
               ret (x :: l)
           end
       end.

(** The same in one segment: [for(auto it=c.begin(info);it!=c.end(info);)...], with
    local_base_iterators. *)
(* nothing in /repo: a loop of the user *)
Fixpoint erase_if_local (fuel : nat) (a : tiaddr) (p : tyid * V -> bool) (l : liter)
  : CM (list (tyid * V)) :=
  e <- c_end_of a ;;
  if li_eq l e then ret []
  else match fuel with
       | O => ub
       | S f =>
           c <- getx ;;
           match li_deref c l with
           | None => ub
           | Some x =>
               l' <- (if p x then c_erase_local l
                      else match li_next c l with Some l' => ret l' | None => ub end) ;;
               r <- erase_if_local f a p l' ;;
               ret (x :: r)
           end
       end.

(** [while(!c.empty()){f( *c.begin());c.erase(c.begin());}]; the result is what [f] was given. *)
(* nothing in /repo: a loop of the user *)
Fixpoint drain (fuel : nat) : CM (list (tyid * V)) :=
  c <- getx ;;
  if c_empty_all c then ret []
  else match fuel with
       | O => ub
       | S n =>
           match it_deref c (c_begin c) with
           | None => ub
           | Some x => c_erase (c_begin c) ;; l <- drain n ;; ret (x :: l)
           end
       end.

(** Moving over to the collection [y] what satisfies [p]:
    [for(auto it=x.begin();it!=x.end();){if(p( *it)){y.insert(it,std::next(it));it=x.erase(it);}
    else ++it;}].  The state is ([x], [y]). *)
Notation PM := (M ((coll V * coll V) * world)).
Fixpoint transfer_if (fuel : nat) (p : tyid * V -> bool) (it : iter) : PM unit :=
  s <- getx ;;
  let x := fst s in
  if it_eq it (c_end x) then ret tt
  else match fuel with
       | O => ub
       | S f =>
           match it_deref x it, it_next x it with
           | Some v, Some it1 =>
               it' <- (if p v
                       then on_src (c_insert_from (c_size x) x it it1) ;; on_dst (c_erase it)
                       else ret it1) ;;
               transfer_if f p it'
           | _, _ => ub
           end
       end.

(** Changing a copy and putting it in place when everything has gone well:
    [{Collection tmp{c,c.get_allocator()};body(tmp);c.swap(tmp);}].  The calls of the body get the
    copy as it is when they are made; if one of them throws the copy is destroyed. *)
(* nothing in /repo: calls made by the user, one after the other *)
Fixpoint calls_of (body : list (coll V -> CM unit)) : CM unit :=
  match body with
  | [] => ret tt
  | m :: body' => c <- getx ;; m c ;; calls_of body'
  end.
(* nothing in /repo: a block of the user *)
Definition transact (body : list (coll V -> CM unit)) : CM unit := fun s =>
  let '(c, w) := s in
  match c_copy_al c (c_al c) w with
  | UB => UB
  | Exn w1 e => Exn (c, w1) e
  | Ok w1 tmp =>
      match calls_of body (tmp, w1) with
      | UB => UB
      | Exn (tmp', w2) e =>
          match c_destroy tmp' w2 with Ok w3 _ => Exn (c, w3) e | _ => UB end
      | Ok (tmp', w2) _ =>
          match c_swap ((c, tmp'), w2) with
          | Ok ((c', old), w3) _ => match c_destroy old w3 with Ok w4 _ => Ok (c', w4) tt | _ => UB end
          | _ => UB
          end
      end
  end.

(** [*out++=x] for the elements one after the other, [out] being [std::inserter(c,hint)]: its
    assignment is [iter=c.insert(iter,x);++iter;] (insert(hint,x) 688-702, ++ iterator_impl.hpp
    99-103).  The result is the iterator [out] holds in the end. *)
Fixpoint insert_via (hint : iter) (xs : list (arg V)) : CM iter :=
  match xs with
  | [] => ret hint
  | x :: xs' =>
      it <- c_insert_hint hint x ;;
      c <- getx ;;
      match it_next c it with Some hint' => insert_via hint' xs' | None => ub end
  end.

End Loops.
