(** * Programs which walk over a range with iterators

    The iterators of a collection are passed to an algorithm which knows nothing about them but that they are
    forward iterators: it copies and assigns them, advances them, compares them and uses the elements they refer
    to, in any order.  The operations on iterators are of /repo; the algorithms are user code and are modelled as
    programs on a list of iterator variables. *)

From Coq Require Import List Arith Bool.
From Verif Require Import Base Vec Backend Segment Coll StdAlg Algo Access.
Import ListNotations.

Section Walk.
Context {V : Type} {E : Env V} {S : Type}.

(** * on an iterator: the address of the object the reference refers to (iterator_impl.hpp 97-98;
    the value_type of any_collection and function_collection refers to the object, any_model.hpp 177,
    function_model.hpp 117, split_segment.hpp 383) *)
Fixpoint ref_nodes (ns : list (node V)) (p : ptr) : option ptr :=
  match ns with
  | [] => None
  | n :: ns' =>
      match be_deref (sg_be (n_seg n)) p with
      | Some _ => be_to_concrete (sg_be (n_seg n)) p
      | None => ref_nodes ns' p
      end
  end.
Definition it_ref (c : coll V) (it : iter) : option ptr := ref_nodes (c_nodes c) (it_pos it).

(** What an algorithm does with forward iterators (user code, nothing in /repo).  The variables are numbered; those
    passed to the algorithm come first, and each copy is a further one. *)
Inductive walk (X : Type) : Type :=
| Done (x : X)                                                     (* returns *)
| Lost                                                             (* does not return, or does something undefined *)
| Dup (r : nat) (next : walk X)                                    (* auto x=r; *)
| Put (r r' : nat) (next : walk X)                                 (* r=r'; *)
| Inc (r : nat) (next : walk X)                                    (* ++r; *)
| Cmp (r r' : nat) (next : bool -> walk X)                         (* r==r' *)
| Ref (A : Type) (r : nat) (f : tyid -> M (V * S) A) (next : A -> walk X).   (* f( *r ), which knows the dynamic type of the object and may change it *)

(** The [k]-th variable gets a new value. *)
(* nothing in /repo: assignment to a variable of the user *)
Definition reg_set {I} (k : nat) (x : I) (l : list I) : list I := firstn k l ++ x :: skipn (Datatypes.S k) l.

(** The program run with iterators of a collection: copies are trivial (iterator_impl.hpp 56-59), ++ is
    increment 101-107, == is equal 99 and * is dereference 97-98. *)
Fixpoint run_walk {X} (p : walk X) (its : list iter) : M (coll V * S) (X * list iter) :=
  match p with
  | Done _ x => ret (x, its)
  | Lost _ => ub
  | Dup _ r next => match nth_error its r with Some it => run_walk next (its ++ [it]) | None => ub end
  | Put _ r r' next =>
      match nth_error its r, nth_error its r' with Some _, Some it => run_walk next (reg_set r it its) | _, _ => ub end
  | Inc _ r next =>
      fun cs =>
        match nth_error its r with
        | Some it => match it_next (fst cs) it with Some it' => run_walk next (reg_set r it' its) cs | None => UB end
        | None => UB
        end
  | Cmp _ r r' next =>
      match nth_error its r, nth_error its r' with Some x, Some y => run_walk (next (it_eq x y)) its | _, _ => ub end
  | Ref _ A r f next =>
      fun cs =>
        match nth_error its r with
        | Some it =>
            match it_ref (fst cs) it with
            | Some q => (bind (on_obj None q f) (fun a => run_walk (next a) its)) cs
            | None => UB
            end
        | None => UB
        end
  end.

End Walk.
Arguments Done {V S X} x.
Arguments Lost {V S X}.
Arguments Dup {V S X} r next.
Arguments Put {V S X} r r' next.
Arguments Inc {V S X} r next.
Arguments Cmp {V S X} r r' next.
Arguments Ref {V S X A} r f next.
Arguments walk V S X : clear implicits.

Section Algs.
Context {V S : Type}.

(** A function which only looks at the element. *)
(* nothing in /repo: a use of an element which does not change it *)
Definition looking {A} (f : tyid * V -> M S A) (t : tyid) : M (V * S) A :=
  fun vs => match f (t, fst vs) (snd vs) with
            | Ok s' a => Ok (fst vs, s') a
            | Exn s' e => Exn (fst vs, s') e
            | UB => UB
            end.

(** std::find_if(first,last,pred) (user code, nothing in /repo): variables 0 and 1 are first and last; the result is variable 0.
    [fuel] bounds the number of rounds. *)
Fixpoint w_find_if (fuel : nat) (pred : tyid * V -> M S bool) : walk V S unit :=
  Cmp 0 1 (fun e =>
    if e then Done tt
    else match fuel with
         | O => Lost
         | Datatypes.S n => Ref 0 (looking pred) (fun b => if b then Done tt else Inc 0 (w_find_if n pred))
         end).

(** std::max_element(first,last,less) (user code, nothing in /repo): variable 2 is the iterator to the largest
    element found so far, the result. *)
Fixpoint w_max_loop (fuel : nat) (less : tyid * V -> tyid * V -> M S bool) : walk V S unit :=
  Inc 0 (Cmp 0 1 (fun e =>
    if e then Done tt
    else match fuel with
         | O => Lost
         | Datatypes.S n =>
             Ref 2 (looking (fun x => ret x)) (fun x =>
               Ref 0 (looking (less x)) (fun b => if b then Put 2 0 (w_max_loop n less) else w_max_loop n less))
         end)).
Definition w_max_element (fuel : nat) (less : tyid * V -> tyid * V -> M S bool) : walk V S unit :=
  Dup 0 (Cmp 0 1 (fun e => if e then Done tt else w_max_loop fuel less)).

End Algs.
