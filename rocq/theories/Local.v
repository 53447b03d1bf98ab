(** * Standard algorithms on local ranges

    A local range [c.begin<T>(),c.end<T>()) or [c.begin(typeid(T)),c.end(typeid(T))) is passed to
    algorithms of the standard library, which modify the elements through the references obtained from
    the iterators.  The iterators are of /repo; the algorithms are user code and are modelled as
    programs which use the elements one after the other. *)

From Coq Require Import List Arith Bool.
From Verif Require Import Base Vec Backend Segment Coll StdAlg Algo Access.
Import ListNotations.

Section Local.
Context {V : Type} {E : Env V} {S : Type}.

(** + on a local iterator: the position of the iterator adapted advances
    (iterator_impl.hpp 135-140, stride_iterator.hpp 139-141, any_iterator.hpp 31-32, or a pointer); beyond the end of the segment it is
    undefined *)
Definition li_add (c : coll V) (l : liter) (n : nat) : option liter :=
  match node_at (c_nodes c) (li_map l) with
  | None => None
  | Some m =>
      match li_pos l with
      | PBase p => if snd p + n <=? be_size (sg_be (n_seg m)) then Some (mkliter (li_map l) (PBase (fst p, snd p + n))) else None
      | PConc p => if snd p + n <=? be_size (sg_be (n_seg m)) then Some (mkliter (li_map l) (PConc (fst p, snd p + n))) else None
      end
  end.
(** - on local iterators: the distance of the positions (iterator_impl.hpp 135-140,
    stride_iterator.hpp 142-143, or of pointers); undefined unless they are of the same kind, and into the same storage *)
Definition li_sub (last first : liter) : option nat :=
  match li_pos last, li_pos first with
  | PBase q, PBase p | PConc q, PConc p => if (fst p =? fst q) && (snd p <=? snd q) then Some (snd q - snd p) else None
  | _, _ => None
  end.
(** * on a local iterator: the address of the object the reference refers to (iterator_impl.hpp
    135-140, stride_iterator.hpp 135, any_iterator.hpp 31-32, or the pointer itself; the value_type of any_collection and
    function_collection refers to the object, any_model.hpp 177, function_model.hpp 117, split_segment.hpp 383) *)
Definition li_ref (c : coll V) (l : liter) : option ptr :=
  match node_at (c_nodes c) (li_map l) with
  | None => None
  | Some n =>
      match li_pos l with
      | PBase p => be_to_concrete (sg_be (n_seg n)) p
      | PConc p => Some p
      end
  end.

(** What an algorithm of the standard library does with a range (user code, nothing in /repo): it ends
    with a result, or uses the element in some position, which may change it, and goes on depending
    on the result. *)
Inductive algo (X : Type) : Type :=
| Stop (x : X)
| Use (A : Type) (k : nat) (f : M (V * S) A) (next : A -> algo X).

(* nothing in /repo: sequencing in programs of the user *)
Fixpoint algo_bind {X Y} (p : algo X) (q : X -> algo Y) : algo Y :=
  match p with
  | Stop _ x => q x
  | Use _ A k f next => Use _ A k f (fun a => algo_bind (next a) q)
  end.

(** The algorithm run on the local range that starts at [first]: the element in position [k] is *(first+k),
    or first[k] (iterator_impl.hpp 208-212).  The reference is to an object of type [T], or to a value_type if [T] is [None]. *)
Fixpoint run_local {X} (T : option tyid) (first : liter) (p : algo X) : M (coll V * S) X :=
  match p with
  | Stop _ x => ret x
  | Use _ A k f next =>
      fun cs =>
        match li_add (fst cs) first k with
        | Some l =>
            match li_ref (fst cs) l with
            | Some q => (bind (on_obj T q (fun _ => f)) (fun a => run_local T first (next a))) cs
            | None => UB
            end
        | None => UB
        end
  end.
(** [alg(first,last)], the algorithm being given the number of elements: it finds it out as last-first, or by
    comparing iterators (stride_iterator.hpp 136, 142-143) *)
Definition on_local {X} (T : option tyid) (first last : liter) (p : nat -> algo X) : M (coll V * S) X :=
  fun cs => match li_sub last first with Some n => run_local T first (p n) cs | None => UB end.

(** ** Two algorithms *)

(** A function which only looks at the element. *)
(* nothing in /repo: a use of an element which does not change it *)
Definition seeing {A} (f : V -> M S A) : M (V * S) A :=
  fun vs => match f (fst vs) (snd vs) with
            | Ok s' a => Ok (fst vs, s') a
            | Exn s' e => Exn (fst vs, s') e
            | UB => UB
            end.

(** std::sort(first,last,less) by insertion (user code, nothing in /repo): [take] moves the value out of
    an element, [put] assigns a value to it.  [sift i x]: the element in position [i] has been moved out, and [x] is to
    be put there or further to the front. *)
Fixpoint sift (take : M (V * S) V) (put : V -> M (V * S) unit) (less : V -> V -> M S bool) (i : nat) (x : V) : algo unit :=
  match i with
  | O => Use _ _ 0 (put x) (fun _ => Stop _ tt)
  | Datatypes.S j =>
      Use _ _ j (seeing (less x)) (fun b =>
        if b then Use _ _ j take (fun y => Use _ _ i (put y) (fun _ => sift take put less j x))
        else Use _ _ i (put x) (fun _ => Stop _ tt))
  end.
Fixpoint sort_from (take : M (V * S) V) (put : V -> M (V * S) unit) (less : V -> V -> M S bool) (m i : nat) : algo unit :=
  match m with
  | O => Stop _ tt
  | Datatypes.S m' => Use _ _ i take (fun x => algo_bind (sift take put less i x) (fun _ => sort_from take put less m' (Datatypes.S i)))
  end.
Definition std_sort (take : M (V * S) V) (put : V -> M (V * S) unit) (less : V -> V -> M S bool) (n : nat) : algo unit :=
  match n with O => Stop _ tt | Datatypes.S m => sort_from take put less m 1 end.

(** std::remove_if(first,last,pred) (user code, nothing in /repo): elements are moved to the front over the ones for
    which [ask] says true; the result is the number of those which are left. *)
Fixpoint compact (take : M (V * S) V) (put : V -> M (V * S) unit) (ask : M (V * S) bool) (m i j : nat) : algo nat :=
  match m with
  | O => Stop _ i
  | Datatypes.S m' =>
      Use _ _ j ask (fun b =>
        if b then compact take put ask m' i (Datatypes.S j)
        else Use _ _ j take (fun y => Use _ _ i (put y) (fun _ => compact take put ask m' (Datatypes.S i) (Datatypes.S j))))
  end.
Fixpoint remove_from (take : M (V * S) V) (put : V -> M (V * S) unit) (ask : M (V * S) bool) (m i : nat) : algo nat :=
  match m with
  | O => Stop _ i
  | Datatypes.S m' =>
      Use _ _ i ask (fun b => if b then compact take put ask m' i (Datatypes.S i) else remove_from take put ask m' (Datatypes.S i))
  end.
Definition std_remove_if (take : M (V * S) V) (put : V -> M (V * S) unit) (ask : M (V * S) bool) (n : nat) : algo nat :=
  remove_from take put ask n 0.

End Local.
Arguments Stop {V S X} x.
Arguments Use {V S X A} k f next.
Arguments algo V S X : clear implicits.
