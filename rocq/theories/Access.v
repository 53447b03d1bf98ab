(** * Access to the elements through references and addresses

    Elements are objects in memory: function objects passed a reference to one, and callers
    holding its address, may modify it.  An algorithm of Algo.v run with [coll V * S] as the
    state of the caller and [through f] for its function object is that algorithm with a
    function object which looks at the elements, and may change them, through the references
    it is passed. *)

From Coq Require Import List Arith Bool.
From Verif Require Import Base Vec Backend Segment Coll StdAlg Algo.
Import ListNotations.

Section Access.
Context {V : Type} {E : Env V} {S : Type}.

(** The object at an address, with its dynamic type: one of the elements of the vector of some
    segment (packed_segment.hpp 329, split_segment.hpp 500: the member s). *)
Fixpoint obj_at (ns : list (node V)) (p : ptr) : option (tyid * V) :=
  match ns with
  | [] => None
  | n :: ns' =>
      match be_deref_conc (sg_be (n_seg n)) p with
      | Some v => Some (sg_ty (n_seg n), v)
      | None => obj_at ns' p
      end
  end.

(** A new value for the object at an address: a change made through a reference given out by
    iterator_impl.hpp 97-98 or a local iterator. *)
Definition seg_write (p : ptr) (v : V) (s : segment V) : segment V :=
  rewrite_seg (fun _ k x => if ptr_eqb (vptr (be_store (sg_be s)) k) p then v else x) s.
Definition c_write (p : ptr) (v : V) (c : coll V) : coll V :=
  mkcoll (map (fun n => mknode (n_id n) (n_key n) (seg_write p v (n_seg n))) (c_nodes c))
         (c_buckets c) (c_cache c) (c_al c).

(** What user code does with a reference (no code in /repo; the reference comes from
    iterator_impl.hpp 97-98, type_restitution.hpp 38-146): [f] run on the object at [p], of dynamic type [t], referred to as an object of type [T]
    (as a value_type if [T] is [None]): undefined if there is no such object there.  [f] sees
    the current value of the object and leaves it with another one, even if it throws. *)
Definition on_obj {A} (T : option tyid) (p : ptr) (f : tyid -> M (V * S) A) : M (coll V * S) A :=
  fun cs =>
    let (c, s) := cs in
    match obj_at (c_nodes c) p with
    | Some (t, v) =>
        if match T with Some T' => t =? T' | None => true end then
          match f t (v, s) with
          | Ok (v', s') a => Ok (c_write p v' c, s') a
          | Exn (v', s') e => Exn (c_write p v' c, s') e
          | UB => UB
          end
        else UB
    | None => UB
    end.

(** A function object passed a reference (functional.hpp 60-140).  (What the reference referred to when the algorithm
    formed it, [r_val], is not used.) *)
Definition through {A} (f : view V -> tyid -> M (V * S) A) (x : view V) : M (coll V * S) A :=
  on_obj (fst x) (r_addr (snd x)) (f x).

End Access.
