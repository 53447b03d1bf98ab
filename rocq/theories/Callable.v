(** * The elements of a function_collection: callable_wrapper.hpp, function_model.hpp *)

From Coq Require Import List Arith Bool.
From Verif Require Import Base Vec Backend Segment Coll StdAlg Algo Access.
Import ListNotations.

Section Callable.
Context {V : Type} {E : Env V} {S : Type} {Args R : Type}.

(** What calling an object of a type does ([x(args...)], [x] being an lvalue): it may change
    the object and the state of the program, give a result, throw. *)
Context (invoke : tyid -> Args -> M (V * S) R).

(** struct table, callable_wrapper.hpp 70-75.  A std::function is rendered by what calling it
    does. *)
Record table : Type := mktable {
  tb_call : ptr -> Args -> M (coll V * S) R;
  tb_info : tyid;
  tb_convert : ptr -> (Args -> M (coll V * S) R)
}.
(** the object referred to by a std::reference_wrapper<Callable> is called: r(args...) in 82-83,
    and by the std::function 87-88 holding r *)
Definition ref_call (T : tyid) (p : ptr) (args : Args) : M (coll V * S) R :=
  on_obj (Some T) p (fun _ => invoke T args).
(** info<Callable> 77-92, [T] is Callable *)
Definition info (T : tyid) : table :=
  mktable (fun p args => ref_call T p args) T (fun p => ref_call T p).

(** callable_wrapper 33-96 *)
Record wrapper : Type := mkwrapper { cw_pt : table; cw_px : ptr }.
(** callable_wrapper(Callable& x) 44, [x] being an object of type [T] at [p] *)
Definition cw_make (T : tyid) (p : ptr) : wrapper := mkwrapper (info T) p.
(** operator bool 48 *)
Definition cw_bool (_ : wrapper) : bool := true.
(** operator() 50-51 *)
Definition cw_call (f : wrapper) (args : Args) : M (coll V * S) R := tb_call (cw_pt f) (cw_px f) args.
(** target_type 53 *)
Definition cw_target_type (f : wrapper) : tyid := tb_info (cw_pt f).
(** target<U> 55-60 *)
Definition cw_target (U : tyid) (f : wrapper) : option ptr :=
  if U =? tb_info (cw_pt f) then Some (cw_px f) else None.
(** operator std::function 64 *)
Definition cw_function (f : wrapper) : Args -> M (coll V * S) R := tb_convert (cw_pt f) (cw_px f).
(** data 66-67 *)
Definition cw_data (f : wrapper) : ptr := cw_px f.

(** function_model.hpp 61-66, 74-84: subtypeid and subaddress of a wrapper *)
Definition fm_subtypeid (f : wrapper) : tyid := cw_target_type f.
Definition fm_subaddress (f : wrapper) : ptr := cw_data f.

(** What an iterator of a function_collection refers to: an element of the index of a segment,
    made by make_value_type<Concrete> (function_model.hpp 116-117, split_segment.hpp 375-395)
    from a reference to the element, whose address the index of the model holds. *)
Fixpoint wrapper_nodes (ns : list (node V)) (p : ptr) : option wrapper :=
  match ns with
  | [] => None
  | n :: ns' =>
      let b := sg_be (n_seg n) in
      if fst p =? v_blk (be_index b) then
        option_map (cw_make (sg_ty (n_seg n))) (nth_error (v_elems (be_index b)) (snd p))
      else wrapper_nodes ns' p
  end.
Definition fc_deref (c : coll V) (it : iter) : option wrapper := wrapper_nodes (c_nodes c) (it_pos it).

(** callable_wrapper_iterator.hpp 76-82: the explicit conversion to Callable* *)
Definition cwi_to (c : coll V) (it : iter) : option ptr := option_map cw_data (fc_deref c it).

End Callable.
