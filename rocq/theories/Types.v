(** * Static types of arguments: base_model.hpp, any_model.hpp, function_model.hpp, is_acceptable.hpp

    Coll.v takes what insert needs to know of an argument as a record [arg].  Here the record is
    computed from the C++ expression, as the overloads and type traits of the three models do, and
    the element is read through the pointer the models provide. *)

From Coq Require Import List Arith Bool.
From Verif Require Import Base Vec Backend Segment Coll.
Import ListNotations.

(** Facts about the types of a program: is_base_of<B,D> (true for D=B), is_final (is_final.hpp
    61-65), whether a class is polymorphic; the position of the B subobject in a D object; the
    traits used by is_acceptable.hpp 34-39; whether a callable suits the signature of a
    function_collection (is_invocable.hpp); the type_info object typeid(T) evaluates to, and the one which the
    run-time type information of an object at an address gives (they may be different objects
    for one type, in dynamic libraries); the type void. *)
Record lang : Type := mklang {
  l_base_of : tyid -> tyid -> bool;
  l_final : tyid -> bool;
  l_poly : tyid -> bool;
  l_off : tyid -> tyid -> nat;
  l_move_con : tyid -> bool;
  l_move_asg : tyid -> bool;
  l_nt_move_con : tyid -> bool;
  l_invocable : tyid -> bool;
  l_typeid : tyid -> tiaddr;
  l_rtti : nat -> tyid -> tiaddr;
  l_void : tyid
}.

(** The model of the collection: base_collection<Base>, base_collection.hpp 26-47,
    any_collection<Concept>, any_collection.hpp 26-47, function_collection<Signature>,
    function_collection.hpp 26-48. *)
Inductive model : Type := KBase (b : tyid) | KAny | KFun.

(** The static type of an expression without const and references: a type_erasure::any<Concept2,T>
    (is typeid_ part of Concept2; is it relaxed; is assignable<> part of it,
    assignable<_self,_self&&>), a callable_wrapper<Signature2>, or any other type. *)
(* the kinds of types base_model.hpp 39-73, any_model.hpp 46-139 and function_model.hpp 36-80 distinguish *)
Inductive ctype : Type :=
| CType (t : tyid)
| CAny (t : tyid) (has_typeid relaxed asg asg_move : bool)
| CWrapper (t : tyid).
(* nothing in /repo: a name for a type *)
Definition ct_id (ct : ctype) : tyid := match ct with CType t | CAny t _ _ _ _ | CWrapper t => t end.

(** An object (of the C++ language, nothing in /repo): its type, its address, its value.
    Subobjects are objects. *)
Record object (V : Type) : Type := mkobj { o_ty : tyid; o_addr : nat; o_val : V }.
Arguments mkobj {V} _ _ _. Arguments o_ty {V} _. Arguments o_addr {V} _. Arguments o_val {V} _.

(** An expression passed to insert, poly_collection.hpp 681-726: its static type, whether it is const, whether an rvalue; the object it designates; the complete object
    of which that is a subobject (or the same); the object that an any or a callable_wrapper holds or refers to,
    [None] for an empty any. *)
Record expr (V : Type) : Type := mkexpr {
  e_type : ctype;
  e_const : bool;
  e_rvalue : bool;
  e_self : object V;
  e_whole : object V;
  e_held : option (object V)
}.
Arguments mkexpr {V} _ _ _ _ _ _. Arguments e_type {V} _. Arguments e_const {V} _. Arguments e_rvalue {V} _.
Arguments e_self {V} _. Arguments e_whole {V} _. Arguments e_held {V} _.

Section Types.
Context {V : Type} {E : Env V} (L : lang).
Notation CM := (M (coll V * world)).

(** is_implementation: base_model.hpp 37-38, any_model.hpp 97-99, function_model.hpp 48-49 *)
Definition is_implementation (k : model) (ct : ctype) : bool :=
  match k with
  | KBase b => l_base_of L b (ct_id ct)
  | KAny => true
  | KFun => l_invocable L (ct_id ct)
  end.

(** is_terminal: base_model.hpp 39-40, any_model.hpp 67-75, function_model.hpp 36-41 *)
Definition is_terminal (k : model) (ct : ctype) : bool :=
  match k with
  | KBase _ => l_final L (ct_id ct)
  | KAny => match ct with CAny _ true _ _ _ => false | _ => true end
  | KFun => match ct with CWrapper _ => false | _ => true end
  end.

(** is_acceptable.hpp 33-40; any_model.hpp 46-56 *)
Definition is_acceptable (k : model) (ct : ctype) : bool :=
  let usual := is_implementation k ct && l_move_con L (ct_id ct) &&
               (l_move_asg L (ct_id ct) || l_nt_move_con L (ct_id ct)) in
  match k, ct with
  | KAny, CAny _ _ relaxed asg asg_move => (relaxed || asg || asg_move) && usual
  | _, _ => usual
  end.

(** subtypeid: base_model.hpp 51-55 (typeid(x) is the dynamic type only if the static one is
    polymorphic), any_model.hpp 103-115 (typeid_of an empty any is typeid(void)), function_model.hpp
    54-62 (a wrapper always has a target) *)
Definition subtypeid (k : model) (e : expr V) : tiaddr :=
  let static := l_typeid L (ct_id (e_type e)) in
  let held := match e_held e with Some o => l_rtti L (o_addr o) (o_ty o) | None => l_typeid L (l_void L) end in
  match k with
  | KBase _ =>
      if is_terminal k (e_type e) then static
      else if l_poly L (ct_id (e_type e)) then l_rtti L (o_addr (e_whole e)) (o_ty (e_whole e)) else static
  | KAny => match e_type e with CAny _ true _ _ _ => held | _ => static end
  | KFun => match e_type e with CWrapper _ => held | _ => static end
  end.

(** subaddress: base_model.hpp 57-73 (dynamic_cast<void*> gives the complete object),
    any_model.hpp 117-139, function_model.hpp 64-80; null for an empty any *)
Definition subaddress (k : model) (e : expr V) : nat :=
  let held := match e_held e with Some o => o_addr o | None => 0 end in
  match k with
  | KBase _ => if is_terminal k (e_type e) then o_addr (e_self e) else o_addr (e_whole e)
  | KAny => match e_type e with CAny _ true _ _ _ => held | _ => o_addr (e_self e) end
  | KFun => match e_type e with CWrapper _ => held | _ => o_addr (e_self e) end
  end.

(** Does insert(x) compile?  T must be an implementation (poly_collection.hpp 681), acceptable if it
    is terminal (the static_assert 1007-1011), and dynamic_cast (base_model.hpp 57-67, needed by
    push_back if the type is not terminal) wants a polymorphic type *)
Definition compiles (k : model) (ct : ctype) : bool :=
  is_implementation k ct && (is_acceptable k ct || negb (is_terminal k ct)) &&
  match k with KBase _ => is_terminal k ct || l_poly L (ct_id ct) | _ => true end.

(** copy or move: segment.hpp 141-199, push_back_terminal with nv_push_back(const Concrete&),
    nv_push_back(Concrete&&) of packed_segment.hpp 148-162 and split_segment.hpp 187-203 *)
Definition how_of (e : expr V) : how := if e_rvalue e && negb (e_const e) then HMove else HCopy.

(** The object at an address as which static_cast<const Concrete*> (packed_segment.hpp 246-252,
    split_segment.hpp 355-361) refers to: there must be one of that type *)
Definition object_at (h : list (object V)) (a : nat) (t : tyid) : option (object V) :=
  find (fun o => (o_addr o =? a) && (o_ty o =? t)) h.

(** What the overloads of insert and their helpers, poly_collection.hpp 681-726, 962-1083, know of the expression ([v]: the value read). *)
Definition arg_of (k : model) (e : expr V) (v : V) : arg V :=
  mkarg (l_typeid L (ct_id (e_type e))) (subtypeid k e)
        (is_acceptable k (e_type e)) (is_terminal k (e_type e)) (how_of e) (SVal v).

(** The value read by segment::push_back and segment::insert, segment.hpp 142-157, 165-197: through the pointer *)
Definition read_sub (k : model) (h : list (object V)) (e : expr V) : option V :=
  option_map o_val (object_at h (subaddress k e) (env_ty (subtypeid k e))).
(** The value read by push_back, poly_collection.hpp 1052-1083: directly from the expression (push_back_terminal) if its
    static type is terminal or turns out to be the dynamic one *)
Definition read_push (k : model) (h : list (object V)) (e : expr V) : option V :=
  if is_acceptable k (e_type e) &&
     (is_terminal k (e_type e) || (env_ty (subtypeid k e) =? env_ty (l_typeid L (ct_id (e_type e)))))
  then Some (o_val (e_self e)) else read_sub k h e.
Definition with_value {A} (o : option V) (f : V -> CM A) : CM A := match o with Some v => f v | None => ub end.

(** insert(x) 680-685, with the objects [h] in memory (other than those in the collection, see C35 for
    those); reading through an invalid pointer is undefined.  [map_iterator_for] does not use the value. *)
Definition insert_expr (k : model) (h : list (object V)) (e : expr V) : CM iter :=
  i <- map_iterator_for (arg_of k e (o_val (e_self e))) ;;
  with_value (read_push k h e) (fun v =>
    p <- on_seg i (seg_push_back (env_ty (subtypeid k e)) (how_of e) (SVal v)) ;;
    mk_iter (Some i) p).
(** insert(hint,x) 687-701 *)
Definition insert_hint_expr (k : model) (hint : iter) (h : list (object V)) (e : expr V) : CM iter :=
  i <- map_iterator_for (arg_of k e (o_val (e_self e))) ;;
  b <- same_node (it_map hint) i ;;
  p <- (if b : bool
        then with_value (read_sub k h e) (fun v =>
               on_seg i (seg_insert (env_ty (subtypeid k e)) (how_of e) (PBase (it_pos hint)) (SVal v)))
        else with_value (read_push k h e) (fun v =>
               on_seg i (seg_push_back (env_ty (subtypeid k e)) (how_of e) (SVal v)))) ;;
  mk_iter (Some i) p.
(** insert(pos,x) with a local iterator 703-717 *)
Definition insert_pos_expr (k : model) (pos : liter) (h : list (object V)) (e : expr V) : CM liter :=
  with_value (read_sub k h e) (fun v => c_insert_pos pos (arg_of k e v)).
(** insert(first,last) 719-742, where the iterators dereference in turn to the expressions [es], all of
    static type [ct] and of the same value category; [fwd]: forward iterators.  For terminal types the segment reads from *first itself *)
Fixpoint insert_loop (k : model) (h : list (object V)) (es : list (expr V)) : CM unit :=
  match es with
  | [] => ret tt
  | e :: es' => insert_expr k h e ;; insert_loop k h es'
  end.
Definition insert_exprs (k : model) (h : list (object V)) (ct : ctype) (fwd : bool) (hw : how) (es : list (expr V)) : CM unit :=
  if is_terminal k ct
  then c_insert_range_terminal (l_typeid L (ct_id ct)) hw fwd (map (fun e => o_val (e_self e)) es)
  else insert_loop k h es.
(** insert(pos,first,last) with pos a local_iterator<T> 856-870, for T with type_info [a], and local_insert
    1085-1118.  [ctor]: can a T be constructed from the expressions? If so [conv] gives the value of the result *)
Definition local_arg (k : model) (t : tyid) (ctor : bool) (conv : expr V -> V) (h : list (object V)) (e : expr V)
  : option (option tyid * how * V) :=
  let made x := if ctor then Some (x, how_of e, conv e) else None in
  if is_implementation k (e_type e) then
    if env_ty (subtypeid k e) =? t then option_map (fun v => (Some t, how_of e, v)) (read_sub k h e)
    else made (Some (env_ty (subtypeid k e)))
  else made None.
Fixpoint insert_local_loop (k : model) (i : nat) (t : tyid) (ctor : bool) (conv : expr V -> V) (h : list (object V)) (p : ptr)
  (es : list (expr V)) : CM ptr :=
  match es with
  | [] => ret p
  | e :: es' =>
      match local_arg k t ctor conv h e with
      | None => ub
      | Some x =>
          q <- c_insert_lpos_loop i t p [x] ;;
          insert_local_loop k i t ctor conv h q es'
      end
  end.
Definition insert_local_exprs (k : model) (i : nat) (a : tiaddr) (ctor : bool) (conv : expr V -> V) (h : list (object V)) (p : ptr)
  (es : list (expr V)) : CM liter :=
  q <- insert_local_loop k i (env_ty a) ctor conv h p es ;;
  ret (mkliter i (PConc (fst q, snd q - length es))).

End Types.
