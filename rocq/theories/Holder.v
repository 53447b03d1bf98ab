(** * value_holder and allocator_adaptor: how single elements come to life and die.

    Vec.v describes what std::vector does to the elements of a segment as a whole.  This file
    goes one level down: it models, on memory cells, the functions through which a vector
    constructs, assigns, compares and destroys a single element (value_holder.hpp 64-227) and
    the way the user's allocator takes part in it (allocator_adaptor.hpp 88-275).  Slots.v
    models the vector algorithms that call these functions.

    Simplification: one element type [t] at a time.  A reference to T and a reference to the
    value_holder<T> around it are the same cell ("a pointer to value_holder_base<T> can be
    reinterpret_cast'ed to T*", value_holder.hpp 47). *)

From Coq Require Import List Arith Lia Bool.
From Verif Require Import Base.
Import ListNotations.

(** Who runs a constructor or destructor of T: the user's allocator, through
    allocator_traits::construct/destroy, or the library itself (placement new, explicit
    destructor call). *)
(* value_holder.hpp 95-129 (through the allocator) and 133-158 (direct), allocator_adaptor.hpp 140-246 *)
Inductive via := Through (al : alid) | Direct.

(** What a constructor of an object that is no element may be given: the arguments of the
    caller, numbered, the tag std::allocator_arg and the adaptor. *)
Inductive carg := CArg (n : nat) | CTag | CAdaptor (al : alid).

(** What an observer of the user's constructors, destructors and allocator sees. *)
(* nothing in /repo: what the user's type and allocator get to see *)
Inductive event :=
| Made (v : via) (a : nat)                (* a T was constructed in the cell [a] *)
| Ended (v : via) (a : nat)               (* the T in the cell [a] was destroyed *)
| Built (v : via) (args : list carg)      (* an object of another type was constructed *)
| Wiped (v : via).                        (* an object of another type was destroyed *)

(** Cells that hold a T, the events so far and the number of fallible steps so far. *)
(* nothing in /repo: the cells of a vector *)
Record hst (V : Type) : Type := mkhst {
  h_mem : nat -> option V;
  h_log : list event;
  h_clock : nat
}.
Arguments mkhst {V} _ _ _.
Arguments h_mem {V} _ _.
Arguments h_log {V} _.
Arguments h_clock {V} _.

(* nothing in /repo: writes a cell *)
Definition cell_set {V} (m : nat -> option V) (a : nat) (x : option V) : nat -> option V :=
  fun b => if b =? a then x else m b.

(** The argument of a constructor of value_holder<T>: a T to copy or to move from, arguments
    that make the value [x], another value_holder<T> to copy or to move from. *)
(* the constructors of value_holder, value_holder.hpp 95-147 *)
Inductive hsrc (V : Type) : Type :=
| CopyT (b : nat)
| MoveT (b : nat)
| Emplacing (x : V)
| CopyH (b : nat)
| MoveH (b : nat).
Arguments CopyT {V} b.
Arguments MoveT {V} b.
Arguments Emplacing {V} x.
Arguments CopyH {V} b.
Arguments MoveH {V} b.

Section Holder.
Context {V : Type} {E : Env V} (t : tyid).

Notation HM := (M (hst V)).

(** ** The user's type *)

(** The value of a live object; anything else is undefined. *)
(* nothing in /repo: reads a cell *)
Definition h_read (a : nat) : HM V :=
  fun s => match h_mem s a with Some x => Ok s x | None => UB end.
(** A constructor needs a free cell. *)
(* nothing in /repo: a cell holds no object *)
Definition h_vacant (a : nat) : HM unit :=
  fun s => match h_mem s a with Some _ => UB | None => Ok s tt end.
(* nothing in /repo: writes a cell *)
Definition h_write (a : nat) (x : option V) : HM unit :=
  modify (fun s => mkhst (cell_set (h_mem s) a x) (h_log s) (h_clock s)).
(* nothing in /repo: records an event *)
Definition h_emit (e : event) : HM unit :=
  modify (fun s => mkhst (h_mem s) (h_log s ++ [e]) (h_clock s)).
(** A step that may throw. *)
(* nothing in /repo: user code, which may throw *)
Definition h_tick : HM unit :=
  fun s => let s' := mkhst (h_mem s) (h_log s) (S (h_clock s)) in
           if env_fault (h_clock s) then Exn s' UserExn else Ok s' tt.
(** The object is left with a valid but unspecified value. *)
(* nothing in /repo: an unspecified value *)
Definition h_unspec (a : nat) : HM unit :=
  modify (fun s => mkhst (cell_set (h_mem s) a (Some (env_junk (h_clock s) a))) (h_log s) (S (h_clock s))).

(** T(const T&), through the allocator or by placement new. *)
(* nothing in /repo: copy construction by the user's type *)
Definition t_copy (v : via) (a b : nat) : HM unit :=
  x <- h_read b ;; h_vacant a ;; h_tick ;; h_write a (Some x) ;; h_emit (Made v a).
(** T(T&&): the source keeps an unspecified value. *)
(* nothing in /repo: move construction by the user's type *)
Definition t_move (v : via) (a b : nat) : HM unit :=
  x <- h_read b ;; h_vacant a ;;
  (if env_nt_move t then ret tt else try_rethrow h_tick (h_unspec b)) ;;
  h_write a (Some x) ;; h_emit (Made v a) ;; h_unspec b.
(** T(args...) *)
(* nothing in /repo: construction from arguments by the user's type *)
Definition t_make (v : via) (a : nat) (x : V) : HM unit :=
  h_vacant a ;; h_tick ;; h_write a (Some x) ;; h_emit (Made v a).
(** ~T() *)
(* nothing in /repo: destruction by the user's type *)
Definition t_end (v : via) (a : nat) : HM unit :=
  h_read a ;; h_write a None ;; h_emit (Ended v a).
(** T& operator=(T&&); the value after a self-assignment is unspecified. *)
(* nothing in /repo: move assignment by the user's type *)
Definition t_assign (a b : nat) : HM unit :=
  x <- h_read b ;; h_read a ;;
  (if env_nt_assign t then ret tt else try_rethrow h_tick (h_unspec a ;; h_unspec b)) ;;
  h_write a (Some x) ;; h_unspec b.

(** ** value_holder<T> *)

(** copy: value_holder.hpp 167-192 *)
Definition vh_copy (v : via) (a b : nat) : HM unit :=
  if env_copyable t then t_copy v a b else throw (NotCopyConstructible t).

(** The constructors with an allocator (value_holder.hpp 91-126, [v = Through al]) and without
    (133-147, [v = Direct]). *)
Definition vh_ctor (v : via) (a : nat) (x : hsrc V) : HM unit :=
  match x with
  | CopyT b => vh_copy v a b        (* 95-97, 133-135 *)
  | MoveT b => t_move v a b         (* 102-104, 136-138 *)
  | Emplacing y => t_make v a y     (* 109-111, 139-141 *)
  | CopyH b => vh_copy v a b        (* 116-118, 142-144 *)
  | MoveH b => t_move v a b         (* 123-126, 145-147 *)
  end.

(** operator=(value_holder&&) and move_assign: value_holder.hpp 150-156, 194-212.  A violated
    static_assert (a program that does not compile) is modelled as undefined behaviour. *)
Definition vh_assign (a b : nat) : HM unit :=
  if env_assignable t then t_assign a b
  else if negb (env_nt_move t) then ub
  else if a =? b then ret tt
  else t_end Direct a ;; t_move Direct a b.

(** ~value_holder(): value_holder.hpp 158 *)
Definition vh_dtor (a : nat) : HM unit := t_end Direct a.

(** operator==: value_holder.hpp 160-164, 214-226 *)
Definition vh_equal (a b : nat) : HM bool :=
  if env_eqcomp t then x <- h_read a ;; y <- h_read b ;; h_tick ;; ret (env_veq t x y)
  else throw (NotEqualityComparable t).

(** ** allocator_adaptor *)

(** A type other than value_holder<T>: does it use the allocator, and is it constructible from
    (allocator_arg,allocator,args...)? *)
(* nothing in /repo: what the standard says of a type's special members *)
Record otype := mkotype { o_ua : bool; o_ic : bool }.

(** uses_alloc_ctor: allocator_adaptor.hpp 59-75 *)
Definition uses_alloc_ctor (o : otype) : nat :=
  if o_ua o then 2 - (if o_ic o then 1 else 0) else 0.

(** The arguments that reach the constructor: construct_ and transform_tuple,
    allocator_adaptor.hpp 224-246 and 248-275.  With an allocator first, or last, or not at
    all. *)
Definition with_alloc (al : alid) (k : nat) (args : list carg) : list carg :=
  match k with
  | 0 => args
  | 1 => CTag :: CAdaptor al :: args
  | _ => args ++ [CAdaptor al]
  end.

(** construct(T* p,args...) for other types: allocator_adaptor.hpp 139-145, 224-246 *)
Definition ad_construct_other (al : alid) (o : otype) (args : list carg) : HM unit :=
  h_emit (Built Direct (with_alloc al (uses_alloc_ctor o) args)).

(** construct(pair*,piecewise_construct,x,y): allocator_adaptor.hpp 153-169.  The two
    components are constructed in order. *)
Definition ad_construct_piecewise (al : alid) (o1 o2 : otype) (x y : list carg) : HM unit :=
  h_emit (Built Direct (with_alloc al (uses_alloc_ctor o1) x)) ;;
  h_emit (Built Direct (with_alloc al (uses_alloc_ctor o2) y)).

(** The four other ways to construct a pair: allocator_adaptor.hpp 171-201.  [PairOf x y] stands
    for construct(p,x,y) as well as for construct(p,pair) with members [x] and [y]. *)
Inductive pair_args := PairDefault | PairOf (x y : nat) | PairPieces (x y : list carg).
Definition ad_construct_pair (al : alid) (o1 o2 : otype) (p : pair_args) : HM unit :=
  match p with
  | PairDefault => ad_construct_piecewise al o1 o2 [] []
  | PairOf x y => ad_construct_piecewise al o1 o2 [CArg x] [CArg y]
  | PairPieces x y => ad_construct_piecewise al o1 o2 x y
  end.

(** destroy(T* p) for other types: allocator_adaptor.hpp 203-207 *)
Definition ad_destroy_other : HM unit := h_emit (Wiped Direct).

(** construct(value_holder<T>*,args...): allocator_adaptor.hpp 147-151 *)
Definition ad_construct (al : alid) (a : nat) (x : hsrc V) : HM unit := vh_ctor (Through al) a x.

(** destroy(value_holder<T>* p): allocator_adaptor.hpp 209-215 *)
Definition ad_destroy (al : alid) (a : nat) : HM unit := t_end (Through al) a.

(** ** What a container can do

    A container with allocator [al] (std::vector, std::unordered_map) constructs and destroys
    what it stores through allocator_traits, that is, the adaptor.  In its algorithms it also
    assigns and compares elements and creates local value_holders on the stack ([o_local], as
    std::copy does when it assigns a T to a value_holder<T>). *)
Inductive cop :=
| o_construct (a : nat) (x : hsrc V)
| o_destroy (a : nat)
| o_assign (a b : nat)
| o_equal (a b : nat)
| o_local (a : nat) (x : hsrc V)
| o_local_end (a : nat)
| o_other (o : otype) (args : list carg)
| o_pair (o1 o2 : otype) (p : pair_args)
| o_wipe.

(* nothing in /repo: one use of the adaptor or of a value_holder, as std::vector makes it *)
Definition perform (al : alid) (o : cop) : HM unit :=
  match o with
  | o_construct a x => ad_construct al a x
  | o_destroy a => ad_destroy al a
  | o_assign a b => vh_assign a b
  | o_equal a b => vh_equal a b ;; ret tt
  | o_local a x => vh_ctor Direct a x
  | o_local_end a => vh_dtor a
  | o_other o args => ad_construct_other al o args
  | o_pair o1 o2 p => ad_construct_pair al o1 o2 p
  | o_wipe => ad_destroy_other
  end.

End Holder.

(** ** Which types can be stored

    is_acceptable: is_acceptable.hpp 29-36.  [impl] is what the model of the collection says
    (is_implementation: base_model.hpp 37-38, any_model.hpp 103-105, function_model.hpp 52-53),
    [move] is is_move_constructible. *)
Definition is_acceptable (impl move assignable nt_move : bool) : bool :=
  impl && move && (assignable || nt_move).
