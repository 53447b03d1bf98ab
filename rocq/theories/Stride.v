(** * Iterators of base_collection at the level of addresses: stride_iterator.hpp,
    packed_segment.hpp, base_model.hpp

    In the rest of the model a pointer is a block and an index.  Here it is an address, the
    elements have a size, and the subobject of type Base of a Derived element is at some
    offset.  Addresses and sizes are integers of a machine with 64 bits; arithmetic which
    overflows is undefined, [None]. *)

From Coq Require Import ZArith List Bool.
Import ListNotations.
Open Scope Z_scope.

(** stride_iterator.hpp 145-146: p and stride_ *)
Record stride_it : Type := mkstride { si_p : Z; si_stride : Z }.

(** [char_ptr(p)+z]: the address space is not left *)
Definition char_add (p z : Z) : option Z :=
  if (0 <=? p + z) && (p + z <? 2 ^ 64) then Some (p + z) else None.
(** a value of type ptrdiff_t *)
Definition ptrdiff (z : Z) : option Z :=
  if (- 2 ^ 63 <=? z) && (z <? 2 ^ 63) then Some z else None.

(** stride_iterator.hpp 136-138 *)
Definition si_equal (x y : stride_it) : bool := si_p x =? si_p y.
Definition si_increment (x : stride_it) : option stride_it :=
  match char_add (si_p x) (si_stride x) with Some p => Some (mkstride p (si_stride x)) | None => None end.
Definition si_decrement (x : stride_it) : option stride_it :=
  match char_add (si_p x) (- si_stride x) with Some p => Some (mkstride p (si_stride x)) | None => None end.
(** advance 139-141: [n*(std::ptrdiff_t)stride_] *)
Definition si_advance (n : Z) (x : stride_it) : option stride_it :=
  match ptrdiff (si_stride x) with
  | None => None
  | Some s =>
      match ptrdiff (n * s) with
      | None => None
      | Some d => match char_add (si_p x) d with Some p => Some (mkstride p (si_stride x)) | None => None end
      end
  end.
(** distance_to 142-143: the division truncates, division by zero is undefined *)
Definition si_distance_to (x y : stride_it) : option Z :=
  match ptrdiff (si_p y - si_p x), ptrdiff (si_stride x) with
  | Some d, Some s => if s =? 0 then None else ptrdiff (Z.quot d s)
  | _, _ => None
  end.
(** [x<y] of boost::iterator_facade: the distance from x to y is positive *)
Definition si_less (x y : stride_it) : option bool := option_map (Z.ltb 0) (si_distance_to x y).
(** [*x] 135: the address of the Base referred to *)
Definition si_deref (x : stride_it) : Z := si_p x.

(** Conversion of Derived* to Base* and back (static_cast): the offset is added, except to a
    null pointer.  stride_iterator.hpp 73-74, 103-104, base_model.hpp 107-111 *)
Definition up (off p : Z) : Z := if p =? 0 then 0 else p + off.
Definition down (off p : Z) : Z := if p =? 0 then 0 else p - off.
(** explicit stride_iterator(DerivedValue* ) 73-74; explicit operator DerivedValue* 103-104 *)
Definition si_of_derived (size off p : Z) : stride_it := mkstride (up off p) size.
Definition si_to_derived (off : Z) (x : stride_it) : Z := down off (si_p x).

(** The storage of a packed segment: address of the first element (s.data(), possibly null if
    there is none), number of elements, their size and the offset of Base in them.
    sizeof(value_holder<T>) is sizeof(T), value_holder.hpp 48-52. *)
Record pseg : Type := mkpseg { ps_data : Z; ps_n : nat; ps_size : Z; ps_off : Z }.
(** packed_segment.hpp nv_begin 102-105, nv_end 109-112, value_ptr 277-280, sentinel 305-312 *)
Definition ps_begin (s : pseg) : stride_it := mkstride (up (ps_off s) (ps_data s)) (ps_size s).
Definition ps_end (s : pseg) : stride_it :=
  mkstride (up (ps_off s) (ps_data s + Z.of_nat (ps_n s) * ps_size s)) (ps_size s).

(** What the allocator and the compiler guarantee: sizes are positive, Base is within the
    element, the array has less than 2^63 bytes and is within the address space. *)
Record pseg_ok (s : pseg) : Prop := {
  pso_size : 0 < ps_size s;
  pso_off : 0 <= ps_off s < ps_size s;
  pso_null : ps_data s = 0 -> ps_n s = 0%nat;
  pso_data : 0 <= ps_data s;
  pso_bytes : Z.of_nat (ps_n s) * ps_size s < 2 ^ 63;
  pso_range : ps_data s + Z.of_nat (ps_n s) * ps_size s + ps_off s < 2 ^ 64;
  pso_size63 : ps_size s < 2 ^ 63
}.

(** Where the blocks of the model are in memory: address, capacity in elements, size of an
    element and offset of Base in it. *)
(* nothing in /repo: arrays at addresses *)
Record place : Type := mkplace { pl_addr : Z; pl_cap : nat; pl_size : Z; pl_off : Z }.
(** The pointer to base for the [k]-th position of a block. *)
(* nothing in /repo: the address of an element *)
Definition raw (pl : nat -> place) (p : nat * nat) : Z :=
  pl_addr (pl (fst p)) + Z.of_nat (snd p) * pl_size (pl (fst p)) + pl_off (pl (fst p)).
(** Different blocks do not overlap. *)
(* nothing in /repo: what the memory allocator guarantees *)
Definition disjoint (pl : nat -> place) : Prop := forall b b', b <> b' ->
  pl_addr (pl b) + Z.of_nat (pl_cap (pl b)) * pl_size (pl b) <= pl_addr (pl b') \/
  pl_addr (pl b') + Z.of_nat (pl_cap (pl b')) * pl_size (pl b') <= pl_addr (pl b).
(** Base is within the elements. *)
(* nothing in /repo: what the memory allocator guarantees *)
Definition fits (pl : nat -> place) : Prop := forall b, 0 <= pl_off (pl b) < pl_size (pl b).
(** The past-the-end pointer of a full block is equal to another pointer. *)
(* nothing in /repo: one array ends where another begins *)
Definition collide (pl : nat -> place) (b : nat) (p : nat * nat) : bool := raw pl (b, pl_cap (pl b)) =? raw pl p.
