(** * The algorithms of std::vector on the elements of a segment.

    std::vector is not part of /repo.  Vec.v describes its operations by their results; this file
    spells out how libstdc++ gets there (bits/vector.tcc, bits/stl_vector.h), in terms of the
    operations of value_holder and allocator_adaptor modelled in Holder.v.  The store of a segment
    is the cells [base, base+n), capacity beyond.  Used by packed_segment.hpp 45-49 and
    split_segment.hpp 51-56 (store). *)

From Coq Require Import List Arith Lia Bool.
From Verif Require Import Base Holder.
Import ListNotations.

Section Slots.
Context {V : Type} {E : Env V} (t : tyid) (al : alid).

Notation HM := (M (hst V)).

(** std::_Destroy: cells [a, a+n) *)
(** destruction of the elements of store: packed_segment.hpp 227, split_segment.hpp 283 *)
Fixpoint s_destroy (a n : nat) : HM unit :=
  match n with
  | 0 => ret tt
  | S n' => ad_destroy al a ;; s_destroy (S a) n'
  end.

(** std::move: [d, d+n) = [a, a+n), first to last *)
(** part of erase: packed_segment.hpp 205-223, split_segment.hpp 249-274 *)
Fixpoint s_move (d a n : nat) : HM unit :=
  match n with
  | 0 => ret tt
  | S n' => vh_assign t d a ;; s_move (S d) (S a) n'
  end.

(** std::move_backward: [d, d+n) = [a, a+n), last to first *)
(** part of emplace and insert: packed_segment.hpp 133-196, split_segment.hpp 168-223, 489 *)
Fixpoint s_move_back (d a n : nat) : HM unit :=
  match n with
  | 0 => ret tt
  | S n' => vh_assign t (d + n') (a + n') ;; s_move_back d a n'
  end.

(** std::__uninitialized_copy_a, _move_a: constructs [d, d+n) from [a, a+n); destroys what it has
    built when a constructor throws *)
(** part of reserve, insert and the copy of a segment: packed_segment.hpp 124, 193-196, split_segment.hpp 133, 489 *)
Fixpoint s_build (f : nat -> hsrc V) (d a n : nat) : HM unit :=
  match n with
  | 0 => ret tt
  | S n' => ad_construct t al d (f a) ;; try_rethrow (s_build f (S d) (S a) n') (ad_destroy al d)
  end.

(** std::copy from a range of T, or of T&&, to the store: each element is converted to a local
    value_holder in the cell [tmp], assigned and destroyed. *)
(** part of insert: packed_segment.hpp 193-196, split_segment.hpp 489 *)
Fixpoint s_assign_from (f : nat -> hsrc V) (tmp d a n : nat) : HM unit :=
  match n with
  | 0 => ret tt
  | S n' =>
      vh_ctor t Direct tmp (f a) ;;
      try_rethrow (vh_assign t d tmp) (vh_dtor tmp) ;;
      vh_dtor tmp ;;
      s_assign_from f tmp (S d) (S a) n'
  end.

(** erase [f,l) *)
(** store.erase: packed_segment.hpp 205-223, split_segment.hpp 249-274 *)
Definition s_erase (base n f l : nat) : HM unit :=
  if f =? l then ret tt
  else s_move (base + f) (base + l) (n - l) ;; s_destroy (base + f + (n - l)) (l - f).

(** emplace at index [k] when there is room: at the end, directly; in the middle, a temporary in the
    cell [tmp], the last element moved to the free cell after it, the tail shifted and the
    temporary assigned. *)
(** store.emplace: packed_segment.hpp 133, 168, 176, split_segment.hpp 168, 212, 223 *)
Definition s_emplace (base n k tmp : nat) (x : hsrc V) : HM unit :=
  if k =? n then ad_construct t al (base + n) x
  else
    ad_construct t al tmp x ;;
    try_rethrow
      (ad_construct t al (base + n) (MoveH (base + n - 1)) ;;
       s_move_back (base + k + 1) (base + k) (n - 1 - k) ;;
       vh_assign t (base + k) tmp)
      (ad_destroy al tmp) ;;
    ad_destroy al tmp.

(** insert at index [k] of the [m] elements that [f] makes of the cells [src, src+m), when there is
    room *)
(** store.insert: packed_segment.hpp 193-196, split_segment.hpp 489 *)
Definition s_insert (base n k tmp : nat) (f : nat -> hsrc V) (src m : nat) : HM unit :=
  if m =? 0 then ret tt
  else if m <? n - k then
    s_build MoveH (base + n) (base + n - m) m ;;
    s_move_back (base + k + m) (base + k) (n - m - k) ;;
    s_assign_from f tmp (base + k) src m
  else
    s_build f (base + n) (src + (n - k)) (m - (n - k)) ;;
    s_build MoveH (base + n + (m - (n - k))) (base + k) (n - k) ;;
    s_assign_from f tmp (base + k) src (n - k).

(** Change of storage: the elements are moved, or copied if their move constructor may throw
    (std::move_if_noexcept; value_holder<T> is always copy constructible), to the cells from
    [base'] on, then destroyed. *)
(** store.reserve: packed_segment.hpp 124, split_segment.hpp 133 *)
Definition s_relocate (base n base' : nat) : HM unit :=
  (if env_nt_move t then s_build MoveH base' base n else s_build CopyH base' base n) ;;
  s_destroy base n.

End Slots.
