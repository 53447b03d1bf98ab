(** * The type-erased segment with cached sentinel: segment.hpp *)

From Coq Require Import List Arith Lia Bool Permutation.
From Verif Require Import Base Vec Backend.
Import ListNotations.

(** segment.hpp 306-307 (pimpl, snt); [sg_ty] is the Concrete type of the backend
    implementation, [sg_al] the allocator it was built with. *)
Record segment (V : Type) : Type := mkseg {
  sg_ty : tyid;
  sg_al : alid;
  sg_be : backend V;
  sg_snt : ptr
}.
Arguments mkseg {V} _ _ _ _.
Arguments sg_ty {V} _.
Arguments sg_al {V} _.
Arguments sg_be {V} _.
Arguments sg_snt {V} _.

Section Segment.
Context {V : Type} {E : Env V}.

Notation SM := (M (segment V * world)).

(** impl(), segment.hpp 272-296 *)
Definition on_be {A} (m : M (backend V * world) A) : SM A :=
  on_field sg_be (fun b s => mkseg (sg_ty s) (sg_al s) b (sg_snt s)) m.

(** filter(base_sentinel) / filter(range), segment.hpp 303-304: runs only if the
    backend operation returned normally. *)
Definition set_snt (p : ptr) : SM unit :=
  modify (fun s => (mkseg (sg_ty (fst s)) (sg_al (fst s)) (sg_be (fst s)) p, snd s)).
Definition filter_snt (m : M (backend V * world) ptr) : SM unit :=
  p <- on_be m ;; set_snt p.
Definition filter_range (m : M (backend V * world) (ptr * ptr)) : SM ptr :=
  r <- on_be m ;; set_snt (snd r) ;; ret (fst r).

(** The elements handled by a segment operation must be of the segment's type: the
    nv_ path downcasts the backend (segment.hpp 284-295) and the virtual path
    reinterprets the element address (packed_segment.hpp 145-146, 256-264; split_segment.hpp
    184-185, 403-416).  Otherwise the behaviour is undefined. *)
Definition check_ty (t : tyid) : SM unit :=
  s <- getx ;; if sg_ty s =? t then ret tt else ub.

(** make<T>(al) 53-57 and make_from_prototype 61-64 (empty_copy), with set_sentinel 302 *)
Definition seg_make (t : tyid) (al : alid) : M world (segment V) :=
  b <- be_make t ;; ret (mkseg t al b (be_end b)).

(** segment(const segment&,al) 69-70 (and 66-67 with the source's allocator) *)
Definition seg_copy (x : segment V) (al : alid) : M world (segment V) :=
  b <- be_copy (sg_ty x) (sg_be x) ;; ret (mkseg (sg_ty x) al b (be_end b)).

(** segment(segment&&,al) 73-74; the state is the source *)
Definition seg_move (al : alid) : SM (segment V) :=
  s <- getx ;;
  b <- on_be (be_move (sg_ty s) (sg_al s =? al)) ;;
  ret (mkseg (sg_ty s) al b (be_end b)).

(** destruction of the pimpl (306), a unique_ptr with deleter delete_, packed_segment.hpp 245-251 *)
Definition seg_delete (x : segment V) : M world unit := be_delete (sg_ty x) (sg_be x).

(** operator== 93-97: backends of different types are different *)
Definition seg_equal (x y : segment V) : M world bool :=
  if sg_ty x =? sg_ty y then be_equal (sg_ty x) (sg_be x) (sg_be y) else ret false.

(** begin/end/sentinel/empty/size/max_size/capacity 101-124 *)
Definition seg_begin (s : segment V) : ptr := be_begin (sg_be s).
Definition seg_end (s : segment V) : ptr := be_end (sg_be s).
Definition seg_size (s : segment V) : nat := be_size (sg_be s).
Definition seg_empty (s : segment V) : bool := seg_size s =? 0.
Definition seg_max_size (s : segment V) : nat := be_max_size (sg_ty s).
Definition seg_capacity (s : segment V) : nat := be_capacity (sg_be s).

(** reserve 118-120, shrink_to_fit 125-127, clear 260-262 *)
Definition seg_reserve (n : nat) : SM unit :=
  s <- getx ;; filter_snt (be_reserve (sg_ty s) n).
Definition seg_shrink_to_fit : SM unit :=
  s <- getx ;; filter_snt (be_shrink_to_fit (sg_ty s)).
Definition seg_clear : SM unit :=
  s <- getx ;; filter_snt (be_clear (sg_ty s)).

(** emplace_back 135-139 ([h]=HEmplace), push_back 141-156, push_back_terminal
    158-163: an element of type [t] at the end *)
Definition seg_push_back (t : tyid) (h : how) (x : src V) : SM ptr :=
  check_ty t ;; filter_range (be_push_back t h x).

(** emplace 129-133: position used as is *)
Definition seg_emplace (t : tyid) (h : how) (p : bpos) (x : src V) : SM ptr :=
  check_ty t ;; filter_range (be_emplace t h p x).

(** insert(it,x) 165-199 *)
Definition seg_insert (t : tyid) (h : how) (p : bpos) (x : src V) : SM ptr :=
  check_ty t ;; filter_range (be_insert t h p x).

(** insert(first,last) 201-207 and insert(it,first,last) 209-224 *)
Definition seg_append_range (t : tyid) (h : how) (fwd : bool) (xs : list V) : SM ptr :=
  check_ty t ;; filter_range (be_append_range t h fwd xs).
Definition seg_insert_range (t : tyid) (h : how) (fwd : bool) (p : bpos) (xs : list V)
  : SM ptr :=
  check_ty t ;; filter_range (be_insert_range t h fwd p xs).

(** erase 226-246, erase_till_end 248-252, erase_from_begin 254-258 *)
Definition seg_erase (p : bpos) : SM ptr :=
  s <- getx ;; filter_range (be_erase (sg_ty s) p).
Definition seg_erase_range (f l : bpos) : SM ptr :=
  s <- getx ;; filter_range (be_erase_range (sg_ty s) f l).
Definition seg_erase_till_end (f : bpos) : SM ptr :=
  s <- getx ;; filter_range (be_erase_till_end (sg_ty s) f).
Definition seg_erase_from_begin (l : bpos) : SM ptr :=
  s <- getx ;; filter_range (be_erase_from_begin (sg_ty s) l).

End Segment.
