(** * Model of the std::vector operations used by the segments.

    [std::vector] is not part of /repo; this models the guarantees of the C++
    standard ([vector.capacity], [vector.modifiers],
    [container.requirements.general]) as realised by libstdc++/libc++/MSVC.
    Used by packed_segment.hpp 45-49 (store) and split_segment.hpp 51-62
    (store and index). *)

From Coq Require Import List Arith Lia Bool Permutation.
From Verif Require Import Base.
Import ListNotations.

(** How an element gets its value: copied, moved or built from arguments. *)
(** the constructors of value_holder a vector calls: value_holder.hpp 91-126 *)
Inductive how := HCopy | HMove | HEmplace.

(** What the vector needs to know about its element type. *)
(** value_holder<T> as the element type of store, packed_segment.hpp 45-49 and split_segment.hpp 51-55; value_type as that of index, split_segment.hpp 58-62 *)
Record eops (A : Type) : Type := mkeops {
  eo_max : nat;             (* max_size() *)
  eo_refuse : option exn;   (* copy construction always throws this *)
  eo_copy_nt : bool;        (* copy construction does not throw *)
  eo_move_nt : bool;        (* move construction is noexcept *)
  eo_assign_nt : bool;      (* move assignment does not throw *)
  eo_obj : bool;            (* elements are objects of a concrete type *)
  eo_junk_len : nat -> nat;
  eo_junk : nat -> nat -> A
}.
Arguments eo_max {A} _.
Arguments eo_refuse {A} _.
Arguments eo_copy_nt {A} _.
Arguments eo_move_nt {A} _.
Arguments eo_assign_nt {A} _.
Arguments eo_obj {A} _.
Arguments eo_junk_len {A} _ _.
Arguments eo_junk {A} _ _ _.

(** store and index: packed_segment.hpp 45-49, split_segment.hpp 51-62 *)
Record vec (A : Type) : Type := mkvec {
  v_blk : nat;       (* data(): block 0 when there is no storage *)
  v_cap : nat;
  v_elems : list A
}.
Arguments mkvec {A} _ _ _.
Arguments v_blk {A} _.
Arguments v_cap {A} _.
Arguments v_elems {A} _.

(** vector(al): packed_segment.hpp 253-254, split_segment.hpp 312-326 *)
Definition vempty {A} : vec A := mkvec 0 0 [].
(** size(): packed_segment.hpp 117, split_segment.hpp 121 *)
Definition vsize {A} (v : vec A) : nat := length (v_elems v).
(** data()+k *)
(** data(): packed_segment.hpp 104-111, split_segment.hpp 114-117 *)
Definition vptr {A} (v : vec A) (k : nat) : ptr := (v_blk v, k).
(** storage owned by the vector *)
(** the storage of store and index: packed_segment.hpp 45-49, split_segment.hpp 51-62 *)
Definition vblocks {A} (v : vec A) : list nat :=
  if v_cap v =? 0 then [] else [v_blk v].

Section Vec.
Context {V : Type} {E : Env V} {A : Type} (eo : eops A).

Notation VM := (M (vec A * world)).

(** Lifting, and replacing the elements (nothing in /repo) *)
Definition w_ {B} (m : M world B) : VM B := on_world m.
Definition set_elems (l : list A) : VM unit :=
  modify (fun s => (mkvec (v_blk (fst s)) (v_cap (fst s)) l, snd s)).

(** Lifetimes are only tracked for element types with [eo_obj] (concrete types, not
    index entries). *)
(* nothing in /repo: std::vector constructs elements *)
Definition vborn (n : nat) : M world unit := if eo_obj eo then born n else work n.
(* nothing in /repo: std::vector destroys elements *)
Definition vdie (n : nat) : M world unit := if eo_obj eo then die n else work n.

(** Construction of one element. *)
(** value_holder.hpp 91-147 and 167-192 *)
Definition construct (h : how) : M world unit :=
  match h with
  | HCopy => match eo_refuse eo with
             | Some e => throw e
             | None => if eo_copy_nt eo then ret tt else tick UserExn
             end
  | HMove => if eo_move_nt eo then ret tt else tick UserExn
  | HEmplace => tick UserExn
  end ;;
  vborn 1.

(** Construction of [n] elements; those already built are destroyed on exception. *)
(** value_holder.hpp 91-147 and 167-192, as called by insert, packed_segment.hpp 193-196, split_segment.hpp 489 *)
Fixpoint construct_n (h : how) (n : nat) : M world unit :=
  match n with
  | O => ret tt
  | S n' => construct h ;; try_rethrow (construct_n h n') (vdie 1)
  end.

(** Transfer of [n] elements to new storage: std::move_if_noexcept.  Note that
    value_holder<T> is always copy constructible (value_holder.hpp 34-37), hence
    a T with a throwing move constructor is copied. *)
(** value_holder.hpp 34-37, 116-126 *)
Definition relocate (n : nat) : M world unit :=
  if eo_move_nt eo then vborn n else construct_n HCopy n.

(** Destruction of the elements and release of the storage. *)
(** ~vector() of store and index *)
(* nothing in /repo: std::vector frees its storage *)
Definition dispose (v : vec A) : M world unit :=
  if v_cap v =? 0 then ret tt else vdie (vsize v) ;; free (v_blk v).

(** Change of storage: allocate, construct the new element if [pre] says so, transfer
    the elements, release the old storage.  If anything throws the new storage is
    released and the vector is unchanged. *)
(** as called by reserve, emplace and emplace_back, packed_segment.hpp 124-176, split_segment.hpp 132-223 *)
Definition realloc (c : nat) (pre : option how) : VM unit :=
  v <- getx ;;
  nb <- w_ alloc ;;
  w_ (try_rethrow
        (match pre with
         | None => relocate (vsize v)
         | Some h => construct h ;; try_rethrow (relocate (vsize v)) (vdie 1)
         end) (free nb)) ;;
  w_ (dispose v) ;;
  setx (mkvec nb c (v_elems v)).

(** reserve: exactly [n] in the three implementations considered. *)
(** called at packed_segment.hpp 124, split_segment.hpp 132-133, 147-152, 316-323, 368-376 *)
Definition vec_reserve (n : nat) : VM unit :=
  v <- getx ;;
  if eo_max eo <? n then throw LengthError
  else if n <=? v_cap v then ret tt
  else realloc n None.

(** New capacity when at least [need] elements must fit. *)
(** growth of store, packed_segment.hpp 133-176; for split_segment.hpp see expand (Backend.v) *)
Definition next_cap (v : vec A) (need : nat) : nat :=
  Nat.min (eo_max eo) (Nat.max need (env_grow (v_cap v))).

(** emplace_back/push_back: strong guarantee. *)
(** called at packed_segment.hpp 141-159, split_segment.hpp 179-201, 383 *)
Definition vec_emplace_back (h : how) (x : A) : VM unit :=
  v <- getx ;;
  if vsize v <? v_cap v then
    w_ (construct h) ;;
    set_elems (v_elems v ++ [x])
  else if eo_max eo <=? vsize v then throw LengthError
  else
    realloc (next_cap v (S (vsize v))) (Some h) ;;
    set_elems (v_elems v ++ [x]).

(** Arbitrary contents of the given length: what the basic guarantee leaves. *)
(* nothing in /repo: values moved from are unspecified *)
Definition junk_list (clk n : nat) : list A := map (eo_junk eo clk) (seq 0 n).

(** A vector operation on [n] elements failed midway while [m] more objects than
    elements were alive: it leaves between [n] and [n+m] arbitrary elements. *)
(* nothing in /repo: values moved from are unspecified *)
Definition leave_junk (clk n m : nat) : VM unit :=
  let j := Nat.min (n + m) (n + eo_junk_len eo clk) in
  w_ (vdie (n + m - j)) ;; set_elems (junk_list clk j).

(** A step that shifts elements by move construction/assignment while [m] new elements
    are already built, [d] operations: if those operations may throw, the result of a throw
    is junk. *)
(* nothing in /repo: a step of std::vector shifting elements *)
Definition shift_step (d : nat) (nt : bool) (n m : nat) : VM unit :=
  w_ (work d) ;;
  if nt then ret tt
  else
    k <- w_ clock ;;
    try_rethrow (w_ (tick UserExn)) (leave_junk k n m).

(** emplace at index [k]: end insertion is emplace_back; otherwise a temporary is
    constructed first (so an argument aliasing an element is fine), then the tail
    is shifted (one construction, [vsize v - k] assignments, one destruction).  Reallocating
    insertion has the strong guarantee. *)
(** called at packed_segment.hpp 133, 168, 176, split_segment.hpp 168, 212, 223, 473 *)
Definition vec_emplace (k : nat) (h : how) (x : A) : VM nat :=
  v <- getx ;;
  if vsize v <? k then ub
  else if k =? vsize v then vec_emplace_back h x ;; ret k
  else if vsize v <? v_cap v then
    w_ (construct h) ;;
    shift_step (vsize v - k + 2) (eo_move_nt eo && eo_assign_nt eo) (vsize v) 1 ;;
    set_elems (insert_at k x (v_elems v)) ;;
    ret k
  else if eo_max eo <=? vsize v then throw LengthError
  else
    realloc (next_cap v (S (vsize v))) (Some h) ;;
    set_elems (insert_at k x (v_elems v)) ;;
    ret k.

(** Range insertion of [xs] at index [k]: basic guarantee.  In place, a throw
    leaves between size and size+m arbitrary elements; when reallocating, the old
    elements may have been moved from. *)
(** called at packed_segment.hpp 193-196, split_segment.hpp 489 *)
Definition vec_insert_range (k : nat) (h : how) (xs : list A) : VM nat :=
  v <- getx ;;
  let m := length xs in
  if vsize v <? k then ub
  else if m =? 0 then ret k
  else if eo_max eo <? vsize v + m then throw LengthError
  else
    clk <- w_ clock ;;
    (if vsize v + m <=? v_cap v then
      try_rethrow (w_ (construct_n h m)) (w_ (vborn m) ;; leave_junk clk (vsize v) m) ;;
      shift_step (if m <? vsize v - k then vsize v - k + 2 * m else 3 * (vsize v - k))
        (eo_move_nt eo && eo_assign_nt eo) (vsize v) m
    else
      nb <- w_ alloc ;;
      try_rethrow (w_ (construct_n h m ;; try_rethrow (relocate (vsize v)) (vdie m)))
        (w_ (free nb) ;; leave_junk clk (vsize v) 0) ;;
      w_ (dispose v) ;;
      setx (mkvec nb (next_cap v (vsize v + m)) (v_elems v))) ;;
    set_elems (insert_list_at k xs (v_elems v)) ;;
    ret k.

(** erase [f,l): elements after l are move assigned down, the last ones destroyed. *)
(** called at packed_segment.hpp 213-223, split_segment.hpp 258-274 *)
Definition vec_erase_range (f l : nat) : VM nat :=
  v <- getx ;;
  if (l <? f) || (vsize v <? l) then ub
  else if f =? l then ret f
  else
    shift_step (vsize v - l) (eo_assign_nt eo || (l =? vsize v)) (vsize v) 0 ;;
    w_ (vdie (l - f)) ;;
    set_elems (remove_range f l (v_elems v)) ;;
    ret f.

(** erase(pos): pos must be dereferenceable. *)
(** called at packed_segment.hpp 205, split_segment.hpp 249 *)
Definition vec_erase (k : nat) : VM nat :=
  v <- getx ;;
  if vsize v <=? k then ub else vec_erase_range k (S k).

(** called at packed_segment.hpp 227, split_segment.hpp 283, 389 *)
Definition vec_clear : VM unit :=
  v <- getx ;; w_ (vdie (vsize v)) ;; set_elems [].

(** called at split_segment.hpp 284, 400 *)
Definition vec_pop_back : VM unit :=
  v <- getx ;;
  match v_elems v with
  | [] => ub
  | _ :: _ => w_ (vdie 1) ;; set_elems (removelast (v_elems v))
  end.

(** shrink_to_fit: non-binding; no effects if it throws. *)
(** called at packed_segment.hpp 127, split_segment.hpp 144 *)
Definition vec_shrink_to_fit : VM unit :=
  v <- getx ;;
  clk <- w_ clock ;;
  if env_shrink_noop clk || (v_cap v =? vsize v) then ret tt
  else if vsize v =? 0 then
    w_ (dispose v) ;; setx vempty
  else if env_shrink_swallow then
    fun s => match realloc (vsize v) None s with
             | Exn s' _ => Ok s' tt
             | o => o
             end
  else realloc (vsize v) None.

(** vector(const vector&) *)
(* nothing in /repo: copy construction of std::vector *)
Definition vec_copy (x : vec A) : M world (vec A) :=
  if vsize x =? 0 then ret vempty
  else
    nb <- alloc ;;
    try_rethrow (construct_n HCopy (vsize x)) (free nb) ;;
    ret (mkvec nb (vsize x) (v_elems x)).

(** vector(vector&&,al): constant time if the allocators are equal, otherwise the
    elements are moved one by one and what they leave behind in the source is unspecified:
    libstdc++ clears it, libc++ and MSVC keep all the moved-from elements; here it is any number
    of arbitrary elements up to its size.  The state is the source vector. *)
(* nothing in /repo: move construction of std::vector *)
Definition vec_move (same_al : bool) : VM (vec A) :=
  x <- getx ;;
  if same_al then setx vempty ;; ret x
  else if vsize x =? 0 then ret vempty
  else
    clk <- w_ clock ;;
    nb <- w_ alloc ;;
    try_rethrow (w_ (construct_n HMove (vsize x)))
      (w_ (free nb) ;; leave_junk clk (vsize x) 0) ;;
    leave_junk clk 0 (vsize x) ;;
    ret (mkvec nb (vsize x) (v_elems x)).

(** operator==: sizes first, then elements in order until a mismatch. *)
(** operator== of store, with value_holder.hpp 160-164 *)
Fixpoint elems_eq (eqf : A -> A -> M world bool) (xs ys : list A) : M world bool :=
  match xs, ys with
  | x :: xs', y :: ys' =>
      b <- eqf x y ;; if b then elems_eq eqf xs' ys' else ret false
  | _, _ => ret true
  end.

(** vector ==: sizes first (standard library; packed_segment.hpp 93-96) *)
Definition vec_equal (eqf : A -> A -> M world bool) (x y : vec A) : M world bool :=
  if vsize x =? vsize y then elems_eq eqf (v_elems x) (v_elems y) else ret false.

End Vec.
