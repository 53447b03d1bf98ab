(** * Segment backends: value_holder.hpp, packed_segment.hpp, split_segment.hpp *)

From Coq Require Import List Arith Lia Bool Permutation.
From Verif Require Import Base Vec.
Import ListNotations.

(** A backend object: its store, its index (split_segment only; unused, and
    empty, for packed_segment) and the storage of the object itself.
    packed_segment.hpp 329, split_segment.hpp 500-501. *)
Record backend (V : Type) : Type := mkbackend {
  be_store : vec V;
  be_index : vec ptr;
  be_self : nat
}.
Arguments mkbackend {V} _ _ _.
Arguments be_store {V} _.
Arguments be_index {V} _.
Arguments be_self {V} _.

(** Where the value of a new element comes from (the pointers and references of packed_segment.hpp 145-177,
    split_segment.hpp 184-226): outside the segment, or a
    reference to an element already stored in it (address inside its store). *)
Inductive src (V : Type) : Type :=
| SVal (v : V)
| SRef (p : ptr).
Arguments SVal {V} v.
Arguments SRef {V} p.

(** A position inside a segment (base_iterator and iterator<T> of segment_backend.hpp 41-44): a
    base iterator (pointer into the store for
    packed_segment, into the index for split_segment) or a pointer to Concrete. *)
Inductive bpos : Type :=
| PBase (p : ptr)
| PConc (p : ptr).

Section Backend.
Context {V : Type} {E : Env V}.

Notation BM := (M (backend V * world)).

(** value_holder.hpp: copy construction throws not_copy_constructible when T is
    not copy constructible (166-192); move construction is noexcept iff T's is
    (145-147); move assignment is T's if it exists, and otherwise emulated by
    destroy + move construct, which the static_assert of 205-206 requires not to
    throw (194-212). *)
Definition vh_eops (t : tyid) : eops V :=
  mkeops V (env_vmax t)
    (if env_copyable t then None else Some (NotCopyConstructible t))
    false
    (env_nt_move t)
    (if env_assignable t then env_nt_assign t else true)
    (env_counted t) env_junk_len env_junk.

(** Index entries (callable_wrapper / type_erasure::any references) are copied and
    moved without throwing: callable_wrapper.hpp 33-96, any_model.hpp 92-198. *)
Definition ix_eops : eops ptr :=
  mkeops ptr env_imax None true true true false (fun _ => 0) (fun _ _ => null).

(** value_holder.hpp 214-224: equality. *)
Definition vh_equal (t : tyid) (x y : V) : M world bool :=
  if env_eqcomp t
  then tick UserExn ;; ret (env_veq t x y)
  else throw (NotEqualityComparable t).

(** An operation on the member s, on the member i, or on neither (packed_segment.hpp 329, split_segment.hpp 500-501) *)
Definition on_store {A} (m : M (vec V * world) A) : BM A :=
  on_field be_store (fun s b => mkbackend s (be_index b) (be_self b)) m.
Definition on_index {A} (m : M (vec ptr * world) A) : BM A :=
  on_field be_index (fun i b => mkbackend (be_store b) i (be_self b)) m.
Definition bw {A} (m : M world A) : BM A := on_world m.

(** Reading the source of a new element (concrete_ref, packed_segment.hpp 256-264 and
    split_segment.hpp 403-416): through a reference, the storage must
    still be the segment's current storage.  An element of the segment itself which is moved
    from is left with a value of its class's choosing.  (It gets that value before the vector
    does anything else.  If the vector then fails to allocate, the element would really still
    have its value; as the value left is arbitrary, this is included.) *)
Definition moved_from (k : nat) : BM unit :=
  clk <- bw clock ;;
  on_store (s <- getx ;;
            setx (mkvec (v_blk s) (v_cap s)
                    (firstn k (v_elems s) ++ env_junk clk k :: skipn (S k) (v_elems s)))).
Definition read_src (h : how) (x : src V) : BM V :=
  b <- getx ;;
  match x with
  | SVal v => ret v
  | SRef (blk, k) =>
      if blk =? v_blk (be_store b) then
        match nth_error (v_elems (be_store b)) k with
        | Some v => (match h with HMove => moved_from k | _ => ret tt end) ;; ret v
        | None => ub
        end
      else ub
  end.

(** ** packed_segment *)

(** base iterators/sentinels point into the store: packed_segment.hpp 102-112,
    305-327 (stride arithmetic is modelled in Stride.v). *)
Definition pk_ptr (b : backend V) (k : nat) : ptr := vptr (be_store b) k.

(** iterator_from, packed_segment.hpp 295-303: p - s.data() is defined only for
    pointers into the store.  Both iterator kinds are pointers into the store. *)
Definition pk_iterator_from (p : bpos) : BM nat :=
  b <- getx ;;
  let q := match p with PBase q => q | PConc q => q end in
  if fst q =? v_blk (be_store b) then ret (snd q) else ub.

(** range_from, packed_segment.hpp 313-327; sentinel 305-311 *)
Definition pk_range_from (n : nat) : BM (ptr * ptr) :=
  b <- getx ;; ret (pk_ptr b n, pk_ptr b (vsize (be_store b))).

(** sentinel, packed_segment.hpp 305-311 *)
Definition pk_sentinel : BM ptr :=
  b <- getx ;; ret (pk_ptr b (vsize (be_store b))).

(** nv_emplace_back 139-143, nv_push_back 148-161: the argument is used directly by
    vector::emplace_back, which supports aliasing. *)
Definition pk_push_back (t : tyid) (h : how) (x : src V) : BM (ptr * ptr) :=
  v <- read_src h x ;;
  on_store (vec_emplace_back (vh_eops t) h v) ;;
  b <- getx ;;
  pk_range_from (vsize (be_store b) - 1).

(** nv_emplace 130-136, nv_insert 166-177 *)
Definition pk_insert (t : tyid) (h : how) (p : bpos) (x : src V) : BM (ptr * ptr) :=
  k <- pk_iterator_from p ;;
  v <- read_src h x ;;
  n <- on_store (vec_emplace (vh_eops t) k h v) ;;
  pk_range_from n.

(** nv_insert(p,first,last) 187-198: vector::insert of a range of forward iterators *)
Definition pk_insert_range (t : tyid) (h : how) (p : bpos) (xs : list V)
  : BM (ptr * ptr) :=
  k <- pk_iterator_from p ;;
  n <- on_store (vec_insert_range (vh_eops t) k h xs) ;;
  pk_range_from n.

(** nv_insert(p,first,last) 186-198 for a range of input iterators, of unknown length: vector::insert inserts the
    elements one by one.  (At the end of the vector that is what the implementations do;
    elsewhere some of them collect the range in a temporary vector, which makes a difference
    for what is left after an exception only.) *)
Fixpoint pk_insert_input_loop (t : tyid) (h : how) (k : nat) (xs : list V) : BM unit :=
  match xs with
  | [] => ret tt
  | x :: xs' =>
      on_store (vec_emplace (vh_eops t) k h x) ;;
      pk_insert_input_loop t h (S k) xs'
  end.
Definition pk_insert_input (t : tyid) (h : how) (p : bpos) (xs : list V) : BM (ptr * ptr) :=
  k <- pk_iterator_from p ;;
  pk_insert_input_loop t h k xs ;;
  pk_range_from k.

(** nv_erase(p) 203-206 *)
Definition pk_erase (t : tyid) (p : bpos) : BM (ptr * ptr) :=
  k <- pk_iterator_from p ;;
  n <- on_store (vec_erase (vh_eops t) k) ;;
  pk_range_from n.

(** nv_erase(first,last) 211-214 *)
Definition pk_erase_range (t : tyid) (f l : bpos) : BM (ptr * ptr) :=
  j <- pk_iterator_from f ;;
  k <- pk_iterator_from l ;;
  n <- on_store (vec_erase_range (vh_eops t) j k) ;;
  pk_range_from n.

(** erase_till_end 216-219 *)
Definition pk_erase_till_end (t : tyid) (f : bpos) : BM (ptr * ptr) :=
  j <- pk_iterator_from f ;;
  b <- getx ;;
  n <- on_store (vec_erase_range (vh_eops t) j (vsize (be_store b))) ;;
  pk_range_from n.

(** erase_from_begin 221-224 *)
Definition pk_erase_from_begin (t : tyid) (l : bpos) : BM (ptr * ptr) :=
  k <- pk_iterator_from l ;;
  n <- on_store (vec_erase_range (vh_eops t) 0 k) ;;
  pk_range_from n.

(** nv_clear 227 *)
Definition pk_clear (t : tyid) : BM ptr := on_store (vec_clear (vh_eops t)) ;; pk_sentinel.

(** nv_reserve 123-124 *)
Definition pk_reserve (t : tyid) (n : nat) : BM ptr :=
  on_store (vec_reserve (vh_eops t) n) ;; pk_sentinel.

(** nv_shrink_to_fit 126-127 *)
Definition pk_shrink_to_fit (t : tyid) : BM ptr :=
  on_store (vec_shrink_to_fit (vh_eops t)) ;; pk_sentinel.

(** ** split_segment *)

(** base iterators/sentinels point into the index: split_segment.hpp 113-117,
    450-463 *)
Definition sp_ptr (b : backend V) (k : nat) : ptr := vptr (be_index b) k.

(** range_from, split_segment.hpp 455-463 *)
Definition sp_range_from (n : nat) : BM (ptr * ptr) :=
  b <- getx ;; ret (sp_ptr b n, sp_ptr b (vsize (be_store b))).

(** sentinel, split_segment.hpp 450-453 *)
Definition sp_sentinel : BM ptr :=
  b <- getx ;; ret (sp_ptr b (vsize (be_store b))).

(** iterator_from, split_segment.hpp 440-448 *)
Definition sp_iterator_from (p : bpos) : BM nat :=
  b <- getx ;;
  match p with
  | PBase q => if fst q =? v_blk (be_index b) then ret (snd q) else ub
  | PConc q => if fst q =? v_blk (be_store b) then ret (snd q) else ub
  end.

(** Conversion base iterator -> Concrete pointer: reads the index entry (any_iterator.hpp,
    callable_wrapper_iterator.hpp; see the comment at split_segment.hpp 38-44). *)
Definition sp_to_concrete (q : ptr) : BM ptr :=
  b <- getx ;;
  if fst q =? v_blk (be_index b) then
    match nth_error (v_elems (be_index b)) (snd q) with
    | Some e => ret e
    | None => ub
    end
  else ub.

(** [const_iterator(p)] at split_segment.hpp 207, 218, 244, 253 *)
Definition sp_conc (p : bpos) : BM bpos :=
  match p with
  | PBase q => e <- sp_to_concrete q ;; ret (PConc e)
  | PConc q => ret (PConc q)
  end.

(** build_index(start), split_segment.hpp 380-385: pushes entries start..size *)
Fixpoint sp_push_entries (ns : list nat) : BM unit :=
  match ns with
  | [] => ret tt
  | n :: ns' =>
      b <- getx ;;
      on_index (vec_emplace_back ix_eops HMove (vptr (be_store b) n)) ;;
      sp_push_entries ns'
  end.

(** build_index, split_segment.hpp 380-385 *)
Definition sp_build_index (start : nat) : BM unit :=
  b <- getx ;;
  sp_push_entries (seq start (S (vsize (be_store b)) - start)).

(** rebuild_index 387-391, push_index_entry 393-396, pop_index_entry 398-401 *)
Definition sp_rebuild_index : BM unit := on_index (vec_clear ix_eops) ;; sp_build_index 0.

(** push_index_entry, split_segment.hpp 393-396 *)
Definition sp_push_index_entry : BM unit :=
  b <- getx ;; sp_build_index (vsize (be_store b)).

(** pop_index_entry, split_segment.hpp 398-401 *)
Fixpoint sp_pop_index_entry (n : nat) : BM unit :=
  match n with
  | O => ret tt
  | S n' => on_index (vec_pop_back ix_eops) ;; sp_pop_index_entry n'
  end.

(** expand() 362-371: new capacity.  std::size_t arithmetic: s.max_size()-1-s.size()
    is exact because size < max_size here (see [expand_cap_bounds]). *)
Definition expand_cap (vmax size : nat) : nat :=
  if (size <=? 1) || (Nat.div2 (vmax - 1 - size) <? size)
  then size + 1
  else size + Nat.div2 size.

(** expand(), split_segment.hpp 362-371 *)
Definition sp_expand (t : tyid) : BM unit :=
  b <- getx ;;
  let c := expand_cap (env_vmax t) (vsize (be_store b)) in
  on_index (vec_reserve ix_eops (c + 1)) ;;
  on_store (vec_reserve (vh_eops t) c) ;;
  sp_rebuild_index.

(** expand(m) 373-378 *)
Definition sp_expand_n (t : tyid) (m : nat) : BM unit :=
  b <- getx ;;
  let n := vsize (be_store b) in
  on_index (vec_reserve ix_eops (n + m + 1)) ;;
  on_store (vec_reserve (vh_eops t) (n + m)) ;;
  sp_rebuild_index.

(** prereserve() 327-330 *)
Definition sp_prereserve (t : tyid) : BM unit :=
  b <- getx ;;
  if vsize (be_store b) =? v_cap (be_store b) then sp_expand t else ret tt.

(** prereserve(p) 332-350: both iterator kinds; the position is re-derived from
    its offset when the segment is expanded. *)
Definition sp_prereserve_at (t : tyid) (p : bpos) : BM bpos :=
  b <- getx ;;
  if vsize (be_store b) =? v_cap (be_store b) then
    k <- sp_iterator_from p ;;
    sp_expand t ;;
    b' <- getx ;;
    ret (match p with
         | PBase _ => PBase (vptr (be_index b') k)
         | PConc _ => PConc (vptr (be_store b') k)
         end)
  else ret p.

(** prereserve(p,m) 352-360 (Concrete pointer only) *)
Definition sp_prereserve_n (t : tyid) (p : bpos) (m : nat) : BM bpos :=
  b <- getx ;;
  if v_cap (be_store b) <? vsize (be_store b) + m then
    k <- sp_iterator_from p ;;
    sp_expand_n t m ;;
    b' <- getx ;;
    ret (PConc (vptr (be_store b') k))
  else ret p.

(** nv_emplace_back 176-182, nv_push_back 187-204: prereserve() comes before the
    argument is used. *)
Definition sp_push_back (t : tyid) (h : how) (x : src V) : BM (ptr * ptr) :=
  sp_prereserve t ;;
  v <- read_src h x ;;
  on_store (vec_emplace_back (vh_eops t) h v) ;;
  sp_push_index_entry ;;
  b <- getx ;;
  sp_range_from (vsize (be_store b) - 1).

(** nv_emplace 165-173 (any iterator kind) and nv_insert 209-226 (after conversion
    to Concrete pointer). *)
Definition sp_emplace (t : tyid) (h : how) (p : bpos) (x : src V) : BM (ptr * ptr) :=
  q <- sp_prereserve_at t p ;;
  k <- sp_iterator_from q ;;
  v <- read_src h x ;;
  n <- on_store (vec_emplace (vh_eops t) k h v) ;;
  sp_push_index_entry ;;
  sp_range_from n.

(** virtual insert 206-207, 217-218: convert, then nv_insert. *)
Definition sp_insert (t : tyid) (h : how) (p : bpos) (x : src V) : BM (ptr * ptr) :=
  q <- sp_conc p ;; sp_emplace t h q x.

(** insert(...,input_iterator_tag) 466-477 *)
Fixpoint sp_insert_input_loop (t : tyid) (h : how) (p : bpos) (xs : list V)
  : BM bpos :=
  match xs with
  | [] => ret p
  | x :: xs' =>
      q <- sp_prereserve_at t p ;;
      k <- sp_iterator_from q ;;
      on_store (vec_emplace (vh_eops t) k h x) ;;
      sp_push_index_entry ;;
      sp_insert_input_loop t h
        (match q with
         | PBase r => PBase (fst r, S (snd r))
         | PConc r => PConc (fst r, S (snd r))
         end) xs'
  end.

(** nv_insert for input iterators, split_segment.hpp 465-477 *)
Definition sp_insert_input (t : tyid) (h : how) (p : bpos) (xs : list V)
  : BM (ptr * ptr) :=
  q <- sp_insert_input_loop t h p xs ;;
  k <- sp_iterator_from q ;;
  sp_range_from (k - length xs).

(** insert(...,forward_iterator_tag) 480-498 *)
Definition sp_insert_forward (t : tyid) (h : how) (p : bpos) (xs : list V)
  : BM (ptr * ptr) :=
  b <- getx ;;
  let n := vsize (be_store b) in
  let m := length xs in
  p' <- (if m =? 0 then ret p
         else
           q <- sp_prereserve_n t p m ;;
           k <- sp_iterator_from q ;;
           try_rethrow (on_store (vec_insert_range (vh_eops t) k h xs))
             (sp_build_index (n + 1)) ;;
           sp_build_index (n + 1) ;;
           ret q) ;;
  k <- sp_iterator_from p' ;;
  sp_range_from k.

(** nv_erase(p) 246-250: the index entry goes first *)
Definition sp_erase (t : tyid) (p : bpos) : BM (ptr * ptr) :=
  q <- sp_conc p ;;
  sp_pop_index_entry 1 ;;
  k <- sp_iterator_from q ;;
  n <- on_store (vec_erase (vh_eops t) k) ;;
  sp_range_from n.

(** common part of 255-277: erase in the store, then drop as many entries *)
Definition sp_erase_idx (t : tyid) (j k : nat) : BM (ptr * ptr) :=
  b <- getx ;;
  let n := vsize (be_store b) in
  it <- on_store (vec_erase_range (vh_eops t) j k) ;;
  b' <- getx ;;
  sp_pop_index_entry (n - vsize (be_store b')) ;;
  sp_range_from it.

(** nv_erase(first,last) 252-261 *)
Definition sp_erase_range (t : tyid) (f l : bpos) : BM (ptr * ptr) :=
  f' <- sp_conc f ;; l' <- sp_conc l ;;
  j <- sp_iterator_from f' ;; k <- sp_iterator_from l' ;;
  sp_erase_idx t j k.

(** erase_till_end 263-269 *)
Definition sp_erase_till_end (t : tyid) (f : bpos) : BM (ptr * ptr) :=
  j <- sp_iterator_from f ;;
  b <- getx ;;
  sp_erase_idx t j (vsize (be_store b)).

(** erase_from_begin 271-277 *)
Definition sp_erase_from_begin (t : tyid) (l : bpos) : BM (ptr * ptr) :=
  k <- sp_iterator_from l ;;
  sp_erase_idx t 0 k.

(** nv_clear 281-286 *)
Definition sp_clear (t : tyid) : BM ptr :=
  on_store (vec_clear (vh_eops t)) ;;
  b <- getx ;;
  sp_pop_index_entry (vsize (be_index b) - 1) ;;
  sp_sentinel.

(** nv_reserve 129-136 *)
Definition sp_reserve (t : tyid) (n : nat) : BM ptr :=
  b <- getx ;;
  let rebuild := v_cap (be_store b) <? n in
  on_index (vec_reserve ix_eops (n + 1)) ;;
  on_store (vec_reserve (vh_eops t) n) ;;
  (if rebuild then sp_rebuild_index else ret tt) ;;
  sp_sentinel.

(** nv_shrink_to_fit 140-162.  [ss] and [ii] are local vectors; swapping and
    destroying them releases the old storage. *)
Definition sp_shrink_to_fit (t : tyid) : BM ptr :=
  b <- getx ;;
  try_rethrow
    ((if negb (vsize (be_store b) =? 0) then
        on_store (vec_shrink_to_fit (vh_eops t))
      else
        ss <- bw (fun w => match vec_reserve (vh_eops t) 1 (vempty, w) with
                           | Ok (v, w') _ => Ok w' v
                           | Exn (_, w') e => Exn w' e
                           | UB => UB
                           end) ;;
        bw (dispose (vh_eops t) (be_store b)) ;;
        on_store (setx ss)) ;;
     b1 <- getx ;;
     if v_blk (be_store b) =? v_blk (be_store b1) then ret tt
     else
       ii <- bw (fun w => match vec_reserve ix_eops (v_cap (be_store b1) + 1) (vempty, w) with
                          | Ok (v, w') _ => Ok w' v
                          | Exn (_, w') e => Exn w' e
                          | UB => UB
                          end) ;;
       bw (dispose ix_eops (be_index b1)) ;;
       on_index (setx ii) ;;
       sp_build_index 0)
    sp_rebuild_index ;;
  sp_sentinel.

(** ** Construction and destruction of backends *)

(** Constructors run by new_: packed_segment.hpp 253-254, split_segment.hpp
    312-325.  [s] is the store to adopt ([vempty] for the allocator-only ctor).  On
    exception the members are destroyed. *)
Definition destroy_members (t : tyid) : BM unit :=
  b <- getx ;; bw (dispose ix_eops (be_index b)) ;; bw (dispose (vh_eops t) (be_store b)).

(** split_segment(const Allocator&) and split_segment(store_type&&), split_segment.hpp 312-325; packed_segment.hpp 253-254 *)
Definition be_ctor (t : tyid) (s : vec V) : M world (backend V) :=
  match env_layout with
  | PackedLayout => ret (mkbackend s vempty 0)
  | SplitLayout =>
      fun w =>
        match try_rethrow
                (on_store (vec_reserve (vh_eops t) 1) ;; sp_build_index 0)
                (destroy_members t) (mkbackend s vempty 0, w) with
        | Ok (b, w') _ => Ok w' b
        | Exn (_, w') e => Exn w' e
        | UB => UB
        end
  end.

(** new_: packed_segment.hpp 231-243, split_segment.hpp 290-302: allocate the
    object, construct it, deallocate if construction throws.  The store has been
    built by the caller and is destroyed if allocation throws. *)
Definition be_new (t : tyid) (s : vec V) : M world (backend V) :=
  self <- try_rethrow alloc (dispose (vh_eops t) s) ;;
  b <- try_rethrow (be_ctor t s) (free self) ;;
  ret (mkbackend (be_store b) (be_index b) self).

(** delete_: packed_segment.hpp 245-251, split_segment.hpp 304-310 *)
Definition be_delete (t : tyid) (b : backend V) : M world unit :=
  dispose ix_eops (be_index b) ;; dispose (vh_eops t) (be_store b) ;; free (be_self b).

(** make 68-71/80-83 and empty_copy 83-86/95-98 *)
Definition be_make (t : tyid) : M world (backend V) := be_new t vempty.

(** copy() / copy(al): packed_segment.hpp 73-81, split_segment.hpp 85-93 *)
Definition be_copy (t : tyid) (x : backend V) : M world (backend V) :=
  s <- vec_copy (vh_eops t) (be_store x) ;;
  be_new t s.

(** move(al): packed_segment.hpp 88-91, split_segment.hpp 100-103.  State: the
    source backend. *)
Definition be_move (t : tyid) (same_al : bool) : BM (backend V) :=
  s <- on_store (vec_move (vh_eops t) same_al) ;;
  bw (be_new t s).

(** equal: packed_segment.hpp 93-96, split_segment.hpp 105-108 *)
Definition be_equal (t : tyid) (x y : backend V) : M world bool :=
  vec_equal (vh_equal t) (be_store x) (be_store y).

(** ** The virtual interface, segment_backend.hpp 53-76, by layout *)

(** The base iterator to the k-th element: packed_segment.hpp 102-112, split_segment.hpp 113-117 *)
Definition be_ptr (b : backend V) (k : nat) : ptr :=
  match env_layout with PackedLayout => pk_ptr b k | SplitLayout => sp_ptr b k end.

(** begin, end, size, capacity: packed_segment.hpp 100-121, split_segment.hpp 112-125 *)
Definition be_begin (b : backend V) : ptr := be_ptr b 0.
Definition be_end (b : backend V) : ptr := be_ptr b (vsize (be_store b)).
Definition be_size (b : backend V) : nat := vsize (be_store b).
Definition be_capacity (b : backend V) : nat := v_cap (be_store b).

(** packed_segment.hpp 119, split_segment.hpp 123 *)
Definition be_max_size (t : tyid) : nat :=
  match env_layout with
  | PackedLayout => env_vmax t
  | SplitLayout => env_vmax t - 1
  end.

(** push_back and push_back_move: packed_segment.hpp 145-161, split_segment.hpp 184-204 *)
Definition be_push_back (t : tyid) (h : how) (x : src V) : BM (ptr * ptr) :=
  match env_layout with
  | PackedLayout => pk_push_back t h x
  | SplitLayout => sp_push_back t h x
  end.

(** virtual insert/insert_move, packed_segment.hpp 163-177, split_segment.hpp 206-226 (conversion to
    Concrete pointer first) *)
Definition be_insert (t : tyid) (h : how) (p : bpos) (x : src V) : BM (ptr * ptr) :=
  match env_layout with
  | PackedLayout => pk_insert t h p x
  | SplitLayout => sp_insert t h p x
  end.

(** nv_emplace, packed_segment.hpp 129-136, split_segment.hpp 164-173 (iterator used as is) *)
Definition be_emplace (t : tyid) (h : how) (p : bpos) (x : src V) : BM (ptr * ptr) :=
  match env_layout with
  | PackedLayout => pk_insert t h p x
  | SplitLayout => sp_emplace t h p x
  end.

(** nv_insert(p,first,last), with [fwd] telling whether the range is of forward
    iterators; the position is converted to Concrete pointer by the caller
    (segment.hpp 209-217). *)
Definition be_insert_range (t : tyid) (h : how) (fwd : bool) (p : bpos) (xs : list V)
  : BM (ptr * ptr) :=
  match env_layout with
  | PackedLayout => if fwd then pk_insert_range t h p xs else pk_insert_input t h p xs
  | SplitLayout =>
      q <- sp_conc p ;;
      if fwd then sp_insert_forward t h q xs else sp_insert_input t h q xs
  end.

(** nv_insert(first,last) at the end: packed_segment.hpp 180-184,
    split_segment.hpp 229-233 *)
Definition be_append_range (t : tyid) (h : how) (fwd : bool) (xs : list V)
  : BM (ptr * ptr) :=
  b <- getx ;;
  let p := PConc (vptr (be_store b) (vsize (be_store b))) in
  match env_layout with
  | PackedLayout => if fwd then pk_insert_range t h p xs else pk_insert_input t h p xs
  | SplitLayout =>
      if fwd then sp_insert_forward t h p xs else sp_insert_input t h p xs
  end.

(** erase(p): packed_segment.hpp 200-206, split_segment.hpp 243-250 *)
Definition be_erase (t : tyid) (p : bpos) : BM (ptr * ptr) :=
  match env_layout with
  | PackedLayout => pk_erase t p
  | SplitLayout => sp_erase t p
  end.

(** erase(first,last): packed_segment.hpp 208-214, split_segment.hpp 252-261 *)
Definition be_erase_range (t : tyid) (f l : bpos) : BM (ptr * ptr) :=
  match env_layout with
  | PackedLayout => pk_erase_range t f l
  | SplitLayout => sp_erase_range t f l
  end.

(** erase_till_end: packed_segment.hpp 216-219, split_segment.hpp 263-269 *)
Definition be_erase_till_end (t : tyid) (f : bpos) : BM (ptr * ptr) :=
  match env_layout with
  | PackedLayout => pk_erase_till_end t f
  | SplitLayout => sp_erase_till_end t f
  end.

(** erase_from_begin: packed_segment.hpp 221-224, split_segment.hpp 271-277 *)
Definition be_erase_from_begin (t : tyid) (l : bpos) : BM (ptr * ptr) :=
  match env_layout with
  | PackedLayout => pk_erase_from_begin t l
  | SplitLayout => sp_erase_from_begin t l
  end.

(** clear: packed_segment.hpp 226-227, split_segment.hpp 279-286 *)
Definition be_clear (t : tyid) : BM ptr :=
  match env_layout with
  | PackedLayout => pk_clear t
  | SplitLayout => sp_clear t
  end.

(** reserve: packed_segment.hpp 122-124, split_segment.hpp 127-136 *)
Definition be_reserve (t : tyid) (n : nat) : BM ptr :=
  match env_layout with
  | PackedLayout => pk_reserve t n
  | SplitLayout => sp_reserve t n
  end.

(** shrink_to_fit: packed_segment.hpp 125-127, split_segment.hpp 138-162 *)
Definition be_shrink_to_fit (t : tyid) : BM ptr :=
  match env_layout with
  | PackedLayout => pk_shrink_to_fit t
  | SplitLayout => sp_shrink_to_fit t
  end.

(** Dereference of a base iterator [p] over this backend: packed: the element
    (stride_iterator.hpp 135); split: the
    index entry, then the element it refers to. *)
Definition be_deref (b : backend V) (p : ptr) : option V :=
  match env_layout with
  | PackedLayout =>
      if fst p =? v_blk (be_store b) then nth_error (v_elems (be_store b)) (snd p)
      else None
  | SplitLayout =>
      if fst p =? v_blk (be_index b) then
        match nth_error (v_elems (be_index b)) (snd p) with
        | Some q => if fst q =? v_blk (be_store b)
                    then nth_error (v_elems (be_store b)) (snd q)
                    else None
        | None => None
        end
      else None
  end.

(** base iterator -> Concrete pointer: packed: a static_cast (stride_iterator.hpp 103-104);
    split: reads the index entry (any_iterator.hpp 74-79, callable_wrapper_iterator.hpp 76-82). *)
Definition be_to_concrete (b : backend V) (p : ptr) : option ptr :=
  match env_layout with
  | PackedLayout => if fst p =? v_blk (be_store b) then Some p else None
  | SplitLayout =>
      if fst p =? v_blk (be_index b)
      then nth_error (v_elems (be_index b)) (snd p) else None
  end.

(** dereference of a Concrete pointer (a built-in operation) *)
(* unary * of a local_iterator<T>, a T* (base_model.hpp 79-82, any_model.hpp 150-153, function_model.hpp 90-93) *)
Definition be_deref_conc (b : backend V) (p : ptr) : option V :=
  if fst p =? v_blk (be_store b) then nth_error (v_elems (be_store b)) (snd p)
  else None.

(** base_iterator_from, iterator_impl.hpp 221-227: Concrete pointer -> base iterator,
    by offset from the segment's begin, itself converted to a Concrete pointer *)
Definition be_from_concrete (b : backend V) (p : ptr) : option ptr :=
  match be_to_concrete b (be_begin b) with
  | Some q0 => if fst p =? fst q0 then Some (be_ptr b (snd p - snd q0)) else None
  | None => None
  end.

End Backend.
