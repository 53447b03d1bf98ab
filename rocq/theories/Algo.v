(** * Segment splitting, type restitution and the algorithms: segment_split.hpp,
    type_restitution.hpp, functional.hpp, algorithm.hpp

    The collection is not modified while an algorithm runs (element values may be modified
    by for_each, for_each_n and move, see Access.v); the state [S] is that of the caller: function
    objects may have effects, throw, or be undefined.  tail_closure, head_closure, deref_to,
    deref_1st_to and cast_return (functional.hpp 57-176) only pass arguments on and are
    rendered by function application; arguments which algorithm.hpp passes by reference
    ("note the &") are threaded explicitly. *)

From Coq Require Import List Arith Lia Bool.
From Verif Require Import Base Vec Backend Segment Coll StdAlg.
Import ListNotations.

(** What a function object is passed (functional.hpp 56-176, type_restitution.hpp 38-146): a
    reference to an element, i.e. its dynamic type, its value and its address; and the type it is passed as, [None] standing for value_type. *)
Record eref (V : Type) : Type := mkref { r_ty : tyid; r_val : V; r_addr : ptr }.
Arguments mkref {V} _ _ _.
Arguments r_ty {V} _.
Arguments r_val {V} _.
Arguments r_addr {V} _.
Definition view (V : Type) : Type := (option tyid * eref V)%type.

(** segment_splitter::info, segment_split.hpp 37-45: the segment (the map iterator of the
    local iterators), its type_info, begin and end *)
Record piece : Type := mkpiece { pc_id : nat; pc_ty : tyid; pc_beg : ptr; pc_end : ptr }.

Section Algo.
Context {V : Type} {E : Env V} {S : Type}.

(** An undefined operation on iterators (no code of its own in /repo). *)
(** An operation of the iterators, undefined if there is no result (nothing in /repo) *)
Definition lift {A} (o : option A) : M S A := match o with Some a => ret a | None => ub end.

(** Pointer arithmetic within a block; [it+k], [last-first] (stride_iterator.hpp 137-143, or a pointer) *)
Definition padd (p : ptr) (k : nat) : ptr := (fst p, snd p + k).
Definition pdiff (b e : ptr) : option nat :=
  if (fst b =? fst e) && (snd b <=? snd e) then Some (snd e - snd b) else None.

(** ** segment_split.hpp *)

(** base_segment_info_iterator_from(it), iterator_traits.hpp 83-84: the segments from the one of
    [it] on *)
Definition segs_from (c : coll V) (it : iter) : option (list (node V)) :=
  match it_map it with
  | None => Some []
  | Some i => nodes_from (c_nodes c) i
  end.

(** segment_splitter::end() 90-95 *)
Definition split_end (c : coll V) (last : iter) : option mapit :=
  match it_map last with
  | None => Some None
  | Some i =>
      match nodes_from (c_nodes c) i with
      | Some (_ :: n :: _) => Some (Some (n_id n))
      | Some [_] => Some None
      | _ => None
      end
  end.

(** segment_splitter::iterator::dereference 65-74 *)
Definition split_info (n : node V) (first last : iter) : piece :=
  mkpiece (n_id n) (env_ty (n_key n))
    (if mapit_eqb (Some (n_id n)) (it_map first) then it_pos first else seg_begin (n_seg n))
    (if mapit_eqb (Some (n_id n)) (it_map last) then it_pos last else seg_end (n_seg n)).

(** increment, equal 76-77 *)
Fixpoint split_from (ns : list (node V)) (stop : mapit) (first last : iter) : option (list piece) :=
  match ns with
  | [] => match stop with None => Some [] | Some _ => None end
  | n :: ns' =>
      if mapit_eqb (Some (n_id n)) stop then Some []
      else match split_from ns' stop first last with
           | Some ps => Some (split_info n first last :: ps)
           | None => None
           end
  end.

(** segment_split 102-108: all the values the range takes *)
Definition segment_split (c : coll V) (first last : iter) : option (list piece) :=
  match split_end c last, segs_from c first with
  | Some stop, Some ns => split_from ns stop first last
  | _, _ => None
  end.

(** for_each_segment 113-138: the loop 127-132 and the call after it 133 *)
Fixpoint fes_loop (ns : list (node V)) (lbfirst : ptr) (last : iter) (f : piece -> M S unit)
  : M S unit :=
  match ns with
  | [] => ub
  | n :: ns' =>
      f (mkpiece (n_id n) (env_ty (n_key n)) lbfirst (seg_end (n_seg n))) ;;
      match ns' with
      | [] => if mapit_eqb (it_map last) None then ret tt else ub
      | n' :: _ =>
          if mapit_eqb (Some (n_id n')) (it_map last) then
            f (mkpiece (n_id n') (env_ty (n_key n')) (seg_begin (n_seg n')) (it_pos last))
          else fes_loop ns' (seg_begin (n_seg n')) last f
      end
  end.
Definition for_each_segment (c : coll V) (first last : iter) (f : piece -> M S unit) : M S unit :=
  ns <- lift (segs_from c first) ;;
  if mapit_eqb (it_map first) (it_map last) then
    match ns with
    | [] => ret tt
    | n :: _ => f (mkpiece (n_id n) (env_ty (n_key n)) (it_pos first) (it_pos last))
    end
  else fes_loop ns (it_pos first) last f.

(** ** type_restitution.hpp *)

(** restitute_range_class 40-76, restitute_iterator_class 94-135: the type among Ts the
    segment is found to have *)
Fixpoint restitute (Ts : list tyid) (info : tyid) : option tyid :=
  match Ts with
  | [] => None
  | T :: Ts' => if info =? T then Some T else restitute Ts' info
  end.

(** Reading through a local_base_iterator and through a local_iterator<T>, iterator_impl.hpp
    135-237 (dereference of the iterator or pointer adapted). *)
Definition read_base (s : segment V) (p : ptr) : option (eref V) :=
  match be_deref (sg_be s) p, be_to_concrete (sg_be s) p with
  | Some v, Some q => Some (mkref (sg_ty s) v q)
  | _, _ => None
  end.
Definition read_conc (T : tyid) (s : segment V) (p : ptr) : option (eref V) :=
  if sg_ty s =? T then
    match be_deref_conc (sg_be s) p with
    | Some v => Some (mkref T v p)
    | None => None
    end
  else None.

(** The elements of [b,e), as algorithm.hpp passes them, piece by piece, to the algorithms of
    the standard library (e.g. 119-130).  Simplification: they are all read at once, before the function
    objects are called, although an algorithm may stop before the end. *)
Fixpoint read_n (rd : ptr -> option (eref V)) (p : ptr) (n : nat) : option (list (eref V)) :=
  match n with
  | O => Some []
  | Datatypes.S n' =>
      match rd p, read_n rd (padd p 1) n' with
      | Some r, Some l => Some (r :: l)
      | _, _ => None
      end
  end.
Definition read_range (rd : ptr -> option (eref V)) (b e : ptr) : option (list (eref V)) :=
  match pdiff b e with Some n => read_n rd b n | None => None end.

(** What the function object is passed when restitute_range<Ts...>(alg)(i),
    type_restitution.hpp 38-85, runs [alg] on the piece [i]: local_iterator<T>{i.begin()}, ... if the type is restituted *)
Definition piece_views (c : coll V) (Ts : list tyid) (i : piece) : option (list (view V)) :=
  match node_at (c_nodes c) (pc_id i) with
  | None => None
  | Some n =>
      let s := n_seg n in
      match restitute Ts (pc_ty i) with
      | None => option_map (map (pair None)) (read_range (read_base s) (pc_beg i) (pc_end i))
      | Some T =>
          match be_to_concrete (sg_be s) (pc_beg i), be_to_concrete (sg_be s) (pc_end i) with
          | Some b, Some e => option_map (map (pair (Some T))) (read_range (read_conc T s) b e)
          | _, _ => None
          end
      end
  end.

(** The local_base_iterator to the [k]-th position of the piece, if it is the result of an
    algorithm running on the piece: a local_iterator<T> is converted back (cast_return,
    functional.hpp 123-141, iterator_impl.hpp 221-227) *)
Definition piece_at (c : coll V) (Ts : list tyid) (i : piece) (k : nat) : option ptr :=
  match node_at (c_nodes c) (pc_id i) with
  | None => None
  | Some n =>
      let s := n_seg n in
      match restitute Ts (pc_ty i) with
      | None => Some (padd (pc_beg i) k)
      | Some T =>
          match be_to_concrete (sg_be s) (pc_beg i) with
          | Some b => be_from_concrete (sg_be s) (padd b k)
          | None => None
          end
      end
  end.

(** Comparison of local_base_iterators, iterator_impl.hpp 135-237 (boost::iterator_adaptor:
    compares the pointers only), as in algorithm.hpp 157-177.
    The past-the-end pointer of the storage of one segment may be equal to the pointer to an
    element of another one, see [env_adjacent]. *)
Definition at_storage_end (c : coll V) (l : nat * ptr) : bool :=
  match node_at (c_nodes c) (fst l) with
  | Some n =>
      let b := sg_be (n_seg n) in
      snd (snd l) =? (match env_layout with
                      | PackedLayout => v_cap (be_store b)
                      | SplitLayout => v_cap (be_index b)
                      end)
  | None => false
  end.
Definition lbi_eq (c : coll V) (x y : nat * ptr) : bool :=
  if fst (snd x) =? fst (snd y) then snd (snd x) =? snd (snd y)
  else
    (env_adjacent (fst (snd x)) (snd y) && at_storage_end c x) ||
    (env_adjacent (fst (snd y)) (snd x) && at_storage_end c y).

(** ** algorithm.hpp *)

(** all_of 59-64, any_of 72-77, none_of 85-90 *)
Fixpoint all_of_loop (c : coll V) (Ts : list tyid) (p : view V -> M S bool) (ps : list piece)
  : M S bool :=
  match ps with
  | [] => ret true
  | i :: ps' =>
      xs <- lift (piece_views c Ts i) ;;
      b <- std_all_of p xs ;; if b then all_of_loop c Ts p ps' else ret false
  end.
Definition pc_all_of c Ts first last p : M S bool :=
  ps <- lift (segment_split c first last) ;; all_of_loop c Ts p ps.
Fixpoint any_of_loop (c : coll V) (Ts : list tyid) (p : view V -> M S bool) (ps : list piece)
  : M S bool :=
  match ps with
  | [] => ret false
  | i :: ps' =>
      xs <- lift (piece_views c Ts i) ;;
      b <- std_any_of p xs ;; if b then ret true else any_of_loop c Ts p ps'
  end.
Definition pc_any_of c Ts first last p : M S bool :=
  ps <- lift (segment_split c first last) ;; any_of_loop c Ts p ps.
Fixpoint none_of_loop (c : coll V) (Ts : list tyid) (p : view V -> M S bool) (ps : list piece)
  : M S bool :=
  match ps with
  | [] => ret true
  | i :: ps' =>
      xs <- lift (piece_views c Ts i) ;;
      b <- std_none_of p xs ;; if b then none_of_loop c Ts p ps' else ret false
  end.
Definition pc_none_of c Ts first last p : M S bool :=
  ps <- lift (segment_split c first last) ;; none_of_loop c Ts p ps.

(** for_each_alg 92-100, for_each 102-110.  The function object is one and the same in all
    calls, so its own state is part of [S]. *)
Definition pc_for_each c Ts first last (f : view V -> M S unit) : M S unit :=
  for_each_segment c first last (fun i =>
    xs <- lift (piece_views c Ts i) ;; std_for_each f xs).

(** for_each_n_alg 112-124, for_each_n 126-154; [ns] are the segments from sit on *)
Fixpoint for_each_n_loop (c : coll V) (Ts : list tyid) (f : view V -> M S unit)
  (ns : list (node V)) (lbit : ptr) (n : nat) : M S iter :=
  match ns with
  | [] => ub
  | sit :: ns' =>
      let part k := mkpiece (n_id sit) (env_ty (n_key sit)) lbit (padd lbit k) in
      m <- lift (pdiff lbit (seg_end (n_seg sit))) ;;
      if n <=? m then
        xs <- lift (piece_views c Ts (part n)) ;;
        std_for_each f xs ;;
        q <- lift (piece_at c Ts (part n) n) ;;
        lift (it_make c (Some (n_id sit)) q)
      else
        xs <- lift (piece_views c Ts (part m)) ;;
        std_for_each f xs ;;
        match ns' with
        | [] => ub
        | sit' :: _ => for_each_n_loop c Ts f ns' (seg_begin (n_seg sit')) (n - m)
        end
  end.
Definition pc_for_each_n c Ts first n (f : view V -> M S unit) : M S iter :=
  if n =? 0 then ret first
  else ns <- lift (segs_from c first) ;; for_each_n_loop c Ts f ns (it_pos first) n.

(** generic_find 156-177.  [alg] runs on a piece; it is passed the arguments of generic_find
    which are kept by reference as [t], and gives a local_base_iterator. *)
Fixpoint generic_find_loop {T} (c : coll V) (Ts : list tyid)
  (alg : T -> piece -> list (view V) -> M S (T * (nat * ptr))) (t : T) (last : iter)
  (ps : list piece) : M S (T * iter) :=
  match ps with
  | [] => ret (t, last)
  | i :: ps' =>
      xs <- lift (piece_views c Ts i) ;;
      r <- alg t i xs ;;
      if lbi_eq c (snd r) (pc_id i, pc_end i) then generic_find_loop c Ts alg (fst r) last ps'
      else it <- lift (it_make c (Some (fst (snd r))) (snd (snd r))) ;; ret (fst r, it)
  end.
Definition generic_find {T} c Ts alg (t : T) first last : M S (T * iter) :=
  ps <- lift (segment_split c first last) ;; generic_find_loop c Ts alg t last ps.

(** An algorithm on a piece which gives an index: generic_find, algorithm.hpp 157-177, called
    with an algorithm that returns an iterator. *)
Definition at_index {T} c Ts (alg : T -> list (view V) -> M S (T * nat))
  (t : T) (i : piece) (xs : list (view V)) : M S (T * (nat * ptr)) :=
  r <- alg t xs ;; q <- lift (piece_at c Ts i (snd r)) ;; ret (fst r, (pc_id i, q)).
Definition find_by c Ts (alg : list (view V) -> M S nat) first last : M S iter :=
  r <- generic_find c Ts (at_index c Ts (fun t xs => k <- alg xs ;; ret (t, k))) tt first last ;;
  ret (snd r).

(** find 179-188 ([p] compares with x), find_if 190-199, find_if_not 201-210 *)
Definition pc_find_if c Ts first last p := find_by c Ts (std_find_if p) first last.
Definition pc_find_if_not c Ts first last p := find_by c Ts (std_find_if_not p) first last.
Definition pc_find {Y} c Ts first last (eq : view V -> Y -> M S bool) (y : Y) :=
  find_by c Ts (std_find_if (fun x => eq x y)) first last.
(** find_first_of 214-235 *)
Definition pc_find_first_of {Y} c Ts first last (p : view V -> Y -> M S bool) (ys : list Y) :=
  find_by c Ts (std_find_first_of p ys) first last.

(** adjacent_find_alg 237-263.  The state is carry and prev; prev_info is passed by value and
    so remains &typeid(void) in all calls: [*prev] is never restituted. *)
Definition adjacent_find_alg (c : coll V) (Ts : list tyid) (p : view V -> view V -> M S bool)
  (t : option (nat * ptr)) (i : piece) (xs : list (view V))
  : M S (option (nat * ptr) * (nat * ptr)) :=
  match xs with
  | [] => ret (t, (pc_id i, pc_end i))
  | x :: _ =>
      b <- match t with
           | None => ret false
           | Some prev =>
               n <- lift (node_at (c_nodes c) (fst prev)) ;;
               r <- lift (read_base (n_seg n) (snd prev)) ;;
               p (None, r) x
           end ;;
      if b then
        match t with Some prev => ret (t, prev) | None => ub end
      else
        k <- std_adjacent_find p xs ;;
        q <- lift (piece_at c Ts i k) ;;
        if k =? length xs then
          q1 <- lift (piece_at c Ts i (k - 1)) ;;
          ret (Some (pc_id i, q1), (pc_id i, q))
        else ret (None, (pc_id i, q))
  end.
(** adjacent_find 265-289 *)
Definition pc_adjacent_find c Ts first last p : M S iter :=
  r <- generic_find c Ts (adjacent_find_alg c Ts p) None first last ;; ret (snd r).

(** generic_count 296-306, count and count_if 308-328 *)
Fixpoint count_loop (c : coll V) (Ts : list tyid) (p : view V -> M S bool) (ps : list piece) (res : nat)
  : M S nat :=
  match ps with
  | [] => ret res
  | i :: ps' =>
      xs <- lift (piece_views c Ts i) ;;
      n <- std_count_if p xs ;; count_loop c Ts p ps' (res + n)
  end.
Definition pc_count_if c Ts first last p : M S nat :=
  ps <- lift (segment_split c first last) ;; count_loop c Ts p ps 0.
Definition pc_count {Y} c Ts first last (eq : view V -> Y -> M S bool) (y : Y) : M S nat :=
  pc_count_if c Ts first last (fun x => eq x y).

(** mismatch_alg 330-359: [ys] is what remains of the second range; [bounded] tells whether
    its end is known, i.e. which of the two overloads it is *)
Fixpoint mismatch_alg {Y} (bounded : bool) (p : view V -> Y -> M S bool) (ys : list Y) (xs : list (view V))
  {struct xs} : M S (list Y * nat) :=
  match xs with
  | [] => ret (ys, 0)
  | x :: xs' =>
      match ys with
      | [] => if bounded then ret ([], 0) else ub
      | y :: ys' =>
          b <- p x y ;;
          if b then r <- mismatch_alg bounded p ys' xs' ;; ret (fst r, 1 + snd r)
          else ret (ys, 0)
      end
  end.
(** mismatch 361-411: the iterator into the second range is given as an index *)
Definition pc_mismatch {Y} bounded c Ts first last (ys : list Y) p : M S (iter * nat) :=
  r <- generic_find c Ts (at_index c Ts (mismatch_alg bounded p)) ys first last ;;
  ret (snd r, length ys - length (fst r)).

(** equal_alg 413-441 *)
Fixpoint equal_alg {Y} (bounded : bool) (p : view V -> Y -> M S bool) (ys : list Y) (xs : list (view V))
  {struct xs} : M S (list Y * bool) :=
  match xs with
  | [] => ret (ys, true)
  | x :: xs' =>
      match ys with
      | [] => if bounded then ret ([], false) else ub
      | y :: ys' =>
          b <- p x y ;; if b then equal_alg bounded p ys' xs' else ret (ys, false)
      end
  end.
(** equal 443-493 *)
Fixpoint equal_loop {Y} (bounded : bool) (c : coll V) (Ts : list tyid) (p : view V -> Y -> M S bool)
  (ys : list Y) (ps : list piece) : M S (list Y * bool) :=
  match ps with
  | [] => ret (ys, true)
  | i :: ps' =>
      xs <- lift (piece_views c Ts i) ;;
      r <- equal_alg bounded p ys xs ;;
      if snd r then equal_loop bounded c Ts p (fst r) ps' else ret (fst r, false)
  end.
Definition pc_equal {Y} bounded c Ts first last (ys : list Y) p : M S bool :=
  ps <- lift (segment_split c first last) ;;
  r <- equal_loop bounded c Ts p ys ps ;;
  ret (if snd r then (if bounded then length (fst r) =? 0 else true) else false).

(** fast_distance 495-522; the loop with sfirst before the current segment *)
Fixpoint fast_distance_loop (ns : list (node V)) (last : iter) (m : nat) : M S nat :=
  match ns with
  | [] => if mapit_eqb (it_map last) None then ret m else ub
  | n :: ns' =>
      if mapit_eqb (Some (n_id n)) (it_map last) then
        k <- lift (pdiff (seg_begin (n_seg n)) (it_pos last)) ;; ret (m + k)
      else
        k <- lift (pdiff (seg_begin (n_seg n)) (seg_end (n_seg n))) ;;
        fast_distance_loop ns' last (m + k)
  end.
Definition pc_fast_distance (c : coll V) (first last : iter) : M S nat :=
  if it_eq first last then ret 0
  else if mapit_eqb (it_map first) (it_map last) then lift (pdiff (it_pos first) (it_pos last))
  else
    ns <- lift (segs_from c first) ;;
    match ns with
    | [] => ub
    | n :: ns' =>
        k <- lift (pdiff (it_pos first) (seg_end (n_seg n))) ;; fast_distance_loop ns' last k
    end.

(** is_permutation_suffix 524-550: the loop over one piece; [k] is the index of the first
    element of [xs], which is *lbscan.  [p] compares an element with one of the collection or
    one of the second range. *)
Fixpoint is_perm_scan {Y} (c : coll V) (Ts : list tyid) (p : view V -> view V + Y -> M S bool)
  (first1 last1 : iter) (ys : list Y) (i : piece) (k : nat) (xs : list (view V)) : M S bool :=
  match xs with
  | [] => ret true
  | x :: xs' =>
      scan <- lift (it_make c (Some (pc_id i)) (padd (pc_beg i) k)) ;;
      it <- pc_find_if c Ts first1 scan (fun z => p x (inl z)) ;;
      if negb (it_eq it scan) then is_perm_scan c Ts p first1 last1 ys i (1 + k) xs'
      else
        m <- std_count_if (fun y => p x (inr y)) ys ;;
        if m =? 0 then ret false
        else
          m' <- pc_count_if c Ts scan last1 (fun z => p x (inl z)) ;;
          if m =? m' then is_perm_scan c Ts p first1 last1 ys i (1 + k) xs' else ret false
  end.
Fixpoint is_perm_loop {Y} (c : coll V) (Ts : list tyid) (p : view V -> view V + Y -> M S bool)
  (first1 last1 : iter) (ys : list Y) (ps : list piece) : M S bool :=
  match ps with
  | [] => ret true
  | i :: ps' =>
      xs <- lift (piece_views c Ts i) ;;
      b <- is_perm_scan c Ts p first1 last1 ys i 0 xs ;;
      if b then is_perm_loop c Ts p first1 last1 ys ps' else ret false
  end.
Definition is_perm_suffix {Y} c Ts first1 last1 (ys : list Y) p : M S bool :=
  ps <- lift (segment_split c first1 last1) ;; is_perm_loop c Ts p first1 last1 ys ps.
(** is_permutation 552-601.  Without last2, the second range is as long as the first one. *)
Definition pc_is_permutation {Y} (bounded : bool) c Ts first1 last1 (ys : list Y) p : M S bool :=
  r <- pc_mismatch bounded c Ts first1 last1 ys (fun x y => p x (inr y)) ;;
  n <- pc_fast_distance c (fst r) last1 ;;
  let ys' := skipn (snd r) ys in
  if bounded then
    if n =? length ys' then is_perm_suffix c Ts (fst r) last1 ys' p else ret false
  else
    if n <=? length ys' then is_perm_suffix c Ts (fst r) last1 (firstn n ys') p else ub.

(** search 603-624: the loop over the positions of one piece, [k] of which have been
    examined and [n] remain *)
Fixpoint search_scan {Y} (c : coll V) (Ts : list tyid) (p : view V -> Y -> M S bool) (last1 : iter)
  (ys : list Y) (i : piece) (k n : nat) : M S (option iter) :=
  match n with
  | O => ret None
  | Datatypes.S n' =>
      it <- lift (it_make c (Some (pc_id i)) (padd (pc_beg i) k)) ;;
      r <- pc_mismatch true c Ts it last1 ys p ;;
      if snd r =? length ys then ret (Some it)
      else search_scan c Ts p last1 ys i (1 + k) n'
  end.
Fixpoint search_loop {Y} (c : coll V) (Ts : list tyid) (p : view V -> Y -> M S bool) (last1 : iter)
  (ys : list Y) (ps : list piece) : M S iter :=
  match ps with
  | [] => ret last1
  | i :: ps' =>
      n <- lift (pdiff (pc_beg i) (pc_end i)) ;;
      r <- search_scan c Ts p last1 ys i 0 n ;;
      match r with Some it => ret it | None => search_loop c Ts p last1 ys ps' end
  end.
Definition pc_search {Y} c Ts first1 last1 (ys : list Y) p : M S iter :=
  ps <- lift (segment_split c first1 last1) ;; search_loop c Ts p last1 ys ps.

(** find_end 637-658; [fuel] bounds the number of matches *)
Fixpoint find_end_loop {Y} (fuel : nat) (c : coll V) (Ts : list tyid) (p : view V -> Y -> M S bool)
  (first1 last1 : iter) (ys : list Y) (res : iter) : M S iter :=
  match fuel with
  | O => ub
  | Datatypes.S f =>
      res1 <- pc_search c Ts first1 last1 ys p ;;
      if it_eq res1 last1 then ret res
      else first1' <- lift (it_next c res1) ;; find_end_loop f c Ts p first1' last1 ys res1
  end.
Definition pc_find_end {Y} c Ts first1 last1 (ys : list Y) p : M S iter :=
  match ys with
  | [] => ret last1
  | _ => find_end_loop (1 + c_size c) c Ts p first1 last1 ys last1
  end.

(** search_n_alg 670-691: the state is carry and remain.  [m] is [None] in the outer loop,
    and [Some res] in the inner one. *)
Fixpoint search_n_scan (count : nat) (p : view V -> M S bool) (xs : list (view V)) (k : nat)
  (m : option nat) (carry : bool) (remain : nat) : M S ((bool * nat) * nat) :=
  match xs with
  | [] => ret ((carry, remain), match m with Some res => res | None => k end)
  | x :: xs' =>
      b <- p x ;;
      if b then
        let res := match m with Some res => res | None => k end in
        if remain - 1 =? 0 then ret ((carry, remain - 1), res)
        else search_n_scan count p xs' (1 + k) (Some res) carry (remain - 1)
      else search_n_scan count p xs' (1 + k) None false count
  end.
(** search_n 693-726: the loop over the pieces, with prev; [p] compares with x *)
Fixpoint search_n_loop (c : coll V) (Ts : list tyid) (count : nat) (p : view V -> M S bool)
  (last : iter) (carry : bool) (remain : nat) (prev : option (nat * ptr)) (ps : list piece) : M S iter :=
  match ps with
  | [] => ret last
  | i :: ps' =>
      xs <- lift (piece_views c Ts i) ;;
      r <- search_n_scan count p xs 0 None carry remain ;;
      q <- lift (piece_at c Ts i (snd r)) ;;
      let carry' := fst (fst r) in
      let remain' := snd (fst r) in
      if lbi_eq c (pc_id i, q) (pc_id i, pc_end i) then
        search_n_loop c Ts count p last carry' remain' prev ps'
      else if remain' =? 0 then
        l <- lift (if carry' then prev else Some (pc_id i, q)) ;;
        lift (it_make c (Some (fst l)) (snd l))
      else if carry' then search_n_loop c Ts count p last carry' remain' prev ps'
      else search_n_loop c Ts count p last true remain' (Some (pc_id i, q)) ps'
  end.
Definition pc_search_n c Ts first last count (p : view V -> M S bool) : M S iter :=
  if count =? 0 then ret first
  else ps <- lift (segment_split c first last) ;; search_n_loop c Ts count p last false count None ps.

(** generic_copy 738-752 *)
Fixpoint generic_copy_loop {T} (c : coll V) (Ts : list tyid)
  (alg : T -> list (view V) -> M S T) (t : T) (ps : list piece) : M S T :=
  match ps with
  | [] => ret t
  | i :: ps' =>
      xs <- lift (piece_views c Ts i) ;;
      t' <- alg t xs ;; generic_copy_loop c Ts alg t' ps'
  end.
Definition generic_copy {T} c Ts (alg : T -> list (view V) -> M S T) first last (t : T) : M S T :=
  ps <- lift (segment_split c first last) ;; generic_copy_loop c Ts alg t ps.

(** copy 754-763, move 803-812 ([put] then moves from the element) *)
Definition pc_copy c Ts first last put o : M S nat :=
  generic_copy c Ts (fun o xs => std_copy put xs o) first last o.
(** copy_if 791-801 *)
Definition pc_copy_if c Ts first last put p o : M S nat :=
  generic_copy c Ts (fun o xs => std_copy_if p put xs o) first last o.
(** copy_n 765-789 *)
Fixpoint copy_n_loop (c : coll V) (Ts : list tyid) (put : nat -> view V -> M S unit)
  (ns : list (node V)) (lbit : ptr) (count : nat) (o : nat) : M S nat :=
  match ns with
  | [] => ub
  | sit :: ns' =>
      m <- lift (pdiff lbit (seg_end (n_seg sit))) ;;
      let n := Nat.min count m in
      xs <- lift (piece_views c Ts (mkpiece (n_id sit) (env_ty (n_key sit)) lbit (padd lbit n))) ;;
      o' <- std_copy_n put xs n o ;;
      if count - n =? 0 then ret o'
      else match ns' with
           | [] => ub
           | sit' :: _ => copy_n_loop c Ts put ns' (seg_begin (n_seg sit')) (count - n) o'
           end
  end.
Definition pc_copy_n c Ts first count put o : M S nat :=
  if count =? 0 then ret o
  else ns <- lift (segs_from c first) ;; copy_n_loop c Ts put ns (it_pos first) count o.
(** transform 814-826 *)
Definition pc_transform {O} c Ts first last (put : nat -> O -> M S unit) op o : M S nat :=
  generic_copy c Ts (fun o xs => std_transform op put xs o) first last o.
(** transform2_alg 828-841, transform 843-852 *)
Fixpoint transform2_alg {Y O} (op : view V -> Y -> M S O) (put : nat -> O -> M S unit)
  (t : nat * list Y) (xs : list (view V)) : M S (nat * list Y) :=
  match xs with
  | [] => ret t
  | x :: xs' =>
      match snd t with
      | [] => ub
      | y :: ys' => r <- op x y ;; put (fst t) r ;; transform2_alg op put (1 + fst t, ys') xs'
      end
  end.
Definition pc_transform2 {Y O} c Ts first last (ys : list Y) (put : nat -> O -> M S unit) op o : M S nat :=
  r <- generic_copy c Ts (transform2_alg op put) first last (o, ys) ;; ret (fst r).
(** replace_copy_alg 854-872, replace_copy_if_alg 886-906, and 874-884, 908-919 *)
Fixpoint replace_copy_alg {N} (p : view V -> M S bool) (new : N) (put : nat -> N + view V -> M S unit)
  (o : nat) (xs : list (view V)) : M S nat :=
  match xs with
  | [] => ret o
  | x :: xs' =>
      b <- p x ;;
      (if b then put o (inl new) else put o (inr x)) ;;
      replace_copy_alg p new put (1 + o) xs'
  end.
Definition pc_replace_copy_if {N} c Ts first last (put : nat -> N + view V -> M S unit) p (new : N) o : M S nat :=
  generic_copy c Ts (replace_copy_alg p new put) first last o.
Definition pc_replace_copy {N} c Ts first last (put : nat -> N + view V -> M S unit)
  (eq : view V -> N -> M S bool) (old new : N) o : M S nat :=
  generic_copy c Ts (replace_copy_alg (fun x => eq x old) new put) first last o.
(** remove_copy 921-931, remove_copy_if 933-944 *)
Definition pc_remove_copy_if c Ts first last put p o : M S nat :=
  generic_copy c Ts (fun o xs => std_remove_copy_if p put xs o) first last o.
Definition pc_remove_copy {Y} c Ts first last put (eq : view V -> Y -> M S bool) (y : Y) o : M S nat :=
  generic_copy c Ts (fun o xs => std_remove_copy_if (fun x => eq x y) put xs o) first last o.
(** unique_copy_alg 946-973: the elements at the front which are equivalent to [*prev] are
    skipped; prev_info is passed by value, as in adjacent_find *)
Fixpoint skip_same (p : view V -> M S bool) (xs : list (view V)) : M S (list (view V)) :=
  match xs with
  | [] => ret []
  | x :: xs' => b <- p x ;; if b then skip_same p xs' else ret xs
  end.
Fixpoint unique_copy_loop (c : coll V) (Ts : list tyid) (p : view V -> view V -> M S bool)
  (put : nat -> view V -> M S unit) (prev : option (nat * ptr)) (o : nat) (ps : list piece) : M S nat :=
  match ps with
  | [] => ret o
  | i :: ps' =>
      xs <- lift (piece_views c Ts i) ;;
      xs' <- match prev with
             | None => ret xs
             | Some l =>
                 n <- lift (node_at (c_nodes c) (fst l)) ;;
                 r <- lift (read_base (n_seg n) (snd l)) ;;
                 skip_same (p (None, r)) xs
             end ;;
      match xs' with
      | [] => unique_copy_loop c Ts p put prev o ps'
      | _ =>
          o' <- std_unique_copy p put xs' o ;;
          q <- lift (piece_at c Ts i (length xs - 1)) ;;
          unique_copy_loop c Ts p put (Some (pc_id i, q)) o' ps'
      end
  end.
(** unique_copy 975-1000 *)
Definition pc_unique_copy c Ts first last put p o : M S nat :=
  ps <- lift (segment_split c first last) ;; unique_copy_loop c Ts p put None o ps.
(** rotate_copy 1002-1014 *)
Definition pc_rotate_copy c Ts first middle last put o : M S nat :=
  o' <- pc_copy c Ts middle last put o ;; pc_copy c Ts first middle put o'.

(** sample_alg 1016-1036; [draw m] is std::uniform_int_distribution(0,m)(g) *)
Fixpoint sample_alg (draw : nat -> M S nat) (put : nat -> view V -> M S unit) (o n m : nat)
  (xs : list (view V)) : M S (nat * (nat * nat)) :=
  match xs with
  | [] => ret (o, (n, m))
  | x :: xs' =>
      if n =? 0 then ret (o, (n, m))
      else
        r <- draw (m - 1) ;;
        if r <? n then put o x ;; sample_alg draw put (1 + o) (n - 1) (m - 1) xs'
        else sample_alg draw put o n (m - 1) xs'
  end.
(** sample 1038-1056 *)
Fixpoint sample_loop (c : coll V) (Ts : list tyid) (draw : nat -> M S nat) (put : nat -> view V -> M S unit)
  (o n m : nat) (ps : list piece) : M S nat :=
  match ps with
  | [] => ret o
  | i :: ps' =>
      xs <- lift (piece_views c Ts i) ;;
      r <- sample_alg draw put o n m xs ;;
      if fst (snd r) =? 0 then ret (fst r)
      else sample_loop c Ts draw put (fst r) (fst (snd r)) (snd (snd r)) ps'
  end.
Definition pc_sample c Ts first last put n draw o : M S nat :=
  m <- pc_fast_distance c first last ;;
  ps <- lift (segment_split c first last) ;;
  sample_loop c Ts draw put o (Nat.min n m) m ps.

(** is_partitioned 1058-1067 *)
Definition pc_is_partitioned c Ts first last (p : view V -> M S bool) : M S bool :=
  it <- pc_find_if_not c Ts first last p ;;
  if it_eq it last then ret true
  else it' <- lift (it_next c it) ;; pc_none_of c Ts it' last p.
(** partition_copy 1069-1086 *)
Definition pc_partition_copy c Ts first last put1 put2 p (o : nat * nat) : M S (nat * nat) :=
  generic_copy c Ts (fun o xs => std_partition_copy p put1 put2 xs o) first last o.

(** partition_point_pred 1088-1103: the predicate applied to an iterator *)
Definition pred_at (c : coll V) (Ts : list tyid) (p : view V -> M S bool) (it : iter) : M S bool :=
  ns <- lift (segs_from c it) ;;
  match ns with
  | [] => ub
  | n :: _ =>
      xs <- lift (piece_views c Ts (mkpiece (n_id n) (env_ty (n_key n)) (it_pos it) (padd (it_pos it) 1))) ;;
      match xs with [x] => p x | _ => ub end
  end.
(** std::distance and std::advance on forward iterators (standard library, used by
    algorithm.hpp 1105-1116) *)
Fixpoint it_distance (fuel : nat) (c : coll V) (first last : iter) : option nat :=
  if it_eq first last then Some 0
  else match fuel with
       | O => None
       | Datatypes.S f =>
           match it_next c first with
           | Some it => option_map Datatypes.S (it_distance f c it last)
           | None => None
           end
       end.
Fixpoint it_advance (c : coll V) (it : iter) (n : nat) : option iter :=
  match n with
  | O => Some it
  | Datatypes.S n' => match it_next c it with Some it' => it_advance c it' n' | None => None end
  end.
(** std::partition_point (standard library, called in algorithm.hpp 1105-1116) on [len]
    positions from [first] (bisection); [fuel] bounds the
    number of rounds *)
Fixpoint bisect (fuel : nat) (c : coll V) (Ts : list tyid) (p : view V -> M S bool) (first : iter) (len : nat)
  : M S iter :=
  if len =? 0 then ret first
  else match fuel with
       | O => ub
       | Datatypes.S f =>
           let half := Nat.div2 len in
           mid <- lift (it_advance c first half) ;;
           b <- pred_at c Ts p mid ;;
           if b then next <- lift (it_next c mid) ;; bisect f c Ts p next (len - half - 1)
           else bisect f c Ts p first half
       end.
(** partition_point 1105-1116 *)
Definition pc_partition_point c Ts first last (p : view V -> M S bool) : M S iter :=
  len <- lift (it_distance (c_size c) c first last) ;; bisect len c Ts p first len.

End Algo.
