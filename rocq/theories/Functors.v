(** * The algorithms when function objects have a state of their own

    In Algo.v the effects of the calls of a function object are on a state which all its
    copies share.  Here the object itself may change when it is called, so it matters which
    copy of it is called.  The function object passed to an algorithm of algorithm.hpp is held
    by reference in the tuple of a tail_closure (functional.hpp 57-88, type_restitution.hpp
    77-86), and is passed on from there, for each segment, to the algorithm for one segment.
    for_each_alg and for_each_n_alg take it by reference (algorithm.hpp 92-100, 112-124,
    "note the &"); the std algorithms, mismatch_alg, equal_alg, transform2_alg and
    replace_copy_if_alg take it by value, so they call a copy of the object which the caller
    passed.  Simplification: a std algorithm calls the one object it was passed (the standard
    leaves open whether it copies the object again). *)

From Coq Require Import List Arith Bool.
From Verif Require Import Base Vec Backend Segment Coll StdAlg Algo SpecAlg SpecObj.
Import ListNotations.

Section Functors.
Context {V : Type} {E : Env V} {S F : Type}.
Notation seg_range := (list (view V)).

(** all_of 59-64, any_of 72-77, none_of 85-90: [alg] runs on a segment *)
Fixpoint all_segs (c : coll V) (Ts : list tyid) (alg : seg_range -> M S bool) (ps : list piece) : M S bool :=
  match ps with
  | [] => ret true
  | i :: ps' =>
      xs <- lift (piece_views c Ts i) ;;
      b <- alg xs ;; if b then all_segs c Ts alg ps' else ret false
  end.
Fixpoint any_segs (c : coll V) (Ts : list tyid) (alg : seg_range -> M S bool) (ps : list piece) : M S bool :=
  match ps with
  | [] => ret false
  | i :: ps' =>
      xs <- lift (piece_views c Ts i) ;;
      b <- alg xs ;; if b then ret true else any_segs c Ts alg ps'
  end.
Definition pf_all_of c Ts first last (call : fcall S F (view V) bool) f : M S bool :=
  ps <- lift (segment_split c first last) ;;
  all_segs c Ts (fun xs => on_copy f (std_all_of (applied call) xs)) ps.
Definition pf_any_of c Ts first last (call : fcall S F (view V) bool) f : M S bool :=
  ps <- lift (segment_split c first last) ;;
  any_segs c Ts (fun xs => on_copy f (std_any_of (applied call) xs)) ps.
Definition pf_none_of c Ts first last (call : fcall S F (view V) bool) f : M S bool :=
  ps <- lift (segment_split c first last) ;;
  all_segs c Ts (fun xs => on_copy f (std_none_of (applied call) xs)) ps.

(** for_each 102-110: the object is returned.  for_each_n 126-154 *)
Definition pf_for_each c Ts first last (call : fcall S F (view V) unit) f : M S F :=
  on_it f (pc_for_each c Ts first last (applied call)).
Definition pf_for_each_n c Ts first n (call : fcall S F (view V) unit) f : M S iter :=
  on_copy f (pc_for_each_n c Ts first n (applied call)).

(** find_if 190-199, find_if_not 201-210, find_first_of 224-235 *)
Definition pf_find_if c Ts first last (call : fcall S F (view V) bool) f : M S iter :=
  find_by c Ts (fun xs => on_copy f (std_find_if (applied call) xs)) first last.
Definition pf_find_if_not c Ts first last (call : fcall S F (view V) bool) f : M S iter :=
  find_by c Ts (fun xs => on_copy f (std_find_if_not (applied call) xs)) first last.
Definition pf_find_first_of {Y} c Ts first last (ys : list Y) (call : fcall S F (view V * Y) bool) f : M S iter :=
  find_by c Ts (fun xs => on_copy f (std_find_first_of (fun x y => applied call (x, y)) ys xs)) first last.

(** count_if 318-328 *)
Fixpoint count_segs (c : coll V) (Ts : list tyid) (alg : seg_range -> M S nat) (ps : list piece) (res : nat) : M S nat :=
  match ps with
  | [] => ret res
  | i :: ps' =>
      xs <- lift (piece_views c Ts i) ;;
      n <- alg xs ;; count_segs c Ts alg ps' (res + n)
  end.
Definition pf_count_if c Ts first last (call : fcall S F (view V) bool) f : M S nat :=
  ps <- lift (segment_split c first last) ;;
  count_segs c Ts (fun xs => on_copy f (std_count_if (applied call) xs)) ps 0.

(** mismatch 361-411 *)
Definition pf_mismatch {Y} bounded c Ts first last (ys : list Y) (call : fcall S F (view V * Y) bool) f : M S (iter * nat) :=
  r <- generic_find c Ts
         (at_index c Ts (fun ys xs => on_copy f (mismatch_alg bounded (fun x y => applied call (x, y)) ys xs)))
         ys first last ;;
  ret (snd r, length ys - length (fst r)).

(** copy_if 791-801, transform 814-826 and 843-852, replace_copy_if 908-919,
    remove_copy_if 933-944, partition_copy 1069-1086 *)
Definition pf_copy_if c Ts first last put (call : fcall S F (view V) bool) f o : M S nat :=
  generic_copy c Ts (fun o xs => on_copy f (std_copy_if (applied call) (fun o x => aside (put o x)) xs o)) first last o.
Definition pf_transform {O} c Ts first last put (call : fcall S F (view V) O) f o : M S nat :=
  generic_copy c Ts (fun o xs => on_copy f (std_transform (applied call) (fun o x => aside (put o x)) xs o)) first last o.
Definition pf_transform2 {Y O} c Ts first last (ys : list Y) put (call : fcall S F (view V * Y) O) f o : M S nat :=
  r <- generic_copy c Ts
         (fun t xs => on_copy f (transform2_alg (fun x y => applied call (x, y)) (fun o x => aside (put o x)) t xs))
         first last (o, ys) ;;
  ret (fst r).
Definition pf_replace_copy_if {N} c Ts first last put (call : fcall S F (view V) bool) f (new : N) o : M S nat :=
  generic_copy c Ts (fun o xs => on_copy f (replace_copy_alg (applied call) new (fun o x => aside (put o x)) o xs)) first last o.
Definition pf_remove_copy_if c Ts first last put (call : fcall S F (view V) bool) f o : M S nat :=
  generic_copy c Ts (fun o xs => on_copy f (std_remove_copy_if (applied call) (fun o x => aside (put o x)) xs o)) first last o.
Definition pf_partition_copy c Ts first last put1 put2 (call : fcall S F (view V) bool) f o : M S (nat * nat) :=
  generic_copy c Ts (fun o xs => on_copy f
    (std_partition_copy (applied call) (fun o x => aside (put1 o x)) (fun o x => aside (put2 o x)) xs o)) first last o.

(** equal 443-493 *)
Fixpoint equal_segs {Y} (c : coll V) (Ts : list tyid) (alg : list Y -> seg_range -> M S (list Y * bool))
  (ys : list Y) (ps : list piece) : M S (list Y * bool) :=
  match ps with
  | [] => ret (ys, true)
  | i :: ps' =>
      xs <- lift (piece_views c Ts i) ;;
      r <- alg ys xs ;;
      if snd r then equal_segs c Ts alg (fst r) ps' else ret (fst r, false)
  end.
Definition pf_equal {Y} bounded c Ts first last (ys : list Y) (call : fcall S F (view V * Y) bool) f : M S bool :=
  ps <- lift (segment_split c first last) ;;
  r <- equal_segs c Ts (fun ys xs => on_copy f (equal_alg bounded (fun x y => applied call (x, y)) ys xs)) ys ps ;;
  ret (if snd r then (if bounded then length (fst r) =? 0 else true) else false).

(** adjacent_find_alg 237-263: deref_to (functional.hpp 143-161) and std::adjacent_find have a
    copy each; adjacent_find 265-289 *)
Definition adjacent_find_obj (c : coll V) (Ts : list tyid) (call : fcall S F (view V * view V) bool) (f : F)
  (t : option (nat * ptr)) (i : piece) (xs : list (view V)) : M S (option (nat * ptr) * (nat * ptr)) :=
  match xs with
  | [] => ret (t, (pc_id i, pc_end i))
  | x :: _ =>
      b <- match t with
           | None => ret false
           | Some prev =>
               n <- lift (node_at (c_nodes c) (fst prev)) ;;
               r <- lift (read_base (n_seg n) (snd prev)) ;;
               on_copy f (applied call ((None, r), x))
           end ;;
      if b then
        match t with Some prev => ret (t, prev) | None => ub end
      else
        k <- on_copy f (std_adjacent_find (fun x y => applied call (x, y)) xs) ;;
        q <- lift (piece_at c Ts i k) ;;
        if k =? length xs then
          q1 <- lift (piece_at c Ts i (k - 1)) ;;
          ret (Some (pc_id i, q1), (pc_id i, q))
        else ret (None, (pc_id i, q))
  end.
Definition pf_adjacent_find c Ts first last (call : fcall S F (view V * view V) bool) f : M S iter :=
  r <- generic_find c Ts (adjacent_find_obj c Ts call f) None first last ;; ret (snd r).

(** is_permutation_suffix 524-550: deref_1st_to (functional.hpp 163-181) has a copy, of which
    find_if, std::count_if and count_if are passed copies *)
Definition bound {X Y R} (call : fcall S F (X * Y) R) (x : X) : fcall S F Y R := fun f y => call f (x, y).
Definition on_left {X Y Z R} (call : fcall S F (X * (Y + Z)) R) : fcall S F (X * Y) R := fun f x => call f (fst x, inl (snd x)).
Definition on_right {X Y Z R} (call : fcall S F (X * (Y + Z)) R) : fcall S F (X * Z) R := fun f x => call f (fst x, inr (snd x)).
Fixpoint is_perm_scan_obj {Y} (c : coll V) (Ts : list tyid) (call : fcall S F (view V * (view V + Y)) bool) (f : F)
  (first1 last1 : iter) (ys : list Y) (i : piece) (k : nat) (xs : list (view V)) : M S bool :=
  match xs with
  | [] => ret true
  | x :: xs' =>
      scan <- lift (it_make c (Some (pc_id i)) (padd (pc_beg i) k)) ;;
      it <- pf_find_if c Ts first1 scan (bound (on_left call) x) f ;;
      if negb (it_eq it scan) then is_perm_scan_obj c Ts call f first1 last1 ys i (1 + k) xs'
      else
        m <- on_copy f (std_count_if (applied (bound (on_right call) x)) ys) ;;
        if m =? 0 then ret false
        else
          m' <- pf_count_if c Ts scan last1 (bound (on_left call) x) f ;;
          if m =? m' then is_perm_scan_obj c Ts call f first1 last1 ys i (1 + k) xs' else ret false
  end.
Fixpoint is_perm_segs {Y} (c : coll V) (Ts : list tyid) (call : fcall S F (view V * (view V + Y)) bool) (f : F)
  (first1 last1 : iter) (ys : list Y) (ps : list piece) : M S bool :=
  match ps with
  | [] => ret true
  | i :: ps' =>
      xs <- lift (piece_views c Ts i) ;;
      b <- is_perm_scan_obj c Ts call f first1 last1 ys i 0 xs ;;
      if b then is_perm_segs c Ts call f first1 last1 ys ps' else ret false
  end.
Definition is_perm_suffix_obj {Y} c Ts first1 last1 (ys : list Y) call f : M S bool :=
  ps <- lift (segment_split c first1 last1) ;; is_perm_segs c Ts call f first1 last1 ys ps.
(** is_permutation 552-601 *)
Definition pf_is_permutation {Y} (bounded : bool) c Ts first1 last1 (ys : list Y)
  (call : fcall S F (view V * (view V + Y)) bool) f : M S bool :=
  r <- pf_mismatch bounded c Ts first1 last1 ys (on_right call) f ;;
  n <- pc_fast_distance c (fst r) last1 ;;
  let ys' := skipn (snd r) ys in
  if bounded then
    if n =? length ys' then is_perm_suffix_obj c Ts (fst r) last1 ys' call f else ret false
  else
    if n <=? length ys' then is_perm_suffix_obj c Ts (fst r) last1 (firstn n ys') call f else ub.

(** search 603-624 *)
Fixpoint search_scan_obj {Y} (c : coll V) (Ts : list tyid) (call : fcall S F (view V * Y) bool) (f : F) (last1 : iter)
  (ys : list Y) (i : piece) (k n : nat) : M S (option iter) :=
  match n with
  | O => ret None
  | Datatypes.S n' =>
      it <- lift (it_make c (Some (pc_id i)) (padd (pc_beg i) k)) ;;
      r <- pf_mismatch true c Ts it last1 ys call f ;;
      if snd r =? length ys then ret (Some it)
      else search_scan_obj c Ts call f last1 ys i (1 + k) n'
  end.
Fixpoint search_segs {Y} (c : coll V) (Ts : list tyid) (call : fcall S F (view V * Y) bool) (f : F) (last1 : iter)
  (ys : list Y) (ps : list piece) : M S iter :=
  match ps with
  | [] => ret last1
  | i :: ps' =>
      n <- lift (pdiff (pc_beg i) (pc_end i)) ;;
      r <- search_scan_obj c Ts call f last1 ys i 0 n ;;
      match r with Some it => ret it | None => search_segs c Ts call f last1 ys ps' end
  end.
Definition pf_search {Y} c Ts first1 last1 (ys : list Y) call f : M S iter :=
  ps <- lift (segment_split c first1 last1) ;; search_segs c Ts call f last1 ys ps.
(** find_end 637-658 *)
Fixpoint find_end_obj {Y} (fuel : nat) (c : coll V) (Ts : list tyid) (call : fcall S F (view V * Y) bool) (f : F)
  (first1 last1 : iter) (ys : list Y) (res : iter) : M S iter :=
  match fuel with
  | O => ub
  | Datatypes.S n =>
      res1 <- pf_search c Ts first1 last1 ys call f ;;
      if it_eq res1 last1 then ret res
      else first1' <- lift (it_next c res1) ;; find_end_obj n c Ts call f first1' last1 ys res1
  end.
Definition pf_find_end {Y} c Ts first1 last1 (ys : list Y) call f : M S iter :=
  match ys with
  | [] => ret last1
  | _ => find_end_obj (1 + c_size c) c Ts call f first1 last1 ys last1
  end.

(** search_n 670-726 *)
Fixpoint search_n_segs (c : coll V) (Ts : list tyid) (count : nat) (call : fcall S F (view V) bool) (f : F)
  (last : iter) (carry : bool) (remain : nat) (prev : option (nat * ptr)) (ps : list piece) : M S iter :=
  match ps with
  | [] => ret last
  | i :: ps' =>
      xs <- lift (piece_views c Ts i) ;;
      r <- on_copy f (search_n_scan count (applied call) xs 0 None carry remain) ;;
      q <- lift (piece_at c Ts i (snd r)) ;;
      let carry' := fst (fst r) in
      let remain' := snd (fst r) in
      if lbi_eq c (pc_id i, q) (pc_id i, pc_end i) then
        search_n_segs c Ts count call f last carry' remain' prev ps'
      else if remain' =? 0 then
        l <- lift (if carry' then prev else Some (pc_id i, q)) ;;
        lift (it_make c (Some (fst l)) (snd l))
      else if carry' then search_n_segs c Ts count call f last carry' remain' prev ps'
      else search_n_segs c Ts count call f last true remain' (Some (pc_id i, q)) ps'
  end.
Definition pf_search_n c Ts first last count (call : fcall S F (view V) bool) f : M S iter :=
  if count =? 0 then ret first
  else ps <- lift (segment_split c first last) ;; search_n_segs c Ts count call f last false count None ps.

(** unique_copy_alg 946-973, unique_copy 975-1000 *)
Fixpoint unique_copy_segs (c : coll V) (Ts : list tyid) (call : fcall S F (view V * view V) bool) (f : F)
  (put : nat -> view V -> M S unit) (prev : option (nat * ptr)) (o : nat) (ps : list piece) : M S nat :=
  match ps with
  | [] => ret o
  | i :: ps' =>
      xs <- lift (piece_views c Ts i) ;;
      xs' <- match prev with
             | None => ret xs
             | Some l =>
                 n <- lift (node_at (c_nodes c) (fst l)) ;;
                 r <- lift (read_base (n_seg n) (snd l)) ;;
                 on_copy f (skip_same (fun x => applied call ((None, r), x)) xs)
             end ;;
      match xs' with
      | [] => unique_copy_segs c Ts call f put prev o ps'
      | _ =>
          o' <- on_copy f (std_unique_copy (fun x y => applied call (x, y)) (fun o x => aside (put o x)) xs' o) ;;
          q <- lift (piece_at c Ts i (length xs - 1)) ;;
          unique_copy_segs c Ts call f put (Some (pc_id i, q)) o' ps'
      end
  end.
Definition pf_unique_copy c Ts first last put call f o : M S nat :=
  ps <- lift (segment_split c first last) ;; unique_copy_segs c Ts call f put None o ps.

(** is_partitioned 1058-1067; partition_point 1088-1116: partition_point_pred makes a copy of
    the predicate for each call *)
Definition pf_is_partitioned c Ts first last (call : fcall S F (view V) bool) f : M S bool :=
  it <- pf_find_if_not c Ts first last call f ;;
  if it_eq it last then ret true
  else it' <- lift (it_next c it) ;; pf_none_of c Ts it' last call f.
Definition pf_partition_point c Ts first last (call : fcall S F (view V) bool) f : M S iter :=
  pc_partition_point c Ts first last (fun x => on_copy f (applied call x)).

End Functors.
