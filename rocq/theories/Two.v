(** * Algorithms whose second range is given by iterators

    In Algo.v the second range of mismatch, equal, is_permutation, find_first_of, search, find_end and transform is the sequence of its elements.  Here it is given
    by iterators of any type with [*], [++] and [==], iterators of the same or another collection, say.  [fuel] bounds the loops the standard library runs over the
    second range. *)

From Coq Require Import List Arith Bool.
From Verif Require Import Base Vec Backend Segment Coll StdAlg Algo.
Import ListNotations.

(** What a forward iterator can do; [None]: undefined. *)
(* nothing in /repo: an iterator of the user for the second range *)
Record forward (I Y : Type) : Type := mkforward {
  f_deref : I -> option Y;
  f_next : I -> option I;
  f_eq : I -> I -> bool
}.
Arguments mkforward {I Y} _ _ _.
Arguments f_deref {I Y} _ _.
Arguments f_next {I Y} _ _.
Arguments f_eq {I Y} _ _ _.

Section Two.
Context {V : Type} {E : Env V} {S : Type} {I Y : Type}.

(** The iterators of a collection (iterator_impl.hpp 97-116: *, ==, ++). *)
Definition coll_forward (c : coll V) : forward iter (tyid * V) := mkforward (it_deref c) (it_next c) it_eq.

(** [first2!=last2]; without last2 there is no test *)
(* nothing in /repo: comparison with the end of the second range *)
Definition at_last (F : forward I Y) (last2 : option I) (it2 : I) : bool := match last2 with Some l => f_eq F it2 l | None => false end.

(** mismatch_alg, algorithm.hpp 330-359 *)
Fixpoint mismatch_it (F : forward I Y) (last2 : option I) (p : view V -> Y -> M S bool) (it2 : I) (xs : list (view V)) {struct xs} : M S (I * nat) :=
  match xs with
  | [] => ret (it2, 0)
  | x :: xs' =>
      if at_last F last2 it2 then ret (it2, 0)
      else
        y <- lift (f_deref F it2) ;;
        b <- p x y ;;
        if b then it2' <- lift (f_next F it2) ;; r <- mismatch_it F last2 p it2' xs' ;; ret (fst r, 1 + snd r)
        else ret (it2, 0)
  end.
(** mismatch 361-411 *)
Definition pi_mismatch (F : forward I Y) c Ts first last (it2 : I) (last2 : option I) p : M S (iter * I) :=
  r <- generic_find c Ts (at_index c Ts (mismatch_it F last2 p)) it2 first last ;; ret (snd r, fst r).

(** equal_alg 413-441 *)
Fixpoint equal_it (F : forward I Y) (last2 : option I) (p : view V -> Y -> M S bool) (it2 : I) (xs : list (view V)) {struct xs} : M S (I * bool) :=
  match xs with
  | [] => ret (it2, true)
  | x :: xs' =>
      if at_last F last2 it2 then ret (it2, false)
      else
        y <- lift (f_deref F it2) ;;
        b <- p x y ;;
        if b then it2' <- lift (f_next F it2) ;; equal_it F last2 p it2' xs' else ret (it2, false)
  end.
(** equal 443-493 *)
Fixpoint equal_it_loop (F : forward I Y) (last2 : option I) (c : coll V) (Ts : list tyid) (p : view V -> Y -> M S bool) (it2 : I) (ps : list piece)
  : M S (I * bool) :=
  match ps with
  | [] => ret (it2, true)
  | i :: ps' =>
      xs <- lift (piece_views c Ts i) ;;
      r <- equal_it F last2 p it2 xs ;;
      if snd r then equal_it_loop F last2 c Ts p (fst r) ps' else ret (fst r, false)
  end.
Definition pi_equal (F : forward I Y) c Ts first last (it2 : I) (last2 : option I) p : M S bool :=
  ps <- lift (segment_split c first last) ;;
  r <- equal_it_loop F last2 c Ts p it2 ps ;;
  ret (if snd r then match last2 with Some l => f_eq F (fst r) l | None => true end else false).

(** std::find_first_of (standard library) on a piece, and find_first_of 214-235 *)
Fixpoint any_it (F : forward I Y) (fuel : nat) (p : Y -> M S bool) (it2 last2 : I) : M S bool :=
  if f_eq F it2 last2 then ret false
  else match fuel with
       | O => ub
       | Datatypes.S f =>
           y <- lift (f_deref F it2) ;;
           b <- p y ;;
           if b then ret true else it2' <- lift (f_next F it2) ;; any_it F f p it2' last2
       end.
Fixpoint first_of_it (F : forward I Y) (fuel : nat) (p : view V -> Y -> M S bool) (it2 last2 : I) (xs : list (view V)) : M S nat :=
  match xs with
  | [] => ret 0
  | x :: xs' => b <- any_it F fuel (p x) it2 last2 ;;
                if b then ret 0 else k <- first_of_it F fuel p it2 last2 xs' ;; ret (1 + k)
  end.
Definition pi_find_first_of (F : forward I Y) fuel c Ts first last p (it2 last2 : I) : M S iter :=
  find_by c Ts (first_of_it F fuel p it2 last2) first last.

(** std::count_if, std::distance, std::next (standard library) *)
Fixpoint count_it (F : forward I Y) (fuel : nat) (p : Y -> M S bool) (it2 last2 : I) : M S nat :=
  if f_eq F it2 last2 then ret 0
  else match fuel with
       | O => ub
       | Datatypes.S f =>
           y <- lift (f_deref F it2) ;;
           b <- p y ;;
           it2' <- lift (f_next F it2) ;;
           n <- count_it F f p it2' last2 ;;
           ret (if b then 1 + n else n)
       end.
Fixpoint distance_it (F : forward I Y) (fuel : nat) (it2 last2 : I) : option nat :=
  if f_eq F it2 last2 then Some 0
  else match fuel with
       | O => None
       | Datatypes.S f =>
           match f_next F it2 with
           | Some it2' => option_map Datatypes.S (distance_it F f it2' last2)
           | None => None
           end
       end.
Fixpoint advance_it (F : forward I Y) (it2 : I) (n : nat) : option I :=
  match n with
  | O => Some it2
  | Datatypes.S n' => match f_next F it2 with Some it2' => advance_it F it2' n' | None => None end
  end.

(** is_permutation_suffix 524-550 *)
Fixpoint is_perm_scan_it (F : forward I Y) (fuel : nat) (c : coll V) (Ts : list tyid) (p : view V -> view V + Y -> M S bool)
  (first1 last1 : iter) (it2 last2 : I) (i : piece) (k : nat) (xs : list (view V)) : M S bool :=
  match xs with
  | [] => ret true
  | x :: xs' =>
      scan <- lift (it_make c (Some (pc_id i)) (padd (pc_beg i) k)) ;;
      it <- pc_find_if c Ts first1 scan (fun z => p x (inl z)) ;;
      if negb (it_eq it scan) then is_perm_scan_it F fuel c Ts p first1 last1 it2 last2 i (1 + k) xs'
      else
        m <- count_it F fuel (fun y => p x (inr y)) it2 last2 ;;
        if m =? 0 then ret false
        else
          m' <- pc_count_if c Ts scan last1 (fun z => p x (inl z)) ;;
          if m =? m' then is_perm_scan_it F fuel c Ts p first1 last1 it2 last2 i (1 + k) xs' else ret false
  end.
Fixpoint is_perm_loop_it (F : forward I Y) (fuel : nat) (c : coll V) (Ts : list tyid) (p : view V -> view V + Y -> M S bool)
  (first1 last1 : iter) (it2 last2 : I) (ps : list piece) : M S bool :=
  match ps with
  | [] => ret true
  | i :: ps' =>
      xs <- lift (piece_views c Ts i) ;;
      b <- is_perm_scan_it F fuel c Ts p first1 last1 it2 last2 i 0 xs ;;
      if b then is_perm_loop_it F fuel c Ts p first1 last1 it2 last2 ps' else ret false
  end.
Definition is_perm_suffix_it (F : forward I Y) fuel c Ts first1 last1 (it2 last2 : I) p : M S bool :=
  ps <- lift (segment_split c first1 last1) ;; is_perm_loop_it F fuel c Ts p first1 last1 it2 last2 ps.
(** is_permutation 552-601 *)
Definition pi_is_permutation (F : forward I Y) fuel c Ts first1 last1 (it2 : I) (last2 : option I) p : M S bool :=
  r <- pi_mismatch F c Ts first1 last1 it2 last2 (fun x y => p x (inr y)) ;;
  match last2 with
  | None =>
      n <- pc_fast_distance c (fst r) last1 ;;
      l2 <- lift (advance_it F (snd r) n) ;;
      is_perm_suffix_it F fuel c Ts (fst r) last1 (snd r) l2 p
  | Some l2 =>
      n <- pc_fast_distance c (fst r) last1 ;;
      m <- lift (distance_it F fuel (snd r) l2) ;;
      if n =? m then is_perm_suffix_it F fuel c Ts (fst r) last1 (snd r) l2 p else ret false
  end.

(** search 603-624 *)
Fixpoint search_scan_it (F : forward I Y) (c : coll V) (Ts : list tyid) (p : view V -> Y -> M S bool) (last1 : iter)
  (it2 last2 : I) (i : piece) (k n : nat) : M S (option iter) :=
  match n with
  | O => ret None
  | Datatypes.S n' =>
      it <- lift (it_make c (Some (pc_id i)) (padd (pc_beg i) k)) ;;
      r <- pi_mismatch F c Ts it last1 it2 (Some last2) p ;;
      if f_eq F (snd r) last2 then ret (Some it)
      else search_scan_it F c Ts p last1 it2 last2 i (1 + k) n'
  end.
Fixpoint search_loop_it (F : forward I Y) (c : coll V) (Ts : list tyid) (p : view V -> Y -> M S bool) (last1 : iter)
  (it2 last2 : I) (ps : list piece) : M S iter :=
  match ps with
  | [] => ret last1
  | i :: ps' =>
      n <- lift (pdiff (pc_beg i) (pc_end i)) ;;
      r <- search_scan_it F c Ts p last1 it2 last2 i 0 n ;;
      match r with Some it => ret it | None => search_loop_it F c Ts p last1 it2 last2 ps' end
  end.
Definition pi_search (F : forward I Y) c Ts first1 last1 (it2 last2 : I) p : M S iter :=
  ps <- lift (segment_split c first1 last1) ;; search_loop_it F c Ts p last1 it2 last2 ps.
(** find_end 637-658; the number of matches is bounded as in Algo.v *)
Fixpoint find_end_it_loop (F : forward I Y) (fuel : nat) (c : coll V) (Ts : list tyid) (p : view V -> Y -> M S bool)
  (first1 last1 : iter) (it2 last2 : I) (res : iter) : M S iter :=
  match fuel with
  | O => ub
  | Datatypes.S f =>
      res1 <- pi_search F c Ts first1 last1 it2 last2 p ;;
      if it_eq res1 last1 then ret res
      else first1' <- lift (it_next c res1) ;; find_end_it_loop F f c Ts p first1' last1 it2 last2 res1
  end.
Definition pi_find_end (F : forward I Y) c Ts first1 last1 (it2 last2 : I) p : M S iter :=
  if f_eq F it2 last2 then ret last1 else find_end_it_loop F (1 + c_size c) c Ts p first1 last1 it2 last2 last1.

(** transform2_alg 828-841: *res++=op( *first1++,*first2++); transform 843-852 *)
Fixpoint transform2_it {O} (F : forward I Y) (op : view V -> Y -> M S O) (put : nat -> O -> M S unit) (t : nat * I) (xs : list (view V)) : M S (nat * I) :=
  match xs with
  | [] => ret t
  | x :: xs' =>
      y <- lift (f_deref F (snd t)) ;;
      it2' <- lift (f_next F (snd t)) ;;
      r <- op x y ;; put (fst t) r ;; transform2_it F op put (1 + fst t, it2') xs'
  end.
Definition pi_transform2 {O} (F : forward I Y) c Ts first last (it2 : I) (put : nat -> O -> M S unit) op o : M S nat :=
  r <- generic_copy c Ts (transform2_it F op put) first last (o, it2) ;; ret (fst r).

End Two.
