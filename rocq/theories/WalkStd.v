(** * The algorithms of the standard library as programs on iterators

    What std::alg(first,last,...) does with the iterators [first] and [last] it is passed, for the algorithms which
    poly_collection offers too (user code, nothing in /repo; the reference documentation, doc/reference.qbk, describes the effects of
    boost::poly_collection::alg as those of std::alg).  Variables 0 and 1 are first and last.  A second sequence and the places written to are those
    of StdAlg.v.  [fuel] bounds the number of rounds. *)

From Coq Require Import List Arith Bool.
From Verif Require Import Base Vec Backend Segment Coll StdAlg Algo Access Walk.
Import ListNotations.

Section WalkStd.
Context {V S : Type}.
Notation obj := (tyid * V)%type.
Notation W := (walk V S).

(** for(;first!=last;++first){body}: the body is given the rest of the loop, and the loop a state [A]. *)
(* nothing in /repo: for(;first!=last;++first) with the iterators of the collection *)
Fixpoint w_for {A X} (fuel : nat) (body : A -> (A -> W X) -> W X) (fin : A -> W X) (a : A) : W X :=
  Cmp 0 1 (fun e =>
    if e then fin a
    else match fuel with
         | O => Lost
         | Datatypes.S n => body a (fun a' => Inc 0 (w_for n body fin a'))
         end).

(* nothing in /repo: std::all_of with the iterators of the collection *)
Definition w_all_of fuel (p : obj -> M S bool) : W bool :=
  w_for fuel (fun _ next => Ref 0 (looking p) (fun b => if b then next tt else Done false)) (fun _ => Done true) tt.
(* nothing in /repo: std::any_of with the iterators of the collection *)
Definition w_any_of fuel (p : obj -> M S bool) : W bool :=
  w_for fuel (fun _ next => Ref 0 (looking p) (fun b => if b then Done true else next tt)) (fun _ => Done false) tt.
(* nothing in /repo: std::none_of with the iterators of the collection *)
Definition w_none_of fuel (p : obj -> M S bool) : W bool :=
  w_for fuel (fun _ next => Ref 0 (looking p) (fun b => if b then Done false else next tt)) (fun _ => Done true) tt.
(* nothing in /repo: std::for_each with the iterators of the collection *)
Definition w_for_each fuel (f : obj -> M S unit) : W unit :=
  w_for fuel (fun _ next => Ref 0 (looking f) (fun _ => next tt)) (fun _ => Done tt) tt.
(* nothing in /repo: std::count_if with the iterators of the collection *)
Definition w_count_if fuel (p : obj -> M S bool) : W nat :=
  w_for fuel (fun n next => Ref 0 (looking p) (fun b => next (if b then 1 + n else n))) (fun n => Done n) 0.
(** the result is variable 0 *)
(* nothing in /repo: std::find_if_not with the iterators of the collection *)
Definition w_find_if_not fuel (p : obj -> M S bool) : W unit :=
  w_for fuel (fun _ next => Ref 0 (looking p) (fun b => if b then next tt else Done tt)) (fun _ => Done tt) tt.

Section Two.
Context {Y : Type}.
(** for(it=first2;it!=last2;++it)if(pred( *first,*it))return first; *)
(* nothing in /repo: the inner loop of std::find_first_of *)
Fixpoint w_any2 {X} (p : obj -> Y -> M S bool) (ys : list Y) (yes no : W X) : W X :=
  match ys with
  | [] => no
  | y :: ys' => Ref 0 (looking (fun x => p x y)) (fun b => if b then yes else w_any2 p ys' yes no)
  end.
(* nothing in /repo: std::find_first_of with the iterators of the collection *)
Definition w_find_first_of fuel (p : obj -> Y -> M S bool) (ys : list Y) : W unit :=
  w_for fuel (fun _ next => w_any2 p ys (Done tt) (next tt)) (fun _ => Done tt) tt.
(** the results are variable 0 and the position in the second sequence; [bounded] if its end is passed too *)
(* nothing in /repo: std::mismatch with the iterators of the collection *)
Definition w_mismatch (bounded : bool) fuel (p : obj -> Y -> M S bool) (ys : list Y) : W nat :=
  w_for fuel (fun m next =>
    match nth_error ys m with
    | Some y => Ref 0 (looking (fun x => p x y)) (fun b => if b then next (1 + m) else Done m)
    | None => if bounded then Done m else Lost
    end) (fun m => Done m) 0.
(* nothing in /repo: std::equal with the iterators of the collection *)
Definition w_equal (bounded : bool) fuel (p : obj -> Y -> M S bool) (ys : list Y) : W bool :=
  w_for fuel (fun m next =>
    match nth_error ys m with
    | Some y => Ref 0 (looking (fun x => p x y)) (fun b => if b then next (1 + m) else Done false)
    | None => if bounded then Done false else Lost
    end) (fun m => Done (negb bounded || (m =? length ys))) 0.
(* nothing in /repo: std::transform, binary with the iterators of the collection *)
Definition w_transform2 {O} fuel (op : obj -> Y -> M S O) (put : nat -> O -> M S unit) (ys : list Y) (o : nat) : W nat :=
  w_for fuel (fun mo next =>
    match nth_error ys (fst mo) with
    | Some y => Ref 0 (looking (fun x => r <- op x y ;; put (snd mo) r)) (fun _ => next (1 + fst mo, 1 + snd mo))
    | None => Lost
    end) (fun mo => Done (snd mo)) (0, o).
End Two.

(* nothing in /repo: std::copy with the iterators of the collection *)
Definition w_copy fuel (put : nat -> obj -> M S unit) (o : nat) : W nat :=
  w_for fuel (fun o next => Ref 0 (looking (put o)) (fun _ => next (1 + o))) (fun o => Done o) o.
(* nothing in /repo: std::copy_if with the iterators of the collection *)
Definition w_copy_if fuel (p : obj -> M S bool) (put : nat -> obj -> M S unit) (o : nat) : W nat :=
  w_for fuel (fun o next => Ref 0 (looking p) (fun b =>
    if b then Ref 0 (looking (put o)) (fun _ => next (1 + o)) else next o)) (fun o => Done o) o.
(* nothing in /repo: std::remove_copy_if with the iterators of the collection *)
Definition w_remove_copy_if fuel (p : obj -> M S bool) (put : nat -> obj -> M S unit) (o : nat) : W nat :=
  w_for fuel (fun o next => Ref 0 (looking p) (fun b =>
    if b then next o else Ref 0 (looking (put o)) (fun _ => next (1 + o)))) (fun o => Done o) o.
(* nothing in /repo: std::transform with the iterators of the collection *)
Definition w_transform {O} fuel (op : obj -> M S O) (put : nat -> O -> M S unit) (o : nat) : W nat :=
  w_for fuel (fun o next => Ref 0 (looking (fun x => r <- op x ;; put o r)) (fun _ => next (1 + o))) (fun o => Done o) o.
(* nothing in /repo: std::replace_copy_if with the iterators of the collection *)
Definition w_replace_copy_if {N} fuel (p : obj -> M S bool) (new : N) (put : nat -> N + obj -> M S unit) (o : nat) : W nat :=
  w_for fuel (fun o next => Ref 0 (looking p) (fun b =>
    Ref 0 (looking (fun x => put o (if b then inl new else inr x))) (fun _ => next (1 + o)))) (fun o => Done o) o.
(* nothing in /repo: std::partition_copy with the iterators of the collection *)
Definition w_partition_copy fuel (p : obj -> M S bool) (put1 put2 : nat -> obj -> M S unit) (o : nat * nat) : W (nat * nat) :=
  w_for fuel (fun o next => Ref 0 (looking p) (fun b =>
    if b then Ref 0 (looking (put1 (fst o))) (fun _ => next (1 + fst o, snd o))
    else Ref 0 (looking (put2 (snd o))) (fun _ => next (fst o, 1 + snd o)))) (fun o => Done o) o.
(** each element is compared with the one before *)
(* nothing in /repo: std::unique_copy with the iterators of the collection *)
Definition w_unique_copy fuel (p : obj -> obj -> M S bool) (put : nat -> obj -> M S unit) (o : nat) : W nat :=
  w_for fuel (fun po next =>
    let '(prev, o) := po in
    match prev with
    | None => Ref 0 (looking (put o)) (fun _ => Ref 0 (looking (fun x => ret x)) (fun x => next (Some x, 1 + o)))
    | Some q => Ref 0 (looking (p q)) (fun b =>
        Ref 0 (looking (fun x => ret x)) (fun x =>
          if b then next (Some x, o) else Ref 0 (looking (put o)) (fun _ => next (Some x, 1 + o))))
    end) (fun po => Done (snd po)) (None, o).
(** the elements up to the first which does not satisfy the predicate, and then those after it *)
(* nothing in /repo: std::is_partitioned with the iterators of the collection *)
Definition w_is_partitioned fuel (p : obj -> M S bool) : W bool :=
  w_for fuel (fun seen next => Ref 0 (looking p) (fun b =>
    if (seen : bool) then (if b then Done false else next true) else (if b then next false else next true))) (fun _ => Done true) false.
(** [n] of the next [m] elements are wanted *)
(* nothing in /repo: std::sample with the iterators of the collection *)
Definition w_sample fuel (draw : nat -> M S nat) (put : nat -> obj -> M S unit) (n m o : nat) : W nat :=
  w_for fuel (fun nmo next =>
    let '(n, m, o) := nmo in
    if n =? 0 then Done o
    else Ref 0 (looking (fun _ => draw (m - 1))) (fun r =>
           if r <? n then Ref 0 (looking (put o)) (fun _ => next (n - 1, m - 1, 1 + o)) else next (n, m - 1, o))) (fun nmo => Done (snd nmo)) (n, m, o).

(** std::copy_n(first,n,o) and std::for_each_n(first,n,f): variable 0 is first, and the end is not passed *)
Fixpoint w_for_each_n (n : nat) (f : obj -> M S unit) : W unit :=
  match n with
  | O => Done tt
  | Datatypes.S n' => Ref 0 (looking f) (fun _ => Inc 0 (w_for_each_n n' f))
  end.
Fixpoint w_copy_n (n : nat) (put : nat -> obj -> M S unit) (o : nat) : W nat :=
  match n with
  | O => Done o
  | Datatypes.S n' => Ref 0 (looking (put o)) (fun _ => Inc 0 (w_copy_n n' put (1 + o)))
  end.

(** std::rotate_copy(first,middle,last,o): variables 0, 1 and 2 are middle, last and first *)
Definition w_rotate_copy fuel (put : nat -> obj -> M S unit) (o : nat) : W nat :=
  Dup 0 (w_for fuel (fun o next => Ref 0 (looking (put o)) (fun _ => next (1 + o)))
    (fun o => Put 0 2 (Put 1 3 (w_for fuel (fun o next => Ref 0 (looking (put o)) (fun _ => next (1 + o))) (fun o => Done o) o))) o).

(** std::adjacent_find(first,last,p): variable 2 is the iterator to the next element *)
Fixpoint w_adjacent_loop (fuel : nat) (p : obj -> obj -> M S bool) : W unit :=
  Inc 2 (Cmp 2 1 (fun e =>
    if e then Put 0 1 (Done tt)
    else match fuel with
         | O => Lost
         | Datatypes.S n =>
             Ref 0 (looking (fun x => ret x)) (fun x => Ref 2 (looking (p x)) (fun b =>
               if b then Done tt else Put 0 2 (w_adjacent_loop n p)))
         end)).
Definition w_adjacent_find fuel (p : obj -> obj -> M S bool) : W unit :=
  Cmp 0 1 (fun e => if e then Done tt else Dup 0 (w_adjacent_loop fuel p)).

End WalkStd.
