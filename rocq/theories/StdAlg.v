(** * The standard algorithms on a sequence

    What [std::alg] does on a sequence [l] of elements, for the algorithms which
    poly_collection offers (algorithm.hpp).  This file models nothing of /repo: it is the
    specification the collection's algorithms are compared with, and also serves as the model
    of the calls of std algorithms on single segments inside algorithm.hpp.

    Function objects run in the monad [M S]: they may read and change any state [S] of the
    caller, throw, or have undefined behaviour.  Iterators into the sequence are indices.
    An output iterator is a number too, and [put o x] is [*o = x]. *)

From Coq Require Import List Arith Bool.
From Verif Require Import Base.
Import ListNotations.

Section Std.
Context {S X : Type}.

(** [alg.all.of], [alg.any.of], [alg.none.of] *)
(** called by algorithm.hpp 53-64 *)
Fixpoint std_all_of (p : X -> M S bool) (l : list X) : M S bool :=
  match l with
  | [] => ret true
  | x :: l' => b <- p x ;; if b then std_all_of p l' else ret false
  end.
(** called by algorithm.hpp 66-77 *)
Fixpoint std_any_of (p : X -> M S bool) (l : list X) : M S bool :=
  match l with
  | [] => ret false
  | x :: l' => b <- p x ;; if b then ret true else std_any_of p l'
  end.
(** called by algorithm.hpp 79-90 *)
Fixpoint std_none_of (p : X -> M S bool) (l : list X) : M S bool :=
  match l with
  | [] => ret true
  | x :: l' => b <- p x ;; if b then ret false else std_none_of p l'
  end.

(** [alg.foreach] *)
(** compared with algorithm.hpp 92-110 *)
Fixpoint std_for_each (f : X -> M S unit) (l : list X) : M S unit :=
  match l with
  | [] => ret tt
  | x :: l' => f x ;; std_for_each f l'
  end.

(** [alg.find]: the index found, the length if there is none *)
(** called by algorithm.hpp 179-199 *)
Fixpoint std_find_if (p : X -> M S bool) (l : list X) : M S nat :=
  match l with
  | [] => ret 0
  | x :: l' => b <- p x ;; if b then ret 0 else k <- std_find_if p l' ;; ret (1 + k)
  end.
(** called by algorithm.hpp 201-212 *)
Fixpoint std_find_if_not (p : X -> M S bool) (l : list X) : M S nat :=
  match l with
  | [] => ret 0
  | x :: l' => b <- p x ;; if b then k <- std_find_if_not p l' ;; ret (1 + k) else ret 0
  end.

(** [alg.adjacent.find] *)
(** called by algorithm.hpp 255 *)
Fixpoint std_adjacent_find (p : X -> X -> M S bool) (l : list X) : M S nat :=
  match l with
  | [] => ret 0
  | x :: l' =>
      match l' with
      | [] => ret 1
      | y :: _ => b <- p x y ;;
                  if b then ret 0 else k <- std_adjacent_find p l' ;; ret (1 + k)
      end
  end.

(** [alg.count] *)
(** called by algorithm.hpp 307-328 and 543 *)
Fixpoint std_count_if (p : X -> M S bool) (l : list X) : M S nat :=
  match l with
  | [] => ret 0
  | x :: l' => b <- p x ;; n <- std_count_if p l' ;; ret (if b then 1 + n else n)
  end.

Section Two.
Context {Y : Type}.

(** [alg.find.first.of] *)
(** part of std::find_first_of, called by algorithm.hpp 214-236 *)
Fixpoint std_any_of2 (p : X -> Y -> M S bool) (x : X) (ys : list Y) : M S bool :=
  match ys with
  | [] => ret false
  | y :: ys' => b <- p x y ;; if b then ret true else std_any_of2 p x ys'
  end.
(** called by algorithm.hpp 214-236 *)
Fixpoint std_find_first_of (p : X -> Y -> M S bool) (ys : list Y) (l : list X) : M S nat :=
  match l with
  | [] => ret 0
  | x :: l' => b <- std_any_of2 p x ys ;;
               if b then ret 0 else k <- std_find_first_of p ys l' ;; ret (1 + k)
  end.

(** [mismatch] without and with the end of the second sequence: the common index.  Reading
    past the end of the second sequence is undefined. *)
(** compared with algorithm.hpp 330-411, without last2 *)
Fixpoint std_mismatch (p : X -> Y -> M S bool) (l : list X) (ys : list Y) : M S nat :=
  match l with
  | [] => ret 0
  | x :: l' =>
      match ys with
      | [] => ub
      | y :: ys' => b <- p x y ;; if b then k <- std_mismatch p l' ys' ;; ret (1 + k) else ret 0
      end
  end.
(** compared with algorithm.hpp 330-411, with last2 *)
Fixpoint std_mismatch_to (p : X -> Y -> M S bool) (l : list X) (ys : list Y) : M S nat :=
  match l, ys with
  | x :: l', y :: ys' =>
      b <- p x y ;; if b then k <- std_mismatch_to p l' ys' ;; ret (1 + k) else ret 0
  | _, _ => ret 0
  end.

(** [alg.equal] *)
(** compared with algorithm.hpp 413-493, without last2 *)
Fixpoint std_equal (p : X -> Y -> M S bool) (l : list X) (ys : list Y) : M S bool :=
  match l with
  | [] => ret true
  | x :: l' =>
      match ys with
      | [] => ub
      | y :: ys' => b <- p x y ;; if b then std_equal p l' ys' else ret false
      end
  end.
(** compared with algorithm.hpp 413-493, with last2 *)
Fixpoint std_equal_to (p : X -> Y -> M S bool) (l : list X) (ys : list Y) : M S bool :=
  match l, ys with
  | [], [] => ret true
  | x :: l', y :: ys' => b <- p x y ;; if b then std_equal_to p l' ys' else ret false
  | _, _ => ret false
  end.

(** [alg.transform]: [op] gives what is written *)
(** compared with algorithm.hpp 829-855 *)
Fixpoint std_transform2 {O} (op : X -> Y -> M S O) (put : nat -> O -> M S unit)
  (l : list X) (ys : list Y) (o : nat) : M S nat :=
  match l with
  | [] => ret o
  | x :: l' =>
      match ys with
      | [] => ub
      | y :: ys' => r <- op x y ;; put o r ;; std_transform2 op put l' ys' (1 + o)
      end
  end.
End Two.

(** [alg.copy], [alg.move]: the output iterator after the last element written is returned *)
(** called by algorithm.hpp 754-764 and 803-813 *)
Fixpoint std_copy (put : nat -> X -> M S unit) (l : list X) (o : nat) : M S nat :=
  match l with
  | [] => ret o
  | x :: l' => put o x ;; std_copy put l' (1 + o)
  end.
(** called by algorithm.hpp 766-789 *)
Definition std_copy_n (put : nat -> X -> M S unit) (l : list X) (n o : nat) : M S nat :=
  if n <=? length l then std_copy put (firstn n l) o else ub.
(** called by algorithm.hpp 791-801 *)
Fixpoint std_copy_if (p : X -> M S bool) (put : nat -> X -> M S unit) (l : list X) (o : nat)
  : M S nat :=
  match l with
  | [] => ret o
  | x :: l' => b <- p x ;;
               if b then put o x ;; std_copy_if p put l' (1 + o) else std_copy_if p put l' o
  end.

(** [alg.transform] *)
(** called by algorithm.hpp 815-827 *)
Fixpoint std_transform {O} (op : X -> M S O) (put : nat -> O -> M S unit) (l : list X) (o : nat)
  : M S nat :=
  match l with
  | [] => ret o
  | x :: l' => r <- op x ;; put o r ;; std_transform op put l' (1 + o)
  end.

(** [alg.replace]: either the new value or the element is written *)
(** compared with algorithm.hpp 857-921 *)
Fixpoint std_replace_copy_if {N} (p : X -> M S bool) (new : N) (put : nat -> N + X -> M S unit)
  (l : list X) (o : nat) : M S nat :=
  match l with
  | [] => ret o
  | x :: l' => b <- p x ;; put o (if b then inl new else inr x) ;;
               std_replace_copy_if p new put l' (1 + o)
  end.

(** [alg.remove] *)
(** called by algorithm.hpp 923-947 *)
Fixpoint std_remove_copy_if (p : X -> M S bool) (put : nat -> X -> M S unit) (l : list X) (o : nat)
  : M S nat :=
  match l with
  | [] => ret o
  | x :: l' => b <- p x ;;
               if b then std_remove_copy_if p put l' o
               else put o x ;; std_remove_copy_if p put l' (1 + o)
  end.

(** [alg.unique]: each element is compared with its predecessor *)
(** part of std::unique_copy, called by algorithm.hpp 966 *)
Fixpoint std_unique_copy_after (p : X -> X -> M S bool) (put : nat -> X -> M S unit) (prev : X)
  (l : list X) (o : nat) : M S nat :=
  match l with
  | [] => ret o
  | x :: l' => b <- p prev x ;;
               if b then std_unique_copy_after p put x l' o
               else put o x ;; std_unique_copy_after p put x l' (1 + o)
  end.
(** called by algorithm.hpp 966 *)
Definition std_unique_copy (p : X -> X -> M S bool) (put : nat -> X -> M S unit) (l : list X)
  (o : nat) : M S nat :=
  match l with
  | [] => ret o
  | x :: l' => put o x ;; std_unique_copy_after p put x l' (1 + o)
  end.

(** [alg.rotate]: the element with index [m] comes first *)
(** compared with algorithm.hpp 1004-1014 *)
Definition std_rotate_copy (put : nat -> X -> M S unit) (m : nat) (l : list X) (o : nat) : M S nat :=
  std_copy put (skipn m l ++ firstn m l) o.

(** [alg.random.sample]: selection sampling.  Of the next [m] elements [n] are wanted; each is taken
    with probability n/m, that is, if a number drawn from 0, ..., m-1 is below [n]. *)
(** compared with algorithm.hpp 1016-1056 *)
Fixpoint std_select (draw : nat -> M S nat) (put : nat -> X -> M S unit) (n m : nat) (l : list X) (o : nat) : M S nat :=
  match l with
  | [] => ret o
  | x :: l' =>
      if n =? 0 then ret o
      else
        r <- draw (m - 1) ;;
        if r <? n then put o x ;; std_select draw put (n - 1) (m - 1) l' (1 + o)
        else std_select draw put n (m - 1) l' o
  end.
(** compared with algorithm.hpp 1016-1056 *)
Definition std_sample (draw : nat -> M S nat) (put : nat -> X -> M S unit) (n : nat) (l : list X) (o : nat) : M S nat :=
  std_select draw put (Nat.min n (length l)) (length l) l o.

(** [alg.partitions] *)
(** called by algorithm.hpp 1069-1087 *)
Fixpoint std_partition_copy (p : X -> M S bool) (put1 put2 : nat -> X -> M S unit) (l : list X)
  (o : nat * nat) : M S (nat * nat) :=
  match l with
  | [] => ret o
  | x :: l' => b <- p x ;;
               if b then put1 (fst o) x ;; std_partition_copy p put1 put2 l' (1 + fst o, snd o)
               else put2 (snd o) x ;; std_partition_copy p put1 put2 l' (fst o, 1 + snd o)
  end.
(** compared with is_partitioned, algorithm.hpp 1058-1067 *)
Definition std_is_partitioned (p : X -> M S bool) (l : list X) : M S bool :=
  k <- std_find_if_not p l ;; std_none_of p (skipn (1 + k) l).

End Std.
