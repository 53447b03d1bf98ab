(** * Vocabulary for the calls which the algorithms make (C70)

    This file models nothing of /repo.  The first part continues StdAlg.v: what the remaining
    standard algorithms do on a plain sequence, for function objects of any kind.  (The standard
    leaves more freedom here; these are the straightforward ways to do it.)  The second part says
    how calls are counted. *)

From Coq Require Import List Arith Bool.
From Verif Require Import Base Coll StdAlg Algo.
Import ListNotations.

Section Std.
Context {S X Y : Type}.

(** [alg.search]: at each position in turn, compare until there is a difference *)
Fixpoint std_search (p : X -> Y -> M S bool) (ys : list Y) (l : list X) : M S nat :=
  match l with
  | [] => ret 0
  | _ :: l' =>
      k <- std_mismatch_to p l ys ;;
      if k =? length ys then ret 0 else r <- std_search p ys l' ;; ret (1 + r)
  end.

(** [alg.find.end]: the same at all positions; [k] is that of the head of [l], [res] the last
    match so far *)
Fixpoint std_last_match (p : X -> Y -> M S bool) (ys : list Y) (l : list X) (k res : nat) : M S nat :=
  match l with
  | [] => ret res
  | _ :: l' =>
      n <- std_mismatch_to p l ys ;;
      std_last_match p ys l' (1 + k) (if n =? length ys then k else res)
  end.
Definition std_find_end (p : X -> Y -> M S bool) (ys : list Y) (l : list X) : M S nat :=
  match ys with [] => ret (length l) | _ => std_last_match p ys l 0 (length l) end.

(** [alg.search.n]: [k] is the position of the head of [l], and the [r] elements before it satisfy
    the predicate; the start of the run if it is found, and the [r] at the end of [l] *)
Fixpoint std_runs (count : nat) (p : X -> M S bool) (l : list X) (k r : nat) : M S (option nat * nat) :=
  match l with
  | [] => ret (None, r)
  | x :: l' =>
      b <- p x ;;
      if b then if 1 + r =? count then ret (Some (k - r), 1 + r) else std_runs count p l' (1 + k) (1 + r)
      else std_runs count p l' (1 + k) 0
  end.
Definition std_search_n (count : nat) (p : X -> M S bool) (l : list X) : M S nat :=
  if count =? 0 then ret 0
  else r <- std_runs count p l 0 0 ;; ret (match fst r with Some k => k | None => length l end).

(** [alg.partitions], partition_point: bisection of the [len] elements from position [k] on *)
Fixpoint std_bisect (fuel : nat) (p : X -> M S bool) (l : list X) (k len : nat) : M S nat :=
  if len =? 0 then ret k
  else match fuel with
       | O => ub
       | Datatypes.S f =>
           let half := Nat.div2 len in
           match nth_error l (k + half) with
           | None => ub
           | Some x => b <- p x ;; if b then std_bisect f p l (1 + (k + half)) (len - half - 1)
                                   else std_bisect f p l k half
           end
       end.
Definition std_partition_point (p : X -> M S bool) (l : list X) : M S nat := std_bisect (length l) p l 0 (length l).

(** [alg.is.permutation]: what the sequences have in common at the front is left aside; an element
    which is equal to one before it ([pre]) has been dealt with, any other must be equal to as many
    elements of one sequence as of the other. *)
Fixpoint std_perm (p : X -> X + Y -> M S bool) (ys : list Y) (pre l : list X) : M S bool :=
  match l with
  | [] => ret true
  | x :: l' =>
      k <- std_find_if (fun z => p x (inl z)) pre ;;
      if negb (k =? length pre) then std_perm p ys (pre ++ [x]) l'
      else
        m <- std_count_if (fun y => p x (inr y)) ys ;;
        if m =? 0 then ret false
        else
          m' <- std_count_if (fun z => p x (inl z)) l ;;
          if m =? m' then std_perm p ys (pre ++ [x]) l' else ret false
  end.
Definition std_is_permutation (bounded : bool) (p : X -> X + Y -> M S bool) (l : list X) (ys : list Y) : M S bool :=
  k <- (if bounded then std_mismatch_to else std_mismatch) (fun x y => p x (inr y)) l ys ;;
  let l' := skipn k l in
  let ys' := skipn k ys in
  if bounded then if length l' =? length ys' then std_perm p ys' [] l' else ret false
  else if length l' <=? length ys' then std_perm p (firstn (length l') ys') [] l' else ub.

End Std.

(** A function object which writes down the arguments it is called with. *)
Definition logged {S X A} (f : X -> M S A) : X -> M (S * list X) A :=
  fun x s => match f x (fst s) with
             | Ok s' a => Ok (s', snd s ++ [x]) a
             | Exn s' e => Exn (s', snd s ++ [x]) e
             | UB => UB
             end.
(** One which does not. *)
Definition unlogged {S X Y A} (f : X -> M S A) : X -> M (S * list Y) A :=
  fun x s => match f x (fst s) with
             | Ok s' a => Ok (s', snd s) a
             | Exn s' e => Exn (s', snd s) e
             | UB => UB
             end.

(** What a function object may throw, and in which state it then leaves the caller. *)
Definition throws {S X A} (f : X -> M S A) (s' : S) (e : exn) : Prop := exists x s, f x s = Exn s' e.

(** The algorithm [m] calls the function object [f] on arguments with [D] only.  It returns a
    result which is related by [Q] to the number of calls, or throws, after at most [most] calls,
    what the last of them has thrown or, as [T] says, another function object has.  It is not
    undefined unless [f] is. *)
Definition calls_among {S X A R} (T : S -> exn -> Prop) (m : (X -> M (S * list X) A) -> M (S * list X) R) (f : X -> M S A)
  (D : X -> Prop) (most : nat) (Q : nat -> R -> Prop) : Prop :=
  (forall x s, D x -> f x s <> UB) ->
  forall s, match m (logged f) (s, []) with
            | Ok (_, log) r => Forall D log /\ Q (length log) r
            | Exn (s', log) e => Forall D log /\ length log <= most /\
                ((exists log' x s0, log = log' ++ [x] /\ f x s0 = Exn s' e) \/ T s' e)
            | UB => False
            end.
(** The same if there is no other function object. *)
Definition calls {S X A R} (m : (X -> M (S * list X) A) -> M (S * list X) R) (f : X -> M S A)
  (D : X -> Prop) (most : nat) (Q : nat -> R -> Prop) : Prop := calls_among (fun _ _ => False) m f D most Q.

(** Function objects of two arguments. *)
Definition both {X Y A} (p : X -> Y -> A) : X * Y -> A := fun xy => p (fst xy) (snd xy).
Definition apiece {X Y A} (p : X * Y -> A) : X -> Y -> A := fun x y => p (x, y).

(** A predicate as adjacent_find applies it: to the elements as they are passed if they are of the
    same type; if not, the first is passed as value_type. *)
Definition across {V S} (p : view V -> view V -> M S bool) (x y : view V) : M S bool :=
  if r_ty (snd x) =? r_ty (snd y) then p x y else p (None, snd x) y.

(** [x] refers to the element of [l] before the one [y] refers to. *)
Definition consecutive {V} (l : list (view V)) (xy : view V * view V) : Prop :=
  exists k x', nth_error l k = Some x' /\ snd (fst xy) = snd x' /\ nth_error l (1 + k) = Some (snd xy).
