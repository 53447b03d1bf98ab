(** * Vocabulary: function objects with a state of their own *)

From Coq Require Import List Arith Bool.
From Verif Require Import Base StdAlg Algo SpecAlg.
Import ListNotations.

Section Obj.
Context {S F : Type}.

(** [call f x] calls the function object [f] with the arguments [x]: what it gives besides
    the result is the object as it is afterwards.  It may also read and change a state [S]
    which is not part of the object, and throw. *)
Definition fcall (X R : Type) : Type := F -> X -> M S (F * R).

(** The calls of one and the same object, whose state is the first component here. *)
Definition applied {X R} (call : fcall X R) (x : X) : M (F * S) R :=
  fun s => match call (fst s) x (snd s) with
           | Ok s' r => Ok (fst r, s') (snd r)
           | Exn s' e => Exn (fst s, s') e
           | UB => UB
           end.
(** What does not concern the object. *)
Definition aside {A} (m : M S A) : M (F * S) A :=
  fun s => match m (snd s) with
           | Ok s' a => Ok (fst s, s') a
           | Exn s' e => Exn (fst s, s') e
           | UB => UB
           end.

(** [m] runs with a copy of [f], which is destroyed then. *)
Definition on_copy {A} (f : F) (m : M (F * S) A) : M S A :=
  fun s => match m (f, s) with
           | Ok s' a => Ok (snd s') a
           | Exn s' e => Exn (snd s') e
           | UB => UB
           end.
(** [m] runs with [f], and [f] as it is then is the result. *)
Definition on_it {A} (f : F) (m : M (F * S) A) : M S F :=
  fun s => match m (f, s) with
           | Ok s' _ => Ok (snd s') (fst s')
           | Exn s' e => Exn (snd s') e
           | UB => UB
           end.

(** Calls do not change the object. *)
Definition constant {X R} (call : fcall X R) (f : F) : Prop :=
  forall x s s' r, call f x s = Ok s' r -> fst r = f.
(** The object as a function. *)
Definition result {X R} (call : fcall X R) (f : F) (x : X) : M S R := r <- call f x ;; ret (snd r).
End Obj.
Arguments fcall S F X R : clear implicits.

(** The longest runs of elements of the same type. *)
Fixpoint by_type {V} (l : list (view V)) : list (list (view V)) :=
  match l with
  | [] => []
  | x :: l' =>
      match by_type l' with
      | (y :: p) :: ps =>
          if r_ty (snd x) =? r_ty (snd y) then (x :: y :: p) :: ps else [x] :: (y :: p) :: ps
      | ps => [x] :: ps
      end
  end.

(** An algorithm applied to one part of a sequence after the other: the sum of what it gives;
    the first index it finds in a part, counted from the beginning of all the parts, [t] being
    handed on from part to part; what it hands on. *)
Section Parts.
Context {S X : Type}.
Fixpoint sum_parts (alg : list X -> M S nat) (ps : list (list X)) : M S nat :=
  match ps with
  | [] => ret 0
  | l :: ps' => n <- alg l ;; m <- sum_parts alg ps' ;; ret (n + m)
  end.
Fixpoint find_parts {T} (alg : T -> list X -> M S (T * nat)) (t : T) (ps : list (list X)) : M S (T * nat) :=
  match ps with
  | [] => ret (t, 0)
  | l :: ps' =>
      r <- alg t l ;;
      if snd r =? length l then r' <- find_parts alg (fst r) ps' ;; ret (fst r', length l + snd r') else ret r
  end.
Fixpoint hand_on {T} (alg : T -> list X -> M S T) (t : T) (ps : list (list X)) : M S T :=
  match ps with
  | [] => ret t
  | l :: ps' => t' <- alg t l ;; hand_on alg t' ps'
  end.
(** The first and the last index from where [matches] holds of the rest of a sequence; its
    length, resp. [res], if there is none.  [k] is the index where the sequence begins. *)
Fixpoint first_match (matches : list X -> M S bool) (l : list X) : M S nat :=
  match l with
  | [] => ret 0
  | _ :: l' => b <- matches l ;; if b then ret 0 else k <- first_match matches l' ;; ret (1 + k)
  end.
Fixpoint last_match (matches : list X -> M S bool) (l : list X) (k res : nat) : M S nat :=
  match l with
  | [] => ret res
  | _ :: l' => b <- matches l ;; last_match matches l' (1 + k) (if b then k else res)
  end.
End Parts.

(** Of the two elements at the boundary of two parts the first one is passed as value_type. *)
Section Boundary.
Context {V S F : Type}.
Definition as_base (x : view V) : view V := (None, snd x).

(** adjacent_find part by part: the last element of a part and the first one of the next part
    are compared by a copy of the object, too. *)
Fixpoint adjacent_parts (call : fcall S F (view V * view V) bool) (f : F) (ps : list (list (view V))) : M S nat :=
  match ps with
  | [] => ret 0
  | l :: ps' =>
      k <- on_copy f (std_adjacent_find (fun x y => applied call (x, y)) l) ;;
      if k =? length l then
        b <- match rev l, ps' with
             | x :: _, (y :: _) :: _ => on_copy f (applied call (as_base x, y))
             | _, _ => ret false
             end ;;
        if b then ret (length l - 1) else r <- adjacent_parts call f ps' ;; ret (length l + r)
      else ret k
  end.

(** unique_copy part by part: by a copy of the object the elements at the beginning of a part are
    compared with the last element of the last part of which an element was written. *)
Fixpoint after_same {X} (p : X -> M (F * S) bool) (l : list X) : M (F * S) (list X) :=
  match l with
  | [] => ret []
  | x :: l' => b <- p x ;; if b then after_same p l' else ret l
  end.
Fixpoint unique_parts (call : fcall S F (view V * view V) bool) (f : F) (put : nat -> view V -> M S unit) (prev : option (view V)) (o : nat)
  (ps : list (list (view V))) : M S nat :=
  match ps with
  | [] => ret o
  | l :: ps' =>
      l' <- match prev with
            | Some x => on_copy f (after_same (fun y => applied call (as_base x, y)) l)
            | None => ret l
            end ;;
      match l' with
      | [] => unique_parts call f put prev o ps'
      | _ =>
          o' <- on_copy f (std_unique_copy (fun x y => applied call (x, y)) (fun o x => aside (put o x)) l' o) ;;
          unique_parts call f put (hd_error (rev l)) o' ps'
      end
  end.
End Boundary.

(** [r] elements which satisfy [p] came before: how many there are at the end of [l], and the
    length of [l]; or [n] and where the [n]-th one in a row is. *)
Fixpoint run_to {S X} (n : nat) (p : X -> M S bool) (r : nat) (l : list X) : M S (nat * nat) :=
  match l with
  | [] => ret (r, 0)
  | x :: l' =>
      b <- p x ;;
      if b && (1 + r =? n) then ret (n, 0)
      else t <- run_to n p (if b then 1 + r else 0) l' ;; ret (fst t, 1 + snd t)
  end.

(** For all elements of [l], which come after [before]: either it is equivalent to one of those, or
    it is equivalent to as many elements of [l], from there on, as of [ys], and to one at least. *)
Fixpoint perm_parts {V S F Y} (call : fcall S F (view V * (view V + Y)) bool) (f : F) (ys : list Y) (before l : list (view V)) : M S bool :=
  match l with
  | [] => ret true
  | x :: l' =>
      let to_x y := applied call (x, inl y) in
      r <- find_parts (fun t l => k <- on_copy f (std_find_if to_x l) ;; ret (t, k)) tt (by_type before) ;;
      if snd r <? length before then perm_parts call f ys (before ++ [x]) l'
      else
        m <- on_copy f (std_count_if (fun y => applied call (x, inr y)) ys) ;;
        if m =? 0 then ret false
        else
          n <- sum_parts (fun l => on_copy f (std_count_if to_x l)) (by_type l) ;;
          if m =? n then perm_parts call f ys (before ++ [x]) l' else ret false
  end.
