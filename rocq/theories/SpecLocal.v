(** * Vocabulary for algorithms on local ranges *)

From Coq Require Import List Arith Bool.
From Verif Require Import Base Vec Backend Segment Coll StdAlg Algo Access Local Spec.
Import ListNotations.

Section SpecLocal.
Context {V : Type} {E : Env V} {S : Type}.

(** The list with its [k]-th element replaced. *)
Definition put_at (k : nat) (v : V) (l : list V) : list V := firstn k l ++ v :: skipn (Datatypes.S k) l.

(** An algorithm run on an array: each use is of the [k]-th element, and leaves it with some value even if it
    throws.  Undefined if there is no such element. *)
Fixpoint run_array {X} (p : algo V S X) : M (list V * S) X :=
  match p with
  | Stop x => ret x
  | Use k f next =>
      fun ls =>
        match nth_error (fst ls) k with
        | Some v =>
            match f (v, snd ls) with
            | Ok (v', s') a => run_array (next a) (put_at k v' (fst ls), s')
            | Exn (v', s') e => Exn (put_at k v' (fst ls), s') e
            | UB => UB
            end
        | None => UB
        end
  end.

(** Two local iterators of the same kind: both local_base_iterator, or both local_iterator<T>. *)
Definition same_kind (x y : liter) : Prop :=
  match li_pos x, li_pos y with PBase _, PBase _ | PConc _, PConc _ => True | _, _ => False end.

(** The elements of type [t] have the values [xs] now, as many as before, and nothing else has happened: other
    segments, all addresses, capacities and iterators are the same. *)
Record rearranged (c c' : coll V) (t : tyid) (xs : list V) : Prop := {
  re_content : content c' = set_assoc t xs (content c);
  re_elems : elems c' t = xs;
  re_size : length xs = length (elems c t);
  re_others : others_kept c c' t;
  re_addrs : forall t' k, addr_of c' t' k = addr_of c t' k;
  re_caps : forall t', cap_of c' t' = cap_of c t';
  re_iters : forall t' k, kept_at c c' t' k;
  re_al : c_al c' = c_al c
}.

(** The elements from position [i] of the segment up to position [j] replaced. *)
Definition with_part (l : list V) (i j : nat) (xs : list V) : list V := firstn i l ++ xs ++ skipn j l.

(** ** What the element type provides *)

(** Moving a value out of an element gives its value; the element is left with any value.  It may throw. *)
Definition moves_out (take : M (V * S) V) : Prop :=
  forall v s, match take (v, s) with Ok _ a => a = v | Exn _ _ => True | UB => False end.
(** Assigning a value to an element leaves it with the value.  It may throw, and leave any value then. *)
Definition moves_in (put : V -> M (V * S) unit) : Prop :=
  forall x v s, match put x (v, s) with Ok (v', _) _ => v' = x | Exn _ _ => True | UB => False end.
(** A comparison function which implements [lt], if it does not throw. *)
Definition compares (lt : V -> V -> bool) (less : V -> V -> M S bool) : Prop :=
  forall x y s, match less x y s with Ok _ b => b = lt x y | Exn _ _ => True | UB => False end.
(** A predicate which implements [p] and does not change the element, if it does not throw. *)
Definition asks (p : V -> bool) (ask : M (V * S) bool) : Prop :=
  forall v s, match ask (v, s) with Ok (v', _) b => v' = v /\ b = p v | Exn _ _ => True | UB => False end.

(** A strict weak order. *)
Record swo (lt : V -> V -> bool) : Prop := {
  swo_irrefl : forall x, lt x x = false;
  swo_trans : forall x y z, lt x y = true -> lt y z = true -> lt x z = true;
  swo_incomp : forall x y z, lt x y = false -> lt y z = false -> lt x z = false
}.

End SpecLocal.
