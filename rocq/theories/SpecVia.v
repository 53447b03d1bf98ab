(** * Vocabulary for insertion through std::inserter *)

From Coq Require Import List Arith Bool.
From Verif Require Import Base Vec Backend Segment Coll Spec.
Import ListNotations.

Section SpecVia.
Context {V : Type} {E : Env V}.

(** All elements of [l] are in [l'], in the same order. *)
Inductive subseq {A} : list A -> list A -> Prop :=
| sub_nil : subseq [] []
| sub_keep x l l' : subseq l l' -> subseq (x :: l) (x :: l')
| sub_skip x l l' : subseq l l' -> subseq l (x :: l').

(** An element of type [t] put into the segments [segs] (types and elements) with the [i]-th position of the
    traversal as hint: at that position if it is an element of type [t], else behind those of its type. *)
Definition goes (segs : list (tyid * list V)) (i : nat) (t : tyid) : nat :=
  let n := match assoc t segs with Some l => length l | None => 0 end in
  if (offset segs t <=? i) && (i <? offset segs t + n) then i - offset segs t else n.
(** The elements [l] put one after the other, each with the position behind the one before as hint; also the position
    behind the last. *)
Fixpoint put_via (segs : list (tyid * list V)) (i : nat) (l : list (tyid * V)) : list (tyid * list V) * nat :=
  match l with
  | [] => (segs, i)
  | (t, v) :: l' =>
      let k := goes segs i t in
      put_via (set_assoc t (insert_at k v (match assoc t segs with Some xs => xs | None => [] end)) segs) (offset segs t + k + 1) l'
  end.

(** No iterator is invalidated by the creation of a segment, or none has to be made while the inserter holds an iterator to an element. *)
Definition via_safe (h : option (tyid * nat)) (c : coll V) (l : list (tyid * V)) : Prop :=
  env_rehash_stable = true \/ incl (map fst l) (types c) \/ (h = None /\ exists t, forall e, In e l -> fst e = t).

End SpecVia.
