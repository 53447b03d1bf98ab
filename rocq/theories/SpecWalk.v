(** * Vocabulary for programs which walk over a range *)

From Coq Require Import List Arith Bool.
From Verif Require Import Base Vec Backend Segment Coll StdAlg Algo Access Walk Spec.
Import ListNotations.

Section SpecWalk.
Context {V : Type} {S : Type}.

(** The program run on a sequence of objects with their types: iterators are positions from 0 to the length,
    ++ adds one, and the type of an object does not change.  Advancing the end or using the element there is undefined. *)
Fixpoint run_seq {X} (p : walk V S X) (ks : list nat) : M (list (tyid * V) * S) (X * list nat) :=
  match p with
  | Done x => ret (x, ks)
  | Lost => ub
  | Dup r next => match nth_error ks r with Some k => run_seq next (ks ++ [k]) | None => ub end
  | Put r r' next => match nth_error ks r, nth_error ks r' with Some _, Some k => run_seq next (reg_set r k ks) | _, _ => ub end
  | Inc r next =>
      fun ls =>
        match nth_error ks r with
        | Some k => if k <? length (fst ls) then run_seq next (reg_set r (Datatypes.S k) ks) ls else UB
        | None => UB
        end
  | Cmp r r' next => match nth_error ks r, nth_error ks r' with Some k, Some k' => run_seq (next (k =? k')) ks | _, _ => ub end
  | Ref r f next =>
      fun ls =>
        match nth_error ks r with
        | Some k =>
            match nth_error (fst ls) k with
            | Some (t, v) =>
                match f t (v, snd ls) with
                | Ok (v', s') a => run_seq (next a) ks (reg_set k (t, v') (fst ls), s')
                | Exn (v', s') e => Exn (reg_set k (t, v') (fst ls), s') e
                | UB => UB
                end
            | None => UB
            end
        | None => UB
        end
  end.

(** [lt] is implemented by [less]; see also [swo] in SpecLocal.v. *)
Definition implements (lt : tyid * V -> tyid * V -> bool) (less : tyid * V -> tyid * V -> M S bool) : Prop :=
  forall x y s, match less x y s with Ok _ b => b = lt x y | Exn _ _ => True | UB => False end.

(** The position of the first largest element: nothing is larger, and what comes before is smaller. *)
Definition largest (lt : tyid * V -> tyid * V -> bool) (l : list (tyid * V)) (k : nat) : Prop :=
  exists x, nth_error l k = Some x /\ (forall y, In y l -> lt x y = false) /\ (forall y, In y (firstn k l) -> lt y x = true).

End SpecWalk.
