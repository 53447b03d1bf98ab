(** * Vocabulary for programs which use iterators of several collections *)

From Coq Require Import List Arith Bool Sorted Permutation.
From Verif Require Import Base Vec Backend Segment Coll StdAlg Algo Access Walk Many Spec SpecWalk.
Import ListNotations.

Section SpecMany.
Context {V : Type} {S : Type}.

(** The program run on several sequences: an iterator is the number of a sequence and a position in it, from 0 to its length. *)
Fixpoint run_seqs {X} (p : walk V S X) (ks : list (nat * nat)) : M (list (list (tyid * V)) * S) (X * list (nat * nat)) :=
  match p with
  | Done x => ret (x, ks)
  | Lost => ub
  | Dup r next => match nth_error ks r with Some k => run_seqs next (ks ++ [k]) | None => ub end
  | Put r r' next => match nth_error ks r, nth_error ks r' with Some _, Some k => run_seqs next (reg_set r k ks) | _, _ => ub end
  | Inc r next =>
      fun ls =>
        match nth_error ks r with
        | Some (n, k) =>
            match nth_error (fst ls) n with
            | Some l => if k <? length l then run_seqs next (reg_set r (n, Datatypes.S k) ks) ls else UB
            | None => UB
            end
        | None => UB
        end
  | Cmp r r' next =>
      match nth_error ks r, nth_error ks r' with
      | Some (n, k), Some (n', k') => if n =? n' then run_seqs (next (k =? k')) ks else ub
      | _, _ => ub
      end
  | Ref r f next =>
      fun ls =>
        match nth_error ks r with
        | Some (n, k) =>
            match nth_error (fst ls) n with
            | Some l =>
                match nth_error l k with
                | Some (t, v) =>
                    match f t (v, snd ls) with
                    | Ok (v', s') a => run_seqs (next a) ks (reg_set n (reg_set k (t, v') l) (fst ls), s')
                    | Exn (v', s') e => Exn (reg_set n (reg_set k (t, v') l) (fst ls), s') e
                    | UB => UB
                    end
                | None => UB
                end
            | None => UB
            end
        | None => UB
        end
  end.

(** The variable designates that position. *)
Definition designates_at {E : Env V} (g : list (coll V)) (x : nat * iter) (y : nat * nat) : Prop :=
  fst x = fst y /\ exists c, nth_error g (fst y) = Some c /\ located c (snd x) (snd y).

End SpecMany.

(** The first sequence comes before the second one in the lexicographical order. *)
Definition lex_before {X} (lt : X -> X -> bool) (l l' : list X) : Prop :=
  exists k,
    (forall m, m < k -> exists x y, nth_error l m = Some x /\ nth_error l' m = Some y /\ lt x y = false /\ lt y x = false) /\
    ((k = length l /\ k < length l') \/ (exists x y, nth_error l k = Some x /\ nth_error l' k = Some y /\ lt x y = true)).

(** In order: nothing is smaller than what comes before. *)
Definition in_order {X} (lt : X -> X -> bool) (l : list X) : Prop := StronglySorted (fun x y => lt y x = false) l.

(** The elements of both sequences, in order if both are. *)
Definition merged {X} (lt : X -> X -> bool) (l l' out : list X) : Prop :=
  Permutation (l ++ l') out /\ (in_order lt l -> in_order lt l' -> in_order lt out).
