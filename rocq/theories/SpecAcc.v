(** * Vocabulary for functions which modify elements *)

From Coq Require Import List Arith Bool.
From Verif Require Import Base Vec Backend Segment Coll StdAlg Algo Spec SpecAlg.
Import ListNotations.

Section SpecAcc.
Context {V : Type} {E : Env V} {S : Type}.

(** A function object called on references to the elements of a sequence one after the other,
    [f k] being the [k]-th call: the values which the elements are left with, and how the last
    call ends.  If a call throws, there are no further ones. *)
Fixpoint run_over (f : nat -> view V -> tyid -> M (V * S) unit) (k : nat) (xs : list (view V)) (s : S)
  : list V * outcome S unit :=
  match xs with
  | [] => ([], Ok s tt)
  | x :: xs' =>
      match f k x (r_ty (snd x)) (r_val (snd x), s) with
      | Ok (v, s') _ => let (vs, o) := run_over f (1 + k) xs' s' in (v :: vs, o)
      | Exn (v, s') e => (v :: map (fun x => r_val (snd x)) xs', Exn s' e)
      | UB => ([], UB)
      end
  end.

(** The elements from position [i] on have been given the values [vs], and nothing else has
    happened: the segments, their sizes and storage are the same, and iterators remain valid. *)
Record updated (c c' : coll V) (i : nat) (vs : list V) : Prop := {
  up_vals : map snd (flat c') =
    firstn i (map snd (flat c)) ++ vs ++ skipn (i + length vs) (map snd (flat c));
  up_types : types c' = types c;
  up_sizes : forall t, length (elems c' t) = length (elems c t);
  up_addrs : forall t k, addr_of c' t k = addr_of c t k;
  up_caps : forall t, cap_of c' t = cap_of c t;
  up_iters : forall t k, kept_at c c' t k;
  up_al : c_al c' = c_al c
}.

(** [m] behaves as calling [f k], [f (k+1)], ... on references to the elements in positions
    [i], ..., [j-1], with the types [Ts] restituted.  [P] holds of the result, and [K] of the collection
    afterwards, even if a call has thrown. *)
Definition visits {A} (m : M (coll V * S) A) (c : coll V) (Ts : list tyid) (i j : nat)
  (f : nat -> view V -> tyid -> M (V * S) unit) (k : nat) (P : A -> Prop) (K : coll V -> Prop) : Prop :=
  forall s,
    match run_over f k (views c Ts i j) s with
    | (vs, Ok s' _) => exists c' r, m (c, s) = Ok (c', s') r /\ P r /\ K c' /\ updated c c' i vs
    | (vs, Exn s' e) => exists c', m (c, s) = Exn (c', s') e /\ K c' /\ updated c c' i vs
    | (_, UB) => m (c, s) = UB
    end.

End SpecAcc.
