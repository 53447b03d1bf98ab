(** * Vocabulary for the properties of the algorithms *)

From Coq Require Import List Arith Bool Permutation.
From Verif Require Import Base Vec Backend Segment Coll StdAlg Algo Spec.
Import ListNotations.

(** Two computations of the caller's state [S] behave alike: they call the function objects
    on the same arguments in the same order, so they have the same effects, throw the same
    exception or are both undefined; the results are related by [R]. *)
Definition same_as {S A B} (m : M S A) (m' : M S B) (R : A -> B -> Prop) : Prop :=
  forall s, match m s, m' s with
            | Ok s1 a, Ok s2 b => s1 = s2 /\ R a b
            | Exn s1 e1, Exn s2 e2 => s1 = s2 /\ e1 = e2
            | UB, UB => True
            | _, _ => False
            end.

(** The part of a sequence between two positions. *)
Definition between {A} (i j : nat) (l : list A) : list A := firstn (j - i) (skipn i l).

Fixpoint number {A} (k : nat) (l : list A) : list (nat * A) :=
  match l with [] => [] | x :: l' => (k, x) :: number (S k) l' end.

(** The computation changes nothing, neither throws nor is undefined, and gives such a result. *)
Definition yields {S A} (m : M S A) (P : A -> Prop) : Prop :=
  forall s, exists a, m s = Ok s a /\ P a.

(** [ys] matches, element by element, the part of [l] which starts at position [k]. *)
Definition occurs {X Y} (p : X -> Y -> bool) (ys : list Y) (l : list X) (k : nat) : Prop :=
  k + length ys <= length l /\ Forall2 (fun x y => p x y = true) (between k (k + length ys) l) ys.

(** The [n] elements from position [k] on all satisfy [p]. *)
Definition run_of {X} (p : X -> bool) (n : nat) (l : list X) (k : nat) : Prop :=
  k + n <= length l /\ Forall (fun x => p x = true) (between k (k + n) l).

(** The first and the last number with a property. *)
Definition earliest (P : nat -> Prop) (k : nat) : Prop := P k /\ forall k', P k' -> k <= k'.
Definition latest (P : nat -> Prop) (k : nat) : Prop := P k /\ forall k', P k' -> k' <= k.

(** The first position with a property, or [n] if there is none. *)
Definition first_or_end (P : nat -> Prop) (n k : nat) : Prop :=
  earliest P k \/ (k = n /\ forall k', ~ P k').

(** The element at position [k] satisfies [p]; the elements at positions [k] and [k+1] are
    related by [p]; the elements at position [k] of the two sequences are not. *)
Definition satisfies {X} (p : X -> bool) (l : list X) (k : nat) : Prop :=
  exists x, nth_error l k = Some x /\ p x = true.
Definition adjacent {X} (p : X -> X -> bool) (l : list X) (k : nat) : Prop :=
  exists x y, nth_error l k = Some x /\ nth_error l (S k) = Some y /\ p x y = true.
Definition differ {X Y} (p : X -> Y -> bool) (l : list X) (ys : list Y) (k : nat) : Prop :=
  exists x y, nth_error l k = Some x /\ nth_error ys k = Some y /\ p x y = false.

(** The elements which are not related by [p] to the one before ([prev] being before the
    first of [l]), with the very first one in [leaders]. *)
Fixpoint changes {X} (p : X -> X -> bool) (prev : X) (l : list X) : list X :=
  match l with
  | [] => []
  | x :: l' => if p prev x then changes p x l' else x :: changes p x l'
  end.
Definition leaders {X} (p : X -> X -> bool) (l : list X) : list X :=
  match l with [] => [] | x :: l' => x :: changes p x l' end.

(** [ys] can be rearranged so that it matches [xs] element by element. *)
Definition permuted {X Y} (p : X -> Y -> bool) (xs : list X) (ys : list Y) : Prop :=
  exists zs, Permutation zs ys /\ Forall2 (fun x y => p x y = true) xs zs.

(** A relation given by a boolean function is an equivalence. *)
Definition equivalence {X} (r : X -> X -> bool) : Prop :=
  (forall x, r x x = true) /\ (forall x y, r x y = r y x) /\
  (forall x y z, r x y = true -> r y z = true -> r x z = true).

(** Some of the elements of [l], each at most once per occurrence, in the same order. *)
Inductive selection {X} : list X -> list X -> Prop :=
| sel_nil : selection [] []
| sel_take x s l : selection s l -> selection (x :: s) (x :: l)
| sel_skip x s l : selection s l -> selection s (x :: l).

(** A random number generator with state [G]: [gen m] gives a number, and what is written to
    an output iterator is recorded. *)
Definition draws {G O} (gen : nat -> G -> nat * G) (m : nat) : M (G * list (nat * O)) nat :=
  fun s => let '(r, g) := gen m (fst s) in Ok (g, snd s) r.
Definition records {G O} (o : nat) (x : O) : M (G * list (nat * O)) unit :=
  fun s => Ok (fst s, snd s ++ [(o, x)]) tt.
(** the same for a second output iterator *)
Definition records1 {G O} (o : nat) (x : O) : M (list (nat * O) * G) unit :=
  fun s => Ok (fst s ++ [(o, x)], snd s) tt.

Section SpecAlg.
Context {V : Type} {E : Env V}.

(** References to all the elements, in traversal order (these are the elements of
    [flat], [refs_flat] in ProofAlgo.v, with their addresses). *)
Definition refs (c : coll V) : list (eref V) :=
  flat_map (fun n => map (fun kv => mkref (sg_ty (n_seg n)) (snd kv) (vptr (be_store (sg_be (n_seg n))) (fst kv)))
                         (number 0 (elems_of (n_seg n)))) (c_nodes c).

(** How an element is passed to a function object when the types [Ts] are restituted: as
    what it is if that is one of [Ts], as value_type otherwise. *)
Definition seen (Ts : list tyid) (r : eref V) : view V :=
  (if existsb (Nat.eqb (r_ty r)) Ts then Some (r_ty r) else None, r).

(** What the function objects see of the range of positions [i], ..., [j-1]. *)
Definition views (c : coll V) (Ts : list tyid) (i j : nat) : list (view V) :=
  map (seen Ts) (between i j (refs c)).

(** The function object does not look at the type it is passed an element as. *)
Definition blind {A} (f : view V -> A) : Prop := forall T T' r, f (T, r) = f (T', r).
Definition blind2 {A} (f : view V -> view V -> A) : Prop :=
  forall T T' r x, f (T, r) x = f (T', r) x /\ f x (T, r) = f x (T', r).

(** The function object does not look at whether its first argument is passed as one of [Ts]
    or as value_type.  So if [Ts] is empty, or if it is [blind2]. *)
Definition unaware (Ts : list tyid) {A} (f : view V -> view V -> A) : Prop :=
  forall r x, f (None, r) x = f (seen Ts r) x.

(** The past-the-end pointer (to base) of a segment without spare capacity does not compare
    equal to a pointer to an element of another segment. *)
Definition separate (c : coll V) : Prop := forall t t' k p p', t <> t' ->
  addr_of c t 0 = Some p -> length (elems c t) = cap_of c t -> addr_of c t' k = Some p' -> env_adjacent (fst p) p' = false.

(** A predicate without effects. *)
Definition pure {S X} (p : X -> bool) : X -> M S bool := fun x => ret (p x).
Definition pure2 {S X Y} (p : X -> Y -> bool) : X -> Y -> M S bool := fun x y => ret (p x y).

End SpecAlg.
