(** * What calls have to do with each other

    Which elements an action of a history (SpecHist.v) looks at or changes, and which histories
    differ only in the order of actions that have nothing to do with each other. *)

From Coq Require Import List Arith Bool.
From Verif Require Import Base Vec Backend Segment Coll Spec Reach SpecHist.
Import ListNotations.

Section Shuffle.
Context {V : Type}.

(** The types whose elements a command on a collection is about: those of the elements it inserts
    or removes and that of its hint. *)
Definition concerns (k : cmd V) (t : tyid) : Prop :=
  match k with
  | Register ts => In t ts
  | Put h l => (exists n, h = Some (t, n)) \/ In t (map fst l)
  | PutBulk h u _ => (exists n, h = Some (t, n)) \/ t = u
  | PutAt u _ _ | Erase u _ _ | ClearType u | ReserveType u => t = u
  | PutFrom _ _ | Clear | Write _ => True
  | Tune | Shrink => False
  end.

(** The action changes the elements of type [t] of the [i]-th collection. *)
Definition changes (a : act V) (i : nat) (t : tyid) : Prop :=
  match a with
  | On j k => i = j /\ concerns k t
  | Assign j _ => i = j
  | Swap j j' => i = j \/ i = j'
  | _ => False
  end.
(** ... changes or reads them. *)
Definition uses (a : act V) (i : nat) (t : tyid) : Prop :=
  changes a i t \/ match a with On _ (PutFrom _ j) | Assign _ j => i = j | _ => False end.

(** Actions which create and destroy collections change the numbers of the others. *)
Definition in_place (a : act V) : Prop :=
  match a with On _ _ | Assign _ _ | Swap _ _ | Idle => True | _ => False end.

Definition independent (a b : act V) : Prop :=
  in_place a /\ in_place b /\ forall i t, ~ (changes a i t /\ uses b i t) /\ ~ (uses a i t /\ changes b i t).

Inductive shuffled : list (act V) -> list (act V) -> Prop :=
| sh_same h : shuffled h h
| sh_swap h1 a b h2 : independent a b -> shuffled (h1 ++ a :: b :: h2) (h1 ++ b :: a :: h2)
| sh_trans h h' h'' : shuffled h h' -> shuffled h' h'' -> shuffled h h''.

(** The part of a command on one collection which is about the elements of type [t]. *)
Definition about (t : tyid) (k : cmd V) : list (cmd V) :=
  let put h vs :=
    match h with
    | Some (u, n) => if u =? t then match vs with [] => [] | _ => [PutAt t n vs] end else map (fun v => Put None [(t, v)]) vs
    | None => map (fun v => Put None [(t, v)]) vs
    end in
  match k with
  | Register ts => if mem t ts then [Register [t]] else []
  | Put h l => put h (of_type t l)
  | PutBulk h u vs => if u =? t then put h vs else []
  | PutFrom h j => [PutFrom h j]
  | PutAt u _ _ | Erase u _ _ | ClearType u => if u =? t then [k] else []
  | ReserveType u => if u =? t then [Register [t]] else []
  | Clear => [Clear]
  | Write f => [Write f]
  | Tune | Shrink => []
  end.
Definition alone (k : cmd V) : Prop := match k with PutFrom _ _ => False | _ => True end.

End Shuffle.
