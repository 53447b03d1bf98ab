(** * What a call of insert with two or three arguments says (C85)

    In terms of the types of the arguments only, and without overload resolution. *)

From Coq Require Import List Arith Bool.
From Verif Require Import Base Vec Backend Segment Coll Types Overload.
Import ListNotations.

Section SpecOver.
Context (L : lang) (k : model) (N : names).

(** A type whose values can be inserted into the collection: derived from the base, any type, callable. *)
Definition insertable (ct : ctype) : Prop :=
  match k with
  | KBase b => l_base_of L b (ct_id ct) = true
  | KAny => True
  | KFun => l_invocable L (ct_id ct) = true
  end.
(** A type whose values are all of that type and stand for themselves: a final class; a type other than an any that knows the type it holds; a type other than a
    callable_wrapper. *)
Definition alike (ct : ctype) : Prop :=
  match k with
  | KBase _ => l_final L (ct_id ct) = true
  | KAny => match ct with CAny _ has_typeid _ _ _ => has_typeid = false | _ => True end
  | KFun => match ct with CWrapper _ => False | _ => True end
  end.

(** What the type of an argument is taken for. *)
Definition own_iterator (a : aty) : Prop := exists b, a = AIter b.
Definition own_local (a : aty) : Prop := exists t b, a = ALocal t b.
Definition as_type (a : aty) : ctype := match a with AIter b => n_iter N b | ALocal t b => n_local N t b | AOther ct _ _ _ => ct end.
Definition as_hint (a : aty) : Prop := match a with AIter _ => True | ALocal _ _ => False | AOther _ _ h _ => h = true end.
Definition as_base_pos (a : aty) : Prop := match a with ALocal None _ => True | AOther _ _ _ p => p = true | _ => False end.
(** An iterator the elements of which can be inserted. *)
Definition yields_elements (a : aty) : Prop :=
  match a with
  | AIter _ | ALocal None _ => insertable (n_value N)
  | ALocal (Some t) _ => insertable (CType t)
  | AOther _ v _ _ => exists ct, v = Some ct /\ insertable ct
  end.

(** A range: two iterators of one type, iterators of collections of this type or others with elements that can be inserted. *)
Definition range_of (a b : aty) : Prop := a = b /\ (own_iterator a \/ own_local a \/ yields_elements a).
(** A hint and an element; const_iterators do not count as elements. *)
Definition hint_and_element (a b : aty) : Prop := as_hint a /\ b <> AIter true /\ insertable (as_type b).
(** A local position and an element; an iterator of the same type does not count as one. *)
Definition pos_and_element (a b : aty) : Prop := own_local a /\ b <> a /\ insertable (as_type b).

(** One type has one description. *)
Definition one_type (a b : aty) : Prop :=
  match a, b with AOther c _ _ _, AOther d _ _ _ => ct_id c = ct_id d -> a = b | _, _ => True end.

(** The range overload made for such iterators. *)
Definition range_overload (a : aty) (o : over2) : Prop :=
  match a with
  | AIter _ => o = OFrom
  | ALocal _ _ => o = OFromLocal
  | AOther _ v _ _ => exists ct, v = Some ct /\ (alike ct /\ o = ORangeTerminal \/ ~ alike ct /\ o = ORange)
  end.
Definition hint_range_overload (a : aty) (o : over3) : Prop :=
  match a with
  | AIter _ => o = PHintFrom
  | ALocal _ _ => o = PHintFromLocal
  | AOther _ v _ _ => exists ct, v = Some ct /\ (alike ct /\ o = PHintTerminal \/ ~ alike ct /\ o = PHint)
  end.

End SpecOver.
