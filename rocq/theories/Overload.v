(** * Which insert is meant: the overloads of poly_collection.hpp 681-877

    insert is overloaded for an element, a hint and an element, a local position and an element, ranges, and ranges with a hint or a local position.  A collection that
    can hold elements of every type could hold iterators too, so that a call with iterators can be read in several ways.  Here overload resolution is modelled
    ([over.match] of the C++ standard): which overloads are viable, which of them are better, and what is left. *)

From Coq Require Import List Arith Bool.
From Verif Require Import Base Vec Backend Segment Coll Types.
Import ListNotations.

(** The type of an argument without const and references: [\[const_\]iterator] of the type of the collection; [\[const_\]local_base_iterator] ([None]) and
    [\[const_\]local_iterator<T>] of it; any other type, with the value_type std::iterator_traits gives for it if it is that of an iterator, and whether it converts
    implicitly to const_iterator or to const_local_base_iterator. *)
Inductive aty : Type :=
| AIter (const : bool)
| ALocal (t : option tyid) (const : bool)
| AOther (ct : ctype) (value : option ctype) (to_hint to_pos : bool).

(** The types of the iterators of the collection, as types which could be inserted; the value_type of the collection (poly_collection.hpp 131). *)
Record names : Type := mknames {
  n_iter : bool -> ctype;
  n_local : option tyid -> bool -> ctype;
  n_value : ctype
}.

(** Implicit conversion of an argument to the type of a parameter: none needed, one by a constructor or conversion function, or impossible ([over.best.ics]). *)
Inductive conv : Type := Exact | User | Impossible.

(** The overloads with two arguments. *)
Inductive over2 : Type :=
| OHint            (* insert(const_iterator,T&&) 687-701 *)
| OPos             (* insert(local_iterator_impl<BaseIterator>,T&&) 703-717 *)
| ORange           (* insert(InputIterator,InputIterator), value type not terminal 719-727 *)
| ORangeTerminal   (* the same, value type terminal 729-742 *)
| OFrom            (* insert(iterator_impl<Const>,iterator_impl<Const>) 744-751 *)
| OFromLocal.      (* insert(local_iterator_impl<BaseIterator>,local_iterator_impl<BaseIterator>) 753-764 *)
Definition all2 : list over2 := [OHint; OPos; ORange; ORangeTerminal; OFrom; OFromLocal].

(** Those with three. *)
Inductive over3 : Type :=
| PHint            (* insert(const_iterator,InputIterator,InputIterator), not terminal 766-781 *)
| PHintTerminal    (* the same, terminal 783-798 *)
| PHintFrom        (* insert(const_iterator,iterator_impl<Const>,iterator_impl<Const>) 800-812 *)
| PHintFromLocal   (* insert(const_iterator,local_iterator_impl<BaseIterator>,...) 814-835 *)
| PPos             (* insert(const_local_base_iterator,InputIterator,InputIterator) 837-854 *)
| PConst           (* insert(const_local_iterator<T>,InputIterator,InputIterator) 856-870 *)
| PLocal.          (* insert(local_iterator<T>,InputIterator,InputIterator) 872-877 *)
Definition all3 : list over3 := [PHint; PHintTerminal; PHintFrom; PHintFromLocal; PPos; PConst; PLocal].

(** The outcome of overload resolution. *)
(* nothing in /repo: [over.match] of the C++ standard *)
Inductive resolved (O : Type) : Type := Chosen (o : O) | Ambiguous | NoMatch.
Arguments Chosen {O} _. Arguments Ambiguous {O}. Arguments NoMatch {O}.

Section Overload.
Context (L : lang) (k : model) (N : names).

(** The argument as a type that could be inserted. *)
Definition aty_ct (a : aty) : ctype :=
  match a with AIter b => n_iter N b | ALocal t b => n_local N t b | AOther ct _ _ _ => ct end.
(** std::iterator_traits<A>::value_type: iterator_impl.hpp 34-60, 132-137 *)
Definition aty_value (a : aty) : option ctype :=
  match a with AIter _ => Some (n_value N) | ALocal None _ => Some (n_value N) | ALocal (Some t) _ => Some (CType t) | AOther _ v _ _ => v end.
(** std::is_same on decayed types (enable_if_not_same, poly_collection.hpp 93-98), and whether a parameter used twice can be deduced *)
Definition same_aty (a b : aty) : bool :=
  match a, b with
  | AIter x, AIter y => Bool.eqb x y
  | ALocal None x, ALocal None y => Bool.eqb x y
  | ALocal (Some t) x, ALocal (Some u) y => (t =? u) && Bool.eqb x y
  | AOther c _ _ _, AOther d _ _ _ => ct_id c =? ct_id d
  | _, _ => false
  end.

(** enable_if_derefs_to_implementation 70-73, enable_if_derefs_to_[not_]terminal 83-92 *)
Definition derefs_to_implementation (a : aty) : bool :=
  match aty_value a with Some v => is_implementation L k v | None => false end.
Definition derefs_to_terminal (a : aty) : bool :=
  match aty_value a with Some v => is_terminal L k v | None => false end.

(** iterator_impl.hpp 85-87: iterator converts to const_iterator, nothing else does *)
Definition to_const_iterator (a : aty) : conv :=
  match a with
  | AIter true => Exact
  | AIter false => User
  | ALocal _ _ => Impossible
  | AOther _ _ h _ => if h then User else Impossible
  end.
(** iterator_impl.hpp 171-180: local_base_iterator converts to const_local_base_iterator; conversion from local_iterator<T> is explicit (182-207), since those of
    pointers to base iterators are (stride_iterator.hpp 66-74, any_iterator.hpp 36, callable_wrapper_iterator.hpp 34-35) *)
Definition to_local_base (a : aty) : conv :=
  match a with
  | ALocal None true => Exact
  | ALocal None false => User
  | ALocal (Some _) _ => Impossible
  | AIter _ => Impossible
  | AOther _ _ _ p => if p then User else Impossible
  end.
(** Parameters of a template are deduced from the type of the argument itself, without conversions ([temp.deduct.call]). *)
Definition deduced (b : bool) : conv := if b then Exact else Impossible.
Definition is_iter (a : aty) : bool := match a with AIter _ => true | _ => false end.
Definition is_local (a : aty) : bool := match a with ALocal _ _ => true | _ => false end.

(** What the first argument needs for an overload to be viable ([PLocal]: from a const_local_iterator<T>, const T is deduced); the others are passed as they are.  The conditions are the enable_ifs. *)
(* nothing in /repo: std::enable_if *)
Definition only_if (b : bool) (c : conv) : conv := if b then c else Impossible.
(* poly_collection.hpp 687-764 *)
Definition viable2 (o : over2) (a b : aty) : conv :=
  match o with
  | OHint => only_if (negb (same_aty (AIter true) b) && is_implementation L k (aty_ct b)) (to_const_iterator a)
  | OPos => only_if (negb (same_aty a b) && is_implementation L k (aty_ct b)) (deduced (is_local a))
  | ORange => only_if (derefs_to_implementation a && negb (derefs_to_terminal a)) (deduced (same_aty a b))
  | ORangeTerminal => only_if (derefs_to_implementation a && derefs_to_terminal a) (deduced (same_aty a b))
  | OFrom => deduced (same_aty a b && is_iter a)
  | OFromLocal => deduced (same_aty a b && is_local a)
  end.
(* poly_collection.hpp 766-877 *)
Definition viable3 (o : over3) (p a b : aty) : conv :=
  match o with
  | PHint => only_if (same_aty a b && derefs_to_implementation a && negb (derefs_to_terminal a)) (to_const_iterator p)
  | PHintTerminal => only_if (same_aty a b && derefs_to_implementation a && derefs_to_terminal a) (to_const_iterator p)
  | PHintFrom => only_if (same_aty a b && is_iter a) (to_const_iterator p)
  | PHintFromLocal => only_if (same_aty a b && is_local a) (to_const_iterator p)
  | PPos => only_if (same_aty a b && derefs_to_implementation a) (to_local_base p)
  | PConst => only_if (same_aty a b) (deduced match p with ALocal (Some _) true => true | _ => false end)
  | PLocal => only_if (same_aty a b) (deduced match p with ALocal (Some _) _ => true | _ => false end)
  end.

(** Partial ordering ([temp.func.order]): iterator_impl<Const> and local_iterator_impl<BaseIterator> are more specialized than InputIterator,
    const T* than T*. *)
Definition special2 (o o' : over2) : bool :=
  match o, o' with OFrom, (ORange | ORangeTerminal) => true | OFromLocal, (ORange | ORangeTerminal) => true | _, _ => false end.
Definition special3 (o o' : over3) : bool :=
  match o, o' with PHintFrom, (PHint | PHintTerminal) => true | PHintFromLocal, (PHint | PHintTerminal) => true | PConst, PLocal => true | _, _ => false end.

End Overload.

(** The overload viable and better than all other viable ones ([over.match.best]): by the conversion of the first argument, otherwise by being more specialized. *)
Definition better {O} (via : O -> conv) (special : O -> O -> bool) (o o' : O) : bool :=
  match via o, via o' with
  | Impossible, _ => false
  | _, Impossible => true
  | Exact, User => true
  | User, Exact => false
  | _, _ => special o o'
  end.
Definition viable {O} (via : O -> conv) (o : O) : bool := match via o with Impossible => false | _ => true end.
Definition resolve {O} (eqb : O -> O -> bool) (all : list O) (via : O -> conv) (special : O -> O -> bool) : resolved O :=
  match filter (viable via) all with
  | [] => NoMatch
  | os => match filter (fun o => forallb (fun o' => eqb o o' || better via special o o') os) os with
          | [o] => Chosen o
          | _ => Ambiguous
          end
  end.
Definition over2_eqb (x y : over2) : bool :=
  match x, y with
  | OHint, OHint | OPos, OPos | ORange, ORange | ORangeTerminal, ORangeTerminal | OFrom, OFrom | OFromLocal, OFromLocal => true
  | _, _ => false
  end.
Definition over3_eqb (x y : over3) : bool :=
  match x, y with
  | PHint, PHint | PHintTerminal, PHintTerminal | PHintFrom, PHintFrom | PHintFromLocal, PHintFromLocal | PPos, PPos | PConst, PConst | PLocal, PLocal => true
  | _, _ => false
  end.
(** The overload c.insert(a,b) and c.insert(p,a,b) call, for arguments of these types. *)
Definition insert2 (L : lang) (k : model) (N : names) (a b : aty) : resolved over2 :=
  resolve over2_eqb all2 (fun o => viable2 L k N o a b) special2.
Definition insert3 (L : lang) (k : model) (N : names) (p a b : aty) : resolved over3 :=
  resolve over3_eqb all3 (fun o => viable3 L k N o p a b) special3.
