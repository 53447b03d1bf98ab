(** * Which erase and which emplace_pos is meant: the overloads of poly_collection.hpp 644-679 and 879-936

    Types of arguments and overload resolution are those of Overload.v. *)

From Coq Require Import List Arith Bool.
From Verif Require Import Base Vec Backend Segment Coll Types Overload.
Import ListNotations.

(** The overloads of erase with one argument and with two. *)
Inductive over_erase : Type :=
| RIter            (* erase(const_iterator) 879-882; erase(const_iterator,const_iterator) 891-923 *)
| RLocal.          (* erase(local_iterator_impl<BaseIterator>) 884-889; the same with two 925-936 *)
Definition all_erase : list over_erase := [RIter; RLocal].
Definition over_erase_eqb (x y : over_erase) : bool := match x, y with RIter, RIter | RLocal, RLocal => true | _, _ => false end.

(** Those of emplace_pos. *)
Inductive over_pos : Type :=
| EBase            (* emplace_pos<T>(local_base_iterator,Args&&...) 644-650 *)
| EBaseConst       (* emplace_pos<T>(const_local_base_iterator,Args&&...) 652-661 *)
| ELocal           (* emplace_pos<T>(local_iterator<T>,Args&&...) 663-669 *)
| EConst.          (* emplace_pos<T>(const_local_iterator<T>,Args&&...) 671-679 *)
Definition all_pos : list over_pos := [EBase; EBaseConst; ELocal; EConst].
Definition over_pos_eqb (x y : over_pos) : bool :=
  match x, y with EBase, EBase | EBaseConst, EBaseConst | ELocal, ELocal | EConst, EConst => true | _, _ => false end.

(** Two arguments have to be converted (no two overloads of erase are ever viable for the same arguments, so that it does not matter how the conversions of two arguments compare). *)
Definition both (x y : conv) : conv := match x, y with Impossible, _ | _, Impossible => Impossible | Exact, Exact => Exact | _, _ => User end.

(** erase(a), poly_collection.hpp 879-889 *)
Definition viable_erase1 (o : over_erase) (a : aty) : conv := match o with RIter => to_const_iterator a | RLocal => deduced (is_local a) end.
Definition erase1 (a : aty) : resolved over_erase := resolve over_erase_eqb all_erase (fun o => viable_erase1 o a) (fun _ _ => false).
(** erase(a,b), 891-936: BaseIterator is deduced from both arguments *)
Definition viable_erase2 (o : over_erase) (a b : aty) : conv :=
  match o with RIter => both (to_const_iterator a) (to_const_iterator b) | RLocal => deduced (same_aty a b && is_local a) end.
Definition erase2 (a b : aty) : resolved over_erase := resolve over_erase_eqb all_erase (fun o => viable_erase2 o a b) (fun _ _ => false).

Section EmplacePos.
Context (L : lang) (k : model) (N : names).

(** Conversion of a pointer to [u] to one to [t], classes other than [t] being derived from it: base_model.hpp 79-82, any_model.hpp 150-153, function_model.hpp 90-93 (local_iterator<T>
    is made of a T* ) and iterator_impl.hpp 171-180 (a local iterator converts if the iterators it is made of do). *)
Definition to_pointer (t u : tyid) : conv := if t =? u then Exact else if l_base_of L t u then User else Impossible.
Definition by_constructor (c : conv) : conv := match c with Impossible => Impossible | _ => User end.

(** With T given: to local_base_iterator, local_iterator<T> and const_local_iterator<T>.  A local_base_iterator converts to the latter if T is the value type of the collection, or a base
    of it, since stride_iterator and the others convert to a pointer (stride_iterator.hpp 64, any_iterator.hpp 63, callable_wrapper_iterator.hpp 65).  Arguments of other types are
    taken not to convert to any but const_local_base_iterator. *)
Definition to_nonconst_local_base (p : aty) : conv := match p with ALocal None false => Exact | _ => Impossible end.
Definition to_local (t : tyid) (p : aty) : conv :=
  match p with
  | ALocal (Some u) false => to_pointer t u
  | ALocal None false => by_constructor (to_pointer t (ct_id (n_value N)))
  | _ => Impossible
  end.
Definition to_const_local (t : tyid) (p : aty) : conv :=
  match p with
  | ALocal (Some u) c => if c then to_pointer t u else by_constructor (to_pointer t u)
  | ALocal None _ => by_constructor (to_pointer t (ct_id (n_value N)))
  | _ => Impossible
  end.
(** c.emplace_pos<T>(p,...): the enable_ifs are those of 644 and 652 *)
Definition viable_pos (T : ctype) (o : over_pos) (p : aty) : conv :=
  match o with
  | EBase => only_if (is_acceptable L k T) (to_nonconst_local_base p)
  | EBaseConst => only_if (is_acceptable L k T) (to_local_base p)
  | ELocal => to_local (ct_id T) p
  | EConst => to_const_local (ct_id T) p
  end.
(** c.emplace_pos(p,...): T is deduced from p, which the first two overloads do not allow; from a const_local_iterator<T> the third deduces const T *)
Definition deduced_pos (o : over_pos) (p : aty) : conv :=
  match o with
  | EBase | EBaseConst => Impossible
  | ELocal => deduced match p with ALocal (Some _) _ => true | _ => false end
  | EConst => deduced match p with ALocal (Some _) true => true | _ => false end
  end.
(** Partial ordering: const T* is more specialized than T*. *)
Definition special_pos (o o' : over_pos) : bool := match o, o' with EConst, ELocal => true | _, _ => false end.
Definition emplace_pos_of (T : ctype) (p : aty) : resolved over_pos := resolve over_pos_eqb all_pos (fun o => viable_pos T o p) special_pos.
Definition emplace_pos_deduced (p : aty) : resolved over_pos := resolve over_pos_eqb all_pos (fun o => deduced_pos o p) special_pos.

End EmplacePos.
