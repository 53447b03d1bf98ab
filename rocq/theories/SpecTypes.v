(** * What a program means by the argument of insert

    Objects, the expressions that designate them, and which of the objects involved a user wants in
    the collection. *)

From Coq Require Import List Arith Bool.
From Verif Require Import Base Vec Backend Segment Coll Spec Types.
Import ListNotations.

Section SpecTypes.
Context {V : Type} {E : Env V} (L : lang).

(** The facts about types given by [L] are consistent: a class is its own base, at offset 0; a final
    class is the base of no other; the type_info objects denote the types asked for. *)
Record lang_ok : Prop := {
  lo_refl : forall t, l_base_of L t t = true;
  lo_final : forall t u, l_final L t = true -> l_base_of L t u = true -> u = t;
  lo_off : forall t, l_off L t t = 0;
  lo_typeid : forall t, env_ty (l_typeid L t) = t;
  lo_rtti : forall a t, env_ty (l_rtti L a t) = t
}.

(** There is at most one object of a given type at an address. *)
Definition mem_ok (h : list (object V)) : Prop :=
  forall o o', In o h -> In o' h -> o_addr o = o_addr o' -> o_ty o = o_ty o' -> o = o'.

(** The expression is a valid one when the objects [h] exist: it designates an object of its static type, which is a
    base class subobject of an object (or that object itself) at the right place; if it is an any or a callable_wrapper, what it holds
    is an object of another type, and only an any may be empty. *)
Record designates (h : list (object V)) (e : expr V) : Prop := {
  ds_self : In (e_self e) h;
  ds_whole : In (e_whole e) h;
  ds_type : o_ty (e_self e) = ct_id (e_type e);
  ds_base : l_base_of L (o_ty (e_self e)) (o_ty (e_whole e)) = true;
  ds_place : o_addr (e_self e) = o_addr (e_whole e) + l_off L (o_ty (e_whole e)) (o_ty (e_self e));
  ds_held : forall o, e_held e = Some o -> In o h /\ o_ty o <> ct_id (e_type e);
  ds_wrapper : forall t, e_type e = CWrapper t -> e_held e <> None
}.

(** The object which is meant: in a base_collection the complete object; in an any_collection the object held
    by an any, if the any can tell its type; in a function_collection the target of a wrapper;
    anything else stands for itself. *)
Definition stands_for (k : model) (e : expr V) : option (object V) :=
  match k, e_type e with
  | KBase _, _ => Some (e_whole e)
  | KAny, CAny _ true _ _ _ => e_held e
  | KFun, CWrapper _ => e_held e
  | _, _ => Some (e_self e)
  end.

(** May the type be an element of the collection?  It implements the interface; can be
    move constructed and assigned, or is move constructed without exceptions. *)
Definition implements (k : model) (ct : ctype) : Prop :=
  match k with
  | KBase b => l_base_of L b (ct_id ct) = true
  | KAny => True
  | KFun => l_invocable L (ct_id ct) = true
  end.
Definition acceptable (k : model) (ct : ctype) : Prop :=
  implements k ct /\ l_move_con L (ct_id ct) = true /\
  (l_move_asg L (ct_id ct) = true \/ l_nt_move_con L (ct_id ct) = true) /\
  (k = KAny -> forall t ti relaxed asg asg_move, ct = CAny t ti relaxed asg asg_move ->
     relaxed = true \/ asg = true \/ asg_move = true).
(** Is it known at compile time that an expression of this type stands for an object of the very type? *)
Definition exact (k : model) (ct : ctype) : Prop :=
  match k with
  | KBase _ => l_final L (ct_id ct) = true
  | KAny => forall t relaxed asg asg_move, ct <> CAny t true relaxed asg asg_move
  | KFun => forall t, ct <> CWrapper t
  end.
(** In a base_collection it must be possible to find out the type of an object, if it is not known. *)
Definition knowable (k : model) (ct : ctype) : Prop :=
  match k with KBase _ => exact k ct \/ l_poly L (ct_id ct) = true | _ => True end.
(** May insert be called with it at all?  If it is known what it stands for, it must be acceptable. *)
Definition insertable (k : model) (ct : ctype) : Prop :=
  implements k ct /\ (exact k ct -> acceptable k ct) /\ knowable k ct.

(** The collection cannot take an object [o] given by an expression of static type [ct]: there is no segment for its type, and
    nothing at hand to create one with, for the type is not known at compile time, or not acceptable. *)
Definition stranger (k : model) (c : coll V) (ct : ctype) (o : object V) : Prop :=
  ~ In (o_ty o) (types c) /\ (~ acceptable k ct \/ o_ty o <> ct_id ct).

(** Non-const rvalues are moved from, everything else is copied. *)
Definition moved_from (e : expr V) : Prop := e_rvalue e = true /\ e_const e = false.
Definition made_by (e : expr V) (hw : how) : Prop := (moved_from e -> hw = HMove) /\ (~ moved_from e -> hw = HCopy).

(** What becomes of an expression when a range is inserted at a local_iterator<T>, T being [t]: objects of type T are inserted; from anything
    else a T is constructed, if that is possible, and [conv] tells its value. *)
Definition local_value (k : model) (t : tyid) (ctor : bool) (conv : expr V -> V) (e : expr V) (v : V) : Prop :=
  (implements k (e_type e) /\ exists o, stands_for k e = Some o /\ o_ty o = t /\ v = o_val o) \/
  ((~ implements k (e_type e) \/ forall o, stands_for k e = Some o -> o_ty o <> t) /\ ctor = true /\ v = conv e).

Definition typed (o : object V) : tyid * V := (o_ty o, o_val o).

(** What a broken off insertion of [l] leaves behind: the elements before the culprit, giving [c1]; then at most the segment for the
    type of the culprit was affected. *)
Definition left_over (h : option (tyid * nat)) (c c' : coll V) (l : list (tyid * V)) : Prop :=
  exists pre t v post c1, l = pre ++ (t, v) :: post /\ grew h c c1 pre /\ (unchanged c1 c' \/ harmed c1 c' t (S (length post))).

(** not_copy_constructible is thrown for a type whose moves do not throw only if something of that type had to be copied. *)
Definition copy_demanded (k : model) (es : list (expr V)) (x : exn) : Prop :=
  forall t, x = NotCopyConstructible t -> env_nt_move t = true ->
  exists e o, In e es /\ stands_for k e = Some o /\ o_ty o = t /\ ~ moved_from e.

End SpecTypes.
