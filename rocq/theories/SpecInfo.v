(** * What a segment descriptor tells about its collection *)

From Coq Require Import List Arith.
From Verif Require Import Base Vec Backend Segment Coll Info Spec.
Import ListNotations.

Section SpecInfo.
Context {V : Type} {E : Env V}.

(** [i] is a descriptor of the segment of type [t]: it tells that type, its begin and end (as
    base and as concrete iterators) are the first and the past-the-end position of the segment,
    and going from one to the other one meets the elements of the type. *)
Record describes (c : coll V) (i : sinfo) (t : tyid) : Prop := {
  ds_type : exists a, inf_type c i = Some a /\ env_ty a = t;
  ds_begin : exists m p, inf_begin c i = Some (mkliter m (PBase p)) /\ lpoints c (mkliter m (PBase p)) t 0;
  ds_end : exists m p, inf_end c i = Some (mkliter m (PBase p)) /\
      lpoints c (mkliter m (PBase p)) t (length (elems c t));
  ds_begin_as : exists m p, inf_begin_as c i = Some (mkliter m (PConc p)) /\ lpoints c (mkliter m (PConc p)) t 0;
  ds_end_as : exists m p, inf_end_as c i = Some (mkliter m (PConc p)) /\
      lpoints c (mkliter m (PConc p)) t (length (elems c t));
  ds_elems : forall fuel, length (elems c t) <= fuel -> inf_elems fuel c i = Some (map (pair t) (elems c t));
  ds_elems_as : forall fuel, length (elems c t) <= fuel -> inf_elems_as fuel c i = Some (map (pair t) (elems c t))
}.

End SpecInfo.
