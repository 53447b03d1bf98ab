(** * Segment descriptors and segment traversal: poly_collection.hpp 162-376, 507-525 *)

From Coq Require Import List Arith Bool.
From Verif Require Import Base Vec Backend Segment Coll.
Import ListNotations.

Section Info.
Context {V : Type} {E : Env V}.
Notation CM := (M (coll V * world)).

(** const_base_segment_info 162-193, base_segment_info 195-217, const_segment_info<T> 219-239 and
    segment_info<T> 241-262 all hold a map iterator and nothing else; the const and non-const
    versions of their functions do the same and are not distinguished. *)
Record sinfo : Type := mkinfo { inf_map : mapit }.

(** it->first, it->second (169, 186): undefined for the end of the map or an invalid iterator *)
Definition inf_node (c : coll V) (i : sinfo) : option (node V) :=
  match inf_map i with Some k => node_at (c_nodes c) k | None => None end.

(** begin() 168-169, end() 170-171 (and 205-208) *)
Definition inf_begin (c : coll V) (i : sinfo) : option liter :=
  match inf_node c i with Some n => Some (mkliter (n_id n) (PBase (seg_begin (n_seg n)))) | None => None end.
Definition inf_end (c : coll V) (i : sinfo) : option liter :=
  match inf_node c i with Some n => Some (mkliter (n_id n) (PBase (seg_end (n_seg n)))) | None => None end.

(** begin<T>() 175-177, end<T>() 178-180 (and 210-213), and the members begin(), end() of
    segment_info<T> (228-231, 253-256): the base iterator converted to local_iterator<T> *)
Definition inf_begin_as (c : coll V) (i : sinfo) : option liter :=
  match inf_begin c i with Some l => li_to_conc c l | None => None end.
Definition inf_end_as (c : coll V) (i : sinfo) : option liter :=
  match inf_end c i with Some l => li_to_conc c l | None => None end.

(** type_info() 186 *)
Definition inf_type (c : coll V) (i : sinfo) : option tiaddr :=
  match inf_node c i with Some n => Some (n_key n) | None => None end.

(** segment(info) 507-515, segment<T>() 517-521 *)
Definition c_segment (a : tiaddr) : CM sinfo := i <- map_iterator_by_info a ;; ret (mkinfo (Some i)).

(** segment_traversal() 523-524: the object refers to the map.  Its begin() and end() (345-347,
    369-370) are segment_info_iterators (265-316), which adapt map iterators: *)
Definition trav_begin (c : coll V) : mapit := match c_nodes c with [] => None | n :: _ => Some (n_id n) end.
Definition trav_end (c : coll V) : mapit := None.
(** ++, of the underlying map iterator (267-273) *)
Definition trav_next (c : coll V) (m : mapit) : option mapit :=
  match m with
  | None => None
  | Some i =>
      match nodes_from (c_nodes c) i with
      | Some (_ :: n :: _) => Some (Some (n_id n))
      | Some [_] => Some None
      | _ => None
      end
  end.
(** dereference 315: the descriptor of the node *)
Definition trav_deref (m : mapit) : sinfo := mkinfo m.

(** for(auto&& s : c.segment_traversal()), 345-347: the descriptors met *)
Fixpoint trav_all (fuel : nat) (c : coll V) (first last : mapit) : option (list sinfo) :=
  if mapit_eqb first last then Some []
  else match fuel with
       | O => None
       | S f =>
           match trav_next c first with
           | Some m' =>
               match trav_all f c m' last with
               | Some l => Some (trav_deref first :: l)
               | None => None
               end
           | None => None
           end
       end.

(** ++ on a local iterator: the next position of the same segment; beyond the last element it
    is undefined (local_iterator_impl adapts the iterator of the segment, iterator_impl.hpp
    135-140: stride_iterator.hpp 137, or a pointer) *)
Definition li_next (c : coll V) (l : liter) : option liter :=
  match node_at (c_nodes c) (li_map l) with
  | None => None
  | Some n =>
      match li_pos l with
      | PBase p => if snd p <? be_size (sg_be (n_seg n)) then Some (mkliter (li_map l) (PBase (fst p, S (snd p)))) else None
      | PConc p => if snd p <? be_size (sg_be (n_seg n)) then Some (mkliter (li_map l) (PConc (fst p, S (snd p)))) else None
      end
  end.
(** == on local iterators of one segment: equality of positions (stride_iterator.hpp 136, or pointers) *)
Definition bpos_eqb (x y : bpos) : bool :=
  match x, y with
  | PBase p, PBase q => ptr_eqb p q
  | PConc p, PConc q => ptr_eqb p q
  | _, _ => false
  end.
Definition li_eq (x y : liter) : bool := bpos_eqb (li_pos x) (li_pos y).

(** for over a local range (444-471): the elements met, with their dynamic types *)
Fixpoint li_walk (fuel : nat) (c : coll V) (first last : liter) : option (list (tyid * V)) :=
  if li_eq first last then Some []
  else match fuel with
       | O => None
       | S f =>
           match li_deref c first, li_next c first with
           | Some x, Some l' =>
               match li_walk f c l' last with
               | Some r => Some (x :: r)
               | None => None
               end
           | _, _ => None
           end
       end.

(** for(auto&& s : c.segment_traversal()) for(auto&& x : s), with begin() and end() 168-180: the
    elements met *)
Definition inf_elems (fuel : nat) (c : coll V) (i : sinfo) : option (list (tyid * V)) :=
  match inf_begin c i, inf_end c i with
  | Some f, Some l => li_walk fuel c f l
  | _, _ => None
  end.
Definition inf_elems_as (fuel : nat) (c : coll V) (i : sinfo) : option (list (tyid * V)) :=
  match inf_begin_as c i, inf_end_as c i with
  | Some f, Some l => li_walk fuel c f l
  | _, _ => None
  end.

End Info.
