(** * Iterators and the end of the map they remember

    An iterator (iterator_impl.hpp 42-126) does not only consist of a node of the map and a position, as in Coll.v, but
    also has the member mapend (line 125): the end() of the map of the collection it was obtained from.  Here the operations which
    use it are modelled with it: ++, and erase.  The standard does not say what happens to the end() of a
    std::unordered_map whose nodes are handed over to another map by swap or move, so this is a parameter. *)

From Coq Require Import List Arith Bool.
From Verif Require Import Base Vec Backend Segment Coll.
Import ListNotations.

(** End iterators of std::unordered_map (standard library, nothing in /repo): [EndNull] are null pointers, all equal (libstdc++, libc++);
    [EndMoves] refer to a sentinel which goes along with the nodes (MSVC); [EndStays] refer to the map object. *)
Inductive endkind := EndNull | EndMoves | EndStays.

Section End.
Context {V : Type} {E : Env V} (k : endkind).

(** A collection, and the identity of the end() of its map. *)
(* the collection, with the address of its map (poly_collection.hpp, member map) *)
Record ecoll : Type := mkecoll { e_c : coll V; e_id : nat }.
(** An iterator with mapend; if its mapit is the end of the map it was obtained from, that is mapend too. *)
(* the members of iterator_impl, iterator_impl.hpp 125-126 *)
Record eiter : Type := mkeiter { e_it : iter; e_mapend : nat }.

(** comparing two ends *)
(* nothing in /repo: == of end iterators of maps *)
Definition same_end (a b : nat) : bool := match k with EndNull => true | _ => a =? b end.

(** next_segment_position, iterator_impl.hpp 109-116, on the nodes of a map whose end is [e]: the loop stops at mapend; ++ and -> on
    the end of the map are undefined. *)
Fixpoint e_nsp (e mapend : nat) (ns : list (node V)) : option iter :=
  match ns with
  | [] => if same_end e mapend then Some (mkiter None null) else None
  | n :: ns' =>
      if ptr_eqb (seg_begin (n_seg n)) (sg_snt (n_seg n)) then e_nsp e mapend ns'
      else Some (mkiter (Some (n_id n)) (seg_begin (n_seg n)))
  end.
Definition with_end (m : nat) (o : option iter) : option eiter := option_map (fun it => mkeiter it m) o.

(** begin and end, poly_collection.hpp 437-442: the end of the own map is passed *)
Definition e_begin (x : ecoll) : option eiter := with_end (e_id x) (e_nsp (e_id x) (e_id x) (c_nodes (e_c x))).
Definition e_end (x : ecoll) : eiter := mkeiter (c_end (e_c x)) (e_id x).

(** iterator_impl(mapit,mapend,segpos) 69-78; a mapit which is an end is that of the same iterator as mapend *)
Definition e_make (x : ecoll) (m : mapit) (mapend : nat) (p : ptr) : option eiter :=
  match m with
  | None => Some (mkeiter (mkiter None p) mapend)
  | Some i =>
      match nodes_from (c_nodes (e_c x)) i with
      | Some (n :: ns) =>
          with_end mapend (if ptr_eqb p (sg_snt (n_seg n)) then e_nsp (e_id x) mapend ns else Some (mkiter (Some i) p))
      | _ => None
      end
  end.

(** increment 101-107, see [it_next] in Coll.v *)
Definition e_next (x : ecoll) (it : eiter) : option eiter :=
  match it_map (e_it it) with
  | None => None
  | Some i =>
      match nodes_from (c_nodes (e_c x)) i with
      | Some (n :: ns) =>
          let b := sg_be (n_seg n) in
          let q := it_pos (e_it it) in
          if (fst q =? fst (be_begin b)) && (snd q <? be_size b) then
            let p := (fst q, S (snd q)) in
            with_end (e_mapend it) (if ptr_eqb p (sg_snt (n_seg n)) then e_nsp (e_id x) (e_mapend it) ns else Some (mkiter (Some i) p))
          else None
      | _ => None
      end
  end.
(** dereference 97-98 and equal 99 do not use the map *)
Definition e_deref (x : ecoll) (it : eiter) : option (tyid * V) := it_deref (e_c x) (e_it it).
Definition e_eq (x y : eiter) : bool := it_eq (e_it x) (e_it y).

(** for(;first!=last;++first), as [traverse] in Coll.v *)
(* for(;first!=last;++first), with the operators of iterator_impl.hpp 97-116 *)
Fixpoint e_traverse (fuel : nat) (x : ecoll) (first last : eiter) : option (list (tyid * V)) :=
  if e_eq first last then Some []
  else match fuel with
       | O => None
       | S f =>
           match e_deref x first, e_next x first with
           | Some v, Some it' => option_map (cons v) (e_traverse f x it' last)
           | _, _ => None
           end
       end.

Notation EM := (M (ecoll * world)).
(** An operation on the collection which does not concern the end of the map. *)
(* nothing in /repo: a member function called on a collection with an identity *)
Definition e_on {A} (m : M (coll V * world) A) : EM A :=
  fun '(x, w) => match m (e_c x, w) with
                 | Ok (c', w') a => Ok (mkecoll c' (e_id x), w') a
                 | Exn (c', w') e => Exn (mkecoll c' (e_id x), w') e
                 | UB => UB
                 end.
(* the iterators begin() and others return: poly_collection.hpp 437-440 and 620-923, with the constructor of iterator_impl.hpp 69-78 *)
Definition e_mk (m : mapit) (mapend : nat) (p : ptr) : EM eiter :=
  x <- getx ;; match e_make x m mapend p with Some it => ret it | None => ub end.

(** erase(pos), poly_collection.hpp 879-882 *)
Definition e_erase (pos : eiter) : EM eiter :=
  match it_map (e_it pos) with
  | None => ub
  | Some i => p <- e_on (on_seg i (seg_erase (PBase (it_pos (e_it pos))))) ;; e_mk (Some i) (e_mapend pos) p
  end.

(** while(++fseg!=lseg)segment(fseg).clear(), 904: if [lseg] is an end, the loop stops at the end of the map if they are equal *)
Fixpoint e_clear_until (ids : list nat) (lseg : mapit) (lend : nat) : EM unit :=
  match ids with
  | [] => x <- getx ;; match lseg with None => if same_end (e_id x) lend then ret tt else ub | Some _ => ub end
  | i :: ids' =>
      if mapit_eqb (Some i) lseg then ret tt
      else e_on (on_seg i seg_clear) ;; e_clear_until ids' lseg lend
  end.
(** comparing mapits; an end is equal to no node *)
Definition e_mapit_eqb (x y : eiter) : bool :=
  match it_map (e_it x), it_map (e_it y) with
  | Some i, Some j => i =? j
  | None, None => same_end (e_mapend x) (e_mapend y)
  | _, _ => false
  end.
(** erase(first,last) 891-923: end is that of first; if fseg is the end of the map and not equal to it, segment(fseg) is undefined *)
Definition e_erase_range (first last : eiter) : EM eiter :=
  if negb (e_mapit_eqb first last) then
    match it_map (e_it first) with
    | None => ub
    | Some fi =>
        e_on (on_seg fi (seg_erase_till_end (PBase (it_pos (e_it first))))) ;;
        x <- getx ;;
        match nodes_from (c_nodes (e_c x)) fi with
        | Some (_ :: ns) =>
            e_clear_until (map n_id ns) (it_map (e_it last)) (e_mapend last) ;;
            match it_map (e_it last) with
            | None =>
                x' <- getx ;;
                if same_end (e_id x') (e_mapend first) then ret (mkeiter (c_end (e_c x')) (e_mapend first)) else ub
            | Some li =>
                p <- e_on (on_seg li (seg_erase_from_begin (PBase (it_pos (e_it last))))) ;;
                e_mk (Some li) (e_mapend first) p
            end
        | _ => ub
        end
    end
  else if e_eq first last then e_mk (it_map (e_it first)) (e_mapend first) (it_pos (e_it first))
  else match it_map (e_it first) with
       | None => ub
       | Some i =>
           p <- e_on (on_seg i (seg_erase_range (PBase (it_pos (e_it first))) (PBase (it_pos (e_it last))))) ;;
           e_mk (Some i) (e_mapend first) p
       end.

(** swap, poly_collection.hpp 954, type_info_map.hpp 172 *)
Definition e_swap : M ((ecoll * ecoll) * world) unit :=
  fun '((x, y), w) =>
    match c_swap ((e_c x, e_c y), w) with
    | Ok ((c, c'), w') _ =>
        match k with
        | EndMoves => Ok ((mkecoll c (e_id y), mkecoll c' (e_id x)), w') tt
        | _ => Ok ((mkecoll c (e_id x), mkecoll c' (e_id y)), w') tt
        end
    | Exn ((c, c'), w') e => Exn ((mkecoll c (e_id x), mkecoll c' (e_id y)), w') e
    | UB => UB
    end.
(** move construction (poly_collection.hpp 382, type_info_map.hpp 78); [fresh] is the end of the map which is new: that of the new object, or the one left
    behind if the end moves *)
Definition e_move (fresh : nat) : EM ecoll :=
  fun '(x, w) =>
    match c_move (e_c x, w) with
    | Ok (c', w') c =>
        match k with
        | EndMoves => Ok (mkecoll c' fresh, w') (mkecoll c (e_id x))
        | _ => Ok (mkecoll c' (e_id x), w') (mkecoll c fresh)
        end
    | Exn (c', w') e => Exn (mkecoll c' (e_id x), w') e
    | UB => UB
    end.
(** move assignment (type_info_map.hpp 114-135), destination first; the nodes are taken over unless the allocators forbid it *)
Definition e_move_assign (fresh : nat) : M ((ecoll * ecoll) * world) unit :=
  fun '((y, x), w) =>
    match c_move_assign ((e_c y, e_c x), w) with
    | Ok ((c, c'), w') _ =>
        match k, env_pocma || (c_al (e_c y) =? c_al (e_c x)) with
        | EndMoves, true => Ok ((mkecoll c (e_id x), mkecoll c' fresh), w') tt
        | _, _ => Ok ((mkecoll c (e_id y), mkecoll c' (e_id x)), w') tt
        end
    | Exn ((c, c'), w') e => Exn ((mkecoll c (e_id y), mkecoll c' (e_id x)), w') e
    | UB => UB
    end.

End End.
Arguments ecoll V : clear implicits.
