(** * Programs which use iterators of several collections

    Programs as in Walk.v, whose iterator variables may be iterators of different collections: the standard algorithms on two ranges, say.  A variable is
    the number of a collection with an iterator of that collection. *)

From Coq Require Import List Arith Bool.
From Verif Require Import Base Vec Backend Segment Coll StdAlg Algo Access Walk.
Import ListNotations.

Section Many.
Context {V : Type} {E : Env V} {S : Type}.

(** The operation on the [k]-th collection. *)
(* nothing in /repo: a call on one of several collections *)
Definition on_nth {A} (k : nat) (m : M (coll V * S) A) : M (list (coll V) * S) A :=
  fun gs =>
    match nth_error (fst gs) k with
    | Some c =>
        match m (c, snd gs) with
        | Ok (c', s') a => Ok (reg_set k c' (fst gs), s') a
        | Exn (c', s') e => Exn (reg_set k c' (fst gs), s') e
        | UB => UB
        end
    | None => UB
    end.

(** The program run with iterators of collections: ++, == and * are those of iterator_impl.hpp 97-107; comparing iterators of different
    collections is undefined ([forward.iterators]). *)
Fixpoint run_walks {X} (p : walk V S X) (its : list (nat * iter)) : M (list (coll V) * S) (X * list (nat * iter)) :=
  match p with
  | Done x => ret (x, its)
  | Lost => ub
  | Dup r next => match nth_error its r with Some it => run_walks next (its ++ [it]) | None => ub end
  | Put r r' next =>
      match nth_error its r, nth_error its r' with Some _, Some it => run_walks next (reg_set r it its) | _, _ => ub end
  | Inc r next =>
      fun gs =>
        match nth_error its r with
        | Some (k, it) =>
            match nth_error (fst gs) k with
            | Some c => match it_next c it with Some it' => run_walks next (reg_set r (k, it') its) gs | None => UB end
            | None => UB
            end
        | None => UB
        end
  | Cmp r r' next =>
      match nth_error its r, nth_error its r' with
      | Some (k, x), Some (k', y) => if k =? k' then run_walks (next (it_eq x y)) its else ub
      | _, _ => ub
      end
  | Ref r f next =>
      fun gs =>
        match nth_error its r with
        | Some (k, it) =>
            match nth_error (fst gs) k with
            | Some c =>
                match it_ref c it with
                | Some q => (bind (on_nth k (on_obj None q f)) (fun a => run_walks (next a) its)) gs
                | None => UB
                end
            | None => UB
            end
        | None => UB
        end
  end.

End Many.

Section Algs.
Context {V S : Type}.
Notation obj := (tyid * V)%type.
Notation W := (walk V S).

(** std::lexicographical_compare(first1,last1,first2,last2,less) (standard library): variables 0 to 3. *)
Fixpoint w_lexicographical (fuel : nat) (less : obj -> obj -> M S bool) : W bool :=
  Cmp 0 1 (fun e1 => Cmp 2 3 (fun e2 =>
    if e2 then Done false
    else if e1 then Done true
    else match fuel with
         | O => Lost
         | Datatypes.S n =>
             Ref 0 (looking (fun x => ret x)) (fun x => Ref 2 (looking (fun y => a <- less x y ;; if a then ret (true, false) else b <- less y x ;; ret (false, b))) (fun ab =>
               if fst ab then Done true else if snd ab then Done false else Inc 0 (Inc 2 (w_lexicographical n less))))
         end)).

(** std::merge(first1,last1,first2,last2,out,less) (standard library); [put] is *out++=. *)
Fixpoint w_merge (fuel : nat) (less : obj -> obj -> M S bool) (put : obj -> M S unit) : W unit :=
  Cmp 0 1 (fun e1 => Cmp 2 3 (fun e2 =>
    if e1 && e2 then Done tt
    else match fuel with
         | O => Lost
         | Datatypes.S n =>
             if e1 then Ref 2 (looking put) (fun _ => Inc 2 (w_merge n less put))
             else if e2 then Ref 0 (looking put) (fun _ => Inc 0 (w_merge n less put))
             else Ref 0 (looking (fun x => ret x)) (fun x => Ref 2 (looking (fun y => less y x)) (fun b =>
                    if b then Ref 2 (looking put) (fun _ => Inc 2 (w_merge n less put))
                    else Ref 0 (looking put) (fun _ => Inc 0 (w_merge n less put))))
         end)).

(** *out++=x, out being a std::back_inserter of a vector, say (standard library) *)
Definition append (x : obj) : M (list obj) unit := modify (fun out => out ++ [x]).

(** [for(;first1!=last1;++first1,++first2)op( *first1,*first2)], where op changes the second object (user code). *)
Fixpoint w_update (fuel : nat) (op : obj -> tyid -> M (V * S) unit) : W unit :=
  Cmp 0 1 (fun e1 =>
    if e1 then Done tt
    else match fuel with
         | O => Lost
         | Datatypes.S n => Ref 0 (looking (fun x => ret x)) (fun x => Ref 2 (op x) (fun _ => Inc 0 (Inc 2 (w_update n op))))
         end).
(** an [op] which gives the second object the value [h] computes (user code) *)
Definition assigning (h : obj -> obj -> V) (x : obj) (t : tyid) : M (V * S) unit := modify (fun vs => (h x (t, fst vs), snd vs)).

End Algs.
