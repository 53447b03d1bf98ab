(** * Threads which only read: the const members of poly_collection.hpp 424-583

    The library does no locking.  Here are the questions that can be put to a collection without
    modifying its elements, and programs which put them, several of which may run at once. *)

From Coq Require Import List Arith Bool.
From Verif Require Import Base Vec Backend Segment Coll Info.
Import ListNotations.

(** What a reader may ask for: [a] is the type_info object passed to (or the typeid of the template
    argument of) the member function; positions are those of the reader's iterators. *)
Inductive question : Type :=
| Registered (a : tiaddr)                       (* is_registered 424-433 *)
| Size | Empty                                  (* size() 545-550, empty() 527-531 *)
| SizeOf (a : tiaddr) | EmptyOf (a : tiaddr)    (* size(info) 552-561, empty(info) 533-543 *)
| MaxSizeOf (a : tiaddr) | CapacityOf (a : tiaddr) (* 563-583 *)
| Begin | End                                   (* 437-442 *)
| BeginOf (a : tiaddr) | EndOf (a : tiaddr)     (* 444-505 *)
| Segment (a : tiaddr)                          (* segment(info) 507-521 *)
| InfoType (i : sinfo) | InfoBegin (i : sinfo) | InfoEnd (i : sinfo) (* 162-262 *)
| TravBegin | TravNext (m : mapit)              (* 264-376, 523-524 *)
| Deref (it : iter) | Next (it : iter)          (* iterator_impl.hpp 84-107 *)
| LDeref (l : liter) | LNext (l : liter)        (* iterator_impl.hpp 201-220 *)
| ToConc (l : liter) | ToBase (l : liter).      (* iterator_impl.hpp 187-197, 221-227 *)

(** The answer, or the exception thrown. *)
(* nothing in /repo: the result of a const member function, of whichever type *)
Inductive answer (V : Type) : Type :=
| Bool (b : bool)
| Nat (n : nat)
| Pos (it : iter)
| LPos (l : liter)
| Info (i : sinfo)
| MapPos (m : mapit)
| TypeInfo (a : tiaddr)
| Elem (x : tyid * V)
| Threw (e : exn).
Arguments Bool {V} _. Arguments Nat {V} _. Arguments Pos {V} _. Arguments LPos {V} _.
Arguments Info {V} _. Arguments MapPos {V} _. Arguments TypeInfo {V} _. Arguments Elem {V} _.
Arguments Threw {V} _.

Section Read.
Context {V : Type} {E : Env V}.
Notation CM := (M (coll V * world)).

(** a function of the collection; undefined if there is no answer *)
(* nothing in /repo: a const member function that cannot throw *)
Definition look {A} (f : coll V -> A) : CM A := c <- getx ;; ret (f c).
(* nothing in /repo: the same, with a precondition *)
Definition look_opt {A} (f : coll V -> option A) : CM A :=
  c <- getx ;; match f c with Some x => ret x | None => ub end.
(* nothing in /repo: the result as an answer *)
Definition as_answer {A} (k : A -> answer V) (m : CM A) : CM (answer V) := x <- m ;; ret (k x).

(** What each question does: the functions of Coll.v and Info.v. *)
(* the const member functions, poly_collection.hpp 424-583, and those of iterators, iterator_impl.hpp 97-116 *)
Definition ask (q : question) : CM (answer V) :=
  match q with
  | Registered a => as_answer Bool (look (fun c => is_registered c a))
  | Size => as_answer Nat (look c_size)
  | Empty => as_answer Bool (look c_empty_all)
  | SizeOf a => as_answer Nat (c_size_of a)
  | EmptyOf a => as_answer Bool (c_empty_of a)
  | MaxSizeOf a => as_answer Nat (c_max_size_of a)
  | CapacityOf a => as_answer Nat (c_capacity_of a)
  | Begin => as_answer Pos (look c_begin)
  | End => as_answer Pos (look c_end)
  | BeginOf a => as_answer LPos (c_begin_of a)
  | EndOf a => as_answer LPos (c_end_of a)
  | Segment a => as_answer Info (c_segment a)
  | InfoType i => as_answer TypeInfo (look_opt (fun c => inf_type c i))
  | InfoBegin i => as_answer LPos (look_opt (fun c => inf_begin c i))
  | InfoEnd i => as_answer LPos (look_opt (fun c => inf_end c i))
  | TravBegin => as_answer MapPos (look trav_begin)
  | TravNext m => as_answer MapPos (look_opt (fun c => trav_next c m))
  | Deref it => as_answer Elem (look_opt (fun c => it_deref c it))
  | Next it => as_answer Pos (look_opt (fun c => it_next c it))
  | LDeref l => as_answer Elem (look_opt (fun c => li_deref c l))
  | LNext l => as_answer LPos (look_opt (fun c => li_next c l))
  | ToConc l => as_answer LPos (look_opt (fun c => li_to_conc c l))
  | ToBase l => as_answer LPos (look_opt (fun c => li_to_base c l))
  end.

(** A reading thread: it knows the answers it got so far and decides what to ask next, or stops. *)
(* nothing in /repo: a thread *)
Definition reader : Type := list (answer V) -> option question.

(** One step of a reader on the collection as it is now: the state afterwards and the answers it
    has then; [None] if the behaviour is undefined. *)
(* nothing in /repo: a thread makes its next call *)
Definition turn (r : reader) (as_ : list (answer V)) (s : coll V * world)
  : option ((coll V * world) * list (answer V)) :=
  match r as_ with
  | None => Some (s, as_)
  | Some q =>
      match ask q s with
      | Ok s' a => Some (s', as_ ++ [a])
      | Exn s' e => Some (s', as_ ++ [Threw e])
      | UB => None
      end
  end.

(** [n] steps of a single reader. *)
(* nothing in /repo: a thread runs by itself *)
Fixpoint alone (n : nat) (r : reader) (as_ : list (answer V)) (s : coll V * world)
  : option ((coll V * world) * list (answer V)) :=
  match n with
  | O => Some (s, as_)
  | S m =>
      match turn r as_ s with
      | Some (s', as') => alone m r as' s'
      | None => None
      end
  end.

(** Several readers sharing the collection: the schedule tells whose turn it is (readers that do
    not exist are skipped). *)
(* nothing in /repo: threads run, in the order of a schedule *)
Fixpoint together (sched : list nat) (rs : list (reader * list (answer V))) (s : coll V * world)
  : option ((coll V * world) * list (reader * list (answer V))) :=
  match sched with
  | [] => Some (s, rs)
  | i :: sched' =>
      match nth_error rs i with
      | None => together sched' rs s
      | Some (r, as_) =>
          match turn r as_ s with
          | Some (s', as') => together sched' (firstn i rs ++ (r, as') :: skipn (S i) rs) s'
          | None => None
          end
      end
  end.

End Read.
