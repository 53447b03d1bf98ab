(** * Memory cells and histories of single elements

    The vocabulary in which the properties of value_holder and allocator_adaptor are stated. *)

From Coq Require Import List Arith Lia Bool.
From Verif Require Import Base Holder.
Import ListNotations.

Section SpecHold.
Context {V : Type}.

(** The [length xs] cells from [a] on hold the values [xs]. *)
Definition holds (s : hst V) (a : nat) (xs : list V) : Prop :=
  forall i, i < length xs -> h_mem s (a + i) = nth_error xs i.
(** The [n] cells from [a] on hold objects, whatever their values. *)
Definition alive_cells (s : hst V) (a n : nat) : Prop := forall i, i < n -> h_mem s (a + i) <> None.
(** The [n] cells from [a] on hold no object. *)
Definition vacant (s : hst V) (a n : nat) : Prop := forall i, i < n -> h_mem s (a + i) = None.
(** The cells other than the [n] ones from [a] on are as before. *)
Definition elsewhere (s s' : hst V) (a n : nat) : Prop :=
  forall b, ~ (a <= b < a + n) -> h_mem s' b = h_mem s b.
(** ... other than those and the [m] ones from [b] on *)
Definition elsewhere2 (s s' : hst V) (a n b m : nat) : Prop :=
  forall c, ~ (a <= c < a + n) -> ~ (b <= c < b + m) -> h_mem s' c = h_mem s c.
(** The cells from [a] to [a+n] and those from [b] to [b+m] are different. *)
Definition apart (a n b m : nat) : Prop := a + n <= b \/ b + m <= a.

End SpecHold.

Section Causes.
Context {V : Type} {E : Env V} (t : tyid).

(** Which types can be stored: is_move_assignable or is_nothrow_move_constructible. *)
Definition storable : Prop := env_assignable t = true \/ env_nt_move t = true.

(** The argument of a construction denotes the value [x]. *)
Definition gives (s : hst V) (r : hsrc V) (x : V) : Prop :=
  match r with CopyT b | MoveT b | CopyH b | MoveH b => h_mem s b = Some x | Emplacing y => y = x end.
(** The cell it moves from. *)
Definition robs (r : hsrc V) (c : nat) : Prop :=
  match r with MoveT b | MoveH b => b = c | _ => False end.
(** Does it copy? *)
Definition copies (r : hsrc V) : bool := match r with CopyT _ | CopyH _ => true | _ => false end.
Definition moves (r : hsrc V) : bool := match r with MoveT _ | MoveH _ => true | _ => false end.

(** A range of objects that are copied ([cp]) or moved from. *)
Definition reads (cp : bool) (f : nat -> hsrc V) : Prop :=
  if cp then f = CopyT \/ f = CopyH else f = MoveT \/ f = MoveH.

(** Why an assignment may throw. *)
Definition assign_threw (e : exn) : Prop := e = UserExn /\ env_assignable t = true /\ env_nt_assign t = false.

(** Why a construction may throw. *)
Definition built_threw (cp : bool) (e : exn) : Prop :=
  (e = UserExn \/ e = NotCopyConstructible t /\ cp = true /\ env_copyable t = false) /\ (cp = false -> env_nt_move t = false).

(** Why shifting elements may throw. *)
Definition shift_threw (e : exn) : Prop := e = UserExn /\ env_nt_move t = false \/ assign_threw e.
(** Why constructing the new element may throw. *)
Definition made_threw (r : hsrc V) (e : exn) : Prop :=
  (e = UserExn \/ e = NotCopyConstructible t /\ copies r = true /\ env_copyable t = false) /\
  (moves r = true -> env_nt_move t = false).

End Causes.

Section History.
Context {V : Type} {E : Env V} (t : tyid) (al : alid).

(** A history: any sequence of the operations a container performs (Holder.v), each of which may
    return or throw.  [slot] are the cells of the storage of the container: there, objects are
    constructed and destroyed through the allocator; elsewhere live the container's local
    objects and the objects of others. *)
Definition proper (slot : nat -> Prop) (o : cop (V := V)) : Prop :=
  match o with
  | o_construct a _ | o_destroy a => slot a
  | o_local a _ | o_local_end a => ~ slot a
  | _ => True
  end.

Inductive history (slot : nat -> Prop) : hst V -> hst V -> Prop :=
| y_nil s : history slot s s
| y_ok s s1 s' o : proper slot o -> perform t al o s = Ok s1 tt -> history slot s1 s' -> history slot s s'
| y_exn s s1 s' o e : proper slot o -> perform t al o s = Exn s1 e -> history slot s1 s' -> history slot s s'.

(** The events of the cell [a], in order. *)
Definition of_cell (a : nat) (e : event) : bool :=
  match e with Made _ b | Ended _ b => b =? a | _ => false end.
Definition events_at (a : nat) (l : list event) : list event := filter (of_cell a) l.

(** The calls of the allocator's construct and destroy. *)
Definition by_allocator (e : event) : bool :=
  match e with
  | Made (Through _) _ | Ended (Through _) _ | Built (Through _) _ | Wiped (Through _) => true
  | _ => false
  end.

(** [k] complete lives, through the allocator [al], of objects in the cell [a]. *)
Fixpoint lives (a k : nat) : list event :=
  match k with 0 => [] | S k' => Made (Through al) a :: Ended (Through al) a :: lives a k' end.
(** ... and the one that has begun, if the cell holds an object *)
Definition lives_and (s : hst V) (a k : nat) : list event :=
  lives a k ++ (if h_mem s a then [Made (Through al) a] else []).

(** Constructions and destructions, whoever does them: [k] lifetimes. *)
Definition is_made (e : event) : bool := match e with Made _ _ => true | _ => false end.
Fixpoint lifetimes (k : nat) : list bool := match k with 0 => [] | S k' => true :: false :: lifetimes k' end.

End History.
