(** * The right answers to the questions of Read.v, in terms of the elements *)

From Coq Require Import List Arith.
From Verif Require Import Base Vec Backend Segment Coll Info Spec SpecInfo Read.
Import ListNotations.

Section SpecRead.
Context {V : Type} {E : Env V}.

(** Questions about the segment of a type: an answer if the type is registered, otherwise unregistered_type with that type. *)
Definition of_type (c : coll V) (a : tiaddr) (r : answer V) (P : Prop) : Prop :=
  (In (env_ty a) (types c) /\ P) \/ (~ In (env_ty a) (types c) /\ r = Threw (UnregisteredType (env_ty a))).

(** a segment_info_iterator at the first of the types [ts], or at the end if there is none *)
Definition trav_at (c : coll V) (m : mapit) (ts : list tyid) : Prop :=
  match ts with [] => m = trav_end c | t :: _ => describes c (trav_deref m) t end.

(** local_base_iterator or local_iterator<T> *)
Definition based (l : liter) : Prop := exists p, li_pos l = PBase p.

(** [right c q r]: [r] is what question [q] about [c] is to be answered with. *)
Definition right (c : coll V) (q : question) (r : answer V) : Prop :=
  match q with
  | Registered a => exists b, r = Bool b /\ (b = true <-> In (env_ty a) (types c))
  | Size => r = Nat (length (flat c))
  | Empty => exists b, r = Bool b /\ (b = true <-> flat c = [])
  | SizeOf a => of_type c a r (r = Nat (length (elems c (env_ty a))))
  | EmptyOf a => of_type c a r (exists b, r = Bool b /\ (b = true <-> elems c (env_ty a) = []))
  | MaxSizeOf a => of_type c a r (exists n, r = Nat n /\ cap_of c (env_ty a) <= n + 1)
  | CapacityOf a => of_type c a r (r = Nat (cap_of c (env_ty a)) /\ length (elems c (env_ty a)) <= cap_of c (env_ty a))
  | Begin => exists it, r = Pos it /\ located c it 0
  | End => exists it, r = Pos it /\ located c it (length (flat c))
  | BeginOf a => of_type c a r (exists l, r = LPos l /\ based l /\ lpoints c l (env_ty a) 0)
  | EndOf a => of_type c a r (exists l, r = LPos l /\ based l /\ lpoints c l (env_ty a) (length (elems c (env_ty a))))
  | Segment a => of_type c a r (exists i, r = Info i /\ describes c i (env_ty a))
  | InfoType i => forall t, describes c i t -> exists a, r = TypeInfo a /\ env_ty a = t
  | InfoBegin i => forall t, describes c i t -> exists l, r = LPos l /\ based l /\ lpoints c l t 0
  | InfoEnd i => forall t, describes c i t -> exists l, r = LPos l /\ based l /\ lpoints c l t (length (elems c t))
  | TravBegin => exists m, r = MapPos m /\ trav_at c m (types c)
  | TravNext m => forall t, describes c (trav_deref m) t -> exists m' before after, r = MapPos m' /\ types c = before ++ t :: after /\ trav_at c m' after
  | Deref it => forall i, located c it i -> exists x, r = Elem x /\ nth_error (flat c) i = Some x
  | Next it => forall i, located c it i -> exists it', r = Pos it' /\ located c it' (1 + i)
  | LDeref l => forall t k, lpoints c l t k -> exists v, r = Elem (t, v) /\ nth_error (elems c t) k = Some v
  | LNext l => forall t k, lpoints c l t k -> exists l', r = LPos l' /\ lpoints c l' t (1 + k) /\ (based l' <-> based l)
  | ToConc l => forall t k, lpoints c l t k -> exists l', r = LPos l' /\ lpoints c l' t k /\ ~ based l'
  | ToBase l => forall t k, lpoints c l t k -> exists l', r = LPos l' /\ lpoints c l' t k /\ based l'
  end.

End SpecRead.
