(** * Why calls may throw

    The complete list of reasons for which a member function of a collection may end in an
    exception. *)

From Coq Require Import List Arith Bool.
From Verif Require Import Base Vec Backend Segment Coll Spec Reach.
Import ListNotations.

Section SpecFail.
Context {V : Type} {E : Env V}.
Notation CW := (coll V * world)%type.

(** A segment for [n] elements of type [t] exceeds a limit: that of the vector of elements, or
    that of the vector of base pointers of the split layout, which may be asked for twice as
    many and one more. *)
Definition too_big (t : tyid) (n : nat) : Prop :=
  env_vmax t < n \/ (env_layout = SplitLayout /\ env_imax < 2 * n + 1).

(** [m] is a call naming the type with the given type_info which does not register it. *)
Definition info_call (m : M CW unit) (a : tiaddr) : Prop :=
  m = c_clear_info a \/ m = c_shrink_info a \/ exists n, m = c_reserve_info a n.
(** [m] asks for room for [n] elements of type [t]. *)
Definition room_call (m : M CW unit) (t : tyid) (n : nat) : Prop :=
  m = c_reserve_all n \/ exists a, env_ty a = t /\ (m = c_reserve_info a n \/ m = c_reserve_type a n).

(** The call [m], inserting the typed values [vals] into [c], may throw [e] between the worlds
    [w] and [w']. *)
Definition cause (m : M CW unit) (c : coll V) (vals : list (tyid * V)) (w w' : world) (e : exn) : Prop :=
  match e with
  | BadAlloc => fault_between w w'
  | UserExn => fault_between w w' /\ exists t, In t (map fst vals) \/ (elems c t <> [] /\ quiet t = false)
  | UnregisteredType t => ~ In t (types c) /\ (In t (map fst vals) \/ (vals = [] /\ exists a, env_ty a = t /\ info_call m a))
  | NotCopyConstructible t => env_copyable t = false /\ (elems c t <> [] \/ In t (map fst vals))
  | NotEqualityComparable _ => False
  | LengthError => exists t n, too_big t n /\
      (n <= 1 + length (elems c t) + length (of_type t vals) \/ room_call m t n)
  end.

(** ** Copying what has no copy constructor *)

(** An argument of type [t] which is to be copied, not moved from. *)
Definition copied (t : tyid) (x : arg V) : Prop := a_how x = HCopy /\ env_ty (a_dyn x) = t.

(** [copies g c t m vals]: the call [m] on [c], whose preconditions hold, is to insert the typed values
    [vals]; among them is one of type [t] that has to be copied: it is given by an lvalue or a const rvalue, by an
    iterator to such, or it is an element of another collection. *)
Inductive copies (g : list (coll V)) (c : coll V) (t : tyid) : M CW unit -> list (tyid * V) -> Prop :=
| copies_insert x v : arg_ok x -> src_c c t (a_how x) (a_src x) v -> copied t x ->
    copies g c t (void (c_insert x)) [(t, v)]
| copies_insert_hint hint i k x v : located c hint i -> hint_at c hint t k -> hint_safe c hint t ->
    arg_ok x -> src_c c t (a_how x) (a_src x) v -> copied t x ->
    copies g c t (void (c_insert_hint hint x)) [(t, v)]
| copies_insert_pos pos k x v : lpoints c pos t k -> src_c c t (a_how x) (a_src x) v -> copied t x ->
    copies g c t (void (c_insert_pos pos x)) [(t, v)]
| copies_range xs l x : Forall2 gives xs l -> In x xs -> copied t x -> copies g c t (c_insert_range xs) l
| copies_range_terminal a fwd xs : env_ty a = t -> xs <> [] ->
    copies g c t (c_insert_range_terminal a HCopy fwd xs) (map (pair t) xs)
| copies_hint_range hint h xs l x : hint_is c hint h -> Forall2 gives xs l -> hsafe h c l -> In x xs -> copied t x ->
    copies g c t (c_insert_hint_range hint xs) l
| copies_hint_range_terminal hint hn a fwd xs : env_ty a = t -> hint_is c hint hn -> hsafe hn c (map (pair t) xs) -> xs <> [] ->
    copies g c t (c_insert_hint_range_terminal hint a HCopy fwd xs) (map (pair t) xs)
| copies_from y first last i j : In y g -> located y first i -> located y last j -> i <= j ->
    In t (map fst (firstn (j - i) (skipn i (flat y)))) ->
    copies g c t (c_insert_from (length (flat y)) y first last) (firstn (j - i) (skipn i (flat y)))
| copies_hint_from hint h y first last i j : hint_is c hint h -> In y g -> located y first i -> located y last j -> i <= j ->
    hsafe h c (firstn (j - i) (skipn i (flat y))) -> In t (map fst (firstn (j - i) (skipn i (flat y)))) ->
    copies g c t (c_insert_hint_from (length (flat y)) hint y first last) (firstn (j - i) (skipn i (flat y)))
| copies_local a xs : env_ty a = t -> xs <> [] -> copies g c t (c_insert_local a t xs) (map (pair t) xs)
| copies_hint_local hint h a xs : env_ty a = t -> hint_is c hint h -> hsafe h c (map (pair t) xs) -> xs <> [] ->
    copies g c t (c_insert_hint_local hint a t xs) (map (pair t) xs)
| copies_pos_range pos k xs vs x : lpoints c pos t k -> Forall2 (gives_at t) xs vs -> In x xs -> a_how x = HCopy ->
    copies g c t (void (c_insert_pos_range pos xs)) (map (pair t) vs)
| copies_lpos_range i p a k xs v : env_ty a = t -> lpoints c (mkliter i (PConc p)) t k -> In (Some t, HCopy, v) xs ->
    copies g c t (void (c_insert_lpos_range i t p xs)) (map (pair t) (map snd xs)).

(** Why an insertion may throw: a failure of memory or of an element operation, a type which is not registered
    and cannot be, a type which is not copyable, or a segment which would become too big. *)
Definition excuse (c : coll V) (vals : list (tyid * V)) (w w' : world) (e : exn) : Prop :=
  match e with
  | BadAlloc => fault_between w w'
  | UserExn => fault_between w w' /\ exists t, In t (map fst vals) \/ (elems c t <> [] /\ quiet t = false)
  | UnregisteredType t => ~ In t (types c) /\ In t (map fst vals)
  | NotCopyConstructible t => env_copyable t = false /\ (elems c t <> [] \/ In t (map fst vals))
  | NotEqualityComparable _ => False
  | LengthError => exists t, too_big t (1 + length (elems c t) + length (of_type t vals))
  end.

End SpecFail.
