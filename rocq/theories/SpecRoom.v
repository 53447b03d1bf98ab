(** * What the property about insertion into reserved room says (C78) *)

From Coq Require Import List Arith Bool.
From Verif Require Import Base Vec Backend Segment Coll Spec Reach.
Import ListNotations.

Section SpecRoom.
Context {V : Type} {E : Env V}.
Notation CW := (coll V * world)%type.

(** No memory has been obtained or given back: the same blocks are in use and no other has ever been handed out. *)
Definition same_memory (w w' : world) : Prop := w_live w' = w_live w /\ w_next w' = w_next w.

(** The exception is not about memory or sizes. *)
Definition not_memory (e : exn) : Prop := e <> BadAlloc /\ e <> LengthError.

(** The collection has met this type_info object: a non-const call about the type, with this very object, has been made before. *)
Definition known (c : coll V) (a : tiaddr) : Prop := exists m, cache_find (c_cache c) a = Some m.
(** The same for the object which inserting [x] looks up.  (If the static type cannot be stored the look-up is a const one.) *)
Definition known_arg (c : coll V) (x : arg V) : Prop :=
  if a_acceptable x then known c (if a_terminal x then a_static x else a_dyn x) else In (env_ty (a_dyn x)) (types c).

(** There is room for the values [l]: each segment has the capacity.  (In an any_collection or function_collection, capacities
    below 2 do not count.) *)
Definition room (c : coll V) (l : list (tyid * V)) : Prop :=
  forall t, In t (map fst l) -> length (elems c t) + length (of_type t l) <= cap_of c t /\ (env_layout = SplitLayout -> 2 <= cap_of c t).

(** The calls which insert the values [l] into existing segments, or erase. *)
Inductive light (c : coll V) : M CW unit -> list (tyid * V) -> Prop :=
| lt_emplace a x v : known c a -> src_c c (env_ty a) HEmplace x v -> light c (void (c_emplace a x)) [(env_ty a, v)]
| lt_emplace_hint hint i k a x v : known c a -> located c hint i -> hint_at c hint (env_ty a) k -> hint_safe c hint (env_ty a) ->
    src_c c (env_ty a) HEmplace x v -> light c (void (c_emplace_hint hint a x)) [(env_ty a, v)]
| lt_emplace_pos pos k a x v : lpoints c pos (env_ty a) k -> src_c c (env_ty a) HEmplace x v ->
    light c (void (c_emplace_pos pos a x)) [(env_ty a, v)]
| lt_insert x v : known_arg c x -> arg_ok x -> src_c c (env_ty (a_dyn x)) (a_how x) (a_src x) v ->
    light c (void (c_insert x)) [(env_ty (a_dyn x), v)]
| lt_insert_hint hint i k x v : known_arg c x -> located c hint i -> hint_at c hint (env_ty (a_dyn x)) k -> hint_safe c hint (env_ty (a_dyn x)) ->
    arg_ok x -> src_c c (env_ty (a_dyn x)) (a_how x) (a_src x) v -> light c (void (c_insert_hint hint x)) [(env_ty (a_dyn x), v)]
| lt_insert_pos pos k x v : lpoints c pos (env_ty (a_dyn x)) k -> src_c c (env_ty (a_dyn x)) (a_how x) (a_src x) v ->
    light c (void (c_insert_pos pos x)) [(env_ty (a_dyn x), v)]
| lt_range a h xs : known c a -> light c (c_insert_range_terminal a h true xs) (map (pair (env_ty a)) xs)
| lt_erase pos t k : points c pos t k -> light c (void (c_erase pos)) []
| lt_erase_local pos t k : lpoints c pos t k -> k < length (elems c t) -> light c (void (c_erase_local pos)) []
| lt_erase_range first last i j : located c first i -> located c last j -> i <= j -> light c (void (c_erase_range first last)) []
| lt_erase_local_range first last t f l : lpoints c first t f -> lpoints c last t l -> f <= l -> light c (void (c_erase_local_range first last)) []
| lt_clear : light c c_clear []
| lt_clear_info a : light c (c_clear_info a) [].

(** Such calls one after the other, each of which returns; [l]: all the values inserted. *)
Inductive lights : list (tyid * V) -> CW -> CW -> Prop :=
| ls_nil s : lights [] s s
| ls_cons c w m l c1 w1 l' s : light c m l -> m (c, w) = Ok (c1, w1) tt -> lights l' (c1, w1) s -> lights (l ++ l') (c, w) s.
End SpecRoom.
