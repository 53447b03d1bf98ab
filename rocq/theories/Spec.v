(** * What a collection looks like from outside

    The specification in which the properties are stated.  A collection is seen as an
    ordered list of segments, one per registered type, each with its list of elements.
    Iterators are seen as a type and an index.  Nothing here depends on how the operations
    are implemented; ProofView.v relates these notions to what iterator traversal, size(),
    etc. return. *)

From Coq Require Import List Arith Bool Permutation.
From Verif Require Import Base Vec Backend Segment Coll.
Import ListNotations.

Section Spec.
Context {V : Type} {E : Env V}.

(** The elements of a segment, its type. *)
Definition elems_of (s : segment V) : list V := v_elems (be_store (sg_be s)).

(** The segments in order: types and elements. *)
Definition content (c : coll V) : list (tyid * list V) :=
  map (fun n => (sg_ty (n_seg n), elems_of (n_seg n))) (c_nodes c).

(** The registered types in segment order. *)
Definition types (c : coll V) : list tyid := map fst (content c).

(** The elements of the segment of a type, if there is one. *)
Fixpoint assoc (t : tyid) (l : list (tyid * list V)) : option (list V) :=
  match l with
  | [] => None
  | (t', xs) :: l' => if t' =? t then Some xs else assoc t l'
  end.
Definition seg_of (c : coll V) (t : tyid) : option (list V) := assoc t (content c).
(** ... taking an unregistered type as one without elements *)
Definition elems (c : coll V) (t : tyid) : list V :=
  match seg_of c t with Some l => l | None => [] end.

(** The whole sequence of elements (with their dynamic types), segment by segment. *)
Definition flat (c : coll V) : list (tyid * V) :=
  flat_map (fun e => map (pair (fst e)) (snd e)) (content c).

(** How many elements are of the types whose objects are counted. *)
Definition counted (c : coll V) : nat := length (filter (fun e => env_counted (fst e)) (flat c)).

(** [points c it t k]: the iterator [it] of [c] refers to the [k]-th element of type [t]. *)
Definition points (c : coll V) (it : iter) (t : tyid) (k : nat) : Prop :=
  exists n, In n (c_nodes c) /\ sg_ty (n_seg n) = t /\
    it = mkiter (Some (n_id n)) (be_ptr (sg_be (n_seg n)) k) /\
    k < length (elems_of (n_seg n)).

(** [lpoints c l t k]: the local iterator [l] refers to the [k]-th position of the segment of
    type [t]; the past-the-end position is included. *)
Definition lpoints (c : coll V) (l : liter) (t : tyid) (k : nat) : Prop :=
  exists n, In n (c_nodes c) /\ sg_ty (n_seg n) = t /\ li_map l = n_id n /\
    (li_pos l = PBase (be_ptr (sg_be (n_seg n)) k) \/
     li_pos l = PConc (vptr (be_store (sg_be (n_seg n))) k)) /\
    k <= length (elems_of (n_seg n)).

(** Position of the [k]-th element of type [t] in the whole sequence: the elements of the
    preceding segments come first. *)
Fixpoint offset (l : list (tyid * list V)) (t : tyid) : nat :=
  match l with
  | [] => 0
  | (t', xs) :: l' => if t' =? t then 0 else length xs + offset l' t
  end.

(** [located c it g]: [it] is the [g]-th position of the traversal of [c], the end being
    the last. *)
Definition located (c : coll V) (it : iter) (g : nat) : Prop :=
  (it = c_end c /\ g = length (flat c)) \/
  (exists t k, points c it t k /\ g = offset (content c) t + k).

(** The same collection, with the element sequence of one type replaced. *)
Fixpoint set_assoc (t : tyid) (xs : list V) (l : list (tyid * list V)) : list (tyid * list V) :=
  match l with
  | [] => []
  | (t', ys) :: l' => if t' =? t then (t', xs) :: l' else (t', ys) :: set_assoc t xs l'
  end.

(** The segments after the elements of type [t] became [xs]: a registered type keeps its
    place, a new one may end up anywhere. *)
Definition became (c c' : coll V) (t : tyid) (xs : list V) : Prop :=
  match seg_of c t with
  | Some _ => content c' = set_assoc t xs (content c)
  | None => Permutation (content c') ((t, xs) :: content c)
  end.

(** The segment object of a type: storage, capacity, where its iterators point. *)
Definition seg_at (c : coll V) (t : tyid) : option (segment V) :=
  option_map n_seg (find (fun n => sg_ty (n_seg n) =? t) (c_nodes c)).

(** Capacity and element storage of the segment of a type. *)
Definition cap_of (c : coll V) (t : tyid) : nat :=
  match seg_at c t with Some s => v_cap (be_store (sg_be s)) | None => 0 end.

(** The address of the element storage of a type. *)
Definition data_of (c : coll V) (t : tyid) : option ptr :=
  match seg_at c t with Some s => Some (vptr (be_store (sg_be s)) 0) | None => None end.

(** The address of the [k]-th element of type [t]. *)
Definition addr_of (c : coll V) (t : tyid) (k : nat) : option ptr :=
  match seg_at c t with
  | Some s => if k <? length (elems_of s) then Some (vptr (be_store (sg_be s)) k) else None
  | None => None
  end.

(** Nothing happened, except perhaps that the type [t] was registered. *)
Definition same_but (c c' : coll V) (t : tyid) : Prop :=
  content c' = content c \/ (seg_of c t = None /\ Permutation (content c') ((t, []) :: content c)).

(** Segments of all other types are left alone, storage included. *)
Definition others_kept (c c' : coll V) (t : tyid) : Prop :=
  forall t', t' <> t -> seg_at c' t' = seg_at c t'.

(** Previously obtained iterators and local iterators to the [k]-th position of type [t] still
    refer to it. *)
Definition kept_at (c c' : coll V) (t : tyid) (k : nat) : Prop :=
  (forall it, points c it t k -> points c' it t k) /\ (forall l, lpoints c l t k -> lpoints c' l t k).

(** Previously obtained iterators and local iterators for other types still denote the same
    elements. *)
Definition other_iters_kept (c c' : coll V) (t : tyid) : Prop :=
  forall t' k, t' <> t -> kept_at c c' t' k.

(** Registration of the types [ts]: those not known before get an empty segment; nothing else
    happens (but new segments may end up anywhere). *)
Record registered (c c' : coll V) (ts : list tyid) : Prop := {
  re_types : forall t, In t (types c') <-> In t (types c) \/ In t ts;
  re_content : exists news, Permutation (content c') (map (fun t => (t, [])) news ++ content c);
  re_order : incl ts (types c) -> content c' = content c;
  re_segs : forall t, In t (types c) -> seg_at c' t = seg_at c t;
  re_iters : incl ts (types c) \/ env_rehash_stable = true -> forall t k, kept_at c c' t k;
  re_al : c_al c' = c_al c
}.

(** A question about the segment of type [t]: answered by [Q] without changing anything if the
    type is registered, unregistered_type otherwise. *)
Definition query {A} (m : M (coll V * world) A) (c : coll V) (w : world) (t : tyid) (Q : A -> Prop) : Prop :=
  wp m (c, w)
    (fun s r => s = (c, w) /\ In t (types c) /\ Q r)
    (fun s e => s = (c, w) /\ ~ In t (types c) /\ e = UnregisteredType t).

(** ** Insertion of several elements *)

(** The values of one type in a list of typed values, in order. *)
Definition of_type (t : tyid) (l : list (tyid * V)) : list V :=
  map snd (filter (fun e => fst e =? t) l).

(** Where new elements of type [t] go: at the end, or at the position [k] of the hint if the
    hint [Some (t0, k)] is for that type. *)
Definition slot (h : option (tyid * nat)) (c : coll V) (t : tyid) : nat :=
  match h with
  | Some (t0, k) => if t0 =? t then k else length (elems c t)
  | None => length (elems c t)
  end.

(** [c'] is [c] after inserting the values [l], in this order, with hint [h].  Types that
    are not involved are left alone; segments whose capacity suffices are not moved and
    the iterators to elements before the insertion point keep working (unless the creation
    of a segment rehashes the map and that invalidates its iterators). *)
Record grew (h : option (tyid * nat)) (c c' : coll V) (l : list (tyid * V)) : Prop := {
  g_elems : forall t, elems c' t = firstn (slot h c t) (elems c t) ++ of_type t l ++
                                   skipn (slot h c t) (elems c t);
  g_types : forall t, In t (types c') <-> In t (types c) \/ In t (map fst l);
  g_order : incl (map fst l) (types c) -> types c' = types c;
  g_other : forall t, ~ In t (map fst l) -> seg_at c' t = seg_at c t;
  g_cap : forall t, In t (types c) -> length (elems c' t) <= cap_of c t -> cap_of c' t = cap_of c t;
  g_data : forall t, In t (types c) -> length (elems c' t) <= cap_of c t -> data_of c' t = data_of c t;
  g_stable : forall t j, length (elems c' t) <= cap_of c t -> j < slot h c t ->
      addr_of c' t j = addr_of c t j;
  g_iters : incl (map fst l) (types c) \/ env_rehash_stable = true ->
      forall t j, length (elems c' t) <= cap_of c t -> j < slot h c t -> kept_at c c' t j;
  g_oiters : incl (map fst l) (types c) \/ env_rehash_stable = true ->
      forall t j, ~ In t (map fst l) -> kept_at c c' t j
}.

(** ** Arguments of calls *)

(** An expression of a terminal type (a final class, say): its static type is the dynamic
    type. *)
Definition arg_ok (x : arg V) : Prop := a_terminal x = true -> env_ty (a_static x) = env_ty (a_dyn x).

(** The value of the new element of type [t], constructed as [h] says: given, or that of an
    element of the collection, which is not moved from (moving own elements: Properties21.v) and
    which split segments only support when they need not grow. *)
Definition src_c (c : coll V) (t : tyid) (h : how) (x : src V) (v : V) : Prop :=
  x = SVal v \/
  exists k p, addr_of c t k = Some p /\ x = SRef p /\ h <> HMove /\ nth_error (elems c t) k = Some v /\
    (env_layout = SplitLayout -> length (elems c t) < cap_of c t).

(** The arguments give the typed values [l]; ... values for a segment of type [t]. *)
Definition gives (x : arg V) (tv : tyid * V) : Prop :=
  env_ty (a_dyn x) = fst tv /\ a_src x = SVal (snd tv) /\ arg_ok x.
Definition gives_at t (x : arg V) (v : V) : Prop := env_ty (a_dyn x) = t /\ a_src x = SVal v.

(** Where a hint makes an element of type [t] go. *)
Definition hint_at (c : coll V) (hint : iter) (t : tyid) (k : nat) : Prop :=
  points c hint t k \/ ((forall j, ~ points c hint t j) /\ k = length (elems c t)).

(** The hint is not invalidated by the creation of a segment for type [t]. *)
Definition hint_safe (c : coll V) (hint : iter) (t : tyid) : Prop :=
  hint = c_end c \/ In t (types c) \/ env_rehash_stable = true.

(** [hint_is c hint h]: [hint] is end() if [h] is [None], and refers to the [k]-th element of
    type [t] if [h] is [Some (t, k)]. *)
Definition hint_is (c : coll V) (hint : iter) (h : option (tyid * nat)) : Prop :=
  match h with None => hint = c_end c | Some (t, k) => points c hint t k end.
(** The hint stays valid while elements of the types of [l] are inserted. *)
Definition hsafe (h : option (tyid * nat)) (c : coll V) (l : list (tyid * V)) : Prop :=
  h = None \/ incl (map fst l) (types c) \/ env_rehash_stable = true.

(** ** Failure *)

(** The type of the argument is not registered, and an insertion cannot register it: the
    static type differs, or cannot be stored. *)
Definition unregistrable (c : coll V) (x : arg V) : Prop :=
  ~ In (env_ty (a_dyn x)) (types c) /\
  (a_acceptable x = false \/ (a_terminal x = false /\ env_ty (a_dyn x) <> env_ty (a_static x))).

(** Moving elements of the type within their storage cannot throw. *)
Definition quiet (t : tyid) : bool :=
  env_nt_move t && (if env_assignable t then env_nt_assign t else true).

(** Why inserting [m] elements into a segment of type [t] with [n] elements may throw: an
    allocation fails, or a constructor (or assignment) of the element type which is not known not to throw; elements which
    cannot be copied have to; a size limit is exceeded. *)
Definition threw (t : tyid) (h : how) (n m : nat) (w w' : world) (e : exn) : Prop :=
  ((e = BadAlloc \/ (e = UserExn /\ (h <> HMove \/ quiet t = false))) /\ (exists k, w_clock w <= k < w_clock w' /\ env_fault k = true)) \/
  (e = NotCopyConstructible t /\ env_copyable t = false /\
     (h = HCopy \/ (env_nt_move t = false /\ 0 < n + m))) \/
  (e = LengthError /\
     (env_vmax t < n + m \/ (env_layout = SplitLayout /\ env_imax < 2 * (n + m) + 1))).

(** The situations in which a failing insertion of an element of type [t] at index [k] is
    known to do no harm. *)
Definition safe_at (c : coll V) (t : tyid) (k : nat) : Prop :=
  match env_layout with
  | PackedLayout => k = length (elems c t) \/ quiet t = true \/ length (elems c t) = cap_of c t
  | SplitLayout => length (elems c t) < cap_of c t /\ 2 <= cap_of c t /\
                   (k = length (elems c t) \/ quiet t = true)
  end.

(** The same for the insertion of a range of one type: in a base_collection, and if the iterators
    of the range are forward iterators, nothing changes when the memory cannot be had or there would
    be too many elements. *)
Definition many_safe (fwd : bool) (e : exn) : Prop :=
  env_layout = PackedLayout /\ fwd = true /\ (e = BadAlloc \/ e = LengthError).

(** The same for insertions of the values [l], one by one, with hint [h]: the elements at the hint
    need not be moved or are moved without exceptions, and the segments of an any_collection or
    function_collection have room for all. *)
Definition range_safe (h : option (tyid * nat)) (c : coll V) (l : list (tyid * V)) : Prop :=
  (forall t k, h = Some (t, k) -> In t (map fst l) -> quiet t = true) /\
  (env_layout = SplitLayout -> forall t, In t (map fst l) ->
     2 <= cap_of c t /\ length (elems c t) + length (of_type t l) <= cap_of c t).

(** An element [v] of type [t] was inserted at index [k] of its segment. *)
Record inserted (c c' : coll V) (t : tyid) (k : nat) (v : V) : Prop := {
  in_became : became c c' t (insert_at k v (elems c t));
  in_others : others_kept c c' t;
  in_iters : In t (types c) \/ env_rehash_stable = true -> other_iters_kept c c' t;
  in_grew : grew (Some (t, k)) c c' [(t, v)];
  in_al : c_al c' = c_al c
}.

(** Inserting [m] elements of type [t] failed: whatever happened is confined to the segment
    of that type (which may have been created) and to the new elements. *)
Record harmed (c c' : coll V) (t : tyid) (m : nat) : Prop := {
  hm_types : types c' = types c \/ (~ In t (types c) /\ Permutation (types c') (t :: types c));
  hm_others : others_kept c c' t;
  hm_iters : In t (types c) \/ env_rehash_stable = true -> other_iters_kept c c' t;
  hm_size : length (elems c t) <= length (elems c' t) <= length (elems c t) + m;
  hm_al : c_al c' = c_al c
}.

(** Nothing happened, except perhaps that the type [t] was registered: contents, storage and
    iterators are what they were. *)
Record rolled_back (c c' : coll V) (t : tyid) : Prop := {
  rb_same : same_but c c' t;
  rb_segs : forall t', In t' (types c) -> seg_at c' t' = seg_at c t';
  rb_iters : In t (types c) \/ env_rehash_stable = true -> forall t' k, kept_at c c' t' k;
  rb_al : c_al c' = c_al c
}.

(** Nothing happened at all, as far as users can see: same contents in the same order, same
    storage, and all iterators mean what they did. *)
Record unchanged (c c' : coll V) : Prop := {
  u_content : content c' = content c;
  u_segs : forall t, seg_at c' t = seg_at c t;
  u_points : forall it t k, points c' it t k <-> points c it t k;
  u_lpoints : forall l t k, lpoints c' l t k <-> lpoints c l t k;
  u_al : c_al c' = c_al c
}.

(** A failed insertion of one element of type [t] at index [k]: what is left, why it can have
    thrown, and when nothing was changed. *)
Definition refused (c c' : coll V) (w w' : world) (t : tyid) (h : how) (k : nat) (e : exn) : Prop :=
  harmed c c' t 1 /\ threw t h (length (elems c t)) 1 w w' e /\ (safe_at c t k -> rolled_back c c' t).

(** Failure of an insertion through a reference, whose dynamic type need not be known. *)
Definition rejected (c c' : coll V) (w w' : world) (x : arg V) (k : nat) (e : exn) : Prop :=
  (unregistrable c x /\ e = UnregisteredType (env_ty (a_dyn x)) /\ unchanged c c') \/
  (~ unregistrable c x /\ refused c c' w w' (env_ty (a_dyn x)) (a_how x) k e).

(** How insert(pos,first,last) at a local_iterator<T> makes an element: what is a T already is
    copied or moved, anything else is used to construct a T. *)
Definition way (t : tyid) (x : option tyid * how * V) : how :=
  let '(ot, h, _) := x in if match ot with Some t' => t' =? t | None => false end then h else HEmplace.

(** A range insertion of the values [l] with hint [h] broke off: the elements [pre] before the
    culprit have been inserted, giving [c1], and inserting the culprit failed as above. [xs]
    are the arguments if they are references whose types need not be known; [hs] tells how each
    element is made (by copy, by move or otherwise). *)
Definition broke_off (xs : list (arg V)) (hs : list how) (h : option (tyid * nat)) (c c' : coll V) (w w' : world)
  (l : list (tyid * V)) (e : exn) : Prop :=
  c_al c' = c_al c /\
  exists pre t v post c1, l = pre ++ (t, v) :: post /\ grew h c c1 pre /\
    ((exists hw, nth_error hs (length pre) = Some hw /\ harmed c1 c' t 1 /\ threw t hw (length (elems c1 t)) 1 w w' e /\
        (safe_at c1 t (slot h c t + length (of_type t pre)) -> rolled_back c1 c' t)) \/
     (exists x, nth_error xs (length pre) = Some x /\ env_ty (a_dyn x) = t /\ unregistrable c1 x /\
        e = UnregisteredType t /\ unchanged c1 c')).

(** [c'] is [c] with the first of the values [l], but not all, inserted at hint [h]. *)
Definition first_ones (h : option (tyid * nat)) (c c' : coll V) (l : list (tyid * V)) : Prop :=
  exists pre post, l = pre ++ post /\ post <> [] /\
    forall t, elems c' t = firstn (slot h c t) (elems c t) ++ of_type t pre ++ skipn (slot h c t) (elems c t).

(** ** Erasure *)

(** [c'] is [c] without the elements at positions [i], ..., [j-1] of the whole sequence.  The
    storage is not moved. *)
Record cut (c c' : coll V) (i j : nat) : Prop := {
  cut_types : types c' = types c;
  cut_flat : flat c' = remove_range i j (flat c);
  cut_elems : forall t, elems c' t =
      remove_range (i - offset (content c) t) (j - offset (content c) t) (elems c t);
  cut_cap : forall t, cap_of c' t = cap_of c t;
  cut_data : forall t, data_of c' t = data_of c t;
  cut_stable : forall t k, k < length (elems c' t) -> addr_of c' t k = addr_of c t k;
  cut_iters : forall t k, k < length (elems c' t) \/ length (elems c' t) = length (elems c t) -> kept_at c c' t k;
  cut_al : c_al c' = c_al c
}.

(** Something external failed between the two worlds. *)
Definition fault_between (w w' : world) : Prop :=
  exists k, w_clock w <= k < w_clock w' /\ env_fault k = true.

(** An erasure in the segment of type [t] threw: an assignment of the element type failed.
    Other segments are not affected. *)
Definition erase_threw (c c' : coll V) (w w' : world) (t : tyid) (e : exn) : Prop :=
  types c' = types c /\ others_kept c c' t /\ other_iters_kept c c' t /\
  length (elems c' t) = length (elems c t) /\ c_al c' = c_al c /\
  e = UserExn /\ fault_between w w' /\ env_assignable t = true /\ env_nt_assign t = false /\ 1 < length (elems c t).

(** Erasing the range that starts at position [i] of the whole sequence and ends before [last]
    threw: everything before the segment of [last] had been erased, giving [c1], when an
    assignment within that segment failed. *)
Definition erase_broke_off (c c' : coll V) (w w' : world) (i : nat) (last : iter) (e : exn) : Prop :=
  exists t k c1 w1, points c last t k /\ cut c c1 i (Nat.max i (offset (content c) t)) /\
    w_clock w <= w_clock w1 /\ erase_threw c1 c' w1 w' t e.

(** ** What a call may bring in *)

(** Every element of [c'] was in [c], in the segment of the same type, or is one of the typed
    values [l] (counting repetitions); elements are dropped only if nothing is inserted. *)
Definition conserved (c c' : coll V) (l : list (tyid * V)) : Prop :=
  forall t, exists same gone, Permutation (elems c t) (same ++ gone) /\
    Permutation (elems c' t) (same ++ of_type t l) /\ (l = [] \/ gone = []).

(** ** Capacity *)

(** Contents are kept; capacities went up to at least [n] for the types [P], exactly where
    needed; segments with enough capacity were not touched. *)
Record reserved (c c' : coll V) (n : nat) (P : tyid -> Prop) : Prop := {
  rs_content : content c' = content c;
  rs_cap : forall t, In t (types c) -> P t -> cap_of c' t = Nat.max (cap_of c t) n;
  rs_stable : forall t, (P t -> n <= cap_of c t) -> cap_of c' t = cap_of c t /\
      (forall k, addr_of c' t k = addr_of c t k) /\
      (forall k, elems c t <> [] \/ ~ P t -> kept_at c c' t k);
  rs_data : forall t, (P t -> n <= cap_of c t) -> data_of c' t = data_of c t;
  rs_al : c_al c' = c_al c
}.

(** Why reserving room for [n] elements of type [t] may throw. *)
Definition reserve_threw (c : coll V) (t : tyid) (n : nat) (w w' : world) (e : exn) : Prop :=
  ((e = BadAlloc \/ (e = UserExn /\ env_nt_move t = false /\ elems c t <> [])) /\ fault_between w w') \/
  (e = NotCopyConstructible t /\ env_copyable t = false /\ env_nt_move t = false /\ elems c t <> []) \/
  (e = LengthError /\ (env_vmax t < n \/ (env_layout = SplitLayout /\ env_imax < n + 1))).

(** Creating a segment for type [t] may throw for these reasons. *)
Definition make_threw (t : tyid) (w w' : world) (e : exn) : Prop :=
  (e = BadAlloc /\ fault_between w w') \/
  (e = LengthError /\ env_layout = SplitLayout /\ (env_vmax t < 1 \/ env_imax < 1)).

(** Contents are kept, capacities did not grow. *)
Record shrunk (c c' : coll V) (P : tyid -> Prop) : Prop := {
  sh_content : content c' = content c;
  sh_cap : forall t, cap_of c' t <= cap_of c t;
  sh_others : forall t, ~ P t -> seg_at c' t = seg_at c t;
  sh_iters : forall t k, ~ P t -> kept_at c c' t k;
  sh_al : c_al c' = c_al c
}.

(** The segments of the types [P] were emptied; the storage stays. *)
Record wiped (c c' : coll V) (P : tyid -> Prop) : Prop := {
  wi_types : types c' = types c;
  wi_elems : forall t, P t -> elems c' t = [];
  wi_others : forall t, ~ P t -> seg_at c' t = seg_at c t;
  wi_cap : forall t, cap_of c' t = cap_of c t;
  wi_data : forall t, data_of c' t = data_of c t;
  wi_iters : forall t k, ~ P t -> kept_at c c' t k;
  wi_al : c_al c' = c_al c
}.

(** Why [shrink_to_fit] may throw on the segment of type [t]. *)
Definition shrink_threw (c : coll V) (t : tyid) (w w' : world) (e : exn) : Prop :=
  ((e = BadAlloc \/ (e = UserExn /\ env_nt_move t = false /\ elems c t <> [])) /\ fault_between w w') \/
  (e = NotCopyConstructible t /\ env_copyable t = false /\ env_nt_move t = false /\ elems c t <> []) \/
  (e = LengthError /\ env_layout = SplitLayout /\ env_imax < 2).

(** ** Equality *)

(** Equal sequences of elements of a type. *)
Definition veqs (t : tyid) : list V -> list V -> Prop := Forall2 (fun a b => env_veq t a b = true).
(** The two collections hold equal sequences of elements of each type. *)
Definition coll_eq (x y : coll V) : Prop := forall t, veqs t (elems x t) (elems y t).

(** Why comparing [x] and [y] may throw: a comparison of elements does, or non-comparable
    elements have to be compared. *)
Definition equal_threw (x y : coll V) (w w' : world) (e : exn) : Prop :=
  (e = UserExn /\ fault_between w w' /\ exists t, env_eqcomp t = true /\ elems x t <> [] /\ length (elems x t) = length (elems y t)) \/
  (exists t, e = NotEqualityComparable t /\ env_eqcomp t = false /\
     elems x t <> [] /\ length (elems x t) = length (elems y t)).

(** ** Copies *)

(** Same types, same elements; the order of the segments may differ. *)
Definition same_content (c c' : coll V) : Prop :=
  Permutation (content c') (content c) /\ forall t, seg_of c' t = seg_of c t.

(** Why building a copy of the segments of [x] (by copying or by moving the elements) may
    throw. *)
Definition copy_threw (copying : bool) (x : coll V) (w w' : world) (e : exn) : Prop :=
  ((e = BadAlloc \/ (e = UserExn /\ exists t, elems x t <> [] /\ (copying = true \/ env_nt_move t = false))) /\ fault_between w w') \/
  (copying = true /\ exists t, e = NotCopyConstructible t /\ env_copyable t = false /\ elems x t <> []) \/
  (e = LengthError /\ env_layout = SplitLayout /\
     exists t, In t (types x) /\ (env_vmax t < 1 \/ env_imax <= length (elems x t))).

(** The two collections share no storage: their elements are in different memory blocks. *)
Definition separate (x y : coll V) : Prop :=
  forall t k p t' k' p', addr_of x t k = Some p -> addr_of y t' k' = Some p' -> fst p <> fst p'.

(** Nothing in it and nothing registered. *)
Definition blank (c : coll V) : Prop := content c = [].

End Spec.
