(** * Histories and what they must leave

    A machine working on nothing but types, indexes and values: a collection is a partial map
    from types to sequences, and a history is a list of actions on numbered collections.
    [performs] says which calls of the library carry out an action; [history] runs them. *)

From Coq Require Import List Arith Bool Permutation.
From Verif Require Import Base Vec Backend Segment Coll Spec Reach.
Import ListNotations.

Section Machine.
Context {V : Type}.

(** The elements of each registered type. *)
Definition bag : Type := tyid -> option (list V).
Definition none : bag := fun _ => None.
Definition els (b : bag) (t : tyid) : list V := match b t with Some l => l | None => [] end.
Definition has (b : bag) (t : tyid) : bool := match b t with Some _ => true | None => false end.

Definition mem (t : tyid) (ts : list tyid) : bool := existsb (Nat.eqb t) ts.

(** What is done to one collection. *)
Inductive cmd : Type :=
| Register (ts : list tyid)                     (* register types *)
| Put (h : option (tyid * nat)) (l : list (tyid * V))  (* append typed values, or put them at a hint *)
| PutBulk (h : option (tyid * nat)) (t : tyid) (vs : list V)  (* ... values of one type in a single step *)
| PutFrom (h : option (tyid * nat)) (j : nat)   (* ... all elements of the j-th collection *)
| PutAt (t : tyid) (k : nat) (vs : list V)      (* insert values before the k-th element of type t *)
| Erase (t : tyid) (f l : nat)                  (* erase the elements f, ..., l-1 of type t *)
| Clear
| ClearType (t : tyid)
| ReserveType (t : tyid)                        (* reserve room; registers the type *)
| Tune                                          (* change capacities only *)
| Shrink                                        (* ... by giving back unused room *)
| Write (f : tyid -> nat -> V -> V).            (* assign new values to elements *)

Inductive act : Type :=
| New                                           (* a new collection, put in front *)
| Make (l : list (tyid * V))                    (* ... built from a range of values *)
| Copy (j : nat)                                (* ... copied *)
| Take (j : nat)                                (* ... moved from the j-th, which is left empty *)
| On (i : nat) (c : cmd)
| Assign (i j : nat)
| MoveAssign (i j : nat)                        (* the j-th is no longer used *)
| Swap (i j : nat)
| Fail (i : nat)                                (* a call throws; the i-th is no longer used *)
| Try (i : nat) (c : cmd)                       (* a call to carry out c throws; the i-th stays in use *)
| TryClear (i : nat) (c : cmd)                  (* ... and is cleared *)
| Drop (i : nat)                                (* destruction *)
| Idle.                                         (* nothing that shows *)

Definition bslot (h : option (tyid * nat)) (b : bag) (t : tyid) : nat :=
  match h with
  | Some (t0, k) => if t0 =? t then k else length (els b t)
  | None => length (els b t)
  end.
Definition hint_fits (h : option (tyid * nat)) (b : bag) : bool :=
  match h with Some (t, k) => k <? length (els b t) | None => true end.

(** [vs t] go into the segment of type [t] at the slot; the types [P] get registered. *)
Definition filled (h : option (tyid * nat)) (vs : tyid -> list V) (P : tyid -> bool) (b : bag) : bag := fun t =>
  if has b t || P t
  then Some (firstn (bslot h b t) (els b t) ++ vs t ++ skipn (bslot h b t) (els b t))
  else None.

Definition update (t : tyid) (xs : list V) (b : bag) : bag := fun u => if u =? t then Some xs else b u.

(** The effect of a command on a collection, given all of them; [None] if its precondition
    does not hold. *)
Definition obey (bs : list bag) (i : nat) (c : cmd) (b : bag) : option bag :=
  match c with
  | Register ts => Some (filled None (fun _ => []) (fun t => mem t ts) b)
  | Put h l => if hint_fits h b then Some (filled h (fun t => of_type t l) (fun t => mem t (map fst l)) b) else None
  | PutBulk h t vs =>
      if hint_fits h b then Some (filled h (fun u => if u =? t then vs else []) (fun u => (u =? t) && negb (length vs =? 0)) b) else None
  | PutFrom h j =>
      if (j =? i) then None else
      match nth_error bs j with
      | Some y => if hint_fits h b then Some (filled h (els y) (fun t => negb (length (els y t) =? 0)) b) else None
      | None => None
      end
  | PutAt t k vs =>
      if has b t && (k <=? length (els b t))
      then Some (update t (firstn k (els b t) ++ vs ++ skipn k (els b t)) b) else None
  | Erase t f l =>
      if has b t && (f <=? l) && (l <=? length (els b t))
      then Some (update t (firstn f (els b t) ++ skipn l (els b t)) b) else None
  | Clear => Some (fun t => if has b t then Some [] else None)
  | ClearType t => if has b t then Some (update t [] b) else None
  | ReserveType t => Some (filled None (fun _ => []) (Nat.eqb t) b)
  | Tune | Shrink => Some b
  | Write f => Some (fun t => option_map (fun l => map (fun kv => f t (fst kv) (snd kv)) (combine (seq 0 (length l)) l)) (b t))
  end.

Definition upd {A} (i : nat) (x : A) (l : list A) : list A := firstn i l ++ x :: skipn (1 + i) l.
Definition del {A} (i : nat) (l : list A) : list A := firstn i l ++ skipn (1 + i) l.

Definition act1 (bs : list bag) (a : act) : option (list bag) :=
  match a with
  | New => Some (none :: bs)
  | Make l => match obey bs 0 (Put None l) none with Some b => Some (b :: bs) | None => None end
  | Copy j => match nth_error bs j with Some b => Some (b :: bs) | None => None end
  | Take j => match nth_error bs j with Some b => Some (b :: upd j none bs) | None => None end
  | On i c =>
      match nth_error bs i with
      | Some b => match obey bs i c b with Some b' => Some (upd i b' bs) | None => None end
      | None => None
      end
  | Assign i j =>
      match nth_error bs i, nth_error bs j with Some _, Some y => Some (upd i y bs) | _, _ => None end
  | MoveAssign i j =>
      if i =? j then None else
      match nth_error bs i, nth_error bs j with Some _, Some y => Some (del j (upd i y bs)) | _, _ => None end
  | Swap i j =>
      if i =? j then None else
      match nth_error bs i, nth_error bs j with Some x, Some y => Some (upd i y (upd j x bs)) | _, _ => None end
  | Fail i | Drop i => match nth_error bs i with Some _ => Some (del i bs) | None => None end
  | Idle => Some bs
  | Try _ _ | TryClear _ _ => None  (* see [runs] *)
  end.

Fixpoint run (bs : list bag) (h : list act) : option (list bag) :=
  match h with
  | [] => Some bs
  | a :: h' => match act1 bs a with Some bs' => run bs' h' | None => None end
  end.

(** ** Failures

    A call which throws and leaves the collection in order has carried out some first part of the
    command (an erasure may have changed values of the elements of its type instead). *)
Inductive part : cmd -> cmd -> Prop :=
| part_register ts n : part (Register ts) (Register (firstn n ts))
| part_put h l n : n < length l -> part (Put h l) (Put h (firstn n l))
| part_at t k vs n : n < length vs -> part (PutAt t k vs) (PutAt t k (firstn n vs))
| part_erase t f l u : (forall t' k v, t' <> t -> u t' k v = v) -> part (Erase t f l) (Write u)
| part_clear t : part (ClearType t) Tune
| part_reserve t : part (ReserveType t) Tune
| part_tune : part Tune Tune
| part_shrink : part Shrink Shrink.

(** The types a command may register. *)
Definition meant (bs : list bag) (c : cmd) (t : tyid) : Prop :=
  match c with
  | Register ts => In t ts
  | Put _ l => In t (map fst l)
  | PutBulk _ u _ => t = u
  | PutFrom _ j => exists y, nth_error bs j = Some y /\ els y t <> []
  | ReserveType u => t = u
  | _ => False
  end.

(** [b'] may be what is left of [b] if a call to carry out [c] throws: a part of it, and perhaps
    some of the types registered. *)
Definition tried (bs : list bag) (i : nat) (c : cmd) (b b' : bag) : Prop :=
  exists c' ts b1, part c c' /\ (forall t, In t ts -> meant bs c t) /\
    obey bs i c' b = Some b1 /\ obey bs i (Register ts) b1 = Some b'.
(** ... and if it is cleared then. *)
Definition tried_clear (bs : list bag) (i : nat) (c : cmd) (b b' : bag) : Prop :=
  exists ts b1, (forall t, In t ts -> meant bs c t) /\ obey bs i (Register ts) b = Some b1 /\ obey bs i Clear b1 = Some b'.

(** One action, and a history: starting with the collections [bs] it may leave [bs']. *)
Inductive moves (bs : list bag) : act -> list bag -> Prop :=
| moves_act a bs' : act1 bs a = Some bs' -> moves bs a bs'
| moves_try i c b b' : nth_error bs i = Some b -> tried bs i c b b' -> moves bs (Try i c) (upd i b' bs)
| moves_clear i c b b' : nth_error bs i = Some b -> tried_clear bs i c b b' -> moves bs (TryClear i c) (upd i b' bs).
Inductive runs (bs : list bag) : list act -> list bag -> Prop :=
| runs_nil : runs bs [] bs
| runs_cons a bs1 h bs' : moves bs a bs1 -> runs bs1 h bs' -> runs bs (a :: h) bs'.

(** Every failed call was the last one on its collection. *)
Definition steady (a : act) : Prop := match a with Try _ _ | TryClear _ _ => False | _ => True end.

(** The collections an action changes, and those it only reads; actions which create or destroy
    collections have none here. *)
Definition touches (a : act) : option (list nat * list nat) :=
  match a with
  | On i (PutFrom _ j) | Try i (PutFrom _ j) | TryClear i (PutFrom _ j) => Some ([i], [j])
  | On i _ | Try i _ | TryClear i _ => Some ([i], [])
  | Assign i j => Some ([i], [j])
  | Swap i j => Some ([i; j], [])
  | Idle => Some ([], [])
  | _ => None
  end.
(** Each collection belongs to one thread, or else all may read it.  [minds owner t a]: the action
    [a] of thread [t] respects that. *)
Definition minds (owner : nat -> option nat) (t : nat) (a : act) : Prop :=
  match touches a with
  | Some (ws, rs) => Forall (fun i => owner i = Some t) ws /\ Forall (fun j => owner j = Some t \/ owner j = None) rs
  | None => False
  end.
(** The actions of thread [t] in a schedule. *)
Definition acts_of (t : nat) (s : list (nat * act)) : list act := map snd (filter (fun ta => fst ta =? t) s).

End Machine.
Arguments bag : clear implicits.
Arguments cmd : clear implicits.
Arguments act : clear implicits.

Section Hist.
Context {V : Type} {E : Env V}.
Notation CW := (coll V * world)%type.

(** The calls which carry out a command on the collection [c], the [i]-th of [g]. *)
Inductive performs (g : list (coll V)) (i : nat) (c : coll V) : cmd V -> M CW unit -> Prop :=
| p_register l : performs g i c (Register (map env_ty l)) (register_types l)
| p_emplace a x v : src_c c (env_ty a) HEmplace x v ->
    performs g i c (Put None [(env_ty a, v)]) (void (c_emplace a x))
| p_emplace_hint hint h a x v : hint_is c hint h -> hsafe h c [(env_ty a, v)] -> src_c c (env_ty a) HEmplace x v ->
    performs g i c (Put h [(env_ty a, v)]) (void (c_emplace_hint hint a x))
| p_emplace_pos pos k a x v : lpoints c pos (env_ty a) k -> src_c c (env_ty a) HEmplace x v ->
    performs g i c (PutAt (env_ty a) k [v]) (void (c_emplace_pos pos a x))
| p_insert x v : arg_ok x -> src_c c (env_ty (a_dyn x)) (a_how x) (a_src x) v ->
    performs g i c (Put None [(env_ty (a_dyn x), v)]) (void (c_insert x))
| p_insert_hint hint h x v : hint_is c hint h -> hsafe h c [(env_ty (a_dyn x), v)] ->
    arg_ok x -> src_c c (env_ty (a_dyn x)) (a_how x) (a_src x) v ->
    performs g i c (Put h [(env_ty (a_dyn x), v)]) (void (c_insert_hint hint x))
| p_insert_pos pos k x v : lpoints c pos (env_ty (a_dyn x)) k -> src_c c (env_ty (a_dyn x)) (a_how x) (a_src x) v ->
    performs g i c (PutAt (env_ty (a_dyn x)) k [v]) (void (c_insert_pos pos x))
| p_range xs l : Forall2 gives xs l -> performs g i c (Put None l) (c_insert_range xs)
| p_range_terminal a h fwd xs :
    performs g i c (PutBulk None (env_ty a) xs) (c_insert_range_terminal a h fwd xs)
| p_hint_range hint h xs l : hint_is c hint h -> Forall2 gives xs l -> hsafe h c l ->
    performs g i c (Put h l) (c_insert_hint_range hint xs)
| p_hint_range_terminal hint hn a h fwd xs : hint_is c hint hn -> hsafe hn c (map (pair (env_ty a)) xs) ->
    performs g i c (PutBulk hn (env_ty a) xs) (c_insert_hint_range_terminal hint a h fwd xs)
| p_from j y first last m n : j <> i -> nth_error g j = Some y -> located y first m -> located y last n -> m <= n ->
    performs g i c (Put None (firstn (n - m) (skipn m (flat y)))) (c_insert_from (length (flat y)) y first last)
| p_hint_from hint h j y first last m n : hint_is c hint h -> j <> i -> nth_error g j = Some y ->
    located y first m -> located y last n -> m <= n -> hsafe h c (firstn (n - m) (skipn m (flat y))) ->
    performs g i c (Put h (firstn (n - m) (skipn m (flat y)))) (c_insert_hint_from (length (flat y)) hint y first last)
| p_all j y first : j <> i -> nth_error g j = Some y -> located y first 0 ->
    performs g i c (PutFrom None j) (c_insert_from (length (flat y)) y first (c_end y))
| p_hint_all hint h j y first : hint_is c hint h -> j <> i -> nth_error g j = Some y -> located y first 0 ->
    hsafe h c (flat y) ->
    performs g i c (PutFrom h j) (c_insert_hint_from (length (flat y)) hint y first (c_end y))
| p_local a xs : performs g i c (Put None (map (pair (env_ty a)) xs)) (c_insert_local a (env_ty a) xs)
| p_hint_local hint h a xs : hint_is c hint h -> hsafe h c (map (pair (env_ty a)) xs) ->
    performs g i c (Put h (map (pair (env_ty a)) xs)) (c_insert_hint_local hint a (env_ty a) xs)
| p_pos_range pos t k xs vs : lpoints c pos t k -> Forall2 (gives_at t) xs vs ->
    performs g i c (PutAt t k vs) (void (c_insert_pos_range pos xs))
| p_lpos_range m p a k xs : lpoints c (mkliter m (PConc p)) (env_ty a) k ->
    performs g i c (PutAt (env_ty a) k (map snd xs)) (void (c_insert_lpos_range m (env_ty a) p xs))
| p_erase pos t k : points c pos t k -> performs g i c (Erase t k (1 + k)) (void (c_erase pos))
| p_erase_local pos t k : lpoints c pos t k -> k < length (elems c t) ->
    performs g i c (Erase t k (1 + k)) (void (c_erase_local pos))
| p_erase_local_range first last t f l : lpoints c first t f -> lpoints c last t l -> f <= l ->
    performs g i c (Erase t f l) (void (c_erase_local_range first last))
| p_erase_range first last t f l : points c first t f -> points c last t l -> f <= l ->
    performs g i c (Erase t f l) (void (c_erase_range first last))
| p_erase_all first : located c first 0 -> performs g i c Clear (void (c_erase_range first (c_end c)))
| p_clear : performs g i c Clear c_clear
| p_clear_info a : performs g i c (ClearType (env_ty a)) (c_clear_info a)
| p_reserve_type a n : performs g i c (ReserveType (env_ty a)) (c_reserve_type a n)
| p_reserve n : performs g i c Tune (c_reserve_all n)
| p_reserve_info a n : performs g i c Tune (c_reserve_info a n)
| p_shrink : performs g i c Shrink c_shrink_all
| p_shrink_info a : performs g i c Shrink (c_shrink_info a).

(** When a collection [c] stays in order although a call to carry out a command throws [e]. *)
Definition survives (c : coll V) (k : cmd V) (e : exn) : Prop :=
  match k with
  | Put h l => range_safe h c l \/ (exists t, e = UnregisteredType t)
  | PutAt t k vs => range_safe (Some (t, k)) c (map (pair t) vs)
  | PutBulk _ _ _ | PutFrom _ _ => False
  | Erase _ f l => env_layout = PackedLayout \/ l <> S f
  | ReserveType _ => env_layout = PackedLayout
  | Tune => env_layout = PackedLayout \/ (exists t, e = UnregisteredType t)
  | _ => True
  end.

(** [history h w g d]: a program has performed the actions [h]; it now owns the collections
    [g], numbered from 0, and [d], not to be used any more. *)
Inductive history : list (act V) -> world -> list (coll V) -> list (coll V) -> Prop :=
| h_start : history [] (mkworld 1 [] 0 0 0) [] []
| h_new h w g d al : history h w g d -> history (h ++ [New]) w (c_empty al :: g) d
| h_make h w g d xs l al w' c : history h w g d -> Forall2 gives xs l -> c_from_range xs al w = Ok w' c ->
    history (h ++ [Make l]) w' (c :: g) d
| h_copy h w g d j x w' c : history h w g d -> nth_error g j = Some x -> c_copy x w = Ok w' c ->
    history (h ++ [Copy j]) w' (c :: g) d
| h_copy_al h w g d j x al w' c : history h w g d -> nth_error g j = Some x -> c_copy_al x al w = Ok w' c ->
    history (h ++ [Copy j]) w' (c :: g) d
| h_move h w g d j x w' x' c : history h w g d -> nth_error g j = Some x -> c_move (x, w) = Ok (x', w') c ->
    history (h ++ [Take j]) w' (c :: upd j x' g) d
| h_move_al h w g d j x al w' x' c : history h w g d -> nth_error g j = Some x ->
    c_move_al al ((c_empty al, x), w) = Ok ((c, x'), w') tt ->
    history (h ++ [Take j]) w' (c :: upd j x' g) d
| h_call h w g d i c k m w' c' : history h w g d -> nth_error g i = Some c -> performs g i c k m ->
    m (c, w) = Ok (c', w') tt -> history (h ++ [On i k]) w' (upd i c' g) d
| h_write h w g d i c f : history h w g d -> nth_error g i = Some c ->
    history (h ++ [On i (Write f)]) w (upd i (c_mutate f c) g) d
| h_self h w g d i c : history h w g d -> nth_error g i = Some c -> history (h ++ [Assign i i]) w g d
| h_assign h w g d i j c x w' c' : history h w g d -> i <> j -> nth_error g i = Some c -> nth_error g j = Some x ->
    c_copy_assign x (c, w) = Ok (c', w') tt -> history (h ++ [Assign i j]) w' (upd i c' g) d
| h_move_assign h w g d i j c x w' c' x' : history h w g d -> i <> j -> nth_error g i = Some c -> nth_error g j = Some x ->
    c_move_assign ((c, x), w) = Ok ((c', x'), w') tt ->
    history (h ++ [MoveAssign i j]) w' (del j (upd i c' g)) (x' :: d)
| h_swap h w g d i j x y w' x' y' : history h w g d -> i <> j -> nth_error g i = Some x -> nth_error g j = Some y ->
    env_pocs = true \/ c_al x = c_al y ->
    c_swap ((x, y), w) = Ok ((x', y'), w') tt -> history (h ++ [Swap i j]) w' (upd i x' (upd j y' g)) d
| h_fail h w g d i c k m w' c' e : history h w g d -> nth_error g i = Some c -> performs g i c k m ->
    m (c, w) = Exn (c', w') e -> history (h ++ [Fail i]) w' (del i g) (c' :: d)
| h_try h w g d i c k m w' c' e : history h w g d -> nth_error g i = Some c -> performs g i c k m ->
    m (c, w) = Exn (c', w') e -> survives c k e -> history (h ++ [Try i k]) w' (upd i c' g) d
| h_try_clear h w g d i c k m w' c' e w'' c'' : history h w g d -> nth_error g i = Some c -> performs g i c k m ->
    m (c, w) = Exn (c', w') e -> c_clear (c', w') = Ok (c'', w'') tt ->
    history (h ++ [TryClear i k]) w'' (upd i c'' g) d
| h_drop h w g d i c w' : history h w g d -> nth_error g i = Some c -> c_destroy c w = Ok w' tt ->
    history (h ++ [Drop i]) w' (del i g) d
(* failed construction; destruction of what is no longer used; comparison *)
| h_make_exn h w g d xs l al w' e : history h w g d -> Forall2 gives xs l -> c_from_range xs al w = Exn w' e ->
    history (h ++ [Idle]) w' g d
| h_copy_exn h w g d j x w' e : history h w g d -> nth_error g j = Some x -> c_copy x w = Exn w' e ->
    history (h ++ [Idle]) w' g d
| h_scrap h w g d d' c w' : history h w g d -> Permutation d (c :: d') -> c_destroy c w = Ok w' tt ->
    history (h ++ [Idle]) w' g d'
| h_equal h w g d i j x y w' b : history h w g d -> i <> j -> nth_error g i = Some x -> nth_error g j = Some y ->
    c_equal x y w = Ok w' b -> history (h ++ [Idle]) w' g d.

(** The collection holds exactly the elements the bag says, in that order within each type. *)
Definition holds (c : coll V) (b : bag V) : Prop := forall t, seg_of c t = b t.

End Hist.
