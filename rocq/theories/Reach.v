(** * Programs using collections: the reachable states

    A state of a program is the world together with the collections it owns: those in
    working order, and those which an exception has left fit only for destruction or for
    being assigned to.  [reach] is generated by the public operations of the library, called
    with arguments meeting their documented preconditions.  Nothing here mentions the
    invariants used in the proofs. *)

From Coq Require Import List Arith Bool Permutation.
From Verif Require Import Base Vec Backend Segment Coll Spec.
Import ListNotations.

Section Reach.
Context {V : Type} {E : Env V}.
Notation CW := (coll V * world)%type.

Definition void {S A} (m : M S A) : M S unit := m ;; ret tt.

(** The member functions changing one collection [c], with their preconditions; [g] are
    collections which may serve as source of iterators.  The second index says for which
    exceptions the collection is known to stay in working order, the last two which types the
    call may register and which typed values it inserts. *)
Inductive api (g : list (coll V)) (c : coll V) : M CW unit -> (exn -> Prop) -> list tyid -> list (tyid * V) -> Prop :=
| api_register l : api g c (register_types l) (fun _ => True)
      (map env_ty l) []
| api_reserve n : api g c (c_reserve_all n) (fun _ => env_layout = PackedLayout)
      [] []
| api_reserve_info a n :
    api g c (c_reserve_info a n) (fun e => env_layout = PackedLayout \/ ~ In (env_ty a) (types c))
      [] []
| api_reserve_type a n : api g c (c_reserve_type a n) (fun _ => env_layout = PackedLayout)
      [env_ty a] []
| api_shrink : api g c c_shrink_all (fun _ => True)
      [] []
| api_shrink_info a : api g c (c_shrink_info a) (fun _ => True)
      [] []
| api_clear : api g c c_clear (fun _ => True)
      [] []
| api_clear_info a : api g c (c_clear_info a) (fun _ => True)
      [] []
(* insertion of one element *)
| api_emplace a x v : src_c c (env_ty a) HEmplace x v ->
    api g c (void (c_emplace a x)) (fun _ => safe_at c (env_ty a) (length (elems c (env_ty a))))
      [env_ty a] [(env_ty a, v)]
| api_emplace_hint hint i k a x v :
    located c hint i -> hint_at c hint (env_ty a) k -> hint_safe c hint (env_ty a) ->
    src_c c (env_ty a) HEmplace x v ->
    api g c (void (c_emplace_hint hint a x)) (fun _ => safe_at c (env_ty a) k)
      [env_ty a] [(env_ty a, v)]
| api_emplace_pos pos k a x v : lpoints c pos (env_ty a) k -> src_c c (env_ty a) HEmplace x v ->
    api g c (void (c_emplace_pos pos a x)) (fun _ => safe_at c (env_ty a) k)
      [] [(env_ty a, v)]
| api_insert x v : arg_ok x -> src_c c (env_ty (a_dyn x)) (a_how x) (a_src x) v ->
    api g c (void (c_insert x))
      (fun _ => unregistrable c x \/ safe_at c (env_ty (a_dyn x)) (length (elems c (env_ty (a_dyn x)))))
      [env_ty (a_dyn x)] [(env_ty (a_dyn x), v)]
| api_insert_hint hint i k x v :
    located c hint i -> hint_at c hint (env_ty (a_dyn x)) k -> hint_safe c hint (env_ty (a_dyn x)) ->
    arg_ok x -> src_c c (env_ty (a_dyn x)) (a_how x) (a_src x) v ->
    api g c (void (c_insert_hint hint x))
      (fun _ => unregistrable c x \/ safe_at c (env_ty (a_dyn x)) k)
      [env_ty (a_dyn x)] [(env_ty (a_dyn x), v)]
| api_insert_pos pos k x v : lpoints c pos (env_ty (a_dyn x)) k -> src_c c (env_ty (a_dyn x)) (a_how x) (a_src x) v ->
    api g c (void (c_insert_pos pos x)) (fun _ => safe_at c (env_ty (a_dyn x)) k)
      [] [(env_ty (a_dyn x), v)]
(* insertion of ranges *)
| api_range xs l : Forall2 gives xs l ->
    api g c (c_insert_range xs) (fun e => range_safe None c l \/ exists t, e = UnregisteredType t)
      (map fst l) l
| api_range_terminal a h fwd xs :
    api g c (c_insert_range_terminal a h fwd xs) (many_safe fwd)
      (map fst (map (pair (env_ty a)) xs)) (map (pair (env_ty a)) xs)
| api_hint_range hint h xs l : hint_is c hint h -> Forall2 gives xs l -> hsafe h c l ->
    api g c (c_insert_hint_range hint xs)
      (fun e => range_safe h c l \/ exists t, e = UnregisteredType t)
      (map fst l) l
| api_hint_range_terminal hint hn a h fwd xs :
    hint_is c hint hn -> hsafe hn c (map (pair (env_ty a)) xs) ->
    api g c (c_insert_hint_range_terminal hint a h fwd xs) (many_safe fwd)
      (map fst (map (pair (env_ty a)) xs)) (map (pair (env_ty a)) xs)
| api_from y first last i j : In y g -> located y first i -> located y last j -> i <= j ->
    api g c (c_insert_from (length (flat y)) y first last)
      (fun _ => range_safe None c (firstn (j - i) (skipn i (flat y))))
      (map fst (firstn (j - i) (skipn i (flat y)))) (firstn (j - i) (skipn i (flat y)))
| api_hint_from hint h y first last i j :
    hint_is c hint h -> In y g -> located y first i -> located y last j -> i <= j ->
    hsafe h c (firstn (j - i) (skipn i (flat y))) ->
    api g c (c_insert_hint_from (length (flat y)) hint y first last)
      (fun _ => range_safe h c (firstn (j - i) (skipn i (flat y))))
      (map fst (firstn (j - i) (skipn i (flat y)))) (firstn (j - i) (skipn i (flat y)))
| api_local a xs : api g c (c_insert_local a (env_ty a) xs) (fun _ => range_safe None c (map (pair (env_ty a)) xs))
      (map fst (map (pair (env_ty a)) xs)) (map (pair (env_ty a)) xs)
| api_hint_local hint h a xs : hint_is c hint h -> hsafe h c (map (pair (env_ty a)) xs) ->
    api g c (c_insert_hint_local hint a (env_ty a) xs)
      (fun _ => range_safe h c (map (pair (env_ty a)) xs))
      (map fst (map (pair (env_ty a)) xs)) (map (pair (env_ty a)) xs)
| api_pos_range pos t k xs vs : lpoints c pos t k -> Forall2 (gives_at t) xs vs ->
    api g c (void (c_insert_pos_range pos xs)) (fun _ => range_safe (Some (t, k)) c (map (pair t) vs))
      [] (map (pair t) vs)
| api_lpos_range i p a k xs : lpoints c (mkliter i (PConc p)) (env_ty a) k ->
    api g c (void (c_insert_lpos_range i (env_ty a) p xs))
      (fun _ => range_safe (Some (env_ty a, k)) c (map (pair (env_ty a)) (map snd xs)))
      [] (map (pair (env_ty a)) (map snd xs))
(* erasure *)
| api_erase pos t k : points c pos t k ->
    api g c (void (c_erase pos)) (fun _ => env_layout = PackedLayout)
      [] []
| api_erase_local pos t k : lpoints c pos t k -> k < length (elems c t) ->
    api g c (void (c_erase_local pos)) (fun _ => env_layout = PackedLayout)
      [] []
| api_erase_range first last i j : located c first i -> located c last j -> i <= j ->
    api g c (void (c_erase_range first last)) (fun _ => True)
      [] []
| api_erase_local_range first last t f l : lpoints c first t f -> lpoints c last t l -> f <= l ->
    api g c (void (c_erase_local_range first last)) (fun _ => True)
      [] [].

(** Clearing the segments of the types [l], those which are registered:
    [if(c.is_registered(a))c.clear(a);] for each. *)
Fixpoint clear_types (l : list tiaddr) : M CW unit :=
  match l with
  | [] => ret tt
  | a :: l' => c <- getx ;; (if is_registered c a then c_clear_info a else ret tt) ;; clear_types l'
  end.

(** The steps of a program owning the collections [g] (in working order) and [d] (only to be
    destroyed or assigned to). *)
Inductive step : world -> list (coll V) -> list (coll V) -> world -> list (coll V) -> list (coll V) -> Prop :=
| s_perm w g d g' d' : Permutation g g' -> Permutation d d' -> step w g d w g' d'
(* forgetting that a collection is in order *)
| s_weaken w c g d : step w (c :: g) d w g (c :: d)
(* construction *)
| s_new w g d al : step w g d w (c_empty al :: g) d
| s_range w g d xs l al w' c : Forall2 gives xs l ->
    c_from_range xs al w = Ok w' c -> step w g d w' (c :: g) d
| s_range_exn w g d xs l al w' e : Forall2 gives xs l ->
    c_from_range xs al w = Exn w' e -> step w g d w' g d
| s_copy w x g d w' c : c_copy x w = Ok w' c -> step w (x :: g) d w' (c :: x :: g) d
| s_copy_exn w x g d w' e : c_copy x w = Exn w' e -> step w (x :: g) d w' (x :: g) d
| s_copy_al w x g d al w' c : c_copy_al x al w = Ok w' c -> step w (x :: g) d w' (c :: x :: g) d
| s_copy_al_exn w x g d al w' e : c_copy_al x al w = Exn w' e -> step w (x :: g) d w' (x :: g) d
| s_move w x g d w' x' c : c_move (x, w) = Ok (x', w') c -> step w (x :: g) d w' (c :: x' :: g) d
| s_move_al w x g d al w' c x' : c_move_al al ((c_empty al, x), w) = Ok ((c, x'), w') tt -> step w (x :: g) d w' (c :: x' :: g) d
(* the unfinished collection is gone *)
| s_move_al_exn w x g d al w' c x' e : c_move_al al ((c_empty al, x), w) = Exn ((c, x'), w') e -> step w (x :: g) d w' g (x' :: d)
(* member functions *)
| s_call w c g d m safe new vals w' c' : api g c m safe new vals ->
    m (c, w) = Ok (c', w') tt -> step w (c :: g) d w' (c' :: g) d
| s_call_exn w c g d m safe new vals w' c' e : api g c m safe new vals ->
    m (c, w) = Exn (c', w') e -> safe e -> step w (c :: g) d w' (c' :: g) d
| s_call_wreck w c g d m safe new vals w' c' e : api g c m safe new vals ->
    m (c, w) = Exn (c', w') e -> step w (c :: g) d w' g (c' :: d)
(* after an exception the collection is cleared, or another one copied from it *)
| s_call_clear w c g d m safe new vals w' c' e w'' c'' : api g c m safe new vals ->
    m (c, w) = Exn (c', w') e -> c_clear (c', w') = Ok (c'', w'') tt -> step w (c :: g) d w'' (c'' :: g) d
(* it is enough to clear the segments which the failed call has changed *)
| s_call_clear_types w c g d m safe new vals w' c' e l w'' c'' : api g c m safe new vals ->
    m (c, w) = Exn (c', w') e -> (forall t, ~ In t (map env_ty l) -> seg_at c' t = seg_at c t) ->
    clear_types l (c', w') = Ok (c'', w'') tt -> step w (c :: g) d w'' (c'' :: g) d
| s_call_copy w c g d m safe new vals w' c' e w'' c'' : api g c m safe new vals ->
    m (c, w) = Exn (c', w') e -> c_copy c' w' = Ok w'' c'' -> step w (c :: g) d w'' (c'' :: g) (c' :: d)
| s_call_copy_exn w c g d m safe new vals w' c' e w'' e' : api g c m safe new vals ->
    m (c, w) = Exn (c', w') e -> c_copy c' w' = Exn w'' e' -> step w (c :: g) d w'' g (c' :: d)
(* new values assigned to elements through iterators or references *)
| s_mutate w c g d f : step w (c :: g) d w (c_mutate f c :: g) d
| s_equal w x y g d w' b : c_equal x y w = Ok w' b -> step w (x :: y :: g) d w' (x :: y :: g) d
| s_equal_exn w x y g d w' e : c_equal x y w = Exn w' e -> step w (x :: y :: g) d w' (x :: y :: g) d
(* assignment to a collection, in order or not *)
| s_assign w x g c d w' c' : c_copy_assign x (c, w) = Ok (c', w') tt -> step w (x :: g) (c :: d) w' (c' :: x :: g) d
| s_assign_exn w x g c d w' c' e : c_copy_assign x (c, w) = Exn (c', w') e -> step w (x :: g) (c :: d) w' (c' :: x :: g) d
| s_move_assign w x g c d w' c' x' : c_move_assign ((c, x), w) = Ok ((c', x'), w') tt -> step w (x :: g) (c :: d) w' (c' :: g) (x' :: d)
(* the source is left in working order where the standard library clears a map it has moved
   element by element from, or need not do so *)
| s_move_assign_src w x g c d w' c' x' : c_move_assign ((c, x), w) = Ok ((c', x'), w') tt ->
    env_umap_clears = true \/ env_pocma = true \/ c_al c = c_al x -> step w (x :: g) (c :: d) w' (c' :: x' :: g) d
| s_move_assign_exn w x g c d w' c' x' e : c_move_assign ((c, x), w) = Exn ((c', x'), w') e -> step w (x :: g) (c :: d) w' (c' :: x' :: g) d
| s_swap w x y g d w' x' y' : env_pocs = true \/ c_al x = c_al y ->
    c_swap ((x, y), w) = Ok ((x', y'), w') tt -> step w (x :: y :: g) d w' (x' :: y' :: g) d
(* destruction *)
| s_destroy w c g d w' : c_destroy c w = Ok w' tt -> step w g (c :: d) w' g d.

(** [reach w g d]: a program can get into the world [w], owning the collections [g] and [d]. *)
Inductive reach : world -> list (coll V) -> list (coll V) -> Prop :=
| r_start : reach (mkworld 1 [] 0 0 0) [] []
| r_step w g d w' g' d' : reach w g d -> step w g d w' g' d' -> reach w' g' d'.

Lemma r_perm w g d g' d' : reach w g d -> Permutation g g' -> Permutation d d' -> reach w g' d'.
Proof. intros H; intros. eapply r_step; [exact H|]. eapply s_perm; eauto. Qed.
Lemma r_weaken w c g d : reach w (c :: g) d -> reach w g (c :: d).
Proof. intros H; intros. eapply r_step; [exact H|]. eapply s_weaken; eauto. Qed.
Lemma r_new w g d al : reach w g d -> reach w (c_empty al :: g) d.
Proof. intros H; intros. eapply r_step; [exact H|]. eapply s_new; eauto. Qed.
Lemma r_range w g d xs l al w' c : reach w g d -> Forall2 gives xs l ->
    c_from_range xs al w = Ok w' c -> reach w' (c :: g) d.
Proof. intros H; intros. eapply r_step; [exact H|]. eapply s_range; eauto. Qed.
Lemma r_range_exn w g d xs l al w' e : reach w g d -> Forall2 gives xs l ->
    c_from_range xs al w = Exn w' e -> reach w' g d.
Proof. intros H; intros. eapply r_step; [exact H|]. eapply s_range_exn; eauto. Qed.
Lemma r_copy w x g d w' c : reach w (x :: g) d -> c_copy x w = Ok w' c -> reach w' (c :: x :: g) d.
Proof. intros H; intros. eapply r_step; [exact H|]. eapply s_copy; eauto. Qed.
Lemma r_copy_exn w x g d w' e : reach w (x :: g) d -> c_copy x w = Exn w' e -> reach w' (x :: g) d.
Proof. intros H; intros. eapply r_step; [exact H|]. eapply s_copy_exn; eauto. Qed.
Lemma r_copy_al w x g d al w' c : reach w (x :: g) d -> c_copy_al x al w = Ok w' c -> reach w' (c :: x :: g) d.
Proof. intros H; intros. eapply r_step; [exact H|]. eapply s_copy_al; eauto. Qed.
Lemma r_copy_al_exn w x g d al w' e : reach w (x :: g) d -> c_copy_al x al w = Exn w' e -> reach w' (x :: g) d.
Proof. intros H; intros. eapply r_step; [exact H|]. eapply s_copy_al_exn; eauto. Qed.
Lemma r_move w x g d w' x' c : reach w (x :: g) d -> c_move (x, w) = Ok (x', w') c -> reach w' (c :: x' :: g) d.
Proof. intros H; intros. eapply r_step; [exact H|]. eapply s_move; eauto. Qed.
Lemma r_move_al w x g d al w' c x' : reach w (x :: g) d ->
    c_move_al al ((c_empty al, x), w) = Ok ((c, x'), w') tt -> reach w' (c :: x' :: g) d.
Proof. intros H; intros. eapply r_step; [exact H|]. eapply s_move_al; eauto. Qed.
Lemma r_move_al_exn w x g d al w' c x' e : reach w (x :: g) d ->
    c_move_al al ((c_empty al, x), w) = Exn ((c, x'), w') e -> reach w' g (x' :: d).
Proof. intros H; intros. eapply r_step; [exact H|]. eapply s_move_al_exn; eauto. Qed.
Lemma r_call w c g d m safe new vals w' c' : reach w (c :: g) d -> api g c m safe new vals ->
    m (c, w) = Ok (c', w') tt -> reach w' (c' :: g) d.
Proof. intros H; intros. eapply r_step; [exact H|]. eapply s_call; eauto. Qed.
Lemma r_call_exn w c g d m safe new vals w' c' e : reach w (c :: g) d -> api g c m safe new vals ->
    m (c, w) = Exn (c', w') e -> safe e -> reach w' (c' :: g) d.
Proof. intros H; intros. eapply r_step; [exact H|]. eapply s_call_exn; eauto. Qed.
Lemma r_call_wreck w c g d m safe new vals w' c' e : reach w (c :: g) d -> api g c m safe new vals ->
    m (c, w) = Exn (c', w') e -> reach w' g (c' :: d).
Proof. intros H; intros. eapply r_step; [exact H|]. eapply s_call_wreck; eauto. Qed.
Lemma r_call_clear w c g d m safe new vals w' c' e w'' c'' : reach w (c :: g) d -> api g c m safe new vals ->
    m (c, w) = Exn (c', w') e -> c_clear (c', w') = Ok (c'', w'') tt -> reach w'' (c'' :: g) d.
Proof. intros H; intros. eapply r_step; [exact H|]. eapply s_call_clear; eauto. Qed.
Lemma r_call_clear_types w c g d m safe new vals w' c' e l w'' c'' : reach w (c :: g) d -> api g c m safe new vals ->
    m (c, w) = Exn (c', w') e -> (forall t, ~ In t (map env_ty l) -> seg_at c' t = seg_at c t) ->
    clear_types l (c', w') = Ok (c'', w'') tt -> reach w'' (c'' :: g) d.
Proof. intros H; intros. eapply r_step; [exact H|]. eapply s_call_clear_types; eauto. Qed.
Lemma r_call_copy w c g d m safe new vals w' c' e w'' c'' : reach w (c :: g) d -> api g c m safe new vals ->
    m (c, w) = Exn (c', w') e -> c_copy c' w' = Ok w'' c'' -> reach w'' (c'' :: g) (c' :: d).
Proof. intros H; intros. eapply r_step; [exact H|]. eapply s_call_copy; eauto. Qed.
Lemma r_call_copy_exn w c g d m safe new vals w' c' e w'' e' : reach w (c :: g) d -> api g c m safe new vals ->
    m (c, w) = Exn (c', w') e -> c_copy c' w' = Exn w'' e' -> reach w'' g (c' :: d).
Proof. intros H; intros. eapply r_step; [exact H|]. eapply s_call_copy_exn; eauto. Qed.
Lemma r_mutate w c g d f : reach w (c :: g) d -> reach w (c_mutate f c :: g) d.
Proof. intros H; intros. eapply r_step; [exact H|]. eapply s_mutate; eauto. Qed.
Lemma r_equal w x y g d w' b : reach w (x :: y :: g) d -> c_equal x y w = Ok w' b -> reach w' (x :: y :: g) d.
Proof. intros H; intros. eapply r_step; [exact H|]. eapply s_equal; eauto. Qed.
Lemma r_equal_exn w x y g d w' e : reach w (x :: y :: g) d -> c_equal x y w = Exn w' e -> reach w' (x :: y :: g) d.
Proof. intros H; intros. eapply r_step; [exact H|]. eapply s_equal_exn; eauto. Qed.
Lemma r_assign w x g c d w' c' : reach w (x :: g) (c :: d) ->
    c_copy_assign x (c, w) = Ok (c', w') tt -> reach w' (c' :: x :: g) d.
Proof. intros H; intros. eapply r_step; [exact H|]. eapply s_assign; eauto. Qed.
Lemma r_assign_exn w x g c d w' c' e : reach w (x :: g) (c :: d) ->
    c_copy_assign x (c, w) = Exn (c', w') e -> reach w' (c' :: x :: g) d.
Proof. intros H; intros. eapply r_step; [exact H|]. eapply s_assign_exn; eauto. Qed.
Lemma r_move_assign w x g c d w' c' x' : reach w (x :: g) (c :: d) ->
    c_move_assign ((c, x), w) = Ok ((c', x'), w') tt -> reach w' (c' :: g) (x' :: d).
Proof. intros H; intros. eapply r_step; [exact H|]. eapply s_move_assign; eauto. Qed.
Lemma r_move_assign_src w x g c d w' c' x' : reach w (x :: g) (c :: d) ->
    c_move_assign ((c, x), w) = Ok ((c', x'), w') tt ->
    env_umap_clears = true \/ env_pocma = true \/ c_al c = c_al x -> reach w' (c' :: x' :: g) d.
Proof. intros H; intros. eapply r_step; [exact H|]. eapply s_move_assign_src; eauto. Qed.
Lemma r_move_assign_exn w x g c d w' c' x' e : reach w (x :: g) (c :: d) ->
    c_move_assign ((c, x), w) = Exn ((c', x'), w') e -> reach w' (c' :: x' :: g) d.
Proof. intros H; intros. eapply r_step; [exact H|]. eapply s_move_assign_exn; eauto. Qed.
Lemma r_swap w x y g d w' x' y' : reach w (x :: y :: g) d -> env_pocs = true \/ c_al x = c_al y ->
    c_swap ((x, y), w) = Ok ((x', y'), w') tt -> reach w' (x' :: y' :: g) d.
Proof. intros H; intros. eapply r_step; [exact H|]. eapply s_swap; eauto. Qed.
Lemma r_destroy w c g d w' : reach w g (c :: d) -> c_destroy c w = Ok w' tt -> reach w' g d.
Proof. intros H; intros. eapply r_step; [exact H|]. eapply s_destroy; eauto. Qed.

End Reach.
