(** * Contents, traversal, iterators, registration, lookup (C01-C07, C29, C53)

    Every theorem is about an arbitrary environment [E] (allocation failures, throwing element
    operations, growth policy, iteration order of the map, storage layout, ...) and an
    arbitrary reachable program state [reach w (c :: g) d]: [c] is the collection in question,
    [g] are other collections.  The examples exhibit a state meeting the premises, for both
    storage layouts. *)

From Coq Require Import List Arith Lia Bool Permutation.
From Verif Require Import Base Vec Backend Segment Coll Spec Reach ProofBase ProofSeg ProofMap ProofView ProofColl
  ProofReach ProofObs ProofProp ProofProp2 ProofProp3 ProofProp4 Demo.
Import ListNotations.

(** ** C01 Elements live in the segment of their dynamic type *)

Theorem C01_one_segment_per_type {V} {E : Env V} w c g d : reach w (c :: g) d -> NoDup (types c).
Proof. exact (types_nodup w c g d). Qed.
Example C01_one_segment_per_type_ex lay : let E := dE lay in
  reach (dw lay) [dc lay; dx lay] [] /\ length (types (dc lay)) = 4.
Proof. demo lay. Qed.

(** What is seen by traversal with type [t] is what is in the segment of type [t]. *)
Theorem C01_elements_by_segment {V} {E : Env V} w c g d t v : reach w (c :: g) d ->
  (In (t, v) (flat c) <-> In v (elems c t)) /\ (In v (elems c t) -> In t (types c)).
Proof.
  intros H. assert (N := types_nodup w c g d H). unfold flat, elems, seg_of, types in *.
  induction (content c) as [|[t' xs] l IH]; simpl in *; [split; [tauto|intros []]|].
  inversion N as [|? ? N1 N2]; subst. destruct (IH N2) as (A & B). rewrite in_app_iff, in_map_iff. simpl in *.
  destruct (Nat.eqb_spec t' t) as [->|Ne].
  - split; [|auto]. split; [intros [(x & Q & Hx)|Hf]|intros Hx; left; exists v; auto].
    + inversion Q; subst; auto.
    + exfalso. apply N1. apply A in Hf. apply B. exact Hf.
  - split; [|auto]. rewrite <- A. split; [intros [(x & Q & Hx)|Hf]; auto; congruence|auto].
Qed.
Example C01_elements_by_segment_ex lay : let E := dE lay in
  reach (dw lay) [dc lay; dx lay] [] /\ In 9 (elems (dc lay) 2).
Proof. demo lay. Qed.

(** Any member function: the elements afterwards, type by type, are elements from before
    (dropped only by calls that insert nothing) and the inserted values of that type. *)
Theorem C01_calls_route_by_type {V} {E : Env V} w c g d m safe new vals w' c' :
  reach w (c :: g) d -> api g c m safe new vals -> m (c, w) = Ok (c', w') tt -> conserved c c' vals.
Proof. intros H A Q. apply (proj1 (api_brought w c g d m safe new vals H A) c' w' Q). Qed.
Example C01_calls_route_by_type_ex lay : let E := dE lay in
  let x := mkarg 21 21 true false HCopy (SVal 77) in let m := void (c_insert x) in
  let s := state (m (dc lay, dw lay)) in
  reach (dw lay) [dc lay; dx lay] [] /\
  (exists safe new, api [dx lay] (dc lay) m safe new [(2, 77)]) /\
  m (dc lay, dw lay) = Ok (fst s, snd s) tt /\ elems (fst s) 2 = [8; 9; 77].
Proof.
  cbv zeta. csplit; [apply d_reach| |demo_fact lay|demo_fact lay].
  do 2 eexists. refine (api_insert (E := dE lay) [dx lay] (dc lay) (mkarg 21 21 true false HCopy (SVal 77)) 77 _ _); [intros Q; discriminate|left; reflexivity].
Qed.

(** ** C02 Traversal visits every element exactly once *)

(** [traverse n c it end]: dereference and increment until end, in at most [n] steps.  [flat]
    is the concatenation of the segments in order. *)
Theorem C02_traversal {V} {E : Env V} w c g d : reach w (c :: g) d ->
  traverse (c_size c) c (c_begin c) (c_end c) = Some (flat c) /\
  length (flat c) = c_size c /\
  (forall n, n < c_size c -> traverse n c (c_begin c) (c_end c) = None).
Proof.
  intros H. pose proof (begin_located w c g d H) as B. pose proof (end_located c) as L.
  rewrite c_size_flat. csplit; auto.
  - rewrite (traverse_located w c g d _ _ 0 (length (flat c)) _ H B L); try lia.
    rewrite Nat.sub_0_r. simpl. rewrite firstn_all. auto.
  - intros n Hn.
    assert (X : forall n it i, located c it i -> n < length (flat c) - i -> traverse n c it (c_end c) = None).
    { clear n Hn B. induction n as [|n IH]; intros it i Li Hn; cbn [traverse].
      - rewrite (eq_located w c g d _ _ i (length (flat c)) H Li L). destruct (Nat.eqb_spec i (length (flat c))); [lia|auto].
      - rewrite (eq_located w c g d _ _ i (length (flat c)) H Li L). destruct (Nat.eqb_spec i (length (flat c))); [lia|].
        destruct (next_located w c g d it i H Li) as (it' & Q & L'); [lia|]. rewrite Q.
        rewrite (IH it' (S i)); auto; [|lia]. destruct (it_deref c it); auto. }
    apply (X n _ 0 B). lia.
Qed.
Example C02_traversal_ex lay : let E := dE lay in
  reach (dw lay) [dc lay; dx lay] [] /\ c_size (dc lay) = 6 /\
  flat (dc lay) = [(1, 5); (1, 6); (1, 7); (2, 8); (2, 9); (4, 1)].
Proof. demo lay. Qed.

(** Traversal between two positions: the elements in between. *)
Theorem C02_range_traversal {V} {E : Env V} w c g d x y i j : reach w (c :: g) d ->
  located c x i -> located c y j -> i <= j ->
  traverse (j - i) c x y = Some (firstn (j - i) (skipn i (flat c))).
Proof. intros H X Y L. eapply traverse_located; eauto. Qed.
Example C02_range_traversal_ex lay : let E := dE lay in
  reach (dw lay) [dc lay; dx lay] [] /\ located (dc lay) (it_at (dc lay) 1 1) 1 /\
  located (dc lay) (it_at (dc lay) 4 0) 5.
Proof. demo lay. Qed.

(** ** C03 size() and empty() agree with the contents *)

Theorem C03_size {V} {E : Env V} w c g d : reach w (c :: g) d ->
  c_size c = length (flat c) /\
  c_size c = list_sum (map (fun t => length (elems c t)) (types c)) /\
  (c_empty_all c = true <-> c_size c = 0).
Proof.
  intros H. rewrite c_size_flat. csplit; auto.
  - assert (N := types_nodup w c g d H). unfold flat, elems, seg_of, types in *.
    induction (content c) as [|[t xs] l IH]; auto. simpl in N. inversion N as [|? ? N1 N2]; subst.
    simpl. rewrite app_length, map_length, Nat.eqb_refl, IH; auto. f_equal. f_equal. apply map_ext_in. intros t' Ht.
    destruct (Nat.eqb_spec t t') as [->|]; tauto.
  - rewrite empty_flat. destruct (flat c); simpl; split; auto; discriminate.
Qed.
Example C03_size_ex lay : let E := dE lay in
  reach (dw lay) [dc lay; dx lay] [] /\ c_size (dc lay) = 6 /\ c_size (dx lay) = 5.
Proof. demo lay. Qed.

Theorem C03_size_of_type {V} {E : Env V} w c g d a : let t := env_ty a in reach w (c :: g) d ->
  query (c_size_of a) c w t (fun n => n = length (elems c t)) /\
  query (c_empty_of a) c w t (fun b => b = true <-> elems c t = []).
Proof.
  intros t H. split; unfold query.
  - eapply wp_by_info; [exact H| |auto]. intros s Hs Ws Et. csplit; auto.
    + destruct (seg_at_in _ _ _ Hs) as (n & Hin & Ht & _). rewrite types_nodes. unfold t. rewrite <- Ht. exact (in_map n_ty _ _ Hin).
    + rewrite elems_seg_at. unfold t. rewrite Hs. auto.
  - eapply wp_by_info; [exact H| |auto]. intros s Hs Ws Et. csplit; auto.
    + destruct (seg_at_in _ _ _ Hs) as (n & Hin & Ht & _). rewrite types_nodes. unfold t. rewrite <- Ht. exact (in_map n_ty _ _ Hin).
    + rewrite elems_seg_at. unfold t. rewrite Hs. unfold seg_empty. rewrite Nat.eqb_eq.
      change (seg_size s) with (length (elems_of s)). destruct (elems_of s); simpl; split; auto; discriminate.
Qed.
Example C03_size_of_type_ex lay : let E := dE lay in
  reach (dw lay) [dc lay; dx lay] [] /\ In (env_ty 29) (types (dc lay)) /\ ~ In (env_ty 60) (types (dc lay)).
Proof. demo lay. Qed.

(** ** C04 Iterators are normalised and equality identifies positions *)

(** [located c it i]: [it] is the iterator at distance [i] from begin().  begin() and end() are
    such iterators, and so are those returned by insertions (C08-C10) and erasures (C15, C16).
    They are end() or dereferenceable, and they are equal iff they are at the same position. *)
Theorem C04_begin_end {V} {E : Env V} w c g d : reach w (c :: g) d ->
  located c (c_begin c) 0 /\ located c (c_end c) (length (flat c)) /\
  (forall i, i <= length (flat c) -> exists it, located c it i).
Proof.
  intros H. csplit; [eapply begin_located; eauto|apply end_located|]. intros i Hi. eapply located_exists; eauto.
Qed.
Example C04_begin_end_ex lay : let E := dE lay in reach (dw lay) [dc lay; dx lay] [] /\ length (flat (dc lay)) = 6.
Proof. demo lay. Qed.

Theorem C04_normalised {V} {E : Env V} w c g d it i : reach w (c :: g) d -> located c it i ->
  (i < length (flat c) /\ it_deref c it = nth_error (flat c) i /\
   exists it', it_next c it = Some it' /\ located c it' (S i)) \/
  (i = length (flat c) /\ it = c_end c).
Proof.
  intros H L. assert (Hi : i <= length (flat c)).
  { destruct (reach_wf w c g d H) as (W & O). apply (located_at w c it i _ _ W O) in L. destruct L. rewrite flat_length. auto. }
  destruct (Nat.eq_dec i (length (flat c))) as [->|Ne].
  - right. split; auto. eapply located_inj; eauto. apply end_located.
  - left. csplit; [lia| |]; [eapply deref_located|eapply next_located]; eauto; lia.
Qed.
Example C04_normalised_ex lay : let E := dE lay in
  reach (dw lay) [dc lay; dx lay] [] /\ located (dc lay) (it_at (dc lay) 1 2) 2 /\
  it_deref (dc lay) (it_at (dc lay) 1 2) = Some (1, 7).
Proof. demo lay. Qed.

Theorem C04_equality {V} {E : Env V} w c g d x y i j : reach w (c :: g) d -> located c x i -> located c y j ->
  (it_eq x y = true <-> i = j) /\ (i = j <-> x = y).
Proof.
  intros H X Y. rewrite (eq_located w c g d x y i j H X Y), Nat.eqb_eq. csplit; [tauto|]. split.
  - intros ->. eapply located_inj; eauto.
  - intros ->. eapply located_fun; eauto.
Qed.
Example C04_equality_ex lay : let E := dE lay in
  reach (dw lay) [dc lay; dx lay] [] /\ located (dc lay) (it_at (dc lay) 2 0) 3 /\
  located (dc lay) (it_at (dc lay) 4 0) 5 /\ located (dc lay) (c_begin (dc lay)) 0.
Proof. cbv zeta; csplit; [apply d_reach|demo_fact lay|demo_fact lay|eapply begin_located; apply d_reach]. Qed.

(** ** C05 Registration is exact and monotonic *)

Theorem C05_is_registered {V} {E : Env V} w c g d a : reach w (c :: g) d ->
  is_registered c a = true <-> In (env_ty a) (types c).
Proof. exact (is_registered_iff w c g d a). Qed.
Example C05_is_registered_ex lay : let E := dE lay in
  reach (dw lay) [dc lay; dx lay] [] /\ is_registered (dc lay) 33 = true /\ is_registered (dc lay) 66 = false.
Proof. demo lay. Qed.

Theorem C05_new_collection {V} {E : Env V} w g d al : reach w g d ->
  reach w (c_empty al :: g) d /\ types (c_empty (V := V) al) = [] /\ flat (c_empty (V := V) al) = [].
Proof. intros H. csplit; auto. apply r_new. auto. Qed.
Example C05_new_collection_ex lay : let E := dE lay in reach (dw lay) [dc lay; dx lay] [].
Proof. demo lay. Qed.

(** After any member function the registered types are those from before and those the call
    registers ([new]: the types given to register_types or reserve<T>, or those of the inserted
    elements); when it throws, at most those.  Nothing is ever unregistered. *)
Theorem C05_calls_register_exactly {V} {E : Env V} w c g d m safe new vals :
  reach w (c :: g) d -> api g c m safe new vals ->
  wp m (c, w)
    (fun '(c', w') _ => forall t, In t (types c') <-> In t (types c) \/ In t new)
    (fun '(c', w') e => incl (types c) (types c') /\ incl (types c') (types c ++ new)).
Proof.
  intros H A. pose proof (api_kept w c g d m safe new vals H A) as K.
  destruct (api_brought w c g d m safe new vals H A) as (B1 & B2). unfold wp in *.
  destruct (m (c, w)) as [[c' w'] []|[c' w'] e|]; auto.
  - apply (B1 c' w'). auto.
  - split; [apply K|apply (B2 c' w' e); auto].
Qed.
Example C05_calls_register_exactly_ex lay : let E := dE lay in
  reach (dw lay) [dc lay; dx lay] [] /\
  (exists safe, api [dx lay] (dc lay) (register_types [61; 29; 70]) safe [6; 2; 7] []) /\
  (exists safe, api [dx lay] (dc lay) (void (c_emplace 50 (SVal 0))) safe [5] [(5, 0)]).
Proof.
  cbv zeta. csplit; [apply d_reach| |]; eexists.
  - exact (api_register (E := dE lay) [dx lay] (dc lay) [61; 29; 70]).
  - refine (api_emplace (E := dE lay) [dx lay] (dc lay) 50 (SVal 0) 0 _). left. reflexivity.
Qed.

(** register_types: new empty segments, nothing else. *)
Theorem C05_register_types {V} {E : Env V} w c g d l : reach w (c :: g) d ->
  wp (register_types l) (c, w)
    (fun '(c', w') _ => registered c c' (map env_ty l))
    (fun '(c', w') e => exists pre a post, l = pre ++ a :: post /\
       (registered c c' (map env_ty pre) \/ registered c c' (map env_ty (pre ++ [a]))) /\ make_threw (env_ty a) w w' e).
Proof. exact (spec_register w c g d l). Qed.
Example C05_register_types_ex lay : let E := dE lay in
  let s := state (register_types [61; 29; 70] (dc lay, dw lay)) in
  reach (dw lay) [dc lay; dx lay] [] /\ register_types [61; 29; 70] (dc lay, dw lay) = Ok s tt /\ length (types (fst s)) = 6.
Proof. demo lay. Qed.

(** ** C06 Lookup does not depend on type_info addresses nor on lookup history *)

(** The answer is that of a search among the registered types, whatever is in the cache. *)
Theorem C06_lookup_by_type {V} {E : Env V} w c g d a a' : reach w (c :: g) d -> env_ty a = env_ty a' ->
  is_registered c a = is_registered c a' /\
  c_size_of a (c, w) = c_size_of a' (c, w) /\ c_empty_of a (c, w) = c_empty_of a' (c, w) /\
  c_max_size_of a (c, w) = c_max_size_of a' (c, w) /\ c_capacity_of a (c, w) = c_capacity_of a' (c, w) /\
  c_begin_of a (c, w) = c_begin_of a' (c, w) /\ c_end_of a (c, w) = c_end_of a' (c, w) /\
  c_clear_info a (c, w) = c_clear_info a' (c, w) /\ c_shrink_info a (c, w) = c_shrink_info a' (c, w) /\
  (forall n, c_reserve_info a n (c, w) = c_reserve_info a' n (c, w)).
Proof.
  intros H Q. destruct (reach_wf w c g d H) as (W & _).
  assert (F : tim_find_const c a = tim_find_const c a').
  { rewrite (cache_transparent w c a), (cache_transparent w c a'); try apply W.
    induction (c_nodes c) as [|n ns IH]; simpl; auto. rewrite Q, IH. auto. }
  assert (B : map_iterator_by_info a (c, w) = map_iterator_by_info a' (c, w)).
  { unfold map_iterator_by_info, getx, bind, ret, throw. cbn [fst]. rewrite F, Q. auto. }
  unfold is_registered, c_size_of, c_empty_of, c_max_size_of, c_capacity_of, by_info, c_begin_of, c_end_of,
    c_clear_info, c_shrink_info, c_reserve_info, bind at 1. rewrite F, B. csplit; auto; unfold bind at 1; rewrite ?B; auto.
Qed.
Example C06_lookup_by_type_ex lay : let E := dE lay in
  reach (dw lay) [dc lay; dx lay] [] /\ env_ty 20 = env_ty 21 /\
  cache_find (c_cache (dc lay)) 20 <> None /\ cache_find (c_cache (dc lay)) 22 = None.
Proof. demo lay. Qed.

(** ** C07 unregistered_type is thrown exactly when documented, without side effects *)

Theorem C07_queries {V} {E : Env V} w c g d a : let t := env_ty a in reach w (c :: g) d ->
  query (c_size_of a) c w t (fun n => n = length (elems c t)) /\
  query (c_empty_of a) c w t (fun b => b = true <-> elems c t = []) /\
  query (c_max_size_of a) c w t (fun n => n = match env_layout with PackedLayout => env_vmax t | SplitLayout => env_vmax t - 1 end) /\ query (c_capacity_of a) c w t (fun n => n = cap_of c t) /\
  query (c_begin_of a) c w t (fun l => lpoints c l t 0) /\
  query (c_end_of a) c w t (fun l => lpoints c l t (length (elems c t))).
Proof.
  intros t H.
  assert (B : forall A (f : segment V -> A), query (by_info f a) c w t (fun r => exists s, seg_at c t = Some s /\ r = f s)).
  { intros A f. unfold query. eapply wp_by_info; [exact H| |auto]. intros s Hs Ws Et. csplit; eauto.
    destruct (seg_at_in _ _ _ Hs) as (n & Hin & Ht & _). rewrite types_nodes. unfold t. rewrite <- Ht. exact (in_map n_ty _ _ Hin). }
  csplit; unfold c_size_of, c_empty_of, c_max_size_of, c_capacity_of;
    try (eapply wp_mono; [apply B| |auto]; intros ? ? (? & ? & s & Hs & ->); csplit; auto).
  - rewrite elems_seg_at, Hs. auto.
  - rewrite elems_seg_at, Hs. unfold seg_empty, seg_size, be_size, vsize, elems_of. rewrite Nat.eqb_eq.
    destruct (v_elems (be_store (sg_be s))); simpl; split; auto; discriminate.
  - unfold seg_max_size, be_max_size. destruct (seg_at_in _ _ _ Hs) as (n & _ & Ht & <-). unfold n_ty in Ht. rewrite Ht. auto.
  - unfold cap_of. rewrite Hs. auto.
  - unfold query. eapply wp_c_begin_of; eauto.
  - unfold query. eapply wp_c_end_of; eauto.
Qed.
Example C07_queries_ex lay : let E := dE lay in
  reach (dw lay) [dc lay; dx lay] [] /\ In (env_ty 35) (types (dc lay)) /\ ~ In (env_ty 75) (types (dc lay)).
Proof. demo lay. Qed.

(** *** C06 again: the history of a collection does not matter *)

(** The same value or the same exception. *)
Definition same_answer {S A} (x y : outcome S A) : Prop :=
  match x, y with
  | Ok _ n, Ok _ n' => n = n'
  | Exn _ e, Exn _ e' => e = e'
  | _, _ => False
  end.
Lemma query_same {V} {E : Env V} {A} (m m' : M (coll V * world) A) c w c' w' t (Q : A -> Prop) :
  query m c w t Q -> query m' c' w' t Q -> types c = types c' -> (forall x y, Q x -> Q y -> x = y) ->
  same_answer (m (c, w)) (m' (c', w')).
Proof.
  unfold query, wp, same_answer. intros P P' T U. rewrite <- T in P'.
  destruct (m (c, w)) as [s n|s e|], (m' (c', w')) as [s' n'|s' e'|]; try tauto.
  - apply U; tauto.
  - destruct P as (_ & _ & ->), P' as (_ & _ & ->). auto.
Qed.

(** Two collections with the same segments give the same answers, whatever happened before
    (lookups, rehashing, copies, moves, ...). *)
Theorem C06_history_irrelevant {V} {E : Env V} w c g d w' c' g' d' a :
  reach w (c :: g) d -> reach w' (c' :: g') d' -> content c = content c' ->
  is_registered c a = is_registered c' a /\
  same_answer (c_size_of a (c, w)) (c_size_of a (c', w')) /\
  same_answer (c_empty_of a (c, w)) (c_empty_of a (c', w')) /\
  same_answer (c_max_size_of a (c, w)) (c_max_size_of a (c', w')).
Proof.
  intros H H' Q. assert (T : types c = types c') by (unfold types; rewrite Q; auto). split.
  - pose proof (is_registered_iff w c g d a H). pose proof (is_registered_iff w' c' g' d' a H'). rewrite T in *.
    destruct (is_registered c a), (is_registered c' a); intuition discriminate.
  - destruct (C07_queries w c g d a H) as (A1 & A2 & A3 & _), (C07_queries w' c' g' d' a H') as (B1 & B2 & B3 & _).
    rewrite <- (content_elems _ _ Q) in B1, B2. csplit; eapply query_same; eauto; cbv beta.
    + intros; congruence.
    + intros x y Hx Hy. apply eq_true_iff_eq. tauto.
    + intros; congruence.
Qed.
Example C06_history_irrelevant_ex lay : let E := dE lay in
  let s := gs E [(10, Some 1); (19, Some 2)] in let s' := gs E [(12, Some 1); (12, Some 2)] in
  reach (snd s) [fst s] [] /\ reach (snd s') [fst s'] [] /\
  content (fst s) = content (fst s') /\ c_cache (fst s) <> c_cache (fst s').
Proof. cbv zeta. csplit; [apply gs_reach; destruct lay; vm_compute; reflexivity..|demo_fact lay|demo_fact lay]. Qed.

Theorem C07_modifiers {V} {E : Env V} w c g d a n : let t := env_ty a in reach w (c :: g) d ->
  (forall m, In m [c_clear_info a; c_shrink_info a; c_reserve_info a n] ->
   wp m (c, w)
    (fun _ _ => In t (types c))
    (fun s e => ((exists u, e = UnregisteredType u) <-> ~ In t (types c)) /\
       (~ In t (types c) -> e = UnregisteredType t /\ s = (c, w)))).
Proof.
  intros t H m [<-|[<-|[<-|[]]]].
  - eapply wp_mono; [eapply spec_clear_info; eauto| |].
    + intros [c' w'] _ (I & _). exact I.
    + intros [c' w'] e (N & -> & -> & ->). split; auto. split; eauto.
  - eapply wp_mono; [eapply spec_shrink_info; eauto| |].
    + intros [c' w'] _ (I & _). exact I.
    + intros [c' w'] e [(N & -> & -> & ->)|(I & _ & X)]; [split; auto; split; eauto|].
      split; [|tauto]. split; [|tauto]. intros (u & ->). destruct X as [([|(? & _)] & _)|[(? & _)|(? & _)]]; discriminate.
  - eapply wp_mono; [eapply spec_reserve_info; eauto| |].
    + intros [c' w'] _ (I & _). exact I.
    + intros [c' w'] e [(N & -> & -> & ->)|(I & _ & _ & _ & _ & X)]; [split; auto; split; eauto|].
      split; [|tauto]. split; [|tauto]. intros (u & ->). destruct X as [([|(? & _)] & _)|[(? & _)|(? & _)]]; discriminate.
Qed.
Example C07_modifiers_ex lay : let E := dE lay in
  reach (dw lay) [dc lay; dx lay] [] /\ In (env_ty 15) (types (dc lay)) /\ ~ In (env_ty 75) (types (dc lay)).
Proof. demo lay. Qed.

(** Insertion through a reference: [unregistrable c x] says that the dynamic type of [x] is not
    registered and is not the static type, or cannot be stored. *)
Theorem C07_insert {V} {E : Env V} w c g d x v : let t := env_ty (a_dyn x) in
  reach w (c :: g) d -> arg_ok x -> src_c c t (a_how x) (a_src x) v ->
  wp (c_insert x) (c, w)
    (fun _ _ => ~ unregistrable c x)
    (fun '(c', w') e => ((exists u, e = UnregisteredType u) <-> unregistrable c x) /\
       (unregistrable c x -> e = UnregisteredType t /\ unchanged c c')).
Proof.
  intros t H A S. eapply wp_mono; [eapply spec_insert; eauto| |].
  - intros [c' w'] r (N & _). exact N.
  - intros [c' w'] e [(U & -> & C)|(N & _ & T & _)]; [split; auto; split; eauto|].
    split; [|tauto]. split; [|tauto]. intros (u & ->). destruct T as [([|(? & _)] & _)|[(? & _)|(? & _)]]; discriminate.
Qed.
Example C07_insert_ex lay : let E := dE lay in
  let x := mkarg 10 60 true false HCopy (SVal 3) in
  reach (dw lay) [dc lay; dx lay] [] /\ arg_ok x /\ src_c (dc lay) (env_ty 60) (a_how x) (a_src x) 3 /\ unregistrable (dc lay) x.
Proof.
  cbv zeta. csplit; [apply d_reach|intros Q; discriminate|left; reflexivity|].
  split; [demo_fact lay|]. right. split; [reflexivity|]. vm_compute. lia.
Qed.

Theorem C07_insert_hint {V} {E : Env V} w c g d hint i k x v : let t := env_ty (a_dyn x) in
  reach w (c :: g) d -> located c hint i -> hint_at c hint t k -> hint_safe c hint t -> arg_ok x -> src_c c t (a_how x) (a_src x) v ->
  wp (c_insert_hint hint x) (c, w)
    (fun _ _ => ~ unregistrable c x)
    (fun '(c', w') e => ((exists u, e = UnregisteredType u) <-> unregistrable c x) /\
       (unregistrable c x -> e = UnregisteredType t /\ unchanged c c')).
Proof.
  intros t H L Ha Hs A S. eapply wp_mono; [eapply spec_insert_hint; eauto| |].
  - intros [c' w'] r (N & _). exact N.
  - intros [c' w'] e [(U & -> & C)|(N & _ & T & _)]; [split; auto; split; eauto|].
    split; [|tauto]. split; [|tauto]. intros (u & ->). destruct T as [([|(? & _)] & _)|[(? & _)|(? & _)]]; discriminate.
Qed.
Example C07_insert_hint_ex lay : let E := dE lay in
  let x := mkarg 10 20 false false HCopy (SVal 3) in let it := it_at (dc lay) 2 1 in
  reach (dw lay) [dc lay; dx lay] [] /\ located (dc lay) it 4 /\ hint_at (dc lay) it 2 1 /\
  hint_safe (dc lay) it 2 /\ arg_ok x /\ src_c (dc lay) (env_ty 20) (a_how x) (a_src x) 3.
Proof.
  cbv zeta. csplit; [apply d_reach|demo_fact lay|left; demo_fact lay|right; left; demo_fact lay|intros Q; discriminate|left; reflexivity].
Qed.

(** ** C29 Conversions between local_base_iterator and local_iterator<T> *)

Theorem C29_conversions {V} {E : Env V} w c g d l t k : reach w (c :: g) d -> lpoints c l t k ->
  li_deref c l = option_map (pair t) (nth_error (elems c t) k) /\
  (exists q, li_to_conc c l = Some (mkliter (li_map l) (PConc q)) /\ lpoints c (mkliter (li_map l) (PConc q)) t k) /\
  (exists q, li_to_base c l = Some (mkliter (li_map l) (PBase q)) /\ lpoints c (mkliter (li_map l) (PBase q)) t k) /\
  (forall p, li_pos l = PBase p -> exists l', li_to_conc c l = Some l' /\ li_to_base c l' = Some l) /\
  (forall p, li_pos l = PConc p -> exists l', li_to_base c l = Some l' /\ li_to_conc c l' = Some l).
Proof.
  intros H L. csplit.
  - eapply li_deref_spec; eauto.
  - eapply li_to_conc_spec; eauto.
  - eapply li_to_base_spec; eauto.
  - eapply (proj1 (li_round w c g d l t k H L)).
  - eapply (proj2 (li_round w c g d l t k H L)).
Qed.
Example C29_conversions_ex lay : let E := dE lay in
  reach (dw lay) [dc lay; dx lay] [] /\ lpoints (dc lay) (li_base (dc lay) 1 3) 1 3 /\
  lpoints (dc lay) (li_conc (dc lay) 1 2) 1 2 /\ lpoints (dc lay) (li_base (dc lay) 3 0) 3 0.
Proof. demo lay. Qed.

(** Conversions between local iterators and iterators of the whole collection. *)
Theorem C29_local_and_global {V} {E : Env V} w c g d l t k : reach w (c :: g) d -> lpoints c l t k ->
  exists it, iter_from c l = Some it /\ located c it (offset (content c) t + k) /\
    (k < length (elems c t) -> points c it t k /\ exists l', liter_from it = Some l' /\ lpoints c l' t k).
Proof.
  intros H L. destruct (iter_from_spec w c g d l t k H L) as (it & A & B & C). exists it. csplit; auto.
  intros Hk. split; auto. apply liter_from_spec. auto.
Qed.
Example C29_local_and_global_ex lay : let E := dE lay in
  reach (dw lay) [dc lay; dx lay] [] /\ lpoints (dc lay) (li_base (dc lay) 2 1) 2 1 /\ 1 < length (elems (dc lay) 2).
Proof. demo lay. Qed.

(** ** C53 Segment order is stable until a new segment is created *)

Theorem C53_segment_order {V} {E : Env V} w c g d m safe new vals :
  reach w (c :: g) d -> api g c m safe new vals ->
  wp m (c, w)
    (fun '(c', w') _ => incl (types c') (types c) -> types c' = types c)
    (fun '(c', w') e => incl (types c') (types c) -> types c' = types c).
Proof.
  intros H A. eapply wp_mono; [eapply api_kept; eauto| |]; intros [c' w'] ? K; apply K.
Qed.
Example C53_segment_order_ex lay : let E := dE lay in
  reach (dw lay) [dc lay; dx lay] [] /\ (exists safe, api [dx lay] (dc lay) (void (c_emplace 25 (SVal 0))) safe [2] [(2, 0)]) /\
  incl [2] (types (dc lay)).
Proof.
  cbv zeta. csplit; [apply d_reach| |intros t [<-|[]]; demo_fact lay].
  eexists. refine (api_emplace (E := dE lay) [dx lay] (dc lay) 25 (SVal 0) 0 _). left. reflexivity.
Qed.

Print Assumptions C01_one_segment_per_type.
Print Assumptions C01_elements_by_segment.
Print Assumptions C01_calls_route_by_type.
Print Assumptions C02_traversal.
Print Assumptions C02_range_traversal.
Print Assumptions C03_size.
Print Assumptions C03_size_of_type.
Print Assumptions C04_begin_end.
Print Assumptions C04_normalised.
Print Assumptions C04_equality.
Print Assumptions C05_is_registered.
Print Assumptions C05_new_collection.
Print Assumptions C05_calls_register_exactly.
Print Assumptions C05_register_types.
Print Assumptions C06_lookup_by_type.
Print Assumptions C06_history_irrelevant.
Print Assumptions C07_queries.
Print Assumptions C07_modifiers.
Print Assumptions C07_insert.
Print Assumptions C07_insert_hint.
Print Assumptions C29_conversions.
Print Assumptions C29_local_and_global.
Print Assumptions C53_segment_order.
