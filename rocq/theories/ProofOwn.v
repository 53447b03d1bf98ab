(** * Elements of a collection moved into the collection itself *)

From Coq Require Import List Arith Lia Bool Permutation.
From Verif Require Import Base Vec Backend Segment Coll StdAlg Algo Access Spec SpecAlg SpecAcc ProofBase ProofVec ProofBackend ProofOps ProofOps2 ProofSeg ProofMap ProofView
  ProofAlgo ProofColl Reach ProofReach ProofObs ProofProp ProofProp4 ProofAccess.
Import ListNotations.

Section POwn.
Context {V : Type} {E : Env V}.

(** ** Backends *)

Definition own (b : backend V) (j : nat) (m : V) : backend V :=
  mkbackend (mkvec (v_blk (be_store b)) (v_cap (be_store b)) (firstn j (belems b) ++ m :: skipn (S j) (belems b))) (be_index b) (be_self b).
Lemma read_own b j v w : nth_error (belems b) j = Some v ->
  read_src HMove (SRef (vptr (be_store b) j)) (b, w) = Ok (own b j (env_junk (w_clock w) j), w) v.
Proof. intros H. unfold read_src, vptr, bind at 1, getx at 1. cbn [fst]. rewrite Nat.eqb_refl. unfold belems in H. rewrite H. reflexivity. Qed.
Lemma own_size b j v m : nth_error (belems b) j = Some v -> vsize (be_store (own b j m)) = vsize (be_store b).
Proof.
  intros H. unfold own, vsize, belems in *. cbn [be_store v_elems]. assert (j < length (v_elems (be_store b))) by (apply nth_error_Some; congruence).
  rewrite app_length, firstn_length. change (length (m :: skipn (S j) (v_elems (be_store b)))) with (S (length (skipn (S j) (v_elems (be_store b))))).
  rewrite skipn_length. lia.
Qed.

Lemma bind_ok {S A B} (m : M S A) (f : A -> M S B) s s' a : m s = Ok s' a -> bind m f s = f a s'.
Proof. intros H. unfold bind. rewrite H. reflexivity. Qed.

Lemma read_val h (v : V) (s : backend V * world) : read_src h (SVal v) s = Ok s v.
Proof. reflexivity. Qed.

Definition has_room (b : backend V) : Prop := env_layout = SplitLayout -> bsize b < bcap b.

Lemma push_own t b j v w : nth_error (belems b) j = Some v -> has_room b ->
  be_push_back t HMove (SRef (vptr (be_store b) j)) (b, w) = be_push_back t HMove (SVal v) (own b j (env_junk (w_clock w) j), w).
Proof.
  intros H R. unfold be_push_back. unfold has_room in R. destruct env_layout.
  - unfold pk_push_back. rewrite (bind_ok _ _ _ _ _ (read_own b j v w H)). rewrite (bind_ok _ _ _ _ _ (read_val HMove v _)). reflexivity.
  - specialize (R eq_refl). unfold bsize, bcap in R. unfold sp_push_back.
    assert (P : forall b1, vsize (be_store b1) = vsize (be_store b) -> v_cap (be_store b1) = v_cap (be_store b) -> sp_prereserve t (b1, w) = Ok (b1, w) tt).
    { intros b1 S1 C1. unfold sp_prereserve, bind, getx. cbn [fst]. rewrite S1, C1, (proj2 (Nat.eqb_neq _ _)) by lia. reflexivity. }
    rewrite (bind_ok _ _ _ _ _ (P b eq_refl eq_refl)), (bind_ok _ _ _ _ _ (read_own b j v w H)). rewrite (bind_ok _ _ _ _ _ (P (own b j (env_junk (w_clock w) j)) (own_size _ _ _ _ H) eq_refl)), (bind_ok _ _ _ _ _ (read_val HMove v _)). reflexivity.
Qed.
(** the positions do not depend on the values of the elements *)
Lemma bind_same {A B} (m : M (backend V * world) A) (f g : A -> M (backend V * world) B) b b' w :
  m (b', w) = match m (b, w) with Ok _ k => Ok (b', w) k | _ => UB end ->
  match m (b, w) with Ok s _ => s = (b, w) | Exn _ _ => False | UB => True end ->
  (forall k, f k (b, w) = g k (b', w)) -> bind m f (b, w) = bind m g (b', w).
Proof. intros P Q H. unfold bind. rewrite P. destruct (m (b, w)) as [s k| |]; [subst s; apply H|destruct Q|reflexivity]. Qed.
Lemma insert_own t p b j v w : nth_error (belems b) j = Some v -> has_room b ->
  be_insert t HMove p (SRef (vptr (be_store b) j)) (b, w) = be_insert t HMove p (SVal v) (own b j (env_junk (w_clock w) j), w).
Proof.
  intros H R. unfold be_insert. unfold has_room in R. set (b' := own b j (env_junk (w_clock w) j)). destruct env_layout.
  - unfold pk_insert. apply bind_same.
    + unfold pk_iterator_from, bind, getx. cbn [fst b' own be_store v_blk]. destruct (_ =? _); reflexivity.
    + unfold pk_iterator_from, bind, getx. cbn [fst]. destruct (_ =? _); cbn; auto.
    + intros k. rewrite (bind_ok _ _ _ _ _ (read_own b j v w H)), (bind_ok _ _ _ _ _ (read_val HMove v _)). reflexivity.
  - specialize (R eq_refl). unfold bsize, bcap in R. unfold sp_insert. apply bind_same.
    + destruct p as [q|q]; cbn [sp_conc]; [|reflexivity]. unfold sp_to_concrete, bind, getx. cbn [fst b' own be_index].
      destruct (_ =? _); [|reflexivity]. destruct (nth_error (v_elems (be_index b)) (snd q)); reflexivity.
    + destruct p as [q|q]; cbn [sp_conc]; [|reflexivity]. unfold sp_to_concrete, bind, getx. cbn [fst].
      destruct (_ =? _); [|exact I]. destruct (nth_error (v_elems (be_index b)) (snd q)); cbn; auto.
    + intros q. unfold sp_emplace.
      assert (G : forall b1, vsize (be_store b1) = vsize (be_store b) -> v_cap (be_store b1) = v_cap (be_store b) -> sp_prereserve_at t q (b1, w) = Ok (b1, w) q).
      { intros b1 S1 C1. unfold sp_prereserve_at, bind, getx. cbn [fst]. rewrite S1, C1, (proj2 (Nat.eqb_neq _ _)) by lia. reflexivity. }
      rewrite (bind_ok _ _ _ _ _ (G b eq_refl eq_refl)), (bind_ok _ _ _ _ _ (G b' (own_size _ _ _ _ H) eq_refl)). apply bind_same.
      * unfold sp_iterator_from, bind, getx. cbn [fst b' own be_index be_store v_blk]. destruct q; (destruct (_ =? _); reflexivity).
      * unfold sp_iterator_from, bind, getx. cbn [fst]. destruct q; (destruct (_ =? _); cbn; auto).
      * intros k. rewrite (bind_ok _ _ _ _ _ (read_own b j v w H)), (bind_ok _ _ _ _ _ (read_val HMove v _)). reflexivity.
Qed.

(** ** Segments *)

Lemma put_rewrite j m (l : list V) v : nth_error l j = Some v ->
  firstn j l ++ m :: skipn (S j) l = rewrite_elems (fun k x => if k =? j then m else x) l.
Proof.
  intros H. assert (L : j < length l) by (apply nth_error_Some; congruence). apply nth_error_ext. intros k. rewrite rewrite_nth.
  destruct (Nat.eqb_spec k j) as [->|Ne].
  - rewrite H. cbn [option_map]. rewrite nth_error_app2; rewrite firstn_length, Nat.min_l by lia; [|lia]. rewrite Nat.sub_diag. reflexivity.
  - destruct (Nat.lt_ge_cases k j) as [Lt|Ge].
    + rewrite nth_error_app1 by (rewrite firstn_length; lia). rewrite <- (firstn_skipn j l) at 2. rewrite nth_error_app1 by (rewrite firstn_length; lia).
      destruct (nth_error _ k); reflexivity.
    + rewrite nth_error_app2; rewrite firstn_length, Nat.min_l by lia; [|lia]. replace (k - j) with (S (k - S j)) by lia. cbn [nth_error].
      rewrite <- (firstn_skipn (S j) l) at 2. rewrite nth_error_app2; rewrite firstn_length, Nat.min_l by lia; [|lia].
      destruct (nth_error _ (k - S j)); reflexivity.
Qed.
Lemma seg_write_own j m v (s : segment V) : nth_error (elems_of s) j = Some v ->
  seg_write (vptr (be_store (sg_be s)) j) m s = mkseg (sg_ty s) (sg_al s) (own (sg_be s) j m) (sg_snt s).
Proof.
  intros H. unfold seg_write, rewrite_seg, own, belems. f_equal. f_equal. f_equal. unfold elems_of in H. rewrite (put_rewrite j m _ v H).
  apply nth_error_ext. intros k. rewrite !rewrite_nth. unfold vptr, ptr_eqb. cbn [fst snd]. rewrite Nat.eqb_refl. reflexivity.
Qed.
Lemma on_be_own {A} (m m' : M (backend V * world) A) (s : segment V) b' w : m (sg_be s, w) = m' (b', w) ->
  on_be m (s, w) = on_be m' (mkseg (sg_ty s) (sg_al s) b' (sg_snt s), w).
Proof. intros H. unfold on_be, on_field. cbn [fst snd sg_be sg_ty sg_al sg_snt]. rewrite H. reflexivity. Qed.
Definition seg_room (s : segment V) : Prop := has_room (sg_be s).
Lemma filter_own t (m m' : M (backend V * world) (ptr * ptr)) (s : segment V) b' w : m (sg_be s, w) = m' (b', w) ->
  (check_ty t ;; filter_range m)%mon (s, w) = (check_ty t ;; filter_range m')%mon (mkseg (sg_ty s) (sg_al s) b' (sg_snt s), w).
Proof.
  intros H. unfold check_ty, bind at 1 2 3 4, getx. cbn [fst sg_ty]. destruct (sg_ty s =? t); [|reflexivity]. cbn.
  unfold filter_range. unfold bind at 1 3. rewrite (on_be_own m m' s b' w H). reflexivity.
Qed.

(** ** Collections *)

Definition setn (c : coll V) (i : nat) (s : segment V) : coll V :=
  mkcoll (node_upd (c_nodes c) i s) (c_buckets c) (c_cache c) (c_al c).
Lemma map_find_upd ns i (s : segment V) a : map_find (node_upd ns i s) a = map_find ns a.
Proof. induction ns as [|n ns IH]; cbn; auto. destruct (n_id n =? i); cbn; [reflexivity|]. rewrite IH. reflexivity. Qed.
Lemma node_upd2 ns i (s s' : segment V) : node_upd (node_upd ns i s) i s' = node_upd ns i s'.
Proof. induction ns as [|n ns IH]; cbn; auto. destruct (n_id n =? i) eqn:Q; cbn; rewrite Q; [reflexivity|]. rewrite IH. reflexivity. Qed.
Lemma node_at_upd ns i (s : segment V) : node_at (node_upd ns i s) i = option_map (fun n => mknode (n_id n) (n_key n) s) (node_at ns i).
Proof. induction ns as [|n ns IH]; cbn; auto. destruct (n_id n =? i) eqn:Q; cbn; rewrite Q; auto. Qed.

Definition lift {A} i s (o : outcome (coll V * world) A) : outcome (coll V * world) A :=
  match o with Ok (c, w) a => Ok (setn c i s, w) a | Exn (c, w) e => Exn (setn c i s, w) e | UB => UB end.
Lemma tim_find_set a i s c w : tim_find a (setn c i s, w) = lift i s (tim_find a (c, w)).
Proof.
  unfold lift, tim_find, cache_insert, bind, getx, setx, ret, on_world, tick. cbn [fst snd setn c_cache c_nodes].
  destruct (cache_find (c_cache c) a) as [m|] eqn:Q; [reflexivity|]. rewrite map_find_upd.
  destruct (map_find (c_nodes c) a); [|reflexivity]. destruct (env_fault _); [reflexivity|]. cbn [fst snd setn c_cache c_nodes]. rewrite Q. reflexivity.
Qed.
(** Finding the segment of a registered type: that node, or no memory for the cache. *)
Lemma tim_find_own a n c w : wfm w c -> In n (c_nodes c) -> env_ty a = n_ty n ->
  (exists c1 w1, tim_find a (c, w) = Ok (c1, w1) (Some (n_id n)) /\ c_nodes c1 = c_nodes c) \/
  (exists w1 e, tim_find a (c, w) = Exn (c, w1) e).
Proof.
  intros W Hn Ht. assert (F : map_find (c_nodes c) a = Some (n_id n)).
  { destruct W as [_ _ Ty Ky _ _]. clear - Hn Ht Ty Ky. induction (c_nodes c) as [|m ns IH]; [destruct Hn|]. cbn [map_find].
    inversion Ty; inversion Ky; subst. destruct Hn as [->|Hn].
    - rewrite H5, Ht, Nat.eqb_refl. reflexivity.
    - rewrite H5, Ht, (proj2 (Nat.eqb_neq _ _)); auto. intros Q. apply H1. rewrite Q. apply in_map. auto. }
  unfold tim_find, cache_insert, bind, getx, setx, ret, on_world, tick. cbn [fst snd]. destruct (cache_find (c_cache c) a) as [m|] eqn:Q.
  - destruct (wm_cache _ _ W a m Q) as (i & -> & F'). left. exists c, w. rewrite F in F'. injection F' as <-. auto.
  - rewrite F. destruct (env_fault _).
    + right. eauto.
    + left. cbn [fst snd]. rewrite Q. do 2 eexists. split; reflexivity.
Qed.

(** ... for the argument of insert *)
Lemma lookup_own (x : arg V) n c w : wfm w c -> arg_ok x -> In n (c_nodes c) -> env_ty (a_dyn x) = n_ty n ->
  (exists c1 w1, map_iterator_for x (c, w) = Ok (c1, w1) (n_id n) /\ c_nodes c1 = c_nodes c /\
     forall s, map_iterator_for x (setn c (n_id n) s, w) = Ok (setn c1 (n_id n) s, w1) (n_id n)) \/
  (exists w1 e, map_iterator_for x (c, w) = Exn (c, w1) e).
Proof.
  intros W Ax Hn Ht. unfold map_iterator_for. destruct (a_acceptable x).
  - destruct (a_terminal x) eqn:T.
    + destruct (tim_find_own (a_static x) n c w W Hn ltac:(rewrite Ax; auto)) as [(c1 & w1 & Q & N1)|(w1 & e & Q)].
      * left. exists c1, w1. csplit; auto.
        -- unfold find_or_make, bind at 1. rewrite Q. reflexivity.
        -- intros s. unfold find_or_make, bind at 1. rewrite tim_find_set, Q. reflexivity.
      * right. exists w1, e. unfold find_or_make, bind at 1. rewrite Q. reflexivity.
    + destruct (tim_find_own (a_dyn x) n c w W Hn Ht) as [(c1 & w1 & Q & N1)|(w1 & e & Q)].
      * left. exists c1, w1. csplit; auto.
        -- unfold bind at 1. rewrite Q. reflexivity.
        -- intros s. unfold bind at 1. rewrite tim_find_set, Q. reflexivity.
      * right. exists w1, e. unfold bind at 1. rewrite Q. reflexivity.
  - left. exists c, w. assert (F : tim_find_const c (a_dyn x) = Some (n_id n)).
    { destruct (tim_find_own (a_dyn x) n c w W Hn Ht) as [(c1 & w1 & Q & N1)|(w1 & e & Q)];
        revert Q; unfold tim_find_const, tim_find, bind at 1, getx; cbn [fst]; (destruct (cache_find (c_cache c) (a_dyn x)) as [m|];
        [intros Q; inversion Q; auto|]); (destruct (map_find (c_nodes c) (a_dyn x)) eqn:F; [|intros Q; inversion Q]).
      - unfold cache_insert, bind, on_world, tick, getx, ret. cbn [snd fst]. destruct (env_fault _); [discriminate|]. cbn [fst].
        destruct (cache_find _ _); cbn; intros Q; inversion Q; auto.
      - destruct W as [_ _ Ty Ky _ _]. clear - Hn Ht Ty Ky F. intros _. rewrite <- F. clear F. induction (c_nodes c) as [|m ns IH]; [destruct Hn|]. cbn [map_find].
        inversion Ty; inversion Ky; subst. destruct Hn as [->|Hn].
        + rewrite H5, Ht, Nat.eqb_refl. reflexivity.
        + rewrite H5, Ht, (proj2 (Nat.eqb_neq _ _)); auto. intros Q. apply H1. rewrite Q. apply in_map. auto. }
    csplit; auto.
    + unfold bind at 1, getx. cbn [fst]. rewrite F. reflexivity.
    + intros s. unfold bind at 1, getx. cbn [fst]. unfold tim_find_const in *. cbn [setn c_cache c_nodes]. rewrite map_find_upd, F. reflexivity.
Qed.

(** The collection with one element given another value. *)
Lemma seg_write_away p m (s : segment V) : (forall k, k < length (elems_of s) -> vptr (be_store (sg_be s)) k <> p) -> seg_write p m s = s.
Proof.
  intros H. destruct s as [ty al [[blk cap es] ix self] snt]. unfold seg_write, rewrite_seg. cbn [sg_ty sg_al sg_be sg_snt be_store be_index be_self v_blk v_cap v_elems].
  do 3 f_equal. apply nth_error_ext. intros k. rewrite rewrite_nth. destruct (nth_error es k) as [x|] eqn:Q; auto. cbn [option_map]. f_equal.
  destruct (ptr_eqb_spec (vptr (mkvec blk cap es) k) p) as [Eq|]; auto. exfalso. apply (H k); auto. apply nth_error_Some. unfold elems_of. cbn. congruence.
Qed.
Lemma sblk_inj ns (n n' : node V) : vok ns -> In n ns -> In n' ns -> 0 < sblk n -> 0 < sblk n' -> sblk n = sblk n' -> n = n'.
Proof.
  induction ns as [|x ns IH]; intros W Hn Hn' P P' Eq; [destruct Hn|]. destruct Hn as [->|Hn], Hn' as [->|Hn']; auto.
  - exfalso. apply (sblk_other n ns n' W Hn' P'). auto.
  - exfalso. apply (sblk_other n' ns n W Hn P). auto.
  - apply IH; auto. eapply vok_tail; eauto.
Qed.
Lemma write_setn w c g d n j m : reach w (c :: g) d -> In n (c_nodes c) -> j < length (elems_of (n_seg n)) ->
  c_write (vptr (be_store (sg_be (n_seg n))) j) m c = setn c (n_id n) (seg_write (vptr (be_store (sg_be (n_seg n))) j) m (n_seg n)).
Proof.
  intros H Hn Hj. unfold c_write, setn. f_equal. assert (Vo := reach_vok _ _ _ _ H). assert (Id := vok_ids _ Vo).
  assert (Aw : forall n', In n' (c_nodes c) -> n_id n' <> n_id n -> seg_write (vptr (be_store (sg_be (n_seg n))) j) m (n_seg n') = n_seg n').
  { intros n' Hn' Ne. apply seg_write_away. intros k Hk Eq. apply Ne. f_equal. destruct (Vo) as [A _ _]. rewrite Forall_forall in A. apply (sblk_inj (c_nodes c)); auto.
    - apply sblk_pos; [apply A; auto|]. unfold bsize, vsize. unfold elems_of in Hk. lia.
    - apply sblk_pos; [apply A; auto|]. unfold bsize, vsize. unfold elems_of in Hj. lia.
    - unfold vptr in Eq. injection Eq. auto. }
  revert Hn Id Aw. generalize (vptr (be_store (sg_be (n_seg n))) j) as p. intros p Hn Id Aw. clear Vo.
  induction (c_nodes c) as [|n' ns IH]; [destruct Hn|]. cbn [map node_upd]. inversion Id as [|? ? Ni Id']; subst. destruct Hn as [->|Hn].
  - rewrite Nat.eqb_refl. f_equal. transitivity (map (fun n0 : node V => n0) ns); [|apply map_id]. apply map_ext_in. intros n0 H0. rewrite Aw; [destruct n0; reflexivity|right; auto|].
    intros Q. apply Ni. rewrite <- Q. apply in_map. auto.
  - assert (Ne : n_id n' <> n_id n) by (intros Q; apply Ni; rewrite Q; apply in_map; auto). rewrite (proj2 (Nat.eqb_neq _ _) Ne). f_equal.
    + rewrite Aw; [destruct n'; reflexivity|left; auto|exact Ne].
    + apply IH; auto. intros n0 H0. apply Aw. right. auto.
Qed.
Lemma setn_id c n : NoDup (map n_id (c_nodes c)) -> In n (c_nodes c) -> setn c (n_id n) (n_seg n) = c.
Proof.
  intros Id Hn. destruct c as [ns bk ca al]. unfold setn. cbn [c_nodes c_buckets c_cache c_al] in *. f_equal.
  induction ns as [|n' ns IH]; [destruct Hn|]. cbn [node_upd]. inversion Id as [|? ? Ni Id']; subst. destruct Hn as [->|Hn].
  - rewrite Nat.eqb_refl. destruct n; reflexivity.
  - assert (Ne : n_id n' <> n_id n) by (intros Q; apply Ni; rewrite Q; apply in_map; auto). rewrite (proj2 (Nat.eqb_neq _ _) Ne). f_equal. auto.
Qed.
Lemma seg_write_same j v (s : segment V) : nth_error (elems_of s) j = Some v -> seg_write (vptr (be_store (sg_be s)) j) v s = s.
Proof.
  intros H. destruct s as [ty al [[blk cap es] ix self] snt]. unfold seg_write, rewrite_seg. cbn [sg_ty sg_al sg_be sg_snt be_store be_index be_self v_blk v_cap v_elems].
  do 3 f_equal. apply nth_error_ext. intros k. rewrite rewrite_nth. destruct (nth_error es k) as [x|] eqn:Q; auto. cbn [option_map]. f_equal.
  destruct (ptr_eqb_spec (vptr (mkvec blk cap es) k) (vptr (mkvec blk cap es) j)) as [Eq|]; auto. unfold vptr in Eq. injection Eq as ->.
  unfold elems_of in H. cbn in H. congruence.
Qed.

Lemma node_at_in ns (n : node V) : NoDup (map n_id ns) -> In n ns -> node_at ns (n_id n) = Some n.
Proof.
  intros Id Hn. induction ns as [|n' ns IH]; [destruct Hn|]. cbn [node_at]. inversion Id as [|? ? Ni Id']; subst. destruct Hn as [->|Hn].
  - rewrite Nat.eqb_refl. reflexivity.
  - rewrite (proj2 (Nat.eqb_neq _ _)); auto. intros Q; apply Ni; rewrite Q; apply in_map; auto.
Qed.
Lemma on_seg_own {A} (m m' : M (segment V * world) A) c n s' w : NoDup (map n_id (c_nodes c)) -> In n (c_nodes c) ->
  m (n_seg n, w) = m' (s', w) -> on_seg (n_id n) m (c, w) = on_seg (n_id n) m' (setn c (n_id n) s', w).
Proof.
  intros Id Hn H. unfold on_seg. rewrite (node_at_in _ _ Id Hn), H. unfold setn at 1. cbn [c_nodes]. rewrite node_at_upd, (node_at_in _ _ Id Hn).
  cbn [option_map n_seg]. unfold setn. cbn [c_nodes c_buckets c_cache c_al]. destruct (m' (s', w)) as [[? ?] ?|[? ?] ?|]; auto; rewrite node_upd2; reflexivity.
Qed.

(** What is at the address given *)
Lemma addr_node (c : coll V) t j p v : NoDup (map n_ty (c_nodes c)) -> addr_of c t j = Some p -> nth_error (elems c t) j = Some v ->
  exists n, In n (c_nodes c) /\ n_ty n = t /\ p = vptr (be_store (sg_be (n_seg n))) j /\ nth_error (elems_of (n_seg n)) j = Some v /\
    cap_of c t = v_cap (be_store (sg_be (n_seg n))) /\ elems c t = elems_of (n_seg n).
Proof.
  intros ND Ha Hv. unfold addr_of, seg_at in Ha. destruct (find _ (c_nodes c)) as [n|] eqn:F; [|discriminate]. cbn [option_map] in Ha.
  apply find_some in F. destruct F as (Hn & Q). apply Nat.eqb_eq in Q. exists n.
  destruct (_ <? _); [|discriminate]. injection Ha as <-. assert (Es : elems c t = elems_of (n_seg n)).
  { rewrite elems_seg_at, <- Q. change (sg_ty (n_seg n)) with (n_ty n). rewrite (seg_at_node c n ND Hn). reflexivity. }
  rewrite Es in Hv. csplit; auto. unfold cap_of. rewrite <- Q. change (sg_ty (n_seg n)) with (n_ty n). rewrite (seg_at_node c n ND Hn). reflexivity.
Qed.

Lemma push_moved w c g d n j v w1 c1 : reach w (c :: g) d -> In n (c_nodes c) -> nth_error (elems_of (n_seg n)) j = Some v ->
  (env_layout = SplitLayout -> length (elems_of (n_seg n)) < v_cap (be_store (sg_be (n_seg n)))) -> c_nodes c1 = c_nodes c -> forall t,
  let m := env_junk (w_clock w1) j in let p := vptr (be_store (sg_be (n_seg n))) j in
  on_seg (n_id n) (seg_push_back t HMove (SRef p)) (c1, w1) = on_seg (n_id n) (seg_push_back t HMove (SVal v)) (setn c1 (n_id n) (seg_write p m (n_seg n)), w1) /\
  forall q, on_seg (n_id n) (seg_insert t HMove q (SRef p)) (c1, w1) = on_seg (n_id n) (seg_insert t HMove q (SVal v)) (setn c1 (n_id n) (seg_write p m (n_seg n)), w1).
Proof.
  intros H Hn Hv Hr Hc t m p. assert (Id := vok_ids _ (reach_vok _ _ _ _ H)). unfold p. rewrite (seg_write_own j m v _ Hv). split; [|intros q]; apply on_seg_own; rewrite ?Hc; auto.
  - unfold seg_push_back. apply filter_own. apply push_own; auto.
  - unfold seg_insert. apply filter_own. apply insert_own; auto.
Qed.

End POwn.
