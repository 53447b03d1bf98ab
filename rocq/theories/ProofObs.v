(** * Observers, positions and conversions, in reachable states *)

From Coq Require Import List Arith Lia Bool Permutation.
From Verif Require Import Base Vec Backend Segment Coll Spec Reach ProofBase ProofVec ProofBackend ProofOps ProofOps2
  ProofSeg ProofMap ProofView ProofColl ProofIns ProofEach ProofErase ProofRange ProofRange2 ProofEq ProofCopy ProofReach.
Import ListNotations.

Section PObs.
Context {V : Type} {E : Env V}.
Notation CW := (coll V * world)%type.
Notation CL := (list (coll V)).
Notation nb n := (sg_be (n_seg n)).
Notation nsz n := (bsize (sg_be (n_seg n))).

Lemma reach_wf w c g d : reach w (c :: g) d -> wfc w c /\ cown w c (PR g d) (PK g d).
Proof. intros H. apply reach_alive in H. destruct (alive_focus _ _ _ _ H) as (A & B & _). auto. Qed.
Lemma reach_vok w c g d : reach w (c :: g) d -> vok (c_nodes c).
Proof. intros H. apply reach_wf in H. destruct H. eapply wfc_vok; eauto. Qed.

(** ** Positions *)
Lemma c_size_flat (c : coll V) : c_size c = length (flat c).
Proof. rewrite flat_length. reflexivity. Qed.
Lemma begin_located w c g d : reach w (c :: g) d -> located c (c_begin c) 0.
Proof.
  intros H. destruct (reach_wf _ _ _ _ H) as (W & O). eapply located_at; eauto. split; [|lia].
  apply next_seg_at. apply W.
Qed.
Lemma end_located (c : coll V) : located c (c_end c) (length (flat c)).
Proof. left. auto. Qed.
Lemma next_located w c g d it i : reach w (c :: g) d -> located c it i -> i < length (flat c) ->
  exists it', it_next c it = Some it' /\ located c it' (S i).
Proof.
  intros H L Hi. destruct (reach_wf _ _ _ _ H) as (W & O). apply (located_at w c it i _ _ W O) in L. destruct L as (-> & _).
  rewrite flat_length in Hi. rewrite it_next_at; auto; [|eapply reach_vok; eauto]. eexists. split; [reflexivity|].
  eapply located_at; eauto.
Qed.
Lemma deref_located w c g d it i : reach w (c :: g) d -> located c it i -> i < length (flat c) ->
  it_deref c it = nth_error (flat c) i.
Proof.
  intros H L Hi. destruct (reach_wf _ _ _ _ H) as (W & O). apply (located_at w c it i _ _ W O) in L. destruct L as (-> & _).
  rewrite flat_length in Hi. rewrite it_deref_at, flat_nodes; auto. eapply reach_vok; eauto.
Qed.
Lemma eq_located w c g d x y i j : reach w (c :: g) d -> located c x i -> located c y j -> it_eq x y = (i =? j).
Proof.
  intros H L1 L2. destruct (reach_wf _ _ _ _ H) as (W & O).
  apply (located_at w c x i _ _ W O) in L1. apply (located_at w c y j _ _ W O) in L2.
  destruct L1 as (-> & ?), L2 as (-> & ?). apply it_eq_at; auto. eapply reach_vok; eauto.
Qed.
Lemma located_fun w c g d x i j : reach w (c :: g) d -> located c x i -> located c x j -> i = j.
Proof.
  intros H L1 L2. pose proof (eq_located _ _ _ _ _ _ _ _ H L1 L2) as Q. unfold it_eq, ptr_eqb in Q.
  rewrite !Nat.eqb_refl in Q. simpl in Q. symmetry in Q. apply Nat.eqb_eq in Q. auto.
Qed.
Lemma located_inj w c g d x y i : reach w (c :: g) d -> located c x i -> located c y i -> x = y.
Proof.
  intros H L1 L2. destruct (reach_wf _ _ _ _ H) as (W & O).
  apply (located_at w c x i _ _ W O) in L1. apply (located_at w c y i _ _ W O) in L2. destruct L1, L2. congruence.
Qed.
Lemma traverse_located w c g d x y i j fuel : reach w (c :: g) d -> located c x i -> located c y j -> i <= j -> j - i <= fuel ->
  traverse fuel c x y = Some (firstn (j - i) (skipn i (flat c))).
Proof.
  intros H L1 L2 Hij Hf. destruct (reach_wf _ _ _ _ H) as (W & O).
  apply (located_at w c x i _ _ W O) in L1. apply (located_at w c y j _ _ W O) in L2.
  destruct L1 as (-> & ?), L2 as (-> & ?). rewrite flat_nodes. apply traverse_at; auto. eapply reach_vok; eauto.
Qed.
Lemma points_located (c : coll V) it t k : points c it t k -> located c it (offset (content c) t + k).
Proof. intros P. right. eauto. Qed.
Lemma located_points w c g d it i : reach w (c :: g) d -> located c it i -> i < length (flat c) ->
  exists t k, points c it t k /\ i = offset (content c) t + k.
Proof.
  intros H L Hi. destruct L as [(-> & ->)|(t & k & P & ->)]; [lia|eauto].
Qed.
Lemma points_deref w c g d it t k : reach w (c :: g) d -> points c it t k ->
  k < length (elems c t) /\ it_deref c it = option_map (pair t) (nth_error (elems c t) k).
Proof.
  intros H P. destruct (reach_wf _ _ _ _ H) as (W & O). destruct (points_at w c it t k _ _ W O P) as (_ & _ & A & B). auto.
Qed.
(** every element has an iterator *)
Lemma points_exists w c g d t k : reach w (c :: g) d -> k < length (elems c t) -> exists it, points c it t k.
Proof.
  intros H Hk. destruct (reach_wf _ _ _ _ H) as (W & O).
  destruct (in_dec Nat.eq_dec t (map n_ty (c_nodes c))) as [Hin|Nin].
  - apply in_map_iff in Hin. destruct Hin as (n & <- & Hn). rewrite (elems_node w c n (wc_map _ _ W) Hn), n_elems_length in Hk.
    eexists. apply points_node; eauto.
  - rewrite elems_none in Hk; auto. simpl in Hk. lia.
Qed.
Lemma located_exists w c g d i : reach w (c :: g) d -> i <= length (flat c) -> exists it, located c it i.
Proof.
  intros H Hi. destruct (reach_wf _ _ _ _ H) as (W & O). exists (at_ (c_nodes c) i).
  eapply located_at; eauto. rewrite flat_length in Hi. auto.
Qed.
(** the global sequence in terms of the segments *)
Lemma nth_flat w c g d t k : reach w (c :: g) d -> k < length (elems c t) ->
  nth_error (flat c) (offset (content c) t + k) = option_map (pair t) (nth_error (elems c t) k) /\
  offset (content c) t + k < length (flat c).
Proof.
  intros H Hk. destruct (points_exists _ _ _ _ _ _ H Hk) as (it & P).
  destruct (reach_wf _ _ _ _ H) as (W & O). destruct (points_at w c it t k _ _ W O P) as (_ & A & _ & B).
  rewrite <- flat_length in A. split; auto.
  rewrite <- B. symmetry. eapply deref_located; eauto. apply points_located; auto.
Qed.

(** ** Sizes *)
Lemma empty_flat (c : coll V) : c_empty_all c = true <-> flat c = [].
Proof.
  rewrite flat_nodes. unfold c_empty_all. induction (c_nodes c) as [|n ns IH].
  - simpl. tauto.
  - cbn [forallb nflat flat_map]. rewrite andb_true_iff, IH.
    change (seg_empty (n_seg n)) with (be_size (nb n) =? 0). change (be_size (nb n)) with (nsz n).
    rewrite Nat.eqb_eq. rewrite <- n_elems_length. split.
    + intros (A & B). apply length_zero_iff_nil in A. rewrite A. simpl. exact B.
    + intros A. apply app_eq_nil in A. destruct A as (A & B). split; [|exact B].
      apply map_eq_nil in A. rewrite A. auto.
Qed.
Lemma is_registered_iff w c g d a : reach w (c :: g) d -> is_registered c a = true <-> In (env_ty a) (types c).
Proof.
  intros H. destruct (reach_wf _ _ _ _ H) as (W & O). unfold is_registered.
  rewrite (cache_transparent w c a (wc_map _ _ W)), types_nodes.
  destruct (find_spec w c a (wc_map _ _ W)) as [(n & Hin & -> & _ & Et)|(-> & Nin)].
  - split; auto. intros _. rewrite <- Et. apply in_map; auto.
  - split; [discriminate|contradiction].
Qed.
Lemma wp_by_info {A} (f : segment V -> A) a c g d w (Q : CW -> A -> Prop) (X : CW -> exn -> Prop) :
  reach w (c :: g) d ->
  (forall s, seg_at c (env_ty a) = Some s -> wfs s -> sg_ty s = env_ty a -> Q (c, w) (f s)) ->
  (~ In (env_ty a) (types c) -> X (c, w) (UnregisteredType (env_ty a))) ->
  wp (by_info f a) (c, w) Q X.
Proof.
  intros H HQ HX. destruct (reach_wf _ _ _ _ H) as (W & O). unfold by_info. apply wp_bind.
  eapply (wp_map_iterator_by_info a c w); [apply W| |].
  - intros n Hin Hat Et. eapply wp_on_seg; [exact Hat|]. apply wp_bind, wp_getx. cbn [fst]. apply wp_ret. cbn [fst snd].
    rewrite (upd_seg_id c _ _ Hat). apply HQ; auto.
    + rewrite <- Et. apply seg_at_node; auto. apply W.
    + eapply wfc_seg; eauto.
  - intros Nin. apply HX. rewrite types_nodes. auto.
Qed.

(** ** begin(info), end(info) *)
Lemma wp_c_begin_of a c g d w (Q : CW -> liter -> Prop) (X : CW -> exn -> Prop) :
  reach w (c :: g) d ->
  (forall l, In (env_ty a) (types c) -> lpoints c l (env_ty a) 0 -> Q (c, w) l) ->
  (~ In (env_ty a) (types c) -> X (c, w) (UnregisteredType (env_ty a))) ->
  wp (c_begin_of a) (c, w) Q X.
Proof.
  intros H HQ HX. destruct (reach_wf _ _ _ _ H) as (W & O). unfold c_begin_of. apply wp_bind.
  eapply (wp_map_iterator_by_info a c w); [apply W| |].
  - intros n Hin Hat Et. apply wp_bind. eapply wp_on_seg; [exact Hat|]. apply wp_bind, wp_getx. cbn [fst]. apply wp_ret. cbn [fst snd].
    rewrite (upd_seg_id c _ _ Hat). apply wp_ret. apply HQ.
    + rewrite types_nodes, <- Et. apply in_map; auto.
    + exists n. csplit; auto. lia.
  - intros Nin. apply HX. rewrite types_nodes. auto.
Qed.
Lemma wp_c_end_of a c g d w (Q : CW -> liter -> Prop) (X : CW -> exn -> Prop) :
  reach w (c :: g) d ->
  (forall l, In (env_ty a) (types c) -> lpoints c l (env_ty a) (length (elems c (env_ty a))) -> Q (c, w) l) ->
  (~ In (env_ty a) (types c) -> X (c, w) (UnregisteredType (env_ty a))) ->
  wp (c_end_of a) (c, w) Q X.
Proof.
  intros H HQ HX. destruct (reach_wf _ _ _ _ H) as (W & O). unfold c_end_of. apply wp_bind.
  eapply (wp_map_iterator_by_info a c w); [apply W| |].
  - intros n Hin Hat Et. apply wp_bind. eapply wp_on_seg; [exact Hat|]. apply wp_bind, wp_getx. cbn [fst]. apply wp_ret. cbn [fst snd].
    rewrite (upd_seg_id c _ _ Hat). apply wp_ret. apply HQ.
    + rewrite types_nodes, <- Et. apply in_map; auto.
    + rewrite <- Et, (elems_node w c n (wc_map _ _ W) Hin).
      exists n. csplit; auto.
  - intros Nin. apply HX. rewrite types_nodes. auto.
Qed.

(** ** Local iterators *)
Lemma lpoints_unpack w c g d l t k : reach w (c :: g) d -> lpoints c l t k ->
  exists n, In n (c_nodes c) /\ node_at (c_nodes c) (li_map l) = Some n /\ n_id n = li_map l /\ n_ty n = t /\
    wfs (n_seg n) /\ elems c t = n_elems n /\ k <= nsz n /\
    (li_pos l = PBase (be_ptr (nb n) k) \/ li_pos l = PConc (vptr (be_store (nb n)) k)).
Proof.
  intros H (n & Hin & Et & Em & Hp & Hk). destruct (reach_wf _ _ _ _ H) as (W & O). exists n. csplit; auto.
  - rewrite Em. apply node_at_some; auto. apply W.
  - eapply wfc_seg; eauto.
  - rewrite <- Et. eapply elems_node; eauto. apply W.
Qed.

Lemma lpoints_le w c g d l t k : reach w (c :: g) d -> lpoints c l t k -> k <= length (elems c t).
Proof. intros H P. destruct (lpoints_unpack _ _ _ _ _ _ _ H P) as (n & _ & _ & _ & _ & _ & -> & Hk & _). rewrite n_elems_length. auto. Qed.

Lemma li_deref_spec w c g d l t k : reach w (c :: g) d -> lpoints c l t k ->
  li_deref c l = option_map (pair t) (nth_error (elems c t) k).
Proof.
  intros H P. destruct (lpoints_unpack _ _ _ _ _ _ _ H P) as (n & Hin & Hat & Ei & Et & Ws & -> & Hk & Hp).
  unfold li_deref. rewrite Hat. destruct Hp as [->| ->].
  - rewrite (be_deref_ptr _ _ k (wfs_be _ Ws)). unfold n_elems. destruct (nth_error _ k); simpl; auto. rewrite <- Et. auto.
  - rewrite be_deref_conc_ptr. unfold n_elems. destruct (nth_error _ k); simpl; auto. rewrite <- Et. auto.
Qed.

Lemma li_to_conc_spec w c g d l t k : reach w (c :: g) d -> lpoints c l t k ->
  exists q, li_to_conc c l = Some (mkliter (li_map l) (PConc q)) /\ lpoints c (mkliter (li_map l) (PConc q)) t k.
Proof.
  intros H P. destruct (lpoints_unpack _ _ _ _ _ _ _ H P) as (n & Hin & Hat & Ei & Et & Ws & _ & Hk & Hp).
  exists (vptr (be_store (nb n)) k). split.
  - unfold li_to_conc. rewrite Hat. destruct Hp as [->|Hp].
    + rewrite (be_to_conc_ptr _ _ k (wfs_be _ Ws)); auto.
    + destruct l as [i p]. simpl in *. rewrite Hp. auto.
  - exists n. csplit; auto.
Qed.
Lemma li_to_base_spec w c g d l t k : reach w (c :: g) d -> lpoints c l t k ->
  exists q, li_to_base c l = Some (mkliter (li_map l) (PBase q)) /\ lpoints c (mkliter (li_map l) (PBase q)) t k.
Proof.
  intros H P. destruct (lpoints_unpack _ _ _ _ _ _ _ H P) as (n & Hin & Hat & Ei & Et & Ws & _ & Hk & Hp).
  exists (be_ptr (nb n) k). split.
  - unfold li_to_base. rewrite Hat. destruct Hp as [Hp| ->].
    + destruct l as [i p]. simpl in *. rewrite Hp. auto.
    + rewrite (be_from_conc_ptr _ _ k (wfs_be _ Ws)); auto.
  - exists n. csplit; auto.
Qed.
(** local iterators of one kind are determined by type and index *)
Lemma lpoints_base_inj w c g d i p j q t k : reach w (c :: g) d ->
  lpoints c (mkliter i (PBase p)) t k -> lpoints c (mkliter j (PBase q)) t k -> i = j /\ p = q.
Proof.
  intros H P P'. destruct (lpoints_unpack _ _ _ _ _ _ _ H P) as (n & Hin & Hat & Ei & Et & Ws & _ & Hk & [Hp|Hp]); [|discriminate].
  destruct (lpoints_unpack _ _ _ _ _ _ _ H P') as (m & Hin' & Hat' & Ei' & Et' & Ws' & _ & Hk' & [Hp'|Hp']); [|discriminate].
  destruct (reach_wf _ _ _ _ H) as (W & O).
  assert (Some (n_seg n) = Some (n_seg m)).
  { rewrite <- (seg_at_node c n), <- (seg_at_node c m); auto; try apply W. rewrite Et, Et'. auto. }
  assert (n = m).
  { pose proof (find_ty_in _ n (wm_tys _ _ (wc_map _ _ W)) Hin) as A. pose proof (find_ty_in _ m (wm_tys _ _ (wc_map _ _ W)) Hin') as B.
    rewrite Et in A. rewrite Et' in B. congruence. }
  subst m. cbn [li_map li_pos] in *. split; congruence.
Qed.
Lemma li_round w c g d l t k : reach w (c :: g) d -> lpoints c l t k ->
  (forall p, li_pos l = PBase p -> exists l', li_to_conc c l = Some l' /\ li_to_base c l' = Some l) /\
  (forall p, li_pos l = PConc p -> exists l', li_to_base c l = Some l' /\ li_to_conc c l' = Some l).
Proof.
  intros H P. destruct (lpoints_unpack _ _ _ _ _ _ _ H P) as (n & Hin & Hat & Ei & Et & Ws & _ & Hk & Hp).
  destruct l as [i p]. cbn [li_map li_pos] in *. split; intros q ->; destruct Hp as [Hp|Hp]; try discriminate; inversion Hp; subst q.
  - exists (mkliter i (PConc (vptr (be_store (nb n)) k))). unfold li_to_conc, li_to_base. cbn [li_map li_pos]. rewrite Hat.
    rewrite (be_to_conc_ptr _ _ k (wfs_be _ Ws)), (be_from_conc_ptr _ _ k (wfs_be _ Ws)); auto.
  - exists (mkliter i (PBase (be_ptr (nb n) k))). unfold li_to_conc, li_to_base. cbn [li_map li_pos]. rewrite Hat.
    rewrite (be_from_conc_ptr _ _ k (wfs_be _ Ws)), (be_to_conc_ptr _ _ k (wfs_be _ Ws)); auto.
Qed.

(** iterator <-> local iterator *)
Lemma iter_from_spec w c g d l t k : reach w (c :: g) d -> lpoints c l t k ->
  exists it, iter_from c l = Some it /\ located c it (offset (content c) t + k) /\
    (k < length (elems c t) -> points c it t k).
Proof.
  intros H P. destruct (lpoints_unpack _ _ _ _ _ _ _ H P) as (n & Hin & Hat & Ei & Et & Ws & Ee & Hk & Hp).
  destruct (reach_wf _ _ _ _ H) as (W & O).
  destruct (mk_iter_located w c n k _ _ W O Hin Hk) as (it & Hm & L & Hlt). rewrite Et in L.
  exists it. split.
  - unfold iter_from. destruct l as [i p]. cbn [li_map li_pos] in *. subst i. destruct Hp as [-> | ->]; [exact Hm|].
    unfold li_to_base. cbn [li_map li_pos]. rewrite Hat, (be_from_conc_ptr _ _ k (wfs_be _ Ws)). exact Hm.
  - split; auto. intros Hl. rewrite Ee, n_elems_length in Hl. rewrite (Hlt Hl), <- Et. apply points_node; auto.
Qed.
Lemma liter_from_spec (c : coll V) it t k : points c it t k ->
  exists l, liter_from it = Some l /\ lpoints c l t k.
Proof.
  intros (n & Hin & Et & -> & Hk). eexists. split; [reflexivity|]. exists n. csplit; auto; cbn; try lia.

Qed.

(** every position of a registered type has a local iterator *)
Lemma lpoints_exists w c g d t k : reach w (c :: g) d -> In t (types c) -> k <= length (elems c t) -> exists l, lpoints c l t k.
Proof.
  intros H Ht Hk. destruct (reach_wf _ _ _ _ H) as (W & O). rewrite types_nodes in Ht. apply in_map_iff in Ht.
  destruct Ht as (n & <- & Hin). rewrite (elems_node w c n (wc_map _ _ W) Hin), n_elems_length in Hk.
  exists (mkliter (n_id n) (PBase (be_ptr (nb n) k))). exists n. csplit; auto. 
Qed.

End PObs.
