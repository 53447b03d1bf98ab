(** * Insertion of single elements into a collection *)

From Coq Require Import List Arith Lia Bool Permutation.
From Verif Require Import Base Vec Backend Segment Coll Spec ProofBase ProofVec ProofBackend ProofOps ProofOps2 ProofSeg ProofMap ProofView ProofColl.
Import ListNotations.

Section PIns.
Context {V : Type} {E : Env V}.

Notation SW := (segment V * world)%type.
Notation CW := (coll V * world)%type.
Notation NL := (list (node V)).
Notation nb n := (sg_be (n_seg n)).
Notation nsz n := (bsize (sg_be (n_seg n))).

Ltac bmono := solve [eapply bthrew_mono; [|eassumption|]; wle_tac].

(** The part of [ins_ok] which is about the backend alone. *)
Definition pins (t : tyid) (k : nat) (v : V) (b b' : backend V) : Prop :=
  belems b' = insert_at k v (belems b) /\ (bsize b < bcap b -> stable b b') /\
  (bsize b = bcap b -> bcap b' = grown t b) /\ be_self b' = be_self b.

(** Triples for the segment operations inserting one element. *)
Definition one_ins (m : M SW ptr) (h : how) (k : nat) (v : V) (s : segment V) (w : world)
  (R : nat -> nat) (K : nat) : Prop :=
  forall (Q : SW -> ptr -> Prop) (X : SW -> exn -> Prop),
  (forall b' w', pins (sg_ty s) k v (sg_be s) b' -> wfb (sg_ty s) b' -> bown (sg_ty s) w' b' R K -> wle w w' ->
     Q (seg_with s b', w') (be_ptr b' k)) ->
  (forall b' w' e, ins_exn (sg_ty s) h k (sg_be s) w R K b' w' e -> X (set_be s b' (sg_snt s), w') e) ->
  wp m (s, w) Q X.

Lemma ins_ok_pins t k v b w R K b' w' r : ins_ok t k v b w R K b' w' r ->
  pins t k v b b' /\ wfb t b' /\ bown t w' b' R K /\ wle w w'.
Proof.
  intros (A1 & A2 & A3 & A4 & A5 & A6 & A7 & A8). unfold pins. csplit; auto.
  intros Eq. apply A8; auto.
Qed.

Lemma one_push_back s w R K h x v : wfs s -> bown (sg_ty s) w (sg_be s) R K -> src_ok (sg_be s) h x v ->
  one_ins (seg_push_back (sg_ty s) h x) h (bsize (sg_be s)) v s w R K.
Proof.
  intros W H Hx Q X HQ HX. eapply wp_seg_push_back; eauto.
  intros b' w' r O. destruct (ins_ok_pins _ _ _ _ _ _ _ _ _ _ O) as (? & ? & ? & ?). auto.
Qed.
Lemma one_insert s w R K h p k x v : wfs s -> bown (sg_ty s) w (sg_be s) R K -> pos_at (sg_be s) p k ->
  k <= bsize (sg_be s) -> src_ok (sg_be s) h x v ->
  one_ins (seg_insert (sg_ty s) h p x) h k v s w R K.
Proof.
  intros W H Hp Hk Hx Q X HQ HX. eapply wp_seg_insert; eauto.
  intros b' w' r O. destruct (ins_ok_pins _ _ _ _ _ _ _ _ _ _ O) as (? & ? & ? & ?). auto.
Qed.
Lemma one_emplace s w R K h p k x v : wfs s -> bown (sg_ty s) w (sg_be s) R K -> pos_at (sg_be s) p k ->
  k <= bsize (sg_be s) -> src_ok (sg_be s) h x v ->
  one_ins (seg_emplace (sg_ty s) h p x) h k v s w R K.
Proof.
  intros W H Hp Hk Hx Q X HQ HX. eapply wp_seg_emplace; eauto.
  intros b' w' r O. destruct (ins_ok_pins _ _ _ _ _ _ _ _ _ _ O) as (? & ? & ? & ?). auto.
Qed.

(** ** What has happened, at the level of collections *)

(** An element [v] of type [t] was inserted at index [k]; [s] is the segment before (empty
    if it did not exist), [s'] after, [i] its identity. *)
Definition ins_did w c R K w' c' t k v i (s s' : segment V) : Prop :=
  did w c R K w' c' t i s s' /\ wfc w' c' /\ wfs s' /\ pins t k v (sg_be s) (sg_be s').

(** The insertion failed in the segment. *)
Definition ins_fail w c R K w' c' t h k e i (s s' : segment V) : Prop :=
  did w c R K w' c' t i s s' /\ sg_snt s' = sg_snt s /\
  exists w1 R1 K1, wle w w1 /\ ins_exn t h k (sg_be s) w1 R1 K1 (sg_be s') w' e.

Lemma wp_made_ins m a h k v c w R K w1 c1 n (Q : CW -> ptr -> Prop) (X : CW -> exn -> Prop) :
  wfc w c -> made w c a R K w1 c1 n ->
  one_ins m h k v (n_seg n) w1 (Rc c1 (n_id n) R) (Kc c1 (n_id n) K) ->
  (forall w' c' s', ins_did w c R K w' c' (env_ty a) k v (n_id n) (n_seg n) s' ->
     Q (c', w') (be_ptr (sg_be s') k)) ->
  (forall w' c' e s', ins_fail w c R K w' c' (env_ty a) h k e (n_id n) (n_seg n) s' -> X (c', w') e) ->
  wp (on_seg (n_id n) m) (c1, w1) Q X.
Proof.
  intros W M O HQ HX. assert (M' := M). destruct M' as (W1 & H1 & L1 & Ea & Hat & Et & Cs).
  eapply wp_on_seg; [exact Hat|]. apply O.
  - intros b' w' P Wb Ho L. cbn [fst snd].
    assert (D : did w c R K w' (upd_seg c1 (n_id n) (seg_with (n_seg n) b')) (env_ty a) (n_id n) (n_seg n) (seg_with (n_seg n) b')).
    { eapply made_did; eauto. }
    assert (Ws : wfs (seg_with (n_seg n) b')) by (apply wfs_with; auto).
    change (be_ptr b' k) with (be_ptr (sg_be (seg_with (n_seg n) b')) k).
    apply HQ. unfold ins_did. csplit; auto.
    + eapply did_wf; eauto.
    + rewrite <- Et. exact P.
  - intros b' w' e Ex. cbn [fst snd].
    apply (HX w' (upd_seg c1 (n_id n) (set_be (n_seg n) b' (sg_snt (n_seg n)))) e (set_be (n_seg n) b' (sg_snt (n_seg n)))).
    assert (Ex' := Ex). destruct Ex' as (_ & Ho & L & _).
    unfold ins_fail. csplit; auto.
    + eapply made_did; eauto.
    + unfold n_ty in Et. rewrite <- Et. eauto 6.
Qed.

(** A segment that is there already counts as found. *)
Lemma made_found w c n R K : wfm w c -> cown w c R K -> node_at (c_nodes c) (n_id n) = Some n ->
  made w c (n_key n) R K w c n.
Proof.
  intros W H Ha. unfold made. csplit; auto using wle_refl.
  destruct (node_at_in _ _ _ Ha) as [Hin _]. destruct W as [_ _ _ A _ _]. rewrite Forall_forall in A.
  symmetry. auto.
Qed.

(** ** Sources *)

Lemma made_seg w c a R K w1 c1 n : wfm w c -> made w c a R K w1 c1 n -> prev c (env_ty a) (n_id n) (n_seg n).
Proof.
  intros W (_ & _ & _ & _ & Ha & Et & [(En & _)|(Nin & F & _)]).
  - left. rewrite <- En. eauto.
  - right. csplit; auto; apply F.
Qed.

Lemma src_c_ok w c t h x v i s : wfm w c -> src_c c t h x v -> prev c t i s -> src_ok (sg_be s) h x v.
Proof.
  intros W [->|(k & p & Ap & -> & Hh & Hn & Hs)] Pv; [left; auto|right].
  unfold addr_of in Ap. destruct (seg_at c t) as [s0|] eqn:Es; [|discriminate].
  destruct Pv as [(n & Ha & Et & <-)|(Nin & _)].
  2:{ rewrite seg_at_none in Es; auto. discriminate. }
  destruct (node_at_in _ _ _ Ha) as [Hin _].
  assert (Es' : seg_at c t = Some (n_seg n)) by (rewrite <- Et; apply seg_at_node; auto; apply W).
  assert (s0 = n_seg n) by congruence. subst s0.
  assert (Ee : elems c t = n_elems n) by (rewrite <- Et; eapply elems_node; eauto).
  destruct (k <? length (elems_of (n_seg n))); [|discriminate]. inversion Ap.
  exists k. csplit; auto.
  - rewrite <- Hn, Ee. auto.
  - intros L. specialize (Hs L). rewrite Ee in Hs. unfold cap_of in Hs. rewrite Es in Hs.
    exact Hs.
Qed.

(** ** After the insertion: the iterator *)

Lemma wp_mk_iter c w m p it (Q : CW -> iter -> Prop) X :
  it_make c m p = Some it -> Q (c, w) it -> wp (mk_iter m p) (c, w) Q X.
Proof. intros H HQ. unfold mk_iter. apply wp_bind, wp_getx. cbn [fst]. rewrite H. apply wp_ret. auto. Qed.

Lemma insert_at_len {A} k (v : A) l : length (insert_at k v l) = S (length l).
Proof.
  unfold insert_at. rewrite app_length. simpl. rewrite firstn_length, skipn_length. lia.
Qed.

Lemma wp_mk_iter_ins w0 c0 R K w c t k v i s s' (Q : CW -> iter -> Prop) X :
  ins_did w0 c0 R K w c t k v i s s' -> k <= bsize (sg_be s) ->
  (points c (mkiter (Some i) (be_ptr (sg_be s') k)) t k -> Q (c, w) (mkiter (Some i) (be_ptr (sg_be s') k))) ->
  wp (mk_iter (Some i) (be_ptr (sg_be s') k)) (c, w) Q X.
Proof.
  intros (D & Wc & Ws & (Pe & _)) Hk HQ. destruct (put_in _ _ _ _ _ (did_put _ _ _ _ _ _ _ _ _ _ D)) as (key & Hin).
  assert (Lt : k < nsz (mknode i key s')).
  { simpl. unfold bsize, vsize. fold (belems (sg_be s')). rewrite Pe, insert_at_len. unfold bsize, vsize, belems in *. lia. }
  destruct (mk_iter_located w c (mknode i key s') k R K Wc (did_own _ _ _ _ _ _ _ _ _ _ D) Hin) as (it & Em & _ & Ei); [lia|].
  specialize (Ei Lt). subst it. eapply wp_mk_iter; [exact Em|].
  apply HQ. assert (P := points_node c (mknode i key s') k Hin Lt).
  unfold n_ty in P. simpl in P. rewrite (did_ty _ _ _ _ _ _ _ _ _ _ D) in P. exact P.
Qed.

(** ** emplace, insert *)

Lemma prev_size w c t i s : wfm w c -> prev c t i s -> bsize (sg_be s) = length (elems c t).
Proof. intros W P. rewrite <- (prev_elems _ _ _ _ _ W P). reflexivity. Qed.

Lemma wp_c_emplace a x v c w R K (Q : CW -> iter -> Prop) (X : CW -> exn -> Prop) :
  wfc w c -> cown w c R K -> src_c c (env_ty a) HEmplace x v ->
  (forall w' c' i s s', ins_did w c R K w' c' (env_ty a) (length (elems c (env_ty a))) v i s s' ->
     points c' (mkiter (Some i) (be_ptr (sg_be s') (length (elems c (env_ty a))))) (env_ty a) (length (elems c (env_ty a))) ->
     Q (c', w') (mkiter (Some i) (be_ptr (sg_be s') (length (elems c (env_ty a)))))) ->
  (forall w' c' e, made_exn w c a R K w' c' e -> X (c', w') e) ->
  (forall w' c' e i s s', ins_fail w c R K w' c' (env_ty a) HEmplace (length (elems c (env_ty a))) e i s s' -> X (c', w') e) ->
  wp (c_emplace a x) (c, w) Q X.
Proof.
  intros W H Hx HQ HX1 HX2. unfold c_emplace. apply wp_bind.
  eapply wp_find_or_make; [apply W|exact H| |exact HX1].
  intros w1 c1 n M. assert (Pv := made_seg _ _ _ _ _ _ _ _ (wc_map _ _ W) M).
  assert (M' := M). destruct M' as (_ & H1 & _ & _ & Hat & Et & _).
  assert (Ez := prev_size _ _ _ _ _ (wc_map _ _ W) Pv).
  apply wp_bind. eapply wp_made_ins; [exact W|exact M| | |].
  - rewrite <- Et. apply one_push_back.
    + eapply prev_wfs; eauto.
    + eapply cown_seg_id; eauto.
    + eapply src_c_ok; eauto. apply W.
  - intros w2 c2 s' I. rewrite Ez in *. eapply wp_mk_iter_ins; [exact I|lia|]. eauto.
  - intros w2 c2 e s' F. rewrite Ez in *. eauto.
Qed.

Lemma wp_c_insert x v c w R K (Q : CW -> iter -> Prop) (X : CW -> exn -> Prop) :
  let t := env_ty (a_dyn x) in let k := length (elems c t) in
  wfc w c -> cown w c R K -> arg_ok x -> src_c c t (a_how x) (a_src x) v ->
  (forall w' c' i s s', ~ arg_unreg c x -> ins_did w c R K w' c' t k v i s s' ->
     points c' (mkiter (Some i) (be_ptr (sg_be s') k)) t k ->
     Q (c', w') (mkiter (Some i) (be_ptr (sg_be s') k))) ->
  (forall w' c' e, ~ arg_unreg c x -> made_exn w c (a_dyn x) R K w' c' e -> X (c', w') e) ->
  (forall w' l, arg_unreg c x -> wfm w' (set_cache c l) -> cown w' (set_cache c l) R K -> wle w w' ->
     X (set_cache c l, w') (UnregisteredType t)) ->
  (forall w' c' e i s s', ~ arg_unreg c x -> ins_fail w c R K w' c' t (a_how x) k e i s s' -> X (c', w') e) ->
  wp (c_insert x) (c, w) Q X.
Proof.
  intros t k W H Ok Hx HQ HX1 HU HX2. unfold c_insert. apply wp_bind.
  eapply wp_map_iterator_for; [apply W|exact H|exact Ok| | |].
  - intros w1 c1 n M NU. assert (Pv := made_seg _ _ _ _ _ _ _ _ (wc_map _ _ W) M). fold t in Pv.
    assert (M' := M). destruct M' as (_ & H1 & _ & _ & Hat & Et & _). fold t in Et.
    assert (Ez := prev_size _ _ _ _ _ (wc_map _ _ W) Pv). fold k in Ez.
    apply wp_bind. eapply wp_made_ins; [exact W|exact M| | |].
    + fold t. rewrite <- Et. apply one_push_back.
      * eapply prev_wfs; eauto.
      * eapply cown_seg_id; eauto.
      * eapply src_c_ok; eauto. apply W.
    + intros w2 c2 s' I. rewrite Ez in *. eapply wp_mk_iter_ins; [exact I|lia|]. eauto.
    + intros w2 c2 e s' F. rewrite Ez in *. eauto.
  - intros w1 c1 e M NU. eauto.
  - exact HU.
Qed.

(** ** Hints *)

Lemma located_cases w c hint g R K : wfc w c -> cown w c R K -> located c hint g ->
  it_map hint = None \/ exists n k, In n (c_nodes c) /\ k < nsz n /\ hint = mkiter (Some (n_id n)) (be_ptr (nb n) k).
Proof.
  intros W H [[-> _]|(t & k & (n & Hin & Et & -> & Hk) & _)]; [left; auto|right; eauto].
Qed.

Lemma wp_same_node w c hint g a R K w1 c1 n k (Q : CW -> bool -> Prop) (X : CW -> exn -> Prop) :
  wfc w c -> cown w c R K -> located c hint g -> made w c a R K w1 c1 n -> hint_at c hint (env_ty a) k ->
  hint_safe c hint (env_ty a) ->
  (pos_at (nb n) (PBase (it_pos hint)) k -> k < nsz n -> Q (c1, w1) true) ->
  (k = length (elems c (env_ty a)) -> Q (c1, w1) false) ->
  wp (same_node (it_map hint) (n_id n)) (c1, w1) Q X.
Proof.
  intros W H L M Ht Hs HT HF. assert (Pv := made_seg _ _ _ _ _ _ _ _ (wc_map _ _ W) M).
  destruct M as (W1 & _ & _ & _ & Hat & Et & Cs). unfold same_node.
  destruct (it_map hint) as [j|] eqn:Ej.
  - assert (Hm : exists m j', In m (c_nodes c) /\ n_id m = j /\ j' < nsz m /\ hint = mkiter (Some (n_id m)) (be_ptr (nb m) j')).
    { destruct (located_cases _ _ _ _ _ _ W H L) as [C|(m & j' & Hin & Hj & ->)]; [congruence|].
      simpl in Ej. inversion Ej. eauto 6. }
    destruct Hm as (m & j' & Hin & Em & Hj' & Eh). subst j.
    assert (Hm1 : In m (c_nodes c1)).
    { destruct Cs as [(-> & _)|(Nin & _ & _ & Ad)]; auto.
      destruct Hs as [C|[C|C]]; [subst hint; discriminate|rewrite types_nodes in C; tauto|].
      destruct Ad as (_ & _ & _ & P). eapply Permutation_in; [symmetry; apply P; auto|]. right; auto. }
    apply wp_bind, wp_getx. cbn [fst]. rewrite (node_at_some _ m) by (auto; apply W1).
    apply wp_ret. destruct (Nat.eqb_spec (n_id m) (n_id n)) as [Eq|Ne].
    + assert (A : node_at (c_nodes c1) (n_id m) = Some m) by (apply node_at_some; auto; apply W1).
      rewrite Eq in A. assert (m = n) by congruence. subst m.
      assert (P : points c hint (env_ty a) j').
      { rewrite Eh, <- Et. apply points_node; auto. }
      destruct Ht as [P'|[Np _]]; [|exfalso; eapply Np; eauto].
      destruct P' as (m & Hin' & Em & Eh' & Hk).
      assert (m = n).
      { assert (Ei : n_id m = n_id n) by (rewrite Eh in Eh'; injection Eh'; auto).
        assert (B : node_at (c_nodes c) (n_id m) = Some m) by (apply node_at_some; auto; apply W).
        assert (B' : node_at (c_nodes c) (n_id n) = Some n) by (apply node_at_some; auto; apply W).
        congruence. }
      subst m. apply HT; auto. left. rewrite Eh'. auto.
    + apply HF. destruct Ht as [P'|[_ Ek]]; auto. exfalso. apply Ne.
      destruct P' as (m' & Hin' & Em & Eh' & Hk).
      assert (Ei : n_id m' = n_id m) by (rewrite Eh in Eh'; injection Eh'; auto).
      assert (B : node_at (c_nodes c) (n_id m') = Some m') by (apply node_at_some; auto; apply W).
      assert (B' : node_at (c_nodes c) (n_id m) = Some m) by (apply node_at_some; auto; apply W).
      assert (m' = m) by congruence. subst m'.
      destruct (node_at_in _ _ _ Hat) as [Hn1 _].
      assert (C : find (fun x => sg_ty (n_seg x) =? n_ty m) (c_nodes c1) = Some m) by (apply find_ty_in; auto; apply W1).
      assert (C' : find (fun x => sg_ty (n_seg x) =? n_ty n) (c_nodes c1) = Some n) by (apply find_ty_in; auto; apply W1).
      assert (Eq : n_ty m = n_ty n) by (rewrite Et; exact Em). rewrite Eq in C. congruence.
  - apply wp_ret. apply HF. destruct Ht as [(m & _ & _ & -> & _)|[_ Ek]]; auto. discriminate.
Qed.

Lemma wp_c_emplace_hint hint g k a x v c w R K (Q : CW -> iter -> Prop) (X : CW -> exn -> Prop) :
  let t := env_ty a in
  wfc w c -> cown w c R K -> located c hint g -> hint_at c hint t k -> hint_safe c hint t -> src_c c t HEmplace x v ->
  (forall w' c' i s s', ins_did w c R K w' c' t k v i s s' ->
     points c' (mkiter (Some i) (be_ptr (sg_be s') k)) t k ->
     Q (c', w') (mkiter (Some i) (be_ptr (sg_be s') k))) ->
  (forall w' c' e, made_exn w c a R K w' c' e -> X (c', w') e) ->
  (forall w' c' e i s s', ins_fail w c R K w' c' t HEmplace k e i s s' -> X (c', w') e) ->
  wp (c_emplace_hint hint a x) (c, w) Q X.
Proof.
  intros t W H L Ht Hsf Hx HQ HX1 HX2. unfold c_emplace_hint. apply wp_bind.
  eapply wp_find_or_make; [apply W|exact H| |exact HX1].
  intros w1 c1 n M. assert (Pv := made_seg _ _ _ _ _ _ _ _ (wc_map _ _ W) M). fold t in Pv.
  assert (M' := M). destruct M' as (_ & H1 & _ & _ & Hat & Et & _). fold t in Et.
  assert (Ez := prev_size _ _ _ _ _ (wc_map _ _ W) Pv).
  apply wp_bind. eapply wp_same_node; [exact W|exact H|exact L|exact M|exact Ht|exact Hsf|intros Hp Hk|intros Ek]; apply wp_bind.
  - eapply wp_made_ins with (k := k) (v := v); [exact W|exact M| | |].
    + fold t. rewrite <- Et. apply one_emplace; auto; try lia.
      * eapply prev_wfs; eauto.
      * eapply cown_seg_id; eauto.
      * eapply src_c_ok; eauto. apply W.
    + intros w2 c2 s' I. eapply wp_mk_iter_ins; [exact I|lia|]. eauto.
    + intros w2 c2 e s' F. eauto.
  - fold t in Ek. rewrite <- Ez in Ek. subst k. eapply wp_made_ins with (v := v); [exact W|exact M| | |].
    + fold t. rewrite <- Et. apply one_push_back; auto; try lia.
      * eapply prev_wfs; eauto.
      * eapply cown_seg_id; eauto.
      * eapply src_c_ok; eauto. apply W.
    + intros w2 c2 s' I. eapply wp_mk_iter_ins; [exact I|lia|]. eauto.
    + intros w2 c2 e s' F. eauto.
Qed.

Lemma wp_c_insert_hint hint g k x v c w R K (Q : CW -> iter -> Prop) (X : CW -> exn -> Prop) :
  let t := env_ty (a_dyn x) in
  wfc w c -> cown w c R K -> located c hint g -> hint_at c hint t k -> hint_safe c hint t -> arg_ok x -> src_c c t (a_how x) (a_src x) v ->
  (forall w' c' i s s', ~ arg_unreg c x -> ins_did w c R K w' c' t k v i s s' ->
     points c' (mkiter (Some i) (be_ptr (sg_be s') k)) t k ->
     Q (c', w') (mkiter (Some i) (be_ptr (sg_be s') k))) ->
  (forall w' c' e, ~ arg_unreg c x -> made_exn w c (a_dyn x) R K w' c' e -> X (c', w') e) ->
  (forall w' l, arg_unreg c x -> wfm w' (set_cache c l) -> cown w' (set_cache c l) R K -> wle w w' ->
     X (set_cache c l, w') (UnregisteredType t)) ->
  (forall w' c' e i s s', ~ arg_unreg c x -> ins_fail w c R K w' c' t (a_how x) k e i s s' -> X (c', w') e) ->
  wp (c_insert_hint hint x) (c, w) Q X.
Proof.
  intros t W H L Ht Hsf Ok Hx HQ HX1 HU HX2. unfold c_insert_hint. apply wp_bind.
  eapply wp_map_iterator_for; [apply W|exact H|exact Ok| | |].
  - intros w1 c1 n M NU. assert (Pv := made_seg _ _ _ _ _ _ _ _ (wc_map _ _ W) M). fold t in Pv.
    assert (M' := M). destruct M' as (_ & H1 & _ & _ & Hat & Et & _). fold t in Et.
    assert (Ez := prev_size _ _ _ _ _ (wc_map _ _ W) Pv).
    apply wp_bind. eapply wp_same_node; [exact W|exact H|exact L|exact M|exact Ht|exact Hsf|intros Hp Hk|intros Ek]; apply wp_bind.
    + eapply wp_made_ins with (k := k) (v := v); [exact W|exact M| | |].
      * fold t. rewrite <- Et. apply one_insert; auto; try lia.
        -- eapply prev_wfs; eauto.
        -- eapply cown_seg_id; eauto.
        -- eapply src_c_ok; eauto. apply W.
      * intros w2 c2 s' I. eapply wp_mk_iter_ins; [exact I|lia|]. eauto.
      * intros w2 c2 e s' F. eauto.
    + fold t in Ek. rewrite <- Ez in Ek. subst k. eapply wp_made_ins with (v := v); [exact W|exact M| | |].
      * fold t. rewrite <- Et. apply one_push_back; auto; try lia.
        -- eapply prev_wfs; eauto.
        -- eapply cown_seg_id; eauto.
        -- eapply src_c_ok; eauto. apply W.
      * intros w2 c2 s' I. eapply wp_mk_iter_ins; [exact I|lia|]. eauto.
      * intros w2 c2 e s' F. eauto.
  - intros w1 c1 e M NU. eauto.
  - exact HU.
Qed.

(** ** Local positions *)

Lemma lpoints_node c l t k : lpoints c l t k -> NoDup (map n_id (c_nodes c)) ->
  exists n, In n (c_nodes c) /\ node_at (c_nodes c) (li_map l) = Some n /\ n_id n = li_map l /\ n_ty n = t /\
    pos_at (nb n) (li_pos l) k /\ k <= nsz n.
Proof.
  intros (n & Hin & Et & Em & Hp & Hk) ND. exists n. csplit; auto.
  rewrite Em. apply node_at_some; auto.
Qed.

Definition lpt (i : nat) (s : segment V) (k : nat) : liter := mkliter i (PBase (be_ptr (sg_be s) k)).

Lemma lpoints_put c c' t i s k : put c c' t i s -> sg_ty s = t -> k <= bsize (sg_be s) ->
  lpoints c' (lpt i s k) t k.
Proof.
  intros P Et Hk. destruct (put_in _ _ _ _ _ P) as (key & Hin).
  exists (mknode i key s). csplit; auto.
Qed.

Lemma wp_c_emplace_pos pos k a x v c w R K (Q : CW -> liter -> Prop) (X : CW -> exn -> Prop) :
  let t := env_ty a in
  wfc w c -> cown w c R K -> lpoints c pos t k -> src_c c t HEmplace x v ->
  (forall w' c' i s s', ins_did w c R K w' c' t k v i s s' ->
     lpoints c' (lpt i s' k) t k -> Q (c', w') (lpt i s' k)) ->
  (forall w' c' e i s s', ins_fail w c R K w' c' t HEmplace k e i s s' -> X (c', w') e) ->
  wp (c_emplace_pos pos a x) (c, w) Q X.
Proof.
  intros t W H Lp Hx HQ HX2. unfold c_emplace_pos.
  destruct (lpoints_node _ _ _ _ Lp (wm_ids _ _ (wc_map _ _ W))) as (n & Hin & Hat & En & Et & Hp & Hk).
  rewrite <- En in *. assert (M := made_found _ _ _ _ _ (wc_map _ _ W) H Hat).
  assert (Pv := made_seg _ _ _ _ _ _ _ _ (wc_map _ _ W) M).
  assert (Ek : env_ty (n_key n) = t).
  { destruct W as [[_ _ _ A _ _] _]. rewrite Forall_forall in A. rewrite <- Et. auto. }
  rewrite Ek in Pv.
  apply wp_bind. eapply wp_made_ins with (k := k) (v := v); [exact W|exact M| | |].
  - fold t. rewrite <- Et. apply one_emplace; auto.
    + eapply prev_wfs; eauto.
    + eapply cown_seg_id; eauto.
    + eapply src_c_ok; eauto. apply W.
  - intros w2 c2 s' I. rewrite Ek in I. apply wp_ret. apply (HQ _ _ _ (n_seg n)); auto.
    destruct I as (D & _ & _ & (Pe & _)). eapply lpoints_put; try apply D.
    unfold bsize, vsize in *. fold (belems (sg_be s')). rewrite Pe, insert_at_len. unfold belems. lia.
  - intros w2 c2 e s' F. rewrite Ek in F. eauto.
Qed.

Lemma wp_c_insert_pos pos k x v c w R K (Q : CW -> liter -> Prop) (X : CW -> exn -> Prop) :
  let t := env_ty (a_dyn x) in
  wfc w c -> cown w c R K -> lpoints c pos t k -> src_c c t (a_how x) (a_src x) v ->
  (forall w' c' i s s', ins_did w c R K w' c' t k v i s s' ->
     lpoints c' (lpt i s' k) t k -> Q (c', w') (lpt i s' k)) ->
  (forall w' c' e i s s', ins_fail w c R K w' c' t (a_how x) k e i s s' -> X (c', w') e) ->
  wp (c_insert_pos pos x) (c, w) Q X.
Proof.
  intros t W H Lp Hx HQ HX2. unfold c_insert_pos.
  destruct (lpoints_node _ _ _ _ Lp (wm_ids _ _ (wc_map _ _ W))) as (n & Hin & Hat & En & Et & Hp & Hk).
  rewrite <- En in *. assert (M := made_found _ _ _ _ _ (wc_map _ _ W) H Hat).
  assert (Pv := made_seg _ _ _ _ _ _ _ _ (wc_map _ _ W) M).
  assert (Ek : env_ty (n_key n) = t).
  { destruct W as [[_ _ _ A _ _] _]. rewrite Forall_forall in A. rewrite <- Et. auto. }
  rewrite Ek in Pv.
  apply wp_bind. eapply wp_made_ins with (k := k) (v := v); [exact W|exact M| | |].
  - fold t. rewrite <- Et. apply one_insert; auto.
    + eapply prev_wfs; eauto.
    + eapply cown_seg_id; eauto.
    + eapply src_c_ok; eauto. apply W.
  - intros w2 c2 s' I. rewrite Ek in I. apply wp_ret. apply (HQ _ _ _ (n_seg n)); auto.
    destruct I as (D & _ & _ & (Pe & _)). eapply lpoints_put; try apply D.
    unfold bsize, vsize in *. fold (belems (sg_be s')). rewrite Pe, insert_at_len. unfold belems. lia.
  - intros w2 c2 e s' F. rewrite Ek in F. eauto.
Qed.

End PIns.
