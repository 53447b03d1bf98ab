(** * The type_info map: lookup, cache, creation of segments *)

From Coq Require Import List Arith Lia Bool Permutation.
From Verif Require Import Base Vec Backend Segment Coll Spec ProofBase ProofVec ProofBackend ProofOps ProofOps2 ProofSeg.
Import ListNotations.

Lemma shuffle_perm {A} codes : forall l : list A, Permutation (shuffle codes l) l.
Proof.
  induction codes as [|k ks IH]; intros [|x l]; simpl; auto.
  unfold insert_at. etransitivity; [symmetry; apply Permutation_middle|].
  constructor. rewrite firstn_skipn. apply IH.
Qed.

Section PMap.
Context {V : Type} {E : Env V}.

Notation SW := (segment V * world)%type.
Notation CW := (coll V * world)%type.
Notation NL := (list (node V)).

Ltac bmono := solve [eapply bthrew_mono; [|eassumption|]; wle_tac].

(** ** map_find *)

Lemma map_find_some ns a i : map_find ns a = Some i ->
  exists n, In n ns /\ n_id n = i /\ env_ty (n_key n) = env_ty a.
Proof.
  induction ns as [|n ns IH]; simpl; [discriminate|].
  destruct (Nat.eqb_spec (env_ty (n_key n)) (env_ty a)) as [Ek|Ek].
  - intros Es. inversion Es. exists n. auto.
  - intros Es. destruct (IH Es) as (m & ? & ? & ?). exists m. auto.
Qed.
Lemma map_find_none ns a : map_find ns a = None <->
  (forall n, In n ns -> env_ty (n_key n) <> env_ty a).
Proof.
  induction ns as [|n ns IH]; simpl; [split; auto; tauto|].
  destruct (Nat.eqb_spec (env_ty (n_key n)) (env_ty a)) as [Ek|Ek].
  - split; [discriminate|]. intros H. exfalso. apply (H n); auto.
  - rewrite IH. split; intros H m; [intros [<-|?]; auto|auto].
Qed.

Definition key_ty (n : node V) : tyid := env_ty (n_key n).

Lemma map_find_in ns a n : NoDup (map key_ty ns) -> In n ns -> env_ty (n_key n) = env_ty a ->
  map_find ns a = Some (n_id n).
Proof.
  induction ns as [|m ns IH]; simpl; [tauto|]. intros ND [->|Hin] Ek.
  - rewrite Ek, Nat.eqb_refl. auto.
  - inversion ND; subst. destruct (Nat.eqb_spec (env_ty (n_key m)) (env_ty a)) as [Em|Em]; auto.
    exfalso. apply H1. unfold key_ty at 1. rewrite Em, <- Ek. apply in_map with (f := key_ty); auto.
Qed.

Lemma wfm_keys w c : wfm w c -> map key_ty (c_nodes c) = map n_ty (c_nodes c).
Proof.
  intros [_ _ _ A _ _]. apply map_ext_in. intros n Hn.
  rewrite Forall_forall in A. apply A; auto.
Qed.
Lemma wfm_key_nodup w c : wfm w c -> NoDup (map key_ty (c_nodes c)).
Proof. intros H. rewrite (wfm_keys w c H). apply H. Qed.

(** What a lookup gives. *)
Lemma find_spec w c a : wfm w c ->
  (exists n, In n (c_nodes c) /\ map_find (c_nodes c) a = Some (n_id n) /\
     node_at (c_nodes c) (n_id n) = Some n /\ n_ty n = env_ty a) \/
  (map_find (c_nodes c) a = None /\ ~ In (env_ty a) (map n_ty (c_nodes c))).
Proof.
  intros H. destruct (map_find (c_nodes c) a) as [i|] eqn:Ef.
  - left. destruct (map_find_some _ _ _ Ef) as (n & Hin & Ei & Ek). subst i. exists n. csplit; auto.
    + apply node_at_some; auto. apply H.
    + destruct H as [_ _ _ A _ _]. rewrite Forall_forall in A. rewrite <- A; auto.
  - right. split; auto. rewrite map_find_none in Ef. intros Hin.
    apply in_map_iff in Hin. destruct Hin as (n & En & Hin). apply (Ef n Hin).
    destruct H as [_ _ _ A _ _]. rewrite Forall_forall in A. rewrite A; auto.
Qed.

(** The cache is transparent. *)
Lemma cache_transparent w c a : wfm w c -> tim_find_const c a = map_find (c_nodes c) a.
Proof.
  intros H. unfold tim_find_const. destruct (cache_find (c_cache c) a) as [m|] eqn:Ec; auto.
  destruct (wm_cache _ _ H _ _ Ec) as (i & -> & ->). auto.
Qed.

(** Only the cache differs, soundly. *)
Definition set_cache (c : coll V) l : coll V := mkcoll (c_nodes c) (c_buckets c) l (c_al c).
Lemma wfm_cache w c l : wfm w c ->
  (forall a m, cache_find l a = Some m -> exists i, m = Some i /\ map_find (c_nodes c) a = Some i) ->
  wfm w (set_cache c l).
Proof. intros [A1 A2 A3 A4 A5 A6] H. split; simpl; auto. Qed.

Lemma wp_cache_insert a i c w R K (Q : CW -> unit -> Prop) (X : CW -> exn -> Prop) :
  wfm w c -> cown w c R K -> map_find (c_nodes c) a = Some i ->
  (forall w' l, wfm w' (set_cache c l) -> cown w' (set_cache c l) R K -> wle w w' ->
     Q (set_cache c l, w') tt) ->
  (forall w', wfm w' c -> cown w' c R K -> wle w w' -> faulted w w' -> X (c, w') BadAlloc) ->
  wp (cache_insert a (Some i)) (c, w) Q X.
Proof.
  intros W H Hf HQ HX. unfold cache_insert. apply wp_bind, wp_on_world. cbn [fst snd].
  eapply wp_tick; [exact H| |].
  - intros w1 H1 L1. apply wp_bind, wp_getx. cbn [fst].
    assert (W1 : wfm w1 c) by (eapply wfm_mono; eauto).
    destruct (cache_find (c_cache c) a) as [m|] eqn:Ec.
    + apply wp_ret. replace c with (set_cache c (c_cache c)) at 1 by (destruct c; auto).
      apply HQ; auto; destruct c; auto.
    + apply wp_setx. cbn [snd]. apply (HQ w1 ((a, Some i) :: c_cache c)); auto.
      apply wfm_cache; auto. intros a' m. simpl. destruct (Nat.eqb_spec a a') as [<-|Ne].
      * intros Es. inversion Es. eauto.
      * apply W1.
  - intros w1 H1 L1 F. apply HX; auto. eapply wfm_mono; eauto.
Qed.

Lemma wp_tim_find a c w R K (Q : CW -> mapit -> Prop) (X : CW -> exn -> Prop) :
  wfm w c -> cown w c R K ->
  (forall w' l, wfm w' (set_cache c l) -> cown w' (set_cache c l) R K -> wle w w' ->
     Q (set_cache c l, w') (map_find (c_nodes c) a)) ->
  (forall w' e, wfm w' c -> cown w' c R K -> wle w w' -> e = BadAlloc -> faulted w w' ->
     map_find (c_nodes c) a <> None -> X (c, w') e) ->
  wp (tim_find a) (c, w) Q X.
Proof.
  intros W H HQ HX. unfold tim_find. apply wp_bind, wp_getx. cbn [fst].
  assert (SAME : Q (c, w) (map_find (c_nodes c) a)).
  { replace c with (set_cache c (c_cache c)) at 1 by (destruct c; auto).
    apply HQ; auto using wle_refl; destruct c; auto. }
  destruct (cache_find (c_cache c) a) as [m|] eqn:Ec.
  - apply wp_ret. destruct (wm_cache _ _ W _ _ Ec) as (i & -> & Ef). rewrite Ef in SAME. auto.
  - destruct (map_find (c_nodes c) a) as [i|] eqn:Ef; [|apply wp_ret; auto].
    apply wp_bind. eapply wp_cache_insert; eauto.
    intros. apply HX; auto. congruence.
Qed.

(** ** Creation of a segment *)

(** The nodes of [c] with, possibly, other identities. *)
Inductive reid : NL -> NL -> Prop :=
| reid_nil : reid [] []
| reid_cons : forall i n ns ns', reid ns ns' -> reid (n :: ns) (mknode i (n_key n) (n_seg n) :: ns').

Definition key_seg (n : node V) : tiaddr * segment V := (n_key n, n_seg n).
Lemma reid_keys ns ns' : reid ns ns' -> map key_seg ns' = map key_seg ns.
Proof. induction 1; simpl; auto. rewrite IHreid. auto. Qed.

Lemma wp_renumber ns : forall w B k (Q : world -> NL -> Prop) X,
  own w B k ->
  (forall w' ns', own w' B k -> wle w w' -> map key_seg ns' = map key_seg ns ->
     NoDup (map n_id ns') -> Forall (fun n => w_next w <= n_id n < w_next w') ns' -> Q w' ns') ->
  wp (renumber ns) w Q X.
Proof.
  induction ns as [|n ns IH]; intros w B k Q X H HQ; cbn [renumber].
  - apply wp_ret. apply HQ; auto using wle_refl; constructor.
  - apply wp_bind. eapply wp_fresh; [exact H|]. intros w1 i H1 L1 Ei Li.
    apply wp_bind. eapply IH; [exact H1|]. intros w2 ns2 H2 L2 Ek ND Fa.
    apply wp_ret. apply HQ; auto.
    + wle_tac.
    + simpl. rewrite Ek. auto.
    + simpl. constructor; auto. intros Hin. apply in_map_iff in Hin. destruct Hin as (m & Em & Hm).
      rewrite Forall_forall in Fa. specialize (Fa m Hm). lia.
    + constructor; simpl; [wle_tac|]. eapply Forall_impl; [|exact Fa]. simpl. intros; wle_tac.
Qed.

Lemma nblocks_perm (ns ns' : NL) x : Permutation (map n_seg ns) (map n_seg ns') ->
  cnt (nblocks ns) x = cnt (nblocks ns') x.
Proof.
  assert (A : forall l : NL, nblocks l = flat_map sblocks (map n_seg l)).
  { induction l; simpl; auto. congruence. }
  rewrite !A. generalize (map n_seg ns) (map n_seg ns'). intros l l' P.
  induction P; simpl; rewrite ?cnt_app; lia.
Qed.
Lemma sum_sizes_perm (ns ns' : NL) : Permutation (map n_seg ns) (map n_seg ns') ->
  sum_sizes ns = sum_sizes ns'.
Proof.
  assert (A : forall l : NL, sum_sizes l = list_sum (map seg_size (map n_seg l))).
  { induction l; simpl; auto. }
  rewrite !A. generalize (map n_seg ns) (map n_seg ns'). intros l l' P.
  induction P; simpl; lia.
Qed.
Lemma osum_perm (ns ns' : NL) : Permutation (map n_seg ns) (map n_seg ns') ->
  osum ns = osum ns'.
Proof.
  assert (A : forall l : NL, osum l = list_sum (map ocs (map n_seg l))).
  { induction l; simpl; auto. }
  rewrite !A. generalize (map n_seg ns) (map n_seg ns'). intros l l' P.
  induction P; simpl; lia.
Qed.

(** A new node has been added. *)
Definition added (c : coll V) (n : node V) (ns : NL) (bk : nat) : Prop :=
  Permutation (map key_seg ns) (key_seg n :: map key_seg (c_nodes c)) /\ In n ns /\
  NoDup (map n_id ns) /\
  (bk = c_buckets c \/ env_rehash_stable = true -> Permutation ns (n :: c_nodes c)).

Lemma map_snd_key_seg (ns : NL) : map n_seg ns = map snd (map key_seg ns).
Proof. rewrite map_map. apply map_ext. auto. Qed.

(** the temporary of the caller and the new node are empty segments *)
Definition fresh_seg (a : tiaddr) (al : alid) (s : segment V) : Prop :=
  wfs s /\ sg_ty s = env_ty a /\ sg_al s = al /\ belems (sg_be s) = [].

Definition mk_reason (t : tyid) (w w' : world) (e : exn) : Prop :=
  (e = BadAlloc /\ faulted w w') \/
  (e = LengthError /\ env_layout = SplitLayout /\ (env_vmax t < 1 \/ env_imax < 1)).

Lemma mk_reason_mono t w1 w2 w3 w4 e :
  wle w1 w2 -> mk_reason t w2 w3 e -> wle w3 w4 -> mk_reason t w1 w4 e.
Proof. intros L1 [(? & ?)|?] L2; [left|right; auto]. split; auto. fmono. Qed.

Lemma wp_construct_node a seg al w R K (Q : world -> segment V -> Prop) (X : world -> exn -> Prop) :
  fresh_seg a al seg -> bcap (sg_be seg) <= 1 -> sown w seg R K ->
  (forall w' s, fresh_seg a al s -> sown w' s R K -> wle w w' -> Q w' s) ->
  (forall w' e, own w' R K -> wle w w' -> mk_reason (env_ty a) w w' e -> X w' e) ->
  wp (construct_node al seg) w Q X.
Proof.
  intros (Ws & Et & Ea & Ee) Hc H HQ HX. unfold construct_node.
  assert (Z : ssize seg = 0) by (unfold ssize, bsize, vsize; unfold belems in Ee; rewrite Ee; auto).
  assert (P := wp_seg_move seg al w R K
    (fun s s2 => wp (seg_delete (fst s) ;; ret s2) (snd s) Q X)
    (fun s e => wp (seg_delete (fst s) ;; throw e) (snd s) Q X) (wfs_0 _ Ws) H).
  match type of P with ?A -> ?B -> ?C -> _ =>
    assert (PA : A); [|assert (PB : B); [|assert (PC : C); [|specialize (P PA PB PC)]]] end.
  - intros _. right. unfold ssize, bsize, bcap in *. auto.
  - intros w1 s1 s2 T2 A2 W2 E2 W1 T1 A1 E1 H1 L1 _. cbn [fst snd]. apply wp_bind.
    eapply wp_seg_delete with (R := fun y => cnt (sblocks s2) y + R y) (K := ocs s2 + K); [exact W1| |].
    + unfold sown, bown. eapply own_ext; [exact H1| |].
      * intros y. unfold sblocks. cbv beta. lia.
      * unfold ocs. assert (Z1 : ssize s1 = 0) by lia. unfold ssize in *. rewrite Z1, !oc_0. lia.
    + intros w2 H2 L2. apply wp_ret. apply HQ.
      * unfold fresh_seg. csplit; auto; congruence.
      * exact H2.
      * wle_tac.
  - intros w1 s1 e W1 T1 A1 H1 L1 Re. cbn [fst snd]. apply wp_bind.
    eapply wp_seg_delete; [exact W1|exact H1|].
    intros w2 H2 L2. apply wp_throw. apply HX; auto; [wle_tac|].
    rewrite Et in Re. destruct Re as [([->|(-> & Na & Nm & Nz)] & ?)|(? & ? & Lm)].
    + left. split; auto. fmono.
    + rewrite Z in Nz. lia.
    + right. csplit; auto. rewrite Z in Lm. lia.
  - unfold wp in *. destruct (seg_move al (seg, w)) as [[s1 w1] s2|[s1 w1] e|]; auto.
Qed.

Lemma wp_map_emplace a seg c w R K (Q : CW -> mapit * bool -> Prop) (X : CW -> exn -> Prop) :
  wfm w c -> fresh_seg a (c_al c) seg -> bcap (sg_be seg) <= 1 ->
  own w (fun x => cnt (cblocks c) x + cnt (sblocks seg) x + R x) (c_objs c + K) ->
  (forall w' i, map_find (c_nodes c) a = Some i -> cown w' c R K -> wle w w' ->
     Q (c, w') (Some i, false)) ->
  (forall w' n ns bk, map_find (c_nodes c) a = None -> n_key n = a -> fresh_seg a (c_al c) (n_seg n) ->
     added c n ns bk -> w_next w <= n_id n -> Forall (fun m => n_id m < w_next w') ns ->
     cown w' (mkcoll ns bk (c_cache c) (c_al c)) R K -> wle w w' ->
     Q (mkcoll ns bk (c_cache c) (c_al c), w') (Some (n_id n), true)) ->
  (forall w' e, cown w' c R K -> wle w w' -> mk_reason (env_ty a) w w' e -> X (c, w') e) ->
  wp (map_emplace a seg) (c, w) Q X.
Proof.
  intros W Fs Hc H HQ1 HQ2 HX. unfold map_emplace. apply wp_bind, wp_getx. cbn [fst].
  assert (Z : ssize seg = 0).
  { destruct Fs as (_ & _ & _ & Ee). unfold ssize, bsize, vsize; unfold belems in Ee; rewrite Ee; auto. }
  set (R1 := fun x => cnt (cblocks c) x + R x). set (K1 := c_objs c + K).
  assert (H' : sown w seg R1 K1).
  { unfold sown, bown. eapply own_ext; [exact H| |].
    - intros x. unfold R1, sblocks. lia.
    - unfold K1. unfold ssize in Z. rewrite Z, oc_0. reflexivity. }
  apply wp_bind, wp_on_world. cbn [fst snd]. apply wp_bind, wp_try.
  eapply wp_tick; [exact H'| |].
  2:{ intros w1 H1 L1 F1. eapply wp_seg_delete; [apply wfs_0; apply Fs|exact H1|].
      intros w2 H2 L2. apply HX; auto; [wle_tac|]. left. split; auto. fmono. }
  intros w1 H1 L1. eapply wp_construct_node; [exact Fs|exact Hc|exact H1| |].
  2:{ intros w2 e H2 L2 Re. apply HX; auto; [wle_tac|].
      eapply mk_reason_mono; [|exact Re|]; wle_tac. }
  intros w2 s Fs2 H2 L2. destruct (map_find (c_nodes c) a) as [i|] eqn:Ef.
  - apply wp_bind, wp_on_world. cbn [fst snd].
    eapply wp_seg_delete; [apply wfs_0; apply Fs2|exact H2|]. intros w3 H3 L3.
    apply wp_ret. apply HQ1; auto. wle_tac.
  - apply wp_bind, wp_on_world. cbn [fst snd]. apply wp_try. eapply wp_tick; [exact H2| |].
    2:{ intros w3 H3 L3 F3. eapply wp_seg_delete; [apply wfs_0; apply Fs2|exact H3|].
        intros w4 H4 L4. apply HX; auto; [wle_tac|]. left. split; auto. fmono. }
    intros w3 H3 L3. apply wp_bind, wp_on_world. cbn [fst snd].
    eapply wp_fresh; [exact H3|]. intros w4 i H4 L4 Ei Li.
    apply wp_bind, wp_on_world, wp_clock. cbn [fst snd].
    set (bk := env_buckets (length (c_nodes c)) (c_buckets c)).
    set (n := mknode i a s).
    assert (Zs : bsize (sg_be s) = 0).
    { destruct Fs2 as (_ & _ & _ & Ee). unfold bsize, vsize; unfold belems in Ee; rewrite Ee; auto. }
    assert (FIN : forall ns w5, map key_seg ns = map key_seg (c_nodes c) -> NoDup (i :: map n_id ns) ->
      Forall (fun m => n_id m < w_next w5) ns -> own w5 (fun x => cnt (bblocks (sg_be s)) x + R1 x) (oc (sg_ty s) (bsize (sg_be s)) + K1) ->
      wle w4 w5 -> (bk = c_buckets c \/ env_rehash_stable = true -> ns = c_nodes c) ->
      wp (setx (mkcoll (shuffle (env_codes (w_clock w4)) (n :: ns)) bk (c_cache c) (c_al c)) ;;
          ret (Some i, true)) (c, w5) Q X).
    { intros ns w5 Ek ND Fa H5 L5 St. apply wp_bind, wp_setx, wp_ret. cbn [snd].
      set (ns' := shuffle _ _).
      assert (P : Permutation ns' (n :: ns)) by apply shuffle_perm.
      assert (Pk : Permutation (map key_seg ns') (key_seg n :: map key_seg (c_nodes c))).
      { rewrite <- Ek. apply (Permutation_map key_seg) in P. exact P. }
      apply (HQ2 w5 n); auto.
      - unfold added. csplit; auto.
        + eapply Permutation_in; [symmetry; exact P|left; auto].
        + eapply Permutation_NoDup; [symmetry; apply Permutation_map; exact P|]. exact ND.
        + intros C. rewrite (St C) in P. exact P.
      - simpl. wle_tac.
      - eapply Permutation_Forall; [symmetry; exact P|]. constructor; auto. simpl. wle_tac.
      - unfold cown. eapply own_ext; [exact H5| |].
        + intros x. unfold cblocks. cbn [c_nodes].
          rewrite (nblocks_perm ns' (n :: c_nodes c)).
          * simpl. rewrite cnt_app. unfold R1, sblocks, cblocks. lia.
          * rewrite !map_snd_key_seg. apply Permutation_map. exact Pk.
        + unfold c_objs. cbn [c_nodes]. rewrite (osum_perm ns' (n :: c_nodes c)).
          * simpl. unfold ocs, ssize, K1, c_objs. lia.
          * rewrite !map_snd_key_seg. apply Permutation_map. exact Pk.
      - wle_tac. }
    apply wp_bind. destruct W as [Wi Wl _ _ _ _].
    destruct ((bk =? c_buckets c) || env_rehash_stable) eqn:Rh.
    + apply wp_ret. apply FIN; auto using wle_refl.
      * constructor; auto. intros Hin. apply in_map_iff in Hin. destruct Hin as (m & Em & Hm).
        rewrite Forall_forall in Wl. specialize (Wl m Hm). wle_tac.
      * eapply Forall_impl; [|exact Wl]. simpl. intros; wle_tac.
    + apply wp_on_world. cbn [fst snd]. eapply wp_renumber; [exact H4|].
      intros w5 ns5 H5 L5 Ek ND Fa. apply FIN; auto.
      * constructor; auto. intros Hin. apply in_map_iff in Hin. destruct Hin as (m & Em & Hm).
        rewrite Forall_forall in Fa. specialize (Fa m Hm). wle_tac.
      * eapply Forall_impl; [|exact Fa]. simpl. intros; wle_tac.
      * apply orb_false_iff in Rh. destruct Rh as [R2 R3]. apply Nat.eqb_neq in R2.
        intros [?|?]; congruence.
Qed.

Lemma map_find_ext (ns ns' : NL) a i :
  NoDup (map key_ty ns') -> (forall n, In n ns -> In n ns') ->
  map_find ns a = Some i -> map_find ns' a = Some i.
Proof.
  intros ND Inc Hf. destruct (map_find_some _ _ _ Hf) as (n & Hin & <- & Ek).
  apply map_find_in; auto.
Qed.
Lemma map_find_ex (ns ns' : NL) a i :
  (forall n, In n ns -> exists n', In n' ns' /\ n_key n' = n_key n) ->
  map_find ns a = Some i -> exists i', map_find ns' a = Some i'.
Proof.
  intros Inc Hf. destruct (map_find ns' a) as [i'|] eqn:Ef; eauto.
  exfalso. rewrite map_find_none in Ef. destruct (map_find_some _ _ _ Hf) as (n & Hin & _ & Ek).
  destruct (Inc n Hin) as (n' & Hin' & En). apply (Ef n' Hin'). congruence.
Qed.

Lemma added_wfm w' c n ns bk l :
  (exists w, wfm w c) -> n_key n = n_key n -> fresh_seg (n_key n) (c_al c) (n_seg n) ->
  map_find (c_nodes c) (n_key n) = None -> added c n ns bk -> Forall (fun m => n_id m < w_next w') ns ->
  (forall a m, cache_find l a = Some m -> exists i, m = Some i /\ map_find ns a = Some i) ->
  wfm w' (mkcoll ns bk l (c_al c)) /\ NoDup (map key_ty ns).
Proof.
  intros (w & W) _ (Fw & Ft & Fa & Fe) Nf (P & Hin & ND & _) Lt Ch.
  assert (PT : Permutation (map n_ty ns) (n_ty n :: map n_ty (c_nodes c))).
  { assert (A : forall l : NL, map n_ty l = map (fun ks => sg_ty (snd ks)) (map key_seg l)).
    { intros l0. rewrite map_map. apply map_ext. auto. }
    rewrite !A. change (n_ty n) with ((fun ks : tiaddr * segment V => sg_ty (snd ks)) (key_seg n)).
    rewrite <- map_cons. apply Permutation_map. exact P. }
  assert (NT : NoDup (map n_ty ns)).
  { eapply Permutation_NoDup; [symmetry; exact PT|]. constructor; [|apply W].
    destruct (find_spec _ _ (n_key n) W) as [(m & _ & Hm & _)|(_ & Hm)]; [congruence|].
    unfold n_ty at 1. rewrite Ft. exact Hm. }
  assert (KS : forall m, In m ns -> key_seg m = key_seg n \/ exists m', In m' (c_nodes c) /\ key_seg m' = key_seg m).
  { intros m Hm. apply (in_map key_seg) in Hm. eapply Permutation_in in Hm; [|exact P].
    destruct Hm as [Hm|Hm]; auto. right. apply in_map_iff in Hm. destruct Hm as (m' & Em & Hm). eauto. }
  assert (KT : Forall (fun m => env_ty (n_key m) = n_ty m) ns).
  { apply Forall_forall. intros m Hm. destruct (KS m Hm) as [Ek|(m' & Hm' & Ek)];
      assert (E1 := f_equal fst Ek); assert (E2 := f_equal snd Ek); unfold key_seg in E1, E2; cbn [fst snd] in E1, E2.
    - unfold n_ty. rewrite E1, E2. auto.
    - unfold n_ty. rewrite <- E1, <- E2. destruct W as [_ _ _ A _ _].
      rewrite Forall_forall in A. apply A; auto. }
  split.
  - split; simpl; auto.
    apply Forall_forall. intros m Hm. destruct (KS m Hm) as [Ek|(m' & Hm' & Ek)];
      assert (E1 := f_equal fst Ek); assert (E2 := f_equal snd Ek); unfold key_seg in E1, E2; cbn [fst snd] in E1, E2.
    + congruence.
    + rewrite <- E2. destruct W as [_ _ _ _ A _]. rewrite Forall_forall in A. apply A; auto.
  - replace (map key_ty ns) with (map n_ty ns); auto. apply map_ext_in.
    intros m Hm. rewrite Forall_forall in KT. symmetry. apply KT; auto.
Qed.

(** The state after a segment for [a] has been found or made: [c'] has a segment [n] for
    it. *)
Definition made (w : world) (c : coll V) (a : tiaddr) (R : nat -> nat) (K : nat)
  (w' : world) (c' : coll V) (n : node V) : Prop :=
  wfm w' c' /\ cown w' c' R K /\ wle w w' /\ c_al c' = c_al c /\
  node_at (c_nodes c') (n_id n) = Some n /\ n_ty n = env_ty a /\
  ((c_nodes c' = c_nodes c /\ c_buckets c' = c_buckets c) \/
   (~ In (env_ty a) (map n_ty (c_nodes c)) /\ fresh_seg a (c_al c) (n_seg n) /\
    w_next w <= n_id n /\ added c n (c_nodes c') (c_buckets c'))).
(** ... and after an exception on the way: nothing but registration and caching happened. *)
Definition made_exn (w : world) (c : coll V) (a : tiaddr) (R : nat -> nat) (K : nat)
  (w' : world) (c' : coll V) (e : exn) : Prop :=
  wfm w' c' /\ cown w' c' R K /\ wle w w' /\ c_al c' = c_al c /\ mk_reason (env_ty a) w w' e /\
  ((c_nodes c' = c_nodes c /\ c_buckets c' = c_buckets c) \/
   (~ In (env_ty a) (map n_ty (c_nodes c)) /\
    exists n, fresh_seg a (c_al c) (n_seg n) /\ added c n (c_nodes c') (c_buckets c'))).

Lemma wp_tim_insert a seg c w R K (Q : CW -> mapit -> Prop) (X : CW -> exn -> Prop) :
  wfm w c -> fresh_seg a (c_al c) seg -> bcap (sg_be seg) <= 1 ->
  own w (fun x => cnt (cblocks c) x + cnt (sblocks seg) x + R x) (c_objs c + K) ->
  (forall w' c' n, made w c a R K w' c' n -> Q (c', w') (Some (n_id n))) ->
  (forall w' c' e, made_exn w c a R K w' c' e -> X (c', w') e) ->
  wp (tim_insert a seg) (c, w) Q X.
Proof.
  intros W Fs Hc H HQ HX. unfold tim_insert. apply wp_bind, wp_getx. cbn [fst]. apply wp_bind.
  eapply wp_map_emplace; [exact W|exact Fs|exact Hc|exact H| | |].
  - intros w1 i Hf H1 L1. apply wp_bind, wp_getx. cbn [fst]. rewrite Nat.eqb_refl.
    apply wp_bind, wp_ret. apply wp_bind. cbn [fst].
    assert (W1 : wfm w1 c) by (eapply wfm_mono; eauto).
    eapply wp_cache_insert; [exact W1|exact H1|exact Hf| |].
    + intros w2 l W2 H2 L2. apply wp_ret.
      destruct (find_spec _ _ a W) as [(n & Hin & Hm & Hat & Ht)|(Hm & _)]; [|congruence].
      rewrite Hf in Hm. inversion Hm; subst i.
      apply HQ. unfold made. csplit; auto. wle_tac.
    + intros w2 W2 H2 L2 F. apply HX. unfold made_exn. csplit; auto.
      * wle_tac.
      * left. split; auto. fmono.
  - intros w1 n ns bk Hf Ek Fn Ad Li Lt H1 L1. subst a.
    assert (Nin : ~ In (env_ty (n_key n)) (map n_ty (c_nodes c))).
    { destruct (find_spec _ _ (n_key n) W) as [(m & _ & Hm & _)|(_ & Hm)]; auto. congruence. }
    (* the map part, whatever the cache *)
    assert (ADD := fun l => added_wfm w1 c n ns bk l (ex_intro _ w W) eq_refl Fn Hf Ad Lt).
    assert (ND : NoDup (map key_ty ns)).
    { apply (ADD []). simpl. discriminate. }
    assert (Hin : In n ns) by apply Ad.
    assert (Fnd : map_find ns (n_key n) = Some (n_id n)) by (apply map_find_in; auto).
    assert (NI : NoDup (map n_id ns)) by apply Ad.
    (* with any sound cache, the last step *)
    assert (FIN : forall l, (forall a m, cache_find l a = Some m -> exists i, m = Some i /\ map_find ns a = Some i) ->
      wp (cache_insert (n_key n) (Some (n_id n)) ;; ret (Some (n_id n))) (mkcoll ns bk l (c_al c), w1) Q X).
    { intros l Ch. destruct (ADD l Ch) as [W1 _]. apply wp_bind.
      eapply wp_cache_insert with (R := R) (K := K); [exact W1|exact H1|exact Fnd| |].
      - intros w2 l2 W2 H2 L2. apply wp_ret. apply HQ. unfold made. csplit; auto.
        + wle_tac.
        + simpl. apply node_at_some; auto.
        + unfold n_ty. apply Fn.
      - intros w2 W2 H2 L2 F. apply HX. unfold made_exn. csplit; auto.
        + wle_tac.
        + left. split; auto. fmono.
        + right. split; auto. exists n. auto. }
    apply wp_bind, wp_getx. cbn [fst c_buckets]. apply wp_bind. cbn [fst].
    destruct (Nat.eqb_spec bk (c_buckets c)) as [Eb|Eb].
    + apply wp_ret. apply FIN. intros a m Hm.
      destruct (wm_cache _ _ W _ _ Hm) as (i & -> & Hi). exists i. split; auto.
      eapply map_find_ext; [exact ND| |exact Hi]. intros n' Hn'.
      destruct Ad as (_ & _ & _ & St). eapply Permutation_in; [symmetry; apply St; auto|right; auto].
    + unfold rebuild_cache. apply wp_modify. cbn [fst snd c_nodes c_buckets c_cache c_al].
      apply FIN. intros a m Hm.
      assert (G : cache_find (map (fun e => (fst e, map_find ns (fst e))) (c_cache c)) a = Some m ->
                  m = map_find ns a /\ exists m', cache_find (c_cache c) a = Some m').
      { clear. induction (c_cache c) as [|[a' m'] l IH]; simpl; [discriminate|].
        destruct (Nat.eqb_spec a' a) as [->|Ne]; auto.
        intros Es. inversion Es. eauto. }
      destruct (G Hm) as (-> & m' & Hm'). destruct (wm_cache _ _ W _ _ Hm') as (i & _ & Hi).
      destruct (map_find_ex (c_nodes c) ns a i) as (i' & Hi'); eauto.
      intros n' Hn'. apply (in_map key_seg) in Hn'.
      assert (Hk : In (key_seg n') (map key_seg ns)).
      { destruct Ad as (P & _). eapply Permutation_in; [symmetry; exact P|right; auto]. }
      apply in_map_iff in Hk. destruct Hk as (n2 & En2 & Hn2). exists n2. inversion En2. auto.
  - intros w1 e H1 L1 Re. apply HX. unfold made_exn. csplit; auto. eapply wfm_mono; eauto.
Qed.

(** ** find_or_make and register_type *)

Lemma cown_cache w c l R K : cown w (set_cache c l) R K <-> cown w c R K.
Proof. reflexivity. Qed.

Lemma made_cache w w1 c l a R K w' c' n :
  made w1 (set_cache c l) a R K w' c' n -> wle w w1 -> made w c a R K w' c' n.
Proof.
  intros (A1 & A2 & A3 & A4 & A5 & A6 & A7) L. unfold made. csplit; auto; [wle_tac|].
  destruct A7 as [?|(? & ? & ? & ?)]; [left; auto|right]. csplit; auto. wle_tac.
Qed.
Lemma made_exn_cache w w1 c l a R K w' c' e :
  made_exn w1 (set_cache c l) a R K w' c' e -> wle w w1 -> made_exn w c a R K w' c' e.
Proof.
  intros (A1 & A2 & A3 & A4 & A5 & A6) L. unfold made_exn. csplit; auto; try wle_tac.
  eapply mk_reason_mono; [|exact A5|]; wle_tac.
Qed.

Lemma wp_make_insert a t c w R K (Q : CW -> mapit -> Prop) (X : CW -> exn -> Prop) :
  wfm w c -> cown w c R K -> env_ty a = t ->
  (forall w' c' n, made w c a R K w' c' n -> Q (c', w') (Some (n_id n))) ->
  (forall w' c' e, made_exn w c a R K w' c' e -> X (c', w') e) ->
  wp (s <- on_world (seg_make t (c_al c)) ;; tim_insert a s) (c, w) Q X.
Proof.
  intros W H Et HQ HX. apply wp_bind, wp_on_world. cbn [fst snd].
  eapply wp_seg_make; [exact H| |].
  - intros w1 s Ts As Ws Es H1 L1 Cs.
    eapply wp_tim_insert with (R := R) (K := K).
    + eapply wfm_mono; eauto.
    + unfold fresh_seg. csplit; auto. congruence.
    + exact Cs.
    + unfold sown, bown in H1. eapply own_ext; [exact H1| |].
      * intros x. unfold sblocks. lia.
      * unfold bsize, vsize. unfold belems in Es. rewrite Es. cbn [length]. rewrite oc_0. reflexivity.
    + intros w2 c2 n M. apply HQ. apply made_cache with (w1 := w1) (l := c_cache c); auto; destruct c; auto.
    + intros w2 c2 e M. apply HX. apply made_exn_cache with (w1 := w1) (l := c_cache c); auto; destruct c; auto.
  - intros w1 e H1 L1 Re. apply HX. unfold made_exn. csplit; auto; [eapply wfm_mono; eauto|].
    destruct Re as [[([->|(-> & Nz)] & ?)|(_ & _ & [?|[_ ?]])]|(? & Ls & Lm)];
      [left; auto|destruct (bnoisy_0 _ Nz)|discriminate|lia|].
    right. csplit; auto. rewrite Et. unfold vsize in Lm. simpl in Lm. lia.
Qed.

Lemma wp_find_or_make a c w R K (Q : CW -> nat -> Prop) (X : CW -> exn -> Prop) :
  wfm w c -> cown w c R K ->
  (forall w' c' n, made w c a R K w' c' n -> Q (c', w') (n_id n)) ->
  (forall w' c' e, made_exn w c a R K w' c' e -> X (c', w') e) ->
  wp (find_or_make a) (c, w) Q X.
Proof.
  intros W H HQ HX. unfold find_or_make. apply wp_bind.
  eapply wp_tim_find; [exact W|exact H| |].
  - intros w1 l W1 H1 L1. destruct (find_spec _ _ a W) as [(n & Hin & Hf & Hat & Ht)|(Hf & Nin)]; rewrite Hf.
    + apply wp_ret. apply HQ. unfold made. csplit; auto.
    + apply wp_bind, wp_getx. cbn [fst].
      assert (P := wp_make_insert a (env_ty a) (set_cache c l) w1 R K
        (fun s m => wp (match m with Some i => ret i | None => ub end) s Q X) X W1 H1 eq_refl).
      match type of P with ?A -> ?B -> _ => assert (PA : A); [|assert (PB : B); [|specialize (P PA PB)]] end.
      * intros w2 c2 n M. apply wp_ret. apply HQ. eapply made_cache; eauto.
      * intros w2 c2 e M. apply HX. eapply made_exn_cache; eauto.
      * unfold wp, bind in *.
        destruct (on_world (seg_make (env_ty a) (c_al (set_cache c l))) (set_cache c l, w1)) as [s1 sg|s1 e|]; auto.
        destruct (tim_insert a sg s1); auto.
  - intros w1 e W1 H1 L1 -> F NN. apply HX. unfold made_exn. csplit; auto.
    left. auto.
Qed.

Lemma wp_register_type a c w R K (Q : CW -> unit -> Prop) (X : CW -> exn -> Prop) :
  wfm w c -> cown w c R K ->
  (forall w' c' n, made w c a R K w' c' n -> Q (c', w') tt) ->
  (forall w' c' e, made_exn w c a R K w' c' e -> X (c', w') e) ->
  wp (register_type a) (c, w) Q X.
Proof.
  intros W H HQ HX. unfold register_type. apply wp_bind, wp_getx. cbn [fst].
  assert (P := wp_make_insert a (env_ty a) c w R K
    (fun s m => wp (ret tt) s Q X) X W H eq_refl).
  match type of P with ?A -> ?B -> _ => assert (PA : A); [|assert (PB : B); [|specialize (P PA PB)]] end.
  - intros w2 c2 n M. apply wp_ret. eauto.
  - auto.
  - unfold wp, bind in *.
    destruct (on_world (seg_make (env_ty a) (c_al c)) (c, w)) as [s1 sg|s1 e|]; auto.
    destruct (tim_insert a sg s1); auto.
Qed.

(** ** Lookup for an insertion *)

Definition arg_unreg (c : coll V) (x : arg V) : Prop :=
  ~ In (env_ty (a_dyn x)) (map n_ty (c_nodes c)) /\
  (a_acceptable x = false \/ (a_terminal x = false /\ env_ty (a_dyn x) <> env_ty (a_static x))).

Lemma made_ty w c a a' R K w' c' n : env_ty a = env_ty a' ->
  made w c a R K w' c' n -> made w c a' R K w' c' n.
Proof. unfold made, fresh_seg. intros ->. auto. Qed.
Lemma made_exn_ty w c a a' R K w' c' e : env_ty a = env_ty a' ->
  made_exn w c a R K w' c' e -> made_exn w c a' R K w' c' e.
Proof. unfold made_exn, fresh_seg. intros ->. auto. Qed.

Lemma wp_map_iterator_for x c w R K (Q : CW -> nat -> Prop) (X : CW -> exn -> Prop) :
  wfm w c -> cown w c R K -> arg_ok x ->
  (forall w' c' n, made w c (a_dyn x) R K w' c' n -> ~ arg_unreg c x -> Q (c', w') (n_id n)) ->
  (forall w' c' e, made_exn w c (a_dyn x) R K w' c' e -> ~ arg_unreg c x -> X (c', w') e) ->
  (forall w' l, arg_unreg c x -> wfm w' (set_cache c l) -> cown w' (set_cache c l) R K -> wle w w' ->
     X (set_cache c l, w') (UnregisteredType (env_ty (a_dyn x)))) ->
  wp (map_iterator_for x) (c, w) Q X.
Proof.
  intros W H Ok HQ HX HU. unfold map_iterator_for.
  destruct (a_acceptable x) eqn:Ac.
  - destruct (a_terminal x) eqn:Te.
    + assert (NU : ~ arg_unreg c x) by (intros (_ & [?|[? ?]]); congruence).
      eapply wp_find_or_make; [exact W|exact H| |].
      * intros w1 c1 n M. apply HQ; auto. eapply made_ty; [|exact M]. auto.
      * intros w1 c1 e M. apply HX; auto. eapply made_exn_ty; [|exact M]. auto.
    + apply wp_bind. eapply wp_tim_find; [exact W|exact H| |].
      * intros w1 l W1 H1 L1.
        destruct (find_spec _ _ (a_dyn x) W) as [(n & Hin & Hf & Hat & Ht)|(Hf & Nin)]; rewrite Hf.
        -- apply wp_ret. apply HQ.
           ++ unfold made. csplit; auto.
           ++ intros (NI & _). apply NI. rewrite <- Ht. apply in_map; auto.
        -- destruct (Nat.eqb_spec (env_ty (a_dyn x)) (env_ty (a_static x))) as [Ed|Ed].
           ++ assert (NU : ~ arg_unreg c x) by (intros (_ & [?|[? ?]]); congruence).
              apply wp_bind, wp_getx. cbn [fst].
              assert (P := wp_make_insert (a_static x) (env_ty (a_static x)) (set_cache c l) w1 R K
                (fun s m => wp (match m with Some i => ret i | None => ub end) s Q X) X W1 H1 eq_refl).
              match type of P with ?A -> ?B -> _ => assert (PA : A); [|assert (PB : B); [|specialize (P PA PB)]] end.
              ** intros w2 c2 n M. apply wp_ret. apply HQ; auto.
                 eapply made_ty; [symmetry; exact Ed|]. eapply made_cache; eauto.
              ** intros w2 c2 e M. apply HX; auto.
                 eapply made_exn_ty; [symmetry; exact Ed|]. eapply made_exn_cache; eauto.
              ** unfold wp, bind in *.
                 destruct (on_world (seg_make (env_ty (a_static x)) (c_al (set_cache c l))) (set_cache c l, w1)) as [s1 sg|s1 e|]; auto.
                 destruct (tim_insert (a_static x) sg s1); auto.
           ++ apply wp_throw. apply HU; auto. unfold arg_unreg. auto.
      * intros w1 e W1 H1 L1 -> F NN.
        destruct (find_spec _ _ (a_dyn x) W) as [(n & Hin & Hf & Hat & Ht)|(Hf & Nin)].
        -- apply HX.
           ++ unfold made_exn. csplit; auto. left. auto.
           ++ intros (NI & _). apply NI. rewrite <- Ht. apply in_map; auto.
        -- congruence.
  - apply wp_bind, wp_getx. cbn [fst]. rewrite (cache_transparent w) by auto.
    destruct (find_spec _ _ (a_dyn x) W) as [(n & Hin & Hf & Hat & Ht)|(Hf & Nin)]; rewrite Hf.
    + apply wp_ret. apply HQ.
      * unfold made. csplit; auto using wle_refl.
      * intros (NI & _). apply NI. rewrite <- Ht. apply in_map; auto.
    + apply wp_throw. assert (EC : c = set_cache c (c_cache c)) by (destruct c; auto).
      rewrite EC. apply HU; auto using wle_refl; try (rewrite <- EC; auto). unfold arg_unreg. auto.
Qed.

Lemma wp_map_iterator_for_proto a c w R K (Q : CW -> nat -> Prop) (X : CW -> exn -> Prop) :
  wfm w c -> cown w c R K ->
  (forall w' c' n, made w c a R K w' c' n -> Q (c', w') (n_id n)) ->
  (forall w' c' e, made_exn w c a R K w' c' e -> X (c', w') e) ->
  wp (map_iterator_for_proto a (env_ty a)) (c, w) Q X.
Proof. exact (wp_find_or_make a c w R K Q X). Qed.

Lemma wp_map_iterator_by_info a c w (Q : CW -> nat -> Prop) (X : CW -> exn -> Prop) :
  wfm w c ->
  (forall n, In n (c_nodes c) -> node_at (c_nodes c) (n_id n) = Some n -> n_ty n = env_ty a ->
     Q (c, w) (n_id n)) ->
  (~ In (env_ty a) (map n_ty (c_nodes c)) -> X (c, w) (UnregisteredType (env_ty a))) ->
  wp (map_iterator_by_info a) (c, w) Q X.
Proof.
  intros W HQ HX. unfold map_iterator_by_info. apply wp_bind, wp_getx. cbn [fst].
  rewrite (cache_transparent w) by auto.
  destruct (find_spec _ _ a W) as [(n & Hin & Hf & Hat & Ht)|(Hf & Nin)]; rewrite Hf.
  - apply wp_ret. auto.
  - apply wp_throw. auto.
Qed.

End PMap.
