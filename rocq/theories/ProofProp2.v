(** * Registration, capacity, equality, copies and moves over reachable states *)

From Coq Require Import List Arith Lia Bool Permutation.
From Verif Require Import Base Vec Backend Segment Coll Spec ProofBase ProofVec ProofBackend ProofOps ProofOps2 ProofSeg ProofMap ProofView ProofColl ProofIns ProofEach ProofErase ProofRange ProofRange2 ProofEq ProofCopy Reach ProofReach ProofObs ProofProp.
Import ListNotations.

Section PProp2.
Context {V : Type} {E : Env V}.
Notation CW := (coll V * world)%type.
Notation nsz n := (bsize (sg_be (n_seg n))).

(** ** Registration *)
Definition reg_step (c c' : coll V) (a : tiaddr) : Prop :=
  (c_nodes c' = c_nodes c /\ c_buckets c' = c_buckets c) \/
  (~ In (env_ty a) (map n_ty (c_nodes c)) /\
   exists n, fresh_seg a (c_al c) (n_seg n) /\ added c n (c_nodes c') (c_buckets c')).

Lemma registered_refl (c : coll V) ts : incl ts (types c) -> registered c c ts.
Proof.
  intros I. split; auto.
  - intros t. split; auto. intros [?|?]; auto.
  - exists []. auto.
  - intros. apply kept_refl.
Qed.
Lemma registered_nodes (c c' : coll V) ts : c_nodes c' = c_nodes c -> c_al c' = c_al c -> incl ts (types c) -> registered c c' ts.
Proof.
  intros N A I. destruct (nodes_unchanged _ _ N A) as [U1 U2 U3 U4 U5]. split; auto.
  - intros t. unfold types. rewrite U1. split; auto. intros [?|?]; auto.
  - exists []. rewrite U1. auto.
  - intros. split; intros; [apply U3|apply U4]; auto.
Qed.

Lemma reg_added w w' (c c' : coll V) a n : wfc w c -> wfm w' c' -> c_al c' = c_al c -> ~ In (env_ty a) (map n_ty (c_nodes c)) ->
  fresh_seg a (c_al c) (n_seg n) -> added c n (c_nodes c') (c_buckets c') -> registered c c' [env_ty a].
Proof.
  intros W W' Al Nin Fs Ad. pose proof (wc_map _ _ W) as Wm.
  assert (Et : n_ty n = env_ty a) by apply Fs.
  assert (Ee : n_elems n = []) by apply Fs.
  pose proof (added_content _ _ _ _ c' Ad eq_refl) as Pc. rewrite Et, Ee in Pc.
  assert (Pu : put c c' (env_ty a) (n_id n) (n_seg n)).
  { right. split; auto. exists (n_key n). split; [|destruct n; exact Ad].
    assert (B := wm_key _ _ W'). rewrite Forall_forall in B. rewrite <- Et. apply B. apply Ad. }
  split; auto.
  - intros t. pose proof (Permutation_map fst Pc) as Pt. change (map fst (content c')) with (types c') in Pt. simpl in Pt.
    change (map fst (content c)) with (types c) in Pt. split.
    + intros H. eapply Permutation_in in H; [|exact Pt]. destruct H as [<-|H]; simpl; auto.
    + intros H. eapply Permutation_in; [symmetry; exact Pt|]. destruct H as [H|[<-|[]]]; simpl; auto.
  - exists [env_ty a]. exact Pc.
  - intros I. exfalso. apply Nin. rewrite <- types_nodes. apply I. left; auto.
  - intros t Ht. eapply put_others; [exact Wm|exact Pu|apply Fs|]. intros ->. rewrite types_nodes in Ht. auto.
  - intros [I|Hr].
    + exfalso. apply Nin. rewrite <- types_nodes. apply I. left; auto.
    + intros t k. destruct (Nat.eq_dec t (env_ty a)) as [->|Ne].
      * apply kept_same_nodes. intros m Hm Em. exfalso. apply Nin. rewrite <- Em. exact (in_map n_ty _ _ Hm).
      * eapply put_iters; [exact Pu|right; auto|exact Ne].
Qed.

Lemma registered_trans (c c1 c' : coll V) l1 l2 : registered c c1 l1 -> registered c1 c' l2 -> registered c c' (l1 ++ l2).
Proof.
  intros [A1 (n1 & A2) A3 A4 A5 A6] [B1 (n2 & B2) B3 B4 B5 B6]. split.
  - intros t. rewrite B1, A1, in_app_iff. tauto.
  - exists (n2 ++ n1). rewrite B2, A2, map_app, app_assoc. auto.
  - intros I. assert (I1 : incl l1 (types c)) by (intros x Hx; apply I, in_or_app; auto).
    specialize (A3 I1). rewrite B3; auto. intros x Hx. unfold types. rewrite A3. apply I, in_or_app; auto.
  - intros t Ht. rewrite B4; auto. apply A1; auto.
  - intros Hs t k.
    assert (I1 : incl l1 (types c) \/ env_rehash_stable = true).
    { destruct Hs as [I|]; auto. left. intros x Hx; apply I, in_or_app; auto. }
    eapply kept_trans; [apply A5; auto|]. apply B5; auto. destruct Hs as [I|]; auto. left. intros x Hx. apply A1. left. apply I, in_or_app; auto.
  - congruence.
Qed.

Lemma spec_register_wf l : forall c w R K, wfc w c -> cown w c R K ->
  wp (register_types l) (c, w)
    (fun '(c', w') _ => registered c c' (map env_ty l))
    (fun '(c', w') e => exists pre a post, l = pre ++ a :: post /\
       (registered c c' (map env_ty pre) \/ registered c c' (map env_ty (pre ++ [a]))) /\ make_threw (env_ty a) w w' e).
Proof.
  induction l as [|a l IH]; intros c w R K W O.
  - apply wp_ret. apply registered_refl. intros x [].
  - apply wp_bind. eapply (wp_register_type a c w R K); auto.
    + apply W.
    + intros w1 c1 n M. assert (W1 : wfc w1 c1).
      { split; [apply M|]. destruct M as (_ & _ & _ & _ & _ & _ & [(En & _)|(_ & Fs & _ & Ad)]).
        - unfold segs_ok. rewrite En. apply W.
        - eapply added_segs; [exact Ad|apply Fs|apply W]. }
      assert (O1 : cown w1 c1 R K) by apply M. assert (L1 : wle w w1) by apply M.
      assert (S1 : registered c c1 [env_ty a]).
      { destruct M as (Wm1 & _ & _ & Al & Hat & Et & [(En & _)|(Nin & Fs & _ & Ad)]).
        - apply registered_nodes; auto. intros x [<-|[]]. rewrite types_nodes, <- En, <- Et.
          apply (in_map n_ty). apply (node_at_in _ _ _ Hat).
        - eapply reg_added; eauto. }
      eapply wp_mono; [apply (IH c1 w1 R K W1 O1)| |].
      * intros [c2 w2] r S2. exact (registered_trans _ _ _ _ _ S1 S2).
      * intros [c2 w2] e (pre & b & post & -> & S2 & Tr). exists (a :: pre), b, post. csplit; auto.
        -- destruct S2 as [S2|S2]; [left|right]; exact (registered_trans _ _ _ _ _ S1 S2).
        -- destruct Tr as [(? & ?)|?]; [left|right; auto]. split; auto.
           match goal with F : fault_between _ _ |- _ => destruct F as (k & Hk & Fk) end. exists k. split; auto. wle_tac.
    + intros w1 c1 e (Wm1 & O1 & L1 & Al & Re & Cs). exists [], a, l. csplit; auto.
      destruct Cs as [(En & _)|(Nin & n & Fs & Ad)].
      * left. apply registered_nodes; auto. intros x [].
      * right. eapply reg_added; eauto.
Qed.

Lemma spec_register w c g d l : reach w (c :: g) d ->
  wp (register_types l) (c, w)
    (fun '(c', w') _ => registered c c' (map env_ty l))
    (fun '(c', w') e => exists pre a post, l = pre ++ a :: post /\
       (registered c c' (map env_ty pre) \/ registered c c' (map env_ty (pre ++ [a]))) /\ make_threw (env_ty a) w w' e).
Proof. intros H. destruct (reach_wf _ _ _ _ H) as (W & O). eapply spec_register_wf; eauto. Qed.

(** ** Capacity of one type *)
Definition rsv1 (c c' : coll V) (t : tyid) (n : nat) : Prop :=
  same_but c c' t /\ others_kept c c' t /\ (In t (types c) \/ env_rehash_stable = true -> other_iters_kept c c' t) /\
  c_al c' = c_al c /\ In t (types c').

Lemma did_rsv1 w c R K w' c' t i s s' n : wfc w c -> did w c R K w' c' t i s s' -> belems (sg_be s') = belems (sg_be s) -> rsv1 c c' t n.
Proof.
  intros W D Ee. pose proof (wc_map _ _ W) as Wm. unfold rsv1. csplit.
  - eapply did_same_but; eauto.
  - eapply put_others; [exact Wm|apply D|apply D].
  - intros H. eapply did_other_iters; eauto.
  - apply D.
  - destruct (put_in _ _ _ _ _ (did_put _ _ _ _ _ _ _ _ _ _ D)) as (key & Hin). rewrite types_nodes.
    apply (in_map n_ty) in Hin. unfold n_ty in Hin at 1. cbn [n_seg] in Hin. rewrite (did_ty _ _ _ _ _ _ _ _ _ _ D) in Hin. exact Hin.
Qed.

Lemma did_reserved w c R K w' c' t i s s' n : wfc w c -> In t (types c) -> seg_did (rsv_rel n) w c R K w' c' t i s s' -> reserved c c' n (eq t).
Proof.
  intros W Ht D. pose proof (wc_map _ _ W) as Wm. pose proof D as (Dd & W' & Ws & Rr).
  assert (Ee : belems (sg_be s') = belems (sg_be s)) by apply Rr.
  destruct (did_rsv1 _ _ _ _ _ _ _ _ _ _ n W Dd Ee) as (Sb & Ok & It & Al & _).
  pose proof (put_seg_at _ _ _ _ _ _ (wc_map _ _ W') (did_put _ _ _ _ _ _ _ _ _ _ Dd) (did_ty _ _ _ _ _ _ _ _ _ _ Dd)) as Sg'.
  pose proof (prev_seg_at _ _ _ _ _ Wm (did_prev _ _ _ _ _ _ _ _ _ _ Dd) Ht) as Sg.
  destruct (rsv_seg _ _ _ _ _ _ Sg Sg' Rr) as (Cp & Ad).
  split; auto.
  - destruct Sb as [|(N & _)]; auto. exfalso. apply seg_of_none in N. rewrite types_nodes in Ht. auto.
  - intros t' _ <-. exact Cp.
  - intros t' H. destruct (Nat.eq_dec t' t) as [->|Ne].
    + specialize (H eq_refl). csplit; auto.
      * lia.
      * intros k [Hk|Nt]; [|exfalso; apply Nt; auto].
        assert (Eb : sg_be s' = sg_be s).
        { eapply rsv_stable; eauto.
          - unfold cap_of in H. rewrite Sg in H. exact H.
          - rewrite elems_seg_at, Sg in Hk. exact Hk. }
        eapply (did_kept w c R K w' c' t i s s' k W Dd Ht); rewrite Eb; auto.
    + csplit.
      * unfold cap_of. rewrite Ok; auto.
      * intros k. unfold addr_of. rewrite Ok; auto.
      * intros k _. eapply It; eauto.
  - intros t' H. unfold data_of. destruct (Nat.eq_dec t' t) as [->|Ne]; [|rewrite Ok; auto].
    specialize (H eq_refl). unfold cap_of in H. rewrite Sg in H. rewrite Sg, Sg'.
    destruct Rr as (_ & _ & _ & D' & _). destruct (D' H) as (-> & _). auto.
Qed.

Lemma rsv_fail_threw w c R K w' c' t i s s' n e : wfc w c -> seg_fail (rsv_fail n) w c R K w' c' t i s s' e ->
  rsv1 c c' t n /\ reserve_threw c t n w w' e.
Proof.
  intros W (Dd & Ws & w1 & L1 & R1 & R2 & R3 & R4 & R5). pose proof (wc_map _ _ W) as Wm.
  assert (Ts : sg_ty s = t).
  { destruct (did_prev _ _ _ _ _ _ _ _ _ _ Dd) as [(m & _ & Em & <-)|(_ & _ & ? & _)]; auto. }
  pose proof (prev_elems _ _ _ _ _ Wm (did_prev _ _ _ _ _ _ _ _ _ _ Dd)) as Ee.
  split.
  - eapply did_rsv1; eauto. unfold belems. rewrite R1. auto.
  - rewrite Ts in R5. destruct R5 as [[(B & k & Hk & Fk)|(B1 & B2 & B3)]|B].
    + left. split; [|exists k; split; auto; wle_tac].
      destruct B as [B|(B & [(h0 & B1 & _)|(B1 & B4)])]; [auto|discriminate|]. right. csplit; auto.
      intros Q. rewrite <- Ee in Q. unfold bsize, vsize in B4. unfold belems in Q. rewrite Q in B4. simpl in B4. lia.
    + right; left. destruct B3 as [B3|(B3 & B4)]; [discriminate|]. csplit; auto.
      intros Q. rewrite <- Ee in Q. unfold bsize, vsize in B4. unfold belems in Q. rewrite Q in B4. simpl in B4. lia.
    + right; right. exact B.
Qed.

Lemma spec_reserve_info w c g d a n : let t := env_ty a in reach w (c :: g) d ->
  wp (c_reserve_info a n) (c, w)
    (fun '(c', w') _ => In t (types c) /\ reserved c c' n (eq t) /\ n <= env_vmax t)
    (fun '(c', w') e =>
       (~ In t (types c) /\ e = UnregisteredType t /\ c' = c /\ w' = w) \/
       (In t (types c) /\ content c' = content c /\ others_kept c c' t /\ other_iters_kept c c' t /\
        c_al c' = c_al c /\ reserve_threw c t n w w' e)).
Proof.
  intros t H. destruct (reach_wf _ _ _ _ H) as (W & O). pose proof (wc_map _ _ W) as Wm.
  eapply (wp_c_reserve_info a n c w _ _); [exact W|exact O| | |].
  - intros w' c' i s s' _ Ht D. csplit; auto; [eapply did_reserved; eauto|].
    destruct D as (Dd & _ & _ & Rr). destruct Rr as (_ & _ & Q & _).
    destruct (did_prev _ _ _ _ _ _ _ _ _ _ Dd) as [(m & _ & Em & <-)|(_ & _ & Em & _)]; unfold n_ty in *; fold t in Em; congruence.
  - intros w' c' i s s' e Ht F. right. destruct (rsv_fail_threw _ _ _ _ _ _ _ _ _ _ _ _ W F) as ((A1 & A2 & A3 & A4 & A5) & B).
    csplit; auto. destruct A1 as [|(N & _)]; auto. exfalso. apply seg_of_none in N. rewrite types_nodes in Ht. auto.
  - intros N. left. auto.
Qed.

Lemma spec_reserve_type w c g d a n : let t := env_ty a in reach w (c :: g) d ->
  wp (c_reserve_type a n) (c, w)
    (fun '(c', w') _ => same_but c c' t /\ others_kept c c' t /\ In t (types c') /\ n <= cap_of c' t /\ n <= env_vmax t /\
       (In t (types c) -> reserved c c' n (eq t)) /\
       (In t (types c) \/ env_rehash_stable = true -> other_iters_kept c c' t) /\ c_al c' = c_al c)
    (fun '(c', w') e => same_but c c' t /\ others_kept c c' t /\
       (In t (types c) \/ env_rehash_stable = true -> other_iters_kept c c' t) /\ c_al c' = c_al c /\
       (reserve_threw c t n w w' e \/ make_threw t w w' e)).
Proof.
  intros t H. destruct (reach_wf _ _ _ _ H) as (W & O). pose proof (wc_map _ _ W) as Wm.
  eapply (wp_c_reserve_type a n c w _ _); [exact W|exact O| | |].
  - intros w' c' i s s' _ D. pose proof D as (Dd & W' & Ws & Rr). pose proof Rr as (Ee & Cp & Lim & _).
    destruct (did_rsv1 _ _ _ _ _ _ _ _ _ _ n W Dd Ee) as (Sb & Ok & It & Al & Ht).
    pose proof (put_seg_at _ _ _ _ _ _ (wc_map _ _ W') (did_put _ _ _ _ _ _ _ _ _ _ Dd) (did_ty _ _ _ _ _ _ _ _ _ _ Dd)) as Sg'.
    csplit; auto.
    + unfold cap_of. fold t in Sg'. rewrite Sg'. unfold bcap in Cp. lia.
    + destruct (did_prev _ _ _ _ _ _ _ _ _ _ Dd) as [(m & _ & Em & <-)|(_ & _ & Em & _)]; unfold n_ty in *; fold t in Em; congruence.
    + intros Hin. eapply did_reserved; eauto.
  - intros w' c' e M. pose proof (made_exn_refused _ _ _ _ _ _ _ _ HMove 0 W M) as (Hm & _ & _).
    destruct M as (Wm1 & O1 & L1 & Al & Re & Cs).
    assert (S : registered c c' [] \/ registered c c' [t]).
    { destruct Cs as [(En & _)|(Nin & m & Fs & Ad)]; [left; apply registered_nodes; auto; intros x []|right; eapply reg_added; eauto]. }
    csplit; auto; [|apply Hm|apply Hm].
    destruct Cs as [(En & _)|(Nin & m & Fs & Ad)]; [left; unfold content; rewrite En; auto|right].
    split; [apply seg_of_none; auto|].
    assert (Et : n_ty m = env_ty a) by apply Fs. assert (Ee : n_elems m = []) by apply Fs.
    pose proof (added_content _ _ _ _ c' Ad eq_refl) as Pc. rewrite Et, Ee in Pc. exact Pc.
  - intros w' c' i s s' e F. destruct (rsv_fail_threw _ _ _ _ _ _ _ _ _ _ _ _ W F) as ((A1 & A2 & A3 & A4 & A5) & B).
    csplit; auto.
Qed.

(** ** shrink_to_fit *)
Lemma spec_shrink w c g d : reach w (c :: g) d ->
  wp c_shrink_all (c, w)
    (fun '(c', w') _ => shrunk c c' (fun _ => True))
    (fun '(c', w') e => shrunk c c' (fun _ => True) /\ exists t, In t (types c) /\ shrink_threw c t w w' e).
Proof.
  intros H. destruct (reach_wf _ _ _ _ H) as (W & O). pose proof (wc_map _ _ W) as Wm.
  eapply (wp_c_shrink_all c w _ _); [exact W|exact O| |].
  - intros w' c' (W' & O' & L & Al & Bk & F). assert (Sg := fun t => nrel_seg_at _ c c' t F). split; auto.
    + eapply nrel_content; [|exact F]. intros s s' R. apply R.
    + intros t. specialize (Sg t). unfold cap_of. destruct (seg_at c t) eqn:E1, (seg_at c' t) eqn:E2; try contradiction; auto. apply Sg.
    + tauto.
    + tauto.
  - intros w' c' e (W0 & Hw & O' & L & Al & Ef) W'.
    destruct Ef as (m1 & m & m2 & m1' & m' & E1 & E2 & F & I1 & I2 & I3 & Fx).
    pose proof Fx as (R1 & R2 & R3 & R5).
    assert (Hty : sg_ty (n_seg m') = sg_ty (n_seg m)) by exact I3.
    assert (Ec : content c' = content c).
    { rewrite !content_nodes, E1, E2, !map_app. cbn [map]. f_equal.
      - eapply nrel_same; [|exact F]. intros s s' R; apply R.
      - f_equal. unfold n_ty, n_elems. rewrite I3. f_equal. apply R1. }
    split; [split; auto|].
    + intros t. destruct (In_dec Nat.eq_dec t (types c)) as [Ht|Nt].
      * assert (Hin : exists x x', In x (c_nodes c) /\ In x' (c_nodes c') /\ n_ty x = t /\ n_ty x' = t /\
                        bcap (sg_be (n_seg x')) <= bcap (sg_be (n_seg x))).
        { rewrite types_nodes, E1, map_app in Ht. apply in_app_or in Ht. rewrite E1, E2. destruct Ht as [Ht|[Ht|Ht]].
          - apply in_map_iff in Ht. destruct Ht as (x & <- & Hx). destruct (Forall2_in_l _ _ _ _ F Hx) as (x' & Hx' & J1 & J2 & J3 & J4 & J5 & J6).
            exists x, x'. csplit; auto; try (apply in_or_app; auto). apply J6.
          - exists m, m'. csplit; auto; try (apply in_elt). + unfold n_ty in *. congruence. + apply R1.
          - apply in_map_iff in Ht. destruct Ht as (x & <- & Hx). exists x, x. csplit; auto; apply in_or_app; right; right; auto. }
        destruct Hin as (x & x' & Hx & Hx' & Ex & Ex' & Hle).
        unfold cap_of. rewrite <- Ex at 2. rewrite <- Ex' at 1.
        rewrite (seg_at_node c x), (seg_at_node c' x'); auto; [apply (wc_map _ _ W')|apply Wm].
      * unfold cap_of. assert (N' : ~ In t (types c')) by (unfold types; rewrite Ec; exact Nt).
        rewrite types_seg_at in N'. destruct (seg_at c' t); [exfalso; apply N'; discriminate|lia].
    + tauto.
    + tauto.
    + exists (n_ty m). assert (Hin : In m (c_nodes c)) by (rewrite E1; apply in_elt). split.
      * rewrite types_nodes. apply in_map; auto.
      * destruct R5 as [[B|(B1 & B2 & B3)]|B].
        -- left. destruct B as ([B|(B & [(h0 & B1 & _)|(B1 & B2)])] & Fa); [auto|discriminate|].
           split; auto. right. csplit; auto.
           intros Q. rewrite (elems_node w c m Wm Hin) in Q. apply (f_equal (@length _)) in Q. rewrite n_elems_length in Q. simpl in Q. lia.
        -- right; left. destruct B3 as [B3|(B3 & B4)]; [discriminate|]. csplit; auto.
           intros Q. rewrite (elems_node w c m Wm Hin) in Q. apply (f_equal (@length _)) in Q. rewrite n_elems_length in Q. simpl in Q. lia.
        -- right; right. tauto.
Qed.

Lemma did_shrunk w c R K w' c' t i s s' : wfc w c -> wfm w' c' -> In t (types c) -> did w c R K w' c' t i s s' -> shk_rel s s' -> shrunk c c' (eq t).
Proof.
  intros W W' Ht Dd (Ee & Cp). pose proof (wc_map _ _ W) as Wm.
  destruct (did_rsv1 _ _ _ _ _ _ _ _ _ _ 0 W Dd Ee) as (Sb & Ok & It & Al & _).
  pose proof (put_seg_at _ _ _ _ _ _ W' (did_put _ _ _ _ _ _ _ _ _ _ Dd) (did_ty _ _ _ _ _ _ _ _ _ _ Dd)) as Sg'.
  pose proof (prev_seg_at _ _ _ _ _ Wm (did_prev _ _ _ _ _ _ _ _ _ _ Dd) Ht) as Sg.
  split; auto.
  - destruct Sb as [|(N & _)]; auto. exfalso. apply seg_of_none in N. rewrite types_nodes in Ht. auto.
  - intros t'. unfold cap_of. destruct (Nat.eq_dec t' t) as [->|Ne]; [rewrite Sg, Sg'; exact Cp|rewrite Ok; auto].
  - intros t' k Ne. eapply It; auto.
Qed.

Lemma spec_shrink_info w c g d a : let t := env_ty a in reach w (c :: g) d ->
  wp (c_shrink_info a) (c, w)
    (fun '(c', w') _ => In t (types c) /\ shrunk c c' (eq t))
    (fun '(c', w') e =>
       (~ In t (types c) /\ e = UnregisteredType t /\ c' = c /\ w' = w) \/
       (In t (types c) /\ shrunk c c' (eq t) /\ shrink_threw c t w w' e)).
Proof.
  intros t H. destruct (reach_wf _ _ _ _ H) as (W & O). pose proof (wc_map _ _ W) as Wm.
  eapply (wp_c_shrink_info a c w _ _); [exact W|exact O| | |].
  - intros w' c' i s s' _ Ht (Dd & W' & Ws & Rr). split; auto. eapply did_shrunk; eauto. apply W'.
  - intros w' c' i s s' e Ht (Dd & Ws0 & w1 & L1 & R1 & R2 & R3 & R5). right.
    assert (Ts : sg_ty s = t).
    { destruct (did_prev _ _ _ _ _ _ _ _ _ _ Dd) as [(m & _ & Em & <-)|(_ & _ & ? & _)]; auto. }
    pose proof (prev_elems _ _ _ _ _ Wm (did_prev _ _ _ _ _ _ _ _ _ _ Dd)) as Ee.
    csplit; auto.
    + eapply did_shrunk; eauto. apply (did_wf _ _ _ _ _ _ _ _ _ _ Dd); auto.
    + rewrite Ts in R5. destruct R5 as [[(B & k & Hk & Fk)|(B1 & B2 & B3)]|B].
      * left. split; [|exists k; split; auto; wle_tac].
        destruct B as [B|(B & [(h0 & B1 & _)|(B1 & B4)])]; [auto|discriminate|]. right. csplit; auto.
        intros Q. fold t in Ee. rewrite <- Ee in Q. unfold bsize, vsize in B4. unfold belems in Q. rewrite Q in B4. simpl in B4. lia.
      * right; left. destruct B3 as [B3|(B3 & B4)]; [discriminate|]. csplit; auto.
        intros Q. fold t in Ee. rewrite <- Ee in Q. unfold bsize, vsize in B4. unfold belems in Q. rewrite Q in B4. simpl in B4. lia.
      * right; right. tauto.
  - intros N. left. auto.
Qed.

(** ** Equality *)
Lemma spec_equal w g d x y : reach w g d -> In x g -> In y g ->
  wp (c_equal x y) w
    (fun w' b => (b = true <-> coll_eq x y) /\ w_live w' = w_live w /\ w_objs w' = w_objs w)
    (fun w' e => equal_threw x y w w' e /\ w_live w' = w_live w /\ w_objs w' = w_objs w).
Proof.
  intros H Hx Hy. apply reach_alive in H. pose proof (al_good _ _ _ H) as F. rewrite Forall_forall in F.
  eapply (wp_c_equal w w x y w); [apply (F x Hx)|apply (F y Hy)| |].
  - intros w' b (_ & T2 & T3 & _) Hb. auto.
  - intros w' e (_ & T2 & T3 & _) N. csplit; auto. destruct N as [(-> & (t & B & C & D) & N)|(t & A & B & C & D)].
    + left. csplit; auto. exists t. csplit; auto. intros Q. rewrite Q in D. simpl in D. lia.
    + right. exists t. csplit; auto. intros Q. rewrite Q in D. simpl in D. lia.
Qed.

(** ** Separate storage, objects and blocks *)
Lemma addr_block w (c : coll V) t k p : wfc w c -> addr_of c t k = Some p -> 0 < cnt (cblocks c) (fst p).
Proof.
  intros W A. unfold addr_of in A. destruct (seg_at c t) as [s|] eqn:Es; [|discriminate].
  destruct (k <? length (elems_of s)) eqn:Hk; [|discriminate]. inversion A; subst p. cbn [fst vptr].
  apply seg_at_in in Es. destruct Es as (n & Hin & Et & En). apply Nat.ltb_lt in Hk.
  assert (Hn : incl (bblocks (sg_be (n_seg n))) (nblocks (c_nodes c))).
  { clear - Hin. induction (c_nodes c) as [|m l IH]; [contradiction|]. destruct Hin as [->|Hin]; intros x Hx; cbn [nblocks]; apply in_or_app; auto.
    right. apply IH; auto. }
  assert (Ws : wfs0 s).
  { apply wfs_0. destruct W as [_ S]. unfold segs_ok in S. rewrite Forall_forall in S. rewrite <- En. apply S; auto. }
  assert (Hc : 0 < v_cap (be_store (sg_be s))).
  { destruct (wfb_store _ _ Ws) as [Q _ _]. unfold vsize in Q. unfold elems_of in Hk. lia. }
  unfold cblocks. apply (count_occ_In Nat.eq_dec). apply Hn. rewrite En. unfold bblocks.
  rewrite vblocks_cap by exact Hc. left. auto.
Qed.

Lemma spec_separate w x y g d : reach w (x :: y :: g) d -> separate x y.
Proof.
  intros H. apply reach_alive in H. destruct H as [G B O]. inversion G as [|? ? Wx G1]; subst. inversion G1 as [|? ? Wy G2]; subst.
  intros t k p t' k' p' Ax Ay Q. pose proof (addr_block _ _ _ _ _ Wx Ax) as Bx. pose proof (addr_block _ _ _ _ _ Wy Ay) as By.
  pose proof (own_one _ _ _ O (fst p)) as One. unfold PR in One. rewrite !pblocks_cons in One. rewrite Q in *. lia.
Qed.

(** The storage of a collection in working order is live. *)
Lemma spec_live w c g d t k p : reach w (c :: g) d -> addr_of c t k = Some p -> In (fst p) (w_live w).
Proof.
  intros H A. destruct (reach_wf _ _ _ _ H) as (W & O). pose proof (addr_block _ _ _ _ _ W A) as B.
  apply (count_occ_In Nat.eq_dec). change (0 < cnt (w_live w) (fst p)). rewrite (own_cnt _ _ _ O). lia.
Qed.

Lemma c_objs_counted (c : coll V) : c_objs c = counted c.
Proof.
  unfold c_objs, counted, flat. rewrite content_nodes. induction (c_nodes c) as [|n l IH]; [reflexivity|]. cbn [map flat_map osum].
  rewrite filter_app, app_length, <- IH. f_equal. cbn [fst snd]. unfold ocs, oc, vc. cbn [eo_obj vh_eops]. change (sg_ty (n_seg n)) with (n_ty n).
  change (ssize (n_seg n)) with (length (n_elems n)). generalize (n_elems n). intros xs. induction xs as [|x xs IHx].
  - destruct (env_counted (n_ty n)); reflexivity.
  - cbn [map filter fst length]. destruct (env_counted (n_ty n)); cbn [length]; lia.
Qed.
Lemma spec_objects w g d : reach w g d -> w_objs w = list_sum (map counted (g ++ d)).
Proof.
  intros H. apply reach_alive in H. rewrite (own_objs _ _ _ (al_own _ _ _ H)). unfold PK. rewrite <- psize_app.
  generalize (g ++ d). induction l as [|c l IH]; [reflexivity|]. rewrite psize_cons, IH. simpl. rewrite c_objs_counted. auto.
Qed.
Lemma spec_no_leak w : reach (V := V) w [] [] -> w_live w = [] /\ w_objs w = 0.
Proof.
  intros H. apply reach_alive in H. destruct H as [_ _ O]. split.
  - destruct (w_live w) as [|b l] eqn:Q; auto. pose proof (own_cnt _ _ _ O b) as C. rewrite Q in C.
    unfold PR, cnt in C. simpl in C. destruct (Nat.eq_dec b b); congruence.
  - rewrite (own_objs _ _ _ O). reflexivity.
Qed.

(** ** Copies and moves *)
Lemma rebuilt_same w (x c : coll V) : wfm w x -> rebuilt x c -> same_content x c.
Proof. intros W R. split; auto. intros t. apply (rebuilt_elems _ _ _ _ W R). Qed.
Lemma copy_reason_threw w (x : coll V) cp w1 w2 e : wfm w x -> copy_reason cp x w1 w2 e -> copy_threw cp x w1 w2 e.
Proof.
  intros W [([A|(A & n & Hn & S & C)] & F)|[(A & n & Hn & -> & C & S)|(A & B & n & Hn & C)]].
  - left. auto.
  - left. split; auto. right. split; auto. exists (n_ty n). split; auto. rewrite (elems_node _ _ _ W Hn). intros Q.
    apply (f_equal (@length _)) in Q. rewrite n_elems_length in Q. simpl in Q. lia.
  - right; left. split; auto. exists (n_ty n). csplit; auto. rewrite (elems_node _ _ _ W Hn). intros Q.
    apply (f_equal (@length _)) in Q. rewrite n_elems_length in Q. simpl in Q. lia.
  - right; right. csplit; auto. exists (n_ty n). split; [rewrite types_nodes; exact (in_map n_ty _ _ Hn)|].
    rewrite (elems_node _ _ _ W Hn), n_elems_length. auto.
Qed.
Lemma all_copyable w (x : coll V) : wfm w x -> (forall n, In n (c_nodes x) -> 0 < nsz n -> env_copyable (n_ty n) = true) ->
  forall t, elems x t <> [] -> env_copyable t = true.
Proof.
  intros W H t Ne. destruct (In_dec Nat.eq_dec t (types x)) as [Ht|Nt].
  - rewrite types_nodes in Ht. apply in_map_iff in Ht. destruct Ht as (n & <- & Hn). apply H; auto.
    rewrite (elems_node _ _ _ W Hn) in Ne. rewrite <- n_elems_length. destruct (n_elems n); [congruence|simpl; lia].
  - rewrite types_nodes in Nt. exfalso. apply Ne. unfold elems. rewrite (proj2 (seg_of_none x t) Nt). auto.
Qed.
Lemma reach_wfm_in w g d x : reach w g d -> In x g -> wfc w x.
Proof. intros H Hx. apply reach_alive in H. pose proof (al_good _ _ _ H) as F. rewrite Forall_forall in F. auto. Qed.

Lemma spec_copy_al w g d x al : reach w g d -> In x g ->
  wp (c_copy_al x al) w
    (fun w' c => same_content x c /\ c_al c = al /\ (forall t, elems x t <> [] -> env_copyable t = true) /\ reach w' (c :: g) d)
    (fun w' e => copy_threw true x w w' e /\ reach w' g d).
Proof.
  intros H Hx. pose proof (reach_wfm_in _ _ _ _ H Hx) as W. pose proof (wc_map _ _ W) as Wm.
  destruct (in_split _ _ Hx) as (g1 & g2 & ->).
  assert (Pm : Permutation (g1 ++ x :: g2) (x :: g1 ++ g2)) by (symmetry; apply Permutation_middle).
  pose proof (r_perm _ _ _ _ _ H Pm (Permutation_refl _)) as H'.
  assert (Q := wp_c_copy_al x al w _ _ (fun w' c => same_content x c /\ c_al c = al /\ (forall t, elems x t <> [] -> env_copyable t = true)) (fun w' e => copy_threw true x w w' e) (wfc_0 _ _ W) (al_own _ _ _ (reach_alive _ _ _ H))).
  unfold wp in *. destruct (c_copy_al x al w) as [w' c|w' e|] eqn:Ec.
  - csplit.
    1-3: apply Q; auto; intros; csplit; eauto using rebuilt_same, all_copyable.
    1-3: intros; eapply copy_reason_threw; eauto.
    eapply r_perm; [eapply r_copy_al; eauto| |auto]. constructor. symmetry. exact Pm.
  - split.
    + apply Q; auto; intros; csplit; eauto using rebuilt_same, all_copyable. eapply copy_reason_threw; eauto.
    + eapply r_perm; [eapply r_copy_al_exn; eauto| |auto]. symmetry. exact Pm.
  - apply Q; auto; intros; csplit; eauto using rebuilt_same, all_copyable. eapply copy_reason_threw; eauto.
Qed.

Lemma spec_copy w g d x : reach w g d -> In x g ->
  wp (c_copy x) w
    (fun w' c => same_content x c /\ c_al c = env_socc (c_al x) /\ (forall t, elems x t <> [] -> env_copyable t = true) /\ reach w' (c :: g) d)
    (fun w' e => copy_threw true x w w' e /\ reach w' g d).
Proof. intros. unfold c_copy. apply spec_copy_al; auto. Qed.

(** Moving takes everything over, storage and iterators included, and cannot throw. *)
Lemma spec_move w g d x : reach w (x :: g) d ->
  wp c_move (x, w) (fun '(x', w') c => c = x /\ w' = w /\ blank x' /\ c_al x' = c_al x) (fun _ _ => False).
Proof. intros H. unfold c_move. apply wp_bind, wp_getx, wp_bind, wp_setx, wp_ret. cbn. csplit; reflexivity. Qed.

Lemma spec_move_al w g d x al : reach w (x :: g) d ->
  wp (c_move_al al) ((c_empty al, x), w)
    (fun '((c, x'), w') _ => same_content x c /\ c_al c = al /\ blank x' /\ c_al x' = c_al x /\ (c_al x = al -> c = x /\ w' = w))
    (fun '((c, x'), w') e => blank c /\ c_al x' = c_al x /\ c_al x <> al /\ copy_threw false x w w' e).
Proof.
  intros H. destruct (reach_wf _ _ _ _ H) as (W & O). pose proof (wc_map _ _ W) as Wm.
  eapply (wp_c_move_al al x w); [exact W|exact O| |].
  - intros w' c' bk W' O' L Al Rb Same _. csplit; auto; try reflexivity. + eapply rebuilt_same; eauto.
  - intros w' c' xn e Ec Nx O' L Na Re. csplit; auto; try reflexivity. + unfold blank. rewrite content_nodes, Ec. auto.
    + eapply copy_reason_threw; eauto.
Qed.

Lemma spec_assign w g c d x : reach w g (c :: d) -> In x g ->
  wp (c_copy_assign x) (c, w)
    (fun '(c', w') _ => same_content x c' /\ c_al c' = (if env_pocca then c_al x else c_al c) /\
       (forall t, elems x t <> [] -> env_copyable t = true))
    (fun '(c', w') e => blank c' /\ copy_threw true x w w' e).
Proof.
  intros H Hx. pose proof (reach_wfm_in _ _ _ _ H Hx) as W. pose proof (wc_map _ _ W) as Wm.
  pose proof (reach_alive _ _ _ H) as A. destruct (alive_focus_bad _ _ _ _ A) as (Nc & O & _).
  eapply (wp_c_copy_assign x c w); [apply wfc_0; exact W|exact Nc|exact O| |].
  - intros w' c' W' O' L Al Rb _ Cp _. csplit; auto. + eapply rebuilt_same; eauto. + eapply all_copyable; eauto.
  - intros w' bk al e O' L Re. split; [reflexivity|]. eapply copy_reason_threw; eauto.
Qed.

(** A source moved from element by element: no more elements of any type than before. *)
Definition drained (x x' : coll V) : Prop :=
  content x' = [] \/ (types x' = types x /\ forall t, length (elems x' t) <= length (elems x t)).
Lemma shed_drained (x : coll V) xn bk ch al : xn = [] \/ Forall2 shed (c_nodes x) xn -> drained x (mkcoll xn bk ch al).
Proof.
  intros [->|F]; [left; reflexivity|right]. split.
  - rewrite !types_nodes. cbn [c_nodes]. apply shed_ty. exact F.
  - intros t. unfold elems, seg_of. rewrite !content_nodes. cbn [c_nodes].
    induction F as [|n n' ns ns' (Q & L) F IH]; cbn [map assoc]; auto. rewrite Q. destruct (n_ty n =? t); auto.
Qed.
Lemma drained_blank (x x' : coll V) : blank x' -> drained x x'.
Proof. left. auto. Qed.

Lemma spec_move_assign w g c d x : reach w (x :: g) (c :: d) ->
  wp c_move_assign ((c, x), w)
    (fun '((c', x'), w') _ => same_content x c' /\ c_al c' = (if env_pocma then c_al x else c_al c) /\
       drained x x' /\ c_al x' = c_al x /\
       (env_pocma = true \/ c_al c = c_al x -> c' = x /\ blank x') /\ (env_umap_clears = true -> blank x'))
    (fun '((c', x'), w') e => blank c' /\ blank x' /\ copy_threw false x w w' e /\ env_pocma = false /\ c_al c <> c_al x).
Proof.
  intros H. pose proof (reach_alive _ _ _ H) as A. destruct (bad_focus2 _ _ _ _ _ A) as (W & Nc & O & _).
  pose proof (wc_map _ _ W) as Wm.
  eapply (wp_c_move_assign c x w); [exact W|exact Nc|exact O| |].
  - intros w' c' xn bk W' O' L Al Rb Nx Ex Same Cl _ _. csplit; auto.
    + eapply rebuilt_same; eauto.
    + apply shed_drained. exact Ex.
    + intros Q. destruct (Same Q) as (-> & ->). split; reflexivity.
    + intros Q. rewrite (Cl Q). reflexivity.
  - intros w' bk bk' e O' L Re P N. csplit; auto; try reflexivity. eapply copy_reason_threw; eauto.
Qed.

Lemma spec_swap w g d x y : reach w (x :: y :: g) d -> env_pocs = true \/ c_al x = c_al y ->
  wp c_swap ((x, y), w) (fun '((x', y'), w') _ => x' = y /\ y' = x /\ w' = w) (fun _ _ => False).
Proof.
  intros H Q. unfold wp, c_swap. destruct env_pocs; auto. destruct Q as [Q|Q]; [discriminate|]. rewrite Q, Nat.eqb_refl. auto.
Qed.

Lemma nth_set_nth i (c : coll V) g j : i < length g -> nth_error (set_nth i c g) j = if j =? i then Some c else nth_error g j.
Proof.
  unfold set_nth. revert g j. induction i as [|i IH]; intros [|a g] j H; simpl in H; try lia; destruct j as [|j]; simpl; auto.
  apply (IH g j). lia.
Qed.

End PProp2.
