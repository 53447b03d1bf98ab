(** * The operations in the vocabulary of Spec.v *)

From Coq Require Import List Arith Lia Bool Permutation.
From Verif Require Import Base Vec Backend Segment Coll Spec Reach ProofBase ProofVec ProofBackend ProofOps ProofOps2
  ProofSeg ProofMap ProofView ProofColl ProofIns ProofEach ProofErase ProofRange ProofRange2 ProofEq ProofCopy ProofReach ProofObs.
Import ListNotations.

Section PProp.
Context {V : Type} {E : Env V}.
Notation CW := (coll V * world)%type.
Notation CL := (list (coll V)).
Notation NL := (list (node V)).
Notation nb n := (sg_be (n_seg n)).
Notation nsz n := (bsize (sg_be (n_seg n))).

(** ** Insertion of one element *)
Lemma insert_at_list {A} k (v : A) l : insert_list_at k [v] l = insert_at k v l.
Proof. reflexivity. Qed.

Lemma ins_did_inserted w c R K w' c' t k v i s s' : wfc w c -> k <= length (elems c t) ->
  ins_did w c R K w' c' t k v i s s' -> inserted c c' t k v.
Proof.
  intros W Hk D. pose proof D as (Dd & W' & Ws & Pi). destruct Pi as (Pe & Pst & Pg & Pslf).
  pose proof (prev_elems _ _ _ _ _ (wc_map _ _ W) (did_prev _ _ _ _ _ _ _ _ _ _ Dd)) as Ee.
  split.
  - rewrite <- Ee, <- Pe. eapply put_became; [apply W|apply Dd|apply Dd].
  - eapply put_others; [apply W|apply Dd|apply Dd].
  - eapply did_other_iters; eauto.
  - change [(t, v)] with ([] ++ map (pair t) [v]). eapply grew_step; [apply W| |apply grew_refl|exact W| |discriminate].
    + simpl. auto.
    + cbn [of_type filter map length]. unfold slot. rewrite Nat.eqb_refl, Nat.add_0_r. eapply ins_xs; eauto.
  - apply Dd.
Qed.

Lemma points_cache (c : coll V) l it t k : points (set_cache c l) it t k <-> points c it t k.
Proof. unfold points. simpl. tauto. Qed.
Lemma points_nodes (c c' : coll V) it t k : c_nodes c' = c_nodes c -> points c' it t k <-> points c it t k.
Proof. unfold points. intros ->. tauto. Qed.
Lemma lpoints_nodes (c c' : coll V) it t k : c_nodes c' = c_nodes c -> lpoints c' it t k <-> lpoints c it t k.
Proof. unfold lpoints. intros ->. tauto. Qed.
Lemma nodes_unchanged (c c' : coll V) : c_nodes c' = c_nodes c -> c_al c' = c_al c -> unchanged c c'.
Proof.
  intros N A. split; auto.
  - unfold content. rewrite N. auto.
  - intros t. unfold seg_at. rewrite N. auto.
  - intros. apply points_nodes; auto.
  - intros. apply lpoints_nodes; auto.
Qed.
Lemma unchanged_refl (c : coll V) : unchanged c c.
Proof. apply nodes_unchanged; auto. Qed.

Lemma failed_harmed sf w (c : coll V) R K w' c' t h m e : failed sf w c R K w' c' t h m e -> harmed c c' t m.
Proof.
  intros (A1 & A2 & A3 & A4 & A5 & A6 & A7 & A8 & A9 & A10). split; auto.
Qed.
Lemma failed_threw sf w (c : coll V) R K w' c' t h m e : failed sf w c R K w' c' t h m e ->
  threw t h (length (elems c t)) m w w' e.
Proof. intros (A1 & A2 & A3 & A4 & A5 & A6 & A7 & A8 & A9 & A10). auto. Qed.

Lemma node_same_seg w (c : coll V) n m : wfm w c -> In n (c_nodes c) -> In m (c_nodes c) -> n_ty n = n_ty m -> n = m.
Proof.
  intros W A B Q. pose proof (find_ty_in _ n (wm_tys _ _ W) A) as X. pose proof (find_ty_in _ m (wm_tys _ _ W) B) as Y.
  rewrite Q in X. congruence.
Qed.

Lemma failed_rolled (sf : Prop) w c R K w' c' t h m e : sf -> failed sf w c R K w' c' t h m e -> rolled_back c c' t.
Proof.
  intros S (A1 & A2 & A3 & A4 & A5 & A6 & A7 & A8 & A9 & A10). destruct (A10 S) as (B1 & B2 & B3 & B4). split; auto.
  - intros t' Ht. destruct (Nat.eq_dec t' t) as [->|Ne]; auto.
  - intros Hr t' k. destruct (Nat.eq_dec t' t) as [->|Ne]; auto. eapply A7; eauto.
Qed.

Lemma made_exn_refused w c a R K w' c' e h k : wfc w c -> made_exn w c a R K w' c' e -> refused c c' w w' (env_ty a) h k e.
Proof.
  intros W M. pose proof (made_exn_failed True w c a R K w' c' e h W M) as F.
  split; [eapply failed_harmed; eauto|]. split; [eapply failed_threw; eauto|]. intros _. eapply failed_rolled; [|eauto]. exact I.
Qed.
Lemma ins_fail_refused w c R K w' c' t h k e i s s' : wfc w c -> k <= length (elems c t) ->
  ins_fail w c R K w' c' t h k e i s s' -> refused c c' w w' t h k e.
Proof.
  intros W Hk F. apply (ins_fail_failed _ _ _ _ _ _ _ _ _ _ _ _ _ W Hk) in F.
  split; [eapply failed_harmed; eauto|]. split; [eapply failed_threw; eauto|]. intros S. eapply failed_rolled; eauto.
Qed.

Lemma hint_at_le w (c : coll V) hint t k : wfm w c -> hint_at c hint t k -> k <= length (elems c t).
Proof. intros W [P|(_ & ->)]; auto. apply (points_elems _ _ _ _ _ W) in P. lia. Qed.

Lemma spec_emplace w c g d a x v : let t := env_ty a in let k := length (elems c t) in
  reach w (c :: g) d -> src_c c t HEmplace x v ->
  wp (c_emplace a x) (c, w)
    (fun '(c', w') it => inserted c c' t k v /\ points c' it t k)
    (fun '(c', w') e => refused c c' w w' t HEmplace k e).
Proof.
  intros t k H Hs. destruct (reach_wf _ _ _ _ H) as (W & O).
  eapply (wp_c_emplace a x v c w _ _); [exact W|exact O|exact Hs| | |]; intros.
  - split; auto. eapply ins_did_inserted; eauto.
  - eapply made_exn_refused; eauto.
  - eapply ins_fail_refused; eauto.
Qed.
Lemma spec_emplace_hint w c g d hint i k a x v : let t := env_ty a in
  reach w (c :: g) d -> located c hint i -> hint_at c hint t k -> hint_safe c hint t -> src_c c t HEmplace x v ->
  wp (c_emplace_hint hint a x) (c, w)
    (fun '(c', w') it => inserted c c' t k v /\ points c' it t k)
    (fun '(c', w') e => refused c c' w w' t HEmplace k e).
Proof.
  intros t H Hl Ha Hh Hs. destruct (reach_wf _ _ _ _ H) as (W & O). pose proof (hint_at_le _ _ _ _ _ (wc_map _ _ W) Ha) as Hk.
  eapply (wp_c_emplace_hint hint i k a x v c w _ _); [exact W|exact O|exact Hl|exact Ha|exact Hh|exact Hs| | |]; intros.
  - split; auto. eapply ins_did_inserted; eauto.
  - eapply made_exn_refused; eauto.
  - eapply ins_fail_refused; eauto.
Qed.
Lemma spec_emplace_pos w c g d pos k a x v : let t := env_ty a in
  reach w (c :: g) d -> lpoints c pos t k -> src_c c t HEmplace x v ->
  wp (c_emplace_pos pos a x) (c, w)
    (fun '(c', w') l => inserted c c' t k v /\ lpoints c' l t k)
    (fun '(c', w') e => refused c c' w w' t HEmplace k e).
Proof.
  intros t H Hl Hs. pose proof (lpoints_le _ _ _ _ _ _ _ H Hl) as Hk. destruct (reach_wf _ _ _ _ H) as (W & O).
  eapply (wp_c_emplace_pos pos k a x v c w _ _); [exact W|exact O|exact Hl|exact Hs| |]; intros.
  - split; auto. eapply ins_did_inserted; eauto.
  - eapply ins_fail_refused; eauto.
Qed.

Lemma spec_insert w c g d x v : let t := env_ty (a_dyn x) in let k := length (elems c t) in
  reach w (c :: g) d -> arg_ok x -> src_c c t (a_how x) (a_src x) v ->
  wp (c_insert x) (c, w)
    (fun '(c', w') it => ~ unregistrable c x /\ inserted c c' t k v /\ points c' it t k)
    (fun '(c', w') e => rejected c c' w w' x k e).
Proof.
  intros t k H Hx Hs. destruct (reach_wf _ _ _ _ H) as (W & O).
  eapply (wp_c_insert x v c w _ _); [exact W|exact O|exact Hx|exact Hs| | | |]; intros; rewrite <- ?unregistrable_arg in *.
  - csplit; auto. eapply ins_did_inserted; eauto.
  - right. split; auto. eapply made_exn_refused; eauto.
  - left. csplit; auto. apply nodes_unchanged; auto.
  - right. split; auto. eapply ins_fail_refused; eauto.
Qed.
Lemma spec_insert_hint w c g d hint i k x v : let t := env_ty (a_dyn x) in
  reach w (c :: g) d -> located c hint i -> hint_at c hint t k -> hint_safe c hint t -> arg_ok x -> src_c c t (a_how x) (a_src x) v ->
  wp (c_insert_hint hint x) (c, w)
    (fun '(c', w') it => ~ unregistrable c x /\ inserted c c' t k v /\ points c' it t k)
    (fun '(c', w') e => rejected c c' w w' x k e).
Proof.
  intros t H Hl Ha Hh Hx Hs. destruct (reach_wf _ _ _ _ H) as (W & O). pose proof (hint_at_le _ _ _ _ _ (wc_map _ _ W) Ha) as Hk.
  eapply (wp_c_insert_hint hint i k x v c w _ _); [exact W|exact O|exact Hl|exact Ha|exact Hh|exact Hx|exact Hs| | | |]; intros; rewrite <- ?unregistrable_arg in *.
  - csplit; auto. eapply ins_did_inserted; eauto.
  - right. split; auto. eapply made_exn_refused; eauto.
  - left. csplit; auto. apply nodes_unchanged; auto.
  - right. split; auto. eapply ins_fail_refused; eauto.
Qed.
Lemma spec_insert_pos w c g d pos k x v : let t := env_ty (a_dyn x) in
  reach w (c :: g) d -> lpoints c pos t k -> src_c c t (a_how x) (a_src x) v ->
  wp (c_insert_pos pos x) (c, w)
    (fun '(c', w') l => inserted c c' t k v /\ lpoints c' l t k)
    (fun '(c', w') e => refused c c' w w' t (a_how x) k e).
Proof.
  intros t H Hl Hs. pose proof (lpoints_le _ _ _ _ _ _ _ H Hl) as Hk. destruct (reach_wf _ _ _ _ H) as (W & O).
  eapply (wp_c_insert_pos pos k x v c w _ _); [exact W|exact O|exact Hl|exact Hs| |]; intros.
  - split; auto. eapply ins_did_inserted; eauto.
  - eapply ins_fail_refused; eauto.
Qed.

(** ** Erasure *)
Definition lflat (l : list (tyid * list V)) : list (tyid * V) := flat_map (fun e => map (pair (fst e)) (snd e)) l.
Definition lelems (l : list (tyid * list V)) (t : tyid) : list V := match assoc t l with Some xs => xs | None => [] end.

Lemma in_lflat l t v : In (t, v) (lflat l) -> In t (map fst l).
Proof.
  unfold lflat. rewrite in_flat_map. intros ((t' & xs) & Hin & Hm). apply in_map_iff in Hm. destruct Hm as (y & Q & _).
  inversion Q; subst. simpl. apply (in_map fst) in Hin. auto.
Qed.
Lemma of_type_absent t (l : list (tyid * V)) : (forall v, ~ In (t, v) l) -> of_type t l = [].
Proof.
  intros H. apply of_type_none. rewrite in_map_iff. intros ((t' & v) & Q & Hin). simpl in Q. subst. eapply H; eauto.
Qed.
Lemma firstn_incl {A} n (l : list A) : incl (firstn n l) l.
Proof. intros x H. rewrite <- (firstn_skipn n l). apply in_or_app; auto. Qed.
Lemma skipn_incl {A} n (l : list A) : incl (skipn n l) l.
Proof. intros x H. rewrite <- (firstn_skipn n l). apply in_or_app; auto. Qed.

Lemma of_type_firstn t : forall l i, NoDup (map fst l) ->
  of_type t (firstn i (lflat l)) = firstn (i - offset l t) (lelems l t).
Proof.
  induction l as [|[t' xs] l IH]; intros i N; cbn [lflat flat_map offset fst snd].
  - rewrite firstn_nil. unfold lelems. simpl. rewrite firstn_nil. auto.
  - inversion N as [|? ? Nin N']; subst. change (flat_map _ l) with (lflat l). rewrite firstn_app, of_type_app, map_length.
    rewrite firstn_map. unfold lelems. cbn [assoc]. destruct (Nat.eqb_spec t' t) as [->|Ne].
    + rewrite of_type_same, Nat.sub_0_r. rewrite of_type_absent; [apply app_nil_r|].
      intros v Hv. apply Nin. eapply in_lflat. eapply firstn_incl; eauto.
    + rewrite of_type_other by auto. cbn [app]. rewrite IH; auto. rewrite Nat.sub_add_distr. reflexivity.
Qed.
Lemma of_type_skipn t : forall l i, NoDup (map fst l) ->
  of_type t (skipn i (lflat l)) = skipn (i - offset l t) (lelems l t).
Proof.
  induction l as [|[t' xs] l IH]; intros i N; cbn [lflat flat_map offset fst snd].
  - rewrite skipn_nil. unfold lelems. simpl. rewrite skipn_nil. auto.
  - inversion N as [|? ? Nin N']; subst. change (flat_map _ l) with (lflat l). rewrite skipn_app, of_type_app, map_length.
    rewrite skipn_map. unfold lelems. cbn [assoc]. destruct (Nat.eqb_spec t' t) as [->|Ne].
    + rewrite of_type_same, Nat.sub_0_r. rewrite of_type_absent; [apply app_nil_r|].
      intros v Hv. apply Nin. eapply in_lflat. eapply skipn_incl; eauto.
    + rewrite of_type_other by auto. cbn [app]. rewrite IH; auto. rewrite Nat.sub_add_distr. reflexivity.
Qed.
Lemma of_type_flat w (c : coll V) t : wfm w c -> of_type t (flat c) = elems c t.
Proof.
  intros W. pose proof (of_type_firstn t (content c) (length (flat c) + offset (content c) t) (types_nodup _ _ W)) as H.
  rewrite firstn_all2 in H by (unfold flat, lflat; lia). rewrite Nat.add_sub in H.
  change (lflat (content c)) with (flat c) in H. rewrite H. apply firstn_all2.
  change (lelems (content c) t) with (elems c t). rewrite flat_length.
  pose proof (elems_sum c [t]) as S. unfold tsum in S. simpl in S. rewrite Nat.add_0_r in S. apply S.
  constructor; [auto|constructor].
Qed.

Lemma remove_range_le {A} i j (l : list A) : i <= j -> length (remove_range i j l) <= length l.
Proof. intros H. unfold remove_range. rewrite app_length, firstn_length, skipn_length. lia. Qed.
Lemma Forall2_in_l {A B} (P : A -> B -> Prop) l l' x : Forall2 P l l' -> In x l -> exists y, In y l' /\ P x y.
Proof. induction 1; intros Hin; destruct Hin; subst; eauto using in_eq. destruct IHForall2 as (z & ? & ?); auto. exists z. split; auto. right; auto. Qed.

Lemma erased_cut w c R K w' c' i j : wfc w c -> cown w c R K -> wfc w' c' -> i <= j -> erased c c' i j -> c_al c' = c_al c -> cut c c' i j.
Proof.
  intros W O W' Hij (Ty & Fl & Rel) Al.
  assert (Sg : forall t, match seg_at c t, seg_at c' t with
     | Some s, Some s' => exists f l, er_rel f l s s' | None, None => True | _, _ => False end).
  { intros t. apply (nrel_seg_at _ c c' t Rel). }
  assert (El : forall t, elems c' t = remove_range (i - offset (content c) t) (j - offset (content c) t) (elems c t)).
  { intros t. rewrite <- (of_type_flat w' c' t (wc_map _ _ W')), Fl. unfold remove_range. rewrite of_type_app.
    unfold flat. rewrite of_type_firstn, of_type_skipn; try apply (types_nodup _ _ (wc_map _ _ W)). reflexivity. }
  split; auto.
  - intros t. unfold cap_of. specialize (Sg t). destruct (seg_at c t), (seg_at c' t); try contradiction; auto.
    destruct Sg as (f & l & _ & Q & _). exact Q.
  - intros t. unfold data_of. specialize (Sg t). destruct (seg_at c t), (seg_at c' t); try contradiction; auto.
    destruct Sg as (f & l & _ & _ & Q & _). unfold vptr. rewrite Q. auto.
  - intros t k Hk. assert (Hk0 : k < length (elems c t)).
    { rewrite El in Hk. pose proof (remove_range_le (i - offset (content c) t) (j - offset (content c) t) (elems c t)). lia. }
    rewrite elems_seg_at in Hk, Hk0. specialize (Sg t).
    destruct (seg_at c t) as [s|] eqn:E1, (seg_at c' t) as [s'|] eqn:E2; try contradiction; [|simpl in Hk; lia].
    destruct Sg as (f & l & Qe & Qc & Qb & _).
    rewrite (addr_seg_at c t k s E1), (addr_seg_at c' t k s' E2); try assumption. unfold vptr. rewrite Qb. auto.
  - intros t k Hk. apply kept_nodes. intros n Hin Et Hl.
    destruct (Forall2_in_l _ _ _ _ Rel Hin) as (n' & Hin' & I1 & I2 & I3 & I4 & I5 & f & l & J1 & J2 & J3 & J4).
    assert (Et' : n_ty n' = t) by (unfold n_ty in *; congruence).
    assert (Q' : elems c' t = elems_of (n_seg n')) by (rewrite <- Et', (elems_node w' c' n' (wc_map _ _ W') Hin'); auto).
    assert (Q : elems c t = elems_of (n_seg n)) by (rewrite <- Et, (elems_node w c n (wc_map _ _ W) Hin); auto).
    rewrite Q, Q' in Hk. exists n'. csplit; auto; lia.
Qed.

(** What is known after a failed erasure of elements of type [t]. *)
Lemma spec_erase w c g d pos t k : let i := offset (content c) t + k in
  reach w (c :: g) d -> points c pos t k ->
  wp (c_erase pos) (c, w)
    (fun '(c', w') it => cut c c' i (S i) /\ located c' it i)
    (fun '(c', w') e => erase_threw c c' w w' t e).
Proof.
  intros i H P. destruct (reach_wf _ _ _ _ H) as (W & O).
  eapply (wp_c_erase pos t k c w _ _); [exact W|exact O|exact P| |].
  - intros w' c' it W' O' L Er Lo Al. split; auto. eapply erased_cut; eauto.
  - intros w' c' e (W0 & O' & L & Ty & Ot & Oi & Sz & Ee & Ft & As & Nt & _ & Al & Gt). unfold erase_threw. csplit; auto.
Qed.
Lemma spec_erase_local w c g d pos t k : let i := offset (content c) t + k in
  reach w (c :: g) d -> lpoints c pos t k -> k < length (elems c t) ->
  wp (c_erase_local pos) (c, w)
    (fun '(c', w') l => cut c c' i (S i) /\ lpoints c' l t k)
    (fun '(c', w') e => erase_threw c c' w w' t e).
Proof.
  intros i H P Hk. destruct (reach_wf _ _ _ _ H) as (W & O).
  eapply (wp_c_erase_local pos t k c w _ _); [exact W|exact O|exact P|exact Hk| |].
  - intros w' c' it W' O' L Er Lo Al. split; auto. eapply erased_cut; eauto.
  - intros w' c' e (W0 & O' & L & Ty & Ot & Oi & Sz & Ee & Ft & As & Nt & _ & Al & Gt). unfold erase_threw. csplit; auto.
Qed.
Lemma spec_erase_local_range w c g d first last t f l : let i := offset (content c) t in
  reach w (c :: g) d -> lpoints c first t f -> lpoints c last t l -> f <= l ->
  wp (c_erase_local_range first last) (c, w)
    (fun '(c', w') it => cut c c' (i + f) (i + l) /\ lpoints c' it t f)
    (fun '(c', w') e => erase_threw c c' w w' t e).
Proof.
  intros i H P P' Hfl. destruct (reach_wf _ _ _ _ H) as (W & O).
  eapply (wp_c_erase_local_range first last t f l c w _ _); [exact W|exact O|exact P|exact P'|exact Hfl| |].
  - intros w' c' it W' O' L Er Lo Al. split; auto. eapply erased_cut; eauto. unfold i. lia.
  - intros w' c' e (W0 & O' & L & Ty & Ot & Oi & Sz & Ee & Ft & As & Nt & _ & Al & Gt). unfold erase_threw. csplit; auto.
Qed.
Lemma spec_erase_range w c g d first last i j :
  reach w (c :: g) d -> located c first i -> located c last j -> i <= j ->
  wp (c_erase_range first last) (c, w)
    (fun '(c', w') it => cut c c' i j /\ located c' it i)
    (fun '(c', w') e => types c' = types c /\ c_al c' = c_al c /\ length (flat c') <= length (flat c) /\
       e = UserExn /\ fault_between w w' /\
       (exists t, elems c t <> [] /\ env_assignable t = true /\ env_nt_assign t = false) /\
       erase_broke_off c c' w w' i last e).
Proof.
  intros H P P' Hij. destruct (reach_wf _ _ _ _ H) as (W & O).
  eapply (wp_c_erase_range first last i j c w _ _); [exact W|exact O|exact P|exact P'|exact Hij| |].
  - intros w' c' it W' O' L Er Lo Al. split; auto. eapply erased_cut; eauto.
  - intros w' c' e (W0 & O' & L & Ty & Al & Sz & Ee & Ft & Tt & t & k & w1 & c1 & Pl & L1 & W1 & Er & Al1 & F). csplit; auto.
    destruct F as (_ & _ & _ & F1 & F2 & F3 & F4 & F5 & F6 & F7 & F8 & _ & F9 & F10).
    exists t, k, c1, w1. unfold erase_threw. csplit; auto.
    + eapply erased_cut; eauto. lia.
    + unfold wle in L1. lia.
Qed.

(** ** Ranges *)
Lemma threw_mono t h n m w0 w w' e : wle w0 w -> threw (V := V) t h n m w w' e -> threw (V := V) t h n m w0 w' e.
Proof. intros L [(A & k & Hk & F)|[B|C]]; [left|right; left|right; right]; auto. split; auto. exists k. split; auto. unfold wle in L. lia. Qed.

Lemma stopped_broke (Y : nat -> arg V -> Prop) (H : nat -> how -> Prop) ys hs h w c R K w' c' l e : stopped Y H h w c R K w' c' l e ->
  (forall k x, Y k x -> nth_error ys k = Some x) -> (forall k hw, k < length l -> H k hw -> nth_error hs k = Some hw) ->
  broke_off ys hs h c c' w w' l e.
Proof.
  intros (pre & t & v & post & w1 & c1 & El & (G & _ & _ & L & Al1) & [(hw & Hw & F)|(x & Hin & Et & U)]) HY HH.
  - split; [rewrite <- Al1; apply (failed_harmed _ _ _ _ _ _ _ _ _ _ _ F)|]. exists pre, t, v, post, c1. csplit; auto. left. exists hw. csplit.
    + apply HH; auto. rewrite El, app_length. cbn [length]. lia.
    + eapply failed_harmed; eauto.
    + eapply threw_mono; [exact L|]. eapply failed_threw; eauto.
    + intros S. eapply failed_rolled; eauto.
  - destruct U as (A & -> & _ & _ & _ & N & _ & Al). split; [congruence|]. exists pre, t, v, post, c1. csplit; auto. right. exists x. csplit; auto.
    + apply unregistrable_arg. auto.
    + apply nodes_unchanged; auto.
Qed.

Lemma nth_repeat_how (h : how) n k : k < n -> nth_error (repeat h n) k = Some h.
Proof. revert k. induction n as [|n IH]; intros [|k] Hk; cbn; try lia; auto. apply IH. lia. Qed.
Lemma stopped_copies h w c R K w' c' l e : stopped no_arg (one_way HCopy) h w c R K w' c' l e ->
  broke_off [] (repeat HCopy (length l)) h c c' w w' l e.
Proof. intros S. eapply stopped_broke; [exact S|intros k x []|]. intros k hw Hk ->. apply nth_repeat_how. auto. Qed.
Lemma nth_args {A} (F : A -> how) xs k x : nth_error xs k = Some x -> nth_error (map F xs) k = Some (F x).
Proof. intros N. rewrite nth_error_map, N. auto. Qed.

Lemma spec_insert_range w c g d xs l : reach w (c :: g) d -> Forall2 gives xs l ->
  wp (c_insert_range xs) (c, w)
    (fun '(c', w') _ => grew None c c' l /\ c_al c' = c_al c)
    (fun '(c', w') e => broke_off xs (map a_how xs) None c c' w w' l e).
Proof.
  intros H F. destruct (reach_wf _ _ _ _ H) as (W & O).
  eapply (wp_c_insert_range (fun k x => nth_error xs k = Some x) (fun k hw => nth_error (map a_how xs) k = Some hw) xs l [] w c c w _ _); [exact F|intros k0 x0 N0; split; [exact N0|apply nth_args; exact N0]|exact W|apply upto_refl; eauto| |]; cbn [app].
  - intros w' c' (G & _ & _ & _ & A). auto.
  - intros w' c' e S. eapply stopped_broke; eauto.
Qed.
Lemma spec_insert_range_terminal w c g d a h fwd xs : let t := env_ty a in reach w (c :: g) d ->
  wp (c_insert_range_terminal a h fwd xs) (c, w)
    (fun '(c', w') _ => grew None c c' (map (pair t) xs) /\ c_al c' = c_al c)
    (fun '(c', w') e => xs <> [] /\ harmed c c' t (length xs) /\ threw t h (length (elems c t)) (length xs) w w' e /\
       (many_safe fwd e -> rolled_back c c' t)).
Proof.
  intros t H. destruct (reach_wf _ _ _ _ H) as (W & O).
  eapply (wp_c_insert_range_terminal a h fwd xs c w _ _); [exact W|exact O| |].
  - intros w' c' (G & _ & _ & _ & A). auto.
  - intros w' c' e Ne F. csplit; auto. + eapply failed_harmed; eauto. + eapply failed_threw; eauto. + intros S. eapply failed_rolled; eauto.
Qed.
Lemma spec_insert_hint_range w c g d hint h xs l : reach w (c :: g) d ->
  hint_is c hint h -> Forall2 gives xs l -> hsafe h c l ->
  wp (c_insert_hint_range hint xs) (c, w)
    (fun '(c', w') _ => grew h c c' l /\ c_al c' = c_al c)
    (fun '(c', w') e => broke_off xs (map a_how xs) h c c' w w' l e).
Proof.
  intros H Hh F Hs. destruct (reach_wf _ _ _ _ H) as (W & O).
  eapply (wp_c_insert_hint_range (fun k x => nth_error xs k = Some x) (fun k hw => nth_error (map a_how xs) k = Some hw) h xs l [] hint w c c w _ _);
    [exact F|intros k0 x0 N0; split; [exact N0|apply nth_args; exact N0]|exact W|eapply hint_is_ok; eauto; apply W|apply upto_refl; eauto|apply hint_is_hinv; auto|exact Hs| |]; cbn [app].
  - intros w' c' (G & _ & _ & _ & A). auto.
  - intros w' c' e S. eapply stopped_broke; eauto.
Qed.
Lemma spec_insert_hint_range_terminal w c g d hint hn a h fwd xs : let t := env_ty a in reach w (c :: g) d ->
  hint_is c hint hn -> hsafe hn c (map (pair t) xs) ->
  wp (c_insert_hint_range_terminal hint a h fwd xs) (c, w)
    (fun '(c', w') _ => grew hn c c' (map (pair t) xs) /\ c_al c' = c_al c)
    (fun '(c', w') e => xs <> [] /\ harmed c c' t (length xs) /\ threw t h (length (elems c t)) (length xs) w w' e /\
       (many_safe fwd e -> rolled_back c c' t)).
Proof.
  intros t H Hh Hs. destruct (reach_wf _ _ _ _ H) as (W & O).
  eapply (wp_c_insert_hint_range_terminal hn hint a h fwd xs c w _ _);
    [exact W|exact O|eapply hint_is_ok; eauto; apply W|apply hint_is_hinv; auto|exact Hs| |].
  - intros w' c' (G & _ & _ & _ & A). auto.
  - intros w' c' e Ne F. csplit; auto. + eapply failed_harmed; eauto. + eapply failed_threw; eauto. + intros S. eapply failed_rolled; eauto.
Qed.

Lemma reach_wf_in w c g d y : reach w (c :: g) d -> In y g -> exists R K, wfc w y /\ cown w y R K.
Proof. intros H Hy. apply reach_alive in H. eapply (alive_in w (c :: g)); eauto. right; auto. Qed.

Lemma spec_insert_from w c g d y first last i j : reach w (c :: g) d ->
  In y g -> located y first i -> located y last j -> i <= j ->
  wp (c_insert_from (length (flat y)) y first last) (c, w)
    (fun '(c', w') _ => grew None c c' (firstn (j - i) (skipn i (flat y))) /\ c_al c' = c_al c)
    (fun '(c', w') e => broke_off [] (repeat HCopy (length (firstn (j - i) (skipn i (flat y))))) None c c' w w' (firstn (j - i) (skipn i (flat y))) e).
Proof.
  intros H Hy L1 L2 Hij. destruct (reach_wf _ _ _ _ H) as (W & O). destruct (reach_wf_in _ _ _ _ _ H Hy) as (Ry & Ky & Wy & Oy).
  apply (located_at w y first i Ry Ky Wy Oy) in L1. apply (located_at w y last j Ry Ky Wy Oy) in L2.
  destruct L1 as (-> & Hi), L2 as (-> & Hj).
  eapply (wp_c_insert_from y w Ry Ky _ i j [] w c c w _ _);
    [exact Wy|exact Oy|exact Hij|rewrite flat_length; lia|rewrite flat_length; lia|exact W|apply upto_refl; eauto| |]; cbn [app].
  - intros w' c' (G & _ & _ & _ & A). auto.
  - intros w' c' e S. eapply stopped_copies; eauto.
Qed.
Lemma spec_insert_hint_from w c g d hint h y first last i j : reach w (c :: g) d -> hint_is c hint h ->
  In y g -> located y first i -> located y last j -> i <= j -> hsafe h c (firstn (j - i) (skipn i (flat y))) ->
  wp (c_insert_hint_from (length (flat y)) hint y first last) (c, w)
    (fun '(c', w') _ => grew h c c' (firstn (j - i) (skipn i (flat y))) /\ c_al c' = c_al c)
    (fun '(c', w') e => broke_off [] (repeat HCopy (length (firstn (j - i) (skipn i (flat y))))) h c c' w w' (firstn (j - i) (skipn i (flat y))) e).
Proof.
  intros H Hh Hy L1 L2 Hij Hs. destruct (reach_wf _ _ _ _ H) as (W & O). destruct (reach_wf_in _ _ _ _ _ H Hy) as (Ry & Ky & Wy & Oy).
  apply (located_at w y first i Ry Ky Wy Oy) in L1. apply (located_at w y last j Ry Ky Wy Oy) in L2.
  destruct L1 as (-> & Hi), L2 as (-> & Hj).
  eapply (wp_c_insert_hint_from h y w Ry Ky _ i j [] hint w c c w _ _);
    [exact Wy|exact Oy|exact Hij|rewrite flat_length; lia|rewrite flat_length; lia|exact W|eapply hint_is_ok; eauto; apply W
    |apply upto_refl; eauto|apply hint_is_hinv; auto|exact Hs| |]; cbn [app].
  - intros w' c' (G & _ & _ & _ & A). auto.
  - intros w' c' e S. eapply stopped_copies; eauto.
Qed.
Lemma spec_insert_local w c g d a xs : let t := env_ty a in reach w (c :: g) d ->
  wp (c_insert_local a t xs) (c, w)
    (fun '(c', w') _ => grew None c c' (map (pair t) xs) /\ c_al c' = c_al c)
    (fun '(c', w') e => broke_off [] (repeat HCopy (length xs)) None c c' w w' (map (pair t) xs) e).
Proof.
  intros t H. destruct (reach_wf _ _ _ _ H) as (W & O).
  eapply (wp_c_insert_local a xs c w _ _); [exact W|exact O| |].
  - intros w' c' (G & _ & _ & _ & A). auto.
  - intros w' c' e S. apply stopped_copies in S; rewrite map_length in S; exact S.
Qed.
Lemma spec_insert_hint_local w c g d hint h a xs : let t := env_ty a in reach w (c :: g) d ->
  hint_is c hint h -> hsafe h c (map (pair t) xs) ->
  wp (c_insert_hint_local hint a t xs) (c, w)
    (fun '(c', w') _ => grew h c c' (map (pair t) xs) /\ c_al c' = c_al c)
    (fun '(c', w') e => broke_off [] (repeat HCopy (length xs)) h c c' w w' (map (pair t) xs) e).
Proof.
  intros t H Hh Hs. destruct (reach_wf _ _ _ _ H) as (W & O).
  eapply (wp_c_insert_hint_local h hint a xs c w _ _);
    [exact W|exact O|eapply hint_is_ok; eauto; apply W|apply hint_is_hinv; auto|exact Hs| |].
  - intros w' c' (G & _ & _ & _ & A). auto.
  - intros w' c' e S. apply stopped_copies in S; rewrite map_length in S; exact S.
Qed.
Lemma spec_insert_pos_range w c g d pos t k xs vs : reach w (c :: g) d ->
  lpoints c pos t k -> Forall2 (gives_at t) xs vs ->
  wp (c_insert_pos_range pos xs) (c, w)
    (fun '(c', w') l => grew (Some (t, k)) c c' (map (pair t) vs) /\ lpoints c' l t k /\ c_al c' = c_al c)
    (fun '(c', w') e => broke_off [] (map a_how xs) (Some (t, k)) c c' w w' (map (pair t) vs) e).
Proof.
  intros H Hl F. destruct (reach_wf _ _ _ _ H) as (W & O).
  eapply (wp_c_insert_pos_range (fun k hw => nth_error (map a_how xs) k = Some hw) pos k xs vs t c w _ _); [exact W|exact O|exact Hl|exact F|intros k0 x0; apply nth_args| |].
  - intros w' c' l (G & _ & _ & _ & A) Hl'. auto.
  - intros w' c' e S. eapply stopped_broke; [exact S|intros k0 x0 []|auto].
Qed.
Lemma spec_insert_lpos_range w c g d i p k a xs : let t := env_ty a in reach w (c :: g) d ->
  lpoints c (mkliter i (PConc p)) t k ->
  wp (c_insert_lpos_range i t p xs) (c, w)
    (fun '(c', w') l => grew (Some (t, k)) c c' (map (pair t) (map snd xs)) /\ lpoints c' l t k /\ c_al c' = c_al c)
    (fun '(c', w') e => broke_off [] (map (way t) xs) (Some (t, k)) c c' w w' (map (pair t) (map snd xs)) e).
Proof.
  intros t H Hl. destruct (reach_wf _ _ _ _ H) as (W & O).
  eapply (wp_c_insert_lpos_range (fun k hw => nth_error (map (way t) xs) k = Some hw) i p k a xs t c w _ _); [exact W|exact O|reflexivity|intros k0 x0; apply nth_args|exact Hl| |].
  - intros w' c' l (G & _ & _ & _ & A) Hl'. auto.
  - intros w' c' e S. eapply stopped_broke; [exact S|intros k0 x0 []|auto].
Qed.
Lemma spec_from_range w g d xs l al : reach w g d -> Forall2 gives xs l ->
  wp (c_from_range xs al) w
    (fun w' c => grew None (c_empty al) c l /\ c_al c = al)
    (fun w' e => exists c', broke_off xs (map a_how xs) None (c_empty al) c' w w' l e).
Proof.
  intros H F. apply reach_alive in H.
  eapply (wp_c_from_range xs l al w (PR g d) (PK g d)); [exact F|apply H| |].
  - intros w' c (G & _ & _ & _ & A). auto.
  - intros w' e _ L (w1 & c1 & L1 & S). exists c1. assert (S1 := stopped_broke _ _ xs (map a_how xs) _ _ _ _ _ _ _ _ _ S (fun k x H => H) (fun k hw _ H => H)). clear S. rename S1 into S.
    destruct S as (Al & pre & t & v & post & c2 & A & B & [(hw & C0 & C1 & C2 & C3)|C]); (split; [exact Al|]).
    + exists pre, t, v, post, c2. csplit; auto. left. exists hw. csplit; auto.
      destruct C2 as [(P & k & Hk & Fk)|[P|P]]; [left|right; left|right; right]; auto.
      split; auto. exists k. split; auto. unfold wle in L1. lia.
    + exists pre, t, v, post, c2. csplit; auto.
Qed.

(** ** clear, reserve, shrink_to_fit *)
Lemma nrel_content (P : segment V -> segment V -> Prop) (c c' : coll V) : (forall s s', P s s' -> belems (sg_be s') = belems (sg_be s)) ->
  Forall2 (nrel P) (c_nodes c) (c_nodes c') -> content c' = content c.
Proof. intros H F. rewrite !content_nodes. eapply nrel_same; eauto. Qed.

Lemma nrel_kept (P : segment V -> segment V -> Prop) (c c' : coll V) t k :
  (forall s s', P s s' -> sg_ty s = t -> k <= length (elems_of s) ->
     be_ptr (sg_be s') k = be_ptr (sg_be s) k /\ v_blk (be_store (sg_be s')) = v_blk (be_store (sg_be s)) /\
     length (elems_of s) = length (elems_of s')) ->
  Forall2 (nrel P) (c_nodes c) (c_nodes c') -> kept_at c c' t k.
Proof.
  intros H F. apply kept_nodes. intros n Hin Et Hk. destruct (Forall2_in_l _ _ _ _ F Hin) as (n' & Hin' & I1 & I2 & I3 & I4 & I5 & J).
  destruct (H _ _ J Et Hk) as (A & B & C). exists n'. rewrite <- C. unfold n_ty in *. csplit; auto; try congruence.
Qed.

Lemma spec_clear w c g d : reach w (c :: g) d ->
  wp c_clear (c, w) (fun '(c', w') _ => wiped c c' (fun _ => True)) (fun _ _ => False).
Proof.
  intros H. destruct (reach_wf _ _ _ _ H) as (W & O).
  eapply (wp_c_clear c w _ _); [exact W|exact O|]. intros w' c' (W' & O' & L & Al & Bk & F).
  assert (Sg := fun t => nrel_seg_at _ c c' t F).
  split; auto.
  - rewrite !types_nodes. eapply nrel_types; eauto.
  - intros t _. rewrite elems_seg_at. specialize (Sg t). destruct (seg_at c t), (seg_at c' t); try contradiction; auto. apply Sg.
  - tauto.
  - intros t. unfold cap_of. specialize (Sg t). destruct (seg_at c t), (seg_at c' t); try contradiction; auto. apply Sg.
  - intros t. unfold data_of. specialize (Sg t). destruct (seg_at c t), (seg_at c' t); try contradiction; auto.
    destruct Sg as (_ & _ & Q & _). unfold vptr. rewrite Q. auto.
  - tauto.
Qed.

Lemma seg_did_types P w c R K w' c' t i s s' : wfc w c -> seg_did P w c R K w' c' t i s s' -> In t (types c) -> types c' = types c.
Proof. intros W (D & _) Ht. eapply put_types_same; [apply W|apply D|apply D|exact Ht]. Qed.
Lemma did_kept w c R K w' c' t i s s' k : wfc w c -> did w c R K w' c' t i s s' -> In t (types c) ->
  be_ptr (sg_be s') k = be_ptr (sg_be s) k -> v_blk (be_store (sg_be s')) = v_blk (be_store (sg_be s)) ->
  bsize (sg_be s') = bsize (sg_be s) -> kept_at c c' t k.
Proof.
  intros W D Ht Hp Hb Hz. apply kept_nodes. intros n Hin Et Hl. pose proof (wc_map _ _ W) as Wm. unfold n_ty in Et.
  destruct (put_registered _ _ _ _ _ (did_put _ _ _ _ _ _ _ _ _ _ D) Ht) as (m & Hat & Em & En & _).
  pose proof Hat as Hat'. apply node_at_in in Hat'. destruct Hat' as (Hm & Im).
  assert (n = m) by (eapply node_same_seg; eauto; unfold n_ty in *; congruence). subst m.
  assert (Es : n_seg n = s).
  { pose proof (prev_seg_at _ _ _ _ _ Wm (did_prev _ _ _ _ _ _ _ _ _ _ D) Ht) as A.
    pose proof (seg_at_node c n (wm_tys _ _ Wm) Hin) as B. unfold n_ty in B. rewrite Et in B. congruence. }
  destruct (put_in _ _ _ _ _ (did_put _ _ _ _ _ _ _ _ _ _ D)) as (key & Hin').
  exists (mknode i key s'). cbn [n_id n_seg]. unfold n_ty. cbn [n_seg].
  change (length (elems_of s')) with (bsize (sg_be s')). rewrite Hz. rewrite Es in *. csplit; auto. apply D.
Qed.

Lemma spec_clear_info w c g d a : let t := env_ty a in reach w (c :: g) d ->
  wp (c_clear_info a) (c, w)
    (fun '(c', w') _ => In t (types c) /\ wiped c c' (eq t))
    (fun '(c', w') e => ~ In t (types c) /\ e = UnregisteredType t /\ c' = c /\ w' = w).
Proof.
  intros t H. destruct (reach_wf _ _ _ _ H) as (W & O). pose proof (wc_map _ _ W) as Wm.
  eapply (wp_c_clear_info a c w _ _); [exact W|exact O| |].
  - intros w' c' i s s' _ Ht D. split; auto. pose proof D as (Dd & W' & Ws & P1 & P2 & P3 & P4).
    pose proof (put_seg_at _ _ _ _ _ _ (wc_map _ _ W') (did_put _ _ _ _ _ _ _ _ _ _ Dd) (did_ty _ _ _ _ _ _ _ _ _ _ Dd)) as Sg'.
    pose proof (prev_seg_at _ _ _ _ _ Wm (did_prev _ _ _ _ _ _ _ _ _ _ Dd) Ht) as Sg.
    pose proof (put_others _ _ _ _ _ _ Wm (did_put _ _ _ _ _ _ _ _ _ _ Dd) (did_ty _ _ _ _ _ _ _ _ _ _ Dd)) as Ot.
    split.
    + eapply seg_did_types; eauto.
    + intros t' <-. rewrite elems_seg_at. fold t in Sg'. rewrite Sg'. exact P1.
    + intros t' Ne. apply Ot. unfold t in Ne. congruence.
    + intros t'. unfold cap_of. destruct (Nat.eq_dec t' (env_ty a)) as [->|Ne]; [rewrite Sg, Sg'; exact P2|rewrite Ot; auto].
    + intros t'. unfold data_of. destruct (Nat.eq_dec t' (env_ty a)) as [->|Ne]; [rewrite Sg, Sg'; unfold vptr; rewrite P3; auto|rewrite Ot; auto].
    + intros t' k Ne. eapply (did_other_iters _ _ _ _ _ _ _ _ _ _ Dd); eauto.
    + apply Dd.
  - intros N. auto.
Qed.

Lemma rsv_stable n s s' : rsv_rel n s s' -> n <= bcap (sg_be s) -> elems_of s <> [] -> sg_be s' = sg_be s.
Proof.
  intros (A & B & C & D & _) Hn Hk. destruct (D Hn) as (D1 & D2). apply D2. unfold bsize, vsize.
  unfold elems_of in Hk. destruct (v_elems (be_store (sg_be s))); [congruence|simpl; lia].
Qed.

Lemma rsv_seg n (c c' : coll V) t s s' : seg_at c t = Some s -> seg_at c' t = Some s' -> rsv_rel n s s' ->
  cap_of c' t = Nat.max (cap_of c t) n /\ (n <= cap_of c t -> forall k, addr_of c' t k = addr_of c t k).
Proof.
  intros E1 E2 (A & B & C & D & _). unfold cap_of, addr_of. rewrite E1, E2. split; [exact B|].
  intros Hn k. destruct (D Hn) as (D1 & _). unfold elems_of. rewrite D1. auto.
Qed.

Lemma spec_reserve w c g d n : reach w (c :: g) d ->
  wp (c_reserve_all n) (c, w)
    (fun '(c', w') _ => reserved c c' n (fun _ => True) /\ (forall t, In t (types c) -> n <= env_vmax t))
    (fun '(c', w') e => content c' = content c /\ c_al c' = c_al c /\
       exists t, In t (types c) /\ reserve_threw c t n w w' e).
Proof.
  intros H. destruct (reach_wf _ _ _ _ H) as (W & O). pose proof (wc_map _ _ W) as Wm.
  eapply (wp_c_reserve_all n c w _ _); [exact W|exact O| |].
  - intros w' c' (W' & O' & L & Al & Bk & F). assert (Sg := fun t => nrel_seg_at _ c c' t F). split; [split; auto|].
    + eapply nrel_content; [|exact F]. intros s s' R. apply R.
    + intros t Ht _. specialize (Sg t). rewrite types_seg_at in Ht. destruct (seg_at c t) eqn:E1, (seg_at c' t) eqn:E2; try contradiction; try congruence.
      eapply rsv_seg; eauto.
    + intros t Hn. specialize (Hn I). specialize (Sg t). split; [|split].
      * destruct (seg_at c t) eqn:E1, (seg_at c' t) eqn:E2; try contradiction.
        -- destruct (rsv_seg n c c' t _ _ E1 E2 Sg) as (Q & _). rewrite Q. lia.
        -- unfold cap_of. rewrite E1, E2. auto.
      * destruct (seg_at c t) eqn:E1, (seg_at c' t) eqn:E2; try contradiction.
        -- eapply rsv_seg; eauto.
        -- intros k. unfold addr_of. rewrite E1, E2. auto.
      * intros k [Ne|N]; [|exfalso; apply N; auto].
        eapply (nrel_kept (fun s s' => rsv_rel n s s' /\ bcap (sg_be s) = cap_of c (sg_ty s) /\ elems_of s = elems c (sg_ty s))).
        -- intros s s' (R & Q & Q') Es Hk. rewrite Es in Q, Q'. unfold elems_of at 2.
           rewrite (rsv_stable n s s' R); auto; [lia|congruence].
        -- assert (Q : forall m, In m (c_nodes c) -> bcap (nb m) = cap_of c (n_ty m) /\ elems_of (n_seg m) = elems c (n_ty m)).
           { intros m' Hm'. unfold cap_of. rewrite (elems_node _ _ _ Wm Hm'), (seg_at_node c m'); auto. apply Wm. }
           clear - F Q. revert Q. induction F as [|x y l l' Hxy F IH]; intros Q; constructor.
           ++ destruct Hxy as (I1 & I2 & I3 & I4 & I5 & J). unfold nrel. csplit; auto; apply Q; left; auto.
           ++ apply IH. intros; apply Q; right; auto.
    + intros t Hn. specialize (Hn I). specialize (Sg t). unfold data_of.
      destruct (seg_at c t) eqn:E1, (seg_at c' t) eqn:E2; try contradiction; auto.
      unfold cap_of in Hn. rewrite E1 in Hn. destruct Sg as (_ & _ & _ & D & _). destruct (D Hn) as (-> & _). auto.
    + intros t Ht. specialize (Sg t). rewrite types_seg_at in Ht. destruct (seg_at c t) eqn:E1, (seg_at c' t) eqn:E2; try contradiction; try congruence.
      destruct Sg as (_ & _ & Q & _). apply seg_at_in in E1. destruct E1 as (m & _ & Em & <-). unfold n_ty in Em. congruence.
  - intros w' c' e (W0 & Hw & O' & L & Al & Ef).
    destruct Ef as (m1 & m & m2 & m1' & m' & E1 & E2 & F & I1 & I2 & I3 & (R1 & R2 & R3 & R4 & R5)).
    csplit; auto.
    + rewrite !content_nodes, E1, E2, !map_app. cbn [map]. f_equal.
      * eapply nrel_same; [|exact F]. intros s s' R; apply R.
      * f_equal. unfold n_ty, n_elems, belems. rewrite I3, R1. auto.
    + exists (n_ty m). assert (Hin : In m (c_nodes c)) by (rewrite E1; apply in_elt). split.
      * rewrite types_nodes. apply in_map; auto.
      * destruct R5 as [[B|(B1 & B2 & B3)]|B].
        -- left. destruct B as ([B|(B & [(h0 & B1 & _)|(B1 & B2)])] & Fa); [auto|discriminate|].
           split; auto. right. csplit; auto.
           intros Q. rewrite (elems_node w c m Wm Hin) in Q. apply (f_equal (@length _)) in Q. rewrite n_elems_length in Q. simpl in Q. lia.
        -- right; left. destruct B3 as [B3|(B3 & B4)]; [discriminate|]. csplit; auto.
           intros Q. rewrite (elems_node w c m Wm Hin) in Q. apply (f_equal (@length _)) in Q. rewrite n_elems_length in Q. simpl in Q. lia.
        -- right; right. exact B.
Qed.

End PProp.
