(** * Operations of a collection: framing *)

From Coq Require Import List Arith Lia Bool Permutation.
From Verif Require Import Base Vec Backend Segment Coll Spec ProofBase ProofVec ProofBackend ProofOps ProofOps2 ProofSeg ProofMap ProofView.
Import ListNotations.

Section PColl.
Context {V : Type} {E : Env V}.

Notation SW := (segment V * world)%type.
Notation CW := (coll V * world)%type.
Notation NL := (list (node V)).
Notation nb n := (sg_be (n_seg n)).
Notation nsz n := (bsize (sg_be (n_seg n))).
Notation ce := (fun n => (n_ty n, n_elems n)).

(** ** assoc lists *)

Lemma set_assoc_id (l : list (tyid * list V)) t xs : assoc t l = Some xs -> set_assoc t xs l = l.
Proof.
  induction l as [|[t' ys] l IH]; simpl; auto. destruct (Nat.eqb_spec t' t) as [->|Ne].
  - intros Es. inversion Es. auto.
  - intros Es. rewrite IH; auto.
Qed.
Lemma set_assoc_split (l1 l2 : list (tyid * list V)) t ys xs : ~ In t (map fst l1) ->
  set_assoc t xs (l1 ++ (t, ys) :: l2) = l1 ++ (t, xs) :: l2.
Proof.
  induction l1 as [|[t' zs] l1 IH]; simpl; intros H.
  - rewrite Nat.eqb_refl. auto.
  - destruct (Nat.eqb_spec t' t); [tauto|]. rewrite IH; auto.
Qed.
Lemma assoc_split (l1 l2 : list (tyid * list V)) t ys : ~ In t (map fst l1) ->
  assoc t (l1 ++ (t, ys) :: l2) = Some ys.
Proof.
  induction l1 as [|[t' zs] l1 IH]; simpl; intros H.
  - rewrite Nat.eqb_refl. auto.
  - destruct (Nat.eqb_spec t' t); [tauto|]. auto.
Qed.
Lemma set_assoc_set (l : list (tyid * list V)) t xs ys : set_assoc t ys (set_assoc t xs l) = set_assoc t ys l.
Proof.
  induction l as [|[t' zs] l IH]; simpl; auto. destruct (Nat.eqb_spec t' t) as [->|Ne]; simpl.
  - rewrite Nat.eqb_refl. auto.
  - apply Nat.eqb_neq in Ne. rewrite Ne, IH. auto.
Qed.
Lemma assoc_set (l : list (tyid * list V)) t t' xs : 
  assoc t' (set_assoc t xs l) = if t' =? t then option_map (fun _ => xs) (assoc t l) else assoc t' l.
Proof.
  induction l as [|[t2 zs] l IH]; simpl.
  - destruct (t' =? t); auto.
  - destruct (Nat.eqb_spec t2 t) as [->|Ne]; simpl.
    + rewrite (Nat.eqb_sym t t'). destruct (Nat.eqb_spec t' t) as [->|Ne']; simpl; auto.
    + rewrite IH. destruct (Nat.eqb_spec t2 t') as [->|Ne']; simpl; auto.
      destruct (Nat.eqb_spec t' t); congruence.
Qed.
Lemma assoc_perm (l l' : list (tyid * list V)) t : NoDup (map fst l) -> Permutation l l' -> assoc t l' = assoc t l.
Proof.
  intros ND P. induction P as [|[t1 x1] l l' P IH|[t1 x1] [t2 x2] l|l l' l'' P1 IH1 P2 IH2]; simpl in *; auto.
  - inversion ND; subst. destruct (t1 =? t); auto.
  - inversion ND as [|? ? H1 H2]; subst. simpl in H1.
    destruct (Nat.eqb_spec t1 t), (Nat.eqb_spec t2 t); subst; auto. tauto.
  - rewrite IH2, IH1; auto. eapply Permutation_NoDup; [|exact ND]. apply Permutation_map; auto.
Qed.

(** ** seg_at *)

Lemma seg_at_in (c : coll V) t s : seg_at c t = Some s -> exists n, In n (c_nodes c) /\ n_ty n = t /\ n_seg n = s.
Proof.
  unfold seg_at. destruct (find _ _) as [n|] eqn:Ef; simpl; [|discriminate].
  intros Es. inversion Es; subst. apply find_some in Ef. destruct Ef as [A B]. apply Nat.eqb_eq in B.
  exists n. auto.
Qed.
Lemma find_ty_in (ns : NL) n : NoDup (map n_ty ns) -> In n ns ->
  find (fun m => sg_ty (n_seg m) =? n_ty n) ns = Some n.
Proof.
  induction ns as [|m ns IH]; simpl; [tauto|]. intros ND [->|Hin].
  - unfold n_ty. rewrite Nat.eqb_refl. auto.
  - inversion ND; subst. destruct (Nat.eqb_spec (sg_ty (n_seg m)) (n_ty n)) as [Eq|]; auto.
    exfalso. apply H1. unfold n_ty at 1. rewrite Eq. apply in_map; auto.
Qed.
Lemma find_ty_none (ns : NL) t : ~ In t (map n_ty ns) -> find (fun m => sg_ty (n_seg m) =? t) ns = None.
Proof.
  induction ns as [|m ns IH]; simpl; auto. intros H.
  destruct (Nat.eqb_spec (sg_ty (n_seg m)) t) as [Eq|]; auto. exfalso. apply H. auto.
Qed.
Lemma seg_at_node (c : coll V) n : NoDup (map n_ty (c_nodes c)) -> In n (c_nodes c) -> seg_at c (n_ty n) = Some (n_seg n).
Proof. intros ND H. unfold seg_at. rewrite find_ty_in; auto. Qed.
Lemma seg_at_none (c : coll V) t : ~ In t (map n_ty (c_nodes c)) -> seg_at c t = None.
Proof. intros H. unfold seg_at. rewrite find_ty_none; auto. Qed.
Lemma seg_at_perm (c c' : coll V) : NoDup (map n_ty (c_nodes c)) -> Permutation (map n_seg (c_nodes c)) (map n_seg (c_nodes c')) ->
  forall t, seg_at c' t = seg_at c t.
Proof.
  intros ND P t.
  assert (T : forall l : NL, map n_ty l = map sg_ty (map n_seg l)) by (intros; rewrite map_map; auto).
  assert (PT : Permutation (map n_ty (c_nodes c)) (map n_ty (c_nodes c'))) by (rewrite !T; apply Permutation_map; auto).
  destruct (in_dec Nat.eq_dec t (map n_ty (c_nodes c))) as [Hin|Hn].
  - apply in_map_iff in Hin. destruct Hin as (n & <- & Hin). rewrite (seg_at_node c n) by auto.
    assert (Hs : In (n_seg n) (map n_seg (c_nodes c'))).
    { eapply Permutation_in; [exact P|]. apply in_map; auto. }
    apply in_map_iff in Hs. destruct Hs as (n' & En & Hin').
    assert (Et : n_ty n = n_ty n') by (unfold n_ty; congruence).
    rewrite Et, (seg_at_node c' n'); [congruence| |auto].
    eapply Permutation_NoDup; eauto.
  - rewrite !seg_at_none; auto. intros Hin. apply Hn. eapply Permutation_in; [symmetry; exact PT|auto].
Qed.

(** ** put *)

Definition put (c c' : coll V) (t : tyid) (i : nat) (s : segment V) : Prop :=
  (exists n, node_at (c_nodes c) i = Some n /\ n_ty n = t /\
     c_nodes c' = node_upd (c_nodes c) i s /\ c_buckets c' = c_buckets c) \/
  (~ In t (map n_ty (c_nodes c)) /\
   exists k, env_ty k = t /\ added c (mknode i k s) (c_nodes c') (c_buckets c')).

(** What the segment was before. *)
Definition prev (c : coll V) (t : tyid) (i : nat) (s : segment V) : Prop :=
  (exists n, node_at (c_nodes c) i = Some n /\ n_ty n = t /\ n_seg n = s) \/
  (~ In t (map n_ty (c_nodes c)) /\ wfs s /\ sg_ty s = t /\ belems (sg_be s) = []).

Record did (w : world) (c : coll V) (R : nat -> nat) (K : nat) (w' : world) (c' : coll V)
  (t : tyid) (i : nat) (s s' : segment V) : Prop := {
  did_wf : wfc w c -> wfs s' -> wfc w' c';
  did_wf0 : wfc0 w c -> wfs1 s' -> wfc0 w' c';
  did_own : cown w' c' R K;
  did_wle : wle w w';
  did_al : c_al c' = c_al c;
  did_put : put c c' t i s';
  did_prev : prev c t i s;
  did_ty : sg_ty s' = t
}.

Lemma key_seg_upd (ns : NL) i s n : NoDup (map n_id ns) -> In n ns -> n_id n = i ->
  exists l, Permutation (map key_seg ns) (key_seg n :: l) /\
            Permutation (map key_seg (node_upd ns i s)) ((n_key n, s) :: l) .
Proof.
  intros ND Hin <-. assert (Ha := node_at_some ns n ND Hin).
  destruct (node_at_split _ _ _ Ha) as (l1 & l2 & -> & _ & _ & U & _).
  exists (map key_seg (l1 ++ l2)). rewrite U, !map_app. simpl. split; symmetry; apply Permutation_middle.
Qed.

Lemma added_upd c i k s s' ns bk : added c (mknode i k s) ns bk ->
  added c (mknode i k s') (node_upd ns i s') bk.
Proof.
  intros (P & Hin & ND & St).
  assert (Ha := node_at_some ns _ ND Hin). simpl in Ha.
  destruct (node_at_split _ _ _ Ha) as (l1 & l2 & En & _ & N1 & U & _).
  specialize (U s'). simpl in U. unfold added. csplit.
  - rewrite U, map_app. simpl. rewrite En, map_app in P. simpl in P.
    assert (P' : Permutation (map key_seg l1 ++ map key_seg l2) (map key_seg (c_nodes c))).
    { apply Permutation_cons_inv with (a := key_seg (mknode i k s)).
      etransitivity; [apply Permutation_middle|exact P]. }
    etransitivity; [symmetry; apply Permutation_middle|]. constructor. exact P'.
  - rewrite U. apply in_or_app. right. left. auto.
  - rewrite upd_ids. auto.
  - intros C. specialize (St C). rewrite U. rewrite En in St.
    assert (P' : Permutation (l1 ++ l2) (c_nodes c)).
    { apply Permutation_cons_inv with (a := mknode i k s).
      etransitivity; [apply Permutation_middle|exact St]. }
    etransitivity; [symmetry; apply Permutation_middle|]. constructor. exact P'.
Qed.

Lemma added_segs c n ns bk (P : segment V -> Prop) : added c n ns bk -> P (n_seg n) ->
  Forall (fun m => P (n_seg m)) (c_nodes c) -> Forall (fun m => P (n_seg m)) ns.
Proof.
  intros (Pm & _) Pn Fa. apply Forall_forall. intros m Hm.
  apply (in_map key_seg) in Hm. eapply Permutation_in in Hm; [|exact Pm].
  destruct Hm as [Hm|Hm].
  - apply (f_equal snd) in Hm. simpl in Hm. congruence.
  - apply in_map_iff in Hm. destruct Hm as (m' & Em & Hm'). apply (f_equal snd) in Em. simpl in Em.
    rewrite <- Em. rewrite Forall_forall in Fa. auto.
Qed.

(** The segment of a found or made node is replaced. *)
Lemma made_did w c a R K w1 c1 n w2 s' :
  made w c a R K w1 c1 n -> wle w1 w2 -> sg_ty s' = env_ty a -> sg_al s' = sg_al (n_seg n) ->
  sown w2 s' (Rc c1 (n_id n) R) (Kc c1 (n_id n) K) ->
  did w c R K w2 (upd_seg c1 (n_id n) s') (env_ty a) (n_id n) (n_seg n) s'.
Proof.
  intros (W1 & H1 & L1 & Ea & Hat & Et & Cs) L2 Es Eal Hs.
  assert (Wm : wfm w2 (upd_seg c1 (n_id n) s')) by (eapply wfm_upd; eauto; congruence).
  split; auto.
  - intros [W S] Ws. split; auto. apply (Forall_upd wfs); auto.
    destruct Cs as [(-> & _)|(_ & F & _ & Ad)]; auto.
    eapply (added_segs c n _ _ wfs); eauto. apply F.
  - intros [W S] Ws. split; auto. apply (Forall_upd wfs1); auto.
    destruct Cs as [(-> & _)|(_ & F & _ & Ad)]; auto.
    eapply (added_segs c n _ _ wfs1); eauto. apply wfs_1, F.
  - eapply cown_seg; eauto.
  - wle_tac.
  - destruct Cs as [(En & Eb)|(Nin & F & Li & Ad)].
    + left. exists n. rewrite <- En. csplit; auto.
    + right. split; auto. exists (n_key n). split.
      * destruct W1 as [_ _ _ A _ _]. rewrite Forall_forall in A. rewrite A; auto.
        apply Ad.
      * simpl. apply (added_upd c (n_id n) (n_key n) (n_seg n)). destruct n; exact Ad.
  - destruct Cs as [(En & Eb)|(Nin & F & Li & Ad)].
    + left. exists n. rewrite <- En. auto.
    + right. csplit; auto; try apply F.
Qed.

(** The same for a node that is already there. *)
Lemma upd_did w c R K n w2 s' :
  wfm w c -> node_at (c_nodes c) (n_id n) = Some n -> wle w w2 -> sg_ty s' = n_ty n -> sg_al s' = sg_al (n_seg n) ->
  sown w2 s' (Rc c (n_id n) R) (Kc c (n_id n) K) ->
  did w c R K w2 (upd_seg c (n_id n) s') (n_ty n) (n_id n) (n_seg n) s'.
Proof.
  intros W Hat L Es Eal Hs. split; auto.
  - intros Wc Ws. eapply wfc_upd; eauto.
  - intros Wc Ws. eapply wfc0_upd; eauto.
  - eapply cown_seg; eauto.
  - left. exists n. csplit; auto.
  - left. exists n. auto.
Qed.

(** ** Consequences of put *)

Lemma put_in c c' t i s : put c c' t i s -> exists k, In (mknode i k s) (c_nodes c').
Proof.
  intros [(n & Ha & Et & -> & _)|(_ & k & Ek & (_ & Hin & _))].
  - destruct (node_at_split _ _ _ Ha) as (l1 & l2 & -> & _ & _ & U & _).
    exists (n_key n). rewrite U. apply in_or_app. right. left. auto.
  - eauto.
Qed.

Lemma ce_key_seg (ns : NL) : map ce ns = map (fun ks => (sg_ty (snd ks), belems (sg_be (snd ks)))) (map key_seg ns).
Proof. rewrite map_map. apply map_ext. auto. Qed.

Lemma put_became w c c' t i s : wfm w c -> put c c' t i s -> sg_ty s = t ->
  became c c' t (belems (sg_be s)).
Proof.
  intros W [(n & Ha & Et & En & _)|(Nin & k & Ek & (P & _))] Es; unfold became.
  - destruct (node_at_in _ _ _ Ha) as [Hin Ei]. assert (So := seg_of_node _ _ _ W Hin). rewrite Et in So. rewrite So.
    rewrite !content_nodes, En.
    destruct (node_at_split _ _ _ Ha) as (l1 & l2 & E1 & _ & _ & U & _).
    rewrite U, E1, !map_app. simpl. rewrite Et.
    assert (ND := wm_tys _ _ W). rewrite E1, map_app in ND. simpl in ND.
    rewrite set_assoc_split.
    + unfold n_ty at 2, n_elems at 2. simpl. rewrite Es. auto.
    + rewrite map_map. simpl. intros C. apply NoDup_remove_2 in ND. apply ND.
      apply in_or_app. left. rewrite Et. erewrite map_ext; [exact C|]. auto.
  - rewrite (proj2 (seg_of_none c t)) by auto.
    rewrite !content_nodes, !ce_key_seg.
    eapply Permutation_map in P. etransitivity; [exact P|]. simpl. rewrite Es. auto.
Qed.

Lemma put_others w c c' t i s : wfm w c -> put c c' t i s -> sg_ty s = t -> others_kept c c' t.
Proof.
  intros W Pu Es t' Ne. destruct Pu as [(n & Ha & Et & En & _)|(Nin & k & Ek & (P & _))].
  - unfold seg_at. rewrite En. destruct (node_at_split _ _ _ Ha) as (l1 & l2 & E1 & _ & _ & U & _).
    rewrite U, E1. clear - Ne Es Et. f_equal. induction l1 as [|m l1 IH]; simpl.
    + unfold n_ty in Et. rewrite Es, Et. destruct (Nat.eqb_spec t t'); [congruence|]. auto.
    + destruct (sg_ty (n_seg m) =? t'); auto.
  - transitivity (seg_at (mkcoll (mknode i k s :: c_nodes c) 0 [] 0) t').
    + apply seg_at_perm.
      * simpl. constructor; [|apply W]. unfold n_ty at 1. simpl. rewrite Es. auto.
      * simpl. rewrite !map_snd_key_seg. apply (Permutation_map snd) in P. simpl in P. symmetry. exact P.
    + unfold seg_at. simpl. rewrite Es. destruct (Nat.eqb_spec t t'); [congruence|]. auto.
Qed.
Lemma put_seg_at w c c' t i s : wfm w c' -> put c c' t i s -> sg_ty s = t -> seg_at c' t = Some s.
Proof.
  intros W Pu Es. destruct (put_in _ _ _ _ _ Pu) as (k & Hin).
  rewrite <- Es. change (sg_ty s) with (n_ty (mknode i k s)). change s with (n_seg (mknode i k s)) at 2.
  apply seg_at_node; auto. apply W.
Qed.

(** Map iterators survive unless a new segment makes the map rehash and that invalidates
    them. *)
Definition no_rehash (c c' : coll V) : Prop := c_buckets c' = c_buckets c \/ env_rehash_stable = true.

Lemma kept_refl c t k : kept_at (V := V) c c t k.
Proof. split; auto. Qed.
Lemma kept_trans c1 c2 c3 t k : kept_at (V := V) c1 c2 t k -> kept_at c2 c3 t k -> kept_at c1 c3 t k.
Proof. intros (A & B) (C & D). split; auto. Qed.
Lemma kept_nodes c c' t k :
  (forall n, In n (c_nodes c) -> n_ty n = t -> k <= length (elems_of (n_seg n)) ->
     exists n', In n' (c_nodes c') /\ n_ty n' = t /\ n_id n' = n_id n /\
       be_ptr (sg_be (n_seg n')) k = be_ptr (sg_be (n_seg n)) k /\
       v_blk (be_store (sg_be (n_seg n'))) = v_blk (be_store (sg_be (n_seg n))) /\
       (k < length (elems_of (n_seg n)) -> k < length (elems_of (n_seg n'))) /\ k <= length (elems_of (n_seg n'))) ->
  kept_at c c' t k.
Proof.
  intros H. split.
  - intros it (n & Hin & Et & -> & Hk). destruct (H n Hin Et) as (n' & A1 & A2 & A3 & A4 & A5 & A6 & A7); [lia|].
    exists n'. csplit; auto. rewrite A3, A4. auto.
  - intros l (n & Hin & Et & Em & Hp & Hk). destruct (H n Hin Et Hk) as (n' & A1 & A2 & A3 & A4 & A5 & A6 & A7).
    exists n'. csplit; auto; [congruence|]. rewrite A4. unfold vptr in *. rewrite A5. auto.
Qed.
Lemma kept_same_nodes c c' t k : (forall n, In n (c_nodes c) -> n_ty n = t -> In n (c_nodes c')) -> kept_at c c' t k.
Proof. intros H. apply kept_nodes. intros n Hin Et Hk. exists n. csplit; auto. Qed.

Lemma put_iters c c' t i s : put c c' t i s -> no_rehash c c' -> other_iters_kept c c' t.
Proof.
  intros Pu St t' k Ne. apply kept_same_nodes. intros n Hin Et. unfold n_ty in Et.
  destruct Pu as [(m & Ha & Et' & En & _)|(Nin & k' & Ek & (P & _ & _ & St'))].
  - destruct (node_at_split _ _ _ Ha) as (l1 & l2 & E1 & _ & _ & U & _).
    rewrite En, U. rewrite E1 in Hin. apply in_app_or in Hin. apply in_or_app.
    destruct Hin as [?|[->|?]]; [left; auto| |right; right; auto].
    exfalso. apply Ne. unfold n_ty in Et'. congruence.
  - eapply Permutation_in; [symmetry; apply St'; exact St|]. right. auto.
Qed.

Lemma prev_elems w c t i s : wfm w c -> prev c t i s -> belems (sg_be s) = elems c t.
Proof.
  intros W [(n & Ha & Et & <-)|(Nin & _ & _ & Ee)].
  - destruct (node_at_in _ _ _ Ha) as [Hin _]. rewrite <- Et. symmetry. eapply elems_node; eauto.
  - rewrite elems_none; auto.
Qed.
Lemma prev_seg_at w c t i s : wfm w c -> prev c t i s -> In t (types c) -> seg_at c t = Some s.
Proof.
  intros W [(n & Ha & Et & <-)|(Nin & _)] Hin.
  - destruct (node_at_in _ _ _ Ha) as [Hn _]. rewrite <- Et. apply seg_at_node; auto. apply W.
  - rewrite types_nodes in Hin. tauto.
Qed.
Lemma prev_wfs w c t i s : wfc w c -> prev c t i s -> wfs s.
Proof.
  intros [_ S] [(n & Ha & _ & <-)|(_ & H & _)]; auto.
  destruct (node_at_in _ _ _ Ha) as [Hin _]. unfold segs_ok in S. rewrite Forall_forall in S. auto.
Qed.

End PColl.
