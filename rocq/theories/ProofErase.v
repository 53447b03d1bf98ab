(** * Erasure *)

From Coq Require Import List Arith Lia Bool Permutation.
From Verif Require Import Base Vec Backend Segment Coll Spec ProofBase ProofVec ProofBackend ProofOps ProofOps2 ProofSeg ProofMap ProofView ProofColl ProofIns ProofEach.
Import ListNotations.

Section PErase.
Context {V : Type} {E : Env V}.

Notation SW := (segment V * world)%type.
Notation CW := (coll V * world)%type.
Notation NL := (list (node V)).
Notation nb n := (sg_be (n_seg n)).
Notation nsz n := (bsize (sg_be (n_seg n))).

(** Elements [f,l) removed, the storage kept. *)
Definition er_rel (f l : nat) (s s' : segment V) : Prop :=
  belems (sg_be s') = remove_range f l (belems (sg_be s)) /\
  bcap (sg_be s') = bcap (sg_be s) /\
  v_blk (be_store (sg_be s')) = v_blk (be_store (sg_be s)) /\
  (forall k, be_ptr (sg_be s') k = be_ptr (sg_be s) k).

(** Failed erasure. *)
Definition er_fail (one : bool) (f l : nat) (w w' : world) (s s' : segment V) (e : exn) : Prop :=
  f < l < bsize (sg_be s) /\ env_assignable (sg_ty s) = true /\ env_nt_assign (sg_ty s) = false /\
  e = UserExn /\ faulted w w' /\ bsize (sg_be s') = bsize (sg_be s) /\
  (env_layout = PackedLayout \/ one = false -> wfs s').

(** Triples of the segment operations. *)
Definition er_op (m : M SW ptr) one f l (s : segment V) : Prop :=
  forall w R K, wfs s -> sown w s R K ->
  wp m (s, w)
    (fun sw p => er_rel f l s (fst sw) /\ p = be_ptr (sg_be (fst sw)) f /\ wfs (fst sw) /\
       sg_ty (fst sw) = sg_ty s /\ sg_al (fst sw) = sg_al s /\
       sown (snd sw) (fst sw) R K /\ wle w (snd sw))
    (fun sw e => er_fail one f l w (snd sw) s (fst sw) e /\ wfs1 (fst sw) /\
       sg_ty (fst sw) = sg_ty s /\ sg_al (fst sw) = sg_al s /\
       sown (snd sw) (fst sw) R K /\ wle w (snd sw)).

Lemma ers_ok_rel t f l b w R K b' w' r (s : segment V) : sg_be s = b -> sg_ty s = t -> ers_ok t f l b w R K b' w' r ->
  er_rel f l s (seg_with s b') /\ be_ptr b' f = be_ptr (sg_be (seg_with s b')) f /\ wfs (seg_with s b') /\
  sg_ty (seg_with s b') = sg_ty s /\ sg_al (seg_with s b') = sg_al s /\ sown w' (seg_with s b') R K /\ wle w w'.
Proof.
  intros <- <- (A1 & A2 & A3 & A4 & A5 & A6 & A7 & A8 & A9). csplit; auto.
  - unfold er_rel. csplit; auto.
  - apply wfs_with; auto.
Qed.
Lemma ers_exn_rel t one f l b w R K b' w' e (s : segment V) : sg_be s = b -> sg_ty s = t -> wfs s ->
  ers_exn t one f l b w R K b' w' e ->
  er_fail one f l w w' s (set_be s b' (sg_snt s)) e /\ wfs1 (set_be s b' (sg_snt s)) /\
  sg_ty (set_be s b' (sg_snt s)) = sg_ty s /\ sg_al (set_be s b' (sg_snt s)) = sg_al s /\ sown w' (set_be s b' (sg_snt s)) R K /\ wle w w'.
Proof.
  intros <- <- W (A1 & A2 & A3 & A4 & A5 & A6 & A7 & A8 & A9 & A10 & A11 & A12 & A13). csplit; auto.
  unfold er_fail. csplit; auto; try lia. intros L. destruct (A13 L) as [B1 B2]. split; auto.
  simpl. rewrite (wfs_snt _ W). unfold be_end.
  unfold bsize in A10. rewrite A10, B2. auto.
Qed.

Lemma op_erase s p k : pos_at (sg_be s) p k -> k < bsize (sg_be s) -> er_op (seg_erase p) true k (S k) s.
Proof.
  intros Hp Hk w R K W H. eapply wp_seg_erase; eauto.
  - intros b' w' r O. cbn [fst snd]. eapply ers_ok_rel; eauto.
  - intros b' w' e O. cbn [fst snd]. eapply ers_exn_rel; eauto.
Qed.
Lemma op_erase_range s p q f l : pos_at (sg_be s) p f -> pos_at (sg_be s) q l -> f <= l -> l <= bsize (sg_be s) ->
  er_op (seg_erase_range p q) false f l s.
Proof.
  intros Hp Hq Hf Hl w R K W H. eapply wp_seg_erase_range; eauto.
  - intros b' w' r O. cbn [fst snd]. eapply ers_ok_rel; eauto.
  - intros b' w' e O. cbn [fst snd]. eapply ers_exn_rel; eauto.
Qed.
Lemma op_erase_from_begin s p l : pos_at (sg_be s) p l -> l <= bsize (sg_be s) ->
  er_op (seg_erase_from_begin p) false 0 l s.
Proof.
  intros Hq Hl w R K W H. eapply wp_seg_erase_from_begin; eauto.
  - intros b' w' r O. cbn [fst snd]. eapply ers_ok_rel; eauto.
  - intros b' w' e O. cbn [fst snd]. eapply ers_exn_rel; eauto.
Qed.
Lemma op_erase_till_end s p f w R K : pos_at (sg_be s) p f -> f <= bsize (sg_be s) ->
  wfs s -> sown w s R K ->
  wp (seg_erase_till_end p) (s, w)
    (fun sw p => er_rel f (bsize (sg_be s)) s (fst sw) /\ p = be_ptr (sg_be (fst sw)) f /\ wfs (fst sw) /\
       sg_ty (fst sw) = sg_ty s /\ sg_al (fst sw) = sg_al s /\
       sown (snd sw) (fst sw) R K /\ wle w (snd sw))
    (fun _ _ => False).
Proof.
  intros Hp Hf W H. eapply wp_seg_erase_till_end; eauto.
  intros b' w' r O. cbn [fst snd]. eapply ers_ok_rel; eauto.
Qed.

(** ** On a collection *)

Lemma upd_split (c : coll V) l1 n l2 s : NoDup (map n_id (c_nodes c)) -> c_nodes c = l1 ++ n :: l2 ->
  upd_seg c (n_id n) s = set_nodes c (l1 ++ mknode (n_id n) (n_key n) s :: l2).
Proof.
  intros ND En. assert (Hat : node_at (c_nodes c) (n_id n) = Some n).
  { apply node_at_some; auto. rewrite En. apply in_or_app; right; left; auto. }
  destruct (node_at_split _ _ _ Hat) as (l1' & l2' & E1 & _ & N1 & U & _).
  destruct (split_unique (c_nodes c) l1 n l2 l1' l2') as [-> ->]; auto.
  unfold upd_seg. rewrite U. auto.
Qed.

Definition er_did w c R K w' c' f l (l1 : NL) (n : node V) (l2 : NL) s' : Prop :=
  c' = set_nodes c (l1 ++ mknode (n_id n) (n_key n) s' :: l2) /\ nrel (er_rel f l) n (mknode (n_id n) (n_key n) s') /\
  wfc w' c' /\ cown w' c' R K /\ wle w w'.
Definition er_failed w c R K w' c' one f l (l1 : NL) (n : node V) (l2 : NL) s' e : Prop :=
  c' = set_nodes c (l1 ++ mknode (n_id n) (n_key n) s' :: l2) /\ er_fail one f l w w' (n_seg n) s' e /\
  sg_ty s' = n_ty n /\ (wfs s' -> wfc w' c') /\ wfc0 w' c' /\ cown w' c' R K /\ wle w w'.

Lemma wfc_seg w c n : wfc w c -> In n (c_nodes c) -> wfs (n_seg n).
Proof. intros [_ S] Hin. unfold segs_ok in S. rewrite Forall_forall in S. auto. Qed.

Lemma wp_er m one f l l1 n l2 c w R K (Q : CW -> ptr -> Prop) (X : CW -> exn -> Prop) :
  er_op m one f l (n_seg n) -> c_nodes c = l1 ++ n :: l2 -> wfc w c -> cown w c R K ->
  (forall w' c' s', er_did w c R K w' c' f l l1 n l2 s' -> Q (c', w') (be_ptr (sg_be s') f)) ->
  (forall w' c' s' e, er_failed w c R K w' c' one f l l1 n l2 s' e -> X (c', w') e) ->
  wp (on_seg (n_id n) m) (c, w) Q X.
Proof.
  intros T En W H HQ HX.
  assert (Hin : In n (c_nodes c)) by (rewrite En; apply in_or_app; right; left; auto).
  assert (Hat : node_at (c_nodes c) (n_id n) = Some n) by (apply node_at_some; auto; apply W).
  assert (Ws := wfc_seg _ _ _ W Hin).
  eapply wp_on_seg; [exact Hat|].
  eapply wp_mono; [apply (T w (Rc c (n_id n) R) (Kc c (n_id n) K)); auto; eapply cown_seg_id; eauto| |].
  - intros [s' w1] p. cbn [fst snd]. intros (Pp & -> & Ws' & Et & Eal & Ho & L).
    apply HQ. unfold er_did. rewrite (upd_split c l1 n l2) by (auto; apply W). csplit; auto.
    + unfold nrel. simpl. auto 10.
    + erewrite <- upd_split; eauto; [|apply W]. eapply wfc_upd; eauto.
    + erewrite <- upd_split; eauto; [|apply W]. eapply cown_seg; eauto.
  - intros [s' w1] e. cbn [fst snd]. intros (Pp & Ws' & Et & Eal & Ho & L).
    apply (HX _ _ s'). unfold er_failed. rewrite (upd_split c l1 n l2) by (auto; apply W). csplit; auto.
    + intros Wf. erewrite <- upd_split; eauto; [|apply W]. eapply wfc_upd; eauto.
    + erewrite <- upd_split; eauto; [|apply W]. eapply wfc0_upd; eauto. apply wfc_0; auto.
    + erewrite <- upd_split; eauto; [|apply W]. eapply cown_seg; eauto.
Qed.

(** *** Sequences *)

Lemma nflat_app (l1 l2 : NL) : nflat (l1 ++ l2) = nflat l1 ++ nflat l2.
Proof. unfold nflat. apply flat_map_app. Qed.
Lemma nflat_cons (n : node V) l : nflat (n :: l) = map (pair (n_ty n)) (n_elems n) ++ nflat l.
Proof. auto. Qed.
Lemma remove_mid {A} (a b c : list A) f l : f <= l -> l <= length b ->
  remove_range (length a + f) (length a + l) (a ++ b ++ c) = a ++ remove_range f l b ++ c.
Proof.
  intros Hf Hl. unfold remove_range. rewrite firstn_app_2, firstn_app.
  replace (f - length b) with 0 by lia. simpl. rewrite app_nil_r.
  rewrite skipn_app, skipn_all2 by lia. simpl. replace (length a + l - length a) with l by lia.
  rewrite skipn_app. replace (l - length b) with 0 by lia. simpl.
  rewrite <- !app_assoc. auto.
Qed.
Lemma map_remove {A B} (f : A -> B) i j l : map f (remove_range i j l) = remove_range i j (map f l).
Proof. unfold remove_range. rewrite map_app, firstn_map, skipn_map. auto. Qed.

Lemma er_flat (l1 l2 : NL) n n' f l : f <= l -> l <= nsz n ->
  n_ty n' = n_ty n -> belems (nb n') = remove_range f l (belems (nb n)) ->
  nflat (l1 ++ n' :: l2) = remove_range (tot l1 + f) (tot l1 + l) (nflat (l1 ++ n :: l2)).
Proof.
  intros Hf Hl Et Ee. rewrite !nflat_app, !nflat_cons, Et. unfold n_elems. rewrite Ee, map_remove, <- nflat_length.
  rewrite remove_mid; auto. rewrite map_length. exact Hl.
Qed.

(** The state after erasing the positions [g,h) of the whole sequence. *)
Definition erased (c c' : coll V) (g h : nat) : Prop :=
  types c' = types c /\ flat c' = remove_range g h (flat c) /\
  Forall2 (nrel (fun s s' => exists f l, er_rel f l s s')) (c_nodes c) (c_nodes c').

Lemma Forall2_refl_in {A} (R : A -> A -> Prop) l : (forall x, In x l -> R x x) -> Forall2 R l l.
Proof. induction l; constructor; auto using in_eq. apply IHl. intros. apply H. right. auto. Qed.
Lemma er_rel_refl s : er_rel 0 0 s s.
Proof. unfold er_rel, remove_range. simpl. csplit; auto. Qed.
Lemma nrel_refl w c (l : NL) : wfc w c -> incl l (c_nodes c) ->
  Forall2 (nrel (fun s s' => exists f l, er_rel f l s s')) l l.
Proof.
  intros W I. apply Forall2_refl_in. intros n Hin. unfold nrel. csplit; auto.
  - eapply wfc_seg; eauto.
  - exists 0, 0. apply er_rel_refl.
Qed.

Lemma er_did_erased w c R K w' c' f l l1 n l2 s' : wfc w c -> c_nodes c = l1 ++ n :: l2 ->
  f <= l -> l <= nsz n -> er_did w c R K w' c' f l l1 n l2 s' -> erased c c' (tot l1 + f) (tot l1 + l).
Proof.
  intros W En Hf Hl (-> & Nr & _). assert (Nr' := Nr). destruct Nr' as (_ & _ & Et & _ & _ & (Ee & _)).
  unfold erased. csplit.
  - rewrite !types_nodes. simpl. rewrite En, !map_app. simpl. f_equal. f_equal. exact Et.
  - rewrite !flat_nodes. simpl. rewrite En. apply er_flat; auto.
  - simpl. rewrite En. apply Forall2_app; [|constructor].
    + apply (nrel_refl w c); auto. rewrite En. intros x Hx. apply in_or_app. auto.
    + destruct Nr as (A1 & A2 & A3 & A4 & A5 & A6). unfold nrel. csplit; auto. eauto.
    + apply (nrel_refl w c); auto. rewrite En. intros x Hx. apply in_or_app. right; right; auto.
Qed.

(** result iterator *)
Lemma wp_mk_iter_at c w R K l1 n l2 k (Q : CW -> iter -> Prop) X :
  wfc w c -> cown w c R K -> c_nodes c = l1 ++ n :: l2 -> k <= nsz n ->
  (forall it, located c it (tot l1 + k) -> Q (c, w) it) ->
  wp (mk_iter (Some (n_id n)) (be_ptr (nb n) k)) (c, w) Q X.
Proof.
  intros W H En Hk HQ. assert (Vo := wfc_vok _ _ _ _ W H).
  eapply wp_mk_iter; [eapply it_make_at; eauto|]. apply HQ.
  eapply located_at; eauto. split; auto. rewrite En, tot_app, tot_cons. lia.
Qed.

Lemma remove_range_length {A} f l (xs : list A) : f <= l -> l <= length xs ->
  length (remove_range f l xs) = length xs - (l - f).
Proof. intros. unfold remove_range. rewrite app_length, firstn_length, skipn_length. lia. Qed.

Lemma er_rel_size f l s s' : er_rel f l s s' -> f <= l -> l <= bsize (sg_be s) ->
  bsize (sg_be s') = bsize (sg_be s) - (l - f).
Proof.
  intros (Ee & _) Hf Hl. unfold bsize, vsize in *. fold (belems (sg_be s')). rewrite Ee.
  rewrite remove_range_length; auto.
Qed.

Lemma er_node_size f l n n' : nrel (er_rel f l) n n' -> f <= l -> l <= nsz n -> nsz n' = nsz n - (l - f).
Proof. intros (_ & _ & _ & _ & _ & Rl). apply er_rel_size; auto. Qed.

Lemma points_split w c it t k R K : wfc w c -> cown w c R K -> points c it t k ->
  exists l1 n l2, c_nodes c = l1 ++ n :: l2 /\ n_ty n = t /\ k < nsz n /\
    it = mkiter (Some (n_id n)) (be_ptr (nb n) k) /\ offset (content c) t = tot l1.
Proof.
  intros W H (n & Hin & Et & -> & Hk). destruct (in_split_node _ _ Hin) as (l1 & l2 & En).
  exists l1, n, l2. csplit; auto. rewrite content_nodes, En, <- Et.
  apply offset_nodes. rewrite <- En. apply W.
Qed.

(** Failed: what is known about the state. *)
Definition erase_fail w (c : coll V) R K w' (c' : coll V) one t e : Prop :=
  wfc0 w' c' /\ cown w' c' R K /\ wle w w' /\ types c' = types c /\ others_kept c c' t /\
  other_iters_kept c c' t /\ length (elems c' t) = length (elems c t) /\
  e = UserExn /\ faulted w w' /\ env_assignable t = true /\ env_nt_assign t = false /\
  (env_layout = PackedLayout \/ one = false -> wfc w' c') /\ c_al c' = c_al c /\ 1 < length (elems c t).

Lemma er_failed_fail w c R K w' c' one f l l1 n l2 s' e : wfc w c -> c_nodes c = l1 ++ n :: l2 ->
  er_failed w c R K w' c' one f l l1 n l2 s' e -> erase_fail w c R K w' c' one (n_ty n) e.
Proof.
  intros W En (-> & (F1 & F2 & F3 & F4 & F5 & F6 & F7) & Et & Wf & W0 & Ho & L).
  assert (Hin : In n (c_nodes c)) by (rewrite En; apply in_or_app; right; left; auto).
  assert (Ety : types (set_nodes c (l1 ++ mknode (n_id n) (n_key n) s' :: l2)) = types c).
  { rewrite !types_nodes. simpl. rewrite En, !map_app. simpl. f_equal. f_equal. exact Et. }
  unfold erase_fail. csplit; auto.
  - intros t' Ne. unfold seg_at. simpl. rewrite En. f_equal. clear - Et Ne. induction l1 as [|m l1 IH]; simpl.
    + rewrite Et. fold (n_ty n). destruct (Nat.eqb_spec (n_ty n) t'); [congruence|]. auto.
    + destruct (sg_ty (n_seg m) =? t'); auto.
  - intros t' k Ne. apply kept_same_nodes. intros m Hm Em. simpl. rewrite En in Hm. apply in_app_or in Hm.
    apply in_or_app. destruct Hm as [Hm|[->|Hm]]; auto; [|right; right; auto]. congruence.
  - rewrite (elems_node _ _ _ (wc_map _ _ W) Hin).
    assert (Hi : In (mknode (n_id n) (n_key n) s') (c_nodes (set_nodes c (l1 ++ mknode (n_id n) (n_key n) s' :: l2)))).
    { simpl. apply in_or_app; right; left; auto. }
    assert (Ee := elems_node _ _ _ (wc0_map _ _ W0) Hi). unfold n_ty at 1 in Ee. simpl in Ee. rewrite Et in Ee. rewrite Ee.
    exact F6.
  - rewrite (elems_node _ _ _ (wc_map _ _ W) Hin), n_elems_length. lia.
Qed.

Lemma wp_c_erase pos t k c w R K (Q : CW -> iter -> Prop) (X : CW -> exn -> Prop) :
  let g := offset (content c) t + k in
  wfc w c -> cown w c R K -> points c pos t k ->
  (forall w' c' it, wfc w' c' -> cown w' c' R K -> wle w w' -> erased c c' g (S g) -> located c' it g ->
     c_al c' = c_al c -> Q (c', w') it) ->
  (forall w' c' e, erase_fail w c R K w' c' true t e -> X (c', w') e) ->
  wp (c_erase pos) (c, w) Q X.
Proof.
  intros g W H Hp HQ HX. destruct (points_split _ _ _ _ _ _ _ W H Hp) as (l1 & n & l2 & En & Et & Hk & -> & Eo).
  unfold c_erase. cbn [it_map it_pos]. apply wp_bind.
  eapply (wp_er _ true k (S k) l1 n l2 c w R K); auto.
  - apply op_erase; auto. left; auto.
  - intros w' c' s' D. assert (Er := er_did_erased _ _ _ _ _ _ _ _ _ _ _ _ W En (Nat.le_succ_diag_r k) Hk D).
    destruct D as (-> & Nr & W' & H' & L). set (n' := mknode (n_id n) (n_key n) s') in *.
    change (n_id n) with (n_id n'). change s' with (n_seg n').
    eapply (wp_mk_iter_at _ _ _ _ l1 n' l2); eauto.
    + assert (A := er_node_size _ _ _ _ Nr). lia.
    + intros it Lo. apply HQ; auto; unfold g; rewrite Eo; auto. rewrite <- Nat.add_succ_r. auto.
  - intros w' c' s' e F. apply HX. rewrite <- Et. eapply er_failed_fail; eauto.
Qed.

Lemma lpoints_split w c l t k : wfc w c -> lpoints c l t k ->
  exists l1 n l2, c_nodes c = l1 ++ n :: l2 /\ n_ty n = t /\ k <= nsz n /\ li_map l = n_id n /\
    pos_at (nb n) (li_pos l) k /\ offset (content c) t = tot l1.
Proof.
  intros W (n & Hin & Et & Em & Hp & Hk). destruct (in_split_node _ _ Hin) as (l1 & l2 & En).
  exists l1, n, l2. csplit; auto. rewrite content_nodes, En, <- Et.
  apply offset_nodes. rewrite <- En. apply W.
Qed.

Lemma lpoints_mid c l1 n l2 k : c_nodes c = l1 ++ n :: l2 -> k <= nsz n ->
  lpoints c (mkliter (n_id n) (PBase (be_ptr (nb n) k))) (n_ty n) k.
Proof.
  intros En Hk. exists n. csplit; auto. rewrite En. apply in_or_app; right; left; auto.
Qed.

Lemma wp_c_erase_local pos t k c w R K (Q : CW -> liter -> Prop) (X : CW -> exn -> Prop) :
  let g := offset (content c) t + k in
  wfc w c -> cown w c R K -> lpoints c pos t k -> k < length (elems c t) ->
  (forall w' c' it, wfc w' c' -> cown w' c' R K -> wle w w' -> erased c c' g (S g) -> lpoints c' it t k ->
     c_al c' = c_al c -> Q (c', w') it) ->
  (forall w' c' e, erase_fail w c R K w' c' true t e -> X (c', w') e) ->
  wp (c_erase_local pos) (c, w) Q X.
Proof.
  intros g W H Hp Hk HQ HX. destruct (lpoints_split _ _ _ _ _ W Hp) as (l1 & n & l2 & En & Et & _ & Em & Pa & Eo).
  assert (Hin : In n (c_nodes c)) by (rewrite En; apply in_or_app; right; left; auto).
  rewrite <- Et, (elems_node _ _ _ (wc_map _ _ W) Hin) in Hk.
  unfold c_erase_local. rewrite Em. apply wp_bind.
  eapply (wp_er _ true k (S k) l1 n l2 c w R K); auto.
  - apply op_erase; auto.
  - intros w' c' s' D. assert (Er := er_did_erased _ _ _ _ _ _ _ _ _ _ _ _ W En (Nat.le_succ_diag_r k) Hk D).
    destruct D as (-> & Nr & W' & H' & L). set (n' := mknode (n_id n) (n_key n) s') in *.
    apply wp_ret. apply HQ; auto; unfold g; try (rewrite Eo; rewrite <- Nat.add_succ_r; auto).
    change (n_id n) with (n_id n'). change s' with (n_seg n').
    replace t with (n_ty n') by (rewrite <- Et; apply Nr).
    eapply (lpoints_mid _ l1 n' l2); eauto.
    assert (A := er_node_size _ _ _ _ Nr).
    assert (Hk' : k < nsz n) by exact Hk. lia.
  - intros w' c' s' e F. apply HX. rewrite <- Et. eapply er_failed_fail; eauto.
Qed.

Lemma wp_c_erase_local_range f0 l0 t f l c w R K (Q : CW -> liter -> Prop) (X : CW -> exn -> Prop) :
  let g := offset (content c) t in
  wfc w c -> cown w c R K -> lpoints c f0 t f -> lpoints c l0 t l -> f <= l ->
  (forall w' c' it, wfc w' c' -> cown w' c' R K -> wle w w' -> erased c c' (g + f) (g + l) -> lpoints c' it t f ->
     c_al c' = c_al c -> Q (c', w') it) ->
  (forall w' c' e, erase_fail w c R K w' c' false t e -> X (c', w') e) ->
  wp (c_erase_local_range f0 l0) (c, w) Q X.
Proof.
  intros g W H Hp Hq Hfl HQ HX.
  destruct (lpoints_split _ _ _ _ _ W Hp) as (l1 & n & l2 & En & Et & Hf & Em & Pa & Eo).
  destruct (lpoints_node _ _ _ _ Hq (wm_ids _ _ (wc_map _ _ W))) as (m & Hinm & Hatm & Enm & Etm & Pam & Hl).
  assert (Hin : In n (c_nodes c)) by (rewrite En; apply in_or_app; right; left; auto).
  assert (m = n).
  { assert (A : find (fun x => sg_ty (n_seg x) =? n_ty m) (c_nodes c) = Some m) by (apply find_ty_in; auto; apply W).
    assert (B : find (fun x => sg_ty (n_seg x) =? n_ty n) (c_nodes c) = Some n) by (apply find_ty_in; auto; apply W).
    rewrite Etm in A. rewrite Et in B. congruence. }
  subst m. unfold c_erase_local_range. rewrite Em, <- Enm, Nat.eqb_refl. apply wp_bind.
  eapply (wp_er _ false f l l1 n l2 c w R K); auto.
  - apply op_erase_range; auto.
  - intros w' c' s' D. assert (Er := er_did_erased _ _ _ _ _ _ _ _ _ _ _ _ W En Hfl Hl D).
    destruct D as (-> & Nr & W' & H' & L). set (n' := mknode (n_id n) (n_key n) s') in *.
    apply wp_ret. apply HQ; auto; unfold g; try (rewrite Eo; auto).
    change (n_id n) with (n_id n'). change s' with (n_seg n').
    replace t with (n_ty n') by (rewrite <- Et; apply Nr).
    eapply (lpoints_mid _ l1 n' l2); eauto.
    assert (A := er_node_size _ _ _ _ Nr). lia.
  - intros w' c' s' e F. apply HX. rewrite <- Et. eapply er_failed_fail; eauto.
Qed.

(** ** erase(first,last) *)

Lemma clear_until_each (mid post : NL) lseg : ~ In lseg (map (fun n => Some (n_id n)) mid) ->
  lseg = (match post with [] => None | n :: _ => Some (n_id n) end) ->
  forall s : CW, clear_until (map n_id (mid ++ post)) lseg s = for_each_node (map n_id mid) seg_clear s.
Proof.
  induction mid as [|n mid IH]; intros Hn Hl s.
  - destruct post as [|m post]; subst lseg; simpl; auto. rewrite Nat.eqb_refl. auto.
  - cbn [map app clear_until for_each_node].
    assert (Ne : mapit_eqb (Some (n_id n)) lseg = false).
    { destruct lseg as [j|]; auto. simpl. apply Nat.eqb_neq. intros Eq. apply Hn. left. congruence. }
    rewrite Ne. unfold bind. destruct (on_seg (n_id n) seg_clear s); auto.
    apply IH; auto. intros C. apply Hn. right. auto.
Qed.

Lemma remove_spans {A} (a b m d e : list A) f l : f <= length b -> l <= length d ->
  remove_range (length a + f) (length a + length b + length m + l) (a ++ b ++ m ++ d ++ e) =
  a ++ firstn f b ++ skipn l d ++ e.
Proof.
  intros Hf Hl. unfold remove_range. rewrite firstn_app_2, firstn_app.
  replace (f - length b) with 0 by lia. simpl. rewrite app_nil_r, <- app_assoc. f_equal. f_equal.
  rewrite !app_assoc. rewrite <- (app_assoc _ d e). rewrite skipn_app, skipn_all2.
  - rewrite !app_length. simpl. replace (length a + length b + length m + l - (length a + length b + length m)) with l by lia.
    rewrite skipn_app. replace (l - length d) with 0 by lia. auto.
  - rewrite !app_length. lia.
Qed.
Lemma remove_tail {A} (a b m : list A) f : f <= length b ->
  remove_range (length a + f) (length a + length b + length m) (a ++ b ++ m) = a ++ firstn f b.
Proof.
  intros Hf. unfold remove_range. rewrite firstn_app_2, firstn_app.
  replace (f - length b) with 0 by lia. simpl. rewrite app_nil_r.
  rewrite skipn_all2; [rewrite app_nil_r; auto|]. rewrite !app_length. lia.
Qed.

Lemma remove_till {A} f (l : list A) : remove_range f (length l) l = firstn f l.
Proof. unfold remove_range. rewrite skipn_all, app_nil_r. auto. Qed.

Lemma cleared_flat (mid mid' : NL) : Forall2 (nrel clr_rel) mid mid' -> nflat mid' = [].
Proof.
  induction 1 as [|n n' l l' Hr F IH]; auto. rewrite nflat_cons, IH.
  destruct Hr as (_ & _ & _ & _ & _ & (Ee & _)). unfold n_elems. rewrite Ee. auto.
Qed.
Lemma cleared_er (mid mid' : NL) : Forall2 (nrel clr_rel) mid mid' ->
  Forall2 (nrel (fun s s' => exists f l, er_rel f l s s')) mid mid'.
Proof.
  induction 1 as [|n n' l l' Hr F IH]; constructor; auto.
  destruct Hr as (A1 & A2 & A3 & A4 & A5 & (B1 & B2 & B3 & B4)). unfold nrel. csplit; auto.
  exists 0, (bsize (nb n)). unfold er_rel. csplit; auto. rewrite B1.
  unfold bsize, vsize. fold (belems (nb n)). rewrite remove_till. auto.
Qed.

Lemma split_two (ns l1 l2 l1' l2' : NL) n m : NoDup (map n_id ns) ->
  ns = l1 ++ n :: l2 -> ns = l1' ++ m :: l2' -> n <> m ->
  (exists mid, l2 = mid ++ m :: l2' /\ l1' = l1 ++ n :: mid) \/
  (exists mid, l2' = mid ++ n :: l2 /\ l1 = l1' ++ m :: mid).
Proof.
  intros ND E1 E2 Ne. subst ns. revert l1' E2. induction l1 as [|x l1 IH]; intros l1' E2.
  - destruct l1' as [|y l1']; simpl in E2; inversion E2; subst; [congruence|]. left. exists l1'. auto.
  - destruct l1' as [|y l1']; simpl in E2; inversion E2; subst.
    + right. exists l1. auto.
    + inversion ND; subst. destruct (IH H3 l1' H1) as [(mid & -> & ->)|(mid & -> & ->)]; [left|right]; exists mid; auto.
Qed.

Definition erase_range_fail w (c : coll V) R K w' (c' : coll V) (last : iter) g e : Prop :=
  wfc w' c' /\ cown w' c' R K /\ wle w w' /\ types c' = types c /\ c_al c' = c_al c /\
  length (flat c') <= length (flat c) /\
  e = UserExn /\ faulted w w' /\
  (exists t, elems c t <> [] /\ env_assignable t = true /\ env_nt_assign t = false) /\
  (exists t k w1 c1, points c last t k /\ wle w w1 /\ wfc w1 c1 /\ erased c c1 g (Nat.max g (offset (content c) t)) /\
     c_al c1 = c_al c /\ erase_fail w1 c1 R K w' c' false t e).

Lemma all_er_types (l l' : NL) : Forall2 (nrel (fun s s' => exists f l, er_rel f l s s')) l l' -> map n_ty l' = map n_ty l.
Proof. apply nrel_types. Qed.

Lemma wp_c_erase_range first last g h c w R K (Q : CW -> iter -> Prop) (X : CW -> exn -> Prop) :
  wfc w c -> cown w c R K -> located c first g -> located c last h -> g <= h ->
  (forall w' c' it, wfc w' c' -> cown w' c' R K -> wle w w' -> erased c c' g h -> located c' it g ->
     c_al c' = c_al c -> Q (c', w') it) ->
  (forall w' c' e, erase_range_fail w c R K w' c' last g e -> X (c', w') e) ->
  wp (c_erase_range first last) (c, w) Q X.
Proof.
  intros W H Lf Ll Hgh HQ HX. assert (Vo := wfc_vok _ _ _ _ W H).
  assert (Lf' := Lf). assert (Ll' := Ll).
  rewrite (located_at _ _ _ _ _ _ W H) in Lf'. destruct Lf' as [Ef Hg].
  rewrite (located_at _ _ _ _ _ _ W H) in Ll'. destruct Ll' as [El Hh].
  assert (ND := vok_ids _ Vo).
  assert (Same : g = h -> erased c c g h).
  { intros <-. unfold erased. csplit; auto.
    - unfold remove_range. symmetry. apply firstn_skipn.
    - apply (nrel_refl w c); auto. apply incl_refl. }
  assert (SelfFin : g = h -> forall it, located c it g -> Q (c, w) it).
  { intros Eq it Li. apply HQ; auto using wle_refl. }
  destruct (Nat.eq_dec g (tot (c_nodes c))) as [Eg|Ng].
  { (* both at the end *)
    assert (h = g) by lia. subst h. rewrite Eg, at_end in Ef, El. subst first last.
    unfold c_erase_range. simpl. unfold it_eq. simpl. eapply wp_mk_iter; [reflexivity|]. auto. }
  destruct (at_split (c_nodes c) g) as (l1 & n & l2 & k & En & Hk & Egk & Ea); [lia|].
  rewrite Ea in Ef. subst first. unfold c_erase_range. cbn [it_map it_pos].
  assert (Hin : In n (c_nodes c)) by (rewrite En; apply in_or_app; right; left; auto).
  assert (Hat : node_at (c_nodes c) (n_id n) = Some n) by (apply node_at_some; auto).
  assert (Ws := wfc_seg _ _ _ W Hin).
  destruct (Nat.eq_dec h (tot (c_nodes c))) as [Eh|Nh].
  - (* up to the end *)
    rewrite Eh, at_end in El. subst last. cbn [it_map mapit_eqb negb].
    apply wp_bind. eapply wp_on_seg; [exact Hat|].
    eapply wp_mono; [eapply (op_erase_till_end (n_seg n) _ k w (Rc c (n_id n) R) (Kc c (n_id n) K)); auto; [left; auto|lia|eapply cown_seg_id; eauto]| |intros ? ? []].
    intros [s' w1] p. cbn [fst snd]. intros (Rl & _ & Ws' & Et & Eal & Ho & L1).
    set (n' := mknode (n_id n) (n_key n) s').
    assert (W1 : wfc w1 (upd_seg c (n_id n) s')) by (eapply wfc_upd; eauto).
    assert (H1 : cown w1 (upd_seg c (n_id n) s') R K) by (eapply cown_seg; eauto).
    assert (Eu := upd_split c l1 n l2 s' ND En). fold n' in Eu. rewrite Eu in *.
    apply wp_bind, wp_getx. cbn [fst]. unfold set_nodes at 1. cbn [c_nodes].
    change (n_id n) with (n_id n'). rewrite nodes_from_split by (apply (wm_ids _ _ (wc_map _ _ W1))).
    apply wp_bind. unfold wp at 1.
    assert (Ecl : clear_until (map n_id l2) None (set_nodes c (l1 ++ n' :: l2), w1) =
                  for_each_node (map n_id l2) seg_clear (set_nodes c (l1 ++ n' :: l2), w1)).
    { rewrite <- (app_nil_r l2) at 1. apply clear_until_each; auto.
      intros C. apply in_map_iff in C. destruct C as (? & ? & ?). discriminate. }
    rewrite Ecl.
    eapply (wp_for_each seg_clear clr_rel (fun _ _ _ _ _ => False) R K op_clear ltac:(auto) l2 (l1 ++ [n']) []); auto.
    + simpl. rewrite app_nil_r, <- app_assoc. auto.
    + intros w2 mid' F. rewrite app_nil_r, <- app_assoc. simpl. intros W2 H2 L2.
      apply wp_bind, wp_getx. apply wp_ret. cbn [fst].
      assert (Fl : nflat (l1 ++ n' :: mid') = remove_range g h (nflat (c_nodes c))).
      { rewrite nflat_app, nflat_cons, (cleared_flat _ _ F), app_nil_r. rewrite En, nflat_app, nflat_cons.
        rewrite Egk, Eh, En, tot_app, tot_cons.
        replace (tot l1 + (nsz n + tot l2)) with (length (nflat l1) + length (map (pair (n_ty n)) (n_elems n)) + length (nflat l2)).
        - rewrite <- (nflat_length l1). rewrite remove_tail.
          + f_equal. unfold n_elems, n_ty. simpl. destruct Rl as (Ee & _). rewrite Ee, Et.
            unfold bsize, vsize. fold (belems (nb n)). rewrite remove_till, firstn_map. auto.
          + rewrite map_length, n_elems_length. lia.
        - rewrite !nflat_length, map_length, n_elems_length. lia. }
      apply HQ; auto; try wle_tac.
      * unfold erased. csplit.
        -- rewrite !types_nodes. simpl. rewrite En, !map_app. simpl. rewrite (nrel_types _ _ _ F).
           f_equal. f_equal. exact Et.
        -- rewrite !flat_nodes. exact Fl.
        -- simpl. rewrite En. apply Forall2_app; [|constructor].
           ++ apply (nrel_refl w c); auto. rewrite En. intros x Hx. apply in_or_app. auto.
           ++ unfold nrel, n'. simpl. csplit; auto. eauto.
           ++ apply cleared_er; auto.
      * eapply located_at; eauto.
        assert (T1 : tot (l1 ++ n' :: mid') = g).
        { rewrite <- nflat_length, Fl, remove_range_length; rewrite ?nflat_length; lia. }
        simpl. split; [|lia]. unfold c_end. rewrite <- T1. symmetry. apply at_end.
    + intros w' mid' e (m1 & x & m2 & m1' & x' & _ & _ & _ & _ & _ & _ & F). destruct F.
  - destruct (at_split (c_nodes c) h) as (l1' & m & l2' & j & Em & Hj & Ehj & Ea'); [lia|].
    rewrite Ea' in El. subst last. cbn [it_map it_pos].
    assert (Hinm : In m (c_nodes c)) by (rewrite Em; apply in_or_app; right; left; auto).
    destruct (Nat.eq_dec (n_id n) (n_id m)) as [Ei|Ni].
    + (* the same segment *)
      assert (m = n).
      { assert (A : node_at (c_nodes c) (n_id m) = Some m) by (apply node_at_some; auto).
        rewrite <- Ei in A. congruence. }
      subst m. destruct (split_unique (c_nodes c) l1 n l2 l1' l2') as [<- <-]; auto.
      simpl. rewrite Nat.eqb_refl. simpl.
      assert (Eq : it_eq (mkiter (Some (n_id n)) (be_ptr (nb n) k)) (mkiter (Some (n_id n)) (be_ptr (nb n) j)) = (k =? j)).
      { rewrite <- Ea, <- Ea'. rewrite it_eq_at; auto; try lia. rewrite Egk, Ehj.
        destruct (Nat.eqb_spec k j); destruct (Nat.eqb_spec (tot l1 + k) (tot l1 + j)); auto; lia. }
      rewrite Eq. destruct (Nat.eqb_spec k j) as [Ekj|Nkj].
      * eapply (wp_mk_iter_at _ _ _ _ l1 n l2); eauto; try lia.
        intros it Li. apply SelfFin; try lia. rewrite Egk. auto.
      * apply wp_bind. eapply (wp_er _ false k j l1 n l2 c w R K); auto.
        -- apply op_erase_range; try (left; reflexivity); lia.
        -- intros w' c' s' D. assert (Hkj : k <= j) by lia. assert (Hjn : j <= nsz n) by lia.
           assert (Er := er_did_erased _ _ _ _ _ _ _ _ _ _ _ _ W En Hkj Hjn D).
           destruct D as (-> & Nr & W' & H' & L). set (n' := mknode (n_id n) (n_key n) s') in *.
           change (n_id n) with (n_id n'). change s' with (n_seg n').
           eapply (wp_mk_iter_at _ _ _ _ l1 n' l2); eauto.
           ++ assert (A := er_node_size _ _ _ _ Nr). lia.
           ++ intros it Li. apply HQ; auto; rewrite Egk; auto. rewrite Ehj. auto.
        -- intros w' c' s' e F. apply HX.
           destruct (er_failed_fail _ _ _ _ _ _ _ _ _ _ _ _ _ _ W En F) as (B1 & B2 & B3 & B4 & B5 & Bi & B6 & B7 & B8 & B9 & B10 & B11 & B12 & B13).
           unfold erase_range_fail. csplit; auto.
           ++ destruct F as (-> & (_ & _ & _ & _ & _ & Fs & _) & _).
              rewrite !flat_length. simpl. rewrite En, !tot_app, !tot_cons. simpl. rewrite Fs. auto.
           ++ exists (n_ty n). csplit; auto. intros Q0. rewrite Q0 in B13. simpl in B13. lia.
           ++ exists (n_ty n), j, w, c. csplit; auto using wle_refl.
              ** exists n. csplit; auto.
              ** assert (Eo : offset (content c) (n_ty n) = tot l1).
                 { rewrite content_nodes, En. apply offset_nodes. rewrite <- En. apply W. }
                 rewrite Eo, Nat.max_l by lia. unfold erased. csplit; auto.
                 --- unfold remove_range. symmetry. apply firstn_skipn.
                 --- apply (nrel_refl w c); auto. apply incl_refl.
              ** eapply er_failed_fail; eauto.
    + (* several segments *)
      assert (Ne : n <> m) by congruence.
      destruct (split_two _ _ _ _ _ _ _ ND En Em Ne) as [(mid & E2 & E1')|(mid & E2 & E1')].
      2:{ exfalso. subst l1. rewrite tot_app, tot_cons in Egk. lia. }
      subst l2 l1'.
      assert (Neb : mapit_eqb (Some (n_id n)) (Some (n_id m)) = false) by (simpl; apply Nat.eqb_neq; auto).
      rewrite Neb. cbn [negb].
      apply wp_bind. eapply wp_on_seg; [exact Hat|].
      eapply wp_mono; [eapply (op_erase_till_end (n_seg n) _ k w (Rc c (n_id n) R) (Kc c (n_id n) K)); auto; [left; auto|lia|eapply cown_seg_id; eauto]| |intros ? ? []].
      intros [s' w1] p. cbn [fst snd]. intros (Rl & _ & Ws' & Et & Eal & Ho & L1).
      set (n' := mknode (n_id n) (n_key n) s').
      assert (W1 : wfc w1 (upd_seg c (n_id n) s')) by (eapply wfc_upd; eauto).
      assert (H1 : cown w1 (upd_seg c (n_id n) s') R K) by (eapply cown_seg; eauto).
      assert (Eu := upd_split c l1 n (mid ++ m :: l2') s' ND En). fold n' in Eu. rewrite Eu in *.
      apply wp_bind, wp_getx. cbn [fst]. unfold set_nodes at 1. cbn [c_nodes].
      change (n_id n) with (n_id n'). rewrite nodes_from_split by (apply (wm_ids _ _ (wc_map _ _ W1))).
      apply wp_bind. unfold wp at 1.
      rewrite (clear_until_each mid (m :: l2')); auto.
      2:{ intros C. apply in_map_iff in C. destruct C as (x & Ex & Hx). inversion Ex as [Ex'].
          rewrite Em in ND. rewrite map_app in ND. simpl in ND. apply NoDup_remove_2 in ND. apply ND.
          apply in_or_app. left. rewrite map_app. apply in_or_app. right. right. rewrite <- Ex'. apply in_map; auto. }
      eapply (wp_for_each seg_clear clr_rel (fun _ _ _ _ _ => False) R K op_clear ltac:(auto) mid (l1 ++ [n']) (m :: l2')); auto.
      * simpl. rewrite <- app_assoc. auto.
      * intros w2 mid' F. rewrite <- app_assoc. simpl. intros W2 H2 L2.
        set (c2 := set_nodes c (l1 ++ n' :: mid' ++ m :: l2')) in *.
        assert (E2 : c_nodes c2 = (l1 ++ n' :: mid') ++ m :: l2') by (simpl; rewrite <- app_assoc; auto).
        apply wp_bind. eapply (wp_er _ false 0 j (l1 ++ n' :: mid') m l2' c2 w2 R K); auto.
        -- apply op_erase_from_begin; try (left; reflexivity); lia.
        -- intros w3 c3 sm D. assert (D' := D). destruct D' as (E3 & Nr & W3 & H3 & L3).
           set (m' := mknode (n_id m) (n_key m) sm) in *.
           assert (E3' : c_nodes c3 = (l1 ++ n' :: mid') ++ m' :: l2') by (rewrite E3; auto).
           change (n_id m) with (n_id m'). change sm with (n_seg m').
           assert (Rm := Nr). destruct Rm as (_ & _ & Etm & _ & _ & Rm).
           assert (T1 : tot (l1 ++ n' :: mid') = g).
           { rewrite tot_app, tot_cons. assert (T2 : tot mid' = 0) by (rewrite <- nflat_length, (cleared_flat _ _ F); auto).
             assert (A := er_rel_size _ _ _ _ Rl ltac:(lia) (le_n _)). unfold n'. simpl n_seg. lia. }
           eapply (wp_mk_iter_at _ _ _ _ (l1 ++ n' :: mid') m' l2'); eauto; [lia|].
           intros it Li. rewrite T1, Nat.add_0_r in Li.
           apply HQ; auto; try wle_tac.
           ++ unfold erased. csplit.
              ** rewrite !types_nodes, E3', En, !map_app. simpl. rewrite !map_app. simpl. rewrite (nrel_types _ _ _ F).
                 rewrite <- app_assoc. simpl. f_equal. f_equal; [exact Et|]. f_equal. f_equal. exact Etm.
              ** rewrite !flat_nodes, E3', En, !nflat_app, !nflat_cons, !nflat_app, (cleared_flat _ _ F), app_nil_r.
                 rewrite Egk, Ehj. rewrite !tot_app, !tot_cons.
                 replace (tot l1 + (nsz n + tot mid) + j) with (length (nflat l1) + length (map (pair (n_ty n)) (n_elems n)) + length (nflat mid) + j)
                   by (rewrite !nflat_length, map_length, n_elems_length; lia).
                 rewrite <- (nflat_length l1), nflat_cons, remove_spans.
                 --- rewrite <- app_assoc. f_equal. f_equal; [|f_equal].
                     +++ unfold n_elems, n_ty. simpl. destruct Rl as (Ee & _). rewrite Ee, Et.
                         unfold bsize, vsize. fold (belems (nb n)). rewrite remove_till, firstn_map. auto.
                     +++ unfold n_elems, n_ty. simpl. destruct Rm as (Ee & _). simpl in Ee, Etm. rewrite Ee, Etm.
                         unfold remove_range. simpl. rewrite skipn_map. auto.
                 --- rewrite map_length, n_elems_length. lia.
                 --- rewrite map_length, n_elems_length. lia.
              ** rewrite E3', En, <- app_assoc. apply Forall2_app; [|constructor].
                 --- apply (nrel_refl w c); auto. rewrite En. intros x Hx. apply in_or_app. auto.
                 --- unfold nrel, n'. simpl. csplit; auto. eauto.
                 --- apply Forall2_app; [apply cleared_er; auto|constructor].
                     +++ destruct Nr as (A1 & A2 & A3 & A4 & A5 & A6). unfold nrel. csplit; auto. eauto.
                     +++ apply (nrel_refl w c); auto. rewrite En. intros x Hx. apply in_or_app. right. right. apply in_or_app. right. right. auto.
           ++ rewrite E3. auto.
        -- intros w3 c3 sm e Fx. apply HX.
           destruct (er_failed_fail _ _ _ _ _ _ _ _ _ _ _ _ _ _ W2 E2 Fx) as (B1 & B2 & B3 & B4 & B5 & Bi & B6 & B7 & B8 & B9 & B10 & B11 & B12 & B13).
           unfold erase_range_fail. csplit; auto; try wle_tac.
           ++ rewrite B4, !types_nodes. simpl. rewrite En, !map_app. simpl. rewrite !map_app. simpl. rewrite (nrel_types _ _ _ F).
              f_equal. f_equal. exact Et.
           ++ destruct Fx as (-> & (_ & _ & _ & _ & _ & Fs & _) & _).
              rewrite !flat_length. simpl. rewrite En. repeat (rewrite ?tot_app, ?tot_cons). simpl. rewrite Fs.
              assert (T2 : tot mid' = 0) by (rewrite <- nflat_length, (cleared_flat _ _ F); auto).
              assert (A := er_rel_size _ _ _ _ Rl ltac:(lia) (le_n _)). unfold n'. simpl n_seg. lia.
           ++ eapply faulted_mono; [|exact B8|apply wle_refl]. wle_tac.
           ++ exists (n_ty m). csplit; auto. destruct Fx as (_ & (Fl & _) & _). intros Q0.
              rewrite (elems_node _ _ _ (wc_map _ _ W) Hinm) in Q0.
              apply (f_equal (@length _)) in Q0. rewrite n_elems_length in Q0. simpl in Q0. lia.
           ++ exists (n_ty m), j, w2, c2. csplit; auto; try wle_tac.
              ** exists m. csplit; auto.
              ** assert (Eo : offset (content c) (n_ty m) = tot (l1 ++ n :: mid)).
                 { rewrite content_nodes, Em. apply offset_nodes. rewrite <- Em. apply W. }
                 rewrite Eo, Nat.max_r by (rewrite tot_app, tot_cons; lia).
                 unfold erased. csplit.
                 --- rewrite !types_nodes, E2, En, !map_app. simpl. rewrite !map_app. simpl. rewrite (nrel_types _ _ _ F).
                     rewrite <- app_assoc. simpl. f_equal. f_equal. exact Et.
                 --- rewrite !flat_nodes, E2, En, !nflat_app, !nflat_cons, !nflat_app, (cleared_flat _ _ F), app_nil_r.
                     rewrite Egk. rewrite !tot_app, !tot_cons.
                     replace (tot l1 + (nsz n + tot mid)) with (length (nflat l1) + length (map (pair (n_ty n)) (n_elems n)) + length (nflat mid) + 0)
                       by (rewrite !nflat_length, map_length, n_elems_length; lia).
                     rewrite <- (nflat_length l1), nflat_cons, remove_spans.
                     +++ rewrite <- app_assoc. f_equal. f_equal.
                         unfold n_elems at 1, n_ty at 1. simpl. destruct Rl as (Ee & _). rewrite Ee, Et.
                         unfold bsize, vsize. fold (belems (nb n)). rewrite remove_till, firstn_map. auto.
                     +++ rewrite map_length, n_elems_length. lia.
                     +++ lia.
                 --- rewrite E2, En, <- app_assoc. apply Forall2_app; [|constructor].
                     +++ apply (nrel_refl w c); auto. rewrite En. intros x Hx. apply in_or_app. auto.
                     +++ unfold nrel, n'. simpl. csplit; auto. eauto.
                     +++ apply Forall2_app; [apply cleared_er; auto|].
                         apply (nrel_refl w c); auto. rewrite Em. intros x Hx. apply in_or_app. right. auto.
              ** eapply er_failed_fail; eauto.
      * intros w' mid' e (m1 & x & m2 & m1' & x' & _ & _ & _ & _ & _ & _ & F). destruct F.
Qed.

End PErase.
