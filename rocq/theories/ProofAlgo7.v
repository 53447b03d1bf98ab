(** * Independence of restitution, references and segments of a range *)

From Coq Require Import List Arith Lia Bool Permutation.
From Verif Require Import Base Vec Backend Segment Coll StdAlg Algo Spec SpecAlg ProofBase ProofVec ProofBackend ProofOps ProofOps2 ProofSeg ProofMap ProofView ProofAlgo ProofAlgo2 ProofAlgo3 ProofAlgo4 ProofAlgo5 ProofAlgo6 ProofColl.
Import ListNotations.

Section Map.
Context {S A X Y : Type} (f h : A -> X).
Implicit Types (p : X -> M S bool) (l : list A).
Notation eqo m m' := (same_as m m' eq).

Lemma ext_find_if_not p l : (forall a, p (f a) = p (h a)) -> eqo (std_find_if_not p (map f l)) (std_find_if_not p (map h l)).
Proof.
  intros H. induction l as [|a l IH]; cbn [map std_find_if_not]; [apply same_eq|]. rewrite H. apply same_bind_eq. intros [|]; [|apply same_eq].
  eapply same_bind; [exact IH|]. intros k k' ->. apply same_eq.
Qed.
Lemma ext_any_of2 (p : X -> Y -> M S bool) a ys : (forall y, p (f a) y = p (h a) y) -> eqo (std_any_of2 p (f a) ys) (std_any_of2 p (h a) ys).
Proof. intros H. induction ys as [|y ys IH]; cbn [std_any_of2]; [apply same_eq|]. rewrite H. apply same_bind_eq. intros [|]; [apply same_eq|exact IH]. Qed.
Lemma ext_find_first_of (p : X -> Y -> M S bool) ys l : (forall a y, p (f a) y = p (h a) y) ->
  eqo (std_find_first_of p ys (map f l)) (std_find_first_of p ys (map h l)).
Proof.
  intros H. induction l as [|a l IH]; cbn [map std_find_first_of]; [apply same_eq|].
  eapply same_bind; [apply ext_any_of2; auto|]. intros b b' ->. destruct b'; [apply same_eq|].
  eapply same_bind; [exact IH|]. intros k k' ->. apply same_eq.
Qed.
Lemma ext_adjacent_find (p : X -> X -> M S bool) l : (forall a b, p (f a) (f b) = p (h a) (h b)) ->
  eqo (std_adjacent_find p (map f l)) (std_adjacent_find p (map h l)).
Proof.
  intros H. induction l as [|a l IH]; [apply same_eq|]. destruct l as [|b l]; [apply same_eq|].
  change (eqo (r <- p (f a) (f b) ;; if r then ret 0 else k <- std_adjacent_find p (map f (b :: l)) ;; ret (1 + k))
              (r <- p (h a) (h b) ;; if r then ret 0 else k <- std_adjacent_find p (map h (b :: l)) ;; ret (1 + k))).
  rewrite H. apply same_bind_eq. intros [|]; [apply same_eq|]. eapply same_bind; [exact IH|]. intros k k' ->. apply same_eq.
Qed.
Lemma ext_mismatch (p : X -> Y -> M S bool) l ys : (forall a y, p (f a) y = p (h a) y) -> eqo (std_mismatch p (map f l) ys) (std_mismatch p (map h l) ys).
Proof.
  intros H. revert ys. induction l as [|a l IH]; intros [|y ys]; cbn [map std_mismatch]; try apply same_eq. rewrite H.
  apply same_bind_eq. intros [|]; [|apply same_eq]. eapply same_bind; [apply IH|]. intros k k' ->. apply same_eq.
Qed.
Lemma ext_equal (p : X -> Y -> M S bool) l ys : (forall a y, p (f a) y = p (h a) y) -> eqo (std_equal p (map f l) ys) (std_equal p (map h l) ys).
Proof.
  intros H. revert ys. induction l as [|a l IH]; intros [|y ys]; cbn [map std_equal]; try apply same_eq. rewrite H.
  apply same_bind_eq. intros [|]; [apply IH|apply same_eq].
Qed.
Lemma ext_transform2 {O} (op : X -> Y -> M S O) put l ys o : (forall a y, op (f a) y = op (h a) y) ->
  eqo (std_transform2 op put (map f l) ys o) (std_transform2 op put (map h l) ys o).
Proof.
  intros H. revert ys o. induction l as [|a l IH]; intros [|y ys] o; cbn [map std_transform2]; try apply same_eq. rewrite H. apply same_bind_eq. intros x.
  apply same_bind_eq. intros _. apply IH.
Qed.
Lemma ext_copy put l o : (forall o a, put o (f a) = put o (h a)) -> eqo (std_copy (S := S) put (map f l) o) (std_copy put (map h l) o).
Proof.
  intros Hp. revert o. induction l as [|a l IH]; intros o; cbn [map std_copy]; [apply same_eq|]. rewrite Hp. apply same_bind_eq. intros _. apply IH.
Qed.
Lemma ext_rotate_copy put m l o : (forall o a, put o (f a) = put o (h a)) -> eqo (std_rotate_copy (S := S) put m (map f l) o) (std_rotate_copy put m (map h l) o).
Proof. intros Hp. unfold std_rotate_copy. rewrite !skipn_map, !firstn_map, <- !map_app. apply ext_copy; auto. Qed.
Lemma ext_replace_copy_if {N} p (new : N) put l o : (forall a, p (f a) = p (h a)) -> (forall o a, put o (inr (f a)) = put o (inr (h a))) ->
  eqo (std_replace_copy_if p new put (map f l) o) (std_replace_copy_if p new put (map h l) o).
Proof.
  intros H Hp. revert o. induction l as [|a l IH]; intros o; cbn [map std_replace_copy_if]; [apply same_eq|]. rewrite H. apply same_bind_eq.
  intros [|]; [|rewrite Hp]; apply same_bind_eq; intros _; apply IH.
Qed.
Lemma ext_remove_copy_if p put l o : (forall a, p (f a) = p (h a)) -> (forall o a, put o (f a) = put o (h a)) ->
  eqo (std_remove_copy_if p put (map f l) o) (std_remove_copy_if p put (map h l) o).
Proof.
  intros H Hp. revert o. induction l as [|a l IH]; intros o; cbn [map std_remove_copy_if]; [apply same_eq|]. rewrite H. apply same_bind_eq. intros [|]; [apply IH|].
  rewrite Hp. apply same_bind_eq. intros _. apply IH.
Qed.
Lemma ext_unique_copy_after (p : X -> X -> M S bool) put l a o : (forall a b, p (f a) (f b) = p (h a) (h b)) -> (forall o a, put o (f a) = put o (h a)) ->
  eqo (std_unique_copy_after p put (f a) (map f l) o) (std_unique_copy_after p put (h a) (map h l) o).
Proof.
  intros H Hp. revert a o. induction l as [|b l IH]; intros a o; cbn [map std_unique_copy_after]; [apply same_eq|]. rewrite H. apply same_bind_eq. intros [|]; [apply IH|].
  rewrite Hp. apply same_bind_eq. intros _. apply IH.
Qed.
Lemma ext_unique_copy (p : X -> X -> M S bool) put l o : (forall a b, p (f a) (f b) = p (h a) (h b)) -> (forall o a, put o (f a) = put o (h a)) ->
  eqo (std_unique_copy p put (map f l) o) (std_unique_copy p put (map h l) o).
Proof.
  intros H Hp. destruct l as [|a l]; cbn [map std_unique_copy]; [apply same_eq|]. rewrite Hp. apply same_bind_eq. intros _. apply ext_unique_copy_after; auto.
Qed.
Lemma ext_select draw put n m l o : (forall o a, put o (f a) = put o (h a)) ->
  eqo (std_select (S := S) draw put n m (map f l) o) (std_select draw put n m (map h l) o).
Proof.
  intros Hp. revert n m o. induction l as [|a l IH]; intros n m o; cbn [map std_select]; [apply same_eq|]. destruct (n =? 0); [apply same_eq|].
  apply same_bind_eq. intros r. destruct (r <? n); [|apply IH]. rewrite Hp. apply same_bind_eq. intros _. apply IH.
Qed.
Lemma ext_sample draw put n l o : (forall o a, put o (f a) = put o (h a)) ->
  eqo (std_sample (S := S) draw put n (map f l) o) (std_sample draw put n (map h l) o).
Proof. intros Hp. unfold std_sample. rewrite !map_length. apply ext_select; auto. Qed.
Lemma ext_partition_copy p put1 put2 l o : (forall a, p (f a) = p (h a)) -> (forall o a, put1 o (f a) = put1 o (h a)) -> (forall o a, put2 o (f a) = put2 o (h a)) ->
  eqo (std_partition_copy p put1 put2 (map f l) o) (std_partition_copy p put1 put2 (map h l) o).
Proof.
  intros H H1 H2. revert o. induction l as [|a l IH]; intros o; cbn [map std_partition_copy]; [apply same_eq|]. rewrite H. apply same_bind_eq.
  intros [|]; [rewrite H1|rewrite H2]; apply same_bind_eq; intros _; apply IH.
Qed.
Lemma ext_is_partitioned p l : (forall a, p (f a) = p (h a)) -> eqo (std_is_partitioned p (map f l)) (std_is_partitioned p (map h l)).
Proof.
  intros H. unfold std_is_partitioned. eapply same_bind; [apply ext_find_if_not; auto|]. intros k k' ->.
  rewrite !skipn_map. apply ext_none_of; auto.
Qed.
End Map.

(** ** Results of computations without effects *)
Lemma yields_both {S A} (m m' : M S A) (P P' : A -> Prop) : yields m P -> yields m' P' -> (forall a b, P a -> P' b -> a = b) -> same_as m m' eq.
Proof. intros H H' F s. destruct (H s) as (a & -> & Pa). destruct (H' s) as (b & -> & Pb). auto. Qed.
Lemma foe_fun P n k k' : first_or_end P n k -> first_or_end P n k' -> k = k'.
Proof.
  intros [[A B]|[-> B]] [[A' B']|[-> B']]; auto.
  - apply B in A'. apply B' in A. lia.
  - elim (B' _ A).
  - elim (B _ A').
Qed.
Lemma foe_ext P P' n k : (forall k, P k <-> P' k) -> first_or_end P n k -> first_or_end P' n k.
Proof.
  intros H [[A B]|[-> B]]; [left|right]; split; auto.
  - apply H; auto.
  - intros k' Hk. apply B, H, Hk.
  - intros k' Hk. apply (B k'), H, Hk.
Qed.

Section Blind.
Context {V : Type} {E : Env V}.
Implicit Type c : coll V.
Lemma Forall2_map_l {A B C} (R : B -> C -> Prop) (g : A -> B) l ys : Forall2 R (map g l) ys <-> Forall2 (fun a y => R (g a) y) l ys.
Proof.
  revert ys. induction l as [|a l IH]; intros [|y ys]; simpl; split; intros H; inversion H; subst; constructor; auto; apply IH; auto.
Qed.
Lemma Forall2_weaken {A B} (R R' : A -> B -> Prop) l ys : (forall a b, R a b -> R' a b) -> Forall2 R l ys -> Forall2 R' l ys.
Proof. intros H F. induction F; constructor; auto. Qed.
Lemma occurs_blind {Y} (p : view V -> Y -> bool) ys c Ts Ts' i j k : (forall y, blind (fun x => p x y)) ->
  occurs p ys (views c Ts i j) k -> occurs p ys (views c Ts' i j) k.
Proof.
  intros Hb [L F]. unfold views in *. rewrite map_length in L. split; [rewrite map_length; auto|]. rewrite <- map_between in *.
  rewrite Forall2_map_l in *. eapply Forall2_weaken; [|exact F]. cbn beta. intros a y Q. rewrite <- Q. apply Hb.
Qed.
Lemma run_blind p n c Ts Ts' i j k : blind p -> run_of p n (views c Ts i j) k -> run_of p n (views c Ts' i j) k.
Proof.
  intros Hb [L F]. unfold views in *. rewrite map_length in L. split; [rewrite map_length; auto|]. rewrite <- map_between in *.
  rewrite Forall_map in *. eapply Forall_impl; [|exact F]. cbn beta. intros a Q. rewrite <- Q. apply Hb.
Qed.
Lemma permuted_blind {Y} (p : view V -> Y -> bool) ys c Ts Ts' i j : (forall y, blind (fun x => p x y)) ->
  permuted p (views c Ts i j) ys -> permuted p (views c Ts' i j) ys.
Proof.
  intros Hb (zs & P & F). exists zs. split; auto. unfold views in *. rewrite Forall2_map_l in *.
  eapply Forall2_weaken; [|exact F]. cbn beta. intros a y Q. rewrite <- Q. apply Hb.
Qed.

(** ** The references *)
Lemma nth_refs w c R K t k r : wfc w c -> cown w c R K -> In t (types c) -> k < length (elems c t) ->
  (nth_error (refs c) (offset (content c) t + k) = Some r <->
   r_ty r = t /\ nth_error (elems c t) k = Some (r_val r) /\ addr_of c t k = Some (r_addr r)).
Proof.
  intros W O Ht Hk. rewrite types_nodes in Ht. apply in_map_iff in Ht. destruct Ht as (n & <- & Hn).
  destruct (in_split_node _ _ Hn) as (l1 & l2 & En). assert (ND : NoDup (map n_ty (c_nodes c))) by apply W.
  assert (Eo : offset (content c) (n_ty n) = tot l1) by (rewrite content_nodes, En; apply offset_nodes; rewrite <- En; auto).
  rewrite Eo, refs_nodes, En, flat_map_app. rewrite (elems_node w c n (wc_map _ _ W) Hn) in *.
  rewrite nth_error_app2, flat_nrefs_length by (rewrite flat_nrefs_length; lia). replace (tot l1 + k - tot l1) with k by lia.
  cbn [flat_map]. rewrite nth_error_app1 by (rewrite nrefs_length; rewrite n_elems_length in Hk; auto). rewrite nrefs_nth.
  unfold addr_of. rewrite (seg_at_node c n ND Hn). unfold elems_of at 1. fold (elems_of (n_seg n)).
  change (elems_of (n_seg n)) with (n_elems n). destruct (Nat.ltb_spec k (length (n_elems n))); [|lia].
  destruct (nth_error (n_elems n) k) as [v|]; cbn [option_map]; split.
  - intros Q. injection Q as <-. auto.
  - destruct r as [t0 v0 a0]. cbn [r_ty r_val r_addr]. intros (Q1 & Q2 & Q3). injection Q2 as <-. injection Q3 as <-. subst t0. reflexivity.
  - discriminate.
  - intros (_ & Q & _). discriminate.
Qed.

(** ** The segments of a range *)
Lemma split_prefix ns stop first last ps : Forall (fun n => env_ty (n_key n) = n_ty n) ns -> split_from ns stop first last = Some ps ->
  exists ns', ns = map fst (combine ns ps) ++ ns' /\ map pc_ty ps = map n_ty (map fst (combine ns ps)).
Proof.
  intros F. revert ps. induction ns as [|n ns IH]; intros ps; cbn [split_from].
  - destruct stop; [discriminate|]. intros Q. injection Q as <-. exists []. auto.
  - inversion F as [|? ? Fn Fr]; subst. destruct (mapit_eqb _ _).
    + intros Q. injection Q as <-. exists (n :: ns). auto.
    + destruct (split_from ns stop first last) as [ps0|]; [|discriminate]. intros Q. injection Q as <-.
      destruct (IH Fr ps0 eq_refl) as (ns' & A & B). exists ns'. cbn [combine map fst app]. split; [congruence|].
      rewrite B. unfold split_info. cbn [pc_ty]. congruence.
Qed.
Lemma nodes_from_suffix (ns : list (node V)) i l : nodes_from ns i = Some l -> exists l1, ns = l1 ++ l.
Proof.
  induction ns as [|n ns IH]; cbn [nodes_from]; [discriminate|]. destruct (_ =? _).
  - intros Q. injection Q as <-. exists []. auto.
  - intros Q. destruct (IH Q) as (l1 & ->). exists (n :: l1). auto.
Qed.
Lemma split_types c first last ps : aok c -> segment_split c first last = Some ps ->
  exists l1 l2, types c = l1 ++ map pc_ty ps ++ l2.
Proof.
  intros W Q. unfold segment_split in Q. destruct (split_end c last) as [stop|]; [|discriminate].
  destruct (segs_from c first) as [ns|] eqn:Sf; [|discriminate].
  assert (exists l1, c_nodes c = l1 ++ ns) as (l1 & En).
  { unfold segs_from in Sf. destruct (it_map first) as [i|]; [eapply nodes_from_suffix; eauto|].
    injection Sf as <-. exists (c_nodes c). rewrite app_nil_r. auto. }
  destruct (split_prefix ns stop first last ps) as (ns' & A & B); auto.
  { apply Forall_forall. intros n Hn. apply (proj1 (Forall_forall _ _) (aok_key _ W)). rewrite En. apply in_or_app. auto. }
  exists (map n_ty l1), (map n_ty ns'). rewrite types_nodes, En, map_app. f_equal. rewrite B.
  rewrite <- (map_app n_ty (map fst (combine ns ps)) ns'). f_equal. exact A.
Qed.
Lemma cover_parts w c R K ps i j : wfc w c -> cown w c R K -> cover c ps i j ->
  exists parts, Forall2 (fun p '(t, a, b) => pc_ty p = t /\ a <= b /\
      lpoints c (mkliter (pc_id p) (PBase (pc_beg p))) t a /\ lpoints c (mkliter (pc_id p) (PBase (pc_end p))) t b) ps parts /\
    flat_map (fun '(t, a, b) => seq (offset (content c) t + a) (b - a)) parts = seq i (j - i).
Proof.
  intros W O C. induction C as [i|p ps i j k P C IH].
  - exists []. rewrite Nat.sub_diag. split; [constructor|auto].
  - destruct IH as (parts & F & Q). assert (Lj := cover_le _ _ _ _ C).
    destruct P as (l1 & n & l2 & a & b & En & -> & L & L' & -> & ->).
    assert (Hn : In n (c_nodes c)) by (rewrite En; apply in_or_app; right; left; auto).
    exists ((n_ty n, a, b) :: parts). split.
    + constructor; auto. cbn [pc_ty pc_id pc_beg pc_end]. csplit; auto; exists n; cbn [li_map li_pos]; csplit; auto;
        change (length (elems_of (n_seg n))) with (bsize (sg_be (n_seg n))); lia.
    + cbn [flat_map]. rewrite Q. rewrite content_nodes, En, offset_nodes by (rewrite <- En; apply W).
      replace (k - (tot l1 + a)) with ((b - a) + (k - (tot l1 + b))) by lia.
      rewrite seq_app. replace (tot l1 + a + (b - a)) with (tot l1 + b) by lia. reflexivity.
Qed.
End Blind.
