(** * Iterators and traversal: relating what the operations return to Spec.v *)

From Coq Require Import List Arith Lia Bool Permutation.
From Verif Require Import Base Vec Backend Segment Coll Spec ProofBase ProofVec ProofBackend ProofOps ProofOps2 ProofSeg ProofMap.
Import ListNotations.

Section PView.
Context {V : Type} {E : Env V}.

Notation NL := (list (node V)).
Notation CW := (coll V * world)%type.

(** ** One backend *)

(** The block base iterators point into. *)
Definition pblk (b : backend V) : nat :=
  match env_layout with
  | PackedLayout => v_blk (be_store b)
  | SplitLayout => v_blk (be_index b)
  end.
Lemma be_ptr_eq (b : backend V) k : be_ptr b k = (pblk b, k).
Proof. unfold be_ptr, pblk, pk_ptr, sp_ptr, vptr. destruct env_layout; auto. Qed.

Lemma pblk_in t (b : backend V) : wfb0 t b -> 0 < pblk b -> In (pblk b) (bblocks b).
Proof.
  intros [[_ _ A] [_ _ B] _] H. unfold pblk, bblocks, vblocks in *.
  destruct env_layout.
  - rewrite <- A in H. destruct (Nat.eqb_spec (v_cap (be_store b)) 0); [lia|]. simpl. auto.
  - rewrite <- B in H. apply in_or_app. right. apply in_or_app. left.
    destruct (Nat.eqb_spec (v_cap (be_index b)) 0); [lia|]. simpl. auto.
Qed.
Lemma pblk_pos t (b : backend V) : wfb t b -> 0 < bsize b \/ env_layout = SplitLayout -> 0 < pblk b.
Proof.
  intros [[[A1 A2 A3] [B1 B2 B3] _] W] H. unfold pblk. unfold bsize in *.
  destruct env_layout.
  - destruct H; [|discriminate]. apply A3. lia.
  - destruct W as (_ & Ei & _). apply B3. unfold vsize in *. rewrite Ei in B1.
    unfold entries in B1. rewrite map_length, seq_length in B1. lia.
Qed.

Lemma entries_nth (b : backend V) k : k <= bsize b -> nth_error (entries b) k = Some (vptr (be_store b) k).
Proof.
  intros H. unfold entries. erewrite map_nth_error; [reflexivity|].
  rewrite (nth_error_nth' _ 0) by (rewrite seq_length; lia). f_equal. rewrite seq_nth by lia. auto.
Qed.

Lemma be_deref_ptr t (b : backend V) k : wfb t b -> be_deref b (be_ptr b k) = nth_error (belems b) k.
Proof.
  intros [_ W]. rewrite be_ptr_eq. unfold be_deref, pblk. destruct env_layout; cbn [fst snd]; rewrite Nat.eqb_refl; auto.
  destruct W as (_ & Ei & _). rewrite Ei. destruct (Nat.le_gt_cases k (bsize b)) as [Hk|Hk].
  - rewrite entries_nth by auto. simpl. rewrite Nat.eqb_refl. auto.
  - rewrite (proj2 (nth_error_None _ _)) by (unfold entries; rewrite map_length, seq_length; lia).
    symmetry. apply nth_error_None. unfold bsize, vsize in Hk. unfold belems. lia.
Qed.
Lemma be_deref_other (b : backend V) p : fst p <> pblk b -> be_deref b p = None.
Proof.
  unfold be_deref, pblk. intros H. destruct env_layout; apply Nat.eqb_neq in H; rewrite H; auto.
Qed.

(** Conversions between base and Concrete positions, any index up to the end. *)
Lemma be_to_conc_ptr t (b : backend V) k : wfb t b -> k <= bsize b ->
  be_to_concrete b (be_ptr b k) = Some (vptr (be_store b) k).
Proof.
  intros [_ W] Hk. rewrite be_ptr_eq. unfold be_to_concrete, pblk.
  destruct env_layout; cbn [fst snd]; rewrite Nat.eqb_refl; auto.
  destruct W as (_ & Ei & _). rewrite Ei. apply entries_nth; auto.
Qed.
Lemma be_from_conc_ptr t (b : backend V) k : wfb t b ->
  be_from_concrete b (vptr (be_store b) k) = Some (be_ptr b k).
Proof.
  intros W. unfold be_from_concrete, be_begin. rewrite (be_to_conc_ptr t) by (auto; lia).
  simpl. rewrite Nat.eqb_refl. rewrite Nat.sub_0_r. auto.
Qed.
Lemma be_deref_conc_ptr (b : backend V) k : be_deref_conc b (vptr (be_store b) k) = nth_error (belems b) k.
Proof. unfold be_deref_conc, vptr. simpl. rewrite Nat.eqb_refl. auto. Qed.

(** ** Lists of nodes *)

Notation nb n := (sg_be (n_seg n)).
Notation nsz n := (bsize (sg_be (n_seg n))).

Definition nblk (n : node V) : nat := pblk (nb n).

Record vok (ns : NL) : Prop := {
  vok_seg : Forall (fun n => wfs (n_seg n)) ns;
  vok_ids : NoDup (map n_id ns);
  vok_disj : forall x, cnt (nblocks ns) x <= 1
}.

Lemma vok_tail n ns : vok (n :: ns) -> vok ns.
Proof.
  intros [A B C]. inversion A; inversion B; subst. split; auto.
  intros x. specialize (C x). simpl in C. rewrite cnt_app in C. lia.
Qed.

Lemma nblk_in ns n : Forall (fun n => wfs (n_seg n)) ns -> In n ns -> 0 < nblk n ->
  0 < cnt (nblocks ns) (nblk n).
Proof.
  induction ns as [|m ns IH]; simpl; [tauto|]. intros Fa [->|Hin] Hp; inversion Fa; subst; rewrite cnt_app.
  - assert (0 < cnt (sblocks (n_seg n)) (nblk n)).
    { apply cnt_pos. eapply pblk_in; eauto. apply wfs_0; auto. }
    lia.
  - specialize (IH H2 Hin Hp). lia.
Qed.
Lemma vok_head_other m ns n : vok (m :: ns) -> In n ns -> 0 < nblk n -> nblk n <> nblk m.
Proof.
  intros [A B C] Hin Hp Eq. inversion A; subst. specialize (C (nblk n)). simpl in C. rewrite cnt_app in C.
  assert (0 < cnt (nblocks ns) (nblk n)) by (apply nblk_in; auto).
  assert (0 < cnt (sblocks (n_seg m)) (nblk n)).
  { apply cnt_pos. rewrite Eq. eapply pblk_in; [apply wfs_0; eauto|]. fold (nblk m). lia. }
  lia.
Qed.
Lemma vok_blk_inj ns n m : vok ns -> In n ns -> In m ns -> 0 < nblk n -> nblk n = nblk m -> n = m.
Proof.
  induction ns as [|x ns IH]; simpl; [tauto|]. intros W [->|Hn] [->|Hm] Hp Eq; auto.
  - exfalso. eapply vok_head_other; eauto. lia.
  - exfalso. eapply (vok_head_other m ns n); eauto.
  - apply IH; auto. eapply vok_tail; eauto.
Qed.

Lemma deref_nodes_in ns n k : vok ns -> In n ns -> k < nsz n ->
  deref_nodes ns (be_ptr (nb n) k) = option_map (pair (n_ty n)) (nth_error (n_elems n) k).
Proof.
  intros W Hin Hk.
  assert (Hp : 0 < nblk n).
  { assert (Wn : wfs (n_seg n)) by (destruct W as [A _ _]; rewrite Forall_forall in A; auto).
    eapply pblk_pos; [apply Wn|]. lia. }
  induction ns as [|m ns IH]; simpl in *; [tauto|].
  destruct Hin as [->|Hin].
  - assert (Wn : wfs (n_seg n)) by (destruct W as [A _ _]; inversion A; auto).
    rewrite (be_deref_ptr (sg_ty (n_seg n))) by apply Wn.
    unfold n_elems, n_ty. destruct (nth_error (belems (nb n)) k) eqn:En; auto.
    apply nth_error_None in En. unfold bsize, vsize, belems in *. lia.
  - rewrite be_deref_other.
    + apply IH; auto. eapply vok_tail; eauto.
    + rewrite be_ptr_eq. simpl. apply (vok_head_other m ns n); auto.
Qed.
Lemma deref_src_in ns n k : vok ns -> In n ns -> k < nsz n ->
  deref_src ns (be_ptr (nb n) k) = option_map (pair (n_key n)) (nth_error (n_elems n) k).
Proof.
  intros W Hin Hk.
  assert (Hp : 0 < nblk n).
  { assert (Wn : wfs (n_seg n)) by (destruct W as [A _ _]; rewrite Forall_forall in A; auto).
    eapply pblk_pos; [apply Wn|]. lia. }
  induction ns as [|m ns IH]; simpl in *; [tauto|].
  destruct Hin as [->|Hin].
  - assert (Wn : wfs (n_seg n)) by (destruct W as [A _ _]; inversion A; auto).
    rewrite (be_deref_ptr (sg_ty (n_seg n))) by apply Wn.
    unfold n_elems, n_ty. destruct (nth_error (belems (nb n)) k) eqn:En; auto.
    apply nth_error_None in En. unfold bsize, vsize, belems in *. lia.
  - rewrite be_deref_other.
    + apply IH; auto. eapply vok_tail; eauto.
    + rewrite be_ptr_eq. simpl. apply (vok_head_other m ns n); auto.
Qed.

(** The iterator at a global position. *)
Fixpoint at_ (ns : NL) (g : nat) : iter :=
  match ns with
  | [] => mkiter None null
  | n :: ns' => if g <? nsz n then mkiter (Some (n_id n)) (be_ptr (nb n) g)
                else at_ ns' (g - nsz n)
  end.
Definition tot (ns : NL) : nat := sum_sizes ns.
Definition nflat (ns : NL) : list (tyid * V) :=
  flat_map (fun n => map (pair (n_ty n)) (n_elems n)) ns.

Lemma n_elems_length (n : node V) : length (n_elems n) = nsz n.
Proof. reflexivity. Qed.
Lemma nflat_length ns : length (nflat ns) = tot ns.
Proof.
  induction ns as [|n ns IH]; simpl; auto. rewrite app_length, map_length, IH. reflexivity.
Qed.

Lemma seg_empty_snt (s : segment V) : wfs s -> ptr_eqb (seg_begin s) (sg_snt s) = (bsize (sg_be s) =? 0).
Proof.
  intros [_ S]. rewrite S. unfold seg_begin, be_begin, be_end. rewrite !be_ptr_eq.
  unfold ptr_eqb. simpl. rewrite Nat.eqb_refl. simpl. unfold bsize. destruct (vsize (be_store (sg_be s))); auto.
Qed.
Lemma ptr_snt (s : segment V) k : wfs s -> ptr_eqb (be_ptr (sg_be s) k) (sg_snt s) = (k =? bsize (sg_be s)).
Proof.
  intros [_ S]. rewrite S. unfold be_end. rewrite !be_ptr_eq.
  unfold ptr_eqb. simpl. rewrite Nat.eqb_refl. reflexivity.
Qed.

Lemma next_seg_at ns : Forall (fun n => wfs (n_seg n)) ns -> next_segment_position ns = at_ ns 0.
Proof.
  induction 1 as [|n ns W _ IH]; simpl; auto. rewrite seg_empty_snt by auto.
  destruct (Nat.eqb_spec (nsz n) 0) as [Z|Z].
  - rewrite Z. simpl. exact IH.
  - destruct (Nat.ltb_spec 0 (nsz n)); [|lia]. reflexivity.
Qed.

Lemma at_end ns : at_ ns (tot ns) = mkiter None null.
Proof.
  induction ns as [|n ns IH]; simpl; auto. unfold tot in *. simpl.
  change (seg_size (n_seg n)) with (nsz n).
  destruct (Nat.ltb_spec (nsz n + sum_sizes ns) (nsz n)); [lia|].
  replace (nsz n + sum_sizes ns - nsz n) with (sum_sizes ns) by lia. auto.
Qed.

Lemma at_app l1 l2 g : at_ (l1 ++ l2) (tot l1 + g) = at_ l2 g.
Proof.
  induction l1 as [|n l1 IH]; simpl; auto. unfold tot in *. simpl.
  change (seg_size (n_seg n)) with (nsz n).
  destruct (Nat.ltb_spec (nsz n + sum_sizes l1 + g) (nsz n)); [lia|].
  replace (nsz n + sum_sizes l1 + g - nsz n) with (sum_sizes l1 + g) by lia. auto.
Qed.

(** Decomposition of a valid position below the end. *)
Lemma at_split (ns : NL) g : g < tot ns ->
  exists l1 n l2 k, ns = l1 ++ n :: l2 /\ k < nsz n /\ g = tot l1 + k /\
    at_ ns g = mkiter (Some (n_id n)) (be_ptr (nb n) k).
Proof.
  revert g. induction ns as [|n ns IH]; unfold tot; simpl; intros g Hg; [lia|].
  change (seg_size (n_seg n)) with (nsz n) in Hg.
  destruct (Nat.ltb_spec g (nsz n)) as [Hl|Hl].
  - exists [], n, ns, g. csplit; auto.
  - destruct (IH (g - nsz n)) as (l1 & m & l2 & k & -> & A & B & C); [unfold tot; lia|].
    exists (n :: l1), m, l2, k. csplit; auto. unfold tot in *. simpl.
    change (seg_size (n_seg n)) with (nsz n). lia.
Qed.

Lemma tot_app l1 l2 : tot (l1 ++ l2) = tot l1 + tot l2.
Proof. apply sum_sizes_app. Qed.
Lemma tot_cons (n : node V) ns : tot (n :: ns) = nsz n + tot ns.
Proof. reflexivity. Qed.

Lemma nodes_from_split (l1 : NL) n l2 : NoDup (map n_id (l1 ++ n :: l2)) ->
  nodes_from (l1 ++ n :: l2) (n_id n) = Some (n :: l2).
Proof.
  induction l1 as [|m l1 IH]; simpl; intros ND.
  - rewrite Nat.eqb_refl. auto.
  - inversion ND; subst. destruct (Nat.eqb_spec (n_id m) (n_id n)) as [Eq|]; auto.
    exfalso. apply H1. rewrite Eq. rewrite map_app. apply in_or_app. right. simpl. auto.
Qed.

Lemma vok_in ns n : vok ns -> In n ns -> wfs (n_seg n).
Proof. intros [A _ _] H. rewrite Forall_forall in A. auto. Qed.

Section AtColl.
Notation "'ns_of' c" := (c_nodes c) (at level 9).

Lemma it_next_at c g : vok (c_nodes c) -> g < tot (c_nodes c) ->
  it_next c (at_ (c_nodes c) g) = Some (at_ (c_nodes c) (S g)).
Proof.
  intros W Hg. destruct (at_split _ _ Hg) as (l1 & n & l2 & k & En & Hk & Eg & ->).
  unfold it_next. cbn [it_map it_pos].
  assert (ND := vok_ids _ W). assert (Wn : wfs (n_seg n)).
  { eapply vok_in; [exact W|]. rewrite En. apply in_or_app. right. left. auto. }
  assert (W2 : Forall (fun n => wfs (n_seg n)) l2).
  { destruct W as [A _ _]. rewrite En in A. apply Forall_app in A. destruct A as [_ A]. inversion A; auto. }
  rewrite En in *. rewrite nodes_from_split by auto. unfold be_begin. rewrite !be_ptr_eq. cbn [fst snd].
  rewrite Nat.eqb_refl. destruct (Nat.ltb_spec k (be_size (nb n))) as [_|C]; [|unfold be_size, bsize in *; lia].
  cbn [andb]. change (pblk (nb n), S k) with (pblk (nb n), S k). rewrite <- be_ptr_eq, ptr_snt by auto.
  replace (S g) with (tot l1 + S k) by lia. rewrite at_app. cbn [at_].
  destruct (Nat.eqb_spec (S k) (nsz n)) as [Es|Es].
  - rewrite next_seg_at by auto. destruct (Nat.ltb_spec (S k) (nsz n)); [lia|].
    replace (S k - nsz n) with 0 by lia. auto.
  - destruct (Nat.ltb_spec (S k) (nsz n)); [|lia]. auto.
Qed.

Lemma nth_nflat (l1 : NL) n l2 k : k < nsz n ->
  nth_error (nflat (l1 ++ n :: l2)) (tot l1 + k) = option_map (pair (n_ty n)) (nth_error (n_elems n) k).
Proof.
  intros Hk. unfold nflat. rewrite flat_map_app. simpl. fold (nflat l1).
  rewrite nth_error_app2 by (rewrite nflat_length; lia). rewrite nflat_length.
  replace (tot l1 + k - tot l1) with k by lia.
  rewrite nth_error_app1 by (rewrite map_length, n_elems_length; auto).
  destruct (nth_error (n_elems n) k) eqn:En; simpl.
  - erewrite map_nth_error; eauto.
  - apply nth_error_None. rewrite map_length. apply nth_error_None. auto.
Qed.

Lemma it_deref_at c g : vok (c_nodes c) -> g < tot (c_nodes c) ->
  it_deref c (at_ (c_nodes c) g) = nth_error (nflat (c_nodes c)) g.
Proof.
  intros W Hg. destruct (at_split _ _ Hg) as (l1 & n & l2 & k & En & Hk & Eg & ->).
  unfold it_deref. cbn [it_pos]. rewrite deref_nodes_in; auto.
  - rewrite En, Eg, nth_nflat; auto.
  - rewrite En. apply in_or_app. right. left. auto.
Qed.

Lemma at_pos_null ns g : vok ns -> g < tot ns -> fst (it_pos (at_ ns g)) <> 0.
Proof.
  intros W Hg. destruct (at_split _ _ Hg) as (l1 & n & l2 & k & En & Hk & Eg & ->).
  cbn [it_pos]. rewrite be_ptr_eq. simpl.
  assert (Wn : wfs (n_seg n)).
  { eapply vok_in; [exact W|]. rewrite En. apply in_or_app. right. left. auto. }
  assert (0 < pblk (nb n)) by (eapply pblk_pos; [apply Wn|lia]). lia.
Qed.

Lemma split_unique (ns : NL) l1 n l2 l1' l2' : NoDup (map n_id ns) ->
  ns = l1 ++ n :: l2 -> ns = l1' ++ n :: l2' -> l1 = l1' /\ l2 = l2'.
Proof.
  revert ns l1'. induction l1 as [|m l1 IH]; intros ns l1' ND E1 E2.
  - destruct l1' as [|m' l1']; subst; simpl in *.
    + inversion E2; auto.
    + inversion E2; subst. inversion ND; subst. exfalso. apply H1.
      rewrite map_app. apply in_or_app. right. simpl. auto.
  - destruct l1' as [|m' l1']; subst; simpl in *.
    + inversion E2; subst. inversion ND; subst. exfalso. apply H1.
      rewrite map_app. apply in_or_app. right. simpl. auto.
    + inversion E2; subst. inversion ND; subst.
      destruct (IH (l1 ++ n :: l2) l1') as [-> ->]; auto.
Qed.

Lemma it_eq_at ns g h : vok ns -> g <= tot ns -> h <= tot ns ->
  it_eq (at_ ns g) (at_ ns h) = (g =? h).
Proof.
  intros W Hg Hh. unfold it_eq.
  destruct (Nat.eqb_spec g h) as [->|Ne].
  { unfold ptr_eqb. rewrite !Nat.eqb_refl. auto. }
  assert (A : forall g h, g < tot ns -> h <= tot ns -> g <> h -> ptr_eqb (it_pos (at_ ns g)) (it_pos (at_ ns h)) = false).
  { clear g h Hg Hh Ne. intros g h Hg Hh Ne. destruct (Nat.eq_dec h (tot ns)) as [->|Hh'].
    - rewrite at_end. unfold ptr_eqb. simpl. assert (A := at_pos_null ns g W Hg).
      apply Nat.eqb_neq in A. rewrite A. auto.
    - assert (Hh2 : h < tot ns) by lia.
      destruct (at_split _ _ Hg) as (l1 & n & l2 & k & En & Hk & Eg & ->).
      destruct (at_split _ _ Hh2) as (l1' & n' & l2' & k' & En' & Hk' & Eg' & ->).
      cbn [it_pos]. rewrite !be_ptr_eq. unfold ptr_eqb. cbn [fst snd].
      destruct (Nat.eqb_spec (pblk (nb n)) (pblk (nb n'))) as [Ep|]; auto.
      assert (n = n').
      { eapply vok_blk_inj; [exact W| | | |exact Ep].
        - rewrite En. apply in_or_app; right; left; auto.
        - rewrite En'. apply in_or_app; right; left; auto.
        - assert (Wn : wfs (n_seg n)).
          { eapply vok_in; [exact W|]. rewrite En. apply in_or_app. right. left. auto. }
          eapply pblk_pos; [apply Wn|lia]. }
      subst n'. destruct (split_unique ns l1 n l2 l1' l2') as [-> ->]; auto; [apply W|].
      simpl. apply Nat.eqb_neq. lia. }
  destruct (Nat.eq_dec g (tot ns)) as [->|Hg'].
  - assert (B := A h (tot ns)). rewrite <- B; try lia.
    unfold ptr_eqb. rewrite (Nat.eqb_sym (fst (it_pos (at_ ns h)))), (Nat.eqb_sym (snd (it_pos (at_ ns h)))). auto.
  - apply A; lia.
Qed.

Lemma traverse_at c g h fuel : vok (c_nodes c) -> g <= h -> h <= tot (c_nodes c) -> h - g <= fuel ->
  traverse fuel c (at_ (c_nodes c) g) (at_ (c_nodes c) h) = Some (firstn (h - g) (skipn g (nflat (c_nodes c)))).
Proof.
  intros W. revert g. induction fuel as [|f IH]; intros g Hg Hh Hf; simpl.
  - rewrite it_eq_at by (auto; lia). replace h with g by lia. rewrite Nat.eqb_refl, Nat.sub_diag. auto.
  - rewrite it_eq_at by (auto; lia). destruct (Nat.eqb_spec g h) as [->|Ne].
    + rewrite Nat.sub_diag. auto.
    + rewrite it_deref_at, it_next_at by (auto; lia).
      destruct (nth_error (nflat (c_nodes c)) g) as [x|] eqn:En.
      * rewrite IH by lia. replace (h - g) with (S (h - S g)) by lia.
        assert (Sk : skipn g (nflat (c_nodes c)) = x :: skipn (S g) (nflat (c_nodes c))).
        { clear - En. revert g En. induction (nflat (c_nodes c)) as [|y l IHl]; intros [|g] En; simpl in *; try discriminate.
          - inversion En; auto.
          - apply IHl. auto. }
        rewrite Sk. reflexivity.
      * apply nth_error_None in En. rewrite nflat_length in En. lia.
Qed.

(** building an iterator from a segment position *)
Lemma it_make_at c l1 n l2 k : c_nodes c = l1 ++ n :: l2 -> vok (c_nodes c) -> k <= nsz n ->
  it_make c (Some (n_id n)) (be_ptr (nb n) k) = Some (at_ (c_nodes c) (tot l1 + k)).
Proof.
  intros En W Hk. unfold it_make. assert (ND := vok_ids _ W).
  assert (Wn : wfs (n_seg n)).
  { eapply vok_in; [exact W|]. rewrite En. apply in_or_app. right. left. auto. }
  assert (W2 : Forall (fun n => wfs (n_seg n)) l2).
  { destruct W as [A _ _]. rewrite En in A. apply Forall_app in A. destruct A as [_ A]. inversion A; auto. }
  rewrite En in *. rewrite nodes_from_split by auto. rewrite ptr_snt by auto.
  rewrite at_app. cbn [at_]. destruct (Nat.eqb_spec k (nsz n)) as [->|Ne].
  - destruct (Nat.ltb_spec (nsz n) (nsz n)); [lia|]. rewrite Nat.sub_diag, next_seg_at; auto.
  - destruct (Nat.ltb_spec k (nsz n)); [|lia]. auto.
Qed.

End AtColl.

(** ** Relation with Spec.v *)

Lemma content_nodes (c : coll V) : content c = map (fun n => (n_ty n, n_elems n)) (c_nodes c).
Proof. reflexivity. Qed.
Lemma types_nodes (c : coll V) : types c = map n_ty (c_nodes c).
Proof. unfold types. rewrite content_nodes, map_map. apply map_ext. auto. Qed.
Lemma flat_nodes (c : coll V) : flat c = nflat (c_nodes c).
Proof.
  unfold flat, nflat. rewrite content_nodes. induction (c_nodes c) as [|n ns IH]; simpl; auto.
  rewrite IH. auto.
Qed.
Lemma flat_length (c : coll V) : length (flat c) = tot (c_nodes c).
Proof. rewrite flat_nodes. apply nflat_length. Qed.

Lemma offset_nodes (l1 : NL) n l2 : NoDup (map n_ty (l1 ++ n :: l2)) ->
  offset (map (fun n => (n_ty n, n_elems n)) (l1 ++ n :: l2)) (n_ty n) = tot l1.
Proof.
  induction l1 as [|m l1 IH]; simpl; intros ND.
  - rewrite Nat.eqb_refl. auto.
  - inversion ND; subst. destruct (Nat.eqb_spec (n_ty m) (n_ty n)) as [Eq|].
    + exfalso. apply H1. rewrite Eq, map_app. apply in_or_app. right. simpl. auto.
    + rewrite IH by auto. reflexivity.
Qed.

Lemma wfc_vok w c R K : wfc w c -> cown w c R K -> vok (c_nodes c).
Proof.
  intros [W S] H. split; auto; [apply W|]. intros x. destruct H as [_ A _ _ _].
  specialize (A x). simpl in A. unfold cblocks in A. lia.
Qed.

Lemma assoc_nodes (ns : NL) n : NoDup (map n_ty ns) -> In n ns ->
  assoc (n_ty n) (map (fun n => (n_ty n, n_elems n)) ns) = Some (n_elems n).
Proof.
  induction ns as [|m ns IH]; simpl; [tauto|]. intros ND [->|Hin].
  - rewrite Nat.eqb_refl. auto.
  - inversion ND; subst. destruct (Nat.eqb_spec (n_ty m) (n_ty n)) as [Eq|]; auto.
    exfalso. apply H1. rewrite Eq. apply in_map; auto.
Qed.
Lemma assoc_none (l : list (tyid * list V)) t : assoc t l = None <-> ~ In t (map fst l).
Proof.
  induction l as [|[t' xs] l IH]; simpl; [tauto|].
  destruct (Nat.eqb_spec t' t) as [->|Ne].
  - split; [discriminate|]. tauto.
  - rewrite IH. tauto.
Qed.
Lemma assoc_in (l : list (tyid * list V)) t xs : assoc t l = Some xs -> In (t, xs) l.
Proof.
  induction l as [|[t' ys] l IH]; simpl; [discriminate|].
  destruct (Nat.eqb_spec t' t) as [->|Ne]; auto. intros Es. inversion Es. auto.
Qed.

Lemma seg_of_node w c n : wfm w c -> In n (c_nodes c) -> seg_of c (n_ty n) = Some (n_elems n).
Proof. intros W H. unfold seg_of. rewrite content_nodes. apply assoc_nodes; auto. apply W. Qed.
Lemma elems_node w c n : wfm w c -> In n (c_nodes c) -> elems c (n_ty n) = n_elems n.
Proof. intros W H. unfold elems. erewrite seg_of_node; eauto. Qed.
Lemma seg_of_none (c : coll V) t : seg_of c t = None <-> ~ In t (map n_ty (c_nodes c)).
Proof. unfold seg_of. rewrite assoc_none. fold (types c). rewrite types_nodes. tauto. Qed.
Lemma elems_none (c : coll V) t : ~ In t (map n_ty (c_nodes c)) -> elems c t = [].
Proof. intros H. unfold elems. rewrite (proj2 (seg_of_none c t)); auto. Qed.

Lemma in_split_node (ns : NL) n : In n ns -> exists l1 l2, ns = l1 ++ n :: l2.
Proof. apply in_split. Qed.

(** what [points] and [located] mean in terms of positions *)
Lemma points_at w c it t k R K : wfc w c -> cown w c R K -> points c it t k ->
  it = at_ (c_nodes c) (offset (content c) t + k) /\ offset (content c) t + k < tot (c_nodes c) /\
  k < length (elems c t) /\
  it_deref c it = option_map (pair t) (nth_error (elems c t) k).
Proof.
  intros W H (n & Hin & Et & -> & Hk). assert (Vo := wfc_vok _ _ _ _ W H).
  destruct (in_split_node _ _ Hin) as (l1 & l2 & En).
  assert (Eo : offset (content c) t = tot l1).
  { rewrite content_nodes, <- Et, En. apply offset_nodes. rewrite <- En. apply W. }
  change (length (elems_of (n_seg n))) with (nsz n) in Hk.
  rewrite Eo. csplit.
  - rewrite En, at_app. simpl. destruct (Nat.ltb_spec k (nsz n)); [auto|lia].
  - rewrite En, tot_app, tot_cons. lia.
  - rewrite <- Et. change (sg_ty (n_seg n)) with (n_ty n). erewrite elems_node; eauto. apply W.
  - rewrite <- Et. change (sg_ty (n_seg n)) with (n_ty n). erewrite elems_node; eauto; [|apply W].
    unfold it_deref. cbn [it_pos]. apply deref_nodes_in; auto.
Qed.

Lemma located_at w c it g R K : wfc w c -> cown w c R K ->
  (located c it g <-> it = at_ (c_nodes c) g /\ g <= tot (c_nodes c)).
Proof.
  intros W H. split.
  - intros [[-> ->]|(t & k & P & ->)].
    + rewrite flat_length. rewrite at_end. auto.
    + destruct (points_at _ _ _ _ _ _ _ W H P) as (-> & L & _). split; auto. lia.
  - intros [-> L]. unfold located. destruct (Nat.eq_dec g (tot (c_nodes c))) as [->|Ne].
    + left. rewrite at_end, flat_length. auto.
    + right. destruct (at_split (c_nodes c) g) as (l1 & n & l2 & k & En & Hk & Eg & ->); [lia|].
      exists (n_ty n), k. split.
      * exists n. csplit; auto. rewrite En. apply in_or_app; right; left; auto.
      * rewrite content_nodes, En, offset_nodes; auto. rewrite <- En. apply W.
Qed.

(** segment positions of a node *)
Lemma points_node c n k : In n (c_nodes c) -> k < nsz n ->
  points c (mkiter (Some (n_id n)) (be_ptr (nb n) k)) (n_ty n) k.
Proof. intros. exists n. csplit; auto. Qed.

Lemma mk_iter_located w c n k R K : wfc w c -> cown w c R K -> In n (c_nodes c) -> k <= nsz n ->
  exists it, it_make c (Some (n_id n)) (be_ptr (nb n) k) = Some it /\
    located c it (offset (content c) (n_ty n) + k) /\
    (k < nsz n -> it = mkiter (Some (n_id n)) (be_ptr (nb n) k)).
Proof.
  intros W H Hin Hk. assert (Vo := wfc_vok _ _ _ _ W H).
  destruct (in_split_node _ _ Hin) as (l1 & l2 & En).
  assert (Eo : offset (content c) (n_ty n) = tot l1).
  { rewrite content_nodes, En. apply offset_nodes. rewrite <- En. apply W. }
  exists (at_ (c_nodes c) (tot l1 + k)). csplit.
  - apply it_make_at with (l2 := l2); auto.
  - rewrite Eo. apply (located_at w c _ _ R K W H). split; auto. rewrite En, tot_app, tot_cons. lia.
  - intros Hl. rewrite En, at_app. simpl. destruct (Nat.ltb_spec k (nsz n)); [auto|lia].
Qed.

End PView.
