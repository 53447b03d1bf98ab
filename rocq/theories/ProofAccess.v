(** * Elements modified through references *)

From Coq Require Import List Arith Lia Bool Permutation.
From Verif Require Import Base Vec Backend Segment Coll StdAlg Algo Access Spec SpecAlg SpecAcc ProofBase ProofVec ProofBackend ProofOps ProofOps2 ProofSeg ProofMap ProofView
  ProofAlgo ProofColl Reach ProofReach ProofObs ProofProp ProofProp4.
Import ListNotations.

Section PAccess.
Context {V : Type} {E : Env V} {S : Type}.
Notation NL := (list (node V)).
Notation nb n := (sg_be (n_seg n)).
Notation nsz n := (bsize (sg_be (n_seg n))).

Lemma ptr_eqb_spec p q : reflect (p = q) (ptr_eqb p q).
Proof.
  destruct p as [a b], q as [a' b']. unfold ptr_eqb. cbn [fst snd].
  destruct (Nat.eqb_spec a a'), (Nat.eqb_spec b b'); constructor; congruence.
Qed.

(** Storage of different segments is disjoint. *)
Definition sblk (n : node V) : nat := v_blk (be_store (nb n)).
Lemma sblk_pos n : wfs (n_seg n) -> 0 < nsz n -> 0 < sblk n.
Proof. intros [[[[A1 A2 A3] _ _] _] _] H. unfold sblk. apply A3. unfold bsize in *. lia. Qed.
Lemma sblk_in n : wfs (n_seg n) -> 0 < sblk n -> 0 < cnt (sblocks (n_seg n)) (sblk n).
Proof.
  intros [[[[A1 A2 A3] _ _] _] _] H. unfold sblk in *. apply cnt_pos. unfold sblocks, bblocks, vblocks.
  apply in_or_app. left. rewrite <- A3 in H. destruct (Nat.eqb_spec (v_cap (be_store (nb n))) 0); [lia|]. simpl. auto.
Qed.
Lemma sblk_nodes ns n : Forall (fun n => wfs (n_seg n)) ns -> In n ns -> 0 < sblk n -> 0 < cnt (nblocks ns) (sblk n).
Proof.
  induction ns as [|m ns IH]; simpl; [tauto|]. intros Fa [->|Hin] Hp; inversion Fa; subst; rewrite cnt_app.
  - assert (H := sblk_in n H1 Hp). lia.
  - specialize (IH H2 Hin Hp). lia.
Qed.
Lemma sblk_other m ns n : vok (m :: ns) -> In n ns -> 0 < sblk n -> sblk n <> sblk m.
Proof.
  intros [A B C] Hin Hp Eq. inversion A; subst. specialize (C (sblk n)). simpl in C. rewrite cnt_app in C.
  assert (0 < cnt (nblocks ns) (sblk n)) by (apply sblk_nodes; auto).
  assert (0 < cnt (sblocks (n_seg m)) (sblk n)) by (rewrite Eq in *; apply sblk_in; auto). lia.
Qed.

Lemma nrefs_addr n r : In r (nrefs n) -> exists k, k < nsz n /\ r_addr r = (sblk n, k) /\ nth_error (nrefs n) k = Some r.
Proof.
  intros H. apply In_nth_error in H. destruct H as (k & H). exists k. assert (L := H). rewrite nrefs_nth in H.
  destruct (nth_error (n_elems n) k) as [v|] eqn:Q; [|discriminate]. injection H as <-. csplit; auto.
  rewrite <- n_elems_length. apply nth_error_Some. congruence.
Qed.

(** The object at the address a reference refers to. *)
Lemma obj_at_refs ns r : vok ns -> In r (flat_map nrefs ns) -> obj_at ns (r_addr r) = Some (r_ty r, r_val r).
Proof.
  induction ns as [|m ns IH]; intros W H; cbn [flat_map] in H; [destruct H|].
  assert (Wm : wfs (n_seg m)) by (destruct W as [A _ _]; inversion A; auto).
  apply in_app_or in H. destruct H as [H|H]; cbn [obj_at].
  - destruct (nrefs_addr m r H) as (k & Lk & Ea & En). rewrite Ea. change (sblk m, k) with (vptr (be_store (nb m)) k).
    rewrite be_deref_conc_ptr. change (belems (nb m)) with (n_elems m). rewrite nrefs_nth in En.
    destruct (nth_error (n_elems m) k) as [v|]; [|discriminate]. injection En as <-. reflexivity.
  - assert (Q := H). apply in_flat_map in Q. destruct Q as (n & Hn & Hr). destruct (nrefs_addr n r Hr) as (k & Lk & Ea & _).
    assert (Wn : wfs (n_seg n)) by (destruct W as [A _ _]; rewrite Forall_forall in A; apply A; right; auto).
    replace (be_deref_conc (nb m) (r_addr r)) with (@None V); [apply IH; auto; eapply vok_tail; eauto|].
    unfold be_deref_conc. rewrite Ea. cbn [fst]. destruct (Nat.eqb_spec (sblk n) (v_blk (be_store (nb m)))) as [Q|]; auto.
    exfalso. apply (sblk_other m ns n W Hn); auto. apply sblk_pos; auto. lia.
Qed.

Lemma addr_nodup ns : vok ns -> NoDup (map r_addr (flat_map nrefs ns)).
Proof.
  induction ns as [|m ns IH]; intros W; cbn [flat_map map]; [constructor|]. rewrite map_app.
  assert (N1 : NoDup (map r_addr (nrefs m))).
  { apply NoDup_nth_error. intros i j Li Q. rewrite map_length, nrefs_length in Li. rewrite !nth_error_map, !nrefs_nth in Q.
    destruct (nth_error (n_elems m) i) as [x|] eqn:Qi; [|apply nth_error_None in Qi; rewrite n_elems_length in Qi; lia].
    destruct (nth_error (n_elems m) j) as [y|] eqn:Qj; [|discriminate]. cbn in Q. unfold vptr in Q. injection Q. auto. }
  assert (N2 := IH (vok_tail _ _ W)).
  assert (Dj : forall a, In a (map r_addr (nrefs m)) -> ~ In a (map r_addr (flat_map nrefs ns))).
  { intros a Ha Hb. apply in_map_iff in Ha. destruct Ha as (r & <- & Hr). apply in_map_iff in Hb. destruct Hb as (r' & Q & Hr').
    destruct (nrefs_addr m r Hr) as (k & Lk & Ea & _). apply in_flat_map in Hr'. destruct Hr' as (n & Hn & Hr').
    destruct (nrefs_addr n r' Hr') as (k' & Lk' & Ea' & _).
    assert (Wn : wfs (n_seg n)) by (destruct W as [A _ _]; rewrite Forall_forall in A; apply A; right; auto).
    apply (sblk_other m ns n W Hn); [apply sblk_pos; auto; lia|congruence]. }
  clear IH W. revert Dj. generalize (map r_addr (flat_map nrefs ns)), N2. intros l2 Nl2. induction N1 as [|x l Hx Nl IH]; intros Dj; cbn [app]; auto.
  constructor.
  - intros Q. apply in_app_or in Q. destruct Q; [tauto|]. apply (Dj x); auto. left. auto.
  - apply IH. intros a Ha. apply Dj. right. auto.
Qed.

(** ** Writing *)

Lemma rewrite_nth (f : nat -> V -> V) l k : nth_error (rewrite_elems f l) k = option_map (f k) (nth_error l k).
Proof.
  unfold rewrite_elems. rewrite nth_error_map. enough (H : forall a, nth_error (combine (seq a (length l)) l) k = option_map (pair (a + k)) (nth_error l k)).
  { rewrite H. cbn [Nat.add]. destruct (nth_error l k); auto. }
  revert k. induction l as [|x l IH]; intros [|k] a; cbn; auto.
  - rewrite Nat.add_0_r. auto.
  - rewrite IH. replace (Datatypes.S a + k) with (a + Datatypes.S k) by lia. auto.
Qed.

Definition patch (p : ptr) (v : V) (r : eref V) : eref V := if ptr_eqb (r_addr r) p then mkref (r_ty r) v (r_addr r) else r.
Lemma nth_error_ext {A} (l l' : list A) : (forall k, nth_error l k = nth_error l' k) -> l = l'.
Proof.
  revert l'. induction l as [|x l IH]; intros [|y l'] H; auto.
  - specialize (H 0). discriminate.
  - specialize (H 0). discriminate.
  - assert (Q := H 0). injection Q as ->. f_equal. apply IH. intros k. apply (H (Datatypes.S k)).
Qed.
Lemma nrefs_write p v n : nrefs (mknode (n_id n) (n_key n) (seg_write p v (n_seg n))) = map (patch p v) (nrefs n).
Proof.
  apply nth_error_ext. intros k. rewrite nth_error_map, !nrefs_nth. unfold n_elems. cbn [n_seg]. unfold seg_write, rewrite_seg.
  cbn [sg_ty sg_be be_store v_elems belems]. unfold belems. cbn [be_store v_elems]. rewrite rewrite_nth.
  destruct (nth_error (v_elems (be_store (nb n))) k) as [x|]; auto. cbn [option_map]. f_equal. unfold patch, vptr. cbn [r_addr r_ty v_blk].
  destruct (ptr_eqb (v_blk (be_store (nb n)), k) p); auto.
Qed.
Lemma refs_write p v (c : coll V) : refs (c_write p v c) = map (patch p v) (refs c).
Proof.
  rewrite !refs_nodes. unfold c_write. cbn [c_nodes]. induction (c_nodes c) as [|n ns IH]; auto. cbn [map flat_map].
  rewrite map_app, nrefs_write. f_equal. exact IH.
Qed.

(** The segments keep their identity, type, storage and number of elements. *)
Definition alike (n n' : node V) : Prop :=
  n_id n' = n_id n /\ n_key n' = n_key n /\ sg_ty (n_seg n') = sg_ty (n_seg n) /\ sg_al (n_seg n') = sg_al (n_seg n) /\
  v_blk (be_store (nb n')) = v_blk (be_store (nb n)) /\ v_cap (be_store (nb n')) = v_cap (be_store (nb n)) /\
  be_index (nb n') = be_index (nb n) /\ be_self (nb n') = be_self (nb n) /\ sg_snt (n_seg n') = sg_snt (n_seg n) /\
  nsz n' = nsz n.
Lemma write_alike p v n : alike n (mknode (n_id n) (n_key n) (seg_write p v (n_seg n))).
Proof. unfold alike. cbn. csplit; auto. unfold bsize, vsize. cbn. apply rewrite_len. Qed.

Lemma write_mutate p v (c : coll V) : NoDup (map n_ty (c_nodes c)) ->
  c_write p v c = c_mutate (fun t k x => match addr_of c t k with Some q => if ptr_eqb q p then v else x | None => x end) c.
Proof.
  intros ND. unfold c_write, c_mutate. f_equal. apply map_ext_in. intros n Hn. f_equal. unfold seg_write, rewrite_seg.
  f_equal. f_equal. f_equal. apply nth_error_ext. intros k. rewrite !rewrite_nth.
  destruct (nth_error (v_elems (be_store (nb n))) k) as [x|] eqn:Q; auto. cbn [option_map]. f_equal.
  unfold addr_of. change (sg_ty (n_seg n)) with (n_ty n). rewrite (seg_at_node c n ND Hn). unfold elems_of.
  destruct (Nat.ltb_spec k (length (v_elems (be_store (nb n))))) as [L|L]; auto.
  apply nth_error_None in L. congruence.
Qed.
Lemma write_reach w (c : coll V) g d p v : reach w (c :: g) d -> reach w (c_write p v c :: g) d.
Proof.
  intros H. destruct (reach_wf w c g d H) as (W & _). rewrite write_mutate; [|apply W]. apply r_mutate. exact H.
Qed.

Lemma write_vok p v (c : coll V) : vok (c_nodes c) -> vok (c_nodes (c_write p v c)).
Proof.
  intros [A B C]. unfold c_write. cbn [c_nodes]. split.
  - rewrite Forall_map. eapply Forall_impl; [|exact A]. intros n Wn. apply mutate_wfs. exact Wn.
  - rewrite map_map. exact B.
  - intros x. specialize (C x). replace (nblocks (map (fun n => mknode (n_id n) (n_key n) (seg_write p v (n_seg n))) (c_nodes c)))
      with (nblocks (c_nodes c)); auto. clear. induction (c_nodes c) as [|n l IH]; simpl; auto. rewrite IH. reflexivity.
Qed.

Definition shape (c c' : coll V) : Prop := Forall2 alike (c_nodes c) (c_nodes c') /\ c_al c' = c_al c.
Lemma alike_refl n : alike n n.
Proof. unfold alike. csplit; auto. Qed.
Lemma alike_trans n n' n'' : alike n n' -> alike n' n'' -> alike n n''.
Proof. unfold alike. intros (A1 & A2 & A3 & A4 & A5 & A6 & A7 & A8 & A9 & A10) (B1 & B2 & B3 & B4 & B5 & B6 & B7 & B8 & B9 & B10). csplit; congruence. Qed.
Lemma shape_refl c : shape c c.
Proof. split; auto. induction (c_nodes c); constructor; auto. apply alike_refl. Qed.
Lemma shape_trans c c' c'' : shape c c' -> shape c' c'' -> shape c c''.
Proof.
  intros [A A'] [B B']. split; [|congruence]. revert B. generalize (c_nodes c''). induction A as [|n n' l l' H F IH]; intros l'' B; inversion B; subst; constructor; auto.
  eapply alike_trans; eauto.
Qed.
Lemma write_shape p v c : shape c (c_write p v c).
Proof. split; auto. unfold c_write. cbn [c_nodes]. induction (c_nodes c); cbn [map]; constructor; auto. apply write_alike. Qed.

Lemma shape_in c c' n : shape c c' -> In n (c_nodes c) -> exists n', In n' (c_nodes c') /\ alike n n'.
Proof.
  intros [F _] H. induction F as [|x y l l' A F IH]; [destruct H|]. destruct H as [->|H].
  - exists y. split; auto. left. auto.
  - destruct (IH H) as (n' & I & Q). exists n'. split; auto. right. auto.
Qed.
Lemma alike_ptr n n' k : alike n n' -> be_ptr (nb n') k = be_ptr (nb n) k.
Proof. intros (_ & _ & _ & _ & Eb & _ & Ei & _). unfold be_ptr. destruct env_layout; unfold pk_ptr, sp_ptr, vptr; rewrite ?Eb, ?Ei; reflexivity. Qed.
Lemma shape_seg c c' t : shape c c' -> match seg_at c t, seg_at c' t with
  | Some s, Some s' => v_blk (be_store (sg_be s')) = v_blk (be_store (sg_be s)) /\ v_cap (be_store (sg_be s')) = v_cap (be_store (sg_be s)) /\
      length (elems_of s') = length (elems_of s)
  | None, None => True
  | _, _ => False
  end.
Proof.
  intros [F _]. unfold seg_at. induction F as [|n n' l l' A F IH]; cbn [find option_map]; auto.
  destruct A as (_ & _ & Et & _ & Eb & Ec & _ & _ & _ & Es). rewrite Et. destruct (sg_ty (n_seg n) =? t); auto. cbn [option_map]. auto.
Qed.
Lemma shape_updated c c' i vs : shape c c' ->
  map r_val (refs c') = firstn i (map r_val (refs c)) ++ vs ++ skipn (i + length vs) (map r_val (refs c)) -> updated c c' i vs.
Proof.
  intros Sh Hv.
  assert (Fl : forall x : coll V, map snd (flat x) = map r_val (refs x)) by (intros x; rewrite <- refs_flat, map_map; auto).
  split.
  - rewrite !Fl. exact Hv.
  - rewrite !types_nodes. destruct Sh as [F _]. induction F as [|n n' l l' A F IH]; cbn [map]; auto. f_equal; auto. apply A.
  - intros t. rewrite !elems_seg_at. assert (Q := shape_seg c c' t Sh). destruct (seg_at c t), (seg_at c' t); try tauto.
  - intros t k. unfold addr_of. assert (Q := shape_seg c c' t Sh). destruct (seg_at c t), (seg_at c' t); try tauto.
    destruct Q as (Q1 & Q2 & Q3). unfold vptr. rewrite Q1, Q3. reflexivity.
  - intros t. unfold cap_of. assert (Q := shape_seg c c' t Sh). destruct (seg_at c t), (seg_at c' t); try tauto.
  - intros t k. split.
    + intros it (n & Hn & Et & -> & Hk). destruct (shape_in c c' n Sh Hn) as (n' & Hn' & A). exists n'. rewrite (alike_ptr n n' k A).
      destruct A as (A1 & A2 & A3 & A4 & A5 & A6 & A7 & A8 & A9 & A10). csplit; auto; try congruence.
      change (k < nsz n'). rewrite A10. exact Hk.
    + intros l (n & Hn & Et & Ei & Ep & Hk). destruct (shape_in c c' n Sh Hn) as (n' & Hn' & A). exists n'. rewrite (alike_ptr n n' k A).
      destruct A as (A1 & A2 & A3 & A4 & A5 & A6 & A7 & A8 & A9 & A10). csplit; auto; try congruence.
      * unfold vptr in *. rewrite A5. exact Ep.
      * change (k <= nsz n'). rewrite A10. exact Hk.
  - apply Sh.
Qed.

Lemma patch_others p v (l : list (eref V)) : ~ In p (map r_addr l) -> map (patch p v) l = l.
Proof.
  induction l as [|r l IH]; cbn [map]; auto. intros H. f_equal; [|apply IH; intros Q; apply H; right; auto].
  unfold patch. destruct (ptr_eqb_spec (r_addr r) p); auto. exfalso. apply H. left. auto.
Qed.
Lemma refs_write_at (c : coll V) i r v : vok (c_nodes c) -> nth_error (refs c) i = Some r ->
  refs (c_write (r_addr r) v c) = firstn i (refs c) ++ mkref (r_ty r) v (r_addr r) :: skipn (Datatypes.S i) (refs c).
Proof.
  intros W H. rewrite refs_write. assert (ND := addr_nodup _ W). rewrite <- refs_nodes in ND.
  assert (Q := H). apply nth_error_split in Q. destruct Q as (l1 & l2 & Er & <-). rewrite Er in *.
  rewrite firstn_app, firstn_all, Nat.sub_diag. cbn [firstn]. rewrite app_nil_r, map_app. cbn [map].
  rewrite map_app in ND. cbn [map] in ND. apply NoDup_remove in ND. destruct ND as [_ ND].
  rewrite !patch_others by (intros Q; apply ND, in_or_app; auto). f_equal.
  unfold patch at 1. destruct (ptr_eqb_spec (r_addr r) (r_addr r)); [|congruence]. f_equal.
  replace (Datatypes.S (length l1)) with (length (l1 ++ [r])) by (rewrite app_length; cbn; lia).
  change (r :: l2) with ([r] ++ l2). rewrite app_assoc, skipn_app, skipn_all, Nat.sub_diag. auto.
Qed.

Lemma through_at (f : view V -> tyid -> M (V * S) unit) (c : coll V) s Ts i r : vok (c_nodes c) -> nth_error (refs c) i = Some r ->
  through f (seen Ts r) (c, s) = match f (seen Ts r) (r_ty r) (r_val r, s) with
    | Ok (v, s') _ => Ok (c_write (r_addr r) v c, s') tt
    | Exn (v, s') e => Exn (c_write (r_addr r) v c, s') e
    | UB => UB
    end.
Proof.
  intros W H. unfold through, on_obj. cbn [seen fst snd]. rewrite obj_at_refs; [|exact W|].
  - assert (Q : match (if existsb (Nat.eqb (r_ty r)) Ts then Some (r_ty r) else None) with Some T' => r_ty r =? T' | None => true end = true)
      by (destruct (existsb _ _); auto; apply Nat.eqb_refl).
    rewrite Q. destruct (f _ _ _) as [[? ?] []|[? ?]|]; auto.
  - rewrite <- refs_nodes. eapply nth_error_In; eauto.
Qed.

Lemma copy_through (f : nat -> view V -> tyid -> M (V * S) unit) Ts (K : coll V -> Prop) j :
  (forall p v x, K x -> K (c_write p v x)) -> forall n i (c : coll V) s o, n = j - i -> i <= j -> j <= length (refs c) ->
  vok (c_nodes c) -> K c ->
  let upd c' vs := shape c c' /\ map r_val (refs c') = firstn i (map r_val (refs c)) ++ vs ++ skipn (i + length vs) (map r_val (refs c)) in
  match run_over f o (views c Ts i j) s with
  | (vs, Ok s' _) => exists c', std_copy (fun k => through (f k)) (views c Ts i j) o (c, s) = Ok (c', s') (o + n) /\ K c' /\ upd c' vs
  | (vs, Exn s' e) => exists c', std_copy (fun k => through (f k)) (views c Ts i j) o (c, s) = Exn (c', s') e /\ K c' /\ upd c' vs
  | (_, UB) => std_copy (fun k => through (f k)) (views c Ts i j) o (c, s) = UB
  end.
Proof.
  intros HK. induction n as [|n IH]; intros i c s o Hn L Lj W Kc upd.
  - assert (i = j) as -> by lia. rewrite views_nil. cbn [run_over std_copy]. exists c. rewrite Nat.add_0_r. csplit; auto. split; [apply shape_refl|].
    cbn [length app]. rewrite Nat.add_0_r, firstn_skipn. auto.
  - assert (Hx : exists r, nth_error (refs c) i = Some r /\ views c Ts i j = seen Ts r :: views c Ts (Datatypes.S i) j).
    { unfold views. destruct (between_S i j (refs c)) as (r & Nr & ->); [lia..|]. exists r. auto. }
    destruct Hx as (r & Nr & ->). cbn [run_over std_copy]. unfold bind at 1 2 3. rewrite (through_at (f o) c s Ts i r W Nr). cbn [seen snd].
    assert (Lr : i < length (refs c)) by lia.
    destruct (f o (seen Ts r) (r_ty r) (r_val r, s)) as [[v s1] []|[v s1] e|] eqn:Ef; fold (seen Ts r); rewrite ?Ef; auto.
    + set (c1 := c_write (r_addr r) v c). assert (R1 := refs_write_at c i r v W Nr). fold c1 in R1.
      assert (Lf : length (firstn i (refs c)) = i) by (rewrite firstn_length; lia).
      assert (Ev : views c1 Ts (Datatypes.S i) j = views c Ts (Datatypes.S i) j).
      { unfold views, between. rewrite R1. f_equal. f_equal.
        replace (Datatypes.S i) with (length (firstn i (refs c) ++ [mkref (r_ty r) v (r_addr r)])) at 1 by (rewrite app_length, Lf; cbn; lia).
        change (mkref (r_ty r) v (r_addr r) :: skipn (Datatypes.S i) (refs c)) with ([mkref (r_ty r) v (r_addr r)] ++ skipn (Datatypes.S i) (refs c)).
        rewrite app_assoc, skipn_app, skipn_all, Nat.sub_diag. auto. }
      assert (L1 : length (refs c1) = length (refs c)) by (unfold c1; rewrite refs_write, map_length; auto).
      assert (G := IH (Datatypes.S i) c1 s1 (1 + o)). rewrite Ev in G.
      assert (Up : forall vs, map r_val (refs c1) = map r_val (firstn i (refs c)) ++ v :: skipn (Datatypes.S i) (map r_val (refs c)) ->
        firstn (Datatypes.S i) (map r_val (refs c1)) ++ vs ++ skipn (Datatypes.S i + length vs) (map r_val (refs c1)) =
        firstn i (map r_val (refs c)) ++ (v :: vs) ++ skipn (i + length (v :: vs)) (map r_val (refs c))).
      { intros vs Q. rewrite Q. assert (Lm : length (map r_val (firstn i (refs c))) = i) by (rewrite map_length; auto).
        rewrite firstn_app, Lm. replace (Datatypes.S i - i) with 1 by lia. rewrite firstn_all2 by lia. cbn [firstn].
        rewrite <- firstn_map, <- app_assoc. cbn [app length]. f_equal. f_equal. f_equal.
        assert (Lm' : length (firstn i (map r_val (refs c))) = i) by (rewrite firstn_length, map_length; lia).
        rewrite skipn_app, Lm'. rewrite skipn_all2 by lia. cbn [app].
        replace (Datatypes.S i + length vs - i) with (Datatypes.S (length vs)) by lia.
        change (skipn (Datatypes.S (length vs)) (v :: skipn (Datatypes.S i) (map r_val (refs c)))) with (skipn (length vs) (skipn (Datatypes.S i) (map r_val (refs c)))).
        rewrite <- skipn_add. f_equal. lia. }
      assert (Vl : map r_val (refs c1) = map r_val (firstn i (refs c)) ++ v :: skipn (Datatypes.S i) (map r_val (refs c))).
      { rewrite R1, map_app. cbn [map r_val]. rewrite skipn_map. auto. }
      specialize (fun vs => Up vs Vl).
      assert (Wc : vok (c_nodes c1)) by (apply write_vok; auto). specialize (G ltac:(lia) ltac:(lia) ltac:(lia) Wc (HK _ _ _ Kc)). cbv zeta in G.
      destruct (run_over f (1 + o) (views c Ts (Datatypes.S i) j) s1) as [vs oc]. destruct oc as [s2 u|s2 e|].
      all: cbn [Nat.add] in G; rewrite ?Nat.add_succ_r.
      * destruct G as (c' & G1 & G2 & G3 & G4). exists c'. csplit; auto. split; [eapply shape_trans; [apply write_shape|exact G3]|].
        rewrite G4. apply Up.
      * destruct G as (c' & G1 & G2 & G3 & G4). exists c'. csplit; auto. split; [eapply shape_trans; [apply write_shape|exact G3]|].
        rewrite G4. apply Up.
      * exact G.
    + exists (c_write (r_addr r) v c). csplit; auto. split; [apply write_shape|]. rewrite (refs_write_at c i r v W Nr), map_app. cbn [map r_val].
      rewrite <- firstn_map. f_equal. cbn [app length]. f_equal.
      assert (Eq : map (fun x : view V => r_val (snd x)) (views c Ts (Datatypes.S i) j) = between (Datatypes.S i) j (map r_val (refs c))).
      { unfold views. rewrite map_map. cbn [seen snd]. apply map_between. }
      match goal with |- context [map ?h (views c Ts (Datatypes.S i) j)] => replace (map h (views c Ts (Datatypes.S i) j)) with (between (Datatypes.S i) j (map r_val (refs c))) by exact (eq_sym Eq) end.
      rewrite between_length by (rewrite map_length; lia). rewrite <- skipn_map. unfold between.
      replace (i + Datatypes.S (j - Datatypes.S i)) with (Datatypes.S i + (j - Datatypes.S i)) by lia. rewrite skipn_add.
      symmetry. apply firstn_skipn.
Qed.

Lemma visits_copy {A} (m : M (coll V * S) A) (c : coll V) Ts i j f o (P : A -> Prop) (K : coll V -> Prop) :
  (forall p v x, K x -> K (c_write p v x)) -> K c -> aok c -> i <= j -> j <= tot (c_nodes c) ->
  same_as m (std_copy (fun k => through (f k)) (views c Ts i j) o) (fun r o' => o' = o + (j - i) -> P r) -> visits m c Ts i j f o P K.
Proof.
  intros HK Kc W L Lj Hm s. specialize (Hm (c, s)).
  assert (G := copy_through f Ts K j HK (j - i) i c s o eq_refl L ltac:(rewrite refs_length; auto) ltac:(apply W) Kc). cbv zeta in G.
  destruct (run_over f o (views c Ts i j) s) as [vs [s' u|s' e|]].
  - destruct G as (c' & G1 & G2 & G3 & G4). rewrite G1 in Hm. destruct (m (c, s)) as [[c1 s1] r|?|]; try tauto.
    destruct Hm as [Q HP]. injection Q as -> ->. exists c', r. csplit; auto. apply shape_updated; auto.
  - destruct G as (c' & G1 & G2 & G3 & G4). rewrite G1 in Hm. destruct (m (c, s)) as [[c1 s1] r|[c1 s1] e1|]; try tauto.
    destruct Hm as [Q ->]. injection Q as -> ->. exists c'. csplit; auto. apply shape_updated; auto.
  - rewrite G in Hm. destruct (m (c, s)); tauto.
Qed.
Lemma for_each_copy {X T} (f : X -> M T unit) l o : same_as (std_for_each f l) (std_copy (fun _ => f) l o) (fun _ _ => True).
Proof.
  revert o. induction l as [|x l IH]; intros o; cbn [std_for_each std_copy]; [apply same_ret; auto|].
  apply same_bind_eq. intros []. apply IH.
Qed.
Lemma visits_each {A} (m : M (coll V * S) A) (c : coll V) Ts i j f (P : A -> Prop) (K : coll V -> Prop) :
  (forall p v x, K x -> K (c_write p v x)) -> K c -> aok c -> i <= j -> j <= tot (c_nodes c) ->
  same_as m (std_for_each (through f) (views c Ts i j)) (fun r _ => P r) -> visits m c Ts i j (fun _ => f) 0 P K.
Proof.
  intros HK Kc W L Lj Hm. apply visits_copy; auto. eapply same_trans; [exact Hm|apply for_each_copy|]. auto.
Qed.

End PAccess.
