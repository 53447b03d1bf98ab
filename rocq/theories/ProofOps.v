(** * Specifications of the modifying operations of the backends *)

From Coq Require Import List Arith Lia Bool Permutation.
From Verif Require Import Base Vec Backend ProofBase ProofVec ProofBackend.
Import ListNotations.

Section POps.
Context {V : Type} {E : Env V}.

Notation BW := (backend V * world)%type.

Ltac bmono := solve [eapply bthrew_mono; [|eassumption|]; wle_tac].

(** ** split_segment: growing *)

Lemma wp_rebuild t b w R K (Q : BW -> unit -> Prop) (X : BW -> exn -> Prop) :
  wfb0 t b -> bown t w b R K -> S (bsize b) <= v_cap (be_index b) ->
  (forall w', let i' := mkvec (v_blk (be_index b)) (v_cap (be_index b)) (entries b) in
     wfv ix_eops i' -> bown t w' (set_index b i') R K -> wle w w' -> Q (set_index b i', w') tt) ->
  wp sp_rebuild_index (b, w) Q X.
Proof.
  intros [Ws Wi Wf] H Hr HQ. unfold sp_rebuild_index.
  apply wp_bind, wp_on_index. eapply wp_vec_clear; [exact Wi|apply bown_index_id; exact H|].
  intros w1 W1 H1 L1. cbn [fst snd]. apply bown_index in H1.
  unfold sp_build_index. apply wp_bind, wp_getx. cbn [fst].
  eapply wp_push_entries_room; [exact W1|exact H1| |].
  - simpl. rewrite seq_length. unfold bsize in Hr. lia.
  - intros w2 i2 W2 H2 L2. apply HQ; auto. wle_tac.
Qed.

Lemma split_bits (b : backend V) (i : vec ptr) :
  bsize (set_index b i) = bsize b /\ bcap (set_index b i) = bcap b /\
  belems (set_index b i) = belems b /\ entries (set_index b i) = entries b.
Proof. repeat split. Qed.

Lemma wp_grow t c b w R K (Q : BW -> unit -> Prop) (X : BW -> exn -> Prop) :
  env_layout = SplitLayout -> wfb t b -> bown t w b R K -> bcap b < c ->
  (forall w' b', belems b' = belems b -> wfb t b' -> bown t w' b' R K -> wle w w' ->
     bcap b' = c -> roomy b' -> be_self b' = be_self b ->
     w_next w <= v_blk (be_store b') < w_next w' -> c <= env_vmax t ->
     Q (b', w') tt) ->
  (forall w' b' e, wfb t b' -> be_store b' = be_store b -> be_self b' = be_self b ->
     bown t w' b' R K -> wle w w' ->
     bthrew t None (bsize b) w w' e \/ (e = LengthError /\ (env_imax < c + 1 \/ env_vmax t < c)) ->
     X (b', w') e) ->
  wp (on_index (vec_reserve ix_eops (c + 1)) ;;
      on_store (vec_reserve (vh_eops t) c) ;; sp_rebuild_index) (b, w) Q X.
Proof.
  intros Lay W H Hc HQ HX. destruct (wfb_split t b Lay W) as (SP1 & SP2 & SP3).
  destruct (wfb_0 _ _ W) as [Ws Wi Wf].
  assert (Hs : bsize b <= bcap b) by (destruct Ws; auto).
  assert (Hi : S (bsize b) <= v_cap (be_index b)).
  { rewrite <- (split_isize b) by (repeat split; auto). destruct Wi; auto. }
  (* after the index has been reserved *)
  assert (STEP : forall i1 w1, v_elems i1 = v_elems (be_index b) -> wfv ix_eops i1 ->
    bown t w1 (set_index b i1) R K -> wle w w1 -> c + 1 <= v_cap i1 ->
    wp (on_store (vec_reserve (vh_eops t) c) ;; sp_rebuild_index) (set_index b i1, w1) Q X).
  { intros i1 w1 El1 W1 H1 L1 Hc1. apply wp_bind, wp_on_store.
    assert (WB1 : wfb t (set_index b i1)).
    { split; [split; auto|]. rewrite Lay. split; [auto|]. split.
      - simpl. rewrite El1. exact SP2.
      - left. unfold roomy. simpl. unfold bcap in *. simpl. lia. }
    eapply wp_vec_reserve; [exact Ws|apply bown_store_id; exact H1| | |].
    - unfold bcap in *. simpl. lia.
    - intros w2 nb C1 C2 H2 L2 Hnb Wn. cbn [fst snd]. apply bown_store in H2.
      eapply wp_rebuild with (t := t); [split; auto|exact H2| |].
      { unfold bsize, vsize in *. simpl in *. lia. }
      intros w3 i3 W3 H3 L3. apply HQ; auto.
      + split; [split; auto|]. rewrite Lay. split; [|split].
        * unfold bcap; simpl; lia.
        * reflexivity.
        * left. unfold roomy, bcap. simpl. lia.
      + wle_tac.
      + unfold roomy, bcap. simpl. lia.
      + simpl. wle_tac.
    - intros w2 e H2 L2 Re. cbn [fst snd]. apply bown_store in H2.
      apply HX; auto; try wle_tac.
      destruct Re as [(? & ? & ?)|(? & T)].
        * right. split; auto.
        * left. apply vthrew_bthrew in T. simpl in T. unfold bsize. bmono. }
  apply wp_bind, wp_on_index.
  eapply wp_vec_reserve; [exact Wi|apply bown_index_id; exact H| | |].
  - intros C1 C2. cbn [fst snd]. apply STEP; rewrite ?set_index_id; auto using wle_refl.
  - intros w1 nb C1 C2 H1 L1 Hnb Wn. cbn [fst snd]. apply bown_index in H1. apply STEP; auto.
  - intros w1 e H1 L1 Re. cbn [fst snd]. apply bown_index in H1.
    apply HX; auto.
    + rewrite set_index_id. auto.
    + destruct Re as [(? & ? & ?)|(? & T)].
      * right. split; auto.
      * left. left. apply ix_vthrew in T; [destruct T; auto|discriminate].
Qed.

Lemma div2_le n : 2 * Nat.div2 n <= n.
Proof. pose proof (Nat.div2_odd n). destruct (Nat.odd n); simpl in *; lia. Qed.

Lemma expand_cap_bounds vm n :
  n < expand_cap vm n /\ expand_cap vm n <= 2 * n + 1 /\ (n < vm -> expand_cap vm n <= vm).
Proof.
  unfold expand_cap. pose proof (div2_le n). pose proof (div2_le (vm - 1 - n)).
  destruct (Nat.leb_spec n 1) as [Ca|Ca]; simpl; [lia|].
  destruct (Nat.ltb_spec (Nat.div2 (vm - 1 - n)) n) as [Cb|Cb]; [lia|].
  assert (1 <= Nat.div2 n).
  { destruct n as [|[|n]]; simpl; lia. }
  lia.
Qed.

(** ** Reasons for an insertion to throw *)

Definition len_err (t : tyid) (b : backend V) (m : nat) : Prop :=
  env_vmax t < bsize b + m \/
  (env_layout = SplitLayout /\ env_imax < 2 * (bsize b + m) + 1).

Definition ins_reason (t : tyid) (h : option how) (b : backend V) (m : nat)
  (w w' : world) (e : exn) : Prop :=
  bthrew t h (bsize b) w w' e \/ (e = LengthError /\ len_err t b m).

Lemma ins_reason_mono t h b m w1 w2 w3 w4 e :
  wle w1 w2 -> ins_reason t h b m w2 w3 e -> wle w3 w4 -> ins_reason t h b m w1 w4 e.
Proof. intros L1 [?|?] L2; [left; bmono|right; auto]. Qed.

Ltac imono := solve [eapply ins_reason_mono; [|eassumption|]; wle_tac].

(** Storage and base iterators of existing elements are kept. *)
Definition stable (b b' : backend V) : Prop :=
  v_blk (be_store b') = v_blk (be_store b) /\ bcap b' = bcap b /\
  (0 < bsize b -> forall k, be_ptr b' k = be_ptr b k).

Definition grown (t : tyid) (b : backend V) : nat :=
  match env_layout with
  | PackedLayout => next_cap (vh_eops t) (be_store b) (S (bsize b))
  | SplitLayout => expand_cap (env_vmax t) (bsize b)
  end.

Definition nothrow (t : tyid) : bool :=
  env_nt_move t && (if env_assignable t then env_nt_assign t else true).

(** Insertion of one element at index [k] ends in these states. *)
Definition ins_ok (t : tyid) (k : nat) (v : V) (b : backend V) (w : world)
  (R : nat -> nat) (K : nat) (b' : backend V) (w' : world) (r : ptr * ptr) : Prop :=
  belems b' = insert_at k v (belems b) /\ wfb t b' /\ bown t w' b' R K /\ wle w w' /\
  be_self b' = be_self b /\ r = (be_ptr b' k, be_end b') /\
  (bsize b < bcap b -> stable b b') /\
  (bsize b = bcap b -> bcap b' = grown t b /\ w_next w <= v_blk (be_store b') < w_next w').

Definition ins_exn (t : tyid) (h : how) (k : nat) (b : backend V) (w : world)
  (R : nat -> nat) (K : nat) (b' : backend V) (w' : world) (e : exn) : Prop :=
  wfb1 t b' /\ bown t w' b' R K /\ wle w w' /\ be_self b' = be_self b /\
  bsize b <= bsize b' <= S (bsize b) /\
  ins_reason t (Some h) b 1 w w' e /\
  (env_layout = PackedLayout ->
     wfb t b' /\ v_blk (be_store b') = v_blk (be_store b) /\
     (k = bsize b \/ nothrow t = true \/ bsize b = bcap b -> b' = b)) /\
  (env_layout = SplitLayout -> roomy b -> k = bsize b \/ nothrow t = true ->
     wfb t b' /\ belems b' = belems b /\ (bsize b < bcap b -> b' = b)).

(** The source of the value of a new element. *)
Definition src_ok (b : backend V) (h : how) (x : src V) (v : V) : Prop :=
  x = SVal v \/
  exists k, x = SRef (vptr (be_store b) k) /\ h <> HMove /\ nth_error (belems b) k = Some v /\
            (env_layout = SplitLayout -> bsize b < bcap b).

Lemma wp_read_src b h x v w (Q : BW -> V -> Prop) X :
  src_ok b h x v -> Q (b, w) v -> wp (read_src h x) (b, w) Q X.
Proof.
  intros [->|(k & -> & Hh & Hn & _)] HQ; unfold read_src.
  - apply wp_bind, wp_getx, wp_ret. auto.
  - apply wp_bind, wp_getx. cbn [fst]. unfold vptr. rewrite Nat.eqb_refl.
    unfold belems in Hn. rewrite Hn. apply wp_bind. destruct h; [apply wp_ret, wp_ret; auto|exfalso; apply Hh; reflexivity|apply wp_ret, wp_ret; auto].
Qed.

(** After a growth only external sources are usable. *)
Lemma src_ok_grown b b' h x v :
  env_layout = SplitLayout -> bsize b = bcap b -> src_ok b h x v -> src_ok b' h x v.
Proof. intros L F [->|(k & -> & Hh & Hn & C)]; [left; auto|]. specialize (C L). lia. Qed.

Definition pos_at (b : backend V) (p : bpos) (k : nat) : Prop :=
  p = PBase (be_ptr b k) \/ p = PConc (vptr (be_store b) k).

Lemma be_ptr_packed : env_layout = PackedLayout -> forall (b : backend V) k, be_ptr b k = vptr (be_store b) k.
Proof. intros L b k. unfold be_ptr. rewrite L. reflexivity. Qed.
Lemma be_ptr_split : env_layout = SplitLayout -> forall (b : backend V) k, be_ptr b k = vptr (be_index b) k.
Proof. intros L b k. unfold be_ptr. rewrite L. reflexivity. Qed.

Lemma wp_pk_iterator_from b p k w (Q : BW -> nat -> Prop) X :
  env_layout = PackedLayout -> pos_at b p k -> Q (b, w) k -> wp (pk_iterator_from p) (b, w) Q X.
Proof.
  intros L P HQ. unfold pk_iterator_from. apply wp_bind, wp_getx. cbn [fst].
  destruct P as [->| ->]; rewrite ?be_ptr_packed by auto; simpl; rewrite Nat.eqb_refl; auto.
Qed.
Lemma wp_sp_iterator_from b p k w (Q : BW -> nat -> Prop) X :
  env_layout = SplitLayout -> pos_at b p k -> Q (b, w) k -> wp (sp_iterator_from p) (b, w) Q X.
Proof.
  intros L P HQ. unfold sp_iterator_from. apply wp_bind, wp_getx. cbn [fst].
  destruct P as [->| ->]; rewrite ?be_ptr_split by auto; simpl; rewrite Nat.eqb_refl; auto.
Qed.
Lemma wp_sp_conc b p k w (Q : BW -> bpos -> Prop) X :
  env_layout = SplitLayout -> split_ok b -> k <= bsize b -> pos_at b p k ->
  (pos_at b (PConc (vptr (be_store b) k)) k -> Q (b, w) (PConc (vptr (be_store b) k))) ->
  wp (sp_conc p) (b, w) Q X.
Proof.
  intros L (S1 & S2 & S3) Hk P HQ. specialize (HQ (or_intror eq_refl)). unfold sp_conc.
  destruct P as [->| ->].
  - rewrite be_ptr_split by auto. unfold sp_to_concrete.
    apply wp_bind, wp_bind, wp_getx. cbn [fst]. unfold vptr at 1 2. simpl.
    rewrite Nat.eqb_refl, S2, nth_entries by auto. apply wp_ret, wp_ret. auto.
  - apply wp_ret. auto.
Qed.

Lemma insert_at_end {A} (v : A) l : insert_at (length l) v l = l ++ [v].
Proof. unfold insert_at. rewrite firstn_all, skipn_all. reflexivity. Qed.
Lemma insert_at_length {A} k (v : A) l : length (insert_at k v l) = S (length l).
Proof.
  unfold insert_at. rewrite app_length. simpl.
  rewrite <- (firstn_skipn k l) at 3. rewrite app_length. lia.
Qed.

(** ** packed_segment *)

Lemma wp_pk_push_back t h x v b w R K (Q : BW -> ptr * ptr -> Prop) (X : BW -> exn -> Prop) :
  env_layout = PackedLayout -> wfb t b -> bown t w b R K -> src_ok b h x v ->
  (forall b' w' r, ins_ok t (bsize b) v b w R K b' w' r -> Q (b', w') r) ->
  (forall b' w' e, ins_exn t h (bsize b) b w R K b' w' e -> X (b', w') e) ->
  wp (pk_push_back t h x) (b, w) Q X.
Proof.
  intros L W H Hx HQ HX. destruct (wfb_0 _ _ W) as [Ws Wi Wf].
  assert (Ix := wfb_packed _ _ L W). unfold pk_push_back.
  apply wp_bind. eapply wp_read_src; eauto.
  apply wp_bind, wp_on_store. eapply wp_vec_emplace_back; [exact Ws|apply bown_store_id; exact H| |].
  - intros w1 s1 El W1 H1 L1 P1 P2. cbn [fst snd]. apply bown_store in H1.
    apply wp_bind, wp_getx. cbn [fst]. unfold pk_range_from. apply wp_bind, wp_getx, wp_ret. cbn [fst].
    apply HQ. unfold ins_ok.
    assert (Es : vsize s1 = S (bsize b)).
    { unfold vsize. rewrite El, app_length. simpl. unfold bsize, vsize. lia. }
    csplit; auto.
    + unfold belems at 1. simpl. rewrite El. unfold bsize, vsize, belems. rewrite insert_at_end. auto.
    + split; [split; auto|]. rewrite L. auto.
    + unfold be_end. rewrite !be_ptr_packed by auto. unfold pk_ptr. simpl. rewrite Es.
      simpl. rewrite Nat.sub_0_r. auto.
    + intros C. destruct (P1 C). unfold stable. csplit; auto.
      intros. rewrite !be_ptr_packed by auto. unfold vptr. simpl. f_equal. auto.
    + intros C. unfold grown. rewrite L. destruct P2 as (? & ? & ?); auto.
  - intros w1 e H1 L1 Re. cbn [fst snd]. rewrite set_store_id.
    apply HX. unfold ins_exn. rewrite <- (set_store_id b) in H1 at 1. 
    assert (H1' : bown t w1 b R K).
    { rewrite <- (set_store_id b). apply (bown_store t). rewrite set_store_id in H1. exact H1. }
    csplit; auto; try lia; try congruence; [exact (wfb_1 _ _ W)|].
    destruct Re as [(-> & ? & ? & ->)|[(? & C)|(? & C)]].
    + right. split; auto. left. unfold bsize in *. simpl in *. lia.
    + left. apply cthrew_bthrew. auto.
    + left. apply vthrew_bthrew. auto.
Qed.

Lemma wp_pk_insert t h p k x v b w R K (Q : BW -> ptr * ptr -> Prop) (X : BW -> exn -> Prop) :
  env_layout = PackedLayout -> wfb t b -> bown t w b R K -> pos_at b p k -> k <= bsize b ->
  src_ok b h x v ->
  (forall b' w' r, ins_ok t k v b w R K b' w' r -> Q (b', w') r) ->
  (forall b' w' e, ins_exn t h k b w R K b' w' e -> X (b', w') e) ->
  wp (pk_insert t h p x) (b, w) Q X.
Proof.
  intros L W H Hp Hk Hx HQ HX. destruct (wfb_0 _ _ W) as [Ws Wi Wf].
  assert (Ix := wfb_packed _ _ L W). unfold pk_insert.
  apply wp_bind. eapply wp_pk_iterator_from; eauto.
  apply wp_bind. eapply wp_read_src; eauto.
  apply wp_bind, wp_on_store.
  eapply wp_vec_emplace; [exact Ws|apply bown_store_id; exact H|exact Hk| | |].
  - intros w1 s1 El W1 H1 L1 P1 P2. cbn [fst snd]. apply bown_store in H1.
    unfold pk_range_from. apply wp_bind, wp_getx, wp_ret. cbn [fst].
    apply HQ. unfold ins_ok. csplit; auto.
    + split; [split; auto|]. rewrite L. auto.
    + unfold be_end. rewrite !be_ptr_packed by auto. auto.
    + intros C. destruct (P1 C). unfold stable. csplit; auto.
      intros. rewrite !be_ptr_packed by auto. unfold vptr. simpl. f_equal. auto.
    + intros C. unfold grown. rewrite L. destruct P2 as (? & ? & ?); auto.
  - intros w1 e H1 L1 Re. cbn [fst snd]. rewrite set_store_id.
    apply HX. unfold ins_exn.
    assert (H1' : bown t w1 b R K).
    { rewrite <- (set_store_id b). apply (bown_store t). exact H1. }
    csplit; auto; try lia; try congruence; [exact (wfb_1 _ _ W)|].
    destruct Re as [(-> & ? & ? & ->)|[(? & C)|(? & C)]].
    + right. split; auto. left. unfold bsize in *. simpl in *. lia.
    + left. apply cthrew_bthrew. auto.
    + left. apply vthrew_bthrew. auto.
  - intros w1 s1 C1 C2 NT W1 (J1 & J2 & J3) H1 L1 F. cbn [fst snd]. apply bown_store in H1.
    apply HX. unfold ins_exn.
    assert (WB : wfb t (set_store b s1)).
    { split; [split; auto|]. rewrite L. auto. }
    csplit; auto; try lia; try congruence.
    + exact (wfb_1 _ _ WB).
    + unfold bsize in *; simpl. lia.
    + unfold bsize in *; simpl. lia.
    + left. apply junk_bthrew; auto.
    + intros _. csplit; auto. intros [C|[C|C]].
      * unfold bsize in *. lia.
      * unfold nothrow in C. simpl in NT. congruence.
      * unfold bsize, bcap in *. lia.
Qed.

(** ** split_segment: insertion of one element *)

(** index entries for new elements at the end of the index *)
Lemma wp_build_tail t b s1 w R K (Q : BW -> unit -> Prop) (X : BW -> exn -> Prop) :
  env_layout = SplitLayout -> wfb0 t b -> split_ok b ->
  v_blk s1 = v_blk (be_store b) -> v_cap s1 = bcap b -> bsize b <= vsize s1 ->
  wfv (vh_eops t) s1 -> bown t w (set_store b s1) R K ->
  (forall w' b', be_store b' = s1 -> be_self b' = be_self b -> wfb t b' -> bown t w' b' R K ->
     wle w w' -> (roomy b -> forall k, be_ptr b' k = be_ptr b k) ->
     (vsize s1 = bsize b -> be_index b' = be_index b) -> Q (b', w') tt) ->
  (forall w' e, ~ roomy b -> wfb1 t (set_store b s1) -> bown t w' (set_store b s1) R K -> wle w w' ->
     vsize s1 = 1 -> bsize b = 0 ->
     (e = BadAlloc /\ faulted w w') \/ (e = LengthError /\ env_imax < 2) ->
     X (set_store b s1, w') e) ->
  wp (sp_build_index (S (bsize b))) (set_store b s1, w) Q X.
Proof.
  intros L [Ws Wi Wf] SP Eb Ec Es W1 H HQ HX.
  assert (Si := split_isize b SP). destruct SP as (SP1 & SP2 & SP3).
  unfold sp_build_index.
  apply wp_bind, wp_getx. cbn [fst be_store set_store].
  replace (S (vsize s1) - S (bsize b)) with (vsize s1 - bsize b) by lia.
  assert (ENT : entries b ++ map (vptr s1) (seq (S (bsize b)) (vsize s1 - bsize b)) =
                map (vptr s1) (seq 0 (S (vsize s1)))).
  { replace (S (vsize s1)) with (S (bsize b) + (vsize s1 - bsize b)) by lia.
    rewrite seq_app, map_app. f_equal. unfold entries, vptr. rewrite Eb. auto. }
  assert (Hs1 : vsize s1 <= bcap b) by (rewrite <- Ec; destruct W1; auto).
  eapply wp_sp_push_entries; [exact Wi|exact H| |].
  - intros w1 i1 El Wi1 H1 L1 P1. simpl in El, P1. rewrite seq_length in P1.
    assert (Hi1 : vsize i1 <= v_cap i1) by (destruct Wi1; auto).
    assert (Sz : vsize i1 = S (vsize s1)).
    { unfold vsize at 1. rewrite El, SP2, ENT, map_length, seq_length. auto. }
    apply HQ; auto.
    + split; [split; auto|]. rewrite L. split; [|split].
      * unfold bcap; simpl. lia.
      * simpl. rewrite El, SP2. exact ENT.
      * unfold roomy. unfold bcap. simpl. rewrite Ec. unfold bsize; simpl.
        destruct SP3 as [SP3|[S4 S5]].
        -- left. unfold roomy in SP3. destruct P1 as [_ ->]; lia.
        -- destruct (Nat.eq_dec (vsize s1) 0); [right; lia|left; lia].
    + intros RM k. rewrite !be_ptr_split by auto. unfold vptr. simpl. f_equal.
      unfold roomy in RM. apply P1. lia.
    + intros Z. simpl. rewrite Z, Nat.sub_diag in *. simpl in *. rewrite app_nil_r in El.
      destruct P1 as [P1 P2]; [rewrite Nat.add_0_r; destruct Wi; auto|].
      destruct i1, (be_index b); simpl in *; congruence.
  - intros w1 i1 e m C El Hm Wi1 H1 L1 Z Re. simpl in *. rewrite seq_length in *.
    assert (NR : ~ roomy b) by (unfold roomy; lia).
    destruct SP3 as [SP3|[S4 S5]]; [tauto|].
    assert (m = 0) by lia. subst m. rewrite (Z eq_refl) in *.
    apply HX; auto.
    + apply wfb1_store; auto; [split; auto|]. rewrite L. split; [exact SP1|]. split; [exact SP2|]. right; auto.
    + lia.
    + destruct Re as [?|(? & ?)]; auto. right. split; auto. lia.
Qed.

(** the index entry for a new element *)
Lemma wp_push_entry t b s1 w R K (Q : BW -> unit -> Prop) (X : BW -> exn -> Prop) :
  env_layout = SplitLayout -> wfb0 t b -> split_ok b ->
  v_blk s1 = v_blk (be_store b) -> v_cap s1 = bcap b -> vsize s1 = S (bsize b) ->
  wfv (vh_eops t) s1 -> bown t w (set_store b s1) R K ->
  (forall w' b', be_store b' = s1 -> be_self b' = be_self b -> wfb t b' -> bown t w' b' R K ->
     wle w w' -> (roomy b -> forall k, be_ptr b' k = be_ptr b k) -> Q (b', w') tt) ->
  (forall w' e, ~ roomy b -> wfb1 t (set_store b s1) -> bown t w' (set_store b s1) R K -> wle w w' ->
     (e = BadAlloc /\ faulted w w') \/ (e = LengthError /\ env_imax < 2) ->
     X (set_store b s1, w') e) ->
  wp sp_push_index_entry (set_store b s1, w) Q X.
Proof.
  intros L W0 SP Eb Ec Es W1 H HQ HX.
  unfold sp_push_index_entry. apply wp_bind, wp_getx. cbn [fst be_store set_store]. rewrite Es.
  eapply wp_build_tail; eauto. lia.
Qed.

(** expand and prereserve *)
Lemma wp_sp_expand t b w R K (Q : BW -> unit -> Prop) (X : BW -> exn -> Prop) :
  env_layout = SplitLayout -> wfb t b -> bown t w b R K -> bsize b = bcap b ->
  (forall w' b',
     belems b' = belems b -> wfb t b' -> bown t w' b' R K -> wle w w' ->
     bcap b' = grown t b -> roomy b' -> be_self b' = be_self b -> bsize b' < bcap b' ->
     w_next w <= v_blk (be_store b') < w_next w' -> Q (b', w') tt) ->
  (forall w' b' e, wfb t b' -> be_store b' = be_store b ->
     be_self b' = be_self b -> bown t w' b' R K -> wle w w' ->
     ins_reason t None b 1 w w' e -> X (b', w') e) ->
  wp (sp_expand t) (b, w) Q X.
Proof.
  intros L W H C HQ2 HX. unfold sp_expand. apply wp_bind, wp_getx. cbn [fst].
  destruct (expand_cap_bounds (env_vmax t) (bsize b)) as (B1 & B2 & B3).
  unfold bsize in *.
  eapply wp_grow; [exact L|exact W|exact H|lia| |].
  - intros w1 b1 El W1 H1 L1 Ec RM Sf Hb _. apply HQ2; auto.
    + unfold grown. rewrite L. auto.
    + rewrite Ec. unfold vsize, belems in *. rewrite El. auto.
  - intros w1 b1 e W1 Es Sf H1 L1 Re. apply HX; auto.
    destruct Re as [?|(? & Re)]; [left; auto|right]. split; auto. unfold len_err, bsize.
    destruct Re as [?|?]; [right; split; auto; lia|left].
    destruct (Nat.lt_ge_cases (vsize (be_store b)) (env_vmax t)); lia.
Qed.

Lemma wp_sp_prereserve t b w R K (Q : BW -> unit -> Prop) (X : BW -> exn -> Prop) :
  env_layout = SplitLayout -> wfb t b -> bown t w b R K ->
  (bsize b < bcap b -> Q (b, w) tt) ->
  (forall w' b', bsize b = bcap b ->
     belems b' = belems b -> wfb t b' -> bown t w' b' R K -> wle w w' ->
     bcap b' = grown t b -> roomy b' -> be_self b' = be_self b -> bsize b' < bcap b' ->
     w_next w <= v_blk (be_store b') < w_next w' -> Q (b', w') tt) ->
  (forall w' b' e, bsize b = bcap b -> wfb t b' -> be_store b' = be_store b ->
     be_self b' = be_self b -> bown t w' b' R K -> wle w w' ->
     ins_reason t None b 1 w w' e -> X (b', w') e) ->
  wp (sp_prereserve t) (b, w) Q X.
Proof.
  intros L W H HQ1 HQ2 HX. unfold sp_prereserve. apply wp_bind, wp_getx. cbn [fst].
  assert (Hs : bsize b <= bcap b) by (destruct W as [[[] ? ?] ?]; auto).
  destruct (Nat.eqb_spec (vsize (be_store b)) (v_cap (be_store b))) as [C|C].
  - eapply wp_sp_expand; eauto.
  - apply wp_ret. apply HQ1. unfold bsize, bcap in *. lia.
Qed.

Lemma wp_sp_prereserve_at t b p k w R K (Q : BW -> bpos -> Prop) (X : BW -> exn -> Prop) :
  env_layout = SplitLayout -> wfb t b -> bown t w b R K -> pos_at b p k ->
  (bsize b < bcap b -> Q (b, w) p) ->
  (forall w' b' p', bsize b = bcap b -> pos_at b' p' k ->
     (match p with PBase _ => p' = PBase (be_ptr b' k) | PConc _ => p' = PConc (vptr (be_store b') k) end) ->
     belems b' = belems b -> wfb t b' -> bown t w' b' R K -> wle w w' ->
     bcap b' = grown t b -> roomy b' -> be_self b' = be_self b -> bsize b' < bcap b' ->
     w_next w <= v_blk (be_store b') < w_next w' -> Q (b', w') p') ->
  (forall w' b' e, bsize b = bcap b -> wfb t b' -> be_store b' = be_store b ->
     be_self b' = be_self b -> bown t w' b' R K -> wle w w' ->
     ins_reason t None b 1 w w' e -> X (b', w') e) ->
  wp (sp_prereserve_at t p) (b, w) Q X.
Proof.
  intros L W H Hp HQ1 HQ2 HX.
  assert (Hs : bsize b <= bcap b) by (destruct W as [[[] ? ?] ?]; auto).
  unfold sp_prereserve_at. apply wp_bind, wp_getx. cbn [fst].
  destruct (Nat.eqb_spec (vsize (be_store b)) (v_cap (be_store b))) as [C|C].
  - apply wp_bind. eapply wp_sp_iterator_from; eauto.
    apply wp_bind. eapply wp_sp_expand; eauto.
    intros w1 b1 El W1 H1 L1 Ec RM Sf Hr Hb. apply wp_bind, wp_getx, wp_ret. cbn [fst].
    apply HQ2; auto; destruct p; rewrite ?be_ptr_split by auto; auto; unfold pos_at;
      rewrite ?be_ptr_split by auto; auto.
  - apply wp_ret. apply HQ1. unfold bsize, bcap in *. lia.
Qed.

Lemma ins_reason_weak t h b m w w' e : ins_reason t None b m w w' e -> ins_reason t h b m w w' e.
Proof. intros [?|?]; [left; apply bthrew_weak; auto|right; auto]. Qed.

(** what remains to be done once there is room *)
Lemma wp_sp_place t h k v b w R K (Q : BW -> ptr * ptr -> Prop) (X : BW -> exn -> Prop) :
  env_layout = SplitLayout -> wfb t b -> bown t w b R K -> k <= bsize b -> bsize b < bcap b ->
  (forall b' w' r, ins_ok t k v b w R K b' w' r -> Q (b', w') r) ->
  (forall b' w' e, ins_exn t h k b w R K b' w' e -> X (b', w') e) ->
  wp (n <- on_store (vec_emplace (vh_eops t) k h v) ;;
      sp_push_index_entry ;; sp_range_from n) (b, w) Q X.
Proof.
  intros L W H Hk Hr HQ HX. assert (SP := wfb_split _ _ L W).
  destruct (wfb_0 _ _ W) as [Ws Wi Wf].
  apply wp_bind, wp_on_store.
  eapply wp_vec_emplace; [exact Ws|apply bown_store_id; exact H|exact Hk| | |].
  - intros w1 s1 El W1 H1 L1 P1 _. cbn [fst snd]. apply bown_store in H1.
    destruct (P1 Hr) as [Eb Ec].
    assert (Es : vsize s1 = S (bsize b)).
    { unfold vsize. rewrite El, insert_at_length. reflexivity. }
    apply wp_bind. eapply wp_push_entry; [exact L|exact (wfb_0 _ _ W)|exact SP|auto|auto|auto|auto|exact H1| |].
    + intros w2 b2 Es2 Sf W2 H2 L2 ST. unfold sp_range_from. apply wp_bind, wp_getx, wp_ret. cbn [fst].
      apply HQ. unfold ins_ok. csplit; auto.
      * unfold belems at 1. rewrite Es2. auto.
      * wle_tac.
      * unfold be_end. rewrite !be_ptr_split by auto. auto.
      * intros _. unfold stable, bcap. rewrite Es2. csplit; auto.
        intros Hn. apply ST. destruct SP as (_ & _ & [?|[? ?]]); auto; lia.
      * lia.
    + intros w2 e NR W2 H2 L2 Re. apply HX. unfold ins_exn. csplit; auto; try (unfold bsize in *; simpl; lia); try wle_tac.
      * destruct Re as [(? & ?)|(? & ?)].
        -- left. left. split; auto. fmono.
        -- right. split; auto. right. split; auto. lia.
      * congruence.
      * intros _ RM. tauto.
  - intros w1 e H1 L1 Re. cbn [fst snd]. rewrite set_store_id.
    assert (H1' : bown t w1 b R K).
    { rewrite <- (set_store_id b). apply (bown_store t). exact H1. }
    apply HX. unfold ins_exn. csplit; auto; try lia; try congruence; [exact (wfb_1 _ _ W)|].
    destruct Re as [(-> & ? & ? & ->)|[(? & C)|(? & C)]].
    + unfold bsize, bcap in *. lia.
    + left. apply cthrew_bthrew. auto.
    + left. apply vthrew_bthrew. auto.
  - intros w1 s1 C1 C2 NT W1 (J1 & J2 & J3) H1 L1 F. cbn [fst snd]. apply bown_store in H1.
    apply HX. unfold ins_exn. csplit; auto; try lia; try congruence.
    + apply wfb1_store; auto; [split; auto|]. rewrite L. auto.
    + unfold bsize in *; simpl. lia.
    + unfold bsize in *; simpl. lia.
    + left. apply junk_bthrew; auto.
    + intros _ _ [C|C].
      * unfold bsize in *. lia.
      * unfold nothrow in C. simpl in NT. congruence.
Qed.

(** relating a placement after growth to the original state *)
Lemma ins_ok_grown t k v b b1 w w1 R K b' w' r :
  bsize b = bcap b -> belems b1 = belems b -> wle w w1 -> bcap b1 = grown t b ->
  be_self b1 = be_self b -> bsize b1 < bcap b1 ->
  w_next w <= v_blk (be_store b1) < w_next w1 ->
  ins_ok t k v b1 w1 R K b' w' r -> ins_ok t k v b w R K b' w' r.
Proof.
  intros F El L1 Ec Sf Hr Hb (A1 & A2 & A3 & A4 & A5 & A6 & A7 & A8).
  destruct (A7 Hr) as (B1 & B2 & B3). unfold ins_ok. csplit; auto; try congruence.
  - wle_tac.
  - intros; lia.
  - intros _. csplit; try congruence; rewrite B1; wle_tac.
Qed.
Lemma ins_exn_grown t h k b b1 w w1 R K b' w' e :
  env_layout = SplitLayout -> bsize b = bcap b -> belems b1 = belems b -> wle w w1 ->
  be_self b1 = be_self b -> bsize b1 < bcap b1 -> roomy b1 -> wfb t b1 ->
  ins_exn t h k b1 w1 R K b' w' e ->
  wfb1 t b' /\ bown t w' b' R K /\ wle w w' /\ be_self b' = be_self b /\
  bsize b <= bsize b' <= S (bsize b) /\
  ins_reason t (Some h) b 1 w w' e /\
  (k = bsize b \/ nothrow t = true -> wfb t b' /\ belems b' = belems b).
Proof.
  intros L F El L1 Sf Hr RM W1 (A1 & A2 & A3 & A4 & A5 & A6 & _ & A8).
  assert (Es : bsize b1 = bsize b) by (unfold bsize, vsize; unfold belems in El; rewrite El; auto).
  csplit; auto; try congruence; try lia.
  - wle_tac.
  - destruct A6 as [?|(? & [?|?])]; [left; rewrite <- Es; bmono|right..]; split; auto; unfold len_err;
      rewrite <- Es; auto.
  - intros HK. rewrite <- Es in HK. destruct (A8 L RM HK) as (B1 & B2 & _).
    split; auto. unfold belems in *. congruence.
Qed.

Lemma wp_sp_emplace t h p k x v b w R K (Q : BW -> ptr * ptr -> Prop) (X : BW -> exn -> Prop) :
  env_layout = SplitLayout -> wfb t b -> bown t w b R K -> pos_at b p k -> k <= bsize b ->
  src_ok b h x v ->
  (forall b' w' r, ins_ok t k v b w R K b' w' r -> Q (b', w') r) ->
  (forall b' w' e, ins_exn t h k b w R K b' w' e -> X (b', w') e) ->
  wp (sp_emplace t h p x) (b, w) Q X.
Proof.
  intros L W H Hp Hk Hx HQ HX. unfold sp_emplace.
  apply wp_bind. eapply wp_sp_prereserve_at; [exact L|exact W|exact H|exact Hp| | |].
  - intros Hr. apply wp_bind. eapply wp_sp_iterator_from; eauto.
    apply wp_bind. eapply wp_read_src; eauto. eapply wp_sp_place; eauto.
  - intros w1 b1 p1 F Hp1 _ El W1 H1 L1 Ec RM Sf Hr Hb.
    assert (Es : bsize b1 = bsize b) by (unfold bsize, vsize; unfold belems in El; rewrite El; auto).
    apply wp_bind. eapply wp_sp_iterator_from; eauto.
    apply wp_bind. eapply wp_read_src; [eapply src_ok_grown; eauto|].
    eapply wp_sp_place; [exact L|exact W1|exact H1|lia|exact Hr| |].
    + intros b2 w2 r O. apply HQ. eapply ins_ok_grown; eauto.
    + intros b2 w2 e O. apply HX.
      destruct (ins_exn_grown t h k b b1 w w1 R K b2 w2 e) as (A1 & A2 & A3 & A4 & A5 & A6 & A7); auto.
      unfold ins_exn. csplit; auto; try lia; try congruence.
      intros _ _ HK. destruct (A7 HK). csplit; auto. lia.
  - intros w1 b1 e F W1 Es Sf H1 L1 Re. apply HX. unfold ins_exn, belems.
    assert (E1 : bsize b1 = bsize b) by (unfold bsize; rewrite Es; auto).
    csplit; auto; try lia; try congruence.
    + exact (wfb_1 _ _ W1).
    + apply ins_reason_weak; auto.
    + intros. csplit; auto; [congruence|lia].
Qed.

Lemma wp_sp_insert t h p k x v b w R K (Q : BW -> ptr * ptr -> Prop) (X : BW -> exn -> Prop) :
  env_layout = SplitLayout -> wfb t b -> bown t w b R K -> pos_at b p k -> k <= bsize b ->
  src_ok b h x v ->
  (forall b' w' r, ins_ok t k v b w R K b' w' r -> Q (b', w') r) ->
  (forall b' w' e, ins_exn t h k b w R K b' w' e -> X (b', w') e) ->
  wp (sp_insert t h p x) (b, w) Q X.
Proof.
  intros L W H Hp Hk Hx HQ HX. unfold sp_insert. apply wp_bind.
  eapply wp_sp_conc; eauto using wfb_split. intros Hq.
  eapply wp_sp_emplace; eauto.
Qed.

(** emplace_back is emplace at the end *)
Lemma vec_emplace_end {A} (eo : eops A) h x v w :
  vec_emplace eo (vsize v) h x (v, w) =
  (vec_emplace_back eo h x ;; ret (vsize v)) (v, w).
Proof.
  unfold vec_emplace. unfold bind at 1, getx at 1. cbn [fst].
  rewrite Nat.ltb_irrefl, Nat.eqb_refl. reflexivity.
Qed.

Lemma wp_sp_push_back t h x v b w R K (Q : BW -> ptr * ptr -> Prop) (X : BW -> exn -> Prop) :
  env_layout = SplitLayout -> wfb t b -> bown t w b R K -> src_ok b h x v ->
  (forall b' w' r, ins_ok t (bsize b) v b w R K b' w' r -> Q (b', w') r) ->
  (forall b' w' e, ins_exn t h (bsize b) b w R K b' w' e -> X (b', w') e) ->
  wp (sp_push_back t h x) (b, w) Q X.
Proof.
  intros L W H Hx HQ HX. unfold sp_push_back.
  (* the program is the one of wp_sp_place, up to how the result is computed *)
  assert (PL : forall b1 w1 (Q1 : BW -> ptr * ptr -> Prop) (X1 : BW -> exn -> Prop),
    wfb t b1 -> bown t w1 b1 R K -> bsize b1 < bcap b1 ->
    (forall b' w' r, ins_ok t (bsize b1) v b1 w1 R K b' w' r -> Q1 (b', w') r) ->
    (forall b' w' e, ins_exn t h (bsize b1) b1 w1 R K b' w' e -> X1 (b', w') e) ->
    wp (on_store (vec_emplace_back (vh_eops t) h v) ;;
        sp_push_index_entry ;; b <- getx ;; sp_range_from (vsize (be_store b) - 1)) (b1, w1) Q1 X1).
  { intros b1 w1 Q1 X1 W1 H1 Hr HQ1 HX1.
    assert (P := wp_sp_place t h (bsize b1) v b1 w1 R K
       (fun s r => ins_ok t (bsize b1) v b1 w1 R K (fst s) (snd s) r)
       (fun s e => ins_exn t h (bsize b1) b1 w1 R K (fst s) (snd s) e)
       L W1 H1 (le_n _) Hr).
    specialize (P (fun _ _ _ h => h) (fun _ _ _ h => h)).
    unfold wp, bind, on_store, on_field in *. cbn [fst snd] in *.
    unfold bsize at 1 in P. rewrite vec_emplace_end in P. unfold bind in P.
    destruct (vec_emplace_back (vh_eops t) h v (be_store b1, w1)) as [[s2 w2] []|[s2 w2] e|]; [|apply HX1; exact P|exact P].
    unfold ret in P. cbn [fst snd] in P.
    match type of P with context [sp_push_index_entry ?st] => destruct (sp_push_index_entry st) as [[b3 w3] []|[b3 w3] e|] end; [|apply HX1; exact P|exact P].
    unfold getx, sp_range_from, bind, ret, getx in *. cbn [fst snd] in *.
    assert (Sz : vsize (be_store b3) = S (bsize b1)).
    { destruct P as (El & _). unfold belems in El. unfold vsize. rewrite El, insert_at_length. reflexivity. }
    apply HQ1. rewrite Sz in *. simpl. rewrite Nat.sub_0_r. exact P. }
  apply wp_bind. eapply wp_sp_prereserve; [exact L|exact W|exact H| | |].
  - intros Hr. apply wp_bind. eapply wp_read_src; eauto.
  - intros w1 b1 F El W1 H1 L1 Ec RM Sf Hr Hb.
    assert (Es : bsize b1 = bsize b) by (unfold bsize, vsize; unfold belems in El; rewrite El; auto).
    apply wp_bind. eapply wp_read_src; [eapply src_ok_grown; eauto|].
    eapply PL; [exact W1|exact H1|exact Hr| |].
    + intros b2 w2 r O. apply HQ. rewrite Es in O. eapply ins_ok_grown; eauto.
    + intros b2 w2 e O. apply HX. rewrite Es in O.
      destruct (ins_exn_grown t h (bsize b) b b1 w w1 R K b2 w2 e) as (A1 & A2 & A3 & A4 & A5 & A6 & A7); auto.
      unfold ins_exn. csplit; auto; try lia; try congruence.
      intros _ _ HK. destruct (A7 HK). csplit; auto. lia.
  - intros w1 b1 e F W1 Es Sf H1 L1 Re. apply HX. unfold ins_exn, belems.
    assert (E1 : bsize b1 = bsize b) by (unfold bsize; rewrite Es; auto).
    csplit; auto; try lia; try congruence.
    + exact (wfb_1 _ _ W1).
    + apply ins_reason_weak; auto.
    + intros. csplit; auto; [congruence|lia].
Qed.

(** ** Insertion of one element, both layouts *)

Lemma wp_be_push_back t h x v b w R K (Q : BW -> ptr * ptr -> Prop) (X : BW -> exn -> Prop) :
  wfb t b -> bown t w b R K -> src_ok b h x v ->
  (forall b' w' r, ins_ok t (bsize b) v b w R K b' w' r -> Q (b', w') r) ->
  (forall b' w' e, ins_exn t h (bsize b) b w R K b' w' e -> X (b', w') e) ->
  wp (be_push_back t h x) (b, w) Q X.
Proof.
  intros. unfold be_push_back. destruct env_layout eqn:L.
  - eapply wp_pk_push_back; eauto.
  - eapply wp_sp_push_back; eauto.
Qed.

Lemma wp_be_insert t h p k x v b w R K (Q : BW -> ptr * ptr -> Prop) (X : BW -> exn -> Prop) :
  wfb t b -> bown t w b R K -> pos_at b p k -> k <= bsize b -> src_ok b h x v ->
  (forall b' w' r, ins_ok t k v b w R K b' w' r -> Q (b', w') r) ->
  (forall b' w' e, ins_exn t h k b w R K b' w' e -> X (b', w') e) ->
  wp (be_insert t h p x) (b, w) Q X.
Proof.
  intros. unfold be_insert. destruct env_layout eqn:L.
  - eapply wp_pk_insert; eauto.
  - eapply wp_sp_insert; eauto.
Qed.

Lemma wp_be_emplace t h p k x v b w R K (Q : BW -> ptr * ptr -> Prop) (X : BW -> exn -> Prop) :
  wfb t b -> bown t w b R K -> pos_at b p k -> k <= bsize b -> src_ok b h x v ->
  (forall b' w' r, ins_ok t k v b w R K b' w' r -> Q (b', w') r) ->
  (forall b' w' e, ins_exn t h k b w R K b' w' e -> X (b', w') e) ->
  wp (be_emplace t h p x) (b, w) Q X.
Proof.
  intros. unfold be_emplace. destruct env_layout eqn:L.
  - eapply wp_pk_insert; eauto.
  - eapply wp_sp_emplace; eauto.
Qed.

End POps.
