(** * Cost of inserting a range of elements of one type at once *)

From Coq Require Import List Arith Lia Bool Permutation.
From Verif Require Import Base Vec Backend Segment Coll Spec Reach ProofBase ProofVec ProofBackend ProofOps ProofOps2 ProofSeg ProofMap ProofView ProofColl
  ProofIns ProofRange ProofRange2 ProofReach ProofObs ProofProp ProofCost ProofCost2 ProofCost3 ProofCost4.
Import ListNotations.

(** Whatever the outcome, the state afterwards satisfies [P]. *)
Definition ends {S A} (P : S -> Prop) (m : M S A) (s : S) : Prop := match m s with Ok s' _ => P s' | Exn s' _ => P s' | UB => True end.
Lemma ends_bind {S A B} (P : S -> Prop) (m : M S A) (f : A -> M S B) s : ends P m s -> (forall s' a, P s' -> ends P (f a) s') -> ends P (bind m f) s.
Proof. unfold ends, bind. intros H K. destruct (m s) as [s' a|s' e|]; auto. exact (K s' a H). Qed.
Lemma ends_try {S A} (P : S -> Prop) (m : M S A) h s : ends P m s -> (forall s', P s' -> ends P h s') -> ends P (try_rethrow m h) s.
Proof. unfold ends, try_rethrow. destruct (m s) as [| s' e|]; auto. intros H K. specialize (K s' H). destruct (h s'); auto. Qed.

Section Cost8.
Context {V : Type} {E : Env V}.
Notation BW := (backend V * world)%type.
Notation CW := (coll V * world)%type.
Notation isize b := (vsize (be_index b)).
Notation icap b := (v_cap (be_index b)).

Section Sizes.
Context {A : Type} (eo : eops A) (N : nat).
Notation VW := (vec A * world)%type.
Let P (s : VW) : Prop := vsize (fst s) <= N.
Lemma ends_world {B} (m : M world B) (s : VW) : P s -> ends P (on_world m) s.
Proof. unfold ends, on_world, P. destruct (m (snd s)); auto. Qed.
Lemma ends_set l (s : VW) : length l <= N -> ends P (set_elems l) s.
Proof. unfold ends, set_elems, modify, P, vsize. auto. Qed.
Lemma ends_junk clk n m (s : VW) : P s -> n + m <= N -> ends P (leave_junk eo clk n m) s.
Proof.
  intros H L. unfold leave_junk. apply ends_bind; [apply ends_world, H|]. intros s' _ _. apply ends_set. unfold junk_list. rewrite map_length, seq_length. lia.
Qed.
Lemma ends_insert_range k h xs (s : VW) : vsize (fst s) + length xs <= N -> ends P (vec_insert_range eo k h xs) s.
Proof.
  intros L. assert (H : P s) by (unfold P; lia). unfold vec_insert_range. unfold bind at 1, getx at 1, ends.
  destruct (_ <? k) eqn:K; [exact I|]. apply Nat.ltb_ge in K. destruct (_ =? 0); [exact H|]. destruct (_ <? _ + _); [exact H|].
  match goal with |- match ?m s with Ok _ _ => _ | Exn _ _ => _ | UB => _ end => change (ends P m s) end.
  apply ends_bind; [apply ends_world, H|]. intros s1 clk H1. apply ends_bind.
  - destruct (_ + _ <=? _).
    + apply ends_bind.
      * apply ends_try; [apply ends_world, H1|]. intros s2 H2. apply ends_bind; [apply ends_world, H2|]. intros s3 _ H3. apply ends_junk; auto.
      * intros s2 _ H2. unfold shift_step. apply ends_bind; [apply ends_world, H2|]. intros s3 _ H3. destruct (_ && _); [exact H3|].
        apply ends_bind; [apply ends_world, H3|]. intros s4 k4 H4. apply ends_try; [apply ends_world, H4|]. intros s5 H5. apply ends_junk; auto.
    + apply ends_bind; [apply ends_world, H1|]. intros s2 nb H2. apply ends_bind.
      * apply ends_try; [apply ends_world, H2|]. intros s3 H3. apply ends_bind; [apply ends_world, H3|]. intros s4 _ H4. apply ends_junk; auto. lia.
      * intros s3 _ H3. apply ends_bind; [apply ends_world, H3|]. intros s4 _ H4. unfold ends, setx, P, vsize in *. cbn [fst v_elems]. lia.
  - intros s2 _ H2. apply ends_bind; [|intros s3 _ H3; exact H3]. apply ends_set. unfold insert_list_at.
    rewrite !app_length, firstn_length, skipn_length. unfold vsize in *. lia.
Qed.
End Sizes.

(** entries of an index which has room, or of one which has not grown yet *)
Lemma cost_push_few ns (s : BW) : isize (fst s) + length ns <= icap (fst s) \/ (isize (fst s) = 1 /\ length ns <= 1) ->
  xcost (sp_push_entries ns) s (length ns + 5).
Proof.
  intros [H|(H1 & H2)]; [eapply cost_mono; [apply cost_push_entries, H|lia]|].
  destruct ns as [|n [|n' ns]]; cbn [length] in H2; [eapply cost_mono; [apply cost_ret|lia]| |lia].
  cbn [sp_push_entries length]. apply cost_bind_getx. eapply cost_mono; [apply (cost_bind _ _ _ _ 5 0)|lia].
  - apply cost_on_field. eapply cost_mono; [apply cost_emplace_back|]. cbn [fst]. rewrite H1. destruct (_ <? _); lia.
  - intros. apply cost_ret.
Qed.

(** inserting [m] elements at index [k] *)
Definition range_cost (b : backend V) (k m : nat) : nat :=
  if bsize b + m <=? bcap b then 3 * (bsize b - k) + 10 * m + 10 else 11 * bsize b + 10 * m + 19.

Lemma cost_pk_range_insert t h p k xs (b : backend V) w : env_layout = PackedLayout -> pos_at b p k ->
  xcost (pk_insert_range t h p xs) (b, w) (range_cost b k (length xs)).
Proof.
  intros L P. unfold pk_insert_range. apply cost_bind0; [apply cost_pk_iterator_from|]. intros s1 j Q1.
  apply (pk_iterator_from_ok p k) in Q1; auto. destruct Q1 as (-> & ->).
  eapply cost_mono; [apply cost_bind; [apply cost_on_field, cost_insert_range|]; intros; apply cost_pk_range|].
  cbn [fst]. unfold range_cost, bsize, bcap. destruct (_ <=? _); lia.
Qed.

(** the elements go in, then their entries *)
Lemma cost_range_in t h q k xs (b : backend V) w : env_layout = SplitLayout -> pos_at b q k -> xs <> [] ->
  isize b = S (bsize b) -> (S (bsize b) + length xs <= icap b \/ (bsize b = 0 /\ length xs <= 1)) -> bsize b + length xs <= bcap b ->
  xcost (k <- sp_iterator_from q ;; try_rethrow (on_store (vec_insert_range (vh_eops t) k h xs)) (sp_build_index (bsize b + 1)) ;;
         sp_build_index (bsize b + 1) ;; ret q)%mon (b, w) (3 * (bsize b - k) + 10 * length xs + 10).
Proof.
  intros L P Ne I R C. apply cost_bind0; [apply cost_sp_iterator_from|]. intros s1 j Q1.
  apply (sp_iterator_from_ok q k) in Q1; auto. destruct Q1 as (-> & ->).
  assert (B : forall (s : BW), be_index (fst s) = be_index b -> bsize (fst s) <= bsize b + length xs -> xcost (sp_build_index (bsize b + 1)) s (length xs + 5)).
  { intros s Ei Le. unfold sp_build_index. apply cost_bind_getx. eapply cost_mono; [apply cost_push_few|]; rewrite seq_length; unfold bsize in *; [|lia].
    rewrite Ei. lia. }
  pose proof (ends_insert_range (vh_eops t) (bsize b + length xs) k h xs (be_store b, w) (Nat.le_refl _)) as En. unfold ends in En.
  eapply cost_mono; [apply (cost_bind _ _ _ _ (3 * (bsize b - k) + 8 * length xs + (length xs + 5)) (length xs + 5))|lia].
  - apply cost_try.
    + apply cost_on_field. eapply cost_mono; [apply cost_insert_range|]. cbn [fst]. unfold bsize, bcap in *. rewrite (proj2 (Nat.leb_le _ _) C). lia.
    + intros s e Q. unfold on_store, on_field in Q. cbn [fst snd] in Q. destruct (vec_insert_range _ k h xs _) as [[v' w'] a'|[v' w'] e'|]; inversion Q; subst.
      apply B; [reflexivity|]. exact En.
  - intros s u Q. unfold try_rethrow in Q. unfold on_store, on_field in Q. cbn [fst snd] in Q.
    destruct (vec_insert_range _ k h xs _) as [[v' w'] a'|[v' w'] e'|]; [|destruct (sp_build_index _ _); discriminate|discriminate]. inversion Q; subst.
    rewrite <- (Nat.add_0_r (length xs + 5)). apply cost_bind; [|intros; apply cost_ret]. apply B; [reflexivity|]. exact En.
Qed.

Lemma cost_sp_forward t h p k xs (b : backend V) w : env_layout = SplitLayout -> split_ok b -> pos_at b p k ->
  xcost (sp_insert_forward t h p xs) (b, w) (range_cost b k (length xs)).
Proof.
  intros L S P. unfold sp_insert_forward. apply cost_bind_getx. cbn [fst]. rewrite <- (Nat.add_0_r (range_cost _ _ _)).
  apply cost_bind; [|intros; apply cost_bind0; [apply cost_sp_iterator_from|intros; apply cost_sp_range]].
  destruct (length xs =? 0) eqn:Z; [eapply cost_mono; [apply cost_ret|lia]|]. apply Nat.eqb_neq in Z.
  assert (Ne : xs <> []) by (intros ->; apply Z; reflexivity). pose proof (split_isize b S) as Hi.
  unfold sp_prereserve_n. unfold range_cost. change (vsize (be_store b)) with (bsize b). destruct (bsize b + length xs <=? bcap b) eqn:R.
  - apply Nat.leb_le in R. apply cost_bind0.
    + apply cost_bind_getx. cbn [fst]. change (vsize (be_store b)) with (bsize b). change (v_cap (be_store b)) with (bcap b).
      rewrite (proj2 (Nat.ltb_ge _ _)) by lia. apply cost_ret.
    + intros s1 q Q. unfold bind at 1, getx at 1 in Q. cbn [fst] in Q. change (vsize (be_store b)) with (bsize b) in Q. change (v_cap (be_store b)) with (bcap b) in Q.
      rewrite (proj2 (Nat.ltb_ge _ _)) in Q by lia. inversion Q; subst. apply cost_range_in; auto.
      destruct S as (_ & _ & [S|(S1 & S2)]); [left; unfold roomy in S; lia|right; lia].
  - apply Nat.leb_gt in R. eapply cost_mono; [apply (cost_bind _ _ _ _ (8 * bsize b + 9) (3 * (bsize b - k) + 10 * length xs + 10))|lia].
    + apply cost_bind_getx. cbn [fst]. change (vsize (be_store b)) with (bsize b). change (v_cap (be_store b)) with (bcap b).
      rewrite (proj2 (Nat.ltb_lt _ _)) by lia. apply cost_bind0; [apply cost_sp_iterator_from|]. intros s1 j Q1.
      apply (sp_iterator_from_ok p k) in Q1; auto. destruct Q1 as (-> & ->). rewrite <- (Nat.add_0_r (_ + 9)).
      apply cost_bind; [|intros; apply cost_bind_getx, cost_ret]. unfold sp_expand_n. apply cost_bind_getx. cbn [fst]. change (vsize (be_store b)) with (bsize b).
      apply cost_grow; cbn [fst]; auto. lia.
    + intros s1 q Q1. unfold bind at 1, getx at 1 in Q1. cbn [fst] in Q1.
      change (vsize (be_store b)) with (bsize b) in Q1. change (v_cap (be_store b)) with (bcap b) in Q1.
      rewrite (proj2 (Nat.ltb_lt _ _)) in Q1 by lia. inv_bind Q1. apply (sp_iterator_from_ok p k) in Q; auto. destruct Q as (-> & ->).
      inv_bind Q1. unfold sp_expand_n in Q. unfold bind at 1, getx at 1 in Q. cbn [fst] in Q. apply grow_ok in Q; [|cbn [fst]; unfold bsize; lia].
      cbn [fst] in Q. destruct Q as (X1 & X2 & X3 & X4). unfold bind at 1, getx at 1 in Q1.
      inversion Q1; subst. destruct s1 as [b1 w1]. cbn [fst] in *. rewrite <- X1. change (vsize (be_store b)) with (bsize b) in X2, X4. rewrite <- X1 in X2, X3, X4.
      apply cost_range_in; auto. right; reflexivity.
Qed.
Lemma cost_be_insert_range t h p k xs (b : backend V) w : wfb t b -> pos_at b p k -> k <= bsize b ->
  xcost (be_insert_range t h true p xs) (b, w) (range_cost b k (length xs)).
Proof.
  intros W P Hk. unfold be_insert_range. pose proof (wfb_layout _ _ W) as Wl. destruct env_layout eqn:L.
  - apply cost_pk_range_insert; auto.
  - apply cost_bind0; [apply cost_sp_conc|]. intros s1 q Q. apply (sp_conc_ok p k) in Q; auto. destruct Q as (-> & ->).
    apply cost_sp_forward; auto. right. reflexivity.
Qed.
Lemma cost_be_append_range t h xs (b : backend V) w : wfb t b ->
  xcost (be_append_range t h true xs) (b, w) (range_cost b (bsize b) (length xs)).
Proof.
  intros W. unfold be_append_range. apply cost_bind_getx. cbn [fst]. pose proof (wfb_layout _ _ W) as Wl. destruct env_layout eqn:L.
  - apply cost_pk_range_insert; auto. right. reflexivity.
  - apply cost_sp_forward; auto. right. reflexivity.
Qed.
Lemma cost_seg_insert_range t h p k xs (s : segment V) w : wfs s -> pos_at (sg_be s) p k -> k <= bsize (sg_be s) ->
  xcost (seg_insert_range t h true p xs) (s, w) (range_cost (sg_be s) k (length xs)).
Proof. intros W P Hk. unfold seg_insert_range. apply cost_check. intros Et. apply cost_filter_range. apply cost_be_insert_range; auto. rewrite <- Et. apply W. Qed.
Lemma cost_seg_append_range t h xs (s : segment V) w : wfs s ->
  xcost (seg_append_range t h true xs) (s, w) (range_cost (sg_be s) (bsize (sg_be s)) (length xs)).
Proof. intros W. unfold seg_append_range. apply cost_check. intros Et. apply cost_filter_range. apply cost_be_append_range; auto. rewrite <- Et. apply W. Qed.

(** the same in terms of the collection *)
Definition range_work (c : coll V) (t : tyid) (k m : nat) : nat :=
  if length (elems c t) + m <=? cap_of c t then 3 * (length (elems c t) - k) + 10 * m + 10 else 11 * length (elems c t) + 10 * m + 19.
Lemma prev_range_cost w c t i s k m : wfm w c -> prev c t i s -> k <= length (elems c t) -> m <> 0 -> range_cost (sg_be s) k m <= range_work c t k m.
Proof.
  intros W P K M. unfold range_cost, range_work. pose proof (prev_size _ _ _ _ _ W P) as Z. rewrite Z.
  destruct (in_dec Nat.eq_dec t (types c)) as [I|N].
  - rewrite (prev_cap _ _ _ _ _ W P I). lia.
  - pose proof (prev_unreg _ _ _ _ P N) as Z0. rewrite Z in Z0. rewrite Z0 in *.
    assert (Cz : cap_of c t = 0).
    { unfold cap_of. rewrite seg_at_none by (rewrite <- types_nodes; exact N). reflexivity. }
    rewrite Cz. rewrite (proj2 (Nat.leb_gt (0 + m) 0)) by lia. destruct (_ <=? _); lia.
Qed.
Lemma cost_made_range {A} w c a R K (s1 : CW) n k m0 (m : M (segment V * world) A) : wfc w c -> made w c a R K (snd s1) (fst s1) n -> k <= length (elems c (env_ty a)) -> m0 <> 0 ->
  xcost m (n_seg n, snd s1) (range_cost (sg_be (n_seg n)) k m0) -> xcost (on_seg (n_id n) m) s1 (range_work c (env_ty a) k m0).
Proof.
  intros W M Hk Hm H. pose proof (made_seg _ _ _ _ _ _ _ _ (wc_map _ _ W) M) as P.
  destruct s1 as [c1 w1]. cbn [fst snd] in *. destruct M as (_ & _ & _ & _ & Ha & _).
  eapply cost_on_seg; [exact Ha|]. eapply cost_mono; [exact H|]. eapply prev_range_cost; [apply W|exact P|exact Hk|exact Hm].
Qed.
Lemma cost_c_range_terminal a h xs (c : coll V) w R K : let t := env_ty a in wfc w c -> cown w c R K ->
  xcost (c_insert_range_terminal a h true xs) (c, w) (11 + range_work c t (length (elems c t)) (length xs)).
Proof.
  intros t W H. unfold c_insert_range_terminal. destruct xs as [|x xs]; [eapply cost_mono; [apply cost_ret|lia]|]. remember (x :: xs) as l eqn:El.
  assert (Z0 : length l <> 0) by (subst l; discriminate). clear El.
  apply cost_bind; [apply cost_find_or_make|]. intros s1 i Q.
  destruct (find_ok _ _ _ _ _ _ _ (wc_map _ _ W) H Q) as (n & -> & M). destruct (made_wfs _ _ _ _ _ _ _ _ W M) as (Ws & Z).
  rewrite <- (Nat.add_0_r (range_work _ _ _ _)). apply cost_bind; [|intros; apply cost_ret].
  eapply cost_made_range; [exact W|exact M|reflexivity|exact Z0|]. fold t in Z. unfold t in *. rewrite <- Z. apply cost_seg_append_range, Ws.
Qed.
Lemma cost_c_hint_range_terminal hint g k a h xs (c : coll V) w R K : let t := env_ty a in wfc w c -> cown w c R K ->
  located c hint g -> hint_at c hint t k -> hint_safe c hint t -> k <= length (elems c t) ->
  xcost (c_insert_hint_range_terminal hint a h true xs) (c, w) (11 + range_work c t k (length xs)).
Proof.
  intros t W H L Ha Hs Hk. unfold c_insert_hint_range_terminal. destruct xs as [|x xs]; [eapply cost_mono; [apply cost_ret|lia]|]. remember (x :: xs) as l eqn:El.
  assert (Z0 : length l <> 0) by (subst l; discriminate). clear El.
  apply cost_bind; [apply cost_find_or_make|]. intros s1 i Q.
  destruct (find_ok _ _ _ _ _ _ _ (wc_map _ _ W) H Q) as (n & -> & M). destruct (made_wfs _ _ _ _ _ _ _ _ W M) as (Ws & Z). fold t in Z.
  apply cost_bind0; [apply cost_same_node|]. intros s2 b Q2.
  destruct (same_ok _ _ _ _ _ _ _ _ _ _ _ _ W H L M Ha Hs Q2) as (-> & Tr & Fa). fold t in Fa.
  rewrite <- (Nat.add_0_r (range_work _ _ _ _)). apply cost_bind; [|intros; apply cost_ret]. destruct b.
  - destruct (Tr eq_refl) as (P & Hlt). eapply cost_made_range; [exact W|exact M|exact Hk|exact Z0|]. apply cost_seg_insert_range; [exact Ws|exact P|lia].
  - specialize (Fa eq_refl). rewrite <- Z in Fa. subst k. eapply cost_made_range; [exact W|exact M|exact Hk|exact Z0|]. apply cost_seg_append_range, Ws.
Qed.
End Cost8.
