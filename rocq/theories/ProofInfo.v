(** * Proofs about segment descriptors *)

From Coq Require Import List Arith Lia Bool Permutation.
From Verif Require Import Base Vec Backend Segment Coll Info Spec SpecInfo Reach ProofBase ProofVec ProofBackend ProofOps ProofOps2
  ProofSeg ProofMap ProofView ProofColl ProofIns ProofEach ProofErase ProofRange ProofRange2 ProofEq ProofCopy ProofReach ProofObs.
Import ListNotations.

Section ProofInfo.
Context {V : Type} {E : Env V}.
Notation CW := (coll V * world)%type.
Notation CM := (M (coll V * world)).
Notation NL := (list (node V)).
Notation nb n := (sg_be (n_seg n)).
Notation nsz n := (bsize (sg_be (n_seg n))).

Lemma key_ty w (c : coll V) n : wfc w c -> In n (c_nodes c) -> env_ty (n_key n) = n_ty n.
Proof. intros W Hin. pose proof (wm_key w c (wc_map _ _ W)) as F. rewrite Forall_forall in F. auto. Qed.

(** ** Walking over a segment *)
Definition pos_at (base : bool) (n : node V) k : bpos :=
  if base then PBase (be_ptr (nb n) k) else PConc (vptr (be_store (nb n)) k).
Lemma pos_lpoints base c n k : In n (c_nodes c) -> k <= nsz n -> lpoints c (mkliter (n_id n) (pos_at base n k)) (n_ty n) k.
Proof. intros Hin Hk. exists n. csplit; auto. destruct base; auto. Qed.
Lemma pos_eqb base n k j : bpos_eqb (pos_at base n k) (pos_at base n j) = (k =? j).
Proof.
  destruct base; unfold pos_at, bpos_eqb; rewrite ?be_ptr_eq; unfold vptr, ptr_eqb; cbn [fst snd];
    rewrite Nat.eqb_refl; reflexivity.
Qed.
Lemma li_walk_at base w c g d n : reach w (c :: g) d -> In n (c_nodes c) -> forall fuel k,
  k <= nsz n -> nsz n - k <= fuel ->
  li_walk fuel c (mkliter (n_id n) (pos_at base n k)) (mkliter (n_id n) (pos_at base n (nsz n))) =
  Some (map (pair (n_ty n)) (skipn k (elems c (n_ty n)))).
Proof.
  intros H Hin. destruct (reach_wf _ _ _ _ H) as (W & O).
  assert (Hat : node_at (c_nodes c) (n_id n) = Some n) by (apply node_at_some; auto; apply W).
  assert (El : length (elems c (n_ty n)) = nsz n).
  { rewrite (elems_node w c n (wc_map _ _ W) Hin). apply n_elems_length. }
  induction fuel as [|f IH]; intros k Hk Hf; cbn [li_walk]; unfold li_eq; cbn [li_pos]; rewrite pos_eqb.
  - assert (k = nsz n) as -> by lia. rewrite Nat.eqb_refl, skipn_all2; [reflexivity|lia].
  - destruct (k =? nsz n) eqn:Q.
    + apply Nat.eqb_eq in Q. subst. rewrite skipn_all2; [reflexivity|lia].
    + apply Nat.eqb_neq in Q.
      rewrite (li_deref_spec w c g d _ (n_ty n) k H) by (apply pos_lpoints; auto).
      destruct (nth_error (elems c (n_ty n)) k) as [v|] eqn:Qv; cbn [option_map].
      2:{ apply nth_error_None in Qv. lia. }
      assert (li_next c (mkliter (n_id n) (pos_at base n k)) = Some (mkliter (n_id n) (pos_at base n (S k)))) as ->.
      { unfold li_next. cbn [li_map li_pos]. rewrite Hat.
        destruct base; unfold pos_at; rewrite ?be_ptr_eq; unfold vptr; cbn [fst snd];
          (replace (k <? be_size (nb n)) with true; [reflexivity|symmetry; apply Nat.ltb_lt; change (be_size (nb n)) with (nsz n); lia]). }
      rewrite IH by lia.
      destruct (nth_error_split _ _ Qv) as (l1 & l2 & El2 & Ek). rewrite El2. subst k.
      rewrite !skipn_app, !skipn_all, Nat.sub_diag, skipn_all2 by lia.
      replace (S (length l1) - length l1) with 1 by lia. reflexivity.
Qed.

(** ** Descriptors of nodes *)
Lemma describes_node w c g d n : reach w (c :: g) d -> In n (c_nodes c) -> describes c (mkinfo (Some (n_id n))) (n_ty n).
Proof.
  intros H Hin. destruct (reach_wf _ _ _ _ H) as (W & O).
  assert (Hat : node_at (c_nodes c) (n_id n) = Some n) by (apply node_at_some; auto; apply W).
  assert (El : length (elems c (n_ty n)) = nsz n).
  { rewrite (elems_node w c n (wc_map _ _ W) Hin). apply n_elems_length. }
  assert (Hn : inf_node c (mkinfo (Some (n_id n))) = Some n) by exact Hat.
  assert (Hb : inf_begin c (mkinfo (Some (n_id n))) = Some (mkliter (n_id n) (pos_at true n 0))).
  { unfold inf_begin. rewrite Hn. reflexivity. }
  assert (He : inf_end c (mkinfo (Some (n_id n))) = Some (mkliter (n_id n) (pos_at true n (nsz n)))).
  { unfold inf_end. rewrite Hn. reflexivity. }
  assert (Hconv : forall k, k <= nsz n ->
    li_to_conc c (mkliter (n_id n) (pos_at true n k)) = Some (mkliter (n_id n) (pos_at false n k))).
  { intros k Hk. unfold li_to_conc, pos_at. cbn [li_map li_pos]. rewrite Hat.
    rewrite (be_to_conc_ptr (n_ty n)); auto. apply (wfc_seg w c n); auto. }
  assert (Hba : inf_begin_as c (mkinfo (Some (n_id n))) = Some (mkliter (n_id n) (pos_at false n 0))).
  { unfold inf_begin_as. rewrite Hb. apply Hconv. lia. }
  assert (Hea : inf_end_as c (mkinfo (Some (n_id n))) = Some (mkliter (n_id n) (pos_at false n (nsz n)))).
  { unfold inf_end_as. rewrite He. apply Hconv. lia. }
  split.
  - exists (n_key n). unfold inf_type. rewrite Hn. split; auto. apply (key_ty w c n W Hin).
  - do 2 eexists. split; [exact Hb|]. apply (pos_lpoints true); auto. lia.
  - do 2 eexists. split; [exact He|]. rewrite El. apply (pos_lpoints true); auto.
  - do 2 eexists. split; [exact Hba|]. apply (pos_lpoints false); auto. lia.
  - do 2 eexists. split; [exact Hea|]. rewrite El. apply (pos_lpoints false); auto.
  - intros fuel Hf. unfold inf_elems. rewrite Hb, He. rewrite (li_walk_at true w c g d n H Hin fuel 0) by lia. reflexivity.
  - intros fuel Hf. unfold inf_elems_as. rewrite Hba, Hea. rewrite (li_walk_at false w c g d n H Hin fuel 0) by lia. reflexivity.
Qed.
Lemma describes_inv w c g d i t : reach w (c :: g) d -> describes c i t ->
  exists n, In n (c_nodes c) /\ i = mkinfo (Some (n_id n)) /\ n_ty n = t /\ env_ty (n_key n) = t.
Proof.
  intros H D. destruct (reach_wf _ _ _ _ H) as (W & O). destruct (ds_type _ _ _ D) as (a & Ha & Et).
  unfold inf_type, inf_node in Ha. destruct i as [[k|]]; cbn [inf_map] in Ha; [|discriminate].
  destruct (node_at (c_nodes c) k) as [n|] eqn:Q; [|discriminate]. inversion Ha; subst.
  apply node_at_in in Q. destruct Q as (Hin & <-). exists n. csplit; auto. symmetry. apply (key_ty w c n W Hin).
Qed.

(** ** The traversal *)
Lemma trav_all_from w c g d : reach w (c :: g) d -> forall l2 l1, c_nodes c = l1 ++ l2 -> forall fuel, length l2 <= fuel ->
  trav_all fuel c (match l2 with [] => None | n :: _ => Some (n_id n) end) (trav_end c) =
  Some (map (fun n => mkinfo (Some (n_id n))) l2).
Proof.
  intros H. destruct (reach_wf _ _ _ _ H) as (W & O).
  induction l2 as [|n l2 IH]; intros l1 Hl fuel Hf.
  - destruct fuel; reflexivity.
  - destruct fuel as [|f]; [simpl in Hf; lia|]. cbn [trav_all mapit_eqb trav_end trav_next].
    rewrite Hl, nodes_from_split by (rewrite <- Hl; apply W).
    specialize (IH (l1 ++ [n])). rewrite <- app_assoc in IH. specialize (IH Hl f). cbn [length] in Hf.
    destruct l2 as [|m l2']; rewrite IH by lia; reflexivity.
Qed.

(** ** Descriptors stay valid *)

(** Between two states of a collection no segment disappears, and as long as none is created (or
    if the creation of segments does not invalidate map iterators) every map iterator stays what
    it was. *)
Record persists (c c' : coll V) : Prop := {
  ps_len : length (c_nodes c) <= length (c_nodes c');
  ps_ids : env_rehash_stable = true \/ length (c_nodes c') = length (c_nodes c) ->
    forall n, In n (c_nodes c) -> exists n', In n' (c_nodes c') /\ n_id n' = n_id n /\ n_key n' = n_key n
}.
Lemma persists_refl c : persists c c.
Proof. split; eauto. Qed.
Lemma persists_trans c1 c2 c3 : persists c1 c2 -> persists c2 c3 -> persists c1 c3.
Proof.
  intros [A1 B1] [A2 B2]. split; [lia|]. intros Hs n Hin.
  destruct (B1 ltac:(destruct Hs; [left; auto|right; lia]) n Hin) as (n1 & H1 & I1 & K1).
  destruct (B2 ltac:(destruct Hs; [left; auto|right; lia]) n1 H1) as (n2 & H2 & I2 & K2).
  exists n2. csplit; congruence.
Qed.
Lemma persists_nodes c c' : c_nodes c' = c_nodes c -> persists c c'.
Proof. intros Hn. split; rewrite Hn; eauto. Qed.

Definition pers {A} (m : CM A) : Prop := forall c w,
  match m (c, w) with Ok (c', _) _ => persists c c' | Exn (c', _) _ => persists c c' | UB => True end.

Lemma pers_ret {A} (a : A) : pers (ret a).
Proof. intros c w. apply persists_refl. Qed.
Lemma pers_throw {A} e : pers (A := A) (throw e).
Proof. intros c w. apply persists_refl. Qed.
Lemma pers_ub {A} : pers (A := A) ub.
Proof. intros c w. exact I. Qed.
Lemma pers_getx : pers getx.
Proof. intros c w. apply persists_refl. Qed.
Lemma pers_world {A} (m : M world A) : pers (on_world m).
Proof. intros c w. unfold on_world. cbn [fst snd]. destruct (m w); auto; apply persists_refl. Qed.
Lemma pers_bind {A B} (m : CM A) (f : A -> CM B) : pers m -> (forall a, pers (f a)) -> pers (bind m f).
Proof.
  intros Hm Hf c w. unfold bind. specialize (Hm c w). destruct (m (c, w)) as [[c1 w1] a|[c1 w1] e|]; auto.
  specialize (Hf a c1 w1). destruct (f a (c1, w1)) as [[c2 w2] b|[c2 w2] e|]; auto; eapply persists_trans; eauto.
Qed.
Lemma pers_seg {A} i (m : M (segment V * world) A) : pers (on_seg i m).
Proof.
  intros c w. unfold on_seg. destruct (node_at (c_nodes c) i) as [n|] eqn:Q; auto.
  assert (forall sg, persists c (mkcoll (node_upd (c_nodes c) i sg) (c_buckets c) (c_cache c) (c_al c))) as P.
  { clear n Q. intros sg. split; cbn [c_nodes].
    - rewrite <- (map_length n_id (node_upd _ _ _)), upd_ids, map_length. auto.
    - intros _. induction (c_nodes c) as [|n ns IH]; cbn [node_upd]; [contradiction|].
      intros m0 [->|Hin].
      + destruct (n_id m0 =? i); [|exists m0; simpl; auto]. eexists. split; [left; reflexivity|]. auto.
      + destruct (n_id n =? i); [exists m0; simpl; auto|]. destruct (IH m0 Hin) as (n' & ? & ? & ?). exists n'. simpl; auto. }
  destruct (m (n_seg n, w)) as [[sg w'] a|[sg w'] e|]; auto.
Qed.
Lemma pers_cache a m : pers (cache_insert a m).
Proof.
  unfold cache_insert. apply pers_bind; [apply pers_world|]. intros _ c w. unfold bind, getx. cbn [fst].
  destruct (cache_find (c_cache c) a); [apply persists_refl|]. unfold setx. cbn [snd]. apply persists_nodes. reflexivity.
Qed.
Lemma pers_find a : pers (tim_find a).
Proof.
  unfold tim_find. apply pers_bind; [apply pers_getx|]. intros c0. destruct (cache_find _ _); [apply pers_ret|].
  destruct (map_find _ _); [|apply pers_ret]. apply pers_bind; [apply pers_cache|]. intros _. apply pers_ret.
Qed.
Lemma renumber_keys (ns : NL) w : match renumber ns w with Ok _ ns' => length ns' = length ns | _ => False end.
Proof.
  revert w. induction ns as [|n ns IH]; intros w; cbn [renumber]; [reflexivity|].
  unfold bind at 1. unfold fresh. cbn. unfold bind.
  match goal with |- context [renumber ns ?w1] => specialize (IH w1); destruct (renumber ns w1) as [w2 ns'|?|] end; try contradiction.
  cbn. auto.
Qed.
Lemma pers_emplace a s : pers (map_emplace a s).
Proof.
  unfold map_emplace. intros c w. unfold bind at 1, getx. cbn [fst].
  match goal with |- context [on_world ?m] => generalize m end. intros m0.
  unfold bind at 1. unfold on_world at 1. cbn [fst snd]. destruct (m0 w) as [w1 s1|w1 e|]; [|apply persists_refl|exact I].
  destruct (map_find (c_nodes c) a) as [i|].
  { pose proof (pers_bind (on_world (seg_delete s1)) (fun _ => ret (Some i, false)) (pers_world _) (fun _ => pers_ret _)) as P. apply P. }
  unfold bind at 1. unfold on_world at 1. cbn [fst snd].
  match goal with |- context [try_rethrow ?x ?y ?z] => destruct (try_rethrow x y z) as [w2 []|w2 e|] end; [|apply persists_refl|exact I].
  unfold bind at 1. unfold on_world at 1. cbn [fst snd]. destruct (fresh w2) as [w3 i|w3 e|]; [|apply persists_refl|exact I].
  unfold bind at 1. unfold on_world at 1. cbn [fst snd]. destruct (clock w3) as [w4 clk|w4 e|]; [|apply persists_refl|exact I].
  unfold bind at 1.
  set (bk := env_buckets _ _).
  assert (forall ns, length ns = length (c_nodes c) -> (env_rehash_stable = true -> ns = c_nodes c) ->
    persists c (mkcoll (shuffle (env_codes clk) (mknode i a s1 :: ns)) bk (c_cache c) (c_al c))) as P.
  { intros ns Hl Hs. pose proof (shuffle_perm (env_codes clk) (mknode i a s1 :: ns)) as HP. split; cbn [c_nodes].
    - rewrite (Permutation_length HP). cbn [length]. lia.
    - intros [Hst|Hlen] n Hin.
      + exists n. csplit; auto. eapply Permutation_in; [apply Permutation_sym; exact HP|]. right. rewrite Hs; auto.
      + rewrite (Permutation_length HP) in Hlen. cbn [length] in Hlen. lia. }
  destruct ((bk =? c_buckets c) || env_rehash_stable) eqn:Q.
  - unfold ret at 1. unfold setx, bind, ret. cbn [snd]. apply P; auto.
  - unfold on_world. cbn [fst snd]. pose proof (renumber_keys (c_nodes c) w4) as Hr.
    destruct (renumber (c_nodes c) w4) as [w5 ns|?|]; try contradiction.
    unfold setx, bind, ret. cbn [snd]. apply P; auto. intros Hst. rewrite Hst, orb_true_r in Q. discriminate.
Qed.
Lemma pers_rebuild : pers rebuild_cache.
Proof. intros c w. unfold rebuild_cache, modify. cbn [fst snd]. apply persists_nodes. reflexivity. Qed.
Lemma pers_insert a s : pers (tim_insert a s).
Proof.
  unfold tim_insert. apply pers_bind; [apply pers_getx|]. intros c0. apply pers_bind; [apply pers_emplace|]. intros p.
  apply pers_bind; [apply pers_getx|]. intros c1. apply pers_bind.
  { destruct (_ =? _); [apply pers_ret|apply pers_rebuild]. }
  intros _. apply pers_bind; [apply pers_cache|]. intros _. apply pers_ret.
Qed.

Ltac pers :=
  repeat (first
    [ apply pers_ret | apply pers_throw | apply pers_ub | apply pers_getx | apply pers_world | apply pers_seg
    | apply pers_find | apply pers_insert
    | (apply pers_bind; [|intro])
    | match goal with |- pers (match ?x with _ => _ end) => destruct x end
    | match goal with |- pers (if ?x then _ else _) => destruct x end
    | (progress eauto with pers) ]).
Lemma pers_make a : pers (find_or_make a).
Proof. unfold find_or_make. pers. Qed.
Hint Resolve pers_make : pers.
Lemma pers_for x : pers (map_iterator_for x).
Proof. unfold map_iterator_for. pers. Qed.
Lemma pers_proto a t : pers (map_iterator_for_proto a t).
Proof. unfold map_iterator_for_proto. pers. Qed.
Lemma pers_info a : pers (map_iterator_by_info a).
Proof. unfold map_iterator_by_info. pers. Qed.
Lemma pers_each {A} l (m : M (segment V * world) A) : pers (for_each_node l m).
Proof. induction l; cbn [for_each_node]; pers. Qed.
Lemma pers_mk m p : pers (mk_iter m p).
Proof. unfold mk_iter. pers. Qed.
Lemma pers_same m i : pers (same_node m i).
Proof. unfold same_node. pers. Qed.
Lemma pers_void {A} (m : CM A) : pers m -> pers (void m).
Proof. intros H. unfold void. apply pers_bind; auto. intros _. apply pers_ret. Qed.
Hint Resolve pers_make pers_for pers_proto pers_info pers_each pers_mk pers_same pers_void : pers.
Lemma pers_c_insert x : pers (c_insert x).
Proof. unfold c_insert. pers. Qed.
Hint Resolve pers_c_insert : pers.
Lemma pers_push_all i t xs : pers (push_all i t xs).
Proof. induction xs; cbn [push_all]; pers. Qed.
Lemma pers_all_hint t xs : forall hint i, pers (insert_all_hint hint i t xs).
Proof. induction xs; intros; cbn [insert_all_hint]; pers. Qed.
Lemma pers_pos_loop xs : forall i p, pers (c_insert_pos_loop i p xs).
Proof. induction xs; intros; cbn [c_insert_pos_loop]; pers. Qed.
Lemma pers_lpos_loop xs : forall i t p, pers (c_insert_lpos_loop i t p xs).
Proof. induction xs; intros; cbn [c_insert_lpos_loop]; cbv zeta; pers. Qed.
Lemma pers_clear_until l : forall s, pers (clear_until l s).
Proof. induction l; intros; cbn [clear_until]; pers. Qed.
Lemma pers_from f : forall y first last, pers (c_insert_from f y first last).
Proof. induction f; intros; cbn [c_insert_from]; pers. Qed.
Lemma pers_hint_from f : forall hint y first last, pers (c_insert_hint_from f hint y first last).
Proof. induction f; intros; cbn [c_insert_hint_from]; pers. Qed.
Lemma pers_hint_range xs : forall hint, pers (c_insert_hint_range hint xs).
Proof. induction xs; intros; cbn [c_insert_hint_range]; pers. Qed.
Lemma pers_range xs : pers (c_insert_range xs).
Proof. induction xs; intros; cbn [c_insert_range]; pers. Qed.
Lemma pers_register l : pers (register_types l).
Proof. induction l; cbn [register_types]; unfold register_type; pers. Qed.
Hint Resolve pers_push_all pers_all_hint pers_pos_loop pers_lpos_loop pers_clear_until pers_from pers_hint_from
  pers_hint_range pers_range pers_register : pers.
Lemma pers_api g c m safe new vals : api g c m safe new vals -> pers m.
Proof.
  intros H. destruct H; try apply pers_void; eauto with pers;
  unfold c_reserve_all, c_reserve_info, c_reserve_type, c_shrink_all, c_shrink_info, c_clear, c_clear_info, c_emplace, c_emplace_hint, c_emplace_pos,
    c_insert_hint, c_insert_pos, c_insert_range_terminal, c_insert_hint_range_terminal, c_insert_local, c_insert_hint_local, c_insert_pos_range,
    c_insert_lpos_range, c_erase, c_erase_local, c_erase_range, c_erase_local_range; pers.
Qed.

Lemma describes_persists w c g d w' c' g' d' i t : reach w (c :: g) d -> reach w' (c' :: g') d' -> persists c c' ->
  env_rehash_stable = true \/ length (types c') = length (types c) -> describes c i t -> describes c' i t.
Proof.
  intros H H' P Hs D. destruct (describes_inv _ _ _ _ _ _ H D) as (n & Hin & -> & Et & Ek).
  rewrite !types_nodes, !map_length in Hs.
  destruct (ps_ids _ _ P Hs n Hin) as (n' & Hin' & Ei & Eke).
  rewrite <- Ei. replace t with (n_ty n'); [eapply describes_node; eauto|].
  destruct (reach_wf _ _ _ _ H') as (W' & _). rewrite <- (key_ty w' c' n' W' Hin'). congruence.
Qed.
End ProofInfo.
