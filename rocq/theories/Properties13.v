(** * Segment descriptors and segment traversal (C60) *)

From Coq Require Import List Arith Lia Bool Permutation.
From Verif Require Import Base Vec Backend Segment Coll Info Spec SpecInfo Reach ProofBase ProofVec ProofBackend ProofSeg ProofMap ProofView ProofColl
  ProofRange ProofReach ProofObs ProofProp ProofProp2 ProofProp3 ProofProp4 ProofProp5 ProofInfo Demo.
Import ListNotations.

(** ** C60 segment_traversal() and segment(info) *)

(** segment_traversal() yields one descriptor per registered type, in segment order, each
    describing the segment of that type ([describes] in SpecInfo.v). *)
Theorem C60_traversal {V} {E : Env V} w c g d fuel : reach w (c :: g) d -> length (types c) <= fuel ->
  exists l, trav_all fuel c (trav_begin c) (trav_end c) = Some l /\ Forall2 (describes c) l (types c) /\
    NoDup (types c) /\ NoDup l.
Proof.
  intros H Hf. destruct (reach_wf _ _ _ _ H) as (W & O).
  exists (map (fun n => mkinfo (Some (n_id n))) (c_nodes c)). csplit.
  - apply (trav_all_from w c g d H (c_nodes c) [] eq_refl fuel). rewrite types_nodes, map_length in Hf. exact Hf.
  - rewrite types_nodes. assert (Hn : incl (c_nodes c) (c_nodes c)) by (apply incl_refl).
    revert Hn. generalize (c_nodes c) at 1 3 4 as ns. induction ns as [|n ns IH]; intros Hn; cbn [map]; constructor.
    + eapply describes_node; eauto. apply Hn. left; auto.
    + apply IH. intros x Hx. apply Hn. right; auto.
  - eapply types_nodup; eauto.
  - assert (N : NoDup (map n_id (c_nodes c))) by apply W.
    rewrite <- (map_map n_id (fun i => mkinfo (Some i))). revert N. generalize (map n_id (c_nodes c)) as l.
    induction l as [|x l IH]; cbn [map]; intros N; inversion N as [|? ? N1 N2]; subst; constructor; auto.
    rewrite in_map_iff. intros (y & Qy & Hy). inversion Qy; subst. auto.
Qed.
Example C60_traversal_ex lay : let E := dE lay in reach (dw lay) [dc lay; dx lay] [] /\ length (types (dc lay)) = 4 /\
  length (flat (dc lay)) = 6.
Proof. demo lay. Qed.

(** The nested loop over the segments and the elements of each visits what the loop over the
    collection does. *)
Fixpoint collect {A B} (f : A -> option (list B)) (l : list A) : option (list B) :=
  match l with
  | [] => Some []
  | x :: l' => match f x, collect f l' with Some r, Some r' => Some (r ++ r') | _, _ => None end
  end.
Lemma forall2_weaken {A B} (P Q : A -> B -> Prop) l l' : (forall a b, P a b -> Q a b) -> Forall2 P l l' -> Forall2 Q l l'.
Proof. induction 2; constructor; auto. Qed.
Lemma collect_all {A B} (f : A -> option (list B)) (h : tyid -> list B) l ts :
  Forall2 (fun x t => f x = Some (h t)) l ts -> collect f l = Some (flat_map h ts).
Proof. induction 1 as [|x t l ts Hx F IH]; cbn; [reflexivity|]. rewrite Hx, IH. reflexivity. Qed.
Lemma assoc_nodup {V} (l : list (tyid * list V)) t xs : NoDup (map fst l) -> In (t, xs) l -> assoc t l = Some xs.
Proof.
  intros N Hin. apply in_split in Hin. destruct Hin as (l1 & l2 & ->). apply assoc_split.
  rewrite map_app in N. cbn in N. apply NoDup_remove_2 in N. rewrite in_app_iff in N. tauto.
Qed.
Theorem C60_nested_loops {V} {E : Env V} w c g d fuel : reach w (c :: g) d ->
  length (types c) + length (flat c) <= fuel ->
  exists l, trav_all fuel c (trav_begin c) (trav_end c) = Some l /\
    collect (inf_elems fuel c) l = Some (flat c) /\ collect (inf_elems_as fuel c) l = Some (flat c) /\
    traverse fuel c (c_begin c) (c_end c) = Some (flat c).
Proof.
  intros H Hf. destruct (C60_traversal w c g d fuel H ltac:(lia)) as (l & Hl & F & N & _). exists l.
  assert (Hseg : forall t, length (elems c t) <= length (flat c)).
  { intros t. destruct (Nat.eq_dec (length (elems c t)) 0) as [->|Q]; [lia|].
    destruct (nth_flat w c g d t (length (elems c t) - 1) H ltac:(lia)) as (_ & B). lia. }
  assert (Hflat : flat c = flat_map (fun t => map (pair t) (elems c t)) (types c)).
  { unfold flat, types. rewrite !flat_map_concat_map, map_map. f_equal. apply map_ext_in. intros [t xs] Hin. cbn [fst snd].
    unfold elems, seg_of. rewrite (assoc_nodup (content c) t xs); auto. }
  csplit; auto.
  - rewrite Hflat. apply collect_all. eapply forall2_weaken; [|exact F]. intros i t D. apply (ds_elems _ _ _ D).
    specialize (Hseg t). lia.
  - rewrite Hflat. apply collect_all. eapply forall2_weaken; [|exact F]. intros i t D. apply (ds_elems_as _ _ _ D).
    specialize (Hseg t). lia.
  - rewrite (traverse_located w c g d (c_begin c) (c_end c) 0 (length (flat c)) fuel H); try lia.
    + rewrite skipn_O, firstn_all2 by lia. reflexivity.
    + eapply begin_located; eauto.
    + apply end_located.
Qed.
Example C60_nested_loops_ex lay : let E := dE lay in reach (dw lay) [dc lay; dx lay] [] /\
  length (types (dc lay)) + length (flat (dc lay)) <= 10.
Proof. demo lay. Qed.

(** segment(info): the descriptor of the type, unregistered_type if there is none; begin(info) and
    end(info) are what the descriptor says. *)
Theorem C60_segment {V} {E : Env V} w c g d a : reach w (c :: g) d ->
  query (c_segment a) c w (env_ty a) (fun i => describes c i (env_ty a) /\
    c_begin_of a (c, w) = match inf_begin c i with Some l => Ok (c, w) l | None => UB end /\
    c_end_of a (c, w) = match inf_end c i with Some l => Ok (c, w) l | None => UB end).
Proof.
  intros H. destruct (reach_wf _ _ _ _ H) as (W & O).
  destruct (find_spec w c a (wc_map _ _ W)) as [(n & Hin & Hf & Hat & Et)|(Hf & Nin)].
  - assert (Hm : map_iterator_by_info a (c, w) = Ok (c, w) (n_id n)).
    { unfold map_iterator_by_info, bind, getx. cbn [fst]. rewrite (cache_transparent w) by apply W. rewrite Hf. reflexivity. }
    unfold query, wp, c_segment, c_begin_of, c_end_of. unfold bind at 1. rewrite Hm. unfold ret at 1.
    unfold inf_begin, inf_end, inf_node. cbn [inf_map]. rewrite Hat.
    csplit; auto.
    + rewrite types_nodes, <- Et. apply in_map; auto.
    + rewrite <- Et. eapply describes_node; eauto.
    + unfold bind at 1. rewrite Hm. unfold bind, on_seg. rewrite Hat. unfold getx, ret. cbn [fst snd].
      change (Ok (upd_seg c (n_id n) (n_seg n), w) (mkliter (n_id n) (PBase (seg_begin (n_seg n)))) = Ok (c, w) (mkliter (n_id n) (PBase (seg_begin (n_seg n))))).
      rewrite (upd_seg_id c _ _ Hat). reflexivity.
    + unfold bind at 1. rewrite Hm. unfold bind, on_seg. rewrite Hat. unfold getx, ret. cbn [fst snd].
      change (Ok (upd_seg c (n_id n) (n_seg n), w) (mkliter (n_id n) (PBase (seg_end (n_seg n)))) = Ok (c, w) (mkliter (n_id n) (PBase (seg_end (n_seg n))))).
      rewrite (upd_seg_id c _ _ Hat). reflexivity.
  - unfold query, wp, c_segment, map_iterator_by_info, bind, getx. cbn [fst]. rewrite (cache_transparent w) by apply W. rewrite Hf.
    cbn. csplit; auto. rewrite types_nodes. auto.
Qed.
Example C60_segment_ex lay : let E := dE lay in
  reach (dw lay) [dc lay; dx lay] [] /\ In (env_ty 11) (types (dc lay)) /\ ~ In (env_ty 61) (types (dc lay)).
Proof. demo lay. Qed.

(** There is only one descriptor of a type, and it describes nothing else. *)
Theorem C60_unique {V} {E : Env V} w c g d i j t u : reach w (c :: g) d -> describes c i t -> describes c j u ->
  (i = j <-> t = u).
Proof.
  intros H Di Dj. destruct (reach_wf _ _ _ _ H) as (W & O).
  destruct (describes_inv _ _ _ _ _ _ H Di) as (n & Hn & -> & Et & _).
  destruct (describes_inv _ _ _ _ _ _ H Dj) as (m & Hm & -> & Eu & _). subst. split.
  - intros Q. inversion Q as [Q']. f_equal. apply (f_equal (node_at (c_nodes c))) in Q'.
    rewrite (node_at_some _ n), (node_at_some _ m) in Q' by (auto; apply W). congruence.
  - intros Q. pose proof (types_nodup w c g d H) as N. rewrite types_nodes in N.
    pose proof (assoc_nodes (c_nodes c) n N Hn). do 2 f_equal.
    apply in_split in Hn. destruct Hn as (l1 & l2 & Hl). rewrite Hl in Hm, N. rewrite in_app_iff in Hm.
    rewrite map_app in N. cbn [map] in N. apply NoDup_remove_2 in N. rewrite in_app_iff in N.
    destruct Hm as [Hm|[->|Hm]]; auto; exfalso; apply N; rewrite Q; [left|right]; apply in_map; auto.
Qed.
Example C60_unique_ex lay : let E := dE lay in reach (dw lay) [dc lay; dx lay] [] /\
  (exists i, describes (dc lay) i 1) /\ exists j, describes (dc lay) j 4.
Proof.
  cbv zeta. split; [apply d_reach|]. split.
  - assert (In 1 (types (dc lay))) as Hin by demo_fact lay. rewrite types_nodes in Hin. apply in_map_iff in Hin.
    destruct Hin as (n & <- & Hin). eexists. eapply (describes_node (E := dE lay)); [apply d_reach|exact Hin].
  - assert (In 4 (types (dc lay))) as Hin by demo_fact lay. rewrite types_nodes in Hin. apply in_map_iff in Hin.
    destruct Hin as (n & <- & Hin). eexists. eapply (describes_node (E := dE lay)); [apply d_reach|exact Hin].
Qed.

(** A descriptor obtained before a call describes the segment of the same type afterwards, as it
    is then, whatever has been inserted, erased or moved to other storage; only a call creating
    segments can invalidate it, and only if that invalidates iterators of the map. *)
Theorem C60_persistent {V} {E : Env V} w c g d m safe new vals i t : reach w (c :: g) d ->
  api g c m safe new vals -> incl new (types c) \/ env_rehash_stable = true -> describes c i t ->
  wp m (c, w) (fun '(c', w') _ => describes c' i t) (fun '(c', w') e => safe e -> describes c' i t).
Proof.
  intros H A Hs D. pose proof (pers_api g c m safe new vals A c w) as P.
  assert (K : wp m (c, w)
    (fun '(c', w') _ => forall t, In t (types c') <-> In t (types c) \/ In t new)
    (fun '(c', w') e => incl (types c) (types c') /\ incl (types c') (types c ++ new))).
  { pose proof (api_kept w c g d m safe new vals H A) as K.
    destruct (api_brought w c g d m safe new vals H A) as (B1 & B2). unfold wp in *.
    destruct (m (c, w)) as [[c' w'] []|[c' w'] e|]; auto.
    - apply (B1 c' w'). auto.
    - split; [apply K|apply (B2 c' w' e); auto]. }
  assert (L : forall w' c', reach w' (c' :: g) d -> incl (types c) (types c') -> incl (types c') (types c ++ new) ->
    env_rehash_stable = true \/ length (types c') = length (types c)).
  { intros w' c' H' I1 I2. destruct Hs as [Hn|]; auto. right.
    pose proof (types_nodup _ _ _ _ H) as N. pose proof (types_nodup _ _ _ _ H') as N'.
    apply Nat.le_antisymm; apply NoDup_incl_length; auto.
    intros x Hx. apply I2, in_app_iff in Hx. destruct Hx; auto. }
  unfold wp in *. destruct (m (c, w)) as [[c' w'] []|[c' w'] e|] eqn:Q; auto.
  - assert (H' : reach w' (c' :: g) d) by (eapply r_call; eauto).
    eapply (describes_persists w c g d w' c' g d); eauto. apply (L w' c' H'); intros x Hx.
    + apply K. auto.
    + apply K in Hx. rewrite in_app_iff. auto.
  - intros Hsafe. assert (H' : reach w' (c' :: g) d) by (eapply r_call_exn; eauto).
    eapply (describes_persists w c g d w' c' g d); eauto. apply (L w' c' H'); apply K.
Qed.
(* type 1 is reallocated by the insertion *)
Example C60_persistent_ex lay : let E := dE lay in 
  reach (dw lay) [dc lay; dx lay] [] /\ (exists i, describes (dc lay) i 1) /\
  (exists safe, api [dx lay] (dc lay) (c_insert_range_terminal 10 HCopy true [5; 5; 5; 5; 5]) safe [1; 1; 1; 1; 1]
     [(1, 5); (1, 5); (1, 5); (1, 5); (1, 5)]) /\ incl [1; 1; 1; 1; 1] (types (dc lay)).
Proof.
  cbv zeta. csplit.
  - apply d_reach.
  - apply (C60_unique_ex lay).
  - eexists. apply (api_range_terminal (E := dE lay) [dx lay] (dc lay) 10 HCopy true [5; 5; 5; 5; 5]).
  - assert (In 1 (types (dc lay))) as Hin by demo_fact lay. intros x Hx. cbn in Hx.
    intuition (subst; auto).
Qed.

Print Assumptions C60_traversal.
Print Assumptions C60_nested_loops.
Print Assumptions C60_segment.
Print Assumptions C60_unique.
Print Assumptions C60_persistent.
