(** * Which types and which elements calls bring in *)

From Coq Require Import List Arith Lia Bool Permutation.
From Verif Require Import Base Vec Backend Segment Coll ProofBase Spec ProofSeg ProofMap ProofView ProofColl Reach ProofObs ProofProp ProofProp2 ProofProp3.
Import ListNotations.

Section PProp4.
Context {V : Type} {E : Env V}.
Notation CW := (coll V * world)%type.

Definition brought (c c' : coll V) (new : list tyid) (vals : list (tyid * V)) : Prop :=
  (forall t, In t (types c') <-> In t (types c) \/ In t new) /\ conserved c c' vals.
Definition no_more (c c' : coll V) (new : list tyid) : Prop := incl (types c') (types c ++ new).

Lemma elems_seg_at (c : coll V) t : elems c t = match seg_at c t with Some s => elems_of s | None => [] end.
Proof.
  unfold elems, seg_of, seg_at, content. induction (c_nodes c) as [|n ns IH]; simpl; auto.
  destruct (sg_ty (n_seg n) =? t); auto.
Qed.
Lemma conserved_same (c c' : coll V) : (forall t, elems c' t = elems c t) -> conserved c c' [].
Proof. intros H t. exists (elems c t), []. unfold of_type; simpl. rewrite H, !app_nil_r. auto. Qed.
Lemma content_elems (c c' : coll V) : content c' = content c -> forall t, elems c' t = elems c t.
Proof. intros H t. unfold elems, seg_of. rewrite H. auto. Qed.
Lemma conserved_grew h (c c' : coll V) l : grew h c c' l -> conserved c c' l.
Proof.
  intros G t. exists (elems c t), []. rewrite app_nil_r. csplit; auto. rewrite (g_elems _ _ _ _ G t).
  rewrite <- (firstn_skipn (slot h c t) (elems c t)) at 3. rewrite <- app_assoc.
  apply Permutation_app_head. apply Permutation_app_comm.
Qed.
Lemma brought_grew h (c c' : coll V) l : grew h c c' l -> brought c c' (map fst l) l.
Proof. intros G. split; [apply G|eapply conserved_grew; eauto]. Qed.
Lemma brought_grew0 h (c c' : coll V) l : grew h c c' l -> incl (map fst l) (types c) -> brought c c' [] l.
Proof.
  intros G I. split; [|eapply conserved_grew; eauto]. intros t. rewrite (g_types _ _ _ _ G). simpl.
  split; [intros [|]; auto|intros [|[]]; auto].
Qed.
Lemma brought_content (c c' : coll V) : content c' = content c -> brought c c' [] [].
Proof.
  intros Q. split; [|apply conserved_same, content_elems; auto].
  intros t. unfold types. rewrite Q. simpl. tauto.
Qed.
Lemma types_nodup w (c : coll V) g d : reach w (c :: g) d -> NoDup (types c).
Proof. intros H. destruct (reach_wf _ _ _ _ H) as (W & _). rewrite types_nodes. apply W. Qed.

Lemma news_elems (c c' : coll V) news : NoDup (types c') ->
  Permutation (content c') (map (fun t => (t, [])) news ++ content c) -> forall t, elems c' t = elems c t.
Proof.
  intros N P t. unfold elems, seg_of.
  assert (Pt : Permutation (types c') (news ++ types c)).
  { unfold types. rewrite P, map_app, map_map. simpl. rewrite map_id. auto. }
  symmetry in P. rewrite (assoc_perm (map (fun t => (t, [])) news ++ content c) (content c') t); auto.
  - rewrite Pt in N. clear - N. induction news as [|a news IH]; simpl; auto. inversion N as [|? ? H1 H2]; subst.
    destruct (Nat.eqb_spec a t) as [->|]; auto.
    replace (assoc t (content c)) with (@None (list V)); auto. symmetry. apply assoc_none.
    intros Hi. apply H1. apply in_or_app. right. exact Hi.
  - rewrite map_app, map_map. simpl. rewrite map_id. rewrite <- Pt. auto.
Qed.

Lemma brought_registered (c c' : coll V) ts : NoDup (types c') -> registered c c' ts -> brought c c' ts [].
Proof.
  intros N R. split; [apply R|]. apply conserved_same. destruct (re_content _ _ _ R) as (news & P). eapply news_elems; eauto.
Qed.
Lemma brought_same_but (c c' : coll V) t : NoDup (types c') -> same_but c c' t -> In t (types c') -> brought c c' [t] [].
Proof.
  intros N [Q|(Ns & P)] Hi.
  - destruct (brought_content _ _ Q) as (A & B). split; auto. intros t'. rewrite A. simpl. split; [tauto|].
    intros [|[<-|[]]]; auto. left. unfold types in *. rewrite <- Q. auto.
  - assert (Pt : Permutation (types c') (t :: types c)) by (unfold types; rewrite P; auto). split.
    + intros t'. split; intros Hj.
      * apply (Permutation_in _ Pt) in Hj. destruct Hj; [right; left|left]; auto.
      * apply (Permutation_in _ (Permutation_sym Pt)). destruct Hj as [|[|[]]]; [right|left]; auto.
    + apply conserved_same. apply (news_elems c c' [t]); auto.
Qed.
Lemma skipn_skipn' {A} : forall b a (l : list A), skipn a (skipn b l) = skipn (a + b) l.
Proof.
  induction b as [|b IH]; intros a l; [rewrite Nat.add_0_r; auto|]. rewrite Nat.add_succ_r. destruct l; simpl; auto. apply skipn_nil.
Qed.
Lemma brought_cut (c c' : coll V) i j : i <= j -> cut c c' i j -> brought c c' [] [].
Proof.
  intros Hij C. split; [intros t; rewrite (cut_types _ _ _ _ C); simpl; tauto|]. intros t.
  rewrite (cut_elems _ _ _ _ C t). set (a := i - _). set (b := j - _). assert (a <= b) by (unfold a, b; lia).
  exists (remove_range a b (elems c t)), (firstn (b - a) (skipn a (elems c t))). unfold of_type; simpl. rewrite app_nil_r. csplit; auto.
  unfold remove_range. rewrite <- app_assoc.
  rewrite <- (firstn_skipn a (elems c t)) at 1. apply Permutation_app_head.
  rewrite <- (firstn_skipn (b - a) (skipn a (elems c t))) at 1. rewrite Permutation_app_comm.
  rewrite skipn_skipn'. replace (b - a + a) with b by lia. auto.
Qed.
Lemma brought_wiped (c c' : coll V) (P : tyid -> Prop) (dec : forall t, P t \/ ~ P t) : wiped c c' P -> brought c c' [] [].
Proof.
  intros W. split; [intros t; rewrite (wi_types _ _ _ W); simpl; tauto|]. intros t. unfold of_type; simpl.
  destruct (dec t) as [Y|N].
  - exists [], (elems c t). rewrite (wi_elems _ _ _ W t Y). auto.
  - exists (elems c t), []. rewrite !app_nil_r. csplit; auto. rewrite (elems_seg_at c' t), (elems_seg_at c t), (wi_others _ _ _ W t N). auto.
Qed.
Lemma no_more_same (c c' : coll V) new : types c' = types c -> no_more c c' new.
Proof. intros Q. unfold no_more. rewrite Q. apply incl_appl, incl_refl. Qed.
Lemma no_more_iff (c c' : coll V) new : (forall t, In t (types c') -> In t (types c) \/ In t new) -> no_more c c' new.
Proof. intros Q t Ht. apply in_or_app. auto. Qed.
Lemma no_more_harmed (c c' : coll V) t m : harmed c c' t m -> no_more c c' [t].
Proof.
  intros [A _ _ _ _]. destruct A as [A|(_ & P)]; [apply no_more_same; auto|]. apply no_more_iff. intros t' Ht.
  apply (Permutation_in _ P) in Ht. destruct Ht; [right; left|left]; auto.
Qed.
Lemma no_more_harmed0 (c c' : coll V) t m new : In t new \/ In t (types c) -> harmed c c' t m -> no_more c c' new.
Proof.
  intros Hi H. apply no_more_harmed in H. apply no_more_iff. intros t' Ht. apply H in Ht. apply in_app_or in Ht.
  destruct Ht as [|[<-|[]]]; auto. tauto.
Qed.
Lemma no_more_same_but (c c' : coll V) t : same_but c c' t -> no_more c c' [t].
Proof.
  intros [Q|(_ & P)]; [apply no_more_same; unfold types; rewrite Q; auto|]. apply no_more_iff. intros t' Ht.
  assert (Pt : Permutation (types c') (t :: types c)) by (unfold types; rewrite P; auto).
  apply (Permutation_in _ Pt) in Ht. destruct Ht; [right; left|left]; auto.
Qed.
Lemma no_more_rejected (c c' : coll V) w w' x k e : rejected c c' w w' x k e -> no_more c c' [env_ty (a_dyn x)].
Proof.
  intros [(_ & _ & U)|(_ & H & _)]; [|eapply no_more_harmed; eauto].
  apply no_more_same. unfold types. rewrite (u_content _ _ U). auto.
Qed.
Lemma no_more_broke xs hs h (c c' : coll V) w w' l e new : (forall t, In t (map fst l) -> In t new \/ In t (types c)) ->
  broke_off xs hs h c c' w w' l e -> no_more c c' new.
Proof.
  intros I (A & pre & t & v & post & c1 & El & G & X).
  assert (Hp : forall t', In t' (map fst pre) -> In t' new \/ In t' (types c)).
  { intros t' Ht. apply I. rewrite El, map_app. apply in_or_app. auto. }
  assert (Ht : In t new \/ In t (types c)) by (apply I; rewrite El, map_app; apply in_or_app; right; left; auto).
  assert (H1 : forall t', In t' (types c1) -> In t' (types c) \/ In t' new).
  { intros t' Hi. apply (g_types _ _ _ _ G) in Hi. destruct Hi as [|Hi]; auto. apply Hp in Hi. tauto. }
  apply no_more_iff. intros t' Hi. destruct X as [(hw & _ & Hm & _)|(x & _ & _ & _ & _ & U)].
  - apply no_more_harmed in Hm. apply Hm in Hi. apply in_app_or in Hi. destruct Hi as [Hi|[<-|[]]]; auto. tauto.
  - apply H1. unfold types in *. rewrite <- (u_content _ _ U). auto.
Qed.

Lemma lpoints_types w (c : coll V) g d l t k : reach w (c :: g) d -> lpoints c l t k -> In t (types c).
Proof. intros H (n & Hin & <- & _). rewrite types_nodes. apply (in_map n_ty _ _ Hin). Qed.
Lemma map_fst_pair {A B} (t : A) (l : list B) x : In x (map fst (map (pair t) l)) -> x = t.
Proof. rewrite map_map. simpl. intros H. apply in_map_iff in H. destruct H as (? & ? & _). auto. Qed.

Theorem api_brought w c g d m safe new vals : reach w (c :: g) d -> api g c m safe new vals ->
  (forall c' w', m (c, w) = Ok (c', w') tt -> brought c c' new vals) /\
  (forall c' w' e, m (c, w) = Exn (c', w') e -> no_more c c' new).
Proof.
  intros H A.
  assert (N : forall c' w', m (c, w) = Ok (c', w') tt -> NoDup (types c')).
  { intros c' w' Q. eapply types_nodup. eapply r_call; eauto. }
  assert (X : wp m (c, w) (fun '(c', w') _ => NoDup (types c') -> brought c c' new vals) (fun '(c', w') _ => no_more c c' new)).
  2:{ split.
      - intros c' w' Q. eapply wp_ok in X; [|exact Q]. apply X. eapply N; eauto.
      - intros c' w' e Q. eapply wp_exn in X; [|exact Q]. apply X. }
  clear N. destruct A.
  - eapply wp_mono; [eapply spec_register; eauto| |].
    + intros [c' w'] _ R N. apply brought_registered; auto.
    + intros [c' w'] e (pre & a & post & -> & R & _). apply no_more_iff. intros t Ht. rewrite map_app.
      assert (Q : In t (types c) \/ In t (map env_ty (pre ++ [a]))).
      { destruct R as [R|R]; apply R in Ht; rewrite ?map_app in *; destruct Ht; auto. right. apply in_or_app. auto. }
      destruct Q as [|Q]; auto. rewrite map_app in Q. right. apply in_or_app. apply in_app_or in Q.
      destruct Q as [|[<-|[]]]; auto. right. left. auto.
  - eapply wp_mono; [eapply spec_reserve; eauto| |].
    + intros [c' w'] _ (R & _) N. apply brought_content; apply R.
    + intros [c' w'] e (R & Al & _). apply no_more_same. unfold types. rewrite R. auto.
  - eapply wp_mono; [eapply spec_reserve_info; eauto| |].
    + intros [c' w'] _ (_ & R & _) N. apply brought_content; apply R.
    + intros [c' w'] e [(_ & _ & -> & _)|(_ & R & _ & _ & Al & _)]; apply no_more_same; auto. unfold types. rewrite R. auto.
  - eapply wp_mono; [eapply spec_reserve_type; eauto| |].
    + intros [c' w'] _ (R & _ & R' & _) N. apply brought_same_but; auto.
    + intros [c' w'] e R. apply no_more_same_but. apply R.
  - eapply wp_mono; [eapply spec_shrink; eauto| |].
    + intros [c' w'] _ R N. apply brought_content; apply R.
    + intros [c' w'] e (R & _). apply no_more_same. unfold types. rewrite (sh_content _ _ _ R). auto.
  - eapply wp_mono; [eapply spec_shrink_info; eauto| |].
    + intros [c' w'] _ (_ & R) N. apply brought_content; apply R.
    + intros [c' w'] e [(_ & _ & -> & _)|(_ & R & _)]; apply no_more_same; auto. unfold types. rewrite (sh_content _ _ _ R). auto.
  - eapply wp_mono; [eapply spec_clear; eauto| |].
    + intros [c' w'] _ R N. eapply brought_wiped; [|exact R]. auto.
    + intros [c' w'] e [].
  - eapply wp_mono; [eapply spec_clear_info; eauto| |].
    + intros [c' w'] _ (_ & R) N. eapply brought_wiped; [|exact R]. intros t. destruct (Nat.eq_dec (env_ty a) t); auto.
    + intros [c' w'] e (_ & _ & -> & _). apply no_more_same; auto.
  - eapply wp_void_mono; [eapply spec_emplace; eauto| |].
    + intros [c' w'] r (R & _) N. eapply brought_grew with (l := [(_, _)]); apply R.
    + intros [c' w'] e (R & _). eapply no_more_harmed; eauto.
  - eapply wp_void_mono; [eapply spec_emplace_hint; eauto| |].
    + intros [c' w'] r (R & _) N. eapply brought_grew with (l := [(_, _)]); apply R.
    + intros [c' w'] e (R & _). eapply no_more_harmed; eauto.
  - eapply wp_void_mono; [eapply spec_emplace_pos; eauto| |].
    + intros [c' w'] r (R & _) N. eapply brought_grew0; [apply R|]. intros t [<-|[]]. simpl. eapply lpoints_types; eauto.
    + intros [c' w'] e (R & _). eapply no_more_harmed0; [|eauto]. right. eapply lpoints_types; eauto.
  - eapply wp_void_mono; [eapply spec_insert; eauto| |].
    + intros [c' w'] r (_ & R & _) N. eapply brought_grew with (l := [(_, _)]); apply R.
    + intros [c' w'] e R. eapply no_more_rejected; eauto.
  - eapply wp_void_mono; [eapply spec_insert_hint; eauto| |].
    + intros [c' w'] r (_ & R & _) N. eapply brought_grew with (l := [(_, _)]); apply R.
    + intros [c' w'] e R. eapply no_more_rejected; eauto.
  - eapply wp_void_mono; [eapply spec_insert_pos; eauto| |].
    + intros [c' w'] r (R & _) N. eapply brought_grew0; [apply R|]. intros t [<-|[]]. simpl. eapply lpoints_types; eauto.
    + intros [c' w'] e (R & _). eapply no_more_harmed0; [|eauto]. right. eapply lpoints_types; eauto.
  - eapply wp_mono; [eapply spec_insert_range; eauto| |].
    + intros [c' w'] r (R & Al) N. eapply brought_grew; eauto.
    + intros [c' w'] e R. eapply no_more_broke; [|eauto]. auto.
  - eapply wp_mono; [eapply spec_insert_range_terminal; eauto| |].
    + intros [c' w'] r (R & Al) N. eapply brought_grew; eauto.
    + intros [c' w'] e (Ne & R & _). eapply no_more_harmed0; [|eauto]. left. destruct xs; [congruence|left; auto].
  - eapply wp_mono; [eapply spec_insert_hint_range; eauto| |].
    + intros [c' w'] r (R & Al) N. eapply brought_grew; eauto.
    + intros [c' w'] e R. eapply no_more_broke; [|eauto]. auto.
  - eapply wp_mono; [eapply spec_insert_hint_range_terminal; eauto| |].
    + intros [c' w'] r (R & Al) N. eapply brought_grew; eauto.
    + intros [c' w'] e (Ne & R & _). eapply no_more_harmed0; [|eauto]. left. destruct xs; [congruence|left; auto].
  - eapply wp_mono; [eapply spec_insert_from; eauto| |].
    + intros [c' w'] r (R & Al) N. eapply brought_grew; eauto.
    + intros [c' w'] e R. eapply no_more_broke; [|eauto]. auto.
  - eapply wp_mono; [eapply spec_insert_hint_from; eauto| |].
    + intros [c' w'] r (R & Al) N. eapply brought_grew; eauto.
    + intros [c' w'] e R. eapply no_more_broke; [|eauto]. auto.
  - eapply wp_mono; [eapply spec_insert_local; eauto| |].
    + intros [c' w'] r (R & Al) N. eapply brought_grew; eauto.
    + intros [c' w'] e R. eapply no_more_broke; [|eauto]. auto.
  - eapply wp_mono; [eapply spec_insert_hint_local; eauto| |].
    + intros [c' w'] r (R & Al) N. eapply brought_grew; eauto.
    + intros [c' w'] e R. eapply no_more_broke; [|eauto]. auto.
  - eapply wp_void_mono; [eapply spec_insert_pos_range; eauto| |].
    + intros [c' w'] r (R & _ & Al) N. eapply brought_grew0; [eauto|]. intros t' Ht. apply map_fst_pair in Ht. subst. eapply lpoints_types; eauto.
    + intros [c' w'] e R. eapply no_more_broke; [|eauto]. intros t' Ht. apply map_fst_pair in Ht. subst. right. eapply lpoints_types; eauto.
  - eapply wp_void_mono; [eapply spec_insert_lpos_range; eauto| |].
    + intros [c' w'] r (R & _ & Al) N. eapply brought_grew0; [eauto|]. intros t' Ht. apply map_fst_pair in Ht. subst. eapply lpoints_types; eauto.
    + intros [c' w'] e R. eapply no_more_broke; [|eauto]. intros t' Ht. apply map_fst_pair in Ht. subst. right. eapply lpoints_types; eauto.
  - eapply wp_void_mono; [eapply spec_erase; eauto| |].
    + intros [c' w'] r (R & _) N. eapply brought_cut; [|eauto]. lia.
    + intros [c' w'] e R. apply no_more_same; apply R.
  - eapply wp_void_mono; [eapply spec_erase_local; eauto| |].
    + intros [c' w'] r (R & _) N. eapply brought_cut; [|eauto]. lia.
    + intros [c' w'] e R. apply no_more_same; apply R.
  - eapply wp_void_mono; [eapply spec_erase_range; eauto| |].
    + intros [c' w'] r (R & _) N. eapply brought_cut; eauto.
    + intros [c' w'] e R. apply no_more_same; apply R.
  - eapply wp_void_mono; [eapply spec_erase_local_range; eauto| |].
    + intros [c' w'] r (R & _) N. eapply brought_cut; [|eauto]. lia.
    + intros [c' w'] e R. apply no_more_same; apply R.
Qed.

End PProp4.
