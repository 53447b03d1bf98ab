(** * Histories: the collections hold what the machine says *)

From Coq Require Import List Arith Lia Bool Permutation.
From Verif Require Import Base Vec Backend Segment Coll Spec Reach SpecHist ProofBase ProofVec ProofBackend ProofOps ProofOps2
  ProofSeg ProofMap ProofView ProofColl ProofIns ProofEach ProofErase ProofRange ProofRange2 ProofEq ProofCopy ProofReach
  ProofObs ProofProp ProofProp2 ProofProp3 ProofProp4 ProofProp5 ProofRecover.
Import ListNotations.

(** ** Lists *)
Section Lists.
Context {A : Type}.

Lemma split_at (l : list A) i x : nth_error l i = Some x -> l = firstn i l ++ x :: skipn (1 + i) l /\ i < length l.
Proof.
  revert l. induction i as [|i IH]; intros [|a l] H; simpl in H; try discriminate.
  - inversion H; subst. simpl. split; auto. lia.
  - destruct (IH l H) as (Q & L). split; [|simpl; lia]. simpl. f_equal. exact Q.
Qed.
Lemma del_perm (l : list A) i x : nth_error l i = Some x -> Permutation l (x :: del i l).
Proof. intros H. destruct (split_at _ _ _ H) as (Q & _). rewrite Q at 1. unfold del. symmetry. apply Permutation_middle. Qed.
Lemma upd_perm (l : list A) i x : Permutation (upd i x l) (x :: del i l).
Proof. unfold upd, del. symmetry. apply Permutation_middle. Qed.
Lemma nth_upd (l : list A) i x j : i < length l -> nth_error (upd i x l) j = if j =? i then Some x else nth_error l j.
Proof.
  unfold upd. revert l j. induction i as [|i IH]; intros [|a l] j H; simpl in H; try lia; destruct j as [|j]; simpl; auto.
  apply (IH l j). lia.
Qed.
Lemma del_in (l : list A) i j x : nth_error l j = Some x -> j <> i -> In x (del i l).
Proof.
  unfold del. revert l j. induction i as [|i IH]; intros [|a l] [|j] H N; simpl in H; try discriminate; try congruence.
  - simpl. eapply nth_error_In; eauto.
  - inversion H; subst. left. auto.
  - right. apply (IH l j); auto.
Qed.
Lemma del_del (l : list A) i j x y c : nth_error l i = Some x -> nth_error l j = Some y -> i <> j ->
  exists r, Permutation (del i l) (y :: r) /\ Permutation (del j (upd i c l)) (c :: r) /\ Permutation l (x :: y :: r).
Proof.
  intros Hi Hj N. destruct (in_split _ _ (del_in l i j y Hj ltac:(auto))) as (r1 & r2 & Q).
  destruct (split_at _ _ _ Hi) as (_ & L).
  exists (r1 ++ r2). assert (P : Permutation (del i l) (y :: r1 ++ r2)) by (rewrite Q; symmetry; apply Permutation_middle).
  split; [exact P|split].
  - apply (Permutation_cons_inv (a := y)). etransitivity; [symmetry; apply (del_perm (upd i c l) j y)|].
    { rewrite nth_upd by auto. destruct (Nat.eqb_spec j i); congruence. }
    rewrite upd_perm, P. apply perm_swap.
  - rewrite (del_perm _ _ _ Hi), P. reflexivity.
Qed.
End Lists.

Lemma F2_nth {A B} (R : A -> B -> Prop) l l' i x : Forall2 R l l' -> nth_error l i = Some x ->
  exists y, nth_error l' i = Some y /\ R x y.
Proof.
  intros F. revert i. induction F as [|a b l l' Hab F IH]; intros [|i] H; simpl in H; try discriminate.
  - inversion H; subst. exists b. auto.
  - apply IH. exact H.
Qed.
Lemma F2_firstn {A B} (R : A -> B -> Prop) i l l' : Forall2 R l l' -> Forall2 R (firstn i l) (firstn i l').
Proof. intros F. revert i. induction F; intros [|i]; simpl; auto. Qed.
Lemma F2_skipn {A B} (R : A -> B -> Prop) i l l' : Forall2 R l l' -> Forall2 R (skipn i l) (skipn i l').
Proof. intros F. revert i. induction F; intros [|i]; simpl; auto. Qed.
Lemma F2_upd {A B} (R : A -> B -> Prop) i l l' x y : Forall2 R l l' -> R x y -> Forall2 R (upd i x l) (upd i y l').
Proof. intros F H. unfold upd. apply Forall2_app; [apply F2_firstn; auto|]. constructor; auto. apply F2_skipn; auto. Qed.
Lemma F2_del {A B} (R : A -> B -> Prop) i l l' : Forall2 R l l' -> Forall2 R (del i l) (del i l').
Proof. intros F. unfold del. apply Forall2_app; [apply F2_firstn|apply F2_skipn]; auto. Qed.

Section PHist.
Context {V : Type} {E : Env V}.
Notation CW := (coll V * world)%type.

(** ** Bags *)
Lemma holds_els (c : coll V) b t : holds c b -> els b t = elems c t.
Proof. intros H. unfold els, elems. rewrite <- (H t). reflexivity. Qed.
Lemma holds_has (c : coll V) b t : holds c b -> has b t = true <-> In t (types c).
Proof. intros H. rewrite assoc_types. unfold has. rewrite <- (H t). destruct (seg_of c t); split; congruence. Qed.
Lemma holds_of (c : coll V) (b : bag V) : (forall t, has b t = true <-> In t (types c)) -> (forall t, els b t = elems c t) -> holds c b.
Proof.
  intros Ht He t. specialize (Ht t). specialize (He t). rewrite assoc_types in Ht. unfold has, els, elems in *.
  destruct (seg_of c t), (b t); auto; try congruence.
  - exfalso. assert (false = true) by (apply Ht; congruence). congruence.
  - exfalso. apply Ht; auto.
Qed.
Lemma holds_same (c c' : coll V) b : holds c b -> (forall t, seg_of c' t = seg_of c t) -> holds c' b.
Proof. intros H S t. rewrite S. apply H. Qed.
Lemma holds_content (c c' : coll V) b : holds c b -> content c' = content c -> holds c' b.
Proof. intros H S t. unfold seg_of. rewrite S. apply H. Qed.
Lemma mem_in t l : mem t l = true <-> In t l.
Proof. unfold mem. rewrite existsb_exists. split; [intros (x & H & Q); apply Nat.eqb_eq in Q; subst; auto|]. intros H. exists t. rewrite Nat.eqb_refl. auto. Qed.

Lemma bslot_slot (c : coll V) b h t : holds c b -> bslot h b t = slot h c t.
Proof. intros H. unfold bslot, slot. destruct h as [[t0 k]|]; rewrite (holds_els c b t H); auto. Qed.

Lemma has_filled h vs P (b : bag V) t : has (filled h vs P b) t = has b t || P t.
Proof. unfold filled. unfold has at 1. destruct (has b t || P t); auto. Qed.
Lemma els_filled h vs P (b : bag V) t : (has b t = false -> P t = false -> vs t = []) ->
  els (filled h vs P b) t = firstn (bslot h b t) (els b t) ++ vs t ++ skipn (bslot h b t) (els b t).
Proof.
  intros N. unfold filled. unfold els at 1. destruct (has b t) eqn:Hb; simpl; auto. destruct (P t) eqn:Hp; auto.
  rewrite (N eq_refl eq_refl). unfold els, has in *. destruct (b t); try discriminate. rewrite firstn_nil, skipn_nil. auto.
Qed.

Lemma of_type_nil t (l : list (tyid * V)) : ~ In t (map fst l) -> of_type t l = [].
Proof.
  unfold of_type. induction l as [|[u v] l IH]; simpl; auto. intros H. destruct (Nat.eqb_spec u t); [tauto|]. apply IH. tauto.
Qed.

Lemma grew_holds h (c c' : coll V) l b : grew h c c' l -> holds c b ->
  holds c' (filled h (fun t => of_type t l) (fun t => mem t (map fst l)) b).
Proof.
  intros G H. apply holds_of.
  - intros t. rewrite has_filled, orb_true_iff, mem_in, (holds_has c b t H), (g_types _ _ _ _ G). tauto.
  - intros t. rewrite els_filled, (bslot_slot c b h t H), (holds_els c b t H), (g_elems _ _ _ _ G); auto.
    intros _ M. apply of_type_nil. intros I. apply mem_in in I. congruence.
Qed.

Lemma of_type_pair t u (vs : list V) : of_type u (map (pair t) vs) = if t =? u then vs else [].
Proof.
  unfold of_type. induction vs as [|v vs IH]; simpl; [destruct (t =? u); auto|]. destruct (t =? u); simpl; [f_equal|]; auto.
Qed.

Lemma grew_bulk_holds h t (c c' : coll V) vs b : grew h c c' (map (pair t) vs) -> holds c b ->
  holds c' (filled h (fun u => if u =? t then vs else []) (fun u => (u =? t) && negb (length vs =? 0)) b).
Proof.
  intros G H u. rewrite (grew_holds h c c' _ b G H u). unfold filled. rewrite of_type_pair, (Nat.eqb_sym t u).
  assert (mem u (map fst (map (pair t) vs)) = (u =? t) && negb (length vs =? 0)) as ->; auto.
  destruct vs as [|v vs]; [rewrite andb_false_r; reflexivity|]. rewrite andb_true_r. destruct (Nat.eqb_spec u t) as [->|N].
  - apply mem_in. left. reflexivity.
  - destruct (mem u _) eqn:Q; auto. apply mem_in in Q. rewrite map_map in Q. apply in_map_iff in Q. destruct Q as (x & Q & _). simpl in Q. congruence.
Qed.

Lemma has_update t xs (b : bag V) u : has (update t xs b) u = (u =? t) || has b u.
Proof. unfold update. unfold has at 1. destruct (u =? t); auto. Qed.
Lemma els_update t xs (b : bag V) u : els (update t xs b) u = if u =? t then xs else els b u.
Proof. unfold update. unfold els at 1. destruct (u =? t); auto. Qed.

Lemma grew_at_holds t k (c c' : coll V) vs b : grew (Some (t, k)) c c' (map (pair t) vs) -> In t (types c) -> holds c b ->
  holds c' (update t (firstn k (els b t) ++ vs ++ skipn k (els b t)) b).
Proof.
  intros G I H. apply holds_of.
  - intros u. rewrite has_update, orb_true_iff, Nat.eqb_eq, (holds_has c b u H), (g_types _ _ _ _ G), map_map. simpl.
    split; [intros [->|]; auto|]. intros [|J]; auto. left. apply in_map_iff in J. destruct J as (? & ? & ?). auto.
  - intros u. rewrite els_update, (g_elems _ _ _ _ G), of_type_pair, (holds_els c b t H). unfold slot.
    destruct (Nat.eqb_spec u t) as [->|N].
    + rewrite Nat.eqb_refl. auto.
    + destruct (Nat.eqb_spec t u) as [|_]; [congruence|]. rewrite firstn_all, skipn_all. simpl. rewrite app_nil_r. apply holds_els; auto.
Qed.

Lemma assoc_in t xs (l : list (tyid * list V)) : assoc t l = Some xs -> In (t, xs) l.
Proof.
  induction l as [|[u ys] l IH]; simpl; [discriminate|]. destruct (Nat.eqb_spec u t) as [->|]; [|auto].
  intros Q. inversion Q. auto.
Qed.
Lemma elems_out (c : coll V) t : ~ In t (types c) -> elems c t = [].
Proof. rewrite assoc_types. unfold elems. destruct (seg_of c t); auto. intros H. exfalso. apply H. discriminate. Qed.

Lemma filled_nothing (c c' : coll V) (P : tyid -> bool) b : holds c b ->
  (forall t, In t (types c') <-> In t (types c) \/ P t = true) -> (forall t, elems c' t = elems c t) ->
  holds c' (filled None (fun _ => []) P b).
Proof.
  intros H T E'. apply holds_of.
  - intros t. rewrite has_filled, orb_true_iff, (holds_has c b t H), T. tauto.
  - intros t. rewrite els_filled, E' by auto. simpl. rewrite firstn_all, skipn_all, app_nil_r. apply holds_els; auto.
Qed.

Lemma registered_holds (c c' : coll V) ts b : registered c c' ts -> holds c b ->
  holds c' (filled None (fun _ => []) (fun t => mem t ts) b).
Proof.
  intros R H. eapply filled_nothing; eauto.
  - intros t. rewrite mem_in. apply R.
  - intros t. destruct (in_dec Nat.eq_dec t (types c)) as [I|N].
    + rewrite !elems_seg_at. rewrite (re_segs _ _ _ R t I). auto.
    + rewrite (elems_out c t N). unfold elems. destruct (seg_of c' t) as [xs|] eqn:Q; auto.
      apply assoc_in in Q. destruct (re_content _ _ _ R) as (news & P). apply (Permutation_in _ P) in Q.
      apply in_app_or in Q. destruct Q as [Q|Q].
      * apply in_map_iff in Q. destruct Q as (u & Q & _). inversion Q. auto.
      * exfalso. apply N. unfold types. apply (in_map fst) in Q. exact Q.
Qed.

Lemma same_but_holds (c c' : coll V) t b : same_but c c' t -> NoDup (types c') -> In t (types c') -> holds c b ->
  holds c' (filled None (fun _ => []) (Nat.eqb t) b).
Proof.
  intros S N I H. eapply filled_nothing; eauto.
  - intros u. rewrite Nat.eqb_eq. destruct S as [S|(Nn & S)].
    + unfold types in *. rewrite S in *. split; [auto|]. intros [|<-]; auto.
    + unfold types. rewrite (Permutation_map fst S). simpl. tauto.
  - intros u. destruct S as [S|(Nn & S)].
    + unfold elems, seg_of. rewrite S. auto.
    + unfold elems, seg_of. rewrite <- (assoc_perm _ _ u N S). simpl. destruct (Nat.eqb_spec t u) as [->|]; auto.
      unfold seg_of in Nn. rewrite Nn. auto.
Qed.

Lemma wiped_all_holds (c c' : coll V) b : wiped c c' (fun _ => True) -> holds c b ->
  holds c' (fun t => if has b t then Some [] else None).
Proof.
  intros W H. apply holds_of.
  - intros t. rewrite (wi_types _ _ _ W), <- (holds_has c b t H). unfold has at 1. destruct (has b t); tauto.
  - intros t. rewrite (wi_elems _ _ _ W t I). unfold els. destruct (has b t); auto.
Qed.
Lemma wiped_one_holds (c c' : coll V) t b : wiped c c' (eq t) -> In t (types c) -> holds c b ->
  holds c' (update t [] b).
Proof.
  intros W I H. apply holds_of.
  - intros u. rewrite has_update, (wi_types _ _ _ W), <- (holds_has c b u H), orb_true_iff, Nat.eqb_eq.
    split; [intros [->|]; auto; apply (holds_has c b t H); auto|auto].
  - intros u. rewrite els_update. destruct (Nat.eqb_spec u t) as [->|N].
    + symmetry. apply (wi_elems _ _ _ W). auto.
    + rewrite (holds_els c b u H), !elems_seg_at. rewrite (wi_others _ _ _ W); auto.
Qed.

Lemma cut_holds w g d (c c' : coll V) t f l b : let i := offset (content c) t in
  reach w (c :: g) d -> l <= length (elems c t) -> f <= l -> In t (types c) -> cut c c' (i + f) (i + l) -> holds c b ->
  holds c' (update t (firstn f (els b t) ++ skipn l (els b t)) b).
Proof.
  intros i R Hl Hf I C H. destruct (cut_some w c g d c' t f l R Hl Hf C) as (E1 & E2). apply holds_of.
  - intros u. rewrite has_update, (cut_types _ _ _ _ C), <- (holds_has c b u H), orb_true_iff, Nat.eqb_eq.
    split; [intros [->|]; auto; apply (holds_has c b t H); auto|auto].
  - intros u. rewrite els_update. destruct (Nat.eqb_spec u t) as [->|N].
    + rewrite E1, (holds_els c b t H). auto.
    + rewrite E2 by auto. apply holds_els; auto.
Qed.

Lemma cut_all_holds w g d (c c' : coll V) b : reach w (c :: g) d -> cut c c' 0 (length (flat c)) -> holds c b ->
  holds c' (fun t => if has b t then Some [] else None).
Proof.
  intros R C H. apply holds_of.
  - intros t. rewrite (cut_types _ _ _ _ C), <- (holds_has c b t H). unfold has at 1. destruct (has b t); tauto.
  - intros t. pose proof (cut_flat _ _ _ _ C) as Fl. unfold remove_range in Fl. rewrite skipn_all in Fl. simpl in Fl.
    assert (Z : elems c' t = []).
    { unfold elems. destruct (seg_of c' t) as [xs|] eqn:Q; auto. apply assoc_in in Q. unfold flat in Fl.
      destruct xs as [|x xs]; auto. exfalso. assert (In (t, x) (flat_map (fun e => map (pair (fst e)) (snd e)) (content c'))).
      { apply in_flat_map. exists (t, x :: xs). split; auto. left. auto. }
      rewrite Fl in H0. destruct H0. }
    rewrite Z. unfold els. destruct (has b t); auto.
Qed.

Lemma mutate_seg_of f (c : coll V) t : seg_of (c_mutate f c) t =
  option_map (fun l => map (fun kv => f t (fst kv) (snd kv)) (combine (seq 0 (length l)) l)) (seg_of c t).
Proof.
  unfold seg_of, content, c_mutate. cbn [c_nodes]. induction (c_nodes c) as [|n l IH]; simpl; auto.
  destruct (Nat.eqb_spec (sg_ty (n_seg n)) t) as [Q|]; auto. simpl. rewrite <- Q. reflexivity.
Qed.

(** ** Calls *)
Lemma hint_located w c g d hint h : reach w (c :: g) d -> hint_is c hint h -> exists i, located c hint i.
Proof.
  intros R. destruct h as [[t k]|]; simpl; intros H.
  - eexists. apply points_located. exact H.
  - exists (length (flat c)). left. auto.
Qed.
Lemma hint_slot w c g d hint h t : reach w (c :: g) d -> hint_is c hint h -> hint_at c hint t (slot h c t).
Proof.
  intros R. destruct (reach_wf _ _ _ _ R) as (W & _). destruct h as [[t0 k]|]; simpl; intros H.
  - destruct (Nat.eqb_spec t0 t) as [->|N]; [left; exact H|]. right. split; auto.
    intros j P. destruct (points_inj w c hint t0 k t j (wc_map _ _ W) H P). auto.
  - right. split; auto. intros j (n & _ & _ & Q & _). subst hint. discriminate.
Qed.
Lemma hint_hsafe (c : coll V) hint h t v : hint_is c hint h -> hsafe h c [(t, v)] -> hint_safe c hint t.
Proof.
  intros H [->|[I|Q]]; unfold hint_safe; auto. right. left. apply I. left. auto.
Qed.
Lemma hint_ok_holds w c g d hint h b : reach w (c :: g) d -> hint_is c hint h -> holds c b -> hint_fits h b = true.
Proof.
  intros R. destruct (reach_wf _ _ _ _ R) as (W & _). destruct h as [[t k]|]; simpl; auto. intros P H.
  rewrite (holds_els c b t H). apply Nat.ltb_lt. apply (points_elems w c hint t k (wc_map _ _ W) P).
Qed.

Lemma inserted_holds h (c c' : coll V) t v b : inserted c c' t (slot h c t) v -> holds c b ->
  holds c' (filled h (fun u => of_type u [(t, v)]) (fun u => mem u (map fst [(t, v)])) b).
Proof.
  intros I H. pose proof (in_grew _ _ _ _ _ I) as G. apply holds_of.
  - intros u. rewrite has_filled, orb_true_iff, mem_in, (holds_has c b u H), (g_types _ _ _ _ G). tauto.
  - intros u. rewrite els_filled, (bslot_slot c b h u H), (holds_els c b u H), (g_elems _ _ _ _ G).
    + assert (slot (Some (t, slot h c t)) c u = if t =? u then slot h c t else length (elems c u)) as -> by reflexivity.
      destruct (Nat.eqb_spec t u) as [->|N]; [reflexivity|].
      assert (of_type u [(t, v)] = []) as ->. { apply of_type_nil. simpl. intuition. }
      simpl. rewrite !firstn_skipn. auto.
    + intros _ M. apply of_type_nil. intros J. apply mem_in in J. congruence.
Qed.
Lemma inserted_at_holds (c c' : coll V) t k v b : inserted c c' t k v -> In t (types c) -> holds c b ->
  holds c' (update t (firstn k (els b t) ++ [v] ++ skipn k (els b t)) b).
Proof. intros I T H. apply (grew_at_holds t k c c' [v] b); auto. apply I. Qed.

Lemma performs_api w g i c d k m : reach w (c :: del i g) d -> performs g i c k m ->
  exists safe new vals, api (del i g) c m safe new vals.
Proof.
  intros R P. inversion P; subst.
  - do 3 eexists. apply api_register.
  - do 3 eexists. eapply api_emplace; eauto.
  - destruct (hint_located _ _ _ _ _ _ R H) as (q & L). do 3 eexists. eapply api_emplace_hint; eauto using hint_slot, hint_hsafe.
  - do 3 eexists. eapply api_emplace_pos; eauto.
  - do 3 eexists. eapply api_insert; eauto.
  - destruct (hint_located _ _ _ _ _ _ R H) as (q & L). do 3 eexists. eapply api_insert_hint; eauto using hint_slot, hint_hsafe.
  - do 3 eexists. eapply api_insert_pos; eauto.
  - do 3 eexists. eapply api_range; eauto.
  - do 3 eexists. eapply api_range_terminal; eauto.
  - do 3 eexists. eapply api_hint_range; eauto.
  - do 3 eexists. eapply api_hint_range_terminal; eauto.
  - do 3 eexists. eapply api_from; eauto. eapply del_in; eauto.
  - do 3 eexists. eapply api_hint_from; eauto. eapply del_in; eauto.
  - do 3 eexists. eapply api_from with (i := 0) (j := length (flat y)); eauto; [eapply del_in; eauto|left; auto|lia].
  - do 3 eexists. eapply api_hint_from with (i := 0) (j := length (flat y)); eauto; [eapply del_in; eauto|left; auto|lia|].
    rewrite Nat.sub_0_r. simpl skipn. rewrite firstn_all. auto.
  - do 3 eexists. eapply api_local; eauto.
  - do 3 eexists. eapply api_hint_local; eauto.
  - do 3 eexists. eapply api_pos_range; eauto.
  - do 3 eexists. eapply api_lpos_range; eauto.
  - do 3 eexists. eapply api_erase; eauto.
  - do 3 eexists. eapply api_erase_local; eauto.
  - do 3 eexists. eapply api_erase_local_range; eauto.
  - do 3 eexists. eapply api_erase_range with (i := offset (content c) t + f) (j := offset (content c) t + l); eauto using points_located. lia.
  - do 3 eexists. eapply api_erase_range with (i := 0) (j := length (flat c)); eauto; [left; auto|lia].
  - do 3 eexists. apply api_clear.
  - do 3 eexists. eapply api_clear_info; eauto.
  - do 3 eexists. eapply api_reserve_type; eauto.
  - do 3 eexists. eapply api_reserve; eauto.
  - do 3 eexists. eapply api_reserve_info; eauto.
  - do 3 eexists. eapply api_shrink; eauto.
  - do 3 eexists. eapply api_shrink_info; eauto.
Qed.

Lemma obey_put bs i h l (b : bag V) : hint_fits h b = true ->
  obey bs i (Put h l) b = Some (filled h (fun t => of_type t l) (fun t => mem t (map fst l)) b).
Proof. intros H. simpl. rewrite H. auto. Qed.
Lemma obey_at bs i t k vs c (b : bag V) : holds c b -> In t (types c) -> k <= length (elems c t) ->
  obey bs i (PutAt t k vs) b = Some (update t (firstn k (els b t) ++ vs ++ skipn k (els b t)) b).
Proof.
  intros H I L. simpl. rewrite (proj2 (holds_has c b t H) I). rewrite (holds_els c b t H).
  destruct (Nat.leb_spec k (length (elems c t))); [auto|lia].
Qed.
Lemma obey_erase bs i t f l c (b : bag V) : holds c b -> In t (types c) -> f <= l -> l <= length (elems c t) ->
  obey bs i (Erase t f l) b = Some (update t (firstn f (els b t) ++ skipn l (els b t)) b).
Proof.
  intros H I L L'. simpl. rewrite (proj2 (holds_has c b t H) I). rewrite (holds_els c b t H).
  destruct (Nat.leb_spec f l); [|lia]. destruct (Nat.leb_spec l (length (elems c t))); [auto|lia].
Qed.

Lemma from_holds w g d h (c c' y : coll V) b by_ : reach w g d -> In y g -> grew h c c' (flat y) -> holds c b -> holds y by_ ->
  holds c' (filled h (els by_) (fun t => negb (length (els by_ t) =? 0)) b).
Proof.
  intros R Iy G H Hy. pose proof (reach_wfm_in _ _ _ _ R Iy) as Wy.
  assert (Q : forall t, of_type t (flat y) = els by_ t) by (intros t; rewrite (of_type_flat _ _ _ (wc_map _ _ Wy)), (holds_els y by_ t Hy); auto).
  assert (M : forall t, In t (map fst (flat y)) <-> negb (length (els by_ t) =? 0) = true).
  { intros t. rewrite <- Q, negb_true_iff, Nat.eqb_neq. clear. unfold of_type. induction (flat y) as [|[u v] l IH]; simpl; [lia|].
    destruct (Nat.eqb_spec u t); simpl; [intuition lia|]. rewrite <- IH. intuition. }
  pose proof (grew_holds h c c' (flat y) b G H) as K. intros t. rewrite (K t). unfold filled. rewrite Q.
  assert (mem t (map fst (flat y)) = negb (length (els by_ t) =? 0)) as ->; auto.
  specialize (M t). rewrite <- mem_in in M. destruct (mem _ _), (negb _); intuition congruence.
Qed.

Lemma holds_keep (c c' : coll V) b (P : option (bag V)) : holds c b -> content c' = content c -> P = Some b -> exists b', P = Some b' /\ holds c' b'.
Proof. intros H S ->. exists b. split; auto. eapply holds_content; eauto. Qed.

Lemma performs_effect w g i c d k m bs b : reach w (c :: del i g) d -> nth_error g i = Some c ->
  Forall2 holds g bs -> nth_error bs i = Some b -> holds c b -> performs g i c k m ->
  wp m (c, w) (fun '(c', w') _ => reach w' (c' :: del i g) d -> exists b', obey bs i k b = Some b' /\ holds c' b') (fun _ _ => True).
Proof.
  intros R Hi F Hb H P. destruct (reach_wf _ _ _ _ R) as (W & _). pose proof (wc_map _ _ W) as Wm. inversion P; subst.
  - eapply wp_mono; [apply (spec_register w c (del i g) d l R)| |auto]. intros [c' w'] _ Q _.
    eexists. split; [reflexivity|]. apply (registered_holds c c'); auto.
  - eapply wp_void_mono; [eapply spec_emplace; eauto| |auto]. intros [c' w'] it (Q & _) _.
    eexists. split; [reflexivity|]. apply (inserted_holds None c c'); auto.
  - destruct (hint_located _ _ _ _ _ _ R H0) as (q & L).
    eapply wp_void_mono; [eapply (spec_emplace_hint w c _ d hint q (slot h c (env_ty a))); eauto using hint_slot, hint_hsafe| |auto].
    intros [c' w'] it (Q & _) _. rewrite obey_put by (eapply hint_ok_holds; eauto).
    eexists. split; [reflexivity|]. apply (inserted_holds h c c'); auto.
  - eapply wp_void_mono; [eapply spec_emplace_pos; eauto| |auto]. intros [c' w'] it (Q & _) _.
    rewrite (obey_at bs i _ k0 [v] c) by eauto using lpoints_types, lpoints_le.
    eexists. split; [reflexivity|]. apply (inserted_at_holds c c'); eauto using lpoints_types.
  - eapply wp_void_mono; [eapply spec_insert; eauto| |auto]. intros [c' w'] it (_ & Q & _) _.
    eexists. split; [reflexivity|]. apply (inserted_holds None c c'); auto.
  - destruct (hint_located _ _ _ _ _ _ R H0) as (q & L).
    eapply wp_void_mono; [eapply (spec_insert_hint w c _ d hint q (slot h c (env_ty (a_dyn x)))); eauto using hint_slot, hint_hsafe| |auto].
    intros [c' w'] it (_ & Q & _) _. rewrite obey_put by (eapply hint_ok_holds; eauto).
    eexists. split; [reflexivity|]. apply (inserted_holds h c c'); auto.
  - eapply wp_void_mono; [eapply spec_insert_pos; eauto| |auto]. intros [c' w'] it (Q & _) _.
    rewrite (obey_at bs i _ k0 [v] c) by eauto using lpoints_types, lpoints_le.
    eexists. split; [reflexivity|]. apply (inserted_at_holds c c'); eauto using lpoints_types.
  - eapply wp_mono; [eapply spec_insert_range; eauto| |auto]. intros [c' w'] _ (Q & _) _.
    eexists. split; [reflexivity|]. apply (grew_holds None c c'); auto.
  - eapply wp_mono; [eapply spec_insert_range_terminal; eauto| |auto]. intros [c' w'] _ (Q & _) _.
    eexists. split; [reflexivity|]. apply (grew_bulk_holds None _ c c'); auto.
  - eapply wp_mono; [eapply spec_insert_hint_range; eauto| |auto]. intros [c' w'] _ (Q & _) _.
    rewrite obey_put by (eapply hint_ok_holds; eauto). eexists. split; [reflexivity|]. apply (grew_holds h c c'); auto.
  - eapply wp_mono; [eapply spec_insert_hint_range_terminal; eauto| |auto]. intros [c' w'] _ (Q & _) _.
    cbn [obey]. rewrite (hint_ok_holds _ _ _ _ _ _ _ R H0 H). eexists. split; [reflexivity|]. apply (grew_bulk_holds hn _ c c'); auto.
  - assert (Iy := del_in g i j y H1 H0). eapply wp_mono; [eapply spec_insert_from; eauto| |auto]. intros [c' w'] _ (Q & _) _.
    eexists. split; [reflexivity|]. apply (grew_holds None c c'); auto.
  - assert (Iy := del_in g i j y H2 H1). eapply wp_mono; [eapply spec_insert_hint_from; eauto| |auto]. intros [c' w'] _ (Q & _) _.
    rewrite obey_put by (eapply hint_ok_holds; eauto). eexists. split; [reflexivity|]. apply (grew_holds h c c'); auto.
  - assert (Iy := del_in g i j y H1 H0). destruct (F2_nth _ _ _ _ _ F H1) as (by_ & Nb & Hy).
    eapply wp_mono; [eapply (spec_insert_from w c _ d y first (c_end y) 0 (length (flat y))); eauto; [left; auto|lia]| |auto].
    intros [c' w'] _ (Q & _) _. rewrite Nat.sub_0_r in Q. simpl skipn in Q. rewrite firstn_all in Q.
    simpl. destruct (Nat.eqb_spec j i); [congruence|]. rewrite Nb. eexists. split; [reflexivity|].
    eapply from_holds; [exact R|right; exact Iy|exact Q|exact H|exact Hy].
  - assert (Iy := del_in g i j y H2 H1). destruct (F2_nth _ _ _ _ _ F H2) as (by_ & Nb & Hy).
    eapply wp_mono; [eapply (spec_insert_hint_from w c _ d hint h y first (c_end y) 0 (length (flat y))); eauto; [left; auto|lia|]| |auto].
    { rewrite Nat.sub_0_r. simpl skipn. rewrite firstn_all. auto. }
    intros [c' w'] _ (Q & _) _. rewrite Nat.sub_0_r in Q. simpl skipn in Q. rewrite firstn_all in Q.
    simpl. destruct (Nat.eqb_spec j i); [congruence|]. rewrite Nb, (hint_ok_holds w c _ d hint h b R) by auto. eexists. split; [reflexivity|].
    eapply from_holds; [exact R|right; exact Iy|exact Q|exact H|exact Hy].
  - eapply wp_mono; [eapply spec_insert_local; eauto| |auto]. intros [c' w'] _ (Q & _) _.
    eexists. split; [reflexivity|]. apply (grew_holds None c c'); auto.
  - eapply wp_mono; [eapply spec_insert_hint_local; eauto| |auto]. intros [c' w'] _ (Q & _) _.
    rewrite obey_put by (eapply hint_ok_holds; eauto). eexists. split; [reflexivity|]. apply (grew_holds h c c'); auto.
  - eapply wp_void_mono; [eapply spec_insert_pos_range; eauto| |auto]. intros [c' w'] it (Q & _) _.
    rewrite (obey_at bs i _ k0 vs c) by eauto using lpoints_types, lpoints_le.
    eexists. split; [reflexivity|]. apply (grew_at_holds t k0 c c'); eauto using lpoints_types.
  - eapply wp_void_mono; [eapply spec_insert_lpos_range; eauto| |auto]. intros [c' w'] it (Q & _) _.
    rewrite (obey_at bs i _ k0 _ c) by eauto using lpoints_types, lpoints_le.
    eexists. split; [reflexivity|]. apply (grew_at_holds (env_ty a) k0 c c'); eauto using lpoints_types.
  - assert (Lk := points_elems w c pos t k0 Wm H0). assert (T : In t (types c)).
    { apply assoc_types. unfold elems in Lk. destruct (seg_of c t); [discriminate|simpl in Lk; lia]. }
    eapply wp_void_mono; [eapply spec_erase; eauto| |auto]. intros [c' w'] it (Q & _) _.
    rewrite (obey_erase bs i t k0 (1 + k0) c) by (auto; lia). eexists. split; [reflexivity|].
    apply (cut_holds w (del i g) d c c' t k0 (1 + k0) b); auto; try lia.
    replace (offset (content c) t + (1 + k0)) with (S (offset (content c) t + k0)) by lia. auto.
  - assert (T : In t (types c)) by (eapply lpoints_types; eauto).
    eapply wp_void_mono; [eapply spec_erase_local; eauto| |auto]. intros [c' w'] it (Q & _) _.
    rewrite (obey_erase bs i t k0 (1 + k0) c) by (auto; lia). eexists. split; [reflexivity|].
    apply (cut_holds w (del i g) d c c' t k0 (1 + k0) b); auto; try lia.
    replace (offset (content c) t + (1 + k0)) with (S (offset (content c) t + k0)) by lia. auto.
  - assert (T : In t (types c)) by (eapply lpoints_types; eauto). assert (Ll := lpoints_le _ _ _ _ _ _ _ R H1).
    eapply wp_void_mono; [eapply spec_erase_local_range; eauto| |auto]. intros [c' w'] it (Q & _) _.
    rewrite (obey_erase bs i t f l c) by auto. eexists. split; [reflexivity|].
    apply (cut_holds w (del i g) d c c' t f l b); auto.
  - assert (Lk := points_elems w c last t l Wm H1). assert (T : In t (types c)).
    { apply assoc_types. unfold elems in Lk. destruct (seg_of c t); [discriminate|simpl in Lk; lia]. }
    eapply wp_void_mono; [eapply (spec_erase_range w c _ d first last (offset (content c) t + f) (offset (content c) t + l)); eauto using points_located; lia| |auto].
    intros [c' w'] it (Q & _) _.
    rewrite (obey_erase bs i t f l c) by (auto; lia). eexists. split; [reflexivity|].
    apply (cut_holds w (del i g) d c c' t f l b); auto; lia.
  - eapply wp_void_mono; [eapply (spec_erase_range w c _ d first (c_end c) 0 (length (flat c))); eauto; [left; auto|lia]| |auto].
    intros [c' w'] it (Q & _) _. eexists. split; [reflexivity|]. eapply cut_all_holds; eauto.
  - eapply wp_mono; [eapply spec_clear; eauto| |auto]. intros [c' w'] _ Q _. eexists. split; [reflexivity|]. eapply wiped_all_holds; eauto.
  - eapply wp_mono; [eapply spec_clear_info; eauto| |auto]. intros [c' w'] _ (T & Q) _. simpl.
    rewrite (proj2 (holds_has c b _ H) T). eexists. split; [reflexivity|]. eapply wiped_one_holds; eauto.
  - eapply wp_mono; [eapply spec_reserve_type; eauto| |auto]. intros [c' w'] _ (Q & _ & T & _) R'.
    eexists. split; [reflexivity|]. eapply same_but_holds; eauto. eapply ProofProp4.types_nodup; eauto.
  - eapply wp_mono; [eapply spec_reserve; eauto| |auto]. intros [c' w'] _ (Q & _) _. eapply holds_keep; eauto. apply Q.
  - eapply wp_mono; [eapply spec_reserve_info; eauto| |auto]. intros [c' w'] _ (_ & Q & _) _. eapply holds_keep; eauto. apply Q.
  - eapply wp_mono; [eapply spec_shrink; eauto| |auto]. intros [c' w'] _ Q _. eapply holds_keep; eauto. apply Q.
  - eapply wp_mono; [eapply spec_shrink_info; eauto| |auto]. intros [c' w'] _ Q _. eapply holds_keep; eauto. apply Q.
Qed.

(** ** Calls which throw *)
Lemma same_but_reg (c c' : coll V) t b : same_but c c' t -> NoDup (types c') -> holds c b ->
  exists ts, incl ts [t] /\ holds c' (filled None (fun _ => []) (fun u => mem u ts) b).
Proof.
  intros S N H. destruct S as [S|(Nn & S)].
  - exists []. split; [intros x []|]. eapply filled_nothing; [exact H| |].
    + intros u. unfold types. rewrite S. simpl. intuition discriminate.
    + intros u. unfold elems, seg_of. rewrite S. auto.
  - exists [t]. split; [apply incl_refl|]. assert (I : In t (types c')).
    { unfold types. apply (Permutation_in _ (Permutation_sym (Permutation_map fst S))). left. reflexivity. }
    pose proof (same_but_holds c c' t b (or_intror (conj Nn S)) N I H) as K. intros u. rewrite (K u). unfold filled, mem. simpl.
    rewrite orb_false_r, (Nat.eqb_sym t u). reflexivity.
Qed.
Lemma filled_no (c c' : coll V) b : holds c b -> content c' = content c -> holds c' (filled None (fun _ => []) (fun u => mem u []) b).
Proof.
  intros H S. eapply filled_nothing; [exact H| |].
  - intros u. unfold types. rewrite S. simpl. intuition discriminate.
  - intros u. unfold elems, seg_of. rewrite S. auto.
Qed.

(** A range which broke off where the insertion of the element was safe. *)
Lemma broke_put bs i xs hs h (c c' : coll V) w w' l e b : NoDup (types c') -> broke_off xs hs h c c' w w' l e -> hint_fits h b = true ->
  range_safe h c l \/ (exists t, e = UnregisteredType t) -> holds c b ->
  exists b', tried bs i (Put h l) b b' /\ holds c' b'.
Proof.
  intros N (_ & pre & t & v & post & c1 & El & G & Cs) Hf Sf H.
  assert (H1 : holds c1 (filled h (fun t => of_type t pre) (fun t => mem t (map fst pre)) b)) by (apply (grew_holds h c c1); auto).
  assert (P : part (Put h l) (Put h pre)).
  { replace pre with (firstn (length pre) l); [|rewrite El, firstn_app, Nat.sub_diag, firstn_all; simpl; apply app_nil_r]. constructor. rewrite El, app_length. simpl. lia. }
  assert (Tr : exists ts, incl ts [t] /\ holds c' (filled None (fun _ => []) (fun u => mem u ts) (filled h (fun t => of_type t pre) (fun t => mem t (map fst pre)) b))).
  { destruct Cs as [(hw & _ & _ & Th & Rb)|(x & _ & _ & _ & _ & Un)].
    - apply (same_but_reg c1); auto. apply Rb. destruct Sf as [Sf|(t' & ->)].
      + rewrite El in Sf. eapply range_safe_at; eauto.
      + exfalso. eapply threw_not_unreg; eauto.
    - exists []. split; [intros x0 []|]. apply (filled_no c1); auto. apply Un. }
  destruct Tr as (ts & Ic & Ht). eexists. split; [|exact Ht]. exists (Put h pre), ts. eexists. csplit; [exact P| |apply obey_put; exact Hf|reflexivity].
  intros u Hu. apply Ic in Hu. destruct Hu as [<-|[]]. simpl. rewrite El, map_app. apply in_or_app. right. left. reflexivity.
Qed.

(** One element. *)
Lemma filled_id h (c : coll V) b : holds c b -> holds c (filled h (fun t => of_type t []) (fun t => mem t (map fst (@nil (tyid * V)))) b).
Proof.
  intros H t. rewrite (H t). unfold filled. simpl. rewrite orb_false_r. unfold of_type. simpl. rewrite firstn_skipn. unfold has, els.
  destruct (b t); auto.
Qed.
Lemma single_safe h (c : coll V) t v : range_safe h c [(t, v)] -> safe_at c t (slot h c t).
Proof.
  intros (Hq & Hr). unfold safe_at. assert (Ks : slot h c t = length (elems c t) \/ quiet t = true).
  { unfold slot. destruct h as [[t0 k0]|]; auto. destruct (Nat.eqb_spec t0 t) as [->|]; auto. right. eapply Hq; eauto. left. reflexivity. }
  destruct env_layout eqn:Ly.
  - destruct Ks; auto.
  - destruct (Hr eq_refl t (or_introl eq_refl)) as (C2 & Cr). unfold of_type in Cr. cbn [filter fst map] in Cr. rewrite Nat.eqb_refl in Cr.
    cbn [length map] in Cr. csplit; auto. lia.
Qed.
Definition put_safe (h : option (tyid * nat)) (c : coll V) (l : list (tyid * V)) (e : exn) : Prop :=
  range_safe h c l \/ (exists t, e = UnregisteredType t).
Lemma put_safe_at h (c : coll V) t v w w' hw n m e : put_safe h c [(t, v)] e -> threw (V := V) t hw n m w w' e -> safe_at c t (slot h c t).
Proof.
  intros [S|(t' & ->)] T; [eapply single_safe; eauto|exfalso; eapply threw_not_unreg; eauto].
Qed.
Lemma refused_put bs i h (c c' : coll V) w w' t v hw e b : NoDup (types c') -> refused c c' w w' t hw (slot h c t) e -> hint_fits h b = true ->
  safe_at c t (slot h c t) -> holds c b -> exists b', tried bs i (Put h [(t, v)]) b b' /\ holds c' b'.
Proof.
  intros N (_ & _ & Rb) Hf Sf H. apply (filled_id h) in H.
  destruct (same_but_reg c c' t _ (rb_same _ _ _ (Rb Sf)) N H) as (ts & Ic & Ht).
  eexists. split; [|exact Ht]. exists (Put h []), ts. eexists. csplit; [apply (part_put h [(t, v)] 0); simpl; lia| | |reflexivity].
  - intros u Hu. apply Ic in Hu. destruct Hu as [<-|[]]. left. reflexivity.
  - rewrite obey_put by exact Hf. reflexivity.
Qed.
Lemma unchanged_put bs i h (c c' : coll V) l b : content c' = content c -> l <> [] -> hint_fits h b = true -> holds c b ->
  exists b', tried bs i (Put h l) b b' /\ holds c' b'.
Proof.
  intros S Ne Hf H. apply (filled_id h) in H. eexists. split; [|apply (filled_no c c'); eauto]. exists (Put h []), []. eexists.
  csplit; [apply (part_put h l 0); destruct l; [congruence|simpl; lia]|intros t []| |reflexivity]. rewrite obey_put by exact Hf. reflexivity.
Qed.

(** At a local position: the type is registered. *)
Lemma same_but_here (c c' : coll V) t : same_but c c' t -> In t (types c) -> content c' = content c.
Proof. intros [Q|(N & _)] I; auto. apply assoc_types in I. contradiction. Qed.
Lemma part_put_at bs i t k (c c1 c' : coll V) vs pre post b : grew (Some (t, k)) c c1 (map (pair t) pre) -> In t (types c) -> k <= length (elems c t) ->
  vs = pre ++ post -> post <> [] -> content c' = content c1 -> holds c b -> exists b', tried bs i (PutAt t k vs) b b' /\ holds c' b'.
Proof.
  intros G I L Q Ne S H. pose proof (grew_at_holds t k c c1 pre b G I H) as H1. eexists. split; [|apply (filled_no c1 c'); eauto].
  exists (PutAt t k pre), []. eexists. csplit; [|intros u []|apply (obey_at bs i t k pre c); auto|reflexivity].
  replace pre with (firstn (length pre) vs); [|rewrite Q, firstn_app, Nat.sub_diag, firstn_all; simpl; apply app_nil_r].
  constructor. rewrite Q, app_length. destruct post; [congruence|simpl; lia].
Qed.
Lemma broke_at bs i hs t k (c c' : coll V) w w' vs e b : broke_off [] hs (Some (t, k)) c c' w w' (map (pair t) vs) e ->
  In t (types c) -> k <= length (elems c t) ->
  range_safe (Some (t, k)) c (map (pair t) vs) -> holds c b ->
  exists b', tried bs i (PutAt t k vs) b b' /\ holds c' b'.
Proof.
  intros (_ & pre & t' & v & post & c1 & El & G & Cs) I L Sf H.
  destruct (map_eq_app _ _ _ _ El) as (p1 & p2 & E1 & E2 & E3). destruct p2 as [|v2 p2]; [discriminate|]. simpl in E3. inversion E3; subst t' v post.
  rewrite <- E2 in *. eapply (part_put_at bs i t k c c1 c' vs p1 (v2 :: p2)); eauto; [discriminate|].
  destruct Cs as [(hw & _ & _ & Th & Rb)|(x & X & _)]; [|destruct (length (map (pair t) p1)); discriminate].
  apply (same_but_here c1 c' t); [|apply (g_types _ _ _ _ G); auto]. apply Rb. clear Rb.
  rewrite El in Sf. eapply range_safe_at; eauto.
Qed.
Lemma refused_at bs i t k (c c' : coll V) w w' v hw e b : refused c c' w w' t hw k e -> In t (types c) -> k <= length (elems c t) ->
  range_safe (Some (t, k)) c (map (pair t) [v]) -> holds c b ->
  exists b', tried bs i (PutAt t k [v]) b b' /\ holds c' b'.
Proof.
  intros (_ & _ & Rb) I L Sf H. assert (Q : safe_at c t k).
  { apply single_safe in Sf. unfold slot in Sf. rewrite Nat.eqb_refl in Sf. exact Sf. }
  apply Rb in Q. pose proof (same_but_here _ _ _ (rb_same _ _ _ Q) I) as S. eexists. split; [|apply (filled_no c c'); [|exact S]].
  - exists (PutAt t k []), []. eexists. csplit; [apply (part_at t k [v] 0); simpl; lia|intros u []|apply (obey_at bs i t k [] c); auto|reflexivity].
  - simpl. rewrite firstn_skipn. apply holds_of.
    + intros u. rewrite has_update, orb_true_iff, Nat.eqb_eq, (holds_has c b u H). split; [intros [->|]; auto|auto].
    + intros u. rewrite els_update. destruct (Nat.eqb_spec u t) as [->|]; apply holds_els; auto.
Qed.

(** Erasure. *)
Lemma erase_tried bs i t f l (c c' : coll V) b : types c' = types c -> (forall u, u <> t -> elems c' u = elems c u) ->
  length (elems c' t) = length (elems c t) -> holds c b -> exists b', tried bs i (Erase t f l) b b' /\ holds c' b'.
Proof.
  intros T O L H. pose (u := fun t' k v => if t' =? t then nth k (elems c' t) v else v).
  assert (Hw : holds c' (fun t' => option_map (fun l => map (fun kv => u t' (fst kv) (snd kv)) (combine (seq 0 (length l)) l)) (b t'))).
  { apply holds_of.
    - intros x. rewrite T, <- (holds_has c b x H). unfold has. destruct (b x); simpl; tauto.
    - intros x. assert (Q : els (fun t' => option_map (fun l => map (fun kv => u t' (fst kv) (snd kv)) (combine (seq 0 (length l)) l)) (b t')) x =
        map (fun kv => u x (fst kv) (snd kv)) (combine (seq 0 (length (els b x))) (els b x))).
      { unfold els. destruct (b x); auto. }
      rewrite Q, (holds_els c b x H). unfold u. destruct (Nat.eqb_spec x t) as [->|Ne].
      + generalize (elems c t) (elems c' t) L. clear. intros l1 l2 L. symmetry in L.
        assert (K : forall l1 l2 l0 : list V, length l1 = length l2 ->
          map (fun kv => nth (fst kv) (l0 ++ l2) (snd kv)) (combine (seq (length l0) (length l1)) l1) = l2).
        { clear. induction l1 as [|x l1 IH]; intros [|y l2] l0 L; try discriminate; auto. simpl. f_equal.
          - rewrite app_nth2, Nat.sub_diag by lia. reflexivity.
          - replace (l0 ++ y :: l2) with ((l0 ++ [y]) ++ l2) by (rewrite <- app_assoc; reflexivity).
            replace (S (length l0)) with (length (l0 ++ [y])) by (rewrite app_length; simpl; lia). apply IH. simpl in L. lia. }
        apply (K l1 l2 []). exact L.
      + rewrite O by auto. generalize 0. induction (elems c x) as [|y l' IH]; intros n; simpl; auto. f_equal. apply IH. }
  eexists. split; [|apply (filled_no c' c'); [exact Hw|reflexivity]].
  exists (Write u), []. eexists. csplit; [constructor|intros x []|reflexivity|reflexivity].
  intros t' k v Ne. unfold u. destruct (Nat.eqb_spec t' t); [contradiction|auto].
Qed.
Lemma threw_tried bs i t f l (c c' : coll V) w w' e b : erase_threw c c' w w' t e -> holds c b -> exists b', tried bs i (Erase t f l) b b' /\ holds c' b'.
Proof.
  intros (T & O & _ & L & _) H. apply (erase_tried bs i t f l c c'); auto. intros u Ne. rewrite !elems_seg_at. rewrite (O u Ne). auto.
Qed.
Lemma idle_tried bs i k k' (c c' : coll V) b : part k k' -> obey bs i k' b = Some b -> content c' = content c -> holds c b ->
  exists b', tried bs i k b b' /\ holds c' b'.
Proof.
  intros P O S H. eexists. split; [|apply (filled_no c c'); eauto]. exists k', [], b. csplit; auto. intros t [].
Qed.


Lemma fail_case w g' (c : coll V) d m safe new vals (P : coll V -> world -> exn -> Prop) (Sv : exn -> Prop) (T : coll V -> Prop) :
  reach w (c :: g') d -> api g' c m safe new vals ->
  wp m (c, w) (fun _ _ => True) (fun '(c', w') e => P c' w' e) ->
  (forall c' w' e, P c' w' e -> Sv e -> safe e /\ (NoDup (types c') -> T c')) ->
  wp m (c, w) (fun _ _ => True) (fun '(c', w') e => Sv e -> reach w' (c' :: g') d /\ T c').
Proof.
  intros R A S K. unfold wp in *. destruct (m (c, w)) as [[c' w'] []|[c' w'] e|] eqn:Q; auto. intros He. destruct (K c' w' e S He) as (K1 & K2).
  assert (R' : reach w' (c' :: g') d) by (eapply r_call_exn; eauto). split; auto. apply K2. eapply ProofProp4.types_nodup; eauto.
Qed.
Lemma wp_exn_only {A} (m : M CW A) s (P : CW -> A -> Prop) (Q : coll V -> world -> exn -> Prop) : wp m s P (fun '(c', w') e => Q c' w' e) ->
  wp m s (fun _ _ => True) (fun '(c', w') e => Q c' w' e).
Proof. unfold wp. destruct (m s) as [s' a|[c' w'] e|]; auto. Qed.
Lemma wp_void_only {A} (m : M CW A) s (P : CW -> A -> Prop) (Q : coll V -> world -> exn -> Prop) : wp m s P (fun '(c', w') e => Q c' w' e) ->
  wp (void m) s (fun _ _ => True) (fun '(c', w') e => Q c' w' e).
Proof. intros H. eapply wp_void_mono; [exact H|auto|]. intros [c' w'] e K. exact K. Qed.

Lemma broke_safe hs h (c c' : coll V) w w' l e : broke_off [] hs h c c' w w' l e ->
  range_safe h c l \/ (exists t, e = UnregisteredType t) -> range_safe h c l.
Proof.
  intros (_ & pre & t & v & post & c1 & _ & _ & Cs) [S|(t' & ->)]; auto. exfalso.
  destruct Cs as [(hw & _ & _ & Th & _)|(x & X & _)]; [eapply threw_not_unreg; eauto|]. destruct (length pre); discriminate.
Qed.
Lemma performs_fails w g i c d k m bs b : reach w (c :: del i g) d -> nth_error g i = Some c ->
  Forall2 holds g bs -> nth_error bs i = Some b -> holds c b -> performs g i c k m ->
  wp m (c, w) (fun _ _ => True)
    (fun '(c', w') e => survives c k e -> reach w' (c' :: del i g) d /\ exists b', tried bs i k b b' /\ holds c' b').
Proof.
  intros R Hi F Hb H P. destruct (reach_wf _ _ _ _ R) as (W & _). pose proof (wc_map _ _ W) as Wm. inversion P; subst; cbn [survives].
  - (* register *) eapply fail_case; [exact R|apply api_register|eapply wp_exn_only; apply (spec_register w c (del i g) d l R)|].
    intros c' w' e (pre & a & post & -> & Q & _) _. split; auto. intros _.
    assert (exists n, registered c c' (firstn n (map env_ty (pre ++ a :: post)))) as (n & Q').
    { destruct Q as [Q|Q].
      - exists (length (map env_ty pre)). rewrite map_app, firstn_app, Nat.sub_diag, firstn_all. simpl. rewrite app_nil_r. exact Q.
      - exists (length (map env_ty (pre ++ [a]))). replace (pre ++ a :: post) with ((pre ++ [a]) ++ post) by (rewrite <- app_assoc; reflexivity).
        rewrite (map_app _ (pre ++ [a])), firstn_app, Nat.sub_diag, firstn_all. simpl. rewrite app_nil_r. exact Q. }
    eexists. split; [|apply (filled_no c' c'); [eapply registered_holds; [exact Q'|exact H]|reflexivity]].
    eexists _, [], _. csplit; [apply part_register|intros t []|reflexivity|reflexivity].
  - (* emplace *) eapply fail_case; [exact R|eapply api_emplace; eauto|eapply wp_void_only; eapply spec_emplace; eauto|].
    intros c' w' e Q Sv. assert (Sf := put_safe_at None c _ _ _ _ _ _ _ _ Sv (proj1 (proj2 Q))). split; auto. intros N.
    eapply (refused_put bs i None); [exact N|exact Q|reflexivity|exact Sf|exact H].
  - (* emplace_hint *) destruct (hint_located _ _ _ _ _ _ R H0) as (q & L).
    eapply fail_case; [exact R|eapply (api_emplace_hint _ _ hint q (slot h c (env_ty a))); eauto using hint_slot, hint_hsafe|eapply wp_void_only; eapply (spec_emplace_hint w c _ d hint q (slot h c (env_ty a))); eauto using hint_slot, hint_hsafe|].
    intros c' w' e Q Sv. assert (Sf := put_safe_at h c _ _ _ _ _ _ _ _ Sv (proj1 (proj2 Q))). split; auto. intros N.
    eapply (refused_put bs i h); [exact N|exact Q|eapply hint_ok_holds; eauto|exact Sf|exact H].
  - (* emplace_pos *) eapply fail_case; [exact R|eapply api_emplace_pos; eauto|eapply wp_void_only; eapply spec_emplace_pos; eauto|].
    intros c' w' e Q Sv. split.
    { apply single_safe in Sv. unfold slot in Sv. rewrite Nat.eqb_refl in Sv. exact Sv. }
    intros _. eapply (refused_at bs i); [exact Q|eapply lpoints_types; eauto|eapply lpoints_le; eauto|exact Sv|exact H].
  - (* insert *) eapply fail_case; [exact R|eapply api_insert; eauto|eapply wp_void_only; eapply spec_insert; eauto|].
    intros c' w' e [(Un & -> & Uc)|(_ & Q)] Sv.
    + split; auto. intros _. apply (unchanged_put bs i None c c'); auto; [apply Uc|discriminate].
    + assert (Sf := put_safe_at None c _ _ _ _ _ _ _ _ Sv (proj1 (proj2 Q))). split; auto. intros N. eapply (refused_put bs i None); [exact N|exact Q|reflexivity|exact Sf|exact H].
  - (* insert_hint *) destruct (hint_located _ _ _ _ _ _ R H0) as (q & L).
    eapply fail_case; [exact R|eapply (api_insert_hint _ _ hint q (slot h c (env_ty (a_dyn x)))); eauto using hint_slot, hint_hsafe|eapply wp_void_only; eapply (spec_insert_hint w c _ d hint q (slot h c (env_ty (a_dyn x)))); eauto using hint_slot, hint_hsafe|].
    intros c' w' e [(Un & -> & Uc)|(_ & Q)] Sv.
    + split; auto. intros _. apply (unchanged_put bs i h c c'); auto; [apply Uc|discriminate|eapply hint_ok_holds; eauto].
    + assert (Sf := put_safe_at h c _ _ _ _ _ _ _ _ Sv (proj1 (proj2 Q))). split; auto. intros N. eapply (refused_put bs i h); [exact N|exact Q|eapply hint_ok_holds; eauto|exact Sf|exact H].
  - (* insert_pos *) eapply fail_case; [exact R|eapply api_insert_pos; eauto|eapply wp_void_only; eapply spec_insert_pos; eauto|].
    intros c' w' e Q Sv. split.
    { apply single_safe in Sv. unfold slot in Sv. rewrite Nat.eqb_refl in Sv. exact Sv. }
    intros _. eapply (refused_at bs i); [exact Q|eapply lpoints_types; eauto|eapply lpoints_le; eauto|exact Sv|exact H].
  - (* range *) eapply fail_case; [exact R|eapply api_range; eauto|eapply wp_exn_only; eapply spec_insert_range; eauto|].
    intros c' w' e Q Sv. split; [exact Sv|intros N; eapply (broke_put bs i _ _ None c c'); [exact N|exact Q|reflexivity|exact Sv|exact H]].
  - (* range_terminal *) eapply fail_case; [exact R|eapply api_range_terminal; eauto|eapply wp_exn_only; eapply spec_insert_range_terminal; eauto|].
    intros c' w' e _ [].
  - (* hint_range *) eapply fail_case; [exact R|eapply api_hint_range; eauto|eapply wp_exn_only; eapply spec_insert_hint_range; eauto|].
    intros c' w' e Q Sv. split; [exact Sv|intros N; eapply (broke_put bs i _ _ h c c'); [exact N|exact Q|eapply hint_ok_holds; eauto|exact Sv|exact H]].
  - eapply fail_case; [exact R|eapply api_hint_range_terminal; eauto|eapply wp_exn_only; eapply spec_insert_hint_range_terminal; eauto|].
    intros c' w' e _ [].
  - (* from *) assert (Iy := del_in g i j y H1 H0).
    eapply fail_case; [exact R|eapply api_from; eauto|eapply wp_exn_only; eapply spec_insert_from; eauto|].
    intros c' w' e Q Sv. split; [eapply broke_safe; [exact Q|exact Sv]|intros N; eapply (broke_put bs i _ _ None c c'); [exact N|exact Q|reflexivity|exact Sv|exact H]].
  - (* hint_from *) assert (Iy := del_in g i j y H2 H1).
    eapply fail_case; [exact R|eapply api_hint_from; eauto|eapply wp_exn_only; eapply spec_insert_hint_from; eauto|].
    intros c' w' e Q Sv. split; [eapply broke_safe; [exact Q|exact Sv]|intros N; eapply (broke_put bs i _ _ h c c'); [exact N|exact Q|eapply hint_ok_holds; eauto|exact Sv|exact H]].
  - (* all *) assert (Iy := del_in g i j y H1 H0).
    eapply fail_case; [exact R|eapply api_from with (i := 0) (j := length (flat y)); eauto; [left; auto|lia]|eapply wp_exn_only; eapply (spec_insert_from w c _ d y first (c_end y) 0 (length (flat y))); eauto; [left; auto|lia]|].
    intros c' w' e _ [].
  - (* hint_all *) assert (Iy := del_in g i j y H2 H1).
    assert (Hs : hsafe h c (firstn (length (flat y) - 0) (skipn 0 (flat y)))) by (rewrite Nat.sub_0_r; simpl skipn; rewrite firstn_all; auto).
    eapply fail_case; [exact R|eapply api_hint_from with (i := 0) (j := length (flat y)); eauto; [left; auto|lia]|eapply wp_exn_only; eapply (spec_insert_hint_from w c _ d hint h y first (c_end y) 0 (length (flat y))); eauto; [left; auto|lia]|].
    intros c' w' e _ [].
  - (* local *) eapply fail_case; [exact R|eapply api_local; eauto|eapply wp_exn_only; eapply spec_insert_local; eauto|].
    intros c' w' e Q Sv. split; [eapply broke_safe; [exact Q|exact Sv]|intros N; eapply (broke_put bs i _ _ None c c'); [exact N|exact Q|reflexivity|exact Sv|exact H]].
  - (* hint_local *) eapply fail_case; [exact R|eapply api_hint_local; eauto|eapply wp_exn_only; eapply spec_insert_hint_local; eauto|].
    intros c' w' e Q Sv. split; [eapply broke_safe; [exact Q|exact Sv]|intros N; eapply (broke_put bs i _ _ h c c'); [exact N|exact Q|eapply hint_ok_holds; eauto|exact Sv|exact H]].
  - (* pos_range *) eapply fail_case; [exact R|eapply api_pos_range; eauto|eapply wp_void_only; eapply spec_insert_pos_range; eauto|].
    intros c' w' e Q Sv. split; [exact Sv|intros N; eapply broke_at; [exact Q|eapply lpoints_types; eauto|eapply lpoints_le; eauto|exact Sv|exact H]].
  - (* lpos_range *) eapply fail_case; [exact R|eapply api_lpos_range; eauto|eapply wp_void_only; eapply spec_insert_lpos_range; eauto|].
    intros c' w' e Q Sv. split; [exact Sv|intros N; eapply broke_at; [exact Q|eapply lpoints_types; eauto|eapply lpoints_le; eauto|exact Sv|exact H]].
  - (* erase *) eapply fail_case; [exact R|eapply api_erase; eauto|eapply wp_void_only; eapply spec_erase; eauto|].
    intros c' w' e Q Sv. split; [destruct Sv as [|Nq]; [auto|exfalso; apply Nq; reflexivity]|intros N; eapply threw_tried; [exact Q|exact H]].
  - (* erase_local *) eapply fail_case; [exact R|eapply api_erase_local; eauto|eapply wp_void_only; eapply spec_erase_local; eauto|].
    intros c' w' e Q Sv. split; [destruct Sv as [|Nq]; [auto|exfalso; apply Nq; reflexivity]|intros N; eapply threw_tried; [exact Q|exact H]].
  - (* erase_local_range *) eapply fail_case; [exact R|eapply api_erase_local_range; eauto|eapply wp_void_only; eapply spec_erase_local_range; eauto|].
    intros c' w' e Q Sv. split; [auto|intros N; eapply threw_tried; [exact Q|exact H]].
  - (* erase_range *)
    eapply fail_case; [exact R|eapply api_erase_range with (i := offset (content c) t + f) (j := offset (content c) t + l); eauto using points_located; lia|eapply wp_void_only; eapply (spec_erase_range w c _ d first last (offset (content c) t + f) (offset (content c) t + l)); eauto using points_located; lia|].
    intros c' w' e (_ & _ & _ & _ & _ & _ & (t' & k' & c1 & w1 & P1 & C1 & _ & Q)) Sv. split; [auto|intros N].
    destruct (points_inj w c last t l t' k' Wm H1 P1) as (<- & <-). rewrite Nat.max_l in C1 by lia.
    assert (El : forall u, elems c1 u = elems c u).
    { intros u. rewrite (cut_elems _ _ _ _ C1). unfold remove_range. apply firstn_skipn. }
    destruct Q as (T & O & _ & L & _). apply (erase_tried bs i t f l c c'); auto.
    + rewrite T. apply C1.
    + intros u Ne. rewrite <- El, !elems_seg_at. rewrite (O u Ne). auto.
    + rewrite L, El. auto.
  - (* erase_all *)
    eapply fail_case; [exact R|eapply api_erase_range with (i := 0) (j := length (flat c)); eauto; [left; auto|lia]|eapply wp_void_only; eapply (spec_erase_range w c _ d first (c_end c) 0 (length (flat c))); eauto; [left; auto|lia]|].
    intros c' w' e (_ & _ & _ & _ & _ & _ & (t' & k' & c1 & w1 & (n & _ & _ & Q & _) & _)) Sv. discriminate Q.
  - (* clear *) eapply (fail_case w (del i g) c d _ _ _ _ (fun _ _ _ => False)); [exact R|eapply api_clear; eauto|eapply wp_mono; [eapply spec_clear; eauto|auto|intros ? ? []]|].
    intros c' w' e [].
  - (* clear_info *) eapply fail_case; [exact R|eapply api_clear_info; eauto|eapply wp_exn_only; eapply spec_clear_info; eauto|].
    intros c' w' e (_ & _ & -> & _) _. split; auto. intros _. apply (idle_tried bs i _ Tune c c); auto. constructor.
  - (* reserve_type *) eapply fail_case; [exact R|eapply api_reserve_type; eauto|eapply wp_exn_only; eapply spec_reserve_type; eauto|].
    intros c' w' e (Q & _) Sv. split; auto. intros N. destruct (same_but_reg c c' _ b Q N H) as (ts & Ic & Ht).
    eexists. split; [|exact Ht]. exists Tune, ts. eexists. csplit; [constructor| |reflexivity|reflexivity].
    intros u Hu. apply Ic in Hu. destruct Hu as [<-|[]]. reflexivity.
  - (* reserve *) eapply fail_case; [exact R|eapply api_reserve; eauto|eapply wp_exn_only; eapply spec_reserve; eauto|].
    intros c' w' e (Q & _ & t & _ & Th) Sv. split; [|intros _; apply (idle_tried bs i _ Tune c c'); auto; constructor].
    destruct Sv as [|(u & ->)]; auto. exfalso. destruct Th as [([?|(? & _)] & _)|[(? & _)|(? & _)]]; discriminate.
  - (* reserve_info *) eapply fail_case; [exact R|eapply api_reserve_info; eauto|eapply wp_exn_only; eapply spec_reserve_info; eauto|].
    intros c' w' e [(N & _ & -> & _)|(_ & Q & _ & _ & _ & Th)] Sv.
    + split; [auto|intros _; apply (idle_tried bs i _ Tune c c); auto; constructor].
    + split; [|intros _; apply (idle_tried bs i _ Tune c c'); auto; constructor].
      destruct Sv as [|(u & ->)]; auto. exfalso. destruct Th as [([?|(? & _)] & _)|[(? & _)|(? & _)]]; discriminate.
  - (* shrink *) eapply fail_case; [exact R|eapply api_shrink; eauto|eapply wp_exn_only; eapply spec_shrink; eauto|].
    intros c' w' e (Q & _) Sv. split; auto. intros _. apply (idle_tried bs i _ Shrink c c'); auto; [constructor|apply Q].
  - (* shrink_info *) eapply fail_case; [exact R|eapply api_shrink_info; eauto|eapply wp_exn_only; eapply spec_shrink_info; eauto|].
    intros c' w' e [(_ & _ & -> & _)|(_ & Q & _)] Sv; (split; [auto|]; intros _).
    + apply (idle_tried bs i _ Shrink c c); auto. constructor.
    + apply (idle_tried bs i _ Shrink c c'); auto; [constructor|apply Q].
Qed.


Lemma flat_meant w g i (c : coll V) d bs h j y t : reach w (c :: del i g) d -> Forall2 holds g bs -> j <> i ->
  nth_error g j = Some y -> In t (map fst (flat y)) -> meant bs (PutFrom h j) t.
Proof.
  intros R F N Hy I. destruct (F2_nth _ _ _ _ _ F Hy) as (b & Hb & Hh). exists b. split; auto.
  assert (Wy : wfm w y).
  { assert (Iy : In y (c :: del i g)) by (right; eapply del_in; eauto). exact (wc_map _ _ (reach_wfm_in _ _ _ _ R Iy)). }
  rewrite (holds_els y b t Hh), <- (of_type_flat _ _ _ Wy). apply in_map_iff in I. destruct I as ((u & v) & Q & I). simpl in Q. subst u.
  intros Z. assert (K : In v (of_type t (flat y))).
  { unfold of_type. apply in_map_iff. exists (t, v). split; auto. apply filter_In. split; auto. simpl. apply Nat.eqb_refl. }
  rewrite Z in K. destruct K.
Qed.
(** Only types meant get registered, even if the call throws. *)
Lemma performs_means w g i c d k m bs : reach w (c :: del i g) d -> Forall2 holds g bs -> performs g i c k m ->
  exists safe new vals, api (del i g) c m safe new vals /\ (forall t, In t new -> meant bs k t).
Proof.
  intros R F P. inversion P; subst.
  - do 3 eexists. split; [apply api_register|auto].
  - do 3 eexists. split; [eapply api_emplace; eauto|simpl; auto].
  - destruct (hint_located _ _ _ _ _ _ R H) as (q & L). do 3 eexists. split; [eapply api_emplace_hint; eauto using hint_slot, hint_hsafe|simpl; auto].
  - do 3 eexists. split; [eapply api_emplace_pos; eauto|simpl; auto].
  - do 3 eexists. split; [eapply api_insert; eauto|simpl; auto].
  - destruct (hint_located _ _ _ _ _ _ R H) as (q & L). do 3 eexists. split; [eapply api_insert_hint; eauto using hint_slot, hint_hsafe|simpl; auto].
  - do 3 eexists. split; [eapply api_insert_pos; eauto|simpl; auto].
  - do 3 eexists. split; [eapply api_range; eauto|auto].
  - do 3 eexists. split; [eapply api_range_terminal; eauto|simpl; intros t; apply map_fst_pair].
  - do 3 eexists. split; [eapply api_hint_range; eauto|auto].
  - do 3 eexists. split; [eapply api_hint_range_terminal; eauto|simpl; intros t; apply map_fst_pair].
  - do 3 eexists. split; [eapply api_from; eauto; eapply del_in; eauto|auto].
  - do 3 eexists. split; [eapply api_hint_from; eauto; eapply del_in; eauto|auto].
  - do 3 eexists. split; [eapply api_from with (i := 0) (j := length (flat y)); eauto; [eapply del_in; eauto|left; auto|lia]|].
    rewrite Nat.sub_0_r, firstn_all. intros t It. eapply flat_meant; eauto.
  - do 3 eexists. split; [eapply api_hint_from with (i := 0) (j := length (flat y)); eauto; [eapply del_in; eauto|left; auto|lia|]|].
    { rewrite Nat.sub_0_r. simpl skipn. rewrite firstn_all. auto. }
    rewrite Nat.sub_0_r, firstn_all. intros t It. eapply flat_meant; eauto.
  - do 3 eexists. split; [eapply api_local; eauto|auto].
  - do 3 eexists. split; [eapply api_hint_local; eauto|auto].
  - do 3 eexists. split; [eapply api_pos_range; eauto|simpl; auto].
  - do 3 eexists. split; [eapply api_lpos_range; eauto|simpl; auto].
  - do 3 eexists. split; [eapply api_erase; eauto|simpl; auto].
  - do 3 eexists. split; [eapply api_erase_local; eauto|simpl; auto].
  - do 3 eexists. split; [eapply api_erase_local_range; eauto|simpl; auto].
  - do 3 eexists. split; [eapply api_erase_range with (i := offset (content c) t + f) (j := offset (content c) t + l); eauto using points_located; lia|simpl; auto].
  - do 3 eexists. split; [eapply api_erase_range with (i := 0) (j := length (flat c)); eauto; [left; auto|lia]|simpl; auto].
  - do 3 eexists. split; [apply api_clear|simpl; auto].
  - do 3 eexists. split; [eapply api_clear_info; eauto|simpl; auto].
  - do 3 eexists. split; [eapply api_reserve_type; eauto|simpl; intuition].
  - do 3 eexists. split; [eapply api_reserve; eauto|simpl; auto].
  - do 3 eexists. split; [eapply api_reserve_info; eauto|simpl; auto].
  - do 3 eexists. split; [eapply api_shrink; eauto|simpl; auto].
  - do 3 eexists. split; [eapply api_shrink_info; eauto|simpl; auto].
Qed.

Lemma performs_cleared w g i c d k m bs b c' w' e : reach w (c :: del i g) d ->
  Forall2 holds g bs -> holds c b -> performs g i c k m -> m (c, w) = Exn (c', w') e ->
  wp c_clear (c', w') (fun '(c2, w2) _ => reach w2 (c2 :: del i g) d /\ exists b', tried_clear bs i k b b' /\ holds c2 b') (fun _ _ => False).
Proof.
  intros R F Hb P Q. destruct (performs_means _ _ _ _ _ _ _ _ R F P) as (sf & nw & vl & A & M).
  pose proof (recover_clear _ _ _ _ _ _ _ _ _ _ _ R A Q) as S.
  pose proof (api_kept _ _ _ _ _ _ _ _ R A) as K. destruct (api_brought _ _ _ _ _ _ _ _ R A) as (_ & B).
  unfold wp in *. rewrite Q in K. specialize (B _ _ _ Q).
  destruct (c_clear (c', w')) as [[c2 w2] []|[c2 w2] e2|]; auto. destruct S as (R2 & W). split; auto.
  assert (N2 := ProofProp4.types_nodup _ _ _ _ R2).
  set (ts := filter (fun t => mem t (types c')) nw).
  eexists. split; [exists ts; eexists; split; [|split; reflexivity]|].
  { intros t I. apply filter_In in I. apply M, I. }
  apply holds_of.
  - intros t. rewrite (wi_types _ _ _ W). unfold has at 1. cbv beta. rewrite has_filled.
    assert (X : has b t || mem t ts = true <-> In t (types c')).
    { rewrite orb_true_iff, mem_in, (holds_has c b t Hb). unfold ts. rewrite filter_In, mem_in. split.
      - intros [I|I]; [apply K; auto|apply I].
      - intros I. destruct (in_app_or _ _ _ (B t I)); auto. }
    destruct (has b t || mem t ts); [tauto|]. split; [discriminate|]. intros I. apply X in I. discriminate I.
  - intros t. rewrite (wi_elems _ _ _ W t I). unfold els. cbv beta. destruct (has (filled None (fun _ => []) (fun t => mem t ts) b) t); auto.
Qed.

(** ** Histories *)
Lemma run_app (bs : list (bag V)) h a : run bs (h ++ [a]) = match run bs h with Some bs' => act1 bs' a | None => None end.
Proof.
  revert bs. induction h as [|x h IH]; intros bs; simpl; [destruct (act1 bs a); auto|]. destruct (act1 bs x); auto.
Qed.
Lemma blank_holds (c : coll V) : blank c -> holds c none.
Proof. intros B t. unfold seg_of. rewrite B. auto. Qed.

Lemma runs_app (h h' : list (act V)) bs bs1 bs2 : runs bs h bs1 -> runs bs1 h' bs2 -> runs bs (h ++ h') bs2.
Proof. intros R R'. induction R; simpl; auto. econstructor; eauto. Qed.
Lemma runs_snoc (h : list (act V)) a bs0 bs bs' : runs bs0 h bs -> moves bs a bs' -> runs bs0 (h ++ [a]) bs'.
Proof. intros R M. eapply runs_app; [exact R|]. econstructor; [exact M|constructor]. Qed.
Lemma runs_split (h h' : list (act V)) bs bs2 : runs bs (h ++ h') bs2 -> exists bs1, runs bs h bs1 /\ runs bs1 h' bs2.
Proof.
  revert bs. induction h as [|a h IH]; intros bs R; simpl in R; [exists bs; split; [constructor|auto]|].
  inversion R as [|? b1 ? ? M R']; subst. destruct (IH _ R') as (bs1 & R1 & R2). exists bs1. split; auto. econstructor; eauto.
Qed.
Lemma run_step (h : list (act V)) bs0 bs a g : runs bs0 h bs -> (exists bs', act1 bs a = Some bs' /\ Forall2 holds g bs') ->
  exists bs', runs bs0 (h ++ [a]) bs' /\ Forall2 holds g bs'.
Proof. intros R (bs' & Q & F). exists bs'. split; auto. eapply runs_snoc; eauto. constructor. auto. Qed.

(** Without failures which leave a collection in use the machine computes. *)
Lemma moves_act1 (a : act V) bs bs' : moves bs a bs' -> steady a -> act1 bs a = Some bs'.
Proof. intros M S. inversion M; subst; auto; destruct S. Qed.
Lemma runs_run (h : list (act V)) bs0 bs : runs bs0 h bs -> Forall steady h -> run bs0 h = Some bs.
Proof.
  induction 1 as [|bs0 a bs1 h bs M R IH]; intros S; auto. inversion S as [|? ? S1 S2]; subst. simpl.
  rewrite (moves_act1 _ _ _ M S1). auto.
Qed.
Lemma run_runs (h : list (act V)) : forall bs0 bs, run bs0 h = Some bs -> runs bs0 h bs.
Proof.
  induction h as [|a h IH]; intros bs0 bs Q; simpl in Q; [inversion Q; constructor|].
  destruct (act1 bs0 a) as [bs1|] eqn:Qa; [|discriminate]. econstructor; [constructor; exact Qa|]. auto.
Qed.

Lemma history_spec h w g d : history h w g d -> reach w g d /\ exists bs, runs [] h bs /\ Forall2 holds g bs.
Proof.
  intros H. induction H.
  - split; [constructor|]. exists []. split; auto. constructor.
  - destruct IHhistory as (R & bs & Rn & F). split; [apply r_new; auto|]. apply (run_step _ _ _ _ _ Rn). eexists. split; [reflexivity|].
    constructor; auto. intros t. reflexivity.
  - destruct IHhistory as (R & bs & Rn & F). split; [eapply r_range; eauto|]. apply (run_step _ _ _ _ _ Rn). eexists. split; [reflexivity|].
    constructor; auto. pose proof (spec_from_range w g d xs l al R H0) as Q. unfold wp in Q. rewrite H1 in Q.
    apply (grew_holds None (c_empty al)); [apply Q|]. intros t. reflexivity.
  - destruct IHhistory as (R & bs & Rn & F). pose proof (spec_copy w g d x R (nth_error_In _ _ H0)) as Q. unfold wp in Q. rewrite H1 in Q.
    destruct Q as ((_ & S) & _ & _ & R'). split; auto. apply (run_step _ _ _ _ _ Rn). destruct (F2_nth _ _ _ _ _ F H0) as (b & Nb & Hb).
    simpl. rewrite Nb. eexists. split; [reflexivity|]. constructor; auto. eapply holds_same; eauto.
  - destruct IHhistory as (R & bs & Rn & F). pose proof (spec_copy_al w g d x al R (nth_error_In _ _ H0)) as Q. unfold wp in Q. rewrite H1 in Q.
    destruct Q as ((_ & S) & _ & _ & R'). split; auto. apply (run_step _ _ _ _ _ Rn). destruct (F2_nth _ _ _ _ _ F H0) as (b & Nb & Hb).
    simpl. rewrite Nb. eexists. split; [reflexivity|]. constructor; auto. eapply holds_same; eauto.
  - destruct IHhistory as (R & bs & Rn & F). pose proof (r_perm _ _ _ _ _ R (del_perm g j x H0) (Permutation_refl _)) as R1.
    pose proof (spec_move w _ d x R1) as Q. unfold wp in Q. rewrite H1 in Q. destruct Q as (-> & -> & B & _).
    split.
    { eapply r_perm; [eapply r_move; eauto| |reflexivity]. constructor. symmetry. apply upd_perm. }
    apply (run_step _ _ _ _ _ Rn). destruct (F2_nth _ _ _ _ _ F H0) as (b & Nb & Hb). simpl. rewrite Nb. eexists. split; [reflexivity|].
    constructor; auto. apply F2_upd; auto. apply blank_holds; auto.
  - destruct IHhistory as (R & bs & Rn & F). pose proof (r_perm _ _ _ _ _ R (del_perm g j x H0) (Permutation_refl _)) as R1.
    pose proof (spec_move_al w _ d x al R1) as Q. unfold wp in Q. rewrite H1 in Q. destruct Q as ((_ & S) & _ & B & _).
    split.
    { eapply r_perm; [eapply r_move_al; eauto| |reflexivity]. constructor. symmetry. apply upd_perm. }
    apply (run_step _ _ _ _ _ Rn). destruct (F2_nth _ _ _ _ _ F H0) as (b & Nb & Hb). simpl. rewrite Nb. eexists. split; [reflexivity|].
    constructor; [eapply holds_same; eauto|]. apply F2_upd; auto. apply blank_holds; auto.
  - destruct IHhistory as (R & bs & Rn & F). pose proof (r_perm _ _ _ _ _ R (del_perm g i c H0) (Permutation_refl _)) as R1.
    destruct (F2_nth _ _ _ _ _ F H0) as (b & Nb & Hb). destruct (performs_api _ _ _ _ _ _ _ R1 H1) as (sf & nw & vl & A).
    assert (R2 : reach w' (c' :: del i g) d) by (eapply r_call; eauto).
    pose proof (performs_effect w g i c d k m bs b R1 H0 F Nb Hb H1) as Q. unfold wp in Q. rewrite H2 in Q.
    destruct (Q R2) as (b' & Ob & Hb'). split.
    { eapply r_perm; [exact R2| |reflexivity]. symmetry. apply upd_perm. }
    apply (run_step _ _ _ _ _ Rn). simpl. rewrite Nb, Ob. eexists. split; [reflexivity|]. apply F2_upd; auto.
  - destruct IHhistory as (R & bs & Rn & F). pose proof (r_perm _ _ _ _ _ R (del_perm g i c H0) (Permutation_refl _)) as R1.
    destruct (F2_nth _ _ _ _ _ F H0) as (b & Nb & Hb). split.
    { eapply r_perm; [apply r_mutate; exact R1| |reflexivity]. symmetry. apply upd_perm. }
    apply (run_step _ _ _ _ _ Rn). simpl. rewrite Nb. eexists. split; [reflexivity|]. apply F2_upd; auto.
    intros t. rewrite mutate_seg_of, (Hb t). reflexivity.
  - destruct IHhistory as (R & bs & Rn & F). split; auto. destruct (F2_nth _ _ _ _ _ F H0) as (b & Nb & Hb).
    apply (run_step _ _ _ _ _ Rn). simpl. rewrite Nb. eexists. split; [reflexivity|]. unfold upd.
    destruct (split_at _ _ _ Nb) as (Q & _). change (1 + i) with (S i) in Q. simpl Nat.add. rewrite <- Q. auto.
  - destruct IHhistory as (R & bs & Rn & F). destruct (del_del g i j c x c' H1 H2 H0) as (r & P1 & P2 & P3).
    pose proof (r_perm _ _ _ _ _ R P3 (Permutation_refl _)) as R1. apply r_weaken in R1.
    pose proof (spec_assign w (x :: r) c d x R1 (or_introl eq_refl)) as Q. unfold wp in Q. rewrite H3 in Q. destruct Q as ((_ & S) & _).
    split.
    { eapply r_perm; [eapply r_assign; eauto| |reflexivity]. etransitivity; [|symmetry; apply upd_perm]. constructor. symmetry. auto. }
    destruct (F2_nth _ _ _ _ _ F H1) as (b & Nb & Hb). destruct (F2_nth _ _ _ _ _ F H2) as (b2 & Nb2 & Hb2).
    apply (run_step _ _ _ _ _ Rn). simpl. rewrite Nb, Nb2. eexists. split; [reflexivity|]. apply F2_upd; auto. eapply holds_same; eauto.
  - destruct IHhistory as (R & bs & Rn & F). destruct (del_del g i j c x c' H1 H2 H0) as (r & P1 & P2 & P3).
    pose proof (r_perm _ _ _ _ _ R P3 (Permutation_refl _)) as R1. apply r_weaken in R1.
    pose proof (spec_move_assign w r c d x R1) as Q. unfold wp in Q. rewrite H3 in Q. destruct Q as ((_ & S) & _).
    split.
    { eapply r_perm; [eapply r_move_assign; eauto| |reflexivity]. symmetry. exact P2. }
    destruct (F2_nth _ _ _ _ _ F H1) as (b & Nb & Hb). destruct (F2_nth _ _ _ _ _ F H2) as (b2 & Nb2 & Hb2).
    apply (run_step _ _ _ _ _ Rn). simpl. destruct (Nat.eqb_spec i j); [congruence|]. rewrite Nb, Nb2. eexists. split; [reflexivity|].
    apply F2_del, F2_upd; auto. eapply holds_same; eauto.
  - destruct IHhistory as (R & bs & Rn & F). destruct (del_del g i j x y y' H1 H2 H0) as (r & P1 & P2 & P3).
    pose proof (r_perm _ _ _ _ _ R P3 (Permutation_refl _)) as R1.
    pose proof (spec_swap w r d x y R1 H3) as Q. unfold wp in Q. rewrite H4 in Q. destruct Q as (-> & -> & ->).
    assert (Li : i < length g) by (apply nth_error_Some; congruence). assert (Lj : j < length g) by (apply nth_error_Some; congruence).
    split.
    { eapply r_perm; [eapply r_swap; eauto| |reflexivity].
      destruct (del_del (upd j x g) i j x x y) as (r' & Q1 & Q2 & Q3); auto.
      { rewrite nth_upd by auto. destruct (Nat.eqb_spec i j); congruence. }
      { rewrite nth_upd by auto. rewrite Nat.eqb_refl. auto. }
      etransitivity; [|symmetry; apply upd_perm]. constructor. etransitivity; [|symmetry; exact Q1]. constructor.
      apply (Permutation_cons_inv (a := x)), (Permutation_cons_inv (a := x)). etransitivity; [|exact Q3].
      symmetry. rewrite upd_perm. constructor. apply (Permutation_cons_inv (a := y)).
      etransitivity; [symmetry; apply (del_perm g j y H2)|]. rewrite P3. apply perm_swap. }
    destruct (F2_nth _ _ _ _ _ F H1) as (b & Nb & Hb). destruct (F2_nth _ _ _ _ _ F H2) as (b2 & Nb2 & Hb2).
    apply (run_step _ _ _ _ _ Rn). simpl. destruct (Nat.eqb_spec i j); [congruence|]. rewrite Nb, Nb2. eexists. split; [reflexivity|].
    apply F2_upd; auto. apply F2_upd; auto.
  - destruct IHhistory as (R & bs & Rn & F). pose proof (r_perm _ _ _ _ _ R (del_perm g i c H0) (Permutation_refl _)) as R1.
    destruct (F2_nth _ _ _ _ _ F H0) as (b & Nb & Hb). destruct (performs_api _ _ _ _ _ _ _ R1 H1) as (sf & nw & vl & A).
    split; [eapply r_call_wreck; eauto|]. apply (run_step _ _ _ _ _ Rn). simpl. rewrite Nb. eexists. split; [reflexivity|]. apply F2_del; auto.
  - destruct IHhistory as (R & bs & Rn & F). pose proof (r_perm _ _ _ _ _ R (del_perm g i c H0) (Permutation_refl _)) as R1.
    destruct (F2_nth _ _ _ _ _ F H0) as (b & Nb & Hb).
    pose proof (performs_fails w g i c d k m bs b R1 H0 F Nb Hb H1) as Q. unfold wp in Q. rewrite H2 in Q.
    destruct (Q H3) as (R2 & b' & Tr & Hb'). split.
    { eapply r_perm; [exact R2| |reflexivity]. symmetry. apply upd_perm. }
    exists (upd i b' bs). split; [eapply runs_snoc; [exact Rn|]; eapply moves_try; eauto|]. apply F2_upd; auto.
  - destruct IHhistory as (R & bs & Rn & F). pose proof (r_perm _ _ _ _ _ R (del_perm g i c H0) (Permutation_refl _)) as R1.
    destruct (F2_nth _ _ _ _ _ F H0) as (b & Nb & Hb).
    pose proof (performs_cleared w g i c d k m bs b c' w' e R1 F Hb H1 H2) as Q. unfold wp in Q. rewrite H3 in Q.
    destruct Q as (R2 & b' & Tr & Hb'). split.
    { eapply r_perm; [exact R2| |reflexivity]. symmetry. apply upd_perm. }
    exists (upd i b' bs). split; [eapply runs_snoc; [exact Rn|]; eapply moves_clear; eauto|]. apply F2_upd; auto.
  - destruct IHhistory as (R & bs & Rn & F). pose proof (r_perm _ _ _ _ _ R (del_perm g i c H0) (Permutation_refl _)) as R1. apply r_weaken in R1.
    destruct (F2_nth _ _ _ _ _ F H0) as (b & Nb & Hb).
    split; [eapply r_destroy; eauto|]. apply (run_step _ _ _ _ _ Rn). simpl. rewrite Nb. eexists. split; [reflexivity|]. apply F2_del; auto.
  - destruct IHhistory as (R & bs & Rn & F). split; [eapply r_range_exn; eauto|]. apply (run_step _ _ _ _ _ Rn). exists bs. auto.
  - destruct IHhistory as (R & bs & Rn & F). pose proof (spec_copy w g d x R (nth_error_In _ _ H0)) as Q. unfold wp in Q. rewrite H1 in Q.
    split; [apply Q|]. apply (run_step _ _ _ _ _ Rn). exists bs. auto.
  - destruct IHhistory as (R & bs & Rn & F). pose proof (r_perm _ _ _ _ _ R (Permutation_refl _) H0) as R1.
    split; [eapply r_destroy; eauto|]. apply (run_step _ _ _ _ _ Rn). exists bs. auto.
  - destruct IHhistory as (R & bs & Rn & F). destruct (del_del g i j x y x H1 H2 H0) as (r & P1 & P2 & P3).
    pose proof (r_perm _ _ _ _ _ R P3 (Permutation_refl _)) as R1.
    split; [eapply r_perm; [eapply r_equal; eauto|symmetry; exact P3|reflexivity]|]. apply (run_step _ _ _ _ _ Rn). exists bs. auto.
Qed.

(** ** Threads working on different collections *)
Definition agree (owner : nat -> option nat) (t : nat) (bs x : list (bag V)) : Prop :=
  length bs = length x /\ forall i, owner i = Some t \/ owner i = None -> nth_error bs i = nth_error x i.

Lemma upd_length {A} (l : list A) i x : i < length l -> length (upd i x l) = length l.
Proof. intros H. unfold upd. rewrite app_length, firstn_length. cbn [length]. rewrite skipn_length. lia. Qed.
Lemma agree_upd (owner : nat -> option nat) t i b bs x : agree owner t bs x -> i < length bs -> agree owner t (upd i b bs) (upd i b x).
Proof.
  intros (L & A) Hi. split; [rewrite !upd_length by lia; auto|]. intros j Hj. rewrite !nth_upd by lia.
  destruct (j =? i); auto.
Qed.
Lemma agree_other (owner : nat -> option nat) t s i b bs : owner i = Some s -> s <> t -> i < length bs -> agree owner t bs (upd i b bs).
Proof.
  intros O N Hi. split; [rewrite upd_length; auto|]. intros j Hj. rewrite nth_upd by auto. destruct (Nat.eqb_spec j i) as [->|]; auto.
  rewrite O in Hj. destruct Hj as [Q|Q]; congruence.
Qed.
Lemma agree_refl (owner : nat -> option nat) t bs : agree owner t bs bs.
Proof. split; auto. Qed.
Lemma agree_sym (owner : nat -> option nat) t bs x : agree owner t bs x -> agree owner t x bs.
Proof. intros (L & A). split; auto. intros i Hi. symmetry. auto. Qed.
Lemma agree_trans (owner : nat -> option nat) t bs x y : agree owner t bs x -> agree owner t x y -> agree owner t bs y.
Proof. intros (L & A) (L' & A'). split; [congruence|]. intros i Hi. rewrite A by auto. auto. Qed.
Lemma nth_lt {A} (l : list A) i x : nth_error l i = Some x -> i < length l.
Proof. intros H. apply nth_error_Some. congruence. Qed.

(** A command is carried out in the same way where the collections agree. *)
Lemma obey_agree (owner : nat -> option nat) t bs x i c b : agree owner t bs x ->
  (forall h j, c = PutFrom h j -> owner j = Some t \/ owner j = None) -> obey x i c b = obey bs i c b.
Proof.
  intros (L & A) R. destruct c; try reflexivity. simpl. destruct (j =? i); auto. rewrite (A j) by (eapply R; reflexivity). auto.
Qed.
Lemma meant_agree (owner : nat -> option nat) t bs x c u : agree owner t bs x ->
  (forall h j, c = PutFrom h j -> owner j = Some t \/ owner j = None) -> meant bs c u -> meant x c u.
Proof.
  intros (L & A) R. destruct c; try exact (fun M => M). intros (y & Hy & N). exists y. split; auto.
  rewrite <- (A j) by (eapply R; reflexivity). auto.
Qed.
Lemma minds_cmd (owner : nat -> option nat) t i (c : cmd V) a : a = On i c \/ a = Try i c \/ a = TryClear i c -> minds owner t a ->
  owner i = Some t /\ (forall h j, c = PutFrom h j -> owner j = Some t \/ owner j = None).
Proof.
  intros H K. assert (Q : exists rs, touches a = Some ([i], rs) /\ (forall h j, c = PutFrom h j -> rs = [j])).
  { destruct H as [->|[->| ->]]; destruct c; eexists; (split; [reflexivity|intros h' j' Q; inversion Q; auto]). }
  destruct Q as (rs & Q & Qr). unfold minds in K. rewrite Q in K. destruct K as (K1 & K2). split; [inversion K1; auto|].
  intros h j Hc. rewrite (Qr h j Hc) in K2. inversion K2; auto.
Qed.

Lemma moves_own (owner : nat -> option nat) t (a : act V) bs bs1 x : minds owner t a -> agree owner t bs x -> moves bs a bs1 ->
  exists x1, moves x a x1 /\ agree owner t bs1 x1.
Proof.
  intros K Ag M. assert (Ag' := Ag). destruct Ag' as (L & A). inversion M as [? ? Q|i c b b' Nb T|i c b b' Nb T]; subst.
  - destruct a as [|l|j|j|i c|i j|i j|i j|i|i c|i c|i|]; try (destruct K; fail).
    + destruct (minds_cmd owner t i c _ (or_introl eq_refl) K) as (Oi & Or). simpl in Q.
      destruct (nth_error bs i) as [b|] eqn:Nb; [|discriminate]. destruct (obey bs i c b) as [b'|] eqn:Ob; [|discriminate].
      inversion Q; subst. exists (upd i b' x). split; [|apply agree_upd; eauto using nth_lt]. constructor. simpl.
      rewrite <- (A i), Nb, (obey_agree owner t bs), Ob by auto. auto.
    + destruct K as (K1 & K2). inversion K1 as [|? ? Ki]; subst. inversion K2 as [|? ? Kj]; subst. simpl in Q.
      destruct (nth_error bs i) as [b|] eqn:Nb; [|discriminate]. destruct (nth_error bs j) as [y|] eqn:Nj; [|discriminate].
      inversion Q; subst. exists (upd i y x). split; [|apply agree_upd; eauto using nth_lt]. constructor. simpl.
      rewrite <- (A i), Nb, <- (A j), Nj by auto. auto.
    + destruct K as (K1 & _). inversion K1 as [|? ? Ki K1']; subst. inversion K1' as [|? ? Kj]; subst. simpl in Q.
      destruct (i =? j) eqn:Ne; [discriminate|].
      destruct (nth_error bs i) as [b|] eqn:Nb; [|discriminate]. destruct (nth_error bs j) as [y|] eqn:Nj; [|discriminate].
      inversion Q; subst. exists (upd i y (upd j b x)). split.
      * constructor. simpl. rewrite Ne, <- (A i), Nb, <- (A j), Nj by auto. auto.
      * apply agree_upd; [apply agree_upd; eauto using nth_lt|]. rewrite upd_length; eauto using nth_lt.
    + discriminate.
    + discriminate.
    + inversion Q; subst. exists x. split; auto. constructor. reflexivity.
  - destruct (minds_cmd owner t i c _ (or_intror (or_introl eq_refl)) K) as (Oi & Or).
    exists (upd i b' x). split; [|apply agree_upd; eauto using nth_lt]. apply moves_try with b; [rewrite <- A; auto|].
    destruct T as (c' & ts & b1 & P & Mt & O1 & O2). exists c', ts, b1. csplit; auto.
    + intros u I. eapply meant_agree; eauto.
    + rewrite (obey_agree owner t bs); auto. intros h j ->. inversion P.
  - destruct (minds_cmd owner t i c _ (or_intror (or_intror eq_refl)) K) as (Oi & Or).
    exists (upd i b' x). split; [|apply agree_upd; eauto using nth_lt]. apply moves_clear with b; [rewrite <- A; auto|].
    destruct T as (ts & b1 & Mt & O1 & O2). exists ts, b1. csplit; auto. intros u I. eapply meant_agree; eauto.
Qed.
Lemma moves_other (owner : nat -> option nat) t s (a : act V) bs bs1 : minds owner s a -> s <> t -> moves bs a bs1 -> agree owner t bs bs1.
Proof.
  intros K N M. inversion M as [? ? Q|i c b b' Nb T|i c b b' Nb T]; subst.
  - destruct a as [|l|j|j|i c|i j|i j|i j|i|i c|i c|i|]; try (destruct K; fail).
    + destruct (minds_cmd owner s i c _ (or_introl eq_refl) K) as (Oi & Or). simpl in Q.
      destruct (nth_error bs i) as [b|] eqn:Nb; [|discriminate]. destruct (obey bs i c b) as [b'|] eqn:Ob; [|discriminate].
      inversion Q; subst. eapply agree_other; eauto using nth_lt.
    + destruct K as (K1 & K2). inversion K1 as [|? ? Ki]; subst. simpl in Q.
      destruct (nth_error bs i) as [b|] eqn:Nb; [|discriminate]. destruct (nth_error bs j) as [y|] eqn:Nj; [|discriminate].
      inversion Q; subst. eapply agree_other; eauto using nth_lt.
    + destruct K as (K1 & _). inversion K1 as [|? ? Ki K1']; subst. inversion K1' as [|? ? Kj]; subst. simpl in Q.
      destruct (i =? j) eqn:Ne; [discriminate|].
      destruct (nth_error bs i) as [b|] eqn:Nb; [|discriminate]. destruct (nth_error bs j) as [y|] eqn:Nj; [|discriminate].
      inversion Q; subst. eapply agree_trans; [|eapply agree_other; eauto; rewrite upd_length; eauto using nth_lt].
      eapply agree_other; eauto using nth_lt.
    + discriminate.
    + discriminate.
    + inversion Q; subst. apply agree_refl.
  - destruct (minds_cmd owner s i c _ (or_intror (or_introl eq_refl)) K) as (Oi & Or). eapply agree_other; eauto using nth_lt.
  - destruct (minds_cmd owner s i c _ (or_intror (or_intror eq_refl)) K) as (Oi & Or). eapply agree_other; eauto using nth_lt.
Qed.

(** What a thread did is what it could have done alone. *)
Lemma threads_alone (owner : nat -> option nat) t (s : list (nat * act V)) : forall bs bs' x, Forall (fun ta => minds owner (fst ta) (snd ta)) s ->
  runs bs (map snd s) bs' -> agree owner t bs x -> exists x', runs x (acts_of t s) x' /\ agree owner t bs' x'.
Proof.
  induction s as [|[u a] s IH]; intros bs bs' x F R Ag; simpl in R.
  - inversion R; subst. exists x. split; [constructor|auto].
  - inversion R as [|? bs1 ? ? M R']; subst. inversion F as [|? ? K F']; subst. simpl in K. unfold acts_of. simpl.
    destruct (Nat.eqb_spec u t) as [->|Ne].
    + destruct (moves_own owner t a bs bs1 x K Ag M) as (x1 & M1 & A1). destruct (IH _ _ x1 F' R' A1) as (x' & R2 & A2).
      exists x'. split; auto. simpl. econstructor; eauto.
    + apply (IH _ _ x F' R'). eapply agree_trans; [|exact Ag]. apply agree_sym. eapply moves_other; eauto.
Qed.
Lemma act1_own (owner : nat -> option nat) t (a : act V) bs x : minds owner t a -> agree owner t bs x -> steady a -> act1 bs a = None -> act1 x a = None.
Proof.
  intros K Ag S N. destruct (act1 x a) as [x1|] eqn:Q; auto.
  destruct (moves_own owner t a x x1 bs K (agree_sym _ _ _ _ Ag) (moves_act _ _ _ Q)) as (b1 & M & _).
  rewrite (moves_act1 _ _ _ M S) in N. discriminate.
Qed.

(** If one schedule is possible then so are all others. *)
Lemma run_alone (owner : nat -> option nat) (s : list (nat * act V)) : forall bs, Forall (fun ta => minds owner (fst ta) (snd ta)) s ->
  Forall steady (map snd s) -> (forall t x, agree owner t bs x -> run x (acts_of t s) <> None) -> run bs (map snd s) <> None.
Proof.
  induction s as [|[u a] s IH]; intros bs F S H; [discriminate|]. inversion F as [|? ? K F']; subst. inversion S as [|? ? S1 S2]; subst.
  simpl in K, S1, S2 |- *. destruct (act1 bs a) as [bs1|] eqn:Q.
  - apply IH; auto. intros t x Ag. destruct (Nat.eq_dec u t) as [->|Ne].
    + intros Z. destruct (moves_own owner t a bs bs1 bs K (agree_refl _ _ _) (moves_act _ _ _ Q)) as (y & M & A1).
      pose proof (H t bs (agree_refl _ _ _)) as Hb. unfold acts_of in Hb. simpl in Hb. rewrite Nat.eqb_refl in Hb. simpl in Hb. rewrite Q in Hb.
      destruct (run bs1 (map snd (filter (fun ta => fst ta =? t) s))) as [z|] eqn:Qz; [|congruence].
      destruct (threads_alone owner t (map (pair t) (acts_of t s)) bs1 z x) as (x' & R & _); auto.
      * apply Forall_forall. intros [v a'] I. apply in_map_iff in I. destruct I as (a2 & E2 & I). inversion E2; subst.
        unfold acts_of in I. apply in_map_iff in I. destruct I as ([v' a3] & E3 & I). simpl in E3. subst a3. apply filter_In in I.
        destruct I as (I & Ev). simpl in Ev. apply Nat.eqb_eq in Ev. subst v'. rewrite Forall_forall in F'. apply (F' _ I).
      * rewrite map_map. simpl. rewrite map_id. apply run_runs. exact Qz.
      * assert (Q3 : acts_of t (map (pair t) (acts_of t s)) = acts_of t s).
        { unfold acts_of at 1. generalize (acts_of t s). intros l. induction l as [|b l IHl]; auto. cbn [map filter fst]. rewrite Nat.eqb_refl. cbn [map snd]. f_equal. auto. }
        rewrite Q3 in R. apply runs_run in R; [congruence|]. apply Forall_forall. intros b I. unfold acts_of in I. apply in_map_iff in I.
        destruct I as ([v b'] & E3 & I). simpl in E3. subst b'. apply filter_In in I. destruct I as (I & _).
        rewrite Forall_forall in S2. apply S2. apply (in_map snd) in I. exact I.
    + pose proof (H t x) as Hx. unfold acts_of in Hx. simpl in Hx. destruct (Nat.eqb_spec u t); [congruence|]. apply Hx.
      eapply agree_trans; [|exact Ag]. eapply moves_other; eauto. constructor. exact Q.
  - exfalso. pose proof (H u bs (agree_refl _ _ _)) as Hb. unfold acts_of in Hb. simpl in Hb. rewrite Nat.eqb_refl in Hb. simpl in Hb.
    rewrite Q in Hb. congruence.
Qed.

End PHist.
