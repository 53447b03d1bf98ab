(** * Insertion of several elements; what a failed insertion leaves behind *)

From Coq Require Import List Arith Lia Bool Permutation.
From Verif Require Import Base Vec Backend Segment Coll Spec ProofBase ProofVec ProofBackend ProofOps ProofOps2 ProofSeg ProofMap ProofView ProofColl ProofIns ProofEach.
Import ListNotations.

Section PRange.
Context {V : Type} {E : Env V}.

Notation SW := (segment V * world)%type.
Notation CW := (coll V * world)%type.
Notation NL := (list (node V)).
Notation nb n := (sg_be (n_seg n)).
Notation nsz n := (bsize (sg_be (n_seg n))).

(** ** seg_at determines what is seen of a type *)

Lemma elems_seg_at (c : coll V) t :
  elems c t = match seg_at c t with Some s => belems (sg_be s) | None => [] end.
Proof.
  unfold elems, seg_of, content, seg_at. induction (c_nodes c) as [|n l IH]; simpl; auto.
  destruct (sg_ty (n_seg n) =? t); auto.
Qed.
Lemma types_seg_at (c : coll V) t : In t (types c) <-> seg_at c t <> None.
Proof.
  rewrite types_nodes. unfold seg_at. split.
  - intros H. apply in_map_iff in H. destruct H as (n & <- & Hin).
    destruct (find _ _) eqn:F; [discriminate|]. exfalso.
    assert (A := find_none _ _ F _ Hin). simpl in A. unfold n_ty in A. rewrite Nat.eqb_refl in A. discriminate.
  - intros H. destruct (find _ _) as [n|] eqn:F; [|contradiction]. apply find_some in F. destruct F as [Hin Et].
    apply Nat.eqb_eq in Et. subst t. apply in_map_iff. exists n. auto.
Qed.
Lemma addr_seg_at (c : coll V) t j s : seg_at c t = Some s -> j < bsize (sg_be s) ->
  addr_of c t j = Some (vptr (be_store (sg_be s)) j).
Proof.
  intros S Hj. unfold addr_of. rewrite S. change (length (elems_of s)) with (bsize (sg_be s)).
  destruct (Nat.ltb_spec j (bsize (sg_be s))); auto; lia.
Qed.
Lemma same_seg_at (c c' : coll V) t : seg_at c' t = seg_at c t ->
  elems c' t = elems c t /\ (forall j, addr_of c' t j = addr_of c t j) /\ cap_of c' t = cap_of c t /\
  (In t (types c') <-> In t (types c)).
Proof.
  intros H. rewrite !elems_seg_at, !types_seg_at. unfold addr_of, cap_of. rewrite H. csplit; auto. reflexivity.
Qed.

(** ** Steps *)

(** Some elements [xs] of type [t] were inserted at index [k]. *)
Definition xs_did w c R K w' c' t k xs i (s s' : segment V) : Prop :=
  did w c R K w' c' t i s s' /\ wfc w' c' /\ wfs s' /\
  belems (sg_be s') = insert_list_at k xs (belems (sg_be s)) /\
  (bsize (sg_be s) + length xs <= bcap (sg_be s) -> stable (sg_be s) (sg_be s')).

Lemma ins_xs w c R K w' c' t k v i s s' : ins_did w c R K w' c' t k v i s s' ->
  xs_did w c R K w' c' t k [v] i s s'.
Proof.
  intros (D & W & Ws & (P1 & P2 & P3 & P4)). unfold xs_did. csplit; auto.
  intros. apply P2. simpl in *. lia.
Qed.

Lemma of_type_app t (l l' : list (tyid * V)) : of_type t (l ++ l') = of_type t l ++ of_type t l'.
Proof. unfold of_type. rewrite filter_app, map_app. auto. Qed.
Lemma of_type_same t (xs : list V) : of_type t (map (pair t) xs) = xs.
Proof. unfold of_type. induction xs; simpl; auto. rewrite Nat.eqb_refl. simpl. f_equal; auto. Qed.
Lemma of_type_other t t' (xs : list V) : t' <> t -> of_type t' (map (pair t) xs) = [].
Proof.
  intros Ne. unfold of_type. induction xs; simpl; auto. destruct (Nat.eqb_spec t t'); [congruence|]. auto.
Qed.
Lemma of_type_none t (l : list (tyid * V)) : ~ In t (map fst l) -> of_type t l = [].
Proof.
  unfold of_type. induction l as [|[t' v] l IH]; simpl; auto. intros H.
  destruct (Nat.eqb_spec t' t); [exfalso; auto|]. auto.
Qed.

Lemma insert_nil {A} k (l : list A) : firstn k l ++ [] ++ skipn k l = l.
Proof. apply firstn_skipn. Qed.
Lemma insert_list_more {A} k (ys xs l : list A) : k <= length l ->
  insert_list_at (k + length ys) xs (firstn k l ++ ys ++ skipn k l) = firstn k l ++ (ys ++ xs) ++ skipn k l.
Proof.
  intros Hk. unfold insert_list_at.
  assert (Lk : length (firstn k l) = k) by (rewrite firstn_length; lia).
  rewrite !(app_assoc (firstn k l) ys). set (a := firstn k l ++ ys).
  assert (La : k + length ys = length a) by (unfold a; rewrite app_length; lia).
  rewrite La, firstn_app, firstn_all, skipn_app, skipn_all, Nat.sub_diag. simpl.
  rewrite app_nil_r. unfold a. rewrite <- !app_assoc. auto.
Qed.
Lemma insert_list_length {A} k (xs l : list A) : length (firstn k l ++ xs ++ skipn k l) = length l + length xs.
Proof. rewrite !app_length, skipn_length, firstn_length. lia. Qed.

Definition hint_ok (h : option (tyid * nat)) (c : coll V) : Prop :=
  match h with Some (t, k) => k <= length (elems c t) | None => True end.
Lemma slot_le h c t : hint_ok h c -> slot h c t <= length (elems c t).
Proof. unfold slot, hint_ok. destruct h as [[t0 k]|]; auto. destruct (Nat.eqb_spec t0 t); subst; auto. Qed.

Lemma grew_refl h c : grew h c c [].
Proof.
  split; auto.
  - intros. symmetry. apply insert_nil.
  - intros. simpl. tauto.
  - intros. apply kept_refl.
  - intros. apply kept_refl.
Qed.

Lemma grew_length h c c' l t : grew h c c' l -> length (elems c' t) = length (elems c t) + length (of_type t l).
Proof. intros G. rewrite (g_elems _ _ _ _ G). apply insert_list_length. Qed.

Lemma put_registered c c' t i s : put c c' t i s -> In t (types c) ->
  exists n, node_at (c_nodes c) i = Some n /\ n_ty n = t /\
     c_nodes c' = node_upd (c_nodes c) i s /\ c_buckets c' = c_buckets c.
Proof. intros [P|(N & _)] H; auto. rewrite types_nodes in H. contradiction. Qed.

Lemma put_types_same w c c' t i s : wfm w c -> put c c' t i s -> sg_ty s = t -> In t (types c) -> types c' = types c.
Proof.
  intros W P Et Hin. assert (B := put_became _ _ _ _ _ _ W P Et). unfold became in B.
  destruct (seg_of c t) as [ys|] eqn:S.
  - unfold types. rewrite B. generalize (content c). induction l as [|[t' zs] l IH]; simpl; auto.
    destruct (t' =? t); simpl; f_equal; auto.
  - apply seg_of_none in S. rewrite types_nodes in Hin. contradiction.
Qed.

Lemma put_kept c c' t i s s' k w : wfm w c -> put c c' t i s' -> prev c t i s -> sg_ty s' = t ->
  0 < bsize (sg_be s) -> stable (sg_be s) (sg_be s') -> bsize (sg_be s) <= bsize (sg_be s') -> kept_at c c' t k.
Proof.
  intros W P Pv Et' Pos (Sb & _ & St) Hs. apply kept_nodes. intros m Hin Et Hk.
  assert (Ht : In t (types c)) by (rewrite types_nodes; apply in_map_iff; exists m; auto).
  destruct (put_registered _ _ _ _ _ P Ht) as (n & Hat & Etn & En & _).
  destruct (node_at_in _ _ _ Hat) as [Hinn Ei].
  assert (m = n).
  { assert (A : find (fun x => sg_ty (n_seg x) =? n_ty m) (c_nodes c) = Some m) by (apply find_ty_in; auto; apply W).
    assert (B : find (fun x => sg_ty (n_seg x) =? n_ty n) (c_nodes c) = Some n) by (apply find_ty_in; auto; apply W).
    rewrite Et in A. rewrite Etn in B. congruence. }
  subst m. destruct Pv as [(n' & Hat' & _ & Es)|(N & _)].
  2:{ exfalso. rewrite types_nodes in Ht. auto. }
  assert (n' = n) by congruence. subst n' s. change (length (elems_of (n_seg n))) with (nsz n) in *.
  exists (mknode i (n_key n) s'). change (length (elems_of (n_seg (mknode i (n_key n) s')))) with (bsize (sg_be s')). csplit; auto; try lia.
  rewrite En. destruct (node_at_split _ _ _ Hat) as (l1 & l2 & _ & _ & _ & U & _). rewrite U.
  apply in_or_app; right; left; auto.
Qed.

Lemma points_elems w c it t k : wfm w c -> points c it t k -> k < length (elems c t).
Proof.
  intros W (n & Hin & <- & _ & Hk). fold (n_ty n). rewrite (elems_node _ _ _ W Hin). exact Hk.
Qed.

Lemma grew_step h w0 c w c1 R K w2 c2 l t xs i s s' :
  wfm w0 c -> hint_ok h c -> grew h c c1 l -> wfc w c1 ->
  xs_did w c1 R K w2 c2 t (slot h c t + length (of_type t l)) xs i s s' -> xs <> [] ->
  grew h c c2 (l ++ map (pair t) xs).
Proof.
  intros W0 Ho G W1 (D & W2 & Ws' & Ee & St) Nx. assert (Wm := wc_map _ _ W1).
  destruct D as [_ _ _ _ _ Pu Pv Ety].
  assert (Sl := slot_le h c t Ho).
  assert (Oth : forall t', t' <> t -> seg_at c2 t' = seg_at c1 t') by (intros; eapply put_others; eauto).
  assert (Me : seg_at c2 t = Some s') by (eapply put_seg_at; eauto; apply W2).
  assert (Es := prev_elems _ _ _ _ _ Wm Pv).
  assert (Ef : map fst (l ++ map (pair t) xs) = map fst l ++ map (fun _ => t) xs) by (rewrite map_app, map_map; auto).
  assert (Int : In t (map fst (l ++ map (pair t) xs))).
  { rewrite Ef. apply in_or_app; right. destruct xs; [contradiction|left; auto]. }
  assert (Inl : forall t', In t' (map fst (l ++ map (pair t) xs)) <-> In t' (map fst l) \/ t' = t).
  { intros t'. rewrite Ef, in_app_iff. split.
    - intros [?|H]; auto. apply in_map_iff in H. destruct H as (? & <- & ?). auto.
    - intros [?| ->]; auto. right. destruct xs as [|x xs']; [exfalso; auto|]. left; auto. }
  assert (El : forall t', elems c2 t' = firstn (slot h c t') (elems c t') ++
             of_type t' (l ++ map (pair t) xs) ++ skipn (slot h c t') (elems c t')).
  { intros t'. rewrite of_type_app. destruct (Nat.eq_dec t' t) as [->|Ne].
    - rewrite elems_seg_at, Me, Ee, Es, of_type_same, (g_elems _ _ _ _ G). apply insert_list_more; auto.
    - rewrite of_type_other, app_nil_r by auto. rewrite <- (g_elems _ _ _ _ G).
      destruct (same_seg_at _ _ _ (Oth t' Ne)) as (A & _). auto. }
  assert (Ln : length (elems c2 t) = length (elems c1 t) + length xs).
  { rewrite elems_seg_at, Me, Ee, Es. unfold insert_list_at. apply insert_list_length. }
  assert (Sz : bsize (sg_be s) = length (elems c1 t)) by (eapply prev_size; eauto).
  assert (Fit : In t (types c) -> length (elems c2 t) <= cap_of c t ->
            seg_at c1 t = Some s /\ cap_of c1 t = cap_of c t /\ stable (sg_be s) (sg_be s')).
  { intros Ht Hc. assert (Hc1 : cap_of c1 t = cap_of c t) by (apply (g_cap _ _ _ _ G); auto; lia).
    assert (S1 : seg_at c1 t = Some s).
    { eapply prev_seg_at; eauto. apply (g_types _ _ _ _ G). auto. }
    csplit; auto. apply St. unfold cap_of in Hc1 at 1. rewrite S1 in Hc1. unfold bcap. lia. }
  split.
  - exact El.
  - intros t'. rewrite Inl. destruct (Nat.eq_dec t' t) as [->|Ne].
    + split; auto. intros _. apply types_seg_at. rewrite Me. discriminate.
    + rewrite types_seg_at, (Oth t' Ne), <- types_seg_at, (g_types _ _ _ _ G). tauto.
  - intros Hi. assert (Hil : incl (map fst l) (types c)) by (intros x Hx; apply Hi, Inl; auto).
    rewrite <- (g_order _ _ _ _ G Hil). eapply put_types_same; eauto. apply (g_types _ _ _ _ G). left. apply Hi, Int.
  - intros t' Hn. rewrite Inl in Hn. rewrite Oth by tauto. apply (g_other _ _ _ _ G). tauto.
  - intros t' Ht Hc. destruct (Nat.eq_dec t' t) as [->|Ne].
    + destruct (Fit Ht Hc) as (S1 & C1 & (_ & Cp & _)).
      rewrite <- C1. unfold cap_of. rewrite Me, S1. exact Cp.
    + destruct (same_seg_at _ _ _ (Oth t' Ne)) as (A1 & _ & A2 & _). rewrite A2. apply (g_cap _ _ _ _ G); auto.
      rewrite <- A1. auto.
  - intros t' Ht Hc. destruct (Nat.eq_dec t' t) as [->|Ne].
    + destruct (Fit Ht Hc) as (S1 & C1 & (B & _)). rewrite <- (g_data _ _ _ _ G t) by (auto; lia).
      unfold data_of. rewrite Me, S1. unfold vptr. rewrite B. auto.
    + unfold data_of at 1. rewrite (Oth t' Ne). apply (g_data _ _ _ _ G); auto.
      destruct (same_seg_at _ _ _ (Oth t' Ne)) as (<- & _). auto.
  - intros t' j Hc Hj. destruct (Nat.eq_dec t' t) as [->|Ne].
    + assert (Ht : In t (types c)).
      { apply types_seg_at. intros N. rewrite (elems_seg_at c), N in Sl. simpl in Sl. lia. }
      destruct (Fit Ht Hc) as (S1 & C1 & (B & Cp & _)).
      rewrite <- (g_stable _ _ _ _ G t j) by (auto; lia).
      assert (Hl := grew_length _ _ _ _ t G).
      rewrite (addr_seg_at c1 t j s), (addr_seg_at c2 t j s'); auto; try lia.
      * unfold vptr. f_equal. f_equal. exact B.
      * unfold bsize, vsize. fold (belems (sg_be s')). rewrite Ee. unfold insert_list_at. rewrite insert_list_length.
        rewrite Es. lia.
    + destruct (same_seg_at _ _ _ (Oth t' Ne)) as (A1 & A2 & _ & _). rewrite A2. apply (g_stable _ _ _ _ G); auto.
      rewrite <- A1. auto.
  - intros Hst t' j Hc Hj.
    assert (Hst1 : incl (map fst l) (types c) \/ env_rehash_stable = true).
    { destruct Hst as [Hi|]; auto. left. intros x Hx; apply Hi, Inl; auto. }
    assert (Hle : length (elems c1 t') <= length (elems c2 t')).
    { destruct (Nat.eq_dec t' t) as [->|Ne]; [lia|]. destruct (same_seg_at _ _ _ (Oth t' Ne)) as (-> & _). auto. }
    assert (Hp1 : kept_at c c1 t' j) by (apply (g_iters _ _ _ _ G); auto; lia).
    eapply kept_trans; [exact Hp1|]. destruct (Nat.eq_dec t' t) as [->|Ne].
    + assert (Ht : In t (types c)).
      { apply types_seg_at. intros N. rewrite (elems_seg_at c), N in Sl. simpl in Sl. lia. }
      destruct (Fit Ht Hc) as (S1 & C1 & Stb). pose proof (grew_length _ _ _ _ t G).
      eapply put_kept; eauto; rewrite Sz; [lia|].
      unfold bsize, vsize. fold (belems (sg_be s')). rewrite Ee. unfold insert_list_at. rewrite insert_list_length, Es. lia.
    + eapply put_iters; eauto. destruct Hst as [Hi|]; [left|right; auto].
      assert (Ht : In t (types c1)) by (apply (g_types _ _ _ _ G); left; apply Hi, Int).
      destruct (put_registered _ _ _ _ _ Pu Ht) as (_ & _ & _ & _ & Eb). auto.
  - intros Hst t' j Hn. rewrite Inl in Hn.
    assert (Hst1 : incl (map fst l) (types c) \/ env_rehash_stable = true).
    { destruct Hst as [Hi|]; auto. left. intros x Hx; apply Hi, Inl; auto. }
    eapply kept_trans; [apply (g_oiters _ _ _ _ G); auto; tauto|].
    assert (Ne : t' <> t) by tauto. eapply put_iters; eauto. destruct Hst as [Hi|]; [left|right; auto].
    assert (Ht : In t (types c1)) by (apply (g_types _ _ _ _ G); left; apply Hi, Int).
    destruct (put_registered _ _ _ _ _ Pu Ht) as (_ & _ & _ & _ & Eb). auto.
Qed.

(** ** Failed insertions *)

Lemma bnoisy_quiet t h n : bnoisy t (Some h) n -> h <> HMove \/ quiet t = false.
Proof.
  unfold quiet. intros [(h0 & Q & [N|N])|(N & _)].
  - inversion Q; subst. auto.
  - right. exact N.
  - right. rewrite N. auto.
Qed.

(** What is left when inserting [m] elements of type [t] failed; if [sf] nothing but, perhaps,
    the registration of the type has happened. *)
Definition failed (sf : Prop) w (c : coll V) R K w' (c' : coll V) t h m e : Prop :=
  wfc0 w' c' /\ cown w' c' R K /\ wle w w' /\ c_al c' = c_al c /\ others_kept c c' t /\
  (types c' = types c \/ (~ In t (types c) /\ Permutation (types c') (t :: types c))) /\
  (In t (types c) \/ env_rehash_stable = true -> other_iters_kept c c' t) /\
  length (elems c t) <= length (elems c' t) <= length (elems c t) + m /\
  threw t h (length (elems c t)) m w w' e /\
  (sf -> wfc w' c' /\ same_but c c' t /\ (In t (types c) -> seg_at c' t = seg_at c t) /\
     (forall k, kept_at c c' t k)).

Lemma added_types c n ns bk : added c n ns bk -> Permutation (map n_ty ns) (n_ty n :: map n_ty (c_nodes c)).
Proof.
  intros (P & _). assert (A := Permutation_map (fun ks => sg_ty (snd ks)) P). simpl in A.
  rewrite !map_map in A. exact A.
Qed.
Lemma added_content c n ns bk c' : added c n ns bk -> c_nodes c' = ns -> Permutation (content c') ((n_ty n, n_elems n) :: content c).
Proof.
  intros (P & _) <-. rewrite !content_nodes.
  assert (A := Permutation_map (fun ks => (sg_ty (snd ks), belems (sg_be (snd ks)))) P). simpl in A.
  rewrite !map_map in A. exact A.
Qed.

Lemma made_exn_failed (sf : Prop) w c a R K w' c' e h : wfc w c -> made_exn w c a R K w' c' e ->
  failed sf w c R K w' c' (env_ty a) h 1 e.
Proof.
  intros W (W' & Ho & L & Al & Re & Cs). set (t := env_ty a) in *.
  assert (Th : threw t h (length (elems c t)) 1 w w' e).
  { destruct Re as [(-> & ?)|(-> & Ly & Lim)]; [left; auto|]. right; right. split; auto. destruct Lim; [left|right]; auto; try lia.
    split; auto. lia. }
  destruct Cs as [(En & Eb)|(Nin & n & (F1 & F2 & F3 & F4) & Ad)].
  - assert (Sg : segs_ok c') by (unfold segs_ok; rewrite En; apply W).
    assert (Ec : content c' = content c) by (unfold content; rewrite En; auto).
    assert (Ety : types c' = types c) by (unfold types; rewrite Ec; auto).
    assert (Sa : forall t, seg_at c' t = seg_at c t) by (intros; unfold seg_at; rewrite En; auto).
    unfold failed. csplit; auto.
    + apply wfc_0. split; auto.
    + intros ? ?; auto.
    + intros _ t' j _. apply kept_same_nodes. rewrite En. auto.
    + destruct (same_seg_at _ _ _ (Sa t)) as (-> & _). lia.
    + destruct (same_seg_at _ _ _ (Sa t)) as (-> & _). lia.
    + intros _. csplit; auto; [split; auto|left; auto|]. intros j. apply kept_same_nodes. rewrite En. auto.
  - assert (Ad' := Ad). destruct Ad' as (P & Hin & ND & Pn).
    assert (Et : n_ty n = t) by exact F2.
    assert (Sg : segs_ok c').
    { unfold segs_ok. eapply added_segs; eauto. apply W. }
    assert (Pc := added_content _ _ _ _ c' Ad eq_refl). rewrite Et in Pc.
    assert (Ee : n_elems n = []) by exact F4. rewrite Ee in Pc.
    assert (Oth : others_kept c c' t).
    { assert (Pu : put c c' t (n_id n) (n_seg n)).
      { right. split; auto. exists (n_key n). split.
        - assert (Kk := wm_key _ _ W'). rewrite Forall_forall in Kk. rewrite (Kk n Hin). auto.
        - destruct n; auto. }
      eapply put_others; eauto. apply W. }
    assert (Ntt : ~ In t (types c)) by (rewrite types_nodes; auto).
    unfold failed. csplit; auto.
    + apply wfc_0. split; auto.
    + right. split; auto. rewrite !types_nodes. rewrite <- Et. eapply added_types; eauto.
    + intros [?|Hr]; [contradiction|]. intros t' j Ne. apply kept_same_nodes. intros m Hm Hm'.
      assert (Pn' := Pn (or_intror Hr)). eapply Permutation_in; [apply Permutation_sym; exact Pn'|].
      right; auto.
    + rewrite (elems_none c t) by auto. simpl. lia.
    + rewrite (elems_none c t) by auto. assert (Eq : elems c' t = n_elems n) by (rewrite <- Et; eapply elems_node; eauto).
      rewrite Eq, Ee. simpl. lia.
    + intros _. csplit; auto; try (split; auto; fail); try (intros; contradiction).
      * right. split; [apply seg_of_none; auto|]. auto.
      * intros j. apply kept_same_nodes. intros m Hm Hm'. exfalso. apply Nin. rewrite <- Hm'. apply (in_map n_ty) in Hm. exact Hm.
Qed.

Lemma did_types w c t i s R K w' c' s' : wfm w c -> did w c R K w' c' t i s s' ->
  types c' = types c \/ (~ In t (types c) /\ Permutation (types c') (t :: types c)).
Proof.
  intros W D. destruct D as [_ _ _ _ _ Pu _ Ety].
  assert (B := put_became _ _ _ _ _ _ W Pu Ety). unfold became in B.
  destruct (seg_of c t) as [ys|] eqn:S.
  - left. unfold types. rewrite B. generalize (content c). induction l as [|[t' zs] l IH]; simpl; auto.
    destruct (t' =? t); simpl; f_equal; auto.
  - right. split; [rewrite types_nodes; apply seg_of_none; auto|]. unfold types. apply (Permutation_map fst) in B. exact B.
Qed.

Lemma did_other_iters w c t i s R K w' c' s' : did w c R K w' c' t i s s' ->
  In t (types c) \/ env_rehash_stable = true -> other_iters_kept c c' t.
Proof.
  intros D H. destruct D as [_ _ _ _ _ Pu _ Ety]. eapply put_iters; eauto.
  destruct H as [H|]; [left|right; auto]. destruct (put_registered _ _ _ _ _ Pu H) as (_ & _ & _ & _ & ?). auto.
Qed.

(** The segment of a type is as before (a missing one counts as empty). *)
Lemma did_same_but w c t i s R K w' c' s' : wfm w c -> did w c R K w' c' t i s s' ->
  belems (sg_be s') = belems (sg_be s) -> same_but c c' t.
Proof.
  intros W D Ee. destruct D as [_ _ _ _ _ Pu Pv Ety].
  assert (B := put_became _ _ _ _ _ _ W Pu Ety). assert (Es := prev_elems _ _ _ _ _ W Pv).
  rewrite Ee, Es in B. unfold became, elems in B. destruct (seg_of c t) as [ys|] eqn:S.
  - left. rewrite B. apply set_assoc_id. exact S.
  - right. auto.
Qed.

Lemma prev_cap w c t i s : wfm w c -> prev c t i s -> In t (types c) -> cap_of c t = bcap (sg_be s).
Proof. intros W P H. unfold cap_of. rewrite (prev_seg_at _ _ _ _ _ W P H). auto. Qed.

Lemma prev_al w c t i s : wfm w c -> prev c t i s -> In t (types c) -> sg_al s = c_al c /\ sg_ty s = t.
Proof.
  intros W [(n & Hat & Et & <-)|(N & _)] Ht; [|rewrite types_nodes in Ht; contradiction].
  split; auto. assert (A := wm_al _ _ W). rewrite Forall_forall in A. apply A. apply (node_at_in _ _ _ Hat).
Qed.
Lemma put_al w c c' t i s : wfm w c' -> put c c' t i s -> sg_al s = c_al c'.
Proof.
  intros W P. destruct (put_in _ _ _ _ _ P) as (k & Hin). assert (A := wm_al _ _ W). rewrite Forall_forall in A.
  apply (A _ Hin).
Qed.

Lemma prev_unreg c t i s : prev c t i s -> ~ In t (types c) -> bsize (sg_be s) = 0.
Proof.
  intros [(n & Hat & Etn & _)|(_ & _ & _ & Em)] Ht.
  - exfalso. apply Ht. rewrite types_nodes, <- Etn. apply in_map. apply (node_at_in _ _ _ Hat).
  - unfold bsize, vsize. fold (belems (sg_be s)). rewrite Em. auto.
Qed.

(** with the segment of [t] left alone *)
Lemma put_kept_same w c c' t i s k : wfm w c -> put c c' t i s -> (In t (types c) -> seg_at c t = Some s) ->
  kept_at c c' t k.
Proof.
  intros W P Hs. apply kept_same_nodes. intros n Hin Et. unfold n_ty in Et.
  assert (Ht : In t (types c)) by (rewrite types_nodes, <- Et; exact (in_map n_ty _ _ Hin)). specialize (Hs Ht). destruct (put_registered _ _ _ _ _ P Ht) as (m & Hat & Em & En & _).
  assert (n = m).
  { destruct (node_at_in _ _ _ Hat) as (Hm & _).
    pose proof (find_ty_in _ n (wm_tys _ _ W) Hin) as A. pose proof (find_ty_in _ m (wm_tys _ _ W) Hm) as B.
    unfold n_ty in A, B, Em. rewrite Et in A. rewrite Em in B. congruence. }
  subst m. assert (s = n_seg n).
  { pose proof (seg_at_node c n (wm_tys _ _ W) Hin) as A. unfold n_ty in A. rewrite Et in A. congruence. }
  subst s. assert (Q : node_upd (c_nodes c) i (n_seg n) = c_nodes c).
  { pose proof (upd_seg_id c i n Hat) as Q. apply (f_equal c_nodes) in Q. simpl in Q. exact Q. }
  rewrite En, Q. auto.
Qed.

(** The backend and the sentinel of the segment are as before. *)
Lemma did_unchanged w c R K w' c' t i s s' : wfc w c -> did w c R K w' c' t i s s' ->
  sg_snt s' = sg_snt s -> sg_be s' = sg_be s ->
  wfc w' c' /\ same_but c c' t /\ (In t (types c) -> seg_at c' t = seg_at c t) /\
  (forall k, kept_at c c' t k).
Proof.
  intros W D Sn Eb. assert (Wm := wc_map _ _ W). assert (D' := D). destruct D' as [Wf Wf0 Ho L Al Pu Pv Ety].
  assert (Wp := prev_wfs _ _ _ _ _ W Pv).
  assert (Pty : sg_ty s = t) by (destruct Pv as [(n & _ & A & <-)|(_ & _ & A & _)]; auto).
  assert (Wc : wfc w' c').
  { apply Wf; auto. split; [rewrite Ety, Eb, <- Pty; apply Wp|rewrite Sn, Eb; apply Wp]. }
  assert (Es : In t (types c) -> s' = s).
  { intros Ht. destruct (prev_al _ _ _ _ _ Wm Pv Ht) as [Al1 Ty1]. assert (Al2 := put_al _ _ _ _ _ _ (wc_map _ _ Wc) Pu).
    destruct s, s'; simpl in *. subst. congruence. }
  csplit; auto.
  - eapply did_same_but; eauto. rewrite Eb. auto.
  - intros Ht. rewrite (put_seg_at _ _ _ _ _ _ (wc_map _ _ Wc) Pu Ety), (prev_seg_at _ _ _ _ _ Wm Pv Ht), Es; auto.
  - intros k. eapply put_kept_same; eauto. intros Ht. rewrite Es; auto. eapply prev_seg_at; eauto.
Qed.

Lemma ins_fail_failed w c R K w' c' t h k e i s s' : wfc w c -> k <= length (elems c t) ->
  ins_fail w c R K w' c' t h k e i s s' -> failed (safe_at c t k) w c R K w' c' t h 1 e.
Proof.
  intros W Hk (D & Sn & w1 & R1 & K1 & L1 & (I1 & I2 & I3 & I4 & I5 & I6 & I7 & I8)).
  assert (Wm := wc_map _ _ W). assert (D' := D). destruct D' as [Wf Wf0 Ho L Al Pu Pv Ety].
  assert (Wp := prev_wfs _ _ _ _ _ W Pv). assert (Sz := prev_size _ _ _ _ _ Wm Pv).
  assert (Ws0 : wfs1 s') by (unfold wfs1; rewrite Ety; exact I1).
  assert (W0' : wfc0 w' c') by (apply Wf0; auto; apply wfc_0; auto).
  assert (Me : seg_at c' t = Some s') by (eapply put_seg_at; eauto; apply W0').
  assert (Sz' : length (elems c' t) = bsize (sg_be s')) by (rewrite elems_seg_at, Me; auto).
  assert (Pk : In t (types c) \/ ~ In t (types c)).
  { destruct (in_dec Nat.eq_dec t (types c)); auto. }
  unfold failed. csplit; auto.
  - eapply put_others; eauto.
  - eapply did_types; eauto.
  - eapply did_other_iters; eauto.
  - rewrite Sz', <- Sz. lia.
  - rewrite Sz', <- Sz. lia.
  - rewrite <- Sz. destruct I6 as [[(A & F)|(A & B & C)]|(A & B)].
    + left. split; [destruct A as [?|(? & A)]; auto; right; split; auto; eapply bnoisy_quiet; eauto|].
      unfold faulted in F. destruct F as (n & Hn & Hf). exists n. split; auto. unfold wle in *. lia.
    + right; left. csplit; auto. destruct C as [C|(C1 & C2)]; [left; congruence|right; split; auto; lia].
    + right; right. auto.
  - intros Sf. apply (did_unchanged _ _ _ _ _ _ _ _ _ _ W D Sn). unfold safe_at in Sf. destruct env_layout eqn:Ly.
    + destruct (I7 eq_refl) as (J1 & J2 & J3). apply J3. destruct Sf as [A|[A|A]].
      * left. congruence.
      * right; left. exact A.
      * destruct Pk as [Ht|Ht].
        -- right; right. rewrite Sz, A. eapply prev_cap; eauto.
        -- left. assert (Z := prev_unreg _ _ _ _ Pv Ht). lia.
    + destruct Sf as (A1 & A2 & A3).
      assert (Ht : In t (types c)).
      { destruct Pk as [?|Ht]; auto. exfalso. rewrite types_seg_at in Ht. unfold cap_of in A1.
        destruct (seg_at c t); [apply Ht; discriminate|lia]. }
      rewrite (prev_cap _ _ _ _ _ Wm Pv Ht) in A1, A2.
      assert (Ro : roomy (sg_be s)).
      { assert (B := wfb_layout _ _ (wfs_be _ Wp)). rewrite Ly in B. destruct B as (_ & _ & [?|(_ & ?)]); auto. lia. }
      destruct (I8 eq_refl Ro) as (_ & _ & B); [|apply B; lia].
      destruct A3 as [A3|A3]; [left; congruence|right; exact A3].
Qed.

Lemma failed_ok (sf : Prop) w c R K w' c' t h m e : sf -> failed sf w c R K w' c' t h m e ->
  failed True w c R K w' c' t h m e.
Proof. intros S (A1 & A2 & A3 & A4 & A5 & A6 & A7 & A8 & A9 & A10). unfold failed. csplit; auto; tauto. Qed.
Lemma failed_m (sf : Prop) w c R K w' c' t h m m' e : m <= m' -> failed sf w c R K w' c' t h m e ->
  failed sf w c R K w' c' t h m' e.
Proof.
  intros Hm (A1 & A2 & A3 & A4 & A5 & A6 & A7 & (A8 & A8') & A9 & A10). unfold failed. csplit; auto; try lia.
  destruct A9 as [A|[(B1 & B2 & B3)|(B1 & B2)]]; [left; auto|right; left|right; right]; csplit; auto.
  - destruct B3 as [?|(? & ?)]; [left; auto|right; split; auto; lia].
  - destruct B2 as [?|(? & ?)]; [left; lia|right; split; auto; lia].
Qed.

(** The type of the element is not registered and cannot be. *)
Definition unreg w (c : coll V) R K w' (c' : coll V) (x : arg V) e : Prop :=
  arg_unreg c x /\ e = UnregisteredType (env_ty (a_dyn x)) /\
  wfc w' c' /\ cown w' c' R K /\ wle w w' /\
  c_nodes c' = c_nodes c /\ c_buckets c' = c_buckets c /\ c_al c' = c_al c.
Lemma unreg_cache w c R K w' l x : wfc w c -> arg_unreg c x -> wfm w' (set_cache c l) ->
  cown w' (set_cache c l) R K -> wle w w' ->
  unreg w c R K w' (set_cache c l) x (UnregisteredType (env_ty (a_dyn x))).
Proof. intros W U W' H L. unfold unreg. csplit; auto. split; auto. apply W. Qed.

(** ** One by one *)

(** [c1] is the state after the elements [pre], on the way from [c]. *)
Definition upto h w (c : coll V) R K w1 (c1 : coll V) pre : Prop :=
  grew h c c1 pre /\ wfc w1 c1 /\ cown w1 c1 R K /\ wle w w1 /\ c_al c1 = c_al c.

Lemma upto_refl h w c R K : wfc w c -> cown w c R K -> upto h w c R K w c [].
Proof. intros. unfold upto. csplit; auto using grew_refl, wle_refl. Qed.

Lemma upto_step h w c R K w1 c1 pre w2 c2 t xs i s s' :
  wfc w c -> hint_ok h c -> upto h w c R K w1 c1 pre ->
  xs_did w1 c1 R K w2 c2 t (slot h c t + length (of_type t pre)) xs i s s' -> xs <> [] ->
  upto h w c R K w2 c2 (pre ++ map (pair t) xs).
Proof.
  intros W Ho (G & W1 & O1 & L1 & A1) X Nx. unfold upto.
  assert (G2 := grew_step _ _ _ _ _ _ _ _ _ _ _ _ _ _ _ (wc_map _ _ W) Ho G W1 X Nx).
  destruct X as (D & W2 & _). destruct D as [_ _ O2 L2 A2 _ _ _]. csplit; auto; try wle_tac; try congruence.
Qed.

Lemma upto_slot_none w c R K w1 c1 pre t : upto None w c R K w1 c1 pre ->
  slot None c t + length (of_type t pre) = length (elems c1 t).
Proof. intros (G & _). rewrite (grew_length _ _ _ _ t G). auto. Qed.
Lemma upto_slot_le h w c R K w1 c1 pre t : hint_ok h c -> upto h w c R K w1 c1 pre ->
  slot h c t + length (of_type t pre) <= length (elems c1 t).
Proof. intros Ho (G & _). rewrite (grew_length _ _ _ _ t G). assert (A := slot_le h c t Ho). lia. Qed.

(** The insertion of [l] stopped at an element. *)
Definition stopped (Y : nat -> arg V -> Prop) (H : nat -> how -> Prop) h w (c : coll V) R K w' (c' : coll V) (l : list (tyid * V)) e : Prop :=
  exists pre t v post w1 c1, l = pre ++ (t, v) :: post /\ upto h w c R K w1 c1 pre /\
    ((exists hw, H (length pre) hw /\ failed (safe_at c1 t (slot h c t + length (of_type t pre))) w1 c1 R K w' c' t hw 1 e) \/
     (exists x, Y (length pre) x /\ env_ty (a_dyn x) = t /\ unreg w1 c1 R K w' c' x e)).
Definition no_arg : nat -> arg V -> Prop := fun _ _ => False.
Definition one_way (hw : how) : nat -> how -> Prop := fun _ h => h = hw.
Lemma one_way_refl hw k : one_way hw k hw.
Proof. reflexivity. Qed.
Hint Resolve one_way_refl : core.

Lemma stopped_nil Y H h w c R K w' c' l e : stopped no_arg H h w c R K w' c' l e -> stopped Y H h w c R K w' c' l e.
Proof.
  intros (pre & t & v & post & w1 & c1 & A & B & [C|(x & [] & _)]). exists pre, t, v, post, w1, c1. auto.
Qed.
Lemma nth_shift {A} (P : nat -> A -> Prop) (pre : list (tyid * V)) p x xs : (forall k y, nth_error (x :: xs) k = Some y -> P (length pre + k) y) ->
  P (length pre) x /\ (forall k y, nth_error xs k = Some y -> P (length (pre ++ [p]) + k) y).
Proof.
  intros H. split; [rewrite <- (Nat.add_0_r (length pre)); apply H; auto|]. intros k y N. rewrite app_length. cbn [length].
  rewrite <- Nat.add_assoc. apply H. exact N.
Qed.

Lemma upto_more h w c R K w1 c1 l1 x l2 : upto h w c R K w1 c1 (l1 ++ x :: l2) = upto h w c R K w1 c1 ((l1 ++ [x]) ++ l2).
Proof. rewrite <- app_assoc. auto. Qed.

(** *** insert(first,last), general *)

Lemma wp_c_insert_range Y H xs : forall l pre w0 c0 c w R K (Q : CW -> unit -> Prop) (X : CW -> exn -> Prop),
  Forall2 gives xs l -> (forall k x, nth_error xs k = Some x -> Y (length pre + k) x /\ H (length pre + k) (a_how x)) -> wfc w0 c0 -> upto None w0 c0 R K w c pre ->
  (forall w' c', upto None w0 c0 R K w' c' (pre ++ l) -> Q (c', w') tt) ->
  (forall w' c' e, stopped Y H None w0 c0 R K w' c' (pre ++ l) e -> X (c', w') e) ->
  wp (c_insert_range xs) (c, w) Q X.
Proof.
  induction xs as [|x xs IH]; intros l pre w0 c0 c w R K Q X F Iy W0 U HQ HX; inversion F as [|? [t v] ? l' Hx F' E1 E2]; subst.
  - cbn [c_insert_range]. apply wp_ret. apply HQ. rewrite app_nil_r. auto.
  - cbn [c_insert_range]. destruct Hx as (Et & Es & Ok). simpl in Et, Es. subst t. apply wp_bind.
    destruct (nth_shift (fun k x => Y k x /\ H k (a_how x)) pre (env_ty (a_dyn x), v) x xs Iy) as (Iy1 & Iy2).
    assert (U' := U). destruct U' as (G & W & O & L & A).
    eapply (wp_c_insert x v c w R K); auto.
    + rewrite Es. left; auto.
    + intros w' c' i s s' _ D _. eapply (IH l' (pre ++ [(env_ty (a_dyn x), v)]) w0 c0); auto.
      * change [(env_ty (a_dyn x), v)] with (map (pair (env_ty (a_dyn x))) [v]).
        eapply upto_step; eauto; [exact I| |discriminate].
        rewrite (upto_slot_none _ _ _ _ _ _ _ _ U). apply ins_xs. exact D.
      * intros w2 c2. rewrite <- app_assoc. apply HQ.
      * intros w2 c2 e. rewrite <- app_assoc. apply HX.
    + intros w' c' e _ M. apply HX. exists pre, (env_ty (a_dyn x)), v, l', w, c. csplit; auto.
      left. exists (a_how x). split; [apply Iy1|]. eapply made_exn_failed; eauto.
    + intros w' cl Un Wm Ow Lw. apply HX. exists pre, (env_ty (a_dyn x)), v, l', w, c. csplit; auto.
      right. exists x. csplit; auto; [apply Iy1|]. apply unreg_cache; auto.
    + intros w' c' e i s s' _ Fl. apply HX. exists pre, (env_ty (a_dyn x)), v, l', w, c. csplit; auto.
      left. exists (a_how x). split; [apply Iy1|]. rewrite (upto_slot_none _ _ _ _ _ _ _ _ U). eapply ins_fail_failed; eauto.
Qed.

(** *** Lookups as in insertion from other collections *)

(** With this hint elements of type [t] are appended. *)
Definition appends (h : option (tyid * nat)) (t : tyid) : Prop :=
  match h with Some (t0, _) => t0 <> t | None => True end.
Lemma upto_slot_app h w c R K w1 c1 pre t : appends h t -> upto h w c R K w1 c1 pre ->
  slot h c t + length (of_type t pre) = length (elems c1 t).
Proof.
  intros Ap (G & _). rewrite (grew_length _ _ _ _ t G). unfold slot. destruct h as [[t0 k]|]; auto.
  simpl in Ap. destruct (Nat.eqb_spec t0 t); auto. contradiction.
Qed.

Lemma wp_push_made (H : nat -> how -> Prop) h a v pre l w0 c0 c w R K w1 c1 n (F : M CW unit) (Q : CW -> unit -> Prop) (X : CW -> exn -> Prop) :
  H (length pre) HCopy -> wfc w0 c0 -> hint_ok h c0 -> appends h (env_ty a) -> upto h w0 c0 R K w c pre -> made w c a R K w1 c1 n ->
  (forall w' c' n', upto h w0 c0 R K w' c' (pre ++ [(env_ty a, v)]) ->
     node_at (c_nodes c') (n_id n) = Some n' -> n_ty n' = env_ty a -> wp F (c', w') Q X) ->
  (forall w' c' e, stopped no_arg H h w0 c0 R K w' c' (pre ++ (env_ty a, v) :: l) e -> X (c', w') e) ->
  wp (on_seg (n_id n) (seg_push_back (env_ty a) HCopy (SVal v)) ;; F) (c1, w1) Q X.
Proof.
  intros Hh W0 Hok Ap U M HF HX. assert (U' := U). destruct U' as (G & W & O & L & A).
  apply wp_bind.
  assert (Mp := made_seg _ _ _ _ _ _ _ _ (wc_map _ _ W) M).
  assert (Et : sg_ty (n_seg n) = env_ty a) by apply M.
  assert (Sz := prev_size _ _ _ _ _ (wc_map _ _ W) Mp).
  eapply (wp_made_ins _ a HCopy (length (elems c (env_ty a))) v); eauto.
  - rewrite <- Sz, <- Et. apply one_push_back.
    + eapply prev_wfs; eauto.
    + destruct M as (Wm & Om & _ & _ & Hat & _). eapply cown_seg_id; eauto.
    + left; auto.
  - intros w' c' s' D. assert (D' := D). destruct D' as ([_ _ _ _ _ Pu _ Ety] & W' & _).
    destruct (put_in _ _ _ _ _ Pu) as (ky & Hin').
    apply (HF w' c' (mknode (n_id n) ky s')); auto;
      [|apply (node_at_some _ _ (wm_ids _ _ (wc_map _ _ W')) Hin')].
    change [(env_ty a, v)] with (map (pair (env_ty a)) [v]).
    eapply upto_step; eauto; [|discriminate].
    rewrite (upto_slot_app _ _ _ _ _ _ _ _ _ Ap U). apply ins_xs. exact D.
  - intros w' c' e s' Fl. apply HX. exists pre, (env_ty a), v, l, w, c. csplit; auto.
    left. exists HCopy. split; auto. rewrite (upto_slot_app _ _ _ _ _ _ _ _ _ Ap U). eapply ins_fail_failed; eauto.
Qed.

Lemma wp_lookup_proto (H : nat -> how -> Prop) h a v pre l w0 c0 c w R K (F : nat -> M CW unit) (Q : CW -> unit -> Prop) (X : CW -> exn -> Prop) :
  H (length pre) HCopy -> upto h w0 c0 R K w c pre ->
  (forall w1 c1 n, made w c a R K w1 c1 n -> wp (F (n_id n)) (c1, w1) Q X) ->
  (forall w' c' e, stopped no_arg H h w0 c0 R K w' c' (pre ++ (env_ty a, v) :: l) e -> X (c', w') e) ->
  wp (i <- map_iterator_for_proto a (env_ty a) ;; F i) (c, w) Q X.
Proof.
  intros Hh U HF HX. assert (U' := U). destruct U' as (G & W & O & L & A).
  apply wp_bind. eapply (wp_map_iterator_for_proto a c w R K); eauto; [apply W|].
  intros w' c' e M. apply HX. exists pre, (env_ty a), v, l, w, c. csplit; auto.
  left. exists HCopy. split; auto. eapply made_exn_failed; eauto.
Qed.

(** *** insert(first,last) with iterators of another collection [y] *)

Definition slice {A} (g h : nat) (l : list A) : list A := firstn (h - g) (skipn g l).
Lemma slice_step {A} g h (l : list A) x : g < h -> nth_error l g = Some x -> slice g h l = x :: slice (S g) h l.
Proof.
  intros Hg Hx. unfold slice. replace (h - g) with (S (h - S g)) by lia.
  assert (A1 : skipn g l = x :: skipn (S g) l).
  { clear - Hx. revert l Hx. induction g as [|g IH]; intros [|y l] Hx; simpl in *; try discriminate; [congruence|].
    rewrite (IH l Hx). auto. }
  rewrite A1. auto.
Qed.
Lemma slice_nil {A} g (l : list A) : slice g g l = [].
Proof. unfold slice. rewrite Nat.sub_diag. auto. Qed.

(** What is read at a position of [y]. *)
Lemma read_at w y R K g : wfc w y -> cown w y R K -> g < tot (c_nodes y) ->
  exists a v, nth_error (flat y) g = Some (env_ty a, v) /\
    deref_src (c_nodes y) (it_pos (at_ (c_nodes y) g)) = Some (a, v) /\
    it_seg_ty y (at_ (c_nodes y) g) = Some (env_ty a) /\
    it_next y (at_ (c_nodes y) g) = Some (at_ (c_nodes y) (S g)).
Proof.
  intros W O Hg. assert (Vo := wfc_vok _ _ _ _ W O).
  destruct (at_split (c_nodes y) g Hg) as (l1 & n & l2 & k & En & Hk & Eg & Ea).
  assert (Hin : In n (c_nodes y)) by (rewrite En; apply in_or_app; right; left; auto).
  destruct (nth_error (n_elems n) k) as [v|] eqn:Nk.
  2:{ apply nth_error_None in Nk. rewrite n_elems_length in Nk. lia. }
  assert (Ek : env_ty (n_key n) = n_ty n).
  { assert (A := wm_key _ _ (wc_map _ _ W)). rewrite Forall_forall in A. auto. }
  exists (n_key n), v. csplit.
  - rewrite flat_nodes, Eg. rewrite En at 1. rewrite nth_nflat by auto. rewrite Nk, Ek. auto.
  - rewrite Ea. cbn [it_pos]. rewrite deref_src_in by auto. rewrite Nk. auto.
  - rewrite Ea. unfold it_seg_ty. cbn [it_map]. rewrite node_at_some by (auto; apply Vo). rewrite Ek. auto.
  - apply it_next_at; auto.
Qed.

Lemma wp_c_insert_from y wy Ry Ky fuel : forall g h pre w0 c0 c w R K (Q : CW -> unit -> Prop) (X : CW -> exn -> Prop),
  wfc wy y -> cown wy y Ry Ky -> g <= h -> h <= length (flat y) -> h - g <= fuel ->
  wfc w0 c0 -> upto None w0 c0 R K w c pre ->
  (forall w' c', upto None w0 c0 R K w' c' (pre ++ slice g h (flat y)) -> Q (c', w') tt) ->
  (forall w' c' e, stopped no_arg (one_way HCopy) None w0 c0 R K w' c' (pre ++ slice g h (flat y)) e -> X (c', w') e) ->
  wp (c_insert_from fuel y (at_ (c_nodes y) g) (at_ (c_nodes y) h)) (c, w) Q X.
Proof.
  induction fuel as [|fuel IH]; intros g h pre w0 c0 c w R K Q X Wy Oy Hgh Hh Hf W0 U HQ HX;
    rewrite flat_length in Hh; assert (Vo := wfc_vok _ _ _ _ Wy Oy); cbn [c_insert_from]; rewrite it_eq_at by (auto; lia).
  - assert (g = h) by lia. subst h. rewrite Nat.eqb_refl. apply wp_ret. apply HQ. rewrite slice_nil, app_nil_r. auto.
  - destruct (Nat.eqb_spec g h) as [<-|Ne].
    + apply wp_ret. apply HQ. rewrite slice_nil, app_nil_r. auto.
    + destruct (read_at _ _ _ _ g Wy Oy) as (a & v & N & D & T & Nx); [lia|].
      rewrite D, T, Nx. rewrite (slice_step g h _ (env_ty a, v)) in HQ, HX by (auto; lia).
      eapply (wp_lookup_proto (one_way HCopy) None a v pre (slice (S g) h (flat y)) w0 c0 c w R K (fun _ => _)); auto.
      intros w1 c1 n M. eapply (wp_push_made (one_way HCopy) None a v pre (slice (S g) h (flat y)) w0 c0 c w R K); eauto; try exact I.
      intros w' c' n' U' _ _. eapply (IH (S g) h (pre ++ [(env_ty a, v)]) w0 c0 c' w' R K); auto; try lia.
      * rewrite flat_length. auto.
      * intros w2 c2. rewrite <- app_assoc. apply HQ.
      * intros w2 c2 e. rewrite <- app_assoc. apply HX.
Qed.

(** *** insert(first,last) with local iterators *)

Lemma made_here w c i n a R K : wfc w c -> cown w c R K -> node_at (c_nodes c) i = Some n -> n_ty n = env_ty a ->
  n_id n = i /\ In n (c_nodes c) /\ made w c a R K w c n.
Proof.
  intros W O Hat Et. destruct (node_at_in _ _ _ Hat) as [Hin <-]. csplit; auto.
  assert (M : made w c (n_key n) R K w c n) by (apply made_found; auto; apply W).
  assert (Ek : env_ty (n_key n) = env_ty a).
  { assert (B := wm_key _ _ (wc_map _ _ W)). rewrite Forall_forall in B. rewrite (B n Hin). auto. }
  apply (made_ty _ _ _ a) in M; auto.
Qed.

Lemma wp_push_all h a i n xs : forall pre w0 c0 c w R K (Q : CW -> unit -> Prop) (X : CW -> exn -> Prop),
  wfc w0 c0 -> hint_ok h c0 -> appends h (env_ty a) ->
  upto h w0 c0 R K w c pre -> node_at (c_nodes c) i = Some n -> n_ty n = env_ty a ->
  (forall w' c', upto h w0 c0 R K w' c' (pre ++ map (pair (env_ty a)) xs) -> Q (c', w') tt) ->
  (forall w' c' e, stopped no_arg (one_way HCopy) h w0 c0 R K w' c' (pre ++ map (pair (env_ty a)) xs) e -> X (c', w') e) ->
  wp (push_all i (env_ty a) xs) (c, w) Q X.
Proof.
  revert n. induction xs as [|v xs IH]; intros n pre w0 c0 c w R K Q X W0 Hok Ap U Hat Et HQ HX; cbn [push_all].
  - apply wp_ret. apply HQ. simpl. rewrite app_nil_r. auto.
  - assert (U' := U). destruct U' as (G & W & O & L & A).
    destruct (made_here _ _ _ _ a _ _ W O Hat Et) as (<- & Hin & M).
    eapply (wp_push_made (one_way HCopy) h a v pre (map (pair (env_ty a)) xs) w0 c0 c w R K); eauto.
    intros w' c' n' U' Hat' Et'. eapply (IH n' (pre ++ [(env_ty a, v)]) w0 c0 c' w' R K); auto.
    + intros w2 c2. rewrite <- app_assoc. apply HQ.
    + intros w2 c2 e. rewrite <- app_assoc. apply HX.
Qed.

Lemma wp_c_insert_local a xs c w R K (Q : CW -> unit -> Prop) (X : CW -> exn -> Prop) :
  wfc w c -> cown w c R K ->
  (forall w' c', upto None w c R K w' c' (map (pair (env_ty a)) xs) -> Q (c', w') tt) ->
  (forall w' c' e, stopped no_arg (one_way HCopy) None w c R K w' c' (map (pair (env_ty a)) xs) e -> X (c', w') e) ->
  wp (c_insert_local a (env_ty a) xs) (c, w) Q X.
Proof.
  intros W O HQ HX. destruct xs as [|v xs]; cbn [c_insert_local].
  - apply wp_ret. apply HQ. apply upto_refl; auto.
  - assert (U := upto_refl None w c R K W O).
    eapply (wp_lookup_proto (one_way HCopy) None a v [] (map (pair (env_ty a)) xs) w c c w R K); auto.
    intros w1 c1 n M. cbn [push_all].
    eapply (wp_push_made (one_way HCopy) None a v [] (map (pair (env_ty a)) xs) w c c w R K); eauto; try exact I.
    intros w' c' n' U' Hat Et. eapply (wp_push_all None a (n_id n) n' xs [(env_ty a, v)] w c c' w' R K); eauto; exact I.
Qed.

(** ** Hints *)

(** The hint while the elements [pre] have been inserted. *)
Definition hinv (h : option (tyid * nat)) (c : coll V) (pre : list (tyid * V)) (hint : iter) : Prop :=
  match h with
  | None => hint = c_end c
  | Some (t, k) => points c hint t (k + length (of_type t pre))
  end.
Lemma points_inj w c it t k t' k' : wfm w c -> points c it t k -> points c it t' k' -> t = t' /\ k = k'.
Proof.
  intros W (n & Hin & <- & -> & _) (m & Hin' & <- & E' & _). inversion E' as [[Ei Ep]].
  assert (n = m).
  { assert (A : node_at (c_nodes c) (n_id n) = Some n) by (apply node_at_some; auto; apply W).
    assert (B : node_at (c_nodes c) (n_id m) = Some m) by (apply node_at_some; auto; apply W).
    rewrite <- Ei in B. congruence. }
  subst m. split; auto. rewrite !be_ptr_eq in Ep. congruence.
Qed.

Lemma points_next w c it t k R K : wfc w c -> cown w c R K -> points c it t k -> S k < length (elems c t) ->
  exists it', it_next c it = Some it' /\ points c it' t (S k).
Proof.
  intros W O P Hk. assert (Vo := wfc_vok _ _ _ _ W O). assert (P' := P).
  destruct P' as (n & Hin & <- & -> & _).
  assert (Hk' : S k < nsz n) by (fold (n_ty n) in Hk; rewrite (elems_node _ _ _ (wc_map _ _ W) Hin) in Hk; exact Hk).
  assert (P2 : points c (mkiter (Some (n_id n)) (be_ptr (nb n) (S k))) (n_ty n) (S k)) by (apply points_node; auto).
  destruct (points_at _ _ _ _ _ _ _ W O P) as (E1 & L1 & _).
  destruct (points_at _ _ _ _ _ _ _ W O P2) as (E2 & _).
  exists (mkiter (Some (n_id n)) (be_ptr (nb n) (S k))). split; auto.
  rewrite E1, it_next_at by auto. rewrite E2, Nat.add_succ_r. auto.
Qed.

Lemma hinv_located w c R K h pre hint : wfc w c -> cown w c R K -> hinv h c pre hint -> exists g, located c hint g.
Proof.
  intros W O. destruct h as [[t k]|]; simpl; intros H.
  - eexists. right. eauto.
  - subst hint. eexists. left. eauto.
Qed.

Lemma hinv_at w0 c0 h w c R K pre hint t : upto h w0 c0 R K w c pre -> hinv h c pre hint ->
  hint_at c hint t (slot h c0 t + length (of_type t pre)).
Proof.
  intros U H. assert (U' := U). destruct U' as (G & W & _). destruct h as [[t0 k]|]; simpl in H.
  - destruct (Nat.eq_dec t0 t) as [->|Ne].
    + left. simpl. rewrite Nat.eqb_refl. auto.
    + right. split.
      * intros j P. destruct (points_inj _ _ _ _ _ _ _ (wc_map _ _ W) H P). auto.
      * apply (upto_slot_app (Some (t0, k)) w0 c0 R K w c pre); auto.
  - right. split.
    + subst hint. intros j (n & _ & _ & Ei & _). discriminate.
    + apply (upto_slot_app None w0 c0 R K w c pre); auto. exact I.
Qed.

Lemma hsafe_step h w0 c0 R K w c pre hint t v l : upto h w0 c0 R K w c pre -> hinv h c pre hint ->
  hsafe h c0 (pre ++ (t, v) :: l) -> hint_safe c hint t.
Proof.
  intros (G & _) H [->|[Hi|?]]; [left; auto|right; left|right; right; auto].
  apply (g_types _ _ _ _ G). left. apply Hi. rewrite map_app. apply in_or_app. right. left. auto.
Qed.

(** *** One element, then the rest with the new hint *)

Lemma wp_ins_next {BB} (H : nat -> how -> Prop) t k0 pre l hint a hw v w0 c0 c w R K w1 c1 n (F : iter -> M CW BB) (Q : CW -> BB -> Prop) (X : CW -> exn -> Prop) :
  let h := Some (t, k0) in let k := k0 + length (of_type t pre) in
  H (length pre) hw -> wfc w0 c0 -> hint_ok h c0 -> env_ty a = t -> upto h w0 c0 R K w c pre -> made w c a R K w1 c1 n ->
  pos_at (nb n) (PBase (it_pos hint)) k -> k < nsz n ->
  (forall w' c' hint' n', upto h w0 c0 R K w' c' (pre ++ [(t, v)]) -> hinv h c' (pre ++ [(t, v)]) hint' ->
     node_at (c_nodes c') (n_id n) = Some n' -> n_ty n' = t -> wp (F hint') (c', w') Q X) ->
  (forall w' c' e, stopped no_arg H h w0 c0 R K w' c' (pre ++ (t, v) :: l) e -> X (c', w') e) ->
  wp (p <- on_seg (n_id n) (seg_insert t hw (PBase (it_pos hint)) (SVal v)) ;;
      h <- mk_iter (Some (n_id n)) p ;;
      c <- getx ;;
      match it_next c h with
      | Some h' => F h'
      | None => ub
      end) (c1, w1) Q X.
Proof.
  intros h k Hh W0 Hok Ea U M Pa Hk HF HX. assert (U' := U). destruct U' as (G & W & O & L & A).
  assert (Mp := made_seg _ _ _ _ _ _ _ _ (wc_map _ _ W) M). rewrite Ea in Mp.
  assert (Et : sg_ty (n_seg n) = t) by (rewrite <- Ea; apply M).
  assert (Sz := prev_size _ _ _ _ _ (wc_map _ _ W) Mp).
  assert (Sl : slot h c0 t = k0) by (unfold slot, h; rewrite Nat.eqb_refl; auto).
  apply wp_bind. eapply (wp_made_ins _ a hw k v); eauto.
  - rewrite <- Et. apply one_insert; auto; try lia.
    + eapply prev_wfs; eauto.
    + destruct M as (Wm & Om & _ & _ & Hat & _). eapply cown_seg_id; eauto.
    + left; auto.
  - intros w' c' s' D. rewrite Ea in D. apply wp_bind. eapply (wp_mk_iter_ins _ _ _ _ _ _ _ _ _ _ _ _ _ _ D); [lia|].
    intros P. apply wp_bind, wp_getx. cbn [fst].
    assert (U2 : upto h w0 c0 R K w' c' (pre ++ [(t, v)])).
    { change [(t, v)] with (map (pair t) [v]). eapply upto_step; eauto; [|discriminate].
      rewrite Sl. apply ins_xs. exact D. }
    assert (D' := D). destruct D' as ([_ _ O' _ _ Pu _ Ety] & W' & _).
    assert (Ln : length (elems c' t) = S (length (elems c t))).
    { destruct U2 as (G2 & _). rewrite (grew_length _ _ _ _ t G2), (grew_length _ _ _ _ t G), of_type_app, app_length.
      assert (B := of_type_same t [v]). simpl map in B. rewrite B. simpl. lia. }
    destruct (points_next _ _ _ _ _ _ _ W' O' P) as (it' & Nx & P'); [lia|].
    rewrite Nx. destruct (put_in _ _ _ _ _ Pu) as (ky & Hin').
    apply (HF w' c' it' (mknode (n_id n) ky s')); auto.
    + simpl. rewrite of_type_app, app_length. assert (B := of_type_same t [v]). simpl map in B. rewrite B. simpl.
      replace (k0 + (length (of_type t pre) + 1)) with (S k) by (unfold k; lia). auto.
    + apply (node_at_some _ _ (wm_ids _ _ (wc_map _ _ W')) Hin').
  - intros w' c' e s' Fl. apply HX. exists pre, t, v, l, w, c. csplit; auto.
    left. exists hw. split; auto. rewrite Sl. rewrite Ea in Fl. eapply ins_fail_failed; eauto. lia.
Qed.

Lemma wp_hint_step {BB} (H : nat -> how -> Prop) h pre l hint a hw v w0 c0 c w R K w1 c1 n (F : iter -> M CW BB) (Q : CW -> BB -> Prop) (X : CW -> exn -> Prop) :
  let t := env_ty a in
  H (length pre) hw -> wfc w0 c0 -> hint_ok h c0 -> upto h w0 c0 R K w c pre -> hinv h c pre hint -> made w c a R K w1 c1 n ->
  hsafe h c0 (pre ++ (t, v) :: l) ->
  (forall w' c' hint', upto h w0 c0 R K w' c' (pre ++ [(t, v)]) -> hinv h c' (pre ++ [(t, v)]) hint' ->
     wp (F hint') (c', w') Q X) ->
  (forall w' c' e, stopped no_arg H h w0 c0 R K w' c' (pre ++ (t, v) :: l) e -> X (c', w') e) ->
  wp (b <- same_node (it_map hint) (n_id n) ;;
      if b : bool then
        p <- on_seg (n_id n) (seg_insert t hw (PBase (it_pos hint)) (SVal v)) ;;
        h <- mk_iter (Some (n_id n)) p ;;
        c <- getx ;;
        match it_next c h with
        | Some h' => F h'
        | None => ub
        end
      else
        on_seg (n_id n) (seg_push_back t hw (SVal v)) ;;
        F hint) (c1, w1) Q X.
Proof.
  intros t Hh W0 Hok U Hi M Sf HF HX. assert (U' := U). destruct U' as (G & W & O & L & A).
  destruct (hinv_located _ _ _ _ _ _ _ W O Hi) as (g & Lo).
  assert (Ha := hinv_at _ _ _ _ _ _ _ _ _ t U Hi). assert (Hs := hsafe_step _ _ _ _ _ _ _ _ _ _ _ _ U Hi Sf).
  assert (Mp := made_seg _ _ _ _ _ _ _ _ (wc_map _ _ W) M). fold t in Mp.
  assert (Et : sg_ty (n_seg n) = t) by apply M.
  assert (Sz := prev_size _ _ _ _ _ (wc_map _ _ W) Mp).
  apply wp_bind. eapply (wp_same_node w c hint g a R K w1 c1 n (slot h c0 t + length (of_type t pre))); eauto.
  - intros Pa Hk. destruct h as [[t0 k0]|].
    + destruct (Nat.eq_dec t0 t) as [->|Ne].
      * simpl slot in Pa, Hk. rewrite Nat.eqb_refl in Pa, Hk.
        eapply (wp_ins_next H t k0 pre l hint a hw v w0 c0 c w R K); eauto.
      * exfalso. rewrite (upto_slot_app (Some (t0, k0)) w0 c0 R K w c pre t) in Hk; auto. lia.
    + exfalso. rewrite (upto_slot_app None w0 c0 R K w c pre t) in Hk; auto; try exact I; lia.
  - intros Ek. apply wp_bind. eapply (wp_made_ins _ a hw (length (elems c t)) v); eauto.
    + rewrite <- Sz, <- Et. apply one_push_back.
      * eapply prev_wfs; eauto.
      * destruct M as (Wm & Om & _ & _ & Hat & _). eapply cown_seg_id; eauto.
      * left; auto.
    + intros w' c' s' D. apply HF.
      * change [(t, v)] with (map (pair t) [v]). eapply upto_step; eauto; [|discriminate].
        fold t in Ek. rewrite Ek. apply ins_xs. exact D.
      * destruct h as [[t0 k0]|]; [|simpl in Hi; subst hint; reflexivity].
        simpl in Hi |- *. assert (Ne : t0 <> t).
        { intros ->. assert (B := points_elems _ _ _ _ _ (wc_map _ _ W) Hi). fold t in Ek.
          simpl in Ek. rewrite Nat.eqb_refl in Ek. lia. }
        rewrite of_type_app. change [(t, v)] with (map (pair t) [v]). rewrite of_type_other, app_nil_r by auto.
        destruct D as (D & _). eapply (did_other_iters _ _ _ _ _ _ _ _ _ _ D); eauto.
        destruct Hs as [->|Hs]; auto. destruct Hi as (? & _ & _ & Ei & _). discriminate.
    + intros w' c' e s' Fl. apply HX. exists pre, t, v, l, w, c. csplit; auto.
      left. exists hw. split; auto. fold t in Ek. rewrite Ek. eapply ins_fail_failed; eauto.
Qed.

(** *** insert(hint,first,last), general *)

Lemma wp_c_insert_hint_range Y H h xs : forall l pre hint w0 c0 c w R K (Q : CW -> unit -> Prop) (X : CW -> exn -> Prop),
  Forall2 gives xs l -> (forall k x, nth_error xs k = Some x -> Y (length pre + k) x /\ H (length pre + k) (a_how x)) -> wfc w0 c0 -> hint_ok h c0 -> upto h w0 c0 R K w c pre -> hinv h c pre hint ->
  hsafe h c0 (pre ++ l) ->
  (forall w' c', upto h w0 c0 R K w' c' (pre ++ l) -> Q (c', w') tt) ->
  (forall w' c' e, stopped Y H h w0 c0 R K w' c' (pre ++ l) e -> X (c', w') e) ->
  wp (c_insert_hint_range hint xs) (c, w) Q X.
Proof.
  induction xs as [|x xs IH]; intros l pre hint w0 c0 c w R K Q X F Iy W0 Hok U Hi Sf HQ HX; inversion F as [|? [t v] ? l' Hx F' E1 E2]; subst.
  - cbn [c_insert_hint_range]. apply wp_ret. apply HQ. rewrite app_nil_r. auto.
  - cbn [c_insert_hint_range]. destruct Hx as (Et & Es & Ok). simpl in Et, Es. subst t. rewrite Es.
    destruct (nth_shift (fun k x => Y k x /\ H k (a_how x)) pre (env_ty (a_dyn x), v) x xs Iy) as (Iy1 & Iy2).
    assert (U' := U). destruct U' as (G & W & O & L & A).
    apply wp_bind. eapply (wp_map_iterator_for x c w R K); auto; [apply W| | |].
    + intros w1 c1 n M _.
      eapply (wp_hint_step H h pre l' hint (a_dyn x) (a_how x) v w0 c0 c w R K w1 c1 n (fun h' => c_insert_hint_range h' xs)); eauto; [apply Iy1| |].
      2:{ intros w' c' e S. apply HX. apply stopped_nil. exact S. }
      intros w' c' hint' U2 Hi2. eapply (IH l' (pre ++ [(env_ty (a_dyn x), v)]) hint' w0 c0 c' w' R K); auto.
      * rewrite <- app_assoc. auto.
      * intros w2 c2. rewrite <- app_assoc. apply HQ.
      * intros w2 c2 e. rewrite <- app_assoc. apply HX.
    + intros w' c' e M _. apply HX. exists pre, (env_ty (a_dyn x)), v, l', w, c. csplit; auto.
      left. exists (a_how x). split; [apply Iy1|]. eapply made_exn_failed; eauto.
    + intros w' cl Un Wm Ow Lw. apply HX. exists pre, (env_ty (a_dyn x)), v, l', w, c. csplit; auto.
      right. exists x. csplit; auto; [apply Iy1|]. apply unreg_cache; auto.
Qed.

(** *** insert(hint,first,last) with iterators of another collection [y] *)

Lemma wp_c_insert_hint_from hn y wy Ry Ky fuel : forall g h pre hint w0 c0 c w R K (Q : CW -> unit -> Prop) (X : CW -> exn -> Prop),
  wfc wy y -> cown wy y Ry Ky -> g <= h -> h <= length (flat y) -> h - g <= fuel ->
  wfc w0 c0 -> hint_ok hn c0 -> upto hn w0 c0 R K w c pre -> hinv hn c pre hint ->
  hsafe hn c0 (pre ++ slice g h (flat y)) ->
  (forall w' c', upto hn w0 c0 R K w' c' (pre ++ slice g h (flat y)) -> Q (c', w') tt) ->
  (forall w' c' e, stopped no_arg (one_way HCopy) hn w0 c0 R K w' c' (pre ++ slice g h (flat y)) e -> X (c', w') e) ->
  wp (c_insert_hint_from fuel hint y (at_ (c_nodes y) g) (at_ (c_nodes y) h)) (c, w) Q X.
Proof.
  induction fuel as [|fuel IH]; intros g h pre hint w0 c0 c w R K Q X Wy Oy Hgh Hh Hf W0 Hok U Hi Sf HQ HX;
    rewrite flat_length in Hh; assert (Vo := wfc_vok _ _ _ _ Wy Oy); cbn [c_insert_hint_from]; rewrite it_eq_at by (auto; lia).
  - assert (g = h) by lia. subst h. rewrite Nat.eqb_refl. apply wp_ret. apply HQ. rewrite slice_nil, app_nil_r. auto.
  - destruct (Nat.eqb_spec g h) as [<-|Ne].
    + apply wp_ret. apply HQ. rewrite slice_nil, app_nil_r. auto.
    + destruct (read_at _ _ _ _ g Wy Oy) as (a & v & N & D & T & Nx); [lia|].
      rewrite D, T, Nx. rewrite (slice_step g h _ (env_ty a, v)) in HQ, HX, Sf by (auto; lia).
      eapply (wp_lookup_proto (one_way HCopy) hn a v pre (slice (S g) h (flat y)) w0 c0 c w R K); auto.
      intros w1 c1 n M.
      eapply (wp_hint_step (one_way HCopy) hn pre (slice (S g) h (flat y)) hint a HCopy v w0 c0 c w R K w1 c1 n
               (fun h' => c_insert_hint_from fuel h' y (at_ (c_nodes y) (S g)) (at_ (c_nodes y) h))); eauto.
      intros w' c' hint' U2 Hi2. eapply (IH (S g) h (pre ++ [(env_ty a, v)]) hint' w0 c0 c' w' R K); auto; try lia.
      * rewrite flat_length. auto.
      * rewrite <- app_assoc. auto.
      * intros w2 c2. rewrite <- app_assoc. apply HQ.
      * intros w2 c2 e. rewrite <- app_assoc. apply HX.
Qed.

(** *** insert(hint,first,last) with local iterators *)

Lemma points_here w c t k hint n : wfm w c -> points c hint t k -> In n (c_nodes c) -> n_ty n = t ->
  pos_at (nb n) (PBase (it_pos hint)) k /\ k < nsz n /\ it_map hint = Some (n_id n).
Proof.
  intros W (m & Hin & Et & -> & Hk) Hin' Et'.
  assert (m = n).
  { assert (A : find (fun x => sg_ty (n_seg x) =? n_ty m) (c_nodes c) = Some m) by (apply find_ty_in; auto; apply W).
    assert (B : find (fun x => sg_ty (n_seg x) =? n_ty n) (c_nodes c) = Some n) by (apply find_ty_in; auto; apply W).
    unfold n_ty in A at 1. rewrite Et in A. rewrite Et' in B. congruence. }
  subst m. csplit; auto. left; auto.
Qed.

Lemma wp_insert_all_hint t k0 a i xs : forall pre hint n w0 c0 c w R K (Q : CW -> unit -> Prop) (X : CW -> exn -> Prop),
  let h := Some (t, k0) in
  wfc w0 c0 -> hint_ok h c0 -> env_ty a = t -> upto h w0 c0 R K w c pre -> hinv h c pre hint ->
  node_at (c_nodes c) i = Some n -> n_ty n = t ->
  (forall w' c', upto h w0 c0 R K w' c' (pre ++ map (pair t) xs) -> Q (c', w') tt) ->
  (forall w' c' e, stopped no_arg (one_way HCopy) h w0 c0 R K w' c' (pre ++ map (pair t) xs) e -> X (c', w') e) ->
  wp (insert_all_hint hint i t xs) (c, w) Q X.
Proof.
  induction xs as [|v xs IH]; intros pre hint n w0 c0 c w R K Q X h W0 Hok Ea U Hi Hat Et HQ HX; cbn [insert_all_hint].
  - apply wp_ret. apply HQ. simpl. rewrite app_nil_r. auto.
  - assert (U' := U). destruct U' as (G & W & O & L & A). rewrite <- Ea in Et.
    destruct (made_here _ _ _ _ a _ _ W O Hat Et) as (<- & Hin & M). rewrite Ea in Et.
    destruct (points_here _ _ _ _ _ n (wc_map _ _ W) Hi Hin Et) as (Pa & Hk & _).
    eapply (wp_ins_next (one_way HCopy) t k0 pre (map (pair t) xs) hint a HCopy v w0 c0 c w R K w c n (fun h' => insert_all_hint h' (n_id n) t xs)); eauto.
    intros w' c' hint' n' U2 Hi2 Hat2 Et2. eapply (IH (pre ++ [(t, v)]) hint' n' w0 c0 c' w' R K); eauto.
    + intros w2 c2. rewrite <- app_assoc. apply HQ.
    + intros w2 c2 e. rewrite <- app_assoc. apply HX.
Qed.

Lemma wp_c_insert_hint_local h hint a xs c w R K (Q : CW -> unit -> Prop) (X : CW -> exn -> Prop) :
  wfc w c -> cown w c R K -> hint_ok h c -> hinv h c [] hint -> hsafe h c (map (pair (env_ty a)) xs) ->
  (forall w' c', upto h w c R K w' c' (map (pair (env_ty a)) xs) -> Q (c', w') tt) ->
  (forall w' c' e, stopped no_arg (one_way HCopy) h w c R K w' c' (map (pair (env_ty a)) xs) e -> X (c', w') e) ->
  wp (c_insert_hint_local hint a (env_ty a) xs) (c, w) Q X.
Proof.
  intros W O Hok Hi Sf HQ HX. destruct xs as [|v xs]; cbn [c_insert_hint_local].
  - apply wp_ret. apply HQ. apply upto_refl; auto.
  - assert (U := upto_refl h w c R K W O). set (t := env_ty a) in *.
    eapply (wp_lookup_proto (one_way HCopy) h a v [] (map (pair t) xs) w c c w R K); auto.
    intros w1 c1 n M.
    destruct (hinv_located _ _ _ _ _ _ _ W O Hi) as (g & Lo).
    assert (Ha := hinv_at _ _ _ _ _ _ _ _ _ t U Hi). assert (Hs := hsafe_step _ _ _ _ _ _ _ _ _ _ _ _ U Hi Sf).
    assert (Mp := made_seg _ _ _ _ _ _ _ _ (wc_map _ _ W) M). fold t in Mp.
    assert (Sz := prev_size _ _ _ _ _ (wc_map _ _ W) Mp).
    apply wp_bind. eapply (wp_same_node w c hint g a R K w1 c1 n (slot h c t + length (of_type t (@nil (tyid * V))))); eauto.
    + intros Pa Hk. destruct h as [[t0 k0]|].
      * destruct (Nat.eq_dec t0 t) as [Eq|Ne].
        -- subst t0. simpl slot in Pa, Hk. rewrite Nat.eqb_refl in Pa, Hk. cbn [insert_all_hint].
           eapply (wp_ins_next (one_way HCopy) t k0 [] (map (pair t) xs) hint a HCopy v w c c w R K w1 c1 n (fun h' => insert_all_hint h' (n_id n) t xs)); eauto.
           intros w' c' hint' n' U2 Hi2 Hat2 Et2.
           eapply (wp_insert_all_hint t k0 a (n_id n) xs [(t, v)] hint' n' w c c' w' R K); eauto.
        -- exfalso. rewrite (upto_slot_app (Some (t0, k0)) w c R K w c [] t) in Hk; auto. lia.
      * exfalso. rewrite (upto_slot_app None w c R K w c [] t) in Hk; auto; try exact I; lia.
    + intros Ek. assert (Ap : appends h t).
      { destruct h as [[t0 k0]|]; [|exact I]. intros ->. fold t in Ek. simpl in Hi, Ek. rewrite Nat.eqb_refl in Ek.
        assert (B := points_elems _ _ _ _ _ (wc_map _ _ W) Hi). simpl in B. lia. }
      cbn [push_all].
      eapply (wp_push_made (one_way HCopy) h a v [] (map (pair t) xs) w c c w R K); eauto.
      intros w' c' n' U' Hat Et. eapply (wp_push_all h a (n_id n) n' xs [(t, v)] w c c' w' R K); eauto.
Qed.

End PRange.
