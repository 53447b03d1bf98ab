(** * Algorithms on local ranges *)

From Coq Require Import List Arith Lia Bool Permutation Sorted.
From Verif Require Import Base Vec Backend Segment Coll StdAlg Algo Access Local Spec SpecAlg SpecAcc SpecLocal ProofBase ProofVec ProofBackend ProofOps ProofOps2
  ProofSeg ProofMap ProofView ProofAlgo ProofColl ProofIns ProofErase Reach ProofReach ProofObs ProofProp ProofProp4 ProofAccess ProofOwn Properties21.
Import ListNotations.

Section PLocal.
Context {V : Type} {E : Env V} {S : Type}.
Implicit Types (c : coll V) (w : world).
Notation nb n := (sg_be (n_seg n)).
Notation nsz n := (bsize (sg_be (n_seg n))).

(** ** The iterators *)

Lemma seg_node_unique c n n' : NoDup (map n_ty (c_nodes c)) -> In n (c_nodes c) -> In n' (c_nodes c) -> n_ty n = n_ty n' -> n' = n.
Proof.
  intros ND. induction (c_nodes c) as [|m l IH]; [intros []|]. inversion ND; subst. intros [->|H] [->|H'] Q; auto.
  - exfalso. apply H1. rewrite Q. apply in_map. auto.
  - exfalso. apply H1. rewrite <- Q. apply in_map. auto.
Qed.

Lemma be_ptr_add (b : backend V) i k : (fst (be_ptr b i), snd (be_ptr b i) + k) = be_ptr b (i + k).
Proof. rewrite !be_ptr_eq. reflexivity. Qed.
Lemma li_add_spec w c g d l t i k : reach w (c :: g) d -> lpoints c l t i -> i + k <= length (elems c t) ->
  exists l', li_add c l k = Some l' /\ lpoints c l' t (i + k) /\ same_kind l l' /\ li_map l' = li_map l.
Proof.
  intros H P Hk. destruct (lpoints_unpack _ _ _ _ _ _ _ H P) as (n & Hin & Hat & Ei & Et & Ws & Ee & Hi & Hp).
  rewrite Ee, n_elems_length in Hk. unfold li_add, same_kind. rewrite Hat. change (be_size (nb n)) with (nsz n). destruct Hp as [->| ->].
  - rewrite be_ptr_add, be_ptr_eq. cbn [snd]. rewrite (proj2 (Nat.leb_le _ _)) by exact Hk. eexists. csplit; [reflexivity| |exact I|reflexivity].
    exists n. csplit; auto.
  - unfold vptr. cbn [fst snd]. rewrite (proj2 (Nat.leb_le _ _)) by exact Hk. eexists. csplit; [reflexivity| |exact I|reflexivity].
    exists n. csplit; auto.
Qed.
Lemma li_sub_spec w c g d l l' t i j : reach w (c :: g) d -> lpoints c l t i -> lpoints c l' t j -> i <= j -> same_kind l l' ->
  li_sub l' l = Some (j - i).
Proof.
  intros H P P' Hij Sk. destruct (lpoints_unpack _ _ _ _ _ _ _ H P) as (n & Hin & Hat & Ei & Et & Ws & Ee & Hi & Hp).
  destruct (lpoints_unpack _ _ _ _ _ _ _ H P') as (n' & Hin' & Hat' & Ei' & Et' & Ws' & Ee' & Hi' & Hp').
  assert (n' = n) as -> by (destruct (reach_wf _ _ _ _ H) as (W & _); pose proof (seg_node_unique c n n' (wm_tys _ _ (wc_map _ _ W)) Hin Hin' ltac:(congruence)); auto).
  unfold li_sub, same_kind in *. destruct Hp as [Q|Q], Hp' as [Q'|Q']; rewrite Q, Q' in *; try contradiction;
    rewrite ?be_ptr_eq; unfold vptr; cbn [fst snd]; rewrite Nat.eqb_refl, (proj2 (Nat.leb_le _ _) Hij); reflexivity.
Qed.
Lemma li_ref_spec w c g d l t k v : reach w (c :: g) d -> lpoints c l t k -> nth_error (elems c t) k = Some v ->
  exists q, li_ref c l = Some q /\ addr_of c t k = Some q /\ obj_at (c_nodes c) q = Some (t, v).
Proof.
  intros H P Hv. destruct (lpoints_unpack _ _ _ _ _ _ _ H P) as (n & Hin & Hat & Ei & Et & Ws & Ee & Hk & Hp).
  destruct (reach_wf _ _ _ _ H) as (W & _). exists (vptr (be_store (nb n)) k). csplit.
  - unfold li_ref. rewrite Hat. destruct Hp as [->| ->]; auto. apply (be_to_conc_ptr _ _ k (wfs_be _ Ws)). exact Hk.
  - unfold addr_of. rewrite <- Et, (seg_at_node c n (wm_tys _ _ (wc_map _ _ W)) Hin).
    rewrite (proj2 (Nat.ltb_lt _ _)); auto. change (elems_of (n_seg n)) with (n_elems n). rewrite <- Ee. apply nth_error_Some. congruence.
  - pose (r := mkref t v (vptr (be_store (nb n)) k)). change (Some (t, v)) with (Some (r_ty r, r_val r)).
    change (vptr (be_store (nb n)) k) with (r_addr r). apply obj_at_refs; [exact (reach_vok _ _ _ _ H)|].
    apply in_flat_map. exists n. split; auto. apply (nth_error_In _ k). rewrite nrefs_nth. rewrite Ee in Hv. rewrite Hv. cbn. unfold r. rewrite <- Et. reflexivity.
Qed.

(** ** Writing to one segment *)

Lemma skipn_skipn {A} n m (l : list A) : skipn n (skipn m l) = skipn (n + m) l.
Proof.
  revert l. induction m as [|m IH]; intros l; [rewrite Nat.add_0_r; reflexivity|]. destruct l as [|x l]; [rewrite !skipn_nil; reflexivity|].
  rewrite Nat.add_succ_r. cbn [skipn]. apply IH.
Qed.

Lemma content_elems_types c : NoDup (types c) -> content c = map (fun t => (t, elems c t)) (types c).
Proof.
  unfold elems, seg_of, types. induction (content c) as [|[t xs] l IH]; intros ND; auto. cbn [map fst] in *. inversion ND as [|? ? Ni ND']; subst.
  cbn [assoc fst]. rewrite Nat.eqb_refl. f_equal. rewrite (IH ND') at 1. apply map_ext_in. intros t' Ht.
  cbn [assoc]. destruct (Nat.eqb_spec t t') as [->|]; [contradiction|]. reflexivity.
Qed.
Lemma set_assoc_map (ts : list tyid) t xs (f f' : tyid -> list V) : NoDup ts -> (forall t', t' <> t -> f' t' = f t') -> f' t = xs ->
  map (fun t => (t, f' t)) ts = set_assoc t xs (map (fun t => (t, f t)) ts).
Proof.
  intros ND Hf <-. induction ts as [|a ts IH]; auto. inversion ND as [|? ? Ni ND']; subst. cbn [map set_assoc]. destruct (Nat.eqb_spec a t) as [->|Ne].
  - f_equal. apply map_ext_in. intros b Hb. f_equal. apply Hf. intros ->. contradiction.
  - rewrite Hf by auto. f_equal. apply IH. exact ND'.
Qed.

(** One step: the segment of type [t] gets new values. *)
Definition stepped c c' t : Prop := shape c c' /\ others_kept c c' t.
Lemma stepped_refl c t : stepped c c t.
Proof. split; [apply shape_refl|intros ? ?; reflexivity]. Qed.
Lemma stepped_trans c c' c'' t : stepped c c' t -> stepped c' c'' t -> stepped c c'' t.
Proof. intros [A B] [A' B']. split; [eapply shape_trans; eauto|]. intros t' Ne. rewrite B', B; auto. Qed.
Lemma stepped_rearranged w c g d c' t xs : reach w (c :: g) d -> stepped c c' t -> elems c' t = xs -> rearranged c c' t xs.
Proof.
  intros H [Sh Ot] Ee. destruct (shape_sizes c c' Sh) as (Sz & Sc & Sty & _). destruct (reach_wf _ _ _ _ H) as (W & _).
  assert (ND : NoDup (types c)) by apply (ProofProp4.types_nodup w c g d H).
  pose proof (shape_updated c c' 0 (map r_val (refs c')) Sh) as U.
  destruct U as [U1 U2 U3 U4 U5 U6 U7].
  { cbn [firstn app]. rewrite skipn_all2; [rewrite app_nil_r; reflexivity|].
    assert (Fl : forall x : coll V, length (map r_val (refs x)) = length (flat x)) by (intros x; rewrite <- refs_flat, !map_length; reflexivity).
    rewrite !Fl. cbn [Nat.add]. destruct (shape_sizes c c' Sh) as (_ & _ & _ & -> & _). lia. }
  split; auto.
  - rewrite (content_elems_types c ND), (content_elems_types c') by (rewrite Sty; exact ND). rewrite Sty. apply set_assoc_map; auto.
    intros t' Ne. rewrite !elems_seg_at, Ot; auto.
  - rewrite <- Ee. apply Sz.
Qed.

Lemma put_at_length k (v : V) l : k < length l -> length (put_at k v l) = length l.
Proof. exact (replaced_length k v l). Qed.
Lemma put_at_nth k (v : V) l m : k < length l -> nth_error (put_at k v l) m = if m =? k then Some v else nth_error l m.
Proof.
  intros Hk. unfold put_at. assert (Lf : length (firstn k l) = k) by (rewrite firstn_length; lia). destruct (Nat.eqb_spec m k) as [->|Ne].
  - rewrite nth_error_app2 by lia. rewrite Lf, Nat.sub_diag. reflexivity.
  - destruct (Nat.lt_ge_cases m k) as [L|L].
    + rewrite nth_error_app1 by lia. clear - L. revert l m L. induction k as [|k IH]; intros l m L; [lia|]. destruct l, m; cbn; auto. apply IH. lia.
    + rewrite nth_error_app2 by lia. rewrite Lf. destruct (m - k) as [|q] eqn:Q; [lia|]. cbn [nth_error].
      rewrite <- (firstn_skipn (Datatypes.S k) l) at 2. rewrite nth_error_app2; rewrite firstn_length; [|lia]. f_equal. lia.
Qed.
Lemma between_put i j k (v : V) l : i + k < j -> j <= length l -> between i j (put_at (i + k) v l) = put_at k v (between i j l).
Proof.
  intros Hk Hj. assert (Lb : length (between i j l) = j - i) by (apply between_length; auto). apply nth_error_ext. intros m.
  rewrite put_at_nth by lia. destruct (Nat.lt_ge_cases m (j - i)) as [L|L].
  - rewrite !between_nth by lia. rewrite put_at_nth by lia. destruct (Nat.eqb_spec m k) as [->|Ne]; [rewrite Nat.eqb_refl; auto|].
    rewrite (proj2 (Nat.eqb_neq (i + m) (i + k))) by lia. reflexivity.
  - rewrite (proj2 (Nat.eqb_neq m k)) by lia. rewrite !(proj2 (nth_error_None _ _)); auto; rewrite ?Lb; auto.
    rewrite between_length by (rewrite put_at_length; lia). lia.
Qed.
Lemma with_part_put i j k (v : V) l : i + k < j -> j <= length l -> put_at (i + k) v l = with_part l i j (put_at k v (between i j l)).
Proof.
  intros Hk Hj. rewrite <- between_put by auto. unfold with_part. set (l' := put_at (i + k) v l).
  assert (Ll : length l' = length l) by (apply put_at_length; lia).
  assert (Hf : firstn i l = firstn i l').
  { unfold l', put_at. rewrite firstn_app, firstn_firstn, firstn_length. replace (i - Nat.min (i + k) (length l)) with 0 by lia. cbn [firstn]. rewrite app_nil_r. f_equal. lia. }
  assert (Hs : skipn j l = skipn j l').
  { unfold l', put_at. rewrite skipn_app, firstn_length. rewrite (skipn_all2 (firstn _ _)) by (rewrite firstn_length; lia). cbn [app].
    destruct (j - Nat.min (i + k) (length l)) as [|q] eqn:Q; [lia|].
    change (skipn (Datatypes.S q) (v :: skipn (Datatypes.S (i + k)) l)) with (skipn q (skipn (Datatypes.S (i + k)) l)). rewrite skipn_skipn. f_equal. lia. }
  rewrite Hf, Hs. unfold between. rewrite <- (firstn_skipn i l') at 1. f_equal.
  rewrite <- (firstn_skipn (j - i) (skipn i l')) at 1. f_equal. rewrite skipn_skipn. f_equal. lia.
Qed.
Lemma with_part_twice (l l1 l2 : list V) i j : i <= j -> j <= length l -> length l1 = j - i -> with_part (with_part l i j l1) i j l2 = with_part l i j l2.
Proof.
  intros Hij Hj L1. unfold with_part. assert (Lf : length (firstn i l) = i) by (rewrite firstn_length; lia). f_equal.
  - rewrite firstn_app, firstn_all2, Lf, Nat.sub_diag by lia. cbn [firstn]. apply app_nil_r.
  - f_equal. rewrite skipn_app, Lf, (skipn_all2 (firstn _ _)) by lia. cbn [app]. rewrite skipn_app, L1, Nat.sub_diag, (skipn_all2 l1) by lia. reflexivity.
Qed.
Lemma between_part (l l1 : list V) i j : i <= j -> j <= length l -> length l1 = j - i -> between i j (with_part l i j l1) = l1.
Proof.
  intros Hij Hj L1. unfold with_part, between. assert (Lf : length (firstn i l) = i) by (rewrite firstn_length; lia).
  rewrite skipn_app, Lf, Nat.sub_diag, (skipn_all2 (firstn _ _)) by lia. cbn [skipn app]. rewrite firstn_app, L1, Nat.sub_diag, firstn_all2 by lia.
  cbn [firstn]. apply app_nil_r.
Qed.
Lemma with_part_self (l : list V) i j : i <= j -> with_part l i j (between i j l) = l.
Proof.
  intros Hij. unfold with_part, between. rewrite <- (firstn_skipn i l) at 4. f_equal.
  rewrite <- (firstn_skipn (j - i) (skipn i l)) at 2. f_equal. rewrite skipn_skipn. f_equal. lia.
Qed.
Lemma with_part_length (l l1 : list V) i j : i <= j -> j <= length l -> length l1 = j - i -> length (with_part l i j l1) = length l.
Proof. intros Hij Hj L1. unfold with_part. rewrite !app_length, firstn_length, skipn_length. lia. Qed.

(** Using one element through a local iterator. *)
Lemma use_local {A X} T t first i k (f : M (V * S) A) (next : A -> algo V S X) w c g d s v : reach w (c :: g) d -> lpoints c first t i ->
  nth_error (elems c t) (i + k) = Some v -> (T = None \/ T = Some t) ->
  exists q, (forall v', let c' := c_write q v' c in reach w (c' :: g) d /\ stepped c c' t /\ elems c' t = put_at (i + k) v' (elems c t)) /\
    run_local T first (Use k f next) (c, s) =
      match f (v, s) with
      | Ok (v', s') a => run_local T first (next a) (c_write q v' c, s')
      | Exn (v', s') e => Exn (c_write q v' c, s') e
      | UB => UB
      end.
Proof.
  intros H P Hv HT. assert (Hk : i + k < length (elems c t)) by (apply nth_error_Some; congruence).
  destruct (li_add_spec w c g d first t i k H P) as (l & Ql & Pl & _); [lia|].
  destruct (li_ref_spec w c g d l t (i + k) v H Pl Hv) as (q & Qr & Qa & Qo). exists q. split.
  - intros v' c'. destruct (write_at w c g d t (i + k) q v v' H Qa Hv) as (R & Sh & Ee & Ot). csplit; auto. split; auto.
  - cbn [run_local fst]. rewrite Ql, Qr. unfold bind, on_obj. rewrite Qo.
    assert (match T with Some T' => t =? T' | None => true end = true) as -> by (destruct HT as [->| ->]; [auto|apply Nat.eqb_refl]).
    destruct (f (v, s)) as [[v' s'] a|[v' s'] e|]; reflexivity.
Qed.

Lemma run_local_array {X} T t first i j (p : algo V S X) : forall w c g d s, reach w (c :: g) d -> lpoints c first t i -> i <= j -> j <= length (elems c t) ->
  (T = None \/ T = Some t) ->
  let did c' l' := reach w (c' :: g) d /\ stepped c c' t /\ length l' = j - i /\ elems c' t = with_part (elems c t) i j l' in
  match run_array p (between i j (elems c t), s) with
  | Ok (l', s') x => exists c', run_local T first p (c, s) = Ok (c', s') x /\ did c' l'
  | Exn (l', s') e => exists c', run_local T first p (c, s) = Exn (c', s') e /\ did c' l'
  | UB => True
  end.
Proof.
  induction p as [x|A k f next IH]; intros w c g d s H P Hij Hj HT did.
  - cbn. exists c. csplit; auto. unfold did. csplit; auto.
    + apply stepped_refl.
    + apply between_length; auto.
    + rewrite with_part_self; auto.
  - cbn [run_array fst snd]. destruct (nth_error (between i j (elems c t)) k) as [v|] eqn:Qv; auto.
    assert (Hk : k < j - i) by (rewrite <- (between_length i j (elems c t)) by auto; apply nth_error_Some; congruence).
    rewrite between_nth in Qv by lia.
    destruct (use_local T t first i k f next w c g d s v H P Qv HT) as (q & Hw & ->).
    destruct (f (v, s)) as [[v' s'] a|[v' s'] e|]; auto.
    + destruct (Hw v') as (R' & St & Ee). set (c1 := c_write q v' c) in *.
      assert (P1 : lpoints c1 first t i) by (apply (shape_lpoints c c1 first t i (proj1 St) P)).
      assert (L1 : length (elems c1 t) = length (elems c t)) by (rewrite Ee; apply put_at_length; lia).
      specialize (IH a w c1 g d s' R' P1 Hij ltac:(lia) HT). cbn zeta in IH.
      assert (Eb : between i j (elems c1 t) = put_at k v' (between i j (elems c t))) by (rewrite Ee; apply between_put; lia). rewrite Eb in IH.
      assert (Lp : length (put_at k v' (between i j (elems c t))) = j - i) by (rewrite put_at_length; rewrite between_length; lia).
      assert (Q1 : elems c1 t = with_part (elems c t) i j (put_at k v' (between i j (elems c t)))) by (rewrite Ee; apply with_part_put; lia).
      destruct (run_array (next a) _) as [[l' s2] x|[l' s2] e|]; auto; destruct IH as (c' & Qr & R2 & St2 & Ll & Qe); exists c'; split; auto; unfold did;
        (csplit; auto; [eapply stepped_trans; eauto|rewrite Qe, Q1; apply with_part_twice; auto]).
    + destruct (Hw v') as (R' & St & Ee). exists (c_write q v' c). split; auto. unfold did. csplit; auto.
      * rewrite put_at_length; rewrite between_length; lia.
      * rewrite Ee. apply with_part_put; lia.
Qed.

(** ** Algorithms on arrays *)

Lemma run_array_bind {X Y} (p : algo V S X) (q : X -> algo V S Y) ls : run_array (algo_bind p q) ls = bind (run_array p) (fun x => run_array (q x)) ls.
Proof.
  revert ls. induction p as [x|A k f next IH]; intros ls; [reflexivity|]. cbn [algo_bind run_array]. unfold bind at 1. cbn [run_array].
  destruct (nth_error (fst ls) k) as [v|]; auto. destruct (f (v, snd ls)) as [[v' s'] a|[v' s'] e|]; auto. apply (IH a).
Qed.
Lemma mid_nth {A} (a : list A) x b : nth_error (a ++ x :: b) (length a) = Some x.
Proof. rewrite nth_error_app2, Nat.sub_diag by lia. reflexivity. Qed.
Lemma mid_put (a : list V) x b v : put_at (length a) v (a ++ x :: b) = a ++ v :: b.
Proof.
  unfold put_at. rewrite firstn_app, Nat.sub_diag, firstn_all. cbn [firstn]. rewrite app_nil_r. f_equal. f_equal.
  replace (Datatypes.S (length a)) with (length (a ++ [x])) by (rewrite app_length; cbn; lia).
  change (x :: b) with ([x] ++ b). rewrite app_assoc, skipn_app, skipn_all, Nat.sub_diag. reflexivity.
Qed.
Notation LS := (list V * S)%type.
Lemma wp_use {A X} k (f : M (V * S) A) (next : A -> algo V S X) a v b s (Q : LS -> X -> Prop) (Xc : LS -> exn -> Prop) : k = length a ->
  match f (v, s) with
  | Ok (v', s') r => wp (run_array (next r)) (a ++ v' :: b, s') Q Xc
  | Exn (v', s') e => Xc (a ++ v' :: b, s') e
  | UB => False
  end -> wp (run_array (Use k f next)) (a ++ v :: b, s) Q Xc.
Proof.
  intros ->. unfold wp. cbn [run_array fst snd]. rewrite mid_nth. destruct (f (v, s)) as [[v' s'] r|[v' s'] e|]; auto; rewrite mid_put; auto.
Qed.

Section Algs.
Context (take : M (V * S) V) (put : V -> M (V * S) unit) (Htake : moves_out take) (Hput : moves_in put).

Lemma wp_put {X} k x (next : unit -> algo V S X) a v b s (Q : LS -> X -> Prop) (Xc : LS -> exn -> Prop) : k = length a ->
  (forall s', wp (run_array (next tt)) (a ++ x :: b, s') Q Xc) -> (forall v' s' e, Xc (a ++ v' :: b, s') e) ->
  wp (run_array (Use k (put x) next)) (a ++ v :: b, s) Q Xc.
Proof.
  intros Hk HQ HX. apply wp_use; auto. specialize (Hput x v s). destruct (put x (v, s)) as [[v' s'] []|[v' s'] e|]; subst; auto.
Qed.
Lemma wp_take {X} k (next : V -> algo V S X) a v b s (Q : LS -> X -> Prop) (Xc : LS -> exn -> Prop) : k = length a ->
  (forall v' s', wp (run_array (next v)) (a ++ v' :: b, s') Q Xc) -> (forall v' s' e, Xc (a ++ v' :: b, s') e) ->
  wp (run_array (Use k take next)) (a ++ v :: b, s) Q Xc.
Proof.
  intros Hk HQ HX. apply wp_use; auto. specialize (Htake v s). destruct (take (v, s)) as [[v' s'] r|[v' s'] e|]; subst; auto.
Qed.

Section Sort.
Context (lt : V -> V -> bool) (less : V -> V -> M S bool) (Hless : compares lt less) (Hlt : swo lt).

Lemma wp_sift x : forall i a h b s, length a = i ->
  wp (run_array (sift take put less i x)) (a ++ h :: b, s)
    (fun '(l', _) _ => exists a1 a2, a = a1 ++ a2 /\ l' = a1 ++ x :: a2 ++ b /\ Forall (fun y => lt x y = true) a2 /\
       (a1 = [] \/ exists a0 y, a1 = a0 ++ [y] /\ lt x y = false))
    (fun '(l', _) _ => length l' = length (a ++ h :: b)).
Proof.
  induction i as [|j IH]; intros a h b s La; cbn [sift].
  - destruct a; [|discriminate]. apply wp_put; auto. intros s'. exists [], []. csplit; auto.
  - destruct (exists_last (l := a)) as (a0 & y & ->); [intros ->; discriminate|]. rewrite app_length in La. cbn [length] in La.
    rewrite <- app_assoc. cbn [app]. apply wp_use; [lia|]. unfold seeing. cbn [fst snd]. specialize (Hless x y s).
    destruct (less x y s) as [s1 r|s1 e|]; [|rewrite ?app_length; reflexivity|destruct Hless]. subst r. destruct (lt x y) eqn:Exy.
    + apply wp_take; [lia| |intros; rewrite !app_length; reflexivity]. intros v' s2.
      change (a0 ++ v' :: h :: b) with (a0 ++ [v'] ++ h :: b). rewrite app_assoc. apply wp_put; [rewrite app_length; cbn; lia| |].
      * intros s3. rewrite <- app_assoc. cbn [app]. eapply wp_mono; [apply IH; lia| |].
        -- intros [l' s4] _ (a1 & a2 & -> & -> & Fa & Hl). exists a1, (a2 ++ [y]). csplit.
           ++ rewrite app_assoc. reflexivity.
           ++ rewrite <- app_assoc. reflexivity.
           ++ apply Forall_app. auto.
           ++ exact Hl.
        -- intros [l' s4] e ->. rewrite !app_length. reflexivity.
      * intros. rewrite !app_length. cbn [length]. lia.
    + change (a0 ++ y :: h :: b) with (a0 ++ [y] ++ h :: b). rewrite app_assoc. apply wp_put; [rewrite app_length; cbn; lia| |].
      * intros s3. cbn [run_array]. apply wp_ret. exists (a0 ++ [y]), []. csplit; auto.
        -- rewrite app_nil_r. reflexivity.
        -- right. exists a0, y. auto.
      * intros. rewrite !app_length. cbn [length]. lia.
Qed.

Definition in_order (l : list V) : Prop := StronglySorted (fun x y => lt y x = false) l.
Lemma sorted_app (a b : list V) : in_order (a ++ b) <-> in_order a /\ in_order b /\ forall x y, In x a -> In y b -> lt y x = false.
Proof.
  unfold in_order. induction a as [|z a IH]; cbn [app]; split.
  - intros H. csplit; auto; [constructor|intros ? ? []].
  - tauto.
  - intros H. inversion H as [|? ? H1 H2]; subst. apply IH in H1. destruct H1 as (A & B & C). rewrite Forall_app in H2. destruct H2 as [F1 F2].
    csplit; auto. { constructor; auto. } intros x y [<-|Hx] Hy; [rewrite Forall_forall in F2; auto|auto].
  - intros (A & B & C). inversion A as [|? ? H1 H2]; subst. constructor.
    + apply IH. csplit; auto. intros x y Hx Hy. apply C; auto. right; auto.
    + apply Forall_app. split; auto. rewrite Forall_forall. intros y Hy. apply C; auto. left; auto.
Qed.
Lemma insert_sorted x a1 a2 : in_order (a1 ++ a2) -> Forall (fun y => lt x y = true) a2 -> (a1 = [] \/ exists a0 y, a1 = a0 ++ [y] /\ lt x y = false) ->
  in_order (a1 ++ x :: a2).
Proof.
  intros So Fa Hl. apply sorted_app in So. destruct So as (S1 & S2 & S3). apply sorted_app. rewrite Forall_forall in Fa.
  assert (As : forall y, lt x y = true -> lt y x = false).
  { intros y Hy. destruct (lt y x) eqn:Q; auto. rewrite <- (swo_irrefl _ Hlt x). symmetry. apply (swo_trans _ Hlt x y x); auto. }
  assert (A1 : forall p, In p a1 -> lt x p = false).
  { destruct Hl as [->|(a0 & y & -> & Hy)]; [intros ? []|]. intros p Hp. apply in_app_or in Hp. destruct Hp as [Hp|[<-|[]]]; auto.
    apply sorted_app in S1. destruct S1 as (_ & _ & S1). eapply (swo_incomp _ Hlt); [exact Hy|]. apply S1; auto. left; auto. }
  csplit; auto.
  - constructor; auto. rewrite Forall_forall. intros y Hy. apply As; auto.
  - intros p q Hp [<-|Hq]; auto.
Qed.

Lemma wp_sort_from : forall m i pre b s, length pre = i -> length b = m -> in_order pre ->
  wp (run_array (sort_from take put less m i)) (pre ++ b, s)
    (fun '(l', _) _ => Permutation (pre ++ b) l' /\ in_order l')
    (fun '(l', _) _ => length l' = length (pre ++ b)).
Proof.
  induction m as [|m IH]; intros i pre b s Lp Lb So; cbn [sort_from].
  - destruct b; [|discriminate]. cbn [run_array]. apply wp_ret. rewrite app_nil_r. split; auto.
  - destruct b as [|x b]; [discriminate|]. apply wp_take; auto; [|intros; rewrite !app_length; reflexivity]. intros v' s'.
    unfold wp. rewrite run_array_bind. change (wp (bind (run_array (sift take put less i x)) (fun _ => run_array (sort_from take put less m (Datatypes.S i)))) (pre ++ v' :: b, s')
      (fun '(l', _) _ => Permutation (pre ++ x :: b) l' /\ in_order l') (fun '(l', _) _ => length l' = length (pre ++ x :: b))).
    apply wp_bind. eapply wp_mono; [apply (wp_sift x i pre v' b s' Lp)| |].
    + intros [l' s2] _ (a1 & a2 & -> & -> & Fa & Hl). replace (a1 ++ x :: a2 ++ b) with ((a1 ++ x :: a2) ++ b) by (rewrite <- app_assoc; reflexivity).
      assert (Pm : Permutation ((a1 ++ a2) ++ x :: b) ((a1 ++ x :: a2) ++ b)).
      { rewrite <- !app_assoc. cbn [app]. apply Permutation_app_head. symmetry. apply Permutation_middle. }
      eapply wp_mono; [apply IH| |].
      * rewrite app_length in *. cbn [length]. lia.
      * cbn in Lb. lia.
      * apply insert_sorted; auto.
      * intros [l2 s3] _ (Pm2 & So2). split; auto. etransitivity; eauto.
      * intros [l2 s3] e ->. apply Permutation_length in Pm. symmetry. exact Pm.
    + intros [l' s2] e ->. rewrite !app_length. reflexivity.
Qed.
Lemma wp_std_sort l s : wp (run_array (std_sort take put less (length l))) (l, s)
    (fun '(l', _) _ => Permutation l l' /\ in_order l') (fun '(l', _) _ => length l' = length l).
Proof.
  destruct l as [|x l]; cbn [length std_sort].
  - cbn [run_array]. apply wp_ret. split; auto. constructor.
  - apply (wp_sort_from (length l) 1 [x] l s); auto. constructor; constructor.
Qed.
End Sort.

Section Remove.
Context (p : V -> bool) (ask : M (V * S) bool) (Hask : asks p ask).
Notation keep l := (filter (fun x => negb (p x)) l).

Lemma wp_compact : forall m r h junk b s, length b = m ->
  wp (run_array (compact take put ask m (length r) (length (r ++ h :: junk)))) (r ++ h :: junk ++ b, s)
    (fun '(l', _) n => length l' = length (r ++ h :: junk ++ b) /\ firstn n l' = r ++ keep b /\ n <= length l')
    (fun '(l', _) _ => length l' = length (r ++ h :: junk ++ b)).
Proof.
  induction m as [|m IH]; intros r h junk b s Lb; cbn [compact].
  - destruct b; [|discriminate]. cbn [run_array]. apply wp_ret. rewrite !app_nil_r. cbn [filter]. csplit; auto.
    + rewrite firstn_app, firstn_all, Nat.sub_diag. cbn [firstn]. rewrite ?app_nil_r. reflexivity.
    + rewrite app_length. lia.
  - destruct b as [|y b]; [discriminate|]. cbn in Lb. replace (r ++ h :: junk ++ y :: b) with ((r ++ h :: junk) ++ y :: b) by (rewrite <- app_assoc; reflexivity).
    apply wp_use; auto. pose proof (Hask y s) as Ha. destruct (ask (y, s)) as [[v1 s1] q|[v1 s1] e|]; [|rewrite ?app_length; reflexivity|destruct Ha].
    destruct Ha as (-> & ->). cbn [filter]. destruct (p y) eqn:Py; cbn [negb].
    + replace (Datatypes.S (length (r ++ h :: junk))) with (length (r ++ h :: junk ++ [y])) by (rewrite !app_length; cbn [length]; rewrite app_length; cbn; lia).
      replace ((r ++ h :: junk) ++ y :: b) with (r ++ h :: (junk ++ [y]) ++ b) by (rewrite <- !app_assoc; reflexivity).
      apply IH. lia.
    + apply wp_take; auto; [|intros; rewrite !app_length; reflexivity]. intros v' s2.
      replace ((r ++ h :: junk) ++ v' :: b) with (r ++ h :: junk ++ v' :: b) by (rewrite <- app_assoc; reflexivity).
      apply wp_put; auto; [|intros; rewrite !app_length; cbn [length]; rewrite !app_length; cbn [length]; lia]. intros s3.
      assert (Ex : exists h' junk', r ++ y :: junk ++ v' :: b = (r ++ [y]) ++ h' :: junk' ++ b /\ length junk' = length junk).
      { destruct junk as [|h' junk]; cbn [app].
        - exists v', []. rewrite <- app_assoc. auto.
        - exists h', (junk ++ [v']). rewrite <- !app_assoc. cbn [app]. rewrite app_length. cbn. split; auto. lia. }
      destruct Ex as (h' & junk' & -> & Lj).
      replace (Datatypes.S (length r)) with (length (r ++ [y])) by (rewrite app_length; cbn; lia).
      replace (Datatypes.S (length (r ++ h :: junk))) with (length ((r ++ [y]) ++ h' :: junk')) by (rewrite !app_length; cbn [length]; lia).
      eapply wp_mono; [apply IH; lia| |].
      * intros [l' s4] n (Ll & Hf & Hn). csplit; auto.
        -- rewrite Ll, !app_length. cbn [length]. rewrite !app_length. lia.
        -- rewrite Hf, <- app_assoc. reflexivity.
      * intros [l' s4] e ->. rewrite !app_length. cbn [length]. rewrite !app_length. lia.
Qed.
Lemma wp_remove_from : forall m r b s, length b = m ->
  wp (run_array (remove_from take put ask m (length r))) (r ++ b, s)
    (fun '(l', _) n => length l' = length (r ++ b) /\ firstn n l' = r ++ keep b /\ n <= length l')
    (fun '(l', _) _ => length l' = length (r ++ b)).
Proof.
  induction m as [|m IH]; intros r b s Lb; cbn [remove_from].
  - destruct b; [|discriminate]. cbn [run_array]. apply wp_ret. rewrite !app_nil_r. cbn [filter]. csplit; auto. rewrite firstn_all, ?app_nil_r. reflexivity.
  - destruct b as [|y b]; [discriminate|]. cbn in Lb. apply wp_use; auto. pose proof (Hask y s) as Ha.
    destruct (ask (y, s)) as [[v1 s1] q|[v1 s1] e|]; [|rewrite ?app_length; reflexivity|destruct Ha]. destruct Ha as (-> & ->). cbn [filter].
    destruct (p y) eqn:Py; cbn [negb].
    + replace (Datatypes.S (length r)) with (length (r ++ y :: [])) by (rewrite app_length; cbn; lia). apply (wp_compact m r y [] b s1). lia.
    + replace (Datatypes.S (length r)) with (length (r ++ [y])) by (rewrite app_length; cbn; lia).
      replace (r ++ y :: b) with ((r ++ [y]) ++ b) by (rewrite <- app_assoc; reflexivity). eapply wp_mono; [apply IH; lia| |auto].
      intros [l' s2] n (Ll & Hf & Hn). csplit; auto. rewrite Hf, <- app_assoc. reflexivity.
Qed.
Lemma wp_std_remove_if l s : wp (run_array (std_remove_if take put ask (length l))) (l, s)
    (fun '(l', _) n => length l' = length l /\ firstn n l' = keep l /\ n = length (keep l))
    (fun '(l', _) _ => length l' = length l).
Proof.
  eapply wp_mono; [apply (wp_remove_from (length l) [] l s); auto| |auto]. intros [l' s'] n (Ll & Hf & Hn). cbn [app] in *. csplit; auto.
  rewrite <- Hf, firstn_length. lia.
Qed.
End Remove.
End Algs.

(** ** Erasing up to the end of a segment *)

Lemma erase_local_range_where w c g d first last t f l : reach w (c :: g) d -> lpoints c first t f -> lpoints c last t l -> f <= l ->
  wp (c_erase_local_range first last) (c, w) (fun _ _ => True) (fun _ _ => l < length (elems c t)).
Proof.
  intros H Hp Hq Hfl. destruct (reach_wf _ _ _ _ H) as (W & O).
  destruct (lpoints_split _ _ _ _ _ W Hp) as (l1 & n & l2 & En & Et & Hf & Em & Pa & Eo).
  destruct (lpoints_node _ _ _ _ Hq (wm_ids _ _ (wc_map _ _ W))) as (m & Hinm & Hatm & Enm & Etm & Pam & Hl).
  assert (Hin : In n (c_nodes c)) by (rewrite En; apply in_or_app; right; left; auto).
  assert (m = n) as -> by (apply (seg_node_unique c n m); auto; [apply W|congruence]).
  unfold c_erase_local_range. rewrite Em, <- Enm, Nat.eqb_refl. apply wp_bind.
  eapply (wp_er _ false f l l1 n l2 c w _ _); auto.
  - apply op_erase_range; auto.
  - exact O.
  - intros w' c' s' D. apply wp_ret. auto.
  - intros w' c' s' e (_ & (F & _) & _). rewrite <- Et, (elems_node _ _ _ (wc_map _ _ W) Hin), n_elems_length. apply F.
Qed.
Lemma erase_local_where w c g d pos t k : reach w (c :: g) d -> lpoints c pos t k -> k < length (elems c t) ->
  wp (c_erase_local pos) (c, w) (fun _ _ => True) (fun _ _ => Datatypes.S k < length (elems c t)).
Proof.
  intros H Hp Hk. destruct (reach_wf _ _ _ _ H) as (W & O).
  destruct (lpoints_split _ _ _ _ _ W Hp) as (l1 & n & l2 & En & Et & Hf & Em & Pa & Eo).
  assert (Hin : In n (c_nodes c)) by (rewrite En; apply in_or_app; right; left; auto).
  rewrite <- Et, (elems_node _ _ _ (wc_map _ _ W) Hin) in *.
  unfold c_erase_local. rewrite Em. apply wp_bind.
  eapply (wp_er _ true k (Datatypes.S k) l1 n l2 c w _ _); auto.
  - apply op_erase; auto.
  - exact O.
  - intros w' c' s' D. apply wp_ret. auto.
  - intros w' c' s' e (_ & (F & _) & _). rewrite n_elems_length. apply F.
Qed.
Lemma erase_where w c g d pos t k : reach w (c :: g) d -> points c pos t k ->
  wp (c_erase pos) (c, w) (fun _ _ => True) (fun _ _ => Datatypes.S k < length (elems c t)).
Proof.
  intros H Hp. destruct (reach_wf _ _ _ _ H) as (W & O).
  destruct (points_split _ _ _ _ _ _ _ W O Hp) as (l1 & n & l2 & En & Et & Hk & -> & Eo).
  assert (Hin : In n (c_nodes c)) by (rewrite En; apply in_or_app; right; left; auto).
  unfold c_erase. cbn [it_map it_pos]. apply wp_bind.
  eapply (wp_er _ true k (Datatypes.S k) l1 n l2 c w _ _); auto.
  - apply op_erase; auto. left; auto.
  - exact O.
  - intros w' c' s' D. assert (Er := er_did_erased _ _ _ _ _ _ _ _ _ _ _ _ W En (Nat.le_succ_diag_r k) Hk D).
    destruct D as (-> & Nr & W' & H' & L). set (n' := mknode (n_id n) (n_key n) s') in *.
    change (n_id n) with (n_id n'). change s' with (n_seg n').
    eapply (wp_mk_iter_at _ _ _ _ l1 n' l2); eauto.
    assert (A := er_node_size _ _ _ _ Nr). lia.
  - intros w' c' s' e (_ & (F & _) & _). rewrite <- Et, (elems_node _ _ _ (wc_map _ _ W) Hin), n_elems_length. apply F.
Qed.

End PLocal.
