(** * Moving an element of the collection into the collection (C35)

    See the head of Properties1.v for the form of the statements. *)

From Coq Require Import List Arith Lia Bool Permutation.
From Verif Require Import Base Vec Backend Segment Coll Spec SpecAcc Access Reach ProofBase ProofVec ProofBackend ProofOps ProofSeg ProofMap ProofView ProofColl
  ProofReach ProofObs ProofProp ProofProp4 ProofHist ProofAccess ProofOwn Demo Properties5.
Import ListNotations.

(** ** C35 Moving an element of the collection itself *)

(** The same argument, its object being outside the collection. *)
Definition by_value {V} (x : arg V) (v : V) : arg V := mkarg (a_static x) (a_dyn x) (a_acceptable x) (a_terminal x) (a_how x) (SVal v).
(** The list with its [j]-th element replaced. *)
Definition replaced {V} (j : nat) (m : V) (l : list V) : list V := firstn j l ++ m :: skipn (S j) l.

Section Moved.
Context {V : Type} {E : Env V}.
Implicit Types (c : coll V) (w : world).

Lemma replaced_length j (m : V) l : j < length l -> length (replaced j m l) = length l.
Proof. intros H. unfold replaced. rewrite app_length, firstn_length. cbn [length]. rewrite skipn_length. lia. Qed.


Lemma bind_exn {S A B} (m : M S A) (f : A -> M S B) s s' e : m s = Exn s' e -> bind m f s = Exn s' e.
Proof. intros H. unfold bind. rewrite H. reflexivity. Qed.
Lemma node_at_upd_some ns i (s : segment V) k : match node_at (node_upd ns i s) k, node_at ns k with Some _, Some _ | None, None => True | _, _ => False end.
Proof.
  induction ns as [|n ns IH]; [exact I|]. cbn [node_upd]. destruct (n_id n =? i) eqn:Q; cbn [node_at find n_id].
  - destruct (n_id n =? k); auto. change (match node_at ns k, node_at ns k with Some _, Some _ | None, None => True | _, _ => False end). destruct (node_at ns k); exact I.
  - destruct (n_id n =? k); auto.
Qed.
Lemma shape_sym c c' : shape c c' -> shape c' c.
Proof.
  intros [F A]. split; auto. clear A. induction F as [|n n' l l' (A1 & A2 & A3 & A4 & A5 & A6 & A7 & A8 & A9 & A10) F IH]; constructor; auto.
  unfold alike. csplit; congruence.
Qed.
Lemma shape_points c c' it t k : shape c c' -> points c it t k -> points c' it t k.
Proof.
  intros Sh (n & Hn & Et & -> & Hk). destruct (shape_in c c' n Sh Hn) as (n' & Hn' & A). exists n'. rewrite (alike_ptr n n' k A).
  destruct A as (A1 & A2 & A3 & A4 & A5 & A6 & A7 & A8 & A9 & A10). csplit; auto; try congruence.
  change (k < bsize (sg_be (n_seg n'))). rewrite A10. exact Hk.
Qed.
Lemma shape_lpoints c c' l t k : shape c c' -> lpoints c l t k -> lpoints c' l t k.
Proof.
  intros Sh (n & Hn & Et & Ei & Ep & Hk). destruct (shape_in c c' n Sh Hn) as (n' & Hn' & A). exists n'. rewrite (alike_ptr n n' k A).
  destruct A as (A1 & A2 & A3 & A4 & A5 & A6 & A7 & A8 & A9 & A10). csplit; auto; try congruence.
  - unfold vptr in *. rewrite A5. exact Ep.
  - change (k <= bsize (sg_be (n_seg n'))). rewrite A10. exact Hk.
Qed.
Lemma shape_sizes c c' : shape c c' -> (forall t, length (elems c' t) = length (elems c t)) /\ (forall t, cap_of c' t = cap_of c t) /\
  types c' = types c /\ length (flat c') = length (flat c) /\ (forall t, offset (content c') t = offset (content c) t).
Proof.
  intros Sh. csplit.
  - intros t. rewrite !elems_seg_at. assert (Q := shape_seg c c' t Sh). destruct (seg_at c t), (seg_at c' t); try tauto.
  - intros t. unfold cap_of. assert (Q := shape_seg c c' t Sh). destruct (seg_at c t), (seg_at c' t); try tauto.
  - rewrite !types_nodes. destruct Sh as [F _]. induction F as [|n n' l l' A F IH]; cbn [map]; auto. f_equal; auto. apply A.
  - unfold flat. rewrite !content_nodes. destruct Sh as [F _]. induction F as [|n n' l l' A F IH]; cbn [map flat_map]; auto.
    rewrite !app_length, !map_length, IH. f_equal. apply A.
  - intros t. rewrite !content_nodes. destruct Sh as [F _]. induction F as [|n n' l l' A F IH]; auto. cbn [map offset].
    destruct A as (_ & _ & Et & _ & _ & _ & _ & _ & _ & Es). unfold n_ty. rewrite Et. destruct (sg_ty (n_seg n) =? t); auto.
Qed.
Lemma shape_end c c' : shape c c' -> c_end c' = c_end c.
Proof. intros _. reflexivity. Qed.
Lemma shape_located c c' it i : shape c c' -> located c it i -> located c' it i.
Proof.
  intros Sh [(-> & ->)|(t & k & P & ->)]; destruct (shape_sizes c c' Sh) as (_ & _ & _ & F & O).
  - left. split; auto.
  - right. exists t, k. rewrite O. split; auto. eapply shape_points; eauto.
Qed.
Lemma shape_hint_at c c' hint t k : shape c c' -> hint_at c hint t k -> hint_at c' hint t k.
Proof.
  intros Sh [P|(N & ->)]; [left; eapply shape_points; eauto|right]. split; [|symmetry; apply (shape_sizes c c' Sh)].
  intros j P. apply (N j). eapply shape_points; [apply shape_sym; exact Sh|exact P].
Qed.
Lemma shape_hint_safe c c' hint t : shape c c' -> hint_safe c hint t -> hint_safe c' hint t.
Proof. intros Sh [->|[H|H]]; [left; auto|right; left|right; right; auto]. destruct (shape_sizes c c' Sh) as (_ & _ & -> & _). auto. Qed.
Lemma shape_safe_at c c' t k : shape c c' -> safe_at c t k -> safe_at c' t k.
Proof. intros Sh. destruct (shape_sizes c c' Sh) as (L & C & _). unfold safe_at. rewrite L, C. auto. Qed.

(** What writing to one element does. *)
Lemma setn_seg_at c n s t : NoDup (map n_id (c_nodes c)) -> NoDup (map n_ty (c_nodes c)) -> In n (c_nodes c) -> sg_ty s = n_ty n ->
  seg_at (setn c (n_id n) s) t = if t =? n_ty n then Some s else seg_at c t.
Proof.
  intros Id ND Hn Hs. unfold seg_at, setn. cbn [c_nodes]. revert Id ND Hn. induction (c_nodes c) as [|n' ns IH]; intros Id ND Hn; [destruct Hn|].
  inversion Id as [|? ? Ni Id']; inversion ND as [|? ? Nt ND']; subst. cbn [node_upd]. destruct Hn as [->|Hn].
  - rewrite Nat.eqb_refl. cbn [find n_seg n_key]. rewrite Hs. change (sg_ty (n_seg n)) with (n_ty n). destruct (Nat.eqb_spec (n_ty n) t) as [<-|Ne].
    + rewrite Nat.eqb_refl. reflexivity.
    + rewrite (proj2 (Nat.eqb_neq t _)) by auto. reflexivity.
  - assert (Ne : n_id n' <> n_id n) by (intros Q; apply Ni; rewrite Q; apply in_map; auto). rewrite (proj2 (Nat.eqb_neq _ _) Ne). cbn [find].
    change (sg_ty (n_seg n')) with (n_ty n'). destruct (Nat.eqb_spec (n_ty n') t) as [<-|Nq]; [|apply IH; auto].
    rewrite (proj2 (Nat.eqb_neq (n_ty n') _)); auto. intros Q. apply Nt. rewrite Q. apply in_map. auto.
Qed.
Lemma write_at w c g d t j p v m : reach w (c :: g) d -> addr_of c t j = Some p -> nth_error (elems c t) j = Some v ->
  let c0 := c_write p m c in
  reach w (c0 :: g) d /\ shape c c0 /\ elems c0 t = replaced j m (elems c t) /\ (forall t', t' <> t -> seg_at c0 t' = seg_at c t').
Proof.
  intros H Ha Hv c0. destruct (reach_wf _ _ _ _ H) as (W & _). assert (Id := vok_ids _ (reach_vok _ _ _ _ H)).
  assert (ND : NoDup (map n_ty (c_nodes c))) by apply W.
  destruct (addr_node c t j p v ND Ha Hv) as (n & Hn & <- & -> & Hj & _ & El).
  assert (Lj : j < length (elems_of (n_seg n))) by (apply nth_error_Some; congruence).
  assert (Q : forall t', seg_at c0 t' = if t' =? n_ty n then Some (seg_write (vptr (be_store (sg_be (n_seg n))) j) m (n_seg n)) else seg_at c t').
  { intros t'. unfold c0. rewrite (write_setn w c g d n j m H Hn Lj). apply setn_seg_at; auto. }
  csplit.
  - apply write_reach; auto.
  - apply write_shape.
  - rewrite (elems_seg_at c0), Q, Nat.eqb_refl, El, (seg_write_own j m v _ Hj). reflexivity.
  - intros t' Ne. rewrite Q, (proj2 (Nat.eqb_neq _ _) Ne). reflexivity.
Qed.
Lemma write_id w c g d t j p v : reach w (c :: g) d -> addr_of c t j = Some p -> nth_error (elems c t) j = Some v -> c_write p v c = c.
Proof.
  intros H Ha Hv. destruct (reach_wf _ _ _ _ H) as (W & _). assert (Id := vok_ids _ (reach_vok _ _ _ _ H)).
  assert (ND : NoDup (map n_ty (c_nodes c))) by apply W.
  destruct (addr_node c t j p v ND Ha Hv) as (n & Hn & <- & -> & Hj & _ & El).
  assert (Lj : j < length (elems_of (n_seg n))) by (apply nth_error_Some; congruence).
  rewrite (write_setn w c g d n j v H Hn Lj), (seg_write_same j v _ Hj). apply setn_id; auto.
Qed.

(** The insertion does what it would if the value came from outside, and something had been written to the
    element before. *)
Lemma insert_moved w c g d x j p v : let t := env_ty (a_dyn x) in
  reach w (c :: g) d -> arg_ok x -> addr_of c t j = Some p -> a_src x = SRef p -> a_how x = HMove -> nth_error (elems c t) j = Some v ->
  (env_layout = SplitLayout -> length (elems c t) < cap_of c t) ->
  exists m, c_insert x (c, w) = c_insert (by_value x v) (c_write p m c, w).
Proof.
  intros t H Ax Ha Hs Hh Hv Hc. destruct (reach_wf _ _ _ _ H) as (W & _). assert (Id := vok_ids _ (reach_vok _ _ _ _ H)).
  assert (ND : NoDup (map n_ty (c_nodes c))) by apply W.
  destruct (addr_node c t j p v ND Ha Hv) as (n & Hn & Et & -> & Hj & Ec & El).
  assert (Lj : j < length (elems_of (n_seg n))) by (apply nth_error_Some; congruence).
  destruct (lookup_own x n c w (wc_map _ _ W) Ax Hn (eq_sym Et)) as [(c1 & w1 & Q & N1 & Q')|(w1 & e & Q)].
  - exists (env_junk (w_clock w1) j). rewrite (write_setn w c g d n j _ H Hn Lj). unfold c_insert.
    rewrite (bind_ok _ _ _ _ _ Q), (bind_ok _ _ _ _ _ (Q' _)). cbn [by_value a_dyn a_how a_src]. rewrite Hs, Hh. unfold bind at 1. unfold bind at 1.
    rewrite El, Ec in Hc. rewrite (proj1 (push_moved w c g d n j v w1 c1 H Hn Hj Hc N1 _)). reflexivity.
  - exists v. rewrite (write_id w c g d t j _ v H Ha Hv). unfold c_insert. rewrite (bind_exn _ _ _ _ _ Q), (bind_exn (map_iterator_for (by_value x v)) _ _ _ _ Q). reflexivity.
Qed.
Lemma insert_hint_moved w c g d hint x j p v : let t := env_ty (a_dyn x) in
  reach w (c :: g) d -> arg_ok x -> addr_of c t j = Some p -> a_src x = SRef p -> a_how x = HMove -> nth_error (elems c t) j = Some v ->
  (env_layout = SplitLayout -> length (elems c t) < cap_of c t) ->
  exists m, c_insert_hint hint x (c, w) = c_insert_hint hint (by_value x v) (c_write p m c, w).
Proof.
  intros t H Ax Ha Hs Hh Hv Hc. destruct (reach_wf _ _ _ _ H) as (W & _). assert (Id := vok_ids _ (reach_vok _ _ _ _ H)).
  assert (ND : NoDup (map n_ty (c_nodes c))) by apply W.
  destruct (addr_node c t j p v ND Ha Hv) as (n & Hn & Et & -> & Hj & Ec & El).
  assert (Lj : j < length (elems_of (n_seg n))) by (apply nth_error_Some; congruence).
  destruct (lookup_own x n c w (wc_map _ _ W) Ax Hn (eq_sym Et)) as [(c1 & w1 & Q & N1 & Q')|(w1 & e & Q)].
  - exists (env_junk (w_clock w1) j). rewrite (write_setn w c g d n j _ H Hn Lj). unfold c_insert_hint.
    rewrite (bind_ok _ _ _ _ _ Q), (bind_ok _ _ _ _ _ (Q' _)). cbn [by_value a_dyn a_how a_src]. rewrite Hs, Hh.
    rewrite El, Ec in Hc. destruct (push_moved w c g d n j v w1 c1 H Hn Hj Hc N1 (env_ty (a_dyn x))) as (P & I).
    assert (Sn : forall s, match same_node (it_map hint) (n_id n) (c1, w1), same_node (it_map hint) (n_id n) (setn c1 (n_id n) s, w1) with
      | Ok s1 b, Ok s2 b' => s1 = (c1, w1) /\ s2 = (setn c1 (n_id n) s, w1) /\ b = b' | UB, UB => True | _, _ => False end).
    { intros s. unfold same_node. destruct (it_map hint) as [i|]; [|cbn; auto]. unfold bind, getx. cbn [fst setn c_nodes]. assert (U := node_at_upd_some (c_nodes c1) (n_id n) s i).
      destruct (node_at (c_nodes c1) i), (node_at (node_upd (c_nodes c1) (n_id n) s) i); try tauto; cbn; auto. }
    specialize (Sn (seg_write (vptr (be_store (sg_be (n_seg n))) j) (env_junk (w_clock w1) j) (n_seg n))).
    unfold bind at 1. unfold bind at 2.
    destruct (same_node _ _ (c1, w1)) as [s1 b|s1 e|], (same_node _ _ (setn _ _ _, w1)) as [s2 b'|s2 e'|]; try tauto.
    destruct Sn as (-> & -> & <-). unfold bind at 1. unfold bind at 1. destruct b; [rewrite I|rewrite P]; reflexivity.
  - exists v. rewrite (write_id w c g d t j _ v H Ha Hv). unfold c_insert_hint. rewrite (bind_exn _ _ _ _ _ Q), (bind_exn (map_iterator_for (by_value x v)) _ _ _ _ Q). reflexivity.
Qed.
Lemma insert_pos_moved w c g d pos k x j p v : let t := env_ty (a_dyn x) in
  reach w (c :: g) d -> lpoints c pos t k -> addr_of c t j = Some p -> a_src x = SRef p -> a_how x = HMove -> nth_error (elems c t) j = Some v ->
  (env_layout = SplitLayout -> length (elems c t) < cap_of c t) ->
  exists m, c_insert_pos pos x (c, w) = c_insert_pos pos (by_value x v) (c_write p m c, w).
Proof.
  intros t H Hp Ha Hs Hh Hv Hc. destruct (reach_wf _ _ _ _ H) as (W & _). assert (Id := vok_ids _ (reach_vok _ _ _ _ H)).
  assert (ND : NoDup (map n_ty (c_nodes c))) by apply W.
  destruct (addr_node c t j p v ND Ha Hv) as (n & Hn & Et & -> & Hj & Ec & El).
  assert (Lj : j < length (elems_of (n_seg n))) by (apply nth_error_Some; congruence).
  destruct Hp as (n' & Hn' & Et' & Hi & _). assert (n' = n) as ->.
  { assert (F := find_ty_in (c_nodes c) n ND Hn). assert (F' := find_ty_in (c_nodes c) n' ND Hn'). unfold n_ty in *. rewrite Et', <- Et in F'. congruence. }
  exists (env_junk (w_clock w) j). rewrite (write_setn w c g d n j _ H Hn Lj). unfold c_insert_pos. cbn [by_value a_dyn a_how a_src]. rewrite Hi, Hs, Hh.
  rewrite El, Ec in Hc. unfold bind at 1. unfold bind at 1.
  rewrite (proj2 (push_moved w c g d n j v w c H Hn Hj Hc eq_refl _)). reflexivity.
Qed.


(** From the insertion of the value [v] at index [k], something having been written to the [j]-th element. *)
Lemma moved_done w c g d t j k p v m c' : reach w (c :: g) d -> addr_of c t j = Some p -> nth_error (elems c t) j = Some v ->
  inserted (c_write p m c) c' t k v ->
  elems c' t = firstn k (replaced j m (elems c t)) ++ v :: skipn k (replaced j m (elems c t)) /\ others_kept c c' t.
Proof.
  intros H Ha Hv I. destruct (write_at w c g d t j p v m H Ha Hv) as (R & Sh & El & Ot). split.
  - rewrite (g_elems _ _ _ _ (in_grew _ _ _ _ _ I)), El. unfold slot, of_type. rewrite Nat.eqb_refl. cbn. rewrite Nat.eqb_refl. reflexivity.
  - intros t' Ne. rewrite (in_others _ _ _ _ _ I t' Ne). auto.
Qed.
Lemma moved_failed w w' c g d t j k p v m c' e : reach w (c :: g) d -> addr_of c t j = Some p -> nth_error (elems c t) j = Some v ->
  refused (c_write p m c) c' w w' t HMove k e ->
  threw t HMove (length (elems c t)) 1 w w' e /\ others_kept c c' t /\ (safe_at c t k -> elems c' t = replaced j m (elems c t)).
Proof.
  intros H Ha Hv (Hm & Th & Rb). destruct (write_at w c g d t j p v m H Ha Hv) as (R & Sh & El & Ot).
  destruct (shape_sizes _ _ Sh) as (L & _). rewrite L in Th. csplit; auto.
  - intros t' Ne. rewrite (hm_others _ _ _ _ Hm t' Ne). auto.
  - intros Sf. rewrite <- El. specialize (Rb (shape_safe_at _ _ _ _ Sh Sf)). rewrite !elems_seg_at. rewrite (rb_segs _ _ _ Rb t); auto.
    apply elems_registered. rewrite El. unfold replaced. destruct (firstn j (elems c t)); discriminate.
Qed.
End Moved.

(** The argument of insert is std::move of the [j]-th element of type [t], with value [v]: that element is
    left with some value [m] and stays where it is (the class decides [m], as for any moved-from object), and [v] is inserted.  The moved
    element may be any one, in particular one which the insertion displaces.  If the insertion throws, in
    the situations in which insertions are known to do no harm ([safe_at]) the [j]-th element is all that may have changed.
    What is missing: full segments of an any_collection or function_collection, for which this is false (below). *)
Theorem C35_move_partial {V} {E : Env V} w c g d x j p v : let t := env_ty (a_dyn x) in let k := length (elems c t) in
  reach w (c :: g) d -> arg_ok x -> addr_of c t j = Some p -> a_src x = SRef p -> a_how x = HMove -> nth_error (elems c t) j = Some v ->
  (env_layout = SplitLayout -> length (elems c t) < cap_of c t) ->
  wp (c_insert x) (c, w)
    (fun '(c', w') it => exists m, elems c' t = replaced j m (elems c t) ++ [v] /\ others_kept c c' t /\ points c' it t k /\
       reach w' (c' :: g) d)
    (fun '(c', w') e => threw t HMove k 1 w w' e /\ others_kept c c' t /\
       (safe_at c t k -> exists m, elems c' t = replaced j m (elems c t) /\ reach w' (c' :: g) d)).
Proof.
  intros t k H Hx Ha Hs Hh Hv Hc. destruct (insert_moved w c g d x j p v H Hx Ha Hs Hh Hv Hc) as (m & Q).
  destruct (write_at w c g d t j p v m H Ha Hv) as (R & Sh & El & Ot). destruct (shape_sizes _ _ Sh) as (L & _ & Ty & _).
  assert (Sx : src_c (c_write p m c) t (a_how (by_value x v)) (a_src (by_value x v)) v) by (left; reflexivity).
  pose proof (spec_insert w _ g d (by_value x v) v R Hx Sx) as Sp.
  assert (Ca := api_insert g (c_write p m c) (by_value x v) v Hx Sx).
  unfold wp in *. rewrite Q. destruct (c_insert (by_value x v) (c_write p m c, w)) as [[c' w'] it|[c' w'] e|] eqn:Qr; auto.
  - destruct Sp as (_ & I & P). change (env_ty (a_dyn (by_value x v))) with t in I, P. rewrite L in I, P. exists m.
    destruct (moved_done w c g d t j _ p v m c' H Ha Hv I) as (Ee & Oo). csplit; auto.
    + rewrite Ee. rewrite <- (replaced_length j m (elems c t)) by (apply nth_error_Some; congruence). rewrite firstn_all, skipn_all. reflexivity.
    + eapply r_call; [exact R|exact Ca|]. unfold void, bind. rewrite Qr. reflexivity.
  - destruct Sp as [((U & _) & _)|(_ & Rf)].
    + exfalso. apply U. rewrite Ty. apply elems_registered. intros Z. change (env_ty (a_dyn (by_value x v))) with t in Z. rewrite Z in Hv. destruct j; discriminate.
    + change (env_ty (a_dyn (by_value x v))) with t in Rf. cbn [by_value a_how] in Rf. rewrite Hh, L in Rf.
      destruct (moved_failed w w' c g d t j _ p v m c' e H Ha Hv Rf) as (Th & Oo & Sf). csplit; auto. intros Sa. exists m. split; auto.
      eapply r_call_exn; [exact R|exact Ca| |]; [unfold void, bind; rewrite Qr; reflexivity|].
      change (env_ty (a_dyn (by_value x v))) with t. right. rewrite L. apply (shape_safe_at _ _ _ _ Sh Sa).
Qed.

Theorem C35_move_hint_partial {V} {E : Env V} w c g d hint i k x j p v : let t := env_ty (a_dyn x) in
  reach w (c :: g) d -> located c hint i -> hint_at c hint t k -> arg_ok x ->
  addr_of c t j = Some p -> a_src x = SRef p -> a_how x = HMove -> nth_error (elems c t) j = Some v ->
  (env_layout = SplitLayout -> length (elems c t) < cap_of c t) ->
  wp (c_insert_hint hint x) (c, w)
    (fun '(c', w') it => exists m, let l := replaced j m (elems c t) in
       elems c' t = firstn k l ++ v :: skipn k l /\ others_kept c c' t /\ points c' it t k /\ reach w' (c' :: g) d)
    (fun '(c', w') e => threw t HMove (length (elems c t)) 1 w w' e /\ others_kept c c' t /\
       (safe_at c t k -> exists m, elems c' t = replaced j m (elems c t) /\ reach w' (c' :: g) d)).
Proof.
  intros t H Hl Hk Hx Ha Hs Hh Hv Hc. destruct (insert_hint_moved w c g d hint x j p v H Hx Ha Hs Hh Hv Hc) as (m & Q).
  destruct (write_at w c g d t j p v m H Ha Hv) as (R & Sh & El & Ot). destruct (shape_sizes _ _ Sh) as (L & _ & Ty & _).
  assert (It : In t (types c)) by (apply elems_registered; intros Z; rewrite Z in Hv; destruct j; discriminate).
  assert (Sx : src_c (c_write p m c) t (a_how (by_value x v)) (a_src (by_value x v)) v) by (left; reflexivity).
  assert (Hl' := shape_located _ _ _ _ Sh Hl). assert (Hk' := shape_hint_at _ _ _ _ _ Sh Hk).
  assert (Hsf : hint_safe (c_write p m c) hint t) by (right; left; rewrite Ty; auto).
  pose proof (spec_insert_hint w _ g d hint i k (by_value x v) v R Hl' Hk' Hsf Hx Sx) as Sp.
  assert (Ca := api_insert_hint g (c_write p m c) hint i k (by_value x v) v Hl' Hk' Hsf Hx Sx).
  unfold wp in *. rewrite Q. destruct (c_insert_hint hint (by_value x v) (c_write p m c, w)) as [[c' w'] it|[c' w'] e|] eqn:Qr; auto.
  - destruct Sp as (_ & I & P). change (env_ty (a_dyn (by_value x v))) with t in I, P. exists m.
    destruct (moved_done w c g d t j _ p v m c' H Ha Hv I) as (Ee & Oo). cbv zeta. csplit; auto.
    eapply r_call; [exact R|exact Ca|]. unfold void, bind. rewrite Qr. reflexivity.
  - destruct Sp as [((U & _) & _)|(_ & Rf)].
    + exfalso. apply U. rewrite Ty. exact It.
    + change (env_ty (a_dyn (by_value x v))) with t in Rf. cbn [by_value a_how] in Rf. rewrite Hh in Rf.
      destruct (moved_failed w w' c g d t j _ p v m c' e H Ha Hv Rf) as (Th & Oo & Sf). csplit; auto. intros Sa. exists m. split; auto.
      eapply r_call_exn; [exact R|exact Ca| |]; [unfold void, bind; rewrite Qr; reflexivity|].
      right. apply (shape_safe_at _ _ _ _ Sh Sa).
Qed.

Theorem C35_move_position_partial {V} {E : Env V} w c g d pos k x j p v : let t := env_ty (a_dyn x) in
  reach w (c :: g) d -> lpoints c pos t k -> addr_of c t j = Some p -> a_src x = SRef p -> a_how x = HMove -> nth_error (elems c t) j = Some v ->
  (env_layout = SplitLayout -> length (elems c t) < cap_of c t) ->
  wp (c_insert_pos pos x) (c, w)
    (fun '(c', w') it => exists m, let l := replaced j m (elems c t) in
       elems c' t = firstn k l ++ v :: skipn k l /\ others_kept c c' t /\ lpoints c' it t k /\ reach w' (c' :: g) d)
    (fun '(c', w') e => threw t HMove (length (elems c t)) 1 w w' e /\ others_kept c c' t /\
       (safe_at c t k -> exists m, elems c' t = replaced j m (elems c t) /\ reach w' (c' :: g) d)).
Proof.
  intros t H Hp Ha Hs Hh Hv Hc. destruct (insert_pos_moved w c g d pos k x j p v H Hp Ha Hs Hh Hv Hc) as (m & Q).
  destruct (write_at w c g d t j p v m H Ha Hv) as (R & Sh & El & Ot).
  assert (Sx : src_c (c_write p m c) t (a_how (by_value x v)) (a_src (by_value x v)) v) by (left; reflexivity).
  assert (Hp' := shape_lpoints _ _ _ _ _ Sh Hp).
  pose proof (spec_insert_pos w _ g d pos k (by_value x v) v R Hp' Sx) as Sp.
  assert (Ca := api_insert_pos g (c_write p m c) pos k (by_value x v) v Hp' Sx).
  unfold wp in *. rewrite Q. destruct (c_insert_pos pos (by_value x v) (c_write p m c, w)) as [[c' w'] it|[c' w'] e|] eqn:Qr; auto.
  - destruct Sp as (I & P). change (env_ty (a_dyn (by_value x v))) with t in I, P. exists m.
    destruct (moved_done w c g d t j _ p v m c' H Ha Hv I) as (Ee & Oo). cbv zeta. csplit; auto.
    eapply r_call; [exact R|exact Ca|]. unfold void, bind. rewrite Qr. reflexivity.
  - change (env_ty (a_dyn (by_value x v))) with t in Sp. cbn [by_value a_how] in Sp. rewrite Hh in Sp.
    destruct (moved_failed w w' c g d t j _ p v m c' e H Ha Hv Sp) as (Th & Oo & Sf). csplit; auto. intros Sa. exists m. split; auto.
    eapply r_call_exn; [exact R|exact Ca| |]; [unfold void, bind; rewrite Qr; reflexivity|].
    apply (shape_safe_at _ _ _ _ Sh Sa).
Qed.

(** The second of five elements, in all three collections; there is room. *)
Definition move_arg (a : tiaddr) (p : ptr) : arg nat := mkarg a a true false HMove (SRef p).
Example C35_move_partial_ex lay : let E := dE lay in let s := gs E (five 10) in
  exists p, reach (snd s) [fst s] [] /\ arg_ok (move_arg 10 p) /\ addr_of (fst s) 1 1 = Some p /\
  nth_error (elems (fst s) 1) 1 = Some 6 /\ length (elems (fst s) 1) < cap_of (fst s) 1.
Proof.
  intros E s. destruct (addr_of (fst s) 1 1) as [p|] eqn:Q; [|exfalso; revert Q; destruct lay; vm_compute; discriminate].
  exists p. csplit; [apply gs_reach; destruct lay; vm_compute; reflexivity|intros _; reflexivity|reflexivity
    |destruct lay; vm_compute; reflexivity|destruct lay; vm_compute; lia].
Qed.
Example C35_move_hint_partial_ex lay : let E := dE lay in let s := gs E (five 10) in
  exists p, reach (snd s) [fst s] [] /\ (exists i, located (fst s) (it_at (fst s) 1 1) i) /\ hint_at (fst s) (it_at (fst s) 1 1) 1 1 /\
  arg_ok (move_arg 10 p) /\ addr_of (fst s) 1 1 = Some p /\
  nth_error (elems (fst s) 1) 1 = Some 6 /\ length (elems (fst s) 1) < cap_of (fst s) 1.
Proof.
  intros E s. destruct (addr_of (fst s) 1 1) as [p|] eqn:Q; [|exfalso; revert Q; destruct lay; vm_compute; discriminate].
  assert (P : points (fst s) (it_at (fst s) 1 1) 1 1) by (apply (it_at_points (E := E) _ 1 1 5); [destruct lay; vm_compute; reflexivity|lia]).
  exists p. csplit; [apply gs_reach; destruct lay; vm_compute; reflexivity| |left; exact P|intros _; reflexivity|reflexivity
    |destruct lay; vm_compute; reflexivity|destruct lay; vm_compute; lia].
  eexists. right. exists 1, 1. split; [exact P|reflexivity].
Qed.
Example C35_move_position_partial_ex lay : let E := dE lay in let s := gs E (five 10) in
  exists p, reach (snd s) [fst s] [] /\ lpoints (fst s) (li_base (fst s) 1 1) 1 1 /\ addr_of (fst s) 1 1 = Some p /\
  nth_error (elems (fst s) 1) 1 = Some 6 /\ length (elems (fst s) 1) < cap_of (fst s) 1.
Proof.
  intros E s. destruct (addr_of (fst s) 1 1) as [p|] eqn:Q; [|exfalso; revert Q; destruct lay; vm_compute; discriminate].
  exists p. csplit; [apply gs_reach; destruct lay; vm_compute; reflexivity| |reflexivity
    |destruct lay; vm_compute; reflexivity|destruct lay; vm_compute; lia].
  apply (li_base_points (E := E) _ 1 1 5); [destruct lay; vm_compute; reflexivity|lia].
Qed.
(** What is left need not be what was there. *)
Example C35_move_changes lay : let E := dE lay in let s := gs E (five 10) in
  match addr_of (fst s) 1 1 with
  | Some p => exists c' w' it, c_insert (move_arg 10 p) s = Ok (c', w') it /\ elems c' 1 <> elems (fst s) 1 ++ [6] /\ nth_error (elems c' 1) 5 = Some 6
  | None => False
  end.
Proof.
  destruct lay; vm_compute; (do 3 eexists; csplit; [reflexivity|discriminate|reflexivity]).
Qed.

(** When the segment is full the argument is read after its storage has been given back. *)
Theorem C35_move_full_refuted : exists (E : Env nat) w c a j p, env_layout = SplitLayout /\ reach w [c] [] /\
  addr_of c (env_ty a) j = Some p /\ c_insert (mkarg a a true false HMove (SRef p)) (c, w) = UB.
Proof.
  pose (E := dE SplitLayout). pose (s := gs E [(10, Some 5); (10, Some 6); (10, Some 7)]).
  assert (C : match addr_of (fst s) 1 1 with Some p => match c_insert (move_arg 10 p) (fst s, snd s) with UB => true | _ => false end | None => false end = true)
    by (vm_compute; reflexivity).
  destruct (addr_of (fst s) 1 1) as [p|] eqn:Q; [|discriminate]. exists E, (snd s), (fst s), 10, 1, p. csplit.
  - reflexivity.
  - apply gs_reach. vm_compute; reflexivity.
  - exact Q.
  - change (mkarg 10 10 true false HMove (SRef p)) with (move_arg 10 p).
    destruct (c_insert (move_arg 10 p) (fst s, snd s)); [discriminate C|discriminate C|reflexivity].
Qed.

Print Assumptions C35_move_partial.
Print Assumptions C35_move_hint_partial.
Print Assumptions C35_move_position_partial.
Print Assumptions C35_move_full_refuted.
