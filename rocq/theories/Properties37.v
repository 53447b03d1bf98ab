(** * Algorithms which write into other collections (C81)

    See the head of Properties1.v for the form of the statements.  The output iterator is std::inserter(y,hint) of a collection [y] (Into.v).  The source [c] is among the
    collections in use before and after, so it is not touched. *)

From Coq Require Import List Arith Lia Bool Permutation.
From Verif Require Import Base Vec Backend Segment Coll StdAlg Algo Loops Into Spec SpecVia SpecAlg SpecStd SpecInto Reach ProofBase ProofVec ProofBackend
  ProofOps ProofSeg ProofMap ProofView ProofColl ProofIns ProofRange ProofReach ProofObs ProofProp ProofProp4 ProofProp5 ProofCost7 ProofVia ProofInto ProofStd
  Properties3 Properties6 Demo.
Import ListNotations.

Lemma received_mono {V} {E : Env V} (P Q : Prop) y l g d s : (Q -> P) -> received P y l g d s -> received Q y l g d s.
Proof. destruct s as [[y' w'] it]. intros I (A & B & C & D). unfold received. csplit; auto. Qed.

(** Elements passed as references to the base class; what they refer to is copied. *)
Definition to (a : tiaddr) (v : nat) : arg nat := mkarg a a true false HCopy (SVal v).
Definition by_ref (x : view nat) : arg nat := to (10 * r_ty (snd x)) (r_val (snd x)).
Definition twice (e : tyid * nat) : tyid * nat := (fst e, 2 * snd e).
Definition t_twice (x : view nat) : arg nat := to (10 * r_ty (snd x)) (2 * r_val (snd x)).
Lemma by_ref_ok lay xs : let E := dE lay in faithful by_ref xs.
Proof.
  intros E x _. unfold gives, by_ref, to, obj, arg_ok. cbn [a_dyn a_src a_static a_terminal fst snd]. csplit; auto.
  change (10 * r_ty (snd x) / 10 = r_ty (snd x)). rewrite Nat.mul_comm. apply Nat.div_mul. discriminate.
Qed.

Lemma twice_ok lay xs : let E := dE lay in forall x, In x xs -> gives (t_twice x) (twice (obj x)).
Proof.
  intros E x _. unfold gives, t_twice, twice, to, obj, arg_ok. cbn [a_dyn a_src a_static a_terminal fst snd]. csplit; auto.
  change (10 * r_ty (snd x) / 10 = r_ty (snd x)). rewrite Nat.mul_comm. apply Nat.div_mul. discriminate.
Qed.
Lemma eq_6 : equivalence (fun a b : tyid * nat => snd a / 6 =? snd b / 6).
Proof.
  split; [intros; apply Nat.eqb_refl|split; [intros; apply Nat.eqb_sym|]].
  intros x y z H1 H2. apply Nat.eqb_eq in H1, H2. apply Nat.eqb_eq. congruence.
Qed.
Lemma hint_11 lay : let E := dE lay in hint_is (dc lay) (it_at (dc lay) 1 1) (Some (1, 1)).
Proof. intros E. assert (P : points (dc lay) (it_at (dc lay) 1 1) 1 1) by (subst E; demo_fact lay). exact P. Qed.
Lemma end_is_5 lay : let E := dE lay in located (dx lay) (c_end (dx lay)) 5.
Proof.
  intros E. replace 5 with (length (flat (dx lay))) by (subst E; destruct lay; vm_compute; reflexivity). apply end_located.
Qed.

(** ** One destination *)

(** The elements [l] of the range come to [y], each once, in the segment of its type; if [y] had none of their types, in the order they have in the range. *)
Theorem C81_copy {V} {E : Env V} w c g d y Ts first last i j pass o hint h k : reach w (y :: c :: g) d ->
  located c first i -> located c last j -> i <= j -> hint_is y hint h -> located y hint k -> faithful pass (views c Ts i j) ->
  let l := between i j (flat c) in via_safe h y l ->
  wp (pc_copy c Ts first last (insert_out pass) o) ((y, w), hint)
    (fun s _ => received True y l (c :: g) d s) (write_stopped obj pass (views c Ts i j) y (c :: g) d).
Proof.
  intros H L1 L2 Hij Hi L Gv l Sf. pose proof (swap_reach w y c g d H) as Hc.
  eapply wp_mono; [eapply (wp_writes obj pass _ eq (views c Ts i j) l o w y (c :: g) d hint h k H Hi L); [| |try exact Gv|exact Sf]| |intros s e Ws; exact Ws].
  - apply (C44_copy w c (y :: g) d Ts first last i j (insert_out pass) o Hc L1 L2 Hij).
  - apply obj_views.
  - intros s n0. apply received_mono. intros _. eapply grouped_between; eauto.
Qed.
Example C81_copy_ex lay : let E := dE lay in
  reach (dw lay) (dc lay :: dx lay :: []) [] /\ located (dx lay) (it_at (dx lay) 6 0) 0 /\ located (dx lay) (c_end (dx lay)) 5 /\ 0 <= 5 /\
  hint_is (dc lay) (it_at (dc lay) 1 1) (Some (1, 1)) /\ located (dc lay) (it_at (dc lay) 1 1) 1 /\ faithful by_ref (views (dx lay) [1] 0 5) /\
  via_safe (Some (1, 1)) (dc lay) (between 0 5 (flat (dx lay))) /\
  match pc_copy (dx lay) [1] (it_at (dx lay) 6 0) (c_end (dx lay)) (insert_out by_ref) 0 ((dc lay, dw lay), it_at (dc lay) 1 1) with Ok ((c', _), _) _ => length (elems c' 1) = 6 /\ elems c' 6 = [3] | _ => False end.
Proof.
  cbv zeta. csplit; try solve [demo_fact lay]; try apply hint_11; try apply by_ref_ok; try apply eq_6; try apply twice_ok; try solve [left; reflexivity]; try apply end_is_5; destruct lay; vm_compute; auto.
Qed.

Theorem C81_copy_n {V} {E : Env V} w c g d y Ts first i n pass o hint h k : reach w (y :: c :: g) d ->
  located c first i -> i + n <= length (flat c) -> hint_is y hint h -> located y hint k -> faithful pass (views c Ts i (i + n)) ->
  let l := between i (i + n) (flat c) in via_safe h y l ->
  wp (pc_copy_n c Ts first n (insert_out pass) o) ((y, w), hint)
    (fun s _ => received True y l (c :: g) d s) (write_stopped obj pass (views c Ts i (i + n)) y (c :: g) d).
Proof.
  intros H L1 Ln Hi L Gv l Sf. pose proof (swap_reach w y c g d H) as Hc.
  eapply wp_mono; [eapply (wp_writes obj pass _ eq (views c Ts i (i + n)) l o w y (c :: g) d hint h k H Hi L); [| |try exact Gv|exact Sf]| |intros s e Ws; exact Ws].
  - apply (C44_copy_n w c (y :: g) d Ts first i n (insert_out pass) o Hc L1 Ln).
  - apply obj_views.
  - intros s n0. apply received_mono. intros _. eapply grouped_between; eauto.
Qed.
Example C81_copy_n_ex lay : let E := dE lay in
  reach (dw lay) (dc lay :: dx lay :: []) [] /\ located (dx lay) (it_at (dx lay) 6 0) 0 /\ located (dx lay) (c_end (dx lay)) 5 /\ 0 <= 5 /\
  hint_is (dc lay) (it_at (dc lay) 1 1) (Some (1, 1)) /\ located (dc lay) (it_at (dc lay) 1 1) 1 /\ faithful by_ref (views (dx lay) [1] 0 5) /\
  0 + 5 <= length (flat (dx lay)) /\
  via_safe (Some (1, 1)) (dc lay) (between 0 5 (flat (dx lay))) /\
  match pc_copy_n (dx lay) [1] (it_at (dx lay) 6 0) 5 (insert_out by_ref) 0 ((dc lay, dw lay), it_at (dc lay) 1 1) with Ok ((c', _), _) _ => length (elems c' 1) = 6 /\ elems c' 6 = [3] | _ => False end.
Proof.
  cbv zeta. csplit; try solve [demo_fact lay]; try apply hint_11; try apply by_ref_ok; try apply eq_6; try apply twice_ok; try solve [left; reflexivity]; try apply end_is_5; destruct lay; vm_compute; auto.
Qed.

(** The predicates [q] look at the objects. *)
Theorem C81_copy_if {V} {E : Env V} w c g d y Ts first last i j q pass o hint h k : reach w (y :: c :: g) d ->
  located c first i -> located c last j -> i <= j -> hint_is y hint h -> located y hint k -> faithful pass (views c Ts i j) ->
  let l := filter q (between i j (flat c)) in via_safe h y l ->
  wp (pc_copy_if c Ts first last (insert_out pass) (pure (of_obj q)) o) ((y, w), hint)
    (fun s _ => received True y l (c :: g) d s) (write_stopped obj pass (filter (of_obj q) (views c Ts i j)) y (c :: g) d).
Proof.
  intros H L1 L2 Hij Hi L Gv l Sf. pose proof (swap_reach w y c g d H) as Hc.
  eapply wp_mono; [eapply (wp_writes obj pass _ eq (filter (of_obj q) (views c Ts i j)) l o w y (c :: g) d hint h k H Hi L); [| |try exact Gv|exact Sf]| |intros s e Ws; exact Ws].
  - eapply same_eq_r; [apply (C44_copy_if w c (y :: g) d Ts first last i j (pure (of_obj q)) (insert_out pass) o Hc L1 L2 Hij)|].
    intros s. apply std_copy_if_pure.
  - unfold of_obj. rewrite filter_map_comm, obj_views. reflexivity.
  - intros x Hx. apply filter_In in Hx. apply Gv, Hx.
  - intros s n0. apply received_mono. intros _. apply grouped_filter. eapply grouped_between; eauto.
Qed.
Example C81_copy_if_ex lay : let E := dE lay in
  reach (dw lay) (dc lay :: dx lay :: []) [] /\ located (dx lay) (it_at (dx lay) 6 0) 0 /\ located (dx lay) (c_end (dx lay)) 5 /\ 0 <= 5 /\
  hint_is (dc lay) (it_at (dc lay) 1 1) (Some (1, 1)) /\ located (dc lay) (it_at (dc lay) 1 1) 1 /\ faithful by_ref (views (dx lay) [1] 0 5) /\
  via_safe (Some (1, 1)) (dc lay) (filter (fun e => Nat.odd (snd e)) (between 0 5 (flat (dx lay)))) /\
  match pc_copy_if (dx lay) [1] (it_at (dx lay) 6 0) (c_end (dx lay)) (insert_out by_ref) (pure (of_obj (fun e => Nat.odd (snd e)))) 0 ((dc lay, dw lay), it_at (dc lay) 1 1) with Ok ((c', _), _) _ => length (elems c' 1) = 5 /\ elems c' 6 = [3] /\ elems c' 7 = [] | _ => False end.
Proof.
  cbv zeta. csplit; try solve [demo_fact lay]; try apply hint_11; try apply by_ref_ok; try apply eq_6; try apply twice_ok; try solve [left; reflexivity]; try apply end_is_5; destruct lay; vm_compute; auto.
Qed.
Theorem C81_remove_copy_if {V} {E : Env V} w c g d y Ts first last i j q pass o hint h k : reach w (y :: c :: g) d ->
  located c first i -> located c last j -> i <= j -> hint_is y hint h -> located y hint k -> faithful pass (views c Ts i j) ->
  let l := filter (fun e => negb (q e)) (between i j (flat c)) in via_safe h y l ->
  wp (pc_remove_copy_if c Ts first last (insert_out pass) (pure (of_obj q)) o) ((y, w), hint)
    (fun s _ => received True y l (c :: g) d s) (write_stopped obj pass (filter (of_obj (fun e => negb (q e))) (views c Ts i j)) y (c :: g) d).
Proof.
  intros H L1 L2 Hij Hi L Gv l Sf. pose proof (swap_reach w y c g d H) as Hc.
  eapply wp_mono; [eapply (wp_writes obj pass _ eq (filter (of_obj (fun e => negb (q e))) (views c Ts i j)) l o w y (c :: g) d hint h k H Hi L); [| |try exact Gv|exact Sf]| |intros s e Ws; exact Ws].
  - eapply same_eq_r; [apply (C44_remove_copy_if w c (y :: g) d Ts first last i j (pure (of_obj q)) (insert_out pass) o Hc L1 L2 Hij)|].
    intros s. apply (std_remove_copy_if_pure (of_obj q)).
  - unfold of_obj. rewrite (filter_map_comm obj (fun e => negb (q e))), obj_views. reflexivity.
  - intros x Hx. apply filter_In in Hx. apply Gv, Hx.
  - intros s n0. apply received_mono. intros _. apply grouped_filter. eapply grouped_between; eauto.
Qed.
Example C81_remove_copy_if_ex lay : let E := dE lay in
  reach (dw lay) (dc lay :: dx lay :: []) [] /\ located (dx lay) (it_at (dx lay) 6 0) 0 /\ located (dx lay) (c_end (dx lay)) 5 /\ 0 <= 5 /\
  hint_is (dc lay) (it_at (dc lay) 1 1) (Some (1, 1)) /\ located (dc lay) (it_at (dc lay) 1 1) 1 /\ faithful by_ref (views (dx lay) [1] 0 5) /\
  via_safe (Some (1, 1)) (dc lay) (filter (fun e => negb (Nat.odd (snd e))) (between 0 5 (flat (dx lay)))) /\
  match pc_remove_copy_if (dx lay) [1] (it_at (dx lay) 6 0) (c_end (dx lay)) (insert_out by_ref) (pure (of_obj (fun e => Nat.odd (snd e)))) 0 ((dc lay, dw lay), it_at (dc lay) 1 1) with Ok ((c', _), _) _ => length (elems c' 1) = 4 /\ elems c' 6 = [] /\ elems c' 7 = [4] | _ => False end.
Proof.
  cbv zeta. csplit; try solve [demo_fact lay]; try apply hint_11; try apply by_ref_ok; try apply eq_6; try apply twice_ok; try solve [left; reflexivity]; try apply end_is_5; destruct lay; vm_compute; auto.
Qed.
Theorem C81_unique_copy {V} {E : Env V} w c g d y Ts first last i j q pass o hint h k : reach w (y :: c :: g) d ->
  located c first i -> located c last j -> i <= j -> hint_is y hint h -> located y hint k -> faithful pass (views c Ts i j) ->
  equivalence q -> let l := leaders q (between i j (flat c)) in via_safe h y l ->
  wp (pc_unique_copy c Ts first last (insert_out pass) (pure2 (of_objs q)) o) ((y, w), hint)
    (fun s _ => received True y l (c :: g) d s) (write_stopped obj pass (leaders (of_objs q) (views c Ts i j)) y (c :: g) d).
Proof.
  intros H L1 L2 Hij Hi L Gv (Q1 & Q2 & Q3) l Sf. pose proof (swap_reach w y c g d H) as Hc.
  eapply wp_mono; [eapply (wp_writes obj pass _ eq (leaders (of_objs q) (views c Ts i j)) l o w y (c :: g) d hint h k H Hi L); [| |try exact Gv|exact Sf]| |intros s e Ws; exact Ws].
  - eapply same_eq_r; [eapply (C44_unique_copy w c (y :: g) d Ts first last i j (of_objs q) (insert_out pass) o Hc L1 L2 Hij)|].
    + unfold of_objs. repeat split; eauto.
    + intros r x. reflexivity.
    + intros s. apply std_unique_copy_pure.
  - unfold of_objs. rewrite (leaders_map obj q), obj_views. reflexivity.
  - intros x Hx. apply leaders_in in Hx. apply Gv, Hx.
  - intros s n0. apply received_mono. intros _. eapply grouped_sub; [apply sub_leaders|]. eapply grouped_between; eauto.
Qed.
Example C81_unique_copy_ex lay : let E := dE lay in
  reach (dw lay) (dc lay :: dx lay :: []) [] /\ located (dx lay) (it_at (dx lay) 6 0) 0 /\ located (dx lay) (c_end (dx lay)) 5 /\ 0 <= 5 /\
  hint_is (dc lay) (it_at (dc lay) 1 1) (Some (1, 1)) /\ located (dc lay) (it_at (dc lay) 1 1) 1 /\ faithful by_ref (views (dx lay) [1] 0 5) /\
  equivalence (fun a b : tyid * nat => snd a / 6 =? snd b / 6) /\
  via_safe (Some (1, 1)) (dc lay) (leaders (fun a b => snd a / 6 =? snd b / 6) (between 0 5 (flat (dx lay)))) /\
  match pc_unique_copy (dx lay) [1] (it_at (dx lay) 6 0) (c_end (dx lay)) (insert_out by_ref) (pure2 (of_objs (fun a b => snd a / 6 =? snd b / 6))) 0 ((dc lay, dw lay), it_at (dc lay) 1 1) with Ok ((c', _), _) _ => length (elems c' 1) = 4 /\ elems c' 6 = [3] | _ => False end.
Proof.
  cbv zeta. csplit; try solve [demo_fact lay]; try apply hint_11; try apply by_ref_ok; try apply eq_6; try apply twice_ok; try solve [left; reflexivity]; try apply end_is_5; destruct lay; vm_compute; auto.
Qed.
(** The elements from [middle] on are written first.  With the two parts of a segment at the ends of the range, the elements of one type are not written in one go. *)
Theorem C81_rotate_copy {V} {E : Env V} w c g d y Ts first middle last i m j pass o hint h k : reach w (y :: c :: g) d ->
  located c first i -> located c middle m -> located c last j -> i <= m -> m <= j -> hint_is y hint h -> located y hint k -> faithful pass (views c Ts i j) ->
  let l := between m j (flat c) ++ between i m (flat c) in via_safe h y l ->
  wp (pc_rotate_copy c Ts first middle last (insert_out pass) o) ((y, w), hint)
    (fun s _ => received False y l (c :: g) d s) (write_stopped obj pass (views c Ts m j ++ views c Ts i m) y (c :: g) d).
Proof.
  intros H L1 L3 L2 Him Hmj Hi L Gv l Sf. pose proof (swap_reach w y c g d H) as Hc.
  assert (Q : skipn (m - i) (views c Ts i j) ++ firstn (m - i) (views c Ts i j) = views c Ts m j ++ views c Ts i m).
  { destruct (loc _ _ _ _ _ _ Hc L2) as [_ B2]. rewrite <- (ProofAlgo.views_app c Ts i m j Him Hmj). pose proof (ProofAlgo.views_length c Ts i m ltac:(lia)) as Q.
    rewrite skipn_app, firstn_app, Q, Nat.sub_diag, firstn_O, app_nil_r, skipn_O, <- Q, skipn_all, firstn_all. reflexivity. }
  eapply wp_mono; [eapply (wp_writes obj pass _ eq (views c Ts m j ++ views c Ts i m) l o w y (c :: g) d hint h k H Hi L); [| |try exact Gv|exact Sf]| |intros s e Ws; exact Ws].
  - rewrite <- Q. apply (C44_rotate_copy w c (y :: g) d Ts first middle last i m j (insert_out pass) o Hc L1 L3 L2 Him Hmj).
  - rewrite map_app, !obj_views. reflexivity.
  - intros x Hx. apply Gv. rewrite <- (ProofAlgo.views_app c Ts i m j Him Hmj). apply in_app_iff. apply in_app_iff in Hx. tauto.
  - intros s n0. apply received_mono. tauto.
Qed.
Example C81_rotate_copy_ex lay : let E := dE lay in
  reach (dw lay) (dc lay :: dx lay :: []) [] /\ located (dx lay) (it_at (dx lay) 6 0) 0 /\ located (dx lay) (c_end (dx lay)) 5 /\ 0 <= 5 /\
  hint_is (dc lay) (it_at (dc lay) 1 1) (Some (1, 1)) /\ located (dc lay) (it_at (dc lay) 1 1) 1 /\ faithful by_ref (views (dx lay) [1] 0 5) /\
  located (dx lay) (it_at (dx lay) 1 1) (offset (content (dx lay)) 1 + 1) /\ 0 <= (offset (content (dx lay)) 1 + 1) /\ (offset (content (dx lay)) 1 + 1) <= 5 /\
  via_safe (Some (1, 1)) (dc lay) (between (offset (content (dx lay)) 1 + 1) 5 (flat (dx lay)) ++ between 0 (offset (content (dx lay)) 1 + 1) (flat (dx lay))) /\
  match pc_rotate_copy (dx lay) [1] (it_at (dx lay) 6 0) (it_at (dx lay) 1 1) (c_end (dx lay)) (insert_out by_ref) 0 ((dc lay, dw lay), it_at (dc lay) 1 1) with Ok ((c', _), _) _ => length (elems c' 1) = 6 /\ elems c' 6 = [3] | _ => False end.
Proof.
  cbv zeta. csplit; try solve [demo_fact lay]; try apply hint_11; try apply by_ref_ok; try apply eq_6; try apply twice_ok; try solve [left; reflexivity]; try apply end_is_5; destruct lay; vm_compute; auto.
Qed.

(** What [op] makes of an element is inserted. *)
Theorem C81_transform {V} {E : Env V} w c g d y Ts first last i j op f o hint h k : reach w (y :: c :: g) d ->
  located c first i -> located c last j -> i <= j -> hint_is y hint h -> located y hint k -> (forall x, In x (views c Ts i j) -> gives (op x) (f (obj x))) ->
  let l := map f (between i j (flat c)) in via_safe h y l ->
  wp (pc_transform c Ts first last (fun _ x => ins x) (fun x => ret (op x)) o) ((y, w), hint)
    (fun s _ => received (forall e, fst (f e) = fst e) y l (c :: g) d s) (write_stopped (fun x => f (obj x)) op (views c Ts i j) y (c :: g) d).
Proof.
  intros H L1 L2 Hij Hi L Gv l Sf. pose proof (swap_reach w y c g d H) as Hc.
  eapply wp_mono; [eapply (wp_writes (fun x => f (obj x)) op _ eq (views c Ts i j) l o w y (c :: g) d hint h k H Hi L); [| |try exact Gv|exact Sf]| |intros s e Ws; exact Ws].
  - eapply same_eq_r; [apply (C44_transform w c (y :: g) d Ts first last i j (fun x => ret (op x)) (fun _ x => ins x) o Hc L1 L2 Hij)|].
    intros s. rewrite std_transform_pure. clear. revert o s. induction (views c Ts i j) as [|x xs IH]; intros o s; [reflexivity|]. cbn. unfold bind.
    destruct (ins (op x) s); auto.
  - unfold l. rewrite <- (obj_views c Ts), map_map. reflexivity.
  - intros s n0. apply received_mono. intros F. apply grouped_map; auto. eapply grouped_between; eauto.
Qed.
Example C81_transform_ex lay : let E := dE lay in
  reach (dw lay) (dc lay :: dx lay :: []) [] /\ located (dx lay) (it_at (dx lay) 6 0) 0 /\ located (dx lay) (c_end (dx lay)) 5 /\ 0 <= 5 /\
  hint_is (dc lay) (it_at (dc lay) 1 1) (Some (1, 1)) /\ located (dc lay) (it_at (dc lay) 1 1) 1 /\ faithful by_ref (views (dx lay) [1] 0 5) /\
  (forall x, In x (views (dx lay) [1] 0 5) -> gives (t_twice x) (twice (obj x))) /\
  via_safe (Some (1, 1)) (dc lay) (map twice (between 0 5 (flat (dx lay)))) /\
  match pc_transform (dx lay) [1] (it_at (dx lay) 6 0) (c_end (dx lay)) (fun _ x => ins x) (fun x => ret (t_twice x)) 0 ((dc lay, dw lay), it_at (dc lay) 1 1) with Ok ((c', _), _) _ => length (elems c' 1) = 6 /\ elems c' 6 = [6] | _ => False end.
Proof.
  cbv zeta. csplit; try solve [demo_fact lay]; try apply hint_11; try apply by_ref_ok; try apply eq_6; try apply twice_ok; try solve [left; reflexivity]; try apply end_is_5; destruct lay; vm_compute; auto.
Qed.
(** Either the element or the new value, an object [new] of any type, is inserted. *)
Theorem C81_replace_copy_if {V} {E : Env V} w c g d y Ts first last i j (q : tyid * V -> bool) pass new tv o hint h k : reach w (y :: c :: g) d ->
  located c first i -> located c last j -> i <= j -> hint_is y hint h -> located y hint k -> faithful pass (views c Ts i j) -> gives new tv ->
  let l := map (fun e => if q e then tv else e) (between i j (flat c)) in via_safe h y l ->
  let either (x : view V) := if of_obj q x then new else pass x in
  wp (pc_replace_copy_if c Ts first last (fun _ (x : arg V + view V) => ins (match x with inl n => n | inr v => pass v end)) (pure (of_obj q)) new o) ((y, w), hint)
    (fun s _ => received False y l (c :: g) d s) (write_stopped (fun x => if q (obj x) then tv else obj x) either (views c Ts i j) y (c :: g) d).
Proof.
  intros H L1 L2 Hij Hi L Gv Gn l Sf either. pose proof (swap_reach w y c g d H) as Hc.
  eapply wp_mono; [eapply (wp_writes (fun x => if q (obj x) then tv else obj x) either _ eq (views c Ts i j) l o w y (c :: g) d hint h k H Hi L); [| |try exact Gv|exact Sf]| |intros s e Ws; exact Ws].
  - eapply same_eq_r; [apply (C44_replace_copy_if w c (y :: g) d Ts first last i j new (pure (of_obj q)) (fun _ (x : arg V + view V) => ins (match x with inl n => n | inr v => pass v end)) o Hc L1 L2 Hij)|].
    intros s. unfold pure. rewrite std_replace_copy_if_pure. unfold either. clear. revert o s. induction (views c Ts i j) as [|x xs IH]; intros o s; [reflexivity|]. cbn. unfold bind.
    destruct (of_obj q x); [destruct (ins new s)|destruct (ins (pass x) s)]; auto.
  - unfold l. rewrite <- (obj_views c Ts), map_map. reflexivity.
  - intros x Hx. unfold either, of_obj. destruct (q (obj x)); auto.
  - intros s n0. apply received_mono. tauto.
Qed.
Example C81_replace_copy_if_ex lay : let E := dE lay in
  reach (dw lay) (dc lay :: dx lay :: []) [] /\ located (dx lay) (it_at (dx lay) 6 0) 0 /\ located (dx lay) (c_end (dx lay)) 5 /\ 0 <= 5 /\
  hint_is (dc lay) (it_at (dc lay) 1 1) (Some (1, 1)) /\ located (dc lay) (it_at (dc lay) 1 1) 1 /\ faithful by_ref (views (dx lay) [1] 0 5) /\
  gives (to 50 8) (5, 8) /\
  via_safe (Some (1, 1)) (dc lay) (map (fun e => if snd e =? 6 then (5, 8) else e) (between 0 5 (flat (dx lay)))) /\
  match pc_replace_copy_if (dx lay) [1] (it_at (dx lay) 6 0) (c_end (dx lay)) (fun _ (x : arg nat + view nat) => ins (match x with inl n => n | inr v => by_ref v end)) (pure (of_obj (fun e => snd e =? 6))) (to 50 8) 0 ((dc lay, dw lay), it_at (dc lay) 1 1) with Ok ((c', _), _) _ => elems c' 5 = [8] /\ elems c' 6 = [3] /\ length (elems c' 1) = 5 | _ => False end.
Proof.
  cbv zeta. csplit; try solve [demo_fact lay]; try apply hint_11; try apply by_ref_ok; try apply eq_6; try apply twice_ok; try solve [left; reflexivity]; try apply end_is_5; destruct lay; vm_compute; auto.
Qed.

(** Everything copied into an empty collection makes it equal to the source, unless a type has no reflexive ==. *)
Theorem C81_copy_all {V} {E : Env V} w c g d y Ts pass o h k hint w1 y1 it n : reach w (y :: c :: g) d ->
  hint_is y hint h -> located y hint k -> faithful pass (views c Ts 0 (length (flat c))) -> via_safe h y (flat c) -> flat y = [] ->
  pc_copy c Ts (c_begin c) (c_end c) (insert_out pass) o ((y, w), hint) = Ok ((y1, w1), it) n ->
  (forall t, elems y1 t = elems c t) /\
  ((forall t v, In v (elems c t) -> env_veq t v v = true) -> wp (c_equal c y1) w1 (fun _ b => b = true) (fun _ _ => True)).
Proof.
  intros H Hi L Gv Sf Em Run. pose proof (swap_reach w y c g d H) as Hc.
  assert (Fl : between 0 (length (flat c)) (flat c) = flat c) by (unfold between; rewrite Nat.sub_0_r; cbn; apply firstn_all).
  destruct (reach_alive _ _ _ H) as [G _ _]. rewrite Forall_forall in G.
  pose proof (G y (or_introl eq_refl)) as Wy. pose proof (G c (or_intror (or_introl eq_refl))) as Wc.
  pose proof (C81_copy w c g d y Ts (c_begin c) (c_end c) 0 (length (flat c)) pass o hint h k H (begin_located w c (y :: g) d Hc) (end_located c)
    (Nat.le_0_l _) Hi L Gv) as P.
  cbv zeta in P. rewrite Fl in P. specialize (P Sf). unfold wp in P. rewrite Run in P. destruct P as (R1 & T & Or & _).
  assert (Ey : forall t, elems y t = []).
  { intros t. rewrite <- (of_type_flat w y t (wc_map _ _ Wy)), Em. reflexivity. }
  assert (El : forall t, elems y1 t = elems c t).
  { intros t. rewrite (Or I), Ey, (of_type_flat w c t (wc_map _ _ Wc)); [reflexivity|]. intros e _. apply Ey. }
  split; auto. intros Rf. eapply wp_mono; [apply (C18_equal w1 (y1 :: c :: g) d c y1 R1); cbn; auto| |auto].
  intros w' b (Bb & _). apply Bb. intros t. rewrite El. unfold veqs. specialize (Rf t). induction (elems c t); constructor; auto; [apply Rf; left; auto|].
  apply IHl. intros v Hv. apply Rf. right. auto.
Qed.
Example C81_copy_all_ex lay : let E := dE lay in
  reach (dw lay) (c_empty 5 :: dc lay :: dx lay :: []) [] /\ hint_is (c_empty (V := nat) 5) (c_end (c_empty (V := nat) 5)) None /\ located (c_empty (V := nat) 5) (c_end (c_empty (V := nat) 5)) 0 /\
  faithful by_ref (views (dc lay) [1] 0 (length (flat (dc lay)))) /\ via_safe None (c_empty 5) (flat (dc lay)) /\ flat (c_empty (V := nat) 5) = [] /\
  done (pc_copy (dc lay) [1] (c_begin (dc lay)) (c_end (dc lay)) (insert_out by_ref) 0 ((c_empty 5, dw lay), c_end (c_empty (V := nat) 5))) = true.
Proof.
  cbv zeta. csplit; [apply r_new; demo_fact lay|reflexivity|apply (end_located (c_empty (V := nat) 5))|apply by_ref_ok|left; reflexivity|reflexivity|]. destruct lay; vm_compute; reflexivity.
Qed.

(** ** Two destinations *)

(** Two collections take the elements the predicate accepts and those it does not. *)
Theorem C81_partition_copy {V} {E : Env V} w c g d y z Ts first last i j q pass oo hint hint' h h' k k' : reach w (y :: z :: c :: g) d ->
  located c first i -> located c last j -> i <= j -> hint_is y hint h -> located y hint k -> hint_is z hint' h' -> located z hint' k' ->
  faithful pass (views c Ts i j) ->
  let l := filter q (between i j (flat c)) in let l' := filter (fun e => negb (q e)) (between i j (flat c)) in via_safe h y l -> via_safe h' z l' ->
  wp (pc_partition_copy c Ts first last (fun _ x => ins_first (pass x)) (fun _ x => ins_second (pass x)) (pure (of_obj q)) oo) (((y, z), w), (hint, hint'))
    (fun '(((y', z'), w'), _) _ => reach w' (y' :: z' :: c :: g) d /\ took y y' l /\ took z z' l' /\
       (without y l -> forall t, elems y' t = elems y t ++ of_type t l) /\ (without z l' -> forall t, elems z' t = elems z t ++ of_type t l'))
    (fun '(((y', z'), w'), _) e => gave_up2 (of_obj q)
       (fun pre y1 z1 => took y y1 (filter q (map obj pre)) /\ took z z1 (filter (fun e => negb (q e)) (map obj pre))) pass (views c Ts i j) (c :: g) d y' z' w' e).
Proof.
  intros H L1 L2 Hij Hi L Hi' L' Gv l l' Sf Sf'.
  assert (Hc : reach w (c :: y :: z :: g) d).
  { eapply r_perm; [exact H| |reflexivity]. etransitivity; [apply perm_skip, perm_swap|apply perm_swap]. }
  assert (F1 : forall xs, map obj (filter (of_obj q) xs) = filter q (map obj xs)) by (intros; unfold of_obj; apply filter_map_comm).
  assert (F2 : forall xs, map obj (filter (fun x => negb (of_obj q x)) xs) = filter (fun e => negb (q e)) (map obj xs)).
  { intros. unfold of_obj. apply (filter_map_comm obj (fun e => negb (q e))). }
  eapply wp_mono; [eapply wp_same; [apply (C44_partition_copy w c (y :: z :: g) d Ts first last i j (pure (of_obj q)) _ _ oo Hc L1 L2 Hij)|]| |].
  - apply (wp_split obj pass (of_obj q) (c :: g) d (views c Ts i j) oo w y z hint hint' h h' k k' Gv H Hi L Hi' L'); [rewrite F1|rewrite F2]; rewrite obj_views; auto.
  - intros [[[y' z'] w'] its] n (b & _ & R & D & D'). rewrite F1, obj_views in D. rewrite F2, obj_views in D'. csplit; auto; try (eapply did_took; eauto);
      intros Wo; eapply did_order; eauto; apply grouped_filter; eapply grouped_between; eauto.
  - intros [[[y' z'] w'] its] e (pre & x & post & w1 & y1 & z1 & r & A & B & (D & D') & Rj). exists pre, x, post, w1, y1, z1, r. csplit; auto.
    + rewrite <- F1. eapply did_took; eauto.
    + rewrite <- F2. eapply did_took; eauto.
Qed.
Example C81_partition_copy_ex lay : let E := dE lay in
  reach (dw lay) (dc lay :: c_empty 5 :: dx lay :: []) [] /\ located (dx lay) (it_at (dx lay) 6 0) 0 /\ located (dx lay) (c_end (dx lay)) 5 /\ 0 <= 5 /\
  hint_is (dc lay) (it_at (dc lay) 1 1) (Some (1, 1)) /\ located (dc lay) (it_at (dc lay) 1 1) 1 /\
  hint_is (c_empty (V := nat) 5) (c_end (c_empty (V := nat) 5)) None /\ located (c_empty (V := nat) 5) (c_end (c_empty (V := nat) 5)) 0 /\ faithful by_ref (views (dx lay) [1] 0 5) /\
  via_safe (Some (1, 1)) (dc lay) (filter (fun e => fst e =? 1) (between 0 5 (flat (dx lay)))) /\
  via_safe None (c_empty 5) (filter (fun e => negb (fst e =? 1)) (between 0 5 (flat (dx lay)))) /\
  match pc_partition_copy (dx lay) [1] (it_at (dx lay) 6 0) (c_end (dx lay)) (fun _ x => ins_first (by_ref x)) (fun _ x => ins_second (by_ref x))
    (pure (of_obj (fun e => fst e =? 1))) (0, 0) (((dc lay, c_empty 5), dw lay), (it_at (dc lay) 1 1, c_end (c_empty (V := nat) 5))) with
  | Ok (((y', z'), _), _) _ => elems y' 1 = [5; 5; 6; 7; 6; 7] /\ elems z' 6 = [3] /\ elems z' 7 = [4] | _ => False end.
Proof.
  cbv zeta. csplit; try solve [apply (swap_reach (dw lay) (c_empty 5) (dc lay)); apply r_new; exact (d_reach lay)]; try apply hint_11; try apply end_is_5; try apply by_ref_ok;
    try solve [left; reflexivity]; try solve [demo_fact lay]; try solve [apply (end_located (E := dE lay) (c_empty 5))]; destruct lay; vm_compute; auto.
Qed.

Print Assumptions C81_copy.
Print Assumptions C81_copy_n.
Print Assumptions C81_copy_if.
Print Assumptions C81_remove_copy_if.
Print Assumptions C81_unique_copy.
Print Assumptions C81_rotate_copy.
Print Assumptions C81_transform.
Print Assumptions C81_replace_copy_if.
Print Assumptions C81_copy_all.
Print Assumptions C81_partition_copy.
