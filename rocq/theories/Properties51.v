(** * Copying a collection element by element, and as a range (C89) *)

From Coq Require Import List Arith Lia Bool Permutation.
From Verif Require Import Base Vec Backend Segment Coll Info Spec Reach ProofBase ProofVec ProofBackend ProofOps ProofOps2 ProofSeg ProofMap ProofView ProofColl
  ProofIns ProofRange ProofReach ProofObs ProofProp ProofProp2 ProofProp3 ProofProp4 ProofProp5 ProofCopy Demo Properties1 Properties2 Properties3 Properties5 Loops Properties26 Grow Properties50 Each.
Import ListNotations.

(** [refers b e r]: [r] is the argument a reference to the element [e] is, the value type of the collection being [b] *)
Definition refers {V} {E : Env V} (b : tyid) (e : tyid * V) (r : arg V) : Prop :=
  gives r e /\ a_terminal r = false /\ env_ty (a_static r) = b /\ a_how r = HCopy.

(** [known y l]: the types of all elements of [l] are registered with [y] *)
Definition known {V} {E : Env V} (y : coll V) (l : list (tyid * V)) : Prop := incl (map fst l) (types y).

Lemma reach_in {V} {E : Env V} w y g d x : reach w (y :: g) d -> In x g -> exists gx, reach w (x :: gx) d.
Proof.
  intros H Hx. destruct (in_split x g Hx) as (g1 & g2 & ->). exists (y :: g1 ++ g2).
  eapply r_perm; [exact H| |reflexivity]. rewrite <- Permutation_middle. apply perm_swap.
Qed.
Lemma unchanged_added {V} {E : Env V} (y y1 y2 : coll V) l : added y y1 l -> unchanged y1 y2 -> added y y2 l.
Proof.
  intros (A & B) U. split; intros t.
  - rewrite elems_seg_at, (u_segs _ _ U), <- elems_seg_at. apply A.
  - unfold types at 1. rewrite (u_content _ _ U). apply B.
Qed.

Lemma insert_ref {V} {E : Env V} w y g d b e r : reach w (y :: g) d -> refers b e r -> fst e <> b ->
  wp (c_insert r) (y, w)
    (fun '(y', w') _ => In (fst e) (types y) /\ reach w' (y' :: g) d /\ added y y' [e])
    (fun '(y', w') x =>
       (~ In (fst e) (types y) /\ x = UnregisteredType (fst e) /\ unchanged y y' /\ reach w' (y' :: g) d) \/
       (In (fst e) (types y) /\ refused y y' w w' (fst e) HCopy (length (elems y (fst e))) x)).
Proof.
  intros H (G & Te & St & Ho) N. pose proof G as (Ty & Sr & Ok).
  assert (S : src_c y (env_ty (a_dyn r)) (a_how r) (a_src r) (snd e)) by (left; exact Sr).
  destruct (in_dec Nat.eq_dec (fst e) (types y)) as [I|I].
  - eapply wp_mono; [exact (insert_added w y g d r e H G)| |].
    + intros [y' w'] _ (R & A & _). auto.
    + intros [y' w'] x [((Nu & _) & _)|(_ & R)]; [rewrite Ty in Nu; contradiction|]. right. rewrite Ty, Ho in R. auto.
  - assert (U : unregistrable y r) by (split; [rewrite Ty; exact I|right; split; [exact Te|congruence]]).
    pose proof (spec_insert w y g d r (snd e) H Ok S) as Sp. cbv zeta in Sp. unfold wp in *.
    destruct (c_insert r (y, w)) as [[y' w'] it|[y' w'] x|] eqn:Q; [destruct Sp as (Nu & _); contradiction| |exact Sp].
    left. destruct Sp as [(_ & -> & Uc)|(Nu & _)]; [|contradiction]. rewrite Ty. csplit; auto.
    eapply r_call_exn; [exact H|eapply api_insert; [exact Ok|exact S]|unfold void, bind; rewrite Q; reflexivity|left; exact U].
Qed.

Lemma known_added {V} {E : Env V} (y y1 : coll V) l l' : added y y1 l -> known y l -> known y1 l' -> known y l'.
Proof. intros (_ & B) K K' t Ht. destruct (proj1 (B t) (K' t Ht)) as [I|I]; auto. Qed.

Lemma copy_each_spec {V} {E : Env V} b arg_of x g d : forall l w y a it n, reach w (y :: g) d -> In x g -> flat x = a ++ l ->
  located x it (length a) -> length l <= n -> (forall e, In e l -> refers b e (arg_of e) /\ fst e <> b) ->
  wp (copy_each n x arg_of it) (y, w)
    (fun '(y', w') _ => reach w' (y' :: g) d /\ known y l /\ added y y' l)
    (fun '(y', w') z => exists l1 e l2, l = l1 ++ e :: l2 /\ known y l1 /\
       ((~ In (fst e) (types y) /\ z = UnregisteredType (fst e) /\ added y y' l1 /\ reach w' (y' :: g) d) \/
        (In (fst e) (types y) /\ exists y1 w1, reach w1 (y1 :: g) d /\ added y y1 l1 /\
           refused y1 y' w1 w' (fst e) HCopy (length (elems y1 (fst e))) z))).
Proof.
  induction l as [|e l IH]; intros w y a it n H Hx F L Hn R.
  - destruct (reach_in w y g d x H Hx) as (gx & Rx).
    assert (Q : it_eq it (c_end x) = true).
    { destruct (C04_begin_end w x _ _ Rx) as (_ & Le & _). apply (C04_equality w x _ _ it (c_end x) _ _ Rx L Le). rewrite F, app_nil_r. reflexivity. }
    destruct n; cbn [copy_each]; rewrite Q; apply wp_ret; (csplit; [exact H|intros t []|apply added_nil]).
  - destruct n as [|n]; [simpl in Hn; lia|]. simpl in Hn.
    destruct (reach_in w y g d x H Hx) as (gx & Rx).
    destruct (C04_normalised w x _ _ it _ Rx L) as [(Hi & Hd & it' & Hn' & L')|(Hi & _)]; [|rewrite F, app_length in Hi; simpl in Hi; lia].
    rewrite F, mid_nth in Hd.
    assert (Q : it_eq it (c_end x) = false).
    { destruct (C04_begin_end w x _ _ Rx) as (_ & Le & _). destruct (it_eq it (c_end x)) eqn:Q; auto.
      apply (C04_equality w x _ _ it (c_end x) _ _ Rx L Le) in Q. lia. }
    destruct (R e (or_introl eq_refl)) as (Re & Ne).
    cbn [copy_each]. rewrite Q, Hd, Hn'. apply wp_bind.
    eapply wp_mono; [exact (insert_ref w y g d b e _ H Re Ne)| |].
    + intros [y1 w1] _ (I1 & H1 & A1).
      assert (K1 : known y [e]) by (intros t [<-|[]]; exact I1).
      assert (F' : flat x = (a ++ [e]) ++ l) by (rewrite <- app_assoc; exact F).
      assert (L2 : located x it' (length (a ++ [e]))) by (rewrite app_length, Nat.add_comm; exact L').
      assert (KC : forall l', known y1 l' -> known y (e :: l')).
      { intros l' K' t [<-|Ht]; [exact I1|]. exact (known_added y y1 [e] l' A1 K1 K' t Ht). }
      assert (Ty : forall t, In t (types y1) <-> In t (types y)).
      { intros t. rewrite (proj2 A1 t). split; [|auto]. intros [T|[<-|[]]]; auto. }
      eapply wp_mono; [exact (IH w1 y1 (a ++ [e]) it' n H1 Hx F' L2 ltac:(lia) (fun u Hu => R u (or_intror Hu)))| |].
      * intros [y2 w2] _ (H2 & K2 & A2). csplit; auto. exact (added_app y y1 y2 [e] l A1 A2).
      * intros [y2 w2] z (l1 & u & l2 & -> & K2 & [(N2 & Z2 & A2 & H2)|(I2 & y3 & w3 & H3 & A3 & R3)]);
          exists (e :: l1), u, l2; (split; [reflexivity|]; split; [exact (KC l1 K2)|]).
        -- left. csplit; auto; [rewrite <- Ty; exact N2|]. exact (added_app y y1 y2 [e] l1 A1 A2).
        -- right. split; [apply Ty; exact I2|]. exists y3, w3. csplit; auto. exact (added_app y y1 y3 [e] l1 A1 A3).
    + intros [y' w'] z X. exists [], e, l. split; [reflexivity|]. split; [intros t []|].
      destruct X as [(N1 & Z1 & U1 & H1)|(I1 & R1)].
      * left. csplit; auto. exact (unchanged_added y y y' [] (added_nil y) U1).
      * right. split; auto. exists y, w. csplit; auto using added_nil.
Qed.

(** The loop succeeds only if all types were known to [y] before, and then the elements of [x] are in
    [y], behind what was there, as insert(x.begin(),x.end()) would have put them. It never registers a type: at the first element of
    a type unknown to [y] it throws unregistered_type with that type, the elements before having been inserted and nothing else.
    If copying an element throws, those before have been inserted. [b] is the value type, no element being of
    that type itself (as is the case in any_collection, function_collection and for abstract bases). *)
Theorem C89_copy_each {V} {E : Env V} w y g d x b arg_of : reach w (y :: g) d -> In x g ->
  (forall e, In e (flat x) -> refers b e (arg_of e) /\ fst e <> b) ->
  wp (copy_each (length (flat x)) x arg_of (c_begin x)) (y, w)
    (fun '(y', w') _ => reach w' (y' :: g) d /\ known y (flat x) /\ added y y' (flat x))
    (fun '(y', w') z => exists l1 e l2, flat x = l1 ++ e :: l2 /\ known y l1 /\
       ((~ In (fst e) (types y) /\ z = UnregisteredType (fst e) /\ added y y' l1 /\ reach w' (y' :: g) d) \/
        (In (fst e) (types y) /\ exists y1 w1, reach w1 (y1 :: g) d /\ added y y1 l1 /\
           refused y1 y' w1 w' (fst e) HCopy (length (elems y1 (fst e))) z))).
Proof.
  intros H Hx R. destruct (reach_in w y g d x H Hx) as (gx & Rx). destruct (C04_begin_end w x _ _ Rx) as (L & _).
  exact (copy_each_spec b arg_of x g d (flat x) w y [] (c_begin x) _ H Hx eq_refl L (le_n _) R).
Qed.
(** A reference to an element of the demo collection; the value type is 9. *)
Definition demo_ref (e : tyid * nat) : arg nat := mkarg 90 (fst e * 10) true false HCopy (SVal (snd e)).
Lemma d_swapped lay : reach (E := dE lay) (dw lay) [dx lay; dc lay] [].
Proof. eapply r_perm; [apply d_reach|apply perm_swap|reflexivity]. Qed.
Example C89_copy_each_ex lay : let E := dE lay in let y := dx lay in let x := dc lay in
  reach (dw lay) [dx lay; dc lay] [] /\ In x [dc lay] /\ flat x = [(1, 5); (1, 6); (1, 7); (2, 8); (2, 9); (4, 1)] /\
  (forall e, In e (flat x) -> refers 9 e (demo_ref e) /\ fst e <> 9) /\
  match copy_each (length (flat x)) x demo_ref (c_begin x) (y, dw lay) with
  | Exn (y', _) z => z = UnregisteredType 2 /\ elems y' 1 = elems y 1 ++ [5; 6; 7] /\ types y' = types y
  | _ => False
  end.
Proof.
  cbv zeta. split; [apply d_swapped|]. split; [left; reflexivity|].
  assert (Q : flat (dc lay) = [(1, 5); (1, 6); (1, 7); (2, 8); (2, 9); (4, 1)]) by (clear; destruct lay; vm_compute; reflexivity).
  split; [exact Q|]. split; [|clear; destruct lay; vm_compute; repeat split; reflexivity].
  rewrite Q. intros e He. cbn [In] in He.
  assert (G : refers (E := dE lay) 9 e (demo_ref e)).
  { split; [|split; [reflexivity|split; [reflexivity|reflexivity]]].
    split; [exact (Nat.div_mul (fst e) 10 ltac:(lia))|]. split; [reflexivity|]. intros T. discriminate T. }
  split; [exact G|]. destruct He as [<-|[<-|[<-|[<-|[<-|[<-|[]]]]]]]; intros T; discriminate T.
Qed.

(** The range of the whole collection, on the other hand, brings its types with it: insert(x.begin(),x.end()) puts the same
    elements in the same places, whatever types [y] knew about, and never throws unregistered_type. *)
Theorem C89_range {V} {E : Env V} w y g d x : reach w (y :: g) d -> In x g ->
  wp (c_insert_from (length (flat x)) x (c_begin x) (c_end x)) (y, w)
    (fun '(y', w') _ => reach w' (y' :: g) d /\ added y y' (flat x))
    (fun '(y', w') z => forall t, z <> UnregisteredType t).
Proof.
  intros H Hx. destruct (reach_in w y g d x H Hx) as (gx & Rx). destruct (C04_begin_end w x _ _ Rx) as (L & Le & _).
  eapply wp_mono; [eapply (api_reach_unit _ w y g d); [exact H|eapply (api_from g y x _ _ 0 (length (flat x)) Hx L Le); lia|exact (C13_insert_from w y g d x _ _ 0 _ H Hx L Le ltac:(lia))]| |].
  - intros [y' w'] _ (R & G & _). cbn [fst snd] in R. rewrite Nat.sub_0_r in G. cbn [skipn] in G. rewrite firstn_all in G. split; [exact R|].
    split; intros t; [exact (grew_end _ _ _ t G)|apply (g_types _ _ _ _ G)].
  - intros [y' w'] z (_ & pre & t & v & post & c1 & _ & _ & [(hw & _ & _ & T & _)|(r & N & _)]) u Z.
    + subst z. destruct T as [([T|(T & _)] & _)|[(T & _)|(T & _)]]; discriminate T.
    + destruct (length pre); discriminate N.
Qed.
Example C89_range_ex lay : let E := dE lay in let y := dx lay in let x := dc lay in
  reach (dw lay) [dx lay; dc lay] [] /\ In x [dc lay] /\
  match c_insert_from (length (flat x)) x (c_begin x) (c_end x) (y, dw lay) with
  | Ok (y', _) _ => elems y' 1 = elems y 1 ++ [5; 6; 7] /\ elems y' 2 = [8; 9] /\ elems y 2 = [] /\ ~ In 2 (types y)
  | _ => False
  end.
Proof.
  cbv zeta. split; [apply d_swapped|]. split; [left; reflexivity|].
  clear; destruct lay; vm_compute; repeat split; intros T; repeat (destruct T as [T|T]; [discriminate T|]); exact T.
Qed.

Print Assumptions C89_copy_each.
Print Assumptions C89_range.
