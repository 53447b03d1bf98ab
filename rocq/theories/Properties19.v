(** * What insert takes an expression for (C67)

    See the head of Properties1.v for the form of the statements.  Expressions are modelled in Types.v; SpecTypes.v
    says what they mean to the program. *)

From Coq Require Import List Arith Lia Bool.
From Verif Require Import Base Vec Backend Segment Coll Spec SpecFail Types SpecTypes Reach ProofBase ProofSeg ProofMap ProofView ProofColl
  ProofRange ProofReach ProofObs ProofProp ProofProp2 ProofProp3 ProofNever ProofFail Properties5 Demo.
Import ListNotations.

(** ** C67 What is inserted is the object meant, complete and under its own type *)

Lemma acceptable_spec L k ct : is_acceptable L k ct = true <-> acceptable L k ct.
Proof.
  unfold acceptable.
  assert (I : is_implementation L k ct = true <-> implements L k ct) by (destruct k; simpl; tauto).
  assert (U : is_implementation L k ct && l_move_con L (ct_id ct) && (l_move_asg L (ct_id ct) || l_nt_move_con L (ct_id ct)) = true <->
    implements L k ct /\ l_move_con L (ct_id ct) = true /\ (l_move_asg L (ct_id ct) = true \/ l_nt_move_con L (ct_id ct) = true)).
  { rewrite !andb_true_iff, orb_true_iff, I. tauto. }
  destruct k as [b| |]; unfold is_acceptable; try (rewrite U; intuition discriminate).
  destruct ct as [t|t ti r a m|t]; try (rewrite U; intuition discriminate).
  rewrite andb_true_iff, U, !orb_true_iff. split.
  - intros (Q & A & B & C). csplit; auto. intros _ t' ti' r' a' m' Q'. inversion Q'; subst. tauto.
  - intros (A & B & C & D). specialize (D eq_refl t ti r a m eq_refl). tauto.
Qed.
Lemma exact_spec L k ct : is_terminal L k ct = true <-> exact L k ct.
Proof.
  destruct k as [b| |]; simpl; [tauto| |].
  - destruct ct as [t|t [] r a m|t]; split; try discriminate; auto; intros Q; exfalso; eapply Q; reflexivity.
  - destruct ct as [t|t ti r a m|t]; split; try discriminate; auto; intros Q; exfalso; eapply Q; reflexivity.
Qed.

(** What the type traits of the library accept is what is meant to be accepted. *)
Theorem C67_traits L k ct :
  (is_acceptable L k ct = true <-> acceptable L k ct) /\ (is_terminal L k ct = true <-> exact L k ct) /\
  (compiles L k ct = true <-> insertable L k ct).
Proof.
  split; [apply acceptable_spec|]. split; [apply exact_spec|]. unfold compiles, insertable, knowable.
  rewrite !andb_true_iff, orb_true_iff, negb_true_iff, acceptable_spec.
  assert (I : is_implementation L k ct = true <-> implements L k ct) by (destruct k; simpl; tauto).
  rewrite I. assert (T := exact_spec L k ct). assert (NT : is_terminal L k ct = false <-> ~ exact L k ct).
  { rewrite <- T. destruct (is_terminal L k ct); intuition discriminate. }
  assert (D : exact L k ct \/ ~ exact L k ct) by (rewrite <- T; destruct (is_terminal L k ct); [left|right; discriminate]; auto).
  assert (X : match k with KBase _ => is_terminal L k ct || l_poly L (ct_id ct) | _ => true end = true <->
    match k with KBase _ => exact L k ct \/ l_poly L (ct_id ct) = true | _ => True end).
  { destruct k; try tauto. rewrite orb_true_iff, T. tauto. }
  rewrite X. tauto.
Qed.

(** ** The object found *)

Lemma object_at_in {V} (h : list (object V)) o : mem_ok h -> In o h -> object_at h (o_addr o) (o_ty o) = Some o.
Proof.
  intros M Hin. unfold object_at. destruct (find _ h) as [o'|] eqn:F.
  - apply find_some in F. destruct F as (Hin' & Q). apply andb_true_iff in Q. destruct Q as (Qa & Qt).
    apply Nat.eqb_eq in Qa. apply Nat.eqb_eq in Qt. f_equal. apply M; auto.
  - apply (find_none _ _ F) in Hin. rewrite !Nat.eqb_refl in Hin. discriminate.
Qed.
Lemma self_whole {V} {E : Env V} L h (e : expr V) : lang_ok L -> mem_ok h -> designates L h e ->
  o_ty (e_whole e) = ct_id (e_type e) -> e_self e = e_whole e.
Proof.
  intros O M D Q. destruct D. apply M; auto; [|congruence]. rewrite ds_place, Q, ds_type, (lo_off L O). lia.
Qed.
Lemma found {V} {E : Env V} L k h (e : expr V) o : lang_ok L -> mem_ok h -> designates L h e -> knowable L k (e_type e) ->
  stands_for k e = Some o ->
  env_ty (subtypeid L k e) = o_ty o /\ read_sub L k h e = Some (o_val o) /\ read_push L k h e = Some (o_val o) /\
  (is_terminal L k (e_type e) = true -> o_ty o = ct_id (e_type e)) /\
  (is_terminal L k (e_type e) = true -> e_self e = o).
Proof.
  intros O M D I St. assert (SW := self_whole L h e O M D). assert (D' := D). destruct D'.
  assert (X : env_ty (subtypeid L k e) = o_ty o /\ subaddress L k e = o_addr o /\ In o h /\
    (is_terminal L k (e_type e) = true -> o_ty o = ct_id (e_type e)) /\ (is_terminal L k (e_type e) = true -> e_self e = o) /\
    (o_ty o = ct_id (e_type e) -> e_self e = o)).
  { unfold stands_for in St. unfold subtypeid, subaddress. destruct k as [b| |].
    - inversion St; subst o. destruct (is_terminal L (KBase b) (e_type e)) eqn:T.
      + simpl in T. assert (W := lo_final L O _ _ T ltac:(rewrite <- ds_type; exact ds_base)).
        rewrite (lo_typeid L O). csplit; auto. rewrite SW; auto.
      + destruct I as [Ex|Po]; [apply exact_spec in Ex; congruence|]. rewrite Po, (lo_rtti L O). csplit; auto; discriminate.
    - destruct (e_type e) as [t|t [] r a m|t] eqn:T; simpl in St |- *; try (inversion St; subst o; rewrite (lo_typeid L O); csplit; auto).
      rewrite St. destruct (ds_held o St) as (A & B). rewrite (lo_rtti L O). csplit; auto; try discriminate. intros C. elim B; auto.
    - destruct (e_type e) as [t|t ti r a m|t] eqn:T; simpl in St |- *; try (inversion St; subst o; rewrite (lo_typeid L O); csplit; auto).
      rewrite St. destruct (ds_held o St) as (A & B). rewrite (lo_rtti L O). csplit; auto; try discriminate. intros C. elim B; auto. }
  destruct X as (A & B & C & F & G & H').
  assert (R : read_sub L k h e = Some (o_val o)).
  { unfold read_sub. rewrite A, B, object_at_in; auto. }
  csplit; auto. unfold read_push. destruct (_ && _) eqn:Q; auto. apply andb_true_iff in Q. destruct Q as (_ & Q).
  apply orb_true_iff in Q. destruct Q as [Q|Q]; [rewrite (G Q); auto|].
  apply Nat.eqb_eq in Q. rewrite A, (lo_typeid L O) in Q. rewrite (H' Q). auto.
Qed.

Lemma arg_of_ok {V} {E : Env V} L k h (e : expr V) o v : lang_ok L -> mem_ok h -> designates L h e -> insertable L k (e_type e) ->
  stands_for k e = Some o -> arg_ok (arg_of L k e v).
Proof.
  intros O M D I St T. destruct (found L k h e o O M D (proj2 (proj2 I)) St) as (A & _ & _ & F & _). simpl in *. rewrite A, (lo_typeid L O), F; auto.
Qed.
Lemma stranger_spec {V} {E : Env V} L k h (e : expr V) o v c : lang_ok L -> mem_ok h -> designates L h e -> insertable L k (e_type e) ->
  stands_for k e = Some o -> (unregistrable c (arg_of L k e v) <-> stranger L k c (e_type e) o).
Proof.
  intros O M D I St. destruct (found L k h e o O M D (proj2 (proj2 I)) St) as (A & _ & _ & F & _).
  unfold unregistrable, stranger. simpl. rewrite A, (lo_typeid L O). rewrite <- acceptable_spec.
  assert (Na : is_acceptable L k (e_type e) = false <-> ~ is_acceptable L k (e_type e) = true)
    by (destruct (is_acceptable L k (e_type e)); intuition discriminate).
  rewrite Na. split; intros (X & Y); split; auto; destruct Y as [Y|Y]; auto; [tauto|].
  right. split; auto. destruct (is_terminal L k (e_type e)); auto. elim Y. auto.
Qed.
Lemma made_by_spec {V} (e : expr V) : made_by e (how_of e).
Proof.
  unfold made_by, moved_from, how_of. destruct (e_rvalue e), (e_const e); split; intros Q; try reflexivity; try (destruct Q; discriminate); elim Q; auto.
Qed.

Lemma insert_expr_eq {V} {E : Env V} L k h (e : expr V) v : read_push L k h e = Some v ->
  insert_expr L k h e = c_insert (arg_of L k e v).
Proof. intros R. unfold insert_expr. rewrite R. reflexivity. Qed.
Lemma insert_hint_expr_eq {V} {E : Env V} L k hint h (e : expr V) v : read_push L k h e = Some v -> read_sub L k h e = Some v ->
  insert_hint_expr L k hint h e = c_insert_hint hint (arg_of L k e v).
Proof. intros R R'. unfold insert_hint_expr. rewrite R, R'. reflexivity. Qed.

(** insert(x): the object meant, not a part of it or a wrapper around it, becomes the last element of its own type, and the result points to it.  If the collection has no place for
    such objects, unregistered_type is thrown and nothing changes; other exceptions are as in C08. *)
Theorem C67_insert {V} {E : Env V} w c g d L k h e o : let n := length (elems c (o_ty o)) in
  reach w (c :: g) d -> lang_ok L -> mem_ok h -> designates L h e -> insertable L k (e_type e) -> stands_for k e = Some o ->
  wp (insert_expr L k h e) (c, w)
    (fun '(c', w') it => ~ stranger L k c (e_type e) o /\ inserted c c' (o_ty o) n (o_val o) /\ points c' it (o_ty o) n)
    (fun '(c', w') x =>
       (stranger L k c (e_type e) o /\ x = UnregisteredType (o_ty o) /\ unchanged c c') \/
       (~ stranger L k c (e_type e) o /\ exists hw, made_by e hw /\ refused c c' w w' (o_ty o) hw n x)).
Proof.
  intros n H O M D I St. destruct (found L k h e o O M D (proj2 (proj2 I)) St) as (A & _ & R & _).
  rewrite (insert_expr_eq L k h e _ R). assert (Sp := stranger_spec L k h e o (o_val o) c O M D I St).
  eapply wp_mono; [eapply (spec_insert w c g d (arg_of L k e (o_val o)) (o_val o) H); [eapply arg_of_ok; eauto|left; reflexivity]| |].
  - intros [c' w'] it. cbn [arg_of a_dyn a_how a_src]. rewrite A, Sp. auto.
  - intros [c' w'] x. unfold rejected. rewrite Sp. cbn [arg_of a_dyn a_how a_src]. rewrite A.
    intros [Q|(Q & Q')]; [left; auto|right]. split; auto. exists (how_of e). split; auto. apply made_by_spec.
Qed.
(* A program with an interface 8, implemented by 1 to 5; 4 is derived from 2.  A 4 at address 100 holds a 2 and an 8.  At 200 is
   an any (type 6) which holds a 5; at 300 an empty one. *)
Definition demo_lang : lang := {|
  l_base_of := fun b t => (b =? t) || ((b =? 8) && (1 <=? t) && (t <=? 5)) || ((b =? 2) && (t =? 4));
  l_final := fun t => (t =? 1) || (t =? 4) || (t =? 6);
  l_poly := fun t => negb (t =? 6);
  l_off := fun t b => if t =? b then 0 else if b =? 8 then 8 else 16;
  l_move_con := fun t => negb (t =? 8);
  l_move_asg := fun t => negb (t =? 8);
  l_nt_move_con := fun t => t <? 6;
  l_invocable := fun t => negb (t =? 8);
  l_typeid := fun t => 10 * t;
  l_rtti := fun a t => 10 * t + 1;
  l_void := 0
|}.
Lemma demo_lang_ok lay : lang_ok (E := dE lay) demo_lang.
Proof.
  split.
  - intros t. cbn. rewrite Nat.eqb_refl. reflexivity.
  - intros t u F B. cbn in F, B. destruct (Nat.eqb_spec t u); auto.
    assert (t = 1 \/ t = 4 \/ t = 6) as [->|[->| ->]].
    { destruct (Nat.eqb_spec t 1), (Nat.eqb_spec t 4), (Nat.eqb_spec t 6); auto; discriminate. }
    all: discriminate.
  - intros t. cbn. rewrite Nat.eqb_refl. reflexivity.
  - intros t. cbn [l_typeid demo_lang]. change (env_ty (Env := dE lay) (10 * t)) with (10 * t / 10). rewrite Nat.mul_comm. apply Nat.div_mul. lia.
  - intros a t. cbn [l_rtti demo_lang]. change (env_ty (Env := dE lay) (10 * t + 1)) with ((10 * t + 1) / 10).
    rewrite Nat.add_comm, Nat.mul_comm, Nat.div_add by lia. reflexivity.
Qed.
Definition demo_mem : list (object nat) :=
  [mkobj 8 108 71; mkobj 2 116 70; mkobj 4 100 7; mkobj 6 200 72; mkobj 5 240 6; mkobj 6 300 73; mkobj 8 248 74; mkobj 3 250 75].
Lemma demo_mem_ok : mem_ok demo_mem.
Proof. intros o o' H H' A T. cbn in H, H'. intuition subst; cbn in *; try discriminate; reflexivity. Qed.
(* a reference to the interface of the 4; ... to the 2 it is derived from; ... to the 5 *)
Definition by_base : expr nat := mkexpr (CType 8) true false (mkobj 8 108 71) (mkobj 4 100 7) None.
Definition by_middle : expr nat := mkexpr (CType 2) false true (mkobj 2 116 70) (mkobj 4 100 7) None.
Definition to_five : expr nat := mkexpr (CType 8) false false (mkobj 8 248 74) (mkobj 5 240 6) None.
Definition full_any : expr nat := mkexpr (CAny 6 true false true false) false false (mkobj 6 200 72) (mkobj 6 200 72) (Some (mkobj 5 240 6)).
Definition empty_any : expr nat := mkexpr (CAny 6 true false true false) false false (mkobj 6 300 73) (mkobj 6 300 73) None.
Ltac demo_in := repeat (first [left; reflexivity|right]).
Ltac demo_designates := split; [demo_in|demo_in|reflexivity|reflexivity|reflexivity|
  intros ? DQ; cbn [e_held by_base by_middle to_five full_any empty_any] in DQ; first [discriminate DQ|injection DQ as <-; split; [demo_in|discriminate]]|
  intros ? DQ; discriminate DQ].
Lemma demo_exprs : Forall (designates demo_lang demo_mem) [by_base; by_middle; to_five; full_any; empty_any].
Proof. repeat (apply Forall_cons; [demo_designates|]). constructor. Qed.
Example C67_insert_ex lay : let E := dE lay in let c := dc lay in
  let done_ e k := state (void (insert_expr demo_lang k demo_mem e) (c, dw lay)) in
  reach (dw lay) [c; dx lay] [] /\ lang_ok demo_lang /\ mem_ok demo_mem /\
  Forall (designates demo_lang demo_mem) [by_base; by_middle; to_five; full_any; empty_any] /\
  Forall (insertable demo_lang (KBase 8)) [CType 8; CType 2] /\ insertable demo_lang KAny (e_type full_any) /\
  stands_for (KBase 8) by_base = Some (mkobj 4 100 7) /\ elems (fst (done_ by_base (KBase 8))) 4 = [1; 7] /\
  stands_for (KBase 8) by_middle = Some (mkobj 4 100 7) /\ elems (fst (done_ by_middle (KBase 8))) 4 = [1; 7] /\
  stands_for (KBase 8) to_five = Some (mkobj 5 240 6) /\ stranger demo_lang (KBase 8) c (e_type to_five) (mkobj 5 240 6) /\
  stands_for KAny full_any = Some (mkobj 5 240 6).
Proof.
  assert (I : Forall (insertable demo_lang (KBase 8)) [CType 8; CType 2]).
  { constructor; [apply C67_traits; reflexivity|constructor; [apply C67_traits; reflexivity|constructor]]. }
  cbv zeta. csplit; try reflexivity; [apply d_reach|apply demo_lang_ok|apply demo_mem_ok|apply demo_exprs|exact I| |demo_fact lay|demo_fact lay|].
  - apply C67_traits. reflexivity.
  - split; [destruct lay; vm_compute; intuition discriminate|right; discriminate].
Qed.
Example C67_traits_ex : compiles demo_lang (KBase 8) (CType 8) = true /\ is_acceptable demo_lang (KBase 8) (CType 8) = false /\
  is_terminal demo_lang (KBase 8) (CType 4) = true /\ compiles demo_lang (KBase 8) (CType 6) = false /\ is_acceptable demo_lang KAny (CAny 6 true false false false) = false.
Proof. csplit; reflexivity. Qed.

(** insert(hint,x): the same at the position hinted at, if that is in the segment of the object's type. *)
Theorem C67_insert_hint {V} {E : Env V} w c g d L k h e o hint i n :
  reach w (c :: g) d -> lang_ok L -> mem_ok h -> designates L h e -> insertable L k (e_type e) -> stands_for k e = Some o ->
  located c hint i -> hint_at c hint (o_ty o) n -> hint_safe c hint (o_ty o) ->
  wp (insert_hint_expr L k hint h e) (c, w)
    (fun '(c', w') it => ~ stranger L k c (e_type e) o /\ inserted c c' (o_ty o) n (o_val o) /\ points c' it (o_ty o) n)
    (fun '(c', w') x =>
       (stranger L k c (e_type e) o /\ x = UnregisteredType (o_ty o) /\ unchanged c c') \/
       (~ stranger L k c (e_type e) o /\ exists hw, made_by e hw /\ refused c c' w w' (o_ty o) hw n x)).
Proof.
  intros H O M D I St Lc Ha Hs. destruct (found L k h e o O M D (proj2 (proj2 I)) St) as (A & R' & R & _).
  rewrite (insert_hint_expr_eq L k hint h e _ R R'). assert (Sp := stranger_spec L k h e o (o_val o) c O M D I St).
  eapply wp_mono; [eapply (spec_insert_hint w c g d hint i n (arg_of L k e (o_val o)) (o_val o) H Lc);
    cbn [arg_of a_dyn]; rewrite ?A; auto; [eapply arg_of_ok; eauto|left; reflexivity]| |].
  - intros [c' w'] it. cbn [arg_of a_dyn a_how a_src]. rewrite A, Sp. auto.
  - intros [c' w'] x. unfold rejected. rewrite Sp. cbn [arg_of a_dyn a_how a_src]. rewrite A.
    intros [Q|(Q & Q')]; [left; auto|right]. split; auto. exists (how_of e). split; auto. apply made_by_spec.
Qed.
Example C67_insert_hint_ex lay : let E := dE lay in let c := dc lay in let hint := it_at c 4 0 in
  reach (dw lay) [c; dx lay] [] /\ lang_ok demo_lang /\ mem_ok demo_mem /\ designates demo_lang demo_mem by_base /\
  insertable demo_lang (KBase 8) (e_type by_base) /\ stands_for (KBase 8) by_base = Some (mkobj 4 100 7) /\
  located c hint 5 /\ hint_at c hint 4 0 /\ hint_safe c hint 4 /\
  elems (fst (state (void (insert_hint_expr demo_lang (KBase 8) hint demo_mem by_base) (c, dw lay)))) 4 = [7; 1].
Proof.
  cbv zeta. csplit; [apply d_reach|apply demo_lang_ok|apply demo_mem_ok|exact (Forall_inv demo_exprs)|apply C67_traits; reflexivity|reflexivity|
    demo_fact lay|left; demo_fact lay|right; left; demo_fact lay|demo_fact lay].
Qed.

(** insert(pos,x), with a local iterator of the segment for the object's type. *)
Theorem C67_insert_pos {V} {E : Env V} w c g d L k h e o pos n :
  reach w (c :: g) d -> lang_ok L -> mem_ok h -> designates L h e -> knowable L k (e_type e) -> stands_for k e = Some o ->
  lpoints c pos (o_ty o) n ->
  wp (insert_pos_expr L k pos h e) (c, w)
    (fun '(c', w') l => inserted c c' (o_ty o) n (o_val o) /\ lpoints c' l (o_ty o) n)
    (fun '(c', w') x => exists hw, made_by e hw /\ refused c c' w w' (o_ty o) hw n x).
Proof.
  intros H O M D I St Lp. destruct (found L k h e o O M D I St) as (A & R' & _). unfold insert_pos_expr. rewrite R'. cbn [with_value].
  eapply wp_mono; [eapply (spec_insert_pos w c g d pos n (arg_of L k e (o_val o)) (o_val o) H);
    cbn [arg_of a_dyn]; rewrite ?A; auto; left; reflexivity| |]; intros [c' w'] it; cbn [arg_of a_dyn a_how a_src]; rewrite A; auto.
  intros Q. exists (how_of e). split; auto. apply made_by_spec.
Qed.
Example C67_insert_pos_ex lay : let E := dE lay in let c := dc lay in
  reach (dw lay) [c; dx lay] [] /\ lang_ok demo_lang /\ mem_ok demo_mem /\ designates demo_lang demo_mem by_base /\
  knowable demo_lang (KBase 8) (e_type by_base) /\ stands_for (KBase 8) by_base = Some (mkobj 4 100 7) /\
  lpoints c (li_base c 4 1) 4 1 /\ elems c 4 = [1].
Proof.
  cbv zeta. csplit; [apply d_reach|apply demo_lang_ok|apply demo_mem_ok|exact (Forall_inv demo_exprs)|right; reflexivity|reflexivity|
    demo_fact lay|demo_fact lay].
Qed.

(** insert(first,last): the objects meant are appended, each to the elements of its type, in order. *)
Lemma insert_loop_eq {V} {E : Env V} L k h (es : list (expr V)) vs : Forall2 (fun e v => read_push L k h e = Some v) es vs ->
  insert_loop L k h es = c_insert_range (map (fun '(e, v) => arg_of L k e v) (combine es vs)).
Proof.
  induction 1 as [|e v es vs R F IH]; auto. cbn [insert_loop combine map c_insert_range].
  rewrite (insert_expr_eq L k h e v R), IH. reflexivity.
Qed.
Lemma harmed_more {V} {E : Env V} (c c' : coll V) t m m' : harmed c c' t m -> m <= m' -> harmed c c' t m'.
Proof. intros [A B C D F] L. split; auto. lia. Qed.
Lemma left_harmed {V} {E : Env V} (c c' : coll V) t m vs : harmed c c' t m -> vs <> [] -> m = length vs ->
  left_over None c c' (map (pair t) vs).
Proof.
  intros Hm Ne ->. destruct vs as [|v vs]; [congruence|]. exists [], t, v, (map (pair t) vs), c. csplit; auto; [apply grew_refl|].
  right. rewrite map_length. exact Hm.
Qed.
Lemma left_broke {V} {E : Env V} xs hs h (c c' : coll V) w w' l e : broke_off xs hs h c c' w w' l e -> left_over h c c' l.
Proof.
  intros (_ & pre & t & v & post & c1 & Q & G & [(hw & _ & Hm & _)|(x & _ & _ & _ & _ & U)]); exists pre, t, v, post, c1; csplit; auto.
  right. eapply harmed_more; eauto. lia.
Qed.
Lemma threw_copy {V} {E : Env V} t h n m w w' t' : threw (V := V) t h n m w w' (NotCopyConstructible t') ->
  t = t' /\ (h = HCopy \/ env_nt_move t = false).
Proof. intros [([|(? & _)] & _)|[(Q & _ & [->|(N & _)])|(? & _)]]; try discriminate; injection Q as <-; auto. Qed.
Lemma broke_copy {V} {E : Env V} xs hs h (c c' : coll V) w w' l t : broke_off xs hs h c c' w w' l (NotCopyConstructible t) ->
  env_nt_move t = true -> exists pre v post, l = pre ++ (t, v) :: post /\ nth_error hs (length pre) = Some HCopy.
Proof.
  intros (_ & pre & t' & v & post & c1 & Q & G & [(hw & Nh & _ & T & _)|(x & _ & _ & _ & ? & _)]) Nt; [|discriminate].
  destruct (threw_copy _ _ _ _ _ _ _ T) as (-> & [->|N]); [|congruence]. eauto.
Qed.
Theorem C67_range {V} {E : Env V} w c g d L k h ct fwd hw es os :
  reach w (c :: g) d -> lang_ok L -> mem_ok h -> insertable L k ct ->
  Forall (fun e => designates L h e /\ e_type e = ct /\ made_by e hw) es -> Forall2 (fun e o => stands_for k e = Some o) es os ->
  wp (insert_exprs L k h ct fwd hw es) (c, w)
    (fun '(c', w') _ => grew None c c' (map typed os) /\ c_al c' = c_al c)
    (fun '(c', w') x => excuse c (map typed os) w w' x /\ left_over None c c' (map typed os) /\ copy_demanded k es x).
Proof.
  intros H O M I Fe Fo. unfold insert_exprs. destruct (is_terminal L k ct) eqn:T.
  - assert (Q : map (fun e => o_val (e_self e)) es = map o_val os /\ map typed os = map (pair (ct_id ct)) (map o_val os)).
    { clear - O M I Fe Fo T. induction Fo as [|e o es os St Fo IH]; auto. inversion Fe as [|? ? (D & <- & _) Fe']; subst.
      destruct (IH Fe') as (Q0 & Q). destruct (found L k h e o O M D (proj2 (proj2 I)) St) as (_ & _ & _ & F & G).
      cbn [map]. rewrite Q0, Q, (G T). split; auto. f_equal. unfold typed. rewrite (F T). auto. }
    destruct Q as (-> & ->). assert (P := spec_insert_range_terminal w c g d (l_typeid L (ct_id ct)) hw fwd (map o_val os) H).
    cbv zeta in P. rewrite (lo_typeid L O) in P. eapply wp_mono; [exact P|auto|].
    intros [c' w'] x (Ne & Hm & Th & _). csplit; [|eapply left_harmed; eauto; rewrite map_length; auto|].
    + eapply excuse_threw; eauto.
      * rewrite of_type_len. lia.
      * destruct os; [elim Ne; reflexivity|]. left. reflexivity.
    + intros t -> Nt. destruct (threw_copy _ _ _ _ _ _ _ Th) as (<- & [->|N]); [|congruence].
      destruct Fo as [|e o es os St Fo]; [elim Ne; reflexivity|]. inversion Fe as [|? ? (D & Ct & Mb) Fe']; subst.
      exists e, o. csplit; [left; auto|exact St| |intros Mf; discriminate (proj1 Mb Mf)].
      destruct (found L k h e o O M D (proj2 (proj2 I)) St) as (_ & _ & _ & F & _). rewrite (F T). reflexivity.
  - assert (Q : Forall2 (fun e v => read_push L k h e = Some v) es (map o_val os) /\
      Forall2 gives (map (fun '(e, v) => arg_of L k e v) (combine es (map o_val os))) (map typed os)).
    { clear - O M I Fe Fo. induction Fo as [|e o es os St Fo IH]; [split; constructor|]. inversion Fe as [|? ? (D & <- & _) Fe']; subst.
      destruct (IH Fe') as (A & B). destruct (found L k h e o O M D (proj2 (proj2 I)) St) as (Ty & _ & R & _).
      split; constructor; auto. split; [exact Ty|]. split; [reflexivity|]. eapply arg_of_ok; eauto. }
    destruct Q as (Q1 & Q2). rewrite (insert_loop_eq L k h es _ Q1).
    eapply wp_mono; [apply (spec_insert_range w c g d _ _ H Q2)|auto|]. intros [c' w'] x B. csplit; [eapply excuse_broke; eauto|eapply left_broke; eauto|].
    intros t -> Nt. destruct (broke_copy _ _ _ _ _ _ _ _ _ B Nt) as (pre & v & post & El & Nh). clear - Fo El Nh.
    revert pre El Nh. induction Fo as [|e o es os St Fo IH]; intros [|p pre] El Nh; try discriminate; injection El as Ep El; cbn in Nh.
    + injection Nh as Nh. exists e, o. csplit; [left; auto|exact St|exact Ep|]. intros Mf. rewrite (proj1 (made_by_spec e) Mf) in Nh. discriminate.
    + destruct (IH pre El Nh) as (e' & o' & I' & R). exists e', o'. split; [right; auto|exact R].
Qed.
(* in an any_collection: an any with a 5 and an any with a 1, of the same static type; by a base: two ways to the same 4, and a 5 *)
Definition any_with (o : object nat) : expr nat := mkexpr (CAny 6 true false true false) false false (mkobj 6 200 72) (mkobj 6 200 72) (Some o).
Definition to_four : expr nat := mkexpr (CType 8) false false (mkobj 8 108 71) (mkobj 4 100 7) None.
Example C67_range_ex lay : let E := dE lay in let c := dc lay in
  reach (dw lay) [c; dx lay] [] /\ lang_ok demo_lang /\ mem_ok demo_mem /\ insertable demo_lang (KBase 8) (CType 8) /\ insertable demo_lang KAny (CType 4) /\
  Forall (fun e => designates demo_lang demo_mem e /\ e_type e = CType 8 /\ made_by e HCopy) [to_four; to_five; to_four] /\
  Forall2 (fun e o => stands_for (KBase 8) e = Some o) [to_four; to_five; to_four] [mkobj 4 100 7; mkobj 5 240 6; mkobj 4 100 7] /\
  elems (fst (state (insert_exprs demo_lang (KBase 8) demo_mem (CType 8) true HCopy [to_four; to_four] (c, dw lay)))) 4 = [1; 7; 7].
Proof.
  assert (D4 : designates demo_lang demo_mem to_four) by (unfold to_four, to_five; demo_designates).
  assert (D5 : designates demo_lang demo_mem to_five) by (unfold to_four, to_five; demo_designates).
  assert (M : forall e, e_rvalue e = false -> made_by (V := nat) e HCopy).
  { intros e R. split; auto. intros (Q & _). congruence. }
  cbv zeta. csplit; [apply d_reach|apply demo_lang_ok|apply demo_mem_ok|apply C67_traits; reflexivity|apply C67_traits; reflexivity| | |demo_fact lay].
  - repeat (apply Forall_cons; [csplit; auto|]). constructor.
  - repeat (apply Forall2_cons; [reflexivity|]). constructor.
Qed.

(** insert(pos,first,last) with a local_iterator<T>: objects of type T are inserted as they are, and whatever else is met is
    converted to a T first. *)
Lemma local_arg_ok {V} {E : Env V} L k h (e : expr V) t ctor conv v : lang_ok L -> mem_ok h -> designates L h e ->
  (implements L k (e_type e) -> knowable L k (e_type e)) -> t <> l_void L -> local_value L k t ctor conv e v ->
  exists x, local_arg L k t ctor conv h e = Some x /\ snd x = v /\
    (way t x = HCopy -> (exists o, stands_for k e = Some o /\ o_ty o = t) /\ ~ moved_from e) /\
    (implements L k (e_type e) -> forall o, stands_for k e = Some o -> o_ty o = t -> ~ moved_from e -> fst x = (Some t, HCopy)).
Proof.
  assert (Hc : forall m, how_of e = m -> (m = HCopy -> ~ moved_from e) /\ (~ moved_from e -> m = HCopy)).
  { intros m <-. destruct (made_by_spec e) as (A & B). split; [intros Q Mf; rewrite (A Mf) in Q; discriminate|exact B]. }
  intros O M D Kn Nv Lv. assert (I : is_implementation L k (e_type e) = true <-> implements L k (e_type e)) by (destruct k; simpl; tauto).
  unfold local_arg. destruct Lv as [(Im & o & St & Ty & ->)|(Ne & -> & ->)].
  - destruct (found L k h e o O M D (Kn Im) St) as (A & R & _). apply I in Im. rewrite Im, A, Ty, Nat.eqb_refl, R. cbn.
    eexists. csplit; [reflexivity|reflexivity| |].
    + intros Q. cbn [way] in Q. rewrite Nat.eqb_refl in Q. split; [eauto|]. apply (Hc _ eq_refl). exact Q.
    + intros _ o' _ _ Nm. cbn. f_equal. apply (Hc _ eq_refl). exact Nm.
  - destruct (is_implementation L k (e_type e)) eqn:Im.
    2:{ cbn. eexists. csplit; [reflexivity|reflexivity|intros Q; discriminate Q|]. intros Im'. apply I in Im'. discriminate. }
    destruct (Nat.eqb_spec (env_ty (subtypeid L k e)) t) as [Q|Q]; [exfalso|].
    2:{ cbn. eexists. csplit; [reflexivity|reflexivity| |].
        { cbn [way]. destruct (Nat.eqb_spec (env_ty (subtypeid L k e)) t) as [Z|_]; [elim Q; exact Z|]. discriminate. }
        intros Im' o St Ty.
        destruct Ne as [Ne|Ne]; [elim Ne; auto|]. elim (Ne o St Ty). }
    destruct Ne as [Ne|Ne]; [apply Ne, I; auto|]. destruct (stands_for k e) as [o|] eqn:St.
    + destruct (found L k h e o O M D (Kn (proj1 I eq_refl)) St) as (A & _). apply (Ne o); auto. congruence.
    + unfold stands_for in St. unfold subtypeid in Q. destruct k as [b| |]; [discriminate| |].
      * destruct (e_type e) as [t'|t' [] r a m|t']; try discriminate. rewrite St, (lo_typeid L O) in Q. auto.
      * destruct (e_type e) as [t'|t' ti r a m|t'] eqn:Et; try discriminate. elim (ds_wrapper _ _ _ D _ Et St).
Qed.
Lemma insert_local_loop_eq {V} {E : Env V} L k i t ctor conv h (es : list (expr V)) xs :
  Forall2 (fun e x => local_arg L k t ctor conv h e = Some x) es xs ->
  forall p s, insert_local_loop L k i t ctor conv h p es s = c_insert_lpos_loop i t p xs s.
Proof.
  induction 1 as [|e x es xs R F IH]; intros p s; auto. cbn [insert_local_loop]. rewrite R. destruct x as [[ot hw] v].
  cbn [c_insert_lpos_loop]. unfold bind.
  match goal with |- context [on_seg i ?m s] => destruct (on_seg i m s) as [s1 q|s1 x|]; auto end.
  destruct (on_seg i (seg_to_conc q) s1) as [s2 r|s2 x|]; auto. cbn [ret]. apply IH.
Qed.
Lemma local_args_ok {V} {E : Env V} L k h t ctor conv (es : list (expr V)) vs : lang_ok L -> mem_ok h -> t <> l_void L ->
  Forall (fun e => designates L h e /\ (implements L k (e_type e) -> knowable L k (e_type e))) es ->
  Forall2 (local_value L k t ctor conv) es vs ->
  exists xs, Forall2 (fun e x => local_arg L k t ctor conv h e = Some x) es xs /\ map snd xs = vs /\
    Forall2 (fun e x => way t x = HCopy -> (exists o, stands_for k e = Some o /\ o_ty o = t) /\ ~ moved_from e) es xs /\
    (forall e o, In e es -> implements L k (e_type e) -> stands_for k e = Some o -> o_ty o = t -> ~ moved_from e ->
       Exists (fun '(ot, h, _) => ot = Some t /\ h = HCopy) xs).
Proof.
  intros O M Nv Fe Fv. induction Fv as [|e v es vs Q Fv IH]; [exists []; csplit; auto; intros e o []|].
  inversion Fe as [|? ? (D & Kn) Fe']; subst. destruct (IH Fe') as (xs & A & <- & W1 & W2).
  destruct (local_arg_ok L k h e t ctor conv v O M D Kn Nv Q) as (x & B & <- & W3 & W4). exists (x :: xs). csplit; auto.
  intros e' o [<-|I'] Im St Ty Nm; [left|right; eauto]. assert (Z := W4 Im o St Ty Nm). destruct x as [[ot hw] v']. injection Z as -> ->. auto.
Qed.
Theorem C67_local_range {V} {E : Env V} w c g d L k h i p n a ctor conv es vs : let t := env_ty a in
  reach w (c :: g) d -> lang_ok L -> mem_ok h -> lpoints c (mkliter i (PConc p)) t n -> t <> l_void L ->
  Forall (fun e => designates L h e /\ (implements L k (e_type e) -> knowable L k (e_type e))) es ->
  Forall2 (local_value L k t ctor conv) es vs ->
  wp (insert_local_exprs L k i a ctor conv h p es) (c, w)
    (fun '(c', w') l => grew (Some (t, n)) c c' (map (pair t) vs) /\ lpoints c' l t n /\ c_al c' = c_al c)
    (fun '(c', w') x => excuse c (map (pair t) vs) w w' x /\ left_over (Some (t, n)) c c' (map (pair t) vs) /\ copy_demanded k es x).
Proof.
  intros t H O M Lp Nv Fe Fv.
  destruct (local_args_ok L k h t ctor conv es vs O M Nv Fe Fv) as (xs & X & <- & Wy & _). assert (Ln : length es = length xs) by (clear - X; induction X; simpl; auto).
  assert (Q : insert_local_exprs L k i a ctor conv h p es (c, w) = c_insert_lpos_range i t p xs (c, w)).
  { unfold insert_local_exprs, c_insert_lpos_range, bind. rewrite (insert_local_loop_eq L k i t ctor conv h es xs X), Ln. reflexivity. }
  unfold wp. rewrite Q. assert (S := spec_insert_lpos_range w c g d i p n a xs H Lp). unfold wp in S. fold t in S.
  destruct (c_insert_lpos_range i t p xs (c, w)) as [[c' w'] l|[c' w'] x|]; auto. csplit; [eapply excuse_broke; eauto|eapply left_broke; eauto|].
  intros t0 -> Nt. destruct (broke_copy _ _ _ _ _ _ _ _ _ S Nt) as (pre & v & post & El & Nh). clear - Wy El Nh.
  assert (T : t0 = t).
  { assert (I : In (t0, v) (map (pair t) (map snd xs))) by (rewrite El; apply in_elt). apply in_map_iff in I.
    destruct I as (? & Q & _). injection Q as -> _. reflexivity. }
  subst t0. clear El. revert Nh. generalize (length pre) as n. clear pre post v.
  induction Wy as [|e x es xs W1 Wy IH]; intros [|n] Nh; try discriminate; cbn in Nh.
  - injection Nh as Nh. destruct (W1 Nh) as ((o & St & Ty) & Nm). exists e, o. csplit; auto. left. reflexivity.
  - destruct (IH n Nh) as (e' & o' & I' & R). exists e', o'. split; [right; auto|exact R].
Qed.
(* at the first 4: a copy of the 4, and a 4 made from the 5 *)
Example C67_local_range_ex lay : let E := dE lay in let c := dc lay in let l := li_conc c 4 0 in let conv := fun e => 100 + o_val (e_whole e) in
  exists p, li_pos l = PConc p /\
  reach (dw lay) [c; dx lay] [] /\ lang_ok demo_lang /\ mem_ok demo_mem /\ lpoints c l 4 0 /\ 4 <> l_void demo_lang /\
  Forall (fun e => designates demo_lang demo_mem e /\ (implements demo_lang (KBase 8) (e_type e) -> knowable demo_lang (KBase 8) (e_type e))) [to_four; to_five] /\
  Forall2 (local_value demo_lang (KBase 8) 4 true conv) [to_four; to_five] [7; 106] /\
  elems (fst (state (void (insert_local_exprs demo_lang (KBase 8) (li_map l) 40 true conv demo_mem p [to_four; to_five]) (c, dw lay)))) 4 = [7; 106; 1].
Proof.
  cbv zeta. destruct (li_pos (li_conc (dc lay) 4 0)) as [p|p] eqn:Q; [destruct lay; vm_compute in Q; discriminate|]. exists p.
  assert (D4 : designates demo_lang demo_mem to_four) by (unfold to_four, to_five; demo_designates).
  assert (D5 : designates demo_lang demo_mem to_five) by (unfold to_four, to_five; demo_designates).
  csplit; [reflexivity|apply d_reach|apply demo_lang_ok|apply demo_mem_ok|demo_fact lay|discriminate| | |].
  - repeat (apply Forall_cons; [split; [assumption|right; reflexivity]|]). constructor.
  - apply Forall2_cons; [|apply Forall2_cons; [|constructor]].
    + left. split; [reflexivity|]. exists (mkobj 4 100 7). csplit; reflexivity.
    + right. csplit; try reflexivity. right. intros o Qo. injection Qo as <-. discriminate.
  - destruct lay; vm_compute in Q; injection Q as <-; vm_compute; reflexivity.
Qed.

(** An empty any stands for nothing: nothing is inserted (unless void has been registered, which no API call but
    that of a collection with such a type can do). *)
Theorem C67_empty_any {V} {E : Env V} w c g d L h e : reach w (c :: g) d -> lang_ok L ->
  stands_for KAny e = None -> l_void L <> ct_id (e_type e) -> ~ In (l_void L) (types c) ->
  wp (insert_expr L KAny h e) (c, w) (fun _ _ => False)
    (fun '(c', w') x => x = UnregisteredType (l_void L) /\ unchanged c c').
Proof.
  intros H O St Nv Nt. unfold stands_for in St. destruct (e_type e) as [t|t [] r a m|t] eqn:Et; try discriminate.
  assert (Ty : env_ty (subtypeid L KAny e) = l_void L) by (unfold subtypeid; rewrite Et, St; apply (lo_typeid L O)).
  set (x := arg_of L KAny e (o_val (e_self e))).
  assert (U : unregistrable c x).
  { split; [cbn [x arg_of a_dyn]; rewrite Ty; auto|]. destruct (a_acceptable x) eqn:A; auto. right.
    cbn [x arg_of a_dyn a_static a_terminal]. rewrite Ty, Et, (lo_typeid L O). auto. }
  destruct (reach_wf _ _ _ _ H) as (W & Ow). unfold insert_expr. fold x. apply wp_bind.
  eapply (wp_map_iterator_for x c w _ _); [apply W|exact Ow| | | |].
  - intros Tr. cbn [x arg_of a_terminal] in Tr. rewrite Et in Tr. discriminate.
  - intros w' c' n _ Q. elim Q. apply unregistrable_arg, U.
  - intros w' c' x' _ Q. elim Q. apply unregistrable_arg, U.
  - intros w' l _ _ _ _. split; [|apply nodes_unchanged; auto]. cbn [x arg_of a_dyn]. rewrite Ty. auto.
Qed.
Example C67_empty_any_ex lay : let E := dE lay in
  reach (dw lay) [dc lay; dx lay] [] /\ lang_ok demo_lang /\ stands_for KAny empty_any = None /\ l_void demo_lang <> ct_id (e_type empty_any) /\
  ~ In (l_void demo_lang) (types (dc lay)).
Proof. cbv zeta. csplit; [apply d_reach|apply demo_lang_ok|reflexivity|discriminate|destruct lay; vm_compute; intuition discriminate]. Qed.

(** Lvalues and const rvalues are copied, so they must be copyable; other rvalues need not be. *)
Theorem C67_copied {V} {E : Env V} w c g d L k h e o : reach w (c :: g) d -> lang_ok L -> mem_ok h -> designates L h e ->
  insertable L k (e_type e) -> stands_for k e = Some o -> env_copyable (o_ty o) = false ->
  (~ moved_from e -> exists s x, insert_expr L k h e (c, w) = Exn s x) /\
  (moved_from e -> env_nt_move (o_ty o) = true ->
   wp (insert_expr L k h e) (c, w) (fun _ _ => True) (fun _ x => forall t, x <> NotCopyConstructible t)).
Proof.
  intros H O M D I St Nc. destruct (found L k h e o O M D (proj2 (proj2 I)) St) as (A & _ & R & _).
  assert (Mb := made_by_spec e). split.
  - intros Nm. assert (P := C67_insert w c g d L k h e o H O M D I St). unfold wp in P.
    assert (N : never (insert_expr L k h e)).
    { rewrite (insert_expr_eq L k h e _ R). apply never_c_insert. split; [apply Mb, Nm|]. cbn [arg_of a_dyn]. rewrite A. exact Nc. }
    destruct (insert_expr L k h e (c, w)) as [s a|s x|] eqn:Q; [elim (N (c, w) s a Q)|eauto|contradiction].
  - intros Mf Nt. rewrite (insert_expr_eq L k h e _ R). eapply (C36_insert w c g d (arg_of L k e (o_val o)) (o_val o)); auto.
    + eapply arg_of_ok; eauto.
    + left. reflexivity.
    + cbn [arg_of a_dyn]. rewrite A. auto.
    + cbn [arg_of a_how]. rewrite (proj1 Mb Mf). discriminate.
Qed.
(* a 3, which cannot be copied, as an lvalue and as an rvalue *)
Definition three (rv : bool) : expr nat := mkexpr (CType 3) false rv (mkobj 3 250 75) (mkobj 3 250 75) None.
Example C67_copied_ex lay : let E := dE lay in
  reach (dw lay) [dc lay; dx lay] [] /\ lang_ok demo_lang /\ mem_ok demo_mem /\ (forall rv, designates demo_lang demo_mem (three rv)) /\
  (forall rv, insertable demo_lang (KBase 8) (e_type (three rv))) /\ (forall rv, stands_for (KBase 8) (three rv) = Some (mkobj 3 250 75)) /\
  env_copyable 3 = false /\ ~ moved_from (three false) /\ moved_from (three true) /\ env_nt_move 3 = true /\
  elems (fst (state (void (insert_expr demo_lang (KBase 8) demo_mem (three true)) (dc lay, dw lay)))) 3 = [75].
Proof.
  cbv zeta. csplit; [apply d_reach|apply demo_lang_ok|apply demo_mem_ok|intros rv; unfold three; demo_designates|intros rv; apply C67_traits; reflexivity|
    reflexivity|reflexivity|intros (Q & _); discriminate Q|split; reflexivity|reflexivity|demo_fact lay].
Qed.

(** The same at the position of a local_iterator<T>: a T which is not moved from must be copyable. *)
Theorem C67_local_copied {V} {E : Env V} w c g d L k h i p n a ctor conv es vs e o : let t := env_ty a in
  reach w (c :: g) d -> lang_ok L -> mem_ok h -> lpoints c (mkliter i (PConc p)) t n -> t <> l_void L ->
  Forall (fun e => designates L h e /\ (implements L k (e_type e) -> knowable L k (e_type e))) es ->
  Forall2 (local_value L k t ctor conv) es vs -> env_copyable t = false ->
  In e es -> implements L k (e_type e) -> stands_for k e = Some o -> o_ty o = t -> ~ moved_from e ->
  exists s x, insert_local_exprs L k i a ctor conv h p es (c, w) = Exn s x.
Proof.
  intros t H O M Lp Nv Fe Fv Nc Hi Im St Ty Nm.
  assert (P := C67_local_range w c g d L k h i p n a ctor conv es vs H O M Lp Nv Fe Fv).
  destruct (local_args_ok L k h t ctor conv es vs O M Nv Fe Fv) as (xs & X & _ & _ & Ex). assert (Ln : length es = length xs) by (clear - X; induction X; simpl; auto).
  assert (Q : insert_local_exprs L k i a ctor conv h p es (c, w) = c_insert_lpos_range i t p xs (c, w)).
  { unfold insert_local_exprs, c_insert_lpos_range, bind. rewrite (insert_local_loop_eq L k i t ctor conv h es xs X), Ln. reflexivity. }
  unfold wp in P. fold t in P. assert (N := never_c_lpos_range i t p xs Nc (Ex e o Hi Im St Ty Nm)). rewrite Q in *.
  destruct (c_insert_lpos_range i t p xs (c, w)) as [s l|s x|] eqn:Z; [elim (N (c, w) s l Z)|eauto|contradiction].
Qed.
(* two 3s: the second is an lvalue *)
Example C67_local_copied_ex lay : let E := dE lay in let l := li_conc (dc lay) 3 0 in let conv := fun e => 100 + o_val (e_whole e) in
  exists p, li_pos l = PConc p /\
  reach (dw lay) [dc lay; dx lay] [] /\ lang_ok demo_lang /\ mem_ok demo_mem /\ lpoints (dc lay) l 3 0 /\ 3 <> l_void demo_lang /\
  Forall (fun e => designates demo_lang demo_mem e /\ (implements demo_lang (KBase 8) (e_type e) -> knowable demo_lang (KBase 8) (e_type e))) [three true; three false] /\
  Forall2 (local_value demo_lang (KBase 8) 3 false conv) [three true; three false] [75; 75] /\ env_copyable 3 = false /\
  In (three false) [three true; three false] /\ implements demo_lang (KBase 8) (e_type (three false)) /\
  stands_for (KBase 8) (three false) = Some (mkobj 3 250 75) /\ ~ moved_from (three false) /\
  elems (fst (state (void (insert_local_exprs demo_lang (KBase 8) (li_map l) 30 false conv demo_mem p [three true; three true]) (dc lay, dw lay)))) 3 = [75; 75].
Proof.
  cbv zeta. destruct (li_pos (li_conc (dc lay) 3 0)) as [p|p] eqn:Q; [destruct lay; vm_compute in Q; discriminate|]. exists p.
  assert (D : forall rv, designates demo_lang demo_mem (three rv)) by (intros rv; unfold three; demo_designates).
  csplit; [reflexivity|apply d_reach|apply demo_lang_ok|apply demo_mem_ok|demo_fact lay|discriminate| | |reflexivity|right; left; reflexivity|
    reflexivity|reflexivity|intros (Z & _); discriminate Z|].
  - repeat (apply Forall_cons; [split; [apply D|right; reflexivity]|]). constructor.
  - repeat (apply Forall2_cons; [left; split; [reflexivity|]; exists (mkobj 3 250 75); csplit; reflexivity|]). constructor.
  - destruct lay; vm_compute in Q; injection Q as <-; vm_compute; reflexivity.
Qed.

Print Assumptions C67_traits.
Print Assumptions C67_insert.
Print Assumptions C67_insert_hint.
Print Assumptions C67_insert_pos.
Print Assumptions C67_range.
Print Assumptions C67_local_range.
Print Assumptions C67_empty_any.
Print Assumptions C67_copied.
Print Assumptions C67_local_copied.
