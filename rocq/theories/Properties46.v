(** * C87: conversions between local iterators; C85: what overload resolution is

    See the head of Properties1.v for the form of the statements. *)

From Coq Require Import List Arith Lia Bool ZArith.
From Verif Require Import Base Vec Backend Segment Coll Types Overload Stride LocalConv Spec SpecOver Reach ProofBase ProofVec ProofBackend ProofOps ProofSeg ProofMap ProofView ProofColl ProofReach ProofIns
  ProofObs ProofProp Demo Properties42.
Import ListNotations.
Local Open Scope nat_scope.

(** ** C85 Overload resolution *)

(** What is chosen is viable and better than every other viable overload, and the only one which is; a call does not compile if none is viable, and is ambiguous if some are
    but no such one exists. *)
Theorem C85_resolution {O} (eqb : O -> O -> bool) all via special : (forall x y, eqb x y = true <-> x = y) -> NoDup all ->
  let candidate o := In o all /\ via o <> Impossible in
  let beats o o' := (via o = Exact /\ via o' = User) \/ (via o = via o' /\ special o o' = true) in
  let best o := candidate o /\ forall o', candidate o' -> o' <> o -> beats o o' in
  match resolve eqb all via special with
  | Chosen o => best o /\ forall o', best o' -> o' = o
  | NoMatch => forall o, ~ candidate o
  | Ambiguous => (exists o, candidate o) /\ ~ exists o, best o /\ forall o', best o' -> o' = o
  end.
Proof.
  intros Eq Nd. cbv zeta.
  assert (Hv : forall o, In o (filter (viable via) all) <-> In o all /\ via o <> Impossible).
  { intros o. rewrite filter_In. unfold viable. destruct (via o); split; intros (A & B); split; auto; congruence. }
  set (os := filter (viable via) all) in *.
  assert (Hb : forall o, In o (filter (fun o => forallb (fun o' => eqb o o' || better via special o o') os) os) <->
    (In o all /\ via o <> Impossible) /\ forall o', In o' all /\ via o' <> Impossible -> o' <> o -> (via o = Exact /\ via o' = User) \/ (via o = via o' /\ special o o' = true)).
  { intros o. rewrite filter_In, Hv, forallb_forall. split; intros (A & B); (split; [exact A|]).
    - intros o' C Ne. apply Hv in C as C'. specialize (B o' C'). apply orb_true_iff in B as [B|B]; [apply Eq in B; congruence|].
      unfold better in B. destruct A as [_ A], C as [_ C]. destruct (via o), (via o'); try congruence; auto.
    - intros o' C. apply Hv in C. apply orb_true_iff. destruct (eqb o o') eqn:Q; [auto|]. right.
      assert (Ne : o' <> o) by (intros ->; assert (eqb o o = true) by (apply Eq; reflexivity); congruence).
      destruct (B o' C Ne) as [[X Y]|[X Y]]; unfold better; [rewrite X, Y; reflexivity|]. destruct A as [_ A]. rewrite <- X. destruct (via o); try congruence; exact Y. }
  assert (Nb : NoDup (filter (fun o => forallb (fun o' => eqb o o' || better via special o o') os) os)) by (apply NoDup_filter; apply NoDup_filter; exact Nd).
  unfold resolve. fold os. destruct os as [|o0 os0] eqn:Eo.
  { intros o C. apply Hv in C. destruct C. }
  rewrite <- Eo in *. set (bs := filter (fun o => forallb (fun o' => eqb o o' || better via special o o') os) os) in *.
  assert (Am : ~ (exists o, bs = [o]) -> (exists o, In o all /\ via o <> Impossible) /\
    ~ exists o, ((In o all /\ via o <> Impossible) /\ forall o', In o' all /\ via o' <> Impossible -> o' <> o -> (via o = Exact /\ via o' = User) \/ (via o = via o' /\ special o o' = true)) /\
      forall o', ((In o' all /\ via o' <> Impossible) /\ forall o'', In o'' all /\ via o'' <> Impossible -> o'' <> o' -> (via o' = Exact /\ via o'' = User) \/ (via o' = via o'' /\ special o' o'' = true)) -> o' = o).
  { intros Nx. split; [exists o0; apply Hv; rewrite Eo; left; reflexivity|]. intros (o & B & U). apply Hb in B. apply Nx.
    assert (All : forall x, In x bs -> x = o) by (intros x Hx; apply U; apply Hb; exact Hx).
    destruct bs as [|x [|y l]]; [destruct B|exists x; reflexivity|]. exfalso. inversion Nb as [|? ? Nx' _]; subst. apply Nx'. left.
    rewrite (All x), (All y); [reflexivity|right; left; reflexivity|left; reflexivity]. }
  destruct bs as [|o [|o' l]].
  - apply Am. intros (o & Q). discriminate.
  - split; [apply Hb; left; reflexivity|]. intros o' B. apply Hb in B as [->|[]]. reflexivity.
  - apply Am. intros (x & Q). discriminate.
Qed.
Example C85_resolution_ex :
  (forall x y, over2_eqb x y = true <-> x = y) /\ NoDup all2 /\
  resolve Nat.eqb [1; 2; 3] (fun o => if o =? 3 then Exact else User) (fun _ _ => false) = Chosen 3 /\
  resolve Nat.eqb [1; 2; 3] (fun o => if o =? 3 then Impossible else User) Nat.ltb = Chosen 1 /\
  resolve Nat.eqb [1; 2; 3] (fun _ => User) (fun _ _ => false) = Ambiguous /\ resolve Nat.eqb [1; 2; 3] (fun _ => Impossible) (fun _ _ => false) = NoMatch.
Proof.
  csplit; try reflexivity.
  - intros [] []; cbn; split; congruence.
  - repeat constructor; cbn; intuition discriminate.
Qed.

(** ** C87 Conversions between local iterators *)

(** A local iterator of that kind (local_base_iterator or not). *)
Definition of_kind (x : bty) (l : liter) : Prop := match x with TBase _ => exists p, li_pos l = PBase p | TPtr _ _ => exists p, li_pos l = PConc p end.
(** A type of local iterators for a segment with elements of type [t]. *)
Definition for_type (t : tyid) (x : bty) : Prop := match x with TBase _ => True | TPtr u _ => u = t end.

(** A pointer to [u] is one to [t] as well: the same class, or [t] is a base of it. *)
Definition is_a (L : lang) (u t : tyid) : Prop := u = t \/ l_base_of L t u = true.
Lemma is_a_eq L u t : is_a L u t <-> ptr_conv L t u = true.
Proof. unfold is_a, ptr_conv. rewrite orb_true_iff, Nat.eqb_eq. split; intros [A|A]; auto. Qed.
Lemma not_is_a L u t : ~ is_a L u t <-> ptr_conv L t u = false.
Proof. rewrite is_a_eq. destruct (ptr_conv L t u); split; congruence. Qed.
Lemma insertable_concrete L k t : insertable L k (CType t) -> to_concrete_ok L k t = true.
Proof. unfold insertable, to_concrete_ok. destruct k; cbn [ct_id]; intros Q; auto. apply is_a_eq. right. exact Q. Qed.

(** Every conversion between the four types of local iterators of a segment which is documented compiles, implicitly where it is said to be implicit and only explicitly elsewhere
    (except to local_iterator<T> for the value type or a base of it). *)
Theorem C87_documented L k value t : insertable L k (CType t) -> ~ is_a L value t ->
  let implicit from to := lctor_of L k value from to = Some ByConversion in
  let explicit from to := exists f, lctor_of L k value from to = Some f /\ f <> ByConversion in
  (forall x, implicit x x) /\ implicit (TBase false) (TBase true) /\ implicit (TPtr t false) (TPtr t true) /\
  (forall c, explicit (TBase c) (TPtr t c)) /\ (forall c, explicit (TPtr t c) (TBase c)).
Proof.
  intros Ok Nv. apply insertable_concrete in Ok. apply not_is_a in Nv. cbv zeta. assert (R : forall u, ptr_conv L u u = true) by (intros u; unfold ptr_conv; rewrite Nat.eqb_refl; reflexivity).
  unfold lctor_of, constructible, convertible. csplit.
  - intros [[]|u []]; cbn; rewrite ?R; reflexivity.
  - reflexivity.
  - cbn. rewrite R. reflexivity.
  - intros []; cbn; rewrite Nv, Ok; cbn; eexists; split; [reflexivity|discriminate|reflexivity|discriminate].
  - intros []; cbn; rewrite Ok, ?orb_true_r; cbn; destruct (ptr_conv L value t); cbn; eexists; split; try reflexivity; discriminate.
Qed.
(** Whatever the conversion, it gives an iterator to the same position, for the same element.  For any_collection and function_collection the elements are to be of a type not related to
    the value type of the collection; see [C87_related_refuted]. *)
Theorem C87_position_partial {V} {E : Env V} w c g d L k value from to l t i f : reach w (c :: g) d -> lpoints c l t i -> of_kind from l -> for_type t from -> for_type t to ->
  (env_layout = SplitLayout -> ~ is_a L value t /\ ~ is_a L t value) ->
  lctor_of L k value from to = Some f ->
  exists l', li_convert c f to l = Some l' /\ lpoints c l' t i /\ of_kind to l' /\ li_deref c l' = li_deref c l.
Proof.
  intros H P Kf Ff Ft Sp Ef. rewrite !not_is_a in Sp.
  assert (X : exists l', li_convert c f to l = Some l' /\ lpoints c l' t i /\ of_kind to l').
  { destruct (lpoints_unpack _ _ _ _ _ _ _ H P) as (n & Hin & Hat & Hid & Et & Ws & El & Hk & Hp).
    assert (Mk : forall p, p = PBase (be_ptr (sg_be (n_seg n)) i) \/ p = PConc (vptr (be_store (sg_be (n_seg n))) i) -> lpoints c (mkliter (li_map l) p) t i).
    { intros p Q. exists n. csplit; auto. }
    assert (Fb : exists l', li_from_begin c to l = Some l' /\ lpoints c l' t i /\ of_kind to l').
    { unfold li_from_begin. rewrite Hat. unfold be_begin.
      destruct Hp as [->| ->].
      - rewrite !be_ptr_eq. cbn [fst snd]. rewrite Nat.eqb_refl, Nat.sub_0_r. destruct to as [x|u x].
        + eexists. csplit; [reflexivity|apply Mk; left; reflexivity|eexists; reflexivity].
        + rewrite (be_to_conc_ptr _ _ i (wfs_be _ Ws)) by exact Hk. eexists. csplit; [reflexivity|apply Mk; right; reflexivity|eexists; reflexivity].
      - rewrite (be_to_conc_ptr _ _ 0 (wfs_be _ Ws)) by lia. unfold vptr at 1 2 3 4. cbn [fst snd]. rewrite Nat.eqb_refl, Nat.sub_0_r. destruct to as [x|u x].
        + eexists. csplit; [reflexivity|apply Mk; left; reflexivity|eexists; reflexivity].
        + rewrite (be_to_conc_ptr _ _ i (wfs_be _ Ws)) by exact Hk. eexists. csplit; [reflexivity|apply Mk; right; reflexivity|eexists; reflexivity]. }
    assert (Raw : env_layout = PackedLayout -> be_ptr (sg_be (n_seg n)) i = vptr (be_store (sg_be (n_seg n))) i) by (intros Q; unfold be_ptr; rewrite Q; reflexivity).
    destruct f; [| |unfold li_convert; exact Fb].
    - unfold lctor_of in Ef. destruct (convertible L value from to) eqn:Cv; [|destruct (constructible L k value to from); [discriminate|destruct (_ && _); discriminate]].
      unfold convertible in Cv. apply andb_true_iff in Cv as [_ Cv].
      destruct from as [x|u x], to as [y|v y]; cbn [for_type of_kind] in *; subst; try discriminate; destruct Kf as (p & Kp); unfold li_convert; rewrite Kp.
      + exists l. csplit; auto. eexists. exact Kp.
      + destruct (env_layout) eqn:Lay; [|destruct (Sp eq_refl); congruence].
        eexists. csplit; [reflexivity| |eexists; reflexivity]. apply Mk. right. destruct Hp as [Hp|Hp]; [|congruence].
        rewrite Hp in Kp. injection Kp as <-. f_equal. apply Raw. reflexivity.
      + exists l. csplit; auto. eexists. exact Kp.
    - unfold lctor_of in Ef. destruct (convertible L value from to) eqn:Cv; [discriminate|].
      destruct (constructible L k value to from) eqn:Cn; [|destruct (_ && _); discriminate]. unfold constructible in Cn. rewrite Cv in Cn. cbn [orb] in Cn. apply andb_true_iff in Cn as [_ Cn].
      destruct from as [x|u x], to as [y|v y]; cbn [for_type of_kind] in *; subst; try discriminate; destruct Kf as (p & Kp); unfold li_convert; rewrite Kp.
      + destruct (li_to_conc_spec _ _ _ _ _ _ _ H P) as (q & Q & Pq). eexists. csplit; [exact Q|exact Pq|eexists; reflexivity].
      + destruct (env_layout) eqn:Lay; [|destruct (Sp eq_refl); congruence].
        eexists. csplit; [reflexivity| |eexists; reflexivity]. apply Mk. left. destruct Hp as [Hp|Hp]; [congruence|].
        rewrite Hp in Kp. injection Kp as <-. f_equal. symmetry. apply Raw. reflexivity. }
  destruct X as (l' & Q & P' & K'). exists l'. csplit; auto.
  rewrite (li_deref_spec _ _ _ _ _ _ _ H P'), (li_deref_spec _ _ _ _ _ _ _ H P). reflexivity.
Qed.
(** In the examples: class 1 is the base, classes 2 and 3 are derived from it, [oL] of Properties42.v. *)
Example C87_documented_ex : insertable oL (KBase 1) (CType 2) /\ ~ is_a oL 1 2 /\ insertable oL KAny (CType 2) /\ ~ is_a oL 9 2 /\
  lctor_of oL (KBase 1) 1 (TBase false) (TPtr 2 false) = Some ByConstruction /\ lctor_of oL (KBase 1) 1 (TPtr 2 false) (TBase false) = Some ByConstruction /\
  lctor_of oL KAny 9 (TPtr 2 false) (TBase false) = Some FromBegin.
Proof. csplit; first [exact I|apply not_is_a; reflexivity|reflexivity]. Qed.
Lemma demo_of_kind lay k : let E := dE lay in of_kind (TBase true) (li_base (dc lay) 2 k) /\ of_kind (TPtr 2 true) (li_conc (dc lay) 2 k).
Proof. destruct lay; split; eexists; vm_compute; reflexivity. Qed.
Ltac demo_conv lay :=
  match goal with
  | |- of_kind (TBase _) _ => exact (proj1 (demo_of_kind lay 1))
  | |- of_kind (TPtr _ _) _ => exact (proj2 (demo_of_kind lay 1))
  | |- for_type _ _ => first [exact I|reflexivity]
  | |- ~ is_a _ _ _ => apply not_is_a; reflexivity
  | |- insertable _ _ _ => reflexivity
  | |- _ => demo lay
  end.
Example C87_position_partial_ex lay : let E := dE lay in
  reach (dw lay) [dc lay; dx lay] [] /\ lpoints (dc lay) (li_base (dc lay) 2 1) 2 1 /\ of_kind (TBase true) (li_base (dc lay) 2 1) /\ for_type 2 (TBase true) /\ for_type 2 (TPtr 2 true) /\
  lpoints (dc lay) (li_conc (dc lay) 2 1) 2 1 /\ of_kind (TPtr 2 true) (li_conc (dc lay) 2 1) /\
  ~ is_a oL 9 2 /\ ~ is_a oL 2 9 /\
  lctor_of oL KAny 9 (TBase true) (TPtr 2 true) = Some ByConstruction /\ lctor_of oL KAny 9 (TPtr 2 true) (TBase true) = Some FromBegin /\
  li_convert (dc lay) ByConstruction (TPtr 2 true) (li_base (dc lay) 2 1) = Some (li_conc (dc lay) 2 1) /\
  li_convert (dc lay) FromBegin (TBase true) (li_conc (dc lay) 2 1) = Some (li_base (dc lay) 2 1).
Proof. cbv zeta. csplit; demo_conv lay. Qed.

Lemma related_block : let E := dE SplitLayout in let c := dc SplitLayout in
  exists p, li_pos (li_conc c 2 1) = PConc p /\ forallb (fun n => negb (pblk (sg_be (n_seg n)) =? fst p)) (c_nodes c) = true.
Proof. cbv zeta. eexists. split; vm_compute; reflexivity. Qed.
(** The claim without the condition on types is false: an element of an any_collection may be of a class derived from the value type, and then a local_iterator<T> becomes a
    local_base_iterator by taking the address of the element for that of an entry of the index.  It is not a position of the segment. *)
Theorem C87_related_refuted : let E := dE SplitLayout in let c := dc SplitLayout in let l := li_conc c 2 1 in
  reach (dw SplitLayout) [c; dx SplitLayout] [] /\ lpoints c l 2 1 /\ of_kind (TPtr 2 false) l /\ is_a oL 2 1 /\
  lctor_of oL KAny 1 (TPtr 2 false) (TBase false) = Some ByConstruction /\
  exists l', li_convert c ByConstruction (TBase false) l = Some l' /\ forall i, ~ lpoints c l' 2 i.
Proof.
  cbv zeta. csplit.
  - demo SplitLayout.
  - demo SplitLayout.
  - destruct related_block as (p & Q & _). exists p. exact Q.
  - right. reflexivity.
  - reflexivity.
  - destruct related_block as (p & Q & F). exists (mkliter (li_map (li_conc (dc SplitLayout) 2 1)) (PBase p)). split.
    + unfold li_convert. rewrite Q. reflexivity.
    + intros i (n & Hin & _ & _ & Hp & _). cbn [li_pos] in Hp. destruct Hp as [Hp|Hp]; [|discriminate Hp]. rewrite be_ptr_eq in Hp. injection Hp as Hp.
      rewrite forallb_forall in F. specialize (F n Hin). rewrite Hp in F. cbn [fst] in F. rewrite Nat.eqb_refl in F. discriminate F.
Qed.

(** No implicit conversion makes an iterator to non-const elements of one to const elements, nor does the second constructor. *)
Theorem C87_const_partial L k value from to f : lctor_of L k value from to = Some f -> f <> FromBegin -> bty_const from = true -> bty_const to = true.
Proof.
  unfold lctor_of, constructible, convertible. intros Q Nf C. rewrite C in Q. destruct (bty_const to) eqn:D; [reflexivity|]. exfalso. cbn in Q.
  destruct (_ && _) in Q; [injection Q as <-; congruence|discriminate].
Qed.
Example C87_const_partial_ex : lctor_of oL (KBase 1) 1 (TBase true) (TPtr 2 true) = Some ByConstruction /\ ByConstruction <> FromBegin /\ bty_const (TBase true) = true /\
  lctor_of oL (KBase 1) 1 (TPtr 2 true) (TPtr 1 true) = Some ByConversion.
Proof. csplit; try reflexivity. discriminate. Qed.
(** But the third does: every type of const local iterators of a segment converts explicitly to every type of non-const ones, and so a collection that is const can be written to
    without a cast. *)
Theorem C87_const_refuted {V} {E : Env V} w c g d L k value from to l t i : reach w (c :: g) d -> lpoints c l t i -> of_kind from l -> for_type t from -> for_type t to ->
  insertable L k (CType t) -> bty_const from = true -> bty_const to = false ->
  lctor_of L k value from to = Some FromBegin /\ exists l', li_convert c FromBegin to l = Some l' /\ lpoints c l' t i /\ of_kind to l'.
Proof.
  intros H P Kf Ff Ft Ok Cf Ct. apply insertable_concrete in Ok.
  assert (R : forall u, ptr_conv L u u = true) by (intros u; unfold ptr_conv; rewrite Nat.eqb_refl; reflexivity).
  assert (Q : forall vt, lctor_of L k vt from to = Some FromBegin).
  { intros vt. unfold lctor_of, constructible, convertible. rewrite Cf, Ct. cbn [implb andb orb bty_const].
    destruct from as [x|u x], to as [y|v y]; cbn [for_type] in *; subst; cbn; rewrite ?Ok, ?orb_true_r; reflexivity. }
  split; [apply Q|].
  set (L0 := mklang (fun _ _ => false) (l_final L) (l_poly L) (l_off L) (l_move_con L) (l_move_asg L) (l_nt_move_con L) (l_invocable L) (l_typeid L) (l_rtti L) (l_void L)).
  assert (Q0 : lctor_of L0 KAny (S t) from to = Some FromBegin).
  { unfold lctor_of, constructible, convertible. rewrite Cf, Ct. cbn [implb andb orb bty_const].
    destruct from as [x|u x], to as [y|v y]; cbn [for_type] in *; subst; cbn [bty_const implb andb orb to_concrete_ok]; rewrite ?orb_true_r; reflexivity. }
  destruct (C87_position_partial w c g d L0 KAny (S t) from to l t i FromBegin H P Kf Ff Ft) as (l' & A & B & C & _); [|exact Q0|exists l'; auto].
  intros _. rewrite !not_is_a. unfold ptr_conv, L0. cbn [l_base_of]. rewrite !orb_false_r. split; apply Nat.eqb_neq; lia.
Qed.
Example C87_const_refuted_ex lay : let E := dE lay in
  reach (dw lay) [dc lay; dx lay] [] /\ lpoints (dc lay) (li_base (dc lay) 2 1) 2 1 /\ of_kind (TBase true) (li_base (dc lay) 2 1) /\ for_type 2 (TBase true) /\ for_type 2 (TPtr 2 false) /\
  lpoints (dc lay) (li_conc (dc lay) 2 1) 2 1 /\ of_kind (TPtr 2 true) (li_conc (dc lay) 2 1) /\
  insertable oL (KBase 1) (CType 2) /\ bty_const (TBase true) = true /\ bty_const (TPtr 2 false) = false /\
  li_convert (dc lay) FromBegin (TPtr 2 false) (li_conc (dc lay) 2 1) = Some (li_conc (dc lay) 2 1).
Proof. cbv zeta. csplit; demo_conv lay. Qed.

(** local_iterator<U> converts implicitly to local_iterator<T> for a base T of U.  It refers to the T of the same element, but [j] times ++ lead to that of the element [j] further on
    only if T is as big as U. *)
Theorem C87_upcast_refuted L k value t u x s off size : t <> u -> l_base_of L t u = true ->
  pseg_ok s -> (0 < size)%Z -> (0 <= off)%Z -> (off + size <= ps_size s)%Z ->
  lctor_of L k value (TPtr u x) (TPtr t x) = Some ByConversion /\
  forall i j, i + j < ps_n s ->
    let element n := (ps_data s + Z.of_nat n * ps_size s)%Z in
    lp_convert off (element i) = (element i + off)%Z /\
    exists q, lp_advance j size (lp_convert off (element i)) = Some q /\ (q = (element (i + j)%nat + off)%Z <-> j = 0 \/ size = ps_size s).
Proof.
  intros Ne Bo [Hs Ho Hn Hd Hb Hr H6] Sz Of Fit. split.
  { unfold lctor_of, convertible, ptr_conv. rewrite Bo, orb_true_r. destruct x; reflexivity. }
  intros i j Lt. cbv zeta. destruct s as [data n sz o]. cbn [ps_data ps_n ps_size ps_off] in *.
  assert (Nd : data <> 0%Z) by (intros Q; rewrite (Hn Q) in Lt; lia).
  assert (Ei : lp_convert off (data + Z.of_nat i * sz) = (data + Z.of_nat i * sz + off)%Z).
  { unfold lp_convert, up. destruct (Z.eqb_spec (data + Z.of_nat i * sz) 0); [nia|reflexivity]. }
  split; [exact Ei|]. rewrite Ei.
  assert (Adv : forall m p, (0 <= p)%Z -> (p + Z.of_nat m * size < 2 ^ 64)%Z -> lp_advance m size p = Some (p + Z.of_nat m * size)%Z).
  { induction m as [|m IH]; intros p Hp Hq; cbn [lp_advance].
    - f_equal. lia.
    - unfold lp_next, char_add. destruct (Z.leb_spec 0 (p + size)), (Z.ltb_spec (p + size) (2 ^ 64)); try nia. cbn [andb]. rewrite IH by nia. f_equal. nia. }
  rewrite Adv by nia. eexists. split; [reflexivity|]. split; [intros Q|intros [->| ->]; nia].
  destruct j as [|j]; [left; reflexivity|right; nia].
Qed.
Example C87_upcast_refuted_ex : 1 <> 2 /\ l_base_of oL 1 2 = true /\ pseg_ok (mkpseg 4096 5 24 8) /\ (0 < 16)%Z /\ (8 + 16 <= 24)%Z /\ 2 + 1 < 5 /\
  lp_advance 1 16 (lp_convert 8 (4096 + 2 * 24)) = Some 4168%Z /\ (4096 + 3 * 24 + 8 = 4176)%Z.
Proof. csplit; try reflexivity; try lia; try discriminate. constructor; cbn; try lia; intros; discriminate. Qed.

Print Assumptions C85_resolution.
Print Assumptions C87_documented.
Print Assumptions C87_position_partial.
Print Assumptions C87_related_refuted.
Print Assumptions C87_const_partial.
Print Assumptions C87_const_refuted.
Print Assumptions C87_upcast_refuted.
