(** * is_permutation, unique_copy, sample, partition_point *)

From Coq Require Import List Arith Lia Bool Permutation.
From Verif Require Import Base Vec Backend Segment Coll StdAlg Algo Spec SpecAlg ProofBase ProofVec ProofBackend ProofOps ProofOps2 ProofSeg ProofMap ProofView ProofAlgo ProofAlgo2 ProofAlgo3 ProofAlgo4.
Import ListNotations.

(** ** Permutations and counts *)

Section Perm.
Context {Z : Type} (R : Z -> Z -> bool) (HR : equivalence R).
Definition cnt_of (z : Z) (l : list Z) : nat := length (filter (R z) l).

Lemma R_eq x y z : R x y = true -> R x z = R y z.
Proof.
  destruct HR as (_ & Sy & Tr). intros H. destruct (R y z) eqn:Q; [apply (Tr x y z); auto|].
  destruct (R x z) eqn:Q'; auto. rewrite <- Q. symmetry. apply (Tr y x z); auto. rewrite Sy. auto.
Qed.
Lemma R_eq_r x y z : R x y = true -> R z x = R z y.
Proof. destruct HR as (_ & Sy & _). intros H. rewrite (Sy z x), (Sy z y). apply R_eq. auto. Qed.
Lemma cnt_app z l1 l2 : cnt_of z (l1 ++ l2) = cnt_of z l1 + cnt_of z l2.
Proof. unfold cnt_of. rewrite filter_app, app_length. auto. Qed.
Lemma cnt_cons z x l : cnt_of z (x :: l) = (if R z x then 1 else 0) + cnt_of z l.
Proof. unfold cnt_of. simpl. destruct (R z x); auto. Qed.
Lemma cnt_perm z l1 l2 : Permutation l1 l2 -> cnt_of z l1 = cnt_of z l2.
Proof. induction 1; auto; rewrite ?cnt_cons; lia. Qed.
Lemma cnt_match z l1 l2 : Forall2 (fun x y => R x y = true) l1 l2 -> cnt_of z l1 = cnt_of z l2.
Proof. induction 1 as [|x y l1 l2 H H2 IH]; auto. rewrite !cnt_cons, IH, (R_eq_r x y z H). auto. Qed.
Lemma cnt_class x y l : R x y = true -> cnt_of x l = cnt_of y l.
Proof. intros H. unfold cnt_of. f_equal. apply filter_ext. intros z. apply R_eq. auto. Qed.
Lemma cnt_pos z l : 0 < cnt_of z l <-> exists y, In y l /\ R z y = true.
Proof.
  unfold cnt_of. split.
  - intros H. destruct (filter (R z) l) as [|y l'] eqn:Q; simpl in H; [lia|]. exists y. apply filter_In. rewrite Q. left. auto.
  - intros (y & H). apply filter_In in H. destruct (filter (R z) l); simpl; [destruct H|lia].
Qed.

Lemma permuted_cnt xs ys : permuted R xs ys -> length xs = length ys /\ forall z, cnt_of z xs = cnt_of z ys.
Proof.
  intros (zs & P & F). split.
  - rewrite <- (Permutation_length P). clear - F. induction F; simpl; auto.
  - intros z. rewrite (cnt_match z xs zs F). apply cnt_perm. auto.
Qed.
Lemma cnt_permuted xs ys : length xs = length ys -> (forall x, In x xs -> cnt_of x xs = cnt_of x ys) -> permuted R xs ys.
Proof.
  revert ys. induction xs as [|x xs IH]; intros ys L H.
  - destruct ys; simpl in L; [|lia]. exists []. auto.
  - assert (Hx : 0 < cnt_of x ys).
    { rewrite <- (H x) by (left; auto). rewrite cnt_cons. destruct HR as (Rf & _). rewrite Rf. lia. }
    apply cnt_pos in Hx. destruct Hx as (y & Hy & Ry). apply in_split in Hy. destruct Hy as (y1 & y2 & ->).
    assert (P : Permutation (y1 ++ y :: y2) (y :: y1 ++ y2)) by (apply Permutation_sym, Permutation_middle).
    destruct (IH (y1 ++ y2)) as (zs & P1 & F1).
    + rewrite app_length in *. simpl in L. lia.
    + intros z Hz. assert (Q := H z (or_intror Hz)). rewrite (cnt_perm z _ _ P), !cnt_cons, (R_eq_r x y z Ry) in Q. lia.
    + exists (y :: zs). split.
      * rewrite P. apply perm_skip. auto.
      * constructor; auto.
Qed.
Lemma permuted_prefix xs1 xs2 ys1 ys2 : Forall2 (fun x y => R x y = true) xs1 ys1 ->
  permuted R (xs1 ++ xs2) (ys1 ++ ys2) <-> permuted R xs2 ys2.
Proof.
  intros F. split.
  - intros H. apply permuted_cnt in H. destruct H as [L H]. apply cnt_permuted.
    + rewrite !app_length in L. assert (length xs1 = length ys1) by (clear - F; induction F; simpl; auto). lia.
    + intros x _. specialize (H x). rewrite !cnt_app, (cnt_match x _ _ F) in H. lia.
  - intros (zs & P & F2). exists (ys1 ++ zs). split; [apply Permutation_app; auto|apply Forall2_app; auto].
Qed.

(** What is_permutation_suffix tests, for the elements [l] between [pre] and [rest]. *)
Fixpoint permb (ys pre l rest : list Z) : bool :=
  match l with
  | [] => true
  | x :: l' => (existsb (R x) pre || (negb (cnt_of x ys =? 0) && (cnt_of x ys =? cnt_of x (x :: l' ++ rest)))) &&
               permb ys (pre ++ [x]) l' rest
  end.
Lemma permb_app ys pre l1 l2 rest : permb ys pre (l1 ++ l2) rest = permb ys pre l1 (l2 ++ rest) && permb ys (pre ++ l1) l2 rest.
Proof.
  revert pre. induction l1 as [|x l1 IH]; intros pre; simpl.
  - rewrite app_nil_r. auto.
  - rewrite IH, <- !app_assoc, andb_assoc. auto.
Qed.
Lemma permb_ok ys pre l : (forall x, In x pre -> cnt_of x (pre ++ l) = cnt_of x ys) ->
  permb ys pre l [] = true <-> forall x, In x (pre ++ l) -> cnt_of x (pre ++ l) = cnt_of x ys.
Proof.
  revert pre. induction l as [|x l IH]; intros pre Hp; simpl.
  - rewrite app_nil_r in *. split; auto.
  - rewrite app_nil_r.
    assert (Hx : existsb (R x) pre || (negb (cnt_of x ys =? 0) && (cnt_of x ys =? cnt_of x (x :: l))) = true <->
                 cnt_of x (pre ++ x :: l) = cnt_of x ys).
    { assert (Rx : R x x = true) by apply HR. destruct (existsb (R x) pre) eqn:Ex.
      - split; auto. intros _. apply existsb_exists in Ex. destruct Ex as (z & Hz & Rz).
        rewrite !(cnt_class x z) by auto. auto.
      - simpl. rewrite cnt_app. assert (Z0 : cnt_of x pre = 0).
        { destruct (Nat.eq_dec (cnt_of x pre) 0) as [|N]; auto. assert (P : 0 < cnt_of x pre) by lia.
          apply cnt_pos in P. destruct P as (y & Hy & Ry). assert (existsb (R x) pre = true) by (apply existsb_exists; eauto). congruence. }
        rewrite Z0. assert (P : 0 < cnt_of x (x :: l)) by (rewrite cnt_cons, Rx; lia).
        rewrite andb_true_iff, negb_true_iff, Nat.eqb_neq, Nat.eqb_eq. lia. }
    rewrite andb_true_iff, Hx. specialize (IH (pre ++ [x])). rewrite <- app_assoc in IH. simpl in IH.
    split.
    + intros [H1 H2]. apply IH; auto. intros y Hy. apply in_app_or in Hy. destruct Hy as [Hy|[->|[]]]; auto.
    + intros H. split; [apply H, in_elt|]. apply IH; auto. intros y Hy. apply H. apply in_app_or in Hy. apply in_or_app.
      destruct Hy as [Hy|[->|[]]]; auto. right. left. auto.
Qed.
Lemma permb_permuted ys l : length l = length ys -> permb ys [] l [] = true <-> permuted R l ys.
Proof.
  intros L. rewrite (permb_ok ys [] l) by (intros x []). simpl. split.
  - apply cnt_permuted. auto.
  - intros H x _. apply permuted_cnt in H. apply H.
Qed.
End Perm.

Lemma pure_find_exists {S X} (p : X -> bool) l : yields (S := S) (std_find_if (pure p) l)
  (fun k => k <= length l /\ (k =? length l) = negb (existsb p l)).
Proof.
  induction l as [|x l IH]; cbn [std_find_if]; [apply yields_ret; auto|].
  unfold pure at 1. rewrite bind_ret_l. simpl. destruct (p x) eqn:Q; [apply yields_ret; simpl; split; auto; lia|].
  eapply yields_bind; [apply IH|]. intros k [H1 H2]. apply yields_ret. simpl. split; [lia|auto].
Qed.
Lemma filter_map_len {A B} (f : A -> B) (p : B -> bool) l : length (filter p (map f l)) = length (filter (fun x => p (f x)) l).
Proof. induction l as [|x l IH]; simpl; auto. destruct (p (f x)); simpl; auto. Qed.
Lemma existsb_map {A B} (f : A -> B) (p : B -> bool) l : existsb p (map f l) = existsb (fun x => p (f x)) l.
Proof. induction l as [|x l IH]; simpl; auto. rewrite IH. auto. Qed.
Lemma permuted_map {X Y Z} (R : Z -> Z -> bool) (f : X -> Z) (g : Y -> Z) xs ys :
  permuted R (map f xs) (map g ys) <-> permuted (fun x y => R (f x) (g y)) xs ys.
Proof.
  split.
  - intros (zs & P & F). apply Permutation_map_inv in P. destruct P as (zs' & -> & P).
    exists zs'. split; [apply Permutation_sym; auto|]. clear P. revert zs' F. induction xs as [|x xs IH]; intros [|z zs'] F; simpl in F; inversion F; subst; auto.
  - intros (zs & P & F). exists (map g zs). split; [apply Permutation_map; auto|]. clear P. induction F; simpl; auto.
Qed.

(** ** unique_copy on a sequence *)

Section UniqueStd.
Context {S X : Type} (eqv : X -> X -> bool) (HE : equivalence eqv) (put : nat -> X -> M S unit).
Notation after := (std_unique_copy_after (pure2 eqv) put).

Lemma after_ext x y l o : eqv x y = true -> same_as (after x l o) (after y l o) eq.
Proof.
  intros H. destruct l as [|z l]; cbn [std_unique_copy_after]; [apply same_eq|]. unfold pure2.
  rewrite (R_eq eqv HE x y z H). apply same_eq.
Qed.
Lemma after_skip v s l o : Forall (fun z => eqv v z = true) s -> same_as (after v (s ++ l) o) (after v l o) eq.
Proof.
  induction 1 as [|z s Hz Hs IH]; [apply same_eq|]. cbn [app std_unique_copy_after]. unfold pure2 at 1. rewrite bind_ret_l, Hz.
  eapply same_eq_l; [|exact IH]. apply after_ext. destruct HE as (_ & Sy & _). rewrite Sy. auto.
Qed.
Lemma after_app x l1 l2 o : same_as (after x (l1 ++ l2) o) (o' <- after x l1 o ;; after (last l1 x) l2 o') eq.
Proof.
  revert x o. induction l1 as [|y l1 IH]; intros x o; [apply same_eq|].
  cbn [app std_unique_copy_after].
  assert (Ql : last (y :: l1) x = last l1 y) by (destruct l1 as [|z l1]; auto; cbn [last]; clear; revert z; induction l1; auto; intros; cbn [last] in *; auto).
  rewrite Ql. eapply same_eq_r; [apply same_sym_eq, bind_assoc|]. apply same_bind_eq. intros [|].
  - apply IH.
  - eapply same_eq_r; [apply same_sym_eq, bind_assoc|]. apply same_bind_eq. intros _. apply IH.
Qed.
Lemma unique_app x l1 l2 o : same_as (std_unique_copy (pure2 eqv) put (x :: l1 ++ l2) o)
  (o' <- std_unique_copy (pure2 eqv) put (x :: l1) o ;; after (last l1 x) l2 o') eq.
Proof.
  cbn [std_unique_copy]. eapply same_eq_r; [apply same_sym_eq, bind_assoc|]. apply same_bind_eq. intros _. apply after_app.
Qed.
Lemma after_new v x l o : eqv v x = false -> after v (x :: l) o = std_unique_copy (pure2 eqv) put (x :: l) o.
Proof. intros H. cbn [std_unique_copy_after std_unique_copy]. unfold pure2 at 1. rewrite bind_ret_l, H. auto. Qed.
End UniqueStd.

Lemma skip_same_ok {V S} (q : view V -> bool) xs : yields (S := S) (skip_same (pure q) xs)
  (fun xs' => exists s, xs = s ++ xs' /\ Forall (fun z => q z = true) s /\ match xs' with [] => True | y :: _ => q y = false end).
Proof.
  induction xs as [|x xs IH]; cbn [skip_same]; [apply yields_ret; exists []; auto|].
  unfold pure at 1. rewrite bind_ret_l. destruct (q x) eqn:Q.
  - eapply yields_mono; [|exact IH]. cbn beta. intros xs' (s & -> & F & H). exists (x :: s). auto.
  - apply yields_ret. exists []. auto.
Qed.
Lemma yields_same_bind {S A B B'} (m : M S A) (f : A -> M S B) (m' : M S B') (P : A -> Prop) (R : B -> B' -> Prop) :
  yields m P -> (forall a, P a -> same_as (f a) m' R) -> same_as (bind m f) m' R.
Proof. intros H H' s. destruct (H s) as (a & Q & Pa). unfold bind. rewrite Q. apply H'. auto. Qed.

(** ** sample on a sequence *)

Lemma sel_app {X} (s1 s2 l1 l2 : list X) : selection s1 l1 -> selection s2 l2 -> selection (s1 ++ s2) (l1 ++ l2).
Proof. induction 1; simpl; auto; constructor; auto. Qed.
Lemma sel_none {X} (l : list X) : selection [] l.
Proof. induction l; constructor; auto. Qed.
Lemma sel_app_inv {X} (s l1 l2 : list X) : selection s (l1 ++ l2) -> exists s1 s2, s = s1 ++ s2 /\ selection s1 l1 /\ selection s2 l2.
Proof.
  revert s. induction l1 as [|x l1 IH]; intros s H; simpl in *.
  - exists [], s. csplit; auto. constructor.
  - inversion H as [|x' s' l' H'|x' s' l' H']; subst; destruct (IH _ H') as (s1 & s2 & -> & H1 & H2).
    + exists (x :: s1), s2. csplit; auto. constructor. auto.
    + exists s1, s2. csplit; auto. constructor. auto.
Qed.
Lemma sel_len {X} (s l : list X) : selection s l -> length s <= length l.
Proof. induction 1; simpl; lia. Qed.

Lemma number_app {A} k (l1 l2 : list A) : number k (l1 ++ l2) = number k l1 ++ number (k + length l1) l2.
Proof. revert k. induction l1 as [|x l1 IH]; intros k; simpl; [rewrite Nat.add_0_r; auto|]. rewrite IH. f_equal. f_equal. f_equal. lia. Qed.

Section SampleStd.
Context {V G : Type} (gen : nat -> G -> nat * G).

Lemma sample_alg_ok : (forall m g, fst (gen m g) <= m) -> forall (xs : list (view V)) o n m g w, n <= m -> length xs <= m ->
  exists sel g' m', sample_alg (draws gen) records o n m xs (g, w) = Ok (g', w ++ number o sel) (o + length sel, (n - length sel, m')) /\
    selection sel xs /\ length sel <= n /\ n - length sel <= m - length xs /\ (n - length sel <> 0 -> m' = m - length xs).
Proof.
  intros Hg xs. induction xs as [|x xs IH]; intros o n m g w Ln Lm; cbn [sample_alg].
  - exists [], g, m. rewrite app_nil_r. cbn [length]. rewrite !Nat.sub_0_r, Nat.add_0_r. unfold ret. csplit; auto; [constructor|lia].
  - destruct (Nat.eqb_spec n 0) as [->|Nn].
    + exists [], g, m. rewrite app_nil_r, Nat.add_0_r. unfold ret. csplit; auto; [apply sel_none|simpl; lia|simpl; lia].
    + cbn [length] in *. unfold bind, draws at 1. cbn [fst snd]. specialize (Hg (m - 1) g) as Hr.
      destruct (gen (m - 1) g) as [r g'] eqn:Eg. cbn [fst] in Hr. destruct (Nat.ltb_spec r n) as [Lr|Gr].
      * unfold records at 1. cbn [fst snd]. destruct (IH (1 + o) (n - 1) (m - 1) g' (w ++ [(o, x)])) as (sel & g2 & m2 & Q & H1 & H2 & H3 & H4); [lia|lia|].
        exists (x :: sel), g2, m2. rewrite Q. replace (n - length (x :: sel)) with (n - 1 - length sel) by (cbn [length]; lia).
        replace (o + length (x :: sel)) with (1 + o + length sel) by (cbn [length]; lia). cbn [length number]. rewrite <- app_assoc. cbn [app].
        csplit; [reflexivity|constructor; auto|lia|lia|lia].
      * destruct (IH o n (m - 1) g' w) as (sel & g2 & m2 & Q & H1 & H2 & H3 & H4); [lia|lia|].
        exists sel, g2, m2. rewrite Q. csplit; auto; [constructor; auto|lia|lia].
Qed.
End SampleStd.

(** the numbers of a given list are drawn *)
Definition scripted (m : nat) (g : list nat) : nat * list nat := (Nat.min (hd 0 g) m, tl g).

Lemma sample_alg_any {V} (sel xs : list (view V)) : selection sel xs -> forall o n m, length sel <= n -> n <= m ->
  n - length sel <= m - length xs -> length xs <= m ->
  exists g m', (n - length sel <> 0 -> m' = m - length xs) /\ forall g' w,
    sample_alg (draws scripted) records o n m xs (g ++ g', w) = Ok (g', w ++ number o sel) (o + length sel, (n - length sel, m')).
Proof.
  induction 1 as [|x sel xs Hs IH|x sel xs Hs IH]; intros o n m H1 H2 H3 H4; cbn [sample_alg].
  - exists [], m. split; [simpl; lia|]. intros g' w. rewrite app_nil_r, Nat.add_0_r, Nat.sub_0_r. auto.
  - cbn [length] in *. destruct (Nat.eqb_spec n 0) as [->|Nn]; [lia|].
    destruct (IH (1 + o) (n - 1) (m - 1)) as (g & m' & Hm & H); [lia|lia|lia|lia|].
    exists (0 :: g), m'. split; [lia|]. intros g' w. unfold bind, draws at 1, scripted at 1. cbn [fst snd hd tl app Nat.min].
    destruct (Nat.ltb_spec 0 n); [|lia]. unfold records at 1. cbn [fst snd]. rewrite H. cbn [number]. rewrite <- app_assoc. cbn [app].
    replace (n - 1 - length sel) with (n - Datatypes.S (length sel)) by lia.
    replace (1 + o + length sel) with (o + Datatypes.S (length sel)) by lia. auto.
  - assert (Ls := sel_len _ _ Hs). cbn [length] in *. destruct (Nat.eqb_spec n 0) as [->|Nn].
    + destruct sel; cbn [length] in *; [|lia]. exists [], m. split; [lia|]. intros g' w. rewrite app_nil_r, Nat.add_0_r. auto.
    + destruct (IH o n (m - 1)) as (g & m' & Hm & H); [lia|lia|lia|lia|].
      exists ((m - 1) :: g), m'. split; [lia|]. intros g' w. unfold bind, draws at 1, scripted at 1. cbn [fst snd hd tl app].
      rewrite Nat.min_id. destruct (Nat.ltb_spec (m - 1) n); [lia|]. apply H.
Qed.

Section PAlgo5.
Context {V : Type} {E : Env V} {S : Type}.
Notation iat c i := (at_ (c_nodes c) i).

Section Coll.
Context (c : coll V) (Ts : list tyid) (W : aok c).

(** ** is_permutation *)

Section IsPerm.
Context {Y : Type} (R : view V + Y -> view V + Y -> bool) (HR : equivalence R).
Let p : view V -> view V + Y -> bool := fun x z => R (inl x) z.
Context (i j : nat) (L : i <= j) (Lj : j <= tot (c_nodes c)) (ys : list Y).
Let L1 (l : list (view V)) : list (view V + Y) := map inl l.
Let L2 : list (view V + Y) := map inr ys.

Lemma is_perm_scan_ok q a m k xs : piece_ok c q a m -> i <= a -> m <= j -> k <= m - a -> xs = views c Ts (a + k) m ->
  yields (S := S) (is_perm_scan c Ts (pure2 p) (iat c i) (iat c j) ys q k xs)
    (fun b => b = permb R L2 (L1 (views c Ts i (a + k))) (L1 xs) (L1 (views c Ts m j))).
Proof.
  intros P La Lm. destruct (piece_le c q a m P) as [Lq _]. revert k. induction xs as [|x xs IH]; intros k Hk Hx; cbn [is_perm_scan].
  - apply yields_ret. auto.
  - assert (Lx : a + k < m).
    { assert (Q := f_equal (@length _) Hx). rewrite views_length in Q by lia. simpl in Q. lia. }
    assert (Hx' : xs = views c Ts (a + (1 + k)) m /\ views c Ts i (a + (1 + k)) = views c Ts i (a + k) ++ [x]).
    { assert (Q := views_app c Ts (a + k) (a + (1 + k)) m ltac:(lia) ltac:(lia)). rewrite <- Hx in Q.
      assert (Ly : length (views c Ts (a + k) (a + (1 + k))) = 1) by (rewrite views_length; lia).
      assert (Q2 := views_app c Ts i (a + k) (a + (1 + k)) ltac:(lia) ltac:(lia)).
      destruct (views c Ts (a + k) (a + (1 + k))) as [|y [|z l]]; simpl in Ly; try lia. cbn [app] in Q. injection Q as Q0 Q1. subst y. split; [exact (eq_sym Q1)|exact (eq_sym Q2)]. }
    destruct Hx' as [Hx1 Hx2].
    rewrite (piece_iter c q a m k W P Hk), lift_some.
    eapply yields_bind with (P := fun it => it_eq it (iat c (a + k)) = negb (existsb (R (inl x)) (L1 (views c Ts i (a + k))))).
    { eapply yields_same; [apply (find_if_ok c Ts W i (a + k)); lia|apply (pure_find_exists (fun z => p x (inl z)))|].
      intros it k' (-> & Hk') (H1 & H2). rewrite views_length in H2 by lia.
      rewrite (it_eq_at (c_nodes c)) by (try apply W; lia). unfold L1. rewrite existsb_map. unfold p in H2. rewrite <- H2.
      apply eq_true_iff_eq. rewrite !Nat.eqb_eq. lia. }
    intros it ->. rewrite negb_involutive. unfold L1. cbn [map permb]. fold (L1 xs) (L1 (views c Ts i (a + k))) (L1 (views c Ts m j)).
    assert (Hn : yields (S := S) (is_perm_scan c Ts (pure2 p) (iat c i) (iat c j) ys q (1 + k) xs)
      (fun b => b = permb R L2 (L1 (views c Ts i (a + k)) ++ [inl x]) (L1 xs) (L1 (views c Ts m j)))).
    { replace (L1 (views c Ts i (a + k)) ++ [inl x]) with (L1 (views c Ts i (a + (1 + k)))) by (rewrite Hx2; unfold L1; rewrite map_app; auto).
      apply IH; auto. lia. }
    destruct (existsb (R (inl x)) (L1 (views c Ts i (a + k)))) eqn:Ex.
    + cbn [orb andb]. eapply yields_mono; [|exact Hn]. auto.
    + cbn [orb]. eapply yields_bind; [apply (pure_count_if (fun y => p x (inr y)))|]. cbn beta. intros n ->.
      assert (En : length (filter (fun y => p x (inr y)) ys) = cnt_of R (inl x) L2).
      { unfold cnt_of, L2. rewrite filter_map_len. auto. }
      rewrite En. destruct (cnt_of R (inl x) L2 =? 0); cbn [negb andb]; [apply yields_ret; auto|].
      eapply yields_bind with (P := fun n => n = cnt_of R (inl x) (inl x :: L1 xs ++ L1 (views c Ts m j))).
      { eapply yields_same; [apply (count_if_ok c Ts W (a + k) j); lia|apply (pure_count_if (fun z => p x (inl z)))|].
        intros n n' -> ->. unfold cnt_of. rewrite <- (views_app c Ts (a + k) m j) by lia. rewrite <- Hx.
        change (inl x :: L1 xs ++ L1 (views c Ts m j)) with (L1 (x :: xs) ++ L1 (views c Ts m j)).
        unfold L1. rewrite <- map_app, filter_map_len. auto. }
      intros n ->. destruct (_ =? _); cbn [andb]; [|apply yields_ret; auto]. exact Hn.
Qed.
Lemma is_perm_loop_ok ps a : cover c ps a j -> i <= a ->
  yields (S := S) (is_perm_loop c Ts (pure2 p) (iat c i) (iat c j) ys ps)
    (fun b => b = permb R L2 (L1 (views c Ts i a)) (L1 (views c Ts a j)) []).
Proof.
  intros C. remember j as j' in C at 1. induction C as [a|q ps a m b P C IH]; intros La; subst; cbn [is_perm_loop].
  - apply yields_ret. rewrite views_nil. auto.
  - rewrite (piece_views_ok c Ts q a m W P), lift_some. assert (Lm := cover_le c ps m j C). destruct (piece_le c q a m P) as [Lq _].
    eapply yields_bind; [apply (is_perm_scan_ok q a m 0); auto; try lia; rewrite Nat.add_0_r; auto|].
    cbn beta. rewrite Nat.add_0_r. intros b ->.
    rewrite <- (views_app c Ts a m j) by lia.
    assert (Q : L1 (views c Ts a m ++ views c Ts m j) = L1 (views c Ts a m) ++ L1 (views c Ts m j)) by (unfold L1; apply map_app).
    rewrite Q, permb_app, app_nil_r. destruct (permb R L2 (L1 (views c Ts i a)) (L1 (views c Ts a m)) (L1 (views c Ts m j))); [|apply yields_ret; auto].
    cbn [andb]. eapply yields_mono; [|apply (IH eq_refl); lia]. cbn beta. intros b' ->. f_equal.
    unfold L1. rewrite <- map_app, views_app by lia. auto.
Qed.
Lemma is_perm_suffix_ok : j - i = length ys ->
  yields (S := S) (is_perm_suffix c Ts (iat c i) (iat c j) ys (pure2 p))
    (fun b => b = true <-> permuted (fun x y => R (inl x) (inr y)) (views c Ts i j) ys).
Proof.
  intros Ly. destruct (split_ok c i j W L Lj) as (ps & Q & C). unfold is_perm_suffix. rewrite Q, lift_some.
  eapply yields_mono; [|apply (is_perm_loop_ok ps i C); auto]. cbn beta. rewrite views_nil. intros b ->.
  change (L1 []) with (@nil (view V + Y)). rewrite (permb_permuted R HR).
  - apply permuted_map.
  - unfold L1, L2. rewrite !map_length, views_length; auto.
Qed.
End IsPerm.

Lemma is_permutation_ok {Y} (R : view V + Y -> view V + Y -> bool) i j (ys : list Y) bounded : equivalence R -> i <= j -> j <= tot (c_nodes c) ->
  (bounded = false -> j - i <= length ys) ->
  yields (S := S) (pc_is_permutation bounded c Ts (iat c i) (iat c j) ys (pure2 (fun x z => R (inl x) z)))
    (fun b => b = true <-> permuted (fun x y => R (inl x) (inr y)) (views c Ts i j) (if bounded then ys else firstn (j - i) ys)).
Proof.
  intros HR L Lj Hb. unfold pc_is_permutation. set (p := fun x z => R (inl x) z). set (p2 := fun x y => R (inl x) (inr y)).
  set (k := mm p2 (views c Ts i j) ys).
  assert (Hk := mm_le p2 (views c Ts i j) ys). rewrite views_length in Hk by auto. fold k in Hk.
  eapply yields_bind with (P := fun r => r = (iat c (i + k), k)).
  { eapply yields_same; [apply (mismatch_ok c Ts W i j L Lj bounded ys)| |].
    - destruct bounded; [apply (pure_mismatch_to p2)|apply (pure_mismatch p2)]. rewrite views_length; auto.
    - intros r k' (-> & _) ->. auto. }
  intros r ->. cbn [fst snd].
  eapply yields_bind with (P := fun n => n = j - (i + k)).
  { eapply yields_same; [apply (fast_distance_ok c W (i + k) j); lia|apply (yields_ret _ (fun n => n = j - (i + k))); reflexivity|]. intros a b -> ->. auto. }
  intros n ->. rewrite skipn_length.
  assert (Hpre := mm_prefix p2 (views c Ts i j) ys). fold k in Hpre.
  assert (Ev : views c Ts i j = firstn k (views c Ts i j) ++ views c Ts (i + k) j).
  { rewrite <- (views_skip c Ts i j k) by lia. symmetry. apply firstn_skipn. }
  assert (Key : forall zs, permuted p2 (views c Ts i j) (firstn k ys ++ zs) <-> permuted p2 (views c Ts (i + k) j) zs).
  { intros zs. rewrite Ev at 1. unfold p2 in *.
    rewrite <- !(permuted_map R inl inr), !map_app. apply permuted_prefix; auto.
    clear - Hpre. induction Hpre; simpl; auto. }
  destruct bounded.
  - destruct (Nat.eqb_spec (j - (i + k)) (length ys - k)) as [El|Nl].
    + eapply yields_mono; [|apply (is_perm_suffix_ok R HR (i + k) j); try lia; rewrite skipn_length; lia].
      cbn beta. intros b ->. fold p2. rewrite <- Key, firstn_skipn. tauto.
    + apply yields_ret. split; [discriminate|]. intros (zs & P & F). exfalso.
      apply Permutation_length in P. assert (Lz : length (views c Ts i j) = length zs) by (clear - F; induction F; simpl; auto).
      rewrite views_length in Lz by auto. lia.
  - specialize (Hb eq_refl). destruct (Nat.leb_spec (j - (i + k)) (length ys - k)) as [El|Nl]; [|lia].
    eapply yields_mono; [|apply (is_perm_suffix_ok R HR (i + k) j); try lia; rewrite firstn_length, skipn_length; lia].
    cbn beta. intros b ->. fold p2. rewrite <- Key.
    replace (firstn (j - i) ys) with (firstn k ys ++ firstn (j - (i + k)) (skipn k ys)); [tauto|].
    rewrite <- firstn_add. f_equal. lia.
Qed.

(** ** unique_copy *)

Lemma unique_loop_ok (eqv : view V -> view V -> bool) put : equivalence eqv -> unaware Ts eqv ->
  forall ps a b, cover c ps a b -> forall o,
  same_as (S := S) (unique_copy_loop c Ts (pure2 eqv) put None o ps) (std_unique_copy (pure2 eqv) put (views c Ts a b) o) eq /\
  (forall prev g x, lbi_at c prev g -> (forall y, views c Ts g (1 + g) = [y] -> eqv x y = true) ->
   same_as (S := S) (unique_copy_loop c Ts (pure2 eqv) put (Some prev) o ps) (std_unique_copy_after (pure2 eqv) put x (views c Ts a b) o) eq).
Proof.
  intros HE Bl ps a b C. induction C as [a|q ps a m b P C IH]; intros o.
  - rewrite views_nil. split; intros; apply same_eq.
  - destruct (piece_le c q a m P) as [La Lm]. assert (Lb := cover_le c ps m b C).
    assert (Hpv := piece_views_ok c Ts q a m W P). cbn [unique_copy_loop].
    rewrite <- (views_app c Ts a m b) by lia. rewrite Hpv, lift_some.
    assert (Last : forall y t s, views c Ts a m = s ++ y :: t -> a < m /\ lbi_at c (pc_id q, padd (pc_beg q) (length (views c Ts a m) - 1)) (m - 1) /\
      forall z, views c Ts (m - 1) (1 + (m - 1)) = [z] -> eqv (last t y) z = true).
    { intros y t s Q. assert (Hl := f_equal (@length _) Q). rewrite views_length in * by lia. rewrite app_length in Hl. cbn [length] in Hl.
      csplit; [lia| |].
      - replace (m - 1) with (a + (m - a - 1)) by lia. apply (piece_lbi c q a m); auto. lia.
      - intros z Hz. replace (1 + (m - 1)) with m in Hz by lia. rewrite <- (views_app c Ts a (m - 1) m) in Q by lia. rewrite Hz in Q.
        assert (Hz' : z = last t y).
        { assert (Q' := f_equal (fun l => last l y) Q). cbn beta in Q'. rewrite last_last in Q'. rewrite Q'.
          clear. assert (A : forall (l : list (view V)) u d, last (u :: l) d = last l u).
          { induction l as [|v l IHl]; intros u d; auto. change (last (u :: v :: l) d) with (last (v :: l) d). rewrite IHl. symmetry. apply IHl. }
          assert (B : forall (s l : list (view V)) u d, last (s ++ u :: l) d = last (u :: l) d).
          { induction s0 as [|v s0 IHs]; intros l u d; auto. cbn [app]. rewrite A, IHs, !A. auto. }
          rewrite B, A. auto. }
        subst z. apply HE. }
    assert (Go : forall y t s, views c Ts a m = s ++ y :: t -> forall o,
      same_as (S := S) (o' <- std_unique_copy (pure2 eqv) put (y :: t) o ;;
                q0 <- lift (piece_at c Ts q (length (views c Ts a m) - 1)) ;;
                unique_copy_loop c Ts (pure2 eqv) put (Some (pc_id q, q0)) o' ps)
        (std_unique_copy (pure2 eqv) put (y :: t ++ views c Ts m b) o) eq).
    { intros y t s Q o'. destruct (Last y t s Q) as (Lt & Hl & He). eapply same_eq_r; [apply same_sym_eq, unique_app; auto|].
      apply same_bind_eq. intros o2. rewrite (piece_at_ok c Ts q a m) by (auto; rewrite views_length; lia). rewrite lift_some.
      apply (proj2 (IH o2) _ (m - 1) (last t y)); auto. }
    split.
    + rewrite bind_ret_l. destruct (views c Ts a m) as [|y t] eqn:Ev.
      * cbn [app]. apply IH.
      * apply (Go y t []). auto.
    + intros prev g x Hg Hx. destruct (lbi_at_read c Ts W prev g Hg) as (n & r & Hn & Hr & Hv).
      assert (Hp : forall z, pure2 eqv (None, r) z = pure (S := S) (eqv x) z).
      { intros z. unfold pure2, pure. f_equal. specialize (Hx _ Hv). rewrite (R_eq eqv HE _ _ z Hx).
        apply Bl. }
      assert (Hsk : forall xs, same_as (S := S) (skip_same (pure2 eqv (None, r)) xs) (skip_same (pure (eqv x)) xs) eq).
      { induction xs as [|z xs IHx]; cbn [skip_same]; [apply same_eq|]. rewrite Hp. apply same_bind_eq. intros [|]; [exact IHx|apply same_eq]. }
      rewrite lift_some, Hn, lift_some, Hr, lift_some.
      eapply same_eq_l; [eapply same_bind; [apply Hsk|intros u u' ->; apply same_eq]|].
      eapply yields_same_bind; [apply skip_same_ok|]. cbn beta. intros xs' (s & Hs & Fs & Hh).
      replace (views c Ts a m ++ views c Ts m b) with (s ++ xs' ++ views c Ts m b) by (rewrite Hs, <- app_assoc; auto).
      eapply same_eq_r; [apply same_sym_eq, after_skip; auto|].
      destruct xs' as [|y t].
      * cbn [app]. apply (proj2 (IH o) prev g x); auto.
      * cbn [app]. rewrite (after_new eqv put x y _ o Hh). apply (Go y t s). auto.
Qed.
Lemma unique_copy_ok eqv put i j o : equivalence eqv -> unaware Ts eqv -> i <= j -> j <= tot (c_nodes c) ->
  same_as (S := S) (pc_unique_copy c Ts (iat c i) (iat c j) put (pure2 eqv) o) (std_unique_copy (pure2 eqv) put (views c Ts i j) o) eq.
Proof.
  intros HE Bl L Lj. destruct (split_ok c i j W L Lj) as (ps & Q & C). unfold pc_unique_copy. rewrite Q, lift_some.
  apply unique_loop_ok; auto.
Qed.

(** ** sample *)

Lemma sample_loop_ok {G} (gen : nat -> G -> nat * G) ps a b : (forall m g, fst (gen m g) <= m) -> cover c ps a b ->
  b <= tot (c_nodes c) -> forall o n g w, n <= b - a ->
  exists sel g', sample_loop c Ts (draws gen) records o n (b - a) ps (g, w) = Ok (g', w ++ number o sel) (o + length sel) /\
    selection sel (views c Ts a b) /\ length sel = n.
Proof.
  intros Hg C. induction C as [a|q ps a m b P C IH]; intros Lt o n g w Hn; cbn [sample_loop].
  - exists [], g. rewrite views_nil, app_nil_r, Nat.add_0_r. unfold ret. csplit; auto; [constructor|simpl; lia].
  - assert (Lb := cover_le c ps m b C). destruct (piece_le c q a m P) as [La Lm].
    rewrite (piece_views_ok c Ts q a m W P), lift_some.
    destruct (sample_alg_ok gen Hg (views c Ts a m) o n (b - a) g w) as (sel & g' & m' & Q & H1 & H2 & H3 & H4);
      [lia|rewrite views_length; lia|]. rewrite views_length in H3, H4 by lia.
    unfold bind. rewrite Q. cbn [fst snd]. rewrite <- (views_app c Ts a m b) by lia.
    destruct (Nat.eqb_spec (n - length sel) 0) as [Z|Nz].
    + exists sel, g'. unfold ret. csplit; auto; [|lia]. rewrite <- (app_nil_r sel). apply sel_app; auto. apply sel_none.
    + rewrite (H4 Nz). replace (b - a - (m - a)) with (b - m) by lia.
      destruct (IH Lt (o + length sel) (n - length sel) g' (w ++ number o sel)) as (sel2 & g2 & Q2 & S2 & N2); [lia|].
      exists (sel ++ sel2), g2. rewrite Q2, number_app, app_length, <- app_assoc, Nat.add_assoc. csplit; auto; [|lia].
      apply sel_app; auto.
Qed.
Lemma sample_loop_any ps a b : cover c ps a b -> b <= tot (c_nodes c) -> forall sel o, selection sel (views c Ts a b) ->
  exists g, forall g' w, sample_loop c Ts (draws scripted) records o (length sel) (b - a) ps (g ++ g', w) = Ok (g', w ++ number o sel) (o + length sel).
Proof.
  intros C. induction C as [a|q ps a m b P C IH]; intros Lt sel o Hs; cbn [sample_loop].
  - rewrite views_nil in Hs. inversion Hs; subst. exists []. intros g' w. rewrite app_nil_r, Nat.add_0_r. auto.
  - assert (Lb := cover_le c ps m b C). destruct (piece_le c q a m P) as [La Lm].
    rewrite (piece_views_ok c Ts q a m W P), lift_some. rewrite <- (views_app c Ts a m b) in Hs by lia.
    destruct (sel_app_inv _ _ _ Hs) as (s1 & s2 & -> & Hs1 & Hs2).
    assert (L1 := sel_len _ _ Hs1). assert (L2 := sel_len _ _ Hs2). rewrite views_length in L1, L2 by lia. rewrite app_length.
    destruct (sample_alg_any s1 _ Hs1 o (length s1 + length s2) (b - a)) as (g1 & m' & Hm & Q); try (rewrite ?views_length; lia).
    destruct (IH Lt s2 (o + length s1) Hs2) as (g2 & Q2).
    replace (length s1 + length s2 - length s1) with (length s2) in * by lia. rewrite views_length in Hm by lia.
    destruct (Nat.eq_dec (length s2) 0) as [Z|Nz].
    + exists g1. intros g' w. unfold bind. rewrite Q. cbn [fst snd]. rewrite Z. destruct s2; [|discriminate]. cbn [Nat.eqb length]. rewrite app_nil_r, Nat.add_0_r. auto.
    + exists (g1 ++ g2). intros g' w. unfold bind. rewrite <- app_assoc, Q. cbn [fst snd]. rewrite (proj2 (Nat.eqb_neq _ _) Nz).
      rewrite (Hm Nz). replace (b - a - (m - a)) with (b - m) by lia. rewrite Q2, number_app, <- app_assoc, Nat.add_assoc. auto.
Qed.
Lemma fast_distance_st {S'} i j (s : S') : i <= j -> j <= tot (c_nodes c) -> pc_fast_distance c (iat c i) (iat c j) s = Ok s (j - i).
Proof.
  intros L Lj. assert (H := fast_distance_ok (S := S') c W i j L Lj s). unfold ret in H.
  destruct (pc_fast_distance c (iat c i) (iat c j) s) as [s' k|s' x|]; try contradiction. destruct H as [-> ->]. auto.
Qed.
Lemma sample_ok {G} (gen : nat -> G -> nat * G) i j n o g w : (forall m g, fst (gen m g) <= m) -> i <= j -> j <= tot (c_nodes c) ->
  exists sel g', pc_sample c Ts (iat c i) (iat c j) records n (draws gen) o (g, w) = Ok (g', w ++ number o sel) (o + length sel) /\
    selection sel (views c Ts i j) /\ length sel = Nat.min n (j - i).
Proof.
  intros Hg L Lj. destruct (split_ok c i j W L Lj) as (ps & Q & C). unfold pc_sample, bind at 1. rewrite fast_distance_st by auto.
  rewrite Q, lift_some. apply sample_loop_ok; auto. lia.
Qed.
Lemma sample_any i j n sel o : i <= j -> j <= tot (c_nodes c) -> selection sel (views c Ts i j) -> length sel = Nat.min n (j - i) ->
  exists g, forall w, pc_sample c Ts (iat c i) (iat c j) records n (draws scripted) o (g, w) = Ok ([], w ++ number o sel) (o + length sel).
Proof.
  intros L Lj Hs Hl. destruct (split_ok c i j W L Lj) as (ps & Q & C). destruct (sample_loop_any ps i j C Lj sel o Hs) as (g & H).
  exists g. intros w. unfold pc_sample, bind at 1. rewrite fast_distance_st by auto. rewrite Q, lift_some, <- Hl.
  rewrite <- (app_nil_r g) at 1. apply H.
Qed.

(** with any generator and any output, as on a sequence *)
Lemma select_stop {S' X} (draw : nat -> M S' nat) (put : nat -> X -> M S' unit) m l o : std_select draw put 0 m l o = ret o.
Proof. destruct l; reflexivity. Qed.
Lemma sample_alg_select {S'} (draw : nat -> M S' nat) put ys : forall xs o n m,
  same_as (r <- sample_alg (V := V) draw put o n m xs ;; std_select draw put (fst (snd r)) (snd (snd r)) ys (fst r))
    (std_select draw put n m (xs ++ ys) o) eq.
Proof.
  induction xs as [|x xs IH]; intros o n m; cbn [sample_alg app].
  - intros s. unfold bind, ret. cbn [fst snd]. apply same_eq.
  - cbn [std_select]. destruct (Nat.eqb_spec n 0) as [->|Nn].
    + intros s. unfold bind, ret. cbn [fst snd]. rewrite select_stop. split; reflexivity.
    + eapply same_eq_l; [apply bind_assoc|]. apply same_bind_eq. intros r. destruct (r <? n); [|apply IH].
      eapply same_eq_l; [apply bind_assoc|]. apply same_bind_eq. intros _. apply IH.
Qed.
Lemma sample_loop_select {S'} (draw : nat -> M S' nat) put ps a b : cover c ps a b -> b <= tot (c_nodes c) -> forall o n m,
  same_as (sample_loop c Ts draw put o n m ps) (std_select draw put n m (views c Ts a b) o) eq.
Proof.
  intros C. induction C as [a|q ps a k b P C IH]; intros Lt o n m; cbn [sample_loop].
  - rewrite views_nil. apply same_eq.
  - assert (Lb := cover_le c ps k b C). destruct (piece_le c q a k P) as [La Lm].
    rewrite (piece_views_ok c Ts q a k W P), lift_some. rewrite <- (views_app c Ts a k b) by lia.
    eapply same_eq_r; [apply sample_alg_select|]. apply same_bind_eq. intros r.
    destruct (Nat.eqb_spec (fst (snd r)) 0) as [->|_]; [rewrite select_stop; apply same_eq|apply IH; auto].
Qed.
Lemma sample_calls {S'} (draw : nat -> M S' nat) put i j n o : i <= j -> j <= tot (c_nodes c) ->
  same_as (pc_sample c Ts (iat c i) (iat c j) put n draw o) (std_sample draw put n (views c Ts i j) o) eq.
Proof.
  intros L Lj. destruct (split_ok c i j W L Lj) as (ps & Q & C). intros s. unfold pc_sample, bind at 1. rewrite fast_distance_st by auto.
  rewrite Q, lift_some. unfold std_sample. rewrite views_length by auto. apply sample_loop_select; auto.
Qed.

(** ** partition_point *)

Lemma it_distance_at fuel g h : g <= h -> h <= tot (c_nodes c) -> h - g <= fuel -> it_distance fuel c (iat c g) (iat c h) = Some (h - g).
Proof.
  revert g. induction fuel as [|fuel IH]; intros g L Lh Lf; cbn [it_distance]; rewrite (it_eq_at (c_nodes c)) by (try apply W; lia);
    destruct (Nat.eqb_spec g h) as [->|Ne]; try (f_equal; lia); try lia.
  rewrite it_next_at by (try apply W; lia). rewrite IH by lia. cbn [option_map]. f_equal. lia.
Qed.
Lemma it_advance_at n g : g + n <= tot (c_nodes c) -> it_advance c (iat c g) n = Some (iat c (g + n)).
Proof.
  revert g. induction n as [|n IH]; intros g L; cbn [it_advance]; [f_equal; f_equal; lia|].
  rewrite it_next_at by (try apply W; lia). rewrite IH by lia. do 2 f_equal. lia.
Qed.
Lemma pred_at_ok p g x : g < tot (c_nodes c) -> views c Ts g (1 + g) = [x] -> pred_at (S := S) c Ts p (iat c g) = p x.
Proof.
  intros L Hx. unfold pred_at. destruct (at_split (c_nodes c) g) as (l1 & n & l2 & a & En & Ha & Ei & At); [lia|].
  rewrite (segs_at c W g l1 n l2 En) by (rewrite At; auto). rewrite lift_some, At. cbn [it_pos].
  destruct (aok_node c l1 n _ W En) as (_ & _ & K).
  assert (P : piece_ok c (mkpiece (n_id n) (env_ty (n_key n)) (be_ptr (sg_be (n_seg n)) a) (padd (be_ptr (sg_be (n_seg n)) a) 1)) g (1 + g)).
  { exists l1, n, l2, a, (a + 1). csplit; [exact En|rewrite be_ptr_padd, K; auto|lia|lia|lia|lia]. }
  rewrite (piece_views_ok c Ts _ _ _ W P), lift_some, Hx. auto.
Qed.
Lemma bisect_ok p K i j : j <= tot (c_nodes c) ->
  (forall g x, i <= g < j -> views c Ts g (1 + g) = [x] -> p x = (g <? K)) -> i <= K <= j ->
  forall fuel len g, len <= fuel -> i <= g -> g + len <= j -> g <= K <= g + len ->
  yields (S := S) (bisect fuel c Ts (pure p) (iat c g) len) (fun it => it = iat c K).
Proof.
  intros Lj Hp HK fuel. induction fuel as [|fuel IH]; intros len g Lf Li Ll Lk; cbn [bisect]; destruct (Nat.eqb_spec len 0) as [->|Nl]; try lia;
    try (apply yields_ret; f_equal; lia).
  assert (Hd : Nat.div2 len < len) by (apply Nat.lt_div2; lia).
  set (half := Nat.div2 len) in *. rewrite it_advance_at, lift_some by lia.
  assert (Hx : exists x, views c Ts (g + half) (1 + (g + half)) = [x]).
  { assert (Q : length (views c Ts (g + half) (1 + (g + half))) = 1) by (rewrite views_length; lia).
    destruct (views c Ts (g + half) (1 + (g + half))) as [|x [|y l]]; simpl in Q; try lia. eauto. }
  destruct Hx as [x Hx]. rewrite (pred_at_ok _ _ x) by (auto; lia). unfold pure at 1. rewrite bind_ret_l.
  rewrite (Hp (g + half) x) by (auto; lia). destruct (Nat.ltb_spec (g + half) K) as [Lt|Ge].
  - rewrite it_next_at, lift_some by (try apply W; lia). apply IH; lia.
  - apply IH; lia.
Qed.
Lemma views_at i j g x ts : i <= g < j -> j <= tot (c_nodes c) -> views c Ts g (1 + g) = [x] -> views c Ts i j = ts -> nth_error ts (g - i) = Some x.
Proof.
  intros H Lj Hx <-. rewrite <- (views_app c Ts i g j), <- (views_app c Ts g (1 + g) j) by lia. rewrite Hx.
  rewrite nth_error_app2 by (rewrite views_length; lia). rewrite views_length by lia. rewrite Nat.sub_diag. auto.
Qed.
Lemma partition_point_ok p i j ts fs : i <= j -> j <= tot (c_nodes c) -> views c Ts i j = ts ++ fs ->
  Forall (fun x => p x = true) ts -> Forall (fun x => p x = false) fs ->
  yields (S := S) (pc_partition_point c Ts (iat c i) (iat c j) (pure p)) (fun it => it = iat c (i + length ts)).
Proof.
  intros L Lj Hv Ft Ff. unfold pc_partition_point.
  assert (Hl := f_equal (@length _) Hv). rewrite views_length, app_length in Hl by lia.
  assert (Hs : c_size c = tot (c_nodes c)) by reflexivity.
  rewrite it_distance_at, lift_some by lia.
  apply (bisect_ok p (i + length ts) i j); auto; try lia. intros g x Hg Hx.
  assert (Hn := views_at i j g x _ Hg Lj Hx Hv). destruct (Nat.ltb_spec g (i + length ts)) as [Lt|Ge].
  - rewrite nth_error_app1 in Hn by lia. apply nth_error_In in Hn. rewrite Forall_forall in Ft. auto.
  - rewrite nth_error_app2 in Hn by lia. apply nth_error_In in Hn. rewrite Forall_forall in Ff. auto.
Qed.
End Coll.
End PAlgo5.
