(** * The algorithms: splitting into pieces, reading, and the algorithms one by one *)

From Coq Require Import List Arith Lia Bool Permutation.
From Verif Require Import Base Vec Backend Segment Coll StdAlg Algo Spec SpecAlg ProofBase ProofVec ProofBackend ProofOps ProofOps2 ProofSeg ProofMap ProofView.
Import ListNotations.

(** ** Computations that behave alike *)

Lemma same_refl {S A} (m : M S A) (R : A -> A -> Prop) : (forall a, R a a) -> same_as m m R.
Proof. intros H s. destruct (m s); auto. Qed.
Lemma same_eq {S A} (m : M S A) : same_as m m eq.
Proof. apply same_refl. auto. Qed.
Lemma same_ret {S A B} (a : A) (b : B) (R : A -> B -> Prop) : R a b -> same_as (S := S) (ret a) (ret b) R.
Proof. intros H s. simpl. auto. Qed.
Lemma same_ub {S A B} (R : A -> B -> Prop) : same_as (S := S) ub ub R.
Proof. intros s. simpl. auto. Qed.
Lemma same_bind {S A B A' B'} (m : M S A) (m' : M S A') (f : A -> M S B) (f' : A' -> M S B')
  (R : A -> A' -> Prop) (R' : B -> B' -> Prop) :
  same_as m m' R -> (forall a a', R a a' -> same_as (f a) (f' a') R') -> same_as (bind m f) (bind m' f') R'.
Proof.
  intros H Hf s. specialize (H s). unfold bind. destruct (m s), (m' s); try tauto.
  destruct H as [-> H]. apply (Hf _ _ H).
Qed.
Lemma same_bind_eq {S A B B'} (m : M S A) (f : A -> M S B) (f' : A -> M S B') (R' : B -> B' -> Prop) :
  (forall a, same_as (f a) (f' a) R') -> same_as (bind m f) (bind m f') R'.
Proof. intros H. apply (same_bind m m f f' eq); [apply same_eq|]. intros a a' ->. auto. Qed.
Lemma same_mono {S A B} (m : M S A) (m' : M S B) (R R' : A -> B -> Prop) :
  (forall a b, R a b -> R' a b) -> same_as m m' R -> same_as m m' R'.
Proof. intros H Q s. specialize (Q s). destruct (m s), (m' s); try tauto. destruct Q. auto. Qed.
Lemma same_trans {S A B C} (m : M S A) (m' : M S B) (m'' : M S C) (R : A -> B -> Prop) (R' : B -> C -> Prop) (R'' : A -> C -> Prop) :
  same_as m m' R -> same_as m' m'' R' -> (forall a b c, R a b -> R' b c -> R'' a c) -> same_as m m'' R''.
Proof.
  intros H H' T s. specialize (H s). specialize (H' s). destruct (m s), (m' s), (m'' s); try tauto.
  - destruct H as [-> H], H' as [-> H']. eauto.
  - destruct H as [-> ->], H' as [-> ->]. auto.
Qed.
Lemma same_eq_l {S A B} (m m1 : M S A) (m' : M S B) (R : A -> B -> Prop) : same_as m m1 eq -> same_as m1 m' R -> same_as m m' R.
Proof. intros H H'. apply (same_trans m m1 m' eq R); auto. intros a b c -> Q; auto. Qed.
Lemma same_eq_r {S A B} (m : M S A) (m' m1 : M S B) (R : A -> B -> Prop) : same_as m1 m' eq -> same_as m m1 R -> same_as m m' R.
Proof. intros H H'. apply (same_trans m m1 m' R eq); auto. intros a b c Q <-; auto. Qed.
Lemma bind_assoc {S A B C} (m : M S A) (f : A -> M S B) (g : B -> M S C) :
  same_as (bind (bind m f) g) (bind m (fun a => bind (f a) g)) eq.
Proof.
  intros s. unfold bind. destruct (m s) as [s1 a|s1 e|]; auto. destruct (f a s1) as [s2 b|s2 e|]; auto.
  destruct (g b s2); auto.
Qed.
Lemma bind_ret_l {S A B} (a : A) (f : A -> M S B) : bind (ret a) f = f a.
Proof. reflexivity. Qed.
Lemma bind_ret_r {S A} (m : M S A) : same_as (bind m ret) m eq.
Proof. intros s. unfold bind. destruct (m s); simpl; auto. Qed.
(** [same_as] with equality as a rewriting step on either side. *)
Lemma same_sym {S A B} (m : M S A) (m' : M S B) (R : A -> B -> Prop) : same_as m m' R -> same_as m' m (fun b a => R a b).
Proof.
  intros H s. specialize (H s). destruct (m s), (m' s); try tauto; destruct H; subst; auto.
Qed.
Lemma same_sym_eq {S A} (m m' : M S A) : same_as m m' eq -> same_as m' m eq.
Proof. intros H. apply same_sym in H. eapply same_mono; [|exact H]. auto. Qed.

(** ** Parts of lists *)

Lemma between_nil {A} i (l : list A) : between i i l = [].
Proof. unfold between. rewrite Nat.sub_diag. auto. Qed.
Lemma between_length {A} i j (l : list A) : j <= length l -> length (between i j l) = j - i.
Proof. intros H. unfold between. rewrite firstn_length, skipn_length. lia. Qed.
Lemma skipn_add {A} a b (l : list A) : skipn (a + b) l = skipn b (skipn a l).
Proof. revert l. induction a; simpl; auto. intros [|x l]; auto. rewrite skipn_nil. auto. Qed.
Lemma firstn_add {A} a b (l : list A) : firstn (a + b) l = firstn a l ++ firstn b (skipn a l).
Proof. revert l. induction a; simpl; auto. intros [|x l]; simpl; [rewrite firstn_nil; auto|]. f_equal. auto. Qed.
Lemma between_app {A} i j k (l : list A) : i <= j -> j <= k -> between i j l ++ between j k l = between i k l.
Proof.
  intros H1 H2. unfold between. replace (k - i) with ((j - i) + (k - j)) by lia.
  rewrite firstn_add, <- skipn_add. replace (i + (j - i)) with j by lia. auto.
Qed.
Lemma between_app_r {A} i j (l1 l2 : list A) :
  between (length l1 + i) (length l1 + j) (l1 ++ l2) = between i j l2.
Proof.
  unfold between. rewrite skipn_add, skipn_app, skipn_all, Nat.sub_diag. simpl.
  replace (length l1 + j - (length l1 + i)) with (j - i) by lia. auto.
Qed.
Lemma between_app_l {A} i j (l1 l2 : list A) : j <= length l1 -> between i j (l1 ++ l2) = between i j l1.
Proof.
  intros H. unfold between. destruct (Nat.le_gt_cases i (length l1)) as [Hi|Hi].
  - rewrite skipn_app. replace (i - length l1) with 0 by lia. simpl.
    rewrite firstn_app, skipn_length. replace (j - i - (length l1 - i)) with 0 by lia.
    simpl. rewrite app_nil_r. auto.
  - replace (j - i) with 0 by lia. auto.
Qed.
Lemma between_S {A} i j (l : list A) : i < j -> j <= length l ->
  exists x, nth_error l i = Some x /\ between i j l = x :: between (S i) j l.
Proof.
  intros H H'. destruct (nth_error l i) as [x|] eqn:En; [|apply nth_error_None in En; lia].
  exists x. split; auto. rewrite <- (between_app i (S i) j) by lia. f_equal.
  unfold between. replace (S i - i) with 1 by lia. apply nth_error_split in En.
  destruct En as (a & b & -> & <-). rewrite skipn_app, skipn_all, Nat.sub_diag. auto.
Qed.
Lemma between_nth {A} i j k (l : list A) : i + k < j -> nth_error (between i j l) k = nth_error l (i + k).
Proof.
  intros H. unfold between. revert i j H. induction l as [|x l IH]; intros i j H.
  - rewrite skipn_nil, firstn_nil. assert (N : forall m, nth_error (@nil A) m = None) by (intros [|]; auto). rewrite !N. auto.
  - destruct i; simpl.
    + destruct j; [lia|]. simpl. destruct k; simpl; auto. clear IH. assert (Hk : k < j) by lia. clear H.
      revert k j Hk. induction l as [|y l IH]; intros k j Hk; [rewrite firstn_nil; auto|].
      destruct j; [lia|]. destruct k; simpl; auto. apply IH. lia.
    + destruct j; [lia|]. simpl. apply IH. lia.
Qed.
Lemma map_between {A B} (f : A -> B) i j (l : list A) : map f (between i j l) = between i j (map f l).
Proof. unfold between. rewrite skipn_map, firstn_map. auto. Qed.
Lemma between_all {A} (l : list A) : between 0 (length l) l = l.
Proof. unfold between. rewrite Nat.sub_0_r. simpl. apply firstn_all. Qed.

Section PAlgo.
Context {V : Type} {E : Env V}.

Notation NL := (list (node V)).
Notation nb n := (sg_be (n_seg n)).
Notation nsz n := (bsize (sg_be (n_seg n))).

Record aok (c : coll V) : Prop := {
  aok_vok : vok (c_nodes c);
  aok_key : Forall (fun n => env_ty (n_key n) = n_ty n) (c_nodes c)
}.

(** ** References *)

Definition nrefs (n : node V) : list (eref V) :=
  map (fun kv => mkref (sg_ty (n_seg n)) (snd kv) (vptr (be_store (nb n)) (fst kv))) (number 0 (n_elems n)).

Lemma number_length {A} k (l : list A) : length (number k l) = length l.
Proof. revert k. induction l; simpl; auto. Qed.
Lemma number_nth {A} k (l : list A) i : nth_error (number k l) i = option_map (pair (k + i)) (nth_error l i).
Proof.
  revert k i. induction l as [|x l IH]; intros k [|i]; simpl; auto.
  - rewrite Nat.add_0_r. auto.
  - rewrite IH. replace (S k + i) with (k + S i) by lia. auto.
Qed.
Lemma number_snd {A} k (l : list A) : map snd (number k l) = l.
Proof. revert k. induction l; simpl; intros; f_equal; auto. Qed.

Lemma nrefs_length n : length (nrefs n) = nsz n.
Proof. unfold nrefs. rewrite map_length, number_length. apply n_elems_length. Qed.
Lemma nrefs_nth n k : nth_error (nrefs n) k =
  option_map (fun v => mkref (sg_ty (n_seg n)) v (vptr (be_store (nb n)) k)) (nth_error (n_elems n) k).
Proof. unfold nrefs. rewrite nth_error_map, number_nth. simpl. destruct (nth_error (n_elems n) k); auto. Qed.
Lemma refs_nodes (c : coll V) : refs c = flat_map nrefs (c_nodes c).
Proof. reflexivity. Qed.
Lemma flat_nrefs_length (ns : NL) : length (flat_map nrefs ns) = tot ns.
Proof. induction ns as [|n ns IH]; auto. rewrite tot_cons. simpl. rewrite app_length, nrefs_length, IH. auto. Qed.
Lemma refs_length (c : coll V) : length (refs c) = tot (c_nodes c).
Proof. rewrite refs_nodes. apply flat_nrefs_length. Qed.
Lemma refs_flat (c : coll V) : map (fun r => (r_ty r, r_val r)) (refs c) = flat c.
Proof.
  rewrite refs_nodes, flat_nodes. unfold nflat. induction (c_nodes c) as [|n ns IH]; simpl; auto.
  rewrite map_app, IH. f_equal. unfold nrefs. rewrite map_map. simpl.
  rewrite <- (number_snd 0 (n_elems n)) at 2. rewrite map_map. auto.
Qed.
Lemma views_length (c : coll V) Ts i j : j <= tot (c_nodes c) -> length (views c Ts i j) = j - i.
Proof. intros H. unfold views. rewrite map_length. apply between_length. rewrite refs_length. auto. Qed.
Lemma views_app (c : coll V) Ts i j k : i <= j -> j <= k -> views c Ts i j ++ views c Ts j k = views c Ts i k.
Proof. intros. unfold views. rewrite <- map_app, between_app; auto. Qed.
Lemma views_nil (c : coll V) Ts i : views c Ts i i = [].
Proof. unfold views. rewrite between_nil. auto. Qed.
Lemma views_part (c : coll V) Ts l1 n l2 a b : c_nodes c = l1 ++ n :: l2 -> b <= nsz n ->
  views c Ts (tot l1 + a) (tot l1 + b) = map (seen Ts) (between a b (nrefs n)).
Proof.
  intros En Hb. unfold views. rewrite refs_nodes, En, flat_map_app. rewrite <- (flat_nrefs_length l1).
  rewrite between_app_r. simpl. rewrite between_app_l by (rewrite nrefs_length; auto). auto.
Qed.

(** ** Pieces *)

Definition piece_ok (c : coll V) (p : piece) (i j : nat) : Prop :=
  exists l1 n l2 a b, c_nodes c = l1 ++ n :: l2 /\
    p = mkpiece (n_id n) (n_ty n) (be_ptr (nb n) a) (be_ptr (nb n) b) /\
    a <= b /\ b <= nsz n /\ i = tot l1 + a /\ j = tot l1 + b.

Inductive cover (c : coll V) : list piece -> nat -> nat -> Prop :=
| cv_nil i : cover c [] i i
| cv_cons p ps i j k : piece_ok c p i j -> cover c ps j k -> cover c (p :: ps) i k.

Lemma piece_le c p i j : piece_ok c p i j -> i <= j /\ j <= tot (c_nodes c).
Proof.
  intros (l1 & n & l2 & a & b & En & -> & L & L' & -> & ->). rewrite En, tot_app, tot_cons. lia.
Qed.
Lemma cover_le c ps i j : cover c ps i j -> i <= j.
Proof. induction 1; auto. apply piece_le in H. lia. Qed.
Lemma cover_tot c ps i j : cover c ps i j -> i <= tot (c_nodes c) -> j <= tot (c_nodes c).
Proof. induction 1; auto. apply piece_le in H. intros. apply IHcover. lia. Qed.

Lemma node_at_split (l1 : NL) n l2 : NoDup (map n_id (l1 ++ n :: l2)) -> node_at (l1 ++ n :: l2) (n_id n) = Some n.
Proof.
  induction l1 as [|m l1 IH]; simpl; intros ND.
  - rewrite Nat.eqb_refl. auto.
  - inversion ND; subst. destruct (Nat.eqb_spec (n_id m) (n_id n)) as [Eq|]; auto.
    exfalso. apply H1. rewrite Eq, map_app. apply in_or_app. right. simpl. auto.
Qed.
Lemma aok_node c l1 n l2 : aok c -> c_nodes c = l1 ++ n :: l2 ->
  node_at (c_nodes c) (n_id n) = Some n /\ wfs (n_seg n) /\ env_ty (n_key n) = n_ty n.
Proof.
  intros [W K] En. split; [|split].
  - rewrite En. apply node_at_split. rewrite <- En. apply W.
  - eapply vok_in; [exact W|]. rewrite En. apply in_or_app; right; left; auto.
  - rewrite Forall_forall in K. apply K. rewrite En. apply in_or_app; right; left; auto.
Qed.

Lemma be_ptr_padd (b : backend V) a k : padd (be_ptr b a) k = be_ptr b (a + k).
Proof. rewrite !be_ptr_eq. reflexivity. Qed.
Lemma vptr_padd (v : vec V) a k : padd (vptr v a) k = vptr v (a + k).
Proof. reflexivity. Qed.
Lemma pdiff_ptr (b : backend V) i j : i <= j -> pdiff (be_ptr b i) (be_ptr b j) = Some (j - i).
Proof.
  intros H. rewrite !be_ptr_eq. unfold pdiff. cbn [fst snd]. rewrite Nat.eqb_refl.
  destruct (Nat.leb_spec i j); [auto|lia].
Qed.
Lemma pdiff_vptr (v : vec V) i j : i <= j -> pdiff (vptr v i) (vptr v j) = Some (j - i).
Proof.
  intros H. unfold pdiff, vptr. cbn [fst snd]. rewrite Nat.eqb_refl. destruct (Nat.leb_spec i j); [auto|lia].
Qed.

Lemma read_base_at n k r : wfs (n_seg n) -> nth_error (nrefs n) k = Some r ->
  read_base (n_seg n) (be_ptr (nb n) k) = Some r.
Proof.
  intros [W _] H. rewrite nrefs_nth in H. unfold read_base.
  rewrite (be_deref_ptr (sg_ty (n_seg n))) by auto.
  change (belems (nb n)) with (n_elems n). destruct (nth_error (n_elems n) k) eqn:En; [|discriminate H].
  assert (k < nsz n) by (rewrite <- n_elems_length; apply nth_error_Some; congruence).
  rewrite (be_to_conc_ptr (sg_ty (n_seg n))) by (auto; lia). exact H.
Qed.
Lemma read_conc_at n k r : nth_error (nrefs n) k = Some r ->
  read_conc (sg_ty (n_seg n)) (n_seg n) (vptr (be_store (nb n)) k) = Some r.
Proof.
  intros H. rewrite nrefs_nth in H. unfold read_conc. rewrite Nat.eqb_refl, be_deref_conc_ptr.
  change (belems (nb n)) with (n_elems n). destruct (nth_error (n_elems n) k) eqn:En; [|discriminate H]. exact H.
Qed.
Lemma read_n_at (rd : ptr -> option (eref V)) (l : list (eref V)) (pt : nat -> ptr) m a :
  (forall k, padd (pt k) 1 = pt (S k)) -> (forall k r, nth_error l k = Some r -> rd (pt k) = Some r) ->
  a + m <= length l -> read_n rd (pt a) m = Some (between a (a + m) l).
Proof.
  intros Hp Hr. revert a. induction m as [|m IH]; intros a L.
  - rewrite Nat.add_0_r, between_nil. reflexivity.
  - destruct (between_S a (a + S m) l) as (x & Nx & ->); [lia..|]. cbn [read_n].
    rewrite (Hr _ _ Nx), Hp, IH by lia. replace (S a + m) with (a + S m) by lia. auto.
Qed.

Lemma restitute_seen Ts t : restitute Ts t = if existsb (Nat.eqb t) Ts then Some t else None.
Proof.
  induction Ts as [|T Ts IH]; simpl; auto. destruct (Nat.eqb_spec t T) as [->|]; auto.
Qed.
Lemma nrefs_ty n r : In r (nrefs n) -> r_ty r = sg_ty (n_seg n).
Proof. unfold nrefs. intros H. apply in_map_iff in H. destruct H as (x & <- & _). auto. Qed.
Lemma between_in {A} i j (l : list A) x : In x (between i j l) -> In x l.
Proof.
  unfold between. intros H. rewrite <- (firstn_skipn i l). apply in_or_app. right.
  rewrite <- (firstn_skipn (j - i) (skipn i l)). apply in_or_app. auto.
Qed.
Lemma seen_part Ts n a b : map (seen Ts) (between a b (nrefs n)) = map (pair (restitute Ts (n_ty n))) (between a b (nrefs n)).
Proof.
  apply map_ext_in. intros r H. apply between_in, nrefs_ty in H. unfold seen.
  rewrite restitute_seen. change (n_ty n) with (sg_ty (n_seg n)). rewrite H. auto.
Qed.

Lemma piece_views_ok c Ts p i j : aok c -> piece_ok c p i j -> piece_views c Ts p = Some (views c Ts i j).
Proof.
  intros W (l1 & n & l2 & a & b & En & -> & L & L' & -> & ->).
  destruct (aok_node c l1 n l2 W En) as (Hn & Wn & Hk).
  unfold piece_views. cbn [pc_id pc_ty pc_beg pc_end]. rewrite Hn.
  rewrite (views_part c Ts l1 n l2) by auto. rewrite seen_part.
  destruct (restitute Ts (n_ty n)) as [T|] eqn:ER.
  - assert (T = sg_ty (n_seg n)) as ->.
    { rewrite restitute_seen in ER. destruct (existsb _ _); inversion ER. auto. }
    destruct Wn as [Wb _].
    rewrite !(be_to_conc_ptr (sg_ty (n_seg n))) by (auto; lia). unfold read_range.
    rewrite pdiff_vptr by auto.
    rewrite (read_n_at _ (nrefs n) (vptr (be_store (nb n)))).
    + simpl. do 2 f_equal. f_equal. lia.
    + intros k. unfold padd, vptr. simpl. f_equal. lia.
    + intros k r. apply read_conc_at.
    + rewrite nrefs_length. lia.
  - unfold read_range. rewrite pdiff_ptr by auto.
    rewrite (read_n_at _ (nrefs n) (be_ptr (nb n))).
    + simpl. do 2 f_equal. f_equal. lia.
    + intros k. rewrite be_ptr_padd. f_equal. lia.
    + intros k r. apply read_base_at. auto.
    + rewrite nrefs_length. lia.
Qed.

Lemma piece_at_ok c Ts p i j k : aok c -> piece_ok c p i j -> k <= j - i ->
  piece_at c Ts p k = Some (padd (pc_beg p) k).
Proof.
  intros W (l1 & n & l2 & a & b & En & -> & L & L' & -> & ->) Hk.
  destruct (aok_node c l1 n l2 W En) as (Hn & Wn & Hke). destruct Wn as [Wb _].
  unfold piece_at. cbn [pc_id pc_ty pc_beg pc_end]. rewrite Hn.
  destruct (restitute Ts (n_ty n)); auto.
  rewrite (be_to_conc_ptr (sg_ty (n_seg n))) by (auto; lia).
  rewrite vptr_padd, (be_from_conc_ptr (sg_ty (n_seg n))), be_ptr_padd by auto. auto.
Qed.
Lemma piece_iter c p i j k : aok c -> piece_ok c p i j -> k <= j - i ->
  it_make c (Some (pc_id p)) (padd (pc_beg p) k) = Some (at_ (c_nodes c) (i + k)).
Proof.
  intros W (l1 & n & l2 & a & b & En & -> & L & L' & -> & ->) Hk. cbn [pc_id pc_beg].
  rewrite be_ptr_padd, (it_make_at c l1 n l2); auto; [|apply W|lia]. do 2 f_equal. lia.
Qed.
Lemma piece_diff c p i j : piece_ok c p i j -> pdiff (pc_beg p) (pc_end p) = Some (j - i).
Proof.
  intros (l1 & n & l2 & a & b & En & -> & L & L' & -> & ->). cbn [pc_beg pc_end].
  rewrite pdiff_ptr by auto. f_equal. lia.
Qed.
Lemma piece_end c p i j : piece_ok c p i j -> pc_end p = padd (pc_beg p) (j - i).
Proof.
  intros (l1 & n & l2 & a & b & En & -> & L & L' & -> & ->). cbn [pc_beg pc_end].
  rewrite be_ptr_padd. f_equal. lia.
Qed.
Lemma piece_eq_end c p i j k : piece_ok c p i j ->
  lbi_eq c (pc_id p, padd (pc_beg p) k) (pc_id p, pc_end p) = (k =? j - i).
Proof.
  intros H. rewrite (piece_end c p i j H). unfold lbi_eq, padd. cbn [fst snd]. rewrite Nat.eqb_refl.
  destruct (Nat.eqb_spec k (j - i)); [subst; apply Nat.eqb_refl|apply Nat.eqb_neq; lia].
Qed.

(** ** Splitting *)

Lemma mapit_eqb_spec x y : mapit_eqb x y = true <-> x = y.
Proof.
  destruct x, y; simpl; split; intros H; try discriminate H; auto.
  - apply Nat.eqb_eq in H. congruence.
  - inversion H. apply Nat.eqb_refl.
Qed.
Lemma mapit_eqb_neq x y : x <> y -> mapit_eqb x y = false.
Proof. intros H. destruct (mapit_eqb x y) eqn:Q; auto. apply mapit_eqb_spec in Q. tauto. Qed.
Lemma mapit_eqb_refl x : mapit_eqb x x = true.
Proof. apply mapit_eqb_spec. auto. Qed.

Definition head_id (ns : NL) : mapit := match ns with [] => None | n :: _ => Some (n_id n) end.
Lemma split_end_at c l1 n l2 k : vok (c_nodes c) -> c_nodes c = l1 ++ n :: l2 -> k < nsz n ->
  split_end c (at_ (c_nodes c) (tot l1 + k)) = Some (head_id l2) /\
  at_ (c_nodes c) (tot l1 + k) = mkiter (Some (n_id n)) (be_ptr (nb n) k).
Proof.
  intros W En Hk. assert (At : at_ (c_nodes c) (tot l1 + k) = mkiter (Some (n_id n)) (be_ptr (nb n) k)).
  { rewrite En, at_app. simpl. destruct (Nat.ltb_spec k (nsz n)); [auto|lia]. }
  split; auto. rewrite At. unfold split_end. cbn [it_map]. rewrite En, nodes_from_split.
  - destruct l2; auto.
  - rewrite <- En. apply W.
Qed.
Lemma split_stop (ns : NL) first last : split_from ns (head_id ns) first last = Some [].
Proof. destruct ns; simpl; auto. rewrite Nat.eqb_refl. auto. Qed.

Lemma nodup_app_ids (l1 : NL) n l2 m : NoDup (map n_id (l1 ++ n :: l2)) -> In m l2 -> n_id m <> n_id n.
Proof.
  induction l1 as [|x l1 IH]; simpl; intros ND Hm Eq; inversion ND; subst.
  - apply H1. rewrite <- Eq. apply in_map. auto.
  - apply IH; auto.
Qed.
Lemma nodup_app_ids' (l1 : NL) l2 n m : NoDup (map n_id (l1 ++ l2)) -> In n l1 -> In m l2 -> n_id m <> n_id n.
Proof.
  induction l1 as [|x l1 IH]; simpl; [tauto|]. intros ND [->|Hn] Hm Eq; inversion ND; subst.
  - apply H1. rewrite <- Eq. apply in_map, in_or_app. auto.
  - eapply IH; eauto.
Qed.

Lemma info_key c l1 n l2 first last : aok c -> c_nodes c = l1 ++ n :: l2 ->
  split_info n first last = mkpiece (n_id n) (n_ty n)
    (if mapit_eqb (Some (n_id n)) (it_map first) then it_pos first else be_ptr (nb n) 0)
    (if mapit_eqb (Some (n_id n)) (it_map last) then it_pos last else be_ptr (nb n) (nsz n)).
Proof.
  intros W En. destruct (aok_node c l1 n l2 W En) as (_ & _ & K). unfold split_info. rewrite K. auto.
Qed.

(** The node of a position in the rest of the collection. *)
Lemma at_rest (c : coll V) l1 l2 j : c_nodes c = l1 ++ l2 -> tot l1 <= j -> j < tot (c_nodes c) ->
  exists x m l3 k, l2 = x ++ m :: l3 /\ k < nsz m /\ j = tot (l1 ++ x) + k.
Proof.
  intros En L Lt. rewrite En, tot_app in Lt. destruct (at_split l2 (j - tot l1)) as (x & m & l3 & k & -> & Hk & Eg & _); [lia|].
  exists x, m, l3, k. csplit; auto. rewrite tot_app. lia.
Qed.

Lemma split_rest c first l2 l1 j : aok c -> c_nodes c = l1 ++ l2 -> tot l1 <= j -> j <= tot (c_nodes c) ->
  (forall m, In m l2 -> it_map first <> Some (n_id m)) ->
  exists stop ps, split_end c (at_ (c_nodes c) j) = Some stop /\
    split_from l2 stop first (at_ (c_nodes c) j) = Some ps /\ cover c ps (tot l1) j.
Proof.
  intros W. revert l1. induction l2 as [|n l2 IH]; intros l1 En L Lj Hf.
  - rewrite app_nil_r in En. subst l1. assert (j = tot (c_nodes c)) as -> by lia.
    rewrite at_end. exists None, []. csplit; auto. constructor.
  - destruct (Nat.lt_ge_cases j (tot l1 + nsz n)) as [Lt|Ge].
    + destruct (split_end_at c l1 n l2 (j - tot l1)) as [Se At]; auto; [apply W|lia|].
      replace (tot l1 + (j - tot l1)) with j in Se, At by lia.
      exists (head_id l2), [split_info n first (at_ (c_nodes c) j)]. csplit; auto.
      * cbn [split_from]. rewrite split_stop. rewrite mapit_eqb_neq; auto.
        destruct l2 as [|m l2]; [discriminate|]. simpl. intros Q. inversion Q as [Eq].
        refine (nodup_app_ids l1 n (m :: l2) m _ (or_introl eq_refl) (eq_sym Eq)). rewrite <- En. apply W.
      * econstructor; [|constructor]. exists l1, n, l2, 0, (j - tot l1). csplit; auto; try lia.
        rewrite (info_key c l1 n l2) by auto. f_equal.
        -- rewrite mapit_eqb_neq; auto. intros Q. apply (Hf n); [left; auto|]. auto.
        -- rewrite At. cbn [it_map it_pos]. rewrite mapit_eqb_refl. auto.
    + destruct (IH (l1 ++ [n])) as (stop & ps & Se & Sf & Cv).
      * rewrite <- app_assoc. auto.
      * rewrite tot_app, tot_cons. unfold tot in *. simpl in *. lia.
      * auto.
      * intros m Hm. apply Hf. right. auto.
      * exists stop, (split_info n first (at_ (c_nodes c) j) :: ps).
        assert (Hs : stop <> Some (n_id n) /\ it_map (at_ (c_nodes c) j) <> Some (n_id n)).
        { destruct (Nat.eq_dec j (tot (c_nodes c))) as [->|Ne].
          - rewrite at_end in *. inversion Se. split; discriminate.
          - destruct (at_rest c (l1 ++ [n]) l2 j) as (x & m & l3 & k & -> & Hk & Ej); try lia.
            { rewrite <- app_assoc. auto. }
            { rewrite tot_app, tot_cons. unfold tot in *. simpl in *. lia. }
            destruct (split_end_at c ((l1 ++ [n]) ++ x) m l3 k) as [Se' At]; auto; [apply W| |].
            { rewrite En, <- !app_assoc. auto. }
            rewrite <- Ej in Se', At. rewrite Se in Se'. inversion Se'; subst stop. rewrite At. cbn [it_map].
            assert (ND : NoDup (map n_id (l1 ++ n :: x ++ m :: l3))) by (rewrite <- En; apply W).
            assert (Hn : forall y, In y (x ++ m :: l3) -> Some (n_id y) <> Some (n_id n)).
            { intros y Hy Q. inversion Q as [Q']. refine (nodup_app_ids l1 n _ y ND Hy Q'). }
            split.
            + destruct l3 as [|m' l3]; [discriminate|]. simpl. apply Hn, in_or_app. right. right. left. auto.
            + apply Hn, in_or_app. right. left. auto. }
        destruct Hs as [Hs Hl]. csplit; auto.
        -- cbn [split_from]. rewrite mapit_eqb_neq by auto. rewrite Sf. auto.
        -- econstructor; [|exact Cv]. exists l1, n, l2, 0, (nsz n). csplit; auto; try lia.
           ++ rewrite (info_key c l1 n l2) by auto. f_equal.
              ** rewrite mapit_eqb_neq; auto. intros Q. apply (Hf n); [left; auto|]. auto.
              ** rewrite mapit_eqb_neq; auto.
           ++ rewrite tot_app, tot_cons. unfold tot. simpl. lia.
Qed.

Lemma split_ok c i j : aok c -> i <= j -> j <= tot (c_nodes c) ->
  exists ps, segment_split c (at_ (c_nodes c) i) (at_ (c_nodes c) j) = Some ps /\ cover c ps i j.
Proof.
  intros W L Lj. unfold segment_split. destruct (Nat.eq_dec i (tot (c_nodes c))) as [->|Ne].
  - assert (j = tot (c_nodes c)) as -> by lia. rewrite at_end. exists []. split; [reflexivity|constructor].
  - destruct (at_split (c_nodes c) i) as (l1 & n & l2 & a & En & Ha & Ei & At); [lia|].
    assert (Sf : segs_from c (at_ (c_nodes c) i) = Some (n :: l2)).
    { rewrite At. unfold segs_from. cbn [it_map]. rewrite En. apply nodes_from_split. rewrite <- En. apply W. }
    rewrite Sf. assert (ND : NoDup (map n_id (l1 ++ n :: l2))) by (rewrite <- En; apply W).
    destruct (Nat.lt_ge_cases j (tot l1 + nsz n)) as [Lt|Ge].
    + destruct (split_end_at c l1 n l2 (j - tot l1)) as [Se At']; auto; [apply W|lia|].
      replace (tot l1 + (j - tot l1)) with j in Se, At' by lia. rewrite Se.
      exists [split_info n (at_ (c_nodes c) i) (at_ (c_nodes c) j)]. split.
      * cbn [split_from]. rewrite split_stop. rewrite mapit_eqb_neq; auto.
        destruct l2 as [|m l2]; [discriminate|]. simpl. intros Q. inversion Q as [Eq].
        refine (nodup_app_ids l1 n (m :: l2) m ND (or_introl eq_refl) (eq_sym Eq)).
      * econstructor; [|constructor]. exists l1, n, l2, a, (j - tot l1). csplit; auto; try lia.
        rewrite (info_key c l1 n l2) by auto. rewrite At, At'. cbn [it_map it_pos]. rewrite mapit_eqb_refl. auto.
    + destruct (split_rest c (at_ (c_nodes c) i) l2 (l1 ++ [n]) j) as (stop & ps & Se & Sp & Cv); auto.
      * rewrite <- app_assoc. auto.
      * rewrite tot_app, tot_cons. unfold tot in *. simpl in *. lia.
      * intros m Hm Q. rewrite At in Q. cbn [it_map] in Q. inversion Q as [Q'].
        refine (nodup_app_ids l1 n l2 m ND Hm (eq_sym Q')).
      * rewrite Se. exists (split_info n (at_ (c_nodes c) i) (at_ (c_nodes c) j) :: ps).
        assert (Hs : stop <> Some (n_id n) /\ it_map (at_ (c_nodes c) j) <> Some (n_id n)).
        { destruct (Nat.eq_dec j (tot (c_nodes c))) as [->|Ne'].
          - rewrite at_end in *. inversion Se. split; discriminate.
          - destruct (at_rest c (l1 ++ [n]) l2 j) as (x & m & l3 & k & -> & Hk & Ej); try lia.
            { rewrite <- app_assoc. auto. }
            { rewrite tot_app, tot_cons. unfold tot in *. simpl in *. lia. }
            destruct (split_end_at c ((l1 ++ [n]) ++ x) m l3 k) as [Se' At']; auto; [apply W| |].
            { rewrite En, <- !app_assoc. auto. }
            rewrite <- Ej in Se', At'. rewrite Se in Se'. inversion Se'; subst stop. rewrite At'. cbn [it_map].
            assert (Hn : forall y, In y (x ++ m :: l3) -> Some (n_id y) <> Some (n_id n)).
            { intros y Hy Q. inversion Q as [Q']. refine (nodup_app_ids l1 n _ y ND Hy Q'). }
            split.
            + destruct l3 as [|m' l3]; [discriminate|]. simpl. apply Hn, in_or_app. right. right. left. auto.
            + apply Hn, in_or_app. right. left. auto. }
        destruct Hs as [Hs Hl]. split.
        -- cbn [split_from]. rewrite mapit_eqb_neq by auto. rewrite Sp. auto.
        -- econstructor; [|exact Cv]. exists l1, n, l2, a, (nsz n). csplit; auto; try lia.
           ++ rewrite (info_key c l1 n l2) by auto. f_equal.
              ** rewrite At. cbn [it_map it_pos]. rewrite mapit_eqb_refl. auto.
              ** rewrite mapit_eqb_neq; auto.
           ++ rewrite tot_app, tot_cons. unfold tot. simpl. lia.
Qed.

End PAlgo.
