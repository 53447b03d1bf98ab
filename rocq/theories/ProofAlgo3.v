(** * adjacent_find, unique_copy, search, search_n, is_permutation, sample, partition_point *)

From Coq Require Import List Arith Lia Bool Permutation.
From Verif Require Import Base Vec Backend Segment Coll StdAlg Algo Spec SpecAlg ProofBase ProofVec ProofBackend ProofOps ProofOps2 ProofSeg ProofMap ProofView ProofAlgo ProofAlgo2.
Import ListNotations.

Section AdjStd.
Context {S X : Type}.
Implicit Types (p : X -> X -> M S bool) (l : list X).
Lemma adj_app p l1 y l2 :
  same_as (std_adjacent_find p (l1 ++ y :: l2))
    (k <- std_adjacent_find p (l1 ++ [y]) ;;
     if k =? length (l1 ++ [y]) then k2 <- std_adjacent_find p (y :: l2) ;; ret (length l1 + k2) else ret k) eq.
Proof.
  induction l1 as [|x l1 IH].
  - simpl app. cbn [std_adjacent_find length]. rewrite bind_ret_l. cbn [Nat.eqb]. 
    eapply same_eq_l; [apply same_sym_eq, bind_ret_r|]. apply same_bind_eq. intros k. apply same_eq.
  - assert (Q : forall r, std_adjacent_find p ((x :: l1) ++ y :: r) =
      (b <- p x (hd y l1) ;; if b then ret 0 else k <- std_adjacent_find p (l1 ++ y :: r) ;; ret (1 + k))).
    { intros r. destruct l1; reflexivity. }
    change (((x :: l1) ++ [y])) with ((x :: l1) ++ y :: []) at 1. rewrite !Q.
    eapply same_eq_r; [apply same_sym_eq, bind_assoc|]. apply same_bind_eq. intros [|].
    + apply same_eq.
    + eapply same_eq_r; [apply same_sym_eq, bind_assoc|].
      eapply same_eq_l; [eapply same_bind; [exact IH|intros a a' ->; apply same_eq]|].
      eapply same_eq_l; [apply bind_assoc|]. apply same_bind_eq. intros k. rewrite bind_ret_l.
      change (1 + k =? length ((x :: l1) ++ [y])) with (k =? length (l1 ++ [y])).
      destruct (k =? length (l1 ++ [y])); [|apply same_eq].
      eapply same_eq_l; [apply bind_assoc|]. apply same_bind_eq. intros m. apply same_eq.
Qed.
Lemma adj_le p l : same_as (std_adjacent_find p l) (std_adjacent_find p l) (fun k k' => k = k' /\ k <= length l).
Proof.
  induction l as [|x l IH]; [apply same_ret; auto|]. cbn [std_adjacent_find]. destruct l as [|y l].
  - apply same_ret. auto.
  - apply same_bind_eq. intros [|]; [apply same_ret; split; auto; lia|].
    eapply same_bind; [exact IH|]. intros a a' [-> L]. apply same_ret. split; auto. cbn [length] in *. lia.
Qed.
End AdjStd.

Section PAlgo3.
Context {V : Type} {E : Env V} {S : Type}.

Notation NL := (list (node V)).
Notation nb n := (sg_be (n_seg n)).
Notation nsz n := (bsize (sg_be (n_seg n))).
Notation iat c i := (at_ (c_nodes c) i).

Context (c : coll V) (Ts : list tyid) (W : aok c).

(** ** adjacent_find *)

(** the local_base_iterator at a position *)
Definition lbi_at (q : nat * ptr) (g : nat) : Prop :=
  exists l1 n l2 k, c_nodes c = l1 ++ n :: l2 /\ k < nsz n /\ g = tot l1 + k /\ q = (n_id n, be_ptr (nb n) k).

Lemma lbi_at_read q g : lbi_at q g -> exists n r, node_at (c_nodes c) (fst q) = Some n /\
  read_base (n_seg n) (snd q) = Some r /\ views c Ts g (1 + g) = [seen Ts r].
Proof.
  intros (l1 & n & l2 & k & En & Hk & -> & ->). destruct (aok_node c l1 n l2 W En) as (Hn & Wn & _).
  destruct (nth_error (nrefs n) k) as [r|] eqn:Er; [|apply nth_error_None in Er; rewrite nrefs_length in Er; lia].
  exists n, r. cbn [fst snd]. csplit; auto.
  - apply read_base_at; auto.
  - replace (1 + (tot l1 + k)) with (tot l1 + (1 + k)) by lia. rewrite (views_part c Ts l1 n l2) by (auto; lia).
    destruct (between_S k (1 + k) (nrefs n)) as (r' & Er' & ->); [lia|rewrite nrefs_length; lia|].
    rewrite Er in Er'. inversion Er'; subst r'. unfold between. rewrite Nat.sub_diag. reflexivity.
Qed.
Lemma lbi_at_iter q g : lbi_at q g -> it_make c (Some (fst q)) (snd q) = Some (iat c g).
Proof.
  intros (l1 & n & l2 & k & En & Hk & -> & ->). destruct (aok_node c l1 n l2 W En) as (_ & Wn & K).
  assert (P : piece_ok c (mkpiece (n_id n) (n_ty n) (be_ptr (nb n) k) (be_ptr (nb n) k)) (tot l1 + k) (tot l1 + k)).
  { exists l1, n, l2, k, k. csplit; auto; lia. }
  assert (Hi := piece_iter c _ _ _ 0 W P). cbn [pc_id pc_beg] in Hi. rewrite be_ptr_padd, !Nat.add_0_r in Hi.
  cbn [fst snd]. apply Hi. lia.
Qed.
Lemma piece_lbi p i j k : piece_ok c p i j -> k < j - i -> lbi_at (pc_id p, padd (pc_beg p) k) (i + k).
Proof.
  intros (l1 & n & l2 & a & b & En & -> & L & L' & -> & ->) Hk. exists l1, n, l2, (a + k). cbn [pc_id pc_beg].
  rewrite be_ptr_padd. csplit; auto; lia.
Qed.

(** no storage begins where another one ends, or pointers into an index are compared *)
Definition apart : Prop := env_layout = SplitLayout \/
  forall n n' k, In n (c_nodes c) -> In n' (c_nodes c) -> n <> n' -> 0 < nsz n -> nsz n = v_cap (be_store (nb n)) -> k < nsz n' ->
    env_adjacent (v_blk (be_store (nb n))) (v_blk (be_store (nb n')), k) = false.

Lemma prev_not_end p i j q g : apart -> piece_ok c p i j -> i < j -> lbi_at q g -> g < i ->
  lbi_eq c q (pc_id p, pc_end p) = false.
Proof.
  intros Ap (l1 & n & l2 & a & b & En & -> & L & L' & -> & ->) Lt (l1' & n' & l2' & k' & En' & Hk' & -> & ->) Lg.
  cbn [pc_id pc_end]. destruct (aok_node c l1 n l2 W En) as (Hn & Wn & _). destruct (aok_node c l1' n' l2' W En') as (Hn' & Wn' & _).
  unfold lbi_eq. cbn [fst snd]. rewrite !be_ptr_eq. cbn [fst snd].
  assert (Bn : 0 < bsize (nb n)) by lia. assert (Bn' : 0 < bsize (nb n')) by lia.
  destruct (Nat.eqb_spec (pblk (nb n')) (pblk (nb n))) as [Eb|Nb].
  - assert (n' = n).
    { apply (vok_blk_inj (c_nodes c)); [apply W|rewrite En'; apply in_elt|rewrite En; apply in_elt| |exact Eb].
      apply (pblk_pos (sg_ty (n_seg n'))); [apply Wn'|auto]. }
    subst n'. apply Nat.eqb_neq. assert (l1' = l1).
    { assert (ND : NoDup (map n_id (c_nodes c))) by apply W. rewrite En in ND. rewrite En in En'.
      clear - ND En'. revert l1' En'. induction l1 as [|x l1 IH]; intros [|y l1'] Eq; auto; simpl in *;
        inversion ND as [|z zs Nin ND']; subst; injection Eq as Ex El.
      - exfalso. subst. apply Nin. rewrite map_app. apply in_elt.
      - exfalso. subst. apply Nin. rewrite map_app. apply in_elt.
      - subst y. f_equal. apply IH; auto. }
    subst l1'. lia.
  - apply orb_false_iff. destruct Ap as [Sp|Ap].
    + unfold at_storage_end. cbn [fst snd]. rewrite Hn, Hn'. unfold bsize in *. rewrite Sp.
      assert (Wi : forall m, wfs (n_seg m) -> vsize (be_store (nb m)) < v_cap (be_index (nb m))).
      { intros m [[[_ [Wi _ _] _] Wl] _]. rewrite Sp in Wl. destruct Wl as (_ & Ei & _). unfold vsize in Wi. rewrite Ei in Wi.
        unfold entries in Wi. rewrite map_length, seq_length in Wi. unfold bsize in Wi. lia. }
      assert (W1 := Wi n Wn). assert (W2 := Wi n' Wn').
      rewrite (proj2 (Nat.eqb_neq k' (v_cap (be_index (nb n'))))) by lia. rewrite (proj2 (Nat.eqb_neq b (v_cap (be_index (nb n))))) by lia. rewrite !andb_false_r. auto.
    + unfold at_storage_end. cbn [fst snd]. rewrite Hn, Hn'. destruct env_layout eqn:Lay.
      2:{ assert (Wi : forall m, wfs (n_seg m) -> vsize (be_store (nb m)) < v_cap (be_index (nb m))).
          { intros m [[[_ [Wi _ _] _] Wl] _]. rewrite Lay in Wl. destruct Wl as (_ & Ei & _). unfold vsize in Wi. rewrite Ei in Wi.
            unfold entries in Wi. rewrite map_length, seq_length in Wi. unfold bsize in Wi. lia. }
          assert (W1 := Wi n Wn). assert (W2 := Wi n' Wn'). unfold bsize in *.
          rewrite (proj2 (Nat.eqb_neq k' (v_cap (be_index (nb n'))))) by lia. rewrite (proj2 (Nat.eqb_neq b (v_cap (be_index (nb n))))) by lia. rewrite !andb_false_r. auto. }
      assert (Wc : forall m, wfs (n_seg m) -> bsize (nb m) <= v_cap (be_store (nb m))).
      { intros m [[[[Wc _ _] _ _] _] _]. exact Wc. }
      assert (W1 := Wc n Wn). assert (W2 := Wc n' Wn').
      rewrite (proj2 (Nat.eqb_neq k' (v_cap (be_store (nb n'))))) by lia. rewrite andb_false_r. split; auto.
      destruct (Nat.eqb_spec b (v_cap (be_store (nb n)))) as [Eb|]; [|apply andb_false_r].
      unfold pblk in *. rewrite Lay in *. rewrite (Ap n n' k'); auto; try lia.
      * rewrite En. apply in_elt.
      * rewrite En'. apply in_elt.
      * intros Q. subst n'. auto.
Qed.

Lemma adj_find_loop_ok (p : view V -> view V -> M S bool) : apart -> unaware Ts p -> forall ps a b, cover c ps a b ->
  same_as (generic_find_loop c Ts (adjacent_find_alg c Ts p) None (iat c b) ps)
    (std_adjacent_find p (views c Ts a b)) (fun r k => snd r = iat c (a + k)) /\
  (forall prev g, lbi_at prev g -> a = 1 + g ->
   same_as (generic_find_loop c Ts (adjacent_find_alg c Ts p) (Some prev) (iat c b) ps)
    (std_adjacent_find p (views c Ts g b)) (fun r k => snd r = iat c (g + k))).
Proof.
  intros Ap Bl ps a b C. induction C as [a|q ps a m b P C [IH1 IH2]].
  - split.
    + rewrite views_nil. apply same_ret. cbn [snd]. f_equal. lia.
    + intros prev g Hg ->. destruct (lbi_at_read prev g Hg) as (n & r & _ & _ & ->). cbn [generic_find_loop std_adjacent_find].
      apply same_ret. cbn [snd]. f_equal. lia.
  - destruct (piece_le c q a m P) as [La Lm]. assert (Lb := cover_le c ps m b C).
    assert (Hpv := piece_views_ok c Ts q a m W P). cbn [generic_find_loop].
    destruct (Nat.eq_dec a m) as [<-|Ne].
    { rewrite views_nil in Hpv.
      assert (Q : lbi_eq c (pc_id q, pc_end q) (pc_id q, pc_end q) = true).
      { unfold lbi_eq. cbn [fst snd]. rewrite !Nat.eqb_refl. auto. }
      split; [|intros prev g Hg ->]; rewrite Hpv, lift_some; cbn [adjacent_find_alg]; rewrite bind_ret_l; cbn [fst snd]; rewrite Q; auto. }
    destruct (between_S a m (refs c)) as (r0 & Hr0 & Hb); [lia|rewrite refs_length; lia|].
    assert (Hv : views c Ts a m = seen Ts r0 :: views c Ts (1 + a) m) by (unfold views; rewrite Hb; reflexivity).
    (* after the comparison with prev *)
    assert (Tail : same_as
      (r <- (k <- std_adjacent_find p (views c Ts a m) ;;
        q0 <- lift (piece_at c Ts q k) ;;
        if k =? length (views c Ts a m) then
          q1 <- lift (piece_at c Ts q (k - 1)) ;; ret (Some (pc_id q, q1), (pc_id q, q0))
        else ret (None, (pc_id q, q0))) ;;
       if lbi_eq c (snd r) (pc_id q, pc_end q) then generic_find_loop c Ts (adjacent_find_alg c Ts p) (fst r) (iat c b) ps
       else it <- lift (it_make c (Some (fst (snd r))) (snd (snd r))) ;; ret (fst r, it))
      (std_adjacent_find p (views c Ts a b)) (fun r k => snd r = iat c (a + k))).
    { rewrite <- (views_app c Ts a (m - 1) b) by lia.
      rewrite <- (views_app c Ts a (m - 1) m) by lia. rewrite <- (views_app c Ts (m - 1) m b) by lia.
      assert (Hy : exists y, views c Ts (m - 1) m = [y]).
      { assert (Ly : length (views c Ts (m - 1) m) = 1) by (rewrite views_length; lia).
        destruct (views c Ts (m - 1) m) as [|y [|z l]]; simpl in Ly; try lia. exists y. auto. }
      destruct Hy as [y Hy]. rewrite Hy. cbn [app].
      eapply same_eq_r; [apply same_sym_eq, adj_app|].
      eapply same_eq_l; [apply bind_assoc|].
      assert (Ll : length (views c Ts a (m - 1) ++ [y]) = m - a) by (rewrite app_length, views_length by lia; simpl; lia).
      eapply same_bind; [apply adj_le|]. intros k k' [<- Hk]. rewrite Ll in *.
      rewrite (piece_at_ok c Ts q a m k W P Hk), lift_some.
      destruct (Nat.eqb_spec k (m - a)) as [->|Nk].
      - rewrite (piece_at_ok c Ts q a m) by (auto; lia). rewrite lift_some, bind_ret_l. cbn [fst snd].
        rewrite (piece_eq_end c q a m) by auto. rewrite Nat.eqb_refl.
        eapply same_eq_l; [apply same_sym_eq, bind_ret_r|].
        assert (I2 := IH2 (pc_id q, padd (pc_beg q) (m - a - 1)) (m - 1)).
        rewrite <- (views_app c Ts (m - 1) m b) in I2 by lia. rewrite Hy in I2. cbn [app] in I2.
        eapply same_bind; [apply I2|].
        + replace (m - 1) with (a + (m - a - 1)) by lia. apply (piece_lbi q a m); auto. lia.
        + lia.
        + intros r k Hr. apply same_ret. cbn beta. rewrite Hr.
          rewrite views_length by lia. f_equal. lia.
      - rewrite bind_ret_l. cbn [fst snd]. rewrite (piece_eq_end c q a m) by auto.
        rewrite (proj2 (Nat.eqb_neq _ _) Nk). rewrite (piece_iter c q a m k W P Hk), lift_some. apply same_ret. auto. }
    rewrite Hv in Hpv, Tail. split.
    + rewrite Hpv, lift_some. cbn [adjacent_find_alg]. rewrite bind_ret_l. exact Tail.
    + intros prev g Hg ->. rewrite Hpv, lift_some. cbn [adjacent_find_alg]. destruct (lbi_at_read prev g Hg) as (n & r & Hn & Hr & Hvg). rewrite Hn, lift_some, Hr, lift_some.
      rewrite <- (views_app c Ts g (1 + g) b) by lia. rewrite Hvg.
      assert (Hx : views c Ts (1 + g) b = seen Ts r0 :: views c Ts (1 + (1 + g)) m ++ views c Ts m b).
      { rewrite <- (views_app c Ts (1 + g) m b) by lia. rewrite Hv. auto. }
      assert (Hs : std_adjacent_find p ([seen Ts r] ++ views c Ts (1 + g) b) =
        (b0 <- p (seen Ts r) (seen Ts r0) ;; if b0 then ret 0 else k <- std_adjacent_find p (views c Ts (1 + g) b) ;; ret (1 + k))).
      { rewrite Hx. reflexivity. }
      rewrite Hs. assert (Hp : p (None, r) (seen Ts r0) = p (seen Ts r) (seen Ts r0)) by apply Bl.
      rewrite Hp.
      eapply same_eq_l; [apply bind_assoc|]. apply same_bind_eq. intros [|].
      * rewrite bind_ret_l. cbn [fst snd]. rewrite (prev_not_end q (1 + g) m prev g) by (auto; lia).
        rewrite (lbi_at_iter prev g Hg), lift_some. apply same_ret. cbn [snd]. f_equal. lia.
      * eapply same_eq_l; [apply same_sym_eq, bind_ret_r|]. eapply same_bind; [exact Tail|].
        intros r1 k Hk. apply same_ret. rewrite Hk. f_equal. lia.
Qed.
Lemma adjacent_find_ok p i j : apart -> unaware Ts p -> i <= j -> j <= tot (c_nodes c) ->
  same_as (S := S) (pc_adjacent_find c Ts (iat c i) (iat c j) p) (std_adjacent_find p (views c Ts i j))
    (fun it k => it = iat c (i + k) /\ k <= j - i).
Proof.
  intros Ap Bl L Lj. destruct (split_ok c i j W L Lj) as (ps & Q & C). unfold pc_adjacent_find, generic_find.
  rewrite Q, lift_some. destruct (adj_find_loop_ok p Ap Bl ps i j C) as [H _].
  eapply same_trans with (m' := k <- std_adjacent_find p (views c Ts i j) ;; ret k).
  - eapply same_bind; [exact H|]. intros r k Hr. apply (same_ret (snd r) k (fun it k => it = iat c (i + k))). auto.
  - eapply same_eq_l; [apply bind_ret_r|]. apply adj_le.
  - intros it k k' -> [<- Hk]. rewrite views_length in Hk by auto. auto.
Qed.
End PAlgo3.
