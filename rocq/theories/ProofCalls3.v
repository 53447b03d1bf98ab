(** * adjacent_find and unique_copy with arbitrary function objects *)

From Coq Require Import List Arith Lia Bool Permutation.
From Verif Require Import Base Vec Backend Segment Coll StdAlg Algo Spec SpecAlg SpecCalls ProofBase ProofVec ProofBackend ProofOps ProofOps2 ProofSeg ProofMap ProofView
  ProofAlgo ProofAlgo2 ProofAlgo3 ProofAlgo4 ProofAlgo5 ProofCalls ProofCalls2.
Import ListNotations.

Section PCalls3.
Context {V : Type} {E : Env V}.
Notation iat c i := (at_ (c_nodes c) i).

(** ** The pieces of a range are in different segments *)

Lemma nodes_from_suffix (ns : list (node V)) i l : nodes_from ns i = Some l -> exists l', ns = l' ++ l.
Proof.
  induction ns as [|n ns IH]; cbn [nodes_from]; [discriminate|]. destruct (n_id n =? i).
  - intros Q. injection Q as <-. exists []. auto.
  - intros Q. destruct (IH Q) as (l' & ->). exists (n :: l'). auto.
Qed.
Lemma split_from_ids (ns : list (node V)) stop f l ps : split_from ns stop f l = Some ps -> exists k, map pc_id ps = firstn k (map n_id ns).
Proof.
  revert ps. induction ns as [|n ns IH]; intros ps; cbn [split_from].
  - destruct stop; [discriminate|]. intros Q. injection Q as <-. exists 0. auto.
  - destruct (mapit_eqb (Some (n_id n)) stop); [intros Q; injection Q as <-; exists 0; auto|].
    destruct (split_from ns stop f l) as [ps'|]; [|discriminate]. intros Q. injection Q as <-. destruct (IH ps' eq_refl) as (k & Hk).
    exists (Datatypes.S k). cbn [map firstn]. rewrite <- Hk. reflexivity.
Qed.
Lemma NoDup_firstn {B} k (l : list B) : NoDup l -> NoDup (firstn k l).
Proof. intros H. rewrite <- (firstn_skipn k l) in H. clear - H. induction (firstn k l) as [|x t IH]; [constructor|]. inversion H; subst. constructor; [|auto]. intros Q. apply H2, in_or_app. auto. Qed.
Lemma NoDup_suffix {B} (l1 l2 : list B) : NoDup (l1 ++ l2) -> NoDup l2.
Proof. induction l1 as [|x l1 IH]; auto. intros H. inversion H; auto. Qed.
Lemma split_nodup c first last ps : NoDup (map n_id (c_nodes c)) -> segment_split c first last = Some ps -> NoDup (map pc_id ps).
Proof.
  intros ND. unfold segment_split. destruct (split_end c last) as [stop|]; [|discriminate].
  destruct (segs_from c first) as [ns|] eqn:Es; [|discriminate]. intros Q. destruct (split_from_ids _ _ _ _ _ Q) as (k & ->).
  apply NoDup_firstn. unfold segs_from in Es. destruct (it_map first) as [i|].
  - destruct (nodes_from_suffix _ _ _ Es) as (l' & Hl). rewrite Hl, map_app in ND. apply NoDup_suffix in ND. auto.
  - injection Es as <-. constructor.
Qed.

Section Coll.
Context (c : coll V) (Ts : list tyid) (W : aok c).

Lemma piece_types q a m : piece_ok c q a m -> exists t, Forall (fun x : view V => r_ty (snd x) = t) (views c Ts a m) /\
  (forall n, In n (c_nodes c) -> n_id n = pc_id q -> n_ty n = t).
Proof.
  intros (l1 & n & l2 & x & y & En & -> & L & L' & -> & ->). exists (n_ty n). split.
  - rewrite (views_part c Ts l1 n l2) by auto. apply Forall_forall. intros v Hv. apply in_map_iff in Hv. destruct Hv as (r & <- & Hr).
    unfold seen. cbn [snd]. unfold between in Hr. apply in_first, in_skip in Hr. unfold nrefs in Hr. apply in_map_iff in Hr. destruct Hr as (kv & <- & _). auto.
  - intros n' Hn' Hid. cbn [pc_id] in Hid. assert (n' = n); [|congruence].
    assert (ND : NoDup (map n_id (c_nodes c))) by apply W. rewrite En in *. clear - ND Hn' Hid.
    induction l1 as [|z l1 IH]; cbn [app map] in *; inversion ND as [|u us Nin ND']; subst.
    + destruct Hn' as [<-|Hn']; auto. exfalso. apply Nin. rewrite <- Hid. apply in_map. auto.
    + destruct Hn' as [<-|Hn']; auto. exfalso. apply Nin. rewrite Hid, map_app. apply in_elt.
Qed.
Lemma lbi_types q g : lbi_at c q g -> exists n r, In n (c_nodes c) /\ node_at (c_nodes c) (fst q) = Some n /\ n_id n = fst q /\
  read_base (n_seg n) (snd q) = Some r /\ views c Ts g (1 + g) = [seen Ts r] /\ r_ty r = n_ty n.
Proof.
  intros Hl. destruct (lbi_at_read c Ts W q g Hl) as (n & r & Hn & Hr & Hv). destruct Hl as (l1 & n' & l2 & k & En & Hk & -> & ->).
  exists n, r. cbn [fst snd] in *. destruct (aok_node c l1 n' l2 W En) as (Hn' & _). rewrite Hn' in Hn. injection Hn as <-.
  csplit; auto.
  - rewrite En. apply in_elt.
  - unfold read_base in Hr. repeat (match type of Hr with context [match ?x with _ => _ end] => destruct x end; try discriminate). injection Hr as <-. auto.
Qed.

(** ** adjacent_find *)

Section Adj.
Context {S : Type} (p : view V -> view V -> M S bool) (ND : NoDup (map n_ty (c_nodes c))).

Lemma across_within l t : Forall (fun x : view V => r_ty (snd x) = t) l -> std_adjacent_find (across p) l = std_adjacent_find p l.
Proof.
  induction 1 as [|x l Hx Hl IH]; auto. cbn [std_adjacent_find]. destruct l as [|y l]; auto. inversion Hl; subst. rewrite IH.
  unfold across at 1. rewrite (proj2 (Nat.eqb_eq _ _)) by congruence. auto.
Qed.
Lemma node_types n n' : In n (c_nodes c) -> In n' (c_nodes c) -> n_id n <> n_id n' -> n_ty n <> n_ty n'.
Proof.
  intros Hn Hn' Hd Ht. apply Hd. f_equal. clear Hd. revert ND Hn Hn' Ht. generalize (c_nodes c). induction l as [|x l IH]; cbn [map In]; [tauto|].
  intros ND1 Hn Hn' Ht. inversion ND1 as [|u us Nin ND']; subst.
  destruct Hn as [<-|Hn], Hn' as [<-|Hn']; auto; exfalso; apply Nin; [rewrite Ht|rewrite <- Ht]; apply in_map; auto.
Qed.

Lemma adj_find_loop_calls : apart c -> forall ps a b, cover c ps a b -> NoDup (map pc_id ps) ->
  same_as (generic_find_loop c Ts (adjacent_find_alg c Ts p) None (iat c b) ps)
    (std_adjacent_find (across p) (views c Ts a b)) (fun r k => snd r = iat c (a + k)) /\
  (forall prev g, lbi_at c prev g -> a = 1 + g -> ~ In (fst prev) (map pc_id ps) ->
   same_as (generic_find_loop c Ts (adjacent_find_alg c Ts p) (Some prev) (iat c b) ps)
    (std_adjacent_find (across p) (views c Ts g b)) (fun r k => snd r = iat c (g + k))).
Proof.
  intros Ap ps a b C. induction C as [a|q ps a m b P C IH]; intros Nd.
  - split.
    + rewrite views_nil. apply same_ret. cbn [snd]. f_equal. lia.
    + intros prev g Hg -> _. destruct (lbi_at_read c Ts W prev g Hg) as (n & r & _ & _ & ->). cbn [generic_find_loop std_adjacent_find].
      apply same_ret. cbn [snd]. f_equal. lia.
  - cbn [map] in Nd. inversion Nd as [|u us Nin Nd']; subst. destruct (IH Nd') as [IH1 IH2]. clear IH Nd.
    destruct (piece_le c q a m P) as [La Lm]. assert (Lb := cover_le c ps m b C).
    assert (Hpv := piece_views_ok c Ts q a m W P). cbn [generic_find_loop].
    destruct (Nat.eq_dec a m) as [<-|Ne].
    { rewrite views_nil in Hpv.
      assert (Q : lbi_eq c (pc_id q, pc_end q) (pc_id q, pc_end q) = true).
      { unfold lbi_eq. cbn [fst snd]. rewrite !Nat.eqb_refl. auto. }
      split; [|intros prev g Hg -> Hi]; rewrite Hpv, lift_some; cbn [adjacent_find_alg]; rewrite bind_ret_l; cbn [fst snd]; rewrite Q; auto.
      apply IH2; auto. intros Q'. apply Hi. cbn [map]. right. auto. }
    destruct (between_S a m (refs c)) as (r0 & Hr0 & Hb); [lia|rewrite refs_length; lia|].
    assert (Hv : views c Ts a m = seen Ts r0 :: views c Ts (1 + a) m) by (unfold views; rewrite Hb; reflexivity).
    destruct (piece_types q a m P) as (t & Ht & Htn).
    assert (Tail : same_as
      (r <- (k <- std_adjacent_find p (views c Ts a m) ;;
        q0 <- lift (piece_at c Ts q k) ;;
        if k =? length (views c Ts a m) then
          q1 <- lift (piece_at c Ts q (k - 1)) ;; ret (Some (pc_id q, q1), (pc_id q, q0))
        else ret (None, (pc_id q, q0))) ;;
       if lbi_eq c (snd r) (pc_id q, pc_end q) then generic_find_loop c Ts (adjacent_find_alg c Ts p) (fst r) (iat c b) ps
       else it <- lift (it_make c (Some (fst (snd r))) (snd (snd r))) ;; ret (fst r, it))
      (std_adjacent_find (across p) (views c Ts a b)) (fun r k => snd r = iat c (a + k))).
    { rewrite <- (across_within _ t Ht).
      rewrite <- (views_app c Ts a (m - 1) b) by lia.
      rewrite <- (views_app c Ts a (m - 1) m) by lia. rewrite <- (views_app c Ts (m - 1) m b) by lia.
      assert (Hy : exists y, views c Ts (m - 1) m = [y]).
      { assert (Ly : length (views c Ts (m - 1) m) = 1) by (rewrite views_length; lia).
        destruct (views c Ts (m - 1) m) as [|y [|z l]]; simpl in Ly; try lia. exists y. auto. }
      destruct Hy as [y Hy]. rewrite Hy. cbn [app].
      eapply same_eq_r; [apply same_sym_eq, adj_app|].
      eapply same_eq_l; [apply bind_assoc|].
      assert (Ll : length (views c Ts a (m - 1) ++ [y]) = m - a) by (rewrite app_length, views_length by lia; simpl; lia).
      eapply same_bind; [apply adj_le|]. intros k k' [<- Hk]. rewrite Ll in *.
      rewrite (piece_at_ok c Ts q a m k W P Hk), lift_some.
      destruct (Nat.eqb_spec k (m - a)) as [->|Nk].
      - rewrite (piece_at_ok c Ts q a m) by (auto; lia). rewrite lift_some, bind_ret_l. cbn [fst snd].
        rewrite (piece_eq_end c q a m) by auto. rewrite Nat.eqb_refl.
        eapply same_eq_l; [apply same_sym_eq, bind_ret_r|].
        assert (I2 := IH2 (pc_id q, padd (pc_beg q) (m - a - 1)) (m - 1)).
        rewrite <- (views_app c Ts (m - 1) m b) in I2 by lia. rewrite Hy in I2. cbn [app] in I2.
        eapply same_bind; [apply I2|].
        + replace (m - 1) with (a + (m - a - 1)) by lia. apply (piece_lbi c q a m); auto. lia.
        + lia.
        + exact Nin.
        + intros r k Hr. apply same_ret. cbn beta. rewrite Hr.
          rewrite views_length by lia. f_equal. lia.
      - rewrite bind_ret_l. cbn [fst snd]. rewrite (piece_eq_end c q a m) by auto.
        rewrite (proj2 (Nat.eqb_neq _ _) Nk). rewrite (piece_iter c q a m k W P Hk), lift_some. apply same_ret. auto. }
    rewrite Hv in Hpv, Tail. split.
    + rewrite Hpv, lift_some. cbn [adjacent_find_alg]. rewrite bind_ret_l. exact Tail.
    + intros prev g Hg -> Hi. rewrite Hpv, lift_some. cbn [adjacent_find_alg]. destruct (lbi_types prev g Hg) as (n & r & Hin & Hn & Hid & Hr & Hvg & Hrt). rewrite Hn, lift_some, Hr, lift_some.
      rewrite <- (views_app c Ts g (1 + g) b) by lia. rewrite Hvg.
      assert (Hx : views c Ts (1 + g) b = seen Ts r0 :: views c Ts (1 + (1 + g)) m ++ views c Ts m b).
      { rewrite <- (views_app c Ts (1 + g) m b) by lia. rewrite Hv. auto. }
      assert (Hs : std_adjacent_find (across p) ([seen Ts r] ++ views c Ts (1 + g) b) =
        (b0 <- across p (seen Ts r) (seen Ts r0) ;; if b0 then ret 0 else k <- std_adjacent_find (across p) (views c Ts (1 + g) b) ;; ret (1 + k))).
      { rewrite Hx. reflexivity. }
      rewrite Hs. assert (Hp : p (None, r) (seen Ts r0) = across p (seen Ts r) (seen Ts r0)).
      { unfold across, seen. cbn [snd]. rewrite (proj2 (Nat.eqb_neq _ _)); auto.
        destruct P as (l1 & n1 & l2 & x & y & En & -> & _). rewrite Hv in Ht. inversion Ht as [|v vs Ht0 _]; subst. unfold seen in *. cbn [snd] in *.
        rewrite Hrt. assert (Hn1 : n_ty n1 = r_ty r0) by (apply Htn; [rewrite En; apply in_elt|reflexivity]). rewrite <- Hn1.
        apply node_types; auto; [rewrite En; apply in_elt|]. cbn [map pc_id In] in Hi. intros Q. apply Hi. left. congruence. }
      rewrite Hp.
      eapply same_eq_l; [apply bind_assoc|]. apply same_bind_eq. intros [|].
      * rewrite bind_ret_l. cbn [fst snd]. rewrite (prev_not_end c W q (1 + g) m prev g) by (auto; lia).
        rewrite (lbi_at_iter c W prev g Hg), lift_some. apply same_ret. cbn [snd]. f_equal. lia.
      * eapply same_eq_l; [apply same_sym_eq, bind_ret_r|]. eapply same_bind; [exact Tail|].
        intros r1 k Hk. apply same_ret. rewrite Hk. f_equal. lia.
Qed.
Lemma adjacent_find_calls i j : apart c -> i <= j -> j <= tot (c_nodes c) ->
  same_as (pc_adjacent_find c Ts (iat c i) (iat c j) p) (std_adjacent_find (across p) (views c Ts i j))
    (fun it k => it = iat c (i + k) /\ k <= j - i).
Proof.
  intros Ap L Lj. destruct (split_ok c i j W L Lj) as (ps & Q & C). unfold pc_adjacent_find, generic_find.
  rewrite Q, lift_some. destruct (adj_find_loop_calls Ap ps i j C) as [H _].
  { eapply split_nodup; [|exact Q]. apply W. }
  eapply same_trans with (m' := k <- std_adjacent_find (across p) (views c Ts i j) ;; ret k).
  - eapply same_bind; [exact H|]. intros r k Hr. apply (same_ret (snd r) k (fun it k => it = iat c (i + k))). auto.
  - eapply same_eq_l; [apply bind_ret_r|]. apply adj_le.
  - intros it k k' -> [<- Hk]. rewrite views_length in Hk by auto. auto.
Qed.
End Adj.

(** ** Counting *)

Section Count.
Context {S Z A : Type} (T : S -> exn -> Prop) (f : Z -> M S A) (D : Z -> Prop).
Notation made := (made T f D).
Notation once := (once T f D).
Notation never := (never T f D).
Context (i0 j0 : nat) (Lj0 : j0 <= tot (c_nodes c)).

Lemma in_views Tt a b x : i0 <= a -> b <= j0 -> In x (views c Tt a b) -> In x (views c Tt i0 j0).
Proof.
  intros La Lb Hx. destruct (le_lt_dec a b) as [L|L].
  - rewrite <- (views_app c Tt i0 a j0), <- (views_app c Tt a b j0) by lia. apply in_or_app. right. apply in_or_app. auto.
  - assert (Q : length (views c Tt a b) = 0) by (rewrite views_length; lia). destruct (views c Tt a b); [destruct Hx|simpl in Q; lia].
Qed.
Lemma bare_view prev g n r : lbi_at c prev g -> i0 <= g -> g < j0 -> node_at (c_nodes c) (fst prev) = Some n -> read_base (n_seg n) (snd prev) = Some r ->
  In (None, r) (views c [] i0 j0).
Proof.
  intros Hg L1 L2 Hn Hr. destruct (lbi_at_read c [] W prev g Hg) as (n' & r' & Hn' & Hr' & Hv). rewrite Hn in Hn'. injection Hn' as <-.
  rewrite Hr in Hr'. injection Hr' as <-. apply (in_views [] g (1 + g)); [exact L1|exact L2|]. rewrite Hv. left. reflexivity.
Qed.

Section Adj2.
Context (q : view V -> view V -> M (S * list Z) bool).
Context (Hq : forall x y, In x (views c Ts i0 j0 ++ views c [] i0 j0) -> In y (views c Ts i0 j0) -> once (q x y)).

Lemma adj_loop_made ps a b : cover c ps a b -> i0 <= a -> b = j0 ->
  made (generic_find_loop c Ts (adjacent_find_alg c Ts q) None (iat c b) ps) (b - a - 1) (fun k _ => k <= b - a - 1) /\
  (forall prev g, lbi_at c prev g -> i0 <= g -> g < a ->
   made (generic_find_loop c Ts (adjacent_find_alg c Ts q) (Some prev) (iat c b) ps) (b - a) (fun k _ => k <= b - a)).
Proof.
  intros C. induction C as [a|qq ps a m b P C IH]; intros Hi ->.
  - split; intros; apply made_ret; lia.
  - destruct (piece_le c qq a m P) as [La Lm]. assert (Lb := cover_le c ps m j0 C). destruct (IH ltac:(lia) eq_refl) as [IH1 IH2]. clear IH.
    assert (Hpv := piece_views_ok c Ts qq a m W P). cbn [generic_find_loop].
    destruct (Nat.eq_dec a m) as [<-|Ne].
    { rewrite views_nil in Hpv.
      assert (Q : lbi_eq c (pc_id qq, pc_end qq) (pc_id qq, pc_end qq) = true).
      { unfold lbi_eq. cbn [fst snd]. rewrite !Nat.eqb_refl. auto. }
      split; [|intros prev g Hg L1 L2]; rewrite Hpv, lift_some; cbn [adjacent_find_alg]; rewrite bind_ret_l; cbn [fst snd]; rewrite Q; auto.
      apply (IH2 prev g); auto. }
    destruct (between_S a m (refs c)) as (r0 & Hr0 & Hb); [lia|rewrite refs_length; lia|].
    assert (Hv : views c Ts a m = seen Ts r0 :: views c Ts (1 + a) m) by (unfold views; rewrite Hb; reflexivity).
    assert (Hin : forall x, In x (views c Ts a m) -> In x (views c Ts i0 j0)) by (intros x Hx; eapply in_views; [| |exact Hx]; lia).
    assert (Tail : made
      (r <- (k <- std_adjacent_find q (views c Ts a m) ;;
        q0 <- lift (piece_at c Ts qq k) ;;
        if k =? length (views c Ts a m) then
          q1 <- lift (piece_at c Ts qq (k - 1)) ;; ret (Some (pc_id qq, q1), (pc_id qq, q0))
        else ret (None, (pc_id qq, q0))) ;;
       if lbi_eq c (snd r) (pc_id qq, pc_end qq) then generic_find_loop c Ts (adjacent_find_alg c Ts q) (fst r) (iat c j0) ps
       else it <- lift (it_make c (Some (fst (snd r))) (snd (snd r))) ;; ret (fst r, it))
      (j0 - a - 1) (fun k _ => k <= j0 - a - 1)).
    { eapply made_same with (r := eq); [apply bind_assoc| |intros k u v -> H; exact H].
      eapply made_bind; [apply made_adjacent_find|rewrite views_length by lia; lia|].
      - intros k x y Hx Hy. apply nth_error_In in Hx, Hy. apply Hq; [apply in_or_app; left|]; auto.
      - cbn beta. rewrite views_length by lia. intros k r [-> Hr]. split; [lia|].
        rewrite (piece_at_ok c Ts qq a m r W P Hr), lift_some.
        destruct (Nat.eqb_spec r (m - a)) as [->|Nk].
        + rewrite (piece_at_ok c Ts qq a m) by (auto; lia). rewrite lift_some, bind_ret_l. cbn [fst snd].
          rewrite (piece_eq_end c qq a m) by auto. rewrite Nat.eqb_refl.
          eapply made_mono; [apply (IH2 (pc_id qq, padd (pc_beg qq) (m - a - 1)) (m - 1))| |].
          * replace (m - 1) with (a + (m - a - 1)) by lia. apply (piece_lbi c qq a m); auto. lia.
          * lia.
          * lia.
          * lia.
          * cbn beta. intros; lia.
        + rewrite bind_ret_l. cbn [fst snd]. rewrite (piece_eq_end c qq a m) by auto.
          rewrite (proj2 (Nat.eqb_neq _ _) Nk). rewrite (piece_iter c qq a m r W P Hr), lift_some. apply made_ret. lia. }
    rewrite Hv in Hpv, Tail. split.
    + rewrite Hpv, lift_some. cbn [adjacent_find_alg]. rewrite bind_ret_l. exact Tail.
    + intros prev g Hg L1 L2. rewrite Hpv, lift_some. cbn [adjacent_find_alg]. destruct (lbi_types prev g Hg) as (n & r & Hnin & Hn & Hid & Hr & Hvg & Hrt).
      assert (Hbare := bare_view prev g n r Hg L1 ltac:(lia) Hn Hr). rewrite Hn, lift_some, Hr, lift_some.
      eapply made_same with (r := eq); [apply bind_assoc| |intros k u v -> H; exact H].
      eapply made_once; [apply Hq; [apply in_or_app; auto|apply Hin; rewrite Hv; left; auto]|lia|]. intros [|].
      * rewrite bind_ret_l. cbn [fst snd]. destruct (lbi_eq c prev (pc_id qq, pc_end qq)).
        -- eapply made_mono; [apply (IH2 prev g Hg L1); lia|lia|]. cbn beta. intros; lia.
        -- rewrite (lbi_at_iter c W prev g Hg), lift_some. apply made_ret. lia.
      * eapply made_mono; [exact Tail|lia|]. cbn beta. intros; lia.
Qed.
Lemma adjacent_find_made : i0 <= j0 -> made (pc_adjacent_find c Ts (iat c i0) (iat c j0) q) (j0 - i0 - 1) (fun k _ => k <= j0 - i0 - 1).
Proof.
  intros L. destruct (split_ok c i0 j0 W L Lj0) as (ps & Q & C). unfold pc_adjacent_find, generic_find.
  rewrite Q, lift_some. destruct (adj_loop_made ps i0 j0 C (le_n _) eq_refl) as [H _].
  apply (made_map T f D _ (fun r => snd r)). eapply made_mono; [exact H|lia|]. auto.
Qed.

(** unique_copy *)
Context (put : nat -> view V -> M (S * list Z) unit) (Hput : forall o x, In x (views c Ts i0 j0) -> never (put o x)).
Lemma made_unique_after l x o : In x (views c Ts i0 j0) -> (forall y, In y l -> In y (views c Ts i0 j0)) ->
  made (std_unique_copy_after q put x l o) (length l) (fun k _ => k = length l).
Proof.
  intros Hx Hl. revert x o Hx. induction l as [|y l IH]; intros x o Hx; cbn [std_unique_copy_after length]; [apply made_ret; auto|].
  assert (Hy : In y (views c Ts i0 j0)) by (apply Hl; left; auto).
  assert (IH' := IH (fun z Hz => Hl z (or_intror Hz))).
  eapply made_once; [apply Hq; [apply in_or_app; auto|auto]|lia|]. intros [|].
  - eapply made_mono; [apply IH'; auto|lia|]. cbn beta. intros; lia.
  - eapply made_never; [apply Hput; auto|]. intros _. eapply made_mono; [apply IH'; auto|lia|]. cbn beta. intros; lia.
Qed.
Lemma made_unique l o : (forall y, In y l -> In y (views c Ts i0 j0)) -> made (std_unique_copy q put l o) (length l - 1) (fun k _ => k = length l - 1).
Proof.
  intros Hl. destruct l as [|x l]; cbn [std_unique_copy length]; [apply made_ret; auto|].
  eapply made_never; [apply Hput, Hl; left; auto|]. intros _. eapply made_mono; [apply made_unique_after|lia|cbn beta; intros; lia].
  - apply Hl. left. auto.
  - intros y Hy. apply Hl. right. auto.
Qed.
Lemma made_skip x l : In x (views c [] i0 j0) -> (forall y, In y l -> In y (views c Ts i0 j0)) ->
  made (skip_same (q x) l) (length l) (fun k r => r = [] /\ k = length l \/ r <> [] /\ k + (length r - 1) = length l /\ exists s, l = s ++ r).
Proof.
  intros Hx. induction l as [|y l IH]; intros Hl; cbn [skip_same length]; [apply made_ret; auto|].
  eapply made_once; [apply Hq; [apply in_or_app; auto|apply Hl; left; auto]|lia|]. intros [|].
  - eapply made_mono; [apply IH; intros z Hz; apply Hl; right; auto|lia|]. cbn beta.
    intros k r [(-> & ->)|(H1 & H2 & s & ->)]; [left; auto|right; csplit; auto; [lia|]]. exists (y :: s). auto.
  - apply made_ret. right. csplit; [discriminate|simpl; lia|]. exists []. auto.
Qed.
Lemma unique_loop_made ps a b : cover c ps a b -> i0 <= a -> b = j0 ->
  (forall o, made (unique_copy_loop c Ts q put None o ps) (b - a - 1) (fun k _ => k = b - a - 1)) /\
  (forall prev g o, lbi_at c prev g -> i0 <= g -> g < a ->
   made (unique_copy_loop c Ts q put (Some prev) o ps) (b - a) (fun k _ => k = b - a)).
Proof.
  intros C. induction C as [a|qq ps a m b P C IH]; intros Hi ->.
  - split; intros; apply made_ret; lia.
  - destruct (piece_le c qq a m P) as [La Lm]. assert (Lb := cover_le c ps m j0 C). destruct (IH ltac:(lia) eq_refl) as [IH1 IH2]. clear IH.
    assert (Hpv := piece_views_ok c Ts qq a m W P). cbn [unique_copy_loop].
    assert (Hin : forall x, In x (views c Ts a m) -> In x (views c Ts i0 j0)) by (intros x Hx; eapply in_views; [| |exact Hx]; lia).
    assert (Go : forall s y t o, views c Ts a m = s ++ y :: t ->
      made (o' <- std_unique_copy q put (y :: t) o ;;
            q0 <- lift (piece_at c Ts qq (length (views c Ts a m) - 1)) ;;
            unique_copy_loop c Ts q put (Some (pc_id qq, q0)) o' ps) (length t + (j0 - m)) (fun k _ => k = length t + (j0 - m))).
    { intros s y t o Ev. assert (Hl := f_equal (@length _) Ev). rewrite views_length in * by lia. rewrite app_length in Hl. cbn [length] in Hl.
      eapply made_bind; [apply (made_unique (y :: t)); intros z Hz; apply Hin; rewrite Ev; apply in_or_app; auto|cbn [length]; lia|].
      cbn beta. cbn [length]. intros k o' ->. split; [lia|]. rewrite (piece_at_ok c Ts qq a m) by (auto; lia). rewrite lift_some.
      eapply made_mono; [apply (IH2 (pc_id qq, padd (pc_beg qq) (m - a - 1)) (m - 1))| |].
      - replace (m - 1) with (a + (m - a - 1)) by lia. apply (piece_lbi c qq a m); auto. lia.
      - lia.
      - lia.
      - lia.
      - cbn beta. intros; lia. }
    split.
    + intros o. rewrite Hpv, lift_some, bind_ret_l. destruct (views c Ts a m) as [|y t] eqn:Ev.
      * assert (Q := f_equal (@length _) Ev). rewrite views_length in Q by lia. simpl in Q. assert (a = m) as -> by lia. apply IH1.
      * assert (Q := f_equal (@length _) Ev). rewrite views_length in Q by lia. cbn [length] in Q.
        eapply made_mono; [apply (Go [] y t o); auto|lia|]. cbn beta. intros; lia.
    + intros prev g o Hg L1 L2. rewrite Hpv, lift_some. destruct (lbi_types prev g Hg) as (n & r & Hnin & Hn & Hid & Hr & Hvg & Hrt).
      assert (Hbare := bare_view prev g n r Hg L1 ltac:(lia) Hn Hr). rewrite Hn, lift_some, Hr, lift_some.
      eapply made_bind; [apply (made_skip (None, r) (views c Ts a m)); auto|rewrite views_length by lia; lia|].
      cbn beta. rewrite views_length by lia. intros k xs' [(-> & ->)|(H1 & H2 & s & Hs)].
      * split; [lia|]. eapply made_mono; [apply (IH2 prev g o Hg L1); lia|lia|]. cbn beta. intros; lia.
      * destruct xs' as [|y t]; [congruence|]. cbn [length] in H2. split; [lia|].
        assert (G := Go s y t o Hs). rewrite views_length in G by lia. eapply made_mono; [exact G|lia|]. cbn beta. intros; lia.
Qed.
Lemma unique_copy_made o : i0 <= j0 -> made (pc_unique_copy c Ts (iat c i0) (iat c j0) put q o) (j0 - i0 - 1) (fun k _ => k = j0 - i0 - 1).
Proof.
  intros L. destruct (split_ok c i0 j0 W L Lj0) as (ps & Q & C). unfold pc_unique_copy. rewrite Q, lift_some.
  apply (unique_loop_made ps i0 j0 C (le_n _) eq_refl).
Qed.
End Adj2.
End Count.
End Coll.
End PCalls3.
