(** * Function objects with a state of their own: adjacent_find, unique_copy, search_n, is_permutation *)

From Coq Require Import List Arith Bool Lia.
From Verif Require Import Base Vec Backend Segment Coll StdAlg Algo Spec SpecAlg SpecObj Functors
  ProofBase ProofVec ProofBackend ProofOps ProofOps2 ProofSeg ProofMap ProofView ProofAlgo ProofAlgo2 ProofAlgo3 ProofAlgo4 ProofAlgo5 ProofAlgo6 ProofColl ProofAlgo7 ProofObj ProofObj2.
Import ListNotations.

Section Obj3.
Context {V : Type} {E : Env V} {S F : Type}.
Context (c : coll V) (Ts : list tyid) (W : aok c) (NDt : NoDup (types c)).
Notation iat c := (at_ (c_nodes c)).

Lemma lift_some' {A} (a : A) : lift (S := S) (Some a) = ret a.
Proof. reflexivity. Qed.
Lemma by_type_nonempty (l : list (view V)) p : In p (by_type l) -> p <> [].
Proof.
  revert p. induction l as [|x l IH]; intros p; [contradiction|]. cbn [by_type]. destruct (by_type l) as [|[|y q] ps].
  - intros [<-|[]]. congruence.
  - intros [<-|H]; [congruence|auto].
  - destruct (_ =? _); intros [<-|H]; try congruence; [apply IH; right; auto|auto].
Qed.
(** the last element of a range *)
Lemma views_last a m : a < m -> m <= tot (c_nodes c) -> exists l y, views c Ts a m = l ++ [y] /\ views c Ts (m - 1) m = [y].
Proof.
  intros La Lm. assert (Ly := views_length c Ts (m - 1) m ltac:(lia)). destruct (views c Ts (m - 1) m) as [|y [|z l]] eqn:Q; cbn [length] in Ly; try lia.
  exists (views c Ts a (m - 1)), y. split; auto. rewrite <- (views_app c Ts a (m - 1) m) by lia. rewrite Q. auto.
Qed.
Lemma lbi_last q a m : piece_ok c q a m -> a < m -> lbi_at c (pc_id q, padd (pc_beg q) (m - a - 1)) (m - 1).
Proof. intros P La. replace (m - 1) with (a + (m - a - 1)) by lia. apply (piece_lbi c q a m); auto. lia. Qed.
Lemma lbi_view prev g l y : lbi_at c prev g -> g < tot (c_nodes c) -> views c Ts g (1 + g) = l ++ [y] ->
  exists n r, node_at (c_nodes c) (fst prev) = Some n /\ read_base (n_seg n) (snd prev) = Some r /\ (None, r) = as_base y.
Proof.
  intros Hg Lg Hy. destruct (lbi_at_read c Ts W prev g Hg) as (n & r & Hn & Hr & Hv). exists n, r. csplit; auto.
  rewrite Hy in Hv. destruct l as [|z l]; cbn [app] in Hv; [|injection Hv as _ Hv; destruct l; discriminate].
  injection Hv as ->. destruct r. reflexivity.
Qed.

(** ** adjacent_find *)
Section Adj.
Context (call : fcall S F (view V * view V) bool) (f : F) (Ap : apart c).
Notation p := (fun x y => applied call (x, y)).
Definition over (x : view V) (l : list (view V)) : M S bool :=
  match l with y :: _ => on_copy f (applied call (as_base x, y)) | [] => ret false end.
Lemma over_parts l ps x l' : rev l = x :: l' -> ps = by_type (concat ps) ->
  match rev l, ps with x :: _, (y :: _) :: _ => on_copy f (applied call (as_base x, y)) | _, _ => ret false end = over x (concat ps).
Proof.
  intros -> Ep. destruct ps as [|[|y q] ps]; auto.
  exfalso. apply (by_type_nonempty (concat ([] :: ps)) []); auto. rewrite <- Ep. left. auto.
Qed.
Lemma adjacent_cons l ps x l' : rev l = x :: l' -> ps = by_type (concat ps) ->
  adjacent_parts call f (l :: ps) = (k <- on_copy f (std_adjacent_find p l) ;;
    if k =? length l then b <- over x (concat ps) ;; if b then ret (length l - 1) else r <- adjacent_parts call f ps ;; ret (length l + r) else ret k).
Proof. intros El Ep. cbn [adjacent_parts]. rewrite (over_parts l ps x l' El Ep). auto. Qed.
Lemma adj_segs_ok ps a b : cover c ps a b -> NoDup (map pc_ty ps) -> b <= tot (c_nodes c) ->
  same_as (generic_find_loop c Ts (adjacent_find_obj c Ts call f) None (iat c b) ps)
    (adjacent_parts call f (by_type (views c Ts a b))) (fun r k => snd r = iat c (a + k) /\ k <= b - a) /\
  (forall prev g x, lbi_at c prev g -> a = 1 + g -> views c Ts g a = [x] ->
   same_as (generic_find_loop c Ts (adjacent_find_obj c Ts call f) (Some prev) (iat c b) ps)
    (e <- over x (views c Ts a b) ;; if e then ret 0 else k <- adjacent_parts call f (by_type (views c Ts a b)) ;; ret (1 + k))
    (fun r k => snd r = iat c (g + k) /\ k <= b - g)).
Proof.
  intros C. induction C as [a|q ps a m b P C IH]; intros ND Lt.
  - split.
    + rewrite views_nil. apply same_ret. cbn [snd]. split; [f_equal; lia|lia].
    + intros prev g x Hg -> Hx. rewrite views_nil. cbn [over generic_find_loop by_type adjacent_parts]. rewrite !bind_ret_l.
      apply same_ret. cbn [snd]. split; [f_equal; lia|lia].
  - destruct (piece_le c q a m P) as [La Lm]. assert (Lb := cover_le c ps m b C).
    assert (ND' : NoDup (map pc_ty ps)) by (inversion ND; auto). destruct (IH ND' Lt) as [IH1 IH2]. clear IH.
    assert (Hpv := piece_views_ok c Ts q a m W P). cbn [generic_find_loop].
    destruct (Nat.eq_dec a m) as [<-|Ne].
    { rewrite views_nil in Hpv.
      assert (Q : lbi_eq c (pc_id q, pc_end q) (pc_id q, pc_end q) = true).
      { unfold lbi_eq. cbn [fst snd]. rewrite !Nat.eqb_refl. auto. }
      split; [|intros prev g x Hg -> Hx]; rewrite Hpv, lift_some; cbn [adjacent_find_obj]; rewrite bind_ret_l; cbn [fst snd]; rewrite Q; auto. }
    destruct (by_type_cover c Ts q ps a m b P C ND) as [[Z _]|Bt].
    { assert (B := views_length c Ts a m ltac:(lia)). rewrite Z in B. cbn in B. lia. }
    destruct (views_last a m ltac:(lia) ltac:(lia)) as (l0 & y & Hl & Hy).
    assert (Er : rev (views c Ts a m) = y :: rev l0) by (rewrite Hl, rev_app_distr; auto).
    assert (Ec : by_type (views c Ts m b) = by_type (concat (by_type (views c Ts m b)))) by (rewrite by_type_concat; auto).
    assert (Tail : same_as
      (r <- (k <- on_copy f (std_adjacent_find p (views c Ts a m)) ;;
        q0 <- lift (piece_at c Ts q k) ;;
        if k =? length (views c Ts a m) then
          q1 <- lift (piece_at c Ts q (k - 1)) ;; ret (Some (pc_id q, q1), (pc_id q, q0))
        else ret (None, (pc_id q, q0))) ;;
       if lbi_eq c (snd r) (pc_id q, pc_end q) then generic_find_loop c Ts (adjacent_find_obj c Ts call f) (fst r) (iat c b) ps
       else it <- lift (it_make c (Some (fst (snd r))) (snd (snd r))) ;; ret (fst r, it))
      (adjacent_parts call f (by_type (views c Ts a b))) (fun r k => snd r = iat c (a + k) /\ k <= b - a)).
    { rewrite Bt, (adjacent_cons _ _ y _ Er Ec), by_type_concat. rewrite views_length by lia.
      eapply same_eq_l; [apply bind_assoc|].
      eapply same_bind; [apply on_copy_same, adj_le|]. intros k k' [<- Hk]. rewrite views_length in Hk by lia.
      rewrite (piece_at_ok c Ts q a m k W P Hk), lift_some.
      destruct (Nat.eqb_spec k (m - a)) as [->|Nk].
      - rewrite (piece_at_ok c Ts q a m) by (auto; lia). rewrite lift_some, bind_ret_l. cbn [fst snd].
        rewrite (piece_eq_end c q a m) by auto. rewrite Nat.eqb_refl.
        eapply same_trans; [apply (IH2 _ (m - 1) y (lbi_last q a m P ltac:(lia))); [lia|exact Hy]| |].
        + apply same_bind_eq with (f' := fun e : bool => if e then ret (m - a - 1) else r <- adjacent_parts call f (by_type (views c Ts m b)) ;; ret (m - a + r)).
          intros [|]; [apply (same_ret 0 (m - a - 1) (fun k k' => k' = m - a - 1 + k)); lia|].
          eapply same_bind with (R := eq); [apply same_eq|]. intros k k' ->. apply same_ret. lia.
        + cbn beta. intros r k k' [Hr Hk'] ->. split; [rewrite Hr; f_equal; lia|lia].
      - rewrite bind_ret_l. cbn [fst snd]. rewrite (piece_eq_end c q a m) by auto.
        rewrite (proj2 (Nat.eqb_neq _ _) Nk). rewrite (piece_iter c q a m k W P Hk), lift_some. apply same_ret. split; auto. lia. }
    destruct (views c Ts a m) as [|x0 xs] eqn:Ev; [destruct l0; discriminate|]. rewrite Hpv. split.
    + rewrite lift_some. cbn [adjacent_find_obj]. rewrite bind_ret_l. exact Tail.
    + intros prev g x Hg -> Hx. rewrite lift_some. cbn [adjacent_find_obj].
      destruct (lbi_view prev g [] x Hg ltac:(lia) Hx) as (n & r & Hn & Hr & Hb). rewrite Hn, lift_some, Hr, lift_some, Hb.
      assert (Eo : over x (views c Ts (1 + g) b) = on_copy f (applied call (as_base x, x0))).
      { rewrite <- (views_app c Ts (1 + g) m b) by lia. rewrite Ev. reflexivity. }
      rewrite Eo. eapply same_eq_l; [apply bind_assoc|]. apply same_bind_eq. intros [|].
      * rewrite bind_ret_l. cbn [fst snd]. rewrite (prev_not_end c W q (1 + g) m prev g) by (auto; lia).
        rewrite (lbi_at_iter c W prev g Hg), lift_some. apply same_ret. cbn [snd]. split; [f_equal; lia|lia].
      * eapply same_eq_l; [apply same_sym_eq, bind_ret_r|]. eapply same_bind; [exact Tail|].
        intros r1 k [Hk Lk]. apply same_ret. rewrite Hk. split; [f_equal; lia|lia].
Qed.
Lemma adjacent_find_parts i j : i <= j -> j <= tot (c_nodes c) ->
  same_as (pf_adjacent_find c Ts (iat c i) (iat c j) call f) (adjacent_parts call f (by_type (views c Ts i j)))
    (fun it k => it = iat c (i + k) /\ k <= j - i).
Proof.
  intros L Lj. destruct (split_parts c W i j L Lj NDt) as (ps & Q & C & NDp). unfold pf_adjacent_find, generic_find. rewrite Q, lift_some.
  eapply same_eq_r; [apply bind_ret_r|]. eapply same_bind; [apply (adj_segs_ok ps i j C NDp Lj)|].
  intros r k [Hr Hk]. apply same_ret. auto.
Qed.
End Adj.

(** ** unique_copy *)
Lemma skip_same_after (p : view V -> M (F * S) bool) l : same_as (skip_same p l) (after_same p l) eq.
Proof. induction l as [|x l IH]; cbn [skip_same after_same]; [apply same_eq|]. apply same_bind_eq. intros [|]; [exact IH|apply same_eq]. Qed.
Lemma unique_segs_ok (call : fcall S F (view V * view V) bool) f put ps a b : cover c ps a b -> NoDup (map pc_ty ps) -> b <= tot (c_nodes c) -> forall prev x o,
  match prev, x with
  | None, None => True
  | Some pv, Some x => exists g, lbi_at c pv g /\ g < tot (c_nodes c) /\ views c Ts g (1 + g) = [x]
  | _, _ => False
  end ->
  same_as (unique_copy_segs c Ts call f put prev o ps) (unique_parts call f put x o (by_type (views c Ts a b))) eq.
Proof.
  intros C. induction C as [a|q ps a m b P C IH]; intros ND Lt prev x o Hp; [rewrite views_nil; apply same_eq|].
  destruct (piece_le c q a m P) as [La Lm]. assert (Lb := cover_le c ps m b C).
  assert (ND' : NoDup (map pc_ty ps)) by (inversion ND; auto). specialize (IH ND' Lt).
  cbn [unique_copy_segs]. rewrite (piece_views_ok c Ts q a m W P), lift_some.
  assert (Hpass : forall (l : list (view V)) (k : list (view V) -> M S nat) (k' : list (view V) -> M S nat), (forall l', same_as (k l') (k' l') eq) ->
    same_as (bind (match prev with None => ret l | Some pv =>
        n <- lift (node_at (c_nodes c) (fst pv)) ;; r <- lift (read_base (n_seg n) (snd pv)) ;;
        on_copy f (skip_same (fun x => applied call ((None, r), x)) l) end) k)
      (bind (match x with Some x => on_copy f (after_same (fun y => applied call (as_base x, y)) l) | None => ret l end) k') eq).
  { intros l k k' Hk. destruct prev as [pv|], x as [x|]; try contradiction.
    - destruct Hp as (g & Hg & Lg & Hx). destruct (lbi_view pv g [] x Hg Lg Hx) as (n & r & Hn & Hr & Hb).
      rewrite Hn, lift_some, Hr, lift_some, Hb. eapply same_bind; [apply on_copy_same, skip_same_after|]. intros l' l2 ->. apply Hk.
    - rewrite !bind_ret_l. apply Hk. }
  destruct (by_type_cover c Ts q ps a m b P C ND) as [[Z ->]|Bt].
  - rewrite Z. eapply same_eq_l; [|exact (IH prev x o Hp)].
    eapply same_eq_l; [apply Hpass with (k' := fun l' => match l' with [] => unique_copy_segs c Ts call f put prev o ps | _ => 
       o' <- on_copy f (std_unique_copy (fun x y => applied call (x, y)) (fun o x => aside (put o x)) l' o) ;;
          q0 <- lift (piece_at c Ts q (length (@nil (view V)) - 1)) ;;
          unique_copy_segs c Ts call f put (Some (pc_id q, q0)) o' ps end); intros l'; apply same_eq|].
    destruct x as [x|]; cbn [after_same]; [|rewrite bind_ret_l; apply same_eq].
    eapply same_eq_l; [eapply same_bind; [apply on_copy_ret|intros l' l2 ->; apply same_eq]|]. rewrite bind_ret_l. apply same_eq.
  - rewrite Bt. cbn [unique_parts]. apply Hpass. intros [|y l']; [exact (IH prev x o Hp)|]. apply same_bind_eq. intros o'.
    destruct (Nat.eq_dec a m) as [<-|Ne]; [exfalso; apply (by_type_nonempty (views c Ts a b) []); auto; rewrite Bt, views_nil; left; auto|].
    rewrite (piece_at_ok c Ts q a m) by (auto; rewrite views_length; lia). rewrite lift_some, views_length by lia.
    destruct (views_last a m ltac:(lia) ltac:(lia)) as (l0 & z & Hl & Hz). rewrite Hl, rev_app_distr. cbn [rev app hd_error].
    apply IH. exists (m - 1). csplit; [apply (lbi_last q a m P); lia|lia|]. replace (1 + (m - 1)) with m by lia. exact Hz.
Qed.
Lemma unique_copy_parts (call : fcall S F (view V * view V) bool) f put o i j : i <= j -> j <= tot (c_nodes c) ->
  same_as (pf_unique_copy c Ts (iat c i) (iat c j) put call f o) (unique_parts call f put None o (by_type (views c Ts i j))) eq.
Proof.
  intros L Lj. destruct (split_parts c W i j L Lj NDt) as (ps & Q & C & NDp). unfold pf_unique_copy. rewrite Q, lift_some.
  apply (unique_segs_ok call f put ps i j C NDp Lj None None o I).
Qed.

(** ** search_n *)
Section SearchN.
Context (call : fcall S F (view V) bool) (f : F) (count : nat) (Cp : 0 < count).

Lemma run_scan (p : view V -> M (F * S) bool) xs k m carry r : r < count ->
  match m with
  | Some res => 0 < r /\ 0 < k /\ (carry = true /\ res = 0 /\ k < r \/ carry = false /\ res + r = k)
  | None => (r = 0 /\ carry = false) \/ (k = 0 /\ 0 < r /\ carry = true)
  end ->
  same_as (search_n_scan count p xs k m carry (count - r)) (run_to count p r xs)
    (fun o t => let carry' := fst (fst o) in let remain' := snd (fst o) in let res := snd o in let r' := fst t in
       remain' = count - r' /\ snd t <= length xs /\
       (r' = count /\ snd t < length xs /\ count <= r + snd t + 1 /\ res < k + length xs /\
         (carry' = true /\ carry = true /\ count = r + snd t + 1 \/ carry' = false /\ res + count = k + snd t + 1) \/
        r' < count /\ snd t = length xs /\
         (r' = 0 /\ carry' = false /\ res = k + length xs \/
          0 < r' /\ carry' = true /\ carry = true /\ r' = r + length xs /\ res = 0 \/
          0 < r' /\ carry' = false /\ res + r' = k + length xs))).
Proof.
  revert k m carry r. induction xs as [|x xs IH]; intros k m carry r Lr Hm; cbn [search_n_scan run_to length].
  - apply same_ret. cbn [fst snd]. rewrite Nat.add_0_r. csplit; auto. right. csplit; auto.
    destruct m as [res|].
    + destruct Hm as (H1 & H2 & [(-> & -> & H3)|(-> & H3)]); [right; left|right; right]; csplit; auto; lia.
    + destruct Hm as [(-> & ->)|(-> & H1 & ->)]; [left|right; left]; csplit; auto; lia.
  - apply same_bind_eq. intros [|]; cbn [andb].
    + replace (count - r - 1) with (count - (1 + r)) by lia.
      destruct (Nat.eqb_spec (1 + r) count) as [Ec|Nc].
      * replace (count - (1 + r) =? 0) with true by (symmetry; apply Nat.eqb_eq; lia).
        apply same_ret. cbn [fst snd]. split; [lia|]. split; [lia|]. left. split; auto. split; [lia|]. split; [lia|]. destruct m as [res|].
        -- destruct Hm as (H1 & H2 & [(-> & -> & H3)|(-> & H3)]); (split; [lia|]); [left|right]; csplit; auto; lia.
        -- destruct Hm as [(-> & ->)|(-> & H1 & ->)]; (split; [lia|]); [right|left]; csplit; auto; lia.
      * replace (count - (1 + r) =? 0) with false by (symmetry; apply Nat.eqb_neq; lia).
        eapply same_eq_l; [apply same_sym_eq, bind_ret_r|]. eapply same_bind; [apply (IH (1 + k) _ carry (1 + r)); [lia|]|].
        -- destruct m as [res|].
           ++ destruct Hm as (H1 & H2 & [(-> & -> & H3)|(-> & H3)]); csplit; lia.
           ++ destruct Hm as [(-> & ->)|(-> & H1 & ->)]; csplit; lia.
        -- cbn beta zeta. intros [[cr rm] res'] [r' n]. cbn [fst snd]. intros (A & B & D). apply same_ret. cbn [fst snd].
           split; [exact A|]. split; [lia|].
           destruct D as [(D1 & D2 & D5 & D3 & D4)|(D1 & D2 & D4)]; [left|right]; (split; [auto|]); (split; [lia|]).
           ++ split; [lia|]. split; [lia|]. destruct D4 as [(? & ? & ?)|(? & ?)]; [left|right]; csplit; auto; lia.
           ++ destruct D4 as [(? & ? & ?)|[(? & ? & ? & ? & ?)|(? & ? & ?)]]; [left|right; left|right; right]; csplit; auto; lia.
    + replace count with (count - 0) at 2 by lia.
      eapply same_eq_l; [apply same_sym_eq, bind_ret_r|]. eapply same_bind; [apply (IH (1 + k) None false 0); [lia|left; auto]|].
      cbn beta zeta. intros [[cr rm] res'] [r' n]. cbn [fst snd]. intros (A & B & D). apply same_ret. cbn [fst snd].
      split; [exact A|]. split; [lia|].
      destruct D as [(D1 & D2 & D5 & D3 & D4)|(D1 & D2 & D4)]; [left|right]; (split; [auto|]); (split; [lia|]).
      * split; [lia|]. split; [lia|]. destruct D4 as [(? & ? & ?)|(? & ?)]; [discriminate|right; csplit; auto; lia].
      * destruct D4 as [(? & ? & ?)|[(? & ? & ? & ? & ?)|(? & ? & ?)]]; [left; csplit; auto; lia|discriminate|right; right; csplit; auto; lia].
Qed.
Notation alg := (fun r l => on_copy f (run_to count (applied call) r l)).
Lemma search_n_segs_ok ps a j carry r prev : cover c ps a j -> NoDup (map pc_ty ps) -> j <= tot (c_nodes c) -> r < count -> r <= a ->
  (r = 0 /\ carry = false \/ 0 < r /\ carry = true /\ exists pv, prev = Some pv /\ lbi_at c pv (a - r)) ->
  same_as (search_n_segs c Ts count call f (iat c j) carry (count - r) prev ps) (find_parts alg r (by_type (views c Ts a j)))
    (fun it t => (fst t = count /\ count <= r + snd t + 1 /\ snd t < j - a /\ it = iat c (a + snd t + 1 - count)) \/ (fst t < count /\ snd t = j - a /\ it = iat c j)).
Proof.
  intros C. revert carry r prev. induction C as [a|q ps a m b P C IH]; intros carry r prev ND Lt Lr La Hs; cbn [search_n_segs].
  - rewrite views_nil. cbn [by_type find_parts]. apply same_ret. right. cbn [fst snd]. csplit; auto. lia.
  - assert (ND' : NoDup (map pc_ty ps)) by (inversion ND; auto).
    rewrite (piece_views_ok c Ts q a m W P), lift_some. assert (Lm := cover_le c ps m b C). destruct (piece_le c q a m P) as [Lq _].
    assert (Key : same_as
      (o <- on_copy f (search_n_scan count (applied call) (views c Ts a m) 0 None carry (count - r)) ;;
       q0 <- lift (piece_at c Ts q (snd o)) ;;
       let carry' := fst (fst o) in
       let remain' := snd (fst o) in
       if lbi_eq c (pc_id q, q0) (pc_id q, pc_end q) then
         search_n_segs c Ts count call f (iat c b) carry' remain' prev ps
       else if remain' =? 0 then
         l <- lift (if carry' then prev else Some (pc_id q, q0)) ;;
         lift (it_make c (Some (fst l)) (snd l))
       else if carry' then search_n_segs c Ts count call f (iat c b) carry' remain' prev ps
       else search_n_segs c Ts count call f (iat c b) true remain' (Some (pc_id q, q0)) ps)
      (t <- alg r (views c Ts a m) ;;
       if snd t =? m - a then t' <- find_parts alg (fst t) (by_type (views c Ts m b)) ;; ret (fst t', m - a + snd t') else ret t)
      (fun it t => (fst t = count /\ count <= r + snd t + 1 /\ snd t < b - a /\ it = iat c (a + snd t + 1 - count)) \/ (fst t < count /\ snd t = b - a /\ it = iat c b))).
    { eapply same_bind; [apply on_copy_same, (run_scan (applied call) (views c Ts a m) 0 None carry r Lr)|].
      { destruct Hs as [Hs|(H1 & H2 & _)]; auto. }
      cbn beta zeta. rewrite views_length by lia. intros [[carry' remain'] res] [r' n]. cbn [fst snd Nat.add].
      intros (-> & Hn & [(-> & Hn' & Hcr & Hres & Hc)|(Hr & -> & Hc)]).
      - rewrite (piece_at_ok c Ts q a m res W P), lift_some by lia. rewrite (piece_eq_end c q a m) by (auto; lia).
        rewrite (proj2 (Nat.eqb_neq res (m - a))) by lia. rewrite (proj2 (Nat.eqb_neq n (m - a))) by lia. rewrite Nat.sub_diag. cbn [Nat.eqb].
        destruct Hc as [(-> & -> & Hc)|(-> & Hc)].
        + destruct Hs as [(_ & Hs)|(H1 & _ & pv & -> & Hp)]; [discriminate Hs|].
          rewrite lift_some, (lbi_at_iter c W pv _ Hp), lift_some'. apply same_ret. left. cbn [fst snd]. csplit; auto; first [lia|f_equal; lia].
        + rewrite lift_some. cbn [fst snd]. rewrite (piece_iter c q a m res W P), lift_some' by lia. apply same_ret. left. cbn [fst snd]. csplit; auto; first [lia|f_equal; lia].
      - assert (Hres : res <= m - a) by lia. rewrite Nat.eqb_refl.
        rewrite (piece_at_ok c Ts q a m res W P Hres), lift_some. rewrite (piece_eq_end c q a m) by auto.
        rewrite (proj2 (Nat.eqb_neq (count - r') 0)) by lia.
        assert (Hrm : r' <= m) by lia.
        assert (Next : forall it t, (fst t = count /\ count <= r' + snd t + 1 /\ snd t < b - m /\ it = iat c (m + snd t + 1 - count)) \/ (fst t < count /\ snd t = b - m /\ it = iat c b) ->
          same_as (S := S) (ret it) (ret (fst t, m - a + snd t))
            (fun it t => (fst t = count /\ count <= r + snd t + 1 /\ snd t < b - a /\ it = iat c (a + snd t + 1 - count)) \/ (fst t < count /\ snd t = b - a /\ it = iat c b))).
        { intros it t Ht. apply same_ret. cbn [fst snd]. destruct Ht as [(T1 & T2 & T3 & T4)|(T1 & T2 & T4)]; [left|right]; csplit; auto; try lia. rewrite T4. f_equal. lia. }
        destruct Hc as [(Z1 & -> & ->)|[(Z1 & -> & -> & Z2 & ->)|(Z1 & -> & Z2)]].
        + rewrite Nat.eqb_refl. eapply same_eq_l; [apply same_sym_eq, bind_ret_r|]. eapply same_bind; [apply (IH false r' prev); auto|exact Next].
        + assert (Q : same_as (search_n_segs c Ts count call f (iat c b) true (count - r') prev ps) (find_parts alg r' (by_type (views c Ts m b)))
            (fun it t => (fst t = count /\ count <= r' + snd t + 1 /\ snd t < b - m /\ it = iat c (m + snd t + 1 - count)) \/ (fst t < count /\ snd t = b - m /\ it = iat c b))).
          { apply (IH true r' prev); auto. right. csplit; auto.
            destruct Hs as [(_ & Hs)|(H1 & _ & pv & -> & Hp)]; [discriminate Hs|]. exists pv. split; auto.
            replace (m - r') with (a - r) by lia. auto. }
          eapply same_eq_l; [apply same_sym_eq, bind_ret_r|]. eapply same_bind; [|exact Next]. destruct (0 =? m - a); exact Q.
        + rewrite (proj2 (Nat.eqb_neq res (m - a))) by lia.
          eapply same_eq_l; [apply same_sym_eq, bind_ret_r|]. eapply same_bind; [|exact Next].
          apply (IH true r' (Some (pc_id q, padd (pc_beg q) res))); auto. right. csplit; auto.
          eexists. split; [reflexivity|]. replace (m - r') with (a + res) by lia. apply (piece_lbi c q a m); auto. lia. }
    eapply same_eq_r; [|exact Key]. destruct (by_type_cover c Ts q ps a m b P C ND) as [[Z ->]| ->].
    + assert (Eam : m = a). { assert (B := views_length c Ts a m ltac:(lia)). rewrite Z in B. cbn in B. lia. }
      rewrite Z. cbn [run_to]. eapply same_eq_l; [eapply same_bind; [apply on_copy_ret|intros x x' ->; apply same_eq]|]. rewrite bind_ret_l. cbn [fst snd].
      rewrite Eam, Nat.sub_diag. cbn [Nat.eqb Nat.add]. eapply same_eq_r; [apply bind_ret_r|]. apply same_bind_eq. intros [? ?]. apply same_eq.
    + cbn [find_parts]. rewrite views_length by lia. apply same_eq.
Qed.
Lemma search_n_parts i j : i <= j -> j <= tot (c_nodes c) ->
  same_as (pf_search_n c Ts (iat c i) (iat c j) count call f) (find_parts alg 0 (by_type (views c Ts i j)))
    (fun it t => it = iat c (i + (if fst t =? count then 1 + snd t - count else j - i)) /\ 1 + snd t - count <= j - i).
Proof.
  intros L Lj. destruct (split_parts c W i j L Lj NDt) as (ps & Q & C & NDp). unfold pf_search_n.
  rewrite (proj2 (Nat.eqb_neq count 0)) by lia. rewrite Q, lift_some. replace count with (count - 0) at 2 by lia.
  eapply same_trans; [apply (search_n_segs_ok ps i j false 0 None C NDp Lj); auto; lia|apply same_eq|].
  cbn beta. intros it t t' [(T1 & T2 & T3 & T4)|(T1 & T2 & T4)] <-.
  - rewrite T1, Nat.eqb_refl. split; [rewrite T4; f_equal; lia|lia].
  - rewrite (proj2 (Nat.eqb_neq (fst t) count)) by lia. split; [rewrite T4; f_equal; lia|lia].
Qed.
End SearchN.

(** ** is_permutation *)
Lemma parts_suffix {Y} bounded (call : fcall S F (view V * Y) bool) f ys ps :
  same_as (find_parts (on_part bounded call f) ys ps) (find_parts (on_part bounded call f) ys ps)
    (fun r r' => r = r' /\ exists k, fst r = skipn k ys).
Proof.
  revert ys. induction ps as [|l ps IH]; intros ys; cbn [find_parts].
  - apply same_ret. split; auto. exists 0. auto.
  - eapply same_bind with (R := fun r r' => r = r' /\ exists k, fst r = skipn k ys).
    + unfold on_part. apply same_bind_eq. intros k. apply same_ret. cbn [fst]. eauto.
    + intros r r' [<- (k & Hr)]. destruct (snd r =? length l).
      * eapply same_bind; [apply IH|]. intros x x' [<- (k' & Hx)]. apply same_ret. cbn [fst]. split; auto.
        exists (k' + k). rewrite Hx, Hr. clear. revert ys. induction k as [|k IH]; intros ys; [rewrite Nat.add_0_r; auto|].
        rewrite Nat.add_succ_r. destruct ys as [|y ys]; [destruct k'; auto|]. apply IH.
      * apply same_ret. eauto.
Qed.
Lemma suffix_skipn {A} (l r : list A) k : r = skipn k l -> skipn (length l - length r) l = r.
Proof.
  intros ->. rewrite skipn_length. destruct (Nat.le_gt_cases k (length l)) as [Hk|Hk].
  - f_equal. lia.
  - rewrite !skipn_all2 by lia. auto.
Qed.
Section Perm.
Context {Y : Type} (call : fcall S F (view V * (view V + Y)) bool) (f : F) (i j : nat) (L : i <= j) (Lj : j <= tot (c_nodes c)) (ys : list Y).
Lemma perm_scan_parts q a m k xs (next : M S bool) : piece_ok c q a m -> i <= a -> m <= j -> k <= m - a -> xs = views c Ts (a + k) m ->
  same_as next (perm_parts call f ys (views c Ts i m) (views c Ts m j)) eq ->
  same_as (b <- is_perm_scan_obj c Ts call f (iat c i) (iat c j) ys q k xs ;; if b then next else ret false)
    (perm_parts call f ys (views c Ts i (a + k)) (xs ++ views c Ts m j)) eq.
Proof.
  intros P La Lm Hk Hx Hn. destruct (piece_le c q a m P) as [Lq _]. revert k Hk Hx. induction xs as [|x xs IH]; intros k Hk Hx; cbn [is_perm_scan_obj].
  - assert (Q := f_equal (@length _) Hx). rewrite views_length in Q by lia. cbn [length] in Q.
    rewrite bind_ret_l. cbn [app]. replace (a + k) with m by lia. exact Hn.
  - assert (Lx : a + k < m).
    { assert (Q := f_equal (@length _) Hx). rewrite views_length in Q by lia. simpl in Q. lia. }
    assert (Hx' : xs = views c Ts (a + (1 + k)) m /\ views c Ts i (a + (1 + k)) = views c Ts i (a + k) ++ [x]).
    { assert (Q := views_app c Ts (a + k) (a + (1 + k)) m ltac:(lia) ltac:(lia)). rewrite <- Hx in Q.
      assert (Ly : length (views c Ts (a + k) (a + (1 + k))) = 1) by (rewrite views_length; lia).
      assert (Q2 := views_app c Ts i (a + k) (a + (1 + k)) ltac:(lia) ltac:(lia)).
      destruct (views c Ts (a + k) (a + (1 + k))) as [|y [|z l]]; simpl in Ly; try lia. cbn [app] in Q. injection Q as Q0 Q1. subst y. split; [exact (eq_sym Q1)|exact (eq_sym Q2)]. }
    destruct Hx' as [Hx1 Hx2]. specialize (IH (1 + k) ltac:(lia) Hx1). rewrite Hx2 in IH.
    assert (Ea : (x :: xs) ++ views c Ts m j = views c Ts (a + k) j) by (rewrite Hx, views_app by lia; auto).
    cbn [app] in *. cbn [perm_parts]. cbv zeta. rewrite Ea. rewrite (piece_iter c q a m k W P Hk), lift_some.
    eapply same_eq_l; [apply bind_assoc|].
    eapply same_eq_r with (m1 := k0 <- (r <- find_parts (fun t l => k0 <- on_copy f (std_find_if (fun y => applied call (x, inl y)) l) ;; ret (t, k0)) tt (by_type (views c Ts i (a + k))) ;; ret (snd r)) ;;
      if k0 <? length (views c Ts i (a + k)) then perm_parts call f ys (views c Ts i (a + k) ++ [x]) (xs ++ views c Ts m j)
      else
        m0 <- on_copy f (std_count_if (fun y => applied call (x, inr y)) ys) ;;
        if m0 =? 0 then ret false
        else
          n <- sum_parts (fun l => on_copy f (std_count_if (fun y => applied call (x, inl y)) l)) (by_type (views c Ts (a + k) j)) ;;
          if m0 =? n then perm_parts call f ys (views c Ts i (a + k) ++ [x]) (xs ++ views c Ts m j) else ret false).
    { eapply same_eq_l; [apply bind_assoc|]. apply same_bind_eq. intros r. rewrite bind_ret_l. apply same_eq. }
    eapply same_bind; [apply (find_by_parts c Ts W i (a + k) ltac:(lia) ltac:(lia) NDt)|].
    + apply on_copy_ret.
    + intros l. apply on_copy_same. eapply idx_le0_ext; [apply find_if_go|apply go_le].
    + intros it k0 [-> Hk0]. rewrite (it_eq_at (c_nodes c)) by (try apply W; lia). rewrite views_length by lia.
      destruct (Nat.eqb_spec (i + k0) (a + k)), (Nat.ltb_spec k0 (a + k - i)); try lia; cbn [negb]; [|exact IH].
      eapply same_eq_l; [apply bind_assoc|]. apply same_bind_eq. intros m0. destruct (m0 =? 0); [rewrite bind_ret_l; apply same_eq|].
      eapply same_eq_l; [apply bind_assoc|].
      eapply same_bind with (R := eq).
      * destruct (split_parts c W (a + k) j ltac:(lia) Lj NDt) as (ps & Q & C & NDp). unfold pf_count_if. rewrite Q, lift_some.
        eapply same_eq_l; [apply (count_segs_ok c Ts W _ ps (a + k) j 0); auto; apply on_copy_ret|]. apply bind_ret_r.
      * intros n n' ->. destruct (m0 =? n'); [exact IH|rewrite bind_ret_l; apply same_eq].
Qed.
Lemma perm_segs_parts ps a : cover c ps a j -> i <= a ->
  same_as (is_perm_segs c Ts call f (iat c i) (iat c j) ys ps) (perm_parts call f ys (views c Ts i a) (views c Ts a j)) eq.
Proof.
  intros C. remember j as j' eqn:Ej in C. induction C as [a|q ps a m b P C IH]; intros La; subst; cbn [is_perm_segs].
  - rewrite views_nil. apply same_eq.
  - specialize (IH eq_refl). assert (Lm := cover_le c ps m j C). destruct (piece_le c q a m P) as [Lq _].
    rewrite (piece_views_ok c Ts q a m W P), lift_some.
    assert (H := perm_scan_parts q a m 0 (views c Ts a m) (is_perm_segs c Ts call f (iat c i) (iat c j) ys ps) P La ltac:(lia) ltac:(lia) ltac:(f_equal; lia) (IH ltac:(lia))).
    rewrite Nat.add_0_r, views_app in H by lia. exact H.
Qed.
Lemma perm_suffix_parts : same_as (is_perm_suffix_obj c Ts (iat c i) (iat c j) ys call f) (perm_parts call f ys [] (views c Ts i j)) eq.
Proof.
  destruct (split_ok c i j W L Lj) as (ps & Q & C). unfold is_perm_suffix_obj. rewrite Q, lift_some.
  eapply same_eq_l; [apply (perm_segs_parts ps i C); auto|]. rewrite views_nil. apply same_eq.
Qed.
End Perm.
Lemma is_permutation_parts {Y} bounded (call : fcall S F (view V * (view V + Y)) bool) f ys i j : i <= j -> j <= tot (c_nodes c) ->
  same_as (pf_is_permutation bounded c Ts (iat c i) (iat c j) ys call f)
    (r <- find_parts (on_part bounded (on_right call) f) ys (by_type (views c Ts i j)) ;;
     let l := skipn (snd r) (views c Ts i j) in
     if bounded then if length l =? length (fst r) then perm_parts call f (fst r) [] l else ret false
     else if length l <=? length (fst r) then perm_parts call f (firstn (length l) (fst r)) [] l else ub) eq.
Proof.
  intros L Lj. unfold pf_is_permutation.
  eapply same_bind with (R := fun r r' => fst r = iat c (i + snd r') /\ snd r' <= j - i /\ skipn (snd r) ys = fst r').
  - eapply same_trans; [apply (mismatch_parts c Ts W NDt bounded (on_right call) f ys i j L Lj)|apply parts_suffix|].
    cbn beta. intros r r' r'' (E1 & E2 & E3) (<- & k & Hk). csplit; auto. rewrite E3. apply (suffix_skipn _ _ k). auto.
  - intros r r' (E1 & E2 & E3). rewrite E1, E3. eapply same_eq_l; [eapply same_bind; [apply (fast_distance_ok c W (i + snd r') j); lia|intros n n' ->; apply same_eq]|].
    rewrite bind_ret_l. cbv zeta. rewrite views_skipn by lia. rewrite views_length by lia.
    destruct bounded; [destruct (_ =? _)|destruct (_ <=? _)]; try apply same_eq; apply perm_suffix_parts; lia.
Qed.
End Obj3.
