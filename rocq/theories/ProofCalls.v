(** * search, find_end, search_n, is_permutation and partition_point with arbitrary function objects *)

From Coq Require Import List Arith Lia Bool Permutation.
From Verif Require Import Base Vec Backend Segment Coll StdAlg Algo Spec SpecAlg SpecCalls ProofBase ProofVec ProofBackend ProofOps ProofOps2 ProofSeg ProofMap ProofView
  ProofAlgo ProofAlgo2 ProofAlgo3 ProofAlgo4 ProofAlgo5.
Import ListNotations.

Section PCalls.
Context {V : Type} {E : Env V} {S : Type}.
Notation iat c i := (at_ (c_nodes c) i).

Section Coll.
Context (c : coll V) (Ts : list tyid) (W : aok c).

Lemma views_cons g j : g < j -> j <= tot (c_nodes c) ->
  exists x, views c Ts g j = x :: views c Ts (1 + g) j /\ views c Ts g (1 + g) = [x].
Proof.
  intros L Lj. assert (Q := views_app c Ts g (1 + g) j ltac:(lia) ltac:(lia)).
  assert (Ly : length (views c Ts g (1 + g)) = 1) by (rewrite views_length; lia).
  destruct (views c Ts g (1 + g)) as [|x [|z l]]; simpl in Ly; try lia. exists x. rewrite <- Q. auto.
Qed.

(** ** search *)

Section Search.
Context {Y : Type} (p : view V -> Y -> M S bool) (ys : list Y) (j : nat) (Lj : j <= tot (c_nodes c)).

(** what remains to be done after the first [n] positions *)
Lemma search_scan_calls q a m k n (rest : M S iter) : piece_ok c q a m -> m <= j -> k + n = m - a ->
  same_as rest (std_search p ys (views c Ts m j)) (fun it r => it = iat c (m + r)) ->
  same_as (r <- search_scan c Ts p (iat c j) ys q k n ;; match r with Some it => ret it | None => rest end)
    (std_search p ys (views c Ts (a + k) j)) (fun it r => it = iat c (a + k + r)).
Proof.
  intros P Lm Hk Hr. destruct (piece_le c q a m P) as [La _]. revert k Hk. induction n as [|n IH]; intros k Hk; cbn [search_scan].
  - rewrite bind_ret_l. replace (a + k) with m by lia. exact Hr.
  - destruct (views_cons (a + k) j) as (x & Ev & _); [lia|lia|].
    rewrite (piece_iter c q a m k W P), lift_some by lia. eapply same_eq_l; [apply bind_assoc|].
    rewrite Ev. cbn [std_search]. rewrite <- Ev.
    eapply same_bind; [apply (mismatch_ok c Ts W (a + k) j ltac:(lia) Lj true ys p)|].
    intros r k' (-> & _). cbn [snd]. destruct (k' =? length ys).
    + rewrite bind_ret_l. apply same_ret. f_equal. lia.
    + eapply same_eq_l; [apply same_sym_eq, bind_ret_r|].
      replace (1 + (a + k)) with (a + (1 + k)) by lia.
      eapply same_bind; [apply (IH (1 + k)); lia|]. intros it r ->. apply same_ret. f_equal. lia.
Qed.
Lemma search_loop_calls ps a : cover c ps a j ->
  same_as (search_loop c Ts p (iat c j) ys ps) (std_search p ys (views c Ts a j)) (fun it r => it = iat c (a + r)).
Proof.
  intros C. remember j as j' in C at 1. induction C as [a|q ps a m b P C IH]; subst.
  - rewrite views_nil. apply same_ret. f_equal. lia.
  - cbn [search_loop]. rewrite (piece_diff c q a m P), lift_some. assert (Lm := cover_le c ps m j C).
    destruct (piece_le c q a m P) as [La _].
    assert (Q := search_scan_calls q a m 0 (m - a) _ P Lm eq_refl (IH eq_refl)). rewrite Nat.add_0_r in Q. exact Q.
Qed.
Lemma search_le l : same_as (std_search p ys l) (std_search p ys l) (fun r r' => r = r' /\ r <= length l).
Proof.
  induction l as [|x l IH]; cbn [std_search]; [apply same_ret; auto|].
  apply same_bind_eq. intros k. destruct (k =? length ys); [apply same_ret; simpl; lia|].
  eapply same_bind; [exact IH|]. intros r r' [<- L]. apply same_ret. simpl. lia.
Qed.
Lemma search_calls i : i <= j ->
  same_as (pc_search c Ts (iat c i) (iat c j) ys p) (std_search p ys (views c Ts i j)) (fun it r => it = iat c (i + r) /\ r <= j - i).
Proof.
  intros L. destruct (split_ok c i j W L Lj) as (ps & Q & C). unfold pc_search. rewrite Q, lift_some.
  eapply same_trans; [apply (search_loop_calls ps i C)|apply search_le|].
  intros it r r' -> [<- Hr]. rewrite views_length in Hr by auto. auto.
Qed.

(** ** find_end *)

Lemma last_search l k res :
  same_as (std_last_match p ys l k res)
    (r <- std_search p ys l ;; if r =? length l then ret res else std_last_match p ys (skipn (1 + r) l) (1 + (k + r)) (k + r)) eq.
Proof.
  revert k. induction l as [|x l IH]; intros k; cbn [std_last_match std_search]; [apply same_ret; auto|].
  eapply same_eq_r; [apply same_sym_eq, bind_assoc|]. apply same_bind_eq. intros n. destruct (n =? length ys).
  - rewrite bind_ret_l. cbn [length Nat.eqb]. rewrite (Nat.add_0_r k). apply same_eq.
  - eapply same_eq_r; [apply same_sym_eq, bind_assoc|]. eapply same_eq_l; [apply IH|].
    apply same_bind_eq. intros r. rewrite bind_ret_l. cbn [length]. cbn [Nat.add].
    change (Datatypes.S r =? Datatypes.S (length l)) with (r =? length l). destruct (r =? length l); [apply same_eq|].
    cbn [skipn]. replace (k + Datatypes.S r) with (1 + k + r) by lia. apply same_eq.
Qed.
Lemma find_end_loop_calls fuel i0 i res : i0 <= i -> i <= j -> j - i < fuel -> res <= j - i0 ->
  same_as (find_end_loop fuel c Ts p (iat c i) (iat c j) ys (iat c (i0 + res)))
    (std_last_match p ys (views c Ts i j) (i - i0) res) (fun it r => it = iat c (i0 + r) /\ r <= j - i0).
Proof.
  intros L0. revert i res L0. induction fuel as [|f IH]; intros i res L0 L Lf Lr; [lia|]. cbn [find_end_loop].
  eapply same_eq_r; [apply same_sym_eq, last_search|].
  eapply same_bind; [apply (search_calls i L)|]. intros it r [-> Hr]. rewrite views_length by auto.
  rewrite (it_eq_at (c_nodes c) (i + r) j) by (try apply W; lia).
  destruct (Nat.eqb_spec (i + r) j) as [E1|E1]; destruct (Nat.eqb_spec r (j - i)) as [E2|E2]; try lia.
  - apply same_ret. auto.
  - rewrite (it_next_at c (i + r)) by (try apply W; lia). rewrite lift_some.
    rewrite views_skip by (auto; lia). replace (i + (1 + r)) with (Datatypes.S (i + r)) by lia.
    replace (1 + (i - i0 + r)) with (Datatypes.S (i + r) - i0) by lia.
    replace (iat c (i + r)) with (iat c (i0 + (i - i0 + r))) by (f_equal; lia). apply IH; lia.
Qed.
Lemma find_end_calls i : i <= j ->
  same_as (pc_find_end c Ts (iat c i) (iat c j) ys p) (std_find_end p ys (views c Ts i j)) (fun it r => it = iat c (i + r) /\ r <= j - i).
Proof.
  intros L. unfold pc_find_end, std_find_end. rewrite views_length by auto. destruct ys as [|y ys'] eqn:Ey.
  - apply same_ret. split; auto. f_equal. lia.
  - rewrite <- Ey. assert (Ec : c_size c = tot (c_nodes c)) by reflexivity.
    assert (Q := find_end_loop_calls (1 + c_size c) i i (j - i) (le_n i) L ltac:(lia) (le_n _)).
    rewrite Nat.sub_diag in Q. replace (i + (j - i)) with j in Q by lia. exact Q.
Qed.
End Search.

(** ** search_n *)

Section SearchN.
Context (p : view V -> M S bool) (count : nat) (Cp : 0 < count) (j : nat) (Lj : j <= tot (c_nodes c)).

Lemma runs_app l1 l2 k r : same_as (std_runs count p (l1 ++ l2) k r)
  (x <- std_runs count p l1 k r ;; match fst x with Some _ => ret x | None => std_runs count p l2 (k + length l1) (snd x) end) eq.
Proof.
  revert k r. induction l1 as [|x l1 IH]; intros k r; cbn [app std_runs length].
  - rewrite bind_ret_l. cbn [fst snd]. rewrite Nat.add_0_r. apply same_eq.
  - eapply same_eq_r; [apply same_sym_eq, bind_assoc|]. apply same_bind_eq. replace (k + Datatypes.S (length l1)) with (1 + k + length l1) by lia.
    intros [|]; [|apply IH]. destruct (1 + r =? count); [|apply IH]. rewrite bind_ret_l. apply same_eq.
Qed.

Lemma search_n_scan_calls xs g0 k m carry r : r < count ->
  match m with
  | Some res => 0 < r /\ 0 < k /\ (carry = true /\ res = 0 /\ k < r \/ carry = false /\ res + r = k)
  | None => (r = 0 /\ carry = false) \/ (k = 0 /\ 0 < r /\ carry = true)
  end ->
  same_as (search_n_scan count p xs k m carry (count - r)) (std_runs count p xs (g0 + k) r)
    (fun o f => let carry' := fst (fst o) in let remain' := snd (fst o) in let res := snd o in
     match fst f with
     | Some s => remain' = 0 /\ res < k + length xs /\
         (carry' = true /\ carry = true /\ s = g0 + k - r \/ carry' = false /\ s = g0 + res)
     | None => let r' := snd f in
         remain' = count - r' /\ r' < count /\
         (r' = 0 /\ carry' = false /\ res = k + length xs \/
          0 < r' /\ carry' = true /\ carry = true /\ r' = r + length xs /\ res = 0 \/
          0 < r' /\ carry' = false /\ res + r' = k + length xs)
     end).
Proof.
  revert k m carry r. induction xs as [|x xs IH]; intros k m carry r Lr Hm; cbn [search_n_scan std_runs length].
  - apply same_ret. cbn [fst snd]. rewrite Nat.add_0_r. split; auto. split; auto.
    destruct m as [res|].
    + destruct Hm as (H1 & H2 & [(-> & -> & H3)|(-> & H3)]); [right; left|right; right]; csplit; auto; lia.
    + destruct Hm as [(-> & ->)|(-> & H1 & ->)]; [left|right; left]; csplit; auto; lia.
  - apply same_bind_eq. intros [|].
    + replace (count - r - 1) with (count - (1 + r)) by lia.
      destruct (Nat.eqb_spec (1 + r) count) as [Ec|Nc].
      * replace (count - (1 + r) =? 0) with true by (symmetry; apply Nat.eqb_eq; lia).
        apply same_ret. cbn [fst snd]. split; [lia|]. destruct m as [res|].
        -- destruct Hm as (H1 & H2 & [(-> & -> & H3)|(-> & H3)]); (split; [lia|]); [left|right]; csplit; auto; lia.
        -- destruct Hm as [(-> & ->)|(-> & H1 & ->)]; (split; [lia|]); [right|left]; csplit; auto; lia.
      * replace (count - (1 + r) =? 0) with false by (symmetry; apply Nat.eqb_neq; lia).
        replace (1 + (g0 + k)) with (g0 + (1 + k)) by lia.
        eapply same_mono; [|apply (IH (1 + k) _ carry (1 + r)); [lia|]].
        -- cbn beta zeta. intros [[cr rm] res'] [[s|] r']; cbn [fst snd].
           ++ intros (A & B & [(C & D & F)|(C & D)]); (split; [auto|split; [lia|]]); [left; csplit; auto; lia|right; auto].
           ++ intros (A & B & [C|[C|C]]); (split; [auto|split; [auto|]]); [left|right; left|right; right]; intuition lia.
        -- destruct m as [res|].
           ++ destruct Hm as (H1 & H2 & [(-> & -> & H3)|(-> & H3)]); csplit; lia.
           ++ destruct Hm as [(-> & ->)|(-> & H1 & ->)]; csplit; lia.
    + replace count with (count - 0) at 2 by lia. replace (1 + (g0 + k)) with (g0 + (1 + k)) by lia.
      eapply same_mono; [|apply (IH (1 + k) None false 0); [lia|left; auto]].
      cbn beta zeta. intros [[cr rm] res'] [[s|] r']; cbn [fst snd].
      * intros (A & B & [(C & D & F)|(C & D)]); [discriminate D|]. split; [auto|split; [lia|right; auto]].
      * intros (A & B & [C|[C|C]]); (split; [auto|split; [auto|]]); [left; intuition lia|exfalso|right; right; intuition lia].
        destruct C as (_ & _ & C & _). discriminate C.
Qed.

Lemma search_n_loop_calls ps a carry r prev : cover c ps a j -> r < count -> r <= a ->
  (r = 0 /\ carry = false \/ 0 < r /\ carry = true /\ exists pv, prev = Some pv /\ lbi_at c pv (a - r)) ->
  same_as (search_n_loop c Ts count p (iat c j) carry (count - r) prev ps) (std_runs count p (views c Ts a j) a r)
    (fun it f => it = iat c (match fst f with Some s => s | None => j end)).
Proof.
  intros C. remember j as j' in C at 1. revert carry r prev.
  induction C as [a|q ps a m b P C IH]; intros carry r prev Lr La Hs; subst; cbn [search_n_loop].
  - rewrite views_nil. apply same_ret. auto.
  - rewrite (piece_views_ok c Ts q a m W P), lift_some. assert (Lm := cover_le c ps m j C).
    destruct (piece_le c q a m P) as [Lq _].
    rewrite <- (views_app c Ts a m j) by lia. eapply same_eq_r; [apply same_sym_eq, runs_app|].
    rewrite views_length by lia. replace (a + (m - a)) with m by lia.
    assert (Hsc := search_n_scan_calls (views c Ts a m) a 0 None carry r Lr). rewrite Nat.add_0_r in Hsc.
    eapply same_bind; [apply Hsc|].
    { destruct Hs as [Hs|(H1 & H2 & _)]; auto. }
    cbn beta zeta. rewrite views_length by lia. cbn [Nat.add].
    intros [[carry' remain'] res] [[s|] r']; cbn [fst snd].
    + intros (-> & Hres & Hc). rewrite (piece_at_ok c Ts q a m res W P), lift_some by lia.
      rewrite (piece_eq_end c q a m) by auto. rewrite (proj2 (Nat.eqb_neq res (m - a))) by lia. cbn [Nat.eqb].
      destruct Hc as [(-> & -> & ->)|(-> & ->)].
      * destruct Hs as [(_ & Hs)|(H1 & _ & pv & -> & Hp)]; [discriminate Hs|].
        rewrite lift_some. rewrite (lbi_at_iter c W pv _ Hp). apply same_ret. auto.
      * rewrite lift_some. cbn [fst snd]. rewrite (piece_iter c q a m res W P) by lia. apply same_ret. auto.
    + intros (-> & Hr & Hc).
      assert (Hres : res <= m - a) by lia.
      rewrite (piece_at_ok c Ts q a m res W P Hres), lift_some. rewrite (piece_eq_end c q a m) by auto.
      rewrite (proj2 (Nat.eqb_neq (count - r') 0)) by lia.
      assert (Hrm : r' <= m) by lia.
      destruct Hc as [(Z1 & -> & ->)|[(Z1 & -> & -> & Z2 & ->)|(Z1 & -> & Z2)]].
      * rewrite Nat.eqb_refl. apply (IH eq_refl false r' prev); auto.
      * assert (Q : same_as (search_n_loop c Ts count p (iat c j) true (count - r') prev ps) (std_runs count p (views c Ts m j) m r')
          (fun it f => it = iat c (match fst f with Some s => s | None => j end))).
        { apply (IH eq_refl true r' prev); auto. right. csplit; auto.
          destruct Hs as [(_ & Hs)|(H1 & _ & pv & -> & Hp)]; [discriminate Hs|]. exists pv. split; auto.
          replace (m - r') with (a - r) by lia. auto. }
        destruct (0 =? m - a); auto.
      * rewrite (proj2 (Nat.eqb_neq res (m - a))) by lia.
        apply (IH eq_refl true r' (Some (pc_id q, padd (pc_beg q) res))); auto. right. csplit; auto.
        eexists. split; [reflexivity|]. replace (m - r') with (a + res) by lia. apply (piece_lbi c q a m); auto. lia.
Qed.
Lemma runs_shift l d : forall k r, r <= k ->
  same_as (std_runs count p l (d + k) r) (std_runs count p l k r)
    (fun f f' => fst f = option_map (Nat.add d) (fst f') /\ snd f = snd f' /\ forall s, fst f' = Some s -> s + count <= k + length l).
Proof.
  induction l as [|x l IH]; intros k r Lr; cbn [std_runs length].
  - apply same_ret. cbn [fst snd option_map]. split; auto. split; auto. intros s Q. discriminate Q.
  - apply same_bind_eq. replace (1 + (d + k)) with (d + (1 + k)) by lia. intros [|].
    + destruct (Nat.eqb_spec (1 + r) count) as [Ec|Nc].
      * apply same_ret. cbn [fst snd option_map]. split; [f_equal; lia|]. split; auto. intros s Q. injection Q as <-. lia.
      * eapply same_mono; [|apply (IH (1 + k) (1 + r)); lia]. intros f f' (A & B & C). split; auto. split; auto. intros s Q. specialize (C s Q). lia.
    + eapply same_mono; [|apply (IH (1 + k) 0); lia]. intros f f' (A & B & C). split; auto. split; auto. intros s Q. specialize (C s Q). lia.
Qed.
Lemma search_n_calls0 i : i <= j ->
  same_as (pc_search_n c Ts (iat c i) (iat c j) count p) (std_search_n count p (views c Ts i j)) (fun it k => it = iat c (i + k) /\ k <= j - i).
Proof.
  intros L. unfold pc_search_n, std_search_n. rewrite (proj2 (Nat.eqb_neq count 0)) by lia.
  destruct (split_ok c i j W L Lj) as (ps & Q & C). rewrite Q, lift_some.
  assert (H1 := search_n_loop_calls ps i false 0 None C Cp ltac:(lia) (or_introl (conj eq_refl eq_refl))). rewrite Nat.sub_0_r in H1.
  assert (H2 := runs_shift (views c Ts i j) i 0 0 (le_n 0)). rewrite Nat.add_0_r in H2.
  eapply same_eq_l; [apply same_sym_eq, bind_ret_r|].
  eapply same_bind; [eapply same_trans; [exact H1|exact H2|]|].
  - intros it f f' Hi Hf. exact (ex_intro (fun f => _ /\ _) f (conj Hi Hf)).
  - cbn beta. intros it f' (f & -> & A & B & D). apply same_ret. rewrite A. rewrite views_length in * by auto.
    destruct (fst f') as [s|]; cbn [option_map].
    + specialize (D s eq_refl). split; auto. lia.
    + split; auto. f_equal. lia.
Qed.
End SearchN.
Lemma search_n_calls p count i j : i <= j -> j <= tot (c_nodes c) ->
  same_as (S := S) (pc_search_n c Ts (iat c i) (iat c j) count p) (std_search_n count p (views c Ts i j)) (fun it k => it = iat c (i + k) /\ k <= j - i).
Proof.
  intros L Lj. destruct (Nat.eq_dec count 0) as [->|Nc]; [|apply search_n_calls0; auto; lia].
  unfold pc_search_n, std_search_n. cbn [Nat.eqb]. apply same_ret. split; [f_equal; lia|lia].
Qed.

(** ** partition_point *)

Lemma bisect_calls p i j : i <= j -> j <= tot (c_nodes c) ->
  forall fuel len k, len <= fuel -> k + len <= j - i ->
  same_as (S := S) (bisect fuel c Ts p (iat c (i + k)) len) (std_bisect fuel p (views c Ts i j) k len) (fun it r => it = iat c (i + r) /\ r <= j - i).
Proof.
  intros L Lj fuel. induction fuel as [|fuel IH]; intros len k Lf Ll; cbn [bisect std_bisect]; destruct (Nat.eqb_spec len 0) as [->|Nl]; try lia;
    try (apply same_ret; split; auto; lia).
  assert (Hd : Nat.div2 len < len) by (apply Nat.lt_div2; lia).
  set (half := Nat.div2 len) in *. rewrite (it_advance_at c W), lift_some by lia.
  destruct (views_cons (i + k + half) j) as (x & _ & Hx); [lia|lia|].
  rewrite (pred_at_ok c Ts W p _ x) by (auto; lia).
  assert (Hn := views_at c Ts i j (i + k + half) x _ ltac:(lia) Lj Hx eq_refl). replace (i + k + half - i) with (k + half) in Hn by lia. rewrite Hn.
  apply same_bind_eq. intros [|].
  - rewrite it_next_at, lift_some by (try apply W; lia). replace (Datatypes.S (i + k + half)) with (i + (1 + (k + half))) by lia. apply IH; lia.
  - apply IH; lia.
Qed.
Lemma partition_point_calls p i j : i <= j -> j <= tot (c_nodes c) ->
  same_as (S := S) (pc_partition_point c Ts (iat c i) (iat c j) p) (std_partition_point p (views c Ts i j)) (fun it k => it = iat c (i + k) /\ k <= j - i).
Proof.
  intros L Lj. unfold pc_partition_point, std_partition_point. assert (Hs : c_size c = tot (c_nodes c)) by reflexivity.
  rewrite (it_distance_at c W) by lia. rewrite lift_some, views_length by auto.
  assert (Q := bisect_calls p i j L Lj (j - i) (j - i) 0 (le_n _) (le_n _)). rewrite Nat.add_0_r in Q. exact Q.
Qed.

(** ** is_permutation *)

Section IsPerm.
Context {Y : Type} (p : view V -> view V + Y -> M S bool).
Context (i j : nat) (L : i <= j) (Lj : j <= tot (c_nodes c)) (ys : list Y).

Lemma is_perm_scan_calls q a m k n (rest : M S bool) : piece_ok c q a m -> i <= a -> m <= j -> k + n = m - a ->
  same_as rest (std_perm p ys (views c Ts i m) (views c Ts m j)) eq ->
  same_as (b <- is_perm_scan c Ts p (iat c i) (iat c j) ys q k (views c Ts (a + k) m) ;; if b then rest else ret false)
    (std_perm p ys (views c Ts i (a + k)) (views c Ts (a + k) j)) eq.
Proof.
  intros P La Lm Hn Hrest. destruct (piece_le c q a m P) as [Lq _]. revert k Hn. induction n as [|n IH]; intros k Hk.
  - replace (a + k) with m by lia. rewrite views_nil. cbn [is_perm_scan]. rewrite bind_ret_l. exact Hrest.
  - destruct (views_cons (a + k) j) as (x & Ev & Ex); [lia|lia|]. destruct (views_cons (a + k) m) as (x' & Ev' & Ex'); [lia|lia|].
    rewrite Ex' in Ex. injection Ex as ->.
    rewrite Ev'. cbn [is_perm_scan]. rewrite Ev. cbn [std_perm]. rewrite <- Ev.
    rewrite (piece_iter c q a m k W P), lift_some by lia.
    eapply same_eq_l; [apply bind_assoc|].
    eapply same_bind; [apply (find_if_ok c Ts W i (a + k)); lia|]. intros it r [-> Hr]. rewrite views_length by lia.
    rewrite (it_eq_at (c_nodes c)) by (try apply W; lia).
    replace (i + r =? a + k) with (r =? a + k - i) by (apply eq_true_iff_eq; rewrite !Nat.eqb_eq; lia).
    assert (Next : same_as (b <- is_perm_scan c Ts p (iat c i) (iat c j) ys q (1 + k) (views c Ts (1 + (a + k)) m) ;; if b then rest else ret false)
      (std_perm p ys (views c Ts i (a + k) ++ [x]) (views c Ts (1 + (a + k)) j)) eq).
    { rewrite <- Ex', views_app by lia. replace (1 + (a + k)) with (a + (1 + k)) by lia. apply IH. lia. }
    destruct (negb (r =? a + k - i)); [exact Next|].
    eapply same_eq_l; [apply bind_assoc|]. apply same_bind_eq. intros cnt. destruct (cnt =? 0); [rewrite bind_ret_l; apply same_eq|].
    eapply same_eq_l; [apply bind_assoc|].
    eapply same_bind; [apply (count_if_ok c Ts W (a + k) j); lia|]. intros c1 c2 ->.
    destruct (cnt =? c2); [exact Next|rewrite bind_ret_l; apply same_eq].
Qed.
Lemma is_perm_loop_calls ps a : cover c ps a j -> i <= a ->
  same_as (is_perm_loop c Ts p (iat c i) (iat c j) ys ps) (std_perm p ys (views c Ts i a) (views c Ts a j)) eq.
Proof.
  intros C. remember j as j' in C at 1. induction C as [a|q ps a m b P C IH]; intros La; subst; cbn [is_perm_loop].
  - rewrite views_nil. apply same_eq.
  - rewrite (piece_views_ok c Ts q a m W P), lift_some. assert (Lm := cover_le c ps m j C). destruct (piece_le c q a m P) as [Lq _].
    assert (Q := is_perm_scan_calls q a m 0 (m - a) _ P La Lm eq_refl (IH eq_refl ltac:(lia))). rewrite Nat.add_0_r in Q. exact Q.
Qed.
Lemma is_perm_suffix_calls : same_as (is_perm_suffix c Ts (iat c i) (iat c j) ys p) (std_perm p ys [] (views c Ts i j)) eq.
Proof.
  destruct (split_ok c i j W L Lj) as (ps & Q & C). unfold is_perm_suffix. rewrite Q, lift_some.
  assert (H := is_perm_loop_calls ps i C (le_n i)). rewrite views_nil in H. exact H.
Qed.
End IsPerm.
Lemma is_permutation_calls {Y} (p : view V -> view V + Y -> M S bool) i j (ys : list Y) bounded : i <= j -> j <= tot (c_nodes c) ->
  same_as (pc_is_permutation bounded c Ts (iat c i) (iat c j) ys p) (std_is_permutation bounded p (views c Ts i j) ys) eq.
Proof.
  intros L Lj. unfold pc_is_permutation, std_is_permutation.
  eapply same_bind; [apply (mismatch_ok c Ts W i j L Lj bounded ys)|]. intros r k (-> & Hk & Hy). cbn [fst snd].
  rewrite views_skip by lia. rewrite views_length by auto.
  eapply same_eq_l with (m1 := n <- ret (j - (i + k)) ;; _).
  { eapply same_bind; [apply (fast_distance_ok c W (i + k) j); lia|]. intros a b ->. apply same_eq. }
  rewrite bind_ret_l. destruct bounded.
  - destruct (_ =? _); [apply is_perm_suffix_calls; lia|apply same_eq].
  - destruct (_ <=? _); [apply is_perm_suffix_calls; lia|apply same_eq].
Qed.
End Coll.
End PCalls.
