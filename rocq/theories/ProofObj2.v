(** * Function objects with a state of their own: equal, search, find_end, is_partitioned *)

From Coq Require Import List Arith Bool Lia.
From Verif Require Import Base Vec Backend Segment Coll StdAlg Algo Spec SpecAlg SpecObj Functors
  ProofBase ProofVec ProofBackend ProofOps ProofOps2 ProofSeg ProofMap ProofView ProofAlgo ProofAlgo2 ProofAlgo3 ProofAlgo4 ProofAlgo5 ProofAlgo6 ProofColl ProofAlgo7 ProofObj.
Import ListNotations.

Section Obj2.
Context {V : Type} {E : Env V} {S F : Type}.
Context (c : coll V) (Ts : list tyid) (W : aok c) (NDt : NoDup (types c)).
Notation iat c := (at_ (c_nodes c)).

(** mismatch on one part *)
Definition on_part {Y} (bounded : bool) (call : fcall S F (view V * Y) bool) (f : F) (ys : list Y) (l : list (view V)) : M S (list Y * nat) :=
  k <- on_copy f ((if bounded then std_mismatch_to else std_mismatch) (fun x y => applied call (x, y)) l ys) ;; ret (skipn k ys, k).

Lemma mismatch_part {Y} bounded (call : fcall S F (view V * Y) bool) f ys l :
  same_as (on_copy f (mismatch_alg bounded (fun x y => applied call (x, y)) ys l)) (on_part bounded call f ys l) (fun r r' => r = r' /\ snd r <= length l).
Proof.
  eapply same_eq_l; [apply same_sym_eq, bind_ret_r|]. eapply same_bind; [apply on_copy_same, mismatch_alg_spec|].
  intros r k (-> & Kl & _). apply same_ret. auto.
Qed.
Lemma part_le {Y} bounded (call : fcall S F (view V * Y) bool) f : idx_le (on_part bounded call f).
Proof.
  intros ys l. eapply same_trans; [apply same_sym, mismatch_part|apply mismatch_part|]. cbn beta. intros r k r' (<- & Hk) (-> & _). auto.
Qed.
Lemma part_nil {Y} bounded (call : fcall S F (view V * Y) bool) f ys : same_as (on_part bounded call f ys []) (ret (ys, 0)) eq.
Proof.
  unfold on_part. eapply same_eq_l; [eapply same_bind with (R := eq); [|intros x x' ->; apply same_eq]|].
  - destruct bounded, ys; apply on_copy_ret.
  - rewrite bind_ret_l. apply same_eq.
Qed.
Lemma mismatch_parts {Y} bounded (call : fcall S F (view V * Y) bool) f ys i j : i <= j -> j <= tot (c_nodes c) ->
  same_as (pf_mismatch bounded c Ts (iat c i) (iat c j) ys call f) (find_parts (on_part bounded call f) ys (by_type (views c Ts i j)))
    (fun r r' => fst r = iat c (i + snd r') /\ snd r' <= j - i /\ snd r = length ys - length (fst r')).
Proof.
  intros L Lj. destruct (split_parts c W i j L Lj NDt) as (ps & Q & C & NDp).
  unfold pf_mismatch, generic_find. rewrite Q, lift_some. eapply same_eq_r; [apply bind_ret_r|].
  eapply same_bind; [eapply same_eq_l; [apply find_loop_ext, at_index_ext; intros ys0 l; eapply same_mono; [|apply mismatch_part]; intros r r' [-> _]; reflexivity|]|].
  - apply (find_segs_ok c Ts W); auto; [apply part_nil|apply part_le].
  - intros r r' (E1 & E2 & E3). apply same_ret. cbn [fst snd]. rewrite E1, E2. csplit; auto.
Qed.

(** what remains of [ys] is never longer *)
Lemma parts_len {Y} bounded (call : fcall S F (view V * Y) bool) f ys ps :
  same_as (find_parts (on_part bounded call f) ys ps) (find_parts (on_part bounded call f) ys ps) (fun r r' => r = r' /\ length (fst r) <= length ys).
Proof.
  revert ys. induction ps as [|l ps IH]; intros ys; cbn [find_parts]; [apply same_ret; auto|].
  eapply same_bind with (R := fun r r' => r = r' /\ length (fst r) <= length ys).
  - unfold on_part. apply same_bind_eq. intros k. apply same_ret. cbn [fst]. rewrite skipn_length. split; auto. lia.
  - intros r r' [<- Hr]. destruct (snd r =? length l); [|apply same_ret; auto].
    eapply same_bind; [apply IH|]. intros x x' [<- Hx]. apply same_ret. cbn [fst]. split; auto. lia.
Qed.

(** *** equal *)
Lemma equal_mismatch {Y} bounded (p : view V -> Y -> M (F * S) bool) ys l :
  same_as (equal_alg bounded p ys l) (r <- mismatch_alg bounded p ys l ;; ret (fst r, snd r =? length l)) eq.
Proof.
  revert ys. induction l as [|x l IH]; intros [|y ys]; cbn [equal_alg mismatch_alg].
  - rewrite bind_ret_l. apply same_eq.
  - rewrite bind_ret_l. apply same_eq.
  - destruct bounded; [rewrite bind_ret_l; apply same_eq|apply same_ub].
  - eapply same_eq_r; [apply same_sym_eq, bind_assoc|]. apply same_bind_eq. intros [|].
    + eapply same_eq_r; [apply same_sym_eq, bind_assoc|]. eapply same_eq_l; [apply IH|]. apply same_bind_eq. intros r. rewrite bind_ret_l. apply same_eq.
    + rewrite bind_ret_l. apply same_eq.
Qed.
Lemma equal_part {Y} bounded (call : fcall S F (view V * Y) bool) f ys l :
  same_as (on_copy f (equal_alg bounded (fun x y => applied call (x, y)) ys l)) (r <- on_part bounded call f ys l ;; ret (fst r, snd r =? length l)) eq.
Proof.
  eapply same_eq_l; [apply on_copy_same, equal_mismatch|]. eapply same_eq_l; [apply on_copy_bind|].
  eapply same_bind; [apply mismatch_part|]. intros r r' [-> _]. apply same_eq.
Qed.
Lemma equal_segs_parts {Y} bounded (call : fcall S F (view V * Y) bool) f ps a b ys : cover c ps a b -> NoDup (map pc_ty ps) ->
  same_as (equal_segs c Ts (fun ys xs => on_copy f (equal_alg bounded (fun x y => applied call (x, y)) ys xs)) ys ps)
    (r <- find_parts (on_part bounded call f) ys (by_type (views c Ts a b)) ;; ret (fst r, snd r =? b - a)) eq.
Proof.
  intros C. revert ys. induction C as [i|q ps i j k P C IH]; intros ys ND.
  - rewrite views_nil. cbn [equal_segs by_type find_parts]. rewrite bind_ret_l. cbn [fst snd]. rewrite Nat.sub_diag. apply same_eq.
  - assert (ND' : NoDup (map pc_ty ps)) by (inversion ND; auto).
    assert (La := piece_le c q i j P). assert (Lb := cover_le c ps j k C).
    cbn [equal_segs]. rewrite (piece_views_ok c Ts q i j W P), lift_some.
    eapply same_eq_l; [eapply same_bind with (R := eq); [apply equal_part|intros x x' ->; apply same_eq]|].
    eapply same_eq_l; [apply bind_assoc|].
    destruct (by_type_cover c Ts q ps i j k P C ND) as [[Z ->]| ->].
    + assert (Eij : j = i). { assert (B := views_length c Ts i j ltac:(lia)). rewrite Z in B. cbn in B. lia. }
      rewrite Z. eapply same_eq_l; [eapply same_bind; [apply part_nil|intros x x' ->; apply same_eq]|]. rewrite bind_ret_l, bind_ret_l. cbn [fst snd length Nat.eqb].
      rewrite <- Eij. apply (IH ys ND').
    + cbn [find_parts]. rewrite views_length by lia. eapply same_eq_r; [apply same_sym_eq, bind_assoc|].
      eapply same_bind; [apply part_le|]. intros r r' [<- Hr]. rewrite views_length in Hr by lia. rewrite bind_ret_l. cbn [fst snd].
      destruct (Nat.eqb_spec (snd r) (j - i)) as [Er|Er].
      * eapply same_eq_l; [apply (IH (fst r) ND')|]. eapply same_eq_r; [apply same_sym_eq, bind_assoc|]. apply same_bind_eq. intros x. rewrite bind_ret_l. cbn [fst snd].
        apply same_ret. f_equal. destruct (Nat.eqb_spec (snd x) (k - j)), (Nat.eqb_spec (j - i + snd x) (k - i)); auto; lia.
      * rewrite bind_ret_l. apply same_ret. f_equal. destruct (Nat.eqb_spec (snd r) (k - i)); auto. lia.
Qed.
Lemma equal_parts {Y} bounded (call : fcall S F (view V * Y) bool) f ys i j : i <= j -> j <= tot (c_nodes c) ->
  same_as (pf_equal bounded c Ts (iat c i) (iat c j) ys call f)
    (r <- find_parts (on_part bounded call f) ys (by_type (views c Ts i j)) ;; ret ((snd r =? j - i) && (negb bounded || (length (fst r) =? 0)))) eq.
Proof.
  intros L Lj. destruct (split_parts c W i j L Lj NDt) as (ps & Q & C & NDp).
  unfold pf_equal. rewrite Q, lift_some. eapply same_eq_l; [eapply same_bind with (R := eq); [apply equal_segs_parts; eauto|intros x x' ->; apply same_eq]|].
  eapply same_eq_l; [apply bind_assoc|]. apply same_bind_eq. intros r. rewrite bind_ret_l. cbn [fst snd]. apply same_ret.
  destruct (snd r =? j - i), bounded; auto.
Qed.

(** *** transform with two sequences *)
Lemma transform2_part {Y O} (op : view V -> Y -> M (F * S) O) put o ys l :
  same_as (transform2_alg op put (o, ys) l) (n <- std_transform2 op put l ys o ;; ret (n, skipn (length l) ys)) eq.
Proof.
  revert o ys. induction l as [|x l IH]; intros o ys; cbn [transform2_alg std_transform2]; [rewrite bind_ret_l; apply same_eq|].
  cbn [fst snd]. destruct ys as [|y ys]; [apply same_ub|].
  eapply same_eq_r; [apply same_sym_eq, bind_assoc|]. apply same_bind_eq. intros r.
  eapply same_eq_r; [apply same_sym_eq, bind_assoc|]. apply same_bind_eq. intros []. apply IH.
Qed.

(** *** search, find_end *)
Fixpoint first_match_n (matches : list (view V) -> M S bool) (l : list (view V)) (n : nat) {struct n} : M S nat :=
  match n, l with
  | Datatypes.S n', _ :: l' => b <- matches l ;; if b then ret 0 else k <- first_match_n matches l' n' ;; ret (1 + k)
  | _, _ => ret 0
  end.
Lemma first_match_split (matches : list (view V) -> M S bool) l n : n <= length l ->
  same_as (first_match matches l)
    (k <- first_match_n matches l n ;; if k =? n then k' <- first_match matches (skipn n l) ;; ret (n + k') else ret k) eq.
Proof.
  revert l. induction n as [|n IH]; intros l Ln.
  - cbn [first_match_n skipn]. rewrite bind_ret_l. cbn [Nat.eqb]. apply same_sym_eq, bind_ret_r.
  - destruct l as [|x l]; [cbn in Ln; lia|]. cbn [first_match first_match_n skipn length] in *.
    eapply same_eq_r; [apply same_sym_eq, bind_assoc|]. apply same_bind_eq. intros [|]; [rewrite bind_ret_l; apply same_eq|].
    eapply same_eq_r; [apply same_sym_eq, bind_assoc|].
    eapply same_eq_l; [eapply same_bind with (R := eq); [apply (IH l); lia|intros k k' ->; apply same_eq]|].
    eapply same_eq_l; [apply bind_assoc|]. apply same_bind_eq. intros k. rewrite bind_ret_l. cbn [Nat.eqb Nat.add].
    destruct (k =? n); [|apply same_eq]. eapply same_eq_l; [apply bind_assoc|]. apply same_bind_eq. intros k'. rewrite bind_ret_l. apply same_eq.
Qed.
Lemma last_match_first (matches : list (view V) -> M S bool) l k res :
  same_as (last_match matches l k res)
    (g <- first_match matches l ;; if g =? length l then ret res else last_match matches (skipn (1 + g) l) (k + 1 + g) (k + g)) eq.
Proof.
  revert k res. induction l as [|x l IH]; intros k res; cbn [last_match first_match]; [rewrite bind_ret_l; apply same_eq|].
  eapply same_eq_r; [apply same_sym_eq, bind_assoc|]. apply same_bind_eq. intros [|].
  - rewrite bind_ret_l. cbn [length Nat.eqb Nat.add skipn]. rewrite !Nat.add_0_r, Nat.add_comm. apply same_eq.
  - eapply same_eq_r; [apply same_sym_eq, bind_assoc|]. eapply same_eq_l; [apply IH|]. apply same_bind_eq. intros g. rewrite bind_ret_l.
    cbn [length Nat.eqb Nat.add]. destruct (g =? length l); [apply same_eq|].
    replace (k + 1 + Datatypes.S g) with (Datatypes.S (k + 1 + g)) by lia. replace (k + Datatypes.S g) with (Datatypes.S (k + g)) by lia. apply same_eq.
Qed.
Lemma views_step a j x l : a < j -> j <= tot (c_nodes c) -> views c Ts a j = x :: l -> l = views c Ts (1 + a) j.
Proof.
  intros La Lj Ev. rewrite <- (views_app c Ts a (1 + a) j) in Ev by lia.
  assert (H1 := views_length c Ts a (1 + a) ltac:(lia)). destruct (views c Ts a (1 + a)) as [|u [|? ?]]; cbn [length] in H1; try lia.
  cbn [app] in Ev. congruence.
Qed.
Lemma views_skipn a j n : a <= j -> n <= j - a -> j <= tot (c_nodes c) -> skipn n (views c Ts a j) = views c Ts (a + n) j.
Proof.
  intros La Ln Lj. rewrite <- (views_app c Ts a (a + n) j) by lia. 
  assert (H1 := views_length c Ts a (a + n) ltac:(lia)). rewrite skipn_app, H1, skipn_all2 by lia. replace (n - (a + n - a)) with 0 by lia. auto.
Qed.

(** *** is_partitioned, partition_point *)
Lemma none_of_parts (call : fcall S F (view V) bool) f i j : i <= j -> j <= tot (c_nodes c) ->
  same_as (pf_none_of c Ts (iat c i) (iat c j) call f) (std_all_of (fun l => on_copy f (std_none_of (applied call) l)) (by_type (views c Ts i j))) eq.
Proof.
  intros L Lj. destruct (split_parts c W i j L Lj NDt) as (ps & Q & C & NDp).
  unfold pf_none_of. rewrite Q, lift_some. apply (all_segs_ok c Ts W); auto. apply on_copy_ret.
Qed.
Lemma is_partitioned_parts (call : fcall S F (view V) bool) f i j : i <= j -> j <= tot (c_nodes c) ->
  same_as (pf_is_partitioned c Ts (iat c i) (iat c j) call f)
    (r <- find_parts (fun t l => k <- on_copy f (std_find_if_not (applied call) l) ;; ret (t, k)) tt (by_type (views c Ts i j)) ;;
     std_all_of (fun l => on_copy f (std_none_of (applied call) l)) (by_type (skipn (1 + snd r) (views c Ts i j)))) eq.
Proof.
  intros L Lj. unfold pf_is_partitioned, pf_find_if_not.
  eapply same_eq_r with (m1 := k <- (r <- find_parts (fun t l => k <- on_copy f (std_find_if_not (applied call) l) ;; ret (t, k)) tt (by_type (views c Ts i j)) ;; ret (snd r)) ;;
    std_all_of (fun l => on_copy f (std_none_of (applied call) l)) (by_type (skipn (1 + k) (views c Ts i j)))).
  - eapply same_eq_l; [apply bind_assoc|]. apply same_bind_eq. intros r. rewrite bind_ret_l. apply same_eq.
  - eapply same_bind; [apply (find_by_parts c Ts W i j L Lj NDt)|].
    + apply on_copy_ret.
    + intros l. apply on_copy_same. eapply idx_le0_ext; [apply find_if_not_go|apply go_le].
    + intros it k [-> Hk]. rewrite (it_eq_at (c_nodes c) (i + k) j) by (try apply W; lia).
      destruct (Nat.eqb_spec (i + k) j) as [Ek|Ek].
      * rewrite skipn_all2 by (rewrite views_length; lia). apply same_eq.
      * rewrite (it_next_at c (i + k)) by (try apply W; lia). rewrite lift_some, views_skipn by lia.
        replace (i + (1 + k)) with (Datatypes.S (i + k)) by lia. apply none_of_parts; lia.
Qed.
Lemma partition_point_copies (call : fcall S F (view V) bool) f first last :
  same_as (pf_partition_point c Ts first last call f) (pc_partition_point c Ts first last (result call f)) eq.
Proof.
  unfold pf_partition_point, pc_partition_point. apply same_bind_eq. intros n. generalize n at 1 3 as k. intros k.
  revert first n. induction k as [|k IH]; intros first n; cbn [bisect]; [apply same_eq|].
  destruct (n =? 0); [apply same_eq|]. apply same_bind_eq. intros mid. eapply same_bind with (R := eq).
  - unfold pred_at. apply same_bind_eq. intros [|m ns]; [apply same_eq|]. apply same_bind_eq. intros [|x [|y xs]]; try apply same_eq.
    intros s. unfold on_copy, applied, result, bind, ret. cbn [fst snd]. destruct (call f x s) as [? []| |]; auto.
  - intros b b' ->. destruct b'; [apply same_bind_eq; intros it; apply IH|apply IH].
Qed.

Context {Y : Type} (call : fcall S F (view V * Y) bool) (f : F) (ys : list Y) (j : nat) (Lj : j <= tot (c_nodes c)).
Notation matches := (fun l => r <- find_parts (on_part true call f) ys (by_type l) ;; ret (length (fst r) =? 0)).
Lemma search_scan_parts q a m k n : piece_ok c q a m -> m <= j -> k + n = m - a ->
  same_as (search_scan_obj c Ts call f (iat c j) ys q k n) (first_match_n matches (views c Ts (a + k) j) n)
    (fun r g => match r with Some it => it = iat c (a + k + g) /\ g < n | None => g = n end).
Proof.
  intros P Lm. destruct (piece_le c q a m P) as [La _]. revert k. induction n as [|n IH]; intros k Hk; cbn [search_scan_obj].
  - apply same_ret; auto.
  - assert (Hlen := views_length c Ts (a + k) j ltac:(lia)). destruct (views c Ts (a + k) j) as [|x l] eqn:Ev; [cbn in Hlen; lia|].
    cbn [first_match_n]. rewrite (piece_iter c q a m k W P), lift_some by lia. rewrite <- Ev.
    eapply same_eq_r; [apply same_sym_eq, bind_assoc|].
    eapply same_bind with (R := fun r r' => (snd r =? length ys) = (length (fst r') =? 0)).
    { eapply same_trans; [apply (mismatch_parts true call f ys (a + k) j); lia|apply parts_len|].
      cbn beta. intros r r' r'' (E1 & E2 & E3) (<- & Lr). rewrite E3. destruct (Nat.eqb_spec (length (fst r')) 0), (Nat.eqb_spec (length ys - length (fst r')) (length ys)); auto; lia. }
    intros r r' Er. rewrite bind_ret_l, Er. destruct (length (fst r') =? 0).
    + apply same_ret. rewrite Nat.add_0_r. split; auto. lia.
    + rewrite (views_step (a + k) j x l ltac:(lia) Lj Ev). replace (1 + (a + k)) with (a + (1 + k)) by lia.
      eapply same_eq_l; [apply same_sym_eq, bind_ret_r|]. eapply same_bind; [apply (IH (1 + k)); lia|].
      intros [it|] g Hg; apply same_ret; [destruct Hg as [-> Hg]; split; [f_equal; lia|lia]|lia].
Qed.
Lemma search_segs_parts ps a : cover c ps a j ->
  same_as (search_segs c Ts call f (iat c j) ys ps) (first_match matches (views c Ts a j)) (fun it g => it = iat c (a + g) /\ g <= j - a).
Proof.
  intros C. remember j as j' eqn:Ej in C. induction C as [i|q ps i m k P C IH]; cbn [search_segs].
  - subst i. rewrite views_nil. apply same_ret. rewrite Nat.add_0_r. split; auto. lia.
  - subst k. specialize (IH eq_refl). assert (La := piece_le c q i m P). assert (Lb := cover_le c ps m j C).
    rewrite (piece_diff c q i m P), lift_some.
    eapply same_eq_r; [apply same_sym_eq, (first_match_split matches _ (m - i)); rewrite views_length; lia|].
    eapply same_bind; [replace (views c Ts i j) with (views c Ts (i + 0) j) by (f_equal; lia); apply (search_scan_parts q i m 0 (m - i)); auto; lia|].
    intros [it|] g Hg.
    + destruct Hg as [-> Hg]. destruct (Nat.eqb_spec g (m - i)); [lia|]. apply same_ret. split; [f_equal; lia|lia].
    + subst g. rewrite Nat.eqb_refl, views_skipn by lia. replace (i + (m - i)) with m by lia.
      eapply same_eq_l; [apply same_sym_eq, bind_ret_r|]. eapply same_bind; [apply IH|]. intros it g [-> Hg]. apply same_ret. split; [f_equal; lia|lia].
Qed.
Lemma search_parts i : i <= j ->
  same_as (pf_search c Ts (iat c i) (iat c j) ys call f) (first_match matches (views c Ts i j)) (fun it g => it = iat c (i + g) /\ g <= j - i).
Proof.
  intros L. destruct (split_ok c i j W L Lj) as (ps & Q & C). unfold pf_search. rewrite Q, lift_some. apply search_segs_parts. auto.
Qed.
Lemma find_end_loop_parts fuel i res : i <= j -> j - i < fuel ->
  same_as (find_end_obj fuel c Ts call f (iat c i) (iat c j) ys (iat c res)) (last_match matches (views c Ts i j) i res)
    (fun it g => it = iat c g /\ (g = res \/ i <= g < j)).
Proof.
  revert i res. induction fuel as [|n IH]; intros i res L Lf; [lia|]. cbn [find_end_obj].
  eapply same_eq_r; [apply same_sym_eq, last_match_first|]. eapply same_bind; [apply (search_parts i L)|].
  intros it g [-> Hg]. rewrite views_length by lia. rewrite (it_eq_at (c_nodes c) (i + g) j) by (try apply W; lia).
  destruct (Nat.eqb_spec (i + g) j), (Nat.eqb_spec g (j - i)); try lia; [apply same_ret; auto|].
  rewrite (it_next_at c (i + g)) by (try apply W; lia). rewrite lift_some, views_skipn by lia.
  replace (i + (1 + g)) with (Datatypes.S (i + g)) by lia. replace (i + 1 + g) with (Datatypes.S (i + g)) by lia.
  eapply same_mono; [|apply (IH (Datatypes.S (i + g)) (i + g)); lia]. cbn beta. intros it h [-> Hh]. split; auto. lia.
Qed.
Lemma find_end_parts i : i <= j ->
  same_as (pf_find_end c Ts (iat c i) (iat c j) ys call f) (if length ys =? 0 then ret j else last_match matches (views c Ts i j) i j)
    (fun it g => it = iat c g /\ i <= g <= j).
Proof.
  intros L. unfold pf_find_end. destruct ys as [|y ys'] eqn:Ey; [apply same_ret; split; auto; lia|].
  cbn [length Nat.eqb]. rewrite <- Ey. assert (Ec : c_size c = tot (c_nodes c)) by reflexivity.
  eapply same_mono; [|apply (find_end_loop_parts (1 + c_size c) i j); lia]. cbn beta. intros it g [-> H]. split; auto. lia.
Qed.
End Obj2.
