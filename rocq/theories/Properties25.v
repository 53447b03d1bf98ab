(** * The limit on the size of a segment, as met by all calls (C56) *)

From Coq Require Import List Arith Lia Bool Permutation.
From Verif Require Import Base Vec Backend Segment Coll Spec SpecFail Reach ProofBase ProofVec ProofBackend ProofOps ProofOps2 ProofSeg ProofMap ProofView ProofColl
  ProofIns ProofRange ProofReach ProofObs ProofProp ProofProp2 ProofProp3 ProofProp4 ProofProp5 ProofGrow ProofFail ProofEq Demo Properties1 Properties3 Properties5.
Import ListNotations.

(** [k] more elements of the type [t] are more than its segment can take, max_size() being [m]: one element more
    than max_size() fits into the vector of elements of an any_collection or function_collection. *)
Definition beyond {V} {E : Env V} (c : coll V) (t : tyid) (m k : nat) : Prop :=
  match env_layout with
  | PackedLayout => m < length (elems c t) + k
  | SplitLayout => m + 1 < length (elems c t) + k
  end.

(** No call, whatever its kind, succeeds in inserting more elements of a type than its segment can take. If
    nothing else goes wrong - memory, element operations, types which cannot be copied - what is
    thrown is length_error, as long as all types are registered. *)
Theorem C56_full {V} {E : Env V} w c g d m safe new vals a s : let t := env_ty a in
  reach w (c :: g) d -> api g c m safe new vals -> 1 <= env_vmax t ->
  c_max_size_of a (c, w) = Ok (c, w) s -> beyond c t s (length (of_type t vals)) ->
  exists c' w' e, m (c, w) = Exn (c', w') e /\
    ((forall k, env_fault k = false) -> (forall t', elems c t' <> [] \/ In t' (map fst vals) -> env_copyable t' = true) ->
     incl (map fst vals) (types c) -> e = LengthError).
Proof.
  intros t H A Pos Mx By.
  assert (Q : wp (c_max_size_of a) (c, w) (fun _ r => r = be_max_size t) (fun _ _ => True)).
  { unfold c_max_size_of. eapply wp_by_info; [exact H| |].
    - intros s0 Hs Ws Et. unfold seg_max_size. rewrite Et. reflexivity.
    - intros N. exact I. }
  unfold wp in Q. rewrite Mx in Q.
  assert (Big : env_vmax t < length (elems c t) + length (of_type t vals)).
  { subst s. unfold beyond, be_max_size in By. destruct env_layout; lia. }
  pose proof (api_sound g d c m safe new vals w (reach_alive _ _ _ H) A) as P.
  pose proof (api_cause w c g d m safe new vals H A) as Ca. unfold wp in *.
  destruct (m (c, w)) as [[c' w'] []|[c' w'] e|] eqn:Qm; [| |contradiction].
  - exfalso. assert (R : reach w' (c' :: g) d) by (eapply r_call; eauto).
    destruct (C01_calls_route_by_type w c g d m safe new vals w' c' H A Qm t) as (same & gone & P1 & P2 & P3).
    pose proof (size_le_cap w' c' g d t R) as S1. pose proof (cap_le_max w' c' g d t R) as S2.
    pose proof (size_le_cap w c g d t H) as S3. pose proof (cap_le_max w c g d t H) as S4.
    apply Permutation_length in P1, P2. rewrite app_length in P1, P2. destruct P3 as [->| ->]; cbn in *; lia.
  - exists c', w', e. split; [reflexivity|]. intros Nf Cp Inc. destruct e as [| | |t'|t'|t']; cbn in Ca; auto; exfalso.
    + destruct Ca as (k & _ & F). rewrite Nf in F. discriminate.
    + destruct Ca as ((k & _ & F) & _). rewrite Nf in F. discriminate.
    + destruct Ca as (N & [I|(-> & _)]); [apply N, Inc; auto|]. pose proof (size_le_cap w c g d t H). pose proof (cap_le_max w c g d t H).
      cbn in Big. lia.
    + destruct Ca as (N & I). rewrite Cp in N; [discriminate|exact I].
    + exact Ca.
Qed.
(** Type 7 of the example takes three elements. *)
Example C56_full_ex lay : let E := dE lay in let s := gs E [(70, Some 5); (70, Some 6); (10, Some 7)] in let c := fst s in
  let xs := [mkarg 70 70 true true HCopy (SVal 7); mkarg 10 10 true true HCopy (SVal 7); mkarg 70 70 true true HCopy (SVal 8)] in
  let l := [(7, 7); (1, 7); (7, 8)] in exists m : nat,
  reach (snd s) [c] [] /\ (exists safe new, api [] c (c_insert_range xs) safe new l) /\ 1 <= env_vmax (env_ty 70) /\
  c_max_size_of 70 (c, snd s) = Ok (c, snd s) m /\ beyond c (env_ty 70) m (length (of_type (env_ty 70) l)) /\
  (forall k, env_fault k = false) /\ (forall t, elems c t <> [] \/ In t (map fst l) -> env_copyable t = true) /\ incl (map fst l) (types c).
Proof.
  exists (match lay with PackedLayout => 3 | SplitLayout => 2 end). csplit.
  - apply gs_reach. destruct lay; vm_compute; reflexivity.
  - do 2 eexists. refine (api_range (E := dE lay) _ _ _ [(7, 7); (1, 7); (7, 8)] _).
    repeat constructor; cbn; auto; try discriminate.
  - apply Nat.leb_le; vm_compute; reflexivity.
  - destruct lay; vm_compute; reflexivity.
  - destruct lay; apply Nat.ltb_lt; vm_compute; reflexivity.
  - intros k. destruct lay; reflexivity.
  - intros t. destruct lay; destruct t as [|[|[|[|t]]]]; try (intros; reflexivity); intros [N|[N|[N|[N|[]]]]]; try discriminate; elim N; vm_compute; reflexivity.
  - intros t [<-|[<-|[<-|[]]]]; destruct lay; vm_compute; auto.
Qed.

(** reserve beyond the limit: without other failures it is length_error which is thrown, and the contents stay. *)
Theorem C56_reserve_throws {V} {E : Env V} w c g d a n s : let t := env_ty a in
  reach w (c :: g) d -> In t (types c) -> 1 <= env_vmax t -> (forall k, env_fault k = false) ->
  (elems c t <> [] -> env_copyable t = true \/ env_nt_move t = true) ->
  c_max_size_of a (c, w) = Ok (c, w) s -> match env_layout with PackedLayout => s < n | SplitLayout => s + 1 < n end ->
  exists c' w', c_reserve_info a n (c, w) = Exn (c', w') LengthError /\ content c' = content c.
Proof.
  intros t H Ht Pos Nf Cp Mx By.
  assert (Q : wp (c_max_size_of a) (c, w) (fun _ r => r = be_max_size t) (fun _ _ => True)).
  { unfold c_max_size_of. eapply wp_by_info; [exact H| |].
    - intros s0 Hs Ws Et. unfold seg_max_size. rewrite Et. reflexivity.
    - intros N. exact I. }
  unfold wp in Q. rewrite Mx in Q.
  assert (Big : env_vmax t < n). { subst s. unfold be_max_size in By. destruct env_layout; lia. }
  pose proof (spec_reserve_info w c g d a n H) as P. unfold wp in P. destruct (c_reserve_info a n (c, w)) as [[c' w'] []|[c' w'] e|] eqn:Qm; [| |contradiction].
  - destruct P as (_ & _ & L). fold t in L. lia.
  - exists c', w'. destruct P as [(N & _)|(_ & Ct & _ & _ & _ & Th)]; [exfalso; auto|]. split; [|exact Ct]. f_equal.
    destruct Th as [([->|(-> & _)] & k & _ & F)|[(-> & N & N' & Ne)|(-> & _)]]; auto; exfalso.
    + rewrite Nf in F. discriminate.
    + rewrite Nf in F. discriminate.
    + fold t in N, N'. destruct (Cp Ne) as [X|X]; rewrite X in *; discriminate.
Qed.
Example C56_reserve_throws_ex lay : let E := dE lay in let s := gs E [(70, Some 5); (70, Some 6); (10, Some 7)] in let c := fst s in exists m : nat,
  reach (snd s) [c] [] /\ In (env_ty 70) (types c) /\ 1 <= env_vmax (env_ty 70) /\ (forall k, env_fault k = false) /\
  (elems c (env_ty 70) <> [] -> env_copyable (env_ty 70) = true \/ env_nt_move (env_ty 70) = true) /\
  c_max_size_of 70 (c, snd s) = Ok (c, snd s) m /\ match lay with PackedLayout => m < 4 | SplitLayout => m + 1 < 4 end.
Proof.
  exists (match lay with PackedLayout => 3 | SplitLayout => 2 end). csplit.
  - apply gs_reach. destruct lay; vm_compute; reflexivity.
  - destruct lay; vm_compute; auto.
  - apply Nat.leb_le; vm_compute; reflexivity.
  - intros k. destruct lay; reflexivity.
  - intros _. left. destruct lay; reflexivity.
  - destruct lay; vm_compute; reflexivity.
  - destruct lay; lia.
Qed.

(** ** C18 How many elements equality compares *)

(** The number of elements of [x] which have a counterpart in [y] to be compared with: those in segments as long
    as the segment of the same type in [y]. *)
Definition comparable {V} (x y : coll V) : nat :=
  list_sum (map (fun e => if length (snd e) =? length (elems y (fst e)) then length (snd e) else 0) (content x)).

Section Equal.
Context {V : Type} {E : Env V}.
Notation cost xs w := (fun (w' : world) (b : bool) => w_clock w' <= w_clock w + xs /\ (b = true -> w_clock w' = w_clock w + xs)).
Notation most xs w := (fun (w' : world) (_ : exn) => w_clock w' <= w_clock w + xs).
Lemma elems_eq_cost t (xs : list V) : forall ys w, length xs = length ys ->
  wp (elems_eq (vh_equal t) xs ys) w (cost (length xs) w) (most (length xs) w).
Proof.
  induction xs as [|x xs IH]; intros [|y ys] w L; try discriminate; cbn [elems_eq length].
  - apply wp_ret. lia.
  - apply wp_bind. unfold vh_equal at 1. destruct (env_eqcomp t).
    + apply wp_bind. unfold wp at 1, tick. set (w1 := mkworld (w_next w) (w_live w) (w_objs w) (S (w_clock w)) (w_work w)).
      assert (C1 : w_clock w1 = S (w_clock w)) by reflexivity. destruct (env_fault (w_clock w)); [lia|]. apply wp_ret.
      destruct (env_veq t x y).
      * cbn in L. eapply wp_mono; [apply (IH ys w1); lia| |].
        -- intros w' b (A & B). split; [lia|]. intros Q. specialize (B Q). lia.
        -- intros w' e A. cbn beta in A. lia.
      * apply wp_ret. split; [lia|discriminate].
    + unfold wp, throw. lia.
Qed.
Lemma seg_equal_cost (x y : segment V) w : sg_ty x = sg_ty y ->
  let k := if length (elems_of x) =? length (elems_of y) then length (elems_of x) else 0 in
  wp (seg_equal x y) w (cost k w) (most k w).
Proof.
  intros Et. cbv zeta. unfold seg_equal. rewrite Et, Nat.eqb_refl. unfold be_equal, vec_equal, vsize. fold (elems_of x) (elems_of y).
  destruct (Nat.eqb_spec (length (elems_of x)) (length (elems_of y))) as [L|L]; [apply elems_eq_cost; auto|].
  apply wp_ret. split; [lia|discriminate].
Qed.
Lemma equal_loop_cost wx wy x y : wfm wx x -> wfm wy y -> forall l2 l1 s w, c_nodes x = l1 ++ l2 ->
  let k := list_sum (map (fun n => if length (n_elems n) =? length (elems y (n_ty n)) then length (n_elems n) else 0) l2) in
  wp (c_equal_loop l2 y s) w (cost k w) (most k w).
Proof.
  intros Wx Wy. induction l2 as [|n l2 IH]; intros l1 s w Hs; cbn [c_equal_loop map].
  - apply wp_ret. cbn. lia.
  - assert (Hin : In n (c_nodes x)) by (rewrite Hs; apply in_or_app; right; left; auto).
    assert (Ek : env_ty (n_key n) = n_ty n).
    { assert (B := wm_key _ _ Wx). rewrite Forall_forall in B. exact (B n Hin). }
    assert (Hs' : c_nodes x = (l1 ++ [n]) ++ l2) by (rewrite <- app_assoc; exact Hs).
    change (list_sum (?a :: ?l)) with (a + list_sum l). cbv zeta.
    set (rest := list_sum (map _ l2)). specialize (IH (l1 ++ [n])). cbv zeta in IH. fold rest in IH.
    rewrite (cache_transparent _ _ _ Wy). destruct (find_spec _ _ (n_key n) Wy) as [(m & Hm & Fm & Am & Tm)|(Fm & Nm)]; rewrite Fm.
    + rewrite Am. rewrite Ek in Tm.
      assert (Ey : elems y (n_ty n) = n_elems m) by (rewrite <- Tm; apply (elems_node _ _ _ Wy Hm)). rewrite Ey.
      apply wp_bind. eapply wp_mono; [apply (seg_equal_cost (n_seg n) (n_seg m) w); symmetry; exact Tm| |].
      * intros w1 b (A & B). change (elems_of (n_seg n)) with (n_elems n) in A, B. change (elems_of (n_seg m)) with (n_elems m) in A, B. destruct b.
        -- specialize (B eq_refl). eapply wp_mono; [apply (IH (s + seg_size (n_seg n)) w1 Hs')| |].
           ++ intros w' b (A' & B'). split; [lia|]. intros Q. specialize (B' Q). lia.
           ++ intros w' e A'. cbn beta in A'. lia.
        -- apply wp_ret. split; [lia|discriminate].
      * intros w1 e A. cbn beta in A. change (elems_of (n_seg n)) with (n_elems n) in A. change (elems_of (n_seg m)) with (n_elems m) in A. lia.
    + rewrite Ek in Nm. assert (Ey : elems y (n_ty n) = []) by (apply elems_none; auto). rewrite Ey. cbn [length].
      change (seg_size (n_seg n)) with (bsize (sg_be (n_seg n))). rewrite <- (n_elems_length n).
      destruct (Nat.eqb_spec (length (n_elems n)) 0) as [Z|Z].
      * rewrite Z. cbn [plus]. apply (IH _ w Hs').
      * apply wp_ret. split; [lia|discriminate].
Qed.
End Equal.

(** operator== compares elements only where segments of the same type have the same size, each of these at most once, and
    exactly once if the collections are equal; also when a comparison throws. ([w_clock] counts the calls made to element
    types.) *)
Theorem C18_comparisons {V} {E : Env V} w g d x y : reach w g d -> In x g -> In y g ->
  wp (c_equal x y) w
    (fun w' b => w_clock w' <= w_clock w + comparable x y /\ (b = true -> w_clock w' = w_clock w + length (flat x)))
    (fun w' _ => w_clock w' <= w_clock w + comparable x y).
Proof.
  intros H Hx Hy. destruct (reach_alive _ _ _ H) as [G _ _]. rewrite Forall_forall in G.
  pose proof (G x Hx) as Wx. pose proof (G y Hy) as Wy.
  pose proof (equal_loop_cost w w x y (wc_map _ _ Wx) (wc_map _ _ Wy) (c_nodes x) [] 0 w eq_refl) as P. cbv zeta in P.
  assert (Q : comparable x y = list_sum (map (fun n => if length (n_elems n) =? length (elems y (n_ty n)) then length (n_elems n) else 0) (c_nodes x))).
  { unfold comparable. rewrite content_nodes, map_map. reflexivity. }
  rewrite <- Q in P.
  pose proof (C18_equal w g d x y H Hx Hy) as S. unfold wp in *. unfold c_equal in *. destruct (c_equal_loop (c_nodes x) y 0 w) as [w' b|w' e|]; auto.
  destruct P as (A & B). split; auto. intros ->. rewrite (B eq_refl). f_equal.
  destruct S as (S & _). pose proof (proj1 S eq_refl) as S1. rewrite Q, flat_length. unfold tot, sum_sizes.
  assert (L : forall n, In n (c_nodes x) -> length (n_elems n) = length (elems y (n_ty n))).
  { intros n Hn. rewrite <- (elems_node _ _ _ (wc_map _ _ Wx) Hn). apply (veqs_length (n_ty n)), S1. }
  clear - L. induction (c_nodes x) as [|n l IH]; cbn [map sum_sizes]; auto.
  change (list_sum (?a :: ?l)) with (a + list_sum l). rewrite IH by (intros; apply L; right; auto).
  rewrite <- (L n) by (left; auto). rewrite Nat.eqb_refl. rewrite n_elems_length. reflexivity.
Qed.
(** In the example, dx has three elements of type 1 as dc has, an unregistered and an empty segment each. *)
Example C18_comparisons_ex lay : let E := dE lay in
  reach (dw lay) [dc lay; dx lay] [] /\ In (dc lay) [dc lay; dx lay] /\ In (dx lay) [dc lay; dx lay] /\
  comparable (dc lay) (dx lay) = 3 /\ length (flat (dc lay)) = 6.
Proof. cbv zeta. csplit; try demo_fact lay; simpl; auto. Qed.

Print Assumptions C56_full.
Print Assumptions C56_reserve_throws.
Print Assumptions C18_comparisons.
