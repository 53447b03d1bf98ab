(** * search, find_end, search_n, is_permutation, unique_copy, sample, partition_point *)

From Coq Require Import List Arith Lia Bool Permutation.
From Verif Require Import Base Vec Backend Segment Coll StdAlg Algo Spec SpecAlg ProofBase ProofVec ProofBackend ProofOps ProofOps2 ProofSeg ProofMap ProofView ProofAlgo ProofAlgo2 ProofAlgo3.
Import ListNotations.

(** ** Computations without effects *)

Lemma yields_ret {S A} (a : A) (P : A -> Prop) : P a -> yields (S := S) (ret a) P.
Proof. intros H s. exists a. auto. Qed.
Lemma yields_bind {S A B} (m : M S A) (f : A -> M S B) (P : A -> Prop) (Q : B -> Prop) :
  yields m P -> (forall a, P a -> yields (f a) Q) -> yields (bind m f) Q.
Proof. intros H Hf s. destruct (H s) as (a & Ha & Pa). unfold bind. rewrite Ha. apply Hf. auto. Qed.
Lemma yields_mono {S A} (m : M S A) (P Q : A -> Prop) : (forall a, P a -> Q a) -> yields m P -> yields m Q.
Proof. intros H Hm s. destruct (Hm s) as (a & Ha & Pa). exists a. auto. Qed.
Lemma yields_same {S A B} (m : M S A) (m' : M S B) (R : A -> B -> Prop) (P : B -> Prop) (Q : A -> Prop) :
  same_as m m' R -> yields m' P -> (forall a b, R a b -> P b -> Q a) -> yields m Q.
Proof.
  intros H Hm HQ s. destruct (Hm s) as (b & Hb & Pb). specialize (H s). rewrite Hb in H.
  destruct (m s) as [s1 a|s1 e|]; try tauto. destruct H as [-> Hr]. exists a. eauto.
Qed.

Lemma nth_error_Some_lt {A} (l : list A) n x : nth_error l n = Some x -> n < length l.
Proof. intros H. apply nth_error_Some. congruence. Qed.

Section PureStd.
Context {S X Y : Type}.

(** length of the common prefix *)
Fixpoint mm (p : X -> Y -> bool) (l : list X) (ys : list Y) : nat :=
  match l, ys with
  | x :: l', y :: ys' => if p x y then 1 + mm p l' ys' else 0
  | _, _ => 0
  end.
Lemma pure_mismatch_to p l ys : yields (S := S) (std_mismatch_to (pure2 p) l ys) (fun k => k = mm p l ys).
Proof.
  revert ys. induction l as [|x l IH]; intros [|y ys]; try (apply yields_ret; auto).
  cbn [std_mismatch_to mm]. unfold pure2 at 1. rewrite bind_ret_l. destruct (p x y); [|apply yields_ret; auto].
  eapply yields_bind; [apply IH|]. intros k ->. apply yields_ret. auto.
Qed.
Lemma pure_mismatch p l ys : length l <= length ys -> yields (S := S) (std_mismatch (pure2 p) l ys) (fun k => k = mm p l ys).
Proof.
  revert ys. induction l as [|x l IH]; intros [|y ys] H; try (apply yields_ret; auto); simpl in H; try lia.
  cbn [std_mismatch mm]. unfold pure2 at 1. rewrite bind_ret_l. destruct (p x y); [|apply yields_ret; auto].
  eapply yields_bind; [apply IH; lia|]. intros k ->. apply yields_ret. auto.
Qed.
Lemma mm_le p l ys : mm p l ys <= length l /\ mm p l ys <= length ys.
Proof. revert ys. induction l as [|x l IH]; intros [|y ys]; simpl; try lia. destruct (p x y); [|lia]. specialize (IH ys). lia. Qed.
Lemma mm_prefix p l ys : Forall2 (fun x y => p x y = true) (firstn (mm p l ys) l) (firstn (mm p l ys) ys).
Proof. revert ys. induction l as [|x l IH]; intros [|y ys]; simpl; auto. destruct (p x y) eqn:Q; simpl; auto. Qed.
Lemma mm_full p l ys : mm p l ys = length ys <-> length ys <= length l /\ Forall2 (fun x y => p x y = true) (firstn (length ys) l) ys.
Proof.
  revert ys. induction l as [|x l IH]; intros [|y ys]; simpl; split; intros H; auto; try lia; try (split; auto; lia).
  - destruct (p x y) eqn:Q; [|lia]. apply Nat.succ_inj in H. apply IH in H. destruct H. split; [lia|]. constructor; auto.
  - destruct H as [H1 H2]. inversion H2; subst. rewrite H4. f_equal. apply IH. split; auto. lia.
Qed.
Lemma pure_find_if (p : X -> bool) l : yields (S := S) (std_find_if (pure p) l)
  (fun k => k <= length l /\ (forall m, m < k -> option_map p (nth_error l m) = Some false) /\
            (k < length l -> option_map p (nth_error l k) = Some true)).
Proof.
  induction l as [|x l IH]; cbn [std_find_if].
  - apply yields_ret. simpl. csplit; intros; lia.
  - unfold pure at 1. rewrite bind_ret_l. destruct (p x) eqn:Q.
    + apply yields_ret. simpl. rewrite Q. csplit; intros; auto; lia.
    + eapply yields_bind; [apply IH|]. intros k (H1 & H2 & H3). apply yields_ret. simpl. csplit; [lia| |].
      * intros [|m] Hm; simpl; [rewrite Q; auto|apply H2; lia].
      * intros Hk. apply H3. lia.
Qed.
Lemma pure_count_if (p : X -> bool) l : yields (S := S) (std_count_if (pure p) l) (fun k => k = length (filter p l)).
Proof.
  induction l as [|x l IH]; cbn [std_count_if]; [apply yields_ret; auto|].
  unfold pure at 1. rewrite bind_ret_l. eapply yields_bind; [apply IH|]. intros k ->. apply yields_ret. simpl.
  destruct (p x); auto.
Qed.
End PureStd.

(** ** Runs *)

Section Runs.
Context {X : Type} (p : X -> bool) (count : nat).
(** Position of the first run of [count] elements, [g] being the position of the head of [l]
    and [r] the number of satisfying elements just before. *)
Fixpoint first_run (l : list X) (g r : nat) : option nat :=
  match l with
  | [] => None
  | x :: l' => if p x then if 1 + r =? count then Some (g - r) else first_run l' (1 + g) (1 + r)
               else first_run l' (1 + g) 0
  end.
Fixpoint end_run (l : list X) (r : nat) : nat :=
  match l with [] => r | x :: l' => if p x then end_run l' (1 + r) else end_run l' 0 end.
Lemma first_run_app l1 l2 g r : first_run (l1 ++ l2) g r =
  match first_run l1 g r with Some s => Some s | None => first_run l2 (g + length l1) (end_run l1 r) end.
Proof.
  revert g r. induction l1 as [|x l1 IH]; intros g r; simpl; [rewrite Nat.add_0_r; auto|].
  replace (g + Datatypes.S (length l1)) with (1 + g + length l1) by lia.
  destruct (p x); [|apply IH]. destruct count as [|[|n]]; try apply IH; destruct (_ =? _); auto.
Qed.
Lemma run_of_nth n l k : run_of p n l k <->
  k + n <= length l /\ forall m, k <= m -> m < k + n -> option_map p (nth_error l m) = Some true.
Proof.
  unfold run_of. split; intros [H1 H2]; split; auto.
  - intros m M1 M2. assert (Hn : nth_error (between k (k + n) l) (m - k) = nth_error l m).
    { rewrite between_nth by lia. f_equal. lia. }
    destruct (nth_error l m) as [x|] eqn:Q; [|apply nth_error_None in Q; lia]. simpl.
    apply nth_error_In in Hn. rewrite Forall_forall in H2. f_equal. auto.
  - apply Forall_forall. intros x Hx. apply In_nth_error in Hx. destruct Hx as [m Hm].
    assert (Lm : m < n). { apply nth_error_Some_lt in Hm. rewrite between_length in Hm by lia. lia. }
    rewrite between_nth in Hm by lia. specialize (H2 (k + m)). rewrite Hm in H2. simpl in H2.
    assert (Q : Some (p x) = Some true) by (apply H2; lia). congruence.
Qed.
Lemma first_run_ok l l' pre r : l = pre ++ l' -> r <= length pre -> r < count ->
  (forall m, length pre - r <= m -> m < length pre -> option_map p (nth_error l m) = Some true) ->
  (forall k, run_of p count l k -> length pre - r <= k) ->
  match first_run l' (length pre) r with
  | Some s => earliest (run_of p count l) s
  | None => forall k, ~ run_of p count l k
  end.
Proof.
  revert pre r. induction l' as [|x l' IH]; intros pre r El Lr Lc H1 H2; cbn [first_run].
  - intros k Hk. assert (Q := H2 k Hk). destruct Hk as [Hk _]. rewrite El, app_nil_r in Hk. lia.
  - assert (Hx : nth_error l (length pre) = Some x) by (rewrite El, nth_error_app2, Nat.sub_diag by lia; auto).
    assert (El' : l = (pre ++ [x]) ++ l') by (rewrite El, <- app_assoc; auto).
    assert (Ep : length (pre ++ [x]) = 1 + length pre) by (rewrite app_length; simpl; lia).
    assert (Ll : length l = length pre + (1 + length l')) by (rewrite El, app_length; simpl; lia).
    destruct (p x) eqn:Px.
    + assert (H1' : forall m, length pre - r <= m -> m < 1 + length pre -> option_map p (nth_error l m) = Some true).
      { intros m M1 M2. destruct (Nat.eq_dec m (length pre)) as [->|]; [rewrite Hx; simpl; congruence|apply H1; lia]. }
      destruct (Nat.eqb_spec (1 + r) count) as [Ec|Nc].
      * split.
        -- apply run_of_nth. split; [lia|]. intros m M1 M2. apply H1'; lia.
        -- apply H2.
      * rewrite <- Ep. apply IH; auto; rewrite ?Ep; try lia.
        -- intros m M1 M2. apply H1'; lia.
        -- intros k Hk. apply H2 in Hk. lia.
    + rewrite <- Ep. apply IH; auto; rewrite ?Ep; try lia.
      intros k Hk. assert (Q := H2 k Hk). apply run_of_nth in Hk. destruct Hk as [K1 K2].
      destruct (Nat.le_gt_cases k (length pre)) as [Lk|Lk]; [|lia].
      exfalso. specialize (K2 (length pre)). rewrite Hx in K2. simpl in K2. rewrite Px in K2.
      assert (F : Some false = Some true) by (apply K2; lia). discriminate F.
Qed.
End Runs.

Section PAlgo4.
Context {V : Type} {E : Env V} {S : Type}.
Notation iat c i := (at_ (c_nodes c) i).

Section Coll.
Context (c : coll V) (Ts : list tyid) (W : aok c).

Lemma occurs_at {Y} (p : view V -> Y -> bool) ys i j k : i + k <= j -> j <= tot (c_nodes c) ->
  occurs p ys (views c Ts i j) k <-> mm p (views c Ts (i + k) j) ys = length ys.
Proof.
  intros L Lj. rewrite mm_full, <- (views_skip c Ts i j k) by auto. unfold occurs, between.
  rewrite skipn_length, views_length by auto. replace (k + length ys - k) with (length ys) by lia.
  split; intros [H1 H2]; split; auto; lia.
Qed.

(** ** search *)

Section Search.
Context {Y : Type} (p : view V -> Y -> bool) (ys : list Y) (j : nat) (Lj : j <= tot (c_nodes c)).
Definition starts (g : nat) : Prop := mm p (views c Ts g j) ys = length ys.

Lemma search_scan_ok q a m k n : piece_ok c q a m -> m <= j -> k + n = m - a ->
  yields (S := S) (search_scan c Ts (pure2 p) (iat c j) ys q k n)
    (fun r => match r with
              | Some it => exists g, a + k <= g /\ g < m /\ it = iat c g /\ starts g /\ forall g', a + k <= g' -> g' < g -> ~ starts g'
              | None => forall g', a + k <= g' -> g' < m -> ~ starts g'
              end).
Proof.
  intros P Lm. destruct (piece_le c q a m P) as [La _]. revert k. induction n as [|n IH]; intros k Hk; cbn [search_scan].
  - apply yields_ret. intros. lia.
  - rewrite (piece_iter c q a m k W P), lift_some by lia.
    eapply yields_bind with (P := fun r => snd r = mm p (views c Ts (a + k) j) ys).
    { eapply yields_same; [apply (mismatch_ok c Ts W (a + k) j ltac:(lia) Lj true ys (pure2 p))|apply pure_mismatch_to|].
      intros r b (-> & _) ->. reflexivity. }
    intros r ->. destruct (Nat.eqb_spec (mm p (views c Ts (a + k) j) ys) (length ys)) as [Q|Q].
    + apply yields_ret. exists (a + k). csplit; auto; try lia. 
    + eapply yields_mono; [|apply (IH (1 + k)); lia]. intros [it|] H.
      * destruct H as (g & H1 & H2 & H3 & H4 & H5). exists g. csplit; auto; try lia.
        intros g' G1 G2. destruct (Nat.eq_dec g' (a + k)) as [->|]; auto. apply H5; lia.
      * intros g' G1 G2. destruct (Nat.eq_dec g' (a + k)) as [->|]; auto. apply H; lia.
Qed.
Lemma search_loop_ok ps a : cover c ps a j ->
  yields (S := S) (search_loop c Ts (pure2 p) (iat c j) ys ps)
    (fun it => exists g, a <= g /\ g <= j /\ it = iat c g /\ (g < j -> starts g) /\ forall g', a <= g' -> g' < g -> ~ starts g').
Proof.
  intros C. remember j as j' in C at 1. induction C as [a|q ps a m b P C IH]; subst.
  - apply yields_ret. exists j. csplit; auto; intros; lia.
  - cbn [search_loop]. rewrite (piece_diff c q a m P), lift_some. assert (Lm := cover_le c ps m j C).
    destruct (piece_le c q a m P) as [La _].
    eapply yields_bind; [apply (search_scan_ok q a m 0 (m - a)); auto|]. cbn beta. rewrite Nat.add_0_r. intros [it|] H.
    + apply yields_ret. destruct H as (g & H1 & H2 & H3 & H4 & H5). exists g. csplit; auto; lia.
    + eapply yields_mono; [|apply (IH eq_refl)]. intros it (g & H1 & H2 & H3 & H4 & H5). exists g. csplit; auto; try lia.
      intros g' G1 G2. destruct (Nat.lt_ge_cases g' m); [apply H|apply H5]; auto.
Qed.
Lemma search_ok i : i <= j ->
  yields (S := S) (pc_search c Ts (iat c i) (iat c j) ys (pure2 p))
    (fun it => exists g, i <= g /\ g <= j /\ it = iat c g /\ (g < j -> starts g) /\ forall g', i <= g' -> g' < g -> ~ starts g').
Proof.
  intros L. destruct (split_ok c i j W L Lj) as (ps & Q & C). unfold pc_search. rewrite Q, lift_some. apply search_loop_ok. auto.
Qed.

Lemma find_end_loop_ok fuel i res : i <= j -> j - i < fuel -> ys <> [] ->
  res <= j -> (res < j -> starts res /\ res < i) -> 
  yields (S := S) (find_end_loop fuel c Ts (pure2 p) (iat c i) (iat c j) ys (iat c res))
    (fun it => exists g, g <= j /\ it = iat c g /\ (g < j -> starts g) /\ (g = res \/ i <= g /\ g < j) /\
                         forall g', i <= g' -> g' < j -> starts g' -> g <> j /\ g' <= g).
Proof.
  intros L Lf Ny. revert i res L Lf. induction fuel as [|f IH]; intros i res L Lf Lr Hr; [lia|]. cbn [find_end_loop].
  eapply yields_bind; [apply (search_ok i L)|]. cbn beta. intros it (g & G1 & G2 & -> & G4 & G5).
  rewrite (it_eq_at (c_nodes c) g j) by (try apply W; lia). destruct (Nat.eqb_spec g j) as [->|Ne].
  - apply yields_ret. exists res. csplit; auto.
    + intros H. apply Hr. auto.
    + intros g' H1 H2 H3. exfalso. apply (G5 g'); auto.
  - rewrite (it_next_at c g) by (try apply W; lia). rewrite lift_some.
    eapply yields_mono; [|apply (IH (Datatypes.S g) g); try lia].
    + intros it (h & H1 & H2 & H3 & H4 & H5). exists h. csplit; auto.
      * destruct H4; [right|right]; lia.
      * intros g' K1 K2 K3. destruct (Nat.le_gt_cases g' g) as [K|K].
        -- assert (g' = g) by (destruct (Nat.eq_dec g' g); auto; exfalso; apply (G5 g'); auto; lia). subst g'.
           destruct H4 as [->|]; lia.
        -- apply H5; auto.
    + split; [apply G4; lia|lia].
Qed.
Lemma find_end_ok i : i <= j ->
  yields (S := S) (pc_find_end c Ts (iat c i) (iat c j) ys (pure2 p))
    (fun it => exists g, i <= g /\ g <= j /\ it = iat c g /\
       (ys = [] /\ g = j \/ ys <> [] /\ (g < j -> starts g) /\ forall g', i <= g' -> g' < j -> starts g' -> g <> j /\ g' <= g)).
Proof.
  intros L. unfold pc_find_end. destruct ys as [|y ys'] eqn:Ey; [apply yields_ret; exists j; csplit; auto|].
  rewrite <- Ey. assert (Ny : ys <> []) by (rewrite Ey; discriminate).
  assert (Ec : c_size c = tot (c_nodes c)) by reflexivity.
  eapply yields_mono; [|apply (find_end_loop_ok (1 + c_size c) i j); auto; try lia].
  intros it (g & G1 & G2 & G3 & G4 & G5). exists g. csplit; auto. destruct G4; lia.
Qed.
End Search.

(** ** search_n *)

Section SearchN.
Context (p : view V -> bool) (count : nat) (Cp : 0 < count) (j : nat) (Lj : j <= tot (c_nodes c)).

Lemma search_n_scan_ok xs g0 k m carry r : r < count ->
  match m with
  | Some res => 0 < r /\ 0 < k /\ (carry = true /\ res = 0 /\ k < r \/ carry = false /\ res + r = k)
  | None => (r = 0 /\ carry = false) \/ (k = 0 /\ 0 < r /\ carry = true)
  end ->
  yields (S := S) (search_n_scan count (pure p) xs k m carry (count - r))
    (fun o => let carry' := fst (fst o) in let remain' := snd (fst o) in let res := snd o in
     match first_run p count xs (g0 + k) r with
     | Some s => remain' = 0 /\ res < k + length xs /\
         (carry' = true /\ carry = true /\ s = g0 + k - r \/ carry' = false /\ s = g0 + res)
     | None => let r' := end_run p xs r in
         remain' = count - r' /\ r' < count /\
         (r' = 0 /\ carry' = false /\ res = k + length xs \/
          0 < r' /\ carry' = true /\ carry = true /\ r' = r + length xs /\ res = 0 \/
          0 < r' /\ carry' = false /\ res + r' = k + length xs)
     end).
Proof.
  revert k m carry r. induction xs as [|x xs IH]; intros k m carry r Lr Hm; cbn [search_n_scan first_run end_run length].
  - apply yields_ret. cbn [fst snd]. rewrite Nat.add_0_r. split; auto. split; auto.
    destruct m as [res|].
    + destruct Hm as (H1 & H2 & [(-> & -> & H3)|(-> & H3)]); [right; left|right; right]; csplit; auto; lia.
    + destruct Hm as [(-> & ->)|(-> & H1 & ->)]; [left|right; left]; csplit; auto; lia.
  - unfold pure at 1. rewrite bind_ret_l. destruct (p x) eqn:Px.
    + replace (count - r - 1) with (count - (1 + r)) by lia.
      destruct (Nat.eqb_spec (1 + r) count) as [Ec|Nc].
      * replace (count - (1 + r) =? 0) with true by (symmetry; apply Nat.eqb_eq; lia).
        apply yields_ret. cbn [fst snd]. split; [lia|]. destruct m as [res|].
        -- destruct Hm as (H1 & H2 & [(-> & -> & H3)|(-> & H3)]); (split; [lia|]); [left|right]; csplit; auto; lia.
        -- destruct Hm as [(-> & ->)|(-> & H1 & ->)]; (split; [lia|]); [right|left]; csplit; auto; lia.
      * replace (count - (1 + r) =? 0) with false by (symmetry; apply Nat.eqb_neq; lia).
        eapply yields_mono; [|apply (IH (1 + k) _ carry (1 + r)); [lia|]].
        -- cbn beta zeta. replace (g0 + (1 + k)) with (1 + (g0 + k)) by lia. intros [[cr rm] res']. cbn [fst snd].
           destruct (first_run p count xs (1 + (g0 + k)) (1 + r)) as [s|].
           ++ intros (A & B & [(C & D & F)|(C & D)]); (split; [auto|split; [lia|]]); [left; csplit; auto; lia|right; auto].
           ++ intros (A & B & [C|[C|C]]); (split; [auto|split; [auto|]]); [left|right; left|right; right]; intuition lia.
        -- destruct m as [res|].
           ++ destruct Hm as (H1 & H2 & [(-> & -> & H3)|(-> & H3)]); csplit; lia.
           ++ destruct Hm as [(-> & ->)|(-> & H1 & ->)]; csplit; lia.
    + replace count with (count - 0) at 2 by lia.
      eapply yields_mono; [|apply (IH (1 + k) None false 0); [lia|left; auto]].
      cbn beta zeta. replace (g0 + (1 + k)) with (1 + (g0 + k)) by lia. intros [[cr rm] res']. cbn [fst snd].
      destruct (first_run p count xs (1 + (g0 + k)) 0) as [s|].
      * intros (A & B & [(C & D & F)|(C & D)]); [discriminate D|]. split; [auto|split; [lia|right; auto]].
      * intros (A & B & [C|[C|C]]); (split; [auto|split; [auto|]]); [left; intuition lia|exfalso|right; right; intuition lia].
        destruct C as (_ & _ & C & _). discriminate C.
Qed.

Lemma search_n_loop_ok ps a carry r prev : cover c ps a j -> r < count -> r <= a ->
  (r = 0 /\ carry = false \/ 0 < r /\ carry = true /\ exists pv, prev = Some pv /\ lbi_at c pv (a - r)) ->
  yields (S := S) (search_n_loop c Ts count (pure p) (iat c j) carry (count - r) prev ps)
    (fun it => it = iat c (match first_run p count (views c Ts a j) a r with Some s => s | None => j end)).
Proof.
  intros C. remember j as j' in C at 1. revert carry r prev.
  induction C as [a|q ps a m b P C IH]; intros carry r prev Lr La Hs; subst; cbn [search_n_loop].
  - apply yields_ret. rewrite views_nil. auto.
  - rewrite (piece_views_ok c Ts q a m W P), lift_some. assert (Lm := cover_le c ps m j C).
    destruct (piece_le c q a m P) as [Lq _].
    eapply yields_bind; [apply (search_n_scan_ok (views c Ts a m) a 0 None carry r Lr)|].
    { destruct Hs as [Hs|(H1 & H2 & _)]; auto. }
    cbn beta zeta. rewrite Nat.add_0_r. rewrite <- (views_app c Ts a m j) by lia. rewrite first_run_app.
    rewrite views_length by lia. replace (a + (m - a)) with m by lia. cbn [Nat.add].
    intros [[carry' remain'] res]. cbn [fst snd].
    destruct (first_run p count (views c Ts a m) a r) as [s|].
    + intros (-> & Hres & Hc). rewrite (piece_at_ok c Ts q a m res W P), lift_some by lia.
      rewrite (piece_eq_end c q a m) by auto. rewrite (proj2 (Nat.eqb_neq res (m - a))) by lia. cbn [Nat.eqb].
      destruct Hc as [(-> & -> & ->)|(-> & ->)].
      * destruct Hs as [(_ & Hs)|(H1 & _ & pv & -> & Hp)]; [discriminate Hs|].
        rewrite lift_some. rewrite (lbi_at_iter c W pv _ Hp). apply yields_ret. auto.
      * rewrite lift_some. cbn [fst snd]. rewrite (piece_iter c q a m res W P) by lia. apply yields_ret. auto.
    + intros (-> & Hr & Hc). set (r' := end_run p (views c Ts a m) r) in *.
      assert (Hres : res <= m - a) by lia.
      rewrite (piece_at_ok c Ts q a m res W P Hres), lift_some. rewrite (piece_eq_end c q a m) by auto.
      rewrite (proj2 (Nat.eqb_neq (count - r') 0)) by lia.
      assert (Hrm : r' <= m) by lia.
      destruct Hc as [(Z1 & -> & ->)|[(Z1 & -> & -> & Z2 & ->)|(Z1 & -> & Z2)]].
      * rewrite Nat.eqb_refl. apply (IH eq_refl false r' prev); auto.
      * assert (Q : yields (S := S) (search_n_loop c Ts count (pure p) (iat c j) true (count - r') prev ps)
          (fun it => it = iat c (match first_run p count (views c Ts m j) m r' with Some s => s | None => j end))).
        { apply (IH eq_refl true r' prev); auto. right. csplit; auto.
          destruct Hs as [(_ & Hs)|(H1 & _ & pv & -> & Hp)]; [discriminate Hs|]. exists pv. split; auto.
          replace (m - r') with (a - r) by lia. auto. }
        destruct (0 =? m - a); auto.
      * rewrite (proj2 (Nat.eqb_neq res (m - a))) by lia.
        apply (IH eq_refl true r' (Some (pc_id q, padd (pc_beg q) res))); auto. right. csplit; auto.
        eexists. split; [reflexivity|]. replace (m - r') with (a + res) by lia. apply (piece_lbi c q a m); auto. lia.
Qed.
Lemma search_n_ok i : i <= j ->
  yields (S := S) (pc_search_n c Ts (iat c i) (iat c j) count (pure p))
    (fun it => exists k, it = iat c (i + k) /\ k <= j - i /\
       (earliest (run_of p count (views c Ts i j)) k \/ (forall k', ~ run_of p count (views c Ts i j) k') /\ k = j - i)).
Proof.
  intros L. unfold pc_search_n. rewrite (proj2 (Nat.eqb_neq count 0)) by lia.
  destruct (split_ok c i j W L Lj) as (ps & Q & C). rewrite Q, lift_some.
  replace count with (count - 0) at 2 by lia.
  eapply yields_mono; [|apply (search_n_loop_ok ps i false 0 None C); auto; lia].
  cbn beta. intros it ->.
  assert (Hsh : forall l g r d, r <= g -> first_run p count l (d + g) r = option_map (Nat.add d) (first_run p count l g r)).
  { clear. intros l. induction l as [|x l IH]; intros g r d Lr; cbn [first_run]; auto.
    replace (1 + (d + g)) with (d + (1 + g)) by lia. destruct (p x); [|apply IH; lia].
    destruct (1 + r =? count); [simpl; f_equal; lia|apply IH; lia]. }
  assert (Hs0 := Hsh (views c Ts i j) 0 0 i (le_n 0)). rewrite Nat.add_0_r in Hs0. rewrite Hs0.
  assert (H := first_run_ok p count (views c Ts i j) (views c Ts i j) [] 0 eq_refl (le_n 0) Cp).
  cbn [length] in H. assert (H' := H ltac:(intros; lia) ltac:(intros; lia)). clear H.
  destruct (first_run p count (views c Ts i j) 0 0) as [s|]; simpl.
  - exists s. csplit; auto. destruct H' as [[Hs _] _]. rewrite views_length in Hs by auto. lia.
  - exists (j - i). csplit; auto. f_equal. lia.
Qed.
End SearchN.
End Coll.
End PAlgo4.
