(** * Equality of collections *)

From Coq Require Import List Arith Lia Bool Permutation.
From Verif Require Import Base Vec Backend Segment Coll Spec ProofBase ProofVec ProofBackend ProofOps ProofOps2 ProofSeg ProofMap ProofView ProofColl.
Import ListNotations.

Section PEq.
Context {V : Type} {E : Env V}.

Notation NL := (list (node V)).
Notation nsz n := (bsize (sg_be (n_seg n))).

(** Only fallible steps have been executed. *)
Definition ticked (w w' : world) : Prop :=
  w_next w' = w_next w /\ w_live w' = w_live w /\ w_objs w' = w_objs w /\ w_clock w <= w_clock w'.
Lemma ticked_refl w : ticked w w.
Proof. unfold ticked. csplit; auto. Qed.
Lemma ticked_trans a b c : ticked a b -> ticked b c -> ticked a c.
Proof. unfold ticked. intros (?&?&?&?) (?&?&?&?). csplit; try congruence; try lia. Qed.


Definition eq_exn (t : tyid) (n : nat) (w w' : world) (e : exn) : Prop :=
  (e = UserExn /\ (env_eqcomp t = true /\ 0 < n) /\ exists k, w_clock w <= k < w_clock w' /\ env_fault k = true) \/
  (e = NotEqualityComparable t /\ env_eqcomp t = false /\ 0 < n).

Lemma wp_elems_eq t xs : forall ys w (Q : world -> bool -> Prop) (X : world -> exn -> Prop),
  length xs = length ys ->
  (forall w' b, ticked w w' -> (b = true <-> veqs t xs ys) -> Q w' b) ->
  (forall w' e, ticked w w' -> eq_exn t (length xs) w w' e -> X w' e) ->
  wp (elems_eq (vh_equal t) xs ys) w Q X.
Proof.
  induction xs as [|x xs IH]; intros [|y ys] w Q X Hl HQ HX; try discriminate; cbn [elems_eq].
  - apply wp_ret. apply HQ; [apply ticked_refl|]. split; auto. intros _. constructor.
  - apply wp_bind. unfold vh_equal at 1. destruct (env_eqcomp t) eqn:Ec.
    + apply wp_bind. unfold wp, tick.
      set (w1 := mkworld (w_next w) (w_live w) (w_objs w) (S (w_clock w)) (w_work w)).
      assert (T1 : ticked w w1) by (unfold ticked, w1; simpl; csplit; auto).
      destruct (env_fault (w_clock w)) eqn:Ef.
      * apply HX; auto. left. split; auto. split; [split; auto; simpl; lia|]. exists (w_clock w). split; auto; unfold w1; simpl; lia.
      * apply wp_ret. destruct (env_veq t x y) eqn:Ev.
        -- apply IH; [simpl in Hl; lia| |].
           ++ intros w' b T Hb. apply HQ; [eapply ticked_trans; eauto|]. rewrite Hb. split; intros F.
              ** constructor; auto.
              ** inversion F; auto.
           ++ intros w' e T Hx. apply HX; [eapply ticked_trans; eauto|].
              destruct Hx as [(-> & _ & k & Hk & Hf)|(-> & He & _)].
              ** left. split; auto. split; [split; auto; simpl; lia|]. exists k. split; auto; unfold w1 in Hk; simpl in Hk; lia.
              ** right. csplit; auto. simpl. lia.
        -- apply wp_ret. apply HQ; auto. split; [discriminate|]. intros F. inversion F. congruence.
    + unfold wp, throw. apply HX; [apply ticked_refl|]. right. csplit; auto. simpl. lia.
Qed.

Lemma wp_seg_equal (x y : segment V) w (Q : world -> bool -> Prop) (X : world -> exn -> Prop) :
  sg_ty x = sg_ty y ->
  (forall w' b, ticked w w' -> (b = true <-> veqs (sg_ty x) (elems_of x) (elems_of y)) -> Q w' b) ->
  (forall w' e, ticked w w' -> length (elems_of x) = length (elems_of y) ->
     eq_exn (sg_ty x) (length (elems_of x)) w w' e -> X w' e) ->
  wp (seg_equal x y) w Q X.
Proof.
  intros Et HQ HX. unfold seg_equal. rewrite Et, Nat.eqb_refl. unfold be_equal, vec_equal, vsize.
  rewrite <- Et. destruct (Nat.eqb_spec (length (v_elems (be_store (sg_be x)))) (length (v_elems (be_store (sg_be y))))) as [El|Nl].
  - apply wp_elems_eq; auto.
  - apply wp_ret. apply HQ; [apply ticked_refl|]. split; [discriminate|].
    intros F. exfalso. apply Nl. clear - F. unfold veqs, elems_of in F. induction F; simpl; auto.
Qed.

Definition neq_exn (x y : coll V) w w' e : Prop :=
  (e = UserExn /\ (exists t, env_eqcomp t = true /\ length (elems x t) = length (elems y t) /\ 0 < length (elems x t)) /\ exists k, w_clock w <= k < w_clock w' /\ env_fault k = true) \/
  (exists t, e = NotEqualityComparable t /\ env_eqcomp t = false /\
     length (elems x t) = length (elems y t) /\ 0 < length (elems x t)).

Lemma veqs_length t xs ys : veqs t xs ys -> length xs = length ys.
Proof. intros F. induction F; simpl; auto. Qed.

Lemma wp_c_equal_loop wx wy x y : wfm wx x -> wfm wy y ->
  forall l2 l1 s w (Q : world -> bool -> Prop) (X : world -> exn -> Prop),
  c_nodes x = l1 ++ l2 ->
  (forall w' b, ticked w w' -> (b = true <-> (forall n, In n l2 -> veqs (n_ty n) (n_elems n) (elems y (n_ty n))) /\
                                  s + tot l2 = c_size y) -> Q w' b) ->
  (forall w' e, ticked w w' -> neq_exn x y w w' e -> X w' e) ->
  wp (c_equal_loop l2 y s) w Q X.
Proof.
  intros Wx Wy. induction l2 as [|n l2 IH]; intros l1 s w Q X Hs HQ HX; cbn [c_equal_loop].
  - apply wp_ret. apply HQ; [apply ticked_refl|]. rewrite Nat.eqb_eq. unfold tot, sum_sizes. simpl. rewrite Nat.add_0_r.
    split; auto. + intros ->. split; auto. intros ? []. + tauto.
  - assert (Hin : In n (c_nodes x)) by (rewrite Hs; apply in_or_app; right; left; auto).
    assert (Ek : env_ty (n_key n) = n_ty n).
    { assert (B := wm_key _ _ Wx). rewrite Forall_forall in B. exact (B n Hin). }
    assert (Rec : forall w1 m, n_ty m = n_ty n -> elems y (n_ty n) = n_elems m -> ticked w w1 ->
              veqs (n_ty n) (n_elems n) (n_elems m) ->
              wp (c_equal_loop l2 y (s + seg_size (n_seg n))) w1 Q X).
    { intros w1 m Em Ey T1 F. eapply (IH (l1 ++ [n])).
      - rewrite <- app_assoc. exact Hs.
      - intros w' b T Hb. apply HQ; [eapply ticked_trans; eauto|]. rewrite Hb, tot_cons.
        change (seg_size (n_seg n)) with (nsz n). split; intros (A & B); split; try lia.
        + intros k [<-|Hk]; auto. rewrite Ey. auto.
        + intros k Hk. apply A. right; auto.
      - intros w' e T Hx. apply HX; [eapply ticked_trans; eauto|].
        destruct Hx as [(-> & Hc & k & Hk & Hf)|Hx]; [left|right; auto]. split; auto. split; auto. exists k. split; auto.
        unfold ticked in T1. lia. }
    rewrite (cache_transparent _ _ _ Wy). destruct (find_spec _ _ (n_key n) Wy) as [(m & Hm & Fm & Am & Tm)|(Fm & Nm)]; rewrite Fm.
    + rewrite Am. rewrite Ek in Tm.
      assert (Ey : elems y (n_ty n) = n_elems m) by (rewrite <- Tm; apply (elems_node _ _ _ Wy Hm)).
      assert (Ex : elems x (n_ty n) = n_elems n) by (apply (elems_node _ _ _ Wx Hin)).
      apply wp_bind. apply wp_seg_equal; auto.
      * intros w1 b T1 Hb. destruct b.
        -- apply (Rec w1 m); auto. apply Hb. auto.
        -- apply wp_ret. apply HQ; auto. split; [discriminate|]. intros (A & _).
           specialize (A n (or_introl eq_refl)). rewrite Ey in A. apply Hb in A. auto.
      * intros w1 e T1 Hl Hx. apply HX; auto. destruct Hx as [(-> & (He & Hn) & Hx)|(-> & He & Hn)].
        -- left. split; auto. split; auto. exists (n_ty n). rewrite Ex, Ey. csplit; auto.
        -- right. exists (n_ty n). rewrite Ex, Ey. csplit; auto.
    + rewrite Ek in Nm. assert (Ey : elems y (n_ty n) = []) by (apply elems_none; auto).
      change (seg_size (n_seg n)) with (nsz n). destruct (Nat.eqb_spec (nsz n) 0) as [Z|Z].
      * assert (En : n_elems n = []) by (apply length_zero_iff_nil; rewrite n_elems_length; auto).
        eapply (IH (l1 ++ [n])).
        -- rewrite <- app_assoc. exact Hs.
        -- intros w' b T Hb. apply HQ; auto. rewrite Hb, tot_cons. split; intros (A & B); split; try lia.
           ++ intros k [<-|Hk]; auto. rewrite Ey, En. constructor.
           ++ intros k Hk. apply A. right; auto.
        -- auto.
      * apply wp_ret. apply HQ; [apply ticked_refl|]. split; [discriminate|]. intros (A & _).
        specialize (A n (or_introl eq_refl)). rewrite Ey in A. apply veqs_length in A. rewrite n_elems_length in A. simpl in A. lia.
Qed.

(** Counting by types. *)
Definition tsum (f : tyid -> nat) (ts : list tyid) : nat := list_sum (map f ts).
Definition alen (l : list (tyid * list V)) (t : tyid) : nat :=
  match assoc t l with Some xs => length xs | None => 0 end.
Lemma tsum_le f g ts : (forall t, In t ts -> f t <= g t) -> tsum f ts <= tsum g ts.
Proof. induction ts as [|t ts IH]; intros H; unfold tsum in *; simpl; auto. assert (B := H t (or_introl eq_refl)). specialize (IH (fun t' Ht => H t' (or_intror Ht))). lia. Qed.
Lemma tsum_bump (f : tyid -> nat) t0 m ts : NoDup ts ->
  tsum (fun t => if t0 =? t then m else f t) ts <= m + tsum f ts.
Proof.
  induction 1 as [|t ts Nin ND IH]; unfold tsum in *; simpl; [lia|].
  destruct (Nat.eqb_spec t0 t) as [->|Ne]; [|lia].
  assert (B : map (fun t1 : tyid => if t =? t1 then m else f t1) ts = map f ts).
  { apply map_ext_in. intros a Ha. destruct (Nat.eqb_spec t a); auto. subst. contradiction. }
  rewrite B. lia.
Qed.
Lemma alen_sum l : forall ts, NoDup ts -> tsum (alen l) ts <= list_sum (map (fun e => length (snd e)) l).
Proof.
  induction l as [|[t xs] l IH]; intros ts ND; simpl.
  - unfold tsum, alen. simpl. clear. induction ts; simpl; auto.
  - assert (B := tsum_bump (alen l) t (length xs) ts ND). specialize (IH ts ND).
    assert (C : tsum (alen ((t, xs) :: l)) ts <= tsum (fun t1 => if t =? t1 then length xs else alen l t1) ts).
    { apply tsum_le. intros a _. unfold alen. simpl. destruct (t =? a); auto. }
    lia.
Qed.
Lemma tot_content (c : coll V) : list_sum (map (fun e => length (snd e)) (content c)) = tot (c_nodes c).
Proof.
  rewrite content_nodes. unfold tot, sum_sizes. induction (c_nodes c) as [|n ns IH]; simpl; auto.
Qed.
Lemma elems_sum (c : coll V) ts : NoDup ts -> tsum (fun t => length (elems c t)) ts <= tot (c_nodes c).
Proof.
  intros ND. rewrite <- tot_content. eapply Nat.le_trans; [|apply alen_sum; eauto].
  apply tsum_le. intros t _. unfold alen, elems, seg_of. destruct (assoc t (content c)); auto.
Qed.
Lemma types_sum w (c : coll V) : wfm w c -> tsum (fun t => length (elems c t)) (types c) = tot (c_nodes c).
Proof.
  intros W. rewrite <- tot_content. unfold types, tsum. rewrite content_nodes, !map_map. f_equal. apply map_ext_in.
  intros n Hn. simpl. f_equal. apply (elems_node _ _ _ W Hn).
Qed.
Lemma types_nodup w (c : coll V) : wfm w c -> NoDup (types c).
Proof. intros W. rewrite types_nodes. apply W. Qed.

Lemma coll_eq_iff wx wy x y : wfm wx x -> wfm wy y ->
  (coll_eq x y <-> (forall n, In n (c_nodes x) -> veqs (n_ty n) (n_elems n) (elems y (n_ty n))) /\ tot (c_nodes x) = tot (c_nodes y)).
Proof.
  intros Wx Wy. split.
  - intros H. split.
    + intros n Hn. rewrite <- (elems_node _ _ _ Wx Hn). apply H.
    + assert (Lq : forall t, length (elems x t) = length (elems y t)) by (intros t; apply (veqs_length t), H).
      assert (A := elems_sum x (types y) (types_nodup _ _ Wy)). assert (B := elems_sum y (types x) (types_nodup _ _ Wx)).
      rewrite <- (types_sum _ _ Wx) in A at 1 |- *. rewrite <- (types_sum _ _ Wy) in B |- *.
      assert (C : tsum (fun t => length (elems x t)) (types y) = tsum (fun t => length (elems y t)) (types y))
        by (unfold tsum; f_equal; apply map_ext; auto).
      assert (D : tsum (fun t => length (elems x t)) (types x) = tsum (fun t => length (elems y t)) (types x))
        by (unfold tsum; f_equal; apply map_ext; auto).
      lia.
  - intros (A & B) t. destruct (in_dec Nat.eq_dec t (types x)) as [Ht|Ht].
    + rewrite types_nodes in Ht. apply in_map_iff in Ht. destruct Ht as (n & <- & Hn).
      rewrite (elems_node _ _ _ Wx Hn). auto.
    + assert (Ex : elems x t = []) by (apply elems_none; rewrite <- types_nodes; auto).
      assert (C := elems_sum y (t :: types x)).
      assert (D : tsum (fun t => length (elems y t)) (types x) = tot (c_nodes x)).
      { rewrite <- (types_sum _ _ Wx). unfold tsum. f_equal. apply map_ext_in. intros t' Ht'.
        rewrite types_nodes in Ht'. apply in_map_iff in Ht'. destruct Ht' as (n & <- & Hn).
        symmetry. rewrite (elems_node _ _ _ Wx Hn). apply (veqs_length (n_ty n)). auto. }
      assert (C' : tsum (fun t => length (elems y t)) (t :: types x) <= tot (c_nodes y)).
      { apply C. constructor; auto. apply (types_nodup _ _ Wx). }
      unfold tsum in C', D. simpl in C'.
      assert (Z : length (elems y t) = 0) by lia. apply length_zero_iff_nil in Z. rewrite Ex, Z. constructor.
Qed.

Lemma wp_c_equal wx wy x y w (Q : world -> bool -> Prop) (X : world -> exn -> Prop) :
  wfm wx x -> wfm wy y ->
  (forall w' b, ticked w w' -> (b = true <-> coll_eq x y) -> Q w' b) ->
  (forall w' e, ticked w w' -> neq_exn x y w w' e -> X w' e) ->
  wp (c_equal x y) w Q X.
Proof.
  intros Wx Wy HQ HX. unfold c_equal. eapply (wp_c_equal_loop wx wy x y Wx Wy _ []); auto.
  intros w' b T Hb. apply HQ; auto. rewrite Hb, (coll_eq_iff _ _ _ _ Wx Wy). unfold c_size, tot. reflexivity.
Qed.

End PEq.
