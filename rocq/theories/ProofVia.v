(** * Proofs about insertion through std::inserter *)

From Coq Require Import List Arith Lia Bool Permutation.
From Verif Require Import Base Vec Backend Segment Coll Loops Spec SpecVia Reach ProofBase ProofVec ProofBackend ProofOps
  ProofSeg ProofMap ProofView ProofColl ProofIns ProofRange ProofReach ProofObs ProofProp ProofProp4 ProofProp5 ProofCost7.
Import ListNotations.

Section Via.
Context {V : Type} {E : Env V}.
Notation CW := (coll V * world)%type.

Lemma subseq_refl {A} (l : list A) : subseq l l.
Proof. induction l; constructor; auto. Qed.
Lemma subseq_trans {A} (a b c : list A) : subseq a b -> subseq b c -> subseq a c.
Proof. intros H1 H2. revert a H1. induction H2; intros a H1; auto; [inversion H1; subst; constructor; auto|constructor; auto]. Qed.
Lemma subseq_insert {A} k (x : A) l : subseq l (insert_at k x l).
Proof.
  unfold insert_at. revert l. induction k as [|k IH]; intros l.
  - cbn [firstn skipn app]. constructor. apply subseq_refl.
  - destruct l as [|y l]; [cbn; constructor; constructor|]. cbn [firstn skipn app]. constructor. apply IH.
Qed.
Lemma insert_perm {A} k (x : A) l : Permutation (insert_at k x l) (l ++ [x]).
Proof.
  unfold insert_at. rewrite <- (firstn_skipn k l) at 3. rewrite <- app_assoc. apply Permutation_app_head. apply Permutation_cons_append.
Qed.

Lemma inserted_elems (c c' : coll V) t k v u : inserted c c' t k v -> elems c' u = if u =? t then insert_at k v (elems c t) else elems c u.
Proof.
  intros I. rewrite (g_elems _ _ _ _ (in_grew _ _ _ _ _ I)). unfold slot, of_type. cbn [filter fst]. rewrite (Nat.eqb_sym u).
  destruct (Nat.eqb_spec t u) as [<-|Ne]; [reflexivity|]. cbn. rewrite firstn_all, skipn_all, app_nil_r. reflexivity.
Qed.

(** the hint and the position *)
Lemma located_hint (c : coll V) it i : located c it i -> exists h, hint_is c it h.
Proof. intros [(-> & _)|(t & k & P & _)]; [exists None; reflexivity|exists (Some (t, k)); exact P]. Qed.

Lemma goes_slot w c g d hint h i t : reach w (c :: g) d -> hint_is c hint h -> located c hint i -> goes (content c) i t = slot h c t.
Proof.
  intros H Hi L. unfold goes. change (match assoc t (content c) with Some l => length l | None => 0 end) with (match seg_of c t with Some l => length l | None => 0 end).
  assert (En : (match seg_of c t with Some l => length l | None => 0 end) = length (elems c t)) by (unfold elems; destruct (seg_of c t); reflexivity).
  rewrite En. destruct (reach_wf _ _ _ _ H) as (W & O).
  assert (Out : forall t0 k, t0 <> t -> k < length (elems c t0) -> offset (content c) t <= offset (content c) t0 + k < offset (content c) t + length (elems c t) -> False).
  { intros t0 k Ne Hk [A B]. destruct (nth_flat w c g d t0 k H Hk) as (N1 & _).
    destruct (nth_flat w c g d t (offset (content c) t0 + k - offset (content c) t) H ltac:(lia)) as (N2 & _).
    replace (offset (content c) t + (offset (content c) t0 + k - offset (content c) t)) with (offset (content c) t0 + k) in N2 by lia. rewrite N1 in N2.
    destruct (nth_error (elems c t0) k) eqn:Q1; [|apply nth_error_None in Q1; lia].
    destruct (nth_error (elems c t) _) eqn:Q2; [|apply nth_error_None in Q2; lia]. cbn in N2. inversion N2. auto. }
  assert (Cases : (h = None /\ i = length (flat c)) \/ exists t0 k, h = Some (t0, k) /\ i = offset (content c) t0 + k /\ k < length (elems c t0)).
  { destruct h as [[t0 k]|]; cbn [hint_is] in Hi.
    - right. exists t0, k. pose proof (points_elems _ _ _ _ _ (wc_map _ _ W) Hi) as Hk. csplit; auto.
      exact (located_fun w c g d hint _ _ H L (points_located _ _ _ _ Hi)).
    - left. split; auto. subst hint. exact (located_fun w c g d _ _ _ H L (end_located c)). }
  unfold slot. destruct Cases as [(-> & ->)|(t0 & k & -> & -> & Hk)].
  - destruct ((_ <=? _) && (_ <? _)) eqn:Q; auto. apply andb_true_iff in Q. destruct Q as (_ & Q). apply Nat.ltb_lt in Q.
    destruct (length (elems c t)) as [|n] eqn:Ln.
    { assert (offset (content c) t <= length (flat c)). { clear. unfold flat. induction (content c) as [|[t' xs] l IH]; cbn; auto. rewrite app_length, map_length. destruct (_ =? _); lia. } lia. }
    destruct (nth_flat w c g d t n H ltac:(lia)) as (_ & B). lia.
  - destruct (Nat.eqb_spec t0 t) as [->|Ne].
    + rewrite (proj2 (Nat.leb_le _ _)), (proj2 (Nat.ltb_lt _ _)) by lia. cbn. lia.
    + destruct ((_ <=? _) && (_ <? _)) eqn:Q; auto. apply andb_true_iff in Q. destruct Q as (Q1 & Q2). apply Nat.leb_le in Q1. apply Nat.ltb_lt in Q2.
      exfalso. eapply Out; eauto.
Qed.

(** one element *)
Definition via_step (hint : iter) (x : arg V) : M CW iter :=
  (it <- c_insert_hint hint x ;; c <- getx ;; match it_next c it with Some h => ret h | None => ub end)%mon.
Lemma via_cons hint x xs s : insert_via hint (x :: xs) s = bind (via_step hint x) (fun h => insert_via h xs) s.
Proof.
  cbn [insert_via]. unfold via_step, bind. destruct (c_insert_hint hint x s) as [s1 it|s1 e|]; auto. unfold getx.
  destruct (it_next _ it); auto.
Qed.

Lemma wp_via w c g d hint h i x t v : reach w (c :: g) d -> hint_is c hint h -> located c hint i -> gives x (t, v) -> hsafe h c [(t, v)] ->
  wp (via_step hint x) (c, w)
    (fun '(c1, w1) it => reach w1 (c1 :: g) d /\ inserted c c1 t (slot h c t) v /\ located c1 it (offset (content c1) t + slot h c t + 1))
    (fun '(c1, w1) e => rejected c c1 w w1 x (slot h c t) e).
Proof.
  intros H Hi L (Et & Es & Ok) Sf. cbn [fst snd] in *. destruct (hint_of w c g d hint h t H Hi) as (_ & Ha & Hk).
  assert (Hs : hint_safe c hint (env_ty (a_dyn x))).
  { rewrite Et. destruct Sf as [->|[Sf|Sf]]; [left; exact Hi|right; left; apply Sf; left; reflexivity|right; right; exact Sf]. }
  assert (Sr : src_c c (env_ty (a_dyn x)) (a_how x) (a_src x) v) by (left; exact Es).
  rewrite <- Et in Ha. unfold via_step. apply wp_bind.
  eapply wp_mono; [eapply (api_reach _ w c g d); [exact H|eapply (api_insert_hint g c hint i _ x v); eauto|eapply (spec_insert_hint w c g d hint i _ x v); eauto]| |].
  - intros [c1 w1] it (R & _ & I & P). cbn [fst snd] in R. rewrite Et in *. apply wp_bind. apply wp_getx. cbn [fst].
    pose proof (points_located _ _ _ _ P) as L1.
    assert (Lt : offset (content c1) t + slot h c t < length (flat c1)).
    { destruct (reach_wf _ _ _ _ R) as (W1 & _). apply (nth_flat w1 c1 g d t). auto. apply (points_elems _ _ _ _ _ (wc_map _ _ W1) P). }
    destruct (next_located w1 c1 g d it _ R L1 Lt) as (it' & -> & L'). apply wp_ret. csplit; auto. replace (_ + 1) with (S (offset (content c1) t + slot h c t)) by lia. exact L'.
  - intros [c1 w1] e R. rewrite Et in *. exact R.
Qed.

(** all of them *)
Definition via_did (c : coll V) (h : option (tyid * nat)) (i : nat) (l : list (tyid * V)) (c1 : coll V) (j : nat) : Prop :=
  (forall t, Permutation (elems c1 t) (elems c t ++ of_type t l) /\ subseq (elems c t) (elems c1 t)) /\
  (forall t, In t (types c1) <-> In t (types c) \/ In t (map fst l)) /\
  (forall t, ~ In t (map fst l) -> seg_at c1 t = seg_at c t) /\
  (incl (map fst l) (types c) -> (content c1, j) = put_via (content c) i l) /\
  (forall t, (forall e, In e l -> fst e = t) ->
     elems c1 t = firstn (slot h c t) (elems c t) ++ map snd l ++ skipn (slot h c t) (elems c t)) /\
  c_al c1 = c_al c.

Lemma offset_set t xs (segs : list (tyid * list V)) : offset (set_assoc t xs segs) t = offset segs t.
Proof. induction segs as [|[u ys] l IH]; cbn; auto. destruct (Nat.eqb_spec u t) as [->|Ne]; cbn; [rewrite Nat.eqb_refl; reflexivity|]. rewrite (proj2 (Nat.eqb_neq _ _) Ne), IH. reflexivity. Qed.
Lemma seg_of_in (c : coll V) t : In t (types c) -> exists l, seg_of c t = Some l.
Proof.
  unfold types, seg_of. induction (content c) as [|[u ys] l IH]; cbn; [tauto|]. destruct (Nat.eqb_spec u t) as [->|Ne]; [eauto|]. intros [->|]; [contradiction|auto].
Qed.

Lemma via_did_nil c h i : via_did c h i [] c i.
Proof.
  unfold via_did. csplit; auto.
  - intros t. cbn. rewrite app_nil_r. split; [reflexivity|apply subseq_refl].
  - intros t. cbn. tauto.
  - intros t _. cbn. rewrite firstn_skipn. reflexivity.
Qed.
Lemma via_did_cons w c g d hint h i t v l w1 c1 h1 hint1 c2 j : reach w (c :: g) d -> hint_is c hint h -> located c hint i ->
  inserted c c1 t (slot h c t) v -> reach w1 (c1 :: g) d -> hint_is c1 hint1 h1 -> located c1 hint1 (offset (content c1) t + slot h c t + 1) ->
  via_did c1 h1 (offset (content c1) t + slot h c t + 1) l c2 j -> via_did c h i ((t, v) :: l) c2 j.
Proof.
  intros H Hi L I H1 Hi1 L1 (D1 & D2 & D3 & D4 & D5 & D6). pose proof (in_grew _ _ _ _ _ I) as G.
  destruct (hint_of w c g d hint h t H Hi) as (_ & _ & Hk).
  unfold via_did. csplit.
  - intros u. destruct (D1 u) as (P & Sb). pose proof (inserted_elems c c1 t (slot h c t) v u I) as Eu. rewrite of_type_cons.
    destruct (Nat.eqb_spec u t) as [->|Ne].
    + rewrite Nat.eqb_refl. rewrite Eu in P, Sb. split.
      * rewrite P. rewrite insert_perm, <- app_assoc. reflexivity.
      * eapply subseq_trans; [apply subseq_insert|exact Sb].
    + rewrite (proj2 (Nat.eqb_neq t u)) by auto. rewrite Eu in P, Sb. auto.
  - intros u. rewrite D2, (g_types _ _ _ _ G). cbn. tauto.
  - intros u Nu. cbn in Nu. rewrite D3 by tauto. apply (g_other _ _ _ _ G). cbn. tauto.
  - intros Inc. assert (Ht : In t (types c)) by (apply Inc; left; reflexivity). destruct (seg_of_in c t Ht) as (es & Es).
    pose proof (in_became _ _ _ _ _ I) as B. unfold became in B. rewrite Es in B. unfold elems in B. rewrite Es in B.
    cbn [put_via]. rewrite (goes_slot w c g d hint h i t H Hi L). unfold seg_of in Es. rewrite Es, <- B.
    assert (Eo : offset (content c1) t = offset (content c) t) by (rewrite B; apply offset_set). rewrite <- Eo. apply D4.
    intros u Hu. apply (g_types _ _ _ _ G). left. apply Inc. right. exact Hu.
  - intros u Al. assert (Et : t = u) by (apply (Al (t, v)); left; reflexivity). subst u.
    rewrite (D5 t) by (intros e He; apply Al; right; exact He).
    assert (Sl : slot h1 c1 t = S (slot h c t)).
    { rewrite <- (goes_slot w1 c1 g d hint1 h1 _ t H1 Hi1 L1). unfold goes.
      change (match assoc t (content c1) with Some l0 => length l0 | None => 0 end) with (match seg_of c1 t with Some l => length l | None => 0 end).
      assert (En : (match seg_of c1 t with Some l => length l | None => 0 end) = S (length (elems c t))).
      { transitivity (length (elems c1 t)); [unfold elems; destruct (seg_of c1 t); reflexivity|].
        rewrite (inserted_elems c c1 t _ v t I), Nat.eqb_refl. unfold insert_at. rewrite app_length, firstn_length. cbn. rewrite skipn_length. lia. }
      rewrite En. destruct ((_ <=? _) && (_ <? _)) eqn:Q; [lia|]. apply andb_false_iff in Q. destruct Q as [Q|Q]; [apply Nat.leb_gt in Q; lia|apply Nat.ltb_ge in Q; lia]. }
    rewrite Sl. rewrite (inserted_elems c c1 t _ v t I), Nat.eqb_refl. unfold insert_at. cbn [map snd].
    assert (Lf : length (firstn (slot h c t) (elems c t)) = slot h c t) by (rewrite firstn_length; lia).
    set (a := firstn (slot h c t) (elems c t)) in *. set (b := skipn (slot h c t) (elems c t)). rewrite <- Lf.
    replace (S (length a)) with (length a + 1) by lia. rewrite firstn_app_2.
    replace (a ++ v :: b) with ((a ++ [v]) ++ b) by (rewrite <- app_assoc; reflexivity).
    replace (length a + 1) with (length (a ++ [v])) by (rewrite app_length; reflexivity). rewrite skipn_app, skipn_all, Nat.sub_diag.
    cbn [firstn skipn app]. rewrite <- app_assoc. reflexivity.
  - rewrite D6. apply (in_al _ _ _ _ _ I).
Qed.

Lemma via_safe_step w c g d h h1 (c1 : coll V) t v l : reach w (c :: g) d -> grew h c c1 [(t, v)] \/ True -> (forall u, In u (types c1) <-> In u (types c) \/ u = t) ->
  via_safe h c ((t, v) :: l) -> via_safe h1 c1 l.
Proof.
  intros _ _ Ty [S0|[S0|(-> & u & Al)]]; [left; exact S0|right; left|right; left].
  - intros x Hx. apply Ty. left. apply S0. right. exact Hx.
  - intros x Hx. apply Ty. right. apply in_map_iff in Hx. destruct Hx as (e & <- & He). rewrite (Al e) by (right; exact He). symmetry. apply (Al (t, v)). left. reflexivity.
Qed.

(** [stop]: the first [length pre] elements made it *)
Lemma wp_insert_via xs : forall w c g d hint h i l, reach w (c :: g) d -> hint_is c hint h -> located c hint i -> Forall2 gives xs l -> via_safe h c l ->
  wp (insert_via hint xs) (c, w)
    (fun '(c', w') it => exists j, reach w' (c' :: g) d /\ via_did c h i l c' j /\ located c' it j)
    (fun '(c', w') e => exists pre t v post x w1 c1 j, l = pre ++ (t, v) :: post /\ nth_error xs (length pre) = Some x /\
       reach w1 (c1 :: g) d /\ via_did c h i pre c1 j /\ rejected c1 c' w1 w' x (goes (content c1) j t) e).
Proof.
  induction xs as [|x xs IH]; intros w c g d hint h i l H Hi L F Sf.
  - inversion F; subst. cbn [insert_via]. apply wp_ret. exists i. csplit; auto. apply via_did_nil.
  - inversion F as [|? [t v] ? l' Gx F']; subst. unfold wp. rewrite via_cons. apply (wp_bind (via_step hint x) (fun h => insert_via h xs) (c, w)).
    assert (Sf1 : hsafe h c [(t, v)]).
    { destruct Sf as [Q|[Q|(-> & _)]]; [right; right; exact Q|right; left|left; reflexivity]. intros u [<-|[]]. apply Q. left. reflexivity. }
    eapply wp_mono; [apply (wp_via w c g d hint h i x t v H Hi L Gx Sf1)| |].
    + intros [c1 w1] hint1 (R1 & I & L1). destruct (located_hint _ _ _ L1) as (h1 & Hi1).
      assert (Sf2 : via_safe h1 c1 l').
      { eapply (via_safe_step w c g d h h1 c1 t v l'); auto. intros u. rewrite (g_types _ _ _ _ (in_grew _ _ _ _ _ I)). cbn. intuition. }
      eapply wp_mono; [apply (IH w1 c1 g d hint1 h1 _ l' R1 Hi1 L1 F' Sf2)| |].
      * intros [c' w'] it (j & R & D & Lj). exists j. csplit; auto. eapply via_did_cons; eauto.
      * intros [c' w'] e (pre & t' & v' & post & x' & w2 & c2 & j & -> & Nx & R2 & D & Rj).
        exists ((t, v) :: pre), t', v', post, x', w2, c2, j. csplit; auto. eapply via_did_cons; eauto.
    + intros [c1 w1] e R. exists [], t, v, l', x, w, c, i. csplit; auto; [apply via_did_nil|]. rewrite (goes_slot w c g d hint h i t H Hi L). exact R.
Qed.

End Via.
