(** * Amortised cost of sequences of insertions and erasures *)

From Coq Require Import List Arith Lia Bool Permutation.
From Verif Require Import Base Vec Backend Segment Coll Spec Reach ProofBase ProofVec ProofBackend ProofOps ProofSeg ProofMap ProofView ProofColl
  ProofRange ProofReach ProofObs ProofProp ProofProp2 ProofProp3 ProofProp4 ProofProp5 ProofGrow ProofIns ProofCost ProofCost2 ProofCost3 ProofCost4 ProofCost5
  Demo Properties16.
Import ListNotations.

Section Cost6.
Context {V : Type} {E : Env V}.
Notation CW := (coll V * world)%type.

(** The potential of a segment: nothing as long as it has a quarter of its capacity free, enough
    to pay for relocating it when it is full. *)
Definition debt_of (c : coll V) (t : tyid) : nat := 9 * (4 * length (elems c t) - 3 * cap_of c t).
Definition debt (c : coll V) : nat := list_sum (map (debt_of c) (types c)).

Lemma debt_le w c g d : reach w (c :: g) d -> debt c <= 9 * length (flat c).
Proof.
  intros H. rewrite (flat_len c (types_nodup w c g d H)). unfold debt. induction (types c) as [|t l IH]; auto. cbn [map].
  change (list_sum (?x :: ?l)) with (x + list_sum l). pose proof (size_le_cap w c g d t H). unfold debt_of at 1. lia.
Qed.
Lemma sum_at (f g : tyid -> nat) t l : NoDup l -> In t l -> (forall u, u <> t -> f u = g u) -> list_sum (map f l) + g t = list_sum (map g l) + f t.
Proof.
  intros N I Q. induction l as [|u l IH]; [destruct I|]. inversion N as [|? ? N1 N2]; subst. cbn [map]. change (list_sum (?x :: ?l)) with (x + list_sum l).
  destruct I as [->|I].
  - assert (map f l = map g l) as ->; [|lia]. apply map_ext_in. intros u Hu. apply Q. congruence.
  - rewrite (Q u) by congruence. specialize (IH N2 I). lia.
Qed.
Lemma debt_cut (c c' : coll V) : types c' = types c -> (forall t, In t (types c) -> cap_of c' t = cap_of c t) ->
  (forall t, length (elems c' t) <= length (elems c t)) -> debt c' <= debt c.
Proof.
  intros T C L. unfold debt. rewrite T. assert (C' : forall t, In t (types c) -> debt_of c' t <= debt_of c t).
  { intros t Ht. unfold debt_of. rewrite (C t Ht). specialize (L t). lia. }
  clear T C L. induction (types c) as [|t l IH]; auto. cbn [map]. change (list_sum (?x :: ?l)) with (x + list_sum l).
  pose proof (C' t (or_introl eq_refl)). assert (list_sum (map (debt_of c') l) <= list_sum (map (debt_of c) l)) by (apply IH; intros; apply C'; right; auto). lia.
Qed.

(** far from the largest size, where the segments of any_collection grow by one element only *)
Definition far (c : coll V) (t : tyid) : Prop := 3 * length (elems c t) + 1 <= env_vmax t.

Lemma next_cap_third c g d w t : reach w (c :: g) d -> (env_layout = PackedLayout -> forall m, 4 * m <= 3 * env_grow m) -> far c t ->
  4 * length (elems c t) <= 3 * next_capacity t (length (elems c t)).
Proof.
  intros H L F. unfold far in F. unfold next_capacity. set (m := length (elems c t)) in *. destruct env_layout eqn:Lay.
  - specialize (L eq_refl m). lia.
  - destruct (Nat.le_gt_cases m 1) as [C|C].
    + rewrite expand_one by auto. lia.
    + rewrite expand_exact by lia. destruct (half3 m); lia.
Qed.

Lemma insertion_pays w c g d w' c' t k v dist : reach w (c :: g) d -> reach w' (c' :: g) d ->
  (env_layout = PackedLayout -> forall m, 4 * m <= 3 * env_grow m) -> far c t -> k <= length (elems c t) ->
  inserted c c' t k v -> (In t (types c) -> length (elems c t) = cap_of c t -> cap_of c' t = next_capacity t (length (elems c t))) ->
  w_work w' <= w_work w + insertion c t dist -> w_work w' + debt c' <= w_work w + debt c + 65 + dist.
Proof.
  intros H H' G F Hk I Gr Wk. pose proof (in_grew _ _ _ _ _ I) as Gw. unfold insertion in Wk.
  assert (El : length (elems c' t) = S (length (elems c t))).
  { rewrite (g_elems _ _ _ _ Gw). unfold slot, of_type. rewrite Nat.eqb_refl. cbn [filter fst]. rewrite Nat.eqb_refl. cbn [map].
    rewrite !app_length, firstn_length, skipn_length. cbn [length]. lia. }
  pose proof (size_le_cap w c g d t H) as Sc. pose proof (size_le_cap w' c' g d t H') as Sc'.
  assert (Oth : forall u, u <> t -> debt_of c' u = debt_of c u).
  { intros u Ne. assert (Q : seg_at c' u = seg_at c u) by (apply (g_other _ _ _ _ Gw); cbn; intuition). unfold debt_of. rewrite !elems_seg_at. unfold cap_of. rewrite Q. reflexivity. }
  destruct (in_dec Nat.eq_dec t (types c)) as [Ht|Ht].
  - assert (T : types c' = types c) by (apply (g_order _ _ _ _ Gw); intros u [<-|[]]; exact Ht).
    pose proof (sum_at (debt_of c') (debt_of c) t (types c) (types_nodup w c g d H) Ht Oth) as S. unfold debt. rewrite T.
    enough (w_work w' + debt_of c' t <= w_work w + debt_of c t + 65 + dist) by lia. unfold debt_of. rewrite El.
    destruct (Nat.eq_dec (length (elems c t)) (cap_of c t)) as [Full|Room].
    + rewrite (Gr Ht Full). pose proof (next_cap_third c g d w t H G F) as N. destruct (_ <? _) eqn:Lt in Wk; [apply Nat.ltb_lt in Lt; lia|lia].
    + rewrite (g_cap _ _ _ _ Gw t Ht) by lia. rewrite (proj2 (Nat.ltb_lt _ _)) in Wk by lia. lia.
  - assert (Z : elems c t = []) by (apply elems_none; rewrite <- types_nodes; exact Ht).
    assert (P : Permutation (types c') (t :: types c)).
    { apply NoDup_Permutation; [exact (types_nodup w' c' g d H')|constructor; [exact Ht|exact (types_nodup w c g d H)]|].
      intros u. rewrite (g_types _ _ _ _ Gw u). cbn. intuition. }
    unfold debt. rewrite (list_sum_perm _ _ (Permutation_map (debt_of c') P)). cbn [map]. change (list_sum (?x :: ?l)) with (x + list_sum l).
    assert (map (debt_of c') (types c) = map (debt_of c) (types c)) as -> by (apply map_ext_in; intros u Hu; apply Oth; intros ->; tauto).
    unfold debt_of at 1. rewrite El, Z in *. cbn [length] in *. destruct (_ <? _) in Wk; lia.
Qed.

Lemma spec_emplace_hint_cap w c g d hint i k a x v : let t := env_ty a in
  reach w (c :: g) d -> located c hint i -> hint_at c hint t k -> hint_safe c hint t -> src_c c t HEmplace x v -> In t (types c) -> length (elems c t) = cap_of c t ->
  wp (c_emplace_hint hint a x) (c, w) (fun '(c', w') it => cap_of c' t = next_capacity t (length (elems c t))) (fun _ _ => True).
Proof.
  intros t H Hl Ha Hh Hs Ht Full. destruct (reach_wf _ _ _ _ H) as (W & O).
  eapply (wp_c_emplace_hint hint i k a x v c w _ _); [exact W|exact O|exact Hl|exact Ha|exact Hh|exact Hs| | |]; intros; auto. eapply ins_did_cap; eauto.
Qed.
Lemma spec_insert_hint_cap w c g d hint i k x v : let t := env_ty (a_dyn x) in
  reach w (c :: g) d -> located c hint i -> hint_at c hint t k -> hint_safe c hint t -> arg_ok x -> src_c c t (a_how x) (a_src x) v -> In t (types c) ->
  length (elems c t) = cap_of c t ->
  wp (c_insert_hint hint x) (c, w) (fun '(c', w') it => cap_of c' t = next_capacity t (length (elems c t))) (fun _ _ => True).
Proof.
  intros t H Hl Ha Hh Ok Hs Ht Full. destruct (reach_wf _ _ _ _ H) as (W & O).
  eapply (wp_c_insert_hint hint i k x v c w _ _); [exact W|exact O|exact Hl|exact Ha|exact Hh|exact Ok|exact Hs| | | |]; intros; auto. eapply ins_did_cap; eauto.
Qed.
Lemma spec_emplace_pos_cap w c g d pos k a x v : let t := env_ty a in
  reach w (c :: g) d -> lpoints c pos t k -> src_c c t HEmplace x v -> In t (types c) -> length (elems c t) = cap_of c t ->
  wp (c_emplace_pos pos a x) (c, w) (fun '(c', w') it => cap_of c' t = next_capacity t (length (elems c t))) (fun _ _ => True).
Proof.
  intros t H Hl Hs Ht Full. destruct (reach_wf _ _ _ _ H) as (W & O).
  eapply (wp_c_emplace_pos pos k a x v c w _ _); [exact W|exact O|exact Hl|exact Hs| |]; intros; auto. eapply ins_did_cap; eauto.
Qed.
Lemma spec_insert_pos_cap w c g d pos k x v : let t := env_ty (a_dyn x) in
  reach w (c :: g) d -> lpoints c pos t k -> src_c c t (a_how x) (a_src x) v -> In t (types c) -> length (elems c t) = cap_of c t ->
  wp (c_insert_pos pos x) (c, w) (fun '(c', w') it => cap_of c' t = next_capacity t (length (elems c t))) (fun _ _ => True).
Proof.
  intros t H Hl Hs Ht Full. destruct (reach_wf _ _ _ _ H) as (W & O).
  eapply (wp_c_insert_pos pos k x v c w _ _); [exact W|exact O|exact Hl|exact Hs| |]; intros; auto. eapply ins_did_cap; eauto.
Qed.

(** Calls of insertion and erasure with the part of their cost that is not constant: the
    distance to the end of the segment and the elements erased. *)
Inductive priced (c : coll V) : M CW unit -> nat -> Prop :=
| pr_emplace a x v : src_c c (env_ty a) HEmplace x v -> far c (env_ty a) -> priced c (void (c_emplace a x)) 0
| pr_emplace_hint hint i k a x v : located c hint i -> hint_at c hint (env_ty a) k -> hint_safe c hint (env_ty a) -> src_c c (env_ty a) HEmplace x v ->
    far c (env_ty a) -> priced c (void (c_emplace_hint hint a x)) (length (elems c (env_ty a)) - k)
| pr_emplace_pos pos k a x v : lpoints c pos (env_ty a) k -> src_c c (env_ty a) HEmplace x v ->
    far c (env_ty a) -> priced c (void (c_emplace_pos pos a x)) (length (elems c (env_ty a)) - k)
| pr_insert x v : arg_ok x -> src_c c (env_ty (a_dyn x)) (a_how x) (a_src x) v -> far c (env_ty (a_dyn x)) -> priced c (void (c_insert x)) 0
| pr_insert_hint hint i k x v : located c hint i -> hint_at c hint (env_ty (a_dyn x)) k -> hint_safe c hint (env_ty (a_dyn x)) ->
    arg_ok x -> src_c c (env_ty (a_dyn x)) (a_how x) (a_src x) v ->
    far c (env_ty (a_dyn x)) -> priced c (void (c_insert_hint hint x)) (length (elems c (env_ty (a_dyn x))) - k)
| pr_insert_pos pos k x v : lpoints c pos (env_ty (a_dyn x)) k -> src_c c (env_ty (a_dyn x)) (a_how x) (a_src x) v ->
    far c (env_ty (a_dyn x)) -> priced c (void (c_insert_pos pos x)) (length (elems c (env_ty (a_dyn x))) - k)
| pr_erase pos t k : points c pos t k -> priced c (void (c_erase pos)) (length (elems c t) - k)
| pr_erase_local pos t k : lpoints c pos t k -> k < length (elems c t) -> priced c (void (c_erase_local pos)) (length (elems c t) - k)
| pr_erase_range first last i j n : located c first i -> located c last j -> i <= j -> to_segment_end c last n ->
    priced c (void (c_erase_range first last)) (2 * (j - i) + n)
| pr_erase_local_range first last t f l : lpoints c first t f -> lpoints c last t l -> f <= l ->
    priced c (void (c_erase_local_range first last)) (2 * (l - f) + (length (elems c t) - l))
| pr_clear : priced c c_clear (2 * length (flat c)).

(** [n] such calls, with [k] as the sum of the parts which are not constant *)
Inductive paid : nat -> nat -> CW -> CW -> Prop :=
| paid_none s : paid 0 0 s s
| paid_one n k s c w m p c' w' : paid n k s (c, w) -> priced c m p -> m (c, w) = Ok (c', w') tt -> paid (S n) (k + p) s (c', w').

Lemma void_ok {A} (m : M CW A) s s' : void m s = Ok s' tt -> exists a, m s = Ok s' a.
Proof. unfold void, bind. destruct (m s) as [s1 a| |]; intros Q; inversion Q; eauto. Qed.
Lemma removed_le {A} i j (l : list A) : length (remove_range i j l) <= length l \/ j < i.
Proof. unfold remove_range. rewrite app_length, firstn_length, skipn_length. lia. Qed.
Lemma debt_of_cut (c c' : coll V) i j : cut c c' i j -> i <= j -> debt c' <= debt c.
Proof.
  intros Cu Hij. apply debt_cut; [apply Cu|intros t _; apply Cu|]. intros t. rewrite (cut_elems _ _ _ _ Cu).
  destruct (removed_le (i - offset (content c) t) (j - offset (content c) t) (elems c t)); auto. lia.
Qed.

Lemma priced_pays w c g d m p w' c' : reach w (c :: g) d -> (env_layout = PackedLayout -> forall m, 4 * m <= 3 * env_grow m) ->
  priced c m p -> m (c, w) = Ok (c', w') tt -> reach w' (c' :: g) d /\ w_work w' + debt c' <= w_work w + debt c + 65 + p.
Proof.
  intros H G Pr Q. assert (W := proj1 (reach_wf _ _ _ _ H)). destruct Pr as
    [a x v Hs F|hint i k a x v L Ha Hh Hs F|pos k a x v L Hs F|x v Ok Hs F|hint i k x v L Ha Hh Ok Hs F|pos k x v L Hs F|pos t k P|pos t k P Hk|first last i j n L L' Hij Bd|first last t f l P P' Hfl|].
  - assert (R : reach w' (c' :: g) d) by (eapply r_call; [exact H|eapply (api_emplace g c); exact Hs|exact Q]). split; auto.
    apply void_ok in Q. destruct Q as (it & Q). pose proof (wp_ok _ _ _ _ _ _ (spec_emplace w c g d a x v H Hs) Q) as (I & _).
    apply (insertion_pays w c g d w' c' (env_ty a) (length (elems c (env_ty a))) v 0); auto; [|exact (wp_ok _ _ _ _ _ _ (C64_emplace w c g d a x v H Hs) Q)].
    intros Ht Full. exact (wp_ok _ _ _ _ _ _ (spec_emplace_cap w c g d a x v H Hs Ht Full) Q).
  - assert (R : reach w' (c' :: g) d) by (eapply r_call; [exact H|eapply (api_emplace_hint g c); eauto|exact Q]). split; auto.
    pose proof (hint_at_le _ _ _ _ _ (wc_map _ _ W) Ha) as Hk.
    apply void_ok in Q. destruct Q as (it & Q). pose proof (wp_ok _ _ _ _ _ _ (spec_emplace_hint w c g d hint i k a x v H L Ha Hh Hs) Q) as (I & _).
    apply (insertion_pays w c g d w' c' (env_ty a) k v (length (elems c (env_ty a)) - k)); auto; [|exact (wp_ok _ _ _ _ _ _ (C64_emplace_hint w c g d hint i k a x v H L Ha Hh Hs) Q)].
    intros Ht Full. exact (wp_ok _ _ _ _ _ _ (spec_emplace_hint_cap w c g d hint i k a x v H L Ha Hh Hs Ht Full) Q).
  - assert (R : reach w' (c' :: g) d) by (eapply r_call; [exact H|eapply (api_emplace_pos g c); eauto|exact Q]). split; auto.
    pose proof (lpoints_le _ _ _ _ _ _ _ H L) as Hk.
    apply void_ok in Q. destruct Q as (it & Q). pose proof (wp_ok _ _ _ _ _ _ (spec_emplace_pos w c g d pos k a x v H L Hs) Q) as (I & _).
    apply (insertion_pays w c g d w' c' (env_ty a) k v (length (elems c (env_ty a)) - k)); auto; [|exact (wp_ok _ _ _ _ _ _ (C64_emplace_pos w c g d pos k a x v H L Hs) Q)].
    intros Ht Full. exact (wp_ok _ _ _ _ _ _ (spec_emplace_pos_cap w c g d pos k a x v H L Hs Ht Full) Q).
  - assert (R : reach w' (c' :: g) d) by (eapply r_call; [exact H|eapply (api_insert g c); eauto|exact Q]). split; auto.
    apply void_ok in Q. destruct Q as (it & Q). pose proof (wp_ok _ _ _ _ _ _ (spec_insert w c g d x v H Ok Hs) Q) as (_ & I & _).
    apply (insertion_pays w c g d w' c' (env_ty (a_dyn x)) (length (elems c (env_ty (a_dyn x)))) v 0); auto; [|exact (wp_ok _ _ _ _ _ _ (C64_insert w c g d x v H Ok Hs) Q)].
    intros Ht Full. exact (wp_ok _ _ _ _ _ _ (spec_insert_cap w c g d x v H Ok Hs Ht Full) Q).
  - assert (R : reach w' (c' :: g) d) by (eapply r_call; [exact H|eapply (api_insert_hint g c); eauto|exact Q]). split; auto.
    pose proof (hint_at_le _ _ _ _ _ (wc_map _ _ W) Ha) as Hk.
    apply void_ok in Q. destruct Q as (it & Q). pose proof (wp_ok _ _ _ _ _ _ (spec_insert_hint w c g d hint i k x v H L Ha Hh Ok Hs) Q) as (_ & I & _).
    apply (insertion_pays w c g d w' c' (env_ty (a_dyn x)) k v (length (elems c (env_ty (a_dyn x))) - k)); auto; [|exact (wp_ok _ _ _ _ _ _ (C64_insert_hint w c g d hint i k x v H L Ha Hh Ok Hs) Q)].
    intros Ht Full. exact (wp_ok _ _ _ _ _ _ (spec_insert_hint_cap w c g d hint i k x v H L Ha Hh Ok Hs Ht Full) Q).
  - assert (R : reach w' (c' :: g) d) by (eapply r_call; [exact H|eapply (api_insert_pos g c); eauto|exact Q]). split; auto.
    pose proof (lpoints_le _ _ _ _ _ _ _ H L) as Hk.
    apply void_ok in Q. destruct Q as (it & Q). pose proof (wp_ok _ _ _ _ _ _ (spec_insert_pos w c g d pos k x v H L Hs) Q) as (I & _).
    apply (insertion_pays w c g d w' c' (env_ty (a_dyn x)) k v (length (elems c (env_ty (a_dyn x))) - k)); auto; [|exact (wp_ok _ _ _ _ _ _ (C64_insert_pos w c g d pos k x v H L Hs) Q)].
    intros Ht Full. exact (wp_ok _ _ _ _ _ _ (spec_insert_pos_cap w c g d pos k x v H L Hs Ht Full) Q).
  - assert (R : reach w' (c' :: g) d) by (eapply r_call; [exact H|eapply (api_erase g c); eauto|exact Q]). split; auto.
    apply void_ok in Q. destruct Q as (it & Q). pose proof (wp_ok _ _ _ _ _ _ (spec_erase w c g d pos t k H P) Q) as (Cu & _).
    pose proof (debt_of_cut _ _ _ _ Cu ltac:(lia)). pose proof (wp_ok _ _ _ _ _ _ (C64_erase w c g d pos t k H P) Q) as Wk. cbn beta iota in Wk. lia.
  - assert (R : reach w' (c' :: g) d) by (eapply r_call; [exact H|eapply (api_erase_local g c); eauto|exact Q]). split; auto.
    apply void_ok in Q. destruct Q as (it & Q). pose proof (wp_ok _ _ _ _ _ _ (spec_erase_local w c g d pos t k H P Hk) Q) as (Cu & _).
    pose proof (debt_of_cut _ _ _ _ Cu ltac:(lia)). pose proof (wp_ok _ _ _ _ _ _ (C64_erase_local w c g d pos t k H P Hk) Q) as Wk. cbn beta iota in Wk. lia.
  - assert (R : reach w' (c' :: g) d) by (eapply r_call; [exact H|eapply (api_erase_range g c first last i j); eauto|exact Q]). split; auto.
    apply void_ok in Q. destruct Q as (it & Q). pose proof (wp_ok _ _ _ _ _ _ (spec_erase_range w c g d first last i j H L L' Hij) Q) as (Cu & _).
    pose proof (debt_of_cut _ _ _ _ Cu Hij). pose proof (wp_ok _ _ _ _ _ _ (C64_erase_range w c g d first last i j n H L L' Hij Bd) Q) as Wk. cbn beta iota in Wk. lia.
  - assert (R : reach w' (c' :: g) d) by (eapply r_call; [exact H|eapply (api_erase_local_range g c first last t f l); eauto|exact Q]). split; auto.
    apply void_ok in Q. destruct Q as (it & Q). pose proof (wp_ok _ _ _ _ _ _ (spec_erase_local_range w c g d first last t f l H P P' Hfl) Q) as (Cu & _).
    pose proof (debt_of_cut _ _ _ _ Cu ltac:(lia)). pose proof (wp_ok _ _ _ _ _ _ (C64_erase_local_range w c g d first last t f l H P P' Hfl) Q) as Wk. cbn beta iota in Wk. lia.
  - assert (R : reach w' (c' :: g) d) by (eapply r_call; [exact H|eapply (api_clear g c); eauto|exact Q]). split; auto.
    pose proof (wp_ok _ _ _ _ _ _ (spec_clear w c g d H) Q) as Wi. pose proof (wp_ok _ _ _ _ _ _ (C64_clear w c g d H) Q) as Wk. cbn beta iota in Wi, Wk.
    assert (debt c' <= debt c).
    { apply debt_cut; [apply Wi|intros t _; apply Wi|]. intros t. rewrite (wi_elems _ _ _ Wi t I). cbn. lia. }
    rewrite c_size_flat in Wk. lia.
Qed.

Lemma paid_pays w c g d n k s' : reach w (c :: g) d -> (env_layout = PackedLayout -> forall m, 4 * m <= 3 * env_grow m) -> paid n k (c, w) s' ->
  reach (snd s') (fst s' :: g) d /\ w_work (snd s') + debt (fst s') <= w_work w + debt c + 65 * n + k.
Proof.
  intros H G P. remember (c, w) as s eqn:Es. induction P as [s|n k s c1 w1 m p c2 w2 P IH Pr Q].
  - subst s. cbn [fst snd]. split; auto. lia.
  - destruct (IH Es) as (R & B). cbn [fst snd] in *. destruct (priced_pays w1 c1 g d m p w2 c2 R G Pr Q) as (R2 & B2). split; auto. lia.
Qed.

Lemma insertion_debt w c g d t : reach w (c :: g) d -> insertion c t 0 <= debt c + 29.
Proof.
  intros H. unfold insertion. destruct (_ <? _) eqn:Lt; [lia|]. apply Nat.ltb_ge in Lt. pose proof (size_le_cap w c g d t H).
  destruct (in_dec Nat.eq_dec t (types c)) as [Ht|Ht].
  - enough (debt_of c t <= debt c) by (unfold debt_of in *; lia). unfold debt. clear - Ht. induction (types c) as [|u l IH]; [destruct Ht|].
    cbn [map]. change (list_sum (?x :: ?l)) with (x + list_sum l). destruct Ht as [->|Ht]; [lia|]. specialize (IH Ht). lia.
  - rewrite (elems_none c t) by (rewrite <- types_nodes; exact Ht). cbn [length]. lia.
Qed.

Lemma range_pays xs : (env_layout = PackedLayout -> forall m, 4 * m <= 3 * env_grow m) -> forall w c g d l, reach w (c :: g) d -> Forall2 gives xs l ->
  (forall t, In t (map fst l) -> 3 * (length (elems c t) + length l) + 1 <= env_vmax t) ->
  wp (c_insert_range xs) (c, w) (fun '(c', w') _ => w_work w' + debt c' <= w_work w + debt c + 65 * length xs)
    (fun '(c', w') _ => w_work w' <= w_work w + debt c + 65 * length xs).
Proof.
  intros G. induction xs as [|x xs IH]; intros w c g d l H F Mx.
  - cbn. lia.
  - inversion F as [|? [t v] ? l' Gx F']; subst. destruct Gx as (Et & Hs & Ax). cbn [fst snd map length] in *.
    assert (Hs' : src_c c (env_ty (a_dyn x)) (a_how x) (a_src x) v) by (left; exact Hs).
    cbn [c_insert_range]. apply wp_bind. pose proof (C64_insert w c g d x v H Ax Hs') as Wk. pose proof (spec_insert w c g d x v H Ax Hs') as Sp. unfold within in Wk.
    pose proof (insertion_debt w c g d (env_ty (a_dyn x)) H) as Ib.
    unfold wp in Wk, Sp |- *. destruct (c_insert x (c, w)) as [[c1 w1] it|[c1 w1] e|] eqn:Q; [|lia|contradiction].
    assert (Qv : void (c_insert x) (c, w) = Ok (c1, w1) tt) by (unfold void, bind; rewrite Q; reflexivity).
    assert (Pr : priced c (void (c_insert x)) 0).
    { apply (pr_insert c x v Ax Hs'). unfold far. specialize (Mx t (or_introl eq_refl)). rewrite Et in *. cbn [length] in Mx. lia. }
    destruct (priced_pays w c g d _ _ w1 c1 H G Pr Qv) as (R & B).
    destruct Sp as (_ & I & _). pose proof (in_grew _ _ _ _ _ I) as Gw.
    assert (Mx' : forall u, In u (map fst l') -> 3 * (length (elems c1 u) + length l') + 1 <= env_vmax u).
    { intros u Hu. specialize (Mx u (or_intror Hu)). assert (length (elems c1 u) <= S (length (elems c u))); [|lia].
      rewrite (g_elems _ _ _ _ Gw). unfold of_type. cbn [filter fst]. rewrite !app_length, firstn_length, skipn_length.
      destruct (_ =? _); cbn [map length]; lia. }
    specialize (IH w1 c1 g d l' R F' Mx'). unfold wp in IH. destruct (c_insert_range xs (c1, w1)) as [[c2 w2] []|[c2 w2] e|]; auto; lia.
Qed.
End Cost6.
