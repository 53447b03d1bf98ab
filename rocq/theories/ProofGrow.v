(** * How capacities grow *)

From Coq Require Import List Arith Lia Bool Permutation.
From Verif Require Import Base Vec Backend Segment Coll Spec Reach ProofBase ProofVec ProofBackend ProofOps ProofOps2 ProofSeg ProofMap ProofView ProofColl
  ProofIns ProofRange ProofReach ProofObs ProofProp ProofProp2 ProofProp3 ProofProp4 ProofProp5.
Import ListNotations.

Lemma filter_length_le {A} f (l : list A) : length (filter f l) <= length l.
Proof. induction l; simpl; auto. destruct (f a); simpl; lia. Qed.
Lemma filter_nil_iff {A} f (l : list A) : filter f l = [] <-> forall x, In x l -> f x = false.
Proof.
  induction l as [|a l IH]; simpl; [split; auto; contradiction|]. destruct (f a) eqn:Q.
  - split; [discriminate|]. intros H. rewrite H in Q by auto. discriminate.
  - rewrite IH. split; intros H x; [intros [<-|]; auto|auto].
Qed.

Section Grow.
Context {V : Type} {E : Env V}.
Notation CW := (coll V * world)%type.

(** The capacity of a full segment of [n] elements of type [t] after one more was inserted. *)
Definition next_capacity (t : tyid) (n : nat) : nat :=
  match env_layout with
  | PackedLayout => Nat.min (env_vmax t) (Nat.max (S n) (env_grow n))
  | SplitLayout => expand_cap (env_vmax t) n
  end.

Lemma ins_did_cap w c R K w' c' t k v i s s' : wfc w c -> In t (types c) ->
  ins_did w c R K w' c' t k v i s s' -> length (elems c t) = cap_of c t ->
  cap_of c' t = next_capacity t (length (elems c t)).
Proof.
  intros W Ht (Dd & W' & Ws & (Pe & Pst & Pg & Pslf)) Full.
  pose proof (put_seg_at _ _ _ _ _ _ (wc_map _ _ W') (did_put _ _ _ _ _ _ _ _ _ _ Dd) (did_ty _ _ _ _ _ _ _ _ _ _ Dd)) as Sg'.
  pose proof (did_prev _ _ _ _ _ _ _ _ _ _ Dd) as Pv.
  pose proof (prev_cap _ _ _ _ _ (wc_map _ _ W) Pv Ht) as Ec.
  pose proof (prev_size _ _ _ _ _ (wc_map _ _ W) Pv) as Ez.
  unfold cap_of at 1. rewrite Sg'. change (v_cap (be_store (sg_be s'))) with (bcap (sg_be s')).
  rewrite Pg by congruence. unfold grown, next_capacity. rewrite Ez. destruct env_layout; [|reflexivity].
  unfold next_cap. cbn [eo_max vh_eops]. change (v_cap (be_store (sg_be s))) with (bcap (sg_be s)). rewrite <- Ec, <- Full. reflexivity.
Qed.

Lemma spec_emplace_cap w c g d a x v : let t := env_ty a in
  reach w (c :: g) d -> src_c c t HEmplace x v -> In t (types c) -> length (elems c t) = cap_of c t ->
  wp (c_emplace a x) (c, w) (fun '(c', w') it => cap_of c' t = next_capacity t (length (elems c t))) (fun _ _ => True).
Proof.
  intros t H Hs Ht Full. destruct (reach_wf _ _ _ _ H) as (W & O).
  eapply (wp_c_emplace a x v c w _ _); [exact W|exact O|exact Hs| | |]; intros; auto.
  eapply ins_did_cap; eauto.
Qed.
Lemma spec_insert_cap w c g d x v : let t := env_ty (a_dyn x) in
  reach w (c :: g) d -> arg_ok x -> src_c c t (a_how x) (a_src x) v -> In t (types c) -> length (elems c t) = cap_of c t ->
  wp (c_insert x) (c, w) (fun '(c', w') it => cap_of c' t = next_capacity t (length (elems c t))) (fun _ _ => True).
Proof.
  intros t H Ok Hs Ht Full. destruct (reach_wf _ _ _ _ H) as (W & O).
  eapply (wp_c_insert x v c w _ _); [exact W|exact O|exact Ok|exact Hs| | | |]; intros; auto.
  eapply ins_did_cap; eauto.
Qed.

(** expand(): the exact new capacity *)
Lemma expand_exact vm n : 2 <= n -> 3 * n + 1 <= vm -> expand_cap vm n = n + n / 2.
Proof.
  intros H2 Hm. unfold expand_cap. rewrite !Nat.div2_div.
  destruct (Nat.leb_spec n 1); [lia|]. cbn [orb].
  destruct (Nat.ltb_spec ((vm - 1 - n) / 2) n) as [L|L]; auto.
  exfalso. assert (n <= (vm - 1 - n) / 2); [|lia]. apply Nat.div_le_lower_bound; lia.
Qed.
Lemma expand_one vm n : n <= 1 \/ vm < 3 * n + 1 -> expand_cap vm n = n + 1.
Proof.
  intros H. unfold expand_cap. rewrite !Nat.div2_div.
  destruct (Nat.leb_spec n 1); [reflexivity|]. cbn [orb].
  destruct (Nat.ltb_spec ((vm - 1 - n) / 2) n) as [L|L]; auto.
  exfalso. destruct H as [H|H]; [lia|]. pose proof (Nat.mul_div_le (vm - 1 - n) 2 ltac:(lia)). lia.
Qed.
Lemma half3 n : n <= 3 * (n / 2) \/ n <= 1.
Proof.
  destruct (Nat.le_gt_cases n 1); auto. left.
  pose proof (Nat.div_mod n 2 ltac:(lia)). pose proof (Nat.mod_upper_bound n 2 ltac:(lia)).
  assert (1 <= n / 2) by (apply Nat.div_le_lower_bound; lia). lia.
Qed.

Lemma cap_le_max w c g d t : reach w (c :: g) d -> cap_of c t <= env_vmax t.
Proof.
  intros H. destruct (reach_wf w c g d H) as (W & _). unfold cap_of.
  destruct (seg_at c t) as [s|] eqn:Q; [|lia]. destruct (seg_at_in _ _ _ Q) as (n & Hin & Et & Es).
  pose proof (wc_segs _ _ W) as F. unfold segs_ok in F. rewrite Forall_forall in F. specialize (F n Hin).
  subst s. rewrite <- Et. apply (wfv_max _ _ (wfb_store _ _ (wfb_0 _ _ (wfs_be _ F)))).
Qed.

(** How many of the elements of type [t] have another address afterwards. *)
Definition addr_eqb (p q : option ptr) : bool :=
  match p, q with Some p, Some q => ptr_eqb p q | None, None => true | _, _ => false end.
Definition relocated (c c' : coll V) (t : tyid) : nat :=
  length (filter (fun k => negb (addr_eqb (addr_of c' t k) (addr_of c t k))) (seq 0 (length (elems c t)))).

Lemma addr_eqb_refl p : addr_eqb p p = true.
Proof. destruct p as [[b k]|]; auto. simpl. unfold ptr_eqb. rewrite !Nat.eqb_refl. auto. Qed.
Lemma relocated_le c c' t : relocated c c' t <= length (elems c t).
Proof.
  unfold relocated. etransitivity; [apply filter_length_le|]. rewrite seq_length. auto.
Qed.
Lemma relocated_none c c' t : (forall k, k < length (elems c t) -> addr_of c' t k = addr_of c t k) -> relocated c c' t = 0.
Proof.
  intros H. unfold relocated. rewrite (proj2 (filter_nil_iff _ _)); auto.
  intros k Hk. apply in_seq in Hk. rewrite H by lia. rewrite addr_eqb_refl. auto.
Qed.

(** [n] elements of type [t] are emplaced one after the other; [k] is the total number of
    elements relocated. *)
Inductive emplaced (t : tyid) : nat -> nat -> CW -> CW -> Prop :=
| em_none s : emplaced t 0 0 s s
| em_one n k s c w a v c' w' it : emplaced t n k s (c, w) -> env_ty a = t ->
    c_emplace a (SVal v) (c, w) = Ok (c', w') it ->
    emplaced t (S n) (k + relocated c c' t) s (c', w').

End Grow.
