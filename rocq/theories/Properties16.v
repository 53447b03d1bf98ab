(** * Documented complexity (C64)

    See the head of Properties1.v for the form of the statements.  [w_work w] counts the
    constructions, assignments and destructions of elements and of index entries performed so
    far: the operations the complexity clauses of the reference are about.  The theorems bound
    what a call adds to it, whether it returns or throws. *)

From Coq Require Import List Arith Lia Bool Permutation.
From Verif Require Import Base Vec Backend Segment Coll Spec Reach ProofBase ProofVec ProofBackend ProofOps ProofSeg ProofMap ProofView ProofColl
  ProofRange ProofReach ProofObs ProofProp ProofProp2 ProofProp3 ProofProp4 ProofProp5 ProofGrow ProofIns ProofCost ProofCost2 ProofCost3 ProofCost4 Demo Properties5.
Import ListNotations.

(** ** What may be spent *)
Section Bounds.
Context {V : Type} {E : Env V}.

(** The call performs at most [k] operations on elements. *)
Definition within {A} (m : M (coll V * world) A) (c : coll V) (w : world) (k : nat) : Prop :=
  wp m (c, w) (fun '(c', w') _ => w_work w' <= w_work w + k) (fun '(c', w') _ => w_work w' <= w_work w + k).
(** [dist] elements are behind the position of insertion in the segment of [t]: a constant plus
    the distance to the end of the segment if the segment has room, linear in its size if not. *)
Definition insertion (c : coll V) (t : tyid) (dist : nat) : nat :=
  if length (elems c t) <? cap_of c t then dist + 20 else 9 * length (elems c t) + 29.
(** reserve(n) and shrink_to_fit() for the segment of [t] *)
Definition reservation (c : coll V) (n : nat) (t : tyid) : nat :=
  if n <=? cap_of c t then 16 else 8 * length (elems c t) + 20.
Definition shrinking (c : coll V) (t : tyid) : nat := 7 * length (elems c t) + 12.
(** the distance of an iterator to the end of its segment *)
Definition to_segment_end (c : coll V) (it : iter) (d : nat) : Prop :=
  (it = c_end c /\ d = 0) \/ exists t k, points c it t k /\ d = length (elems c t) - k.

Lemma cost_within {A} (m : M (coll V * world) A) c w k Q X : wp m (c, w) Q X -> xcost m (c, w) k -> within m c w k.
Proof. unfold within, wp, cost. destruct (m (c, w)) as [[c' w'] a|[c' w'] e|]; auto. Qed.
Lemma within_mono {A} (m : M (coll V * world) A) c w k k' : within m c w k -> k <= k' -> within m c w k'.
Proof. unfold within. intros H L. eapply wp_mono; [exact H| |]; intros [c' w'] ?; lia. Qed.
Lemma insertion_work (c : coll V) t k : 11 + insert_work c t k <= insertion c t (length (elems c t) - k).
Proof. unfold insert_work, insertion. destruct (_ <? _); lia. Qed.
Lemma pays_within {A} (m : M (coll V * world) A) c w k Q X : wp m (c, w) Q X -> xpays (fun c => 2 * c_size c) m (c, w) k ->
  wp m (c, w) (fun '(c', w') a => Q (c', w') a /\ w_work w' + 2 * length (flat c') <= w_work w + 2 * length (flat c) + k)
    (fun '(c', w') e => X (c', w') e /\ w_work w' + 2 * length (flat c') <= w_work w + 2 * length (flat c) + k).
Proof.
  unfold wp, pays. intros H P. destruct (m (c, w)) as [[c' w'] a|[c' w'] e|]; auto; cbn [fst snd] in P; rewrite !c_size_flat in P; split; auto.
Qed.
End Bounds.

(** ** Insertion *)
Theorem C64_emplace {V} {E : Env V} w c g d a x v : reach w (c :: g) d -> src_c c (env_ty a) HEmplace x v ->
  within (c_emplace a x) c w (insertion c (env_ty a) 0).
Proof.
  intros H Hs. destruct (reach_wf _ _ _ _ H) as (W & O). eapply within_mono; [eapply cost_within; [exact (spec_emplace w c g d a x v H Hs)|eapply cost_c_emplace; [exact W|exact O]]|].
  eapply Nat.le_trans; [apply insertion_work|]. rewrite Nat.sub_diag. lia.
Qed.
(** with room (type 1 after reserving), without (type 1), for an unregistered type *)
Example C64_emplace_ex lay : let E := dE lay in
  reach (dw lay) [dc lay; dx lay] [] /\ reach (snd (dr lay)) [fst (dr lay); dx lay] [] /\
  insertion (dc lay) (env_ty 20) 0 = match lay with PackedLayout => 47 | SplitLayout => 47 end /\
  insertion (fst (dr lay)) (env_ty 10) 0 = 20 /\ insertion (dc lay) (env_ty 50) 0 = 29 /\
  (match c_emplace 10 (SVal 4) (dr lay) with Ok s' _ => w_work (snd s') - w_work (snd (dr lay)) | _ => 0 end) =
    match lay with PackedLayout => 1 | SplitLayout => 2 end.
Proof. cbv zeta. csplit; [demo_fact lay|exact (dr_reach lay)|demo_fact lay..]. Qed.

Theorem C64_insert {V} {E : Env V} w c g d x v : reach w (c :: g) d -> arg_ok x -> src_c c (env_ty (a_dyn x)) (a_how x) (a_src x) v ->
  within (c_insert x) c w (insertion c (env_ty (a_dyn x)) 0).
Proof.
  intros H Ok Hs. destruct (reach_wf _ _ _ _ H) as (W & O).
  eapply within_mono; [eapply cost_within; [exact (spec_insert w c g d x v H Ok Hs)|eapply cost_c_insert; [exact W|exact O|exact Ok]]|].
  eapply Nat.le_trans; [apply insertion_work|]. rewrite Nat.sub_diag. lia.
Qed.
Example C64_insert_ex lay : let E := dE lay in let x := mkarg 20 20 true false HCopy (SVal 3) in
  reach (dw lay) [dc lay; dx lay] [] /\ arg_ok x /\ src_c (dc lay) (env_ty (a_dyn x)) (a_how x) (a_src x) 3.
Proof. cbv zeta. csplit; [demo_fact lay|intros Q; discriminate|left; reflexivity]. Qed.

Theorem C64_emplace_hint {V} {E : Env V} w c g d hint i k a x v : let t := env_ty a in
  reach w (c :: g) d -> located c hint i -> hint_at c hint t k -> hint_safe c hint t -> src_c c t HEmplace x v ->
  within (c_emplace_hint hint a x) c w (insertion c t (length (elems c t) - k)).
Proof.
  intros t H L Ha Hh Hs. destruct (reach_wf _ _ _ _ H) as (W & O). pose proof (hint_at_le _ _ _ _ _ (wc_map _ _ W) Ha) as Hk.
  eapply within_mono; [eapply cost_within; [exact (spec_emplace_hint w c g d hint i k a x v H L Ha Hh Hs)|
    eapply cost_c_emplace_hint; [exact W|exact O|exact L|exact Ha|exact Hh|exact Hk]]|]. apply insertion_work.
Qed.
Example C64_emplace_hint_ex lay : let E := dE lay in
  let it := it_at (fst (dr lay)) 1 1 in
  reach (snd (dr lay)) [fst (dr lay); dx lay] [] /\ located (fst (dr lay)) it 1 /\ hint_at (fst (dr lay)) it 1 1 /\
  hint_safe (fst (dr lay)) it 1 /\ src_c (fst (dr lay)) 1 HEmplace (SVal 4) 4 /\ insertion (fst (dr lay)) 1 2 = 22.
Proof.
  cbv zeta. csplit; [exact (dr_reach lay)|demo_fact lay|left; demo_fact lay|right; left; demo_fact lay|left; reflexivity|demo_fact lay].
Qed.

Theorem C64_insert_hint {V} {E : Env V} w c g d hint i k x v : let t := env_ty (a_dyn x) in
  reach w (c :: g) d -> located c hint i -> hint_at c hint t k -> hint_safe c hint t -> arg_ok x -> src_c c t (a_how x) (a_src x) v ->
  within (c_insert_hint hint x) c w (insertion c t (length (elems c t) - k)).
Proof.
  intros t H L Ha Hh Ok Hs. destruct (reach_wf _ _ _ _ H) as (W & O). pose proof (hint_at_le _ _ _ _ _ (wc_map _ _ W) Ha) as Hk.
  eapply within_mono; [eapply cost_within; [exact (spec_insert_hint w c g d hint i k x v H L Ha Hh Ok Hs)|
    eapply cost_c_insert_hint; [exact W|exact O|exact Ok|exact L|exact Ha|exact Hh|exact Hk]]|]. apply insertion_work.
Qed.
Example C64_insert_hint_ex lay : let E := dE lay in
  let it := it_at (dc lay) 1 1 in let x := mkarg 10 10 true false HCopy (SVal 3) in
  reach (dw lay) [dc lay; dx lay] [] /\ located (dc lay) it 1 /\ hint_at (dc lay) it 1 1 /\
  hint_safe (dc lay) it 1 /\ arg_ok x /\ src_c (dc lay) 1 HCopy (SVal 3) 3.
Proof. cbv zeta. csplit; [demo_fact lay|demo_fact lay|left; demo_fact lay|right; left; demo_fact lay|intros Q; discriminate|left; reflexivity]. Qed.

Theorem C64_emplace_pos {V} {E : Env V} w c g d pos k a x v : let t := env_ty a in
  reach w (c :: g) d -> lpoints c pos t k -> src_c c t HEmplace x v ->
  within (c_emplace_pos pos a x) c w (insertion c t (length (elems c t) - k)).
Proof.
  intros t H L Hs. destruct (reach_wf _ _ _ _ H) as (W & O).
  eapply within_mono; [eapply cost_within; [exact (spec_emplace_pos w c g d pos k a x v H L Hs)|apply (cost_c_emplace_pos pos k); [exact W|exact L]]|].
  pose proof (insertion_work c t k). fold t. lia.
Qed.
Example C64_emplace_pos_ex lay : let E := dE lay in
  reach (dw lay) [dc lay; dx lay] [] /\ lpoints (dc lay) (li_base (dc lay) 2 1) (env_ty 20) 1 /\
  lpoints (dc lay) (li_conc (dc lay) 2 2) (env_ty 20) 2 /\ src_c (dc lay) (env_ty 20) HEmplace (SVal 3) 3.
Proof. cbv zeta. change (env_ty (Env := dE lay) 20) with 2. csplit; [demo_fact lay..|left; reflexivity]. Qed.

Theorem C64_insert_pos {V} {E : Env V} w c g d pos k x v : let t := env_ty (a_dyn x) in
  reach w (c :: g) d -> lpoints c pos t k -> src_c c t (a_how x) (a_src x) v ->
  within (c_insert_pos pos x) c w (insertion c t (length (elems c t) - k)).
Proof.
  intros t H L Hs. destruct (reach_wf _ _ _ _ H) as (W & O).
  eapply within_mono; [eapply cost_within; [exact (spec_insert_pos w c g d pos k x v H L Hs)|apply (cost_c_insert_pos pos k); [exact W|exact L]]|].
  pose proof (insertion_work c t k). fold t. lia.
Qed.
Example C64_insert_pos_ex lay : let E := dE lay in let x := mkarg 20 20 true false HCopy (SVal 3) in
  reach (dw lay) [dc lay; dx lay] [] /\ lpoints (dc lay) (li_base (dc lay) 2 0) (env_ty (a_dyn x)) 0 /\
  src_c (dc lay) (env_ty (a_dyn x)) (a_how x) (a_src x) 3.
Proof. cbv zeta. change (env_ty (Env := dE lay) (a_dyn (mkarg 20 20 true false HCopy (SVal 3)))) with 2. csplit; [demo_fact lay..|left; reflexivity]. Qed.

(** Amortised: [n] elements of one type emplaced one after the other cost a constant each, plus at
    most one relocation of the elements which were there.  The vectors of base_collection must
    grow by a third at least; what any_collection and function_collection need is in their own
    code.  [emplaced t n k s s']: [n] calls of emplace for type [t] lead from [s] to [s']. *)
Theorem C64_amortised {V} {E : Env V} w c g d t n k c' w' : reach w (c :: g) d ->
  (env_layout = PackedLayout -> forall m, 4 * m <= 3 * env_grow m) ->
  In t (types c) -> emplaced t n k (c, w) (c', w') -> 3 * (length (elems c t) + n) + 1 <= env_vmax t ->
  w_work w' <= w_work w + 65 * n + 9 * length (elems c t).
Proof.
  intros H L Ht Em. set (s0 := length (elems c t)). intros Mx.
  cut (reach w' (c' :: g) d /\ In t (types c') /\ length (elems c' t) = s0 + n /\
       exists K, w_work w' <= w_work w + 29 * n + 9 * K /\
       (K = 0 \/ exists m, s0 <= m <= length (elems c' t) /\ K <= m + 3 * (m - s0) /\ m <= 3 * (cap_of c' t - m))).
  { intros (_ & _ & El & K & Wk & [->|(m & Hm & Hk & _)]); lia. }
  remember (c, w) as s eqn:Es. remember (c', w') as s' eqn:Es'. revert c' w' Es'.
  induction Em as [s|n k s c1 w1 a v c2 w2 it Em IH Ea Q]; intros c' w' Es'.
  - subst s. inversion Es'; subst. csplit; auto. exists 0. split; [lia|auto].
  - specialize (IH Es ltac:(lia) c1 w1 eq_refl). inversion Es'; subst c2 w2. clear Es'.
    destruct IH as (H1 & Ht1 & El & K & Wk & Pk).
    assert (Hs' : src_c c1 (env_ty a) HEmplace (SVal v) v) by (left; reflexivity).
    pose proof (wp_ok _ _ _ _ _ _ (api_reach _ w1 c1 g d _ _ _ _ _ H1 (api_emplace g c1 a (SVal v) v Hs') (spec_emplace w1 c1 g d a (SVal v) v H1 Hs')) Q) as P.
    cbn beta iota in P. destruct P as (H2 & I & _). cbn [fst snd] in H2. rewrite Ea in I.
    pose proof (wp_ok _ _ _ _ _ _ (C64_emplace w1 c1 g d a (SVal v) v H1 Hs') Q) as Wk1. cbn beta iota in Wk1. rewrite Ea in Wk1. unfold insertion in Wk1.
    pose proof (in_grew _ _ _ _ _ I) as G.
    assert (El2 : length (elems c' t) = S (length (elems c1 t))).
    { rewrite (g_elems _ _ _ _ G). unfold slot, of_type. rewrite Nat.eqb_refl. cbn. rewrite Nat.eqb_refl. cbn.
      rewrite app_length, firstn_length. cbn. rewrite skipn_length. lia. }
    assert (Ht2 : In t (types c')) by (apply (g_types _ _ _ _ G); auto).
    pose proof (size_le_cap w1 c1 g d t H1) as Sc.
    csplit; auto; [lia|].
    destruct (Nat.eq_dec (length (elems c1 t)) (cap_of c1 t)) as [Full|Room].
    + exists (K + length (elems c1 t)). split.
      { destruct (_ <? _) eqn:Lt in Wk1; [apply Nat.ltb_lt in Lt; lia|lia]. }
      right. exists (length (elems c1 t)).
      assert (Ec : cap_of c' t = next_capacity t (length (elems c1 t))).
      { rewrite <- Ea in *. exact (wp_ok _ _ _ _ _ _ (spec_emplace_cap w1 c1 g d a (SVal v) v H1 Hs' Ht1 Full) Q). }
      assert (Hh : length (elems c1 t) <= 3 * (cap_of c' t - length (elems c1 t))).
      { rewrite Ec. unfold next_capacity. destruct env_layout eqn:Lay.
        - specialize (L eq_refl (length (elems c1 t))). lia.
        - destruct (Nat.le_gt_cases (length (elems c1 t)) 1) as [C|C].
          + rewrite expand_one by auto. lia.
          + rewrite expand_exact by lia. destruct (half3 (length (elems c1 t))); lia. }
      csplit; auto; try lia.
      destruct Pk as [->|(m & Hm & Hk & Hc)]; [lia|]. rewrite <- Full in Hc. lia.
    + exists K. split; [rewrite (proj2 (Nat.ltb_lt _ _)) in Wk1 by lia; lia|].
      destruct Pk as [->|(m & Hm & Hk & Hc)]; [left; reflexivity|right]. exists m. csplit; auto; try lia.
      rewrite (g_cap _ _ _ _ G); auto. lia.
Qed.
(** Eleven elements are emplaced into the segment of type 2 of [dc], which has two. *)
Example C64_amortised_ex lay : let E := dE lay in let c := dc lay in
  reach (dw lay) [c; dx lay] [] /\ (env_layout = PackedLayout -> forall m, 4 * m <= 3 * env_grow m) /\ In 2 (types c) /\
  (exists k, emplaced 2 11 k (c, dw lay) (push_n lay 11)) /\ 3 * (length (elems c 2) + 11) + 1 <= env_vmax 2.
Proof.
  cbv zeta. csplit; [demo_fact lay|intros _ m; cbn; lia|demo_fact lay| |demo_fact lay].
  assert (Q : script (E := dE lay) (repeat (20, Some 3) 11) (dc lay, dw lay) = Ok (push_n lay 11) tt)
    by (destruct lay; vm_compute; reflexivity).
  destruct (push_n lay 11) as [c' w']. eapply (emplaced_script (E := dE lay) 2 20 3 11 eq_refl 0); [constructor|exact Q].
Qed.

(** ** Erasure *)
Lemma cut_length {V} {E : Env V} (c c' : coll V) i j : cut c c' i j -> i <= j -> j <= length (flat c) \/ i = j -> length (flat c') + (j - i) = length (flat c).
Proof. intros Cu Hi Hj. rewrite (cut_flat _ _ _ _ Cu). unfold remove_range. rewrite app_length, firstn_length, skipn_length. lia. Qed.
Lemma flat_len {V} {E : Env V} (c : coll V) : NoDup (types c) -> length (flat c) = list_sum (map (fun t => length (elems c t)) (types c)).
Proof.
  unfold flat, elems, seg_of, types. induction (content c) as [|[t xs] l IH]; auto. cbn [map fst]. intros N. inversion N as [|? ? N1 N2]; subst.
  simpl. rewrite app_length, map_length, Nat.eqb_refl, IH; auto. f_equal. f_equal. apply map_ext_in. intros t' Ht.
  destruct (Nat.eqb_spec t t') as [->|]; tauto.
Qed.
Lemma threw_len {V} {E : Env V} w (c : coll V) g d c' w' t e : reach w (c :: g) d -> erase_threw c c' w w' t e -> length (flat c') = length (flat c).
Proof.
  intros H (T1 & T2 & _ & T4 & _). pose proof (types_nodup w c g d H) as N. rewrite !flat_len by (rewrite ?T1; exact N). rewrite T1. f_equal.
  apply map_ext_in. intros t' _. destruct (Nat.eq_dec t' t) as [->|Ne]; [exact T4|]. rewrite !elems_seg_at, (T2 t' Ne). reflexivity.
Qed.
Lemma span_flat {V} {E : Env V} w (c : coll V) g d t f l : reach w (c :: g) d -> f <= l -> l <= length (elems c t) ->
  offset (content c) t + l <= length (flat c) \/ offset (content c) t + f = offset (content c) t + l.
Proof.
  intros H Hf Hl. destruct (Nat.eq_dec f l) as [->|Ne]; [right; reflexivity|left].
  destruct (nth_flat w c g d t (l - 1) H) as (_ & Q); [lia|]. lia.
Qed.

(** One element: two for it and one for each element from it to the end of its segment. *)
Theorem C64_erase {V} {E : Env V} w c g d pos t k : reach w (c :: g) d -> points c pos t k ->
  within (c_erase pos) c w (length (elems c t) - k + 2).
Proof.
  intros H P. destruct (reach_wf _ _ _ _ H) as (W & O).
  eapply wp_mono; [eapply pays_within; [exact (spec_erase w c g d pos t k H P)|eapply pays_c_erase; [exact W|exact O|exact P]]| |];
    intros [c' w'] r; [intros ((Cu & _) & B)|intros (T & B)].
  - pose proof (points_deref w c g d _ _ _ H P) as (Hk & _). destruct (nth_flat w c g d t k H Hk) as (_ & Hf).
    pose proof (cut_length _ _ _ _ Cu (Nat.le_succ_diag_r _) ltac:(left; lia)). lia.
  - rewrite (threw_len _ _ _ _ _ _ _ _ H T) in B. lia.
Qed.
Example C64_erase_ex lay : let E := dE lay in
  reach (dw lay) [dc lay; dx lay] [] /\ points (dc lay) (it_at (dc lay) 1 1) 1 1 /\
  (match c_erase (it_at (dc lay) 1 1) (dc lay, dw lay) with Ok s' _ => w_work (snd s') - w_work (dw lay) | _ => 0 end) =
    match lay with PackedLayout => 2 | SplitLayout => 3 end.
Proof. demo lay. Qed.

Theorem C64_erase_local {V} {E : Env V} w c g d pos t k : reach w (c :: g) d -> lpoints c pos t k -> k < length (elems c t) ->
  within (c_erase_local pos) c w (length (elems c t) - k + 2).
Proof.
  intros H P Hk. destruct (reach_wf _ _ _ _ H) as (W & O).
  eapply wp_mono; [eapply pays_within; [exact (spec_erase_local w c g d pos t k H P Hk)|eapply pays_c_erase_local; [exact W|exact P|exact Hk]]| |];
    intros [c' w'] r; [intros ((Cu & _) & B)|intros (T & B)].
  - destruct (nth_flat w c g d t k H Hk) as (_ & Hf). pose proof (cut_length _ _ _ _ Cu (Nat.le_succ_diag_r _) ltac:(left; lia)). lia.
  - rewrite (threw_len _ _ _ _ _ _ _ _ H T) in B. lia.
Qed.
Example C64_erase_local_ex lay : let E := dE lay in
  reach (dw lay) [dc lay; dx lay] [] /\ lpoints (dc lay) (li_base (dc lay) 1 1) 1 1 /\ 1 < length (elems (dc lay) 1).
Proof. demo lay. Qed.

Theorem C64_erase_local_range {V} {E : Env V} w c g d first last t f l : reach w (c :: g) d -> lpoints c first t f -> lpoints c last t l -> f <= l ->
  within (c_erase_local_range first last) c w (2 * (l - f) + (length (elems c t) - l)).
Proof.
  intros H P P' Hfl. destruct (reach_wf _ _ _ _ H) as (W & O).
  eapply wp_mono; [eapply pays_within; [exact (spec_erase_local_range w c g d first last t f l H P P' Hfl)|eapply pays_c_erase_local_range; [exact W|exact P|exact P']]| |];
    intros [c' w'] r; [intros ((Cu & _) & B)|intros (T & B)].
  - pose proof (lpoints_le w c g d _ _ _ H P') as Hl. pose proof (cut_length _ _ _ _ Cu ltac:(lia) (span_flat w c g d t f l H Hfl Hl)). lia.
  - rewrite (threw_len _ _ _ _ _ _ _ _ H T) in B. lia.
Qed.
Example C64_erase_local_range_ex lay : let E := dE lay in
  reach (dw lay) [dc lay; dx lay] [] /\ lpoints (dc lay) (li_base (dc lay) 1 1) 1 1 /\
  lpoints (dc lay) (li_base (dc lay) 1 3) 1 3 /\ 1 <= 3.
Proof. demo lay. Qed.

(** A range, perhaps over several segments: two for each element erased, and one for each element
    behind the range in the segment where it ends.  If it throws, the elements which did not get
    erased are not charged. *)
Theorem C64_erase_range {V} {E : Env V} w c g d first last i j n : reach w (c :: g) d -> located c first i -> located c last j -> i <= j ->
  to_segment_end c last n ->
  wp (c_erase_range first last) (c, w)
    (fun '(c', w') _ => w_work w' <= w_work w + 2 * (j - i) + n)
    (fun '(c', w') _ => length (flat c') <= length (flat c) /\ w_work w' <= w_work w + 2 * (length (flat c) - length (flat c')) + n).
Proof.
  intros H L L' Hij Bd. destruct (reach_wf _ _ _ _ H) as (W & O).
  assert (Bd' : behind c last n) by (destruct Bd as [(-> & ->)|B]; [left; auto|right; exact B]).
  eapply wp_mono; [eapply pays_within; [exact (spec_erase_range w c g d first last i j H L L' Hij)|eapply pays_c_erase_range; [exact W|exact O|exact L|exact L'|exact Bd']]| |];
    intros [c' w'] r; [intros ((Cu & _) & B)|intros ((_ & _ & Le & _) & B)].
  - pose proof (located_le w c g d last j H L') as Hj. pose proof (cut_length _ _ _ _ Cu Hij (or_introl Hj)). lia.
  - split; [exact Le|]. lia.
Qed.
Example C64_erase_range_ex lay : let E := dE lay in
  reach (dw lay) [dc lay; dx lay] [] /\ located (dc lay) (it_at (dc lay) 1 1) 1 /\ located (dc lay) (it_at (dc lay) 2 1) 4 /\ 1 <= 4 /\
  to_segment_end (dc lay) (it_at (dc lay) 2 1) 1 /\ to_segment_end (dc lay) (c_end (dc lay)) 0.
Proof.
  cbv zeta. csplit; [demo_fact lay..|right; exists 2, 1; split; demo_fact lay|left; auto].
Qed.

(** ** clear *)
Theorem C64_clear {V} {E : Env V} w c g d : reach w (c :: g) d -> within c_clear c w (2 * c_size c).
Proof.
  intros H. destruct (reach_wf _ _ _ _ H) as (W & O). rewrite c_size_flat.
  eapply wp_mono; [eapply pays_within; [exact (spec_clear w c g d H)|eapply pays_c_clear; exact W]| |]; intros [c' w'] r (_ & B); lia.
Qed.
Example C64_clear_ex lay : let E := dE lay in reach (dw lay) [dc lay; dx lay] [] /\ c_size (dc lay) = 6.
Proof. demo lay. Qed.
Theorem C64_clear_info {V} {E : Env V} w c g d a : reach w (c :: g) d -> within (c_clear_info a) c w (2 * length (elems c (env_ty a))).
Proof.
  intros H. destruct (reach_wf _ _ _ _ H) as (W & O).
  eapply wp_mono; [eapply pays_within; [exact (spec_clear_info w c g d a H)|eapply pays_c_clear_info; exact W]| |];
    intros [c' w'] r; [intros ((Ht & Wi) & B)|intros ((_ & _ & -> & ->) & _); lia].
  pose proof (types_nodup w c g d H) as N. rewrite !flat_len in B by (rewrite ?(wi_types _ _ _ Wi); exact N). rewrite (wi_types _ _ _ Wi) in B.
  assert (S : forall l, NoDup l -> list_sum (map (fun t => length (elems c t)) l) <=
    list_sum (map (fun t => length (elems c' t)) l) + if in_dec Nat.eq_dec (env_ty a) l then length (elems c (env_ty a)) else 0).
  { induction l as [|t l IH]; intros ND; [cbn; lia|]. inversion ND as [|? ? N1 N2]; subst. specialize (IH N2). cbn [map].
    change (list_sum (?x :: ?m)) with (x + list_sum m). destruct (Nat.eq_dec t (env_ty a)) as [->|Ne].
    - destruct (in_dec Nat.eq_dec (env_ty a) l); [contradiction|]. destruct (in_dec Nat.eq_dec (env_ty a) (env_ty a :: l)) as [_|C]; [lia|]. elim C; left; reflexivity.
    - rewrite !(elems_seg_at _ t), (wi_others _ _ _ Wi) by congruence.
      destruct (in_dec Nat.eq_dec (env_ty a) l), (in_dec Nat.eq_dec (env_ty a) (t :: l)) as [I|I]; try lia. elim I; right; assumption. }
  specialize (S _ N). destruct (in_dec Nat.eq_dec (env_ty a) (types c)); lia.
Qed.
Example C64_clear_info_ex lay : let E := dE lay in reach (dw lay) [dc lay; dx lay] [] /\ length (elems (dc lay) (env_ty 10)) = 3.
Proof. demo lay. Qed.

(** ** reserve and shrink_to_fit *)
(** One segment: constant if the capacity suffices, linear in its size if not. *)
Theorem C64_reserve_info {V} {E : Env V} w c g d a n : reach w (c :: g) d -> within (c_reserve_info a n) c w (reservation c n (env_ty a)).
Proof.
  intros H. destruct (reach_wf _ _ _ _ H) as (W & O).
  eapply within_mono; [eapply cost_within; [exact (spec_reserve_info w c g d a n H)|apply cost_c_reserve_info; exact W]|].
  unfold reserve_work, reservation. destruct (_ <=? _); lia.
Qed.
Example C64_reserve_info_ex lay : let E := dE lay in
  reach (dw lay) [dc lay; dx lay] [] /\ reservation (dc lay) 2 (env_ty 10) = 16 /\ reservation (dc lay) 20 (env_ty 10) = 44.
Proof. demo lay. Qed.
Theorem C64_reserve_type {V} {E : Env V} w c g d a n : reach w (c :: g) d -> within (c_reserve_type a n) c w (reservation c n (env_ty a)).
Proof.
  intros H. destruct (reach_wf _ _ _ _ H) as (W & O).
  eapply within_mono; [eapply cost_within; [exact (spec_reserve_type w c g d a n H)|eapply cost_c_reserve_type; [exact W|exact O]]|].
  unfold reserve_work, reservation. destruct (_ <=? _); lia.
Qed.
Example C64_reserve_type_ex lay : let E := dE lay in
  reach (dw lay) [dc lay; dx lay] [] /\ ~ In (env_ty 50) (types (dc lay)) /\ reservation (dc lay) 20 (env_ty 50) = 20.
Proof. demo lay. Qed.
Theorem C64_reserve_all {V} {E : Env V} w c g d n : reach w (c :: g) d -> within (c_reserve_all n) c w (list_sum (map (reservation c n) (types c))).
Proof.
  intros H. destruct (reach_wf _ _ _ _ H) as (W & O).
  eapply within_mono; [eapply cost_within; [exact (spec_reserve w c g d n H)|apply cost_c_reserve_all; exact W]|].
  induction (types c) as [|t l IH]; [cbn; lia|]. cbn [map]. change (list_sum (?x :: ?m)) with (x + list_sum m) in *.
  enough (reserve_work c n t <= reservation c n t) by lia. unfold reserve_work, reservation. destruct (_ <=? _); lia.
Qed.
Example C64_reserve_all_ex lay : let E := dE lay in
  reach (dw lay) [dc lay; dx lay] [] /\ list_sum (map (reservation (dc lay) 20) (types (dc lay))) = 128.
Proof. demo lay. Qed.
Theorem C64_shrink {V} {E : Env V} w c g d : reach w (c :: g) d -> within c_shrink_all c w (list_sum (map (shrinking c) (types c))).
Proof.
  intros H. destruct (reach_wf _ _ _ _ H) as (W & O). eapply cost_within; [exact (spec_shrink w c g d H)|apply cost_c_shrink_all; exact W].
Qed.
(** after reserving, so that there is something to do *)
Example C64_shrink_ex lay : let E := dE lay in
  reach (snd (dr lay)) [fst (dr lay); dx lay] [] /\ list_sum (map (shrinking (fst (dr lay))) (types (fst (dr lay)))) = 90.
Proof. cbv zeta. csplit; [exact (dr_reach lay)|demo_fact lay]. Qed.
Theorem C64_shrink_info {V} {E : Env V} w c g d a : reach w (c :: g) d -> within (c_shrink_info a) c w (shrinking c (env_ty a)).
Proof.
  intros H. destruct (reach_wf _ _ _ _ H) as (W & O). eapply cost_within; [exact (spec_shrink_info w c g d a H)|apply cost_c_shrink_info; exact W].
Qed.
Example C64_shrink_info_ex lay : let E := dE lay in
  reach (snd (dr lay)) [fst (dr lay); dx lay] [] /\ shrinking (fst (dr lay)) (env_ty 10) = 33.
Proof. cbv zeta. csplit; [exact (dr_reach lay)|demo_fact lay]. Qed.

Print Assumptions C64_emplace.
Print Assumptions C64_insert.
Print Assumptions C64_emplace_hint.
Print Assumptions C64_insert_hint.
Print Assumptions C64_emplace_pos.
Print Assumptions C64_insert_pos.
Print Assumptions C64_amortised.
Print Assumptions C64_erase.
Print Assumptions C64_erase_local.
Print Assumptions C64_erase_local_range.
Print Assumptions C64_erase_range.
Print Assumptions C64_clear.
Print Assumptions C64_clear_info.
Print Assumptions C64_reserve_info.
Print Assumptions C64_reserve_type.
Print Assumptions C64_reserve_all.
Print Assumptions C64_shrink.
Print Assumptions C64_shrink_info.
