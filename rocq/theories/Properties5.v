(** * Growth and exception guarantees (C30-C36)

    See the head of Properties1.v for the form of the statements.  [wp m s Q X]: the call [m] in
    state [s] has no undefined behaviour, satisfies [Q] if it returns and [X] if it throws.
    Several claims of this group are false of the code: theorems named [.._refuted] exhibit a
    program, next to the strongest positive statement that was proved. *)

From Coq Require Import List Arith Lia Bool Permutation.
From Verif Require Import Base Vec Backend Segment Coll Spec Reach ProofBase ProofVec ProofBackend ProofOps ProofSeg ProofMap ProofView ProofColl
  ProofRange ProofReach ProofObs ProofProp ProofProp2 ProofProp3 ProofProp4 ProofProp5 ProofGrow Demo.
Import ListNotations.

(** ** C30 Growth of the segments of any_collection and function_collection *)

(** When a full segment of [n] elements takes one more its new capacity exceeds [n], does not
    exceed max_size(), and is [n] plus one half of it if the latter is not above a third of
    max_size(). *)
Theorem C30_growth {V} {E : Env V} w c g d a x v : let t := env_ty a in let n := length (elems c t) in
  reach w (c :: g) d -> env_layout = SplitLayout -> src_c c t HEmplace x v -> In t (types c) -> n = cap_of c t ->
  wp (c_emplace a x) (c, w)
    (fun '(c', w') _ => n < cap_of c' t <= env_vmax t /\
       (2 <= n -> 3 * n + 1 <= env_vmax t -> cap_of c' t = n + n / 2) /\
       (n <= 1 \/ env_vmax t < 3 * n + 1 -> cap_of c' t = n + 1))
    (fun _ _ => True).
Proof.
  intros t n H L Hs Ht Full.
  pose proof (wp_and _ _ _ _ _ _ (spec_emplace_cap w c g d a x v H Hs Ht Full)
    (api_reach _ w c g d _ _ _ _ _ H (api_emplace g c a x v Hs) (spec_emplace w c g d a x v H Hs))) as P.
  eapply wp_mono; [exact P| |auto]. cbv beta.
  intros [c' w'] it (Ec & H' & I & _). fold t n in Ec. cbn [fst snd] in H'.
  destruct (expand_cap_bounds (env_vmax t) n) as (B1 & B2 & B3). unfold next_capacity in Ec. rewrite L in Ec.
  pose proof (cap_le_max w' c' g d t H') as Sm.
  csplit; auto; [lia| |]; intros; rewrite Ec; [apply expand_exact|apply expand_one]; auto.
Qed.
(** Type 1 has three elements and no room for more. *)
Example C30_growth_ex : let E := dE SplitLayout in
  let c := dc SplitLayout in
  reach (dw SplitLayout) [c; dx SplitLayout] [] /\ env_layout = SplitLayout /\ In (env_ty 10) (types c) /\
  length (elems c 1) = cap_of c 1 /\ length (elems c 1) = 3 /\ 3 * 3 + 1 <= env_vmax 1 /\
  src_c c (env_ty 10) HEmplace (SVal 4) 4.
Proof.
  cbv zeta. csplit; [apply d_reach|reflexivity|vm_compute; auto|vm_compute; reflexivity|vm_compute; reflexivity|vm_compute; lia|left; reflexivity].
Qed.

(** Hence consecutive insertions relocate at most four elements each on average, wherever they
    start (below a third of max_size()). *)
Theorem C30_amortised {V} {E : Env V} w c g d t n k c' w' : reach w (c :: g) d -> env_layout = SplitLayout ->
  In t (types c) -> emplaced t n k (c, w) (c', w') -> 3 * (length (elems c t) + n) + 1 <= env_vmax t ->
  k <= length (elems c t) + 4 * n.
Proof.
  intros H L Ht Em. set (s0 := length (elems c t)). intros Mx.
  cut (reach w' (c' :: g) d /\ In t (types c') /\ length (elems c' t) = s0 + n /\
       (k = 0 \/ exists m, s0 <= m <= length (elems c' t) /\ k <= m + 3 * (m - s0) /\ m <= 3 * (cap_of c' t - m))).
  { intros (_ & _ & El & [->|(m & Hm & Hk & _)]); lia. }
  remember (c, w) as s eqn:Es. remember (c', w') as s' eqn:Es'. revert c' w' Es'.
  induction Em as [s|n k s c1 w1 a v c2 w2 it Em IH Ea Q]; intros c' w' Es'.
  - subst s. inversion Es'; subst. csplit; auto.
  - specialize (IH Es ltac:(lia) c1 w1 eq_refl). inversion Es'; subst c2 w2. clear Es'.
    destruct IH as (H1 & Ht1 & El & Pk).
    assert (Hs : src_c c1 t HEmplace (SVal v) v) by (left; reflexivity).
    assert (Hs' : src_c c1 (env_ty a) HEmplace (SVal v) v) by (left; reflexivity).
    pose proof (wp_ok _ _ _ _ _ _ (api_reach _ w1 c1 g d _ _ _ _ _ H1 (api_emplace g c1 a (SVal v) v Hs') (spec_emplace w1 c1 g d a (SVal v) v H1 Hs')) Q) as P.
    cbn beta iota in P. destruct P as (H2 & I & _). cbn [fst snd] in H2. rewrite Ea in I.
    pose proof (in_grew _ _ _ _ _ I) as G.
    assert (El2 : length (elems c' t) = S (length (elems c1 t))).
    { rewrite (g_elems _ _ _ _ G). unfold slot, of_type. rewrite Nat.eqb_refl. cbn. rewrite Nat.eqb_refl. cbn.
      rewrite app_length, firstn_length. cbn. rewrite skipn_length. lia. }
    assert (Ht2 : In t (types c')) by (apply (g_types _ _ _ _ G); auto).
    pose proof (size_le_cap w1 c1 g d t H1) as Sc.
    csplit; auto; [lia|].
    destruct (Nat.eq_dec (length (elems c1 t)) (cap_of c1 t)) as [Full|Room].
    + right. exists (length (elems c1 t)).
      assert (Ec : cap_of c' t = next_capacity t (length (elems c1 t))).
      { rewrite <- Ea in *. exact (wp_ok _ _ _ _ _ _ (spec_emplace_cap w1 c1 g d a (SVal v) v H1 Hs' Ht1 Full) Q). }
      unfold next_capacity in Ec. rewrite L in Ec.
      pose proof (relocated_le c1 c' t) as Rl.
      assert (Hh : length (elems c1 t) <= 3 * (cap_of c' t - length (elems c1 t))).
      { rewrite Ec. destruct (Nat.le_gt_cases (length (elems c1 t)) 1) as [C|C].
        - rewrite expand_one by auto. lia.
        - rewrite expand_exact by lia. destruct (half3 (length (elems c1 t))); lia. }
      csplit; auto; try lia.
      destruct Pk as [->|(m & Hm & Hk & Hc)]; [lia|]. rewrite <- Full in Hc. lia.
    + assert (Rz : relocated c1 c' t = 0).
      { apply relocated_none. intros j Hj. apply (g_stable _ _ _ _ G); [lia|]. unfold slot. rewrite Nat.eqb_refl. exact Hj. }
      rewrite Rz, Nat.add_0_r. destruct Pk as [->|(m & Hm & Hk & Hc)]; [left; reflexivity|right]. exists m. csplit; auto; try lia.
      rewrite (g_cap _ _ _ _ G); auto. lia.
Qed.
(** Eleven elements are emplaced into the segment of type 2 of [dc], which has two. *)
Definition push_n (lay : layout) (n : nat) : coll nat * world := let E := dE lay in state (script (repeat (20, Some 3) n) (dc lay, dw lay)).
Lemma emplaced_script {V} {E : Env V} t a v n : env_ty a = t -> forall m k s c w c' w', emplaced t m k s (c, w) ->
  script (repeat (a, Some v) n) (c, w) = Ok (c', w') tt -> exists k', emplaced t (m + n) k' s (c', w').
Proof.
  intros Ea. induction n as [|n IH]; intros m k s c w c' w' Em Hs.
  - cbn in Hs. inversion Hs; subst. exists k. rewrite Nat.add_0_r. exact Em.
  - cbn [repeat script] in Hs. unfold bind at 1, void in Hs. unfold bind in Hs at 1.
    destruct (c_emplace a (SVal v) (c, w)) as [[c1 w1] it| |] eqn:Q; try discriminate. cbn [ret] in Hs.
    rewrite <- Nat.add_succ_comm. eapply IH; [|exact Hs]. eapply em_one; eauto.
Qed.
Example C30_amortised_ex : let E := dE SplitLayout in let c := dc SplitLayout in
  reach (dw SplitLayout) [c; dx SplitLayout] [] /\ env_layout = SplitLayout /\ In 2 (types c) /\
  (exists k, emplaced 2 11 k (c, dw SplitLayout) (push_n SplitLayout 11)) /\ 3 * (length (elems c 2) + 11) + 1 <= env_vmax 2.
Proof.
  cbv zeta. csplit; [apply d_reach|reflexivity|vm_compute; auto| |vm_compute; lia].
  assert (Q : script (E := dE SplitLayout) (repeat (20, Some 3) 11) (dc SplitLayout, dw SplitLayout) = Ok (push_n SplitLayout 11) tt)
    by (vm_compute; reflexivity).
  destruct (push_n SplitLayout 11) as [c' w']. eapply (emplaced_script (E := dE SplitLayout) 2 20 3 11 eq_refl 0); [constructor|exact Q].
Qed.

(** The claim is about consecutive insertions of single elements.  Inserting ranges, even of one
    element, makes room for exactly what is inserted: the cost of relocation is then quadratic.
    [ranged t n k s s']: [n] insertions of one-element ranges of type [t] lead from [s] to [s'],
    relocating [k] elements. *)
Inductive ranged {V} {E : Env V} (t : tyid) : nat -> nat -> coll V * world -> coll V * world -> Prop :=
| ra_none s : ranged t 0 0 s s
| ra_one n k s c w a v c' w' : ranged t n k s (c, w) -> env_ty a = t ->
    c_insert_range_terminal a HCopy true [v] (c, w) = Ok (c', w') tt ->
    ranged t (S n) (k + relocated c c' t) s (c', w').

Fixpoint ranges {E : Env nat} (a : tiaddr) (v n : nat) (s : coll nat * world) : option (nat * (coll nat * world)) :=
  match n with
  | 0 => Some (0, s)
  | S n' => match ranges a v n' s with
            | None => None
            | Some (k, (c, w)) =>
                match c_insert_range_terminal a HCopy true [v] (c, w) with
                | Ok (c', w') tt => Some (k + relocated c c' (env_ty a), (c', w'))
                | _ => None
                end
            end
  end.
Lemma ranges_ranged {E : Env nat} a v n s : forall k s', ranges a v n s = Some (k, s') -> ranged (env_ty a) n k s s'.
Proof.
  induction n as [|n IH]; cbn [ranges]; intros k s' Q.
  - inversion Q; subst. constructor.
  - destruct (ranges a v n s) as [[k0 [c w]]|]; [|discriminate].
    destruct (c_insert_range_terminal a HCopy true [v] (c, w)) as [[c' w'] []| |] eqn:R; try discriminate.
    inversion Q; subst. eapply ra_one; eauto.
Qed.
Theorem C30_range_refuted : exists (E : Env nat) w c g d t n k s', env_layout = SplitLayout /\ reach w (c :: g) d /\ In t (types c) /\
  ranged t n k (c, w) s' /\ 3 * (length (elems c t) + n) + 1 <= env_vmax t /\ length (elems c t) + 4 * n < k.
Proof.
  assert (Q : match ranges (E := dE SplitLayout) 20 3 12 (dc SplitLayout, dw SplitLayout) with Some (k, _) => k | None => 0 end = 90)
    by (vm_compute; reflexivity).
  destruct (ranges (E := dE SplitLayout) 20 3 12 (dc SplitLayout, dw SplitLayout)) as [[k s']|] eqn:R; [|discriminate].
  exists (dE SplitLayout), (dw SplitLayout), (dc SplitLayout), [dx SplitLayout], [], 2, 12, k, s'. csplit.
  - reflexivity.
  - apply d_reach.
  - vm_compute; auto.
  - apply (ranges_ranged (E := dE SplitLayout) 20 3 12). exact R.
  - vm_compute; lia.
  - subst k. vm_compute. lia.
Qed.

(** ** C31 Failing insertion into a base_collection *)

(** Nothing happened, except perhaps that the type was registered; the collection is in working
    order; if the type was registered before, the traversal is the same. *)
Definition harmless {V} {E : Env V} (c c' : coll V) (w' : world) g d (t : tyid) : Prop :=
  rolled_back c c' t /\ reach w' (c' :: g) d /\ (In t (types c) -> content c' = content c /\ flat c' = flat c) /\
  c_size c' = c_size c.

Lemma harmless_intro {V} {E : Env V} (c c' : coll V) w' g d t : rolled_back c c' t -> reach w' (c' :: g) d -> harmless c c' w' g d t.
Proof.
  intros Rb R. unfold harmless. csplit; auto.
  - intros Ht. destruct (rb_same _ _ _ Rb) as [S|(N & _)]; [split; auto; unfold flat; rewrite S; reflexivity|].
    exfalso. unfold seg_of in N. unfold types in Ht. clear - N Ht. induction (content c) as [|[t' xs] l IH]; simpl in *; auto.
    destruct (Nat.eqb_spec t' t); [discriminate|]. destruct Ht; auto.
  - rewrite !c_size_flat. destruct (rb_same _ _ _ Rb) as [S|(_ & S)]; unfold flat; [rewrite S; reflexivity|].
    rewrite (Permutation_length (Permutation_flat_map _ S)). reflexivity.
Qed.

Lemma call_exn_reach {V} {E : Env V} {A} (m : M (coll V * world) A) w c g d safe new vals Q (X : coll V * world -> exn -> Prop) :
  reach w (c :: g) d -> api g c (void m) safe new vals -> wp m (c, w) Q X ->
  wp m (c, w) Q (fun s e => (safe e -> reach (snd s) (fst s :: g) d) /\ X s e).
Proof.
  intros H Ha Hw. unfold wp in *. destruct (m (c, w)) as [s r|[c' w'] e|] eqn:Em; auto.
  split; auto. cbn [fst snd]. intros Sf. eapply r_call_exn; [exact H|exact Ha| |exact Sf]. unfold void, bind, ret. rewrite Em. reflexivity.
Qed.

Theorem C31_emplace {V} {E : Env V} w c g d a x v : let t := env_ty a in
  reach w (c :: g) d -> env_layout = PackedLayout -> src_c c t HEmplace x v ->
  wp (c_emplace a x) (c, w) (fun _ _ => True)
    (fun '(c', w') e => harmless c c' w' g d t /\ threw t HEmplace (length (elems c t)) 1 w w' e).
Proof.
  intros t H L Hs. eapply wp_mono;
    [eapply call_exn_reach; [exact H|apply (api_emplace g c a x v Hs)|apply (spec_emplace w c g d a x v H Hs)]|auto|].
  intros [c' w'] e (R & Hm & Th & Rb). assert (Sf : safe_at c (env_ty a) (length (elems c (env_ty a)))) by (unfold safe_at; rewrite L; auto).
  split; auto. apply harmless_intro; auto.
Qed.
(** An environment in which the [n]-th external event fails, and the state after a script. *)
Definition fE (lay : layout) (n : nat) : Env nat := demo lay (fails_at n) true.
Definition throws {S A} (o : outcome S A) (e : exn) : Prop := exists s, o = Exn s e.
Definition throwsb {S A} (o : outcome S A) (e : exn) : bool :=
  match o, e with Exn _ BadAlloc, BadAlloc => true | Exn _ UserExn, UserExn => true | _, _ => false end.
Lemma throwsb_ok {S A} (o : outcome S A) e : throwsb o e = true -> throws o e.
Proof. unfold throwsb, throws. destruct o as [|s []|]; destruct e; try discriminate; eauto. Qed.
Definition four : list (tiaddr * option nat) := [(10, Some 5); (10, Some 6); (10, Some 7); (10, Some 8)].

(** The constructor of a fifth element throws while the vector grows. *)
Example C31_emplace_ex : let E := fE PackedLayout 13 in let s := gs (fE PackedLayout 13) four in
  reach (snd s) [fst s] [] /\ env_layout = PackedLayout /\ src_c (fst s) (env_ty 10) HEmplace (SVal 4) 4 /\
  throws (c_emplace 10 (SVal 4) s) UserExn.
Proof.
  cbv zeta. csplit; [apply gs_reach; vm_compute; reflexivity|reflexivity|left; reflexivity|].
  apply throwsb_ok. vm_compute. reflexivity.
Qed.

Theorem C31_insert {V} {E : Env V} w c g d x v : let t := env_ty (a_dyn x) in
  reach w (c :: g) d -> env_layout = PackedLayout -> arg_ok x -> src_c c t (a_how x) (a_src x) v ->
  wp (c_insert x) (c, w) (fun _ _ => True)
    (fun '(c', w') e => (unregistrable c x /\ e = UnregisteredType t /\ unchanged c c' /\ reach w' (c' :: g) d) \/
       (harmless c c' w' g d t /\ threw t (a_how x) (length (elems c t)) 1 w w' e)).
Proof.
  intros t H L Hx Hs. eapply wp_mono;
    [eapply call_exn_reach; [exact H|apply (api_insert g c x v Hx Hs)|apply (spec_insert w c g d x v H Hx Hs)]|auto|].
  intros [c' w'] e (R & Rj). assert (Sf : safe_at c t (length (elems c t))) by (unfold safe_at; rewrite L; auto).
  cbn [fst snd] in R. destruct Rj as [(U & -> & Un)|(_ & Hm & Th & Rb)]; [left|right].
  - csplit; auto.
  - split; auto. apply harmless_intro; auto.
Qed.
Example C31_insert_ex : let E := fE PackedLayout 13 in let s := gs (fE PackedLayout 13) four in
  let x := mkarg 10 10 true false HCopy (SVal 4) in
  reach (snd s) [fst s] [] /\ env_layout = PackedLayout /\ arg_ok x /\ src_c (fst s) (env_ty 10) (a_how x) (a_src x) 4 /\
  throws (c_insert x s) UserExn.
Proof.
  cbv zeta. csplit; [apply gs_reach; vm_compute; reflexivity|reflexivity|intros _; reflexivity|left; reflexivity|].
  apply throwsb_ok. vm_compute. reflexivity.
Qed.

(** At any position of a full segment, and at any position if moving elements does not throw. *)
Theorem C31_position {V} {E : Env V} w c g d pos k a x v : let t := env_ty a in
  reach w (c :: g) d -> env_layout = PackedLayout -> lpoints c pos t k -> src_c c t HEmplace x v ->
  k = length (elems c t) \/ quiet t = true \/ length (elems c t) = cap_of c t ->
  wp (c_emplace_pos pos a x) (c, w) (fun _ _ => True)
    (fun '(c', w') e => harmless c c' w' g d t /\ threw t HEmplace (length (elems c t)) 1 w w' e).
Proof.
  intros t H L Hp Hs Sk. eapply wp_mono;
    [eapply call_exn_reach; [exact H|apply (api_emplace_pos g c pos k a x v Hp Hs)|apply (spec_emplace_pos w c g d pos k a x v H Hp Hs)]|auto|].
  intros [c' w'] e (R & Hm & Th & Rb). assert (Sf : safe_at c t k) by (unfold safe_at; rewrite L; auto).
  split; auto. apply harmless_intro; auto.
Qed.
Example C31_position_ex : let E := fE PackedLayout 13 in let s := gs (fE PackedLayout 13) four in
  let pos := li_base (fst s) 1 0 in
  reach (snd s) [fst s] [] /\ env_layout = PackedLayout /\ lpoints (fst s) pos (env_ty 10) 0 /\
  src_c (fst s) (env_ty 10) HEmplace (SVal 4) 4 /\ quiet (env_ty 10) = true /\ throws (c_emplace_pos pos 10 (SVal 4) s) UserExn.
Proof.
  cbv zeta. csplit; [apply gs_reach; vm_compute; reflexivity|reflexivity| |left; reflexivity|vm_compute; reflexivity|].
  - apply (li_base_points (E := fE PackedLayout 13) _ _ _ 4); [vm_compute; reflexivity|lia].
  - apply throwsb_ok. vm_compute. reflexivity.
Qed.

(** ** C32 Failing insertion into an any_collection or function_collection *)

(** A collection is valid, as far as C32 goes, if traversal ends and visits size() elements. *)
Definition valid {V} {E : Env V} (c : coll V) : Prop :=
  exists fuel l, traverse fuel c (c_begin c) (c_end c) = Some l /\ length l = c_size c.

(** What is missing: insertions into full segments, into segments with a capacity of one, and in
    the middle of segments whose elements may throw when moved.  For these the claim is false,
    as shown below. *)
Theorem C32_emplace_partial {V} {E : Env V} w c g d a x v : let t := env_ty a in
  reach w (c :: g) d -> env_layout = SplitLayout -> src_c c t HEmplace x v ->
  wp (c_emplace a x) (c, w) (fun _ _ => True)
    (fun '(c', w') e => threw t HEmplace (length (elems c t)) 1 w w' e /\
       others_kept c c' t /\ length (elems c t) <= length (elems c' t) <= length (elems c t) + 1 /\
       (length (elems c t) < cap_of c t -> 2 <= cap_of c t -> harmless c c' w' g d t)).
Proof.
  intros t H L Hs. eapply wp_mono;
    [eapply call_exn_reach; [exact H|apply (api_emplace g c a x v Hs)|apply (spec_emplace w c g d a x v H Hs)]|auto|].
  intros [c' w'] e (R & Hm & Th & Rb). cbn [fst snd] in R. csplit; auto; try apply Hm.
  intros C1 C2. assert (Sf : safe_at c (env_ty a) (length (elems c (env_ty a)))) by (unfold safe_at; rewrite L; auto).
  apply harmless_intro; auto.
Qed.
Definition two : list (tiaddr * option nat) := [(10, Some 5); (10, Some 6)].
(** There is room for a sixth element, but its constructor throws. *)
Definition five (a : tiaddr) : list (tiaddr * option nat) := [(a, Some 5); (a, Some 6); (a, Some 7); (a, Some 8); (a, Some 9)].
Example C32_emplace_partial_ex : let E := fE SplitLayout 22 in let s := gs (fE SplitLayout 22) (five 10) in
  reach (snd s) [fst s] [] /\ env_layout = SplitLayout /\ src_c (fst s) (env_ty 10) HEmplace (SVal 4) 4 /\
  length (elems (fst s) 1) < cap_of (fst s) 1 /\ 2 <= cap_of (fst s) 1 /\
  throws (c_emplace 10 (SVal 4) s) UserExn.
Proof.
  cbv zeta. csplit; [apply gs_reach; vm_compute; reflexivity|reflexivity|left; reflexivity|vm_compute; lia|vm_compute; lia|].
  apply throwsb_ok. vm_compute. reflexivity.
Qed.

Theorem C32_insert_partial {V} {E : Env V} w c g d hint i k x v : let t := env_ty (a_dyn x) in
  reach w (c :: g) d -> env_layout = SplitLayout -> located c hint i -> hint_at c hint t k -> hint_safe c hint t ->
  arg_ok x -> src_c c t (a_how x) (a_src x) v ->
  wp (c_insert_hint hint x) (c, w) (fun _ _ => True)
    (fun '(c', w') e => (unregistrable c x /\ e = UnregisteredType t /\ unchanged c c' /\ reach w' (c' :: g) d) \/
       (threw t (a_how x) (length (elems c t)) 1 w w' e /\ others_kept c c' t /\
        length (elems c t) <= length (elems c' t) <= length (elems c t) + 1 /\
        (length (elems c t) < cap_of c t -> 2 <= cap_of c t -> k = length (elems c t) \/ quiet t = true ->
         harmless c c' w' g d t))).
Proof.
  intros t H L Hl Ha Hh Hx Hs. eapply wp_mono;
    [eapply call_exn_reach; [exact H|apply (api_insert_hint g c hint i k x v Hl Ha Hh Hx Hs)
      |apply (spec_insert_hint w c g d hint i k x v H Hl Ha Hh Hx Hs)]|auto|].
  intros [c' w'] e (R & Rj). cbn [fst snd] in R. destruct Rj as [(U & -> & Un)|(_ & Hm & Th & Rb)]; [left; csplit; auto|right].
  csplit; auto; try apply Hm. intros C1 C2 C3.
  assert (Sf : safe_at c t k) by (unfold safe_at; rewrite L; auto). apply harmless_intro; auto.
Qed.
Example C32_insert_partial_ex : let E := fE SplitLayout 22 in let s := gs (fE SplitLayout 22) (five 10) in
  let x := mkarg 10 10 true false HCopy (SVal 4) in let hint := it_at (fst s) 1 2 in
  reach (snd s) [fst s] [] /\ env_layout = SplitLayout /\ located (fst s) hint 2 /\ hint_at (fst s) hint (env_ty 10) 2 /\
  hint_safe (fst s) hint (env_ty 10) /\ arg_ok x /\ src_c (fst s) (env_ty 10) (a_how x) (a_src x) 4 /\
  length (elems (fst s) 1) < cap_of (fst s) 1 /\ 2 <= cap_of (fst s) 1 /\ quiet 1 = true /\
  throws (c_insert_hint hint x s) UserExn.
Proof.
  cbv zeta. csplit; [apply gs_reach; vm_compute; reflexivity|reflexivity| | | |intros _; reflexivity|left; reflexivity|vm_compute; lia|vm_compute; lia
    |vm_compute; reflexivity|].
  - right. exists 1, 2. split; [|vm_compute; reflexivity]. apply (it_at_points (E := fE SplitLayout 22) _ 1 2 5); [vm_compute; reflexivity|lia].
  - left. apply (it_at_points (E := fE SplitLayout 22) _ 1 2 5); [vm_compute; reflexivity|lia].
  - right. left. vm_compute. auto.
  - apply throwsb_ok. vm_compute. reflexivity.
Qed.

(** A traversal that gets stuck does so however long it is allowed to run. *)
Fixpoint stuck {E : Env nat} (n : nat) (c : coll nat) (first last : iter) : bool :=
  negb (it_eq first last) &&
  match it_deref c first, it_next c first with
  | Some _, Some it => match n with 0 => false | S n' => stuck n' c it last end
  | _, _ => true
  end.
Lemma stuck_traverse {E : Env nat} n (c : coll nat) last : forall first, stuck n c first last = true ->
  forall fuel, traverse fuel c first last = None.
Proof.
  induction n as [|n IH]; intros first H fuel; cbn [stuck] in H; rewrite andb_true_iff, negb_true_iff in H; destruct H as (N & H);
    destruct fuel as [|f]; cbn [traverse]; rewrite N; auto;
    destruct (it_deref c first) as [x|]; auto; destruct (it_next c first) as [it|]; auto; try discriminate.
  rewrite (IH it H f). reflexivity.
Qed.
Lemma stuck_invalid {E : Env nat} n (c : coll nat) : stuck n c (c_begin c) (c_end c) = true -> ~ valid c.
Proof. intros H (fuel & l & T & _). rewrite (stuck_traverse n c _ _ H) in T. discriminate. Qed.
(** Traversal ends at once or after one step, but size() says otherwise. *)
Lemma short_invalid {E : Env nat} n (c : coll nat) :
  match traverse n c (c_begin c) (c_end c) with Some l => negb (length l =? c_size c) | None => false end = true -> ~ valid c.
Proof.
  destruct (traverse n c (c_begin c) (c_end c)) as [l|] eqn:Q; [|discriminate]. rewrite negb_true_iff, Nat.eqb_neq. intros N (fuel & l' & T & Len).
  apply N. rewrite <- Len. f_equal. clear N Len.
  revert fuel l l' Q T. generalize (c_begin c). induction n as [|n IH]; intros it fuel l l' Q T; destruct fuel as [|f]; cbn [traverse] in *;
    destruct (it_eq it (c_end c)); try congruence.
  destruct (it_deref c it) as [x|]; [|discriminate]. destruct (it_next c it) as [it'|]; [|discriminate].
  destruct (traverse n c it' (c_end c)) as [r|] eqn:Q1; [|discriminate]. destruct (traverse f c it' (c_end c)) as [r'|] eqn:T1; [|discriminate].
  inversion Q; inversion T; subst. f_equal. eapply IH; eauto.
Qed.

(** The memory of a full segment is exhausted: emplacing another element throws bad_alloc, and
    from then on traversal from begin() leaves the storage. *)
Theorem C32_full_refuted : exists (E : Env nat) w c a v, env_layout = SplitLayout /\ reach w [c] [] /\ In (env_ty a) (types c) /\
  exists c' w', c_emplace a (SVal v) (c, w) = Exn (c', w') BadAlloc /\ ~ valid c'.
Proof.
  pose (E := fE SplitLayout 17). pose (s := gs (fE SplitLayout 17) [(10, Some 5); (10, Some 6); (10, Some 7)]).
  exists E, (snd s), (fst s), 10, 4. csplit; [reflexivity|apply gs_reach; vm_compute; reflexivity|vm_compute; auto|].
  assert (C : match c_emplace 10 (SVal 4) (fst s, snd s) with Exn (c', w') BadAlloc => stuck 20 c' (c_begin c') (c_end c') | _ => false end = true)
    by (vm_compute; reflexivity).
  destruct (c_emplace 10 (SVal 4) (fst s, snd s)) as [|[c' w'] []|]; try discriminate. exists c', w'. split; auto. eapply stuck_invalid; eauto.
Qed.

(** The first insertion into an empty any_collection throws bad_alloc, yet leaves an element: size()
    is one, while begin() equals end(). *)
Theorem C32_first_refuted : exists (E : Env nat) w a v, env_layout = SplitLayout /\ reach w [c_empty 0] [] /\
  exists c' w', c_emplace a (SVal v) (c_empty 0, w) = Exn (c', w') BadAlloc /\ c_size c' = 1 /\ it_eq (c_begin c') (c_end c') = true /\ ~ valid c'.
Proof.
  pose (E := fE SplitLayout 9). exists E, (mkworld 1 [] 0 0 0), 10, 4. csplit; [reflexivity|apply r_new; constructor|].
  assert (C : match c_emplace 10 (SVal 4) (c_empty 0, mkworld 1 [] 0 0 0) with
    Exn (c', w') BadAlloc => (c_size c' =? 1) && (it_eq (c_begin c') (c_end c') &&
      match traverse 1 c' (c_begin c') (c_end c') with Some l => negb (length l =? c_size c') | None => false end) | _ => false end = true)
    by (vm_compute; reflexivity).
  destruct (c_emplace 10 (SVal 4) (c_empty 0, mkworld 1 [] 0 0 0)) as [|[c' w'] []|]; try discriminate.
  rewrite !andb_true_iff in C. destruct C as (C1 & C2 & C3). apply Nat.eqb_eq in C1.
  exists c', w'. csplit; auto. eapply short_invalid; eauto.
Qed.

(** The library vectors may keep some of the new elements when an insertion in the middle throws,
    see [leave_junk] in Vec.v; here, one. *)
Definition with_junk (n : nat) (E : Env nat) : Env nat := {|
  env_layout := env_layout; env_fault := env_fault; env_grow := env_grow; env_vmax := env_vmax; env_imax := env_imax;
  env_junk_len := fun _ => n; env_junk := env_junk; env_shrink_noop := env_shrink_noop; env_shrink_swallow := env_shrink_swallow;
  env_copyable := env_copyable; env_eqcomp := env_eqcomp; env_nt_move := env_nt_move; env_assignable := env_assignable;
  env_nt_assign := env_nt_assign; env_veq := env_veq; env_ty := env_ty; env_buckets := env_buckets; env_codes := env_codes;
  env_rehash_stable := env_rehash_stable; env_pocca := env_pocca; env_pocma := env_pocma; env_pocs := env_pocs; env_socc := env_socc;
  env_umap_clears := env_umap_clears;
  env_counted := env_counted;
  env_adjacent := env_adjacent |}.

(** An insertion in the middle of a segment of elements whose moves throw (also in a
    base_collection): size() counts an element which traversal does not reach. *)
Theorem C32_middle_refuted lay : exists (E : Env nat) w c pos a v, env_layout = lay /\ reach w [c] [] /\ lpoints c pos (env_ty a) 0 /\
  2 <= length (elems c (env_ty a)) < cap_of c (env_ty a) /\
  exists c' w', c_emplace_pos pos a (SVal v) (c, w) = Exn (c', w') UserExn /\ ~ valid c'.
Proof.
  pose (n := match lay with PackedLayout => 22 | SplitLayout => 33 end).
  pose (E := with_junk 1 (fE lay n)). pose (s := gs E (five 40)). pose (pos := li_base (fst s) 4 0).
  exists E, (snd s), (fst s), pos, 40, 4. csplit.
  - reflexivity.
  - apply gs_reach. destruct lay; vm_compute; reflexivity.
  - apply (li_base_points (E := E) _ _ _ 5); [destruct lay; vm_compute; reflexivity|lia].
  - destruct lay; vm_compute; lia.
  - destruct lay; vm_compute; lia.
  - assert (C : match c_emplace_pos pos 40 (SVal 4) (fst s, snd s) with
      Exn (c', w') UserExn => match traverse 20 c' (c_begin c') (c_end c') with Some l => negb (length l =? c_size c') | None => false end
      | _ => false end = true) by (destruct lay; vm_compute; reflexivity).
    destruct (c_emplace_pos pos 40 (SVal 4) (fst s, snd s)) as [|[c' w'] []|]; try discriminate.
    exists c', w'. split; auto. eapply short_invalid; eauto.
Qed.

(** ** C33 Failing erasure *)

(** Erasing ranges: the collection stays in working order. *)
Theorem C33_erase_range {V} {E : Env V} w c g d first last i j : reach w (c :: g) d ->
  located c first i -> located c last j -> i <= j ->
  wp (c_erase_range first last) (c, w) (fun _ _ => True)
    (fun '(c', w') e => reach w' (c' :: g) d /\ types c' = types c /\ length (flat c') <= length (flat c) /\ e = UserExn).
Proof.
  intros H P P' Hij. eapply wp_mono;
    [eapply call_exn_reach; [exact H|apply (api_erase_range g c first last i j P P' Hij)|apply (spec_erase_range w c g d first last i j H P P' Hij)]|auto|].
  intros [c' w'] e (R & A & _ & B & C & _). cbn [fst snd] in R. csplit; auto.
Qed.
Example C33_erase_range_ex lay : let n := match lay with PackedLayout => 21 | SplitLayout => 32 end in
  let E := fE lay n in let s := gs E (five 40) in
  reach (snd s) [fst s] [] /\ located (fst s) (it_at (fst s) 4 1) 1 /\ located (fst s) (it_at (fst s) 4 3) 3 /\
  throws (c_erase_range (it_at (fst s) 4 1) (it_at (fst s) 4 3) s) UserExn.
Proof.
  intros n E s. csplit.
  - apply gs_reach. destruct lay; vm_compute; reflexivity.
  - right. exists 4, 1. split; [|destruct lay; vm_compute; reflexivity]. apply (it_at_points (E := E) _ 4 1 5); [destruct lay; vm_compute; reflexivity|lia].
  - right. exists 4, 3. split; [|destruct lay; vm_compute; reflexivity]. apply (it_at_points (E := E) _ 4 3 5); [destruct lay; vm_compute; reflexivity|lia].
  - apply throwsb_ok. destruct lay; vm_compute; reflexivity.
Qed.

(** Erasing ranges of a segment. *)
Theorem C33_erase_local_range {V} {E : Env V} w c g d first last t f l : reach w (c :: g) d ->
  lpoints c first t f -> lpoints c last t l -> f <= l ->
  wp (c_erase_local_range first last) (c, w) (fun _ _ => True)
    (fun '(c', w') e => reach w' (c' :: g) d /\ erase_threw c c' w w' t e).
Proof.
  intros H P P' Hij. eapply wp_mono;
    [eapply call_exn_reach; [exact H|apply (api_erase_local_range g c first last t f l P P' Hij)
      |apply (spec_erase_local_range w c g d first last t f l H P P' Hij)]|auto|].
  intros [c' w'] e (R & A). cbn [fst snd] in R. csplit; auto.
Qed.
Example C33_erase_local_range_ex lay : let n := match lay with PackedLayout => 21 | SplitLayout => 32 end in
  let E := fE lay n in let s := gs E (five 40) in
  reach (snd s) [fst s] [] /\ lpoints (fst s) (li_base (fst s) 4 1) 4 1 /\ lpoints (fst s) (li_base (fst s) 4 3) 4 3 /\
  throws (c_erase_local_range (li_base (fst s) 4 1) (li_base (fst s) 4 3) s) UserExn.
Proof.
  intros n E s. csplit.
  - apply gs_reach. destruct lay; vm_compute; reflexivity.
  - apply (li_base_points (E := E) _ 4 1 5); [destruct lay; vm_compute; reflexivity|lia].
  - apply (li_base_points (E := E) _ 4 3 5); [destruct lay; vm_compute; reflexivity|lia].
  - apply throwsb_ok. destruct lay; vm_compute; reflexivity.
Qed.

(** Erasing one element of a base_collection.  What is missing: any_collection and
    function_collection, for which this is false (below). *)
Theorem C33_erase_partial {V} {E : Env V} w c g d pos t k : reach w (c :: g) d -> points c pos t k ->
  wp (c_erase pos) (c, w) (fun _ _ => True)
    (fun '(c', w') e => erase_threw c c' w w' t e /\ (env_layout = PackedLayout -> reach w' (c' :: g) d)).
Proof.
  intros H P. eapply wp_mono;
    [eapply call_exn_reach; [exact H|apply (api_erase g c pos t k P)|apply (spec_erase w c g d pos t k H P)]|auto|].
  intros [c' w'] e (R & A). cbn [fst snd] in R. csplit; auto.
Qed.
Example C33_erase_partial_ex lay : let n := match lay with PackedLayout => 21 | SplitLayout => 32 end in
  let E := fE lay n in let s := gs E (five 40) in
  reach (snd s) [fst s] [] /\ points (fst s) (it_at (fst s) 4 1) 4 1 /\ throws (c_erase (it_at (fst s) 4 1) s) UserExn.
Proof.
  intros n E s. csplit.
  - apply gs_reach. destruct lay; vm_compute; reflexivity.
  - apply (it_at_points (E := E) _ 4 1 5); [destruct lay; vm_compute; reflexivity|lia].
  - apply throwsb_ok. destruct lay; vm_compute; reflexivity.
Qed.

(** In an any_collection, a throwing erase(pos) followed by a successful emplace: traversal
    leaves the storage. *)
Theorem C33_erase_refuted : exists (E : Env nat) w c pos t k a v, env_layout = SplitLayout /\ reach w [c] [] /\ points c pos t k /\
  exists c1 w1 c2 w2 it, c_erase pos (c, w) = Exn (c1, w1) UserExn /\ c_emplace a (SVal v) (c1, w1) = Ok (c2, w2) it /\ ~ valid c2.
Proof.
  pose (E := fE SplitLayout 32). pose (s := gs E (five 40)). pose (pos := it_at (fst s) 4 0).
  exists E, (snd s), (fst s), pos, 4, 0, 40, 4. csplit.
  - reflexivity.
  - apply gs_reach. vm_compute; reflexivity.
  - apply (it_at_points (E := E) _ 4 0 5); [vm_compute; reflexivity|lia].
  - assert (C : match c_erase pos (fst s, snd s) with
      Exn (c1, w1) UserExn => match c_emplace 40 (SVal 4) (c1, w1) with Ok (c2, w2) _ => stuck 20 c2 (c_begin c2) (c_end c2) | _ => false end
      | _ => false end = true) by (vm_compute; reflexivity).
    destruct (c_erase pos (fst s, snd s)) as [|[c1 w1] []|]; try discriminate.
    destruct (c_emplace 40 (SVal 4) (c1, w1)) as [[c2 w2] it| |] eqn:Q; try discriminate.
    exists c1, w1, c2, w2, it. csplit; auto. eapply stuck_invalid; eauto.
Qed.

(** ** C34 Failing range insertion *)

(** The collection stays in working order, with the elements before the culprit inserted, in
    a base_collection (if the elements at the hint are moved without exceptions) and, where all
    segments concerned have room, in the others.  What is missing: ranges of a terminal type,
    and any_collection and function_collection whose segments have to grow, for which the claim
    is false (below, and C32). *)
Lemma same_but_elems {V} {E : Env V} (c c' : coll V) t u : NoDup (types c') -> same_but c c' t -> elems c' u = elems c u.
Proof.
  intros N [Q|(S & P)]; unfold elems, seg_of in *; [rewrite Q; auto|].
  assert (N2 : NoDup (map fst ((t, []) :: content c))) by (eapply Permutation_NoDup; [apply Permutation_map; exact P|exact N]).
  rewrite <- (assoc_perm _ _ u N P). cbn [assoc]. destruct (Nat.eqb_spec t u) as [->|]; auto. rewrite S. auto.
Qed.
Lemma broke_first {V} {E : Env V} xs hs h (c c' : coll V) w w' l e : NoDup (types c') -> broke_off xs hs h c c' w w' l e ->
  range_safe h c l \/ (exists t, e = UnregisteredType t) -> first_ones h c c' l.
Proof.
  intros N (_ & pre & t & v & post & c1 & El & G & Cs) Sf. exists pre, ((t, v) :: post). csplit; auto; [discriminate|].
  intros u. rewrite <- (g_elems _ _ _ _ G u).
  destruct Cs as [(hw & _ & _ & Th & Rb)|(x & _ & _ & _ & _ & Un)].
  - destruct Sf as [Sf|(t' & ->)]; [|exfalso; eapply threw_not_unreg; eauto].
    rewrite El in Sf. specialize (Rb (range_safe_at h c c1 pre t v post G Sf)).
    eapply same_but_elems; [exact N|apply Rb].
  - unfold elems, seg_of. rewrite (u_content _ _ Un). auto.
Qed.
Lemma reach_nodup {V} {E : Env V} w (c : coll V) g d : reach w (c :: g) d -> NoDup (types c).
Proof. intros H. destruct (reach_wf _ _ _ _ H) as (W & _). rewrite types_nodes. apply (wm_tys _ _ (wc_map _ _ W)). Qed.

(** Ranges of references. *)
Theorem C34_range_partial {V} {E : Env V} w c g d xs l : reach w (c :: g) d -> Forall2 gives xs l ->
  wp (c_insert_range xs) (c, w) (fun _ _ => True)
    (fun '(c', w') e => broke_off xs (map a_how xs) None c c' w w' l e /\
       (range_safe None c l \/ (exists t, e = UnregisteredType t) -> reach w' (c' :: g) d /\ first_ones None c c' l)).
Proof.
  intros H F. pose proof (spec_insert_range w c g d xs l H F) as S. unfold wp in *.
  destruct (c_insert_range xs (c, w)) as [[c' w'] r|[c' w'] e|] eqn:Q; auto. split; auto.
  intros Sf. assert (Rc : reach w' (c' :: g) d).
  { eapply (r_call_exn w c g d); [exact H|apply (api_range g c xs l F)|exact Q|exact Sf]. }
  split; auto. eapply broke_first; [eapply reach_nodup; exact Rc|exact S|exact Sf].
Qed.
Definition args3 : list (arg nat) := [mkarg 10 20 true false HCopy (SVal 1); mkarg 10 10 true false HCopy (SVal 2); mkarg 10 20 true false HCopy (SVal 3)].
(** The second of three elements fails. *)
Example C34_range_partial_ex : let E := fE PackedLayout 23 in let s := gs E (five 10 ++ [(20, Some 2)]) in
  reach (snd s) [fst s] [] /\ Forall2 gives args3 [(2, 1); (1, 2); (2, 3)] /\ range_safe None (fst s) [(2, 1); (1, 2); (2, 3)] /\
  throws (c_insert_range args3 s) UserExn.
Proof.
  cbv zeta. csplit; [apply gs_reach; vm_compute; reflexivity| | |apply throwsb_ok; vm_compute; reflexivity].
  - repeat constructor; intros Q; discriminate.
  - split; [|intros Q]; discriminate.
Qed.
(** In an any_collection: type 1 has five elements and room for one more, type 2 seven and room for two. *)
Definition seven (a : tiaddr) : list (tiaddr * option nat) := [(a, Some 5); (a, Some 6); (a, Some 7); (a, Some 8); (a, Some 9); (a, Some 5); (a, Some 6)].
Example C34_range_split_ex : let E := fE SplitLayout 49 in let s := gs E (five 10 ++ seven 20) in
  reach (snd s) [fst s] [] /\ Forall2 gives args3 [(2, 1); (1, 2); (2, 3)] /\ range_safe None (fst s) [(2, 1); (1, 2); (2, 3)] /\
  throws (c_insert_range args3 s) UserExn.
Proof.
  cbv zeta. csplit; [apply gs_reach; vm_compute; reflexivity| | |apply throwsb_ok; vm_compute; reflexivity].
  - repeat constructor; intros Q; discriminate.
  - split; [discriminate|]. intros _ t Ht. cbn in Ht. destruct Ht as [<-|[<-|[<-|[]]]]; vm_compute; lia.
Qed.

(** ... with a hint *)
Theorem C34_hint_range_partial {V} {E : Env V} w c g d hint h xs l : reach w (c :: g) d -> hint_is c hint h -> Forall2 gives xs l -> hsafe h c l ->
  wp (c_insert_hint_range hint xs) (c, w) (fun _ _ => True)
    (fun '(c', w') e => broke_off xs (map a_how xs) h c c' w w' l e /\
       (range_safe h c l \/ (exists t, e = UnregisteredType t) -> reach w' (c' :: g) d /\ first_ones h c c' l)).
Proof.
  intros H Hh F Hs. pose proof (spec_insert_hint_range w c g d hint h xs l H Hh F Hs) as S. unfold wp in *.
  destruct (c_insert_hint_range hint xs (c, w)) as [[c' w'] r|[c' w'] e|] eqn:Q; auto. split; auto.
  intros Sf. assert (Rc : reach w' (c' :: g) d).
  { eapply (r_call_exn w c g d); [exact H|apply (api_hint_range g c hint h xs l Hh F Hs)|exact Q|exact Sf]. }
  split; auto. eapply broke_first; [eapply reach_nodup; exact Rc|exact S|exact Sf].
Qed.
Example C34_hint_range_partial_ex : let E := fE PackedLayout 23 in let s := gs E (five 10 ++ [(20, Some 2)]) in
  let hint := it_at (fst s) 1 2 in
  reach (snd s) [fst s] [] /\ hint_is (fst s) hint (Some (1, 2)) /\ Forall2 gives args3 [(2, 1); (1, 2); (2, 3)] /\
  hsafe (Some (1, 2)) (fst s) [(2, 1); (1, 2); (2, 3)] /\ range_safe (Some (1, 2)) (fst s) [(2, 1); (1, 2); (2, 3)] /\
  throws (c_insert_hint_range hint args3 s) UserExn.
Proof.
  cbv zeta. csplit; [apply gs_reach; vm_compute; reflexivity| | | | |apply throwsb_ok; vm_compute; reflexivity].
  - apply (it_at_points (E := fE PackedLayout 23) _ 1 2 5); [vm_compute; reflexivity|lia].
  - repeat constructor; intros Q; discriminate.
  - right. right. vm_compute. reflexivity.
  - split; [intros t k Q _; inversion Q; vm_compute; reflexivity|intros Q; discriminate Q].
Qed.

(** Elements of another collection. *)
Theorem C34_from_partial {V} {E : Env V} w c g d y first last i j : let l := firstn (j - i) (skipn i (flat y)) in
  reach w (c :: g) d -> In y g -> located y first i -> located y last j -> i <= j ->
  wp (c_insert_from (length (flat y)) y first last) (c, w) (fun _ _ => True)
    (fun '(c', w') e => broke_off [] (repeat HCopy (length l)) None c c' w w' l e /\
       (range_safe None c l -> reach w' (c' :: g) d /\ first_ones None c c' l)).
Proof.
  intros l H Hy P P' Hij. pose proof (spec_insert_from w c g d y first last i j H Hy P P' Hij) as S. unfold wp in *.
  destruct (c_insert_from (length (flat y)) y first last (c, w)) as [[c' w'] r|[c' w'] e|] eqn:Q; auto. split; auto.
  intros Sf. assert (Rc : reach w' (c' :: g) d).
  { eapply (r_call_exn w c g d); [exact H|apply (api_from g c y first last i j Hy P P' Hij)|exact Q|exact Sf]. }
  split; auto. eapply broke_first; [eapply reach_nodup; exact Rc|exact S|left; exact Sf].
Qed.
Example C34_from_partial_ex : let E := fE PackedLayout 24 in let s := gs E (five 10) in let y := fst s in
  reach (snd s) [c_empty 1; y] [] /\ located y (c_begin y) 0 /\ located y (c_end y) 5 /\
  range_safe None (c_empty 1) (firstn (5 - 0) (skipn 0 (flat y))) /\
  throws (c_insert_from (length (flat y)) y (c_begin y) (c_end y) (c_empty 1, snd s)) UserExn.
Proof.
  cbv zeta. csplit; [apply r_new; apply gs_reach; vm_compute; reflexivity| | | |apply throwsb_ok; vm_compute; reflexivity].
  - right. exists 1, 0. split; [|vm_compute; reflexivity].
    assert (Q : let E := fE PackedLayout 24 in c_begin (fst (gs E (five 10))) = it_at (fst (gs E (five 10))) 1 0) by (vm_compute; reflexivity).
    cbv zeta in Q. rewrite Q. apply (it_at_points (E := fE PackedLayout 24) _ 1 0 5); [vm_compute; reflexivity|lia].
  - left. split; [reflexivity|vm_compute; reflexivity].
  - split; [intros t k Q; discriminate Q|intros Q; discriminate Q].
Qed.
Theorem C34_hint_from_partial {V} {E : Env V} w c g d hint h y first last i j : let l := firstn (j - i) (skipn i (flat y)) in
  reach w (c :: g) d -> hint_is c hint h -> In y g -> located y first i -> located y last j -> i <= j -> hsafe h c l ->
  wp (c_insert_hint_from (length (flat y)) hint y first last) (c, w) (fun _ _ => True)
    (fun '(c', w') e => broke_off [] (repeat HCopy (length l)) h c c' w w' l e /\
       (range_safe h c l -> reach w' (c' :: g) d /\ first_ones h c c' l)).
Proof.
  intros l H Hh Hy P P' Hij Hs. pose proof (spec_insert_hint_from w c g d hint h y first last i j H Hh Hy P P' Hij Hs) as S. unfold wp in *.
  destruct (c_insert_hint_from (length (flat y)) hint y first last (c, w)) as [[c' w'] r|[c' w'] e|] eqn:Q; auto. split; auto.
  intros Sf. assert (Rc : reach w' (c' :: g) d).
  { eapply (r_call_exn w c g d); [exact H|apply (api_hint_from g c hint h y first last i j Hh Hy P P' Hij Hs)|exact Q|exact Sf]. }
  split; auto. eapply broke_first; [eapply reach_nodup; exact Rc|exact S|left; exact Sf].
Qed.
(** A collection and a copy of it, into which elements of the former are inserted. *)
Definition twin (E : Env nat) (l : list (tiaddr * option nat)) : coll nat * world :=
  match c_copy (fst (gs E l)) (snd (gs E l)) with Ok w c => (c, w) | _ => (c_empty 0, snd (gs E l)) end.
Lemma twin_reach (E : Env nat) l : done (script l (c_empty 0, mkworld 1 [] 0 0 0)) = true -> done (c_copy (fst (gs E l)) (snd (gs E l))) = true ->
  reach (snd (twin E l)) [fst (twin E l); fst (gs E l)] [].
Proof.
  intros D1 D2. pose proof (gs_reach E l D1) as R. unfold twin.
  destruct (c_copy (fst (gs E l)) (snd (gs E l))) as [w c| |] eqn:Q; [|discriminate..]. eapply r_copy; eauto.
Qed.
Example C34_hint_from_partial_ex : let E := fE PackedLayout 52 in let y := fst (gs E (five 10 ++ seven 20)) in
  let s := twin E (five 10 ++ seven 20) in let hint := it_at (fst s) 1 2 in let first := it_at y 1 1 in let last := it_at y 1 4 in
  reach (snd s) [fst s; y] [] /\ hint_is (fst s) hint (Some (1, 2)) /\ In y [y] /\ located y first 8 /\ located y last 11 /\
  hsafe (Some (1, 2)) (fst s) (firstn (11 - 8) (skipn 8 (flat y))) /\ range_safe (Some (1, 2)) (fst s) (firstn (11 - 8) (skipn 8 (flat y))) /\
  throws (c_insert_hint_from (length (flat y)) hint y first last s) UserExn.
Proof.
  cbv zeta. csplit; [apply twin_reach; vm_compute; reflexivity| |left; reflexivity| | | | |apply throwsb_ok; vm_compute; reflexivity].
  - apply (it_at_points (E := fE PackedLayout 52) _ 1 2 5); [vm_compute; reflexivity|lia].
  - apply (it_at_located' (E := fE PackedLayout 52) _ 1 1 5); [vm_compute; reflexivity|lia|vm_compute; reflexivity].
  - apply (it_at_located' (E := fE PackedLayout 52) _ 1 4 5); [vm_compute; reflexivity|lia|vm_compute; reflexivity].
  - right. right. vm_compute. reflexivity.
  - split; [intros t k Q _; inversion Q; vm_compute; reflexivity|intros Q; discriminate Q].
Qed.

(** Ranges of local iterators, whose type may be unknown. *)
Theorem C34_local_partial {V} {E : Env V} w c g d a xs : let l := map (pair (env_ty a)) xs in
  reach w (c :: g) d -> 
  wp (c_insert_local a (env_ty a) xs) (c, w) (fun _ _ => True)
    (fun '(c', w') e => broke_off [] (repeat HCopy (length xs)) None c c' w w' l e /\
       (range_safe None c l -> reach w' (c' :: g) d /\ first_ones None c c' l)).
Proof.
  intros l H . pose proof (spec_insert_local w c g d a xs H) as S. unfold wp in *.
  destruct (c_insert_local a (env_ty a) xs (c, w)) as [[c' w'] r|[c' w'] e|] eqn:Q; auto. split; auto.
  intros Sf. assert (Rc : reach w' (c' :: g) d).
  { eapply (r_call_exn w c g d); [exact H|apply (api_local g c a xs)|exact Q|exact Sf]. }
  split; auto. eapply broke_first; [eapply reach_nodup; exact Rc|exact S|left; exact Sf].
Qed.
(** The second of two elements fails; the segment had room for both. *)
Example C34_local_partial_ex : let E := fE SplitLayout 49 in let s := gs E (five 10 ++ seven 20) in
  reach (snd s) [fst s] [] /\ range_safe None (fst s) (map (pair (env_ty 20)) [3; 4]) /\ throws (c_insert_local 20 (env_ty 20) [3; 4] s) UserExn.
Proof.
  cbv zeta. csplit; [apply gs_reach; vm_compute; reflexivity| |apply throwsb_ok; vm_compute; reflexivity].
  split; [discriminate|]. intros _ t Ht. cbn in Ht. destruct Ht as [<-|[<-|[]]]; vm_compute; lia.
Qed.
Theorem C34_hint_local_partial {V} {E : Env V} w c g d hint h a xs : let l := map (pair (env_ty a)) xs in
  reach w (c :: g) d -> hint_is c hint h -> hsafe h c l ->
  wp (c_insert_hint_local hint a (env_ty a) xs) (c, w) (fun _ _ => True)
    (fun '(c', w') e => broke_off [] (repeat HCopy (length xs)) h c c' w w' l e /\
       (range_safe h c l -> reach w' (c' :: g) d /\ first_ones h c c' l)).
Proof.
  intros l H Hh Hs. pose proof (spec_insert_hint_local w c g d hint h a xs H Hh Hs) as S. unfold wp in *.
  destruct (c_insert_hint_local hint a (env_ty a) xs (c, w)) as [[c' w'] r|[c' w'] e|] eqn:Q; auto. split; auto.
  intros Sf. assert (Rc : reach w' (c' :: g) d).
  { eapply (r_call_exn w c g d); [exact H|apply (api_hint_local g c hint h a xs Hh Hs)|exact Q|exact Sf]. }
  split; auto. eapply broke_first; [eapply reach_nodup; exact Rc|exact S|left; exact Sf].
Qed.
Example C34_hint_local_partial_ex : let E := fE SplitLayout 49 in let s := gs E (five 10 ++ seven 20) in let hint := it_at (fst s) 2 3 in
  reach (snd s) [fst s] [] /\ hint_is (fst s) hint (Some (2, 3)) /\ hsafe (Some (2, 3)) (fst s) (map (pair (env_ty 20)) [3; 4]) /\
  range_safe (Some (2, 3)) (fst s) (map (pair (env_ty 20)) [3; 4]) /\ throws (c_insert_hint_local hint 20 (env_ty 20) [3; 4] s) UserExn.
Proof.
  cbv zeta. csplit; [apply gs_reach; vm_compute; reflexivity| | | |apply throwsb_ok; vm_compute; reflexivity].
  - apply (it_at_points (E := fE SplitLayout 49) _ 2 3 7); [vm_compute; reflexivity|lia].
  - right. right. vm_compute. reflexivity.
  - split; [intros t k Q _; inversion Q; vm_compute; reflexivity|]. intros _ t Ht. cbn in Ht. destruct Ht as [<-|[<-|[]]]; vm_compute; lia.
Qed.

(** Ranges at local positions. *)
Theorem C34_pos_range_partial {V} {E : Env V} w c g d pos t k xs vs : let l := map (pair t) vs in
  reach w (c :: g) d -> lpoints c pos t k -> Forall2 (gives_at t) xs vs ->
  wp (c_insert_pos_range pos xs) (c, w) (fun _ _ => True)
    (fun '(c', w') e => broke_off [] (map a_how xs) (Some (t, k)) c c' w w' l e /\
       (range_safe (Some (t, k)) c l -> reach w' (c' :: g) d /\ first_ones (Some (t, k)) c c' l)).
Proof.
  intros l H P F. pose proof (spec_insert_pos_range w c g d pos t k xs vs H P F) as S. unfold wp in *.
  destruct (c_insert_pos_range pos xs (c, w)) as [[c' w'] r|[c' w'] e|] eqn:Q; auto. split; auto.
  intros Sf. assert (Rc : reach w' (c' :: g) d).
  { eapply (r_call_exn w c g d); [exact H|apply (api_pos_range g c pos t k xs vs P F)|unfold void, bind; rewrite Q; reflexivity|exact Sf]. }
  split; auto. eapply broke_first; [eapply reach_nodup; exact Rc|exact S|left; exact Sf].
Qed.
Definition args2 : list (arg nat) := [mkarg 10 20 true false HCopy (SVal 1); mkarg 10 20 true false HCopy (SVal 3)].
Example C34_pos_range_partial_ex : let E := fE SplitLayout 49 in let s := gs E (five 10 ++ seven 20) in let pos := li_base (fst s) 2 3 in
  reach (snd s) [fst s] [] /\ lpoints (fst s) pos 2 3 /\ Forall2 (gives_at 2) args2 [1; 3] /\
  range_safe (Some (2, 3)) (fst s) (map (pair 2) [1; 3]) /\ throws (c_insert_pos_range pos args2 s) UserExn.
Proof.
  cbv zeta. csplit; [apply gs_reach; vm_compute; reflexivity| | | |apply throwsb_ok; vm_compute; reflexivity].
  - apply (li_base_points (E := fE SplitLayout 49) _ 2 3 7); [vm_compute; reflexivity|lia].
  - repeat constructor.
  - split; [intros t k Q _; inversion Q; vm_compute; reflexivity|]. intros _ t Ht. cbn in Ht. destruct Ht as [<-|[<-|[]]]; vm_compute; lia.
Qed.
Theorem C34_lpos_range_partial {V} {E : Env V} w c g d i p a k xs : let t := env_ty a in let l := map (pair t) (map snd xs) in
  reach w (c :: g) d -> lpoints c (mkliter i (PConc p)) t k ->
  wp (c_insert_lpos_range i t p xs) (c, w) (fun _ _ => True)
    (fun '(c', w') e => broke_off [] (map (way t) xs) (Some (t, k)) c c' w w' l e /\
       (range_safe (Some (t, k)) c l -> reach w' (c' :: g) d /\ first_ones (Some (t, k)) c c' l)).
Proof.
  intros t l H P. pose proof (spec_insert_lpos_range w c g d i p k a xs H P) as S. subst l t. unfold wp in *.
  destruct (c_insert_lpos_range i (env_ty a) p xs (c, w)) as [[c' w'] r|[c' w'] e|] eqn:Q; auto. split; auto.
  intros Sf. assert (Rc : reach w' (c' :: g) d).
  { eapply (r_call_exn w c g d); [exact H|apply (api_lpos_range g c i p a k xs P)|unfold void, bind; rewrite Q; reflexivity|exact Sf]. }
  split; auto. eapply broke_first; [eapply reach_nodup; exact Rc|exact S|left; exact Sf].
Qed.
Example C34_lpos_range_partial_ex : let E := fE SplitLayout 49 in let s := gs E (five 10 ++ seven 20) in
  let l := li_conc (fst s) 2 3 in let xs := [(Some 2, HCopy, 1); (None, HCopy, 3)] in
  reach (snd s) [fst s] [] /\ lpoints (fst s) l 2 3 /\ range_safe (Some (2, 3)) (fst s) (map (pair 2) (map snd xs)) /\
  exists p, li_pos l = PConc p /\ throws (c_insert_lpos_range (li_map l) 2 p xs s) UserExn.
Proof.
  cbv zeta. csplit; [apply gs_reach; vm_compute; reflexivity| | |].
  - apply (li_conc_points (E := fE SplitLayout 49) _ 2 3 7); [vm_compute; reflexivity|lia].
  - split; [intros t k Q _; inversion Q; vm_compute; reflexivity|]. intros _ t Ht. cbn in Ht. destruct Ht as [<-|[<-|[]]]; vm_compute; lia.
  - eexists. split; [vm_compute; reflexivity|]. apply throwsb_ok. vm_compute. reflexivity.
Qed.
(** Ranges of one type, in a base_collection and given by forward iterators: if there is no memory
    for the elements or there would be too many, nothing has been inserted.  What is missing:
    exceptions of the constructors, input iterators, and any_collection and function_collection (below). *)
Theorem C34_terminal_partial {V} {E : Env V} w c g d a h xs : let t := env_ty a in
  env_layout = PackedLayout -> reach w (c :: g) d ->
  wp (c_insert_range_terminal a h true xs) (c, w) (fun _ _ => True)
    (fun '(c', w') e => threw t h (length (elems c t)) (length xs) w w' e /\
       (e = BadAlloc \/ e = LengthError -> reach w' (c' :: g) d /\ rolled_back c c' t)).
Proof.
  intros t Ly H. pose proof (spec_insert_range_terminal w c g d a h true xs H) as S. unfold wp in *.
  destruct (c_insert_range_terminal a h true xs (c, w)) as [[c' w'] r|[c' w'] e|] eqn:Q; auto.
  destruct S as (_ & _ & Th & Rb). split; auto. intros Ee. assert (Sf : many_safe true e) by (split; auto).
  split; auto. eapply (r_call_exn w c g d); [exact H|apply (api_range_terminal g c a h true xs)|exact Q|exact Sf].
Qed.
(** There is no memory for four more elements. *)
Example C34_terminal_partial_ex : let E := fE PackedLayout 14 in let s := gs E (five 10) in
  env_layout = PackedLayout /\ reach (snd s) [fst s] [] /\
  throws (c_insert_range_terminal 10 HCopy true [1; 2; 3; 4] s) BadAlloc.
Proof. cbv zeta. csplit; [reflexivity|apply gs_reach; vm_compute; reflexivity|apply throwsb_ok; vm_compute; reflexivity]. Qed.
Theorem C34_hint_terminal_partial {V} {E : Env V} w c g d hint hn a h xs : let t := env_ty a in
  env_layout = PackedLayout -> reach w (c :: g) d -> hint_is c hint hn -> hsafe hn c (map (pair t) xs) ->
  wp (c_insert_hint_range_terminal hint a h true xs) (c, w) (fun _ _ => True)
    (fun '(c', w') e => threw t h (length (elems c t)) (length xs) w w' e /\
       (e = BadAlloc \/ e = LengthError -> reach w' (c' :: g) d /\ rolled_back c c' t)).
Proof.
  intros t Ly H Hh Hs. pose proof (spec_insert_hint_range_terminal w c g d hint hn a h true xs H Hh Hs) as S. unfold wp in *.
  destruct (c_insert_hint_range_terminal hint a h true xs (c, w)) as [[c' w'] r|[c' w'] e|] eqn:Q; auto.
  destruct S as (_ & _ & Th & Rb). split; auto. intros Ee. assert (Sf : many_safe true e) by (split; auto).
  split; auto. eapply (r_call_exn w c g d); [exact H|apply (api_hint_range_terminal g c hint hn a h true xs Hh Hs)|exact Q|exact Sf].
Qed.
Example C34_hint_terminal_partial_ex : let E := fE PackedLayout 14 in let s := gs E (five 10) in let hint := it_at (fst s) 1 2 in
  env_layout = PackedLayout /\ reach (snd s) [fst s] [] /\ hint_is (fst s) hint (Some (1, 2)) /\
  hsafe (Some (1, 2)) (fst s) (map (pair (env_ty 10)) [1; 2; 3; 4]) /\
  throws (c_insert_hint_range_terminal hint 10 HCopy true [1; 2; 3; 4] s) BadAlloc.
Proof.
  cbv zeta. csplit; [reflexivity|apply gs_reach; vm_compute; reflexivity| |right; right; reflexivity|apply throwsb_ok; vm_compute; reflexivity].
  apply (it_at_points (E := fE PackedLayout 14) _ _ _ 5); [vm_compute; reflexivity|lia].
Qed.
(** A range of a terminal type inserted in front of a segment: size() counts an element which
    traversal does not reach, in all three collections. *)
Theorem C34_terminal_refuted lay : exists (E : Env nat) w c hint a v, env_layout = lay /\ reach w [c] [] /\
  points c hint (env_ty a) 0 /\ quiet (env_ty a) = true /\
  exists c' w', c_insert_hint_range_terminal hint a HCopy true [v] (c, w) = Exn (c', w') UserExn /\ ~ valid c'.
Proof.
  pose (n := match lay with PackedLayout => 14 | SplitLayout => 22 end).
  pose (E := with_junk 1 (fE lay n)). pose (s := gs E (five 10)). pose (hint := it_at (fst s) 1 0).
  exists E, (snd s), (fst s), hint, 10, 4. csplit.
  - reflexivity.
  - apply gs_reach. destruct lay; vm_compute; reflexivity.
  - apply (it_at_points (E := E) _ _ _ 5); [destruct lay; vm_compute; reflexivity|lia].
  - reflexivity.
  - assert (C : match c_insert_hint_range_terminal hint 10 HCopy true [4] (fst s, snd s) with
      Exn (c', w') UserExn => match traverse 20 c' (c_begin c') (c_end c') with Some l => negb (length l =? c_size c') | None => false end
      | _ => false end = true) by (destruct lay; vm_compute; reflexivity).
    destruct (c_insert_hint_range_terminal hint 10 HCopy true [4] (fst s, snd s)) as [|[c' w'] []|]; try discriminate.
    exists c', w'. split; auto. eapply short_invalid; eauto.
Qed.
(** In an any_collection also where a failing constructor cannot leave anything behind: when the
    segment had to grow for the range. *)
Theorem C34_terminal_grow_refuted : exists (E : Env nat) w c a vs, env_layout = SplitLayout /\ reach w [c] [] /\ In (env_ty a) (types c) /\
  (forall n, env_junk_len n = 0) /\
  exists c' w', c_insert_range_terminal a HCopy true vs (c, w) = Exn (c', w') UserExn /\ ~ valid c'.
Proof.
  pose (E := fE SplitLayout 18). pose (s := gs E [(10, Some 5); (10, Some 6); (10, Some 7)]).
  exists E, (snd s), (fst s), 10, [1; 2; 3]. csplit.
  - reflexivity.
  - apply gs_reach. vm_compute; reflexivity.
  - vm_compute. auto.
  - reflexivity.
  - assert (C : match c_insert_range_terminal 10 HCopy true [1; 2; 3] (fst s, snd s) with
      Exn (c', w') UserExn => stuck 20 c' (c_begin c') (c_end c') | _ => false end = true) by (vm_compute; reflexivity).
    destruct (c_insert_range_terminal 10 HCopy true [1; 2; 3] (fst s, snd s)) as [|[c' w'] []|]; try discriminate.
    exists c', w'. split; auto. eapply stuck_invalid; eauto.
Qed.

(** ** C35 Inserting an element of the collection itself *)

Lemma elems_registered {V} {E : Env V} (c : coll V) t : elems c t <> [] -> In t (types c).
Proof.
  unfold elems, seg_of, types. intros N. induction (content c) as [|[t' xs] l IH]; simpl in *; [congruence|].
  destruct (Nat.eqb_spec t' t); auto.
Qed.

(** The argument of insert refers to the [j]-th element of type [t], with value [v].  The
    source may be any element, in particular one which the insertion displaces.  What is missing: full segments of an
    any_collection or function_collection, for which this is false (below). *)
Theorem C35_insert_partial {V} {E : Env V} w c g d x j p v : let t := env_ty (a_dyn x) in let k := length (elems c t) in
  reach w (c :: g) d -> arg_ok x -> addr_of c t j = Some p -> a_src x = SRef p -> a_how x <> HMove -> nth_error (elems c t) j = Some v ->
  (env_layout = SplitLayout -> length (elems c t) < cap_of c t) ->
  wp (c_insert x) (c, w)
    (fun '(c', w') it => elems c' t = elems c t ++ [v] /\ inserted c c' t k v /\ points c' it t k)
    (fun '(c', w') e => threw t (a_how x) k 1 w w' e).
Proof.
  intros t k H Hx Ha Hs Hm Hv Hc. assert (S : src_c c t (a_how x) (a_src x) v) by (right; exists j, p; csplit; auto).
  eapply wp_mono; [apply (spec_insert w c g d x v H Hx S)| |].
  - intros [c' w'] it (_ & I & P). csplit; auto. rewrite (g_elems _ _ _ _ (in_grew _ _ _ _ _ I)). unfold slot, of_type.
    rewrite Nat.eqb_refl. cbn. fold t. rewrite Nat.eqb_refl. cbn. rewrite firstn_all, skipn_all. reflexivity.
  - intros [c' w'] e [((N & _) & _)|(_ & _ & Th & _)]; auto. exfalso. apply N. eapply elems_registered.
    intros Q. fold t in Q. rewrite Q in Hv. destruct j; discriminate.
Qed.
Theorem C35_position_partial {V} {E : Env V} w c g d pos k x j p v : let t := env_ty (a_dyn x) in
  reach w (c :: g) d -> lpoints c pos t k -> addr_of c t j = Some p -> a_src x = SRef p -> a_how x <> HMove -> nth_error (elems c t) j = Some v ->
  (env_layout = SplitLayout -> length (elems c t) < cap_of c t) ->
  wp (c_insert_pos pos x) (c, w)
    (fun '(c', w') l => elems c' t = firstn k (elems c t) ++ v :: skipn k (elems c t) /\ inserted c c' t k v /\ lpoints c' l t k)
    (fun '(c', w') e => threw t (a_how x) (length (elems c t)) 1 w w' e).
Proof.
  intros t H Hp Ha Hs Hm Hv Hc. assert (S : src_c c t (a_how x) (a_src x) v) by (right; exists j, p; csplit; auto).
  eapply wp_mono; [apply (spec_insert_pos w c g d pos k x v H Hp S)| |].
  - intros [c' w'] it (I & P). csplit; auto. rewrite (g_elems _ _ _ _ (in_grew _ _ _ _ _ I)). unfold slot, of_type.
    rewrite Nat.eqb_refl. cbn. fold t. rewrite Nat.eqb_refl. reflexivity.
  - intros [c' w'] e (_ & Th & _). exact Th.
Qed.
(** In an any_collection too, if there is room: the second of five elements. *)
Definition ref_arg (a : tiaddr) (p : ptr) : arg nat := mkarg a a true false HCopy (SRef p).
Example C35_insert_partial_ex lay : let E := dE lay in let s := gs E (five 10) in
  exists p, reach (snd s) [fst s] [] /\ arg_ok (ref_arg 10 p) /\ a_how (ref_arg 10 p) <> HMove /\ addr_of (fst s) 1 1 = Some p /\
  nth_error (elems (fst s) 1) 1 = Some 6 /\ length (elems (fst s) 1) < cap_of (fst s) 1.
Proof.
  intros E s. destruct (addr_of (fst s) 1 1) as [p|] eqn:Q; [|exfalso; revert Q; destruct lay; vm_compute; discriminate].
  exists p. csplit; [apply gs_reach; destruct lay; vm_compute; reflexivity|intros _; reflexivity|discriminate|reflexivity
    |destruct lay; vm_compute; reflexivity|destruct lay; vm_compute; lia].
Qed.
Example C35_position_partial_ex lay : let E := dE lay in let s := gs E (five 10) in
  exists p, reach (snd s) [fst s] [] /\ a_how (ref_arg 10 p) <> HMove /\ lpoints (fst s) (li_base (fst s) 1 1) 1 1 /\ addr_of (fst s) 1 1 = Some p /\
  nth_error (elems (fst s) 1) 1 = Some 6 /\ length (elems (fst s) 1) < cap_of (fst s) 1.
Proof.
  intros E s. destruct (addr_of (fst s) 1 1) as [p|] eqn:Q; [|exfalso; revert Q; destruct lay; vm_compute; discriminate].
  exists p. csplit; [apply gs_reach; destruct lay; vm_compute; reflexivity|discriminate| |reflexivity
    |destruct lay; vm_compute; reflexivity|destruct lay; vm_compute; lia].
  apply (li_base_points (E := E) _ 1 1 5); [destruct lay; vm_compute; reflexivity|lia].
Qed.

(** When the segment is full the argument is read after its storage has been given back. *)
Theorem C35_full_refuted : exists (E : Env nat) w c a j p, env_layout = SplitLayout /\ reach w [c] [] /\
  addr_of c (env_ty a) j = Some p /\ c_insert (ref_arg a p) (c, w) = UB.
Proof.
  pose (E := dE SplitLayout). pose (s := gs E [(10, Some 5); (10, Some 6); (10, Some 7)]).
  assert (C : match addr_of (fst s) 1 1 with Some p => match c_insert (ref_arg 10 p) (fst s, snd s) with UB => true | _ => false end | None => false end = true)
    by (vm_compute; reflexivity).
  destruct (addr_of (fst s) 1 1) as [p|] eqn:Q; [|discriminate]. exists E, (snd s), (fst s), 10, 1, p. csplit.
  - reflexivity.
  - apply gs_reach. vm_compute; reflexivity.
  - exact Q.
  - destruct (c_insert (ref_arg 10 p) (fst s, snd s)); [discriminate C|discriminate C|reflexivity].
Qed.

(** ** C36 Types which are not copyable, or not assignable *)

(** Inserting by moving or constructing in place never needs copies if moves do not throw. *)
Definition no_copy_needed (t : tyid) (h : how) (e : exn) : Prop := h <> HCopy -> forall t', e <> NotCopyConstructible t'.
Lemma threw_no_copy {V} {E : Env V} t h n m w w' e : env_nt_move t = true -> threw t h n m w w' e -> no_copy_needed t h e.
Proof. intros Nt [([->|(-> & _)] & _)|[(-> & _ & [->|(F & _)])|(-> & _)]] Hh t' Q; try discriminate; congruence. Qed.

Theorem C36_emplace {V} {E : Env V} w c g d a x v : let t := env_ty a in
  reach w (c :: g) d -> src_c c t HEmplace x v -> env_nt_move t = true ->
  wp (c_emplace a x) (c, w) (fun _ _ => True) (fun _ e => forall t', e <> NotCopyConstructible t').
Proof.
  intros t H Hs Nt. eapply wp_mono; [apply (spec_emplace w c g d a x v H Hs)|auto|].
  intros [c' w'] e (_ & Th & _). eapply threw_no_copy; eauto. discriminate.
Qed.
(** Type 3 is move-only. *)
Example C36_emplace_ex lay : let E := dE lay in
  reach (dw lay) [dc lay; dx lay] [] /\ src_c (dc lay) (env_ty 30) HEmplace (SVal 4) 4 /\ env_nt_move (env_ty 30) = true /\ env_copyable (env_ty 30) = false.
Proof. cbv zeta. csplit; [apply d_reach|left; reflexivity|reflexivity|reflexivity]. Qed.

Theorem C36_insert {V} {E : Env V} w c g d x v : let t := env_ty (a_dyn x) in
  reach w (c :: g) d -> arg_ok x -> src_c c t (a_how x) (a_src x) v -> env_nt_move t = true -> a_how x <> HCopy ->
  wp (c_insert x) (c, w) (fun _ _ => True) (fun _ e => forall t', e <> NotCopyConstructible t').
Proof.
  intros t H Hx Hs Nt Hh. eapply wp_mono; [apply (spec_insert w c g d x v H Hx Hs)|auto|].
  intros [c' w'] e [(_ & -> & _)|(_ & _ & Th & _)]; [discriminate|]. eapply threw_no_copy; eauto.
Qed.
Example C36_insert_ex lay : let E := dE lay in let x := mkarg 30 30 true false HMove (SVal 4) in
  reach (dw lay) [dc lay; dx lay] [] /\ arg_ok x /\ src_c (dc lay) (env_ty 30) (a_how x) (a_src x) 4 /\ env_nt_move (env_ty 30) = true /\
  env_copyable (env_ty 30) = false /\ a_how x <> HCopy.
Proof. cbv zeta. csplit; [apply d_reach|intros _; reflexivity|left; reflexivity|reflexivity|reflexivity|discriminate]. Qed.

Theorem C36_range {V} {E : Env V} w c g d a h fwd xs : reach w (c :: g) d -> env_nt_move (env_ty a) = true -> h <> HCopy ->
  wp (c_insert_range_terminal a h fwd xs) (c, w) (fun _ _ => True) (fun _ e => forall t', e <> NotCopyConstructible t').
Proof.
  intros H Nt Hh. eapply wp_mono; [apply (spec_insert_range_terminal w c g d a h fwd xs H)|auto|].
  intros [c' w'] e (_ & _ & Th & _). eapply threw_no_copy; eauto.
Qed.
Example C36_range_ex lay : let E := dE lay in
  reach (dw lay) [dc lay; dx lay] [] /\ env_nt_move (env_ty 30) = true /\ env_copyable (env_ty 30) = false /\ HMove <> HCopy.
Proof. cbv zeta. csplit; [apply d_reach|reflexivity|reflexivity|discriminate]. Qed.

(** Nor does relocation by reserve or shrink_to_fit, or an allocator-extended move. *)
Theorem C36_reserve {V} {E : Env V} w c g d n : reach w (c :: g) d -> (forall t, In t (types c) -> env_nt_move t = true) ->
  wp (c_reserve_all n) (c, w) (fun _ _ => True) (fun _ e => forall t', e <> NotCopyConstructible t') /\
  wp c_shrink_all (c, w) (fun _ _ => True) (fun _ e => forall t', e <> NotCopyConstructible t').
Proof.
  intros H Nt. split.
  - eapply wp_mono; [apply (spec_reserve w c g d n H)|auto|].
    intros [c' w'] e (_ & _ & t & Ht & [([->|(-> & _)] & _)|[(_ & _ & F & _)|(-> & _)]]) t'; try discriminate. rewrite Nt in F; auto; discriminate.
  - eapply wp_mono; [apply (spec_shrink w c g d H)|auto|].
    intros [c' w'] e (_ & t & Ht & [([->|(-> & _)] & _)|[(_ & _ & F & _)|(-> & _)]]) t'; try discriminate. rewrite Nt in F; auto; discriminate.
Qed.
Example C36_reserve_ex lay : let E := dE lay in let s := gs E (five 30) in
  reach (snd s) [fst s] [] /\ (forall t, In t (types (fst s)) -> env_nt_move t = true) /\ env_copyable 3 = false /\ elems (fst s) 3 <> [].
Proof.
  intros E s. csplit; [apply gs_reach; destruct lay; vm_compute; reflexivity| |reflexivity|destruct lay; vm_compute; discriminate].
  assert (T : types (fst s) = [3]) by (destruct lay; vm_compute; reflexivity). rewrite T. intros t [<-|[]]. reflexivity.
Qed.

Theorem C36_move_al {V} {E : Env V} w g d x al : reach w (x :: g) d ->
  wp (c_move_al al) ((c_empty al, x), w) (fun _ _ => True) (fun _ e => forall t', e <> NotCopyConstructible t').
Proof.
  intros H. eapply wp_mono; [apply (spec_move_al w g d x al H)|auto|].
  intros [[c x'] w'] e (_ & _ & _ & [([->|(-> & _)] & _)|[(F & _)|(-> & _)]]) t'; discriminate.
Qed.
Example C36_move_al_ex lay : let E := dE lay in let s := gs E (five 30) in
  reach (snd s) [fst s] [] /\ env_copyable 3 = false /\ elems (fst s) 3 <> [].
Proof.
  intros E s. csplit; [apply gs_reach; destruct lay; vm_compute; reflexivity|reflexivity|destruct lay; vm_compute; discriminate].
Qed.

(** Erasing elements which cannot be assigned to, or whose assignment does not throw, never
    throws. *)
Definition erasable {V} {E : Env V} (t : tyid) : Prop := env_assignable t = false \/ env_nt_assign t = true.
Theorem C36_erase {V} {E : Env V} w c g d pos t k : reach w (c :: g) d -> points c pos t k -> erasable t ->
  wp (c_erase pos) (c, w) (fun _ _ => True) (fun _ _ => False).
Proof.
  intros H P Er. eapply wp_mono; [apply (spec_erase w c g d pos t k H P)|auto|].
  intros [c' w'] e (_ & _ & _ & _ & _ & _ & _ & A & B & _). destruct Er; congruence.
Qed.
(** Type 5 is not assignable. *)
Example C36_erase_ex lay : let E := dE lay in let s := gs E (five 50) in
  reach (snd s) [fst s] [] /\ points (fst s) (it_at (fst s) 5 1) 5 1 /\ erasable 5 /\ env_assignable 5 = false.
Proof.
  intros E s. csplit; [apply gs_reach; destruct lay; vm_compute; reflexivity| |left; reflexivity|reflexivity].
  apply (it_at_points (E := E) _ 5 1 5); [destruct lay; vm_compute; reflexivity|lia].
Qed.
Theorem C36_erase_range {V} {E : Env V} w c g d first last i j : reach w (c :: g) d ->
  located c first i -> located c last j -> i <= j -> (forall t, elems c t <> [] -> erasable t) ->
  wp (c_erase_range first last) (c, w) (fun _ _ => True) (fun _ _ => False).
Proof.
  intros H P P' Hij Er. eapply wp_mono; [apply (spec_erase_range w c g d first last i j H P P' Hij)|auto|].
  intros [c' w'] e (_ & _ & _ & _ & _ & (t & Ht & A & B) & _). destruct (Er t Ht); congruence.
Qed.
Example C36_erase_range_ex lay : let E := dE lay in let s := gs E (five 50) in
  reach (snd s) [fst s] [] /\ located (fst s) (it_at (fst s) 5 1) 1 /\ located (fst s) (c_end (fst s)) 5 /\
  (forall t, In t (types (fst s)) -> erasable t).
Proof.
  intros E s. csplit; [apply gs_reach; destruct lay; vm_compute; reflexivity| | |].
  - right. exists 5, 1. split; [|destruct lay; vm_compute; reflexivity]. apply (it_at_points (E := E) _ 5 1 5); [destruct lay; vm_compute; reflexivity|lia].
  - left. split; [reflexivity|destruct lay; vm_compute; reflexivity].
  - assert (T : types (fst s) = [5]) by (destruct lay; vm_compute; reflexivity). rewrite T. intros t [<-|[]]. left. reflexivity.
Qed.

(** Without external failures, move-only elements can be inserted until a size limit is hit. *)
Theorem C36_insertable {V} {E : Env V} w c g d a x v : let t := env_ty a in let n := length (elems c t) in
  reach w (c :: g) d -> src_c c t HEmplace x v -> env_nt_move t = true -> (forall k, env_fault k = false) ->
  n < env_vmax t -> (env_layout = SplitLayout -> 2 * (n + 1) + 1 <= env_imax) ->
  wp (c_emplace a x) (c, w) (fun '(c', w') it => inserted c c' t n v /\ points c' it t n) (fun _ _ => False).
Proof.
  intros t n H Hs Nt Nf Vm Im. eapply wp_mono; [apply (spec_emplace w c g d a x v H Hs)|auto|].
  intros [c' w'] e (_ & Th & _). fold t n in Th.
  destruct Th as [(_ & k & _ & F)|[(_ & _ & [Q|(F & _)])|(_ & [L|(L & L')])]]; try congruence; try lia.
  specialize (Im L). lia.
Qed.
Example C36_insertable_ex lay : let E := dE lay in
  reach (dw lay) [dc lay; dx lay] [] /\ src_c (dc lay) (env_ty 30) HEmplace (SVal 4) 4 /\ env_nt_move (env_ty 30) = true /\
  (forall k, env_fault k = false) /\ length (elems (dc lay) 3) < env_vmax 3 /\ 2 * (length (elems (dc lay) 3) + 1) + 1 <= env_imax.
Proof.
  intros E. csplit; [apply d_reach|left; reflexivity|reflexivity|reflexivity|destruct lay; vm_compute; lia..].
Qed.

(** If moves may throw, a move-only type is accepted too, but growing a segment throws
    not_copy_constructible. *)
Definition with_move_only (E : Env nat) : Env nat := {|
  env_layout := env_layout; env_fault := env_fault; env_grow := env_grow; env_vmax := env_vmax; env_imax := env_imax;
  env_junk_len := env_junk_len; env_junk := env_junk; env_shrink_noop := env_shrink_noop; env_shrink_swallow := env_shrink_swallow;
  env_copyable := fun _ => false; env_eqcomp := env_eqcomp; env_nt_move := env_nt_move; env_assignable := env_assignable;
  env_nt_assign := env_nt_assign; env_veq := env_veq; env_ty := env_ty; env_buckets := env_buckets; env_codes := env_codes;
  env_rehash_stable := env_rehash_stable; env_pocca := env_pocca; env_pocma := env_pocma; env_pocs := env_pocs; env_socc := env_socc;
  env_umap_clears := env_umap_clears;
  env_counted := env_counted;
  env_adjacent := env_adjacent |}.
Theorem C36_throwing_move_refuted lay : exists (E : Env nat) w c a v, env_layout = lay /\ reach w [c] [] /\
  (forall k, env_fault k = false) /\ length (elems c (env_ty a)) = 1 /\
  exists s', c_emplace a (SVal v) (c, w) = Exn s' (NotCopyConstructible (env_ty a)).
Proof.
  pose (E := with_move_only (dE lay)). pose (s := gs E [(40, Some 5)]). exists E, (snd s), (fst s), 40, 4. csplit.
  - reflexivity.
  - apply gs_reach. destruct lay; vm_compute; reflexivity.
  - reflexivity.
  - destruct lay; vm_compute; reflexivity.
  - assert (C : match c_emplace 40 (SVal 4) (fst s, snd s) with Exn _ (NotCopyConstructible t) => t =? 4 | _ => false end = true)
      by (destruct lay; vm_compute; reflexivity).
    destruct (c_emplace 40 (SVal 4) (fst s, snd s)) as [|s' e|]; try discriminate. destruct e; try discriminate.
    apply Nat.eqb_eq in C. exists s'. rewrite C. reflexivity.
Qed.

(** ** C54 Iterators survive new segments (negative part) *)

(** On a standard library whose map iterators do not survive rehashing, a hint may dangle within
    the very call it is passed to (compare [hint_safe] in C09). *)
Theorem C54_hint_refuted lay : exists (E : Env nat) w c hint a v, env_layout = lay /\ reach w [c] [] /\
  points c hint 1 0 /\ ~ In (env_ty a) (types c) /\ c_emplace_hint hint a (SVal v) (c, w) = UB.
Proof.
  pose (E := demo lay calm false). pose (s := gs E [(10, Some 5)]). exists E, (snd s), (fst s), (it_at (fst s) 1 0), 50, 4. csplit.
  - reflexivity.
  - apply gs_reach. destruct lay; vm_compute; reflexivity.
  - apply (it_at_points (E := E) _ 1 0 1); [destruct lay; vm_compute; reflexivity|lia].
  - destruct lay; vm_compute; intros [Q|[]]; discriminate.
  - destruct lay; vm_compute; reflexivity.
Qed.

(** ** C55 Failing reserve *)

(** Contents stay; a base_collection stays in working order.  What is missing: the other
    collections, for which this is false (below). *)
Theorem C55_reserve_partial {V} {E : Env V} w c g d n : reach w (c :: g) d ->
  wp (c_reserve_all n) (c, w) (fun _ _ => True)
    (fun '(c', w') e => content c' = content c /\ (env_layout = PackedLayout -> reach w' (c' :: g) d) /\
       exists t, In t (types c) /\ reserve_threw c t n w w' e).
Proof.
  intros H. pose proof (spec_reserve w c g d n H) as S. unfold wp in *.
  destruct (c_reserve_all n (c, w)) as [[c' w'] []|[c' w'] e|] eqn:Q; auto. destruct S as (A & _ & B). csplit; auto.
  intros Sf. eapply (r_call_exn w c g d); [exact H|apply (api_reserve g c n)|exact Q|exact Sf].
Qed.
Example C55_reserve_partial_ex : let E := fE PackedLayout 14 in let s := gs E (five 10) in
  reach (snd s) [fst s] [] /\ throws (c_reserve_all 50 s) BadAlloc.
Proof. cbv zeta. csplit; [apply gs_reach; vm_compute; reflexivity|apply throwsb_ok; vm_compute; reflexivity]. Qed.
(** In an any_collection, reserve throwing bad_alloc makes the elements unreachable. *)
Theorem C55_reserve_refuted : exists (E : Env nat) w c n, env_layout = SplitLayout /\ reach w [c] [] /\
  exists c' w', c_reserve_all n (c, w) = Exn (c', w') BadAlloc /\ ~ valid c'.
Proof.
  pose (E := fE SplitLayout 23). pose (s := gs E (five 10)). exists E, (snd s), (fst s), 50. csplit.
  - reflexivity.
  - apply gs_reach. vm_compute; reflexivity.
  - assert (C : match c_reserve_all 50 (fst s, snd s) with Exn (c', w') BadAlloc => stuck 20 c' (c_begin c') (c_end c') | _ => false end = true)
      by (vm_compute; reflexivity).
    destruct (c_reserve_all 50 (fst s, snd s)) as [|[c' w'] []|]; try discriminate. exists c', w'. split; auto. eapply stuck_invalid; eauto.
Qed.

(** ** C56 max_size() *)

(** In a base_collection a segment never has room for more than max_size() elements, and reserve
    throws length_error only if more are asked for, and always then.  What is missing: the other collections, where
    both fail (below), though not by much for the first. *)
Theorem C56_max_size_partial {V} {E : Env V} w c g d a n : let t := env_ty a in reach w (c :: g) d -> In t (types c) ->
  1 <= env_vmax t ->
  exists m, c_max_size_of a (c, w) = Ok (c, w) m /\ length (elems c t) <= cap_of c t /\
    (env_layout = PackedLayout -> cap_of c t <= m) /\ cap_of c t <= m + 1 /\
  wp (c_reserve_info a n) (c, w) (fun '(c', w') _ => n <= m + 1 /\ (env_layout = PackedLayout -> n <= m))
    (fun '(c', w') e => e = LengthError -> m < n \/ env_layout = SplitLayout).
Proof.
  intros t H Ht Pos.
  assert (Q : wp (c_max_size_of a) (c, w) (fun s r => s = (c, w) /\ r = be_max_size t) (fun _ _ => False)).
  { unfold c_max_size_of. eapply wp_by_info; [exact H| |].
    - intros s Hs Ws Et. split; auto. unfold seg_max_size. rewrite Et. reflexivity.
    - intros N. exfalso. tauto. }
  unfold wp in Q. destruct (c_max_size_of a (c, w)) as [s r| |]; try contradiction. destruct Q as (-> & ->).
  pose proof (size_le_cap w c g d t H) as A. pose proof (cap_le_max w c g d t H) as B.
  exists (be_max_size t). unfold be_max_size. csplit; auto.
  - intros L. rewrite L. exact B.
  - destruct env_layout; lia.
  - eapply wp_mono; [apply (spec_reserve_info w c g d a n H)| |].
    + intros [c' w'] _ (_ & _ & L). fold t in L. split; [destruct env_layout; lia|]. intros Lay. rewrite Lay. exact L.
    + intros [c' w'] e [(N & _)|(_ & _ & _ & _ & _ & Th)] ->; [exfalso; auto|].
      destruct Th as [([Q|(Q & _)] & _)|[(Q & _)|(_ & [L|(L & _)])]]; try discriminate; auto. fold t in L. left. destruct env_layout; lia.
Qed.
Example C56_max_size_partial_ex lay : let E := dE lay in
  reach (dw lay) [dc lay; dx lay] [] /\ In (env_ty 20) (types (dc lay)) /\ 1 <= env_vmax (env_ty 20).
Proof. cbv zeta. csplit; [apply d_reach|destruct lay; vm_compute; auto|vm_compute; lia]. Qed.

(** A segment of an any_collection with more than max_size() elements. *)
Theorem C56_size_refuted : exists (E : Env nat) w c a m, env_layout = SplitLayout /\ reach w [c] [] /\
  c_max_size_of a (c, w) = Ok (c, w) m /\ m < length (elems c (env_ty a)).
Proof.
  pose (E := dE SplitLayout). pose (s := gs E [(70, Some 5); (70, Some 6); (70, Some 7)]).
  exists E, (snd s), (fst s), 70, 2. csplit.
  - reflexivity.
  - apply gs_reach. vm_compute; reflexivity.
  - vm_compute; reflexivity.
  - vm_compute; lia.
Qed.
(** The index of an any_collection segment has a size limit of its own, which max_size() does not
    take into account: reserve throws length_error below it. *)
Definition with_imax (n : nat) (E : Env nat) : Env nat := {|
  env_layout := env_layout; env_fault := env_fault; env_grow := env_grow; env_vmax := env_vmax; env_imax := n;
  env_junk_len := env_junk_len; env_junk := env_junk; env_shrink_noop := env_shrink_noop; env_shrink_swallow := env_shrink_swallow;
  env_copyable := env_copyable; env_eqcomp := env_eqcomp; env_nt_move := env_nt_move; env_assignable := env_assignable;
  env_nt_assign := env_nt_assign; env_veq := env_veq; env_ty := env_ty; env_buckets := env_buckets; env_codes := env_codes;
  env_rehash_stable := env_rehash_stable; env_pocca := env_pocca; env_pocma := env_pocma; env_pocs := env_pocs; env_socc := env_socc;
  env_umap_clears := env_umap_clears;
  env_counted := env_counted;
  env_adjacent := env_adjacent |}.
Theorem C56_reserve_refuted : exists (E : Env nat) w c a n m, env_layout = SplitLayout /\ reach w [c] [] /\
  (forall k, env_fault k = false) /\ c_max_size_of a (c, w) = Ok (c, w) m /\ n <= m /\
  exists s', c_reserve_info a n (c, w) = Exn s' LengthError.
Proof.
  pose (E := with_imax 20 (dE SplitLayout)). pose (s := gs E [(10, Some 5)]).
  exists E, (snd s), (fst s), 10, 50, 99. csplit.
  - reflexivity.
  - apply gs_reach. vm_compute; reflexivity.
  - reflexivity.
  - vm_compute; reflexivity.
  - lia.
  - assert (C : match c_reserve_info 10 50 (fst s, snd s) with Exn _ LengthError => true | _ => false end = true) by (vm_compute; reflexivity).
    destruct (c_reserve_info 10 50 (fst s, snd s)) as [|s' e|]; [discriminate C| |discriminate C]. destruct e; try discriminate C. eauto.
Qed.

Print Assumptions C30_growth.
Print Assumptions C30_amortised.
Print Assumptions C30_range_refuted.
Print Assumptions C31_emplace.
Print Assumptions C31_insert.
Print Assumptions C31_position.
Print Assumptions C32_emplace_partial.
Print Assumptions C32_insert_partial.
Print Assumptions C32_full_refuted.
Print Assumptions C32_first_refuted.
Print Assumptions C32_middle_refuted.
Print Assumptions C33_erase_range.
Print Assumptions C33_erase_local_range.
Print Assumptions C33_erase_partial.
Print Assumptions C33_erase_refuted.
Print Assumptions C34_range_partial.
Print Assumptions C34_hint_range_partial.
Print Assumptions C34_from_partial.
Print Assumptions C34_hint_from_partial.
Print Assumptions C34_local_partial.
Print Assumptions C34_hint_local_partial.
Print Assumptions C34_pos_range_partial.
Print Assumptions C34_lpos_range_partial.
Print Assumptions C34_terminal_partial.
Print Assumptions C34_hint_terminal_partial.
Print Assumptions C34_terminal_refuted.
Print Assumptions C34_terminal_grow_refuted.
Print Assumptions C35_insert_partial.
Print Assumptions C35_position_partial.
Print Assumptions C35_full_refuted.
Print Assumptions C36_emplace.
Print Assumptions C36_insert.
Print Assumptions C36_range.
Print Assumptions C36_reserve.
Print Assumptions C36_move_al.
Print Assumptions C36_erase.
Print Assumptions C36_erase_range.
Print Assumptions C36_insertable.
Print Assumptions C36_throwing_move_refuted.
Print Assumptions C54_hint_refuted.
Print Assumptions C55_reserve_partial.
Print Assumptions C55_reserve_refuted.
Print Assumptions C56_max_size_partial.
Print Assumptions C56_size_refuted.
Print Assumptions C56_reserve_refuted.
