(** * Insertion into reserved room (C78)

    See the head of Properties1.v for the form of the statements. *)

From Coq Require Import List Arith Lia Bool Permutation.
From Verif Require Import Base Vec Backend Segment Coll Spec SpecRoom Reach ProofBase ProofVec ProofBackend ProofOps
  ProofSeg ProofMap ProofView ProofColl ProofIns ProofRange ProofReach ProofObs ProofProp ProofProp2 ProofProp3 ProofProp4 ProofProp5 ProofCost7 Demo ProofRoom.
Import ListNotations.

Lemma of_type_other {V} t (l : list (tyid * V)) : ~ In t (map fst l) -> of_type t l = [].
Proof.
  intros N. unfold of_type. induction l as [|[u v] l IH]; [reflexivity|]. cbn [map fst In filter] in *. destruct (u =? t) eqn:Q; [apply Nat.eqb_eq in Q; tauto|].
  apply IH. tauto.
Qed.
Lemma room_in {V} {E : Env V} (c : coll V) t v : room c [(t, v)] -> In t (types c).
Proof.
  intros R. destruct (R t) as (L & _); [left; reflexivity|]. rewrite types_seg_at. intros Z. unfold cap_of in L. rewrite Z in L. cbn in L. rewrite Nat.eqb_refl in L.
  cbn in L. lia.
Qed.
Lemma threw_quiet {V} {E : Env V} t n m w w' e : quiet t = true -> threw t HMove n m w w' e -> e <> BadAlloc -> e <> LengthError -> False.
Proof.
  intros Q [([->|(-> & [Z|Z])] & _)|[(-> & _ & [Z|(Z & _)])|(-> & _)]] N1 N2; try congruence.
  unfold quiet in Q. rewrite Z in Q. discriminate.
Qed.

(** ** C78 Inserting into reserved room obtains no memory *)

(** One call: no memory is obtained or given back, whether it returns or throws; it does not throw because of memory or sizes, and the
    storage stays where it is.  Without insertion ([l] empty: erase, clear) there is no condition on room at all. *)
Theorem C78_call {V} {E : Env V} w c g d m l : reach w (c :: g) d -> light c m l -> room c l ->
  wp m (c, w)
    (fun '(c', w') _ => reach w' (c' :: g) d /\ same_memory w w' /\
       forall t, In t (types c) -> length (elems c' t) <= cap_of c t -> cap_of c' t = cap_of c t /\ data_of c' t = data_of c t)
    (fun '(c', w') e => same_memory w w' /\ not_memory e).
Proof.
  intros H Lt R. pose proof (light_still _ _ _ _ _ _ H Lt R) as St. pose proof (light_grows _ _ _ _ _ _ H Lt) as Gr.
  destruct (light_api g _ _ _ Lt) as (safe & new & Ap). unfold wp, still in *. destruct (m (c, w)) as [[c' w'] []|[c' w'] e|] eqn:Q; auto.
  csplit; auto; [eapply r_call; eauto|apply Gr].
Qed.

(** Any number of calls: as long as what they insert fits, none of them obtains memory; the capacities stay, and there is still room for
    what is to come. *)
Theorem C78_calls {V} {E : Env V} w c g d l l' c1 w1 : reach w (c :: g) d -> room c (l ++ l') -> lights l (c, w) (c1, w1) ->
  reach w1 (c1 :: g) d /\ same_memory w w1 /\ room c1 l' /\ (forall a, known c a -> known c1 a) /\
  (forall t, In t (types c) -> In t (types c1) /\ cap_of c1 t = cap_of c t /\ data_of c1 t = data_of c t).
Proof.
  intros H R Ls. remember (c, w) as s eqn:Es. remember (c1, w1) as s1 eqn:Es1. revert c w Es c1 w1 Es1 H R.
  induction Ls as [s|c0 w0 m l0 c2 w2 l2 s Lt Q Ls IH]; intros c w Es c1 w1 Es1 H R.
  - subst s. inversion Es1; subst c1 w1. csplit; auto using sm_refl.
  - inversion Es; subst c0 w0. clear Es. rewrite <- app_assoc in R.
    pose proof (C78_call w c g d m l0 H Lt (room_weak _ _ _ R)) as P. unfold wp in P. rewrite Q in P. destruct P as (H2 & M2 & C2).
    pose proof (light_grows _ _ _ _ _ _ H Lt) as Gr. unfold wp in Gr. rewrite Q in Gr.
    pose proof (light_cache _ _ _ _ _ _ H Lt) as Kc. unfold kc in Kc. rewrite Q in Kc. cbn [fst] in Kc.
    pose proof (room_after _ _ _ _ Gr R) as R2. destruct (IH c2 w2 eq_refl c1 w1 Es1 H2 R2) as (H1 & M1 & R1 & K1 & C1).
    assert (Z : forall t, In t (types c) -> In t (types c1) /\ cap_of c1 t = cap_of c t /\ data_of c1 t = data_of c t).
    { intros t It. destruct (C1 t (proj1 Gr t It)) as (I1 & E1 & E2). destruct (C2 t It) as (E3 & E4); [|csplit; congruence].
      destruct Gr as (_ & G2 & _). specialize (G2 t). destruct (in_dec Nat.eq_dec t (map fst l0)) as [I0|N0].
      - destruct (room_weak _ _ _ R t I0) as (L0 & _). lia.
      - rewrite of_type_other in G2 by exact N0. cbn [length] in G2. pose proof (size_le_cap w c g d t H). lia. }
    csplit; auto; [eapply sm_trans; eauto|intros a Ka; apply K1; eapply known_same; eauto].
Qed.

(** reserve<T>(n) makes that room: elements of type T up to a total of n fit. *)
Theorem C78_reserve {V} {E : Env V} w c g d a n c1 w1 l : let t := env_ty a in reach w (c :: g) d ->
  c_reserve_type a n (c, w) = Ok (c1, w1) tt -> (env_layout = SplitLayout -> 2 <= n) ->
  (forall u, In u (map fst l) -> u = t) -> length (elems c t) + length l <= n ->
  reach w1 (c1 :: g) d /\ known c1 a /\ room c1 l /\ elems c1 t = elems c t.
Proof.
  intros t H Q L2 Ty Le. destruct (reach_wf _ _ _ _ H) as (W & O).
  pose proof (spec_reserve_type w c g d a n H) as P. unfold wp in P. rewrite Q in P. destruct P as (Sb & _ & It & Cp & _). fold t in It, Cp, Sb.
  assert (El : elems c1 t = elems c t).
  { destruct Sb as [Sb|(Nin & Sb)]; [unfold elems, seg_of; rewrite Sb; reflexivity|]. unfold elems at 2. rewrite Nin. unfold elems, seg_of.
    destruct (assoc t (content c1)) as [xs|] eqn:As; [|reflexivity]. apply assoc_in in As. eapply Permutation_in in As; [|exact Sb]. destruct As as [As|As]; [congruence|].
    exfalso. apply (proj1 (assoc_none _ _) Nin). apply (in_map fst) in As. exact As. }
  csplit; auto.
  - eapply r_call; [exact H|apply api_reserve_type|exact Q].
  - unfold c_reserve_type in Q. unfold bind at 1 in Q. destruct (find_or_make a (c, w)) as [s1 i|s1 e|] eqn:F; try discriminate.
    assert (C : cached (fst s1) a i).
    { apply (proto_cached a (env_ty a) (c, w)); [|exact F]. intros N. destruct (wm_cache _ _ (wc_map _ _ W) _ _ N) as (j & Z & _). discriminate. }
    apply (cached_seg _ a i i s1 _ _ C) in Q. eexists. exact Q.
  - intros u Iu. rewrite (Ty u Iu), El. split; [|intros L; specialize (L2 L); lia].
    assert (length (of_type t l) <= length l); [|lia]. unfold of_type. rewrite map_length. clear. induction l as [|e l IH]; cbn [filter length]; [lia|]. destruct (_ =? t); cbn [length]; lia.
Qed.

(** Together: after reserve<T>(n), elements of type T up to a total of n are inserted without any memory being obtained and without the
    storage moving. *)
Theorem C78_reserved {V} {E : Env V} w c g d a n c1 w1 l c2 w2 : let t := env_ty a in reach w (c :: g) d ->
  c_reserve_type a n (c, w) = Ok (c1, w1) tt -> (env_layout = SplitLayout -> 2 <= n) ->
  (forall u, In u (map fst l) -> u = t) -> length (elems c t) + length l <= n -> lights l (c1, w1) (c2, w2) ->
  reach w2 (c2 :: g) d /\ same_memory w1 w2 /\ known c2 a /\ cap_of c2 t = cap_of c1 t /\ data_of c2 t = data_of c1 t /\ n <= cap_of c2 t.
Proof.
  intros t H Q L2 Ty Lt Ls. destruct (C78_reserve w c g d a n c1 w1 l H Q L2 Ty Lt) as (H1 & K & R & El).
  pose proof (spec_reserve_type w c g d a n H) as P. unfold wp in P. rewrite Q in P. destruct P as (_ & _ & It & Cp & _). fold t in It, Cp.
  destruct (C78_calls w1 c1 g d l [] c2 w2 H1) as (H2 & M2 & _ & K2 & C2); [rewrite app_nil_r; exact R|exact Ls|].
  destruct (C2 t It) as (_ & E1 & E2). csplit; auto. lia.
Qed.

(** Moving an element in, if elements of its type are moved without exceptions, does not throw at all. *)
Theorem C78_quiet {V} {E : Env V} w c g d x v : let t := env_ty (a_dyn x) in reach w (c :: g) d -> known_arg c x -> arg_ok x ->
  src_c c t (a_how x) (a_src x) v -> a_how x = HMove -> quiet t = true -> room c [(t, v)] ->
  wp (c_insert x) (c, w) (fun '(c', w') it => inserted c c' t (length (elems c t)) v /\ points c' it t (length (elems c t)) /\ same_memory w w')
    (fun _ _ => False).
Proof.
  intros t H K Ok Sc Hm Qt R. pose proof (spec_insert w c g d x v H Ok Sc) as P. pose proof (C78_call w c g d _ _ H (lt_insert c x v K Ok Sc) R) as L.
  unfold wp, void, bind in *. fold t in P, R, L. destruct (c_insert x (c, w)) as [[c' w'] it|[c' w'] e|] eqn:Q; auto.
  - destruct P as (_ & I & Pt). destruct L as (_ & M & _). auto.
  - destruct L as (_ & N1 & N2). assert (Tin : In t (types c)) by (eapply room_in; eauto).
    destruct P as [((U & _) & _)|(_ & _ & Th & _)]; [apply U; exact Tin|]. rewrite Hm in Th. eapply threw_quiet; eauto.
Qed.
Theorem C78_quiet_hint {V} {E : Env V} w c g d hint i k x v : let t := env_ty (a_dyn x) in reach w (c :: g) d -> known_arg c x ->
  located c hint i -> hint_at c hint t k -> hint_safe c hint t -> arg_ok x ->
  src_c c t (a_how x) (a_src x) v -> a_how x = HMove -> quiet t = true -> room c [(t, v)] ->
  wp (c_insert_hint hint x) (c, w) (fun '(c', w') it => inserted c c' t k v /\ points c' it t k /\ same_memory w w') (fun _ _ => False).
Proof.
  intros t H K Hl Ha Hh Ok Sc Hm Qt R. pose proof (spec_insert_hint w c g d hint i k x v H Hl Ha Hh Ok Sc) as P.
  pose proof (C78_call w c g d _ _ H (lt_insert_hint c hint i k x v K Hl Ha Hh Ok Sc) R) as L.
  unfold wp, void, bind in *. fold t in P, R, L. destruct (c_insert_hint hint x (c, w)) as [[c' w'] it|[c' w'] e|] eqn:Q; auto.
  - destruct P as (_ & I & Pt). destruct L as (_ & M & _). auto.
  - destruct L as (_ & N1 & N2). assert (Tin : In t (types c)) by (eapply room_in; eauto).
    destruct P as [((U & _) & _)|(_ & _ & Th & _)]; [apply U; exact Tin|]. rewrite Hm in Th. eapply threw_quiet; eauto.
Qed.
Theorem C78_quiet_pos {V} {E : Env V} w c g d pos k x v : let t := env_ty (a_dyn x) in reach w (c :: g) d -> lpoints c pos t k ->
  src_c c t (a_how x) (a_src x) v -> a_how x = HMove -> quiet t = true -> room c [(t, v)] ->
  wp (c_insert_pos pos x) (c, w) (fun '(c', w') l => inserted c c' t k v /\ lpoints c' l t k /\ same_memory w w') (fun _ _ => False).
Proof.
  intros t H Hl Sc Hm Qt R. pose proof (spec_insert_pos w c g d pos k x v H Hl Sc) as P.
  pose proof (C78_call w c g d _ _ H (lt_insert_pos c pos k x v Hl Sc) R) as L.
  unfold wp, void, bind in *. fold t in P, R, L. destruct (c_insert_pos pos x (c, w)) as [[c' w'] it|[c' w'] e|] eqn:Q; auto.
  - destruct P as (I & Pt). destruct L as (_ & M & _). auto.
  - destruct L as (_ & N1 & N2). destruct P as (_ & Th & _). rewrite Hm in Th. eapply threw_quiet; eauto.
Qed.
Theorem C78_quiet_range {V} {E : Env V} w c g d a xs : let t := env_ty a in reach w (c :: g) d -> known c a -> quiet t = true ->
  room c (map (pair t) xs) ->
  wp (c_insert_range_terminal a HMove true xs) (c, w) (fun '(c', w') _ => grew None c c' (map (pair t) xs) /\ same_memory w w') (fun _ _ => False).
Proof.
  intros t H K Qt R. pose proof (spec_insert_range_terminal w c g d a HMove true xs H) as P.
  pose proof (C78_call w c g d _ _ H (lt_range c a HMove xs K) R) as L. unfold wp in *. fold t in P, R, L.
  destruct (c_insert_range_terminal a HMove true xs (c, w)) as [[c' w'] it|[c' w'] e|] eqn:Q; auto.
  - destruct P as (I & _). destruct L as (_ & M & _). auto.
  - destruct L as (_ & N1 & N2). destruct P as (_ & _ & Th & _). eapply threw_quiet; eauto.
Qed.

(** "As long as the size is below the capacity" does not suffice in an any_collection or function_collection: the first element of a
    segment just made obtains memory although capacity() is 1. *)
Theorem C78_first_refuted : exists (E : Env nat) w c g d a v, env_layout = SplitLayout /\ reach w (c :: g) d /\ known c a /\
  length (elems c (env_ty a)) < cap_of c (env_ty a) /\
  exists c' w' it, c_emplace a (SVal v) (c, w) = Ok (c', w') it /\ ~ same_memory w w'.
Proof.
  exists (dE SplitLayout), (dw SplitLayout), (dc SplitLayout), [dx SplitLayout], [], 30, 5.
  assert (K : match cache_find (c_cache (dc SplitLayout)) 30 with Some _ => true | None => false end = true) by (vm_compute; reflexivity).
  assert (L : (length (elems (dc SplitLayout) 3) <? cap_of (dc SplitLayout) 3) = true) by (vm_compute; reflexivity).
  assert (C : match c_emplace (E := dE SplitLayout) 30 (SVal 5) (dc SplitLayout, dw SplitLayout) with
    Ok (_, w') _ => negb (w_next w' =? w_next (dw SplitLayout)) | _ => false end = true) by (vm_compute; reflexivity).
  csplit; [reflexivity|apply d_reach| |apply Nat.ltb_lt; exact L|].
  - unfold known. destruct (cache_find (c_cache (dc SplitLayout)) 30) as [m|]; [exists m; reflexivity|discriminate K].
  - destruct (c_emplace (E := dE SplitLayout) 30 (SVal 5) (dc SplitLayout, dw SplitLayout)) as [[c' w'] it| |]; [|discriminate C|discriminate C].
    exists c', w', it. split; auto. intros (_ & N). rewrite N, Nat.eqb_refl in C. discriminate C.
Qed.

Lemma is_known {V} (c : coll V) a : match cache_find (c_cache c) a with Some _ => true | None => false end = true -> known c a.
Proof. unfold known. destruct (cache_find (c_cache c) a) as [m|]; [exists m; reflexivity|discriminate]. Qed.

Lemma ls_emplace {V} {E : Env V} a v (s : coll V * world) s1 it l s' : known (fst s) a -> c_emplace a (SVal v) s = Ok s1 it -> lights l s1 s' ->
  lights ((env_ty a, v) :: l) s s'.
Proof.
  destruct s as [c w], s1 as [c1 w1]. intros K Q L. apply (ls_cons c w (void (c_emplace a (SVal v))) [(env_ty a, v)] c1 w1 l s'); auto.
  - apply lt_emplace; [exact K|left; reflexivity].
  - unfold void, bind. rewrite Q. reflexivity.
Qed.

Example C78_call_ex lay : let E := dE lay in let c := fst (dr lay) in
  reach (snd (dr lay)) (c :: [dx lay]) [] /\ light c (void (c_emplace 10 (SVal 3))) [(1, 3)] /\
  light c (c_insert_range_terminal 11 HCopy true [3; 4; 2; 1; 9; 8]) [(1, 3); (1, 4); (1, 2); (1, 1); (1, 9); (1, 8)] /\
  room c [(1, 3); (1, 4); (1, 2); (1, 1); (1, 9); (1, 8)] /\ ~ room c [(1, 3); (1, 4); (1, 2); (1, 1); (1, 9); (1, 8); (1, 7)].
Proof.
  intros E c. subst E c. csplit.
  - apply dr_reach.
  - apply (lt_emplace (E := dE lay) (fst (dr lay)) 10 (SVal 3) 3); [|left; reflexivity]. destruct lay; (apply is_known; vm_compute; reflexivity).
  - apply (lt_range (E := dE lay) (fst (dr lay)) 11 HCopy). destruct lay; (apply is_known; vm_compute; reflexivity).
  - intros t It. assert (t = 1) as -> by (cbn in It; intuition congruence). destruct lay; vm_compute; (split; [lia|intros; try discriminate; lia]).
  - intros R. destruct (R 1) as (L & _); [left; reflexivity|]. revert L. destruct lay; vm_compute; lia.
Qed.
Example C78_calls_ex lay : let E := dE lay in let c := fst (dr lay) in let w := snd (dr lay) in
  reach w (c :: [dx lay]) [] /\ room c ([(1, 3); (1, 4)] ++ [(1, 9)]) /\
  exists c1 w1, lights [(1, 3); (1, 4)] (c, w) (c1, w1) /\ elems c1 1 = [5; 6; 7; 3; 4] /\ w_next w1 = w_next w.
Proof.
  intros E c w. subst E c w. csplit.
  - apply dr_reach.
  - intros t It. assert (t = 1) as -> by (cbn in It; intuition congruence). destruct lay; vm_compute; (split; [lia|intros; try discriminate; lia]).
  - destruct lay; (eexists; eexists; split;
      [eapply (ls_emplace (E := dE _) 10 3); [apply is_known; vm_compute; reflexivity|vm_compute; reflexivity|];
       eapply (ls_emplace (E := dE _) 11 4); [apply is_known; vm_compute; reflexivity|vm_compute; reflexivity|];
       apply ls_nil|vm_compute; split; reflexivity]).
Qed.
Example C78_reserve_ex lay : let E := dE lay in let s := state (c_reserve_type 10 9 (dc lay, dw lay)) in let l := [(1, 3); (1, 4)] in
  reach (dw lay) (dc lay :: [dx lay]) [] /\ c_reserve_type 10 9 (dc lay, dw lay) = Ok s tt /\ (env_layout = SplitLayout -> 2 <= 9) /\
  (forall u, In u (map fst l) -> u = env_ty 10) /\ length (elems (dc lay) (env_ty 10)) + length l <= 9 /\ cap_of (dc lay) 1 < 5.
Proof.
  cbv zeta. csplit; try solve [demo_fact lay]; try lia.
Qed.
Example C78_reserved_ex lay : let E := dE lay in let s := state (c_reserve_type 10 9 (dc lay, dw lay)) in let l := [(1, 3)] in
  reach (dw lay) (dc lay :: [dx lay]) [] /\ c_reserve_type 10 9 (dc lay, dw lay) = Ok s tt /\ (env_layout = SplitLayout -> 2 <= 9) /\
  (forall u, In u (map fst l) -> u = env_ty 10) /\ length (elems (dc lay) (env_ty 10)) + length l <= 9 /\
  exists c2 w2, lights l s (c2, w2) /\ elems c2 1 = [5; 6; 7; 3].
Proof.
  cbv zeta. csplit; try solve [demo_fact lay]; try lia.
  destruct lay; (eexists; eexists; split;
      [eapply (ls_emplace (E := dE _) 10 3); [apply is_known; vm_compute; reflexivity|vm_compute; reflexivity|];
       apply ls_nil|vm_compute; reflexivity]).
Qed.
Definition m_ref (a : tiaddr) (v : nat) : arg nat := mkarg a a true true HMove (SVal v).
Example C78_quiet_ex lay : let E := dE lay in let c := fst (dr lay) in let x := m_ref 10 3 in let t := env_ty (a_dyn x) in
  reach (snd (dr lay)) (c :: [dx lay]) [] /\ known_arg c x /\ arg_ok x /\ src_c c t (a_how x) (a_src x) 3 /\ a_how x = HMove /\ quiet t = true /\ room c [(t, 3)].
Proof.
  intros E c x t. subst E c x t. csplit; try solve [demo_fact lay].
  - apply dr_reach.
  - destruct lay; (apply is_known; vm_compute; reflexivity).
  - intros t It. assert (t = 1) as -> by (cbn in It; intuition congruence). destruct lay; vm_compute; (split; [lia|intros; try discriminate; lia]).
Qed.
Example C78_quiet_hint_ex lay : let E := dE lay in let c := fst (dr lay) in let x := m_ref 10 3 in let t := env_ty (a_dyn x) in
  reach (snd (dr lay)) (c :: [dx lay]) [] /\ known_arg c x /\ located c (it_at c 1 1) (offset (content c) 1 + 1) /\ hint_at c (it_at c 1 1) t 1 /\ hint_safe c (it_at c 1 1) t /\
  arg_ok x /\ src_c c t (a_how x) (a_src x) 3 /\ a_how x = HMove /\ quiet t = true /\ room c [(t, 3)].
Proof.
  destruct (C78_quiet_ex lay) as (A1 & A2 & A3 & A4 & A5 & A6 & A7).
  intros E c x t. csplit; auto.
  - subst c. destruct lay; (eapply it_at_located; [vm_compute; reflexivity|lia]).
  - subst c. left. destruct lay; (eapply it_at_points; [vm_compute; reflexivity|lia]).
  - subst c. destruct lay; vm_compute; intuition (discriminate || lia).
Qed.
Example C78_quiet_pos_ex lay : let E := dE lay in let c := fst (dr lay) in let x := m_ref 10 3 in let t := env_ty (a_dyn x) in
  reach (snd (dr lay)) (c :: [dx lay]) [] /\ lpoints c (li_base c 1 2) t 2 /\ src_c c t (a_how x) (a_src x) 3 /\ a_how x = HMove /\ quiet t = true /\ room c [(t, 3)].
Proof.
  destruct (C78_quiet_ex lay) as (A1 & A2 & A3 & A4 & A5 & A6 & A7).
  intros E c x t. csplit; auto. subst c. destruct lay; (eapply li_base_points; [vm_compute; reflexivity|lia]).
Qed.
Example C78_quiet_range_ex lay : let E := dE lay in let c := fst (dr lay) in
  reach (snd (dr lay)) (c :: [dx lay]) [] /\ known c 10 /\ quiet (env_ty 10) = true /\ room c (map (pair (env_ty 10)) [3; 4; 5]).
Proof.
  intros E c. subst E c. csplit; try solve [demo_fact lay].
  - apply dr_reach.
  - destruct lay; (apply is_known; vm_compute; reflexivity).
  - intros t It. assert (t = 1) as -> by (cbn in It; intuition congruence). destruct lay; vm_compute; (split; [lia|intros; try discriminate; lia]).
Qed.

Print Assumptions C78_call.
Print Assumptions C78_calls.
Print Assumptions C78_reserve.
Print Assumptions C78_reserved.
Print Assumptions C78_quiet.
Print Assumptions C78_quiet_hint.
Print Assumptions C78_quiet_pos.
Print Assumptions C78_quiet_range.
Print Assumptions C78_first_refuted.
