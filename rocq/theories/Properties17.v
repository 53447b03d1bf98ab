(** * Recovering from an exception (C65)

    See the head of Properties1.v for the form of the statements.  C32 shows that an exception
    may leave a collection which can no longer be traversed; here is what can still be done
    with it.  [reach w (c :: g) d] says that [c] is in working order: every theorem about
    reachable states applies to it. *)

From Coq Require Import List Arith Lia Bool Permutation.
From Verif Require Import Base Vec Backend Segment Coll Spec Reach ProofBase ProofVec ProofBackend ProofSeg ProofMap ProofView ProofColl
  ProofRange ProofReach ProofObs ProofProp ProofProp2 ProofProp3 ProofProp4 ProofProp5 ProofRecover Demo Properties1 Properties3 Properties5.
Import ListNotations.

(** ** C65 Recovering from an exception *)

(** Whichever member function threw, clear() then works and does not throw.  It leaves the
    collection in working order, with no elements, the capacities it had, and the types
    registered which were registered before the failed call, with perhaps some of those the call
    would have registered. *)
Theorem C65_clear {V} {E : Env V} w c g d m safe new vals c' w' e :
  reach w (c :: g) d -> api g c m safe new vals -> m (c, w) = Exn (c', w') e ->
  wp c_clear (c', w')
    (fun '(c2, w2) _ => reach w2 (c2 :: g) d /\
       flat c2 = [] /\ c_size c2 = 0 /\ (forall t, elems c2 t = []) /\ (forall t, cap_of c2 t = cap_of c' t) /\
       incl (types c) (types c2) /\ incl (types c2) (types c ++ new) /\ c_al c2 = c_al c)
    (fun _ _ => False).
Proof.
  intros H A Q. pose proof (recover_clear _ _ _ _ _ _ _ _ _ _ _ H A Q) as S.
  pose proof (C05_calls_register_exactly _ _ _ _ _ _ _ _ H A) as T. unfold wp in T. rewrite Q in T.
  pose proof (api_kept w c g d m safe new vals H A) as K. unfold wp in K. rewrite Q in K.
  eapply wp_mono; [exact S| |auto]. intros [c2 w2] [] (R & [W1 W2 W3 W4 W5 W6 W7]).
  assert (Z : flat c2 = []).
  { unfold flat. pose proof (types_nodup _ _ _ _ R) as N. unfold types in N.
    assert (El : forall x, In x (content c2) -> snd x = []).
    { intros [t l] Hin. rewrite <- (W2 t I). unfold elems, seg_of. cbn [snd].
      clear - N Hin. induction (content c2) as [|[t1 l1] r IH]; [destruct Hin|]. simpl in *. inversion N; subst.
      destruct Hin as [Hin|Hin].
      - inversion Hin; subst. rewrite Nat.eqb_refl. auto.
      - destruct (Nat.eqb_spec t1 t) as [->|]; auto. exfalso. apply H1. apply in_map_iff. exists (t, l). auto. }
    clear - El. induction (content c2) as [|[t l] r IH]; auto. simpl. rewrite IH by (intros; apply El; right; auto).
    pose proof (El (t, l) (or_introl eq_refl)) as Q. simpl in Q. subst. auto. }
  csplit; auto.
  - rewrite c_size_flat, Z. auto.
  - rewrite W1. apply T.
  - rewrite W1. apply T.
  - rewrite W7. apply K.
Qed.

(* an element is inserted in the middle of a segment and moving the elements throws: the collection can no longer be traversed *)
Lemma wrecked lay : exists (E : Env nat) w c m safe new vals c' w', env_layout = lay /\ reach w [c] [] /\ api [] c m safe new vals /\
  m (c, w) = Exn (c', w') UserExn /\ ~ valid c' /\ length (flat c') = 6 /\ done (c_copy c' w') = true.
Proof.
  pose (n := match lay with PackedLayout => 22 | SplitLayout => 33 end).
  pose (E := with_junk 1 (fE lay n)). pose (s := gs E (five 40)). pose (pos := li_base (fst s) 4 0).
  exists E, (snd s), (fst s), (void (c_emplace_pos pos 40 (SVal 4))). do 3 eexists.
  assert (C : match void (c_emplace_pos pos 40 (SVal 4)) (fst s, snd s) with
      Exn (c', w') UserExn => match traverse 20 c' (c_begin c') (c_end c') with Some l => negb (length l =? c_size c') | None => false end &&
        ((length (flat c') =? 6) && done (c_copy c' w'))
      | _ => false end = true) by (destruct lay; vm_compute; reflexivity).
  destruct (void (c_emplace_pos pos 40 (SVal 4)) (fst s, snd s)) as [|[c' w'] []|]; try discriminate.
  rewrite !andb_true_iff in C. destruct C as (C1 & C2 & C3). apply Nat.eqb_eq in C2.
  exists c', w'. csplit; auto.
  - apply gs_reach. destruct lay; vm_compute; reflexivity.
  - refine (api_emplace_pos (E := E) [] (fst s) pos 0 40 (SVal 4) 4 _ _); [|left; reflexivity].
    apply (li_base_points (E := E) _ _ _ 5); [destruct lay; vm_compute; reflexivity|lia].
  - eapply short_invalid; eauto.
Qed.
Example C65_clear_ex lay : exists (E : Env nat) w c m safe new vals c' w', env_layout = lay /\ reach w [c] [] /\ api [] c m safe new vals /\
  m (c, w) = Exn (c', w') UserExn /\ ~ valid c' /\ length (flat c') = 6.
Proof.
  destruct (wrecked lay) as (E & w & c & m & sf & nw & vl & c' & w' & H1 & H2 & H3 & H4 & H5 & H6 & _).
  exists E, w, c, m, sf, nw, vl, c', w'. auto 10.
Qed.

(** Clearing the whole collection is not needed.  It is enough to clear, with clear(info), the
    segments which the failed call has changed, and all others are then as before the call. *)
Definition mended {V} {E : Env V} (g d : list (coll V)) (c c' : coll V) (l : list tiaddr) (c2 : coll V) (w2 : world) : Prop :=
  reach w2 (c2 :: g) d /\ types c2 = types c' /\ c_al c2 = c_al c /\
  (forall a, In a l -> elems c2 (env_ty a) = [] /\ cap_of c2 (env_ty a) = cap_of c' (env_ty a)) /\
  (forall t, ~ In t (map env_ty l) -> elems c2 t = elems c t /\ cap_of c2 t = cap_of c t /\ forall k, addr_of c2 t k = addr_of c t k).
Theorem C65_clear_changed {V} {E : Env V} w c g d m safe new vals c' w' e l :
  reach w (c :: g) d -> api g c m safe new vals -> m (c, w) = Exn (c', w') e ->
  (forall t, ~ In t (map env_ty l) -> seg_at c' t = seg_at c t) ->
  wp (clear_types l) (c', w') (fun '(c2, w2) _ => mended g d c c' l c2 w2) (fun _ _ => False).
Proof.
  intros H A Q Sg. pose proof (api_kept w c g d m safe new vals H A) as K. unfold wp in K. rewrite Q in K.
  eapply wp_mono; [eapply recover_clear_types; eauto| |auto]. intros [c2 w2] _ (R & Al & Ty & S1 & S2).
  unfold mended. csplit; auto.
  - rewrite Al. apply K.
  - intros a Ha. apply S2, in_map. auto.
  - intros t N. rewrite !elems_seg_at. unfold cap_of, addr_of. rewrite S1; auto.
Qed.
(* three elements of type 1 and five of type 4, a sixth inserted in the middle: moving the elements throws *)
Lemma wrecked_segment lay : exists (E : Env nat) w c pos c' w', env_layout = lay /\ reach w [c] [] /\ env_ty 40 = 4 /\
  api [] c (void (c_emplace_pos pos 40 (SVal 4))) (fun _ => safe_at c (env_ty 40) 0) [] [(env_ty 40, 4)] /\
  void (c_emplace_pos pos 40 (SVal 4)) (c, w) = Exn (c', w') UserExn /\
  ~ valid c' /\ elems c 1 = [5; 6; 7] /\ length (elems c' 4) = 6 /\ (forall t, ~ In t [4] -> seg_at c' t = seg_at c t).
Proof.
  pose (n := match lay with PackedLayout => 33 | SplitLayout => 49 end).
  pose (E := with_junk 1 (fE lay n)). pose (s := gs E ([(10, Some 5); (10, Some 6); (10, Some 7)] ++ five 40)). pose (pos := li_base (fst s) 4 0).
  assert (C : match void (c_emplace_pos pos 40 (SVal 4)) (fst s, snd s) with
      Exn (c', w') UserExn => match traverse 20 c' (c_begin c') (c_end c') with Some l => negb (length l =? c_size c') | None => false end &&
        (length (elems c' 4) =? 6)
      | _ => false end = true) by (destruct lay; vm_compute; reflexivity).
  assert (R : reach (snd s) [fst s] []) by (apply gs_reach; destruct lay; vm_compute; reflexivity).
  assert (A : api [] (fst s) (void (c_emplace_pos pos 40 (SVal 4))) (fun _ => safe_at (fst s) (env_ty 40) 0) [] [(env_ty 40, 4)]).
  { refine (api_emplace_pos (E := E) [] (fst s) pos 0 40 (SVal 4) 4 _ _); [|left; reflexivity].
    apply (li_base_points (E := E) _ _ _ 5); [destruct lay; vm_compute; reflexivity|lia]. }
  assert (L1 : elems (fst s) 1 = [5; 6; 7]) by (destruct lay; vm_compute; reflexivity).
  exists E, (snd s), (fst s), pos.
  destruct (void (c_emplace_pos pos 40 (SVal 4)) (fst s, snd s)) as [|[c' w'] []|] eqn:Q; try discriminate.
  rewrite !andb_true_iff in C. destruct C as (C1 & C2). apply Nat.eqb_eq in C2.
  exists c', w'. csplit; auto.
  - eapply short_invalid; eauto.
  - intros t N. pose proof (C28_calls _ _ _ _ _ _ _ _ t R A) as S. unfold wp in S. rewrite Q in S. apply S; [discriminate|exact N].
Qed.
Example C65_clear_changed_ex lay : exists (E : Env nat) w c m safe new vals c' w', env_layout = lay /\ reach w [c] [] /\
  api [] c m safe new vals /\ m (c, w) = Exn (c', w') UserExn /\ ~ valid c' /\ elems c 1 = [5; 6; 7] /\
  (forall t, ~ In t (map env_ty [40]) -> seg_at c' t = seg_at c t).
Proof.
  destruct (wrecked_segment lay) as (E & w & c & pos & c' & w' & H1 & H2 & H3 & H4 & H5 & H6 & H7 & H8 & H9).
  exists E, w, c. do 4 eexists. exists c', w'. csplit; [exact H1|exact H2|exact H4|exact H5|exact H6|exact H7|].
  simpl map. rewrite H3. exact H9.
Qed.

(** After a failed insertion: the types of the elements it was to insert. *)
Theorem C65_clear_inserted {V} {E : Env V} w c g d m safe new vals c' w' e l :
  reach w (c :: g) d -> api g c m safe new vals -> m (c, w) = Exn (c', w') e ->
  vals <> [] -> incl (map fst vals) (map env_ty l) ->
  wp (clear_types l) (c', w') (fun '(c2, w2) _ => mended g d c c' l c2 w2) (fun _ _ => False).
Proof.
  intros H A Q Nv I. eapply C65_clear_changed; eauto. intros t N.
  pose proof (C28_calls w c g d m safe new vals t H A Nv) as S. unfold wp in S. rewrite Q in S. apply S. auto.
Qed.
Example C65_clear_inserted_ex lay : exists (E : Env nat) w c m safe new vals c' w', env_layout = lay /\ reach w [c] [] /\
  api [] c m safe new vals /\ m (c, w) = Exn (c', w') UserExn /\ ~ valid c' /\ elems c 1 = [5; 6; 7] /\
  vals <> [] /\ incl (map fst vals) (map env_ty [40]).
Proof.
  destruct (wrecked_segment lay) as (E & w & c & pos & c' & w' & H1 & H2 & H3 & H4 & H5 & H6 & H7 & H8 & H9).
  exists E, w, c. do 4 eexists. exists c', w'. csplit; [exact H1|exact H2|exact H4|exact H5|exact H6|exact H7|discriminate|apply incl_refl].
Qed.

(** After a failed erasure of elements of type [t], or a failed reserve for it: that type. *)
Theorem C65_clear_type {V} {E : Env V} w c g d m safe new vals c' w' e a : let t := env_ty a in
  reach w (c :: g) d -> api g c m safe new vals -> m (c, w) = Exn (c', w') e ->
  (exists pos k, points c pos t k /\ m = void (c_erase pos)) \/
  (exists pos k, lpoints c pos t k /\ k < length (elems c t) /\ m = void (c_erase_local pos)) \/
  (exists first last i j, lpoints c first t i /\ lpoints c last t j /\ i <= j /\ m = void (c_erase_local_range first last)) \/
  (exists n, m = c_reserve_info a n \/ m = c_reserve_type a n) ->
  wp (clear_types [a]) (c', w') (fun '(c2, w2) _ => mended g d c c' [a] c2 w2) (fun _ _ => False).
Proof.
  intros t H A Q Hm. eapply C65_clear_changed; eauto. intros t' N.
  assert (Ne : t' <> t) by (intros ->; apply N; left; auto). clear N.
  assert (V1 : forall B (p : M (coll V * world) B), void p (c, w) = Exn (c', w') e -> p (c, w) = Exn (c', w') e).
  { unfold void, bind, ret. intros B p. destruct (p (c, w)); congruence. }
  destruct Hm as [(pos & k & P & ->)|[(pos & k & P & Hk & ->)|[(first & last & i & j & P1 & P2 & Hij & ->)|(n & [->| ->])]]].
  - pose proof (spec_erase w c g d pos t k H P) as S. apply V1 in Q. unfold wp in S. rewrite Q in S. apply S. auto.
  - pose proof (spec_erase_local w c g d pos t k H P Hk) as S. apply V1 in Q. unfold wp in S. rewrite Q in S. apply S. auto.
  - pose proof (spec_erase_local_range w c g d first last t i j H P1 P2 Hij) as S. apply V1 in Q. unfold wp in S. rewrite Q in S. apply S. auto.
  - pose proof (spec_reserve_info w c g d a n H) as S. unfold wp in S. rewrite Q in S. destruct S as [(_ & _ & -> & _)|S]; auto. apply S. auto.
  - pose proof (spec_reserve_type w c g d a n H) as S. unfold wp in S. rewrite Q in S. apply S. auto.
Qed.
(* memory runs out when reserving; in a split segment, after the index has been moved *)
Example C65_clear_type_ex lay : exists (E : Env nat) w c c' w', env_layout = lay /\ reach w [c] [] /\ env_ty 10 = 1 /\
  api [] c (c_reserve_info 10 9) (fun e => env_layout = PackedLayout \/ ~ In (env_ty 10) (types c)) [] [] /\
  c_reserve_info 10 9 (c, w) = Exn (c', w') BadAlloc /\ elems c 1 = [5; 6; 7] /\ (lay = SplitLayout -> ~ valid c').
Proof.
  pose (n := match lay with PackedLayout => 11 | SplitLayout => 17 end).
  pose (E := fE lay n). pose (s := gs E [(10, Some 5); (10, Some 6); (10, Some 7)]).
  assert (C : match c_reserve_info 10 9 (fst s, snd s) with
      Exn (c', w') BadAlloc => match lay with PackedLayout => true | SplitLayout => stuck 20 c' (c_begin c') (c_end c') end
      | _ => false end = true) by (destruct lay; vm_compute; reflexivity).
  assert (R : reach (snd s) [fst s] []) by (apply gs_reach; destruct lay; vm_compute; reflexivity).
  assert (L1 : elems (fst s) 1 = [5; 6; 7]) by (destruct lay; vm_compute; reflexivity).
  exists E, (snd s), (fst s). destruct (c_reserve_info 10 9 (fst s, snd s)) as [|[c' w'] []|]; try discriminate.
  exists c', w'. csplit; auto.
  - apply api_reserve_info.
  - intros ->. eapply stuck_invalid; eauto.
Qed.

(** It can also be copied: the copy is in working order and holds, type by type, the elements its
    segments hold.  Copying throws for the usual reasons only, and then changes nothing. *)
Theorem C65_copy {V} {E : Env V} w c g d m safe new vals c' w' e :
  reach w (c :: g) d -> api g c m safe new vals -> m (c, w) = Exn (c', w') e ->
  wp (c_copy c') w'
    (fun w2 c2 => reach w2 (c2 :: g) (c' :: d) /\ same_content c' c2 /\ c_al c2 = env_socc (c_al c))
    (fun w2 e2 => reach w2 g (c' :: d) /\ copy_threw true c' w' w2 e2).
Proof.
  intros H A Q. pose proof (api_kept w c g d m safe new vals H A) as K. unfold wp in K. rewrite Q in K. destruct K as (_ & _ & K).
  rewrite <- K. eapply recover_copy; eauto.
Qed.
Example C65_copy_ex lay : exists (E : Env nat) w c m safe new vals c' w', env_layout = lay /\ reach w [c] [] /\ api [] c m safe new vals /\
  m (c, w) = Exn (c', w') UserExn /\ ~ valid c' /\ length (flat c') = 6 /\ done (c_copy c' w') = true.
Proof. exact (wrecked lay). Qed.

(** After a failed reserve the copy holds what the collection held before. *)
Theorem C65_copy_after_reserve {V} {E : Env V} w c g d n m c' w' e :
  reach w (c :: g) d -> m = c_reserve_all n \/ (exists a, m = c_reserve_info a n) \/ (exists a, m = c_reserve_type a n) ->
  m (c, w) = Exn (c', w') e ->
  wp (c_copy c') w'
    (fun w2 c2 => reach w2 (c2 :: g) (c' :: d) /\ forall t, elems c2 t = elems c t)
    (fun w2 e2 => reach w2 g (c' :: d) /\ copy_threw true c' w' w2 e2).
Proof.
  intros H Hm Q.
  assert (A : exists safe new, api g c m safe new []).
  { destruct Hm as [->|[(a & ->)|(a & ->)]]; do 2 eexists; [apply api_reserve|apply api_reserve_info|apply api_reserve_type]. }
  destruct A as (sf & nw & A).
  assert (Ec : forall t, elems c' t = elems c t).
  { destruct Hm as [->|[(a & ->)|(a & ->)]].
    - pose proof (spec_reserve w c g d n H) as S. unfold wp in S. rewrite Q in S. destruct S as (S & _).
      intros t. unfold elems, seg_of. rewrite S. auto.
    - pose proof (spec_reserve_info w c g d a n H) as S. unfold wp in S. rewrite Q in S.
      destruct S as [(_ & _ & -> & _)|(_ & S & _)]; auto. intros t. unfold elems, seg_of. rewrite S. auto.
    - pose proof (spec_reserve_type w c g d a n H) as S. unfold wp in S. rewrite Q in S. destruct S as ([S|(N & P)] & _).
      + intros t. unfold elems, seg_of. rewrite S. auto.
      + destruct (left_over _ _ _ _ _ _ _ _ _ _ _ H A Q) as (W0 & _). pose proof (wm_tys _ _ (wc0_map _ _ W0)) as Nd.
        rewrite <- types_nodes in Nd. intros t. unfold elems, seg_of in *. rewrite <- (assoc_perm _ _ t Nd P). simpl.
        destruct (Nat.eqb_spec (env_ty a) t) as [<-|]; [rewrite N|]; auto. }
  eapply wp_mono; [eapply C65_copy; eauto| |auto]. intros w2 c2 (R & (_ & S) & _). split; auto.
  intros t. rewrite <- Ec. unfold elems. rewrite S. auto.
Qed.
(* memory runs out; in a split segment, after the index has been moved to larger storage *)
Example C65_copy_after_reserve_ex lay : exists (E : Env nat) w c c' w', env_layout = lay /\ reach w [c] [] /\
  c_reserve_info 10 9 (c, w) = Exn (c', w') BadAlloc /\ elems c 1 = [5; 6; 7] /\ done (c_copy c' w') = true /\
  (lay = SplitLayout -> ~ valid c').
Proof.
  pose (n := match lay with PackedLayout => 11 | SplitLayout => 17 end).
  pose (E := fE lay n). pose (s := gs E [(10, Some 5); (10, Some 6); (10, Some 7)]).
  assert (C : match c_reserve_info 10 9 (fst s, snd s) with
      Exn (c', w') BadAlloc => done (c_copy c' w') && match lay with PackedLayout => true | SplitLayout => stuck 20 c' (c_begin c') (c_end c') end
      | _ => false end = true) by (destruct lay; vm_compute; reflexivity).
  exists E, (snd s), (fst s). destruct (c_reserve_info 10 9 (fst s, snd s)) as [|[c' w'] []|]; try discriminate.
  rewrite andb_true_iff in C. destruct C as (C1 & C2).
  exists c', w'. csplit; auto.
  - apply gs_reach. destruct lay; vm_compute; reflexivity.
  - destruct lay; vm_compute; reflexivity.
  - intros ->. eapply stuck_invalid; eauto.
Qed.

Print Assumptions C65_clear.
Print Assumptions C65_clear_changed.
Print Assumptions C65_clear_inserted.
Print Assumptions C65_clear_type.
Print Assumptions C65_copy.
Print Assumptions C65_copy_after_reserve.
