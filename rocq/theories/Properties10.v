(** * More on capacity and stability (C25, C27)

    The general forms of the statements in Properties2.v and Properties3.v: for every call, and
    for every way to insert. *)

From Coq Require Import List Arith Lia Bool Permutation.
From Verif Require Import Base Vec Backend Segment Coll Spec Reach ProofBase ProofVec ProofBackend ProofSeg ProofMap ProofView ProofColl
  ProofRange ProofReach ProofObs ProofProp ProofProp2 ProofProp3 ProofProp4 ProofProp5 Demo Properties2.
Import ListNotations.

(** ** C25 Storage is not reallocated while the capacity suffices *)

(** Whatever is called (reserve and shrink_to_fit excepted): a segment which has room, in its
    present storage, for the elements it has afterwards keeps this storage ([data_of] is its
    address) and its capacity. *)
Theorem C25_no_reallocation {V} {E : Env V} w c g d m safe new vals : reach w (c :: g) d -> api g c m safe new vals ->
  m = c_shrink_all \/ (exists a, m = c_shrink_info a) \/
  (exists n, m = c_reserve_all n \/ exists a, m = c_reserve_info a n \/ m = c_reserve_type a n) \/
  wp m (c, w) (fun '(c', w') _ => forall t, In t (types c) -> length (elems c' t) <= cap_of c t ->
     cap_of c' t = cap_of c t /\ data_of c' t = data_of c t) (fun _ _ => True).
Proof. exact (api_fits w c g d m safe new vals). Qed.
Example C25_no_reallocation_ex lay : let E := dE lay in let c := fst (dr lay) in
  let m := void (c_insert_pos_range (li_base c 1 2) [mkarg 10 10 true false HCopy (SVal 3); mkarg 10 11 true false HCopy (SVal 4)]) in
  let s := state (m (c, snd (dr lay))) in
  reach (snd (dr lay)) [c; dx lay] [] /\ (exists safe new vals, api [dx lay] c m safe new vals) /\
  In 1 (types c) /\ cap_of c 1 = 9 /\ elems (fst s) 1 = [5; 6; 3; 4; 7] /\ data_of c 1 <> None.
Proof.
  cbv zeta. csplit; [apply dr_reach| |demo_fact lay..].
  do 3 eexists. refine (api_pos_range (E := dE lay) [dx lay] (fst (dr lay)) _ 1 2 _ [3; 4] _ _); [demo_fact lay|repeat constructor].
Qed.

(** Including reserve: as long as the capacity reported for a segment does not change, its
    storage has not moved. *)
Theorem C25_storage_moves_only_with_capacity {V} {E : Env V} w c g d m safe new vals : reach w (c :: g) d -> api g c m safe new vals ->
  m = c_shrink_all \/ (exists a, m = c_shrink_info a) \/
  wp m (c, w) (fun '(c', w') _ => forall t, In t (types c) -> cap_of c' t = cap_of c t -> data_of c' t = data_of c t) (fun _ _ => True).
Proof. exact (api_unmoved w c g d m safe new vals). Qed.
Example C25_storage_moves_only_with_capacity_ex lay : let E := dE lay in let c := fst (dr lay) in
  let s := state (c_reserve_all 7 (c, snd (dr lay))) in
  reach (snd (dr lay)) [c; dx lay] [] /\ (exists safe new vals, api [dx lay] c (c_reserve_all 7) safe new vals) /\
  cap_of (fst s) 1 = cap_of c 1 /\ cap_of (fst s) 2 = 7 /\ cap_of c 2 <> 7 /\ data_of (fst s) 2 <> data_of c 2.
Proof.
  cbv zeta. csplit; [apply dr_reach| |demo_fact lay..].
  do 3 eexists. exact (api_reserve (E := dE lay) [dx lay] (fst (dr lay)) 7).
Qed.

(** ** C27 Stability, for every way to insert *)

(** [firm h c c' l]: after inserting the values [l] with hint [h] (that is, at the end, or, for
    elements of type [t] if the hint is [Some (t, k)], at index [k]), in every segment that has
    room for the new elements, storage and elements before the insertion point are where they
    were; iterators and local iterators to them still refer to them, provided the call does not
    create segments or the map's iterators survive rehashing.  end() is still end(). *)
Definition firm {V} {E : Env V} (h : option (tyid * nat)) (c c' : coll V) (l : list (tyid * V)) : Prop :=
  c_end c' = c_end c /\
  forall t, In t (types c) -> length (elems c t) + length (of_type t l) <= cap_of c t ->
    cap_of c' t = cap_of c t /\ data_of c' t = data_of c t /\
    forall j, j < slot h c t -> addr_of c' t j = addr_of c t j /\
      (incl (map fst l) (types c) \/ env_rehash_stable = true -> kept_at c c' t j).
Lemma firm_grew {V} {E : Env V} h c c' l : grew h c c' l -> firm h c c' l.
Proof.
  intros G. split; [reflexivity|]. intros t Ht Hc. pose proof (grew_length _ _ _ _ t G) as Hl. rewrite <- Hl in Hc. csplit.
  - apply (g_cap _ _ _ _ G); auto.
  - apply (g_data _ _ _ _ G); auto.
  - intros j Hj. split; [apply (g_stable _ _ _ _ G); auto|]. intros S. apply (g_iters _ _ _ _ G); auto.
Qed.
Lemma firm_end {V} {E : Env V} t c c' l : firm (Some (t, length (elems c t))) c c' l -> firm None c c' l.
Proof.
  intros (F1 & F). split; auto. intros u Hu Hc. destruct (F u Hu Hc) as (A & B & D). csplit; auto.
  intros j Hj. apply D. unfold slot in *. destruct (Nat.eqb_spec t u); subst; auto.
Qed.

Theorem C27_emplace_firm {V} {E : Env V} w c g d a x v : let t := env_ty a in reach w (c :: g) d -> src_c c t HEmplace x v ->
  wp (c_emplace a x) (c, w) (fun '(c', w') _ => firm None c c' [(t, v)]) (fun _ _ => True).
Proof.
  intros. eapply wp_mono; [eapply spec_emplace; eauto| |auto]. intros [c' w'] r (I & _). eapply firm_end, firm_grew, I.
Qed.
Example C27_emplace_firm_ex lay : let E := dE lay in let c := fst (dr lay) in
  reach (snd (dr lay)) [c; dx lay] [] /\
   src_c c (env_ty 10) HEmplace (SVal 4) 4 /\ In 1 (types c) /\ cap_of c 1 = 9 /\ elems c 1 = [5; 6; 7].
Proof. cbv zeta. csplit; [apply dr_reach|left; reflexivity|demo_fact lay..]. Qed.

Theorem C27_emplace_hint_firm {V} {E : Env V} w c g d hint i k a x v : let t := env_ty a in reach w (c :: g) d -> located c hint i -> hint_at c hint t k -> hint_safe c hint t -> src_c c t HEmplace x v ->
  wp (c_emplace_hint hint a x) (c, w) (fun '(c', w') _ => firm (Some (t, k)) c c' [(t, v)]) (fun _ _ => True).
Proof.
  intros. eapply wp_mono; [eapply spec_emplace_hint; eauto| |auto]. intros [c' w'] r (I & _). apply firm_grew, I.
Qed.
Example C27_emplace_hint_firm_ex lay : let E := dE lay in let c := fst (dr lay) in let it := it_at c 1 1 in
  reach (snd (dr lay)) [c; dx lay] [] /\
  located c it 1 /\ hint_at c it (env_ty 10) 1 /\ hint_safe c it (env_ty 10) /\ src_c c (env_ty 10) HEmplace (SVal 4) 4 /\ cap_of c 1 = 9.
Proof. cbv zeta. change (env_ty (Env := dE lay) 10) with 1. csplit; [apply dr_reach|demo_fact lay|left; demo_fact lay|right; left; demo_fact lay|left; reflexivity|demo_fact lay]. Qed.

Theorem C27_emplace_pos_firm {V} {E : Env V} w c g d pos k a x v : let t := env_ty a in reach w (c :: g) d -> lpoints c pos t k -> src_c c t HEmplace x v ->
  wp (c_emplace_pos pos a x) (c, w) (fun '(c', w') _ => firm (Some (t, k)) c c' [(t, v)]) (fun _ _ => True).
Proof.
  intros. eapply wp_mono; [eapply spec_emplace_pos; eauto| |auto]. intros [c' w'] r (I & _). apply firm_grew, I.
Qed.
Example C27_emplace_pos_firm_ex lay : let E := dE lay in let c := fst (dr lay) in
  reach (snd (dr lay)) [c; dx lay] [] /\
  lpoints c (li_base c 1 2) (env_ty 10) 2 /\ src_c c (env_ty 10) HEmplace (SVal 4) 4 /\ cap_of c 1 = 9.
Proof. cbv zeta. change (env_ty (Env := dE lay) 10) with 1. csplit; [apply dr_reach|demo_fact lay|left; reflexivity|demo_fact lay]. Qed.

Theorem C27_insert_firm {V} {E : Env V} w c g d x v : let t := env_ty (a_dyn x) in reach w (c :: g) d -> arg_ok x -> src_c c t (a_how x) (a_src x) v ->
  wp (c_insert x) (c, w) (fun '(c', w') _ => firm None c c' [(t, v)]) (fun _ _ => True).
Proof.
  intros. eapply wp_mono; [eapply spec_insert; eauto| |auto]. intros [c' w'] r (_ & I & _). eapply firm_end, firm_grew, I.
Qed.
Example C27_insert_firm_ex lay : let E := dE lay in let c := fst (dr lay) in let x := mkarg 20 10 true false HCopy (SVal 3) in
  reach (snd (dr lay)) [c; dx lay] [] /\
  arg_ok x /\ src_c c (env_ty (a_dyn x)) (a_how x) (a_src x) 3 /\ cap_of c 1 = 9.
Proof. cbv zeta. csplit; [apply dr_reach|intros Q; discriminate|left; reflexivity|demo_fact lay]. Qed.

Theorem C27_insert_hint_firm {V} {E : Env V} w c g d hint i k x v : let t := env_ty (a_dyn x) in reach w (c :: g) d -> located c hint i -> hint_at c hint t k -> hint_safe c hint t -> arg_ok x ->
  src_c c t (a_how x) (a_src x) v ->
  wp (c_insert_hint hint x) (c, w) (fun '(c', w') _ => firm (Some (t, k)) c c' [(t, v)]) (fun _ _ => True).
Proof.
  intros. eapply wp_mono; [eapply spec_insert_hint; eauto| |auto]. intros [c' w'] r (_ & I & _). apply firm_grew, I.
Qed.
Example C27_insert_hint_firm_ex lay : let E := dE lay in let c := fst (dr lay) in let it := it_at c 1 1 in let x := mkarg 20 10 true false HCopy (SVal 3) in
  reach (snd (dr lay)) [c; dx lay] [] /\
  located c it 1 /\ hint_at c it (env_ty (a_dyn x)) 1 /\ hint_safe c it (env_ty (a_dyn x)) /\ arg_ok x /\ src_c c (env_ty (a_dyn x)) (a_how x) (a_src x) 3 /\ cap_of c 1 = 9.
Proof. cbv zeta. change (env_ty (Env := dE lay) (a_dyn _)) with 1. csplit; [apply dr_reach|demo_fact lay|left; demo_fact lay|right; left; demo_fact lay|intros Q; discriminate|left; reflexivity|demo_fact lay]. Qed.

Theorem C27_insert_pos_firm {V} {E : Env V} w c g d pos k x v : let t := env_ty (a_dyn x) in reach w (c :: g) d -> lpoints c pos t k -> src_c c t (a_how x) (a_src x) v ->
  wp (c_insert_pos pos x) (c, w) (fun '(c', w') _ => firm (Some (t, k)) c c' [(t, v)]) (fun _ _ => True).
Proof.
  intros. eapply wp_mono; [eapply spec_insert_pos; eauto| |auto]. intros [c' w'] r (I & _). apply firm_grew, I.
Qed.
Example C27_insert_pos_firm_ex lay : let E := dE lay in let c := fst (dr lay) in let x := mkarg 20 10 true false HCopy (SVal 3) in
  reach (snd (dr lay)) [c; dx lay] [] /\
  lpoints c (li_base c 1 2) (env_ty (a_dyn x)) 2 /\ src_c c (env_ty (a_dyn x)) (a_how x) (a_src x) 3 /\ cap_of c 1 = 9.
Proof. cbv zeta. change (env_ty (Env := dE lay) (a_dyn _)) with 1. csplit; [apply dr_reach|demo_fact lay|left; reflexivity|demo_fact lay]. Qed.

Theorem C27_insert_range_firm {V} {E : Env V} w c g d xs l : reach w (c :: g) d -> Forall2 gives xs l ->
  wp (c_insert_range xs) (c, w) (fun '(c', w') _ => firm None c c' l) (fun _ _ => True).
Proof.
  intros. eapply wp_mono; [eapply spec_insert_range; eauto| |auto]. intros [c' w'] r (G & _). apply firm_grew, G.
Qed.
Example C27_insert_range_firm_ex lay : let E := dE lay in let c := fst (dr lay) in let xs := [mkarg 10 10 true false HCopy (SVal 3); mkarg 20 20 true false HCopy (SVal 4); mkarg 50 50 true true HMove (SVal 5)] in
  reach (snd (dr lay)) [c; dx lay] [] /\
  Forall2 gives xs [(1, 3); (2, 4); (5, 5)] /\ In 1 (types c) /\
  length (elems c 1) + length (of_type 1 [(1, 3); (2, 4); (5, 5)]) <= cap_of c 1.
Proof. cbv zeta. csplit; [apply dr_reach|repeat constructor; try (intros _; reflexivity); intros Q; discriminate|demo_fact lay|demo_fact lay]. Qed.

Theorem C27_insert_range_terminal_firm {V} {E : Env V} w c g d a h fwd xs : let t := env_ty a in reach w (c :: g) d ->
  wp (c_insert_range_terminal a h fwd xs) (c, w) (fun '(c', w') _ => firm None c c' (map (pair t) xs)) (fun _ _ => True).
Proof.
  intros. eapply wp_mono; [eapply spec_insert_range_terminal; eauto| |auto]. intros [c' w'] r (G & _). apply firm_grew, G.
Qed.
Example C27_insert_range_terminal_firm_ex lay : let E := dE lay in let c := fst (dr lay) in
  reach (snd (dr lay)) [c; dx lay] [] /\
  In 1 (types c) /\ length (elems c 1) + length (of_type 1 (map (pair (env_ty 10)) [3; 4; 5])) <= cap_of c 1.
Proof. cbv zeta. csplit; [apply dr_reach|demo_fact lay|demo_fact lay]. Qed.

Theorem C27_insert_hint_range_firm {V} {E : Env V} w c g d hint h xs l : reach w (c :: g) d -> hint_is c hint h -> Forall2 gives xs l -> hsafe h c l ->
  wp (c_insert_hint_range hint xs) (c, w) (fun '(c', w') _ => firm h c c' l) (fun _ _ => True).
Proof.
  intros. eapply wp_mono; [eapply spec_insert_hint_range; eauto| |auto]. intros [c' w'] r (G & _). apply firm_grew, G.
Qed.
Example C27_insert_hint_range_firm_ex lay : let E := dE lay in let c := fst (dr lay) in let xs := [mkarg 10 10 true false HCopy (SVal 3); mkarg 20 20 true false HCopy (SVal 4); mkarg 50 50 true true HMove (SVal 5)] in let l := [(1, 3); (2, 4); (5, 5)] in
  reach (snd (dr lay)) [c; dx lay] [] /\
  hint_is c (it_at c 1 2) (Some (1, 2)) /\ Forall2 gives xs l /\ hsafe (Some (1, 2)) c l /\ In 1 (types c) /\
  length (elems c 1) + length (of_type 1 l) <= cap_of c 1.
Proof. cbv zeta. csplit; [apply dr_reach|cbn [hint_is]; demo_fact lay|repeat constructor; try (intros _; reflexivity); intros Q; discriminate|right; right; reflexivity|demo_fact lay|demo_fact lay]. Qed.

Theorem C27_insert_hint_range_terminal_firm {V} {E : Env V} w c g d hint hn a h fwd xs : let t := env_ty a in reach w (c :: g) d -> hint_is c hint hn -> hsafe hn c (map (pair t) xs) ->
  wp (c_insert_hint_range_terminal hint a h fwd xs) (c, w) (fun '(c', w') _ => firm hn c c' (map (pair t) xs)) (fun _ _ => True).
Proof.
  intros. eapply wp_mono; [eapply spec_insert_hint_range_terminal; eauto| |auto]. intros [c' w'] r (G & _). apply firm_grew, G.
Qed.
Example C27_insert_hint_range_terminal_firm_ex lay : let E := dE lay in let c := fst (dr lay) in let l := map (pair (env_ty 10)) [3; 4; 5] in
  reach (snd (dr lay)) [c; dx lay] [] /\
  hint_is c (it_at c 1 2) (Some (1, 2)) /\ hsafe (Some (1, 2)) c l /\ In 1 (types c) /\
  length (elems c 1) + length (of_type 1 l) <= cap_of c 1.
Proof. cbv zeta. csplit; [apply dr_reach|cbn [hint_is]; demo_fact lay|right; right; reflexivity|demo_fact lay|demo_fact lay]. Qed.

Theorem C27_insert_from_firm {V} {E : Env V} w c g d y first last i j : reach w (c :: g) d -> In y g -> located y first i -> located y last j -> i <= j ->
  wp (c_insert_from (length (flat y)) y first last) (c, w) (fun '(c', w') _ => firm None c c' (firstn (j - i) (skipn i (flat y)))) (fun _ _ => True).
Proof.
  intros. eapply wp_mono; [eapply spec_insert_from; eauto| |auto]. intros [c' w'] r (G & _). apply firm_grew, G.
Qed.
Example C27_insert_from_firm_ex lay : let E := dE lay in let c := fst (dr lay) in let y := dx lay in let l := firstn (5 - 0) (skipn 0 (flat y)) in
  reach (snd (dr lay)) [c; dx lay] [] /\
  In y [dx lay] /\ located y (c_begin y) 0 /\ located y (c_end y) 5 /\ 0 <= 5 /\ In 1 (types c) /\
  length (elems c 1) + length (of_type 1 l) <= cap_of c 1 /\ of_type 1 l = [5; 6; 7].
Proof. cbv zeta. csplit; [apply dr_reach|left; auto|eapply begin_located; apply dx_reach|replace 5 with (length (flat (dx lay))) by demo lay; apply end_located|lia|demo_fact lay..]. Qed.

Theorem C27_insert_hint_from_firm {V} {E : Env V} w c g d hint h y first last i j : reach w (c :: g) d -> hint_is c hint h -> In y g -> located y first i -> located y last j -> i <= j ->
  hsafe h c (firstn (j - i) (skipn i (flat y))) ->
  wp (c_insert_hint_from (length (flat y)) hint y first last) (c, w) (fun '(c', w') _ => firm h c c' (firstn (j - i) (skipn i (flat y)))) (fun _ _ => True).
Proof.
  intros. eapply wp_mono; [eapply spec_insert_hint_from; eauto| |auto]. intros [c' w'] r (G & _). apply firm_grew, G.
Qed.
Example C27_insert_hint_from_firm_ex lay : let E := dE lay in let c := fst (dr lay) in let y := dx lay in let l := firstn (5 - 0) (skipn 0 (flat y)) in
  reach (snd (dr lay)) [c; dx lay] [] /\
  hint_is c (it_at c 1 2) (Some (1, 2)) /\ In y [dx lay] /\ located y (c_begin y) 0 /\ located y (c_end y) 5 /\ 0 <= 5 /\
  hsafe (Some (1, 2)) c l /\ In 1 (types c) /\ length (elems c 1) + length (of_type 1 l) <= cap_of c 1 /\ of_type 1 l = [5; 6; 7].
Proof. cbv zeta. csplit; [apply dr_reach|cbn [hint_is]; demo_fact lay|left; auto|eapply begin_located; apply dx_reach|replace 5 with (length (flat (dx lay))) by demo lay; apply end_located|lia|right; right; reflexivity|demo_fact lay..]. Qed.

Theorem C27_insert_local_firm {V} {E : Env V} w c g d a xs : let t := env_ty a in reach w (c :: g) d ->
  wp (c_insert_local a t xs) (c, w) (fun '(c', w') _ => firm None c c' (map (pair t) xs)) (fun _ _ => True).
Proof.
  intros. eapply wp_mono; [eapply spec_insert_local; eauto| |auto]. intros [c' w'] r (G & _). apply firm_grew, G.
Qed.
Example C27_insert_local_firm_ex lay : let E := dE lay in let c := fst (dr lay) in let l := map (pair (env_ty 10)) (elems (dx lay) 1) in
  reach (snd (dr lay)) [c; dx lay] [] /\
  In 1 (types c) /\ length (elems c 1) + length (of_type 1 l) <= cap_of c 1 /\ of_type 1 l = [5; 6; 7].
Proof. cbv zeta. csplit; [apply dr_reach|demo_fact lay..]. Qed.

Theorem C27_insert_hint_local_firm {V} {E : Env V} w c g d hint h a xs : let t := env_ty a in reach w (c :: g) d -> hint_is c hint h -> hsafe h c (map (pair t) xs) ->
  wp (c_insert_hint_local hint a t xs) (c, w) (fun '(c', w') _ => firm h c c' (map (pair t) xs)) (fun _ _ => True).
Proof.
  intros. eapply wp_mono; [eapply spec_insert_hint_local; eauto| |auto]. intros [c' w'] r (G & _). apply firm_grew, G.
Qed.
Example C27_insert_hint_local_firm_ex lay : let E := dE lay in let c := fst (dr lay) in let l := map (pair (env_ty 10)) (elems (dx lay) 1) in
  reach (snd (dr lay)) [c; dx lay] [] /\
  hint_is c (it_at c 1 2) (Some (1, 2)) /\ hsafe (Some (1, 2)) c l /\ In 1 (types c) /\
  length (elems c 1) + length (of_type 1 l) <= cap_of c 1.
Proof. cbv zeta. csplit; [apply dr_reach|cbn [hint_is]; demo_fact lay|right; right; reflexivity|demo_fact lay|demo_fact lay]. Qed.

Theorem C27_insert_pos_range_firm {V} {E : Env V} w c g d pos t k xs vs : reach w (c :: g) d -> lpoints c pos t k -> Forall2 (gives_at t) xs vs ->
  wp (c_insert_pos_range pos xs) (c, w) (fun '(c', w') _ => firm (Some (t, k)) c c' (map (pair t) vs)) (fun _ _ => True).
Proof.
  intros. eapply wp_mono; [eapply spec_insert_pos_range; eauto| |auto]. intros [c' w'] r (G & _). apply firm_grew, G.
Qed.
Example C27_insert_pos_range_firm_ex lay : let E := dE lay in let c := fst (dr lay) in let xs := [mkarg 10 10 true false HCopy (SVal 3); mkarg 10 11 true false HCopy (SVal 4); mkarg 10 10 true false HMove (SVal 5)] in
  reach (snd (dr lay)) [c; dx lay] [] /\
  lpoints c (li_base c 1 2) 1 2 /\ Forall2 (gives_at 1) xs [3; 4; 5] /\ In 1 (types c) /\ length (elems c 1) + length (of_type 1 (map (pair 1) [3; 4; 5])) <= cap_of c 1.
Proof. cbv zeta. csplit; [apply dr_reach|demo_fact lay|repeat constructor|demo_fact lay|demo_fact lay]. Qed.

Theorem C27_insert_lpos_range_firm {V} {E : Env V} w c g d i p k a xs : let t := env_ty a in reach w (c :: g) d -> lpoints c (mkliter i (PConc p)) t k ->
  wp (c_insert_lpos_range i t p xs) (c, w) (fun '(c', w') _ => firm (Some (t, k)) c c' (map (pair t) (map snd xs))) (fun _ _ => True).
Proof.
  intros. eapply wp_mono; [eapply spec_insert_lpos_range; eauto| |auto]. intros [c' w'] r (G & _). apply firm_grew, G.
Qed.
Example C27_insert_lpos_range_firm_ex lay : let E := dE lay in let c := fst (dr lay) in let l := li_conc c 1 1 in
  reach (snd (dr lay)) [c; dx lay] [] /\ lpoints c l (env_ty 10) 1 /\ (exists p, li_pos l = PConc p) /\ In 1 (types c) /\
  length (elems c 1) + length (of_type 1 (map (pair 1) [3; 4; 5])) <= cap_of c 1.
Proof.
  cbv zeta. change (env_ty (Env := dE lay) 10) with 1. csplit; [apply dr_reach|demo_fact lay|destruct lay; vm_compute; eauto|demo_fact lay|demo_fact lay].
Qed.

Print Assumptions C25_no_reallocation.
Print Assumptions C25_storage_moves_only_with_capacity.
Print Assumptions C27_emplace_firm.
Print Assumptions C27_emplace_hint_firm.
Print Assumptions C27_emplace_pos_firm.
Print Assumptions C27_insert_firm.
Print Assumptions C27_insert_hint_firm.
Print Assumptions C27_insert_pos_firm.
Print Assumptions C27_insert_range_firm.
Print Assumptions C27_insert_range_terminal_firm.
Print Assumptions C27_insert_hint_range_firm.
Print Assumptions C27_insert_hint_range_terminal_firm.
Print Assumptions C27_insert_from_firm.
Print Assumptions C27_insert_hint_from_firm.
Print Assumptions C27_insert_local_firm.
Print Assumptions C27_insert_hint_local_firm.
Print Assumptions C27_insert_pos_range_firm.
Print Assumptions C27_insert_lpos_range_firm.
