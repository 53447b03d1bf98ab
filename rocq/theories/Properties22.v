(** * Separate collections, separate threads (C69)

    Calls on collections as steps of several threads, in any interleaving.  The machine of
    SpecHist.v says what each call does; which thread owns which collection is fixed during the
    schedule, collections without an owner are only read. *)

From Coq Require Import List Arith Lia Bool Permutation.
From Verif Require Import Base Vec Backend Segment Coll Spec Reach SpecHist ProofBase ProofVec ProofBackend ProofSeg ProofMap ProofView ProofColl
  ProofRange ProofReach ProofObs ProofProp ProofProp2 ProofProp3 ProofProp4 ProofProp5 ProofHist Demo Properties5 Properties11.
Import ListNotations.

(** ** C69 Threads working on separate collections do not affect each other *)

(** Whatever the schedule, and although calls may throw, each thread leaves in its collections what
    it could have left there running alone, and what it reads stays as it was. *)
Theorem C69_alone {V} {E : Env V} pre s owner w g d : history (pre ++ map snd s) w g d ->
  Forall (fun ta => minds owner (fst ta) (snd ta)) s ->
  exists bs0, runs [] pre bs0 /\ length g = length bs0 /\
    (forall i c, owner i = None -> nth_error g i = Some c -> exists b, nth_error bs0 i = Some b /\ forall u, seg_of c u = b u) /\
    forall t, exists bs, runs bs0 (acts_of t s) bs /\
      forall i c, owner i = Some t -> nth_error g i = Some c -> exists b, nth_error bs i = Some b /\ forall u, seg_of c u = b u.
Proof.
  intros H K. destruct (history_spec _ _ _ _ H) as (_ & bs & R & F). destruct (runs_split _ _ _ _ R) as (bs0 & R0 & R1).
  assert (L : length bs = length bs0).
  { destruct (threads_alone owner 0 s bs0 bs bs0 K R1 (agree_refl _ _ _)) as (x & Rx & (Lx & _)). rewrite Lx. clear - Rx K.
    assert (Kx : Forall (minds owner 0) (acts_of 0 s)).
    { apply Forall_forall. intros a I. unfold acts_of in I. apply in_map_iff in I. destruct I as ([v a'] & E3 & I). simpl in E3. subst a'.
      apply filter_In in I. destruct I as (I & Ev). simpl in Ev. apply Nat.eqb_eq in Ev. subst v. rewrite Forall_forall in K. apply (K _ I). }
    clear K. induction Rx as [|bs0 a b1 h b' M Rx IH]; auto. inversion Kx; subst. rewrite IH by auto.
    destruct (moves_other owner 1 0 a bs0 b1) as (Q & _); auto. }
  exists bs0. csplit; auto.
  - rewrite <- L. clear - F. induction F; simpl; auto.
  - intros i c O N. destruct (F2_nth _ _ _ _ _ F N) as (b & Nb & Hb). exists b. split; auto.
    assert (Ag : forall (s' : list (nat * act V)) (bs1 bs2 : list (bag V)), Forall (fun ta => minds owner (fst ta) (snd ta)) s' -> runs bs1 (map snd s') bs2 ->
      nth_error bs1 i = nth_error bs2 i).
    { clear - O. induction s' as [|[t a] s' IH]; intros bs1 bs2 K R; inversion R as [|? b1 ? ? M R']; subst; auto. inversion K; subst.
      simpl in *. rewrite <- (IH b1 bs2) by auto. destruct (moves_other owner (S t) t a bs1 b1) as (_ & Q); auto. }
    rewrite (Ag s bs0 bs); auto.
  - intros t. destruct (threads_alone owner t s bs0 bs bs0 K R1 (agree_refl _ _ _)) as (x & Rx & (_ & A)). exists x. split; auto.
    intros i c O N. destruct (F2_nth _ _ _ _ _ F N) as (b & Nb & Hb). exists b. split; auto. rewrite <- A; auto.
Qed.

Lemma steady_of {V} t (s : list (nat * act V)) : Forall steady (map snd s) -> Forall steady (acts_of t s).
Proof.
  intros S. apply Forall_forall. intros b I. unfold acts_of in I. apply in_map_iff in I.
  destruct I as ([v b'] & E3 & I). simpl in E3. subst b'. apply filter_In in I. destruct I as (I & _).
  rewrite Forall_forall in S. apply S. apply (in_map snd) in I. exact I.
Qed.
Lemma nth_same {A} (l l' : list A) : (forall i, nth_error l i = nth_error l' i) -> l = l'.
Proof.
  revert l'. induction l as [|x l IH]; intros [|y l'] H; auto; pose proof (H 0) as H0; simpl in H0; try discriminate.
  inversion H0; subst. f_equal. apply IH. intros i. apply (H (S i)).
Qed.

(** As long as no call throws, all schedules of the same threads do the same: if one is possible
    then so is the other, and they end alike. *)
Theorem C69_order {V} (bs bs1 : list (bag V)) s s' owner :
  Forall (fun ta => minds owner (fst ta) (snd ta)) s -> Forall (fun ta => minds owner (fst ta) (snd ta)) s' ->
  Forall steady (map snd s) -> Forall steady (map snd s') -> (forall t, acts_of t s = acts_of t s') ->
  run bs (map snd s) = Some bs1 -> run bs (map snd s') = Some bs1.
Proof.
  intros K K' S S' Q R. destruct (run bs (map snd s')) as [bs2|] eqn:R'.
  - f_equal. apply nth_same. intros i. apply run_runs in R. apply run_runs in R'.
    assert (A : forall t, owner i = Some t \/ owner i = None -> nth_error bs2 i = nth_error bs1 i).
    { intros t O. destruct (threads_alone owner t s bs bs1 bs K R (agree_refl _ _ _)) as (x & Rx & (_ & A)).
      destruct (threads_alone owner t s' bs bs2 bs K' R' (agree_refl _ _ _)) as (x' & Rx' & (_ & A')).
      rewrite <- (Q t) in Rx'. apply runs_run in Rx; [|apply steady_of; auto]. apply runs_run in Rx'; [|apply steady_of; auto].
      rewrite A, A' by auto. congruence. }
    destruct (owner i) as [t|] eqn:O; [apply (A t)|apply (A 0)]; auto.
  - exfalso. apply (run_alone owner s' bs); auto. intros t x Ag.
    destruct (threads_alone owner t s bs bs1 x K (run_runs _ _ _ R) Ag) as (x' & Rx & _). rewrite <- Q.
    apply runs_run in Rx; [congruence|]. apply steady_of; auto.
Qed.

(** So two programs running the same threads under different schedulers (and with different
    allocators, growth and hashing) end with the same elements in all their collections. *)
Theorem C69_schedules {V} (E1 E2 : Env V) pre s s' owner w1 g1 d1 w2 g2 d2 :
  history (E := E1) (pre ++ map snd s) w1 g1 d1 -> history (E := E2) (pre ++ map snd s') w2 g2 d2 ->
  Forall (fun ta => minds owner (fst ta) (snd ta)) s -> Forall (fun ta => minds owner (fst ta) (snd ta)) s' ->
  Forall steady pre -> Forall steady (map snd s) -> Forall steady (map snd s') -> (forall t, acts_of t s = acts_of t s') ->
  Forall2 (fun c1 c2 => (forall t, seg_of c1 t = seg_of c2 t) /\ Permutation (content c1) (content c2) /\
                        Permutation (flat c1) (flat c2)) g1 g2.
Proof.
  intros H1 H2 K K' P S S' Q. destruct (history_spec _ _ _ _ H1) as (R1 & bs1 & Q1 & F1). destruct (history_spec _ _ _ _ H2) as (R2 & bs2 & Q2 & F2).
  destruct (runs_split _ _ _ _ Q1) as (x1 & A1 & B1). destruct (runs_split _ _ _ _ Q2) as (x2 & A2 & B2).
  apply runs_run in A1; auto. apply runs_run in A2; auto. rewrite A1 in A2. inversion A2; subst x2. clear A2.
  apply runs_run in B1; auto. apply runs_run in B2; auto. rewrite (C69_order _ _ s s' owner K K' S S' Q B1) in B2. inversion B2; subst bs2.
  exact (same_contents E1 E2 _ _ _ _ _ _ bs1 R1 R2 F1 F2).
Qed.

(** Without ownership this fails: the order decides what is copied. *)
Theorem C69_sharing_matters : exists (s s' : list (nat * act nat)) bs bs1 bs2, (forall t, acts_of t s = acts_of t s') /\
  run bs (map snd s) = Some bs1 /\ run bs (map snd s') = Some bs2 /\ map (fun b => b 1) bs1 <> map (fun b => b 1) bs2.
Proof.
  exists [(1, On 0 (Put None [(1, 5)])); (2, Assign 1 0)], [(2, Assign 1 0); (1, On 0 (Put None [(1, 5)]))], [none; none].
  do 2 eexists. csplit; [|reflexivity|reflexivity|discriminate].
  intros [|[|[|t]]]; reflexivity.
Qed.

(** Thread 1 owns collection 0, thread 2 collection 1, and collection 2 is read by both. *)
Definition demo_owner (i : nat) : option nat := match i with 0 => Some 1 | 1 => Some 2 | _ => None end.
Definition demo_pre : list (act nat) := [New; On 0 (Put None [(1, 5)]); On 0 (Put None [(2, 8)]); New; New].
Definition sched1 : list (nat * act nat) :=
  [(1, On 0 (PutFrom None 2)); (2, On 1 (PutFrom None 2)); (1, On 0 (Erase 1 0 1)); (2, On 1 (Put None [(1, 9)]))].
Definition sched2 : list (nat * act nat) :=
  [(2, On 1 (PutFrom None 2)); (2, On 1 (Put None [(1, 9)])); (1, On 0 (PutFrom None 2)); (1, On 0 (Erase 1 0 1))].
Definition make (s : gw) : gw := (c_empty 0 :: fst s, snd s).
Definition from2 {E : Env nat} (i : nat) (s : gw) : gw :=
  doo i (fun g c => let y := nth 2 g (c_empty 0) in c_insert_from (length (flat y)) y (c_begin y) (c_end y)) s.
Definition t0 lay : gw := make (make (s2 lay)).
Definition er {E : Env nat} (s : gw) : gw := doo 0 (fun _ c => void (c_erase (it_at c 1 0))) s.
Definition nine {E : Env nat} (s : gw) : gw := doo 1 (fun _ _ => void (c_emplace 10 (SVal 9))) s.
Definition t1 lay : gw := let E := dE lay in nine (er (from2 1 (from2 0 (t0 lay)))).
Definition t2 lay : gw := let E := dE lay in er (from2 0 (nine (from2 1 (t0 lay)))).
Lemma from2_history (E : Env nat) h s i d : history (E := E) h (snd s) (fst s) d -> i < 2 -> 2 < length (fst s) ->
  (let g := fst s in let c := nth i g (c_empty 0) in let y := nth 2 g (c_empty 0) in
   done (c_insert_from (length (flat y)) y (c_begin y) (c_end y) (c, snd s)) = true) ->
  history (E := E) (h ++ [On i (PutFrom None 2)]) (snd (from2 i s)) (fst (from2 i s)) d.
Proof.
  intros H Hi L D. apply (doo_history E); auto. cbv zeta. csplit; auto; [apply nth_error_nth'; lia|].
  assert (N : nth_error (fst s) 2 = Some (nth 2 (fst s) (c_empty 0))) by (apply nth_error_nth'; lia).
  apply (p_all (E := E) _ _ _ 2); [lia|exact N|]. pose proof (C58_reachable _ _ _ _ H) as R.
  apply (begin_located (E := E) (snd s) _ (del 2 (fst s)) d). exact (r_perm _ _ _ _ _ R (del_perm _ _ _ N) (Permutation_refl _)).
Qed.
Lemma t0_history lay : history (E := dE lay) demo_pre (snd (t0 lay)) (fst (t0 lay)) [].
Proof.
  change demo_pre with ((((([] ++ [New]) ++ [On 0 (Put None [(1, 5)])]) ++ [On 0 (Put None [(2, 8)])]) ++ [New]) ++ [New] : list (act nat)).
  apply (h_new (E := dE lay)). apply (h_new (E := dE lay)). apply (doo_history (dE lay)); [apply (doo_history (dE lay))|].
  - apply (h_new (E := dE lay)). constructor.
  - cbv zeta. csplit; [destruct lay; reflexivity| |destruct lay; vm_compute; reflexivity].
    apply (p_emplace (E := dE lay) _ _ _ 10 (SVal 5) 5). left. reflexivity.
  - cbv zeta. csplit; [destruct lay; vm_compute; reflexivity| |destruct lay; vm_compute; reflexivity].
    apply (p_insert (E := dE lay) _ _ _ (mkarg 21 21 true false HCopy (SVal 8)) 8); [discriminate|left; reflexivity].
Qed.
Lemma t1_history lay : history (E := dE lay) (demo_pre ++ map snd sched1) (snd (t1 lay)) (fst (t1 lay)) [].
Proof.
  change (demo_pre ++ map snd sched1) with ((((demo_pre ++ [On 0 (PutFrom None 2)]) ++ [On 1 (PutFrom None 2)]) ++ [On 0 (Erase 1 0 1)]) ++
    [On 1 (Put None [(1, 9)])] : list (act nat)).
  apply (doo_history (dE lay)); [apply (doo_history (dE lay)); [apply (from2_history (dE lay)); [apply (from2_history (dE lay)); [apply t0_history|..]|..]|]|];
    try (destruct lay; vm_compute; reflexivity); try (destruct lay; vm_compute; lia).
  - cbv zeta. csplit; [destruct lay; vm_compute; reflexivity| |destruct lay; vm_compute; reflexivity].
    apply (p_erase (E := dE lay) _ _ _ _ 1 0). destruct lay; (eapply it_at_points; [vm_compute; reflexivity|lia]).
  - cbv zeta. csplit; [destruct lay; vm_compute; reflexivity| |destruct lay; vm_compute; reflexivity].
    apply (p_emplace (E := dE lay) _ _ _ 10 (SVal 9) 9). left. reflexivity.
Qed.
Lemma t2_history lay : history (E := dE lay) (demo_pre ++ map snd sched2) (snd (t2 lay)) (fst (t2 lay)) [].
Proof.
  change (demo_pre ++ map snd sched2) with ((((demo_pre ++ [On 1 (PutFrom None 2)]) ++ [On 1 (Put None [(1, 9)])]) ++ [On 0 (PutFrom None 2)]) ++
    [On 0 (Erase 1 0 1)] : list (act nat)).
  apply (doo_history (dE lay)); [apply (from2_history (dE lay)); [apply (doo_history (dE lay)); [apply (from2_history (dE lay)); [apply t0_history|..]|]|..]|];
    try (destruct lay; vm_compute; reflexivity); try (destruct lay; vm_compute; lia).
  - cbv zeta. csplit; [destruct lay; vm_compute; reflexivity| |destruct lay; vm_compute; reflexivity].
    apply (p_emplace (E := dE lay) _ _ _ 10 (SVal 9) 9). left. reflexivity.
  - cbv zeta. csplit; [destruct lay; vm_compute; reflexivity| |destruct lay; vm_compute; reflexivity].
    apply (p_erase (E := dE lay) _ _ _ _ 1 0). destruct lay; (eapply it_at_points; [vm_compute; reflexivity|lia]).
Qed.
Lemma sched1_minds : Forall (fun ta => minds demo_owner (fst ta) (snd ta)) sched1.
Proof.
  repeat (apply Forall_cons; [split; repeat (apply Forall_cons; [first [reflexivity|right; reflexivity]|]); apply Forall_nil|]). apply Forall_nil.
Qed.
Lemma sched2_minds : Forall (fun ta => minds demo_owner (fst ta) (snd ta)) sched2.
Proof.
  repeat (apply Forall_cons; [split; repeat (apply Forall_cons; [first [reflexivity|right; reflexivity]|]); apply Forall_nil|]). apply Forall_nil.
Qed.
Lemma sched_same t : acts_of t sched1 = acts_of t sched2.
Proof. destruct t as [|[|[|t]]]; reflexivity. Qed.

Example C69_alone_ex lay : history (E := dE lay) (demo_pre ++ map snd sched1) (snd (t1 lay)) (fst (t1 lay)) [] /\
  Forall (fun ta => minds demo_owner (fst ta) (snd ta)) sched1 /\
  map (fun c => seg_of c 1) (fst (t1 lay)) = [Some []; Some [5; 9]; Some [5]].
Proof. csplit; [apply t1_history|apply sched1_minds|destruct lay; vm_compute; reflexivity]. Qed.
Example C69_order_ex lay : exists bs1 bs, Forall2 (fun c b => forall t, seg_of c t = b t) (fst (t0 lay)) bs /\
  Forall (fun ta => minds demo_owner (fst ta) (snd ta)) sched1 /\ Forall (fun ta => minds demo_owner (fst ta) (snd ta)) sched2 /\
  Forall steady (map snd sched1) /\ Forall steady (map snd sched2) /\ (forall t, acts_of t sched1 = acts_of t sched2) /\
  run bs (map snd sched1) = Some bs1.
Proof.
  destruct (C58_computed (E := dE lay) _ _ _ _ (t0_history lay) ltac:(repeat constructor)) as (bs & Q & F).
  destruct (C58_computed (E := dE lay) _ _ _ _ (t1_history lay) ltac:(repeat constructor)) as (bs1 & Q1 & _).
  exists bs1, bs. csplit; auto using sched1_minds, sched2_minds, sched_same; try (repeat constructor).
  inversion Q. exact Q1.
Qed.
Example C69_schedules_ex : let E1 := dE PackedLayout in let E2 := dE SplitLayout in
  history (E := E1) (demo_pre ++ map snd sched1) (snd (t1 PackedLayout)) (fst (t1 PackedLayout)) [] /\
  history (E := E2) (demo_pre ++ map snd sched2) (snd (t2 SplitLayout)) (fst (t2 SplitLayout)) [] /\
  Forall (fun ta => minds demo_owner (fst ta) (snd ta)) sched1 /\ Forall (fun ta => minds demo_owner (fst ta) (snd ta)) sched2 /\
  Forall steady demo_pre /\ Forall steady (map snd sched1) /\ Forall steady (map snd sched2) /\
  (forall t, acts_of t sched1 = acts_of t sched2) /\ sched1 <> sched2.
Proof.
  cbv zeta. csplit; auto using t1_history, t2_history, sched1_minds, sched2_minds, sched_same; try (repeat constructor). discriminate.
Qed.

Print Assumptions C69_alone.
Print Assumptions C69_order.
Print Assumptions C69_schedules.
Print Assumptions C69_sharing_matters.
