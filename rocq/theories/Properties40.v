(** * What readers are told (C66)

    See the head of Properties1.v for the form of the statements; Read.v for readers and schedules, SpecRead.v for the right answers. *)

From Coq Require Import List Arith Lia Bool Permutation.
From Verif Require Import Base Vec Backend Segment Coll Info Spec SpecInfo Reach Read SpecRead ProofBase ProofVec ProofBackend ProofSeg ProofMap ProofView ProofColl
  ProofRange ProofReach ProofObs ProofProp ProofProp2 ProofProp3 ProofProp4 ProofProp5 ProofInfo ProofGrow Demo Properties1 Properties3 Properties5 Properties13 Properties18 Properties26.
Import ListNotations.

Section Answers.
Context {V : Type} {E : Env V}.

Lemma lpoints_fun w c g d l t k t' k' : reach w (c :: g) d -> lpoints c l t k -> lpoints c l t' k' -> t = t' /\ k = k'.
Proof.
  intros H P P'. destruct (lpoints_unpack _ _ _ _ _ _ _ H P) as (n & Hin & Hat & Hid & Et & Ws & El & Hk & Hp).
  destruct (lpoints_unpack _ _ _ _ _ _ _ H P') as (n' & Hin' & Hat' & Hid' & Et' & Ws' & El' & Hk' & Hp').
  assert (n = n') by congruence. subst n'. split; [congruence|].
  destruct Hp as [Hp|Hp], Hp' as [Hp'|Hp']; rewrite Hp in Hp'; rewrite ?be_ptr_eq in Hp'; unfold vptr in Hp'; congruence.
Qed.

Lemma li_next_to w c g d l t k : reach w (c :: g) d -> lpoints c l t k -> k < length (elems c t) ->
  exists l', li_next c l = Some l' /\ lpoints c l' t (S k) /\ (based l' <-> based l).
Proof.
  intros H P Hk. destruct (lpoints_unpack _ _ _ _ _ _ _ H P) as (n & Hin & Hat & Hid & Et & Ws & El & Hkn & Hp).
  assert (Hlt : k <? be_size (sg_be (n_seg n)) = true).
  { apply Nat.ltb_lt. rewrite El, n_elems_length in Hk. exact Hk. }
  pose proof Hlt as Hl. apply Nat.ltb_lt in Hl.
  destruct Hp as [Hp|Hp].
  - unfold li_next. rewrite Hat, Hp, be_ptr_eq. cbn [fst snd]. rewrite Hlt. eexists. csplit; [reflexivity| |].
    + exists n. csplit; auto. left. cbn [li_pos]. rewrite be_ptr_eq. reflexivity.
    + unfold based. cbn [li_pos]. rewrite Hp. split; eauto.
  - unfold li_next. rewrite Hat, Hp. unfold vptr. cbn [fst snd]. rewrite Hlt. eexists. csplit; [reflexivity| |].
    + exists n. csplit; auto.
    + unfold based. cbn [li_pos]. rewrite Hp. split; intros (q & Q); discriminate.
Qed.

Lemma as_answer_ok {A} (k : A -> answer V) (m : M (coll V * world) A) s (P : answer V -> Prop) :
  wp m s (fun s' x => s' = s /\ P (k x)) (fun s' e => s' = s /\ P (Threw e)) ->
  exists r, P r /\ (as_answer k m s = Ok s r \/ exists e, r = Threw e /\ as_answer k m s = Exn s e).
Proof.
  unfold wp, as_answer, bind. destruct (m s) as [s' x|s' e|]; [| |contradiction].
  - intros (-> & Q). exists (k x). split; auto.
  - intros (-> & Q). exists (Threw e). split; eauto.
Qed.
Lemma look_ok {A} (k : A -> answer V) (f : coll V -> A) c w (P : answer V -> Prop) : P (k (f c)) ->
  exists r, P r /\ (as_answer k (look f) (c, w) = Ok (c, w) r \/ exists e, r = Threw e /\ as_answer k (look f) (c, w) = Exn (c, w) e).
Proof. intros Q. exists (k (f c)). split; auto. Qed.
Lemma look_opt_ok {A} (k : A -> answer V) (f : coll V -> option A) c w x (P : answer V -> Prop) : f c = Some x -> P (k x) ->
  exists r, P r /\ (as_answer k (look_opt f) (c, w) = Ok (c, w) r \/ exists e, r = Threw e /\ as_answer k (look_opt f) (c, w) = Exn (c, w) e).
Proof. intros Q R. exists (k x). split; auto. left. unfold as_answer, look_opt, bind, getx. cbn. rewrite Q. reflexivity. Qed.
Lemma query_ok {A} (k : A -> answer V) (m : M (coll V * world) A) c w a (Q : A -> Prop) (P : answer V -> Prop) :
  query m c w (env_ty a) Q -> (forall x, Q x -> P (k x)) ->
  exists r, of_type c a r (P r) /\ (as_answer k m (c, w) = Ok (c, w) r \/ exists e, r = Threw e /\ as_answer k m (c, w) = Exn (c, w) e).
Proof.
  intros H R. apply (as_answer_ok k m (c, w) (fun r => of_type c a r (P r))). eapply wp_mono; [exact H| |].
  - intros s x (-> & I & q). split; auto. left. auto.
  - intros s e (-> & N & ->). split; auto. right. auto.
Qed.

Lemma describes_fun w c g d i t t' : reach w (c :: g) d -> describes c i t -> describes c i t' -> t = t'.
Proof. intros _ [(a & Q & <-) _ _ _ _ _ _] [(a' & Q' & <-) _ _ _ _ _ _]. congruence. Qed.

Lemma trav_at_nodes w c g d : reach w (c :: g) d -> forall l1 l2, c_nodes c = l1 ++ l2 ->
  trav_at c (match l2 with [] => None | n :: _ => Some (n_id n) end) (map n_ty l2).
Proof.
  intros H l1 [|n l2] Q; cbn [map trav_at]; [reflexivity|]. apply (describes_node w c g d n H). rewrite Q. apply in_elt.
Qed.
Lemma wp_and_ok {A} (m : M (coll V * world) A) s (P : A -> Prop) Q X :
  (forall s' r, m s = Ok s' r -> P r) -> wp m s Q X -> wp m s (fun s' r => Q s' r /\ P r) X.
Proof. unfold wp. intros HP Hw. destruct (m s) as [s' r|s' e|]; auto. split; auto. eapply HP; reflexivity. Qed.

End Answers.

(** Every question with valid iterators gets the right answer; the exception it throws, if any, is the one stated. *)
Theorem C66_right_answers {V} {E : Env V} w c g d q : reach w (c :: g) d -> proper c q ->
  exists r, right c q r /\ (ask q (c, w) = Ok (c, w) r \/ exists e, r = Threw e /\ ask q (c, w) = Exn (c, w) e).
Proof.
  intros H P. destruct (reach_wf _ _ _ _ H) as (Wf & O).
  assert (Pt : forall it, (exists t k, points c it t k) -> exists i, located c it i /\ i < length (flat c)).
  { intros it (t & k & Pt). exists (offset (content c) t + k). pose proof (points_located _ _ _ _ Pt) as L. split; auto.
    destruct (C04_normalised w c g d it _ H L) as [(Hi & _)|(_ & Q)]; auto. destruct Pt as (n & _ & _ & Qi & _). rewrite Q in Qi. discriminate. }
  destruct q; cbn [ask proper] in *.
  - apply look_ok. cbn [right]. eexists. split; [reflexivity|]. eapply is_registered_iff; eauto.
  - apply look_ok. cbn [right]. f_equal. eapply C03_size; eauto.
  - apply look_ok. cbn [right]. eexists. split; [reflexivity|]. rewrite (proj2 (proj2 (C03_size w c g d H))), (proj1 (C03_size w c g d H)).
    destruct (flat c); cbn [length]; split; auto; discriminate.
  - eapply query_ok; [apply (C03_size_of_type w c g d a H)|]. intros x ->. reflexivity.
  - eapply query_ok; [apply (C03_size_of_type w c g d a H)|]. intros x Q. eauto.
  - eapply (query_ok Nat _ c w a (fun n => cap_of c (env_ty a) <= n + 1) (fun r => exists n, r = Nat n /\ cap_of c (env_ty a) <= n + 1)); [|eauto].
    unfold query, c_max_size_of. eapply wp_by_info; [exact H| |auto]. intros s Hs Ws Et. csplit; auto.
    + destruct (seg_at_in _ _ _ Hs) as (n & Hin & Ht & _). rewrite types_nodes. rewrite <- Ht. exact (in_map n_ty _ _ Hin).
    + unfold seg_max_size. rewrite Et. pose proof (cap_le_max w c g d (env_ty a) H). unfold be_max_size. destruct env_layout; lia.
  - eapply query_ok; [apply (C25_capacity_bounds_size w c g d a H)|]. intros x (-> & Q & _). auto.
  - apply look_ok. eexists. split; [reflexivity|]. eapply begin_located; eauto.
  - apply look_ok. eexists. split; [reflexivity|]. apply end_located.
  - eapply (query_ok LPos _ c w a (fun l => based l /\ lpoints c l (env_ty a) 0) (fun r => exists l, r = LPos l /\ based l /\ lpoints c l (env_ty a) 0)); [|eauto].
    assert (B : wp (c_begin_of a) (c, w) (fun s l => (s = (c, w) /\ In (env_ty a) (types c) /\ lpoints c l (env_ty a) 0) /\ based l)
      (fun s e => s = (c, w) /\ ~ In (env_ty a) (types c) /\ e = UnregisteredType (env_ty a))).
    { apply wp_and_ok; [intros s' l Q; eapply begin_of_base; eauto|]. eapply wp_c_begin_of; eauto. }
    eapply wp_mono; [exact B| |auto]. intros s l ((-> & I & Q) & Bs). auto.
  - eapply (query_ok LPos _ c w a (fun l => based l /\ lpoints c l (env_ty a) (length (elems c (env_ty a))))
      (fun r => exists l, r = LPos l /\ based l /\ lpoints c l (env_ty a) (length (elems c (env_ty a))))); [|eauto].
    assert (B : wp (c_end_of a) (c, w) (fun s l => (s = (c, w) /\ In (env_ty a) (types c) /\ lpoints c l (env_ty a) (length (elems c (env_ty a)))) /\ based l)
      (fun s e => s = (c, w) /\ ~ In (env_ty a) (types c) /\ e = UnregisteredType (env_ty a))).
    { apply wp_and_ok; [intros s' l Q; eapply end_of_base; eauto|]. eapply wp_c_end_of; eauto. }
    eapply wp_mono; [exact B| |auto]. intros s l ((-> & I & Q) & Bs). auto.
  - eapply query_ok; [apply (C60_segment w c g d a H)|]. intros i (Q & _). eauto.
  - destruct P as (t & D). pose proof D as D0. destruct D as [(a & Q & Qt) _ _ _ _ _ _]. eapply look_opt_ok; [exact Q|]. cbn [right]. intros t' D'. exists a. split; auto.
    rewrite Qt. eapply describes_fun; eauto.
  - destruct P as (t & D). pose proof D as D0. destruct D as [_ (m & p & Q & Qt) _ _ _ _ _]. eapply look_opt_ok; [exact Q|]. cbn [right]. intros t' D'.
    assert (t = t') as <- by (eapply describes_fun; eauto). eexists. csplit; [reflexivity|eexists; reflexivity|exact Qt].
  - destruct P as (t & D). pose proof D as D0. destruct D as [_ _ (m & p & Q & Qt) _ _ _ _]. eapply look_opt_ok; [exact Q|]. cbn [right]. intros t' D'.
    assert (t = t') as <- by (eapply describes_fun; eauto). eexists. csplit; [reflexivity|eexists; reflexivity|exact Qt].
  - apply look_ok. exists (trav_begin c). split; auto. rewrite types_nodes. apply (trav_at_nodes w c g d H [] (c_nodes c) eq_refl).
  - destruct P as (t & D). pose proof D as D0. destruct D as [(a & Q & Qt) _ _ _ _ _ _]. unfold trav_deref, inf_type, inf_node in Q. cbn [inf_map] in Q.
    destruct m as [i|]; [|discriminate]. destruct (node_at (c_nodes c) i) as [n|] eqn:Hn; [|discriminate].
    destruct (node_at_in _ _ _ Hn) as (Hin & Hi). apply in_split in Hin. destruct Hin as (l1 & l2 & Hl).
    assert (Hd : describes c (trav_deref (Some i)) (n_ty n)).
    { rewrite <- Hi. apply (describes_node w c g d n H). rewrite Hl. apply in_elt. }
    eapply (look_opt_ok _ _ _ _ (match l2 with [] => None | n' :: _ => Some (n_id n') end)).
    + unfold trav_next. rewrite Hl, <- Hi, nodes_from_split by (rewrite <- Hl; apply Wf). destruct l2; reflexivity.
    + cbn [right]. intros t' D'. assert (n_ty n = t') as <- by (eapply describes_fun; eauto).
      eexists. exists (map n_ty l1), (map n_ty l2). csplit; [reflexivity| |].
      * rewrite types_nodes, Hl, map_app. reflexivity.
      * apply (trav_at_nodes w c g d H (l1 ++ [n]) l2). rewrite Hl, <- app_assoc. reflexivity.
  - destruct (Pt it P) as (i & L & Hi). destruct (nth_error (flat c) i) as [x|] eqn:Hx; [|apply nth_error_None in Hx; lia].
    eapply look_opt_ok; [rewrite (deref_located w c g d it i H L Hi); exact Hx|]. cbn [right]. intros j Lj.
    assert (i = j) as <- by (eapply located_fun; eauto). eauto.
  - destruct (Pt it P) as (i & L & Hi). destruct (next_located w c g d it i H L Hi) as (it' & Q & L').
    eapply look_opt_ok; [exact Q|]. cbn [right]. intros j Lj. assert (i = j) as <- by (eapply located_fun; eauto). eauto.
  - destruct P as (t & k & P & Hk). destruct (nth_error (elems c t) k) as [v|] eqn:Hv; [|apply nth_error_None in Hv; lia].
    eapply look_opt_ok; [rewrite (li_deref_spec w c g d l t k H P), Hv; reflexivity|]. cbn [right]. intros t' k' P'.
    destruct (lpoints_fun w c g d l t k t' k' H P P') as (<- & <-). eauto.
  - destruct P as (t & k & P & Hk). destruct (li_next_to w c g d l t k H P Hk) as (l' & Q & P1 & B).
    eapply look_opt_ok; [exact Q|]. cbn [right]. intros t' k' P'. destruct (lpoints_fun w c g d l t k t' k' H P P') as (<- & <-). eauto.
  - destruct P as (t & k & P). destruct (li_to_conc_spec _ _ _ _ _ _ _ H P) as (q & Q & P1). eapply look_opt_ok; [exact Q|].
    cbn [right]. intros t' k' P'. destruct (lpoints_fun w c g d l t k t' k' H P P') as (<- & <-). eexists. csplit; [reflexivity|exact P1|].
    intros (p & Qp). discriminate.
  - destruct P as (t & k & P). destruct (li_to_base_spec _ _ _ _ _ _ _ H P) as (q & Q & P1). eapply look_opt_ok; [exact Q|].
    cbn [right]. intros t' k' P'. destruct (lpoints_fun w c g d l t k t' k' H P P') as (<- & <-). eexists. csplit; [reflexivity|exact P1|].
    eexists. reflexivity.
Qed.
Example C66_right_answers_ex lay : let E := dE lay in
  reach (dw lay) [dc lay; dx lay] [] /\ proper (dc lay) (Deref (it_at (dc lay) 2 1)) /\ right (dc lay) (Deref (it_at (dc lay) 2 1)) (Elem (2, 9)) /\
  proper (dc lay) (EmptyOf 30) /\ right (dc lay) (EmptyOf 30) (Bool true) /\ right (dc lay) (SizeOf 50) (Threw (UnregisteredType 5)) /\
  right (dc lay) Size (Nat 6).
Proof.
  cbv zeta. csplit; [apply d_reach|exists 2, 1; demo_fact lay| |exact I| | |demo_fact lay].
  - cbn [right]. intros i L. assert (i = 4) as ->. { eapply located_fun; [apply (d_reach lay)|exact L|demo_fact lay]. } exists (2, 9). split; auto. demo_fact lay.
  - left. split; [demo_fact lay|]. exists true. split; auto. split; auto. intros _. demo_fact lay.
  - right. split; [|reflexivity]. demo_fact lay.
Qed.

(** What a reader has been told after any number of steps: it asked until it stopped, and the [k]-th answer is the right one to what it asked after the answers before. *)
Definition told {V} {E : Env V} (c : coll V) (r : reader) (h : list (answer V)) : Prop :=
  forall k a, nth_error h k = Some a -> exists q, r (firstn k h) = Some q /\ right c q a.

Lemma alone_told {V} {E : Env V} w c g d (r : reader) : reach w (c :: g) d -> (forall h q, r h = Some q -> proper c q) ->
  forall n h, told c r h -> exists h', alone n r h (c, w) = Some ((c, w), h') /\ told c r h' /\ (length h' = length h + n \/ r h' = None).
Proof.
  intros H P. induction n as [|n IH]; intros h T; cbn [alone].
  - exists h. csplit; auto.
  - unfold turn. destruct (r h) as [q|] eqn:Q.
    + destruct (C66_right_answers w c g d q H (P h q Q)) as (a & R & A).
      assert (T' : told c r (h ++ [a])).
      { intros k b Hb. destruct (Nat.lt_ge_cases k (length h)) as [Hk|Hk].
        - rewrite nth_error_app1 in Hb by auto. rewrite firstn_app. replace (k - length h) with 0 by lia. rewrite app_nil_r. auto.
        - rewrite nth_error_app2 in Hb by auto. destruct (k - length h) as [|j] eqn:Hj; [|destruct j; discriminate]. cbn in Hb. injection Hb as <-.
          rewrite firstn_app, Hj, firstn_all2 by lia. cbn [firstn]. rewrite app_nil_r. eauto. }
      destruct (IH (h ++ [a]) T') as (h' & A' & Th & L). exists h'. rewrite app_length in L. cbn [length] in L.
      destruct A as [->|(e & -> & ->)]; (split; [exact A'|split; [exact Th|destruct L; [left; lia|auto]]]).
    + destruct (IH h T) as (h' & A' & Th & L). exists h'. csplit; auto. right.
      clear - A' Q. induction n as [|n IH]; cbn [alone] in A'; [congruence|]. unfold turn in A'. rewrite Q in A'. auto.
Qed.

(** Readers which share a collection: in every interleaving each is told the right answers, one for every turn it had until it stopped. *)
Theorem C66_told {V} {E : Env V} w c g d (rs : list reader) sched : reach w (c :: g) d ->
  (forall r h q, In r rs -> r h = Some q -> proper c q) ->
  exists rs', together sched (map (fun r => (r, [])) rs) (c, w) = Some ((c, w), rs') /\
    forall i r, nth_error rs i = Some r ->
      exists h, nth_error rs' i = Some (r, h) /\ told c r h /\ (length h = count_occ Nat.eq_dec sched i \/ r h = None).
Proof.
  intros H P. assert (T0 : forall r, told c r []) by (intros r k a Q; destruct k; discriminate).
  destruct (C66_concurrent_readers c w rs sched) as (rs' & T & K).
  - intros r n Hr. destruct (alone_told w c g d r H (fun h q => P r h q Hr) n [] (T0 r)) as (h' & -> & _). discriminate.
  - exists rs'. split; auto. intros i r Hi. destruct (K i r Hi) as (h & Hn & A). exists h. split; auto.
    destruct (alone_told w c g d r H (fun h q => P r h q (nth_error_In _ _ Hi)) (count_occ Nat.eq_dec sched i) [] (T0 r)) as (h' & A' & Th & L).
    rewrite A in A'. injection A' as <-. auto.
Qed.
(* two readers: one asks four questions, one of which throws; the other traverses *)
Example C66_told_ex lay : let E := dE lay in
  let rs := [meter [Size; SizeOf 10; EmptyOf 50; CapacityOf 20]; walker] in
  reach (dw lay) [dc lay; dx lay] [] /\ (forall h q, meter [Size; SizeOf 10; EmptyOf 50; CapacityOf 20] h = Some q -> proper (dc lay) q) /\
  match together [0; 1; 1; 0; 1; 0; 0; 0; 1] (map (fun r => (r, [])) rs) (dc lay, dw lay) with
  | Some (_, [(_, h); (_, k)]) => length h = 4 /\ nth_error h 2 = Some (Threw (UnregisteredType 5)) /\ length k = 4
  | _ => False
  end.
Proof.
  cbv zeta. csplit; [apply d_reach| |].
  - apply meter_asks. repeat constructor.
  - destruct lay; vm_compute; auto.
Qed.

Print Assumptions C66_right_answers.
Print Assumptions C66_told.
