(** * Copies, moves, assignment, swap, allocators, lifetimes (C20-C24, C51, C52)

    See the head of Properties1.v for the form of the statements.  [wp m s Q X]: the call [m] in
    state [s] has no undefined behaviour, satisfies [Q] if it returns and [X] if it throws.
    [reach w g d]: a program can be in the world [w], owning the collections [g] in working order
    and the collections [d], which can only be destroyed or assigned to. *)

From Coq Require Import List Arith Lia Bool Permutation.
From Verif Require Import Base Vec Backend Segment Coll Spec Reach ProofBase ProofVec ProofBackend ProofSeg ProofMap ProofView ProofColl
  ProofRange ProofReach ProofObs ProofProp ProofProp2 ProofProp3 ProofProp4 ProofProp5 Demo.
Import ListNotations.

Section Aux.
Context {V : Type} {E : Env V}.

(** The storage of [x] is allocated. *)
Definition storage_live (x : coll V) (w : world) : Prop :=
  forall t k p, addr_of x t k = Some p -> In (fst p) (w_live w).

(** Nothing was constructed, moved, compared or allocated: none of the steps which could fail
    has been executed, and no identifier of storage or nodes has been handed out. *)
Definition no_work (w w' : world) : Prop := w_clock w' = w_clock w /\ w_next w' = w_next w.

Lemma live_of w c g d : reach w (c :: g) d -> storage_live c w.
Proof. intros H t k p Ha. eapply spec_live; eauto. Qed.

Lemma reach_in w x g d : reach w g d -> In x g -> exists g', Permutation g (x :: g') /\ reach w (x :: g') d.
Proof.
  intros H Hin. destruct (in_split _ _ Hin) as (l1 & l2 & ->). exists (l1 ++ l2). split.
  - symmetry. apply Permutation_middle.
  - eapply r_perm; [exact H| |apply Permutation_refl]. symmetry. apply Permutation_middle.
Qed.

Lemma same_content_types (x c : coll V) : same_content x c -> forall t, In t (types c) <-> In t (types x).
Proof.
  intros (P & _) t. unfold types. split; intros Hin; eapply Permutation_in; try exact Hin; apply Permutation_map; [exact P|symmetry; exact P].
Qed.
Lemma same_content_elems (x c : coll V) : same_content x c -> forall t, elems c t = elems x t.
Proof. intros (_ & P) t. unfold elems. rewrite P. reflexivity. Qed.
Lemma same_content_refl (x : coll V) : same_content x x.
Proof. split; auto. Qed.
Lemma types_elems_none (c : coll V) t : ~ In t (types c) -> elems c t = [].
Proof. intros N. unfold elems. destruct (seg_of c t) eqn:Q; auto. exfalso. apply N. apply assoc_types. congruence. Qed.
Lemma types_content (c : coll V) t xs : seg_of c t = Some xs -> In t (types c).
Proof. intros Q. apply assoc_types. congruence. Qed.

Lemma free_idle b w : wp (free b) w (fun w' _ => no_work w w') (fun _ _ => False) \/ free b w = UB.
Proof. unfold wp, free, no_work. destruct (existsb _ _); auto. Qed.
Lemma dispose_idle {A} (eo : eops A) v w : match dispose eo v w with Ok w' _ => no_work w w' | Exn _ _ => False | UB => True end.
Proof.
  unfold dispose. destruct (v_cap v =? 0); [split; reflexivity|]. unfold bind, vdie, free, die, work, ret.
  destruct (eo_obj eo); [destruct (_ <=? _); auto|]; cbn; (destruct (existsb _ _); auto; split; reflexivity).
Qed.
Lemma idle_trans w1 w2 w3 : no_work w1 w2 -> no_work w2 w3 -> no_work w1 w3.
Proof. unfold no_work. intuition congruence. Qed.
Lemma delete_idle (s : segment V) w : match seg_delete s w with Ok w' _ => no_work w w' | Exn _ _ => False | UB => True end.
Proof.
  unfold seg_delete, be_delete, bind.
  pose proof (dispose_idle ix_eops (be_index (sg_be s)) w) as H1. destruct (dispose ix_eops _ w) as [w1 []| |]; auto.
  pose proof (dispose_idle (vh_eops (sg_ty s)) (be_store (sg_be s)) w1) as H2. destruct (dispose _ _ w1) as [w2 []| |]; auto.
  destruct (free_idle (be_self (sg_be s)) w2) as [H3|H3]; [|rewrite H3; auto]. unfold wp in H3.
  destruct (free _ w2); auto. eapply idle_trans; [exact H1|]. eapply idle_trans; eauto.
Qed.
Lemma destroy_idle (ns : list (node V)) : forall w, match destroy_nodes ns w with Ok w' _ => no_work w w' | Exn _ _ => False | UB => True end.
Proof.
  induction ns as [|n ns IH]; intros w; cbn [destroy_nodes]; [split; reflexivity|]. unfold bind.
  pose proof (delete_idle (n_seg n) w) as H1. destruct (seg_delete (n_seg n) w) as [w1 []| |]; auto.
  pose proof (IH w1) as H2. destruct (destroy_nodes ns w1); auto. eapply idle_trans; eauto.
Qed.

End Aux.

(** ** C20 Copies are equal to their source, and independent of it *)

Theorem C20_copy {V} {E : Env V} w x g d : reach w (x :: g) d ->
  wp (c_copy x) w
    (fun w' c => reach w' (c :: x :: g) d /\
       Permutation (content c) (content x) /\ (forall t, In t (types c) <-> In t (types x)) /\
       (forall t, elems c t = elems x t) /\ separate c x /\ storage_live x w' /\ storage_live c w')
    (fun w' e => reach w' (x :: g) d /\ storage_live x w' /\ copy_threw true x w w' e).
Proof.
  intros H. eapply wp_mono; [eapply spec_copy; [exact H|left; reflexivity]| |].
  - intros w' c (S & _ & _ & R). csplit; auto.
    + apply S.
    + intros t. apply (same_content_types _ _ S).
    + apply (same_content_elems _ _ S).
    + eapply spec_separate; exact R.
    + eapply live_of. eapply r_perm; [exact R|apply perm_swap|apply Permutation_refl].
    + eapply live_of; exact R.
  - intros w' e (T & R). csplit; auto. eapply live_of; exact R.
Qed.
Example C20_copy_ex lay : let E := dE lay in
  reach (dw lay) [dx lay; dc lay] [] /\ elems (dx lay) 1 = [5; 6; 7] /\ done (c_copy (dx lay) (dw lay)) = true.
Proof. demo lay. Qed.

Theorem C20_copy_al {V} {E : Env V} w x g d al : reach w (x :: g) d ->
  wp (c_copy_al x al) w
    (fun w' c => reach w' (c :: x :: g) d /\
       Permutation (content c) (content x) /\ (forall t, In t (types c) <-> In t (types x)) /\
       (forall t, elems c t = elems x t) /\ separate c x /\ storage_live x w' /\ storage_live c w')
    (fun w' e => reach w' (x :: g) d /\ storage_live x w' /\ copy_threw true x w w' e).
Proof.
  intros H. eapply wp_mono; [eapply spec_copy_al; [exact H|left; reflexivity]| |].
  - intros w' c (S & _ & _ & R). csplit; auto.
    + apply S.
    + intros t. apply (same_content_types _ _ S).
    + apply (same_content_elems _ _ S).
    + eapply spec_separate; exact R.
    + eapply live_of. eapply r_perm; [exact R|apply perm_swap|apply Permutation_refl].
    + eapply live_of; exact R.
  - intros w' e (T & R). csplit; auto. eapply live_of; exact R.
Qed.
Example C20_copy_al_ex lay : let E := dE lay in
  reach (dw lay) [dx lay; dc lay] [] /\ c_al (dx lay) = 9 /\ done (c_copy_al (dx lay) 4 (dw lay)) = true.
Proof. demo lay. Qed.

(** Copy assignment to [c] (another collection, which need not be in working order). *)
Theorem C20_assign {V} {E : Env V} w x g c d : reach w (x :: g) (c :: d) ->
  wp (c_copy_assign x) (c, w)
    (fun '(c', w') _ => reach w' (c' :: x :: g) d /\
       Permutation (content c') (content x) /\ (forall t, In t (types c') <-> In t (types x)) /\
       (forall t, elems c' t = elems x t) /\ separate c' x /\ storage_live x w' /\ storage_live c' w')
    (fun '(c', w') e => reach w' (c' :: x :: g) d /\ storage_live x w' /\ copy_threw true x w w' e).
Proof.
  intros H.
  pose proof (spec_assign w (x :: g) c d x H (or_introl eq_refl)) as P. unfold wp in *.
  destruct (c_copy_assign x (c, w)) as [[c' w'] []|[c' w'] e|] eqn:Q; [| |exact P].
  - destruct P as (S & _). assert (R : reach w' (c' :: x :: g) d) by (eapply r_assign; eauto). csplit; auto.
    + apply S.
    + intros t. apply (same_content_types _ _ S).
    + apply (same_content_elems _ _ S).
    + eapply spec_separate; exact R.
    + eapply live_of. eapply r_perm; [exact R|apply perm_swap|apply Permutation_refl].
    + eapply live_of; exact R.
  - destruct P as (B & T). assert (R : reach w' (c' :: x :: g) d) by (eapply r_assign_exn; eauto). csplit; auto.
    eapply live_of. eapply r_perm; [exact R|apply perm_swap|apply Permutation_refl].
Qed.
Example C20_assign_ex lay : let E := dE lay in
  reach (dw lay) [dx lay] [dc lay] /\ elems (dx lay) 6 = [3] /\ elems (dc lay) 6 = [] /\
  done (c_copy_assign (dx lay) (dc lay, dw lay)) = true.
Proof. cbv zeta. csplit; [apply r_weaken; apply d_reach|demo_fact lay..]. Qed.

(** In particular copy and source compare equal, if the comparison of elements is reflexive and
    does not throw. *)
Theorem C20_copy_equal {V} {E : Env V} w x g d : reach w (x :: g) d ->
  (forall t v, env_veq t v v = true) -> (forall t, elems x t <> [] -> env_eqcomp t = true) ->
  wp (c_copy x) w
    (fun w' c => wp (c_equal c x) w' (fun _ b => b = true) (fun w'' e => e = UserExn /\ fault_between w' w'') /\
                 wp (c_equal x c) w' (fun _ b => b = true) (fun w'' e => e = UserExn /\ fault_between w' w''))
    (fun _ _ => True).
Proof.
  intros H Rf Ec. eapply wp_mono; [apply C20_copy; exact H| |auto].
  intros w' c (R & _ & _ & El & _).
  assert (Q : forall t l, veqs t l l) by (intros t; induction l; constructor; auto).
  split.
  - eapply wp_mono; [eapply (spec_equal w' (c :: x :: g) d c x); [exact R|left; reflexivity|right; left; reflexivity]| |].
    + intros w'' b ((_ & Hb) & _). apply Hb. intros t. rewrite El. apply Q.
    + intros w'' e ([(D1 & D2 & _)|(t & -> & Ect & Ne & _)] & _); [auto|]. rewrite El in Ne. rewrite Ec in Ect by exact Ne. discriminate.
  - eapply wp_mono; [eapply (spec_equal w' (c :: x :: g) d x c); [exact R|right; left; reflexivity|left; reflexivity]| |].
    + intros w'' b ((_ & Hb) & _). apply Hb. intros t. rewrite El. apply Q.
    + intros w'' e ([(D1 & D2 & _)|(t & -> & Ect & Ne & _)] & _); [auto|]. rewrite Ec in Ect by exact Ne. discriminate.
Qed.
Example C20_copy_equal_ex lay : let E := dE lay in
  reach (dw lay) [dc lay; dx lay] [] /\ (forall t v, env_veq t v v = true) /\
  (forall t, elems (dc lay) t <> [] -> env_eqcomp t = true) /\ done (c_copy (dc lay) (dw lay)) = true /\ elems (dc lay) 1 = [5; 6; 7].
Proof.
  cbv zeta. csplit; [demo_fact lay| | |demo_fact lay..].
  - intros t v. apply Nat.eqb_refl.
  - intros t Ne. destruct (Nat.eq_dec t 6) as [->|N]; [exfalso; apply Ne; destruct lay; vm_compute; reflexivity|].
    unfold env_eqcomp, dE, demo. apply negb_true_iff. apply Nat.eqb_neq. exact N.
Qed.

(** No later operation on one of two collections affects the other: it stays in working order,
    and its storage stays allocated and separate from that of the other one.  (Its contents,
    capacities, iterators and addresses are functions of its representation, which an operation
    on another collection does not change: the state of a call is the collection it works on and
    the world.) *)
Theorem C20_independent {V} {E : Env V} w c x g d m safe new vals : reach w (c :: x :: g) d ->
  api (x :: g) c m safe new vals ->
  wp m (c, w)
    (fun '(c', w') _ => reach w' (c' :: x :: g) d /\ separate c' x /\ storage_live x w')
    (fun '(c', w') e => reach w' (x :: g) (c' :: d) /\ storage_live x w').
Proof.
  intros H A. pose proof (api_sound (x :: g) d c m safe new vals w (reach_alive _ _ _ H) A) as P. unfold wp in *.
  destruct (m (c, w)) as [[c' w'] []|[c' w'] e|] eqn:Q; [| |exact P].
  - assert (R : reach w' (c' :: x :: g) d) by (eapply r_call; eauto). csplit; auto; [eapply spec_separate; exact R|].
    eapply live_of. eapply r_perm; [exact R|apply perm_swap|apply Permutation_refl].
  - assert (R : reach w' (x :: g) (c' :: d)) by (eapply r_call_wreck; eauto). split; auto. eapply live_of; exact R.
Qed.
Example C20_independent_ex lay : let E := dE lay in
  reach (dw lay) [dc lay; dx lay] [] /\
  api [dx lay] (dc lay) c_clear (fun _ => True) [] [] /\
  api [dx lay] (dc lay) (c_reserve_all 50) (fun _ => env_layout = PackedLayout) [] [].
Proof. cbv zeta. csplit; [demo_fact lay|constructor|constructor]. Qed.

(** ... nor does its destruction. *)
Theorem C20_destroy {V} {E : Env V} w c x g d : reach w (c :: x :: g) d ->
  wp (c_destroy c) w (fun w' _ => reach w' (x :: g) d /\ storage_live x w' /\ no_work w w') (fun _ _ => False).
Proof.
  intros H.
  assert (H' : reach w (x :: g) (c :: d)) by (apply r_weaken; exact H).
  pose proof (alive_focus_bad w c (x :: g) d (reach_alive _ _ _ H')) as Fo.
  pose proof (destroy_idle (c_nodes c) w) as P. unfold wp. unfold c_destroy in *.
  assert (N : destroy_nodes (c_nodes c) w <> UB).
  { destruct Fo as (W & O & _). apply (wp_noub (c_destroy c) w (fun _ _ => True) (fun _ _ => True)).
    eapply wp_c_destroy; eauto. }
  destruct (destroy_nodes (c_nodes c) w) as [w' []| |] eqn:Q; [|contradiction|congruence].
  assert (R : reach w' (x :: g) d) by (eapply r_destroy; [exact H'|exact Q]). csplit; auto. eapply live_of; exact R.
Qed.
Example C20_destroy_ex lay : let E := dE lay in
  reach (dw lay) [dc lay; dx lay] [] /\ addr_of (dx lay) 6 0 <> None.
Proof. demo lay. Qed.

(** ** C21 not_copy_constructible *)

(** Only if there is an element of that type to copy. *)
Theorem C21_only_if {V} {E : Env V} w x g d al w' t : reach w (x :: g) d ->
  c_copy x w = Exn w' (NotCopyConstructible t) \/ c_copy_al x al w = Exn w' (NotCopyConstructible t) ->
  env_copyable t = false /\ elems x t <> [] /\ reach w' (x :: g) d.
Proof.
  intros H [Q|Q].
  - destruct (wp_exn _ _ _ _ _ _ (spec_copy w (x :: g) d x H (or_introl eq_refl)) Q) as (T & R).
    destruct T as [([D|(D & _)] & _)|[(_ & t' & D & X)|(D & _)]]; try discriminate. inversion D; subst. tauto.
  - destruct (wp_exn _ _ _ _ _ _ (spec_copy_al w (x :: g) d x al H (or_introl eq_refl)) Q) as (T & R).
    destruct T as [([D|(D & _)] & _)|[(_ & t' & D & X)|(D & _)]]; try discriminate. inversion D; subst. tauto.
Qed.

(** Copying never succeeds if there is an element of a type which cannot be copied; if no memory
    allocation or element operation fails and no size limit is exceeded the exception is this
    one.  Otherwise (first clause) the copy succeeds, whatever empty segments there are. *)
Theorem C21_exact {V} {E : Env V} w x g d al : reach w (x :: g) d ->
  (forall k, env_fault k = false) -> (env_layout = SplitLayout -> forall t, In t (types x) -> 1 <= env_vmax t /\ length (elems x t) < env_imax) ->
  ((forall t, elems x t <> [] -> env_copyable t = true) ->
     wp (c_copy_al x al) w (fun _ _ => True) (fun _ _ => False)) /\
  ((exists t, elems x t <> [] /\ env_copyable t = false) ->
     wp (c_copy_al x al) w (fun _ _ => False)
       (fun w' e => reach w' (x :: g) d /\ exists t, e = NotCopyConstructible t /\ elems x t <> [] /\ env_copyable t = false)).
Proof.
  intros H NF NL. pose proof (spec_copy_al w (x :: g) d x al H (or_introl eq_refl)) as P.
  assert (T : forall w' e, copy_threw true x w w' e -> exists t, e = NotCopyConstructible t /\ elems x t <> [] /\ env_copyable t = false).
  { intros w' e [(_ & k & _ & F)|[(_ & t & -> & X)|(_ & L & t & Ht & X)]].
    - rewrite NF in F. discriminate.
    - exists t. tauto.
    - specialize (NL L t Ht). lia. }
  split.
  - intros Al. eapply wp_mono; [exact P|auto|]. cbv beta. intros w' e (Th & _).
    destruct (T w' e Th) as (t & _ & Ne & Cf). rewrite Al in Cf by exact Ne. discriminate.
  - intros (t & Ne & Cf). eapply wp_mono; [exact P| |].
    + cbv beta. intros w' c (_ & _ & Al & _). rewrite Al in Cf by exact Ne. discriminate.
    + cbv beta. intros w' e (Th & R). split; auto. eapply T; exact Th.
Qed.
(** [dc] has an empty segment of the move-only type 3 and can be copied; [dm] has an element in
    it and cannot. *)
Definition dm lay : coll nat * world := let E := dE lay in state (void (c_emplace 30 (SVal 2)) (dc lay, dw lay)).
Lemma dm_reach lay : reach (E := dE lay) (snd (dm lay)) [fst (dm lay); dx lay] [].
Proof.
  eapply r_call; [apply d_reach|eapply (api_emplace (E := dE lay) [dx lay] (dc lay) 30 (SVal 2) 2); left; reflexivity|].
  destruct lay; vm_compute; reflexivity.
Qed.
Definition fits {V} {E : Env V} (c : coll V) : bool :=
  forallb (fun t => (1 <=? env_vmax t) && (length (elems c t) <? env_imax)) (types c).
Lemma fits_ok {V} {E : Env V} (c : coll V) : fits c = true -> forall t, In t (types c) -> 1 <= env_vmax t /\ length (elems c t) < env_imax.
Proof.
  unfold fits. rewrite forallb_forall. intros H t Ht. specialize (H t Ht). apply andb_true_iff in H. destruct H as (A & B).
  apply Nat.leb_le in A. apply Nat.ltb_lt in B. auto.
Qed.
Example C21_exact_ex lay : let E := dE lay in
  reach (dw lay) [dc lay; dx lay] [] /\ reach (snd (dm lay)) [fst (dm lay); dx lay] [] /\
  (forall k, env_fault k = false) /\
  (env_layout = SplitLayout -> forall t, In t (types (dc lay)) -> 1 <= env_vmax t /\ length (elems (dc lay) t) < env_imax) /\
  (env_layout = SplitLayout -> forall t, In t (types (fst (dm lay))) -> 1 <= env_vmax t /\ length (elems (fst (dm lay)) t) < env_imax) /\
  In 3 (types (dc lay)) /\ (forall t, elems (dc lay) t <> [] -> env_copyable t = true) /\
  elems (fst (dm lay)) 3 <> [] /\ env_copyable 3 = false.
Proof.
  cbv zeta. csplit; [demo_fact lay|apply dm_reach|reflexivity| | |demo_fact lay| |demo_fact lay|reflexivity].
  - intros _. apply fits_ok. demo_fact lay.
  - intros _. apply fits_ok. demo_fact lay.
  - intros t Ne. destruct (Nat.eq_dec t 3) as [->|N]; [exfalso; apply Ne; destruct lay; vm_compute; reflexivity|].
    unfold env_copyable, dE, demo. apply negb_true_iff. apply Nat.eqb_neq. exact N.
Qed.
Example C21_only_if_ex lay : let E := dE lay in
  reach (snd (dm lay)) [fst (dm lay); dx lay] [] /\
  exists w', c_copy (fst (dm lay)) (snd (dm lay)) = Exn w' (NotCopyConstructible 3).
Proof.
  cbv zeta. split; [apply dm_reach|].
  destruct lay; (match goal with |- exists w', ?m = _ => let r := eval vm_compute in m in
    match r with Exn ?s _ => exists s end end); vm_compute; reflexivity.
Qed.

(** ** C22 Move construction, move assignment and swap do not touch elements *)

(** The new owner takes over everything ([c = x]: same segments in the same order, at the same
    addresses, and iterators mean the same); nothing is done to elements, nothing can throw, and
    the source is empty without registered types, but in working order. *)
Theorem C22_move {V} {E : Env V} w x g d : reach w (x :: g) d ->
  wp c_move (x, w)
    (fun '(x', w') c => c = x /\ w' = w /\ content x' = [] /\ flat x' = [] /\ reach w' (c :: x' :: g) d)
    (fun _ _ => False).
Proof.
  intros H. pose proof (spec_move w g d x H) as P. unfold wp in *.
  destruct (c_move (x, w)) as [[x' w'] c| |] eqn:Q; auto. destruct P as (-> & -> & B & _).
  csplit; auto; [unfold flat; rewrite B; reflexivity|]. eapply r_move; eauto.
Qed.
Example C22_move_ex lay : let E := dE lay in
  reach (dw lay) [dc lay; dx lay] [] /\ elems (dc lay) 1 = [5; 6; 7].
Proof. demo lay. Qed.

Theorem C22_move_assign {V} {E : Env V} w x g c d : reach w (x :: g) (c :: d) ->
  env_pocma = true \/ c_al c = c_al x ->
  wp c_move_assign ((c, x), w)
    (fun '((c', x'), w') _ => c' = x /\ no_work w w' /\ content x' = [] /\ flat x' = [] /\ reach w' (c' :: x' :: g) d)
    (fun _ _ => False).
Proof.
  intros H Al. pose proof (spec_move_assign w g c d x H) as P.
  assert (Nw : match c_move_assign ((c, x), w) with Ok (_, w') _ => no_work w w' | Exn _ _ => False | UB => True end).
  { unfold c_move_assign, try_rethrow. unfold bind at 1. cbn.
    unfold bind at 1. unfold on_dst at 1, map_clear, on_field. unfold bind at 1. cbn [getx fst snd].
    unfold bind at 1, on_world at 1. cbn [fst snd].
    pose proof (destroy_idle (c_nodes c) w) as D. destruct (destroy_nodes (c_nodes c) w) as [w1 []| |]; auto; [|contradiction].
    cbn. replace (env_pocma || (c_al c =? c_al x)) with true; [exact D|].
    destruct Al as [->|Ea]; [reflexivity|]. rewrite Ea, Nat.eqb_refl, orb_true_r. reflexivity. }
  unfold wp in *. destruct (c_move_assign ((c, x), w)) as [[[c' x'] w'] []|s e|] eqn:Q; [|contradiction|contradiction].
  destruct P as (_ & _ & _ & _ & X & _). destruct (X Al) as (-> & B). csplit; auto.
  { unfold flat. rewrite B. reflexivity. }
  eapply r_move_assign_src; eauto.
Qed.
(** [db]: another collection with the allocator of [dc]. *)
Definition db lay : coll nat * world := let E := dE lay in state (script [(20, Some 4); (50, Some 1)] (c_empty 0, dw lay)).
Lemma db_reach lay : reach (E := dE lay) (snd (db lay)) [fst (db lay); dc lay; dx lay] [].
Proof.
  apply (run_reach (dE lay) [(20, Some 4); (50, Some 1)] (dw lay) [dc lay; dx lay] [] 0 (db lay)); [apply d_reach|].
  destruct lay; vm_compute; reflexivity.
Qed.
Example C22_move_assign_ex lay : let E := dE lay in
  reach (snd (db lay)) [dc lay; dx lay] [fst (db lay)] /\ c_al (fst (db lay)) = c_al (dc lay) /\
  elems (fst (db lay)) 5 = [1] /\ elems (dc lay) 1 = [5; 6; 7].
Proof. cbv zeta. csplit; [apply r_weaken, db_reach|demo_fact lay..]. Qed.

Theorem C22_swap {V} {E : Env V} w x y g d : reach w (x :: y :: g) d -> env_pocs = true \/ c_al x = c_al y ->
  wp c_swap ((x, y), w) (fun '((x', y'), w') _ => x' = y /\ y' = x /\ w' = w /\ reach w' (x' :: y' :: g) d) (fun _ _ => False).
Proof.
  intros H Al. pose proof (spec_swap w g d x y H Al) as P. unfold wp in *.
  destruct (c_swap ((x, y), w)) as [[[x' y'] w'] []|s e|] eqn:Q; auto. destruct P as (A & B & C). csplit; auto.
  eapply r_swap; eauto.
Qed.
Example C22_swap_ex lay : let E := dE lay in
  reach (dw lay) [dc lay; dx lay] [] /\ env_pocs = true /\ c_al (dc lay) <> c_al (dx lay).
Proof. demo lay. Qed.

(** ** C23 Moves between allocators *)

(** Allocator-extended move construction: also if the allocators differ the new collection has
    the types and elements of the source and is in working order; elements are moved, in that
    not_copy_constructible is not thrown whatever their types; the source ends up empty. *)
Theorem C23_move_al {V} {E : Env V} w x g d al : reach w (x :: g) d ->
  wp (c_move_al al) ((c_empty al, x), w)
    (fun '((c, x'), w') _ => reach w' (c :: x' :: g) d /\ same_content x c /\ c_al c = al /\
       content x' = [] /\ flat x' = [] /\ (forall a, is_registered c a = true <-> In (env_ty a) (types x)) /\
       (c_al x = al -> c = x /\ w' = w))
    (fun '((c, x'), w') e => c_al x <> al /\ (forall t, e <> NotCopyConstructible t) /\ copy_threw false x w w' e /\
       reach w' g (x' :: d)).
Proof.
  intros H. pose proof (spec_move_al w g d x al H) as P. unfold wp in *.
  destruct (c_move_al al ((c_empty al, x), w)) as [[[c x'] w'] []|[[c x'] w'] e|] eqn:Q; [| |exact P].
  - destruct P as (S & Ac & B & _ & Sm). assert (R : reach w' (c :: x' :: g) d) by (eapply r_move_al; eauto). csplit; auto.
    + unfold flat. rewrite B. reflexivity.
    + intros a. rewrite (is_registered_iff w' c (x' :: g) d a R). apply (same_content_types _ _ S).
  - destruct P as (_ & _ & N & T). csplit; auto.
    + intros t ->. destruct T as [([D|(D & _)] & _)|[(D & _)|(D & _)]]; discriminate.
    + eapply r_move_al_exn; eauto.
Qed.
Example C23_move_al_ex lay : let E := dE lay in
  reach (snd (dm lay)) [fst (dm lay); dx lay] [] /\ c_al (fst (dm lay)) <> 4 /\ elems (fst (dm lay)) 3 = [2] /\ env_copyable 3 = false /\
  done (c_move_al 4 ((c_empty 4, fst (dm lay)), snd (dm lay))) = true.
Proof. cbv zeta. csplit; [apply dm_reach|demo_fact lay..]. Qed.

(** Move assignment, whatever the allocators and their propagation.  The source has lost its types
    or else has at most as many elements of each as before; it is empty and in working order if
    the standard library clears the elements of an unordered_map it has moved from one by one (it
    need not) or did not have to do so.  What is missing: a source
    which is empty and in working order in all cases, which is false (C23_source_refuted,
    C23_source_full_refuted). *)
Theorem C23_move_assign_partial {V} {E : Env V} w x g c d : reach w (x :: g) (c :: d) ->
  wp c_move_assign ((c, x), w)
    (fun '((c', x'), w') _ => reach w' (c' :: g) (x' :: d) /\ same_content x c' /\
       c_al c' = (if env_pocma then c_al x else c_al c) /\
       (content x' = [] \/ (types x' = types x /\ forall t, length (elems x' t) <= length (elems x t))) /\
       (forall a, is_registered c' a = true <-> In (env_ty a) (types x)) /\
       (env_umap_clears = true \/ env_pocma = true \/ c_al c = c_al x -> content x' = [] /\ flat x' = [] /\ reach w' (c' :: x' :: g) d))
    (fun '((c', x'), w') e => env_pocma = false /\ c_al c <> c_al x /\ (forall t, e <> NotCopyConstructible t) /\
       copy_threw false x w w' e /\ content c' = [] /\ content x' = [] /\ reach w' (c' :: x' :: g) d).
Proof.
  intros H. pose proof (spec_move_assign w g c d x H) as P. unfold wp in *.
  destruct (c_move_assign ((c, x), w)) as [[[c' x'] w'] []|[[c' x'] w'] e|] eqn:Q; [| |exact P].
  - destruct P as (S & Ac & Fl & _ & Sm & Cl). assert (R : reach w' (c' :: g) (x' :: d)) by (eapply r_move_assign; eauto). csplit; auto.
    + intros a. rewrite (is_registered_iff w' c' g (x' :: d) a R). apply (same_content_types _ _ S).
    + intros D. assert (B : blank x') by (destruct D as [D|D]; [apply Cl; exact D|apply Sm; exact D]).
      csplit; [exact B|unfold flat; rewrite B; reflexivity|eapply (r_move_assign_src w x g c d); [exact H|exact Q|exact D]].
  - destruct P as (B & Bx & T & Pm & N). csplit; auto.
    + intros t ->. destruct T as [([D|(D & _)] & _)|[(D & _)|(D & _)]]; discriminate.
    + eapply r_move_assign_exn; eauto.
Qed.
Example C23_move_assign_partial_ex lay : let E := dE lay in
  reach (snd (dm lay)) [fst (dm lay)] [dx lay] /\ c_al (dx lay) <> c_al (fst (dm lay)) /\ env_pocma = false /\ env_umap_clears = true /\
  done (c_move_assign ((dx lay, fst (dm lay)), snd (dm lay))) = true.
Proof.
  cbv zeta. csplit; [|demo_fact lay..]. apply r_weaken. eapply r_perm; [apply dm_reach|apply perm_swap|constructor].
Qed.

(** The full claim about the source does not hold.  If the standard library does not clear an
    unordered_map it has moved from element by element, a move assignment between collections
    whose allocators differ and do not propagate leaves a source whose size() is 0 but where
    begin() is not end(), because the cached end of its segment was not updated
    (type_info_map.hpp 114-135 calls cache.clear but not map.clear, unlike the constructor
    84-97). *)
Definition with_clears (b : bool) (E : Env nat) : Env nat := {|
  env_layout := env_layout; env_fault := env_fault; env_grow := env_grow; env_vmax := env_vmax; env_imax := env_imax;
  env_junk_len := env_junk_len; env_junk := env_junk; env_shrink_noop := env_shrink_noop; env_shrink_swallow := env_shrink_swallow;
  env_copyable := env_copyable; env_eqcomp := env_eqcomp; env_nt_move := env_nt_move; env_assignable := env_assignable;
  env_nt_assign := env_nt_assign; env_veq := env_veq; env_ty := env_ty; env_buckets := env_buckets; env_codes := env_codes;
  env_rehash_stable := env_rehash_stable; env_pocca := env_pocca; env_pocma := env_pocma; env_pocs := env_pocs; env_socc := env_socc;
  env_umap_clears := b;
  env_counted := env_counted;
  env_adjacent := env_adjacent |}.
(** No elements, but begin() is not end() and cannot be dereferenced. *)
Definition hollow {V} {E : Env V} (c : coll V) : bool :=
  (c_size c =? 0) && negb (it_eq (c_begin c) (c_end c)) && match it_deref c (c_begin c) with None => true | _ => false end.
Definition sc2 : list (tiaddr * option nat) := [(10, Some 5); (10, Some 6); (20, Some 7)].
Definition w_start : world := mkworld 1 [] 0 0 0.

Theorem C23_source_refuted lay : exists (E : Env nat) w x c, env_layout = lay /\ reach w [x] [c] /\
  exists c' x' w', c_move_assign ((c, x), w) = Ok ((c', x'), w') tt /\ flat x' = [] /\ c_begin x' <> c_end x'.
Proof.
  pose (E := with_clears false (dE lay)). pose (s := @state (script sc2 (c_empty 0, w_start))).
  exists E, (snd s), (fst s), (c_empty 1). split; [reflexivity|]. split.
  { apply r_weaken, r_new. apply (run_reach E sc2 w_start [] [] 0 s); [constructor|]. destruct lay; vm_compute; reflexivity. }
  assert (C : match c_move_assign ((c_empty 1, fst s), snd s) with Ok ((c', x'), w') _ => hollow x' | _ => false end = true)
    by (destruct lay; vm_compute; reflexivity).
  destruct (c_move_assign ((c_empty 1, fst s), snd s)) as [[[c' x'] w'] []| |]; try discriminate.
  exists c', x', w'. unfold hollow in C. rewrite !andb_true_iff in C. destruct C as ((C1 & C2) & _). csplit; auto.
  - apply Nat.eqb_eq in C1. rewrite c_size_flat in C1. destruct (flat x'); [reflexivity|discriminate].
  - intros Q. rewrite Q in C2. unfold it_eq in C2. rewrite negb_true_iff in C2. unfold ptr_eqb in C2.
    destruct (it_map (c_end x')); rewrite ?Nat.eqb_refl in C2; discriminate.
Qed.

(** Nor need the source have lost its elements: a standard library which clears neither the
    unordered_map nor the vectors it moves from one by one leaves them all in the source, in their
    moved-from state. *)
Definition with_left (n : nat) (E : Env nat) : Env nat := {|
  env_layout := env_layout; env_fault := env_fault; env_grow := env_grow; env_vmax := env_vmax; env_imax := env_imax;
  env_junk_len := fun _ => n; env_junk := env_junk; env_shrink_noop := env_shrink_noop; env_shrink_swallow := env_shrink_swallow;
  env_copyable := env_copyable; env_eqcomp := env_eqcomp; env_nt_move := env_nt_move; env_assignable := env_assignable;
  env_nt_assign := env_nt_assign; env_veq := env_veq; env_ty := env_ty; env_buckets := env_buckets; env_codes := env_codes;
  env_rehash_stable := env_rehash_stable; env_pocca := env_pocca; env_pocma := env_pocma; env_pocs := env_pocs; env_socc := env_socc;
  env_umap_clears := env_umap_clears;
  env_counted := env_counted;
  env_adjacent := env_adjacent |}.
Theorem C23_source_full_refuted lay : exists (E : Env nat) w x c, env_layout = lay /\ reach w [x] [c] /\
  exists c' x' w', c_move_assign ((c, x), w) = Ok ((c', x'), w') tt /\ flat x <> [] /\ length (flat x') = length (flat x).
Proof.
  pose (E := with_left 5 (with_clears false (dE lay))). pose (s := @state (script sc2 (c_empty 0, w_start))).
  exists E, (snd s), (fst s), (c_empty 1). split; [reflexivity|]. split.
  { apply r_weaken, r_new. apply (run_reach E sc2 w_start [] [] 0 s); [constructor|]. destruct lay; vm_compute; reflexivity. }
  assert (C : match c_move_assign ((c_empty 1, fst s), snd s) with
    Ok ((c', x'), w') _ => negb (length (flat (fst s)) =? 0) && (length (flat x') =? length (flat (fst s))) | _ => false end = true)
    by (destruct lay; vm_compute; reflexivity).
  destruct (c_move_assign ((c_empty 1, fst s), snd s)) as [[[c' x'] w'] []| |]; try discriminate.
  exists c', x', w'. rewrite andb_true_iff, negb_true_iff in C. destruct C as (C1 & C2). csplit; auto.
  - intros Q. rewrite Q in C1. discriminate.
  - apply Nat.eqb_eq in C2. exact C2.
Qed.

(** Likewise when an allocator-extended move constructor throws: nothing clears the source. *)
Theorem C23_failed_move_refuted lay : exists (E : Env nat) w x al, env_layout = lay /\ reach w [x] [] /\
  exists c' x' w', c_move_al al ((c_empty al, x), w) = Exn ((c', x'), w') BadAlloc /\ flat x' = [] /\ c_begin x' <> c_end x'.
Proof.
  pose (n := match lay with PackedLayout => 21 | SplitLayout => 30 end).
  pose (E := demo lay (fails_at n) true). pose (s := @state (script sc2 (c_empty 0, w_start))).
  exists E, (snd s), (fst s), 1. split; [reflexivity|]. split.
  { apply (run_reach E sc2 w_start [] [] 0 s); [constructor|]. destruct lay; vm_compute; reflexivity. }
  assert (C : match c_move_al 1 ((c_empty 1, fst s), snd s) with Exn ((c', x'), w') BadAlloc => hollow x' | _ => false end = true)
    by (destruct lay; vm_compute; reflexivity).
  destruct (c_move_al 1 ((c_empty 1, fst s), snd s)) as [[[c' x'] w'] []|[[c' x'] w'] []|]; try discriminate.
  exists c', x', w'. unfold hollow in C. rewrite !andb_true_iff in C. destruct C as ((C1 & C2) & _). csplit; auto.
  - apply Nat.eqb_eq in C1. rewrite c_size_flat in C1. destruct (flat x'); [reflexivity|discriminate].
  - intros Q. rewrite Q in C2. unfold it_eq in C2. rewrite negb_true_iff in C2. unfold ptr_eqb in C2.
    destruct (it_map (c_end x')); rewrite ?Nat.eqb_refl in C2; discriminate.
Qed.

(** ** C24 Self-assignment, and assignment which throws *)

(** Assignment between two variables [i] and [j] of a program. *)
Theorem C24_copy_assign {V} {E : Env V} w g d i j c x : reach w g d -> nth_error g i = Some c -> nth_error g j = Some x ->
  wp (c_assign_var i j) (g, w)
    (fun '(g', w') _ => reach w' g' d /\ (i = j -> g' = g /\ w' = w) /\
       (forall k, k <> i -> nth_error g' k = nth_error g k) /\
       exists c', nth_error g' i = Some c' /\ same_content x c')
    (fun '(g', w') e => reach w' g' d /\ i <> j /\ copy_threw true x w w' e /\
       (forall k, k <> i -> nth_error g' k = nth_error g k) /\
       exists c', nth_error g' i = Some c' /\ content c' = [] /\ flat c' = []).
Proof.
  intros H Hi Hj. eapply wp_mono; [eapply spec_assign_var; eauto| |].
  - intros [g' w'] _ X. exact X.
  - intros [g' w'] e (R & N & T & K & c' & Hc & B). csplit; auto. exists c'. csplit; auto. unfold flat. rewrite B. reflexivity.
Qed.
Example C24_copy_assign_ex lay : let E := dE lay in
  reach (snd (dm lay)) [fst (dm lay); dx lay] [] /\
  (exists s, c_assign_var 1 1 ([fst (dm lay); dx lay], snd (dm lay)) = Ok s tt) /\
  (exists s, c_assign_var 1 0 ([fst (dm lay); dx lay], snd (dm lay)) = Exn s (NotCopyConstructible 3)).
Proof.
  cbv zeta. csplit; [apply dm_reach| |].
  - eexists. reflexivity.
  - destruct lay; (match goal with |- exists w', ?m = _ => let r := eval vm_compute in m in
    match r with Exn ?s _ => exists s end end); vm_compute; reflexivity.
Qed.

(** Move assignment between two variables.  What it leaves usable: all variables, if the source need
    not be moved from element by element or is then cleared, or if the assignment throws (both are
    empty then); otherwise all but the source ([r] are the others), which can be assigned to and
    destroyed. *)
Theorem C24_move_assign {V} {E : Env V} w g d i j c x : reach w g d -> nth_error g i = Some c -> nth_error g j = Some x ->
  wp (c_move_assign_var i j) (g, w)
    (fun '(g', w') _ => (i = j -> g' = g /\ w' = w) /\
       (forall k, k <> i -> k <> j -> nth_error g' k = nth_error g k) /\
       (i <> j -> exists x' r, nth_error g' j = Some x' /\ Permutation g' (x' :: r) /\ reach w' r (x' :: d) /\
          (content x' = [] \/ (types x' = types x /\ forall t, length (elems x' t) <= length (elems x t))) /\
          (env_umap_clears = true \/ env_pocma = true \/ c_al c = c_al x -> content x' = [] /\ reach w' g' d)) /\
       exists c', nth_error g' i = Some c' /\ same_content x c')
    (fun '(g', w') e => reach w' g' d /\ i <> j /\ copy_threw false x w w' e /\
       (forall k, k <> i -> k <> j -> nth_error g' k = nth_error g k) /\
       exists c' x', nth_error g' i = Some c' /\ nth_error g' j = Some x' /\ content c' = [] /\ content x' = []).
Proof.
  intros H Hi Hj. eapply wp_mono; [eapply spec_move_assign_var; eauto| |].
  - intros [g' w'] _ X. exact X.
  - intros [g' w'] e X. exact X.
Qed.
Example C24_move_assign_ex lay : let E := dE lay in
  reach (dw lay) [dc lay; dx lay] [] /\ nth_error [dc lay; dx lay] 0 = Some (dc lay) /\ nth_error [dc lay; dx lay] 1 = Some (dx lay).
Proof. demo lay. Qed.

(** ** C51 Allocators *)

(** Every segment of a collection uses the allocator of the collection. *)
Theorem C51_segments {V} {E : Env V} w c g d t s : reach w (c :: g) d -> seg_at c t = Some s -> sg_al s = c_al c.
Proof.
  intros H. destruct (reach_wf w c g d H) as (W & _). unfold seg_at. destruct (find _ _) as [n|] eqn:Q; [|discriminate].
  intros D. inversion D; subst. apply find_some in Q. pose proof (wm_al _ _ (wc_map _ _ W)) as A. rewrite Forall_forall in A.
  apply A. apply Q.
Qed.
Example C51_segments_ex lay : let E := dE lay in
  reach (dw lay) [dx lay; dc lay] [] /\ option_map sg_al (seg_at (dx lay) 6) = Some 9.
Proof. demo lay. Qed.

(** No member function other than assignment and swap changes the allocator. *)
Theorem C51_calls {V} {E : Env V} w c g d m safe new vals : reach w (c :: g) d -> api g c m safe new vals ->
  wp m (c, w) (fun '(c', w') _ => c_al c' = c_al c) (fun '(c', w') _ => c_al c' = c_al c).
Proof.
  intros H A. eapply wp_mono; [eapply api_kept; eauto| |]; intros [c' w'] ? K; apply K.
Qed.
Example C51_calls_ex lay : let E := dE lay in
  reach (dw lay) [dx lay; dc lay] [] /\ api [dc lay] (dx lay) (c_reserve_all 50) (fun _ => env_layout = PackedLayout) [] [].
Proof. cbv zeta. csplit; [demo_fact lay|constructor]. Qed.

(** Construction and assignment follow the traits of the allocator. *)
Theorem C51_copy {V} {E : Env V} w x g d al : reach w (x :: g) d ->
  wp (c_copy x) w (fun _ c => c_al c = env_socc (c_al x)) (fun _ _ => True) /\
  wp (c_copy_al x al) w (fun _ c => c_al c = al) (fun _ _ => True) /\
  wp c_move (x, w) (fun '(x', _) c => c_al c = c_al x /\ c_al x' = c_al x) (fun _ _ => False) /\
  wp (c_move_al al) ((c_empty al, x), w) (fun '((c, x'), _) _ => c_al c = al /\ c_al x' = c_al x) (fun _ _ => True).
Proof.
  intros H. csplit.
  - eapply wp_mono; [eapply spec_copy; [exact H|left; reflexivity]|intros w1 c1 X; apply X|auto].
  - eapply wp_mono; [eapply spec_copy_al; [exact H|left; reflexivity]|intros w1 c1 X; apply X|auto].
  - eapply wp_mono; [eapply spec_move; exact H| |auto]. intros [x' w'] c (-> & _ & _ & A). auto.
  - eapply wp_mono; [eapply spec_move_al; exact H| |auto]. intros [[c x'] w'] _ X. tauto.
Qed.
Example C51_copy_ex lay : let E := dE lay in
  reach (dw lay) [dx lay; dc lay] [] /\ c_al (dx lay) = 9.
Proof. demo lay. Qed.

Theorem C51_assign {V} {E : Env V} w x g c d : reach w (x :: g) (c :: d) ->
  wp (c_copy_assign x) (c, w) (fun '(c', _) _ => c_al c' = if env_pocca then c_al x else c_al c) (fun _ _ => True) /\
  wp c_move_assign ((c, x), w)
    (fun '((c', x'), _) _ => c_al c' = (if env_pocma then c_al x else c_al c) /\ c_al x' = c_al x) (fun _ _ => True).
Proof.
  intros H. csplit.
  - eapply wp_mono; [eapply spec_assign; [exact H|left; reflexivity]| |auto]. intros [c' w'] _ X. tauto.
  - eapply wp_mono; [eapply spec_move_assign; exact H| |auto]. intros [[c' x'] w'] _ X. tauto.
Qed.
Example C51_assign_ex lay : let E := dE lay in
  reach (dw lay) [dx lay] [dc lay] /\ c_al (dx lay) <> c_al (dc lay).
Proof. cbv zeta. csplit; [apply r_weaken; apply d_reach|demo_fact lay]. Qed.

Section Objs.
Context {V : Type} {E : Env V}.
Lemma perm_filter {A} (f : A -> bool) l l' : Permutation l l' -> Permutation (filter f l) (filter f l').
Proof.
  intros P. induction P as [|x l l' P IH|x y l|l l' l'' P IH P' IH']; cbn [filter]; auto.
  - destruct (f x); auto.
  - destruct (f x), (f y); auto. apply perm_swap.
  - etransitivity; eauto.
Qed.
Definition sizes (l : list (coll V)) : nat := list_sum (map counted l).
Lemma objs_cons w c g d : reach w (c :: g) d -> w_objs w = counted c + sizes (g ++ d).
Proof. intros H. rewrite (spec_objects _ _ _ H). reflexivity. Qed.
Lemma objs_bad w c g d : reach w g (c :: d) -> w_objs w = counted c + sizes (g ++ d).
Proof.
  intros H. rewrite (spec_objects _ _ _ H). unfold sizes. rewrite !map_app, !list_sum_app. cbn [map].
  change (list_sum (counted c :: ?l)) with (counted c + list_sum l). lia.
Qed.
Lemma counted_all (c : coll V) : (forall t, env_counted t = true) -> counted c = length (flat c).
Proof. intros A. unfold counted. induction (flat c) as [|[t v] l IH]; cbn [filter fst length]; auto. rewrite A. cbn [length]. auto. Qed.
Lemma counted_one (c : coll V) t : NoDup (map n_ty (c_nodes c)) -> (forall t', env_counted t' = (t' =? t)) -> counted c = length (elems c t).
Proof.
  intros ND A. rewrite <- c_objs_counted, elems_seg_at. unfold c_objs, seg_at. induction (c_nodes c) as [|n l IH]; [reflexivity|].
  inversion ND as [|? ? Nn ND']; subst. specialize (IH ND'). cbn [osum find]. change (sg_ty (n_seg n)) with (n_ty n).
  unfold ocs at 1, oc, vc. cbn [eo_obj vh_eops]. change (sg_ty (n_seg n)) with (n_ty n). rewrite A. destruct (Nat.eqb_spec (n_ty n) t) as [Q|Q].
  - cbn [option_map]. assert (Z : osum l = 0); [|rewrite Z, Nat.add_0_r; reflexivity].
    subst t. clear IH. induction l as [|n' l IHl]; [reflexivity|]. inversion ND' as [|? ? Nn' ND'']; subst. cbn [osum].
    unfold ocs at 1, oc, vc. cbn [eo_obj vh_eops]. change (sg_ty (n_seg n')) with (n_ty n'). rewrite A.
    assert (N1 : n_ty n' <> n_ty n) by (intros Q; apply Nn; left; auto). rewrite (proj2 (Nat.eqb_neq _ _) N1). apply IHl; auto.
    + constructor; auto. intros H. apply Nn. right. exact H.
    + intros H. apply Nn. right. exact H.
  - exact IH.
Qed.
End Objs.

(** ** C52 Elements are constructed and destroyed exactly once *)

(** [w_objs w] is the number of objects of element types which have been constructed (in storage
    of collections) and not been destroyed yet; destroying more objects than that, and releasing
    storage which is not allocated, is undefined behaviour in the model.  The objects of all types are
    counted, or of some only, as [env_counted] says; the statements hold for all choices.  In all states, also
    after exceptions, these objects are exactly the elements of the collections. *)
Theorem C52_objects {V} {E : Env V} w g d : reach w g d -> w_objs w = list_sum (map counted (g ++ d)).
Proof. apply spec_objects. Qed.
Example C52_objects_ex lay : let E := dE lay in
  reach (dw lay) [dc lay; dx lay] [] /\ w_objs (dw lay) = 11.
Proof. demo lay. Qed.

(** So if the objects of all types are counted, there are as many as there are elements, and if only those of one
    type are counted, as many as there are elements in the segments of that type.  ([d] are the collections
    left by an exception in no good state.) *)
Theorem C52_all_types {V} {E : Env V} w g d : reach w g d -> (forall t, env_counted t = true) ->
  w_objs w = list_sum (map (fun c => length (flat c)) (g ++ d)).
Proof.
  intros H A. rewrite (spec_objects _ _ _ H). f_equal. apply map_ext. intros c. apply counted_all. exact A.
Qed.
Example C52_all_types_ex lay : let E := dE lay in
  reach (dw lay) [dc lay; dx lay] [] /\ (forall t, env_counted t = true) /\ w_objs (dw lay) = 11.
Proof. cbv zeta. csplit; [demo_fact lay|reflexivity|demo_fact lay]. Qed.
Theorem C52_each_type {V} {E : Env V} w g d t : reach w g d -> (forall t', env_counted t' = (t' =? t)) ->
  w_objs w = list_sum (map (fun c => length (elems c t)) g) + list_sum (map (fun c => length (filter (fun e => fst e =? t) (flat c))) d).
Proof.
  intros H A. rewrite (spec_objects _ _ _ H), map_app, list_sum_app. f_equal; f_equal; apply map_ext_in; intros c Hc.
  - apply counted_one; auto. destruct (reach_alive _ _ _ H) as [G _ _]. rewrite Forall_forall in G. apply (wc_map _ _ (G c Hc)).
  - unfold counted. f_equal. apply filter_ext. intros e. apply A.
Qed.
Definition counting (t : tyid) (E : Env nat) : Env nat := {|
  env_layout := env_layout; env_fault := env_fault; env_grow := env_grow; env_vmax := env_vmax; env_imax := env_imax;
  env_junk_len := env_junk_len; env_junk := env_junk; env_shrink_noop := env_shrink_noop; env_shrink_swallow := env_shrink_swallow;
  env_copyable := env_copyable; env_eqcomp := env_eqcomp; env_nt_move := env_nt_move; env_assignable := env_assignable;
  env_nt_assign := env_nt_assign; env_veq := env_veq; env_ty := env_ty; env_buckets := env_buckets; env_codes := env_codes;
  env_rehash_stable := env_rehash_stable; env_pocca := env_pocca; env_pocma := env_pocma; env_pocs := env_pocs; env_socc := env_socc;
  env_umap_clears := env_umap_clears;
  env_counted := fun t' => t' =? t;
  env_adjacent := env_adjacent |}.
Example C52_each_type_ex lay : let E := counting 2 (dE lay) in
  let s := gs E [(10, Some 5); (20, Some 8); (10, Some 6); (20, Some 9); (10, Some 7)] in
  reach (snd s) [fst s] [] /\ (forall t', env_counted t' = (t' =? 2)) /\ length (flat (fst s)) = 5 /\ w_objs (snd s) = 2.
Proof. cbv zeta. csplit; [apply gs_reach; destruct lay; vm_compute; reflexivity|reflexivity|destruct lay; vm_compute; reflexivity..]. Qed.

(** Every call accounts for the elements it adds or removes, whether it returns or throws. *)
Theorem C52_calls {V} {E : Env V} w c g d m safe new vals : reach w (c :: g) d -> api g c m safe new vals ->
  wp m (c, w)
    (fun '(c', w') _ => w_objs w' + counted c = w_objs w + counted c')
    (fun '(c', w') _ => w_objs w' + counted c = w_objs w + counted c').
Proof.
  intros H A. pose proof (api_sound g d c m safe new vals w (reach_alive _ _ _ H) A) as P. unfold wp in *.
  pose proof (objs_cons w c g d H) as O.
  destruct (m (c, w)) as [[c' w'] []|[c' w'] e|] eqn:Q; [| |exact P].
  - assert (R : reach w' (c' :: g) d) by (eapply r_call; eauto). pose proof (objs_cons w' c' g d R). lia.
  - assert (R : reach w' g (c' :: d)) by (eapply r_call_wreck; eauto). pose proof (objs_bad w' c' g d R). lia.
Qed.
Example C52_calls_ex lay : let E := dE lay in
  reach (dw lay) [dc lay; dx lay] [] /\ api [dx lay] (dc lay) c_clear (fun _ => True) [] [] /\ length (flat (dc lay)) = 6.
Proof. cbv zeta. csplit; [demo_fact lay|constructor|demo_fact lay]. Qed.

(** Destruction, of a collection in any state, destroys its elements and nothing else. *)
Theorem C52_destroy {V} {E : Env V} w g c d : reach w g (c :: d) ->
  wp (c_destroy c) w (fun w' _ => reach w' g d /\ w_objs w = w_objs w' + counted c) (fun _ _ => False).
Proof.
  intros H. pose proof (alive_focus_bad w c g d (reach_alive _ _ _ H)) as (W & O & _).
  pose proof (objs_bad w c g d H) as On.
  assert (P : wp (c_destroy c) w (fun _ _ => True) (fun _ _ => False)) by (eapply wp_c_destroy; eauto).
  unfold wp in *. destruct (c_destroy c w) as [w' []| |] eqn:Q; auto.
  assert (R : reach w' g d) by (eapply r_destroy; eauto). split; auto.
  rewrite (spec_objects w' g d R). unfold sizes in On. lia.
Qed.
Example C52_destroy_ex lay : let E := dE lay in
  reach (dw lay) [dx lay] [dc lay] /\ length (flat (dc lay)) = 6.
Proof. cbv zeta. csplit; [apply r_weaken; apply d_reach|demo_fact lay]. Qed.

(** A copy which throws leaves no elements behind. *)
Theorem C52_copy {V} {E : Env V} w x g d al : reach w (x :: g) d ->
  wp (c_copy_al x al) w (fun w' c => w_objs w' = w_objs w + counted x) (fun w' _ => w_objs w' = w_objs w).
Proof.
  intros H. eapply wp_mono; [eapply spec_copy_al; [exact H|left; reflexivity]| |].
  - intros w' c ((P & _) & _ & _ & R). pose proof (spec_objects _ _ _ H) as O. pose proof (objs_cons _ _ _ _ R) as O'.
    unfold sizes in O'. assert (L : counted c = counted x); [|lia].
    apply Permutation_length, perm_filter. unfold flat. apply Permutation_flat_map. exact P.
  - intros w' e (_ & R). rewrite (spec_objects _ _ _ H), (spec_objects _ _ _ R). reflexivity.
Qed.
Example C52_copy_ex lay : let E := dE lay in reach (dw lay) [dc lay; dx lay] [] /\ length (flat (dc lay)) = 6.
Proof. demo lay. Qed.

(** When all collections are gone no element and no storage is left. *)
Theorem C52_no_leak {V} {E : Env V} w : reach (V := V) w [] [] -> w_objs w = 0 /\ w_live w = [].
Proof. intros H. destruct (spec_no_leak w H). auto. Qed.
Definition dgone lay : world := let E := dE lay in
  match c_destroy (dc lay) (dw1 lay) with Ok w _ => w | _ => dw1 lay end.
Example C52_no_leak_ex lay : let E := dE lay in reach (dgone lay) [] [] /\ w_live (dw1 lay) <> [] /\ w_objs (dw1 lay) = 6.
Proof.
  cbv zeta. csplit; [|demo_fact lay..]. eapply (r_destroy _ (dc lay)); [apply r_weaken; apply dc_reach|].
  destruct lay; vm_compute; reflexivity.
Qed.

Print Assumptions C20_copy.
Print Assumptions C20_copy_al.
Print Assumptions C20_assign.
Print Assumptions C20_copy_equal.
Print Assumptions C20_independent.
Print Assumptions C20_destroy.
Print Assumptions C21_only_if.
Print Assumptions C21_exact.
Print Assumptions C22_move.
Print Assumptions C22_move_assign.
Print Assumptions C22_swap.
Print Assumptions C23_move_al.
Print Assumptions C23_move_assign_partial.
Print Assumptions C23_source_refuted.
Print Assumptions C23_source_full_refuted.
Print Assumptions C23_failed_move_refuted.
Print Assumptions C24_copy_assign.
Print Assumptions C24_move_assign.
Print Assumptions C51_segments.
Print Assumptions C51_calls.
Print Assumptions C51_copy.
Print Assumptions C51_assign.
Print Assumptions C52_objects.
Print Assumptions C52_all_types.
Print Assumptions C52_each_type.
Print Assumptions C52_calls.
Print Assumptions C52_destroy.
Print Assumptions C52_copy.
Print Assumptions C52_no_leak.
