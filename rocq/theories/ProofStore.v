(** * Memory stays with collections whose allocators are equal *)

From Coq Require Import List Arith Lia Bool Permutation.
From Verif Require Import Base Vec Backend Segment Coll Spec Reach SpecStore ProofBase ProofVec ProofBackend ProofOps ProofOps2
  ProofSeg ProofMap ProofView ProofColl ProofIns ProofEach ProofErase ProofRange ProofRange2 ProofEq ProofCopy ProofReach
  ProofProp ProofProp2 ProofProp3.
Import ListNotations.

Section PStore.
Context {V : Type} {E : Env V}.
Notation CL := (list (coll V)).
Notation PW := ((coll V * coll V) * world)%type.
Notation CW := (coll V * world)%type.

Lemma storage_cblocks (c : coll V) : storage c = cblocks c.
Proof.
  unfold storage, cblocks. induction (c_nodes c) as [|n l IH]; [reflexivity|].
  cbn [flat_map nblocks]. rewrite IH. reflexivity.
Qed.

Lemma pool_in (l : CL) b : 0 < cnt (pblocks l) b -> exists c, In c l /\ In b (cblocks c).
Proof. intros H. apply cnt_pos in H. unfold pblocks in H. apply in_flat_map in H. exact H. Qed.
Lemma in_pool (l : CL) c b : In c l -> In b (cblocks c) -> 0 < cnt (pblocks l) b.
Proof. intros H Hb. apply cnt_pos. unfold pblocks. apply in_flat_map. eauto. Qed.

Definition same_home (w : world) (L L' : CL) : Prop :=
  forall c' b, In c' L' -> In b (cblocks c') -> w_next w <= b \/ exists c, In c L /\ In b (cblocks c) /\ c_al c = c_al c'.

(** Some collections of a program are replaced. *)
Lemma replaced w w' (L L' olds news rest : CL) k k' :
  own w (fun b => cnt (pblocks olds) b + cnt (pblocks rest) b) k ->
  own w' (fun b => cnt (pblocks news) b + cnt (pblocks rest) b) k' -> wle w w' ->
  (forall c, In c L' -> In c news \/ In c rest) -> incl olds L -> incl rest L ->
  (forall c' b, In c' news -> In b (cblocks c') -> b < w_next w ->
     forall c, In c olds -> In b (cblocks c) -> (exists c0, In c0 olds /\ In b (cblocks c0) /\ c_al c0 = c_al c')) ->
  same_home w L L'.
Proof.
  intros O O' Le HL Io Ir Ha c' b Hc Hb. destruct (HL c' Hc) as [Hn|Hr]; [|right; exists c'; auto].
  destruct (Nat.le_gt_cases (w_next w) b) as [?|Lt]; auto. right.
  pose proof (in_pool _ _ _ Hn Hb) as P.
  destruct (Nat.eq_dec (cnt (pblocks olds) b) 0) as [Z|Z].
  - exfalso. assert (w_next w <= b); [|lia]. eapply own_newer; [exact O|exact O'|exact Le|cbv beta; lia|].
    pose proof (own_one _ _ _ O' b) as One. cbv beta in *. lia.
  - destruct (pool_in olds b) as (c & H1 & H2); [lia|].
    destruct (Ha c' b Hn Hb Lt c H1 H2) as (c0 & A & B & C). exists c0. auto.
Qed.

Lemma pblocks_nil b : cnt (pblocks (V := V) []) b = 0.
Proof. reflexivity. Qed.
Lemma empty_blocks (c : coll V) : c_nodes c = [] -> cblocks c = [].
Proof. unfold cblocks. intros ->. reflexivity. Qed.

Ltac pool := match goal with
  | A : alive ?w _ _ |- own ?w _ _ =>
      eapply own_ext; [apply (al_own _ _ _ A)| |reflexivity]; intros; unfold PR;
      repeat (rewrite pblocks_app || rewrite pblocks_cons || rewrite pblocks_nil); lia
  end.
Ltac mem := let c := fresh "c0" in let H := fresh "Hc0" in
  intros c H; cbn [In] in *; repeat (rewrite in_app_iff in *; cbn [In] in * ); tauto.

Lemma same_home_trans w w' (L L' L'' : CL) : same_home w L L' -> same_home w' L' L'' -> wle w w' -> same_home w L L''.
Proof.
  intros A B Le c b Hc Hb. destruct (B c b Hc Hb) as [?|(c1 & H1 & H2 & H3)].
  - left. destruct Le. lia.
  - destruct (A c1 b H1 H2) as [?|(c0 & H4 & H5 & H6)]; [left; auto|]. right. exists c0. csplit; auto. congruence.
Qed.

Lemma step_home w g d w' g' d' : reach w g d -> step w g d w' g' d' -> same_home w (g ++ d) (g' ++ d').
Proof.
  intros R St. pose proof (reach_alive _ _ _ R) as A. destruct (step_alive _ _ _ _ _ _ A St) as (A' & L).
  assert (R' : reach w' g' d') by (eapply r_step; eauto).
  destruct St.
  - intros c' b Hc Hb. right. exists c'. split; auto. rewrite in_app_iff in *. destruct Hc as [Hc|Hc]; [left|right].
    + eapply Permutation_in; [symmetry; eassumption|exact Hc].
    + eapply Permutation_in; [symmetry; eassumption|exact Hc].
  - intros c' b Hc Hb. right. exists c'. split; auto. cbn [In app] in *. rewrite in_app_iff in *. cbn [In] in *. tauto.
  - intros c' b [<-|Hc] Hb; [destruct Hb|]. right. exists c'. auto.
  - eapply (replaced w w' _ _ [] [c] (g ++ d)); [pool|pool|exact L|mem..|]. intros ? ? ? ? ? ? [].
  - eapply (replaced w w' _ _ [] [] (g ++ d)); [pool|pool|exact L|mem..|]. intros ? ? [].
  - eapply (replaced w w' _ _ [] [c] (x :: g ++ d)); [pool|pool|exact L|mem..|]. intros ? ? ? ? ? ? [].
  - eapply (replaced w w' _ _ [] [] (x :: g ++ d)); [pool|pool|exact L|mem..|]. intros ? ? [].
  - eapply (replaced w w' _ _ [] [c] (x :: g ++ d)); [pool|pool|exact L|mem..|]. intros ? ? ? ? ? ? [].
  - eapply (replaced w w' _ _ [] [] (x :: g ++ d)); [pool|pool|exact L|mem..|]. intros ? ? [].
  - (* move *) unfold c_move in H. cbn in H. inversion H; subst.
    eapply (replaced w' w' _ _ [c] [c; c_empty (c_al c)] (g ++ d)); [pool|pool|exact L|mem..|].
    intros c' b [<-|[<-|[]]] Hb Lt c0 [<-|[]] Hc; eauto using in_eq.
  - (* allocator-extended move *) destruct (alive_focus _ _ _ _ A) as (W & O & G & B).
    eapply (replaced w w' _ _ [x] [c; x'] (g ++ d)); [pool|pool|exact L|mem..|].
    eapply (wp_ok _ _ _ _ (fun (s : PW) _ => c_nodes (snd (fst s)) = [] /\ (fst (fst s) = x \/ newer w (cblocks (fst (fst s))))) (fun _ _ => True)) in H.
    2:{ eapply (wp_c_move_al al x w (PR g d) (PK g d)); eauto. intros w1 d1 bk _ _ _ _ _ Sm Nw. cbn [fst snd]. split; auto.
        destruct (Nat.eq_dec (c_al x) al) as [Q|Q]; [left; apply (Sm Q)|right; auto]. }
    cbn [fst snd] in H. destruct H as (Ex & Q).
    intros c' b [<-|[<-|[]]] Hb Lt c0 [<-|[]] Hc.
    + destruct Q as [->|Q]; [eauto using in_eq|]. unfold newer in Q. rewrite Forall_forall in Q. specialize (Q b Hb). lia.
    + rewrite (empty_blocks _ Ex) in Hb. destruct Hb.
  - destruct (alive_focus _ _ _ _ A) as (W & O & G & B).
    eapply (replaced w w' _ _ [x] [x'] (g ++ d)); [pool|pool|exact L|mem..|].
    eapply (wp_exn _ _ _ _ (fun _ _ => True) (fun (s : PW) _ => c_al (snd (fst s)) = c_al x)) in H.
    2:{ eapply (wp_c_move_al al x w (PR g d) (PK g d)); eauto. }
    cbn [fst snd] in H. intros c' b [<-|[]] Hb Lt c0 [<-|[]] Hc. exists x. auto using in_eq.
  - (* calls *) pose proof (api_kept _ _ _ _ _ _ _ _ R H) as K. eapply wp_ok in K; [|eassumption]. destruct K as (_ & _ & K).
    eapply (replaced w w' _ _ [c] [c'] (g ++ d)); [pool|pool|exact L|mem..|].
    intros c1 b [<-|[]] Hb Lt c0 [<-|[]] Hc. exists c. auto using in_eq.
  - pose proof (api_kept _ _ _ _ _ _ _ _ R H) as K. eapply wp_exn in K; [|eassumption]. destruct K as (_ & _ & K).
    eapply (replaced w w' _ _ [c] [c'] (g ++ d)); [pool|pool|exact L|mem..|].
    intros c1 b [<-|[]] Hb Lt c0 [<-|[]] Hc. exists c. auto using in_eq.
  - pose proof (api_kept _ _ _ _ _ _ _ _ R H) as K. eapply wp_exn in K; [|eassumption]. destruct K as (_ & _ & K).
    eapply (replaced w w' _ _ [c] [c'] (g ++ d)); [pool|pool|exact L|mem..|].
    intros c1 b [<-|[]] Hb Lt c0 [<-|[]] Hc. exists c. auto using in_eq.
  - pose proof (api_kept _ _ _ _ _ _ _ _ R H) as K. eapply wp_exn in K; [|eassumption]. destruct K as (_ & _ & K).
    assert (Al : c_al c'' = c_al c).
    { destruct (alive_focus _ _ _ _ A) as (W & O & G & B).
      pose proof (api_sound g d c m safe new vals w A H) as Hw. eapply wp_exn in Hw; [|eassumption]. destruct Hw as (N1 & O1 & _). cbn [fst snd] in *.
      eapply (wp_ok _ _ _ _ (fun (s : CW) _ => c_al (fst s) = c_al c) (fun _ _ => True)) in H1; [exact H1|].
      eapply (wp_c_clear0 c' w' (PR g d) (PK g d)); eauto. intros w1 c1 (_ & _ & _ & Q & _). cbn [fst]. congruence. }
    eapply (replaced w w'' _ _ [c] [c''] (g ++ d)); [pool|pool|exact L|mem..|].
    intros c1 b [<-|[]] Hb Lt c0 [<-|[]] Hc. exists c. auto using in_eq.
  - pose proof (api_kept _ _ _ _ _ _ _ _ R H) as K. eapply wp_exn in K; [|eassumption]. destruct K as (_ & _ & K).
    assert (Al : c_al c'' = c_al c).
    { destruct (alive_focus _ _ _ _ A) as (W & O & G & B).
      pose proof (api_sound g d c m safe new vals w A H) as Hw. eapply wp_exn in Hw; [|eassumption]. destruct Hw as (N1 & O1 & _). cbn [fst snd] in *.
      eapply (wp_ok _ _ _ _ (fun (s : CW) _ => c_al (fst s) = c_al c) (fun _ _ => True)) in H2; [exact H2|].
      eapply (wp_clear_types (PR g d) (PK g d) l c' w'); eauto. intros w1 c1 _ _ _ Q _. cbn [fst]. congruence. }
    eapply (replaced w w'' _ _ [c] [c''] (g ++ d)); [pool|pool|exact L|mem..|].
    intros c1 b [<-|[]] Hb Lt c0 [<-|[]] Hc. exists c. auto using in_eq.
  - pose proof (api_kept _ _ _ _ _ _ _ _ R H) as K. eapply wp_exn in K; [|eassumption]. destruct K as (_ & _ & K).
    destruct (step_alive _ _ _ _ _ _ A (s_call_wreck _ _ _ _ _ _ _ _ _ _ _ H H0)) as (A1 & L1).
    assert (L2 : wle w' w'') by (destruct (alive_focus _ _ _ _ A) as (W & O & G & B);
      pose proof (api_sound g d c m safe new vals w A H) as Hw; eapply wp_exn in Hw; [|eassumption]; destruct Hw as (N1 & O1 & _); cbn [fst snd] in *;
      first [eapply (wp_ok _ _ _ _ (fun w1 _ => wle w' w1) (fun _ _ => True)) in H1; [exact H1|]
            |eapply (wp_exn _ _ _ _ (fun _ _ => True) (fun w1 _ => wle w' w1)) in H1; [exact H1|]];
      eapply (wp_c_copy_al c' _ w' (PR g (c' :: d)) (PK g (c' :: d))); eauto; apply A1).
    apply (same_home_trans w w' _ (g ++ c' :: d)); [| |exact L1].
    + eapply (replaced w w' _ _ [c] [c'] (g ++ d)); [pool|pool|exact L1|mem..|].
      intros c1 b [<-|[]] Hb Lt c0 [<-|[]] Hc. exists c. auto using in_eq.
    + eapply (replaced w' w'' _ _ [] [c''] (g ++ c' :: d)); [pool|pool|exact L2|mem..|]. intros ? ? ? ? ? ? [].
  - pose proof (api_kept _ _ _ _ _ _ _ _ R H) as K. eapply wp_exn in K; [|eassumption]. destruct K as (_ & _ & K).
    destruct (step_alive _ _ _ _ _ _ A (s_call_wreck _ _ _ _ _ _ _ _ _ _ _ H H0)) as (A1 & L1).
    assert (L2 : wle w' w'') by (destruct (alive_focus _ _ _ _ A) as (W & O & G & B);
      pose proof (api_sound g d c m safe new vals w A H) as Hw; eapply wp_exn in Hw; [|eassumption]; destruct Hw as (N1 & O1 & _); cbn [fst snd] in *;
      first [eapply (wp_ok _ _ _ _ (fun w1 _ => wle w' w1) (fun _ _ => True)) in H1; [exact H1|]
            |eapply (wp_exn _ _ _ _ (fun _ _ => True) (fun w1 _ => wle w' w1)) in H1; [exact H1|]];
      eapply (wp_c_copy_al c' _ w' (PR g (c' :: d)) (PK g (c' :: d))); eauto; apply A1).
    apply (same_home_trans w w' _ (g ++ c' :: d)); [| |exact L1].
    + eapply (replaced w w' _ _ [c] [c'] (g ++ d)); [pool|pool|exact L1|mem..|].
      intros c1 b [<-|[]] Hb Lt c0 [<-|[]] Hc. exists c. auto using in_eq.
    + eapply (replaced w' w'' _ _ [] [] (g ++ c' :: d)); [pool|pool|exact L2|mem..|]. intros ? ? ? ? ? ? [].
  - (* mutation *) eapply (replaced w w _ _ [c] [c_mutate f c] (g ++ d)); [pool|pool|exact L|mem..|].
    intros c1 b [<-|[]] Hb Lt c0 [<-|[]] Hc. exists c. auto using in_eq.
  - eapply (replaced w w' _ _ [] [] (x :: y :: g ++ d)); [pool|pool|exact L|mem..|]. intros ? ? [].
  - eapply (replaced w w' _ _ [] [] (x :: y :: g ++ d)); [pool|pool|exact L|mem..|]. intros ? ? [].
  - (* assignment *) destruct (bad_focus2 _ _ _ _ _ A) as (Wx & Nc & O2 & G & B & O).
    eapply (replaced w w' _ _ [c] [c'] (x :: g ++ d)); [pool|pool|exact L|mem..|].
    eapply (wp_ok _ _ _ _ (fun (s : CW) _ => newer w (cblocks (fst s))) (fun _ _ => True)) in H.
    2:{ eapply (wp_c_copy_assign x c w (PR (x :: g) d) (PK (x :: g) d)); eauto; [apply wfc_0; auto]. }
    cbn [fst snd] in H. intros c1 b [<-|[]] Hb Lt. unfold newer in H. rewrite Forall_forall in H. specialize (H b Hb). lia.
  - destruct (bad_focus2 _ _ _ _ _ A) as (Wx & Nc & O2 & G & B & O).
    eapply (replaced w w' _ _ [c] [c'] (x :: g ++ d)); [pool|pool|exact L|mem..|].
    eapply (wp_exn _ _ _ _ (fun _ _ => True) (fun (s : CW) _ => c_nodes (fst s) = [])) in H.
    2:{ eapply (wp_c_copy_assign x c w (PR (x :: g) d) (PK (x :: g) d)); eauto; [apply wfc_0; auto]. }
    cbn [fst snd] in H. intros c1 b [<-|[]] Hb Lt. rewrite (empty_blocks _ H) in Hb. destruct Hb.
  - (* move assignment *) destruct (bad_focus2 _ _ _ _ _ A) as (Wx & Nc & O2 & G & B & O).
    eapply (replaced w w' _ _ [c; x] [c'; x'] (g ++ d)); [pool|pool|exact L|mem..|].
    eapply (wp_ok _ _ _ _ (fun (s : PW) _ => (fst (fst s) = x \/ newer w (cblocks (fst (fst s)))) /\ c_al (snd (fst s)) = c_al x /\
      forall b, In b (cblocks (snd (fst s))) -> b < w_next w -> In b (cblocks x)) (fun _ _ => True)) in H.
    2:{ eapply (wp_c_move_assign c x w (PR g d) (PK g d)); eauto. intros w1 d1 xn bk _ _ _ _ _ _ _ Sm _ Nw Fx. cbn [fst snd]. csplit; auto.
        destruct (bool_dec env_pocma true) as [Q|Q]; [left; apply Sm; auto|]. apply not_true_is_false in Q.
        destruct (Nat.eq_dec (c_al c) (c_al x)) as [Q2|Q2]; [left; apply Sm; auto|right; auto]. }
    cbn [fst snd] in H. destruct H as (Q1 & Q2 & Q3).
    intros c1 b [<-|[<-|[]]] Hb Lt c0 _ _; exists x; (split; [right; left; auto|]).
    + destruct Q1 as [->|Q1]; [auto|]. unfold newer in Q1. rewrite Forall_forall in Q1. specialize (Q1 b Hb). lia.
    + auto.
  - destruct (bad_focus2 _ _ _ _ _ A) as (Wx & Nc & O2 & G & B & O).
    eapply (replaced w w' _ _ [c; x] [c'; x'] (g ++ d)); [pool|pool|exact L|mem..|].
    eapply (wp_ok _ _ _ _ (fun (s : PW) _ => (fst (fst s) = x \/ newer w (cblocks (fst (fst s)))) /\ c_al (snd (fst s)) = c_al x /\
      forall b, In b (cblocks (snd (fst s))) -> b < w_next w -> In b (cblocks x)) (fun _ _ => True)) in H.
    2:{ eapply (wp_c_move_assign c x w (PR g d) (PK g d)); eauto. intros w1 d1 xn bk _ _ _ _ _ _ _ Sm _ Nw Fx. cbn [fst snd]. csplit; auto.
        destruct (bool_dec env_pocma true) as [Q|Q]; [left; apply Sm; auto|]. apply not_true_is_false in Q.
        destruct (Nat.eq_dec (c_al c) (c_al x)) as [Q2|Q2]; [left; apply Sm; auto|right; auto]. }
    cbn [fst snd] in H. destruct H as (Q1 & Q2 & Q3).
    intros c1 b [<-|[<-|[]]] Hb Lt c0 _ _; exists x; (split; [right; left; auto|]).
    + destruct Q1 as [->|Q1]; [auto|]. unfold newer in Q1. rewrite Forall_forall in Q1. specialize (Q1 b Hb). lia.
    + auto.
  - destruct (bad_focus2 _ _ _ _ _ A) as (Wx & Nc & O2 & G & B & O).
    eapply (replaced w w' _ _ [c; x] [c'; x'] (g ++ d)); [pool|pool|exact L|mem..|].
    eapply (wp_exn _ _ _ _ (fun _ _ => True) (fun (s : PW) _ => c_nodes (fst (fst s)) = [] /\ c_nodes (snd (fst s)) = [])) in H.
    2:{ eapply (wp_c_move_assign c x w (PR g d) (PK g d)); eauto. }
    cbn [fst snd] in H. destruct H as (H1 & H2).
    intros c1 b [<-|[<-|[]]] Hb; rewrite (empty_blocks _ H1) in Hb || rewrite (empty_blocks _ H2) in Hb; destruct Hb.
  - (* swap *)
    assert (Ex : x' = y /\ y' = x /\ w' = w).
    { unfold c_swap in H0. destruct env_pocs; [inversion H0; auto|]. destruct (c_al x =? c_al y); inversion H0; auto. }
    destruct Ex as (-> & -> & ->). intros c' b Hc Hb. right. exists c'. split; auto. cbn [app In] in *. tauto.
  - eapply (replaced w w' _ _ [c] [] (g ++ d)); [pool|pool|exact L|mem..|]. intros ? ? [].
Qed.

Lemma cnt_nodup (l : list nat) : (forall b, cnt l b <= 1) -> NoDup l.
Proof.
  induction l as [|x l IH]; intros H; constructor.
  - intros Hin. apply cnt_pos in Hin. specialize (H x). rewrite cnt_cons, Nat.eqb_refl in H. lia.
  - apply IH. intros b. specialize (H b). rewrite cnt_cons in H. lia.
Qed.

(** In any state, every live block belongs to exactly one collection. *)
Lemma reach_live w g d : reach w g d -> Permutation (w_live w) (flat_map storage (g ++ d)) /\ NoDup (w_live w).
Proof.
  intros R. pose proof (al_own _ _ _ (reach_alive _ _ _ R)) as O.
  assert (C : forall b, cnt (w_live w) b = cnt (pblocks (g ++ d)) b).
  { intros b. rewrite (own_cnt _ _ _ O), pblocks_app. reflexivity. }
  assert (N : NoDup (w_live w)).
  { apply cnt_nodup. intros b. rewrite (own_cnt _ _ _ O). apply (own_one _ _ _ O). }
  assert (Q : flat_map storage (g ++ d) = pblocks (V := V) (g ++ d)).
  { unfold pblocks. apply flat_map_ext. intros c. apply storage_cblocks. }
  split; auto. rewrite Q. apply NoDup_Permutation; auto.
  - apply cnt_nodup. intros b. rewrite <- C, (own_cnt _ _ _ O). apply (own_one _ _ _ O).
  - intros b. rewrite <- !cnt_pos, C. reflexivity.
Qed.

Lemma steps_reach w g d w' g' d' : reach w g d -> steps w g d w' g' d' -> reach w' g' d' /\ wle w w'.
Proof.
  intros R S. induction S as [w g d|w g d w1 g1 d1 w2 g2 d2 S IH St]; [split; auto using wle_refl|].
  destruct (IH R) as (R1 & L1). pose proof (reach_alive _ _ _ R1) as A. destruct (step_alive _ _ _ _ _ _ A St) as (_ & L).
  split; [eapply r_step; eauto|eapply wle_trans; eauto].
Qed.

Lemma steps_home w g d w' g' d' : reach w g d -> steps w g d w' g' d' -> same_home w (g ++ d) (g' ++ d').
Proof.
  intros R S. induction S as [w g d|w g d w1 g1 d1 w2 g2 d2 S IH St]; [intros c b Hc Hb; right; eauto|].
  intros c b Hc Hb. destruct (steps_reach _ _ _ _ _ _ R S) as (R1 & L1).
  destruct (step_home _ _ _ _ _ _ R1 St c b Hc Hb) as [Q|(c1 & H1 & H2 & H3)]; [left; destruct L1; lia|].
  destruct (IH R c1 b H1 H2) as [Q|(c0 & ? & ? & ?)]; [left; auto|right]. exists c0. csplit; auto. congruence.
Qed.

(** Two collections of a program do not share memory. *)
Lemma pool_one (l : CL) b c1 c2 : cnt (pblocks l) b <= 1 -> In c1 l -> In c2 l -> In b (cblocks c1) -> In b (cblocks c2) -> c1 = c2.
Proof.
  induction l as [|c l IH]; intros O H1 H2 B1 B2; [destruct H1|]. rewrite pblocks_cons in O.
  destruct H1 as [->|H1], H2 as [->|H2]; auto.
  - pose proof (in_pool _ _ _ H2 B2). apply cnt_pos in B1. lia.
  - pose proof (in_pool _ _ _ H1 B1). apply cnt_pos in B2. lia.
  - apply IH; auto. lia.
Qed.

Lemma steps_al w g d w' g' d' c c' b : reach w g d -> steps w g d w' g' d' -> In c (g ++ d) -> In c' (g' ++ d') ->
  In b (storage c) -> In b (storage c') -> c_al c = c_al c'.
Proof.
  intros R S Hc Hc' Hb Hb'. rewrite storage_cblocks in *. pose proof (al_own _ _ _ (reach_alive _ _ _ R)) as O.
  destruct (steps_home _ _ _ _ _ _ R S c' b Hc' Hb') as [Q|(c0 & H1 & H2 & <-)].
  - exfalso. pose proof (in_pool _ _ _ Hc Hb) as P. rewrite pblocks_app in P. pose proof (own_rng _ _ _ O b P). lia.
  - f_equal. eapply (pool_one (g ++ d)); eauto. rewrite pblocks_app. apply (own_one _ _ _ O).
Qed.

End PStore.
