(** * How many element operations: shrinking, new segments, collections *)

From Coq Require Import List Arith Lia Bool Permutation.
From Verif Require Import Base Vec Backend Segment Coll ProofBase ProofVec ProofBackend ProofOps ProofOps2 ProofSeg ProofMap ProofCost ProofCost2.
Import ListNotations.

Section CostS.
Context {V : Type} {E : Env V}.
Notation BW := (backend V * world)%type.
Notation isize b := (vsize (be_index b)).
Notation icap b := (v_cap (be_index b)).

Lemma on_world_exn {X B} (m : M world B) (s s' : X * world) e : on_world m s = Exn s' e -> fst s' = fst s.
Proof. unfold on_world. destruct (m (snd s)); intros H; inversion H; reflexivity. Qed.
Lemma realloc_exn {A} (eo : eops A) n pre (s s' : vec A * world) e : realloc eo n pre s = Exn s' e -> fst s' = fst s.
Proof.
  unfold realloc, w_. unfold bind at 1, getx at 1. unfold bind at 1. destruct (on_world alloc s) as [s1 nb|s1 e1|] eqn:Q1;
    [|intros H; inversion H; subst; exact (on_world_exn _ _ _ _ Q1)|discriminate]. apply on_world_ok in Q1.
  unfold bind at 1. destruct (on_world _ s1) as [s2 u|s2 e2|] eqn:Q2; [|intros H; inversion H; subst; rewrite <- Q1; exact (on_world_exn _ _ _ _ Q2)|discriminate].
  apply on_world_ok in Q2. unfold bind at 1. destruct (on_world _ s2) as [s3 u3|s3 e3|] eqn:Q3; [discriminate| |discriminate].
  intros H; inversion H; subst. apply on_world_exn in Q3. congruence.
Qed.
Lemma shrink_ok {A} (eo : eops A) (s s' : vec A * world) u : vec_shrink_to_fit eo s = Ok s' u ->
  v_elems (fst s') = v_elems (fst s) /\ (vsize (fst s) <= v_cap (fst s) -> vsize (fst s) <= v_cap (fst s')).
Proof.
  unfold vec_shrink_to_fit. unfold bind at 1, getx at 1. unfold bind at 1, w_ at 1, on_world at 1, clock at 1.
  intros H. destruct (_ || _); [inversion H; subst; auto|]. destruct (vsize (fst s) =? 0) eqn:Z.
  - apply Nat.eqb_eq in Z. inv_bind H. unfold setx in H. inversion H; subst. cbn. unfold vsize in *. destruct (v_elems (fst s)); [|discriminate]. cbn. auto.
  - destruct env_shrink_swallow.
    + destruct (realloc eo _ None _) as [s1 u1|s1 e1|] eqn:R; inversion H; subst.
      * apply realloc_ok in R. cbn [fst] in R. destruct R as (R1 & R2). rewrite R1, R2. auto.
      * apply realloc_exn in R. rewrite R. auto.
    + apply realloc_ok in H. cbn [fst] in H. destruct H as (R1 & R2). rewrite R1, R2. auto.
Qed.
Lemma dispose_exn {A} (eo : eops A) v w w' e : dispose eo v w = Exn w' e -> False.
Proof.
  unfold dispose. destruct (_ =? _); [discriminate|]. unfold bind. destruct (vdie eo _ w) as [w1 u|w1 e1|] eqn:D; [|destruct (vdie_exn _ _ _ _ _ D)|discriminate].
  unfold free. destruct (existsb _ _); discriminate.
Qed.
Lemma shrink_exn {A} (eo : eops A) (s s' : vec A * world) e : vec_shrink_to_fit eo s = Exn s' e -> fst s' = fst s.
Proof.
  unfold vec_shrink_to_fit. unfold bind at 1, getx at 1. unfold bind at 1, w_ at 1, on_world at 1, clock at 1.
  intros H. destruct (_ || _); [discriminate|]. destruct (vsize (fst s) =? 0).
  - unfold w_ in H. unfold bind in H. destruct (on_world (dispose eo (fst s)) _) as [s1 u|s1 e1|] eqn:Q; [discriminate| |discriminate].
    unfold on_world in Q. cbn [fst snd] in Q. destruct (dispose _ _ _) eqn:D; try discriminate. destruct (dispose_exn _ _ _ _ _ D).
  - destruct env_shrink_swallow.
    + destruct (realloc eo _ None _) as [s1 u1|s1 e1|]; discriminate.
    + apply realloc_exn in H. exact H.
Qed.

(** entries pushed into an index with room: no exception *)
Lemma emplace_back_room (v : vec ptr) w x : vsize v < v_cap v ->
  exists w', vec_emplace_back ix_eops HMove x (v, w) = Ok (mkvec (v_blk v) (v_cap v) (v_elems v ++ [x]), w') tt.
Proof.
  intros R. unfold vec_emplace_back. unfold bind at 1, getx. cbn [fst]. rewrite (proj2 (Nat.ltb_lt _ _) R).
  unfold bind, w_, on_world. cbn [fst snd]. unfold construct. cbn [eo_move_nt ix_eops]. unfold bind, ret, vborn. cbn [eo_obj ix_eops].
  unfold work, set_elems, modify. cbn. eexists. reflexivity.
Qed.
Lemma push_entries_room ns : forall (b : backend V) w, isize b + length ns <= icap b -> exists s', sp_push_entries ns (b, w) = Ok s' tt.
Proof.
  induction ns as [|n ns IH]; intros b w R; cbn [sp_push_entries length] in *; [eexists; reflexivity|].
  unfold bind at 1, getx at 1. unfold bind, on_index, on_field. cbn [fst snd]. destruct (emplace_back_room (be_index b) w (vptr (be_store b) n)) as (w' & ->); [lia|].
  apply IH. cbn [be_index]. unfold vsize in *. cbn [v_elems v_cap]. rewrite app_length. cbn [length]. lia.
Qed.

Lemma cost_empty_reserve {A} (eo : eops A) n w :
  wcost (fun w => match vec_reserve eo n (vempty, w) with Ok (v, w') _ => Ok w' v | Exn (_, w') e => Exn w' e | UB => UB end) w 2.
Proof.
  pose proof (cost_reserve eo n (vempty, w)) as H. unfold cost in *. cbn [fst snd] in H. rewrite (eq_refl : vsize (@vempty A) = 0) in H.
  destruct (vec_reserve eo n (vempty, w)) as [[v w'] u|[v w'] e|]; auto; cbn [snd] in H; destruct (_ <=? _); lia.
Qed.

Lemma cost_be_shrink t (b : backend V) w : wfb t b -> xcost (be_shrink_to_fit t) (b, w) (7 * bsize b + 12).
Proof.
  intros W. unfold be_shrink_to_fit. pose proof (wfv_size _ _ (wfb_store _ _ (wfb_0 _ _ W))) as Sc. destruct env_layout eqn:L.
  - unfold pk_shrink_to_fit. eapply cost_mono; [apply cost_bind; [apply cost_on_field, cost_shrink|intros; apply cost_bind_getx, cost_ret]|]. cbn [fst]. unfold bsize. lia.
  - pose proof (split_isize b (wfb_split t b L W)) as Hi. pose proof (wfv_size _ _ (wfb_index _ _ (wfb_0 _ _ W))) as Ic.
    unfold sp_shrink_to_fit. apply cost_bind_getx. cbn [fst].
    set (P1 := if negb (vsize (be_store b) =? 0) then _ else _).
    assert (C1 : xcost P1 (b, w) (3 * bsize b + 2)).
    { subst P1. destruct (vsize (be_store b) =? 0) eqn:Z; cbn [negb].
      - apply Nat.eqb_eq in Z. eapply cost_mono; [apply cost_bind; [apply cost_on_world, cost_empty_reserve|]; intros;
          apply cost_bind; [apply cost_on_world, cost_dispose|intros; apply cost_on_field, cost_setx]|]. rewrite Z. lia.
      - eapply cost_mono; [apply cost_on_field, cost_shrink|]. cbn [fst]. unfold bsize. lia. }
    assert (O1 : forall s1 u, P1 (b, w) = Ok s1 u -> bsize (fst s1) = bsize b /\ be_index (fst s1) = be_index b /\ bsize b <= bcap (fst s1)).
    { subst P1. intros s1 u H. destruct (vsize (be_store b) =? 0) eqn:Z; cbn [negb] in H.
      - apply Nat.eqb_eq in Z. unfold bind at 1 in H. destruct (bw _ (b, w)) as [s2 ss|s2 e2|] eqn:Q1 in H; try discriminate H.
        unfold bw, on_world in Q1. cbn [fst snd] in Q1. destruct (vec_reserve (vh_eops t) 1 (vempty, w)) as [[v w2] u2|[v w2] e2|] eqn:R; try discriminate Q1.
        inversion Q1; subst s2 ss. apply reserve_ok in R. cbn [fst] in R. destruct R as (R1 & R2 & _). inv_bind H. apply on_world_ok in Q.
        unfold on_store, on_field, setx in H. inversion H; subst. cbn [fst be_index]. rewrite Q. cbn [fst]. unfold bsize, bcap. cbn [be_store].
        rewrite Z. unfold vsize. rewrite R1. cbn. csplit; auto. lia.
      - apply on_store_ok in H. destruct H as (v & w1 & H & ->). apply shrink_ok in H. cbn [fst] in H. destruct H as (H1 & H2).
        unfold bsize, bcap. cbn [fst be_store be_index]. unfold vsize in *. rewrite H1. csplit; auto. }
    assert (X1 : forall s1 e, P1 (b, w) = Exn s1 e -> fst s1 = b).
    { subst P1. intros s1 e H. destruct (vsize (be_store b) =? 0) eqn:Z; cbn [negb] in H.
      - unfold bind at 1 in H. destruct (bw _ (b, w)) as [s2 ss|s2 e2|] eqn:Q1 in H; [|inversion H; subst; exact (on_world_exn _ _ _ _ Q1)|discriminate H].
        unfold bind in H. destruct (bw _ s2) as [s3 u3|s3 e3|] eqn:Q2; [discriminate H| |discriminate H].
        unfold bw, on_world in Q2. destruct (dispose _ _ _) eqn:D; try discriminate Q2. destruct (dispose_exn _ _ _ _ _ D).
      - unfold on_store, on_field in H. cbn [fst snd] in H. destruct (vec_shrink_to_fit _ _) as [[v w1] u1|[v w1] e1|] eqn:Q; inversion H; subst.
        apply shrink_exn in Q. cbn [fst] in Q. subst v. destruct b; reflexivity. }
    clearbody P1.
    set (P2 := fun b1 : backend V => if v_blk (be_store b) =? v_blk (be_store b1) then ret tt else _).
    assert (C2 : forall s1, bsize (fst s1) = bsize b -> be_index (fst s1) = be_index b -> bsize b <= bcap (fst s1) -> xcost (P2 (fst s1)) s1 (2 * bsize b + 4)).
    { intros s1 Z1 Z2 Z3. subst P2. cbv beta. destruct (_ =? _); [eapply cost_mono; [apply cost_ret|lia]|].
      eapply cost_mono; [apply (cost_bind _ _ _ _ 2 (2 * bsize b + 2)); [apply cost_on_world, cost_empty_reserve|]|lia].
      intros s2 ii Q. unfold bw, on_world in Q. destruct (vec_reserve ix_eops _ (vempty, snd s1)) as [[v w2] u2|[v w2] e2|] eqn:R; try discriminate Q.
      inversion Q; subst. apply reserve_ok in R. cbn [fst] in R. destruct R as (R1 & R2 & _). 
      eapply cost_mono; [apply (cost_bind _ _ _ _ (isize b) (S (bsize b))); [rewrite <- Z2; apply cost_on_world, cost_dispose|]|rewrite Hi; unfold bsize; lia].
      intros s3 u3 Q3. apply on_world_ok in Q3. cbn [fst] in Q3. apply cost_bind0; [apply cost_on_field, cost_setx|].
      intros s4 u4 Q4. unfold on_index, on_field, setx in Q4. inversion Q4; subst. unfold sp_build_index. apply cost_bind_getx. cbn [fst be_store].
      rewrite Q3. eapply cost_mono; [apply cost_push_entries|]; rewrite seq_length; cbn [fst be_index].
      - unfold bsize, bcap, vsize in *. rewrite R1. cbn [v_elems vempty length]. lia.
      - unfold bsize in *. lia. }
    assert (X2 : forall s1, be_index (fst s1) = be_index b -> bsize (fst s1) = bsize b -> bsize b <= bcap (fst s1) -> forall s2 e, P2 (fst s1) s1 = Exn s2 e ->
      bsize (fst s2) = bsize b /\ be_index (fst s2) = be_index b).
    { intros s1 Z2 Z1 Z3 s2 e H. subst P2. cbv beta in H. destruct (_ =? _); [discriminate|]. unfold bind at 1 in H.
      destruct (bw _ s1) as [s3 ii|s3 e3|] eqn:Q1 in H; [|inversion H; subst; rewrite (on_world_exn _ _ _ _ Q1); auto|discriminate H].
      unfold bw, on_world in Q1. destruct (vec_reserve ix_eops _ (vempty, snd s1)) as [[v w2] u2|[v w2] e2|] eqn:R; try discriminate Q1.
      inversion Q1; subst s3 ii. apply reserve_ok in R. cbn [fst] in R. destruct R as (R1 & R2 & _). 
      unfold bind at 1 in H. destruct (bw _ (fst s1, w2)) as [s3 u3|s3 e3|] eqn:Q2 in H; [| |discriminate H].
      2: { unfold bw, on_world in Q2. destruct (dispose _ _ _) eqn:D; try discriminate Q2. destruct (dispose_exn _ _ _ _ _ D). }
      apply on_world_ok in Q2. cbn [fst] in Q2. unfold bind at 1, on_index at 1, on_field at 1, setx at 1 in H. unfold sp_build_index in H.
      unfold bind at 1, getx at 1 in H. cbn [fst be_store] in H.
      destruct (push_entries_room (seq 0 (S (vsize (be_store (fst s3))) - 0)) (mkbackend (be_store (fst s3)) v (be_self (fst s3))) (snd s3)) as (s4 & Hs).
      { rewrite seq_length, Q2. cbn [be_index]. unfold bsize, bcap, vsize in *. rewrite R1. cbn [v_elems vempty length]. lia. }
      cbn [snd] in H. rewrite Hs in H. discriminate H. }
    clearbody P2.
    rewrite <- (Nat.add_0_r (_ + 12)). apply cost_bind; [|intros; apply cost_bind_getx, cost_ret].
    eapply cost_mono; [apply (cost_try _ _ _ _ (5 * bsize b + 6) (2 * bsize b + 2))|lia].
    + eapply cost_mono; [apply (cost_bind _ _ _ _ (3 * bsize b + 2) (2 * bsize b + 4)); [exact C1|]|lia]. intros s1 u H. destruct (O1 _ _ H) as (Z1 & Z2 & Z3).
      apply cost_bind_getx. apply C2; auto.
    + intros s1 e H. assert (Z : bsize (fst s1) = bsize b /\ be_index (fst s1) = be_index b).
      { unfold bind at 1 in H. destruct (P1 (b, w)) as [s2 u2|s2 e2|] eqn:Q; [|inversion H; subst; rewrite (X1 _ _ eq_refl); auto|discriminate H].
        destruct (O1 _ _ eq_refl) as (Z1 & Z2 & Z3). unfold bind at 1, getx at 1 in H. eapply X2; eauto. }
      destruct Z as (Z1 & Z2). eapply cost_mono; [apply cost_rebuild|]; rewrite Z1, Z2; unfold bsize in *; lia.
Qed.

(** ** New segments *)
Lemma reserve_exn {A} (eo : eops A) n (s s' : vec A * world) e : vec_reserve eo n s = Exn s' e -> fst s' = fst s.
Proof.
  unfold vec_reserve. unfold bind at 1, getx at 1. destruct (_ <? _); [intros H; inversion H; reflexivity|].
  destruct (_ <=? _); [discriminate|]. apply realloc_exn.
Qed.
Lemma emplace_back_exn {A} (eo : eops A) h x (s s' : vec A * world) e : vec_emplace_back eo h x s = Exn s' e -> fst s' = fst s.
Proof.
  unfold vec_emplace_back, w_. unfold bind at 1, getx at 1. destruct (_ <? _).
  - unfold bind. destruct (on_world _ s) as [s1 u|s1 e1|] eqn:Q; [discriminate| |discriminate]. intros H; inversion H; subst. exact (on_world_exn _ _ _ _ Q).
  - destruct (_ <=? _); [intros H; inversion H; reflexivity|].
    unfold bind. destruct (realloc _ _ _ s) as [s1 u|s1 e1|] eqn:Q; [discriminate| |discriminate]. intros H; inversion H; subst. exact (realloc_exn _ _ _ _ _ _ Q).
Qed.

Definition bfresh (b : backend V) : Prop := bsize b = 0 /\ isize b <= 1.

Lemma cost_be_ctor t (s : vec V) w : vsize s = 0 -> wcost (be_ctor t s) w 4 /\ (forall w' b, be_ctor t s w = Ok w' b -> bfresh b).
Proof.
  intros Z. unfold be_ctor. destruct env_layout.
  - split; [eapply cost_mono; [apply cost_ret|lia]|]. intros w' b H. inversion H; subst. unfold bfresh, bsize. cbn [be_store be_index]. split; [exact Z|cbn; lia].
  - set (b0 := mkbackend s vempty 0). set (m := (on_store (vec_reserve (vh_eops t) 1) ;; sp_build_index 0)%mon).
    assert (C : xcost m (b0, w) 4).
    { subst m. change 4 with (2 + 2). apply cost_bind.
      - apply cost_on_field. eapply cost_mono; [apply cost_reserve|]. cbn [fst be_store b0]. rewrite Z. destruct (_ <=? _); lia.
      - intros s1 u Q. apply on_store_ok in Q. destruct Q as (v & w1 & Q & ->). apply reserve_ok in Q. cbn [fst be_store b0] in Q. destruct Q as (Q1 & _).
        unfold sp_build_index. apply cost_bind_getx. cbn [fst be_store]. unfold vsize in *. rewrite Q1, Z. cbn [Nat.sub seq sp_push_entries].
        apply cost_bind_getx. eapply cost_mono; [apply cost_bind; [apply cost_on_field, cost_emplace_back|intros; apply cost_ret]|]. cbn. lia. }
    assert (O : forall s1 u, m (b0, w) = Ok s1 u -> bfresh (fst s1)).
    { subst m. intros s1 u H. inv_bind H. apply on_store_ok in Q. destruct Q as (v & w1 & Q & ->). apply reserve_ok in Q. cbn [fst be_store b0] in Q. destruct Q as (Q1 & _).
      unfold sp_build_index in H. unfold bind at 1, getx at 1 in H. apply push_entries_ok in H. cbn [fst be_store be_index b0] in H. destruct H as (H1 & H2 & _).
      rewrite seq_length in H2. unfold bfresh, bsize. rewrite H1, H2. unfold vsize in *. rewrite Q1. rewrite Z. cbn. lia. }
    assert (X : forall s1 e, m (b0, w) = Exn s1 e -> bsize (fst s1) = 0 /\ be_index (fst s1) = vempty).
    { subst m. intros s1 e H. unfold bind at 1 in H. destruct (on_store _ _) as [s2 u2|s2 e2|] eqn:Q; [| |discriminate H].
      - apply on_store_ok in Q. destruct Q as (v & w1 & Q & ->). apply reserve_ok in Q. cbn [fst be_store b0] in Q. destruct Q as (Q1 & _).
        assert (Zv : vsize v = 0) by (unfold vsize in *; rewrite Q1; exact Z).
        unfold sp_build_index in H. unfold bind at 1, getx at 1 in H. cbn [fst be_store] in H. rewrite Zv in H. cbn [Nat.sub seq sp_push_entries] in H.
        unfold bind at 1, getx at 1 in H. unfold bind in H. destruct (on_index _ _) as [s3 u3|s3 e3|] eqn:Q2 in H; [discriminate H| |discriminate H].
        inversion H; subst. unfold on_index, on_field in Q2. destruct (vec_emplace_back _ _ _ _) as [[i w3] u3|[i w3] e3|] eqn:Q3 in Q2; inversion Q2; subst.
        apply emplace_back_exn in Q3. cbn [fst be_index b0] in *. subst i. auto.
      - inversion H; subst. unfold on_store, on_field in Q. destruct (vec_reserve _ _ _) as [[i w3] u3|[i w3] e3|] eqn:Q3 in Q; inversion Q; subst.
        apply reserve_exn in Q3. cbn [fst be_index be_store b0] in *. subst i. auto. }
    clearbody m. unfold cost in *. unfold try_rethrow. cbn [fst snd] in *. destruct (m (b0, w)) as [[b1 w1] u|[b1 w1] e|].
    + split; [exact C|]. intros w' b H. inversion H; subst. exact (O _ _ eq_refl).
    + destruct (X _ _ eq_refl) as (X1 & X2). cbn [fst snd] in *.
      assert (D : xcost (destroy_members t) (b1, w1) 0).
      { unfold destroy_members. apply cost_bind_getx. eapply cost_mono; [apply cost_bind; [apply cost_on_world, cost_dispose|]; intros; apply cost_on_world, cost_dispose|].
        cbn [fst]. unfold bsize in X1. rewrite X1, X2. cbn. lia. }
      unfold cost in D. cbn [snd] in D. destruct (destroy_members t (b1, w1)) as [[b2 w2] u2|[b2 w2] e2|]; cbn [snd] in D; split; try discriminate; try exact I; lia.
    + split; [exact I|discriminate].
Qed.
Lemma cost_be_new t (s : vec V) w : vsize s = 0 -> wcost (be_new t s) w 4 /\ (forall w' b, be_new t s w = Ok w' b -> bfresh b).
Proof.
  intros Z. unfold be_new. split.
  - apply cost_bind0; [change 0 with (0 + 0); apply cost_try; [apply cost_alloc|intros; rewrite <- Z; apply cost_dispose]|].
    intros w1 self _. eapply cost_mono; [apply cost_bind; [apply cost_try; [apply cost_be_ctor; exact Z|intros; apply cost_free]|intros; apply cost_ret]|]. lia.
  - intros w' b H. inv_bind H. inv_bind H. inversion H; subst. unfold try_rethrow in Q0. destruct (be_ctor t s _) as [w2 b2|w2 e2|] eqn:R in Q0;
      [|destruct (free _ w2); discriminate Q0|discriminate Q0]. inversion Q0; subst. exact (proj2 (cost_be_ctor t s _ Z) _ _ R).
Qed.
Definition sfresh (s : segment V) : Prop := bfresh (sg_be s).
Lemma cost_seg_make t al w : wcost (seg_make t al) w 4 /\ (forall w' s, seg_make t al w = Ok w' s -> sfresh s).
Proof.
  unfold seg_make, be_make. destruct (cost_be_new t vempty w eq_refl) as (C & O). split.
  - eapply cost_mono; [apply cost_bind; [exact C|intros; apply cost_ret]|lia].
  - intros w' s H. inv_bind H. inversion H; subst. exact (O _ _ eq_refl).
Qed.
Lemma cost_seg_delete (s : segment V) w : sfresh s -> wcost (seg_delete s) w 1.
Proof.
  intros (Z1 & Z2). unfold seg_delete, be_delete. unfold bsize in Z1.
  eapply cost_mono; [apply cost_bind; [apply cost_dispose|]; intros; apply cost_bind; [apply cost_dispose|intros; apply cost_free]|]. lia.
Qed.
Lemma vec_move_fresh {A} (eo : eops A) same (s : vec A * world) : vsize (fst s) = 0 ->
  xcost (vec_move eo same) s 0 /\ (forall s' v, vec_move eo same s = Ok s' v -> vsize v = 0 /\ vsize (fst s') = 0) /\ (forall s' e, vec_move eo same s <> Exn s' e).
Proof.
  intros Z. split; [eapply cost_mono; [apply cost_move|rewrite Z; destruct same; lia]|].
  assert (Q : exists s' v, vec_move eo same s = Ok s' v /\ vsize v = 0 /\ vsize (fst s') = 0).
  { unfold vec_move. unfold bind at 1, getx at 1. destruct same.
    - unfold bind, setx, ret. do 2 eexists. csplit; [reflexivity|exact Z|reflexivity].
    - rewrite Z. cbn [Nat.eqb]. unfold ret. do 2 eexists. csplit; [reflexivity|reflexivity|exact Z]. }
  destruct Q as (s1 & v1 & -> & Q). split; [intros s' v H; inversion H; subst; exact Q|discriminate].
Qed.
Lemma cost_seg_move al (s : segment V) w : sfresh s ->
  xcost (seg_move al) (s, w) 4 /\ (forall s' x, seg_move al (s, w) = Ok s' x -> sfresh x /\ sfresh (fst s')) /\ (forall s' e, seg_move al (s, w) = Exn s' e -> sfresh (fst s')).
Proof.
  intros (Z1 & Z2). unfold bsize in Z1. set (b := sg_be s) in *.
  assert (B : xcost (be_move (sg_ty s) (sg_al s =? al)) (b, w) 4 /\
    (forall s' x, be_move (sg_ty s) (sg_al s =? al) (b, w) = Ok s' x -> bfresh x /\ bfresh (fst s')) /\
    (forall s' e, be_move (sg_ty s) (sg_al s =? al) (b, w) = Exn s' e -> bfresh (fst s'))).
  { unfold be_move. destruct (vec_move_fresh (vh_eops (sg_ty s)) (sg_al s =? al) (be_store b, w) Z1) as (C & O & X).
    csplit.
    - apply cost_bind0; [apply cost_on_field; exact C|]. intros s1 v Q. apply on_store_ok in Q. destruct Q as (v1 & w1 & Q & ->).
      apply cost_on_world. apply cost_be_new. exact (proj1 (O _ _ Q)).
    - intros s' x H. inv_bind H. apply on_store_ok in Q. destruct Q as (v1 & w1 & Q & ->). destruct (O _ _ Q) as (O1 & O2). cbn [fst] in O2.
      pose proof (on_world_ok _ _ _ _ H) as F. unfold bw, on_world in H. cbn [fst snd] in *. destruct (be_new _ _ w1) as [w2 b2|w2 e2|] eqn:R; inversion H; subst.
      split; [exact (proj2 (cost_be_new _ _ _ O1) _ _ R)|]. cbn [fst]. unfold bfresh, bsize. cbn [be_store be_index]. split; auto.
    - intros s' e H. unfold bind at 1 in H. destruct (on_store _ _) as [s1 v|s1 e1|] eqn:Q; [| |discriminate H].
      + apply on_store_ok in Q. destruct Q as (v1 & w1 & Q & ->). destruct (O _ _ Q) as (O1 & O2). cbn [fst] in O2.
        pose proof (on_world_exn _ _ _ _ H) as F. rewrite F. cbn [fst]. unfold bfresh, bsize. cbn [be_store be_index]. split; auto.
      + exfalso. unfold on_store, on_field in Q. cbn [fst snd] in Q. destruct (vec_move _ _ _) as [[v1 w1] v|[v1 w1] e3|] eqn:R; inversion Q; subst. exact (X _ _ eq_refl). }
  destruct B as (C & O & X). unfold seg_move. csplit.
  - apply cost_bind_getx. cbn [fst]. eapply cost_mono; [apply cost_bind; [apply cost_on_field; exact C|intros; apply cost_ret]|]. lia.
  - intros s' x H. unfold bind at 1, getx at 1 in H. cbn [fst] in H. inv_bind H. inversion H; subst. unfold on_be, on_field in Q. cbn [fst snd] in Q. fold b in Q.
    destruct (be_move _ _ _) as [[b1 w1] b2|[b1 w1] e1|] eqn:R; inversion Q; subst. exact (O _ _ eq_refl).
  - intros s' e H. unfold bind at 1, getx at 1 in H. cbn [fst] in H. unfold bind in H. destruct (on_be _ _) as [s1 b1|s1 e1|] eqn:Q; [discriminate H| |discriminate H].
    inversion H; subst. unfold on_be, on_field in Q. cbn [fst snd] in Q. fold b in Q. destruct (be_move _ _ _) as [[b1 w1] b2|[b1 w1] e1|] eqn:R; inversion Q; subst. exact (X _ _ eq_refl).
Qed.
Lemma cost_construct_node al (s : segment V) w : sfresh s ->
  wcost (construct_node al s) w 5 /\ (forall w' x, construct_node al s w = Ok w' x -> sfresh x).
Proof.
  intros F. destruct (cost_seg_move al s w F) as (C & O & X). unfold construct_node, cost in *. cbn [snd] in C.
  destruct (seg_move al (s, w)) as [[s1 w1] x|[s1 w1] e|]; cbn [fst snd] in *.
  - destruct (O _ _ eq_refl) as (O1 & O2). pose proof (cost_seg_delete s1 w1 O2) as D. unfold cost, bind in *. destruct (seg_delete s1 w1) as [w2 u|w2 e|]; split; try discriminate; try exact I; try lia.
    + cbn. lia.
    + intros w' x' H. inversion H; subst. exact O1.
  - specialize (X _ _ eq_refl). pose proof (cost_seg_delete s1 w1 X) as D. unfold cost, bind in *. destruct (seg_delete s1 w1) as [w2 u|w2 e2|]; split; try discriminate; try exact I; cbn; lia.
  - split; [exact I|discriminate].
Qed.
Lemma cost_renumber (ns : list (node V)) : forall w, wcost (renumber ns) w 0.
Proof.
  induction ns as [|n ns IH]; intros w; cbn [renumber]; [apply cost_ret|].
  apply cost_bind0; [apply cost_fresh|]. intros. apply cost_bind0; [apply IH|]. intros. apply cost_ret.
Qed.
Notation CW := (coll V * world)%type.
Lemma cost_cache_insert a m (s : CW) : xcost (cache_insert a m) s 0.
Proof.
  unfold cache_insert. apply cost_bind0; [apply cost_on_world, cost_tick|]. intros. apply cost_bind_getx.
  destruct (cache_find _ _); [apply cost_ret|apply cost_setx].
Qed.
Lemma cost_tim_find a (s : CW) : xcost (tim_find a) s 0.
Proof.
  unfold tim_find. apply cost_bind_getx. destruct (cache_find _ _); [apply cost_ret|]. destruct (map_find _ _); [|apply cost_ret].
  apply cost_bind0; [apply cost_cache_insert|intros; apply cost_ret].
Qed.
Lemma cost_map_emplace a (sg : segment V) (s : CW) : sfresh sg -> xcost (map_emplace a sg) s 7.
Proof.
  intros F. unfold map_emplace. apply cost_bind_getx. change 7 with (6 + 1). apply cost_bind.
  - apply cost_on_world. change 6 with (1 + 5). apply cost_bind; [change 1 with (0 + 1); apply cost_try; [apply cost_tick|intros; apply cost_seg_delete; exact F]|].
    intros. apply cost_construct_node. exact F.
  - intros s1 sg1 Q. unfold on_world in Q. destruct (bind _ _ (snd s)) as [w1 sg2|w1 e1|] eqn:R in Q; try discriminate Q. inversion Q; subst.
    unfold bind in R. destruct (try_rethrow _ _ _) as [w2 u2|w2 e2|] eqn:R1 in R; try discriminate R.
    assert (F1 : sfresh sg1) by exact (proj2 (cost_construct_node _ sg w2 F) _ _ R).
    destruct (map_find _ _).
    + change 1 with (1 + 0). apply cost_bind; [apply cost_on_world, cost_seg_delete; exact F1|intros; apply cost_ret].
    + change 1 with (1 + 0). apply cost_bind; [apply cost_on_world; change 1 with (0 + 1); apply cost_try; [apply cost_tick|intros; apply cost_seg_delete; exact F1]|]. intros.
      apply cost_bind0; [apply cost_on_world, cost_fresh|]. intros. apply cost_bind0; [apply cost_on_world, cost_clock|]. intros.
      apply cost_bind0; [destruct (_ || _); [apply cost_ret|apply cost_on_world, cost_renumber]|]. intros.
      apply cost_bind0; [apply cost_setx|intros; apply cost_ret].
Qed.
Lemma cost_rebuild_cache (s : CW) : xcost rebuild_cache s 0.
Proof. unfold cost, rebuild_cache, modify. cbn. lia. Qed.
Lemma cost_tim_insert a (sg : segment V) (s : CW) : sfresh sg -> xcost (tim_insert a sg) s 7.
Proof.
  intros F. unfold tim_insert. apply cost_bind_getx. rewrite <- (Nat.add_0_r 7). apply cost_bind; [apply cost_map_emplace; exact F|]. intros.
  apply cost_bind_getx. apply cost_bind0; [destruct (_ =? _); [apply cost_ret|apply cost_rebuild_cache]|]. intros.
  apply cost_bind0; [apply cost_cache_insert|intros; apply cost_ret].
Qed.
Lemma cost_make_insert a t al (s : CW) : xcost (sg <- on_world (seg_make t al) ;; m <- tim_insert a sg ;; match m with Some i => ret i | None => ub end)%mon s 11.
Proof.
  change 11 with (4 + 7). apply cost_bind; [apply cost_on_world, cost_seg_make|]. intros s1 sg Q.
  unfold on_world in Q. destruct (seg_make _ _ _) as [w1 sg1|w1 e1|] eqn:R in Q; inversion Q; subst. apply (proj2 (cost_seg_make _ _ _)) in R.
  rewrite <- (Nat.add_0_r 7). apply cost_bind; [apply cost_tim_insert; exact R|]. intros s2 m _. destruct m; [apply cost_ret|apply cost_ub].
Qed.
Lemma cost_find_or_make a (s : CW) : xcost (find_or_make a) s 11.
Proof.
  unfold find_or_make. apply cost_bind0; [apply cost_tim_find|]. intros s1 m _. destruct m; [eapply cost_mono; [apply cost_ret|lia]|].
  apply cost_bind_getx. apply cost_make_insert.
Qed.
Lemma cost_map_iterator_for x (s : CW) : xcost (map_iterator_for x) s 11.
Proof.
  unfold map_iterator_for. destruct (a_acceptable x).
  - destruct (a_terminal x); [apply cost_find_or_make|]. apply cost_bind0; [apply cost_tim_find|]. intros s1 m _. destruct m; [eapply cost_mono; [apply cost_ret|lia]|].
    destruct (_ =? _); [|eapply cost_mono; [apply cost_throw|lia]]. apply cost_bind_getx. apply cost_make_insert.
  - apply cost_bind_getx. destruct (tim_find_const _ _); eapply cost_mono; [apply cost_ret|lia|apply cost_throw|lia].
Qed.
Lemma cost_register_type a (s : CW) : xcost (register_type a) s 11.
Proof.
  unfold register_type. apply cost_bind_getx.
  change 11 with (4 + 7). apply cost_bind; [apply cost_on_world, cost_seg_make|]. intros s1 sg Q.
  unfold on_world in Q. destruct (seg_make _ _ _) as [w1 sg1|w1 e1|] eqn:R in Q; inversion Q; subst. apply (proj2 (cost_seg_make _ _ _)) in R.
  rewrite <- (Nat.add_0_r 7). apply cost_bind; [apply cost_tim_insert; exact R|]. intros; apply cost_ret.
Qed.
End CostS.
