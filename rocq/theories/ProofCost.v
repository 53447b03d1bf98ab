(** * How many element operations (constructions, assignments and destructions of elements and
    index entries) the operations perform *)

From Coq Require Import List Arith Lia Bool Permutation.
From Verif Require Import Base Vec Backend Segment Coll ProofBase ProofVec ProofBackend ProofOps ProofOps2 ProofSeg ProofMap.
Import ListNotations.

(** Started in [s], the operation [m] performs at most [k] of them, whether it returns or throws. *)
Definition cost {S A} (pr : S -> world) (m : M S A) (s : S) (k : nat) : Prop :=
  match m s with
  | Ok s' _ => w_work (pr s') <= w_work (pr s) + k
  | Exn s' _ => w_work (pr s') <= w_work (pr s) + k
  | UB => True
  end.
Notation wid := (fun w : world => w).
Notation wcost := (cost wid).
Notation xcost := (cost snd).

Ltac inv_bind H := unfold bind at 1 in H; match type of H with
  match ?m with Ok _ _ => _ | Exn _ _ => _ | UB => _ end = _ => let Q := fresh "Q" in destruct m eqn:Q; try discriminate H end.

Section Cost.
Lemma cost_mono {S A} (pr : S -> world) (m : M S A) s k k' : cost pr m s k -> k <= k' -> cost pr m s k'.
Proof. unfold cost. destruct (m s); auto; lia. Qed.
Lemma cost_ret {S A} (pr : S -> world) (a : A) s : cost pr (ret a) s 0.
Proof. unfold cost, ret. lia. Qed.
Lemma cost_throw {S A} (pr : S -> world) e s : cost pr (@throw S A e) s 0.
Proof. unfold cost, throw. lia. Qed.
Lemma cost_ub {S A} (pr : S -> world) s k : cost pr (@ub S A) s k.
Proof. exact I. Qed.
Lemma cost_bind {S A B} (pr : S -> world) (m : M S A) (f : A -> M S B) s k1 k2 :
  cost pr m s k1 -> (forall s' a, m s = Ok s' a -> cost pr (f a) s' k2) -> cost pr (bind m f) s (k1 + k2).
Proof.
  unfold cost, bind. destruct (m s) as [s' a|s' e|] eqn:Q; intros H1 H2; auto; [|lia].
  specialize (H2 _ _ eq_refl). destruct (f a s'); auto; lia.
Qed.
Lemma cost_bind0 {S A B} (pr : S -> world) (m : M S A) (f : A -> M S B) s k :
  cost pr m s 0 -> (forall s' a, m s = Ok s' a -> cost pr (f a) s' k) -> cost pr (bind m f) s k.
Proof. intros. apply (cost_bind _ _ _ _ 0 k); auto. Qed.
Lemma cost_try {S A} (pr : S -> world) (m : M S A) h s k1 k2 :
  cost pr m s k1 -> (forall s' e, m s = Exn s' e -> cost pr h s' k2) -> cost pr (try_rethrow m h) s (k1 + k2).
Proof.
  unfold cost, try_rethrow. destruct (m s) as [s' a|s' e|] eqn:Q; intros H1 H2; auto; [lia|].
  specialize (H2 _ _ eq_refl). destruct (h s'); auto; lia.
Qed.
Lemma cost_on_world {X A} (m : M world A) (s : X * world) k : wcost m (snd s) k -> xcost (on_world m) s k.
Proof. unfold cost, on_world. destruct (m (snd s)); auto. Qed.
Lemma cost_on_field {X Y A} (p : X -> Y) u (m : M (Y * world) A) s k :
  xcost m (p (fst s), snd s) k -> xcost (on_field p u m) s k.
Proof. unfold cost, on_field. cbn [snd]. destruct (m (p (fst s), snd s)) as [[y w] a|[y w] e|]; auto. Qed.
Lemma cost_getx {X} (s : X * world) : xcost getx s 0.
Proof. unfold cost, getx. lia. Qed.
Lemma cost_setx {X} (x : X) s : xcost (setx x) s 0.
Proof. unfold cost, setx. cbn. lia. Qed.
(** reading the state *)
Lemma cost_bind_getx {X B} (f : X -> M (X * world) B) s k : xcost (f (fst s)) s k -> xcost (bind getx f) s k.
Proof. unfold cost, bind, getx. auto. Qed.

Context {V : Type} {E : Env V}.
Lemma cost_tick e w : wcost (tick e) w 0.
Proof. unfold cost, tick. destruct (env_fault _); cbn; lia. Qed.
Lemma cost_alloc w : wcost alloc w 0.
Proof.
  unfold alloc. change 0 with (0 + 0). apply cost_bind; [apply cost_tick|]. intros. unfold cost. cbn. lia.
Qed.
Lemma cost_free b w : wcost (free b) w 0.
Proof. unfold cost, free. destruct (existsb _ _); cbn; auto; lia. Qed.
Lemma cost_fresh w : wcost fresh w 0.
Proof. unfold cost, fresh. cbn. lia. Qed.
Lemma cost_clock w : wcost clock w 0.
Proof. unfold cost, clock. lia. Qed.
Lemma cost_born n w : wcost (born n) w n.
Proof. unfold cost, born. cbn. lia. Qed.
Lemma cost_work n w : wcost (work n) w n.
Proof. unfold cost, work. cbn. lia. Qed.
Lemma cost_die n w : wcost (die n) w n.
Proof. unfold cost, die. destruct (_ <=? _); cbn; auto; lia. Qed.

(** ** Vectors *)
Context {A : Type} (eo : eops A).
Notation VW := (vec A * world)%type.

Lemma cost_vborn n w : wcost (vborn eo n) w n.
Proof. unfold vborn. destruct (eo_obj eo); [apply cost_born|apply cost_work]. Qed.
Lemma cost_vdie n w : wcost (vdie eo n) w n.
Proof. unfold vdie. destruct (eo_obj eo); [apply cost_die|apply cost_work]. Qed.
Lemma cost_construct h w : wcost (construct eo h) w 1.
Proof.
  unfold construct. change 1 with (0 + 1). apply cost_bind; [|intros; apply cost_vborn].
  destruct h; [destruct (eo_refuse eo); [apply cost_throw|destruct (eo_copy_nt eo)]|destruct (eo_move_nt eo)|];
    auto using cost_ret, cost_tick.
Qed.
Lemma cost_construct_n h n : forall w, wcost (construct_n eo h n) w (2 * n).
Proof.
  induction n as [|n IH]; intros w; cbn [construct_n]; [apply cost_ret|].
  eapply cost_mono; [apply cost_bind; [apply cost_construct|intros; apply cost_try; [apply IH|intros; apply cost_vdie]]|]. lia.
Qed.
Lemma cost_relocate n w : wcost (relocate eo n) w (2 * n).
Proof.
  unfold relocate. destruct (eo_move_nt eo); [eapply cost_mono; [apply cost_vborn|lia]|apply cost_construct_n].
Qed.
Lemma cost_dispose v w : wcost (dispose eo v) w (vsize v).
Proof.
  unfold dispose. destruct (v_cap v =? 0); [eapply cost_mono; [apply cost_ret|lia]|].
  eapply cost_mono; [apply cost_bind; [apply cost_vdie|intros; apply cost_free]|lia].
Qed.
Lemma cost_realloc n pre (s : VW) : xcost (realloc eo n pre) s (3 * vsize (fst s) + 2).
Proof.
  unfold realloc, w_. apply cost_bind_getx.
  eapply cost_mono; [apply cost_bind; [apply cost_on_world, cost_alloc|]; intros;
    apply cost_bind; [apply cost_on_world, (cost_try _ _ _ _ (2 * vsize (fst s) + 2) 0); [|intros; apply cost_free]|];
    [|intros; apply cost_bind; [apply cost_on_world, cost_dispose|intros; apply cost_setx]]|lia].
  destruct pre; [|eapply cost_mono; [apply cost_relocate|lia]].
  eapply cost_mono; [apply cost_bind; [apply cost_construct|intros; apply cost_try; [apply cost_relocate|intros; apply cost_vdie]]|lia].
Qed.
Lemma cost_set_elems l (s : VW) : xcost (set_elems l) s 0.
Proof. unfold cost, set_elems, modify. cbn. lia. Qed.
Lemma cost_reserve n (s : VW) : xcost (vec_reserve eo n) s (if n <=? v_cap (fst s) then 0 else 3 * vsize (fst s) + 2).
Proof.
  unfold vec_reserve. apply cost_bind_getx. destruct (eo_max eo <? n).
  - eapply cost_mono; [apply cost_throw|lia].
  - destruct (n <=? v_cap (fst s)); [apply cost_ret|apply cost_realloc].
Qed.
Lemma cost_emplace_back h x (s : VW) :
  xcost (vec_emplace_back eo h x) s (if vsize (fst s) <? v_cap (fst s) then 1 else 3 * vsize (fst s) + 2).
Proof.
  unfold vec_emplace_back. apply cost_bind_getx. destruct (vsize (fst s) <? v_cap (fst s)).
  - change 1 with (1 + 0). apply cost_bind; [apply cost_on_world, cost_construct|intros; apply cost_set_elems].
  - destruct (eo_max eo <=? vsize (fst s)); [eapply cost_mono; [apply cost_throw|lia]|].
    rewrite <- (Nat.add_0_r (_ + 2)). apply cost_bind; [apply cost_realloc|intros; apply cost_set_elems].
Qed.
Lemma cost_leave_junk clk n m (s : VW) : xcost (leave_junk eo clk n m) s m.
Proof.
  unfold leave_junk. eapply cost_mono; [apply cost_bind; [apply cost_on_world, cost_vdie|intros; apply cost_set_elems]|]. lia.
Qed.
Lemma cost_shift d nt n m (s : VW) : xcost (shift_step eo d nt n m) s (d + m).
Proof.
  unfold shift_step. apply cost_bind; [apply cost_on_world, cost_work|]. intros s1 a1 _.
  destruct nt; [eapply cost_mono; [apply cost_ret|lia]|].
  eapply cost_mono; [apply cost_bind; [apply cost_on_world, cost_clock|]; intros;
    apply cost_try; [apply cost_on_world, cost_tick|intros; apply cost_leave_junk]|lia].
Qed.
Lemma cost_emplace k h x (s : VW) : let n := vsize (fst s) in
  xcost (vec_emplace eo k h x) s (if n <? v_cap (fst s) then n - k + 4 else 3 * n + 2).
Proof.
  intros n. unfold vec_emplace. apply cost_bind_getx. fold n. destruct (n <? k); [apply cost_ub|].
  destruct (k =? n).
  - eapply cost_mono; [apply cost_bind; [apply cost_emplace_back|intros; apply cost_ret]|]. fold n. destruct (n <? v_cap (fst s)); lia.
  - destruct (n <? v_cap (fst s)).
    + eapply cost_mono; [apply cost_bind; [apply cost_on_world, cost_construct|]; intros;
        apply cost_bind; [apply cost_shift|]; intros; apply cost_bind; [apply cost_set_elems|intros; apply cost_ret]|lia].
    + destruct (eo_max eo <=? n); [eapply cost_mono; [apply cost_throw|lia]|].
      eapply cost_mono; [apply cost_bind; [apply cost_realloc|]; intros;
        apply cost_bind; [apply cost_set_elems|intros; apply cost_ret]|]. fold n. lia.
Qed.
Lemma cost_insert_range k h xs (s : VW) : let n := vsize (fst s) in let m := length xs in
  xcost (vec_insert_range eo k h xs) s (if n + m <=? v_cap (fst s) then 3 * (n - k) + 8 * m else 4 * n + 4 * m).
Proof.
  intros n m. unfold vec_insert_range. apply cost_bind_getx. fold n. fold m.
  destruct (n <? k); [apply cost_ub|]. destruct (m =? 0); [eapply cost_mono; [apply cost_ret|lia]|].
  destruct (eo_max eo <? n + m); [eapply cost_mono; [apply cost_throw|lia]|].
  destruct (n + m <=? v_cap (fst s)).
  - eapply cost_mono; [apply cost_bind; [apply cost_on_world, cost_clock|]; intros; apply cost_bind;
      [apply cost_bind; [apply cost_try; [apply cost_on_world, cost_construct_n|]; intros;
         apply cost_bind; [apply cost_on_world, cost_vborn|intros; apply cost_leave_junk]|intros; apply cost_shift]|];
      intros; apply cost_bind; [apply cost_set_elems|intros; apply cost_ret]|]. destruct (m <? n - k) eqn:Q; [lia|].
    apply Nat.ltb_ge in Q. lia.
  - eapply cost_mono; [apply cost_bind; [apply cost_on_world, cost_clock|]; intros; apply cost_bind;
      [apply cost_bind; [apply cost_on_world, cost_alloc|]; intros; apply cost_bind;
        [apply cost_try; [apply cost_on_world; apply cost_bind; [apply cost_construct_n|]; intros;
            apply cost_try; [apply cost_relocate|intros; apply cost_vdie]|]; intros;
           apply cost_bind; [apply cost_on_world, cost_free|intros; apply cost_leave_junk]|]; intros;
           apply cost_bind; [apply cost_on_world, cost_dispose|intros; apply cost_setx]|]; intros;
      apply cost_bind; [apply cost_set_elems|intros; apply cost_ret]|]. fold n. lia.
Qed.

(** What is left when they return *)
Lemma on_world_ok {X B} (m : M world B) (s s' : X * world) b : on_world m s = Ok s' b -> fst s' = fst s.
Proof. unfold on_world. destruct (m (snd s)); intros H; inversion H; reflexivity. Qed.
Lemma realloc_ok n pre (s s' : VW) u : realloc eo n pre s = Ok s' u -> v_elems (fst s') = v_elems (fst s) /\ v_cap (fst s') = n.
Proof.
  unfold realloc, w_. intros H. unfold bind at 1, getx at 1 in H. inv_bind H. inv_bind H. inv_bind H.
  unfold setx in H. inversion H; subst. cbn. auto.
Qed.
Lemma reserve_ok n (s s' : VW) u : vec_reserve eo n s = Ok s' u ->
  v_elems (fst s') = v_elems (fst s) /\ n <= v_cap (fst s') /\ v_cap (fst s) <= v_cap (fst s').
Proof.
  unfold vec_reserve. intros H. unfold bind at 1, getx at 1 in H. destruct (eo_max eo <? n); [discriminate|].
  destruct (n <=? v_cap (fst s)) eqn:Q.
  - apply Nat.leb_le in Q. inversion H; subst. auto.
  - apply Nat.leb_gt in Q. apply realloc_ok in H. destruct H as (H1 & H2). rewrite H1, H2. csplit; auto. lia.
Qed.
Lemma emplace_back_ok h x (s s' : VW) u : vec_emplace_back eo h x s = Ok s' u ->
  v_elems (fst s') = v_elems (fst s) ++ [x] /\ (vsize (fst s) < v_cap (fst s) -> v_cap (fst s') = v_cap (fst s)).
Proof.
  unfold vec_emplace_back. intros H. unfold bind at 1, getx at 1 in H.
  destruct (vsize (fst s) <? v_cap (fst s)) eqn:Q.
  - inv_bind H. apply on_world_ok in Q0. unfold set_elems, modify in H. inversion H; subst. cbn. rewrite Q0. auto.
  - apply Nat.ltb_ge in Q. destruct (eo_max eo <=? _); [discriminate|]. inv_bind H.
    unfold set_elems, modify in H. inversion H; subst. cbn. split; auto. lia.
Qed.
Lemma clear_ok (s s' : VW) u : vec_clear eo s = Ok s' u -> v_elems (fst s') = [] /\ v_cap (fst s') = v_cap (fst s).
Proof.
  unfold vec_clear. intros H. unfold bind at 1, getx at 1 in H. inv_bind H. apply on_world_ok in Q.
  unfold set_elems, modify in H. inversion H; subst. cbn. rewrite Q. auto.
Qed.
Lemma cost_clear (s : VW) : xcost (vec_clear eo) s (vsize (fst s)).
Proof.
  unfold vec_clear. apply cost_bind_getx. eapply cost_mono; [apply cost_bind; [apply cost_on_world, cost_vdie|intros; apply cost_set_elems]|lia].
Qed.
Lemma cost_pop_back (s : VW) : xcost (vec_pop_back eo) s 1.
Proof.
  unfold vec_pop_back. apply cost_bind_getx. destruct (v_elems (fst s)); [apply cost_ub|].
  eapply cost_mono; [apply cost_bind; [apply cost_on_world, cost_vdie|intros; apply cost_set_elems]|lia].
Qed.
Lemma cost_shrink (s : VW) : xcost (vec_shrink_to_fit eo) s (3 * vsize (fst s) + 2).
Proof.
  unfold vec_shrink_to_fit. apply cost_bind_getx. rewrite <- (Nat.add_0_l (_ + 2)).
  apply cost_bind; [apply cost_on_world, cost_clock|]. intros s1 clk Q. apply on_world_ok in Q. rewrite <- Q.
  destruct (_ || _); [eapply cost_mono; [apply cost_ret|lia]|].
  destruct (vsize (fst s1) =? 0).
  - eapply cost_mono; [apply cost_bind; [apply cost_on_world, cost_dispose|intros; apply cost_setx]|lia].
  - destruct env_shrink_swallow; [|apply cost_realloc].
    pose proof (cost_realloc (vsize (fst s1)) None s1) as H. unfold cost in *. destruct (realloc eo _ None s1); auto.
Qed.
Lemma cost_copy x w : wcost (vec_copy eo x) w (2 * vsize x).
Proof.
  unfold vec_copy. destruct (vsize x =? 0); [eapply cost_mono; [apply cost_ret|lia]|].
  eapply cost_mono; [apply cost_bind; [apply cost_alloc|]; intros; apply cost_bind; [apply cost_try; [apply cost_construct_n|intros; apply cost_free]|
    intros; apply cost_ret]|lia].
Qed.
Lemma cost_move same (s : VW) : xcost (vec_move eo same) s (if same then 0 else 3 * vsize (fst s)).
Proof.
  unfold vec_move. apply cost_bind_getx. destruct same.
  - change 0 with (0 + 0). apply cost_bind; [apply cost_setx|intros; apply cost_ret].
  - destruct (vsize (fst s) =? 0); [eapply cost_mono; [apply cost_ret|lia]|].
    eapply cost_mono; [apply cost_bind; [apply cost_on_world, cost_clock|]; intros s1 a1 Q1; apply on_world_ok in Q1;
      apply cost_bind; [apply cost_on_world, cost_alloc|]; intros s2 a2 Q2; apply on_world_ok in Q2;
      apply cost_bind; [apply cost_try; [apply cost_on_world, cost_construct_n|]; intros;
        apply cost_bind; [apply cost_on_world, cost_free|intros; apply cost_leave_junk]|]; intros s3 a3 Q3;
      apply (cost_bind _ _ _ _ (vsize (fst s))); [apply cost_leave_junk|intros; apply cost_ret]|lia].
Qed.
End Cost.

(** ** Backends *)
Section CostB.
Context {V : Type} {E : Env V}.
Notation BW := (backend V * world)%type.
Notation isize b := (vsize (be_index b)).
Notation icap b := (v_cap (be_index b)).

Lemma on_store_ok {A} (m : M (vec V * world) A) (s s' : BW) a : on_store m s = Ok s' a ->
  exists v w, m (be_store (fst s), snd s) = Ok (v, w) a /\ s' = (mkbackend v (be_index (fst s)) (be_self (fst s)), w).
Proof.
  unfold on_store, on_field. destruct (m (be_store (fst s), snd s)) as [[v w] a'|[v w] e|]; intros H; inversion H; subst. eauto.
Qed.
Lemma on_index_ok {A} (m : M (vec ptr * world) A) (s s' : BW) a : on_index m s = Ok s' a ->
  exists v w, m (be_index (fst s), snd s) = Ok (v, w) a /\ s' = (mkbackend (be_store (fst s)) v (be_self (fst s)), w).
Proof.
  unfold on_index, on_field. destruct (m (be_index (fst s), snd s)) as [[v w] a'|[v w] e|]; intros H; inversion H; subst. eauto.
Qed.

Lemma push_entries_ok ns : forall (s s' : BW) u, sp_push_entries ns s = Ok s' u ->
  be_store (fst s') = be_store (fst s) /\ isize (fst s') = isize (fst s) + length ns /\
  (isize (fst s) + length ns <= icap (fst s) -> icap (fst s') = icap (fst s)).
Proof.
  induction ns as [|n ns IH]; intros s s' u H; cbn [sp_push_entries] in H.
  - inversion H; subst. cbn. csplit; auto.
  - unfold bind at 1, getx at 1 in H. inv_bind H. apply on_index_ok in Q. destruct Q as (v & w & Q & ->).
    apply emplace_back_ok in Q. cbn [fst] in Q. destruct Q as (Q1 & Q2). apply IH in H. cbn [fst be_store be_index length] in *.
    destruct H as (H1 & H2 & H3). unfold vsize in *. rewrite Q1, app_length in *. cbn [length] in *. csplit; auto; [lia|].
    intros R. rewrite H3, Q2; lia.
Qed.
Lemma cost_push_entries ns : forall (s : BW), isize (fst s) + length ns <= icap (fst s) -> xcost (sp_push_entries ns) s (length ns).
Proof.
  induction ns as [|n ns IH]; intros s R; cbn [sp_push_entries length] in *; [apply cost_ret|].
  apply cost_bind_getx. change (S (length ns)) with (1 + length ns). apply cost_bind.
  - apply cost_on_field. eapply cost_mono; [apply cost_emplace_back|]. cbn [fst].
    destruct (isize (fst s) <? icap (fst s)) eqn:Q; [lia|apply Nat.ltb_ge in Q; lia].
  - intros s1 a Q. apply on_index_ok in Q. destruct Q as (v & w & Q & ->). apply emplace_back_ok in Q. cbn [fst] in Q.
    destruct Q as (Q1 & Q2). apply IH. cbn [fst be_index]. unfold vsize in *. rewrite Q1, app_length, Q2 by lia. cbn [length]. lia.
Qed.
(** one entry, with or without room *)
Lemma cost_push_entry (s : BW) : xcost (sp_push_index_entry (V := V)) s (if isize (fst s) <? icap (fst s) then 1 else 3 * isize (fst s) + 2).
Proof.
  unfold sp_push_index_entry, sp_build_index. apply cost_bind_getx, cost_bind_getx.
  replace (S (vsize (be_store (fst s))) - vsize (be_store (fst s))) with 1 by lia. cbn [seq sp_push_entries].
  apply cost_bind_getx. eapply cost_mono; [apply cost_bind; [|intros; apply cost_ret]; apply cost_on_field, cost_emplace_back|].
  cbn [fst]. lia.
Qed.
Lemma rebuild_ok (s s' : BW) u : sp_rebuild_index s = Ok s' u ->
  be_store (fst s') = be_store (fst s) /\ isize (fst s') = S (bsize (fst s)) /\
  (S (bsize (fst s)) <= icap (fst s) -> icap (fst s') = icap (fst s)).
Proof.
  unfold sp_rebuild_index. intros H. inv_bind H. apply on_index_ok in Q. destruct Q as (v & w & Q & ->). apply clear_ok in Q.
  cbn [fst] in Q. destruct Q as (Q1 & Q2). unfold sp_build_index in H. unfold bind at 1, getx at 1 in H. cbn [fst be_store] in H.
  apply push_entries_ok in H. cbn [fst be_store be_index] in H. rewrite seq_length, Nat.sub_0_r in H.
  assert (Z : vsize v = 0) by (unfold vsize; rewrite Q1; reflexivity). rewrite Z, Q2 in H. exact H.
Qed.
Lemma cost_rebuild (s : BW) : S (bsize (fst s)) <= icap (fst s) -> xcost sp_rebuild_index s (isize (fst s) + S (bsize (fst s))).
Proof.
  intros R. unfold sp_rebuild_index. apply cost_bind; [apply cost_on_field, cost_clear|].
  intros s1 a Q. apply on_index_ok in Q. destruct Q as (v & w & Q & ->). apply clear_ok in Q. cbn [fst] in Q. destruct Q as (Q1 & Q2).
  unfold sp_build_index. apply cost_bind_getx. eapply cost_mono; [apply cost_push_entries|]; cbn [fst be_store be_index].
  - rewrite seq_length, Q2. unfold vsize at 1. rewrite Q1. cbn [length]. unfold bsize in R. lia.
  - rewrite seq_length. unfold bsize. lia.
Qed.
Lemma expand_cap_more vm n : n + 1 <= expand_cap vm n.
Proof.
  unfold expand_cap. destruct (n <=? 1) eqn:Q; cbn [orb]; [lia|]. apply Nat.leb_gt in Q.
  destruct (_ <? _); [lia|]. destruct n as [|[|n]]; cbn [Nat.div2]; lia.
Qed.
(** growing both vectors to hold [c] elements *)
Lemma cost_grow t c (s : BW) : bsize (fst s) <= c -> isize (fst s) = S (bsize (fst s)) ->
  xcost (on_index (vec_reserve ix_eops (c + 1)) ;; on_store (vec_reserve (vh_eops t) c) ;; sp_rebuild_index)%mon s
    (8 * bsize (fst s) + 9).
Proof.
  intros Hc Hi. eapply cost_mono; [apply cost_bind; [apply cost_on_field, cost_reserve|]; intros s1 a1 Q1;
    apply (cost_bind _ _ _ _ (3 * bsize (fst s) + 2) (isize (fst s) + S (bsize (fst s))))|].
  - apply on_index_ok in Q1. destruct Q1 as (v & w & Q1 & ->). apply cost_on_field. cbn [fst be_store]. eapply cost_mono; [apply cost_reserve|].
    cbn [fst]. unfold bsize. destruct (_ <=? _); lia.
  - intros s2 a2 Q2. apply on_index_ok in Q1. destruct Q1 as (v & w & Q1 & ->). apply on_store_ok in Q2. destruct Q2 as (v2 & w2 & Q2 & ->).
    cbn [fst snd be_store be_index] in *. apply reserve_ok in Q1. apply reserve_ok in Q2. cbn [fst] in *.
    destruct Q1 as (A1 & A2 & A3), Q2 as (B1 & B2 & B3). eapply cost_mono; [apply cost_rebuild|];
      unfold bsize in *; cbn [fst be_store be_index]; unfold vsize in *; rewrite ?A1, ?B1; lia.
  - cbn [fst]. unfold bsize in *. destruct (_ <=? _); lia.
Qed.
Lemma grow_ok t c (s s' : BW) u : bsize (fst s) <= c ->
  (on_index (vec_reserve ix_eops (c + 1)) ;; on_store (vec_reserve (vh_eops t) c) ;; sp_rebuild_index)%mon s = Ok s' u ->
  bsize (fst s') = bsize (fst s) /\ c <= bcap (fst s') /\ isize (fst s') = S (bsize (fst s)) /\ c < icap (fst s').
Proof.
  intros Hc H. inv_bind H. inv_bind H. apply on_index_ok in Q. destruct Q as (v & w & Q1 & ->). apply on_store_ok in Q0. destruct Q0 as (v2 & w2 & Q2 & ->).
  cbn [fst snd be_store be_index] in *. apply reserve_ok in Q1. apply reserve_ok in Q2. cbn [fst] in *.
  destruct Q1 as (A1 & A2 & A3), Q2 as (B1 & B2 & B3). apply rebuild_ok in H. unfold bsize, bcap, vsize in *. cbn [fst be_store be_index] in *.
  destruct H as (H1 & H2 & H3). rewrite H1, H2, B1 in *. csplit; auto. rewrite H3; lia.
Qed.

(** What the shape of a segment says about room in the index *)
Lemma split_room (b : backend V) : split_ok b -> bsize b < bcap b -> isize b = S (bsize b) /\ (isize b < icap b \/ bsize b = 0).
Proof.
  intros S L. pose proof (split_isize b S) as Hi. destruct S as (_ & _ & [R|(R & _)]); [|auto]. unfold roomy in R. split; auto. left. lia.
Qed.

(** the cost of inserting an element at index [k] *)
Definition ins_cost (b : backend V) (k : nat) : nat := if bsize b <? bcap b then bsize b - k + 9 else 9 * bsize b + 18.

Lemma cost_read_src h x (s : BW) : xcost (read_src h x) s 0.
Proof.
  unfold read_src. apply cost_bind_getx. destruct x as [v|[blk k]]; [apply cost_ret|].
  destruct (_ =? _); [|apply cost_ub]. destruct (nth_error _ k); [|apply cost_ub].
  change 0 with (0 + 0). apply cost_bind; [|intros; apply cost_ret]. destruct h; [apply cost_ret| |apply cost_ret].
  unfold xcost, moved_from, bw, on_world, on_store, on_field, clock, getx, setx, bind. cbn. lia.
Qed.
Lemma put_length {A} k (m : A) l : k < length l -> length (firstn k l ++ m :: skipn (S k) l) = length l.
Proof. intros H. rewrite app_length, firstn_length. change (length (m :: skipn (S k) l)) with (S (length (skipn (S k) l))). rewrite skipn_length. lia. Qed.
(** reading the source leaves all sizes and capacities *)
Definition like (b b' : backend V) : Prop := be_index b' = be_index b /\ bsize b' = bsize b /\ bcap b' = bcap b.
Lemma read_src_ok h x (s s' : BW) v : read_src h x s = Ok s' v -> like (fst s) (fst s').
Proof.
  unfold read_src. intros H. unfold bind at 1, getx at 1 in H. destruct x as [v'|[blk k]]; [inversion H; unfold like; auto|].
  destruct (_ =? _); [|discriminate]. destruct (nth_error _ k) as [u|] eqn:Hn; [|discriminate].
  destruct h; [inversion H; unfold like; auto| |inversion H; unfold like; auto].
  unfold moved_from, bw, on_world, on_store, on_field, clock, getx, setx, bind, ret in H. inversion H; subst. unfold like, bsize, bcap, vsize. cbn [fst snd be_store v_elems be_index v_cap v_blk]. csplit; auto.
  apply put_length. apply nth_error_Some. congruence.
Qed.
Lemma cost_pk_iterator_from p (s : BW) : xcost (pk_iterator_from p) s 0.
Proof. unfold pk_iterator_from. apply cost_bind_getx. destruct (_ =? _); [apply cost_ret|apply cost_ub]. Qed.
Lemma pk_iterator_from_ok p k (b : backend V) w s' j : env_layout = PackedLayout -> pos_at b p k -> pk_iterator_from p (b, w) = Ok s' j -> s' = (b, w) /\ j = k.
Proof.
  intros L P H. refine (wp_ok _ _ _ _ (fun s a => s = (b, w) /\ a = k) (fun _ _ => True) _ H). apply (wp_pk_iterator_from b p k); auto.
Qed.
Lemma cost_sp_iterator_from p (s : BW) : xcost (sp_iterator_from p) s 0.
Proof. unfold sp_iterator_from. apply cost_bind_getx. destruct p; (destruct (_ =? _); [apply cost_ret|apply cost_ub]). Qed.
Lemma sp_iterator_from_ok p k (b : backend V) w s' j : env_layout = SplitLayout -> pos_at b p k -> sp_iterator_from p (b, w) = Ok s' j -> s' = (b, w) /\ j = k.
Proof.
  intros L P H. refine (wp_ok _ _ _ _ (fun s a => s = (b, w) /\ a = k) (fun _ _ => True) _ H). apply (wp_sp_iterator_from b p k); auto.
Qed.
Lemma cost_sp_conc p (s : BW) : xcost (sp_conc p) s 0.
Proof.
  destruct p; cbn [sp_conc]; [|apply cost_ret]. change 0 with (0 + 0). apply cost_bind; [|intros; apply cost_ret].
  unfold sp_to_concrete. apply cost_bind_getx. destruct (_ =? _); [|apply cost_ub]. destruct (nth_error _ _); [apply cost_ret|apply cost_ub].
Qed.
Lemma sp_conc_ok p k (b : backend V) w s' q : env_layout = SplitLayout -> split_ok b -> k <= bsize b -> pos_at b p k ->
  sp_conc p (b, w) = Ok s' q -> s' = (b, w) /\ q = PConc (vptr (be_store b) k).
Proof.
  intros L S Hk P H. refine (wp_ok _ _ _ _ (fun s a => s = (b, w) /\ a = _) (fun _ _ => True) _ H). apply (wp_sp_conc b p k); auto.
Qed.
Lemma cost_pk_range n (s : BW) : xcost (pk_range_from n) s 0.
Proof. unfold pk_range_from. apply cost_bind_getx, cost_ret. Qed.
Lemma cost_sp_range n (s : BW) : xcost (sp_range_from n) s 0.
Proof. unfold sp_range_from. apply cost_bind_getx, cost_ret. Qed.

Lemma cost_pk_push_back t h x (b : backend V) w : xcost (pk_push_back t h x) (b, w) (ins_cost b (bsize b)).
Proof.
  unfold pk_push_back. apply cost_bind0; [apply cost_read_src|]. intros s1 v Q. apply read_src_ok in Q. destruct Q as (_ & Q1 & Q2). cbn [fst] in Q1, Q2. unfold bsize, bcap in Q1, Q2.
  eapply cost_mono; [apply cost_bind; [apply cost_on_field, cost_emplace_back|]; intros; apply cost_bind_getx, cost_pk_range|]. cbn [fst]. unfold ins_cost, bsize, bcap. rewrite Q1, Q2. destruct (_ <? _); lia.
Qed.
Lemma cost_pk_insert t h p k x (b : backend V) w : env_layout = PackedLayout -> pos_at b p k -> xcost (pk_insert t h p x) (b, w) (ins_cost b k).
Proof.
  intros L P. unfold pk_insert. apply cost_bind0; [apply cost_pk_iterator_from|]. intros s1 j Q1.
  apply (pk_iterator_from_ok p k) in Q1; auto. destruct Q1 as (-> & ->).
  apply cost_bind0; [apply cost_read_src|]. intros s2 v Q2. apply read_src_ok in Q2. destruct Q2 as (_ & Q1 & Q2). cbn [fst] in Q1, Q2. unfold bsize, bcap in Q1, Q2.
  eapply cost_mono; [apply cost_bind; [apply cost_on_field, cost_emplace|]; intros; apply cost_pk_range|].
  cbn [fst]. unfold ins_cost, bsize, bcap. rewrite Q1, Q2. destruct (_ <? _); lia.
Qed.

Lemma cost_expand t (s : BW) : isize (fst s) = S (bsize (fst s)) -> xcost (sp_expand t) s (8 * bsize (fst s) + 9).
Proof.
  intros Hi. unfold sp_expand. apply cost_bind_getx. apply cost_grow; auto.
  pose proof (expand_cap_more (env_vmax t) (bsize (fst s))) as X. unfold bsize in *. lia.
Qed.
Lemma expand_ok t (s s' : BW) u : sp_expand t s = Ok s' u ->
  bsize (fst s') = bsize (fst s) /\ bsize (fst s') < bcap (fst s') /\ isize (fst s') = S (bsize (fst s)) /\ isize (fst s') < icap (fst s').
Proof.
  intros H. pose proof (expand_cap_more (env_vmax t) (bsize (fst s))) as X. unfold sp_expand in H. unfold bind at 1, getx at 1 in H.
  apply grow_ok in H; [|unfold bsize in *; lia]. destruct H as (H1 & H2 & H3 & H4). unfold bsize in *. csplit; auto; lia.
Qed.
(** making room in the store, then placing the element and its index entry *)
Lemma cost_place t k h v (b : backend V) w : isize b < icap b \/ bsize b = 0 -> isize b = S (bsize b) -> bsize b < bcap b -> forall B (f : nat -> M BW B),
  (forall n s, xcost (f n) s 0) ->
  xcost (n <- on_store (vec_emplace (vh_eops t) k h v) ;; sp_push_index_entry ;; f n)%mon (b, w) (bsize b - k + 9).
Proof.
  intros R Hi Hc B f Hf. eapply cost_mono; [apply (cost_bind _ _ _ _ (bsize b - k + 4) 5); [apply cost_on_field; eapply cost_mono; [apply cost_emplace|]|]|lia].
  - cbn [fst]. unfold bsize, bcap in *. rewrite (proj2 (Nat.ltb_lt _ _) Hc). lia.
  - intros s1 n Q. apply on_store_ok in Q. destruct Q as (v1 & w1 & _ & ->). eapply cost_mono; [apply cost_bind; [apply cost_push_entry|intros; apply Hf]|].
    cbn [fst be_index]. destruct (isize b <? icap b) eqn:Q; [lia|]. apply Nat.ltb_ge in Q. lia.
Qed.
Lemma cost_sp_emplace t h p k x (b : backend V) w : env_layout = SplitLayout -> split_ok b -> bsize b <= bcap b -> pos_at b p k ->
  xcost (sp_emplace t h p x) (b, w) (ins_cost b k).
Proof.
  intros L S Hc P. unfold sp_emplace, sp_prereserve_at, ins_cost. pose proof (split_isize b S) as Hi.
  assert (PL : forall b1 q w1, pos_at b1 q k -> isize b1 < icap b1 \/ bsize b1 = 0 -> isize b1 = Datatypes.S (bsize b1) -> bsize b1 < bcap b1 ->
    xcost (k <- sp_iterator_from q ;; v <- read_src h x ;; n <- on_store (vec_emplace (vh_eops t) k h v) ;; sp_push_index_entry ;; sp_range_from n)%mon
      (b1, w1) (bsize b1 - k + 9)).
  { intros b1 q w1 P1 R1 I1 C1. apply cost_bind0; [apply cost_sp_iterator_from|]. intros s2 j Q2.
    apply (sp_iterator_from_ok q k) in Q2; auto. destruct Q2 as (-> & ->).
    apply cost_bind0; [apply cost_read_src|]. intros s3 v Q3. apply read_src_ok in Q3. destruct s3 as [b3 w3], Q3 as (Y1 & Y2 & Y3). cbn [fst] in *.
    rewrite <- Y2. apply cost_place; auto using cost_sp_range; rewrite ?Y1, ?Y2, ?Y3; auto. }
  destruct (bsize b <? bcap b) eqn:Q.
  - apply Nat.ltb_lt in Q. destruct (split_room b S Q) as (_ & R).
    apply cost_bind0.
    + apply cost_bind_getx. cbn [fst]. change (vsize (be_store b)) with (bsize b). change (v_cap (be_store b)) with (bcap b).
      rewrite (proj2 (Nat.eqb_neq _ _)) by lia. apply cost_ret.
    + intros s1 q Q1. unfold bind at 1, getx at 1 in Q1. cbn [fst] in Q1.
      change (vsize (be_store b)) with (bsize b) in Q1. change (v_cap (be_store b)) with (bcap b) in Q1.
      rewrite (proj2 (Nat.eqb_neq _ _)) in Q1 by lia. inversion Q1; subst. apply PL; auto.
  - apply Nat.ltb_ge in Q. eapply cost_mono; [apply (cost_bind _ _ _ _ (8 * bsize b + 9) (bsize b - k + 9))|lia].
    + apply cost_bind_getx. cbn [fst]. change (vsize (be_store b)) with (bsize b). change (v_cap (be_store b)) with (bcap b).
      rewrite (proj2 (Nat.eqb_eq _ _)) by lia. apply cost_bind0; [apply cost_sp_iterator_from|]. intros s1 j Q1.
      apply (sp_iterator_from_ok p k) in Q1; auto. destruct Q1 as (-> & ->). rewrite <- (Nat.add_0_r (_ + 9)).
      apply cost_bind; [apply cost_expand; auto|intros; apply cost_bind_getx, cost_ret].
    + intros s1 q Q1. unfold bind at 1, getx at 1 in Q1. cbn [fst] in Q1.
      change (vsize (be_store b)) with (bsize b) in Q1. change (v_cap (be_store b)) with (bcap b) in Q1.
      rewrite (proj2 (Nat.eqb_eq _ _)) in Q1 by lia. inv_bind Q1. apply (sp_iterator_from_ok p k) in Q0; auto. destruct Q0 as (-> & ->).
      inv_bind Q1. apply expand_ok in Q0. cbn [fst] in Q0. destruct Q0 as (X1 & X2 & X3 & X4). unfold bind at 1, getx at 1 in Q1.
      inversion Q1; subst. destruct s1 as [b1 w1]. cbn [fst] in *. eapply cost_mono; [apply PL|]; auto; try lia.
      destruct P as [->| ->]; [left; rewrite be_ptr_split by auto|right]; reflexivity.
Qed.
Lemma cost_sp_push_back t h x (b : backend V) w : env_layout = SplitLayout -> split_ok b -> bsize b <= bcap b ->
  xcost (sp_push_back t h x) (b, w) (ins_cost b (bsize b)).
Proof.
  intros L S Hc. unfold sp_push_back, sp_prereserve, ins_cost. pose proof (split_isize b S) as Hi.
  assert (PL : forall b1 w1, isize b1 < icap b1 \/ bsize b1 = 0 -> isize b1 = Datatypes.S (bsize b1) -> bsize b1 < bcap b1 ->
    xcost (v <- read_src h x ;; on_store (vec_emplace_back (vh_eops t) h v) ;; sp_push_index_entry ;; b <- getx ;; sp_range_from (vsize (be_store b) - 1))%mon
      (b1, w1) 6).
  { intros b1 w1 R1 I1 C1. apply cost_bind0; [apply cost_read_src|]. intros s3 v Q3. apply read_src_ok in Q3. destruct s3 as [b3 w3], Q3 as (Y1 & Y2 & Y3). cbn [fst] in *.
    rewrite <- Y1 in R1, I1. rewrite <- Y2 in R1, I1, C1. rewrite <- Y3 in C1.
    change 6 with (1 + 5). apply cost_bind; [apply cost_on_field; eapply cost_mono; [apply cost_emplace_back|]|].
    - cbn [fst]. unfold bsize, bcap in *. rewrite (proj2 (Nat.ltb_lt _ _) C1). lia.
    - intros s1 n Q. apply on_store_ok in Q. destruct Q as (v1 & w2 & _ & ->).
      eapply cost_mono; [apply cost_bind; [apply cost_push_entry|intros; apply cost_bind_getx, cost_sp_range]|].
      cbn [fst be_index]. destruct (isize b3 <? icap b3) eqn:Q; [lia|]. apply Nat.ltb_ge in Q. lia. }
  destruct (bsize b <? bcap b) eqn:Q.
  - apply Nat.ltb_lt in Q. destruct (split_room b S Q) as (_ & R). eapply cost_mono; [apply (cost_bind _ _ _ _ 0 6)|lia].
    + apply cost_bind_getx. cbn [fst]. change (vsize (be_store b)) with (bsize b). change (v_cap (be_store b)) with (bcap b).
      rewrite (proj2 (Nat.eqb_neq _ _)) by lia. apply cost_ret.
    + intros s1 q Q1. unfold bind at 1, getx at 1 in Q1. cbn [fst] in Q1.
      change (vsize (be_store b)) with (bsize b) in Q1. change (v_cap (be_store b)) with (bcap b) in Q1.
      rewrite (proj2 (Nat.eqb_neq _ _)) in Q1 by lia. inversion Q1; subst. apply PL; auto.
  - apply Nat.ltb_ge in Q. eapply cost_mono; [apply (cost_bind _ _ _ _ (8 * bsize b + 9) 6)|lia].
    + apply cost_bind_getx. cbn [fst]. change (vsize (be_store b)) with (bsize b). change (v_cap (be_store b)) with (bcap b).
      rewrite (proj2 (Nat.eqb_eq _ _)) by lia. apply cost_expand. exact Hi.
    + intros s1 q Q1. unfold bind at 1, getx at 1 in Q1. cbn [fst] in Q1.
      change (vsize (be_store b)) with (bsize b) in Q1. change (v_cap (be_store b)) with (bcap b) in Q1.
      rewrite (proj2 (Nat.eqb_eq _ _)) in Q1 by lia. apply expand_ok in Q1. cbn [fst] in Q1. destruct Q1 as (X1 & X2 & X3 & X4).
      destruct s1 as [b1 w1]. cbn [fst] in *. apply PL; auto; lia.
Qed.
End CostB.
