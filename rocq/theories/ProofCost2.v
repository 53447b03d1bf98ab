(** * How many element operations: segments and the map *)

From Coq Require Import List Arith Lia Bool Permutation.
From Verif Require Import Base Vec Backend Segment Coll ProofBase ProofVec ProofBackend ProofOps ProofOps2 ProofSeg ProofMap ProofCost.
Import ListNotations.

(** Amortised form: the operations performed are paid for by a decrease of [mu], up to [k]. *)
Definition pays {S A} (mu : S -> nat) (pr : S -> world) (m : M S A) (s : S) (k : nat) : Prop :=
  match m s with
  | Ok s' _ => w_work (pr s') + mu s' <= w_work (pr s) + mu s + k
  | Exn s' _ => w_work (pr s') + mu s' <= w_work (pr s) + mu s + k
  | UB => True
  end.
Notation xpays mu := (pays (fun s => mu (fst s)) snd).

Section Pays.
Lemma pays_mono {S A} mu (pr : S -> world) (m : M S A) s k k' : pays mu pr m s k -> k <= k' -> pays mu pr m s k'.
Proof. unfold pays. destruct (m s); auto; lia. Qed.
Lemma pays_ret {S A} mu (pr : S -> world) (a : A) s : pays mu pr (ret a) s 0.
Proof. unfold pays, ret. lia. Qed.
Lemma pays_ub {S A} mu (pr : S -> world) s k : pays mu pr (@ub S A) s k.
Proof. exact I. Qed.
Lemma pays_throw {S A} mu (pr : S -> world) e s : pays mu pr (@throw S A e) s 0.
Proof. unfold pays, throw. lia. Qed.
Lemma pays_bind {S A B} mu (pr : S -> world) (m : M S A) (f : A -> M S B) s k1 k2 :
  pays mu pr m s k1 -> (forall s' a, m s = Ok s' a -> pays mu pr (f a) s' k2) -> pays mu pr (bind m f) s (k1 + k2).
Proof.
  unfold pays, bind. destruct (m s) as [s' a|s' e|] eqn:Q; intros H1 H2; auto; [|lia].
  specialize (H2 _ _ eq_refl). destruct (f a s'); auto; lia.
Qed.
Lemma pays_bind0 {S A B} mu (pr : S -> world) (m : M S A) (f : A -> M S B) s k :
  pays mu pr m s 0 -> (forall s' a, m s = Ok s' a -> pays mu pr (f a) s' k) -> pays mu pr (bind m f) s k.
Proof. intros. apply (pays_bind _ _ _ _ _ 0 k); auto. Qed.
Lemma pays_bind_getx {X B} mu (f : X -> M (X * world) B) s k : pays mu snd (f (fst s)) s k -> pays mu snd (bind getx f) s k.
Proof. unfold pays, bind, getx. auto. Qed.

Context {V : Type} {E : Env V}.
Context {A : Type} (eo : eops A).
Notation VW := (vec A * world)%type.

(** erasing: the elements which go away are charged twice, those behind are assigned once *)
Lemma vdie_work n w w' u : vdie eo n w = Ok w' u -> w_work w' = w_work w + n.
Proof. unfold vdie, die, work. destruct (eo_obj eo); [destruct (_ <=? _)|]; intros H; inversion H; reflexivity. Qed.
Lemma vdie_exn n w w' e : vdie eo n w = Exn w' e -> False.
Proof. unfold vdie, die, work. destruct (eo_obj eo); [destruct (_ <=? _)|]; discriminate. Qed.

(** what happens to the size when elements are erased *)
Lemma erase_range_work f l (v : vec A) w : match vec_erase_range eo f l (v, w) with
  | Ok (v', w') _ => f <= l <= vsize v /\ vsize v' + (l - f) = vsize v /\ w_work w' <= w_work w + (vsize v - l) + (l - f)
  | Exn (v', w') _ => vsize v' = vsize v /\ w_work w' <= w_work w + (vsize v - l)
  | UB => True
  end.
Proof.
  unfold vec_erase_range. unfold bind at 1, getx at 1. cbn [fst].
  destruct ((l <? f) || (vsize v <? l)) eqn:Q; [exact I|]. apply orb_false_iff in Q. destruct Q as (Q1 & Q2).
  apply Nat.ltb_ge in Q1. apply Nat.ltb_ge in Q2. destruct (f =? l) eqn:Q3.
  - apply Nat.eqb_eq in Q3. cbn. csplit; lia.
  - unfold shift_step, w_. unfold bind at 1 2. unfold on_world at 1, work at 1. cbn [fst snd].
    set (w0 := mkworld _ _ _ _ _). assert (W0 : w_work w0 = w_work w + (vsize v - l)) by reflexivity. clearbody w0.
    assert (D : forall w1, w_work w1 = w_work w0 -> match (on_world (vdie eo (l - f)) ;; set_elems (remove_range f l (v_elems v)) ;; ret f)%mon (v, w1) with
      | Ok (v', w') _ => f <= l <= vsize v /\ vsize v' + (l - f) = vsize v /\ w_work w' <= w_work w + (vsize v - l) + (l - f)
      | Exn (v', w') _ => vsize v' = vsize v /\ w_work w' <= w_work w + (vsize v - l)
      | UB => True end).
    { intros w1 W1. unfold bind at 1. unfold on_world. cbn [fst snd]. destruct (vdie eo (l - f) w1) as [w2 u|w2 e|] eqn:D; [|destruct (vdie_exn _ _ _ _ D)|exact I].
      apply vdie_work in D. unfold bind, set_elems, modify, ret. cbn. csplit; auto; [|lia]. unfold vsize, remove_range in *. cbn.
      rewrite app_length, firstn_length, skipn_length. lia. }
    destruct (eo_assign_nt eo || (l =? vsize v)); [exact (D w0 eq_refl)|].
    unfold bind at 1. unfold on_world at 1, clock. cbn [fst snd]. unfold try_rethrow, on_world at 1. cbn [fst snd].
    unfold tick. destruct (env_fault (w_clock w0)).
    + unfold leave_junk, w_. rewrite Nat.add_0_r. unfold bind, on_world. cbn [fst snd].
      replace (vsize v - Nat.min (vsize v) (vsize v + eo_junk_len eo (w_clock w0))) with 0 by lia.
      set (w1 := mkworld _ _ _ _ _). assert (W1 : w_work w1 = w_work w0) by reflexivity. clearbody w1.
      destruct (vdie eo 0 w1) as [w2 u|w2 e|] eqn:D2; [|destruct (vdie_exn _ _ _ _ D2)|exact I]. apply vdie_work in D2.
      unfold set_elems, modify. cbn. split; [|lia]. unfold vsize, junk_list. cbn. rewrite map_length, seq_length. unfold vsize. lia.
    + exact (D (mkworld (w_next w0) (w_live w0) (w_objs w0) (S (w_clock w0)) (w_work w0)) eq_refl).
Qed.
End Pays.

(** ** Backends *)
Section CostE.
Context {V : Type} {E : Env V}.
Notation BW := (backend V * world)%type.
Notation isize b := (vsize (be_index b)).
Notation icap b := (v_cap (be_index b)).

Lemma pop_back_work (v : vec ptr) w : match vec_pop_back ix_eops (v, w) with
  | Ok (v', w') _ => w_work w' = S (w_work w) /\ S (vsize v') = vsize v
  | Exn _ _ => False
  | UB => True
  end.
Proof.
  unfold vec_pop_back. unfold bind at 1, getx. cbn [fst]. destruct (v_elems v) as [|e l] eqn:Q; [exact I|].
  unfold w_, bind, on_world. cbn [fst snd]. unfold vdie. cbn [eo_obj ix_eops]. unfold work, set_elems, modify. cbn [fst snd w_work].
  split; [lia|]. unfold vsize. cbn [v_elems]. rewrite Q. rewrite (app_removelast_last (l := e :: l) null) at 2 by discriminate.
  rewrite app_length. cbn [length]. lia.
Qed.
Lemma pop_entries_work n : forall (s : BW), match sp_pop_index_entry n s with
  | Ok s' _ => w_work (snd s') = w_work (snd s) + n /\ be_store (fst s') = be_store (fst s)
  | Exn _ _ => False
  | UB => True
  end.
Proof.
  induction n as [|n IH]; intros s; cbn [sp_pop_index_entry]; [cbn; split; [lia|reflexivity]|].
  unfold bind at 1. unfold on_index at 1, on_field at 1. pose proof (pop_back_work (be_index (fst s)) (snd s)) as P.
  destruct (vec_pop_back ix_eops (be_index (fst s), snd s)) as [[v' w'] u|[v' w'] e|]; [|destruct P|exact I].
  destruct P as (P1 & P2). specialize (IH (mkbackend (be_store (fst s)) v' (be_self (fst s)), w')).
  destruct (sp_pop_index_entry n _) as [s' u'|s' e|]; auto. cbn [fst snd be_store] in IH. destruct IH as (I1 & I2). split; [lia|exact I2].
Qed.

Notation mu := (fun b : backend V => 2 * bsize b).

Lemma on_store_erase t f l (s : BW) : match on_store (vec_erase_range (vh_eops t) f l) s with
  | Ok s' _ => f <= l <= bsize (fst s) /\ bsize (fst s') + (l - f) = bsize (fst s) /\ w_work (snd s') <= w_work (snd s) + (bsize (fst s) - l) + (l - f)
  | Exn s' _ => bsize (fst s') = bsize (fst s) /\ w_work (snd s') <= w_work (snd s) + (bsize (fst s) - l)
  | UB => True
  end.
Proof.
  unfold on_store, on_field. pose proof (erase_range_work (vh_eops t) f l (be_store (fst s)) (snd s)) as P.
  destruct (vec_erase_range _ _ _ _) as [[v w] a|[v w] e|]; auto.
Qed.
Lemma on_store_erase1 t k (s : BW) : match on_store (vec_erase (vh_eops t) k) s with
  | Ok s' _ => k < bsize (fst s) /\ bsize (fst s') + 1 = bsize (fst s) /\ w_work (snd s') <= w_work (snd s) + (bsize (fst s) - k)
  | Exn s' _ => bsize (fst s') = bsize (fst s) /\ S (w_work (snd s')) <= w_work (snd s) + (bsize (fst s) - k)
  | UB => True
  end.
Proof.
  unfold on_store, on_field, vec_erase. unfold bind at 1, getx. cbn [fst snd]. destruct (vsize (be_store (fst s)) <=? k) eqn:Q; [exact I|].
  apply Nat.leb_gt in Q. pose proof (erase_range_work (vh_eops t) k (S k) (be_store (fst s)) (snd s)) as P.
  destruct (vec_erase_range _ _ _ _) as [[v w] a|[v w] e|]; auto; cbn [fst snd]; unfold bsize; cbn [be_store]; csplit; lia.
Qed.

Lemma sp_conc_exn p (s s' : BW) e : sp_conc p s = Exn s' e -> False.
Proof.
  destruct p as [q|q]; cbn [sp_conc]; [|discriminate]. unfold sp_to_concrete. unfold bind, getx. destruct (fst q =? _); [|discriminate].
  destruct (nth_error _ (snd q)); discriminate.
Qed.
Lemma pays_be_erase t p k (b : backend V) w : wfb t b -> pos_at b p k -> k < bsize b -> xpays mu (be_erase t p) (b, w) (bsize b - k).
Proof.
  intros W P Hk. unfold be_erase. destruct env_layout eqn:L.
  - unfold pk_erase. unfold pays. unfold bind at 1. destruct (pk_iterator_from p (b, w)) as [s1 j|s1 e|] eqn:Q; [|exfalso|exact I].
    + apply (pk_iterator_from_ok p k) in Q; auto. destruct Q as (-> & ->). unfold bind at 1.
      pose proof (on_store_erase1 t k (b, w)) as R. destruct (on_store (vec_erase _ _) _) as [s2 n|s2 e|]; auto; unfold pk_range_from, bind, getx, ret; cbn [fst snd] in *; lia.
    + unfold pk_iterator_from, bind, getx in Q. destruct (_ =? _); discriminate.
  - pose proof (wfb_split t b L W) as Sp. unfold sp_erase. unfold pays. unfold bind at 1.
    destruct (sp_conc p (b, w)) as [s1 q|s1 e|] eqn:Q; [|exfalso|exact I].
    + apply (sp_conc_ok p k) in Q; auto; [|lia]. destruct Q as (-> & ->). unfold bind at 1.
      pose proof (pop_entries_work 1 (b, w)) as R. destruct (sp_pop_index_entry 1 (b, w)) as [s2 n|s2 e|]; [|destruct R|exact I].
      cbn [fst snd] in R. destruct R as (R1 & R2). unfold bind at 1. destruct s2 as [b2 w2]. cbn [fst snd] in *.
      unfold sp_iterator_from. unfold bind at 1, getx. cbn [fst]. rewrite R2. unfold vptr. cbn [fst snd]. rewrite Nat.eqb_refl. unfold ret at 1.
      unfold bind at 1. pose proof (on_store_erase1 t k (b2, w2)) as R. assert (Eb : bsize b2 = bsize b) by (unfold bsize; rewrite R2; reflexivity).
      destruct (on_store (vec_erase _ _) _) as [s3 n3|s3 e|]; auto; unfold sp_range_from, bind, getx, ret; cbn [fst snd] in *; rewrite Eb in R; lia.
    + exact (sp_conc_exn _ _ _ _ Q).
Qed.
Lemma pays_erase_idx t f l (b : backend V) w : xpays mu (sp_erase_idx t f l) (b, w) (bsize b - l).
Proof.
  unfold sp_erase_idx, pays. unfold bind at 1, getx at 1. unfold bind at 1. cbn [fst].
  pose proof (on_store_erase t f l (b, w)) as R. destruct (on_store _ _) as [s1 n|s1 e|]; [|cbn [fst snd] in *; lia|exact I].
  cbn [fst snd] in R. unfold bind at 1, getx at 1. unfold bind at 1.
  pose proof (pop_entries_work (vsize (be_store b) - vsize (be_store (fst s1))) s1) as P.
  destruct (sp_pop_index_entry _ s1) as [s2 u|s2 e|]; [|destruct P|exact I]. destruct P as (P1 & P2).
  unfold sp_range_from, bind, getx, ret. unfold bsize in *. rewrite P2. cbn [snd]. lia.
Qed.
Lemma pays_be_erase_range t p q f l (b : backend V) w : wfb t b -> pos_at b p f -> pos_at b q l -> f <= bsize b -> l <= bsize b ->
  xpays mu (be_erase_range t p q) (b, w) (bsize b - l).
Proof.
  intros W P P' Hf Hl. unfold be_erase_range. destruct env_layout eqn:L.
  - unfold pk_erase_range. unfold pays. unfold bind at 1. destruct (pk_iterator_from p (b, w)) as [s1 j|s1 e|] eqn:Q; [|exfalso|exact I].
    2: { unfold pk_iterator_from, bind, getx in Q. destruct (_ =? _); discriminate. }
    apply (pk_iterator_from_ok p f) in Q; auto. destruct Q as (-> & ->). unfold bind at 1.
    destruct (pk_iterator_from q (b, w)) as [s1 j|s1 e|] eqn:Q; [|exfalso|exact I].
    2: { unfold pk_iterator_from, bind, getx in Q. destruct (_ =? _); discriminate. }
    apply (pk_iterator_from_ok q l) in Q; auto. destruct Q as (-> & ->). unfold bind at 1.
    pose proof (on_store_erase t f l (b, w)) as R. destruct (on_store _ _) as [s2 n|s2 e|]; auto; unfold pk_range_from, bind, getx, ret; cbn [fst snd] in *; lia.
  - pose proof (wfb_split t b L W) as Sp. unfold sp_erase_range.
    apply pays_bind0; [|intros s1 q1 Q1; apply (sp_conc_ok p f) in Q1; auto; destruct Q1 as (-> & ->)].
    { unfold pays. destruct (sp_conc p (b, w)) as [s1 q1|s1 e|] eqn:Q; [|exfalso|exact I].
      - apply (sp_conc_ok p f) in Q; auto. destruct Q as (-> & ->). lia.
      - exact (sp_conc_exn _ _ _ _ Q). }
    apply pays_bind0; [|intros s1 q1 Q1; apply (sp_conc_ok q l) in Q1; auto; destruct Q1 as (-> & ->)].
    { unfold pays. destruct (sp_conc q (b, w)) as [s1 q1|s1 e|] eqn:Q; [|exfalso|exact I].
      - apply (sp_conc_ok q l) in Q; auto. destruct Q as (-> & ->). lia.
      - exact (sp_conc_exn _ _ _ _ Q). }
    unfold sp_iterator_from. unfold pays. unfold bind at 1 2, getx. cbn [fst]. unfold vptr. cbn [fst snd]. rewrite Nat.eqb_refl. unfold ret at 1.
    unfold bind at 1 2. cbn [fst snd]. rewrite Nat.eqb_refl. unfold ret at 1. apply pays_erase_idx.
Qed.
Lemma pays_be_erase_till_end t p f (b : backend V) w : pos_at b p f -> xpays mu (be_erase_till_end t p) (b, w) 0.
Proof.
  intros P. unfold be_erase_till_end. destruct env_layout eqn:L.
  - unfold pk_erase_till_end. unfold pays. unfold bind at 1. destruct (pk_iterator_from p (b, w)) as [s1 j|s1 e|] eqn:Q; [|exfalso|exact I].
    2: { unfold pk_iterator_from, bind, getx in Q. destruct (_ =? _); discriminate. }
    apply (pk_iterator_from_ok p f) in Q; auto. destruct Q as (-> & ->). unfold bind at 1, getx at 1. unfold bind at 1. cbn [fst].
    pose proof (on_store_erase t f (bsize b) (b, w)) as R. unfold bsize in *. destruct (on_store _ _) as [s2 n|s2 e|]; auto; unfold pk_range_from, bind, getx, ret; cbn [fst snd] in *; lia.
  - unfold sp_erase_till_end. unfold pays. unfold bind at 1. destruct (sp_iterator_from p (b, w)) as [s1 j|s1 e|] eqn:Q; [|exfalso|exact I].
    2: { unfold sp_iterator_from, bind, getx in Q. destruct p; (destruct (_ =? _); discriminate). }
    apply (sp_iterator_from_ok p f) in Q; auto. destruct Q as (-> & ->). unfold bind at 1, getx at 1. cbn [fst].
    pose proof (pays_erase_idx t f (bsize b) b w) as R. unfold pays, bsize in *. rewrite Nat.sub_diag in R. exact R.
Qed.
Lemma pays_be_erase_from_begin t p l (b : backend V) w : pos_at b p l -> xpays mu (be_erase_from_begin t p) (b, w) (bsize b - l).
Proof.
  intros P. unfold be_erase_from_begin. destruct env_layout eqn:L.
  - unfold pk_erase_from_begin. unfold pays. unfold bind at 1. destruct (pk_iterator_from p (b, w)) as [s1 j|s1 e|] eqn:Q; [|exfalso|exact I].
    2: { unfold pk_iterator_from, bind, getx in Q. destruct (_ =? _); discriminate. }
    apply (pk_iterator_from_ok p l) in Q; auto. destruct Q as (-> & ->). unfold bind at 1. cbn [fst].
    pose proof (on_store_erase t 0 l (b, w)) as R. destruct (on_store _ _) as [s2 n|s2 e|]; auto; unfold pk_range_from, bind, getx, ret; cbn [fst snd] in *; lia.
  - unfold sp_erase_from_begin. unfold pays. unfold bind at 1. destruct (sp_iterator_from p (b, w)) as [s1 j|s1 e|] eqn:Q; [|exfalso|exact I].
    2: { unfold sp_iterator_from, bind, getx in Q. destruct p; (destruct (_ =? _); discriminate). }
    apply (sp_iterator_from_ok p l) in Q; auto. destruct Q as (-> & ->). apply pays_erase_idx.
Qed.
Lemma on_store_clear t (s : BW) : match on_store (vec_clear (vh_eops t)) s with
  | Ok s' _ => bsize (fst s') = 0 /\ be_index (fst s') = be_index (fst s) /\ w_work (snd s') = w_work (snd s) + bsize (fst s)
  | Exn _ _ => False
  | UB => True
  end.
Proof.
  unfold on_store, on_field, vec_clear. unfold bind at 1, getx. cbn [fst]. unfold bind, w_, on_world. cbn [fst snd].
  destruct (vdie _ _ (snd s)) as [w1 u|w1 e|] eqn:D; [|destruct (vdie_exn _ _ _ _ _ D)|exact I]. apply vdie_work in D.
  unfold set_elems, modify. cbn. unfold bsize in *. csplit; auto.
Qed.
Lemma pays_be_clear t (b : backend V) w : wfb t b -> xpays mu (be_clear t) (b, w) 0.
Proof.
  intros W. unfold be_clear. pose proof (on_store_clear t (b, w)) as R. destruct env_layout eqn:L.
  - unfold pk_clear, pays. unfold bind at 1. destruct (on_store _ _) as [s1 u|s1 e|]; [|destruct R|exact I]. unfold pk_sentinel, bind, getx, ret.
    cbn [fst snd] in *. lia.
  - pose proof (split_isize b (wfb_split t b L W)) as Hi. unfold sp_clear, pays. unfold bind at 1. destruct (on_store _ _) as [s1 u|s1 e|]; [|destruct R|exact I].
    cbn [fst snd] in R. destruct R as (R1 & R2 & R3). unfold bind at 1, getx at 1. unfold bind at 1. rewrite R2, Hi.
    pose proof (pop_entries_work (S (bsize b) - 1) s1) as P. destruct (sp_pop_index_entry _ s1) as [s2 u'|s2 e|]; [|destruct P|exact I].
    unfold sp_sentinel, bind, getx, ret. cbn [fst snd]. destruct P as (P1 & P2). unfold bsize in *. rewrite P2. lia.
Qed.

(** ** Insertion *)
Lemma cost_be_push_back t h x (b : backend V) w : wfb t b -> xcost (be_push_back t h x) (b, w) (ins_cost b (bsize b)).
Proof.
  intros W. unfold be_push_back. destruct env_layout eqn:L; [apply cost_pk_push_back|].
  apply cost_sp_push_back; auto; [apply (wfb_split t b L W)|]. exact (wfv_size _ _ (wfb_store _ _ (wfb_0 _ _ W))).
Qed.
Lemma cost_be_emplace t h p k x (b : backend V) w : wfb t b -> pos_at b p k -> xcost (be_emplace t h p x) (b, w) (ins_cost b k).
Proof.
  intros W P. unfold be_emplace. destruct env_layout eqn:L; [apply cost_pk_insert; auto|].
  apply cost_sp_emplace; auto; [apply (wfb_split t b L W)|]. exact (wfv_size _ _ (wfb_store _ _ (wfb_0 _ _ W))).
Qed.
Lemma cost_be_insert t h p k x (b : backend V) w : wfb t b -> pos_at b p k -> k <= bsize b -> xcost (be_insert t h p x) (b, w) (ins_cost b k).
Proof.
  intros W P Hk. unfold be_insert. destruct env_layout eqn:L; [apply cost_pk_insert; auto|].
  pose proof (wfb_split t b L W) as Sp. unfold sp_insert. apply cost_bind0; [apply cost_sp_conc|].
  intros s1 q Q. apply (sp_conc_ok p k) in Q; auto. destruct Q as (-> & ->). apply cost_sp_emplace; auto; [|right; reflexivity].
  exact (wfv_size _ _ (wfb_store _ _ (wfb_0 _ _ W))).
Qed.

(** ** reserve *)
Lemma cost_be_reserve t m (b : backend V) w : wfb t b -> xcost (be_reserve t m) (b, w) (if m <=? bcap b then 5 else 8 * bsize b + 9).
Proof.
  intros W. unfold be_reserve. destruct env_layout eqn:L.
  - unfold pk_reserve. eapply cost_mono; [apply cost_bind; [apply cost_on_field, cost_reserve|intros; apply cost_bind_getx, cost_ret]|].
    cbn [fst]. unfold bsize, bcap. destruct (_ <=? _); lia.
  - pose proof (wfb_split t b L W) as Sp. pose proof (split_isize b Sp) as Hi. unfold sp_reserve. apply cost_bind_getx. cbn [fst].
    change (v_cap (be_store b)) with (bcap b). destruct (m <=? bcap b) eqn:Q.
    + apply Nat.leb_le in Q. rewrite (proj2 (Nat.ltb_ge _ _) Q).
      eapply cost_mono; [apply (cost_bind _ _ _ _ 5 0); [apply cost_on_field; eapply cost_mono; [apply cost_reserve|]|]|lia].
      * cbn [fst]. destruct (m + 1 <=? icap b) eqn:R; [lia|]. apply Nat.leb_gt in R. destruct Sp as (_ & _ & [X|(X & Y)]); unfold roomy, bcap, bsize in *; lia.
      * intros s1 u Q1. apply on_index_ok in Q1. destruct Q1 as (v & w1 & Q1 & ->). change 0 with (0 + 0). apply cost_bind.
        -- apply cost_on_field. eapply cost_mono; [apply cost_reserve|]. cbn [fst be_store]. unfold bcap in Q. rewrite (proj2 (Nat.leb_le _ _) Q). lia.
        -- intros. change 0 with (0 + 0). apply cost_bind; [apply cost_ret|intros; apply cost_bind_getx, cost_ret].
    + apply Nat.leb_gt in Q. rewrite (proj2 (Nat.ltb_lt _ _) Q).
      assert (A : xcost ((on_index (vec_reserve ix_eops (m + 1)) ;; on_store (vec_reserve (vh_eops t) m) ;; sp_rebuild_index) ;; sp_sentinel)%mon (b, w) (8 * bsize b + 9)).
      { rewrite <- (Nat.add_0_r (_ + 9)). apply cost_bind; [|intros; apply cost_bind_getx, cost_ret].
        apply (cost_grow t m (b, w)); auto. pose proof (wfv_size _ _ (wfb_store _ _ (wfb_0 _ _ W))) as X. unfold bsize, bcap in *. cbn [fst]. lia. }
      revert A. unfold cost, bind. destruct (on_index _ (b, w)); auto. destruct (on_store _ _); auto.
Qed.
End CostE.
