(** * Insertion into reserved room allocates nothing *)

From Coq Require Import List Arith Lia Bool Permutation.
From Verif Require Import Base Vec Backend Segment Coll Spec SpecRoom Reach ProofBase ProofVec ProofBackend ProofOps ProofOps2 ProofSeg ProofMap ProofView
  ProofColl ProofIns ProofRange ProofReach ProofObs ProofProp ProofProp2 ProofProp3 ProofProp4 ProofProp5 ProofCost ProofCost2 ProofCost3 ProofCost4 ProofCost7.
Import ListNotations.

Definition still {S A} (pr : S -> world) (m : M S A) (s : S) : Prop :=
  match m s with
  | Ok s' _ => same_memory (pr s) (pr s')
  | Exn s' e => same_memory (pr s) (pr s') /\ not_memory e
  | UB => True
  end.
Notation wstill := (still wid).
Notation xstill := (still snd).

Section Still.
Lemma sm_refl w : same_memory w w.
Proof. split; reflexivity. Qed.
Lemma sm_trans w w1 w2 : same_memory w w1 -> same_memory w1 w2 -> same_memory w w2.
Proof. intros (A & B) (C & D). split; congruence. Qed.
Lemma not_memory_user : not_memory UserExn.
Proof. split; discriminate. Qed.
Lemma still_ret {S A} (pr : S -> world) (a : A) s : still pr (ret a) s.
Proof. apply sm_refl. Qed.
Lemma still_throw {S A} (pr : S -> world) e s : not_memory e -> still pr (@throw S A e) s.
Proof. split; [apply sm_refl|auto]. Qed.
Lemma still_ub {S A} (pr : S -> world) s : still pr (@ub S A) s.
Proof. exact I. Qed.
Lemma still_bind {S A B} (pr : S -> world) (m : M S A) (f : A -> M S B) s :
  still pr m s -> (forall s' a, m s = Ok s' a -> still pr (f a) s') -> still pr (bind m f) s.
Proof.
  unfold still, bind. destruct (m s) as [s' a|s' e|] eqn:Q; intros H1 H2; auto.
  specialize (H2 _ _ eq_refl). destruct (f a s') as [s2 b|s2 e|]; auto; [|destruct H2; split; auto]; eapply sm_trans; eauto.
Qed.
Lemma still_try {S A} (pr : S -> world) (m : M S A) h s :
  still pr m s -> (forall s' e, m s = Exn s' e -> still pr h s') -> still pr (try_rethrow m h) s.
Proof.
  unfold still, try_rethrow. destruct (m s) as [s' a|s' e|] eqn:Q; intros H1 H2; auto.
  specialize (H2 _ _ eq_refl). destruct H1 as (H1 & H3). destruct (h s') as [s2 b|s2 e2|]; auto; [split; auto|destruct H2; split; auto]; eapply sm_trans; eauto.
Qed.
Lemma still_on_world {X A} (m : M world A) (s : X * world) : wstill m (snd s) -> xstill (on_world m) s.
Proof. unfold still, on_world. destruct (m (snd s)); auto. Qed.
Lemma still_on_field {X Y A} (p : X -> Y) u (m : M (Y * world) A) s : xstill m (p (fst s), snd s) -> xstill (on_field p u m) s.
Proof. unfold still, on_field. cbn [snd]. destruct (m (p (fst s), snd s)) as [[y w] a|[y w] e|]; auto. Qed.
Lemma still_bind_getx {X B} (f : X -> M (X * world) B) s : xstill (f (fst s)) s -> xstill (bind getx f) s.
Proof. unfold still, bind, getx. auto. Qed.

Context {V : Type} {E : Env V}.
Lemma still_user w : wstill (tick UserExn) w.
Proof. unfold still, tick. destruct (env_fault _); cbn; [split; [split; reflexivity|apply not_memory_user]|split; reflexivity]. Qed.
Lemma still_clock w : wstill clock w.
Proof. apply sm_refl. Qed.

Context {A : Type} (eo : eops A).
Context (Ref : forall e, eo_refuse eo = Some e -> not_memory e).
Notation VW := (vec A * world)%type.

Lemma still_vborn n w : wstill (vborn eo n) w.
Proof. unfold vborn. destruct (eo_obj eo); unfold still, born, work; cbn; split; reflexivity. Qed.
Lemma still_vdie n w : wstill (vdie eo n) w.
Proof. unfold vdie. destruct (eo_obj eo); unfold still, die, work; [destruct (_ <=? _)|]; cbn; auto; split; reflexivity. Qed.
Lemma still_construct h w : wstill (construct eo h) w.
Proof.
  unfold construct. apply still_bind; [|intros; apply still_vborn].
  destruct h; [destruct (eo_refuse eo) eqn:Q; [apply still_throw; auto|destruct (eo_copy_nt eo)]|destruct (eo_move_nt eo)|];
    auto using still_ret, still_user.
Qed.
Lemma still_construct_n h n : forall w, wstill (construct_n eo h n) w.
Proof.
  induction n as [|n IH]; intros w; cbn [construct_n]; [apply still_ret|].
  apply still_bind; [apply still_construct|intros; apply still_try; [apply IH|intros; apply still_vdie]].
Qed.
Lemma still_set_elems l (s : VW) : xstill (set_elems l) s.
Proof. unfold still, set_elems, modify. cbn. split; reflexivity. Qed.
Lemma still_emplace_back h x (s : VW) : vsize (fst s) < v_cap (fst s) -> xstill (vec_emplace_back eo h x) s.
Proof.
  intros R. unfold vec_emplace_back. apply still_bind_getx. rewrite (proj2 (Nat.ltb_lt _ _) R).
  apply still_bind; [apply still_on_world, still_construct|intros; apply still_set_elems].
Qed.
Lemma still_leave_junk clk n m (s : VW) : xstill (leave_junk eo clk n m) s.
Proof. unfold leave_junk. apply still_bind; [apply still_on_world, still_vdie|intros; apply still_set_elems]. Qed.
Lemma still_shift d nt n m (s : VW) : xstill (shift_step eo d nt n m) s.
Proof.
  unfold shift_step. apply still_bind; [apply still_on_world; split; reflexivity|]. intros. destruct nt; [apply still_ret|].
  apply still_bind; [apply still_on_world, still_clock|]. intros. apply still_try; [apply still_on_world, still_user|intros; apply still_leave_junk].
Qed.
Lemma still_emplace k h x (s : VW) : vsize (fst s) < v_cap (fst s) -> xstill (vec_emplace eo k h x) s.
Proof.
  intros R. unfold vec_emplace. apply still_bind_getx. destruct (_ <? k); [apply still_ub|]. destruct (k =? _).
  { apply still_bind; [apply still_emplace_back; auto|intros; apply still_ret]. }
  rewrite (proj2 (Nat.ltb_lt _ _) R). apply still_bind; [apply still_on_world, still_construct|]. intros.
  apply still_bind; [apply still_shift|]. intros. apply still_bind; [apply still_set_elems|intros; apply still_ret].
Qed.
Lemma still_insert_range k h xs (s : VW) : vsize (fst s) + length xs <= v_cap (fst s) -> v_cap (fst s) <= eo_max eo -> xstill (vec_insert_range eo k h xs) s.
Proof.
  intros R Mx. unfold vec_insert_range. apply still_bind_getx. destruct (_ <? k); [apply still_ub|]. destruct (_ =? 0); [apply still_ret|].
  rewrite (proj2 (Nat.ltb_ge _ _)) by lia. apply still_bind; [apply still_on_world, still_clock|]. intros. rewrite (proj2 (Nat.leb_le _ _) R).
  apply still_bind.
  - apply still_bind; [|intros; apply still_shift]. apply still_try; [apply still_on_world, still_construct_n|]. intros.
    apply still_bind; [apply still_on_world, still_vborn|intros; apply still_leave_junk].
  - intros. apply still_bind; [apply still_set_elems|intros; apply still_ret].
Qed.
Lemma still_erase_range f l (s : VW) : xstill (vec_erase_range eo f l) s.
Proof.
  unfold vec_erase_range. apply still_bind_getx. destruct (_ || _); [apply still_ub|]. destruct (_ =? _); [apply still_ret|].
  apply still_bind; [apply still_shift|]. intros. apply still_bind; [apply still_on_world, still_vdie|]. intros.
  apply still_bind; [apply still_set_elems|intros; apply still_ret].
Qed.
Lemma still_erase k (s : VW) : xstill (vec_erase eo k) s.
Proof. unfold vec_erase. apply still_bind_getx. destruct (_ <=? _); [apply still_ub|apply still_erase_range]. Qed.
Lemma still_clear (s : VW) : xstill (vec_clear eo) s.
Proof. unfold vec_clear. apply still_bind_getx. apply still_bind; [apply still_on_world, still_vdie|intros; apply still_set_elems]. Qed.
Lemma still_pop_back (s : VW) : xstill (vec_pop_back eo) s.
Proof.
  unfold vec_pop_back. apply still_bind_getx. destruct (v_elems (fst s)); [apply still_ub|].
  apply still_bind; [apply still_on_world, still_vdie|intros; apply still_set_elems].
Qed.

(** sizes after range insertion into room, also when it throws *)
Lemma leave_junk_size clk n m (s : VW) : match leave_junk eo clk n m s with
  | Ok s' _ => n <= vsize (fst s') <= n + m /\ v_cap (fst s') = v_cap (fst s)
  | Exn _ _ => False
  | UB => True end.
Proof.
  unfold leave_junk, bind, on_world, w_. destruct s as [v w]. cbn [fst snd]. unfold on_world. cbn [fst snd].
  destruct (vdie eo _ w) as [w1 u|w1 e|] eqn:D; [|destruct (vdie_exn _ _ _ _ _ D)|exact I].
  unfold set_elems, modify. cbn. unfold vsize. cbn [v_elems]. unfold junk_list. rewrite map_length, seq_length. lia.
Qed.

Lemma shift_size d nt n m (s : VW) : vsize (fst s) = n -> match shift_step eo d nt n m s with
  | Ok s' _ => fst s' = fst s
  | Exn s' _ => n <= vsize (fst s') <= n + m
  | UB => True end.
Proof.
  intros Hn. unfold shift_step, w_. unfold bind at 1, on_world at 1, work. cbn [fst snd]. destruct nt; [reflexivity|].
  unfold bind, on_world at 1, clock. cbn [fst snd]. unfold try_rethrow, on_world, tick. cbn [fst snd]. destruct (env_fault _); [|reflexivity].
  match goal with |- context [leave_junk eo ?k n m ?s1] => pose proof (leave_junk_size k n m s1) as J; destruct (leave_junk eo k n m s1) as [s2 u|s2 e|] end; auto.
  - apply J.
  - destruct J.
Qed.
Lemma insert_range_size k h xs (s : VW) : vsize (fst s) + length xs <= v_cap (fst s) -> v_cap (fst s) <= eo_max eo ->
  match vec_insert_range eo k h xs s with
  | Ok s' _ => vsize (fst s') <= vsize (fst s) + length xs
  | Exn s' _ => vsize (fst s) <= vsize (fst s') <= vsize (fst s) + length xs
  | UB => True end.
Proof.
  intros R Mx. unfold vec_insert_range. unfold bind at 1, getx. cbn [fst]. destruct s as [v w]. cbn [fst] in *.
  destruct (vsize v <? k) eqn:Qk; [exact I|]. apply Nat.ltb_ge in Qk. destruct (length xs =? 0) eqn:Q0; [unfold ret; cbn; lia|].
  rewrite (proj2 (Nat.ltb_ge _ _)) by lia. unfold bind at 1, w_ at 1, on_world at 1, clock. cbn [fst snd]. rewrite (proj2 (Nat.leb_le _ _) R).
  unfold bind at 1. unfold bind at 1. unfold try_rethrow at 1, w_ at 1, on_world at 1. cbn [fst snd].
  destruct (construct_n eo h (length xs) w) as [w1 u|w1 e|] eqn:C; [| |exact I].
  - match goal with |- context [shift_step eo ?d ?nt ?n ?m ?s1] => pose proof (shift_size d nt n m s1 eq_refl) as J; destruct (shift_step eo d nt n m s1) as [s2 u2|s2 e2|] end; auto.
    unfold bind, set_elems, modify, ret. cbn. unfold vsize in *. cbn [v_elems]. rewrite insert_list_at_length. lia.
  - unfold bind at 1, w_ at 1, on_world at 1. cbn [fst snd]. destruct (vborn eo (length xs) w1) as [w2 u2|w2 e2|] eqn:B; [| |exact I].
    + match goal with |- context [leave_junk eo ?k ?n ?m ?s1] => pose proof (leave_junk_size k n m s1) as J; destruct (leave_junk eo k n m s1) as [s2 u3|s2 e3|] end; auto.
      * apply J.
      * destruct J.
    + unfold vborn, born, work in B. destruct (eo_obj eo); discriminate.
Qed.
End Still.

(** ** Backends *)
Section StillB.
Context {V : Type} {E : Env V}.
Notation BW := (backend V * world)%type.
Notation isize b := (vsize (be_index b)).
Notation icap b := (v_cap (be_index b)).

Lemma ref_vh t e : eo_refuse (vh_eops t) = Some e -> not_memory e.
Proof. cbn. destruct (env_copyable t); intros H; inversion H; split; discriminate. Qed.
Lemma ref_ix e : eo_refuse ix_eops = Some e -> not_memory e.
Proof. discriminate. Qed.

(** room for [m] more elements, in the index too *)
Definition broom (b : backend V) (m : nat) : Prop :=
  bsize b + m <= bcap b /\ (env_layout = SplitLayout -> isize b = S (bsize b) /\ isize b + m <= icap b).
Lemma broom_of t b m : wfb t b -> bsize b + m <= bcap b -> (env_layout = SplitLayout -> 2 <= bcap b) -> broom b m.
Proof.
  intros W Hm H2. split; auto. intros L. specialize (H2 L). pose proof (wfb_split t b L W) as Sp. pose proof (split_isize b Sp) as Hi.
  split; auto. destruct Sp as (_ & _ & [R|(_ & C)]); [unfold roomy in R|]; lia.
Qed.

Lemma still_read_src h x (s : BW) : xstill (read_src h x) s.
Proof.
  unfold read_src. apply still_bind_getx. destruct x as [v|[blk k]]; [apply still_ret|].
  destruct (_ =? _); [|apply still_ub]. destruct (nth_error _ k); [|apply still_ub].
  apply still_bind; [|intros; apply still_ret]. destruct h; [apply still_ret| |apply still_ret].
  unfold still, moved_from, bw, on_world, on_store, on_field, clock, getx, setx, bind. cbn. split; reflexivity.
Qed.
Lemma still_pk_iterator p (s : BW) : xstill (pk_iterator_from p) s.
Proof. unfold pk_iterator_from. apply still_bind_getx. destruct (_ =? _); [apply still_ret|apply still_ub]. Qed.
Lemma still_sp_iterator p (s : BW) : xstill (sp_iterator_from p) s.
Proof. unfold sp_iterator_from. apply still_bind_getx. destruct p; (destruct (_ =? _); [apply still_ret|apply still_ub]). Qed.
Lemma sp_iterator_same p (s s1 : BW) k : sp_iterator_from p s = Ok s1 k -> s1 = s.
Proof. unfold sp_iterator_from, bind, getx. destruct p; (destruct (_ =? _); intros H; inversion H; auto). Qed.
Lemma still_sp_conc p (s : BW) : xstill (sp_conc p) s.
Proof.
  unfold sp_conc. destruct p; [|apply still_ret]. apply still_bind; [|intros; apply still_ret]. unfold sp_to_concrete. apply still_bind_getx.
  destruct (_ =? _); [|apply still_ub]. destruct (nth_error _ _); [apply still_ret|apply still_ub].
Qed.
Lemma still_pk_range n (s : BW) : xstill (pk_range_from n) s.
Proof. apply still_bind_getx, still_ret. Qed.
Lemma still_sp_range n (s : BW) : xstill (sp_range_from n) s.
Proof. apply still_bind_getx, still_ret. Qed.
Lemma still_push_entries ns : forall (s : BW), isize (fst s) + length ns <= icap (fst s) -> xstill (sp_push_entries ns) s.
Proof.
  induction ns as [|n ns IH]; intros s R; cbn [sp_push_entries length] in *; [apply still_ret|]. apply still_bind_getx.
  apply still_bind; [apply still_on_field, still_emplace_back; [exact ref_ix|cbn [fst]; lia]|]. intros s1 u Q. apply on_index_ok in Q. destruct Q as (v & w & Q & ->).
  apply emplace_back_ok in Q. cbn [fst] in Q. destruct Q as (Q1 & Q2). apply IH. cbn [fst be_index]. unfold vsize in *. rewrite Q1, app_length. cbn [length].
  rewrite Q2; lia.
Qed.
Lemma still_build st (s : BW) : isize (fst s) + (S (bsize (fst s)) - st) <= icap (fst s) -> xstill (sp_build_index st) s.
Proof. intros R. unfold sp_build_index. apply still_bind_getx. apply still_push_entries. rewrite seq_length. exact R. Qed.
Lemma still_push_entry (s : BW) : isize (fst s) < icap (fst s) -> xstill sp_push_index_entry s.
Proof. intros R. unfold sp_push_index_entry. apply still_bind_getx. apply still_build. unfold bsize. lia. Qed.

Lemma read_broom h x (s s' : BW) v m : read_src h x s = Ok s' v -> broom (fst s) m -> broom (fst s') m.
Proof. intros Q (A & B). apply read_src_ok in Q. destruct Q as (Y1 & Y2 & Y3). unfold broom. rewrite Y1, Y2, Y3. auto. Qed.
Lemma store_index {A} (m : M (vec V * world) A) (s s' : BW) a : on_store m s = Ok s' a -> be_index (fst s') = be_index (fst s).
Proof. intros Q. apply on_store_ok in Q. destruct Q as (v & w & _ & ->). reflexivity. Qed.

Lemma still_be_push_back t h x (s : BW) : broom (fst s) 1 -> xstill (be_push_back t h x) s.
Proof.
  intros R. unfold be_push_back. destruct env_layout eqn:L.
  - unfold pk_push_back. apply still_bind; [apply still_read_src|]. intros s1 v Q. apply (read_broom _ _ _ _ _ 1) in Q; auto. destruct Q as (Q & _).
    apply still_bind; [apply still_on_field, still_emplace_back; [apply ref_vh|unfold bsize, bcap in *; cbn [fst]; lia]|].
    intros. apply still_bind_getx, still_pk_range.
  - unfold sp_push_back. apply still_bind.
    { unfold sp_prereserve. apply still_bind_getx. destruct R as (R & _). unfold bsize, bcap in R. rewrite (proj2 (Nat.eqb_neq _ _)) by lia. apply still_ret. }
    intros s1 [] Q1. assert (s1 = s); [|subst s1].
    { unfold sp_prereserve in Q1. unfold bind, getx in Q1. destruct R as (R & _). unfold bsize, bcap in R. rewrite (proj2 (Nat.eqb_neq _ _)) in Q1 by lia. inversion Q1. auto. }
    apply still_bind; [apply still_read_src|]. intros s1 v Q. apply (read_broom _ _ _ _ _ 1) in Q; auto. destruct Q as (Q & Qi). destruct (Qi L) as (_ & Qi').
    apply still_bind; [apply still_on_field, still_emplace_back; [apply ref_vh|unfold bsize, bcap in *; cbn [fst]; lia]|]. intros s2 u Q2. apply store_index in Q2.
    apply still_bind; [apply still_push_entry; rewrite Q2; lia|]. intros. apply still_bind_getx, still_sp_range.
Qed.
Lemma still_pk_insert t h p x (s : BW) : bsize (fst s) < bcap (fst s) -> xstill (pk_insert t h p x) s.
Proof.
  intros R. unfold pk_insert. apply still_bind; [apply still_pk_iterator|]. intros s1 k Q1. assert (s1 = s); [|subst s1].
  { unfold pk_iterator_from, bind, getx in Q1. destruct (_ =? _); inversion Q1; auto. }
  apply still_bind; [apply still_read_src|]. intros s1 v Q. apply read_src_ok in Q. destruct Q as (_ & Y1 & Y2).
  apply still_bind; [apply still_on_field, still_emplace; [apply ref_vh|unfold bsize, bcap in *; cbn [fst]; lia]|]. intros. apply still_pk_range.
Qed.
Lemma still_sp_emplace t h p x (s : BW) : env_layout = SplitLayout -> broom (fst s) 1 -> xstill (sp_emplace t h p x) s.
Proof.
  intros L R. unfold sp_emplace. assert (Ne : vsize (be_store (fst s)) =? v_cap (be_store (fst s)) = false).
  { apply Nat.eqb_neq. destruct R as (R & _). unfold bsize, bcap in R. lia. }
  apply still_bind; [unfold sp_prereserve_at; apply still_bind_getx; rewrite Ne; apply still_ret|]. intros s1 q Q1. assert (s1 = s); [|subst s1].
  { unfold sp_prereserve_at, bind, getx in Q1. rewrite Ne in Q1. inversion Q1; auto. }
  apply still_bind; [apply still_sp_iterator|]. intros s1 k Q2. assert (s1 = s); [|subst s1].
  { exact (sp_iterator_same _ _ _ _ Q2). }
  apply still_bind; [apply still_read_src|]. intros s1 v Q. apply (read_broom _ _ _ _ _ 1) in Q; auto. destruct Q as (Q & Qi). destruct (Qi L) as (_ & Qi').
  apply still_bind; [apply still_on_field, still_emplace; [apply ref_vh|unfold bsize, bcap in *; cbn [fst]; lia]|]. intros s2 u Q3. apply store_index in Q3.
  apply still_bind; [apply still_push_entry; rewrite Q3; lia|]. intros. apply still_sp_range.
Qed.
Lemma still_be_emplace t h p x (s : BW) : broom (fst s) 1 -> xstill (be_emplace t h p x) s.
Proof. intros R. unfold be_emplace. destruct env_layout eqn:L; [apply still_pk_insert; destruct R; lia|apply still_sp_emplace; auto]. Qed.
Lemma sp_conc_same p (s s1 : BW) q : sp_conc p s = Ok s1 q -> s1 = s.
Proof.
  unfold sp_conc. destruct p; [|intros H; inversion H; auto]. unfold sp_to_concrete, bind, getx. destruct (_ =? _); [|discriminate].
  destruct (nth_error _ _); intros H; inversion H; auto.
Qed.
Lemma still_be_insert t h p x (s : BW) : broom (fst s) 1 -> xstill (be_insert t h p x) s.
Proof.
  intros R. unfold be_insert. destruct env_layout eqn:L; [apply still_pk_insert; destruct R; lia|]. unfold sp_insert.
  apply still_bind; [apply still_sp_conc|]. intros s1 q Q. apply sp_conc_same in Q. subst s1. apply still_sp_emplace; auto.
Qed.
Lemma still_append_forward t h xs (s : BW) : broom (fst s) (length xs) -> bcap (fst s) <= env_vmax t -> xstill (be_append_range t h true xs) s.
Proof.
  intros R Mx. unfold be_append_range. apply still_bind_getx. destruct env_layout eqn:L.
  - unfold pk_insert_range. apply still_bind; [apply still_pk_iterator|]. intros s1 k Q1. assert (s1 = s); [|subst s1].
    { unfold pk_iterator_from, bind, getx in Q1. destruct (_ =? _); inversion Q1; auto. }
    apply still_bind; [apply still_on_field, still_insert_range; [apply ref_vh| |]; cbn [fst]; [apply R|exact Mx]|]. intros. apply still_pk_range.
  - unfold sp_insert_forward. apply still_bind_getx. set (p := PConc _). destruct R as (R & Ri). destruct (Ri L) as (Hi & Hr). clear Ri. unfold bsize, bcap in *.
    assert (Fit : v_cap (be_store (fst s)) <? vsize (be_store (fst s)) + length xs = false) by (apply Nat.ltb_ge; lia).
    apply still_bind.
    + destruct (length xs =? 0); [apply still_ret|]. apply still_bind; [unfold sp_prereserve_n; apply still_bind_getx; rewrite Fit; apply still_ret|].
      intros s1 q Q1. assert (s1 = s); [|subst s1]. { unfold sp_prereserve_n, bind, getx in Q1. rewrite Fit in Q1. inversion Q1; auto. }
      apply still_bind; [apply still_sp_iterator|]. intros s1 k Q2. assert (s1 = s); [|subst s1].
      { exact (sp_iterator_same _ _ _ _ Q2). }
      pose proof (insert_range_size (vh_eops t) k h xs (be_store (fst s), snd s) R Mx) as Sz. cbn [fst] in Sz.
      apply still_bind.
      * apply still_try; [apply still_on_field, still_insert_range; [apply ref_vh|exact R|exact Mx]|]. intros s1 e Q3. unfold on_store, on_field in Q3.
        destruct (vec_insert_range _ _ _ _ _) as [[v1 w1] u1|[v1 w1] e1|]; inversion Q3; subst. apply still_build. unfold bsize. cbn [fst be_store be_index] in *. lia.
      * intros s1 n Q3. assert (Z : isize (fst s1) + (S (bsize (fst s1)) - (vsize (be_store (fst s)) + 1)) <= icap (fst s1)).
        { unfold try_rethrow, on_store, on_field in Q3. destruct (vec_insert_range _ _ _ _ _) as [[v1 w1] u1|[v1 w1] e1|]; inversion Q3; subst.
          - unfold bsize. cbn [fst be_store be_index] in *. lia.
          - destruct (sp_build_index _ _); discriminate. }
        apply still_bind; [apply still_build; exact Z|intros; apply still_ret].
    + intros. apply still_bind; [apply still_sp_iterator|intros; apply still_sp_range].
Qed.

(** erasure: no conditions *)
Lemma still_pop n : forall (s : BW), xstill (sp_pop_index_entry n) s.
Proof.
  induction n as [|n IH]; intros s; cbn [sp_pop_index_entry]; [apply still_ret|]. apply still_bind; [apply still_on_field, still_pop_back|intros; apply IH].
Qed.
Lemma still_be_erase t p (s : BW) : xstill (be_erase t p) s.
Proof.
  unfold be_erase. destruct env_layout.
  - unfold pk_erase. apply still_bind; [apply still_pk_iterator|]. intros. apply still_bind; [apply still_on_field, still_erase|intros; apply still_pk_range].
  - unfold sp_erase. apply still_bind; [apply still_sp_conc|]. intros. apply still_bind; [apply still_pop|]. intros. apply still_bind; [apply still_sp_iterator|]. intros.
    apply still_bind; [apply still_on_field, still_erase|intros; apply still_sp_range].
Qed.
Lemma still_erase_idx t f l (s : BW) : xstill (sp_erase_idx t f l) s.
Proof.
  unfold sp_erase_idx. apply still_bind_getx. apply still_bind; [apply still_on_field, still_erase_range|]. intros. apply still_bind_getx.
  apply still_bind; [apply still_pop|intros; apply still_sp_range].
Qed.
Lemma still_be_erase_range t p q (s : BW) : xstill (be_erase_range t p q) s.
Proof.
  unfold be_erase_range. destruct env_layout.
  - unfold pk_erase_range. apply still_bind; [apply still_pk_iterator|]. intros. apply still_bind; [apply still_pk_iterator|]. intros.
    apply still_bind; [apply still_on_field, still_erase_range|intros; apply still_pk_range].
  - unfold sp_erase_range. do 2 (apply still_bind; [apply still_sp_conc|]; intros). do 2 (apply still_bind; [apply still_sp_iterator|]; intros). apply still_erase_idx.
Qed.
Lemma still_be_till_end t p (s : BW) : xstill (be_erase_till_end t p) s.
Proof.
  unfold be_erase_till_end. destruct env_layout.
  - unfold pk_erase_till_end. apply still_bind; [apply still_pk_iterator|]. intros. apply still_bind_getx.
    apply still_bind; [apply still_on_field, still_erase_range|intros; apply still_pk_range].
  - unfold sp_erase_till_end. apply still_bind; [apply still_sp_iterator|]. intros. apply still_bind_getx. apply still_erase_idx.
Qed.
Lemma still_be_from_begin t p (s : BW) : xstill (be_erase_from_begin t p) s.
Proof.
  unfold be_erase_from_begin. destruct env_layout.
  - unfold pk_erase_from_begin. apply still_bind; [apply still_pk_iterator|]. intros.
    apply still_bind; [apply still_on_field, still_erase_range|intros; apply still_pk_range].
  - unfold sp_erase_from_begin. apply still_bind; [apply still_sp_iterator|]. intros. apply still_erase_idx.
Qed.
Lemma still_be_clear t (s : BW) : xstill (be_clear t) s.
Proof.
  unfold be_clear. destruct env_layout.
  - unfold pk_clear. apply still_bind; [apply still_on_field, still_clear|intros; apply still_bind_getx, still_ret].
  - unfold sp_clear. apply still_bind; [apply still_on_field, still_clear|]. intros. apply still_bind_getx.
    apply still_bind; [apply still_pop|intros; apply still_bind_getx, still_ret].
Qed.

(** ** Segments and collections *)
Notation SW := (segment V * world)%type.
Notation CW := (coll V * world)%type.
Lemma still_filter_snt m (s : SW) : xstill m (sg_be (fst s), snd s) -> xstill (filter_snt m) s.
Proof. intros H. unfold filter_snt. apply still_bind; [apply still_on_field; exact H|]. intros. unfold still, set_snt, modify. cbn. split; reflexivity. Qed.
Lemma still_filter_range m (s : SW) : xstill m (sg_be (fst s), snd s) -> xstill (filter_range m) s.
Proof.
  intros H. unfold filter_range. apply still_bind; [apply still_on_field; exact H|]. intros. apply still_bind; [|intros; apply still_ret].
  unfold still, set_snt, modify. cbn. split; reflexivity.
Qed.
Lemma still_check {A} t (m : M SW A) (s : SW) : (sg_ty (fst s) = t -> xstill m s) -> xstill (check_ty t ;; m)%mon s.
Proof.
  intros H. unfold check_ty. unfold still. unfold bind at 1 2, getx. destruct (sg_ty (fst s) =? t) eqn:Q; [|exact I]. apply Nat.eqb_eq in Q. apply H, Q.
Qed.
Lemma still_on_seg {A} i (m : M SW A) (c : coll V) w : (forall n, node_at (c_nodes c) i = Some n -> xstill m (n_seg n, w)) -> xstill (on_seg i m) (c, w).
Proof.
  intros H. unfold still, on_seg. destruct (node_at (c_nodes c) i) as [n|] eqn:Q; [|exact I]. specialize (H _ eq_refl). unfold still in H.
  destruct (m (n_seg n, w)) as [[sg w'] a|[sg w'] e|]; auto.
Qed.
Lemma still_mk_iter m p (s : CW) : xstill (mk_iter m p) s.
Proof. unfold mk_iter. apply still_bind_getx. destruct (it_make _ _ _); [apply still_ret|apply still_ub]. Qed.
Lemma still_same_node m i (s : CW) : xstill (same_node m i) s.
Proof. unfold same_node. destruct m; [|apply still_ret]. apply still_bind_getx. destruct (node_at _ _); [apply still_ret|apply still_ub]. Qed.
Lemma same_node_same m i (s s1 : CW) b : same_node m i s = Ok s1 b -> s1 = s.
Proof. unfold same_node. destruct m; [|intros H; inversion H; auto]. unfold bind, getx. destruct (node_at _ _); intros H; inversion H; auto. Qed.
Lemma still_void {A} (m : M CW A) s : xstill m s -> xstill (void m) s.
Proof. unfold still, void. intros H. unfold bind, ret. destruct (m s); auto. Qed.
Lemma still_on_seg_any {A} i (m : M SW A) (s : CW) : (forall sw, xstill m sw) -> xstill (on_seg i m) s.
Proof. intros H. destruct s as [c w]. apply still_on_seg. auto. Qed.
Lemma still_by_info a (s : CW) : xstill (map_iterator_by_info a) s.
Proof. unfold map_iterator_by_info. apply still_bind_getx. destruct (tim_find_const _ _); [apply still_ret|apply still_throw]. split; discriminate. Qed.
Lemma still_seg_erase p (s : SW) : xstill (seg_erase p) s.
Proof. unfold seg_erase. apply still_bind_getx. apply still_filter_range, still_be_erase. Qed.
Lemma still_seg_erase_range p q (s : SW) : xstill (seg_erase_range p q) s.
Proof. unfold seg_erase_range. apply still_bind_getx. apply still_filter_range, still_be_erase_range. Qed.
Lemma still_seg_till_end p (s : SW) : xstill (seg_erase_till_end p) s.
Proof. unfold seg_erase_till_end. apply still_bind_getx. apply still_filter_range, still_be_till_end. Qed.
Lemma still_seg_from_begin p (s : SW) : xstill (seg_erase_from_begin p) s.
Proof. unfold seg_erase_from_begin. apply still_bind_getx. apply still_filter_range, still_be_from_begin. Qed.
Lemma still_seg_clear (s : SW) : xstill seg_clear s.
Proof. unfold seg_clear. apply still_bind_getx. apply still_filter_snt, still_be_clear. Qed.
Lemma still_each ids : forall (s : CW), xstill (for_each_node ids seg_clear) s.
Proof. induction ids as [|i ids IH]; intros s; cbn [for_each_node]; [apply still_ret|]. apply still_bind; [apply still_on_seg_any, still_seg_clear|intros; apply IH]. Qed.
Lemma still_clear_until ids l : forall (s : CW), xstill (clear_until ids l) s.
Proof.
  induction ids as [|i ids IH]; intros s; cbn [clear_until]; [destruct l; [apply still_ub|apply still_ret]|]. destruct (mapit_eqb _ _); [apply still_ret|].
  apply still_bind; [apply still_on_seg_any, still_seg_clear|intros; apply IH].
Qed.
Lemma still_c_erase pos (s : CW) : xstill (c_erase pos) s.
Proof. unfold c_erase. destruct (it_map pos); [|apply still_ub]. apply still_bind; [apply still_on_seg_any, still_seg_erase|intros; apply still_mk_iter]. Qed.
Lemma still_c_erase_local pos (s : CW) : xstill (c_erase_local pos) s.
Proof. unfold c_erase_local. apply still_bind; [apply still_on_seg_any, still_seg_erase|intros; apply still_ret]. Qed.
Lemma still_c_erase_local_range f l (s : CW) : xstill (c_erase_local_range f l) s.
Proof. unfold c_erase_local_range. destruct (_ =? _); [|apply still_ub]. apply still_bind; [apply still_on_seg_any, still_seg_erase_range|intros; apply still_ret]. Qed.
Lemma still_c_erase_range f l (s : CW) : xstill (c_erase_range f l) s.
Proof.
  unfold c_erase_range. destruct (negb _).
  - destruct (it_map f) as [fi|]; [|apply still_ub]. apply still_bind; [apply still_on_seg_any, still_seg_till_end|]. intros. apply still_bind_getx.
    destruct (nodes_from _ _) as [[|n ns]|]; try apply still_ub. apply still_bind; [apply still_clear_until|]. intros.
    destruct (it_map l); [|apply still_bind_getx, still_ret]. apply still_bind; [apply still_on_seg_any, still_seg_from_begin|intros; apply still_mk_iter].
  - destruct (it_eq _ _); [apply still_mk_iter|]. destruct (it_map f); [|apply still_ub].
    apply still_bind; [apply still_on_seg_any, still_seg_erase_range|intros; apply still_mk_iter].
Qed.

(** look-up *)
Lemma known_cached w c a : wfm w c -> known c a -> exists i, cached c a i.
Proof. intros W (m & H). destruct (wm_cache _ _ W _ _ H) as (i & -> & _). exists i. exact H. Qed.
Lemma cached_node w c a i n : wfm w c -> cached c a i -> node_at (c_nodes c) i = Some n -> n_ty n = env_ty a.
Proof.
  intros W C Ha. destruct (wm_cache _ _ W _ _ C) as (j & Ej & Mf). inversion Ej; subst j. destruct (map_find_some _ _ _ Mf) as (n' & Hin & Ei & Ek).
  rewrite <- Ei in Ha. rewrite (node_at_some _ _ (wm_ids _ _ W) Hin) in Ha. inversion Ha; subst n'. rewrite <- Ek.
  pose proof (wm_key _ _ W) as A. rewrite Forall_forall in A. symmetry. auto.
Qed.
End StillB.

(** ** Calls *)
Section StillC.
Context {V : Type} {E : Env V}.
Notation CW := (coll V * world)%type.
Notation SW := (segment V * world)%type.
Notation nb n := (sg_be (n_seg n)).

Lemma room_node w c l n i : wfc w c -> node_at (c_nodes c) i = Some n -> room c l -> In (n_ty n) (map fst l) ->
  broom (nb n) (length (of_type (n_ty n) l)) /\ bcap (nb n) <= env_vmax (n_ty n).
Proof.
  intros W Ha R It. destruct (node_at_in _ _ _ Ha) as (Hin & _). destruct (node_cap _ _ _ W Hin) as (Cp & Sz). destruct (R _ It) as (R1 & R2).
  rewrite Cp, Sz in R1. rewrite Cp in R2. pose proof (all_wfs _ _ _ _ W Ha) as Ws. pose proof (wfs_be _ Ws) as Wb. split; [eapply broom_of; eauto|].
  exact (wfv_max _ _ (wfb_store _ _ (wfb_0 _ _ Wb))).
Qed.
Lemma room_node1 w c t v n i : wfc w c -> node_at (c_nodes c) i = Some n -> room c [(t, v)] -> n_ty n = t -> broom (nb n) 1.
Proof.
  intros W Ha R <-. destruct (room_node _ _ _ _ _ W Ha R) as (B & _); [left; reflexivity|].
  unfold of_type in B. cbn [filter fst] in B. rewrite Nat.eqb_refl in B. exact B.
Qed.
Lemma still_seg_push_back t h x (s : SW) : broom (sg_be (fst s)) 1 -> xstill (seg_push_back t h x) s.
Proof. intros R. apply still_check. intros _. apply still_filter_range, still_be_push_back, R. Qed.
Lemma still_seg_emplace t h p x (s : SW) : broom (sg_be (fst s)) 1 -> xstill (seg_emplace t h p x) s.
Proof. intros R. apply still_check. intros _. apply still_filter_range, still_be_emplace, R. Qed.
Lemma still_seg_insert t h p x (s : SW) : broom (sg_be (fst s)) 1 -> xstill (seg_insert t h p x) s.
Proof. intros R. apply still_check. intros _. apply still_filter_range, still_be_insert, R. Qed.

(** the look-up of an argument leads to the segment of its type and changes nothing *)
Lemma known_arg_find w c x : wfm w c -> arg_ok x -> known_arg c x ->
  exists i, (forall w', map_iterator_for x (c, w') = Ok (c, w') i) /\ forall n, node_at (c_nodes c) i = Some n -> n_ty n = env_ty (a_dyn x).
Proof.
  intros W Ok K. unfold known_arg in K. unfold map_iterator_for. destruct (a_acceptable x).
  - destruct (a_terminal x) eqn:T.
    + destruct (known_cached _ _ _ W K) as (i & C). exists i. split; [intros; apply cached_find, C|].
      intros n Ha. rewrite <- (Ok T). eapply cached_node; eauto.
    + destruct (known_cached _ _ _ W K) as (i & C). exists i. split; [|intros n Ha; eapply cached_node; eauto].
      intros w'. unfold tim_find, bind, getx. cbn [fst]. rewrite C. reflexivity.
  - assert (Ex : exists i, map_find (c_nodes c) (a_dyn x) = Some i).
    { destruct (map_find (c_nodes c) (a_dyn x)) as [i|] eqn:Q; [eauto|]. exfalso. rewrite types_nodes in K. apply in_map_iff in K. destruct K as (n & Et & Hin).
      apply (proj1 (map_find_none _ _) Q n Hin). pose proof (wm_key _ _ W) as A. rewrite Forall_forall in A. rewrite <- Et. apply A, Hin. }
    destruct Ex as (i & Q). exists i. split.
    + intros w'. unfold bind, getx. cbn [fst]. rewrite (cache_transparent w c _ W), Q. reflexivity.
    + intros n Ha. destruct (map_find_some _ _ _ Q) as (n' & Hin & Ei & Ek). rewrite <- Ei in Ha. rewrite (node_at_some _ _ (wm_ids _ _ W) Hin) in Ha.
      inversion Ha; subst n'. pose proof (wm_key _ _ W) as A. rewrite Forall_forall in A. rewrite <- Ek. symmetry. apply A, Hin.
Qed.

Lemma light_still w c g d m l : reach w (c :: g) d -> light c m l -> room c l -> xstill m (c, w).
Proof.
  intros H Lt R. destruct (reach_wf _ _ _ _ H) as (W & _). pose proof (wc_map _ _ W) as Wm. destruct Lt.
  - apply still_void. unfold c_emplace. destruct (known_cached _ _ _ Wm H0) as (i & C). unfold still. unfold bind at 1. rewrite (cached_find _ _ _ w C).
    apply still_bind; [|intros; apply still_mk_iter]. apply still_on_seg. intros n Ha. apply still_seg_push_back.
    eapply room_node1; eauto. eapply cached_node; eauto.
  - apply still_void. unfold c_emplace_hint. destruct (known_cached _ _ _ Wm H0) as (i' & C). unfold still. unfold bind at 1. rewrite (cached_find _ _ _ w C).
    apply still_bind; [apply still_same_node|]. intros s1 b Q. apply same_node_same in Q. subst s1.
    assert (B : forall n, node_at (c_nodes c) i' = Some n -> broom (nb n) 1) by (intros n Ha; eapply room_node1; eauto; eapply cached_node; eauto).
    apply still_bind; [|intros; apply still_mk_iter]. destruct b; apply still_on_seg; intros n Ha; [apply still_seg_emplace|apply still_seg_push_back]; apply B, Ha.
  - apply still_void. unfold c_emplace_pos. destruct (lpoints_node _ _ _ _ H0 (wm_ids _ _ Wm)) as (n0 & _ & Ha0 & _ & Et & _).
    apply still_bind; [|intros; apply still_ret]. apply still_on_seg. intros n Ha. rewrite Ha0 in Ha. inversion Ha; subst n0. apply still_seg_emplace. eapply room_node1; eauto.
  - apply still_void. unfold c_insert. destruct (known_arg_find _ _ _ Wm H1 H0) as (i & Q & Ty). unfold still. unfold bind at 1. rewrite (Q w).
    apply still_bind; [|intros; apply still_mk_iter]. apply still_on_seg. intros n Ha. apply still_seg_push_back. eapply room_node1; eauto.
  - apply still_void. unfold c_insert_hint. destruct (known_arg_find _ _ _ Wm H4 H0) as (i' & Q & Ty). unfold still. unfold bind at 1. rewrite (Q w).
    apply still_bind; [apply still_same_node|]. intros s1 b Q1. apply same_node_same in Q1. subst s1.
    assert (B : forall n, node_at (c_nodes c) i' = Some n -> broom (nb n) 1) by (intros n Ha; eapply room_node1; eauto).
    apply still_bind; [|intros; apply still_mk_iter]. destruct b; apply still_on_seg; intros n Ha; [apply still_seg_insert|apply still_seg_push_back]; apply B, Ha.
  - apply still_void. unfold c_insert_pos. destruct (lpoints_node _ _ _ _ H0 (wm_ids _ _ Wm)) as (n0 & _ & Ha0 & _ & Et & _).
    apply still_bind; [|intros; apply still_ret]. apply still_on_seg. intros n Ha. rewrite Ha0 in Ha. inversion Ha; subst n0. apply still_seg_insert. eapply room_node1; eauto.
  - unfold c_insert_range_terminal. destruct xs as [|x xs]; [apply still_ret|]. destruct (known_cached _ _ _ Wm H0) as (i & C).
    unfold still. unfold bind at 1. rewrite (cached_find _ _ _ w C). apply still_bind; [|intros; apply still_ret]. apply still_on_seg. intros n Ha.
    assert (Ty : n_ty n = env_ty a) by (eapply cached_node; eauto). destruct (room_node _ _ _ _ _ W Ha R) as (B & Mx); [rewrite Ty; left; reflexivity|].
    rewrite Ty, of_type_same in B. rewrite Ty in Mx. apply still_check. intros _. apply still_filter_range, still_append_forward; [exact B|exact Mx].
  - apply still_void, still_c_erase.
  - apply still_void, still_c_erase_local.
  - apply still_void, still_c_erase_range.
  - apply still_void, still_c_erase_local_range.
  - unfold c_clear. apply still_bind_getx, still_each.
  - unfold c_clear_info. apply still_bind; [apply still_by_info|]. intros. apply still_on_seg_any, still_seg_clear.
Qed.

(** the call is one of the interface *)
Lemma light_api g c m l : light c m l -> exists safe new, api g c m safe new l.
Proof.
  intros Lt. destruct Lt; do 2 eexists.
  - eapply api_emplace; eauto.
  - eapply api_emplace_hint; eauto.
  - eapply api_emplace_pos; eauto.
  - eapply api_insert; eauto.
  - eapply api_insert_hint; eauto.
  - eapply api_insert_pos; eauto.
  - apply api_range_terminal.
  - eapply api_erase; eauto.
  - eapply api_erase_local; eauto.
  - eapply api_erase_range; eauto.
  - eapply api_erase_local_range; eauto.
  - apply api_clear.
  - apply api_clear_info.
Qed.

(** what is cached stays cached *)
Definition kc {A} (m : M CW A) (s : CW) : Prop :=
  match m s with Ok s' _ | Exn s' _ => c_cache (fst s') = c_cache (fst s) | UB => True end.
Lemma kc_ret {A} (a : A) s : kc (ret a) s.
Proof. reflexivity. Qed.
Lemma kc_bind {A B} (m : M CW A) (f : A -> M CW B) s : kc m s -> (forall s' a, m s = Ok s' a -> kc (f a) s') -> kc (bind m f) s.
Proof.
  unfold kc, bind. destruct (m s) as [s' a|s' e|] eqn:Q; intros H1 H2; auto. specialize (H2 _ _ eq_refl). destruct (f a s'); auto; congruence.
Qed.
Lemma kc_getx {B} (f : coll V -> M CW B) s : kc (f (fst s)) s -> kc (bind getx f) s.
Proof. unfold kc, bind, getx. auto. Qed.
Lemma kc_void {A} (m : M CW A) s : kc m s -> kc (void m) s.
Proof. unfold kc, void, bind, ret. destruct (m s); auto. Qed.
Lemma kc_on_seg {A} i (m : M SW A) (s : CW) : kc (on_seg i m) s.
Proof.
  unfold kc, on_seg. destruct s as [c w]. destruct (node_at _ _); [|exact I]. destruct (m _) as [[sg w'] a|[sg w'] e|]; auto; reflexivity.
Qed.
Lemma kc_mk_iter m p (s : CW) : kc (mk_iter m p) s.
Proof. apply kc_getx. destruct (it_make _ _ _); [apply kc_ret|exact I]. Qed.
Lemma kc_same_node m i (s : CW) : kc (same_node m i) s.
Proof. unfold same_node. destruct m; [|apply kc_ret]. apply kc_getx. destruct (node_at _ _); [apply kc_ret|exact I]. Qed.
Lemma kc_find_cached a i c w : cached c a i -> kc (find_or_make a) (c, w).
Proof. intros C. unfold kc. rewrite (cached_find _ _ _ w C). reflexivity. Qed.
Lemma kc_until ids l : forall (s : CW), kc (clear_until ids l) s.
Proof.
  induction ids as [|i ids IH]; intros s; cbn [clear_until]; [destruct l; [exact I|apply kc_ret]|]. destruct (mapit_eqb _ _); [apply kc_ret|].
  apply kc_bind; [apply kc_on_seg|intros; apply IH].
Qed.
Lemma kc_each ids (m : M SW unit) : forall (s : CW), kc (for_each_node ids m) s.
Proof. induction ids as [|i ids IH]; intros s; cbn [for_each_node]; [apply kc_ret|]. apply kc_bind; [apply kc_on_seg|intros; apply IH]. Qed.
Lemma light_cache w c g d m l : reach w (c :: g) d -> light c m l -> kc m (c, w).
Proof.
  intros H Lt. destruct (reach_wf _ _ _ _ H) as (W & _). pose proof (wc_map _ _ W) as Wm. destruct Lt.
  - apply kc_void. destruct (known_cached _ _ _ Wm H0) as (i & C). apply kc_bind; [eapply kc_find_cached; eauto|]. intros. apply kc_bind; [apply kc_on_seg|intros; apply kc_mk_iter].
  - apply kc_void. destruct (known_cached _ _ _ Wm H0) as (i' & C). apply kc_bind; [eapply kc_find_cached; eauto|]. intros. apply kc_bind; [apply kc_same_node|]. intros.
    apply kc_bind; [|intros; apply kc_mk_iter]. destruct a1; apply kc_on_seg.
  - apply kc_void. apply kc_bind; [apply kc_on_seg|intros; apply kc_ret].
  - apply kc_void. destruct (known_arg_find _ _ _ Wm H1 H0) as (i & Q & _). apply kc_bind; [unfold kc; rewrite Q; reflexivity|]. intros.
    apply kc_bind; [apply kc_on_seg|intros; apply kc_mk_iter].
  - apply kc_void. destruct (known_arg_find _ _ _ Wm H4 H0) as (i' & Q & _). apply kc_bind; [unfold kc; rewrite Q; reflexivity|]. intros.
    apply kc_bind; [apply kc_same_node|]. intros s2 b _. apply kc_bind; [|intros; apply kc_mk_iter]. destruct b; apply kc_on_seg.
  - apply kc_void. apply kc_bind; [apply kc_on_seg|intros; apply kc_ret].
  - destruct xs as [|x xs]; [apply kc_ret|]. destruct (known_cached _ _ _ Wm H0) as (i & C). apply kc_bind; [eapply kc_find_cached; eauto|]. intros.
    apply kc_bind; [apply kc_on_seg|intros; apply kc_ret].
  - apply kc_void. unfold c_erase. destruct (it_map pos); [|exact I]. apply kc_bind; [apply kc_on_seg|intros; apply kc_mk_iter].
  - apply kc_void. apply kc_bind; [apply kc_on_seg|intros; apply kc_ret].
  - apply kc_void. unfold c_erase_range. destruct (negb _).
    + destruct (it_map first) as [fi|]; [|exact I]. apply kc_bind; [apply kc_on_seg|]. intros. apply kc_getx.
      destruct (nodes_from _ _) as [[|n ns]|]; try exact I. apply kc_bind; [apply kc_until|]. intros.
      destruct (it_map last); [|apply kc_getx, kc_ret]. apply kc_bind; [apply kc_on_seg|intros; apply kc_mk_iter].
    + destruct (it_eq _ _); [apply kc_mk_iter|]. destruct (it_map first); [|exact I]. apply kc_bind; [apply kc_on_seg|intros; apply kc_mk_iter].
  - apply kc_void. unfold c_erase_local_range. destruct (_ =? _); [|exact I]. apply kc_bind; [apply kc_on_seg|intros; apply kc_ret].
  - apply kc_getx, kc_each.
  - apply kc_bind; [|intros; apply kc_on_seg]. unfold map_iterator_by_info. apply kc_getx. destruct (tim_find_const _ _); [apply kc_ret|reflexivity].
Qed.
Lemma known_same (c c' : coll V) a : c_cache c' = c_cache c -> known c a -> known c' a.
Proof. unfold known. intros ->. auto. Qed.

(** sizes and capacities *)
Definition grows (c c' : coll V) (l : list (tyid * V)) : Prop :=
  incl (types c) (types c') /\ (forall t, length (elems c' t) <= length (elems c t) + length (of_type t l)) /\
  (forall t, In t (types c) -> length (elems c' t) <= cap_of c t -> cap_of c' t = cap_of c t /\ data_of c' t = data_of c t).
Lemma grows_grew h c c' l : grew h c c' l -> grows c c' l.
Proof.
  intros G. split; [intros t I; apply (g_types _ _ _ _ G); auto|]. split; [|intros t I L; split; [apply (g_cap _ _ _ _ G)|apply (g_data _ _ _ _ G)]; auto].
  intros t. rewrite (grew_length _ _ _ _ t G). lia.
Qed.
Lemma grows_cut c c' i j : cut c c' i j -> i <= j -> grows c c' [].
Proof.
  intros C Le. split; [rewrite (cut_types _ _ _ _ C); apply incl_refl|]. split; [|intros; split; [apply (cut_cap _ _ _ _ C)|apply (cut_data _ _ _ _ C)]].
  intros t. rewrite (cut_elems _ _ _ _ C). unfold remove_range. rewrite app_length, firstn_length, skipn_length. lia.
Qed.
Lemma grows_wiped (P : tyid -> Prop) c c' : (forall t, {P t} + {~ P t}) -> wiped c c' P -> grows c c' [].
Proof.
  intros D C. split; [rewrite (wi_types _ _ _ C); apply incl_refl|]. split; [|intros; split; [apply (wi_cap _ _ _ C)|apply (wi_data _ _ _ C)]].
  intros t. destruct (D t) as [p|p]; [rewrite (wi_elems _ _ _ C _ p); cbn; lia|]. rewrite !elems_seg_at, (wi_others _ _ _ C _ p). lia.
Qed.
Lemma light_grows w c g d m l : reach w (c :: g) d -> light c m l -> wp m (c, w) (fun '(c', w') _ => grows c c' l) (fun _ _ => True).
Proof.
  intros H Lt. destruct Lt.
  - eapply wp_void_mono; [eapply spec_emplace; eauto| |auto]. intros [c' w'] r (R & _). eapply grows_grew; apply R.
  - eapply wp_void_mono; [eapply spec_emplace_hint; eauto| |auto]. intros [c' w'] r (R & _). eapply grows_grew; apply R.
  - eapply wp_void_mono; [eapply spec_emplace_pos; eauto| |auto]. intros [c' w'] r (R & _). eapply grows_grew; apply R.
  - eapply wp_void_mono; [eapply spec_insert; eauto| |auto]. intros [c' w'] r (_ & R & _). eapply grows_grew; apply R.
  - eapply wp_void_mono; [eapply spec_insert_hint; eauto| |auto]. intros [c' w'] r (_ & R & _). eapply grows_grew; apply R.
  - eapply wp_void_mono; [eapply spec_insert_pos; eauto| |auto]. intros [c' w'] r (R & _). eapply grows_grew; apply R.
  - eapply wp_mono; [eapply spec_insert_range_terminal; eauto| |auto]. intros [c' w'] r (R & _). eapply grows_grew; apply R.
  - eapply wp_void_mono; [eapply spec_erase; eauto| |auto]. intros [c' w'] r (R & _). eapply grows_cut; [apply R|lia].
  - eapply wp_void_mono; [eapply spec_erase_local; eauto| |auto]. intros [c' w'] r (R & _). eapply grows_cut; [apply R|lia].
  - eapply wp_void_mono; [eapply spec_erase_range; eauto| |auto]. intros [c' w'] r (R & _). eapply grows_cut; [apply R|lia].
  - eapply wp_void_mono; [eapply spec_erase_local_range; eauto| |auto]. intros [c' w'] r (R & _). eapply grows_cut; [apply R|lia].
  - eapply wp_mono; [eapply spec_clear; eauto| |auto]. intros [c' w'] r R. eapply grows_wiped; [|apply R]. intros; left; exact I.
  - eapply wp_mono; [eapply spec_clear_info; eauto| |auto]. intros [c' w'] r (_ & R). eapply grows_wiped; [|apply R]. intros; apply Nat.eq_dec.
Qed.
Lemma room_after c c' l l' : grows c c' l -> room c (l ++ l') -> room c' l'.
Proof.
  intros (G1 & G2 & G3) R t It. destruct (R t) as (R1 & R2); [rewrite map_app; apply in_or_app; auto|]. rewrite of_type_app, app_length in R1.
  specialize (G2 t). destruct (in_dec Nat.eq_dec t (types c)) as [In1|Nin].
  - destruct (G3 t In1) as (-> & _); [lia|]. split; [lia|auto].
  - exfalso. assert (Z : cap_of c t = 0) by (rewrite types_seg_at in Nin; unfold cap_of; destruct (seg_at c t); [exfalso; apply Nin; discriminate|reflexivity]).
    assert (0 < length (of_type t l')); [|lia]. unfold of_type. rewrite map_length. clear - It. induction l' as [|[u v] l IH]; [destruct It|].
    cbn [map fst filter] in *. destruct (u =? t) eqn:Q; [cbn; lia|]. apply Nat.eqb_neq in Q. destruct It as [->|It]; [congruence|auto].
Qed.
Lemma room_weak c l l' : room c (l ++ l') -> room c l.
Proof. intros R t It. destruct (R t) as (R1 & R2); [rewrite map_app; apply in_or_app; auto|]. rewrite of_type_app, app_length in R1. split; [lia|auto]. Qed.
End StillC.
