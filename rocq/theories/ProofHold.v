(** * Proofs about the events of a container's history *)

From Coq Require Import List Arith Lia Bool.
From Verif Require Import Base ProofBase Holder Slots SpecHold ProofSlots.
Import ListNotations.

Section P.
Context {V : Type} {E : Env V} (t : tyid) (al : alid).
Implicit Types (s : hst V) (slot : nat -> Prop).

Definition lives_in s (a : nat) : bool := if h_mem s a then true else false.

(** What one operation may do: the events it adds and the cells in which an object begins or ends
    to live. *)
Inductive effect s s' : list event -> Prop :=
| f_none : (forall c, lives_in s' c = lives_in s c) -> effect s s' []
| f_made v a : lives_in s a = false -> lives_in s' a = true -> (forall c, c <> a -> lives_in s' c = lives_in s c) -> effect s s' [Made v a]
| f_ended v a : lives_in s a = true -> lives_in s' a = false -> (forall c, c <> a -> lives_in s' c = lives_in s c) -> effect s s' [Ended v a]
| f_both a : env_assignable t = false -> lives_in s a = true -> (forall c, lives_in s' c = lives_in s c) -> effect s s' [Ended Direct a; Made Direct a]
| f_built l : (forall c, lives_in s' c = lives_in s c) -> effect s s' [Built Direct l]
| f_built2 l l' : (forall c, lives_in s' c = lives_in s c) -> effect s s' [Built Direct l; Built Direct l']
| f_wiped : (forall c, lives_in s' c = lives_in s c) -> effect s s' [Wiped Direct].

(** The state an operation leaves, if it has one. *)
Definition leaves {A} (m : M (hst V) A) s s' : Prop := (exists x, m s = Ok s' x) \/ (exists e, m s = Exn s' e).

Lemma leaves_bind {A B} (m : M (hst V) A) (f : A -> M (hst V) B) s s' : leaves (bind m f) s s' ->
  (exists e, m s = Exn s' e) \/ (exists s1 x, m s = Ok s1 x /\ leaves (f x) s1 s').
Proof.
  unfold leaves, bind. destruct (m s) as [s1 x|s1 e|].
  - intros H. right. exists s1, x. split; auto.
  - intros [(x & K)|(e' & K)]; [discriminate|]. left. exists e. congruence.
  - intros [(x & K)|(e' & K)]; discriminate.
Qed.

Lemma lives_set s a x l k c : lives_in (mkhst (cell_set (h_mem s) a x) l k) c = if c =? a then (if x then true else false) else lives_in s c.
Proof. unfold lives_in, cell_set. cbn. now destruct (c =? a). Qed.
Lemma lives_keep s l k c : lives_in (mkhst (h_mem s) l k) c = lives_in s c.
Proof. reflexivity. Qed.

(** Making a T adds one event; failing to leaves everything alive that was. *)
Definition made_or_not v a s s' : Prop :=
  (h_log s' = h_log s /\ forall c, lives_in s' c = lives_in s c) \/
  (h_log s' = h_log s ++ [Made v a] /\ lives_in s a = false /\ lives_in s' a = true /\ forall c, c <> a -> lives_in s' c = lives_in s c).

Lemma t_copy_leaves v a b s s' : leaves (t_copy v a b) s s' -> made_or_not v a s s'.
Proof.
  unfold leaves, t_copy, bind, h_read, h_vacant, h_tick, h_write, h_emit, modify, made_or_not.
  destruct (h_mem s b) as [x|] eqn:B; [|intros [(? & K)|(? & K)]; discriminate].
  destruct (h_mem s a) as [y|] eqn:A; [intros [(? & K)|(? & K)]; discriminate|]. cbn.
  destruct (env_fault _); intros [(? & K)|(? & K)]; try discriminate; inversion K; subst; cbn.
  - left. auto.
  - right. split; [auto|]. split; [unfold lives_in; now rewrite A|]. split.
    + rewrite lives_set, Nat.eqb_refl. reflexivity.
    + intros c Hc. rewrite lives_set. apply Nat.eqb_neq in Hc. now rewrite Hc.
Qed.

Lemma t_make_leaves v a x s s' : leaves (t_make v a x) s s' -> made_or_not v a s s'.
Proof.
  unfold leaves, t_make, bind, h_read, h_vacant, h_tick, h_write, h_emit, modify, made_or_not.
  destruct (h_mem s a) as [y|] eqn:A; [intros [(? & K)|(? & K)]; discriminate|]. cbn.
  destruct (env_fault _); intros [(? & K)|(? & K)]; try discriminate; inversion K; subst; cbn.
  - left. auto.
  - right. split; [auto|]. split; [unfold lives_in; now rewrite A|]. split.
    + rewrite lives_set, Nat.eqb_refl. reflexivity.
    + intros c Hc. rewrite lives_set. apply Nat.eqb_neq in Hc. now rewrite Hc.
Qed.

Lemma t_move_leaves v a b s s' : leaves (t_move t v a b) s s' ->
  made_or_not v a s s' /\ (env_nt_move t = true -> h_log s' = h_log s ++ [Made v a] /\ exists x, t_move t v a b s = Ok s' x).
Proof.
  unfold leaves, t_move, bind, h_read, h_vacant, h_tick, h_write, h_emit, modify, made_or_not, h_unspec, try_rethrow, ret.
  destruct (h_mem s b) as [x|] eqn:B; [|intros [(? & K)|(? & K)]; discriminate].
  destruct (h_mem s a) as [y|] eqn:A; [intros [(? & K)|(? & K)]; discriminate|]. cbn.
  assert (N : a <> b) by congruence.
  assert (Made1 : forall s1, h_mem s1 = h_mem s -> h_log s1 = h_log s ->
    forall s2, s2 = mkhst (cell_set (cell_set (h_mem s1) a (Some x)) b (Some (env_junk (h_clock s1) b))) (h_log s1 ++ [Made v a]) (S (h_clock s1)) ->
    h_log s2 = h_log s ++ [Made v a] /\ lives_in s a = false /\ lives_in s2 a = true /\ forall c, c <> a -> lives_in s2 c = lives_in s c).
  { intros s1 M1 L1 s2 ->. cbn. rewrite L1. split; [auto|]. split; [unfold lives_in; now rewrite A|]. unfold lives_in, cell_set; cbn. rewrite M1. split.
    - rewrite Nat.eqb_refl. now destruct (a =? b).
    - intros c Hc. apply Nat.eqb_neq in Hc. rewrite Hc. destruct (c =? b) eqn:K; [|auto]. apply Nat.eqb_eq in K. subst. now rewrite B. }
  destruct (env_nt_move t).
  - intros [(u & K)|(u & K)]; [|discriminate]. injection K as K1 _.
    assert (Z := Made1 s eq_refl eq_refl s' (eq_sym K1)). cbn in Z. split; [right; exact Z|]. intros _. split; [apply Z|]. exists tt. rewrite <- K1. reflexivity.
  - destruct (env_fault _); intros [(? & K)|(? & K)]; try discriminate; inversion K; subst; cbn; (split; [|discriminate]).
    + left. split; [auto|]. intros c. unfold lives_in, cell_set. cbn. destruct (c =? b) eqn:Kb; [|auto]. apply Nat.eqb_eq in Kb. subst. now rewrite B.
    + right. exact (Made1 (mkhst (h_mem s) (h_log s) (S (h_clock s))) eq_refl eq_refl _ eq_refl).
Qed.

Lemma t_end_leaves v a s s' : leaves (t_end v a) s s' ->
  h_log s' = h_log s ++ [Ended v a] /\ lives_in s a = true /\ lives_in s' a = false /\ (forall c, c <> a -> lives_in s' c = lives_in s c).
Proof.
  unfold leaves, t_end, bind, h_read, h_write, h_emit, modify.
  destruct (h_mem s a) as [x|] eqn:A; intros [(? & K)|(? & K)]; try discriminate. inversion K; subst. cbn.
  split; [auto|]. split; [unfold lives_in; now rewrite A|]. split.
  - rewrite lives_set, Nat.eqb_refl. reflexivity.
  - intros c Hc. rewrite lives_set. apply Nat.eqb_neq in Hc. now rewrite Hc.
Qed.

Lemma made_effect v a s s' : made_or_not v a s s' -> exists l, h_log s' = h_log s ++ l /\ effect s s' l /\ (l = [] \/ l = [Made v a]).
Proof.
  intros [(L & K)|(L & A & B & K)].
  - exists []. rewrite app_nil_r. split; [auto|split; [apply f_none; auto|auto]].
  - exists [Made v a]. split; [auto|split; [apply f_made; auto|auto]].
Qed.

Lemma vh_ctor_effect v a r s s' : leaves (vh_ctor t v a r) s s' ->
  exists l, h_log s' = h_log s ++ l /\ effect s s' l /\ (l = [] \/ l = [Made v a]).
Proof.
  assert (C : forall b, leaves (vh_copy t v a b) s s' -> exists l, h_log s' = h_log s ++ l /\ effect s s' l /\ (l = [] \/ l = [Made v a])).
  { intros b. unfold vh_copy. destruct (env_copyable t).
    - intros K. apply made_effect. eapply t_copy_leaves; eauto.
    - intros [(? & K)|(? & K)]; [discriminate|]. inversion K; subst. exists []. rewrite app_nil_r. split; [auto|split; [apply f_none; auto|auto]]. }
  destruct r as [b|b|y|b|b]; cbn; intros K; eauto.
  - apply made_effect. eapply t_move_leaves; eauto.
  - apply made_effect. eapply t_make_leaves; eauto.
  - apply made_effect. eapply t_move_leaves; eauto.
Qed.

Lemma vh_assign_effect a b s s' : leaves (vh_assign t a b) s s' ->
  exists l, h_log s' = h_log s ++ l /\ effect s s' l /\ (l = [] \/ l = [Ended Direct a; Made Direct a]).
Proof.
  unfold vh_assign. destruct (env_assignable t) eqn:As.
  - intros K. exists []. rewrite app_nil_r. revert K.
    unfold leaves, t_assign, bind, h_read, h_tick, h_write, modify, h_unspec, try_rethrow, ret.
    destruct (h_mem s b) as [x|] eqn:B; [|intros [(? & K)|(? & K)]; discriminate].
    destruct (h_mem s a) as [y|] eqn:A; [|intros [(? & K)|(? & K)]; discriminate]. cbn.
    assert (Z : forall s', h_log s' = h_log s -> (forall c, c <> a -> c <> b -> h_mem s' c = h_mem s c) -> h_mem s' a <> None -> h_mem s' b <> None ->
      h_log s' = h_log s /\ effect s s' [] /\ (@nil event = [] \/ @nil event = [Ended Direct a; Made Direct a])).
    { intros s1 L1 R1 A1 B1. split; [auto|split; [apply f_none|auto]]. intros c. unfold lives_in.
      destruct (Nat.eq_dec c a) as [->|]; [rewrite A; now destruct (h_mem s1 a)|].
      destruct (Nat.eq_dec c b) as [->|]; [rewrite B; now destruct (h_mem s1 b)|]. now rewrite R1. }
    assert (Cs : forall m p q c, cell_set (cell_set m a (Some p)) b (Some q) c = if c =? b then Some q else if c =? a then Some p else m c : option V) by reflexivity.
    destruct (env_nt_assign t); [|destruct (env_fault _)]; intros [(? & K)|(? & K)]; try discriminate; inversion K; subst; apply Z; cbn; auto;
      try (intros c C1 C2; rewrite Cs; apply Nat.eqb_neq in C1, C2; now rewrite C1, C2);
      rewrite Cs, ?Nat.eqb_refl; try discriminate; destruct (a =? b); discriminate.
  - destruct (negb _) eqn:Nt; [intros [(? & K)|(? & K)]; discriminate|]. apply negb_false_iff in Nt. destruct (a =? b) eqn:Ab.
    + intros [(? & K)|(? & K)]; [|discriminate]. inversion K; subst. exists []. rewrite app_nil_r. split; [auto|split; [apply f_none; auto|auto]].
    + intros K. destruct (leaves_bind _ _ _ _ K) as [(e & K1)|(s1 & x & K1 & K2)].
      * destruct (t_end_leaves Direct a s s') as (_ & Z & _); [right; eauto|]. revert K1. unfold t_end, bind, h_read, h_write, h_emit, modify.
        destruct (h_mem s a); discriminate.
      * destruct (t_end_leaves Direct a s s1) as (L1 & Z1 & Z2 & Z3); [left; eauto|].
        destruct (t_move_leaves Direct a b s1 s' K2) as (Mn & Ok2). destruct (Ok2 Nt) as (L2 & _).
        exists [Ended Direct a; Made Direct a]. split; [rewrite L2, L1, <- app_assoc; reflexivity|split; [|auto]].
        apply f_both; auto. intros c. destruct Mn as [(Bad & _)|(_ & _ & M2 & M3)].
        -- rewrite L2 in Bad. exfalso. assert (Q : length (h_log s1 ++ [Made Direct a]) = length (h_log s1)) by congruence.
           rewrite app_length in Q. cbn in Q. lia.
        -- destruct (Nat.eq_dec c a) as [->|]; [congruence|]. rewrite M3, Z3; auto.
Qed.

Lemma vh_equal_effect a b s s' : leaves (vh_equal t a b) s s' -> h_log s' = h_log s /\ h_mem s' = h_mem s.
Proof.
  unfold leaves, vh_equal, bind, h_read, h_tick, throw, ret. destruct (env_eqcomp t).
  - destruct (h_mem s a); [|intros [(? & K)|(? & K)]; discriminate]. destruct (h_mem s b); [|intros [(? & K)|(? & K)]; discriminate].
    destruct (env_fault _); intros [(? & K)|(? & K)]; try discriminate; inversion K; subst; auto.
  - intros [(? & K)|(? & K)]; try discriminate; inversion K; subst; auto.
Qed.

(** The events of a slot: what one proper operation adds. *)
Definition slot_events (a : nat) (l : list event) : Prop :=
  events_at a l = [] \/ events_at a l = [Made (Through al) a] \/ events_at a l = [Ended (Through al) a] \/
  (env_assignable t = false /\ events_at a l = [Ended Direct a; Made Direct a]).

Lemma perform_effect slot o s s' : proper slot o -> leaves (perform t al o) s s' ->
  exists l, h_log s' = h_log s ++ l /\ effect s s' l /\ (forall a, slot a -> slot_events a l) /\
    (forall e, In e l -> match e with Built v _ | Wiped v => v = Direct | Made v a | Ended v a => v = Direct \/ v = Through al /\ slot a end).
Proof.
  intros P K. destruct o as [a x|a|a b|a b|a x|a|o args|o1 o2 p|]; cbn [perform proper] in *.
  - destruct (vh_ctor_effect _ _ _ _ _ K) as (l & L & Ef & W). exists l. split; [auto|split; [auto|split]].
    + intros c Hc. unfold slot_events, events_at. destruct W as [-> | ->]; cbn; auto. destruct (a =? c) eqn:Kc; auto. apply Nat.eqb_eq in Kc. subst. auto.
    + intros e He. destruct W as [-> | ->]; [destruct He|]. destruct He as [<-|[]]. auto.
  - destruct (t_end_leaves _ _ _ _ K) as (L & Z1 & Z2 & Z3). exists [Ended (Through al) a]. split; [auto|split; [apply f_ended; auto|split]].
    + intros c Hc. unfold slot_events, events_at. cbn. destruct (a =? c) eqn:Kc; auto. apply Nat.eqb_eq in Kc. subst. auto.
    + intros e [<-|[]]. auto.
  - destruct (vh_assign_effect _ _ _ _ K) as (l & L & Ef & W). exists l. split; [auto|split; [auto|split]].
    + intros c Hc. unfold slot_events, events_at. destruct W as [-> | ->]; cbn; auto. destruct (a =? c) eqn:Kc; auto. apply Nat.eqb_eq in Kc. subst.
      right. right. right. split; auto. inversion Ef; auto.
    + intros e He. destruct W as [-> | ->]; [destruct He|]. destruct He as [<-|[<-|[]]]; auto.
  - exists []. rewrite app_nil_r. assert (Q : h_log s' = h_log s /\ h_mem s' = h_mem s).
    { destruct (leaves_bind _ _ _ _ K) as [(e & K1)|(s1 & x & K1 & K2)].
      - apply (vh_equal_effect a b). right; eauto.
      - destruct K2 as [(? & K2)|(? & K2)]; [|discriminate]. inversion K2; subst. apply (vh_equal_effect a b). left; eauto. }
    destruct Q as (Q1 & Q2). split; [auto|split; [apply f_none; intros c; unfold lives_in; now rewrite Q2|split]].
    + intros c Hc. left. reflexivity.
    + intros e [].
  - destruct (vh_ctor_effect _ _ _ _ _ K) as (l & L & Ef & W). exists l. split; [auto|split; [auto|split]].
    + intros c Hc. unfold slot_events, events_at. destruct W as [-> | ->]; cbn; auto. destruct (a =? c) eqn:Kc; auto. apply Nat.eqb_eq in Kc. subst. contradiction.
    + intros e He. destruct W as [-> | ->]; [destruct He|]. destruct He as [<-|[]]. auto.
  - destruct (t_end_leaves _ _ _ _ K) as (L & Z1 & Z2 & Z3). exists [Ended Direct a]. split; [auto|split; [apply f_ended; auto|split]].
    + intros c Hc. unfold slot_events, events_at. cbn. destruct (a =? c) eqn:Kc; auto. apply Nat.eqb_eq in Kc. subst. contradiction.
    + intros e [<-|[]]. auto.
  - destruct K as [(? & K)|(? & K)]; [|discriminate]. inversion K; subst. cbn. eexists. split; [reflexivity|split; [apply f_built; auto|split]].
    + intros c Hc. left. reflexivity.
    + intros e [<-|[]]. auto.
  - assert (Q : forall x y, leaves (ad_construct_piecewise al o1 o2 x y) s s' -> exists l l', h_log s' = h_log s ++ [Built Direct l; Built Direct l'] /\ forall c, lives_in s' c = lives_in s c).
    { intros x y [(? & J)|(? & J)]; [|discriminate]. inversion J; subst. cbn. do 2 eexists. split; [rewrite <- app_assoc; reflexivity|auto]. }
    assert (Q' : exists l l', h_log s' = h_log s ++ [Built Direct l; Built Direct l'] /\ forall c, lives_in s' c = lives_in s c) by (destruct p; eauto).
    destruct Q' as (l & l' & L & R). exists [Built Direct l; Built Direct l']. split; [auto|split; [apply f_built2; auto|split]].
    + intros c Hc. left. reflexivity.
    + intros e [<-|[<-|[]]]; auto.
  - destruct K as [(? & K)|(? & K)]; [|discriminate]. inversion K; subst. cbn. eexists. split; [reflexivity|split; [apply f_wiped; auto|split]].
    + intros c Hc. left. reflexivity.
    + intros e [<-|[]]. auto.
Qed.

Lemma events_app a l l' : events_at a (l ++ l') = events_at a l ++ events_at a l'.
Proof. apply filter_app. Qed.

(** An invariant of histories that operations preserve. *)
Lemma history_ind_inv slot (I : hst V -> Prop) :
  (forall o s s', proper slot o -> I s -> leaves (perform t al o) s s' -> I s') ->
  forall s s', history t al slot s s' -> I s -> I s'.
Proof.
  intros H s s' Hi. induction Hi as [s|s s1 s' o P K _ IH|s s1 s' o e P K _ IH]; intros Is; auto; apply IH; eapply H; eauto.
  - left. eauto.
  - right. eauto.
Qed.

Lemma history_trans slot s1 s2 s3 : history t al slot s1 s2 -> history t al slot s2 s3 -> history t al slot s1 s3.
Proof.
  intros H1 H2. induction H1 as [s|s s1 s' o P K _ IH|s s1 s' o e P K _ IH]; auto.
  - eapply y_ok; eauto.
  - eapply y_exn; eauto.
Qed.

Lemma lives_snoc a k : lives al a k ++ [Made (Through al) a; Ended (Through al) a] = lives al a (S k).
Proof. induction k as [|k IH]; cbn in *; [reflexivity|]. now rewrite IH. Qed.

Lemma lives_and_bool s a k : lives_and al s a k = lives al a k ++ (if lives_in s a then [Made (Through al) a] else []).
Proof. unfold lives_and, lives_in. now destruct (h_mem s a). Qed.

(** What an operation does to one cell. *)
Lemma effect_at s s' l a : effect s s' l ->
  (events_at a l = [] /\ lives_in s' a = lives_in s a) \/
  (exists v, events_at a l = [Made v a] /\ lives_in s a = false /\ lives_in s' a = true) \/
  (exists v, events_at a l = [Ended v a] /\ lives_in s a = true /\ lives_in s' a = false) \/
  (events_at a l = [Ended Direct a; Made Direct a] /\ lives_in s a = true /\ lives_in s' a = true).
Proof.
  intros Ef. destruct Ef as [K|v b K1 K2 K3|v b K1 K2 K3|b K0 K1 K2|l K|l l' K|K]; unfold events_at; cbn; try (left; split; [reflexivity|apply K]).
  - destruct (b =? a) eqn:Q.
    + apply Nat.eqb_eq in Q. subst. right. left. eauto.
    + apply Nat.eqb_neq in Q. left. auto.
  - destruct (b =? a) eqn:Q.
    + apply Nat.eqb_eq in Q. subst. right. right. left. eauto.
    + apply Nat.eqb_neq in Q. left. auto.
  - destruct (b =? a) eqn:Q.
    + apply Nat.eqb_eq in Q. subst. right. right. right. rewrite K2. auto.
    + left. auto.
Qed.

(** The calls of the allocator, for one slot. *)
Lemma history_calls slot s s' a : history t al slot s s' -> slot a ->
  (exists k, filter by_allocator (events_at a (h_log s)) = lives_and al s a k) ->
  exists k, filter by_allocator (events_at a (h_log s')) = lives_and al s' a k.
Proof.
  intros H Sa. revert s s' H. apply history_ind_inv. intros o s s' P (k & I) K.
  destruct (perform_effect _ _ _ _ P K) as (l & L & Ef & Sl & _). specialize (Sl a Sa).
  rewrite L, events_app, filter_app, I. rewrite !lives_and_bool.
  destruct (effect_at _ _ _ a Ef) as [(W & Q)|[(v & W & Q1 & Q2)|[(v & W & Q1 & Q2)|(W & Q1 & Q2)]]]; unfold slot_events in Sl; rewrite W in *; cbn.
  - exists k. now rewrite lives_and_bool, app_nil_r, Q.
  - destruct Sl as [Z|[Z|[Z|(_ & Z)]]]; try discriminate. injection Z as ->. exists k. rewrite lives_and_bool, Q1, Q2. cbn. now rewrite app_nil_r.
  - destruct Sl as [Z|[Z|[Z|(_ & Z)]]]; try discriminate. injection Z as ->. exists (S k). rewrite lives_and_bool, Q1, Q2. cbn [by_allocator].
    rewrite app_nil_r, <- app_assoc. apply lives_snoc.
  - exists k. now rewrite lives_and_bool, app_nil_r, Q1, Q2.
Qed.

(** ... and all events, when assignment is not emulated *)
Lemma history_events slot s s' a : env_assignable t = true -> history t al slot s s' -> slot a ->
  (exists k, events_at a (h_log s) = lives_and al s a k) ->
  exists k, events_at a (h_log s') = lives_and al s' a k.
Proof.
  intros As H Sa. revert s s' H. apply history_ind_inv. intros o s s' P (k & I) K.
  destruct (perform_effect _ _ _ _ P K) as (l & L & Ef & Sl & _). specialize (Sl a Sa).
  rewrite L, events_app, I. rewrite !lives_and_bool.
  destruct (effect_at _ _ _ a Ef) as [(W & Q)|[(v & W & Q1 & Q2)|[(v & W & Q1 & Q2)|(W & Q1 & Q2)]]]; unfold slot_events in Sl; rewrite W in *; cbn.
  - exists k. now rewrite lives_and_bool, app_nil_r, Q.
  - destruct Sl as [Z|[Z|[Z|(_ & Z)]]]; try discriminate. injection Z as ->. exists k. rewrite lives_and_bool, Q1, Q2. cbn. now rewrite app_nil_r.
  - destruct Sl as [Z|[Z|[Z|(_ & Z)]]]; try discriminate. injection Z as ->. exists (S k). rewrite lives_and_bool, Q1, Q2.
    rewrite app_nil_r, <- app_assoc. apply lives_snoc.
  - destruct Sl as [Z|[Z|[Z|(Bad & Z)]]]; try discriminate. congruence.
Qed.

(** ... and whoever made and ended the objects *)
Lemma lifetimes_snoc k : lifetimes k ++ [true; false] = lifetimes (S k).
Proof. induction k as [|k IH]; cbn in *; [reflexivity|]. now rewrite IH. Qed.
Lemma history_lives slot s s' a : history t al slot s s' ->
  (exists k, map is_made (events_at a (h_log s)) = lifetimes k ++ (if h_mem s a then [true] else [])) ->
  exists k, map is_made (events_at a (h_log s')) = lifetimes k ++ (if h_mem s' a then [true] else []).
Proof.
  assert (B : forall s k, lifetimes k ++ (if h_mem s a then [true] else []) = lifetimes k ++ (if lives_in s a then [true] else [])).
  { intros s0 k. unfold lives_in. now destruct (h_mem s0 a). }
  intros H. revert s s' H. apply history_ind_inv. intros o s s' P (k & I) K.
  destruct (perform_effect _ _ _ _ P K) as (l & L & Ef & _). rewrite L, events_app, map_app, I, B.
  destruct (effect_at _ _ _ a Ef) as [(W & Q)|[(v & W & Q1 & Q2)|[(v & W & Q1 & Q2)|(W & Q1 & Q2)]]]; rewrite W; cbn [map is_made].
  - exists k. now rewrite B, app_nil_r, Q.
  - exists k. rewrite B, Q1, Q2. now rewrite app_nil_r.
  - exists (S k). rewrite B, Q1, Q2, app_nil_r, <- app_assoc. apply lifetimes_snoc.
  - exists (S k). rewrite B, Q1, Q2, <- lifetimes_snoc, <- !app_assoc. reflexivity.
Qed.

(** No other object goes through the allocator. *)
Lemma history_others slot s s' : history t al slot s s' ->
  (forall e, In e (h_log s) -> by_allocator e = true -> exists a, slot a /\ (e = Made (Through al) a \/ e = Ended (Through al) a)) ->
  forall e, In e (h_log s') -> by_allocator e = true -> exists a, slot a /\ (e = Made (Through al) a \/ e = Ended (Through al) a).
Proof.
  intros H. revert s s' H. apply (history_ind_inv slot (fun s => forall e, In e (h_log s) -> by_allocator e = true -> exists a, slot a /\ (e = Made (Through al) a \/ e = Ended (Through al) a))).
  intros o s s' P I K e He B.
  destruct (perform_effect _ _ _ _ P K) as (l & L & _ & _ & W). rewrite L in He. apply in_app_or in He. destruct He as [He|He]; [auto|].
  specialize (W e He). destruct e as [v a|v a|v args|v]; cbn in B; destruct v; try discriminate.
  - destruct W as [W|(W & Sa)]; [discriminate|]. exists a. split; [auto|left; congruence].
  - destruct W as [W|(W & Sa)]; [discriminate|]. exists a. split; [auto|right; congruence].
Qed.

(** ** The vector algorithms are histories *)

Definition traced slot (m : M (hst V) unit) : Prop :=
  forall s s', leaves m s s' -> history t al slot s s'.

Lemma traced_op slot o : proper slot o -> traced slot (perform t al o).
Proof.
  intros P s s' [(x & K)|(e & K)].
  - destruct x. eapply y_ok; eauto. apply y_nil.
  - eapply y_exn; eauto. apply y_nil.
Qed.
Lemma traced_ret slot : traced slot (ret tt).
Proof. intros s s' [(x & K)|(e & K)]; inversion K; subst. apply y_nil. Qed.
Lemma traced_bind slot (m : M (hst V) unit) f : traced slot m -> (forall x, traced slot (f x)) -> traced slot (bind m f).
Proof.
  intros H1 H2 s s' K. destruct (leaves_bind _ _ _ _ K) as [(e & K1)|(s1 & x & K1 & K2)].
  - apply H1. right. eauto.
  - eapply history_trans; [apply H1; left; eauto|]. eapply H2; eauto.
Qed.
Lemma traced_try slot (m h : M (hst V) unit) : traced slot m -> traced slot h -> traced slot (try_rethrow m h).
Proof.
  intros H1 H2 s s' K. unfold leaves, try_rethrow in K. destruct (m s) as [s1 x|s1 e|] eqn:M1.
  - destruct K as [(y & K)|(e & K)]; inversion K; subst. apply H1. left. eauto.
  - eapply history_trans; [apply H1; right; eauto|]. apply H2. destruct (h s1) as [s2 x|s2 e2|] eqn:M2.
    + destruct K as [(y & K)|(e' & K)]; inversion K; subst. left. eauto.
    + destruct K as [(y & K)|(e' & K)]; inversion K; subst. right. eauto.
    + destruct K as [(y & K)|(e' & K)]; discriminate.
  - destruct K as [(y & K)|(e & K)]; discriminate.
Qed.

Lemma traced_destroy slot n : forall a, (forall i, i < n -> slot (a + i)) -> traced slot (s_destroy al a n).
Proof.
  induction n as [|n IH]; intros a H; cbn [s_destroy]; [apply traced_ret|]. apply traced_bind.
  - apply (traced_op slot (o_destroy a)). cbn. specialize (H 0). rewrite Nat.add_0_r in H. apply H. lia.
  - intros _. apply IH. intros i Hi. rewrite Nat.add_succ_comm. apply H. lia.
Qed.
Lemma traced_move slot n : forall d a, traced slot (s_move t d a n).
Proof.
  induction n as [|n IH]; intros d a; cbn [s_move]; [apply traced_ret|]. apply traced_bind; [apply (traced_op slot (o_assign d a)); exact I|]. intros _. apply IH.
Qed.
Lemma traced_move_back slot n : forall d a, traced slot (s_move_back t d a n).
Proof.
  induction n as [|n IH]; intros d a; cbn [s_move_back]; [apply traced_ret|]. apply traced_bind; [apply (traced_op slot (o_assign (d + n) (a + n))); exact I|]. intros _. apply IH.
Qed.
Lemma traced_build slot f n : forall d a, (forall i, i < n -> slot (d + i)) -> traced slot (s_build t al f d a n).
Proof.
  induction n as [|n IH]; intros d a H; cbn [s_build]; [apply traced_ret|].
  assert (H0 : slot d) by (specialize (H 0); rewrite Nat.add_0_r in H; apply H; lia).
  apply traced_bind; [apply (traced_op slot (o_construct d (f a))); exact H0|]. intros _. apply traced_try.
  - apply IH. intros i Hi. rewrite Nat.add_succ_comm. apply H. lia.
  - apply (traced_op slot (o_destroy d)). exact H0.
Qed.
Lemma traced_assign_from slot f tmp n : ~ slot tmp -> forall d a, traced slot (s_assign_from t f tmp d a n).
Proof.
  intros T. induction n as [|n IH]; intros d a; cbn [s_assign_from]; [apply traced_ret|].
  apply traced_bind; [apply (traced_op slot (o_local tmp (f a))); exact T|]. intros _.
  apply traced_bind; [apply traced_try|intros _; apply traced_bind].
  - apply (traced_op slot (o_assign d tmp)); exact I.
  - apply (traced_op slot (o_local_end tmp)). exact T.
  - apply (traced_op slot (o_local_end tmp)). exact T.
  - intros _. apply IH.
Qed.

Lemma traced_erase slot base n f l : f <= l -> l <= n -> (forall i, i < n -> slot (base + i)) -> traced slot (s_erase t al base n f l).
Proof.
  intros H1 H2 H. unfold s_erase. destruct (f =? l); [apply traced_ret|]. apply traced_bind; [apply traced_move|]. intros _. apply traced_destroy.
  intros i Hi. rewrite <- !Nat.add_assoc. apply H. lia.
Qed.
(** The temporary of emplace is constructed and destroyed through the allocator too. *)
Lemma traced_emplace slot base n k tmp x : k <= n -> slot (base + n) -> slot tmp -> traced slot (s_emplace t al base n k tmp x).
Proof.
  intros Hk Hn Ht. unfold s_emplace. destruct (k =? n); [apply (traced_op slot (o_construct (base + n) x)); exact Hn|].
  apply traced_bind; [apply (traced_op slot (o_construct tmp x)); exact Ht|]. intros _. apply traced_bind.
  - apply traced_try; [|apply (traced_op slot (o_destroy tmp)); exact Ht].
    apply traced_bind; [apply (traced_op slot (o_construct (base + n) (MoveH (base + n - 1)))); exact Hn|]. intros _.
    apply traced_bind; [apply traced_move_back|]. intros _. apply (traced_op slot (o_assign (base + k) tmp)). exact I.
  - intros _. apply (traced_op slot (o_destroy tmp)); exact Ht.
Qed.
Lemma traced_insert slot base n k tmp f src m : k <= n -> (forall i, i < m -> slot (base + n + i)) -> ~ slot tmp -> traced slot (s_insert t al base n k tmp f src m).
Proof.
  intros Hk Hn Ht. unfold s_insert. destruct (m =? 0); [apply traced_ret|]. destruct (m <? n - k) eqn:K.
  - apply traced_bind; [apply traced_build; auto|]. intros _. apply traced_bind; [apply traced_move_back|]. intros _. apply traced_assign_from. auto.
  - apply Nat.ltb_ge in K. apply traced_bind; [apply traced_build; intros i Hi; apply Hn; lia|]. intros _.
    apply traced_bind; [apply traced_build|]. 2: { intros _. apply traced_assign_from. auto. }
    intros i Hi. rewrite <- Nat.add_assoc. apply Hn. lia.
Qed.
Lemma traced_relocate slot base n base' : (forall i, i < n -> slot (base + i)) -> (forall i, i < n -> slot (base' + i)) -> traced slot (s_relocate t al base n base').
Proof.
  intros H H'. unfold s_relocate. apply traced_bind; [destruct (env_nt_move t); apply traced_build; auto|]. intros _. apply traced_destroy. auto.
Qed.

End P.
