(** * Weakest preconditions and ownership of storage *)

From Coq Require Import List Arith Lia Bool Permutation.
From Verif Require Import Base.
Import ListNotations.

Lemma wp_ret {S A} (a : A) (s : S) (Q : S -> A -> Prop) X : Q s a -> wp (ret a) s Q X.
Proof. auto. Qed.
Lemma wp_throw {S A} e (s : S) (Q : S -> A -> Prop) (X : S -> exn -> Prop) :
  X s e -> wp (throw e) s Q X.
Proof. auto. Qed.
Lemma wp_bind {S A B} (m : M S A) (f : A -> M S B) s Q X :
  wp m s (fun s' a => wp (f a) s' Q X) X -> wp (bind m f) s Q X.
Proof. unfold wp, bind. destruct (m s); auto. Qed.
Lemma wp_bind_inv {S A B} (m : M S A) (f : A -> M S B) s Q X :
  wp (bind m f) s Q X -> wp m s (fun s' a => wp (f a) s' Q X) X.
Proof. unfold wp, bind. destruct (m s); auto. Qed.
Lemma wp_try {S A} (m : M S A) (h : M S unit) s Q (X : S -> exn -> Prop) :
  wp m s Q (fun s' e => wp h s' (fun s'' _ => X s'' e) X) ->
  wp (try_rethrow m h) s Q X.
Proof.
  unfold wp, try_rethrow. destruct (m s) as [s' a|s' e|]; auto.
  destruct (h s'); auto.
Qed.
Lemma wp_mono {S A} (m : M S A) s (Q Q' : S -> A -> Prop) (X X' : S -> exn -> Prop) :
  wp m s Q X -> (forall s' a, Q s' a -> Q' s' a) -> (forall s' e, X s' e -> X' s' e) ->
  wp m s Q' X'.
Proof. unfold wp. destruct (m s); auto. Qed.
Lemma wp_on_world {X A} (m : M world A) (s : X * world) (Q : X * world -> A -> Prop) XX :
  wp m (snd s) (fun w a => Q (fst s, w) a) (fun w e => XX (fst s, w) e) ->
  wp (on_world m) s Q XX.
Proof. unfold wp, on_world. destruct (m (snd s)); auto. Qed.
Lemma wp_on_field {X Y A} (pr : X -> Y) (up : Y -> X -> X) (m : M (Y * world) A)
  (s : X * world) (Q : X * world -> A -> Prop) XX :
  wp m (pr (fst s), snd s) (fun yw a => Q (up (fst yw) (fst s), snd yw) a)
     (fun yw e => XX (up (fst yw) (fst s), snd yw) e) ->
  wp (on_field pr up m) s Q XX.
Proof. unfold wp, on_field. destruct (m (pr (fst s), snd s)) as [[? ?] ?|[? ?] ?|]; auto. Qed.
Lemma wp_getx {X} (s : X * world) (Q : X * world -> X -> Prop) XX :
  Q s (fst s) -> wp getx s Q XX.
Proof. auto. Qed.
Lemma wp_setx {X} (x : X) (s : X * world) (Q : X * world -> unit -> Prop) XX :
  Q (x, snd s) tt -> wp (setx x) s Q XX.
Proof. auto. Qed.
Lemma wp_modify {S} (f : S -> S) s (Q : S -> unit -> Prop) X :
  Q (f s) tt -> wp (modify f) s Q X.
Proof. auto. Qed.
Lemma wp_and {S A} (m : M S A) s (Q Q' : S -> A -> Prop) (X X' : S -> exn -> Prop) :
  wp m s Q X -> wp m s Q' X' ->
  wp m s (fun s a => Q s a /\ Q' s a) (fun s e => X s e /\ X' s e).
Proof. unfold wp. destruct (m s); auto. Qed.

Lemma wp_ok {S A} (m : M S A) s s' a Q X : wp m s Q X -> m s = Ok s' a -> Q s' a.
Proof. unfold wp. intros H E. rewrite E in H. exact H. Qed.
Lemma wp_exn {S A} (m : M S A) s s' e (Q : S -> A -> Prop) X :
  wp m s Q X -> m s = Exn s' e -> X s' e.
Proof. unfold wp. intros H E. rewrite E in H. exact H. Qed.
Lemma wp_noub {S A} (m : M S A) s (Q : S -> A -> Prop) X : wp m s Q X -> m s <> UB.
Proof. unfold wp. intros H E. rewrite E in H. exact H. Qed.

(** Multiset of blocks *)
Definition cnt (l : list nat) (x : nat) : nat := count_occ Nat.eq_dec l x.
Arguments cnt : simpl never.

Lemma cnt_app l1 l2 x : cnt (l1 ++ l2) x = cnt l1 x + cnt l2 x.
Proof. apply count_occ_app. Qed.
Lemma cnt_cons a l x : cnt (a :: l) x = (if a =? x then 1 else 0) + cnt l x.
Proof.
  unfold cnt. simpl. destruct (Nat.eq_dec a x) as [->|n].
  - rewrite Nat.eqb_refl. lia.
  - apply Nat.eqb_neq in n. rewrite n. lia.
Qed.
Lemma cnt_nil x : cnt [] x = 0.
Proof. reflexivity. Qed.
Lemma cnt_pos l x : 0 < cnt l x <-> In x l.
Proof. unfold cnt. symmetry. apply count_occ_In. Qed.

(** [own w B k]: the allocated blocks are exactly those of the multiset [B], each once,
    and there are exactly [k] element objects. *)
Record own (w : world) (B : nat -> nat) (k : nat) : Prop := {
  own_cnt : forall x, cnt (w_live w) x = B x;
  own_one : forall x, B x <= 1;
  own_rng : forall x, 0 < B x -> 0 < x < w_next w;
  own_objs : w_objs w = k;
  own_next : 0 < w_next w
}.

Lemma own_ext w B k B' k' :
  own w B k -> (forall x, B' x = B x) -> k' = k -> own w B' k'.
Proof.
  intros [H1 H2 H3 H4 H5] E ->. split; auto; intros x.
  - rewrite E; auto.
  - rewrite E; auto.
  - rewrite E; auto.
Qed.

(** Time passes, identifiers are not reused, and what has been freed does not come back. *)
Definition wle (w w' : world) : Prop :=
  w_next w <= w_next w' /\ w_clock w <= w_clock w' /\
  forall b, b < w_next w -> cnt (w_live w') b <= cnt (w_live w) b.
Lemma wle_refl w : wle w w.
Proof. unfold wle; auto. Qed.
Lemma wle_trans w1 w2 w3 : wle w1 w2 -> wle w2 w3 -> wle w1 w3.
Proof.
  intros (A1 & A2 & A3) (B1 & B2 & B3). split; [lia|split; [lia|]]. intros b Hb.
  etransitivity; [apply B3; lia|auto].
Qed.
(** Identifiers given out after [w]. *)
Definition newer (w : world) (l : list nat) : Prop := Forall (fun b => w_next w <= b) l.
Lemma newer_mono w w' l : w_next w <= w_next w' -> newer w' l -> newer w l.
Proof. intros L. apply Forall_impl. intros b Hb. lia. Qed.
(** A block which somebody owns now, and nobody owned before, is new. *)
Lemma own_newer w w' B B' k k' b : own w B k -> own w' B' k' -> wle w w' -> 0 < B' b -> B b = 0 -> w_next w <= b.
Proof.
  intros O O' (_ & _ & L) P Z. destruct (Nat.le_gt_cases (w_next w) b) as [?|Hb]; auto. exfalso.
  specialize (L b Hb). rewrite (own_cnt _ _ _ O), (own_cnt _ _ _ O') in L. lia.
Qed.
Lemma wle_live w w' : w_next w <= w_next w' -> w_clock w <= w_clock w' -> w_live w' = w_live w -> wle w w'.
Proof. intros A B C. split; [auto|split; auto]. intros. rewrite C. auto. Qed.

Section PB.
Context {V : Type} {E : Env V}.

(** Some fallible step between the two worlds failed. *)
Definition faulted (w w' : world) : Prop :=
  exists k, w_clock w <= k < w_clock w' /\ env_fault k = true.

Lemma faulted_mono w1 w2 w3 w4 :
  wle w1 w2 -> faulted w2 w3 -> wle w3 w4 -> faulted w1 w4.
Proof. intros (_ & ? & _) (k & ? & ?) (_ & ? & _). exists k. split; [lia|auto]. Qed.

Lemma wp_tick e w B k (Q : world -> unit -> Prop) (X : world -> exn -> Prop) :
  own w B k ->
  (forall w', own w' B k -> wle w w' -> Q w' tt) ->
  (forall w', own w' B k -> wle w w' -> faulted w w' -> X w' e) ->
  wp (tick e) w Q X.
Proof.
  intros [H1 H2 H3 H4] HQ HX. unfold wp, tick.
  set (w' := mkworld _ _ _ _ _).
  assert (own w' B k) by (split; auto).
  assert (wle w w') by (apply wle_live; unfold w'; simpl; auto).
  destruct (env_fault (w_clock w)) eqn:F; auto.
  apply HX; auto. exists (w_clock w). unfold w'; simpl. split; [lia|auto].
Qed.


Lemma tick_next e w s a : tick e w = Ok s a -> w_next s = w_next w.
Proof. unfold tick. destruct (env_fault _); intros H; inversion H; reflexivity. Qed.

Lemma wp_alloc w B k (Q : world -> nat -> Prop) (X : world -> exn -> Prop) :
  own w B k ->
  (forall w' b, own w' (fun x => cnt [b] x + B x) k -> wle w w' ->
     b = w_next w -> 0 < b -> w_next w < w_next w' -> Q w' b) ->
  (forall w', own w' B k -> wle w w' -> faulted w w' -> X w' BadAlloc) ->
  wp alloc w Q X.
Proof.
  intros [H1 H2 H3 H4 H5] HQ HX. unfold wp, alloc, bind, tick.
  destruct (env_fault (w_clock w)) eqn:F; simpl.
  - apply HX; [split; auto | apply wle_live; simpl; auto |].
    exists (w_clock w). simpl. split; [lia|auto].
  - apply HQ; simpl; auto; [|split; [simpl; lia|split; [simpl; lia|]]].
    2:{ simpl. intros b Hb. rewrite cnt_cons. destruct (Nat.eqb_spec (w_next w) b); lia. }
    assert (HB : B (w_next w) = 0).
    { destruct (B (w_next w)) eqn:EB; auto. specialize (H3 (w_next w)). lia. }
    split; simpl; auto.
    + intros x. rewrite cnt_cons, cnt_cons, cnt_nil, H1. lia.
    + intros x. rewrite cnt_cons, cnt_nil. specialize (H2 x).
      destruct (Nat.eqb_spec (w_next w) x); subst; lia.
    + intros x. rewrite cnt_cons, cnt_nil. specialize (H3 x).
      destruct (Nat.eqb_spec (w_next w) x); subst; lia.
Qed.

Lemma cnt_remove1 b l x : In b l -> cnt (remove1 b l) x + (if b =? x then 1 else 0) = cnt l x.
Proof.
  induction l as [|y l IH]; simpl; [tauto|]. intros H.
  destruct (Nat.eqb_spec y b) as [->|n].
  - rewrite cnt_cons. lia.
  - rewrite !cnt_cons. destruct H as [->|H]; [tauto|]. specialize (IH H). lia.
Qed.

Lemma wp_free b w B B' k (Q : world -> unit -> Prop) (X : world -> exn -> Prop) :
  own w B k ->
  (forall x, B x = cnt [b] x + B' x) ->
  (forall w', own w' B' k -> wle w w' -> Q w' tt) ->
  wp (free b) w Q X.
Proof.
  intros [H1 H2 H3 H4 H5] HB HQ. unfold wp, free.
  assert (Hin : In b (w_live w)).
  { apply cnt_pos. rewrite H1, HB, cnt_cons, Nat.eqb_refl. lia. }
  assert (Hex : existsb (Nat.eqb b) (w_live w) = true).
  { apply existsb_exists. exists b. split; auto. apply Nat.eqb_refl. }
  rewrite Hex. apply HQ; [|split; [simpl; lia|split; [simpl; lia|]]].
  2:{ simpl. intros y Hy. rewrite <- (cnt_remove1 b _ y Hin). lia. }
  split; simpl; auto; intros x.
  - specialize (H1 x). rewrite <- (cnt_remove1 b _ x Hin), HB, cnt_cons, cnt_nil in H1. lia.
  - specialize (H2 x). rewrite HB in H2. lia.
  - specialize (H3 x). rewrite HB in H3. lia.
Qed.

Lemma wp_born n w B k (Q : world -> unit -> Prop) (X : world -> exn -> Prop) :
  own w B k ->
  (forall w', own w' B (k + n) -> wle w w' -> Q w' tt) ->
  wp (born n) w Q X.
Proof.
  intros [H1 H2 H3 H4 H5] HQ. unfold wp, born.
  apply HQ; [|apply wle_live; simpl; auto]. split; simpl; auto.
Qed.

Lemma wp_work n w B k (Q : world -> unit -> Prop) (X : world -> exn -> Prop) :
  own w B k ->
  (forall w', own w' B k -> wle w w' -> Q w' tt) ->
  wp (work n) w Q X.
Proof.
  intros [H1 H2 H3 H4 H5] HQ. unfold wp, work. apply HQ; [|apply wle_live; simpl; auto].
  split; simpl; auto.
Qed.

Lemma wp_die n w B k k' (Q : world -> unit -> Prop) (X : world -> exn -> Prop) :
  own w B k -> k = n + k' ->
  (forall w', own w' B k' -> wle w w' -> Q w' tt) ->
  wp (die n) w Q X.
Proof.
  intros [H1 H2 H3 H4 H5] Hk HQ. unfold wp, die.
  destruct (Nat.leb_spec n (w_objs w)); [|lia].
  apply HQ; [|apply wle_live; simpl; auto]. split; simpl; auto. lia.
Qed.

Lemma wp_fresh w B k (Q : world -> nat -> Prop) (X : world -> exn -> Prop) :
  own w B k ->
  (forall w' i, own w' B k -> wle w w' -> i = w_next w -> w_next w < w_next w' -> Q w' i) ->
  wp fresh w Q X.
Proof.
  intros [H1 H2 H3 H4 H5] HQ. unfold wp, fresh.
  apply HQ; simpl; auto; [|apply wle_live; simpl; auto]. split; simpl; auto.
  intros x Hx. specialize (H3 x Hx). lia.
Qed.

Lemma wp_clock w (Q : world -> nat -> Prop) X : Q w (w_clock w) -> wp clock w Q X.
Proof. auto. Qed.

End PB.

Ltac wle_chain :=
  match goal with
  | |- wle ?a ?a => apply wle_refl
  | H : wle ?a ?b |- wle ?a ?b => exact H
  | H : wle ?a ?b |- wle ?a ?c => eapply wle_trans; [exact H|]; clear H; solve [wle_chain]
  end.
Ltac wle_tac := solve [wle_chain | unfold wle in *; lia].
Ltac fmono := solve [eapply faulted_mono; [|eassumption|]; wle_tac].
(** Split conjunctions, but not records or definitions. *)
Ltac csplit := repeat match goal with |- _ /\ _ => split end.
