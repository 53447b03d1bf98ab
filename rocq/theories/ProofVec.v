(** * Specifications of the vector operations *)

From Coq Require Import List Arith Lia Bool Permutation.
From Verif Require Import Base Vec ProofBase.
Import ListNotations.

Ltac own_solve :=
  first [ eassumption
        | eapply own_ext; [eassumption | intros; simpl; rewrite ?cnt_app, ?cnt_cons, ?cnt_nil; lia | simpl; lia] ].

Section PV.
Context {V : Type} {E : Env V} {A : Type} (eo : eops A).

Definition vc (n : nat) : nat := if eo_obj eo then n else 0.
Definition vn (v : vec A) : nat := vc (vsize v).

Lemma vc_add a b : vc (a + b) = vc a + vc b.
Proof. unfold vc. destruct (eo_obj eo); lia. Qed.
Lemma vc_S a : vc (S a) = vc a + vc 1.
Proof. unfold vc. destruct (eo_obj eo); lia. Qed.
Lemma vc_0 : vc 0 = 0.
Proof. unfold vc. destruct (eo_obj eo); lia. Qed.

(** Well-formed vector. *)
Record wfv (v : vec A) : Prop := {
  wfv_size : vsize v <= v_cap v;
  wfv_max : v_cap v <= eo_max eo;
  wfv_blk : 0 < v_cap v <-> 0 < v_blk v
}.

Lemma wfv_empty : wfv vempty.
Proof. split; unfold vsize; simpl; lia. Qed.

Lemma vblocks_cap0 (v : vec A) : v_cap v = 0 -> vblocks v = [].
Proof. unfold vblocks. intros ->. reflexivity. Qed.
Lemma vblocks_cap (v : vec A) : 0 < v_cap v -> vblocks v = [v_blk v].
Proof. unfold vblocks. destruct (Nat.eqb_spec (v_cap v) 0); auto; lia. Qed.
Lemma vblocks_set (v : vec A) (l : list A) : vblocks (mkvec (v_blk v) (v_cap v) l) = vblocks v.
Proof. reflexivity. Qed.

(** What may make the construction of an element throw. *)
Definition may_throw (h : how) : bool :=
  match h with
  | HCopy => negb (eo_copy_nt eo)
  | HMove => negb (eo_move_nt eo)
  | HEmplace => true
  end.
Definition cthrew (h : how) (w w' : world) (e : exn) : Prop :=
  (e = UserExn /\ faulted w w' /\ may_throw h = true) \/ (h = HCopy /\ eo_refuse eo = Some e).

(** Why an operation that constructs elements as [h] says (if any) may throw. *)
Definition vnoisy (h : option how) (n : nat) : Prop :=
  (exists h0, h = Some h0 /\ (may_throw h0 = true \/ eo_move_nt eo && eo_assign_nt eo = false)) \/ (eo_move_nt eo = false /\ 0 < n).
Definition vthrew (h : option how) (n : nat) (w w' : world) (e : exn) : Prop :=
  ((e = BadAlloc \/ (e = UserExn /\ vnoisy h n)) /\ faulted w w') \/
  (eo_refuse eo = Some e /\ (h = Some HCopy \/ (eo_move_nt eo = false /\ 0 < n))).

Lemma cthrew_mono h w1 w2 w3 w4 e :
  wle w1 w2 -> cthrew h w2 w3 e -> wle w3 w4 -> cthrew h w1 w4 e.
Proof.
  intros L1 [(? & F & ?)|?] L2; [left|right; auto].
  repeat split; auto. eapply faulted_mono; eauto.
Qed.
Lemma vthrew_mono h n w1 w2 w3 w4 e :
  wle w1 w2 -> vthrew h n w2 w3 e -> wle w3 w4 -> vthrew h n w1 w4 e.
Proof.
  intros L1 [(? & F)|?] L2; [left|right; auto].
  split; auto. eapply faulted_mono; eauto.
Qed.
Lemma vthrew_weak h n w w' e : vthrew None n w w' e -> vthrew h n w w' e.
Proof.
  intros [([?|(? & [(? & Q & _)|?])] & ?)|(? & [?|?])]; [left; auto|discriminate| |discriminate|right; auto].
  left. split; auto. right. split; auto. right. auto.
Qed.
Lemma cthrew_vthrew h n w w' e : cthrew h w w' e -> vthrew (Some h) n w w' e.
Proof. intros [(? & ? & ?)|(-> & ?)]; [left|right]; auto. split; auto. right. split; auto. left. eauto. Qed.
Lemma cthrew_vthrew_copy n w w' e :
  cthrew HCopy w w' e -> eo_move_nt eo = false -> 0 < n -> forall h, vthrew h n w w' e.
Proof. intros [(? & ? & ?)|(_ & ?)]; intros; [left|right]; auto. split; auto. right. split; auto. right. auto. Qed.

Ltac tmono := solve [first [eapply vthrew_mono; [|eassumption|]; wle_tac
                           |eapply cthrew_mono; [|eassumption|]; wle_tac]].

Lemma wp_vborn n w B k (Q : world -> unit -> Prop) (X : world -> exn -> Prop) :
  own w B k ->
  (forall w', own w' B (k + vc n) -> wle w w' -> Q w' tt) ->
  wp (vborn eo n) w Q X.
Proof.
  intros H HQ. unfold vborn, vc in *. destruct (eo_obj eo).
  - eapply wp_born; eauto.
  - eapply wp_work; [exact H|]. intros. apply HQ; [rewrite Nat.add_0_r; auto|auto].
Qed.

Lemma wp_vdie n w B k k' (Q : world -> unit -> Prop) (X : world -> exn -> Prop) :
  own w B k -> k = vc n + k' ->
  (forall w', own w' B k' -> wle w w' -> Q w' tt) ->
  wp (vdie eo n) w Q X.
Proof.
  intros H Hk HQ. unfold vdie, vc in *. destruct (eo_obj eo).
  - eapply wp_die; eauto.
  - simpl in Hk. subst k'. eapply wp_work; [exact H|]. intros. apply HQ; auto.
Qed.

Lemma wp_construct h w B k (Q : world -> unit -> Prop) (X : world -> exn -> Prop) :
  own w B k ->
  (forall w', own w' B (k + vc 1) -> wle w w' -> Q w' tt) ->
  (forall w' e, own w' B k -> wle w w' -> cthrew h w w' e -> X w' e) ->
  wp (construct eo h) w Q X.
Proof.
  intros H HQ HX. unfold construct. apply wp_bind.
  assert (HB : forall w', own w' B k -> wle w w' -> wp (vborn eo 1) w' Q X).
  { intros w' H' L. eapply wp_vborn; eauto. intros. apply HQ; auto. wle_tac. }
  assert (HT : may_throw h = true -> wp (tick UserExn) w (fun s' _ => wp (vborn eo 1) s' Q X) X).
  { intros MT. eapply wp_tick; eauto. intros. apply HX; auto. left; auto. }
  destruct h; unfold may_throw in *.
  - destruct (eo_refuse eo) eqn:F.
    + apply wp_throw. apply HX; auto using wle_refl. right; auto.
    + destruct (eo_copy_nt eo); [apply wp_ret; apply HB; auto using wle_refl|auto].
  - destruct (eo_move_nt eo); [apply wp_ret; apply HB; auto using wle_refl|auto].
  - auto.
Qed.

Lemma wp_construct_n h n : forall w B k (Q : world -> unit -> Prop) (X : world -> exn -> Prop),
  own w B k ->
  (forall w', own w' B (k + vc n) -> wle w w' -> Q w' tt) ->
  (forall w' e, own w' B k -> wle w w' -> cthrew h w w' e -> X w' e) ->
  wp (construct_n eo h n) w Q X.
Proof.
  induction n as [|n IH]; intros w B k Q X H HQ HX; cbn [construct_n].
  - apply wp_ret. apply HQ; [rewrite vc_0, Nat.add_0_r; auto|apply wle_refl].
  - apply wp_bind. eapply wp_construct; eauto.
    intros w1 H1 L1. apply wp_try. eapply IH; eauto.
    + intros w2 H2 L2. apply HQ; [|wle_tac]. eapply own_ext; eauto. rewrite vc_S; lia.
    + intros w2 e H2 L2 C. eapply wp_vdie; [eauto| |]; [rewrite Nat.add_comm; reflexivity|].
      intros w3 H3 L3. apply HX; auto; [wle_tac|]. tmono.
Qed.

Lemma wp_relocate n w B k (Q : world -> unit -> Prop) (X : world -> exn -> Prop) :
  own w B k ->
  (forall w', own w' B (k + vc n) -> wle w w' -> Q w' tt) ->
  (forall w' e, own w' B k -> wle w w' -> vthrew None n w w' e -> (e = BadAlloc -> eo_refuse eo = Some BadAlloc) -> X w' e) ->
  wp (relocate eo n) w Q X.
Proof.
  intros H HQ HX. unfold relocate. destruct (eo_move_nt eo) eqn:Em.
  - eapply wp_vborn; eauto.
  - destruct n as [|n].
    { apply wp_ret. apply HQ; [rewrite vc_0, Nat.add_0_r; auto|apply wle_refl]. }
    eapply wp_construct_n; eauto. intros w' e H1 L1 C1. apply HX; auto; [eapply cthrew_vthrew_copy; eauto; lia|].
    intros ->. destruct C1 as [(Q1 & _)|(_ & Q1)]; [discriminate Q1|exact Q1].
Qed.

Lemma wp_dispose v w B B' k k' (Q : world -> unit -> Prop) (X : world -> exn -> Prop) :
  wfv v ->
  own w B k ->
  (forall x, B x = cnt (vblocks v) x + B' x) -> k = vn v + k' ->
  (forall w', own w' B' k' -> wle w w' -> Q w' tt) ->
  wp (dispose eo v) w Q X.
Proof.
  intros Wv H HB Hk HQ. unfold dispose. destruct (Nat.eqb_spec (v_cap v) 0) as [C|C].
  - apply wp_ret. apply HQ; [|apply wle_refl].
    rewrite vblocks_cap0 in HB by auto.
    assert (vsize v = 0) by (destruct Wv; lia).
    unfold vn in Hk. rewrite H0, vc_0 in Hk.
    eapply own_ext; eauto. intros; rewrite HB, cnt_nil; auto.
  - apply wp_bind. eapply wp_vdie; eauto.
    intros w1 H1 L1. rewrite vblocks_cap in HB by lia.
    eapply wp_free; eauto. intros. apply HQ; auto. wle_tac.
Qed.

(** ** realloc, reserve *)

Definition vown w (v : vec A) (R : nat -> nat) (K : nat) : Prop :=
  own w (fun x => cnt (vblocks v) x + R x) (vn v + K).

Definition vpre (h : option how) : nat := match h with None => 0 | Some _ => vc 1 end.

Lemma wp_realloc v c pre w R K (Q : vec A * world -> unit -> Prop) (X : vec A * world -> exn -> Prop) :
  wfv v -> vown w v R K -> 0 < c -> vsize v <= c -> c <= eo_max eo ->
  (forall w' nb, vown w' (mkvec nb c (v_elems v)) R (vpre pre + K) -> wle w w' ->
     w_next w <= nb < w_next w' -> wfv (mkvec nb c (v_elems v)) ->
     Q (mkvec nb c (v_elems v), w') tt) ->
  (forall w' e, vown w' v R K -> wle w w' -> vthrew pre (vsize v) w w' e -> X (v, w') e) ->
  wp (realloc eo c pre) (v, w) Q X.
Proof.
  intros Wv H Hc0 Hc Hm HQ HX. unfold realloc, w_.
  apply wp_bind, wp_getx. cbn [fst].
  apply wp_bind, wp_on_world. cbn [fst snd].
  unfold vown in H.
  eapply wp_alloc; [exact H| |].
  2:{ intros w' H' L F. apply HX; auto. left; auto. }
  intros w1 nb H1 L1 Enb Hnb Hn1.
  apply wp_bind, wp_on_world. cbn [fst snd].
  assert (TAIL : forall w2, own w2 (fun x => cnt [nb] x + (cnt (vblocks v) x + R x))
                   (vn v + K + vpre pre + vc (vsize v)) -> wle w1 w2 ->
     wp (on_world (dispose eo v) ;; setx (mkvec nb c (v_elems v))) (v, w2) Q X).
  { intros w2 H2 L2.
    apply wp_bind, wp_on_world. cbn [fst snd].
    eapply wp_dispose with (B' := fun x => cnt [nb] x + R x) (k' := vpre pre + (vn v + K)); eauto.
    - intros; cbv beta; lia.
    - unfold vn. lia.
    - intros w3 H3 L3. apply wp_setx. cbn [fst snd].
      apply HQ; [| |wle_tac|].
      + unfold vown. rewrite vblocks_cap by (simpl; lia). simpl.
        eapply own_ext; eauto. unfold vn, vsize. simpl. lia.
      + wle_tac.
      + split; simpl; unfold vsize in *; simpl; lia. }
  assert (FREE : forall w2 e, own w2 (fun x => cnt [nb] x + (cnt (vblocks v) x + R x)) (vn v + K) ->
     wle w1 w2 -> vthrew pre (vsize v) w1 w2 e ->
     wp (free nb) w2 (fun s'' _ => X (v, s'') e) (fun s'' e' => X (v, s'') e')).
  { intros w2 e H2 L2 T. eapply wp_free; [exact H2|reflexivity|].
    intros w3 H3 L3. apply HX; [exact H3|wle_tac|]. tmono. }
  apply wp_try.
  destruct pre as [h|].
  - apply wp_bind. eapply wp_construct; [exact H1| |].
    + intros w2 H2 L2. apply wp_try.
      eapply wp_relocate; [exact H2| |].
      * intros w3 H3 L3. apply TAIL; [|wle_tac]. exact H3.
      * intros w3 e H3 L3 T _. eapply wp_vdie; [exact H3| |].
        { rewrite Nat.add_comm. reflexivity. }
        intros w4 H4 L4. apply FREE; [exact H4|wle_tac|].
        apply vthrew_weak. tmono.
    + intros w2 e H2 L2 C. apply FREE; auto. apply cthrew_vthrew; auto.
  - eapply wp_relocate; [exact H1| |].
    + intros w3 H3 L3. apply TAIL; [|wle_tac]. eapply own_ext; eauto; simpl; lia.
    + intros w3 e H3 L3 T _. apply FREE; auto.
Qed.

Lemma vown_pre0 w v R K : vown w v R (0 + K) -> vown w v R K.
Proof. auto. Qed.

(** reserve: nothing changes but the storage; if it throws nothing changes *)
Lemma wp_vec_reserve v n w R K (Q : vec A * world -> unit -> Prop) (X : vec A * world -> exn -> Prop) :
  wfv v -> vown w v R K ->
  (n <= v_cap v -> n <= eo_max eo -> Q (v, w) tt) ->
  (forall w' nb, v_cap v < n -> n <= eo_max eo ->
     vown w' (mkvec nb n (v_elems v)) R K -> wle w w' ->
     w_next w <= nb < w_next w' -> wfv (mkvec nb n (v_elems v)) ->
     Q (mkvec nb n (v_elems v), w') tt) ->
  (forall w' e, vown w' v R K -> wle w w' ->
     (e = LengthError /\ eo_max eo < n /\ w' = w) \/
     (v_cap v < n <= eo_max eo /\ vthrew None (vsize v) w w' e) -> X (v, w') e) ->
  wp (vec_reserve eo n) (v, w) Q X.
Proof.
  intros Wv H HQ1 HQ2 HX. unfold vec_reserve.
  apply wp_bind, wp_getx. cbn [fst].
  destruct (Nat.ltb_spec (eo_max eo) n).
  { apply wp_throw. apply HX; auto using wle_refl. }
  destruct (Nat.leb_spec n (v_cap v)).
  { apply wp_ret. auto. }
  eapply wp_realloc; eauto; try lia.
  - destruct Wv; lia.
Qed.

(** emplace_back: appended, or nothing changes *)
Lemma next_cap_bounds v need :
  need <= eo_max eo -> need <= next_cap eo v need <= eo_max eo.
Proof. unfold next_cap. lia. Qed.

Lemma wp_set_elems l v w (Q : vec A * world -> unit -> Prop) X :
  Q (mkvec (v_blk v) (v_cap v) l, w) tt -> wp (set_elems l) (v, w) Q X.
Proof. auto. Qed.

Lemma vown_set w v l R K : vc (length l) = vn v -> vown w v R K ->
  vown w (mkvec (v_blk v) (v_cap v) l) R K.
Proof.
  intros L H. unfold vown in *. eapply own_ext; eauto.
Qed.

Lemma wp_vec_emplace_back h x v w R K (Q : vec A * world -> unit -> Prop) (X : vec A * world -> exn -> Prop) :
  wfv v -> vown w v R K ->
  (forall w' v', v_elems v' = v_elems v ++ [x] -> wfv v' -> vown w' v' R K -> wle w w' ->
     (vsize v < v_cap v -> v_blk v' = v_blk v /\ v_cap v' = v_cap v) ->
     (v_cap v = vsize v -> w_next w <= v_blk v' < w_next w' /\
         v_cap v' = next_cap eo v (S (vsize v)) /\ S (vsize v) <= eo_max eo) ->
     Q (v', w') tt) ->
  (forall w' e, vown w' v R K -> wle w w' ->
     (e = LengthError /\ v_cap v = vsize v /\ eo_max eo <= vsize v /\ w' = w) \/
     (vsize v < v_cap v /\ cthrew h w w' e) \/
     (v_cap v = vsize v /\ vthrew (Some h) (vsize v) w w' e) -> X (v, w') e) ->
  wp (vec_emplace_back eo h x) (v, w) Q X.
Proof.
  intros Wv H HQ HX. unfold vec_emplace_back.
  apply wp_bind, wp_getx. cbn [fst].
  assert (Hs : vsize v <= v_cap v) by (destruct Wv; auto).
  destruct (Nat.ltb_spec (vsize v) (v_cap v)) as [Ca|Ca].
  - apply wp_bind. unfold w_. apply wp_on_world. cbn [fst snd].
    eapply wp_construct; [exact H| |].
    + intros w1 H1 L1. apply wp_set_elems. apply HQ; auto.
      * split; simpl; destruct Wv; auto. unfold vsize in *. simpl. rewrite app_length. simpl. lia.
      * unfold vown. eapply own_ext; [exact H1|reflexivity|].
        unfold vn, vsize. simpl. rewrite app_length, vc_add. simpl. lia.
      * lia.
    + intros w1 e H1 L1 C. apply HX; auto.
  - destruct (Nat.leb_spec (eo_max eo) (vsize v)) as [Cb|Cb].
    + apply wp_throw. apply HX; auto using wle_refl. left. repeat split; auto; lia.
    + apply wp_bind.
      assert (HN := next_cap_bounds v (S (vsize v))).
      eapply wp_realloc; [auto|exact H|lia|lia|lia| |].
      * intros w1 nb H1 L1 Hnb Wn. apply wp_set_elems. simpl. apply HQ; simpl; auto.
        -- split; simpl; destruct Wn; simpl in *; auto. unfold vsize in *. simpl. rewrite app_length. simpl. lia.
        -- unfold vown. eapply own_ext; [exact H1|reflexivity|].
           unfold vn, vsize. simpl. rewrite app_length, vc_add. simpl. lia.
        -- lia.
      * intros w1 e H1 L1 T. apply HX; auto. right. right. split; auto; lia.
Qed.

(** ** failures under the basic guarantee *)

Lemma junk_list_length clk n : length (junk_list eo clk n) = n.
Proof. unfold junk_list. rewrite map_length, seq_length. reflexivity. Qed.

(** [junked v v' m]: same storage, between size and size+m arbitrary elements *)
Definition junked (v v' : vec A) (m : nat) : Prop :=
  v_blk v' = v_blk v /\ v_cap v' = v_cap v /\ vsize v <= vsize v' <= vsize v + m.

Lemma wp_leave_junk clk v m w R K (Q : vec A * world -> unit -> Prop) (X : vec A * world -> exn -> Prop) :
  wfv v -> vsize v + m <= v_cap v -> vown w v R (vc m + K) ->
  (forall w' v', wfv v' -> junked v v' m -> vown w' v' R K -> wle w w' -> Q (v', w') tt) ->
  wp (leave_junk eo clk (vsize v) m) (v, w) Q X.
Proof.
  intros Wv Hm H HQ. unfold leave_junk. set (j := Nat.min _ _).
  assert (Hj : vsize v <= j <= vsize v + m) by (unfold j; lia).
  apply wp_bind. unfold w_. apply wp_on_world. cbn [fst snd].
  eapply wp_vdie with (k' := vc j + K); [exact H| |].
  - unfold vn. rewrite <- (vc_add _ j) || idtac.
    assert (vc (vsize v + m - j) + vc j = vc (vsize v) + vc m).
    { rewrite <- !vc_add. f_equal. lia. }
    lia.
  - intros w1 H1 L1. apply wp_set_elems. apply HQ; auto.
    + split; simpl; destruct Wv; auto. unfold vsize in *. simpl. rewrite junk_list_length. lia.
    + unfold junked, vsize in *. simpl. rewrite junk_list_length. auto.
    + unfold vown. eapply own_ext; [exact H1|reflexivity|].
      unfold vn, vsize. simpl. rewrite junk_list_length. auto.
Qed.

Lemma wp_leave_some clk v w R K (Q : vec A * world -> unit -> Prop) (X : vec A * world -> exn -> Prop) :
  wfv v -> vown w v R K ->
  (forall w' v', wfv v' -> v_blk v' = v_blk v -> v_cap v' = v_cap v -> vsize v' <= vsize v -> vown w' v' R K -> wle w w' -> Q (v', w') tt) ->
  wp (leave_junk eo clk 0 (vsize v)) (v, w) Q X.
Proof.
  intros Wv H HQ. unfold leave_junk. set (j := Nat.min _ _).
  assert (Hj : j <= vsize v) by (unfold j; lia).
  apply wp_bind. unfold w_. apply wp_on_world. cbn [fst snd].
  eapply wp_vdie with (k' := vc j + K); [exact H| |].
  - unfold vn. assert (vc (0 + vsize v - j) + vc j = vc (vsize v)).
    { rewrite <- !vc_add. f_equal. lia. }
    lia.
  - intros w1 H1 L1. apply wp_set_elems. apply HQ; auto.
    + split; simpl; destruct Wv; auto. unfold vsize in *. simpl. rewrite junk_list_length. lia.
    + unfold vsize in *. simpl. rewrite junk_list_length. auto.
    + unfold vown. eapply own_ext; [exact H1|reflexivity|].
      unfold vn, vsize. simpl. rewrite junk_list_length. auto.
Qed.

Lemma wp_shift_step d nt v m w R K (Q : vec A * world -> unit -> Prop) (X : vec A * world -> exn -> Prop) :
  wfv v -> vsize v + m <= v_cap v -> vown w v R (vc m + K) ->
  (forall w', vown w' v R (vc m + K) -> wle w w' -> Q (v, w') tt) ->
  (forall w' v', nt = false -> wfv v' -> junked v v' m -> vown w' v' R K -> wle w w' ->
     faulted w w' -> X (v', w') UserExn) ->
  wp (shift_step eo d nt (vsize v) m) (v, w) Q X.
Proof.
  intros Wv Hm H0 HQ HX. unfold shift_step. unfold w_. apply wp_bind, wp_on_world. cbn [fst snd].
  eapply wp_work; [exact H0|]. intros w0 H L0. destruct nt.
  - apply wp_ret. apply HQ; auto.
  - apply wp_bind, wp_on_world, wp_clock. cbn [fst snd].
    apply wp_try, wp_on_world. cbn [fst snd].
    eapply wp_tick; [exact H| |].
    + intros w1 H1 L1. apply HQ; auto. wle_tac.
    + intros w1 H1 L1 F. eapply wp_leave_junk; eauto.
      intros w2 v' W' J H2 L2. apply HX; auto; [wle_tac|].
      fmono.
Qed.

(** emplace: as insert_at; strong guarantee if the position is the end, storage has to be
    reallocated or elements are moved without throwing; otherwise basic *)
Lemma wp_vec_emplace k h x v w R K (Q : vec A * world -> nat -> Prop) (X : vec A * world -> exn -> Prop) :
  wfv v -> vown w v R K -> k <= vsize v ->
  (forall w' v', v_elems v' = insert_at k x (v_elems v) -> wfv v' -> vown w' v' R K -> wle w w' ->
     (vsize v < v_cap v -> v_blk v' = v_blk v /\ v_cap v' = v_cap v) ->
     (v_cap v = vsize v -> w_next w <= v_blk v' < w_next w' /\
         v_cap v' = next_cap eo v (S (vsize v)) /\ S (vsize v) <= eo_max eo) ->
     Q (v', w') k) ->
  (forall w' e, vown w' v R K -> wle w w' ->
     (e = LengthError /\ v_cap v = vsize v /\ eo_max eo <= vsize v /\ w' = w) \/
     (vsize v < v_cap v /\ cthrew h w w' e) \/
     (v_cap v = vsize v /\ vthrew (Some h) (vsize v) w w' e) -> X (v, w') e) ->
  (forall w' v', k < vsize v -> vsize v < v_cap v -> eo_move_nt eo && eo_assign_nt eo = false ->
     wfv v' -> junked v v' 1 -> vown w' v' R K -> wle w w' -> faulted w w' ->
     X (v', w') UserExn) ->
  wp (vec_emplace eo k h x) (v, w) Q X.
Proof.
  intros Wv H Hk HQ HX HJ. unfold vec_emplace.
  apply wp_bind, wp_getx. cbn [fst].
  assert (Hs : vsize v <= v_cap v) by (destruct Wv; auto).
  destruct (Nat.ltb_spec (vsize v) k) as [Cc|Cc]; [lia|].
  destruct (Nat.eqb_spec k (vsize v)) as [->|n].
  - apply wp_bind. eapply wp_vec_emplace_back; eauto.
    intros w1 v' El W' H1 L1 P1 P2. apply wp_ret. apply HQ; auto.
    rewrite El. unfold insert_at, vsize.
    rewrite firstn_all, skipn_all. reflexivity.
  - assert (LEN : length (insert_at k x (v_elems v)) = S (vsize v)).
    { unfold insert_at, vsize in *. rewrite app_length. simpl.
      rewrite firstn_length, skipn_length. lia. }
    destruct (Nat.ltb_spec (vsize v) (v_cap v)) as [Ca|Ca].
    + apply wp_bind. unfold w_. apply wp_on_world. cbn [fst snd].
      eapply wp_construct; [exact H| |].
      * intros w1 H1 L1. apply wp_bind.
        assert (H1' : vown w1 v R (vc 1 + K)).
        { unfold vown. eapply own_ext; [exact H1|reflexivity|lia]. }
        eapply wp_shift_step; [auto|lia|exact H1'| |].
        -- intros w2 H2 L2. apply wp_bind, wp_set_elems, wp_ret. apply HQ; simpl; auto.
           ++ split; simpl; destruct Wv; auto. unfold vsize in *. simpl. lia.
           ++ unfold vown. eapply own_ext; [exact H2|reflexivity|].
              unfold vn. unfold vsize at 1. simpl. rewrite LEN, vc_S. lia.
           ++ wle_tac.
           ++ lia.
        -- intros w2 v' NT W' J H2 L2 F. apply HJ; auto; [lia|wle_tac|].
           fmono.
      * intros w1 e H1 L1 C. apply HX; auto.
    + destruct (Nat.leb_spec (eo_max eo) (vsize v)) as [Cb|Cb].
      * apply wp_throw. apply HX; auto using wle_refl. left. repeat split; auto; lia.
      * apply wp_bind.
        assert (HN := next_cap_bounds v (S (vsize v))).
        eapply wp_realloc; [auto|exact H|lia|lia|lia| |].
        -- intros w1 nb H1 L1 Hnb Wn. apply wp_bind, wp_set_elems, wp_ret. simpl.
           apply HQ; simpl; auto.
           ++ split; simpl; destruct Wn; simpl in *; auto. unfold vsize in *. simpl. lia.
           ++ unfold vown. eapply own_ext; [exact H1|reflexivity|].
              unfold vn. unfold vsize at 1. simpl. rewrite LEN, vc_S. unfold vn, vsize; simpl. lia.
           ++ lia.
        -- intros w1 e H1 L1 T. apply HX; auto. right. right. split; auto; lia.
Qed.

(** range insertion *)
Lemma insert_list_at_length {T} k (xs l : list T) :
  length (insert_list_at k xs l) = length xs + length l.
Proof.
  unfold insert_list_at. rewrite !app_length.
  rewrite <- (firstn_skipn k l) at 3. rewrite app_length. lia.
Qed.

Lemma wp_vec_insert_range k h xs v w R K (Q : vec A * world -> nat -> Prop) (X : vec A * world -> exn -> Prop) :
  wfv v -> vown w v R K -> k <= vsize v ->
  (forall w' v', v_elems v' = insert_list_at k xs (v_elems v) -> wfv v' -> vown w' v' R K ->
     wle w w' ->
     (vsize v + length xs <= v_cap v -> v_blk v' = v_blk v /\ v_cap v' = v_cap v) ->
     (v_cap v < vsize v + length xs -> w_next w <= v_blk v' < w_next w' /\
         v_cap v' = next_cap eo v (vsize v + length xs) /\ vsize v + length xs <= eo_max eo) ->
     Q (v', w') k) ->
  (forall w' v' e, wfv v' -> vown w' v' R K -> wle w w' ->
     (e = LengthError /\ eo_max eo < vsize v + length xs /\ v' = v /\ w' = w) \/
     (junked v v' (if vsize v + length xs <=? v_cap v then length xs else 0) /\
      vthrew (Some h) (vsize v) w w' e /\ (e = BadAlloc -> eo_refuse eo <> Some BadAlloc -> v' = v)) ->
     X (v', w') e) ->
  wp (vec_insert_range eo k h xs) (v, w) Q X.
Proof.
  intros Wv H Hk HQ HX. unfold vec_insert_range.
  apply wp_bind, wp_getx. cbn [fst].
  assert (Hs : vsize v <= v_cap v) by (destruct Wv; auto).
  destruct (Nat.ltb_spec (vsize v) k) as [Cc|Cc]; [lia|].
  destruct (Nat.eqb_spec (length xs) 0) as [Z|NZ].
  { destruct xs; [|simpl in Z; lia].
    assert (EL : insert_list_at k [] (v_elems v) = v_elems v).
    { unfold insert_list_at. simpl. apply firstn_skipn. }
    apply wp_ret. apply HQ; auto using wle_refl; simpl in *; lia. }
  destruct (Nat.ltb_spec (eo_max eo) (vsize v + length xs)) as [Cd|Cd].
  { apply wp_throw. apply HX; auto using wle_refl. }
  unfold w_. apply wp_bind, wp_on_world, wp_clock. cbn [fst snd].
  apply wp_bind.
  assert (LEN : length (insert_list_at k xs (v_elems v)) = length xs + vsize v).
  { apply insert_list_at_length. }
  destruct (Nat.leb_spec (vsize v + length xs) (v_cap v)) as [C|C].
  - apply wp_bind, wp_try, wp_on_world. cbn [fst snd].
    eapply wp_construct_n; [exact H| |].
    + intros w1 H1 L1.
      assert (H1' : vown w1 v R (vc (length xs) + K)).
      { unfold vown. eapply own_ext; [exact H1|reflexivity|lia]. }
      eapply wp_shift_step; [auto|lia|exact H1'| |].
      * intros w2 H2 L2. apply wp_bind, wp_set_elems, wp_ret. apply HQ; simpl; auto.
        -- split; simpl; destruct Wv; auto. unfold vsize in *. simpl. lia.
        -- unfold vown. eapply own_ext; [exact H2|reflexivity|].
           unfold vn. unfold vsize at 1. simpl. rewrite LEN, vc_add. lia.
        -- wle_tac.
        -- lia.
      * intros w2 v' NT W' J H2 L2 F. apply HX; auto; [wle_tac|].
        right. split; auto. split; [left; split; [right; split; auto; left; eauto|fmono]|discriminate].
    + intros w1 e H1 L1 C1. apply wp_bind, wp_on_world. cbn [fst snd].
      eapply wp_vborn; [exact H1|]. intros w2 H2 L2.
      assert (H2' : vown w2 v R (vc (length xs) + K)).
      { unfold vown. eapply own_ext; [exact H2|reflexivity|lia]. }
      eapply wp_leave_junk; [auto|lia|exact H2'|].
      intros w3 v' W' J H3 L3. apply HX; auto; [wle_tac|].
      right. split; auto. split; [apply cthrew_vthrew; tmono|].
      intros -> N. destruct C1 as [(Q1 & _)|(_ & Q1)]; [discriminate Q1|contradiction].
  - apply wp_bind, wp_on_world. cbn [fst snd].
    eapply wp_alloc; [exact H| |].
    2:{ intros w1 H1 L1 F. apply HX; auto. right. split; [|split; [left; auto|auto]].
        unfold junked; repeat split; lia. }
    intros w1 nb H1 L1 Enb Hnb Hn1.
    assert (FAIL : forall w2 e, own w2 (fun x => cnt [nb] x + (cnt (vblocks v) x + R x)) (vn v + K) ->
       wle w1 w2 -> vthrew (Some h) (vsize v) w1 w2 e -> (e = BadAlloc -> eo_refuse eo = Some BadAlloc) ->
       wp (on_world (free nb) ;; leave_junk eo (w_clock w) (vsize v) 0) (v, w2)
          (fun s'' _ => X s'' e) X).
    { intros w2 e H2 L2 T N. apply wp_bind, wp_on_world. cbn [fst snd].
      eapply wp_free; [exact H2|reflexivity|]. intros w3 H3 L3.
      assert (H3' : vown w3 v R (vc 0 + K)).
      { unfold vown. eapply own_ext; [exact H3|reflexivity|rewrite vc_0; lia]. }
      eapply wp_leave_junk; [auto|lia|exact H3'|].
      intros w4 v' W' J H4 L4. apply HX; auto; [wle_tac|].
      right. split; auto. split; [tmono|]. intros Q1 N1. elim N1. auto. }
    apply wp_bind, wp_try, wp_on_world. cbn [fst snd].
    apply wp_bind. eapply wp_construct_n; [exact H1| |].
    + intros w2 H2 L2. apply wp_try. eapply wp_relocate; [exact H2| |].
      * intros w3 H3 L3. apply wp_bind, wp_on_world. cbn [fst snd].
        eapply wp_dispose with (B' := fun x => cnt [nb] x + R x)
          (k' := vc (length xs) + (vn v + K)); [auto|exact H3| | |].
        -- intros; cbv beta; lia.
        -- unfold vn. lia.
        -- intros w4 H4 L4. apply wp_setx. cbn [fst snd].
           apply wp_bind, wp_set_elems, wp_ret. simpl.
           assert (HN := next_cap_bounds v (vsize v + length xs)).
           apply HQ; simpl; auto.
           ++ split; simpl; [unfold vsize in *; simpl; lia|lia|lia].
           ++ unfold vown. rewrite vblocks_cap by (simpl; lia). simpl.
              eapply own_ext; [exact H4|reflexivity|].
              unfold vn. unfold vsize at 1. simpl. rewrite LEN, vc_add. unfold vn. lia.
           ++ wle_tac.
           ++ lia.
           ++ intros _. repeat split; try lia. wle_tac.
      * intros w3 e H3 L3 T N. eapply wp_vdie; [exact H3| |].
        { rewrite Nat.add_comm. reflexivity. }
        intros w4 H4 L4. apply FAIL; [exact H4|wle_tac| |].
        -- apply vthrew_weak. tmono.
        -- exact N.
    + intros w2 e H2 L2 C2. apply FAIL; auto; [apply cthrew_vthrew; auto|].
      intros ->. destruct C2 as [(Q1 & _)|(_ & Q1)]; [discriminate Q1|exact Q1].
Qed.

(** erase *)
Lemma remove_range_length {T} f l (xs : list T) :
  f <= l -> l <= length xs -> length (remove_range f l xs) = length xs - (l - f).
Proof.
  intros. unfold remove_range. rewrite app_length, firstn_length, skipn_length. lia.
Qed.

Lemma wp_vec_erase_range f l v w R K (Q : vec A * world -> nat -> Prop) (X : vec A * world -> exn -> Prop) :
  wfv v -> vown w v R K -> f <= l -> l <= vsize v ->
  (forall w' v', v_elems v' = remove_range f l (v_elems v) -> wfv v' -> vown w' v' R K ->
     wle w w' -> v_blk v' = v_blk v -> v_cap v' = v_cap v -> Q (v', w') f) ->
  (forall w' v', f < l < vsize v -> eo_assign_nt eo = false -> wfv v' -> junked v v' 0 ->
     vown w' v' R K -> wle w w' -> faulted w w' -> X (v', w') UserExn) ->
  wp (vec_erase_range eo f l) (v, w) Q X.
Proof.
  intros Wv H Hf Hl HQ HX. unfold vec_erase_range.
  apply wp_bind, wp_getx. cbn [fst].
  destruct (Nat.ltb_spec l f) as [Ce|Ce]; [lia|]. destruct (Nat.ltb_spec (vsize v) l) as [Cf|Cf]; [lia|]. simpl.
  destruct (Nat.eqb_spec f l) as [->|n].
  { apply wp_ret. apply HQ; auto using wle_refl.
    unfold remove_range. rewrite firstn_skipn. reflexivity. }
  apply wp_bind.
  assert (H' : vown w v R (vc 0 + K)).
  { unfold vown. eapply own_ext; [exact H|reflexivity|rewrite vc_0; lia]. }
  assert (LEN : length (remove_range f l (v_elems v)) = vsize v - (l - f)).
  { apply remove_range_length; auto. }
  eapply wp_shift_step; [auto| |exact H'| |].
  { destruct Wv; lia. }
  - intros w1 H1 L1. apply wp_bind. unfold w_. apply wp_on_world. cbn [fst snd].
    eapply wp_vdie with (k' := vc (vsize v - (l - f)) + K); [exact H1| |].
    { unfold vn. rewrite vc_0. replace (vsize v) with ((l - f) + (vsize v - (l - f))) at 1 by lia.
      rewrite vc_add. lia. }
    intros w2 H2 L2. apply wp_bind, wp_set_elems, wp_ret. apply HQ; simpl; auto.
    + split; simpl; destruct Wv; auto. unfold vsize in *. simpl. lia.
    + unfold vown. eapply own_ext; [exact H2|reflexivity|].
      unfold vn. unfold vsize at 1. simpl. rewrite LEN. auto.
    + wle_tac.
  - intros w1 v' NT W' J H1 L1 F. apply orb_false_iff in NT. destruct NT as [NT1 NT2].
    apply Nat.eqb_neq in NT2. apply HX; auto. lia.
Qed.

Lemma wp_vec_erase k v w R K (Q : vec A * world -> nat -> Prop) (X : vec A * world -> exn -> Prop) :
  wfv v -> vown w v R K -> k < vsize v ->
  (forall w' v', v_elems v' = remove_range k (S k) (v_elems v) -> wfv v' -> vown w' v' R K ->
     wle w w' -> v_blk v' = v_blk v -> v_cap v' = v_cap v -> Q (v', w') k) ->
  (forall w' v', S k < vsize v -> eo_assign_nt eo = false -> wfv v' -> junked v v' 0 ->
     vown w' v' R K -> wle w w' -> faulted w w' -> X (v', w') UserExn) ->
  wp (vec_erase eo k) (v, w) Q X.
Proof.
  intros Wv H Hk HQ HX. unfold vec_erase.
  apply wp_bind, wp_getx. cbn [fst].
  destruct (Nat.leb_spec (vsize v) k) as [Cc|Cc]; [lia|].
  eapply wp_vec_erase_range; eauto; try lia.
  intros. apply HX; auto. lia.
Qed.

Lemma wp_vec_clear v w R K (Q : vec A * world -> unit -> Prop) (X : vec A * world -> exn -> Prop) :
  wfv v -> vown w v R K ->
  (forall w', wfv (mkvec (v_blk v) (v_cap v) []) -> vown w' (mkvec (v_blk v) (v_cap v) []) R K ->
     wle w w' -> Q (mkvec (v_blk v) (v_cap v) [], w') tt) ->
  wp (vec_clear eo) (v, w) Q X.
Proof.
  intros Wv H HQ. unfold vec_clear, w_.
  apply wp_bind, wp_getx. cbn [fst]. apply wp_bind, wp_on_world. cbn [fst snd].
  eapply wp_vdie with (k' := K); [exact H|reflexivity|].
  intros w1 H1 L1. apply wp_set_elems. apply HQ; auto.
  - split; simpl; destruct Wv; auto. unfold vsize; simpl; lia.
  - unfold vown. eapply own_ext; [exact H1|reflexivity|].
    unfold vn, vsize; simpl. rewrite vc_0. lia.
Qed.

Lemma removelast_length {T} (l : list T) : length (removelast l) = length l - 1.
Proof.
  induction l as [|a l IH]; auto. simpl. destruct l; auto. simpl in *. lia.
Qed.

Lemma wp_vec_pop_back v w R K (Q : vec A * world -> unit -> Prop) (X : vec A * world -> exn -> Prop) :
  wfv v -> vown w v R K -> 0 < vsize v ->
  (forall w', let v' := mkvec (v_blk v) (v_cap v) (removelast (v_elems v)) in
     wfv v' -> vown w' v' R K -> wle w w' -> Q (v', w') tt) ->
  wp (vec_pop_back eo) (v, w) Q X.
Proof.
  intros Wv H Hs HQ. unfold vec_pop_back, w_.
  apply wp_bind, wp_getx. cbn [fst].
  assert (Hs' : 0 < vsize v) by auto. unfold vsize in Hs'.
  assert (LR : length (removelast (v_elems v)) = vsize v - 1) by apply removelast_length.
  assert (EX : exists a l, v_elems v = a :: l).
  { destruct (v_elems v) as [|a l]; [simpl in Hs'; lia|eauto]. }
  destruct EX as (a0 & l0 & Eq). rewrite Eq at 1.
  apply wp_bind, wp_on_world. cbn [fst snd].
  eapply wp_vdie with (k' := vc (vsize v - 1) + K); [exact H| |].
  { unfold vn. replace (vsize v) with (1 + (vsize v - 1)) at 1 by lia. rewrite vc_add. lia. }
  intros w1 H1 L1. apply wp_set_elems. apply HQ; auto.
  - split; simpl; destruct Wv; auto. unfold vsize in *. simpl. lia.
  - unfold vown. eapply own_ext; [exact H1|reflexivity|].
    unfold vn. unfold vsize at 1. simpl. rewrite LR. auto.
Qed.

(** shrink_to_fit: same elements; unchanged if it throws *)
Lemma wp_vec_shrink v w R K (Q : vec A * world -> unit -> Prop) (X : vec A * world -> exn -> Prop) :
  wfv v -> vown w v R K ->
  (forall w', vown w' v R K -> wle w w' -> Q (v, w') tt) ->
  (forall w' v', v_elems v' = v_elems v -> wfv v' -> vown w' v' R K -> wle w w' ->
     v_cap v' = vsize v -> vsize v < v_cap v ->
     (vsize v = 0 -> v' = vempty) ->
     (0 < vsize v -> w_next w <= v_blk v' < w_next w') ->
     Q (v', w') tt) ->
  (forall w' e, vown w' v R K -> wle w w' -> vthrew None (vsize v) w w' e -> 0 < vsize v < v_cap v ->
     X (v, w') e) ->
  wp (vec_shrink_to_fit eo) (v, w) Q X.
Proof.
  intros Wv H HQ1 HQ2 HX. unfold vec_shrink_to_fit, w_.
  apply wp_bind, wp_getx. cbn [fst]. apply wp_bind, wp_on_world, wp_clock. cbn [fst snd].
  assert (Hs : vsize v <= v_cap v) by (destruct Wv; auto).
  assert (Hm : v_cap v <= eo_max eo) by (destruct Wv; auto).
  destruct (env_shrink_noop (w_clock w)); simpl.
  { apply wp_ret. apply HQ1; auto using wle_refl. }
  destruct (Nat.eqb_spec (v_cap v) (vsize v)).
  { apply wp_ret. apply HQ1; auto using wle_refl. }
  destruct (Nat.eqb_spec (vsize v) 0) as [Z|Z].
  { apply wp_bind, wp_on_world. cbn [fst snd].
    eapply wp_dispose with (B' := R) (k' := K); [auto|exact H|reflexivity|reflexivity|].
    intros w1 H1 L1. apply wp_setx. cbn [fst snd].
    assert (v_elems v = []). { unfold vsize in Z. destruct (v_elems v); auto. simpl in Z; lia. }
    apply HQ2; simpl; auto using wfv_empty; try lia.
    unfold vown. eapply own_ext; [exact H1| |].
    - intros. rewrite vblocks_cap0 by auto. rewrite cnt_nil. auto.
    - unfold vn, vsize; simpl. rewrite vc_0. auto. }
  assert (RE : forall (Q' : vec A * world -> unit -> Prop) (X' : vec A * world -> exn -> Prop),
     (forall w' v', v_elems v' = v_elems v -> wfv v' -> vown w' v' R K -> wle w w' ->
        v_cap v' = vsize v -> (0 < vsize v -> w_next w <= v_blk v' < w_next w') ->
        Q' (v', w') tt) ->
     (forall w' e, vown w' v R K -> wle w w' -> vthrew None (vsize v) w w' e -> X' (v, w') e) ->
     wp (realloc eo (vsize v) None) (v, w) Q' X').
  { intros Q' X' HQ' HX'. eapply wp_realloc; [auto|exact H|lia|lia|lia| |]; auto. }
  destruct env_shrink_swallow.
  - assert (G : wp (realloc eo (vsize v) None) (v, w) Q (fun s _ => Q s tt)).
    { apply RE; auto. intros. apply HQ2; auto; lia. }
    unfold wp in *. destruct (realloc eo (vsize v) None (v, w)); auto.
  - apply RE.
    + intros. apply HQ2; auto; lia.
    + intros. apply HX; auto. lia.
Qed.

(** copy *)
Lemma wp_vec_copy x w B k (Q : world -> vec A -> Prop) (X : world -> exn -> Prop) :
  wfv x -> own w B k ->
  (forall w' v', v_elems v' = v_elems x -> wfv v' -> vown w' v' B k -> wle w w' ->
     v_cap v' = vsize x -> (0 < vsize x -> eo_refuse eo = None) -> Q w' v') ->
  (forall w' e, own w' B k -> wle w w' ->
     (e = BadAlloc /\ faulted w w') \/ cthrew HCopy w w' e -> 0 < vsize x -> X w' e) ->
  wp (vec_copy eo x) w Q X.
Proof.
  intros Wx H HQ HX. unfold vec_copy.
  destruct (Nat.eqb_spec (vsize x) 0) as [Z|Z].
  { apply wp_ret. assert (v_elems x = []). { unfold vsize in Z. destruct (v_elems x); auto. simpl in Z; lia. }
    apply HQ; simpl; auto using wfv_empty, wle_refl; try lia.
    unfold vown. eapply own_ext; [exact H| |].
    - intros. rewrite vblocks_cap0 by auto. rewrite cnt_nil. auto.
    - unfold vn, vsize; simpl. rewrite vc_0. auto. }
  apply wp_bind. eapply wp_alloc; [exact H| |].
  2:{ intros. apply HX; auto. lia. }
  intros w1 nb H1 L1 Enb Hnb Hn1.
  destruct (eo_refuse eo) as [e0|] eqn:RF.
  { apply wp_bind, wp_try. destruct (vsize x) as [|n]; [lia|].
    cbn [construct_n]. unfold construct. rewrite RF.
    apply wp_bind, wp_bind, wp_throw. eapply wp_free; [exact H1|reflexivity|].
    intros w3 H3 L3. apply HX; auto; [wle_tac| |lia]. right. right. auto. }
  apply wp_bind, wp_try. eapply wp_construct_n; [exact H1| |].
  - intros w2 H2 L2. apply wp_ret. apply HQ; simpl; auto.
    + split; simpl; unfold vsize in *; simpl; destruct Wx; unfold vsize in *; lia.
    + unfold vown. rewrite vblocks_cap by (simpl; lia). simpl.
      eapply own_ext; [exact H2|reflexivity|]. unfold vn, vsize; simpl. lia.
    + wle_tac.
  - intros w2 e H2 L2 C. eapply wp_free; [exact H2|reflexivity|].
    intros w3 H3 L3. apply HX; auto; [wle_tac| |lia]. right. tmono.
Qed.

(** move: the result has the elements, the source at most as many as before *)
Lemma wp_vec_move same x w R K (Q : vec A * world -> vec A -> Prop) (X : vec A * world -> exn -> Prop) :
  wfv x -> vown w x R K ->
  (forall w' x' v', v_elems v' = v_elems x -> wfv v' -> wfv x' -> vsize x' <= vsize x ->
     vown w' v' (fun b => cnt (vblocks x') b + R b) (vn x' + K) -> wle w w' ->
     (same = true -> v' = x /\ x' = vempty /\ w' = w) ->
     (same = false -> v_cap v' = vsize x /\ newer w (vblocks v')) ->
     Q (x', w') v') ->
  (forall w' x' e, wfv x' -> vown w' x' R K -> wle w w' -> same = false -> 0 < vsize x ->
     junked x x' 0 -> (e = BadAlloc /\ faulted w w') \/ cthrew HMove w w' e ->
     X (x', w') e) ->
  wp (vec_move eo same) (x, w) Q X.
Proof.
  intros Wx H HQ HX. unfold vec_move, w_.
  apply wp_bind, wp_getx. cbn [fst]. destruct same.
  { apply wp_bind, wp_setx, wp_ret. cbn [fst snd].
    apply HQ; auto using wfv_empty, wle_refl; [unfold vsize; simpl; lia| |discriminate].
    unfold vown. eapply own_ext; [exact H| |].
    - intros. rewrite (vblocks_cap0 vempty) by auto. rewrite cnt_nil. auto.
    - unfold vn at 2, vsize; simpl. rewrite vc_0. auto. }
  destruct (Nat.eqb_spec (vsize x) 0) as [Z|Z].
  { apply wp_ret. assert (EL : v_elems x = []). { unfold vsize in Z. destruct (v_elems x); auto. simpl in Z; lia. }
    apply HQ; auto using wfv_empty, wle_refl; try discriminate.
    2:{ intros _. split; auto. rewrite (vblocks_cap0 vempty) by auto. constructor. }
    unfold vown. eapply own_ext; [exact H| |].
    - intros. rewrite (vblocks_cap0 vempty) by auto. rewrite cnt_nil. auto.
    - unfold vn at 1, vsize; simpl. rewrite vc_0. auto. }
  apply wp_bind, wp_on_world, wp_clock. cbn [fst snd].
  apply wp_bind, wp_on_world. cbn [fst snd].
  eapply wp_alloc; [exact H| |].
  2:{ intros. apply HX; auto; [lia|]. unfold junked; repeat split; lia. }
  intros w1 nb H1 L1 Enb Hnb Hn1.
  apply wp_bind, wp_try, wp_on_world. cbn [fst snd].
  eapply wp_construct_n; [exact H1| |].
  - intros w2 H2 L2. apply wp_bind.
    assert (H2' : vown w2 x (fun b => cnt [nb] b + R b) (vn x + K)).
    { unfold vown. eapply own_ext; [exact H2|intros; cbv beta; lia|unfold vn; lia]. }
    eapply wp_leave_some; [auto|exact H2'|].
    intros w3 x3 W3 Bx Cx Sx H3 L3. apply wp_ret. apply HQ; simpl; auto; try discriminate.
    + split; simpl; unfold vsize in *; simpl; destruct Wx; unfold vsize in *; lia.
    + unfold vown in *. rewrite (vblocks_cap (mkvec nb _ _)) by (simpl; lia). simpl.
      eapply own_ext; [exact H3|intros; simpl; lia|].
      unfold vn, vsize; simpl. lia.
    + wle_tac.
    + intros _. split; auto. rewrite (vblocks_cap (mkvec nb _ _)) by (simpl; lia). simpl. constructor; [lia|constructor].
  - intros w2 e H2 L2 C. apply wp_bind, wp_on_world. cbn [fst snd].
    eapply wp_free; [exact H2|reflexivity|]. intros w3 H3 L3.
    assert (H3' : vown w3 x R (vc 0 + K)).
    { unfold vown. eapply own_ext; [exact H3|reflexivity|rewrite vc_0; lia]. }
    eapply wp_leave_junk; [auto| |exact H3'|].
    { destruct Wx; lia. }
    intros w4 v' W' J H4 L4. apply HX; auto; [wle_tac|lia|].
    right. tmono.
Qed.

End PV.
