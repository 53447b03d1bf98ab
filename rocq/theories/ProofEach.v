(** * Operations running over several segments *)

From Coq Require Import List Arith Lia Bool Permutation.
From Verif Require Import Base Vec Backend Segment Coll Spec ProofBase ProofVec ProofBackend ProofOps ProofOps2 ProofSeg ProofMap ProofView ProofColl ProofIns.
Import ListNotations.

Section PEach.
Context {V : Type} {E : Env V}.

Notation SW := (segment V * world)%type.
Notation CW := (coll V * world)%type.
Notation NL := (list (node V)).
Notation nb n := (sg_be (n_seg n)).
Notation nsz n := (bsize (sg_be (n_seg n))).

Ltac bmono := solve [eapply bthrew_mono; [|eassumption|]; wle_tac].

(** The segment of a node changed from one to the other. *)
Definition nrel (P : segment V -> segment V -> Prop) (n n' : node V) : Prop :=
  n_id n' = n_id n /\ n_key n' = n_key n /\ sg_ty (n_seg n') = sg_ty (n_seg n) /\
  sg_al (n_seg n') = sg_al (n_seg n) /\ wfs (n_seg n') /\ P (n_seg n) (n_seg n').

(** Triple of a segment operation. *)
Definition seg_op {A} (m : M SW A) (P : segment V -> segment V -> Prop)
  (PX : world -> world -> segment V -> segment V -> exn -> Prop) : Prop :=
  forall s w R K, wfs s -> sown w s R K ->
  wp m (s, w)
    (fun sw _ => P s (fst sw) /\ wfs (fst sw) /\ sg_ty (fst sw) = sg_ty s /\ sg_al (fst sw) = sg_al s /\
       sown (snd sw) (fst sw) R K /\ wle w (snd sw))
    (fun sw e => PX w (snd sw) s (fst sw) e /\ wfs1 (fst sw) /\ sg_ty (fst sw) = sg_ty s /\ sg_al (fst sw) = sg_al s /\
       sown (snd sw) (fst sw) R K /\ wle w (snd sw)).

(** One segment failed, those before it were done, those after it not. *)
Definition each_fail (P : segment V -> segment V -> Prop) (PX : world -> world -> segment V -> segment V -> exn -> Prop)
  (w w' : world) (mid mid' : NL) (e : exn) : Prop :=
  exists m1 n m2 m1' n', mid = m1 ++ n :: m2 /\ mid' = m1' ++ n' :: m2 /\ Forall2 (nrel P) m1 m1' /\
    n_id n' = n_id n /\ n_key n' = n_key n /\ sg_ty (n_seg n') = sg_ty (n_seg n) /\
    PX w w' (n_seg n) (n_seg n') e.

Lemma wp_for_each {A} (m : M SW A) P PX R K : seg_op m P PX ->
  (forall w0 w w' s s' e, wle w0 w -> PX w w' s s' e -> PX w0 w' s s' e) ->
  forall mid pre post c w (Q : CW -> unit -> Prop) (X : CW -> exn -> Prop),
  c_nodes c = pre ++ mid ++ post -> wfc w c -> cown w c R K ->
  (forall w' mid', Forall2 (nrel P) mid mid' ->
     wfc w' (set_nodes c (pre ++ mid' ++ post)) -> cown w' (set_nodes c (pre ++ mid' ++ post)) R K -> wle w w' ->
     Q (set_nodes c (pre ++ mid' ++ post), w') tt) ->
  (forall w' mid' e, each_fail P PX w w' mid mid' e ->
     wfc0 w' (set_nodes c (pre ++ mid' ++ post)) ->
     (Forall (fun n => wfs (n_seg n)) mid' -> wfc w' (set_nodes c (pre ++ mid' ++ post))) ->
     cown w' (set_nodes c (pre ++ mid' ++ post)) R K -> wle w w' ->
     X (set_nodes c (pre ++ mid' ++ post), w') e) ->
  wp (for_each_node (map n_id mid) m) (c, w) Q X.
Proof.
  intros T Mo. induction mid as [|n mid IH]; intros pre post c w Q X En W H HQ HX; simpl.
  - apply wp_ret. assert (Ec : set_nodes c (pre ++ [] ++ post) = c) by (rewrite <- En; destruct c; auto).
    rewrite <- Ec. apply HQ; rewrite ?Ec; auto using wle_refl.
  - assert (Hin : In n (c_nodes c)) by (rewrite En; apply in_or_app; right; left; auto).
    assert (Hat : node_at (c_nodes c) (n_id n) = Some n) by (apply node_at_some; auto; apply W).
    assert (Up : forall s', upd_seg c (n_id n) s' = set_nodes c (pre ++ mknode (n_id n) (n_key n) s' :: mid ++ post)).
    { intros s'. destruct (node_at_split _ _ _ Hat) as (l1 & l2 & E1 & _ & N1 & U & _).
      destruct (split_unique (c_nodes c) pre n (mid ++ post) l1 l2) as [-> ->]; auto; try apply W.
      unfold upd_seg. rewrite U. auto. }
    assert (Ws : wfs (n_seg n)).
    { destruct W as [_ S]. unfold segs_ok in S. rewrite Forall_forall in S. auto. }
    apply wp_bind. eapply wp_on_seg; [exact Hat|].
    eapply wp_mono; [apply (T (n_seg n) w (Rc c (n_id n) R) (Kc c (n_id n) K)); auto; eapply cown_seg_id; eauto| |].
    + intros [s' w1] a. cbn [fst snd]. intros (Pp & Ws' & Et & Eal & Ho & L).
      set (n' := mknode (n_id n) (n_key n) s').
      assert (W1 : wfc w1 (upd_seg c (n_id n) s')) by (eapply wfc_upd; eauto).
      assert (H1 : cown w1 (upd_seg c (n_id n) s') R K) by (eapply cown_seg; eauto).
      assert (Nr : nrel P n n') by (unfold nrel, n'; simpl; auto 10).
      rewrite Up in *. fold n' in W1, H1 |- *.
      assert (Es : forall l, pre ++ (n' :: l) ++ post = (pre ++ [n']) ++ l ++ post)
        by (intros; rewrite <- app_assoc; auto).
      eapply (IH (pre ++ [n']) post); simpl; auto.
      * rewrite <- app_assoc. auto.
      * intros w' mid' F W2 H2 L2. rewrite <- Es in *. apply HQ; auto; wle_tac.
      * intros w' mid' e (m1 & x & m2 & m1' & x' & Em & Em' & F1 & Ei & Ek & Ey & Px) W2 W2' H2 L2.
        rewrite <- Es in *. apply HX; auto; try wle_tac.
        -- exists (n :: m1), x, m2, (n' :: m1'), x'. csplit; auto; try (simpl; congruence).
           eapply Mo; eauto.
        -- intros Fa. apply W2'. inversion Fa; auto.
    + intros [s' w1] e. cbn [fst snd]. intros (Pp & Ws' & Et & Eal & Ho & L). rewrite Up.
      change (mknode (n_id n) (n_key n) s' :: mid ++ post) with ((mknode (n_id n) (n_key n) s' :: mid) ++ post).
      apply HX; auto.
      * exists [], n, mid, [], (mknode (n_id n) (n_key n) s'). csplit; auto.
      * simpl. rewrite <- Up. eapply wfc0_upd; eauto. apply wfc_0; auto.
      * intros F. inversion F; subst. simpl. rewrite <- Up. eapply wfc_upd; eauto.
      * simpl. rewrite <- Up. eapply cown_seg; eauto.
Qed.

(** ** The segment operations concerned *)

(** What stays the same when the elements do. *)
Definition clr_rel (s s' : segment V) : Prop :=
  belems (sg_be s') = [] /\ bcap (sg_be s') = bcap (sg_be s) /\
  v_blk (be_store (sg_be s')) = v_blk (be_store (sg_be s)) /\
  (forall k, be_ptr (sg_be s') k = be_ptr (sg_be s) k).
Lemma op_clear : seg_op seg_clear clr_rel (fun _ _ _ _ _ => False).
Proof.
  intros s w R K W H. eapply wp_seg_clear; eauto.
  intros b' w' (A1 & A2 & A3 & A4 & A5 & A6 & A7 & A8). cbn [fst snd]. csplit; auto.
  - unfold clr_rel. csplit; auto.
  - apply wfs_with; auto.
Qed.

Definition rsv_rel (n : nat) (s s' : segment V) : Prop :=
  belems (sg_be s') = belems (sg_be s) /\ bcap (sg_be s') = Nat.max (bcap (sg_be s)) n /\
  n <= env_vmax (sg_ty s) /\
  (n <= bcap (sg_be s) -> be_store (sg_be s') = be_store (sg_be s) /\ (0 < bsize (sg_be s) -> sg_be s' = sg_be s)) /\
  (env_layout = SplitLayout -> roomy (sg_be s) \/ bcap (sg_be s) <= n -> roomy (sg_be s')).
Definition rsv_fail (n : nat) (w w' : world) (s s' : segment V) (e : exn) : Prop :=
  be_store (sg_be s') = be_store (sg_be s) /\ wfb (sg_ty s) (sg_be s') /\
  (env_layout = PackedLayout -> s' = s) /\
  (env_layout = SplitLayout -> roomy (sg_be s) -> n <= bcap (sg_be s) -> s' = s) /\
  (bthrew (sg_ty s) None (bsize (sg_be s)) w w' e \/
   (e = LengthError /\ (env_vmax (sg_ty s) < n \/ (env_layout = SplitLayout /\ env_imax < n + 1)))).
Lemma op_reserve n : seg_op (seg_reserve n) (rsv_rel n) (rsv_fail n).
Proof.
  intros s w R K W H. eapply wp_seg_reserve; eauto.
  - intros b' w' (A1 & A2 & A3 & A4 & A5 & A6 & A7 & A8 & A9). cbn [fst snd]. csplit; auto.
    + unfold rsv_rel. csplit; auto.
    + apply wfs_with; auto.
  - intros b' w' e (A1 & A2 & A3 & A4 & A5 & A6 & A7 & A8). cbn [fst snd]. csplit; auto.
    + unfold rsv_fail. csplit; auto.
      * intros L. simpl. rewrite A6 by auto. apply set_be_id.
      * intros L Ro Hn. simpl. rewrite A7 by auto. apply set_be_id.
    + apply wfb_1, A1.
Qed.
Lemma rsv_fail_mono n w0 w w' s s' e : wle w0 w -> rsv_fail n w w' s s' e -> rsv_fail n w0 w' s s' e.
Proof.
  intros L (A1 & A2 & A3 & A4 & A5). unfold rsv_fail. csplit; auto.
  destruct A5 as [B|B]; auto. left. eapply bthrew_mono; eauto using wle_refl.
Qed.

Definition shk_rel (s s' : segment V) : Prop :=
  belems (sg_be s') = belems (sg_be s) /\ bcap (sg_be s') <= bcap (sg_be s).
Definition shk_fail (w w' : world) (s s' : segment V) (e : exn) : Prop :=
  shk_rel s s' /\ wfs s' /\ (env_layout = PackedLayout -> s' = s) /\
  (bthrew (sg_ty s) None (bsize (sg_be s)) w w' e \/
   (env_layout = SplitLayout /\ e = LengthError /\ env_imax < 2)).
Lemma op_shrink : seg_op seg_shrink_to_fit shk_rel shk_fail.
Proof.
  intros s w R K W H. eapply wp_seg_shrink; eauto.
  - intros b' w' (A1 & A2 & A3 & A4 & A5 & A6). cbn [fst snd]. csplit; auto.
    + split; auto.
    + apply wfs_with; auto.
  - intros b' w' e ((A1 & A2 & A3 & A4 & A5 & A6) & A7 & A8 & A9). cbn [fst snd].
    assert (Ws : wfs (seg_with s b')) by (apply wfs_with; auto).
    csplit; auto.
    + unfold shk_fail. csplit; auto.
      * split; auto.
      * intros L. rewrite A8 by auto. unfold seg_with. rewrite <- (wfs_snt _ W). apply set_be_id.
    + apply wfs_1; auto.
Qed.
Lemma shk_fail_mono w0 w w' s s' e : wle w0 w -> shk_fail w w' s s' e -> shk_fail w0 w' s s' e.
Proof.
  intros L (A1 & A2 & A3 & A4). unfold shk_fail. csplit; auto.
  destruct A4 as [B|B]; auto. left. eapply bthrew_mono; eauto using wle_refl.
Qed.

(** ** clear, reserve, shrink_to_fit of all segments *)

(** All segments changed by [P]. *)
Definition all_did (P : segment V -> segment V -> Prop) (R : nat -> nat) (K : nat) (w : world) (c : coll V)
  (w' : world) (c' : coll V) : Prop :=
  wfc w' c' /\ cown w' c' R K /\ wle w w' /\ c_al c' = c_al c /\ c_buckets c' = c_buckets c /\
  Forall2 (nrel P) (c_nodes c) (c_nodes c').

Definition all_fail P PX (R : nat -> nat) (K : nat) (w : world) (c : coll V) (w' : world) (c' : coll V) (e : exn) : Prop :=
  wfc0 w' c' /\ (segs_ok c' -> wfc w' c') /\ cown w' c' R K /\ wle w w' /\ c_al c' = c_al c /\
  each_fail P PX w w' (c_nodes c) (c_nodes c') e.

Lemma wp_for_all {A} (m : M SW A) P PX R K c w (Q : CW -> unit -> Prop) (X : CW -> exn -> Prop) :
  seg_op m P PX -> (forall w0 w w' s s' e, wle w0 w -> PX w w' s s' e -> PX w0 w' s s' e) ->
  wfc w c -> cown w c R K ->
  (forall w' c', all_did P R K w c w' c' -> Q (c', w') tt) ->
  (forall w' c' e, all_fail P PX R K w c w' c' e -> X (c', w') e) ->
  wp (for_each_node (all_ids c) m) (c, w) Q X.
Proof.
  intros T Mo W H HQ HX. unfold all_ids.
  eapply (wp_for_each m P PX R K T Mo (c_nodes c) [] []); auto.
  - rewrite app_nil_r. auto.
  - simpl. intros w' mid' F. rewrite app_nil_r. intros W' H' L. apply HQ.
    unfold all_did. csplit; auto.
  - simpl. intros w' mid' e F. rewrite app_nil_r. intros W0 W' H' L. apply HX.
    unfold all_fail. csplit; auto.
Qed.

Lemma wp_c_clear c w R K (Q : CW -> unit -> Prop) (X : CW -> exn -> Prop) :
  wfc w c -> cown w c R K ->
  (forall w' c', all_did clr_rel R K w c w' c' -> Q (c', w') tt) ->
  wp c_clear (c, w) Q X.
Proof.
  intros W H HQ. unfold c_clear. apply wp_bind, wp_getx. cbn [fst].
  eapply wp_for_all; eauto using op_clear.
  intros w' c' e (_ & _ & _ & _ & _ & (m1 & n & m2 & m1' & n' & _ & _ & _ & _ & _ & _ & F)). destruct F.
Qed.

(** clear works on what an exception has left. *)
Lemma wp_clear_each R K : forall mid pre post c w (Q : CW -> unit -> Prop) (X : CW -> exn -> Prop),
  c_nodes c = pre ++ mid ++ post -> wfc0 w c -> cown w c R K ->
  (forall w' mid', Forall2 (nrel clr_rel) mid mid' ->
     wfc0 w' (set_nodes c (pre ++ mid' ++ post)) -> cown w' (set_nodes c (pre ++ mid' ++ post)) R K -> wle w w' ->
     Q (set_nodes c (pre ++ mid' ++ post), w') tt) ->
  wp (for_each_node (map n_id mid) seg_clear) (c, w) Q X.
Proof.
  induction mid as [|n mid IH]; intros pre post c w Q X En W H HQ; simpl.
  - apply wp_ret. assert (Ec : set_nodes c (pre ++ [] ++ post) = c) by (rewrite <- En; destruct c; auto).
    rewrite <- Ec. apply HQ; rewrite ?Ec; auto using wle_refl.
  - assert (Hin : In n (c_nodes c)) by (rewrite En; apply in_or_app; right; left; auto).
    assert (Hat : node_at (c_nodes c) (n_id n) = Some n) by (apply node_at_some; auto; apply W).
    assert (Up : forall s', upd_seg c (n_id n) s' = set_nodes c (pre ++ mknode (n_id n) (n_key n) s' :: mid ++ post)).
    { intros s'. destruct (node_at_split _ _ _ Hat) as (l1 & l2 & E1 & _ & N1 & U & _).
      destruct (split_unique (c_nodes c) pre n (mid ++ post) l1 l2) as [-> ->]; auto; try apply W.
      unfold upd_seg. rewrite U. auto. }
    assert (Ws : wfs1 (n_seg n)).
    { pose proof (wc0_segs _ _ W) as S. unfold segs_ok0 in S. rewrite Forall_forall in S. auto. }
    apply wp_bind. eapply wp_on_seg; [exact Hat|].
    eapply (wp_seg_clear1 _ _ (Rc c (n_id n) R) (Kc c (n_id n) K)); [exact Ws|eapply cown_seg_id; eauto|].
    intros b' w1 (A1 & A2 & A3 & A4 & A5 & A6 & A7 & A8). cbn [fst snd].
    set (s' := seg_with (n_seg n) b'). set (n' := mknode (n_id n) (n_key n) s').
    assert (Ws' : wfs s') by (apply wfs_with; auto).
    assert (W1 : wfc0 w1 (upd_seg c (n_id n) s')) by (eapply wfc0_upd; eauto; apply wfs_1; auto).
    assert (H1 : cown w1 (upd_seg c (n_id n) s') R K) by (eapply cown_seg; eauto).
    assert (Nr : nrel clr_rel n n') by (unfold nrel, n', clr_rel; simpl; csplit; auto).
    rewrite Up in *. fold n' in W1, H1 |- *.
    assert (Es : forall l, pre ++ (n' :: l) ++ post = (pre ++ [n']) ++ l ++ post)
      by (intros; rewrite <- app_assoc; auto).
    eapply (IH (pre ++ [n']) post); simpl; auto.
    + rewrite <- app_assoc. auto.
    + intros w' mid' F W2 H2 L2. rewrite <- Es in *. apply HQ; auto; wle_tac.
Qed.
Lemma wp_c_clear0 c w R K (Q : CW -> unit -> Prop) (X : CW -> exn -> Prop) :
  wfc0 w c -> cown w c R K ->
  (forall w' c', all_did clr_rel R K w c w' c' -> Q (c', w') tt) ->
  wp c_clear (c, w) Q X.
Proof.
  intros W H HQ. unfold c_clear. apply wp_bind, wp_getx. cbn [fst]. unfold all_ids.
  eapply (wp_clear_each R K (c_nodes c) [] []); auto.
  - rewrite app_nil_r. auto.
  - simpl. intros w' mid' F. rewrite app_nil_r. intros W' H' L. apply HQ.
    unfold all_did. csplit; auto. split; [apply W'|]. unfold segs_ok. cbn [c_nodes set_nodes].
    clear - F. induction F as [|a b la lb Hab]; constructor; auto. apply Hab.
Qed.
Lemma wp_c_reserve_all n c w R K (Q : CW -> unit -> Prop) (X : CW -> exn -> Prop) :
  wfc w c -> cown w c R K ->
  (forall w' c', all_did (rsv_rel n) R K w c w' c' -> Q (c', w') tt) ->
  (forall w' c' e, all_fail (rsv_rel n) (rsv_fail n) R K w c w' c' e -> X (c', w') e) ->
  wp (c_reserve_all n) (c, w) Q X.
Proof.
  intros W H HQ HX. unfold c_reserve_all. apply wp_bind, wp_getx. cbn [fst].
  eapply wp_for_all; eauto using op_reserve, rsv_fail_mono.
Qed.
Lemma wp_c_shrink_all c w R K (Q : CW -> unit -> Prop) (X : CW -> exn -> Prop) :
  wfc w c -> cown w c R K ->
  (forall w' c', all_did shk_rel R K w c w' c' -> Q (c', w') tt) ->
  (forall w' c' e, all_fail shk_rel shk_fail R K w c w' c' e -> wfc w' c' -> X (c', w') e) ->
  wp c_shrink_all (c, w) Q X.
Proof.
  intros W H HQ HX. unfold c_shrink_all. apply wp_bind, wp_getx. cbn [fst].
  eapply wp_for_all; eauto using op_shrink, shk_fail_mono.
  intros w' c' e F. apply HX; auto. destruct F as (W0 & W' & _ & _ & _ & (m1 & n & m2 & m1' & n' & En & En' & F & _ & _ & _ & Fx)).
  apply W'. unfold segs_ok. rewrite En'. apply Forall_app. split; [|constructor].
  - clear - F. induction F as [|a b l l' Hr F IH]; constructor; auto. apply Hr.
  - apply Fx.
  - destruct W as [_ S]. unfold segs_ok in S. rewrite En in S. apply Forall_app in S. destruct S as [_ S].
    inversion S; auto.
Qed.

(** ** The same for one segment *)

(** One segment operation at a found node. *)
Definition seg_did (P : segment V -> segment V -> Prop) w c R K w' c' t i s s' : Prop :=
  did w c R K w' c' t i s s' /\ wfc w' c' /\ wfs s' /\ P s s'.
Definition seg_fail (PX : world -> world -> segment V -> segment V -> exn -> Prop) w c R K w' c' t i s s' e : Prop :=
  did w c R K w' c' t i s s' /\ wfs1 s' /\ exists w1, wle w w1 /\ PX w1 w' s s' e.

Lemma wp_seg_made {A} (m : M SW A) P PX a c w R K w1 c1 n (Q : CW -> A -> Prop) (X : CW -> exn -> Prop) :
  seg_op m P PX -> wfc w c -> made w c a R K w1 c1 n ->
  (forall w' c' s' r, seg_did P w c R K w' c' (env_ty a) (n_id n) (n_seg n) s' -> Q (c', w') r) ->
  (forall w' c' s' e, seg_fail PX w c R K w' c' (env_ty a) (n_id n) (n_seg n) s' e -> X (c', w') e) ->
  wp (on_seg (n_id n) m) (c1, w1) Q X.
Proof.
  intros T W M HQ HX. assert (Pv := made_seg _ _ _ _ _ _ _ _ (wc_map _ _ W) M).
  assert (Ws := prev_wfs _ _ _ _ _ W Pv).
  assert (M' := M). destruct M' as (W1 & H1 & L1 & Ea & Hat & Et & Cs).
  eapply wp_on_seg; [exact Hat|].
  eapply wp_mono; [apply (T (n_seg n) w1 (Rc c1 (n_id n) R) (Kc c1 (n_id n) K)); auto; eapply cown_seg_id; eauto| |].
  - intros [s' w2] r. cbn [fst snd]. intros (Pp & Ws' & Es & Eal & Ho & L).
    apply (HQ _ _ s'). 
    assert (D : did w c R K w2 (upd_seg c1 (n_id n) s') (env_ty a) (n_id n) (n_seg n) s').
    { eapply made_did; eauto. unfold n_ty in Et. congruence. }
    unfold seg_did. csplit; auto. eapply did_wf; eauto.
  - intros [s' w2] e. cbn [fst snd]. intros (Pp & Ws' & Es & Eal & Ho & L).
    apply (HX _ _ s'). unfold seg_fail. csplit; auto; [|eauto].
    eapply made_did; eauto. unfold n_ty in Et. congruence.
Qed.

Lemma wp_seg_by_info {A} (m : M SW A) P PX a c w R K (Q : CW -> A -> Prop) (X : CW -> exn -> Prop) :
  seg_op m P PX -> wfc w c -> cown w c R K ->
  (forall w' c' i s s' r, In (env_ty a) (types c) -> seg_did P w c R K w' c' (env_ty a) i s s' -> Q (c', w') r) ->
  (forall w' c' i s s' e, In (env_ty a) (types c) -> seg_fail PX w c R K w' c' (env_ty a) i s s' e -> X (c', w') e) ->
  (~ In (env_ty a) (types c) -> X (c, w) (UnregisteredType (env_ty a))) ->
  wp (i <- map_iterator_by_info a ;; on_seg i m) (c, w) Q X.
Proof.
  intros T W H HQ HX HU. apply wp_bind. eapply wp_map_iterator_by_info; [apply W| |rewrite <- types_nodes; auto].
  intros n Hin Hat Et. assert (Ht : In (env_ty a) (types c)) by (rewrite types_nodes, <- Et; apply in_map; auto).
  assert (Ek : env_ty (n_key n) = env_ty a).
  { rewrite <- Et. destruct W as [[_ _ _ A0 _ _] _]. rewrite Forall_forall in A0. auto. }
  assert (M := made_ty _ _ _ _ _ _ _ _ _ Ek (made_found _ _ _ _ _ (wc_map _ _ W) H Hat)).
  eapply wp_seg_made; eauto.
Qed.

Lemma wp_c_clear_info a c w R K (Q : CW -> unit -> Prop) (X : CW -> exn -> Prop) :
  wfc w c -> cown w c R K ->
  (forall w' c' i s s' r, In (env_ty a) (types c) -> seg_did clr_rel w c R K w' c' (env_ty a) i s s' -> Q (c', w') r) ->
  (~ In (env_ty a) (types c) -> X (c, w) (UnregisteredType (env_ty a))) ->
  wp (c_clear_info a) (c, w) Q X.
Proof.
  intros. unfold c_clear_info. eapply wp_seg_by_info; eauto using op_clear.
  intros w' c' i s s' e _ (_ & _ & w1 & _ & F). destruct F.
Qed.
Lemma wp_c_reserve_info a n c w R K (Q : CW -> unit -> Prop) (X : CW -> exn -> Prop) :
  wfc w c -> cown w c R K ->
  (forall w' c' i s s' r, In (env_ty a) (types c) -> seg_did (rsv_rel n) w c R K w' c' (env_ty a) i s s' -> Q (c', w') r) ->
  (forall w' c' i s s' e, In (env_ty a) (types c) -> seg_fail (rsv_fail n) w c R K w' c' (env_ty a) i s s' e -> X (c', w') e) ->
  (~ In (env_ty a) (types c) -> X (c, w) (UnregisteredType (env_ty a))) ->
  wp (c_reserve_info a n) (c, w) Q X.
Proof. intros. unfold c_reserve_info. eapply wp_seg_by_info; eauto using op_reserve. Qed.
Lemma wp_c_shrink_info a c w R K (Q : CW -> unit -> Prop) (X : CW -> exn -> Prop) :
  wfc w c -> cown w c R K ->
  (forall w' c' i s s' r, In (env_ty a) (types c) -> seg_did shk_rel w c R K w' c' (env_ty a) i s s' -> Q (c', w') r) ->
  (forall w' c' i s s' e, In (env_ty a) (types c) -> seg_fail shk_fail w c R K w' c' (env_ty a) i s s' e -> X (c', w') e) ->
  (~ In (env_ty a) (types c) -> X (c, w) (UnregisteredType (env_ty a))) ->
  wp (c_shrink_info a) (c, w) Q X.
Proof. intros. unfold c_shrink_info. eapply wp_seg_by_info; eauto using op_shrink. Qed.

Lemma wp_c_reserve_type a n c w R K (Q : CW -> unit -> Prop) (X : CW -> exn -> Prop) :
  wfc w c -> cown w c R K ->
  (forall w' c' i s s' r, seg_did (rsv_rel n) w c R K w' c' (env_ty a) i s s' -> Q (c', w') r) ->
  (forall w' c' e, made_exn w c a R K w' c' e -> X (c', w') e) ->
  (forall w' c' i s s' e, seg_fail (rsv_fail n) w c R K w' c' (env_ty a) i s s' e -> X (c', w') e) ->
  wp (c_reserve_type a n) (c, w) Q X.
Proof.
  intros W H HQ HX1 HX2. unfold c_reserve_type. apply wp_bind.
  eapply wp_find_or_make; [apply W|exact H| |exact HX1].
  intros w1 c1 n0 M. assert (M' := M). destruct M' as (_ & _ & _ & _ & Hat & Et & _).
  assert (Pv := made_seg _ _ _ _ _ _ _ _ (wc_map _ _ W) M).
  assert (Ws := prev_wfs _ _ _ _ _ W Pv).
  (* the type check is passed at this node *)
  assert (Eq : forall s w', sg_ty s = env_ty a -> (check_ty (env_ty a) ;; seg_reserve n) (s, w') = seg_reserve n (s, w')).
  { intros s w' Es. unfold check_ty, bind at 1, bind at 1, getx. simpl. rewrite Es, Nat.eqb_refl. auto. }
  assert (Eq' : on_seg (n_id n0) (check_ty (env_ty a) ;; seg_reserve n) (c1, w1) = on_seg (n_id n0) (seg_reserve n) (c1, w1)).
  { unfold on_seg. rewrite Hat, Eq; auto. }
  unfold wp. rewrite Eq'.
  apply (wp_seg_made (seg_reserve n) (rsv_rel n) (rsv_fail n) a c w R K w1 c1 n0 Q X (op_reserve n) W M).
  - eauto.
  - eauto.
Qed.

(** ** Reading results of [Forall2 nrel] *)

Lemma nrel_types P (l l' : NL) : Forall2 (nrel P) l l' -> map n_ty l' = map n_ty l.
Proof. induction 1 as [|n n' l l' Hr F IH]; simpl; auto. f_equal; auto. apply Hr. Qed.
Lemma nrel_ids P (l l' : NL) : Forall2 (nrel P) l l' -> map n_id l' = map n_id l.
Proof. induction 1 as [|n n' l l' Hr F IH]; simpl; auto. f_equal; auto. apply Hr. Qed.
Lemma nrel_same (P : segment V -> segment V -> Prop) (l l' : NL) : (forall s s', P s s' -> belems (sg_be s') = belems (sg_be s)) ->
  Forall2 (nrel P) l l' -> map (fun n => (n_ty n, n_elems n)) l' = map (fun n => (n_ty n, n_elems n)) l.
Proof.
  intros Hp. induction 1 as [|n n' l l' Hr F IH]; simpl; auto. f_equal; auto.
  destruct Hr as (_ & _ & Et & _ & _ & Pp). unfold n_ty, n_elems. rewrite Et, (Hp _ _ Pp). auto.
Qed.
Lemma nrel_find (P : segment V -> segment V -> Prop) (l l' : NL) t : Forall2 (nrel P) l l' ->
  match find (fun n => sg_ty (n_seg n) =? t) l, find (fun n => sg_ty (n_seg n) =? t) l' with
  | Some n, Some n' => P (n_seg n) (n_seg n')
  | None, None => True
  | _, _ => False
  end.
Proof.
  induction 1 as [|n n' l l' Hr F IH]; simpl; auto.
  destruct Hr as (_ & _ & Et & _ & _ & Pp). rewrite Et. destruct (sg_ty (n_seg n) =? t); auto.
Qed.
Lemma nrel_seg_at P (c c' : coll V) t : Forall2 (nrel P) (c_nodes c) (c_nodes c') ->
  match seg_at c t, seg_at c' t with
  | Some s, Some s' => P s s'
  | None, None => True
  | _, _ => False
  end.
Proof.
  intros F. assert (A := nrel_find P _ _ t F). unfold seg_at.
  destruct (find _ (c_nodes c)), (find _ (c_nodes c')); auto.
Qed.

End PEach.
