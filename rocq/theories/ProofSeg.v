(** * Segments and the nodes of the map: invariants, ownership, framing *)

From Coq Require Import List Arith Lia Bool Permutation.
From Verif Require Import Base Vec Backend Segment Coll ProofBase ProofVec ProofBackend ProofOps ProofOps2.
Import ListNotations.

Section PSeg.
Context {V : Type} {E : Env V}.

Notation BW := (backend V * world)%type.
Notation SW := (segment V * world)%type.
Notation CW := (coll V * world)%type.

(** ** Segments *)

Definition set_be (s : segment V) (b : backend V) (p : ptr) : segment V :=
  mkseg (sg_ty s) (sg_al s) b p.
(** A segment after a successful operation: the sentinel is the end of the backend. *)
Definition seg_with (s : segment V) (b : backend V) : segment V := set_be s b (be_end b).

Record wfs (s : segment V) : Prop := {
  wfs_be : wfb (sg_ty s) (sg_be s);
  wfs_snt : sg_snt s = be_end (sg_be s)
}.
Definition wfs0 (s : segment V) : Prop := wfb0 (sg_ty s) (sg_be s).

Definition wfs1 (s : segment V) : Prop := wfb1 (sg_ty s) (sg_be s).

Lemma wfs_1 s : wfs s -> wfs1 s.
Proof. intros [W _]. exact (wfb_1 _ _ W). Qed.
Lemma wfs1_0 s : wfs1 s -> wfs0 s.
Proof. intros [W _]. exact W. Qed.
Lemma wfs_0 s : wfs s -> wfs0 s.
Proof. intros [W _]. exact (wfb_0 _ _ W). Qed.
Lemma set_be_id s : set_be s (sg_be s) (sg_snt s) = s.
Proof. destruct s; reflexivity. Qed.
Lemma wfs_with s b : wfb (sg_ty s) b -> wfs (seg_with s b).
Proof. intros. split; simpl; auto. Qed.

Lemma wp_filter_range m s w (Q : SW -> ptr -> Prop) (X : SW -> exn -> Prop) :
  wp m (sg_be s, w) (fun bw r => Q (set_be s (fst bw) (snd r), snd bw) (fst r))
     (fun bw e => X (set_be s (fst bw) (sg_snt s), snd bw) e) ->
  wp (filter_range m) (s, w) Q X.
Proof.
  intros H. unfold filter_range. apply wp_bind. unfold on_be. apply wp_on_field. cbn [fst snd].
  eapply wp_mono; [exact H| |].
  - intros [b w1] r HH. cbn [fst snd] in *. apply wp_bind. unfold set_snt. apply wp_modify. cbn [fst snd].
    apply wp_ret. exact HH.
  - intros [b w1] e HH. exact HH.
Qed.
Lemma wp_filter_snt m s w (Q : SW -> unit -> Prop) (X : SW -> exn -> Prop) :
  wp m (sg_be s, w) (fun bw p => Q (set_be s (fst bw) p, snd bw) tt)
     (fun bw e => X (set_be s (fst bw) (sg_snt s), snd bw) e) ->
  wp (filter_snt m) (s, w) Q X.
Proof.
  intros H. unfold filter_snt. apply wp_bind. unfold on_be. apply wp_on_field. cbn [fst snd].
  eapply wp_mono; [exact H| |].
  - intros [b w1] p HH. cbn [fst snd] in *. unfold set_snt. apply wp_modify. exact HH.
  - intros [b w1] e HH. exact HH.
Qed.
Lemma wp_check_ty t s w (Q : SW -> unit -> Prop) (X : SW -> exn -> Prop) :
  sg_ty s = t -> Q (s, w) tt -> wp (check_ty t) (s, w) Q X.
Proof.
  intros Et HQ. unfold check_ty. apply wp_bind, wp_getx. cbn [fst]. rewrite Et, Nat.eqb_refl.
  apply wp_ret. exact HQ.
Qed.


(** *** Operations *)

Lemma wp_seg_push_back s w R K h x v (Q : SW -> ptr -> Prop) (X : SW -> exn -> Prop) :
  let b := sg_be s in let t := sg_ty s in
  wfs s -> bown t w b R K -> src_ok b h x v ->
  (forall b' w' r, ins_ok t (bsize b) v b w R K b' w' r ->
     Q (seg_with s b', w') (be_ptr b' (bsize b))) ->
  (forall b' w' e, ins_exn t h (bsize b) b w R K b' w' e -> X (set_be s b' (sg_snt s), w') e) ->
  wp (seg_push_back t h x) (s, w) Q X.
Proof.
  intros b t W H Hx HQ HX. unfold seg_push_back. apply wp_bind, wp_check_ty; auto.
  apply wp_filter_range. eapply wp_be_push_back; [exact (wfs_be _ W)|exact H|exact Hx| |].
  - intros b' w' r O. assert (O' := O). destruct O' as (_ & _ & _ & _ & _ & -> & _). cbn [fst snd].
    eapply HQ; eauto.
  - intros b' w' e O. cbn [fst snd]. auto.
Qed.

Lemma wp_seg_insert s w R K h p k x v (Q : SW -> ptr -> Prop) (X : SW -> exn -> Prop) :
  let b := sg_be s in let t := sg_ty s in
  wfs s -> bown t w b R K -> pos_at b p k -> k <= bsize b -> src_ok b h x v ->
  (forall b' w' r, ins_ok t k v b w R K b' w' r -> Q (seg_with s b', w') (be_ptr b' k)) ->
  (forall b' w' e, ins_exn t h k b w R K b' w' e -> X (set_be s b' (sg_snt s), w') e) ->
  wp (seg_insert t h p x) (s, w) Q X.
Proof.
  intros b t W H Hp Hk Hx HQ HX. unfold seg_insert. apply wp_bind, wp_check_ty; auto.
  apply wp_filter_range. eapply wp_be_insert; [exact (wfs_be _ W)|exact H|exact Hp|exact Hk|exact Hx| |].
  - intros b' w' r O. assert (O' := O). destruct O' as (_ & _ & _ & _ & _ & -> & _). cbn [fst snd].
    eapply HQ; eauto.
  - intros b' w' e O. cbn [fst snd]. auto.
Qed.

Lemma wp_seg_emplace s w R K h p k x v (Q : SW -> ptr -> Prop) (X : SW -> exn -> Prop) :
  let b := sg_be s in let t := sg_ty s in
  wfs s -> bown t w b R K -> pos_at b p k -> k <= bsize b -> src_ok b h x v ->
  (forall b' w' r, ins_ok t k v b w R K b' w' r -> Q (seg_with s b', w') (be_ptr b' k)) ->
  (forall b' w' e, ins_exn t h k b w R K b' w' e -> X (set_be s b' (sg_snt s), w') e) ->
  wp (seg_emplace t h p x) (s, w) Q X.
Proof.
  intros b t W H Hp Hk Hx HQ HX. unfold seg_emplace. apply wp_bind, wp_check_ty; auto.
  apply wp_filter_range. eapply wp_be_emplace; [exact (wfs_be _ W)|exact H|exact Hp|exact Hk|exact Hx| |].
  - intros b' w' r O. assert (O' := O). destruct O' as (_ & _ & _ & _ & _ & -> & _). cbn [fst snd].
    eapply HQ; eauto.
  - intros b' w' e O. cbn [fst snd]. auto.
Qed.

Lemma wp_seg_append_range s w R K h fwd xs (Q : SW -> ptr -> Prop) (X : SW -> exn -> Prop) :
  let b := sg_be s in let t := sg_ty s in
  wfs s -> bown t w b R K ->
  (forall b' w' r, rng_ok t (bsize b) xs b w R K b' w' r ->
     Q (seg_with s b', w') (be_ptr b' (bsize b))) ->
  (forall b' w' e, rng_exn t h fwd (bsize b) xs b w R K b' w' e -> X (set_be s b' (sg_snt s), w') e) ->
  wp (seg_append_range t h fwd xs) (s, w) Q X.
Proof.
  intros b t W H HQ HX. unfold seg_append_range. apply wp_bind, wp_check_ty; auto.
  apply wp_filter_range. eapply wp_be_append_range; [exact (wfs_be _ W)|exact H| |].
  - intros b' w' r O. assert (O' := O). destruct O' as (_ & _ & _ & _ & _ & -> & _). cbn [fst snd].
    eapply HQ; eauto.
  - intros b' w' e O. cbn [fst snd]. auto.
Qed.

Lemma wp_seg_insert_range s w R K h fwd p k xs (Q : SW -> ptr -> Prop) (X : SW -> exn -> Prop) :
  let b := sg_be s in let t := sg_ty s in
  wfs s -> bown t w b R K -> pos_at b p k -> k <= bsize b ->
  (forall b' w' r, rng_ok t k xs b w R K b' w' r -> Q (seg_with s b', w') (be_ptr b' k)) ->
  (forall b' w' e, rng_exn t h fwd k xs b w R K b' w' e -> X (set_be s b' (sg_snt s), w') e) ->
  wp (seg_insert_range t h fwd p xs) (s, w) Q X.
Proof.
  intros b t W H Hp Hk HQ HX. unfold seg_insert_range. apply wp_bind, wp_check_ty; auto.
  apply wp_filter_range. eapply wp_be_insert_range; [exact (wfs_be _ W)|exact H|exact Hp|exact Hk| |].
  - intros b' w' r O. assert (O' := O). destruct O' as (_ & _ & _ & _ & _ & -> & _). cbn [fst snd].
    eapply HQ; eauto.
  - intros b' w' e O. cbn [fst snd]. auto.
Qed.

Lemma wp_seg_erase s w R K p k (Q : SW -> ptr -> Prop) (X : SW -> exn -> Prop) :
  let b := sg_be s in let t := sg_ty s in
  wfs s -> bown t w b R K -> pos_at b p k -> k < bsize b ->
  (forall b' w' r, ers_ok t k (S k) b w R K b' w' r -> Q (seg_with s b', w') (be_ptr b' k)) ->
  (forall b' w' e, ers_exn t true k (S k) b w R K b' w' e -> X (set_be s b' (sg_snt s), w') e) ->
  wp (seg_erase p) (s, w) Q X.
Proof.
  intros b t W H Hp Hk HQ HX. unfold seg_erase. apply wp_bind, wp_getx. cbn [fst].
  apply wp_filter_range. eapply wp_be_erase; [exact (wfs_be _ W)|exact H|exact Hp|exact Hk| |].
  - intros b' w' r O. assert (O' := O). destruct O' as (_ & _ & _ & _ & _ & -> & _). cbn [fst snd].
    eapply HQ; eauto.
  - intros b' w' e O. cbn [fst snd]. auto.
Qed.

Lemma wp_seg_erase_range s w R K p q f l (Q : SW -> ptr -> Prop) (X : SW -> exn -> Prop) :
  let b := sg_be s in let t := sg_ty s in
  wfs s -> bown t w b R K -> pos_at b p f -> pos_at b q l -> f <= l -> l <= bsize b ->
  (forall b' w' r, ers_ok t f l b w R K b' w' r -> Q (seg_with s b', w') (be_ptr b' f)) ->
  (forall b' w' e, ers_exn t false f l b w R K b' w' e -> X (set_be s b' (sg_snt s), w') e) ->
  wp (seg_erase_range p q) (s, w) Q X.
Proof.
  intros b t W H Hp Hq Hf Hl HQ HX. unfold seg_erase_range. apply wp_bind, wp_getx. cbn [fst].
  apply wp_filter_range. eapply wp_be_erase_range; [exact (wfs_be _ W)|exact H|exact Hp|exact Hq|exact Hf|exact Hl| |].
  - intros b' w' r O. assert (O' := O). destruct O' as (_ & _ & _ & _ & _ & -> & _). cbn [fst snd].
    eapply HQ; eauto.
  - intros b' w' e O. cbn [fst snd]. auto.
Qed.

Lemma wp_seg_erase_till_end s w R K p f (Q : SW -> ptr -> Prop) (X : SW -> exn -> Prop) :
  let b := sg_be s in let t := sg_ty s in
  wfs s -> bown t w b R K -> pos_at b p f -> f <= bsize b ->
  (forall b' w' r, ers_ok t f (bsize b) b w R K b' w' r -> Q (seg_with s b', w') (be_ptr b' f)) ->
  wp (seg_erase_till_end p) (s, w) Q X.
Proof.
  intros b t W H Hp Hf HQ. unfold seg_erase_till_end. apply wp_bind, wp_getx. cbn [fst].
  apply wp_filter_range. eapply wp_be_erase_till_end; [exact (wfs_be _ W)|exact H|exact Hp|exact Hf|].
  intros b' w' r O. assert (O' := O). destruct O' as (_ & _ & _ & _ & _ & -> & _). cbn [fst snd].
  eapply HQ; eauto.
Qed.

Lemma wp_seg_erase_from_begin s w R K p l (Q : SW -> ptr -> Prop) (X : SW -> exn -> Prop) :
  let b := sg_be s in let t := sg_ty s in
  wfs s -> bown t w b R K -> pos_at b p l -> l <= bsize b ->
  (forall b' w' r, ers_ok t 0 l b w R K b' w' r -> Q (seg_with s b', w') (be_ptr b' 0)) ->
  (forall b' w' e, ers_exn t false 0 l b w R K b' w' e -> X (set_be s b' (sg_snt s), w') e) ->
  wp (seg_erase_from_begin p) (s, w) Q X.
Proof.
  intros b t W H Hp Hl HQ HX. unfold seg_erase_from_begin. apply wp_bind, wp_getx. cbn [fst].
  apply wp_filter_range. eapply wp_be_erase_from_begin; [exact (wfs_be _ W)|exact H|exact Hp|exact Hl| |].
  - intros b' w' r O. assert (O' := O). destruct O' as (_ & _ & _ & _ & _ & -> & _). cbn [fst snd].
    eapply HQ; eauto.
  - intros b' w' e O. cbn [fst snd]. auto.
Qed.

Definition clr_ok (t : tyid) (b : backend V) (w : world) (R : nat -> nat) (K : nat)
  (b' : backend V) (w' : world) : Prop :=
  belems b' = [] /\ wfb t b' /\ bown t w' b' R K /\ wle w w' /\
  be_self b' = be_self b /\ bcap b' = bcap b /\
  v_blk (be_store b') = v_blk (be_store b) /\ (forall k, be_ptr b' k = be_ptr b k).

Lemma wp_seg_clear1 s w R K (Q : SW -> unit -> Prop) (X : SW -> exn -> Prop) :
  let b := sg_be s in let t := sg_ty s in
  wfs1 s -> bown t w b R K ->
  (forall b' w', clr_ok t b w R K b' w' -> Q (seg_with s b', w') tt) ->
  wp seg_clear (s, w) Q X.
Proof.
  intros b t W H HQ. unfold seg_clear. apply wp_bind, wp_getx. cbn [fst].
  apply wp_filter_snt. eapply wp_be_clear1; [exact W|exact H|].
  intros b' w' A1 A2 A3 A4 A5 A6 A7 A8. cbn [fst snd]. apply HQ. unfold clr_ok. csplit; auto.
Qed.

Lemma wp_seg_clear s w R K (Q : SW -> unit -> Prop) (X : SW -> exn -> Prop) :
  let b := sg_be s in let t := sg_ty s in
  wfs s -> bown t w b R K ->
  (forall b' w', clr_ok t b w R K b' w' -> Q (seg_with s b', w') tt) ->
  wp seg_clear (s, w) Q X.
Proof. intros b t W. apply wp_seg_clear1. apply wfs_1. exact W. Qed.

Definition rsv_ok (t : tyid) (n : nat) (b : backend V) (w : world) (R : nat -> nat) (K : nat)
  (b' : backend V) (w' : world) : Prop :=
  belems b' = belems b /\ wfb t b' /\ bown t w' b' R K /\ wle w w' /\
  be_self b' = be_self b /\ bcap b' = Nat.max (bcap b) n /\ n <= env_vmax t /\
  (n <= bcap b -> be_store b' = be_store b /\ (0 < bsize b -> b' = b)) /\
  (env_layout = SplitLayout -> roomy b \/ bcap b <= n -> roomy b').
Definition rsv_exn (t : tyid) (n : nat) (b : backend V) (w : world) (R : nat -> nat) (K : nat)
  (b' : backend V) (w' : world) (e : exn) : Prop :=
  wfb t b' /\ bown t w' b' R K /\ wle w w' /\ be_self b' = be_self b /\
  be_store b' = be_store b /\ (env_layout = PackedLayout -> b' = b) /\
  (env_layout = SplitLayout -> roomy b -> n <= bcap b -> b' = b) /\
  (bthrew t None (bsize b) w w' e \/
   (e = LengthError /\ (env_vmax t < n \/ (env_layout = SplitLayout /\ env_imax < n + 1)))).

Lemma wp_seg_reserve s w R K n (Q : SW -> unit -> Prop) (X : SW -> exn -> Prop) :
  let b := sg_be s in let t := sg_ty s in
  wfs s -> bown t w b R K ->
  (forall b' w', rsv_ok t n b w R K b' w' -> Q (seg_with s b', w') tt) ->
  (forall b' w' e, rsv_exn t n b w R K b' w' e -> X (set_be s b' (sg_snt s), w') e) ->
  wp (seg_reserve n) (s, w) Q X.
Proof.
  intros b t W H HQ HX. unfold seg_reserve. apply wp_bind, wp_getx. cbn [fst].
  apply wp_filter_snt. eapply wp_be_reserve; [exact (wfs_be _ W)|exact H| |].
  - intros. cbn [fst snd]. apply HQ. unfold rsv_ok. csplit; auto.
  - intros. cbn [fst snd]. apply HX. unfold rsv_exn. csplit; auto.
Qed.

Lemma wp_seg_shrink s w R K (Q : SW -> unit -> Prop) (X : SW -> exn -> Prop) :
  let b := sg_be s in let t := sg_ty s in
  wfs s -> bown t w b R K ->
  (forall b' w', shk_ok t b w R K b' w' -> Q (seg_with s b', w') tt) ->
  (forall b' w' e, shk_exn t b w R K b' w' e -> X (seg_with s b', w') e) ->
  wp seg_shrink_to_fit (s, w) Q X.
Proof.
  intros b t W H HQ HX. unfold seg_shrink_to_fit. apply wp_bind, wp_getx. cbn [fst].
  apply wp_filter_snt. eapply wp_be_shrink; [exact (wfs_be _ W)|exact H| |].
  - intros. cbn [fst snd]. apply HQ; auto.
  - intros b' w' e O. cbn [fst snd]. rewrite (wfs_snt _ W).
    assert (O' := O). destruct O' as ((El & _) & P & _).
    replace (be_end (sg_be s)) with (be_end b').
    + apply HX; auto.
    + unfold be_end. rewrite P. f_equal. unfold belems, vsize in *. rewrite El. auto.
Qed.

(** *** Making, copying, moving, deleting *)

Definition sblocks (s : segment V) : list nat := bblocks (sg_be s).
Definition ssize (s : segment V) : nat := bsize (sg_be s).

(** The objects of a segment which are counted. *)
Definition ocs (s : segment V) : nat := oc (sg_ty s) (ssize s).
Definition sown (w : world) (s : segment V) (R : nat -> nat) (K : nat) : Prop := bown (sg_ty s) w (sg_be s) R K.

Lemma wp_seg_make t al w R K (Q : world -> segment V -> Prop) (X : world -> exn -> Prop) :
  own w R K ->
  (forall w' s, sg_ty s = t -> sg_al s = al -> wfs s -> belems (sg_be s) = [] -> sown w' s R K ->
     wle w w' -> bcap (sg_be s) <= 1 -> Q w' s) ->
  (forall w' e, own w' R K -> wle w w' ->
     bthrew t None 0 w w' e \/ (e = LengthError /\ ctor_len t (@vempty V)) -> X w' e) ->
  wp (seg_make t al) w Q X.
Proof.
  intros H HQ HX. unfold seg_make. apply wp_bind. eapply wp_be_make; [exact H| |].
  - intros w1 b1 El W1 H1 L1 C1. apply wp_ret. apply HQ; auto. split; auto.
  - intros. apply HX; auto.
Qed.

Lemma wp_seg_copy s al w R K (Q : world -> segment V -> Prop) (X : world -> exn -> Prop) :
  wfs0 s -> own w R K ->
  (forall w' s', sg_ty s' = sg_ty s -> sg_al s' = al -> wfs s' ->
     belems (sg_be s') = belems (sg_be s) -> sown w' s' R K -> wle w w' ->
     (0 < ssize s -> env_copyable (sg_ty s) = true) -> Q w' s') ->
  (forall w' e, own w' R K -> wle w w' ->
     ((e = BadAlloc \/ (e = UserExn /\ 0 < ssize s)) /\ faulted w w') \/
     (e = NotCopyConstructible (sg_ty s) /\ env_copyable (sg_ty s) = false /\ 0 < ssize s) \/
     (e = LengthError /\ env_layout = SplitLayout /\ (env_vmax (sg_ty s) < 1 \/ env_imax <= ssize s)) ->
     X w' e) ->
  wp (seg_copy s al) w Q X.
Proof.
  intros [W0 _ _] H HQ HX. unfold seg_copy. apply wp_bind. eapply wp_be_copy; [exact W0|exact H| |].
  - intros w1 b1 El W1 H1 L1 C1. apply wp_ret. apply HQ; auto. split; auto.
  - intros. apply HX; auto.
Qed.

Lemma wp_seg_move s al w R K (Q : SW -> segment V -> Prop) (X : SW -> exn -> Prop) :
  wfs0 s -> sown w s R K -> (sg_al s = al -> adoptable (be_store (sg_be s))) ->
  (forall w' s' s2, sg_ty s2 = sg_ty s -> sg_al s2 = al -> wfs s2 ->
     belems (sg_be s2) = belems (sg_be s) -> wfs0 s' -> sg_ty s' = sg_ty s -> sg_al s' = sg_al s ->
     ssize s' <= ssize s ->
     own w' (fun y => cnt (sblocks s2) y + cnt (sblocks s') y + R y) (ocs s2 + ocs s' + K) ->
     wle w w' -> (sg_al s <> al -> newer w (sblocks s2)) -> Q (s', w') s2) ->
  (forall w' s' e, wfs0 s' -> sg_ty s' = sg_ty s -> sg_al s' = sg_al s -> sown w' s' R K -> wle w w' ->
     ((e = BadAlloc \/ (e = UserExn /\ sg_al s <> al /\ env_nt_move (sg_ty s) = false /\ 0 < ssize s)) /\ faulted w w') \/
     (e = LengthError /\ env_layout = SplitLayout /\ (env_vmax (sg_ty s) < 1 \/ env_imax <= ssize s)) ->
     X (s', w') e) ->
  wp (seg_move al) (s, w) Q X.
Proof.
  intros W0 H Ad HQ HX. unfold seg_move. apply wp_bind, wp_getx. cbn [fst].
  apply wp_bind. unfold on_be. apply wp_on_field. cbn [fst snd].
  eapply wp_be_move; [exact W0|exact H| | |].
  - intros Es. apply Nat.eqb_eq in Es. auto.
  - intros w1 x1 b1 El W1 Wx Ex Ef Ei H1 L1 Nw. cbn [fst snd]. apply wp_ret. apply HQ; auto.
    + split; auto.
    + intros Na. apply Nw. apply Nat.eqb_neq. auto.
  - intros w1 x1 e Wx H1 L1 Ef Re. cbn [fst snd]. apply HX; auto.
    destruct Re as [([?|(? & N & ?)] & ?)|?]; auto. left. split; auto. right. split; auto. split; auto. apply Nat.eqb_neq. auto.
Qed.

Lemma wp_seg_delete s w R K (Q : world -> unit -> Prop) (X : world -> exn -> Prop) :
  wfs0 s -> sown w s R K ->
  (forall w', own w' R K -> wle w w' -> Q w' tt) ->
  wp (seg_delete s) w Q X.
Proof.
  intros W0 H HQ. unfold seg_delete. eapply wp_be_delete; [exact W0|exact H|reflexivity|reflexivity|].
  auto.
Qed.

(** ** Nodes *)

Definition n_ty (n : node V) : tyid := sg_ty (n_seg n).
Definition n_elems (n : node V) : list V := belems (sg_be (n_seg n)).

Lemma node_at_in (ns : list (node V)) i n : node_at ns i = Some n -> In n ns /\ n_id n = i.
Proof.
  induction ns as [|m ns IH]; simpl; [discriminate|].
  destruct (Nat.eqb_spec (n_id m) i) as [Ei|Ei].
  - intros Es. inversion Es; subst. auto.
  - intros Es. destruct (IH Es). auto.
Qed.
Lemma node_at_some (ns : list (node V)) n : NoDup (map n_id ns) -> In n ns -> node_at ns (n_id n) = Some n.
Proof.
  induction ns as [|m ns IH]; simpl; [tauto|]. intros ND [->|Hin].
  - rewrite Nat.eqb_refl. auto.
  - inversion ND; subst. destruct (Nat.eqb_spec (n_id m) (n_id n)) as [Ei|Ei].
    + exfalso. apply H1. rewrite Ei. apply in_map; auto.
    + auto.
Qed.

Lemma node_at_split (ns : list (node V)) i n : node_at ns i = Some n ->
  exists l1 l2, ns = l1 ++ n :: l2 /\ n_id n = i /\ ~ In i (map n_id l1) /\
    (forall s, node_upd ns i s = l1 ++ mknode i (n_key n) s :: l2) /\
    nodes_from ns i = Some (n :: l2).
Proof.
  induction ns as [|m ns IH]; simpl; [discriminate|].
  destruct (Nat.eqb_spec (n_id m) i) as [Ei|Ei].
  - intros Es. inversion Es; subst. exists [], ns. csplit; auto; try (simpl; tauto).
  - intros Es. destruct (IH Es) as (l1 & l2 & -> & A & B & C & D).
    exists (m :: l1), l2. csplit; auto.
    + simpl. intros [?|?]; auto.
    + intros s. rewrite C. auto.
Qed.

Lemma upd_ids (ns : list (node V)) i s : map n_id (node_upd ns i s) = map n_id ns.
Proof.
  induction ns as [|m ns IH]; simpl; auto. destruct (Nat.eqb_spec (n_id m) i); simpl; congruence.
Qed.
Lemma upd_keys (ns : list (node V)) i s : map n_key (node_upd ns i s) = map n_key ns.
Proof.
  induction ns as [|m ns IH]; simpl; auto. destruct (Nat.eqb_spec (n_id m) i); simpl; congruence.
Qed.
Lemma upd_find (ns : list (node V)) i s a : map_find (node_upd ns i s) a = map_find ns a.
Proof.
  induction ns as [|m ns IH]; simpl; auto.
  destruct (Nat.eqb_spec (n_id m) i); simpl; auto. rewrite IH. auto.
Qed.
Lemma upd_id (ns : list (node V)) i n : node_at ns i = Some n -> node_upd ns i (n_seg n) = ns.
Proof.
  intros H. destruct (node_at_split _ _ _ H) as (l1 & l2 & -> & <- & _ & C & _).
  rewrite C. destruct n; auto.
Qed.
Lemma upd_upd (ns : list (node V)) i s s' : node_upd (node_upd ns i s) i s' = node_upd ns i s'.
Proof.
  induction ns as [|m ns IH]; simpl; auto.
  destruct (Nat.eqb_spec (n_id m) i) as [Ei|Ei]; simpl.
  - destruct (Nat.eqb_spec (n_id m) i); congruence.
  - destruct (Nat.eqb_spec (n_id m) i); congruence.
Qed.
Lemma upd_at (ns : list (node V)) i j n s : node_at ns i = Some n ->
  node_at (node_upd ns i s) j = if j =? i then Some (mknode i (n_key n) s) else node_at ns j.
Proof.
  induction ns as [|m ns IH]; simpl; [discriminate|].
  destruct (Nat.eqb_spec (n_id m) i) as [Ei|Ei]; simpl.
  - intros Es. inversion Es; subst. rewrite (Nat.eqb_sym (n_id n) j).
    destruct (Nat.eqb_spec j (n_id n)); auto.
  - intros Es. rewrite (IH Es).
    destruct (Nat.eqb_spec (n_id m) j), (Nat.eqb_spec j i); auto; congruence.
Qed.

(** ** The map *)

Record wfm (w : world) (c : coll V) : Prop := {
  wm_ids : NoDup (map n_id (c_nodes c));
  wm_lt : Forall (fun n => n_id n < w_next w) (c_nodes c);
  wm_tys : NoDup (map n_ty (c_nodes c));
  wm_key : Forall (fun n => env_ty (n_key n) = n_ty n) (c_nodes c);
  wm_al : Forall (fun n => sg_al (n_seg n) = c_al c) (c_nodes c);
  wm_cache : forall a m, cache_find (c_cache c) a = Some m ->
               exists i, m = Some i /\ map_find (c_nodes c) a = Some i
}.
Definition segs_ok (c : coll V) : Prop := Forall (fun n => wfs (n_seg n)) (c_nodes c).
Definition segs_ok0 (c : coll V) : Prop := Forall (fun n => wfs1 (n_seg n)) (c_nodes c).

(** Everything a usable collection satisfies. *)
Record wfc (w : world) (c : coll V) : Prop := {
  wc_map : wfm w c;
  wc_segs : segs_ok c
}.
(** What is left after any exception: enough to destroy, clear, or assign to. *)
Record wfc0 (w : world) (c : coll V) : Prop := {
  wc0_map : wfm w c;
  wc0_segs : segs_ok0 c
}.
Lemma wfc_0 w c : wfc w c -> wfc0 w c.
Proof.
  intros [A B]. split; auto. unfold segs_ok, segs_ok0 in *.
  eapply Forall_impl; [|exact B]. intros n. apply wfs_1.
Qed.

Fixpoint nblocks (ns : list (node V)) : list nat :=
  match ns with [] => [] | n :: ns' => sblocks (n_seg n) ++ nblocks ns' end.
Lemma nblocks_app l1 l2 : nblocks (l1 ++ l2) = nblocks l1 ++ nblocks l2.
Proof. induction l1; simpl; auto. rewrite IHl1, app_assoc. auto. Qed.
Lemma sum_sizes_app l1 l2 : sum_sizes (l1 ++ l2) = sum_sizes l1 + sum_sizes (V := V) l2.
Proof. induction l1; simpl; auto. lia. Qed.

Fixpoint osum (ns : list (node V)) : nat := match ns with [] => 0 | n :: ns' => ocs (n_seg n) + osum ns' end.
Lemma osum_app l1 l2 : osum (l1 ++ l2) = osum l1 + osum l2.
Proof. induction l1; simpl; auto. lia. Qed.
Definition c_objs (c : coll V) : nat := osum (c_nodes c).
Definition cblocks (c : coll V) : list nat := nblocks (c_nodes c).
Definition cown (w : world) (c : coll V) (R : nat -> nat) (K : nat) : Prop :=
  own w (fun x => cnt (cblocks c) x + R x) (c_objs c + K).

Definition set_nodes (c : coll V) (ns : list (node V)) : coll V :=
  mkcoll ns (c_buckets c) (c_cache c) (c_al c).
Definition upd_seg (c : coll V) (i : nat) (s : segment V) : coll V :=
  set_nodes c (node_upd (c_nodes c) i s).

(** Rest of the storage, seen from one segment. *)
Fixpoint others (ns : list (node V)) (i : nat) : list (node V) :=
  match ns with
  | [] => []
  | n :: ns' => if n_id n =? i then ns' else n :: others ns' i
  end.
Definition Rc (c : coll V) (i : nat) (R : nat -> nat) : nat -> nat :=
  fun x => cnt (nblocks (others (c_nodes c) i)) x + R x.
Definition Kc (c : coll V) (i : nat) (K : nat) : nat := osum (others (c_nodes c) i) + K.

Lemma others_split (ns : list (node V)) i (n : node V) l1 l2 : ns = l1 ++ n :: l2 -> n_id n = i -> ~ In i (map n_id l1) ->
  others ns i = l1 ++ l2.
Proof.
  intros -> <-. induction l1 as [|m l1 IH]; simpl; intros Hn.
  - rewrite Nat.eqb_refl. auto.
  - destruct (Nat.eqb_spec (n_id m) (n_id n)); [tauto|]. rewrite IH; auto.
Qed.
Lemma others_upd (ns : list (node V)) i s : others (node_upd ns i s) i = others ns i.
Proof.
  induction ns as [|m ns IH]; simpl; auto.
  destruct (Nat.eqb_spec (n_id m) i) as [Ei|Ei]; simpl.
  - rewrite Ei, Nat.eqb_refl; auto.
  - destruct (Nat.eqb_spec (n_id m) i); congruence.
Qed.

Lemma cown_seg w c i n s R K : node_at (c_nodes c) i = Some n ->
  cown w (upd_seg c i s) R K <-> sown w s (Rc c i R) (Kc c i K).
Proof.
  intros Hn. destruct (node_at_split _ _ _ Hn) as (l1 & l2 & E1 & E2 & E3 & E4 & _).
  unfold cown, sown, bown, Rc, Kc, cblocks, c_objs, upd_seg, set_nodes. cbn [c_nodes].
  rewrite E4, (others_split _ _ _ _ _ E1 E2 E3), !nblocks_app, !osum_app. simpl.
  unfold sblocks, ocs, ssize.
  split; intros H; (eapply own_ext; [exact H| |]); try (intros; cbv beta; rewrite ?cnt_app; lia); lia.
Qed.
Lemma upd_seg_id c i n : node_at (c_nodes c) i = Some n -> upd_seg c i (n_seg n) = c.
Proof. intros H. unfold upd_seg, set_nodes. rewrite upd_id by auto. destruct c; auto. Qed.
Lemma cown_seg_id w c i n R K : node_at (c_nodes c) i = Some n ->
  cown w c R K -> sown w (n_seg n) (Rc c i R) (Kc c i K).
Proof. intros Hn H. eapply cown_seg; eauto. rewrite upd_seg_id; auto. Qed.

Lemma wp_on_seg {A} i n (m : M SW A) c w (Q : CW -> A -> Prop) (X : CW -> exn -> Prop) :
  node_at (c_nodes c) i = Some n ->
  wp m (n_seg n, w) (fun sw a => Q (upd_seg c i (fst sw), snd sw) a)
     (fun sw e => X (upd_seg c i (fst sw), snd sw) e) ->
  wp (on_seg i m) (c, w) Q X.
Proof.
  intros Hn H. unfold wp, on_seg in *. rewrite Hn.
  destruct (m (n_seg n, w)) as [[s w'] a|[s w'] e|]; auto.
Qed.

(** A node's segment is replaced by one of the same type and allocator. *)
Lemma wfm_upd w w' c i n s :
  wfm w c -> node_at (c_nodes c) i = Some n -> wle w w' ->
  sg_ty s = n_ty n -> sg_al s = sg_al (n_seg n) -> wfm w' (upd_seg c i s).
Proof.
  intros [A1 A2 A3 A4 A5 A6] Hn L Et Ea.
  destruct (node_at_split _ _ _ Hn) as (l1 & l2 & E1 & E2 & E3 & E4 & _).
  split; unfold upd_seg, set_nodes; simpl.
  - rewrite upd_ids. auto.
  - rewrite E4. rewrite E1 in A2. apply Forall_app in A2. destruct A2 as [B1 B2]. inversion B2; subst.
    apply Forall_app. split; [|constructor]; simpl.
    + eapply Forall_impl; [|exact B1]. simpl. intros; wle_tac.
    + wle_tac.
    + eapply Forall_impl; [|eassumption]. simpl. intros; wle_tac.
  - rewrite E4. rewrite E1 in A3. rewrite map_app in *. simpl in *. unfold n_ty at 2. simpl. rewrite Et. auto.
  - rewrite E4. rewrite E1 in A4. apply Forall_app in A4. destruct A4 as [B1 B2]. inversion B2; subst.
    apply Forall_app. split; [|constructor]; simpl; auto. unfold n_ty at 1. simpl. rewrite Et. auto.
  - rewrite E4. rewrite E1 in A5. apply Forall_app in A5. destruct A5 as [B1 B2]. inversion B2; subst.
    apply Forall_app. split; [|constructor]; simpl; auto. congruence.
  - intros a m Hm. rewrite upd_find. auto.
Qed.
Lemma Forall_upd (P : segment V -> Prop) ns i s :
  Forall (fun n => P (n_seg n)) ns -> P s -> Forall (fun n => P (n_seg n)) (node_upd ns i s).
Proof.
  intros H Hs. induction ns as [|m ns IH]; simpl; auto. inversion H; subst.
  destruct (Nat.eqb_spec (n_id m) i); constructor; auto.
Qed.
Lemma wfc_upd w w' c i n s :
  wfc w c -> node_at (c_nodes c) i = Some n -> wle w w' ->
  sg_ty s = n_ty n -> sg_al s = sg_al (n_seg n) -> wfs s -> wfc w' (upd_seg c i s).
Proof.
  intros [A1 A2] Hn L Et Ea Ws. split; [eapply wfm_upd; eauto|].
  apply (Forall_upd wfs); auto.
Qed.
Lemma wfc0_upd w w' c i n s :
  wfc0 w c -> node_at (c_nodes c) i = Some n -> wle w w' ->
  sg_ty s = n_ty n -> sg_al s = sg_al (n_seg n) -> wfs1 s -> wfc0 w' (upd_seg c i s).
Proof.
  intros [A1 A2] Hn L Et Ea Ws. split; [eapply wfm_upd; eauto|].
  apply (Forall_upd wfs1); auto.
Qed.
Lemma wfm_mono w w' c : wfm w c -> wle w w' -> wfm w' c.
Proof.
  intros [A1 A2 A3 A4 A5 A6] L. split; auto.
  eapply Forall_impl; [|exact A2]. simpl. intros; wle_tac.
Qed.
Lemma wfc_mono w w' c : wfc w c -> wle w w' -> wfc w' c.
Proof. intros [A B] L. split; auto. eapply wfm_mono; eauto. Qed.
Lemma wfc0_mono w w' c : wfc0 w c -> wle w w' -> wfc0 w' c.
Proof. intros [A B] L. split; auto. eapply wfm_mono; eauto. Qed.

End PSeg.
