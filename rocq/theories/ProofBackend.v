(** * Specifications of the backend operations: construction, index maintenance *)

From Coq Require Import List Arith Lia Bool Permutation.
From Verif Require Import Base Vec Backend ProofBase ProofVec.
Import ListNotations.

Section PBk.
Context {V : Type} {E : Env V}.

Notation BW := (backend V * world)%type.

Definition bsize (b : backend V) : nat := vsize (be_store b).
Definition bcap (b : backend V) : nat := v_cap (be_store b).
Definition belems (b : backend V) : list V := v_elems (be_store b).
Definition bblocks (b : backend V) : list nat :=
  vblocks (be_store b) ++ vblocks (be_index b) ++ [be_self b].
(** How many of [n] objects of type [t] are counted. *)
Definition oc (t : tyid) (n : nat) : nat := vc (vh_eops t) n.
Lemma oc_0 t : oc t 0 = 0.
Proof. apply vc_0. Qed.
Definition bown (t : tyid) (w : world) (b : backend V) (R : nat -> nat) (K : nat) : Prop :=
  own w (fun x => cnt (bblocks b) x + R x) (oc t (bsize b) + K).

(** The index entries a split segment must have. *)
Definition entries (b : backend V) : list ptr :=
  map (vptr (be_store b)) (seq 0 (S (bsize b))).

(** The weak invariant: enough to release the storage. *)
Record wfb0 (t : tyid) (b : backend V) : Prop := {
  wfb_store : wfv (vh_eops t) (be_store b);
  wfb_index : wfv ix_eops (be_index b);
  wfb_self : 0 < be_self b
}.

(** The index never has to grow before the store, except for a segment which has not
    grown yet. *)
Definition roomy (b : backend V) : Prop := S (bcap b) <= v_cap (be_index b).

Definition split_ok (b : backend V) : Prop :=
  1 <= bcap b /\ v_elems (be_index b) = entries b /\
  (roomy b \/ (bsize b = 0 /\ bcap b = 1)).

Record wfb (t : tyid) (b : backend V) : Prop := {
  wfb_0 : wfb0 t b;
  wfb_layout : match env_layout with
               | PackedLayout => be_index b = vempty
               | SplitLayout => split_ok b
               end
}.

(** What every exception leaves: enough for clear() to put things right again. *)
Definition fixable (b : backend V) : Prop :=
  1 <= bcap b /\ (exists l, v_elems (be_index b) = vptr (be_store b) 0 :: l) /\
  (roomy b \/ bcap b = 1).

Record wfb1 (t : tyid) (b : backend V) : Prop := {
  wfb1_0 : wfb0 t b;
  wfb1_layout : match env_layout with
                | PackedLayout => be_index b = vempty
                | SplitLayout => fixable b
                end
}.

Lemma wfb_1 t b : wfb t b -> wfb1 t b.
Proof.
  intros [W0 Wl]. split; auto. destruct env_layout; auto. destruct Wl as (A & B & C).
  split; [exact A|]. split.
  - rewrite B. unfold entries. simpl. eauto.
  - destruct C as [C|[_ C]]; auto.
Qed.

Definition set_store (b : backend V) (s : vec V) : backend V :=
  mkbackend s (be_index b) (be_self b).
Definition set_index (b : backend V) (i : vec ptr) : backend V :=
  mkbackend (be_store b) i (be_self b).

Lemma wfb1_store t b s1 : wfb0 t b ->
  match env_layout with PackedLayout => be_index b = vempty | SplitLayout => split_ok b end ->
  wfv (vh_eops t) s1 -> v_blk s1 = v_blk (be_store b) -> v_cap s1 = bcap b -> wfb1 t (set_store b s1).
Proof.
  intros [Ws Wi Wf] Wl W1 Eb Ec. split; [split; auto|]. destruct env_layout; [exact Wl|].
  destruct Wl as (A & B & C). unfold fixable, roomy, bcap in *. simpl. rewrite Ec.
  split; [exact A|]. split.
  - rewrite B. unfold entries, vptr. simpl. rewrite Eb. eauto.
  - destruct C as [C|[_ C]]; auto.
Qed.

Lemma set_store_id b : set_store b (be_store b) = b.
Proof. destruct b; reflexivity. Qed.
Lemma set_index_id b : set_index b (be_index b) = b.
Proof. destruct b; reflexivity. Qed.

(** Rest of the storage of a backend, seen from its store or its index. *)
Definition Rs (b : backend V) (R : nat -> nat) : nat -> nat :=
  fun x => cnt (vblocks (be_index b)) x + cnt [be_self b] x + R x.
Definition Ri (b : backend V) (R : nat -> nat) : nat -> nat :=
  fun x => cnt (vblocks (be_store b)) x + cnt [be_self b] x + R x.

Lemma bown_store t w b s R K :
  bown t w (set_store b s) R K <-> vown (vh_eops t) w s (Rs b R) K.
Proof.
  unfold bown, vown, bblocks, Rs, set_store. simpl.
  split; intros H; (eapply own_ext; [exact H| |]);
    try reflexivity; intros; cbv beta; rewrite ?cnt_app; lia.
Qed.
Lemma bown_index t w b i R K :
  bown t w (set_index b i) R K <-> vown ix_eops w i (Ri b R) (oc t (bsize b) + K).
Proof.
  unfold bown, vown, bblocks, Ri, set_index, bsize. simpl.
  split; intros H; (eapply own_ext; [exact H| |]);
    try reflexivity; intros; cbv beta; rewrite ?cnt_app; lia.
Qed.
Lemma bown_store_id t w b R K : bown t w b R K -> vown (vh_eops t) w (be_store b) (Rs b R) K.
Proof. intros H. apply bown_store. rewrite set_store_id. auto. Qed.
Lemma bown_index_id t w b R K : bown t w b R K -> vown ix_eops w (be_index b) (Ri b R) (oc t (bsize b) + K).
Proof. intros H. apply bown_index. rewrite set_index_id. auto. Qed.

Lemma wp_on_store {A} (m : M (vec V * world) A) b w (Q : BW -> A -> Prop) X :
  wp m (be_store b, w) (fun sw a => Q (set_store b (fst sw), snd sw) a)
     (fun sw e => X (set_store b (fst sw), snd sw) e) ->
  wp (on_store m) (b, w) Q X.
Proof. intros H. apply wp_on_field. exact H. Qed.
Lemma wp_on_index {A} (m : M (vec ptr * world) A) b w (Q : BW -> A -> Prop) X :
  wp m (be_index b, w) (fun sw a => Q (set_index b (fst sw), snd sw) a)
     (fun sw e => X (set_index b (fst sw), snd sw) e) ->
  wp (on_index m) (b, w) Q X.
Proof. intros H. apply wp_on_field. exact H. Qed.

(** Why a backend operation may throw. *)
Definition bnoisy (t : tyid) (h : option how) (n : nat) : Prop :=
  (exists h0, h = Some h0 /\ (h0 <> HMove \/ eo_move_nt (vh_eops t) && eo_assign_nt (vh_eops t) = false)) \/ (env_nt_move t = false /\ 0 < n).
Definition bthrew (t : tyid) (h : option how) (n : nat) (w w' : world) (e : exn) : Prop :=
  ((e = BadAlloc \/ (e = UserExn /\ bnoisy t h n)) /\ faulted w w') \/
  (e = NotCopyConstructible t /\ env_copyable t = false /\
   (h = Some HCopy \/ (env_nt_move t = false /\ 0 < n))).

Lemma bnoisy_0 t : ~ bnoisy t None 0.
Proof. intros [(h0 & Q & _)|(_ & Q)]; [discriminate|lia]. Qed.
Lemma vthrew_bthrew t h n w w' e : vthrew (vh_eops t) h n w w' e -> bthrew t h n w w' e.
Proof.
  unfold vthrew, bthrew. simpl. intros [(Q & F)|(H & ?)]; [left; split; auto|right].
  { destruct Q as [Q|(Q & N)]; auto. right. split; auto. destruct N as [(h0 & N & M)|N]; [left|right; auto].
    exists h0. split; auto. simpl in *. destruct h0; simpl in M; try (left; discriminate).
    right. destruct M as [M|M]; auto. apply negb_true_iff in M. rewrite M. auto. }
  destruct (env_copyable t); [discriminate|]. inversion H. auto.
Qed.
Lemma junk_bthrew t h n w w' : eo_move_nt (vh_eops t) && eo_assign_nt (vh_eops t) = false -> faulted w w' ->
  bthrew t (Some h) n w w' UserExn.
Proof. intros N F. left. split; auto. right. split; auto. left. eauto. Qed.
Lemma alloc_bthrew t h n w w' e : e = BadAlloc /\ faulted w w' -> bthrew t h n w w' e.
Proof. intros (-> & F). left. auto. Qed.
Lemma cthrew_bthrew t h n w w' e : cthrew (vh_eops t) h w w' e -> bthrew t (Some h) n w w' e.
Proof. intros. apply vthrew_bthrew, cthrew_vthrew; auto. Qed.
Lemma bthrew_mono t h n w1 w2 w3 w4 e :
  wle w1 w2 -> bthrew t h n w2 w3 e -> wle w3 w4 -> bthrew t h n w1 w4 e.
Proof.
  intros L1 [(? & F)|?] L2; [left|right; auto].
  split; auto. eapply faulted_mono; eauto.
Qed.
Lemma bthrew_weak t h n w w' e : bthrew t None n w w' e -> bthrew t h n w w' e.
Proof.
  intros [(Q & F)|(? & ? & [?|?])]; [left; split; auto|discriminate|right; auto].
  destruct Q as [Q|(Q & [(h0 & N & _)|N])]; auto; [discriminate|]. right. split; auto. right. auto.
Qed.
Ltac bmono := solve [eapply bthrew_mono; [|eassumption|]; wle_tac].
Lemma ix_vthrew h n w w' e : vthrew ix_eops h n w w' e -> h <> Some HEmplace -> e = BadAlloc /\ faulted w w'.
Proof.
  intros [([->|(_ & [(h0 & -> & [M|M])|(M & _)])] & F)|(M & _)] N; auto; try discriminate.
  destruct h0; simpl in M; congruence.
Qed.

Lemma nth_entries b k : k <= bsize b -> nth_error (entries b) k = Some (vptr (be_store b) k).
Proof.
  intros H. unfold entries. rewrite nth_error_map.
  assert (nth_error (seq 0 (S (bsize b))) k = Some k) as ->; auto.
  { rewrite (nth_error_nth' _ 0) by (rewrite seq_length; lia).
    rewrite seq_nth by lia. reflexivity. }
Qed.
Lemma entries_length b : length (entries b) = S (bsize b).
Proof. unfold entries. rewrite map_length, seq_length. reflexivity. Qed.

Lemma wfb_split t b : env_layout = SplitLayout -> wfb t b -> split_ok b.
Proof. intros L [_ H]. rewrite L in H. auto. Qed.
Lemma wfb_packed t b : env_layout = PackedLayout -> wfb t b -> be_index b = vempty.
Proof. intros L [_ H]. rewrite L in H. auto. Qed.
Lemma split_isize b : split_ok b -> vsize (be_index b) = S (bsize b).
Proof. intros (_ & H & _). unfold vsize. rewrite H. apply entries_length. Qed.

(** ** Index maintenance *)

Lemma wp_sp_push_entries {t : tyid} ns : forall b w R K (Q : BW -> unit -> Prop) (X : BW -> exn -> Prop),
  wfv ix_eops (be_index b) -> bown t w b R K ->
  (forall w' i', v_elems i' = v_elems (be_index b) ++ map (vptr (be_store b)) ns ->
     wfv ix_eops i' -> bown t w' (set_index b i') R K -> wle w w' ->
     (vsize (be_index b) + length ns <= v_cap (be_index b) ->
        v_blk i' = v_blk (be_index b) /\ v_cap i' = v_cap (be_index b)) ->
     Q (set_index b i', w') tt) ->
  (forall w' i' e m, v_cap (be_index b) < vsize (be_index b) + length ns ->
     v_elems i' = v_elems (be_index b) ++ map (vptr (be_store b)) (firstn m ns) ->
     m < length ns ->
     wfv ix_eops i' -> bown t w' (set_index b i') R K -> wle w w' ->
     (m = 0 -> i' = be_index b) ->
     (e = BadAlloc /\ faulted w w') \/
       (e = LengthError /\ env_imax < vsize (be_index b) + length ns) ->
     X (set_index b i', w') e) ->
  wp (sp_push_entries ns) (b, w) Q X.
Proof.
  induction ns as [|n ns IH]; intros b w R K Q X Wi H HQ HX; cbn [sp_push_entries].
  - apply wp_ret. rewrite <- (set_index_id b). apply HQ; rewrite ?set_index_id; auto using wle_refl.
    rewrite app_nil_r. auto.
  - apply wp_bind, wp_getx. cbn [fst]. apply wp_bind, wp_on_index.
    eapply wp_vec_emplace_back; [exact Wi|apply bown_index_id; exact H| |].
    + intros w1 i1 El W1 H1 L1 P1 P2. cbn [fst snd].
      apply bown_index in H1.
      assert (S1 : vsize i1 = S (vsize (be_index b))).
      { unfold vsize. rewrite El, app_length. simpl. lia. }
      eapply IH; [exact W1|exact H1| |]; simpl.
      * intros w2 i2 El2 W2 H2 L2 P3. apply HQ; auto.
        -- rewrite El2, El, <- app_assoc. reflexivity.
        -- wle_tac.
        -- intros HL. cbn [length] in HL. assert (HL2 : vsize (be_index b) < v_cap (be_index b)) by lia.
           destruct (P1 HL2) as [? ?]. destruct P3 as [? ?]; [lia|]. split; congruence.
      * intros w2 i2 e m C El2 Hm W2 H2 L2 Z2 Re.
        assert (CB : v_cap (be_index b) < vsize (be_index b) + S (length ns)).
        { destruct (Nat.lt_ge_cases (vsize (be_index b)) (v_cap (be_index b))) as [Hlt|Hge].
          - destruct (P1 Hlt) as [_ Hc]. lia.
          - assert (vsize (be_index b) <= v_cap (be_index b)) by (destruct Wi; auto). lia. }
        apply (HX _ _ _ (S m)); cbn [length]; auto; try lia; try wle_tac.
        -- simpl. rewrite El2, El, <- app_assoc. reflexivity.
        -- destruct Re as [(? & ?)|(? & ?)]; [left; split; auto; fmono|right; split; auto; lia].
    + intros w1 e H1 L1 Re. cbn [fst snd]. apply bown_index in H1.
      assert (HC : v_cap (be_index b) = vsize (be_index b) /\
        ((e = BadAlloc /\ faulted w w1) \/
         (e = LengthError /\ env_imax < vsize (be_index b) + S (length ns)))).
      { destruct Re as [(-> & ? & ? & ->)|[(? & C)|(? & C)]].
        - split; auto. right. split; auto. simpl in *. lia.
        - destruct C as [(? & ? & C)|(C & ?)]; discriminate.
        - split; auto. left. apply ix_vthrew in C; [destruct C; auto|discriminate]. }
      destruct HC as [HC Re'].
      rewrite <- (set_index_id b) at 1.
      apply (HX _ _ _ 0); cbn [length firstn map]; auto; try lia.
      rewrite app_nil_r. auto.
Qed.

(** pushing entries when there is room *)
Lemma wp_push_entries_room {t : tyid} ns b w R K (Q : BW -> unit -> Prop) (X : BW -> exn -> Prop) :
  wfv ix_eops (be_index b) -> bown t w b R K ->
  vsize (be_index b) + length ns <= v_cap (be_index b) ->
  (forall w',
     let i' := mkvec (v_blk (be_index b)) (v_cap (be_index b))
                 (v_elems (be_index b) ++ map (vptr (be_store b)) ns) in
     wfv ix_eops i' -> bown t w' (set_index b i') R K -> wle w w' ->
     Q (set_index b i', w') tt) ->
  wp (sp_push_entries ns) (b, w) Q X.
Proof.
  intros Wi H Hr HQ. eapply wp_sp_push_entries; eauto.
  - intros w1 i1 El W1 H1 L1 P1. destruct (P1 Hr) as [Eb Ec].
    destruct i1 as [bk cp el]. simpl in *. subst. apply HQ; auto.
  - intros; lia.
Qed.

(** ** Destruction *)

Lemma wp_be_delete t b w B k B' k' (Q : world -> unit -> Prop) (X : world -> exn -> Prop) :
  wfb0 t b -> own w B k ->
  (forall x, B x = cnt (bblocks b) x + B' x) -> k = oc t (bsize b) + k' ->
  (forall w', own w' B' k' -> wle w w' -> Q w' tt) ->
  wp (be_delete t b) w Q X.
Proof.
  intros [Ws Wi Wf] H HB Hk HQ. unfold be_delete.
  apply wp_bind.
  eapply wp_dispose with (B' := fun x => cnt (vblocks (be_store b)) x + cnt [be_self b] x + B' x)
    (k' := oc t (bsize b) + k'); [exact Wi|exact H| |exact Hk|].
  { intros x. rewrite HB. unfold bblocks. rewrite !cnt_app. lia. }
  intros w1 H1 L1. apply wp_bind.
  eapply wp_dispose with (B' := fun x => cnt [be_self b] x + B' x) (k' := k');
    [exact Ws|exact H1| |reflexivity|].
  { intros; cbv beta; lia. }
  intros w2 H2 L2. eapply wp_free; [exact H2|reflexivity|].
  intros w3 H3 L3. apply HQ; auto. wle_tac.
Qed.

Lemma wp_destroy_members t b w R K (Q : BW -> unit -> Prop) (X : BW -> exn -> Prop) :
  wfv (vh_eops t) (be_store b) -> wfv ix_eops (be_index b) ->
  own w (fun x => cnt (vblocks (be_store b)) x + cnt (vblocks (be_index b)) x + R x) (oc t (bsize b) + K) ->
  (forall w', own w' R K -> wle w w' -> Q (b, w') tt) ->
  wp (destroy_members t) (b, w) Q X.
Proof.
  intros Ws Wi H HQ. unfold destroy_members, bw.
  apply wp_bind, wp_getx. cbn [fst]. apply wp_bind, wp_on_world. cbn [fst snd].
  eapply wp_dispose with (B' := fun x => cnt (vblocks (be_store b)) x + R x)
    (k' := oc t (bsize b) + K); [exact Wi|exact H| |reflexivity|].
  { intros; cbv beta; lia. }
  intros w1 H1 L1. apply wp_on_world. cbn [fst snd].
  eapply wp_dispose with (B' := R) (k' := K); [exact Ws|exact H1|reflexivity|reflexivity|].
  intros w2 H2 L2. apply HQ; auto. wle_tac.
Qed.

(** ** Construction *)

(** A store that a backend can adopt while keeping the invariant. *)
Definition adoptable (s : vec V) : Prop :=
  v_cap s = vsize s \/ (vsize s = 0 /\ v_cap s <= 1).

Definition ctor_len (t : tyid) (s : vec V) : Prop :=
  env_layout = SplitLayout /\ (env_vmax t < 1 \/ env_imax <= vsize s).

Lemma wp_be_ctor t s w R K (Q : world -> backend V -> Prop) (X : world -> exn -> Prop) :
  wfv (vh_eops t) s -> adoptable s -> vown (vh_eops t) w s R K ->
  (forall w' s' i', v_elems s' = v_elems s -> wfv (vh_eops t) s' -> wfv ix_eops i' ->
     own w' (fun x => cnt (vblocks s') x + cnt (vblocks i') x + R x) (oc t (vsize s') + K) ->
     wle w w' ->
     (0 < v_cap s -> s' = s) -> (v_cap s = 0 -> v_cap s' <= 1) ->
     match env_layout with
     | PackedLayout => i' = vempty /\ s' = s
     | SplitLayout => split_ok (mkbackend s' i' 0)
     end ->
     Q w' (mkbackend s' i' 0)) ->
  (forall w' e, own w' R K -> wle w w' ->
     bthrew t None 0 w w' e \/ (e = LengthError /\ ctor_len t s) -> X w' e) ->
  wp (be_ctor t s) w Q X.
Proof.
  intros Ws Ad H HQ HX. unfold be_ctor. destruct env_layout eqn:Lay.
  - apply wp_ret. apply HQ; auto using wle_refl, wfv_empty; try lia.
    unfold vown in H. eapply own_ext; [exact H| |reflexivity].
    intros. rewrite (vblocks_cap0 vempty) by auto. rewrite cnt_nil. lia.
  - assert (G : wp (try_rethrow (on_store (vec_reserve (vh_eops t) 1);; sp_build_index 0)
                     (destroy_members t)) (mkbackend s vempty 0, w)
        (fun bw _ => Q (snd bw) (fst bw)) (fun bw e => X (snd bw) e)).
    2:{ unfold wp in *. destruct (try_rethrow _ _ _) as [[? ?] ?|[? ?] ?|]; auto. }
    apply wp_try.
    (* the index is built after the store has room for one element *)
    assert (BUILD : forall s1 w1, v_elems s1 = v_elems s -> wfv (vh_eops t) s1 ->
       own w1 (fun x => cnt (vblocks s1) x + R x) (oc t (vsize s1) + K) -> wle w w1 ->
       1 <= v_cap s1 -> (0 < v_cap s -> s1 = s) -> (v_cap s = 0 -> v_cap s1 = 1) ->
       wp (sp_build_index 0) (mkbackend s1 vempty 0, w1)
         (fun bw _ => Q (snd bw) (fst bw))
         (fun s' e => wp (destroy_members t) s' (fun s'' _ => X (snd s'') e)
                        (fun s'' e => X (snd s'') e))).
    { intros s1 w1 El W1 H1 L1 C1 P1 P2. unfold sp_build_index.
      apply wp_bind, wp_getx. cbn [fst be_store].
      rewrite Nat.sub_0_r.
      (* use the frame rule with a pretended self block: none *)
      set (b0 := mkbackend s1 vempty 0).
      assert (SP : forall ns i0 w2, wfv ix_eops i0 ->
        own w2 (fun x => cnt (vblocks s1) x + cnt (vblocks i0) x + R x) (oc t (vsize s1) + K) ->
        forall (Q' : BW -> unit -> Prop) (X' : BW -> exn -> Prop),
        (forall w' i', v_elems i' = v_elems i0 ++ map (vptr s1) ns ->
           wfv ix_eops i' ->
           own w' (fun x => cnt (vblocks s1) x + cnt (vblocks i') x + R x) (oc t (vsize s1) + K) ->
           wle w2 w' -> Q' (mkbackend s1 i' 0, w') tt) ->
        (forall w' i' e, wfv ix_eops i' ->
           own w' (fun x => cnt (vblocks s1) x + cnt (vblocks i') x + R x) (oc t (vsize s1) + K) ->
           wle w2 w' ->
           bthrew t None 0 w2 w' e \/ (e = LengthError /\ env_imax < vsize i0 + length ns) ->
           X' (mkbackend s1 i' 0, w') e) ->
        wp (sp_push_entries ns) (mkbackend s1 i0 0, w2) Q' X').
      { induction ns as [|n ns IH]; intros i0 w2 W2 H2 Q' X' HQ' HX'; cbn [sp_push_entries].
        - apply wp_ret. apply HQ'; auto using wle_refl. rewrite app_nil_r; auto.
        - apply wp_bind, wp_getx. cbn [fst]. apply wp_bind, wp_on_index. cbn [be_index be_store].
          eapply wp_vec_emplace_back with (R := fun x => cnt (vblocks s1) x + R x) (K := oc t (vsize s1) + K).
          + exact W2.
          + unfold vown. eapply own_ext; [exact H2|intros; cbv beta; lia|reflexivity].
          + intros w3 i3 El3 W3 H3 L3 _ _. cbn [fst snd]. unfold set_index. cbn [be_store be_self].
            assert (S3 : vsize i3 = S (vsize i0)).
            { unfold vsize. rewrite El3, app_length. simpl. lia. }
            eapply IH; [exact W3| | |].
            * unfold vown in H3. eapply own_ext; [exact H3|intros; cbv beta; lia|reflexivity].
            * intros w4 i4 El4 W4 H4 L4. apply HQ'; auto; [|wle_tac].
              rewrite El4, El3, <- app_assoc. reflexivity.
            * intros w4 i4 e W4 H4 L4 Re. apply HX'; auto; [wle_tac|].
              destruct Re as [?|(? & ?)]; [left; bmono|right].
              split; auto. simpl. lia.
          + intros w3 e H3 L3 Re. cbn [fst snd]. unfold set_index. cbn [be_store be_self].
            apply HX'; auto.
            * unfold vown in H3. eapply own_ext; [exact H3|intros; cbv beta; lia|reflexivity].
            * destruct Re as [(-> & ? & ? & ->)|[(? & C)|(? & C)]].
              -- right. split; auto. simpl in *. lia.
              -- destruct C as [(? & ? & C)|(C & ?)]; discriminate.
              -- left. left. apply ix_vthrew in C; [destruct C; auto|discriminate]. }
      apply SP.
      - apply wfv_empty.
      - eapply own_ext; [exact H1| |reflexivity].
        intros. rewrite (vblocks_cap0 vempty) by auto. rewrite cnt_nil. lia.
      - intros w2 i2 El2 W2 H2 L2. simpl in El2. cbn [fst snd].
        assert (S2 : vsize i2 = S (vsize s1)).
        { unfold vsize at 1. rewrite El2. cbn [length]. rewrite !map_length, seq_length. reflexivity. }
        apply HQ; auto.
        + wle_tac.
        + intros. rewrite P2; auto.
        + unfold split_ok, entries, bsize, bcap, roomy. simpl. repeat split; auto.
          unfold bcap. simpl.
          assert (vsize s1 = vsize s) by (unfold vsize; rewrite El; auto).
          assert (vsize i2 <= v_cap i2) by (destruct W2; auto).
          assert (vsize s <= v_cap s) by (destruct Ws; auto).
          destruct (Nat.eq_dec (v_cap s) 0) as [Z|Z].
          * right. split; [lia|auto].
          * rewrite (P1 ltac:(lia)) in *. destruct Ad as [Ad|[Ad1 Ad2]]; [left; lia|right; lia].
      - intros w2 i2 e W2 H2 L2 Re.
        eapply wp_destroy_members; cbn [be_store be_index]; [exact W1|exact W2|exact H2|].
        intros w3 H3 L3. cbn [snd]. apply HX; auto; [wle_tac|].
        destruct Re as [?|(? & Hl)]; [left; bmono|right].
        split; auto. split; auto. right. simpl in Hl. rewrite seq_length in Hl.
        assert (vsize s1 = vsize s) by (unfold vsize; rewrite El; auto). lia. }
    apply wp_bind, wp_on_store. cbn [be_store].
    eapply wp_vec_reserve; [exact Ws|exact H| | |].
    + intros C1 C2. cbn [fst snd]. unfold set_store. cbn [be_index be_self].
      apply BUILD; auto using wle_refl. lia.
    + intros w1 nb C1 C2 H1 L1 Hnb W1. cbn [fst snd]. unfold set_store. cbn [be_index be_self].
      apply BUILD; auto; simpl; try lia. 
    + intros w1 e H1 L1 Re. cbn [fst snd]. unfold set_store. cbn [be_index be_self].
      eapply wp_destroy_members with (R := R) (K := K); cbn [be_store be_index];
        [exact Ws|apply wfv_empty| |].
      * unfold vown in H1. eapply own_ext; [exact H1| |reflexivity].
        intros. cbv beta. rewrite (vblocks_cap0 vempty) by auto. rewrite cnt_nil. lia.
      * intros w2 H2 L2. cbn [snd]. apply HX; auto; [wle_tac|].
        destruct Re as [(? & ? & ?)|(? & T)].
        -- right. split; auto. split; auto.
        -- left. assert (Z : vsize s = 0) by (destruct Ws; lia). rewrite Z in T.
           apply vthrew_bthrew in T. bmono.
Qed.

Lemma wp_be_new t s w R K (Q : world -> backend V -> Prop) (X : world -> exn -> Prop) :
  wfv (vh_eops t) s -> adoptable s -> vown (vh_eops t) w s R K ->
  (forall w' b, belems b = v_elems s -> wfb t b -> bown t w' b R K -> wle w w' ->
     (0 < v_cap s -> be_store b = s) -> (v_cap s = 0 -> bcap b <= 1) ->
     (env_layout = PackedLayout -> be_store b = s) ->
     Q w' b) ->
  (forall w' e, own w' R K -> wle w w' ->
     bthrew t None 0 w w' e \/ (e = LengthError /\ ctor_len t s) -> X w' e) ->
  wp (be_new t s) w Q X.
Proof.
  intros Ws Ad H HQ HX. unfold be_new. unfold vown in H.
  apply wp_bind, wp_try. eapply wp_alloc; [exact H| |].
  2:{ intros w1 H1 L1 F. eapply wp_dispose; [exact Ws|exact H1|reflexivity|reflexivity|].
      intros w2 H2 L2. apply HX; auto; [wle_tac|]. left. left. split; auto. fmono. }
  intros w1 self H1 L1 Es Hs Hn1.
  apply wp_bind, wp_try.
  eapply wp_be_ctor with (R := fun x => cnt [self] x + R x) (K := K); [exact Ws|exact Ad| | |].
  - unfold vown. eapply own_ext; [exact H1|intros; cbv beta; lia|reflexivity].
  - intros w2 s2 i2 El W2 Wi H2 L2 P1 P2 LY. apply wp_ret. cbn [be_store be_index].
    apply HQ; cbn [be_store]; auto.
    + split; [split; auto|]. destruct env_layout; [destruct LY; auto|].
      exact LY.
    + unfold bown, bblocks, bsize. simpl. eapply own_ext; [exact H2| |reflexivity].
      intros. rewrite !cnt_app. cbv beta. lia.
    + wle_tac.
    + intros Lp. rewrite Lp in LY. destruct LY; auto.
  - intros w2 e H2 L2 Re. eapply wp_free; [exact H2|reflexivity|].
    intros w3 H3 L3. apply HX; auto; [wle_tac|].
    destruct Re as [?|?]; [left; bmono|right; auto].
Qed.

Lemma wp_be_make t w R K (Q : world -> backend V -> Prop) (X : world -> exn -> Prop) :
  own w R K ->
  (forall w' b, belems b = [] -> wfb t b -> bown t w' b R K -> wle w w' -> bcap b <= 1 -> Q w' b) ->
  (forall w' e, own w' R K -> wle w w' ->
     bthrew t None 0 w w' e \/ (e = LengthError /\ ctor_len t vempty) -> X w' e) ->
  wp (be_make t) w Q X.
Proof.
  intros H HQ HX. unfold be_make. eapply wp_be_new; [apply wfv_empty| | | |exact HX].
  - left; reflexivity.
  - unfold vown. eapply own_ext; [exact H| |].
    + intros. rewrite (vblocks_cap0 vempty) by auto. rewrite cnt_nil. reflexivity.
    + change (vn (vh_eops t) vempty) with (vc (vh_eops t) 0). rewrite vc_0. reflexivity.
  - intros. apply HQ; auto.
Qed.

Lemma wp_be_copy t x w R K (Q : world -> backend V -> Prop) (X : world -> exn -> Prop) :
  wfv (vh_eops t) (be_store x) -> own w R K ->
  (forall w' b, belems b = belems x -> wfb t b -> bown t w' b R K -> wle w w' ->
     (0 < bsize x -> env_copyable t = true) -> Q w' b) ->
  (forall w' e, own w' R K -> wle w w' ->
     ((e = BadAlloc \/ (e = UserExn /\ 0 < bsize x)) /\ faulted w w') \/
     (e = NotCopyConstructible t /\ env_copyable t = false /\ 0 < bsize x) \/
     (e = LengthError /\ env_layout = SplitLayout /\ (env_vmax t < 1 \/ env_imax <= bsize x)) ->
     X w' e) ->
  wp (be_copy t x) w Q X.
Proof.
  intros Ws H HQ HX. unfold be_copy. apply wp_bind.
  eapply wp_vec_copy; [exact Ws|exact H| |].
  - intros w1 s El W1 H1 L1 Cs CC.
    assert (Es : vsize s = bsize x) by (unfold vsize; rewrite El; auto).
    eapply wp_be_new; [exact W1| |exact H1| |].
    + left. unfold bsize in *. lia.
    + intros. apply HQ; auto; [unfold belems in *; congruence|wle_tac|].
      intros. specialize (CC ltac:(auto)). simpl in CC. destruct (env_copyable t); auto; discriminate.
    + intros w2 e H2 L2 [[([?|(? & N)] & ?)|(? & ? & [?|(? & ?)])]|(? & ? & Hl)]; try discriminate; try lia;
        try (elim (bnoisy_0 t); assumption); apply HX; auto; try wle_tac.
      * left. split; auto. fmono.
      * right. right. repeat split; auto. rewrite Es in Hl. auto.
  - intros w1 e H1 L1 Re Hs. apply HX; auto.
    destruct Re as [(? & ?)|[(? & ? & ?)|(? & Re)]]; auto.
    right. left. simpl in Re. destruct (env_copyable t); inversion Re; auto.
Qed.

Lemma wp_be_move t same x w R K (Q : BW -> backend V -> Prop) (X : BW -> exn -> Prop) :
  wfb0 t x -> bown t w x R K -> (same = true -> adoptable (be_store x)) ->
  (forall w' x' b, belems b = belems x -> wfb t b -> wfb0 t x' -> bsize x' <= bsize x ->
     be_self x' = be_self x -> be_index x' = be_index x ->
     own w' (fun y => cnt (bblocks b) y + cnt (bblocks x') y + R y) (oc t (bsize b) + oc t (bsize x') + K) ->
     wle w w' -> (same = false -> newer w (bblocks b)) -> Q (x', w') b) ->
  (forall w' x' e, wfb0 t x' -> bown t w' x' R K -> wle w w' ->
     be_self x' = be_self x ->
     ((e = BadAlloc \/ (e = UserExn /\ same = false /\ env_nt_move t = false /\ 0 < bsize x)) /\ faulted w w') \/
     (e = LengthError /\ env_layout = SplitLayout /\ (env_vmax t < 1 \/ env_imax <= bsize x)) ->
     X (x', w') e) ->
  wp (be_move t same) (x, w) Q X.
Proof.
  intros [Ws Wi Wf] H Ad HQ HX. unfold be_move. apply wp_bind, wp_on_store.
  eapply wp_vec_move; [exact Ws|apply bown_store_id; exact H| |].
  - intros w1 x1 s El W1 Wx1 Ex H1 L1 P1 P2. cbn [fst snd].
    assert (Es : vsize s = bsize x) by (unfold vsize; rewrite El; auto).
    unfold bw. apply wp_on_world. cbn [fst snd].
    eapply wp_be_new with (R := fun y => cnt (bblocks (set_store x x1)) y + R y) (K := oc t (vsize x1) + K);
      [exact W1| | | |].
    + destruct same; [destruct (P1 eq_refl) as (-> & _); auto|].
      left. rewrite (proj1 (P2 eq_refl)). unfold bsize in *. lia.
    + unfold vown in *. eapply own_ext; [exact H1| |].
      * intros. cbv beta. unfold bblocks, Rs. simpl. rewrite !cnt_app. lia.
      * unfold vn, oc. lia.
    + intros w2 b Eb Wb H2 L2 _ _ _. apply HQ; auto.
      * unfold belems in *; congruence.
      * split; auto.
      * unfold bown in H2. eapply own_ext; [exact H2|intros; cbv beta; lia|]. unfold bsize. cbn [be_store set_store]. lia.
      * wle_tac.
      * intros Sm. destruct (P2 Sm) as (_ & Nw). apply Forall_forall. intros y Hy. apply cnt_pos in Hy.
        unfold newer in Nw. rewrite Forall_forall in Nw. destruct (Nat.eq_dec (cnt (vblocks s) y) 0) as [Zy|Zy]; [|apply Nw, cnt_pos; lia].
        transitivity (w_next w1); [apply L1|]. eapply own_newer; [exact H1|exact H2|exact L2|cbv beta; lia|].
        pose proof (own_one _ _ _ H2 y) as One. cbv beta in *. unfold bblocks in One at 2. unfold Rs. simpl in One. rewrite !cnt_app in *. lia.
    + intros w2 e H2 L2 Re. apply HX; auto.
      * split; auto.
      * wle_tac.
      * destruct Re as [[([?|(? & N)] & ?)|(? & ? & [?|(? & ?)])]|(? & ? & Hl)]; try discriminate; try lia;
          try (elim (bnoisy_0 t); assumption).
        -- left. split; auto. fmono.
        -- right. rewrite Es in Hl. auto.
  - intros w1 x1 e W1 H1 L1 Sm Nz J Re. cbn [fst snd]. apply HX; auto.
    + split; auto.
    + apply (bown_store t). auto.
    + left. destruct Re as [(? & ?)|[(? & ? & M)|(? & Re)]]; auto; [|discriminate]. split; auto. right. csplit; auto.
      simpl in M. apply negb_true_iff in M. auto.
Qed.

End PBk.
