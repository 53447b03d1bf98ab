(** * Every reachable state is sound *)

From Coq Require Import List Arith Lia Bool Permutation.
From Verif Require Import Base Vec Backend Segment Coll Spec Reach ProofBase ProofVec ProofBackend ProofOps ProofOps2
  ProofSeg ProofMap ProofView ProofColl ProofIns ProofEach ProofErase ProofRange ProofRange2 ProofEq ProofCopy.
Import ListNotations.

Section PReach.
Context {V : Type} {E : Env V}.
Notation CW := (coll V * world)%type.
Notation PW := ((coll V * coll V) * world)%type.
Notation CL := (list (coll V)).

(** ** The pool *)
Definition pblocks (l : CL) : list nat := flat_map cblocks l.
Definition psize (l : CL) : nat := list_sum (map c_objs l).

Lemma pblocks_cons c l x : cnt (pblocks (c :: l)) x = cnt (cblocks c) x + cnt (pblocks l) x.
Proof. unfold pblocks. simpl. apply cnt_app. Qed.
Lemma pblocks_app l1 l2 x : cnt (pblocks (l1 ++ l2)) x = cnt (pblocks l1) x + cnt (pblocks l2) x.
Proof. unfold pblocks. rewrite flat_map_app. apply cnt_app. Qed.
Lemma psize_cons c l : psize (c :: l) = c_objs c + psize l.
Proof. reflexivity. Qed.
Lemma psize_app l1 l2 : psize (l1 ++ l2) = psize l1 + psize l2.
Proof. unfold psize. rewrite map_app, list_sum_app. auto. Qed.
Lemma pblocks_perm l l' x : Permutation l l' -> cnt (pblocks l) x = cnt (pblocks l') x.
Proof. induction 1; rewrite ?pblocks_cons; try lia; auto. Qed.
Lemma psize_perm l l' : Permutation l l' -> psize l = psize l'.
Proof. induction 1; rewrite ?psize_cons; lia. Qed.

(** What the other collections own. *)
Definition PR (g d : CL) : nat -> nat := fun x => cnt (pblocks g) x + cnt (pblocks d) x.
Definition PK (g d : CL) : nat := psize g + psize d.

Record alive (w : world) (g d : CL) : Prop := {
  al_good : Forall (wfc w) g;
  al_bad : Forall (fun c => nodes_ok0 (c_nodes c)) d;
  al_own : own w (PR g d) (PK g d)
}.

Lemma wfc_nodes0 w c : wfc w c -> nodes_ok0 (c_nodes c).
Proof. intros W. eapply Forall_impl; [|apply (wc_segs _ _ W)]. intros n. apply wfs_0. Qed.
Lemma wfc0_nodes0 w c : wfc0 w c -> nodes_ok0 (c_nodes c).
Proof. intros W. eapply Forall_impl; [|exact (wc0_segs _ _ W)]. intros n. apply wfs1_0. Qed.

Lemma Forall_wfc_mono w w' g : Forall (wfc w) g -> wle w w' -> Forall (wfc w') g.
Proof. intros F L. eapply Forall_impl; [|exact F]. intros c W. eapply wfc_mono; eauto. Qed.

Lemma alive_focus w c g d : alive w (c :: g) d ->
  wfc w c /\ cown w c (PR g d) (PK g d) /\ Forall (wfc w) g /\ Forall (fun c => nodes_ok0 (c_nodes c)) d.
Proof.
  intros [G B O]. inversion G; subst. csplit; auto.
  eapply own_ext; [exact O| |]; unfold PR, PK; intros; rewrite ?pblocks_cons, ?psize_cons; lia.
Qed.
Lemma alive_focus_bad w c g d : alive w g (c :: d) ->
  nodes_ok0 (c_nodes c) /\ cown w c (PR g d) (PK g d) /\ Forall (wfc w) g /\ Forall (fun c => nodes_ok0 (c_nodes c)) d.
Proof.
  intros [G B O]. inversion B; subst. csplit; auto.
  eapply own_ext; [exact O| |]; unfold PR, PK; intros; rewrite ?pblocks_cons, ?psize_cons; lia.
Qed.
Lemma alive_back w w' c g d : wfc w' c -> cown w' c (PR g d) (PK g d) -> wle w w' ->
  Forall (wfc w) g -> Forall (fun c => nodes_ok0 (c_nodes c)) d -> alive w' (c :: g) d.
Proof.
  intros W O L G B. split; auto.
  - constructor; auto. eapply Forall_wfc_mono; eauto.
  - eapply own_ext; [exact O| |]; unfold PR, PK; intros; rewrite ?pblocks_cons, ?psize_cons; lia.
Qed.
Lemma alive_wreck w w' c g d : nodes_ok0 (c_nodes c) -> cown w' c (PR g d) (PK g d) -> wle w w' ->
  Forall (wfc w) g -> Forall (fun c => nodes_ok0 (c_nodes c)) d -> alive w' g (c :: d).
Proof.
  intros W O L G B. split; auto.
  - eapply Forall_wfc_mono; eauto.
  - eapply own_ext; [exact O| |]; unfold PR, PK; intros; rewrite ?pblocks_cons, ?psize_cons; lia.
Qed.
Lemma alive_none w w' g d : own w' (PR g d) (PK g d) -> wle w w' ->
  Forall (wfc w) g -> Forall (fun c => nodes_ok0 (c_nodes c)) d -> alive w' g d.
Proof. intros. split; auto. eapply Forall_wfc_mono; eauto. Qed.

Lemma alive_perm w g d g' d' : alive w g d -> Permutation g g' -> Permutation d d' -> alive w g' d'.
Proof.
  intros [G B O] Pg Pd. split.
  - eapply Permutation_Forall; eauto.
  - eapply Permutation_Forall; eauto.
  - eapply own_ext; [exact O| |]; unfold PR, PK; intros.
    + rewrite (pblocks_perm _ _ x Pg), (pblocks_perm _ _ x Pd). auto.
    + rewrite (psize_perm _ _ Pg), (psize_perm _ _ Pd). auto.
Qed.

(** A second collection of the pool, seen alone. *)
Lemma alive_in w g d y : alive w g d -> In y g -> exists R K, wfc w y /\ cown w y R K.
Proof.
  intros A Hin. apply in_split in Hin. destruct Hin as (l1 & l2 & ->).
  assert (A' : alive w (y :: l1 ++ l2) d).
  { eapply alive_perm; [exact A| |apply Permutation_refl]. symmetry. apply Permutation_middle. }
  apply alive_focus in A'. destruct A' as (W & O & _). eauto.
Qed.

(** ** Member functions *)
Definition keeps (R : nat -> nat) (K : nat) (w : world) (safe : exn -> Prop) : CW -> unit -> Prop :=
  fun s _ => wfc (snd s) (fst s) /\ cown (snd s) (fst s) R K /\ wle w (snd s).
Definition keeps_exn (R : nat -> nat) (K : nat) (w : world) (safe : exn -> Prop) : CW -> exn -> Prop :=
  fun s e => wfc0 (snd s) (fst s) /\ cown (snd s) (fst s) R K /\ wle w (snd s) /\
             (safe e -> wfc (snd s) (fst s)).

Lemma wp_void {S A} (m : M S A) s (Q : S -> unit -> Prop) X :
  wp m s (fun s' _ => Q s' tt) X -> wp (void m) s Q X.
Proof. intros H. apply wp_bind. eapply wp_mono; [exact H| |]; cbv beta; intros; [apply wp_ret|]; auto. Qed.

Lemma hint_is_hinv (c : coll V) hint h : hint_is c hint h <-> hinv h c [] hint.
Proof. unfold hint_is, hinv. destruct h as [[t k]|]; simpl; rewrite ?Nat.add_0_r; tauto. Qed.
Lemma hint_is_ok w (c : coll V) hint h : wfm w c -> hint_is c hint h -> hint_ok h c.
Proof.
  unfold hint_is, hint_ok. destruct h as [[t k]|]; auto. intros W P.
  apply (points_elems _ _ _ _ _ W) in P. lia.
Qed.
Lemma unregistrable_arg (c : coll V) x : unregistrable c x <-> arg_unreg c x.
Proof. unfold unregistrable, arg_unreg. rewrite types_nodes. tauto. Qed.

Section Calls.
Context (R : nat -> nat) (K : nat).

Lemma k_failed (sf safe : exn -> Prop) (SF : Prop) w c w' c' t h m e :
  failed SF w c R K w' c' t h m e -> (safe e -> SF) -> keeps_exn R K w safe (c', w') e.
Proof.
  intros (W0 & O & L & _ & _ & _ & _ & _ & _ & S) Hs. unfold keeps_exn. cbn [fst snd]. csplit; auto.
  - intros He. apply S. auto.
Qed.
Lemma k_made_exn w c a w' c' e safe : wfc w c -> made_exn w c a R K w' c' e -> keeps_exn R K w safe (c', w') e.
Proof.
  intros W M. pose proof (made_exn_failed True w c a R K w' c' e HCopy W M) as F.
  eapply (k_failed safe); eauto.
Qed.
Lemma k_unreg w c w' c' x e safe : unreg w c R K w' c' x e -> keeps_exn R K w safe (c', w') e.
Proof.
  intros (_ & _ & W & O & L & _). unfold keeps_exn. cbn [fst snd]. csplit; auto. apply wfc_0; auto.
Qed.
Lemma k_upto h w c w' c' l safe : upto h w c R K w' c' l -> keeps R K w safe (c', w') tt.
Proof. intros (_ & W & O & L & _). unfold keeps. auto. Qed.
Lemma k_ins w c w' c' t k v i s s' safe r : ins_did w c R K w' c' t k v i s s' -> keeps R K w safe (c', w') r.
Proof. intros (D & W & _). unfold keeps. cbn [fst snd]. csplit; auto; apply D. Qed.
Lemma k_ins_fail w c w' c' t h k e i s s' (safe : exn -> Prop) : wfc w c -> k <= length (elems c t) ->
  ins_fail w c R K w' c' t h k e i s s' -> (safe e -> safe_at c t k) -> keeps_exn R K w safe (c', w') e.
Proof. intros W Hk F Hs. eapply (k_failed safe); [eapply ins_fail_failed; eauto|auto]. Qed.

Lemma threw_not_unreg t h n m w w' t' : ~ threw (V := V) t h n m w w' (UnregisteredType t').
Proof. intros [([?|(? & _)] & _)|[(? & _)|(? & _)]]; discriminate. Qed.

Lemma of_type_more (t : tyid) (v : V) pre post : length (of_type t (pre ++ (t, v) :: post)) = length (of_type t pre) + S (length (of_type t post)).
Proof. unfold of_type. rewrite filter_app, map_app, app_length. cbn [filter fst]. rewrite Nat.eqb_refl. reflexivity. Qed.

(** Where the insertion of a range stops, the insertion of the element is safe if that of the
    range is. *)
Lemma range_safe_at h (c c1 : coll V) pre t v post : grew h c c1 pre -> range_safe h c (pre ++ (t, v) :: post) ->
  safe_at c1 t (slot h c t + length (of_type t pre)).
Proof.
  intros G (Hq & Hr). assert (Ht : In t (map fst (pre ++ (t, v) :: post))).
  { rewrite map_app. apply in_or_app. right. left. auto. }
  assert (Hl : length (elems c1 t) = length (elems c t) + length (of_type t pre)) by (apply (grew_length _ _ _ _ t G)).
  assert (Ks : slot h c t + length (of_type t pre) = length (elems c1 t) \/ quiet t = true).
  { unfold slot. destruct h as [[t0 k0]|]; auto. destruct (Nat.eqb_spec t0 t) as [->|]; auto. right. eapply Hq; eauto. }
  unfold safe_at. destruct env_layout eqn:Ly.
  - destruct Ks; auto.
  - destruct (Hr eq_refl t Ht) as (C2 & Cr). rewrite of_type_more in Cr.
    assert (Rg : In t (types c)).
    { apply types_seg_at. intros N. unfold cap_of in C2. rewrite N in C2. lia. }
    assert (Cc : cap_of c1 t = cap_of c t) by (apply (g_cap _ _ _ _ G); auto; lia).
    rewrite Cc. csplit; auto. lia.
Qed.

(** A stopped range insertion: with [safe_at] at the place where it stopped. *)
Lemma k_stopped Y H h w c w' c' l e (safe : exn -> Prop) : wfc w c -> hint_ok h c ->
  stopped Y H h w c R K w' c' l e ->
  (safe e -> range_safe h c l \/ (exists t, e = UnregisteredType t)) ->
  keeps_exn R K w safe (c', w') e.
Proof.
  intros W Hh (pre & t & v & post & w1 & c1 & El & U & [(hw & _ & F)|(x & _ & Et & Un)]) Hs.
  - assert (L1 : wle w w1) by apply U.
    assert (Hf : keeps_exn R K w1 safe (c', w') e).
    { eapply (k_failed safe); [exact F|]. intros He. destruct (Hs He) as [Rs|(t' & ->)].
      - rewrite El in Rs. eapply range_safe_at; [apply U|exact Rs].
      - exfalso. destruct F as (_ & _ & _ & _ & _ & _ & _ & _ & T & _). eapply threw_not_unreg; eauto. }
    destruct Hf as (A & B & C & D). unfold keeps_exn. csplit; auto. cbn [snd] in *. wle_tac.
  - assert (L1 : wle w w1) by apply U.
    apply (k_unreg _ _ _ _ _ _ safe) in Un. destruct Un as (A & B & C & D). unfold keeps_exn. csplit; auto. cbn [snd] in *. wle_tac.
Qed.

Lemma k_all P w c w' c' safe r : all_did P R K w c w' c' -> keeps R K w safe (c', w') r.
Proof. intros (W & O & L & _). unfold keeps. auto. Qed.
Lemma k_seg P w c w' c' t i s s' safe r : seg_did P w c R K w' c' t i s s' -> keeps R K w safe (c', w') r.
Proof. intros (D & W & _). unfold keeps. cbn [fst snd]. csplit; auto; apply D. Qed.
Lemma k_seg_fail PX w c w' c' t i s s' e (safe : exn -> Prop) : wfc w c -> seg_fail PX w c R K w' c' t i s s' e ->
  (safe e -> wfs s') -> keeps_exn R K w safe (c', w') e.
Proof.
  intros W (D & W0 & w1 & L & P) Hs. unfold keeps_exn. cbn [fst snd]. csplit.
  - apply (did_wf0 _ _ _ _ _ _ _ _ _ _ D); auto. apply wfc_0; auto.
  - apply D.
  - apply D.
  - intros He. apply (did_wf _ _ _ _ _ _ _ _ _ _ D); auto.
Qed.
Lemma k_erase_fail w c w' c' one t e (safe : exn -> Prop) : erase_fail w c R K w' c' one t e ->
  (safe e -> env_layout = PackedLayout \/ one = false) -> keeps_exn R K w safe (c', w') e.
Proof.
  intros (W0 & O & L & _ & _ & _ & _ & _ & _ & _ & _ & Hw & _) Hs. unfold keeps_exn. cbn [fst snd]. csplit; auto.
Qed.
Lemma k_same w c e safe : wfc w c -> cown w c R K -> keeps_exn R K w safe (c, w) e.
Proof. intros W O. unfold keeps_exn. cbn [fst snd]. csplit; auto. apply wfc_0; auto. wle_tac. Qed.

Lemma rsv_seg_fail w1 w' n s s' e : wfs s -> rsv_fail n w1 w' s s' e -> env_layout = PackedLayout -> wfs s'.
Proof. intros W (_ & _ & H & _) P. rewrite (H P). auto. Qed.

Lemma each_fail_segs (P : segment V -> segment V -> Prop) PX w w' (l l' : list (node V)) e :
  Forall (fun n => wfs (n_seg n)) l -> each_fail P PX w w' l l' e ->
  (forall s s', wfs s -> PX w w' s s' e -> wfs s') -> Forall (fun n => wfs (n_seg n)) l'.
Proof.
  intros F (m1 & n & m2 & m1' & n' & -> & -> & F2 & _ & _ & _ & Hp) H.
  apply Forall_app in F. destruct F as (_ & Fn). inversion Fn; subst.
  apply Forall_app. split.
  - clear - F2. induction F2 as [|a b la lb Hab]; constructor; auto. apply Hab.
  - constructor; auto. eapply H; eauto.
Qed.

Lemma k_register l : forall c w safe, wfc w c -> cown w c R K ->
  wp (register_types l) (c, w) (keeps R K w safe) (keeps_exn R K w safe).
Proof.
  induction l as [|a l IH]; intros c w safe W O.
  - apply wp_ret. unfold keeps. cbn. csplit; auto. wle_tac.
  - apply wp_bind. eapply (wp_register_type a c w R K); auto.
    + apply W.
    + intros w1 c1 n M. assert (W1 : wfc w1 c1).
      { split; [apply M|]. destruct M as (_ & _ & _ & _ & _ & _ & [(En & _)|(_ & Fs & _ & Ad)]).
        - unfold segs_ok. rewrite En. apply W.
        - eapply added_segs; [exact Ad|apply Fs|apply W]. }
      assert (O1 : cown w1 c1 R K) by apply M. assert (L1 : wle w w1) by apply M.
      eapply wp_mono; [apply (IH c1 w1 safe W1 O1)| |].
      * intros [c2 w2] r (A & B & C). unfold keeps. cbn in *. csplit; auto. wle_tac.
      * intros [c2 w2] e (A & B & C & D). unfold keeps_exn. cbn in *. csplit; auto. wle_tac.
    + intros w1 c1 e M. eapply k_made_exn; eauto.
Qed.

End Calls.

Lemma api_sound g d c m safe new vals w : alive w (c :: g) d -> api g c m safe new vals ->
  wp m (c, w) (keeps (PR g d) (PK g d) w safe) (keeps_exn (PR g d) (PK g d) w safe).
Proof.
  intros A Hapi. destruct (alive_focus _ _ _ _ A) as (W & O & Gd & Bd).
  set (R := PR g d) in *. set (K := PK g d) in *. pose proof (wc_map _ _ W) as Wm.
  destruct Hapi.
  - (* register *) apply k_register; auto.
  - (* reserve *) eapply (wp_c_reserve_all n c w R K); auto; intros.
    + eapply k_all; eauto.
    + destruct H as (W0 & Hw & O1 & L1 & _ & Ef). unfold keeps_exn. cbn [fst snd]. csplit; auto.
      * intros Pk. apply Hw. eapply each_fail_segs; [apply W|exact Ef|]. intros s s' Ws F. eapply rsv_seg_fail; eauto.
  - eapply (wp_c_reserve_info a n c w R K); auto; intros.
    + eapply k_seg; eauto.
    + eapply k_seg_fail; eauto. destruct H0 as (D & _ & w1 & _ & F). intros [Pk|Nin]; [|contradiction].
      eapply rsv_seg_fail; eauto. eapply prev_wfs; [exact W|apply D].
    + apply k_same; auto.
  - eapply (wp_c_reserve_type a n c w R K); auto; intros.
    + eapply k_seg; eauto.
    + eapply k_made_exn; eauto.
    + eapply k_seg_fail; eauto. destruct H as (D & _ & w1 & _ & F). intros Pk.
      eapply rsv_seg_fail; eauto. eapply prev_wfs; [exact W|apply D].
  - eapply (wp_c_shrink_all c w R K); auto; intros.
    + eapply k_all; eauto.
    + destruct H as (_ & _ & O1 & L1 & _). unfold keeps_exn. cbn [fst snd]. csplit; auto. apply wfc_0; auto.
  - eapply (wp_c_shrink_info a c w R K); auto; intros.
    + eapply k_seg; eauto.
    + eapply k_seg_fail; eauto. intros _. destruct H0 as (_ & _ & w1 & _ & (_ & Ws & _)). auto.
    + apply k_same; auto.
  - eapply (wp_c_clear c w R K); auto; intros. eapply k_all; eauto.
  - eapply (wp_c_clear_info a c w R K); auto; intros. + eapply k_seg; eauto. + apply k_same; auto.
  - (* emplace *) apply wp_void. eapply (wp_c_emplace a x v c w R K); auto; intros.
    + eapply k_ins; eauto.
    + eapply k_made_exn; eauto.
    + eapply k_ins_fail; [exact W| |eassumption|]; auto.
  - apply wp_void. eapply (wp_c_emplace_hint hint i k a x v c w R K); auto; intros.
    + eapply k_ins; eauto.
    + eapply k_made_exn; eauto.
    + eapply k_ins_fail; [exact W| |eassumption|auto]. destruct H0 as [P|(_ & ->)]; auto. apply (points_elems _ _ _ _ _ Wm) in P. lia.
  - apply wp_void. eapply (wp_c_emplace_pos pos k a x v c w R K); auto; intros.
    + eapply k_ins; eauto.
    + eapply k_ins_fail; [exact W| |eassumption|auto]. destruct (lpoints_split w c pos _ k W H) as (l1 & n & l2 & El & Et & Hk & _).
      rewrite <- Et, (elems_node w c n Wm), n_elems_length; auto. rewrite El. apply in_elt.
  - (* insert *) apply wp_void. eapply (wp_c_insert x v c w R K); auto; intros.
    + eapply k_ins; eauto.
    + eapply k_made_exn; eauto.
    + eapply k_unreg. apply (unreg_cache w c R K w' l x); auto.
    + eapply k_ins_fail; [exact W| |eassumption|]; auto. intros [Hu|Hs]; auto. rewrite unregistrable_arg in Hu. contradiction.
  - apply wp_void. eapply (wp_c_insert_hint hint i k x v c w R K); auto; intros.
    + eapply k_ins; eauto.
    + eapply k_made_exn; eauto.
    + eapply k_unreg. apply (unreg_cache w c R K w' l x); auto.
    + eapply k_ins_fail; [exact W| |eassumption|]. * destruct H0 as [P|(_ & ->)]; auto. apply (points_elems _ _ _ _ _ Wm) in P. lia.
      * intros [Hu|Hs]; auto. rewrite unregistrable_arg in Hu. contradiction.
  - apply wp_void. eapply (wp_c_insert_pos pos k x v c w R K); auto; intros.
    + eapply k_ins; eauto.
    + eapply k_ins_fail; [exact W| |eassumption|auto]. destruct (lpoints_split w c pos _ k W H) as (l1 & n & l2 & El & Et & Hk & _).
      rewrite <- Et, (elems_node w c n Wm), n_elems_length; auto. rewrite El. apply in_elt.
  - (* ranges *) eapply (wp_c_insert_range (fun _ _ => True) (fun _ _ => True) xs l [] w c c w R K); eauto; [apply upto_refl; auto| |]; cbn [app]; intros.
    + eapply k_upto; eauto.
    + eapply k_stopped; [exact W| |eassumption|]. * exact I. * auto.
  - eapply (wp_c_insert_range_terminal a h fwd xs c w R K); auto; intros.
    + eapply k_upto; eauto.
    + eapply (k_failed R K (many_safe fwd)); eauto.
  - assert (Hh : hint_ok h c) by (eapply hint_is_ok; eauto).
    apply hint_is_hinv in H.
    eapply (wp_c_insert_hint_range (fun _ _ => True) (fun _ _ => True) h xs l [] hint w c c w R K); eauto; [apply upto_refl; auto| |]; cbn [app]; intros.
    + eapply k_upto; eauto.
    + eapply k_stopped; [exact W|exact Hh|eassumption|]; auto.
  - assert (Hh : hint_ok hn c) by (eapply hint_is_ok; eauto).
    apply hint_is_hinv in H.
    eapply (wp_c_insert_hint_range_terminal hn hint a h fwd xs c w R K); auto; intros.
    + eapply k_upto; eauto.
    + eapply (k_failed R K (many_safe fwd)); eauto.
  - assert (A2 : exists R K, wfc w y /\ cown w y R K).
    { eapply (alive_in w (c :: g)); eauto. right; auto. }
    destruct A2 as (Ry & Ky & Wy & Oy).
    apply (located_at w y first i Ry Ky Wy Oy) in H0. apply (located_at w y last j Ry Ky Wy Oy) in H1.
    destruct H0 as (-> & Hi), H1 as (-> & Hj).
    eapply (wp_c_insert_from y w Ry Ky _ i j [] w c c w R K); eauto; rewrite ?flat_length; try lia; [apply upto_refl; auto| |]; cbn [app]; intros.
    + eapply k_upto; eauto.
    + eapply k_stopped; [exact W| |eassumption|]. * exact I. * auto.
  - assert (A2 : exists R K, wfc w y /\ cown w y R K).
    { eapply (alive_in w (c :: g)); eauto. right; auto. }
    destruct A2 as (Ry & Ky & Wy & Oy).
    apply (located_at w y first i Ry Ky Wy Oy) in H1. apply (located_at w y last j Ry Ky Wy Oy) in H2.
    destruct H1 as (-> & Hi), H2 as (-> & Hj).
    assert (Hh : hint_ok h c) by (eapply hint_is_ok; eauto).
    apply hint_is_hinv in H.
    eapply (wp_c_insert_hint_from h y w Ry Ky _ i j [] hint w c c w R K); eauto; rewrite ?flat_length; try lia; [apply upto_refl; auto| |]; cbn [app]; intros.
    + eapply k_upto; eauto.
    + eapply k_stopped; [exact W|exact Hh|eassumption|]; auto.
  - eapply (wp_c_insert_local a xs c w R K); auto; intros.
    + eapply k_upto; eauto.
    + eapply k_stopped; [exact W| |eassumption|]. * exact I. * auto.
  - assert (Hh : hint_ok h c) by (eapply hint_is_ok; eauto).
    apply hint_is_hinv in H.
    eapply (wp_c_insert_hint_local h hint a xs c w R K); auto; intros.
    + eapply k_upto; eauto.
    + eapply k_stopped; [exact W|exact Hh|eassumption|]; auto.
  - assert (Hh : hint_ok (Some (t, k)) c).
    { destruct (lpoints_split w c pos _ k W H) as (l1 & n & l2 & El & Et & Hk & _). simpl.
      rewrite <- Et, (elems_node w c n Wm), n_elems_length; auto. rewrite El. apply in_elt. }
    apply wp_void. eapply (wp_c_insert_pos_range (fun _ _ => True) pos k xs vs t c w R K); auto; intros.
    + eapply k_upto; eauto.
    + eapply k_stopped; [exact W|exact Hh|eassumption|]. auto.
  - assert (Hh : hint_ok (Some (env_ty a, k)) c).
    { destruct (lpoints_split w c _ _ k W H) as (l1 & n & l2 & El & Et & Hk & _). simpl.
      rewrite <- Et, (elems_node w c n Wm), n_elems_length; auto. rewrite El. apply in_elt. }
    apply wp_void. eapply (wp_c_insert_lpos_range (fun _ _ => True) i p k a xs (env_ty a) c w R K); auto; intros.
    + eapply k_upto; eauto.
    + eapply k_stopped; [exact W|exact Hh|eassumption|]. auto.
  - (* erase *) apply wp_void. eapply (wp_c_erase pos t k c w R K); auto; intros.
    + unfold keeps. auto.
    + eapply k_erase_fail; eauto.
  - apply wp_void. eapply (wp_c_erase_local pos t k c w R K); auto; intros.
    + unfold keeps. auto.
    + eapply k_erase_fail; eauto.
  - apply wp_void. eapply (wp_c_erase_range first last i j c w R K); auto; intros.
    + unfold keeps. auto.
    + destruct H2 as (Wc & Oc & L & _). unfold keeps_exn. cbn [fst snd]. csplit; auto. apply wfc_0; auto.
  - apply wp_void. eapply (wp_c_erase_local_range first last t f l c w R K); auto; intros.
    + unfold keeps. auto.
    + eapply k_erase_fail; eauto.
Qed.

(** ** Clearing the segments which a failed call has changed *)
Definition crel (L : list tyid) (n n' : node V) : Prop :=
  (In (n_ty n) L -> nrel clr_rel n n') /\ (~ In (n_ty n) L -> n' = n).
Lemma crel_ty L n n' : crel L n n' -> n_ty n' = n_ty n.
Proof.
  intros (A & B). destruct (In_dec Nat.eq_dec (n_ty n) L) as [H|H]; [destruct (A H) as (_ & _ & Q & _); exact Q|].
  rewrite (B H). auto.
Qed.
Lemma clr_rel_trans (s s1 s' : segment V) : clr_rel s s1 -> clr_rel s1 s' -> clr_rel s s'.
Proof. intros (A1 & A2 & A3 & A4) (B1 & B2 & B3 & B4). unfold clr_rel. csplit; intros; congruence. Qed.
Lemma crel_cons t L n n1 n' : crel [t] n n1 -> crel L n1 n' -> crel (t :: L) n n'.
Proof.
  intros C1 C2. pose proof (crel_ty _ _ _ C1) as Et. destruct C1 as (A1 & A2), C2 as (B1 & B2). rewrite Et in *. split.
  - intros Hin. destruct (In_dec Nat.eq_dec (n_ty n) L) as [HL|HL].
    + specialize (B1 HL). destruct (Nat.eq_dec t (n_ty n)) as [Q|Q].
      * specialize (A1 (or_introl Q)). destruct A1 as (C1 & C2 & C3 & C4 & C5 & C6), B1 as (D1 & D2 & D3 & D4 & D5 & D6).
        unfold nrel. csplit; try congruence. eapply clr_rel_trans; eauto.
      * rewrite A2 in B1; auto. simpl. tauto.
    + rewrite B2 by auto. apply A1. destruct Hin as [|]; [left; auto|contradiction].
  - intros N. simpl in N. rewrite B2 by tauto. apply A2. simpl. tauto.
Qed.
Lemma crel_all_cons t L (l l1 l' : list (node V)) : Forall2 (crel [t]) l l1 -> Forall2 (crel L) l1 l' -> Forall2 (crel (t :: L)) l l'.
Proof.
  intros F. revert l'. induction F as [|n n1 l l1 C F IH]; intros l' G; inversion G; subst; constructor; auto.
  eapply crel_cons; eauto.
Qed.
Lemma crel_refl t (l : list (node V)) : ~ In t (map n_ty l) -> Forall2 (crel [t]) l l.
Proof.
  induction l as [|n l IH]; intros N; constructor; simpl in N; [|tauto]. split; auto. intros [->|[]]. tauto.
Qed.
Lemma crel_nil (l : list (node V)) : Forall2 (crel []) l l.
Proof. induction l; constructor; auto. split; auto. intros []. Qed.

Lemma wp_clear_types R K l : forall c w (Q : CW -> unit -> Prop) (X : CW -> exn -> Prop),
  wfc0 w c -> cown w c R K ->
  (forall w' c', wfc0 w' c' -> cown w' c' R K -> wle w w' -> c_al c' = c_al c ->
     Forall2 (crel (map env_ty l)) (c_nodes c) (c_nodes c') -> Q (c', w') tt) ->
  wp (clear_types l) (c, w) Q X.
Proof.
  induction l as [|a l IH]; intros c w Q X W O HQ.
  - apply wp_ret. apply HQ; auto using wle_refl. apply crel_nil.
  - cbn [clear_types map] in *. apply wp_bind, wp_getx. cbn [fst]. apply wp_bind.
    pose proof (wc0_map _ _ W) as Wm.
    assert (Rg : is_registered c a = true <-> In (env_ty a) (map n_ty (c_nodes c))).
    { unfold is_registered. rewrite (cache_transparent w) by auto.
      destruct (find_spec _ _ a Wm) as [(n & Hin & Hf & Hat & Ht)|(Hf & Nin)]; rewrite Hf; split; auto; try discriminate; try tauto.
      intros _. rewrite <- Ht. apply in_map; auto. }
    destruct (is_registered c a) eqn:Q1.
    + apply proj1 in Rg. specialize (Rg eq_refl). unfold c_clear_info. apply wp_bind.
      eapply (wp_map_iterator_by_info a c w); [exact Wm| |tauto].
      intros n Hin Hat Et. eapply wp_on_seg; [exact Hat|].
      assert (Ws : wfs1 (n_seg n)).
      { pose proof (wc0_segs _ _ W) as S. unfold segs_ok0 in S. rewrite Forall_forall in S. auto. }
      eapply (wp_seg_clear1 _ _ (Rc c (n_id n) R) (Kc c (n_id n) K)); [exact Ws|eapply cown_seg_id; eauto|].
      intros b' w1 (A1 & A2 & A3 & A4 & A5 & A6 & A7 & A8). cbn [fst snd].
      set (s' := seg_with (n_seg n) b').
      assert (Ws' : wfs s') by (apply wfs_with; auto).
      assert (W1 : wfc0 w1 (upd_seg c (n_id n) s')) by (eapply wfc0_upd; eauto; apply wfs_1; auto).
      assert (H1 : cown w1 (upd_seg c (n_id n) s') R K) by (eapply cown_seg; eauto).
      eapply IH; [exact W1|exact H1|]. intros w2 c2 W2 O2 L2 Al2 F2. apply HQ; auto; [wle_tac|].
      eapply crel_all_cons; [|exact F2].
      destruct (node_at_split _ _ _ Hat) as (l1 & l2 & E1 & _ & N1 & U & _).
      unfold upd_seg, set_nodes. cbn [c_nodes]. rewrite U. pose proof (wm_tys _ _ Wm) as Nd.
      rewrite E1 in Nd |- *. rewrite map_app in Nd. cbn [map] in Nd. rewrite Et in Nd.
      apply NoDup_remove_2 in Nd. rewrite in_app_iff in Nd.
      apply Forall2_app; [apply crel_refl; tauto|]. constructor; [|apply crel_refl; tauto].
      split; [intros _|intros N; exfalso; apply N; left; symmetry; exact Et]. unfold nrel, clr_rel. simpl. csplit; auto.
    + apply wp_ret. eapply IH; [exact W|exact O|]. intros w2 c2 W2 O2 L2 Al2 F2. apply HQ; auto.
      eapply crel_all_cons; [|exact F2]. apply crel_refl. rewrite <- Rg. discriminate.
Qed.

(** All other segments being those of a collection in working order, the result is in working order. *)
Lemma cleared_wf w (c c' c2 : coll V) w2 L : wfc w c -> NoDup (map n_ty (c_nodes c')) ->
  (forall t, ~ In t L -> seg_at c' t = seg_at c t) -> wfc0 w2 c2 ->
  Forall2 (crel L) (c_nodes c') (c_nodes c2) -> wfc w2 c2.
Proof.
  intros W Nd Sg W2 F. split; [apply W2|]. unfold segs_ok. rewrite Forall_forall. intros n2 Hin2.
  assert (X : exists n, In n (c_nodes c') /\ crel L n n2).
  { clear - F Hin2. induction F as [|n n' l l' C F IH]; [destruct Hin2|]. destruct Hin2 as [<-|H].
    - exists n. split; auto. left; auto.
    - destruct (IH H) as (n0 & A & B). exists n0. split; auto. right; auto. }
  destruct X as (n & Hin & (C1 & C2)). destruct (In_dec Nat.eq_dec (n_ty n) L) as [H|H]; [apply C1; auto|].
  rewrite (C2 H). pose proof (seg_at_node c' n Nd Hin) as Q. rewrite Sg in Q by auto.
  destruct (seg_at_in _ _ _ Q) as (m & Hm & _ & <-). pose proof (wc_segs _ _ W) as S. unfold segs_ok in S.
  rewrite Forall_forall in S. auto.
Qed.

(** ** Construction from a range *)
Lemma wp_with_new c m w (Q : world -> coll V -> Prop) (X : world -> exn -> Prop) :
  wp m (c, w) (fun s _ => Q (snd s) (fst s)) (fun s e => wp (c_destroy (fst s)) (snd s) (fun w' _ => X w' e) X) ->
  wp (with_new c m) w Q X.
Proof.
  unfold wp, with_new. destruct (m (c, w)) as [[c' w'] a|[c' w'] e|]; cbn [fst snd]; auto.
  destruct (c_destroy c' w'); auto.
Qed.

Lemma wp_c_destroy c w R K (Q : world -> unit -> Prop) (X : world -> exn -> Prop) :
  nodes_ok0 (c_nodes c) -> cown w c R K -> (forall w', own w' R K -> wle w w' -> Q w' tt) ->
  wp (c_destroy c) w Q X.
Proof. intros. eapply (wp_destroy_nodes _ w R K); eauto. Qed.

Lemma wp_c_from_range xs l al w R K (Q : world -> coll V -> Prop) (X : world -> exn -> Prop) :
  Forall2 gives xs l -> own w R K ->
  (forall w' c, upto None w (c_empty al) R K w' c l -> Q w' c) ->
  (forall w' e, own w' R K -> wle w w' ->
     (exists w1 c1, wle w1 w' /\ stopped (fun k x => nth_error xs k = Some x) (fun k hw => nth_error (map a_how xs) k = Some hw) None w (c_empty al) R K w1 c1 l e) -> X w' e) ->
  wp (c_from_range xs al) w Q X.
Proof.
  intros F O HQ HX. apply wp_with_new.
  assert (We : wfc w (c_empty (V := V) al)) by apply wfc_nil.
  assert (Oe : cown w (c_empty (V := V) al) R K) by (apply cown_nil; exact O).
  eapply (wp_c_insert_range (fun k x => nth_error xs k = Some x) (fun k hw => nth_error (map a_how xs) k = Some hw) xs l [] w (c_empty al) (c_empty al) w R K); [exact F|intros k0 x0 N0; split; [exact N0|apply map_nth_error; exact N0]|exact We|apply upto_refl; auto| |]; cbn [app fst snd].
  - intros w' c' U. auto.
  - intros w' c' e S. pose proof (k_stopped R K _ _ None w _ w' c' l e (fun _ => False) We I S) as H.
    destruct H as (N & O1 & L & _); [tauto|]. cbn [fst snd] in *.
    eapply (wp_c_destroy c' w' R K); eauto; [eapply wfc0_nodes0; eauto|]. intros w2 O2 L2. apply HX; auto; [wle_tac|]. exists w', c'. auto.
Qed.

Lemma stopped_wle Y H h w c R K w' c' l e : stopped Y H h w c R K w' c' l e -> wle w w'.
Proof.
  intros (pre & t & v & post & w1 & c1 & _ & U & [(hw & _ & F)|(x & _ & _ & Un)]).
  - destruct U as (_ & _ & _ & L & _). destruct F as (_ & _ & L' & _). wle_tac.
  - destruct U as (_ & _ & _ & L & _). destruct Un as (_ & _ & _ & _ & L' & _). wle_tac.
Qed.

Lemma ticked_own w w' B k : ticked w w' -> own w B k -> own w' B k.
Proof.
  intros (En & El & Eo & _) [A1 A2 A3 A4 A5]. split; auto.
  - intros x. rewrite El. auto.
  - intros x. rewrite En. auto.
  - congruence.
  - rewrite En. auto.
Qed.
Lemma ticked_wle w w' : ticked w w' -> wle w w'.
Proof. intros (En & El & _ & L). apply wle_live; auto. lia. Qed.

Lemma wp_c_equal_pool w x y g d : alive w (x :: y :: g) d ->
  wp (c_equal x y) w (fun w' b => ticked w w' /\ (b = true <-> coll_eq x y))
                     (fun w' e => ticked w w' /\ neq_exn x y w w' e).
Proof.
  intros A. pose proof (al_good _ _ _ A) as F. inversion F as [|? ? Wx1 F1]; subst. inversion F1 as [|? ? Wy1 F2]; subst.
  eapply (wp_c_equal w w x y w); auto; apply wc_map; auto.
Qed.

(** ** Reachable states *)
Lemma bad_focus2 w x g c d : alive w (x :: g) (c :: d) ->
  wfc w x /\ nodes_ok0 (c_nodes c) /\ own2 w c x (PR g d) (PK g d) /\ Forall (wfc w) g /\
  Forall (fun c => nodes_ok0 (c_nodes c)) d /\ cown w c (PR (x :: g) d) (PK (x :: g) d).
Proof.
  intros [G B O]. inversion G; subst. inversion B; subst. csplit; auto.
  - eapply own_ext; [exact O| |]; unfold PR, PK; intros; rewrite ?pblocks_cons, ?psize_cons; lia.
  - eapply own_ext; [exact O| |]; unfold PR, PK; intros; rewrite ?pblocks_cons, ?psize_cons; lia.
Qed.
Lemma alive_pair w w' c x g d : wfc w' c -> wfc w' x -> own2 w' c x (PR g d) (PK g d) -> wle w w' ->
  Forall (wfc w) g -> Forall (fun c => nodes_ok0 (c_nodes c)) d -> alive w' (c :: x :: g) d.
Proof.
  intros W Wx O L G B. split; auto.
  - constructor; auto. constructor; auto. eapply Forall_wfc_mono; eauto.
  - eapply own_ext; [exact O| |]; unfold PR, PK; intros; rewrite ?pblocks_cons, ?psize_cons; lia.
Qed.

(** ** Values assigned in place *)
Lemma rewrite_len f (l : list V) : length (rewrite_elems f l) = length l.
Proof. unfold rewrite_elems. rewrite map_length, combine_length, seq_length. lia. Qed.
Lemma mutate_wfs f s : wfs s -> wfs (rewrite_seg (V := V) f s).
Proof.
  intros [[[Sv I P] L] Es]. unfold rewrite_seg.
  assert (Z : vsize (mkvec (v_blk (be_store (sg_be s))) (v_cap (be_store (sg_be s)))
                (rewrite_elems (f (sg_ty s)) (v_elems (be_store (sg_be s))))) = vsize (be_store (sg_be s)))
    by (unfold vsize; cbn [v_elems]; apply rewrite_len).
  split; [split|]; cbn [sg_ty sg_be sg_snt].
  - split; cbn [be_store be_index be_self]; auto. destruct Sv as [S1 S2 S3]. split; rewrite ?Z; cbn [v_blk v_cap] in *; auto.
  - destruct env_layout; cbn [be_index]; auto. destruct L as (L1 & L2 & L3).
    unfold split_ok, roomy, bcap, bsize, entries, bsize in *. cbn [be_store be_index be_self] in *. rewrite Z. auto.
  - rewrite Es. unfold be_end. cbn [be_store]. rewrite Z. unfold be_ptr. reflexivity.
Qed.
Lemma mutate_blocks f (c : coll V) : cblocks (c_mutate f c) = cblocks c.
Proof. unfold cblocks, c_mutate. cbn [c_nodes]. induction (c_nodes c) as [|n l IH]; simpl; auto. rewrite IH. reflexivity. Qed.
Lemma mutate_size f (c : coll V) : c_objs (c_mutate f c) = c_objs c.
Proof.
  unfold c_objs, c_mutate. cbn [c_nodes]. induction (c_nodes c) as [|n l IH]; simpl; auto.
  rewrite IH. f_equal. unfold ocs. cbn [rewrite_seg sg_ty]. f_equal. unfold ssize, bsize, vsize. cbn. apply rewrite_len.
Qed.
Lemma mutate_find f (l : list (node V)) a :
  map_find (map (fun n => mknode (n_id n) (n_key n) (rewrite_seg f (n_seg n))) l) a = map_find l a.
Proof. induction l as [|n l IH]; simpl; auto. rewrite IH. reflexivity. Qed.
Lemma mutate_wfc f w c : wfc w c -> wfc w (c_mutate f c).
Proof.
  intros [[M1 M2 M3 M4 M5 M6] Sg]. split; [split|]; unfold c_mutate; cbn [c_nodes c_cache c_al]; rewrite ?map_map; auto.
  - rewrite Forall_map. exact M2.
  - rewrite Forall_map. exact M4.
  - rewrite Forall_map. exact M5.
  - intros a m Ea. destruct (M6 a m Ea) as (i & ? & ?). exists i. rewrite mutate_find. auto.
  - unfold segs_ok in *. cbn [c_nodes]; rewrite Forall_map. eapply Forall_impl; [|exact Sg]. intros n. apply mutate_wfs.
Qed.
Lemma mutate_cown f w (c : coll V) R K : cown w c R K -> cown w (c_mutate f c) R K.
Proof. unfold cown. rewrite mutate_blocks, mutate_size. auto. Qed.

Ltac from_wp H Hw := first [eapply wp_ok in Hw; [|exact H] | eapply wp_exn in Hw; [|exact H]].

Lemma step_alive w g d w' g' d' : alive w g d -> step w g d w' g' d' -> alive w' g' d' /\ wle w w'.
Proof.
  intros IHreach St. assert (H : True) by trivial. destruct St.
  - split; [|solve [assumption|wle_tac|apply ticked_wle; auto]]; eapply alive_perm; eauto.
  - destruct (alive_focus _ _ _ _ IHreach) as (W & O & G & B). split; [|solve [assumption|wle_tac|apply ticked_wle; auto]]; eapply alive_wreck; eauto; [eapply wfc_nodes0; eauto|wle_tac].
  - split; [|solve [assumption|wle_tac|apply ticked_wle; auto]]; eapply (alive_back w); [apply wfc_nil| |wle_tac|apply IHreach|apply IHreach].
    apply cown_nil. apply IHreach.
  - eapply (wp_ok _ _ _ _ (fun w' c => alive w' (c :: g) d /\ wle w w') (fun _ _ => True)); [|eassumption].
    eapply (wp_c_from_range xs l al w (PR g d) (PK g d)); eauto; [apply IHreach|].
    intros w1 c1 (_ & W & O & L & _). split; [|solve [assumption|wle_tac|apply ticked_wle; auto]]; eapply alive_back; eauto; apply IHreach.
  - eapply (wp_exn _ _ _ _ (fun _ _ => True) (fun w' _ => alive w' g d /\ wle w w')); [|eassumption].
    eapply (wp_c_from_range xs l al w (PR g d) (PK g d)); eauto; [apply IHreach|].
    intros w1 e1 O L _. split; [|solve [assumption|wle_tac|apply ticked_wle; auto]]; eapply alive_none; eauto; apply IHreach.
  - destruct (alive_focus _ _ _ _ IHreach) as (W & O & G & B).
    eapply (wp_ok _ _ _ _ (fun w' c => alive w' (c :: x :: g) d /\ wle w w') (fun _ _ => True)); [|eassumption].
    eapply (wp_c_copy_al x _ w (PR (x :: g) d) (PK (x :: g) d)); eauto; [apply wfc_0; auto|apply IHreach|].
    intros w1 c1 W1 O1 L1 _ _ _ _. split; [|solve [assumption|wle_tac|apply ticked_wle; auto]]; eapply alive_back; eauto.
  - destruct (alive_focus _ _ _ _ IHreach) as (W & O & G & B).
    eapply (wp_exn _ _ _ _ (fun _ _ => True) (fun w' _ => alive w' (x :: g) d /\ wle w w')); [|eassumption].
    eapply (wp_c_copy_al x _ w (PR (x :: g) d) (PK (x :: g) d)); eauto; [apply wfc_0; auto|apply IHreach|].
    intros w1 e1 O1 L1 _. split; [|solve [assumption|wle_tac|apply ticked_wle; auto]]; eapply alive_none; eauto.
  - destruct (alive_focus _ _ _ _ IHreach) as (W & O & G & B).
    eapply (wp_ok _ _ _ _ (fun w' c => alive w' (c :: x :: g) d /\ wle w w') (fun _ _ => True)); [|eassumption].
    eapply (wp_c_copy_al x _ w (PR (x :: g) d) (PK (x :: g) d)); eauto; [apply wfc_0; auto|apply IHreach|].
    intros w1 c1 W1 O1 L1 _ _ _ _. split; [|solve [assumption|wle_tac|apply ticked_wle; auto]]; eapply alive_back; eauto.
  - destruct (alive_focus _ _ _ _ IHreach) as (W & O & G & B).
    eapply (wp_exn _ _ _ _ (fun _ _ => True) (fun w' _ => alive w' (x :: g) d /\ wle w w')); [|eassumption].
    eapply (wp_c_copy_al x _ w (PR (x :: g) d) (PK (x :: g) d)); eauto; [apply wfc_0; auto|apply IHreach|].
    intros w1 e1 O1 L1 _. split; [|solve [assumption|wle_tac|apply ticked_wle; auto]]; eapply alive_none; eauto.
  - (* move *) destruct (alive_focus _ _ _ _ IHreach) as (W & O & G & B).
    inversion H0; subst. split; [|solve [assumption|wle_tac|apply ticked_wle; auto]]; eapply (alive_pair w'); eauto; [apply wfc_nil| |wle_tac].
    apply own2_dst. eapply own_ext; [exact O| |]; intros; cbv beta; unfold cblocks; rewrite ?c_objs_nodes; simpl; rewrite ?cnt_nil; lia.
  - destruct (alive_focus _ _ _ _ IHreach) as (W & O & G & B).
    eapply (wp_ok _ _ _ _ (fun (s : PW) _ => alive (snd s) (fst (fst s) :: snd (fst s) :: g) d /\ wle w (snd s)) (fun _ _ => True)) in H0; [exact H0|].
    eapply (wp_c_move_al al x w (PR g d) (PK g d)); eauto.
    intros w1 d1 bk W1 O1 L1 _ _ _ _. cbn [fst snd]. split; [|solve [assumption|wle_tac|apply ticked_wle; auto]]; eapply (alive_pair w); eauto; [apply wfc_nil|].
    apply own2_dst. eapply own_ext; [exact O1| |]; intros; cbv beta; unfold cblocks; rewrite ?c_objs_nodes; simpl; rewrite ?cnt_nil; lia.
  - destruct (alive_focus _ _ _ _ IHreach) as (W & O & G & B).
    eapply (wp_exn _ _ _ _ (fun _ _ => True) (fun (s : PW) _ => alive (snd s) g (snd (fst s) :: d) /\ wle w (snd s))) in H0; [exact H0|].
    eapply (wp_c_move_al al x w (PR g d) (PK g d)); eauto.
    intros w1 d1 xn e1 _ N O1 L1 _ _. cbn [fst snd]. split; [|solve [assumption|wle_tac|apply ticked_wle; auto]]; eapply (alive_wreck w); eauto.
  - (* calls *) destruct (alive_focus _ _ _ _ IHreach) as (W & O & G & B).
    pose proof (api_sound g d c m safe new vals w IHreach H0) as Hw. eapply wp_ok in Hw; [|eassumption].
    destruct Hw as (W1 & O1 & L1). cbn [fst snd] in *. split; [|solve [assumption|wle_tac|apply ticked_wle; auto]]; eapply alive_back; eauto.
  - destruct (alive_focus _ _ _ _ IHreach) as (W & O & G & B).
    pose proof (api_sound g d c m safe new vals w IHreach H0) as Hw. eapply wp_exn in Hw; [|eassumption].
    destruct Hw as (N1 & O1 & L1 & S1). cbn [fst snd] in *. split; [|solve [assumption|wle_tac|apply ticked_wle; auto]]; eapply alive_back; eauto.
  - destruct (alive_focus _ _ _ _ IHreach) as (W & O & G & B).
    pose proof (api_sound g d c m safe new vals w IHreach H0) as Hw. eapply wp_exn in Hw; [|eassumption].
    destruct Hw as (N1 & O1 & L1 & S1). cbn [fst snd] in *. split; [|solve [assumption|wle_tac|apply ticked_wle; auto]]; eapply alive_wreck; eauto. eapply wfc0_nodes0; eauto.
  - destruct (alive_focus _ _ _ _ IHreach) as (W & O & G & B).
    pose proof (api_sound g d c m safe new vals w IHreach H0) as Hw. eapply wp_exn in Hw; [|eassumption].
    destruct Hw as (N1 & O1 & L1 & S1). cbn [fst snd] in *.
    eapply (wp_ok _ _ _ _ (fun (s : CW) _ => alive (snd s) (fst s :: g) d /\ wle w (snd s)) (fun _ _ => True)) in H2; [exact H2|].
    eapply (wp_c_clear0 c' w' (PR g d) (PK g d)); eauto. intros w1 c1 (W1 & O2 & L2 & _). cbn [fst snd].
    assert (L3 : wle w w1) by wle_tac. split; [|exact L3]. eapply (alive_back w); eauto.
  - destruct (alive_focus _ _ _ _ IHreach) as (W & O & G & B).
    pose proof (api_sound g d c m safe new vals w IHreach H0) as Hw. eapply wp_exn in Hw; [|eassumption].
    destruct Hw as (N1 & O1 & L1 & S1). cbn [fst snd] in *.
    eapply (wp_ok _ _ _ _ (fun (s : CW) _ => alive (snd s) (fst s :: g) d /\ wle w (snd s)) (fun _ _ => True)) in H3; [exact H3|].
    eapply (wp_clear_types (PR g d) (PK g d) l c' w'); eauto. intros w1 c1 W1 O2 L2 _ F. cbn [fst snd].
    assert (L3 : wle w w1) by wle_tac. split; [|exact L3]. eapply (alive_back w); eauto.
    eapply cleared_wf; eauto. apply (wm_tys _ _ (wc0_map _ _ N1)).
  - destruct (alive_focus _ _ _ _ IHreach) as (W & O & G & B).
    pose proof (api_sound g d c m safe new vals w IHreach H0) as Hw. eapply wp_exn in Hw; [|eassumption].
    destruct Hw as (N1 & O1 & L1 & S1). cbn [fst snd] in *.
    assert (A1 : alive w' g (c' :: d)) by (eapply alive_wreck; eauto; eapply wfc0_nodes0; eauto).
    eapply (wp_ok _ _ _ _ (fun w' c => alive w' (c :: g) (c' :: d) /\ wle w w') (fun _ _ => True)); [|exact H2].
    eapply (wp_c_copy_al c' _ w' (PR g (c' :: d)) (PK g (c' :: d))); eauto; [apply A1|].
    intros w1 c1 W1 O2 L2 _ _ _ _. assert (L3 : wle w w1) by wle_tac. split; [|exact L3]. eapply (alive_back w'); eauto; apply A1.
  - destruct (alive_focus _ _ _ _ IHreach) as (W & O & G & B).
    pose proof (api_sound g d c m safe new vals w IHreach H0) as Hw. eapply wp_exn in Hw; [|eassumption].
    destruct Hw as (N1 & O1 & L1 & S1). cbn [fst snd] in *.
    assert (A1 : alive w' g (c' :: d)) by (eapply alive_wreck; eauto; eapply wfc0_nodes0; eauto).
    eapply (wp_exn _ _ _ _ (fun _ _ => True) (fun w' _ => alive w' g (c' :: d) /\ wle w w')); [|exact H2].
    eapply (wp_c_copy_al c' _ w' (PR g (c' :: d)) (PK g (c' :: d))); eauto; [apply A1|].
    intros w1 e1 O2 L2 _. assert (L3 : wle w w1) by wle_tac. split; [|exact L3]. eapply (alive_none w'); eauto; apply A1.
  - (* mutation *) destruct (alive_focus _ _ _ _ IHreach) as (W & O & G & B).
    split; [|solve [assumption|wle_tac|apply ticked_wle; auto]]; eapply (alive_back w); [apply mutate_wfc; exact W|apply mutate_cown; exact O|wle_tac| |]; auto.
  - pose proof (wp_c_equal_pool w x y g d IHreach) as Hw. eapply wp_ok in Hw; [|eassumption]. destruct Hw as (T & _).
    split; [|solve [assumption|wle_tac|apply ticked_wle; auto]]; eapply (alive_none w); [|apply ticked_wle; auto|apply IHreach|apply IHreach]. eapply ticked_own; eauto. apply IHreach.
  - pose proof (wp_c_equal_pool w x y g d IHreach) as Hw. eapply wp_exn in Hw; [|eassumption]. destruct Hw as (T & _).
    split; [|solve [assumption|wle_tac|apply ticked_wle; auto]]; eapply (alive_none w); [|apply ticked_wle; auto|apply IHreach|apply IHreach]. eapply ticked_own; eauto. apply IHreach.
  - (* assign *) destruct (bad_focus2 _ _ _ _ _ IHreach) as (Wx & Nc & O2 & G & B & O).
    eapply (wp_ok _ _ _ _ (fun (s : CW) _ => alive (snd s) (fst s :: x :: g) d /\ wle w (snd s)) (fun _ _ => True)) in H0; [exact H0|].
    eapply (wp_c_copy_assign x c w (PR (x :: g) d) (PK (x :: g) d)); eauto; [apply wfc_0; auto|].
    intros w1 c1 W1 O1 L1 _ _ _ _ _. cbn [fst snd]. split; [|solve [assumption|wle_tac|apply ticked_wle; auto]]; eapply (alive_back w); eauto.
  - destruct (bad_focus2 _ _ _ _ _ IHreach) as (Wx & Nc & O2 & G & B & O).
    eapply (wp_exn _ _ _ _ (fun _ _ => True) (fun (s : CW) _ => alive (snd s) (fst s :: x :: g) d /\ wle w (snd s))) in H0; [exact H0|].
    eapply (wp_c_copy_assign x c w (PR (x :: g) d) (PK (x :: g) d)); eauto; [apply wfc_0; auto|].
    intros w1 bk al e1 O1 L1 _. cbn [fst snd]. split; [|solve [assumption|wle_tac|apply ticked_wle; auto]]; eapply (alive_back w); [apply wfc_nil|apply cown_nil; exact O1|exact L1| |]; auto.
  - destruct (bad_focus2 _ _ _ _ _ IHreach) as (Wx & Nc & O2 & G & B & O).
    eapply (wp_ok _ _ _ _ (fun (s : PW) _ => alive (snd s) (fst (fst s) :: g) (snd (fst s) :: d) /\ wle w (snd s)) (fun _ _ => True)) in H0; [exact H0|].
    eapply (wp_c_move_assign c x w (PR g d) (PK g d)); eauto.
    intros w1 d1 xn bk W1 O1 L1 _ _ N _ _ _ _ _. cbn [fst snd]. split; [|exact L1]. split.
    + constructor; auto. eapply Forall_wfc_mono; eauto.
    + constructor; auto.
    + eapply own_ext; [exact O1| |]; unfold PR, PK; intros; rewrite ?pblocks_cons, ?psize_cons; lia.
  - destruct (bad_focus2 _ _ _ _ _ IHreach) as (Wx & Nc & O2 & G & B & O).
    eapply (wp_ok _ _ _ _ (fun (s : PW) _ => alive (snd s) (fst (fst s) :: snd (fst s) :: g) d /\ wle w (snd s)) (fun _ _ => True)) in H0; [exact H0|].
    eapply (wp_c_move_assign c x w (PR g d) (PK g d)); eauto.
    intros w1 d1 xn bk W1 O1 L1 _ _ N _ Hc Hu _ _. cbn [fst snd].
    assert (Ex : xn = []). { destruct H1 as [?|[?|?]]; auto; apply Hc; auto. }
    subst xn. split; [|solve [assumption|wle_tac|apply ticked_wle; auto]]; eapply (alive_pair w); eauto. apply wfc_nil.
  - destruct (bad_focus2 _ _ _ _ _ IHreach) as (Wx & Nc & O2 & G & B & O).
    eapply (wp_exn _ _ _ _ (fun _ _ => True) (fun (s : PW) _ => alive (snd s) (fst (fst s) :: snd (fst s) :: g) d /\ wle w (snd s))) in H0; [exact H0|].
    eapply (wp_c_move_assign c x w (PR g d) (PK g d)); eauto.
    intros w1 bk bk' e1 O1 L1 _ _ _. cbn [fst snd]. split; [|solve [assumption|wle_tac|apply ticked_wle; auto]]; eapply (alive_pair w); [apply wfc_nil|apply wfc_nil| |exact L1| |]; auto.
  - (* swap *)
    assert (Ex : x' = y /\ y' = x /\ w' = w).
    { unfold c_swap in H1. destruct env_pocs; [inversion H1; auto|]. destruct (c_al x =? c_al y); inversion H1; auto. }
    destruct Ex as (-> & -> & ->). split; [|solve [assumption|wle_tac|apply ticked_wle; auto]]; eapply alive_perm; [exact IHreach|apply perm_swap|apply Permutation_refl].
  - destruct (alive_focus_bad _ _ _ _ IHreach) as (N & O & G & B).
    eapply (wp_ok _ _ _ _ (fun w' _ => alive w' g d /\ wle w w') (fun _ _ => True)) in H0; [exact H0|].
    eapply (wp_c_destroy c w (PR g d) (PK g d)); eauto. intros w1 O1 L1. split; [|solve [assumption|wle_tac|apply ticked_wle; auto]]; eapply alive_none; eauto.
Qed.

Theorem reach_alive w g d : reach w g d -> alive w g d.
Proof.
  induction 1 as [|w g d w' g' d' H IHreach St].
  - split; [constructor|constructor|]. unfold PR, PK, pblocks, psize. simpl.
    split; simpl; auto; intros; rewrite ?cnt_nil in *; lia.
  - eapply step_alive; eauto.
Qed.

End PReach.
