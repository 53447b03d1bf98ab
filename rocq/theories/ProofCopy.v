(** * Copying, moving, swapping and destroying collections *)

From Coq Require Import List Arith Lia Bool Permutation.
From Verif Require Import Base Vec Backend Segment Coll Spec ProofBase ProofVec ProofBackend ProofOps ProofOps2 ProofSeg ProofMap ProofView ProofColl.
Import ListNotations.

Section PCopy.
Context {V : Type} {E : Env V}.

Notation SW := (segment V * world)%type.
Notation CW := (coll V * world)%type.
Notation PW := ((coll V * coll V) * world)%type.
Notation NL := (list (node V)).
Notation nsz n := (bsize (sg_be (n_seg n))).

Definition nodes_ok0 (ns : NL) : Prop := Forall (fun n => wfs0 (n_seg n)) ns.
Lemma wfc0_ok0 w c : wfc0 w c -> nodes_ok0 (c_nodes c).
Proof. intros W. eapply Forall_impl; [|exact (wc0_segs _ _ W)]. intros n. apply wfs1_0. Qed.

(** ** Destruction *)

Lemma wp_destroy_nodes (ns : NL) : forall w R K (Q : world -> unit -> Prop) (X : world -> exn -> Prop),
  nodes_ok0 ns -> own w (fun x => cnt (nblocks ns) x + R x) (osum ns + K) ->
  (forall w', own w' R K -> wle w w' -> Q w' tt) ->
  wp (destroy_nodes ns) w Q X.
Proof.
  induction ns as [|n ns IH]; intros w R K Q X W O HQ; cbn [destroy_nodes].
  - apply wp_ret. apply HQ; [|apply wle_refl]. eapply own_ext; [exact O| |]; intros; simpl; rewrite ?cnt_nil; auto.
  - inversion W as [|? ? Wn Wns]; subst. apply wp_bind.
    eapply (wp_seg_delete (n_seg n) w (fun x => cnt (nblocks ns) x + R x) (osum ns + K)); auto.
    + unfold sown. eapply own_ext; [exact O| |]; intros; cbn [nblocks osum]; rewrite ?cnt_app.
      * cbv beta. unfold sblocks. lia.
      * unfold ocs, ssize. lia.
    + intros w1 O1 L1. eapply IH; eauto. intros w' O' L'. apply HQ; auto. wle_tac.
Qed.

(** ** Copies of nodes *)

(** The nodes [ns'] have the keys, types and elements of [ns], and allocator [al]. *)
Definition same_nodes (al : alid) (ns ns' : NL) : Prop :=
  Forall2 (fun n n' => n_key n' = n_key n /\ n_ty n' = n_ty n /\ sg_al (n_seg n') = al /\
                       wfs (n_seg n') /\ n_elems n' = n_elems n) ns ns'.

(** Why building nodes for [ns] may fail. *)
Definition nodes_reason (cp : bool) (ns : NL) (w w' : world) (e : exn) : Prop :=
  ((e = BadAlloc \/ (e = UserExn /\ exists n, In n ns /\ 0 < nsz n /\ (cp = true \/ env_nt_move (n_ty n) = false))) /\ faulted w w') \/
  (cp = true /\ exists n, In n ns /\ e = NotCopyConstructible (n_ty n) /\ env_copyable (n_ty n) = false /\ 0 < nsz n) \/
  (e = LengthError /\ env_layout = SplitLayout /\
     exists n, In n ns /\ (env_vmax (n_ty n) < 1 \/ env_imax <= nsz n)).

Lemma nodes_reason_mono cp ns ns' w1 w2 w3 w4 e : incl ns ns' -> wle w1 w2 -> nodes_reason cp ns w2 w3 e -> wle w3 w4 ->
  nodes_reason cp ns' w1 w4 e.
Proof.
  intros I L1 [(A & F)|[(A & n & Hn & B)|(A & B & n & Hn & C)]] L2.
  - left. split; [|fmono]. destruct A as [?|(? & n & ? & ?)]; auto. right. split; auto. exists n. auto.
  - right; left. split; auto. exists n. auto.
  - right; right. csplit; auto. exists n. auto.
Qed.

Lemma wp_copy_nodes al (ns : NL) : forall w R K (Q : world -> NL -> Prop) (X : world -> exn -> Prop),
  nodes_ok0 ns -> own w R K ->
  (forall w' ns', same_nodes al ns ns' -> NoDup (map n_id ns') -> Forall (fun n => w_next w <= n_id n < w_next w') ns' ->
     own w' (fun x => cnt (nblocks ns') x + R x) (osum ns' + K) -> wle w w' ->
     (forall n, In n ns -> 0 < nsz n -> env_copyable (n_ty n) = true) -> Q w' ns') ->
  (forall w' e, own w' R K -> wle w w' -> nodes_reason true ns w w' e -> X w' e) ->
  wp (copy_nodes ns al) w Q X.
Proof.
  induction ns as [|n ns IH]; intros w R K Q X W O HQ HX; cbn [copy_nodes].
  - apply wp_ret. apply HQ; auto.
    + constructor.
    + simpl. constructor.
    + apply wle_refl.
  - inversion W as [|? ? Wn Wns]; subst. apply wp_bind. eapply wp_tick; [exact O| |].
    2:{ intros w1 O1 L1 F1. apply HX; auto. left; auto. }
    intros w1 O1 L1. apply wp_bind. eapply (wp_seg_copy (n_seg n) al w1 R K); auto.
    2:{ intros w2 e O2 L2 Hr. apply HX; auto; [wle_tac|].
        destruct Hr as [(A & F)|[(A & B & C)|(A & B & C)]].
        - left. split; [|fmono]. destruct A as [?|(? & ?)]; auto. right. split; auto. exists n.
          csplit; auto. left; auto.
        - right; left. split; auto. exists n. csplit; auto. left; auto.
        - right; right. csplit; auto. exists n. split; auto. left; auto. }
    intros w2 s' Ety Eal Ws Ee O2 L2 Hc. apply wp_bind. eapply wp_fresh; [exact O2|].
    intros w3 i O3 L3 Ei Li. apply wp_bind. apply wp_try.
    eapply (IH w3 (fun x => cnt (sblocks s') x + R x) (ocs s' + K)); auto.
    + intros w4 ns' Sn Nd Fi O4 L4 Cp. apply wp_ret. apply HQ.
      * constructor; auto.
      * simpl. constructor; auto. intros Hin. apply in_map_iff in Hin. destruct Hin as (m & Em & Hm).
        rewrite Forall_forall in Fi. specialize (Fi m Hm). subst i. rewrite Em in Fi. lia.
      * constructor; [simpl; wle_tac|]. eapply Forall_impl; [|exact Fi]. intros m Hm. simpl in Hm. wle_tac.
      * eapply own_ext; [exact O4| |]; intros; cbn [nblocks osum n_seg]; rewrite ?cnt_app.
        -- unfold sblocks; cbv beta; lia.
        -- lia.
      * wle_tac.
      * intros m [<-|Hm] Hs; auto.
    + intros w4 e O4 L4 Hr. eapply (wp_seg_delete s' w4 R K); auto.
      * apply wfs_0; auto.
      * intros w5 O5 L5. apply HX; auto; [wle_tac|]. eapply nodes_reason_mono; [|  |exact Hr|]; try wle_tac.
        intros m Hm; right; auto.
Qed.

(** ** Assembling a map *)

Lemma same_nodes_key_ty al ns ns' : same_nodes al ns ns' -> map key_ty ns' = map key_ty ns /\ map n_ty ns' = map n_ty ns /\
  map (fun n => (n_ty n, n_elems n)) ns' = map (fun n => (n_ty n, n_elems n)) ns.
Proof.
  intros F. induction F as [|n n' ns ns' (A & B & C & D & G) F (I1 & I2 & I3)]; simpl; auto.
  unfold key_ty in *. rewrite A, B, G, I1, I2, I3. auto.
Qed.

(** [c'] has the same types and elements as [x], in its own storage. *)
Definition rebuilt (x c' : coll V) : Prop := Permutation (content c') (content x).

Lemma rebuilt_elems w x c' t : wfm w x -> rebuilt x c' -> seg_of c' t = seg_of x t /\ elems c' t = elems x t.
Proof.
  intros W P. assert (B : seg_of c' t = seg_of x t).
  { unfold seg_of. apply assoc_perm; [|apply Permutation_sym; auto]. change (NoDup (types x)). rewrite types_nodes. apply W. }
  split; auto. unfold elems. rewrite B. auto.
Qed.
Lemma rebuilt_types x c' : rebuilt x c' -> Permutation (types c') (types x).
Proof. intros P. apply Permutation_map. auto. Qed.

Lemma map_find_ty (ns ns' : NL) a : (forall t, In t (map key_ty ns) -> In t (map key_ty ns')) ->
  map_find ns a <> None -> map_find ns' a <> None.
Proof.
  intros I Hf Hn. apply Hf. apply map_find_none. intros n Hin Et. rewrite map_find_none in Hn.
  assert (B : In (key_ty n) (map key_ty ns')) by (apply I, in_map; auto).
  apply in_map_iff in B. destruct B as (m & Em & Hm). apply (Hn m Hm). unfold key_ty in Em. congruence.
Qed.

(** The map part of a new collection. *)
Lemma new_map al ns ns' codes w' bk x wx :
  wfm wx x -> c_nodes x = ns -> same_nodes al ns ns' -> NoDup (map n_id ns') -> Forall (fun n => n_id n < w_next w') ns' ->
  let c' := mkcoll (shuffle codes ns') bk [] al in
  wfc w' c' /\ rebuilt x c' /\
  (forall a m, In (a, m) (c_cache x) -> map_find (c_nodes c') a <> None).
Proof.
  intros Wx Ex Sn Nd Lt c'. destruct (same_nodes_key_ty _ _ _ Sn) as (K1 & K2 & K3).
  assert (P := shuffle_perm codes ns').
  assert (Pk : Permutation (map n_ty (shuffle codes ns')) (map n_ty ns)) by (rewrite <- K2; apply Permutation_map; auto).
  assert (Hall : Forall (fun n => env_ty (n_key n) = n_ty n /\ sg_al (n_seg n) = al /\ wfs (n_seg n)) ns').
  { assert (Ky := wm_key _ _ Wx). rewrite Ex in Ky. clear - Sn Ky. revert Ky. unfold same_nodes in Sn.
    induction Sn as [|n n' ns ns' (A & B & C & D & G) F IH]; intros Ky; constructor.
    - inversion Ky; subst. csplit; auto. congruence.
    - apply IH. inversion Ky; auto. }
  assert (Hs : forall n, In n (shuffle codes ns') -> In n ns') by (intros n; apply Permutation_in; auto).
  rewrite Forall_forall in Hall, Lt.
  split; [split; [split|]|split]; simpl.
  - eapply Permutation_NoDup; [apply Permutation_sym, Permutation_map, P|auto].
  - apply Forall_forall. auto.
  - eapply Permutation_NoDup; [apply Permutation_sym, Pk|]. rewrite <- Ex. apply Wx.
  - apply Forall_forall. intros n Hn. apply Hall; auto.
  - apply Forall_forall. intros n Hn. apply Hall; auto.
  - discriminate.
  - apply Forall_forall. intros n Hn. apply Hall; auto.
  - unfold rebuilt. rewrite !content_nodes, Ex, <- K3. simpl. apply Permutation_map; auto.
  - intros a m Hin. assert (Hc : map_find ns a <> None).
    { assert (B : cache_find (c_cache x) a <> None).
      { clear - Hin. induction (c_cache x) as [|[a' m'] l IH]; simpl in *; [tauto|].
        destruct (Nat.eqb_spec a' a); [discriminate|]. apply IH. destruct Hin as [Eq|?]; auto. congruence. }
      destruct (cache_find (c_cache x) a) as [m'|] eqn:Ec; [|congruence].
      destruct (wm_cache _ _ Wx _ _ Ec) as (i & _ & Hf). rewrite <- Ex. congruence. }
    eapply map_find_ty; [|exact Hc]. intros t Ht.
    apply (Permutation_in t (l := map key_ty ns')); [apply Permutation_map, Permutation_sym; auto|]. rewrite K1. auto.
Qed.

Lemma wp_build_cache keys : forall c w R K (Q : CW -> unit -> Prop) (X : CW -> exn -> Prop),
  wfm w c -> cown w c R K -> (forall a m, In (a, m) keys -> map_find (c_nodes c) a <> None) ->
  (forall w' l, wfm w' (set_cache c l) -> cown w' (set_cache c l) R K -> wle w w' -> Q (set_cache c l, w') tt) ->
  (forall w' l e, wfm w' (set_cache c l) -> cown w' (set_cache c l) R K -> wle w w' -> e = BadAlloc -> faulted w w' ->
     X (set_cache c l, w') e) ->
  wp (build_cache keys) (c, w) Q X.
Proof.
  assert (Id : forall c : coll V, c = set_cache c (c_cache c)) by (intros []; reflexivity).
  induction keys as [|[a m] keys IH]; intros c w R K Q X W O Hk HQ HX; cbn [build_cache].
  - apply wp_ret. rewrite (Id c). apply HQ; rewrite <- ?Id; auto. apply wle_refl.
  - apply wp_bind, wp_getx. cbn [fst]. apply wp_bind.
    destruct (map_find (c_nodes c) a) as [i|] eqn:Ef; [|exfalso; apply (Hk a m); auto; left; auto].
    eapply (wp_cache_insert a i c w R K); auto.
    + intros w1 l W1 O1 L1. eapply (IH (set_cache c l) w1 R K); auto.
      * intros a' m' Hin. apply (Hk a' m'). right; auto.
      * intros w2 l2 W2 O2 L2. apply HQ; auto. wle_tac.
      * intros w2 l2 e W2 O2 L2 Ee F. apply HX; auto; [wle_tac|fmono].
    + intros w1 W1 O1 L1 F1. rewrite (Id c). apply HX; rewrite <- ?Id; auto.
Qed.

(** ** Copy construction *)

(** Why copying [x] may fail. *)
Definition copy_reason (cp : bool) (x : coll V) (w w' : world) (e : exn) : Prop := nodes_reason cp (c_nodes x) w w' e.

Lemma c_objs_nodes (c : coll V) : c_objs c = osum (c_nodes c).
Proof. reflexivity. Qed.

Lemma nblocks_shuffle codes (ns : NL) b : cnt (nblocks (shuffle codes ns)) b = cnt (nblocks ns) b.
Proof. apply nblocks_perm, Permutation_map, shuffle_perm. Qed.
Lemma sum_shuffle codes (ns : NL) : osum (shuffle codes ns) = osum ns.
Proof. apply osum_perm, Permutation_map, shuffle_perm. Qed.

Lemma rebuilt_cache x c l : rebuilt x c -> rebuilt x (set_cache c l).
Proof. auto. Qed.
Lemma wfc_set_cache w c w' l : wfc w c -> wfm w' (set_cache c l) -> wfc w' (set_cache c l).
Proof. intros [_ S] W. split; auto. Qed.

Lemma wp_c_copy_al x al w R K (Q : world -> coll V -> Prop) (X : world -> exn -> Prop) :
  wfc0 w x -> own w R K ->
  (forall w' c', wfc w' c' -> cown w' c' R K -> wle w w' -> c_al c' = al -> rebuilt x c' ->
     Forall (fun n => w_next w <= n_id n) (c_nodes c') ->
     (forall n, In n (c_nodes x) -> 0 < nsz n -> env_copyable (n_ty n) = true) -> Q w' c') ->
  (forall w' e, own w' R K -> wle w w' -> copy_reason true x w w' e -> X w' e) ->
  wp (c_copy_al x al) w Q X.
Proof.
  intros W0x. assert (Sx := wfc0_ok0 _ _ W0x). destruct W0x as [Wx _]. intros O HQ HX. unfold c_copy_al, map_copy. apply wp_bind, wp_bind, wp_clock. apply wp_bind.
  eapply (wp_copy_nodes al (c_nodes x) w R K); auto.
  intros w1 ns' Sn Nd Fi O1 L1 Cp. apply wp_ret.
  assert (Lt : Forall (fun n => n_id n < w_next w1) ns') by (eapply Forall_impl; [|exact Fi]; simpl; tauto).
  destruct (new_map al (c_nodes x) ns' (env_codes (w_clock w)) w1 (c_buckets x) x w Wx eq_refl Sn Nd Lt) as (Wc & Rb & Ck).
  set (c1 := mkcoll (shuffle (env_codes (w_clock w)) ns') (c_buckets x) [] al) in *.
  assert (Oc : cown w1 c1 R K).
  { unfold cown. eapply own_ext; [exact O1| |]; intros; unfold cblocks, c1; cbn [c_nodes].
    - rewrite nblocks_shuffle. auto.
    - rewrite c_objs_nodes. cbn [c_nodes]. rewrite sum_shuffle. auto. }
  assert (Fi' : Forall (fun n => w_next w <= n_id n) (c_nodes c1)).
  { apply Forall_forall. intros n Hn. rewrite Forall_forall in Fi. apply (Fi n).
    apply (Permutation_in n (shuffle_perm (env_codes (w_clock w)) ns')). exact Hn. }
  assert (B : wp (build_cache (c_cache x)) (c1, w1)
    (fun cw _ => Q (snd cw) (fst cw)) (fun cw e => wp (c_destroy (fst cw)) (snd cw) (fun w'' _ => X w'' e) X)).
  { eapply (wp_build_cache (c_cache x) c1 w1 R K); eauto.
    - apply Wc.
    - intros w2 l W2 O2 L2. cbn [fst snd]. apply HQ; auto.
      + eapply wfc_set_cache; eauto.
      + wle_tac.
    - intros w2 l e W2 O2 L2 Ee F. cbn [fst snd]. unfold c_destroy.
      eapply (wp_destroy_nodes _ w2 R K).
      + eapply Forall_impl; [|apply (wc_segs _ _ Wc)]. intros n. apply wfs_0.
      + exact O2.
      + intros w3 O3 L3. apply HX; auto; [wle_tac|]. left. split; auto. fmono. }
  unfold wp, with_new in *. destruct (build_cache (c_cache x) (c1, w1)) as [[c2 w2] []|[c2 w2] e|]; auto.
  cbn [fst snd] in B. destruct (c_destroy c2 w2); auto.
Qed.

(** ** Clearing a map *)

Definition emptied (c : coll V) al bk : coll V := mkcoll [] bk [] al.

Lemma wfc_nil w bk al : wfc w (mkcoll [] bk [] al).
Proof. split; [split|]; simpl; try constructor; discriminate. Qed.
Lemma cown_nil w bk l al R K : own w R K <-> cown w (mkcoll (@nil (node V)) bk l al) R K.
Proof.
  unfold cown, cblocks. rewrite c_objs_nodes. simpl. split; intros H; (eapply own_ext; [exact H| |]); intros; rewrite ?cnt_nil; auto.
Qed.

Lemma wp_map_clear c w R K (Q : CW -> unit -> Prop) (X : CW -> exn -> Prop) :
  nodes_ok0 (c_nodes c) -> cown w c R K ->
  (forall w', own w' R K -> wle w w' -> Q (mkcoll [] (c_buckets c) (c_cache c) (c_al c), w') tt) ->
  wp map_clear (c, w) Q X.
Proof.
  intros W O HQ. unfold map_clear. apply wp_bind, wp_getx. cbn [fst]. apply wp_bind, wp_on_world. cbn [fst snd].
  eapply (wp_destroy_nodes _ w R K); auto.
Qed.

Lemma wp_clear_all c w R K (Q : CW -> unit -> Prop) (X : CW -> exn -> Prop) :
  nodes_ok0 (c_nodes c) -> cown w c R K ->
  (forall w', own w' R K -> wle w w' -> Q (mkcoll [] (c_buckets c) [] (c_al c), w') tt) ->
  wp (map_clear ;; cache_clear) (c, w) Q X.
Proof.
  intros W O HQ. apply wp_bind. eapply wp_map_clear; eauto.
Qed.

(** ** Copy assignment *)

Lemma wp_c_copy_assign x c w R K (Q : CW -> unit -> Prop) (X : CW -> exn -> Prop) :
  wfc0 w x -> nodes_ok0 (c_nodes c) -> cown w c R K ->
  (forall w' c', wfc w' c' -> cown w' c' R K -> wle w w' -> c_al c' = (if env_pocca then c_al x else c_al c) ->
     rebuilt x c' -> Forall (fun n => w_next w <= n_id n) (c_nodes c') ->
     (forall n, In n (c_nodes x) -> 0 < nsz n -> env_copyable (n_ty n) = true) -> newer w (cblocks c') -> Q (c', w') tt) ->
  (forall w' bk al e, own w' R K -> wle w w' -> copy_reason true x w w' e -> X (mkcoll [] bk [] al, w') e) ->
  wp (c_copy_assign x) (c, w) Q X.
Proof.
  intros W0x. assert (Sx := wfc0_ok0 _ _ W0x). destruct W0x as [Wx _]. intros Wc O HQ HX. unfold c_copy_assign. apply wp_try. apply wp_bind. unfold map_copy_assign.
  apply wp_bind. eapply (wp_map_clear c w R K); auto. intros w1 O1 L1.
  apply wp_bind, wp_getx. cbn [fst c_al c_cache]. cbv zeta. apply wp_bind, wp_on_world. cbn [fst snd].
  unfold map_copy. set (al := if env_pocca then c_al x else c_al c) in *.
  apply wp_bind, wp_clock. apply wp_bind.
  eapply (wp_copy_nodes al (c_nodes x) w1 R K); auto.
  - intros w2 ns' Sn Nd Fi O2 L2 Cp. apply wp_ret. apply wp_setx. cbn [snd].
    apply wp_bind. unfold cache_clear at 1. apply wp_bind, wp_getx. apply wp_setx. cbn [fst snd c_nodes c_buckets c_al].
    assert (Lt : Forall (fun n => n_id n < w_next w2) ns') by (eapply Forall_impl; [|exact Fi]; simpl; tauto).
    destruct (new_map al (c_nodes x) ns' (env_codes (w_clock w1)) w2 (c_buckets x) x w Wx eq_refl Sn Nd Lt) as (Wn & Rb & Ck).
    set (c1 := mkcoll (shuffle (env_codes (w_clock w1)) ns') (c_buckets x) [] al) in *.
    assert (Oc : cown w2 c1 R K).
    { unfold cown. eapply own_ext; [exact O2| |]; intros; unfold cblocks, c1; cbn [c_nodes].
      - rewrite nblocks_shuffle. auto.
      - rewrite c_objs_nodes. cbn [c_nodes]. rewrite sum_shuffle. auto. }
    assert (Fi' : Forall (fun n => w_next w <= n_id n) (c_nodes c1)).
    { apply Forall_forall. intros n Hn. rewrite Forall_forall in Fi. assert (B : w_next w1 <= n_id n < w_next w2).
      { apply (Fi n). apply (Permutation_in n (shuffle_perm (env_codes (w_clock w1)) ns')). exact Hn. }
      wle_tac. }
    eapply (wp_build_cache (c_cache x) c1 w2 R K); eauto.
    + apply Wn.
    + intros w3 l W3 O3 L3. apply HQ; auto.
      * eapply wfc_set_cache; eauto.
      * wle_tac.
      * apply (newer_mono w w1); [apply L1|]. apply Forall_forall. intros b Hb. apply cnt_pos in Hb.
        eapply own_newer; [exact O1|exact O3|wle_tac|cbv beta; lia|].
        pose proof (own_one _ _ _ O3 b) as One. cbv beta in One. lia.
    + intros w3 l e W3 O3 L3 Ee F. eapply (wp_clear_all _ w3 R K).
      * eapply Forall_impl; [|apply (wc_segs _ _ Wn)]. intros n. apply wfs_0.
      * exact O3.
      * intros w4 O4 L4. apply HX; auto; [wle_tac|]. left. split; auto. fmono.
  - intros w2 e O2 L2 Hr. eapply (wp_clear_all _ w2 R K).
    + constructor.
    + apply cown_nil; auto.
    + intros w3 O3 L3. apply HX; auto; [wle_tac|]. eapply nodes_reason_mono; [apply incl_refl| |exact Hr|]; wle_tac.
Qed.

(** ** Moves *)

Lemma wp_on_dst {A} (m : M CW A) d x w (Q : PW -> A -> Prop) (X : PW -> exn -> Prop) :
  wp m (d, w) (fun s a => Q ((fst s, x), snd s) a) (fun s e => X ((fst s, x), snd s) e) ->
  wp (on_dst m) ((d, x), w) Q X.
Proof. intros H. apply wp_on_field. exact H. Qed.
Lemma wp_on_src {A} (m : M CW A) d x w (Q : PW -> A -> Prop) (X : PW -> exn -> Prop) :
  wp m (x, w) (fun s a => Q ((d, fst s), snd s) a) (fun s e => X ((d, fst s), snd s) e) ->
  wp (on_src m) ((d, x), w) Q X.
Proof. intros H. apply wp_on_field. exact H. Qed.

(** Ownership of two collections. *)
Definition own2 w (d x : coll V) R K : Prop :=
  own w (fun b => cnt (cblocks d) b + cnt (cblocks x) b + R b) (c_objs d + c_objs x + K).

Lemma node_at_mid (l1 : NL) n l2 : NoDup (map n_id (l1 ++ n :: l2)) -> node_at (l1 ++ n :: l2) (n_id n) = Some n /\
  (forall s, node_upd (l1 ++ n :: l2) (n_id n) s = l1 ++ mknode (n_id n) (n_key n) s :: l2).
Proof.
  intros Nd. split; [apply node_at_some; auto; apply in_or_app; right; left; auto|].
  intros s. induction l1 as [|m l1 IH]; simpl.
  - rewrite Nat.eqb_refl. auto.
  - simpl in Nd. inversion Nd as [|? ? Nin Nd']; subst. destruct (Nat.eqb_spec (n_id m) (n_id n)) as [Eq|Ne].
    + exfalso. apply Nin. rewrite Eq, map_app. apply in_or_app. right. left. auto.
    + f_equal. auto.
Qed.

Definition with_nodes (c : coll V) (ns : NL) : coll V := mkcoll ns (c_buckets c) (c_cache c) (c_al c).

Lemma size_app3 (l1 : NL) n l2 : osum (l1 ++ n :: l2) = osum l1 + (ocs (n_seg n) + osum l2).
Proof. rewrite osum_app. auto. Qed.

(** What a move leaves in the source: at most as many elements of each type. *)
Definition shed (n n' : node V) : Prop := n_ty n' = n_ty n /\ length (n_elems n') <= length (n_elems n).
Lemma shed_ty ns ns' : Forall2 shed ns ns' -> map n_ty ns' = map n_ty ns.
Proof. induction 1 as [|n n' ns ns' (Q & _) _ IH]; cbn [map]; congruence. Qed.

Lemma wp_move_nodes al (l2 : NL) : forall l1 d x w R K (Q : PW -> unit -> Prop) (X : PW -> exn -> Prop),
  NoDup (map n_id (l1 ++ l2)) -> c_nodes x = l1 ++ l2 -> nodes_ok0 (l1 ++ l2) -> nodes_ok0 (c_nodes d) ->
  Forall (fun n => sg_al (n_seg n) <> al) l2 -> own2 w d x R K ->
  (forall w' new l2', same_nodes al l2 new -> NoDup (map n_id new) -> Forall (fun n => w_next w <= n_id n < w_next w') new ->
     nodes_ok0 (l1 ++ l2') -> Forall2 shed l2 l2' ->
     map n_id l2' = map n_id l2 ->
     own2 w' (with_nodes d (c_nodes d ++ new)) (with_nodes x (l1 ++ l2')) R K -> wle w w' -> newer w (nblocks new) ->
     Q ((with_nodes d (c_nodes d ++ new), with_nodes x (l1 ++ l2')), w') tt) ->
  (forall w' dn xn e, nodes_ok0 dn -> nodes_ok0 xn -> own2 w' (with_nodes d dn) (with_nodes x xn) R K -> wle w w' ->
     nodes_reason false l2 w w' e -> X ((with_nodes d dn, with_nodes x xn), w') e) ->
  wp (move_nodes (map n_id l2) al) ((d, x), w) Q X.
Proof.
  assert (Id : forall c : coll V, c = with_nodes c (c_nodes c)) by (intros []; reflexivity).
  induction l2 as [|n l2 IH]; intros l1 d x w R K Q X Nd Ex Wx Wd Al O HQ HX; cbn [map move_nodes].
  - apply wp_ret. specialize (HQ w [] []). rewrite app_nil_r in Ex, Wx. rewrite !app_nil_r, <- Ex, <- !Id in HQ. apply HQ; auto.
    + constructor. + constructor. + rewrite Ex; auto. + apply wle_refl. + constructor.
  - assert (Wn : wfs0 (n_seg n)).
    { unfold nodes_ok0 in Wx. rewrite Forall_forall in Wx. apply Wx. apply in_or_app; right; left; auto. }
    inversion Al as [|? ? Aln Al']; subst.
    apply wp_bind, wp_on_world. cbn [snd fst]. eapply wp_tick; [exact O| |].
    2:{ intros w1 O1 L1 F1. rewrite (Id d), (Id x). apply HX; rewrite <- ?Id; auto.
        - rewrite Ex; auto.
        - left; auto. }
    intros w1 O1 L1. apply wp_bind, wp_on_src, wp_getx. cbn [fst snd]. rewrite Ex.
    destruct (node_at_mid l1 n l2 Nd) as (Hat & Hup). rewrite Hat.
    apply wp_bind, wp_on_src. eapply wp_on_seg; [rewrite Ex; exact Hat|]. unfold upd_seg. rewrite Ex.
    eapply (wp_seg_move (n_seg n) al w1 (fun b => cnt (cblocks d) b + cnt (nblocks l1) b + cnt (nblocks l2) b + R b)
              (c_objs d + osum l1 + osum l2 + K)); auto.
    + unfold sown. eapply own_ext; [exact O1| |].
      * intros b. unfold cblocks. rewrite Ex, nblocks_app, cnt_app. cbn [nblocks]. rewrite cnt_app. unfold sblocks. lia.
      * rewrite !c_objs_nodes, Ex, size_app3. unfold ocs, ssize. lia.
    + intros Ea. exfalso. apply Aln; auto.
    + intros w2 s' s2 T2 A2 W2 E2 Ws' Ts' As' Es' O2 L2 Nw2. cbn [fst snd]. rewrite Hup.
      apply wp_bind, wp_on_world. cbn [fst snd]. eapply wp_fresh; [exact O2|]. intros w3 i O3 L3 Ei Li.
      apply wp_bind, wp_on_dst, wp_getx. cbn [fst snd].
      apply wp_bind, wp_on_dst, wp_setx. cbn [fst snd].
      set (n' := mknode (n_id n) (n_key n) s') in *. set (m := mknode i (n_key n) s2) in *.
      change (mkcoll (c_nodes d ++ [m]) (c_buckets d) (c_cache d) (c_al d)) with (with_nodes d (c_nodes d ++ [m])).
      change (set_nodes x (l1 ++ n' :: l2)) with (with_nodes x (l1 ++ n' :: l2)).
      eapply (IH (l1 ++ [n']) (with_nodes d (c_nodes d ++ [m])) (with_nodes x (l1 ++ n' :: l2)) w3 R K).
      * rewrite <- app_assoc. rewrite map_app in *. exact Nd.
      * rewrite <- app_assoc. reflexivity.
      * rewrite <- app_assoc. unfold nodes_ok0 in *. apply Forall_app in Wx. destruct Wx as (Wa & Wb).
        inversion Wb; subst. apply Forall_app. split; auto. simpl. constructor; auto.
      * simpl. unfold nodes_ok0. apply Forall_app. split; auto. constructor; auto. apply wfs_0; auto.
      * auto.
      * unfold own2. eapply own_ext; [exact O3| |].
        -- intros b. unfold cblocks. simpl c_nodes. rewrite !nblocks_app, !cnt_app. cbn [nblocks n_seg n' m].
           rewrite !cnt_app, cnt_nil. lia.
        -- rewrite !c_objs_nodes. simpl c_nodes. rewrite size_app3, osum_app. cbn [osum].
           cbn [n_seg n' m].
           rewrite ?c_objs_nodes. lia.
      * intros w4 new l2' Sn Ndn Fi Wx' El2 Ei2 O4 L4 Nw4.
        specialize (HQ w4 (m :: new) (n' :: l2')). cbn [with_nodes c_nodes c_buckets c_cache c_al] in *.
        unfold with_nodes in *. cbn [c_nodes c_buckets c_cache c_al] in *. rewrite <- !app_assoc in *. cbn [app] in *.
        apply HQ; auto.
        -- constructor; auto.
        -- simpl. constructor; auto. intros Hin. apply in_map_iff in Hin. destruct Hin as (k & Ek & Hk).
           rewrite Forall_forall in Fi. specialize (Fi k Hk). rewrite Ek in Fi. lia.
        -- constructor; [simpl; wle_tac|]. eapply Forall_impl; [|exact Fi]. intros k Hk. simpl in Hk. wle_tac.
        -- constructor; auto. split; [exact Ts'|]. exact Es'.
        -- simpl. f_equal; auto.
        -- wle_tac.
        -- cbn [nblocks n_seg m]. apply Forall_app. split.
           ++ apply (newer_mono w w1); [apply L1|apply Nw2; auto].
           ++ apply (newer_mono w w3); [wle_tac|exact Nw4].
      * intros w4 dn xn e Wdn Wxn O4 L4 Hr. unfold with_nodes in *. cbn [c_nodes c_buckets c_cache c_al] in *. apply HX; auto; [wle_tac|].
        eapply nodes_reason_mono; [| |exact Hr|]; try wle_tac. intros k Hk; right; auto.
    + intros w2 s' e Ws' Ts' As' O2 L2 Hr. cbn [fst snd]. rewrite Hup. rewrite (Id d).
      set (n' := mknode (n_id n) (n_key n) s') in *.
      change (set_nodes x (l1 ++ n' :: l2)) with (with_nodes x (l1 ++ n' :: l2)).
      apply HX; rewrite <- ?Id; auto.
      * unfold nodes_ok0 in *. apply Forall_app in Wx. destruct Wx as (Wa & Wb). inversion Wb; subst.
        apply Forall_app. split; auto.
      * unfold own2. eapply own_ext; [exact O2| |].
        -- intros b. unfold cblocks. simpl c_nodes. rewrite !nblocks_app, !cnt_app. cbn [nblocks n_seg n']. rewrite !cnt_app. unfold sblocks. lia.
        -- rewrite !c_objs_nodes. simpl c_nodes. rewrite size_app3. unfold n'. cbn [n_seg]. unfold ocs, ssize. lia.
      * wle_tac.
      * destruct Hr as [(A & F)|(A & B & C)].
        -- left. split; [|fmono]. destruct A as [?|(? & ? & ? & ?)]; auto. right. split; auto. exists n.
           csplit; auto. left; auto.
        -- right; right. csplit; auto. exists n. split; auto. left; auto.
Qed.

Lemma own2_dst w d x R K : own2 w d x R K <-> cown w d (fun b => cnt (cblocks x) b + R b) (c_objs x + K).
Proof. unfold own2, cown. split; intros O; (eapply own_ext; [exact O| |]); intros; cbv beta; lia. Qed.
Lemma own2_src w d x R K : own2 w d x R K <-> cown w x (fun b => cnt (cblocks d) b + R b) (c_objs d + K).
Proof. unfold own2, cown. split; intros O; (eapply own_ext; [exact O| |]); intros; cbv beta; lia. Qed.
Lemma own2_nodes w d x d' x' R K : c_nodes d' = c_nodes d -> c_nodes x' = c_nodes x -> own2 w d x R K -> own2 w d' x' R K.
Proof. intros A B. unfold own2, cblocks. rewrite !c_objs_nodes, A, B. auto. Qed.

Lemma wp_map_move_elems al d x w R K (Q : PW -> unit -> Prop) (X : PW -> exn -> Prop) :
  wfc0 w x -> c_nodes d = [] -> c_al x <> al -> own2 w d x R K ->
  (forall w' codes new xn, same_nodes al (c_nodes x) new -> NoDup (map n_id new) -> Forall (fun n => w_next w <= n_id n < w_next w') new ->
     nodes_ok0 xn -> (xn = [] \/ Forall2 shed (c_nodes x) xn) -> (env_umap_clears = true -> xn = []) ->
     let d' := mkcoll (shuffle codes new) (c_buckets x) (c_cache d) (c_al d) in
     own2 w' d' (with_nodes x xn) R K -> wle w w' -> newer w (cblocks d') ->
     Q ((d', with_nodes x xn), w') tt) ->
  (forall w' dn xn e, nodes_ok0 dn -> nodes_ok0 xn -> own2 w' (with_nodes d dn) (with_nodes x xn) R K -> wle w w' ->
     copy_reason false x w w' e -> X ((with_nodes d dn, with_nodes x xn), w') e) ->
  wp (map_move_elems al) ((d, x), w) Q X.
Proof.
  intros W0x. assert (Sx := wfc0_ok0 _ _ W0x). destruct W0x as [Wx _]. intros Ed Na O HQ HX. unfold map_move_elems.
  apply wp_bind, wp_on_world. cbn [snd fst]. apply wp_clock.
  apply wp_bind, wp_on_src, wp_getx. cbn [fst snd]. apply wp_bind.
  eapply (wp_move_nodes al (c_nodes x) [] d x w R K); auto.
  - apply Wx.
  - rewrite Ed. constructor.
  - eapply Forall_impl; [|apply (wm_al _ _ Wx)]. cbv beta. intros n Hn. congruence.
  - intros w1 new xn Sn Nd Fi Wn En Ei O1 L1 Nw1. cbn [app] in *.
    apply wp_bind, wp_on_dst, wp_getx. cbn [fst snd]. apply wp_bind, wp_on_dst, wp_setx. cbn [fst snd with_nodes c_nodes c_cache c_al c_buckets].
    rewrite Ed. cbn [app]. set (codes := env_codes (w_clock w)).
    set (d' := mkcoll (shuffle codes new) (c_buckets x) (c_cache d) (c_al d)).
    assert (O2 : own2 w1 d' (with_nodes x xn) R K).
    { unfold own2 in *. rewrite Ed in O1. cbn [app] in O1. eapply own_ext; [exact O1| |]; intros; unfold cblocks, d'; rewrite ?c_objs_nodes; cbn [c_nodes with_nodes].
      - rewrite nblocks_shuffle. auto.
      - rewrite sum_shuffle. auto. }
    assert (Nw : newer w (cblocks d')).
    { unfold newer in *. rewrite Forall_forall in *. intros b Hb. apply Nw1. apply cnt_pos. apply cnt_pos in Hb.
      unfold cblocks, d' in Hb. cbn [c_nodes] in Hb. rewrite nblocks_shuffle in Hb. exact Hb. }
    destruct env_umap_clears eqn:Ec.
    + apply wp_on_src. eapply wp_map_clear; [exact Wn|apply own2_src; exact O2|].
      intros w2 O3 L2. cbn [fst snd].
      apply (HQ w2 codes new []); auto.
      * eapply Forall_impl; [|exact Fi]. intros n Hn. simpl in Hn. wle_tac.
      * constructor.
      * apply own2_src. apply cown_nil. exact O3.
      * wle_tac.
    + apply wp_ret. apply (HQ w1 codes new xn); auto. discriminate.
Qed.

(** Allocator-extended move construction. *)
Lemma wp_c_move_al al x w R K (Q : PW -> unit -> Prop) (X : PW -> exn -> Prop) :
  wfc w x -> cown w x R K ->
  (forall w' d' bk, wfc w' d' -> cown w' d' R K -> wle w w' -> c_al d' = al -> rebuilt x d' ->
     (c_al x = al -> d' = x /\ w' = w) -> (c_al x <> al -> newer w (cblocks d')) ->
     Q ((d', mkcoll [] bk [] (c_al x)), w') tt) ->
  (forall w' d' xn e, c_nodes d' = [] -> nodes_ok0 xn -> cown w' (with_nodes x xn) R K -> wle w w' -> c_al x <> al ->
     copy_reason false x w w' e -> X ((d', with_nodes x xn), w') e) ->
  wp (c_move_al al) ((c_empty al, x), w) Q X.
Proof.
  intros W O HQ HX. unfold c_move_al. apply wp_try.
  apply wp_bind, wp_on_src, wp_getx. cbn [fst snd].
  assert (O2 : own2 w (c_empty al) x R K).
  { apply own2_src. eapply own_ext; [exact O| |]; intros; cbv beta; unfold cblocks; rewrite ?c_objs_nodes; simpl; rewrite ?cnt_nil; lia. }
  destruct (Nat.eqb_spec (c_al x) al) as [Ea|Na].
  - apply wp_bind, wp_on_dst, wp_setx. cbn [fst snd]. apply wp_on_src, wp_setx. cbn [fst snd].
    assert (Ex : mkcoll (c_nodes x) (c_buckets x) (c_cache x) al = x) by (subst al; destruct x; reflexivity).
    rewrite Ex. apply HQ; auto. + apply wle_refl. + unfold rebuilt. apply Permutation_refl. + contradiction.
  - apply wp_bind.
    assert (Cl : forall dn bk ch xn w1 e, nodes_ok0 dn -> nodes_ok0 xn -> own2 w1 (mkcoll dn bk ch al) (with_nodes x xn) R K ->
        wle w w1 -> copy_reason false x w w1 e ->
        wp (on_dst map_clear) ((mkcoll dn bk ch al, with_nodes x xn), w1) (fun s _ => X s e) X).
    { intros dn bk ch xn w1 e Wd Wn O1 L1 Hr. apply wp_on_dst. eapply wp_map_clear; [exact Wd|apply own2_dst; exact O1|].
      intros w2 O3 L3. cbn [fst snd]. apply HX; auto; try wle_tac.
      eapply nodes_reason_mono; [apply incl_refl| |exact Hr|]; try wle_tac. }
    eapply (wp_map_move_elems al (c_empty al) x w R K); auto.
    + apply wfc_0; auto.
    + intros w1 codes new xn Sn Nd Fi Wn En Hc d' O1 L1 Nw1.
      assert (Lt : Forall (fun n => n_id n < w_next w1) new) by (eapply Forall_impl; [|exact Fi]; simpl; tauto).
      destruct (new_map al (c_nodes x) new codes w1 (c_buckets x) x w (wc_map _ _ W) eq_refl Sn Nd Lt) as (Wc & Rb & Ck).
      assert (Ed : d' = mkcoll (shuffle codes new) (c_buckets x) [] al) by reflexivity.
      apply wp_bind, wp_on_dst.
      eapply (wp_build_cache (c_cache x) d' w1 (fun b => cnt (cblocks (with_nodes x xn)) b + R b) (c_objs (with_nodes x xn) + K)); auto.
      * apply Wc.
      * apply own2_dst. exact O1.
      * intros w2 l W2 O3 L2. cbn [fst snd]. apply own2_dst in O3.
        apply wp_bind, wp_on_src. eapply wp_map_clear; [exact Wn|apply own2_src; exact O3|].
        intros w3 O4 L3. cbn [fst snd with_nodes c_nodes c_buckets c_cache c_al]. unfold cache_clear. apply wp_on_src. apply wp_bind, wp_getx. apply wp_setx. cbn [fst snd c_nodes c_buckets c_al].
        apply HQ; auto.
        -- apply (wfc_mono w2); auto. eapply wfc_set_cache; [exact Wc|exact W2].
        -- wle_tac.
        -- intros Ea. contradiction.
      * intros w2 l e W2 O3 L2 Ee F. cbn [fst snd]. apply own2_dst in O3. apply Cl; auto.
        -- eapply Forall_impl; [|apply (wc_segs _ _ Wc)]. intros n. apply wfs_0.
        -- wle_tac.
        -- left. split; auto. fmono.
    + intros w2 dn xn e Wdn Wn O3 L2 Hr. apply Cl; auto.
Qed.

(** Move assignment. *)
Lemma wp_c_move_assign d x w R K (Q : PW -> unit -> Prop) (X : PW -> exn -> Prop) :
  wfc w x -> nodes_ok0 (c_nodes d) -> own2 w d x R K ->
  (forall w' d' xn bk, wfc w' d' -> own2 w' d' (mkcoll xn bk [] (c_al x)) R K -> wle w w' ->
     c_al d' = (if env_pocma then c_al x else c_al d) -> rebuilt x d' ->
     nodes_ok0 xn -> (xn = [] \/ Forall2 shed (c_nodes x) xn) ->
     (env_pocma = true \/ c_al d = c_al x -> d' = x /\ xn = []) -> (env_umap_clears = true -> xn = []) ->
     (env_pocma = false -> c_al d <> c_al x -> newer w (cblocks d')) ->
     (forall b, In b (nblocks xn) -> b < w_next w -> In b (cblocks x)) ->
     Q ((d', mkcoll xn bk [] (c_al x)), w') tt) ->
  (forall w' bk bk' e, own w' R K -> wle w w' -> copy_reason false x w w' e -> env_pocma = false -> c_al d <> c_al x ->
     X ((mkcoll [] bk [] (c_al d), mkcoll [] bk' [] (c_al x)), w') e) ->
  wp c_move_assign ((d, x), w) Q X.
Proof.
  intros W Wd O HQ HX. unfold c_move_assign. apply wp_try.
  apply wp_bind, wp_on_src, wp_getx. cbn [fst snd].
  apply wp_bind, wp_on_dst. eapply wp_map_clear; [exact Wd|apply own2_dst; exact O|].
  intros w1 O1 L1. cbn [fst snd]. apply wp_bind, wp_on_dst, wp_getx. cbn [fst snd c_al].
  set (d1 := mkcoll [] (c_buckets d) (c_cache d) (c_al d)).
  assert (W1 : wfc w1 x) by (eapply wfc_mono; eauto).
  assert (O1c : cown w1 x R K).
  { eapply own_ext; [exact O1| |]; intros; cbv beta; lia. }
  destruct (env_pocma || (c_al d =? c_al x)) eqn:Eb.
  - apply wp_bind, wp_on_dst, wp_setx. cbn [fst snd]. apply wp_on_src, wp_setx. cbn [fst snd].
    assert (Ex : mkcoll (c_nodes x) (c_buckets x) (c_cache x) (c_al x) = x) by (destruct x; reflexivity).
    rewrite Ex. apply HQ; auto.
    + apply own2_dst. eapply own_ext; [exact O1c| |]; intros; cbv beta; unfold cblocks; rewrite ?c_objs_nodes; simpl; rewrite ?cnt_nil; lia.
    + destruct env_pocma; auto. simpl in Eb. apply Nat.eqb_eq in Eb. auto.
    + unfold rebuilt. apply Permutation_refl.
    + constructor.
    + intros Ep Na. rewrite Ep in Eb. simpl in Eb. apply Nat.eqb_eq in Eb. contradiction.
    + intros b [].
  - apply orb_false_iff in Eb. destruct Eb as (Ep & Ea). apply Nat.eqb_neq in Ea.
    assert (O2 : own2 w1 d1 x R K).
    { apply own2_src. eapply own_ext; [exact O1c| |]; intros; cbv beta; unfold cblocks; rewrite ?c_objs_nodes; simpl; rewrite ?cnt_nil; lia. }
    assert (Cl : forall dn bk ch xn bk' ch' w2 e, nodes_ok0 dn -> nodes_ok0 xn ->
        own2 w2 (mkcoll dn bk ch (c_al d)) (mkcoll xn bk' ch' (c_al x)) R K ->
        wle w w2 -> copy_reason false x w w2 e ->
        wp (on_dst map_clear ;; on_dst cache_clear ;; on_src map_clear ;; on_src cache_clear)
          ((mkcoll dn bk ch (c_al d), mkcoll xn bk' ch' (c_al x)), w2) (fun s _ => X s e) X).
    { intros dn bk ch xn bk' ch' w2 e Wdn Wn O3 L2 Hr. apply wp_bind, wp_on_dst. eapply wp_map_clear; [exact Wdn|apply own2_dst; exact O3|].
      intros w3 O4 L3. cbn [fst snd c_nodes c_buckets c_cache c_al]. apply wp_bind, wp_on_dst. unfold cache_clear at 1. apply wp_bind, wp_getx, wp_setx. cbn [fst snd c_nodes c_buckets c_cache c_al].
      apply wp_bind, wp_on_src. eapply (wp_map_clear _ w3 R K); [exact Wn| |].
      { eapply own_ext; [exact O4| |]; intros; cbv beta; lia. }
      intros w4 O5 L4. cbn [fst snd c_nodes c_buckets c_cache c_al]. apply wp_on_src. unfold cache_clear. apply wp_bind, wp_getx, wp_setx. cbn [fst snd c_nodes c_buckets c_cache c_al].
      apply HX; auto; [wle_tac|]. eapply nodes_reason_mono; [apply incl_refl| |exact Hr|]; wle_tac. }
    apply wp_bind. eapply (wp_map_move_elems (c_al d) d1 x w1 R K); auto.
    + apply wfc_0; auto.
    + intros w2 codes new xn Sn Nd Fi Wn En Hc d' O3 L2 Nw2.
      assert (Lt : Forall (fun n => n_id n < w_next w2) new) by (eapply Forall_impl; [|exact Fi]; simpl; tauto).
      destruct (new_map (c_al d) (c_nodes x) new codes w2 (c_buckets x) x w (wc_map _ _ W) eq_refl Sn Nd Lt) as (Wc & Rb & Ck).
      apply wp_bind, wp_on_dst. unfold cache_clear at 1. apply wp_bind, wp_getx, wp_setx. cbn [fst snd].
      set (d2 := mkcoll (shuffle codes new) (c_buckets x) [] (c_al d)) in *.
      change (mkcoll (c_nodes d') (c_buckets d') [] (c_al d')) with d2.
      assert (O3' : own2 w2 d2 (with_nodes x xn) R K) by exact O3.
      apply wp_bind, wp_on_dst.
      eapply (wp_build_cache (c_cache x) d2 w2 (fun b => cnt (cblocks (with_nodes x xn)) b + R b) (c_objs (with_nodes x xn) + K)); auto.
      * apply Wc.
      * apply own2_dst. exact O3'.
      * intros w3 l W3 O4 L3. cbn [fst snd]. apply own2_dst in O4.
        apply wp_on_src. unfold cache_clear. apply wp_bind, wp_getx, wp_setx. cbn [fst snd with_nodes c_nodes c_buckets c_cache c_al].
        apply HQ; auto.
        -- eapply wfc_set_cache; [exact Wc|exact W3].
        -- wle_tac.
        -- rewrite Ep. auto.
        -- intros [?|?]; congruence.
        -- intros _ _. apply (newer_mono w w1); [apply L1|exact Nw2].
        -- intros b Hb Lb. apply cnt_pos in Hb. apply cnt_pos. unfold own2 in O4. pose proof (own_one _ _ _ O4 b) as One. cbv beta in One.
           change (cblocks (with_nodes x xn)) with (nblocks xn) in One.
           destruct (Nat.eq_dec (cnt (cblocks x) b) 0) as [Z|Z]; [|lia]. exfalso.
           assert (w_next w1 <= b); [|wle_tac].
           eapply own_newer; [exact O1c|exact O4|wle_tac|cbv beta; change (cblocks (with_nodes x xn)) with (nblocks xn); lia|cbv beta; lia].
      * intros w3 l e W3 O4 L3 Ee F. cbn [fst snd]. apply own2_dst in O4. apply Cl; auto.
        -- eapply Forall_impl; [|apply (wc_segs _ _ Wc)]. intros n. apply wfs_0.
        -- wle_tac.
        -- left. split; auto. fmono.
    + intros w2 dn xn e Wdn Wn O3 L2 Hr. apply Cl; auto; [wle_tac|].
      eapply nodes_reason_mono; [apply incl_refl| |exact Hr|]; wle_tac.
Qed.

End PCopy.
