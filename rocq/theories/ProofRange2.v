(** * Insertion of ranges at local positions and of ranges of one type *)

From Coq Require Import List Arith Lia Bool Permutation.
From Verif Require Import Base Vec Backend Segment Coll Spec ProofBase ProofVec ProofBackend ProofOps ProofOps2 ProofSeg ProofMap ProofView ProofColl ProofIns ProofEach ProofErase ProofRange.
Import ListNotations.

Section PRange2.
Context {V : Type} {E : Env V}.

Notation SW := (segment V * world)%type.
Notation CW := (coll V * world)%type.
Notation NL := (list (node V)).
Notation nb n := (sg_be (n_seg n)).
Notation nsz n := (bsize (sg_be (n_seg n))).

(** ** Ranges of one type *)

(** Triples for the segment operations inserting several elements. *)
Definition many_ins (m : M SW ptr) (fwd : bool) (h : how) (k : nat) (xs : list V) (s : segment V) (w : world)
  (R : nat -> nat) (K : nat) : Prop :=
  forall (Q : SW -> ptr -> Prop) (X : SW -> exn -> Prop),
  (forall b' w' r, rng_ok (sg_ty s) k xs (sg_be s) w R K b' w' r -> Q (seg_with s b', w') (be_ptr b' k)) ->
  (forall b' w' e, rng_exn (sg_ty s) h fwd k xs (sg_be s) w R K b' w' e -> X (set_be s b' (sg_snt s), w') e) ->
  wp m (s, w) Q X.

Lemma many_append s w R K h fwd xs : wfs s -> bown (sg_ty s) w (sg_be s) R K ->
  many_ins (seg_append_range (sg_ty s) h fwd xs) fwd h (bsize (sg_be s)) xs s w R K.
Proof. intros W O Q X HQ HX. eapply wp_seg_append_range; eauto. Qed.
Lemma many_insert s w R K h fwd p k xs : wfs s -> bown (sg_ty s) w (sg_be s) R K -> pos_at (sg_be s) p k -> k <= bsize (sg_be s) ->
  many_ins (seg_insert_range (sg_ty s) h fwd p xs) fwd h k xs s w R K.
Proof. intros W O Hp Hk Q X HQ HX. eapply wp_seg_insert_range; eauto. Qed.

Lemma wp_made_many m a fwd h k xs c w R K w1 c1 n (Q : CW -> ptr -> Prop) (X : CW -> exn -> Prop) :
  wfc w c -> made w c a R K w1 c1 n ->
  many_ins m fwd h k xs (n_seg n) w1 (Rc c1 (n_id n) R) (Kc c1 (n_id n) K) ->
  (forall w' c' s', xs_did w c R K w' c' (env_ty a) k xs (n_id n) (n_seg n) s' ->
     Q (c', w') (be_ptr (sg_be s') k)) ->
  (forall w' c' e, failed (many_safe fwd e) w c R K w' c' (env_ty a) h (length xs) e -> X (c', w') e) ->
  wp (on_seg (n_id n) m) (c1, w1) Q X.
Proof.
  intros W M O HQ HX. assert (M' := M). destruct M' as (W1 & H1 & L1 & Ea & Hat & Et & Cs).
  assert (Wm := wc_map _ _ W).
  eapply wp_on_seg; [exact Hat|]. apply O.
  - intros b' w' r (A1 & Wb & Ho & L & Sf & _ & St). cbn [fst snd].
    assert (D : did w c R K w' (upd_seg c1 (n_id n) (seg_with (n_seg n) b')) (env_ty a) (n_id n) (n_seg n) (seg_with (n_seg n) b')).
    { eapply made_did; eauto. }
    assert (Ws : wfs (seg_with (n_seg n) b')) by (apply wfs_with; auto).
    change (be_ptr b' k) with (be_ptr (sg_be (seg_with (n_seg n) b')) k).
    apply HQ. unfold xs_did. csplit; auto. eapply did_wf; eauto.
  - intros b' w' e (I1 & Ho & L & I4 & I5 & I6 & I7 & _ & _ & I10). cbn [fst snd]. apply HX.
    set (s' := set_be (n_seg n) b' (sg_snt (n_seg n))).
    assert (D : did w c R K w' (upd_seg c1 (n_id n) s') (env_ty a) (n_id n) (n_seg n) s') by (eapply made_did; eauto).
    assert (D' := D). destruct D' as [Wf Wf0 Ho' L' Al Pu Pv Ety].
    assert (Sz := prev_size _ _ _ _ _ Wm Pv).
    assert (Ws0 : wfs1 s') by (unfold wfs1; rewrite Ety, <- Et; exact I1).
    assert (W0' : wfc0 w' (upd_seg c1 (n_id n) s')) by (apply Wf0; auto; apply wfc_0; auto).
    assert (Me : seg_at (upd_seg c1 (n_id n) s') (env_ty a) = Some s') by (eapply put_seg_at; eauto; apply W0').
    assert (Sz' : length (elems (upd_seg c1 (n_id n) s') (env_ty a)) = bsize b') by (rewrite elems_seg_at, Me; auto).
    unfold failed. csplit; auto; try tauto.
    + eapply put_others; eauto.
    + eapply did_types; eauto.
    + eapply did_other_iters; eauto.
    + rewrite Sz', <- Sz. lia.
    + rewrite Sz', <- Sz. lia.
    + rewrite <- Sz, <- Et. destruct I6 as [[(A & F)|(A & B & C)]|(A & B)].
      * left. split; [destruct A as [?|(? & A)]; auto; right; split; auto; eapply bnoisy_quiet; eauto|].
        unfold faulted in F. destruct F as (j & Hj & Hf). exists j. split; auto. unfold wle in *. lia.
      * right; left. csplit; auto. destruct C as [C|(C1 & C2)]; [left; congruence|right; split; auto; lia].
      * right; right. auto.
    + intros (Ly & Fw & Ee). apply (did_unchanged _ _ _ _ _ _ _ _ _ _ W D eq_refl). apply I10; auto.
Qed.

(** The insertion of a range of one type failed. *)
Definition many_fail (fwd : bool) h w (c : coll V) R K w' (c' : coll V) t (m : nat) e : Prop :=
  failed (many_safe fwd e) w c R K w' c' t h m e.

Lemma wp_c_insert_range_terminal a h fwd xs c w R K (Q : CW -> unit -> Prop) (X : CW -> exn -> Prop) :
  wfc w c -> cown w c R K ->
  (forall w' c', upto None w c R K w' c' (map (pair (env_ty a)) xs) -> Q (c', w') tt) ->
  (forall w' c' e, xs <> [] -> many_fail fwd h w c R K w' c' (env_ty a) (length xs) e -> X (c', w') e) ->
  wp (c_insert_range_terminal a h fwd xs) (c, w) Q X.
Proof.
  intros W O HQ HX. assert (U := upto_refl None w c R K W O).
  destruct xs as [|v xs]; cbn [c_insert_range_terminal].
  - apply wp_ret. apply HQ. exact U.
  - set (l := v :: xs) in *. assert (Ne : l <> []) by discriminate.
    apply wp_bind. eapply (wp_find_or_make a c w R K); auto; [apply W| |].
    + intros w1 c1 n M. assert (Mp := made_seg _ _ _ _ _ _ _ _ (wc_map _ _ W) M).
      assert (Et : sg_ty (n_seg n) = env_ty a) by apply M.
      assert (Sz := prev_size _ _ _ _ _ (wc_map _ _ W) Mp).
      apply wp_bind. eapply (wp_made_many _ a fwd h (length (elems c (env_ty a))) l); eauto.
      * rewrite <- Sz, <- Et. apply many_append.
        -- eapply prev_wfs; eauto.
        -- destruct M as (Wm & Om & _ & _ & Hat & _). eapply cown_seg_id; eauto.
      * intros w' c' s' D. apply wp_ret. apply HQ. apply (upto_step None w c R K w c [] w' c' (env_ty a) l (n_id n) (n_seg n) s'); auto; try exact I.
        rewrite (upto_slot_none _ _ _ _ _ _ _ _ U). exact D.
    + intros w' c' e M. apply HX; auto. eapply failed_m; [|eapply made_exn_failed; eauto]. simpl. lia.
Qed.

Lemma wp_c_insert_hint_range_terminal hn hint a h fwd xs c w R K (Q : CW -> unit -> Prop) (X : CW -> exn -> Prop) :
  wfc w c -> cown w c R K -> hint_ok hn c -> hinv hn c [] hint -> hsafe hn c (map (pair (env_ty a)) xs) ->
  (forall w' c', upto hn w c R K w' c' (map (pair (env_ty a)) xs) -> Q (c', w') tt) ->
  (forall w' c' e, xs <> [] -> many_fail fwd h w c R K w' c' (env_ty a) (length xs) e -> X (c', w') e) ->
  wp (c_insert_hint_range_terminal hint a h fwd xs) (c, w) Q X.
Proof.
  intros W O Hok Hi Sf HQ HX. assert (U := upto_refl hn w c R K W O).
  destruct xs as [|v xs]; cbn [c_insert_hint_range_terminal].
  - apply wp_ret. apply HQ. exact U.
  - set (t := env_ty a) in *.
    assert (Hs := hsafe_step _ _ _ _ _ _ _ _ _ _ _ _ U Hi Sf).
    set (l := v :: xs) in *. assert (Ne : l <> []) by discriminate.
    apply wp_bind. eapply (wp_find_or_make a c w R K); auto; [apply W| |].
    + intros w1 c1 n M. assert (Mp := made_seg _ _ _ _ _ _ _ _ (wc_map _ _ W) M).
      assert (Et : sg_ty (n_seg n) = env_ty a) by apply M.
      assert (Sz := prev_size _ _ _ _ _ (wc_map _ _ W) Mp).
      assert (Wp : wfs (n_seg n)) by (eapply prev_wfs; eauto).
      assert (Bo : bown (n_ty n) w1 (nb n) (Rc c1 (n_id n) R) (Kc c1 (n_id n) K)).
      { destruct M as (Wm & Om & _ & _ & Hat & _). eapply cown_seg_id; eauto. }
      destruct (hinv_located _ _ _ _ _ _ _ W O Hi) as (g & Lo).
      assert (Ha := hinv_at _ _ _ _ _ _ _ _ _ t U Hi).
      assert (Sl : slot hn c t + length (of_type t (@nil (tyid * V))) = slot hn c t) by (simpl; lia).
      apply wp_bind. eapply (wp_same_node w c hint g a R K w1 c1 n (slot hn c t + length (of_type t (@nil (tyid * V))))); eauto.
      * intros Pa Hk. apply wp_bind. eapply (wp_made_many _ a fwd h (slot hn c t) l); eauto.
        -- unfold t at 1. rewrite <- Et. rewrite Sl in Pa, Hk. apply many_insert; auto. lia.
        -- intros w' c' s' D. apply wp_ret. apply HQ.
           apply (upto_step hn w c R K w c [] w' c' t l (n_id n) (n_seg n) s'); auto. rewrite Sl. exact D.
      * intros Ek. apply wp_bind. eapply (wp_made_many _ a fwd h (length (elems c t)) l); eauto.
        -- fold t in Sz. unfold t at 1. rewrite <- Sz, <- Et. apply many_append; auto.
        -- intros w' c' s' D. apply wp_ret. apply HQ.
           apply (upto_step hn w c R K w c [] w' c' t l (n_id n) (n_seg n) s'); auto. fold t in Ek. rewrite Ek. exact D.
    + intros w' c' e M. apply HX; auto. eapply failed_m; [|eapply made_exn_failed; eauto]. simpl. lia.
Qed.

(** ** Ranges at local positions *)

(** One element, then the rest. *)
Lemma wp_ins_at (H : nat -> how -> Prop) t k0 pre l a m hw v w0 c0 c w R K n {A} (F : ptr -> M CW A) (Q : CW -> A -> Prop) (X : CW -> exn -> Prop) :
  let h := Some (t, k0) in let k := k0 + length (of_type t pre) in
  H (length pre) hw -> wfc w0 c0 -> hint_ok h c0 -> env_ty a = t -> upto h w0 c0 R K w c pre -> In n (c_nodes c) -> n_ty n = t -> k <= nsz n ->
  one_ins m hw k v (n_seg n) w (Rc c (n_id n) R) (Kc c (n_id n) K) ->
  (forall w' c' n', upto h w0 c0 R K w' c' (pre ++ [(t, v)]) -> n_id n' = n_id n -> In n' (c_nodes c') -> n_ty n' = t ->
     k < nsz n' -> wp (F (be_ptr (nb n') k)) (c', w') Q X) ->
  (forall w' c' e, stopped no_arg H h w0 c0 R K w' c' (pre ++ (t, v) :: l) e -> X (c', w') e) ->
  wp (q <- on_seg (n_id n) m ;; F q) (c, w) Q X.
Proof.
  intros h k Hh W0 Hok Ea U Hin Et Hk Om HF HX. assert (U' := U). destruct U' as (G & W & O & L & Al).
  assert (Hat := node_at_some _ _ (wm_ids _ _ (wc_map _ _ W)) Hin).
  destruct (made_here _ _ _ _ a _ _ W O Hat) as (_ & _ & M); [congruence|].
  assert (Mp := made_seg _ _ _ _ _ _ _ _ (wc_map _ _ W) M). rewrite Ea in Mp.
  assert (Sz := prev_size _ _ _ _ _ (wc_map _ _ W) Mp).
  assert (Sl : slot h c0 t = k0) by (unfold slot, h; rewrite Nat.eqb_refl; auto).
  apply wp_bind. eapply (wp_made_ins _ a hw k v c w R K w c n); eauto.
  - intros w' c' s' D. rewrite Ea in D.
    assert (U2 : upto h w0 c0 R K w' c' (pre ++ [(t, v)])).
    { change [(t, v)] with (map (pair t) [v]). eapply upto_step; eauto; [|discriminate].
      rewrite Sl. apply ins_xs. exact D. }
    destruct D as ([_ _ O' _ _ Pu _ Ety] & W' & _ & P). destruct (put_in _ _ _ _ _ Pu) as (ky & Hin').
    change (be_ptr (sg_be s') k) with (be_ptr (nb (mknode (n_id n) ky s')) k).
    apply HF; auto. cbn [n_seg]. destruct P as (P & _).
    assert (B : length (belems (sg_be s')) = S (length (belems (nb n)))) by (rewrite P; apply insert_at_len).
    unfold bsize, vsize in *. unfold belems in B. lia.
  - intros w' c' e s' Fl. apply HX. exists pre, t, v, l, w, c. csplit; auto.
    left. exists hw. split; auto. rewrite Sl. rewrite Ea in Fl. eapply ins_fail_failed; eauto. lia.
Qed.

Lemma of_type_snoc t (pre : list (tyid * V)) v : of_type t (pre ++ [(t, v)]) = of_type t pre ++ [v].
Proof. rewrite of_type_app. assert (B := of_type_same t [v]). simpl map in B. rewrite B. auto. Qed.

Lemma wp_c_insert_pos_loop (H : nat -> how -> Prop) t k0 xs : forall vs pre p n w0 c0 c w R K (Q : CW -> bpos -> Prop) (X : CW -> exn -> Prop),
  let h := Some (t, k0) in
  Forall2 (gives_at t) xs vs -> (forall k x, nth_error xs k = Some x -> H (length pre + k) (a_how x)) -> wfc w0 c0 -> hint_ok h c0 -> upto h w0 c0 R K w c pre ->
  In n (c_nodes c) -> n_ty n = t -> k0 + length (of_type t pre) <= nsz n -> pos_at (nb n) p (k0 + length (of_type t pre)) ->
  (forall w' c' n' p', upto h w0 c0 R K w' c' (pre ++ map (pair t) vs) -> In n' (c_nodes c') -> n_id n' = n_id n -> n_ty n' = t ->
     k0 + length (of_type t pre) + length vs <= nsz n' -> pos_at (nb n') p' (k0 + length (of_type t pre) + length vs) ->
     Q (c', w') p') ->
  (forall w' c' e, stopped no_arg H h w0 c0 R K w' c' (pre ++ map (pair t) vs) e -> X (c', w') e) ->
  wp (c_insert_pos_loop (n_id n) p xs) (c, w) Q X.
Proof.
  induction xs as [|x xs IH]; intros vs pre p n w0 c0 c w R K Q X h F Hh W0 Hok U Hin Et Hk Hp HQ HX;
    inversion F as [|? v ? vs' Hx F' E1 E2]; subst vs; cbn [c_insert_pos_loop].
  - apply wp_ret. simpl in HQ. rewrite Nat.add_0_r, app_nil_r in HQ. apply (HQ w c n p); auto.
  - destruct Hx as (Ex & Es). rewrite Es, Ex.
    destruct (nth_shift (fun k x => H k (a_how x)) pre (t, v) x xs Hh) as (Hh1 & Hh2).
    assert (U' := U). destruct U' as (G & W & O & L & Al).
    eapply (wp_ins_at H t k0 pre (map (pair t) vs') (a_dyn x) _ (a_how x) v w0 c0 c w R K n); eauto.
    + rewrite <- Et. apply one_insert; auto.
      * apply (wfc_seg _ _ _ W Hin).
      * eapply cown_seg_id; eauto. apply node_at_some; auto. apply W.
      * rewrite Et. auto.
      * rewrite Et. auto.
      * left; auto.
    + intros w' c' n' U2 Ei Hin' Et' Hk'. rewrite <- Ei. rewrite be_ptr_eq. cbn [fst snd].
      assert (Ln : k0 + length (of_type t (pre ++ [(t, v)])) = S (k0 + length (of_type t pre))).
      { rewrite of_type_snoc, app_length. simpl. lia. }
      eapply (IH vs' (pre ++ [(t, v)]) _ n' w0 c0 c' w' R K); auto; rewrite ?Ln.
      * lia.
      * left. rewrite be_ptr_eq. auto.
      * intros w2 c2 n2 p2 U3 Hin2 Ei2 Et2. simpl plus. rewrite <- !Nat.add_succ_r. intros Hk2 Hp2.
        apply (HQ w2 c2 n2 p2); auto; try congruence. rewrite <- app_assoc in U3. exact U3.
      * intros w2 c2 e. rewrite <- app_assoc. apply HX.
Qed.

Lemma pos_at_back b p k m : pos_at b p (k + m) ->
  pos_at b (match p with PBase q => PBase (fst q, snd q - m) | PConc q => PConc (fst q, snd q - m) end) k.
Proof.
  intros [->| ->]; [left; rewrite !be_ptr_eq|right; unfold vptr]; cbn [fst snd]; do 2 f_equal; lia.
Qed.

Lemma wp_c_insert_pos_range (H : nat -> how -> Prop) pos k xs vs t c w R K (Q : CW -> liter -> Prop) (X : CW -> exn -> Prop) :
  let h := Some (t, k) in
  wfc w c -> cown w c R K -> lpoints c pos t k -> Forall2 (gives_at t) xs vs -> (forall k x, nth_error xs k = Some x -> H k (a_how x)) ->
  (forall w' c' pos', upto h w c R K w' c' (map (pair t) vs) -> lpoints c' pos' t k -> Q (c', w') pos') ->
  (forall w' c' e, stopped no_arg H h w c R K w' c' (map (pair t) vs) e -> X (c', w') e) ->
  wp (c_insert_pos_range pos xs) (c, w) Q X.
Proof.
  intros h W O Lp F Hh HQ HX. destruct (lpoints_node _ _ _ _ Lp (wm_ids _ _ (wc_map _ _ W))) as (n & Hin & Hat & Ei & Et & Hp & Hk).
  assert (Hok : hint_ok h c).
  { simpl. rewrite <- Et. rewrite (elems_node _ _ _ (wc_map _ _ W) Hin). exact Hk. }
  assert (Fl : length xs = length vs) by (clear - F; induction F; simpl; auto).
  unfold c_insert_pos_range. rewrite <- Ei. apply wp_bind.
  eapply (wp_c_insert_pos_loop H t k xs vs [] (li_pos pos) n w c c w R K); auto.
  - apply upto_refl; auto.
  - simpl. lia.
  - simpl. rewrite Nat.add_0_r. auto.
  - intros w' c' n' p' U Hin' Ei' Et' Hk' Hp'. simpl in Hk', Hp'. rewrite Nat.add_0_r, <- Fl in Hp'.
    apply pos_at_back in Hp'.
    assert (Z : forall q, pos_at (nb n') q k -> lpoints c' (mkliter (n_id n) q) t k).
    { intros q Hq. exists n'. csplit; auto; try lia. unfold bsize, vsize in *. unfold elems_of. lia. }
    destruct p'; apply wp_ret; apply HQ; auto; apply Z; exact Hp'.
Qed.

Lemma wp_seg_to_conc i n k c w R K (Q : CW -> ptr -> Prop) (X : CW -> exn -> Prop) :
  wfc w c -> cown w c R K -> node_at (c_nodes c) i = Some n -> k <= nsz n ->
  Q (c, w) (vptr (be_store (nb n)) k) ->
  wp (on_seg i (seg_to_conc (be_ptr (nb n) k))) (c, w) Q X.
Proof.
  intros W O Hat Hk HQ. destruct (node_at_in _ _ _ Hat) as [Hin <-].
  eapply wp_on_seg; [exact Hat|]. unfold seg_to_conc. apply wp_bind, wp_getx. cbn [fst snd].
  assert (Ws := wfc_seg _ _ _ W Hin). rewrite (be_to_conc_ptr _ _ _ (wfs_be _ Ws)) by auto.
  apply wp_ret. cbn [fst snd]. rewrite upd_seg_id; auto.
Qed.

Lemma wp_c_insert_lpos_loop (H : nat -> how -> Prop) t k0 a xs : forall pre p n w0 c0 c w R K (Q : CW -> ptr -> Prop) (X : CW -> exn -> Prop),
  let h := Some (t, k0) in let vs := map snd xs in
  env_ty a = t -> (forall k x, nth_error xs k = Some x -> H (length pre + k) (way t x)) -> wfc w0 c0 -> hint_ok h c0 -> upto h w0 c0 R K w c pre ->
  In n (c_nodes c) -> n_ty n = t -> k0 + length (of_type t pre) <= nsz n ->
  p = vptr (be_store (nb n)) (k0 + length (of_type t pre)) ->
  (forall w' c' n', upto h w0 c0 R K w' c' (pre ++ map (pair t) vs) -> In n' (c_nodes c') -> n_id n' = n_id n -> n_ty n' = t ->
     k0 + length (of_type t pre) + length xs <= nsz n' ->
     Q (c', w') (vptr (be_store (nb n')) (k0 + length (of_type t pre) + length xs))) ->
  (forall w' c' e, stopped no_arg H h w0 c0 R K w' c' (pre ++ map (pair t) vs) e -> X (c', w') e) ->
  wp (c_insert_lpos_loop (n_id n) t p xs) (c, w) Q X.
Proof.
  induction xs as [|[[ot hw] v] xs IH]; intros pre p n w0 c0 c w R K Q X h vs Ea Hh W0 Hok U Hin Et Hk Hp HQ HX;
    cbn [c_insert_lpos_loop].
  - apply wp_ret. subst p. simpl in HQ. specialize (HQ w c n). rewrite Nat.add_0_r, app_nil_r in HQ. apply HQ; auto.
  - assert (U' := U). destruct U' as (G & W & O & L & Al).
    assert (Hat := node_at_some _ _ (wm_ids _ _ (wc_map _ _ W)) Hin).
    destruct (nth_shift (fun k x => H k (way t x)) pre (t, v) (ot, hw, v) xs Hh) as (Hh1 & Hh2). cbn [way] in Hh1.
    assert (Bo : bown (n_ty n) w (nb n) (Rc c (n_id n) R) (Kc c (n_id n) K)) by (eapply cown_seg_id; eauto).
    assert (Ws := wfc_seg _ _ _ W Hin).
    assert (Om : exists hw', H (length pre) hw' /\ one_ins (if match ot with Some t' => t' =? t | None => false end
              then seg_insert t hw (PConc p) (SVal v) else seg_emplace t HEmplace (PConc p) (SVal v))
              hw' (k0 + length (of_type t pre)) v (n_seg n) w (Rc c (n_id n) R) (Kc c (n_id n) K)).
    { rewrite <- Et in *. destruct (match ot with Some t' => t' =? n_ty n | None => false end).
      - exists hw. split; auto. apply one_insert; auto. + right. subst p. auto. + left; auto.
      - exists HEmplace. split; auto. apply one_emplace; auto. + right. subst p. auto. + left; auto. }
    destruct Om as (hw' & Hh' & Om).
    eapply (wp_ins_at H t k0 pre (map (pair t) (map snd xs)) a _ hw' v w0 c0 c w R K n); eauto.
    + intros w' c' n' U2 Ei Hin' Et' Hk'.
      assert (U2' := U2). destruct U2' as (G' & W' & O' & L' & Al').
      assert (Hat' := node_at_some _ _ (wm_ids _ _ (wc_map _ _ W')) Hin').
      apply wp_bind. rewrite <- Ei. eapply (wp_seg_to_conc _ n' _ c' w' R K); eauto; [lia|].
      cbn [fst snd vptr].
      assert (Ln : k0 + length (of_type t (pre ++ [(t, v)])) = S (k0 + length (of_type t pre))).
      { rewrite of_type_snoc, app_length. simpl. lia. }
      eapply (IH (pre ++ [(t, v)]) _ n' w0 c0 c' w' R K); auto; rewrite ?Ln; auto.
      * intros w2 c2 n2 U3 Hin2 Ei2 Et2. simpl plus. rewrite <- !Nat.add_succ_r. intros Hk2.
        apply (HQ w2 c2 n2); auto; try congruence. rewrite <- app_assoc in U3. exact U3.
      * intros w2 c2 e. rewrite <- app_assoc. apply HX.
Qed.

Lemma wp_c_insert_lpos_range (H : nat -> how -> Prop) i p k a xs t c w R K (Q : CW -> liter -> Prop) (X : CW -> exn -> Prop) :
  let h := Some (t, k) in let vs := map snd xs in
  wfc w c -> cown w c R K -> env_ty a = t -> (forall k x, nth_error xs k = Some x -> H k (way t x)) -> lpoints c (mkliter i (PConc p)) t k ->
  (forall w' c' pos', upto h w c R K w' c' (map (pair t) vs) -> lpoints c' pos' t k -> Q (c', w') pos') ->
  (forall w' c' e, stopped no_arg H h w c R K w' c' (map (pair t) vs) e -> X (c', w') e) ->
  wp (c_insert_lpos_range i t p xs) (c, w) Q X.
Proof.
  intros h vs W O Ea Hh Lp HQ HX. destruct (lpoints_node _ _ _ _ Lp (wm_ids _ _ (wc_map _ _ W))) as (n & Hin & Hat & Ei & Et & Hp & Hk).
  cbn [li_map li_pos] in *.
  assert (Hok : hint_ok h c).
  { simpl. rewrite <- Et. rewrite (elems_node _ _ _ (wc_map _ _ W) Hin). exact Hk. }
  assert (Ep : p = vptr (be_store (nb n)) k) by (destruct Hp as [Hp|Hp]; congruence).
  unfold c_insert_lpos_range. rewrite <- Ei. apply wp_bind.
  eapply (wp_c_insert_lpos_loop H t k a xs [] p n w c c w R K); auto.
  - apply upto_refl; auto.
  - simpl. lia.
  - simpl. rewrite Nat.add_0_r. auto.
  - intros w' c' n' U Hin' Ei' Et' Hk'. simpl in Hk' |- *. rewrite Nat.add_0_r in *. apply wp_ret. apply HQ; auto.
    exists n'. csplit; auto.
    + right. cbn [li_pos vptr fst snd]. unfold vptr. do 2 f_equal. lia.
    + unfold bsize, vsize in *. unfold elems_of. lia.
Qed.

End PRange2.
