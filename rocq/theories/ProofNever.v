(** * Calls which cannot return normally: copies of elements of a type that has no copy constructor *)

From Coq Require Import List Arith Lia Bool.
From Verif Require Import Base Vec Backend Segment Coll Spec ProofBase ProofVec ProofBackend ProofOps ProofOps2 ProofSeg ProofMap ProofView ProofColl ProofIns ProofEach ProofRange.
Import ListNotations.

Definition never {S A} (m : M S A) : Prop := forall s s' a, m s <> Ok s' a.

Lemma never_ub {S A} : never (@ub S A).
Proof. intros s s' a Q. discriminate. Qed.
Lemma never_throw {S A} e : never (@throw S A e).
Proof. intros s s' a Q. discriminate. Qed.
Lemma never_l {S A B} (m : M S A) (f : A -> M S B) : never m -> never (bind m f).
Proof. intros N s s' b Q. unfold bind in Q. destruct (m s) as [s1 a|s1 e|] eqn:Qm; try discriminate. exact (N _ _ _ Qm). Qed.
Lemma never_r {S A B} (m : M S A) (f : A -> M S B) : (forall a, never (f a)) -> never (bind m f).
Proof. intros N s s' b Q. unfold bind in Q. destruct (m s) as [s1 a|s1 e|] eqn:Qm; try discriminate. exact (N _ _ _ _ Q). Qed.
Lemma never_if {S A} (b : bool) (m1 m2 : M S A) : never m1 -> never m2 -> never (if b then m1 else m2).
Proof. destruct b; auto. Qed.
Lemma never_try {S A} (m : M S A) h : never m -> never (try_rethrow m h).
Proof.
  intros N s s' a Q. unfold try_rethrow in Q. destruct (m s) as [s1 x|s1 e|] eqn:Qm; try discriminate.
  - exact (N _ _ _ Qm).
  - destruct (h s1); discriminate.
Qed.
Lemma never_world {X A} (m : M world A) : never m -> never (on_world (X := X) m).
Proof. intros N s s' a Q. unfold on_world in Q. destruct (m (snd s)) as [s1 x|s1 e|] eqn:Qm; try discriminate. exact (N _ _ _ Qm). Qed.
Lemma never_field {X Y A} (p : X -> Y) u (m : M (Y * world) A) : never m -> never (on_field p u m).
Proof.
  intros N s s' a Q. unfold on_field in Q. destruct (m (p (fst s), snd s)) as [[y w] x|[y w] e|] eqn:Qm; try discriminate.
  exact (N _ _ _ Qm).
Qed.

Section Never.
Context {V : Type} {E : Env V}.

Lemma never_construct t : env_copyable t = false -> never (construct (vh_eops t) HCopy).
Proof. intros C. unfold construct. apply never_l. simpl. rewrite C. apply never_throw. Qed.

Lemma never_realloc t k : env_copyable t = false -> never (realloc (vh_eops t) k (Some HCopy)).
Proof.
  intros C. unfold realloc. apply never_r. intros v. apply never_r. intros nb. apply never_l.
  apply never_world, never_try, never_l, never_construct, C.
Qed.
Lemma never_emplace_back t v : env_copyable t = false -> never (vec_emplace_back (vh_eops t) HCopy v).
Proof.
  intros C. unfold vec_emplace_back. apply never_r. intros x. apply never_if; [|apply never_if].
  - apply never_l, never_world, never_construct, C.
  - apply never_throw.
  - apply never_l, never_realloc, C.
Qed.
Lemma never_emplace t k v : env_copyable t = false -> never (vec_emplace (vh_eops t) k HCopy v).
Proof.
  intros C. unfold vec_emplace. apply never_r. intros x. repeat apply never_if.
  - apply never_ub.
  - apply never_l, never_emplace_back, C.
  - apply never_l, never_world, never_construct, C.
  - apply never_throw.
  - apply never_l, never_realloc, C.
Qed.
Lemma never_construct_n t n : env_copyable t = false -> 0 < n -> never (construct_n (vh_eops t) HCopy n).
Proof. intros C Hn. destruct n; [lia|]. apply never_l, never_construct, C. Qed.
Lemma never_vrange t k xs : env_copyable t = false -> xs <> [] -> never (vec_insert_range (vh_eops t) k HCopy xs).
Proof.
  intros C Hx. unfold vec_insert_range. apply never_r. intros v. apply never_if; [apply never_ub|].
  destruct (Nat.eqb_spec (length xs) 0) as [L|L]; [destruct xs; [congruence|discriminate]|].
  apply never_if; [apply never_throw|]. apply never_r. intros clk. apply never_l. apply never_if.
  - apply never_l, never_try, never_world, never_construct_n; auto; lia.
  - apply never_r. intros nb. apply never_l, never_try, never_world, never_l, never_construct_n; auto; lia.
Qed.

Lemma never_be_push t x : env_copyable t = false -> never (be_push_back t HCopy x).
Proof.
  intros C. unfold be_push_back, pk_push_back, sp_push_back. destruct env_layout.
  - apply never_r. intros v. apply never_l, never_field, never_emplace_back, C.
  - apply never_r. intros _. apply never_r. intros v. apply never_l, never_field, never_emplace_back, C.
Qed.
Lemma never_sp_emplace t p x : env_copyable t = false -> never (sp_emplace t HCopy p x).
Proof. intros C. unfold sp_emplace. do 3 (apply never_r; intros). apply never_l, never_field, never_emplace, C. Qed.
Lemma never_be_insert t p x : env_copyable t = false -> never (be_insert t HCopy p x).
Proof.
  intros C. unfold be_insert. destruct env_layout.
  - unfold pk_insert. do 2 (apply never_r; intros). apply never_l, never_field, never_emplace, C.
  - unfold sp_insert. apply never_r. intros. apply never_sp_emplace, C.
Qed.
Lemma never_pk_input t p xs : env_copyable t = false -> xs <> [] -> never (pk_insert_input t HCopy p xs).
Proof.
  intros C Hx. unfold pk_insert_input. apply never_r. intros k. apply never_l. destruct xs as [|x xs]; [congruence|].
  cbn [pk_insert_input_loop]. apply never_l, never_field, never_emplace, C.
Qed.
Lemma never_pk_range t p xs : env_copyable t = false -> xs <> [] -> never (pk_insert_range t HCopy p xs).
Proof. intros C Hx. unfold pk_insert_range. apply never_r. intros k. apply never_l, never_field, never_vrange; auto. Qed.
Lemma never_sp_input t p xs : env_copyable t = false -> xs <> [] -> never (sp_insert_input t HCopy p xs).
Proof.
  intros C Hx. unfold sp_insert_input. apply never_l. destruct xs as [|x xs]; [congruence|].
  cbn [sp_insert_input_loop]. do 2 (apply never_r; intros). apply never_l, never_field, never_emplace, C.
Qed.
Lemma never_sp_forward t p xs : env_copyable t = false -> xs <> [] -> never (sp_insert_forward t HCopy p xs).
Proof.
  intros C Hx. unfold sp_insert_forward. apply never_r. intros b.
  destruct (Nat.eqb_spec (length xs) 0) as [L|L]; [destruct xs; [congruence|discriminate]|].
  apply never_l. do 2 (apply never_r; intros). apply never_l, never_try, never_field, never_vrange; auto.
Qed.
Lemma never_be_range t fwd p xs : env_copyable t = false -> xs <> [] -> never (be_insert_range t HCopy fwd p xs).
Proof.
  intros C Hx. unfold be_insert_range. destruct env_layout.
  - apply never_if; [apply never_pk_range|apply never_pk_input]; auto.
  - apply never_r. intros q. apply never_if; [apply never_sp_forward|apply never_sp_input]; auto.
Qed.
Lemma never_be_append t fwd xs : env_copyable t = false -> xs <> [] -> never (be_append_range t HCopy fwd xs).
Proof.
  intros C Hx. unfold be_append_range. apply never_r. intros b. destruct env_layout.
  - apply never_if; [apply never_pk_range|apply never_pk_input]; auto.
  - apply never_if; [apply never_sp_forward|apply never_sp_input]; auto.
Qed.

Lemma never_filter_range (m : M (backend V * world) (ptr * ptr)) : never m -> never (filter_range m).
Proof. intros N. unfold filter_range. apply never_l, never_field, N. Qed.
Lemma never_push t x : env_copyable t = false -> never (seg_push_back t HCopy x).
Proof. intros C. unfold seg_push_back. apply never_r. intros _. apply never_filter_range, never_be_push, C. Qed.
Lemma never_insert t p x : env_copyable t = false -> never (seg_insert t HCopy p x).
Proof. intros C. unfold seg_insert. apply never_r. intros _. apply never_filter_range, never_be_insert, C. Qed.
Lemma never_srange t fwd p xs : env_copyable t = false -> xs <> [] -> never (seg_insert_range t HCopy fwd p xs).
Proof. intros C Hx. unfold seg_insert_range. apply never_r. intros _. apply never_filter_range, never_be_range; auto. Qed.
Lemma never_sappend t fwd xs : env_copyable t = false -> xs <> [] -> never (seg_append_range t HCopy fwd xs).
Proof. intros C Hx. unfold seg_append_range. apply never_r. intros _. apply never_filter_range, never_be_append; auto. Qed.

Lemma never_on_seg {A} i (m : M (segment V * world) A) : never m -> never (on_seg i m).
Proof.
  intros N [c w] s' a Q. unfold on_seg in Q. destruct (node_at (c_nodes c) i) as [n|]; [|discriminate].
  destruct (m (n_seg n, w)) as [[sg w'] x|[sg w'] e|] eqn:Qm; try discriminate. exact (N _ _ _ Qm).
Qed.

(** A value of a type without copy constructor, to be copied. *)
Definition uncopyable (x : arg V) : Prop := a_how x = HCopy /\ env_copyable (env_ty (a_dyn x)) = false.

Lemma never_c_insert x : uncopyable x -> never (c_insert x).
Proof. intros (Hh & C). unfold c_insert. rewrite Hh. apply never_r. intros i. apply never_l, never_on_seg, never_push, C. Qed.
Lemma never_c_insert_hint hint x : uncopyable x -> never (c_insert_hint hint x).
Proof.
  intros (Hh & C). unfold c_insert_hint. rewrite Hh. do 2 (apply never_r; intros). apply never_l.
  apply never_if; apply never_on_seg; [apply never_insert|apply never_push]; auto.
Qed.
Lemma never_c_insert_pos pos x : uncopyable x -> never (c_insert_pos pos x).
Proof. intros (Hh & C). unfold c_insert_pos. rewrite Hh. apply never_l, never_on_seg, never_insert, C. Qed.
Lemma never_c_range xs : Exists uncopyable xs -> never (c_insert_range xs).
Proof.
  induction 1 as [x xs Hx|x xs Hx IH]; cbn [c_insert_range].
  - apply never_l, never_c_insert, Hx.
  - apply never_r. intros _. exact IH.
Qed.
Lemma never_c_terminal a fwd xs : env_copyable (env_ty a) = false -> xs <> [] -> never (c_insert_range_terminal a HCopy fwd xs).
Proof.
  intros C Hx. unfold c_insert_range_terminal. destruct xs as [|x xs]; [congruence|]. apply never_r. intros i.
  apply never_l, never_on_seg, never_sappend; auto.
Qed.
Lemma never_c_hint_range xs : Exists uncopyable xs -> forall hint, never (c_insert_hint_range hint xs).
Proof.
  induction 1 as [x xs (Hh & C)|x xs Hx IH]; intros hint; cbn [c_insert_hint_range].
  - rewrite Hh. do 2 (apply never_r; intros). apply never_if; apply never_l, never_on_seg; [apply never_insert|apply never_push]; auto.
  - do 2 (apply never_r; intros). apply never_if.
    + do 3 (apply never_r; intros). match goal with |- never (match ?o with _ => _ end) => destruct o end; [apply IH|apply never_ub].
    + apply never_r. intros _. apply IH.
Qed.
Lemma never_c_hint_terminal hint a fwd xs : env_copyable (env_ty a) = false -> xs <> [] ->
  never (c_insert_hint_range_terminal hint a HCopy fwd xs).
Proof.
  intros C Hx. unfold c_insert_hint_range_terminal. destruct xs as [|x xs]; [congruence|]. do 2 (apply never_r; intros).
  apply never_l. apply never_if; apply never_on_seg; [apply never_srange|apply never_sappend]; auto.
Qed.
Lemma never_pos_loop i xs : Exists uncopyable xs -> forall p, never (c_insert_pos_loop i p xs).
Proof.
  induction 1 as [x xs (Hh & C)|x xs Hx IH]; intros p; cbn [c_insert_pos_loop].
  - rewrite Hh. apply never_l, never_on_seg, never_insert, C.
  - apply never_r. intros q. apply IH.
Qed.
Lemma never_c_pos_range pos xs : Exists uncopyable xs -> never (c_insert_pos_range pos xs).
Proof. intros Hx. unfold c_insert_pos_range. apply never_l, never_pos_loop, Hx. Qed.
Lemma never_lpos_loop i t xs : env_copyable t = false -> Exists (fun '(ot, h, _) => ot = Some t /\ h = HCopy) xs ->
  forall p, never (c_insert_lpos_loop i t p xs).
Proof.
  intros C. induction 1 as [[[ot h] v] xs (-> & ->)|[[ot h] v] xs Hx IH]; intros p; cbn [c_insert_lpos_loop].
  - rewrite Nat.eqb_refl. apply never_l, never_on_seg, never_insert, C.
  - do 2 (apply never_r; intros). apply IH.
Qed.
Lemma never_c_lpos_range i t p xs : env_copyable t = false -> Exists (fun '(ot, h, _) => ot = Some t /\ h = HCopy) xs ->
  never (c_insert_lpos_range i t p xs).
Proof. intros C Hx. unfold c_insert_lpos_range. apply never_l, never_lpos_loop; auto. Qed.
Lemma never_push_all i t xs : env_copyable t = false -> xs <> [] -> never (push_all i t xs).
Proof. intros C Hx. destruct xs as [|v xs]; [congruence|]. cbn [push_all]. apply never_l, never_on_seg, never_push, C. Qed.
Lemma never_c_local a pt xs : env_copyable (env_ty a) = false -> xs <> [] -> never (c_insert_local a pt xs).
Proof.
  intros C Hx. unfold c_insert_local. destruct xs as [|x xs]; [congruence|]. apply never_r. intros i. apply never_push_all; auto.
Qed.
Lemma never_c_hint_local hint a pt xs : env_copyable (env_ty a) = false -> xs <> [] -> never (c_insert_hint_local hint a pt xs).
Proof.
  intros C Hx. unfold c_insert_hint_local. destruct xs as [|x xs]; [congruence|]. do 2 (apply never_r; intros). apply never_if.
  - cbn [insert_all_hint]. apply never_l, never_on_seg, never_insert, C.
  - apply never_push_all; auto.
Qed.

(** Ranges of elements of another collection *)
Lemma never_c_from y wy Ry Ky fuel : forall g h t v, wfc wy y -> cown wy y Ry Ky -> h <= length (flat y) ->
  In (t, v) (slice g h (flat y)) -> env_copyable t = false ->
  never (c_insert_from fuel y (at_ (c_nodes y) g) (at_ (c_nodes y) h)).
Proof.
  induction fuel as [|fuel IH]; intros g h t v Wy Oy Hh Hin C;
    assert (Vo := wfc_vok _ _ _ _ Wy Oy); (assert (g < h) by (destruct (Nat.lt_ge_cases g h); auto; unfold slice in Hin;
      replace (h - g) with 0 in Hin by lia; contradiction)); rewrite flat_length in Hh; cbn [c_insert_from];
    rewrite it_eq_at by (auto; lia); (destruct (Nat.eqb_spec g h); [lia|]).
  - apply never_ub.
  - destruct (read_at _ _ _ _ g Wy Oy) as (a & v' & N & D & T & Nx); [lia|]. rewrite D, T, Nx.
    rewrite (slice_step g h _ (env_ty a, v')) in Hin by (auto; lia). apply never_r. intros i.
    destruct Hin as [Hin|Hin].
    + inversion Hin; subst. apply never_l, never_on_seg, never_push, C.
    + apply never_r. intros _. eapply IH; eauto. rewrite flat_length. auto.
Qed.
Lemma never_c_hint_from y wy Ry Ky fuel : forall hint g h t v, wfc wy y -> cown wy y Ry Ky -> h <= length (flat y) ->
  In (t, v) (slice g h (flat y)) -> env_copyable t = false ->
  never (c_insert_hint_from fuel hint y (at_ (c_nodes y) g) (at_ (c_nodes y) h)).
Proof.
  induction fuel as [|fuel IH]; intros hint g h t v Wy Oy Hh Hin C;
    assert (Vo := wfc_vok _ _ _ _ Wy Oy); (assert (g < h) by (destruct (Nat.lt_ge_cases g h); auto; unfold slice in Hin;
      replace (h - g) with 0 in Hin by lia; contradiction)); rewrite flat_length in Hh; cbn [c_insert_hint_from];
    rewrite it_eq_at by (auto; lia); (destruct (Nat.eqb_spec g h); [lia|]).
  - apply never_ub.
  - destruct (read_at _ _ _ _ g Wy Oy) as (a & v' & N & D & T & Nx); [lia|]. rewrite D, T, Nx.
    rewrite (slice_step g h _ (env_ty a, v')) in Hin by (auto; lia). do 2 (apply never_r; intros).
    assert (Hy : h <= length (flat y)) by (rewrite flat_length; auto).
    destruct Hin as [Hin|Hin].
    + inversion Hin; subst. apply never_if; apply never_l, never_on_seg; [apply never_insert|apply never_push]; auto.
    + apply never_if.
      * do 3 (apply never_r; intros). match goal with |- never (match ?o with _ => _ end) => destruct o end; [|apply never_ub].
        eapply IH; eauto.
      * apply never_r. intros _. eapply IH; eauto.
Qed.

End Never.
