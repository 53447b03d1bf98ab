(** * More consequences of the specifications, for Properties3.v *)

From Coq Require Import List Arith Lia Bool Permutation.
From Verif Require Import Base Vec Backend Segment Coll Spec Reach ProofBase ProofVec ProofBackend ProofSeg ProofMap ProofView ProofColl
  ProofRange ProofReach ProofObs ProofProp ProofProp2 ProofProp3 ProofProp4.
Import ListNotations.

Section PProp5.
Context {V : Type} {E : Env V}.
Notation CW := (coll V * world)%type.

(** The state after a call is reachable. *)
Lemma api_reach {A} (m : M CW A) w c g d safe new vals (Q : CW -> A -> Prop) (X : CW -> exn -> Prop) :
  reach w (c :: g) d -> api g c (void m) safe new vals -> wp m (c, w) Q X ->
  wp m (c, w) (fun s r => reach (snd s) (fst s :: g) d /\ Q s r) X.
Proof.
  intros H Ha Hw. unfold wp in *. destruct (m (c, w)) as [[c' w'] r|s e|] eqn:Em; auto.
  split; auto. cbn [fst snd]. eapply r_call; [exact H|exact Ha|]. unfold void, bind, ret. rewrite Em. reflexivity.
Qed.
(** ... also after an exception that does no harm *)
Lemma api_reach_both (m : M CW unit) w c g d safe new vals (Q : CW -> unit -> Prop) (X : CW -> exn -> Prop) :
  reach w (c :: g) d -> api g c m safe new vals -> wp m (c, w) Q X -> (forall e, safe e) ->
  wp m (c, w) (fun s r => reach (snd s) (fst s :: g) d /\ Q s r) (fun s e => reach (snd s) (fst s :: g) d /\ X s e).
Proof.
  intros H Ha Hw Hs. unfold wp in *. destruct (m (c, w)) as [[c' w'] []|[c' w'] e|] eqn:Em; auto; split; auto; cbn [fst snd].
  - eapply r_call; eauto.
  - eapply r_call_exn; eauto.
Qed.

Lemma nth_skipn {A} : forall n (l : list A) k, nth_error (skipn n l) k = nth_error l (n + k).
Proof. induction n; intros [|x l] k; simpl; auto. destruct k; auto. Qed.

Lemma located_le w c g d it i : reach w (c :: g) d -> located c it i -> i <= length (flat c).
Proof.
  intros H [(_ & ->)|(t & k & P & ->)]; auto. destruct (points_deref w c g d _ _ _ H P) as (Hk & _).
  destruct (nth_flat w c g d t k H Hk). lia.
Qed.

Lemma no_elems_flat_l (l : list (tyid * list V)) : NoDup (map fst l) ->
  (forall t, match assoc t l with Some xs => xs = [] | None => True end) ->
  flat_map (fun e => map (pair (fst e)) (snd e)) l = [].
Proof.
  induction l as [|[t xs] l IH]; intros N F; simpl; auto. inversion N as [|? ? N1 N2]; subst.
  pose proof (F t) as Ft. simpl in Ft. rewrite Nat.eqb_refl in Ft. subst xs. simpl. apply IH; auto.
  intros u. specialize (F u). simpl in F. destruct (Nat.eqb_spec t u) as [Eu|]; auto. subst u.
  destruct (assoc t l) eqn:Q; auto. exfalso. apply N1. clear - Q. induction l as [|[t' ys] l IH]; simpl in *; [discriminate|].
  destruct (Nat.eqb_spec t' t); auto.
Qed.
Lemma no_elems_flat (c : coll V) : NoDup (types c) -> (forall t, elems c t = []) -> flat c = [].
Proof.
  intros N F. apply no_elems_flat_l; auto. intros t. specialize (F t). unfold elems, seg_of in F. destruct (assoc t (content c)); auto.
Qed.

(** ** Erasure *)
Lemma remove_none {A} i j (l : list A) : length l <= i \/ i = j -> i <= j -> remove_range i j l = l.
Proof.
  unfold remove_range. intros [H|<-] L; [|apply firstn_skipn].
  rewrite firstn_all2, skipn_all2 by lia. apply app_nil_r.
Qed.

Lemma offset_other (l : list (tyid * list V)) t t' xs k : assoc t l = Some xs -> t' <> t -> k <= length xs ->
  assoc t' l <> None ->
  match assoc t' l with
  | Some ys => offset l t + k <= offset l t' \/ offset l t' + length ys <= offset l t
  | None => True
  end.
Proof.
  induction l as [|[u zs] l IH]; simpl; intros Hx N Hk Ht; [discriminate|].
  destruct (Nat.eqb_spec u t) as [N1|N1], (Nat.eqb_spec u t') as [N2|N2]; try congruence.
  - inversion Hx; subst. destruct (assoc t' l); auto. left. lia.
  - right. lia.
  - specialize (IH Hx N Hk Ht). destruct (assoc t' l); auto. lia.
Qed.

Lemma cut_some w c g d c' t f l : let i := offset (content c) t in
  reach w (c :: g) d -> l <= length (elems c t) -> f <= l -> cut c c' (i + f) (i + l) ->
  elems c' t = firstn f (elems c t) ++ skipn l (elems c t) /\ (forall t', t' <> t -> elems c' t' = elems c t').
Proof.
  intros i H Hl Hf Cu. split.
  - rewrite (cut_elems _ _ _ _ Cu). fold i. replace (i + f - i) with f by lia. replace (i + l - i) with l by lia. reflexivity.
  - intros t' N. rewrite (cut_elems _ _ _ _ Cu). destruct (Nat.eq_dec f l) as [<-|Ne].
    { apply remove_none; auto. }
    pose proof (offset_other (content c) t t') as Q. fold (seg_of c t) (seg_of c t') in Q.
    unfold elems at 1 2. destruct (seg_of c t') as [ys|] eqn:E'; [|apply remove_none; [left; simpl; lia|lia]].
    unfold elems in Hl. destruct (seg_of c t) as [xs|] eqn:Es; [|simpl in Hl; lia].
    destruct (Q xs l eq_refl N Hl ltac:(discriminate)) as [Q'|Q']; fold i in Q'.
    + apply remove_none; lia.
    + apply remove_none; [left|]; lia.
Qed.
Lemma cut_one w c g d c' t k : let i := offset (content c) t + k in
  reach w (c :: g) d -> k < length (elems c t) -> cut c c' i (S i) ->
  elems c' t = firstn k (elems c t) ++ skipn (S k) (elems c t) /\ (forall t', t' <> t -> elems c' t' = elems c t').
Proof.
  intros i H Hk Cu. apply (cut_some w c g d c' t k (S k)); auto. unfold i in Cu.
  replace (offset (content c) t + S k) with (S (offset (content c) t + k)) by lia. exact Cu.
Qed.

Lemma offset_cut : forall (l l' : list (tyid * list V)) i j t, map fst l' = map fst l -> NoDup (map fst l) -> i <= j ->
  (forall u, match assoc u l with
             | Some xs => assoc u l' = Some (remove_range (i - offset l u) (j - offset l u) xs)
             | None => True end) ->
  offset l t <= i -> In t (map fst l) -> offset l' t = offset l t.
Proof.
  induction l as [|[u xs] l IH]; intros [|[u' xs'] l'] i j t T N Hij Hu Ho Hin; simpl in T; try discriminate; auto.
  inversion T; subst. clear T. inversion N as [|? ? N1 N2]; subst. simpl in *.
  destruct (Nat.eqb_spec u t) as [|Ne]; auto. destruct Hin as [|Hin]; [congruence|].
  pose proof (Hu u) as Hx. rewrite !Nat.eqb_refl in Hx. inversion Hx; subst. rewrite !Nat.sub_0_r, remove_none by lia.
  f_equal. apply (IH l' (i - length xs) (j - length xs)); auto; [lia| |lia].
  intros v. specialize (Hu v). destruct (Nat.eqb_spec u v) as [->|Nv].
  - destruct (assoc v l) eqn:Q; auto. exfalso. apply N1. clear - Q. induction l as [|[t' ys] l IH]; simpl in *; [discriminate|].
    destruct (Nat.eqb_spec t' v); auto.
  - destruct (assoc v l); auto. rewrite !Nat.sub_add_distr in Hu. exact Hu.
Qed.

Lemma assoc_types (c : coll V) t : In t (types c) <-> seg_of c t <> None.
Proof.
  unfold types, seg_of. induction (content c) as [|[u xs] l IH]; simpl; [tauto|].
  destruct (Nat.eqb_spec u t); [split; [discriminate|auto]|]. rewrite IH. split; auto. intros [|]; auto; congruence.
Qed.

Lemma cut_same_addr (c c' : coll V) i j t k : cut c c' i j -> elems c' t = elems c t -> addr_of c' t k = addr_of c t k.
Proof.
  intros Cu Q.
    destruct (Nat.lt_ge_cases k (length (elems c' t))) as [Lt|Ge]; [apply Cu; auto|].
    unfold addr_of. rewrite !elems_seg_at in *.
    assert (forall (o : option (segment V)), length (match o with Some s => elems_of s | None => [] end) <= k ->
       match o with Some s => if k <? length (elems_of s) then Some (vptr (be_store (sg_be s)) k) else None | None => None end = None) as Z.
    { intros [s|] L; auto. destruct (Nat.ltb_spec k (length (elems_of s))); auto. lia. }
    rewrite !Z; auto. rewrite <- Q. auto.
Qed.

Lemma cut_before w c g d c' i j : reach w (c :: g) d -> i <= j -> i <= length (flat c) -> cut c c' i j ->
  (forall it k, k < i -> located c it k -> located c' it k) /\
  (forall t k, offset (content c) t + k < i -> k < length (elems c t) ->
     addr_of c' t k = addr_of c t k /\ kept_at c c' t k) /\
  (forall t k, elems c' t = elems c t -> addr_of c' t k = addr_of c t k /\ kept_at c c' t k) /\
  (forall t, cap_of c' t = cap_of c t) /\
  c_end c' = c_end c.
Proof.
  intros H Hij Hi Cu.
  assert (Sh : forall t k, offset (content c) t + k < i -> k < length (elems c t) -> k < length (elems c' t)).
  { intros t k Ho Hk. rewrite (cut_elems _ _ _ _ Cu). unfold remove_range. rewrite app_length, firstn_length, skipn_length. lia. }
  csplit.
  - intros it k Hk [(_ & ->)|(t & k' & P & ->)]; [lia|].
    destruct (points_deref w c g d _ _ _ H P) as (Hk' & _).
    right. exists t, k'. split; [apply (proj1 (cut_iters _ _ _ _ Cu t k' (or_introl (Sh _ _ Hk Hk')))); auto|].
    f_equal. symmetry. apply (offset_cut (content c) (content c') i j t).
    + exact (cut_types _ _ _ _ Cu).
    + exact (types_nodup w c g d H).
    + exact Hij.
    + intros u. pose proof (cut_elems _ _ _ _ Cu u) as Q. unfold elems in Q.
      fold (seg_of c u) (seg_of c' u). destruct (seg_of c u) as [xs|] eqn:Es; auto.
      destruct (seg_of c' u) eqn:Es'; [congruence|]. exfalso.
      assert (N : In u (types c)) by (apply assoc_types; rewrite Es; discriminate). rewrite <- (cut_types _ _ _ _ Cu) in N.
      apply assoc_types in N. contradiction.
    + lia.
    + change (In t (types c)). apply assoc_types. unfold elems in Hk'. destruct (seg_of c t); [discriminate|simpl in Hk'; lia].
  - intros t k Ho Hk. split; [apply Cu|apply (cut_iters _ _ _ _ Cu)]; auto.
  - intros t k Q. split; [|apply (cut_iters _ _ _ _ Cu); rewrite Q; auto].
    apply (cut_same_addr c c' i j); auto.
  - apply Cu.
  - reflexivity.
Qed.

(** ** Other segments *)
Lemma unchanged_others (c c' : coll V) t : unchanged c c' -> others_kept c c' t /\
  (In t (types c) \/ env_rehash_stable = true -> other_iters_kept c c' t).
Proof.
  intros U. split; [intros t' _; apply U|]. intros _ t' k _. split; [intros it P; apply U; auto|intros l P; apply U; auto].
Qed.

Lemma broke_off_others xs hs h (c c' : coll V) w w' l e t : broke_off xs hs h c c' w w' l e -> ~ In t (map fst l) ->
  seg_at c' t = seg_at c t /\
  (incl (map fst l) (types c) \/ env_rehash_stable = true -> forall k, kept_at c c' t k).
Proof.
  intros (_ & pre & u & v & post & c1 & -> & G & D) N. rewrite map_app, in_app_iff in N. cbn [map fst] in N.
  assert (Nu : t <> u) by (intros ->; apply N; right; left; auto). assert (Np : ~ In t (map fst pre)) by tauto.
  assert (I : incl (map fst (pre ++ (u, v) :: post)) (types c) \/ env_rehash_stable = true ->
              (incl (map fst pre) (types c) \/ env_rehash_stable = true) /\ (In u (types c1) \/ env_rehash_stable = true)).
  { rewrite map_app. intros [S|S]; [|auto]. split; left.
    - intros z Hz. apply S, in_or_app. auto.
    - apply (g_types _ _ _ _ G). left. apply S, in_or_app. right. left. auto. }
  assert (X : others_kept c1 c' u /\ (In u (types c1) \/ env_rehash_stable = true -> other_iters_kept c1 c' u)).
  { destruct D as [(hw & _ & Hm & _)|(x & _ & _ & _ & _ & U)]; [split; apply Hm|apply unchanged_others; auto]. }
  destruct X as (X1 & X2). split.
  - rewrite (X1 t Nu). apply G. auto.
  - intros S k. destruct (I S) as (S1 & S2). eapply ProofColl.kept_trans; [eapply g_oiters; eauto|]. apply X2; auto.
Qed.

(** Every insertion leaves the types alone of which it inserts no element. *)
Definition left_alone (c : coll V) (vals : list (tyid * V)) (t : tyid) (c' : coll V) : Prop :=
  seg_at c' t = seg_at c t /\ (incl (map fst vals) (types c) \/ env_rehash_stable = true -> forall k, kept_at c c' t k).
Lemma alone_grew h (c c' : coll V) l t : grew h c c' l -> ~ In t (map fst l) -> left_alone c l t c'.
Proof. intros G N. split; [apply G; auto|]. intros S k. eapply g_oiters; eauto. Qed.
Lemma alone_others (c c' : coll V) l t u : others_kept c c' u /\ (In u (types c) \/ env_rehash_stable = true -> other_iters_kept c c' u) ->
  In u (map fst l) -> ~ In t (map fst l) -> left_alone c l t c'.
Proof.
  intros (A & B) Hu N. assert (Ne : t <> u) by (intros ->; contradiction). split; [apply A; auto|].
  intros S k. apply B; auto. destruct S as [S|S]; auto.
Qed.
Lemma alone_harmed (c c' : coll V) l t u n : harmed c c' u n -> In u (map fst l) -> ~ In t (map fst l) -> left_alone c l t c'.
Proof. intros Hm. apply alone_others. split; apply Hm. Qed.
Lemma alone_unchanged (c c' : coll V) l t u : unchanged c c' -> In u (map fst l) -> ~ In t (map fst l) -> left_alone c l t c'.
Proof. intros U. apply alone_others. apply unchanged_others. auto. Qed.
Lemma in_terminal (a : tyid) (xs : list V) : xs <> [] -> In a (map fst (map (pair a) xs)).
Proof. destruct xs; [congruence|]. intros _. left. auto. Qed.

Theorem api_others w c g d m safe new vals t : reach w (c :: g) d -> api g c m safe new vals -> vals <> [] -> ~ In t (map fst vals) ->
  wp m (c, w) (fun '(c', w') _ => left_alone c vals t c') (fun '(c', w') _ => left_alone c vals t c').
Proof.
  intros H A Nv N. destruct A; try (exfalso; apply Nv; reflexivity).
  - eapply wp_void_mono; [eapply spec_emplace; eauto| |]; intros [c' w'] r (R & _); [eapply alone_grew; [apply R|auto]|eapply alone_harmed; [exact R|left; auto|auto]].
  - eapply wp_void_mono; [eapply spec_emplace_hint; eauto| |]; intros [c' w'] r (R & _); [eapply alone_grew; [apply R|auto]|eapply alone_harmed; [exact R|left; auto|auto]].
  - eapply wp_void_mono; [eapply spec_emplace_pos; eauto| |]; intros [c' w'] r (R & _); [eapply alone_grew; [apply R|auto]|eapply alone_harmed; [exact R|left; auto|auto]].
  - eapply wp_void_mono; [eapply spec_insert; eauto| |]; intros [c' w'] r.
    + intros (_ & R & _). eapply alone_grew; [apply R|auto].
    + intros [(_ & _ & U)|(_ & R & _)]; [eapply alone_unchanged; [exact U|left; auto|auto]|eapply alone_harmed; [exact R|left; auto|auto]].
  - eapply wp_void_mono; [eapply spec_insert_hint; eauto| |]; intros [c' w'] r.
    + intros (_ & R & _). eapply alone_grew; [apply R|auto].
    + intros [(_ & _ & U)|(_ & R & _)]; [eapply alone_unchanged; [exact U|left; auto|auto]|eapply alone_harmed; [exact R|left; auto|auto]].
  - eapply wp_void_mono; [eapply spec_insert_pos; eauto| |]; intros [c' w'] r (R & _); [eapply alone_grew; [apply R|auto]|eapply alone_harmed; [exact R|left; auto|auto]].
  - eapply wp_mono; [eapply spec_insert_range; eauto| |]; intros [c' w'] r; [intros (R & _); eapply alone_grew; eauto|intros B; eapply broke_off_others; eauto].
  - eapply wp_mono; [eapply spec_insert_range_terminal; eauto| |]; intros [c' w'] r;
      [intros (R & _); eapply alone_grew; eauto|intros (Nx & R & _); eapply alone_harmed; [exact R|apply in_terminal; auto|auto]].
  - eapply wp_mono; [eapply spec_insert_hint_range; eauto| |]; intros [c' w'] r; [intros (R & _); eapply alone_grew; eauto|intros B; eapply broke_off_others; eauto].
  - eapply wp_mono; [eapply spec_insert_hint_range_terminal; eauto| |]; intros [c' w'] r;
      [intros (R & _); eapply alone_grew; eauto|intros (Nx & R & _); eapply alone_harmed; [exact R|apply in_terminal; auto|auto]].
  - eapply wp_mono; [eapply spec_insert_from; eauto| |]; intros [c' w'] r; [intros (R & _); eapply alone_grew; eauto|intros B; eapply broke_off_others; eauto].
  - eapply wp_mono; [eapply spec_insert_hint_from; eauto| |]; intros [c' w'] r; [intros (R & _); eapply alone_grew; eauto|intros B; eapply broke_off_others; eauto].
  - eapply wp_mono; [eapply spec_insert_local; eauto| |]; intros [c' w'] r; [intros (R & _); eapply alone_grew; eauto|intros B; eapply broke_off_others; eauto].
  - eapply wp_mono; [eapply spec_insert_hint_local; eauto| |]; intros [c' w'] r; [intros (R & _); eapply alone_grew; eauto|intros B; eapply broke_off_others; eauto].
  - eapply wp_void_mono; [eapply spec_insert_pos_range; eauto| |]; intros [c' w'] r; [intros (R & _); eapply alone_grew; eauto|intros B; eapply broke_off_others; eauto].
  - eapply wp_void_mono; [eapply spec_insert_lpos_range; eauto| |]; intros [c' w'] r; [intros (R & _); eapply alone_grew; eauto|intros B; eapply broke_off_others; eauto].
Qed.

(** ** Capacities *)
Lemma size_le_cap w c g d t : reach w (c :: g) d -> length (elems c t) <= cap_of c t.
Proof.
  intros H. destruct (reach_wf w c g d H) as (W & _). rewrite elems_seg_at. unfold cap_of.
  destruct (seg_at c t) as [s|] eqn:Q; [|simpl; lia]. destruct (seg_at_in _ _ _ Q) as (n & Hin & _ & Es).
  pose proof (wc_segs _ _ W) as F. unfold segs_ok in F. rewrite Forall_forall in F. specialize (F n Hin).
  subst s. apply (wfb_store _ _ (wfb_0 _ _ (wfs_be _ F))).
Qed.

Definition cap_up (c c' : coll V) : Prop :=
  (forall t, length (elems c' t) <= cap_of c' t) -> forall t, cap_of c t <= cap_of c' t.
Lemma cap_up_segs c c' : (forall t, In t (types c) -> seg_at c' t = seg_at c t) -> cap_up c c'.
Proof.
  intros S _ t. destruct (In_dec Nat.eq_dec t (types c)) as [Ht|Nt].
  - unfold cap_of. rewrite S; auto.
  - rewrite types_seg_at in Nt. unfold cap_of at 1. destruct (seg_at c t); [exfalso; apply Nt; discriminate|lia].
Qed.
Lemma cap_up_grew h c c' l : grew h c c' l -> cap_up c c'.
Proof.
  intros G L t. destruct (In_dec Nat.eq_dec t (types c)) as [Ht|Nt].
  - destruct (Nat.le_gt_cases (length (elems c' t)) (cap_of c t)) as [Le|Gt]; [rewrite (g_cap _ _ _ _ G); auto|].
    specialize (L t). lia.
  - rewrite types_seg_at in Nt. unfold cap_of at 1. destruct (seg_at c t); [exfalso; apply Nt; discriminate|lia].
Qed.
Lemma cap_up_same (c c' : coll V) : (forall t, cap_of c' t = cap_of c t) -> cap_up c c'.
Proof. intros H _ t. rewrite H. auto. Qed.
Lemma cap_up_reserved c c' n P : (forall t, {P t} + {~ P t}) -> reserved c c' n P -> cap_up c c'.
Proof.
  intros D R _ t. destruct (In_dec Nat.eq_dec t (types c)) as [Ht|Nt].
  - destruct (D t) as [p|p]; [rewrite (rs_cap _ _ _ _ R); auto; lia|].
    destruct (rs_stable _ _ _ _ R t) as (Q & _); [tauto|lia].
  - rewrite types_seg_at in Nt. unfold cap_of at 1. destruct (seg_at c t); [exfalso; apply Nt; discriminate|lia].
Qed.

Theorem api_cap w c g d m safe new vals : reach w (c :: g) d -> api g c m safe new vals ->
  m = c_shrink_all \/ (exists a, m = c_shrink_info a) \/
  wp m (c, w) (fun '(c', w') _ => forall t, cap_of c t <= cap_of c' t) (fun _ _ => True).
Proof.
  intros H A.
  assert (N : forall c' w', m (c, w) = Ok (c', w') tt -> forall t, length (elems c' t) <= cap_of c' t).
  { intros c' w' Q t. eapply size_le_cap. eapply r_call; eauto. }
  cut (m = c_shrink_all \/ (exists a, m = c_shrink_info a) \/
       wp m (c, w) (fun '(c', w') _ => cap_up c c') (fun _ _ => True)).
  { intros [X|[X|X]]; auto. right; right. unfold wp in *. destruct (m (c, w)) as [[c' w'] []|s e|]; auto.
    apply X. eapply N. reflexivity. }
  clear N.
  destruct A; try (left; reflexivity); try (right; left; eauto; fail); right; right.
  - eapply wp_mono; [eapply spec_register; eauto| |]; auto.
    intros [c' w'] _ R. apply cap_up_segs. apply R.
  - eapply wp_mono; [eapply spec_reserve; eauto| |]; auto.
    intros [c' w'] _ (R & _). eapply cap_up_reserved; [|apply R]. intros; left; exact I.
  - eapply wp_mono; [eapply spec_reserve_info; eauto| |]; auto.
    intros [c' w'] _ (_ & R & _). eapply cap_up_reserved; [|apply R]. intros; apply Nat.eq_dec.
  - eapply wp_mono; [eapply spec_reserve_type; eauto| |]; auto.
    intros [c' w'] _ (_ & Ok & _ & _ & _ & R & _). destruct (In_dec Nat.eq_dec (env_ty a) (types c)) as [Ht|Nt].
    + eapply cap_up_reserved; [|apply R; auto]. intros; apply Nat.eq_dec.
    + apply cap_up_segs. intros t Ht. apply Ok. intros ->. contradiction.
  - eapply wp_mono; [eapply spec_clear; eauto| |]; auto. intros [c' w'] _ R. apply cap_up_same, R.
  - eapply wp_mono; [eapply spec_clear_info; eauto| |]; auto. intros [c' w'] _ (_ & R). apply cap_up_same, R.
  - eapply wp_void_mono; [eapply spec_emplace; eauto| |]; auto. intros [c' w'] r (R & _). eapply cap_up_grew; apply R.
  - eapply wp_void_mono; [eapply spec_emplace_hint; eauto| |]; auto. intros [c' w'] r (R & _). eapply cap_up_grew; apply R.
  - eapply wp_void_mono; [eapply spec_emplace_pos; eauto| |]; auto. intros [c' w'] r (R & _). eapply cap_up_grew; apply R.
  - eapply wp_void_mono; [eapply spec_insert; eauto| |]; auto. intros [c' w'] r (_ & R & _). eapply cap_up_grew; apply R.
  - eapply wp_void_mono; [eapply spec_insert_hint; eauto| |]; auto. intros [c' w'] r (_ & R & _). eapply cap_up_grew; apply R.
  - eapply wp_void_mono; [eapply spec_insert_pos; eauto| |]; auto. intros [c' w'] r (R & _). eapply cap_up_grew; apply R.
  - eapply wp_mono; [eapply spec_insert_range; eauto| |]; auto. intros [c' w'] r (R & _). eapply cap_up_grew; apply R.
  - eapply wp_mono; [eapply spec_insert_range_terminal; eauto| |]; auto. intros [c' w'] r (R & _). eapply cap_up_grew; apply R.
  - eapply wp_mono; [eapply spec_insert_hint_range; eauto| |]; auto. intros [c' w'] r (R & _). eapply cap_up_grew; apply R.
  - eapply wp_mono; [eapply spec_insert_hint_range_terminal; eauto| |]; auto. intros [c' w'] r (R & _). eapply cap_up_grew; apply R.
  - eapply wp_mono; [eapply spec_insert_from; eauto| |]; auto. intros [c' w'] r (R & _). eapply cap_up_grew; apply R.
  - eapply wp_mono; [eapply spec_insert_hint_from; eauto| |]; auto. intros [c' w'] r (R & _). eapply cap_up_grew; apply R.
  - eapply wp_mono; [eapply spec_insert_local; eauto| |]; auto. intros [c' w'] r (R & _). eapply cap_up_grew; apply R.
  - eapply wp_mono; [eapply spec_insert_hint_local; eauto| |]; auto. intros [c' w'] r (R & _). eapply cap_up_grew; apply R.
  - eapply wp_void_mono; [eapply spec_insert_pos_range; eauto| |]; auto. intros [c' w'] r (R & _). eapply cap_up_grew; apply R.
  - eapply wp_void_mono; [eapply spec_insert_lpos_range; eauto| |]; auto. intros [c' w'] r (R & _). eapply cap_up_grew; apply R.
  - eapply wp_void_mono; [eapply spec_erase; eauto| |]; auto. intros [c' w'] r (R & _). apply cap_up_same, R.
  - eapply wp_void_mono; [eapply spec_erase_local; eauto| |]; auto. intros [c' w'] r (R & _). apply cap_up_same, R.
  - eapply wp_void_mono; [eapply spec_erase_range; eauto| |]; auto. intros [c' w'] r (R & _). apply cap_up_same, R.
  - eapply wp_void_mono; [eapply spec_erase_local_range; eauto| |]; auto. intros [c' w'] r (R & _). apply cap_up_same, R.
Qed.

(** Storage does not move as long as the capacity suffices. *)
Definition fits (c c' : coll V) : Prop := forall t, In t (types c) -> length (elems c' t) <= cap_of c t ->
  cap_of c' t = cap_of c t /\ data_of c' t = data_of c t.
Lemma fits_segs c c' : (forall t, In t (types c) -> seg_at c' t = seg_at c t) -> fits c c'.
Proof. intros S t Ht _. unfold cap_of, data_of. rewrite S; auto. Qed.
Lemma fits_grew h c c' l : grew h c c' l -> fits c c'.
Proof. intros G t Ht L. split; [apply (g_cap _ _ _ _ G)|apply (g_data _ _ _ _ G)]; auto. Qed.
Lemma fits_cut c c' i j : cut c c' i j -> fits c c'.
Proof. intros G t Ht L. split; apply G. Qed.
Lemma fits_wiped c c' P : wiped c c' P -> fits c c'.
Proof. intros G t Ht L. split; apply G. Qed.

Theorem api_fits w c g d m safe new vals : reach w (c :: g) d -> api g c m safe new vals ->
  m = c_shrink_all \/ (exists a, m = c_shrink_info a) \/
  (exists n, m = c_reserve_all n \/ exists a, m = c_reserve_info a n \/ m = c_reserve_type a n) \/
  wp m (c, w) (fun '(c', w') _ => forall t, In t (types c) -> length (elems c' t) <= cap_of c t ->
     cap_of c' t = cap_of c t /\ data_of c' t = data_of c t) (fun _ _ => True).
Proof.
  intros H A.
  destruct A; try (left; reflexivity); try (right; left; eauto; fail); try (right; right; left; eauto; fail); right; right; right.
  - eapply wp_mono; [eapply spec_register; eauto| |]; auto.
    intros [c' w'] _ R. apply fits_segs. apply R.
  - eapply wp_mono; [eapply spec_clear; eauto| |]; auto. intros [c' w'] _ R. eapply fits_wiped, R.
  - eapply wp_mono; [eapply spec_clear_info; eauto| |]; auto. intros [c' w'] _ (_ & R). eapply fits_wiped, R.
  - eapply wp_void_mono; [eapply spec_emplace; eauto| |]; auto. intros [c' w'] r (R & _). eapply fits_grew; apply R.
  - eapply wp_void_mono; [eapply spec_emplace_hint; eauto| |]; auto. intros [c' w'] r (R & _). eapply fits_grew; apply R.
  - eapply wp_void_mono; [eapply spec_emplace_pos; eauto| |]; auto. intros [c' w'] r (R & _). eapply fits_grew; apply R.
  - eapply wp_void_mono; [eapply spec_insert; eauto| |]; auto. intros [c' w'] r (_ & R & _). eapply fits_grew; apply R.
  - eapply wp_void_mono; [eapply spec_insert_hint; eauto| |]; auto. intros [c' w'] r (_ & R & _). eapply fits_grew; apply R.
  - eapply wp_void_mono; [eapply spec_insert_pos; eauto| |]; auto. intros [c' w'] r (R & _). eapply fits_grew; apply R.
  - eapply wp_mono; [eapply spec_insert_range; eauto| |]; auto. intros [c' w'] r (R & _). eapply fits_grew; apply R.
  - eapply wp_mono; [eapply spec_insert_range_terminal; eauto| |]; auto. intros [c' w'] r (R & _). eapply fits_grew; apply R.
  - eapply wp_mono; [eapply spec_insert_hint_range; eauto| |]; auto. intros [c' w'] r (R & _). eapply fits_grew; apply R.
  - eapply wp_mono; [eapply spec_insert_hint_range_terminal; eauto| |]; auto. intros [c' w'] r (R & _). eapply fits_grew; apply R.
  - eapply wp_mono; [eapply spec_insert_from; eauto| |]; auto. intros [c' w'] r (R & _). eapply fits_grew; apply R.
  - eapply wp_mono; [eapply spec_insert_hint_from; eauto| |]; auto. intros [c' w'] r (R & _). eapply fits_grew; apply R.
  - eapply wp_mono; [eapply spec_insert_local; eauto| |]; auto. intros [c' w'] r (R & _). eapply fits_grew; apply R.
  - eapply wp_mono; [eapply spec_insert_hint_local; eauto| |]; auto. intros [c' w'] r (R & _). eapply fits_grew; apply R.
  - eapply wp_void_mono; [eapply spec_insert_pos_range; eauto| |]; auto. intros [c' w'] r (R & _). eapply fits_grew; apply R.
  - eapply wp_void_mono; [eapply spec_insert_lpos_range; eauto| |]; auto. intros [c' w'] r (R & _). eapply fits_grew; apply R.
  - eapply wp_void_mono; [eapply spec_erase; eauto| |]; auto. intros [c' w'] r (R & _). eapply fits_cut, R.
  - eapply wp_void_mono; [eapply spec_erase_local; eauto| |]; auto. intros [c' w'] r (R & _). eapply fits_cut, R.
  - eapply wp_void_mono; [eapply spec_erase_range; eauto| |]; auto. intros [c' w'] r (R & _). eapply fits_cut, R.
  - eapply wp_void_mono; [eapply spec_erase_local_range; eauto| |]; auto. intros [c' w'] r (R & _). eapply fits_cut, R.
Qed.

Definition unmoved (c c' : coll V) : Prop := forall t, In t (types c) -> cap_of c' t = cap_of c t -> data_of c' t = data_of c t.
Lemma unmoved_reserved c c' n P : (forall t, {P t} + {~ P t}) -> reserved c c' n P -> unmoved c c'.
Proof.
  intros D R t Ht Q. apply (rs_data _ _ _ _ R). intros p. rewrite (rs_cap _ _ _ _ R) in Q; auto. lia.
Qed.
Theorem api_unmoved w c g d m safe new vals : reach w (c :: g) d -> api g c m safe new vals ->
  m = c_shrink_all \/ (exists a, m = c_shrink_info a) \/
  wp m (c, w) (fun '(c', w') _ => forall t, In t (types c) -> cap_of c' t = cap_of c t -> data_of c' t = data_of c t) (fun _ _ => True).
Proof.
  intros H A.
  assert (N : forall c' w', m (c, w) = Ok (c', w') tt -> forall t, length (elems c' t) <= cap_of c' t).
  { intros c' w' Q t. eapply size_le_cap. eapply r_call; eauto. }
  destruct (api_fits w c g d m safe new vals H A) as [Q|[Q|[(n & Q)|Q]]]; auto.
  - right; right. clear N. destruct Q as [->|(a & [->| ->])].
    + eapply wp_mono; [eapply spec_reserve; eauto| |]; auto.
      intros [c' w'] _ (R & _). eapply unmoved_reserved; [|apply R]. intros; left; exact I.
    + eapply wp_mono; [eapply spec_reserve_info; eauto| |]; auto.
      intros [c' w'] _ (_ & R & _). eapply unmoved_reserved; [|apply R]. intros; apply Nat.eq_dec.
    + eapply wp_mono; [eapply spec_reserve_type; eauto| |]; auto.
      intros [c' w'] _ (_ & Ok & _ & _ & _ & R & _). destruct (In_dec Nat.eq_dec (env_ty a) (types c)) as [Ht|Nt].
      * eapply unmoved_reserved; [|apply R; auto]. intros; apply Nat.eq_dec.
      * intros t Ht _. unfold data_of. rewrite Ok; auto. intros ->. contradiction.
  - right; right. unfold wp in *. destruct (m (c, w)) as [[c' w'] []|s e|]; auto.
    intros t Ht Hc. apply Q; auto. rewrite <- Hc. eapply N. reflexivity.
Qed.

End PProp5.
