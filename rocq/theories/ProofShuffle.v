(** * Independent actions can be exchanged *)

From Coq Require Import List Arith Lia Bool.
From Verif Require Import Base Vec Backend Segment Coll Spec Reach SpecHist ProofBase ProofReach ProofHist SpecShuffle.
Import ListNotations.

Section Shuffle.
Context {V : Type}.

(** ** Single types *)

Definition ell (x : option (list V)) : list V := match x with Some l => l | None => [] end.
Definition felt (t : tyid) (x : option (list V)) (k : cmd V) : option (list V) :=
  match obey [] 0 k (fun u => if u =? t then x else None) with Some b => b t | None => x end.

Lemma firstn_skipn_end (l vs : list V) : firstn (length l) l ++ vs ++ skipn (length l) l = l ++ vs.
Proof. rewrite firstn_all, skipn_all, app_nil_r. reflexivity. Qed.

Lemma felt_put1 t x v : felt t x (Put None [(t, v)]) = Some (ell x ++ [v]).
Proof.
  unfold felt, obey, hint_fits, filled, has, bslot, els, mem, of_type. cbn. rewrite Nat.eqb_refl. cbn.
  destruct x; cbn [orb ell]; rewrite ?firstn_all, ?skipn_all; reflexivity.
Qed.
Lemma felt_puts t vs : forall x, fold_left (felt t) (map (fun v => Put None [(t, v)]) vs) x = match vs with [] => x | _ => Some (ell x ++ vs) end.
Proof.
  induction vs as [|v vs IH]; intros x; [reflexivity|]. cbn [map fold_left]. rewrite felt_put1, IH. cbn [ell].
  destruct vs; [reflexivity|]. rewrite <- app_assoc. reflexivity.
Qed.
Lemma mem_in t ts : mem t ts = true <-> In t ts.
Proof.
  unfold mem. rewrite existsb_exists. split; [intros (x & I & Q); apply Nat.eqb_eq in Q; subst; auto|intros I; exists t; rewrite Nat.eqb_refl; auto].
Qed.
Lemma of_type_mem t (l : list (tyid * V)) : mem t (map fst l) = match of_type t l with [] => false | _ => true end.
Proof.
  induction l as [|[u v] l IH]; [reflexivity|]. unfold of_type in *. cbn [map filter fst mem existsb] in *. change (existsb (Nat.eqb t) (map fst l)) with (mem t (map fst l)).
  rewrite IH. rewrite (Nat.eqb_sym t u). destruct (u =? t); reflexivity.
Qed.
Lemma put_ok t h (vs : list V) P (b : bag V) : hint_fits h b = true -> P = (match vs with [] => false | _ => true end) ->
  (if has b t || P then Some (firstn (bslot h b t) (els b t) ++ vs ++ skipn (bslot h b t) (els b t)) else None) =
  fold_left (felt t)
    (match h with
     | Some (u, n) => if u =? t then match vs with [] => [] | _ => [PutAt t n vs] end else map (fun v => Put None [(t, v)]) vs
     | None => map (fun v => Put None [(t, v)]) vs
     end) (b t).
Proof.
  intros Hf ->.
  assert (K : (if has b t || (match vs with [] => false | _ => true end)
     then Some (firstn (length (els b t)) (els b t) ++ vs ++ skipn (length (els b t)) (els b t)) else None) =
     fold_left (felt t) (map (fun v => Put None [(t, v)]) vs) (b t)).
  { rewrite felt_puts, firstn_skipn_end. unfold has, els. destruct (b t); destruct vs; cbn; rewrite ?app_nil_r; reflexivity. }
  destruct h as [[u n]|]; [|exact K]. cbn [bslot]. destruct (Nat.eqb_spec u t) as [->|Ne]; [|exact K]. clear K.
  cbn [hint_fits] in Hf. apply Nat.ltb_lt in Hf. destruct (b t) as [l|] eqn:Qb.
  2:{ unfold els in Hf. rewrite Qb in Hf. simpl in Hf. lia. }
  assert (Qe : els b t = l) by (unfold els; rewrite Qb; auto). rewrite Qe in *.
  assert (Qh : has b t = true) by (unfold has; rewrite Qb; auto). rewrite Qh. cbn [orb].
  destruct vs as [|v vs]; [cbn [app fold_left]; rewrite firstn_skipn; auto|].
  unfold fold_left, felt, obey, has, els, update. rewrite !Nat.eqb_refl. cbn [andb].
  replace (n <=? length l) with true by (symmetry; apply Nat.leb_le; lia). rewrite Nat.eqb_refl. reflexivity.
Qed.

Lemma about_ok t (k : cmd V) bs i b b' : alone k -> obey bs i k b = Some b' -> b' t = fold_left (felt t) (about t k) (b t).
Proof.
  intros A Q. destruct k as [ts|h l|h u vs|h j|u n vs|u f l| |u|u| | |f]; cbn [alone] in A; try tauto; cbn [obey] in Q.
  - inversion Q; subst. unfold about, filled. cbn [bslot app]. rewrite firstn_skipn. unfold has, els.
    destruct (mem t ts).
    + cbn [fold_left]. unfold felt, obey, filled, has, els, mem. cbn. rewrite !Nat.eqb_refl. rewrite firstn_skipn. destruct (b t); reflexivity.
    + cbn [fold_left]. destruct (b t); reflexivity.
  - destruct (hint_fits h b) eqn:Hf; [|discriminate]. inversion Q; subst. unfold about, filled. apply put_ok; auto. apply of_type_mem.
  - destruct (hint_fits h b) eqn:Hf; [|discriminate]. inversion Q; subst. unfold about, filled. rewrite (Nat.eqb_sym t u).
    destruct (u =? t).
    + apply put_ok; auto. destruct vs; reflexivity.
    + cbn [andb app fold_left]. rewrite firstn_skipn. unfold has, els. destruct (b t); reflexivity.
  - destruct (has b u && (n <=? length (els b u))) eqn:G; [|discriminate]. inversion Q; subst. unfold about, update. rewrite (Nat.eqb_sym t u).
    destruct (Nat.eqb_spec u t) as [->|Ne]; [|reflexivity]. cbn [fold_left]. unfold felt, obey, has, els, update in *. rewrite !Nat.eqb_refl.
    rewrite G. rewrite Nat.eqb_refl. reflexivity.
  - destruct (has b u && (f <=? l) && (l <=? length (els b u))) eqn:G; [|discriminate]. inversion Q; subst. unfold about, update. rewrite (Nat.eqb_sym t u).
    destruct (Nat.eqb_spec u t) as [->|Ne]; [|reflexivity]. cbn [fold_left]. unfold felt, obey, has, els, update in *. rewrite !Nat.eqb_refl.
    rewrite G. rewrite Nat.eqb_refl. reflexivity.
  - inversion Q; subst. cbn [about fold_left]. unfold felt, obey, has. rewrite Nat.eqb_refl. destruct (b t); reflexivity.
  - destruct (has b u) eqn:G; [|discriminate]. inversion Q; subst. unfold about, update. rewrite (Nat.eqb_sym t u).
    destruct (Nat.eqb_spec u t) as [->|Ne]; [|reflexivity]. cbn [fold_left]. unfold felt, obey, has, els, update in *. rewrite !Nat.eqb_refl.
    rewrite G. rewrite Nat.eqb_refl. reflexivity.
  - inversion Q; subst. unfold about, filled. cbn [bslot app]. rewrite firstn_skipn.
    destruct (Nat.eqb_spec u t) as [->|Ne]; cbn [fold_left].
    + unfold felt, obey, filled, mem. cbn. unfold has, els. rewrite !Nat.eqb_refl. cbn. rewrite firstn_skipn. destruct (b t); reflexivity.
    + unfold has, els. destruct (b t); reflexivity.
  - inversion Q; subst. reflexivity.
  - inversion Q; subst. reflexivity.
  - inversion Q; subst. cbn [about fold_left]. unfold felt, obey. rewrite Nat.eqb_refl. reflexivity.
Qed.

Lemma run_about (ks : list (cmd V)) : forall b bs bs', Forall alone ks -> run (b :: bs) (map (On 0) ks) = Some bs' ->
  exists b', bs' = b' :: bs /\ forall t, b' t = fold_left (felt t) (flat_map (about t) ks) (b t).
Proof.
  induction ks as [|k ks IH]; intros b bs bs' A Q.
  - inversion Q; subst. exists b. auto.
  - cbn [map run] in Q. unfold act1 in Q. cbn [nth_error] in Q. destruct (obey (b :: bs) 0 k b) as [b1|] eqn:O; [|discriminate].
    inversion A as [|? ? A1 A2]; subst. unfold upd in Q. cbn [firstn Nat.add skipn app] in Q. destruct (IH b1 bs bs' A2 Q) as (b' & -> & F).
    exists b'. split; auto. intros t. rewrite F. cbn [flat_map]. rewrite fold_left_app. f_equal. eapply about_ok; eauto.
Qed.

(** ** Exchanging *)

Definition cell (bs : list (bag V)) (i : nat) (t : tyid) : option (option (list V)) := option_map (fun b => b t) (nth_error bs i).
Definition alike (bs bs' : list (bag V)) : Prop := length bs = length bs' /\ forall i t, cell bs i t = cell bs' i t.

Lemma cell_some bs i t x : cell bs i t = Some x -> exists b, nth_error bs i = Some b /\ b t = x.
Proof. unfold cell. destruct (nth_error bs i) as [b|]; [|discriminate]. intros Q. inversion Q. eauto. Qed.
Lemma nth_len (bs bs' : list (bag V)) i b : length bs = length bs' -> nth_error bs i = Some b -> exists b', nth_error bs' i = Some b'.
Proof.
  intros L N. destruct (nth_error bs' i) as [b'|] eqn:Q; eauto. exfalso. apply nth_error_None in Q.
  assert (i < length bs) by (apply nth_error_Some; congruence). lia.
Qed.
Lemma cell_upd bs i b i' t : i < length bs -> cell (upd i b bs) i' t = if i' =? i then Some (b t) else cell bs i' t.
Proof. intros L. unfold cell. rewrite nth_upd by auto. destruct (i' =? i); reflexivity. Qed.

Lemma obey_outside bs i (k : cmd V) b b' t : obey bs i k b = Some b' -> ~ concerns k t -> b' t = b t.
Proof.
  intros Q N.
  assert (FN : forall h P, P t = false -> (if has b t || P t then Some (firstn (bslot h b t) (els b t) ++ [] ++ skipn (bslot h b t) (els b t)) else None) = b t).
  { intros h P ->. cbn [app]. rewrite firstn_skipn. unfold has, els. destruct (b t); reflexivity. }
  destruct k as [ts|h l|h u vs|h j|u n vs|u f l| |u|u| | |f]; cbn [concerns] in N; try tauto; cbn [obey] in Q.
  - inversion Q; subst. apply (FN None (fun t => mem t ts)). destruct (mem t ts) eqn:M; auto. apply mem_in in M. tauto.
  - destruct (hint_fits h b); [|discriminate]. inversion Q; subst. unfold filled.
    assert (M : mem t (map fst l) = false) by (destruct (mem t (map fst l)) eqn:M; auto; apply mem_in in M; tauto).
    assert (O : of_type t l = []) by (rewrite of_type_mem in M; destruct (of_type t l); [auto|discriminate]). rewrite O. apply (FN h (fun t => mem t (map fst l))). auto.
  - destruct (hint_fits h b); [|discriminate]. inversion Q; subst. unfold filled. destruct (Nat.eqb_spec t u) as [->|Ne]; [tauto|]. apply (FN h (fun _ => false)). auto.
  - destruct (has b u && (n <=? length (els b u))); [|discriminate]. inversion Q; subst. unfold update. destruct (Nat.eqb_spec t u); [tauto|auto].
  - destruct (has b u && (f <=? l) && (l <=? length (els b u))); [|discriminate]. inversion Q; subst. unfold update. destruct (Nat.eqb_spec t u); [tauto|auto].
  - destruct (has b u); [|discriminate]. inversion Q; subst. unfold update. destruct (Nat.eqb_spec t u); [tauto|auto].
  - inversion Q; subst. apply (FN None (Nat.eqb u)). apply Nat.eqb_neq. auto.
  - inversion Q; auto.
  - inversion Q; auto.
Qed.

Lemma obey_local bs bs' i (k : cmd V) b b1 c : obey bs i k b = Some b1 -> (forall t, concerns k t -> b t = c t) ->
  length bs = length bs' -> (forall h j t, k = PutFrom h j -> cell bs j t = cell bs' j t) ->
  exists c1, obey bs' i k c = Some c1 /\ forall t, concerns k t -> b1 t = c1 t.
Proof.
  intros Q A L F.
  assert (Ae : forall t, concerns k t -> els b t = els c t) by (intros t C; unfold els; rewrite A; auto).
  assert (Ah : forall t, concerns k t -> has b t = has c t) by (intros t C; unfold has; rewrite A; auto).
  assert (FI : forall h vs P t, concerns k t -> filled h vs P b t = filled h vs P c t).
  { intros h vs P t C. unfold filled. rewrite (Ah t C). rewrite (Ae t C). unfold bslot. rewrite (Ae t C). reflexivity. }
  assert (HF : forall h, (forall t n, h = Some (t, n) -> concerns k t) -> hint_fits h b = hint_fits h c).
  { intros [[t n]|] C; auto. cbn [hint_fits]. rewrite (Ae t); auto. eapply C; eauto. }
  destruct k as [ts|h l|h u vs|h j|u n vs|u f l| |u|u| | |f]; cbn [obey] in *.
  - inversion Q; subst. eexists. split; [reflexivity|]. auto.
  - rewrite <- HF by (intros t n ->; left; eauto). destruct (hint_fits h b); [|discriminate]. inversion Q; subst. eexists. split; [reflexivity|]. auto.
  - rewrite <- HF by (intros t n ->; left; eauto). destruct (hint_fits h b); [|discriminate]. inversion Q; subst. eexists. split; [reflexivity|]. auto.
  - destruct (j =? i); [discriminate|]. destruct (nth_error bs j) as [y|] eqn:N; [|discriminate].
    destruct (nth_len bs bs' j y L N) as (y' & N'). rewrite N'. rewrite <- HF by (intros; exact I).
    destruct (hint_fits h b); [|discriminate]. inversion Q; subst. eexists. split; [reflexivity|]. intros t _.
    assert (Y : y t = y' t). { specialize (F h j t eq_refl). unfold cell in F. rewrite N, N' in F. cbn in F. congruence. }
    unfold filled. rewrite (Ah t I), (Ae t I). unfold bslot. rewrite (Ae t I). assert (Ye : els y t = els y' t) by (unfold els; rewrite Y; reflexivity). rewrite Ye. reflexivity.
  - rewrite <- (Ah u eq_refl), <- (Ae u eq_refl). destruct (has b u && (n <=? length (els b u))); [|discriminate]. inversion Q; subst. eexists. split; [reflexivity|].
    intros t C. cbn in C. subst t. unfold update. rewrite Nat.eqb_refl. reflexivity.
  - rewrite <- (Ah u eq_refl), <- (Ae u eq_refl). destruct (has b u && (f <=? l) && (l <=? length (els b u))); [|discriminate]. inversion Q; subst. eexists. split; [reflexivity|].
    intros t C. cbn in C. subst t. unfold update. rewrite Nat.eqb_refl. reflexivity.
  - inversion Q; subst. eexists. split; [reflexivity|]. intros t C. rewrite (Ah t C). reflexivity.
  - rewrite <- (Ah u eq_refl). destruct (has b u); [|discriminate]. inversion Q; subst. eexists. split; [reflexivity|].
    intros t C. cbn in C. subst t. unfold update. rewrite Nat.eqb_refl. reflexivity.
  - inversion Q; subst. eexists. split; [reflexivity|]. auto.
  - inversion Q; subst. eexists. split; [reflexivity|]. intros t [].
  - inversion Q; subst. eexists. split; [reflexivity|]. intros t [].
  - inversion Q; subst. eexists. split; [reflexivity|]. intros t C. rewrite (A t C). reflexivity.
Qed.

Lemma act1_outside bs (a : act V) bs' : in_place a -> act1 bs a = Some bs' ->
  length bs' = length bs /\ forall i t, ~ changes a i t -> cell bs' i t = cell bs i t.
Proof.
  intros P Q. destruct a as [| | | |i k|i j| |i j| | | | |]; try (destruct P; fail); cbn [act1] in Q.
  - destruct (nth_error bs i) as [b|] eqn:N; [|discriminate]. destruct (obey bs i k b) as [b'|] eqn:O; [|discriminate]. inversion Q; subst.
    assert (L : i < length bs) by (eapply nth_lt; eauto). rewrite upd_length by auto. split; auto.
    intros i' t C. rewrite cell_upd by auto. destruct (Nat.eqb_spec i' i) as [->|Ne]; auto. unfold cell. rewrite N. cbn. f_equal.
    eapply obey_outside; eauto. intros Z. apply C. cbn. auto.
  - destruct (nth_error bs i) as [b|] eqn:N; [|discriminate]. destruct (nth_error bs j) as [y|] eqn:Nj; [|discriminate]. inversion Q; subst.
    assert (L : i < length bs) by (eapply nth_lt; eauto). rewrite upd_length by auto. split; auto.
    intros i' t C. rewrite cell_upd by auto. destruct (Nat.eqb_spec i' i) as [->|Ne]; auto. exfalso. apply C. reflexivity.
  - destruct (i =? j) eqn:Ne; [discriminate|]. destruct (nth_error bs i) as [b|] eqn:N; [|discriminate]. destruct (nth_error bs j) as [y|] eqn:Nj; [|discriminate].
    inversion Q; subst. assert (L : i < length bs) by (eapply nth_lt; eauto). assert (Lj : j < length bs) by (eapply nth_lt; eauto).
    rewrite !upd_length by (rewrite ?upd_length; auto). split; auto.
    intros i' t C. rewrite cell_upd by (rewrite upd_length; auto). rewrite cell_upd by auto. cbn in C.
    destruct (Nat.eqb_spec i' i); [tauto|]. destruct (Nat.eqb_spec i' j); [tauto|auto].
  - inversion Q; auto.
Qed.

Lemma act1_local bs bs' (a : act V) bs1 : in_place a -> act1 bs a = Some bs1 -> length bs = length bs' ->
  (forall i t, uses a i t -> cell bs i t = cell bs' i t) ->
  exists bs1', act1 bs' a = Some bs1' /\ forall i t, changes a i t -> cell bs1 i t = cell bs1' i t.
Proof.
  intros P Q L U. destruct a as [| | | |i k|i j| |i j| | | | |]; try (destruct P; fail); cbn [act1] in *.
  - destruct (nth_error bs i) as [b|] eqn:N; [|discriminate]. destruct (obey bs i k b) as [b1|] eqn:O; [|discriminate]. inversion Q; subst.
    destruct (nth_len bs bs' i b L N) as (c & N'). rewrite N'.
    destruct (obey_local bs bs' i k b b1 c O) as (c1 & O' & C1); auto.
    + intros t C. assert (Z := U i t (or_introl (conj eq_refl C))). unfold cell in Z. rewrite N, N' in Z. cbn in Z. congruence.
    + intros h j t ->. apply U. right. reflexivity.
    + rewrite O'. eexists. split; [reflexivity|]. intros i' t (-> & C). rewrite !cell_upd by eauto using nth_lt. rewrite Nat.eqb_refl. f_equal. auto.
  - destruct (nth_error bs i) as [b|] eqn:N; [|discriminate]. destruct (nth_error bs j) as [y|] eqn:Nj; [|discriminate]. inversion Q; subst.
    destruct (nth_len bs bs' i b L N) as (c & N'). rewrite N'. destruct (nth_len bs bs' j y L Nj) as (y' & Nj'). rewrite Nj'.
    eexists. split; [reflexivity|]. intros i' t ->. rewrite !cell_upd by eauto using nth_lt. rewrite Nat.eqb_refl.
    assert (Z := U j t (or_intror eq_refl)). unfold cell in Z. rewrite Nj, Nj' in Z. exact Z.
  - destruct (i =? j) eqn:Ne; [discriminate|]. destruct (nth_error bs i) as [b|] eqn:N; [|discriminate]. destruct (nth_error bs j) as [y|] eqn:Nj; [|discriminate].
    inversion Q; subst. destruct (nth_len bs bs' i b L N) as (c & N'). rewrite N'. destruct (nth_len bs bs' j y L Nj) as (y' & Nj'). rewrite Nj'.
    eexists. split; [reflexivity|]. intros i' t C. cbn in C.
    rewrite !cell_upd by (rewrite ?upd_length; eauto using nth_lt).
    assert (Z := U j t (or_introl (or_intror eq_refl))). unfold cell in Z. rewrite Nj, Nj' in Z. cbn in Z.
    assert (Z' := U i t (or_introl (or_introl eq_refl))). unfold cell in Z'. rewrite N, N' in Z'. cbn in Z'.
    destruct (Nat.eqb_spec i' i); [exact Z|]. destruct (Nat.eqb_spec i' j); [exact Z'|tauto].
  - eexists. split; [reflexivity|]. intros ? ? [].
Qed.

Lemma alike_refl (bs : list (bag V)) : alike bs bs.
Proof. split; auto. Qed.
Lemma alike_trans (x y z : list (bag V)) : alike x y -> alike y z -> alike x z.
Proof. intros (L & A) (L' & B). split; [congruence|]. intros i t. rewrite A. auto. Qed.
Lemma alike_sym (x y : list (bag V)) : alike x y -> alike y x.
Proof. intros (L & A). split; auto. Qed.
Lemma alike_cons b c (x y : list (bag V)) : (forall t, b t = c t) -> alike x y -> alike (b :: x) (c :: y).
Proof.
  intros F (L & A). split; [simpl; auto|]. intros [|i] t; [unfold cell; cbn; f_equal; auto|]. apply (A i t).
Qed.
Lemma alike_nth (x y : list (bag V)) i b : alike x y -> nth_error x i = Some b -> exists c, nth_error y i = Some c /\ forall t, b t = c t.
Proof.
  intros (L & A) N. destruct (nth_len x y i b L N) as (c & N'). exists c. split; auto. intros t. specialize (A i t). unfold cell in A. rewrite N, N' in A.
  cbn in A. congruence.
Qed.
Lemma alike_upd i b c (x y : list (bag V)) : (forall t, b t = c t) -> alike x y -> i < length x -> alike (upd i b x) (upd i c y).
Proof.
  intros F (L & A) Li. split; [rewrite !upd_length by lia; auto|]. intros j t. rewrite !cell_upd by lia. destruct (j =? i); auto. rewrite F. auto.
Qed.
Lemma alike_del i (x y : list (bag V)) : alike x y -> alike (del i x) (del i y).
Proof.
  intros (L & A).
  assert (N : forall (l : list (bag V)) j, nth_error (del i l) j = nth_error l (if j <? i then j else 1 + j)).
  { clear. intros l. revert i. induction l as [|a l IH]; intros i j.
    - unfold del. rewrite firstn_nil, skipn_nil. destruct j; simpl; destruct (_ <? _); auto.
    - destruct i as [|i]; [unfold del; cbn [firstn app skipn Nat.add]; destruct j; reflexivity|].
      unfold del in *. cbn [firstn app]. change (skipn (1 + S i) (a :: l)) with (skipn (1 + i) l).
      destruct j as [|j]; [reflexivity|]. cbn [nth_error]. rewrite IH. change (S j <? S i) with (j <? i). destruct (j <? i); reflexivity. }
  split.
  - unfold del. rewrite !app_length, !firstn_length, !skipn_length. rewrite L. reflexivity.
  - intros j t. unfold cell. rewrite !N. apply A.
Qed.

Lemma concerns_dec (k : cmd V) t : concerns k t \/ ~ concerns k t.
Proof.
  assert (K : forall (h : option (tyid * nat)), (exists n, h = Some (t, n)) \/ ~ (exists n, h = Some (t, n))).
  { intros [[u n]|]; [|right; intros (? & Z); discriminate]. destruct (Nat.eq_dec u t) as [->|Ne]; [left; eauto|right; intros (? & Z); congruence]. }
  assert (N : forall u : nat, t = u \/ t <> u) by (intros u; destruct (Nat.eq_dec t u); auto).
  assert (I : forall ts, In t ts \/ ~ In t ts) by (intros ts; destruct (in_dec Nat.eq_dec t ts); auto).
  destruct k as [ts|h l|h u vs|h j|u n vs|u f l| |u|u| | |f]; cbn [concerns]; auto.
  - destruct (K h), (I (map fst l)); tauto.
  - destruct (K h), (N u); tauto.
Qed.
Lemma act1_alike (a : act V) bs bs' bs1 : alike bs bs' -> act1 bs a = Some bs1 -> exists bs1', act1 bs' a = Some bs1' /\ alike bs1 bs1'.
Proof.
  intros A Q. destruct a as [|l|j|j|i k|i j|i j|i j|i|i c|i c|i|]; cbn [act1] in *; try discriminate.
  - inversion Q; subst. eexists. split; [reflexivity|]. apply alike_cons; auto.
  - change (obey bs' 0 (Put None l) none) with (obey bs 0 (Put None l) none). destruct (obey bs 0 (Put None l) none); [|discriminate].
    inversion Q; subst. eexists. split; [reflexivity|]. apply alike_cons; auto.
  - destruct (nth_error bs j) as [b|] eqn:N; [|discriminate]. destruct (alike_nth _ _ _ _ A N) as (c & N' & F). rewrite N'. inversion Q; subst.
    eexists. split; [reflexivity|]. apply alike_cons; auto.
  - destruct (nth_error bs j) as [b|] eqn:N; [|discriminate]. destruct (alike_nth _ _ _ _ A N) as (c & N' & F). rewrite N'. inversion Q; subst.
    eexists. split; [reflexivity|]. apply alike_cons; auto. apply alike_upd; eauto using nth_lt.
  - destruct (nth_error bs i) as [b|] eqn:N; [|discriminate]. destruct (alike_nth _ _ _ _ A N) as (c & N' & F). rewrite N'.
    destruct (obey bs i k b) as [b1|] eqn:O; [|discriminate]. inversion Q; subst.
    destruct (obey_local bs bs' i k b b1 c O) as (c1 & O' & C1); auto; [apply A|intros; apply A|]. rewrite O'. eexists. split; [reflexivity|].
    apply alike_upd; eauto using nth_lt. intros t. 
    pose proof (concerns_dec k t) as D.
    destruct D as [D|D]; auto. rewrite (obey_outside _ _ _ _ _ _ O D), (obey_outside _ _ _ _ _ _ O' D). auto.
  - destruct (nth_error bs i) as [b|] eqn:N; [|discriminate]. destruct (alike_nth _ _ _ _ A N) as (c & N' & F). rewrite N'.
    destruct (nth_error bs j) as [y|] eqn:Nj; [|discriminate]. destruct (alike_nth _ _ _ _ A Nj) as (y' & Nj' & Fj). rewrite Nj'.
    inversion Q; subst. eexists. split; [reflexivity|]. apply alike_upd; eauto using nth_lt.
  - destruct (i =? j); [discriminate|]. destruct (nth_error bs i) as [b|] eqn:N; [|discriminate]. destruct (alike_nth _ _ _ _ A N) as (c & N' & F). rewrite N'.
    destruct (nth_error bs j) as [y|] eqn:Nj; [|discriminate]. destruct (alike_nth _ _ _ _ A Nj) as (y' & Nj' & Fj). rewrite Nj'.
    inversion Q; subst. eexists. split; [reflexivity|]. apply alike_del. apply alike_upd; eauto using nth_lt.
  - destruct (i =? j); [discriminate|]. destruct (nth_error bs i) as [b|] eqn:N; [|discriminate]. destruct (alike_nth _ _ _ _ A N) as (c & N' & F). rewrite N'.
    destruct (nth_error bs j) as [y|] eqn:Nj; [|discriminate]. destruct (alike_nth _ _ _ _ A Nj) as (y' & Nj' & Fj). rewrite Nj'.
    inversion Q; subst. eexists. split; [reflexivity|]. apply alike_upd; auto; [|rewrite upd_length; eauto using nth_lt]. apply alike_upd; eauto using nth_lt.
  - destruct (nth_error bs i) as [b|] eqn:N; [|discriminate]. destruct (alike_nth _ _ _ _ A N) as (c & N' & F). rewrite N'.
    inversion Q; subst. eexists. split; [reflexivity|]. apply alike_del; auto.
  - destruct (nth_error bs i) as [b|] eqn:N; [|discriminate]. destruct (alike_nth _ _ _ _ A N) as (c & N' & F). rewrite N'.
    inversion Q; subst. eexists. split; [reflexivity|]. apply alike_del; auto.
  - inversion Q; subst. eexists. split; [reflexivity|]. auto.
Qed.
Lemma run_alike (h : list (act V)) : forall bs bs' bs1, alike bs bs' -> run bs h = Some bs1 -> exists bs1', run bs' h = Some bs1' /\ alike bs1 bs1'.
Proof.
  induction h as [|a h IH]; intros bs bs' bs1 A Q; cbn [run] in *.
  - inversion Q; subst. eauto.
  - destruct (act1 bs a) as [bs2|] eqn:Qa; [|discriminate]. destruct (act1_alike a bs bs' bs2 A Qa) as (bs2' & -> & A2). eauto.
Qed.

Lemma changes_dec (a : act V) i t : changes a i t \/ ~ changes a i t.
Proof.
  destruct a as [|l|j|j|j k|j j'|j j'|j j'|j|j c|j c|j|]; cbn [changes]; try tauto; try (destruct (Nat.eq_dec i j); try tauto; destruct (Nat.eq_dec i j'); tauto).
  - destruct (Nat.eq_dec i j) as [->|]; [|tauto].
    destruct (concerns_dec k t); tauto.
Qed.

Lemma exchange (a b : act V) bs b1 b12 : independent a b -> act1 bs a = Some b1 -> act1 b1 b = Some b12 ->
  exists b2 b21, act1 bs b = Some b2 /\ act1 b2 a = Some b21 /\ alike b12 b21.
Proof.
  intros (Pa & Pb & D) Qa Qb.
  destruct (act1_outside bs a b1 Pa Qa) as (L1 & O1). destruct (act1_outside b1 b b12 Pb Qb) as (L12 & O12).
  destruct (act1_local b1 bs b b12 Pb Qb L1) as (b2 & Qb2 & C2).
  { intros i t U. apply O1. intros C. apply (proj1 (D i t)). auto. }
  destruct (act1_outside bs b b2 Pb Qb2) as (L2 & O2).
  destruct (act1_local bs b2 a b1 Pa Qa (eq_sym L2)) as (b21 & Qa2 & C21).
  { intros i t U. symmetry. apply O2. intros C. apply (proj2 (D i t)). auto. }
  destruct (act1_outside b2 a b21 Pa Qa2) as (L21 & O21).
  exists b2, b21. split; [auto|]. split; [auto|]. split; [congruence|]. intros i t.
  destruct (changes_dec a i t) as [Ca|Ca].
  - rewrite O12 by (intros C; apply (proj1 (D i t)); split; auto; left; auto). auto.
  - rewrite (O21 i t Ca). destruct (changes_dec b i t) as [Cb|Cb]; [auto|]. rewrite (O12 i t Cb), (O2 i t Cb). auto.
Qed.
Lemma run_app (h h' : list (act V)) : forall bs, run bs (h ++ h') = match run bs h with Some bs1 => run bs1 h' | None => None end.
Proof. induction h as [|a h IH]; intros bs; cbn [app run]; auto. destruct (act1 bs a); auto. Qed.

Lemma independent_sym (a b : act V) : independent a b -> independent b a.
Proof. intros (P & Q & D). split; [auto|split; auto]. intros i t. destruct (D i t) as (D1 & D2). split; tauto. Qed.
Lemma shuffled_sym (h h' : list (act V)) : shuffled h h' -> shuffled h' h.
Proof. induction 1; [apply sh_same|apply sh_swap; apply independent_sym; auto|eapply sh_trans; eauto]. Qed.

Lemma shuffled_run (h h' : list (act V)) : shuffled h h' -> forall bs bs1, run bs h = Some bs1 -> exists bs1', run bs h' = Some bs1' /\ alike bs1 bs1'.
Proof.
  induction 1 as [h|h1 a b h2 I|h h' h'' S1 IH1 S2 IH2]; intros bs bs1 Q.
  - exists bs1. split; auto. apply alike_refl.
  - rewrite run_app in *. destruct (run bs h1) as [bs2|]; [|discriminate]. cbn [run] in *.
    destruct (act1 bs2 a) as [b1|] eqn:Qa; [|discriminate]. destruct (act1 b1 b) as [b12|] eqn:Qb; [|discriminate].
    destruct (exchange a b bs2 b1 b12 I Qa Qb) as (b2 & b21 & -> & -> & A). eapply run_alike; eauto.
  - destruct (IH1 bs bs1 Q) as (x & Qx & Ax). destruct (IH2 bs x Qx) as (y & Qy & Ay). exists y. split; auto. eapply alike_trans; eauto.
Qed.
Lemma steady_shuffled (h h' : list (act V)) : shuffled h h' -> Forall steady h -> Forall steady h'.
Proof.
  induction 1 as [h|h1 a b h2 I|h h' h'' S1 IH1 S2 IH2]; auto. intros F. apply Forall_app in F. destruct F as (F1 & F2).
  inversion F2 as [|? ? A F3]; subst. inversion F3 as [|? ? B F4]; subst. apply Forall_app. auto.
Qed.
End Shuffle.
