(** * Algorithms on two ranges: proofs *)

From Coq Require Import List Arith Lia Bool.
From Verif Require Import Base Vec Backend Segment Coll StdAlg Algo Two Spec SpecAlg SpecTwo ProofBase ProofView ProofColl.
Import ListNotations.

Section Follows.
Context {S : Type}.
Lemma follows_ret {A B} (a : A) (b : B) (R : A -> B -> Prop) : R a b -> follows (S := S) (ret a) (ret b) R.
Proof. intros H s. cbn. exists a. auto. Qed.
Lemma follows_bind {A B A' B'} (m : M S A) (m' : M S B) R (k : A -> M S A') (k' : B -> M S B') R' :
  follows m m' R -> (forall a b, R a b -> follows (k a) (k' b) R') -> follows (bind m k) (bind m' k') R'.
Proof.
  intros H K s. specialize (H s). unfold bind. destruct (m' s) as [s1 b|s1 e|]; auto.
  - destruct H as (a & -> & r). apply (K a b r).
  - rewrite H. reflexivity.
Qed.
Lemma follows_refl {A} (m : M S A) : follows m m eq.
Proof. intros s. destruct (m s) as [s1 a|s1 e|]; auto. exists a. auto. Qed.
Lemma follows_mono {A B} (m : M S A) (m' : M S B) (R R' : A -> B -> Prop) : (forall a b, R a b -> R' a b) -> follows m m' R -> follows m m' R'.
Proof. intros I H s. specialize (H s). destruct (m' s) as [s1 b|s1 e|]; auto. destruct H as (x & Q & r). exists x. auto. Qed.
Lemma follows_same {A B C} (m : M S A) (m' : M S B) (m'' : M S C) R R' : follows m m' R -> same_as m' m'' R' -> follows m m'' (fun a c => exists b, R a b /\ R' b c).
Proof.
  intros H K s. specialize (H s). specialize (K s). destruct (m' s) as [s1 b|s1 e|], (m'' s) as [s2 c|s2 e'|]; try contradiction; auto.
  - destruct K as (-> & r). destruct H as (a & Q & r'). exists a. eauto.
  - destruct K as (-> & ->). exact H.
Qed.
Lemma follows_yields {A B} (m : M S A) (m' : M S B) R P : follows m m' R -> yields m' P -> yields m (fun a => exists b, R a b /\ P b).
Proof. intros H Y s. specialize (H s). destruct (Y s) as (b & Q & Pb). rewrite Q in H. destruct H as (a & Q' & r). exists a. eauto. Qed.
(** going on with the same part on both sides *)
Lemma follows_step {A A' B'} (m : M S A) (k : A -> M S A') (k' : A -> M S B') R' : (forall a, follows (k a) (k' a) R') -> follows (bind m k) (bind m k') R'.
Proof. intros K. eapply follows_bind; [apply follows_refl|]. intros a b ->. apply K. Qed.
Lemma follows_lift {A A' B} (a : A) (k : A -> M S A') (m' : M S B) R : follows (k a) m' R -> follows (bind (lift (Some a)) k) m' R.
Proof. intros H. exact H. Qed.
End Follows.

Section ProofTwo.
Context {V : Type} {E : Env V} {S : Type} {I Y : Type}.

Lemma sequence_tl (F : forward I Y) its y ys : sequence F its (y :: ys) -> sequence F (fun k => its (1 + k)) ys.
Proof.
  intros (A & B). split.
  - intros k z Hk. apply (A (1 + k) z Hk).
  - intros a b Ha Hb. rewrite (B (1 + a) (1 + b)); cbn; auto; lia.
Qed.
Lemma sequence_skip (F : forward I Y) its ys m : sequence F its ys -> m <= length ys -> sequence F (fun k => its (m + k)) (skipn m ys).
Proof.
  revert its ys. induction m as [|m IH]; intros its ys Sq L; [exact Sq|]. destruct ys as [|y ys]; [cbn in L; lia|]. cbn in L.
  destruct (IH _ ys (sequence_tl F its y ys Sq) ltac:(lia)) as (A & B). split; cbn [skipn].
  - intros k z Hk. specialize (A k z Hk). replace (Datatypes.S m + k) with (1 + (m + k)) by lia. replace (Datatypes.S m + (1 + k)) with (1 + (m + (1 + k))) by lia. exact A.
  - intros a b Ha Hb. apply (B a b Ha Hb).
Qed.
Lemma sequence_first (F : forward I Y) its ys n : sequence F its ys -> sequence F its (firstn n ys).
Proof.
  intros (A & B). split.
  - intros k z Hk. apply A. destruct (Nat.lt_ge_cases k n) as [Lt|Ge].
    + rewrite <- Hk. revert k Lt Hk. clear A B. revert ys. induction n as [|n IH]; intros ys k Lt; [lia|]. destruct ys as [|y ys]; [destruct k; discriminate|].
      destruct k as [|k]; [reflexivity|]. cbn. intros Hk. apply IH; [lia|exact Hk].
    + exfalso. assert (length (firstn n ys) <= n) by (rewrite firstn_length; lia). assert (nth_error (firstn n ys) k = None) by (apply nth_error_None; lia). congruence.
  - intros a b Ha Hb. rewrite firstn_length in Ha, Hb. apply B; lia.
Qed.
Lemma sequence_end (F : forward I Y) its ys k : sequence F its ys -> k <= length ys -> f_eq F (its k) (its (length ys)) = (k =? length ys).
Proof. intros (_ & B) L. apply B; auto. Qed.

Lemma sequence_nil (F : forward I Y) its : sequence F its [] -> f_eq F (its 0) (its 0) = true.
Proof. intros (_ & B). apply (B 0 0); auto. Qed.

(** [last2], if given, is the end of the sequence. *)
Definition ends (its : nat -> I) (ys : list Y) (last2 : option I) (bounded : bool) : Prop :=
  match last2 with Some l => l = its (length ys) /\ bounded = true | None => bounded = false end.
Lemma ends_tl its y ys last2 b : ends its (y :: ys) last2 b -> ends (fun k => its (1 + k)) ys last2 b.
Proof. unfold ends. destruct last2; auto. Qed.
Lemma at_last_cons (F : forward I Y) its y ys last2 b : sequence F its (y :: ys) -> ends its (y :: ys) last2 b -> at_last F last2 (its 0) = false.
Proof. intros Sq En. unfold ends, at_last in *. destruct last2 as [l|]; auto. destruct En as (-> & _). rewrite (sequence_end F its (y :: ys) 0 Sq); cbn; lia || auto. Qed.

Definition remains (its : nat -> I) (ys : list Y) (it : I) (zs : list Y) : Prop := exists k, k <= length ys /\ it = its k /\ zs = skipn k ys.

Lemma mismatch_follows (F : forward I Y) p last2 b xs : forall its ys, sequence F its ys -> ends its ys last2 b ->
  follows (S := S) (mismatch_it (V := V) F last2 p (its 0) xs) (mismatch_alg b p ys xs) (fun a c => remains its ys (fst a) (fst c) /\ snd a = snd c).
Proof.
  induction xs as [|x xs IH]; intros its ys Sq En.
  - apply follows_ret. split; auto. exists 0. cbn. csplit; auto; lia.
  - destruct ys as [|y ys]; cbn [mismatch_it mismatch_alg].
    + destruct b; [|intros s; exact Logic.I]. unfold ends in En. destruct last2 as [l|]; [|discriminate]. destruct En as (-> & _). cbn [at_last length].
      rewrite (sequence_nil F its Sq). apply follows_ret. split; auto. exists 0. csplit; auto.
    + rewrite (at_last_cons F its y ys last2 b Sq En). destruct (proj1 Sq 0 y eq_refl) as (Dr & Nx). rewrite Dr, Nx.
      apply follows_lift. eapply follows_step. intros r. destruct r; [apply follows_lift|apply follows_ret; split; auto; exists 0; cbn; csplit; auto; lia].
      eapply follows_bind; [apply (IH (fun k => its (1 + k)) ys); [eapply sequence_tl; eauto|eapply ends_tl; eauto]|].
      intros a c ((k & Lk & Qa & Qc) & Qn). apply follows_ret. cbn [fst snd]. split; [|congruence]. exists (1 + k). cbn [length skipn]. csplit; auto; lia.
Qed.

Lemma generic_find_follows {T T'} c Ts (alg : T -> piece -> list (view V) -> M S (T * (nat * ptr))) (alg' : T' -> piece -> list (view V) -> M S (T' * (nat * ptr)))
  (RT : T -> T' -> Prop) t t' first last :
  (forall t t' i xs, RT t t' -> follows (alg t i xs) (alg' t' i xs) (fun a b => RT (fst a) (fst b) /\ snd a = snd b)) -> RT t t' ->
  follows (generic_find c Ts alg t first last) (generic_find c Ts alg' t' first last) (fun a b => RT (fst a) (fst b) /\ snd a = snd b).
Proof.
  intros A R. unfold generic_find. eapply follows_step. intros ps. revert t t' R. induction ps as [|i ps IH]; intros t t' R; cbn [generic_find_loop].
  - apply follows_ret. auto.
  - eapply follows_step. intros xs. eapply follows_bind; [apply A, R|]. intros a b (Ra & Qa). rewrite Qa. destruct (lbi_eq c (snd b) (pc_id i, pc_end i)); [apply IH, Ra|].
    eapply follows_step. intros it. apply follows_ret. auto.
Qed.

Lemma pi_mismatch_follows (F : forward I Y) c Ts first last p last2 b its ys : sequence F its ys -> ends its ys last2 b ->
  follows (S := S) (pi_mismatch F c Ts first last (its 0) last2 p) (pc_mismatch b c Ts first last ys p)
    (fun r r' => fst r = fst r' /\ snd r = its (snd r') /\ snd r' <= length ys).
Proof.
  intros Sq En. unfold pi_mismatch, pc_mismatch. eapply follows_bind.
  - apply (generic_find_follows c Ts _ _ (remains its ys)); [|exists 0; cbn; csplit; auto; lia].
    intros it zs i xs (k & Lk & -> & ->). unfold at_index. eapply follows_bind.
    + replace (its k) with ((fun n => its (k + n)) 0) by (cbn; f_equal; lia). apply (mismatch_follows F p last2 b xs (fun n => its (k + n)) (skipn k ys)).
      * apply sequence_skip; auto.
      * unfold ends in *. destruct last2; auto. destruct En as (-> & Hb). split; auto. rewrite skipn_length. f_equal. lia.
    + intros a c0 ((n & Ln & Qa & Qc) & Qn). rewrite Qn. eapply follows_step. intros q. apply follows_ret. cbn [fst snd]. split; auto.
      rewrite skipn_length in Ln. exists (k + n). csplit; auto; [lia|]. rewrite Qc. clear. revert ys n. induction k as [|k IH]; intros ys n; [reflexivity|].
      destruct ys; cbn; [destruct n; reflexivity|apply IH].
  - intros a r ((k & Lk & Qa & Qr) & Qs). apply follows_ret. cbn [fst snd]. rewrite Qr, skipn_length. replace (length ys - (length ys - k)) with k by lia. auto.
Qed.

Lemma equal_it_follows (F : forward I Y) p last2 b xs : forall its ys, sequence F its ys -> ends its ys last2 b ->
  follows (S := S) (equal_it (V := V) F last2 p (its 0) xs) (equal_alg b p ys xs) (fun a c => remains its ys (fst a) (fst c) /\ snd a = snd c).
Proof.
  induction xs as [|x xs IH]; intros its ys Sq En.
  - apply follows_ret. split; auto. exists 0. cbn. csplit; auto; lia.
  - destruct ys as [|y ys]; cbn [equal_it equal_alg].
    + destruct b; [|intros s; exact Logic.I]. unfold ends in En. destruct last2 as [l|]; [|discriminate]. destruct En as (-> & _). cbn [at_last length].
      rewrite (sequence_nil F its Sq). apply follows_ret. split; auto. exists 0. csplit; auto.
    + rewrite (at_last_cons F its y ys last2 b Sq En). destruct (proj1 Sq 0 y eq_refl) as (Dr & Nx). rewrite Dr, Nx.
      apply follows_lift. eapply follows_step. intros r. destruct r; [apply follows_lift|apply follows_ret; split; auto; exists 0; cbn; csplit; auto; lia].
      eapply follows_mono; [|apply (IH (fun k => its (1 + k)) ys); [eapply sequence_tl; eauto|eapply ends_tl; eauto]].
      intros a c ((k & Lk & Qa & Qc) & Qn). split; auto. exists (1 + k). cbn [length skipn]. csplit; auto; lia.
Qed.
Lemma remains_shift its ys k it zs : k <= length ys -> remains (fun n => its (k + n)) (skipn k ys) it zs -> remains its ys it zs.
Proof.
  intros Lk (n & Ln & Qa & Qc). rewrite skipn_length in Ln. exists (k + n). csplit; auto; [lia|]. rewrite Qc. clear. revert ys n. induction k as [|k IH]; intros ys n; [reflexivity|].
  destruct ys; cbn; [destruct n; reflexivity|apply IH].
Qed.
Lemma ends_skip its ys last2 b k : k <= length ys -> ends its ys last2 b -> ends (fun n => its (k + n)) (skipn k ys) last2 b.
Proof. intros Lk En. unfold ends in *. destruct last2; auto. destruct En as (-> & Hb). split; auto. rewrite skipn_length. f_equal. lia. Qed.

Lemma pi_equal_follows (F : forward I Y) c Ts first last p last2 b its ys : sequence F its ys -> ends its ys last2 b ->
  follows (S := S) (pi_equal F c Ts first last (its 0) last2 p) (pc_equal b c Ts first last ys p) eq.
Proof.
  intros Sq En. unfold pi_equal, pc_equal. eapply follows_step. intros ps. eapply follows_bind.
  - assert (A : forall it zs, remains its ys it zs -> follows (S := S) (equal_it_loop F last2 c Ts p it ps) (equal_loop b c Ts p zs ps)
      (fun a c => remains its ys (fst a) (fst c) /\ snd a = snd c)).
    { induction ps as [|i ps IH]; intros it zs R; cbn [equal_it_loop equal_loop]; [apply follows_ret; auto|]. eapply follows_step. intros xs.
      destruct R as (k & Lk & -> & ->). eapply follows_bind.
      - replace (its k) with ((fun n => its (k + n)) 0) by (cbn; f_equal; lia).
        apply (equal_it_follows F p last2 b xs (fun n => its (k + n)) (skipn k ys)); [apply sequence_skip; auto|apply ends_skip; auto].
      - intros a e (R & Q). apply remains_shift in R; auto. rewrite Q. destruct (snd e); [apply IH, R|apply follows_ret; auto]. }
    apply (A (its 0) ys). exists 0. csplit; auto. lia.
  - intros a e ((k & Lk & Qa & Qe) & Q). apply follows_ret. rewrite Q. destruct (snd e); auto. unfold ends in En. destruct last2 as [l|]; [|rewrite En; auto].
    destruct En as (-> & ->). rewrite Qa, (sequence_end F its ys k Sq Lk), Qe, skipn_length. destruct (Nat.eqb_spec k (length ys)); symmetry; [apply Nat.eqb_eq|apply Nat.eqb_neq]; lia.
Qed.

Lemma any_it_follows (F : forward I Y) x (p : view V -> Y -> M S bool) ys : forall its fuel, sequence F its ys -> length ys <= fuel ->
  follows (any_it F fuel (p x) (its 0) (its (length ys))) (std_any_of2 p x ys) eq.
Proof.
  induction ys as [|y ys IH]; intros its fuel Sq Lf.
  - cbn [length]. destruct fuel; cbn [any_it]; rewrite (sequence_nil F its Sq); apply follows_ret; auto.
  - destruct fuel as [|fuel]; [cbn in Lf; lia|]. cbn [any_it std_any_of2]. rewrite (sequence_end F its (y :: ys) 0 Sq (Nat.le_0_l _)). cbn [length Nat.eqb].
    destruct (proj1 Sq 0 y eq_refl) as (Dr & Nx). rewrite Dr, Nx. apply follows_lift. eapply follows_step. intros b. destruct b; [apply follows_ret; auto|]. apply follows_lift.
    apply (IH (fun k => its (1 + k)) fuel); [eapply sequence_tl; eauto|cbn in Lf; lia].
Qed.
Lemma count_it_follows (F : forward I Y) (p : Y -> M S bool) ys : forall its fuel, sequence F its ys -> length ys <= fuel ->
  follows (count_it F fuel p (its 0) (its (length ys))) (std_count_if p ys) eq.
Proof.
  induction ys as [|y ys IH]; intros its fuel Sq Lf.
  - cbn [length]. destruct fuel; cbn [count_it]; rewrite (sequence_nil F its Sq); apply follows_ret; auto.
  - destruct fuel as [|fuel]; [cbn in Lf; lia|]. cbn [count_it std_count_if]. rewrite (sequence_end F its (y :: ys) 0 Sq (Nat.le_0_l _)). cbn [length Nat.eqb].
    destruct (proj1 Sq 0 y eq_refl) as (Dr & Nx). rewrite Dr, Nx. apply follows_lift. eapply follows_step. intros b. apply follows_lift. eapply follows_bind.
    + apply (IH (fun k => its (1 + k)) fuel); [eapply sequence_tl; eauto|cbn in Lf; lia].
    + intros a n ->. apply follows_ret. auto.
Qed.
Lemma distance_it_at (F : forward I Y) ys : forall its fuel, sequence F its ys -> length ys <= fuel -> distance_it F fuel (its 0) (its (length ys)) = Some (length ys).
Proof.
  induction ys as [|y ys IH]; intros its fuel Sq Lf.
  - cbn [length]. destruct fuel; cbn [distance_it]; rewrite (sequence_nil F its Sq); reflexivity.
  - destruct fuel as [|fuel]; [cbn in Lf; lia|]. cbn [distance_it]. rewrite (sequence_end F its (y :: ys) 0 Sq (Nat.le_0_l _)). cbn [length Nat.eqb].
    destruct (proj1 Sq 0 y eq_refl) as (_ & Nx). rewrite Nx.
    pose proof (IH (fun k => its (1 + k)) fuel (sequence_tl F its y ys Sq) ltac:(cbn in Lf; lia)) as Q. cbn in Q |- *. rewrite Q. reflexivity.
Qed.
Lemma advance_it_at (F : forward I Y) n : forall its ys, sequence F its ys -> n <= length ys -> advance_it F (its 0) n = Some (its n).
Proof.
  induction n as [|n IH]; intros its ys Sq L; [reflexivity|]. destruct ys as [|y ys]; [cbn in L; lia|]. cbn [advance_it].
  destruct (proj1 Sq 0 y eq_refl) as (_ & Nx). rewrite Nx. apply (IH (fun k => its (1 + k)) ys); [eapply sequence_tl; eauto|cbn in L; lia].
Qed.

Lemma pi_find_first_of_follows (F : forward I Y) fuel c Ts first last p its ys : sequence F its ys -> length ys <= fuel ->
  follows (S := S) (pi_find_first_of F fuel c Ts first last p (its 0) (its (length ys))) (pc_find_first_of c Ts first last p ys) eq.
Proof.
  intros Sq Lf. unfold pi_find_first_of, pc_find_first_of, find_by. eapply follows_bind.
  - apply (generic_find_follows c Ts _ _ eq); [|reflexivity]. intros t t' i xs <-. unfold at_index. eapply follows_bind.
    + eapply follows_bind; [|intros a b Q; apply follows_ret; exact (f_equal (pair t) Q)].
      induction xs as [|x xs IH]; cbn [first_of_it std_find_first_of]; [apply follows_ret; auto|]. eapply follows_bind; [apply any_it_follows; auto|].
      intros a b ->. destruct b; [apply follows_ret; auto|]. eapply follows_bind; [exact IH|]. intros a b ->. apply follows_ret. auto.
    + intros a b ->. eapply follows_step. intros q. apply follows_ret. auto.
  - intros a b (_ & Q). apply follows_ret. auto.
Qed.

Lemma is_perm_suffix_follows (F : forward I Y) fuel c Ts first1 last1 p its ys : sequence F its ys -> length ys <= fuel ->
  follows (S := S) (is_perm_suffix_it F fuel c Ts first1 last1 (its 0) (its (length ys)) p) (is_perm_suffix c Ts first1 last1 ys p) eq.
Proof.
  intros Sq Lf. unfold is_perm_suffix_it, is_perm_suffix. eapply follows_step. intros ps. induction ps as [|i ps IH]; cbn [is_perm_loop_it is_perm_loop]; [apply follows_ret; auto|].
  eapply follows_step. intros xs. eapply follows_bind.
  - cut (forall k, follows (is_perm_scan_it F fuel c Ts p first1 last1 (its 0) (its (length ys)) i k xs) (is_perm_scan c Ts p first1 last1 ys i k xs) eq); [auto|].
    clear IH. induction xs as [|x xs IH]; intros k; cbn [is_perm_scan_it is_perm_scan]; [apply follows_ret; auto|]. eapply follows_step. intros scan.
    eapply follows_step. intros it. destruct (negb (it_eq it scan)); [apply IH|]. eapply follows_bind; [apply count_it_follows; auto|]. intros a b ->.
    destruct (b =? 0); [apply follows_ret; auto|]. eapply follows_step. intros m'. destruct (b =? m'); [apply IH|apply follows_ret; auto].
  - intros a b ->. destruct b; [apply IH|apply follows_ret; auto].
Qed.
Lemma pi_is_permutation_follows (F : forward I Y) fuel c Ts first1 last1 p last2 b its ys : sequence F its ys -> ends its ys last2 b -> length ys <= fuel ->
  follows (S := S) (pi_is_permutation F fuel c Ts first1 last1 (its 0) last2 p) (pc_is_permutation b c Ts first1 last1 ys p) eq.
Proof.
  intros Sq En Lf. unfold pi_is_permutation, pc_is_permutation. eapply follows_bind; [apply pi_mismatch_follows; eauto|]. intros r r' (Q1 & Q2 & Lm). rewrite Q1, Q2.
  set (k := snd r') in *. pose proof (sequence_skip F its ys k Sq Lm) as Sk. pose proof (skipn_length k ys) as Lsk.
  unfold ends in En. destruct last2 as [l|].
  - destruct En as (-> & ->). eapply follows_step. intros n.
    assert (D : distance_it F fuel (its k) (its (length ys)) = Some (length (skipn k ys))).
    { replace (its k) with ((fun n => its (k + n)) 0) by (cbn; f_equal; lia). replace (its (length ys)) with ((fun n => its (k + n)) (length (skipn k ys))) by (cbn; f_equal; lia).
      apply (distance_it_at F (skipn k ys) (fun n => its (k + n)) fuel Sk). lia. }
    rewrite D. apply follows_lift. destruct (n =? length (skipn k ys)) eqn:Qn; [|apply follows_ret; auto].
    replace (its k) with ((fun n => its (k + n)) 0) by (cbn; f_equal; lia). replace (its (length ys)) with ((fun n => its (k + n)) (length (skipn k ys))) by (cbn; f_equal; lia).
    apply (is_perm_suffix_follows F fuel c Ts (fst r') last1 p (fun n => its (k + n)) (skipn k ys) Sk). lia.
  - rewrite En. eapply follows_step. intros n. destruct (Nat.leb_spec n (length (skipn k ys))) as [Ln|]; [|intros s; exact Logic.I].
    assert (D : advance_it F (its k) n = Some (its (k + n))).
    { replace (its k) with ((fun n => its (k + n)) 0) by (cbn; f_equal; lia). apply (advance_it_at F n (fun n => its (k + n)) (skipn k ys) Sk Ln). }
    rewrite D. apply follows_lift.
    assert (Lf' : length (firstn n (skipn k ys)) = n) by (rewrite firstn_length; lia).
    replace (its k) with ((fun n => its (k + n)) 0) by (cbn; f_equal; lia). replace (its (k + n)) with ((fun n => its (k + n)) (length (firstn n (skipn k ys)))) by (rewrite Lf'; reflexivity).
    apply (is_perm_suffix_follows F fuel c Ts (fst r') last1 p (fun n => its (k + n)) (firstn n (skipn k ys))); [apply sequence_first, Sk|lia].
Qed.

Lemma pi_search_follows (F : forward I Y) c Ts first1 last1 p its ys : sequence F its ys ->
  follows (S := S) (pi_search F c Ts first1 last1 (its 0) (its (length ys)) p) (pc_search c Ts first1 last1 ys p) eq.
Proof.
  intros Sq. unfold pi_search, pc_search. eapply follows_step. intros ps. induction ps as [|i ps IH]; cbn [search_loop_it search_loop]; [apply follows_ret; auto|].
  eapply follows_step. intros n. eapply follows_bind.
  - cut (forall k, follows (search_scan_it F c Ts p last1 (its 0) (its (length ys)) i k n) (search_scan c Ts p last1 ys i k n) eq); [auto|].
    induction n as [|n IHn]; intros k; cbn [search_scan_it search_scan]; [apply follows_ret; reflexivity|]. eapply follows_step. intros it.
    eapply follows_bind; [apply (pi_mismatch_follows F c Ts it last1 p (Some (its (length ys))) true its ys Sq); split; reflexivity|].
    intros r r' (_ & Q2 & Lm). rewrite Q2, (sequence_end F its ys _ Sq Lm). destruct (snd r' =? length ys); [apply follows_ret; reflexivity|apply IHn].
  - intros a b ->. destruct b; [apply follows_ret; auto|apply IH].
Qed.
Lemma pi_find_end_follows (F : forward I Y) c Ts first1 last1 p its ys : sequence F its ys ->
  follows (S := S) (pi_find_end F c Ts first1 last1 (its 0) (its (length ys)) p) (pc_find_end c Ts first1 last1 ys p) eq.
Proof.
  intros Sq. unfold pi_find_end, pc_find_end. rewrite (sequence_end F its ys 0 Sq (Nat.le_0_l _)). destruct ys as [|y ys]; [apply follows_ret; auto|]. cbn [length Nat.eqb].
  change (its (Datatypes.S (length ys))) with (its (length (y :: ys))). generalize (1 + c_size c) as fuel. intros fuel.
  cut (forall res, follows (find_end_it_loop F fuel c Ts p first1 last1 (its 0) (its (length (y :: ys))) res) (find_end_loop fuel c Ts p first1 last1 (y :: ys) res) eq); [auto|].
  revert first1. induction fuel as [|fuel IH]; intros first1 res; cbn [find_end_it_loop find_end_loop]; [intros s; exact Logic.I|].
  eapply follows_bind; [apply (pi_search_follows F c Ts first1 last1 p its (y :: ys) Sq)|]. intros a b ->. destruct (it_eq b last1); [apply follows_ret; auto|].
  eapply follows_step. intros f1. apply IH.
Qed.

Lemma generic_copy_follows {T T'} c Ts (alg : T -> list (view V) -> M S T) (alg' : T' -> list (view V) -> M S T') (RT : T -> T' -> Prop) t t' first last :
  (forall t t' xs, RT t t' -> follows (alg t xs) (alg' t' xs) RT) -> RT t t' -> follows (generic_copy c Ts alg first last t) (generic_copy c Ts alg' first last t') RT.
Proof.
  intros A R. unfold generic_copy. eapply follows_step. intros ps. revert t t' R. induction ps as [|i ps IH]; intros t t' R; cbn [generic_copy_loop]; [apply follows_ret; auto|].
  eapply follows_step. intros xs. eapply follows_bind; [apply A, R|]. intros a b Ra. apply IH, Ra.
Qed.
Lemma pi_transform2_follows {O} (F : forward I Y) c Ts first last (op : view V -> Y -> M S O) put o its ys : sequence F its ys ->
  follows (pi_transform2 F c Ts first last (its 0) put op o) (pc_transform2 c Ts first last ys put op o) eq.
Proof.
  intros Sq. unfold pi_transform2, pc_transform2. eapply follows_bind.
  - apply (generic_copy_follows c Ts _ _ (fun t t' => fst t = fst t' /\ remains its ys (snd t) (snd t'))); [|split; auto; exists 0; csplit; auto; lia].
    intros t t' xs. revert t t'. induction xs as [|x xs IH]; intros [n it] [n' zs] (Q & k & Lk & Qi & Qz); cbn [fst snd] in *; subst n' it zs.
    + apply follows_ret. cbn. split; auto. exists k. auto.
    + cbn [transform2_it transform2_alg fst snd]. destruct (skipn k ys) as [|y zs] eqn:Qs; [intros s; exact Logic.I|].
      pose proof (sequence_skip F its ys k Sq Lk) as Sk. rewrite Qs in Sk. destruct (proj1 Sk 0 y eq_refl) as (Dr & Nx). cbn in Dr, Nx. rewrite Nat.add_0_r in Dr, Nx.
      rewrite Dr, Nx. do 2 apply follows_lift. eapply follows_step. intros r. eapply follows_step. intros []. apply IH. cbn [fst snd]. split; auto.
      assert (Lz : length (skipn k ys) = Datatypes.S (length zs)) by (rewrite Qs; reflexivity). rewrite skipn_length in Lz. exists (k + 1). csplit; auto; [lia|].
      clear - Qs. revert ys Qs. induction k as [|k IHk]; intros ys Qs; [cbn in Qs; subst ys; reflexivity|]. destruct ys; [discriminate|]. cbn. apply IHk, Qs.
  - intros a b (Q & _). apply follows_ret. auto.
Qed.

End ProofTwo.
