(** * Every exception has a cause *)

From Coq Require Import List Arith Lia Bool Permutation.
From Verif Require Import Base Vec Backend Segment Coll Spec Reach SpecFail ProofBase ProofVec ProofBackend ProofOps ProofOps2
  ProofSeg ProofMap ProofView ProofColl ProofIns ProofEach ProofErase ProofRange ProofRange2 ProofEq ProofCopy ProofReach
  ProofObs ProofProp ProofProp2 ProofProp3 ProofProp4 ProofProp5.
Import ListNotations.

Section PFail.
Context {V : Type} {E : Env V}.
Notation CW := (coll V * world)%type.

Lemma cause_threw m (c : coll V) vals w w' e t h n k : threw t h n k w w' e ->
  n + k <= 1 + length (elems c t) + length (of_type t vals) -> In t (map fst vals) -> cause m c vals w w' e.
Proof.
  intros [([->|(-> & _)] & F)|[(-> & C & _)|(-> & L)]] Le I; cbn; eauto.
Qed.
Lemma cause_refused m (c c' : coll V) w w' t h k e v : refused c c' w w' t h k e -> cause m c [(t, v)] w w' e.
Proof.
  intros (_ & T & _). eapply cause_threw; eauto.
  - unfold of_type. simpl. rewrite Nat.eqb_refl. simpl. lia.
  - left. auto.
Qed.
Lemma cause_rejected m (c c' : coll V) w w' x k e v : rejected c c' w w' x k e -> cause m c [(env_ty (a_dyn x), v)] w w' e.
Proof.
  intros [((N & _) & -> & _)|(_ & R)]; [|eapply cause_refused; eauto]. cbn. split; auto.
Qed.
Lemma cause_broke m xs hs h (c c' : coll V) w w' l e : broke_off xs hs h c c' w w' l e -> cause m c l w w' e.
Proof.
  intros (_ & pre & t & v & post & c1 & -> & G & [(hw & _ & _ & T & _)|(x & _ & Et & (U & _) & -> & _)]).
  - assert (I : In t (map fst (pre ++ (t, v) :: post))) by (rewrite map_app; apply in_or_app; right; left; auto).
    eapply cause_threw; eauto. rewrite (grew_length _ _ _ _ t G). rewrite of_type_app, app_length.
    unfold of_type at 3. simpl. rewrite Nat.eqb_refl. simpl. lia.
  - cbn. split.
    + intros I. apply U. rewrite Et. apply G. auto.
    + left. rewrite map_app. apply in_or_app. right. left. auto.
Qed.
Lemma cause_reserve m (c : coll V) vals t n w w' e : room_call m t n -> reserve_threw c t n w w' e -> cause m c vals w w' e.
Proof.
  intros Rc [([->|(-> & Nt & Ne)] & F)|[(-> & C & _ & N)|(-> & L)]]; cbn; auto.
  { split; auto. exists t. right. split; auto. unfold quiet. rewrite Nt. auto. }
  exists t, n. split; auto. destruct L as [L|(S & L)]; [left; auto|right; split; auto; lia].
Qed.
Lemma cause_make m (c : coll V) vals t w w' e : make_threw t w w' e -> cause m c vals w w' e.
Proof.
  intros [(-> & F)|(-> & S & L)]; cbn; auto. exists t, 1. split; [|left; lia].
  destruct L as [L|L]; [left; auto|right; split; auto; lia].
Qed.
Lemma cause_shrink m (c : coll V) vals t w w' e : shrink_threw c t w w' e -> cause m c vals w w' e.
Proof.
  intros [([->|(-> & Nt & Ne)] & F)|[(-> & C & _ & N)|(-> & S & L)]]; cbn; auto.
  { split; auto. exists t. right. split; auto. unfold quiet. rewrite Nt. auto. }
  exists t, 1. split; [|left; lia]. right. split; auto. lia.
Qed.
Lemma loud t : env_assignable t = true -> env_nt_assign t = false -> quiet t = false.
Proof. intros A B. unfold quiet. rewrite A, B, andb_false_r. auto. Qed.
Lemma cause_erase m (c c' : coll V) vals w w' t e : erase_threw c c' w w' t e -> cause m c vals w w' e.
Proof.
  intros (_ & _ & _ & _ & _ & -> & F & As & Nt & Gt). cbn. split; auto. exists t. right. split; [|apply loud; auto].
  intros Q0. rewrite Q0 in Gt. simpl in Gt. lia.
Qed.
Lemma of_type_len t (xs : list V) : length (of_type t (map (pair t) xs)) = length xs.
Proof. rewrite of_type_same. auto. Qed.

Theorem api_cause w c g d m safe new vals : reach w (c :: g) d -> api g c m safe new vals ->
  wp m (c, w) (fun _ _ => True) (fun '(c', w') e => cause m c vals w w' e).
Proof.
  intros H A. destruct A.
  - eapply wp_mono; [eapply spec_register; eauto|auto|]. intros [c' w'] e (pre & a & post & _ & _ & T). eapply cause_make; eauto.
  - eapply wp_mono; [eapply spec_reserve; eauto|auto|]. intros [c' w'] e (_ & _ & t & _ & T). eapply cause_reserve; eauto. left. auto.
  - eapply wp_mono; [eapply spec_reserve_info; eauto|auto|]. intros [c' w'] e [(N & -> & _)|(_ & _ & _ & _ & _ & T)].
    + cbn. split; auto. right. split; [reflexivity|]. exists a. split; auto. right. right. eauto.
    + eapply cause_reserve; eauto. right. exists a. auto.
  - eapply wp_mono; [eapply spec_reserve_type; eauto|auto|]. intros [c' w'] e (_ & _ & _ & _ & [T|T]).
    + eapply cause_reserve; eauto. right. exists a. auto.
    + eapply cause_make; eauto.
  - eapply wp_mono; [eapply spec_shrink; eauto|auto|]. intros [c' w'] e (_ & t & _ & T). eapply cause_shrink; eauto.
  - eapply wp_mono; [eapply spec_shrink_info; eauto|auto|]. intros [c' w'] e [(N & -> & _)|(_ & _ & T)].
    + cbn. split; auto. right. split; [reflexivity|]. exists a. split; auto. right. left. auto.
    + eapply cause_shrink; eauto.
  - eapply wp_mono; [eapply spec_clear; eauto|auto|]. intros [c' w'] e [].
  - eapply wp_mono; [eapply spec_clear_info; eauto|auto|]. intros [c' w'] e (N & -> & _).
    cbn. split; auto. right. split; [reflexivity|]. exists a. split; auto. left. auto.
  - eapply wp_void_mono; [eapply spec_emplace; eauto|auto|]. intros [c' w'] e R. eapply cause_refused; eauto.
  - eapply wp_void_mono; [eapply spec_emplace_hint; eauto|auto|]. intros [c' w'] e R. eapply cause_refused; eauto.
  - eapply wp_void_mono; [eapply spec_emplace_pos; eauto|auto|]. intros [c' w'] e R. eapply cause_refused; eauto.
  - eapply wp_void_mono; [eapply spec_insert; eauto|auto|]. intros [c' w'] e R. eapply cause_rejected; eauto.
  - eapply wp_void_mono; [eapply spec_insert_hint; eauto|auto|]. intros [c' w'] e R. eapply cause_rejected; eauto.
  - eapply wp_void_mono; [eapply spec_insert_pos; eauto|auto|]. intros [c' w'] e R. eapply cause_refused; eauto.
  - eapply wp_mono; [eapply spec_insert_range; eauto|auto|]. intros [c' w'] e R. eapply cause_broke; eauto.
  - eapply wp_mono; [eapply spec_insert_range_terminal; eauto|auto|]. intros [c' w'] e (Ne & _ & T & _). eapply cause_threw; eauto.
    + rewrite of_type_len. lia. + destruct xs; [congruence|left; auto].
  - eapply wp_mono; [eapply spec_insert_hint_range; eauto|auto|]. intros [c' w'] e R. eapply cause_broke; eauto.
  - eapply wp_mono; [eapply spec_insert_hint_range_terminal; eauto|auto|]. intros [c' w'] e (Ne & _ & T & _). eapply cause_threw; eauto.
    + rewrite of_type_len. lia. + destruct xs; [congruence|left; auto].
  - eapply wp_mono; [eapply spec_insert_from; eauto|auto|]. intros [c' w'] e R. eapply cause_broke; eauto.
  - eapply wp_mono; [eapply spec_insert_hint_from; eauto|auto|]. intros [c' w'] e R. eapply cause_broke; eauto.
  - eapply wp_mono; [eapply spec_insert_local; eauto|auto|]. intros [c' w'] e R. eapply cause_broke; eauto.
  - eapply wp_mono; [eapply spec_insert_hint_local; eauto|auto|]. intros [c' w'] e R. eapply cause_broke; eauto.
  - eapply wp_void_mono; [eapply spec_insert_pos_range; eauto|auto|]. intros [c' w'] e R. eapply cause_broke; eauto.
  - eapply wp_void_mono; [eapply spec_insert_lpos_range; eauto|auto|]. intros [c' w'] e R. eapply cause_broke; eauto.
  - eapply wp_void_mono; [eapply spec_erase; eauto|auto|]. intros [c' w'] e T. eapply cause_erase; eauto.
  - eapply wp_void_mono; [eapply spec_erase_local; eauto|auto|]. intros [c' w'] e T. eapply cause_erase; eauto.
  - eapply wp_void_mono; [eapply spec_erase_range; eauto|auto|]. intros [c' w'] e (_ & _ & _ & -> & F & (t & Ne & As & Nt) & _).
    cbn. split; auto. exists t. right. split; auto. apply loud; auto.
  - eapply wp_void_mono; [eapply spec_erase_local_range; eauto|auto|]. intros [c' w'] e T. eapply cause_erase; eauto.
Qed.

End PFail.

(** Insertions *)

Lemma too_big_le {V} {E : Env V} t n m : too_big t n -> n <= m -> too_big t m.
Proof. intros [B|(L & B)] Le; [left; lia|right; split; auto; lia]. Qed.
Lemma excuse_threw {V} {E : Env V} (c : coll V) vals w w' e t h n k : threw t h n k w w' e ->
  n + k <= 1 + length (elems c t) + length (of_type t vals) -> In t (map fst vals) -> excuse c vals w w' e.
Proof.
  intros [([->|(-> & _)] & F)|[(-> & C & _)|(-> & L)]] Le I; cbn; eauto. exists t. eapply too_big_le; [|exact Le].
  destruct L as [L|(Sp & L)]; [left; auto|right; split; auto].
Qed.
Lemma excuse_refused {V} {E : Env V} (c c' : coll V) w w' t h k e v : refused c c' w w' t h k e -> excuse c [(t, v)] w w' e.
Proof.
  intros (_ & T & _). eapply excuse_threw; eauto.
  - unfold of_type. simpl. rewrite Nat.eqb_refl. simpl. lia.
  - left. auto.
Qed.
Lemma excuse_rejected {V} {E : Env V} (c c' : coll V) w w' x k e v : rejected c c' w w' x k e ->
  excuse c [(env_ty (a_dyn x), v)] w w' e.
Proof. intros [((N & _) & -> & _)|(_ & R)]; [|eapply excuse_refused; eauto]. cbn. split; auto. Qed.
Lemma excuse_broke {V} {E : Env V} xs hs h (c c' : coll V) w w' l e : broke_off xs hs h c c' w w' l e -> excuse c l w w' e.
Proof.
  intros (_ & pre & t & v & post & c1 & -> & G & [(hw & _ & _ & T & _)|(x & _ & Et & (U & _) & -> & _)]).
  - assert (I : In t (map fst (pre ++ (t, v) :: post))) by (rewrite map_app; apply in_or_app; right; left; auto).
    eapply excuse_threw; eauto. rewrite (grew_length _ _ _ _ t G). rewrite of_type_app, app_length.
    unfold of_type at 3. simpl. rewrite Nat.eqb_refl. simpl. lia.
  - cbn. split.
    + intros I. apply U. rewrite Et. apply G. auto.
    + rewrite map_app. apply in_or_app. right. left. auto.
Qed.
