(** * Iterators and the end of the map: proofs *)

From Coq Require Import List Arith Lia Bool.
From Verif Require Import Base Vec Backend Segment Coll Spec Reach ProofBase ProofVec ProofBackend ProofSeg ProofMap ProofView ProofColl
  ProofRange ProofReach ProofObs ProofProp ProofProp2 ProofProp3 ProofProp4 ProofProp5 End SpecEnd Properties3 Properties4.
Import ListNotations.

Section ProofEnd.
Context {V : Type} {E : Env V} (k : endkind).

Lemma hands_same x y : hands k x y -> e_c y = e_c x /\ (k = EndMoves -> e_id y = e_id x).
Proof.
  intros [w a b g d a' b' w' H Al Q|w a b g d a' b' w' H Al Q|w a g d fr a' b w' H Q|w a b g d fr a' b' w' H Al Q].
  - pose proof (C22_swap w (e_c a) (e_c b) g d H Al) as P. unfold wp in P. unfold e_swap in Q.
    destruct (c_swap ((e_c a, e_c b), w)) as [[[c c'] w1] []|s e|]; [|contradiction|contradiction]. destruct P as (P1 & P2 & _).
    destruct k; injection Q as <- <- <-; cbn; split; auto; discriminate.
  - pose proof (C22_swap w (e_c b) (e_c a) g d H Al) as P. unfold wp in P. unfold e_swap in Q.
    destruct (c_swap ((e_c b, e_c a), w)) as [[[c c'] w1] []|s e|]; [|contradiction|contradiction]. destruct P as (P1 & P2 & _).
    destruct k; injection Q as <- <- <-; cbn; split; auto; discriminate.
  - pose proof (C22_move w (e_c a) g d H) as P. unfold wp in P. unfold e_move in Q.
    destruct (c_move (e_c a, w)) as [[c' w1] c|s e|]; [|contradiction|contradiction]. destruct P as (P1 & _).
    destruct k; injection Q as <- <- <-; cbn; split; auto; discriminate.
  - pose proof (C22_move_assign w (e_c a) g (e_c b) d H Al) as P. unfold wp in P. unfold e_move_assign in Q.
    destruct (c_move_assign ((e_c b, e_c a), w)) as [[[c c'] w1] []|s e|]; [|contradiction|contradiction]. destruct P as (P1 & _).
    replace (env_pocma || (c_al (e_c b) =? c_al (e_c a))) with true in Q.
    2:{ symmetry. apply orb_true_iff. destruct Al as [Al|Al]; [auto|right; apply Nat.eqb_eq, Al]. }
    destruct k; injection Q as <- <- <-; cbn; split; auto; discriminate.
Qed.
Lemma handed_same x y : handed k x y -> e_c y = e_c x.
Proof. induction 1 as [|x y z H _ IH]; auto. rewrite IH. apply (hands_same _ _ H). Qed.
Lemma handed_inherits x y : handed k x y -> inherits k x y.
Proof. induction 1; econstructor; eauto. Qed.
Lemma inherits_id x y : k = EndMoves -> inherits k x y -> e_id y = e_id x.
Proof.
  intros M. induction 1 as [|x y z H _ IH|x c z _ IH]; auto.
  rewrite IH. apply (hands_same _ _ H), M.
Qed.
Lemma inherits_snoc x y c : inherits k x y -> inherits k x (mkecoll c (e_id y)).
Proof. induction 1; [eapply i_change, i_here|eapply i_hands; eauto|eapply i_change; eauto]. Qed.

Lemma kept_end y it i : k <> EndStays -> kept k y it i -> same_end k (e_id y) (e_mapend it) = true.
Proof.
  intros N (_ & x & H & ->). assert (K : k = EndNull \/ k = EndMoves) by (destruct k; tauto).
  destruct K as [K|K]; [rewrite K; reflexivity|]. rewrite (inherits_id x y K H). unfold same_end. destruct k; auto; apply Nat.eqb_refl.
Qed.
Lemma kept_ends y it i it' j : k <> EndStays -> kept k y it i -> kept k y it' j -> same_end k (e_mapend it) (e_mapend it') = true.
Proof.
  intros N P P'. pose proof (kept_end y it i N P) as A. pose proof (kept_end y it' j N P') as B. unfold same_end in *. destruct k; auto.
  apply Nat.eqb_eq in A, B. apply Nat.eqb_eq. congruence.
Qed.

Lemma e_nsp_is e m (ns : list (node V)) :
  e_nsp k e m ns = match it_map (next_segment_position ns) with
                   | None => if same_end k e m then Some (next_segment_position ns) else None
                   | Some _ => Some (next_segment_position ns)
                   end.
Proof.
  induction ns as [|n ns IH]; cbn; [reflexivity|]. destruct (ptr_eqb _ _); auto.
Qed.
Lemma e_nsp_same e m (ns : list (node V)) : same_end k e m = true -> e_nsp k e m ns = Some (next_segment_position ns).
Proof. intros Q. rewrite e_nsp_is, Q. destruct (it_map _); auto. Qed.

Lemma e_next_is (y : ecoll V) it it' : it_next (e_c y) (e_it it) = Some it' ->
  same_end k (e_id y) (e_mapend it) = true \/ it_map it' <> None -> e_next k y it = Some (mkeiter it' (e_mapend it)).
Proof.
  unfold it_next, e_next. destruct (it_map (e_it it)) as [i|]; [|discriminate]. destruct (nodes_from _ i) as [[|n ns]|]; try discriminate.
  destruct (_ && _); [|discriminate]. intros Q A. destruct (ptr_eqb _ _); injection Q as <-; [|reflexivity].
  rewrite e_nsp_is. destruct (it_map (next_segment_position ns)) eqn:Qm; [reflexivity|]. destruct A as [->|A]; [reflexivity|contradiction].
Qed.

Lemma e_traverse_same (y : ecoll V) last n : forall first r, same_end k (e_id y) (e_mapend first) = true ->
  traverse n (e_c y) (e_it first) (e_it last) = Some r -> e_traverse k n y first last = Some r.
Proof.
  induction n as [|n IH]; intros first r Q; cbn [traverse e_traverse]; unfold e_eq; destruct (it_eq _ _); auto.
  unfold e_deref. destruct (it_deref _ _) as [v|]; [|discriminate]. destruct (it_next _ _) as [it'|] eqn:Nx; [|discriminate].
  rewrite (e_next_is y first it' Nx (or_introl Q)). destruct (traverse n _ _ _) as [l|] eqn:T; [|discriminate].
  intros R. injection R as <-. rewrite (IH (mkeiter it' (e_mapend first)) l Q T). reflexivity.
Qed.
Lemma located_inside (c : coll V) w g d it i : reach w (c :: g) d -> located c it i -> i < length (flat c) -> it_map it <> None.
Proof. intros H L Hi. destruct (located_points w c g d it i H L Hi) as (t & q & (n & _ & _ & -> & _) & _). cbn. discriminate. Qed.

(** The same call with and without the ends. *)
Definition sim (e : nat) {A B} (f : B -> A) (m : M (ecoll V * world) A) (m' : M (coll V * world) B) : Prop :=
  forall c w, m (mkecoll c e, w) = match m' (c, w) with
                                   | Ok (c', w') b => Ok (mkecoll c' e, w') (f b)
                                   | Exn (c', w') x => Exn (mkecoll c' e, w') x
                                   | UB => UB
                                   end.
Lemma sim_ret e {A B} (f : B -> A) b : sim e f (ret (f b)) (ret b).
Proof. intros c w. reflexivity. Qed.
Lemma sim_ub e {A B} (f : B -> A) : sim e f ub ub.
Proof. intros c w. reflexivity. Qed.
Lemma sim_bind e {A B A' B'} (f : B -> A) (f' : B' -> A') m m' q q' :
  sim e f m m' -> (forall b, sim e f' (q (f b)) (q' b)) -> sim e f' (bind m q) (bind m' q').
Proof.
  intros P Q c w. unfold bind. rewrite P. destruct (m' (c, w)) as [[c' w'] b|[c' w'] x|]; auto.
  apply Q.
Qed.
Lemma sim_get e {A B} (f : B -> A) q q' : (forall c, sim e f (q (mkecoll c e)) (q' c)) -> sim e f (bind getx q) (bind getx q').
Proof. intros Q c w. unfold bind, getx. apply Q. Qed.
Lemma sim_on e {A} (m : M (coll V * world) A) : sim e (fun a => a) (e_on m) m.
Proof. intros c w. cbn. destruct (m (c, w)) as [[c' w'] b|[c' w'] x|]; auto. Qed.
Lemma sim_mk e m i p : same_end k e m = true -> sim e (fun it => mkeiter it m) (e_mk k i m p) (mk_iter i p).
Proof.
  intros Q. unfold e_mk, mk_iter. apply sim_get. intros c. unfold e_make, it_make. destruct i as [i|]; [|apply (sim_ret e (fun it => mkeiter it m))].
  cbn [e_c e_id]. destruct (nodes_from (c_nodes c) i) as [[|n ns]|]; try apply sim_ub. rewrite (e_nsp_same _ _ _ Q).
  destruct (ptr_eqb _ _); apply (sim_ret e (fun it => mkeiter it m)).
Qed.
Lemma sim_erase e pos : same_end k e (e_mapend pos) = true -> sim e (fun it => mkeiter it (e_mapend pos)) (e_erase k pos) (c_erase (e_it pos)).
Proof.
  intros Q. unfold e_erase, c_erase. destruct (it_map (e_it pos)) as [i|]; [|apply sim_ub].
  eapply sim_bind; [apply sim_on|]. intros p. apply sim_mk, Q.
Qed.
Lemma sim_clear e ids last m : same_end k e m = true -> sim e (fun a => a) (e_clear_until k ids last m) (clear_until ids last).
Proof.
  intros Q. induction ids as [|i ids IH]; cbn [e_clear_until clear_until].
  - intros c w. unfold bind, getx. cbn. rewrite Q. destruct last; reflexivity.
  - destruct (mapit_eqb _ _); [apply (sim_ret e (fun a => a))|]. eapply sim_bind; [apply sim_on|]. intros _. apply IH.
Qed.
Lemma sim_erase_range e first last : same_end k e (e_mapend first) = true -> same_end k e (e_mapend last) = true ->
  same_end k (e_mapend first) (e_mapend last) = true ->
  sim e (fun it => mkeiter it (e_mapend first)) (e_erase_range k first last) (c_erase_range (e_it first) (e_it last)).
Proof.
  intros Qf Ql Qfl. unfold e_erase_range, c_erase_range.
  replace (e_mapit_eqb k first last) with (mapit_eqb (it_map (e_it first)) (it_map (e_it last))).
  2:{ unfold e_mapit_eqb, mapit_eqb. destruct (it_map (e_it first)), (it_map (e_it last)); auto. }
  destruct (negb _).
  - destruct (it_map (e_it first)) as [fi|]; [|apply sim_ub]. eapply sim_bind; [apply sim_on|]. intros _.
    apply sim_get. intros c. cbn [e_c]. destruct (nodes_from (c_nodes c) fi) as [[|n ns]|]; try apply sim_ub.
    eapply sim_bind; [apply sim_clear, Ql|]. intros _. destruct (it_map (e_it last)) as [li|].
    + eapply sim_bind; [apply sim_on|]. intros p. apply sim_mk, Qf.
    + apply sim_get. intros c'. cbn [e_id e_c]. rewrite Qf. apply (sim_ret e (fun it => mkeiter it (e_mapend first))).
  - unfold e_eq. destruct (it_eq _ _); [apply sim_mk, Qf|]. destruct (it_map (e_it first)) as [fi|]; [|apply sim_ub].
    eapply sim_bind; [apply sim_on|]. intros p. apply sim_mk, Qf.
Qed.
Lemma wp_sim e {A B} (f : B -> A) m m' y w (Q : coll V * world -> B -> Prop) X : sim e f m m' -> e_id y = e -> wp m' (e_c y, w) Q X ->
  wp m (y, w) (fun '(y', w') a => exists b, a = f b /\ e_id y' = e /\ Q (e_c y', w') b) (fun '(y', w') x => e_id y' = e /\ X (e_c y', w') x).
Proof.
  intros P <- W. destruct y as [c e]. cbn [e_c e_id] in *. unfold wp in *. rewrite P. destruct (m' (c, w)) as [[c' w'] b|[c' w'] x|]; auto.
  exists b. auto.
Qed.

End ProofEnd.
