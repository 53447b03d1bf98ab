(** * Function objects which use iterators they have captured *)

From Coq Require Import List Arith Lia Bool Permutation.
From Verif Require Import Base Vec Backend Segment Coll StdAlg Algo Access Local Walk Many Body Spec SpecAlg SpecAcc SpecLocal SpecWalk SpecMany SpecBody ProofBase ProofVec ProofBackend ProofOps ProofOps2
  ProofSeg ProofMap ProofView ProofAlgo ProofColl ProofIns ProofErase Reach ProofReach ProofObs ProofProp ProofProp4 ProofAccess ProofOwn Properties21 ProofLocal ProofWalk ProofMany.
Import ListNotations.

Section PBody.
Context {V : Type} {E : Env V} {S : Type}.
Implicit Types (c : coll V) (w : world).

(** as [depicts], with [changed] *)
Definition pictured w (g d : list (coll V)) (st : scene V S) (st' : plot (V := V) (S := S)) : Prop :=
  let '((g', s), its) := st in let '((ls, s'), ks) := st' in
  s = s' /\ reach w g' d /\ map flat g' = ls /\ Forall2 (designates_at g') its ks /\ Forall2 changed g g'.
Definition simulates w g d {A B} (m : M (scene V S) A) (m' : M (plot (V := V) (S := S)) B) (R : A -> B -> Prop) : Prop :=
  forall st st', pictured w g d st st' ->
    match m' st' with
    | Ok st1' b => exists st1 a, m st = Ok st1 a /\ pictured w g d st1 st1' /\ R a b
    | Exn st1' e => exists st1, m st = Exn st1 e /\ pictured w g d st1 st1'
    | UB => True
    end.

Lemma sim_ret w g d {A B} (a : A) (b : B) (R : A -> B -> Prop) : R a b -> simulates w g d (ret a) (ret b) R.
Proof. intros HR st st' P. cbn. exists st, a. auto. Qed.
Lemma sim_bind w g d {A B A' B'} (m : M (scene V S) A) (m' : M (plot (V := V) (S := S)) B) R (f : A -> M (scene V S) A') (f' : B -> M (plot (V := V) (S := S)) B') R' :
  simulates w g d m m' R -> (forall a b, R a b -> simulates w g d (f a) (f' b) R') -> simulates w g d (bind m f) (bind m' f') R'.
Proof.
  intros H K st st' P. unfold bind. specialize (H st st' P). destruct (m' st') as [st1' b|st1' e|]; auto.
  - destruct H as (st1 & a & -> & P1 & HR). apply K; auto.
  - destruct H as (st1 & -> & P1). exists st1. auto.
Qed.
Lemma sim_same w g d {A A' B} (m0 : M (scene V S) A) (m : M (scene V S) A') (m' : M (plot (V := V) (S := S)) B) R R' (R'' : A -> B -> Prop) :
  same_as m0 m R -> simulates w g d m m' R' -> (forall a b x, R a b -> R' b x -> R'' a x) -> simulates w g d m0 m' R''.
Proof.
  intros H K HR st st' P. specialize (K st st' P). specialize (H st). destruct (m' st') as [st1' b|st1' e|]; auto.
  - destruct K as (st1 & a & Q & P1 & Ra). rewrite Q in H. destruct (m0 st) as [s1 a0| |]; try contradiction. destruct H as (-> & Ra0). eauto 6.
  - destruct K as (st1 & Q & P1). rewrite Q in H. destruct (m0 st) as [|s1 e1|]; try contradiction. destruct H as (-> & ->). eauto.
Qed.

Lemma Forall2_at {A B} (R : A -> B -> Prop) l l' k x : Forall2 R l l' -> nth_error l k = Some x -> exists y, nth_error l' k = Some y /\ R x y.
Proof.
  intros F. revert k. induction F as [|a b l l' Q F IH]; intros [|k]; cbn; try discriminate; eauto. intros H. injection H as <-. eauto.
Qed.

(** the addresses of the elements stay *)
Lemma nrefs_addr (n n' : node V) : alike n n' -> map r_addr (nrefs n') = map r_addr (nrefs n).
Proof.
  intros (_ & _ & _ & _ & Eb & _ & _ & _ & _ & Es). unfold nrefs. rewrite !map_map. cbn [r_addr]. unfold vptr. rewrite Eb.
  assert (G : forall (l l' : list V) k, length l' = length l ->
     map (fun kv : nat * V => (v_blk (be_store (sg_be (n_seg n))), fst kv)) (number k l') = map (fun kv : nat * V => (v_blk (be_store (sg_be (n_seg n))), fst kv)) (number k l)).
  { induction l as [|x l IH]; intros [|y l'] k Hl; cbn in Hl; try discriminate; cbn; auto. f_equal. apply IH. lia. }
  apply G. exact Es.
Qed.
Lemma shape_addrs c c' : shape c c' -> map r_addr (refs c') = map r_addr (refs c).
Proof.
  intros [F _]. rewrite !refs_nodes. induction F as [|n n' l l' A F IH]; cbn [flat_map]; auto. rewrite !map_app, IH, (nrefs_addr n n' A). reflexivity.
Qed.

(** one call *)
Lemma run_act_sim {X} w g d k c Ts i r (a : act V S X) : nth_error g k = Some c -> nth_error (refs c) i = Some r -> simulates w g d (run_act k (seen Ts r) a) (run_act_seq k i a) eq.
Proof.
  intros Hc Hr. induction a as [x|A f next IH|A p next IH].
  - apply sim_ret. reflexivity.
  - intros [[g' s] its] [[ls s'] ks] (<- & H & El & F & Ch). cbn [run_act run_act_seq fst snd]. subst ls. rewrite nth_error_map.
    destruct (Forall2_at _ _ _ _ _ Ch Hc) as (c' & Hc' & Sh & Ef). rewrite Hc'. cbn [option_map].
    destruct (nth_error (flat c') i) as [[t v]|] eqn:Qv; [|exact I].
    pose proof (reach_front w g' d k c' H Hc') as Hf. destruct (located_exists w c' _ d i Hf) as (it & L); [apply Nat.lt_le_incl, nth_error_Some; congruence|].
    destruct (ref_located f w c' _ d it i t v s Hf L Qv) as (q & Qq & Hw & Qo).
    assert (Er : exists r', nth_error (refs c') i = Some r' /\ r_addr r' = r_addr r /\ r_ty r' = t).
    { pose proof Qv as Q'. rewrite <- refs_flat, nth_error_map in Q'. destruct (nth_error (refs c') i) as [r'|] eqn:Hr'; [|discriminate]. injection Q' as Et _.
      exists r'. csplit; auto. pose proof (shape_addrs c c' Sh) as Sa. apply (f_equal (fun l => nth_error l i)) in Sa. rewrite !nth_error_map, Hr, Hr' in Sa. cbn in Sa. congruence. }
    destruct Er as (r' & Hr' & Ea & Et). pose proof (it_ref_located w c' _ d it i r' Hf L Hr') as Qr. rewrite Qq in Qr. injection Qr as Qr.
    assert (Ety : r_ty r = t).
    { pose proof Qv as Q'. apply (map_nth_error fst) in Q'. rewrite Ef in Q'. rewrite <- refs_flat, map_map, nth_error_map, Hr in Q'. cbn in Q'. congruence. }
    assert (Qo' : on_obj (fst (seen Ts r)) (r_addr (snd (seen Ts r))) f (c', s) = on_obj None q f (c', s)).
    { unfold seen. cbn [fst snd]. rewrite Qr, Ea. unfold on_obj. rewrite <- Ea.
      rewrite obj_at_refs; [|exact (reach_vok _ _ _ _ Hf)|rewrite <- refs_nodes; eapply nth_error_In; eauto].
      rewrite Ety, Et. destruct (existsb (Nat.eqb t) Ts); [rewrite Nat.eqb_refl|]; reflexivity. }
    unfold on_nth. cbn [fst snd]. rewrite Hc', Qo', Qo.
    assert (Ln : k < length g') by (apply nth_error_Some; congruence).
    assert (All : forall v' s', pictured w g d ((reg_set k (c_write q v' c') g', s'), its) ((reg_set k (reg_set i (t, v') (flat c')) (map flat g'), s'), ks)).
    { intros v' s'. destruct (Hw v') as (R' & Sh' & Ef'). set (c1 := c_write q v' c') in *.
      assert (Em : map fst (flat c1) = map fst (flat c')).
      { rewrite Ef', reg_set_map. apply reg_set_same. cbn [fst]. rewrite nth_error_map, Qv. reflexivity. }
      unfold pictured. csplit; auto.
      - apply reach_back. exact R'.
      - rewrite reg_set_map, Ef'. reflexivity.
      - clear - F Hf R' Sh' Hc' Ln. induction F as [|x y l l' (Q & c0 & Q1 & Q2) F IH]; constructor; auto. split; auto.
        rewrite reg_set_nth by exact Ln. destruct (Nat.eqb_spec (fst y) k) as [e|Ne]; [|eauto].
        exists c1. split; [reflexivity|]. rewrite e in Q1. assert (c0 = c') by congruence. subst c0. eapply ProofWalk.shape_located; [exact Hf|exact R'|exact Sh'|exact Q2].
      - eapply all_changed_trans; [exact Ch|]. rewrite (split_nth k c' g' Hc') at 1. unfold reg_set. apply Forall2_app; [apply all_changed_refl|].
        constructor; [|apply all_changed_refl]. split; [exact Sh'|exact Em]. }
    destruct (f t (v, s)) as [[v' s'] b|[v' s'] e|]; [| |exact I].
    + apply IH. apply All.
    + eexists. split; [reflexivity|]. apply All.
  - intros [[g' s] its] [[ls s'] ks] (<- & H & El & F & Ch). cbn [run_act run_act_seq fst snd]. subst ls.
    pose proof (run_walks_seqs p its ks w g' d s H F) as R. cbn zeta in R.
    destruct (run_seqs p ks (map flat g', s)) as [[ls' s'] [b ks']|[ls' s'] e|]; [| |exact I].
    + destruct R as (g1 & its1 & -> & (R1 & R2 & R3) & F1). apply IH. unfold pictured. csplit; auto. eapply all_changed_trans; eauto.
    + destruct R as (g1 & -> & R1 & R2 & R3). eexists. split; [reflexivity|]. unfold pictured. csplit; auto.
      * clear - F R3 H R1. induction F as [|x y l l' (Q & c0 & Q1 & Q2) F IH]; constructor; auto. split; auto.
        destruct (Forall2_at _ _ _ _ _ R3 Q1) as (c1 & Hc1 & Sh & _). exists c1. split; auto. eapply Properties21.shape_located; eauto.
      * eapply all_changed_trans; eauto.
Qed.
Lemma calling_sim {X} w g d k c Ts i r (F : option tyid -> act V S X) : nth_error g k = Some c -> nth_error (refs c) i = Some r ->
  simulates w g d (calling k F (seen Ts r)) (calling_seq Ts k F i) eq.
Proof.
  intros Hc Hr st st' P. unfold calling_seq, calling. destruct st as [[g' s] its], st' as [[ls s'] ks]. pose proof P as P0. destruct P as (_ & _ & El & _ & Ch). cbn [fst snd].
  destruct (Forall2_at _ _ _ _ _ Ch Hc) as (c' & Hc' & Sh & Ef). rewrite <- El, nth_error_map, Hc'. cbn [option_map].
  destruct (nth_error (flat c') i) as [[t v]|] eqn:Qv; [|exact I].
  assert (Ety : r_ty r = t).
  { pose proof Qv as Q'. apply (map_nth_error fst) in Q'. rewrite Ef in Q'. rewrite <- refs_flat, map_map, nth_error_map, Hr in Q'. cbn in Q'. congruence. }
  rewrite <- El in P0. pose proof (run_act_sim w g d k c Ts i r (F (fst (seen Ts r))) Hc Hr _ _ P0) as Q. cbn [seen fst] in Q. rewrite Ety in Q. cbn [seen fst]. rewrite Ety. exact Q.
Qed.

(** what the function objects are called on, by position *)
Lemma refs_seq c i j : i <= j -> j <= length (refs c) -> Forall2 (fun r m => nth_error (refs c) m = Some r) (between i j (refs c)) (seq i (j - i)).
Proof.
  intros L B. unfold between. remember (j - i) as n eqn:Hn. assert (Hi : i + n <= length (refs c)) by lia. clear - Hi. revert i Hi.
  induction n as [|n IH]; intros i Hi; cbn [firstn seq]; [constructor|].
  destruct (nth_error (refs c) i) as [r|] eqn:Hr; [|apply nth_error_None in Hr; lia].
  assert (Q : skipn i (refs c) = r :: skipn (Datatypes.S i) (refs c)).
  { clear - Hr. revert i Hr. induction (refs c) as [|x l IHl]; intros [|i] Hr; cbn in *; try discriminate; [congruence|]. apply IHl. exact Hr. }
  rewrite Q. constructor; auto. apply IH. lia.
Qed.

(** the algorithms of the standard library on related sequences *)
Section Lists.
Context {X Y : Type} (w : world) (g d : list (coll V)) (Rx : X -> Y -> Prop).

Lemma for_each_sim (f : X -> M (scene V S) unit) (f' : Y -> M (plot (V := V) (S := S)) unit) xs ys : Forall2 Rx xs ys -> (forall x y, Rx x y -> simulates w g d (f x) (f' y) eq) ->
  simulates w g d (std_for_each f xs) (std_for_each f' ys) eq.
Proof.
  intros F H. induction F as [|x y xs ys Q F IH]; cbn [std_for_each]; [apply sim_ret; reflexivity|]. eapply sim_bind; [apply H, Q|]. intros _ _ _. apply IH.
Qed.
Lemma find_if_sim (f : X -> M (scene V S) bool) (f' : Y -> M (plot (V := V) (S := S)) bool) xs ys : Forall2 Rx xs ys -> (forall x y, Rx x y -> simulates w g d (f x) (f' y) eq) ->
  simulates w g d (std_find_if f xs) (std_find_if f' ys) eq.
Proof.
  intros F H. induction F as [|x y xs ys Q F IH]; cbn [std_find_if]; [apply sim_ret; reflexivity|]. eapply sim_bind; [apply H, Q|]. intros b ? <-.
  destruct b; [apply sim_ret; reflexivity|]. eapply sim_bind; [apply IH|]. intros n ? <-. apply sim_ret. reflexivity.
Qed.
Lemma count_if_sim (f : X -> M (scene V S) bool) (f' : Y -> M (plot (V := V) (S := S)) bool) xs ys : Forall2 Rx xs ys -> (forall x y, Rx x y -> simulates w g d (f x) (f' y) eq) ->
  simulates w g d (std_count_if f xs) (std_count_if f' ys) eq.
Proof.
  intros F H. induction F as [|x y xs ys Q F IH]; cbn [std_count_if]; [apply sim_ret; reflexivity|]. eapply sim_bind; [apply H, Q|]. intros b ? <-.
  eapply sim_bind; [apply IH|]. intros n ? <-. apply sim_ret. reflexivity.
Qed.
Lemma all_of_sim (f : X -> M (scene V S) bool) (f' : Y -> M (plot (V := V) (S := S)) bool) xs ys : Forall2 Rx xs ys -> (forall x y, Rx x y -> simulates w g d (f x) (f' y) eq) ->
  simulates w g d (std_all_of f xs) (std_all_of f' ys) eq.
Proof.
  intros F H. induction F as [|x y xs ys Q F IH]; cbn [std_all_of]; [apply sim_ret; reflexivity|]. eapply sim_bind; [apply H, Q|]. intros b ? <-.
  destruct b; [apply IH|apply sim_ret; reflexivity].
Qed.
Lemma copy_sim (f : nat -> X -> M (scene V S) unit) (f' : nat -> Y -> M (plot (V := V) (S := S)) unit) xs ys : Forall2 Rx xs ys -> (forall o x y, Rx x y -> simulates w g d (f o x) (f' o y) eq) ->
  forall o, simulates w g d (std_copy f xs o) (std_copy f' ys o) eq.
Proof.
  intros F H. induction F as [|x y xs ys Q F IH]; intros o; cbn [std_copy]; [apply sim_ret; reflexivity|]. eapply sim_bind; [apply H, Q|]. intros _ _ _. apply IH.
Qed.
End Lists.

Lemma pictured_depicts w g d st st' : reach w g d -> pictured w g d st st' -> depicts w g d st st'.
Proof.
  destruct st as [[g' s] its], st' as [[ls s'] ks]. intros H (A & B & C & D & F). unfold depicts. csplit; auto.
  assert (Gen : forall l l', Forall2 changed l l' -> (forall c, In c l -> In c g) ->
      Forall2 (fun c c' => map fst (flat c') = map fst (flat c) /\ updated c c' 0 (map snd (flat c'))) l l'); [|apply Gen; auto].
  clear - H. intros l l' F'. induction F' as [|c c' l l' Q F' IH]; intros Hi; constructor.
  - split; [apply Q|]. destruct (In_nth_error g c (Hi c (or_introl eq_refl))) as (k & Hk). eapply changed_updated; eauto.
  - apply IH. intros x Hx. apply Hi. right. exact Hx.
Qed.
Lemma simulates_enacts w g d its ks {A B} (m : M (scene V S) A) (m' : M (plot (V := V) (S := S)) B) R : reach w g d -> Forall2 (designates_at g) its ks ->
  simulates w g d m m' R -> enacts w g d its ks m m' R.
Proof.
  intros H F Q s. specialize (Q ((g, s), its) ((map flat g, s), ks)).
  assert (P : pictured w g d ((g, s), its) ((map flat g, s), ks)) by (unfold pictured; csplit; auto; apply all_changed_refl).
  specialize (Q P). destruct (m' _) as [st' b|st' e|]; auto.
  - destruct Q as (st & a & Q1 & Q2 & Q3). exists st, a. csplit; auto. apply pictured_depicts; auto.
  - destruct Q as (st & Q1 & Q2). exists st. csplit; auto. apply pictured_depicts; auto.
Qed.

End PBody.

(** ** A function object which looks at the element before *)

Section Scan.
Context {V : Type} {S : Type}.
Notation obj := (tyid * V)%type.

Lemma reg_set_app {X} (pre : list X) x z r : reg_set (length pre) z (pre ++ x :: r) = pre ++ z :: r.
Proof.
  unfold reg_set. rewrite firstn_app, Nat.sub_diag, firstn_all2 by lia. cbn [firstn]. rewrite app_nil_r, skipn_app, skipn_all2 by lia.
  replace (Datatypes.S (length pre) - length pre) with 1 by lia. reflexivity.
Qed.
Lemma nth_app_at {X} (pre : list X) x r : nth_error (pre ++ x :: r) (length pre) = Some x.
Proof. rewrite nth_error_app2, Nat.sub_diag by lia. reflexivity. Qed.

Lemma scan_seqs (h : obj -> obj -> V) Ts k : forall ys pre (x : obj) post ls (s : S), nth_error ls k = Some (pre ++ x :: ys ++ post) ->
  std_for_each (calling_seq Ts k (scanning h)) (seq (1 + length pre) (length ys)) ((ls, s), [(k, length pre)]) =
    Ok ((reg_set k (pre ++ x :: scan (fun a b => (fst b, h a b)) x ys ++ post) ls, s), [(k, length pre + length ys)]) tt.
Proof.
  induction ys as [|[t v] ys IH]; intros pre x post ls s Hk; cbn [length seq std_for_each scan].
  - cbn [app] in *. rewrite (reg_set_same k _ ls Hk), Nat.add_0_r. reflexivity.
  - cbn [app] in Hk. unfold bind at 1.
    assert (Kl : k < length ls) by (apply nth_error_Some; congruence).
    assert (N1 : nth_error (pre ++ x :: (t, v) :: ys ++ post) (1 + length pre) = Some (t, v)).
    { replace (pre ++ x :: (t, v) :: ys ++ post) with ((pre ++ [x]) ++ (t, v) :: ys ++ post) by (rewrite <- app_assoc; reflexivity).
      replace (1 + length pre) with (length (pre ++ [x])) by (rewrite app_length; cbn; lia). apply nth_app_at. }
    unfold calling_seq at 1. cbn [fst snd]. rewrite Hk, N1. unfold scanning at 1. cbn [run_act_seq fst snd].
    rewrite (look_seqs _ _ 0 [(k, length pre)] k (length pre) _ x ls s eq_refl Hk (nth_app_at pre x _)). unfold ret at 1. cbn [run_seqs nth_error fst]. rewrite Hk.
    rewrite (proj2 (Nat.ltb_lt _ _)) by (rewrite app_length; cbn; lia).
    change (reg_set 0 (k, Datatypes.S (length pre)) [(k, length pre)]) with [(k, 1 + length pre)]. unfold ret at 1. rewrite Hk, N1.
    unfold assigning at 1, modify. cbn [fst snd]. unfold ret at 1.
    assert (Er : reg_set (1 + length pre) (t, h x (t, v)) (pre ++ x :: (t, v) :: ys ++ post) = (pre ++ [x]) ++ (t, h x (t, v)) :: ys ++ post).
    { replace (pre ++ x :: (t, v) :: ys ++ post) with ((pre ++ [x]) ++ (t, v) :: ys ++ post) by (rewrite <- app_assoc; reflexivity).
      replace (1 + length pre) with (length (pre ++ [x])) by (rewrite app_length; cbn; lia). apply reg_set_app. }
    change (Datatypes.S (length pre)) with (1 + length pre) in *. rewrite Er.
    specialize (IH (pre ++ [x]) (t, h x (t, v)) post (reg_set k ((pre ++ [x]) ++ (t, h x (t, v)) :: ys ++ post) ls) s).
    rewrite app_length in IH. cbn [length] in IH. replace (length pre + 1) with (1 + length pre) in IH by lia.
    etransitivity; [apply IH; rewrite reg_set_nth by exact Kl; rewrite Nat.eqb_refl; reflexivity|].
    rewrite reg_set_twice by exact Kl. cbn [fst]. rewrite <- app_assoc. cbn [app]. do 4 f_equal. lia.
Qed.
End Scan.
