(** * The algorithms of the standard library run with iterators of a collection *)

From Coq Require Import List Arith Lia Bool.
From Verif Require Import Base Vec Backend Segment Coll StdAlg Algo Access Local Walk WalkStd Spec SpecAlg SpecAcc SpecLocal SpecWalk SpecStd ProofBase ProofVec ProofBackend ProofOps ProofOps2
  ProofSeg ProofMap ProofView ProofAlgo ProofColl ProofIns ProofErase Reach ProofReach ProofObs ProofProp ProofProp4 ProofProp5 ProofAccess ProofOwn Properties21 ProofLocal ProofWalk.
Import ListNotations.

Section PStd.
Context {V : Type} {S : Type}.
Notation obj := (tyid * V)%type.
Notation W := (walk V S).
Notation SS := Datatypes.S.

(** The program does on the sequence [l] what [o] says, and does not change it. *)
Definition seq_ok {X B} (p : W X) (ks : list nat) (l : list obj) (s : S) (o : outcome S B) (Q : B -> X * list nat -> Prop) : Prop :=
  match o with
  | Ok s' b => exists r, run_seq p ks (l, s) = Ok (l, s') r /\ Q b r
  | Exn s' e => run_seq p ks (l, s) = Exn (l, s') e
  | UB => True
  end.

Lemma seq_done {X B} (x : X) (b : B) ks l s (Q : B -> X * list nat -> Prop) : Q b (x, ks) -> seq_ok (Done x) ks l s (ret b s) Q.
Proof. intros H. exists (x, ks). split; [reflexivity|exact H]. Qed.
Lemma seq_ref {X B A} (f : obj -> M S A) (next : A -> W X) (h : A -> M S B) r k ks l s x (Q : B -> X * list nat -> Prop) :
  nth_error ks r = Some k -> nth_error l k = Some x -> (forall a s', seq_ok (next a) ks l s' (h a s') Q) ->
  seq_ok (Ref r (looking f) next) ks l s (bind (f x) h s) Q.
Proof.
  intros Hr Hx H. destruct x as [t v]. unfold seq_ok, bind. cbn [run_seq fst snd]. rewrite Hr. cbn [fst snd]. rewrite Hx. unfold looking. cbn [fst snd].
  destruct (f (t, v) s) as [s' a|s' e|]; auto; rewrite (reg_set_same k (t, v) l Hx); auto. exact (H a s').
Qed.
(** looking at an element without doing anything *)
Lemma seq_look {X B} (next : obj -> W X) r k ks l s x (o : outcome S B) (Q : B -> X * list nat -> Prop) :
  nth_error ks r = Some k -> nth_error l k = Some x -> seq_ok (next x) ks l s o Q ->
  seq_ok (Ref r (looking (fun x => ret x)) next) ks l s o Q.
Proof.
  intros Hr Hx H. destruct x as [t v]. unfold seq_ok in *. cbn [run_seq fst snd]. rewrite Hr. cbn [fst snd]. rewrite Hx. unfold looking, ret. cbn [fst snd].
  rewrite (reg_set_same k (t, v) l Hx). exact H.
Qed.
Lemma seq_map {X B C} (p : W X) ks l s (m : M S B) (f : B -> C) (Q : C -> X * list nat -> Prop) :
  seq_ok p ks l s (m s) (fun b r => Q (f b) r) -> seq_ok p ks l s (bind m (fun b => ret (f b)) s) Q.
Proof. unfold seq_ok, bind. destruct (m s); auto. Qed.
Lemma seq_inc {X B} (next : W X) r k ks l s (o : outcome S B) (Q : B -> X * list nat -> Prop) :
  nth_error ks r = Some k -> k < length l -> seq_ok next (reg_set r (SS k) ks) l s o Q -> seq_ok (Inc r next) ks l s o Q.
Proof. intros Hr Hk H. unfold seq_ok in *. cbn [run_seq fst]. rewrite Hr. cbn [fst]. rewrite (proj2 (Nat.ltb_lt _ _)) by auto. exact H. Qed.
Lemma seq_mono {X B} (p : W X) ks l s (o : outcome S B) (Q Q' : B -> X * list nat -> Prop) :
  seq_ok p ks l s o Q -> (forall b r, Q b r -> Q' b r) -> seq_ok p ks l s o Q'.
Proof. unfold seq_ok. destruct o; auto. intros (r & H1 & H2) H. eauto. Qed.

Lemma skipn_nth {A} k (l : list A) x : nth_error l k = Some x -> skipn k l = x :: skipn (SS k) l.
Proof. revert l. induction k as [|k IH]; intros [|y l] H; try discriminate H; [injection H as ->; reflexivity|]. exact (IH l H). Qed.
Lemma between_cons {A} k e (l : list A) : k < e -> e <= length l -> exists x, nth_error l k = Some x /\ between k e l = x :: between (SS k) e l.
Proof.
  intros Hk He. destruct (nth_error l k) as [x|] eqn:Q; [|apply nth_error_None in Q; lia]. exists x. split; auto. unfold between.
  replace (e - k) with (SS (e - SS k)) by lia. rewrite (skipn_nth k l x Q). reflexivity.
Qed.

Lemma w_for_ok {A X B} (body : A -> (A -> W X) -> W X) fin (D : A -> list obj -> M S B) (Q : A -> nat -> B -> X * list nat -> Prop) e rest l :
  e <= length l ->
  (forall a s, seq_ok (fin a) (e :: e :: rest) l s (D a [] s) (Q a e)) ->
  (forall a k x next s, k < e -> nth_error l k = Some x ->
     (forall a' s', seq_ok (next a') (k :: e :: rest) l s' (D a' (between (SS k) e l) s') (Q a' (SS k))) ->
     seq_ok (body a next) (k :: e :: rest) l s (D a (x :: between (SS k) e l) s) (Q a k)) ->
  forall n fuel k a s, k + n = e -> n <= fuel -> seq_ok (w_for fuel body fin a) (k :: e :: rest) l s (D a (between k e l) s) (Q a k).
Proof.
  intros He Hf Hb. induction n as [|n IH]; intros fuel k a s Hk Hn.
  - assert (k = e) as -> by lia. unfold between. rewrite Nat.sub_diag. cbn [firstn].
    assert (R : run_seq (w_for fuel body fin a) (e :: e :: rest) = run_seq (fin a) (e :: e :: rest)) by (destruct fuel; cbn [w_for run_seq nth_error]; rewrite Nat.eqb_refl; reflexivity).
    specialize (Hf a s). unfold seq_ok in *. rewrite R. exact Hf.
  - destruct fuel as [|fuel]; [lia|]. destruct (between_cons k e l ltac:(lia) He) as (x & Hx & ->).
    assert (R : run_seq (w_for (SS fuel) body fin a) (k :: e :: rest) = run_seq (body a (fun a' => Inc 0 (w_for fuel body fin a'))) (k :: e :: rest)).
    { cbn [w_for run_seq nth_error]. rewrite (proj2 (Nat.eqb_neq _ _)) by lia. reflexivity. }
    specialize (Hb a k x (fun a' => Inc 0 (w_for fuel body fin a')) s ltac:(lia) Hx). unfold seq_ok in Hb |- *. rewrite R. apply Hb.
    intros a' s'. apply (seq_inc _ 0 k); [reflexivity|lia|]. change (reg_set 0 (SS k) (k :: e :: rest)) with (SS k :: e :: rest). apply IH; lia.
Qed.

Definition result {X} (b : X) (r : X * list nat) : Prop := fst r = b.

Ltac step := eapply seq_ref; [reflexivity|eassumption|].
Ltac look := eapply seq_look; [reflexivity|eassumption|].

Section Whole.
Context (l : list obj) (fuel : nat) (Hf : length l <= fuel) (s : S).
Notation N := (length l).

Ltac loop D Q := 
  apply (w_for_ok _ _ D Q N [] l (le_n _)) with (n := N); auto; [| |unfold between; rewrite Nat.sub_0_r; cbn [skipn]; rewrite firstn_all; auto].

Lemma between_whole : between 0 N l = l.
Proof. unfold between. rewrite Nat.sub_0_r. cbn [skipn]. apply firstn_all. Qed.

(** the loop over the whole sequence *)
Lemma w_for_whole {A X B} (body : A -> (A -> W X) -> W X) fin (D : A -> list obj -> M S B) (Q : A -> nat -> B -> X * list nat -> Prop) a :
  (forall a s, seq_ok (fin a) [N; N] l s (D a [] s) (Q a N)) ->
  (forall a k x tl next s, k < N -> nth_error l k = Some x -> length tl = N - SS k ->
     (forall a' s', seq_ok (next a') [k; N] l s' (D a' tl s') (Q a' (SS k))) ->
     seq_ok (body a next) [k; N] l s (D a (x :: tl) s) (Q a k)) ->
  seq_ok (w_for fuel body fin a) [0; N] l s (D a l s) (Q a 0).
Proof.
  intros H1 H2. pose proof (w_for_ok body fin D Q N [] l (le_n _) H1) as K. rewrite <- between_whole at 3.
  apply (K) with (n := N); auto. intros a' k x next s' Hk Hx Hn. apply H2; auto. apply between_length; auto.
Qed.

Lemma all_of_seq p : seq_ok (w_all_of fuel p) [0; N] l s (std_all_of p l s) result.
Proof.
  apply (w_for_whole _ _ (fun _ l => std_all_of p l) (fun _ _ => result)).
  - intros. apply seq_done. reflexivity.
  - intros. step. intros [] s'; [apply H2|apply seq_done; reflexivity].
Qed.
Lemma any_of_seq p : seq_ok (w_any_of fuel p) [0; N] l s (std_any_of p l s) result.
Proof.
  apply (w_for_whole _ _ (fun _ l => std_any_of p l) (fun _ _ => result)).
  - intros. apply seq_done. reflexivity.
  - intros. step. intros [] s'; [apply seq_done; reflexivity|apply H2].
Qed.
Lemma none_of_seq p : seq_ok (w_none_of fuel p) [0; N] l s (std_none_of p l s) result.
Proof.
  apply (w_for_whole _ _ (fun _ l => std_none_of p l) (fun _ _ => result)).
  - intros. apply seq_done. reflexivity.
  - intros. step. intros [] s'; [apply seq_done; reflexivity|apply H2].
Qed.
Lemma for_each_seq f : seq_ok (w_for_each fuel f) [0; N] l s (std_for_each f l s) result.
Proof.
  apply (w_for_whole _ _ (fun _ l => std_for_each f l) (fun _ _ => result)).
  - intros. apply seq_done. reflexivity.
  - intros. cbn [std_for_each]. step. intros [] s'. apply H2.
Qed.
Lemma count_if_seq p : seq_ok (w_count_if fuel p) [0; N] l s (std_count_if p l s) result.
Proof.
  apply (w_for_whole _ _ (fun _ l => std_count_if p l) (fun a _ b r => fst r = a + b)).
  - intros. apply seq_done. cbn. lia.
  - intros. cbn [std_count_if]. step. intros b s'. apply (seq_map _ _ _ _ _ (fun n => if b then 1 + n else n)). 
    eapply seq_mono; [apply H2|]. cbn. intros n r ->. destruct b; lia.
Qed.
(** an iterator: the position in variable 0 *)
Definition at_pos {X} (k m : nat) (r : X * list nat) : Prop := snd r = [k + m; N].
Lemma find_if_not_seq p : seq_ok (w_find_if_not fuel p) [0; N] l s (std_find_if_not p l s) (at_pos 0).
Proof.
  apply (w_for_whole _ _ (fun _ l => std_find_if_not p l) (fun _ k => at_pos k)).
  - intros. apply seq_done. unfold at_pos. cbn. f_equal; lia.
  - intros. cbn [std_find_if_not]. step. intros [] s'.
    + apply (seq_map _ _ _ _ _ (fun n => 1 + n)). eapply seq_mono; [apply H2|]. unfold at_pos. intros n r ->. f_equal; lia.
    + apply seq_done. unfold at_pos. cbn. f_equal; lia.
Qed.

Section Two.
Context {Y : Type}.
Lemma any2_seq {X B} (p : obj -> Y -> M S bool) ys : forall (yes no : W X) k x s (h : bool -> M S B) (Q : B -> X * list nat -> Prop), nth_error l k = Some x ->
  (forall s', seq_ok yes [k; N] l s' (h true s') Q) -> (forall s', seq_ok no [k; N] l s' (h false s') Q) ->
  seq_ok (w_any2 p ys yes no) [k; N] l s (bind (std_any_of2 p x ys) h s) Q.
Proof.
  induction ys as [|y ys IH]; intros yes no k x s0 h Q Hx H1 H2; cbn [w_any2 std_any_of2]; [apply H2|].
  assert (R : forall (b : bool -> M S bool), bind (bind (p x y) b) h s0 = bind (p x y) (fun a => bind (b a) h) s0) by (intros b; unfold bind; destruct (p x y s0); reflexivity).
  rewrite R. apply (seq_ref (fun x => p x y) _ _ 0 k); [reflexivity|assumption|]. intros [] s'; [apply H1|]. apply IH; auto.
Qed.
Lemma find_first_of_seq (p : obj -> Y -> M S bool) ys : seq_ok (w_find_first_of fuel p ys) [0; N] l s (std_find_first_of p ys l s) (at_pos 0).
Proof.
  apply (w_for_whole _ _ (fun _ l => std_find_first_of p ys l) (fun _ k => at_pos k)).
  - intros. apply seq_done. unfold at_pos. cbn. f_equal; lia.
  - intros. cbn [std_find_first_of]. apply any2_seq; auto.
    + intros s'. apply seq_done. unfold at_pos. cbn. f_equal; lia.
    + intros s'. apply (seq_map _ _ _ _ _ (fun n => 1 + n)). eapply seq_mono; [apply H2|]. unfold at_pos. intros n r ->. f_equal; lia.
Qed.
Lemma skipn_none {A} m (ys : list A) : nth_error ys m = None -> skipn m ys = [].
Proof. intros H. apply skipn_all2, nth_error_None. exact H. Qed.
Lemma mismatch_seq bounded (p : obj -> Y -> M S bool) ys : seq_ok (w_mismatch bounded fuel p ys) [0; N] l s ((if bounded then std_mismatch_to else std_mismatch) p l ys s)
  (fun m r => r = (m, [m; N])).
Proof.
  pose proof (w_for_whole (fun m next =>
    match nth_error ys m with
    | Some y => Ref 0 (looking (fun x => p x y)) (fun b => if b then next (1 + m) else Done m)
    | None => if bounded then Done m else Lost
    end) (fun m => Done m) (fun m l => (if bounded then std_mismatch_to else std_mismatch) p l (skipn m ys)) (fun m k n r => r = (m + n, [k + n; N])) 0) as K.
  eapply seq_mono; [apply K|auto].
  - intros a s0. assert (R : (if bounded then std_mismatch_to else std_mismatch) p [] (skipn a ys) s0 = ret 0 s0) by (destruct bounded; reflexivity).
    rewrite R. apply seq_done. rewrite !Nat.add_0_r. reflexivity.
  - intros m k x tl next s0 Hk Hx Ht Hn. destruct (nth_error ys m) as [y|] eqn:Qy.
    + rewrite (skipn_nth m ys y Qy).
      assert (R : (if bounded then std_mismatch_to else std_mismatch) p (x :: tl) (y :: skipn (SS m) ys) s0 =
        bind (p x y) (fun b : bool => if b then bind ((if bounded then std_mismatch_to else std_mismatch) p tl (skipn (SS m) ys)) (fun k => ret (1 + k)) else ret 0) s0) by (destruct bounded; reflexivity).
      rewrite R. apply (seq_ref (fun x => p x y) _ _ 0 k); [reflexivity|assumption|]. intros [] s'.
      * apply (seq_map _ _ _ _ _ (fun n => 1 + n)). eapply seq_mono; [apply Hn|]. cbn beta. intros n r ->. f_equal; [lia|]. f_equal. lia.
      * apply seq_done. rewrite !Nat.add_0_r. reflexivity.
    + rewrite (skipn_none m ys Qy). destruct bounded; [|exact I].
      assert (R : std_mismatch_to p (x :: tl) [] s0 = ret 0 s0) by reflexivity. rewrite R. apply seq_done. rewrite !Nat.add_0_r. reflexivity.
Qed.
Lemma equal_seq bounded (p : obj -> Y -> M S bool) ys : seq_ok (w_equal bounded fuel p ys) [0; N] l s ((if bounded then std_equal_to else std_equal) p l ys s) result.
Proof.
  pose proof (w_for_whole (fun m next =>
    match nth_error ys m with
    | Some y => Ref 0 (looking (fun x => p x y)) (fun b => if b then next (1 + m) else Done false)
    | None => if bounded then Done false else Lost
    end) (fun m => Done (negb bounded || (m =? length ys))) (fun m l s => if m <=? length ys then (if bounded then std_equal_to else std_equal) p l (skipn m ys) s else UB)
    (fun m k => result) 0) as K. cbn [Nat.leb skipn] in K. apply K.
  - intros m s0. destruct (Nat.leb_spec m (length ys)) as [L|]; [|exact I].
    assert (R : (if bounded then std_equal_to else std_equal) p [] (skipn m ys) s0 = ret (negb bounded || (m =? length ys)) s0).
    { destruct bounded; [|reflexivity]. cbn [negb orb]. destruct (nth_error ys m) as [y|] eqn:Qy.
      - rewrite (skipn_nth m ys y Qy). cbn [std_equal_to]. rewrite (proj2 (Nat.eqb_neq _ _)); [reflexivity|].
        assert (m < length ys) by (apply nth_error_Some; congruence). lia.
      - rewrite (skipn_none m ys Qy). apply nth_error_None in Qy. cbn [std_equal_to]. rewrite (proj2 (Nat.eqb_eq _ _)) by lia. reflexivity. }
    rewrite R. apply seq_done. reflexivity.
  - intros m k x tl next s0 Hk Hx Ht Hn. destruct (Nat.leb_spec m (length ys)) as [L|]; [|exact I]. destruct (nth_error ys m) as [y|] eqn:Qy.
    + rewrite (skipn_nth m ys y Qy).
      assert (R : (if bounded then std_equal_to else std_equal) p (x :: tl) (y :: skipn (SS m) ys) s0 =
        bind (p x y) (fun b : bool => if b then (if bounded then std_equal_to else std_equal) p tl (skipn (SS m) ys) else ret false) s0) by (destruct bounded; reflexivity).
      rewrite R. apply (seq_ref (fun x => p x y) _ _ 0 k); [reflexivity|assumption|]. intros [] s'.
      * specialize (Hn (1 + m) s'). assert (m < length ys) by (apply nth_error_Some; congruence). rewrite (proj2 (Nat.leb_le _ _)) in Hn by lia. exact Hn.
      * apply seq_done. reflexivity.
    + rewrite (skipn_none m ys Qy). destruct bounded; [|exact I].
      assert (R : std_equal_to p (x :: tl) [] s0 = ret false s0) by reflexivity. rewrite R. apply seq_done. reflexivity.
Qed.
Lemma bind_assoc {A B C} (m : M S A) (f : A -> M S B) (h : B -> M S C) s0 : bind (bind m f) h s0 = bind m (fun a => bind (f a) h) s0.
Proof. unfold bind. destruct (m s0); reflexivity. Qed.
Lemma transform2_seq {O} (op : obj -> Y -> M S O) put ys o : seq_ok (w_transform2 fuel op put ys o) [0; N] l s (std_transform2 op put l ys o s) result.
Proof.
  pose proof (w_for_whole (fun mo next =>
    match nth_error ys (fst mo) with
    | Some y => Ref 0 (looking (fun x => r <- op x y ;; put (snd mo) r)) (fun _ => next (1 + fst mo, 1 + snd mo))
    | None => Lost
    end) (fun mo => Done (snd mo)) (fun mo l => std_transform2 op put l (skipn (fst mo) ys) (snd mo)) (fun _ _ => result) (0, o)) as K. cbn [fst snd skipn] in K. apply K.
  - intros [m o'] s0. apply seq_done. reflexivity.
  - intros [m o'] k x tl next s0 Hk Hx Ht Hn. cbn [fst snd]. destruct (nth_error ys m) as [y|] eqn:Qy.
    + rewrite (skipn_nth m ys y Qy). cbn [std_transform2]. rewrite <- bind_assoc.
      apply (seq_ref (fun x => bind (op x y) (fun r => put o' r)) _ _ 0 k); [reflexivity|assumption|]. intros [] s'. apply (Hn (1 + m, 1 + o') s').
    + rewrite (skipn_none m ys Qy). exact I.
Qed.
End Two.

Lemma copy_seq put o : seq_ok (w_copy fuel put o) [0; N] l s (std_copy put l o s) result.
Proof.
  apply (w_for_whole _ _ (fun o l => std_copy put l o) (fun _ _ => result)).
  - intros. apply seq_done. reflexivity.
  - intros. cbn [std_copy]. step. intros [] s'. apply H2.
Qed.
Lemma copy_if_seq p put o : seq_ok (w_copy_if fuel p put o) [0; N] l s (std_copy_if p put l o s) result.
Proof.
  apply (w_for_whole _ _ (fun o l => std_copy_if p put l o) (fun _ _ => result)).
  - intros. apply seq_done. reflexivity.
  - intros. cbn [std_copy_if]. step. intros [] s'; [|apply H2]. step. intros [] s2. apply H2.
Qed.
Lemma remove_copy_if_seq p put o : seq_ok (w_remove_copy_if fuel p put o) [0; N] l s (std_remove_copy_if p put l o s) result.
Proof.
  apply (w_for_whole _ _ (fun o l => std_remove_copy_if p put l o) (fun _ _ => result)).
  - intros. apply seq_done. reflexivity.
  - intros. cbn [std_remove_copy_if]. step. intros [] s'; [apply H2|]. step. intros [] s2. apply H2.
Qed.
Lemma transform_seq {O} (op : obj -> M S O) put o : seq_ok (w_transform fuel op put o) [0; N] l s (std_transform op put l o s) result.
Proof.
  apply (w_for_whole _ _ (fun o l => std_transform op put l o) (fun _ _ => result)).
  - intros. apply seq_done. reflexivity.
  - intros a k x tl next s0 Hk Hx Ht Hn. cbn [std_transform]. rewrite <- bind_assoc. apply (seq_ref (fun x => bind (op x) (fun r => put a r)) _ _ 0 k); [reflexivity|assumption|]. intros [] s'. apply Hn.
Qed.
Lemma replace_copy_if_seq {N'} p (new : N') put o : seq_ok (w_replace_copy_if fuel p new put o) [0; N] l s (std_replace_copy_if p new put l o s) result.
Proof.
  apply (w_for_whole _ _ (fun o l => std_replace_copy_if p new put l o) (fun _ _ => result)).
  - intros. apply seq_done. reflexivity.
  - intros a k x tl next s0 Hk Hx Ht Hn. cbn [std_replace_copy_if]. step. intros b s'.
    apply (seq_ref (fun x => put a (if b then inl new else inr x)) _ _ 0 k); [reflexivity|assumption|]. intros [] s2. apply Hn.
Qed.
Lemma partition_copy_seq p put1 put2 o : seq_ok (w_partition_copy fuel p put1 put2 o) [0; N] l s (std_partition_copy p put1 put2 l o s) result.
Proof.
  apply (w_for_whole _ _ (fun o l => std_partition_copy p put1 put2 l o) (fun _ _ => result)).
  - intros. apply seq_done. reflexivity.
  - intros. cbn [std_partition_copy]. step. intros [] s'; (step; intros [] s2; apply H2).
Qed.
Lemma unique_copy_seq p put o : seq_ok (w_unique_copy fuel p put o) [0; N] l s (std_unique_copy p put l o s) result.
Proof.
  apply (w_for_whole _ _ (fun po l => match fst po with None => std_unique_copy p put l (snd po) | Some q => std_unique_copy_after p put q l (snd po) end) (fun _ _ => result)) with (a := (None, o)).
  - intros [[q|] o'] s0; apply seq_done; reflexivity.
  - intros [[q|] o'] k x tl next s0 Hk Hx Ht Hn; cbn [fst snd std_unique_copy std_unique_copy_after].
    + step. intros b s'. look. destruct b; [apply (Hn (Some x, o'))|]. step. intros [] s2. apply (Hn (Some x, 1 + o')).
    + step. intros [] s'. look. apply (Hn (Some x, 1 + o')).
Qed.
Lemma is_partitioned_seq p : seq_ok (w_is_partitioned fuel p) [0; N] l s (std_is_partitioned p l s) result.
Proof.
  apply (w_for_whole _ _ (fun (sn : bool) l => if sn then std_none_of p l else std_is_partitioned p l) (fun _ _ => result)).
  - intros [] s0; apply seq_done; reflexivity.
  - intros sn k x tl next s0 Hk Hx Ht Hn. destruct sn.
    + cbn [std_none_of]. step. intros [] s'; [apply seq_done; reflexivity|apply (Hn true)].
    + unfold std_is_partitioned. cbn [std_find_if_not]. rewrite bind_assoc. step. intros [] s'.
      * rewrite bind_assoc. apply (Hn false).
      * apply (Hn true).
Qed.
Lemma select_seq draw put n m o : seq_ok (w_sample fuel draw put n m o) [0; N] l s (std_select draw put n m l o s) result.
Proof.
  apply (w_for_whole _ _ (fun nmo l => let '(n, m, o) := nmo in std_select draw put n m l o) (fun _ _ => result)) with (a := (n, m, o)).
  - intros [[n' m'] o'] s0; apply seq_done; reflexivity.
  - intros [[n' m'] o'] k x tl next s0 Hk Hx Ht Hn. cbn [std_select]. destruct (n' =? 0); [apply seq_done; reflexivity|].
    apply (seq_ref (fun _ => draw (m' - 1)) _ _ 0 k _ _ _ x); [reflexivity|assumption|]. intros r s'. destruct (r <? n').
    + step. intros [] s2. apply (Hn (n' - 1, m' - 1, 1 + o')).
    + apply (Hn (n', m' - 1, o')).
Qed.
End Whole.

Lemma for_each_n_seq f l : forall n k ks s, k + n <= length l -> 
  seq_ok (w_for_each_n n f) (k :: ks) l s (std_for_each f (between k (k + n) l) s) (fun _ r => snd r = (k + n) :: ks).
Proof.
  induction n as [|n IH]; intros k ks s Hk.
  - unfold between. replace (k + 0 - k) with 0 by lia. cbn [firstn w_for_each_n std_for_each]. apply seq_done. cbn. f_equal. lia.
  - destruct (between_cons k (k + SS n) l ltac:(lia) Hk) as (x & Hx & ->). cbn [w_for_each_n std_for_each]. step. intros [] s'.
    eapply seq_inc; [reflexivity|lia|]. change (reg_set 0 (SS k) (k :: ks)) with (SS k :: ks). rewrite <- Nat.add_succ_comm. apply IH. lia.
Qed.
Lemma copy_n_seq put l : forall n k ks o s, k + n <= length l -> 
  seq_ok (w_copy_n n put o) (k :: ks) l s (std_copy put (between k (k + n) l) o s) result.
Proof.
  induction n as [|n IH]; intros k ks o s Hk.
  - unfold between. replace (k + 0 - k) with 0 by lia. cbn [firstn w_copy_n std_copy]. apply seq_done. reflexivity.
  - destruct (between_cons k (k + SS n) l ltac:(lia) Hk) as (x & Hx & ->). cbn [w_copy_n std_copy]. step. intros [] s'.
    eapply seq_inc; [reflexivity|lia|]. change (reg_set 0 (SS k) (k :: ks)) with (SS k :: ks). rewrite <- Nat.add_succ_comm. apply IH. lia.
Qed.

(** a loop over a part of the sequence, and then something else *)
Lemma copy_part_seq {X B} put l e rest (fin : nat -> W X) (h : nat -> M S B) (Q : B -> X * list nat -> Prop) : e <= length l ->
  (forall o s, seq_ok (fin o) (e :: e :: rest) l s (h o s) Q) ->
  forall n fuel k o s, k + n = e -> n <= fuel ->
  seq_ok (w_for fuel (fun o next => Ref 0 (looking (put o)) (fun _ => next (1 + o))) fin o) (k :: e :: rest) l s (bind (std_copy put (between k e l) o) h s) Q.
Proof.
  intros He Hf n fuel k o s Hk Hn. apply (w_for_ok _ _ (fun o l => bind (std_copy put l o) h) (fun _ _ => Q) e rest l He) with (n := n); auto.
  intros o' k' x next s' Hk' Hx H. cbn [std_copy]. rewrite bind_assoc. step. intros [] s2. apply H.
Qed.
Lemma rotate_copy_seq put l m fuel o s : m <= length l -> length l <= fuel ->
  seq_ok (w_rotate_copy fuel put o) [m; length l; 0] l s (std_rotate_copy put m l o s) result.
Proof.
  intros Hm Hf. unfold w_rotate_copy, std_rotate_copy.
  assert (A : forall l1 l2 o s, std_copy put (l1 ++ l2) o s = bind (std_copy put l1 o) (std_copy put l2) s).
  { intros l1 l2. induction l1 as [|x l1 IH]; intros o' s'; [reflexivity|]. cbn [app std_copy]. unfold bind. destruct (put o' x s') as [s2 []| |]; auto. apply IH. }
  rewrite A. assert (P : skipn m l = between m (length l) l) by (unfold between; rewrite firstn_all2; auto; rewrite skipn_length; lia). rewrite P.
  change (seq_ok (Dup 0 ?p) [m; length l; 0] l s ?o ?Q) with (seq_ok p [m; length l; 0; m] l s o Q).
  apply (copy_part_seq put l (length l) [0; m] _ (std_copy put (firstn m l))) with (n := length l - m); auto; try lia.
  intros o' s'. change (seq_ok (Put 0 2 (Put 1 3 ?p)) [length l; length l; 0; m] l s' ?o ?Q) with (seq_ok p [0; m; 0; m] l s' o Q).
  assert (R : std_copy put (firstn m l) o' s' = bind (std_copy put (between 0 m l) o') (fun o => ret o) s').
  { unfold between. rewrite Nat.sub_0_r. cbn [skipn]. unfold bind, ret. destruct (std_copy put (firstn m l) o' s'); reflexivity. }
  rewrite R. apply (copy_part_seq put l m [0; m] _ (fun o => ret o)) with (n := m); auto; try lia. intros. apply seq_done. reflexivity.
Qed.

Lemma adjacent_loop_seq p l : forall n fuel k s x, k + SS n = length l -> n <= fuel -> nth_error l k = Some x ->
  seq_ok (w_adjacent_loop fuel p) [k; length l; k] l s (std_adjacent_find p (skipn k l) s) (fun m r => nth_error (snd r) 0 = Some (k + m)).
Proof.
  induction n as [|n IH]; intros fuel k s x Hk Hn Hx.
  - rewrite (skipn_nth k l x Hx), (skipn_all2 l) by lia. cbn [std_adjacent_find].
    assert (R : run_seq (w_adjacent_loop fuel p) [k; length l; k] (l, s) = Ok (l, s) (tt, [length l; length l; length l])).
    { destruct fuel; cbn [w_adjacent_loop run_seq nth_error fst]; rewrite (proj2 (Nat.ltb_lt _ _)) by lia; 
      change (reg_set 2 (SS k) [k; length l; k]) with [k; length l; SS k]; cbn [run_seq nth_error]; rewrite (proj2 (Nat.eqb_eq _ _)) by lia;
      cbn; replace (SS k) with (length l) by lia; reflexivity. }
    cbn. eexists. split; [exact R|]. cbn. f_equal. lia.
  - rewrite (skipn_nth k l x Hx). destruct (nth_error l (SS k)) as [y|] eqn:Hy; [|apply nth_error_None in Hy; lia].
    rewrite (skipn_nth (SS k) l y Hy). 
    assert (R : std_adjacent_find p (x :: y :: skipn (SS (SS k)) l) s =
      bind (p x y) (fun b : bool => if b then ret 0 else bind (std_adjacent_find p (y :: skipn (SS (SS k)) l)) (fun m => ret (1 + m))) s) by reflexivity.
    rewrite R. rewrite <- (skipn_nth (SS k) l y Hy). clear R. destruct fuel as [|fuel]; [lia|].
    cbn [w_adjacent_loop]. apply (seq_inc _ 2 k); [reflexivity|lia|]. change (reg_set 2 (SS k) [k; length l; k]) with [k; length l; SS k].
    match goal with |- seq_ok (Cmp 2 1 ?f) ?ks l s ?o ?Q => 
      enough (Z : seq_ok (f false) ks l s o Q); [unfold seq_ok in *; cbn [run_seq nth_error]; rewrite (proj2 (Nat.eqb_neq _ _)) by lia; exact Z|] end.
    cbv iota. apply (seq_look _ 0 k _ _ _ x); auto. apply (seq_ref (p x) _ _ 2 (SS k)); [reflexivity|assumption|]. intros [] s'.
    + apply seq_done. cbn. f_equal. lia.
    + change (seq_ok (Put 0 2 ?q) [k; length l; SS k] l s' ?o ?Q) with (seq_ok q [SS k; length l; SS k] l s' o Q).
      apply (seq_map _ _ _ _ _ (fun n => 1 + n)). eapply seq_mono; [apply (IH fuel (SS k) s' y); auto; lia|]. intros m r ->. f_equal. lia.
Qed.
Lemma adjacent_find_seq p l fuel s : length l <= fuel ->
  seq_ok (w_adjacent_find fuel p) [0; length l] l s (std_adjacent_find p l s) (fun m r => nth_error (snd r) 0 = Some m).
Proof.
  intros Hf. destruct l as [|x l]; [exists (tt, [0; 0]); split; reflexivity|]. apply (adjacent_loop_seq p (x :: l) (length l) fuel 0 s x); auto. cbn [length] in Hf. lia.
Qed.

End PStd.

(** ** Function objects which look at the object *)
Section Mapped.
Context {S X Z : Type} (f : X -> Z).
Ltac go l p := induction l as [|x l IH]; intros; cbn; auto; unfold bind; destruct (p (f x) _) as [? []|? ?|]; auto; rewrite IH; reflexivity.
Lemma m_all_of (p : Z -> M S bool) l : forall s, std_all_of (fun x => p (f x)) l s = std_all_of p (map f l) s.
Proof. go l p. Qed.
Lemma m_any_of (p : Z -> M S bool) l : forall s, std_any_of (fun x => p (f x)) l s = std_any_of p (map f l) s.
Proof. go l p. Qed.
Lemma m_none_of (p : Z -> M S bool) l : forall s, std_none_of (fun x => p (f x)) l s = std_none_of p (map f l) s.
Proof. go l p. Qed.
Lemma m_for_each (p : Z -> M S unit) l : forall s, std_for_each (fun x => p (f x)) l s = std_for_each p (map f l) s.
Proof. go l p. Qed.
Lemma m_find_if (p : Z -> M S bool) l : forall s, std_find_if (fun x => p (f x)) l s = std_find_if p (map f l) s.
Proof. go l p. Qed.
Lemma m_find_if_not (p : Z -> M S bool) l : forall s, std_find_if_not (fun x => p (f x)) l s = std_find_if_not p (map f l) s.
Proof. go l p. Qed.
Lemma m_count_if (p : Z -> M S bool) l : forall s, std_count_if (fun x => p (f x)) l s = std_count_if p (map f l) s.
Proof. go l p. Qed.
Lemma m_adjacent_find (p : Z -> Z -> M S bool) l : forall s, std_adjacent_find (fun x y => p (f x) (f y)) l s = std_adjacent_find p (map f l) s.
Proof.
  induction l as [|x l IH]; intros s; [reflexivity|]. destruct l as [|y l]; [reflexivity|].
  change (bind (p (f x) (f y)) (fun b : bool => if b then ret 0 else bind (std_adjacent_find (fun x y => p (f x) (f y)) (y :: l)) (fun k => ret (1 + k))) s =
          bind (p (f x) (f y)) (fun b : bool => if b then ret 0 else bind (std_adjacent_find p (map f (y :: l))) (fun k => ret (1 + k))) s).
  unfold bind. destruct (p (f x) (f y) s) as [s' []|s' e|]; auto. rewrite IH. reflexivity.
Qed.
Section Two.
Context {Y : Type}.
Lemma m_find_first_of (p : Z -> Y -> M S bool) ys l : forall s, std_find_first_of (fun x => p (f x)) ys l s = std_find_first_of p ys (map f l) s.
Proof.
  assert (A : forall x s, std_any_of2 (fun x => p (f x)) x ys s = std_any_of2 p (f x) ys s).
  { intros x. induction ys as [|y ys IH]; intros s; cbn; auto. unfold bind. destruct (p (f x) y s) as [s' []|s' e|]; auto. }
  induction l as [|x l IH]; intros s; cbn; auto. unfold bind. rewrite A. destruct (std_any_of2 p (f x) ys s) as [s' []|s' e|]; auto. rewrite IH. reflexivity.
Qed.
Lemma m_mismatch (p : Z -> Y -> M S bool) l : forall ys s, std_mismatch (fun x => p (f x)) l ys s = std_mismatch p (map f l) ys s.
Proof. induction l as [|x l IH]; intros [|y ys] s; cbn; auto. unfold bind. destruct (p (f x) y s) as [s' []|s' e|]; auto. rewrite IH. reflexivity. Qed.
Lemma m_mismatch_to (p : Z -> Y -> M S bool) l : forall ys s, std_mismatch_to (fun x => p (f x)) l ys s = std_mismatch_to p (map f l) ys s.
Proof. induction l as [|x l IH]; intros [|y ys] s; cbn; auto. unfold bind. destruct (p (f x) y s) as [s' []|s' e|]; auto. rewrite IH. reflexivity. Qed.
Lemma m_equal (p : Z -> Y -> M S bool) l : forall ys s, std_equal (fun x => p (f x)) l ys s = std_equal p (map f l) ys s.
Proof. induction l as [|x l IH]; intros [|y ys] s; cbn; auto. unfold bind. destruct (p (f x) y s) as [s' []|s' e|]; auto. Qed.
Lemma m_equal_to (p : Z -> Y -> M S bool) l : forall ys s, std_equal_to (fun x => p (f x)) l ys s = std_equal_to p (map f l) ys s.
Proof. induction l as [|x l IH]; intros [|y ys] s; cbn; auto. unfold bind. destruct (p (f x) y s) as [s' []|s' e|]; auto. Qed.
Lemma m_transform2 {O} (op : Z -> Y -> M S O) put l : forall ys o s, std_transform2 (fun x => op (f x)) put l ys o s = std_transform2 op put (map f l) ys o s.
Proof.
  induction l as [|x l IH]; intros [|y ys] o s; cbn; auto. unfold bind. destruct (op (f x) y s) as [s' r|s' e|]; auto. destruct (put o r s') as [s2 []|s2 e|]; auto.
Qed.
End Two.
Lemma m_copy (put : nat -> Z -> M S unit) l : forall o s, std_copy (fun o x => put o (f x)) l o s = std_copy put (map f l) o s.
Proof. induction l as [|x l IH]; intros o s; cbn; auto. unfold bind. destruct (put o (f x) s) as [s' []|s' e|]; auto. Qed.
Lemma m_copy_if (p : Z -> M S bool) (put : nat -> Z -> M S unit) l : forall o s, std_copy_if (fun x => p (f x)) (fun o x => put o (f x)) l o s = std_copy_if p put (map f l) o s.
Proof. induction l as [|x l IH]; intros o s; cbn; auto. unfold bind. destruct (p (f x) s) as [s' []|s' e|]; auto. destruct (put o (f x) s') as [s2 []|s2 e|]; auto. Qed.
Lemma m_remove_copy_if (p : Z -> M S bool) (put : nat -> Z -> M S unit) l : forall o s,
  std_remove_copy_if (fun x => p (f x)) (fun o x => put o (f x)) l o s = std_remove_copy_if p put (map f l) o s.
Proof. induction l as [|x l IH]; intros o s; cbn; auto. unfold bind. destruct (p (f x) s) as [s' []|s' e|]; auto. destruct (put o (f x) s') as [s2 []|s2 e|]; auto. Qed.
Lemma m_transform {O} (op : Z -> M S O) put l : forall o s, std_transform (fun x => op (f x)) put l o s = std_transform op put (map f l) o s.
Proof. induction l as [|x l IH]; intros o s; cbn; auto. unfold bind. destruct (op (f x) s) as [s' r|s' e|]; auto. destruct (put o r s') as [s2 []|s2 e|]; auto. Qed.
Lemma m_replace_copy_if {N} (p : Z -> M S bool) (new : N) (put : nat -> N + Z -> M S unit) l : forall o s,
  std_replace_copy_if (fun x => p (f x)) new (fun o x => put o (match x with inl n => inl n | inr v => inr (f v) end)) l o s = std_replace_copy_if p new put (map f l) o s.
Proof.
  induction l as [|x l IH]; intros o s; cbn; auto. unfold bind. destruct (p (f x) s) as [s' []|s' e|]; auto.
  - destruct (put o (inl new) s') as [s2 []|s2 e|]; auto.
  - destruct (put o (inr (f x)) s') as [s2 []|s2 e|]; auto.
Qed.
Lemma m_partition_copy (p : Z -> M S bool) (put1 put2 : nat -> Z -> M S unit) l : forall o s,
  std_partition_copy (fun x => p (f x)) (fun o x => put1 o (f x)) (fun o x => put2 o (f x)) l o s = std_partition_copy p put1 put2 (map f l) o s.
Proof.
  induction l as [|x l IH]; intros o s; cbn; auto. unfold bind. destruct (p (f x) s) as [s' []|s' e|]; auto.
  - destruct (put1 (fst o) (f x) s') as [s2 []|s2 e|]; auto.
  - destruct (put2 (snd o) (f x) s') as [s2 []|s2 e|]; auto.
Qed.
Lemma m_unique_after (p : Z -> Z -> M S bool) (put : nat -> Z -> M S unit) l : forall q o s,
  std_unique_copy_after (fun x y => p (f x) (f y)) (fun o x => put o (f x)) q l o s = std_unique_copy_after p put (f q) (map f l) o s.
Proof. induction l as [|x l IH]; intros q o s; cbn; auto. unfold bind. destruct (p (f q) (f x) s) as [s' []|s' e|]; auto. destruct (put o (f x) s') as [s2 []|s2 e|]; auto. Qed.
Lemma m_unique_copy (p : Z -> Z -> M S bool) (put : nat -> Z -> M S unit) l o s :
  std_unique_copy (fun x y => p (f x) (f y)) (fun o x => put o (f x)) l o s = std_unique_copy p put (map f l) o s.
Proof. destruct l as [|x l]; cbn; auto. unfold bind. destruct (put o (f x) s) as [s2 []|s2 e|]; auto. apply m_unique_after. Qed.
Lemma m_is_partitioned (p : Z -> M S bool) l s : std_is_partitioned (fun x => p (f x)) l s = std_is_partitioned p (map f l) s.
Proof. unfold std_is_partitioned, bind. rewrite m_find_if_not. destruct (std_find_if_not p (map f l) s) as [s' k|s' e|]; auto. rewrite m_none_of, skipn_map. reflexivity. Qed.
Lemma m_select draw (put : nat -> Z -> M S unit) l : forall n m o s, std_select draw (fun o x => put o (f x)) n m l o s = std_select draw put n m (map f l) o s.
Proof.
  induction l as [|x l IH]; intros n m o s; cbn [std_select map]; auto. destruct (n =? 0); auto. unfold bind. destruct (draw (m - 1) s) as [s' r|s' e|]; auto.
  destruct (r <? n); [|apply IH]. destruct (put o (f x) s') as [s2 []|s2 e|]; auto.
Qed.
Lemma m_sample draw (put : nat -> Z -> M S unit) n l o s : std_sample draw (fun o x => put o (f x)) n l o s = std_sample draw put n (map f l) o s.
Proof. unfold std_sample. rewrite m_select, map_length. reflexivity. Qed.
Lemma m_rotate_copy (put : nat -> Z -> M S unit) m l o s : std_rotate_copy (fun o x => put o (f x)) m l o s = std_rotate_copy put m (map f l) o s.
Proof. unfold std_rotate_copy. rewrite m_copy, map_app, skipn_map, firstn_map. reflexivity. Qed.
End Mapped.

(** ** From sequences to collections *)
Section Bridge.
Context {V : Type} {E : Env V} {S : Type}.

Lemma obj_views (c : coll V) Ts i j : map obj (views c Ts i j) = between i j (flat c).
Proof. unfold views. rewrite <- refs_flat, <- map_between, map_map. reflexivity. Qed.

Lemma does_bridge {A B X} w (c : coll V) g d i j its ks (m : M S A) (st : M S B) rel (p : walk V S X) Q (R : A -> X * list iter -> Prop) :
  reach w (c :: g) d -> i <= j -> j <= length (flat c) -> Forall2 (fun it k => located c it (i + k) /\ k <= j - i) its ks ->
  same_as m st rel -> (forall s, seq_ok p ks (between i j (flat c)) s (st s) Q) ->
  (forall a b x its' ks', rel a b -> Q b (x, ks') -> Forall2 (fun it k => located c it (i + k)) its' ks' -> R a (x, its')) ->
  does_as w c g d m p its R.
Proof.
  intros H Hij Hj F Sm Sq HR s. specialize (Sm s). specialize (Sq s). pose proof (run_walk_seq p i j its ks w c g d s H Hij Hj F) as K. cbn zeta in K.
  assert (U : forall c', shape c c' -> flat c' = firstn i (flat c) ++ between i j (flat c) ++ skipn j (flat c) -> updated c c' 0 []).
  { intros c' Sh Ef. apply (updated_same w c g d c' i j); auto. eapply shape_part_updated; eauto. }
  destruct (m s) as [s1 a|s1 e|], (st s) as [s2 b|s2 e2|]; auto; try contradiction.
  - destruct Sm as (-> & Hr). destruct Sq as ((x & ks') & Qs & HQ). rewrite Qs in K.
    destruct K as (c' & its' & Qw & (R' & Sh & _ & Ef) & F'). exists c', (x, its'). csplit; auto. eapply HR; eauto.
    clear - F' H R' Sh. induction F' as [|y z l l' [P _] F IH]; constructor; auto. eapply shape_located; [exact R'|exact H|apply shape_sym; exact Sh|exact P].
  - destruct Sm as (-> & ->). cbn in Sq. rewrite Sq in K. destruct K as (c' & Qw & R' & Sh & _ & Ef). exists c'. csplit; auto.
Qed.

Lemma range_vars w (c : coll V) g d first last i j : reach w (c :: g) d -> located c first i -> located c last j -> i <= j ->
  Forall2 (fun it k => located c it (i + k) /\ k <= j - i) [first; last] [0; j - i] /\ j <= length (flat c) /\ length (between i j (flat c)) = j - i.
Proof.
  intros H L1 L2 L. pose proof (located_le w c g d last j H L2) as Hj. csplit; auto; [|apply between_length; auto].
  constructor; [|constructor; [|constructor]].
  - rewrite Nat.add_0_r. split; auto. lia.
  - replace (i + (j - i)) with j by lia. split; auto.
Qed.

(** a result which is returned, and an iterator in variable 0 *)
Lemma does_value {B} w (c : coll V) g d first last i j (m st : M S B) (p : walk V S B) :
  reach w (c :: g) d -> located c first i -> located c last j -> i <= j -> same_as m st eq ->
  (forall s, seq_ok p [0; j - i] (between i j (flat c)) s (st s) result) -> does_as w c g d m p [first; last] returned.
Proof.
  intros H L1 L2 L Sm Sq. destruct (range_vars w c g d first last i j H L1 L2 L) as (F & Hj & Lb).
  eapply does_bridge; [exact H|exact L|exact Hj|exact F|exact Sm|exact Sq|]. intros a b x its' ks' -> Q _. exact Q.
Qed.
Lemma does_iter {X} w (c : coll V) g d first last i j (m : M S iter) (st : M S nat) (p : walk V S X) :
  reach w (c :: g) d -> located c first i -> located c last j -> i <= j -> same_as m st (fun it k => located c it (i + k)) ->
  (forall s, seq_ok p [0; j - i] (between i j (flat c)) s (st s) (fun k r => nth_error (snd r) 0 = Some k)) -> does_as w c g d m p [first; last] (left_in 0).
Proof.
  intros H L1 L2 L Sm Sq. destruct (range_vars w c g d first last i j H L1 L2 L) as (F & Hj & Lb).
  eapply does_bridge; [exact H|exact L|exact Hj|exact F|exact Sm|exact Sq|]. cbn beta. cbn [snd]. intros it k x its' ks' Lk Q F'. unfold left_in. cbn [snd].
  destruct (Forall2_nth _ _ _ _ _ F' Q) as (it' & -> & P). f_equal. eapply located_inj; eauto.
Qed.
Lemma same_eq {A B} (m : M S A) (st st' : M S B) rel : same_as m st rel -> (forall s, st s = st' s) -> same_as m st' rel.
Proof. intros H Q s. rewrite <- Q. apply H. Qed.

End Bridge.
