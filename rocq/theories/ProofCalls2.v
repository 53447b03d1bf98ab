(** * Counting the calls of function objects *)

From Coq Require Import List Arith Lia Bool.
From Verif Require Import Base StdAlg SpecAlg SpecCalls ProofBase ProofAlgo ProofAlgo2 ProofAlgo3.
Import ListNotations.

Section Made.
Context {S Z A : Type} (T : S -> exn -> Prop) (f : Z -> M S A) (D : Z -> Prop).

Definition made {R} (m : M (S * list Z) R) (most : nat) (Q : nat -> R -> Prop) : Prop :=
  forall s log, match m (s, log) with
    | Ok (_, log') r => exists l, log' = log ++ l /\ Forall D l /\ Q (length l) r
    | Exn (s', log') e => exists l, log' = log ++ l /\ Forall D l /\ length l <= most /\
        ((exists l' x s0, l = l' ++ [x] /\ f x s0 = Exn s' e) \/ T s' e)
    | UB => False
    end.

Lemma made_calls {R} (m : (Z -> M (S * list Z) A) -> M (S * list Z) R) most Q :
  ((forall x s, D x -> f x s <> UB) -> made (m (logged f)) most Q) -> calls_among T m f D most Q.
Proof.
  intros H Hf s. specialize (H Hf s []). destruct (m (logged f) (s, [])) as [[s' log] r|[s' log] e|]; auto.
  - destruct H as (l & -> & H1 & H2). auto.
  - destruct H as (l & -> & H1 & H2). auto.
Qed.
Lemma made_ret {R} (a : R) most (Q : nat -> R -> Prop) : Q 0 a -> made (ret a) most Q.
Proof. intros H s log. exists []. rewrite app_nil_r. auto. Qed.
Lemma made_mono {R} (m : M _ R) h1 h2 (Q1 Q2 : nat -> R -> Prop) :
  made m h1 Q1 -> h1 <= h2 -> (forall k a, Q1 k a -> Q2 k a) -> made m h2 Q2.
Proof.
  intros H Lh HQ s log. specialize (H s log). destruct (m (s, log)) as [[s' log'] r|[s' log'] e|]; auto.
  - destruct H as (l & -> & H1 & H2). exists l. auto.
  - destruct H as (l & -> & H1 & H2 & H3). exists l. csplit; auto. lia.
Qed.
Lemma made_bind {R R'} (m : M _ R) (h : R -> M _ R') h1 h2 Q1 (Q2 : nat -> R' -> Prop) :
  made m h1 Q1 -> h1 <= h2 -> (forall k a, Q1 k a -> k <= h2 /\ made (h a) (h2 - k) (fun k' b => Q2 (k + k') b)) ->
  made (bind m h) h2 Q2.
Proof.
  intros H Lh HQ s log. specialize (H s log). unfold bind. destruct (m (s, log)) as [[s1 log1] a|[s1 log1] e|]; auto.
  - destruct H as (l & -> & H1 & H2). destruct (HQ _ _ H2) as [Lk HQ']. specialize (HQ' s1 (log ++ l)).
    destruct (h a (s1, log ++ l)) as [[s2 log2] b|[s2 log2] e|]; auto.
    + destruct HQ' as (l2 & -> & H3 & H4). exists (l ++ l2). rewrite app_assoc, app_length. csplit; auto. apply Forall_app. auto.
    + destruct HQ' as (l2 & -> & H3 & H4 & H5). exists (l ++ l2). rewrite app_assoc, app_length. csplit; auto.
      * apply Forall_app; auto.
      * lia.
      * destruct H5 as [(l' & x & s0 & -> & H6)|H6]; [|auto]. left. exists (l ++ l'), x, s0. rewrite app_assoc. auto.
  - destruct H as (l & -> & H1 & H2 & H3). exists l. csplit; auto. lia.
Qed.
Lemma made_same {R R'} (m : M _ R) (m' : M _ R') (r : R -> R' -> Prop) h Q' (Q : nat -> R -> Prop) :
  same_as m m' r -> made m' h Q' -> (forall k a b, r a b -> Q' k b -> Q k a) -> made m h Q.
Proof.
  intros E H HQ s log. specialize (E (s, log)). specialize (H s log).
  destruct (m (s, log)) as [s1 a|s1 e|], (m' (s, log)) as [s2 b|s2 e2|]; try tauto; destruct E as [<- E]; destruct s1 as [s1 log1].
  - destruct H as (l & -> & H1 & H2). exists l. eauto.
  - subst. auto.
Qed.

(** one call, no call *)
Definition once {R} (m : M _ R) : Prop := made m 1 (fun k _ => k = 1).
Definition never {R} (m : M _ R) : Prop := made m 0 (fun k _ => k = 0).
Lemma once_logged x : (forall s, f x s <> UB) -> D x -> once (logged f x).
Proof.
  intros Hf Hx s log. unfold logged. cbn [fst snd]. specialize (Hf s). destruct (f x s) as [s' a|s' e|] eqn:Ef; [| |congruence].
  - exists [x]. auto.
  - exists [x]. csplit; auto. left. exists [], x, s. auto.
Qed.
Lemma never_unlogged {X B} (g : X -> M S B) x : (forall s, g x s <> UB) -> (forall s s' e, g x s = Exn s' e -> T s' e) -> never (unlogged g x).
Proof.
  intros Hg Ht s log. unfold unlogged. cbn [fst snd]. specialize (Hg s). destruct (g x s) as [s' a|s' e|] eqn:Eg; [| |congruence].
  - exists []. rewrite app_nil_r. auto.
  - exists []. rewrite app_nil_r. csplit; auto. eauto.
Qed.
Lemma made_once {R R'} (m : M _ R) (h : R -> M _ R') h2 (Q2 : nat -> R' -> Prop) :
  once m -> 1 <= h2 -> (forall a, made (h a) (h2 - 1) (fun k' b => Q2 (1 + k') b)) -> made (bind m h) h2 Q2.
Proof. intros H L Hh. eapply made_bind; [exact H|exact L|]. intros k a ->. auto. Qed.
Lemma made_never {R R'} (m : M _ R) (h : R -> M _ R') h2 (Q2 : nat -> R' -> Prop) :
  never m -> (forall a, made (h a) h2 (fun k' b => Q2 k' b)) -> made (bind m h) h2 Q2.
Proof.
  intros H Hh. eapply made_bind; [exact H|lia|]. intros k a ->. split; [lia|].
  eapply made_mono; [apply Hh|lia|auto].
Qed.
Lemma made_map {R R'} (m : M _ R) (h : R -> R') h2 (Q2 : nat -> R' -> Prop) :
  made m h2 (fun k a => k <= h2 /\ Q2 k (h a)) -> made (a <- m ;; ret (h a)) h2 Q2.
Proof. intros H. eapply made_bind; [exact H|lia|]. intros k a [L Q]. split; auto. apply made_ret. rewrite Nat.add_0_r. auto. Qed.

(** ** The algorithms on sequences *)

Section One.
Context {X : Type}.

Section Pred.
Context (q : X -> M (S * list Z) bool).

Ltac step H := eapply made_once; [exact H|simpl; lia|].
Ltac sub IH := eapply made_mono; [exact IH|simpl; lia|].

Lemma made_all_of l : Forall (fun x => once (q x)) l ->
  made (std_all_of q l) (length l) (fun k b => k <= length l /\ (b = true -> k = length l)).
Proof.
  induction 1 as [|x l Hx _ IH]; cbn [std_all_of length]; [apply made_ret; auto|]. step Hx.
  intros [|]; [sub IH; intros k b [H1 H2]; split; [lia|]; intros Hb; rewrite H2; auto|].
  apply made_ret. split; [lia|]. intros Q; discriminate Q.
Qed.
Lemma made_any_of l : Forall (fun x => once (q x)) l ->
  made (std_any_of q l) (length l) (fun k b => k <= length l /\ (b = false -> k = length l)).
Proof.
  induction 1 as [|x l Hx _ IH]; cbn [std_any_of length]; [apply made_ret; auto|]. step Hx.
  intros [|]; [|sub IH; intros k b [H1 H2]; split; [lia|]; intros Hb; rewrite H2; auto].
  apply made_ret. split; [lia|]. intros Q; discriminate Q.
Qed.
Lemma made_none_of l : Forall (fun x => once (q x)) l ->
  made (std_none_of q l) (length l) (fun k b => k <= length l /\ (b = true -> k = length l)).
Proof.
  induction 1 as [|x l Hx _ IH]; cbn [std_none_of length]; [apply made_ret; auto|]. step Hx.
  intros [|]; [|sub IH; intros k b [H1 H2]; split; [lia|]; intros Hb; rewrite H2; auto].
  apply made_ret. split; [lia|]. intros Q; discriminate Q.
Qed.
Lemma made_find_if l : Forall (fun x => once (q x)) l ->
  made (std_find_if q l) (length l) (fun k r => k = Nat.min (1 + r) (length l) /\ r <= length l).
Proof.
  induction 1 as [|x l Hx _ IH]; cbn [std_find_if length]; [apply made_ret; auto|]. step Hx.
  intros [|]; [apply made_ret; lia|]. apply made_map. sub IH. intros k r [H1 H2]. lia.
Qed.
Lemma made_find_if_not l : Forall (fun x => once (q x)) l ->
  made (std_find_if_not q l) (length l) (fun k r => k = Nat.min (1 + r) (length l) /\ r <= length l).
Proof.
  induction 1 as [|x l Hx _ IH]; cbn [std_find_if_not length]; [apply made_ret; auto|]. step Hx.
  intros [|]; [|apply made_ret; lia]. apply made_map. sub IH. intros k r [H1 H2]. lia.
Qed.
Lemma made_count_if l : Forall (fun x => once (q x)) l ->
  made (std_count_if q l) (length l) (fun k r => k = length l /\ r <= length l).
Proof.
  induction 1 as [|x l Hx _ IH]; cbn [std_count_if length]; [apply made_ret; auto|]. step Hx. intros b.
  eapply made_bind; [exact IH|simpl; lia|]. cbn beta. intros k r [-> Hr]. split; [simpl; lia|]. apply made_ret. destruct b; lia.
Qed.
Lemma made_is_partitioned l : Forall (fun x => once (q x)) l -> made (std_is_partitioned q l) (length l) (fun k _ => k <= length l).
Proof.
  intros H. unfold std_is_partitioned. eapply made_bind; [apply made_find_if_not; auto|lia|]. cbn beta. intros k r [-> Hr]. split; [lia|].
  assert (H' : Forall (fun x => once (q x)) (skipn (1 + r) l)).
  { rewrite <- (firstn_skipn (1 + r) l) in H. apply Forall_app in H. tauto. }
  eapply made_mono; [apply made_none_of; exact H'| |]; rewrite skipn_length; [lia|]. intros k [|] [H1 H2]; lia.
Qed.
Lemma made_runs count l k r : Forall (fun x => once (q x)) l -> made (std_runs count q l k r) (length l) (fun k _ => k <= length l).
Proof.
  intros H. revert k r. induction H as [|x l Hx _ IH]; intros k r; cbn [std_runs length]; [apply made_ret; auto|]. step Hx.
  intros [|]; [destruct (1 + r =? count); [apply made_ret; lia|sub (IH (1 + k) (1 + r))]|sub (IH (1 + k) 0)]; cbn beta; intros; lia.
Qed.
Lemma made_search_n count l : Forall (fun x => once (q x)) l -> made (std_search_n count q l) (length l) (fun k _ => k <= length l).
Proof.
  intros H. unfold std_search_n. destruct (_ =? _); [apply made_ret; lia|].
  apply (made_map (std_runs count q l 0 0) (fun r => match fst r with Some k => k | None => length l end)).
  eapply made_mono; [apply made_runs; auto|lia|]. auto.
Qed.
Definition bis (n : nat) : nat := if n =? 0 then 0 else 1 + Nat.log2 n.
Lemma bis_mono a b : a <= b -> bis a <= bis b.
Proof.
  intros L. unfold bis. destruct (Nat.eqb_spec a 0); [lia|]. destruct (Nat.eqb_spec b 0); [lia|].
  assert (H := Nat.log2_le_mono a b L). lia.
Qed.
Lemma bis_half n : 0 < n -> 1 + bis (Nat.div2 n) <= bis n.
Proof.
  intros L. unfold bis. destruct (Nat.eqb_spec n 0); [lia|]. destruct (Nat.eqb_spec (Nat.div2 n) 0) as [H|H]; [lia|].
  assert (H1 := Nat.div2_odd n). assert (H2 := Nat.log2_double (Nat.div2 n) ltac:(lia)).
  assert (H3 := Nat.log2_le_mono (2 * Nat.div2 n) n ltac:(destruct (Nat.odd n); simpl in H1; lia)). lia.
Qed.
Lemma made_bisect fuel l k len : Forall (fun x => once (q x)) l -> len <= fuel -> k + len <= length l ->
  made (std_bisect fuel q l k len) (bis len) (fun k _ => k <= bis len).
Proof.
  intros H. revert k len. induction fuel as [|fuel IH]; intros k len Lf Ll; cbn [std_bisect]; destruct (Nat.eqb_spec len 0) as [->|Nl]; try lia;
    try (apply made_ret; lia).
  assert (Hd : Nat.div2 len < len) by (apply Nat.lt_div2; lia). assert (Hb := bis_half len ltac:(lia)).
  assert (Ho := Nat.div2_odd len). set (half := Nat.div2 len) in *.
  assert (Hm : len - half - 1 <= half) by (destruct (Nat.odd len); simpl in Ho; lia).
  assert (Hm' := bis_mono _ _ Hm).
  destruct (nth_error l (k + half)) as [x|] eqn:En; [|apply nth_error_None in En; lia].
  assert (Hx : once (q x)) by (rewrite Forall_forall in H; apply H; eapply nth_error_In; eauto).
  eapply made_once; [exact Hx|lia|]. intros [|].
  - eapply made_mono; [apply IH; lia|lia|]. cbn beta. intros; lia.
  - eapply made_mono; [apply IH; lia|lia|]. cbn beta. intros; lia.
Qed.
Lemma made_partition_point l : Forall (fun x => once (q x)) l -> made (std_partition_point q l) (bis (length l)) (fun k _ => k <= bis (length l)).
Proof. intros H. apply made_bisect; auto. Qed.

(** with output *)
Lemma made_replace_copy_if {N} (new : N) putn l : Forall (fun x => once (q x)) l -> (forall o x, In x (inl new :: map inr l) -> never (putn o x)) ->
  forall o, made (std_replace_copy_if q new putn l o) (length l) (fun k r => k = length l).
Proof.
  induction 1 as [|x l Hx _ IH]; intros Hp o; cbn [std_replace_copy_if length]; [apply made_ret; auto|]. step Hx. intros b.
  eapply made_never; [apply Hp; destruct b; simpl; auto|]. intros _.
  sub (IH (fun o y Hy => Hp o y ltac:(simpl in *; tauto)) (1 + o)). simpl; intros; lia.
Qed.
Context (put : nat -> X -> M (S * list Z) unit).
Lemma made_copy_if l : Forall (fun x => once (q x)) l -> (forall o x, In x l -> never (put o x)) ->
  forall o, made (std_copy_if q put l o) (length l) (fun k r => k = length l).
Proof.
  induction 1 as [|x l Hx _ IH]; intros Hp o; cbn [std_copy_if length]; [apply made_ret; auto|]. step Hx.
  assert (IH' := IH (fun o y Hy => Hp o y (or_intror Hy))).
  intros [|].
  - eapply made_never; [apply Hp; simpl; auto|]. intros _. sub (IH' (1 + o)). simpl; intros; lia.
  - sub (IH' o). simpl; intros; lia.
Qed.
Lemma made_remove_copy_if l : Forall (fun x => once (q x)) l -> (forall o x, In x l -> never (put o x)) ->
  forall o, made (std_remove_copy_if q put l o) (length l) (fun k r => k = length l).
Proof.
  induction 1 as [|x l Hx _ IH]; intros Hp o; cbn [std_remove_copy_if length]; [apply made_ret; auto|]. step Hx.
  assert (IH' := IH (fun o y Hy => Hp o y (or_intror Hy))).
  intros [|].
  - sub (IH' o). simpl; intros; lia.
  - eapply made_never; [apply Hp; simpl; auto|]. intros _. sub (IH' (1 + o)). simpl; intros; lia.
Qed.
Lemma made_partition_copy put2 l : Forall (fun x => once (q x)) l -> (forall o x, In x l -> never (put o x)) -> (forall o x, In x l -> never (put2 o x)) ->
  forall o, made (std_partition_copy q put put2 l o) (length l) (fun k r => k = length l).
Proof.
  induction 1 as [|x l Hx _ IH]; intros Hp Hp2 o; cbn [std_partition_copy length]; [apply made_ret; auto|]. step Hx.
  assert (IH' := IH (fun o y Hy => Hp o y (or_intror Hy)) (fun o y Hy => Hp2 o y (or_intror Hy))).
  intros [|]; (eapply made_never; [(apply Hp || apply Hp2); simpl; auto|]); intros _.
  - sub (IH' (1 + fst o, snd o)). simpl; intros; lia.
  - sub (IH' (fst o, 1 + snd o)). simpl; intros; lia.
Qed.
End Pred.

Lemma made_for_each (q : X -> M (S * list Z) unit) l : Forall (fun x => once (q x)) l -> made (std_for_each q l) (length l) (fun k _ => k = length l).
Proof.
  induction 1 as [|x l Hx _ IH]; cbn [std_for_each length]; [apply made_ret; auto|]. eapply made_once; [exact Hx|lia|]. intros _.
  eapply made_mono; [exact IH|lia|]. simpl; intros; lia.
Qed.
Lemma made_transform {O} (q : X -> M (S * list Z) O) put l : Forall (fun x => once (q x)) l -> (forall o x, never (put o x)) ->
  forall o, made (std_transform q put l o) (length l) (fun k r => k = length l).
Proof.
  intros H Hp. induction H as [|x l Hx _ IH]; intros o; cbn [std_transform length]; [apply made_ret; auto|]. eapply made_once; [exact Hx|lia|]. intros y.
  eapply made_never; [apply Hp|]. intros _. eapply made_mono; [apply IH|lia|]. simpl; intros; lia.
Qed.

(** writes: one for each step of the output iterator *)
Lemma made_copy (put : nat -> X -> M (S * list Z) unit) l : (forall o x, In x l -> once (put o x)) ->
  forall o, made (std_copy put l o) (length l) (fun k r => k = length l /\ r = o + k).
Proof.
  induction l as [|x l IH]; intros H o; cbn [std_copy length]; [apply made_ret; lia|]. eapply made_once; [apply H; simpl; auto|lia|]. intros _.
  eapply made_mono; [apply (IH (fun o y Hy => H o y (or_intror Hy)))|lia|]. cbn beta. intros k r [-> ->]. lia.
Qed.
Lemma made_put_copy_if (p : X -> M (S * list Z) bool) put l : (forall x, In x l -> never (p x)) -> (forall o x, In x l -> once (put o x)) ->
  forall o, made (std_copy_if p put l o) (length l) (fun k r => k <= length l /\ r = o + k).
Proof.
  induction l as [|x l IH]; intros H Hp o; cbn [std_copy_if length]; [apply made_ret; lia|].
  assert (IH' := IH (fun y Hy => H y (or_intror Hy)) (fun o y Hy => Hp o y (or_intror Hy))).
  eapply made_never; [apply H; simpl; auto|]. intros [|].
  - eapply made_once; [apply Hp; simpl; auto|lia|]. intros _. eapply made_mono; [apply IH'|lia|]. cbn beta. intros; lia.
  - eapply made_mono; [apply IH'|lia|]. cbn beta. intros; lia.
Qed.
Lemma made_put_remove_copy_if (p : X -> M (S * list Z) bool) put l : (forall x, In x l -> never (p x)) -> (forall o x, In x l -> once (put o x)) ->
  forall o, made (std_remove_copy_if p put l o) (length l) (fun k r => k <= length l /\ r = o + k).
Proof.
  induction l as [|x l IH]; intros H Hp o; cbn [std_remove_copy_if length]; [apply made_ret; lia|].
  assert (IH' := IH (fun y Hy => H y (or_intror Hy)) (fun o y Hy => Hp o y (or_intror Hy))).
  eapply made_never; [apply H; simpl; auto|]. intros [|].
  - eapply made_mono; [apply IH'|lia|]. cbn beta. intros; lia.
  - eapply made_once; [apply Hp; simpl; auto|lia|]. intros _. eapply made_mono; [apply IH'|lia|]. cbn beta. intros; lia.
Qed.
Lemma made_put_transform {O} (p : X -> M (S * list Z) O) put l : (forall x, In x l -> never (p x)) -> (forall o x, once (put o x)) ->
  forall o, made (std_transform p put l o) (length l) (fun k r => k = length l /\ r = o + k).
Proof.
  induction l as [|x l IH]; intros H Hp o; cbn [std_transform length]; [apply made_ret; lia|].
  eapply made_never; [apply H; simpl; auto|]. intros y. eapply made_once; [apply Hp|lia|]. intros _.
  eapply made_mono; [apply (IH (fun y Hy => H y (or_intror Hy)) Hp)|lia|]. cbn beta. intros; lia.
Qed.
End One.

Section Two.
Context {X Y : Type} (q : X -> Y -> M (S * list Z) bool).

Lemma made_any_of2 x ys : (forall y, In y ys -> once (q x y)) -> made (std_any_of2 q x ys) (length ys) (fun k _ => k <= length ys).
Proof.
  induction ys as [|y ys IH]; intros H; cbn [std_any_of2 length]; [apply made_ret; lia|]. eapply made_once; [apply H; simpl; auto|lia|].
  intros [|]; [apply made_ret; lia|]. eapply made_mono; [apply IH; simpl in H; auto|lia|]. cbn beta. intros; lia.
Qed.
Lemma made_find_first_of ys l : (forall x y, In x l -> In y ys -> once (q x y)) ->
  made (std_find_first_of q ys l) (length l * length ys) (fun k r => k <= length l * length ys).
Proof.
  induction l as [|x l IH]; intros H; cbn [std_find_first_of length]; [apply made_ret; lia|].
  eapply made_bind; [apply made_any_of2; intros; apply H; simpl; auto|simpl; lia|]. cbn beta. intros k b Hk. split; [simpl; lia|].
  destruct b; [apply made_ret; simpl; lia|]. apply made_map. eapply made_mono; [apply IH; simpl in H; auto|simpl; lia|].
  cbn beta. intros k' r H'. simpl. lia.
Qed.
Lemma made_mismatch_to l ys : (forall x y, In x l -> In y ys -> once (q x y)) ->
  made (std_mismatch_to q l ys) (Nat.min (length l) (length ys))
    (fun k r => k = Nat.min (1 + r) (Nat.min (length l) (length ys)) /\ r <= Nat.min (length l) (length ys)).
Proof.
  revert ys. induction l as [|x l IH]; intros [|y ys] H; cbn [std_mismatch_to length]; try (apply made_ret; simpl; lia).
  eapply made_once; [apply H; simpl; auto|simpl; lia|]. intros [|]; [|apply made_ret; simpl; lia].
  apply made_map. eapply made_mono; [apply IH; simpl in H; auto|simpl; lia|]. cbn beta. intros k r [H1 H2]. cbn [length]. lia.
Qed.
Lemma made_mismatch l ys : (forall x y, In x l -> In y ys -> once (q x y)) -> length l <= length ys ->
  made (std_mismatch q l ys) (length l)
    (fun k r => k = Nat.min (1 + r) (length l) /\ r <= length l).
Proof.
  revert ys. induction l as [|x l IH]; intros [|y ys] H L; cbn [std_mismatch length]; try (apply made_ret; simpl; lia); [simpl in L; lia|].
  eapply made_once; [apply H; simpl; auto|simpl; lia|]. intros [|]; [|apply made_ret; simpl; lia].
  apply made_map. eapply made_mono; [apply IH; simpl in H, L; auto; lia|simpl; lia|]. cbn beta. intros k r [H1 H2]. cbn [length]. lia.
Qed.
Lemma made_equal_to l ys : (forall x y, In x l -> In y ys -> once (q x y)) ->
  made (std_equal_to q l ys) (Nat.min (length l) (length ys))
    (fun k b => k <= Nat.min (length l) (length ys) /\ (b = true -> k = length l /\ k = length ys)).
Proof.
  revert ys. induction l as [|x l IH]; intros [|y ys] H; cbn [std_equal_to length]; try (apply made_ret; simpl; split; [lia|intros Q; auto; discriminate Q]).
  eapply made_once; [apply H; simpl; auto|simpl; lia|]. intros [|]; [|apply made_ret; simpl; split; [lia|intros Q; discriminate Q]].
  eapply made_mono; [apply IH; simpl in H; auto|simpl; lia|]. cbn beta. intros k b [H1 H2]. simpl. split; [lia|]. intros Hb. specialize (H2 Hb). lia.
Qed.
Lemma made_equal l ys : (forall x y, In x l -> In y ys -> once (q x y)) -> length l <= length ys ->
  made (std_equal q l ys) (length l) (fun k b => k <= length l /\ (b = true -> k = length l)).
Proof.
  revert ys. induction l as [|x l IH]; intros [|y ys] H L; cbn [std_equal length]; try (apply made_ret; simpl; split; [lia|intros Q; auto; discriminate Q]); [simpl in L; lia|].
  eapply made_once; [apply H; simpl; auto|simpl; lia|]. intros [|]; [|apply made_ret; simpl; split; [lia|intros Q; discriminate Q]].
  eapply made_mono; [apply IH; simpl in H, L; auto; lia|simpl; lia|]. cbn beta. intros k b [H1 H2]. simpl. split; [lia|]. intros Hb. specialize (H2 Hb). lia.
Qed.
Lemma made_search ys l : (forall x y, In x l -> In y ys -> once (q x y)) ->
  made (std_search q ys l) (length l * length ys) (fun k r => k <= length l * length ys).
Proof.
  induction l as [|x l IH]; intros H; cbn [std_search]; [apply made_ret; lia|].
  assert (EN : length (x :: l) * length ys = length ys + length l * length ys) by reflexivity. rewrite EN.
  eapply made_bind; [apply (made_mismatch_to (x :: l) ys H)|lia|]. cbn beta. intros k r [-> Hr]. split; [lia|].
  destruct (r =? length ys); [apply made_ret; lia|]. apply made_map.
  eapply made_mono; [apply IH; simpl in H; auto|lia|]. cbn beta. intros k' r' H'. lia.
Qed.
Lemma made_last_match ys l : (forall x y, In x l -> In y ys -> once (q x y)) -> forall k res,
  made (std_last_match q ys l k res) (length l * length ys) (fun k r => k <= length l * length ys).
Proof.
  induction l as [|x l IH]; intros H k res; cbn [std_last_match]; [apply made_ret; lia|].
  assert (EN : length (x :: l) * length ys = length ys + length l * length ys) by reflexivity. rewrite EN.
  eapply made_bind; [apply (made_mismatch_to (x :: l) ys H)|lia|]. cbn beta. intros k' r [-> Hr]. split; [lia|].
  eapply made_mono; [apply IH; simpl in H; auto|lia|]. cbn beta. intros k'' r' H'. lia.
Qed.
Lemma made_find_end ys l : (forall x y, In x l -> In y ys -> once (q x y)) ->
  made (std_find_end q ys l) (length l * length ys) (fun k r => k <= length l * length ys).
Proof. intros H. unfold std_find_end. destruct ys as [|y ys'] eqn:Ey; [apply made_ret; lia|]. rewrite <- Ey in *. apply made_last_match. auto. Qed.
Lemma made_transform2 {O} (op : X -> Y -> M (S * list Z) O) put l ys : (forall x y, In x l -> In y ys -> once (op x y)) -> (forall o x, never (put o x)) -> length l <= length ys ->
  forall o, made (std_transform2 op put l ys o) (length l) (fun k r => k = length l).
Proof.
  intros H Hp. revert ys H. induction l as [|x l IH]; intros [|y ys] H L o; cbn [std_transform2 length]; try (apply made_ret; simpl; lia); [simpl in L; lia|].
  eapply made_once; [apply H; simpl; auto|lia|]. intros z. eapply made_never; [apply Hp|]. intros _.
  eapply made_mono; [apply IH; simpl in H, L; auto; lia|lia|]. simpl; intros; lia.
Qed.
End Two.

Lemma made_adjacent_find {X} (q : X -> X -> M (S * list Z) bool) l : (forall k x y, nth_error l k = Some x -> nth_error l (1 + k) = Some y -> once (q x y)) ->
  made (std_adjacent_find q l) (length l - 1) (fun k r => k = Nat.min (1 + r) (length l - 1) /\ r <= length l).
Proof.
  induction l as [|x l IH]; intros H; cbn [std_adjacent_find length]; [apply made_ret; lia|]. destruct l as [|y l]; [apply made_ret; simpl; lia|].
  eapply made_once; [apply (H 0); auto|simpl; lia|]. intros [|]; [apply made_ret; simpl; lia|].
  apply made_map. eapply made_mono; [apply IH; intros k u v; apply (H (1 + k))|simpl; lia|]. cbn beta. intros k r [H1 H2]. cbn [length] in *. lia.
Qed.

Section Perm.
Context {X Y : Type} (q : X -> X + Y -> M (S * list Z) bool) (l0 : list X) (ys : list Y).
Context (H : forall x z, In x l0 -> In z (map inl l0 ++ map inr ys) -> once (q x z)).
Lemma oncel x z : In x l0 -> In z l0 -> once (q x (inl z)).
Proof. intros Hx Hz. apply H; auto. apply in_or_app. left. apply in_map. auto. Qed.
Lemma oncer x z : In x l0 -> In z ys -> once (q x (inr z)).
Proof. intros Hx Hz. apply H; auto. apply in_or_app. right. apply in_map. auto. Qed.

Lemma made_perm l pre zs : (forall x, In x (pre ++ l) -> In x l0) -> (forall y, In y zs -> In y ys) ->
  made (std_perm q zs pre l) (length l * (length pre + length l + length zs)) (fun k r => k <= length l * (length pre + length l + length zs)).
Proof.
  intros Hl Hz. revert pre Hl. induction l as [|x l IH]; intros pre Hl; cbn [std_perm]; [apply made_ret; cbn [length]; lia|].
  assert (Hx : In x l0) by (apply Hl, in_or_app; simpl; auto).
  set (N := length (x :: l) * (length pre + length (x :: l) + length zs)).
  assert (EN : N = (length pre + length (x :: l) + length zs) + length l * (length (pre ++ [x]) + length l + length zs)).
  { unfold N. rewrite app_length. simpl length. replace (length pre + 1 + length l) with (length pre + Datatypes.S (length l)) by lia. simpl. lia. }
  clearbody N. subst N. set (N1 := length l * (length (pre ++ [x]) + length l + length zs)) in *. cbn [length].
  assert (IH' := IH (pre ++ [x]) ltac:(intros z Hz'; apply Hl; rewrite <- app_assoc in Hz'; exact Hz')).
  eapply made_bind; [apply made_find_if; apply Forall_forall; intros z Hz'; apply oncel; auto; apply Hl, in_or_app; auto|cbn [length]; lia|].
  cbn beta. intros k r [-> Hr]. split; [cbn [length]; lia|]. destruct (negb (r =? length pre)).
  { eapply made_mono; [exact IH'|fold N1; cbn [length]; lia|]. cbn beta. fold N1; cbn [length]; intros; lia. }
  eapply made_bind; [apply made_count_if; apply Forall_forall; intros z Hz'; apply oncer; auto|cbn [length]; lia|].
  cbn beta. intros k c1 [-> Hc1]. split; [cbn [length]; lia|]. destruct (c1 =? 0); [apply made_ret; cbn [length]; lia|].
  eapply made_bind; [apply made_count_if; apply Forall_forall; intros z Hz'; apply oncel; auto; apply Hl, in_or_app; auto|cbn [length]; lia|].
  cbn beta. intros k c2 [-> Hc2]. split; [cbn [length]; lia|]. destruct (c1 =? c2); [|apply made_ret; cbn [length]; lia].
  eapply made_mono; [exact IH'|fold N1; cbn [length]; lia|]. cbn beta. fold N1; cbn [length]; intros; lia.
Qed.
Lemma in_skip {B} n (l : list B) x : In x (skipn n l) -> In x l.
Proof. intros Hx. rewrite <- (firstn_skipn n l). apply in_or_app. auto. Qed.
Lemma in_first {B} n (l : list B) x : In x (firstn n l) -> In x l.
Proof. intros Hx. rewrite <- (firstn_skipn n l). apply in_or_app. auto. Qed.
Lemma made_is_permutation_to :
  made (std_is_permutation true q l0 ys) (length l0 + 2 * (length l0 * length l0))
    (fun k b => k <= length l0 + 2 * (length l0 * length l0) /\ (length l0 <> length ys -> k <= Nat.min (length l0) (length ys) /\ b = false)).
Proof.
  unfold std_is_permutation. eapply made_bind; [apply (made_mismatch_to (fun x y => q x (inr y)) l0 ys); intros; apply oncer; auto|lia|].
  cbn beta. intros k r [-> Hr]. split; [lia|]. destruct (Nat.eqb_spec (length (skipn r l0)) (length (skipn r ys))) as [Eq|Eq].
  - rewrite !skipn_length in Eq.
    assert (H2 : length (skipn r l0) * (0 + length (skipn r l0) + length (skipn r ys)) <= 2 * ((length l0 - r) * (length l0 - r))).
    { rewrite !skipn_length. replace (length ys - r) with (length l0 - r) by lia. nia. }
    assert (H3 : Nat.min (1 + r) (Nat.min (length l0) (length ys)) + 2 * ((length l0 - r) * (length l0 - r)) <= length l0 + 2 * (length l0 * length l0)) by nia.
    eapply made_mono; [apply (made_perm (skipn r l0) [] (skipn r ys)); [intros x Hx; eapply in_skip; eauto|intros x Hx; eapply in_skip; eauto]|simpl length in *; lia|].
    cbn beta. intros k' b Hk'. simpl length in *. split; [lia|]. intros Q. exfalso. lia.
  - apply made_ret. split; [nia|]. intros _. split; [lia|auto].
Qed.
Lemma made_is_permutation : length l0 <= length ys ->
  made (std_is_permutation false q l0 ys) (length l0 + 2 * (length l0 * length l0))
    (fun k b => k <= length l0 + 2 * (length l0 * length l0)).
Proof.
  intros L. unfold std_is_permutation. eapply made_bind; [apply (made_mismatch (fun x y => q x (inr y)) l0 ys); [intros; apply oncer; auto|auto]|lia|].
  cbn beta. intros k r [-> Hr]. split; [lia|]. destruct (Nat.leb_spec (length (skipn r l0)) (length (skipn r ys))) as [Eq|Eq]; [|rewrite !skipn_length in Eq; lia].
  set (zs := firstn (length (skipn r l0)) (skipn r ys)).
  assert (Lz : length zs = length l0 - r) by (unfold zs; rewrite firstn_length, !skipn_length in *; lia).
  assert (H2 : length (skipn r l0) * (0 + length (skipn r l0) + length zs) <= 2 * ((length l0 - r) * (length l0 - r))).
  { rewrite !skipn_length, Lz. nia. }
  assert (H3 : Nat.min (1 + r) (length l0) + 2 * ((length l0 - r) * (length l0 - r)) <= length l0 + 2 * (length l0 * length l0)) by nia.
  eapply made_mono; [apply (made_perm (skipn r l0) [] zs); [intros x Hx; eapply in_skip; eauto|intros x Hx; eapply in_skip, in_first; eauto]|simpl length in *; lia|].
  cbn beta. intros k' b Hk'. simpl length in *. lia.
Qed.
End Perm.

End Made.
