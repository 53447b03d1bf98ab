(** * sample: all selections are equally likely (C45), and its calls (C70) *)

From Coq Require Import List Arith Lia Bool Permutation Factorial.
From Verif Require Import Base Vec Backend Segment Coll StdAlg Algo Spec SpecAlg SpecCalls Reach ProofBase ProofBackend ProofSeg ProofMap ProofView
  ProofAlgo ProofAlgo2 ProofAlgo3 ProofAlgo4 ProofAlgo5 ProofAlgo6 ProofColl ProofReach ProofObs ProofProp ProofAccess ProofCalls ProofCalls2 ProofCalls3 Demo Properties6 Properties24.
Import ListNotations.

(** ** What uniformly distributed numbers are *)

(** uniform_int_distribution gives numbers from 0 to the bound it is asked for, all of them equally likely and
    independently of each other: for the bounds m-1, m-2, ..., 0 all the sequences [draw_sequence m] are
    equally likely. *)
Definition draw_sequence (m : nat) (l : list nat) : Prop :=
  length l = m /\ forall k x, nth_error l k = Some x -> x < m - k.
(** A generator which gives the numbers of a list, one after the other. *)
Definition in_turn (m : nat) (l : list nat) : nat * list nat := (hd 0 l, tl l).

Lemma draw_sequence_cons m x l : draw_sequence (S m) (x :: l) <-> x < S m /\ draw_sequence m l.
Proof.
  unfold draw_sequence. cbn [length]. split.
  - intros (L & H). csplit; [exact (H 0 x eq_refl)|lia|]. intros k y Hy. exact (H (S k) y Hy).
  - intros (Hx & L & H). split; [lia|]. intros [|k] y Hy; cbn [nth_error] in Hy; [injection Hy as <-; lia|]. exact (H k y Hy).
Qed.
Lemma draw_sequence_nil l : draw_sequence 0 l <-> l = [].
Proof.
  unfold draw_sequence. split; [intros (L & _); destruct l; [auto|discriminate L]|]. intros ->. split; auto. intros [|k] x Q; discriminate Q.
Qed.

(** ** Counting *)

(** [a], ..., [a+b-1] before each of the lists [L] *)
Definition prefixed (a b : nat) (L : list (list nat)) : list (list nat) := flat_map (fun r => map (cons r) L) (seq a b).
Lemma prefixed_in a b L t : In t (prefixed a b L) <-> exists r t', t = r :: t' /\ a <= r < a + b /\ In t' L.
Proof.
  unfold prefixed. rewrite in_flat_map. split.
  - intros (r & Hr & Ht). apply in_seq in Hr. apply in_map_iff in Ht. destruct Ht as (t' & <- & Ht). exists r, t'. auto.
  - intros (r & t' & -> & Hr & Ht). exists r. split; [apply in_seq; auto|apply in_map; auto].
Qed.
Lemma prefixed_length a b L : length (prefixed a b L) = b * length L.
Proof. unfold prefixed. revert a. induction b as [|b IH]; intros a; cbn [seq flat_map]; [auto|]. rewrite app_length, map_length, IH. lia. Qed.
Lemma prefixed_nodup a b L : NoDup L -> NoDup (prefixed a b L).
Proof.
  intros HL. unfold prefixed. revert a. induction b as [|b IH]; intros a; cbn [seq flat_map]; [constructor|].
  assert (N1 : NoDup (map (cons a) L)).
  { clear IH. induction HL as [|t L Ht HL IH]; cbn [map]; constructor; auto. intros Q. apply in_map_iff in Q. destruct Q as (t' & Q & Ht'). injection Q as ->. auto. }
  assert (Dj : forall t, In t (map (cons a) L) -> ~ In t (flat_map (fun r => map (cons r) L) (seq (S a) b))).
  { intros t Ht Hf. apply in_map_iff in Ht. destruct Ht as (t' & <- & _). apply in_flat_map in Hf. destruct Hf as (r & Hr & Hf).
    apply in_seq in Hr. apply in_map_iff in Hf. destruct Hf as (t2 & Q & _). injection Q as -> _. lia. }
  clear HL. induction N1 as [|t l Ht Nl IHl]; cbn [app]; [apply IH|]. constructor.
  - intros Q. apply in_app_or in Q. destruct Q as [Q|Q]; [tauto|]. exact (Dj t (or_introl eq_refl) Q).
  - apply IHl. intros u Hu. apply Dj. right. auto.
Qed.

(** all sequences *)
Lemma all_sequences m : exists L, NoDup L /\ (forall t, In t L <-> draw_sequence m t) /\ length L = fact m.
Proof.
  induction m as [|m (L & N & I & Ln)].
  - exists [[]]. csplit; auto.
    + constructor; [intros []|constructor].
    + intros t. rewrite draw_sequence_nil. simpl. intuition.
  - exists (prefixed 0 (S m) L). csplit.
    + apply prefixed_nodup, N.
    + intros t. rewrite prefixed_in. split.
      * intros (r & t' & -> & Hr & Ht). apply draw_sequence_cons. split; [lia|]. apply I, Ht.
      * destruct t as [|r t]; [intros (Q & _); discriminate Q|]. intros Q. apply draw_sequence_cons in Q. destruct Q as (Hr & Ht).
        exists r, t. csplit; auto; [lia|]. apply I, Ht.
    + rewrite prefixed_length, Ln. reflexivity.
Qed.

Section Count.
Context {X : Type}.

(** what selection sampling picks *)
Fixpoint picked (n : nat) (t : list nat) (l : list X) : list X :=
  match l with
  | [] => []
  | x :: l' => if n =? 0 then [] else if hd 0 t <? n then x :: picked (n - 1) (tl t) l' else picked n (tl t) l'
  end.
Lemma picked_incl t : forall l n, incl (picked n t l) l.
Proof.
  intros l. revert t. induction l as [|x l IH]; intros t n y; cbn [picked]; [auto|]. destruct (n =? 0); [intros []|].
  destruct (hd 0 t <? n); [intros [->|Hy]; [left; auto|]|intros Hy]; right; eapply IH; eauto.
Qed.
Lemma picked_select : forall l n m t o out, exists t',
  std_select (draws in_turn) records n m l o (t, out) = Ok (t', out ++ number o (picked n t l)) (o + length (picked n t l)).
Proof.
  induction l as [|x l IH]; intros n m t o out; cbn [std_select picked].
  - exists t. cbn. rewrite app_nil_r, Nat.add_0_r. reflexivity.
  - destruct (n =? 0); [exists t; cbn; rewrite app_nil_r, Nat.add_0_r; reflexivity|].
    unfold bind, draws at 1, in_turn at 1. cbn [fst snd]. destruct (hd 0 t <? n).
    + unfold records at 1. cbn [fst snd]. destruct (IH (n - 1) (m - 1) (tl t) (1 + o) (out ++ [(o, x)])) as (t' & Q). exists t'. rewrite Q.
      cbn [number length]. rewrite <- app_assoc. cbn [app]. f_equal. lia.
    + destruct (IH n (m - 1) (tl t) o out) as (t' & Q). exists t'. exact Q.
Qed.
Lemma count_picks : forall l n sel, NoDup l -> selection sel l -> length sel = n ->
  exists L, NoDup L /\ (forall t, In t L <-> draw_sequence (length l) t /\ picked n t l = sel) /\ length L = fact n * fact (length l - n).
Proof.
  induction l as [|x l IH]; intros n sel ND Hs Hn.
  - inversion Hs; subst. exists [[]]. csplit; auto.
    + constructor; [intros []|constructor].
    + intros t. cbn [length picked]. rewrite draw_sequence_nil. simpl. intuition.
  - inversion ND as [|x0 l0 Hx ND']; subst x0 l0.
    destruct (Nat.eq_dec n 0) as [->|Nn].
    + apply length_zero_iff_nil in Hn. subst sel. destruct (all_sequences (length (x :: l))) as (L & N & I & Ln). exists L. csplit; auto.
      * intros t. rewrite I. cbn [picked]. intuition.
      * rewrite Ln, Nat.sub_0_r. cbn [fact]. lia.
    + assert (Hl := sel_len _ _ Hs). inversion Hs as [|x' s' l' Hs'|x' s' l' Hs']; subst x'; subst l'; subst sel.
      * cbn [length] in Hn. destruct (IH (n - 1) s' ND' Hs' ltac:(lia)) as (L & N & I & Ln). exists (prefixed 0 n L). csplit.
        -- apply prefixed_nodup, N.
        -- intros t. rewrite prefixed_in. split.
           ++ intros (r & t' & -> & Hr & Ht). apply I in Ht. destruct Ht as (Ht & Hp). split; [cbn [length] in *; apply draw_sequence_cons; split; [lia|exact Ht]|].
              cbn [picked hd tl]. destruct (Nat.eqb_spec n 0); [lia|]. destruct (Nat.ltb_spec r n); [|lia]. rewrite Hp. reflexivity.
           ++ destruct t as [|r t]; [intros ((Q & _) & _); discriminate Q|]. intros (Q & Hp). apply draw_sequence_cons in Q. destruct Q as (Hr & Ht).
              cbn [picked hd tl] in Hp. destruct (Nat.eqb_spec n 0); [lia|]. destruct (Nat.ltb_spec r n) as [Lr|Gr].
              ** injection Hp as Hp. exists r, t. csplit; auto; [lia|]. apply I. auto.
              ** exfalso. apply Hx. apply (picked_incl t l n). rewrite Hp. left. auto.
        -- rewrite prefixed_length, Ln. cbn [length]. destruct n as [|n]; [lia|]. replace (S n - 1) with n by lia.
           replace (S (length l) - S n) with (length l - n) by lia. change (fact (S n)) with (S n * fact n). lia.
      * assert (Hl' := sel_len _ _ Hs'). destruct (IH n s' ND' Hs' Hn) as (L & N & I & Ln). cbn [length]. exists (prefixed n (S (length l) - n) L). csplit.
        -- apply prefixed_nodup, N.
        -- intros t. rewrite prefixed_in. split.
           ++ intros (r & t' & -> & Hr & Ht). apply I in Ht. destruct Ht as (Ht & Hp). split; [apply draw_sequence_cons; split; [lia|exact Ht]|].
              cbn [picked hd tl]. destruct (Nat.eqb_spec n 0); [lia|]. destruct (Nat.ltb_spec r n); [lia|]. exact Hp.
           ++ destruct t as [|r t]; [intros ((Q & _) & _); discriminate Q|]. intros (Q & Hp). apply draw_sequence_cons in Q. destruct Q as (Hr & Ht).
              cbn [picked hd tl] in Hp. destruct (Nat.eqb_spec n 0); [lia|]. destruct (Nat.ltb_spec r n) as [Lr|Gr].
              ** exfalso. apply Hx. clear - Hs' Hp. subst s'. remember (x :: picked (n - 1) t l) as s. assert (Hi : In x s) by (subst; left; auto). clear Heqs.
                 induction Hs' as [|y s l Hs IH|y s l Hs IH]; [destruct Hi|destruct Hi as [->|Hi]; [left; auto|right; auto]|right; auto].
              ** exists r, t. csplit; auto; [lia|]. apply I. auto.
        -- rewrite prefixed_length, Ln. replace (S (length l) - n) with (S (length l - n)) by lia. change (fact (S (length l - n))) with (S (length l - n) * fact (length l - n)). lia.
Qed.
End Count.

Lemma number_inj {A} : forall (a b : list A) o, number o a = number o b -> a = b.
Proof.
  induction a as [|x a IH]; intros [|y b] o Q; cbn [number] in Q; try discriminate Q; auto. injection Q as -> Q. f_equal. eapply IH; eauto.
Qed.
Lemma nodup_parts {A} : forall l1 l2 : list A, NoDup (l1 ++ l2) -> NoDup l1 /\ NoDup l2.
Proof.
  induction l1 as [|x l1 IH]; intros l2 N; cbn [app] in N; [split; [constructor|exact N]|]. inversion N as [|y l Hx N']; subst.
  destruct (IH l2 N') as (N1 & N2). split; [constructor; auto|exact N2]. intros Q. apply Hx, in_or_app. auto.
Qed.
Lemma views_nodup {V} {E : Env V} w c g d Ts i j : reach w (c :: g) d -> NoDup (views c Ts i j).
Proof.
  intros H. destruct (reach_wf _ _ _ _ H) as (W & O). assert (A : NoDup (map r_addr (refs c))).
  { rewrite refs_nodes. apply addr_nodup. apply (aok_vok _ (aok_of _ _ _ _ H)). }
  apply NoDup_map_inv in A. unfold views, between.
  assert (B : NoDup (firstn (j - i) (skipn i (refs c)))).
  { clear - A. rewrite <- (firstn_skipn i (refs c)) in A. apply nodup_parts in A. destruct A as (_ & A). rewrite <- (firstn_skipn (j - i) (skipn i (refs c))) in A.
    apply nodup_parts in A. apply A. }
  induction B as [|r l Hr Hl IH]; cbn [map]; constructor; auto. intros Q. apply in_map_iff in Q. destruct Q as (r' & Q & Hr').
  unfold seen in Q. injection Q as _ ->. auto.
Qed.

(** ** C45: all selections are equally likely *)

(** Of the (j-i)! equally likely sequences of random numbers, each selection [sel] of the number of elements asked for
    is the result of the same number: k! (j-i-k)! if it has k elements. *)
Theorem C45_uniform {V} {E : Env V} w c g d Ts first last i j n o sel : reach w (c :: g) d ->
  located c first i -> located c last j -> i <= j -> selection sel (views c Ts i j) -> length sel = Nat.min n (j - i) ->
  (exists all, NoDup all /\ (forall t, In t all <-> draw_sequence (j - i) t) /\ length all = fact (j - i)) /\
  exists these, NoDup these /\
    (forall t, In t these <-> draw_sequence (j - i) t /\
       exists t', pc_sample c Ts first last records n (draws in_turn) o (t, []) = Ok (t', number o sel) (o + length sel)) /\
    length these = fact (length sel) * fact (j - i - length sel).
Proof.
  intros H L1 L2 L Hs Hn. split; [apply all_sequences|].
  destruct (loc _ _ _ _ _ _ H L2) as [_ B]. assert (Lv := views_length c Ts i j B).
  destruct (count_picks (views c Ts i j) (length sel) sel (views_nodup w c g d Ts i j H) Hs eq_refl) as (these & N & I & Ln).
  rewrite Lv in I, Ln. exists these. csplit; auto. intros t. rewrite I.
  pose proof (C45_sample_calls w c g d Ts first last i j (draws in_turn) records n o H L1 L2 L (t, [])) as Sm.
  unfold std_sample in Sm. rewrite Lv, <- Hn in Sm.
  destruct (picked_select (views c Ts i j) (length sel) (j - i) t o []) as (t' & Q). rewrite Q in Sm.
  destruct (pc_sample c Ts first last records n (draws in_turn) o (t, [])) as [s r|s e|]; try tauto. destruct Sm as (-> & ->). cbn [app].
  split; intros (Ht & Hp); (split; [exact Ht|]).
  - exists t'. rewrite Hp. reflexivity.
  - destruct Hp as (t2 & Hp). injection Hp as _ Hp _. exact (number_inj _ _ _ Hp).
Qed.
Example C45_uniform_ex lay : let E := dE lay in let sel := views (dc lay) [] 2 3 ++ views (dc lay) [] 4 5 in
  reach (dw lay) [dc lay; dx lay] [] /\ located (dc lay) (dfirst lay) 1 /\ located (dc lay) (dlast lay) 5 /\ 1 <= 5 /\ selection sel (views (dc lay) [] 1 5) /\
  length sel = Nat.min 2 (5 - 1) /\ fact (length sel) * fact (5 - 1 - length sel) = 4 /\ fact (5 - 1) = 24 /\
  pc_sample (dc lay) [] (dfirst lay) (dlast lay) records 2 (draws in_turn) 0 ([3; 1; 1; 0], []) = Ok ([], number 0 sel) 2.
Proof. cbv zeta. csplit; try (demo_fact lay). destruct lay; vm_compute; repeat constructor. Qed.

(** ** C70: its calls *)

Section Made.
Context {S Z A : Type} (T : S -> exn -> Prop) (f : Z -> M S A) (D : Z -> Prop) {X : Type}.
Notation made := (made T f D).

Lemma made_draws (draw : nat -> M (S * list Z) nat) (put : nat -> X -> M (S * list Z) unit) b :
  (forall m, m < b -> once T f D (draw m)) -> (forall o x, never T f D (put o x)) ->
  forall l n m o, m <= b -> length l <= m -> made (std_select draw put n m l o) (length l) (fun k _ => k <= length l).
Proof.
  intros Hd Hp. induction l as [|x l IH]; intros n m o Lm Ll; cbn [std_select length] in *; [apply made_ret; lia|].
  destruct (n =? 0); [apply made_ret; lia|]. eapply made_once; [apply Hd; lia|lia|]. intros r. destruct (r <? n).
  - eapply made_never; [apply Hp|]. intros _. eapply made_mono; [apply IH; lia|lia|]. cbn beta. intros; lia.
  - eapply made_mono; [apply IH; lia|lia|]. cbn beta. intros; lia.
Qed.
Lemma made_picks (draw : nat -> M (S * list Z) nat) (put : nat -> X -> M (S * list Z) unit) : forall l,
  (forall m, made (draw m) 0 (fun k r => k = 0 /\ r <= m)) -> (forall o x, In x l -> once T f D (put o x)) ->
  forall n o, n <= length l -> made (std_select draw put n (length l) l o) n (fun k r => k = n /\ r = o + k).
Proof.
  intros l Hd. induction l as [|x l IH]; intros Hp n o Ln; cbn [std_select length] in *; [apply made_ret; lia|].
  assert (IH' := IH (fun o y Hy => Hp o y (or_intror Hy))).
  destruct (Nat.eqb_spec n 0) as [->|Nn]; [apply made_ret; lia|]. eapply made_bind; [apply Hd|lia|]. cbn beta. intros k r [-> Lr]. split; [lia|].
  rewrite Nat.sub_0_r. replace (Datatypes.S (length l) - 1) with (length l) by lia. destruct (Nat.ltb_spec r n).
  - eapply made_once; [apply Hp; left; auto|lia|]. intros _. eapply made_mono; [apply IH'; lia|lia|]. cbn beta. intros; lia.
  - eapply made_mono; [apply IH'; lia|lia|]. cbn beta. intros; lia.
Qed.
End Made.

(** At most one number is drawn for each element, none after the last element taken, always with a bound below the number of
    elements; exactly as many elements as asked for, if there are so many, are written, whatever the numbers (within the bounds). *)
Theorem C70_sample {V} {E : Env V} w c g d Ts first last i j n {S} (draw : nat -> M S nat) (put : nat -> view V -> M S unit) o : reach w (c :: g) d ->
  located c first i -> located c last j -> i <= j ->
  ((forall x s, both put x s <> UB) ->
   calls_among (throws (both put)) (fun q => pc_sample c Ts first last (apiece (unlogged (both put))) n q o) draw (fun m => m < j - i) (j - i) (fun k _ => k <= j - i)) /\
  ((forall m s, draw m s <> UB) -> (forall m s s' r, draw m s = Ok s' r -> r <= m) ->
   calls_among (throws draw) (fun q => pc_sample c Ts first last (apiece q) n (unlogged draw) o) (both put) (fun ox => In (snd ox) (views c Ts i j))
     (Nat.min n (j - i)) (fun k o' => k = Nat.min n (j - i) /\ o' = o + k)).
Proof.
  intros H L1 L2 L. destruct (loc _ _ _ _ _ _ H L2) as [_ B]. assert (Lv := views_length c Ts i j B). split.
  - intros U. calling. eapply made_same; [eapply C45_sample_calls; eauto| |].
    + eapply made_mono; [apply made_draws with (b := j - i); [|intros; apply never_pairs; auto|lia|lia]|lia|intros k a Q; exact Q].
      intros m Hm. apply once_logged; auto.
    + cbn beta. intros k a b _ Hk. lia.
  - intros U R. calling. eapply made_same; [eapply C45_sample_calls; eauto| |].
    + eapply made_mono; [apply made_picks; [| |lia]|lia|intros k a Q; exact Q].
      * intros m s log. unfold unlogged. cbn [fst snd]. specialize (U m s). destruct (draw m s) as [s' r|s' e|] eqn:Q; [| |congruence].
        -- exists []. rewrite app_nil_r. csplit; auto. eapply R; eauto.
        -- exists []. rewrite app_nil_r. csplit; auto. right. exists m, s. auto.
      * intros o' x Hx. apply once_pairs; auto.
    + cbn beta. intros k a b -> Hk. rewrite <- Lv. exact Hk.
Qed.
Example C70_sample_ex lay : let E := dE lay in
  let put o (x : view nat) s := if o =? 9 then Exn s LengthError else Ok (s + 1) tt in
  let draw m (s : nat) := Ok (s + 10) (Nat.div2 m) in
  reach (dw lay) [dc lay; dx lay] [] /\ located (dc lay) (dfirst lay) 1 /\ located (dc lay) (dlast lay) 5 /\ 1 <= 5 /\
  (forall x (s : nat), both put x s <> UB) /\ (forall m s, draw m s <> UB) /\ (forall m s s' r, draw m s = Ok s' r -> r <= m) /\
  wrote_down 0 (pc_sample (dc lay) [] (dfirst lay) (dlast lay) (apiece (unlogged (both put))) 2 (logged draw) 3) = [3; 2; 1] /\
  map (fun ox : nat * view nat => (fst ox, val (snd ox))) (wrote_down 0 (pc_sample (dc lay) [] (dfirst lay) (dlast lay) (apiece (logged (both put))) 2 (unlogged draw) 3)) =
    [(3, 6); (4, 8)].
Proof.
  cbv zeta. csplit; try (demo_fact lay); try (intros x s; unfold both; try discriminate; destruct (fst x =? 9); discriminate).
  intros m s s' r Q. assert (Q' : r = Nat.div2 m) by (injection Q; auto). subst r. apply Nat.div2_decr. lia.
Qed.

Print Assumptions C45_uniform.
Print Assumptions C70_sample.
