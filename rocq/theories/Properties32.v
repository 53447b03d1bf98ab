(** * Programs which walk over a range with iterators (C76)

    See the head of Properties1.v for the form of the statements.  The state of a program is the
    collection and that of the caller ([S]). *)

From Coq Require Import List Arith Lia Bool.
From Verif Require Import Base Vec Backend Segment Coll StdAlg Algo Access Local Walk Spec SpecAlg SpecAcc SpecLocal SpecWalk Reach ProofBase ProofVec ProofBackend ProofOps
  ProofSeg ProofMap ProofView ProofAlgo ProofColl ProofReach ProofObs ProofProp ProofProp4 ProofProp5 ProofAccess Demo Properties6 ProofLocal ProofWalk.
Import ListNotations.

(** ** C76 The range is a sequence for every program which uses forward iterators *)

(** Whatever the program does with [first] and [last] -- copying, assigning, advancing and comparing iterators, using the elements -- it
    has the same result as on the sequence of the elements in between, iterators being positions of the sequence: an
    iterator refers to the same element however often it is used and however it was reached, and two are equal just when they are in the same
    position.  The elements it has changed have changed in the collection, and nothing else; if it throws, what it has done until then is kept. *)
Theorem C76_forward {V} {E : Env V} {S X} w c g d first last i j (p : walk V S X) s :
  reach w (c :: g) d -> located c first i -> located c last j -> i <= j ->
  let did c' l' := reach w (c' :: g) d /\ map fst l' = map fst (between i j (flat c)) /\ updated c c' i (map snd l') in
  match run_seq p [0; j - i] (between i j (flat c), s) with
  | Ok (l', s') (x, ks) => exists c' its, run_walk p [first; last] (c, s) = Ok (c', s') (x, its) /\ did c' l' /\
      Forall2 (fun it k => located c' it (i + k)) its ks
  | Exn (l', s') e => exists c', run_walk p [first; last] (c, s) = Exn (c', s') e /\ did c' l'
  | UB => True
  end.
Proof.
  intros H L1 L2 Hij did. pose proof (located_le w c g d last j H L2) as Hj.
  assert (F : Forall2 (fun it k => located c it (i + k) /\ k <= j - i) [first; last] [0; j - i]).
  { constructor; [|constructor; [|constructor]].
    - rewrite Nat.add_0_r. split; auto. lia.
    - replace (i + (j - i)) with j by lia. split; auto. }
  pose proof (run_walk_seq p i j [first; last] [0; j - i] w c g d s H Hij Hj F) as R. cbn zeta in R.
  destruct (run_seq p [0; j - i] (between i j (flat c), s)) as [[l' s'] [x ks]|[l' s'] e|]; auto.
  - destruct R as (c' & its & Q & (R & Sh & Em & Ef) & F'). exists c', its. csplit; auto.
    + unfold did. csplit; auto. eapply shape_part_updated; eauto.
    + clear - F'. induction F' as [|a b l l' [P _] F IH]; constructor; auto.
  - destruct R as (c' & Q & R & Sh & Em & Ef). exists c'. split; auto. unfold did. csplit; auto. eapply shape_part_updated; eauto.
Qed.

(** What the program guarantees on sequences, it guarantees here. *)
Theorem C76_transfer {V} {E : Env V} {S X} w c g d first last i j (p : walk V S X) s
  (Q : list (tyid * V) -> S -> X -> list nat -> Prop) (Xc : list (tyid * V) -> S -> exn -> Prop) :
  reach w (c :: g) d -> located c first i -> located c last j -> i <= j ->
  wp (run_seq p [0; j - i]) (between i j (flat c), s) (fun '(l', s') r => Q l' s' (fst r) (snd r)) (fun '(l', s') e => Xc l' s' e) ->
  wp (run_walk p [first; last]) (c, s)
    (fun '(c', s') r => exists l' ks, Q l' s' (fst r) ks /\ Forall2 (fun it k => located c' it (i + k)) (snd r) ks /\
       map fst l' = map fst (between i j (flat c)) /\ updated c c' i (map snd l') /\ reach w (c' :: g) d)
    (fun '(c', s') e => exists l', Xc l' s' e /\
       map fst l' = map fst (between i j (flat c)) /\ updated c c' i (map snd l') /\ reach w (c' :: g) d).
Proof.
  intros H L1 L2 Hij Hw. pose proof (C76_forward w c g d first last i j p s H L1 L2 Hij) as A. cbn zeta in A. unfold wp in *.
  destruct (run_seq p [0; j - i] (between i j (flat c), s)) as [[l' s'] [x ks]|[l' s'] e|]; [| |destruct Hw].
  - destruct A as (c' & its & -> & (R & Em & U) & F). exists l', ks. auto.
  - destruct A as (c' & -> & R & Em & U). exists l'. auto.
Qed.

(** std::find_if(first,last,pred) gives the same iterator as boost::poly_collection::find_if, and the predicate is called on the same
    elements in the same order; both leave the elements alone. *)
Theorem C76_find_if {V} {E : Env V} {S} w c g d Ts first last i j (pred : tyid * V -> M S bool) fuel s :
  reach w (c :: g) d -> located c first i -> located c last j -> i <= j -> j - i <= fuel ->
  match pc_find_if c Ts first last (fun x : view V => pred (r_ty (snd x), r_val (snd x))) s with
  | Ok s' it => exists c' , run_walk (w_find_if fuel pred) [first; last] (c, s) = Ok (c', s') (tt, [it; last]) /\ updated c c' 0 [] /\ reach w (c' :: g) d
  | Exn s' e => exists c', run_walk (w_find_if fuel pred) [first; last] (c, s) = Exn (c', s') e /\ updated c c' 0 [] /\ reach w (c' :: g) d
  | UB => True
  end.
Proof.
  intros H L1 L2 Hij Hf. pose proof (located_le w c g d last j H L2) as Hj.
  pose proof (C39_find_if w c g d Ts first last i j (fun x : view V => pred (r_ty (snd x), r_val (snd x))) H L1 L2 Hij s) as Q.
  assert (Qv : std_find_if (fun x : view V => pred (r_ty (snd x), r_val (snd x))) (views c Ts i j) s = std_find_if pred (between i j (flat c)) s).
  { unfold views. rewrite <- refs_flat, <- map_between. generalize (between i j (refs c)). intros l. clear. revert s.
    induction l as [|r l IH]; intros s; cbn [map std_find_if]; auto. unfold bind. cbn [seen snd]. destruct (pred _ s) as [s' []|s' e|]; auto. rewrite IH. reflexivity. }
  rewrite Qv in Q. assert (Lb : length (between i j (flat c)) = j - i) by (apply between_length; auto).
  pose proof (find_if_seq pred (j - i) fuel 0 (between i j (flat c)) s ltac:(lia) Hf) as Fs. cbn [skipn] in Fs. rewrite Lb in Fs.
  pose proof (C76_forward w c g d first last i j (w_find_if fuel pred) s H L1 L2 Hij) as A. cbn zeta in A. rewrite Fs in A.
  destruct (pc_find_if c Ts first last _ s) as [s1 it|s1 e|], (std_find_if pred (between i j (flat c)) s) as [s2 k|s2 e2|]; auto; try contradiction.
  - destruct Q as (-> & Lk). destruct A as (c' & its & Qr & (R & _ & U) & F).
    inversion F as [|a b la lb P F1 Q1 Q2]; subst. inversion F1 as [|a' b' la' lb' P' F2 Q1' Q2']; subst. inversion F2; subst.
    assert (Sa : forall y m, located c y m -> located c' y m).
    { intros y m [(-> & ->)|(t & q & P0 & ->)].
      - left. split; auto. clear - U Hj Hij Lb. destruct U as [U1 _ _ _ _ _ _]. apply (f_equal (@length _)) in U1.
        rewrite !app_length, firstn_length, skipn_length, !map_length, Lb in U1. lia.
      - right. exists t, q. split; [apply (up_iters _ _ _ _ U t q); exact P0|]. f_equal. rewrite (content_elems_types c), (content_elems_types c') by (eapply ProofProp4.types_nodup; eauto).
        rewrite (up_types _ _ _ _ U). clear - U. induction (types c) as [|a0 l IH]; cbn [map offset]; auto. destruct (a0 =? t); auto. rewrite (up_sizes _ _ _ _ U), IH. reflexivity. }
    assert (a = it) as -> by (eapply (located_inj w c' g d); [exact R|exact P|]; apply Sa; exact Lk).
    assert (a' = last) as -> by (eapply (located_inj w c' g d); [exact R|exact P'|]; apply Sa; replace (i + (j - i)) with j by lia; exact L2).
    exists c'. csplit; auto. apply (updated_same w c g d c' i j); auto.
  - destruct Q as (-> & <-). destruct A as (c' & Qr & R & _ & U). exists c'. csplit; auto. apply (updated_same w c g d c' i j); auto.
Qed.

(** std::max_element(first,last,less): the first of the largest elements of the range, whatever their types, and nothing changes. *)
Theorem C76_max_element {V} {E : Env V} {S} w c g d first last i j (lt : tyid * V -> tyid * V -> bool) less fuel (s : S) :
  reach w (c :: g) d -> located c first i -> located c last j -> i < j -> j - i <= fuel -> implements lt less -> swo lt ->
  wp (run_walk (w_max_element fuel less) [first; last]) (c, s)
    (fun '(c', s') r => exists it k, nth_error (snd r) 2 = Some it /\ located c' it (i + k) /\ largest lt (between i j (flat c)) k /\
       updated c c' 0 [] /\ reach w (c' :: g) d)
    (fun '(c', s') e => updated c c' 0 [] /\ reach w (c' :: g) d).
Proof.
  intros H L1 L2 Hij Hf Hl Hs. pose proof (located_le w c g d last j H L2) as Hj. assert (Hij' : i <= j) by lia.
  assert (Lb : length (between i j (flat c)) = j - i) by (apply between_length; auto).
  eapply wp_mono; [eapply (C76_transfer w c g d first last i j (w_max_element fuel less) s
    (fun l' _ _ ks => l' = between i j (flat c) /\ exists m, ks = [j - i; j - i; m] /\ largest lt (between i j (flat c)) m) (fun l' _ _ => l' = between i j (flat c))); auto| |].
  - pose proof (max_element_seq lt less Hl Hs fuel (between i j (flat c)) s ltac:(lia)) as W. rewrite Lb in W.
    eapply wp_mono; [apply W| |]; [intros Q; rewrite Q in Lb; cbn in Lb; lia| |]; intros [l' s']; auto.
    intros r (-> & m & -> & Q). cbn [fst snd]. eauto.
  - intros [c' s'] r (l' & ks & (-> & m & -> & Q) & F & _ & U & R). inversion F as [|a b la lb P F1 Q1 Q2]; subst.
    inversion F1 as [|a' b' la' lb' P' F2 Q1' Q2']; subst. inversion F2 as [|a2 b2 la2 lb2 P2 F3 Q12 Q22]; subst.
    exists a2, m. csplit; auto. apply (updated_same w c g d c' i j); auto.
  - intros [c' s'] e (l' & -> & _ & U & R). split; auto. apply (updated_same w c g d c' i j); auto.
Qed.

(** *** Instances *)

(** a program which keeps a copy of an iterator, goes on with the original and uses both; and one which throws half-way *)
Definition t_add (n : nat) (_ : tyid) : M (nat * nat) nat := fun '(v, s) => Ok (v + n, s) v.
Definition t_fail (_ : tyid) : M (nat * nat) unit := fun '(v, s) => Exn (0, s) UserExn.
Definition t_walk : walk nat nat nat := Dup 0 (Inc 0 (Inc 0 (Ref 2 (t_add 100) (fun x => Ref 0 (t_add x) (fun y => Cmp 0 2 (fun b => Done (if b then 0 else y))))))).
Definition t_walk' : walk nat nat nat := Ref 0 (t_add 100) (fun x => Inc 0 (Ref 0 t_fail (fun _ => Done 0))).
Example C76_forward_ex lay : let E := dE lay in let c := dc lay in
  reach (dw lay) [c; dx lay] [] /\ located c (it_at c 1 1) 1 /\ located c (it_at c 4 0) 5 /\ 1 <= 5 /\
  match run_seq t_walk [0; 4] (between 1 5 (flat c), 0) with
  | Ok (l, _) r => map snd l = [106; 7; 14; 9] /\ r = (8, [2; 4; 0]) | _ => False end /\
  match run_walk t_walk [it_at c 1 1; it_at c 4 0] (c, 0) with
  | Ok (c', _) r => map snd (flat c') = [5; 106; 7; 14; 9; 1] /\ r = (8, [it_at c 2 0; it_at c 4 0; it_at c 1 1]) | _ => False end /\
  match run_walk t_walk' [it_at c 1 1; it_at c 4 0] (c, 0) with Exn (c', _) e => map snd (flat c') = [5; 106; 0; 8; 9; 1] | _ => False end.
Proof. cbv zeta; csplit; try solve [demo_fact lay]; destruct lay; vm_compute; auto. Qed.
Example C76_transfer_ex lay : let E := dE lay in let c := dc lay in
  reach (dw lay) [c; dx lay] [] /\ located c (it_at c 1 1) 1 /\ located c (it_at c 4 0) 5 /\ 1 <= 5 /\
  wp (run_seq t_walk [0; 5 - 1]) (between 1 5 (flat c), 0) (fun '(l, _) r => map snd l = [106; 7; 14; 9]) (fun _ _ => False).
Proof. cbv zeta; csplit; try solve [demo_fact lay]; destruct lay; vm_compute; auto. Qed.
Example C76_find_if_ex lay : let E := dE lay in let c := dc lay in
  reach (dw lay) [c; dx lay] [] /\ located c (it_at c 1 1) 1 /\ located c (it_at c 4 0) 5 /\ 1 <= 5 /\ 5 - 1 <= 4 /\
  match run_walk (w_find_if 4 (fun x => ret (7 <? snd x))) [it_at c 1 1; it_at c 4 0] (c, 0) with
  | Ok _ r => r = (tt, [it_at c 2 0; it_at c 4 0]) | _ => False end.
Proof. cbv zeta; csplit; try solve [demo_fact lay]; destruct lay; vm_compute; auto. Qed.
Definition t_lt (x y : tyid * nat) : bool := snd x <? snd y.
Lemma t_lt_swo : swo t_lt.
Proof.
  unfold t_lt. split; intros.
  - apply Nat.ltb_irrefl.
  - rewrite Nat.ltb_lt in *. lia.
  - rewrite Nat.ltb_ge in *. lia.
Qed.
Definition t_ltf (x y : tyid * nat) : M nat bool := fun s => if s =? 9 then Exn s UserExn else Ok (S s) (t_lt x y).
Lemma t_ltf_ok : implements t_lt t_ltf.
Proof. intros x y s. unfold t_ltf. destruct (s =? 9); auto. Qed.
Example C76_max_element_ex lay : let E := dE lay in let c := dc lay in
  reach (dw lay) [c; dx lay] [] /\ located c (it_at c 1 1) 1 /\ located c (c_end c) 6 /\ 1 < 6 /\ 6 - 1 <= 5 /\ implements t_lt t_ltf /\ swo t_lt /\
  match run_walk (w_max_element 5 t_ltf) [it_at c 1 1; c_end c] (c, 0) with
  | Ok _ r => nth_error (snd r) 2 = Some (it_at c 2 1) | _ => False end.
Proof. cbv zeta; csplit; try solve [demo_fact lay]; first [apply t_ltf_ok|apply t_lt_swo|idtac]; destruct lay; vm_compute; auto. Qed.

Print Assumptions C76_forward.
Print Assumptions C76_transfer.
Print Assumptions C76_find_if.
Print Assumptions C76_max_element.
