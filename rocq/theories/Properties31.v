(** * Algorithms of the standard library on local ranges (C75); erasing up to the end of a segment (C33)

    See the head of Properties1.v for the form of the statements.  The state of an algorithm is the
    collection and that of the caller ([S]). *)

From Coq Require Import List Arith Lia Bool Permutation Sorted.
From Verif Require Import Base Vec Backend Segment Coll StdAlg Algo Access Local Spec SpecAlg SpecAcc SpecLocal Reach ProofBase ProofVec ProofBackend ProofOps ProofSeg
  ProofMap ProofView ProofAlgo ProofColl ProofReach ProofObs ProofProp ProofProp4 ProofProp5 ProofHist ProofAccess Demo Properties3 Properties5 ProofLocal.
Import ListNotations.

(** ** C75 The local range of a type is an array *)

(** Whatever the algorithm does with the elements between [first] and [last], it has the same result, and
    leaves the same values, as on an array which holds these elements; if it throws, what it has done until then is
    kept.  Nothing else in the collection changes. *)
Theorem C75_array {V} {E : Env V} {S X} w c g d T t first last i j (p : nat -> algo V S X) s :
  reach w (c :: g) d -> lpoints c first t i -> lpoints c last t j -> i <= j -> same_kind first last -> T = None \/ T = Some t ->
  let did c' l' := rearranged c c' t (with_part (elems c t) i j l') /\ length l' = j - i /\ reach w (c' :: g) d in
  match run_array (p (j - i)) (between i j (elems c t), s) with
  | Ok (l', s') x => exists c', on_local T first last p (c, s) = Ok (c', s') x /\ did c' l'
  | Exn (l', s') e => exists c', on_local T first last p (c, s) = Exn (c', s') e /\ did c' l'
  | UB => True
  end.
Proof.
  intros H P P' Hij Sk HT did. pose proof (lpoints_le _ _ _ _ _ _ _ H P') as Hj.
  pose proof (run_local_array T t first i j (p (j - i)) w c g d s H P Hij Hj HT) as R. cbn zeta in R.
  unfold on_local. rewrite (li_sub_spec w c g d first last t i j H P P' Hij Sk).
  destruct (run_array (p (j - i)) (between i j (elems c t), s)) as [[l' s'] x|[l' s'] e|]; auto; destruct R as (c' & Q & R' & St & Ll & Ee);
    (exists c'; split; [exact Q|]; unfold did; csplit; auto; eapply stepped_rearranged; eauto).
Qed.

(** Consequences in the form of triples: what the algorithm guarantees on arrays, it guarantees here. *)
Theorem C75_transfer {V} {E : Env V} {S X} w c g d T t first last i j (p : nat -> algo V S X) s
  (Q : list V -> S -> X -> Prop) (Xc : list V -> S -> exn -> Prop) :
  reach w (c :: g) d -> lpoints c first t i -> lpoints c last t j -> i <= j -> same_kind first last -> T = None \/ T = Some t ->
  wp (run_array (p (j - i))) (between i j (elems c t), s) (fun '(l', s') x => Q l' s' x) (fun '(l', s') e => Xc l' s' e) ->
  wp (on_local T first last p) (c, s)
    (fun '(c', s') x => exists l', Q l' s' x /\ rearranged c c' t (with_part (elems c t) i j l') /\ length l' = j - i /\ reach w (c' :: g) d)
    (fun '(c', s') e => exists l', Xc l' s' e /\ rearranged c c' t (with_part (elems c t) i j l') /\ length l' = j - i /\ reach w (c' :: g) d).
Proof.
  intros H P P' Hij Sk HT Hw. pose proof (C75_array w c g d T t first last i j p s H P P' Hij Sk HT) as A. cbn zeta in A. unfold wp in *.
  destruct (run_array (p (j - i)) (between i j (elems c t), s)) as [[l' s'] x|[l' s'] e|]; [| |destruct Hw]; destruct A as (c' & -> & R); exists l'; auto.
Qed.

Lemma set_assoc_keys {V} t xs (l : list (tyid * list V)) : map fst (set_assoc t xs l) = map fst l.
Proof. induction l as [|[t' ys] l IH]; auto. cbn [set_assoc]. destruct (t' =? t); cbn [map fst]; auto. rewrite IH. reflexivity. Qed.

(** std::sort(c.begin<T>()+i,c.begin<T>()+j,less): the elements in between are sorted; if a move or the
    comparison throws, the collection is still usable, with as many elements of every type. *)
Theorem C75_sort {V} {E : Env V} {S} w c g d t first last i j take put (lt : V -> V -> bool) (less : V -> V -> M S bool) s :
  reach w (c :: g) d -> lpoints c first t i -> lpoints c last t j -> i <= j -> same_kind first last ->
  moves_out take -> moves_in put -> compares lt less -> swo lt ->
  wp (on_local (Some t) first last (std_sort take put less)) (c, s)
    (fun '(c', s') _ => exists l', Permutation (between i j (elems c t)) l' /\ StronglySorted (fun x y => lt y x = false) l' /\
       rearranged c c' t (with_part (elems c t) i j l') /\ reach w (c' :: g) d)
    (fun '(c', s') e => exists l', length l' = j - i /\ rearranged c c' t (with_part (elems c t) i j l') /\ reach w (c' :: g) d).
Proof.
  intros H P P' Hij Sk Ht Hp Hl Hs. pose proof (lpoints_le _ _ _ _ _ _ _ H P') as Hj.
  eapply wp_mono; [eapply (C75_transfer w c g d (Some t) t first last i j (std_sort take put less) s
    (fun l' _ _ => Permutation (between i j (elems c t)) l' /\ StronglySorted (fun x y => lt y x = false) l') (fun _ _ _ => True)); auto| |].
  - pose proof (wp_std_sort take put Ht Hp lt less Hl Hs (between i j (elems c t)) s) as W. rewrite (between_length i j (elems c t) Hj) in W.
    eapply wp_mono; [exact W| |]; intros [l' s']; auto.
  - intros [c' s'] _ (l' & (A & B) & R & L & R'). exists l'. auto.
  - intros [c' s'] e (l' & _ & R & L & R'). exists l'. auto.
Qed.

(** c.erase(std::remove_if(c.begin<T>()+i,c.begin<T>()+j,pred),c.begin<T>()+j): exactly the elements in between which satisfy
    the predicate go, the others keep their order.  If the range extends to the end of the segment the erasure does not throw;
    and if anything throws, the collection remains usable. *)
Theorem C75_erase_remove {V} {E : Env V} {S} w c g d t first last i j take put (p : V -> bool) (ask : M (V * S) bool) s :
  reach w (c :: g) d -> lpoints c first t i -> lpoints c last t j -> i <= j -> same_kind first last ->
  moves_out take -> moves_in put -> asks p ask ->
  wp (on_local (Some t) first last (std_remove_if take put ask)) (c, s)
    (fun '(c1, s') n => reach w (c1 :: g) d /\ (forall t', t' <> t -> elems c1 t' = elems c t') /\ exists pos, li_add c1 first n = Some pos /\
       wp (c_erase_local_range pos last) (c1, w)
         (fun '(c', w') it => reach w' (c' :: g) d /\ lpoints c' it t (i + n) /\ types c' = types c /\
            elems c' t = with_part (elems c t) i j (filter (fun v => negb (p v)) (between i j (elems c t))) /\
            (forall t', t' <> t -> elems c' t' = elems c t'))
         (fun '(c', w') e => j < length (elems c t) /\ reach w' (c' :: g) d /\ erase_threw c1 c' w w' t e))
    (fun '(c', s') e => exists l', length l' = j - i /\ rearranged c c' t (with_part (elems c t) i j l') /\ reach w (c' :: g) d).
Proof.
  intros H P P' Hij Sk Ht Hp Ha. pose proof (lpoints_le _ _ _ _ _ _ _ H P') as Hj. set (sl := between i j (elems c t)).
  eapply wp_mono; [eapply (C75_transfer w c g d (Some t) t first last i j (std_remove_if take put ask) s
    (fun l' _ n => firstn n l' = filter (fun v => negb (p v)) sl /\ n = length (filter (fun v => negb (p v)) sl)) (fun _ _ _ => True)); auto| |].
  - pose proof (wp_std_remove_if take put Ht Hp p ask Ha sl s) as W. unfold sl in W at 1. rewrite (between_length i j (elems c t) Hj) in W.
    eapply wp_mono; [exact W| |]; intros [l' s']; auto. intros n (_ & A & B). auto.
  - intros [c1 s'] n (l' & (Hf & Hn) & R & Ll & R').
    assert (Ln : n <= j - i).
    { rewrite Hn. transitivity (length sl); [|unfold sl; rewrite between_length; lia]. clear. induction sl as [|a l IH]; cbn; auto. destruct (negb (p a)); cbn; lia. }
    assert (E1 : elems c1 t = with_part (elems c t) i j l') by apply R.
    assert (L1 : length (elems c1 t) = length (elems c t)) by (rewrite E1; apply with_part_length; auto).
    assert (P1 : lpoints c1 first t i) by (apply (re_iters _ _ _ _ R t i); exact P).
    assert (P1' : lpoints c1 last t j) by (apply (re_iters _ _ _ _ R t j); exact P').
    assert (Ot : forall t', t' <> t -> elems c1 t' = elems c t') by (intros t' Ne; rewrite !elems_seg_at, (re_others _ _ _ _ R t' Ne); reflexivity).
    csplit; auto. destruct (li_add_spec w c1 g d first t i n R' P1) as (pos & Qp & Pp & _); [lia|]. exists pos. split; auto.
    assert (Hin : i + n <= j) by lia.
    pose proof (C16_erase_local_range w c1 g d pos last t (i + n) j R' Pp P1' Hin) as W1.
    pose proof (api_reach _ w c1 g d _ _ _ _ _ R' (api_erase_local_range g c1 pos last t (i + n) j Pp P1' Hin) W1) as W2.
    pose proof (C33_erase_local_range w c1 g d pos last t (i + n) j R' Pp P1' Hin) as W3.
    pose proof (erase_local_range_where w c1 g d pos last t (i + n) j R' Pp P1' Hin) as W4.
    eapply wp_mono; [exact (wp_and _ _ _ _ _ _ W2 (wp_and _ _ _ _ _ _ W3 W4))| |].
    + intros [c' w'] it ((R2 & Cu & Pi & Ee & Eo) & _). cbn [fst snd] in R2. csplit; auto.
      * rewrite (cut_types _ _ _ _ Cu). unfold types. rewrite (re_content _ _ _ _ R). apply set_assoc_keys.
      * rewrite Ee, E1. unfold with_part. assert (Lf : length (firstn i (elems c t)) = i) by (rewrite firstn_length; lia).
        rewrite (firstn_app (i + n)), Lf, firstn_firstn, (Nat.min_r (i + n) i) by lia. rewrite (firstn_app (i + n - i)), Ll. replace (i + n - i - (j - i)) with 0 by lia.
        cbn [firstn]. replace (i + n - i) with n by lia. rewrite app_nil_r, Hf, <- app_assoc. f_equal. f_equal.
        rewrite !skipn_app, Lf, (skipn_all2 (firstn _ _)), Ll, Nat.sub_diag, (skipn_all2 l') by lia. reflexivity.
      * intros t' Ne. rewrite Eo, Ot; auto.
    + intros [c' w'] e (_ & (R2 & Er) & Lj). csplit; auto. lia.
  - intros [c' s'] e (l' & _ & R & L & R'). exists l'. auto.
Qed.

(** *** Instances *)

Definition t_take : M (nat * nat) nat := fun '(v, s) => Ok (0, s) v.
Definition t_put (x : nat) : M (nat * nat) unit := fun '(_, s) => Ok (x, s) tt.
(** an order, and a comparison which throws when it is called for the [n]-th time *)
Definition t_gt (x y : nat) : bool := y <? x.
Definition t_less (n : nat) (x y : nat) : M nat bool := fun s => if s =? n then Exn s UserExn else Ok (S s) (t_gt x y).
Definition t_odd : M (nat * nat) bool := fun '(v, s) => Ok (v, S s) (Nat.odd v).

Lemma t_take_ok : moves_out t_take.
Proof. intros v s. reflexivity. Qed.
Lemma t_put_ok : moves_in t_put.
Proof. intros x v s. reflexivity. Qed.
Lemma t_less_ok n : compares t_gt (t_less n).
Proof. intros x y s. unfold t_less. destruct (s =? n); auto. Qed.
Lemma t_gt_swo : swo t_gt.
Proof.
  unfold t_gt. split; intros.
  - apply Nat.ltb_irrefl.
  - rewrite Nat.ltb_lt in *. lia.
  - rewrite Nat.ltb_ge in *. lia.
Qed.
Lemma t_odd_ok : asks Nat.odd t_odd.
Proof. intros v s. split; reflexivity. Qed.

(** for local_iterator<T> and for local_base_iterator: the elements of type 1 but the first, and what an algorithm does on an array *)
Example C75_array_ex lay : let E := dE lay in let c := dc lay in
  reach (dw lay) [c; dx lay] [] /\ lpoints c (li_conc c 1 1) 1 1 /\ lpoints c (li_conc c 1 3) 1 3 /\ 1 <= 3 /\
  same_kind (li_conc c 1 1) (li_conc c 1 3) /\ lpoints c (li_base c 1 1) 1 1 /\ lpoints c (li_base c 1 3) 1 3 /\ same_kind (li_base c 1 1) (li_base c 1 3) /\
  run_array (std_sort t_take t_put (t_less 9) (3 - 1)) (between 1 3 (elems c 1), 0) = Ok ([7; 6], 1) tt.
Proof. cbv zeta; csplit; try solve [demo_fact lay]; destruct lay; try exact I; vm_compute; reflexivity. Qed.
Example C75_transfer_ex lay : let E := dE lay in let c := dc lay in
  reach (dw lay) [c; dx lay] [] /\ lpoints c (li_conc c 1 1) 1 1 /\ lpoints c (li_conc c 1 3) 1 3 /\ 1 <= 3 /\
  same_kind (li_conc c 1 1) (li_conc c 1 3) /\
  wp (run_array (std_sort t_take t_put (t_less 9) (3 - 1))) (between 1 3 (elems c 1), 0) (fun '(l', _) _ => l' = [7; 6]) (fun _ _ => False).
Proof. cbv zeta; csplit; try solve [demo_fact lay]; destruct lay; try exact I; vm_compute; reflexivity. Qed.

(** the elements 5 6 7 of type 1 in descending order; the third call of the comparison throws *)
Example C75_sort_ex lay : let E := dE lay in let c := dc lay in
  reach (dw lay) [c; dx lay] [] /\ lpoints c (li_conc c 1 0) 1 0 /\ lpoints c (li_conc c 1 3) 1 3 /\ 0 <= 3 /\
  same_kind (li_conc c 1 0) (li_conc c 1 3) /\ moves_out t_take /\ moves_in t_put /\ compares t_gt (t_less 9) /\ swo t_gt /\
  match on_local (Some 1) (li_conc c 1 0) (li_conc c 1 3) (std_sort t_take t_put (t_less 9)) (c, 0) with
  | Ok (c', _) _ => elems c' 1 = [7; 6; 5] | _ => False end /\
  match on_local (Some 1) (li_conc c 1 0) (li_conc c 1 3) (std_sort t_take t_put (t_less 2)) (c, 0) with
  | Exn _ e => e = UserExn | _ => False end.
Proof.
  cbv zeta; csplit; try solve [demo_fact lay]; first [apply t_take_ok|apply t_put_ok|apply t_less_ok|apply t_gt_swo|idtac]; destruct lay; try exact I; vm_compute; reflexivity.
Qed.

(** 5 and 7 go *)
Example C75_erase_remove_ex lay : let E := dE lay in let c := dc lay in
  reach (dw lay) [c; dx lay] [] /\ lpoints c (li_conc c 1 0) 1 0 /\ lpoints c (li_conc c 1 3) 1 3 /\ 0 <= 3 /\
  same_kind (li_conc c 1 0) (li_conc c 1 3) /\ moves_out t_take /\ moves_in t_put /\ asks Nat.odd t_odd /\
  filter (fun v => negb (Nat.odd v)) (elems c 1) = [6] /\
  match on_local (Some 1) (li_conc c 1 0) (li_conc c 1 3) (std_remove_if t_take t_put t_odd) (c, 0) with
  | Ok (c', _) n => n = 1 | _ => False end.
Proof.
  cbv zeta; csplit; try solve [demo_fact lay]; first [apply t_take_ok|apply t_put_ok|apply t_odd_ok|idtac]; destruct lay; try exact I; vm_compute; reflexivity.
Qed.

(** ** C33 Erasing up to the end of a segment does not throw *)

Theorem C33_erase_to_end {V} {E : Env V} w c g d first last t f : reach w (c :: g) d ->
  lpoints c first t f -> lpoints c last t (length (elems c t)) ->
  wp (c_erase_local_range first last) (c, w)
    (fun '(c', w') it => reach w' (c' :: g) d /\ elems c' t = firstn f (elems c t) /\ (forall t', t' <> t -> elems c' t' = elems c t'))
    (fun _ _ => False).
Proof.
  intros H P P'. pose proof (lpoints_le _ _ _ _ _ _ _ H P) as Hf.
  pose proof (C16_erase_local_range w c g d first last t f _ H P P' Hf) as W1.
  pose proof (api_reach _ w c g d _ _ _ _ _ H (api_erase_local_range g c first last t f _ P P' Hf) W1) as W2.
  eapply wp_mono; [exact (wp_and _ _ _ _ _ _ W2 (erase_local_range_where w c g d first last t f _ H P P' Hf))| |].
  - intros [c' w'] it ((R & _ & _ & Ee & Eo) & _). csplit; auto. rewrite Ee, skipn_all, app_nil_r. reflexivity.
  - intros [c' w'] e (_ & L). lia.
Qed.
Example C33_erase_to_end_ex lay : let E := dE lay in let c := dc lay in
  reach (dw lay) [c; dx lay] [] /\ lpoints c (li_conc c 1 1) 1 1 /\ lpoints c (li_conc c 1 3) 1 (length (elems c 1)) /\ elems c 1 = [5; 6; 7].
Proof.
  intros E c. assert (Q : length (elems c 1) = 3) by (destruct lay; vm_compute; reflexivity). rewrite Q. subst c E. csplit; demo_fact lay.
Qed.

(** ... nor does erasing the last element of one. *)
Theorem C33_erase_last {V} {E : Env V} w c g d pos t k : reach w (c :: g) d -> points c pos t k -> S k = length (elems c t) ->
  wp (c_erase pos) (c, w) (fun '(c', w') it => reach w' (c' :: g) d) (fun _ _ => False).
Proof.
  intros H P Hk. pose proof (api_reach _ w c g d _ _ _ _ _ H (api_erase g c pos t k P) (erase_where w c g d pos t k H P)) as W.
  eapply wp_mono; [exact W| |].
  - intros [c' w'] it (R & _). exact R.
  - intros [c' w'] e L. lia.
Qed.
Example C33_erase_last_ex lay : let E := dE lay in let c := dc lay in
  reach (dw lay) [c; dx lay] [] /\ points c (it_at c 2 1) 2 1 /\ 2 = length (elems c 2).
Proof. cbv zeta; csplit; try solve [demo_fact lay]; destruct lay; vm_compute; reflexivity. Qed.
Theorem C33_erase_local_last {V} {E : Env V} w c g d pos t k : reach w (c :: g) d -> lpoints c pos t k -> S k = length (elems c t) ->
  wp (c_erase_local pos) (c, w) (fun '(c', w') it => reach w' (c' :: g) d) (fun _ _ => False).
Proof.
  intros H P Hk. assert (Lk : k < length (elems c t)) by lia.
  pose proof (api_reach _ w c g d _ _ _ _ _ H (api_erase_local g c pos t k P Lk) (erase_local_where w c g d pos t k H P Lk)) as W.
  eapply wp_mono; [exact W| |].
  - intros [c' w'] it (R & _). exact R.
  - intros [c' w'] e L. lia.
Qed.
Example C33_erase_local_last_ex lay : let E := dE lay in let c := dc lay in
  reach (dw lay) [c; dx lay] [] /\ lpoints c (li_base c 2 1) 2 1 /\ 2 = length (elems c 2).
Proof. cbv zeta; csplit; try solve [demo_fact lay]; destruct lay; vm_compute; reflexivity. Qed.

Print Assumptions C75_array.
Print Assumptions C75_transfer.
Print Assumptions C75_sort.
Print Assumptions C75_erase_remove.
Print Assumptions C33_erase_to_end.
Print Assumptions C33_erase_last.
Print Assumptions C33_erase_local_last.
