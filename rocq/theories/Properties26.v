(** * Loops which change the collections they traverse (C71) *)

From Coq Require Import List Arith Lia Bool Permutation.
From Verif Require Import Base Vec Backend Segment Coll Info Spec Reach ProofBase ProofVec ProofBackend ProofOps ProofOps2 ProofSeg ProofMap ProofView ProofColl
  ProofIns ProofRange ProofReach ProofObs ProofProp ProofProp2 ProofProp3 ProofProp4 ProofProp5 ProofCopy Demo Properties1 Properties3 Properties5 Loops.
Import ListNotations.

(** ** The loop with which elements are erased: for(it=begin();it!=end();) if(p( *it)) it=erase(it); else ++it; *)

(** [rest f l]: the elements of [l] which do not satisfy [f] *)
Definition rest {A} (f : A -> bool) (l : list A) : list A := filter (fun x => negb (f x)) l.

Lemma rest_cons {A} (f : A -> bool) x l : rest f (x :: l) = if f x then rest f l else x :: rest f l.
Proof. unfold rest. cbn [filter]. destruct (f x); reflexivity. Qed.
Lemma mid_split {A} (a : list A) x b : firstn (length a) (a ++ x :: b) ++ skipn (S (length a)) (a ++ x :: b) = a ++ b.
Proof.
  rewrite firstn_app, Nat.sub_diag, firstn_all. cbn [firstn]. rewrite app_nil_r. f_equal.
  replace (a ++ x :: b) with ((a ++ [x]) ++ b) by (rewrite <- app_assoc; reflexivity).
  replace (S (length a)) with (length (a ++ [x])) by (rewrite app_length; simpl; lia).
  rewrite skipn_app, Nat.sub_diag, skipn_all. reflexivity.
Qed.
Lemma mid_nth {A} (a : list A) x b : nth_error (a ++ x :: b) (length a) = Some x.
Proof. rewrite nth_error_app2, Nat.sub_diag by lia. reflexivity. Qed.

Lemma erase_if_spec {V} {E : Env V} p g d : forall b w c a it n, reach w (c :: g) d -> flat c = a ++ b -> located c it (length a) -> length b <= n ->
  wp (erase_if n p it) (c, w)
    (fun '(c', w') l => reach w' (c' :: g) d /\ flat c' = a ++ rest p b /\ types c' = types c /\ l = b)
    (fun '(c', w') e => exists b1 x b2 c1 w1, b = b1 ++ x :: b2 /\ p x = true /\
       reach w1 (c1 :: g) d /\ flat c1 = a ++ rest p b1 ++ x :: b2 /\ types c1 = types c /\ erase_threw c1 c' w1 w' (fst x) e).
Proof.
  induction b as [|x b IH]; intros w c a it n H F L Hn.
  - assert (Q : it_eq it (c_end c) = true).
    { destruct (C04_begin_end w c g d H) as (_ & Le & _). apply (C04_equality w c g d it (c_end c) _ _ H L Le). rewrite F, app_nil_r. reflexivity. }
    destruct n; cbn [erase_if]; apply wp_bind, wp_getx; cbn [fst]; rewrite Q; apply wp_ret; rewrite F; csplit; auto.
  - destruct n as [|n]; [simpl in Hn; lia|].
    destruct (C04_normalised w c g d it _ H L) as [(Hi & Hd & it' & Hx & L')|(Hi & _)]; [|rewrite F, app_length in Hi; simpl in Hi; lia].
    rewrite F, mid_nth in Hd.
    assert (Q : it_eq it (c_end c) = false).
    { destruct (C04_begin_end w c g d H) as (_ & Le & _). destruct (it_eq it (c_end c)) eqn:Q; auto.
      apply (C04_equality w c g d it (c_end c) _ _ H L Le) in Q. lia. }
    cbn [erase_if]. apply wp_bind, wp_getx. cbn [fst]. rewrite Q, Hd. rewrite rest_cons. simpl in Hn.
    destruct (p x) eqn:Px.
    + apply wp_bind. eapply wp_mono; [exact (C15_erase w c g d it (length a) H L Hi)| |].
      * intros [c' w'] r (H' & F' & T' & Lr & _). rewrite F, mid_split in F'. apply wp_bind.
        eapply wp_mono; [exact (IH w' c' a r n H' F' Lr ltac:(lia))| |].
        -- intros [c2 w2] l (H2 & F2 & T2 & ->). apply wp_ret. csplit; auto. congruence.
        -- intros [c2 w2] e (b1 & y & b2 & c1 & w1 & -> & Py & H1 & F1 & T1 & X).
           exists (x :: b1), y, b2, c1, w1. rewrite rest_cons, Px. csplit; auto. congruence.
      * intros [c' w'] e (t & k & P & X). exists [], x, b, c, w. csplit; auto.
        destruct (points_deref w c g d it t k H P) as (_ & D). rewrite Hd in D.
        destruct (nth_error (elems c t) k); [|discriminate D]. injection D as ->. exact X.
    + apply wp_bind. rewrite Hx. apply wp_ret. apply wp_bind.
      assert (F' : flat c = (a ++ [x]) ++ b) by (rewrite <- app_assoc; exact F).
      assert (L2 : located c it' (length (a ++ [x]))) by (rewrite app_length, Nat.add_comm; exact L').
      eapply wp_mono; [exact (IH w c (a ++ [x]) it' n H F' L2 ltac:(lia))| |].
      * intros [c2 w2] l (H2 & F2 & T2 & ->). apply wp_ret. rewrite <- app_assoc in F2. csplit; auto.
      * intros [c2 w2] e (b1 & y & b2 & c1 & w1 & -> & Py & H1 & F1 & T1 & X).
        exists (x :: b1), y, b2, c1, w1. rewrite rest_cons, Px. rewrite <- app_assoc in F1. csplit; auto.
Qed.

(** The predicate is asked about every element exactly once, in the order of traversal; those which satisfy it
    are gone, the others are in the same order as before, and no type is lost. The loop needs as many rounds as there are
    elements. If an erasure throws, everything before the element concerned has been treated, nothing
    after it, in a collection [c1] as any other, and only the segment of that element is affected. *)
Theorem C71_erase_if {V} {E : Env V} w c g d p : reach w (c :: g) d ->
  wp (erase_if (length (flat c)) p (c_begin c)) (c, w)
    (fun '(c', w') asked => reach w' (c' :: g) d /\ asked = flat c /\ flat c' = rest p (flat c) /\ types c' = types c)
    (fun '(c', w') e => exists l1 x l2 c1 w1, flat c = l1 ++ x :: l2 /\ p x = true /\
       reach w1 (c1 :: g) d /\ flat c1 = rest p l1 ++ x :: l2 /\ types c1 = types c /\ erase_threw c1 c' w1 w' (fst x) e).
Proof.
  intros H. destruct (C04_begin_end w c g d H) as (L & _).
  eapply wp_mono; [exact (erase_if_spec p g d (flat c) w c [] (c_begin c) (length (flat c)) H eq_refl L (le_n _))| |].
  - intros [c' w'] l (H' & F' & T' & ->). csplit; auto.
  - intros [c' w'] e (b1 & x & b2 & c1 & w1 & Q). exists b1, x, b2, c1, w1. exact Q.
Qed.
Definition odd_one (x : tyid * nat) : bool := Nat.odd (snd x).
Example C71_erase_if_ex lay : let E := dE lay in let c := dc lay in
  let s := state (void (erase_if (length (flat c)) odd_one (c_begin c)) (c, dw lay)) in
  reach (dw lay) [dc lay; dx lay] [] /\ flat c = [(1, 5); (1, 6); (1, 7); (2, 8); (2, 9); (4, 1)] /\
  flat (fst s) = [(1, 6); (2, 8)] /\ In 4 (types (fst s)).
Proof. demo lay. Qed.

(** ** The same with local iterators, in one segment *)

Lemma wp_and {S A} (m : M S A) s (Q : S -> A -> Prop) X (P : A -> Prop) :
  (forall s' r, m s = Ok s' r -> P r) -> wp m s Q X -> wp m s (fun s' r => Q s' r /\ P r) X.
Proof. unfold wp. intros HP Hw. destruct (m s) as [s' r|s' e|]; auto. split; auto. eapply HP; reflexivity. Qed.
Definition is_base (l : liter) : Prop := exists q, li_pos l = PBase q.
Lemma begin_of_base {V} {E : Env V} a s s' l : c_begin_of a s = Ok s' l -> is_base l.
Proof.
  unfold c_begin_of, bind. destruct (map_iterator_by_info a s) as [s1 i|s1 e|]; try discriminate.
  destruct (on_seg i (fun s0 => match getx s0 with Ok s'0 a0 => ret (seg_begin a0) s'0 | Exn s'0 e => Exn s'0 e | UB => UB end) s1) as [s2 q|s2 e|] eqn:Q; try discriminate.
  unfold ret. intros R. injection R as <- <-. exists q. reflexivity.
Qed.
Lemma end_of_base {V} {E : Env V} a s s' l : c_end_of a s = Ok s' l -> is_base l.
Proof.
  unfold c_end_of, bind. destruct (map_iterator_by_info a s) as [s1 i|s1 e|]; try discriminate.
  destruct (on_seg i (fun s0 => match getx s0 with Ok s'0 a0 => ret (seg_end a0) s'0 | Exn s'0 e => Exn s'0 e | UB => UB end) s1) as [s2 q|s2 e|] eqn:Q; try discriminate.
  unfold ret. intros R. injection R as <- <-. exists q. reflexivity.
Qed.
Lemma erase_local_base {V} {E : Env V} pos s s' l : c_erase_local pos s = Ok s' l -> is_base l.
Proof.
  unfold c_erase_local, bind. destruct (on_seg (li_map pos) (seg_erase (li_pos pos)) s) as [s1 q|s1 e|]; try discriminate.
  unfold ret. intros R. injection R as <- <-. exists q. reflexivity.
Qed.
Lemma li_eq_at {V} {E : Env V} w c g d x y t i j : reach w (c :: g) d -> lpoints c x t i -> is_base x -> lpoints c y t j -> is_base y ->
  li_eq x y = (i =? j).
Proof.
  intros H Px (qx & Bx) Py (qy & By).
  destruct (lpoints_unpack _ _ _ _ _ _ _ H Px) as (n & Hin & Hat & Hid & Et & Ws & El & Hk & [Hp|Hp]); [|congruence].
  destruct (lpoints_unpack _ _ _ _ _ _ _ H Py) as (n' & Hin' & Hat' & Hid' & Et' & Ws' & El' & Hk' & [Hp'|Hp']); [|congruence].
  assert (n_seg n' = n_seg n).
  { destruct (reach_wf _ _ _ _ H) as (W & O). assert (ND : NoDup (map n_ty (c_nodes c))) by apply W. pose proof (seg_at_node c n ND Hin) as S1.
    pose proof (seg_at_node c n' ND Hin') as S2. congruence. }
  unfold li_eq. rewrite Hp, Hp', H0, !be_ptr_eq. unfold bpos_eqb, ptr_eqb; cbn [fst snd]. rewrite Nat.eqb_refl. reflexivity.
Qed.
Lemma li_next_at {V} {E : Env V} w c g d l t k : reach w (c :: g) d -> lpoints c l t k -> is_base l -> k < length (elems c t) ->
  exists l', li_next c l = Some l' /\ lpoints c l' t (S k) /\ is_base l'.
Proof.
  intros H P (q & B) Hk.
  destruct (lpoints_unpack _ _ _ _ _ _ _ H P) as (n & Hin & Hat & Hid & Et & Ws & El & Hkn & [Hp|Hp]); [|congruence].
  assert (Hlt : k <? be_size (sg_be (n_seg n)) = true).
  { apply Nat.ltb_lt. rewrite El, n_elems_length in Hk. exact Hk. }
  unfold li_next. rewrite Hat, Hp, be_ptr_eq. cbn [fst snd]. rewrite Hlt.
  eexists. csplit; [reflexivity| |eexists; reflexivity].
  exists n. csplit; auto. left. cbn [li_pos]. rewrite be_ptr_eq. reflexivity.
  apply Nat.ltb_lt in Hlt. exact Hlt.
Qed.

Lemma erase_if_local_spec {V} {E : Env V} a p g d : let t := env_ty a in forall xs w c done l n, reach w (c :: g) d ->
  In t (types c) -> elems c t = done ++ xs -> lpoints c l t (length done) -> is_base l -> length xs <= n ->
  wp (erase_if_local n a p l) (c, w)
    (fun '(c', w') asked => reach w' (c' :: g) d /\ elems c' t = done ++ rest (fun v => p (t, v)) xs /\
       (forall t', t' <> t -> elems c' t' = elems c t') /\ types c' = types c /\ asked = map (pair t) xs)
    (fun '(c', w') e => exists xs1 x xs2 c1 w1, xs = xs1 ++ x :: xs2 /\ p (t, x) = true /\
       reach w1 (c1 :: g) d /\ elems c1 t = done ++ rest (fun v => p (t, v)) xs1 ++ x :: xs2 /\
       (forall t', t' <> t -> elems c1 t' = elems c t') /\ types c1 = types c /\ erase_threw c1 c' w1 w' t e).
Proof.
  intros t. induction xs as [|x xs IH]; intros w c done l n H Ht F P B Hn.
  - assert (R : wp (erase_if_local n a p l) (c, w) (fun s r => s = (c, w) /\ r = []) (fun _ _ => False)).
    { destruct n; cbn [erase_if_local]; apply wp_bind;
        (eapply wp_mono; [apply wp_and; [intros s' r; apply end_of_base|eapply (wp_c_end_of a c g d w (fun s l => s = (c, w) /\ lpoints c l t (length (elems c t))) (fun _ _ => False)); [exact H|auto|]]| |auto];
         [intros N; exact (N Ht)|]; intros s e ((-> & Pe) & Be);
         rewrite (li_eq_at w c g d l e t _ _ H P B Pe Be), F, app_nil_r, Nat.eqb_refl; apply wp_ret; auto). }
    eapply wp_mono; [exact R| |]; [|intros ? ? []].
    intros [c' w'] r (Q & ->). injection Q as -> ->. rewrite F. csplit; auto.
  - destruct n as [|n]; [simpl in Hn; lia|]. simpl in Hn.
    assert (Hk : length done < length (elems c t)) by (rewrite F, app_length; simpl; lia).
    cbn [erase_if_local]. apply wp_bind.
    eapply wp_mono; [apply wp_and; [intros s' r; apply end_of_base|eapply (wp_c_end_of a c g d w (fun s l => s = (c, w) /\ lpoints c l t (length (elems c t))) (fun _ _ => False)); [exact H|auto|]]| |intros ? ? []].
    { intros N. exact (N Ht). }
    intros s e ((-> & Pe) & Be). rewrite (li_eq_at w c g d l e t _ _ H P B Pe Be).
    destruct (Nat.eqb_spec (length done) (length (elems c t))) as [Q|_]; [lia|].
    apply wp_bind, wp_getx. cbn [fst]. rewrite (li_deref_spec w c g d l t _ H P), F, mid_nth. cbn [option_map].
    rewrite rest_cons. destruct (p (t, x)) eqn:Px.
    + apply wp_bind. eapply wp_mono; [apply wp_and; [intros s' r; apply erase_local_base|]| |].
      * eapply (api_reach _ w c g d); [exact H|eapply api_erase_local; [exact P|exact Hk]|exact (C15_erase_local w c g d l t _ H P Hk)].
      * intros [c' w'] l' ((H' & Cu & P' & E1 & E2) & B'). cbn [fst snd] in H'. rewrite F, mid_split in E1. apply wp_bind.
        assert (T' : types c' = types c) by apply Cu.
        assert (Ht' : In t (types c')) by (rewrite T'; exact Ht).
        eapply wp_mono; [exact (IH w' c' done l' n H' Ht' E1 P' B' ltac:(lia))| |].
        -- intros [c2 w2] r (H2 & F2 & O2 & T2 & ->). apply wp_ret. csplit; auto; [|congruence].
           intros t' Nt. rewrite O2 by auto. apply E2; auto.
        -- intros [c2 w2] e' (b1 & y & b2 & c1 & w1 & -> & Py & H1 & F1 & O1 & T1 & X).
           exists (x :: b1), y, b2, c1, w1. rewrite rest_cons, Px. csplit; auto; [|congruence].
           intros t' Nt. rewrite O1 by auto. apply E2; auto.
      * intros [c' w'] e' X. exists [], x, xs, c, w. csplit; auto.
    + apply wp_bind. destruct (li_next_at w c g d l t _ H P B Hk) as (l' & -> & P' & B'). apply wp_ret. apply wp_bind.
      assert (F' : elems c t = (done ++ [x]) ++ xs) by (rewrite <- app_assoc; exact F).
      assert (P2 : lpoints c l' t (length (done ++ [x]))) by (rewrite app_length, Nat.add_comm; exact P').
      eapply wp_mono; [exact (IH w c (done ++ [x]) l' n H Ht F' P2 B' ltac:(lia))| |].
      * intros [c2 w2] r (H2 & F2 & O2 & T2 & ->). apply wp_ret. rewrite <- app_assoc in F2. csplit; auto.
      * intros [c2 w2] e' (b1 & y & b2 & c1 & w1 & -> & Py & H1 & F1 & O1 & T1 & X).
        exists (x :: b1), y, b2, c1, w1. rewrite rest_cons, Px. rewrite <- app_assoc in F1. csplit; auto.
Qed.

(** Local iterators reach the elements of their type only, and these likewise. begin(info) throws if the type is not
    registered, and nothing has happened then. *)
Theorem C71_erase_if_local {V} {E : Env V} w c g d a p : let t := env_ty a in reach w (c :: g) d ->
  wp (l <- c_begin_of a ;; erase_if_local (length (elems c t)) a p l) (c, w)
    (fun '(c', w') asked => reach w' (c' :: g) d /\ asked = map (pair t) (elems c t) /\
       elems c' t = rest (fun v => p (t, v)) (elems c t) /\
       (forall t', t' <> t -> elems c' t' = elems c t') /\ types c' = types c)
    (fun '(c', w') e =>
       (~ In t (types c) /\ e = UnregisteredType t /\ c' = c /\ w' = w) \/
       exists xs1 x xs2 c1 w1, elems c t = xs1 ++ x :: xs2 /\ p (t, x) = true /\
         reach w1 (c1 :: g) d /\ elems c1 t = rest (fun v => p (t, v)) xs1 ++ x :: xs2 /\
         (forall t', t' <> t -> elems c1 t' = elems c t') /\ types c1 = types c /\ erase_threw c1 c' w1 w' t e).
Proof.
  intros t H. apply wp_bind.
  eapply wp_mono; [apply wp_and; [intros s' r; apply begin_of_base|eapply (wp_c_begin_of a c g d w (fun s l => s = (c, w) /\ In t (types c) /\ lpoints c l t 0) (fun s e => s = (c, w) /\ ~ In t (types c) /\ e = UnregisteredType t)); [exact H|auto|auto]]| |].
  - intros s l ((-> & Ht & P) & B).
    eapply wp_mono; [exact (erase_if_local_spec a p g d (elems c t) w c [] l _ H Ht eq_refl P B (le_n _))| |].
    + intros [c' w'] r (H' & F' & O' & T' & ->). csplit; auto.
    + intros [c' w'] e (b1 & x & b2 & c1 & w1 & Q). right. exists b1, x, b2, c1, w1. exact Q.
  - intros [c' w'] e (Q & N & ->). injection Q as -> ->. left. auto.
Qed.
Example C71_erase_if_local_ex lay : let E := dE lay in let c := dc lay in
  let s := state (void (l <- c_begin_of 10 ;; erase_if_local (length (elems c 1)) 10 odd_one l) (c, dw lay)) in
  reach (dw lay) [dc lay; dx lay] [] /\ elems c 1 = [5; 6; 7] /\ flat (fst s) = [(1, 6); (2, 8); (2, 9); (4, 1)].
Proof. demo lay. Qed.

(** ** Taking the elements out one by one: while(!c.empty()) f( *c.begin()), c.erase(c.begin()); *)

Lemma drain_spec {V} {E : Env V} g d : forall l w c n, reach w (c :: g) d -> flat c = l -> length l <= n ->
  wp (drain n) (c, w)
    (fun '(c', w') given => reach w' (c' :: g) d /\ given = l /\ flat c' = [] /\ types c' = types c)
    (fun '(c', w') e => exists l1 x l2 c1 w1, l = l1 ++ x :: l2 /\
       reach w1 (c1 :: g) d /\ flat c1 = x :: l2 /\ types c1 = types c /\ erase_threw c1 c' w1 w' (fst x) e).
Proof.
  induction l as [|x l IH]; intros w c n H F Hn.
  - assert (Q : c_empty_all c = true) by (apply (C03_size w c g d H); rewrite c_size_flat, F; reflexivity).
    destruct n; cbn [drain]; apply wp_bind, wp_getx; cbn [fst]; rewrite Q; apply wp_ret; rewrite F; csplit; auto.
  - destruct n as [|n]; [simpl in Hn; lia|]. simpl in Hn.
    assert (Q : c_empty_all c = false).
    { destruct (c_empty_all c) eqn:Q; auto. apply (C03_size w c g d H) in Q. rewrite c_size_flat, F in Q. discriminate Q. }
    destruct (C04_begin_end w c g d H) as (L & _).
    destruct (C04_normalised w c g d (c_begin c) 0 H L) as [(Hi & Hd & _)|(Hi & _)]; [|rewrite F in Hi; discriminate Hi].
    rewrite F in Hd. cbn [nth_error] in Hd.
    cbn [drain]. apply wp_bind, wp_getx. cbn [fst]. rewrite Q, Hd. apply wp_bind.
    eapply wp_mono; [exact (C15_erase w c g d (c_begin c) 0 H L Hi)| |].
    + intros [c' w'] r (H' & F' & T' & _). rewrite F in F'. cbn [firstn skipn app] in F'. apply wp_bind.
      eapply wp_mono; [exact (IH w' c' n H' F' ltac:(lia))| |].
      * intros [c2 w2] l' (H2 & -> & F2 & T2). apply wp_ret. csplit; auto. congruence.
      * intros [c2 w2] e (b1 & y & b2 & c1 & w1 & -> & H1 & F1 & T1 & X). exists (x :: b1), y, b2, c1, w1. csplit; auto. congruence.
    + intros [c' w'] e (t & k & P & X). exists [], x, l, c, w. csplit; auto.
      destruct (points_deref w c g d _ t k H P) as (_ & D). rewrite Hd in D.
      destruct (nth_error (elems c t) k); [|discriminate D]. injection D as ->. exact X.
Qed.

(** The loop ends, and hands out what a traversal before it would have met, in that order. *)
Theorem C71_drain {V} {E : Env V} w c g d : reach w (c :: g) d ->
  wp (drain (length (flat c))) (c, w)
    (fun '(c', w') given => reach w' (c' :: g) d /\ given = flat c /\ flat c' = [] /\ types c' = types c)
    (fun '(c', w') e => exists l1 x l2 c1 w1, flat c = l1 ++ x :: l2 /\
       reach w1 (c1 :: g) d /\ flat c1 = x :: l2 /\ types c1 = types c /\ erase_threw c1 c' w1 w' (fst x) e).
Proof. intros H. exact (drain_spec g d (flat c) w c _ H eq_refl (le_n _)). Qed.
Example C71_drain_ex lay : let E := dE lay in let c := dc lay in
  let s := state (void (drain (length (flat c))) (c, dw lay)) in
  reach (dw lay) [dc lay; dx lay] [] /\ length (flat c) = 6 /\ flat (fst s) = [] /\ In 2 (types (fst s)).
Proof. demo lay. Qed.

(** ** Taking elements over into another collection:
    for(it=x.begin();it!=x.end();) if(p( *it)){ y.insert(it,next(it)); it=x.erase(it); } else ++it; *)

Lemma grew_end {V} {E : Env V} c c' l t : grew None c c' l -> elems c' t = elems c t ++ of_type t l.
Proof. intros G. rewrite (g_elems _ _ _ _ G). cbn [slot]. rewrite firstn_all, skipn_all, app_nil_r. reflexivity. Qed.
Lemma of_type_app {V} t (l l' : list (tyid * V)) : of_type t (l ++ l') = of_type t l ++ of_type t l'.
Proof. unfold of_type. rewrite filter_app, map_app. reflexivity. Qed.

Lemma api_reach_unit {V} {E : Env V} (m : M (coll V * world) unit) w c g d safe new vals Q X :
  reach w (c :: g) d -> api g c m safe new vals -> wp m (c, w) Q X ->
  wp m (c, w) (fun s r => reach (snd s) (fst s :: g) d /\ Q s r) X.
Proof.
  intros H Ha Hw. unfold wp in *. destruct (m (c, w)) as [[c' w'] []|s e|] eqn:Em; auto.
  split; auto. cbn [fst snd]. eapply r_call; [exact H|exact Ha|exact Em].
Qed.

(** What can stop it, at the element [v], when the two collections are [x1] and [y1]: the insertion of a copy, and then
    [x1] is as it was; or the erasure, and then the copy is there and the original is still to be erased. *)
Definition stuck {V} {E : Env V} (x1 y1 x' y' : coll V) (w1 w' : world) (v : tyid * V) (e : exn) : Prop :=
  (x' = x1 /\ broke_off [] [HCopy] None y1 y' w1 w' [v] e) \/
  (grew None y1 y' [v] /\ exists w2, erase_threw x1 x' w2 w' (fst v) e).

Lemma transfer_if_spec {V} {E : Env V} p g d : forall b w x y a it n, reach w (x :: y :: g) d ->
  flat x = a ++ b -> located x it (length a) -> length b <= n ->
  wp (transfer_if n p it) ((x, y), w)
    (fun '((x', y'), w') _ => reach w' (x' :: y' :: g) d /\ flat x' = a ++ rest p b /\ types x' = types x /\
       (forall t, elems y' t = elems y t ++ of_type t (filter p b)))
    (fun '((x', y'), w') e => exists b1 v b2 x1 y1 w1, b = b1 ++ v :: b2 /\ p v = true /\
       reach w1 (x1 :: y1 :: g) d /\ flat x1 = a ++ rest p b1 ++ v :: b2 /\ types x1 = types x /\
       (forall t, elems y1 t = elems y t ++ of_type t (filter p b1)) /\ stuck x1 y1 x' y' w1 w' v e).
Proof.
  induction b as [|v b IH]; intros w x y a it n H F L Hn.
  - assert (Q : it_eq it (c_end x) = true).
    { destruct (C04_begin_end w x (y :: g) d H) as (_ & Le & _). apply (C04_equality w x _ d it (c_end x) _ _ H L Le). rewrite F, app_nil_r. reflexivity. }
    destruct n; cbn [transfer_if]; apply wp_bind, wp_getx; cbn [fst]; rewrite Q; apply wp_ret; rewrite F; csplit; auto;
      intros t; cbn; rewrite app_nil_r; reflexivity.
  - destruct n as [|n]; [simpl in Hn; lia|]. simpl in Hn.
    destruct (C04_normalised w x _ d it _ H L) as [(Hi & Hd & it' & Hx & L')|(Hi & _)]; [|rewrite F, app_length in Hi; simpl in Hi; lia].
    rewrite F, mid_nth in Hd.
    assert (Q : it_eq it (c_end x) = false).
    { destruct (C04_begin_end w x _ d H) as (_ & Le & _). destruct (it_eq it (c_end x)) eqn:Q; auto.
      apply (C04_equality w x _ d it (c_end x) _ _ H L Le) in Q. lia. }
    cbn [transfer_if]. apply wp_bind, wp_getx. cbn [fst]. rewrite Q, Hd, Hx. rewrite rest_cons. cbn [filter].
    destruct (p v) eqn:Pv.
    + assert (Rg : firstn (S (length a) - length a) (skipn (length a) (flat x)) = [v]).
      { replace (S (length a) - length a) with 1 by lia. rewrite F, skipn_app, skipn_all, Nat.sub_diag. reflexivity. }
      apply wp_bind, wp_bind, wp_on_src.
      assert (H1 : reach w (y :: x :: g) d) by (eapply r_perm; [exact H|apply perm_swap|apply Permutation_refl]).
      assert (Sz : c_size x = length (flat x)) by (symmetry; apply (C02_traversal w x _ d H)). rewrite Sz.
      eapply wp_mono; [eapply (api_reach_unit _ w y (x :: g) d); [exact H1|eapply (api_from (x :: g) y x it it' _ _ (or_introl eq_refl) L L' ltac:(lia))|
        exact (spec_insert_from w y (x :: g) d x it it' _ _ H1 (or_introl eq_refl) L L' ltac:(lia))]| |].
      * intros [y1 w1] [] (Hy & G & _). cbn [fst snd] in Hy |- *. rewrite Rg in G.
        assert (H2 : reach w1 (x :: y1 :: g) d) by (eapply r_perm; [exact Hy|apply perm_swap|apply Permutation_refl]).
        apply wp_on_dst. eapply wp_mono; [exact (C15_erase w1 x _ d it (length a) H2 L Hi)| |].
        -- intros [x2 w2] r (H3 & F3 & T3 & L3 & _). cbn [fst snd]. rewrite F, mid_split in F3.
           eapply wp_mono; [exact (IH w2 x2 y1 a r n H3 F3 L3 ltac:(lia))| |].
           ++ intros [[x4 y4] w4] [] (H4 & F4 & T4 & E4). csplit; auto; [congruence|].
              intros t. rewrite E4, (grew_end _ _ _ _ G), <- app_assoc, <- of_type_app. reflexivity.
           ++ intros [[x4 y4] w4] e (b1 & u & b2 & x5 & y5 & w5 & -> & Pu & H5 & F5 & T5 & E5 & X).
              exists (v :: b1), u, b2, x5, y5, w5. rewrite rest_cons, Pv. cbn [filter]. rewrite Pv. csplit; auto; [congruence|].
              intros t. rewrite E5, (grew_end _ _ _ _ G), <- app_assoc, <- of_type_app. reflexivity.
        -- intros [x2 w2] e (t & k & P & X). cbn [fst snd]. exists [], v, b, x, y, w. csplit; auto.
           { intros u. cbn. rewrite app_nil_r. reflexivity. }
           right. split; [exact G|]. exists w1.
           destruct (points_deref w1 x _ d it t k H2 P) as (_ & D). rewrite Hd in D.
           destruct (nth_error (elems x t) k); [|discriminate D]. injection D as ->. exact X.
      * intros [y1 w1] e B. cbn [fst snd]. rewrite Rg in B. exists [], v, b, x, y, w. csplit; auto.
        { intros u. cbn. rewrite app_nil_r. reflexivity. }
        left. auto.
    + apply wp_bind, wp_ret.
      assert (F' : flat x = (a ++ [v]) ++ b) by (rewrite <- app_assoc; exact F).
      assert (L2 : located x it' (length (a ++ [v]))) by (rewrite app_length, Nat.add_comm; exact L').
      eapply wp_mono; [exact (IH w x y (a ++ [v]) it' n H F' L2 ltac:(lia))| |].
      * intros [[x4 y4] w4] [] (H4 & F4 & T4 & E4). rewrite <- app_assoc in F4. csplit; auto.
      * intros [[x4 y4] w4] e (b1 & u & b2 & x5 & y5 & w5 & -> & Pu & H5 & F5 & T5 & E5 & X).
        exists (v :: b1), u, b2, x5, y5, w5. rewrite rest_cons, Pv. cbn [filter]. rewrite Pv. rewrite <- app_assoc in F5. csplit; auto.
Qed.

(** Every element is in the end in exactly one of the two collections, whatever types the other one
    knew about. If something throws, every element before the one concerned has been treated and none after it. *)
Theorem C71_transfer_if {V} {E : Env V} w x y g d p : reach w (x :: y :: g) d ->
  wp (transfer_if (length (flat x)) p (c_begin x)) ((x, y), w)
    (fun '((x', y'), w') _ => reach w' (x' :: y' :: g) d /\ flat x' = rest p (flat x) /\ types x' = types x /\
       (forall t, elems y' t = elems y t ++ of_type t (filter p (flat x))))
    (fun '((x', y'), w') e => exists l1 v l2 x1 y1 w1, flat x = l1 ++ v :: l2 /\ p v = true /\
       reach w1 (x1 :: y1 :: g) d /\ flat x1 = rest p l1 ++ v :: l2 /\ types x1 = types x /\
       (forall t, elems y1 t = elems y t ++ of_type t (filter p l1)) /\ stuck x1 y1 x' y' w1 w' v e).
Proof.
  intros H. destruct (C04_begin_end w x _ d H) as (L & _).
  exact (transfer_if_spec p g d (flat x) w x y [] (c_begin x) _ H eq_refl L (le_n _)).
Qed.
Example C71_transfer_if_ex lay : let E := dE lay in let x := dc lay in let y := dx lay in
  let r := transfer_if (length (flat x)) odd_one (c_begin x) ((x, y), dw lay) in
  reach (dw lay) [dc lay; dx lay] [] /\
  match r with
  | Ok ((x', y'), _) _ => flat x' = [(1, 6); (2, 8)] /\ elems y' 1 = elems y 1 ++ [5; 7] /\ elems y' 2 = elems y 2 ++ [9] /\ elems y' 4 = elems y 4 ++ [1]
  | _ => False
  end.
Proof. cbv zeta. split; [apply d_reach|]. destruct lay; vm_compute; auto. Qed.

Print Assumptions C71_erase_if.
Print Assumptions C71_erase_if_local.
Print Assumptions C71_drain.
Print Assumptions C71_transfer_if.
