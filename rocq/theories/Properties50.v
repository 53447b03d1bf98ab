(** * Inserting elements of other types while the elements of one type are traversed (C88) *)

From Coq Require Import List Arith Lia Bool Permutation.
From Verif Require Import Base Vec Backend Segment Coll Info Spec Reach ProofBase ProofVec ProofBackend ProofOps ProofOps2 ProofSeg ProofMap ProofView ProofColl
  ProofIns ProofRange ProofReach ProofObs ProofProp ProofProp2 ProofProp3 ProofProp4 ProofProp5 ProofCopy Demo Properties1 Properties3 Properties5 Loops Properties26 Grow.
Import ListNotations.

(** [added c c' l]: the typed values [l] are in [c'] behind what is in [c], in their order, and the types
    registered are those of [c] and of [l] *)
Definition added {V} {E : Env V} (c c' : coll V) (l : list (tyid * V)) : Prop :=
  (forall t, elems c' t = elems c t ++ of_type t l) /\
  (forall t, In t (types c') <-> In t (types c) \/ In t (map fst l)).

Lemma added_nil {V} {E : Env V} (c : coll V) : added c c [].
Proof. split; intros t; cbn; [rewrite app_nil_r; reflexivity|tauto]. Qed.
Lemma added_app {V} {E : Env V} (c c1 c2 : coll V) l l' : added c c1 l -> added c1 c2 l' -> added c c2 (l ++ l').
Proof.
  intros (A & B) (A' & B'). split; intros t.
  - rewrite A', A, of_type_app, app_assoc. reflexivity.
  - rewrite B', B, map_app, in_app_iff. tauto.
Qed.

(** [elsewhere c t l]: no value of [l] is of type [t], and none creates a segment for its type - unless
    the library's map keeps its iterators when it rehashes *)
Definition elsewhere {V} {E : Env V} (c : coll V) (t : tyid) (l : list (tyid * V)) : Prop :=
  forall y, In y l -> fst y <> t /\ (In (fst y) (types c) \/ env_rehash_stable = true).

Lemma elsewhere_none {V} {E : Env V} (c : coll V) t l : elsewhere c t l -> of_type t l = [].
Proof.
  unfold of_type. induction l as [|y l IH]; intros H; [reflexivity|]. cbn [filter].
  match goal with |- context [if ?b then _ else _] => destruct b eqn:Q end; [apply Nat.eqb_eq in Q; destruct (H y (or_introl eq_refl)) as (N & _); contradiction|].
  apply IH. intros z Hz. apply H. right. exact Hz.
Qed.
Lemma elsewhere_later {V} {E : Env V} (c c' : coll V) t l l' : added c c' l' -> elsewhere c t l -> elsewhere c' t l.
Proof. intros (_ & B) H y Hy. destruct (H y Hy) as (N & [I|S]); split; auto. left. apply B. auto. Qed.

Lemma insert_added {V} {E : Env V} w c g d x y : reach w (c :: g) d -> gives x y ->
  wp (c_insert x) (c, w)
    (fun '(c', w') _ => reach w' (c' :: g) d /\ added c c' [y] /\
       (In (fst y) (types c) \/ env_rehash_stable = true -> forall t k l, t <> fst y -> lpoints c l t k -> lpoints c' l t k))
    (fun '(c', w') e => rejected c c' w w' x (length (elems c (fst y))) e).
Proof.
  intros H (Ty & Sr & Ok). assert (S : src_c c (env_ty (a_dyn x)) (a_how x) (a_src x) (snd y)) by (left; exact Sr).
  eapply wp_mono; [eapply (api_reach _ w c g d); [exact H|eapply api_insert; [exact Ok|exact S]|exact (spec_insert w c g d x (snd y) H Ok S)]| |].
  - intros [c' w'] it (R & _ & I & _). cbn [fst snd] in R. split; [exact R|].
    pose proof (in_grew _ _ _ _ _ I) as G. rewrite Ty in *.
    assert (Q : (fst y, snd y) = y) by (destruct y; reflexivity). rewrite Q in G. split.
    + split; intros t; [|apply (g_types _ _ _ _ G)].
      rewrite (g_elems _ _ _ _ G). unfold slot. destruct (Nat.eqb_spec (fst y) t) as [<-|N].
      * rewrite firstn_all, skipn_all, app_nil_r. reflexivity.
      * rewrite firstn_all, skipn_all, app_nil_r. reflexivity.
    + intros Hs t k l N P. apply (in_iters _ _ _ _ _ I Hs t k N). exact P.
  - intros [c' w'] e X. rewrite Ty in X. exact X.
Qed.

Lemma insert_each_spec {V} {E : Env V} g d t : forall xs ys w c, reach w (c :: g) d -> Forall2 gives xs ys -> elsewhere c t ys ->
  wp (insert_each xs) (c, w)
    (fun '(c', w') _ => reach w' (c' :: g) d /\ added c c' ys /\ (forall k l, lpoints c l t k -> lpoints c' l t k))
    (fun '(c', w') e => exists ys1 y ys2 x c1 w1, ys = ys1 ++ y :: ys2 /\ In x xs /\ gives x y /\
       reach w1 (c1 :: g) d /\ added c c1 ys1 /\ rejected c1 c' w1 w' x (length (elems c1 (fst y))) e).
Proof.
  induction xs as [|x xs IH]; intros ys w c H F El; inversion F as [|? y ? ys' G F']; subst; cbn [insert_each].
  - apply wp_ret. csplit; auto using added_nil.
  - destruct (El y (or_introl eq_refl)) as (Ny & Sy). apply wp_bind.
    eapply wp_mono; [exact (insert_added w c g d x y H G)| |].
    + intros [c1 w1] _ (H1 & A1 & K1).
      assert (El1 : elsewhere c1 t ys') by (apply (elsewhere_later c c1 t ys' [y] A1); intros z Hz; apply El; right; exact Hz).
      eapply wp_mono; [exact (IH ys' w1 c1 H1 F' El1)| |].
      * intros [c2 w2] _ (H2 & A2 & K2). csplit; auto. exact (added_app c c1 c2 [y] ys' A1 A2).
      * intros [c2 w2] e (ys1 & z & ys2 & x' & c3 & w3 & -> & Hx & Gz & H3 & A3 & R3).
        exists (y :: ys1), z, ys2, x', c3, w3. csplit; auto; [right; exact Hx|]. exact (added_app c c1 c3 [y] ys1 A1 A3).
    + intros [c' w'] e R. exists [], y, ys', x, c, w. csplit; auto using added_nil. left. reflexivity.
Qed.

Lemma rejected_others {V} {E : Env V} (c c' : coll V) w w' x k e t : rejected c c' w w' x k e -> t <> env_ty (a_dyn x) -> elems c' t = elems c t.
Proof.
  intros [(_ & _ & U)|(_ & Hm & _)] N.
  - rewrite !elems_seg_at, (u_segs _ _ U). reflexivity.
  - rewrite !elems_seg_at, (hm_others _ _ _ _ Hm t N). reflexivity.
Qed.

Lemma grow_while_spec {V} {E : Env V} a f h g d : let t := env_ty a in forall xs w c done l n, reach w (c :: g) d ->
  In t (types c) -> elems c t = done ++ xs -> lpoints c l t (length done) -> is_base l -> length xs <= n ->
  (forall x, In x xs -> Forall2 gives (f (t, x)) (h (t, x)) /\ elsewhere c t (h (t, x))) ->
  wp (grow_while n a f l) (c, w)
    (fun '(c', w') given => reach w' (c' :: g) d /\ given = map (pair t) xs /\ added c c' (flat_map h (map (pair t) xs)))
    (fun '(c', w') e => exists xs1 x xs2 ys1 y ys2 z c1 w1, xs = xs1 ++ x :: xs2 /\ h (t, x) = ys1 ++ y :: ys2 /\
       gives z y /\ reach w1 (c1 :: g) d /\ added c c1 (flat_map h (map (pair t) xs1) ++ ys1) /\
       elems c' t = elems c t /\ rejected c1 c' w1 w' z (length (elems c1 (fst y))) e).
Proof.
  intros t. induction xs as [|x xs IH]; intros w c done l n H Ht F P B Hn Hh.
  - assert (R : wp (grow_while n a f l) (c, w) (fun s r => s = (c, w) /\ r = []) (fun _ _ => False)).
    { destruct n; cbn [grow_while]; apply wp_bind;
        (eapply wp_mono; [apply wp_and; [intros s' r; apply end_of_base|eapply (wp_c_end_of a c g d w (fun s l => s = (c, w) /\ lpoints c l t (length (elems c t))) (fun _ _ => False)); [exact H|auto|]]| |auto];
         [intros N; exact (N Ht)|]; intros s e ((-> & Pe) & Be);
         rewrite (li_eq_at w c g d l e t _ _ H P B Pe Be), F, app_nil_r, Nat.eqb_refl; apply wp_ret; auto). }
    eapply wp_mono; [exact R| |]; [|intros ? ? []].
    intros [c' w'] r (Q & ->). injection Q as -> ->. csplit; auto. apply added_nil.
  - destruct n as [|n]; [simpl in Hn; lia|]. simpl in Hn.
    assert (Hk : length done < length (elems c t)) by (rewrite F, app_length; simpl; lia).
    destruct (Hh x (or_introl eq_refl)) as (Gx & Ex).
    cbn [grow_while]. apply wp_bind.
    eapply wp_mono; [apply wp_and; [intros s' r; apply end_of_base|eapply (wp_c_end_of a c g d w (fun s l => s = (c, w) /\ lpoints c l t (length (elems c t))) (fun _ _ => False)); [exact H|auto|]]| |intros ? ? []].
    { intros N. exact (N Ht). }
    intros s e ((-> & Pe) & Be). rewrite (li_eq_at w c g d l e t _ _ H P B Pe Be).
    destruct (Nat.eqb_spec (length done) (length (elems c t))) as [Q|_]; [lia|].
    apply wp_bind, wp_getx. cbn [fst]. rewrite (li_deref_spec w c g d l t _ H P), F, mid_nth. cbn [option_map].
    apply wp_bind. eapply wp_mono; [exact (insert_each_spec g d t _ _ w c H Gx Ex)| |].
    + intros [c1 w1] _ (H1 & A1 & K1).
      assert (E1 : elems c1 t = elems c t) by (destruct A1 as (A1 & _); rewrite A1, (elsewhere_none c t _ Ex), app_nil_r; reflexivity).
      apply wp_bind, wp_getx. cbn [fst].
      destruct (li_next_at w1 c1 g d l t _ H1 (K1 _ _ P) B ltac:(rewrite E1; exact Hk)) as (l' & -> & P' & B').
      assert (F' : elems c1 t = (done ++ [x]) ++ xs) by (rewrite E1, <- app_assoc; exact F).
      assert (P2 : lpoints c1 l' t (length (done ++ [x]))) by (rewrite app_length, Nat.add_comm; exact P').
      assert (Ht1 : In t (types c1)) by (apply A1; auto).
      apply wp_bind. eapply wp_mono; [apply (IH w1 c1 (done ++ [x]) l' n H1 Ht1 F' P2 B' ltac:(lia))| |].
      * intros z Hz. destruct (Hh z (or_intror Hz)) as (Gz & Ez). split; [exact Gz|]. eapply elsewhere_later; [exact A1|exact Ez].
      * intros [c2 w2] r (H2 & -> & A2). apply wp_ret. csplit; auto. cbn [map flat_map]. eapply added_app; eauto.
      * intros [c2 w2] e' (b1 & u & b2 & ys1 & y & ys2 & z & c3 & w3 & -> & Hu & Gz & H3 & A3 & O3 & R3).
        exists (x :: b1), u, b2, ys1, y, ys2, z, c3, w3. csplit; auto; [|congruence].
        cbn [map flat_map]. rewrite <- app_assoc. eapply added_app; eauto.
    + intros [c' w'] e' (ys1 & y & ys2 & z & c1 & w1 & Hy & _ & Gz & H1 & A1 & R1).
      exists [], x, xs, ys1, y, ys2, z, c1, w1. csplit; auto.
      assert (Iy : In y (h (t, x))) by (rewrite Hy; apply in_or_app; right; left; reflexivity).
      destruct (Ex y Iy) as (Ny & _). pose proof (proj1 Gz) as Ty.
      rewrite (rejected_others _ _ _ _ _ _ _ t R1) by congruence. destruct A1 as (A1 & _). rewrite A1.
      rewrite (elsewhere_none c t ys1), app_nil_r; [exact F|].
      intros u Hu. apply Ex. rewrite Hy. apply in_or_app. left. exact Hu.
Qed.

(** Let [f] make of every element arguments for insertion which give the values [h], none of them of the
    type [t] traversed. Then [f] is given each element of type [t] there was before exactly once and in order, and
    exactly the values it made are inserted, each at the end of the segment of its type. Values of types not registered before
    need a map whose iterators survive a rehash (see C54). If an insertion throws, it is one made for
    some element [x]; all that was made before has been inserted (this is [c1]), nothing after, and the
    elements of type [t] are as before. *)
Theorem C88_grow {V} {E : Env V} w c g d a f h : let t := env_ty a in reach w (c :: g) d ->
  (forall x, In x (elems c t) -> Forall2 gives (f (t, x)) (h (t, x)) /\ elsewhere c t (h (t, x))) ->
  wp (l <- c_begin_of a ;; grow_while (length (elems c t)) a f l) (c, w)
    (fun '(c', w') given => reach w' (c' :: g) d /\ given = map (pair t) (elems c t) /\
       added c c' (flat_map h (map (pair t) (elems c t))) /\ elems c' t = elems c t)
    (fun '(c', w') e =>
       (~ In t (types c) /\ e = UnregisteredType t /\ c' = c /\ w' = w) \/
       exists xs1 x xs2 ys1 y ys2 z c1 w1, elems c t = xs1 ++ x :: xs2 /\ h (t, x) = ys1 ++ y :: ys2 /\
         gives z y /\ reach w1 (c1 :: g) d /\ added c c1 (flat_map h (map (pair t) xs1) ++ ys1) /\
         elems c' t = elems c t /\ rejected c1 c' w1 w' z (length (elems c1 (fst y))) e).
Proof.
  intros t H Hh. apply wp_bind.
  eapply wp_mono; [apply wp_and; [intros s' r; apply begin_of_base|eapply (wp_c_begin_of a c g d w (fun s l => s = (c, w) /\ In t (types c) /\ lpoints c l t 0) (fun s e => s = (c, w) /\ ~ In t (types c) /\ e = UnregisteredType t)); [exact H|auto|auto]]| |].
  - intros s l ((-> & Ht & P) & B).
    eapply wp_mono; [exact (grow_while_spec a f h g d (elems c t) w c [] l _ H Ht eq_refl P B (le_n _) Hh)| |].
    + intros [c' w'] r (H' & -> & A). csplit; auto. destruct A as (A & _).
      assert (El : elsewhere c t (flat_map h (map (pair t) (elems c t)))).
      { intros y Hy. apply in_flat_map in Hy. destruct Hy as (u & Hu & Hy). apply in_map_iff in Hu. destruct Hu as (x & <- & Hx).
        exact (proj2 (Hh x Hx) y Hy). }
      transitivity (elems c t ++ []); [|apply app_nil_r]. rewrite <- (elsewhere_none c t _ El). apply A.
    + intros [c' w'] e X. right. exact X.
  - intros [c' w'] e (Q & N & ->). injection Q as -> ->. left. auto.
Qed.
(** For every element of type 1 one of type 2, and for the odd ones another of type 4. *)
Definition two_for_one (x : tyid * nat) : list (tyid * nat) :=
  (2, snd x + 10) :: if Nat.odd (snd x) then [(4, snd x)] else [].
Example C88_grow_ex lay : let E := dE lay in let c := dc lay in
  let f := fun x => map (fun y => mkarg (fst y * 10) (fst y * 10) true false HCopy (SVal (snd y))) (two_for_one x) in
  let r := (l <- c_begin_of 10 ;; grow_while (length (elems c 1)) 10 f l) (c, dw lay) in
  reach (dw lay) [dc lay; dx lay] [] /\ elems c 1 = [5; 6; 7] /\
  (forall x, In x (elems c 1) -> Forall2 gives (f (1, x)) (two_for_one (1, x)) /\ elsewhere c 1 (two_for_one (1, x))) /\
  match r with
  | Ok (c', _) given => given = [(1, 5); (1, 6); (1, 7)] /\ flat c' = [(1, 5); (1, 6); (1, 7); (2, 8); (2, 9); (2, 15); (2, 16); (2, 17); (4, 1); (4, 5); (4, 7)]
  | _ => False
  end.
Proof.
  cbv zeta. split; [apply d_reach|].
  assert (Q : elems (dc lay) 1 = [5; 6; 7]) by (destruct lay; vm_compute; reflexivity).
  assert (I2 : In 2 (types (dc lay))) by (destruct lay; vm_compute; auto).
  assert (I4 : In 4 (types (dc lay))) by (clear; destruct lay; vm_compute; repeat (first [left; reflexivity|right])).
  split; [exact Q|]. split; [|clear; destruct lay; vm_compute; split; reflexivity].
  intros x _. split.
  - assert (G : forall t v, gives (E := dE lay) (mkarg (S t * 10) (S t * 10) true false HCopy (SVal v)) (S t, v)).
    { intros t v. split; [exact (Nat.div_mul (S t) 10 ltac:(lia))|]. split; [reflexivity|]. intros T. discriminate T. }
    unfold two_for_one. cbn [snd]. destruct (Nat.odd x).
    + constructor; [exact (G 1 _)|]. constructor; [exact (G 3 _)|]. constructor.
    + constructor; [exact (G 1 _)|]. constructor.
  - intros y Hy. unfold two_for_one in Hy. cbn [snd] in Hy. destruct Hy as [Hy|Hy].
    + rewrite <- Hy. cbn [fst]. split; [intros T; discriminate T|left; exact I2].
    + destruct (Nat.odd x); [|destruct Hy]. destruct Hy as [Hy|[]]. rewrite <- Hy. cbn [fst]. split; [intros T; discriminate T|left; exact I4].
Qed.

(** ** Any calls about other types *)

(** The type a call is about; what its argument has to meet. *)
Definition about {V} {E : Env V} (o : @ocall V) : tyid :=
  match o with
  | OInsert x => env_ty (a_dyn x)
  | OEmplace a _ | OClear a | OReserve a _ | OReserveType a _ | OShrink a | OEraseFirst a => env_ty a
  end.
Definition call_ok {V} {E : Env V} (o : @ocall V) : Prop :=
  match o with OInsert x => arg_ok x /\ exists v, a_src x = SVal v | _ => True end.

Lemma wp_both {S A} (m : M S A) s Q X Q' X' : wp m s Q X -> wp m s Q' X' -> wp m s (fun s r => Q s r /\ Q' s r) (fun s e => X s e /\ X' s e).
Proof. unfold wp. destruct (m s); auto. Qed.
Lemma undisturbed_void {V} {E : Env V} {A} (m : M (coll V * world) A) c w t : undisturbed m c w t -> undisturbed (void m) c w t.
Proof.
  unfold undisturbed, void. intros H. apply wp_bind. eapply wp_mono; [exact H| |auto].
  intros [c' w'] r O. apply wp_ret. exact O.
Qed.
Lemma spared {V} {E : Env V} m w c g d safe new vals t : reach w (c :: g) d -> api g c m safe new vals -> undisturbed m c w t ->
  wp m (c, w) (fun '(c', w') _ => reach w' (c' :: g) d /\ others_alone c c' t /\ incl (types c) (types c'))
    (fun '(c', w') _ => others_alone c c' t).
Proof.
  intros H A U. eapply wp_mono; [exact (wp_both _ _ _ _ _ _ (api_reach_unit m w c g d safe new vals _ _ H A U) (C05_calls_register_exactly w c g d m safe new vals H A))| |].
  - intros [c' w'] [] ((R & O) & T). cbn [fst snd] in R. csplit; auto. intros u Hu. apply T. auto.
  - intros [c' w'] e (O & _). exact O.
Qed.

Lemma do_call_spec {V} {E : Env V} w c g d o : reach w (c :: g) d -> call_ok o ->
  wp (do_call o) (c, w) (fun '(c', w') _ => reach w' (c' :: g) d /\ others_alone c c' (about o) /\ incl (types c) (types c'))
    (fun '(c', w') _ => others_alone c c' (about o)).
Proof.
  intros H K. destruct o as [x|a v|a|a n|a n|a|a]; cbn [do_call about].
  - destruct K as (Ok & v & Sv). assert (S : src_c c (env_ty (a_dyn x)) (a_how x) (a_src x) v) by (left; exact Sv).
    eapply spared; [exact H|eapply api_insert; [exact Ok|exact S]|]. apply undisturbed_void. exact (C28_insert w c g d x v H Ok S).
  - assert (S : src_c c (env_ty a) HEmplace (SVal v) v) by (left; reflexivity).
    eapply spared; [exact H|eapply api_emplace; exact S|]. apply undisturbed_void. exact (C28_emplace w c g d a (SVal v) v H S).
  - eapply spared; [exact H|apply api_clear_info|]. apply (C28_by_type w c g d a 0 H).
  - eapply spared; [exact H|apply api_reserve_info|]. apply (C28_by_type w c g d a n H).
  - eapply spared; [exact H|apply api_reserve_type|]. apply (C28_by_type w c g d a n H).
  - eapply spared; [exact H|apply api_shrink_info|]. apply (C28_by_type w c g d a 0 H).
  - set (t := env_ty a). apply wp_bind.
    eapply wp_mono; [apply wp_and; [intros s' r; apply begin_of_base|eapply (wp_c_begin_of a c g d w (fun s l => s = (c, w) /\ In t (types c) /\ lpoints c l t 0) (fun s e => s = (c, w))); [exact H|auto|auto]]| |].
    2:{ intros [c' w'] e Q. injection Q as -> ->. apply others_alone_refl. }
    intros s b ((-> & Ht & Pb) & Bb). apply wp_bind.
    eapply wp_mono; [apply wp_and; [intros s' r; apply end_of_base|eapply (wp_c_end_of a c g d w (fun s l => s = (c, w) /\ lpoints c l t (length (elems c t))) (fun _ _ => False)); [exact H|auto|]]| |intros ? ? []].
    { intros N. exact (N Ht). }
    intros s e ((-> & Pe) & Be). rewrite (li_eq_at w c g d b e t _ _ H Pb Bb Pe Be).
    destruct (Nat.eqb_spec 0 (length (elems c t))) as [Q|Q].
    + apply wp_ret. csplit; [exact H|apply others_alone_refl|apply incl_refl].
    + assert (Hk : 0 < length (elems c t)) by lia.
      eapply spared; [exact H|eapply api_erase_local; [exact Pb|exact Hk]|]. apply undisturbed_void. exact (C28_erase_local w c g d b t 0 H Pb Hk).
Qed.

(** [calls_elsewhere c t os]: all of them are about other types than [t], and about types which are
    registered - unless the library's map keeps its iterators when it rehashes *)
Definition calls_elsewhere {V} {E : Env V} (c : coll V) (t : tyid) (os : list (@ocall V)) : Prop :=
  forall o, In o os -> call_ok o /\ about o <> t /\ (In (about o) (types c) \/ env_rehash_stable = true).
(** [same_for c c' t]: elements, capacity and addresses of the elements of type [t] are the same *)
Definition same_for {V} {E : Env V} (c c' : coll V) (t : tyid) : Prop :=
  elems c' t = elems c t /\ cap_of c' t = cap_of c t /\ forall k, addr_of c' t k = addr_of c t k.

Lemma same_for_refl {V} {E : Env V} (c : coll V) t : same_for c c t.
Proof. split; auto. Qed.
Lemma same_for_trans {V} {E : Env V} (c c1 c2 : coll V) t : same_for c c1 t -> same_for c1 c2 t -> same_for c c2 t.
Proof. intros (A & B & D) (A' & B' & D'). split; [|split]; [congruence|congruence|intros k; rewrite D', D; reflexivity]. Qed.
Lemma alone_same {V} {E : Env V} (c c' : coll V) t u : others_alone c c' u -> t <> u -> same_for c c' t.
Proof. intros O N. destruct (O t N) as (_ & A & B & D & _). split; auto. Qed.

Lemma do_calls_spec {V} {E : Env V} g d t : forall os w c, reach w (c :: g) d -> calls_elsewhere c t os ->
  wp (do_calls os) (c, w)
    (fun '(c', w') _ => reach w' (c' :: g) d /\ same_for c c' t /\ incl (types c) (types c') /\ (forall k l, lpoints c l t k -> lpoints c' l t k))
    (fun '(c', w') _ => same_for c c' t).
Proof.
  induction os as [|o os IH]; intros w c H El; cbn [do_calls].
  - apply wp_ret. csplit; auto using same_for_refl, incl_refl.
  - destruct (El o (or_introl eq_refl)) as (K & N & St). apply wp_bind.
    eapply wp_mono; [exact (do_call_spec w c g d o H K)| |].
    + intros [c1 w1] _ (H1 & O1 & T1). assert (S1 : same_for c c1 t) by (apply (alone_same c c1 t (about o) O1); auto).
      assert (El1 : calls_elsewhere c1 t os).
      { intros o' Ho. destruct (El o' (or_intror Ho)) as (K' & N' & St'). csplit; auto. destruct St' as [I|S]; auto. }
      eapply wp_mono; [exact (IH w1 c1 H1 El1)| |].
      * intros [c2 w2] _ (H2 & S2 & T2 & K2). csplit; auto; [exact (same_for_trans _ _ _ _ S1 S2)|exact (incl_tran T1 T2)|].
        intros k l P. apply K2. destruct (O1 t ltac:(auto)) as (_ & _ & _ & _ & Kp). apply (Kp St k). exact P.
      * intros [c2 w2] e S2. exact (same_for_trans _ _ _ _ S1 S2).
    + intros [c' w'] e O1. apply (alone_same c c' t (about o) O1). auto.
Qed.

Lemma visit_while_spec {V} {E : Env V} a f g d : let t := env_ty a in forall xs w c done l n, reach w (c :: g) d ->
  In t (types c) -> elems c t = done ++ xs -> lpoints c l t (length done) -> is_base l -> length xs <= n ->
  (forall x, In x xs -> calls_elsewhere c t (f (t, x))) ->
  wp (visit_while n a f l) (c, w)
    (fun '(c', w') given => reach w' (c' :: g) d /\ given = map (pair t) xs /\ same_for c c' t)
    (fun '(c', w') e => same_for c c' t).
Proof.
  intros t. induction xs as [|x xs IH]; intros w c done l n H Ht F P B Hn Hh.
  - assert (R : wp (visit_while n a f l) (c, w) (fun s r => s = (c, w) /\ r = []) (fun _ _ => False)).
    { destruct n; cbn [visit_while]; apply wp_bind;
        (eapply wp_mono; [apply wp_and; [intros s' r; apply end_of_base|eapply (wp_c_end_of a c g d w (fun s l => s = (c, w) /\ lpoints c l t (length (elems c t))) (fun _ _ => False)); [exact H|auto|]]| |auto];
         [intros N; exact (N Ht)|]; intros s e ((-> & Pe) & Be);
         rewrite (li_eq_at w c g d l e t _ _ H P B Pe Be), F, app_nil_r, Nat.eqb_refl; apply wp_ret; auto). }
    eapply wp_mono; [exact R| |]; [|intros ? ? []].
    intros [c' w'] r (Q & ->). injection Q as -> ->. csplit; auto. apply same_for_refl.
  - destruct n as [|n]; [simpl in Hn; lia|]. simpl in Hn.
    assert (Hk : length done < length (elems c t)) by (rewrite F, app_length; simpl; lia).
    pose proof (Hh x (or_introl eq_refl)) as Ex.
    cbn [visit_while]. apply wp_bind.
    eapply wp_mono; [apply wp_and; [intros s' r; apply end_of_base|eapply (wp_c_end_of a c g d w (fun s l => s = (c, w) /\ lpoints c l t (length (elems c t))) (fun _ _ => False)); [exact H|auto|]]| |intros ? ? []].
    { intros N. exact (N Ht). }
    intros s e ((-> & Pe) & Be). rewrite (li_eq_at w c g d l e t _ _ H P B Pe Be).
    destruct (Nat.eqb_spec (length done) (length (elems c t))) as [Q|_]; [lia|].
    assert (Dx : li_deref c l = Some (t, x)) by (rewrite (li_deref_spec w c g d l t _ H P), F, mid_nth; reflexivity).
    apply wp_bind, wp_getx. cbn [fst]. rewrite Dx.
    apply wp_bind. eapply wp_mono; [exact (do_calls_spec g d t _ w c H Ex)| |].
    + intros [c1 w1] _ (H1 & S1 & T1 & K1). pose proof (proj1 S1) as E1.
      apply wp_bind, wp_getx. cbn [fst].
      destruct (li_next_at w1 c1 g d l t _ H1 (K1 _ _ P) B ltac:(rewrite E1; exact Hk)) as (l' & -> & P' & B').
      assert (F' : elems c1 t = (done ++ [x]) ++ xs) by (rewrite E1, <- app_assoc; exact F).
      assert (P2 : lpoints c1 l' t (length (done ++ [x]))) by (rewrite app_length, Nat.add_comm; exact P').
      apply wp_bind. eapply wp_mono; [apply (IH w1 c1 (done ++ [x]) l' n H1 (T1 _ Ht) F' P2 B' ltac:(lia))| |].
      * intros z Hz o Ho. destruct (Hh z (or_intror Hz) o Ho) as (K & N & St). csplit; auto. destruct St as [I|S]; auto.
      * intros [c2 w2] r (H2 & -> & S2). apply wp_ret. csplit; auto. exact (same_for_trans _ _ _ _ S1 S2).
      * intros [c2 w2] e' S2. exact (same_for_trans _ _ _ _ S1 S2).
    + intros [c' w'] e' S1. exact S1.
Qed.

(** Whatever calls about other types the body of the loop makes - insertions, emplacements, erasures, clear, reserve
    and shrink_to_fit -: the loop ends, each element of type [t] is visited exactly once and in order, and in
    the end, also after an exception, the elements of that type, their addresses and the capacity are the same. *)
Theorem C88_visit {V} {E : Env V} w c g d a f : let t := env_ty a in reach w (c :: g) d ->
  (forall x, In x (elems c t) -> calls_elsewhere c t (f (t, x))) ->
  wp (l <- c_begin_of a ;; visit_while (length (elems c t)) a f l) (c, w)
    (fun '(c', w') given => reach w' (c' :: g) d /\ given = map (pair t) (elems c t) /\ same_for c c' t)
    (fun '(c', w') e => same_for c c' t).
Proof.
  intros t H Hh. apply wp_bind.
  eapply wp_mono; [apply wp_and; [intros s' r; apply begin_of_base|eapply (wp_c_begin_of a c g d w (fun s l => s = (c, w) /\ In t (types c) /\ lpoints c l t 0) (fun s e => s = (c, w))); [exact H|auto|auto]]| |].
  - intros s l ((-> & Ht & P) & B). exact (visit_while_spec a f g d (elems c t) w c [] l _ H Ht eq_refl P B (le_n _) Hh).
  - intros [c' w'] e Q. injection Q as -> ->. apply same_for_refl.
Qed.
Definition churn (x : tyid * nat) : list ocall :=
  [OEraseFirst 20; OEmplace 20 (snd x); OShrink 20; OClear 40; OReserve 40 (snd x); OEmplace 40 (snd x)].
Example C88_visit_ex lay : let E := dE lay in let c := dc lay in
  reach (dw lay) [dc lay; dx lay] [] /\ elems c 1 = [5; 6; 7] /\
  (forall x, In x (elems c 1) -> calls_elsewhere c 1 (churn (1, x))) /\
  match (l <- c_begin_of 10 ;; visit_while (length (elems c 1)) 10 churn l) (c, dw lay) with
  | Ok (c', _) given => given = [(1, 5); (1, 6); (1, 7)] /\ flat c' = [(1, 5); (1, 6); (1, 7); (2, 6); (2, 7); (4, 7)]
  | _ => False
  end.
Proof.
  cbv zeta. split; [apply d_reach|]. split; [clear; destruct lay; vm_compute; reflexivity|].
  assert (I2 : In 2 (types (dc lay))) by (clear; destruct lay; vm_compute; repeat (first [left; reflexivity|right])).
  assert (I4 : In 4 (types (dc lay))) by (clear; destruct lay; vm_compute; repeat (first [left; reflexivity|right])).
  split; [|clear; destruct lay; vm_compute; split; reflexivity].
  intros x _ o Ho. unfold churn in Ho.
  assert (Q : about (E := dE lay) o = 2 \/ about (E := dE lay) o = 4).
  { cbn [In] in Ho. destruct Ho as [<-|[<-|[<-|[<-|[<-|[<-|[]]]]]]]; (left; reflexivity) || (right; reflexivity). }
  split.
  - cbn [In] in Ho. destruct Ho as [<-|[<-|[<-|[<-|[<-|[<-|[]]]]]]]; exact I.
  - destruct Q as [->| ->]; (split; [intros T; discriminate T|left; assumption]).
Qed.

Print Assumptions C88_grow.
Print Assumptions C88_visit.
