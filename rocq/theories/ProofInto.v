(** * Algorithms which write into collections: proofs *)

From Coq Require Import List Arith Lia Bool Permutation.
From Verif Require Import Base Vec Backend Segment Coll StdAlg Algo Loops Into Spec SpecVia SpecAlg SpecStd SpecInto Reach ProofBase ProofVec ProofBackend ProofOps
  ProofSeg ProofMap ProofView ProofColl ProofIns ProofRange ProofReach ProofObs ProofProp ProofProp4 ProofProp5 ProofCost7 ProofVia.
Import ListNotations.

Section ProofInto.
Context {V : Type} {E : Env V}.

(** ** one output iterator *)

Lemma std_copy_if_pure {X S} (p : X -> bool) (put : nat -> X -> M S unit) xs : forall o s,
  std_copy_if (fun x => ret (p x)) put xs o s = std_copy put (filter p xs) o s.
Proof.
  induction xs as [|x xs IH]; intros o s; [reflexivity|]. cbn. unfold bind, ret. destruct (p x); cbn; [|apply IH].
  unfold bind. destruct (put o x s); auto.
Qed.
Lemma std_remove_copy_if_pure {X S} (p : X -> bool) (put : nat -> X -> M S unit) xs : forall o s,
  std_remove_copy_if (fun x => ret (p x)) put xs o s = std_copy put (filter (fun x => negb (p x)) xs) o s.
Proof.
  induction xs as [|x xs IH]; intros o s; [reflexivity|]. cbn. unfold bind, ret. destruct (p x); cbn; [apply IH|].
  unfold bind. destruct (put o x s); auto.
Qed.
Lemma std_transform_pure {X Y S} (f : X -> Y) (put : nat -> Y -> M S unit) xs : forall o s,
  std_transform (fun x => ret (f x)) put xs o s = std_copy put (map f xs) o s.
Proof.
  induction xs as [|x xs IH]; intros o s; [reflexivity|]. cbn. unfold bind, ret. destruct (put o (f x) s); auto.
Qed.

(** ** runs of types *)

(** The elements of one type are next to each other. *)
Fixpoint grouped (l : list (tyid * V)) : Prop :=
  match l with
  | [] => True
  | e :: l' => (match l' with [] => True | e' :: _ => fst e' = fst e \/ ~ In (fst e) (map fst l') end) /\ grouped l'
  end.
Lemma grouped_out t v l e : grouped ((t, v) :: l) -> In e l -> fst e = t -> exists e' l', l = e' :: l' /\ fst e' = t.
Proof.
  intros (G & _) He <-. destruct l as [|e' l']; [destruct He|]. exists e', l'. split; auto. destruct G as [G|G]; [exact G|].
  exfalso. apply G. apply (in_map fst) in He. exact He.
Qed.
Lemma grouped_filter p (l : list (tyid * V)) : grouped l -> grouped (filter p l).
Proof.
  assert (F : forall p (l : list (tyid * V)) t, ~ In t (map fst l) -> ~ In t (map fst (filter p l))).
  { intros q l0 t N H. apply N. apply in_map_iff in H. destruct H as (e & <- & He). apply filter_In in He. apply in_map. apply He. }
  assert (K : forall (l : list (tyid * V)) t, (match l with [] => True | e' :: _ => fst e' = t \/ ~ In t (map fst l) end) -> grouped l ->
    match filter p l with [] => True | e' :: _ => fst e' = t \/ ~ In t (map fst (filter p l)) end).
  { clear l. intros l t. induction l as [|e l IH]; [cbn; auto|]. intros A (G & G'). cbn [filter]. destruct (p e) eqn:Pe.
    - destruct A as [A|A]; [left; exact A|right]. change (~ In t (map fst (e :: filter p l))). intros [H|H]; [apply A; left; exact H|].
      apply (F p l t) in H; [exact H|]. intros H'. apply A. right. exact H'.
    - apply IH; auto. destruct l as [|e' l']; auto. destruct A as [A|A].
      + rewrite A in G. destruct G as [G|G]; auto.
      + right. intros H. apply A. right. exact H. }
  induction l as [|e l IH]; [auto|]. intros (G & G'). cbn [filter]. destruct (p e); auto. split; [apply K; auto|auto].
Qed.
Lemma grouped_app a b : grouped (a ++ b) -> grouped b.
Proof. induction a as [|e a IH]; cbn; auto. intros (_ & G). auto. Qed.
Lemma grouped_firstn n (l : list (tyid * V)) : grouped l -> grouped (firstn n l).
Proof.
  revert n. induction l as [|e l IH]; intros [|n]; cbn [firstn grouped]; auto. intros (G & G'). split; auto.
  destruct l as [|e' l']; [destruct n; auto|]. destruct n as [|n]; [cbn; auto|]. cbn [firstn]. destruct G as [G|G]; [left; exact G|right].
  intros H. apply G. change (e' :: firstn n l') with (firstn (S n) (e' :: l')) in H. apply in_map_iff in H. destruct H as (x & <- & Hx). apply in_map.
  rewrite <- (firstn_skipn (S n) (e' :: l')). apply in_or_app. left. exact Hx.
Qed.
Lemma grouped_flat w c g d : reach w (c :: g) d -> grouped (flat c).
Proof.
  intros H. assert (N := types_nodup w c g d H). unfold flat, types in *. induction (content c) as [|[t xs] l IH]; [cbn; auto|].
  cbn [map fst] in N. inversion N as [|? ? N1 N2]; subst. specialize (IH N2). cbn [flat_map fst snd]. induction xs as [|x xs IHx]; [exact IH|].
  cbn [map app grouped]. split; [|exact IHx]. destruct xs as [|x' xs].
  - cbn [map app]. destruct (flat_map _ l) as [|e' l'] eqn:Q; auto. right. rewrite <- Q. intros Hi. apply N1. cbn [fst] in Hi.
    apply in_map_iff in Hi. destruct Hi as (e & He & Hi). apply in_flat_map in Hi. destruct Hi as ([u ys] & Hu & Hy). apply in_map_iff in Hy.
    destruct Hy as (y & <- & _). cbn [fst] in *. subst u. apply (in_map fst) in Hu. exact Hu.
  - cbn. left. reflexivity.
Qed.
Lemma grouped_between w c g d i j : reach w (c :: g) d -> grouped (between i j (flat c)).
Proof.
  intros H. unfold between. apply grouped_firstn. apply (grouped_app (firstn i (flat c))). rewrite firstn_skipn. eapply grouped_flat; eauto.
Qed.

(** What has happened to a destination: also, elements of types of which there were none come in the order in which they were written. *)
Definition in_order (c : coll V) (h : option (tyid * nat)) (l : list (tyid * V)) : Prop :=
  grouped l /\
  forall e, In e l -> elems c (fst e) = [] \/ ((exists e0 l0, l = e0 :: l0 /\ fst e0 = fst e) /\ slot h c (fst e) = length (elems c (fst e))).
Definition did (c : coll V) (h : option (tyid * nat)) (i : nat) (l : list (tyid * V)) (c1 : coll V) : Prop :=
  (exists j, via_did c h i l c1 j) /\ (in_order c h l -> forall t, elems c1 t = elems c t ++ of_type t l).
Lemma did_nil c h i : did c h i [] c.
Proof. split; [exists i; apply via_did_nil|]. intros _ t. cbn. rewrite app_nil_r. reflexivity. Qed.
Lemma did_cons w c g d hint h i t v l w1 c1 h1 hint1 c2 : reach w (c :: g) d -> hint_is c hint h -> located c hint i ->
  inserted c c1 t (slot h c t) v -> reach w1 (c1 :: g) d -> hint_is c1 hint1 h1 -> located c1 hint1 (offset (content c1) t + slot h c t + 1) ->
  did c1 h1 (offset (content c1) t + slot h c t + 1) l c2 -> did c h i ((t, v) :: l) c2.
Proof.
  intros H Hi L I H1 Hi1 L1 ((j & D) & Or). split; [exists j; eapply via_did_cons; eauto|]. intros (G & A) u.
  destruct (hint_of w c g d hint h t H Hi) as (_ & _ & Hk).
  assert (Sl : slot h c t = length (elems c t)).
  { destruct (A (t, v) (or_introl eq_refl)) as [Q|(_ & Q)]; cbn [fst] in Q; [rewrite Q in Hk |- *; cbn in *; lia|exact Q]. }
  pose proof (fun u => inserted_elems c c1 t (slot h c t) v u I) as Eu. rewrite Sl in Eu, L1.
  assert (Et : elems c1 t = elems c t ++ [v]).
  { rewrite Eu, Nat.eqb_refl. unfold insert_at. rewrite firstn_all, skipn_all. reflexivity. }
  rewrite Or.
  - rewrite of_type_cons, Eu. destruct (Nat.eqb_spec u t) as [->|Ne].
    + rewrite Nat.eqb_refl. unfold insert_at. rewrite firstn_all, skipn_all, <- app_assoc. reflexivity.
    + rewrite (proj2 (Nat.eqb_neq t u)) by auto. reflexivity.
  - split; [apply G|]. intros e He. destruct (Nat.eq_dec (fst e) t) as [Q|Ne].
    + right. split; [destruct (grouped_out t v l e G He Q) as (e' & l'' & -> & Q'); exists e', l''; split; congruence|].
      rewrite Q. rewrite <- (goes_slot w1 c1 g d hint1 h1 _ t H1 Hi1 L1). unfold goes.
      change (match assoc t (content c1) with Some l0 => length l0 | None => 0 end) with (match seg_of c1 t with Some l => length l | None => 0 end).
      assert (En : (match seg_of c1 t with Some l => length l | None => 0 end) = length (elems c1 t)) by (unfold elems; destruct (seg_of c1 t); reflexivity).
      rewrite En. destruct ((_ <=? _) && (_ <? _)) eqn:B; auto. apply andb_true_iff in B. destruct B as (_ & B). apply Nat.ltb_lt in B.
      rewrite Et, app_length in B. cbn in B. lia.
    + left. rewrite Eu, (proj2 (Nat.eqb_neq _ _) Ne). destruct (A e (or_intror He)) as [Q|((e0 & l0 & Q & Q') & _)]; auto.
      injection Q as <- <-. cbn in Q'. congruence.
Qed.
Lemma did_took c h i l c1 : did c h i l c1 -> took c c1 l.
Proof. intros ((j & D1 & D2 & D3 & _ & _ & D6) & _). unfold took. csplit; auto; apply D1. Qed.
Lemma did_order c h i l c1 : did c h i l c1 -> grouped l -> without c l -> forall t, elems c1 t = elems c t ++ of_type t l.
Proof. intros (_ & D) G W. apply D. split; [exact G|]. intros e He. left. apply W, He. Qed.

(** one step, with what is needed to go on *)
Lemma step_did w c g d hint h i x t v l : reach w (c :: g) d -> hint_is c hint h -> located c hint i -> gives x (t, v) -> via_safe h c ((t, v) :: l) ->
  wp (ins_step hint x) (c, w)
    (fun '(c1, w1) hint1 => reach w1 (c1 :: g) d /\ exists h1 i1, hint_is c1 hint1 h1 /\ located c1 hint1 i1 /\ via_safe h1 c1 l /\
       forall l' c2, did c1 h1 i1 l' c2 -> did c h i ((t, v) :: l') c2)
    (fun '(c1, w1) e => rejected c c1 w w1 x (slot h c t) e).
Proof.
  intros H Hi L Gx Sf. change (ins_step hint x) with (via_step hint x).
  assert (Sf1 : hsafe h c [(t, v)]).
  { destruct Sf as [Q|[Q|(-> & _)]]; [right; right; exact Q|right; left|left; reflexivity]. intros u [<-|[]]. apply Q. left. reflexivity. }
  eapply wp_mono; [apply (wp_via w c g d hint h i x t v H Hi L Gx Sf1)| |auto].
  intros [c1 w1] hint1 (R1 & I & L1). destruct (located_hint _ _ _ L1) as (h1 & Hi1). split; [exact R1|].
  exists h1, (offset (content c1) t + slot h c t + 1). csplit; auto.
  - eapply (via_safe_step w c g d h h1 c1 t v l); auto. intros u. rewrite (g_types _ _ _ _ (in_grew _ _ _ _ _ I)). cbn. intuition.
  - intros l' c2 D. eapply did_cons; eauto.
Qed.

Lemma wp_into {X} (ob : X -> tyid * V) (pass : X -> arg V) g d :
  forall xs o w c hint h i, (forall x, In x xs -> gives (pass x) (ob x)) -> reach w (c :: g) d -> hint_is c hint h -> located c hint i -> via_safe h c (map ob xs) ->
  wp (std_copy (fun _ x => ins (pass x)) xs o) ((c, w), hint)
    (fun '((c', w'), it) n => reach w' (c' :: g) d /\ (exists j, located c' it j) /\ did c h i (map ob xs) c')
    (fun '((c', w'), _) e => gave_up (fun pre c1 => did c h i (map ob pre) c1) pass xs g d c' w' e).
Proof.
  induction xs as [|x xs IH]; intros o w c hint h i Gv H Hi L Sf.
  - cbn. csplit; eauto. apply did_nil.
  - cbn [std_copy]. apply wp_bind. cbn [map] in Sf. destruct (ob x) as [t v] eqn:Q. pose proof (Gv x (or_introl eq_refl)) as Gx. rewrite Q in Gx.
    pose proof (step_did w c g d hint h i (pass x) t v (map ob xs) H Hi L Gx Sf) as P. unfold wp at 1. unfold ins at 1. unfold wp in P.
    destruct (ins_step hint (pass x) (c, w)) as [[c1 w1] hint1|[c1 w1] e|]; [|exists [], x, xs, w, c, (slot h c t)|contradiction].
    + destruct P as (R1 & h1 & i1 & Hi1 & L1 & Sf1 & Co). eapply wp_mono; [apply (IH (1 + o) w1 c1 hint1 h1 i1 (fun x' Hx => Gv x' (or_intror Hx)) R1 Hi1 L1 Sf1)| |].
      * intros [[c' w'] it] n (R & J & D). csplit; auto. cbn [map]. rewrite Q. apply Co, D.
      * intros [[c' w'] it] e (pre & x' & post & w2 & c2 & q & -> & R2 & T & Rj). exists (x :: pre), x', post, w2, c2, q. csplit; auto.
        cbn [map]. rewrite Q. apply Co, T.
    + csplit; auto. cbn [map]. apply did_nil.
Qed.

(** ** two output iterators *)

Lemma swap_reach w (y z : coll V) g d : reach w (y :: z :: g) d -> reach w (z :: y :: g) d.
Proof. intros H. eapply r_perm; [exact H|apply perm_swap|reflexivity]. Qed.

Lemma wp_split {X} (ob : X -> tyid * V) (pass : X -> arg V) (p : X -> bool) g d :
  forall xs o w y z hint hint' h h' i i', (forall x, In x xs -> gives (pass x) (ob x)) -> reach w (y :: z :: g) d -> hint_is y hint h -> located y hint i -> hint_is z hint' h' -> located z hint' i' ->
  via_safe h y (map ob (filter p xs)) -> via_safe h' z (map ob (filter (fun x => negb (p x)) xs)) ->
  wp (std_partition_copy (fun x => ret (p x)) (fun _ x => ins_first (pass x)) (fun _ x => ins_second (pass x)) xs o) (((y, z), w), (hint, hint'))
    (fun '(((y', z'), w'), _) n => reach w' (y' :: z' :: g) d /\ did y h i (map ob (filter p xs)) y' /\ did z h' i' (map ob (filter (fun x => negb (p x)) xs)) z')
    (fun '(((y', z'), w'), _) e =>
       gave_up2 p (fun pre y1 z1 => did y h i (map ob (filter p pre)) y1 /\ did z h' i' (map ob (filter (fun x => negb (p x)) pre)) z1) pass xs g d y' z' w' e).
Proof.
  induction xs as [|x xs IH]; intros o w y z hint hint' h h' i i' Gv H Hi L Hi' L' Sf Sf'.
  - cbn. csplit; auto; apply did_nil.
  - cbn [std_partition_copy]. apply wp_bind. apply wp_ret. cbn [filter] in Sf, Sf' |- *. pose proof (Gv x (or_introl eq_refl)) as Gx. destruct (ob x) as [t v] eqn:Q.
    destruct (p x) eqn:Px; cbn [negb map] in *; apply wp_bind.
    + rewrite Q in Sf. pose proof (step_did w y (z :: g) d hint h i (pass x) t v _ H Hi L Gx Sf) as P. unfold wp at 1. unfold ins_first at 1. unfold wp in P.
      destruct (ins_step hint (pass x) (y, w)) as [[y1 w1] hint1|[y1 w1] e|]; [|exists [], x, xs, w, y, z, (slot h y t)|contradiction].
      * destruct P as (R1 & h1 & i1 & Hi1 & L1 & Sf1 & Co).
        eapply wp_mono; [apply (IH (1 + fst o, snd o) w1 y1 z hint1 hint' h1 h' i1 i' (fun x' Hx => Gv x' (or_intror Hx)) R1 Hi1 L1 Hi' L' Sf1 Sf')| |].
        -- intros [[[y' z'] w'] its] n (R & D & D'). csplit; auto. rewrite Q. apply Co, D.
        -- intros [[[y' z'] w'] its] e (pre & x' & post & w2 & y2 & z2 & q & -> & R2 & (T & T') & Rj). exists (x :: pre), x', post, w2, y2, z2, q. csplit; auto;
           cbn [filter]; rewrite Px; cbn [negb map]; auto. rewrite Q. apply Co, T.
      * csplit; auto; [apply did_nil|apply did_nil|]. rewrite Px. auto.
    + rewrite Q in Sf'. pose proof (step_did w z (y :: g) d hint' h' i' (pass x) t v _ (swap_reach _ _ _ _ _ H) Hi' L' Gx Sf') as P.
      unfold wp at 1. unfold ins_second at 1. unfold wp in P.
      destruct (ins_step hint' (pass x) (z, w)) as [[z1 w1] hint1|[z1 w1] e|]; [|exists [], x, xs, w, y, z, (slot h' z t)|contradiction].
      * destruct P as (R1 & h1 & i1 & Hi1 & L1 & Sf1 & Co).
        eapply wp_mono; [apply (IH (fst o, 1 + snd o) w1 y z1 hint hint1 h h1 i i1 (fun x' Hx => Gv x' (or_intror Hx)) (swap_reach _ _ _ _ _ R1) Hi L Hi1 L1 Sf Sf1)| |].
        -- intros [[[y' z'] w'] its] n (R & D & D'). csplit; auto. rewrite Q. apply Co, D'.
        -- intros [[[y' z'] w'] its] e (pre & x' & post & w2 & y2 & z2 & q & -> & R2 & (T & T') & Rj). exists (x :: pre), x', post, w2, y2, z2, q. csplit; auto;
           cbn [filter]; rewrite Px; cbn [negb map]; auto. rewrite Q. apply Co, T'.
      * csplit; auto; [apply did_nil|apply did_nil|]. rewrite Px. auto.
Qed.

Lemma gave_up_mono {X} (D D' : list X -> coll V -> Prop) pass xs g d y' w' e : (forall pre c, D pre c -> D' pre c) ->
  gave_up D pass xs g d y' w' e -> gave_up D' pass xs g d y' w' e.
Proof. intros M (pre & x & post & w1 & y1 & q & A & B & C & R). exists pre, x, post, w1, y1, q. auto. Qed.

Lemma std_unique_copy_pure {X S} (p : X -> X -> bool) (put : nat -> X -> M S unit) xs : forall o s,
  std_unique_copy (fun x y => ret (p x y)) put xs o s = std_copy put (leaders p xs) o s.
Proof.
  assert (A : forall xs x o s, std_unique_copy_after (fun x y => ret (p x y)) put x xs o s = std_copy put (changes p x xs) o s).
  { induction xs0 as [|y ys IH]; intros x o s; [reflexivity|]. cbn. unfold bind, ret. destruct (p x y); cbn; [apply IH|].
    unfold bind. destruct (put o y s); auto. }
  intros o s. destruct xs as [|x xs]; [reflexivity|]. cbn. unfold bind. destruct (put o x s); auto.
Qed.
Lemma std_replace_copy_if_pure {X N S} (p : X -> bool) (new : N) (put : nat -> N + X -> M S unit) xs : forall o s,
  std_replace_copy_if (fun x => ret (p x)) new put xs o s = std_copy put (map (fun x => if p x then inl new else inr x) xs) o s.
Proof.
  induction xs as [|x xs IH]; intros o s; [reflexivity|]. cbn. unfold bind, ret. destruct (put o (if p x then inl new else inr x) s); auto.
Qed.
Lemma same_eq_r {S A} (m m' m'' : M S A) : same_as m m' eq -> (forall s, m' s = m'' s) -> same_as m m'' eq.
Proof. intros H Q s. rewrite <- Q. apply H. Qed.

Lemma leaders_in {X} (p : X -> X -> bool) xs x : In x (leaders p xs) -> In x xs.
Proof.
  assert (A : forall xs y, In x (changes p y xs) -> In x xs).
  { induction xs0 as [|z zs IH]; intros y; cbn; auto. destruct (p y z); cbn; intuition eauto. }
  destruct xs as [|y ys]; cbn; auto. intros [->|H]; [auto|right; eauto].
Qed.
Lemma filter_map_comm {X Y} (f : X -> Y) (q : Y -> bool) xs : map f (filter (fun x => q (f x)) xs) = filter q (map f xs).
Proof. induction xs as [|x xs IH]; cbn; auto. destruct (q (f x)); cbn; congruence. Qed.
Lemma leaders_map {X Y} (f : X -> Y) (q : Y -> Y -> bool) xs : map f (leaders (fun x y => q (f x) (f y)) xs) = leaders q (map f xs).
Proof.
  assert (A : forall xs x, map f (changes (fun x y => q (f x) (f y)) x xs) = changes q (f x) (map f xs)).
  { induction xs0 as [|y ys IH]; intros x; cbn; auto. destruct (q (f x) (f y)); cbn; rewrite IH; auto. }
  destruct xs as [|x xs]; cbn; auto. rewrite A. reflexivity.
Qed.
Lemma grouped_map (f : tyid * V -> tyid * V) l : (forall e, fst (f e) = fst e) -> grouped l -> grouped (map f l).
Proof.
  intros F. induction l as [|e l IH]; cbn [map grouped]; auto. intros (G & G'). split; auto. destruct l as [|e' l']; auto. cbn [map].
  change (f e' :: map f l') with (map f (e' :: l')). rewrite map_map, (map_ext (fun x => fst (f x)) fst), !F by auto. exact G.
Qed.
Inductive sub {X} : list X -> list X -> Prop :=
| sub_nil l : sub [] l
| sub_cons x l l' : sub l l' -> sub (x :: l) (x :: l')
| sub_skip x l l' : sub l l' -> sub l (x :: l').
Lemma sub_in {X} (l l' : list X) x : sub l l' -> In x l -> In x l'.
Proof. induction 1; cbn; intuition. Qed.
Lemma sub_map {X Y} (f : X -> Y) l l' : sub l l' -> sub (map f l) (map f l').
Proof. induction 1; cbn; constructor; auto. Qed.
Lemma grouped_sub (l l' : list (tyid * V)) : sub l l' -> grouped l' -> grouped l.
Proof.
  assert (K : forall (l l' : list (tyid * V)) t, sub l l' -> (match l' with [] => True | e' :: _ => fst e' = t \/ ~ In t (map fst l') end) -> grouped l' ->
    match l with [] => True | e' :: _ => fst e' = t \/ ~ In t (map fst l) end).
  { intros l0 l0' t. induction 1 as [|x l1 l1' Su IH|x l1 l1' Su IH]; auto.
    - intros [A|A] _; [left; exact A|right]. intros Hi. apply A. eapply sub_in; [|exact Hi]. apply sub_map. constructor. exact Su.
    - intros A (G & G'). apply IH; auto. destruct l1' as [|e' l2]; auto. destruct A as [A|A].
      + rewrite A in G. exact G.
      + right. intros Hi. apply A. right. exact Hi. }
  induction 1 as [|x l1 l1' Su IH|x l1 l1' Su IH]; cbn [grouped]; auto.
  - intros (G & G'). split; auto. eapply K; eauto.
  - intros (G & G'). auto.
Qed.
Lemma sub_leaders {X} (q : X -> X -> bool) l : sub (leaders q l) l.
Proof.
  assert (A : forall l x, sub (changes q x l) l).
  { induction l0 as [|y ys IH]; intros x; cbn; [constructor|]. destruct (q x y); [apply sub_skip|apply sub_cons]; auto. }
  destruct l as [|x l]; cbn; [constructor|]. apply sub_cons, A.
Qed.

(** from the sequence to the algorithm *)
Lemma wp_same {S A B} (m : M S A) (m' : M S B) R s Q Z : same_as m m' R -> wp m' s Q Z -> wp m s (fun s' a => exists b, R a b /\ Q s' b) Z.
Proof.
  intros Sm W. specialize (Sm s). unfold wp in *. destruct (m s) as [s1 a|s1 e|], (m' s) as [s2 b|s2 e'|]; try contradiction.
  - destruct Sm as (-> & r). exists b. auto.
  - destruct Sm as (-> & ->). exact W.
Qed.

(** All the algorithms with one output iterator *)
Lemma wp_writes {X A} (ob : X -> tyid * V) (pass : X -> arg V) (m : M ((coll V * world) * iter) A) (R : A -> nat -> Prop) xs l o w y g d hint h k :
  reach w (y :: g) d -> hint_is y hint h -> located y hint k -> same_as m (std_copy (fun _ x => ins (pass x)) xs o) R -> map ob xs = l ->
  (forall x, In x xs -> gives (pass x) (ob x)) -> via_safe h y l ->
  wp m ((y, w), hint)
    (fun s _ => received (grouped l) y l g d s) (fun s e => write_stopped ob pass xs y g d s e).
Proof.
  intros H Hi L Sm <- Gv Sf. eapply wp_mono; [eapply wp_same; [exact Sm|]| |].
  - apply (wp_into ob pass g d xs o w y hint h k Gv H Hi L Sf).
  - intros [[y' w'] it] n (b & _ & Rr & J & D). unfold received; csplit; auto; [eapply did_took; eauto|]. intros G Wo. eapply did_order; eauto.
  - intros [[y' w'] it] e. unfold write_stopped. apply gave_up_mono. intros pre c1 D. eapply did_took; eauto.
Qed.

End ProofInto.
