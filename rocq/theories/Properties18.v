(** * Reading and concurrent readers (C66)

    See the head of Properties1.v for the form of the statements; Read.v for readers and
    schedules. *)

From Coq Require Import List Arith Lia Bool Permutation.
From Verif Require Import Base Vec Backend Segment Coll Info Spec SpecInfo Reach Read ProofBase ProofVec ProofBackend ProofSeg ProofMap ProofView ProofColl
  ProofRange ProofReach ProofObs ProofProp ProofProp2 ProofProp3 ProofProp4 ProofProp5 ProofInfo Demo Properties1.
Import ListNotations.

(** ** C66 Reading has no side effects *)

(* a call which, if it ends, leaves the state as it was *)
Definition pure {V A} (m : M (coll V * world) A) : Prop :=
  forall s, match m s with Ok s' _ => s' = s | Exn s' _ => s' = s | UB => True end.

Section Pure.
Context {V : Type} {E : Env V}.
Notation CM := (M (coll V * world)).

Lemma pure_ret {A} (a : A) : pure (V := V) (ret a). Proof. intros s. reflexivity. Qed.
Lemma pure_ub {A} : pure (V := V) (A := A) ub. Proof. intros s. exact I. Qed.
Lemma pure_throw {A} e : pure (V := V) (A := A) (throw e). Proof. intros s. reflexivity. Qed.
Lemma pure_bind {A B} (m : CM A) (k : A -> CM B) : pure m -> (forall a, pure (k a)) -> pure (bind m k).
Proof.
  intros H K s. unfold bind. specialize (H s). destruct (m s) as [s' a|s' e|]; auto. subst s'. apply K.
Qed.
Lemma pure_getx {B} (k : coll V -> CM B) : (forall c, pure (k c)) -> pure (bind getx k).
Proof. intros K [c w]. unfold bind, getx. cbn. apply (K c). Qed.
Lemma node_upd_id (ns : list (node V)) i n : node_at ns i = Some n -> node_upd ns i (n_seg n) = ns.
Proof.
  induction ns as [|x ns IH]; simpl; [discriminate|]. destruct (Nat.eqb_spec (n_id x) i).
  - intros Q. inversion Q; subst. destruct n; auto.
  - intros Q. rewrite IH; auto.
Qed.
Lemma pure_on_seg {A} i (f : segment V -> A) : pure (on_seg i (s <- getx ;; ret (f s))).
Proof.
  intros [c w]. unfold on_seg. destruct (node_at (c_nodes c) i) as [n|] eqn:Hn; auto.
  unfold bind, getx, ret. cbn. rewrite (node_upd_id _ _ _ Hn). destruct c; auto.
Qed.
Lemma pure_by_info a : pure (V := V) (map_iterator_by_info a).
Proof. apply pure_getx. intros c. destruct (tim_find_const c a); [apply pure_ret|apply pure_throw]. Qed.

Lemma pure_ask q : pure (V := V) (ask q).
Proof.
  assert (L : forall A (f : coll V -> A), pure (look f)) by (intros; apply pure_getx; intros; apply pure_ret).
  assert (O : forall A (f : coll V -> option A), pure (look_opt f)).
  { intros. apply pure_getx. intros c. destruct (f c); [apply pure_ret|apply pure_ub]. }
  assert (B : forall A (f : segment V -> A) a, pure (by_info f a)).
  { intros. apply pure_bind; [apply pure_by_info|]. intros i. apply pure_on_seg. }
  assert (W : forall A (k : A -> answer V) m, pure m -> pure (as_answer k m)).
  { intros. apply pure_bind; auto. intros; apply pure_ret. }
  destruct q; apply W; first [apply L|apply O|apply B|idtac];
    (apply pure_bind; [apply pure_by_info|]; intros i; first [apply pure_ret|
     apply pure_bind; [apply pure_on_seg|]; intros; apply pure_ret]).
Qed.
End Pure.

(** Whatever a reader asks, even of a collection damaged by an exception: if there is an answer
    (or an exception), then the collection, including its lookup structures, and everything else
    are exactly as before. *)
Theorem C66_reads_change_nothing {V} {E : Env V} (c : coll V) w q s' :
  (exists a, ask q (c, w) = Ok s' a) \/ (exists e, ask q (c, w) = Exn s' e) -> s' = (c, w).
Proof.
  intros [(a & Q)|(e & Q)]; pose proof (pure_ask (E := E) q (c, w)) as P; rewrite Q in P; exact P.
Qed.
Example C66_reads_change_nothing_ex lay : let E := dE lay in
  ask (SizeOf 10) (dc lay, dw lay) = Ok (dc lay, dw lay) (Nat 3) /\
  ask (SizeOf 50) (dc lay, dw lay) = Exn (dc lay, dw lay) (UnregisteredType 5) /\
  ask (Deref (it_at (dc lay) 2 1)) (dc lay, dw lay) = Ok (dc lay, dw lay) (Elem (2, 9)).
Proof. demo lay. Qed.

(** Questions put with valid iterators: the iterators which are dereferenced or incremented refer
    to elements, segment descriptors to segments, and those converted are in their segment. *)
Definition proper {V} {E : Env V} (c : coll V) (q : question) : Prop :=
  match q with
  | InfoType i | InfoBegin i | InfoEnd i => exists t, describes c i t
  | TravNext m => exists t, describes c (trav_deref m) t
  | Deref it | Next it => exists t k, points c it t k
  | LDeref l | LNext l => exists t k, lpoints c l t k /\ k < length (elems c t)
  | ToConc l | ToBase l => exists t k, lpoints c l t k
  | _ => True
  end.

(** Such questions always have an answer or throw unregistered_type; so do readers which ask
    nothing else. *)
Theorem C66_defined {V} {E : Env V} w c g d q : reach w (c :: g) d -> proper c q ->
  (exists a, ask q (c, w) = Ok (c, w) a) \/ (exists t, ask q (c, w) = Exn (c, w) (UnregisteredType t)).
Proof.
  intros H P.
  assert (W : forall A (k : A -> answer V) (m : M (coll V * world) A), pure m ->
      wp m (c, w) (fun _ _ => True) (fun _ e => exists t, e = UnregisteredType t) ->
      (exists a, as_answer k m (c, w) = Ok (c, w) a) \/ (exists t, as_answer k m (c, w) = Exn (c, w) (UnregisteredType t))).
  { intros A k m Pm Q. unfold as_answer, bind, wp in *. specialize (Pm (c, w)).
    destruct (m (c, w)) as [s a|s e|]; [left; subst s; eexists; reflexivity|right|destruct Q]. destruct Q as (t & ->). subst s. eexists. reflexivity. }
  assert (L : forall A (k : A -> answer V) (f : coll V -> A), exists a, as_answer k (look f) (c, w) = Ok (c, w) a).
  { intros A k f. exists (k (f c)). reflexivity. }
  assert (O : forall A (k : A -> answer V) (f : coll V -> option A) x, f c = Some x -> exists a, as_answer k (look_opt f) (c, w) = Ok (c, w) a).
  { intros A k f x Q. exists (k x). unfold as_answer, look_opt, bind, getx. cbn. rewrite Q. reflexivity. }
  assert (B : forall A (k : A -> answer V) (f : segment V -> A) a, 
      (exists x, as_answer k (by_info f a) (c, w) = Ok (c, w) x) \/ (exists t, as_answer k (by_info f a) (c, w) = Exn (c, w) (UnregisteredType t))).
  { intros A k f a. apply W.
    - apply pure_bind; [apply pure_by_info|]. intros i. apply pure_on_seg.
    - eapply wp_by_info; eauto. }
  assert (M : forall it, (exists t k, points c it t k) -> (exists x, it_deref c it = Some x) /\ exists x, it_next c it = Some x).
  { intros it (t & k & Pt). destruct (C04_normalised w c g d it _ H (points_located _ _ _ _ Pt)) as [(Hi & -> & (it' & Q & _))|(_ & Q)].
    - split; [|eauto]. destruct (nth_error (flat c) (offset (content c) t + k)) eqn:Hv; eauto. apply nth_error_None in Hv. lia.
    - destruct Pt as (n & _ & _ & Qi & _). rewrite Q in Qi. discriminate. }
  destruct q; cbn [ask proper] in *; try (left; apply L); try apply B.
  - pose proof (pure_ask (BeginOf a) (c, w)) as Pa. cbn [ask] in Pa. apply W.
    + apply pure_bind; [apply pure_by_info|]. intros i. apply pure_bind; [apply pure_on_seg|]. intros; apply pure_ret.
    + eapply wp_c_begin_of; eauto.
  - apply W.
    + apply pure_bind; [apply pure_by_info|]. intros i. apply pure_bind; [apply pure_on_seg|]. intros; apply pure_ret.
    + eapply wp_c_end_of; eauto.
  - apply W.
    + apply pure_bind; [apply pure_by_info|]. intros i. apply pure_ret.
    + unfold c_segment. apply wp_bind. destruct (reach_wf _ _ _ _ H) as (Wf & _).
      eapply (wp_map_iterator_by_info a c w); [apply Wf| |eauto]. intros. apply wp_ret. auto.
  - destruct P as (t & [(a & Q & _) _ _ _ _ _ _]). left. eapply O; eauto.
  - destruct P as (t & [_ (m & p & Q & _) _ _ _ _ _]). left. eapply O; eauto.
  - destruct P as (t & [_ _ (m & p & Q & _) _ _ _ _]). left. eapply O; eauto.
  - destruct P as (t & [(a & Q & _) _ _ _ _ _ _]). left. unfold trav_deref, inf_type, inf_node in Q. cbn [inf_map] in Q.
    destruct m as [i|]; [|discriminate]. destruct (node_at (c_nodes c) i) as [n|] eqn:Hn; [|discriminate].
    assert (exists r, nodes_from (c_nodes c) i = Some (n :: r)) as (r & Hr).
    { clear - Hn. induction (c_nodes c) as [|x l IH]; simpl in *; [discriminate|].
      destruct (n_id x =? i); [inversion Hn; subst; eauto|auto]. }
    eapply (O _ _ _ (match r with [] => None | n' :: _ => Some (n_id n') end)). unfold trav_next. rewrite Hr. destruct r; reflexivity.
  - left. destruct (M it P) as ((x & Q) & _). eapply O; eauto.
  - left. destruct (M it P) as (_ & (x & Q)). eapply O; eauto.
  - destruct P as (t & k & P & Hk). left. destruct (nth_error (elems c t) k) as [v|] eqn:Hv; [|apply nth_error_None in Hv; lia].
    eapply O. rewrite (li_deref_spec w c g d l t k H P), Hv. reflexivity.
  - destruct P as (t & k & P & Hk). left. destruct (lpoints_unpack _ _ _ _ _ _ _ H P) as (n & Hin & Hat & Hid & Et & Ws & El & Hkn & Hp).
    assert (Hlt : k <? be_size (sg_be (n_seg n)) = true).
    { apply Nat.ltb_lt. rewrite El, n_elems_length in Hk. exact Hk. }
    destruct Hp as [Hp|Hp].
    + eapply O. unfold li_next. rewrite Hat, Hp, be_ptr_eq. cbn [fst snd]. rewrite Hlt. reflexivity.
    + eapply O. unfold li_next. rewrite Hat, Hp. unfold vptr. cbn [fst snd]. rewrite Hlt. reflexivity.
  - destruct P as (t & k & P). left. destruct (li_to_conc_spec _ _ _ _ _ _ _ H P) as (q & Q & _). eapply O; eauto.
  - destruct P as (t & k & P). left. destruct (li_to_base_spec _ _ _ _ _ _ _ H P) as (q & Q & _). eapply O; eauto.
Qed.
Example C66_defined_ex lay : let E := dE lay in
  reach (dw lay) [dc lay; dx lay] [] /\ proper (dc lay) (Next (it_at (dc lay) 4 0)) /\
  proper (dc lay) (LDeref (li_conc (dc lay) 1 2)) /\ proper (dc lay) (ToConc (li_base (dc lay) 3 0)) /\
  (exists i, ask (Segment 20) (dc lay, dw lay) = Ok (dc lay, dw lay) (Info i) /\ proper (dc lay) (InfoEnd i)).
Proof.
  cbv zeta. csplit; [apply d_reach|exists 4, 0; demo_fact lay|exists 1, 2; split; demo_fact lay|exists 3, 0; demo_fact lay|].
  destruct (node_of (dc lay) 2) as [n|] eqn:Q; [|exfalso; revert Q; destruct lay; vm_compute; discriminate].
  pose proof Q as Q'. apply find_some in Q'. destruct Q' as (Hin & Et). apply Nat.eqb_eq in Et.
  exists (mkinfo (Some (n_id n))). split.
  - revert Q. destruct lay; vm_compute; intros Q; inversion Q; reflexivity.
  - exists (n_ty n). eapply describes_node; [apply d_reach|exact Hin].
Qed.

Lemma turn_same {V} {E : Env V} (r : reader) h s s' h' : turn r h s = Some (s', h') -> s' = s.
Proof.
  unfold turn. destruct (r h) as [q|]; [|congruence]. pose proof (pure_ask q s) as P.
  destruct (ask q s); congruence.
Qed.
Lemma alone_same {V} {E : Env V} n (r : reader) h s s' h' : alone n r h s = Some (s', h') -> s' = s.
Proof.
  revert h s. induction n as [|n IH]; simpl; intros h s; [congruence|].
  destruct (turn r h s) as [[s1 h1]|] eqn:T; [|discriminate]. pose proof (turn_same _ _ _ _ _ T). subst. apply IH.
Qed.

(* with any answers so far *)
Lemma together_spec {V} {E : Env V} s sched : forall rs : list (reader * list (answer V)),
  (forall i r h n, nth_error rs i = Some (r, h) -> alone n r h s <> None) ->
  exists rs', together sched rs s = Some (s, rs') /\ length rs' = length rs /\
    forall i r h, nth_error rs i = Some (r, h) ->
      exists h', alone (count_occ Nat.eq_dec sched i) r h s = Some (s, h') /\ nth_error rs' i = Some (r, h').
Proof.
  induction sched as [|j sched IH]; intros rs A; simpl.
  - exists rs. csplit; auto. intros i r h Q. exists h. auto.
  - destruct (nth_error rs j) as [[r h]|] eqn:Hj.
    2:{ destruct (IH rs A) as (rs' & T & Ln & K). exists rs'. csplit; auto. intros i r h Q.
        destruct (Nat.eq_dec j i) as [->|]; [congruence|]. apply K; auto. }
    pose proof (A j r h 1 Hj) as A1. simpl in A1.
    destruct (turn r h s) as [[s1 h1]|] eqn:T; [|congruence]. pose proof (turn_same _ _ _ _ _ T) as ->.
    assert (Lj : j < length rs) by (apply nth_error_Some; congruence).
    set (rs1 := firstn j rs ++ (r, h1) :: skipn (S j) rs).
    assert (N : forall i, nth_error rs1 i = if Nat.eq_dec j i then Some (r, h1) else nth_error rs i).
    { intros i. unfold rs1. destruct (Nat.eq_dec j i) as [<-|Ne].
      - rewrite nth_error_app2; rewrite firstn_length_le by lia; [rewrite Nat.sub_diag; reflexivity|lia].
      - destruct (Nat.lt_ge_cases i j) as [Hl|Hl].
        + rewrite nth_error_app1 by (rewrite firstn_length_le; lia). rewrite <- (firstn_skipn j rs) at 2.
          rewrite nth_error_app1 by (rewrite firstn_length_le; lia). reflexivity.
        + rewrite nth_error_app2; rewrite firstn_length_le by lia; [|lia].
          destruct (i - j) as [|k] eqn:Qk; [lia|]. simpl. rewrite <- (firstn_skipn (S j) rs) at 2.
          rewrite nth_error_app2; rewrite firstn_length_le by lia; [|lia]. f_equal. lia. }
    destruct (IH rs1) as (rs' & T' & Ln & K).
    { intros i r' h' n. rewrite N. destruct (Nat.eq_dec j i) as [<-|]; [|apply A].
      intros Q. inversion Q; subst. specialize (A j r' h (S n) Hj). simpl in A. rewrite T in A. exact A. }
    exists rs'. csplit; auto.
    + rewrite Ln. unfold rs1. rewrite app_length, firstn_length_le by lia. cbn [length]. rewrite skipn_length. lia.
    + intros i r' h' Q. destruct (Nat.eq_dec j i) as [<-|Ne].
      * rewrite Hj in Q. inversion Q; subst. simpl. rewrite T. apply K. rewrite N. destruct (Nat.eq_dec j j); congruence.
      * apply K. rewrite N. destruct (Nat.eq_dec j i); congruence.
Qed.

(** Any number of readers use a collection at the same time, taking turns in any order.  If none of
    them would use an invalid iterator when running alone, then nothing undefined happens, the
    collection is not changed, and each reader gets exactly the answers which it would have got
    running alone for as many steps. *)
Theorem C66_concurrent_readers {V} {E : Env V} (c : coll V) w (rs : list reader) sched :
  (forall r n, In r rs -> alone n r [] (c, w) <> None) ->
  exists rs', together sched (map (fun r => (r, [])) rs) (c, w) = Some ((c, w), rs') /\
    forall i r, nth_error rs i = Some r ->
      exists h, nth_error rs' i = Some (r, h) /\
        alone (count_occ Nat.eq_dec sched i) r [] (c, w) = Some ((c, w), h).
Proof.
  intros A. destruct (together_spec (c, w) sched (map (fun r => (r, [])) rs)) as (rs' & T & _ & K).
  - intros i r h n Q. rewrite nth_error_map in Q. destruct (nth_error rs i) as [r'|] eqn:Hi; [|discriminate].
    inversion Q; subst. apply A. eapply nth_error_In; eauto.
  - exists rs'. split; auto. intros i r Hi. destruct (K i r []) as (h & Q & N); [rewrite nth_error_map, Hi; reflexivity|].
    exists h. auto.
Qed.

(** A reader which only puts questions with valid iterators never runs into undefined behaviour. *)
Theorem C66_proper_readers {V} {E : Env V} w c g d (r : reader) n : reach w (c :: g) d ->
  (forall h q, r h = Some q -> proper c q) -> alone n r [] (c, w) <> None.
Proof.
  intros H P. generalize (@nil (answer V)). induction n as [|n IH]; intros h; simpl; [congruence|].
  unfold turn. destruct (r h) as [q|] eqn:Q; [|apply IH].
  destruct (C66_defined w c g d q H (P h q Q)) as [(a & ->)|(t & ->)]; apply IH.
Qed.

(* readers with a list of questions, one of which makes the library throw *)
Definition meter {V} {E : Env V} (q : list question) : reader := fun h : list (answer V) => nth_error q (length h).
Lemma meter_asks {V} {E : Env V} (qs : list question) (c : coll V) : Forall (proper c) qs ->
  forall h q, meter qs h = Some q -> proper c q.
Proof. intros F h q Q. apply nth_error_In in Q. rewrite Forall_forall in F. auto. Qed.
Example C66_proper_readers_ex lay : let E := dE lay in
  let r := meter [Size; SizeOf 10; EmptyOf 50; CapacityOf 20] in
  reach (dw lay) [dc lay; dx lay] [] /\ (forall h q, r h = Some q -> proper (dc lay) q) /\
  exists h, alone 4 r [] (dc lay, dw lay) = Some ((dc lay, dw lay), h) /\ length h = 4 /\
    nth_error h 0 = Some (Nat 6) /\ nth_error h 2 = Some (Threw (UnregisteredType 5)).
Proof.
  cbv zeta. csplit; [apply d_reach|apply meter_asks; repeat constructor|].
  destruct lay; eexists; (split; [vm_compute; reflexivity|csplit; vm_compute; reflexivity]).
Qed.
Example C66_concurrent_readers_ex lay : let E := dE lay in
  let rs := [meter [Size; SizeOf 10; EmptyOf 50; CapacityOf 20]; meter [Empty; EndOf 20; Begin]] in
  (forall r n, In r rs -> alone n r [] (dc lay, dw lay) <> None) /\
  count_occ Nat.eq_dec [1; 0; 0; 1; 0; 1] 0 = 3.
Proof.
  cbv zeta. split; [|reflexivity]. intros r n [<-|[<-|[]]];
  (eapply C66_proper_readers; [apply d_reach|apply meter_asks; repeat constructor]).
Qed.

(** A reader which goes through the collection with an iterator, as a for loop does: it asks for
    end() and begin(), and then in turn for the element and the next position until it reaches the
    end. *)
Definition walker {V} {E : Env V} : reader := fun h : list (answer V) =>
  match h with
  | [] => Some End
  | [_] => Some Begin
  | Pos e :: _ =>
      match rev h with
      | Pos it :: _ => if it_eq it e then None else Some (Deref it)
      | Elem _ :: Pos it :: _ => Some (Next it)
      | _ => None
      end
  | _ => None
  end.
Definition seen {V} (h : list (answer V)) : list (tyid * V) :=
  flat_map (fun a => match a with Elem x => [x] | _ => [] end) h.

Lemma walker_pos {V} {E : Env V} e x (l : list (answer V)) :
  walker (Pos e :: l ++ [x]) = match x with
    | Pos it => if it_eq it e then None else Some (Deref it)
    | Elem _ => match rev (Pos e :: l) with Pos it :: _ => Some (Next it) | _ => None end
    | _ => None end.
Proof.
  unfold walker. destruct (l ++ [x]) as [|y l'] eqn:Q; [destruct l; discriminate|]. rewrite <- Q.
  change (Pos e :: l ++ [x]) with ((Pos e :: l) ++ [x]). rewrite rev_app_distr. simpl. destruct x; auto.
Qed.

Lemma walker_alone {V} {E : Env V} w c g d : reach w (c :: g) d -> forall n i it l,
  located c it i -> let h0 := Pos (c_end c) :: l ++ [Pos it] in
  exists h', alone n walker h0 (c, w) = Some ((c, w), h') /\
    (exists k, seen h' = seen h0 ++ firstn k (skipn i (flat c))) /\
    (2 * (length (flat c) - i) <= n -> seen h' = seen h0 ++ skipn i (flat c)).
Proof.
  intros H. induction n as [n IH] using lt_wf_ind. intros i it l L h0.
  pose proof (walker_pos (c_end c) (Pos it) l) as Wk. fold h0 in Wk. cbv match in Wk.
  destruct (C04_normalised w c g d it i H L) as [(Hi & Hd & it' & Hn & L')|(-> & ->)].
  - assert (Ne : it_eq it (c_end c) = false).
    { destruct (it_eq it (c_end c)) eqn:Q; auto. exfalso.
      apply (proj1 (C04_equality w c g d _ _ _ _ H L (end_located c))) in Q. lia. }
    rewrite Ne in Wk. destruct (nth_error (flat c) i) as [x|] eqn:Hx; [|apply nth_error_None in Hx; lia].
    assert (Sk : skipn i (flat c) = x :: skipn (S i) (flat c)).
    { destruct (nth_error_split _ _ Hx) as (l1 & l2 & -> & <-). rewrite !skipn_app, !skipn_all, Nat.sub_diag.
      replace (S (length l1) - length l1) with 1 by lia. rewrite (skipn_all2 l1) by lia. reflexivity. }
    destruct n as [|n].
    + exists h0. csplit; [reflexivity| |lia]. exists 0. rewrite app_nil_r. reflexivity.
    + set (h1 := Pos (c_end c) :: (l ++ [Pos it]) ++ [Elem x]).
      assert (T1 : turn walker h0 (c, w) = Some ((c, w), h1)).
      { unfold turn. rewrite Wk. cbn [ask]. unfold as_answer, look_opt, bind, getx. cbn. rewrite Hd. reflexivity. }
      cbn [alone]. rewrite T1. destruct n as [|n].
      * exists h1. csplit; auto; [|lia]. exists 1. rewrite Sk. unfold h1, h0, seen. cbn [flat_map app]. rewrite flat_map_app. reflexivity.
      * set (h2 := Pos (c_end c) :: ((l ++ [Pos it]) ++ [Elem x]) ++ [Pos it']).
        assert (T2 : turn walker h1 (c, w) = Some ((c, w), h2)).
        { unfold turn. assert (walker h1 = Some (Next it)) as ->.
          { unfold h1. rewrite walker_pos. change (Pos (c_end c) :: l ++ [Pos it]) with ((Pos (c_end c) :: l) ++ [Pos it]).
            rewrite rev_app_distr. reflexivity. }
          cbn [ask]. unfold as_answer, look_opt, bind, getx. cbn. rewrite Hn. reflexivity. }
        cbn [alone]. rewrite T2. destruct (IH n ltac:(lia) (S i) it' ((l ++ [Pos it]) ++ [Elem x]) L') as (h' & Q & (k' & S1) & S2).
        fold h2 in Q, S1, S2.
        assert (Se : seen h2 = seen h0 ++ [x]).
        { unfold h2, h0, seen. cbn [flat_map app]. rewrite !flat_map_app. simpl. rewrite !app_nil_r. reflexivity. }
        exists h'. csplit; auto.
        -- exists (S k'). rewrite S1, Se, Sk, <- app_assoc. reflexivity.
        -- intros Hb. rewrite S2, Se, Sk, <- app_assoc by lia. reflexivity.
  - assert (Z : forall m, alone m walker h0 (c, w) = Some ((c, w), h0)).
    { assert (Q : walker h0 = None). { rewrite Wk. reflexivity. }
      induction m as [|m IHm]; auto. cbn [alone]. unfold turn. rewrite Q. exact IHm. }
    exists h0. csplit; auto; rewrite skipn_all; [exists 0|]; rewrite ?firstn_nil, app_nil_r; reflexivity.
Qed.

(** Iterating over the collection while others read it meets the elements in order, each once; all
    of them after enough turns. *)
Theorem C66_traversal_among_readers {V} {E : Env V} w c g d (rs : list reader) sched i :
  reach w (c :: g) d -> (forall r n, In r rs -> alone n r [] (c, w) <> None) -> nth_error rs i = Some walker ->
  exists rs' h, together sched (map (fun r => (r, [])) rs) (c, w) = Some ((c, w), rs') /\ nth_error rs' i = Some (walker, h) /\
    (exists k, seen h = firstn k (flat c)) /\
    (2 + 2 * length (flat c) <= count_occ Nat.eq_dec sched i -> seen h = flat c).
Proof.
  intros H A Hi. destruct (C66_concurrent_readers c w rs sched A) as (rs' & T & K). destruct (K i walker Hi) as (h & N & Q).
  exists rs', h. do 2 (split; [auto|]). clear - H Q.
  destruct (count_occ Nat.eq_dec sched i) as [|[|n]]; simpl in Q.
  - inversion Q; subst. split; [exists 0; reflexivity|lia].
  - inversion Q; subst. split; [exists 0; reflexivity|lia].
  - destruct (walker_alone w c g d H n 0 (c_begin c) [] (begin_located _ _ _ _ H)) as (h' & Q' & (k & S1) & S2).
    cbn [app] in Q'. rewrite Q in Q'. inversion Q'; subst. split; [exists k; exact S1|].
    intros Hb. apply S2. lia.
Qed.
Lemma walker_defined {V} {E : Env V} w c g d n : reach w (c :: g) d -> alone n (walker (V := V)) [] (c, w) <> None.
Proof.
  intros H. destruct n as [|[|n]]; try discriminate.
  destruct (walker_alone w c g d H n 0 (c_begin c) [] (begin_located _ _ _ _ H)) as (h' & Q' & _).
  intros Q. cbn [app] in Q'. change (alone n walker [Pos (c_end c); Pos (c_begin c)] (c, w) = None) in Q. congruence.
Qed.
(* two readers traverse, a third asks for sizes *)
Example C66_traversal_among_readers_ex lay : let E := dE lay in
  let rs := [walker; meter [Size; SizeOf 10; EmptyOf 50; CapacityOf 20]; walker] in
  reach (dw lay) [dc lay; dx lay] [] /\ (forall r n, In r rs -> alone n r [] (dc lay, dw lay) <> None) /\
  nth_error rs 2 = Some walker /\ length (flat (dc lay)) = 6 /\
  2 + 2 * 6 <= count_occ Nat.eq_dec (concat (repeat [0; 2; 1; 2; 0] 7)) 2.
Proof.
  cbv zeta. csplit; [apply d_reach| |reflexivity|demo_fact lay|vm_compute; lia].
  intros r n [<-|[<-|[<-|[]]]]; [eapply walker_defined; apply d_reach| |eapply walker_defined; apply d_reach].
  eapply C66_proper_readers; [apply d_reach|]. intros h q Q. unfold meter in Q.
  destruct (length h) as [|[|[|[|k]]]]; simpl in Q; try (inversion Q; exact I). destruct k; discriminate.
Qed.

Print Assumptions C66_reads_change_nothing.
Print Assumptions C66_defined.
Print Assumptions C66_concurrent_readers.
Print Assumptions C66_proper_readers.
Print Assumptions C66_traversal_among_readers.
