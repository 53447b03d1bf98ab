(** * Cost of the insertion of ranges: with hints, from other collections, of local iterators *)

From Coq Require Import List Arith Lia Bool Permutation.
From Verif Require Import Base Vec Backend Segment Coll Spec Reach ProofBase ProofVec ProofBackend ProofOps ProofSeg ProofMap ProofView ProofColl
  ProofRange ProofReach ProofObs ProofProp ProofProp2 ProofProp3 ProofProp4 ProofProp5 ProofGrow ProofIns ProofCost ProofCost2 ProofCost3 ProofCost4 ProofCost5
  ProofCost6 Demo Properties16.
Import ListNotations.

Section Cost7.
Context {V : Type} {E : Env V}.
Notation CW := (coll V * world)%type.

(** ** insert(hint,first,last) *)

(** One element: the new hint *)
Definition hint_step (hint : iter) (x : arg V) : M CW iter :=
  (i <- map_iterator_for x ;;
   b <- same_node (it_map hint) i ;;
   if b : bool then
     p <- on_seg i (seg_insert (env_ty (a_dyn x)) (a_how x) (PBase (it_pos hint)) (a_src x)) ;;
     h <- mk_iter (Some i) p ;;
     c <- getx ;;
     match it_next c h with
     | Some h' => ret h'
     | None => ub
     end
   else
     on_seg i (seg_push_back (env_ty (a_dyn x)) (a_how x) (a_src x)) ;; ret hint)%mon.

Lemma hint_range_step hint x xs s : c_insert_hint_range hint (x :: xs) s = bind (hint_step hint x) (fun h' => c_insert_hint_range h' xs) s.
Proof.
  cbn [c_insert_hint_range]. unfold hint_step, bind. destruct (map_iterator_for x s) as [s1 i|s1 e|]; auto.
  destruct (same_node _ i s1) as [s2 [|]|s2 e|]; auto.
  - destruct (on_seg _ _ s2) as [s3 p|s3 e|]; auto. destruct (mk_iter _ p s3) as [s4 h|s4 e|]; auto. unfold getx. destruct (it_next _ h); auto.
  - destruct (on_seg _ _ s2) as [s3 p|s3 e|]; auto.
Qed.
Lemma mk_iter_state m p (s s' : CW) it : mk_iter m p s = Ok s' it -> s' = s.
Proof. unfold mk_iter, bind, getx, ret, ub. destruct (it_make _ _ _); intros Q; inversion Q; auto. Qed.
Lemma mk_iter_quiet m p (s s' : CW) e : mk_iter m p s = Exn s' e -> False.
Proof. unfold mk_iter, bind, getx, ret, ub. destruct (it_make _ _ _); discriminate. Qed.
Lemma hint_step_insert hint x s it s1 : c_insert_hint hint x s = Ok s1 it -> forall s2 h, hint_step hint x s = Ok s2 h -> s2 = s1.
Proof.
  unfold c_insert_hint, hint_step, bind. destruct (map_iterator_for x s) as [t1 i|t1 e|]; try discriminate.
  destruct (same_node _ i t1) as [t2 [|]|t2 e|]; try discriminate.
  - destruct (on_seg _ _ t2) as [t3 p|t3 e|]; try discriminate. destruct (mk_iter _ p t3) as [t4 h|t4 e|] eqn:Q; try discriminate.
    intros J s2 h2. inversion J; subst. unfold getx. destruct (it_next _ it); unfold ret, ub; intros J2; inversion J2; auto.
  - destruct (on_seg _ _ t2) as [t3 p|t3 e|]; try discriminate. intros J s2 h2 J2. apply mk_iter_state in J. inversion J2; subst. auto.
Qed.
Lemma hint_step_exn hint x s s1 e : hint_step hint x s = Exn s1 e -> c_insert_hint hint x s = Exn s1 e.
Proof.
  unfold c_insert_hint, hint_step, bind. destruct (map_iterator_for x s) as [t1 i|t1 e1|]; auto; try discriminate.
  destruct (same_node _ i t1) as [t2 [|]|t2 e2|]; auto; try discriminate.
  - destruct (on_seg _ _ t2) as [t3 p|t3 e3|]; auto; try discriminate. destruct (mk_iter _ p t3) as [t4 h|t4 e4|] eqn:Q; auto; try discriminate.
    unfold getx. destruct (it_next _ h); discriminate.
  - destruct (on_seg _ _ t2) as [t3 p|t3 e3|]; auto; discriminate.
Qed.

(** the hint after an element of type [t] *)
Definition moved_on (h : option (tyid * nat)) (t : tyid) : option (tyid * nat) :=
  match h with Some (t0, k) => if t0 =? t then Some (t0, S k) else h | None => None end.

Lemma wp_hint_one w c g d hint h x t v : reach w (c :: g) d -> hint_is c hint h -> gives x (t, v) -> hsafe h c [(t, v)] ->
  wp (hint_step hint x) (c, w) (fun '(c1, w1) h1 => grew h c c1 [(t, v)] /\ hint_is c1 h1 (moved_on h t)) (fun _ _ => True).
Proof.
  intros H Hi (Et & Es & Ok) Sf. cbn [fst snd] in *. subst t. destruct (reach_wf _ _ _ _ H) as (W & O).
  unfold hint_step. rewrite Es. apply wp_bind. eapply (wp_map_iterator_for x c w _ _); eauto; [apply W|].
  intros w1 c1 n M _.
  eapply (wp_hint_step (fun _ _ => True) h [] [] hint (a_dyn x) (a_how x) v w c c w _ _ w1 c1 n (fun h' => ret h')); eauto.
  - eapply hint_is_ok; eauto. apply W.
  - apply upto_refl; auto.
  - apply hint_is_hinv; auto.
  - intros w' c' hint' U Hi'. apply wp_ret. cbn [app] in *. split; [apply U|].
    destruct h as [[t0 k]|]; [|exact Hi']. cbn [hinv moved_on] in *. unfold of_type in Hi'. cbn [filter fst] in Hi'.
    rewrite (Nat.eqb_sym t0). destruct (_ =? t0); cbn [map length] in Hi'; cbn [hint_is].
    + replace (S k) with (k + 1) by lia. exact Hi'.
    + replace k with (k + 0) by lia. exact Hi'.
Qed.

Notation thirds := (env_layout = PackedLayout -> forall m, 4 * m <= 3 * env_grow m).

Lemma hint_of w c g d hint h t : reach w (c :: g) d -> hint_is c hint h ->
  (exists i, located c hint i) /\ hint_at c hint t (slot h c t) /\ slot h c t <= length (elems c t).
Proof.
  intros H Hi. destruct (reach_wf _ _ _ _ H) as (W & O). csplit.
  - eapply (hinv_located w c _ _ h []); eauto. apply hint_is_hinv; auto.
  - pose proof (hinv_at w c h w c _ _ [] hint t (upto_refl h w c _ _ W O) (proj1 (hint_is_hinv _ _ _) Hi)) as Q. cbn [of_type filter map length] in Q.
    rewrite Nat.add_0_r in Q. exact Q.
  - unfold slot. destruct h as [[t0 k]|]; auto. destruct (Nat.eqb_spec t0 t) as [->|]; auto. cbn [hint_is] in Hi.
    apply (points_elems _ _ _ _ _ (wc_map _ _ W)) in Hi. lia.
Qed.

Lemma hint_one_pays w c g d hint h x t v : thirds -> reach w (c :: g) d -> hint_is c hint h -> gives x (t, v) -> hsafe h c [(t, v)] -> far c t ->
  wp (hint_step hint x) (c, w) (fun '(c1, w1) h1 => reach w1 (c1 :: g) d /\ grew h c c1 [(t, v)] /\ hint_is c1 h1 (moved_on h t) /\
      w_work w1 + debt c1 <= w_work w + debt c + 65 + (length (elems c t) - slot h c t))
    (fun '(c1, w1) _ => w_work w1 <= w_work w + debt c + 65 + (length (elems c t) - slot h c t)).
Proof.
  intros G H Hi Gx Sf Fr. pose proof (wp_hint_one w c g d hint h x t v H Hi Gx Sf) as P. destruct Gx as (Et & Es & Ao). cbn [fst snd] in *.
  destruct (hint_of w c g d hint h t H Hi) as ((i & Lo) & Ha & Hk).
  assert (Hs : hint_safe c hint t).
  { destruct Sf as [->|[I|I]]; [left; exact Hi|right; left; apply I; left; auto|right; right; auto]. }
  assert (Hv : src_c c (env_ty (a_dyn x)) (a_how x) (a_src x) v) by (left; exact Es). subst t.
  pose proof (C64_insert_hint w c g d hint i (slot h c (env_ty (a_dyn x))) x v H Lo Ha Hs Ao Hv) as Wk. unfold within in Wk.
  unfold wp in P, Wk |- *. destruct (hint_step hint x (c, w)) as [[c1 w1] h1|[c1 w1] e|] eqn:Q; [|apply hint_step_exn in Q; rewrite Q in Wk|contradiction].
  - destruct (c_insert_hint hint x (c, w)) as [s1 it|s1 e|] eqn:J; [| |contradiction].
    + pose proof (hint_step_insert _ _ _ _ _ J _ _ Q). subst s1.
      assert (Jv : void (c_insert_hint hint x) (c, w) = Ok (c1, w1) tt) by (unfold void, bind; rewrite J; reflexivity).
      destruct (priced_pays w c g d _ _ w1 c1 H G (pr_insert_hint c hint i _ x v Lo Ha Hs Ao Hv Fr) Jv) as (R & B). csplit; auto; apply P.
    + exfalso. revert J Q. clear. unfold c_insert_hint, hint_step, bind. destruct (map_iterator_for x (c, w)) as [t1 i|t1 e1|]; try discriminate.
      destruct (same_node _ i t1) as [t2 [|]|t2 e2|]; try discriminate.
      * destruct (on_seg _ _ t2) as [t3 p|t3 e3|]; try discriminate. intros J. apply mk_iter_quiet in J. contradiction.
      * destruct (on_seg _ _ t2) as [t3 p|t3 e3|]; try discriminate. intros J. apply mk_iter_quiet in J. contradiction.
  - pose proof (insertion_debt w c g d (env_ty (a_dyn x)) H) as Ib. unfold insertion in *. destruct (_ <? _); lia.
Qed.

(** The elements of the type of the hint have those behind the hint to move. *)
Definition behind (h : option (tyid * nat)) (c : coll V) (l : list (tyid * V)) : nat :=
  match h with Some (t, k) => length (of_type t l) * (length (elems c t) - k) | None => 0 end.

Lemma of_type_cons (t u : tyid) (v : V) l : of_type t ((u, v) :: l) = if u =? t then v :: of_type t l else of_type t l.
Proof. unfold of_type. cbn [filter fst]. destruct (u =? t); reflexivity. Qed.

Lemma behind_cons h c c1 t v l : hint_ok h c -> grew h c c1 [(t, v)] ->
  behind h c ((t, v) :: l) = (length (elems c t) - slot h c t) + behind (moved_on h t) c1 l.
Proof.
  intros Ok Gw. destruct h as [[t0 k]|]; cbn [behind moved_on slot]; [|lia]. cbn [hint_ok] in Ok. rewrite of_type_cons, (Nat.eqb_sym t t0).
  assert (L : forall u, length (elems c1 u) = length (elems c u) + if t =? u then 1 else 0).
  { intros u. rewrite (g_elems _ _ _ _ Gw), of_type_cons. change (of_type u []) with (@nil V). rewrite !app_length, firstn_length, skipn_length. destruct (t =? u); cbn [length]; lia. }
  destruct (Nat.eqb_spec t0 t) as [->|Ne]; cbn [behind]; rewrite L.
  - rewrite Nat.eqb_refl. cbn [length]. replace (length (elems c t) + 1 - S k) with (length (elems c t) - k) by lia. lia.
  - destruct (Nat.eqb_spec t t0); [congruence|]. rewrite Nat.add_0_r, Nat.sub_diag. reflexivity.
Qed.

Lemma hint_range_pays xs : thirds -> forall w c g d hint h l, reach w (c :: g) d -> hint_is c hint h -> Forall2 gives xs l -> hsafe h c l ->
  (forall t, In t (map fst l) -> 3 * (length (elems c t) + length l) + 1 <= env_vmax t) ->
  wp (c_insert_hint_range hint xs) (c, w) (fun '(c', w') _ => w_work w' + debt c' <= w_work w + debt c + 65 * length xs + behind h c l)
    (fun '(c', w') _ => w_work w' <= w_work w + debt c + 65 * length xs + behind h c l).
Proof.
  intros G. induction xs as [|x xs IH]; intros w c g d hint h l H Hi F Sf Mx; inversion F as [|? [t v] ? l' Gx F']; subst.
  - cbn. lia.
  - cbn [map fst length] in *. destruct (reach_wf _ _ _ _ H) as (W & O). pose proof (hint_is_ok w c hint h (wc_map _ _ W) Hi) as Ok.
    assert (Sf1 : hsafe h c [(t, v)]).
    { destruct Sf as [->|[I|I]]; [left; auto|right; left; intros u [<-|[]]; apply I; left; auto|right; right; auto]. }
    assert (Fr : far c t) by (specialize (Mx t (or_introl eq_refl)); unfold far; lia).
    pose proof (hint_one_pays w c g d hint h x t v G H Hi Gx Sf1 Fr) as P.
    unfold wp. rewrite hint_range_step. unfold bind. unfold wp in P. destruct (hint_step hint x (c, w)) as [[c1 w1] h1|[c1 w1] e|]; [| |contradiction].
    + destruct P as (R & Gw & Hi1 & B).
      assert (Mx1 : forall u, In u (map fst l') -> 3 * (length (elems c1 u) + length l') + 1 <= env_vmax u).
      { intros u Hu. specialize (Mx u (or_intror Hu)). assert (length (elems c1 u) <= S (length (elems c u))); [|lia].
        rewrite (g_elems _ _ _ _ Gw), of_type_cons. change (of_type u []) with (@nil V). rewrite !app_length, firstn_length, skipn_length. destruct (t =? u); cbn [length]; lia. }
      assert (Sf2 : hsafe (moved_on h t) c1 l').
      { destruct Sf as [->|[I|I]]; [left; auto|right; left|right; right; auto]. intros u Hu. apply (g_types _ _ _ _ Gw). left. apply I. right. auto. }
      specialize (IH w1 c1 g d h1 (moved_on h t) l' R Hi1 F' Sf2 Mx1). rewrite (behind_cons h c c1 t v l' Ok Gw).
      unfold wp in IH. destruct (c_insert_hint_range h1 xs (c1, w1)) as [[c2 w2] []|[c2 w2] e|]; auto; lia.
    + assert (length (elems c t) - slot h c t <= behind h c ((t, v) :: l')); [|lia].
      destruct h as [[t0 k]|]; cbn [behind slot]; [|lia]. rewrite of_type_cons, (Nat.eqb_sym t t0). destruct (Nat.eqb_spec t0 t) as [->|]; cbn [length]; [rewrite Nat.mul_succ_l; apply Nat.le_add_l|rewrite Nat.sub_diag; apply Nat.le_0_l].
Qed.

(** ** Elements of another collection *)

(** the reference to an element with type_info [a] *)
Definition referring (a : tiaddr) (v : V) : arg V := mkarg a a true true HCopy (SVal v).
Lemma referring_gives a v : gives (referring a v) (env_ty a, v).
Proof. unfold gives, arg_ok. cbn. auto. Qed.

(** The loops over the elements of [y] are those over references to them. *)
Lemma from_as_range y wy Ry Ky fuel : wfc wy y -> cown wy y Ry Ky -> forall i j, i <= j -> j <= length (flat y) -> j - i <= fuel ->
  exists xs, Forall2 gives xs (slice i j (flat y)) /\
    (forall s, c_insert_range xs s <> UB -> c_insert_from fuel y (at_ (c_nodes y) i) (at_ (c_nodes y) j) s = c_insert_range xs s) /\
    (forall s hint, c_insert_hint_from fuel hint y (at_ (c_nodes y) i) (at_ (c_nodes y) j) s = c_insert_hint_range hint xs s).
Proof.
  intros Wy Oy. assert (Vo := wfc_vok _ _ _ _ Wy Oy). induction fuel as [|fuel IH]; intros i j Hij Hj Hf; rewrite flat_length in Hj.
  - assert (i = j) by lia. subst j. exists []. rewrite slice_nil. csplit; auto; intros; cbn [c_insert_from c_insert_hint_from]; rewrite it_eq_at, Nat.eqb_refl by (auto; lia); reflexivity.
  - destruct (Nat.eq_dec i j) as [<-|Ne].
    + exists []. rewrite slice_nil. csplit; auto; intros; cbn [c_insert_from c_insert_hint_from]; rewrite it_eq_at, Nat.eqb_refl by (auto; lia); reflexivity.
    + destruct (read_at _ _ _ _ i Wy Oy) as (a & v & N & D & T & Nx); [lia|].
      destruct (IH (S i) j) as (xs & F & Q1 & Q2); [lia|rewrite flat_length; lia|lia|].
      exists (referring a v :: xs). rewrite (slice_step i j _ (env_ty a, v)) by (auto; lia). csplit.
      * constructor; [apply referring_gives|exact F].
      * intros s Nu. cbn [c_insert_from]. rewrite it_eq_at by (auto; lia). rewrite (proj2 (Nat.eqb_neq i j)) by auto. rewrite D, T, Nx.
        cbn [c_insert_range] in *. unfold c_insert in *. change (map_iterator_for (referring a v)) with (map_iterator_for_proto a (env_ty a)) in *.
        cbn [a_dyn a_how a_src referring] in *. unfold bind at 1 in Nu. unfold bind at 1 in Nu. unfold bind at 1. unfold bind at 2. unfold bind at 2.
        destruct (map_iterator_for_proto a (env_ty a) s) as [s1 k|s1 e|]; auto. unfold bind at 1 in Nu. unfold bind at 1. unfold bind at 1.
        destruct (on_seg _ _ s1) as [s2 p|s2 e|]; auto. destruct (mk_iter (Some k) p s2) as [s3 it|s3 e|] eqn:Mk; [|apply mk_iter_quiet in Mk; contradiction|congruence].
        pose proof (mk_iter_state _ _ _ _ _ Mk). subst s3. apply Q1. exact Nu.
      * intros s hint. cbn [c_insert_hint_from]. rewrite it_eq_at by (auto; lia). rewrite (proj2 (Nat.eqb_neq i j)) by auto. rewrite D, T, Nx.
        cbn [c_insert_hint_range]. change (map_iterator_for (referring a v)) with (map_iterator_for_proto a (env_ty a)).
        cbn [a_dyn a_how a_src referring]. unfold bind. destruct (map_iterator_for_proto a (env_ty a) s) as [s1 k|s1 e|]; auto.
        destruct (same_node _ k s1) as [s2 [|]|s2 e|]; auto.
        -- destruct (on_seg _ _ s2) as [s3 p|s3 e|]; auto. destruct (mk_iter _ p s3) as [s4 h|s4 e|]; auto. unfold getx. destruct (it_next _ h); auto.
        -- destruct (on_seg _ _ s2) as [s3 p|s3 e|]; auto.
Qed.

(** ** Local iterators *)

Definition cached (c : coll V) (a : tiaddr) (i : nat) : Prop := cache_find (c_cache c) a = Some (Some i).

Lemma cached_find c a i w : cached c a i -> find_or_make a (c, w) = Ok (c, w) i.
Proof. intros H. unfold find_or_make, tim_find, bind, getx. cbn [fst]. rewrite H. reflexivity. Qed.
Lemma cached_seg {A} (m : M (segment V * world) A) a i j (s s1 : CW) p : cached (fst s) a i -> on_seg j m s = Ok s1 p -> cached (fst s1) a i.
Proof.
  unfold on_seg. destruct s as [c w]. destruct (node_at (c_nodes c) j) as [n|]; [|discriminate]. destruct (m (n_seg n, w)) as [[sg w'] b|[sg w'] e|]; try discriminate.
  intros H Q. inversion Q; subst. exact H.
Qed.
Lemma world_state {X B} (m : M world B) (s s' : X * world) b : on_world m s = Ok s' b -> fst s' = fst s.
Proof. unfold on_world. destruct (m (snd s)); intros H; inversion H; reflexivity. Qed.
Lemma cache_insert_cached a i (s s1 : CW) u : cache_find (c_cache (fst s)) a = None -> cache_insert a (Some i) s = Ok s1 u -> cached (fst s1) a i.
Proof.
  intros H. unfold cache_insert, bind. destruct (on_world _ s) as [s2 []|s2 e|] eqn:Q; try discriminate. apply world_state in Q. unfold getx.
  rewrite Q, H. unfold setx. intros J. inversion J; subst. unfold cached. cbn. rewrite Nat.eqb_refl. reflexivity.
Qed.
Lemma map_emplace_cache a sg (s s1 : CW) r : map_emplace a sg s = Ok s1 r -> c_cache (fst s1) = c_cache (fst s).
Proof.
  intros Q. unfold map_emplace in Q. unfold bind at 1, getx at 1 in Q. unfold bind at 1 in Q. destruct (on_world _ s) as [s2 sg2|s2 e|] eqn:Q1; try discriminate. apply world_state in Q1.
  destruct (map_find (c_nodes (fst s)) a) as [i|].
  - unfold bind at 1 in Q. destruct (on_world _ s2) as [s3 []|s3 e|] eqn:Q2; try discriminate. apply world_state in Q2. inversion Q; subst. congruence.
  - unfold bind at 1 in Q. destruct (on_world _ s2) as [s3 []|s3 e|] eqn:Q2; try discriminate. unfold bind at 1 in Q. destruct (on_world fresh s3) as [s4 i|s4 e|] eqn:Q3; try discriminate.
    unfold bind at 1 in Q. destruct (on_world clock s4) as [s5 clk|s5 e|] eqn:Q4; try discriminate. cbv zeta in Q. unfold bind at 1 in Q.
    match type of Q with match ?m s5 with _ => _ end = _ => destruct (m s5) as [s6 ns|s6 e|]; try discriminate end.
    unfold bind, setx, ret in Q. inversion Q; subst. reflexivity.
Qed.
Lemma proto_cached a pt (s s1 : CW) i : cache_find (c_cache (fst s)) a <> Some None -> map_iterator_for_proto a pt s = Ok s1 i -> cached (fst s1) a i.
Proof.
  intros N Q. unfold map_iterator_for_proto, tim_find in Q. unfold bind at 1 in Q. unfold bind at 1, getx at 1 in Q. cbn [fst snd] in Q.
  destruct (cache_find (c_cache (fst s)) a) as [[j|]|] eqn:C; [| |].
  - unfold ret in Q. inversion Q; subst. exact C.
  - exfalso; apply N; reflexivity.
  - destruct (map_find (c_nodes (fst s)) a) as [j|].
    + unfold bind at 1 in Q. destruct (cache_insert a (Some j) s) as [s2 []|s2 e|] eqn:J; try discriminate. apply cache_insert_cached in J; auto.
      unfold ret in Q. inversion Q; subst. exact J.
    + unfold ret at 1 in Q. unfold bind at 1, getx at 1 in Q. unfold bind at 1 in Q. destruct (on_world _ s) as [s2 sg|s2 e|] eqn:Q1; try discriminate. apply world_state in Q1.
      unfold bind at 1 in Q. destruct (tim_insert a sg s2) as [s3 m|s3 e|] eqn:Q2; try discriminate. destruct m as [j|]; [|discriminate]. unfold ret in Q. inversion Q; subst. clear Q.
      unfold tim_insert in Q2. unfold bind at 1, getx at 1 in Q2. unfold bind at 1 in Q2. destruct (map_emplace a sg s2) as [s4 r|s4 e|] eqn:Q3; try discriminate.
      apply map_emplace_cache in Q3. rewrite Q1 in Q3. unfold bind at 1, getx at 1 in Q2. unfold bind at 1 in Q2.
      match type of Q2 with match ?m s4 with _ => _ end = _ => destruct (m s4) as [s5 u|s5 e|] eqn:Q4; try discriminate end.
      assert (C5 : cache_find (c_cache (fst s5)) a = None).
      { destruct (_ =? _) in Q4.
        - unfold ret in Q4. inversion Q4; subst. congruence.
        - unfold rebuild_cache, modify in Q4. inversion Q4; subst. cbn [fst c_cache]. rewrite Q3. revert C. clear.
          induction (c_cache (fst s)) as [|[a' m'] l IH]; auto. cbn. destruct (a' =? a); [discriminate|auto]. }
      unfold bind at 1 in Q2. destruct (fst r) as [j|] eqn:Fr.
      * destruct (cache_insert a (Some j) s5) as [s6 []|s6 e|] eqn:Q5; try discriminate. apply cache_insert_cached in Q5; auto. unfold ret in Q2. inversion Q2; subst. exact Q5.
      * destruct (cache_insert a None s5) as [s6 []|s6 e|]; discriminate.
Qed.

Lemma push_all_range a i xs : forall s, cached (fst s) a i -> c_insert_range (map (referring a) xs) s <> UB ->
  push_all i (env_ty a) xs s = c_insert_range (map (referring a) xs) s.
Proof.
  induction xs as [|v xs IH]; intros [c w] C N; [reflexivity|]. cbn [push_all map c_insert_range] in *. unfold c_insert in *.
  change (map_iterator_for (referring a v)) with (find_or_make a) in *. unfold bind at 1. unfold bind at 1. unfold bind at 1. unfold bind at 1 in N. unfold bind at 1 in N.
  rewrite (cached_find c a i w C) in *. cbn [a_dyn a_how a_src referring] in *. unfold bind at 1. unfold bind at 1 in N.
  destruct (on_seg i _ (c, w)) as [s1 p|s1 e|] eqn:Q; auto. apply (cached_seg _ a i) in Q; auto.
  destruct (mk_iter (Some i) p s1) as [s2 it|s2 e|] eqn:Mk; [|apply mk_iter_quiet in Mk; contradiction|congruence].
  pose proof (mk_iter_state _ _ _ _ _ Mk). subst s2. apply IH; auto.
Qed.
Lemma local_as_range a xs s : cache_find (c_cache (fst s)) a <> Some None -> c_insert_range (map (referring a) xs) s <> UB ->
  c_insert_local a (env_ty a) xs s = c_insert_range (map (referring a) xs) s.
Proof.
  intros C N. destruct xs as [|v xs]; [reflexivity|]. cbn [c_insert_local map c_insert_range push_all] in *. unfold c_insert in *.
  change (map_iterator_for (referring a v)) with (map_iterator_for_proto a (env_ty a)) in *. cbn [a_dyn a_how a_src referring] in *.
  unfold bind at 1. unfold bind at 2. unfold bind at 2. unfold bind at 1 in N. unfold bind at 1 in N.
  destruct (map_iterator_for_proto a (env_ty a) s) as [s1 i|s1 e|] eqn:Q; auto. apply proto_cached in Q; auto.
  unfold bind at 1. unfold bind at 1. unfold bind at 1 in N.
  destruct (on_seg i _ s1) as [s2 p|s2 e|] eqn:J; auto. apply (cached_seg _ a i) in J; auto.
  destruct (mk_iter (Some i) p s2) as [s3 it|s3 e|] eqn:Mk; [|apply mk_iter_quiet in Mk; contradiction|congruence].
  pose proof (mk_iter_state _ _ _ _ _ Mk). subst s3. apply push_all_range; auto.
Qed.

(** with a hint in another segment *)
Lemma push_all_hint a i hint xs : match it_map hint with None => True | Some j => j <> i end -> forall s, cached (fst s) a i ->
  c_insert_hint_range hint (map (referring a) xs) s <> UB -> push_all i (env_ty a) xs s = c_insert_hint_range hint (map (referring a) xs) s.
Proof.
  intros D. induction xs as [|v xs IH]; intros [c w] C N; [reflexivity|]. cbn [push_all map c_insert_hint_range] in *.
  change (map_iterator_for (referring a v)) with (find_or_make a) in *. unfold bind at 1. unfold bind at 1. unfold bind at 1 in N.
  rewrite (cached_find c a i w C) in *. cbn [a_dyn a_how a_src referring] in *. unfold bind at 1. unfold bind at 1 in N.
  assert (Sn : same_node (it_map hint) i (c, w) = Ok (c, w) false \/ same_node (it_map hint) i (c, w) = UB).
  { unfold same_node. destruct (it_map hint) as [j|]; [|left; reflexivity]. unfold bind, getx. cbn [fst]. destruct (node_at _ j); [left|right; reflexivity].
    rewrite (proj2 (Nat.eqb_neq j i)) by auto. reflexivity. }
  destruct Sn as [Sn|Sn]; rewrite Sn in *; [|congruence]. unfold bind at 1. unfold bind at 1 in N.
  destruct (on_seg i _ (c, w)) as [s1 p|s1 e|] eqn:Q; auto. apply (cached_seg _ a i) in Q; auto.
Qed.

Lemma hint_step_reach w c g d hint h x t v c1 w1 h1 : reach w (c :: g) d -> hint_is c hint h -> gives x (t, v) -> hsafe h c [(t, v)] ->
  hint_step hint x (c, w) = Ok (c1, w1) h1 -> reach w1 (c1 :: g) d.
Proof.
  intros H Hi (Et & Es & Ao) Sf Q. cbn [fst snd] in *. destruct (hint_of w c g d hint h t H Hi) as ((i & Lo) & Ha & Hk).
  assert (Hs : hint_safe c hint t).
  { destruct Sf as [->|[I|I]]; [left; exact Hi|right; left; apply I; left; auto|right; right; auto]. }
  assert (Hv : src_c c (env_ty (a_dyn x)) (a_how x) (a_src x) v) by (left; exact Es). subst t.
  pose proof (spec_insert_hint w c g d hint i _ x v H Lo Ha Hs Ao Hv) as P. unfold wp in P.
  destruct (c_insert_hint hint x (c, w)) as [s1 it|s1 e|] eqn:J; [| |contradiction].
  - pose proof (hint_step_insert _ _ _ _ _ J _ _ Q). subst s1. eapply r_call; [exact H|eapply (api_insert_hint g c); eauto|].
    unfold void, bind. rewrite J. reflexivity.
  - exfalso. revert J Q. clear. unfold c_insert_hint, hint_step, bind. destruct (map_iterator_for x (c, w)) as [t1 i|t1 e1|]; try discriminate.
    destruct (same_node _ i t1) as [t2 [|]|t2 e2|]; try discriminate.
    + destruct (on_seg _ _ t2) as [t3 p|t3 e3|]; try discriminate. intros J. apply mk_iter_quiet in J. contradiction.
    + destruct (on_seg _ _ t2) as [t3 p|t3 e3|]; try discriminate. intros J. apply mk_iter_quiet in J. contradiction.
Qed.

(** the hint is in the segment the elements go to *)
Lemma cached_here w c g d a i hint k : reach w (c :: g) d -> cached c a i -> points c hint (env_ty a) k ->
  it_map hint = Some i /\ exists n, node_at (c_nodes c) i = Some n.
Proof.
  intros H C P. destruct (reach_wf _ _ _ _ H) as (W & O). destruct (wm_cache _ _ (wc_map _ _ W) _ _ C) as (j & Ej & Mf). inversion Ej; subst j.
  destruct (map_find_some _ _ _ Mf) as (n & Hin & <- & Ek).
  assert (Et : n_ty n = env_ty a) by (rewrite <- Ek; pose proof (wm_key _ _ (wc_map _ _ W)) as A; rewrite Forall_forall in A; symmetry; auto).
  destruct (points_here w c (env_ty a) k hint n (wc_map _ _ W) P Hin Et) as (_ & _ & Em). split; auto. exists n. apply node_at_some; auto. apply W.
Qed.

Lemma all_hint_range a i xs : forall w c g d hint k, reach w (c :: g) d -> points c hint (env_ty a) k -> cached c a i ->
  insert_all_hint hint i (env_ty a) xs (c, w) = c_insert_hint_range hint (map (referring a) xs) (c, w).
Proof.
  induction xs as [|v xs IH]; intros w c g d hint k H P C; [reflexivity|]. destruct (cached_here w c g d a i hint k H C P) as (Em & n & Hn).
  destruct (reach_wf _ _ _ _ H) as (W & O).
  assert (Ht : In (env_ty a) (types c)).
  { destruct (in_dec Nat.eq_dec (env_ty a) (types c)) as [Y|N]; auto. apply (points_elems _ _ _ _ _ (wc_map _ _ W)) in P.
    rewrite (elems_none c (env_ty a)) in P by (rewrite <- types_nodes; exact N). cbn in P. lia. }
  assert (Sf : hsafe (Some (env_ty a, k)) c [(env_ty a, v)]) by (right; left; intros u [<-|[]]; exact Ht).
  cbn [map]. rewrite hint_range_step. unfold bind at 1. cbn [insert_all_hint].
  pose proof (wp_hint_one w c g d hint (Some (env_ty a, k)) (referring a v) (env_ty a) v H P (referring_gives a v) Sf) as Q.
  pose proof (hint_step_reach w c g d hint (Some (env_ty a, k)) (referring a v) (env_ty a) v) as R.
  unfold wp in Q. destruct (hint_step hint (referring a v) (c, w)) as [[c1 w1] h1|[c1 w1] e|] eqn:J; [| |].
  - specialize (R c1 w1 h1 H P (referring_gives a v) Sf eq_refl). destruct Q as (_ & P1). cbn [moved_on] in P1. rewrite Nat.eqb_refl in P1. cbn [hint_is] in P1.
    unfold hint_step in J. change (map_iterator_for (referring a v)) with (find_or_make a) in J. unfold bind at 1 in J. rewrite (cached_find c a i w C) in J.
    unfold bind at 1 in J. rewrite Em in J. unfold same_node, bind at 1, getx at 1 in J. cbn [fst] in J. rewrite Hn, Nat.eqb_refl in J. unfold ret at 1 in J.
    cbn [a_dyn a_how a_src referring] in J. unfold bind at 1. unfold bind at 1 in J. destruct (on_seg i _ (c, w)) as [s2 p|s2 e|] eqn:Q1; try discriminate.
    apply (cached_seg _ a i) in Q1; auto. unfold bind at 1. unfold bind at 1 in J. destruct (mk_iter (Some i) p s2) as [s3 it|s3 e|] eqn:Mk; try discriminate.
    pose proof (mk_iter_state _ _ _ _ _ Mk). subst s3. unfold bind, getx in J |- *. destruct (it_next (fst s2) it) as [h'|]; [|discriminate]. unfold ret in J. inversion J; subst.
    eapply IH; eauto.
  - unfold hint_step in J. change (map_iterator_for (referring a v)) with (find_or_make a) in J. unfold bind at 1 in J. rewrite (cached_find c a i w C) in J.
    unfold bind at 1 in J. rewrite Em in J. unfold same_node, bind at 1, getx at 1 in J. cbn [fst] in J. rewrite Hn, Nat.eqb_refl in J. unfold ret at 1 in J.
    cbn [a_dyn a_how a_src referring] in J. unfold bind at 1. unfold bind at 1 in J. destruct (on_seg i _ (c, w)) as [s2 p|s2 e2|]; [|inversion J; subst; reflexivity|discriminate].
    unfold bind at 1. unfold bind at 1 in J. destruct (mk_iter (Some i) p s2) as [s3 it|s3 e3|]; [|inversion J; subst; reflexivity|discriminate]. unfold bind, getx in J. destruct (it_next _ it); discriminate.
  - contradiction.
Qed.

Lemma same_true w c g d hint h a v s1 s2 i : reach w (c :: g) d -> hint_is c hint h -> hsafe h c [(env_ty a, v)] ->
  find_or_make a (c, w) = Ok s1 i -> same_node (it_map hint) i s1 = Ok s2 true -> s2 = s1 /\ slot h c (env_ty a) < length (elems c (env_ty a)).
Proof.
  intros H Hi Sf Q1 Q2. destruct (reach_wf _ _ _ _ H) as (W & O). destruct (hint_of w c g d hint h (env_ty a) H Hi) as ((j & Lo) & Ha & Hk).
  assert (Hs : hint_safe c hint (env_ty a)).
  { destruct Sf as [->|[I|I]]; [left; exact Hi|right; left; apply I; left; auto|right; right; auto]. }
  destruct (find_ok a c w _ _ s1 i (wc_map _ _ W) O Q1) as (n & -> & Md). destruct s1 as [c1 w1]. cbn [fst snd] in Md. split.
  - unfold same_node in Q2. destruct (it_map hint) as [j'|]; [|discriminate]. unfold bind, getx in Q2. destruct (node_at _ j'); [|discriminate]. unfold ret in Q2. congruence.
  - destruct (made_wfs w c a _ _ w1 c1 n W Md) as (_ & Sz). rewrite <- Sz.
    assert (P : wp (same_node (it_map hint) (n_id n)) (c1, w1) (fun _ b => b = true -> slot h c (env_ty a) < bsize (sg_be (n_seg n))) (fun _ _ => True)).
    { eapply (wp_same_node w c hint j a _ _ w1 c1 n (slot h c (env_ty a))); eauto. discriminate. }
    unfold wp in P. rewrite Q2 in P. auto.
Qed.

Lemma hint_local_as_range w c g d hint h a xs : reach w (c :: g) d -> hint_is c hint h -> hsafe h c (map (pair (env_ty a)) xs) ->
  c_insert_hint_range hint (map (referring a) xs) (c, w) <> UB ->
  c_insert_hint_local hint a (env_ty a) xs (c, w) = c_insert_hint_range hint (map (referring a) xs) (c, w).
Proof.
  intros H Hi Sf N. destruct (reach_wf _ _ _ _ H) as (W & O). destruct xs as [|v xs]; [reflexivity|]. cbn [c_insert_hint_local].
  assert (Sf1 : hsafe h c [(env_ty a, v)]).
  { destruct Sf as [->|[I|I]]; [left; auto|right; left; intros u [<-|[]]; apply I; left; auto|right; right; auto]. }
  pose proof (wp_hint_one w c g d hint h (referring a v) (env_ty a) v H Hi (referring_gives a v) Sf1) as P.
  pose proof (fun c1 w1 h1 => hint_step_reach w c g d hint h (referring a v) (env_ty a) v c1 w1 h1 H Hi (referring_gives a v) Sf1) as R.
  pose proof (fun s1 s2 i => same_true w c g d hint h a v s1 s2 i H Hi Sf1) as T.
  pose proof (fun s1 i => proto_cached a (env_ty a) (c, w) s1 i) as Pc.
  assert (Nn : cache_find (c_cache (fst (c, w))) a <> Some None).
  { intros Q. destruct (wm_cache _ _ (wc_map _ _ W) _ _ Q) as (? & ? & _). discriminate. }
  cbn [map] in *. cbn [c_insert_hint_range] in *. unfold hint_step in P, R. change (map_iterator_for (referring a v)) with (map_iterator_for_proto a (env_ty a)) in *.
  change (find_or_make a) with (map_iterator_for_proto a (env_ty a)) in T. cbn [a_dyn a_how a_src referring] in *.
  unfold wp in P. unfold bind at 1 in P. unfold bind at 1 in R. unfold bind at 1 in N. unfold bind at 1. unfold bind at 2.
  destruct (map_iterator_for_proto a (env_ty a) (c, w)) as [s1 i|s1 e|] eqn:Q; auto. specialize (Pc s1 i Nn eq_refl).
  unfold bind at 1 in P. unfold bind at 1 in R. unfold bind at 1 in N. unfold bind at 1. unfold bind at 1.
  destruct (same_node (it_map hint) i s1) as [s2 b|s2 e|] eqn:Q2; auto. destruct b.
  - destruct (T s1 s2 i eq_refl Q2) as (-> & Lt). cbn [insert_all_hint].
    assert (Eh : exists k, h = Some (env_ty a, k)).
    { unfold slot in Lt. destruct h as [[t0 k]|]; [|lia]. destruct (Nat.eqb_spec t0 (env_ty a)) as [->|]; [eauto|lia]. }
    destruct Eh as (k & ->). unfold bind, getx in P, R |- *.
    destruct (on_seg i _ s1) as [s3 p|s3 e|] eqn:Q3; auto. apply (cached_seg _ a i) in Q3; auto.
    destruct (mk_iter (Some i) p s3) as [s4 it|s4 e|] eqn:Mk; auto. pose proof (mk_iter_state _ _ _ _ _ Mk). subst s4.
    destruct (it_next (fst s3) it) as [h'|] eqn:Nx; auto. destruct s3 as [c3 w3]. unfold ret in P, R. destruct P as (_ & P).
    cbn [moved_on] in P. rewrite Nat.eqb_refl in P. eapply all_hint_range; [eapply R; reflexivity|exact P|exact Q3].
  - assert (Es : s2 = s1 /\ match it_map hint with None => True | Some j => j <> i end).
    { unfold same_node in Q2. destruct (it_map hint) as [j|]; [|unfold ret in Q2; inversion Q2; auto]. unfold bind, getx in Q2. destruct (node_at _ j); [|discriminate].
      unfold ret in Q2. inversion Q2. split; auto. apply Nat.eqb_neq. auto. }
    destruct Es as (-> & D). cbn [push_all]. unfold bind in N |- *.
    destruct (on_seg i _ s1) as [s3 p|s3 e|] eqn:Q3; auto. apply (cached_seg _ a i) in Q3; auto. apply push_all_hint; auto.
Qed.

(** ** insert(local position,first,last) *)

Lemma lpoints_next (c : coll V) i q t k : lpoints c (mkliter i (PBase q)) t k -> k < length (elems c t) -> (exists w, wfm w c) ->
  lpoints c (mkliter i (PBase (fst q, S (snd q)))) t (S k).
Proof.
  intros (n & Hin & Et & Em & Ep & Hk) Lt (w & W). exists n. cbn [li_map li_pos] in *. csplit; auto.
  - destruct Ep as [Ep|Ep]; [|discriminate]. left. inversion Ep; subst. rewrite !be_ptr_eq. reflexivity.
  - rewrite <- Et in Lt. fold (n_ty n) in Lt. rewrite (elems_node _ _ _ W Hin) in Lt. rewrite n_elems_length in Lt || idtac. exact Lt.
Qed.
Lemma inserted_length w c g d t k v c' : reach w (c :: g) d -> k <= length (elems c t) -> inserted c c' t k v -> length (elems c' t) = S (length (elems c t)).
Proof.
  intros H Hk I. rewrite (g_elems _ _ _ _ (in_grew _ _ _ _ _ I)). unfold slot. rewrite Nat.eqb_refl, of_type_cons, Nat.eqb_refl.
  rewrite !app_length, firstn_length, skipn_length. cbn [of_type filter map length]. lia.
Qed.
Lemma insertion_le w c g d t n : reach w (c :: g) d -> insertion c t n <= debt c + 29 + n.
Proof. intros H. pose proof (insertion_debt w c g d t H) as Q. unfold insertion in *. destruct (_ <? _); lia. Qed.

Lemma pos_loop_pays xs : thirds -> forall w c g d i p t k vs, reach w (c :: g) d -> lpoints c (mkliter i p) t k -> Forall2 (gives_at t) xs vs ->
  3 * (length (elems c t) + length vs) + 1 <= env_vmax t ->
  wp (c_insert_pos_loop i p xs) (c, w) (fun '(c', w') _ => w_work w' + debt c' <= w_work w + debt c + (65 + (length (elems c t) - k)) * length xs)
    (fun '(c', w') _ => w_work w' <= w_work w + debt c + (65 + (length (elems c t) - k)) * length xs).
Proof.
  intros G. induction xs as [|x xs IH]; intros w c g d i p t k vs H L F Mx; inversion F as [|? v ? vs' (Et & Es) F']; subst.
  - cbn. lia.
  - cbn [c_insert_pos_loop length] in *. set (t := env_ty (a_dyn x)) in *. pose proof (lpoints_le _ _ _ _ _ _ _ H L) as Hk.
    assert (Hv : src_c c t (a_how x) (a_src x) v) by (left; exact Es).
    pose proof (C64_insert_pos w c g d (mkliter i p) k x v H L Hv) as Wk. pose proof (spec_insert_pos w c g d (mkliter i p) k x v H L Hv) as Sp.
    pose proof (insertion_le w c g d t (length (elems c t) - k) H) as Il. fold t in Wk, Sp.
    rewrite Nat.mul_succ_r.
    unfold within, wp, c_insert_pos, bind in Wk, Sp. cbn [li_map li_pos] in Wk, Sp. fold t in Wk, Sp. apply wp_bind. unfold wp at 1.
    destruct (on_seg i (seg_insert t (a_how x) p (a_src x)) (c, w)) as [[c1 w1] q|[c1 w1] e|] eqn:Q; [| |contradiction]; [|generalize ((65 + (length (elems c t) - k)) * length xs); lia].
    unfold ret in Wk, Sp. destruct Sp as (I & L1).
    assert (Fr : far c (env_ty (a_dyn x))) by (unfold far; fold t; lia).
    assert (Qv : void (c_insert_pos (mkliter i p) x) (c, w) = Ok (c1, w1) tt).
    { unfold void, c_insert_pos, bind. cbn [li_map li_pos]. fold t. rewrite Q. reflexivity. }
    destruct (priced_pays w c g d _ _ w1 c1 H G (pr_insert_pos c (mkliter i p) k x v L Hv Fr) Qv) as (R & B). fold t in B.
    pose proof (inserted_length w c g d t k v c1 H Hk I) as El. destruct (reach_wf _ _ _ _ R) as (W1 & _).
    pose proof (lpoints_next c1 i q t k L1 ltac:(lia) (ex_intro _ w1 (wc_map _ _ W1))) as L2.
    assert (Mx1 : 3 * (length (elems c1 t) + length vs') + 1 <= env_vmax t) by (rewrite El; lia).
    specialize (IH w1 c1 g d i _ t (S k) vs' R L2 F' Mx1). rewrite El in IH.
    replace (S (length (elems c t)) - S k) with (length (elems c t) - k) in IH by lia.
    eapply wp_mono; [exact IH| |]; intros [c2 w2] r; lia.
Qed.

(** The elements are copied or moved if they have the type of the segment, otherwise used to construct one. *)
Definition lpos_step (i : nat) (t : tyid) (p : ptr) (x : option tyid * how * V) : M CW ptr :=
  let '(ot, h, v) := x in
  let same := match ot with Some t' => t' =? t | None => false end in
  (q <- on_seg i (if same then seg_insert t h (PConc p) (SVal v) else seg_emplace t HEmplace (PConc p) (SVal v)) ;;
   e <- on_seg i (seg_to_conc q) ;;
   ret (fst e, S (snd e)))%mon.
Lemma lpos_loop_step i t p x xs s : c_insert_lpos_loop i t p (x :: xs) s = bind (lpos_step i t p x) (fun q => c_insert_lpos_loop i t q xs) s.
Proof.
  destruct x as [[ot h] v]. cbn [c_insert_lpos_loop]. unfold lpos_step, bind.
  destruct (on_seg _ _ s) as [s1 q|s1 e|]; auto. destruct (on_seg i (seg_to_conc q) s1) as [s2 e|s2 e|]; auto.
Qed.
Lemma to_conc_state i q (s s1 : CW) e : on_seg i (seg_to_conc q) s = Ok s1 e -> s1 = s.
Proof.
  unfold on_seg. destruct s as [c w]. destruct (node_at (c_nodes c) i) as [n|] eqn:Hn; [|discriminate]. unfold seg_to_conc, bind, getx. cbn [fst].
  destruct (be_to_concrete _ q); unfold ret, ub; intros Q; inversion Q. rewrite (upd_id _ _ _ Hn). destruct c; reflexivity.
Qed.
Lemma to_conc_points w c g d i q t k : reach w (c :: g) d -> lpoints c (mkliter i (PBase q)) t k -> k < length (elems c t) ->
  exists e, on_seg i (seg_to_conc q) (c, w) = Ok (c, w) e /\ lpoints c (mkliter i (PConc (fst e, S (snd e)))) t (S k).
Proof.
  intros H (n & Hin & Et & Em & Ep & Hk) Lt. destruct (reach_wf _ _ _ _ H) as (W & O). cbn [li_map li_pos] in *. subst i.
  destruct Ep as [Ep|Ep]; [|discriminate]. inversion Ep; subst q. clear Ep.
  assert (Lt' : S k <= length (elems_of (n_seg n))).
  { rewrite <- Et in Lt. fold (n_ty n) in Lt. rewrite (elems_node _ _ _ (wc_map _ _ W) Hin) in Lt. exact Lt. }
  exists (vptr (be_store (sg_be (n_seg n))) k). split.
  - unfold on_seg. rewrite (node_at_some _ _ (wm_ids _ _ (wc_map _ _ W)) Hin). unfold seg_to_conc, bind, getx. cbn [fst].
    assert (Ws : wfs (n_seg n)) by (pose proof (wc_segs _ _ W) as A; unfold segs_ok in A; rewrite Forall_forall in A; auto).
    rewrite (be_to_conc_ptr (sg_ty (n_seg n))) by (try apply Ws; unfold bsize, vsize, elems_of in *; lia). unfold ret.
    rewrite (upd_id _ _ _ (node_at_some _ _ (wm_ids _ _ (wc_map _ _ W)) Hin)). destruct c; reflexivity.
  - exists n. cbn [li_map li_pos]. csplit; auto.
Qed.

Lemma lpos_loop_pays a xs : thirds -> forall w c g d i p k, reach w (c :: g) d -> lpoints c (mkliter i (PConc p)) (env_ty a) k ->
  3 * (length (elems c (env_ty a)) + length xs) + 1 <= env_vmax (env_ty a) ->
  wp (c_insert_lpos_loop i (env_ty a) p xs) (c, w) (fun '(c', w') _ => w_work w' + debt c' <= w_work w + debt c + (65 + (length (elems c (env_ty a)) - k)) * length xs)
    (fun '(c', w') _ => w_work w' <= w_work w + debt c + (65 + (length (elems c (env_ty a)) - k)) * length xs).
Proof.
  intros G. induction xs as [|[[ot h] v] xs IH]; intros w c g d i p k H L Mx.
  - cbn. lia.
  - cbn [length] in *. set (t := env_ty a) in *. pose proof (lpoints_le _ _ _ _ _ _ _ H L) as Hk. rewrite Nat.mul_succ_r.
    pose proof (insertion_le w c g d t (length (elems c t) - k) H) as Il.
    assert (Fr : far c t) by (unfold far; lia).
    assert (P : wp (lpos_step i t p (ot, h, v)) (c, w)
      (fun '(c1, w1) q => reach w1 (c1 :: g) d /\ length (elems c1 t) = S (length (elems c t)) /\ lpoints c1 (mkliter i (PConc q)) t (S k) /\
        w_work w1 + debt c1 <= w_work w + debt c + 65 + (length (elems c t) - k))
      (fun '(c1, w1) _ => w_work w1 <= w_work w + debt c + 65 + (length (elems c t) - k))).
    { assert (Fin : forall c1 w1 q, reach w1 (c1 :: g) d -> inserted c c1 t k v -> lpoints c1 (mkliter i (PBase q)) t k ->
        w_work w1 + debt c1 <= w_work w + debt c + 65 + (length (elems c t) - k) ->
        wp (e <- on_seg i (seg_to_conc q) ;; ret (fst e, S (snd e)))%mon (c1, w1)
          (fun '(c1, w1) q => reach w1 (c1 :: g) d /\ length (elems c1 t) = S (length (elems c t)) /\ lpoints c1 (mkliter i (PConc q)) t (S k) /\
             w_work w1 + debt c1 <= w_work w + debt c + 65 + (length (elems c t) - k))
          (fun '(c1, w1) _ => w_work w1 <= w_work w + debt c + 65 + (length (elems c t) - k))).
      { intros c1 w1 q R I L1 B. pose proof (inserted_length w c g d t k v c1 H Hk I) as El.
        destruct (to_conc_points w1 c1 g d i q t k R L1 ltac:(lia)) as (e & Q & L2). unfold wp, bind. rewrite Q. cbn. csplit; auto. }
      cbn [lpos_step]. set (same := match ot with Some t' => t' =? t | None => false end). apply wp_bind. destruct same.
      - set (x := mkarg a a true true h (SVal v)). assert (Hv : src_c c (env_ty (a_dyn x)) (a_how x) (a_src x) v) by (left; reflexivity).
        pose proof (C64_insert_pos w c g d (mkliter i (PConc p)) k x v H L Hv) as Wk. pose proof (spec_insert_pos w c g d (mkliter i (PConc p)) k x v H L Hv) as Sp.
        unfold within, wp, c_insert_pos, bind in Wk, Sp. cbn [li_map li_pos a_dyn a_how a_src x] in Wk, Sp. fold t in Wk, Sp. unfold wp at 1.
        destruct (on_seg i (seg_insert t h (PConc p) (SVal v)) (c, w)) as [[c1 w1] q|[c1 w1] e|] eqn:Q; [| |contradiction]; [|lia].
        unfold ret in Wk, Sp. destruct Sp as (I & L1).
        assert (Qv : void (c_insert_pos (mkliter i (PConc p)) x) (c, w) = Ok (c1, w1) tt).
        { unfold void, c_insert_pos, bind. cbn [li_map li_pos a_dyn a_how a_src x]. fold t. rewrite Q. reflexivity. }
        destruct (priced_pays w c g d _ _ w1 c1 H G (pr_insert_pos c (mkliter i (PConc p)) k x v L Hv Fr) Qv) as (R & B). apply Fin; auto.
      - assert (Hv : src_c c t HEmplace (SVal v) v) by (left; reflexivity).
        pose proof (C64_emplace_pos w c g d (mkliter i (PConc p)) k a (SVal v) v H L Hv) as Wk. pose proof (spec_emplace_pos w c g d (mkliter i (PConc p)) k a (SVal v) v H L Hv) as Sp.
        unfold within, wp, c_emplace_pos, bind in Wk, Sp. cbn [li_map li_pos] in Wk, Sp. fold t in Wk, Sp. unfold wp at 1.
        destruct (on_seg i (seg_emplace t HEmplace (PConc p) (SVal v)) (c, w)) as [[c1 w1] q|[c1 w1] e|] eqn:Q; [| |contradiction]; [|lia].
        unfold ret in Wk, Sp. destruct Sp as (I & L1).
        assert (Qv : void (c_emplace_pos (mkliter i (PConc p)) a (SVal v)) (c, w) = Ok (c1, w1) tt).
        { unfold void, c_emplace_pos, bind. cbn [li_map li_pos]. fold t. rewrite Q. reflexivity. }
        destruct (priced_pays w c g d _ _ w1 c1 H G (pr_emplace_pos c (mkliter i (PConc p)) k a (SVal v) v L Hv Fr) Qv) as (R & B). apply Fin; auto. }
    unfold wp. rewrite lpos_loop_step. unfold bind. unfold wp in P. destruct (lpos_step i t p (ot, h, v) (c, w)) as [[c1 w1] q|[c1 w1] e|]; [| |contradiction]; [|generalize ((65 + (length (elems c t) - k)) * length xs); lia].
    destruct P as (R & El & L2 & B). assert (Mx1 : 3 * (length (elems c1 t) + length xs) + 1 <= env_vmax t) by (rewrite El; lia).
    specialize (IH w1 c1 g d i q (S k) R L2 Mx1). rewrite El in IH. replace (S (length (elems c t)) - S k) with (length (elems c t) - k) in IH by lia.
    unfold wp in IH. destruct (c_insert_lpos_loop i t q xs (c1, w1)) as [[c2 w2] r|[c2 w2] e|]; auto; lia.
Qed.
End Cost7.
