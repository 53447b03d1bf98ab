(** * Programs which walk over a range *)

From Coq Require Import List Arith Lia Bool.
From Verif Require Import Base Vec Backend Segment Coll StdAlg Algo Access Local Walk Spec SpecAlg SpecAcc SpecLocal SpecWalk ProofBase ProofVec ProofBackend ProofOps ProofOps2
  ProofSeg ProofMap ProofView ProofAlgo ProofColl ProofIns ProofErase Reach ProofReach ProofObs ProofProp ProofProp4 ProofAccess ProofOwn Properties21 ProofLocal.
Import ListNotations.

Section PWalk.
Context {V : Type} {E : Env V} {S : Type}.
Implicit Types (c : coll V) (w : world).
Notation nb n := (sg_be (n_seg n)).
Notation nsz n := (bsize (sg_be (n_seg n))).

Lemma ref_nodes_in (ns : list (node V)) n k : vok ns -> In n ns -> k < nsz n -> ref_nodes ns (be_ptr (nb n) k) = Some (vptr (be_store (nb n)) k).
Proof.
  intros W Hin Hk. assert (Wn : wfs (n_seg n)) by (eapply vok_in; eauto).
  assert (Hp : 0 < pblk (nb n)) by (eapply pblk_pos; [apply Wn|]; lia).
  induction ns as [|m ns IH]; simpl in *; [tauto|]. destruct Hin as [->|Hin].
  - rewrite (be_deref_ptr (sg_ty (n_seg n))) by apply Wn. destruct (nth_error (belems (nb n)) k) eqn:En.
    + apply (be_to_conc_ptr (sg_ty (n_seg n))); [apply Wn|]. lia.
    + apply nth_error_None in En. unfold bsize, vsize, belems in *. lia.
  - rewrite be_deref_other.
    + apply IH; auto. eapply vok_tail; eauto.
    + rewrite be_ptr_eq. simpl. apply (vok_head_other m ns n); auto.
Qed.

(** The address of the element at position [k]. *)
Lemma it_ref_located w c g d it k r : reach w (c :: g) d -> located c it k -> nth_error (refs c) k = Some r -> it_ref c it = Some (r_addr r).
Proof.
  intros H L Hr. destruct (reach_wf _ _ _ _ H) as (W & O). pose proof (reach_vok _ _ _ _ H) as Vk.
  apply (located_at w c it k _ _ W O) in L. destruct L as (-> & _).
  assert (Hk : k < tot (c_nodes c)) by (rewrite <- refs_length; apply nth_error_Some; congruence).
  destruct (at_split _ _ Hk) as (l1 & n & l2 & m & En & Hm & Eg & ->). unfold it_ref. cbn [it_pos].
  rewrite ref_nodes_in; auto; [|rewrite En; apply in_or_app; right; left; auto].
  f_equal. rewrite refs_nodes, En, flat_map_app in Hr. cbn [flat_map] in Hr.
  rewrite nth_error_app2 in Hr by (rewrite flat_nrefs_length; lia). rewrite flat_nrefs_length in Hr. replace (k - tot l1) with m in Hr by lia.
  rewrite nth_error_app1 in Hr by (rewrite nrefs_length; auto). rewrite nrefs_nth in Hr. destruct (nth_error (n_elems n) m); [|discriminate].
  cbn in Hr. injection Hr as <-. reflexivity.
Qed.

Lemma reg_set_length {I} k (x : I) l : k < length l -> length (reg_set k x l) = length l.
Proof. intros H. unfold reg_set. rewrite app_length, firstn_length. cbn [length]. rewrite skipn_length. lia. Qed.
Lemma reg_set_map {I J} (f : I -> J) k x l : map f (reg_set k x l) = reg_set k (f x) (map f l).
Proof. unfold reg_set. rewrite map_app. cbn [map]. rewrite firstn_map, skipn_map. reflexivity. Qed.
Lemma reg_set_same {I} k (x : I) l : nth_error l k = Some x -> reg_set k x l = l.
Proof.
  revert l. induction k as [|k IH]; intros [|y l] H; try discriminate; cbn in *.
  - injection H as ->. reflexivity.
  - unfold reg_set in *. cbn. f_equal. apply IH. exact H.
Qed.
Lemma Forall2_set {I J} (P : I -> J -> Prop) k x y l l' : Forall2 P l l' -> P x y -> Forall2 P (reg_set k x l) (reg_set k y l').
Proof.
  intros F Q. unfold reg_set. apply Forall2_app; [|constructor; auto].
  - revert l l' F. induction k as [|k IH]; intros l l' F; [constructor|]. destruct F; [constructor|]. cbn. constructor; auto.
  - change (Datatypes.S k) with (Datatypes.S k). generalize (Datatypes.S k). intros m. revert l l' F. induction m as [|m IH]; intros l l' F; [exact F|]. destruct F; [constructor|]. cbn. auto.
Qed.
Lemma Forall2_nth {I J} (P : I -> J -> Prop) l l' k y : Forall2 P l l' -> nth_error l' k = Some y -> exists x, nth_error l k = Some x /\ P x y.
Proof.
  intros F. revert k. induction F as [|a b l l' Q F IH]; intros [|k] H; try discriminate; cbn in *.
  - injection H as <-. eauto.
  - apply IH. exact H.
Qed.
Lemma reg_set_between {I} i j k (x : I) l : i + k < j -> j <= length l -> between i j (reg_set (i + k) x l) = reg_set k x (between i j l).
Proof.
  intros Hk Hj. assert (Lb : length (between i j l) = j - i) by (apply between_length; auto).
  assert (N : forall k (x : I) l m, k < length l -> nth_error (reg_set k x l) m = if m =? k then Some x else nth_error l m).
  { clear. intros k x l m Hk. revert l m Hk. induction k as [|k IH]; intros [|y l] m Hk; cbn [length] in Hk; try lia.
    - destruct m; reflexivity.
    - destruct m; [reflexivity|]. cbn. apply IH. lia. }
  apply nth_error_ext. intros m. rewrite N by lia. destruct (Nat.lt_ge_cases m (j - i)) as [L|L].
  - rewrite !between_nth by lia. rewrite N by lia. destruct (Nat.eqb_spec m k) as [->|Ne]; [rewrite Nat.eqb_refl; auto|].
    rewrite (proj2 (Nat.eqb_neq (i + m) (i + k))) by lia. reflexivity.
  - rewrite (proj2 (Nat.eqb_neq m k)) by lia. rewrite !(proj2 (nth_error_None _ _)); auto; rewrite ?Lb; auto.
    rewrite between_length by (rewrite reg_set_length; lia). lia.
Qed.
Lemma part_reg_set {I} i j k (x : I) l : i + k < j -> j <= length l ->
  reg_set (i + k) x l = firstn i l ++ reg_set k x (between i j l) ++ skipn j l.
Proof.
  intros Hk Hj. rewrite <- reg_set_between by auto. set (l' := reg_set (i + k) x l).
  assert (Hf : firstn i l = firstn i l').
  { unfold l', reg_set. rewrite firstn_app, firstn_firstn, firstn_length. replace (i - Nat.min (i + k) (length l)) with 0 by lia. cbn [firstn]. rewrite app_nil_r. f_equal. lia. }
  assert (Hs : skipn j l = skipn j l').
  { unfold l', reg_set. rewrite skipn_app, firstn_length. rewrite (skipn_all2 (firstn _ _)) by (rewrite firstn_length; lia). cbn [app].
    destruct (j - Nat.min (i + k) (length l)) as [|q] eqn:Q; [lia|].
    change (skipn (Datatypes.S q) (x :: skipn (Datatypes.S (i + k)) l)) with (skipn q (skipn (Datatypes.S (i + k)) l)). rewrite skipn_skipn. f_equal. lia. }
  rewrite Hf, Hs. unfold between. rewrite <- (firstn_skipn i l') at 1. f_equal.
  rewrite <- (firstn_skipn (j - i) (skipn i l')) at 1. f_equal. rewrite skipn_skipn. f_equal. lia.
Qed.

(** Using the element at a position. *)
Lemma ref_located {A} (f : tyid -> M (V * S) A) w c g d it k t v s : reach w (c :: g) d -> located c it k -> nth_error (flat c) k = Some (t, v) ->
  exists q, it_ref c it = Some q /\
    (forall v', let c' := c_write q v' c in reach w (c' :: g) d /\ shape c c' /\ flat c' = reg_set k (t, v') (flat c)) /\
    on_obj None q f (c, s) =
      match f t (v, s) with
      | Ok (v', s') a => Ok (c_write q v' c, s') a
      | Exn (v', s') e => Exn (c_write q v' c, s') e
      | UB => UB
      end.
Proof.
  intros H L Hf. pose proof (reach_vok _ _ _ _ H) as Vk. rewrite <- refs_flat in Hf. rewrite nth_error_map in Hf.
  destruct (nth_error (refs c) k) as [r|] eqn:Hr; [|discriminate]. injection Hf as <- <-. exists (r_addr r). csplit.
  - eapply it_ref_located; eauto.
  - intros v' c'. csplit.
    + apply write_reach; auto.
    + apply write_shape.
    + rewrite <- !refs_flat. unfold c'. rewrite (refs_write_at c k r v' Vk Hr). unfold reg_set. rewrite map_app. cbn [map r_ty r_val].
      rewrite firstn_map, skipn_map. reflexivity.
  - unfold on_obj. rewrite obj_at_refs; [|exact Vk|rewrite <- refs_nodes; eapply nth_error_In; eauto]. reflexivity.
Qed.

Lemma shape_located w c g d c' it k : reach w (c :: g) d -> reach w (c' :: g) d -> shape c c' -> located c it k -> located c' it k.
Proof.
  intros H H' Sh L. destruct (shape_sizes c c' Sh) as (Sz & Sc & Sty & Sf & So).
  destruct L as [(-> & ->)|(t & m & P & ->)]; [left; split; auto|right].
  exists t, m. split.
  - pose proof (shape_updated c c' 0 (map r_val (refs c')) Sh) as U.
    destruct U as [_ _ _ _ _ U6 _].
    { cbn [firstn app]. rewrite skipn_all2; [rewrite app_nil_r; reflexivity|].
      assert (Fl : forall x : coll V, length (map r_val (refs x)) = length (flat x)) by (intros x; rewrite <- refs_flat, !map_length; reflexivity).
      rewrite !Fl. cbn [Nat.add]. rewrite Sf. lia. }
    apply (U6 t m). exact P.
  - rewrite So. reflexivity.
Qed.

Lemma run_walk_seq {X} (p : walk V S X) i j : forall its ks w c g d s, reach w (c :: g) d -> i <= j -> j <= length (flat c) ->
  Forall2 (fun it k => located c it (i + k) /\ k <= j - i) its ks ->
  let did c' l' := reach w (c' :: g) d /\ shape c c' /\ map fst l' = map fst (between i j (flat c)) /\ flat c' = firstn i (flat c) ++ l' ++ skipn j (flat c) in
  match run_seq p ks (between i j (flat c), s) with
  | Ok (l', s') (x, ks') => exists c' its', run_walk p its (c, s) = Ok (c', s') (x, its') /\ did c' l' /\
      Forall2 (fun it k => located c' it (i + k) /\ k <= j - i) its' ks'
  | Exn (l', s') e => exists c', run_walk p its (c, s) = Exn (c', s') e /\ did c' l'
  | UB => True
  end.
Proof.
  induction p as [x| |r next IH|r r' next IH|r next IH|r r' next IH|A r f next IH]; intros its ks w c g d s H Hij Hj F did.
  - cbn. exists c, its. csplit; auto. unfold did. csplit; auto; [apply shape_refl|].
    unfold between. rewrite <- (firstn_skipn i (flat c)) at 1. f_equal. rewrite <- (firstn_skipn (j - i) (skipn i (flat c))) at 1. f_equal.
    rewrite skipn_skipn. f_equal. lia.
  - cbn. exact I.
  - cbn [run_seq run_walk]. destruct (nth_error ks r) as [k|] eqn:Qk; [|exact I]. destruct (Forall2_nth _ _ _ _ _ F Qk) as (it & -> & P).
    apply IH; auto. apply Forall2_app; auto.
  - cbn [run_seq run_walk]. destruct (nth_error ks r) as [k|] eqn:Qk; [|exact I]. destruct (Forall2_nth _ _ _ _ _ F Qk) as (it & -> & _).
    destruct (nth_error ks r') as [k'|] eqn:Qk'; [|exact I]. destruct (Forall2_nth _ _ _ _ _ F Qk') as (it' & -> & P').
    apply IH; auto. apply Forall2_set; auto.
  - cbn [run_seq run_walk fst]. destruct (nth_error ks r) as [k|] eqn:Qk; [|exact I]. destruct (Forall2_nth _ _ _ _ _ F Qk) as (it & -> & P & Hk).
    rewrite between_length by auto. destruct (Nat.ltb_spec k (j - i)) as [Lk|]; [|exact I].
    destruct (next_located w c g d it (i + k) H P) as (it' & -> & P'); [lia|].
    apply IH; auto. apply Forall2_set; auto. split; [rewrite Nat.add_succ_r; exact P'|lia].
  - cbn [run_seq run_walk]. destruct (nth_error ks r) as [k|] eqn:Qk; [|exact I]. destruct (Forall2_nth _ _ _ _ _ F Qk) as (it & -> & P & Hk).
    destruct (nth_error ks r') as [k'|] eqn:Qk'; [|exact I]. destruct (Forall2_nth _ _ _ _ _ F Qk') as (it' & -> & P' & Hk').
    rewrite (eq_located w c g d it it' (i + k) (i + k') H P P').
    assert ((i + k =? i + k') = (k =? k')) as -> by (destruct (Nat.eqb_spec k k') as [->|]; [apply Nat.eqb_refl|apply Nat.eqb_neq; lia]).
    apply IH; auto.
  - cbn [run_seq run_walk fst snd]. destruct (nth_error ks r) as [k|] eqn:Qk; [|exact I]. destruct (Forall2_nth _ _ _ _ _ F Qk) as (it & -> & P & Hk).
    destruct (nth_error (between i j (flat c)) k) as [[t v]|] eqn:Qv; [|exact I].
    assert (Lk : k < j - i) by (rewrite <- (between_length i j (flat c)) by auto; apply nth_error_Some; congruence).
    assert (Qf : nth_error (between i j (flat c)) k = Some (t, v)) by exact Qv. rewrite between_nth in Qf by lia.
    destruct (ref_located f w c g d it (i + k) t v s H P Qf) as (q & -> & Hw & Qo). unfold bind. rewrite Qo.
    destruct (f t (v, s)) as [[v' s'] a|[v' s'] e|]; auto; destruct (Hw v') as (R' & Sh & Ef); set (c1 := c_write q v' c) in *.
    + assert (Lc : length (flat c1) = length (flat c)) by (rewrite Ef; apply reg_set_length; lia).
      assert (F1 : Forall2 (fun it k => located c1 it (i + k) /\ k <= j - i) its ks).
      { clear - F H R' Sh. induction F as [|x y l l' [Q Q'] F IH]; constructor; auto. split; auto. eapply shape_located; [exact H|exact R'|exact Sh|exact Q]. }
      specialize (IH a its ks w c1 g d s' R' Hij ltac:(lia) F1). cbn zeta in IH.
      assert (Eb : between i j (flat c1) = reg_set k (t, v') (between i j (flat c))) by (rewrite Ef; apply reg_set_between; lia). rewrite Eb in IH.
      assert (Em : map fst (reg_set k (t, v') (between i j (flat c))) = map fst (between i j (flat c))).
      { rewrite reg_set_map. apply reg_set_same. cbn [fst]. rewrite nth_error_map, Qv. reflexivity. }
      assert (E1 : firstn i (flat c1) = firstn i (flat c) /\ skipn j (flat c1) = skipn j (flat c)).
      { rewrite Ef, (part_reg_set i j k) by lia. assert (Lf : length (firstn i (flat c)) = i) by (rewrite firstn_length; lia).
        assert (Lr : length (reg_set k (t, v') (between i j (flat c))) = j - i) by (rewrite reg_set_length; rewrite between_length; lia). split.
        - rewrite firstn_app, Lf, Nat.sub_diag, firstn_all2 by lia. cbn [firstn]. apply app_nil_r.
        - rewrite skipn_app, Lf, (skipn_all2 (firstn i _)) by lia. cbn [app]. rewrite skipn_app, Lr, Nat.sub_diag, (skipn_all2 (reg_set _ _ _)) by lia. reflexivity. }
      destruct E1 as (E1 & E2). rewrite E1, E2, Em in IH.
      destruct (run_seq (next a) ks _) as [[l' s2] [x ks']|[l' s2] e|]; auto.
      * destruct IH as (c' & its' & Qr & (R2 & Sh2 & Ll & Qe) & F2). exists c', its'. csplit; auto. unfold did. csplit; auto. eapply shape_trans; eauto.
      * destruct IH as (c' & Qr & R2 & Sh2 & Ll & Qe). exists c'. csplit; auto. unfold did. csplit; auto. eapply shape_trans; eauto.
    + exists c1. split; auto. unfold did. csplit; auto.
      * rewrite reg_set_map. apply reg_set_same. cbn [fst]. rewrite nth_error_map, Qv. reflexivity.
      * rewrite Ef. apply part_reg_set; lia.
Qed.

Lemma shape_part_updated w c g d c' i j l' : reach w (c :: g) d -> i <= j -> j <= length (flat c) -> shape c c' ->
  map fst l' = map fst (between i j (flat c)) -> flat c' = firstn i (flat c) ++ l' ++ skipn j (flat c) -> updated c c' i (map snd l').
Proof.
  intros H Hij Hj Sh Em Ef. apply shape_updated; auto.
  assert (Fl : forall x : coll V, map r_val (refs x) = map snd (flat x)) by (intros x; rewrite <- refs_flat, map_map; auto).
  assert (Ll : length l' = j - i) by (rewrite <- (map_length fst l'), Em, map_length; apply between_length; auto).
  rewrite !Fl, Ef, !map_app, firstn_map, skipn_map, map_length, Ll. replace (i + (j - i)) with j by lia. reflexivity.
Qed.

(** ** Algorithms on sequences *)

Lemma find_if_seq (pred : tyid * V -> M S bool) n : forall fuel k (l : list (tyid * V)) s, k + n = length l -> n <= fuel ->
  run_seq (w_find_if fuel pred) [k; length l] (l, s) =
    match std_find_if pred (skipn k l) s with
    | Ok s' m => Ok (l, s') (tt, [k + m; length l])
    | Exn s' e => Exn (l, s') e
    | UB => UB
    end.
Proof.
  induction n as [|n IH]; intros fuel k l s Hk Hf.
  - rewrite skipn_all2 by lia. destruct fuel; cbn [w_find_if run_seq nth_error]; rewrite (proj2 (Nat.eqb_eq _ _)) by lia; cbn; rewrite Nat.add_0_r; reflexivity.
  - destruct fuel as [|fuel]; [lia|]. cbn [w_find_if run_seq nth_error]. rewrite (proj2 (Nat.eqb_neq _ _)) by lia. cbn [run_seq nth_error fst snd].
    destruct (skipn k l) as [|[t v] rest] eqn:Qs; [apply (f_equal (@length _)) in Qs; rewrite skipn_length in Qs; cbn in Qs; lia|].
    assert (Qn : nth_error l k = Some (t, v)).
    { rewrite <- (firstn_skipn k l), Qs. rewrite nth_error_app2; rewrite firstn_length; [|lia]. replace (k - Nat.min k (length l)) with 0 by lia. reflexivity. }
    rewrite Qn. unfold looking. cbn [fst snd]. cbn [std_find_if]. unfold bind.
    destruct (pred (t, v) s) as [s' b|s' e|]; auto; rewrite (reg_set_same k (t, v) l Qn); auto.
    destruct b; [cbn; rewrite Nat.add_0_r; reflexivity|]. cbn [run_seq nth_error fst]. rewrite (proj2 (Nat.ltb_lt _ _)) by lia.
    change (reg_set 0 (Datatypes.S k) [k; length l]) with [Datatypes.S k; length l]. rewrite (IH fuel (Datatypes.S k) l s') by lia.
    assert (skipn (Datatypes.S k) l = rest) as ->.
    { change (Datatypes.S k) with (1 + k). rewrite <- (skipn_skipn 1 k). rewrite Qs. reflexivity. }
    destruct (std_find_if pred rest s') as [s2 m|s2 e|]; cbn; auto. rewrite Nat.add_succ_r. reflexivity.
Qed.

Section Max.
Context (lt : tyid * V -> tyid * V -> bool) (less : tyid * V -> tyid * V -> M S bool) (Hless : implements lt less) (Hlt : swo lt).
Notation LS := (list (tyid * V) * S)%type.

Lemma firstn_S_nth {A} k (l : list A) y : nth_error l k = Some y -> firstn (Datatypes.S k) l = firstn k l ++ [y].
Proof. revert l. induction k as [|k IH]; intros [|x l] H; try discriminate; cbn in *; [injection H as ->; reflexivity|]. f_equal. apply IH. exact H. Qed.
Lemma largest_next l b k y : b <= k -> largest lt (firstn (Datatypes.S k) l) b -> nth_error l (Datatypes.S k) = Some y ->
  forall x, nth_error l b = Some x -> largest lt (firstn (Datatypes.S (Datatypes.S k)) l) (if lt x y then Datatypes.S k else b).
Proof.
  intros Hb (x0 & Hx0 & Ha & Hbf) Hy x Hx. assert (Hk : Datatypes.S k < length l) by (apply nth_error_Some; congruence).
  rewrite (firstn_S_nth (Datatypes.S k) l y Hy). set (l0 := firstn (Datatypes.S k) l) in *. assert (L0 : length l0 = Datatypes.S k) by (unfold l0; rewrite firstn_length; lia).
  assert (x0 = x) as ->.
  { assert (Q : nth_error l b = Some x0); [|congruence]. rewrite <- (firstn_skipn (Datatypes.S k) l). fold l0. rewrite nth_error_app1 by lia. exact Hx0. }
  destruct (lt x y) eqn:Q.
  - exists y. csplit.
    + rewrite nth_error_app2, L0, Nat.sub_diag by lia. reflexivity.
    + intros z Hz. apply in_app_or in Hz. destruct Hz as [Hz|[->|[]]]; [|apply Hlt]. specialize (Ha z Hz).
      destruct (lt y z) eqn:Qz; auto. rewrite (swo_trans _ Hlt x y z Q Qz) in Ha. discriminate.
    + intros z Hz. rewrite firstn_app, L0, Nat.sub_diag, firstn_all2 in Hz by lia. cbn [firstn] in Hz. rewrite app_nil_r in Hz. specialize (Ha z Hz).
      destruct (lt z y) eqn:Qz; auto. rewrite (swo_incomp _ Hlt x z y Ha Qz) in Q. discriminate.
  - exists x. csplit.
    + rewrite nth_error_app1 by lia. exact Hx0.
    + intros z Hz. apply in_app_or in Hz. destruct Hz as [Hz|[<-|[]]]; auto.
    + intros z Hz. rewrite firstn_app, L0 in Hz. replace (b - Datatypes.S k) with 0 in Hz by lia. cbn [firstn] in Hz. rewrite app_nil_r in Hz. auto.
Qed.

Lemma max_loop_seq n : forall fuel k b l s, k + Datatypes.S n = length l -> n <= fuel -> b <= k -> largest lt (firstn (Datatypes.S k) l) b ->
  wp (run_seq (w_max_loop fuel less) [k; length l; b]) (l, s)
    (fun '(l', _) r => l' = l /\ exists m, r = (tt, [length l; length l; m]) /\ largest lt l m) (fun '(l', _) _ => l' = l).
Proof.
  induction n as [|n IH]; intros fuel k b l s Hk Hf Hb Hm.
  - unfold wp. destruct fuel; cbn [w_max_loop run_seq nth_error fst]; rewrite (proj2 (Nat.ltb_lt _ _)) by lia; cbn [reg_set firstn skipn app run_seq nth_error];
      rewrite (proj2 (Nat.eqb_eq _ _)) by lia; cbn [run_seq]; unfold ret; (split; [reflexivity|]; exists b; split;
        [repeat f_equal; lia|rewrite firstn_all2 in Hm by lia; exact Hm]).
  - destruct fuel as [|fuel]; [lia|]. unfold wp. cbn [w_max_loop run_seq nth_error fst]. rewrite (proj2 (Nat.ltb_lt _ _)) by lia.
    change (reg_set 0 (Datatypes.S k) [k; length l; b]) with [Datatypes.S k; length l; b].
    remember (Datatypes.S k) as K eqn:EK. cbn [run_seq nth_error fst].
    rewrite (proj2 (Nat.eqb_neq _ _)) by lia. cbn [run_seq nth_error fst snd].
    destruct (nth_error l b) as [[tx vx]|] eqn:Qx; [|apply nth_error_None in Qx; lia]. unfold looking, ret. cbn [fst snd run_seq nth_error].
    rewrite (reg_set_same b _ l Qx).
    destruct (nth_error l K) as [[ty vy]|] eqn:Qy; [|apply nth_error_None in Qy; lia]. unfold looking. cbn [fst snd].
    pose proof (Hless (tx, vx) (ty, vy) s) as Hl. destruct (less (tx, vx) (ty, vy) s) as [s' r|s' e|]; [|apply reg_set_same; exact Qy|destruct Hl].
    rewrite (reg_set_same K _ l Qy). subst r K. pose proof (largest_next l b k (ty, vy) Hb Hm Qy (tx, vx) Qx) as Hn.
    destruct (lt (tx, vx) (ty, vy)).
    + cbn [run_seq nth_error]. change (reg_set 2 (Datatypes.S k) [Datatypes.S k; length l; b]) with [Datatypes.S k; length l; Datatypes.S k].
      apply IH; auto; lia.
    + apply IH; auto; lia.
Qed.

Lemma max_element_seq fuel (l : list (tyid * V)) s : length l <= fuel -> l <> [] ->
  wp (run_seq (w_max_element fuel less) [0; length l]) (l, s)
    (fun '(l', _) r => l' = l /\ exists m, r = (tt, [length l; length l; m]) /\ largest lt l m) (fun '(l', _) _ => l' = l).
Proof.
  intros Hf Hl. unfold w_max_element. cbn [run_seq nth_error app]. destruct l as [|x l]; [congruence|]. cbn [length Nat.eqb run_seq].
  apply (max_loop_seq (length l) fuel 0 0 (x :: l) s); cbn [length] in *; try lia.
  exists x. csplit; auto. intros y [<-|[]]. apply Hlt.
Qed.
End Max.

Lemma updated_same w c g d c' i j : reach w (c :: g) d -> i <= j -> updated c c' i (map snd (between i j (flat c))) -> j <= length (flat c) -> updated c c' 0 [].
Proof.
  intros H Hij U Hj. destruct U as [U1 U2 U3 U4 U5 U6 U7]. split; auto. cbn [firstn app length Nat.add skipn]. rewrite U1.
  rewrite map_length, between_length by auto. replace (i + (j - i)) with j by lia. rewrite firstn_map, skipn_map, <- !map_app. f_equal.
  unfold between. rewrite <- (firstn_skipn i (flat c)) at 4. f_equal. rewrite <- (firstn_skipn (j - i) (skipn i (flat c))) at 2. f_equal. rewrite skipn_skipn. f_equal. lia.
Qed.

End PWalk.
