(** * Programs which use iterators of several collections *)

From Coq Require Import List Arith Lia Bool Permutation Sorted.
From Verif Require Import Base Vec Backend Segment Coll StdAlg Algo Access Local Walk Many Spec SpecAlg SpecAcc SpecLocal SpecWalk SpecMany ProofBase ProofVec ProofBackend ProofOps ProofOps2
  ProofSeg ProofMap ProofView ProofAlgo ProofColl ProofIns ProofErase Reach ProofReach ProofObs ProofProp ProofProp4 ProofAccess ProofOwn Properties21 ProofLocal ProofWalk.
Import ListNotations.

Section PMany.
Context {V : Type} {E : Env V} {S : Type}.
Implicit Types (c : coll V) (w : world).

Lemma reg_set_nth {I} k (x : I) l m : k < length l -> nth_error (reg_set k x l) m = if m =? k then Some x else nth_error l m.
Proof.
  intros Hk. revert l m Hk. induction k as [|k IH]; intros [|y l] m Hk; cbn [length] in Hk; try lia.
  - destruct m; reflexivity.
  - destruct m; [reflexivity|]. cbn. apply IH. lia.
Qed.
Lemma split_nth {I} k (x : I) l : nth_error l k = Some x -> l = firstn k l ++ x :: skipn (1 + k) l.
Proof. intros H. pose proof (reg_set_same k x l H) as Q. symmetry. exact Q. Qed.
Lemma reach_front w g d k c : reach w g d -> nth_error g k = Some c -> reach w (c :: firstn k g ++ skipn (1 + k) g) d.
Proof.
  intros H Hk. eapply r_perm; [exact H| |reflexivity]. rewrite (split_nth k c g Hk) at 1. symmetry. apply Permutation_middle.
Qed.
Lemma reach_back w g d k c : reach w (c :: firstn k g ++ skipn (1 + k) g) d -> reach w (reg_set k c g) d.
Proof. intros H. eapply r_perm; [exact H| |reflexivity]. apply Permutation_middle. Qed.

(** what a program may have done to the collections *)
Definition changed c c' : Prop := shape c c' /\ map fst (flat c') = map fst (flat c).
Lemma changed_refl c : changed c c.
Proof. split; [apply shape_refl|reflexivity]. Qed.
Lemma changed_trans c c1 c2 : changed c c1 -> changed c1 c2 -> changed c c2.
Proof. intros [A B] [A' B']. split; [eapply shape_trans; eauto|congruence]. Qed.
Lemma all_changed_refl g : Forall2 changed g g.
Proof. induction g; constructor; auto. apply changed_refl. Qed.
Lemma all_changed_trans g g1 g2 : Forall2 changed g g1 -> Forall2 changed g1 g2 -> Forall2 changed g g2.
Proof.
  intros F. revert g2. induction F as [|a b l l' Q F IH]; intros g2 F2; inversion F2; subst; constructor; auto. eapply changed_trans; eauto.
Qed.

Lemma run_walks_seqs {X} (p : walk V S X) : forall its ks w g d s, reach w g d -> Forall2 (designates_at g) its ks ->
  let did g' ls' := reach w g' d /\ map flat g' = ls' /\ Forall2 changed g g' in
  match run_seqs p ks (map flat g, s) with
  | Ok (ls', s') (x, ks') => exists g' its', run_walks p its (g, s) = Ok (g', s') (x, its') /\ did g' ls' /\ Forall2 (designates_at g') its' ks'
  | Exn (ls', s') e => exists g', run_walks p its (g, s) = Exn (g', s') e /\ did g' ls'
  | UB => True
  end.
Proof.
  induction p as [x| |r next IH|r r' next IH|r next IH|r r' next IH|A r f next IH]; intros its ks w g d s H F did.
  - cbn. exists g, its. csplit; auto. unfold did. csplit; auto. apply all_changed_refl.
  - cbn. exact I.
  - cbn [run_seqs run_walks]. destruct (nth_error ks r) as [k|] eqn:Qk; [|exact I]. destruct (Forall2_nth _ _ _ _ _ F Qk) as (it & -> & P).
    apply IH; auto. apply Forall2_app; auto.
  - cbn [run_seqs run_walks]. destruct (nth_error ks r) as [k|] eqn:Qk; [|exact I]. destruct (Forall2_nth _ _ _ _ _ F Qk) as (it & -> & _).
    destruct (nth_error ks r') as [k'|] eqn:Qk'; [|exact I]. destruct (Forall2_nth _ _ _ _ _ F Qk') as (it' & -> & P').
    apply IH; auto. apply Forall2_set; auto.
  - cbn [run_seqs run_walks fst]. destruct (nth_error ks r) as [[n k]|] eqn:Qk; [|exact I]. destruct (Forall2_nth _ _ _ _ _ F Qk) as ([n' it] & -> & P).
    destruct P as (Pn & c & Hc & L). cbn [fst snd] in *. subst n'. rewrite nth_error_map, Hc. cbn [option_map].
    destruct (Nat.ltb_spec k (length (flat c))) as [Lk|]; [|exact I].
    destruct (next_located w c _ d it k (reach_front w g d n c H Hc) L Lk) as (it' & -> & P'). apply IH; auto.
    apply Forall2_set; auto. split; [reflexivity|]. exists c. auto.
  - cbn [run_seqs run_walks]. destruct (nth_error ks r) as [[n k]|] eqn:Qk; [|exact I]. destruct (Forall2_nth _ _ _ _ _ F Qk) as ([n1 it] & -> & P).
    destruct (nth_error ks r') as [[n' k']|] eqn:Qk'; [|exact I]. destruct (Forall2_nth _ _ _ _ _ F Qk') as ([n1' it'] & -> & P').
    destruct P as (Pn & c & Hc & L), P' as (Pn' & c' & Hc' & L'). cbn [fst snd] in *. subst n1 n1'. destruct (Nat.eqb_spec n n') as [<-|]; [|exact I].
    assert (c' = c) as -> by congruence.
    rewrite (eq_located w c _ d it it' k k' (reach_front w g d n c H Hc) L L'). apply IH; auto.
  - cbn [run_seqs run_walks fst snd]. destruct (nth_error ks r) as [[n k]|] eqn:Qk; [|exact I]. destruct (Forall2_nth _ _ _ _ _ F Qk) as ([n' it] & -> & P).
    destruct P as (Pn & c & Hc & L). cbn [fst snd] in *. subst n'. rewrite nth_error_map, Hc. cbn [option_map].
    destruct (nth_error (flat c) k) as [[t v]|] eqn:Qv; [|exact I].
    pose proof (reach_front w g d n c H Hc) as Hf.
    destruct (ref_located f w c _ d it k t v s Hf L Qv) as (q & -> & Hw & Qo). unfold bind, on_nth. cbn [fst snd]. rewrite Hc, Qo.
    assert (Ln : n < length g) by (apply nth_error_Some; congruence).
    assert (Lv : k < length (flat c)) by (apply nth_error_Some; congruence).
    assert (Em : forall v', map fst (reg_set k (t, v') (flat c)) = map fst (flat c)).
    { intros v'. rewrite reg_set_map. apply reg_set_same. cbn [fst]. rewrite nth_error_map, Qv. reflexivity. }
    assert (All : forall v' c1, reach w (c1 :: firstn n g ++ skipn (1 + n) g) d -> shape c c1 -> flat c1 = reg_set k (t, v') (flat c) -> did (reg_set n c1 g) (reg_set n (reg_set k (t, v') (flat c)) (map flat g))).
    { intros v' c1 R1 Sh Ef. unfold did. csplit.
      - apply reach_back. exact R1.
      - rewrite reg_set_map, Ef. reflexivity.
      - rewrite (split_nth n c g Hc) at 1. unfold reg_set. apply Forall2_app; [apply all_changed_refl|]. constructor; [|apply all_changed_refl].
        split; [exact Sh|]. rewrite Ef. apply Em. }
    destruct (f t (v, s)) as [[v' s'] a|[v' s'] e|]; auto; destruct (Hw v') as (R' & Sh & Ef); set (c1 := c_write q v' c) in *; specialize (All v' c1 R' Sh Ef).
    + destruct All as (A1 & A2 & A3).
      assert (F1 : Forall2 (designates_at (reg_set n c1 g)) its ks).
      { clear - F Hf R' Sh Hc Ln. induction F as [|x y l l' (Q & c0 & Q1 & Q2) F IH]; constructor; auto. split; auto.
        rewrite reg_set_nth by exact Ln. destruct (Nat.eqb_spec (fst y) n) as [e|Ne]; [|eauto].
        exists c1. split; [reflexivity|]. rewrite e in Q1. assert (c0 = c) by congruence. subst c0. eapply shape_located; [exact Hf|exact R'|exact Sh|exact Q2]. }
      specialize (IH a its ks w (reg_set n c1 g) d s' A1 F1). cbn zeta in IH. rewrite A2 in IH.
      destruct (run_seqs (next a) ks _) as [[l' s2] [x ks']|[l' s2] e|]; auto.
      * destruct IH as (g' & its' & Qr & (R2 & Sh2 & Ll) & F2). exists g', its'. csplit; auto. unfold did. csplit; auto. eapply all_changed_trans; eauto.
      * destruct IH as (g' & Qr & R2 & Sh2 & Ll). exists g'. csplit; auto. unfold did. csplit; auto. eapply all_changed_trans; eauto.
    + exists (reg_set n c1 g). split; auto.
Qed.

Lemma changed_updated w g d k c c' : reach w g d -> nth_error g k = Some c -> changed c c' -> updated c c' 0 (map snd (flat c')).
Proof.
  intros H Hk [Sh Em]. assert (Lf : length (flat c') = length (flat c)) by (rewrite <- (map_length fst), Em, map_length; reflexivity).
  apply (shape_part_updated w c (firstn k g ++ skipn (1 + k) g) d c' 0 (length (flat c)) (flat c')); auto; [apply reach_front; auto|lia| |].
  - rewrite Em. unfold between. rewrite Nat.sub_0_r. cbn [skipn]. rewrite firstn_all. reflexivity.
  - cbn [firstn app]. rewrite skipn_all, app_nil_r. reflexivity.
Qed.

End PMany.

(** ** Algorithms on sequences *)

Section SeqAlgs.
Context {V : Type} {S : Type}.
Notation obj := (tyid * V)%type.

Lemma between_cons {A} i j (l : list A) x : nth_error l i = Some x -> i < j -> between i j l = x :: between (1 + i) j l.
Proof.
  intros Hx L. unfold between. rewrite (split_nth i x l Hx) at 1. assert (i < length l) by (apply nth_error_Some; congruence).
  rewrite skipn_app, (skipn_all2 (firstn i l)) by (rewrite firstn_length; lia). rewrite firstn_length. replace (i - Nat.min i (length l)) with 0 by lia. cbn [skipn app].
  replace (j - i) with (1 + (j - (1 + i))) by lia. reflexivity.
Qed.
Lemma between_nil {A} i (l : list A) : between i i l = [].
Proof. unfold between. rewrite Nat.sub_diag. reflexivity. Qed.

Lemma look_seqs {A X} (f : obj -> M S A) (next : A -> walk V S X) r ks n k l x ls s : nth_error ks r = Some (n, k) -> nth_error ls n = Some l -> nth_error l k = Some x ->
  run_seqs (Ref r (looking f) next) ks (ls, s) =
    match f x s with Ok s' a => run_seqs (next a) ks (ls, s') | Exn s' e => Exn (ls, s') e | UB => UB end.
Proof.
  intros H1 H2 H3. cbn [run_seqs fst snd]. rewrite H1, H2, H3. destruct x as [t v]. unfold looking. cbn [fst snd].
  destruct (f (t, v) s) as [s' a|s' e|]; auto; rewrite (reg_set_same k (t, v) l H3), (reg_set_same n l ls H2); reflexivity.
Qed.

Lemma lex_nil lt (l : list obj) : ~ lex_before lt l [].
Proof.
  intros (k & _ & [(_ & Q)|(x & y & _ & Q & _)]); [cbn in Q; lia|destruct k; discriminate].
Qed.
Lemma lex_nil_cons lt (y : obj) l : lex_before lt [] (y :: l).
Proof. exists 0. split; [lia|]. left. cbn. lia. Qed.
Lemma lex_cons lt (x y : obj) l l' : lex_before lt (x :: l) (y :: l') <-> lt x y = true \/ (lt x y = false /\ lt y x = false /\ lex_before lt l l').
Proof.
  split.
  - intros ([|k] & B & C).
    + left. destruct C as [(Q & _)|(x' & y' & Q1 & Q2 & Q3)]; [discriminate|]. cbn in Q1, Q2. congruence.
    + destruct (B 0 ltac:(lia)) as (x' & y' & Q1 & Q2 & Q3 & Q4). cbn in Q1, Q2. injection Q1 as <-. injection Q2 as <-. right. csplit; auto.
      exists k. split.
      * intros m Hm. apply (B (1 + m)). lia.
      * cbn [length nth_error] in C. destruct C as [(Q & Q')|C]; [left; lia|right; exact C].
  - intros [Q|(Q1 & Q2 & k & B & C)].
    + exists 0. split; [lia|]. right. exists x, y. auto.
    + exists (1 + k). split.
      * intros [|m] Hm; [exists x, y; auto|]. apply B. lia.
      * cbn [length nth_error Nat.add]. destruct C as [(Q & Q')|C]; [left; lia|right; exact C].
Qed.

Lemma lexicographical_seqs lt (less : obj -> obj -> M S bool) : implements lt less -> forall fuel n1 n2 l1 l2 ls i1 j1 i2 j2 (s : S),
  nth_error ls n1 = Some l1 -> nth_error ls n2 = Some l2 -> i1 <= j1 -> j1 <= length l1 -> i2 <= j2 -> j2 <= length l2 -> j1 - i1 <= fuel ->
  wp (run_seqs (w_lexicographical fuel less) [(n1, i1); (n1, j1); (n2, i2); (n2, j2)]) (ls, s)
    (fun '(ls', _) r => ls' = ls /\ (fst r = true <-> lex_before lt (between i1 j1 l1) (between i2 j2 l2))) (fun '(ls', _) _ => ls' = ls).
Proof.
  intros Hl. induction fuel as [|fuel IH]; intros n1 n2 l1 l2 ls i1 j1 i2 j2 s N1 N2 L1 B1 L2 B2 Lf; unfold wp; cbn [w_lexicographical run_seqs nth_error]; rewrite !Nat.eqb_refl.
  - destruct (Nat.eqb_spec i2 j2) as [->|Ne2].
    + cbn. split; auto. split; [discriminate|]. rewrite (between_nil j2). intros Q. destruct (lex_nil _ _ Q).
    + rewrite (proj2 (Nat.eqb_eq i1 j1)) by lia. cbn. split; auto. split; auto. intros _. assert (i1 = j1) as -> by lia. rewrite between_nil.
      destruct (nth_error l2 i2) as [y|] eqn:Qy; [|apply nth_error_None in Qy; lia]. rewrite (between_cons i2 j2 l2 y Qy) by lia. apply lex_nil_cons.
  - destruct (Nat.eqb_spec i2 j2) as [->|Ne2].
    + cbn. split; auto. split; [discriminate|]. rewrite (between_nil j2). intros Q. destruct (lex_nil _ _ Q).
    + destruct (nth_error l2 i2) as [y|] eqn:Qy; [|apply nth_error_None in Qy; lia]. rewrite (between_cons i2 j2 l2 y Qy) by lia.
      destruct (Nat.eqb_spec i1 j1) as [->|Ne1].
      * cbn. split; auto. split; auto. intros _. rewrite between_nil. apply lex_nil_cons.
      * destruct (nth_error l1 i1) as [x|] eqn:Qx; [|apply nth_error_None in Qx; lia]. rewrite (between_cons i1 j1 l1 x Qx) by lia.
        rewrite (look_seqs _ _ 0 [(n1, i1); (n1, j1); (n2, i2); (n2, j2)] n1 i1 l1 x ls s eq_refl N1 Qx). unfold ret at 1. rewrite (look_seqs _ _ 2 [(n1, i1); (n1, j1); (n2, i2); (n2, j2)] n2 i2 l2 y ls s eq_refl N2 Qy). unfold bind.
        pose proof (Hl x y s) as Hxy. destruct (less x y s) as [s1 a|s1 e|]; [|reflexivity|destruct Hxy]. subst a. destruct (lt x y) eqn:Lxy.
        { cbn. split; auto. split; auto. intros _. apply lex_cons. auto. }
        pose proof (Hl y x s1) as Hyx. destruct (less y x s1) as [s2 b|s2 e|]; [|reflexivity|destruct Hyx]. subst b. unfold ret at 1. cbn [fst snd].
        destruct (lt y x) eqn:Lyx.
        { cbn. split; auto. split; [discriminate|]. rewrite lex_cons. intros [Q|(_ & Q & _)]; congruence. }
        cbn [run_seqs nth_error fst]. rewrite N1. rewrite (proj2 (Nat.ltb_lt _ _)) by lia.
        change (reg_set 0 (n1, Datatypes.S i1) [(n1, i1); (n1, j1); (n2, i2); (n2, j2)]) with [(n1, 1 + i1); (n1, j1); (n2, i2); (n2, j2)].
        cbn [nth_error fst]. rewrite N2. rewrite (proj2 (Nat.ltb_lt _ _)) by lia.
        change (reg_set 2 (n2, Datatypes.S i2) [(n1, 1 + i1); (n1, j1); (n2, i2); (n2, j2)]) with [(n1, 1 + i1); (n1, j1); (n2, 1 + i2); (n2, j2)].
        pose proof (IH n1 n2 l1 l2 ls (1 + i1) j1 (1 + i2) j2 s2 N1 N2 ltac:(lia) B1 ltac:(lia) B2 ltac:(lia)) as Q. unfold wp in Q.
        destruct (run_seqs (w_lexicographical fuel less) _ _) as [[ls' s3] r|[ls' s3] e|]; auto. destruct Q as (-> & Q). split; auto.
        rewrite Q, lex_cons. split; [auto|]. intros [Q'|(_ & _ & Q')]; [congruence|exact Q'].
Qed.

End SeqAlgs.

Section Merge.
Context {V : Type} (lt : tyid * V -> tyid * V -> bool) (Hlt : swo lt).
Notation obj := (tyid * V)%type.
Notation less := (fun x y : obj => ret (S := list obj) (lt x y)).

Notation merged := (merged lt).
Lemma merged_left x b1 b2 out : (forall y, hd_error b2 = Some y -> lt y x = false) -> merged b1 b2 out -> merged (x :: b1) b2 (x :: out).
Proof.
  intros Hy (P & I). split; [cbn; constructor; exact P|]. intros I1 I2. inversion I1 as [|? ? I1' F1]; subst. constructor; [exact (I I1' I2)|].
  apply Forall_forall. intros z Hz. apply (Permutation_in _ (Permutation_sym P)) in Hz. apply in_app_or in Hz. destruct Hz as [Hz|Hz].
  - rewrite Forall_forall in F1. auto.
  - destruct b2 as [|y b2]; [destruct Hz|]. specialize (Hy y eq_refl). destruct Hz as [->|Hz]; [exact Hy|]. inversion I2 as [|? ? _ F2]; subst. rewrite Forall_forall in F2.
    exact (swo_incomp _ Hlt z y x (F2 z Hz) Hy).
Qed.
Lemma merged_right y b1 b2 out : (forall x, hd_error b1 = Some x -> lt y x = true) -> merged b1 b2 out -> merged b1 (y :: b2) (y :: out).
Proof.
  intros Hx (P & I). split; [rewrite <- Permutation_middle; constructor; exact P|]. intros I1 I2. inversion I2 as [|? ? I2' F2]; subst. constructor; [exact (I I1 I2')|].
  apply Forall_forall. intros z Hz. apply (Permutation_in _ (Permutation_sym P)) in Hz. apply in_app_or in Hz. destruct Hz as [Hz|Hz].
  - destruct b1 as [|x b1]; [destruct Hz|]. specialize (Hx x eq_refl). destruct (lt z y) eqn:Q; [|reflexivity]. pose proof (swo_trans _ Hlt z y x Q Hx) as Q'.
    destruct Hz as [->|Hz]; [rewrite (swo_irrefl _ Hlt) in Q'; discriminate|]. inversion I1 as [|? ? _ F1]; subst. rewrite Forall_forall in F1. rewrite (F1 z Hz) in Q'. discriminate.
  - rewrite Forall_forall in F2. auto.
Qed.

Lemma merge_seqs : forall fuel n1 n2 (l1 l2 : list obj) ls i1 j1 i2 j2 out,
  nth_error ls n1 = Some l1 -> nth_error ls n2 = Some l2 -> i1 <= j1 -> j1 <= length l1 -> i2 <= j2 -> j2 <= length l2 -> (j1 - i1) + (j2 - i2) <= fuel ->
  exists out', run_seqs (w_merge fuel less append) [(n1, i1); (n1, j1); (n2, i2); (n2, j2)] (ls, out) = Ok (ls, out ++ out') (tt, [(n1, j1); (n1, j1); (n2, j2); (n2, j2)]) /\
    merged (between i1 j1 l1) (between i2 j2 l2) out'.
Proof.
  assert (Go1 : forall fuel n1 n2 (l1 l2 : list obj) ls i1 j1 i2 j2 out x, nth_error ls n1 = Some l1 -> nth_error l1 i1 = Some x -> i1 < j1 ->
    run_seqs (Ref 0 (looking append) (fun _ => Inc 0 (w_merge fuel less append))) [(n1, i1); (n1, j1); (n2, i2); (n2, j2)] (ls, out) =
    run_seqs (w_merge fuel less append) [(n1, 1 + i1); (n1, j1); (n2, i2); (n2, j2)] (ls, out ++ [x])).
  { intros fuel n1 n2 l1 l2 ls i1 j1 i2 j2 out x N1 Qx L. rewrite (look_seqs _ _ 0 [(n1, i1); (n1, j1); (n2, i2); (n2, j2)] n1 i1 l1 x ls out eq_refl N1 Qx). unfold append at 1, modify.
    cbn [run_seqs nth_error fst]. rewrite N1. assert (i1 < length l1) by (apply nth_error_Some; congruence). rewrite (proj2 (Nat.ltb_lt _ _)) by lia. reflexivity. }
  assert (Go2 : forall fuel n1 n2 (l1 l2 : list obj) ls i1 j1 i2 j2 out y, nth_error ls n2 = Some l2 -> nth_error l2 i2 = Some y -> i2 < j2 ->
    run_seqs (Ref 2 (looking append) (fun _ => Inc 2 (w_merge fuel less append))) [(n1, i1); (n1, j1); (n2, i2); (n2, j2)] (ls, out) =
    run_seqs (w_merge fuel less append) [(n1, i1); (n1, j1); (n2, 1 + i2); (n2, j2)] (ls, out ++ [y])).
  { intros fuel n1 n2 l1 l2 ls i1 j1 i2 j2 out y N2 Qy L. rewrite (look_seqs _ _ 2 [(n1, i1); (n1, j1); (n2, i2); (n2, j2)] n2 i2 l2 y ls out eq_refl N2 Qy). unfold append at 1, modify.
    cbn [run_seqs nth_error fst]. rewrite N2. assert (i2 < length l2) by (apply nth_error_Some; congruence). rewrite (proj2 (Nat.ltb_lt _ _)) by lia. reflexivity. }
  induction fuel as [|fuel IH]; intros n1 n2 l1 l2 ls i1 j1 i2 j2 out N1 N2 L1 B1 L2 B2 Lf; cbn [w_merge run_seqs nth_error]; rewrite !Nat.eqb_refl.
  - rewrite !(proj2 (Nat.eqb_eq _ _)) by lia. assert (i1 = j1) as -> by lia. assert (i2 = j2) as -> by lia. cbn. exists []. rewrite app_nil_r. split; auto.
    rewrite !between_nil. split; auto.
  - destruct (Nat.eqb_spec i1 j1) as [->|Ne1], (Nat.eqb_spec i2 j2) as [->|Ne2]; cbn [andb].
    + cbn. exists []. rewrite app_nil_r. split; auto. rewrite !between_nil. split; auto.
    + destruct (nth_error l2 i2) as [y|] eqn:Qy; [|apply nth_error_None in Qy; lia]. rewrite (Go2 fuel n1 n2 l1 l2 ls _ _ i2 j2 out y N2 Qy) by lia.
      destruct (IH n1 n2 l1 l2 ls j1 j1 (1 + i2) j2 (out ++ [y]) N1 N2) as (out' & -> & Mg); try lia. exists (y :: out'). rewrite <- app_assoc. split; [reflexivity|].
      rewrite (between_cons i2 j2 l2 y Qy) by lia. apply merged_right; auto. rewrite between_nil. discriminate.
    + destruct (nth_error l1 i1) as [x|] eqn:Qx; [|apply nth_error_None in Qx; lia]. rewrite (Go1 fuel n1 n2 l1 l2 ls i1 j1 _ _ out x N1 Qx) by lia.
      destruct (IH n1 n2 l1 l2 ls (1 + i1) j1 j2 j2 (out ++ [x]) N1 N2) as (out' & -> & Mg); try lia. exists (x :: out'). rewrite <- app_assoc. split; [reflexivity|].
      rewrite (between_cons i1 j1 l1 x Qx) by lia. apply merged_left; auto. rewrite between_nil. discriminate.
    + destruct (nth_error l1 i1) as [x|] eqn:Qx; [|apply nth_error_None in Qx; lia]. destruct (nth_error l2 i2) as [y|] eqn:Qy; [|apply nth_error_None in Qy; lia].
      rewrite (look_seqs _ _ 0 [(n1, i1); (n1, j1); (n2, i2); (n2, j2)] n1 i1 l1 x ls out eq_refl N1 Qx). unfold ret at 1. rewrite (look_seqs _ _ 2 [(n1, i1); (n1, j1); (n2, i2); (n2, j2)] n2 i2 l2 y ls out eq_refl N2 Qy). unfold ret at 1.
      destruct (lt y x) eqn:Q.
      * rewrite (Go2 fuel n1 n2 l1 l2 ls _ _ i2 j2 out y N2 Qy) by lia. destruct (IH n1 n2 l1 l2 ls i1 j1 (1 + i2) j2 (out ++ [y]) N1 N2) as (out' & -> & Mg); try lia.
        exists (y :: out'). rewrite <- app_assoc. split; [reflexivity|]. rewrite (between_cons i2 j2 l2 y Qy) by lia. apply merged_right; auto.
        intros x'. rewrite (between_cons i1 j1 l1 x Qx) by lia. intros [= <-]. exact Q.
      * rewrite (Go1 fuel n1 n2 l1 l2 ls i1 j1 _ _ out x N1 Qx) by lia. destruct (IH n1 n2 l1 l2 ls (1 + i1) j1 i2 j2 (out ++ [x]) N1 N2) as (out' & -> & Mg); try lia.
        exists (x :: out'). rewrite <- app_assoc. split; [reflexivity|]. rewrite (between_cons i1 j1 l1 x Qx) by lia. apply merged_left; auto.
        intros y'. rewrite (between_cons i2 j2 l2 y Qy) by lia. intros [= <-]. exact Q.
Qed.
End Merge.

Section Update.
Context {V : Type} {S : Type}.
Notation obj := (tyid * V)%type.

Lemma reg_set_twice {I} k (x y : I) l : k < length l -> reg_set k x (reg_set k y l) = reg_set k x l.
Proof.
  intros H. apply nth_error_ext. intros m. rewrite !reg_set_nth; rewrite ?reg_set_length; auto. destruct (m =? k); reflexivity.
Qed.

Lemma update_seqs (h : obj -> obj -> V) : forall fuel n1 n2 (l1 l2 : list obj) ls i1 j1 i2 j2 (s : S),
  n1 <> n2 -> nth_error ls n1 = Some l1 -> nth_error ls n2 = Some l2 -> i1 <= j1 -> j1 <= length l1 -> i2 + (j1 - i1) <= length l2 -> j1 - i1 <= fuel ->
  run_seqs (w_update fuel (assigning h)) [(n1, i1); (n1, j1); (n2, i2); (n2, j2)] (ls, s) =
    Ok (reg_set n2 (firstn i2 l2 ++ map (fun xy => (fst (snd xy), h (fst xy) (snd xy))) (combine (between i1 j1 l1) (between i2 (i2 + (j1 - i1)) l2)) ++ skipn (i2 + (j1 - i1)) l2) ls, s)
       (tt, [(n1, j1); (n1, j1); (n2, i2 + (j1 - i1)); (n2, j2)]).
Proof.
  induction fuel as [|fuel IH]; intros n1 n2 l1 l2 ls i1 j1 i2 j2 s Ne N1 N2 L1 B1 L2 Lf; cbn [w_update run_seqs nth_error]; rewrite !Nat.eqb_refl.
  - rewrite (proj2 (Nat.eqb_eq _ _)) by lia. assert (i1 = j1) as -> by lia. cbn. rewrite Nat.sub_diag, Nat.add_0_r, !between_nil. cbn. rewrite firstn_skipn, (reg_set_same n2 l2 ls N2). reflexivity.
  - destruct (Nat.eqb_spec i1 j1) as [->|Ne1].
    + cbn. rewrite Nat.sub_diag, Nat.add_0_r, !between_nil. cbn. rewrite firstn_skipn, (reg_set_same n2 l2 ls N2). reflexivity.
    + destruct (nth_error l1 i1) as [x|] eqn:Qx; [|apply nth_error_None in Qx; lia]. destruct (nth_error l2 i2) as [[t v]|] eqn:Qy; [|apply nth_error_None in Qy; lia].
      rewrite (look_seqs _ _ 0 [(n1, i1); (n1, j1); (n2, i2); (n2, j2)] n1 i1 l1 x ls s eq_refl N1 Qx). unfold ret at 1. cbn [run_seqs nth_error fst snd]. rewrite N2, Qy. unfold assigning at 1, modify. cbn [fst snd].
      set (l2' := reg_set i2 (t, h x (t, v)) l2). assert (Ll : length l2' = length l2) by (apply reg_set_length; lia).
      assert (Hn2 : n2 < length ls) by (apply nth_error_Some; congruence).
      assert (N1' : nth_error (reg_set n2 l2' ls) n1 = Some l1) by (rewrite reg_set_nth by exact Hn2; destruct (Nat.eqb_spec n1 n2); [contradiction|exact N1]).
      assert (N2' : nth_error (reg_set n2 l2' ls) n2 = Some l2') by (rewrite reg_set_nth by exact Hn2; rewrite Nat.eqb_refl; reflexivity).
      cbn [run_seqs nth_error fst]. rewrite N1'. rewrite (proj2 (Nat.ltb_lt _ _)) by lia.
      change (reg_set 0 (n1, Datatypes.S i1) [(n1, i1); (n1, j1); (n2, i2); (n2, j2)]) with [(n1, 1 + i1); (n1, j1); (n2, i2); (n2, j2)].
      cbn [nth_error fst]. rewrite N2'. rewrite (proj2 (Nat.ltb_lt _ _)) by lia.
      change (reg_set 2 (n2, Datatypes.S i2) [(n1, 1 + i1); (n1, j1); (n2, i2); (n2, j2)]) with [(n1, 1 + i1); (n1, j1); (n2, 1 + i2); (n2, j2)].
      rewrite (IH n1 n2 l1 l2' (reg_set n2 l2' ls) (1 + i1) j1 (1 + i2) j2 s Ne N1' N2') by lia.
      rewrite reg_set_twice by exact Hn2. replace (1 + i2 + (j1 - (1 + i1))) with (i2 + (j1 - i1)) by lia.
      assert (Qy' : nth_error l2' i2 = Some (t, h x (t, v))) by (unfold l2'; rewrite reg_set_nth by lia; rewrite Nat.eqb_refl; reflexivity).
      assert (E1 : firstn (1 + i2) l2' = firstn i2 l2 ++ [(t, h x (t, v))]).
      { etransitivity; [exact (firstn_S_nth i2 l2' _ Qy')|]. f_equal. unfold l2', reg_set. rewrite firstn_app, firstn_firstn, firstn_length. replace (i2 - Nat.min i2 (length l2)) with 0 by lia.
        rewrite Nat.min_id. cbn [firstn]. apply app_nil_r. }
      assert (E2 : forall m, i2 < m -> skipn m l2' = skipn m l2).
      { intros m Hm. unfold l2', reg_set. rewrite skipn_app, firstn_length, (skipn_all2 (firstn i2 l2)) by (rewrite firstn_length; lia). cbn [app].
        destruct (m - Nat.min i2 (length l2)) as [|q] eqn:Q; [lia|].
        change (skipn (Datatypes.S q) ((t, h x (t, v)) :: skipn (Datatypes.S i2) l2)) with (skipn q (skipn (Datatypes.S i2) l2)). rewrite skipn_skipn. f_equal. lia. }
      rewrite E1, (E2 (i2 + (j1 - i1))) by lia. unfold between at 2. rewrite (E2 (1 + i2)) by lia.
      rewrite (between_cons i1 j1 l1 x Qx) by lia. rewrite (between_cons i2 (i2 + (j1 - i1)) l2 (t, v) Qy) by lia. cbn [combine map fst snd].
      rewrite <- app_assoc. reflexivity.
Qed.
End Update.
