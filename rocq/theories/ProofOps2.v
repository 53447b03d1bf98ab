(** * Specifications of range insertion, erasure, clearing, reserving and shrinking *)

From Coq Require Import List Arith Lia Bool Permutation.
From Verif Require Import Base Vec Backend ProofBase ProofVec ProofBackend ProofOps.
Import ListNotations.

Section POps2.
Context {V : Type} {E : Env V}.

Notation BW := (backend V * world)%type.

Ltac bmono := solve [eapply bthrew_mono; [|eassumption|]; wle_tac].

(** ** Range insertion *)

Definition rng_reason (t : tyid) (h : how) (b : backend V) (m : nat) (w w' : world) (e : exn) : Prop :=
  bthrew t (Some h) (bsize b + m) w w' e \/ (e = LengthError /\ len_err t b m).

Lemma bthrew_size t h n n' w w' e : n <= n' -> bthrew t h n w w' e -> bthrew t h n' w w' e.
Proof.
  intros ? [(Q & F)|(? & ? & [?|[? ?]])]; [left|right|right]; auto; [|csplit; auto; right; split; auto; lia].
  split; auto. destruct Q as [Q|(Q & [N|(N & N')])]; auto; right; split; auto; [left; auto|right; split; auto; lia].
Qed.

Definition rng_ok (t : tyid) (k : nat) (xs : list V) (b : backend V) (w : world)
  (R : nat -> nat) (K : nat) (b' : backend V) (w' : world) (r : ptr * ptr) : Prop :=
  belems b' = insert_list_at k xs (belems b) /\ wfb t b' /\ bown t w' b' R K /\ wle w w' /\
  be_self b' = be_self b /\ r = (be_ptr b' k, be_end b') /\
  (bsize b + length xs <= bcap b -> stable b b').

Definition rng_exn (t : tyid) (h : how) (fwd : bool) (k : nat) (xs : list V) (b : backend V) (w : world)
  (R : nat -> nat) (K : nat) (b' : backend V) (w' : world) (e : exn) : Prop :=
  wfb1 t b' /\ bown t w' b' R K /\ wle w w' /\ be_self b' = be_self b /\
  bsize b <= bsize b' <= bsize b + length xs /\
  rng_reason t h b (length xs) w w' e /\
  (env_layout = PackedLayout -> wfb t b' /\ (fwd = true -> v_blk (be_store b') = v_blk (be_store b))) /\
  (env_layout = SplitLayout -> roomy b -> fwd = true \/ k = bsize b \/ nothrow t = true -> wfb t b') /\
  (env_layout = SplitLayout -> roomy b -> fwd = false -> k = bsize b \/ nothrow t = true ->
     exists j, j < length xs /\ belems b' = insert_list_at k (firstn j xs) (belems b)) /\
  (env_layout = PackedLayout -> fwd = true -> e = BadAlloc \/ e = LengthError -> b' = b).

Lemma wp_pk_insert_range t h fwd p k xs b w R K (Q : BW -> ptr * ptr -> Prop) (X : BW -> exn -> Prop) :
  env_layout = PackedLayout -> wfb t b -> bown t w b R K -> pos_at b p k -> k <= bsize b ->
  (forall b' w' r, rng_ok t k xs b w R K b' w' r -> Q (b', w') r) ->
  (forall b' w' e, rng_exn t h fwd k xs b w R K b' w' e -> X (b', w') e) ->
  wp (pk_insert_range t h p xs) (b, w) Q X.
Proof.
  intros L W H Hp Hk HQ HX. destruct (wfb_0 _ _ W) as [Ws Wi Wf].
  assert (Ix := wfb_packed _ _ L W). unfold pk_insert_range.
  apply wp_bind. eapply wp_pk_iterator_from; eauto.
  apply wp_bind, wp_on_store.
  eapply wp_vec_insert_range; [exact Ws|apply bown_store_id; exact H|exact Hk| |].
  - intros w1 s1 El W1 H1 L1 P1 P2. cbn [fst snd]. apply bown_store in H1.
    unfold pk_range_from. apply wp_bind, wp_getx, wp_ret. cbn [fst].
    apply HQ. unfold rng_ok. csplit; auto.
    + split; [split; auto|]. rewrite L. auto.
    + unfold be_end. rewrite !be_ptr_packed by auto. auto.
    + intros C. destruct (P1 C). unfold stable. csplit; auto.
      intros. rewrite !be_ptr_packed by auto. unfold vptr. simpl. f_equal. auto.
  - intros w1 s1 e W1 H1 L1 Re. cbn [fst snd]. apply bown_store in H1.
    assert (WB : wfb t (set_store b s1)).
    { split; [split; auto|]. rewrite L. auto. }
    assert (J : v_blk s1 = v_blk (be_store b) /\ bsize b <= vsize s1 <= bsize b + length xs /\
                rng_reason t h b (length xs) w w1 e /\
                (e = BadAlloc \/ e = LengthError -> set_store b s1 = b)).
    { assert (Id : set_store b (be_store b) = b) by (destruct b; reflexivity).
      destruct Re as [(? & ? & -> & ?)|((J1 & J2 & J3) & T & N)].
      - csplit; auto; try (unfold bsize; lia). right. split; auto. left. auto.
      - csplit; auto; try (unfold bsize; destruct (_ <=? _); lia).
        2:{ intros [->| ->].
            - rewrite N; auto. cbn [vh_eops eo_refuse]. destruct (env_copyable t); discriminate.
            - exfalso. destruct T as [([Q1|(Q1 & _)] & _)|(Q1 & _)]; [discriminate Q1|discriminate Q1|].
              cbn [vh_eops eo_refuse] in Q1. destruct (env_copyable t); discriminate Q1. }
        left. eapply bthrew_size; [|apply vthrew_bthrew; exact T]. unfold bsize. lia. }
    destruct J as (J1 & J2 & J3 & J4).
    apply HX. unfold rng_exn. csplit; auto; try congruence.
    + exact (wfb_1 _ _ WB).
    + unfold bsize in *. simpl. lia.
    + unfold bsize in *. simpl. lia.
Qed.

Lemma insert_list_at_nil {A} k (l : list A) : insert_list_at k [] l = l.
Proof. unfold insert_list_at. simpl. apply firstn_skipn. Qed.

Lemma insert_list_at_cons {A} k (x : A) xs l :
  k <= length l -> insert_list_at (S k) xs (insert_at k x l) = insert_list_at k (x :: xs) l.
Proof.
  intros Hk. unfold insert_list_at, insert_at.
  assert (Hf : length (firstn k l) = k) by (rewrite firstn_length; lia).
  rewrite firstn_app, skipn_app, Hf.
  replace (S k - k) with 1 by lia.
  rewrite (skipn_all2 (firstn k l)), (firstn_all2 (firstn k l)) by lia.
  simpl. rewrite <- app_assoc. reflexivity.
Qed.

Lemma ins_ok_size t k v b w R K b' w' r : ins_ok t k v b w R K b' w' r -> bsize b' = S (bsize b).
Proof. intros (El & _). unfold bsize, vsize. unfold belems in El. rewrite El. apply insert_at_length. Qed.

Lemma wp_pk_input_loop t h R K xs : forall b w k (Q : BW -> unit -> Prop) (X : BW -> exn -> Prop),
  env_layout = PackedLayout -> wfb t b -> bown t w b R K -> k <= bsize b ->
  (forall b' w', rng_ok t k xs b w R K b' w' (be_ptr b' k, be_end b') -> Q (b', w') tt) ->
  (forall b' w' e, rng_exn t h false k xs b w R K b' w' e -> X (b', w') e) ->
  wp (pk_insert_input_loop t h k xs) (b, w) Q X.
Proof.
  induction xs as [|x xs IH]; intros b w k Q X L W H Hk HQ HX; cbn [pk_insert_input_loop].
  - apply wp_ret. apply HQ. unfold rng_ok. csplit; auto using wle_refl.
    + rewrite insert_list_at_nil; auto.
    + unfold stable; auto.
  - assert (P := wp_pk_insert t h (PConc (vptr (be_store b) k)) k (SVal x) x b w R K
      (fun s _ => wp (pk_insert_input_loop t h (S k) xs) s Q X) X L W H (or_intror eq_refl) Hk (or_introl eq_refl)).
    match type of P with ?A -> ?B -> ?C => assert (PA : A); [|assert (PB : B)] end.
    3:{ specialize (P PA PB). clear PA PB HQ HX IH. revert P.
        unfold pk_insert, pk_iterator_from, read_src, pk_range_from, vptr, wp, bind, ret, getx. cbn [fst snd].
        rewrite Nat.eqb_refl. cbn [fst snd].
        destruct (on_store (vec_emplace (vh_eops t) k h x) (b, w)) as [s1 n|s1 e|]; auto. }
    + intros b1 w1 r1 O1.
      assert (Es1 := ins_ok_size _ _ _ _ _ _ _ _ _ _ O1).
      destruct O1 as (El & W1 & H1 & L1 & Sf & _ & ST & _).
      apply (IH b1 w1 (S k)); auto; [lia| |].
      * intros b2 w2 (El2 & W2 & H2 & L2 & Sf2 & R2 & ST2).
        apply HQ. unfold rng_ok. csplit; auto.
        -- rewrite El2, El. apply insert_list_at_cons. exact Hk.
        -- wle_tac.
        -- congruence.
        -- simpl length. intros C. destruct ST as (A1 & A2 & A3); [lia|].
           destruct ST2 as (B1 & B2 & B3); [lia|].
           unfold stable. csplit; try congruence.
           intros Hn k0. rewrite B3, A3; auto; lia.
      * intros b2 w2 e (A1 & A2 & A3 & A4 & A5 & A6 & A7 & A8 & A9 & _).
        apply HX. unfold rng_exn. simpl length.
        csplit; auto; try lia; try congruence; try wle_tac.
        -- destruct A6 as [T|(? & Le)].
           ++ left. replace (bsize b + S (length xs)) with (bsize b1 + length xs) by lia. bmono.
           ++ right. split; auto. unfold len_err in *.
              replace (bsize b + S (length xs)) with (bsize b1 + length xs) by lia. auto.
        -- intros _. split; [apply A7; auto|discriminate].
    + intros b1 w1 e (A1 & A2 & A3 & A4 & A5 & A6 & A7 & A8).
      apply HX. unfold rng_exn. simpl length. csplit; auto; try lia; try congruence.
      * destruct A6 as [T|(? & Le)].
        -- left. eapply bthrew_size; [|exact T]. lia.
        -- right. split; auto. unfold len_err in *. destruct Le as [?|[? ?]]; [left; lia|right; split; auto; lia].
      * intros _. split; [apply A7; auto|discriminate].
Qed.

Lemma wp_pk_insert_input t h p k xs b w R K (Q : BW -> ptr * ptr -> Prop) (X : BW -> exn -> Prop) :
  env_layout = PackedLayout -> wfb t b -> bown t w b R K -> pos_at b p k -> k <= bsize b ->
  (forall b' w' r, rng_ok t k xs b w R K b' w' r -> Q (b', w') r) ->
  (forall b' w' e, rng_exn t h false k xs b w R K b' w' e -> X (b', w') e) ->
  wp (pk_insert_input t h p xs) (b, w) Q X.
Proof.
  intros L W H Hp Hk HQ HX. unfold pk_insert_input.
  apply wp_bind. eapply wp_pk_iterator_from; eauto.
  apply wp_bind. eapply wp_pk_input_loop; eauto. intros b1 w1 O.
  unfold pk_range_from. apply wp_bind, wp_getx, wp_ret. cbn [fst].
  apply HQ. destruct O as (A1 & A2 & A3 & A4 & A5 & A6 & A7).
  unfold rng_ok. csplit; auto.
  unfold be_end. rewrite !be_ptr_packed by auto. auto.
Qed.

Lemma wp_sp_insert_forward t h k xs b w R K (Q : BW -> ptr * ptr -> Prop) (X : BW -> exn -> Prop) :
  env_layout = SplitLayout -> wfb t b -> bown t w b R K -> k <= bsize b ->
  (forall b' w' r, rng_ok t k xs b w R K b' w' r -> Q (b', w') r) ->
  (forall b' w' e, rng_exn t h true k xs b w R K b' w' e -> X (b', w') e) ->
  wp (sp_insert_forward t h (PConc (vptr (be_store b) k)) xs) (b, w) Q X.
Proof.
  intros L W H Hk HQ HX. unfold sp_insert_forward. apply wp_bind, wp_getx. cbn [fst].
  change (vsize (be_store b)) with (bsize b). rewrite Nat.add_1_r.
  destruct (Nat.eqb_spec (length xs) 0) as [Z|Z].
  { apply wp_bind, wp_ret, wp_bind. eapply wp_sp_iterator_from; [auto|right; reflexivity|].
    unfold sp_range_from. apply wp_bind, wp_getx, wp_ret. cbn [fst].
    destruct xs; [|simpl in Z; lia].
    apply HQ. unfold rng_ok. csplit; auto using wle_refl.
    - unfold insert_list_at. simpl. rewrite firstn_skipn. auto.
    - unfold be_end. rewrite !be_ptr_split by auto. auto.
    - intros _. unfold stable; auto. }
  (* once there is room *)
  assert (MID : forall b1 w1, wfb t b1 -> bown t w1 b1 R K -> wle w w1 -> belems b1 = belems b ->
     be_self b1 = be_self b -> bsize b + length xs <= bcap b1 ->
     (b1 = b \/ (roomy b1 /\ bcap b < bsize b + length xs)) ->
     wp (p' <- (k0 <- sp_iterator_from (PConc (vptr (be_store b1) k));;
                try_rethrow (on_store (vec_insert_range (vh_eops t) k0 h xs)) (sp_build_index (S (bsize b)));;
                sp_build_index (S (bsize b));; ret (PConc (vptr (be_store b1) k)));;
         k0 <- sp_iterator_from p';; sp_range_from k0) (b1, w1) Q X).
  { intros b1 w1 W1 H1 L1 El Sf Hr Or. destruct (wfb_0 _ _ W1) as [Ws Wi Wf].
    assert (Es : bsize b1 = bsize b) by (unfold bsize, vsize; unfold belems in El; rewrite El; auto).
    assert (SP := wfb_split _ _ L W1). rewrite <- Es.
    apply wp_bind, wp_bind. eapply wp_sp_iterator_from; [auto|right; reflexivity|].
    apply wp_bind, wp_try, wp_on_store.
    eapply wp_vec_insert_range; [exact Ws|apply bown_store_id; exact H1|rewrite <- Es in Hk; exact Hk| |].
    - intros w2 s2 El2 W2 H2 L2 P1 _. cbn [fst snd]. apply bown_store in H2.
      destruct P1 as [Eb Ec]; [unfold bsize, bcap in *; lia|].
      assert (S2 : vsize s2 = bsize b1 + length xs).
      { unfold vsize. rewrite El2, insert_list_at_length. unfold bsize, vsize. lia. }
      apply wp_bind. eapply wp_build_tail; [exact L|exact (wfb_0 _ _ W1)|exact SP|auto|auto|lia|auto|exact H2| |].
      + intros w3 b3 Es3 Sf3 W3 H3 L3 ST _. apply wp_ret, wp_bind.
        eapply wp_sp_iterator_from with (k := k); [auto|right; rewrite Es3; unfold vptr; rewrite Eb; reflexivity|].
        unfold sp_range_from. apply wp_bind, wp_getx, wp_ret. cbn [fst].
        apply HQ. unfold rng_ok. csplit; auto.
        * unfold belems in *. rewrite Es3, El2, El. auto.
        * wle_tac.
        * congruence.
        * unfold be_end. rewrite !be_ptr_split by auto. auto.
        * intros C. destruct Or as [->|[_ ?]]; [|lia].
          unfold stable, bcap. rewrite Es3. csplit; auto.
          intros Hn. apply ST. destruct SP as (_ & _ & [?|[? ?]]); auto; lia.
      + intros w3 e NR W3 H3 L3 Z1 Z2 Re. apply HX. unfold rng_exn.
        destruct Or as [->|[? ?]]; [|tauto].
        csplit; auto; try congruence; try wle_tac; try (unfold bsize in *; simpl; lia).
        * destruct Re as [(? & ?)|(? & ?)].
          -- left. left. split; auto. fmono.
          -- right. split; auto. right. split; auto. lia.
    - intros w2 s2 e W2 H2 L2 Re. cbn [fst snd]. apply bown_store in H2.
      assert (J : v_blk s2 = v_blk (be_store b1) /\ v_cap s2 = bcap b1 /\
                  bsize b <= vsize s2 <= bsize b + length xs /\
                  rng_reason t h b (length xs) w w2 e).
      { rewrite <- Es. destruct Re as [(? & ? & -> & ?)|((J1 & J2 & J3) & T & _)].
        - csplit; auto; try (unfold bsize; lia). right. split; auto. left. rewrite <- Es. auto.
        - csplit; auto; try (unfold bsize; destruct (_ <=? _); lia).
          left. rewrite <- Es. eapply bthrew_size with (n := bsize b1); [lia|]. apply vthrew_bthrew in T.
          unfold bsize. bmono. }
      destruct J as (J1 & J2 & J3 & J4).
      eapply wp_build_tail; [exact L|exact (wfb_0 _ _ W1)|exact SP|auto|auto|lia|auto|exact H2| |].
      + intros w3 b3 Es3 Sf3 W3 H3 L3 ST _. apply HX. unfold rng_exn.
        csplit; auto; try congruence; try wle_tac; try (unfold bsize in *; rewrite Es3; lia).
        * exact (wfb_1 _ _ W3).
        * destruct J4 as [?|?]; [left; bmono|right; auto].
      + intros w3 e' NR W3 H3 L3 Z1 Z2 Re'. apply HX. unfold rng_exn.
        destruct Or as [->|[? ?]]; [|tauto].
        csplit; auto; try congruence; try wle_tac; try (unfold bsize in *; simpl; lia).
        * destruct Re' as [(? & ?)|(? & ?)].
          -- left. left. split; auto. fmono.
          -- right. split; auto. right. split; auto. lia. }
  apply wp_bind. unfold sp_prereserve_n. apply wp_bind, wp_bind, wp_getx. cbn [fst].
  assert (Hs : bsize b <= bcap b) by (destruct W as [[[] ? ?] ?]; auto).
  destruct (Nat.ltb_spec (v_cap (be_store b)) (vsize (be_store b) + length xs)) as [C|C].
  - apply wp_bind. eapply wp_sp_iterator_from; [auto|right; reflexivity|].
    apply wp_bind. unfold sp_expand_n. apply wp_bind, wp_getx. cbn [fst].
    eapply wp_grow; [exact L|exact W|exact H|unfold bcap; lia| |].
    + intros w1 b1 El W1 H1 L1 Ec RM Sf Hb _. apply wp_bind, wp_getx, wp_ret. cbn [fst].
      specialize (MID b1 w1 W1 H1 L1 El Sf).
      apply wp_bind_inv. apply MID; [unfold bsize in *; lia|right; split; auto].
    + intros w1 b1 e W1 Es Sf H1 L1 Re.
      assert (E1 : bsize b1 = bsize b) by (unfold bsize; rewrite Es; auto).
      apply HX. unfold rng_exn. csplit; auto; try congruence; try lia.
      * exact (wfb_1 _ _ W1).
      * unfold bsize in *. destruct Re as [?|(? & Re)].
        -- left. eapply bthrew_size; [|apply bthrew_weak; eauto]. unfold bsize; lia.
        -- right. split; auto. unfold len_err, bsize. destruct Re; [right; split; auto; lia|left; auto].
  - apply wp_ret. apply wp_bind_inv. apply MID; auto using wle_refl.
Qed.
(** one step of the input iterator loop *)
Lemma wp_sp_step t h k v b w R K (Q : BW -> bpos -> Prop) (X : BW -> exn -> Prop) :
  env_layout = SplitLayout -> wfb t b -> bown t w b R K -> k <= bsize b ->
  (forall b' w' r, ins_ok t k v b w R K b' w' r -> Q (b', w') (PConc (vptr (be_store b') k))) ->
  (forall b' w' e, ins_exn t h k b w R K b' w' e -> X (b', w') e) ->
  wp (q <- sp_prereserve_at t (PConc (vptr (be_store b) k)) ;;
      k <- sp_iterator_from q ;;
      on_store (vec_emplace (vh_eops t) k h v) ;;
      sp_push_index_entry ;; ret q) (b, w) Q X.
Proof.
  intros L W H Hk HQ HX.
  assert (PL : forall b1 w1 (Q1 : BW -> bpos -> Prop) (X1 : BW -> exn -> Prop),
    wfb t b1 -> bown t w1 b1 R K -> k <= bsize b1 -> bsize b1 < bcap b1 ->
    (forall b' w' r, ins_ok t k v b1 w1 R K b' w' r -> Q1 (b', w') (PConc (vptr (be_store b') k))) ->
    (forall b' w' e, ins_exn t h k b1 w1 R K b' w' e -> X1 (b', w') e) ->
    wp (on_store (vec_emplace (vh_eops t) k h v) ;;
        sp_push_index_entry ;; ret (PConc (vptr (be_store b1) k))) (b1, w1) Q1 X1).
  { intros b1 w1 Q1 X1 W1 H1 Hk1 Hr HQ1 HX1.
    assert (P := wp_sp_place t h k v b1 w1 R K
       (fun s r => ins_ok t k v b1 w1 R K (fst s) (snd s) r)
       (fun s e => ins_exn t h k b1 w1 R K (fst s) (snd s) e)
       L W1 H1 Hk1 Hr (fun _ _ _ h => h) (fun _ _ _ h => h)).
    unfold wp, bind, on_store, on_field in *. cbn [fst snd] in *.
    destruct (vec_emplace (vh_eops t) k h v (be_store b1, w1)) as [[s2 w2] n|[s2 w2] e|];
      [|apply HX1; exact P|exact P].
    match type of P with context [sp_push_index_entry ?st] =>
      destruct (sp_push_index_entry st) as [[b3 w3] []|[b3 w3] e|] end; [|apply HX1; exact P|exact P].
    unfold getx, sp_range_from, bind, ret, getx in *. cbn [fst snd] in *.
    assert (P' := P). destruct P' as (_ & _ & _ & _ & _ & _ & ST & _).
    destruct (ST Hr) as (ST1 & _). unfold vptr in *. rewrite <- ST1. eapply HQ1; eauto. }
  apply wp_bind. eapply wp_sp_prereserve_at; [exact L|exact W|exact H|right; reflexivity| | |].
  - intros Hr. apply wp_bind. eapply wp_sp_iterator_from; [auto|right; reflexivity|]. eapply PL; eauto.
  - intros w1 b1 p1 F Hp1 Pq El W1 H1 L1 Ec RM Sf Hr Hb. simpl in Pq. subst p1.
    assert (Es : bsize b1 = bsize b) by (unfold bsize, vsize; unfold belems in El; rewrite El; auto).
    apply wp_bind. eapply wp_sp_iterator_from; [auto|right; reflexivity|].
    eapply PL; [exact W1|exact H1|lia|exact Hr| |].
    + intros b2 w2 r O. eapply HQ. eapply ins_ok_grown; eauto.
    + intros b2 w2 e O. apply HX.
      destruct (ins_exn_grown t h k b b1 w w1 R K b2 w2 e) as (A1 & A2 & A3 & A4 & A5 & A6 & A7); auto.
      unfold ins_exn. csplit; auto; try lia; try congruence.
      intros _ _ HK. destruct (A7 HK). csplit; auto. lia.
  - intros w1 b1 e F W1 Es Sf H1 L1 Re. apply HX. unfold ins_exn, belems.
    assert (E1 : bsize b1 = bsize b) by (unfold bsize; rewrite Es; auto).
    csplit; auto; try lia; try congruence.
    + exact (wfb_1 _ _ W1).
    + apply ins_reason_weak; auto.
    + intros. csplit; auto; [congruence|lia].
Qed.




Lemma wfb_roomy t b : env_layout = SplitLayout -> wfb t b -> 0 < bsize b -> roomy b.
Proof. intros L W Hn. destruct (wfb_split _ _ L W) as (_ & _ & [?|[? ?]]); auto; lia. Qed.

Lemma wp_sp_input_loop t h R K xs : forall b w k (Q : BW -> bpos -> Prop) (X : BW -> exn -> Prop),
  env_layout = SplitLayout -> wfb t b -> bown t w b R K -> k <= bsize b ->
  (forall b' w' r, rng_ok t k xs b w R K b' w' r ->
     Q (b', w') (PConc (vptr (be_store b') (k + length xs)))) ->
  (forall b' w' e, rng_exn t h false k xs b w R K b' w' e -> X (b', w') e) ->
  wp (sp_insert_input_loop t h (PConc (vptr (be_store b) k)) xs) (b, w) Q X.
Proof.
  induction xs as [|x xs IH]; intros b w k Q X L W H Hk HQ HX; cbn [sp_insert_input_loop].
  - apply wp_ret. simpl in HQ. rewrite Nat.add_0_r in HQ. eapply HQ.
    unfold rng_ok. csplit; auto using wle_refl.
    + rewrite insert_list_at_nil; auto.
    + unfold stable; auto.
  - assert (P := wp_sp_step t h k x b w R K
      (fun s q => wp (sp_insert_input_loop t h
                  (match q with
                   | PBase r => PBase (fst r, S (snd r))
                   | PConc r => PConc (fst r, S (snd r)) end) xs) s Q X) X L W H Hk).
    match type of P with ?A -> ?B -> ?C => assert (PA : A); [|assert (PB : B)] end.
    3:{ specialize (P PA PB). clear PA PB HQ HX IH. unfold wp, bind, ret in *.
        destruct (sp_prereserve_at t (PConc (vptr (be_store b) k)) (b, w)) as [s1 q|s1 e|]; auto.
        destruct (sp_iterator_from q s1) as [s2 k2|s2 e|]; auto.
        destruct (on_store (vec_emplace (vh_eops t) k2 h x) s2) as [s3 n|s3 e|]; auto.
        destruct (sp_push_index_entry s3) as [s4 []|s4 e|]; auto. }
    + intros b1 w1 r1 O1. unfold vptr. cbn [fst snd].
      assert (Es1 := ins_ok_size _ _ _ _ _ _ _ _ _ _ O1).
      destruct O1 as (El & W1 & H1 & L1 & Sf & _ & ST & _).
      apply (IH b1 w1 (S k)); auto; [lia| |].
      * intros b2 w2 r2 (El2 & W2 & H2 & L2 & Sf2 & R2 & ST2).
        simpl length in HQ. replace (S k + length xs) with (k + S (length xs)) by lia.
        apply (HQ _ _ (be_ptr b2 k, be_end b2)). unfold rng_ok. csplit; auto.
        -- rewrite El2, El. apply insert_list_at_cons. exact Hk.
        -- wle_tac.
        -- congruence.
        -- simpl length. intros C. destruct ST as (A1 & A2 & A3); [lia|].
           destruct ST2 as (B1 & B2 & B3); [lia|].
           unfold stable. csplit; try congruence.
           intros Hn k0. rewrite B3, A3; auto; lia.
      * intros b2 w2 e (A1 & A2 & A3 & A4 & A5 & A6 & A7 & A8 & A9 & _).
        apply HX. unfold rng_exn. simpl length.
        csplit; auto; try lia; try congruence; try wle_tac.
        -- destruct A6 as [T|(? & Le)].
           ++ left. replace (bsize b + S (length xs)) with (bsize b1 + length xs) by lia. bmono.
           ++ right. split; auto. unfold len_err in *.
              replace (bsize b + S (length xs)) with (bsize b1 + length xs) by lia. auto.
        -- intros _ RM HK. apply A8; auto.
           ++ eapply wfb_roomy; eauto. lia.
           ++ right. destruct HK as [?|[?|?]]; [discriminate|left; lia|right; auto].
        -- intros _ RM _ HK. destruct A9 as (j & Hj & Ej); auto.
           ++ eapply wfb_roomy; eauto. lia.
           ++ destruct HK; [left; lia|auto].
           ++ exists (S j). split; [lia|]. simpl. rewrite Ej, El.
              apply insert_list_at_cons. exact Hk.
    + intros b1 w1 e (A1 & A2 & A3 & A4 & A5 & A6 & A7 & A8).
      apply HX. unfold rng_exn. simpl length. csplit; auto; try lia; try congruence.
      * destruct A6 as [T|(? & Le)].
        -- left. eapply bthrew_size; [|exact T]. lia.
        -- right. split; auto. unfold len_err in *. destruct Le as [?|[? ?]]; [left; lia|right; split; auto; lia].
      * intros _ RM HK. apply A8; auto. destruct HK as [?|?]; [discriminate|auto].
      * intros _ RM _ HK. exists 0. split; [lia|]. simpl. rewrite insert_list_at_nil. apply A8; auto.
Qed.

Lemma wp_sp_insert_input t h k xs b w R K (Q : BW -> ptr * ptr -> Prop) (X : BW -> exn -> Prop) :
  env_layout = SplitLayout -> wfb t b -> bown t w b R K -> k <= bsize b ->
  (forall b' w' r, rng_ok t k xs b w R K b' w' r -> Q (b', w') r) ->
  (forall b' w' e, rng_exn t h false k xs b w R K b' w' e -> X (b', w') e) ->
  wp (sp_insert_input t h (PConc (vptr (be_store b) k)) xs) (b, w) Q X.
Proof.
  intros L W H Hk HQ HX. unfold sp_insert_input. apply wp_bind.
  eapply wp_sp_input_loop; eauto. intros b1 w1 r O.
  apply wp_bind. eapply wp_sp_iterator_from; [auto|right; reflexivity|].
  unfold sp_range_from. apply wp_bind, wp_getx, wp_ret. cbn [fst].
  apply HQ. destruct O as (A1 & A2 & A3 & A4 & A5 & A6 & A7).
  unfold rng_ok. csplit; auto.
  replace (k + length xs - length xs) with k by lia.
  unfold be_end. rewrite !be_ptr_split by auto. auto.
Qed.

Lemma wp_be_insert_range t h fwd p k xs b w R K (Q : BW -> ptr * ptr -> Prop) (X : BW -> exn -> Prop) :
  wfb t b -> bown t w b R K -> pos_at b p k -> k <= bsize b ->
  (forall b' w' r, rng_ok t k xs b w R K b' w' r -> Q (b', w') r) ->
  (forall b' w' e, rng_exn t h fwd k xs b w R K b' w' e -> X (b', w') e) ->
  wp (be_insert_range t h fwd p xs) (b, w) Q X.
Proof.
  intros W H Hp Hk HQ HX. unfold be_insert_range. destruct env_layout eqn:L.
  - destruct fwd; [eapply wp_pk_insert_range|eapply wp_pk_insert_input]; eauto.
  - apply wp_bind. eapply wp_sp_conc; eauto using wfb_split. intros _.
    destruct fwd; [eapply wp_sp_insert_forward|eapply wp_sp_insert_input]; eauto.
Qed.

Lemma wp_be_append_range t h fwd xs b w R K (Q : BW -> ptr * ptr -> Prop) (X : BW -> exn -> Prop) :
  wfb t b -> bown t w b R K ->
  (forall b' w' r, rng_ok t (bsize b) xs b w R K b' w' r -> Q (b', w') r) ->
  (forall b' w' e, rng_exn t h fwd (bsize b) xs b w R K b' w' e -> X (b', w') e) ->
  wp (be_append_range t h fwd xs) (b, w) Q X.
Proof.
  intros W H HQ HX. unfold be_append_range. apply wp_bind, wp_getx. cbn [fst].
  destruct env_layout eqn:L.
  - destruct fwd; [eapply wp_pk_insert_range|eapply wp_pk_insert_input]; eauto; right; reflexivity.
  - destruct fwd; [eapply wp_sp_insert_forward|eapply wp_sp_insert_input]; eauto.
Qed.

(** ** Erasure *)

Definition ers_ok (t : tyid) (f l : nat) (b : backend V) (w : world)
  (R : nat -> nat) (K : nat) (b' : backend V) (w' : world) (r : ptr * ptr) : Prop :=
  belems b' = remove_range f l (belems b) /\ wfb t b' /\ bown t w' b' R K /\ wle w w' /\
  be_self b' = be_self b /\ r = (be_ptr b' f, be_end b') /\
  v_blk (be_store b') = v_blk (be_store b) /\ bcap b' = bcap b /\
  (forall k, be_ptr b' k = be_ptr b k).

(** Only elements which are move assigned with a throwing operator can make erasure fail;
    the segment keeps its size.  [one] marks the erasure of a single element. *)
Definition ers_exn (t : tyid) (one : bool) (f l : nat) (b : backend V) (w : world)
  (R : nat -> nat) (K : nat) (b' : backend V) (w' : world) (e : exn) : Prop :=
  f < l < bsize b /\ env_assignable t = true /\ env_nt_assign t = false /\
  e = UserExn /\ faulted w w' /\
  wfb1 t b' /\ bown t w' b' R K /\ wle w w' /\ be_self b' = be_self b /\ bsize b' = bsize b /\
  v_blk (be_store b') = v_blk (be_store b) /\ bcap b' = bcap b /\
  (env_layout = PackedLayout \/ one = false -> wfb t b' /\ (forall k, be_ptr b' k = be_ptr b k)).

Lemma eo_assign_false t : eo_assign_nt (vh_eops t) = false ->
  env_assignable t = true /\ env_nt_assign t = false.
Proof. simpl. destruct (env_assignable t); auto; discriminate. Qed.

Lemma ers_exn_packed t one f l b w R K s1 w1 :
  env_layout = PackedLayout -> wfb t b -> f < l < bsize b -> eo_assign_nt (vh_eops t) = false ->
  wfv (vh_eops t) s1 -> junked (be_store b) s1 0 -> bown t w1 (set_store b s1) R K -> wle w w1 ->
  faulted w w1 -> ers_exn t one f l b w R K (set_store b s1) w1 UserExn.
Proof.
  intros L W Hf NT W1 (J1 & J2 & J3) H1 L1 F. destruct (eo_assign_false t NT).
  destruct W as [[Ws Wi Wf] WL].
  unfold ers_exn. csplit; auto; try lia.
  - apply wfb1_store; auto. split; auto.
  - unfold bsize in *; simpl; lia.
  - intros _. split.
    + split; [split; auto|]. rewrite L in *. auto.
    + intros. rewrite !be_ptr_packed by auto. unfold vptr; simpl. congruence.
Qed.

Lemma wp_pk_erase_idx t one f l b w R K (Q : BW -> ptr * ptr -> Prop) (X : BW -> exn -> Prop) :
  env_layout = PackedLayout -> wfb t b -> bown t w b R K -> f <= l -> l <= bsize b ->
  (forall b' w' r, ers_ok t f l b w R K b' w' r -> Q (b', w') r) ->
  (forall b' w' e, ers_exn t one f l b w R K b' w' e -> X (b', w') e) ->
  wp (n <- on_store (vec_erase_range (vh_eops t) f l) ;; pk_range_from n) (b, w) Q X.
Proof.
  intros L W H Hf Hl HQ HX. destruct (wfb_0 _ _ W) as [Ws Wi Wf].
  assert (Ix := wfb_packed _ _ L W).
  apply wp_bind, wp_on_store.
  eapply wp_vec_erase_range; [exact Ws|apply bown_store_id; exact H|exact Hf|exact Hl| |].
  - intros w1 s1 El W1 H1 L1 Eb Ec. cbn [fst snd]. apply bown_store in H1.
    unfold pk_range_from. apply wp_bind, wp_getx, wp_ret. cbn [fst].
    apply HQ. unfold ers_ok. csplit; auto.
    + split; [split; auto|]. rewrite L. auto.
    + unfold be_end. rewrite !be_ptr_packed by auto. auto.
    + intros. rewrite !be_ptr_packed by auto. unfold vptr; simpl. congruence.
  - intros w1 s1 C NT W1 J H1 L1 F. cbn [fst snd]. apply bown_store in H1.
    apply HX. eapply ers_exn_packed; eauto.
Qed.

Lemma wp_pk_erase t p k b w R K (Q : BW -> ptr * ptr -> Prop) (X : BW -> exn -> Prop) :
  env_layout = PackedLayout -> wfb t b -> bown t w b R K -> pos_at b p k -> k < bsize b ->
  (forall b' w' r, ers_ok t k (S k) b w R K b' w' r -> Q (b', w') r) ->
  (forall b' w' e, ers_exn t true k (S k) b w R K b' w' e -> X (b', w') e) ->
  wp (pk_erase t p) (b, w) Q X.
Proof.
  intros L W H Hp Hk HQ HX. unfold pk_erase. apply wp_bind. eapply wp_pk_iterator_from; eauto.
  destruct (wfb_0 _ _ W) as [Ws Wi Wf]. assert (Ix := wfb_packed _ _ L W).
  apply wp_bind, wp_on_store.
  eapply wp_vec_erase; [exact Ws|apply bown_store_id; exact H|exact Hk| |].
  - intros w1 s1 El W1 H1 L1 Eb Ec. cbn [fst snd]. apply bown_store in H1.
    unfold pk_range_from. apply wp_bind, wp_getx, wp_ret. cbn [fst].
    apply HQ. unfold ers_ok. csplit; auto.
    + split; [split; auto|]. rewrite L. auto.
    + unfold be_end. rewrite !be_ptr_packed by auto. auto.
    + intros. rewrite !be_ptr_packed by auto. unfold vptr; simpl. congruence.
  - intros w1 s1 C NT W1 J H1 L1 F. cbn [fst snd]. apply bown_store in H1.
    apply HX. eapply ers_exn_packed; eauto.
Qed.

(** dropping index entries *)
Fixpoint droplast {A} (n : nat) (l : list A) : list A :=
  match n with O => l | S n' => droplast n' (removelast l) end.
Lemma removelast_firstn_len' {A} (l : list A) : removelast l = firstn (length l - 1) l.
Proof. rewrite removelast_firstn_len. f_equal. lia. Qed.
Lemma droplast_firstn {A} n : forall l : list A, droplast n l = firstn (length l - n) l.
Proof.
  induction n as [|n IH]; intros l; simpl.
  - rewrite Nat.sub_0_r, firstn_all. auto.
  - rewrite IH, removelast_firstn_len', firstn_length, firstn_firstn. f_equal. lia.
Qed.

Lemma wp_pop_entries {t : tyid} n : forall b w R K (Q : BW -> unit -> Prop) (X : BW -> exn -> Prop),
  wfv ix_eops (be_index b) -> bown t w b R K -> n <= vsize (be_index b) ->
  (forall w', let i' := mkvec (v_blk (be_index b)) (v_cap (be_index b))
                  (firstn (vsize (be_index b) - n) (v_elems (be_index b))) in
     wfv ix_eops i' -> bown t w' (set_index b i') R K -> wle w w' -> Q (set_index b i', w') tt) ->
  wp (sp_pop_index_entry n) (b, w) Q X.
Proof.
  induction n as [|n IH]; intros b w R K Q X Wi H Hn HQ; cbn [sp_pop_index_entry].
  - apply wp_ret. rewrite Nat.sub_0_r in HQ. unfold vsize in HQ. rewrite firstn_all in HQ.
    assert (EQ : mkvec (v_blk (be_index b)) (v_cap (be_index b)) (v_elems (be_index b)) = be_index b)
      by (destruct (be_index b); auto).
    rewrite EQ, set_index_id in HQ. apply HQ; auto using wle_refl.
  - apply wp_bind, wp_on_index. eapply wp_vec_pop_back; [exact Wi|apply bown_index_id; exact H|lia|].
    intros w1 i1 W1 H1 L1. cbn [fst snd]. apply bown_index in H1.
    assert (S1 : vsize i1 = vsize (be_index b) - 1).
    { unfold vsize, i1. simpl. apply removelast_length. }
    eapply IH; [exact W1|exact H1|simpl; lia|].
    intros w2 i2 W2 H2 L2.
    assert (EQ : i2 = mkvec (v_blk (be_index b)) (v_cap (be_index b))
                  (firstn (vsize (be_index b) - S n) (v_elems (be_index b)))).
    { unfold i2. cbn [set_index be_index]. rewrite S1. unfold i1. cbn [v_blk v_cap v_elems].
      f_equal. rewrite removelast_firstn_len', firstn_firstn. f_equal. unfold vsize. lia. }
    rewrite EQ in *. apply HQ; auto. wle_tac.
Qed.

Lemma firstn_seq' a n m : n <= m -> firstn n (seq a m) = seq a n.
Proof.
  intros. replace m with (n + (m - n)) by lia. rewrite seq_app, firstn_app, seq_length.
  rewrite Nat.sub_diag. simpl. rewrite app_nil_r, firstn_all2; auto. rewrite seq_length. lia.
Qed.

(** erasure in the store followed by dropping the entries *)
Lemma wp_sp_erase_idx t f l b w R K (Q : BW -> ptr * ptr -> Prop) (X : BW -> exn -> Prop) :
  env_layout = SplitLayout -> wfb t b -> bown t w b R K -> f <= l -> l <= bsize b ->
  (forall b' w' r, ers_ok t f l b w R K b' w' r -> Q (b', w') r) ->
  (forall b' w' e, ers_exn t false f l b w R K b' w' e -> X (b', w') e) ->
  wp (sp_erase_idx t f l) (b, w) Q X.
Proof.
  intros L W H Hf Hl HQ HX. destruct (wfb_0 _ _ W) as [Ws Wi Wf].
  assert (SP := wfb_split _ _ L W). assert (Si := split_isize b SP). destruct SP as (SP1 & SP2 & SP3).
  unfold sp_erase_idx. apply wp_bind, wp_getx. cbn [fst].
  apply wp_bind, wp_on_store.
  eapply wp_vec_erase_range; [exact Ws|apply bown_store_id; exact H|exact Hf|exact Hl| |].
  - intros w1 s1 El W1 H1 L1 Eb Ec. cbn [fst snd]. apply bown_store in H1.
    assert (S1 : vsize s1 = bsize b - (l - f)).
    { unfold vsize. rewrite El, remove_range_length; auto. }
    apply wp_bind, wp_getx. cbn [fst]. apply wp_bind.
    eapply wp_pop_entries; [exact Wi|exact H1| |].
    { simpl. unfold bsize in *. lia. }
    intros w2 i2 W2 H2 L2. unfold sp_range_from. apply wp_bind, wp_getx, wp_ret. cbn [fst].
    apply HQ. unfold ers_ok. csplit; auto.
    + split; [split; auto|]. rewrite L. unfold split_ok, bcap, roomy, bcap. simpl. rewrite Ec. csplit; auto.
      * unfold i2. cbn [v_elems set_store set_index be_index be_store]. rewrite SP2, Si, S1.
        unfold entries, bsize. cbn [set_store set_index be_index be_store]. rewrite S1.
        rewrite firstn_map, firstn_seq' by (unfold bsize; lia).
        unfold vptr. rewrite Eb. do 2 f_equal. unfold bsize in *. lia.
      * destruct SP3 as [SP3|[? ?]]; [left; exact SP3|right]. unfold bsize, bcap in *. simpl. lia.
    + wle_tac.
    + unfold be_end. rewrite !be_ptr_split by auto. auto.
    + intros. rewrite !be_ptr_split by auto. reflexivity.
  - intros w1 s1 C NT W1 (J1 & J2 & J3) H1 L1 F. cbn [fst snd]. apply bown_store in H1.
    destruct (eo_assign_false t NT). apply HX. unfold ers_exn. csplit; auto; try lia.
    + unfold bsize in *. lia.
    + destruct W. apply wfb1_store; auto.
    + unfold bsize in *; simpl; lia.
    + intros _. split; [|intros; rewrite !be_ptr_split by auto; reflexivity].
      assert (S1 : vsize s1 = bsize b) by (unfold bsize; lia).
      split; [split; auto|]. rewrite L. unfold split_ok, bcap, roomy, bcap. simpl. rewrite J2. csplit; auto.
      * rewrite SP2. unfold entries, vptr, bsize in *. simpl. rewrite S1, J1. auto.
      * destruct SP3 as [SP3|[? ?]]; [left; exact SP3|right]. unfold bsize, bcap in *. simpl. lia.
Qed.

Lemma wp_sp_erase t p k b w R K (Q : BW -> ptr * ptr -> Prop) (X : BW -> exn -> Prop) :
  env_layout = SplitLayout -> wfb t b -> bown t w b R K -> pos_at b p k -> k < bsize b ->
  (forall b' w' r, ers_ok t k (S k) b w R K b' w' r -> Q (b', w') r) ->
  (forall b' w' e, ers_exn t true k (S k) b w R K b' w' e -> X (b', w') e) ->
  wp (sp_erase t p) (b, w) Q X.
Proof.
  intros L W H Hp Hk HQ HX. destruct (wfb_0 _ _ W) as [Ws Wi Wf].
  assert (SP0 := wfb_split _ _ L W). assert (Si := split_isize b SP0). destruct SP0 as (SP1 & SP2 & SP3).
  unfold sp_erase. apply wp_bind. eapply wp_sp_conc; [exact L|split; auto|apply Nat.lt_le_incl; exact Hk|exact Hp|].
  intros _. apply wp_bind. eapply wp_pop_entries; [exact Wi|exact H|lia|].
  intros w1 i1 W1 H1 L1. apply wp_bind.
  eapply wp_sp_iterator_from with (k := k); [auto|right; reflexivity|].
  apply wp_bind, wp_on_store.
  eapply wp_vec_erase; [exact Ws|apply bown_store_id; exact H1|exact Hk| |].
  - intros w2 s1 El Ws1 H2 L2 Eb Ec. cbn [fst snd]. apply bown_store in H2.
    assert (S1 : vsize s1 = bsize b - 1).
    { unfold vsize. rewrite El, remove_range_length; [|lia|exact Hk].
      unfold bsize, vsize. cbn [set_index be_store]. lia. }
    unfold sp_range_from. apply wp_bind, wp_getx, wp_ret. cbn [fst].
    apply HQ. unfold ers_ok. csplit; auto.
    + split; [split; auto|]. rewrite L. unfold split_ok, bcap, roomy, bcap. simpl. simpl in Ec. rewrite Ec. csplit; auto.
      * rewrite SP2, Si. unfold entries, bsize. cbn [set_store set_index be_index be_store]. rewrite S1.
        rewrite firstn_map, firstn_seq' by (unfold bsize in *; lia).
        unfold vptr. simpl in Eb. rewrite Eb. do 2 f_equal. unfold bsize in *. lia.
      * destruct SP3 as [SP3|[? ?]]; [left; exact SP3|right]. unfold bsize, bcap in *. simpl. lia.
    + wle_tac.
    + unfold be_end. rewrite !be_ptr_split by auto. auto.
    + intros. rewrite !be_ptr_split by auto. reflexivity.
  - intros w2 s1 C NT Ws1 (J1 & J2 & J3) H2 L2 F. cbn [fst snd]. apply bown_store in H2.
    destruct (eo_assign_false t NT). apply HX. unfold ers_exn. csplit; auto; try lia.
    + fmono.
    + split; [split; auto|]. rewrite L. unfold fixable, roomy, bcap, bsize in *. simpl in J1, J2 |- *. rewrite J2.
      split; [exact SP1|]. split.
      * rewrite SP2, Si. unfold entries, vptr, bsize. rewrite J1.
        destruct (vsize (be_store b)) as [|n]; [lia|]. simpl. eauto.
      * destruct SP3 as [SP3|[_ SP3]]; auto.
    + wle_tac.
    + unfold bsize in *; simpl in *; lia.
    + intros [?|?]; congruence.
Qed.

Lemma wp_be_erase t p k b w R K (Q : BW -> ptr * ptr -> Prop) (X : BW -> exn -> Prop) :
  wfb t b -> bown t w b R K -> pos_at b p k -> k < bsize b ->
  (forall b' w' r, ers_ok t k (S k) b w R K b' w' r -> Q (b', w') r) ->
  (forall b' w' e, ers_exn t true k (S k) b w R K b' w' e -> X (b', w') e) ->
  wp (be_erase t p) (b, w) Q X.
Proof.
  intros. unfold be_erase. destruct env_layout eqn:L; [eapply wp_pk_erase|eapply wp_sp_erase]; eauto.
Qed.

Lemma wp_be_erase_range t p q f l b w R K (Q : BW -> ptr * ptr -> Prop) (X : BW -> exn -> Prop) :
  wfb t b -> bown t w b R K -> pos_at b p f -> pos_at b q l -> f <= l -> l <= bsize b ->
  (forall b' w' r, ers_ok t f l b w R K b' w' r -> Q (b', w') r) ->
  (forall b' w' e, ers_exn t false f l b w R K b' w' e -> X (b', w') e) ->
  wp (be_erase_range t p q) (b, w) Q X.
Proof.
  intros W H Hp Hq Hf Hl HQ HX. unfold be_erase_range. destruct env_layout eqn:L.
  - unfold pk_erase_range. apply wp_bind. eapply wp_pk_iterator_from; eauto.
    apply wp_bind. eapply wp_pk_iterator_from; eauto. eapply wp_pk_erase_idx; eauto.
  - unfold sp_erase_range. apply wp_bind. eapply wp_sp_conc with (k := f); eauto using wfb_split; [lia|].
    intros _. apply wp_bind. eapply wp_sp_conc with (k := l); eauto using wfb_split.
    intros _. apply wp_bind. eapply wp_sp_iterator_from; [auto|right; reflexivity|].
    apply wp_bind. eapply wp_sp_iterator_from; [auto|right; reflexivity|].
    eapply wp_sp_erase_idx; eauto.
Qed.

Lemma wp_be_erase_till_end t p f b w R K (Q : BW -> ptr * ptr -> Prop) (X : BW -> exn -> Prop) :
  wfb t b -> bown t w b R K -> pos_at b p f -> f <= bsize b ->
  (forall b' w' r, ers_ok t f (bsize b) b w R K b' w' r -> Q (b', w') r) ->
  wp (be_erase_till_end t p) (b, w) Q X.
Proof.
  intros W H Hp Hf HQ. unfold be_erase_till_end. destruct env_layout eqn:L.
  - unfold pk_erase_till_end. apply wp_bind. eapply wp_pk_iterator_from; eauto.
    apply wp_bind, wp_getx. cbn [fst]. eapply wp_pk_erase_idx with (one := false); eauto.
    intros b' w' e (C & _). unfold bsize in *. lia.
  - unfold sp_erase_till_end. apply wp_bind. eapply wp_sp_iterator_from; eauto.
    apply wp_bind, wp_getx. cbn [fst]. eapply wp_sp_erase_idx; eauto.
    intros b' w' e (C & _). unfold bsize in *. lia.
Qed.

Lemma wp_be_erase_from_begin t p l b w R K (Q : BW -> ptr * ptr -> Prop) (X : BW -> exn -> Prop) :
  wfb t b -> bown t w b R K -> pos_at b p l -> l <= bsize b ->
  (forall b' w' r, ers_ok t 0 l b w R K b' w' r -> Q (b', w') r) ->
  (forall b' w' e, ers_exn t false 0 l b w R K b' w' e -> X (b', w') e) ->
  wp (be_erase_from_begin t p) (b, w) Q X.
Proof.
  intros W H Hp Hl HQ HX. unfold be_erase_from_begin. destruct env_layout eqn:L.
  - unfold pk_erase_from_begin. apply wp_bind. eapply wp_pk_iterator_from; eauto.
    eapply wp_pk_erase_idx; eauto. lia.
  - unfold sp_erase_from_begin. apply wp_bind. eapply wp_sp_iterator_from; eauto.
    eapply wp_sp_erase_idx; eauto. lia.
Qed.

(** clear *)
Lemma wp_be_clear1 t b w R K (Q : BW -> ptr -> Prop) (X : BW -> exn -> Prop) :
  wfb1 t b -> bown t w b R K ->
  (forall b' w', belems b' = [] -> wfb t b' -> bown t w' b' R K -> wle w w' ->
     be_self b' = be_self b -> bcap b' = bcap b -> v_blk (be_store b') = v_blk (be_store b) ->
     (forall k, be_ptr b' k = be_ptr b k) -> Q (b', w') (be_end b')) ->
  wp (be_clear t) (b, w) Q X.
Proof.
  intros W H HQ. destruct W as [[Ws Wi Wf] Wl]. unfold be_clear. destruct env_layout eqn:L.
  - assert (Ix := Wl). unfold pk_clear. apply wp_bind, wp_on_store.
    eapply wp_vec_clear; [exact Ws|apply bown_store_id; exact H|].
    intros w1 W1 H1 L1. cbn [fst snd]. apply bown_store in H1.
    unfold pk_sentinel. apply wp_bind, wp_getx, wp_ret. cbn [fst].
    assert (be_end (set_store b (mkvec (v_blk (be_store b)) (v_cap (be_store b)) [])) =
      pk_ptr (set_store b (mkvec (v_blk (be_store b)) (v_cap (be_store b)) []))
       (vsize (be_store (set_store b (mkvec (v_blk (be_store b)) (v_cap (be_store b)) []))))) as <-.
    { unfold be_end. rewrite be_ptr_packed by auto. reflexivity. }
    apply HQ; auto.
    + split; [split; auto|]. rewrite L. auto.
  - destruct Wl as (SP1 & (l & SP2) & SP3).
    assert (Si : vsize (be_index b) = S (length l)) by (unfold vsize; rewrite SP2; reflexivity).
    unfold sp_clear. apply wp_bind, wp_on_store.
    eapply wp_vec_clear; [exact Ws|apply bown_store_id; exact H|].
    intros w1 W1 H1 L1. cbn [fst snd]. apply bown_store in H1.
    apply wp_bind, wp_getx. cbn [fst]. apply wp_bind.
    eapply wp_pop_entries; [exact Wi|exact H1|simpl; lia|].
    intros w2 i2 W2 H2 L2. unfold sp_sentinel. apply wp_bind, wp_getx, wp_ret. cbn [fst].
    match goal with |- Q (?b2, _) _ => set (b2' := b2) in * end.
    assert (be_end b2' = sp_ptr b2' (vsize (be_store b2'))) as <-.
    { unfold be_end. rewrite be_ptr_split by auto. reflexivity. }
    apply HQ; auto.
    + split; [split; auto|]. rewrite L. unfold split_ok, bcap, roomy, bcap. simpl. csplit; auto.
      * rewrite SP2, Si. replace (S (length l) - (S (length l) - 1)) with 1 by lia. reflexivity.
      * destruct SP3 as [SP3|?]; [left; exact SP3|right]. unfold bsize, bcap in *. simpl. auto.
    + wle_tac.
Qed.

Lemma wp_be_clear t b w R K (Q : BW -> ptr -> Prop) (X : BW -> exn -> Prop) :
  wfb t b -> bown t w b R K ->
  (forall b' w', belems b' = [] -> wfb t b' -> bown t w' b' R K -> wle w w' ->
     be_self b' = be_self b -> bcap b' = bcap b -> v_blk (be_store b') = v_blk (be_store b) ->
     (forall k, be_ptr b' k = be_ptr b k) -> Q (b', w') (be_end b')) ->
  wp (be_clear t) (b, w) Q X.
Proof. intros W. apply wp_be_clear1. apply wfb_1. exact W. Qed.

(** reserve *)
Lemma wp_be_reserve t n b w R K (Q : BW -> ptr -> Prop) (X : BW -> exn -> Prop) :
  wfb t b -> bown t w b R K ->
  (forall b' w', belems b' = belems b -> wfb t b' -> bown t w' b' R K -> wle w w' ->
     be_self b' = be_self b -> bcap b' = Nat.max (bcap b) n -> n <= env_vmax t ->
     (n <= bcap b -> be_store b' = be_store b /\ (0 < bsize b -> b' = b)) ->
     (env_layout = SplitLayout -> roomy b \/ bcap b <= n -> roomy b') ->
     Q (b', w') (be_end b')) ->
  (forall b' w' e, wfb t b' -> bown t w' b' R K -> wle w w' -> be_self b' = be_self b ->
     be_store b' = be_store b -> (env_layout = PackedLayout -> b' = b) ->
     (env_layout = SplitLayout -> roomy b -> n <= bcap b -> b' = b) ->
     bthrew t None (bsize b) w w' e \/
       (e = LengthError /\ (env_vmax t < n \/ (env_layout = SplitLayout /\ env_imax < n + 1))) ->
     X (b', w') e) ->
  wp (be_reserve t n) (b, w) Q X.
Proof.
  intros W H HQ HX. destruct (wfb_0 _ _ W) as [Ws Wi Wf]. unfold be_reserve. destruct env_layout eqn:L.
  - assert (Ix := wfb_packed _ _ L W). unfold pk_reserve. apply wp_bind, wp_on_store.
    assert (FIN : forall s1 w1, v_elems s1 = belems b -> wfv (vh_eops t) s1 -> bown t w1 (set_store b s1) R K ->
      wle w w1 -> v_cap s1 = Nat.max (bcap b) n -> n <= env_vmax t -> (n <= bcap b -> s1 = be_store b) ->
      wp pk_sentinel (set_store b s1, w1) Q X).
    { intros s1 w1 El W1 H1 L1 Ec En Es. unfold pk_sentinel. apply wp_bind, wp_getx, wp_ret. cbn [fst].
      assert (be_end (set_store b s1) = pk_ptr (set_store b s1) (vsize (be_store (set_store b s1)))) as <-.
      { unfold be_end. rewrite be_ptr_packed by auto. reflexivity. }
      apply HQ; auto.
      - split; [split; auto|]. rewrite L. auto.
      - intros Hn. specialize (Es Hn). subst s1. rewrite set_store_id. auto.
      - discriminate. }
    eapply wp_vec_reserve; [exact Ws|apply bown_store_id; exact H| | |].
    + intros C1 C2. cbn [fst snd]. apply FIN; rewrite ?set_store_id; auto using wle_refl.
      unfold bcap. lia.
    + intros w1 nb C1 C2 H1 L1 Hn Wn. cbn [fst snd]. apply bown_store in H1.
      apply FIN; auto. simpl. unfold bcap; lia. unfold bcap; lia.
    + intros w1 e H1 L1 Re. cbn [fst snd]. apply bown_store in H1. rewrite set_store_id in *.
      apply HX; auto; try discriminate.
      destruct Re as [(? & ? & ?)|(? & T)]; [right; auto|left]. apply vthrew_bthrew in T. auto.
  - assert (SP := wfb_split _ _ L W). assert (Si := split_isize b SP). destruct SP as (SP1 & SP2 & SP3).
    unfold sp_reserve. apply wp_bind, wp_getx. cbn [fst].
    assert (FIN : forall b1 w1 (Q1 : BW -> ptr -> Prop) (X1 : BW -> exn -> Prop),
       Q1 (b1, w1) (be_end b1) -> wp sp_sentinel (b1, w1) Q1 X1).
    { intros b1 w1 Q1 X1 HH. unfold sp_sentinel. apply wp_bind, wp_getx, wp_ret. cbn [fst].
      unfold be_end in HH. rewrite be_ptr_split in HH by auto. exact HH. }
    destruct (Nat.ltb_spec (v_cap (be_store b)) n) as [Cn|Cn].
    + assert (P := wp_grow t n b w R K
        (fun s _ => wp sp_sentinel s Q X) X L W H Cn).
      match type of P with ?A -> ?B -> ?C => assert (PA : A); [|assert (PB : B); [|specialize (P PA PB)]] end.
      * intros w1 b1 El W1 H1 L1 Ec RM Sf Hb Hv. apply FIN. apply HQ; auto; unfold bcap in *; lia.
      * intros w1 b1 e W1 Es Sf H1 L1 Re. apply HX; auto; try congruence.
        -- unfold bcap; lia.
        -- destruct Re as [?|(? & [?|?])]; auto.
      * clear - P. unfold wp, bind, ret in *.
        destruct (on_index (vec_reserve ix_eops (n + 1)) (b, w)) as [s1 []|s1 e|]; auto.
        destruct (on_store (vec_reserve (vh_eops t) n) s1) as [s2 []|s2 e|]; auto.
        destruct (sp_rebuild_index s2); auto.
    + (* the capacity suffices: only a segment which never grew may have a short index *)
      assert (REST : forall b1 w1, be_store b1 = be_store b -> be_self b1 = be_self b -> wfb t b1 ->
        bown t w1 b1 R K -> wle w w1 -> (0 < bsize b -> b1 = b) ->
        (roomy b \/ bcap b <= n -> roomy b1) ->
        wp (on_store (vec_reserve (vh_eops t) n) ;; ret tt ;; sp_sentinel) (b1, w1) Q X).
      { intros b1 w1 Es Sf W1 H1 L1 P1 P2. destruct (wfb_0 _ _ W1) as [Ws1 Wi1 Wf1].
        assert (Hm : v_cap (be_store b) <= env_vmax t) by (destruct Ws; auto).
        apply wp_bind, wp_on_store.
        eapply wp_vec_reserve; [exact Ws1|apply bown_store_id; exact H1| | |].
        - intros C1 C2. cbn [fst snd]. rewrite set_store_id. apply wp_bind, wp_ret. apply FIN.
          apply HQ; auto.
          + unfold belems. congruence.
          + unfold bcap. rewrite Es. lia.
        - intros w2 nb C1. rewrite Es in C1. lia.
        - intros w2 e H2 L2 [(_ & C & _)|(C & _)]; rewrite ?Es in C; [|lia].
          simpl in C. lia. }
      apply wp_bind, wp_on_index.
      eapply wp_vec_reserve; [exact Wi|apply bown_index_id; exact H| | |].
      * intros C1 C2. cbn [fst snd]. rewrite set_index_id. apply REST; auto using wle_refl.
        unfold roomy, bcap. lia.
      * intros w1 nb C1 C2 H1 L1 Hn Wn. cbn [fst snd]. apply bown_index in H1.
        assert (C : bsize b = 0 /\ bcap b = 1).
        { destruct SP3 as [SP3|?]; auto. unfold roomy, bcap in *. lia. }
        apply REST; auto.
        -- split; [split; auto|]. rewrite L. unfold split_ok. csplit; auto.
        -- lia.
        -- intros [?|?]; unfold roomy, bcap in *; simpl; lia.
      * intros w1 e H1 L1 Re. cbn [fst snd]. apply bown_index in H1. rewrite set_index_id in *.
        apply HX; auto. destruct Re as [(? & ? & ?)|(? & T)]; [right; auto|left].
        left. apply ix_vthrew in T; [destruct T; auto|discriminate].
Qed.

(** shrink_to_fit *)
Lemma wp_temp_reserve {A} (eo : eops A) n w R K (Q : world -> vec A -> Prop) (X : world -> exn -> Prop) :
  own w R K -> 0 < n ->
  (forall w' nb, own w' (fun x => cnt [nb] x + R x) K -> wle w w' -> w_next w <= nb < w_next w' ->
     wfv eo (mkvec nb n []) -> Q w' (mkvec nb n [])) ->
  (forall w' e, own w' R K -> wle w w' ->
     (e = LengthError /\ eo_max eo < n) \/ (e = BadAlloc /\ faulted w w') -> X w' e) ->
  wp (fun w => match vec_reserve eo n (vempty, w) with
               | Ok (v, w') _ => Ok w' v
               | Exn (_, w') e => Exn w' e
               | UB => UB
               end) w Q X.
Proof.
  intros H Hn HQ HX.
  assert (P := wp_vec_reserve eo vempty n w R K
    (fun s _ => Q (snd s) (fst s)) (fun s e => X (snd s) e) (wfv_empty eo)).
  match type of P with ?A -> ?B -> ?C -> ?D -> _ =>
    assert (PA : A); [|assert (PB : B); [|assert (PC : C); [|assert (PD : D); [|specialize (P PA PB PC PD)]]]] end.
  - unfold vown. eapply own_ext; [exact H|reflexivity|]. unfold vn, vsize. simpl. rewrite vc_0. lia.
  - simpl. lia.
  - intros w1 nb C1 C2 H1 L1 Hnb Wn. cbn [fst snd]. apply HQ; auto.
    unfold vown in H1. eapply own_ext; [exact H1| |].
    + intros x. unfold vblocks. simpl. destruct (Nat.eqb_spec n 0); [lia|]. reflexivity.
    + unfold vn, vsize. simpl. rewrite vc_0. lia.
  - intros w1 e H1 L1 Re. cbn [fst snd]. apply HX; auto.
    + unfold vown in H1. eapply own_ext; [exact H1|reflexivity|]. unfold vn, vsize. simpl. rewrite vc_0. lia.
    + destruct Re as [(? & ? & ?)|(? & [([?|(? & [(h0 & Q' & _)|(_ & C)])] & ?)|(? & [?|[? C]])])]; auto; try discriminate;
        unfold vsize in C; simpl in C; lia.
  - unfold wp in *. destruct (vec_reserve eo n (vempty, w)) as [[v w1] []|[v w1] e|]; auto.
Qed.

Definition shk_ok (t : tyid) (b : backend V) (w : world) (R : nat -> nat) (K : nat)
  (b' : backend V) (w' : world) : Prop :=
  belems b' = belems b /\ wfb t b' /\ bown t w' b' R K /\ wle w w' /\ be_self b' = be_self b /\
  bcap b' <= bcap b.

Definition shk_exn (t : tyid) (b : backend V) (w : world) (R : nat -> nat) (K : nat)
  (b' : backend V) (w' : world) (e : exn) : Prop :=
  shk_ok t b w R K b' w' /\ (forall k, be_ptr b' k = be_ptr b k) /\
  (env_layout = PackedLayout -> b' = b) /\
  (bthrew t None (bsize b) w w' e \/ (env_layout = SplitLayout /\ e = LengthError /\ env_imax < 2)).

(** the index, rebuilt in place for a store with the same elements *)
Lemma wp_rebuild_same t b s1 w w1 R K (Q : BW -> unit -> Prop) (X : BW -> exn -> Prop) :
  env_layout = SplitLayout -> wfb t b -> wfv (vh_eops t) s1 -> v_elems s1 = belems b ->
  1 <= v_cap s1 <= bcap b -> bown t w1 (set_store b s1) R K -> wle w w1 ->
  (forall b' w', shk_ok t b w R K b' w' -> wle w1 w' -> be_store b' = s1 ->
     (forall k, be_ptr b' k = be_ptr b k) -> (s1 = be_store b -> b' = b) -> Q (b', w') tt) ->
  wp sp_rebuild_index (set_store b s1, w1) Q X.
Proof.
  intros L W Ws1 El Ec H1 L1 HQ. destruct (wfb_0 _ _ W) as [Ws Wi Wf].
  assert (SP := wfb_split _ _ L W). assert (Si := split_isize b SP). destruct SP as (SP1 & SP2 & SP3).
  assert (Hi : S (bsize b) <= v_cap (be_index b)) by (rewrite <- Si; destruct Wi; auto).
  assert (E1 : bsize (set_store b s1) = bsize b).
  { unfold bsize, vsize, belems in *. simpl. rewrite El. auto. }
  eapply wp_rebuild with (t := t); [split; auto|exact H1|rewrite E1; exact Hi|].
  intros w2 i2 W2 H2 L2. apply HQ; auto.
  - unfold shk_ok. csplit; auto; try wle_tac; [|unfold bcap; simpl; unfold bcap in *; lia].
    split; [split; auto|]. rewrite L. unfold split_ok. csplit.
    + unfold bcap. simpl. lia.
    + reflexivity.
    + unfold roomy. unfold bcap, i2. cbn [v_cap be_index set_index set_store be_store].
      destruct SP3 as [SP3|[SP3 SP4]].
      * left. unfold roomy, bcap in *. lia.
      * right. unfold bsize, bcap, vsize in *. simpl in *. lia.
  - intros. rewrite !be_ptr_split by auto. reflexivity.
  - intros Es. unfold i2. rewrite Es, set_store_id. rewrite <- SP2.
    replace (mkvec (v_blk (be_index b)) (v_cap (be_index b)) (v_elems (be_index b))) with (be_index b)
      by (destruct (be_index b); auto).
    apply set_index_id.
Qed.

Lemma bown_blk {t : tyid} w (b : backend V) R K : bown t w b R K -> 1 <= bcap b -> v_blk (be_store b) < w_next w.
Proof.
  intros H Hc. destruct H as [_ _ Rg _ _]. apply (Rg (v_blk (be_store b))).
  unfold bblocks. rewrite cnt_app. unfold vblocks at 1. unfold bcap in Hc.
  destruct (Nat.eqb_spec (v_cap (be_store b)) 0); [lia|].
  assert (0 < cnt [v_blk (be_store b)] (v_blk (be_store b))) by (apply cnt_pos; left; auto). lia.
Qed.

Lemma wp_be_shrink t b w R K (Q : BW -> ptr -> Prop) (X : BW -> exn -> Prop) :
  wfb t b -> bown t w b R K ->
  (forall b' w', shk_ok t b w R K b' w' -> Q (b', w') (be_end b')) ->
  (forall b' w' e, shk_exn t b w R K b' w' e -> X (b', w') e) ->
  wp (be_shrink_to_fit t) (b, w) Q X.
Proof.
  intros W H HQ HX. destruct (wfb_0 _ _ W) as [Ws Wi Wf].
  assert (Hsz : bsize b <= bcap b) by (destruct Ws; auto).
  unfold be_shrink_to_fit. destruct env_layout eqn:L.
  - assert (Ix := wfb_packed _ _ L W). unfold pk_shrink_to_fit. apply wp_bind, wp_on_store.
    assert (FIN : forall s1 w1, v_elems s1 = belems b -> wfv (vh_eops t) s1 -> bown t w1 (set_store b s1) R K ->
      wle w w1 -> v_cap s1 <= bcap b ->
      wp pk_sentinel (set_store b s1, w1) Q X).
    { intros s1 w1 El W1 H1 L1 Ec. unfold pk_sentinel. apply wp_bind, wp_getx, wp_ret. cbn [fst].
      assert (be_end (set_store b s1) = pk_ptr (set_store b s1) (vsize (be_store (set_store b s1)))) as <-.
      { unfold be_end. rewrite be_ptr_packed by auto. reflexivity. }
      apply HQ; unfold shk_ok; csplit; auto.
      split; [split; auto|]. rewrite L. auto. }
    eapply wp_vec_shrink; [exact Ws|apply bown_store_id; exact H| | |].
    + intros w1 H1 L1. cbn [fst snd]. apply bown_store in H1. apply FIN; auto.
    + intros w1 s1 El W1 H1 L1 Ec Lt _ _. cbn [fst snd]. apply bown_store in H1.
      apply FIN; auto. unfold bcap; lia.
    + intros w1 e H1 L1 T C. cbn [fst snd]. apply bown_store in H1. rewrite set_store_id in *.
      apply HX. apply vthrew_bthrew in T. unfold shk_exn, shk_ok. csplit; auto.
  - assert (SP := wfb_split _ _ L W). assert (Si := split_isize b SP). destruct SP as (SP1 & SP2 & SP3).
    assert (Hi : S (bsize b) <= v_cap (be_index b)) by (rewrite <- Si; destruct Wi; auto).
    assert (FIN : forall b1 w1, shk_ok t b w R K b1 w1 -> wp sp_sentinel (b1, w1) Q X).
    { intros b1 w1 HH. unfold sp_sentinel. apply wp_bind, wp_getx, wp_ret. cbn [fst].
      specialize (HQ _ _ HH). unfold be_end in HQ. rewrite be_ptr_split in HQ by auto. exact HQ. }
    assert (HND : forall s1 w1 e, wfv (vh_eops t) s1 -> v_elems s1 = belems b ->
       1 <= v_cap s1 <= bcap b -> bown t w1 (set_store b s1) R K -> wle w w1 ->
       bthrew t None (bsize b) w w1 e \/ (e = LengthError /\ env_imax < 2) ->
       wp sp_rebuild_index (set_store b s1, w1) (fun s'' _ => X s'' e) X).
    { intros s1 w1 e W1 El Ec H1 L1 Re. eapply wp_rebuild_same; eauto.
      intros b2 w2 O L2 Es P P2. apply HX. unfold shk_exn. csplit; auto.
      - congruence.
      - destruct Re as [T|(? & ?)]; [left; bmono|right; auto]. }
    (* what follows once the store has been dealt with *)
    assert (REST : forall s1 w1, wfv (vh_eops t) s1 -> v_elems s1 = belems b ->
       1 <= v_cap s1 <= bcap b -> bown t w1 (set_store b s1) R K -> wle w w1 ->
       (v_blk s1 = v_blk (be_store b) -> s1 = be_store b) ->
       (v_cap s1 = bsize b \/ v_cap s1 = 1) ->
       wp (if v_blk (be_store b) =? v_blk s1 then ret tt
           else
             ii <- bw (fun w => match vec_reserve ix_eops (v_cap s1 + 1) (vempty, w) with
                          | Ok (v, w') _ => Ok w' v
                          | Exn (_, w') e => Exn w' e
                          | UB => UB
                          end) ;;
             bw (dispose ix_eops (be_index b)) ;;
             on_index (setx ii) ;;
             sp_build_index 0) (set_store b s1, w1)
         (fun s _ => wp sp_sentinel s Q X)
         (fun s e => wp sp_rebuild_index s (fun s'' _ => X s'' e) X)).
    { intros s1 w1 W1 El Ec H1 L1 Same Cp.
      destruct (Nat.eqb_spec (v_blk (be_store b)) (v_blk s1)) as [Eb|Eb].
      - apply wp_ret. specialize (Same (eq_sym Eb)). subst s1. rewrite set_store_id in *.
        apply FIN. unfold shk_ok. csplit; auto.
      - apply wp_bind. unfold bw. apply wp_on_world. cbn [fst snd].
        eapply wp_temp_reserve; [exact H1|lia| |].
        + intros w2 nb H2 L2 Hnb Wn. apply wp_bind. apply wp_on_world. cbn [fst snd].
          eapply wp_dispose with (k' := oc t (bsize (set_store b s1)) + K); [exact Wi|exact H2| | |].
          * intros x. instantiate (1 := fun x => cnt (vblocks s1) x + cnt [nb] x + cnt [be_self b] x + R x).
            unfold bblocks. cbv beta. simpl be_store. simpl be_index. simpl be_self. rewrite !cnt_app. lia.
          * unfold vn, vc. simpl. lia.
          * intros w3 H3 L3. apply wp_bind, wp_on_index, wp_setx. cbn [fst snd].
            unfold sp_build_index. apply wp_bind, wp_getx. cbn [fst].
            eapply (wp_push_entries_room (t := t)) with (R := R) (K := K); [exact Wn| | |].
            -- unfold bown. eapply own_ext; [exact H3| |reflexivity].
               intros x. unfold bblocks. simpl. rewrite !cnt_app.
               unfold vblocks; simpl. replace (v_cap s1 + 1 =? 0) with false
                 by (symmetry; apply Nat.eqb_neq; lia). lia.
            -- rewrite seq_length. unfold set_index, set_store. cbn [be_index be_store v_cap].
               change (vsize (mkvec nb (v_cap s1 + 1) [])) with 0.
               assert (vsize s1 <= v_cap s1) by (destruct W1; auto). lia.
            -- intros w4 i4 W4 H4 L4. apply FIN. unfold shk_ok. csplit; auto; try wle_tac.
               ++ split; [split; auto|]. rewrite L. unfold split_ok. csplit.
                  ** unfold bcap; simpl; lia.
                  ** reflexivity.
                  ** left. unfold roomy, bcap, i4. simpl. lia.
               ++ unfold bcap in *. simpl. lia.
        + intros w2 e H2 L2 Re. apply HND; auto; try wle_tac.
          destruct Re as [(? & Lt)|T].
          * right. split; auto. simpl in Lt. destruct Cp as [Cp|Cp]; rewrite Cp in Lt; [|lia].
            assert (v_cap (be_index b) <= env_imax) by (destruct Wi; auto). lia.
          * left. left. destruct T. split; auto. fmono. }
    unfold sp_shrink_to_fit. apply wp_bind, wp_getx. cbn [fst]. apply wp_bind, wp_try, wp_bind.
    destruct (Nat.eqb_spec (vsize (be_store b)) 0) as [Z|Z]; cbn [negb].
    + (* empty: a fresh block for one element *)
      assert (E0 : belems b = []).
      { unfold belems. unfold vsize in Z. destruct (v_elems (be_store b)); auto; discriminate. }
      apply wp_bind. unfold bw at 1. apply wp_on_world. cbn [fst snd].
      eapply wp_temp_reserve; [exact H|lia| |].
      * intros w1 nb H1 L1 Hnb Wn. apply wp_bind. unfold bw. apply wp_on_world. cbn [fst snd].
        eapply wp_dispose with (k' := K); [exact Ws|exact H1| | |].
        -- intros x. instantiate (1 := fun x => cnt [nb] x + cnt (vblocks (be_index b)) x + cnt [be_self b] x + R x).
           unfold bblocks. cbv beta. rewrite !cnt_app. lia.
        -- unfold vn, oc, bsize. simpl. lia.
        -- intros w2 H2 L2. apply wp_on_store, wp_setx. cbn [fst snd].
           apply wp_bind, wp_getx. cbn [fst]. cbn [set_store be_store be_index].
           apply (REST (mkvec nb 1 [])); auto.
           ++ unfold bown. eapply own_ext; [exact H2| |].
              ** intros x. unfold bblocks. cbv beta. rewrite !cnt_app. unfold set_store, vblocks at 1. cbn [be_store be_index be_self v_cap v_blk Nat.eqb]. lia.
              ** change (bsize (set_store b (mkvec nb 1 []))) with 0. rewrite oc_0. reflexivity.
           ++ wle_tac.
           ++ intros Eb. simpl in Eb. exfalso.
              assert (v_blk (be_store b) < w_next w) by (eapply bown_blk; eauto). lia.
      * intros w1 e H1 L1 Re. assert (A := HND (be_store b) w1 e Ws eq_refl). rewrite set_store_id in A. apply A; auto.
        -- destruct Re as [(? & Lt)|T]; [|left; apply alloc_bthrew; auto].
           assert (v_cap (be_store b) <= env_vmax t) by (destruct Ws; auto). simpl in Lt. unfold bcap in *. lia.
    + apply wp_on_store.
      eapply wp_vec_shrink; [exact Ws|apply bown_store_id; exact H| | |].
      * intros w1 H1 L1. cbn [fst snd]. apply bown_store in H1.
        apply wp_bind, wp_getx. cbn [fst set_store be_store be_index].
        destruct (Nat.eqb_spec (v_blk (be_store b)) (v_blk (be_store b))) as [_|?]; [|congruence].
        apply wp_ret. rewrite set_store_id in *. apply FIN. unfold shk_ok. csplit; auto.
      * intros w1 s1 El W1 H1 L1 Ec Lt _ Hn. cbn [fst snd]. apply bown_store in H1.
        apply wp_bind, wp_getx. cbn [fst set_store be_store be_index].
        apply (REST s1); auto.
        -- unfold bcap, bsize in *. lia.
        -- intros Eb. exfalso.
           assert (v_blk (be_store b) < w_next w) by (eapply bown_blk; eauto).
           unfold bsize in *. lia.
      * intros w1 e H1 L1 T C. cbn [fst snd]. apply bown_store in H1.
        apply HND; auto. left. apply vthrew_bthrew in T. exact T.
Qed.

End POps2.
