(** * Histories determine contents (C58)

    SpecHist.v describes a machine which knows only types, indexes and values, the calls that
    carry out its commands and the histories of programs using them. *)

From Coq Require Import List Arith Lia Bool Permutation.
From Verif Require Import Base Vec Backend Segment Coll Spec Reach SpecHist ProofBase ProofVec ProofBackend ProofSeg ProofMap ProofView ProofColl
  ProofRange ProofReach ProofObs ProofProp ProofProp2 ProofProp3 ProofProp4 ProofProp5 ProofHist Demo Properties5.
Import ListNotations.

(** ** C58 What a collection contains follows from the calls made *)

(** After any history, every collection in use holds for each type exactly the elements the
    machine says, in that order, and has exactly those types registered.  Where calls have thrown
    and their collections stayed in use, these have carried out a first part of the command, or
    were cleared. *)
Theorem C58_contents {V} {E : Env V} h w g d : history h w g d ->
  exists bs, runs [] h bs /\ Forall2 (fun c b => forall t, seg_of c t = b t) g bs.
Proof. intros H. apply (history_spec h w g d H). Qed.

(** In all other histories the machine computes the contents. *)
Theorem C58_computed {V} {E : Env V} h w g d : history h w g d -> Forall steady h ->
  exists bs, run [] h = Some bs /\ Forall2 (fun c b => forall t, seg_of c t = b t) g bs.
Proof. intros H S. destruct (history_spec h w g d H) as (_ & bs & R & F). exists bs. split; auto. apply runs_run; auto. Qed.

(** After any call which has thrown, whether it has left the collection in order or not, clearing
    it succeeds, and the program can go on. *)
Theorem C58_go_on {V} {E : Env V} h w g d i c k m c' w' e : history h w g d -> nth_error g i = Some c -> performs g i c k m ->
  m (c, w) = Exn (c', w') e ->
  exists c'' w'', c_clear (c', w') = Ok (c'', w'') tt /\ history (h ++ [TryClear i k]) w'' (upd i c'' g) d.
Proof.
  intros H Hi P Q. destruct (history_spec _ _ _ _ H) as (R & bs & Rn & F). destruct (F2_nth _ _ _ _ _ F Hi) as (b & Hb & Hh).
  assert (R1 := r_perm _ _ _ _ _ R (del_perm g i c Hi) (Permutation_refl _)).
  pose proof (performs_cleared w g i c d k m bs b c' w' e R1 F Hh P Q) as X. unfold wp in X.
  destruct (c_clear (c', w')) as [[c2 w2] []|[c2 w2] e2|] eqn:Qc; try contradiction. exists c2, w2. split; auto.
  eapply h_try_clear; eauto.
Qed.

(** Programs with histories are programs in the sense of Reach.v: all other properties apply. *)
Theorem C58_reachable {V} {E : Env V} h w g d : history h w g d -> reach w g d.
Proof. intros H. apply (history_spec h w g d H). Qed.

Lemma seg_of_perm {V} {E : Env V} (c c' : coll V) : NoDup (types c) -> NoDup (types c') ->
  (forall t, seg_of c t = seg_of c' t) -> Permutation (content c) (content c').
Proof.
  intros N N' Q.
  assert (K : forall (c : coll V) t xs, NoDup (types c) -> In (t, xs) (content c) <-> seg_of c t = Some xs).
  { clear. intros c t xs. unfold types, seg_of. induction (content c) as [|[u ys] l IH]; simpl; intros N; [split; [tauto|discriminate]|].
    inversion N as [|? ? N1 N2]; subst. destruct (Nat.eqb_spec u t) as [->|Ne].
    - split; [intros [A|A]; [congruence|]|intros A; left; congruence]. exfalso. apply N1. apply (in_map fst) in A. exact A.
    - rewrite <- IH by auto. split; auto. intros [A|A]; auto. congruence. }
  apply NoDup_Permutation.
  - apply (NoDup_map_inv fst). exact N.
  - apply (NoDup_map_inv fst). exact N'.
  - intros [t xs]. rewrite !K by auto. rewrite Q. reflexivity.
Qed.

Lemma same_contents {V} (E1 E2 : Env V) w1 g1 d1 w2 g2 d2 (bs : list (bag V)) :
  reach (E := E1) w1 g1 d1 -> reach (E := E2) w2 g2 d2 -> Forall2 holds g1 bs -> Forall2 holds g2 bs ->
  Forall2 (fun c1 c2 => (forall t, seg_of c1 t = seg_of c2 t) /\ Permutation (content c1) (content c2) /\
                        Permutation (flat c1) (flat c2)) g1 g2.
Proof.
  intros R1 R2 F1 F2.
  assert (N1 : forall c, In c g1 -> NoDup (types c)).
  { intros c I. apply in_split in I. destruct I as (l1 & l2 & ->). eapply (ProofProp4.types_nodup (E := E1) w1 c (l1 ++ l2) d1).
    eapply r_perm; [exact R1|symmetry; apply Permutation_middle|reflexivity]. }
  assert (N2 : forall c, In c g2 -> NoDup (types c)).
  { intros c I. apply in_split in I. destruct I as (l1 & l2 & ->). eapply (ProofProp4.types_nodup (E := E2) w2 c (l1 ++ l2) d2).
    eapply r_perm; [exact R2|symmetry; apply Permutation_middle|reflexivity]. }
  clear R1 R2. revert g2 F2 N2. induction F1 as [|c1 b g1 bs Hc F1 IH]; intros g2 F2 N2; inversion F2; subst; constructor.
  - assert (Q : forall t, seg_of c1 t = seg_of x t) by (intros t; rewrite (Hc t); symmetry; auto).
    assert (P : Permutation (content c1) (content x)) by (apply seg_of_perm; auto; [apply N1|apply N2]; left; auto).
    split; [exact Q|split; [exact P|]]. unfold flat. apply Permutation_flat_map. exact P.
  - apply IH; auto; intros; [apply N1|apply N2]; right; auto.
Qed.

(** The same history under different circumstances - other segment layout (base_collection or
    any_collection), hash function and rehashing, growth policy, limits, allocators - gives the
    same contents up to the order of the segments. *)
Theorem C58_portable {V} (E1 E2 : Env V) h w1 g1 d1 w2 g2 d2 :
  history (E := E1) h w1 g1 d1 -> history (E := E2) h w2 g2 d2 -> Forall steady h ->
  Forall2 (fun c1 c2 => (forall t, seg_of c1 t = seg_of c2 t) /\ Permutation (content c1) (content c2) /\
                        Permutation (flat c1) (flat c2)) g1 g2.
Proof.
  intros H1 H2 S. destruct (history_spec _ _ _ _ H1) as (R1 & bs & Q1 & F1). destruct (history_spec _ _ _ _ H2) as (R2 & bs' & Q2 & F2).
  apply runs_run in Q1; auto. apply runs_run in Q2; auto. rewrite Q1 in Q2. inversion Q2; subst bs'.
  exact (same_contents E1 E2 _ _ _ _ _ _ bs R1 R2 F1 F2).
Qed.

(** Nothing undefined happens, and whatever the machine accepts can be called (given an object of
    each type, and a standard library whose rehashing keeps iterators, without which a hint may
    be lost: see C54).  Assignment through iterators needs no call. *)
Theorem C58_progress {V} {E : Env V} h w g d (bs : list (bag V)) i c b k : history h w g d ->
  Forall2 (fun c b => forall t, seg_of c t = b t) g bs ->
  nth_error g i = Some c -> nth_error bs i = Some b -> obey bs i k b <> None ->
  (forall t, exists a, env_ty a = t) -> env_rehash_stable = true -> (forall f, k <> Write f) ->
  exists m, performs g i c k m.
Proof.
  intros H F Hi Hb Ok Sur St Nw. destruct (history_spec _ _ _ _ H) as (R & _). change (Forall2 holds g bs) in F.
  destruct (F2_nth _ _ _ _ _ F Hi) as (b' & Hb' & Hh). rewrite Hb in Hb'. inversion Hb'; subst b'. clear Hb'.
  assert (R1 := r_perm _ _ _ _ _ R (del_perm g i c Hi) (Permutation_refl _)).
  assert (Hint : forall hn, hint_fits hn b = true -> exists hint, hint_is c hint hn).
  { intros [[t n]|] Hf; simpl in *; [|eauto]. apply Nat.ltb_lt in Hf. rewrite (holds_els c b t Hh) in Hf. eapply points_exists; eauto. }
  destruct k as [ts|hn l|hn t vs|hn j|t k vs|t f l| |t|t| | |f].
  - assert (exists l, map env_ty l = ts) as (l & <-).
    { clear - Sur. induction ts as [|t ts IH]; [exists []; auto|]. destruct IH as (l & <-). destruct (Sur t) as (a & <-). exists (a :: l). auto. }
    eexists. apply p_register.
  - simpl in Ok. destruct (hint_fits hn b) eqn:Hf; [|congruence]. destruct (Hint hn Hf) as (hint & Hs).
    assert (exists xs, Forall2 (gives (E := E)) xs l) as (xs & Fx).
    { clear - Sur. induction l as [|[t v] l IH]; [exists []; auto|]. destruct IH as (xs & Fx). destruct (Sur t) as (a & <-).
      exists (mkarg a a true true HCopy (SVal v) :: xs). constructor; auto. split; [|split]; cbn; auto. intros _. reflexivity. }
    eexists. eapply p_hint_range; eauto. unfold hsafe. auto.
  - simpl in Ok. destruct (hint_fits hn b) eqn:Hf; [|congruence]. destruct (Hint hn Hf) as (hint & Hs). destruct (Sur t) as (a & <-).
    eexists. eapply (p_hint_range_terminal _ _ _ _ _ a HCopy true); eauto. unfold hsafe. auto.
  - simpl in Ok. destruct (Nat.eqb_spec j i) as [|Nj]; [congruence|]. destruct (nth_error bs j) as [by_|] eqn:Hj; [|congruence].
    destruct (hint_fits hn b) eqn:Hf; [|congruence]. destruct (Hint hn Hf) as (hint & Hs).
    assert (exists y, nth_error g j = Some y) as (y & Hy).
    { destruct (nth_error g j) eqn:Hy; [eauto|]. exfalso. apply nth_error_None in Hy.
      assert (length g = length bs) as L by (clear - F; induction F; simpl; auto). assert (j < length bs) by (apply nth_error_Some; congruence). lia. }
    assert (Ry := r_perm _ _ _ _ _ R (del_perm g j y Hy) (Permutation_refl _)).
    eexists. eapply p_hint_all; eauto using begin_located. unfold hsafe. auto.
  - simpl in Ok. destruct (has b t) eqn:Ht; [|simpl in Ok; congruence]. destruct (Nat.leb_spec k (length (els b t))) as [L|]; [|simpl in Ok; congruence].
    rewrite (holds_els c b t Hh) in L. apply (holds_has c b t Hh) in Ht. destruct (lpoints_exists _ _ _ _ _ _ R1 Ht L) as (pos & P).
    assert (exists xs, Forall2 (gives_at (E := E) t) xs vs) as (xs & Fx).
    { clear - Sur. destruct (Sur t) as (a & <-). exists (map (fun v => mkarg a a true true HCopy (SVal v)) vs).
      induction vs; simpl; constructor; auto. split; auto. }
    eexists. eapply p_pos_range; eauto.
  - simpl in Ok. destruct (has b t) eqn:Ht; [|simpl in Ok; congruence]. destruct (Nat.leb_spec f l) as [L|]; [|simpl in Ok; congruence].
    destruct (Nat.leb_spec l (length (els b t))) as [L'|]; [|simpl in Ok; congruence].
    rewrite (holds_els c b t Hh) in L'. apply (holds_has c b t Hh) in Ht.
    destruct (lpoints_exists _ _ _ _ _ _ R1 Ht L') as (pos & P). destruct (lpoints_exists _ _ _ _ t f R1 Ht ltac:(lia)) as (pos0 & P0).
    eexists. eapply p_erase_local_range; eauto.
  - eexists. apply p_clear.
  - destruct (Sur t) as (a & <-). eexists. apply p_clear_info.
  - destruct (Sur t) as (a & <-). eexists. apply (p_reserve_type _ _ _ _ 0).
  - eexists. apply (p_reserve _ _ _ 0).
  - eexists. apply p_shrink.
  - exfalso. eapply Nw; eauto.
Qed.

Theorem C58_defined {V} {E : Env V} h w g d i c k m : history h w g d -> nth_error g i = Some c -> performs g i c k m ->
  m (c, w) <> UB.
Proof.
  intros H Hi P. destruct (history_spec _ _ _ _ H) as (R & bs & Q & F). destruct (F2_nth _ _ _ _ _ F Hi) as (b & Hb & Hh).
  assert (R1 := r_perm _ _ _ _ _ R (del_perm g i c Hi) (Permutation_refl _)).
  pose proof (performs_effect w g i c d k m bs b R1 Hi F Hb Hh P) as X. unfold wp in X. destruct (m (c, w)); congruence.
Qed.

(** A history with two collections, for both layouts: the calls, and what the machine says. *)
Definition demo_history : list (act nat) :=
  [New; On 0 (Put None [(1, 5)]); On 0 (Put None [(2, 8)]); On 0 (PutAt 1 1 [6; 7]); Copy 0;
   On 1 (Erase 1 1 2); On 0 (ClearType 2); On 0 (Put (Some (1, 0)) [(1, 9)]); On 1 (PutFrom None 0)].

Definition gw : Type := list (coll nat) * world.
Definition doo (i : nat) (m : list (coll nat) -> coll nat -> M (coll nat * world) unit) (s : gw) : gw :=
  match nth_error (fst s) i with
  | Some c => match m (fst s) c (c, snd s) with Ok (c', w') _ => (upd i c' (fst s), w') | _ => s end
  | None => s
  end.
Lemma doo_history (E : Env nat) h s d i k m : history h (snd s) (fst s) d ->
  (let c := nth i (fst s) (c_empty 0) in
   nth_error (fst s) i = Some c /\ performs (fst s) i c k (m (fst s) c) /\ done (m (fst s) c (c, snd s)) = true) ->
  history (h ++ [On i k]) (snd (doo i m s)) (fst (doo i m s)) d.
Proof.
  intros H (N & P & D). unfold doo. rewrite N. destruct (m (fst s) _ _) as [[c' w'] []| |] eqn:Q; try discriminate.
  cbn [fst snd]. eapply h_call; eauto.
Qed.
Definition cpy {E : Env nat} (i : nat) (s : gw) : gw :=
  match c_copy (nth i (fst s) (c_empty 0)) (snd s) with Ok w' c => (c :: fst s, w') | _ => s end.
Lemma cpy_history (E : Env nat) h s d i : history h (snd s) (fst s) d ->
  (let c := nth i (fst s) (c_empty 0) in nth_error (fst s) i = Some c /\ done (c_copy c (snd s)) = true) ->
  history (h ++ [Copy i]) (snd (cpy i s)) (fst (cpy i s)) d.
Proof.
  intros H (N & D). unfold cpy. destruct (c_copy _ _) as [w' c'| |] eqn:Q; try discriminate. cbn [fst snd]. eapply h_copy; eauto.
Qed.

Definition s1 lay : gw := let E := dE lay in doo 0 (fun _ _ => void (c_emplace 10 (SVal 5))) ([c_empty 0], mkworld 1 [] 0 0 0).
Definition s2 lay : gw := let E := dE lay in doo 0 (fun _ _ => void (c_insert (mkarg 21 21 true false HCopy (SVal 8)))) (s1 lay).
Definition s3 lay : gw := let E := dE lay in doo 0 (fun _ c => void (c_insert_pos_range (li_base c 1 1)
  [mkarg 10 10 true false HCopy (SVal 6); mkarg 11 11 true false HMove (SVal 7)])) (s2 lay).
Definition s4 lay : gw := let E := dE lay in cpy 0 (s3 lay).
Definition s5 lay : gw := let E := dE lay in doo 1 (fun _ c => void (c_erase_local_range (li_conc c 1 1) (li_base c 1 2))) (s4 lay).
Definition s6 lay : gw := let E := dE lay in doo 0 (fun _ c => c_clear_info 20) (s5 lay).
Definition s7 lay : gw := let E := dE lay in doo 0 (fun _ c => void (c_emplace_hint (it_at c 1 0) 11 (SVal 9))) (s6 lay).
Definition s8 lay : gw := let E := dE lay in
  doo 1 (fun g c => let y := nth 0 g (c_empty 0) in c_insert_from (length (flat y)) y (c_begin y) (c_end y)) (s7 lay).

Lemma demo_history_holds lay : history (E := dE lay) demo_history (snd (s8 lay)) (fst (s8 lay)) [].
Proof.
  change demo_history with (((((((((([] ++ [New]) ++ [On 0 (Put None [(1, 5)])]) ++ [On 0 (Put None [(2, 8)])]) ++ [On 0 (PutAt 1 1 [6; 7])]) ++ [Copy 0]) ++
   [On 1 (Erase 1 1 2)]) ++ [On 0 (ClearType 2)]) ++ [On 0 (Put (Some (1, 0)) [(1, 9)])]) ++ [On 1 (PutFrom None 0)]) : list (act nat)).
  assert (H7 : history (E := dE lay) (((((((([] ++ [New]) ++ [On 0 (Put None [(1, 5)])]) ++ [On 0 (Put None [(2, 8)])]) ++ [On 0 (PutAt 1 1 [6; 7])]) ++ [Copy 0]) ++
   [On 1 (Erase 1 1 2)]) ++ [On 0 (ClearType 2)]) ++ [On 0 (Put (Some (1, 0)) [(1, 9)])]) (snd (s7 lay)) (fst (s7 lay)) []).
  { apply (doo_history (dE lay)).
    - apply (doo_history (dE lay)).
      + apply (doo_history (dE lay)).
        * apply (cpy_history (dE lay)).
          -- apply (doo_history (dE lay)); [apply (doo_history (dE lay)); [apply (doo_history (dE lay))|]|].
             ++ apply (h_new (E := dE lay)). constructor.
             ++ cbv zeta. csplit; [destruct lay; reflexivity| |destruct lay; vm_compute; reflexivity].
                apply (p_emplace (E := dE lay) _ _ _ 10 (SVal 5) 5). left. reflexivity.
             ++ cbv zeta. csplit; [destruct lay; vm_compute; reflexivity| |destruct lay; vm_compute; reflexivity].
                apply (p_insert (E := dE lay) _ _ _ (mkarg 21 21 true false HCopy (SVal 8)) 8); [discriminate|left; reflexivity].
             ++ cbv zeta. csplit; [destruct lay; vm_compute; reflexivity| |destruct lay; vm_compute; reflexivity].
                apply (p_pos_range (E := dE lay) _ _ _ _ 1 1); [destruct lay; (eapply li_base_points; [vm_compute; reflexivity|lia])|repeat constructor].
          -- cbv zeta. split; destruct lay; vm_compute; reflexivity.
        * cbv zeta. csplit; [destruct lay; vm_compute; reflexivity| |destruct lay; vm_compute; reflexivity].
          apply (p_erase_local_range (E := dE lay) _ _ _ _ _ 1 1 2); [| |lia].
          -- destruct lay; (eapply li_conc_points; [vm_compute; reflexivity|lia]).
          -- destruct lay; (eapply li_base_points; [vm_compute; reflexivity|lia]).
      + cbv zeta. csplit; [destruct lay; vm_compute; reflexivity| |destruct lay; vm_compute; reflexivity].
        apply (p_clear_info (E := dE lay) _ _ _ 20).
    - cbv zeta. csplit; [destruct lay; vm_compute; reflexivity| |destruct lay; vm_compute; reflexivity].
      apply (p_emplace_hint (E := dE lay) _ _ _ _ (Some (1, 0)) 11 (SVal 9) 9);
        [destruct lay; (eapply it_at_points; [vm_compute; reflexivity|lia])|right; right; destruct lay; reflexivity|left; reflexivity]. }
  apply (doo_history (dE lay)); [exact H7|]. cbv zeta. csplit; [destruct lay; vm_compute; reflexivity| |destruct lay; vm_compute; reflexivity].
  apply (p_all (E := dE lay) _ _ _ 0); [lia|destruct lay; vm_compute; reflexivity|].
  pose proof (C58_reachable (E := dE lay) _ _ _ _ H7) as R. apply (begin_located (E := dE lay) (snd (s7 lay)) _ (tl (fst (s7 lay))) []).
  replace (nth 0 (fst (s7 lay)) (c_empty 0) :: tl (fst (s7 lay))) with (fst (s7 lay)); [exact R|]. destruct lay; vm_compute; reflexivity.
Qed.

(** A history with failures: the second element of a range cannot be copied, and the collection is
    used as it is; later a type cannot be registered, and the collection is cleared. *)
Definition hE lay : Env nat := demo lay (fun n => match lay with PackedLayout => (n =? 8) || (n =? 11) | SplitLayout => (n =? 12) || (n =? 15) end) true.
Definition rough_history : list (act nat) :=
  [New; On 0 (ReserveType 1); On 0 (Put None [(1, 5)]); Try 0 (Put None [(1, 6); (1, 7)]); On 0 (Put None [(1, 8)]);
   TryClear 0 (Put None [(1, 4); (2, 3)]); On 0 (Put None [(1, 9)])].
Definition arg10 (v : nat) : arg nat := mkarg 10 10 true false HCopy (SVal v).
Definition fails (i : nat) (m : list (coll nat) -> coll nat -> M (coll nat * world) unit) (s : gw) : gw :=
  match nth_error (fst s) i with
  | Some c => match m (fst s) c (c, snd s) with Exn (c', w') _ => (upd i c' (fst s), w') | _ => s end
  | None => s
  end.
Definition wipes {E : Env nat} (i : nat) (s : gw) : gw := doo i (fun _ _ => c_clear) s.
Definition r1 lay : gw := let E := hE lay in doo 0 (fun _ _ => c_reserve_type 10 7) ([c_empty 0], mkworld 1 [] 0 0 0).
Definition r2 lay : gw := let E := hE lay in doo 0 (fun _ _ => void (c_emplace 10 (SVal 5))) (r1 lay).
Definition r3 lay : gw := let E := hE lay in fails 0 (fun _ _ => c_insert_range [arg10 6; arg10 7]) (r2 lay).
Definition r4 lay : gw := let E := hE lay in doo 0 (fun _ _ => void (c_emplace 10 (SVal 8))) (r3 lay).
Definition r5 lay : gw := let E := hE lay in wipes 0 (fails 0 (fun _ _ => c_insert_range [arg10 4; mkarg 20 20 true false HCopy (SVal 3)]) (r4 lay)).
Definition r6 lay : gw := let E := hE lay in doo 0 (fun _ _ => void (c_emplace 10 (SVal 9))) (r5 lay).
Lemma fails_history (E : Env nat) h s d i k m : history h (snd s) (fst s) d ->
  (let c := nth i (fst s) (c_empty 0) in
   nth_error (fst s) i = Some c /\ performs (fst s) i c k (m (fst s) c) /\
   throwsb (m (fst s) c (c, snd s)) UserExn = true /\ survives c k UserExn) ->
  history (h ++ [Try i k]) (snd (fails i m s)) (fst (fails i m s)) d.
Proof.
  intros H (N & P & T & Sv). unfold fails. rewrite N. destruct (throwsb_ok _ _ T) as ([c' w'] & Q). rewrite Q.
  cbn [fst snd]. eapply h_try; eauto.
Qed.
Lemma wipes_history (E : Env nat) h s d i k m e : history h (snd s) (fst s) d ->
  (let c := nth i (fst s) (c_empty 0) in
   nth_error (fst s) i = Some c /\ performs (fst s) i c k (m (fst s) c) /\ throwsb (m (fst s) c (c, snd s)) e = true) ->
  history (h ++ [TryClear i k]) (snd (wipes i (fails i m s))) (fst (wipes i (fails i m s))) d.
Proof.
  intros H (N & P & T). unfold fails. rewrite N. destruct (throwsb_ok _ _ T) as ([c' w'] & Q). rewrite Q.
  destruct (C58_go_on _ _ _ _ _ _ _ _ _ _ _ H N P Q) as (c2 & w2 & Qc & H2).
  unfold wipes, doo. cbn [fst snd]. assert (L : i < length (fst s)) by (apply nth_error_Some; congruence).
  rewrite nth_upd by auto. rewrite Nat.eqb_refl. rewrite Qc. cbn [fst snd].
  replace (upd i c2 (upd i c' (fst s))) with (upd i c2 (fst s)); auto.
  clear - L. unfold upd. revert L. generalize (fst s). induction i as [|i IH]; intros [|x l] L; simpl in *; auto; try lia. f_equal.
  apply IH. lia.
Qed.
Lemma rough_history_holds lay : history (E := hE lay) rough_history (snd (r6 lay)) (fst (r6 lay)) [].
Proof.
  change rough_history with ((((((([] ++ [New]) ++ [On 0 (ReserveType 1)]) ++ [On 0 (Put None [(1, 5)])]) ++ [Try 0 (Put None [(1, 6); (1, 7)])]) ++
    [On 0 (Put None [(1, 8)])]) ++ [TryClear 0 (Put None [(1, 4); (2, 3)])]) ++ [On 0 (Put None [(1, 9)])] : list (act nat)).
  apply (doo_history (hE lay)); [apply (wipes_history (hE lay)) with (e := BadAlloc); [apply (doo_history (hE lay)); [apply (fails_history (hE lay));
    [apply (doo_history (hE lay)); [apply (doo_history (hE lay)); [apply (h_new (E := hE lay)); constructor|]|]|]|]|]|].
  - cbv zeta. csplit; [destruct lay; reflexivity| |destruct lay; vm_compute; reflexivity]. apply (p_reserve_type (E := hE lay) _ _ _ 10 7).
  - cbv zeta. csplit; [destruct lay; vm_compute; reflexivity| |destruct lay; vm_compute; reflexivity].
    apply (p_emplace (E := hE lay) _ _ _ 10 (SVal 5) 5). left. reflexivity.
  - cbv zeta. csplit; [destruct lay; vm_compute; reflexivity| |destruct lay; vm_compute; reflexivity|].
    + apply (p_range (E := hE lay)). repeat constructor; discriminate.
    + left. split; [intros t k Q; discriminate Q|]. intros _ t [<-|[<-|[]]]; destruct lay; vm_compute; lia.
  - cbv zeta. csplit; [destruct lay; vm_compute; reflexivity| |destruct lay; vm_compute; reflexivity].
    apply (p_emplace (E := hE lay) _ _ _ 10 (SVal 8) 8). left. reflexivity.
  - cbv zeta. csplit; [destruct lay; vm_compute; reflexivity| |destruct lay; vm_compute; reflexivity].
    apply (p_range (E := hE lay)). repeat constructor; discriminate.
  - cbv zeta. csplit; [destruct lay; vm_compute; reflexivity| |destruct lay; vm_compute; reflexivity].
    apply (p_emplace (E := hE lay) _ _ _ 10 (SVal 9) 9). left. reflexivity.
Qed.

Example C58_contents_ex lay :
  (history (E := hE lay) rough_history (snd (r6 lay)) (fst (r6 lay)) [] /\
   map content (fst (r4 lay)) = [[(1, [5; 6; 8])]] /\ map content (fst (r6 lay)) = [[(1, [9])]]) /\
  history (E := dE lay) demo_history (snd (s8 lay)) (fst (s8 lay)) [] /\
  (exists b0 b1, run [] demo_history = Some [b0; b1] /\
     b0 1 = Some [9; 5; 6; 7] /\ b0 2 = Some [] /\ b0 3 = None /\ b1 1 = Some [5; 7; 9; 5; 6; 7] /\ b1 2 = Some [8]).
Proof.
  split; [split; [apply rough_history_holds|split; destruct lay; vm_compute; reflexivity]|].
  split; [apply demo_history_holds|]. do 2 eexists. split; [reflexivity|]. repeat split.
Qed.
Example C58_computed_ex lay : history (E := dE lay) demo_history (snd (s8 lay)) (fst (s8 lay)) [] /\ Forall steady demo_history.
Proof. split; [apply demo_history_holds|]. repeat constructor. Qed.
Example C58_reachable_ex lay : history (E := dE lay) demo_history (snd (s8 lay)) (fst (s8 lay)) [].
Proof. exact (demo_history_holds lay). Qed.
(** The order of the segments does differ between the two layouts if types are registered in
    another order, see [dc_content]. *)
Example C58_portable_ex :
  history (E := dE PackedLayout) demo_history (snd (s8 PackedLayout)) (fst (s8 PackedLayout)) [] /\
  history (E := dE SplitLayout) demo_history (snd (s8 SplitLayout)) (fst (s8 SplitLayout)) [] /\ Forall steady demo_history.
Proof. csplit; try apply demo_history_holds. repeat constructor. Qed.
Example C58_progress_ex lay : let g := fst (s8 lay) in exists bs c b,
  history (E := dE lay) demo_history (snd (s8 lay)) g [] /\ Forall2 (fun c b => forall t, seg_of c t = b t) g bs /\
  nth_error g 1 = Some c /\ nth_error bs 1 = Some b /\ obey bs 1 (PutAt 1 4 [2; 3]) b <> None /\
  obey bs 1 (Erase 1 0 7) b = None /\ obey bs 1 (PutAt 7 0 [3]) b = None /\
  (forall t, exists a, env_ty (Env := dE lay) a = t) /\ env_rehash_stable (Env := dE lay) = true.
Proof.
  cbv zeta. exists (match run [] demo_history with Some bs => bs | None => [] end), (nth 1 (fst (s8 lay)) (c_empty 0)),
    (nth 1 (match run [] demo_history with Some bs => bs | None => [] end) none).
  csplit; [apply demo_history_holds| |destruct lay; vm_compute; reflexivity|reflexivity|discriminate|reflexivity|reflexivity| |destruct lay; reflexivity].
  { pose proof (C58_computed (E := dE lay) _ _ _ _ (demo_history_holds lay)) as X. destruct X as (bs & Q & F); [repeat constructor|]. rewrite Q. exact F. }
  intros t. exists (t * 10). destruct lay; exact (Nat.div_mul t 10 ltac:(lia)).
Qed.
Example C58_defined_ex lay : let E := dE lay in let g := fst (s8 lay) in let c := nth 1 g (c_empty 0) in
  history (E := dE lay) demo_history (snd (s8 lay)) g [] /\ nth_error g 1 = Some c /\
  performs (E := dE lay) g 1 c (Erase 1 5 6) (void (c_erase (it_at c 1 5))).
Proof.
  cbv zeta. csplit; [apply demo_history_holds|destruct lay; vm_compute; reflexivity|].
  apply (p_erase (E := dE lay) _ _ _ _ 1 5). destruct lay; (eapply it_at_points; [vm_compute; reflexivity|lia]).
Qed.
Example C58_go_on_ex lay : let E := hE lay in let c := nth 0 (fst (r2 lay)) (c_empty 0) in
  (exists h, history (E := hE lay) h (snd (r2 lay)) (fst (r2 lay)) []) /\ nth_error (fst (r2 lay)) 0 = Some c /\
  performs (E := hE lay) (fst (r2 lay)) 0 c (Put None [(1, 6); (1, 7)]) (c_insert_range [arg10 6; arg10 7]) /\
  throws (c_insert_range [arg10 6; arg10 7] (c, snd (r2 lay))) UserExn.
Proof.
  cbv zeta. csplit; [|destruct lay; vm_compute; reflexivity| |apply throwsb_ok; destruct lay; vm_compute; reflexivity].
  - eexists. apply (doo_history (hE lay)); [apply (doo_history (hE lay)); [apply (h_new (E := hE lay)); constructor|]|].
    + cbv zeta. csplit; [destruct lay; reflexivity| |destruct lay; vm_compute; reflexivity]. apply (p_reserve_type (E := hE lay) _ _ _ 10 7).
    + cbv zeta. csplit; [destruct lay; vm_compute; reflexivity| |destruct lay; vm_compute; reflexivity].
      apply (p_emplace (E := hE lay) _ _ _ 10 (SVal 5) 5). left. reflexivity.
  - apply (p_range (E := hE lay)). repeat constructor; discriminate.
Qed.

Print Assumptions C58_contents.
Print Assumptions C58_computed.
Print Assumptions C58_go_on.
Print Assumptions C58_reachable.
Print Assumptions C58_portable.
Print Assumptions C58_progress.
Print Assumptions C58_defined.
