(** * Element operations performed by copying, moving and destroying collections *)

From Coq Require Import List Arith Lia Bool Permutation.
From Verif Require Import Base Vec Backend Segment Coll ProofBase ProofVec ProofBackend ProofOps ProofOps2 ProofSeg Spec ProofMap ProofView ProofColl ProofCost ProofCost3 ProofCost4.
Import ListNotations.

(** Partial correctness: nothing is said about undefined behaviour. *)
Definition pc {S A} (m : M S A) (s : S) (Q : S -> A -> Prop) (X : S -> exn -> Prop) : Prop :=
  match m s with Ok s' a => Q s' a | Exn s' e => X s' e | UB => True end.

Section Pc.
Lemma pc_mono {S A} (m : M S A) s (Q Q' : S -> A -> Prop) (X X' : S -> exn -> Prop) :
  pc m s Q X -> (forall s' a, Q s' a -> Q' s' a) -> (forall s' e, X s' e -> X' s' e) -> pc m s Q' X'.
Proof. unfold pc. destruct (m s); auto. Qed.
Lemma pc_ret {S A} (a : A) (s : S) (Q : S -> A -> Prop) (X : S -> exn -> Prop) : Q s a -> pc (ret a) s Q X.
Proof. auto. Qed.
Lemma pc_throw {S A} e (s : S) (Q : S -> A -> Prop) (X : S -> exn -> Prop) : X s e -> pc (@throw S A e) s Q X.
Proof. auto. Qed.
Lemma pc_ub {S A} (s : S) Q X : pc (@ub S A) s Q X.
Proof. exact I. Qed.
Lemma pc_bind {S A B} (m : M S A) (f : A -> M S B) s Q X : pc m s (fun s' a => pc (f a) s' Q X) X -> pc (bind m f) s Q X.
Proof. unfold pc, bind. destruct (m s); auto. Qed.
Lemma pc_try {S A} (m : M S A) h s Q X : pc m s Q (fun s' e => pc h s' (fun s'' _ => X s'' e) X) -> pc (try_rethrow m h) s Q X.
Proof. unfold pc, try_rethrow. destruct (m s) as [s' a|s' e|]; auto. destruct (h s'); auto. Qed.
Lemma pc_on_world {T A} (m : M world A) (s : T * world) Q X :
  pc m (snd s) (fun w a => Q (fst s, w) a) (fun w e => X (fst s, w) e) -> pc (on_world m) s Q X.
Proof. unfold pc, on_world. destruct (m (snd s)); auto. Qed.
Lemma pc_on_field {T U A} (p : T -> U) u (m : M (U * world) A) s Q X :
  pc m (p (fst s), snd s) (fun s' a => Q (u (fst s') (fst s), snd s') a) (fun s' e => X (u (fst s') (fst s), snd s') e) -> pc (on_field p u m) s Q X.
Proof. unfold pc, on_field. destruct (m (p (fst s), snd s)) as [[y w] a|[y w] e|]; auto. Qed.
Lemma pc_getx {T} (s : T * world) (Q : T * world -> T -> Prop) (X : T * world -> exn -> Prop) : Q s (fst s) -> pc getx s Q X.
Proof. auto. Qed.
Lemma pc_setx {T} (x : T) (s : T * world) (Q : T * world -> unit -> Prop) (X : T * world -> exn -> Prop) : Q (x, snd s) tt -> pc (setx x) s Q X.
Proof. auto. Qed.
Lemma pc_cost {S A} pr (m : M S A) s k (Q : S -> A -> Prop) (X : S -> exn -> Prop) : cost pr m s k -> (forall s' a, m s = Ok s' a -> w_work (pr s') <= w_work (pr s) + k -> Q s' a) ->
  (forall s' e, m s = Exn s' e -> w_work (pr s') <= w_work (pr s) + k -> X s' e) -> pc m s Q X.
Proof. unfold cost, pc. destruct (m s); auto. Qed.
Lemma pc_ok {S A} (m : M S A) s Q X s' a : pc m s Q X -> m s = Ok s' a -> Q s' a.
Proof. unfold pc. intros H Q0. rewrite Q0 in H. exact H. Qed.
Lemma pc_exn {S A} (m : M S A) s Q X s' e : pc m s Q X -> m s = Exn s' e -> X s' e.
Proof. unfold pc. intros H Q0. rewrite Q0 in H. exact H. Qed.
Lemma cost_pc {S A} pr (m : M S A) s k : pc m s (fun s' _ => w_work (pr s') <= w_work (pr s) + k) (fun s' _ => w_work (pr s') <= w_work (pr s) + k) ->
  cost pr m s k.
Proof. auto. Qed.
End Pc.

Section Cost5.
Context {V : Type} {E : Env V}.
Notation BW := (backend V * world)%type.
Notation CW := (coll V * world)%type.
Notation PW := ((coll V * coll V) * world)%type.
Notation NL := (list (node V)).
Notation isize b := (vsize (be_index b)).
Notation icap b := (v_cap (be_index b)).

(** The index of a split segment grows by a third at least. *)
Definition grows : Prop := env_layout = SplitLayout -> forall m, 4 * m <= 3 * env_grow m.

Definition pot (i : vec ptr) : nat := if eo_max ix_eops <=? v_cap i then 0 else 12 * vsize i - 9 * v_cap i.

Lemma emplace_back_pot (v : vec ptr) w x : (forall m, 4 * m <= 3 * env_grow m) -> vsize v <= v_cap v ->
  pc (vec_emplace_back ix_eops HMove x) (v, w)
    (fun s' _ => vsize (fst s') = S (vsize v) /\ vsize (fst s') <= v_cap (fst s') /\ w_work (snd s') + pot (fst s') <= w_work w + pot v + 14)
    (fun s' _ => fst s' = v /\ w_work (snd s') <= w_work w + pot v + 14).
Proof.
  intros G L. unfold vec_emplace_back. apply pc_bind, pc_getx. cbn [fst]. destruct (vsize v <? v_cap v) eqn:Q.
  - apply Nat.ltb_lt in Q. apply pc_bind, pc_on_world. cbn [fst snd].
    eapply pc_cost; [apply (cost_construct ix_eops HMove)| |]; intros w1 a1 _ Hw; [|split; [reflexivity|cbn; lia]].
    unfold set_elems, modify, pc. unfold vsize in *. cbn [fst snd v_cap v_elems]. rewrite app_length. cbn [length].
    csplit; try lia. unfold pot, vsize. cbn [v_cap v_elems]. rewrite app_length. cbn [length]. destruct (_ <=? _); lia.
  - apply Nat.ltb_ge in Q. destruct (eo_max ix_eops <=? vsize v) eqn:Q2.
    + apply pc_throw. split; [reflexivity|cbn; lia].
    + apply Nat.leb_gt in Q2. assert (P : pot v = 3 * vsize v).
      { unfold pot. destruct (Nat.leb_spec (eo_max ix_eops) (v_cap v)); lia. }
      apply pc_bind. eapply pc_cost; [apply (cost_realloc ix_eops)| |].
      * intros s1 u R Hw. apply realloc_ok in R. destruct R as (_ & R2).
        unfold set_elems, modify, pc. unfold vsize in *. cbn [fst snd v_cap v_elems] in *. rewrite R2. rewrite app_length. cbn [length].
        pose proof (G (v_cap v)). assert (B : S (length (v_elems v)) <= next_cap ix_eops v (S (length (v_elems v)))) by (unfold next_cap; lia).
        csplit; try lia. rewrite P. unfold pot, vsize. cbn [v_cap v_elems]. rewrite app_length. cbn [length].
        destruct (Nat.leb_spec (eo_max ix_eops) (next_cap ix_eops v (S (length (v_elems v))))) as [|H1]; [lia|].
        assert (env_grow (v_cap v) <= next_cap ix_eops v (S (length (v_elems v)))) by (unfold next_cap in *; lia). lia.
      * intros s1 e R Hw. apply realloc_exn in R. cbn [fst snd] in *. split; auto. unfold vsize in *. lia.
Qed.

Lemma push_entries_pot ns : (forall m, 4 * m <= 3 * env_grow m) -> forall (s : BW), isize (fst s) <= icap (fst s) ->
  pc (sp_push_entries ns) s
    (fun s' _ => be_store (fst s') = be_store (fst s) /\ isize (fst s') = isize (fst s) + length ns /\ w_work (snd s') <= w_work (snd s) + pot (be_index (fst s)) + 14 * length ns)
    (fun s' _ => be_store (fst s') = be_store (fst s) /\ isize (fst s') <= isize (fst s) + length ns /\ w_work (snd s') <= w_work (snd s) + pot (be_index (fst s)) + 14 * length ns).
Proof.
  intros G. induction ns as [|n ns IH]; intros s L; cbn [sp_push_entries].
  - apply pc_ret. cbn [length]. csplit; auto; lia.
  - apply pc_bind, pc_getx, pc_bind, pc_on_field. eapply pc_mono; [apply (emplace_back_pot (be_index (fst s)) (snd s) _ G L)| |].
    + intros [v w] u (A1 & A2 & A3). cbn [fst snd] in *. eapply pc_mono; [apply IH; exact A2| |]; cbn [fst snd be_index be_store length]; rewrite A1;
        intros s1 r (B1 & B2 & B3); csplit; auto; lia.
    + intros [v w] e (A1 & A2). cbn [fst snd be_store be_index length] in *. subst v. csplit; auto; lia.
Qed.

Lemma be_ctor_work t (st : vec V) w : grows -> vsize st <= v_cap st ->
  pc (be_ctor t st) w (fun w' b => bsize b = vsize st /\ isize b <= S (vsize st) /\ w_work w' <= w_work w + 16 * vsize st + 17)
    (fun w' _ => w_work w' <= w_work w + 16 * vsize st + 17).
Proof.
  intros G L. unfold be_ctor. destruct env_layout eqn:Ly.
  - apply pc_ret. unfold bsize. cbn [be_store be_index vsize vempty v_elems length]. csplit; auto; lia.
  - specialize (G Ly). set (n := vsize st) in *.
    assert (P : pc (try_rethrow (on_store (vec_reserve (vh_eops t) 1) ;; sp_build_index 0)%mon (destroy_members t)) (mkbackend st vempty 0, w)
      (fun s' _ => bsize (fst s') = n /\ isize (fst s') <= S n /\ w_work (snd s') <= w_work w + 16 * n + 17) (fun s' _ => w_work (snd s') <= w_work w + 16 * n + 17)).
    { apply pc_try. 
      assert (D : forall b1 w1 k, bsize b1 = n -> isize b1 <= S n -> w_work w1 <= w_work w + 14 * n + k -> k <= 16 ->
        pc (destroy_members t) (b1, w1) (fun s' _ => w_work (snd s') <= w_work w + 16 * n + 17) (fun s' _ => w_work (snd s') <= w_work w + 16 * n + 17)).
      { intros b1 w1 k B1 B2 B3 B4. unfold destroy_members.
        eapply (pc_cost snd _ _ (isize b1 + bsize b1)); [|intros s' u _ H; cbn [snd] in *; lia|intros s' u _ H; cbn [snd] in *; lia].
        apply cost_bind_getx. cbn [fst]. apply cost_bind; [apply cost_on_world, cost_dispose|]. intros s' u Q. apply on_world_ok in Q.
        apply cost_on_world. cbn [snd]. apply cost_dispose. }
      apply pc_bind, pc_on_field. cbn [fst snd be_store be_index].
      eapply pc_cost; [apply cost_reserve| |].
      - intros [v w1] u R Hw. cbn [fst snd be_store] in *. apply reserve_ok in R. cbn [fst] in R. destruct R as (R1 & _).
        assert (Hn : vsize v = n) by (unfold vsize, n in *; rewrite R1; reflexivity).
        assert (Hw' : w_work w1 <= w_work w + 2).
        { destruct (1 <=? v_cap st) eqn:Q1; [lia|]. apply Nat.leb_gt in Q1. fold n in Hw. lia. }
        unfold sp_build_index. apply pc_bind, pc_getx. cbn [fst be_store]. rewrite Hn, Nat.sub_0_r.
        eapply pc_mono; [apply push_entries_pot; [exact G|cbn; lia]| |]; cbn [fst snd be_store be_index]; rewrite seq_length;
          change (vsize (@vempty ptr)) with 0; intros [b2 w2] r (B1 & B2 & B3); cbn [fst snd] in *; change (pot vempty) with (pot (@vempty ptr)) in B3;
          assert (Z : pot (@vempty ptr) = 0) by (unfold pot; destruct (eo_max ix_eops <=? v_cap (@vempty ptr)); reflexivity); rewrite Z in B3.
        + unfold bsize. rewrite B1. csplit; [exact Hn|lia|lia].
        + apply (D b2 w2 16); [unfold bsize; rewrite B1; exact Hn|lia|lia|lia].
      - intros [v w1] e R Hw. apply reserve_exn in R. cbn [fst snd be_store] in *. subst v. apply (D _ _ 2); [reflexivity|cbn; lia| |lia].
        cbn [fst] in Hw. destruct (1 <=? v_cap st) eqn:Q1; [lia|]. apply Nat.leb_gt in Q1. fold n in Hw. lia. }
    unfold pc in *. destruct (try_rethrow _ _ _) as [[b1 w1] u|[b1 w1] e|]; auto.
Qed.

Ltac blia := cbv beta in *; cbn [fst snd] in *; lia.
Lemma be_new_work t (st : vec V) w : grows -> vsize st <= v_cap st ->
  pc (be_new t st) w (fun w' b => bsize b = vsize st /\ isize b <= S (vsize st) /\ w_work w' <= w_work w + 16 * vsize st + 17)
    (fun w' _ => w_work w' <= w_work w + 16 * vsize st + 17).
Proof.
  intros G L. unfold be_new. apply pc_bind, pc_try. eapply pc_cost; [apply cost_alloc| |]; intros w1 r _ Hw.
  - apply pc_bind, pc_try. eapply pc_mono; [apply be_ctor_work; auto| |].
    + intros w2 b (A1 & A2 & A3). apply pc_ret. unfold bsize in *. cbn [be_store be_index]. csplit; auto. blia.
    + intros w2 e A. eapply pc_cost; [apply cost_free| |]; intros w3 r3 _ Hw3; blia.
  - eapply pc_cost; [apply cost_dispose| |]; intros w3 r3 _ Hw3; blia.
Qed.

Definition weight (s : segment V) : nat := bsize (sg_be s) + isize (sg_be s).
Lemma seg_delete_work (s : segment V) w : wcost (seg_delete s) w (weight s).
Proof.
  unfold seg_delete, be_delete, weight. eapply cost_mono; [apply cost_bind; [apply cost_dispose|]; intros; apply cost_bind; [apply cost_dispose|intros; apply cost_free]|].
  unfold bsize. blia.
Qed.

Lemma vec_copy_ok {A} (eo : eops A) (x : vec A) w w' v : vec_copy eo x w = Ok w' v -> vsize v = vsize x /\ vsize v <= v_cap v.
Proof.
  unfold vec_copy. destruct (Nat.eqb_spec (vsize x) 0) as [Z|Z]; intros H.
  - inversion H; subst. cbn. blia.
  - inv_bind H. inv_bind H. inversion H; subst. unfold vsize. cbn. blia.
Qed.
Lemma seg_copy_work (x : segment V) al w : grows ->
  pc (seg_copy x al) w (fun w' s => sg_ty s = sg_ty x /\ bsize (sg_be s) = bsize (sg_be x) /\ weight s <= 2 * bsize (sg_be x) + 1 /\ w_work w' <= w_work w + 18 * bsize (sg_be x) + 17)
    (fun w' _ => w_work w' <= w_work w + 18 * bsize (sg_be x) + 17).
Proof.
  intros G. unfold seg_copy, be_copy. apply pc_bind, pc_bind. eapply pc_cost; [apply cost_copy| |].
  - intros w1 v Q Hw. apply vec_copy_ok in Q. destruct Q as (Q1 & Q2). eapply pc_mono; [apply be_new_work; auto| |].
    + intros w2 b (A1 & A2 & A3). apply pc_ret. unfold weight, bsize in *. cbn [sg_be sg_ty]. csplit; auto; blia.
    + intros w2 e A. unfold bsize in *. cbn beta in A. blia.
  - intros w1 e _ Hw. unfold bsize in *. blia.
Qed.

Definition nsizes (ns : NL) : nat := list_sum (map (fun n => bsize (sg_be (n_seg n))) ns).
Definition weights (ns : NL) : nat := list_sum (map (fun n => weight (n_seg n)) ns).
Lemma destroy_work (ns : NL) : forall w, wcost (destroy_nodes ns) w (weights ns).
Proof.
  induction ns as [|n ns IH]; intros w; cbn [destroy_nodes]; [apply cost_ret|].
  unfold weights. cbn [map]. change (list_sum (?x :: ?m)) with (x + list_sum m). apply cost_bind; [apply seg_delete_work|intros; apply IH].
Qed.

Lemma copy_nodes_work al : grows -> forall (ns : NL) w,
  pc (copy_nodes ns al) w (fun w' ns' => weights ns' <= 2 * nsizes ns + length ns /\ w_work w' <= w_work w + 18 * nsizes ns + 17 * length ns)
    (fun w' _ => w_work w' <= w_work w + 20 * nsizes ns + 18 * length ns).
Proof.
  intros G. induction ns as [|n ns IH]; intros w; cbn [copy_nodes].
  - apply pc_ret. cbn. blia.
  - unfold nsizes, weights in *. cbn [map length]. change (list_sum (?x :: ?m)) with (x + list_sum m).
    set (S0 := list_sum (map (fun n0 => bsize (sg_be (n_seg n0))) ns)) in *.
    apply pc_bind. eapply pc_cost; [apply cost_tick| |]; intros w1 r1 _ H1; [|blia].
    apply pc_bind. eapply pc_mono; [apply seg_copy_work; exact G| |]; [|intros w2 e A; cbn beta in A; blia].
    intros w2 s (_ & A1 & A2 & A3). apply pc_bind. eapply pc_cost; [apply cost_fresh| |]; intros w3 r3 _ H3; [|blia].
    apply pc_bind, pc_try. eapply pc_mono; [apply IH| |].
    + intros w4 ns' (B1 & B2). apply pc_ret. cbn [map n_seg]. change (list_sum (?x :: ?m)) with (x + list_sum m). blia.
    + intros w4 e B. cbn beta in B. eapply pc_cost; [apply seg_delete_work| |]; intros w5 r5 _ H5; blia.
Qed.

Lemma list_sum_perm (l l' : list nat) : Permutation l l' -> list_sum l = list_sum l'.
Proof. induction 1; simpl; blia. Qed.
Lemma weights_shuffle codes (ns : NL) : weights (shuffle codes ns) = weights ns.
Proof. unfold weights. apply list_sum_perm, Permutation_map, shuffle_perm. Qed.
Lemma sizes_shuffle codes (ns : NL) : nsizes (shuffle codes ns) = nsizes ns.
Proof. unfold nsizes. apply list_sum_perm, Permutation_map, shuffle_perm. Qed.

Lemma build_cache_work keys : forall (s : CW), pc (build_cache keys) s
  (fun s' _ => c_nodes (fst s') = c_nodes (fst s) /\ w_work (snd s') <= w_work (snd s))
  (fun s' _ => c_nodes (fst s') = c_nodes (fst s) /\ w_work (snd s') <= w_work (snd s)).
Proof.
  induction keys as [|[a m] ks IH]; intros s; cbn [build_cache]; [apply pc_ret; auto|].
  apply pc_bind, pc_getx, pc_bind.
  assert (C : pc (cache_insert a (map_find (c_nodes (fst s)) a)) s (fun s' _ => c_nodes (fst s') = c_nodes (fst s) /\ w_work (snd s') <= w_work (snd s))
    (fun s' _ => c_nodes (fst s') = c_nodes (fst s) /\ w_work (snd s') <= w_work (snd s))).
  { eapply pc_cost; [apply cost_cache_insert| |]; intros s' r Q H; (split; [|blia]).
    - unfold cache_insert in Q. inv_bind Q. apply on_world_ok in Q0. rewrite <- Q0. unfold bind at 1, getx at 1 in Q.
      destruct (cache_find _ _); inversion Q; subst; reflexivity.
    - unfold cache_insert in Q. unfold bind at 1 in Q. destruct (on_world _ _) as [s1 u1|s1 e1|] eqn:Q0; [| |discriminate Q].
      + unfold bind at 1, getx at 1 in Q. destruct (cache_find _ _); inversion Q.
      + inversion Q; subst. apply on_world_exn in Q0. rewrite Q0. reflexivity. }
  eapply pc_mono; [exact C| |]; auto. intros s1 u (A1 & A2). eapply pc_mono; [apply IH| |]; intros s2 r (B1 & B2); (split; [congruence|blia]).
Qed.
Lemma map_copy_work al (ns : NL) w : grows ->
  pc (map_copy ns al) w (fun w' ns' => weights ns' <= 2 * nsizes ns + length ns /\ w_work w' <= w_work w + 18 * nsizes ns + 17 * length ns)
    (fun w' _ => w_work w' <= w_work w + 20 * nsizes ns + 18 * length ns).
Proof.
  intros G. unfold map_copy. apply pc_bind. eapply pc_cost; [apply cost_clock| |]; intros w1 r1 _ H1; [|blia].
  apply pc_bind. eapply pc_mono; [apply copy_nodes_work; exact G| |]; cbn beta.
  - intros w2 ns' (A1 & A2). apply pc_ret. rewrite weights_shuffle. blia.
  - intros w2 e A. blia.
Qed.
Lemma cost_c_copy_al (x : coll V) al w : grows -> wcost (c_copy_al x al) w (20 * nsizes (c_nodes x) + 18 * length (c_nodes x)).
Proof.
  intros G. apply cost_pc. unfold c_copy_al. apply pc_bind. eapply pc_mono; [apply map_copy_work; exact G| |]; cbn beta; [|intros w1 e A; blia].
  intros w1 ns (A1 & A2). pose proof (build_cache_work (c_cache x) (mkcoll ns (c_buckets x) [] al, w1)) as B. unfold pc, with_new in *.
  destruct (build_cache _ _) as [[c2 w2] u|[c2 w2] e|]; auto; cbn [fst snd c_nodes] in B; destruct B as (B1 & B2); [blia|].
  unfold c_destroy. rewrite B1. pose proof (destroy_work ns w2) as D. unfold cost in D. destruct (destroy_nodes ns w2); auto; blia.
Qed.

Lemma map_clear_work (s : CW) : pc map_clear s
  (fun s' _ => c_nodes (fst s') = [] /\ c_al (fst s') = c_al (fst s) /\ w_work (snd s') <= w_work (snd s) + weights (c_nodes (fst s)))
  (fun s' _ => s' = s /\ False).
Proof.
  unfold map_clear. apply pc_bind, pc_getx, pc_bind, pc_on_world. eapply pc_cost; [apply destroy_work| |]; intros w r Q H.
  - apply pc_setx. cbn. auto.
  - exfalso. revert Q. generalize (c_nodes (fst s)) (snd s). induction l as [|n l IH]; intros w0 Q; cbn [destroy_nodes] in Q; [discriminate|].
    unfold bind at 1 in Q. destruct (seg_delete (n_seg n) w0) as [w1 u|w1 e|] eqn:Q1; [eapply IH; exact Q| |discriminate].
    unfold seg_delete, be_delete in Q1. unfold bind at 1 in Q1. destruct (dispose ix_eops _ w0) as [w2 u|w2 e2|] eqn:Q2; [| |discriminate].
    + unfold bind at 1 in Q1. destruct (dispose _ _ w2) as [w3 u3|w3 e3|] eqn:Q3; [| |discriminate].
      * unfold free in Q1. repeat match type of Q1 with context [if ?b then _ else _] => destruct b end; discriminate.
      * apply dispose_exn in Q3. exact Q3.
    + apply dispose_exn in Q2. exact Q2.
Qed.
Lemma cache_clear_work (s : CW) : pc cache_clear s
  (fun s' _ => c_nodes (fst s') = c_nodes (fst s) /\ c_al (fst s') = c_al (fst s) /\ w_work (snd s') <= w_work (snd s))
  (fun s' _ => False).
Proof. unfold cache_clear. apply pc_bind, pc_getx, pc_setx. cbn. auto. Qed.

Lemma cost_c_copy_assign (x c : coll V) w : grows ->
  xcost (c_copy_assign x) (c, w) (weights (c_nodes c) + 20 * nsizes (c_nodes x) + 18 * length (c_nodes x)).
Proof.
  intros G. apply cost_pc. cbn [snd]. set (k := weights (c_nodes c) + 20 * nsizes (c_nodes x) + 18 * length (c_nodes x)). unfold c_copy_assign. apply pc_try.
  assert (H : forall s', w_work (snd s') + weights (c_nodes (fst s')) <= w_work w + k -> pc (map_clear ;; cache_clear)%mon s'
    (fun s'' _ => w_work (snd s'') <= w_work w + k) (fun s'' _ => w_work (snd s'') <= w_work w + k)).
  { intros s' A. apply pc_bind. eapply pc_mono; [apply map_clear_work| |]; [|intros ? ? (_ & F); destruct F].
    intros s1 u (_ & _ & B). eapply pc_mono; [apply cache_clear_work| |]; [|intros ? ? F; destruct F]. intros s2 u2 (_ & _ & C). blia. }
  apply pc_bind. unfold map_copy_assign. apply pc_bind. eapply pc_mono; [apply map_clear_work| |]; [|intros ? ? (_ & F); destruct F].
  intros s1 u (A1 & _ & A3). cbn [fst snd] in A3. apply pc_bind, pc_getx, pc_bind, pc_on_world.
  eapply pc_mono; [apply map_copy_work; exact G| |]; cbn beta.
  2:{ intros w2 e B. apply H. cbn [fst snd]. rewrite A1. change (weights []) with 0. unfold k. blia. }
  intros w2 ns (B1 & B2). apply pc_setx. cbn [fst snd]. apply pc_bind. eapply pc_mono; [apply cache_clear_work| |]; [|intros ? ? F; destruct F].
  intros s3 u3 (C1 & _ & C3). cbn [fst snd c_nodes] in *. eapply pc_mono; [apply build_cache_work| |]; intros s4 r4 (D1 & D2).
  - unfold k. blia.
  - apply H. rewrite D1, C1. unfold k. blia.
Qed.

(** ** Moves *)
Lemma vec_move_work {A} (eo : eops A) same (v : vec A) w : vsize v <= v_cap v ->
  pc (vec_move eo same) (v, w)
    (fun s' r => vsize r = vsize v /\ vsize r <= v_cap r /\ (vsize (fst s') <= vsize v /\ vsize (fst s') <= v_cap (fst s')) /\ w_work (snd s') <= w_work w + 3 * vsize v)
    (fun s' _ => vsize (fst s') = vsize v /\ w_work (snd s') <= w_work w + 3 * vsize v).
Proof.
  intros L. unfold vec_move. apply pc_bind, pc_getx. cbn [fst]. destruct same.
  - apply pc_bind, pc_setx. apply pc_ret. cbn [fst snd]. csplit; auto; try (apply Nat.le_0_l); try blia.
  - destruct (Nat.eqb_spec (vsize v) 0) as [Z|Z]; [apply pc_ret; cbn [fst snd]; csplit; auto; blia|].
    apply pc_bind, pc_on_world. eapply pc_cost; [apply cost_clock| |]; intros w1 r1 _ H1; [|cbn [fst snd] in *; csplit; auto; blia].
    apply pc_bind, pc_on_world. eapply pc_cost; [apply cost_alloc| |]; intros w2 r2 _ H2; [|cbn [fst snd] in *; csplit; auto; blia].
    apply pc_bind, pc_try, pc_on_world. eapply pc_cost; [apply cost_construct_n| |]; intros w3 r3 _ H3; cbn [fst snd] in *.
    + apply pc_bind. eapply pc_cost; [apply cost_leave_junk| |]; intros s4 r4 Q4 H4; cbn [fst snd] in *;
        unfold leave_junk in Q4; unfold bind at 1 in Q4;
        match type of Q4 with match ?m with _ => _ end = _ => destruct m as [s5 u5|s5 e5|] eqn:Q5 end; try discriminate Q4.
      * unfold set_elems, modify in Q4. inversion Q4; subst. apply on_world_ok in Q5. cbn [fst] in Q5. rewrite Q5. apply pc_ret.
        unfold vsize, junk_list in *. cbn [fst snd v_elems v_cap] in *. rewrite map_length, seq_length. csplit; auto; blia.
      * exfalso. inversion Q4; subst. unfold w_, on_world in Q5. cbn [fst snd] in Q5. destruct (vdie eo _ w3) as [w6 u6|w6 e6|] eqn:Q6; inversion Q5; subst.
        unfold vdie, die, work in Q6. destruct (eo_obj eo); [destruct (_ <=? _)|]; discriminate Q6.
    + apply pc_bind, pc_on_world. eapply pc_cost; [apply cost_free| |]; intros w4 r4 _ H4; cbn [fst snd] in *; [|split; auto; blia].
      eapply pc_cost; [apply cost_leave_junk| |]; intros s5 r5 Q5 H5; cbn [fst snd] in *; (split; [|blia]);
        unfold leave_junk in Q5; unfold bind at 1 in Q5;
        match type of Q5 with match ?m with _ => _ end = _ => destruct m as [s6 u6|s6 e6|] eqn:Q6 end; try discriminate Q5.
      * unfold set_elems, modify in Q5. inversion Q5; subst. unfold vsize, junk_list. cbn. rewrite map_length, seq_length. unfold vsize. blia.
      * inversion Q5; subst. apply on_world_exn in Q6. rewrite Q6. reflexivity.
Qed.
Lemma be_move_work t same (b : backend V) w : grows -> bsize b <= bcap b ->
  pc (be_move t same) (b, w)
    (fun s' r => bsize r = bsize b /\ isize r <= S (bsize b) /\ (bsize (fst s') <= bsize b /\ bsize (fst s') <= bcap (fst s')) /\ be_index (fst s') = be_index b /\ w_work (snd s') <= w_work w + 19 * bsize b + 17)
    (fun s' _ => bsize (fst s') <= bsize b /\ be_index (fst s') = be_index b /\ w_work (snd s') <= w_work w + 19 * bsize b + 17).
Proof.
  intros G L. unfold be_move. apply pc_bind, pc_on_field. cbn [fst snd].
  eapply pc_mono; [apply (vec_move_work (vh_eops t) same (be_store b) w L)| |]; cbn [fst snd].
  - intros [v w1] r (A1 & A2 & (A3 & A3b) & A4). cbn [fst snd] in *. apply pc_on_world. cbn [snd].
    eapply pc_mono; [apply be_new_work; [exact G|exact A2]| |]; cbn [fst snd]; unfold bsize, bcap in *; cbn [be_store be_index].
    + intros w2 r2 (B1 & B2 & B3). csplit; auto; blia.
    + intros w2 e B. csplit; auto; blia.
  - intros [v w1] e (A1 & A2). cbn [fst snd be_store be_index] in *. unfold bsize in *. cbn [be_store]. csplit; auto; blia.
Qed.
Lemma seg_move_work al (s : segment V) w : grows -> bsize (sg_be s) <= bcap (sg_be s) ->
  pc (seg_move al) (s, w)
    (fun s' r => weight r <= 2 * bsize (sg_be s) + 1 /\ (bsize (sg_be (fst s')) <= bsize (sg_be s) /\ bsize (sg_be (fst s')) <= bcap (sg_be (fst s'))) /\ weight (fst s') <= weight s /\ w_work (snd s') <= w_work w + 19 * bsize (sg_be s) + 17)
    (fun s' _ => weight (fst s') <= weight s /\ w_work (snd s') <= w_work w + 19 * bsize (sg_be s) + 17).
Proof.
  intros G L. unfold seg_move. apply pc_bind, pc_getx. cbn [fst]. apply pc_bind. unfold on_be. apply pc_on_field. cbn [fst snd].
  eapply pc_mono; [apply be_move_work; auto| |]; cbn [fst snd]; intros [b1 w1] r; cbn [fst snd].
  - intros (A1 & A2 & A3 & A4 & A5). apply pc_ret. unfold weight. cbn [sg_be fst snd]. rewrite A4. csplit; blia.
  - intros (A1 & A2 & A3). unfold weight. cbn [sg_be]. rewrite A2. csplit; blia.
Qed.

Definition nodes_fit (ns : NL) : Prop := forall i n, node_at ns i = Some n -> bsize (sg_be (n_seg n)) <= bcap (sg_be (n_seg n)).
Definition size_at (ns : NL) (i : nat) : nat := match node_at ns i with Some n => bsize (sg_be (n_seg n)) | None => 0 end.
Lemma weights_upd (ns : NL) i n s : node_at ns i = Some n -> weights (node_upd ns i s) + weight (n_seg n) = weights ns + weight s.
Proof.
  unfold weights. induction ns as [|m ns IH]; cbn [node_at node_upd]; [discriminate|]. destruct (n_id m =? i).
  - intros H; inversion H; subst. cbn [map n_seg]. change (list_sum (?x :: ?l)) with (x + list_sum l). lia.
  - intros H. apply IH in H. cbn [map]. change (list_sum (?x :: ?l)) with (x + list_sum l). lia.
Qed.
Lemma list_sum_le {A} (f g : A -> nat) l : (forall x, f x <= g x) -> list_sum (map f l) <= list_sum (map g l).
Proof. intros H. induction l as [|x l IH]; cbn [map]; auto. change (list_sum (?x :: ?l)) with (x + list_sum l). specialize (H x). lia. Qed.
Lemma list_sum_add {A} (f g : A -> nat) l : list_sum (map (fun x => f x + g x) l) = list_sum (map f l) + list_sum (map g l).
Proof. induction l as [|x l IH]; cbn [map]; auto. change (list_sum (?x :: ?l)) with (x + list_sum l). lia. Qed.

Lemma move_nodes_work al ids : grows -> forall (s : PW), nodes_fit (c_nodes (snd (fst s))) ->
  let k := list_sum (map (fun i => size_at (c_nodes (snd (fst s))) i) ids) in
  pc (move_nodes ids al) s
    (fun s' _ => weights (c_nodes (fst (fst s'))) <= weights (c_nodes (fst (fst s))) + 2 * k + length ids /\
                 weights (c_nodes (snd (fst s'))) <= weights (c_nodes (snd (fst s))) /\ w_work (snd s') <= w_work (snd s) + 19 * k + 17 * length ids)
    (fun s' _ => weights (c_nodes (fst (fst s'))) <= weights (c_nodes (fst (fst s))) + 2 * k + length ids /\
                 weights (c_nodes (snd (fst s'))) <= weights (c_nodes (snd (fst s))) /\ w_work (snd s') <= w_work (snd s) + 19 * k + 17 * length ids).
Proof.
  intros G. induction ids as [|i ids IH]; intros [[d x] w] Fit k; cbn [move_nodes fst snd] in *.
  - apply pc_ret. cbn [fst snd length]. csplit; lia.
  - subst k. cbn [map length]. change (list_sum (?x :: ?l)) with (x + list_sum l). set (k := list_sum (map (fun j => size_at (c_nodes x) j) ids)).
    apply pc_bind, pc_on_world. cbn [fst snd]. eapply pc_cost; [apply cost_tick| |]; intros w1 r1 _ H1; [|cbn [fst snd] in *; csplit; blia].
    apply pc_bind. unfold on_src at 1. apply pc_on_field, pc_getx. cbn [fst snd]. destruct (node_at (c_nodes x) i) as [n|] eqn:Hn; [|apply pc_ub].
    assert (Z : size_at (c_nodes x) i = bsize (sg_be (n_seg n))) by (unfold size_at; rewrite Hn; auto). rewrite Z. set (z := bsize (sg_be (n_seg n))) in *. apply pc_bind. unfold on_src at 1. apply pc_on_field. cbn [fst snd].
    pose proof (seg_move_work al (n_seg n) w1 G (Fit i n Hn)) as P. unfold pc, on_seg in P |- *. rewrite Hn.
    destruct (seg_move al (n_seg n, w1)) as [[sg w2] r|[sg w2] e|]; auto; cbn [fst snd c_nodes] in *; fold z in P.
    2:{ destruct P as (P1 & P2). pose proof (weights_upd _ i n sg Hn). csplit; blia. }
    destruct P as (P1 & P2 & P3 & P4). pose proof (weights_upd _ i n sg Hn) as U.
    set (x' := mkcoll (node_upd (c_nodes x) i sg) (c_buckets x) (c_cache x) (c_al x)).
    assert (At : forall j, node_at (c_nodes x') j = if j =? i then Some (mknode i (n_key n) sg) else node_at (c_nodes x) j).
    { intros j. unfold x'. cbn [c_nodes]. apply (upd_at _ _ _ n). exact Hn. }
    assert (Fit' : nodes_fit (c_nodes x')).
    { intros j m. rewrite At. destruct (j =? i); [|apply Fit]. intros Q; inversion Q; subst. cbn [n_seg]. apply P2. }
    assert (Le : forall j, size_at (c_nodes x') j <= size_at (c_nodes x) j).
    { intros j. unfold size_at. rewrite At. destruct (Nat.eqb_spec j i) as [->|]; [rewrite Hn; cbn [n_seg]; apply P2|lia]. }
    cbv zeta beta. apply pc_bind, pc_on_world. cbn [fst snd]. eapply pc_cost; [apply cost_fresh| |]; intros w3 r3 _ H3; [|unfold x' in *; cbn [fst snd c_nodes] in *; csplit; blia].
    apply pc_bind. unfold on_dst at 1. apply pc_on_field, pc_getx. cbn [fst snd]. apply pc_bind. unfold on_dst at 1. apply pc_on_field, pc_setx. cbn [fst snd].
    eapply pc_mono; [apply (IH (_, x', w3)); exact Fit'| |]; cbn [fst snd c_nodes]; intros [[d4 x4] w4] r4 (B1 & B2 & B3); cbn [fst snd] in *;
      assert (K : list_sum (map (fun j => size_at (c_nodes x') j) ids) <= k) by (apply list_sum_le; exact Le);
      unfold weights in B1 at 2; rewrite map_app, list_sum_app in B1; cbn [map n_seg list_sum fold_right] in B1; fold (weights (c_nodes d)) in B1;
      unfold x' in B2; cbn [c_nodes] in B2; cbn [list_sum fold_right] in *; csplit; blia.
Qed.

Lemma size_at_sum (ns : NL) : NoDup (map n_id ns) -> list_sum (map (fun i => size_at ns i) (map n_id ns)) = nsizes ns.
Proof.
  unfold nsizes. rewrite map_map. intros N. assert (H : forall m, In m ns -> size_at ns (n_id m) = bsize (sg_be (n_seg m))).
  { clear - N. induction ns as [|n ns IH]; intros m I; [destruct I|]. cbn [map] in N. inversion N as [|? ? N1 N2]; subst. unfold size_at. cbn [node_at].
    destruct (Nat.eqb_spec (n_id n) (n_id m)) as [Q|Q].
    - destruct I as [->|I]; auto. exfalso. apply N1. rewrite Q. apply in_map. exact I.
    - destruct I as [->|I]; [congruence|]. apply (IH N2 m I). }
  f_equal. apply map_ext_in. exact H.
Qed.

Lemma map_move_elems_work al (s : PW) : grows -> nodes_fit (c_nodes (snd (fst s))) -> NoDup (map n_id (c_nodes (snd (fst s)))) ->
  let ns := c_nodes (snd (fst s)) in c_nodes (fst (fst s)) = [] ->
  pc (map_move_elems al) s
    (fun s' _ => weights (c_nodes (fst (fst s'))) + weights (c_nodes (snd (fst s'))) + w_work (snd s') <= w_work (snd s) + weights ns + 21 * nsizes ns + 18 * length ns)
    (fun s' _ => weights (c_nodes (fst (fst s'))) + weights (c_nodes (snd (fst s'))) + w_work (snd s') <= w_work (snd s) + weights ns + 21 * nsizes ns + 18 * length ns).
Proof.
  intros G Fit N ns Z. destruct s as [[d x] w]. cbn [fst snd] in *. unfold map_move_elems.
  apply pc_bind, pc_on_world. cbn [fst snd]. eapply pc_cost; [apply cost_clock| |]; intros w1 r1 _ H1; [|cbn [fst snd] in *; rewrite Z; change (weights []) with 0; subst ns; blia].
  apply pc_bind. unfold on_src at 1. apply pc_on_field, pc_getx. cbn [fst snd]. apply pc_bind.
  eapply pc_mono; [apply (move_nodes_work al _ G (d, x, w1)); exact Fit| |]; cbn [fst snd]; rewrite (size_at_sum _ N), map_length, Z; change (weights []) with 0; fold ns;
    intros [[d2 x2] w2] r2 (A1 & A2 & A3); cbn [fst snd] in *; [|blia].
  apply pc_bind. unfold on_dst at 1. apply pc_on_field, pc_getx. cbn [fst snd]. apply pc_bind. unfold on_dst at 1. apply pc_on_field, pc_setx. cbn [fst snd].
  destruct env_umap_clears.
  - unfold on_src. apply pc_on_field. eapply pc_mono; [apply map_clear_work| |]; cbn [fst snd c_nodes]; [|intros ? ? (_ & F); destruct F].
    intros [x3 w3] u (B1 & _ & B3). cbn [fst snd c_nodes] in *. rewrite B1, weights_shuffle. change (weights []) with 0. blia.
  - apply pc_ret. cbn [fst snd c_nodes]. rewrite weights_shuffle. blia.
Qed.

Lemma cost_c_move_al al (x d : coll V) w : grows -> nodes_fit (c_nodes x) -> NoDup (map n_id (c_nodes x)) -> c_nodes d = [] ->
  xcost (c_move_al al) ((d, x), w) (if c_al x =? al then 0 else weights (c_nodes x) + 21 * nsizes (c_nodes x) + 18 * length (c_nodes x)).
Proof.
  intros G Fit N Z. apply cost_pc. cbn [snd]. unfold c_move_al. apply pc_try, pc_bind. unfold on_src at 1. apply pc_on_field, pc_getx. cbn [fst snd].
  destruct (c_al x =? al).
  - apply pc_bind. unfold on_dst at 1. apply pc_on_field, pc_setx. cbn [fst snd]. unfold on_src. apply pc_on_field, pc_setx. cbn [fst snd]. blia.
  - set (k := weights (c_nodes x) + 21 * nsizes (c_nodes x) + 18 * length (c_nodes x)).
    assert (H : forall s' : PW, weights (c_nodes (fst (fst s'))) + w_work (snd s') <= w_work w + k -> forall e : exn,
      pc (on_dst map_clear) s' (fun s'' _ => w_work (snd s'') <= w_work w + k) (fun s'' _ => w_work (snd s'') <= w_work w + k)).
    { intros s' A e. unfold on_dst. apply pc_on_field. eapply pc_mono; [apply map_clear_work| |]; cbn [fst snd]; [|intros ? ? (_ & F); destruct F].
      intros s1 u (_ & _ & B). cbn [fst snd] in *. blia. }
    apply pc_bind. eapply pc_mono; [apply map_move_elems_work; auto| |]; cbn [fst snd]; fold k; intros [[d1 x1] w1] r1 A; cbn [fst snd] in A.
    2:{ apply H; auto. cbn [fst snd]. unfold k. blia. }
    apply pc_bind. unfold on_dst at 1. apply pc_on_field. eapply pc_mono; [apply build_cache_work| |]; cbn [fst snd]; intros [d2 w2] r2 (B1 & B2); cbn [fst snd] in *.
    2:{ apply H; auto. cbn [fst snd]. rewrite B1. unfold k. blia. }
    apply pc_bind. unfold on_src at 1. apply pc_on_field. eapply pc_mono; [apply map_clear_work| |]; cbn [fst snd]; [|intros ? ? (_ & F); destruct F].
    intros [x3 w3] u3 (_ & _ & C). cbn [fst snd] in *. unfold on_src. apply pc_on_field. eapply pc_mono; [apply cache_clear_work| |]; cbn [fst snd]; [|intros ? ? F; destruct F].
    intros [x4 w4] u4 (_ & _ & D). cbn [fst snd] in *. unfold k. blia.
Qed.

Lemma cost_c_move_assign (x d : coll V) w : grows -> nodes_fit (c_nodes x) -> NoDup (map n_id (c_nodes x)) ->
  xcost c_move_assign ((d, x), w) (weights (c_nodes d) +
    if env_pocma || (c_al d =? c_al x) then 0 else weights (c_nodes x) + 21 * nsizes (c_nodes x) + 18 * length (c_nodes x)).
Proof.
  intros G Fit N. apply cost_pc. cbn [snd]. unfold c_move_assign. apply pc_try, pc_bind. unfold on_src at 1. apply pc_on_field, pc_getx. cbn [fst snd].
  apply pc_bind. unfold on_dst at 1. apply pc_on_field. eapply pc_mono; [apply map_clear_work| |]; cbn [fst snd]; [|intros ? ? (_ & F); destruct F].
  intros [d1 w1] u1 (A1 & A2 & A3). cbn [fst snd] in *. apply pc_bind. unfold on_dst at 1. apply pc_on_field, pc_getx. cbn [fst snd]. rewrite A2.
  destruct (env_pocma || (c_al d =? c_al x)).
  - apply pc_bind. unfold on_dst at 1. apply pc_on_field, pc_setx. cbn [fst snd]. unfold on_src. apply pc_on_field, pc_setx. cbn [fst snd]. blia.
  - set (k := weights (c_nodes d) + (weights (c_nodes x) + 21 * nsizes (c_nodes x) + 18 * length (c_nodes x))).
    assert (H : forall s' : PW, weights (c_nodes (fst (fst s'))) + weights (c_nodes (snd (fst s'))) + w_work (snd s') <= w_work w + k -> forall e : exn,
      pc (on_dst map_clear ;; on_dst cache_clear ;; on_src map_clear ;; on_src cache_clear)%mon s' (fun s'' _ => w_work (snd s'') <= w_work w + k) (fun s'' _ => w_work (snd s'') <= w_work w + k)).
    { intros [[d2 x2] w2] A e. cbn [fst snd] in A. apply pc_bind. unfold on_dst at 1. apply pc_on_field. eapply pc_mono; [apply map_clear_work| |]; cbn [fst snd]; [|intros ? ? (_ & F); destruct F].
      intros [d3 w3] u (_ & _ & B). cbn [fst snd] in *. apply pc_bind. unfold on_dst at 1. apply pc_on_field. eapply pc_mono; [apply cache_clear_work| |]; cbn [fst snd]; [|intros ? ? F; destruct F].
      intros [d4 w4] u4 (_ & _ & C). cbn [fst snd] in *. apply pc_bind. unfold on_src at 1. apply pc_on_field. eapply pc_mono; [apply map_clear_work| |]; cbn [fst snd]; [|intros ? ? (_ & F); destruct F].
      intros [x5 w5] u5 (_ & _ & D). cbn [fst snd] in *. unfold on_src at 1. apply pc_on_field. eapply pc_mono; [apply cache_clear_work| |]; cbn [fst snd]; [|intros ? ? F; destruct F].
      intros [x6 w6] u6 (_ & _ & D6). cbn [fst snd] in *. blia. }
    apply pc_bind. eapply pc_mono; [apply map_move_elems_work; auto| |]; cbn [fst snd]; intros [[d2 x2] w2] r2 B; cbn [fst snd] in B.
    2:{ apply H; auto. cbn [fst snd]. unfold k. blia. }
    apply pc_bind. unfold on_dst at 1. apply pc_on_field. eapply pc_mono; [apply cache_clear_work| |]; cbn [fst snd]; [|intros ? ? F; destruct F].
    intros [d3 w3] u3 (C1 & _ & C3). cbn [fst snd] in *. apply pc_bind. unfold on_dst at 1. apply pc_on_field.
    eapply pc_mono; [apply build_cache_work| |]; cbn [fst snd]; intros [d4 w4] r4 (D1 & D2); cbn [fst snd] in *.
    2:{ apply H; auto. cbn [fst snd]. rewrite D1, C1. unfold k. blia. }
    unfold on_src. apply pc_on_field. eapply pc_mono; [apply cache_clear_work| |]; cbn [fst snd]; [|intros ? ? F; destruct F].
    intros [x5 w5] u5 (_ & _ & F5). cbn [fst snd] in *. unfold k. blia.
Qed.

(** ** In terms of the collection *)
Lemma sizes_size (c : coll V) : nsizes (c_nodes c) = c_size c.
Proof.
  unfold nsizes, c_size. induction (c_nodes c) as [|n ns IH]; auto. cbn [map sum_sizes]. change (list_sum (?x :: ?l)) with (x + list_sum l). rewrite IH. reflexivity.
Qed.
Lemma length_types (c : coll V) : length (c_nodes c) = length (types c).
Proof. rewrite types_nodes. rewrite map_length. reflexivity. Qed.
Lemma weights_size w (c : coll V) : wfc w c -> weights (c_nodes c) <= 2 * c_size c + length (types c).
Proof.
  intros [_ W]. rewrite <- sizes_size, <- length_types. unfold segs_ok in W. unfold weights, nsizes. induction (c_nodes c) as [|n ns IH]; cbn [map length]; [cbn; lia|].
  inversion W as [|? ? Wn Wns]; subst. specialize (IH Wns). change (list_sum (?x :: ?l)) with (x + list_sum l). unfold weight at 1.
  assert (isize (sg_be (n_seg n)) <= S (bsize (sg_be (n_seg n)))); [|lia]. destruct Wn as [[_ Wl] _]. destruct env_layout.
  - rewrite Wl. cbn. lia.
  - destruct Wl as (_ & Q & _). unfold vsize. rewrite Q. unfold entries. rewrite map_length, seq_length. auto.
Qed.
Lemma wfc_fit w (c : coll V) : wfc w c -> nodes_fit (c_nodes c).
Proof.
  intros [_ W] i n H. assert (I : In n (c_nodes c)).
  { revert H. clear. induction (c_nodes c) as [|m ns IH]; cbn [node_at]; [discriminate|]. destruct (n_id m =? i); intros H; [inversion H; left; auto|right; auto]. }
  unfold segs_ok in W. rewrite Forall_forall in W. destruct (W n I) as [[W0 _] _]. destruct (wfb_store _ _ W0) as [? ? ?]. unfold bsize, bcap. auto.
Qed.
End Cost5.
