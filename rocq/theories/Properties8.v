(** * Random access laws (C49) *)

From Coq Require Import ZArith List Lia Bool.
From Verif Require Import Base Vec Backend Segment Coll StdAlg Algo Stride Spec SpecAlg Reach ProofBase ProofBackend ProofSeg ProofMap ProofView
  ProofAlgo ProofColl ProofReach ProofObs ProofProp Demo Properties6.
Import ListNotations.
Open Scope Z_scope.

(** ** C49 Random access laws of local iterators *)

Lemma char_add_ok p z : 0 <= p + z -> p + z < 2 ^ 64 -> char_add p z = Some (p + z).
Proof. intros A B. unfold char_add. destruct (Z.leb_spec 0 (p + z)), (Z.ltb_spec (p + z) (2 ^ 64)); try lia. reflexivity. Qed.
Lemma ptrdiff_ok z : - 2 ^ 63 <= z -> z < 2 ^ 63 -> ptrdiff z = Some z.
Proof. intros A B. unfold ptrdiff. destruct (Z.leb_spec (- 2 ^ 63) z), (Z.ltb_spec z (2 ^ 63)); try lia. reflexivity. Qed.

(** The local_base_iterators of a segment are [pos 0], ..., [pos n], from begin to end, and
    arithmetic on them, difference and comparison are those of the indices.  [pos k] refers
    to the Base of the [k]-th element, at [data + k*size], and can be converted to a pointer
    to that element and back. *)
Theorem C49_random_access s : pseg_ok s -> exists pos : nat -> stride_it,
  let n := ps_n s in
  pos 0%nat = ps_begin s /\ pos n = ps_end s /\
  (forall k, (k < n)%nat -> si_increment (pos k) = Some (pos (1 + k)%nat) /\ si_decrement (pos (1 + k)%nat) = Some (pos k)) /\
  (forall k k', (k <= n)%nat -> (k' <= n)%nat -> si_advance (Z.of_nat k' - Z.of_nat k) (pos k) = Some (pos k')) /\
  (forall i j, (i <= n)%nat -> (j <= n)%nat ->
     si_distance_to (pos i) (pos j) = Some (Z.of_nat j - Z.of_nat i) /\
     si_equal (pos i) (pos j) = Nat.eqb i j /\ si_less (pos i) (pos j) = Some (Nat.ltb i j)) /\
  (forall k, (k < n)%nat ->
     si_deref (pos k) = ps_data s + Z.of_nat k * ps_size s + ps_off s /\
     si_to_derived (ps_off s) (pos k) = ps_data s + Z.of_nat k * ps_size s) /\
  (forall k, (k <= n)%nat ->
     si_to_derived (ps_off s) (pos k) = ps_data s + Z.of_nat k * ps_size s /\
     si_of_derived (ps_size s) (ps_off s) (ps_data s + Z.of_nat k * ps_size s) = pos k).
Proof.
  intros [Hs Ho Hn Hd Hb Hr H6]. destruct s as [data n size off]. cbn [ps_data ps_n ps_size ps_off] in *.
  exists (fun k => mkstride (up off data + Z.of_nat k * size) size). cbv zeta.
  assert (Hk : forall k, (k <= n)%nat -> 0 <= Z.of_nat k * size <= Z.of_nat n * size) by (intros; nia).
  assert (Hu : 0 <= up off data /\ up off data + Z.of_nat n * size < 2 ^ 64) by (unfold up; destruct (Z.eqb_spec data 0); subst; lia).
  assert (Dist : forall i j, (i <= n)%nat -> (j <= n)%nat ->
     si_distance_to (mkstride (up off data + Z.of_nat i * size) size) (mkstride (up off data + Z.of_nat j * size) size) = Some (Z.of_nat j - Z.of_nat i)).
  { intros i j Hi Hj. assert (A := Hk i Hi). assert (B := Hk j Hj). unfold si_distance_to. cbn [si_p si_stride].
    rewrite (ptrdiff_ok _) by lia. rewrite (ptrdiff_ok size) by lia.
    destruct (Z.eqb_spec size 0); [lia|]. replace (up off data + Z.of_nat j * size - (up off data + Z.of_nat i * size)) with ((Z.of_nat j - Z.of_nat i) * size) by lia.
    rewrite Z.quot_mul by lia. apply ptrdiff_ok; nia. }
  csplit.
  - unfold ps_begin. cbn. f_equal. lia.
  - unfold ps_end. cbn [ps_data ps_n ps_size ps_off]. f_equal. unfold up. destruct (Z.eqb_spec data 0) as [->|Nd].
    + rewrite (Hn eq_refl). reflexivity.
    + destruct (Z.eqb_spec (data + Z.of_nat n * size) 0); [nia|lia].
  - intros k Lk. assert (A := Hk k). assert (B := Hk (1 + k)%nat). unfold si_increment, si_decrement. cbn [si_p si_stride].
    rewrite !char_add_ok by lia. split; do 2 f_equal; lia.
  - intros k k' Lk Lk'. assert (A := Hk k Lk). assert (B := Hk k' Lk'). unfold si_advance. cbn [si_p si_stride].
    rewrite (ptrdiff_ok size) by lia. rewrite ptrdiff_ok by nia. rewrite char_add_ok by nia. do 2 f_equal. lia.
  - intros i j Hi Hj. csplit.
    + auto.
    + unfold si_equal. cbn [si_p]. destruct (Nat.eqb_spec i j) as [->|Ne]; [apply Z.eqb_refl|]. apply Z.eqb_neq. nia.
    + unfold si_less. rewrite Dist by auto. cbn [option_map]. f_equal. destruct (Nat.ltb_spec i j); [apply Z.ltb_lt|apply Z.ltb_ge]; lia.
  - intros k Lk. assert (Nd : data <> 0) by (intros Q; rewrite (Hn Q) in Lk; lia). assert (A := Hk k).
    unfold si_deref, si_to_derived, down, up. cbn [si_p]. destruct (Z.eqb_spec data 0); [lia|].
    destruct (Z.eqb_spec (data + off + Z.of_nat k * size) 0); [lia|]. lia.
  - intros k Lk. destruct (Z.eq_dec data 0) as [Zd|Nd].
    { rewrite (Hn Zd) in Lk. assert (k = 0%nat) by lia. subst. split; reflexivity. }
    assert (A := Hk k Lk). unfold si_of_derived, si_to_derived, down, up. cbn [si_p]. destruct (Z.eqb_spec data 0); [lia|].
    destruct (Z.eqb_spec (data + off + Z.of_nat k * size) 0); [lia|]. destruct (Z.eqb_spec (data + Z.of_nat k * size) 0); [lia|].
    split; [lia|]. f_equal. lia.
Qed.
Example C49_random_access_ex : pseg_ok (mkpseg 4096 5 24 8) /\ pseg_ok (mkpseg 0 0 16 8).
Proof. split; constructor; cbn; try lia; intros; try lia; discriminate. Qed.

(** The comparison of local_base_iterators which the model of adjacent_find uses, [lbi_eq], is
    that of the addresses, wherever the blocks of storage are in memory. *)
Theorem C49_comparison {V} {E : Env V} w c g d pl x y t k t' k' : reach w (c :: g) d ->
  env_layout = PackedLayout -> disjoint pl -> fits pl -> (forall b p, env_adjacent b p = collide pl b p) ->
  (forall t k p, addr_of c t k = Some p -> pl_cap (pl (fst p)) = cap_of c t) ->
  lpoints c (mkliter (fst x) (PBase (snd x))) t k -> lpoints c (mkliter (fst y) (PBase (snd y))) t' k' ->
  elems c t <> [] -> elems c t' <> [] ->
  lbi_eq c x y = (raw pl (snd x) =? raw pl (snd y)).
Proof.
  intros H Lay Dj Ft Adj Cap (n & Hn & Et & Ei & Ep & Hk) (n' & Hn' & Et' & Ei' & Ep' & Hk') Ne Ne'.
  destruct (reach_wf w c g d H) as (W & O). assert (ND : NoDup (map n_ty (c_nodes c))) by apply W. assert (Vo := reach_vok _ _ _ _ H).
  cbn [li_map li_pos] in *. destruct x as [xi xp], y as [yi yp]. cbn [fst snd] in *. subst xi yi.
  assert (Bp : forall (b : backend V) k, be_ptr b k = vptr (be_store b) k) by (intros; unfold be_ptr; rewrite Lay; reflexivity).
  rewrite Bp in Ep, Ep'. assert (xp = vptr (be_store (sg_be (n_seg n))) k) as -> by (destruct Ep as [Q|Q]; [injection Q; auto|discriminate]).
  assert (yp = vptr (be_store (sg_be (n_seg n'))) k') as -> by (destruct Ep' as [Q|Q]; [injection Q; auto|discriminate]). clear Ep Ep'.
  change (sg_ty (n_seg n)) with (n_ty n) in Et. change (sg_ty (n_seg n')) with (n_ty n') in Et'. subst t t'.
  rewrite (elems_node w c n (wc_map _ _ W) Hn) in Ne. rewrite (elems_node w c n' (wc_map _ _ W) Hn') in Ne'.
  change (elems_of (n_seg n)) with (n_elems n) in Hk. change (elems_of (n_seg n')) with (n_elems n') in Hk'.
  assert (Cn : forall m, In m (c_nodes c) -> n_elems m <> [] -> pl_cap (pl (v_blk (be_store (sg_be (n_seg m))))) = v_cap (be_store (sg_be (n_seg m)))
     /\ (length (n_elems m) <= v_cap (be_store (sg_be (n_seg m))))%nat /\ node_at (c_nodes c) (n_id m) = Some m).
  { intros m Hm Nm. csplit.
    - specialize (Cap (n_ty m) 0%nat). unfold addr_of, cap_of in Cap. rewrite (seg_at_node c m ND Hm) in Cap.
      change (elems_of (n_seg m)) with (n_elems m) in Cap. destruct (n_elems m); [congruence|]. cbn [length] in Cap. apply (Cap _ eq_refl).
    - rewrite n_elems_length. destruct (in_split_node _ _ Hm) as (l1 & l2 & En). destruct (aok_node c l1 m l2 (aok_of _ _ _ _ H) En) as (_ & Wm & _).
      destruct Wm as [[[[Wc _ _] _ _] _] _]. exact Wc.
    - destruct (in_split_node _ _ Hm) as (l1 & l2 & En). rewrite En. apply node_at_split. rewrite <- En. apply Vo. }
  destruct (Cn n Hn Ne) as (C1 & C2 & C3). destruct (Cn n' Hn' Ne') as (C1' & C2' & C3').
  assert (Lb : lbi_eq c (n_id n, vptr (be_store (sg_be (n_seg n))) k) (n_id n', vptr (be_store (sg_be (n_seg n'))) k') =
    if Nat.eqb (v_blk (be_store (sg_be (n_seg n)))) (v_blk (be_store (sg_be (n_seg n')))) then Nat.eqb k k'
    else (collide pl (v_blk (be_store (sg_be (n_seg n)))) (v_blk (be_store (sg_be (n_seg n'))), k') && Nat.eqb k (v_cap (be_store (sg_be (n_seg n))))) ||
         (collide pl (v_blk (be_store (sg_be (n_seg n')))) (v_blk (be_store (sg_be (n_seg n))), k) && Nat.eqb k' (v_cap (be_store (sg_be (n_seg n')))))).
  { unfold lbi_eq, at_storage_end, vptr. cbn [fst snd]. rewrite C3, C3', Lay, !Adj. reflexivity. }
  rewrite Lb. unfold vptr. set (b := v_blk (be_store (sg_be (n_seg n)))) in *. set (b' := v_blk (be_store (sg_be (n_seg n')))) in *.
  rewrite <- C1, <- C1'. rewrite <- C1 in C2. rewrite <- C1' in C2'. unfold collide, raw. cbn [fst snd].
  assert (F := Ft b). assert (F' := Ft b').
  destruct (Nat.eqb_spec b b') as [Q|Nb].
  - rewrite <- Q in *. destruct (Nat.eqb_spec k k') as [->|Nk]; [symmetry; apply Z.eqb_refl|]. symmetry. apply Z.eqb_neq. nia.
  - specialize (Dj b b' Nb). set (A := pl_addr (pl b)) in *. set (A' := pl_addr (pl b')) in *. set (m := pl_cap (pl b)) in *. set (m' := pl_cap (pl b')) in *.
    set (s := pl_size (pl b)) in *. set (s' := pl_size (pl b')) in *. set (o := pl_off (pl b)) in *. set (o' := pl_off (pl b')) in *.
    destruct (Nat.eqb_spec k m) as [->|Nk]; [|destruct (Nat.eqb_spec k' m') as [->|Nk']].
    + rewrite andb_true_r. destruct (Z.eqb_spec (A + Z.of_nat m * s + o) (A' + Z.of_nat k' * s' + o')) as [Q|Q]; cbn [orb]; [reflexivity|].
      destruct (Nat.eqb_spec k' m') as [->|]; [|apply andb_false_r]. rewrite andb_true_r. apply Z.eqb_neq. lia.
    + rewrite andb_false_r, andb_true_r. cbn [orb]. apply Z.eqb_sym.
    + rewrite !andb_false_r. cbn [orb]. symmetry. apply Z.eqb_neq. assert ((k < m)%nat) by lia. assert ((k' < m')%nat) by lia.
      assert (Z.of_nat k * s + o < Z.of_nat m * s) by nia. assert (Z.of_nat k' * s' + o' < Z.of_nat m' * s') by nia.
      assert (0 <= Z.of_nat k * s) by nia. assert (0 <= Z.of_nat k' * s') by nia. lia.
Qed.
(** The collection of C40_adjacent_find_refuted, with the storage of its second segment (block
    8, one element of 16 bytes) right before that of the first one (block 4). *)
Definition pl1 (b : nat) : place :=
  if Nat.eqb b 8 then mkplace 1000 1 16 8 else if Nat.eqb b 4 then mkplace 1016 1 24 8
  else mkplace (100000 + 1000 * Z.of_nat b) 10 16 0.
Definition memE : Env nat := let D := adjE in {|
  env_layout := PackedLayout; env_fault := calm; env_grow := @env_grow nat D; env_vmax := @env_vmax nat D;
  env_imax := @env_imax nat D; env_junk_len := @env_junk_len nat D; env_junk := @env_junk nat D;
  env_shrink_noop := @env_shrink_noop nat D; env_shrink_swallow := @env_shrink_swallow nat D;
  env_copyable := @env_copyable nat D; env_eqcomp := @env_eqcomp nat D; env_nt_move := @env_nt_move nat D;
  env_assignable := @env_assignable nat D; env_nt_assign := @env_nt_assign nat D; env_veq := @env_veq nat D;
  env_ty := @env_ty nat D; env_buckets := @env_buckets nat D; env_codes := @env_codes nat D;
  env_rehash_stable := true; env_pocca := @env_pocca nat D; env_pocma := @env_pocma nat D;
  env_pocs := @env_pocs nat D; env_socc := @env_socc nat D; env_umap_clears := @env_umap_clears nat D;
  env_counted := env_counted;
  env_adjacent := collide pl1 |}.
Definition mem_run := let E := memE in state (script [(10%nat, Some 5%nat); (20%nat, Some 5%nat)] (c_empty 0%nat, mkworld 1%nat [] 0%nat 0%nat 0%nat)).
Example C49_comparison_ex : let E := memE in let c := fst mem_run in
  reach (snd mem_run) [c] [] /\ env_layout = PackedLayout /\ disjoint pl1 /\ fits pl1 /\
  (forall b p, env_adjacent b p = collide pl1 b p) /\
  (forall t k p, addr_of c t k = Some p -> pl_cap (pl1 (fst p)) = cap_of c t) /\
  (lpoints c (li_base c 1 0) 1 0 /\ lpoints c (li_base c 2 1) 2 1 /\ elems c 1 = [5] /\ elems c 2 = [5] /\
  li_base c 1 0 = mkliter 3 (PBase (4, 0)) /\ li_base c 2 1 = mkliter 7 (PBase (8, 1)) /\
  lbi_eq c (3, (4, 0)) (7, (8, 1)) = true)%nat.
Proof.
  cbv zeta. csplit; try match goal with |- _ = _ => vm_compute; reflexivity end.
  - apply (run_reach memE [(10%nat, Some 5%nat); (20%nat, Some 5%nat)] (mkworld 1 [] 0 0 0)%nat [] [] 0%nat mem_run); [constructor|vm_compute; reflexivity].
  - intros b b' Ne. unfold pl1. destruct (Nat.eqb_spec b 8), (Nat.eqb_spec b' 8), (Nat.eqb_spec b 4), (Nat.eqb_spec b' 4); cbn [pl_addr pl_cap pl_size pl_off]; lia.
  - intros b. unfold pl1. destruct (Nat.eqb_spec b 8), (Nat.eqb_spec b 4); cbn [pl_addr pl_cap pl_size pl_off]; lia.
  - intros b p. reflexivity.
  - intros t k p. unfold addr_of, cap_of, seg_at.
    let x := eval vm_compute in (c_nodes (fst mem_run)) in replace (c_nodes (fst mem_run)) with x by (vm_compute; reflexivity).
    cbn [find n_seg sg_ty]. destruct (Nat.eqb 1 t); [|destruct (Nat.eqb 2 t)]; cbn [option_map n_seg sg_be be_store v_cap]; try discriminate;
      unfold elems_of, vptr; cbn [sg_be be_store v_elems v_blk length]; destruct (Nat.ltb k 1); intros Q; try discriminate;
      injection Q as <-; reflexivity.
  - eapply li_base_points with (m := 1%nat); [vm_compute; reflexivity|lia].
  - eapply li_base_points with (m := 1%nat); [vm_compute; reflexivity|lia].
Qed.

Print Assumptions C49_random_access.
Print Assumptions C49_comparison.
