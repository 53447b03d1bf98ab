(** * A concrete environment and reachable states, used by the examples *)

From Coq Require Import List Arith Lia Bool Permutation.
From Verif Require Import Base Vec Backend Segment Coll ProofBase Spec Reach.
Import ListNotations.

(** Elements are numbers.  Types (a type_info object [a] denotes type [a / 10], so each type
    has several):
    - 1, 2: ordinary types
    - 3: move-only
    - 4: moves and assignments may throw
    - 5: not assignable
    - 6: not equality comparable
    - 7: at most three elements fit *)
Definition demo (lay : layout) (fault : nat -> bool) (stable : bool) : Env nat := {|
  env_layout := lay;
  env_fault := fault;
  env_grow := fun n => 2 * n;
  env_vmax := fun t => if t =? 7 then 3 else 100;
  env_imax := 200;
  env_junk_len := fun _ => 0;
  env_junk := fun _ _ => 99;
  env_shrink_noop := fun _ => false;
  env_shrink_swallow := false;
  env_copyable := fun t => negb (t =? 3);
  env_eqcomp := fun t => negb (t =? 6);
  env_nt_move := fun t => negb (t =? 4);
  env_assignable := fun t => negb (t =? 5);
  env_nt_assign := fun t => negb (t =? 4);
  env_veq := fun _ a b => a =? b;
  env_ty := fun a => a / 10;
  env_buckets := fun n b => if n <? b then b else 2 * n + 1;
  env_codes := fun k => [k; S k; k; S k; k; S k; k];
  env_rehash_stable := stable;
  env_pocca := false;
  env_pocma := false;
  env_pocs := true;
  env_socc := fun al => al;
  env_umap_clears := true;
  env_counted _ := true;
  env_adjacent _ _ := false
|}.

Definition calm : nat -> bool := fun _ => false.
Definition fails_at (n : nat) : nat -> bool := fun k => k =? n.

Section Demo.
Context {V : Type} {E : Env V}.
Notation CW := (coll V * world)%type.

(** A script: elements emplaced one after the other, [None] registering the type only. *)
Fixpoint script (l : list (tiaddr * option V)) : M CW unit :=
  match l with
  | [] => ret tt
  | (a, Some v) :: l' => void (c_emplace a (SVal v)) ;; script l'
  | (a, None) :: l' => register_types [a] ;; script l'
  end.

Lemma reach_script l : forall w c g d w' c', reach w (c :: g) d -> script l (c, w) = Ok (c', w') tt -> reach w' (c' :: g) d.
Proof.
  induction l as [|[a [v|]] l IH]; intros w c g d w' c' H Hs; cbn [script] in Hs.
  - inversion Hs; subst. exact H.
  - unfold bind at 1 in Hs. destruct (void (c_emplace a (SVal v)) (c, w)) as [[c1 w1] []|?|] eqn:Q; try discriminate.
    eapply IH; [|exact Hs]. eapply r_call; [exact H|eapply api_emplace|exact Q]. left. reflexivity.
  - unfold bind at 1 in Hs. destruct (register_types [a] (c, w)) as [[c1 w1] []|?|] eqn:Q; try discriminate.
    eapply IH; [|exact Hs]. eapply r_call; [exact H|eapply api_register|exact Q].
Qed.

(** The iterator and the local iterators to the [k]-th element of type [t]. *)
Definition node_of (c : coll V) (t : tyid) : option (node V) := find (fun n => sg_ty (n_seg n) =? t) (c_nodes c).
Definition it_at (c : coll V) (t : tyid) (k : nat) : iter :=
  match node_of c t with
  | Some n => mkiter (Some (n_id n)) (be_ptr (sg_be (n_seg n)) k)
  | None => c_end c
  end.
Definition li_base (c : coll V) (t : tyid) (k : nat) : liter :=
  match node_of c t with
  | Some n => mkliter (n_id n) (PBase (be_ptr (sg_be (n_seg n)) k))
  | None => mkliter 0 (PBase null)
  end.
Definition li_conc (c : coll V) (t : tyid) (k : nat) : liter :=
  match node_of c t with
  | Some n => mkliter (n_id n) (PConc (vptr (be_store (sg_be (n_seg n))) k))
  | None => mkliter 0 (PBase null)
  end.
Definition size_of (c : coll V) (t : tyid) : option nat := option_map (fun n => length (elems_of (n_seg n))) (node_of c t).

Lemma it_at_points c t k m : size_of c t = Some m -> k < m -> points c (it_at c t k) t k.
Proof.
  unfold size_of, it_at. destruct (node_of c t) as [n|] eqn:Q; intros Hs Hk; [|discriminate].
  apply find_some in Q. destruct Q as (Hin & Et). apply Nat.eqb_eq in Et. inversion Hs; subst. exists n. auto.
Qed.
Lemma li_base_points c t k m : size_of c t = Some m -> k <= m -> lpoints c (li_base c t k) t k.
Proof.
  unfold size_of, li_base. destruct (node_of c t) as [n|] eqn:Q; intros Hs Hk; [|discriminate].
  apply find_some in Q. destruct Q as (Hin & Et). apply Nat.eqb_eq in Et. inversion Hs; subst. exists n. csplit; auto.
Qed.
Lemma li_conc_points c t k m : size_of c t = Some m -> k <= m -> lpoints c (li_conc c t k) t k.
Proof.
  unfold size_of, li_conc. destruct (node_of c t) as [n|] eqn:Q; intros Hs Hk; [|discriminate].
  apply find_some in Q. destruct Q as (Hin & Et). apply Nat.eqb_eq in Et. inversion Hs; subst. exists n. csplit; auto.
Qed.
Lemma it_at_located c t k m : size_of c t = Some m -> k < m -> located c (it_at c t k) (offset (content c) t + k).
Proof. intros A B. right. exists t, k. split; auto. eapply it_at_points; eauto. Qed.

End Demo.

(** ** Two collections *)

Definition dE (lay : layout) : Env nat := demo lay calm true.
Definition script1 : list (tiaddr * option nat) :=
  [(10, Some 5); (20, Some 8); (11, Some 6); (40, Some 1); (30, None); (21, Some 9); (10, Some 7)].
Definition script2 : list (tiaddr * option nat) :=
  [(12, Some 5); (12, Some 6); (60, Some 3); (12, Some 7); (70, Some 4)].

Definition state (o : outcome (coll nat * world) unit) : coll nat * world :=
  match o with Ok s _ => s | _ => (c_empty 0, mkworld 1 [] 0 0 0) end.
Definition run1 (E : Env nat) := state (script script1 (c_empty 0, mkworld 1 [] 0 0 0)).
Definition run2 (E : Env nat) := state (script script2 (c_empty 9, snd (run1 E))).

(** [dc lay]: types 1: 5 6 7; 2: 8 9; 3: none; 4: 1.  [dx lay]: types 1: 5 6 7; 6: 3; 7: 4. *)
Definition dc lay : coll nat := fst (run1 (dE lay)).
Definition dw1 lay : world := snd (run1 (dE lay)).
Definition dx lay : coll nat := fst (run2 (dE lay)).
Definition dw lay : world := snd (run2 (dE lay)).

Definition done {S A} (o : outcome S A) : bool := match o with Ok _ _ => true | _ => false end.
Lemma wp_done {A} (m : M (coll nat * world) A) s Q X : wp m s Q X -> done (m s) = true ->
  exists c' w' r, state (void m s) = (c', w') /\ Q (c', w') r.
Proof.
  unfold wp, void, bind, ret, done, state. intros H D. destruct (m s) as [[c' w'] r|?|]; try discriminate.
  exists c', w', r. auto.
Qed.

Lemma run_reach (E : Env nat) l w g d al s : reach w g d -> script l (c_empty al, w) = Ok s tt ->
  reach (snd s) (fst s :: g) d.
Proof.
  intros H Hs. destruct s as [c' w']. eapply reach_script; [|exact Hs]. apply r_new. exact H.
Qed.

Lemma dc_reach lay : reach (E := dE lay) (dw1 lay) [dc lay] [].
Proof.
  apply (run_reach (dE lay) script1 (mkworld 1 [] 0 0 0) [] [] 0 (run1 (dE lay))); [constructor|].
  destruct lay; vm_compute; reflexivity.
Qed.
Lemma dx_reach lay : reach (E := dE lay) (dw lay) [dx lay; dc lay] [].
Proof.
  apply (run_reach (dE lay) script2 (dw1 lay) [dc lay] [] 9 (run2 (dE lay))); [apply dc_reach|].
  destruct lay; vm_compute; reflexivity.
Qed.
Lemma d_reach lay : reach (E := dE lay) (dw lay) [dc lay; dx lay] [].
Proof. eapply r_perm; [apply dx_reach|apply perm_swap|constructor]. Qed.

Lemma dc_content lay : content (dc lay) =
  match lay with
  | PackedLayout => [(3, []); (1, [5; 6; 7]); (2, [8; 9]); (4, [1])]
  | SplitLayout => [(1, [5; 6; 7]); (3, []); (2, [8; 9]); (4, [1])]
  end.
Proof. destruct lay; vm_compute; reflexivity. Qed.
Lemma dx_content lay : content (dx lay) =
  match lay with
  | PackedLayout => [(6, [3]); (1, [5; 6; 7]); (7, [4])]
  | SplitLayout => [(6, [3]); (7, [4]); (1, [5; 6; 7])]
  end.
Proof. destruct lay; vm_compute; reflexivity. Qed.

(** [dc lay] after [reserve<T>(9)] for type 1. *)
Definition dr lay : coll nat * world := let E := dE lay in state (c_reserve_info 10 9 (dc lay, dw lay)).
Lemma dr_reach lay : reach (E := dE lay) (snd (dr lay)) [fst (dr lay); dx lay] [].
Proof.
  eapply r_call; [apply d_reach|apply (api_reserve_info [dx lay] (dc lay) 10 9)|]. destruct lay; vm_compute; reflexivity.
Qed.

Lemma it_at_located' {V} {E : Env V} c t k m i : size_of c t = Some m -> k < m -> i = offset (content c) t + k -> located c (it_at c t k) i.
Proof. intros A B ->. eapply it_at_located; eauto. Qed.

(** Concrete facts about the two collections. *)
Ltac demo_fact lay :=
  match goal with
  | |- reach _ [dc _; dx _] _ => exact (d_reach lay)
  | |- reach _ [dx _; dc _] _ => exact (dx_reach lay)
  | |- reach _ [dc _] _ => exact (dc_reach lay)
  | |- points _ (it_at _ _ _) _ _ => destruct lay; (eapply it_at_points; [vm_compute; reflexivity|lia])
  | |- lpoints _ (li_base _ _ _) _ _ => destruct lay; (eapply li_base_points; [vm_compute; reflexivity|lia])
  | |- lpoints _ (li_conc _ _ _) _ _ => destruct lay; (eapply li_conc_points; [vm_compute; reflexivity|lia])
  | |- located _ (it_at _ _ _) _ => destruct lay; (eapply it_at_located'; [vm_compute; reflexivity|lia|vm_compute; reflexivity])
  | |- _ = _ => destruct lay; vm_compute; reflexivity
  | |- _ => destruct lay; vm_compute; first [lia | intuition (discriminate || lia)]
  end.
Ltac demo lay := cbv zeta; csplit; demo_fact lay.

(** The state after a script, starting with an empty collection. *)
Definition gs (E : Env nat) (l : list (tiaddr * option nat)) : coll nat * world := state (script l (c_empty 0, mkworld 1 [] 0 0 0)).
Lemma gs_reach (E : Env nat) l : done (script l (c_empty 0, mkworld 1 [] 0 0 0)) = true -> reach (snd (gs E l)) [fst (gs E l)] [].
Proof.
  intros D. apply (run_reach E l (mkworld 1 [] 0 0 0) [] [] 0); [constructor|].
  unfold gs. destruct (script l (c_empty 0, mkworld 1 [] 0 0 0)) as [s []| |]; [reflexivity|discriminate..].
Qed.
