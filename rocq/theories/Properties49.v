(** * unique_copy with predicates which have effects of their own (C44) *)

From Coq Require Import List Arith Lia Bool.
From Verif Require Import Base Vec Backend Segment Coll StdAlg Algo Spec SpecAlg Reach ProofBase ProofVec ProofBackend ProofOps ProofSeg ProofMap ProofView ProofAlgo ProofAlgo2 ProofColl ProofReach ProofObs ProofProp
  Demo Properties6.
Import ListNotations.

(** The output iterator has a state of its own. *)
Definition beside {G O X} (put : nat -> X -> M O unit) (o : nat) (x : X) : M (G * O) unit :=
  fun s => match put o x (snd s) with Ok out a => Ok (fst s, out) a | Exn out e => Exn (fst s, out) e | UB => UB end.

Section Forget.
Context {G O : Type}.
(** [m] is [m'], with more state *)
Definition forgets {A} (m : M (G * O) A) (m' : M O A) : Prop :=
  forall gs out,
    match m' out with
    | Ok out' a => exists gs', m (gs, out) = Ok (gs', out') a
    | Exn out' e => exists gs', m (gs, out) = Exn (gs', out') e
    | UB => True
    end.
Lemma forgets_ret {A} (a : A) : forgets (ret a) (ret a).
Proof. intros gs out. exists gs. reflexivity. Qed.
Lemma forgets_bind {A B} (m : M (G * O) A) m' (f : A -> M (G * O) B) f' : forgets m m' -> (forall a, forgets (f a) (f' a)) -> forgets (bind m f) (bind m' f').
Proof.
  intros H K gs out. unfold bind. specialize (H gs out). destruct (m' out) as [out' a|out' e|]; auto; destruct H as (gs' & ->); [apply K|eauto].
Qed.
Lemma forgets_lift {A} (x : option A) : forgets (lift x) (lift x).
Proof. destruct x; intros gs out; [exists gs; reflexivity|exact I]. Qed.
Lemma forgets_beside {X} (put : nat -> X -> M O unit) o x : forgets (beside (G := G) put o x) (put o x).
Proof. intros gs out. unfold beside. cbn [fst snd]. destruct (put o x out) as [out' []|out' e|]; eauto. Qed.

Context {V : Type} {E : Env V} (p : view V -> view V -> M (G * O) bool) (q : view V -> view V -> bool) (put : nat -> view V -> M O unit).
Context (Hp : forall x y, forgets (p x y) (pure2 q x y)).
Lemma skip_forgets x xs : forgets (skip_same (p x) xs) (skip_same (pure2 q x) xs).
Proof. induction xs as [|y xs IH]; cbn [skip_same]; [apply forgets_ret|]. apply forgets_bind; [apply Hp|]. intros [|]; [apply IH|apply forgets_ret]. Qed.
Lemma unique_forgets xs o : forgets (std_unique_copy p (beside put) xs o) (std_unique_copy (pure2 q) put xs o).
Proof.
  assert (A : forall xs x o, forgets (std_unique_copy_after p (beside put) x xs o) (std_unique_copy_after (pure2 q) put x xs o)).
  { clear xs o. induction xs as [|y xs IH]; intros x o; cbn [std_unique_copy_after]; [apply forgets_ret|]. apply forgets_bind; [apply Hp|].
    intros [|]; [apply IH|]. apply forgets_bind; [apply forgets_beside|]. intros _. apply IH. }
  destruct xs as [|x xs]; cbn [std_unique_copy]; [apply forgets_ret|]. apply forgets_bind; [apply forgets_beside|]. intros _. apply A.
Qed.
Lemma loop_forgets (c : coll V) Ts ps : forall prev o, forgets (unique_copy_loop c Ts p (beside put) prev o ps) (unique_copy_loop c Ts (pure2 q) put prev o ps).
Proof.
  induction ps as [|i ps IH]; intros prev o; cbn [unique_copy_loop]; [apply forgets_ret|]. apply forgets_bind; [apply forgets_lift|]. intros xs. apply forgets_bind.
  - destruct prev as [l|]; [|apply forgets_ret]. apply forgets_bind; [apply forgets_lift|]. intros n. apply forgets_bind; [apply forgets_lift|]. intros r. apply skip_forgets.
  - intros [|x xs']; [apply IH|]. apply forgets_bind; [apply unique_forgets|]. intros o'. apply forgets_bind; [apply forgets_lift|]. intros k. apply IH.
Qed.
End Forget.

(** ** C44 *)

(** The predicate answers as an equivalence relation does and may keep an account of its calls (they are not those which the algorithm of the standard library makes, see C70): what is
    written, and the result, is as for the relation itself on the plain sequence, and if writing throws, so does the algorithm. *)
Theorem C44_unique_copy_effects {V} {E : Env V} w c g d Ts first last i j {G O} (p : view V -> view V -> M (G * O) bool) q (put : nat -> view V -> M O unit) o gs out : reach w (c :: g) d ->
  located c first i -> located c last j -> i <= j -> equivalence q -> unaware Ts q ->
  (forall x y gs out, exists gs', p x y (gs, out) = Ok (gs', out) (q x y)) ->
  match std_unique_copy (pure2 q) put (views c Ts i j) o out with
  | Ok out' a => exists gs', pc_unique_copy c Ts first last (beside put) p o (gs, out) = Ok (gs', out') a
  | Exn out' e => exists gs', pc_unique_copy c Ts first last (beside put) p o (gs, out) = Exn (gs', out') e
  | UB => True
  end.
Proof.
  intros H L1 L2 L HE U Hp. pose proof (C44_unique_copy w c g d Ts first last i j q put o H L1 L2 L HE U out) as Q.
  assert (F : forgets (pc_unique_copy c Ts first last (beside put) p o) (pc_unique_copy c Ts first last put (pure2 q) o)).
  { unfold pc_unique_copy. apply forgets_bind; [apply forgets_lift|]. intros ps. apply loop_forgets. intros x y g1 o1. exact (Hp x y g1 o1). }
  specialize (F gs out). destruct (std_unique_copy (pure2 q) put (views c Ts i j) o out) as [out' a|out' e|]; auto.
  - destruct (pc_unique_copy c Ts first last put (pure2 q) o out) as [out1 a1|out1 e1|]; try contradiction. destruct Q as (-> & ->). exact F.
  - destruct (pc_unique_copy c Ts first last put (pure2 q) o out) as [out1 a1|out1 e1|]; try contradiction. destruct Q as (-> & ->). exact F.
Qed.
(* writes down its calls; the standard algorithm on the sequence 6, 7, 8, 9 would make three calls, too, but with 8 and 9 instead of 7 and 9 *)
Example C44_unique_copy_effects_ex lay : let E := dE lay in let q (x y : view nat) := val x / 7 =? val y / 7 in
  let p (x y : view nat) s := Ok (fst s ++ [(val x, val y)], snd s) (q x y) in
  reach (dw lay) [dc lay; dx lay] [] /\ located (dc lay) (dfirst lay) 1 /\ located (dc lay) (dlast lay) 5 /\ 1 <= 5 /\ equivalence q /\ unaware [1; 2] q /\
  (forall x y gs (out : list nat), exists gs', p x y (gs, out) = Ok (gs', out) (q x y)) /\
  pc_unique_copy (dc lay) [1; 2] (dfirst lay) (dlast lay) (beside (fun _ x => modify (fun l => l ++ [val x]))) p 0 ([], []) = Ok ([(6, 7); (7, 8); (7, 9)], [6; 7]) 2.
Proof.
  cbv zeta. csplit; try (demo_fact lay); try (intros r x; reflexivity); try (intros; eexists; reflexivity).
  split; [intros; apply Nat.eqb_refl|split; [intros; apply Nat.eqb_sym|]].
  intros x y z H1 H2. apply Nat.eqb_eq in H1, H2. apply Nat.eqb_eq. congruence.
Qed.

Print Assumptions C44_unique_copy_effects.
