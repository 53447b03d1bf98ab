(** * Vocabulary for function objects which use iterators they have captured *)

From Coq Require Import List Arith Bool.
From Verif Require Import Base Vec Backend Segment Coll StdAlg Algo Access Walk Many Body Spec Reach SpecAlg SpecAcc SpecWalk SpecMany.
Import ListNotations.

Section SpecBody.
Context {V : Type} {S : Type}.
Notation obj := (tyid * V)%type.

(** The sequences of the elements, the state of the caller, and the captured iterators, which are positions in the sequences. *)
Definition plot : Type := ((list (list obj) * S) * list (nat * nat))%type.

(** A call on the element in position [i] of the [k]-th sequence. *)
Fixpoint run_act_seq {X} (k i : nat) (a : act V S X) : M plot X :=
  match a with
  | Give r => ret r
  | Here f next =>
      fun st =>
        let '((ls, s), ks) := st in
        match nth_error ls k with
        | Some l =>
            match nth_error l i with
            | Some (t, v) =>
                match f t (v, s) with
                | Ok (v', s') b => run_act_seq k i (next b) ((reg_set k (reg_set i (t, v') l) ls, s'), ks)
                | Exn (v', s') e => Exn ((reg_set k (reg_set i (t, v') l) ls, s'), ks) e
                | UB => UB
                end
            | None => UB
            end
        | None => UB
        end
  | There p next =>
      fun st =>
        match run_seqs p (snd st) (fst st) with
        | Ok ls (b, ks) => run_act_seq k i (next b) (ls, ks)
        | Exn ls e => Exn (ls, snd st) e
        | UB => UB
        end
  end.

(** The same, the call knowing the type of the element if it is one of [Ts]. *)
Definition calling_seq {X} (Ts : list tyid) (k : nat) (F : option tyid -> act V S X) (i : nat) : M plot X :=
  fun st =>
    match nth_error (fst (fst st)) k with
    | Some l =>
        match nth_error l i with
        | Some (t, _) => run_act_seq k i (F (if existsb (Nat.eqb t) Ts then Some t else None)) st
        | None => UB
        end
    | None => UB
    end.

(** Nothing but the captured iterators is used. *)
Definition with_captured_seq {X} (p : walk V S X) : M plot X :=
  fun st =>
    match run_seqs p (snd st) (fst st) with
    | Ok ls (b, ks) => Ok (ls, ks) b
    | Exn ls e => Exn (ls, snd st) e
    | UB => UB
    end.

(** The collections and captured iterators are as described by the sequences and positions, and they came from [g] by changes of values of elements only. *)
Definition depicts {E : Env V} (w : world) (g d : list (coll V)) (st : scene V S) (st' : plot) : Prop :=
  let '((g', s), its) := st in let '((ls, s'), ks) := st' in
  s = s' /\ reach w g' d /\ map flat g' = ls /\ Forall2 (designates_at g') its ks /\
  Forall2 (fun c c' => map fst (flat c') = map fst (flat c) /\ updated c c' 0 (map snd (flat c'))) g g'.

(** [m], run on the collections, does what [m'] does on the sequences; the results are related by [R]. *)
Definition enacts {E : Env V} {A B} (w : world) (g d : list (coll V)) (its : list (nat * iter)) (ks : list (nat * nat)) (m : M (scene V S) A) (m' : M plot B)
  (R : A -> B -> Prop) : Prop :=
  forall s,
    match m' ((map flat g, s), ks) with
    | Ok st' b => exists st a, m ((g, s), its) = Ok st a /\ depicts w g d st st' /\ R a b
    | Exn st' e => exists st, m ((g, s), its) = Exn st e /\ depicts w g d st st'
    | UB => True
    end.

End SpecBody.

(** The sequence whose elements are given by [h] from the one before and the old value: x0, h x0 x1, h (h x0 x1) x2, ... *)
Fixpoint scan {X} (h : X -> X -> X) (x : X) (l : list X) : list X :=
  match l with [] => [] | y :: l' => h x y :: scan h (h x y) l' end.
