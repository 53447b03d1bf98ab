(** * Vocabulary for function objects called on two elements *)

From Coq Require Import List Arith Bool.
From Verif Require Import Base Vec Backend Segment Coll StdAlg Algo Access Walk Many Body Pair Spec Reach SpecAlg SpecAcc SpecWalk SpecMany SpecBody.
Import ListNotations.

Section SpecPair.
Context {V : Type} {S : Type}.

(** A call on the elements in positions [i] and [j] of the [k]-th sequence. *)
Fixpoint run_act2_seq {X} (k i j : nat) (a : act2 V S X) : M (plot (V := V) (S := S)) X :=
  match a with
  | Give2 r => ret r
  | First f next => b <- run_act_seq k i (Here f Give) ;; run_act2_seq k i j (next b)
  | Second f next => b <- run_act_seq k j (Here f Give) ;; run_act2_seq k i j (next b)
  | Elsewhere p next => b <- with_captured_seq p ;; run_act2_seq k i j (next b)
  end.

(** The same, the call knowing the types of the elements if they are among [Ts]. *)
Definition calling2_seq {X} (Ts : list tyid) (k : nat) (F : option tyid -> option tyid -> act2 V S X) (i j : nat) : M (plot (V := V) (S := S)) X :=
  fun st =>
    let known t := if existsb (Nat.eqb t) Ts then Some t else None in
    match nth_error (fst (fst st)) k with
    | Some l =>
        match nth_error l i, nth_error l j with
        | Some (t, _), Some (u, _) => run_act2_seq k i j (F (known t) (known u)) st
        | _, _ => UB
        end
    | None => UB
    end.

End SpecPair.

(** The type of the first argument is known only if it is that of the second. *)
Definition if_equal {X} (F : option tyid -> option tyid -> X) (a b : option tyid) : X :=
  match a, b with
  | Some t, Some u => if t =? u then F a b else F None b
  | _, _ => F None b
  end.
