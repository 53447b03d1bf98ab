(** * Changes made on a copy

    Which calls a transaction (Loops.v) makes, in terms of the machine of SpecHist.v. *)

From Coq Require Import List.
From Verif Require Import Base Vec Backend Segment Coll Spec Reach SpecHist.
Import ListNotations.

Section Txn.
Context {V : Type} {E : Env V}.

(** Beside the collection being changed the program has the collections [g], which hold [bs], and
    [d], which it does not use any more.  Starting with the contents [b] the calls of the list
    carry out the commands beside them and so lead to [b'], if they do not throw. *)
Inductive scripted (g : list (coll V)) (bs : list (bag V)) (d : list (coll V)) :
  bag V -> list (cmd V * (coll V -> M (coll V * world) unit)) -> bag V -> Prop :=
| sc_end b : scripted g bs d b [] b
| sc_call b k m b1 l b' :
    (forall t w, reach w (t :: g) d -> holds t b -> performs (t :: g) 0 t k (m t)) ->
    obey (b :: bs) 0 k b = Some b1 -> scripted g bs d b1 l b' ->
    scripted g bs d b ((k, m) :: l) b'.

End Txn.
