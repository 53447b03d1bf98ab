(** * The memory held by collections

    Definitions for the statements about allocators and memory; nothing here is used by the
    model itself. *)

From Coq Require Import List Arith.
From Verif Require Import Base Vec Backend Segment Coll Spec Reach.
Import ListNotations.

(** The memory blocks of a vector: none if its capacity is 0. *)
Definition array {A} (v : vec A) : list nat := if v_cap v =? 0 then [] else [v_blk v].

Section SpecStore.
Context {V : Type} {E : Env V}.

(** The memory blocks held by a collection: for each segment the array of elements, the array of
    element addresses (segments of any_collection and function_collection only) and the segment
    object itself. *)
Definition storage (c : coll V) : list nat :=
  flat_map (fun n => array (be_store (sg_be (n_seg n))) ++ array (be_index (sg_be (n_seg n))) ++ [be_self (sg_be (n_seg n))])
    (c_nodes c).

(** Block [b] did not exist in world [w]. *)
Definition made_after (w : world) (b : nat) : Prop := w_next w <= b.

(** Any number of steps of a program. *)
Inductive steps : world -> list (coll V) -> list (coll V) -> world -> list (coll V) -> list (coll V) -> Prop :=
| steps_none w g d : steps w g d w g d
| steps_more w g d w1 g1 d1 w2 g2 d2 :
    steps w g d w1 g1 d1 -> step w1 g1 d1 w2 g2 d2 -> steps w g d w2 g2 d2.

End SpecStore.
