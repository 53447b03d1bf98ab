(** * Vocabulary for iterators kept while a collection changes hands *)

From Coq Require Import List Arith Bool.
From Verif Require Import Base Vec Backend Segment Coll Spec Reach End.
Import ListNotations.

Section SpecEnd.
Context {V : Type} {E : Env V} (k : endkind).

(** [it] was obtained from [x], and is its [i]-th position. *)
Definition obtained (x : ecoll V) (it : eiter) (i : nat) : Prop := located (e_c x) (e_it it) i /\ e_mapend it = e_id x.

(** What was in [x] is in [y] then: a swap, move construction or move assignment which does not touch the elements. *)
Inductive hands : ecoll V -> ecoll V -> Prop :=
| h_swap w x y g d x' y' w' : reach w (e_c x :: e_c y :: g) d -> env_pocs = true \/ c_al (e_c x) = c_al (e_c y) ->
    e_swap k ((x, y), w) = Ok ((x', y'), w') tt -> hands x y'                       (* x.swap(y) *)
| h_swapped w x y g d x' y' w' : reach w (e_c y :: e_c x :: g) d -> env_pocs = true \/ c_al (e_c y) = c_al (e_c x) ->
    e_swap k ((y, x), w) = Ok ((y', x'), w') tt -> hands x y'                       (* y.swap(x) *)
| h_move w x g d fresh x' y w' : reach w (e_c x :: g) d ->
    e_move k fresh (x, w) = Ok (x', w') y -> hands x y                              (* y(std::move(x)) *)
| h_assign w x y g d fresh x' y' w' : reach w (e_c x :: g) (e_c y :: d) -> env_pocma = true \/ c_al (e_c y) = c_al (e_c x) ->
    e_move_assign k fresh ((y, x), w) = Ok ((y', x'), w') tt -> hands x y'.         (* y=std::move(x) *)

(** handed over any number of times *)
Inductive handed : ecoll V -> ecoll V -> Prop :=
| h_here x : handed x x
| h_on x y z : hands x y -> handed y z -> handed x z.

(** handed over any number of times, and changed meanwhile *)
Inductive inherits : ecoll V -> ecoll V -> Prop :=
| i_here x : inherits x x
| i_hands x y z : hands x y -> inherits y z -> inherits x z
| i_change x c z : inherits (mkecoll c (e_id x)) z -> inherits x z.

(** [it] is the [i]-th position of [y], and was obtained from [y] or from a collection from which [y] has it. *)
Definition kept (y : ecoll V) (it : eiter) (i : nat) : Prop :=
  located (e_c y) (e_it it) i /\ exists x, inherits x y /\ e_mapend it = e_id x.

End SpecEnd.
