(** * Conversions between local iterators: the constructors of iterator_impl.hpp 171-207

    Each local iterator is made of a base iterator, and which of the three constructors is taken, if any, depends on which conversions there are between base iterators. *)

From Coq Require Import List Arith Bool ZArith.
From Verif Require Import Base Vec Backend Segment Coll Types Stride.
Import ListNotations.
Local Open Scope nat_scope.

(** The type of a base iterator: that of [\[const_\]local_base_iterator], segment_base_iterator (stride_iterator<[const] Base>, any_iterator<[const] Any>,
    callable_wrapper_iterator<[const] CWrapper>), or that of [\[const_\]local_iterator<T>], [[const] T*]: base_model.hpp 75-82, any_model.hpp 146-153, function_model.hpp 86-93 *)
Inductive bty : Type := TBase (const : bool) | TPtr (t : tyid) (const : bool).
(* std::is_const on what it points to *)
Definition bty_const (x : bty) : bool := match x with TBase c => c | TPtr _ c => c end.

Section Conversions.
Context (L : lang) (k : model) (value : tyid).

(** A pointer to [u] converts to one to [t] (a rule of C++; bases are taken to be accessible and unambiguous). *)
Definition ptr_conv (t u : tyid) : bool := (t =? u) || l_base_of L t u.

(** std::is_convertible<From,To>.  Between base iterators const is added (stride_iterator.hpp 42-48, any_iterator.hpp 40-46, callable_wrapper_iterator.hpp 40-47); a base iterator
    converts to a pointer to the value type of the collection (stride_iterator.hpp 64, any_iterator.hpp 63, callable_wrapper_iterator.hpp 65), and so to the bases of it;
    [implb]: const is not dropped *)
Definition convertible (from to : bty) : bool :=
  implb (bty_const from) (bty_const to) &&
  match from, to with
  | TBase _, TBase _ => true
  | TBase _, TPtr t _ => ptr_conv t value
  | TPtr u _, TPtr t _ => ptr_conv t u
  | TPtr _ _, TBase _ => false
  end.
(** which pointers a base iterator converts to explicitly: stride_iterator.hpp 90-104 (Base is a base of T), any_iterator.hpp 67-79 (all),
    callable_wrapper_iterator.hpp 69-82 (T can be called so) *)
Definition to_concrete_ok (t : tyid) : bool := match k with KBase b => ptr_conv b t | KAny => true | KFun => l_invocable L t end.
(** detail::is_constructible<To,From>, is_constructible.hpp: also the explicit conversions above, and the explicit constructors from pointers stride_iterator.hpp 66-74, any_iterator.hpp 36,
    callable_wrapper_iterator.hpp 34-35 *)
Definition constructible (to from : bty) : bool :=
  convertible from to ||
  (implb (bty_const from) (bty_const to) &&
   match from, to with
   | TBase _, TPtr t _ => to_concrete_ok t
   | TPtr t _, TBase _ => ptr_conv value t
   | _, _ => false
   end).

(** The constructors: 171-180, implicit; 182-193 and 195-207, explicit. *)
Inductive lctor : Type := ByConversion | ByConstruction | FromBegin.
(** the enable_ifs 173-175, 184-187, 197-201 *)
Definition lctor_of (from to : bty) : option lctor :=
  if convertible from to then Some ByConversion
  else if constructible to from then Some ByConstruction
  else if constructible to (TBase false) && constructible from (TBase false) then Some FromBegin
  else None.

End Conversions.

Section Values.
Context {V : Type} {E : Env V}.

(** base_iterator_from, 221-227: the begin of the segment plus the distance from it, [segment_base_iterator bit=s.begin()] being the non-const one (segment.hpp 101) whatever the
    iterator converted is *)
Definition li_from_begin (c : coll V) (to : bty) (l : liter) : option liter :=
  match node_at (c_nodes c) (li_map l) with
  | None => None
  | Some n =>
      let b := sg_be (n_seg n) in
      let distance :=
        match li_pos l with
        | PBase p => if fst p =? fst (be_begin b) then Some (snd p - snd (be_begin b)) else None
        | PConc p =>
            match be_to_concrete b (be_begin b) with
            | Some q => if fst p =? fst q then Some (snd p - snd q) else None
            | None => None
            end
        end in
      match distance with
      | None => None
      | Some d =>
          match to with
          | TBase _ => Some (mkliter (li_map l) (PBase (be_ptr b d)))
          | TPtr _ _ => match be_to_concrete b (be_ptr b d) with Some q => Some (mkliter (li_map l) (PConc q)) | None => None end
          end
      end
  end.
(** The local iterator made: 178-180 and 191-193 (the base iterator converted, a pointer staying where it is; the explicit conversion to T* is that of [li_to_conc]), 204-207 *)
Definition li_convert (c : coll V) (f : lctor) (to : bty) (l : liter) : option liter :=
  match f, to, li_pos l with
  | FromBegin, _, _ => li_from_begin c to l
  | _, TBase _, PBase _ => Some l
  | _, TPtr _ _, PConc _ => Some l
  | ByConversion, TPtr _ _, PBase p => Some (mkliter (li_map l) (PConc p))
  | ByConstruction, TPtr _ _, PBase _ => li_to_conc c l
  | _, TBase _, PConc p => Some (mkliter (li_map l) (PBase p))
  end.
End Values.

(** ** At addresses *)

(** local_iterator<U> to local_iterator<T>, T a base of U at [off] in it: the pointer is converted (178-180) *)
Definition lp_convert (off p : Z) : Z := up off p.
(** ++ of a local_iterator<T>, that of a T* : the next address [size] bytes further *)
Definition lp_next (size p : Z) : option Z := char_add p size.
Fixpoint lp_advance (n : nat) (size p : Z) : option Z :=
  match n with O => Some p | S n' => match lp_next size p with Some q => lp_advance n' size q | None => None end end.
