(** * Outcomes, pointers, the world and the environment.

    This file models nothing of /repo by itself: it fixes the vocabulary in which
    the other files model the C++ code.  Only the Coq standard library is used. *)

From Coq Require Import List Arith Lia Bool Permutation.
Import ListNotations.

(** Dynamic types, i.e. equivalence classes of [std::type_info] objects. *)
Definition tyid := nat.
(** Addresses of [std::type_info] objects; several may denote the same type. *)
Definition tiaddr := nat.
(** Allocator identities (two allocators compare equal iff their ids are equal). *)
Definition alid := nat.

(** A pointer is a storage block and an offset (in elements) into it.  The model
    never reuses a block, so pointers into released storage are recognisable.
    Block 0 is the null pointer. *)
(** A position: the identity of a block and an offset (the raw pointers of stride_iterator.hpp, any_iterator.hpp and callable_wrapper_iterator.hpp 21-95; nothing else in /repo). *)
Definition ptr : Type := (nat * nat)%type.
(** nullptr, iterator_impl.hpp 116 *)
Definition null : ptr := (0, 0).

(** == of pointers (a built-in operation) *)
(* nothing in /repo: == of addresses *)
Definition ptr_eqb (p q : ptr) : bool :=
  (fst p =? fst q) && (snd p =? snd q).

(** Exceptions.  The last three are exception.hpp 23-51. *)
Inductive exn : Type :=
| BadAlloc
| LengthError
| UserExn
| UnregisteredType (t : tyid)
| NotCopyConstructible (t : tyid)
| NotEqualityComparable (t : tyid).

(** Outcome of an operation: normal result, exception (with the state the
    operation leaves behind) or undefined behaviour. *)
(* nothing in /repo: how a C++ function ends: it returns, throws, or its behavior is undefined *)
Inductive outcome (S A : Type) : Type :=
| Ok (s : S) (a : A)
| Exn (s : S) (e : exn)
| UB.
Arguments Ok {S A} s a.
Arguments Exn {S A} s e.
Arguments UB {S A}.

(* nothing in /repo: a C++ function, as a function on states *)
Definition M (S A : Type) : Type := S -> outcome S A.

(** Sequencing of C++ code, throw and undefined behaviour (the language, nothing in /repo) *)
Definition ret {S A} (a : A) : M S A := fun s => Ok s a.
Definition throw {S A} (e : exn) : M S A := fun s => Exn s e.
Definition ub {S A} : M S A := fun _ => UB.
Definition bind {S A B} (m : M S A) (f : A -> M S B) : M S B :=
  fun s => match m s with
           | Ok s' a => f a s'
           | Exn s' e => Exn s' e
           | UB => UB
           end.
(** Reading and changing the state (the language, nothing in /repo) *)
Definition get {S} : M S S := fun s => Ok s s.
Definition modify {S} (f : S -> S) : M S unit := fun s => Ok (f s) tt.

(** [try{ m }catch(...){ h; throw; }] *)
(* nothing in /repo: try{m}catch(...){h;throw;} *)
Definition try_rethrow {S A} (m : M S A) (h : M S unit) : M S A :=
  fun s => match m s with
           | Ok s' a => Ok s' a
           | Exn s' e => match h s' with
                         | Ok s'' _ => Exn s'' e
                         | Exn s'' e' => Exn s'' e'
                         | UB => UB
                         end
           | UB => UB
           end.

(** The form of most theorems: started in [s], the operation has no undefined behaviour,
    when it returns normally the result satisfies [Q], and when it throws [X] holds of the
    state left behind and the exception. *)
(* nothing in /repo: what is proved of a C++ function *)
Definition wp {S A} (m : M S A) (s : S) (Q : S -> A -> Prop) (X : S -> exn -> Prop) : Prop :=
  match m s with
  | Ok s' a => Q s' a
  | Exn s' e => X s' e
  | UB => False
  end.

Declare Scope mon_scope.
Delimit Scope mon_scope with mon.
Notation "x <- m ;; f" := (bind m (fun x => f))
  (at level 61, m at next level, right associativity) : mon_scope.
Notation "m ;; f" := (bind m (fun _ => f))
  (at level 61, right associativity) : mon_scope.
Open Scope mon_scope.

(** The part of the process state outside the objects under consideration:
    a counter of fresh identifiers, the blocks of storage currently allocated,
    the number of element objects (instances of the concrete types stored in
    collections, or of those [env_counted] tells) currently alive, the number of fallible steps executed so
    far, and the number of constructions, assignments and destructions of
    elements and index entries so far (used for complexity only). *)
(* nothing in /repo: the memory and the user's code, outside the library *)
Record world : Type := mkworld {
  w_next : nat;
  w_live : list nat;
  w_objs : nat;
  w_clock : nat;
  w_work : nat
}.

(** Storage layout of the collection: base_collection uses packed_segment,
    any_collection and function_collection use split_segment. *)
(* base_model.hpp 85-87, any_model.hpp 156-158, function_model.hpp 96-98 *)
Inductive layout := PackedLayout | SplitLayout.

(** Everything the library does not control.  All theorems quantify over it. *)
Class Env (V : Type) := {
  (** which storage layout: base_model.hpp 85-87, any_model.hpp 156-158,
      function_model.hpp 96-98 *)
  env_layout : layout;
  (** does the k-th fallible step (allocation, element constructor, throwing
      assignment, element comparison) throw? *)
  env_fault : nat -> bool;
  (** capacity a vector of the given capacity would like to grow to *)
  env_grow : nat -> nat;
  (** max_size() of a vector of elements of the given type, and of the index *)
  env_vmax : tyid -> nat;
  env_imax : nat;
  (** contents of a vector whose modification failed midway under the basic
      guarantee: how many extra elements, and the value at each position *)
  env_junk_len : nat -> nat;
  env_junk : nat -> nat -> V;
  (** vector::shrink_to_fit is a non-binding request; it may also swallow
      allocation failures *)
  env_shrink_noop : nat -> bool;
  env_shrink_swallow : bool;
  (** traits of the element types *)
  env_copyable : tyid -> bool;
  env_eqcomp : tyid -> bool;
  env_nt_move : tyid -> bool;    (* is_nothrow_move_constructible *)
  env_assignable : tyid -> bool; (* is_move_assignable *)
  env_nt_assign : tyid -> bool;  (* move assignment does not throw *)
  (** the user's operator== on elements of a type *)
  env_veq : tyid -> V -> V -> bool;
  (** the type denoted by a type_info object *)
  env_ty : tiaddr -> tyid;
  (** std::unordered_map: bucket count after inserting when there are [n]
      elements and [b] buckets; where nodes end up (see [shuffle] in Coll.v);
      whether iterators survive rehashing *)
  env_buckets : nat -> nat -> nat;
  env_codes : nat -> list nat;
  env_rehash_stable : bool;
  (** allocator traits: propagation on copy assignment, move assignment, swap, and
      select_on_container_copy_construction *)
  env_pocca : bool;
  env_pocma : bool;
  env_pocs : bool;
  env_socc : alid -> alid;
  (** the types whose objects are counted by [w_objs].  The program does not depend on it; what
      is shown about the count holds for every choice, so for the objects of each type alone *)
  env_counted : tyid -> bool;
  (** does moving an unordered_map element by element (unequal allocators) leave the
      source map empty, as libstdc++ does?  The standard leaves it unspecified. *)
  env_umap_clears : bool;
  (** does the past-the-end pointer to base of the first block, which is full, compare equal
      to the second pointer to base, which is into another block?  So if that points to the
      first element and its block begins where the first one ends (the standard leaves it
      unspecified, [expr.eq]); in general it depends on the offsets of the base subobjects,
      see Stride.v. *)
  env_adjacent : nat -> nat * nat -> bool
}.

Section World.
Context {V : Type} {E : Env V}.

(** One fallible step: may throw [e]. *)
(* nothing in /repo: a step of user code that may throw *)
Definition tick (e : exn) : M world unit :=
  fun w =>
    let w' := mkworld (w_next w) (w_live w) (w_objs w) (S (w_clock w)) (w_work w) in
    if env_fault (w_clock w) then Exn w' e else Ok w' tt.

(** Allocation of a fresh block (may throw bad_alloc). *)
(* nothing in /repo: std::allocator_traits::allocate *)
Definition alloc : M world nat :=
  tick BadAlloc ;;
  fun w => Ok (mkworld (S (w_next w)) (w_next w :: w_live w) (w_objs w) (w_clock w) (w_work w))
              (w_next w).

(* nothing in /repo: takes one occurrence out of a list *)
Fixpoint remove1 (b : nat) (l : list nat) : list nat :=
  match l with
  | [] => []
  | x :: l' => if x =? b then l' else x :: remove1 b l'
  end.

(** Deallocation: freeing a block that is not allocated is undefined. *)
(* nothing in /repo: std::allocator_traits::deallocate *)
Definition free (b : nat) : M world unit :=
  fun w =>
    if existsb (Nat.eqb b) (w_live w)
    then Ok (mkworld (w_next w) (remove1 b (w_live w)) (w_objs w) (w_clock w) (w_work w)) tt
    else UB.

(** Lifetime of element objects: [n] of them begin or end; ending more lifetimes
    than there are objects is undefined. *)
(* nothing in /repo: the constructor of an element *)
Definition born (n : nat) : M world unit :=
  fun w => Ok (mkworld (w_next w) (w_live w) (w_objs w + n) (w_clock w) (w_work w + n)) tt.
(* nothing in /repo: the destructor of an element *)
Definition die (n : nat) : M world unit :=
  fun w => if n <=? w_objs w
           then Ok (mkworld (w_next w) (w_live w) (w_objs w - n) (w_clock w) (w_work w + n)) tt
           else UB.

(** [n] more element operations *)
(* nothing in /repo: counts one construction, destruction or move, for the complexity claims *)
Definition work (n : nat) : M world unit :=
  fun w => Ok (mkworld (w_next w) (w_live w) (w_objs w) (w_clock w) (w_work w + n)) tt.

(** Fresh token (used for map iterators). *)
(* nothing in /repo: a new identity *)
Definition fresh : M world nat :=
  fun w => Ok (mkworld (S (w_next w)) (w_live w) (w_objs w) (w_clock w) (w_work w)) (w_next w).

(* nothing in /repo: a step of the map that may throw *)
Definition clock : M world nat := fun w => Ok w (w_clock w).

End World.

(** Run an operation on the world inside a larger state, and an operation on a
    component paired with the world. *)
(* nothing in /repo: runs a step on the world, beside a part of the collection *)
Definition on_world {X A} (m : M world A) : M (X * world) A :=
  fun s => match m (snd s) with
           | Ok w a => Ok (fst s, w) a
           | Exn w e => Exn (fst s, w) e
           | UB => UB
           end.

(* nothing in /repo: runs a step on a member of an object *)
Definition on_field {X Y A} (proj : X -> Y) (upd : Y -> X -> X)
  (m : M (Y * world) A) : M (X * world) A :=
  fun s => match m (proj (fst s), snd s) with
           | Ok (y, w) a => Ok (upd y (fst s), w) a
           | Exn (y, w) e => Exn (upd y (fst s), w) e
           | UB => UB
           end.

(** The object an operation works on, besides the world (nothing in /repo) *)
Definition getx {X} : M (X * world) X := fun s => Ok s (fst s).
Definition setx {X} (x : X) : M (X * world) unit := fun s => Ok (x, snd s) tt.

(** List helpers. *)
(** What vector::insert and vector::erase do to a sequence (standard library, nothing in /repo) *)
Definition insert_at {A} (k : nat) (x : A) (l : list A) : list A :=
  firstn k l ++ x :: skipn k l.
Definition insert_list_at {A} (k : nat) (xs l : list A) : list A :=
  firstn k l ++ xs ++ skipn k l.
Definition remove_range {A} (f l : nat) (xs : list A) : list A :=
  firstn f xs ++ skipn l xs.
