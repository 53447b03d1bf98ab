(** * Single elements and the user's allocator (C62, C63) *)

From Coq Require Import List Arith Lia Bool.
From Verif Require Import Base Vec Holder Slots SpecHold ProofBase ProofSlots ProofHold Demo.
Import ListNotations.

(** A state for the examples: the cells 0-3 hold 10 11 12 13, the cells 20 and 21 hold 7 8. *)
Definition hs : hst nat :=
  mkhst (fun a => if a <? 4 then Some (10 + a) else if a =? 20 then Some 7 else if a =? 21 then Some 8 else None) [] 0.
Definition h0 : hst nat := mkhst (fun _ => None) [] 0.
(** Type 5 of the demonstration environment is not assignable, type 2 is an ordinary one. *)
Definition ops_of (t : tyid) : list (cop (V := nat)) :=
  [o_construct 0 (Emplacing 7); o_construct 1 (Emplacing 8); o_local 9 (CopyT 1); o_assign 0 9; o_local_end 9; o_destroy 1].
Definition below9 (a : nat) : Prop := a < 9.
Fixpoint run_ops {V} {E : Env V} (t : tyid) (al : alid) (l : list (cop (V := V))) (s : hst V) : option (hst V) :=
  match l with
  | [] => Some s
  | o :: l' => match perform t al o s with Ok s' _ => run_ops t al l' s' | _ => None end
  end.
Lemma run_history {V} {E : Env V} t al slot l : forall s s', Forall (proper slot) l -> run_ops t al l s = Some s' -> history t al slot s s'.
Proof.
  induction l as [|o l IH]; cbn; intros s s' P H; [injection H as ->; apply y_nil|].
  inversion P; subst. destruct (perform t al o s) as [s1 []|s1 e|] eqn:K; try discriminate. eapply y_ok; eauto.
Qed.
Definition hend (lay : layout) (t : tyid) : hst nat :=
  match run_ops (E := dE lay) t 0 (ops_of t) h0 with Some s => s | None => h0 end.
Lemma hend_history lay t : t = 2 \/ t = 5 -> history (E := dE lay) t 0 below9 h0 (hend lay t).
Proof.
  intros H. apply (run_history (E := dE lay) t 0 below9 (ops_of t)).
  - unfold ops_of, below9. repeat constructor; cbn; lia.
  - unfold hend. destruct H as [-> | ->]; destruct lay; vm_compute; reflexivity.
Qed.

Lemma hs_holds : holds hs 0 [10; 11; 12; 13].
Proof. intros i Hi. cbn in Hi. destruct i as [|[|[|[|i]]]]; try reflexivity. lia. Qed.
Lemma hs_src : holds hs 20 [7; 8].
Proof. intros i Hi. cbn in Hi. destruct i as [|[|i]]; try reflexivity. lia. Qed.
Lemma hs_free : vacant hs (0 + length [10; 11; 12; 13]) (length [7; 8]).
Proof. intros i Hi. cbn in Hi. destruct i as [|[|i]]; try reflexivity. lia. Qed.

Ltac hdemo lay := cbv zeta; csplit;
  first [solve [apply hend_history; auto]|exact hs_holds|exact hs_src|exact hs_free|right; reflexivity|left; reflexivity|reflexivity|unfold below9, apart; cbn; lia|
         vm_compute; discriminate|now intros c []|solve [destruct lay; vm_compute; tauto]|destruct lay; vm_compute; reflexivity].

(** ** C62 Elements are constructed and destroyed through the allocator, and nothing else is *)

(** Whatever a container does with the cells of its storage, the allocator's construct and destroy
    are called for elements in its storage only. *)
Theorem C62_only_elements {V} {E : Env V} t al slot s s' e :
  history t al slot s s' -> h_log s = [] -> In e (h_log s') -> by_allocator e = true ->
  exists a, slot a /\ (e = Made (Through al) a \/ e = Ended (Through al) a).
Proof.
  intros H L He B. eapply history_others; eauto. rewrite L. intros e' [].
Qed.
Example C62_only_elements_ex lay : let E := dE lay in history 2 0 below9 h0 (hend lay 2) /\ h_log h0 = [] /\
  In (Ended (Through 0) 1) (h_log (hend lay 2)) /\ by_allocator (Ended (Through 0) 1) = true.
Proof. hdemo lay. Qed.

(** In each cell of the storage the calls of construct that succeed and those of destroy
    alternate, and there is one more of the former if the cell holds an element. *)
Theorem C62_calls {V} {E : Env V} t al slot s s' a :
  history t al slot s s' -> h_log s = [] -> slot a -> h_mem s a = None ->
  exists k, filter by_allocator (events_at a (h_log s')) = lives_and al s' a k.
Proof.
  intros H L Sa A. eapply history_calls; eauto. exists 0. rewrite L. unfold lives_and. now rewrite A.
Qed.
Example C62_calls_ex lay : let E := dE lay in history 5 0 below9 h0 (hend lay 5) /\ h_log h0 = [] /\ below9 0 /\ h_mem h0 0 = None /\
  h_mem (hend lay 5) 0 = Some 8.
Proof. hdemo lay. Qed.

(** No object is constructed over a living one, destroyed twice or left behind, whoever constructs
    and destroys it: constructions and destructions alternate in every cell. *)
Theorem C62_lifetimes {V} {E : Env V} t al slot s s' a :
  history t al slot s s' -> h_log s = [] -> h_mem s a = None ->
  exists k, map is_made (events_at a (h_log s')) = lifetimes k ++ (if h_mem s' a then [true] else []).
Proof.
  intros H L A. eapply history_lives; eauto. exists 0. now rewrite L, A.
Qed.
Example C62_lifetimes_ex lay : let E := dE lay in history 5 0 below9 h0 (hend lay 5) /\ h_log h0 = [] /\ h_mem h0 0 = None /\
  events_at 0 (h_log (hend lay 5)) = [Made (Through 0) 0; Ended Direct 0; Made Direct 0].
Proof. hdemo lay. Qed.

(** The elements of a type which is move assignable are all constructed and destroyed by the
    allocator. *)
Theorem C62_elements_partial {V} {E : Env V} t al slot s s' a :
  env_assignable t = true -> history t al slot s s' -> h_log s = [] -> slot a -> h_mem s a = None ->
  exists k, events_at a (h_log s') = lives_and al s' a k.
Proof.
  intros As H L Sa A. eapply history_events; eauto. exists 0. rewrite L. unfold lives_and. now rewrite A.
Qed.
Example C62_elements_partial_ex lay : let E := dE lay in env_assignable 2 = true /\ history 2 0 below9 h0 (hend lay 2) /\ h_log h0 = [] /\
  below9 0 /\ h_mem h0 0 = None /\ h_mem (hend lay 2) 0 = Some 8.
Proof. hdemo lay. Qed.

(** What is missing: those of a type which is not move assignable need not be.  The emulated
    assignment destroys and constructs elements in the storage without the allocator. *)
Theorem C62_elements_refuted :
  ~ (forall (E : Env nat) t al slot s s' a, storable t ->
       history t al slot s s' -> h_log s = [] -> slot a -> h_mem s a = None ->
       exists k, events_at a (h_log s') = lives_and al s' a k).
Proof.
  intros H. pose (E := dE PackedLayout).
  destruct (H E 5 0 below9 h0 (hend PackedLayout 5) 0) as (k & K); try reflexivity.
  - right. reflexivity.
  - apply hend_history. auto.
  - unfold below9. lia.
  - replace (events_at 0 (h_log (hend PackedLayout 5))) with [Made (Through 0) 0; Ended Direct 0; Made Direct 0] in K by (vm_compute; reflexivity).
    unfold lives_and in K. replace (h_mem (hend PackedLayout 5) 0) with (Some 8) in K by (vm_compute; reflexivity).
    destruct k as [|k]; cbn in K; discriminate.
Qed.

(** The algorithms of the vectors of the segments are such histories. *)
Theorem C62_vector {V} {E : Env V} t al (slot : nat -> Prop) base n s s' : (forall i, i < n -> slot (base + i)) ->
  (forall f l, f <= l -> l <= n -> leaves (s_erase t al base n f l) s s' -> history t al slot s s') /\
  (forall k tmp x, k <= n -> slot (base + n) -> slot tmp -> leaves (s_emplace t al base n k tmp x) s s' -> history t al slot s s') /\
  (forall k tmp f src m, k <= n -> (forall i, i < m -> slot (base + n + i)) -> ~ slot tmp ->
     leaves (s_insert t al base n k tmp f src m) s s' -> history t al slot s s') /\
  (forall base', (forall i, i < n -> slot (base' + i)) -> leaves (s_relocate t al base n base') s s' -> history t al slot s s').
Proof.
  intros H. split; [|split; [|split]].
  - intros f l H1 H2. now apply traced_erase.
  - intros k tmp x H1 H2 H3. now apply traced_emplace.
  - intros k tmp f src m H1 H2 H3. now apply traced_insert.
  - intros base' H1. now apply traced_relocate.
Qed.
Example C62_vector_ex lay : let E := dE lay in (forall i, i < 4 -> below9 (0 + i)) /\
  exists s', leaves (s_erase 5 0 0 4 1 2) hs s' /\ h_mem s' 1 = Some 12.
Proof.
  cbv zeta. split; [unfold below9; intros; lia|]. unfold leaves.
  destruct (s_erase (E := dE lay) 5 0 0 4 1 2 hs) as [s' x|s' e|] eqn:K.
  - exists s'. split; [left; eauto|].
    replace (h_mem s' 1) with (match s_erase (E := dE lay) 5 0 0 4 1 2 hs with Ok s1 _ => h_mem s1 1 | _ => None end) by now rewrite K.
    destruct lay; vm_compute; reflexivity.
  - exfalso. assert (Z : done (s_erase (E := dE lay) 5 0 0 4 1 2 hs) = true) by (destruct lay; vm_compute; reflexivity). rewrite K in Z. discriminate.
  - exfalso. assert (Z : done (s_erase (E := dE lay) 5 0 0 4 1 2 hs) = true) by (destruct lay; vm_compute; reflexivity). rewrite K in Z. discriminate.
Qed.

(** The internal objects that use the allocator get it, either after std::allocator_arg or as last
    argument, besides the arguments of the caller; those that do not use it get just these; the
    two members of a pair each in their own way. *)
Definition receives (al : alid) (o : otype) (args l : list carg) : Prop :=
  if o_ua o then (if o_ic o then l = [CTag; CAdaptor al] ++ args else l = args ++ [CAdaptor al]) else l = args.
Theorem C62_uses_allocator {V} al o o' args args' x y (s : hst V) :
  (exists l, ad_construct_other al o args s = Ok (mkhst (h_mem s) (h_log s ++ [Built Direct l]) (h_clock s)) tt /\ receives al o args l) /\
  (exists l l', ad_construct_pair al o o' (PairPieces args args') s = Ok (mkhst (h_mem s) (h_log s ++ [Built Direct l; Built Direct l']) (h_clock s)) tt /\
     receives al o args l /\ receives al o' args' l') /\
  (exists l l', ad_construct_pair al o o' (PairOf x y) s = Ok (mkhst (h_mem s) (h_log s ++ [Built Direct l; Built Direct l']) (h_clock s)) tt /\
     receives al o [CArg x] l /\ receives al o' [CArg y] l') /\
  (exists l l', ad_construct_pair al o o' PairDefault s = Ok (mkhst (h_mem s) (h_log s ++ [Built Direct l; Built Direct l']) (h_clock s)) tt /\
     receives al o [] l /\ receives al o' [] l').
Proof.
  assert (R : forall o args, receives al o args (with_alloc al (uses_alloc_ctor o) args)).
  { intros [[|] [|]] a; cbn; reflexivity. }
  unfold ad_construct_pair, ad_construct_piecewise, ad_construct_other, bind, h_emit, modify. cbn [h_mem h_log h_clock].
  repeat split.
  - eexists. split; [reflexivity|apply R].
  - do 2 eexists. rewrite <- app_assoc. cbn [app]. split; [reflexivity|split; apply R].
  - do 2 eexists. rewrite <- app_assoc. cbn [app]. split; [reflexivity|split; apply R].
  - do 2 eexists. rewrite <- app_assoc. cbn [app]. split; [reflexivity|split; apply R].
Qed.
(** segment.hpp 43: segments use the allocator and take it last; the keys of the map do not. *)
Example C62_uses_allocator_ex : receives 3 (mkotype true false) [CArg 1] [CArg 1; CAdaptor 3] /\ receives 3 (mkotype false false) [CArg 1] [CArg 1].
Proof. split; reflexivity. Qed.

(** ** C63 Elements which cannot be assigned are stored, shifted and relocated like others *)

(** Types that can be stored. *)
Theorem C63_acceptable impl move assignable nt_move :
  is_acceptable impl move assignable nt_move = true <-> impl = true /\ move = true /\ (assignable = true \/ nt_move = true).
Proof. unfold is_acceptable. rewrite !andb_true_iff, orb_true_iff. tauto. Qed.
Example C63_acceptable_ex : is_acceptable true true false true = true /\ is_acceptable true true false false = false.
Proof. split; reflexivity. Qed.

(** Assignment between two elements: the target gets the value of the source, which remains an
    object; nothing else changes.  It throws only if the type is assignable and its assignment
    throws; then both remain objects. *)
Theorem C63_assign {V} {E : Env V} t a b x s : storable t -> a <> b -> h_mem s b = Some x -> h_mem s a <> None ->
  wp (vh_assign t a b) s
    (fun s' _ => h_mem s' a = Some x /\ h_mem s' b <> None /\ (forall c, c <> a -> c <> b -> h_mem s' c = h_mem s c))
    (fun s' e => assign_threw t e /\ h_mem s' a <> None /\ h_mem s' b <> None /\ (forall c, c <> a -> c <> b -> h_mem s' c = h_mem s c)).
Proof.
  intros F N Hb Ha. eapply wp_mono; [apply wp_vh_assign; eauto|auto|]. cbn. intros s' e (E1 & E2 & E3 & R). split; [repeat split; auto|auto].
Qed.
Example C63_assign_ex lay : let E := dE lay in storable 5 /\ env_assignable 5 = false /\ 0 <> 1 /\ h_mem hs 1 = Some 11 /\ h_mem hs 0 <> None.
Proof. hdemo lay.  Qed.

(** An element that is not assignable survives being assigned to itself. *)
Theorem C63_self {V} {E : Env V} t a s : storable t -> env_assignable t = false ->
  wp (vh_assign t a a) s (fun s' _ => s' = s) (fun _ _ => False).
Proof. intros F A. unfold wp. now rewrite vh_assign_self. Qed.
Example C63_self_ex lay : let E := dE lay in storable 5 /\ env_assignable 5 = false /\ h_mem hs 0 = Some 10.
Proof. hdemo lay. Qed.

(** Erasing a range of the elements [xs] of a segment. *)
Theorem C63_erase {V} {E : Env V} t al base xs f l s : storable t -> holds s base xs -> f <= l -> l <= length xs ->
  wp (s_erase t al base (length xs) f l) s
    (fun s' _ => holds s' base (firstn f xs ++ skipn l xs) /\ vacant s' (base + (length xs - (l - f))) (l - f) /\
       elsewhere s s' base (length xs))
    (fun s' e => assign_threw t e /\ alive_cells s' base (length xs) /\ elsewhere s s' base (length xs)).
Proof. apply wp_s_erase. Qed.
Example C63_erase_ex lay : let E := dE lay in storable 5 /\ holds hs 0 [10; 11; 12; 13] /\ 1 <= 3 /\ 3 <= length [10; 11; 12; 13].
Proof. hdemo lay. Qed.

(** Inserting an element at index [k] when there is room for it.  The element may be a copy of one
    in the segment itself. *)
Theorem C63_emplace {V} {E : Env V} t al base xs k tmp r x s : storable t -> holds s base xs -> k <= length xs ->
  h_mem s (base + length xs) = None -> h_mem s tmp = None -> tmp <> base + length xs ->
  gives s r x -> (forall c, robs r c -> ~ (base <= c < base + length xs)) ->
  wp (s_emplace t al base (length xs) k tmp r) s
    (fun s' _ => holds s' base (firstn k xs ++ x :: skipn k xs) /\ h_mem s' tmp = None /\
       (forall c, robs r c -> h_mem s' c <> None) /\
       (forall c, ~ robs r c -> ~ (base <= c <= base + length xs) -> h_mem s' c = h_mem s c))
    (fun s' e => h_mem s' tmp = None /\ (forall c, robs r c -> h_mem s' c <> None) /\
       (forall c, ~ robs r c -> ~ (base <= c <= base + length xs) -> h_mem s' c = h_mem s c) /\
       (made_threw t r e /\ holds s' base xs /\ h_mem s' (base + length xs) = None \/
        shift_threw t e /\ alive_cells s' base (length xs))).
Proof. apply wp_s_emplace. Qed.
(** A copy of the last element goes to index 1. *)
Example C63_emplace_ex lay : let E := dE lay in storable 5 /\ holds hs 0 [10; 11; 12; 13] /\ 1 <= length [10; 11; 12; 13] /\
  h_mem hs (0 + length [10; 11; 12; 13]) = None /\ h_mem hs 9 = None /\ 9 <> 0 + length [10; 11; 12; 13] /\
  gives hs (CopyT 3) 13 /\ (forall c, robs (V := nat) (CopyT 3) c -> ~ (0 <= c < 0 + length [10; 11; 12; 13])).
Proof. hdemo lay. Qed.

(** Inserting a range at index [k] when there is room for it. *)
Theorem C63_insert {V} {E : Env V} t al base xs k tmp cp f src ys s : storable t -> reads cp f -> holds s base xs -> holds s src ys -> k <= length xs ->
  vacant s (base + length xs) (length ys) -> h_mem s tmp = None -> ~ (base <= tmp < base + length xs + length ys) ->
  apart base (length xs + length ys) src (length ys) ->
  wp (s_insert t al base (length xs) k tmp f src (length ys)) s
    (fun s' _ => holds s' base (firstn k xs ++ ys ++ skipn k xs) /\ h_mem s' tmp = None /\ alive_cells s' src (length ys) /\
       (cp = true -> holds s' src ys) /\ elsewhere2 s s' base (length xs + length ys) src (length ys))
    (fun s' e => (built_threw t cp e \/ shift_threw t e) /\ h_mem s' tmp = None /\ alive_cells s' src (length ys) /\
       (cp = true -> holds s' src ys) /\ elsewhere2 s s' base (length xs + length ys) src (length ys) /\
       exists n, length xs <= n <= length xs + length ys /\ alive_cells s' base n /\ vacant s' (base + n) (length xs + length ys - n)).
Proof. apply wp_s_insert. Qed.
Example C63_insert_ex lay : let E := dE lay in storable 5 /\ reads (V := nat) true CopyT /\ holds hs 0 [10; 11; 12; 13] /\ holds hs 20 [7; 8] /\
  1 <= length [10; 11; 12; 13] /\ vacant hs (0 + length [10; 11; 12; 13]) (length [7; 8]) /\ h_mem hs 9 = None /\
  ~ (0 <= 9 < 0 + length [10; 11; 12; 13] + length [7; 8]) /\ apart 0 (length [10; 11; 12; 13] + length [7; 8]) 20 (length [7; 8]).
Proof. hdemo lay. Qed.

(** Moving the elements to other storage.  It throws only if the move constructor of the type may
    throw, and then changes nothing. *)
Theorem C63_relocate {V} {E : Env V} t al base xs base' s : holds s base xs -> vacant s base' (length xs) ->
  wp (s_relocate t al base (length xs) base') s
    (fun s' _ => holds s' base' xs /\ vacant s' base (length xs) /\ elsewhere2 s s' base (length xs) base' (length xs))
    (fun s' e => env_nt_move t = false /\ (e = UserExn \/ e = NotCopyConstructible t /\ env_copyable t = false) /\
       holds s' base xs /\ vacant s' base' (length xs) /\ elsewhere2 s s' base (length xs) base' (length xs)).
Proof. apply wp_s_relocate. Qed.
Example C63_relocate_ex : holds hs 0 [10; 11; 12; 13] /\ vacant hs 30 (length [10; 11; 12; 13]).
Proof. split; [apply hs_holds|]. intros i Hi. cbn in Hi. destruct i as [|[|[|[|i]]]]; reflexivity. Qed.

Print Assumptions C62_only_elements.
Print Assumptions C62_calls.
Print Assumptions C62_lifetimes.
Print Assumptions C62_elements_partial.
Print Assumptions C62_elements_refuted.
Print Assumptions C62_vector.
Print Assumptions C62_uses_allocator.
Print Assumptions C63_acceptable.
Print Assumptions C63_assign.
Print Assumptions C63_self.
Print Assumptions C63_erase.
Print Assumptions C63_emplace.
Print Assumptions C63_insert.
Print Assumptions C63_relocate.
