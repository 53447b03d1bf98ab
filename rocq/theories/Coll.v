(** * Collections: type_info_map.hpp, iterator_impl.hpp, poly_collection.hpp *)

From Coq Require Import List Arith Lia Bool Permutation.
From Verif Require Import Base Vec Backend Segment.
Import ListNotations.

(** A node of the std::unordered_map of type_info_map.hpp 57-62.  [n_id] is what a
    map iterator to the node is equal to. *)
Record node (V : Type) : Type := mknode {
  n_id : nat;
  n_key : tiaddr;
  n_seg : segment V
}.
Arguments mknode {V} _ _ _.
Arguments n_id {V} _.
Arguments n_key {V} _.
Arguments n_seg {V} _.

(** A map iterator (type_info_map.hpp 69-70): a node or end(). *)
Definition mapit := option nat.

(** type_info_map.hpp 242-243 (map in iteration order, cache), plus the map's
    bucket count and allocator. *)
Record coll (V : Type) : Type := mkcoll {
  c_nodes : list (node V);
  c_buckets : nat;
  c_cache : list (tiaddr * mapit);
  c_al : alid
}.
Arguments mkcoll {V} _ _ _ _.
Arguments c_nodes {V} _.
Arguments c_buckets {V} _.
Arguments c_cache {V} _.
Arguments c_al {V} _.

(** iterator_impl.hpp 125-126.  mapend is always the end of the map and is not
    represented; that of an iterator which outlives a swap or a move is taken to be the end of
    the map its element now belongs to, as it is with all major standard libraries. *)
Record iter : Type := mkiter { it_map : mapit; it_pos : ptr }.

(** local_iterator_impl, iterator_impl.hpp 135-237: a segment and a position in it (PBase: local_base_iterator;
    PConc: local_iterator<T>). *)
Record liter : Type := mkliter { li_map : nat; li_pos : bpos }.

(** An argument of insert(x): typeid of the static type T of the expression, the
    type_info subtypeid(x) of the dynamic type, is_acceptable<T>, is_terminal<T>
    (poly_collection.hpp 61-79), and how/where the value is obtained. *)
Record arg (V : Type) : Type := mkarg {
  a_static : tiaddr;
  a_dyn : tiaddr;
  a_acceptable : bool;
  a_terminal : bool;
  a_how : how;
  a_src : src V
}.
Arguments mkarg {V} _ _ _ _ _ _.
Arguments a_static {V} _.
Arguments a_dyn {V} _.
Arguments a_acceptable {V} _.
Arguments a_terminal {V} _.
Arguments a_how {V} _.
Arguments a_src {V} _.

(** Arbitrary rearrangement of a list driven by a list of codes: every permutation is
    obtained for some codes.  Stands for the iteration order of an unordered_map
    (type_info_map.hpp 57-62; standard library). *)
Fixpoint shuffle {A} (codes : list nat) (l : list A) : list A :=
  match codes, l with
  | k :: ks, x :: l' => insert_at (k mod S (length l')) x (shuffle ks l')
  | _, _ => l
  end.

Section Coll.
Context {V : Type} {E : Env V}.

Notation SM := (M (segment V * world)).
Notation CM := (M (coll V * world)).

(** ** type_info_map *)

(** std::unordered_map::find with type_info_ptr_equal_to (47-52) *)
Fixpoint map_find (ns : list (node V)) (a : tiaddr) : mapit :=
  match ns with
  | [] => None
  | n :: ns' => if env_ty (n_key n) =? env_ty a then Some (n_id n) else map_find ns' a
  end.

(** the cache is keyed by the address itself (175-180) *)
Fixpoint cache_find (c : list (tiaddr * mapit)) (a : tiaddr) : option mapit :=
  match c with
  | [] => None
  | (a', m) :: c' => if a' =? a then Some m else cache_find c' a
  end.

(** find const 155-160 *)
Definition tim_find_const (c : coll V) (a : tiaddr) : mapit :=
  match cache_find (c_cache c) a with
  | Some m => m
  | None => map_find (c_nodes c) a
  end.

(** cache.insert, type_info_map.hpp 151, 168, 234 (an unordered_map, 175-180): no effect if the key is present; may allocate *)
Definition cache_insert (a : tiaddr) (m : mapit) : CM unit :=
  on_world (tick BadAlloc) ;;
  c <- getx ;;
  match cache_find (c_cache c) a with
  | Some _ => ret tt
  | None => setx (mkcoll (c_nodes c) (c_buckets c) ((a, m) :: c_cache c) (c_al c))
  end.

(** find 146-153 *)
Definition tim_find (a : tiaddr) : CM mapit :=
  c <- getx ;;
  match cache_find (c_cache c) a with
  | Some m => ret m
  | None =>
      match map_find (c_nodes c) a with
      | Some n => cache_insert a (Some n) ;; ret (Some n)
      | None => ret None
      end
  end.

(** If iterators do not survive rehashing (type_info_map.hpp 165-167 allows for it), every node
    gets a new identity. *)
Fixpoint renumber (ns : list (node V)) : M world (list (node V)) :=
  match ns with
  | [] => ret []
  | n :: ns' =>
      i <- fresh ;; ns'' <- renumber ns' ;; ret (mknode i (n_key n) (n_seg n) :: ns'')
  end.

(** map.emplace(&key,std::move(seg)), 166: a node is allocated and constructed with the
    map's allocator (allocator_adaptor.hpp 153-201 passes it to segment(segment&&,al)); if
    the key is new it is linked, possibly rehashing; otherwise it is destroyed.  [seg] is a
    temporary of the caller, destroyed at the end of the full expression in any case
    (seg_move leaves it without elements). *)
Definition construct_node (al : alid) (seg : segment V) : M world (segment V) :=
  fun w =>
    match seg_move al (seg, w) with
    | Ok (seg', w') s => (seg_delete seg' ;; ret s) w'
    | Exn (seg', w') e => (seg_delete seg' ;; throw e) w'
    | UB => UB
    end.

(** map.emplace(&key,x), type_info_map.hpp 166 *)
Definition map_emplace (a : tiaddr) (seg : segment V) : CM (mapit * bool) :=
  c <- getx ;;
  s <- on_world (try_rethrow (tick BadAlloc) (seg_delete seg) ;;
                 construct_node (c_al c) seg) ;;
  match map_find (c_nodes c) a with
  | Some i => on_world (seg_delete s) ;; ret (Some i, false)
  | None =>
      on_world (try_rethrow (tick BadAlloc) (seg_delete s)) ;; (* bucket array *)
      i <- on_world fresh ;;
      clk <- on_world clock ;;
      let bk := env_buckets (length (c_nodes c)) (c_buckets c) in
      ns <- (if (bk =? c_buckets c) || env_rehash_stable
             then ret (c_nodes c)
             else on_world (renumber (c_nodes c))) ;;
      setx (mkcoll (shuffle (env_codes clk) (mknode i a s :: ns)) bk
              (c_cache c) (c_al c)) ;;
      ret (Some i, true)
  end.

(** rebuild_cache 237-240 *)
Definition rebuild_cache : CM unit :=
  modify (fun s =>
    let c := fst s in
    (mkcoll (c_nodes c) (c_buckets c)
       (map (fun e => (fst e, map_find (c_nodes c) (fst e))) (c_cache c)) (c_al c),
     snd s)).

(** insert 162-170 *)
Definition tim_insert (a : tiaddr) (seg : segment V) : CM mapit :=
  c <- getx ;;
  p <- map_emplace a seg ;;
  c' <- getx ;;
  (if c_buckets c' =? c_buckets c then ret tt else rebuild_cache) ;;
  cache_insert a (fst p) ;;
  ret (fst p).

(** build_cache 232-235: [keys] are those of the other map's cache *)
Fixpoint build_cache (keys : list (tiaddr * mapit)) : CM unit :=
  match keys with
  | [] => ret tt
  | (a, _) :: ks =>
      c <- getx ;;
      cache_insert a (map_find (c_nodes c) a) ;;
      build_cache ks
  end.

(** ** Nodes, map iterators *)

(** mapit->second for the map iterator to the node with identity [i], iterator_impl.hpp 118-120,
    poly_collection.hpp segment(it); [None]: not valid *)
Fixpoint node_at (ns : list (node V)) (i : nat) : option (node V) :=
  match ns with
  | [] => None
  | n :: ns' => if n_id n =? i then Some n else node_at ns' i
  end.

(** The nodes from the one with identity [i] on: ++mapit, iterator_impl.hpp 101-116. *)
Fixpoint nodes_from (ns : list (node V)) (i : nat) : option (list (node V)) :=
  match ns with
  | [] => None
  | n :: ns' => if n_id n =? i then Some (n :: ns') else nodes_from ns' i
  end.

(** A change of the segment mapit->second (iterator_impl.hpp 118-119). *)
Fixpoint node_upd (ns : list (node V)) (i : nat) (s : segment V) : list (node V) :=
  match ns with
  | [] => []
  | n :: ns' => if n_id n =? i then mknode (n_id n) (n_key n) s :: ns'
                else n :: node_upd ns' i s
  end.

(** segment(mapit), poly_collection.hpp 1049-1052: run a segment operation on the
    segment of a node; an invalid iterator is undefined behaviour. *)
Definition on_seg {A} (i : nat) (m : SM A) : CM A :=
  fun s =>
    let '(c, w) := s in
    match node_at (c_nodes c) i with
    | None => UB
    | Some n =>
        match m (n_seg n, w) with
        | Ok (sg, w') a =>
            Ok (mkcoll (node_upd (c_nodes c) i sg) (c_buckets c) (c_cache c) (c_al c), w') a
        | Exn (sg, w') e =>
            Exn (mkcoll (node_upd (c_nodes c) i sg) (c_buckets c) (c_cache c) (c_al c), w') e
        | UB => UB
        end
    end.

(** ** Iterators: iterator_impl.hpp *)

(** next_segment_position 109-116 *)
Fixpoint next_segment_position (ns : list (node V)) : iter :=
  match ns with
  | [] => mkiter None null
  | n :: ns' =>
      if ptr_eqb (seg_begin (n_seg n)) (sg_snt (n_seg n))
      then next_segment_position ns'
      else mkiter (Some (n_id n)) (seg_begin (n_seg n))
  end.

(** iterator_impl(mapit,mapend,segpos) 69-78 *)
Definition it_make (c : coll V) (m : mapit) (p : ptr) : option iter :=
  match m with
  | None => Some (mkiter None p)
  | Some i =>
      match nodes_from (c_nodes c) i with
      | Some (n :: ns) =>
          if ptr_eqb p (sg_snt (n_seg n)) then Some (next_segment_position ns)
          else Some (mkiter (Some i) p)
      | _ => None
      end
  end.

(** increment 101-107: defined only for an iterator to an element, i.e. a pointer into
    the current array of base values of its segment, below the end *)
Definition it_next (c : coll V) (it : iter) : option iter :=
  match it_map it with
  | None => None
  | Some i =>
      match nodes_from (c_nodes c) i with
      | Some (n :: ns) =>
          let b := sg_be (n_seg n) in
          if (fst (it_pos it) =? fst (be_begin b)) && (snd (it_pos it) <? be_size b) then
            let p := (fst (it_pos it), S (snd (it_pos it))) in
            if ptr_eqb p (sg_snt (n_seg n)) then Some (next_segment_position ns)
            else Some (mkiter (Some i) p)
          else None
      | _ => None
      end
  end.

(** dereference 97-98: the element (and its dynamic type) at a pointer, found by
    address *)
Fixpoint deref_nodes (ns : list (node V)) (p : ptr) : option (tyid * V) :=
  match ns with
  | [] => None
  | n :: ns' =>
      match be_deref (sg_be (n_seg n)) p with
      | Some v => Some (sg_ty (n_seg n), v)
      | None => deref_nodes ns' p
      end
  end.
Definition it_deref (c : coll V) (it : iter) : option (tyid * V) :=
  deref_nodes (c_nodes c) (it_pos it).

(** equal 99 *)
Definition it_eq (x y : iter) : bool := ptr_eqb (it_pos x) (it_pos y).

(** begin/end, poly_collection.hpp 437-442 with iterator_impl.hpp 61-67 *)
Definition c_begin (c : coll V) : iter := next_segment_position (c_nodes c).
Definition c_end (c : coll V) : iter := mkiter None null.

(** A range-for over [first,last), with the ++, * and != of iterator_impl.hpp 97-107; [fuel] bounds the number of steps, running out of it
    counts as an error. *)
Fixpoint traverse (fuel : nat) (c : coll V) (first last : iter)
  : option (list (tyid * V)) :=
  if it_eq first last then Some []
  else match fuel with
       | O => None
       | S f =>
           match it_deref c first, it_next c first with
           | Some x, Some it' =>
               match traverse f c it' last with
               | Some l => Some (x :: l)
               | None => None
               end
           | _, _ => None
           end
       end.

(** ** poly_collection: construction, registration *)

(** poly_collection(al) 383-384, type_info_map(al) 79-80 *)
Definition c_empty (al : alid) : coll V := mkcoll [] 0 [] al.

(** get_map_iterator_for<T>() 1026-1033: find or create *)
Definition find_or_make (a : tiaddr) : CM nat :=
  m <- tim_find a ;;
  match m with
  | Some i => ret i
  | None =>
      c <- getx ;;
      s <- on_world (seg_make (env_ty a) (c_al c)) ;;
      m' <- tim_insert a s ;;
      match m' with Some i => ret i | None => ub end
  end.

(** get_map_iterator_for(const T&) 961-1013 *)
Definition map_iterator_for (x : arg V) : CM nat :=
  if a_acceptable x then
    if a_terminal x then find_or_make (a_static x)
    else
      m <- tim_find (a_dyn x) ;;
      match m with
      | Some i => ret i
      | None =>
          if env_ty (a_dyn x) =? env_ty (a_static x) then
            c <- getx ;;
            s <- on_world (seg_make (env_ty (a_static x)) (c_al c)) ;;
            m' <- tim_insert (a_static x) s ;;
            match m' with Some i => ret i | None => ub end
          else throw (UnregisteredType (env_ty (a_dyn x)))
      end
  else
    (* const member: find const *)
    c <- getx ;;
    match tim_find_const c (a_dyn x) with
    | Some i => ret i
    | None => throw (UnregisteredType (env_ty (a_dyn x)))
    end.

(** get_map_iterator_for(const T&,const segment_type&) 1015-1024: creates the segment from
    a prototype of type [pt] *)
Definition map_iterator_for_proto (a : tiaddr) (pt : tyid) : CM nat :=
  m <- tim_find a ;;
  match m with
  | Some i => ret i
  | None =>
      c <- getx ;;
      s <- on_world (seg_make pt (c_al c)) ;;
      m' <- tim_insert a s ;;
      match m' with Some i => ret i | None => ub end
  end.

(** get_map_iterator_for(const std::type_info&) 1035-1047 *)
Definition map_iterator_by_info (a : tiaddr) : CM nat :=
  c <- getx ;;
  match tim_find_const c a with
  | Some i => ret i
  | None => throw (UnregisteredType (env_ty a))
  end.

(** register_types<T...>() 408-422 *)
Definition register_type (a : tiaddr) : CM unit :=
  c <- getx ;;
  s <- on_world (seg_make (env_ty a) (c_al c)) ;;
  tim_insert a s ;;
  ret tt.
Fixpoint register_types (l : list tiaddr) : CM unit :=
  match l with
  | [] => ret tt
  | a :: l' => register_type a ;; register_types l'
  end.

(** is_registered 424-433 *)
Definition is_registered (c : coll V) (a : tiaddr) : bool :=
  match tim_find_const c a with Some _ => true | None => false end.

(** ** Observers: 444-583 *)

(** empty(), poly_collection.hpp 527-531 *)
Definition c_empty_all (c : coll V) : bool :=
  forallb (fun n => seg_empty (n_seg n)) (c_nodes c).
(** size(), poly_collection.hpp 545-550 *)
Fixpoint sum_sizes (ns : list (node V)) : nat :=
  match ns with [] => 0 | n :: ns' => seg_size (n_seg n) + sum_sizes ns' end.
Definition c_size (c : coll V) : nat := sum_sizes (c_nodes c).

(** an observer of the segment of a type, poly_collection.hpp 534-583: throws
    unregistered_type *)
Definition by_info {A} (f : segment V -> A) (a : tiaddr) : CM A :=
  i <- map_iterator_by_info a ;; on_seg i (s <- getx ;; ret (f s)).
Definition c_size_of (a : tiaddr) : CM nat := by_info seg_size a.
Definition c_empty_of (a : tiaddr) : CM bool := by_info seg_empty a.
Definition c_max_size_of (a : tiaddr) : CM nat := by_info seg_max_size a.
Definition c_capacity_of (a : tiaddr) : CM nat := by_info seg_capacity a.
(** begin(info)/end(info) 444-471 *)
Definition c_begin_of (a : tiaddr) : CM liter :=
  i <- map_iterator_by_info a ;;
  p <- on_seg i (s <- getx ;; ret (seg_begin s)) ;; ret (mkliter i (PBase p)).
Definition c_end_of (a : tiaddr) : CM liter :=
  i <- map_iterator_by_info a ;;
  p <- on_seg i (s <- getx ;; ret (seg_end s)) ;; ret (mkliter i (PBase p)).

(** ** Capacity: reserve, shrink_to_fit 585-617 *)

(** The loops over the segments of reserve(n), shrink_to_fit() and clear(), poly_collection.hpp 585-617, 938-941 *)
Fixpoint for_each_node {A} (ids : list nat) (m : SM A) : CM unit :=
  match ids with
  | [] => ret tt
  | i :: ids' => on_seg i m ;; for_each_node ids' m
  end.
(** The map nodes such a loop visits (585-617) *)
Definition all_ids (c : coll V) : list nat := map n_id (c_nodes c).

(** reserve(n), reserve(info,n), reserve<T>(n), shrink_to_fit(), shrink_to_fit(info), poly_collection.hpp 585-617 *)
Definition c_reserve_all (n : nat) : CM unit :=
  c <- getx ;; for_each_node (all_ids c) (seg_reserve n).
Definition c_reserve_info (a : tiaddr) (n : nat) : CM unit :=
  i <- map_iterator_by_info a ;; on_seg i (seg_reserve n).
Definition c_reserve_type (a : tiaddr) (n : nat) : CM unit :=
  i <- find_or_make a ;; on_seg i (check_ty (env_ty a) ;; seg_reserve n).
Definition c_shrink_all : CM unit :=
  c <- getx ;; for_each_node (all_ids c) seg_shrink_to_fit.
Definition c_shrink_info (a : tiaddr) : CM unit :=
  i <- map_iterator_by_info a ;; on_seg i seg_shrink_to_fit.

(** ** Modifiers *)

(** the iterator built from a map iterator and a segment position ({it,map.end(),pos},
    poly_collection.hpp 625-628, iterator_impl.hpp 69-78); an invalid map
    iterator is undefined behaviour *)
Definition mk_iter (m : mapit) (p : ptr) : CM iter :=
  c <- getx ;; match it_make c m p with Some it => ret it | None => ub end.

(** emplace 621-629 *)
Definition c_emplace (a : tiaddr) (x : src V) : CM iter :=
  i <- find_or_make a ;;
  p <- on_seg i (seg_push_back (env_ty a) HEmplace x) ;;
  mk_iter (Some i) p.

(** hint.mapit==it, poly_collection.hpp 637, 698, 775, 796, 806, 826: comparing a map iterator that was invalidated (by a rehash caused by the
    creation of a segment) is undefined behaviour *)
Definition same_node (m : mapit) (i : nat) : CM bool :=
  match m with
  | None => ret false
  | Some j =>
      c <- getx ;;
      match node_at (c_nodes c) j with Some _ => ret (j =? i) | None => ub end
  end.

(** emplace_hint 631-642 *)
Definition c_emplace_hint (hint : iter) (a : tiaddr) (x : src V) : CM iter :=
  i <- find_or_make a ;;
  b <- same_node (it_map hint) i ;;
  p <- (if b : bool
        then on_seg i (seg_emplace (env_ty a) HEmplace (PBase (it_pos hint)) x)
        else on_seg i (seg_push_back (env_ty a) HEmplace x)) ;;
  mk_iter (Some i) p.

(** emplace_pos 644-679; the result for local_iterator<T> is converted from the base
    iterator by the caller (see [li_to_conc]) *)
Definition c_emplace_pos (pos : liter) (a : tiaddr) (x : src V) : CM liter :=
  p <- on_seg (li_map pos) (seg_emplace (env_ty a) HEmplace (li_pos pos) x) ;;
  ret (mkliter (li_map pos) (PBase p)).

(** insert(x) 681-686, with push_back 1054-1083 *)
Definition c_insert (x : arg V) : CM iter :=
  i <- map_iterator_for x ;;
  p <- on_seg i (seg_push_back (env_ty (a_dyn x)) (a_how x) (a_src x)) ;;
  mk_iter (Some i) p.

(** insert(hint,x) 688-702 *)
Definition c_insert_hint (hint : iter) (x : arg V) : CM iter :=
  i <- map_iterator_for x ;;
  b <- same_node (it_map hint) i ;;
  p <- (if b : bool
        then on_seg i (seg_insert (env_ty (a_dyn x)) (a_how x) (PBase (it_pos hint)) (a_src x))
        else on_seg i (seg_push_back (env_ty (a_dyn x)) (a_how x) (a_src x))) ;;
  mk_iter (Some i) p.

(** insert(local_pos,x) 704-717 *)
Definition c_insert_pos (pos : liter) (x : arg V) : CM liter :=
  p <- on_seg (li_map pos)
         (seg_insert (env_ty (a_dyn x)) (a_how x) (li_pos pos) (a_src x)) ;;
  ret (mkliter (li_map pos) (PBase p)).

(** insert(first,last), elements of a non-terminal type, 719-727 *)
Fixpoint c_insert_range (xs : list (arg V)) : CM unit :=
  match xs with
  | [] => ret tt
  | x :: xs' => c_insert x ;; c_insert_range xs'
  end.

(** insert(first,last), elements of a terminal type, 729-742: one static (and dynamic)
    type [a] for all *)
Definition c_insert_range_terminal (a : tiaddr) (h : how) (fwd : bool) (xs : list V)
  : CM unit :=
  match xs with
  | [] => ret tt
  | _ :: _ =>
      i <- find_or_make a ;;
      on_seg i (seg_append_range (env_ty a) h fwd xs) ;; ret tt
  end.

(** insert(hint,first,last), non-terminal, 766-781 *)
Fixpoint c_insert_hint_range (hint : iter) (xs : list (arg V)) : CM unit :=
  match xs with
  | [] => ret tt
  | x :: xs' =>
      i <- map_iterator_for x ;;
      b <- same_node (it_map hint) i ;;
      if b : bool then
        p <- on_seg i (seg_insert (env_ty (a_dyn x)) (a_how x) (PBase (it_pos hint)) (a_src x)) ;;
        h <- mk_iter (Some i) p ;;
        c <- getx ;;
        match it_next c h with
        | Some h' => c_insert_hint_range h' xs'
        | None => ub
        end
      else
        on_seg i (seg_push_back (env_ty (a_dyn x)) (a_how x) (a_src x)) ;;
        c_insert_hint_range hint xs'
  end.

(** insert(hint,first,last), terminal, 783-798 *)
Definition c_insert_hint_range_terminal
  (hint : iter) (a : tiaddr) (h : how) (fwd : bool) (xs : list V) : CM unit :=
  match xs with
  | [] => ret tt
  | _ :: _ =>
      i <- find_or_make a ;;
      b <- same_node (it_map hint) i ;;
      (if b : bool
       then on_seg i (seg_insert_range (env_ty a) h fwd (PBase (it_pos hint)) xs)
       else on_seg i (seg_append_range (env_ty a) h fwd xs)) ;;
      ret tt
  end.

(** What *first and first.segment(), poly_collection.hpp 740, 748, 774, 805, give for an iterator of another collection [y]: the
    type_info and value of the element and the type of its segment.  subtypeid(x) is taken
    to be the key of the segment. *)
Fixpoint deref_src (ns : list (node V)) (p : ptr) : option (tiaddr * V) :=
  match ns with
  | [] => None
  | n :: ns' =>
      match be_deref (sg_be (n_seg n)) p with
      | Some v => Some (n_key n, v)
      | None => deref_src ns' p
      end
  end.
Definition it_seg_ty (y : coll V) (it : iter) : option tyid :=
  match it_map it with
  | None => None
  | Some i => match node_at (c_nodes y) i with
              | Some n => Some (sg_ty (n_seg n))
              | None => None
              end
  end.

(** insert(first,last) with iterators of another collection, 744-751; running out of fuel
    counts as an error *)
Fixpoint c_insert_from (fuel : nat) (y : coll V) (first last : iter) : CM unit :=
  if it_eq first last then ret tt
  else match fuel with
       | O => ub
       | S f =>
           match deref_src (c_nodes y) (it_pos first), it_seg_ty y first, it_next y first with
           | Some (a, v), Some pt, Some first' =>
               i <- map_iterator_for_proto a pt ;;
               on_seg i (seg_push_back (env_ty a) HCopy (SVal v)) ;;
               c_insert_from f y first' last
           | _, _, _ => ub
           end
       end.

(** insert(hint,first,last) with iterators of another collection, 800-812 *)
Fixpoint c_insert_hint_from (fuel : nat) (hint : iter) (y : coll V) (first last : iter)
  : CM unit :=
  if it_eq first last then ret tt
  else match fuel with
       | O => ub
       | S f =>
           match deref_src (c_nodes y) (it_pos first), it_seg_ty y first, it_next y first with
           | Some (a, v), Some pt, Some first' =>
               i <- map_iterator_for_proto a pt ;;
               b <- same_node (it_map hint) i ;;
               if b : bool then
                 p <- on_seg i (seg_insert (env_ty a) HCopy (PBase (it_pos hint)) (SVal v)) ;;
                 h <- mk_iter (Some i) p ;;
                 c <- getx ;;
                 match it_next c h with
                 | Some h' => c_insert_hint_from f h' y first' last
                 | None => ub
                 end
               else
                 on_seg i (seg_push_back (env_ty a) HCopy (SVal v)) ;;
                 c_insert_hint_from f hint y first' last
           | _, _, _ => ub
           end
       end.

(** insert(first,last) with local iterators, 753-764: a non-empty local range of a segment
    with key [a] and type [pt], holding the values [xs] *)
Fixpoint push_all (i : nat) (t : tyid) (xs : list V) : CM unit :=
  match xs with
  | [] => ret tt
  | v :: xs' => on_seg i (seg_push_back t HCopy (SVal v)) ;; push_all i t xs'
  end.
Definition c_insert_local (a : tiaddr) (pt : tyid) (xs : list V) : CM unit :=
  match xs with
  | [] => ret tt
  | _ :: _ => i <- map_iterator_for_proto a pt ;; push_all i (env_ty a) xs
  end.

(** insert(hint,first,last) with local iterators, 814-835 *)
Fixpoint insert_all_hint (hint : iter) (i : nat) (t : tyid) (xs : list V) : CM unit :=
  match xs with
  | [] => ret tt
  | v :: xs' =>
      p <- on_seg i (seg_insert t HCopy (PBase (it_pos hint)) (SVal v)) ;;
      h <- mk_iter (Some i) p ;;
      c <- getx ;;
      match it_next c h with
      | Some h' => insert_all_hint h' i t xs'
      | None => ub
      end
  end.
Definition c_insert_hint_local (hint : iter) (a : tiaddr) (pt : tyid) (xs : list V) : CM unit :=
  match xs with
  | [] => ret tt
  | _ :: _ =>
      i <- map_iterator_for_proto a pt ;;
      b <- same_node (it_map hint) i ;;
      if b : bool then insert_all_hint hint i (env_ty a) xs
      else push_all i (env_ty a) xs
  end.

(** insert(const_local_base_iterator,first,last) 837-854 *)
Fixpoint c_insert_pos_loop (i : nat) (p : bpos) (xs : list (arg V)) : CM bpos :=
  match xs with
  | [] => ret p
  | x :: xs' =>
      q <- on_seg i (seg_insert (env_ty (a_dyn x)) (a_how x) p (a_src x)) ;;
      c_insert_pos_loop i (PBase (fst q, S (snd q))) xs'
  end.
Definition c_insert_pos_range (pos : liter) (xs : list (arg V)) : CM liter :=
  p <- c_insert_pos_loop (li_map pos) (li_pos pos) xs ;;
  match p with
  | PBase q => ret (mkliter (li_map pos) (PBase (fst q, snd q - length xs)))
  | PConc q => ret (mkliter (li_map pos) (PConc (fst q, snd q - length xs)))
  end.

(** Conversion of a base iterator of a segment to a Concrete pointer
    (static_cast<segment_iterator<T>>, poly_collection.hpp 866) *)
Definition seg_to_conc (p : ptr) : SM ptr :=
  s <- getx ;;
  match be_to_concrete (sg_be s) p with Some q => ret q | None => ub end.

(** insert(const_local_iterator<T>,first,last) 856-870 with local_insert 1085-1118: an
    element whose dynamic type is T is inserted, any other is used to construct a T.
    [None] as type stands for a type that is not an implementation of the interface. *)
Fixpoint c_insert_lpos_loop (i : nat) (t : tyid) (p : ptr) (xs : list (option tyid * how * V))
  : CM ptr :=
  match xs with
  | [] => ret p
  | (ot, h, v) :: xs' =>
      let same := match ot with Some t' => t' =? t | None => false end in
      q <- on_seg i (if same then seg_insert t h (PConc p) (SVal v)
                     else seg_emplace t HEmplace (PConc p) (SVal v)) ;;
      e <- on_seg i (seg_to_conc q) ;;
      c_insert_lpos_loop i t (fst e, S (snd e)) xs'
  end.
Definition c_insert_lpos_range (i : nat) (t : tyid) (p : ptr) (xs : list (option tyid * how * V))
  : CM liter :=
  q <- c_insert_lpos_loop i t p xs ;;
  ret (mkliter i (PConc (fst q, snd q - length xs))).

(** erase(pos) 879-882 *)
Definition c_erase (pos : iter) : CM iter :=
  match it_map pos with
  | None => ub
  | Some i => p <- on_seg i (seg_erase (PBase (it_pos pos))) ;; mk_iter (Some i) p
  end.

(** erase(local pos) 884-889 *)
Definition c_erase_local (pos : liter) : CM liter :=
  p <- on_seg (li_map pos) (seg_erase (li_pos pos)) ;; ret (mkliter (li_map pos) (PBase p)).

(** == of map iterators, as in poly_collection.hpp 900-906 *)
Definition mapit_eqb (x y : mapit) : bool :=
  match x, y with
  | Some i, Some j => i =? j
  | None, None => true
  | _, _ => false
  end.

(** the loop while(++fseg!=lseg)segment(fseg).clear(), 904: [ids] are the nodes after
    fseg in map order; reaching the end of the map without meeting lseg is undefined *)
Fixpoint clear_until (ids : list nat) (lseg : mapit) : CM unit :=
  match ids with
  | [] => match lseg with None => ret tt | Some _ => ub end
  | i :: ids' =>
      if mapit_eqb (Some i) lseg then ret tt
      else on_seg i seg_clear ;; clear_until ids' lseg
  end.

(** erase(first,last) 891-923 *)
Definition c_erase_range (first last : iter) : CM iter :=
  if negb (mapit_eqb (it_map first) (it_map last)) then
    match it_map first with
    | None => ub
    | Some fi =>
        on_seg fi (seg_erase_till_end (PBase (it_pos first))) ;;
        c <- getx ;;
        match nodes_from (c_nodes c) fi with
        | Some (_ :: ns) =>
            clear_until (map n_id ns) (it_map last) ;;
            match it_map last with
            | None => c' <- getx ;; ret (c_end c')
            | Some li =>
                p <- on_seg li (seg_erase_from_begin (PBase (it_pos last))) ;;
                mk_iter (Some li) p
            end
        | _ => ub
        end
    end
  else if it_eq first last then mk_iter (it_map first) (it_pos first)
  else match it_map first with
       | None => ub
       | Some i =>
           p <- on_seg i (seg_erase_range (PBase (it_pos first)) (PBase (it_pos last))) ;;
           mk_iter (Some i) p
       end.

(** erase(local first,local last) 925-936 *)
Definition c_erase_local_range (first last : liter) : CM liter :=
  if li_map first =? li_map last then
    p <- on_seg (li_map first) (seg_erase_range (li_pos first) (li_pos last)) ;;
    ret (mkliter (li_map first) (PBase p))
  else ub.

(** clear 938-952 *)
Definition c_clear : CM unit := c <- getx ;; for_each_node (all_ids c) seg_clear.
Definition c_clear_info (a : tiaddr) : CM unit :=
  i <- map_iterator_by_info a ;; on_seg i seg_clear.

(** ** Copy, move, swap, destruction *)

(** destroy all nodes: the implicit destructors of poly_collection and type_info_map
    (type_info_map.hpp 242-243) *)
Fixpoint destroy_nodes (ns : list (node V)) : M world unit :=
  match ns with
  | [] => ret tt
  | n :: ns' => seg_delete (n_seg n) ;; destroy_nodes ns'
  end.
Definition c_destroy (c : coll V) : M world unit := destroy_nodes (c_nodes c).

(** unordered_map copy (standard library; type_info_map.hpp 74, 82): each node is allocated and its segment copied with the new map's
    allocator; if something throws the nodes already built are destroyed *)
Fixpoint copy_nodes (ns : list (node V)) (al : alid) : M world (list (node V)) :=
  match ns with
  | [] => ret []
  | n :: ns' =>
      tick BadAlloc ;;
      s <- seg_copy (n_seg n) al ;;
      i <- fresh ;;
      ns'' <- try_rethrow (copy_nodes ns' al) (seg_delete s) ;;
      ret (mknode i (n_key n) s :: ns'')
  end.

(** map_type(const map_type&) and map_type(const map_type&,al), type_info_map.hpp 74, 82 *)
Definition map_copy (ns : list (node V)) (al : alid) : M world (list (node V)) :=
  clk <- clock ;;
  ns' <- copy_nodes ns al ;;
  ret (shuffle (env_codes clk) ns').

(** run the body of a constructor (type_info_map.hpp 77, 83, poly_collection.hpp 396) on the
    collection under construction, destroying its nodes if it throws *)
Definition with_new (c : coll V) (m : CM unit) : M world (coll V) :=
  fun w => match m (c, w) with
           | Ok (c', w') _ => Ok w' c'
           | Exn (c', w') e => match c_destroy c' w' with
                               | Ok w'' _ => Exn w'' e
                               | Exn w'' e' => Exn w'' e'
                               | UB => UB
                               end
           | UB => UB
           end.

(** type_info_map(const type_info_map&,al) 81-83; the copy ctor 73-77 is the same with
    [al] = select_on_container_copy_construction of the source's allocator *)
Definition c_copy_al (x : coll V) (al : alid) : M world (coll V) :=
  ns <- map_copy (c_nodes x) al ;;
  with_new (mkcoll ns (c_buckets x) [] al) (build_cache (c_cache x)).
Definition c_copy (x : coll V) : M world (coll V) := c_copy_al x (env_socc (c_al x)).

(** Range constructor poly_collection(first,last,al), poly_collection.hpp 390-397 *)
Definition c_from_range (xs : list (arg V)) (al : alid) : M world (coll V) :=
  with_new (c_empty al) (c_insert_range xs).

(** map.clear() and cache.clear(), type_info_map.hpp 95-96, 107-108, 128-131: the nodes are destroyed, buckets and allocator stay *)
Definition map_clear : CM unit :=
  c <- getx ;;
  on_world (destroy_nodes (c_nodes c)) ;;
  setx (mkcoll [] (c_buckets c) (c_cache c) (c_al c)).
Definition cache_clear : CM unit :=
  c <- getx ;; setx (mkcoll (c_nodes c) (c_buckets c) [] (c_al c)).

(** operator=(const type_info_map&), type_info_map.hpp 99-112, for [this!=&x].  The
    std::unordered_map assignment is modelled as: destroy the old nodes, then copy those of
    [x] (libstdc++ reuses node storage; whatever throws, the handler clears the map). *)
Definition map_copy_assign (x : coll V) : CM unit :=
  map_clear ;;
  c <- getx ;;
  let al := if env_pocca then c_al x else c_al c in
  ns <- on_world (map_copy (c_nodes x) al) ;;
  setx (mkcoll ns (c_buckets x) (c_cache c) al).
Definition c_copy_assign (x : coll V) : CM unit :=
  try_rethrow
    (map_copy_assign x ;; cache_clear ;; build_cache (c_cache x))
    (map_clear ;; cache_clear).

(** *** Moves between two collections (type_info_map.hpp 84-97, 114-135): the state is
    (destination, source) *)

Notation PM := (M ((coll V * coll V) * world)).
(** An operation on *this, and one on x (type_info_map.hpp 84-135) *)
Definition on_dst {A} (m : CM A) : PM A := on_field fst (fun d s => (d, snd s)) m.
Definition on_src {A} (m : CM A) : PM A := on_field snd (fun x s => (fst s, x)) m.

(** type_info_map(type_info_map&&)=default, 78: the state is the source *)
Definition c_move : CM (coll V) :=
  x <- getx ;; setx (c_empty (c_al x)) ;; ret x.

(** Element-wise move (standard library; type_info_map.hpp 85, 117) of the nodes of the source (from the [k]-th on) into new nodes using
    allocator [al], appended to the destination; the source nodes keep their moved-from
    segments. *)
Fixpoint move_nodes (ids : list nat) (al : alid) : PM unit :=
  match ids with
  | [] => ret tt
  | i :: ids' =>
      on_world (tick BadAlloc) ;;
      x <- on_src getx ;;
      match node_at (c_nodes x) i with
      | None => ub
      | Some n =>
          s <- on_src (on_seg i (seg_move al)) ;;
          j <- on_world fresh ;;
          d <- on_dst getx ;;
          on_dst (setx (mkcoll (c_nodes d ++ [mknode j (n_key n) s]) (c_buckets d)
                          (c_cache d) (c_al d))) ;;
          move_nodes ids' al
      end
  end.

(** std::unordered_map(unordered_map&&,al), type_info_map.hpp 85, with unequal allocators, into an empty
    destination; on success the source may be cleared ([env_umap_clears]) *)
Definition map_move_elems (al : alid) : PM unit :=
  clk <- on_world clock ;;
  x <- on_src getx ;;
  move_nodes (map n_id (c_nodes x)) al ;;
  d <- on_dst getx ;;
  on_dst (setx (mkcoll (shuffle (env_codes clk) (c_nodes d)) (c_buckets x)
                  (c_cache d) (c_al d))) ;;
  if env_umap_clears then on_src map_clear else ret tt.

(** type_info_map(type_info_map&&,al) 84-97; the destination starts as an empty map with
    allocator [al] and is destroyed if the constructor throws *)
Definition c_move_al (al : alid) : PM unit :=
  try_rethrow
    (x <- on_src getx ;;
     if c_al x =? al then
       on_dst (setx (mkcoll (c_nodes x) (c_buckets x) (c_cache x) al)) ;;
       on_src (setx (c_empty (c_al x)))
     else
       map_move_elems al ;;
       on_dst (build_cache (c_cache x)) ;;
       on_src map_clear ;;
       on_src cache_clear)
    (on_dst map_clear).

(** operator=(type_info_map&&) 114-135, for [this!=&x] *)
Definition c_move_assign : PM unit :=
  try_rethrow
    (x <- on_src getx ;;
     on_dst map_clear ;;
     d <- on_dst getx ;;
     if env_pocma || (c_al d =? c_al x) then
       (* constant-time move of map and cache *)
       on_dst (setx (mkcoll (c_nodes x) (c_buckets x) (c_cache x) (c_al x))) ;;
       on_src (setx (c_empty (c_al x)))
     else
       map_move_elems (c_al d) ;;
       on_dst cache_clear ;;
       on_dst (build_cache (c_cache x)) ;;
       on_src cache_clear)
    (on_dst map_clear ;; on_dst cache_clear ;;
     on_src map_clear ;; on_src cache_clear).

(** Assignment between two of the variables of a program, perhaps the same one: the tests
    [this!=&x] at 101 and 116. *)
Definition set_nth (i : nat) (c : coll V) (g : list (coll V)) : list (coll V) :=
  firstn i g ++ c :: skipn (S i) g.
Definition c_assign_var (i j : nat) : M (list (coll V) * world) unit :=
  fun s =>
    if i =? j then Ok s tt
    else match nth_error (fst s) i, nth_error (fst s) j with
    | Some c, Some x =>
        match c_copy_assign x (c, snd s) with
        | Ok (c', w') _ => Ok (set_nth i c' (fst s), w') tt
        | Exn (c', w') e => Exn (set_nth i c' (fst s), w') e
        | UB => UB
        end
    | _, _ => UB
    end.
Definition c_move_assign_var (i j : nat) : M (list (coll V) * world) unit :=
  fun s =>
    if i =? j then Ok s tt
    else match nth_error (fst s) i, nth_error (fst s) j with
    | Some c, Some x =>
        match c_move_assign ((c, x), snd s) with
        | Ok ((c', x'), w') _ => Ok (set_nth i c' (set_nth j x' (fst s)), w') tt
        | Exn ((c', x'), w') e => Exn (set_nth i c' (set_nth j x' (fst s)), w') e
        | UB => UB
        end
    | _, _ => UB
    end.

(** swap, poly_collection.hpp 954, type_info_map.hpp 172; with unequal allocators that do
    not propagate on swap the behaviour is undefined *)
Definition c_swap : PM unit :=
  fun s =>
    let '((x, y), w) := s in
    if env_pocs then Ok ((y, x), w) tt
    else if c_al x =? c_al y then Ok ((y, x), w) tt
    else UB.

(** ** Equality, poly_collection.hpp 1137-1151 *)
Fixpoint c_equal_loop (xs : list (node V)) (y : coll V) (s : nat) : M world bool :=
  match xs with
  | [] => ret (s =? c_size y)
  | n :: xs' =>
      let ss := seg_size (n_seg n) in
      match tim_find_const y (n_key n) with
      | None => if ss =? 0 then c_equal_loop xs' y (s + ss) else ret false
      | Some i =>
          match node_at (c_nodes y) i with
          | None => ub
          | Some m =>
              b <- seg_equal (n_seg n) (n_seg m) ;;
              if b then c_equal_loop xs' y (s + ss) else ret false
          end
      end
  end.
Definition c_equal (x y : coll V) : M world bool := c_equal_loop (c_nodes x) y 0.

(** ** Local iterators: iterator_impl.hpp 135-237, iterator_traits.hpp 52-108 *)

(** local_base_iterator -> local_iterator<T> (explicit conversion, 187-197) *)
Definition li_to_conc (c : coll V) (l : liter) : option liter :=
  match node_at (c_nodes c) (li_map l), li_pos l with
  | Some n, PBase p =>
      match be_to_concrete (sg_be (n_seg n)) p with
      | Some q => Some (mkliter (li_map l) (PConc q))
      | None => None
      end
  | Some _, PConc _ => Some l
  | None, _ => None
  end.

(** local_iterator<T> -> local_base_iterator (base_iterator_from, 221-227) *)
Definition li_to_base (c : coll V) (l : liter) : option liter :=
  match node_at (c_nodes c) (li_map l), li_pos l with
  | Some n, PConc p =>
      match be_from_concrete (sg_be (n_seg n)) p with
      | Some q => Some (mkliter (li_map l) (PBase q))
      | None => None
      end
  | Some _, PBase _ => Some l
  | None, _ => None
  end.

(** dereference (of the iterator or pointer adapted, iterator_impl.hpp 135-140) *)
Definition li_deref (c : coll V) (l : liter) : option (tyid * V) :=
  match node_at (c_nodes c) (li_map l) with
  | None => None
  | Some n =>
      match (match li_pos l with
             | PBase p => be_deref (sg_be (n_seg n)) p
             | PConc p => be_deref_conc (sg_be (n_seg n)) p
             end) with
      | Some v => Some (sg_ty (n_seg n), v)
      | None => None
      end
  end.

(** iterator_traits<>::iterator_from(lbit,mapend) 102-107: local_base_iterator ->
    iterator *)
Definition iter_from (c : coll V) (l : liter) : option iter :=
  match li_pos l with
  | PBase p => it_make c (Some (li_map l)) p
  | PConc _ => match li_to_base c l with
               | Some (mkliter i (PBase p)) => it_make c (Some i) p
               | _ => None
               end
  end.

(** iterator_traits<>::local_base_iterator_from(it) 93-100: iterator ->
    local_base_iterator *)
Definition liter_from (it : iter) : option liter :=
  match it_map it with
  | Some i => Some (mkliter i (PBase (it_pos it)))
  | None => None
  end.

(** Iterators give mutable access to the elements (iterator_impl.hpp 105-106, 219-220; the
    non-const begin/end and for_each of poly_collection.hpp 437-523): between two calls a
    user may assign a new value to any element in place. Values only: neither the number
    of elements nor any address changes. [f] tells the new value from the type, the index
    in the segment and the old value. *)
Definition rewrite_elems (f : nat -> V -> V) (l : list V) : list V :=
  map (fun kv => f (fst kv) (snd kv)) (combine (seq 0 (length l)) l).
Definition rewrite_seg (f : tyid -> nat -> V -> V) (s : segment V) : segment V :=
  let b := sg_be s in let v := be_store b in
  mkseg (sg_ty s) (sg_al s)
    (mkbackend (mkvec (v_blk v) (v_cap v) (rewrite_elems (f (sg_ty s)) (v_elems v)))
               (be_index b) (be_self b))
    (sg_snt s).
Definition c_mutate (f : tyid -> nat -> V -> V) (c : coll V) : coll V :=
  mkcoll (map (fun n => mknode (n_id n) (n_key n) (rewrite_seg f (n_seg n))) (c_nodes c))
         (c_buckets c) (c_cache c) (c_al c).

End Coll.
