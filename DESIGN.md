# Formal model of boostorg/poly_collection in Rocq (Coq 8.16.1)

## Layers

One executable model, layered as the code is. Every definition cites the file and lines it
models. Line numbers refer to `/repo/include/boost/poly_collection/` and its `detail/`.

| file | models |
|---|---|
| `Base.v` | outcomes (value / exception with the state it leaves / undefined behaviour), pointers, the world (live blocks, number of live objects, clock of fallible steps, number of element operations for the complexity claims), the environment `Env` |
| `Vec.v` | the `std::vector` operations the library calls, with capacity, storage identity and throw points |
| `Backend.v` | `value_holder.hpp`, `packed_segment.hpp`, `split_segment.hpp`, the virtual interface of `segment_backend.hpp` |
| `Segment.v` | `segment.hpp` (type-erased wrapper with the cached sentinel) |
| `Coll.v` | `type_info_map.hpp`, `iterator_impl.hpp`, `poly_collection.hpp`, the model functions of `base_model.hpp`, `any_model.hpp`, `function_model.hpp` that choose the type and address of an argument |
| `Info.v` | `segment_info`, `const_segment_info`, segment traversal (`poly_collection.hpp`) |
| `Types.v` | static types of the arguments of insert: traits of the three models, `subtypeid`, `subaddress`, choice of overloads |
| `Read.v` | threads that only read: the queries of the above, interleaved at their boundaries |
| `StdAlg.v` | the std algorithms on a list, with effects |
| `Algo.v` | `segment_split.hpp`, `type_restitution.hpp`, `functional.hpp`, `algorithm.hpp` |
| `Access.v` | function objects that receive references and modify elements |
| `Stride.v` | `stride_iterator.hpp` on byte addresses |
| `Callable.v` | `callable_wrapper.hpp`, `callable_wrapper_iterator.hpp` |
| `Holder.v` | `value_holder.hpp` and `allocator_adaptor.hpp` on memory cells, with a log of constructor and destructor runs; `is_acceptable.hpp` |
| `Slots.v` | the loops of `std::vector` (erase, emplace, insert, relocation) on the cells of `Holder.v` |
| `Functors.v` | `algorithm.hpp` and the closures of `functional.hpp` again, for function objects with a state of their own: which copy of the object is called |
| `Loops.v` | no code of the library: the loops in which its users erase or transfer elements while they traverse |
| `Local.v` | `+`, `-`, `*` of `iterator_impl.hpp: local_iterator_impl`; algorithms of the standard library (not in the library) as programs which use elements of a local range |
| `Pair.v` | Function objects called on two elements which use iterators they have captured (user code) |
| `LocalConv.v` | conversions between local iterators: which constructor, and what it makes |
| `Grow.v` | a user's loop which inserts elements of other types while it traverses one |
| `Each.v` | a user's loop which copies a collection element by element |
| `TwoLocal.v` | local iterators as the second range of an algorithm |
| `OverPos.v` | overload resolution of erase and emplace_pos |
| `Overload.v` | overload resolution of insert |
| `Body.v` | function objects which use captured iterators |
| `Many.v` | programs which use iterators of several collections |
| `Two.v` | algorithms whose second range is given by iterators |
| `Into.v` | `std::inserter` as the output iterator of the copying algorithms |
| `End.v` | `iterator_impl.hpp` 42-126 and the two `erase` of `poly_collection.hpp` with the member `mapend` |
| `Walk.v`, `WalkStd.v` | programs (not in the library) which copy, assign, increment, compare and dereference the iterators of a range |

Specifications are in separate files that mention only lists, types, indices and the
observation functions of a collection: `Spec.v`, `SpecAlg.v`, `SpecAcc.v`, `SpecHist.v`, `SpecCalls.v`,
`SpecFail.v`, `SpecInfo.v`, `SpecStore.v`, `SpecHold.v`, `SpecTypes.v`, `SpecObj.v`, `SpecShuffle.v`, `SpecTxn.v`, `SpecLocal.v`, `SpecWalk.v`, `SpecVia.v`, `SpecRoom.v`, `SpecStd.v`, `SpecEnd.v`, `SpecInto.v`, `SpecTwo.v`, `SpecMany.v`, `SpecRead.v`, `SpecBody.v`, `SpecPair.v`, `SpecOver.v`, and `Reach.v` (which states a program can reach through
the public operations; it mentions none of the invariants). Invariants and proofs are in
`Proof*.v`. The exported theorems are in `Properties1.v` ... `Properties51.v`. Next to each is an
`Example` with the suffix `_ex`, which gives a concrete state (`Demo.v`, in most cases for both
layouts) that meets its hypotheses, and at the end of each file there is a `Print Assumptions` per theorem.

### Nondeterminism and crash points

What the library does not control is a field of the class `Env`, over which every theorem is
universally quantified: which fallible step throws (`env_fault : nat -> bool`, indexed by a clock
that advances at each allocation, element constructor, throwing assignment and comparison, so a
theorem for all `env_fault` covers all crash points), growth policy of vectors, size limits, order of
the hash map after an insertion, rehash schedule and whether map iterators survive it, values
left by a vector operation with only the basic guarantee, traits of the element types, element
equality, allocator traits, which type a `type_info` address denotes, whether an element-wise moved
unordered_map is cleared, how many elements stay in an element-wise moved vector, and comparison of a past-the-end pointer with a pointer into another
block. An operation is a total function returning `Ok state value`, `Exn state exception` or
`UB`. `wp m s Q X` says: `m` from `s` is not `UB`, a normal return satisfies `Q`, an exception `X`.

### Memory

A pointer is (block, offset). Identifiers of blocks are never reused, so a pointer into released
storage never equals one into live storage; dereferencing or freeing it is `UB`. Block 0 is null.
The number of live element objects is counted; destroying more than exist is `UB`. A ghost parameter
(`env_counted`) chooses the types counted, so what is proved holds for the objects of each type alone.

## How the properties are proved

Three invariants, all in `Proof*.v`: `wfv`/`wfb`/`wfs`/`wfc` (shape of vectors, backends, segments,
collections: in particular the index of a split segment and the sentinel are right, and no two
segments have the same type), a weaker one with the suffix 0 for a collection that an exception
has left fit only for destruction or assignment, and `own` (each live block has exactly one owner
and the number of objects adds up). Each operation has a specification in the form of a `wp` lemma.
`reach_alive` shows by induction over `reach` that the invariants hold in every reachable state;
then each property is restated over `reach` in the terms of `Spec*.v` only. There is no bound on
the number of collections, segments, elements, steps or failures.

A claim which is false of the faithful model is kept in `properties.jsonl` as a user would expect
it; a theorem with the suffix `_refuted` exhibits a reachable counterexample, and the strongest
true version is proved next to it (with the suffix `_partial` where part of the claim is missing).

| id | title | status | how |
|---|---|---|---|
| C01 | Elements live in the segment of their dynamic type | proved | `content`: list of (type, values) in segment order. Invariant over `reach`; every call described by `grew`/`cut`/`registered`. |
| C02 | Traversal visits every element exactly once | proved | `traverse` runs begin()/++/* of the model; equals the concatenation of the segments; no step is UB. |
| C03 | size() and empty() agree with the contents | proved | `c_size`, `c_empty` and the per-type observers against `flat`/`elems`. |
| C04 | Iterators are normalised and equality identifies positions | proved | Iterators are (map iterator, pointer); `located c it i` says the i-th position of a traversal; equality decides `i=j`, ++ goes to i+1. |
| C05 | Registration is exact and monotonic | proved | `registered`: exactly the listed types are added, nothing else changes; no call ever forgets a type. |
| C06 | Type lookup does not depend on type_info addresses nor on lookup history | proved | Lookup goes through the address cache; result depends on `env_ty` only, and the cache is invisible. |
| C07 | unregistered_type is thrown exactly when documented, without side effects | proved | `query`/`unregistered` for observers, hinted and local insertion; world and collection unchanged. |
| C08 | insert(x) and emplace<T>(args...) append to the segment of the type | proved | emplace/insert: `grew None`, position of the returned iterator. |
| C09 | Position hints are honoured exactly when they point into the right segment | proved | Hints: `hint_at` computes the documented position; result at that position. |
| C10 | Local positions insert exactly there | proved | Local positions: same with `lpoints`. |
| C11 | Range insertion equals inserting the elements one by one | proved | Range insertion by induction over the range; equals the fold of single insertions. |
| C12 | Hinted range insertion keeps order immediately before the hint | proved | Same with a hint; order immediately before the hint. |
| C13 | Insertion from another collection needs no prior registration | proved | insert(first,last) of a collection into another registers by copying segments empty (`create_from`). |
| C14 | Local range insertion returns the first inserted element | proved | Local ranges: returned iterator and contents. |
| C15 | erase(pos) removes exactly that element | proved | erase(pos): `cut` of one position; returned iterator. |
| C16 | erase(first,last) removes exactly the range | proved | erase(first,last) over several segments: loop invariant over the nodes in between. |
| C17 | clear empties without unregistering | proved | clear, clear(info). |
| C18 | Equality means equal non-empty segments | proved | operator== : induction over the nodes; reflexive, symmetric, transitive when element equality is. |
| C19 | not_equality_comparable is thrown only when such elements must be compared | proved | exception branch of the same. |
| C20 | Copies are equal and independent | proved | Copies: `same_content`, disjoint storage (`separate`), later calls on one leave the other alone. |
| C21 | not_copy_constructible is thrown exactly when needed | proved | exactly when some non-empty segment has a non-copyable type. |
| C22 | Move and swap transfer contents without touching elements | proved | move, move assignment, swap: new owner *is* the old value (same addresses), the clock does not advance, so nothing was called. |
| C23 | Allocator-extended move and non-propagating move assignment | partial | element-wise moves with unequal allocators; both branches of `env_umap_clears`. *Destination, allocator and 'moved, never copied' proved for all allocators and traits. Source of allocator-extended construction: always empty. Source of move assignment: empty and in working order where the unordered_map implementation clears a map moved from element by element or need not move elements, otherwise with at most as many elements of each type as before. C23_source_refuted, C23_source_full_refuted and C23_failed_move_refuted show that the unconditional claim about the source is false of the code.* |
| C24 | Assignment: self-assignment and failure | proved | assignment between variables, possibly the same one; failed assignment leaves both usable. |
| C25 | reserve and capacity | proved | capacity, reserve(n), reserve(info,n), reserve<T>. |
| C26 | shrink_to_fit preserves contents | proved | shrink_to_fit, as a non-binding request. |
| C27 | Iterator and reference stability on insertion and erasure | proved | address of each element (`addr_of`) before and after each call. |
| C28 | Operations on one segment do not disturb the others | proved | every other type's values, addresses, capacities untouched. |
| C29 | Conversions between local_base_iterator and local_iterator<T> | proved | conversion between local_base_iterator and local_iterator<T> both ways. *Conversions between local_base_iterator and local_iterator<T>. In any_collection and function_collection this is about element types not derived from the value type; for the others another constructor is chosen, and C87_related_refuted says what happens.* |
| C30 | Segment growth is geometric and never overflows | partial | growth arithmetic of vector and `expand`, potential function for the amortised bound. *Capacity bounds, growth by half and the amortised bound (at most four relocations per insertion) proved for insertions of single elements. C30_range_refuted: insertions of ranges, even of one element, grow to the exact size and cost quadratically many relocations.* |
| C31 | Single-element insertion has the strong guarantee (base_collection) | proved | exception branch of single insertions, packed layout. |
| C32 | Insertion that throws leaves any_collection/function_collection valid | partial | same, split layout. *Strong guarantee proved when the segment has room, capacity of at least two, and the position is the end or moves do not throw. For full, fresh and throwing-move cases the claim is false of the code: C32_full_refuted, C32_first_refuted, C32_middle_refuted.* |
| C33 | Erasure that throws leaves the collection valid | partial | exception branches of erasure. *Range erasure proved for all collections, single erasure for base_collection. C33_erase_refuted: after a throwing erase(pos) an any_collection can be corrupted by a later successful emplace.* |
| C34 | Range insertion that throws leaves the collection valid | partial | exception branches of range insertion; which prefix was inserted, stated as first_ones of Spec.v; range_safe says when the segments have room. *Proved for every kind of range that is not of a terminal type (references, local iterators, other collections, local positions), with and without hint: exactly a prefix was inserted and the collection stays usable, in base_collection always and in any_collection and function_collection where the segments concerned have room; and for unregistered_type in all. For ranges of a terminal type in a base_collection, given by forward iterators, bad_alloc of the storage and length_error leave nothing inserted (C34_terminal_partial, C34_hint_terminal_partial). C34_terminal_refuted and C34_terminal_grow_refuted show the failures.* |
| C35 | Inserting an element of the collection into itself | partial | arguments that alias elements (`SRef`), copied or moved (`moved_from`). Moves are reduced to an insertion from outside after a write to the element (`ProofOwn.v`). *Proved for base_collection always and for the others when the segment has room, for copies and for moves; C35_full_refuted and C35_move_full_refuted: inserting an element of a full any_collection segment into itself reads freed storage.* |
| C36 | Non-copyable and non-assignable types are usable | proved | types that are not copyable / not assignable run through all calls. *Proved for types with non-throwing moves (as the claim says). C36_throwing_move_refuted documents that move-only types with throwing moves are accepted by the library but throw not_copy_constructible on growth.* |
| C37 | for_each and for_each_n | proved | algorithms are models of algorithm.hpp on top of `for_each_segment`; compared with `StdAlg.v` on the list of elements; function objects thread an arbitrary state, so equality includes the order and number of calls. |
| C38 | all_of, any_of, none_of, count, count_if | proved | as C37. |
| C39 | find family | proved | as C37. |
| C40 | adjacent_find | partial | as C37; comparison of pointers of different blocks is `env_adjacent`. *Proved for any_collection/function_collection, and for base_collection unless the storage of one segment begins exactly where that of another ends; refuted in that case (C40_adjacent_find_refuted): the match is skipped. Predicates must not look at whether their first argument is restituted (see C47).* |
| C41 | mismatch and equal | proved | as C37. |
| C42 | is_permutation | proved | as C37. |
| C43 | search, find_end, search_n | proved | as C37. |
| C44 | Copying algorithms | proved | as C37, output iterators as state. |
| C45 | sample | proved | as C37; the random generator is part of the state. Uniformity: the sequences of draws which give one selection are counted, by induction over the range, and there are as many for each (`C45_uniform`). |
| C46 | is_partitioned and partition_point | proved | as C37. |
| C47 | Type restitution | partial | restitution: each algorithm with a type list equals the one with none, up to the static type seen by the predicate. *Proved for all algorithms except adjacent_find and unique_copy, whose comparison across a segment boundary passes the first element through value_type& even if its type is restituted (refuted for these two, C47_adjacent_find_refuted and C47_unique_copy_refuted). Independence of the restituted types is proved for function objects which do not distinguish them, including adjacent_find and unique_copy.* |
| C48 | Segment splitting partitions the range | proved | `segment_split` ranges: consecutive, non-empty, one type each, covering [first,last). |
| C49 | Random access laws of local iterators | proved | `Stride.v`: addresses in Z modulo 2^64, strides, all random access operators. *stride_iterator at the level of bytes (64-bit addresses), and agreement of the pointer comparison used in the model of adjacent_find with that of addresses. Pointer iterators of any_collection and function_collection are native pointers.* |
| C50 | Callable wrappers of function_collection | proved | `Callable.v`: index entry points to wrapper with object and caller; calls reach the right object. *For any reachable state, through index entries as the split_segment builds them. A call may change the object, throw or be undefined; the conversion to std::function refers to the same object.* |
| C51 | Allocator propagation | proved | traits pocca/pocma/pocs/socc are environment fields. |
| C52 | Elements are constructed and destroyed exactly once | proved | `w_objs`/`w_live`: births and deaths counted, destroying more than born or freeing twice is UB, so absence of UB plus the final balance is the claim; which types are counted is arbitrary, so it holds type by type. |
| C53 | Segment order is stable until a new segment is created | proved | order of `types` is stable unless a segment is created. |
| C54 | Iterators survive the creation of new segments | partial | iterators across creation; stable and unstable rehash. *Proved for standard libraries whose unordered_map iterators survive rehashing. Without that C54_hint_refuted shows that a hint may dangle inside the call it is passed to.* |
| C55 | A failing reserve does no harm | partial | exception branch of reserve. *Contents always kept; base_collection stays in working order. C55_reserve_refuted: a throwing reserve leaves an any_collection untraversable.* |
| C56 | max_size bounds sizes and reserve | partial | max_size bounds; every member function call that would exceed them (beyond) throws, by the cause of failure of api_cause. *C56_size and C56_reserve say it for base_collection; for the others capacity is at most max_size()+1 (C56_size_refuted and C56_reserve_refuted show that neither half holds for any_collection). C56_full: no member function call puts more elements into a segment than it can hold, whatever the layout, and if memory and user code cooperate it throws length_error.* |
| C57 | for_each, for_each_n and move modify exactly the elements of the range | proved | `Access.v`: function objects get references (address of element) and may store through them; only the range changes. |
| C58 | What collections contain is determined by the history of calls | proved | `SpecHist.v`: a machine knowing only types, indices and values; simulation by every successful call; calls that throw perform a first part of their command (`tried`, relation `runs`) or are followed by `clear` (`tried_clear`). |
| C59 | Exceptions have documented causes | proved | `SpecFail.v`: list of allowed reasons; one theorem over all calls. |
| C60 | Segment descriptors and segment traversal | proved | `Info.v`: descriptors hold a map iterator; node identities persist through calls. |
| C61 | Memory never changes hands between unequal allocators | proved | `step` relation of Reach.v; each block of a collection after a step is new or was held by one with the same allocator; ownership is a count per block. |
| C62 | Elements are constructed and destroyed through the collection's allocator, and nothing else is | partial | `Holder.v`: value_holder and allocator_adaptor on memory cells with a log of constructor and destructor runs; invariant of the log over all histories of container operations; the vector algorithms of `Slots.v` are such histories. *Calls of construct and destroy alternate per cell, go to stored elements only, and lifetimes never overlap: proved for all types and histories. That every element is made and ended through the allocator holds for move assignable types (C62_elements_partial); it is false for others (C62_elements_refuted): emulated assignment destroys and re-creates the element by placement new.* |
| C63 | Elements which cannot be assigned are stored, shifted and relocated like others | proved | `Slots.v`: the loops of std::vector in terms of `Holder.v`; induction over the loops, pointwise description of memory. |
| C64 | Documented complexity of insertion, erasure, clear and reserve, and of copying, moving and destroying | proved | counter `w_work` in the world, incremented by the element operations of the vector model; bounds composed over the monad (`ProofCost*.v`), erasure by the measure work + 2 * size; potential argument for amortisation and for the index filled by copying (`ProofCost5.v`); for mixed sequences of calls the potential is 9*(4*size-3*capacity) of each segment, when positive (`ProofCost6.v`). |
| C65 | Recovering from an exception | proved | stronger invariant for what an exception leaves (`wfb1`, `wfs1`, `wfc0`: the index keeps its first entry and some capacity), from which clear restores the full one; clear(info) of the changed segments suffices because every insertion leaves other types' segments alone, also when it throws (`C28_calls`); recovery steps are part of `step` in `Reach.v`, so everything proved about reachable states holds afterwards. |
| C66 | Reading has no side effects and readers do not disturb each other | proved | `Read.v`: queries as a type, readers as functions from the answers so far to the next query, a schedule as a list of turns. Each query leaves the state; induction over the schedule. `SpecRead.v` says what the right answer to each query is, in terms of the elements; each query gives it (`C66_right_answers`), and so does every reader in every interleaving (`C66_told`). |
| C67 | What is inserted is the object meant, complete and under its own type | proved | `Types.v`: class types with bases, offsets, final and polymorphic ones; expressions with static type, value category, object and complete object; heap as list of typed objects. The traits and `subtypeid`/`subaddress` are computed from these, and the overload of `segment` chosen by them; `SpecTypes.v` says which object is meant. Then reduced to C08-C14. |
| C68 | What cannot be copied is not inserted by copy | proved | `never m`: `m` returns from no state. Constructing a copy of a non-copyable type never returns, and every such insertion gets to that point (`ProofNever.v`); together with C59 it throws for an admissible reason. |
| C69 | Threads working on separate collections do not affect each other | proved | `SpecHist.v`: `minds owner t a` says which collections an action may touch, `acts_of t s` are the actions of a thread. Two states that agree on what thread `t` may see stay so (its own steps on both sides, other threads' steps on one side): induction over the schedule. Steps are whole calls; races within a call are excluded by ownership, the model has no shared hidden state but the allocator's block counter. |
| C70 | Algorithms act through the function objects only, on the elements of the ranges only, and no more often than the standard says | partial | `SpecCalls.v`: `logged f` writes down the arguments, `calls m f D most Q` states which, how many and what is thrown. Counting rule for the monad (`made`, `made_bind`) by induction over the standard algorithms of StdAlg.v and SpecCalls.v, transferred by `same_as`; adjacent_find and unique_copy directly over the pieces of the range. *Proved for all the algorithms listed. C70_find_end_refuted: find_end compares also where too few elements are left, so it exceeds the bound of the standard, m*(n-m+1); proved is n*m. C70_adjacent_find_partial: that exactly the consecutive pairs up to the first match are compared is proved except, as in C40, for adjacent storage, where n-1 still bounds the number.* |
| C71 | Loops which erase or transfer elements while they traverse treat every element exactly once | proved | `Loops.v`: the loops, as programs over the modelled calls, with a bound on the number of rounds. Induction over the elements still to be treated, the collection being those kept before the iterator and those after it (C15, C13 and C04 give each round). |
| C72 | Function objects with a state of their own: for_each accumulates, the other algorithms start with a copy of the object for each type | proved | `Functors.v`: the algorithms again, with function objects which are values that a call may change; which object is called (the one passed, or a copy for each segment) is taken from the parameter types. Objects which calls do not change: simulation by the algorithms of `Algo.v`, then C37-C46. Others: induction over the segments, which are the runs of elements of the same type because types are distinct. *For objects which change when they are called, the effect is given part by part over the runs of elements of the same type (SpecObj.v).* |
| C73 | The order of calls about different types does not matter | proved | `SpecShuffle.v`: the elements (collection, type) an action of a history changes or uses, `independent` actions, `shuffled` histories; `about t` is what a command says about type `t`. Independent actions of the machine of C58 commute (both read only what the other does not change), induction over exchanges; for single types the machine is a fold over `about t`. |
| C74 | Changing a copy and swapping it in gives the strong guarantee for every change | proved | `Loops.v`: `transact`, a program over the modelled calls; `SpecTxn.v`: which commands of the machine of C58 its calls carry out. Induction over the calls, each leaving a reachable state if it returns and otherwise one where the copy can be destroyed (`r_call_wreck`); copying, swapping and destruction as in C20, C22 and C52. |
| C75 | Standard algorithms treat the local range of a type as an array | proved | `Local.v`: an algorithm is a program which uses the elements in some positions one after the other (`algo`), run on a local range through `+` and `*` of the local iterators; `SpecLocal.v`: the same program run on a list. The two runs agree by induction over the program, since a write through a local iterator changes one element of one segment (C35). `std_sort` and `std_remove_if` are verified on lists and transferred; the erasure after `remove_if` uses C16 and C33. A comparison is passed the value of one element and a reference to the other. |
| C76 | The range of a collection is a multi-pass forward sequence for every program using its iterators | proved | `Walk.v`: a program over iterators held in registers (copy, assign, `++`, `==`, use the object referred to); `SpecWalk.v`: the same program on a list with positions for iterators. The two runs agree by induction over the program: the iterators of a collection are in bijection with the positions (C03, C04), and a use changes one element only (C35). `std::find_if` and `std::max_element` are such programs, verified on lists and transferred. |
| C77 | Insertion through std::inserter | proved | `Loops.v: insert_via`, the assignments through `std::insert_iterator` as calls of insert(hint,x) and `++`; `SpecVia.v`: where the elements go in terms of the segments and the position held (`put_via`). Induction over the elements, each step by C10 and C03. The claim that it is the same as insert(hint,first,last) is proved for elements of one type and refuted for several. *The statement is proved in full. C77_order_refuted adds that for elements of several types the result is not that of insert(hint,first,last).* |
| C78 | Insertion into reserved room obtains no memory | proved | `SpecRoom.v`: the calls concerned (`light`), what room is (`room`, by size and capacity), that the blocks in use and the number of blocks ever obtained are the same (`same_memory`). `ProofRoom.v` follows each call through map, segment, backend and vectors; sequences by induction, the room left after a call by C04 and C29. That size below capacity is enough is refuted for the first element of a new segment (capacity 1). *The statement is proved in full. C78_first_refuted shows why capacities below 2 are excluded for any_collection and function_collection.* |
| C79 | The algorithms do what those of the standard library do with the same iterators | proved | `WalkStd.v` has the algorithms of the standard library as programs which use the iterators (the language of C76), `SpecStd.v` what it is to do the same (`does_as`). On sequences the programs do what the functions of `StdAlg.v` do, by induction over the loop (`w_for_ok`, `ProofStd.v`); the step to the collection is C76, and the other side is C37 to C46. |
| C80 | Iterators kept while a collection changes hands | proved | `End.v` models the operations which use the member `mapend` with it, for three kinds of `std::unordered_map`; `SpecEnd.v` says what it is to be handed over. Every step of a chain is C22, so the ends agree (`kept_end`, induction on the chain), and then each operation runs like that of `Coll.v` (`sim`, `ProofEnd.v`), for which C02, C15 and C16 apply. `C80_stays_undefined` shows what the third kind would do. |
| C81 | Algorithms which write into other collections | proved | `Into.v` is `std::inserter` as the output iterator of the algorithms of `Algo.v`, the destination and the iterator held being the state of the caller. C44 turns the algorithm into the standard one on the sequence, that one into a loop of insertions (`std_*_pure`), and induction over it with `wp_via` (C77) gives the effect (`wp_into`, `wp_split`); the elements of one type come in one go (`grouped`), hence the order. |
| C82 | Algorithms on two ranges given by iterators | proved | `Two.v` is those algorithms with the second range given by a record of `*`, `++` and `==`. For iterators going over a sequence (`sequence`, `SpecTwo.v`) each one simulates the one of `Algo.v` on the list of elements (`ProofTwo.v`, `follows`), by induction over the list; C39, C41-C44 then apply. C82_collection: iterators of a collection go over its elements; C82_local (`TwoLocal.v`, `Properties45.v`): so do those of a segment, of both kinds. |
| C83 | Programs which use iterators of several collections at once | proved | `Many.v` runs the programs of `Walk.v` on a list of collections, variables being (number, iterator). Simulation by induction over the program (`run_walks_seqs`): the collection concerned is brought to the front of the list, then C76 applies to the step. The algorithms are verified on sequences (`run_seqs`), by induction over what is left of the ranges. |
| C84 | Function objects which use iterators they have captured | proved | `Body.v`: a call is a sequence of uses of the element it is made on and of programs of `Walk.v` on the captured iterators, which are part of the state. One call is simulated by one on the sequences (`run_act_sim`; addresses of elements stay while only values change), algorithms of the standard library by themselves on positions (`for_each_sim` etc.), and those of the library are these on the references (C37 to C44). `Properties43.v` does so for nine more algorithms and `Properties47.v` for eleven, where output iterators and generators may use the captured iterators too. `Pair.v` and `Properties48.v` do so for predicates called on two elements (is_permutation here, adjacent_find under C40). |
| C85 | A call of insert means what its arguments say | proved | `Overload.v`: types of arguments, which overloads of insert are viable for them and with which conversion of the first argument, which is better, and what is left. What the arguments say is in `SpecOver.v`. Overload resolution is shown to be a table of eight facts about the types (`insert2_table`, `insert3_table`), by cases. The theorem on mixed iterators records that insert(cbegin(),end()) compiles for an any_collection whose elements may be iterators, and is no range insertion. `C85_resolution` (`Properties46.v`) says what overload resolution is, for any set of overloads. |
| C86 | Calls of erase and emplace_pos mean what their arguments say | partial | `OverPos.v`, on top of `Overload.v`: the overloads of erase and emplace_pos and the implicit conversions of local iterators, which are those of pointers. Proved by cases on the types. The claim that emplace_pos<T> makes a T only in the segment of the T is refuted: local_iterator<U> converts to local_iterator<T> if U is derived from T, and the call compiles without an assertion; the model of the segment then gives undefined behavior for every reachable collection. *erase, emplace_pos(p,...) and emplace_pos<T> with the right iterators proved. C86_emplace_pos_refuted: emplace_pos<T> accepts a local_iterator<U> for U derived from T, with undefined behavior; C86_emplace_pos_partial says that nothing else wrong compiles, other than types that cannot be stored.* |
| C87 | Conversions between local iterators keep the position and const | partial | `LocalConv.v`: which of the three converting constructors is taken (is_convertible and is_constructible on the iterators adapted) and the iterator it makes; pointers at addresses as in `Stride.v`. Proved by cases on the constructor with the invariant of C29. Refuted: const is never dropped (the constructor that goes through begin() makes a non-const iterator of every const one), local_iterator<U> does not become one of another type, and the position for elements derived from the value type of an any_collection. *The documented conversions and that each keeps the position are proved (C87_position_partial needs, in any_collection and function_collection, elements not related to the value type: C87_related_refuted). C87_const_refuted: the explicit conversion through begin() drops const, no other does (C87_const_partial). C87_upcast_refuted: local_iterator<U> converts implicitly to local_iterator<T> for a base T, and ++ is then wrong unless the sizes are equal.* |
| C88 | Other types can be changed while the elements of one type are traversed | proved | `Grow.v`: the loop of the user over the modelled begin(info), end(info), *, ++, != and insert. Proved by induction on the elements still to be visited; local iterators of the type traversed survive each insertion because that is of another type (C27, C54). |
| C89 | Copying a collection element by element registers no types, copying it as a range does | proved | `Each.v`: the loop of the user over begin, end, *, ++ of one collection and insert of another, the argument being a reference to the value type (`refers`). Induction on the elements still to be copied; the range from C13. |

## Trusted base

* Coq 8.16.1: the kernel, including its virtual machine (`vm_compute` is used in examples and refutations), and
  `coqc`. `coqchk` accepts the compiled files.
* `Print Assumptions` prints *Closed under the global context* for every theorem named in
  `MANIFEST.json`: no axiom is used, not even of the standard library. (`coqchk -o` lists axioms of
  `Coq.ssr.ssrunder.Under_rel`, which belong to a library module loaded with the prelude; no
  theorem depends on them.)
* The model is a hand-made transcription. That it says what the C++ says is not checked by Coq; the
  cited lines are there for comparison.
* The models of `std::vector`, `std::unordered_map`, `std::function` and the std algorithms state what
  the C++ standard guarantees, leaving the rest to `Env`. `StdAlg.v` is a specification: it
  describes what the std algorithm does on the plain sequence, including the sequence of calls of its function object.

## Modelled, and how simplified

| code | simplification |
|---|---|
| `packed_segment.hpp`, `split_segment.hpp` | A value is an element of an arbitrary type `V`; the address of an element is (block of its array, index). Input ranges are inserted one by one in the packed layout, as in the code; forward ranges at once. |
| `value_holder.hpp` | `emplaceable` constructors, emulated assignment (destroy + construct) for non-assignable types, and copy/equality that throw for types without them. Alignment and `aligned_storage` are not modelled. |
| `segment.hpp` | `filter`/sentinel caching is modelled. `segment::operator=` is never called by the library and is left out. |
| `type_info_map.hpp` | Map nodes have identities; order, buckets and rehashing come from `Env`. Memory of the nodes, buckets and cache is a fallible step but not a tracked block. |
| `iterator_impl.hpp` | Iterators are (map iterator, segment pointer); `BOOST_ASSERT` preconditions become `UB`. |
| `poly_collection.hpp` | All member functions. Overloads for const and non-const receivers are one function. In `Coll.v` each overload has its own function and the caller picks one; `Types.v` models what insert does with an expression, `Overload.v` and `OverPos.v` which overload of insert, erase and emplace_pos is called. SFINAE of the other functions is not modelled. A class type is a number; a `type_info` object is an address denoting a type. |
| `base_model.hpp`, `any_model.hpp`, `function_model.hpp` | In `Coll.v`, which layout, and which (type, object) an argument stands for, as part of `arg`. `Types.v` computes it from the static type: class types have no duplicate base subobjects, an `any` is given by the concepts its tests look for, and objects are found in memory by address and type. |
| `algorithm.hpp`, `segment_split.hpp`, `type_restitution.hpp` | Each algorithm; function objects carry an explicit state and may throw. Algorithms that are generated by the same macro or helper share a definition. |
| `stride_iterator.hpp` | 64-bit addresses in Z; comparison, difference and advance. |
| `callable_wrapper.hpp` | Wrapper and caller; the signature is one argument and one result. |

## Not modelled

* Compile-time parts (except what `LocalConv.v` says about the constructors of `local_iterator_impl`): `is_constructible.hpp`, `is_invocable.hpp`, `is_final.hpp`,
  `is_equality_comparable.hpp`, `is_nothrow_eq_comparable.hpp`, `iterator_traits.hpp`, `exception.hpp` hierarchy,
  forward headers. Their run-time effect (which branch is taken for a type) is given by the traits in `Env`.
* Template metaprogramming of `allocator_adaptor.hpp` (`transform_tuple` over index sequences); which call it ends in is
  modelled in `Holder.v`. `Holder.v` and `Slots.v` are a second, finer model of a segment's storage. `Vec.v` treats a
  vector as a list; C63 proves that the loops on cells produce these lists.
* Fancy pointers. Interleavings finer than whole calls (the library has no synchronisation; C66 interleaves queries, which write nothing, C69 calls of threads which do not touch what another one changes).
* `terminate` on an exception leaving a `noexcept` function: the model lets the exception out instead, and C17 and C59 show there is none.
* `auto_iterator.hpp`, which only changes the reference type.
* The value an own element is left with by `insert(std::move(*it))` is arbitrary (`env_junk`).
* The `mapend` member of iterators, except in `End.v` (C80): elsewhere one that outlives a swap or move is taken to carry the end of the map
  now owning its element, as in libstdc++, libc++ and MSVC.

## Tests of the theorems

`seeded/LOG.jsonl` lists edits of the model as realistic bugs would make them, what they break,
which theorems failed, and which were strengthened because too few did.
