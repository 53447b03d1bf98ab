{"id": "C01", "title": "Elements live in the segment of their dynamic type", "statement": "After any history of public operations, each registered type has exactly one segment, every element stored in the segment of type T was inserted (or emplaced) with dynamic type T, and no inserted element is ever dropped into, or visible through, the segment of another type.", "quantifier": "all histories of insert/emplace/erase/clear/reserve/register operations, all types, all values", "why_tests_cant": "a unit test fixes one history of operations; the statement is about every reachable state", "anchors": ["include/boost/poly_collection/detail/poly_collection.hpp: insert, emplace, get_map_iterator_for, push_back", "include/boost/poly_collection/detail/segment.hpp: push_back, push_back_terminal"]}
{"id": "C02", "title": "Traversal visits every element exactly once", "statement": "Starting at begin() and incrementing reaches end() after exactly size() steps, without undefined behaviour, and the values dereferenced on the way are the concatenation of the contents of the segments in segment_traversal() order (empty segments are skipped).", "quantifier": "all reachable collections, any number of (possibly empty) segments of any size, both storage layouts", "why_tests_cant": "number and arrangement of empty segments and segment sizes are unbounded", "anchors": ["include/boost/poly_collection/detail/iterator_impl.hpp: iterator_impl ctor, increment, next_segment_position", "include/boost/poly_collection/detail/poly_collection.hpp: begin, end, segment_traversal", "include/boost/poly_collection/detail/segment.hpp: sentinel"]}
{"id": "C03", "title": "size() and empty() agree with the contents", "statement": "size() equals the sum of size(T) over registered types and the number of elements met by traversal; empty() holds iff size()==0; size(info)/empty(info) describe exactly the segment of that type.", "quantifier": "all reachable collections", "why_tests_cant": "a unit test fixes one history of operations; the statement is about every reachable state", "anchors": ["include/boost/poly_collection/detail/poly_collection.hpp: size, empty"]}
{"id": "C04", "title": "Iterators are normalised and equality identifies positions", "statement": "Every iterator returned by begin(), end(), an insertion or an erasure is either end() or dereferenceable, and two such iterators of the same collection compare equal iff they denote the same position, although comparison looks only at the stored element pointer.", "quantifier": "all reachable collections and all pairs of valid iterators, including null data pointers of empty segments", "why_tests_cant": "pairs of iterators over arbitrarily many segments; the comparison is by address so it depends on memory disjointness", "anchors": ["include/boost/poly_collection/detail/iterator_impl.hpp: iterator_impl ctor, equal, next_segment_position"]}
{"id": "C05", "title": "Registration is exact and monotonic", "statement": "is_registered(T) is false for a new collection, becomes true after register_types<T>, reserve<T>, emplace<T> or a successful insertion of a T, and stays true under every operation other than being moved from, assigned to or swapped; erasure and clear never unregister.", "quantifier": "all histories", "why_tests_cant": "a unit test fixes one history of operations; the statement is about every reachable state", "anchors": ["include/boost/poly_collection/detail/poly_collection.hpp: register_types, is_registered, reserve, emplace, insert, clear, erase"]}
{"id": "C06", "title": "Type lookup does not depend on type_info addresses nor on lookup history", "statement": "Any operation taking a std::type_info gives the same result for every type_info object denoting the same type, whatever lookups, registrations (with or without rehashing), copies, moves, assignments and swaps happened before: the internal cache is transparent.", "quantifier": "all histories of lookups and registrations, all assignments of types to type_info addresses, all rehash schedules of the hash map", "why_tests_cant": "needs several type_info objects per type (dynamic modules) and arbitrary rehash schedules", "anchors": ["include/boost/poly_collection/detail/type_info_map.hpp: find, insert, build_cache, rebuild_cache, operator=, swap, constructors"]}
{"id": "C07", "title": "unregistered_type is thrown exactly when documented, without side effects", "statement": "begin/end/segment/size/empty/capacity/max_size/clear/reserve/shrink_to_fit by type_info throw unregistered_type(info) iff the type is not registered; insertion through a reference throws it iff the dynamic type differs from the static type (or the static type is not storable) and is not registered. The collection is unchanged and valid after the throw.", "quantifier": "all reachable collections, all types, all arguments", "why_tests_cant": "a unit test fixes one history of operations; the statement is about every reachable state", "anchors": ["include/boost/poly_collection/detail/poly_collection.hpp: get_map_iterator_for (all overloads)", "doc/reference.qbk 534-538"]}
{"id": "C08", "title": "insert(x) and emplace<T>(args...) append to the segment of the type", "statement": "A successful insert(x)/emplace<T>() puts the new element last in the segment of its dynamic type (creating the segment if needed), leaves the contents of all other segments and the order of the remaining elements unchanged, and returns an iterator to the new element.", "quantifier": "all reachable collections, all values/types, full or spare capacity", "why_tests_cant": "all capacities and reallocation patterns", "anchors": ["include/boost/poly_collection/detail/poly_collection.hpp: insert, emplace, push_back", "include/boost/poly_collection/detail/packed_segment.hpp: nv_push_back, nv_emplace_back", "include/boost/poly_collection/detail/split_segment.hpp: nv_push_back, nv_emplace_back, prereserve, push_index_entry"]}
{"id": "C09", "title": "Position hints are honoured exactly when they point into the right segment", "statement": "insert(hint,x)/emplace_hint<T>(hint,...) insert immediately before *hint when hint points into the segment of the element's dynamic type, and at the end of that segment otherwise; the returned iterator denotes the new element; nothing else changes.", "quantifier": "all reachable collections, all hints (including end()), all elements", "why_tests_cant": "hint/segment/capacity combinations are unbounded", "anchors": ["include/boost/poly_collection/detail/poly_collection.hpp: insert(const_iterator,T&&), emplace_hint"]}
{"id": "C10", "title": "Local positions insert exactly there", "statement": "insert(local_it,x)/emplace_pos(local_it,...) put the element at that index of its segment, shift the following elements by one, and return a local iterator to it; for every index 0..size.", "quantifier": "all segments, all indices, all capacities", "why_tests_cant": "unbounded sizes; reallocation while holding the position", "anchors": ["include/boost/poly_collection/detail/poly_collection.hpp: emplace_pos, insert(local_iterator_impl,T&&)", "include/boost/poly_collection/detail/packed_segment.hpp: nv_emplace, nv_insert", "include/boost/poly_collection/detail/split_segment.hpp: nv_emplace, nv_insert, prereserve, iterator_from"]}
{"id": "C11", "title": "Range insertion equals inserting the elements one by one", "statement": "insert(first,last) has the same effect on the contents as inserting the elements of the range one by one in order, on both the terminal fast path and the general path.", "quantifier": "all ranges, all collections", "why_tests_cant": "range length and type mix unbounded; two code paths must agree", "anchors": ["include/boost/poly_collection/detail/poly_collection.hpp: insert(InputIterator,InputIterator)", "include/boost/poly_collection/detail/split_segment.hpp: insert forward/input", "include/boost/poly_collection/detail/packed_segment.hpp: nv_insert range"]}
{"id": "C12", "title": "Hinted range insertion keeps order immediately before the hint", "statement": "insert(hint,first,last) inserts the elements whose type is that of the hint's segment contiguously, in range order, immediately before the element hint pointed to, and appends the others to their own segments in range order.", "quantifier": "all collections, hints and ranges mixing any types", "why_tests_cant": "the hint is re-derived after every insertion, possibly across reallocations", "anchors": ["include/boost/poly_collection/detail/poly_collection.hpp: insert(const_iterator,InputIterator,InputIterator)"]}
{"id": "C13", "title": "Insertion from another collection needs no prior registration", "statement": "insert(first,last) with iterators of another collection of the same kind never throws unregistered_type, registers the missing types, and appends to each segment the source elements of that type in source order; the source is unchanged.", "quantifier": "all pairs of reachable collections, all sub-ranges", "why_tests_cant": "a unit test fixes one history of operations; the statement is about every reachable state", "anchors": ["include/boost/poly_collection/detail/poly_collection.hpp: insert(iterator_impl,iterator_impl), get_map_iterator_for(x,seg)", "include/boost/poly_collection/detail/segment.hpp: make_from_prototype"]}
{"id": "C14", "title": "Local range insertion returns the first inserted element", "statement": "insert(local_it,first,last) inserts the range contiguously at that index in order and returns a local iterator to the index of the first inserted element (or to the position itself for an empty range), whatever reallocations happen meanwhile.", "quantifier": "all segments, indices, ranges", "why_tests_cant": "reallocation in the middle of the loop", "anchors": ["include/boost/poly_collection/detail/poly_collection.hpp: insert(const_local_base_iterator,...), insert(const_local_iterator<T>,...)"]}
{"id": "C15", "title": "erase(pos) removes exactly that element", "statement": "erase(pos) removes exactly the element denoted by pos, keeps the order of all other elements and all other segments, and returns an iterator to the element that followed it in traversal order (end() if none).", "quantifier": "all reachable collections, all valid positions", "why_tests_cant": "position relative to segment ends and empty segments", "anchors": ["include/boost/poly_collection/detail/poly_collection.hpp: erase(const_iterator), erase(local)", "include/boost/poly_collection/detail/split_segment.hpp: nv_erase", "include/boost/poly_collection/detail/packed_segment.hpp: nv_erase"]}
{"id": "C16", "title": "erase(first,last) removes exactly the range", "statement": "erase(first,last) removes exactly the elements of [first,last), which may span any number of segments, keeps everything else in order, and returns an iterator to the element that followed the range (end() if none).", "quantifier": "all reachable collections, all valid ranges within one segment or spanning several", "why_tests_cant": "all span shapes: first/middle/last segments, empty segments, empty ranges", "anchors": ["include/boost/poly_collection/detail/poly_collection.hpp: erase(const_iterator,const_iterator)", "include/boost/poly_collection/detail/packed_segment.hpp: erase_till_end, erase_from_begin", "include/boost/poly_collection/detail/split_segment.hpp: erase_till_end, erase_from_begin"]}
{"id": "C17", "title": "clear empties without unregistering", "statement": "clear() leaves every type registered with an empty segment; clear(T) empties exactly the segment of T; capacities are kept.", "quantifier": "all reachable collections", "why_tests_cant": "a unit test fixes one history of operations; the statement is about every reachable state", "anchors": ["include/boost/poly_collection/detail/poly_collection.hpp: clear"]}
{"id": "C18", "title": "Equality means equal non-empty segments", "statement": "x==y returns true iff for every type the sequences of elements of x and y for that type have the same length and pairwise equal elements (an unregistered type counts as empty); the answer does not depend on segment order nor on registration of empty segments; it is reflexive/symmetric/transitive when the element comparisons are. It compares elements only in pairs of segments of the same type and size, each element at most once, and each exactly once when the answer is true.", "quantifier": "all pairs (triples) of reachable collections", "why_tests_cant": "unbounded segments and all orders of segments", "anchors": ["include/boost/poly_collection/detail/poly_collection.hpp: operator==", "include/boost/poly_collection/detail/segment.hpp: operator=="]}
{"id": "C19", "title": "not_equality_comparable is thrown only when such elements must be compared", "statement": "x==y throws not_equality_comparable(T) only if T is not equality comparable and both collections hold the same non-zero number of T elements; if all stored types are comparable (and comparison does not throw) it never throws.", "quantifier": "all pairs of reachable collections", "why_tests_cant": "a unit test fixes one history of operations; the statement is about every reachable state", "anchors": ["include/boost/poly_collection/detail/value_holder.hpp: equal", "include/boost/poly_collection/detail/poly_collection.hpp: operator=="]}
{"id": "C20", "title": "Copies are equal and independent", "statement": "Copy construction (with or without allocator) and copy assignment give a collection with the same registered types and the same contents per type; the source is unchanged; afterwards no operation on one can affect contents, iterators or element addresses of the other.", "quantifier": "all reachable collections and all later histories", "why_tests_cant": "a unit test fixes one history of operations; the statement is about every reachable state", "anchors": ["include/boost/poly_collection/detail/type_info_map.hpp: copy ctor, operator=", "include/boost/poly_collection/detail/segment.hpp: copy ctor", "include/boost/poly_collection/detail/packed_segment.hpp: copy", "include/boost/poly_collection/detail/split_segment.hpp: copy"]}
{"id": "C21", "title": "not_copy_constructible is thrown exactly when needed", "statement": "Copying a collection throws not_copy_constructible(T) only if it holds at least one element of a non-copy-constructible type T, and in the absence of other exceptions it does throw in that case; empty segments of such types are copied without error. The source is unchanged.", "quantifier": "all reachable collections", "why_tests_cant": "a unit test fixes one history of operations; the statement is about every reachable state", "anchors": ["include/boost/poly_collection/detail/value_holder.hpp: copy", "include/boost/poly_collection/detail/type_info_map.hpp: copy ctor"]}
{"id": "C22", "title": "Move and swap transfer contents without touching elements", "statement": "Move construction, move assignment (same allocator) and swap transfer the contents: types, sequences, element addresses and previously obtained iterators are preserved for the new owner, no element is copied, moved or allocated, and a moved-from collection is empty with no registered types.", "quantifier": "all reachable collections", "why_tests_cant": "a unit test fixes one history of operations; the statement is about every reachable state", "anchors": ["include/boost/poly_collection/detail/poly_collection.hpp: move ctor, operator=, swap", "include/boost/poly_collection/detail/type_info_map.hpp: move ctor, operator=, swap", "include/boost/poly_collection/detail/segment.hpp: segment(segment&&)"]}
{"id": "C23", "title": "Allocator-extended move and non-propagating move assignment", "statement": "Allocator-extended move construction and move assignment give the destination the same types and contents whether or not the allocators are equal; elements are moved (never copied); the source ends up empty and the destination's later lookups are correct.", "quantifier": "all reachable collections, all allocators, all propagation traits", "why_tests_cant": "needs stateful unequal allocators and all lookup histories", "anchors": ["include/boost/poly_collection/detail/type_info_map.hpp: type_info_map(type_info_map&&,const allocator_type&), operator=(type_info_map&&)", "include/boost/poly_collection/detail/segment.hpp: segment(segment&&,al)", "include/boost/poly_collection/detail/split_segment.hpp: move"]}
{"id": "C24", "title": "Assignment: self-assignment and failure", "statement": "Self copy/move assignment changes nothing. If copy assignment throws, the target is left valid and empty (no registered types) and the source unchanged.", "quantifier": "all reachable collections and all points at which copying may throw", "why_tests_cant": "all crash points", "anchors": ["include/boost/poly_collection/detail/type_info_map.hpp: operator="]}
{"id": "C25", "title": "reserve and capacity", "statement": "After a successful reserve(n)/reserve(info,n)/reserve<T>(n) the capacity of the affected segments is at least n, capacities never decrease, and contents are unchanged; insertions into a segment whose size stays within capacity allocate no element storage and keep the addresses of its elements.", "quantifier": "all reachable collections, all n", "why_tests_cant": "a unit test fixes one history of operations; the statement is about every reachable state", "anchors": ["include/boost/poly_collection/detail/poly_collection.hpp: reserve, capacity", "include/boost/poly_collection/detail/split_segment.hpp: nv_reserve", "include/boost/poly_collection/detail/packed_segment.hpp: nv_reserve"]}
{"id": "C26", "title": "shrink_to_fit preserves contents", "statement": "shrink_to_fit (global or per type) preserves the sequence of elements, size and all registered types, does not increase capacity beyond max(1,capacity), and leaves a collection on which every other guarantee still holds, even if it throws.", "quantifier": "all reachable collections and all throw points", "why_tests_cant": "a unit test fixes one history of operations; the statement is about every reachable state", "anchors": ["include/boost/poly_collection/detail/split_segment.hpp: nv_shrink_to_fit", "include/boost/poly_collection/detail/packed_segment.hpp: nv_shrink_to_fit"]}
{"id": "C27", "title": "Iterator and reference stability on insertion and erasure", "statement": "An insertion into a segment that does not exceed its capacity keeps every iterator and element address before the insertion point; erasure keeps those before the erased position; end() is never invalidated.", "quantifier": "all reachable collections, all live iterators, all operations", "why_tests_cant": "all live iterators at all positions", "anchors": ["include/boost/poly_collection/detail/split_segment.hpp: nv_insert, nv_erase", "include/boost/poly_collection/detail/packed_segment.hpp: nv_insert, nv_erase", "doc/reference.qbk 134-139"]}
{"id": "C28", "title": "Operations on one segment do not disturb the others", "statement": "An operation affecting the segment of one type leaves the contents, capacities, element addresses and iterators of all other segments untouched, even if the operation throws or reallocates.", "quantifier": "all reachable collections and operations, all crash points", "why_tests_cant": "all pairs of segments, all crash points", "anchors": ["include/boost/poly_collection/detail/poly_collection.hpp", "include/boost/poly_collection/detail/segment.hpp"]}
{"id": "C29", "title": "Conversions between local_base_iterator and local_iterator<T>", "statement": "In every reachable state, for every index 0..size of a segment for T (end included), converting the local_base_iterator to local_iterator<T> and back is the identity, both denote the same index, and dereferencing them gives the same element. (In any_collection and function_collection, for element types not derived from the value type: for others see C87.)", "quantifier": "all reachable states, all indices including end", "why_tests_cant": "depends on an index array kept in sync across every operation", "anchors": ["include/boost/poly_collection/detail/split_segment.hpp: build_index, push_index_entry, pop_index_entry, iterator_from", "include/boost/poly_collection/detail/iterator_impl.hpp: local_iterator_impl"]}
{"id": "C30", "title": "Segment growth is geometric and never overflows", "statement": "When an any_collection/function_collection segment must grow, the new capacity is larger than the size, at most max_size, and grows by half once size>=2 and there is room, so that n consecutive insertions relocate O(n) elements in total.", "quantifier": "all sizes and all n", "why_tests_cant": "asymptotic statement over all n", "anchors": ["include/boost/poly_collection/detail/split_segment.hpp: expand, prereserve"]}
{"id": "C31", "title": "Single-element insertion has the strong guarantee (base_collection)", "statement": "If insert(x)/emplace at the end of a base_collection segment throws (allocation failure, throwing constructor, not_copy_constructible), contents, sizes, iterators and traversal of the collection are exactly as before, except that the type may have become registered.", "quantifier": "all reachable collections and all throw points", "why_tests_cant": "all crash points", "anchors": ["include/boost/poly_collection/detail/packed_segment.hpp: nv_push_back, nv_emplace_back", "include/boost/poly_collection/detail/segment.hpp: filter"]}
{"id": "C32", "title": "Insertion that throws leaves any_collection/function_collection valid", "statement": "If inserting one element into an any_collection/function_collection throws, the collection is left in a valid state: traversal from begin() terminates at end() and visits size() elements.", "quantifier": "all reachable collections and all throw points", "why_tests_cant": "all crash points", "anchors": ["include/boost/poly_collection/detail/split_segment.hpp: nv_push_back, expand", "include/boost/poly_collection/detail/segment.hpp: filter, sentinel"]}
{"id": "C33", "title": "Erasure that throws leaves the collection valid", "statement": "If erase throws because a move assignment throws, the collection remains traversable and its later insertions work.", "quantifier": "all reachable collections and all throw points", "why_tests_cant": "all crash points", "anchors": ["include/boost/poly_collection/detail/split_segment.hpp: nv_erase", "include/boost/poly_collection/detail/packed_segment.hpp: nv_erase"]}
{"id": "C34", "title": "Range insertion that throws leaves the collection valid", "statement": "If a range insertion throws midway, the collection remains valid: size() agrees with traversal and every later operation behaves as specified.", "quantifier": "all reachable collections, ranges, throw points", "why_tests_cant": "all crash points", "anchors": ["include/boost/poly_collection/detail/split_segment.hpp: insert forward", "include/boost/poly_collection/detail/packed_segment.hpp: nv_insert", "include/boost/poly_collection/detail/segment.hpp: filter"]}
{"id": "C35", "title": "Inserting an element of the collection into itself", "statement": "c.insert(*it) and c.insert(std::move(*it)) (copying or moving an element already stored in c) work like inserting an independent copy, whether or not the segment has to grow; the element moved from stays where it is, with a value of its class's choosing.", "quantifier": "all reachable collections, all elements, all capacities", "why_tests_cant": "full versus spare capacity, every position", "anchors": ["include/boost/poly_collection/detail/split_segment.hpp: nv_push_back, prereserve", "include/boost/poly_collection/detail/packed_segment.hpp: nv_push_back"]}
{"id": "C36", "title": "Non-copyable and non-assignable types are usable", "statement": "Elements whose type is not copyable, or not move assignable but nothrow move constructible, can be inserted by move, erased and traversed without exceptions attributable to those properties.", "quantifier": "all such types, all histories", "why_tests_cant": "type-trait combinations times histories", "anchors": ["include/boost/poly_collection/detail/value_holder.hpp: copy, move_assign", "doc/reference.qbk 104-105"]}
{"id": "C37", "title": "for_each and for_each_n", "statement": "poly_collection::for_each(first,last,f) applies f to exactly the elements of [first,last) in traversal order, each once, and for_each_n to the first n, returning the iterator after them; the function object's effects accumulate as with the std algorithms.", "quantifier": "all collections, ranges, function objects with arbitrary state, restitution lists", "why_tests_cant": "all ranges over any number of segments", "anchors": ["include/boost/poly_collection/algorithm.hpp: for_each, for_each_n", "include/boost/poly_collection/detail/segment_split.hpp: for_each_segment, segment_splitter"]}
{"id": "C38", "title": "all_of, any_of, none_of, count, count_if", "statement": "These return what the std algorithm returns on the flattened range and apply the predicate to the same elements in the same order.", "quantifier": "all collections, ranges, predicates (with external state), restitution lists", "why_tests_cant": "all ranges", "anchors": ["include/boost/poly_collection/algorithm.hpp: all_of, any_of, none_of, generic_count"]}
{"id": "C39", "title": "find family", "statement": "find, find_if, find_if_not and find_first_of return an iterator to the first matching element of the flattened range (last if none) and call the predicate on the same elements in the same order as the std algorithm.", "quantifier": "all collections, ranges, predicates, restitution lists", "why_tests_cant": "match position relative to segments", "anchors": ["include/boost/poly_collection/algorithm.hpp: generic_find, find, find_if, find_if_not, find_first_of"]}
{"id": "C40", "title": "adjacent_find", "statement": "adjacent_find returns an iterator to the first element of the first adjacent pair (in traversal order, also across segment boundaries) satisfying the predicate, last if none.", "quantifier": "all collections, ranges, predicates", "why_tests_cant": "pairs straddling any number of empty segments", "anchors": ["include/boost/poly_collection/algorithm.hpp: adjacent_find_alg, adjacent_find, generic_find"]}
{"id": "C41", "title": "mismatch and equal", "statement": "mismatch/equal against an external range (3- and 4-iterator forms) return what the std algorithms return on the flattened range, also when either range is shorter.", "quantifier": "all collections, ranges, second ranges, predicates", "why_tests_cant": "lengths relative to segment boundaries", "anchors": ["include/boost/poly_collection/algorithm.hpp: mismatch_alg, mismatch, equal_alg, equal, fast_distance"]}
{"id": "C42", "title": "is_permutation", "statement": "is_permutation returns true iff the flattened range is a permutation of the second range under the given equivalence.", "quantifier": "all collections, ranges, second ranges, equivalence predicates", "why_tests_cant": "all permutations", "anchors": ["include/boost/poly_collection/algorithm.hpp: is_permutation, is_permutation_suffix"]}
{"id": "C43", "title": "search, find_end, search_n", "statement": "search/find_end/search_n return an iterator to the first/last/first occurrence of the pattern (run of n equal elements) in the flattened range, also when it straddles segments, last if none.", "quantifier": "all collections, ranges, patterns, predicates", "why_tests_cant": "straddling of segment boundaries", "anchors": ["include/boost/poly_collection/algorithm.hpp: search, find_end, search_n_alg, search_n"]}
{"id": "C44", "title": "Copying algorithms", "statement": "copy, copy_n, copy_if, move, transform (unary/binary), replace_copy(_if), remove_copy(_if), unique_copy, rotate_copy and partition_copy write the same output sequence as the std algorithm on the flattened range.", "quantifier": "all collections, ranges, predicates, operations", "why_tests_cant": "outputs over any number of segments", "anchors": ["include/boost/poly_collection/algorithm.hpp: generic_copy, copy_n, transform2_alg, unique_copy_alg, rotate_copy, partition_copy"]}
{"id": "C45", "title": "sample", "statement": "sample writes min(n,distance) elements forming an order-preserving selection of distinct elements of the range, whatever numbers the generator yields; it can produce every such selection, and all of them are equally likely if the numbers drawn are uniformly distributed.", "quantifier": "all collections, ranges, n, generator outputs", "why_tests_cant": "all generator outputs", "anchors": ["include/boost/poly_collection/algorithm.hpp: sample_alg, sample"]}
{"id": "C46", "title": "is_partitioned and partition_point", "statement": "is_partitioned holds iff no element satisfying the predicate follows one that does not; partition_point returns the first element not satisfying the predicate on a partitioned range.", "quantifier": "all collections, ranges, predicates", "why_tests_cant": "all ranges", "anchors": ["include/boost/poly_collection/algorithm.hpp: is_partitioned, partition_point"]}
{"id": "C47", "title": "Type restitution", "statement": "When an algorithm is called with a restitution list Ts, the function objects receive an element of dynamic type T through T& if T is in Ts and through value_type& otherwise; results do not depend on Ts as long as the function objects do not distinguish the two.", "quantifier": "all algorithms, collections, lists Ts", "why_tests_cant": "all lists and segment arrangements", "anchors": ["include/boost/poly_collection/detail/type_restitution.hpp: restitute_range, restitute_iterator", "include/boost/poly_collection/algorithm.hpp: adjacent_find_alg, unique_copy_alg"]}
{"id": "C48", "title": "Segment splitting partitions the range", "statement": "Decomposing [first,last) into per-segment local ranges yields ranges whose concatenation is exactly [first,last), in order, with each local range inside one segment and its type_info that of the elements.", "quantifier": "all collections, all valid ranges", "why_tests_cant": "first/last segments coincide or not, empties, end()", "anchors": ["include/boost/poly_collection/detail/segment_split.hpp: segment_splitter, for_each_segment"]}
{"id": "C49", "title": "Random access laws of local iterators", "statement": "local_base_iterator arithmetic over a segment (+, -, difference, comparison) obeys the random access iterator laws and agrees with element indices, for any element size.", "quantifier": "all element sizes, all indices, all offsets", "why_tests_cant": "all strides", "anchors": ["include/boost/poly_collection/detail/stride_iterator.hpp: increment, decrement, advance, distance_to", "include/boost/poly_collection/detail/packed_segment.hpp: nv_begin, nv_end"]}
{"id": "C50", "title": "Callable wrappers of function_collection", "statement": "An element of a function_collection calls the stored object with the given arguments, reports target_type() equal to its dynamic type and target<U>() non-null iff U is that type, for any reallocation or erasure history of the segment.", "quantifier": "all histories, all indices", "why_tests_cant": "a unit test fixes one history of operations; the statement is about every reachable state", "anchors": ["include/boost/poly_collection/detail/callable_wrapper.hpp", "include/boost/poly_collection/detail/function_model.hpp: make_value_type"]}
{"id": "C51", "title": "Allocator propagation", "statement": "get_allocator() after copy/move construction and assignment follows select_on_container_copy_construction and the propagate traits, and every segment of a collection uses the collection's allocator.", "quantifier": "all collections, allocators, traits", "why_tests_cant": "trait combinations times histories", "anchors": ["include/boost/poly_collection/detail/poly_collection.hpp: get_allocator", "include/boost/poly_collection/detail/segment.hpp: operator=", "include/boost/poly_collection/detail/type_info_map.hpp: operator="]}
{"id": "C52", "title": "Elements are constructed and destroyed exactly once", "statement": "At any point, for every segment, the number of element constructions minus destructions equals size(), and destroying or clearing a collection destroys exactly the live elements, also when operations throw.", "quantifier": "all histories and throw points", "why_tests_cant": "leak freedom over all crash points", "anchors": ["include/boost/poly_collection/detail/value_holder.hpp", "include/boost/poly_collection/detail/packed_segment.hpp: new_, delete_", "include/boost/poly_collection/detail/split_segment.hpp: new_, delete_", "include/boost/poly_collection/detail/allocator_adaptor.hpp: construct, destroy"]}
{"id": "C53", "title": "Segment order is stable until a new segment is created", "statement": "The relative order in which segments are traversed does not change under any operation that does not create a segment.", "quantifier": "all histories", "why_tests_cant": "a unit test fixes one history of operations; the statement is about every reachable state", "anchors": ["include/boost/poly_collection/detail/poly_collection.hpp", "doc/reference.qbk 117-119"]}
{"id": "C54", "title": "Iterators survive the creation of new segments", "statement": "Inserting an element of a new type (which may rehash the internal map) leaves previously obtained iterators usable as positions and hints.", "quantifier": "all reachable collections, all rehash schedules", "why_tests_cant": "rehash schedules", "anchors": ["include/boost/poly_collection/detail/poly_collection.hpp: insert(const_iterator hint,...)", "include/boost/poly_collection/detail/type_info_map.hpp: insert", "doc/reference.qbk 134-139"]}
{"id": "C55", "title": "A failing reserve does no harm", "statement": "If reserve throws (bad_alloc, length_error, a throwing element move), the contents are as before and the collection is still traversable and usable.", "quantifier": "all reachable collections, all n, all throw points", "why_tests_cant": "all throw points of all histories", "anchors": ["include/boost/poly_collection/detail/split_segment.hpp: nv_reserve", "include/boost/poly_collection/detail/packed_segment.hpp: nv_reserve", "include/boost/poly_collection/detail/segment.hpp: reserve", "doc/reference.qbk 498-517"]}
{"id": "C56", "title": "max_size bounds sizes and reserve", "statement": "No segment holds more than max_size() elements, and reserve(n) throws length_error exactly when n exceeds max_size(). Likewise any other call that would make a segment longer than it can be throws, and throws length_error if nothing else fails.", "quantifier": "all reachable collections, all n, all element types", "why_tests_cant": "limits of this size cannot be reached by running code", "anchors": ["include/boost/poly_collection/detail/split_segment.hpp: nv_max_size, nv_reserve, expand", "include/boost/poly_collection/detail/packed_segment.hpp: nv_max_size, nv_reserve", "include/boost/poly_collection/detail/poly_collection.hpp: max_size, reserve"]}
{"id": "C57", "title": "for_each, for_each_n and move modify exactly the elements of the range", "statement": "When for_each, for_each_n or move are run with a function (or output iterator) that modifies the elements it is passed, with or without type restitution, each element of the range is visited once and in order with its current value and is left as that visit leaves it; no other element, segment, address, capacity or iterator changes. If a visit throws, the elements before it and the one visited keep what the visits did to them and the rest are untouched.", "quantifier": "all reachable collections, ranges, restituted type lists and (stateful, throwing) function objects", "why_tests_cant": "ranges over all contents, segment layouts, functions and throw points", "anchors": ["include/boost/poly_collection/algorithm.hpp: for_each, for_each_n, move, generic_copy", "include/boost/poly_collection/detail/segment_split.hpp: for_each_segment", "include/boost/poly_collection/detail/type_restitution.hpp"]}
{"id": "C58", "title": "What collections contain is determined by the history of calls", "statement": "After any sequence of calls on any number of collections (construction, copying, moving, registration, insertions of all kinds, erasures, clear, reserve, shrink_to_fit, writing through iterators, assignment, swap, destruction, calls that throw) every collection still in use holds, for each type, exactly the sequence of values computed by applying the calls to plain per-type sequences; in particular the segment layout, hashing and rehashing, growth policy, capacities and allocators have no influence on it. A call that throws where the collection stays in order (C31, C33) has carried out a first part of itself and the history continues from there; after any other exception the history continues once the collection has been cleared, which always succeeds. No such call has undefined behaviour, and every call the per-type sequences admit can be made.", "quantifier": "all histories over all collections, all points at which calls throw, all layouts, hash functions, rehash schedules, growth policies and allocators", "why_tests_cant": "a test runs one history on one platform; this is about all histories and all platforms", "anchors": ["include/boost/poly_collection/detail/poly_collection.hpp: all modifiers", "include/boost/poly_collection/detail/segment.hpp", "include/boost/poly_collection/detail/packed_segment.hpp", "include/boost/poly_collection/detail/split_segment.hpp", "include/boost/poly_collection/detail/type_info_map.hpp"]}
{"id": "C59", "title": "Exceptions have documented causes", "statement": "Every member function that throws does so for one of these reasons: an allocation, or a constructor, assignment or comparison of the element type, failed during the call; the call needs a type which is not registered and cannot register it (unregistered_type with that type); an element that has to be copied is not copy constructible (not_copy_constructible with its type); a size limit is exceeded (length_error). An exception of an element is only seen if the call constructs or compares an element, or moves or assigns one whose type may throw when doing so; registering types only ever runs out of memory or exceeds a size limit. A program without such failures, with registered copyable types and below the limits, sees no exception. clear, move construction, swap and destruction never throw.", "quantifier": "all reachable collections, all member functions and arguments, all schedules of failing allocations and element functions", "why_tests_cant": "the absence of spurious exceptions is a statement about every state and every call", "anchors": ["include/boost/poly_collection/detail/poly_collection.hpp: all modifiers", "include/boost/poly_collection/exception.hpp", "include/boost/poly_collection/detail/value_holder.hpp"]}
{"id": "C60", "title": "Segment descriptors and segment traversal", "statement": "segment_traversal() yields exactly one descriptor per registered type, in segment order; each tells the type_info of its type and its begin()/end() (base and begin<T>()/end<T>()) delimit exactly the elements of that type, so that nested loops over segments and their elements visit what a loop over the collection does. segment(info) returns that descriptor or throws unregistered_type. A descriptor obtained before a call keeps describing the segment of its type, as it is afterwards, unless the call creates segments and that invalidates map iterators.", "quantifier": "all reachable collections, types, member function calls and exceptions", "why_tests_cant": "descriptors hold map iterators that must stay meaningful through any history of reallocations, rehashes and failures", "anchors": ["detail/poly_collection.hpp: const_base_segment_info, base_segment_info, const_segment_info, segment_info, segment_info_iterator_impl, segment_traversal_info, segment, segment_traversal"]}
{"id": "C61", "title": "Memory never changes hands between unequal allocators", "statement": "At any time the memory in use is exactly that held by the collections of the program, and no two of them share any. After any operation, each piece of memory held by a collection was allocated by that operation or was held before by a collection with an equal allocator; so over any history no memory obtained from one allocator is ever held, and thus released, by a collection with another one. In particular a move construction or move assignment between collections whose allocators differ (and do not propagate) takes none of the memory of the source.", "quantifier": "all reachable sets of collections, all operations including those that throw, all allocators and propagation traits, all schedules of failures", "why_tests_cant": "releasing memory through the wrong allocator is undefined behaviour which usually goes unnoticed, and it depends on the history of moves, swaps and assignments", "anchors": ["detail/type_info_map.hpp: type_info_map(type_info_map&&,const Allocator&), operator=(type_info_map&&), operator=(const type_info_map&), swap", "detail/segment.hpp: segment(segment&&,const allocator_type&)", "detail/packed_segment.hpp: move(const segment_allocator_type&)", "detail/split_segment.hpp: move(const segment_allocator_type&)"]}
{"id": "C62", "title": "Elements are constructed and destroyed through the collection's allocator, and nothing else is", "statement": "Each element stored in a collection is constructed by the construct function of the collection's allocator and destroyed by its destroy function (reference, container requirements), exactly once each; these functions are called for stored elements only, never for index entries, map nodes or other internal objects, which get the allocator through uses-allocator construction instead. This holds whatever a standard container does with its storage, including when constructors and assignments throw.", "quantifier": "all element types, all sequences of the construct, destroy, assign, compare and local-object operations of a container, each possibly throwing, all cells of its storage", "why_tests_cant": "which functions construct an element depends on the type traits and on the path taken by the container; an element made behind the allocator's back works until the allocator keeps accounts", "anchors": ["detail/allocator_adaptor.hpp: construct, construct_, transform_tuple, destroy, uses_alloc_ctor", "detail/value_holder.hpp: value_holder constructors, copy, move_assign"]}
{"id": "C63", "title": "Elements which cannot be assigned are stored, shifted and relocated like others", "statement": "A type is accepted if it implements the interface, is move constructible, and is move assignable or nothrow move constructible. For every accepted type, erasing elements, inserting one or a range in the middle and changing storage leave exactly the expected values in the expected order, with no object destroyed twice, constructed over another or left behind; assignment is emulated when the type has none, never throws then, and leaves an element assigned to itself alone. If an operation of the type throws, every position still holds an object and nothing outside the segment has changed; relocation that throws changes nothing.", "quantifier": "all accepted element types, sizes, positions, ranges, sources (including elements of the segment itself for single insertion) and points of failure", "why_tests_cant": "the loops run over any number of elements, with overlapping source and target, and may be interrupted at each step", "anchors": ["detail/value_holder.hpp: operator=(value_holder&&), move_assign", "detail/is_acceptable.hpp: is_acceptable", "detail/packed_segment.hpp: nv_emplace, nv_insert, nv_erase", "detail/split_segment.hpp: nv_emplace, nv_insert, nv_erase"]}
{"id": "C64", "title": "Documented complexity of insertion, erasure, clear and reserve, and of copying, moving and destroying", "statement": "Counting constructions, assignments and destructions of elements (and of the entries of internal indices): emplace and insert cost a constant plus the distance from the position to the end of the segment if the segment has room, and at most linear in the size of that segment otherwise, so that any number n of consecutive emplacements of a type costs O(n) plus O(elements already there) (for base_collection, if std::vector grows by a third at least); any sequence of n successful insertions (with or without hints, of any types), erasures and clears, far from the largest size, costs in total O(n) plus the sum of the distances to the end of the segments and of the erased elements plus O(elements already there), and so does the insertion of a range of values or of elements of another collection, with or without a hint or at a position of a segment (each element inserted at the position is charged the distance from it to the end of the segment), also if it throws; inserting at once a range of m elements whose static type is the type stored, given by forward iterators, costs O(m) plus the distance from the position to the end of the segment if the segment has room for them and O(m) plus O(size of the segment) if not, whatever the growth policy; successful construction from a range is linear in its length; erase of a position or range is linear in the number of elements erased plus the distance from the end of the range to the end of its segment, even over several segments; clear is linear in the number of elements; reserve is constant for a segment whose capacity suffices and linear in its size otherwise; shrink_to_fit is linear. Copy construction and copy assignment are linear in the elements copied and destroyed plus a constant per registered type (for any_collection and function_collection, if std::vector grows by a third at least), the destructor is linear, move construction, swap, and move assignment with equal or propagated allocators perform no operation on the elements moved or swapped (move assignment destroys the old ones), and moving to another allocator is linear. The bounds hold also when the call throws, and no other segment is charged.", "quantifier": "all reachable collections, layouts, types, positions, ranges, sizes and points of failure", "why_tests_cant": "a bound on the cost must hold for all sizes and all histories of capacities, and the amortised bound for all sequences of calls; a test measures a few sizes", "anchors": ["doc/reference.qbk: complexity clauses of reserve, emplace, emplace_hint, insert, erase, clear", "poly_collection.hpp: emplace, emplace_hint, emplace_pos, insert, erase, clear, reserve, shrink_to_fit", "detail/split_segment.hpp: expand, reserve, rebuild_index, nv_erase", "detail/packed_segment.hpp: nv_emplace, nv_erase", "detail/segment.hpp: copy and move constructors", "detail/type_info_map.hpp: copy, move and assignment"]}
{"id": "C65", "title": "Recovering from an exception", "statement": "Whatever member function threw, and whatever it left (elements counted but not traversed, stale end positions), clear() then has defined behaviour, does not throw and leaves a collection in full working order, with no elements, unchanged capacities, and the types registered before the failed call, plus at most some of those the call would have registered. It is even enough to clear(info) the types concerned: the types of the elements a failed insertion was to insert, or the type of a failed erase or reserve; the segments of all other types then still are what they were before the failed call. Copying the collection instead has defined behaviour too: the copy is in working order and holds, type by type, exactly the elements the segments hold (after a failed reserve, those from before the call), or copying throws for its usual reasons and nothing else changes. The program can go on using the result like any other collection.", "quantifier": "all reachable collections, member functions and arguments, points of failure and later uses", "why_tests_cant": "requires the internal state to be repairable after a failure at every point of every call from every history", "anchors": ["poly_collection.hpp: clear, copy constructor", "detail/segment.hpp: clear, filter", "detail/split_segment.hpp: clear, nv_clear, build_index", "doc/reference.qbk: clear"]}
{"id": "C66", "title": "Reading has no side effects and readers do not disturb each other", "statement": "The queries of a collection (is_registered, size, empty, max_size, capacity, begin, end, segment, segment_traversal, dereferencing, advancing and converting iterators) leave the collection and everything else exactly as it was, and do not allocate or call element operations; with valid iterators each has defined behaviour and throws nothing but unregistered_type. So any number of threads which only read get, in every interleaving, the answers each of them would get alone, and these are the right answers for the elements there are, and one which iterates meets every element once, in order.", "quantifier": "all reachable collections, all queries, all numbers of reading programs (which may choose their next query by the answers so far), all schedules", "why_tests_cant": "all interleavings of all reading programs on all histories", "anchors": ["poly_collection.hpp: is_registered, begin, end, segment, segment_traversal, empty, size, max_size, capacity", "detail/type_info_map.hpp: find (const), end", "detail/iterator_impl.hpp: iterator_impl, local_iterator_impl", "detail/segment.hpp: begin, end, sentinel"]}
{"id": "C67", "title": "What is inserted is the object meant, complete and under its own type", "statement": "insert takes expressions of many static types. In a base_collection a reference to a base class stands for the complete object, wherever in it the base is; in an any_collection an any that knows the type of its content stands for the content, in a function_collection a function wrapper for its target; anything else stands for itself. What insert (plain, with hint, at a local iterator, or of a range) adds is an element of the type of that object with its value, never a slice or a wrapper, and the address and type used to read it are always those of that object. Lvalues and const rvalues are copied, other rvalues moved from. If the type is not registered and the static type does not allow to create a segment for it, unregistered_type of the dynamic type is thrown and nothing changes; an empty any is rejected so. A range inserted at a local_iterator<T> takes objects of type T as they are and converts everything else. insert is available exactly for the documented static types.", "quantifier": "all class hierarchies, static types and value categories, all objects in memory, all reachable collections of the three kinds", "why_tests_cant": "all hierarchies and layouts, static and dynamic types and histories", "anchors": ["detail/base_model.hpp: is_terminal, subtypeid, subaddress", "detail/any_model.hpp: is_terminal, is_acceptable, subtypeid, subaddress", "detail/function_model.hpp: is_terminal, subtypeid, subaddress", "detail/is_acceptable.hpp", "poly_collection.hpp: insert, get_map_iterator_for, push_back, local_insert", "detail/segment.hpp: push_back, insert", "detail/packed_segment.hpp: push_back, push_back_move, insert, insert_move", "detail/split_segment.hpp: push_back, push_back_move, insert, insert_move", "doc/reference.qbk: insert"]}
{"id": "C68", "title": "What cannot be copied is not inserted by copy", "statement": "Every insertion that would have to copy an element whose type is not copy constructible (insertion of an lvalue or const rvalue, ranges, ranges from other collections) throws; it never returns as if it had succeeded, e.g. by moving from the source. If nothing else goes wrong (no failure of memory or of element operations, all types registered, no size limit exceeded) the exception is not_copy_constructible.", "quantifier": "all reachable collections, insertions, non-copyable types among the values, and points of failure", "why_tests_cant": "all histories, argument ranges and failures", "anchors": ["detail/value_holder.hpp: value_holder(allocator, const value_holder&), copy", "exception.hpp: not_copy_constructible", "poly_collection.hpp: insert", "detail/packed_segment.hpp: nv_push_back, nv_insert, range_insert", "detail/split_segment.hpp: nv_push_back, nv_insert, range_insert"]}
{"id": "C69", "title": "Threads working on separate collections do not affect each other", "statement": "If several threads make calls (insertions, erasures, clear, reserve, shrink_to_fit, copy assignment, swap, writing through iterators), each changing only collections of its own and reading only its own or ones nobody changes, then whatever the interleaving each thread leaves in its collections what it could have left there running alone, also when calls throw, and the shared ones stay as they were. As long as nothing throws, all interleavings are possible if one is, and end with the same elements in the same order in every segment, also under different allocators, growth policies, hash functions and segment layouts. Sharing a collection that one of them changes has no such guarantee.", "quantifier": "all histories before, numbers of threads and collections, programs of the threads, interleavings of their calls, and points of failure", "why_tests_cant": "all interleavings of all histories", "anchors": ["poly_collection.hpp: insert, emplace, erase, clear, reserve, shrink_to_fit, operator=, swap", "detail/type_info_map.hpp: type_info_map", "detail/segment.hpp: segment"]}
{"id": "C70", "title": "Algorithms act through the function objects only, on the elements of the ranges only, and no more often than the standard says", "statement": "An algorithm calls the predicate, function or output iterator it is given only with elements of its ranges, as often as the corresponding standard algorithm may: for_each, count, copy, transform, copy_if, remove_copy_if, replace_copy_if and partition_copy once per element, unique_copy once per element but the first, the searching ones up to the element found, find_first_of, search and find_end at most (length of one range) times (length of the other) times (for find_end the standard asks for less, m*(n-m+1)), mismatch and equal at most as often as the shorter range has elements, is_permutation a quadratic number of times and linear if the lengths differ, partition_point a logarithmic number, sample draws at most one number per element and writes exactly min(n,distance) of them. Writing algorithms write once for each step of the output iterator returned. It throws only what a function object has thrown, at once, and has undefined behaviour only if a function object has.", "quantifier": "all reachable collections, ranges, restituted types, and function objects with arbitrary state, results, effects and exceptions", "why_tests_cant": "all collections, ranges and behaviours of the function objects", "anchors": ["algorithm.hpp: for_each, for_each_n, all_of, any_of, none_of, find, find_if, find_if_not, find_first_of, adjacent_find, count, count_if, mismatch, equal, is_permutation, search, find_end, search_n, copy, copy_n, copy_if, transform, replace_copy_if, remove_copy_if, unique_copy, sample, partition_copy, is_partitioned, partition_point"]}
{"id": "C71", "title": "Loops which erase or transfer elements while they traverse treat every element exactly once", "statement": "The usual loop `for(it=c.begin();it!=c.end();) if(p(*it)) it=c.erase(it); else ++it;` ends, asks p about every element exactly once in traversal order, and leaves exactly the elements for which p is false, in their order; the same holds with local iterators within one segment, for the loop which takes out the first element until the collection is empty, and for the loop which inserts a copy of the element into another collection (which need not know its type) before erasing it: then every element is in the end in exactly one of the two. If one of the calls throws, all elements before the one concerned have been treated and none after it.", "quantifier": "all reachable collections (pairs of collections), predicates, and failures of any of the calls", "why_tests_cant": "all collections, all subsets of elements selected (including last elements of segments and whole segments) and all points of failure", "anchors": ["detail/poly_collection.hpp: erase(const_iterator), erase(local_base_iterator), insert(InputIterator,InputIterator), begin, end, empty", "detail/iterator_impl.hpp: iterator_impl::increment, iterator_impl::equal, iterator_impl::next_segment_position", "detail/segment.hpp: erase"]}
{"id": "C72", "title": "Function objects with a state of their own: for_each accumulates, the other algorithms start with a copy of the object for each type", "statement": "for_each and for_each_n call one and the same function object on all elements of the range, and for_each returns it with the state it has then. A function object which does not change when it is called gives, with every algorithm, what the std algorithm of the same name gives, whatever other state it reads or changes. An object which does change is copied for each run of elements of the same type: in each run the algorithm starts with the object as it was passed (all_of, any_of, none_of, count_if, find_if, find_if_not, find_first_of, mismatch, equal, search, find_end, copy_if, remove_copy_if, replace_copy_if, partition_copy, unique_copy, transform, is_partitioned, search_n, is_permutation, and adjacent_find unless, as in C40, storage of one segment of a base_collection begins where that of another ends); where adjacent_find and unique_copy compare elements across the boundary of two runs, that is done by a copy of its own; partition_point calls a new copy for each element it looks at. So in a range of elements of one type all objects give with the non-nested algorithms (all_of, any_of, none_of, count_if, the find functions, mismatch, adjacent_find, the copying algorithms and transform) what std gives, in other ranges those which change need not.", "quantifier": "all reachable collections, ranges, restituted types, function objects (states, transitions, effects, exceptions)", "why_tests_cant": "all function objects with all states, on all distributions of the elements over the types", "anchors": ["algorithm.hpp: all_of, any_of, none_of, for_each, for_each_alg, for_each_n, for_each_n_alg, generic_find, generic_count, generic_copy, mismatch, equal, adjacent_find_alg, is_permutation_suffix, search, find_end, search_n, unique_copy_alg, transform2_alg, replace_copy_if_alg, partition_copy, partition_point_pred", "detail/functional.hpp: tail_closure_class, head_closure_class, deref_to_class, deref_1st_to_class", "detail/type_restitution.hpp: restitute_range, restitute_iterator"]}
{"id": "C73", "title": "The order of calls about different types does not matter", "statement": "Two programs which make the same calls, but calls about different types or different collections in another order, end with collections that have the same types registered and the same elements in the same order within each type; if one order of the calls meets the preconditions so does the other. For one collection the elements of a type follow from what the calls say about that type alone, in the order of the calls: elements inserted one by one, by ranges of mixed types or of one type, in whatever interleaving with those of other types. Two collections built so compare equal with == both ways round, provided every element equals itself.", "quantifier": "all histories of calls, all exchanges of calls which do not use elements of the same type of the same collection, all layouts, hash functions and allocators", "why_tests_cant": "unbounded histories and all their interleavings", "anchors": ["detail/poly_collection.hpp: insert, emplace, erase, clear, register_types, reserve, operator=, swap, operator==, get_map_iterator_for", "detail/segment.hpp: insert, emplace, erase, operator=="]}
{"id": "C74", "title": "Changing a copy and swapping it in gives the strong guarantee for every change", "statement": "In `{Collection tmp{c,c.get_allocator()}; ...; c.swap(tmp);}` with any sequence of calls on tmp (insertions of all kinds, also of the elements of c itself, erasures, clear, reserve, registration), c holds afterwards what the calls lead to and keeps its allocator if nothing throws; if one of the calls or the copying throws, c is in all respects as before (elements, segments, storage, so that iterators and references stay valid), tmp is destroyed without leaving anything behind, and no other collection is affected. Neither swapping nor destroying tmp, in whatever state the exception left it, throws or is undefined.", "quantifier": "all reachable collections, sequences of calls meeting their preconditions, and points of failure, including those after which C32-C34 leave the modified collection out of order", "why_tests_cant": "all sequences of calls and all points at which any of them can throw", "anchors": ["detail/poly_collection.hpp: poly_collection(const poly_collection&,const allocator_type&), swap, ~poly_collection, all modifiers", "detail/segment.hpp: copy, ~segment"]}
{"id": "C75", "title": "Standard algorithms treat the local range of a type as an array", "statement": "An algorithm of the standard library run on [first,last), two local iterators of one segment of the same kind (e.g. std::sort(c.begin<T>(),c.end<T>())), returns or throws what it would on an array holding these elements, and leaves them with the values it would leave in the array, also if it throws on the way. The other elements of the segment, other segments, addresses, capacities and all iterators are as before, and the collection can be used further. In particular std::sort sorts the range for any strict weak order, and c.erase(std::remove_if(first,last,pred),last) removes exactly the elements of the range that satisfy pred and keeps the order of the others, the erasure not throwing if last is the end of the segment.", "quantifier": "all reachable collections, local ranges, algorithms (as programs using elements in any order, depending on what they see), function objects with state that may throw, and both kinds of local iterators", "why_tests_cant": "all algorithms, collections and points at which moving, comparing or the predicate may throw", "anchors": ["detail/iterator_impl.hpp: local_iterator_impl", "detail/stride_iterator.hpp", "detail/any_iterator.hpp", "detail/poly_collection.hpp: begin<T>, end<T>, erase(local_base_iterator,local_base_iterator)"]}
{"id": "C76", "title": "The range of a collection is a multi-pass forward sequence for every program using its iterators", "statement": "A program given two iterators [first,last) of a collection, which copies, assigns, increments and compares iterators and uses or changes the elements they refer to (e.g. any algorithm of the standard library for forward iterators that does not replace elements), does what it would do on a sequence of the same objects with positions for iterators: it returns or throws the same, calls its function objects on the same elements in the same order, ends with iterators to the same positions, and leaves the elements with the values it would leave there; elements outside the range, addresses and capacities are as before. In particular std::find_if gives the iterator boost::poly_collection::find_if gives, with the same calls of the predicate, and std::max_element gives the first largest element.", "quantifier": "all reachable collections, ranges, programs over iterators (depending on what they see, with any number of copies), function objects with state that may throw or change elements", "why_tests_cant": "all programs, collections and ranges across segments, empty ones included", "anchors": ["detail/iterator_impl.hpp: iterator_impl::increment, equal, dereference", "detail/poly_collection.hpp: begin, end", "algorithm.hpp: find_if"]}
{"id": "C77", "title": "Insertion through std::inserter", "statement": "Elements assigned to std::inserter(c,hint) (e.g. by std::copy or std::transform) are all inserted, each once and in the segment of its type; the elements that were there stay and keep their order, segments of other types are not touched, and if an insertion throws the elements before have been inserted and the failing one behaves as an insertion with a hint does. Elements of one type end up where c.insert(hint,first,last) puts them. Elements of several types go, each, to the position held if that is an element of its type and otherwise to the end of its segment, the position held then being the one behind it in the traversal. (Elements of several types thus need not keep their order, unlike in c.insert(hint,first,last).)", "quantifier": "all reachable collections, hints and sequences of elements, and all points of failure", "why_tests_cant": "all collections, hints, sequences of types and points of failure", "anchors": ["detail/poly_collection.hpp: insert(const_iterator,T&&)", "detail/iterator_impl.hpp: iterator_impl::increment"]}
{"id": "C78", "title": "Insertion into reserved room obtains no memory", "statement": "While the elements to be inserted fit into the capacity of their segments, insert, emplace (also with a hint or at a local position), insertion of a range of a terminal type, erase and clear neither obtain nor release memory, whether they return or throw; they do not throw bad_alloc or length_error, and capacity() and the storage of every segment stay. This holds for any number of such calls, until what was inserted exceeds the capacities. reserve<T>(n) makes that room: afterwards elements of type T up to a total of n are inserted without obtaining memory. An element (or range) moved in, of a type whose moves do not throw, is then inserted without any exception. (The types must have been registered by a call with the same type_info object, as reserve<T> does. In any_collection and function_collection a capacity below 2 does not count: the first element of a new segment obtains memory although capacity() is 1.)", "quantifier": "all reachable collections, sequences of insertions and erasures, positions, hints, values and points of failure", "why_tests_cant": "all histories before and all sequences of calls after reserve, in both layouts and for all growth policies of the vectors", "anchors": ["detail/split_segment.hpp: nv_reserve, prereserve, expand, nv_emplace, nv_insert, nv_erase", "detail/packed_segment.hpp: nv_reserve, nv_emplace, nv_insert", "detail/type_info_map.hpp: find", "detail/poly_collection.hpp: reserve<T>, insert, emplace, erase, clear"]}
{"id": "C79", "title": "The algorithms do what those of the standard library do with the same iterators", "statement": "boost::poly_collection::alg<Ts...>(first,last,args...) has the effects of std::alg(first,last,args...) run with the iterators of the collection, for all_of, any_of, none_of, for_each, for_each_n, find_if, find_if_not, find_first_of, count_if, mismatch, equal, copy, copy_n, copy_if, transform (both forms), replace_copy_if, remove_copy_if, unique_copy (for an equivalence), rotate_copy, sample, is_partitioned, partition_copy and, unless a full segment of a base_collection ends where an element of another begins, adjacent_find: the function objects, output iterators and generators are called on the same elements in the same order with the same effects, the result is the same value or the same iterator, an exception of theirs is thrown at the same call, and neither changes the collection. (Function objects which do not look at the type an element is passed as. For is_permutation, search, search_n, find_end and partition_point see C42, C43 and C46.)", "quantifier": "all reachable collections, ranges of them, lists Ts of restituted types, function objects, output iterators and generators with any state, effects and exceptions", "why_tests_cant": "all collections, ranges and function objects: the algorithms of the library work by segments with typed pointers, those of the standard library by increments of the iterators, which are two different ways through the data", "anchors": ["algorithm.hpp: all_of, any_of, none_of, for_each, for_each_n, find_if, find_if_not, find_first_of, adjacent_find, count_if, mismatch, equal, copy, copy_n, copy_if, transform, replace_copy_if, remove_copy_if, unique_copy, rotate_copy, sample, is_partitioned, partition_copy", "detail/iterator_impl.hpp: iterator_impl", "detail/segment_split.hpp", "doc/reference.qbk: Algorithms"]}
{"id": "C80", "title": "Iterators kept while a collection changes hands", "statement": "Iterators, end() included, obtained from a collection go on working with the collection which gets its contents by swap, move construction or move assignment (equal or propagated allocators), in any number of steps, perhaps changed otherwise in between, as long as the element they refer to is not removed or relocated: they refer to the same elements, compare equal to the new owner's iterators to the same positions, loops from one to another (old or new) visit the elements in between, erase(pos) and erase(first,last) do as with the new owner's iterators and return an iterator of which the same is true. This holds for the unordered_maps whose end() is null or goes along with the contents (libstdc++, libc++, MSVC); with one whose end() stays with the object, all of this but passing the last element still holds, and ++ on an iterator to the last element is undefined.", "quantifier": "all reachable collections, iterators of them, histories of swaps, moves and changes, and kinds of end()", "why_tests_cant": "all collections, positions and chains of transfers; each iterator carries the end of the map it was obtained from and tests against it on every step over a segment boundary, and the three kinds of std::unordered_map cannot be tried with one standard library", "anchors": ["detail/iterator_impl.hpp: iterator_impl::mapend, increment, next_segment_position, equal", "detail/poly_collection.hpp: erase(const_iterator), erase(const_iterator,const_iterator), swap, poly_collection(poly_collection&&), operator=(poly_collection&&)", "detail/type_info_map.hpp: type_info_map(type_info_map&&), operator=(type_info_map&&), swap"]}
{"id": "C81", "title": "Algorithms which write into other collections", "statement": "copy, copy_n, copy_if, remove_copy_if, unique_copy, rotate_copy, transform and replace_copy_if with std::inserter(y,hint) of another collection as output iterator, and partition_copy with those of two collections, add to the destination exactly the elements the algorithm selects (as objects of their types, or what the operation makes of them), each once, creating the segments needed; what was there stays, in the same order; segments of other types and the source are not touched. For types of which the destination had no elements the new ones have the order of the source, so copying everything into an empty collection makes it compare equal to the source. If an insertion throws, the elements before it have been added, and the failed one has the effect of a failed insertion.", "quantifier": "all reachable collections, ranges, hints, restituted types, predicates on objects and ways of passing the elements", "why_tests_cant": "all contents of source and destinations, hints and exceptions: the loop goes over the segments of the source while the inserter's iterator wanders through the destination, whose segments grow and multiply under it", "anchors": ["algorithm.hpp: copy, copy_n, copy_if, remove_copy_if, unique_copy, rotate_copy, transform, replace_copy_if, partition_copy, generic_copy", "detail/poly_collection.hpp: insert(const_iterator,T&&)", "detail/iterator_impl.hpp: iterator_impl::increment"]}
{"id": "C82", "title": "Algorithms on two ranges given by iterators", "statement": "mismatch, equal, is_permutation, find_first_of, search, find_end and the binary transform take their second range by iterators. With iterators of any type which go over a sequence, they do what the algorithms of the standard library do on the two sequences, and never dereference, increment or compare an iterator past the end of the second range where those do not. In particular the second range may be that of another collection, or of the same one: mismatch then gives iterators to the first pair of elements not related, one in each collection; equal, is_permutation, find_first_of, search and find_end tell what they tell for the sequences of elements.", "quantifier": "all reachable collections, ranges in the first and the second one (overlapping ones included), forward iterators of any type, restituted types, predicates", "why_tests_cant": "all pairs of contents: the loop over the first range stops at segment boundaries and starts again, while the second iterator goes over its own, differently placed, boundaries and empty segments", "anchors": ["algorithm.hpp: mismatch, equal, is_permutation, find_first_of, search, find_end, transform", "detail/iterator_impl.hpp: iterator_impl::increment, dereference, equal"]}
{"id": "C83", "title": "Programs which use iterators of several collections at once", "statement": "A program which holds iterators of any number of collections (and any number of each), copies, assigns, advances and compares those of the same collection and uses the elements, has the same result as on the sequences of the elements, iterators being positions. The elements it changes are changed in their collection and nothing else is: types, sizes, storage and iterators of all the collections stay. So std::lexicographical_compare and std::merge on ranges of two collections, or two ranges of one, do what they do on sequences, and a loop over one collection may change the elements of another one.", "quantifier": "all reachable lists of collections, programs of any length using forward iterators, initial iterators in any of the collections, user functions (which may throw)", "why_tests_cant": "programs are unbounded and may interleave steps on any number of collections with differently placed segment boundaries", "anchors": ["detail/iterator_impl.hpp: iterator_impl::dereference, equal, increment", "detail/poly_collection.hpp: iterator, begin, end", "detail/split_segment.hpp, detail/packed_segment.hpp: references to elements"]}
{"id": "C84", "title": "Function objects which use iterators they have captured", "statement": "The function object passed to an algorithm may use iterators it has captured, of the collection the algorithm runs on or of others: advance and compare them, and use and change the elements they refer to, while the algorithm is running. The algorithm then makes the calls it would make on the sequence of the elements, in order, each of which sees the elements as the calls before have left them, wherever the segments end and whichever types are restituted. Only values change, and iterators of all the collections stay valid, also if a call throws.", "quantifier": "all reachable lists of collections, ranges, restituted types, captured iterators, function objects doing any number of such steps (and throwing anywhere)", "why_tests_cant": "aliasing between the range of an algorithm and what its function objects touch takes unboundedly many forms", "anchors": ["algorithm.hpp: for_each, for_each_n, find_if, find_if_not, count_if, all_of, any_of, none_of, is_partitioned, mismatch, equal, copy, copy_if, remove_copy_if, partition_copy, transform, replace_copy_if, sample, find_first_of, search, find_end, search_n, partition_point, copy_n, rotate_copy, is_permutation", "detail/segment_split.hpp: for_each_segment, segment_split", "detail/type_restitution.hpp: restitute_range, restitute_iterator", "detail/iterator_impl.hpp: iterator_impl"]}
{"id": "C85", "title": "A call of insert means what its arguments say", "statement": "insert(a,b) with two iterators of one type, those of a collection or others with elements that can be inserted, inserts the range, also into a collection that could hold iterators as elements. Otherwise it inserts b with the hint a or at the local position a, if a is one and b can be inserted. insert(p,a,b) likewise inserts the range with the hint or at the local position p. Of the overloads for ranges the one made for the iterators is used, and the one that puts all elements into one segment only if the static type of the elements is always their own. No call is ambiguous, and all others do not compile.", "quantifier": "all argument types, all three kinds of collection, all class hierarchies", "why_tests_cant": "argument types are unbounded, and an overload chosen wrongly may compile", "anchors": ["detail/poly_collection.hpp: insert (681-877), enable_if_not_same, enable_if_implementation, enable_if_derefs_to_implementation, enable_if_derefs_to_terminal", "detail/iterator_impl.hpp: converting constructors", "detail/base_model.hpp, detail/any_model.hpp, detail/function_model.hpp: is_implementation, is_terminal"]}
{"id": "C86", "title": "Calls of erase and emplace_pos mean what their arguments say", "statement": "erase(a) erases the element an iterator or local iterator refers to, const or not; erase(a,b) a range of iterators, some of which may be const, or of local iterators of one type; emplace_pos(p,...) takes a local_iterator<T> and makes a T in the segment of the T; emplace_pos<T>(p,...) takes a local_base_iterator (if a T can be stored) or a local_iterator<T>. No call is ambiguous, and no others compile, so that a T is only ever made in the segment of the T. (The last part fails: emplace_pos<T> also accepts a local_iterator<U> for a class U derived from T, and its behavior is then undefined.)", "quantifier": "all argument types, all three kinds of collection, all class hierarchies, all reachable collections and positions", "why_tests_cant": "argument types and class hierarchies are unbounded, and what compiles wrongly is not noticed by tests of calls that are right", "anchors": ["detail/poly_collection.hpp: emplace_pos (644-679), erase (879-936)", "detail/iterator_impl.hpp: local_iterator_impl converting constructors (171-207)", "detail/stride_iterator.hpp, detail/any_iterator.hpp, detail/callable_wrapper_iterator.hpp: conversions to pointers", "detail/segment.hpp: emplace, impl"]}
{"id": "C87", "title": "Conversions between local iterators keep the position and const", "statement": "The four types of local iterators of a segment (local_base_iterator and local_iterator<T>, const or not) convert to each other as documented: implicitly if only const is added, explicitly between local_base_iterator and local_iterator<T>. A converted iterator is at the same position and refers to the same element. No conversion makes an iterator to non-const elements of one to const elements, and local_iterator<U> is not taken for a local_iterator<T> of another type. (The last two parts fail: every const local iterator converts explicitly to every non-const one, and local_iterator<U> converts implicitly to local_iterator<T> for a base T of U, after which ++ goes astray unless both are of the same size. The position is lost if an element of an any_collection is of a class derived from the value type.)", "quantifier": "all three kinds of collection, all class hierarchies, element sizes and offsets, all reachable collections and positions", "why_tests_cant": "class hierarchies, sizes and positions are unbounded, and conversions which should not compile are not noticed by tests of those that should", "anchors": ["detail/iterator_impl.hpp: local_iterator_impl converting constructors (171-207), base_iterator_from (221-227)", "detail/stride_iterator.hpp, detail/any_iterator.hpp, detail/callable_wrapper_iterator.hpp: constructors and conversion functions", "detail/segment.hpp: begin (101)"]}
{"id": "C88", "title": "Other types can be changed while the elements of one type are traversed", "statement": "The loop `for(auto it=c.begin(info);it!=c.end(info);++it)for(auto&& y:f(*it))c.insert(y);`, where f makes no element of the type traversed and only elements of registered types (or of any type, if the library's unordered_map keeps its iterators when it rehashes), ends; f is given every element of the type exactly once and in order; exactly the elements f makes are inserted, each once, behind those of its type and in the order made; the elements of the type traversed are not touched. If an insertion throws, everything made before it has been inserted and nothing after it, and the elements of the type traversed are as before. More generally, the body of such a loop may insert, emplace, erase, clear, reserve and shrink_to_fit for other types: every element of the type traversed is visited exactly once, and its elements, their addresses and the capacity stay the same, also if a call throws.", "quantifier": "all reachable collections, types, functions f (making any number of elements for each) and all points of failure", "why_tests_cant": "all collections, reallocations of the other segments, rehashes of the map and points of failure", "anchors": ["detail/poly_collection.hpp: begin(const std::type_info&), end(const std::type_info&), insert(T&&), emplace, erase, clear, reserve, shrink_to_fit", "detail/iterator_impl.hpp: local_iterator_impl", "doc/reference.qbk 134-139"]}
{"id": "C89", "title": "Copying a collection element by element registers no types, copying it as a range does", "statement": "`for(const auto& v:x)y.insert(v);` for two collections x and y, none of whose elements is of the value type itself, inserts all elements of x behind those of y if y knows all their types. Otherwise it throws unregistered_type with the type of the first element of a type unknown to y; the elements before have then been inserted and nothing else has changed. If copying an element throws, exactly the elements before it have been inserted, and the failed insertion behaves as a single insert does. `y.insert(x.begin(),x.end())` puts the same elements in the same places whatever types y knows about, registers those it does not know and never throws unregistered_type.", "quantifier": "all pairs of reachable collections, all contents and registered types, all points of failure", "why_tests_cant": "all pairs of collections, orders of types and points of failure", "anchors": ["detail/poly_collection.hpp: insert(T&&), insert(poly_collection iterators), get_map_iterator_for", "detail/iterator_impl.hpp: iterator_impl"]}
