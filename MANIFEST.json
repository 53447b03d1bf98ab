{
 "claims": [
  {
   "property": "C01",
   "status": "proved",
   "theorems": [
    "C01_one_segment_per_type",
    "C01_elements_by_segment",
    "C01_calls_route_by_type"
   ],
   "note": "Elements live in the segment of their dynamic type"
  },
  {
   "property": "C02",
   "status": "proved",
   "theorems": [
    "C02_traversal",
    "C02_range_traversal"
   ],
   "note": "Traversal visits every element exactly once"
  },
  {
   "property": "C03",
   "status": "proved",
   "theorems": [
    "C03_size",
    "C03_size_of_type"
   ],
   "note": "size() and empty() agree with the contents"
  },
  {
   "property": "C04",
   "status": "proved",
   "theorems": [
    "C04_begin_end",
    "C04_normalised",
    "C04_equality"
   ],
   "note": "Iterators are normalised and equality identifies positions"
  },
  {
   "property": "C05",
   "status": "proved",
   "theorems": [
    "C05_is_registered",
    "C05_new_collection",
    "C05_calls_register_exactly",
    "C05_register_types"
   ],
   "note": "Registration is exact and monotonic"
  },
  {
   "property": "C06",
   "status": "proved",
   "theorems": [
    "C06_lookup_by_type",
    "C06_history_irrelevant"
   ],
   "note": "Type lookup does not depend on type_info addresses nor on lookup history"
  },
  {
   "property": "C07",
   "status": "proved",
   "theorems": [
    "C07_queries",
    "C07_modifiers",
    "C07_insert",
    "C07_insert_hint"
   ],
   "note": "unregistered_type is thrown exactly when documented, without side effects"
  },
  {
   "property": "C08",
   "status": "proved",
   "theorems": [
    "C08_emplace",
    "C08_insert",
    "C08_contents"
   ],
   "note": "insert(x) and emplace<T>(args...) append to the segment of the type"
  },
  {
   "property": "C09",
   "status": "proved",
   "theorems": [
    "C09_emplace_hint",
    "C09_insert_hint",
    "C09_hint_meaning"
   ],
   "note": "Position hints are honoured exactly when they point into the right segment"
  },
  {
   "property": "C10",
   "status": "proved",
   "theorems": [
    "C10_emplace_pos",
    "C10_insert_pos",
    "C10_every_index",
    "C10_contents"
   ],
   "note": "Local positions insert exactly there"
  },
  {
   "property": "C11",
   "status": "proved",
   "theorems": [
    "C11_insert_range",
    "C11_insert_range_terminal",
    "C11_fast_path_is_loop",
    "C11_range_constructor"
   ],
   "note": "Range insertion equals inserting the elements one by one"
  },
  {
   "property": "C12",
   "status": "proved",
   "theorems": [
    "C12_insert_hint_range",
    "C12_insert_hint_range_terminal",
    "C12_insert_hint_from",
    "C12_insert_hint_local"
   ],
   "note": "Hinted range insertion keeps order immediately before the hint"
  },
  {
   "property": "C13",
   "status": "proved",
   "theorems": [
    "C13_insert_from",
    "C13_insert_local",
    "C13_never_unregistered"
   ],
   "note": "Insertion from another collection needs no prior registration"
  },
  {
   "property": "C14",
   "status": "proved",
   "theorems": [
    "C14_insert_pos_range",
    "C14_insert_lpos_range"
   ],
   "note": "Local range insertion returns the first inserted element"
  },
  {
   "property": "C15",
   "status": "proved",
   "theorems": [
    "C15_erase",
    "C15_erase_segment",
    "C15_erase_local"
   ],
   "note": "erase(pos) removes exactly that element"
  },
  {
   "property": "C16",
   "status": "proved",
   "theorems": [
    "C16_erase_range",
    "C16_erase_local_range",
    "C16_erase_all"
   ],
   "note": "erase(first,last) removes exactly the range"
  },
  {
   "property": "C17",
   "status": "proved",
   "theorems": [
    "C17_clear",
    "C17_clear_info"
   ],
   "note": "clear empties without unregistering"
  },
  {
   "property": "C18",
   "status": "proved",
   "theorems": [
    "C18_comparisons",
    "C18_equal",
    "C18_order_irrelevant",
    "C18_reflexive",
    "C18_symmetric",
    "C18_transitive"
   ],
   "note": "Equality means equal non-empty segments"
  },
  {
   "property": "C19",
   "status": "proved",
   "theorems": [
    "C19_thrown_only_if",
    "C19_never_otherwise"
   ],
   "note": "not_equality_comparable is thrown only when such elements must be compared"
  },
  {
   "property": "C20",
   "status": "proved",
   "theorems": [
    "C20_copy",
    "C20_copy_al",
    "C20_assign",
    "C20_copy_equal",
    "C20_independent",
    "C20_destroy"
   ],
   "note": "Copies are equal and independent"
  },
  {
   "property": "C21",
   "status": "proved",
   "theorems": [
    "C21_only_if",
    "C21_exact"
   ],
   "note": "not_copy_constructible is thrown exactly when needed"
  },
  {
   "property": "C22",
   "status": "proved",
   "theorems": [
    "C22_move",
    "C22_move_assign",
    "C22_swap"
   ],
   "note": "Move and swap transfer contents without touching elements"
  },
  {
   "property": "C23",
   "status": "partial",
   "theorems": [
    "C23_move_al",
    "C23_move_assign_partial",
    "C23_source_refuted",
    "C23_source_full_refuted",
    "C23_failed_move_refuted"
   ],
   "note": "Destination, allocator and 'moved, never copied' proved for all allocators and traits. Source of allocator-extended construction: always empty. Source of move assignment: empty and in working order where the unordered_map implementation clears a map moved from element by element or need not move elements, otherwise with at most as many elements of each type as before. C23_source_refuted, C23_source_full_refuted and C23_failed_move_refuted show that the unconditional claim about the source is false of the code."
  },
  {
   "property": "C24",
   "status": "proved",
   "theorems": [
    "C24_copy_assign",
    "C24_move_assign"
   ],
   "note": "Assignment: self-assignment and failure"
  },
  {
   "property": "C25",
   "status": "proved",
   "theorems": [
    "C25_no_reallocation",
    "C25_storage_moves_only_with_capacity",
    "C25_capacity_bounds_size",
    "C25_reserve_all",
    "C25_reserve_info",
    "C25_reserve_type",
    "C25_capacity_monotone",
    "C25_within_capacity"
   ],
   "note": "reserve and capacity"
  },
  {
   "property": "C26",
   "status": "proved",
   "theorems": [
    "C26_shrink_all",
    "C26_shrink_info"
   ],
   "note": "shrink_to_fit preserves contents"
  },
  {
   "property": "C27",
   "status": "proved",
   "theorems": [
    "C27_emplace_firm",
    "C27_emplace_hint_firm",
    "C27_emplace_pos_firm",
    "C27_insert_firm",
    "C27_insert_hint_firm",
    "C27_insert_pos_firm",
    "C27_insert_range_firm",
    "C27_insert_range_terminal_firm",
    "C27_insert_hint_range_firm",
    "C27_insert_hint_range_terminal_firm",
    "C27_insert_from_firm",
    "C27_insert_hint_from_firm",
    "C27_insert_local_firm",
    "C27_insert_hint_local_firm",
    "C27_insert_pos_range_firm",
    "C27_insert_lpos_range_firm",
    "C27_emplace_pos",
    "C27_insert",
    "C27_insert_pos_range",
    "C27_erase_range",
    "C27_erase"
   ],
   "note": "Iterator and reference stability on insertion and erasure"
  },
  {
   "property": "C28",
   "status": "proved",
   "theorems": [
    "C28_emplace",
    "C28_emplace_hint",
    "C28_emplace_pos",
    "C28_insert",
    "C28_insert_hint",
    "C28_insert_pos",
    "C28_erase",
    "C28_erase_local",
    "C28_erase_local_range",
    "C28_by_type",
    "C28_insert_range",
    "C28_calls"
   ],
   "note": "Operations on one segment do not disturb the others"
  },
  {
   "property": "C29",
   "status": "proved",
   "theorems": [
    "C29_conversions",
    "C29_local_and_global"
   ],
   "note": "Conversions between local_base_iterator and local_iterator<T>. In any_collection and function_collection this is about element types not derived from the value type; for the others another constructor is chosen, and C87_related_refuted says what happens."
  },
  {
   "property": "C30",
   "status": "partial",
   "theorems": [
    "C30_growth",
    "C30_amortised",
    "C30_range_refuted"
   ],
   "note": "Capacity bounds, growth by half and the amortised bound (at most four relocations per insertion) proved for insertions of single elements. C30_range_refuted: insertions of ranges, even of one element, grow to the exact size and cost quadratically many relocations."
  },
  {
   "property": "C31",
   "status": "proved",
   "theorems": [
    "C31_emplace",
    "C31_insert",
    "C31_position"
   ],
   "note": "Single-element insertion has the strong guarantee (base_collection)"
  },
  {
   "property": "C32",
   "status": "partial",
   "theorems": [
    "C32_emplace_partial",
    "C32_insert_partial",
    "C32_full_refuted",
    "C32_first_refuted",
    "C32_middle_refuted"
   ],
   "note": "Strong guarantee proved when the segment has room, capacity of at least two, and the position is the end or moves do not throw. For full, fresh and throwing-move cases the claim is false of the code: C32_full_refuted, C32_first_refuted, C32_middle_refuted."
  },
  {
   "property": "C33",
   "status": "partial",
   "theorems": [
    "C33_erase_to_end",
    "C33_erase_last",
    "C33_erase_local_last",
    "C33_erase_range",
    "C33_erase_local_range",
    "C33_erase_partial",
    "C33_erase_refuted"
   ],
   "note": "Range erasure proved for all collections, single erasure for base_collection. C33_erase_refuted: after a throwing erase(pos) an any_collection can be corrupted by a later successful emplace."
  },
  {
   "property": "C34",
   "status": "partial",
   "theorems": [
    "C34_range_partial",
    "C34_hint_range_partial",
    "C34_from_partial",
    "C34_hint_from_partial",
    "C34_local_partial",
    "C34_hint_local_partial",
    "C34_pos_range_partial",
    "C34_lpos_range_partial",
    "C34_terminal_partial",
    "C34_hint_terminal_partial",
    "C34_terminal_refuted",
    "C34_terminal_grow_refuted"
   ],
   "note": "Proved for every kind of range that is not of a terminal type (references, local iterators, other collections, local positions), with and without hint: exactly a prefix was inserted and the collection stays usable, in base_collection always and in any_collection and function_collection where the segments concerned have room; and for unregistered_type in all. For ranges of a terminal type in a base_collection, given by forward iterators, bad_alloc of the storage and length_error leave nothing inserted (C34_terminal_partial, C34_hint_terminal_partial). C34_terminal_refuted and C34_terminal_grow_refuted show the failures."
  },
  {
   "property": "C35",
   "status": "partial",
   "theorems": [
    "C35_move_partial",
    "C35_move_hint_partial",
    "C35_move_position_partial",
    "C35_move_full_refuted",
    "C35_insert_partial",
    "C35_position_partial",
    "C35_full_refuted"
   ],
   "note": "Proved for base_collection always and for the others when the segment has room, for copies and for moves; C35_full_refuted and C35_move_full_refuted: inserting an element of a full any_collection segment into itself reads freed storage."
  },
  {
   "property": "C36",
   "status": "proved",
   "theorems": [
    "C36_emplace",
    "C36_insert",
    "C36_range",
    "C36_reserve",
    "C36_move_al",
    "C36_erase",
    "C36_erase_range",
    "C36_insertable",
    "C36_throwing_move_refuted"
   ],
   "note": "Proved for types with non-throwing moves (as the claim says). C36_throwing_move_refuted documents that move-only types with throwing moves are accepted by the library but throw not_copy_constructible on growth."
  },
  {
   "property": "C37",
   "status": "proved",
   "theorems": [
    "C37_for_each",
    "C37_for_each_n",
    "C37_visits"
   ],
   "note": "for_each and for_each_n"
  },
  {
   "property": "C38",
   "status": "proved",
   "theorems": [
    "C38_all_of",
    "C38_any_of",
    "C38_none_of",
    "C38_count_if",
    "C38_count",
    "C38_values"
   ],
   "note": "all_of, any_of, none_of, count, count_if"
  },
  {
   "property": "C39",
   "status": "proved",
   "theorems": [
    "C39_find_if",
    "C39_find_if_not",
    "C39_find",
    "C39_find_first_of",
    "C39_values"
   ],
   "note": "find family"
  },
  {
   "property": "C40",
   "status": "partial",
   "theorems": [
    "C40_across_partial",
    "C40_captured_partial",
    "C40_adjacent_find_partial",
    "C40_values_partial",
    "C40_adjacent_find_refuted"
   ],
   "note": "Proved for any_collection/function_collection, and for base_collection unless the storage of one segment begins exactly where that of another ends; refuted in that case (C40_adjacent_find_refuted): the match is skipped. Predicates must not look at whether their first argument is restituted (see C47)."
  },
  {
   "property": "C41",
   "status": "proved",
   "theorems": [
    "C41_mismatch",
    "C41_equal",
    "C41_values"
   ],
   "note": "mismatch and equal"
  },
  {
   "property": "C42",
   "status": "proved",
   "theorems": [
    "C42_calls",
    "C42_is_permutation"
   ],
   "note": "is_permutation"
  },
  {
   "property": "C43",
   "status": "proved",
   "theorems": [
    "C43_search_calls",
    "C43_search",
    "C43_find_end",
    "C43_search_n"
   ],
   "note": "search, find_end, search_n"
  },
  {
   "property": "C44",
   "status": "proved",
   "theorems": [
    "C44_unique_copy_effects",
    "C44_copy",
    "C44_copy_n",
    "C44_copy_if",
    "C44_transform",
    "C44_transform_binary",
    "C44_replace_copy_if",
    "C44_replace_copy",
    "C44_remove_copy_if",
    "C44_remove_copy",
    "C44_unique_copy",
    "C44_rotate_copy",
    "C44_partition_copy",
    "C44_outputs",
    "C44_transforms"
   ],
   "note": "Copying algorithms"
  },
  {
   "property": "C45",
   "status": "proved",
   "theorems": [
    "C45_uniform",
    "C45_sample",
    "C45_sample_calls",
    "C45_every_selection"
   ],
   "note": "sample"
  },
  {
   "property": "C46",
   "status": "proved",
   "theorems": [
    "C46_partition_point_calls",
    "C46_is_partitioned_calls",
    "C46_is_partitioned",
    "C46_partition_point"
   ],
   "note": "is_partitioned and partition_point"
  },
  {
   "property": "C47",
   "status": "partial",
   "theorems": [
    "C47_references",
    "C47_passed",
    "C47_independent_queries",
    "C47_independent_copies",
    "C47_independent_searches",
    "C47_adjacent_find_refuted",
    "C47_unique_copy_refuted"
   ],
   "note": "Proved for all algorithms except adjacent_find and unique_copy, whose comparison across a segment boundary passes the first element through value_type& even if its type is restituted (refuted for these two, C47_adjacent_find_refuted and C47_unique_copy_refuted). Independence of the restituted types is proved for function objects which do not distinguish them, including adjacent_find and unique_copy."
  },
  {
   "property": "C48",
   "status": "proved",
   "theorems": [
    "C48_segment_split",
    "C48_types",
    "C48_for_each_segment"
   ],
   "note": "Segment splitting partitions the range"
  },
  {
   "property": "C49",
   "status": "proved",
   "theorems": [
    "C49_random_access",
    "C49_comparison"
   ],
   "note": "stride_iterator at the level of bytes (64-bit addresses), and agreement of the pointer comparison used in the model of adjacent_find with that of addresses. Pointer iterators of any_collection and function_collection are native pointers."
  },
  {
   "property": "C50",
   "status": "proved",
   "theorems": [
    "C50_target",
    "C50_call"
   ],
   "note": "For any reachable state, through index entries as the split_segment builds them. A call may change the object, throw or be undefined; the conversion to std::function refers to the same object."
  },
  {
   "property": "C51",
   "status": "proved",
   "theorems": [
    "C51_segments",
    "C51_calls",
    "C51_copy",
    "C51_assign"
   ],
   "note": "Allocator propagation"
  },
  {
   "property": "C52",
   "status": "proved",
   "theorems": [
    "C52_objects",
    "C52_all_types",
    "C52_each_type",
    "C52_calls",
    "C52_destroy",
    "C52_copy",
    "C52_no_leak"
   ],
   "note": "Elements are constructed and destroyed exactly once"
  },
  {
   "property": "C53",
   "status": "proved",
   "theorems": [
    "C53_segment_order"
   ],
   "note": "Segment order is stable until a new segment is created"
  },
  {
   "property": "C54",
   "status": "partial",
   "theorems": [
    "C54_insert_partial",
    "C54_emplace_partial",
    "C54_register_partial",
    "C54_insert_range",
    "C54_hint_refuted"
   ],
   "note": "Proved for standard libraries whose unordered_map iterators survive rehashing. Without that C54_hint_refuted shows that a hint may dangle inside the call it is passed to."
  },
  {
   "property": "C55",
   "status": "partial",
   "theorems": [
    "C55_reserve_partial",
    "C55_reserve_refuted"
   ],
   "note": "Contents always kept; base_collection stays in working order. C55_reserve_refuted: a throwing reserve leaves an any_collection untraversable."
  },
  {
   "property": "C56",
   "status": "partial",
   "theorems": [
    "C56_full",
    "C56_reserve_throws",
    "C56_max_size_partial",
    "C56_size_refuted",
    "C56_reserve_refuted"
   ],
   "note": "C56_size and C56_reserve say it for base_collection; for the others capacity is at most max_size()+1 (C56_size_refuted and C56_reserve_refuted show that neither half holds for any_collection). C56_full: no member function call puts more elements into a segment than it can hold, whatever the layout, and if memory and user code cooperate it throws length_error."
  },
  {
   "property": "C57",
   "status": "proved",
   "theorems": [
    "C57_for_each",
    "C57_for_each_n",
    "C57_move",
    "C57_elements"
   ],
   "note": "for_each, for_each_n and move modify exactly the elements of the range"
  },
  {
   "property": "C58",
   "status": "proved",
   "theorems": [
    "C58_contents",
    "C58_computed",
    "C58_go_on",
    "C58_reachable",
    "C58_portable",
    "C58_progress",
    "C58_defined"
   ],
   "note": "What collections contain is determined by the history of calls"
  },
  {
   "property": "C59",
   "status": "proved",
   "theorems": [
    "C59_cause",
    "C59_no_element_exception",
    "C59_no_failure",
    "C59_noexcept"
   ],
   "note": "Exceptions have documented causes"
  },
  {
   "property": "C60",
   "status": "proved",
   "theorems": [
    "C60_traversal",
    "C60_nested_loops",
    "C60_segment",
    "C60_unique",
    "C60_persistent"
   ],
   "note": "Segment descriptors and segment traversal"
  },
  {
   "property": "C61",
   "status": "proved",
   "theorems": [
    "C61_one_owner",
    "C61_step",
    "C61_always",
    "C61_move_al",
    "C61_move_assign",
    "C61_assign"
   ],
   "note": "Memory never changes hands between unequal allocators"
  },
  {
   "property": "C62",
   "status": "partial",
   "theorems": [
    "C62_only_elements",
    "C62_calls",
    "C62_lifetimes",
    "C62_elements_partial",
    "C62_elements_refuted",
    "C62_vector",
    "C62_uses_allocator"
   ],
   "note": "Calls of construct and destroy alternate per cell, go to stored elements only, and lifetimes never overlap: proved for all types and histories. That every element is made and ended through the allocator holds for move assignable types (C62_elements_partial); it is false for others (C62_elements_refuted): emulated assignment destroys and re-creates the element by placement new."
  },
  {
   "property": "C63",
   "status": "proved",
   "theorems": [
    "C63_acceptable",
    "C63_assign",
    "C63_self",
    "C63_erase",
    "C63_emplace",
    "C63_insert",
    "C63_relocate"
   ],
   "note": "Elements which cannot be assigned are stored, shifted and relocated like others"
  },
  {
   "property": "C64",
   "status": "proved",
   "theorems": [
    "C64_emplace",
    "C64_insert",
    "C64_emplace_hint",
    "C64_insert_hint",
    "C64_emplace_pos",
    "C64_insert_pos",
    "C64_amortised",
    "C64_erase",
    "C64_erase_local",
    "C64_erase_local_range",
    "C64_erase_range",
    "C64_clear",
    "C64_clear_info",
    "C64_reserve_info",
    "C64_reserve_type",
    "C64_reserve_all",
    "C64_shrink",
    "C64_shrink_info",
    "C64_copy",
    "C64_destroy",
    "C64_assign",
    "C64_move",
    "C64_move_al",
    "C64_move_assign",
    "C64_swap",
    "C64_sequence",
    "C64_insert_range",
    "C64_from_range",
    "C64_insert_hint_range",
    "C64_insert_from",
    "C64_insert_hint_from",
    "C64_insert_local",
    "C64_insert_hint_local",
    "C64_insert_pos_range",
    "C64_insert_lpos_range",
    "C64_insert_range_terminal",
    "C64_insert_hint_range_terminal"
   ],
   "note": "Documented complexity of insertion, erasure, clear and reserve, and of copying, moving and destroying"
  },
  {
   "property": "C65",
   "status": "proved",
   "theorems": [
    "C65_clear",
    "C65_clear_changed",
    "C65_clear_inserted",
    "C65_clear_type",
    "C65_copy",
    "C65_copy_after_reserve"
   ],
   "note": "Recovering from an exception"
  },
  {
   "property": "C66",
   "status": "proved",
   "theorems": [
    "C66_reads_change_nothing",
    "C66_defined",
    "C66_concurrent_readers",
    "C66_proper_readers",
    "C66_traversal_among_readers",
    "C66_right_answers",
    "C66_told"
   ],
   "note": "Reading has no side effects and readers do not disturb each other"
  },
  {
   "property": "C67",
   "status": "proved",
   "theorems": [
    "C67_traits",
    "C67_insert",
    "C67_insert_hint",
    "C67_insert_pos",
    "C67_range",
    "C67_local_range",
    "C67_empty_any",
    "C67_copied",
    "C67_local_copied"
   ],
   "note": "What is inserted is the object meant, complete and under its own type"
  },
  {
   "property": "C68",
   "status": "proved",
   "theorems": [
    "C68_refused",
    "C68_not_copy_constructible"
   ],
   "note": "What cannot be copied is not inserted by copy"
  },
  {
   "property": "C69",
   "status": "proved",
   "theorems": [
    "C69_alone",
    "C69_order",
    "C69_schedules",
    "C69_sharing_matters"
   ],
   "note": "Threads working on separate collections do not affect each other"
  },
  {
   "property": "C70",
   "status": "partial",
   "theorems": [
    "C70_for_each",
    "C70_predicates",
    "C70_two_ranges",
    "C70_find_end_refuted",
    "C70_is_permutation",
    "C70_adjacent_find",
    "C70_adjacent_find_partial",
    "C70_copying",
    "C70_writing",
    "C70_sample"
   ],
   "note": "Proved for all the algorithms listed. C70_find_end_refuted: find_end compares also where too few elements are left, so it exceeds the bound of the standard, m*(n-m+1); proved is n*m. C70_adjacent_find_partial: that exactly the consecutive pairs up to the first match are compared is proved except, as in C40, for adjacent storage, where n-1 still bounds the number."
  },
  {
   "property": "C71",
   "status": "proved",
   "theorems": [
    "C71_erase_if",
    "C71_erase_if_local",
    "C71_drain",
    "C71_transfer_if"
   ],
   "note": "Loops which erase or transfer elements while they traverse treat every element exactly once"
  },
  {
   "property": "C72",
   "status": "proved",
   "theorems": [
    "C72_for_each",
    "C72_for_each_n",
    "C72_constant_queries",
    "C72_constant_copies",
    "C72_constant_others",
    "C72_copies_queries",
    "C72_copies_outputs",
    "C72_copies_others",
    "C72_copies_rest",
    "C72_copies_adjacent_find",
    "C72_one_type",
    "C72_one_type_others",
    "C72_count_if_differs"
   ],
   "note": "For objects which change when they are called, the effect is given part by part over the runs of elements of the same type (SpecObj.v)."
  },
  {
   "property": "C73",
   "status": "proved",
   "theorems": [
    "C73_shuffled",
    "C73_admitted",
    "C73_by_type",
    "C73_equal"
   ],
   "note": "The order of calls about different types does not matter"
  },
  {
   "property": "C74",
   "status": "proved",
   "theorems": [
    "C74_transaction"
   ],
   "note": "Changing a copy and swapping it in gives the strong guarantee for every change"
  },
  {
   "property": "C75",
   "status": "proved",
   "theorems": [
    "C75_array",
    "C75_transfer",
    "C75_sort",
    "C75_erase_remove"
   ],
   "note": "Standard algorithms treat the local range of a type as an array"
  },
  {
   "property": "C76",
   "status": "proved",
   "theorems": [
    "C76_forward",
    "C76_transfer",
    "C76_find_if",
    "C76_max_element"
   ],
   "note": "The range of a collection is a multi-pass forward sequence for every program using its iterators"
  },
  {
   "property": "C77",
   "status": "proved",
   "theorems": [
    "C77_inserter",
    "C77_inserter_exact",
    "C77_inserter_one_type",
    "C77_order_refuted"
   ],
   "note": "The statement is proved in full. C77_order_refuted adds that for elements of several types the result is not that of insert(hint,first,last)."
  },
  {
   "property": "C78",
   "status": "proved",
   "theorems": [
    "C78_call",
    "C78_calls",
    "C78_reserve",
    "C78_reserved",
    "C78_quiet",
    "C78_quiet_hint",
    "C78_quiet_pos",
    "C78_quiet_range",
    "C78_first_refuted"
   ],
   "note": "The statement is proved in full. C78_first_refuted shows why capacities below 2 are excluded for any_collection and function_collection."
  },
  {
   "property": "C79",
   "status": "proved",
   "theorems": [
    "C79_all_of",
    "C79_any_of",
    "C79_none_of",
    "C79_for_each",
    "C79_count_if",
    "C79_copy",
    "C79_copy_if",
    "C79_remove_copy_if",
    "C79_transform",
    "C79_transform_binary",
    "C79_replace_copy_if",
    "C79_partition_copy",
    "C79_unique_copy",
    "C79_is_partitioned",
    "C79_sample",
    "C79_equal",
    "C79_mismatch",
    "C79_find_if_not",
    "C79_find_first_of",
    "C79_find_if",
    "C79_adjacent_find",
    "C79_for_each_n",
    "C79_copy_n",
    "C79_rotate_copy"
   ],
   "note": "The algorithms do what those of the standard library do with the same iterators"
  },
  {
   "property": "C80",
   "status": "proved",
   "theorems": [
    "C80_begin",
    "C80_handed",
    "C80_deref",
    "C80_equal",
    "C80_next",
    "C80_next_element",
    "C80_traverse",
    "C80_traverse_elements",
    "C80_erase",
    "C80_erase_range",
    "C80_stays_undefined"
   ],
   "note": "Iterators kept while a collection changes hands"
  },
  {
   "property": "C81",
   "status": "proved",
   "theorems": [
    "C81_copy",
    "C81_copy_n",
    "C81_copy_if",
    "C81_remove_copy_if",
    "C81_unique_copy",
    "C81_rotate_copy",
    "C81_transform",
    "C81_replace_copy_if",
    "C81_copy_all",
    "C81_partition_copy"
   ],
   "note": "Algorithms which write into other collections"
  },
  {
   "property": "C82",
   "status": "proved",
   "theorems": [
    "C82_mismatch",
    "C82_equal",
    "C82_find_first_of",
    "C82_transform",
    "C82_is_permutation",
    "C82_search",
    "C82_collection",
    "C82_mismatch_collections",
    "C82_equal_collections",
    "C82_is_permutation_collections",
    "C82_find_collections",
    "C82_local",
    "C82_mismatch_local",
    "C82_find_local",
    "C82_is_permutation_local"
   ],
   "note": "Algorithms on two ranges given by iterators"
  },
  {
   "property": "C83",
   "status": "proved",
   "theorems": [
    "C83_programs",
    "C83_lexicographical_compare",
    "C83_merge",
    "C83_update"
   ],
   "note": "Programs which use iterators of several collections at once"
  },
  {
   "property": "C84",
   "status": "proved",
   "theorems": [
    "C84_for_each",
    "C84_for_each_n",
    "C84_find_if",
    "C84_count_if",
    "C84_all_of",
    "C84_copy",
    "C84_scan",
    "C84_any_of",
    "C84_none_of",
    "C84_find_if_not",
    "C84_is_partitioned",
    "C84_copy_if",
    "C84_remove_copy_if",
    "C84_partition_copy",
    "C84_mismatch",
    "C84_equal",
    "C84_transform",
    "C84_transform_binary",
    "C84_replace_copy_if",
    "C84_sample",
    "C84_find_first_of",
    "C84_search",
    "C84_find_end",
    "C84_search_n",
    "C84_partition_point",
    "C84_copy_n",
    "C84_rotate_copy",
    "C84_is_permutation"
   ],
   "note": "Function objects which use iterators they have captured"
  },
  {
   "property": "C85",
   "status": "proved",
   "theorems": [
    "C85_two_arguments",
    "C85_mixed_iterators",
    "C85_three_arguments",
    "C85_resolution"
   ],
   "note": "A call of insert means what its arguments say"
  },
  {
   "property": "C86",
   "status": "partial",
   "theorems": [
    "C86_erase_one",
    "C86_erase_two",
    "C86_emplace_pos_deduced",
    "C86_emplace_pos_partial",
    "C86_emplace_pos_refuted",
    "C86_emplace_pos_right"
   ],
   "note": "erase, emplace_pos(p,...) and emplace_pos<T> with the right iterators proved. C86_emplace_pos_refuted: emplace_pos<T> accepts a local_iterator<U> for U derived from T, with undefined behavior; C86_emplace_pos_partial says that nothing else wrong compiles, other than types that cannot be stored."
  },
  {
   "property": "C87",
   "status": "partial",
   "theorems": [
    "C87_documented",
    "C87_position_partial",
    "C87_related_refuted",
    "C87_const_partial",
    "C87_const_refuted",
    "C87_upcast_refuted"
   ],
   "note": "The documented conversions and that each keeps the position are proved (C87_position_partial needs, in any_collection and function_collection, elements not related to the value type: C87_related_refuted). C87_const_refuted: the explicit conversion through begin() drops const, no other does (C87_const_partial). C87_upcast_refuted: local_iterator<U> converts implicitly to local_iterator<T> for a base T, and ++ is then wrong unless the sizes are equal."
  },
  {
   "property": "C88",
   "status": "proved",
   "theorems": [
    "C88_grow",
    "C88_visit"
   ],
   "note": "Other types can be changed while the elements of one type are traversed"
  },
  {
   "property": "C89",
   "status": "proved",
   "theorems": [
    "C89_copy_each",
    "C89_range"
   ],
   "note": "Copying a collection element by element registers no types, copying it as a range does"
  }
 ]
}
