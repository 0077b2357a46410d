{"claims": [
 {"property": "C01", "status": "proved", "theorems": ["C01_lookup"], "note": "all histories, hash functions and widths; CHAMP persistent operations"},
 {"property": "C02", "status": "proved", "theorems": ["C02_size"], "note": ""},
 {"property": "C03", "status": "proved", "theorems": ["C03_iteration"], "note": "iterator and for_each_chunk enumerate the same listing"},
 {"property": "C04", "status": "proved", "theorems": ["C04_erase"], "note": ""},
 {"property": "C05", "status": "proved", "theorems": ["C05_equality"], "note": "value equality must be reflexive and imply equal keys"},
 {"property": "C06", "status": "proved", "theorems": ["C06_diff"], "note": "B <= 6 (the bitmap types support no more)"},
 {"property": "C07", "status": "proved", "theorems": ["C07_update", "C07_update_if_exists"], "note": ""},
 {"property": "C08", "status": "proved", "theorems": ["C08_canonical_shape"], "note": ""},
 {"property": "C09", "status": "proved", "theorems": ["C09_bounded_work"], "note": "instrumented functions proved equal to the plain ones"},
 {"property": "C10", "status": "proved", "theorems": ["C10_programs", "C10_transient_is_persistent"], "note": "maps, sets and tables on reference-counted memory: for every program over any number of variables and transients, every query sees what independent values would show; from every reachable state the transient and the persistent way agree."},
 {"property": "C11", "status": "proved", "theorems": ["C11_popcount_fallback32", "C11_popcount_fallback64", "C11_popcount_builtin"], "note": "all 32- and 64-bit words"},
 {"property": "C12", "status": "proved", "theorems": ["C12_set_bits"], "note": "all bitmaps of at most 64 bits"},
 {"property": "C13", "status": "proved", "theorems": ["C13_log2_clz", "C13_log2_portable", "C13_derive_bits_leaf", "C13_derive_bits_leaf_big"], "note": "log2 on std::size_t, as used by derive_bits_leaf"},
 {"property": "C14", "status": "proved", "theorems": ["C14_vector_history", "C14_push_back", "C16_vector_update", "C17_vector_take"], "note": "all histories and widths; each operation is also shown to be defined; indexing up to the 2^(BL+6B) elements the descent supports"},
 {"property": "C15", "status": "proved", "theorems": ["C15_push_back"], "note": "every reachable tree (built), no size or height bound; result observed by size, traversal and indexing"},
 {"property": "C16", "status": "proved", "theorems": ["C16_update", "C16_set", "C16_vector_update", "C16_positions"], "note": ""},
 {"property": "C17", "status": "proved", "theorems": ["C17_take", "C17_vector_take"], "note": ""},
 {"property": "C18", "status": "proved", "theorems": ["C18_drop"], "note": "supported range: shift below 32 and at most 2^32 elements (beyond: C29)"},
 {"property": "C19", "status": "proved", "theorems": ["C19_concat"], "note": "supported range for the right operand; no bound on the left one"},
 {"property": "C20", "status": "proved", "theorems": ["C20_push_front", "C20_insert", "C20_insert_vec", "C20_erase", "C20_erase_range"], "note": "supported range as C18/C19"},
 {"property": "C21", "status": "proved", "theorems": ["C21_plan", "C21_concat_defined"], "note": ""},
 {"property": "C22", "status": "partial", "theorems": ["C22_equality_refuted", "C22_equality_tall_refuted", "C22_equality_partial", "C22_equality_complete_partial", "C22_equality_both_ways_partial"], "note": "refuted: operator== of flex_vector answers true for different sequences; two independent causes. Proved for all reachable pairs: the comparison is defined, equal sequences compare equal, the answer is exact outside the two causes, and a == b && b == a holds iff the elements are the same"},
 {"property": "C23", "status": "proved", "theorems": ["C23_vector_equality"], "note": "element equality must be reflexive (the pointer shortcut answers true for shared nodes)"},
 {"property": "C24", "status": "partial", "theorems": ["C24_indexing_refuted", "C24_indexing_partial"], "note": "refuted: a reachable flex_vector of about two million elements has seven levels and operator[] reaches IMMER_UNREACHABLE; correct up to six levels"},
 {"property": "C25", "status": "proved", "theorems": ["C25_chunks", "C25_chunks_range", "C25_vector_chunks", "C25_vector_chunks_range", "C25_predicate", "C25_predicate_range", "C25_vector_predicate", "C25_vector_predicate_range"], "note": ""},
 {"property": "C26", "status": "proved", "theorems": ["C26_walk", "C26_vector_walk"], "note": "flex_vector: no height limit; vector: the size its descent supports"},
 {"property": "C27", "status": "proved", "theorems": ["C27_at", "C27_vector_at"], "note": ""},
 {"property": "C28", "status": "partial", "theorems": ["C28_flex_max_size", "C28_vector_max_size_partial", "C28_vector_max_size_refuted"], "note": "refuted for vector: max_size() is 0 for B=5, BL=4 (16-byte elements); proved for flex_vector with B >= 2 and for vector when BL+B*floor((64-BL)/B) < 64"},
 {"property": "C29", "status": "partial", "theorems": ["C29_slicing_refuted", "C29_slicing_partial"], "note": "refuted: drop on a vector of 2^32+100 elements shifts a 32-bit offset out and reads out of bounds; proved for sizes up to 2^32 with shift below 32"},
 {"property": "C30", "status": "proved", "theorems": ["C30_operations", "C30_history", "C30_equals", "C30_memory"], "note": "array and array_transient over the reference-counted with_capacity nodes, in an explicit memory; all histories of construction, copy, move, assignment, destruction and operations; the in-place shrink of elements with destructors is excluded (C32), as are sizes whose byte count wraps (C47)"},
 {"property": "C31", "status": "proved", "theorems": ["C31_capacity", "C31_amortized"], "note": "capacity stays within the block and below 2^64; n in-place push_backs copy at most 3*size + 2*n elements"},
 {"property": "C32", "status": "partial", "theorems": ["C32_take_refuted", "C32_always_wrong", "C32_take_partial"], "note": "refuted: take_mut destroys data()+size instead of data()+sz; wrong in every in-place shrink of elements with destructors (C32_always_wrong); correct otherwise (C32_take_partial)"},
 {"property": "C33", "status": "proved", "theorems": ["C33_linearizable", "C33_gc_linearizable"], "note": "interleaving model of the atom (locked, reference-counted; and lock-free, garbage-collected), any number of threads and any schedule; sequentially consistent memory; a linearization is constructed with the execution"},
 {"property": "C34", "status": "proved", "theorems": ["C34_exclusive", "C34_one_inside"], "note": "the spinlock as used by the atom: acquire only when free, release only by the holder; one thread at a time between test_and_set and clear"},
 {"property": "C35", "status": "proved", "theorems": ["C35_alive", "C35_released", "C35_sole_owner", "C35_value_stable"], "note": "boxes shared by threads (refcount_policy, the same counting as nodes): count = number of references, freed once when the last goes, in-place update only by the sole owner; enable_intrusive_ptr itself is not modelled"},
 {"property": "C36", "status": "partial", "theorems": ["C36_refuted", "C36_use_after_free_refuted", "C36_one_allocator_partial", "C36_accounted_partial"], "note": "refuted: with two threads the compare-exchange of allocate can succeed on a head that was popped and pushed again (ABA), after which a block is handed out twice; with three threads allocate reads the link of a block that was returned to the parent heap. Proved instead: if no two allocate calls overlap, with any number of threads and concurrent deallocates, nothing is undefined and no block is handed out twice."},
 {"property": "C37", "status": "proved", "theorems": ["C37_list", "C37_clear", "C38_disjoint"], "note": "free lists inside compositions of heaps, every sequence of allocate, deallocate and clear; one thread (for the thread-local list: the list of one thread)"},
 {"property": "C38", "status": "proved", "theorems": ["C38_matched", "C38_policies_accept", "C38_disjoint", "C38_contents", "C38_no_leak"], "note": "every composition of the adaptors that type-checks, every size and sequence; sizes are unbounded numbers, alignment is not modelled"},
 {"property": "C39", "status": "proved", "theorems": ["C39_value_semantics", "C39_counts", "C39_no_leak", "C39_copy_of_moved_from"], "note": "every program over boxes that does not use the value of a moved-from box; C39_copy_of_moved_from shows that copying a moved-from box dereferences null. Comparisons assume the value type's == is reflexive, != and < irreflexive (the code compares pointers first)."},
 {"property": "C40", "status": "partial", "theorems": ["C40_prepend_move_refuted", "C40_programs_partial", "C40_transient_is_persistent_partial", "C40_made_of_others_partial"], "note": "refuted: t.prepend(std::move(u)) with a full tail of u and a t of one leaf changes what other vectors show (finding 10). Proved on reference-counted memory for every program over any number of variables and transients with push_back, update, take, drop, append, prepend, insert, erase, push_front that avoids this case, appending a variable to itself in place, and the throwing cases of C43: every query sees what independent values would show; from every reachable state the transient and the persistent way show the specified sequence and all others are unchanged. Moving an element to itself is taken for the identity (see C50)."},
 {"property": "C41", "status": "proved", "theorems": ["C41_maps", "C41_vectors", "C41_vectors_in_place_partial", "C41_prepend_move_refuted"], "note": "persistent operations, as in the title: maps, sets, tables, vectors, flex_vectors, concatenation included: counts exact, no dangling pointer, no leak, no double free, after every program. Beyond the title: the same for all in-place operations on maps and for in-place operations on vectors but for the cases of C42 and C43 (C41_prepend_move_refuted shows the one of C42 breaks it)."},
 {"property": "C42", "status": "partial", "theorems": ["C42_prepend_move_refuted", "C42_prepend_move_partial", "C42_in_order_iff"], "note": "refuted: with a full tail of u and a nonempty t that is a tail only, the tail of u ends up referenced twice with a count of one and is freed twice. C42_in_order_iff: from every reachable state memory is in order afterwards exactly if this is not the case."},
 {"property": "C43", "status": "partial", "theorems": ["C43_copy_collision_replace_refuted", "C43_collision_replace_refuted", "C43_erase_in_place_refuted", "C43_push_in_place_refuted", "C43_take_in_place_refuted", "C43_push_front_refuted", "C43_nodes_partial", "C43_maps_partial", "C43_vectors_partial"], "note": "refuted: a throwing copy in copy_collision_replace destroys an element twice; a throwing allocation in an in-place erase leaves a dangling child; a throwing copy of a shared size table in an in-place push_back or take of a flex_vector leaves a node referenced without a count; a throw in an in-place append releases the wrong tail. Proved for all other node-filling functions (all or nothing) and for all map and vector programs that avoid these cases."},
 {"property": "C44", "status": "partial", "theorems": ["C44_refuted", "C44_rvalue_persistent_refuted", "C44_shared_token_refuted", "C44_flex_vector_refuted", "C44_tokens_partial", "C44_isolated_partial", "C44_snapshot_partial"], "note": "refuted: a moved-from transient keeps its token, so using it after the move (or after std::move(t).persistent()) edits nodes of a snapshot in place. Proved for every history that uses moved-from transients only to destroy or assign to them: tokens of live transients are distinct, and no operation changes a node that another live container reaches."},
 {"property": "C45", "status": "proved", "theorems": ["C45_accumulate", "C45_for_each", "C45_copy", "C45_all_of", "C45_vector_all_of", "C45_traversals"], "note": "vector and flex_vector, full and ranged"},
 {"property": "C46", "status": "partial", "theorems": ["C46_take_beyond_refuted", "C46_take_within_partial"], "note": "refuted: take(n) with n > size() reads past the end although documented as min(n, size())"},
 {"property": "C47", "status": "partial", "theorems": ["C47_fill_refuted", "C47_fill_partial"], "note": "refuted: the byte count is computed modulo 2^64, so array(2^62, x) of 4-byte elements allocates a small block and writes past it"},
 {"property": "C48", "status": "proved", "theorems": ["C48_concat", "C48_others", "C48_tokens"], "note": "GcConcat models concat_trees_mut and the merger statement by statement over arrays with unwritten entries; reads is an independent reader; right operands that are only a tail are not in this model"},
 {"property": "C49", "status": "proved", "theorems": ["C49_programs", "C49_snapshot"], "note": "tidy, a check on the text of the program, says that moved-from transients are only assigned to and no transient is concatenated to itself; C44_flex_vector_refuted shows that the former is needed. moves_ok: nothing is dropped from a transient, or elements are not nothrow move constructible, or they keep their value when moved to themselves; C50 shows that it is needed. Vectors deeper or larger than supported (C29) end a concatenation or drop with an observation. Single thread."},
 {"property": "C50", "status": "partial", "theorems": ["C50_drop_in_place_refuted", "C50_drop_in_place_partial"], "note": "refuted: with a cut at the start of a leaf every element of the leaf is move-assigned from itself (operations.hpp:1386), which empties strings and vectors of libstdc++ (finding 24). Proved for all tidy programs when elements keep their value when moved to themselves, or are not nothrow move constructible (then they are copied). Vectors deeper or larger than supported (C29) are left out."},
 {"property": "C51", "status": "partial", "theorems": ["C51_erase_in_place_refuted", "C51_threads_partial"], "note": "refuted: erase in place may copy an element from a shared child that another thread has freed meanwhile (champ.hpp:1386-1393); partial: all threads that do not erase in place, no exceptions, sequentially consistent memory (for weaker memory see C53)"},
 {"property": "C52", "status": "partial", "theorems": ["C52_push_back_in_place_refuted", "C52_drop_in_place_refuted", "C52_take_in_place_refuted", "C52_threads_partial"], "note": "refuted: push_back and drop in place on a flex_vector may read a table of sizes that another thread has freed meanwhile (operations.hpp:665-711, 1268-1281), take in place may leak a child when another thread lets go of the shared node meanwhile (operations.hpp:916-970); partial: threads that do none of these, and do not concatenate or throw; sequentially consistent memory (for weaker memory see C53)"},
 {"property": "C53", "status": "proved", "theorems": ["C53_map_orders", "C53_vector_orders"], "note": "threads of C51 (no removal in place) and C52 (no concatenation, no cutting in place, no adding to a flex_vector in place), without exceptions; steps are listed in an order that agrees with program order and with each count's order of changes"},
 {"property": "C54", "status": "proved", "theorems": ["C54_box_orders", "C54_no_leak"], "note": "executions as in C53; the value in a box is read or written in one step; functions passed to update are pure"},
 {"property": "C55", "status": "partial", "theorems": ["C55_step_partial", "C55_values_partial", "C55_moved_refuted", "C55_take_refuted"], "note": "refuted: after a = std::move(t).persistent() writing to t changes a, and take in place of elements with destructors is undefined; proved for all programs that do neither; element equality is reflexive, tokens can always be allocated"},
 {"property": "C56", "status": "partial", "theorems": ["C56_amortized_partial", "C56_set_copies", "C56_set_refuted"], "note": "refuted: set never takes ownership of the node it makes, so n sets copy n times the size; proved for all sequences of push_back, update and take"},
 {"property": "C57", "status": "proved", "theorems": ["C57_array_orders", "C57_no_leak"], "note": "executions as in C53; the elements of a node are read or written in one step; the static of empty() is made before the threads start; elements and functions passed do not throw; shrinking elements with destructors in place excluded (C32)"},
 {"property": "C58", "status": "partial", "theorems": ["C58_values_partial", "C58_values_refuted"], "note": "refuted: goto_fresh_pos_writable_from_clean does not decrease shift and loses elements (68 elements with B = 2, update, push_back); proved for programs that start a block of a version with more than 2^(3B) elements only with the last change in the block before. Nodes are not freed in the model, sizes are unbounded"},
 {"property": "C59", "status": "partial", "theorems": ["C59_iterators_partial", "C59_full_blocks_refuted", "C59_empty_refuted"], "note": "refuted: the last ++ over a size that is a multiple of 2^B and begin/end of an empty vector dereference null; proved for all other versions and moves of C58's programs"},
 {"property": "C60", "status": "proved", "theorems": ["C60_map", "C60_set", "C60_table"], "note": "map.hpp, set.hpp and table.hpp over the champ of C01, C02 and C05; == of tables is C61; transparent lookups and constructors from ranges are not separate"},
 {"property": "C61", "status": "partial", "theorems": ["C61_table_equality_partial", "C61_table_equality_refuted"], "note": "refuted: equal_value of table does not compare keys, so tables with different keys are equal when the elements' == leaves out the key and the hashes share slots; proved when == of elements implies equal keys"},
 {"property": "C62", "status": "proved", "theorems": ["C62_spinlock", "C62_progress", "C62_atom"], "note": "executions are lists that agree with program order and the flag's modification order; the counts of boxes are left out (C54); at most n attempts of update, for every n"},
 {"property": "C63", "status": "proved", "theorems": ["C63_flex_vector", "C63_vector"], "note": "sizes below 2^63; for vector also at most 2^(BL+6B) as in C26; operator-> is the address of operator*"},
 {"property": "C64", "status": "proved", "theorems": ["C64_forward"], "note": "addresses of elements are compared by a function of which it is assumed that it is reflexive and that one address has one element"},
 {"property": "C65", "status": "proved", "theorems": ["C65_champ", "C65_vector"], "note": "offsets as in the Itanium ABI; arrays have the layout of values_t"},
 {"property": "C66", "status": "partial", "theorems": ["C66_objects_fit_partial", "C66_objects_fit_refuted"], "note": "values_t and arrays fit; nodes of champ and of vectors may be larger than their blocks (finding 33)"},
 {"property": "C67", "status": "partial", "theorems": ["C67_sizes_partial", "C67_sizes_refuted"], "note": "false for tables deleted by ensure_mutable_relaxed with elements of alignment above 8 or tagged nodes (finding 34)"},
 {"property": "C68", "status": "partial", "theorems": ["C68_alignment_partial", "C68_alignment_refuted"], "note": "true for alignments up to 8, false for 16 (finding 35)"}
]}
