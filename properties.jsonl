{"id": "C01", "title": "map/set/table lookup reflects the whole history", "statement": "After any finite sequence of insert/set/update/update_if_exists/erase calls starting from the empty container, find(k)/count(k)/at(k)/operator[](k) returns exactly what the last effective write to a key equal to k dictates, and nothing if the key was never written or was erased last.", "quantifier": "every finite operation history, every key, every 64-bit hash function (including constant ones) compatible with the key equality, every branching width B in 1..6", "why_tests_cant": "histories and hash functions are unbounded; collisions down to the last level depend on adversarial hashes no test enumerates", "anchors": ["immer/detail/hamts/champ.hpp: get, add, update, update_if_exists, sub", "immer/detail/hamts/node.hpp: make_merged, copy_*", "immer/map.hpp", "immer/set.hpp", "immer/table.hpp"]}
{"id": "C02", "title": "size() counts distinct keys", "statement": "size() always equals the number of distinct keys currently stored; insert of a present key, update_if_exists and erase of an absent key leave it unchanged.", "quantifier": "every history, hash function, key", "why_tests_cant": "counter and tree are separate state; only an invariant over all histories relates them", "anchors": ["immer/detail/hamts/champ.hpp: size, add, sub, update", "immer/map.hpp: size", "immer/set.hpp: size"]}
{"id": "C03", "title": "iteration visits every element exactly once", "statement": "Incrementing begin() of a map/set/table reaches end() after exactly size() steps, and the dereferenced values are exactly the stored elements, each once; for_each_chunk visits the same sequence.", "quantifier": "every container reachable by any history", "why_tests_cant": "depth-first path stack over arbitrary trees, including collision nodes at the last level", "anchors": ["immer/detail/hamts/champ_iterator.hpp: champ_iterator", "immer/detail/hamts/champ.hpp: for_each_chunk"]}
{"id": "C04", "title": "erase removes exactly one key and never reaches the unreachable branch", "statement": "erase(k) makes k absent and leaves every other key's value untouched; on an absent key it returns an equal container; it is defined behaviour for every reachable container.", "quantifier": "every reachable container and key", "why_tests_cant": "collapse of singleton chains depends on arbitrary hash prefixes; the UNREACHABLE branch needs a global invariant", "anchors": ["immer/detail/hamts/champ.hpp: do_sub, sub", "immer/detail/hamts/node.hpp: copy_inner_replace_inline, copy_inner_remove_value, copy_collision_remove"]}
{"id": "C05", "title": "map/set equality is content equality", "statement": "a == b holds iff a and b contain the same keys mapped to equal values, independently of the order of operations that produced them.", "quantifier": "every pair of reachable containers with the same hash function", "why_tests_cant": "equality compares shapes, so it is right only because shape is canonical for every history", "anchors": ["immer/detail/hamts/champ.hpp: equals, equals_tree, equals_collisions", "immer/map.hpp: operator=="]}
{"id": "C06", "title": "diff reports exactly the difference", "statement": "diff(a,b) calls added exactly once for each element whose key is in b only, removed exactly once for each element whose key is in a only, changed exactly once for each key in both with a different value, and nothing else.", "quantifier": "every pair of reachable containers", "why_tests_cant": "all combinations of value/child/collision slots at every level", "anchors": ["immer/detail/hamts/champ.hpp: diff, diff_*", "immer/algorithm.hpp: diff"]}
{"id": "C07", "title": "update and update_if_exists apply the function to the current value", "statement": "update(k,fn) stores fn(value at k) or fn(default) when absent; update_if_exists(k,fn) stores fn(value) only when present and otherwise returns an equal container; all other keys are untouched.", "quantifier": "every reachable container, key and pure function", "why_tests_cant": "every position of the key in the tree and every hash", "anchors": ["immer/detail/hamts/champ.hpp: do_update, do_update_if_exists", "immer/map.hpp: update, update_if_exists"]}
{"id": "C08", "title": "shape is history independent", "statement": "Two containers with the same contents built by different histories have the same internal layout up to the order inside full-hash collision groups, so iteration order is also history independent for collision-free hashes.", "quantifier": "every two histories leading to the same contents", "why_tests_cant": "pairs of histories are unbounded", "anchors": ["immer/detail/hamts/champ.hpp: do_add, do_sub", "immer/detail/hamts/node.hpp: make_merged"]}
{"id": "C09", "title": "lookup work is bounded by the hash width", "statement": "A lookup, insertion or erasure inspects at most ceil(64/B) inner nodes followed by at most one collision node.", "quantifier": "every reachable container, key, hash", "why_tests_cant": "depth is bounded only by an invariant", "anchors": ["immer/detail/hamts/champ.hpp: get, do_add, do_sub", "immer/detail/hamts/bits.hpp: max_depth"]}
{"id": "C10", "title": "map transients compute what the persistent operations compute", "statement": "Running a sequence of operations through transient() / persistent() gives a container with the same contents as running them persistently.", "quantifier": "every starting container, every operation sequence, every sharing state of nodes", "why_tests_cant": "which nodes are copied or modified in place depends on all other live handles", "anchors": ["immer/detail/hamts/champ.hpp: add_mut, update_mut, sub_mut", "immer/map_transient.hpp", "immer/set_transient.hpp"]}
{"id": "C11", "title": "popcount fallback", "statement": "The portable popcount returns the number of set bits of its argument.", "quantifier": "every 32-bit and every 64-bit word", "why_tests_cant": "2^64 inputs", "anchors": ["immer/detail/hamts/bits.hpp: popcount_fallback"]}
{"id": "C12", "title": "bit ranges enumerate set bits", "statement": "Iterating over the set bits of a bitmap yields each set bit once, in increasing order, and terminates.", "quantifier": "every bitmap of every width", "why_tests_cant": "2^64 inputs", "anchors": ["immer/detail/hamts/bits.hpp: set_bits_range"]}
{"id": "C13", "title": "leaf width computation", "statement": "The leaf width derived for an element size gives leaves no bigger than needed and the integer log2 used for it is floor(log2 x) for every positive 64-bit x.", "quantifier": "every element size and every x", "why_tests_cant": "2^64 inputs", "anchors": ["immer/detail/util.hpp: log2", "immer/detail/rbts/node.hpp: derive_bits_leaf"]}
{"id": "C14", "title": "vector indexing after any history", "statement": "For a vector built by any sequence of push_back/set/update/take, size() is the length of the sequence those calls describe and v[i] is its i-th element (as long as the size is within the 2^(BL+6B) elements that the bounded descent supports: 2^35 for the default widths); no call has undefined behaviour.", "quantifier": "every history, index below size, branching widths B and BL", "why_tests_cant": "tree height and spine shape depend on unbounded sizes", "anchors": ["immer/detail/rbts/rbtree.hpp: push_back, get, assoc, update, take", "immer/detail/rbts/operations.hpp: push_tail_visitor, get_visitor, update_visitor, slice_right_visitor", "immer/vector.hpp"]}
{"id": "C15", "title": "flex_vector push_back", "statement": "v.push_back(x) has the elements of v followed by x, for every flex_vector shape that any combination of operations can produce.", "quantifier": "every reachable relaxed tree", "why_tests_cant": "relaxed shapes are unbounded", "anchors": ["immer/detail/rbts/rrbtree.hpp: push_back, push_tail", "immer/detail/rbts/operations.hpp: push_tail_visitor", "immer/flex_vector.hpp"]}
{"id": "C16", "title": "set/update touch one position", "statement": "v.set(i,x) / v.update(i,fn) differ from v exactly at i, where they hold x / fn(v[i]); size is unchanged.", "quantifier": "every reachable vector and flex_vector and every index below size", "why_tests_cant": "every tree shape", "anchors": ["immer/detail/rbts/rbtree.hpp: assoc, update", "immer/detail/rbts/rrbtree.hpp: assoc, update", "immer/detail/rbts/operations.hpp: update_visitor"]}
{"id": "C17", "title": "take keeps the prefix", "statement": "v.take(n) has exactly the first min(n,size) elements of v.", "quantifier": "every reachable vector/flex_vector, every n", "why_tests_cant": "boundary cases (leaf, node and root boundaries) at every height", "anchors": ["immer/detail/rbts/rrbtree.hpp: take", "immer/detail/rbts/operations.hpp: slice_right_visitor"]}
{"id": "C18", "title": "drop keeps the suffix", "statement": "v.drop(n) has exactly the elements of v from position n on (none if n >= size), and the result is again a vector all other properties apply to. Supported range: operands of at most 2^32 elements and shift below 32; what happens beyond is C29.", "quantifier": "every reachable flex_vector in the supported range, every n", "why_tests_cant": "boundary cases at every height", "anchors": ["immer/detail/rbts/rrbtree.hpp: drop", "immer/detail/rbts/operations.hpp: slice_left_visitor"]}
{"id": "C19", "title": "concatenation", "statement": "a + b has the elements of a followed by those of b. Supported range: operands of at most 2^32 elements and shift below 32; what happens beyond is C29.", "quantifier": "every two reachable flex_vectors of any heights and shapes in the supported range", "why_tests_cant": "rebalancing of two arbitrary spines", "anchors": ["immer/detail/rbts/rrbtree.hpp: concat", "immer/detail/rbts/operations.hpp: concat_trees, concat_inners, concat_leafs, concat_rebalance, concat_merger"]}
{"id": "C20", "title": "insert, erase, push_front", "statement": "insert(pos,x), insert(pos,v), erase(pos), erase(a,b) and push_front behave as the corresponding list operations. Supported range: operands of at most 2^32 elements and shift below 32; what happens beyond is C29.", "quantifier": "every reachable flex_vector in the supported range and every position", "why_tests_cant": "composition of slicing and concatenation on arbitrary shapes", "anchors": ["immer/flex_vector.hpp: insert, erase, push_front"]}
{"id": "C21", "title": "the rebalancing plan of concatenation is memory safe and terminates", "statement": "While concatenating, the redistribution plan never reads or writes outside its fixed-size table, terminates, keeps the number of elements, and yields only non-empty nodes of at most the maximum width with at most one extra node over the optimum.", "quantifier": "every pair of trees", "why_tests_cant": "table index depends on all node widths on both spines", "anchors": ["immer/detail/rbts/operations.hpp: concat_rebalance_plan"]}
{"id": "C22", "title": "flex_vector equality is element equality", "statement": "a == b iff a and b have the same elements in the same order.", "quantifier": "every two reachable flex_vectors", "why_tests_cant": "pairs of different shapes holding the same or almost the same elements", "anchors": ["immer/detail/rbts/rrbtree.hpp: equals", "immer/detail/rbts/operations.hpp: equals_visitor"]}
{"id": "C23", "title": "vector equality is element equality", "statement": "For vectors, a == b iff a and b have the same elements in the same order.", "quantifier": "every two reachable vectors", "why_tests_cant": "all sizes and sharing patterns", "anchors": ["immer/detail/rbts/rbtree.hpp: equals", "immer/detail/rbts/operations.hpp: equals_visitor"]}
{"id": "C24", "title": "indexing is defined for every reachable flex_vector", "statement": "For every flex_vector obtained through the public API and every i < size(), v[i] is defined and is the i-th element.", "quantifier": "every reachable flex_vector, every index", "why_tests_cant": "tree height is not bounded by the size for relaxed trees", "anchors": ["immer/detail/rbts/position.hpp: visit_maybe_relaxed_descent, visit_regular_descent", "immer/config.hpp: IMMER_DESCENT_DEEP"]}
{"id": "C25", "title": "chunked traversal covers the sequence in order", "statement": "The chunks passed to for_each_chunk, concatenated, are exactly the elements in order; the ranged version yields exactly the elements in [first,last); the predicate version stops at the first chunk for which the predicate is false.", "quantifier": "every reachable vector/flex_vector and every range", "why_tests_cant": "every shape and range boundary", "anchors": ["immer/detail/rbts/operations.hpp: for_each_chunk_*_visitor", "immer/detail/rbts/rrbtree.hpp: traverse, traverse_p", "immer/algorithm.hpp"]}
{"id": "C26", "title": "vector iterators are random access over the sequence", "statement": "Starting at begin(), any sequence of ++, --, += n that stays within [begin,end] dereferences to the element at the resulting index, whatever was dereferenced before.", "quantifier": "every reachable vector/flex_vector and every iterator walk", "why_tests_cant": "the iterator caches a leaf region between dereferences", "anchors": ["immer/detail/rbts/rbtree_iterator.hpp", "immer/detail/rbts/rrbtree_iterator.hpp", "immer/detail/rbts/rrbtree.hpp: region_for"]}
{"id": "C27", "title": "at() throws exactly out of range", "statement": "at(i) throws out_of_range iff i >= size() and otherwise returns the i-th element.", "quantifier": "every reachable vector/flex_vector (of a height the descent supports, see C24) and every i; array: C30", "why_tests_cant": "all sizes", "anchors": ["immer/detail/rbts/rbtree.hpp: get_check", "immer/detail/rbts/rrbtree.hpp: get_check", "immer/detail/arrays/no_capacity.hpp: get_check"]}
{"id": "C28", "title": "max_size is an upper bound that is not zero", "statement": "max_size() is a positive bound on the number of elements the tree arithmetic supports.", "quantifier": "every pair of bit widths", "why_tests_cant": "compile-time constants over all template arguments", "anchors": ["immer/detail/rbts/rbtree.hpp: max_size", "immer/detail/rbts/rrbtree.hpp: max_size"]}
{"id": "C29", "title": "slicing arithmetic does not overflow", "statement": "drop and concatenation compute offsets correctly for every size that max_size() allows.", "quantifier": "every size and depth", "why_tests_cant": "needs vectors beyond 2^32 elements", "anchors": ["immer/detail/rbts/position.hpp: towards_sub_oh_regular, each_right_sub_"]}
{"id": "C30", "title": "array operations", "statement": "array push_back, set, update, take behave as list operations, and never change any other array.", "quantifier": "every history", "why_tests_cant": "all sizes and sharing states", "anchors": ["immer/detail/arrays/no_capacity.hpp", "immer/detail/arrays/with_capacity.hpp", "immer/array.hpp"]}
{"id": "C31", "title": "array capacity arithmetic", "statement": "A transient array never writes beyond its capacity, its capacity never wraps around, and appending n elements copies O(n) elements in total.", "quantifier": "every sequence of push_back/take, every size up to the address space", "why_tests_cant": "sizes near the maximum and unbounded sequences", "anchors": ["immer/detail/arrays/with_capacity.hpp: recommend_up, recommend_down, push_back_mut, take_mut"]}
{"id": "C32", "title": "array shrinking destroys exactly the dropped elements", "statement": "take on a transient (or moved) array destroys each dropped element exactly once and no other memory.", "quantifier": "every size and new size", "why_tests_cant": "object lifetime is invisible to value-level tests", "anchors": ["immer/detail/arrays/with_capacity.hpp: take_mut"]}
{"id": "C33", "title": "atom operations are linearizable", "statement": "Concurrent load/store/exchange/update on an atom behave as if each happened atomically at one instant between its call and its return; in particular no update is lost.", "quantifier": "every number of threads, every program and every interleaving", "why_tests_cant": "schedules are unbounded", "anchors": ["immer/atom.hpp: refcount_atom_impl, gc_atom_impl", "immer/lock/spinlock_policy.hpp"]}
{"id": "C34", "title": "spinlock mutual exclusion", "statement": "At most one thread at a time is inside the critical section guarded by the spinlock.", "quantifier": "every number of threads and interleaving", "why_tests_cant": "schedules are unbounded", "anchors": ["immer/lock/spinlock_policy.hpp"]}
{"id": "C35", "title": "shared nodes are released exactly once and only when unreferenced", "statement": "With thread-safe reference counting, a shared object is destroyed exactly once, after the last handle to it is dropped, under every interleaving of handle copies and destructions; the in-place path is taken only by the sole owner.", "quantifier": "every number of threads and interleaving", "why_tests_cant": "schedules are unbounded", "anchors": ["immer/refcount/refcount_policy.hpp", "immer/refcount/enable_intrusive_ptr.hpp"]}
{"id": "C36", "title": "the thread-safe free list never hands out a block twice", "statement": "A block returned by allocate is not returned again by any thread before it is deallocated.", "quantifier": "every number of threads and interleaving", "why_tests_cant": "ABA interleavings do not show up in tests", "anchors": ["immer/heap/free_list_heap.hpp: allocate, deallocate"]}
{"id": "C37", "title": "single-threaded and thread-local free lists are correct", "statement": "For every sequence of allocate/deallocate/clear, blocks in use are pairwise distinct and never in the free list, the list holds at most Limit blocks, and clear returns all of them to the parent heap.", "quantifier": "every sequence", "why_tests_cant": "unbounded sequences", "anchors": ["immer/heap/unsafe_free_list_heap.hpp", "immer/heap/thread_local_free_list_heap.hpp"]}
{"id": "C38", "title": "heap adaptors agree between allocation and deallocation", "statement": "A block allocated through the composed heaps (split, with_data, debug_size, free list) is deallocated to the same parent heap with the same parent size and address, provided the caller passes the same size.", "quantifier": "every size and composition", "why_tests_cant": "all sizes and compositions", "anchors": ["immer/heap/split_heap.hpp", "immer/heap/with_data.hpp", "immer/heap/debug_size_heap.hpp", "immer/heap/heap_policy.hpp"]}
{"id": "C39", "title": "box has value semantics", "statement": "A box's value changes only through operations on that box; copies of it keep the old value, including when update is called on an rvalue box.", "quantifier": "every history of copies, moves, updates", "why_tests_cant": "in-place update depends on the reference count of all handles", "anchors": ["immer/box.hpp"]}
{"id": "C40", "title": "transient vectors do not disturb other vectors", "statement": "Operations on a transient (or on an rvalue container) never change the elements seen through any other live vector, and compute the same sequence as the persistent operation.", "quantifier": "every sharing state and operation sequence", "why_tests_cant": "in-place modification depends on all live handles", "anchors": ["immer/detail/rbts/rbtree.hpp: push_back_mut, assoc_mut, take_mut", "immer/detail/rbts/rrbtree.hpp: *_mut", "immer/vector_transient.hpp", "immer/flex_vector_transient.hpp"]}
{"id": "C41", "title": "no leak and no use after free in persistent vector and map operations", "statement": "After any history of operations and handle destructions, every node reachable from a live handle is allocated, its count equals the number of references to it, and once all handles are gone every node has been freed exactly once.", "quantifier": "every history", "why_tests_cant": "reference counts are a global invariant", "anchors": ["immer/detail/rbts/node.hpp: inc, dec, delete_*", "immer/detail/hamts/node.hpp: inc, dec, delete_*", "immer/detail/rbts/rrbtree.hpp"]}
{"id": "C42", "title": "prepending a moved transient keeps reference counts right", "statement": "t.prepend(std::move(u)) leaves both transients destructible without freeing a node that is still referenced.", "quantifier": "every u and t", "why_tests_cant": "depends on the fill of the last leaf of u", "anchors": ["immer/detail/rbts/rrbtree.hpp: concat_mut_lr_r", "immer/flex_vector_transient.hpp: prepend"]}
{"id": "C43", "title": "exceptions while copying leave no half-built nodes", "statement": "If the element copy constructor throws during a container operation, every constructed copy is destroyed exactly once, nothing else is destroyed, and existing containers are unchanged.", "quantifier": "every operation, element count and throw position", "why_tests_cant": "crash points are unbounded", "anchors": ["immer/detail/util.hpp: uninitialized_copy, uninitialized_move, uninitialized_fill", "immer/detail/hamts/node.hpp: copy_collision_replace, copy_inner_insert_value", "immer/detail/rbts/node.hpp: copy_leaf"]}
{"id": "C44", "title": "transient ownership tokens are unique", "statement": "Under garbage collection, a node may be modified in place only by the transient that created it since its last persistent(); copies of a transient and its snapshots never share a token.", "quantifier": "every history of copy, move, persistent and modification of transients", "why_tests_cant": "token equality is a global property of histories", "anchors": ["immer/transience/gc_transience_policy.hpp", "immer/flex_vector_transient.hpp", "immer/map_transient.hpp"]}
{"id": "C45", "title": "algorithms agree with their std counterparts", "statement": "accumulate, for_each, copy and all_of over a container give the result of the std algorithm on its element sequence.", "quantifier": "every container, range and function", "why_tests_cant": "all shapes", "anchors": ["immer/algorithm.hpp"]}
{"id": "C46", "title": "array take beyond the size", "statement": "array.take(n) has the first min(n, size()) elements, as documented.", "quantifier": "every array and every n, including n > size()", "why_tests_cant": "reading past the end of a heap block often goes unnoticed", "anchors": ["immer/array.hpp: take (doc at line 274)", "immer/detail/arrays/no_capacity.hpp: take", "immer/detail/arrays/with_capacity.hpp: take, take_mut"]}
{"id": "C47", "title": "array construction with a huge size", "statement": "array(n, x) holds n copies of x or fails with bad_alloc; it never writes outside its block.", "quantifier": "every n of type size_t and every element size", "why_tests_cant": "needs sizes whose byte count exceeds 64 bits", "anchors": ["immer/detail/arrays/node.hpp: sizeof_n, make_n, fill_n", "immer/array.hpp: array(size_type, T)"]}
{"id": "C48", "title": "concatenation in place under garbage collection", "statement": "Appending or prepending a flex_vector to a transient in place, with edit tokens, yields the one sequence followed by the other, reads no entry that was not written, writes inside of the capacity of nodes only, and changes no node that does not carry a token of the operands: all other vectors and everything obtained earlier by persistent() stay as they are.", "quantifier": "every pair of flex_vectors obtained by public calls (the right one more than a tail), every placement of their nodes in memory, every set of nodes that carry the tokens, every sharing of the other nodes", "why_tests_cant": "the merger overwrites nodes it is reading from; which nodes depends on shapes, shares and tokens, and a damaged node may belong to a vector that is read much later", "anchors": ["immer/detail/rbts/operations.hpp: concat_merger_mut, concat_rebalance_plan::merge (in place), concat_leafs_mut, concat_inners_mut, concat_trees_mut", "immer/detail/rbts/rrbtree.hpp: concat_mut_l, concat_mut_r, concat_mut_lr_l, concat_mut_lr_r", "immer/transience/gc_transience_policy.hpp"]}
{"id": "C49", "title": "programs with flex_vector transients under garbage collection", "statement": "In a program that uses flex_vectors and their transients under garbage collection every variable always holds its own sequence: what is done through one transient is seen in no flex_vector and in no other transient, however blocks are shared, nothing unwritten is read and no assertion fails.  A flex_vector reads the same for as long as it lives.  Transients that were moved from may only be assigned to.  If something is dropped from a transient, elements keep their value when they are moved to themselves (see C50).", "quantifier": "all programs of any length over new, transient, persistent (lvalue and rvalue), copy, move, copy and move assignment, push_back (persistent and transient), update, append and prepend of lvalue and rvalue transients, take and drop of transients and of vectors; all branching factors B >= 2; all element types", "why_tests_cant": "tokens decide in place or copy node by node; a wrong decision shows only in another variable that happens to share the node, after a history that gave it the token", "anchors": ["immer/flex_vector_transient.hpp", "immer/detail/rbts/rrbtree.hpp: push_back_mut, update_mut, take_mut, drop_mut, take, drop, concat_mut_l, concat_mut_r, concat_mut_lr_l, concat_mut_lr_r", "immer/detail/rbts/operations.hpp: push_tail_mut_visitor, update_mut_visitor, slice_right_mut_visitor, slice_left_mut_visitor, slice_right_visitor, slice_left_visitor, concat_trees_mut", "immer/transience/gc_transience_policy.hpp"]}
{"id": "C50", "title": "dropping in place keeps the elements that are left", "statement": "After t.drop(n) the transient holds the elements from n on, each with the value it had, for every element type that can be moved and destroyed, whatever its move assignment does with an object that is assigned to itself.", "quantifier": "all programs over flex_vectors and transients, all n, all sizes and depths, all branching factors B >= 2, all element types", "why_tests_cant": "only cuts at the boundary of a leaf below a node that is edited in place are affected, and only elements whose self-move loses the value; tests use integers", "anchors": ["immer/detail/rbts/operations.hpp:1374-1396: slice_left_mut_visitor::visit_leaf", "immer/detail/rbts/rrbtree.hpp:643-677: drop_mut", "immer/flex_vector_transient.hpp:195"]}
{"id": "C51", "title": "maps that share nodes can be used from several threads", "statement": "Threads that each use their own map variables, which may share nodes with those of other threads in any way, do not disturb each other: no interleaving of their accesses to memory is undefined or contains a data race, every thread sees exactly what it would see if it ran alone, after the last thread ends nothing has leaked or was freed too early, and every thread that keeps getting turns ends.", "quantifier": "all programs that make the maps, all ways to split their variables among any number of threads, all programs of the threads (copies, moves, assignments, destruction, persistent and in-place operations, lookups), all interleavings, all branching parameters B >= 1, all hash functions, collisions included", "why_tests_cant": "the windows are a few instructions wide and depend on counts of shared nodes; a thread sanitizer only sees the interleavings that occur", "anchors": ["immer/detail/hamts/champ.hpp:1340-1510: do_sub_mut, sub_mut", "immer/detail/hamts/champ.hpp:569-1335: do_add, do_update, do_update_if_exists, do_sub and in-place forms", "immer/detail/hamts/node.hpp: can_mutate, copy_inner_*, move_inner_*, delete_deep", "immer/refcount/refcount_policy.hpp:23-41"]}
{"id": "C52", "title": "vectors and flex_vectors that share nodes can be used from several threads", "statement": "Threads that each use their own vector and flex_vector variables, which may share nodes and tables of sizes with those of other threads in any way, do not disturb each other: no interleaving of their accesses to memory is undefined or contains a data race, every thread sees exactly what it would see if it ran alone, after the last thread ends nothing has leaked or was freed too early, and every thread that keeps getting turns ends.", "quantifier": "all programs that make the containers (concatenations and in-place operations included), all ways to split their variables among any number of threads, all programs of the threads (copies, moves, assignments, destruction, push_back, update, take, drop, lookups; in-place operations), all interleavings, all branching parameters B >= 1 and BL, sizes and depths without bound", "why_tests_cant": "the windows are a few instructions wide and depend on which nodes and tables are shared at that moment; a thread sanitizer only sees the interleavings that occur", "anchors": ["immer/detail/rbts/operations.hpp:588-711: push_tail_visitor, push_tail_mut_visitor", "immer/detail/rbts/operations.hpp:916-1060: slice_right_mut_visitor", "immer/detail/rbts/node.hpp:880-943: can_mutate, ensure_mutable_relaxed_n", "immer/detail/rbts/position.hpp:1413-1424", "immer/detail/rbts/rrbtree.hpp:180-760", "immer/refcount/refcount_policy.hpp:23-41"]}
{"id": "C53", "title": "the memory orders of the reference counts suffice", "statement": "With relaxed increments, acquire-release decrements and an acquiring unique() that may see outdated counts, and with no other ordering between threads, threads that use containers sharing nodes have no data race (any two accesses to a node by different threads, one of which changes or frees it, are ordered by happens-before), never access freed memory, see exactly what they would see alone, leak nothing, and end.", "quantifier": "all programs that make maps, sets, tables, vectors and flex_vectors, all ways to split their variables among any number of threads, all programs of the threads that C51 and C52 prove right under sequential consistency, all executions and all choices of which count each unique() sees", "why_tests_cant": "common hardware orders more than the code asks for, so too weak an order does not show in tests; a sanitizer checks one execution at a time", "anchors": ["immer/refcount/refcount_policy.hpp:33-40: inc, dec, unique", "immer/detail/hamts/node.hpp: can_mutate, dec, inc of nodes", "immer/detail/rbts/node.hpp:880-943: can_mutate, ensure_mutable"]}
{"id": "C54", "title": "boxes that share a value can be used from several threads", "statement": "Threads that use boxes sharing values (copying, moving, assigning, updating as lvalue and as rvalue in place, reading, comparing, destroying) under the memory orders of the counts have no data race, never access freed memory, see exactly what the value semantics says about their own boxes, free every box exactly when its last variable goes, and end.", "quantifier": "all programs that make boxes, all ways to split their variables among any number of threads, all programs of the threads that do not use the value of a moved-from box, all executions and all choices of which count each unique() sees", "why_tests_cant": "whether update on an rvalue may write in place depends on a count that other threads are changing; tests see few interleavings and the strong ordering of the hardware", "anchors": ["immer/box.hpp:98-121: copy, move, assignment, destructor", "immer/box.hpp:150-163: update", "immer/refcount/refcount_policy.hpp:33-40: inc, dec, unique"]}
{"id": "C55", "title": "arrays and array transients under garbage collection keep their values", "statement": "No program over arrays and array transients under a garbage collector is undefined, every variable shows the list that value semantics gives it, and no array changes when a transient that shares its memory is edited.", "quantifier": "all programs (construction, copy, move, assignment, destruction, push_back, set, update, take, transient, persistent, at, ==), all element types, all sizes, all allocation failures", "why_tests_cant": "isolation depends on tokens whose history is arbitrary; tests try few histories and few sizes", "anchors": ["immer/detail/arrays/no_capacity.hpp", "immer/detail/arrays/with_capacity.hpp", "immer/detail/arrays/node.hpp: can_mutate, copy_e, make_e", "immer/array_transient.hpp:184-192: persistent", "immer/transience/gc_transience_policy.hpp"]}
{"id": "C56", "title": "edits through an array transient are effectively O(1) under garbage collection", "statement": "Any sequence of n edits (push_back, update, take, set) of one array transient copies O(size + n) elements in all.", "quantifier": "all reachable states, all sequences of edits of a transient", "why_tests_cant": "a cost bound over unbounded sequences; tests check values, not the number of copies", "anchors": ["immer/array_transient.hpp:140-178: push_back, set, update, take and their documented complexity", "immer/detail/arrays/with_capacity.hpp:209-312: push_back_mut, assoc_mut, update_mut, take_mut"]}
{"id": "C57", "title": "arrays that share nodes can be used from several threads", "statement": "Threads that use arrays and array transients sharing nodes (making, copying, moving, assigning, push_back, update, set and take, persistent and in place, at, ==, size, destroying) under the memory orders of the counts have no data race, never access freed memory or slots without an element, see exactly what the value semantics says about their own arrays (or std::bad_alloc where more memory is needed, without effect), free every node exactly when its last variable goes, and end. Shrinking elements with destructors in place is excluded (undefined by C32).", "quantifier": "all programs that make arrays, all ways to split their variables among any number of threads, all programs of the threads whose next statement may depend on what the last ones showed, all element types and sizes, all limits of the heap, all executions and all choices of which count each unique() sees", "why_tests_cant": "whether an edit may write in place depends on a count that other threads are changing; tests see few interleavings and the strong ordering of the hardware", "anchors": ["immer/detail/arrays/with_capacity.hpp:46-97: copy, move, assignment, dec", "immer/detail/arrays/with_capacity.hpp:187-311: push_back, assoc, update, take and their _mut forms", "immer/detail/arrays/node.hpp:67-132: delete_n, make_n, copy_n", "immer/refcount/refcount_policy.hpp:33-40: inc, dec, unique"]}
{"id": "C58", "title": "versions of dvektor are values", "statement": "After any sequence of push_back and update on any versions of a dvektor, every version, including those that others were made from, has the size and the elements that a list with the same edits has. (Refuted; proved when a block of a version with more than 2^(3B) elements is only started with the last change in the block before.)", "quantifier": "all programs of push_back and update over any number of versions, all element types, all numbers of bits B and depths of the display", "why_tests_cant": "the fault needs a vector with four levels (more than 32768 elements by default), an update far from the end and then a push_back exactly at the start of a block", "anchors": ["immer/experimental/detail/dvektor_impl.hpp:164-289: get_elem, stabilize, goto_pos_writable, goto_fresh_pos_writable", "immer/experimental/detail/dvektor_impl.hpp:337-402: push_back, get, update, assoc"]}
{"id": "C59", "title": "iterators of dvektor show the elements", "statement": "An iterator of a dvektor, started at begin or end and moved by ++, -- and += within the range, is where the moves lead and shows the element there; a loop from begin to end shows all elements in order. (Refuted for empty vectors and for sizes that are multiples of 2^B; proved otherwise.)", "quantifier": "all versions made by the programs of C58, all sequences of moves that stay within the range", "why_tests_cant": "every size, every path of the focus and every order of moves gives another display; tests try a few sizes", "anchors": ["immer/experimental/detail/dvektor_impl.hpp:291-314: goto_next_block_start, goto_pos", "immer/experimental/detail/dvektor_impl.hpp:408-500: iterator"]}
{"id": "C60", "title": "map, set and table answer as associations and sets", "statement": "After any statements insert, set, update, update_if_exists and erase, count, operator[] (with the default value), at (throwing exactly for missing keys) and find of a map or table, and count and find of a set, answer for every key as the association or set that the statements describe; size() is the number of its keys; == of maps and of sets holds exactly for the same keys with equal values; an element of a table is found under exactly the key it has.", "quantifier": "all programs of the classes, all keys, all hash functions compatible with the equality of keys, all B >= 1, all value types with a reflexive ==", "why_tests_cant": "the classes differ in the functors they give champ, and whether those fit together shows only for particular keys, hashes and orders of statements", "anchors": ["immer/map.hpp:69-151: project_value, combine_value, default_value, error_value, hash_key, equal_key, equal_value", "immer/map.hpp:250-451: count, operator[], at, find, operator==, insert, set, update, update_if_exists, erase", "immer/table.hpp:111-455", "immer/set.hpp:165-235"]}
{"id": "C61", "title": "equality of tables is equality of contents", "statement": "== of two tables holds exactly when they have the same keys with equal elements. (Refuted for element types whose == does not compare the key; proved when == of elements implies equal keys.)", "quantifier": "all pairs of tables made by programs of C60, all element types with a reflexive ==, all hash functions", "why_tests_cant": "it takes an element type with such an == and keys whose hashes fall into the same slots", "anchors": ["immer/table.hpp:180-186: equal_value", "immer/table.hpp:378-381: operator==", "immer/detail/hamts/champ.hpp: equals"]}
{"id": "C62", "title": "the memory orders of the spinlock suffice", "statement": "In every execution that C++ allows of threads that access shared data between lock() and unlock() of a spinlock_policy only, where test_and_set acquires and clear releases and nothing else orders the threads, there is no data race, critical sections do not overlap, and every read sees the last write of the critical sections before it; the lock is never lost. So for all programs of threads that use one atom: no data race, and the results are those of the operations one after the other, each at an access of its thread.", "quantifier": "all numbers of threads, all code with accesses under the lock only, all programs of load, store, exchange and update of an atom, all executions, all choices of the writes that reads see", "why_tests_cant": "hardware and compilers show few of the reorderings that the memory model allows, and none on request", "anchors": ["immer/lock/spinlock_policy.hpp:28-66: try_lock, lock, unlock, scoped_lock", "immer/atom.hpp:39-74: load, store, exchange, update"]}
{"id": "C63", "title": "the operators of vector iterators are those of positions", "statement": "Programs with any number of iterators of one vector or flex_vector that use ++, --, both postfix forms, +=, -=, + on either side, - of an offset, copies, *, [], difference, ==, !=, <, <=, > and >= and stay within the sequence show exactly what positions in the sequence show; no signed arithmetic overflows.", "quantifier": "all reachable vectors and flex_vectors with fewer than 2^63 elements, all programs, all numbers of iterators", "why_tests_cant": "iterators carry cached leaves into their copies, and the operators combine in unboundedly many orders", "anchors": ["immer/detail/iterator_facade.hpp:99-195", "immer/detail/rbts/rbtree_iterator.hpp:53-94", "immer/detail/rbts/rrbtree_iterator.hpp:53-93"]}
{"id": "C64", "title": "iterators of maps, sets and tables are multi-pass forward iterators", "statement": "The elements of a map, set or table have an order such that programs with any number of its iterators that use ++, postfix ++, *, ==, != and assignments of begin() and end() and do not go beyond the end show what positions in that order show: copies are independent, dereferencing can be repeated, and iterators are equal exactly at the same position.", "quantifier": "all containers made by any history of operations, all hash functions, all programs, all numbers of iterators", "why_tests_cant": "iterators carry a path of up to 13 pointers and compare by address only, so it depends on every shape of the tree whether two of them agree", "anchors": ["immer/detail/hamts/champ_iterator.hpp:35-150", "immer/detail/iterator_facade.hpp:99-126"]}
{"id": "C65", "title": "the parts of a node lie in its block, aligned and apart", "statement": "In a block of the size the node asks for (sizeof_inner_n, sizeof_collision_n, sizeof_values_n, sizeof_leaf_n, sizeof_inner_r_n, sizeof_relaxed_n), the reference count, the ownee, the tag, the bitmaps, pointers and all elements, children and sizes the node may hold, including an embedded table of sizes, are inside the block, aligned, and do not overlap, given that the block is aligned as much as its parts need.", "quantifier": "all sizes and alignments of elements, counts and ownees, empty or not; tagged or not; all numbers of elements; embedded tables or not", "why_tests_cant": "each test fixes an element type and a memory policy; the offsets depend on the sizes and alignments of all of them", "anchors": ["immer/detail/combine_standard_layout.hpp:41-232", "immer/detail/hamts/node.hpp:53-109", "immer/detail/rbts/node.hpp:41-152", "immer/detail/rbts/node.hpp:232-256", "immer/detail/arrays/node.hpp:34-47"]}
{"id": "C66", "title": "node objects fit the block they are made in", "statement": "A node object made by placement new is not larger than the block allocated for it.", "quantifier": "all element types and memory policies, all numbers of elements", "why_tests_cant": "nothing writes beyond the block, so tests and sanitizers see nothing", "anchors": ["immer/detail/hamts/node.hpp:53-109", "immer/detail/rbts/node.hpp:41-152", "immer/detail/rbts/node.hpp:232-256", "immer/detail/arrays/node.hpp:34-47"]}
{"id": "C67", "title": "vector nodes are deallocated with the size they were allocated with", "statement": "With reference counting, every block of a vector or flex_vector (leaf, inner node with or without table, table of sizes) is given to deallocate with the size that was given to allocate, whichever function made and whichever function deletes it and for whatever counts.", "quantifier": "all element types, counts, ownees, branching factors, functions that make and delete, counts passed to them", "why_tests_cant": "most heaps ignore the size, and the sizes agree for common element types", "anchors": ["immer/detail/rbts/node.hpp:120-152", "immer/detail/rbts/node.hpp:213-345", "immer/detail/rbts/node.hpp:797-942"]}
{"id": "C68", "title": "elements of vectors are aligned in blocks of the free lists", "statement": "When the parent heap returns addresses aligned for std::max_align_t (16), the leaves and inner nodes that vectors allocate from free_list_heap_policy lie soundly (C65) at the addresses they get, for elements of every fundamental alignment.", "quantifier": "all element types of alignment up to 16, counts, ownees, addresses, numbers of elements; debug heaps or not", "why_tests_cant": "x86 tolerates most misaligned accesses; tests use elements of alignment up to 8", "anchors": ["immer/heap/with_data.hpp:28-41", "immer/heap/heap_policy.hpp:101-140", "immer/heap/split_heap.hpp:22-39", "immer/heap/debug_size_heap.hpp:50-65", "immer/detail/rbts/node.hpp:154-155"]}
