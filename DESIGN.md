# A Rocq model of arximboldi/immer

Everything is in `rocq/theories` (logical name `Verif`), checked with Coq 8.16.1.
`properties.jsonl` lists the properties, `MANIFEST.json` maps them to theorems,
`seeded/LOG.jsonl` records the mutation tests.

## How the code is modelled

The code is template C++.  Each template instance family is one Gallina
definition with the template parameters as arguments or section variables
(`B`, `BL`, element type, key type, hash, equality, user functions).
Conventions:

* **Undefined behaviour is a distinct outcome.**  Every partial operation
  (reading a child, a value, a leaf slot; `IMMER_UNREACHABLE`; a failed `assert`
  that guards memory safety; wrong node kind) returns `UB`/`None`.  Theorems say
  the outcome is a value, so they also say the UB is not reached.
* **Loops** are structural recursion over the remaining depth or a list, or carry
  fuel whose exhaustion is an error value.
* **Machine integers**: sizes, hashes and bitmaps are `N`; hashes are assumed to
  be below 2^64, bitmaps are proved to stay below 2^(2^B).  Sizes are unbounded in
  the value-level tree models (so theorems hold below the overflow limits);
  overflow itself is treated separately where the code can really reach it
  (properties C28, C29, C31).
* **Pointers**: the value-level models (CHAMP, RRB) represent a node by its
  contents, because persistent operations never write to a published node.
  Reference counting, ownership and in-place mutation are modelled in separate
  heap models with explicit addresses.
* **User code** (hash, equality, callbacks, element copy) is a section variable:
  a pure function; equality is assumed to be an equivalence compatible with the
  hash.  Throwing copies, allocations and user functions are modelled in `ChampHeap` and
  `Lifetime`.

## Files

| file | contents |
|------|----------|
| `Common`, `NList` | the result type with `UB`, list access that can fail, lists indexed by `N` |
| `Bits`, `BitsSpec`, `BitsProofs`, `BitsProps` | `detail/util.hpp`, `detail/hamts/bits.hpp`, `detail/rbts/bits.hpp` |
| `Champ` | `detail/hamts/champ.hpp`, `champ_iterator.hpp`, `node.hpp`: persistent operations of map, set and table |
| `Slots`, `ChampProofs`, `ChampHist`, `ChampMap`, `ChampIter`, `ChampEq`, `ChampDiff`, `ChampCost` | proofs about them |
| `ChampSpec`, `ChampProps` | association-list specification, theorems C01-C09 |
| `Rrb`, `RrbView` | `detail/rbts/{position,visitor,operations,rbtree,rrbtree,rrbtree_iterator,rbtree_iterator}.hpp`: persistent operations, traversal, iterators, equality |
| `RrbInv`, `RrbPos`, `RrbOps`, `RrbSlice`, `RrbTree`, `RrbShuffle`, `RrbMerge`, `RrbConcat`, `RrbViewOk`, `RrbVecEq`, `RrbReach`, `RrbStrict`, `RrbFlexEq`, `RrbWalk`, `RrbLemmas`, `RrbExec` | proofs about them |
| `RrbSpec`, `RrbProps`, `RrbRefuted` | list specification, theorems C14-C29, C45 |
| `Array`, `ArraySpec`, `ArrayProofs`, `ArrayProps` | `detail/arrays/{node,with_capacity}.hpp`, `array.hpp`, `array_transient.hpp`: explicit memory with counts, object lifetimes and capacities; C30-C32, C46, C47 |
| `AtomSpec`, `Atom`, `AtomProofs`, `AtomGc`, `AtomGcProofs`, `AtomProps` | `atom.hpp`, `box.hpp`, `refcount/refcount_policy.hpp`, `lock/spinlock_policy.hpp` as interleavings of atomic steps of any number of threads; C33-C35 |
| `FreeListSpec`, `FreeList`, `FreeListProofs`, `FreeListProps` | `heap/free_list_heap.hpp`, `heap/free_list_node.hpp` as interleavings; C36 |
| `HeapSpec`, `Heaps`, `HeapProofs`, `HeapProps` | `heap/{unsafe_free_list,thread_local_free_list,split,with_data,debug_size,identity,heap_policy}*.hpp`: compositions of heaps; C37, C38 |
| `RcHeap`, `RcProofs` | blocks with reference counts (`refcount/refcount_policy.hpp`) and the reasoning about them used by the memory models below |
| `BoxSpec`, `Box`, `BoxProofs`, `BoxProps` | `box.hpp`, one thread; C39 |
| `Token`, `TokenSpec`, `TokenProofs`, `TokenProps` | `transience/gc_transience_policy.hpp` and the transients' handling of tokens; the tree algorithms are arbitrary scripts of guarded writes; C44 |
| `RcExn`, `RcExnProofs` | exceptions over counted blocks: any choice of throwing points, `IMMER_TRY`/`IMMER_CATCH` |
| `ChampHeap` | `detail/hamts/{node,champ}.hpp` on counted blocks: persistent and in-place insertion, update and erasure, lookup, copy, destruction, with every point that can throw |
| `ChampProgSpec`, `ChampProg` | programs over any number of map variables and transients, and what they should see |
| `ChampShape`, `ChampHeapProofs`, `ProgVars`, `ChampProgProofs` | proofs: each memory operation refines the one of `Champ`, keeps counts exact and leaves everything else alone |
| `ChampHeapProps` | C10, C41 (maps), C43 (maps) |
| `RcMove` | reasoning about operations that change blocks in place while other references see them |
| `VecHeap` | `detail/rbts/{node,position,visitor,operations}.hpp` on counted blocks: pushing a tail, update, slices, persistent and in place, release of nodes, with every point that can throw.  Size tables are separate blocks, tagged with the level they were made for (the tag is only read by proofs and by checks that give UB) |
| `VecTree` | `rbtree.hpp`, `rrbtree.hpp` on counted blocks: push_back, update, take, drop, persistent and in place, get, copy, destruction |
| `VecPlan`, `VecNodes`, `VecMake`, `VecGetMut`, `VecPush`, `VecSliceR`, `VecSliceL`, `VecTreeProofs` | proofs: each of these refines the operation of `Rrb` on the tree it stands for, for every sharing state and every choice of throwing points |
| `VecConcat` | the concatenation of `operations.hpp` (centre nodes, merge plan, `concat_merger`, rebalancing) on counted blocks, with every allocation that can throw and the clean-up of unfinished merges |
| `VecCenter`, `VecMerge`, `VecConcatProofs` | proofs: it refines `concat_trees` of `Rrb`, keeps counts exact, and leaves memory as it was when it throws |
| `VecConcatTree`, `VecConcatTreeProofs` | `rrbtree::concat`, `concat_mut_l`, `concat_mut_r`, `concat_mut_lr_l`, `concat_mut_lr_r` on counted blocks, and that they refine `concat` of `Rrb` for every sharing state and choice of throwing points, but for the cases of findings 10 and 11 |
| `VecProgSpec`, `VecProg`, `VecProgProofs` | programs over any number of vector and flex_vector variables and transients, and what they should see |
| `VecHeapProps` | C40, C41 (vectors), C43 (vectors) |
| `VecJoinProps` | C42; C40 for insert, erase and push_front; what goes wrong with prepend(&&) and with throwing appends |
| `GcConcat` | the concatenation in place of `operations.hpp:2006-2504` with edit tokens, for nodes under garbage collection: arrays of entries that may be unwritten, capacities, positions that read nodes while these are overwritten |
| `GcPlan`, `GcRep`, `GcAdd`, `GcLeaf`, `GcInner`, `GcVisit`, `GcLoop`, `GcMerge`, `GcTree`, `GcRead`, `GcCheck` | proofs: it refines `concat` of `Rrb` and writes to the operands' own blocks only |
| `GcSpec`, `GcProps` | how a vector in memory is read; C48 |
| `GcVec` | the other operations on such memory: `push_back_mut`, `push_back`, `update_mut`, `append_mut`/`prepend_mut` whole (tails included), `rrbtree.hpp:784-1340`, `operations.hpp` push_tail and update visitors |
| `GcVecRun`, `GcVecTree`, `GcVecUpd`, `GcVecTok` | proofs: each refines the operation of `Rrb` and writes to own blocks only; which tokens blocks may get |
| `GcSlice` | taking and dropping on such memory, in place and persistent: `rrbtree.hpp:574-701`, the four slice visitors of `operations.hpp` |
| `GcSliceRun`, `GcSliceLeft`, `GcSliceTree` | proofs: as `GcVecRun` ... for slice_right, slice_left and the trees |
| `GcProgSpec`, `GcProg` | programs over flex_vectors and transients under garbage collection (17 statements); what they are to see |
| `GcProgRep`, `GcProgProofs`, `GcProgProps` | the invariant, one statement at a time; C49, C50 and a refutation for C44 |
| `Conc` | threads over counted memory: programs whose steps are single accesses, interleaved in any order; data races |
| `ConcProofs`, `ConcPool` | what a thread may rely on while others run, rules for each access, and that threads that are right whatever the others do are right in every interleaving, never race, and end |
| `ConcOrder` | the same threads when counts are ordered only as refcount_policy.hpp says: events, happens-before, executions in which `unique` may see old counts |
| `ConcOrderProofs`, `OrderProps` | threads that are right whatever the others do are right in every such execution, free of data races, and end; C53 |
| `BoxConc` | the functions of `box.hpp` with one access per step |
| `BoxConcProofs`, `BoxConcProps` | a thread with boxes whatever the others do; C54 |
| `GcArraySpec`, `GcArray` | programs over arrays and array transients under garbage collection (21 statements), `no_capacity.hpp` and `with_capacity.hpp` with edit tokens; what they are to see |
| `GcArrayProofs`, `GcArrayProps` | who may write to which node; C55, C56 |
| `ArrConcSpec`, `ArrConc` | what threads with arrays are to see; the functions of `with_capacity.hpp` with one access per step |
| `ArrConcProofs`, `ArrConcProps` | a thread with arrays whatever the others do; C57 |
| `DvekSpec`, `Dvek` | versions as lists and positions of iterators; `experimental/detail/dvektor_impl.hpp` over a memory of nodes |
| `DvekProofs`, `DvekProps` | digits of indices, what every node of a display leads to; C58, C59 |
| `WrapSpec`, `Wrap` | maps, tables and sets as associations; the members of `map.hpp`, `table.hpp`, `set.hpp` over champ |
| `WrapProps` | programs of the classes as histories of champ; C60, C61 |
| `LockOrderSpec`, `LockOrder` | happens-before, visible writes and data races of executions with one flag; `lock/spinlock_policy.hpp` and `refcount_atom_impl` with their memory orders |
| `LockOrderProps` | all accesses under the lock are ordered; C62 |
| `FacadeSpec`, `Facade` | programs with positions in a sequence; the operators of `iterator_facade.hpp` over the iterators of RrbView, with `distance_to` in 64 bits |
| `FacadeProps` | iterators as positions; C63 |
| `ChampFwd`, `ChampFwdProps` | several iterators of `champ_iterator.hpp` with `equal`; C64 |
| `LayoutSpec`, `Layout`, `LayoutProps` | `combine_standard_layout.hpp` and the layouts and sizes of nodes; C65, C66 |
| `LayoutFree`, `LayoutFreeProps` | sizes in `allocate` and `deallocate` of vector nodes; C67 |
| `HeapAlign`, `HeapAlignProps` | addresses returned by the heaps of `heap_policy.hpp`; C68 |
| `ChampConc` | the functions of `ChampHeap` again, one access to memory per step |
| `ChampConcProofs`, `ChampConcProg`, `ChampConcProps` | each of them, then statements and programs, is right whatever the other threads do; C51 |
| `VecConc` | the functions of `VecHeap`, `VecMake`, `VecGetMut`, `VecPush`, `VecSliceR`, `VecSliceL`, `VecTree` and `VecProg` again, one access to memory per step (no concatenation) |
| `VecConcProofs`, `VecConcGetMut`, `VecConcPush`, `VecConcSlice`, `VecConcTree`, `VecConcProg`, `VecConcProps` | each of them is right whatever the other threads do; statements, programs, C52 |
| `Lifetime`, `LifetimeSpec`, `LifetimeProofs`, `LifetimeProps` | the functions of `util.hpp`, `hamts/node.hpp`, `rbts/node.hpp` that fill new nodes, with object lifetimes and exceptions; C43 |

## Per property

Everything below quantifies over all histories, sizes and depths unless it says otherwise.

| id | what is modelled | how it is proved |
|----|------------------|------------------|
| C01 | CHAMP tree: `get/add/update/update_if_exists/sub` over an arbitrary hash and equality | invariant (hash prefixes, canonical bitmaps, collision nodes only below full depth) and refinement to association lists; induction over histories (`ChampHist`) |
| C02 | the same with the stored `size` | size = number of elements, keys pairwise different |
| C03 | `champ_iterator` path stack and `for_each_chunk` | an iterator state denotes a suffix of the listing; increment drops its head |
| C04 | `do_sub`, `sub` | the invariant excludes a singleton result at the root (`IMMER_UNREACHABLE`) |
| C05 | `equals` | contents determine the shape, so the slot-by-slot comparison decides content equality |
| C06 | `diff` | case analysis per slot and induction on depth; the three callback lists are permutations of the specified ones |
| C07 | `do_update`, `do_update_if_exists` | refinement |
| C08 | shape | canonicity theorem: equal contents give equal trees up to the order in collision nodes |
| C09 | `get/add/sub` with a counter of visited nodes | counter bound, and the counted functions equal the plain ones |
| C10 | map nodes and value blocks in memory with counts, `do_add_mut`, `do_update_mut`, `do_update_if_exists_mut`, `do_sub_mut`, the persistent operations, copies, moves, assignment, destruction; programs over any number of variables | every operation is proved once, for every sharing state: it refines the operation of `Champ` on the tree it stands for, changes no node another reference reaches, and keeps every count equal to the number of references; then induction over programs |
| C11 | `popcount_fallback` | lemma per byte lifted by arithmetic, all words |
| C12 | `set_bits_range` and its iterator | induction on binary words |
| C13 | `log2`, `derive_bits_leaf` | arithmetic; wrong for 32-bit arguments, which no caller uses (finding 8) |
| C14, C16, C17, C23 | `rbtree`: regular trees | invariant on completely filled nodes plus tail, refinement to lists |
| C15-C20 | `rrbtree`: regular and relaxed nodes, all sub-position kinds, `slice_left/right`, `concat_trees` with leveling, `concat_rebalance_plan`, `concat_merger` | invariant `wf` (size tables are strictly increasing prefix sums, all leaves at one depth, regular nodes completely filled), refinement to lists; `built` is the inductive set of trees obtained through the API |
| C21 | `concat_rebalance_plan::fill/shuffle` | loop invariant over the fixed-size tables |
| C22 | `rrbtree::equals` and `equals_visitor` | refuted by two computed witnesses.  Everything else is proved: the comparison is defined for all reachable pairs, never answers false for equal sequences, is exact outside the two cases of the witnesses, and asking both ways decides equality.  The proof rests on a property of reachable trees stronger than well-formedness (`built_strict`): a node without size table is complete unless it lies on the right edge, and the first child of one on the left edge is complete; two such nodes at the same index have the same shape, and the wrong fullness test of `first_sub_inner` is harmless |
| C24 | descent with the bounded `switch` | refuted by a reachable tree of seven levels (existence proved by reasoning about the construction, not by running it); correct up to six levels |
| C25, C45 | `for_each_chunk`, `for_each_chunk_p` full and ranged; `accumulate`, `for_each`, `copy`, `all_of` | chunks concatenate to the sequence |
| C26 | `rbtree_iterator`, `rrbtree_iterator` with their cached chunk | the cache, when set, contains the leaf around its position |
| C27 | `get_check` | refinement |
| C28, C29 | 64/32-bit arithmetic of `max_size`, `slice_left` | arithmetic; refuted for some parameters, proved on the stated range |
| C30 | nodes in memory with counts and slots that are raw or hold an object; handles; programs over any number of array variables including copy, move, assignment and destruction | invariant: every count equals the number of variables pointing at the node, slots below size hold the values, above are raw; each step refines the list operation in one variable and leaves the others alone; reading or destroying a raw slot, writing outside the block and touching a freed node are UB |
| C31 | `recommend_up/down`, `push_back_mut` with a ghost counter of copied elements | invariant `size <= capacity`, block large enough, potential argument |
| C32 | `take_mut`'s `destroy_n` as written | refuted, and shown wrong in every in-place shrink of elements with destructors; partial theorem for the rest |
| C46, C47 | `take` beyond the size; `sizeof_n` modulo 2^64 | refuted with witnesses, partial theorems on the range that works |
| C33 | `refcount_atom_impl` (lock, pointer swap, counts) and `gc_atom_impl` (atomic pointer, weak compare-exchange, collector that may reuse what nothing refers to) as interleavings | invariant over all schedules that carries the linearization along: each operation's instant is the step that reads or writes the pointer; an update whose compare fails has none |
| C34 | the spinlock's flag inside the same model | the flag is set exactly when one thread is between test_and_set and clear |
| C35 | box counts inside the same model | invariant: count = atom's reference + variables + references of operations in progress; a zero count has exactly one thread freeing it |
| C36 | `free_list_heap`: head, links and count as separate atomic steps of any number of threads, blocks returned to and obtained from a parent heap | refuted twice (ABA; read of a link in a freed block); partial: without overlapping allocates, an invariant (list, blocks held and blocks in transit are disjoint; a pending allocate's link is still right) gives the claim |
| C37 | `unsafe_free_list_storage` per thread | invariant of list, count and blocks in use |
| C38 | expressions of heaps (`Parent`, `Identity`, `DebugSize`, `WithData`, `Split`, `FreeList`), memory words with owners | by induction on the expression: what allocate adds on the way down deallocate removes; regions disjoint |
| C39 | `box.hpp` over counted blocks; programs over any number of box variables | refinement of programs over independent values; count = number of variables sharing the block |
| C44 | nodes with tokens, containers, all operations of transients on their owner (copy, move, assignment, `persistent`, appending lvalues and rvalues) | refuted: a moved-from transient keeps its token; partial: in histories that leave moved-from transients alone, an invariant (a node carrying a live transient's token is reached from it only) is kept by every operation with every script |
| C40 | vector and flex_vector nodes, size tables and tails in memory with counts; push_back, update/set, take, drop, concatenation, persistent and in place (transients and rvalues; append and prepend of an lvalue or a moved transient), copy, move, assignment, conversion, destruction, insert, erase and push_front as made of these; programs over any number of variables | as C10: each operation once, for every sharing state; then induction over programs.  Refuted by prepend(&&) (finding 10): the other vector's contents change; partial: all programs that avoid that case (`careful`) |
| C41 | the memory models of C10 and C40 | invariant: counts exact, every block reachable from a variable, every pointer to a live block (freed blocks are never reused, so a second free is UB).  Persistent operations: all histories, for vectors wherever they throw.  In place: all `careful` histories; refuted by prepend(&&) |
| C42 | prepend of a moved transient in the model of C40 | refuted: a full tail of u in front of a t that has a tail only (both nonempty).  `C42_in_order_iff`: memory is in order afterwards exactly if this is not the case, for every reachable state |
| C48 | in-place concatenation with tokens over nodes that are arrays (GcConcat); a vector is read by GcSpec, which uses none of the model's functions | the merger's target is always behind what it still reads: an invariant of the merge loop relates the written prefix of the reused node to the entries not yet read; the plan sums to what is left; the rest refines `concat` (C19) step by step, with the blocks owned by each side kept apart |
| C49 | programs over flex_vectors and transients with tokens over nodes that are arrays (GcProg, GcVec, GcConcat): construction, `transient`, both `persistent`, copy, move, both assignments, `push_back`, `update`/`set`, `append` and `prepend` of lvalues and rvalues, `take` and `drop` of transients and of vectors; the reader of C48 | the blocks a transient may overwrite and the tokens they carry are disjoint from those of every other variable (`pinv`); each operation keeps to them (the `_run` lemmas and `GcVecTok`); a fresh token freezes what had the old one.  Condition: moved-from transients are only assigned to; it is needed (`C44_flex_vector_refuted`).  Condition on elements if something is dropped from a transient: C50 |
| C50 | `drop` of a transient in the model of C49, with what becomes of an element by `x = std::move(x)` as a parameter (`selfmv`) | refuted with elements that are empty after being moved to themselves; partial: all programs, if `selfmv` is the identity or elements are not nothrow move constructible |
| C51 | maps on counted memory used by threads (ChampConc): any program makes them, its variables are split among the threads in any way, each thread runs any statements of C10 on its own variables; one access to memory per step, any interleaving | refuted for removal in place (finding 25).  Partial: everything else, without exceptions.  A thread relies on this: blocks reachable from its own variables keep their contents, blocks it alone refers to keep their count (`rely`); every function is proved under interference of that kind after each step (`cwp`), and does no more to other threads (`pool_step`).  No interleaving is undefined or has a data race, each thread sees what the sequential specification says, memory is in order at the end, and every thread that gets its turns ends |
| C52 | vectors and flex_vectors on counted memory used by threads (VecConc), set up as in C51; tables of sizes are blocks with counts of their own, as in C40 | refuted for push_back and drop in place on a flex_vector (finding 26) and for take in place (finding 27).  Partial: new, copy, move, flex_vector from vector, assignments, destruction, get, size, persistent push_back, update, take, drop of both classes, update in place of both, push_back in place of vectors; the program that makes the containers may also concatenate and do anything C40 covers.  The same logic as for C51; a node that is seen through a position stays readable because it is reachable from the thread's own root (`vis`, `iv`), and may be written once its count was seen to be one (`own`) |
| C53 | the threads of C51 and C52 (those that are proved there) in executions where `inc` orders nothing, `dec` releases and acquires, `unique` acquires and may see any count that the thread does not know to be outdated, and nothing else orders threads (ConcOrder) | proved: conflicting accesses are ordered by happens-before (`ordered`), nothing is undefined, every thread sees what the sequential specification says, memory is in order at the end, no endless executions.  Invariant (`oinv`): every event on a live block is known to a thread that still gets at the block, or was released with a reference through which others do (`wit`); whoever holds a reference knows of an increment from one to two or of a newer one (`o_tok`, `o_kid`), so a count of one that may be seen is the newest (`read_one`) |
| C54 | the functions of `box.hpp` one access per step (BoxConc), threads that take over the variables of any program of C39, executions of C53 | proved with the rules of C51 (`cwp_step`, one case per operation) and the passage to weak orders of C53: no undefined access, no data race, every thread sees what BoxSpec says of its own variables and these have those values, counts are the numbers of variables at the end, threads end |
| C55 | programs over arrays and transients under garbage collection (GcArray): every function of `no_capacity.hpp`, the functions of `with_capacity.hpp` with edit tokens, owners and their copies and moves | `C55_step_partial`, `C55_values_partial` by the invariant that two usable variables on one node have equal sizes and neither may write to it; refuted for transients that were moved from (`C55_moved_refuted`) and for shrinks in place of elements with destructors (`C55_take_refuted`, C32) |
| C56 | the same programs, with a count of the elements copied | `C56_amortized_partial` by a potential (twice the size less the capacity); refuted for `set` (`C56_set_copies`, `C56_set_refuted`) |
| C57 | the functions of `with_capacity.hpp` of Array one access per step (ArrConc), the static of `empty()`, threads whose next statement may depend on what the last ones showed, executions of C53 | proved with the rules of C51 (`cwp_step`, one case per statement; variables of one thread with the same node have the same size and capacity) and the passage to weak orders of C53: no undefined access, no data race, every thread sees what ArrConcSpec says of its own variables or `std::bad_alloc`, counts are the numbers of variables at the end, threads end. Shrinks in place of elements with destructors are excluded (undefined by C32) |
| C58 | push_back, update (assoc) and get of `dvektor` with `stabilize`, the four `goto_..._writable` functions and the nulled slots (Dvek), programs over any number of versions | refuted (`C58_values_refuted`: 68 elements with B = 2, an update, a push_back). `C58_values_partial`: all versions have the elements of the specification, for all programs that start a block of a version with more than 2^(3B) elements only with the last change in the block before; invariant `dfull` (nodes of the display have their level, every element is reached from the level at which it differs from the focus), nodes are only written in the operation that makes them |
| C59 | the iterators of `dvektor`: begin, end, ++, --, +=, * and a loop over all elements | refuted (`C59_full_blocks_refuted`, `C59_empty_refuted`). `C59_iterators_partial`: for versions that are not empty, from begin or end, all moves within the range that do not go to the end forwards when the size is a multiple of 2^B; invariant `itinv` (every node of the iterator's display leads to all elements below it) |
| C60 | `count`, `operator[]`, `at`, `find`, `size`, `==`, `insert`, `set`, `update`, `update_if_exists`, `erase` of `map`, `set` and (without `==`) `table` with the functors each of them gives champ (Wrap) | every program is a history of champ (`mrun_is`, `trun_is`, `srun_is`), whose contents are the association of the specification (`mhist`, `thist_is`, `shist_is`); then C01, C02, C05 |
| C61 | `==` of `table` | refuted (`C61_table_equality_refuted`). `C61_table_equality_partial`: for element types whose `==` implies equal keys |
| C62 | `lock`, `try_lock`, `unlock` with acquire and release, threads of any code that takes the lock around its accesses, and the operations of `atom` as such code (LockOrder); reads see any write that happens-before does not rule out (LockOrderSpec) | proved by induction over executions: while the flag is clear every access happens before the last clear, while it is set every access is the owner's or happens before the owner's test_and_set (`gives_holds`); atoms: the accesses are then in the order of the list, and every operation takes effect at one access (`simulation`) |
| C63 | all operators of `iterator_facade.hpp` and `distance_to`, `equal` of the iterators of `vector` and `flex_vector`, programs with any number of iterators (Facade) | every variable is at its position with a sound cache (`rel`, `step_ok`); moves and dereferences by the lemmas of C26; differences of positions below 2^63 do not wrap (`dist_ok`) |
| C64 | the iterators of champ under the operators of forward iterators, `equal` as comparison of addresses with null at the end (ChampFwd) | an iterator at position i is the one after i increments or an end (`at_pos`, from C03); elements at different positions have different keys, so they are at different addresses (`pos_equal`) |
| C65 | offsets and sizes of the parts of nodes, from `combine_standard_layout` and the rules for members of a struct (Layout) | the parts lie between two offsets and are aligned (`fits`), which composes (`fits_app`, `fits_shift`); induction over members, types combined, and elements |
| C66 | as C65, with `sizeof` of the node types | values and arrays fit (partial); refuted for champ and vector nodes by two concrete types |
| C67 | the sizes passed to `allocate` and `deallocate` by the functions that make and delete vector nodes (LayoutFree) | with reference counting all sizes are the maximal ones (`size_headroom`); partial and refuted for `ensure_mutable_relaxed` |
| C68 | the address a composed heap returns for an address of its parent (HeapAlign), with the nodes of C65 | the heap adds a multiple of 8 (`optimized_8`), then C65 (partial); refuted for every leaf of elements of alignment 16 |
| C43 | the same with exceptions at every allocation, copy and user function; element slots of new nodes in `Lifetime` | refuted five times (collision replacement; erasure in place; growing and cutting a flex_vector in place; appending to one); partial: all other node functions are all or nothing, and all programs that avoid these cases keep memory in order and all variables' contents |


## What is modelled and what is not

Modelled, function by function (the comment above each definition gives file and lines):

* `hamts`: persistent lookup, insertion, update, erasure, iteration, equality, diff; the
  in-place operations and node memory (one thread, and again with any number of threads;
  in-place operations are those of the counting policy, `can_mutate` = the count is one).  With
  threads: a block is read or written in one step, nothing throws, and accesses are
  sequentially consistent (C51, C52) or ordered as far as the memory orders in the code say
  (C53: the steps of an execution are listed in an order that agrees with program order and
  with the order in which each count changes; addresses are not used again).  The classes `map`,
  `set` and `table` with the functors they give champ (C60, C61).
* `rbts`: all persistent operations, all position kinds they use, traversals, iterators and the operators of `iterator_facade`,
  equality, `max_size`; `vector` and `flex_vector` wrappers around them; in memory, push_back,
  update, take, drop, get, concatenation, persistent and in place (one thread, the counting policy; without concatenation, any number of
  threads with the same simplifications as for `hamts`); under garbage
  collection, where `can_mutate` compares tokens: push_back, `push_back_mut`, `update_mut`,
  `append`/`prepend` in place (`supports_transient_concat` holds there only), `take` and `drop`,
  persistent and in place.
* `arrays`: `with_capacity` over reference-counted nodes, persistent and in place (one thread,
  and again with any number of threads and the orders of C53), and
  `no_capacity` and `with_capacity` under garbage collection; `array`/`array_transient` wrappers.
* `atom` and the spinlock under concurrency, assuming sequentially consistent memory
  (that the orders of the flag suffice for this is C62), counts below
  the `int` limit and an unbounded number of addresses; `box` with one thread and with any number
  of threads and the orders of C53.
* heaps: `free_list_heap` under concurrency; the other adaptors as sequential compositions
  (each operation of a composed heap is one step; sizes do not wrap; alignment is not
  modelled).
* bit manipulation.
* The layout of nodes (C65, C66), with the offsets of the Itanium ABI.
* The model of C40 takes moving an element to itself for the identity; C50 is about what happens
  otherwise.

Not modelled: the sizes nodes of champ pass to `deallocate`; alignment outside C65 and C68; the counts and the freeing of nodes, `equal` and `distance_to` of `dvektor` (experimental); persistence/serialisation (`extra/`);
`gc_heap`, `malloc_heap`, `cpp_heap` (the parent heaps: any allocator that returns fresh
blocks); language bindings; the diagnostics (`check_tree`, `debug_print`).

## Trusted base

* Coq 8.16.1's kernel, including `vm_compute`.
* `Print Assumptions` stands under every theorem; all of them print "Closed under the global
  context": no axioms, not even the standard library's, are used.
* The reading of the C++ code recorded in the comment above each definition.
* Assumptions on user code appear as hypotheses: equality is an equivalence compatible with
  the hash (C01-C09), element equality is reflexive where the code compares pointers first
  (C05, C23), functions are pure, hashes are below 2^64.

## Findings

Proved of the model:

1. **C22**: `flex_vector::operator==` answers true for different sequences.  Two causes, one
   witness each.  When one tree part is empty the tree parts are not compared, and the tails
   only from the left operand's tail offset on (rrbtree.hpp:293, 318-330).  When the left
   operand is taller, its tree part is compared up to the end of the shorter one only, which
   leaves out the elements between the two tail offsets (rrbtree.hpp:307-316).
2. **C24**: `visit_*_descent` handles six shifts only; a `flex_vector` of about two million
   elements can have seven levels, and `operator[]` then reaches `IMMER_UNREACHABLE`.
3. **C28**: `vector::max_size()` is 0 for B=5, BL=4 (16-byte elements).
4. **C29**: `drop` shifts a 32-bit count; a vector of 2^32+100 elements is read out of bounds.
5. **C32**: `with_capacity::take_mut` (with_capacity.hpp:305) destroys from `data() + size`
   instead of `data() + sz`: undefined behaviour in every in-place shrink of elements with
   destructors.
6. **C46**: `array::take(n)` with n > size() reads past the end although documented as
   `min(elems, size())`.
7. **C47**: `sizeof_n` wraps for huge n, so `array(n, x)` can write outside its block.
8. `log2` is wrong for 32-bit unsigned arguments (portable and builtin versions differ); all
   callers pass `size_t`.
20. **C36**: `free_list_heap` hands a block out twice after an ABA on its head, and reads the
    link of a block another thread has already given back to the parent heap.
9. **C43**: `hamts::node::copy_collision_replace` (node.hpp:490-520): a throw in the second
   range copy destroys element 0 twice.
21. **C43**: `champ::do_sub_mut`, singleton branch: when the child was consumed in place and
    `move_inner_replace_inline` then throws, the parent keeps a pointer to the freed child; the
    destructor of the container reads it.  Happens with a throwing allocation alone.

22. **C43**: `push_tail_mut_visitor::visit_relaxed` (operations.hpp:704-711) calls
    `ensure_mutable_relaxed_n`, which allocates when the size table is shared, after the child
    has been changed and outside any `IMMER_TRY`: after a throw the tail is in the tree and in
    the handle with one reference, and destruction frees it twice.
23. **C43**: `slice_right_mut_visitor::visit_relaxed` (operations.hpp:964-984): the same call
    inside an `IMMER_TRY` whose handler asserts `!mutate` and releases nodes that are in use.
24. **C50**: `slice_left_mut_visitor::visit_leaf` (operations.hpp:1386) calls
    `std::move(data + idx, data + count, data)`.  When the cut is at the start of a leaf inside of
    the tree, `idx` is 0 and every element of the leaf is move-assigned from itself (the standard
    requires the destination to be outside of the source range).  Strings and vectors of libstdc++
    are empty afterwards: `t.drop(n)` on a transient, or `std::move(v).drop(n)` on a vector that
    is not shared, silently loses up to a leaf of elements.
    In the same way `std::copy(inner + idx + 1, ..., inner + 1)` of the inner nodes (1272-1274,
    1352-1354) copies pointers onto themselves; harmless.

25. **C51**: `champ::do_sub_mut` (champ.hpp:1386-1393) returns a pointer to the last element of a
    child that is shared, after it has given up its reference to that child.  When another thread
    drops the last other reference at that time (destroys or assigns over a map that shares the
    child), the element is copied from freed memory.  Needs `erase` on a transient or an rvalue,
    and a chain of two nodes that collapse.

26. **C52**: `push_tail_mut_visitor::visit_relaxed` (operations.hpp:665-711) calls
    `ensure_mutable_relaxed_n` (node.hpp:919-943), which gives up the node's reference to a table
    of sizes that other nodes share, and then reads sizes from that table through the position
    (position.hpp:1413-1424).  When another thread drops the last other reference in between, it
    reads freed memory.  Needs `push_back` on a transient or an rvalue flex_vector whose relaxed
    root was copied before (by `set` or `update`).  `slice_left_mut_visitor`
    (operations.hpp:1268-1281) does the same (`C52_drop_in_place_refuted`: `drop` on a transient or
    an rvalue), and so does `slice_right_mut_visitor` (933-934).

27. **C52**: `slice_right_mut_visitor` (operations.hpp:916-970) on a shared node keeps the child
    that remains (one more reference to it) and gives up the node with `dec_right_visitor`, which
    releases the children to the right only.  When another thread drops its reference to the node
    between the test `can_mutate` and that release, the node is freed there, and its reference to
    the child that remains is never released: the child leaks.  Needs `take` on a transient or an
    rvalue that shares its root.

28. **C56**: `with_capacity::assoc_mut` (with_capacity.hpp:241-256) copies with `copy_n` instead of
    `copy_e`, so under garbage collection the transient does not own the copy and every further
    `array_transient::set` copies the whole array again, although `set` is documented as
    effectively O(1) (`update` takes ownership).
29. **C58**: the loop of `dvektor`'s `goto_fresh_pos_writable_from_clean`
    (dvektor_impl.hpp:273-278) does not decrease `shift`, so below the first level it takes the slot
    of that level.  When a version was last changed elsewhere than in its last block, and the first
    element of a new block differs from there at level 3 or above, the new block is linked to wrong
    nodes: with B = 5, 32800 elements, `update(0, f)` and `push_back` lose the elements from 32768
    on (`C58_values_refuted` with B = 2: elements from 64 on).
30. **C59**: iterating over a `dvektor` whose size is a multiple of 2^B (32 elements by default)
    dereferences null in the last `++`, which goes to a block that is not there
    (`increment:455-461`, `C59_full_blocks_refuted`); so does `begin() + size`.
31. **C59**: `begin()` and `end()` of an empty `dvektor` dereference null (dvektor_impl.hpp:420-440,
    `C59_empty_refuted`).
32. **C61**: `==` of `table` compares elements by their own `==` only (`equal_value`,
    table.hpp:180-186), while that of `map` compares keys too (map.hpp:145-151).  For element types
    whose `==` leaves out the key, tables with different keys can be equal, depending on the hashes:
    {id 1, 7} and {id 33, 7} are equal with B = 5 and the identity as hash, {id 1, 7} and {id 2, 7}
    are not (`C61_table_equality_refuted`).
33. **C66**: nodes of `map`, `set`, `table` and the vectors are made by `new (m) node_t` in blocks that
    can be smaller than `sizeof(node_t)`: a collision of two `char`s gets 14 bytes for an object of 32
    (hamts/node.hpp:99-103), an inner node of a vector of 1000-byte elements 272 bytes for 1008
    (rbts/node.hpp:134-137).  Every member that is accessed lies inside (C65), so this is undefined
    by the letter only; `values_t` and arrays avoid it with `std::max` (hamts/node.hpp:92-97,
    arrays/node.hpp:43-47).
34. **C67**: `ensure_mutable_relaxed`, `_e` and `_n` deallocate a table of sizes with the size of an
    inner node, `sizeof_inner_r_n`, instead of `sizeof_relaxed_n` (rbts/node.hpp:883, 910, 935).
    The two agree for elements of alignment up to 8 in nodes without tags; for elements of
    alignment 16, or in nodes with tags (by default in debug builds, where `debug_size_heap` asserts
    that sizes match), with B=5 a block of 272 bytes is given back as 280 bytes.  It takes another
    thread that gives up the table between `unique()` and `dec()`.  A heap that ignores the size is
    not affected, nor is `free_list_heap_policy`, where both sizes belong to the same pool; a heap
    that relies on the size is.
35. **C68**: with the default memory policy, no leaf of a `vector` or `flex_vector` of elements of
    alignment 16 (`long double`, `std::max_align_t`, SSE vectors) is aligned.  The free lists of
    `free_list_heap_policy` and `unsafe_free_list_heap_policy` put a pointer of 8 bytes before each
    block (with_data.hpp:28-33, heap_policy.hpp:110-113), so blocks are at 8 modulo 16 when the
    parent heap returns multiples of 16.  Elements of alignment up to 8 are fine.

10. **C42** (and C40, C41): `rrbtree::concat_mut_lr_r` (rrbtree.hpp:1201-1208): the branch for
    a full left tail pushes the tail without incrementing it; reachable by
    `prepend(flex_vector_transient&&)`: the tail is then in the tree and in the moved-from
    vector with one reference.
11. **C43**: `concat_mut_l:829-831` and `concat_mut_lr_l:1107-1108`: the exception path destroys
    `r.tail` instead of `l.tail`; reachable by `push_front` on an rvalue
    (`C43_push_front_refuted`).

Observed while reading:

12. Under garbage collection `persistent() &&` and moving a transient do not refresh the
    token, so a moved-from transient can modify a persistent container (C44; now proved,
    `C44_refuted`, `C44_rvalue_persistent_refuted`).  For flex_vectors with all their blocks:
    `p = std::move(t).persistent(); w = p.transient(); t.append(w); t.set(0, 9)` changes `p`
    (`C44_flex_vector_refuted`), and after `a.append(std::move(b))` with `a` empty `b.set` changes
    `a` (`C44_moved_operand`).  The same for arrays: `a = std::move(t).persistent(); t.set(0, 9)` changes
    `a` (`C55_moved_refuted`): the conversion to `no_capacity` is const, so `std::move` has no
    effect (array_transient.hpp:189-192, with_capacity.hpp:114-122).
13. (now proved, 20.)
14. (now proved, `C39_copy_of_moved_from`) Copying a moved-from `box` dereferences null.
15. `regular_sub_pos::first_sub_inner` (position.hpp:986-995) has a wrong fullness test (not
    reachable in a harmful way).
16. (now proved, 25.)
17. `ensure_mutable_relaxed*` deallocates with the wrong size, `slice_right_mut` leaks on
    collapse: both only in races between handle releases.
18. Set `diff` calls `changed` for keys that are `Equal` but `!=`; `update` replaces the key.
19. Under garbage collection relaxed size tables are allocated unscanned although their header
    holds a token pointer.
