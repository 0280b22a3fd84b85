# Formal model of Boost.MultiIndex in Rocq (Coq 8.16.1)

Source under study: `/repo` (boostorg/multi_index, header-only C++). The model lives in
`rocq/theories`; it is written by reading the headers, nothing of `/repo` is built or run.

## 1. Approach

* Every modelled C++ function is a total, executable Gallina function; its comment cites the file
  and lines it models and names each simplification.
* Pointer code is modelled at pointer level: a node is a number (`0` is the null pointer), the link
  fields of an index are a heap from nodes to *optional* records. Dereferencing null, a freed node or
  a slot outside an array is the distinct outcome `UB`. User code (comparison, hash, predicates,
  constructors, allocation) may throw: outcome `Exn`, which carries the state at the throw. Which call
  throws is decided by an oracle `throws : nat -> bool` indexed by a counter of calls; theorems
  quantify over all oracles, i.e. over every possible throw point. When an operation returns, no call made by
  it threw (`quiet`); when it throws, one did (`blown`).
* Loops whose termination is not structural take fuel; running out of fuel is `UB`, and theorems
  exclude `UB`: they prove termination as well as absence of undefined behaviour.
* A container with indices `I0,...,In` derives from `I0`, which derives from `I1`, ..., which derives
  from `index_base`. The model has the same structure: `Layer` is what an index offers to the one
  that derives from it (`insert_`, `extract_`, `modify_`, ...); `layer_of c L` is the index `c` on
  top of `L`; `stack cs` is the container with the list of indices `cs`. Each kind of index is
  proved to meet one contract (`OK`) if what it derives from meets it, so that theorems hold for any
  list of indices of all kinds, by induction.
* Specifications are separate and small, and speak of the sequences of elements of the indices
  (`Permutation`, `StronglySorted`, `filter`, `rev`, `++`): `SeqSpec.v`, `OrdSpec.v`, `HashSpec.v`,
  `ContSpec.v`. Sequences are obtained as a client obtains them, by iterating with the
  model's `begin()`, `++` and `end()`.
* Theorems are stated for *reachable* states: any history of operations from an empty container, any of which may have failed or thrown
  (`reachable`, `reach2` for two containers sharing a memory, `reachc` with copies, `history` with
  saving and loading, `reachw` for any number of containers which are constructed, copied, moved, swapped, assigned and destroyed). The theorems `C03_*` say that everything is consistent in each such state and that no
  operation allowed there is undefined.
* Properties are proved in `*Props.v` files (some small ones at the end of the file of the model); beside the
  theorems there are `Example`s with concrete cases meeting their hypotheses, and `Print Assumptions`.

## 2. What is modelled

| source (`include/boost/`) | model | proofs |
|---|---|---|
| `multi_index_container.hpp`: construction from a range, copy construction, destruction, `insert_`, `insert_nh_`, `emplace_`, `transfer_`, `transfer_range_`, `erase_`, `extract_`, `clear_`, `replace_`, `modify_` (both), `save`, `load` | `Container.v`, `Transfer.v`, `Copy.v`, `Serial.v` | `ContOk.v`, `ContProps.v`, `RangeProps.v`, `Pair*.v`, `Copy*.v`, `Serial*.v` |
| `detail/index_base.hpp`, `detail/node_handle.hpp` | `Layer.v`, `Container.v` | `LayerBase.v`, `ContOk.v` |
| `detail/ord_index_node.hpp` (all algorithms, compressed colour word) | `OrdModel.v`, `Word.v` | `OrdTree.v` ... `OrdTrav.v` |
| `detail/ord_index_impl.hpp`, `detail/ord_index_ops.hpp`, `detail/rnk_index_ops.hpp`, `ranked_index.hpp` | `OrdIdx.v` | `OrdLook.v`, `OrdRank.v`, `OrdPoint.v`, `OrdLayer.v`, `OrdOk.v`, `OrdProps.v` |
| `detail/seq_index_node.hpp`, `detail/seq_index_ops.hpp`, `sequenced_index.hpp` | `SeqModel.v`, `SeqIdx.v`, `PosIdx.v`, `ListProps.v` (operations which insert or erase), `Splice.v` (splice and merge from another container) | `Seq*.v`, `PosOk.v`, `ListProps.v`, `SpliceBase.v`, `Splice.v` |
| `detail/rnd_index_node.hpp`, `detail/rnd_index_ptr_array.hpp`, `detail/rnd_index_ops.hpp`, `detail/rnd_index_loader.hpp`, `random_access_index.hpp` | `RndModel.v`, `RndIdx.v`, `RndLoad.v`, `RndProps.v` (operations which insert or erase), `SpliceRnd.v` (splice and merge from another container) | `Rnd*.v`, `SpliceBase.v`, `SpliceRnd.v` |
| `detail/hash_index_node.hpp`, `detail/bucket_array.hpp`, `hashed_index.hpp` | `HashModel.v`, `HashIdx.v`, `HashEq.v` | `Hash*.v` |
| `multi_index_container.hpp`: default, copy and move construction, assignment, `swap_`, `swap_elements_`, destruction; `swap_` of each index; `detail/header_holder.hpp` | `Many.v` | `ManyOk.v`, `ManyProps.v` |
| `detail/safe_mode.hpp`, `detail/any_container_view.hpp`, and where the indices use them | `Safe.v` | `SafeSpec.v` (specification), `SafeOk.v`, `SafeSim.v`, `SafeProps.v` |
| comparison operators of ordered, sequenced and random access indices | `Compare.v` | same |
| `composite_key.hpp` (comparison, equality, hash; with tuples and prefixes) | `Composite.v` | `CompProps.v` |
| `detail/copy_map.hpp`, `copy_` of each index | `Copy.v` | `CopyOrd.v`, `CopyPos.v`, `CopyHash.v`, `CopyOk.v` |
| allocators: `detail/auto_space.hpp`, constructors, assignments and swap of `multi_index_container.hpp`, `hashed_index.hpp` and `random_access_index.hpp`, `detail/node_handle.hpp` (memory only) | `Alloc.v` | `AllocProofs.v`, `AllocOps.v`, `AllocProps.v` |
| locks of safe mode: `detail/scoped_bilock.hpp`, `attach`, `detach`, `detach_equivalent_iterators`, `transfer_equivalent_iterators` of `detail/safe_mode.hpp` | `Threads.v` | `ThreadsOk.v`, `ThreadsSerial.v`, `ThreadsProps.v` |
| node handles as objects: `detail/node_handle.hpp` | `Handle.v` | `HandleProps.v` |
| invariant checking: `invariant_` of the container and of each kind of index, `black_count` | `Inv.v` | `InvOk.v`, `InvProps.v` |
| `detail/index_matcher.hpp`, `detail/index_saver.hpp`, `detail/index_loader.hpp`, `detail/duplicates_iterator.hpp` | `Match.v`, `Save.v`, `SaveOrd.v` | same, `SaveList.v`, `SaveSeq.v`, `RndLoad.v` |

Not modelled: safe mode's checks of two containers
(`check_different_container`, `check_equal_allocators`), old versions of the archive format,
key extractors other than composite ones (any function is allowed as
a key), tags and the other metaprogramming, `std::initializer_list` and perfect-forwarding variants
(they call what is modelled), augmentation policies other than that of ranked indices.

## 3. Properties and theorems

Statements are in `properties.jsonl`; notes in `MANIFEST.json`.

| id | property | status | theorems | files |
|---|---|---|---|---|
| C01 | Insertion is all-or-nothing across all indices | proved | `C01_C02_insert`, `C01_C02_emplace` | ContProps.v |
| C02 | Insertion has the strong exception guarantee | proved | `C01_C02_insert`, `C01_C02_emplace`, `C02_same_sequences_refuted` | ContProps.v |
| C03 | All indices always contain exactly the same elements | proved | `C03_consistent`, `C03_defined`, `C03_two_consistent`, `C03_two_defined`, `C03_copies_consistent`, `C03_copies_defined`, `C03_serial_consistent`, `C03_serial_defined` | ContProps.v, PairProps.v, CopyProps.v, SerialProps.v |
| C04 | Unique indices never hold two equivalent elements | proved | `C04_unique` | ContProps.v |
| C05 | Erasure removes exactly the designated element everywhere and calls no user code | proved | `C05_erase`, `C05_erase_altered` | ContProps.v |
| C06 | replace succeeds exactly when no other element conflicts, and is atomic | proved | `C06_replace` | ContProps.v |
| C07 | modify repositions the element or erases it, never leaves it half-linked | proved | `C07_modify` | ContProps.v |
| C08 | modify with rollback restores the container when the change is rejected | proved | `C08_modify_rollback` | ContProps.v |
| C09 | modify with rollback is strong when a comparison/hash throws (documented) | partial | `C09_modify_rollback_partial`, `C09_refuted`, `C09_double_erase_refuted` | ContProps.v |
| C10 | Ordered index: inorder traversal is sorted and equivalents keep insertion order | proved | `C10_sorted`, `C10_insert`, `C10_emplace`, `C10_insert_handle` | OrdProps.v |
| C11 | Ordered index: linking and unlinking nodes keep the red-black balance | proved | `C11_C22_tree` | OrdProps.v |
| C12 | Ordered index: iterators traverse every element exactly once in both directions | proved | `C12_begin`, `C12_next`, `C12_prev`, `C12_prev_end`, `C12_forward`, `C12_backward` | OrdProps.v |
| C13 | Ordered index: erase/extract at pointer level removes one node from the sequence | proved | `C13_erase`, `C13_extract` | OrdProps.v |
| C14 | Ordered index: lookups agree with the sequence | proved | `C14_lower_bound`, `C14_upper_bound`, `C14_equal_range`, `C14_find`, `C14_contains`, `C14_count` | OrdProps.v |
| C15 | Ordered index: range(lower,upper) returns exactly the matching interval | proved | `C15_range` | OrdProps.v |
| C16 | Ordered index: hinted insertion is correct for every hint | proved | `C16_insert`, `C16_emplace`, `C16_insert_handle` | OrdProps.v |
| C17 | Ordered index: a failed or throwing replace/modify-rollback puts the node back in its place | proved | `C17_replace`, `C17_rollback` | OrdProps.v |
| C18 | Ordered index: replace/modify does not move an element whose key stays consistent | proved | `C18_replace`, `C18_modify`, `C18_equivalent` | OrdProps.v |
| C19 | Compressed colour bit never corrupts the parent link | proved | `C19_compressed`, `C19_any`, `C19_word` | Word.v |
| C20 | Ranked index: nth and rank are mutually inverse and agree with the sequence | proved | `C20_nth`, `C20_rank`, `C20_rank_end`, `C20_rank_nth`, `C20_nth_rank` | OrdProps.v |
| C21 | Ranked index: rank-returning lookups count the preceding elements | proved | `C21_lower_bound_rank`, `C21_upper_bound_rank`, `C21_find_rank`, `C21_equal_range_rank`, `C21_count`, `C21_range_rank` | OrdProps.v |
| C22 | Ranked index: subtree sizes stay exact through insert, erase and rebalancing | proved | `C11_C22_tree` | OrdProps.v |
| C23 | Hashed index: every element is found and lies in the bucket of its hash | proved | `C23_iteration`, `C23_find`, `C23_contains`, `C23_count`, `C23_C24_equal_range`, `C23_buckets` | HashProps.v |
| C24 | Hashed non-unique index: equivalent elements stay adjacent, a new one in front of its run | proved | `C24_adjacent`, `C24_insert`, `C24_erase`, `C23_C24_equal_range` | HashProps.v |
| C25 | Hashed index: rehash keeps all elements and is strong when the hash throws | proved | `C25_rehash`, `C25_reserve`, `C24_insert` | HashProps.v |
| C26 | Hashed index: undo of an unlink restores the structure exactly | proved | `C26_replace`, `C26_modify_rollback`, `C06_replace`, `C08_modify_rollback` | HashProps.v, ContProps.v |
| C27 | Hashed index equality is multiset equality | proved | `C27_equals`, `C27_permutation` | HashEqProps.v |
| C28 | Bucket counts come from the prime table and positions are in range | proved | `C28_size`, `C28_position` | HashProps.v |
| C29 | Sequenced index: positions behave as in a list | proved | `C29_sequenced_history`, `C29_erase_returns_next`, `C29_box_links`, `C29_box_begin`, `C29_box_next`, `C29_box_prior`, `C29_box_insert`, `C29_box_push_front`, `C29_box_push_back`, `C29_box_insert_all`, `C29_box_assign`, `C29_box_pop_front`, `C29_box_pop_back`, `C29_box_resize`, `C29_box_relocate`, `C29_box_relocate_self`, `C29_box_relocate_range`, `C29_box_splice` | SeqProps.v, ListProps.v |
| C30 | Sequenced index: sort yields a sorted permutation and survives throwing comparisons | proved | `C30_sort`, `C30_sort_propagates`, `C30_box_sort` | SeqProps.v, ListProps.v |
| C31 | Sequenced index: sort is stable (documented) | partial | `C31_sort_stable_refuted` | SeqProps.v |
| C32 | Sequenced index: sort never overruns its fixed array of temporaries | proved | `C32_sort_temporaries`, `C32_bound_sharp` | SeqProps.v |
| C33 | Sequenced index: merge is a stable merge | proved | `C33_merge`, `C33_merge_propagates`, `C33_box_merge` | SeqProps.v, Splice.v |
| C34 | Sequenced index: remove, unique and reverse match their list definitions | proved | `C34_remove`, `C34_unique`, `C34_reverse`, `C34_remove_unique_propagate`, `C34_box_remove_if`, `C34_box_unique`, `C34_box_reverse` | SeqProps.v, ListProps.v |
| C35 | Sequenced index: range splice from another container gives basic guarantee on throw (documented) | partial | `C35_range_splice_partial`, `C35_single_splice`, `C35_range_splice_refuted`, `C35_box_splice`, `C35_box_range_partial`, `C35_box_range_refuted` | SeqProps.v, Splice.v |
| C36 | Sequenced/random access: rearrange produces exactly the requested view | proved | `C36_rearrange_sequenced`, `C36_rearrange`, `C36_box_rearrange` | SeqProps.v, RndProps.v, ListProps.v |
| C37 | Random access index: positions and back-pointers are always consistent | proved | `C37_vector`, `C37_begin`, `C37_nth`, `C37_at`, `C37_advance`, `C37_distance`, `C37_next`, `C37_push_back`, `C37_push_front`, `C37_insert`, `C37_insert_range`, `C37_assign`, `C37_resize`, `C37_erase`, `C37_pop_front`, `C37_pop_back`, `C37_erase_range`, `C37_clear` | RndProps.v |
| C38 | Random access index: relocation of an element or a range is a rotation | proved | `C38_relocate`, `C38_relocate_self`, `C38_relocate_range` | RndProps.v |
| C39 | Random access index: storage is never overrun and capacity is as documented | proved | `C39_capacity`, `C39_reserve`, `C39_shrink_to_fit` | RndProps.v |
| C40 | Random access index: remove, unique, merge, sort and reverse match their sequence definitions | proved | `C40_reverse`, `C40_remove_if`, `C40_unique`, `C40_sort`, `C40_merge`, `C40_box_merge` | RndProps.v, SpliceRnd.v |
| C41 | Random access index: splice by another index's order gathers the range before position | proved | `C41_splice` | RndProps.v |
| C42 | Composite keys: comparison is a strict weak ordering and prefix search is compatible | proved | `C42_lexicographic`, `C42_lexicographic_tuple`, `C42_swo`, `C42_compatible`, `C42_equal_range`, `C42_find` | CompProps.v |
| C43 | Composite keys: equality and hashing are compatible | proved | `C43_equal`, `C43_equal_tuple`, `C43_equivalence`, `C43_hash`, `C43_hash_tuple`, `C43_heq`, `C43_compatible`, `C43_word`, `C43_find` | CompProps.v |
| C44 | Serialization: saved rearrangement information restores the order | proved | `C44_sequenced`, `C44_random_access`, `C44_sequenced_any`, `C44_random_access_any`, `C44_C51_load` | SaveSeq.v, RndLoad.v, SerialProps.v |
| C45 | Serialization: elements considered in order form a longest increasing subsequence | proved | `C45_longest` | Match.v |
| C46 | Serialization: random access loader restores array order | proved | `C46_rearrangements` | RndLoad.v |
| C47 | Copying reproduces every index order | proved | `C47_copy` | CopyProps.v |
| C48 | Extract and re-insert through node handles transfers ownership exactly once | proved | `C48_extract`, `C48_insert_handle`, `C48_empty_handle`, `C48_drop_handle`, `C03_consistent` | ContProps.v |
| C49 | merge moves each element to exactly one container | proved | `C49_transfer`, `C49_range`, `C03_two_consistent` | PairProps.v |
| C50 | clear and destruction delete every node exactly once | proved | `C50_clear`, `C50_destroy`, `C50_sequenced_delete_all` | ContProps.v, SeqProps.v |
| C51 | Saving a container and loading it again | proved | `C51_save`, `C44_C51_load`, `C51_load_any`, `C51_iterators` | SerialProps.v |
| C52 | Erasing and extracting by key or range | proved | `C52_erase`, `C52_erase_range`, `C52_ordered_erase`, `C52_ordered_extract`, `C52_hashed_erase`, `C52_hashed_extract`, `C37_erase_range` | KeyedProps.v, RndProps.v |
| C53 | Range insertion and range construction | proved | `C53_insert_range`, `C53_construct_range`, `C53_construct_sorted`, `C29_box_insert_all`, `C29_box_assign`, `C37_insert_range`, `C37_assign` | RangeProps.v, ListProps.v, RndProps.v |
| C54 | Random access index: splice from another container | proved | `C54_splice`, `C54_range` | SpliceRnd.v |
| C55 | Comparison of ordered, sequenced and random access indices | proved | `C55_equal`, `C55_not_equal`, `C55_less`, `C55_greater`, `C55_not_less`, `C55_not_greater`, `C55_order` | Compare.v |
| C56 | Programs with any number of containers | proved | `C56_consistent`, `C56_defined`, `C56_no_leak`, `C56_others`, `C56_create`, `C56_swap`, `C56_copy`, `C56_move`, `C56_assign`, `C56_destroy` | ManyProps.v |
| C57 | Safe mode | proved | `C57_defined`, `C57_valid`, `C57_positions`, `C57_reported`, `C57_done`, `C57_dereference`, `C57_extract` | SafeProps.v |
| C58 | Memory goes back to the allocator it comes from | proved | `C58_defined`, `C58_returned`, `C58_owned`, `C58_get_allocator`, `C58_exact` | AllocProps.v |
| C59 | Invariant checking never fails, and what it detects | proved | `C59_invariant`, `C59_invariants`, `C59_each`, `C59_counts`, `C59_sequenced`, `C59_random_access`, `C59_ordered`, `C59_ordered_empty`, `C59_hashed` | InvProps.v |
| C60 | Safe mode with several threads: no deadlock, no race, as if one after another | proved | `C60_no_deadlock`, `C60_ends`, `C60_no_race`, `C60_serial`, `C60_undefined`, `C60_own`, `C60_undisturbed`, `C60_completes` | ThreadsProps.v |
| C61 | Node handles: the allocator's lifetime, and no node lost | proved | `C61_handles`, `C61_one`, `C61_no_leak` | HandleProps.v |

## 4. Findings about the code

Each is a theorem or an example with a witness, except F4 and F6 which follow from reading the code.

* **F1** (`C09_refuted`, `C09_double_erase_refuted`): `modify(position, mod, back)`. The `throw` that
  re-raises the exception of `mod` after a successful rollback is inside the inner `try`, whose handler erases
  the element. The documentation says that the element is kept if the rollback succeeds. If `back` did
  not restore the value, the element is erased twice (undefined behaviour).
* **F2** (`C31_sort_stable_refuted`): `sort` of a sequenced index is documented as stable and is not: the carry and
  the counter are collated in the wrong order.
* **F3** (`C35_range_splice_refuted`): splicing a range from another container into a sequenced index at a
  position other than the end swallows the exception of user code, and the list is corrupt.
* **F4**: `unique(binary_pred)` of a random access index calls `binary_pred(*result, *first)`, whereas the documentation
  says `binary_pred(*i, *(i-1))`.
* **F5** (`C02_same_sequences_refuted`): a hashed index makes room (may rehash) before it looks for an equal
  element, so that a failed insertion may change the order of the elements in the index.
* **F6**: the constructor of `entry` in `index_matcher.hpp` leaves `previous`, `ordered`, `pile_top` uninitialized, and
  entries are copied. The model takes arbitrary values for them; theorems hold whatever they are.
* **F7** (`stable_refuted` in RangeProps.v): the range constructor passes the position after the last insertion as a
  hint, so that equivalent elements of an ordered index need not be in the order of the range, as they are after
  insertions without a hint. They are if the range is sorted (`C53_construct_sorted`).
* **F8** (`C58_exact`, and the cases `hashed_move_assignment`, `random_access_move_assignment`, `hashed_copy`,
  `hashed_copy_assignment` in AllocProps.v): hashed and random access indices construct the array of a copied or moved
  container with `x.get_allocator()` (hashed_index.hpp:773,794, random_access_index.hpp:769,783), the allocator of the source
  and not of the new container. With an allocator that does not propagate (as `polymorphic_allocator`), move assignment
  between containers with unequal allocators returns these arrays to the wrong allocator, and so does the first rehash of a copy
  made with another allocator.
* **F9** (`ids_undetected`, `seqs_damaged` in InvProps.v, `C59_sequenced`): `invariant_` of an ordered index compares nodes with their
  children only, so that an index which is not sorted can pass (3, 6, 5, 7), and does not look for equivalent elements of a unique
  index. `invariant_` of a sequenced index accepts any `prior()` of the first element whose `next()` is this element.
* **F10** (`erase_while_destroyed` in ThreadsProps.v): in safe mode `detach` reads `cont` before it locks the mutex. If a thread destroys
  or assigns its iterator while another erases or transfers the element it points to, which needs no synchronization without
  safe mode, `detach` looks for an iterator that is not in the chain any more, or dereferences a null `cont`. `swap`, the destructor of
  `safe_container_base` and `detach_dereferenceable_iterators` (`clear`) change chains without locking the mutex at all.
* A new element goes before the equivalent ones in a hashed non-unique index, not after.
* `replace` in a hashed index relinks the element whenever its new key is not equivalent to the old one; `modify` checks `in_place`.

## 5. Assumptions and simplifications

Each is also in the comment of the definition concerned.

* Distinct live nodes have distinct addresses; the allocator is any function giving a node not in use,
  and may throw. Link fields of different indices in a node are disjoint; fields are of unbounded size
  (except in `Word.v` and the hash of composite keys, which are modulo a power of two). Numbers of elements are
  unbounded natural numbers.
* User functions do not touch the container while it operates, and are deterministic apart from throwing. Comparisons are strict weak orders,
  equality of keys is an equivalence compatible with the hash (`code_ok`).
* The value assigned by `replace` is not changed if the assignment throws. Destructors do not throw.
* `float` arithmetic of load factors is any `policy` of three functions; the bound on `size()` needs `ratio_sound`.
* `std::stable_sort`, `std::sort`, `std::lower_bound`, `std::binary_search` are modelled by what they promise;
  `std::inplace_merge` and `std::unique` by code.
* An archive is a list of items and a list of pointers. Reading past its end throws, writing does not; pointers
  are translated through the table of loaded elements. The duplicates of an ordered index are collected once (the code iterates twice).
* `operator==` of elements is counted among the calls of the first container. In `HashEqProps.v` and `SerialProps.v` the two containers have separate
  memories; in `PairProps.v` and `CopyProps.v` they share one.
* In `Alloc.v` allocators are numbers, equal when they compare equal; everything that depends on elements is an open decision.
* Transfers are between containers with equal allocators; merging a container with itself, which does nothing, is not modelled.
* The header node of a container is there from the beginning, except in `Many.v`, where it is allocated.
* Range relocation in a random access index to the beginning of the range itself is excluded.
* Threads (`Threads.v`): memory is sequentially consistent, the chain of a container is gone along in one step and changed in
  another one, and the member `cont` of an iterator is read before its operation starts. The other files have one thread.

## 6. Trusted base

* Coq's kernel (8.16.1), including `vm_compute` (used for concrete cases and refutations).
* Axioms: none. `Print Assumptions` says "Closed under the global context" for every theorem of the manifest. No
  axiom, parameter, admitted proof, functor or module type is declared, and no kernel check is switched off.
* The reading of the C++ code: the model is written by hand; each definition cites the lines it models.
* C++ semantics as in section 5.

## 7. Mutation testing

`seeded/run.py` applies the wrong programs of `seeded/mutants_*.json` to scratch copies, one at a time, admits the lemmas
that break, and finds through `Print Assumptions` the property theorems that depend on them. Results are in
`seeded/LOG.jsonl`: definition, edit, claim broken, theorems that failed, theorems tightened.
