{"id": "C01", "title": "Insertion is all-or-nothing across all indices", "statement": "insert/emplace/push_back of a value either adds exactly one new element to every index of the container (size grows by one, result flag true, iterator to the new element), or changes no index at all (flag false, size unchanged, every index has the same sequence of elements, except that a hashed index may have been rehashed, which keeps its elements and the order within each group of equivalent ones) and the returned iterator designates an element already present that conflicts with the value in some unique index.", "quantifier": "every container made of any finite list of indices of any kind, every reachable state, every value, every deterministic user comparator/hash/predicate", "why_tests_cant": "The number of index combinations and histories is unbounded; tests fix a handful of index lists.", "anchors": ["include/boost/multi_index_container.hpp: insert_, emplace_, insert_ref_", "include/boost/multi_index/detail/ord_index_impl.hpp: insert_", "include/boost/multi_index/hashed_index.hpp: insert_", "include/boost/multi_index/sequenced_index.hpp: insert_", "include/boost/multi_index/random_access_index.hpp: insert_", "include/boost/multi_index/detail/index_base.hpp: insert_"]}
{"id": "C02", "title": "Insertion has the strong exception guarantee", "statement": "If the allocator, the value's constructor or any user comparator/hash/predicate call throws at any point during insert/emplace, the exception propagates, every index has exactly the sequence of elements it had before (a hashed index may have been rehashed, which keeps its elements and the order within each group of equivalent ones), size() is unchanged and no node is leaked.", "quantifier": "every index list, every reachable state, every value and every choice of which user-supplied call throws", "why_tests_cant": "The crash point ranges over every user call inside every index; tests can only place a few throws.", "anchors": ["include/boost/multi_index_container.hpp: insert_, emplace_, insert_ref_", "include/boost/multi_index/detail/index_base.hpp: insert_", "include/boost/multi_index/detail/ord_index_impl.hpp: insert_", "include/boost/multi_index/hashed_index.hpp: insert_"]}
{"id": "C03", "title": "All indices always contain exactly the same elements", "statement": "After any sequence of container operations, including operations that fail or throw, every index enumerates exactly the same set of elements, each exactly once, and size() is that number; every enumerated element is alive and every alive element is enumerated.", "quantifier": "every index list and every finite history of insert/erase/replace/modify/modify with rollback/clear/transfer with arbitrary throw points", "why_tests_cant": "Histories are unbounded and the fault positions multiply them.", "anchors": ["include/boost/multi_index_container.hpp: insert_, erase_, replace_, modify_, clear_", "include/boost/multi_index/detail/index_base.hpp"]}
{"id": "C04", "title": "Unique indices never hold two equivalent elements", "statement": "At every reachable state, no two distinct elements of a unique ordered index are equivalent under its comparison, and no two distinct elements of a unique hashed index are equal under its equality predicate.", "quantifier": "every index list, every history (including failing and throwing operations)", "why_tests_cant": "Unbounded histories; duplicates could slip in through insert, hinted insert, replace, modify, rollback, merge.", "anchors": ["include/boost/multi_index/detail/ord_index_impl.hpp: link_point, in_place, modify_", "include/boost/multi_index/hashed_index.hpp: link_point, in_place, modify_"]}
{"id": "C05", "title": "Erasure removes exactly the designated element everywhere and calls no user code", "statement": "erase(position) removes that one element from every index and leaves all other elements in the same relative order in every index; size() drops by one; the operation performs no call to a user comparator, hash or predicate, so it cannot throw even when the element's key has been altered beforehand.", "quantifier": "every index list, every reachable state, every element", "why_tests_cant": "Exhaustive over shapes of the underlying trees, chains and arrays is not possible by testing.", "anchors": ["include/boost/multi_index_container.hpp: erase_", "include/boost/multi_index/detail/ord_index_impl.hpp: extract_", "include/boost/multi_index/hashed_index.hpp: extract_", "include/boost/multi_index/sequenced_index.hpp: extract_", "include/boost/multi_index/random_access_index.hpp: extract_"]}
{"id": "C06", "title": "replace succeeds exactly when no other element conflicts, and is atomic", "statement": "replace(position,x) returns true iff for every unique index no element other than *position is equivalent to x; on success *position has the new value and every index stays consistent; on failure, or if any user-supplied call throws, every index sequence and every element value is exactly as before.", "quantifier": "every index list, every reachable state, every element, every new value, every throw point", "why_tests_cant": "Strong guarantee over all fault positions and all neighbourhood configurations.", "anchors": ["include/boost/multi_index_container.hpp: replace_", "include/boost/multi_index/detail/ord_index_impl.hpp: replace_, in_place", "include/boost/multi_index/hashed_index.hpp: replace_", "include/boost/multi_index/detail/index_base.hpp: replace_"]}
{"id": "C07", "title": "modify repositions the element or erases it, never leaves it half-linked", "statement": "modify(position,mod): if the modified value is admissible in every index the call returns true and the element sits at a correct position in every index; otherwise it returns false and the element has been removed from every index and destroyed once. If mod or any user-supplied call throws, the element is removed from every index and destroyed once and the exception propagates.", "quantifier": "every index list, every reachable state, every element, every modification and every throw point", "why_tests_cant": "The failing index may be any one in the chain and the indices before and after it must be cleaned up consistently.", "anchors": ["include/boost/multi_index_container.hpp: modify_", "include/boost/multi_index/detail/ord_index_impl.hpp: modify_", "include/boost/multi_index/hashed_index.hpp: modify_", "include/boost/multi_index/sequenced_index.hpp: modify_"]}
{"id": "C08", "title": "modify with rollback restores the container when the change is rejected", "statement": "modify(position,mod,back) with no throwing user call: if the modified value is inadmissible in some index, back is invoked and if back restores the original value every index has exactly the sequence it had before the call and the element keeps its original value; the call returns false.", "quantifier": "every index list, every reachable state, every element, every modification, every rollback that restores the value", "why_tests_cant": "Requires exact restoration over all index kinds and neighbourhood shapes.", "anchors": ["include/boost/multi_index_container.hpp: modify_ (rollback overload)", "include/boost/multi_index/detail/ord_index_impl.hpp: modify_rollback_, check_rollback_", "include/boost/multi_index/hashed_index.hpp: modify_rollback_, check_rollback_"]}
{"id": "C09", "title": "modify with rollback is strong when a comparison/hash throws (documented)", "statement": "Documentation: modify(position,mod,back) offers the strong guarantee except if mod or back throw or back fails to restore the element or a user operation throws after back. Hence if a comparator/hash call throws during rearrangement and back restores the value, the element must be kept and the container be as before.", "quantifier": "every index list with at least one key-based index, every state, every throw point during rearrangement", "why_tests_cant": "Needs a throw at the right moment inside rearrangement and inspection of the handling code.", "anchors": ["include/boost/multi_index_container.hpp: modify_ (rollback overload)"]}
{"id": "C10", "title": "Ordered index: inorder traversal is sorted and equivalents keep insertion order", "statement": "At every reachable state of an ordered index under a strict weak ordering, iterating begin()..end() yields keys in non-descending order; a newly inserted element of a non-unique index is placed after all elements with an equivalent key.", "quantifier": "every comparison that is a strict weak ordering, every history of insertions and erasures", "why_tests_cant": "All tree shapes and histories.", "anchors": ["include/boost/multi_index/detail/ord_index_impl.hpp: link_point, insert_", "include/boost/multi_index/detail/ord_index_node.hpp: link"]}
{"id": "C11", "title": "Ordered index: linking and unlinking nodes keep the red-black balance", "statement": "After every insertion and erasure the tree of an ordered index satisfies the red-black conditions (no red node has a red child, all paths carry the same number of black nodes, root black), so no root-to-leaf path is longer than 2*log2(n+1); every rotation and recolouring touches only valid nodes.", "quantifier": "every tree satisfying the conditions, every insertion position and every erased node; every history", "why_tests_cant": "Case analysis over unboundedly many tree shapes; the delete fix-up has eight mirrored cases that recur up the path.", "anchors": ["include/boost/multi_index/detail/ord_index_node.hpp: rebalance, rebalance_for_extract, rotate_left, rotate_right, link"]}
{"id": "C12", "title": "Ordered index: iterators traverse every element exactly once in both directions", "statement": "Starting from begin(), repeated ++ visits each element of the index exactly once in order and reaches end() after exactly size() steps; starting from end(), repeated -- visits them in the reverse order; begin() is the first element and --end() the last.", "quantifier": "every reachable tree", "why_tests_cant": "increment/decrement climb parent links; correct for all shapes incl. the header special case only by induction.", "anchors": ["include/boost/multi_index/detail/ord_index_node.hpp: increment, decrement, minimum, maximum"]}
{"id": "C13", "title": "Ordered index: erase/extract at pointer level removes one node from the sequence", "statement": "Unlinking any element from an ordered index leaves the sequence of the remaining elements unchanged, updates begin()/--end() correctly, and leaves the handle of every other element valid.", "quantifier": "every reachable tree and every element in it", "why_tests_cant": "All shapes: node with zero, one or two children, root, leftmost, rightmost, successor adjacent or not.", "anchors": ["include/boost/multi_index/detail/ord_index_node.hpp: rebalance_for_extract"]}
{"id": "C14", "title": "Ordered index: lookups agree with the sequence", "statement": "find, lower_bound, upper_bound, equal_range, count and contains on an ordered index return what a scan of the sorted sequence returns: lower_bound the first element not less than the key, upper_bound the first greater than it, equal_range their pair, find an equivalent element iff one exists (the first one), count the number of equivalent elements, for any compatible key type and comparison.", "quantifier": "every reachable tree, every key, every compatible extension of the comparison", "why_tests_cant": "All shapes and keys; partial-key (compatible) comparisons relate many elements to one key.", "anchors": ["include/boost/multi_index/detail/ord_index_ops.hpp", "include/boost/multi_index/detail/ord_index_impl.hpp: find, count, lower_bound, upper_bound, equal_range"]}
{"id": "C15", "title": "Ordered index: range(lower,upper) returns exactly the matching interval", "statement": "range(lower,upper) with any lower and upper bounders, or unbounded in either place, returns the pair of positions delimiting exactly the elements satisfying both; if none does, both are the first element satisfying lower (or end()).", "quantifier": "every reachable tree, every monotone pair of bounders", "why_tests_cant": "All shapes and predicates.", "anchors": ["include/boost/multi_index/detail/ord_index_impl.hpp: range"]}
{"id": "C16", "title": "Ordered index: hinted insertion is correct for every hint", "statement": "Inserting with any hint position (right or wrong) keeps the index sorted and, for unique indices, rejects exactly the values with an equivalent element present; for non-unique indices the element goes as close as possible before the hint position allowed by the ordering.", "quantifier": "every reachable tree, every hint including end(), every value", "why_tests_cant": "Hints interact with tree shape (left/right null children of neighbours) in every possible way.", "anchors": ["include/boost/multi_index/detail/ord_index_impl.hpp: hinted_link_point, lower_link_point"]}
{"id": "C17", "title": "Ordered index: a failed or throwing replace/modify-rollback puts the node back in its place", "statement": "When replacement or rollback re-attaches an element which had been unlinked from an ordered index, the sequence of elements is exactly the original one.", "quantifier": "every reachable tree, every element", "why_tests_cant": "restore re-attaches relative to the successor in a tree whose shape was changed by rebalancing.", "anchors": ["include/boost/multi_index/detail/ord_index_node.hpp: restore", "include/boost/multi_index/detail/ord_index_impl.hpp: replace_, modify_rollback_"]}
{"id": "C18", "title": "Ordered index: replace/modify does not move an element whose key stays consistent", "statement": "If the new key of an element is still consistent with its neighbours, the element keeps its position in the ordered index; in particular this is so whenever the new key is equivalent to the old one.", "quantifier": "every reachable tree, every element, every new value", "why_tests_cant": "All shapes; neighbours found via increment/decrement.", "anchors": ["include/boost/multi_index/detail/ord_index_impl.hpp: in_place"]}
{"id": "C19", "title": "Compressed colour bit never corrupts the parent link", "statement": "Storing the node colour in the low bit of the parent word: reading the parent returns exactly the last parent stored and reading the colour exactly the last colour stored, whatever the interleaving of writes to the two.", "quantifier": "every sequence of colour and parent assignments, every even address", "why_tests_cant": "All addresses and write orders; bit-level.", "anchors": ["include/boost/multi_index/detail/ord_index_node.hpp: color_ref, parent_ref"]}
{"id": "C20", "title": "Ranked index: nth and rank are mutually inverse and agree with the sequence", "statement": "nth(i) is the i-th element of the sorted sequence for i<size() and end() otherwise; rank(it) is its position, rank(end())=size(); hence rank(nth(i))=i and nth(rank(it))=it.", "quantifier": "every reachable ranked tree, every index i, every position", "why_tests_cant": "Subtree counts must be right at every node of every shape.", "anchors": ["include/boost/multi_index/detail/rnk_index_ops.hpp: ranked_index_nth, ranked_index_rank", "include/boost/multi_index/ranked_index.hpp"]}
{"id": "C21", "title": "Ranked index: rank-returning lookups count the preceding elements", "statement": "find_rank, lower_bound_rank, upper_bound_rank, equal_range_rank and range_rank equal the ranks of the positions returned by find, lower_bound, upper_bound, equal_range and range.", "quantifier": "every reachable ranked tree, every key and compatible comparison", "why_tests_cant": "All shapes and keys.", "anchors": ["include/boost/multi_index/detail/rnk_index_ops.hpp"]}
{"id": "C22", "title": "Ranked index: subtree sizes stay exact through insert, erase and rebalancing", "statement": "After every insertion and erasure, with any number of rotations, each node's stored count is the number of nodes in its subtree.", "quantifier": "every reachable ranked tree, every insertion point and erased node", "why_tests_cant": "All shapes; count updates are interleaved with rotations and with node replacement in erase.", "anchors": ["include/boost/multi_index/ranked_index.hpp: rank_policy", "include/boost/multi_index/detail/ord_index_node.hpp: link, rebalance_for_extract, rotate_left, rotate_right"]}
{"id": "C23", "title": "Hashed index: every element is found and lies in the bucket of its hash", "statement": "At every reachable state, iterating begin()..end() of a hashed index visits each element exactly once, every element lies in bucket hash(key) mod bucket_count(), and find/count/equal_range return exactly the equivalent elements.", "quantifier": "every history of insertions/erasures/rehashes, every hash function and equality compatible with it, including total collisions", "why_tests_cant": "All histories and hash functions.", "anchors": ["include/boost/multi_index/hashed_index.hpp: link_point, find, count, equal_range", "include/boost/multi_index/detail/hash_index_node.hpp: link, unlink"]}
{"id": "C24", "title": "Hashed non-unique index: equivalent elements stay adjacent, a new one in front of its run", "statement": "In a hashed non-unique index all equivalent elements form one contiguous run, erasing or inserting any element keeps the other runs intact, and a group's begin/end computed by equal_range delimit exactly that run.", "quantifier": "every history, every group size", "why_tests_cant": "Group encoding changes shape at sizes 1, 2 and >=3, with special cases at bucket ends.", "anchors": ["include/boost/multi_index/detail/hash_index_node.hpp: hashed_index_node_alg<hashed_non_unique_tag>", "include/boost/multi_index/hashed_index.hpp: last_of_range, end_of_range"]}
{"id": "C25", "title": "Hashed index: rehash keeps all elements and is strong when the hash throws", "statement": "rehash/reserve (explicit or on insertion) keeps the set of elements and the order inside each group of equivalents, gives bucket_count()>=n and size()<=max_load; if the hash function throws midway, the index is unchanged.", "quantifier": "every reachable state, every requested n, every throw point", "why_tests_cant": "Throw point ranges over all elements; rollback relinks in reverse.", "anchors": ["include/boost/multi_index/hashed_index.hpp: unchecked_rehash, rehash, reserve_for_insert, calculate_max_load", "include/boost/multi_index/detail/bucket_array.hpp"]}
{"id": "C26", "title": "Hashed index: undo of an unlink restores the structure exactly", "statement": "When a replacement or modification on a hashed index fails or throws after the element was unlinked, all links are restored to exactly their previous values; the fixed-size undo log (3 and 2 entries) never overflows.", "quantifier": "every reachable state, every element, unique and non-unique", "why_tests_cant": "All positions in group and bucket; memory overflow of the log would be silent.", "anchors": ["include/boost/multi_index/detail/hash_index_node.hpp: unlink_undo_assigner, unlink", "include/boost/multi_index/hashed_index.hpp: replace_, modify_rollback_"]}
{"id": "C27", "title": "Hashed index equality is multiset equality", "statement": "x==y for hashed indices holds iff both have the same size and for each key the elements with that key in x are a permutation (under ==) of those in y, independently of bucket counts and insertion orders.", "quantifier": "every pair of reachable states", "why_tests_cant": "All permutations of groups.", "anchors": ["include/boost/multi_index/hashed_index.hpp: equals"]}
{"id": "C28", "title": "Bucket counts come from the prime table and positions are in range", "statement": "The number of buckets chosen for a request n is the smallest tabulated size >=n (or the largest one), and the bucket position of every hash value is smaller than the bucket count.", "quantifier": "every requested size and every hash value", "why_tests_cant": "Range of size_t.", "anchors": ["include/boost/multi_index/detail/bucket_array.hpp: size_index, position"]}
{"id": "C29", "title": "Sequenced index: positions behave as in a list", "statement": "insert before a position, push_back, push_front, relocate of one element or a range, splice within the container and erase give exactly the list obtained by the same operation on a mathematical list; elements inserted through other indices are appended at the end; begin/end, ++ and -- traverse that list.", "quantifier": "every list length and every choice of positions, including adjacent, equal and end positions", "why_tests_cant": "Pointer relinking with aliasing of neighbours; unbounded lengths.", "anchors": ["include/boost/multi_index/detail/seq_index_node.hpp: link, unlink, relink", "include/boost/multi_index/sequenced_index.hpp: insert, relocate, splice"]}
{"id": "C30", "title": "Sequenced index: sort yields a sorted permutation and survives throwing comparisons", "statement": "sort(comp) for a strict weak ordering rearranges the index into a comp-sorted permutation of its elements; if comp throws at any call the exception propagates and the index still is a well formed list holding exactly the same elements.", "quantifier": "every list, every strict weak ordering, every throw point", "why_tests_cant": "All lists and all throw points; carries spread over up to 65 temporary lists.", "anchors": ["include/boost/multi_index/detail/seq_index_ops.hpp: sequenced_index_sort, sequenced_index_collate"]}
{"id": "C31", "title": "Sequenced index: sort is stable (documented)", "statement": "Documentation: the sorting is stable, i.e. equivalent elements preserve their relative position.", "quantifier": "every list, every strict weak ordering", "why_tests_cant": "The test-suite compares values only and cannot tell equivalent elements apart.", "anchors": ["include/boost/multi_index/detail/seq_index_ops.hpp: sequenced_index_sort, sequenced_index_collate"]}
{"id": "C32", "title": "Sequenced index: sort never overruns its fixed array of temporaries", "statement": "The temporary list headers used by sort are never indexed beyond digits(size_t)+1 entries for any list with fewer than 2^digits elements.", "quantifier": "every list length below 2^64", "why_tests_cant": "Cannot be reached by testing: needs astronomically long lists.", "anchors": ["include/boost/multi_index/detail/seq_index_ops.hpp: sequenced_index_sort_max_fill, sequenced_index_sort"]}
{"id": "C33", "title": "Sequenced index: merge is a stable merge", "statement": "merge of two sorted sequenced indices (no banned insertion) yields the stable merge: sorted, containing all elements, elements of each source in their original relative order, ties resolved in favour of the destination; the source is left empty.", "quantifier": "every pair of sorted lists, every strict weak ordering", "why_tests_cant": "All interleavings.", "anchors": ["include/boost/multi_index/detail/seq_index_ops.hpp: sequenced_index_merge, sequenced_index_collate"]}
{"id": "C34", "title": "Sequenced index: remove, unique and reverse match their list definitions", "statement": "remove_if(pred) keeps exactly the elements not satisfying pred in order; unique(pred) keeps the first of each consecutive group; reverse reverses the list; other elements are untouched. If the predicate throws at any call the index is still well formed with a subset of its elements in order.", "quantifier": "every list, every predicate, every throw point", "why_tests_cant": "All lists and predicates.", "anchors": ["include/boost/multi_index/detail/seq_index_ops.hpp: sequenced_index_remove, sequenced_index_unique", "include/boost/multi_index/detail/seq_index_node.hpp: reverse"]}
{"id": "C35", "title": "Sequenced index: range splice from another container gives basic guarantee on throw (documented)", "statement": "Documentation: splice(position,x,first,last) between containers has the basic exception guarantee: if a user operation throws during transfer, the exception propagates and both containers are well formed, each element being in exactly one of them.", "quantifier": "every destination list, every position, every number of elements transferred before the throw", "why_tests_cant": "Requires a throw during the transfer with a position different from end().", "anchors": ["include/boost/multi_index/sequenced_index.hpp: external_splice"]}
{"id": "C36", "title": "Sequenced/random access: rearrange produces exactly the requested view", "statement": "rearrange(first) with a free view of the index makes the index order equal to the view.", "quantifier": "every permutation", "why_tests_cant": "n! permutations.", "anchors": ["include/boost/multi_index/sequenced_index.hpp: rearrange", "include/boost/multi_index/random_access_index.hpp: rearrange"]}
{"id": "C37", "title": "Random access index: positions and back-pointers are always consistent", "statement": "At every reachable state of a random access index, element i found through operator[](i)/begin()+i is the i-th element, iterator arithmetic and differences agree with positions, and end() is at position size(); push_back, insert before a position, erase and clear act as on a mathematical vector.", "quantifier": "every history, every position", "why_tests_cant": "Unbounded histories.", "anchors": ["include/boost/multi_index/detail/rnd_index_ptr_array.hpp", "include/boost/multi_index/detail/rnd_index_node.hpp: increment, decrement, advance, distance, extract", "include/boost/multi_index/random_access_index.hpp"]}
{"id": "C38", "title": "Random access index: relocation of an element or a range is a rotation", "statement": "relocate(position,i) and relocate(position,first,last) move exactly the given element/range before position, keeping its internal order and the order of the others, for every length of range and gap.", "quantifier": "every array and all first<=last, position outside [first,last)", "why_tests_cant": "The range version permutes along gcd-many cycles; correctness is number-theoretic.", "anchors": ["include/boost/multi_index/detail/rnd_index_node.hpp: relocate"]}
{"id": "C39", "title": "Random access index: storage is never overrun and capacity is as documented", "statement": "capacity()>=size() always; insertion writes only inside the allocated array; reserve(n) gives capacity()>=n; shrink_to_fit gives capacity()==size(); growing keeps the sequence; if allocation throws nothing changes.", "quantifier": "every history of pushes, erasures, reserves and shrinks", "why_tests_cant": "Boundaries of growth policy at all sizes.", "anchors": ["include/boost/multi_index/detail/rnd_index_ptr_array.hpp: room_for_one, reserve, shrink_to_fit, set_capacity, push_back"]}
{"id": "C40", "title": "Random access index: remove, unique, merge, sort and reverse match their sequence definitions", "statement": "remove_if keeps exactly the non-matching elements in order; unique keeps the first of each consecutive group; merging two sorted runs is the stable merge; sort is the stable sort (assuming std::stable_sort is) and leaves the index untouched if the comparison throws; reverse reverses.", "quantifier": "every array, every predicate and strict weak ordering, every throw point", "why_tests_cant": "All arrays.", "anchors": ["include/boost/multi_index/detail/rnd_index_ops.hpp", "include/boost/multi_index/detail/rnd_index_node.hpp: reverse"]}
{"id": "C41", "title": "Random access index: splice by another index's order gathers the range before position", "statement": "Splicing within the same container a range given by another index's order moves exactly those elements, in that order, before position, and keeps the order of the others.", "quantifier": "every array, every position and every selection of elements not containing position", "why_tests_cant": "Two-sided in-place compaction; all subsets and positions.", "anchors": ["include/boost/multi_index/random_access_index.hpp: internal_splice", "include/boost/multi_index/detail/rnd_index_node.hpp: gather_nulls"]}
{"id": "C42", "title": "Composite keys: comparison is a strict weak ordering and prefix search is compatible", "statement": "If each component comparison is a strict weak ordering then composite key comparison is the lexicographic strict weak ordering; comparing with a shorter tuple of leading components is a compatible extension, so lower_bound/upper_bound/equal_range with a prefix delimit exactly the elements with that prefix.", "quantifier": "every number of components, every component ordering, every prefix length", "why_tests_cant": "All arities and key values.", "anchors": ["include/boost/multi_index/composite_key.hpp: compare_ckey_ckey, compare_ckey_cval, composite_key_compare"]}
{"id": "C43", "title": "Composite keys: equality and hashing are compatible", "statement": "Composite equality holds iff all components are equal; equal composite keys, and a composite key and an equal tuple, have the same composite hash.", "quantifier": "every number of components, every component hash and equality compatible with it, every size_t carry", "why_tests_cant": "All arities and values; wrap-around arithmetic of the combination.", "anchors": ["include/boost/multi_index/composite_key.hpp: equal_ckey_ckey, equal_ckey_cval, hash_ckey, hash_cval"]}
{"id": "C44", "title": "Serialization: saved rearrangement information restores the order", "statement": "For any index order saved against the base order, loading the produced pointer stream into an index initially in base order reproduces exactly the saved order.", "quantifier": "every base sequence without repetition and every permutation of it", "why_tests_cant": "n! permutations; stream compression heuristics depend on distances between displaced elements.", "anchors": ["include/boost/multi_index/detail/index_saver.hpp: save", "include/boost/multi_index/detail/index_loader.hpp: load", "include/boost/multi_index/sequenced_index.hpp: rearranger"]}
{"id": "C45", "title": "Serialization: elements considered in order form a longest increasing subsequence", "statement": "The elements not recorded as displaced appear in the index in the same relative order as in the base sequence, and no larger set has this property.", "quantifier": "every pair of sequences", "why_tests_cant": "All permutations; patience sorting correctness.", "anchors": ["include/boost/multi_index/detail/index_matcher.hpp"]}
{"id": "C46", "title": "Serialization: random access loader restores array order", "statement": "Loading rearrangements into a random access index yields, once loading finishes, exactly the order given by the sequence of reposition-after operations, with consistent positions.", "quantifier": "every array and every sequence of rearrangements", "why_tests_cant": "In-place list-to-array conversion by swapping; all permutations.", "anchors": ["include/boost/multi_index/detail/rnd_index_loader.hpp"]}
{"id": "C47", "title": "Copying reproduces every index order", "statement": "A copy constructed container enumerates, in every index, fresh copies of the elements in the same order as the source, and the source is unchanged; if copying an element throws, all copied nodes are released.", "quantifier": "every index list, every reachable source, every throw point", "why_tests_cant": "All states and address layouts (lookup of copies is by address order).", "anchors": ["include/boost/multi_index_container.hpp: copy_construct_from", "include/boost/multi_index/detail/copy_map.hpp", "include/boost/multi_index/detail/ord_index_impl.hpp: copy_", "include/boost/multi_index/sequenced_index.hpp: copy_", "include/boost/multi_index/random_access_index.hpp: copy_", "include/boost/multi_index/hashed_index.hpp: copy_"]}
{"id": "C48", "title": "Extract and re-insert through node handles transfers ownership exactly once", "statement": "extract(position) removes the element from every index without destroying it; inserting the handle either links the same node (handle becomes empty) or leaves the handle owning it; on a throw the handle is unchanged; every node is destroyed exactly once over any history.", "quantifier": "every history mixing extract, insert(handle), handle moves and destruction", "why_tests_cant": "Double free or leak depends on the path taken.", "anchors": ["include/boost/multi_index_container.hpp: extract_, insert_nh_", "include/boost/multi_index/detail/node_handle.hpp"]}
{"id": "C49", "title": "merge moves each element to exactly one container", "statement": "merge/transfer between containers moves an element iff it conflicts with none in the destination's unique indices; afterwards every element is in exactly one of the two containers, no element is copied or destroyed, and order in the source of the remaining elements is unchanged; a throw leaves the element in the source.", "quantifier": "every pair of containers with arbitrary index lists, every range of elements, every throw point", "why_tests_cant": "All states; strong guarantee per element.", "anchors": ["include/boost/multi_index_container.hpp: transfer_, transfer_range_, extract_for_transfer_", "include/boost/multi_index/detail/index_base.hpp: insert_ (transfer)"]}
{"id": "C50", "title": "clear and destruction delete every node exactly once", "statement": "clear() destroys every element exactly once, whatever kind of index walks the nodes, leaves every index empty and size()==0.", "quantifier": "every index list and reachable state", "why_tests_cant": "Traversal reads links of nodes while deleting them; use-after-free depends on order.", "anchors": ["include/boost/multi_index_container.hpp: clear_, delete_all_nodes_", "include/boost/multi_index/detail/ord_index_impl.hpp: delete_all_nodes", "include/boost/multi_index/sequenced_index.hpp: delete_all_nodes_", "include/boost/multi_index/hashed_index.hpp: delete_all_nodes_"]}
{"id": "C51", "title": "Saving a container and loading it again", "statement": "Saving leaves the container unchanged, whether or not a user-provided function throws meanwhile. Loading what has been saved into any other container with the same indices replaces its elements by equal ones, in the same order in every ordered, sequenced and random access index (a hashed index has the same elements, in some order). If a user-provided function throws while loading, the container is in a valid state, and node handles keep their values. Loading any other archive, however corrupt its ordering information, has defined behaviour and leaves a valid container. Iterators saved after the container are loaded as iterators to the corresponding elements, end() as end().", "quantifier": "every index list, every two reachable containers, every archive and every call that throws", "why_tests_cant": "The archive holds a compressed permutation per index; corrupt archives, permutations and exceptions multiply; pointers are translated by the archive.", "anchors": ["include/boost/multi_index_container.hpp: save, load", "include/boost/multi_index/detail/index_saver.hpp", "include/boost/multi_index/detail/index_loader.hpp", "include/boost/multi_index/detail/index_matcher.hpp", "include/boost/multi_index/detail/duplicates_iterator.hpp", "include/boost/multi_index/detail/ord_index_impl.hpp: save_, load_"]}
{"id": "C52", "title": "Erasing and extracting by key or range", "statement": "erase(k) of an ordered or hashed index removes exactly the elements whose key is equivalent to k, from every index, and returns their number; the other elements keep their places, values and iterators. extract(k) takes the first of them out into a node handle, or returns an empty one if there is none. erase(first,last) removes exactly the elements of the range and returns last. If a user-provided function throws during erase(k) or extract(k), nothing has changed.", "quantifier": "every index list, reachable state, key, range and call that throws", "why_tests_cant": "The range found by one index is erased from all the others, while the links that delimit it change; groups of equivalent elements have special links in a hashed index.", "anchors": ["include/boost/multi_index/detail/ord_index_impl.hpp: erase, extract", "include/boost/multi_index/hashed_index.hpp: erase, extract, end_of_range", "include/boost/multi_index/sequenced_index.hpp: erase"]}
{"id": "C53", "title": "Range insertion and range construction", "statement": "insert(first,last) considers the values of the range in order and inserts each one unless it clashes with an element already present, including those inserted before it from the same range. New elements go to the end of every sequenced and random access index, in the order of the range; assign and range insertion of these indices put them at the given place. If an exception is thrown midway, exactly the values before the failing one have been considered, and the container is consistent. The range constructor does the same for an empty container, with the position after the last insertion as a hint; if it throws, every element made so far is destroyed and its memory freed. A range sorted as the first, ordered index is kept in its order.", "quantifier": "every index list, reachable state, range and call that throws", "why_tests_cant": "The result depends on clashes among the values of the range in any of the indices, and an exception may come from any index at any value; a hint taken from one index is passed to all of them.", "anchors": ["include/boost/multi_index_container.hpp: range and initializer_list constructors", "include/boost/multi_index/detail/ord_index_impl.hpp: insert(first,last)", "include/boost/multi_index/hashed_index.hpp: insert(first,last)", "include/boost/multi_index/sequenced_index.hpp: insert, assign"]}
{"id": "C54", "title": "Random access index: splice from another container", "statement": "splice(position,x,i) and splice(position,x,first,last), x being an index of any kind of another container: an element moves if and only if it conflicts with no element then in the destination; those which move end up before position in their order, and leave all indices of the source; the others stay. If user code throws, the exception propagates, a single element has not moved, and of a range those which have moved are before position; each element is in exactly one container.", "quantifier": "every pair of containers with any lists of indices, every reachable state, position and range, every point where user code throws", "why_tests_cant": "All combinations of indices, positions, conflicts and throw points.", "anchors": ["include/boost/multi_index/random_access_index.hpp: splice, external_splice"]}
{"id": "C55", "title": "Comparison of ordered, sequenced and random access indices", "statement": "x==y holds iff x and y have the same size and elements in the same places are ==; x<y iff x lexicographically precedes y; !=, >, >= and <= agree with these. Neither index is changed, the number of comparisons of elements is at most min(size) for == (none if the sizes differ) and twice that for <; an exception thrown by a comparison propagates. < is a strict weak order if that of the elements is.", "quantifier": "every pair of indices of two reachable containers with any lists of indices, every operator== and operator< of the elements, every point where they throw", "why_tests_cant": "All states, operators and throw points.", "anchors": ["include/boost/multi_index/detail/ord_index_impl.hpp: operator==, operator<", "include/boost/multi_index/sequenced_index.hpp: operator==, operator<", "include/boost/multi_index/random_access_index.hpp: operator==, operator<"]}
{"id": "C56", "title": "Programs with any number of containers", "statement": "Default, copy and move construction, swap, copy and move assignment, destruction, and every operation of one container or between two, in any order: each container stays consistent, nothing is undefined, and an operation leaves the containers it does not concern unchanged. A copy or an assignment either makes an equal container with new elements (in all indices) or, if anything throws, changes nothing. Swap, move assignment and destruction never throw; swap exchanges whole containers, iterators and function objects included; a moved-from container is empty and usable. Every node in memory is the header or an element of exactly one container, or owned by one node handle; when all are destroyed no memory is left.", "quantifier": "every program with any number of containers with any lists of indices, every point where user code or allocation throws", "why_tests_cant": "Unbounded numbers of containers, operations and states; all throw points.", "anchors": ["include/boost/multi_index_container.hpp: constructors, operator=, swap_, swap_elements_, destructor", "include/boost/multi_index/detail/header_holder.hpp", "include/boost/multi_index/detail/ord_index_impl.hpp: swap_", "include/boost/multi_index/hashed_index.hpp: swap_", "include/boost/multi_index/random_access_index.hpp: swap_"]}
{"id": "C57", "title": "Safe mode", "statement": "In safe mode an iterator which passes for valid belongs to a container which exists, and is at an element which is in it now or at its end. Each use of *, ++, --, +=, ==, -, of assignment, of a range, of a position which has to be outside of a range, of project and of erase is reported exactly if it is incorrect (the iterator is singular or became invalid, is at the end or the beginning, would leave the index, belongs to another container, the range is not one or the position is in it), and then nothing has changed. Erasing an element or a failed modify invalidates exactly the iterators to it; clear those to elements but not end(); destruction all of the container's; no other operation invalidates any. Swap exchanges the owners of iterators, end() included; when an element goes to another container its iterators do too, unless iterators of the two are of different types, in which case they become invalid. Nothing in this is undefined.", "quantifier": "every number of indices and iterators, every program which makes, copies, assigns, loads, uses and destroys iterators and inserts, erases, transfers, reorders, clears, swaps and destroys", "why_tests_cant": "Unbounded numbers of iterators in lists linked through them in any order; a test sees a dangling pointer only if the memory was reused.", "anchors": ["include/boost/multi_index/detail/safe_mode.hpp", "include/boost/multi_index/detail/any_container_view.hpp", "include/boost/multi_index/detail/ord_index_impl.hpp: detach_iterators, transfer_iterators, clear_, swap_, erase"]}
{"id": "C58", "title": "Memory goes back to the allocator it comes from", "statement": "Programs that construct, copy, move (with or without another allocator), assign, swap, fill, empty, splice and destroy containers and use node handles, whatever is thrown in them: each block is returned exactly once and to an allocator equal to the one it comes from, and nothing is left when all containers and node handles have been destroyed. This is so for every program exactly if the container has neither hashed nor random access indices or its allocator propagates on swap and on move assignment; for any container and allocator it is so for programs that never build a container with an allocator other than that of the container copied or moved from. get_allocator() of each container is what the propagation traits and select_on_container_copy_construction say, and an operation that throws does not change it.", "quantifier": "every sequence of operations on any number of containers and node handles, every combination of indices and allocator traits, every point at which an exception is thrown", "why_tests_cant": "Needs allocators which do not compare equal and which notice whose memory they get back, for every combination of traits, operations and exceptions. The project's own test of unequal allocators goes through the faulty cases and passes.", "anchors": ["include/boost/multi_index_container.hpp: constructors, operator=, swap_, swap_elements_, copy_construct_from", "include/boost/multi_index/detail/auto_space.hpp", "include/boost/multi_index/hashed_index.hpp: constructors, swap_, unchecked_rehash", "include/boost/multi_index/random_access_index.hpp: constructors, swap_", "include/boost/multi_index/detail/node_handle.hpp"]}
{"id": "C59", "title": "Invariant checking never fails, and what it detects", "statement": "With BOOST_MULTI_INDEX_ENABLE_INVARIANT_CHECKING, invariant_() is true of every container in every state between operations, whatever operations led there and whichever of them threw, in programs with one container or many: no assertion can fail in a correct program, and checking does not change the container. invariant_() of the container is true exactly if it is true of each of its indices. Conversely, of any index in any state, however damaged: if invariant_() is true then iterating from begin() to end() comes across exactly size() different nodes. Of a sequenced index it is true exactly if the nodes form a ring of size() elements linked in both directions, but for the back link of the first element; of a random access index exactly if each node met is in the slot it points to and followed by the next one. If it is true of an ordered index, each node is rightly coloured and counted in relation to its children and not out of order with them, leaves are at the same black depth, and begin() and the last element are the ends of the tree, or end() if it is empty; if it is true of a hashed index, the buckets have size() different elements altogether, each in the bucket of its hash value.", "quantifier": "every list of indices, every history of operations and exceptions, every number of containers; for the converse every state of an index", "why_tests_cant": "The project's tests run with invariant checking switched on, so they cannot tell a structure that is right from one the check does not look at, nor show that the check accepts every state which operations lead to.", "anchors": ["include/boost/multi_index_container.hpp: invariant_, check_invariant_", "include/boost/multi_index/detail/ord_index_impl.hpp: invariant_", "include/boost/multi_index/detail/ord_index_node.hpp: black_count", "include/boost/multi_index/hashed_index.hpp: invariant_", "include/boost/multi_index/sequenced_index.hpp: invariant_", "include/boost/multi_index/random_access_index.hpp: invariant_", "include/boost/multi_index/ranked_index.hpp: invariant"]}
{"id": "C60", "title": "Safe mode with several threads: no deadlock, no race, as if one after another", "statement": "In safe mode iterators register with their container when they are made, copied, assigned or destroyed, and so do the temporary ones of each check. Any number of threads may do so at the same time, with any containers, while others erase elements or transfer them between containers in any direction, and however their steps are interleaved: they never all wait for one another, they come to an end, no two of them get at the chain of iterators of the same container at the same time, and the chains in the end are those which the operations would have led to one after another, in an order that is the order of each thread. Something undefined can only come up if it does so in such an order. If threads make and destroy iterators of their own only, as threads which read a container do, and erase or transfer elements only if no other thread has iterators to them, nothing undefined comes up, each iterator stays attached as its thread has left it whatever the others do, and in the end each container knows exactly the iterators attached to it.", "quantifier": "every number of threads, every sequence of operations of each, every interleaving of their steps, every number of containers and order of their addresses", "why_tests_cant": "The project has no tests with threads, and a test sees few interleavings; a deadlock needs two threads that lock two containers in opposite order at the same time.", "anchors": ["include/boost/multi_index/detail/scoped_bilock.hpp: scoped_bilock", "include/boost/multi_index/detail/safe_mode.hpp: safe_iterator_base::attach, safe_iterator_base::detach, detach_equivalent_iterators, transfer_equivalent_iterators"]}
{"id": "C61", "title": "Node handles: the allocator's lifetime, and no node lost", "statement": "A node handle keeps its allocator in raw storage, constructed and destroyed by hand. In every program which default constructs, obtains by extraction, moves, assigns, swaps (with itself too), inserts from and destroys node handles, as long as it uses handles that are alive and meets the requirements on allocators of move assignment and swap: the storage has an allocator object exactly if the handle is not empty, none is constructed over another, used or destroyed when there is none, or left behind; after a move, assignment or swap the handles have the nodes and allocators which they should, and the one moved from is empty; a node is in at most one handle, is deallocated once, by an allocator equal to that which allocated it, and is not lost: it is in a handle or was given to a container.", "quantifier": "every sequence of operations on every number of node handles, every combination of propagation traits, every allocator", "why_tests_cant": "Assignment and swap have four cases each, times the traits, and an allocator object that is not there or is destroyed twice goes unnoticed with the usual empty allocators; only sequences of operations make such a mistake matter.", "anchors": ["include/boost/multi_index/detail/node_handle.hpp: node_handle"]}
