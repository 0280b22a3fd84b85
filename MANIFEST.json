{
 "claims": [
  {
   "property": "C01",
   "status": "proved",
   "theorems": [
    "C01_C02_insert",
    "C01_C02_emplace"
   ],
   "note": "any list of indices of all kinds"
  },
  {
   "property": "C02",
   "status": "proved",
   "theorems": [
    "C01_C02_insert",
    "C01_C02_emplace",
    "C02_same_sequences_refuted"
   ],
   "note": "any list of indices of all kinds; the first wording, with equal sequences in hashed indices too, is refuted by C02_same_sequences_refuted: buckets are reserved first"
  },
  {
   "property": "C03",
   "status": "proved",
   "theorems": [
    "C03_consistent",
    "C03_defined",
    "C03_two_consistent",
    "C03_two_defined",
    "C03_copies_consistent",
    "C03_copies_defined",
    "C03_serial_consistent",
    "C03_serial_defined"
   ],
   "note": "any list of indices of all kinds and any history of one container; any history of two containers sharing a memory, with transfers of elements and ranges in both directions; histories with copies; histories in which the container is saved, and loaded from any archive"
  },
  {
   "property": "C04",
   "status": "proved",
   "theorems": [
    "C04_unique"
   ],
   "note": "any list of indices of all kinds"
  },
  {
   "property": "C05",
   "status": "proved",
   "theorems": [
    "C05_erase",
    "C05_erase_altered"
   ],
   "note": "any list of indices of all kinds"
  },
  {
   "property": "C06",
   "status": "proved",
   "theorems": [
    "C06_replace"
   ],
   "note": "any list of indices of all kinds"
  },
  {
   "property": "C07",
   "status": "proved",
   "theorems": [
    "C07_modify"
   ],
   "note": "any list of indices of all kinds"
  },
  {
   "property": "C08",
   "status": "proved",
   "theorems": [
    "C08_modify_rollback"
   ],
   "note": "any list of indices of all kinds"
  },
  {
   "property": "C09",
   "status": "partial",
   "theorems": [
    "C09_modify_rollback_partial",
    "C09_refuted",
    "C09_double_erase_refuted"
   ],
   "note": "the documented claim is false of the code: the element is lost, and erased twice if back does not restore it; counterexamples proved"
  },
  {
   "property": "C10",
   "status": "proved",
   "theorems": [
    "C10_sorted",
    "C10_insert",
    "C10_emplace",
    "C10_insert_handle"
   ],
   "note": "every reachable state of a container with any other indices"
  },
  {
   "property": "C11",
   "status": "proved",
   "theorems": [
    "C11_C22_tree"
   ],
   "note": "tree read from memory; every reachable state"
  },
  {
   "property": "C12",
   "status": "proved",
   "theorems": [
    "C12_begin",
    "C12_next",
    "C12_prev",
    "C12_prev_end",
    "C12_forward",
    "C12_backward"
   ],
   "note": "every reachable state of a container with any other indices"
  },
  {
   "property": "C13",
   "status": "proved",
   "theorems": [
    "C13_erase",
    "C13_extract"
   ],
   "note": "every reachable state of a container with any other indices"
  },
  {
   "property": "C14",
   "status": "proved",
   "theorems": [
    "C14_lower_bound",
    "C14_upper_bound",
    "C14_equal_range",
    "C14_find",
    "C14_contains",
    "C14_count"
   ],
   "note": "every reachable state of a container with any other indices"
  },
  {
   "property": "C15",
   "status": "proved",
   "theorems": [
    "C15_range"
   ],
   "note": "every reachable state of a container with any other indices"
  },
  {
   "property": "C16",
   "status": "proved",
   "theorems": [
    "C16_insert",
    "C16_emplace",
    "C16_insert_handle"
   ],
   "note": "every reachable state of a container with any other indices"
  },
  {
   "property": "C17",
   "status": "proved",
   "theorems": [
    "C17_replace",
    "C17_rollback"
   ],
   "note": "every reachable state of a container with any other indices"
  },
  {
   "property": "C18",
   "status": "proved",
   "theorems": [
    "C18_replace",
    "C18_modify",
    "C18_equivalent"
   ],
   "note": "every reachable state of a container with any other indices"
  },
  {
   "property": "C19",
   "status": "proved",
   "theorems": [
    "C19_compressed",
    "C19_any",
    "C19_word"
   ],
   "note": "Words of any number of binary digits; assignments of values and of the colour or parent of any node, in any order, from any content of the memory, give what separate fields give."
  },
  {
   "property": "C20",
   "status": "proved",
   "theorems": [
    "C20_nth",
    "C20_rank",
    "C20_rank_end",
    "C20_rank_nth",
    "C20_nth_rank"
   ],
   "note": "every reachable state of a container with any other indices"
  },
  {
   "property": "C21",
   "status": "proved",
   "theorems": [
    "C21_lower_bound_rank",
    "C21_upper_bound_rank",
    "C21_find_rank",
    "C21_equal_range_rank",
    "C21_count",
    "C21_range_rank"
   ],
   "note": "every reachable state of a container with any other indices"
  },
  {
   "property": "C22",
   "status": "proved",
   "theorems": [
    "C11_C22_tree"
   ],
   "note": "tree read from memory; every reachable state"
  },
  {
   "property": "C23",
   "status": "proved",
   "theorems": [
    "C23_iteration",
    "C23_find",
    "C23_contains",
    "C23_count",
    "C23_C24_equal_range",
    "C23_buckets"
   ],
   "note": "Lookups with the key type or any compatible key; the bucket interface enumerates exactly the elements whose hash is congruent to the bucket."
  },
  {
   "property": "C24",
   "status": "proved",
   "theorems": [
    "C24_adjacent",
    "C24_insert",
    "C24_erase",
    "C23_C24_equal_range"
   ],
   "note": "Insertions may rehash; every run of equivalent elements keeps its order nevertheless."
  },
  {
   "property": "C25",
   "status": "proved",
   "theorems": [
    "C25_rehash",
    "C25_reserve",
    "C24_insert"
   ],
   "note": "size()<=max_load for every float policy with 1+n/mlf buckets enough for n elements (ratio_sound: holds without rounding), as long as the number of buckets asked for is not beyond the table. Explicit rehash/reserve are strong; an exception in the rehashing done by an insertion may come after a completed rehashing, see C02_same_sequences_refuted."
  },
  {
   "property": "C26",
   "status": "proved",
   "theorems": [
    "C26_replace",
    "C26_modify_rollback",
    "C06_replace",
    "C08_modify_rollback"
   ],
   "note": "All link fields, the bucket array and the maximum load are those of before. Overflow of the log is UB in the model and excluded by C06/C08."
  },
  {
   "property": "C27",
   "status": "proved",
   "theorems": [
    "C27_equals",
    "C27_permutation"
   ],
   "note": "Both equals functions (unique and non-unique) over two reachable containers with any other indices and possibly different hash functions; operator== of elements is any equivalence and may throw. Comparison of an index with itself is covered as comparison of two copies of its state."
  },
  {
   "property": "C28",
   "status": "proved",
   "theorems": [
    "C28_size",
    "C28_position"
   ],
   "note": "Stated on the table of bucket_array.hpp itself."
  },
  {
   "property": "C29",
   "status": "proved",
   "theorems": [
    "C29_sequenced_history",
    "C29_erase_returns_next",
    "C29_box_links",
    "C29_box_begin",
    "C29_box_next",
    "C29_box_prior",
    "C29_box_insert",
    "C29_box_push_front",
    "C29_box_push_back",
    "C29_box_insert_all",
    "C29_box_assign",
    "C29_box_pop_front",
    "C29_box_pop_back",
    "C29_box_resize",
    "C29_box_relocate",
    "C29_box_relocate_self",
    "C29_box_relocate_range",
    "C29_box_splice"
   ],
   "note": "pointer-level model, all histories of position operations; C29_box_*: the same and insertion, erasure, assign, resize in every state of a container with any list of indices, exceptions included"
  },
  {
   "property": "C30",
   "status": "proved",
   "theorems": [
    "C30_sort",
    "C30_sort_propagates",
    "C30_box_sort"
   ],
   "note": "every throw point; C30_box_sort: in every state of a container with any list of indices"
  },
  {
   "property": "C31",
   "status": "partial",
   "theorems": [
    "C31_sort_stable_refuted"
   ],
   "note": "the documented claim is false of the code; counterexample proved"
  },
  {
   "property": "C32",
   "status": "proved",
   "theorems": [
    "C32_sort_temporaries",
    "C32_bound_sharp"
   ],
   "note": ""
  },
  {
   "property": "C33",
   "status": "proved",
   "theorems": [
    "C33_merge",
    "C33_merge_propagates",
    "C33_box_merge"
   ],
   "note": "C33_box_merge: two containers with any lists of indices, one of which is a sequenced one; elements refused by any index of the destination stay in the source; what is where after an exception is stated"
  },
  {
   "property": "C34",
   "status": "proved",
   "theorems": [
    "C34_remove",
    "C34_unique",
    "C34_reverse",
    "C34_remove_unique_propagate",
    "C34_box_remove_if",
    "C34_box_unique",
    "C34_box_reverse"
   ],
   "note": "C34_box_*: in every state of a container with any list of indices, elements leaving all indices; what was done before an exception is stated exactly"
  },
  {
   "property": "C35",
   "status": "partial",
   "theorems": [
    "C35_range_splice_partial",
    "C35_single_splice",
    "C35_range_splice_refuted",
    "C35_box_splice",
    "C35_box_range_partial",
    "C35_box_range_refuted"
   ],
   "note": "false of the code for a position other than end() when user code throws; counterexample proved; C35_box_*: containers with any lists of indices"
  },
  {
   "property": "C36",
   "status": "proved",
   "theorems": [
    "C36_rearrange_sequenced",
    "C36_rearrange",
    "C36_box_rearrange"
   ],
   "note": "sequenced lists and random access indices of containers"
  },
  {
   "property": "C37",
   "status": "proved",
   "theorems": [
    "C37_vector",
    "C37_begin",
    "C37_nth",
    "C37_at",
    "C37_advance",
    "C37_distance",
    "C37_next",
    "C37_push_back",
    "C37_push_front",
    "C37_insert",
    "C37_insert_range",
    "C37_assign",
    "C37_resize",
    "C37_erase",
    "C37_pop_front",
    "C37_pop_back",
    "C37_erase_range",
    "C37_clear"
   ],
   "note": "every reachable state of a container with any other indices"
  },
  {
   "property": "C38",
   "status": "proved",
   "theorems": [
    "C38_relocate",
    "C38_relocate_self",
    "C38_relocate_range"
   ],
   "note": "every reachable state of a container with any other indices"
  },
  {
   "property": "C39",
   "status": "proved",
   "theorems": [
    "C39_capacity",
    "C39_reserve",
    "C39_shrink_to_fit"
   ],
   "note": "every reachable state of a container with any other indices"
  },
  {
   "property": "C40",
   "status": "proved",
   "theorems": [
    "C40_reverse",
    "C40_remove_if",
    "C40_unique",
    "C40_sort",
    "C40_merge",
    "C40_box_merge"
   ],
   "note": "every reachable state of a container with any other indices; std::stable_sort is assumed to be a stable sort, std::inplace_merge and std::unique are modelled; C40_box_merge: merge from another container"
  },
  {
   "property": "C41",
   "status": "proved",
   "theorems": [
    "C41_splice"
   ],
   "note": "every reachable state of a container with any other indices"
  },
  {
   "property": "C42",
   "status": "proved",
   "theorems": [
    "C42_lexicographic",
    "C42_lexicographic_tuple",
    "C42_swo",
    "C42_compatible",
    "C42_equal_range",
    "C42_find"
   ],
   "note": "Typed tuples of any number of components and of any shorter or longer tuple; equal_range and find in an ordered index at any position of any reachable container."
  },
  {
   "property": "C43",
   "status": "proved",
   "theorems": [
    "C43_equal",
    "C43_equal_tuple",
    "C43_equivalence",
    "C43_hash",
    "C43_hash_tuple",
    "C43_heq",
    "C43_compatible",
    "C43_word",
    "C43_find"
   ],
   "note": "Arithmetic of std::size_t modulo 2^w for any w; find with a tuple in a hashed index at any position of any reachable container."
  },
  {
   "property": "C44",
   "status": "proved",
   "theorems": [
    "C44_sequenced",
    "C44_random_access",
    "C44_sequenced_any",
    "C44_random_access_any",
    "C44_C51_load"
   ],
   "note": "For sequenced and random access indices alone, for every order, every junk in the matcher and every injective translation of pointers; what follows in the archive is left alone; any other archive leaves a permutation or throws, never UB. C44_C51_load is about whole containers, with ordered indices of both kinds too."
  },
  {
   "property": "C45",
   "status": "proved",
   "theorems": [
    "C45_longest"
   ],
   "note": "index_matcher: the elements marked as being in order are a longest common subsequence with the base order."
  },
  {
   "property": "C46",
   "status": "proved",
   "theorems": [
    "C46_rearrangements"
   ],
   "note": "random_access_index_loader, any list of rearrangements, allocation failures included."
  },
  {
   "property": "C47",
   "status": "proved",
   "theorems": [
    "C47_copy"
   ],
   "note": "For every list of indices and every history of two containers in which containers are copied (reachc): a copy has, in each index, the images of the elements in the same order, f being injective and taking elements to newly allocated nodes holding equal values; the source and all node handles are unchanged; if any call throws, the memory is as it was. Allocation of the header node is not modelled (it is reserved for the second container)."
  },
  {
   "property": "C48",
   "status": "proved",
   "theorems": [
    "C48_extract",
    "C48_insert_handle",
    "C48_empty_handle",
    "C48_drop_handle",
    "C03_consistent"
   ],
   "note": "any list of indices of all kinds"
  },
  {
   "property": "C49",
   "status": "proved",
   "theorems": [
    "C49_transfer",
    "C49_range",
    "C03_two_consistent"
   ],
   "note": "any two containers with any indices, any history, any range of any index of the source, any throw point; containers with equal allocators (nodes are transferred)"
  },
  {
   "property": "C50",
   "status": "proved",
   "theorems": [
    "C50_clear",
    "C50_destroy",
    "C50_sequenced_delete_all"
   ],
   "note": "any list of indices of all kinds"
  },
  {
   "property": "C51",
   "status": "proved",
   "theorems": [
    "C51_save",
    "C44_C51_load",
    "C51_load_any",
    "C51_iterators"
   ],
   "note": "The archive is a list of items and a list of pointers; writing to it does not throw; reading from an exhausted one does. Only the current version of the format."
  },
  {
   "property": "C52",
   "status": "proved",
   "theorems": [
    "C52_erase",
    "C52_erase_range",
    "C52_ordered_erase",
    "C52_ordered_extract",
    "C52_hashed_erase",
    "C52_hashed_extract",
    "C37_erase_range"
   ],
   "note": "any list of indices; keys of the key type of the index, as in the code"
  },
  {
   "property": "C53",
   "status": "proved",
   "theorems": [
    "C53_insert_range",
    "C53_construct_range",
    "C53_construct_sorted",
    "C29_box_insert_all",
    "C29_box_assign",
    "C37_insert_range",
    "C37_assign"
   ],
   "note": "any list of indices; the range is the list of its values; the order among equivalent values is kept for sorted ranges, and need not be otherwise (stable_refuted, F7)"
  },
  {
   "property": "C54",
   "status": "proved",
   "theorems": [
    "C54_splice",
    "C54_range"
   ],
   "note": "containers with equal allocators"
  },
  {
   "property": "C55",
   "status": "proved",
   "theorems": [
    "C55_equal",
    "C55_not_equal",
    "C55_less",
    "C55_greater",
    "C55_not_less",
    "C55_not_greater",
    "C55_order"
   ],
   "note": "std::equal and std::lexicographical_compare are modelled by code. The operators of the elements are arbitrary functions; C55_order says what follows for strict weak orders. The two indices are of different containers."
  },
  {
   "property": "C56",
   "status": "proved",
   "theorems": [
    "C56_consistent",
    "C56_defined",
    "C56_no_leak",
    "C56_others",
    "C56_create",
    "C56_swap",
    "C56_copy",
    "C56_move",
    "C56_assign",
    "C56_destroy"
   ],
   "note": "Histories start with no container and an empty memory. Allocators are equal; the header of a container is allocated by its constructor. A move-constructed container takes over everything of its source, which gets new hash tables with maximum load factor 1.0 but keeps its function objects. Splice and merge into sequenced and random access indices (C35, C54) are not among the operations of these programs."
  },
  {
   "property": "C57",
   "status": "proved",
   "theorems": [
    "C57_defined",
    "C57_valid",
    "C57_positions",
    "C57_reported",
    "C57_done",
    "C57_dereference",
    "C57_extract"
   ],
   "note": "SafeSpec.v is the specification: allowed (what a program has to see to itself), correct (what is not to be reported) and effect. C57_done and C57_reported say that each operation does this. A failed check throws. The elements of an index are a list here; that the indices keep them is the subject of the other claims. Iterators loaded from an archive are unchecked: of their uses only comparison, assignment, copies and check_is_owner are covered. Local iterators are put at any unused addresses. Both forms of check_outside_range are modelled: with an empty range neither looks at the position, which the callers check separately. Mutexes, check_different_container and check_equal_allocators are not modelled."
  },
  {
   "property": "C58",
   "status": "proved",
   "theorems": [
    "C58_defined",
    "C58_returned",
    "C58_owned",
    "C58_get_allocator",
    "C58_exact"
   ],
   "note": "Hashed and random access indices build their arrays with the allocator of the container copied or moved from (finding F8), which is why the unconditional statement fails; C58_exact says for which containers and allocators it holds. Only memory is modelled: which elements are equal, when arrays grow and what throws are open decisions, and theorems hold however they are taken. Sizes of blocks are not modelled. Transfers are between containers of the same type. Preconditions of the documentation (equal allocators for swap without propagation, splice, merge and insertion of node handles) are in `allowed`."
  },
  {
   "property": "C59",
   "status": "proved",
   "theorems": [
    "C59_invariant",
    "C59_invariants",
    "C59_each",
    "C59_counts",
    "C59_sequenced",
    "C59_random_access",
    "C59_ordered",
    "C59_ordered_empty",
    "C59_hashed"
   ],
   "note": "The guards which call check_invariant_ when an operation ends are not modelled: the theorem is about the states before and after operations, which is when they run. Comparisons and hash functions called by the check do not throw in the model. Ordered indices are not completely checked (finding F9)."
  },
  {
   "property": "C60",
   "status": "proved",
   "theorems": [
    "C60_no_deadlock",
    "C60_ends",
    "C60_no_race",
    "C60_serial",
    "C60_undefined",
    "C60_own",
    "C60_undisturbed",
    "C60_completes"
   ],
   "note": "An operation starts once the thread has read the member cont of its iterator, without a lock; C60_undisturbed says that for threads with iterators of their own it makes no difference. Going along a chain, and each change of it, is one step; memory is sequentially consistent. swap, the destructor and detach_dereferenceable_iterators, which do not lock, are not among the operations. An iterator destroyed by one thread while another erases its element is finding F10."
  },
  {
   "property": "C61",
   "status": "proved",
   "theorems": [
    "C61_handles",
    "C61_one",
    "C61_no_leak"
   ],
   "note": "Handles and the nodes in them only; what extraction and insertion do to containers is in C48 and C52, memory of containers in Alloc.v. Moving an allocator leaves it equal to what it was, as allocators have to. insert_return_type moves its members and is not modelled."
  }
 ]
}
