{
 "claims": [
  {
   "property": "C01",
   "status": "proved",
   "theorems": [
    "C01_history_strictly_ordered"
   ],
   "note": ""
  },
  {
   "property": "C02",
   "status": "proved",
   "theorems": [
    "C02_refines_set",
    "C02_len",
    "C02_insert_remove_local"
   ],
   "note": ""
  },
  {
   "property": "C03",
   "status": "proved",
   "theorems": [
    "C03_insert_replaces",
    "C03_union_keeps_left",
    "C03_extend_keeps_left",
    "C03_collect_keeps_first"
   ],
   "note": ""
  },
  {
   "property": "C04",
   "status": "proved",
   "theorems": [
    "C04_union_exact"
   ],
   "note": ""
  },
  {
   "property": "C05",
   "status": "proved",
   "theorems": [
    "C05_intersection_exact"
   ],
   "note": ""
  },
  {
   "property": "C06",
   "status": "proved",
   "theorems": [
    "C06_difference_exact"
   ],
   "note": ""
  },
  {
   "property": "C07",
   "status": "proved",
   "theorems": [
    "C07_symmetric_difference_exact"
   ],
   "note": ""
  },
  {
   "property": "C08",
   "status": "proved",
   "theorems": [
    "C08_assign_equals_pure"
   ],
   "note": ""
  },
  {
   "property": "C09",
   "status": "proved",
   "theorems": [
    "C09_predicates_decide"
   ],
   "note": ""
  },
  {
   "property": "C10",
   "status": "proved",
   "theorems": [
    "C10_named_in_place"
   ],
   "note": ""
  },
  {
   "property": "C11",
   "status": "partial",
   "theorems": [
    "C11_union_with_refuted",
    "C11_union_with_exact"
   ],
   "note": "False of the code: union_with runs a converter that panics as soon as b has an element missing from a. Refuted with a witness; C11_union_with_exact states when it returns and what it leaves behind when it panics."
  },
  {
   "property": "C12",
   "status": "partial",
   "theorems": [
    "C12_xor_with_refuted",
    "C12_xor_with_exact"
   ],
   "note": "False of the code: xor_with runs the intersection operation. Refuted with a witness; C12_xor_with_exact states what it computes."
  },
  {
   "property": "C13",
   "status": "proved",
   "theorems": [
    "C13_collect_first_occurrences"
   ],
   "note": ""
  },
  {
   "property": "C14",
   "status": "proved",
   "theorems": [
    "C14_constructions_agree",
    "C14_serde_roundtrip",
    "C14_from_vec_exact"
   ],
   "note": ""
  },
  {
   "property": "C15",
   "status": "proved",
   "theorems": [
    "C15_sort_dedup_by_key_keep"
   ],
   "note": ""
  },
  {
   "property": "C16",
   "status": "proved",
   "theorems": [
    "C16_storage_bound"
   ],
   "note": ""
  },
  {
   "property": "C17",
   "status": "proved",
   "theorems": [
    "C17_eq_ord_hash"
   ],
   "note": ""
  },
  {
   "property": "C18",
   "status": "proved",
   "theorems": [
    "C18_elements_conserved"
   ],
   "note": ""
  },
  {
   "property": "C19",
   "status": "proved",
   "theorems": [
    "C19_get_logarithmic",
    "C19_contains_logarithmic"
   ],
   "note": ""
  },
  {
   "property": "C20",
   "status": "proved",
   "theorems": [
    "C20_boolean_algebra"
   ],
   "note": ""
  },
  {
   "property": "C21",
   "status": "proved",
   "theorems": [
    "C21_history_strictly_ordered"
   ],
   "note": ""
  },
  {
   "property": "C22",
   "status": "proved",
   "theorems": [
    "C22_refines_map",
    "C22_point_operations",
    "C22_len"
   ],
   "note": ""
  },
  {
   "property": "C23",
   "status": "proved",
   "theorems": [
    "C23_collect_last_wins"
   ],
   "note": ""
  },
  {
   "property": "C24",
   "status": "proved",
   "theorems": [
    "C24_outer_join_calls",
    "C24_outer_join_pointwise"
   ],
   "note": ""
  },
  {
   "property": "C25",
   "status": "proved",
   "theorems": [
    "C25_left_join_calls",
    "C25_left_join_pointwise"
   ],
   "note": ""
  },
  {
   "property": "C26",
   "status": "proved",
   "theorems": [
    "C26_right_join_calls",
    "C26_right_join_pointwise"
   ],
   "note": ""
  },
  {
   "property": "C27",
   "status": "proved",
   "theorems": [
    "C27_inner_join_calls",
    "C27_inner_join_pointwise"
   ],
   "note": ""
  },
  {
   "property": "C28",
   "status": "proved",
   "theorems": [
    "C28_in_place_joins_equal_pure",
    "C28_in_place_joins_return"
   ],
   "note": ""
  },
  {
   "property": "C29",
   "status": "proved",
   "theorems": [
    "C29_combine_merge_extend",
    "C29_combine_with_calls"
   ],
   "note": ""
  },
  {
   "property": "C30",
   "status": "proved",
   "theorems": [
    "C30_vecset_from_vecmap"
   ],
   "note": ""
  },
  {
   "property": "C31",
   "status": "partial",
   "theorems": [
    "C31_deserialize_valid",
    "C31_roundtrip",
    "C31_distinct_as_collect",
    "C31_duplicates_as_collect_refuted"
   ],
   "note": "Validity, round trip and agreement with collect on distinct keys are proved. The duplicate-key part is false of the code: deserialization keeps the first value, collect the last (refuted with a witness; C31_deserialize_valid states the exact behaviour)."
  },
  {
   "property": "C32",
   "status": "proved",
   "theorems": [
    "C32_panicking_closure_leaves_valid_map",
    "C32_combine_with_panic"
   ],
   "note": ""
  },
  {
   "property": "C33",
   "status": "proved",
   "theorems": [
    "C33_map_check_iff_sorted",
    "C33_map_archive_roundtrip",
    "C33_map_validated_is_exact",
    "C33_set_check_iff_sorted",
    "C33_set_archive_roundtrip",
    "C33_set_validated_is_exact"
   ],
   "note": ""
  },
  {
   "property": "C34",
   "status": "proved",
   "theorems": [
    "C34_arith_pointwise",
    "C34_combine_pointwise",
    "C34_supremum_infimum",
    "C34_map_values_pointwise",
    "C34_neg_and_default_pointwise"
   ],
   "note": ""
  },
  {
   "property": "C35",
   "status": "proved",
   "theorems": [
    "C35_history_no_default_mappings",
    "C35_new_index",
    "C35_refines_functions"
   ],
   "note": ""
  },
  {
   "property": "C36",
   "status": "partial",
   "theorems": [
    "C36_eq_extensional_refuted",
    "C36_eq_exact",
    "C36_eq_same_default_partial",
    "C36_infinite_keys_partial",
    "C36_hash_ord_partial"
   ],
   "note": "False of the code: PartialEq and Hash compare only the non-default mappings and ignore the default value (and so disagree with Ord). Refuted with a witness. Proved instead: extensional among maps with equal defaults; over infinite key types equal functions are ==, and Ord::cmp is Equal exactly for equal functions; Hash agrees with ==, Ord is a total order finer than ==."
  },
  {
   "property": "C37",
   "status": "proved",
   "theorems": [
    "C37_operators_pointwise"
   ],
   "note": ""
  },
  {
   "property": "C38",
   "status": "proved",
   "theorems": [
    "C38_history",
    "C38_serde_round_trip"
   ],
   "note": ""
  },
  {
   "property": "C39",
   "status": "proved",
   "theorems": [
    "C39_relations_infinite",
    "C39_true_is_sound",
    "C39_constants"
   ],
   "note": "The infinite-type hypothesis is necessary: C39_infinite_needed shows the answer is wrong over bool. C39_true_is_sound holds over every type."
  },
  {
   "property": "C40",
   "status": "partial",
   "theorems": [
    "C40_is_superset_refuted",
    "C40_is_superset_exact"
   ],
   "note": "False of the code: is_superset is !is_subset. Refuted with a witness (it answers false for a set and itself); C40_is_superset_exact states what it computes."
  },
  {
   "property": "C41",
   "status": "proved",
   "theorems": [
    "C41_joins_pointwise"
   ],
   "note": "Both branches of inner_join are proved; C41 also records that the iterator's size_hint is always 0, so only the second branch runs."
  },
  {
   "property": "C42",
   "status": "proved",
   "theorems": [
    "C42_in_place_joins"
   ],
   "note": ""
  },
  {
   "property": "C43",
   "status": "partial",
   "theorems": [
    "C43_right_join_with_refuted",
    "C43_right_join_with_exact"
   ],
   "note": "False of the code: right_join_with leaves every key that is only in self, and never adds keys of that. Refuted with a witness; C43_right_join_with_exact states the exact result."
  },
  {
   "property": "C44",
   "status": "proved",
   "theorems": [
    "C44_get",
    "C44_contains_key",
    "C44_functional"
   ],
   "note": ""
  },
  {
   "property": "C45",
   "status": "proved",
   "theorems": [
    "C45_inserts",
    "C45_from_iter",
    "C45_insert"
   ],
   "note": ""
  },
  {
   "property": "C46",
   "status": "proved",
   "theorems": [
    "C46_reachable_canonical"
   ],
   "note": ""
  },
  {
   "property": "C47",
   "status": "proved",
   "theorems": [
    "C47_eq_extensional",
    "C47_eq_up_to_value_eq",
    "C47_reachable_eq_extensional"
   ],
   "note": ""
  },
  {
   "property": "C48",
   "status": "proved",
   "theorems": [
    "C48_outer_combine",
    "C48_outer_combine_with",
    "C48_union",
    "C48_union_with"
   ],
   "note": ""
  },
  {
   "property": "C49",
   "status": "proved",
   "theorems": [
    "C49_inner_combine",
    "C49_inner_combine_with",
    "C49_intersection",
    "C49_intersection_with"
   ],
   "note": ""
  },
  {
   "property": "C50",
   "status": "proved",
   "theorems": [
    "C50_left_combine_with",
    "C50_difference",
    "C50_difference_with"
   ],
   "note": ""
  },
  {
   "property": "C51",
   "status": "partial",
   "theorems": [
    "C51_left_combine_exact",
    "C51_left_combine_partial",
    "C51_left_combine_refuted"
   ],
   "note": "False of the code: where the path of a leaves the nodes of b, left_combine copies a's values without calling f. Refuted with a witness; C51_left_combine_exact states at which keys f is applied; C51_left_combine_partial is the claim for functions with f(v,None)=Some(v)."
  },
  {
   "property": "C52",
   "status": "proved",
   "theorems": [
    "C52_remove_prefix_with"
   ],
   "note": ""
  },
  {
   "property": "C53",
   "status": "proved",
   "theorems": [
    "C53_retain_prefix_with"
   ],
   "note": ""
  },
  {
   "property": "C54",
   "status": "proved",
   "theorems": [
    "C54_filter_prefix",
    "C54_prepend"
   ],
   "note": ""
  },
  {
   "property": "C55",
   "status": "proved",
   "theorems": [
    "C55_scan_prefix"
   ],
   "note": ""
  },
  {
   "property": "C56",
   "status": "proved",
   "theorems": [
    "C56_iter"
   ],
   "note": ""
  },
  {
   "property": "C57",
   "status": "proved",
   "theorems": [
    "C57_is_subset",
    "C57_is_superset"
   ],
   "note": ""
  },
  {
   "property": "C58",
   "status": "proved",
   "theorems": [
    "C58_intersects",
    "C58_is_disjoint"
   ],
   "note": ""
  },
  {
   "property": "C59",
   "status": "partial",
   "theorems": [
    "C59_check_exact",
    "C59_is_subset_sound",
    "C59_queries",
    "C59_is_subset_refuted"
   ],
   "note": "The check accepts exactly the well ordered trees and all queries are exact and panic free on them. The is_subset part is false of the code: validation does not demand canonical form, and on an accepted non-canonical left operand is_subset answers false for an included key set (refuted with a witness); answers true are always right (C59_is_subset_sound)."
  },
  {
   "property": "C60",
   "status": "proved",
   "theorems": [
    "C60_sharing_is_invisible",
    "C60_snapshot_isolated",
    "C60_shared_empty_stays_empty"
   ],
   "note": "Operations are the primitives through which every method of the trait works on a shared tree (new, clone, drop, children, children_mut, prefix_mut, value_mut, and inserting into / removing from a children vector); a method is a sequence of them."
  },
  {
   "property": "C61",
   "status": "proved",
   "theorems": [
    "C61_linearizable",
    "C61_created_once",
    "C61_same_value",
    "C61_reference_stable",
    "C61_get_finds_it",
    "C61_no_panic",
    "C61_clones_denote_the_same",
    "C61_no_data_race",
    "C61_no_deadlock",
    "C61_calls_are_short"
   ],
   "note": "Sequentially consistent interleaving model of the mutex-protected cell; Rust's aliasing rules (a &mut Either created while a &B is held) are outside the model."
  },
  {
   "property": "C62",
   "status": "proved",
   "theorems": [
    "C62_lazy_tree_is_archive",
    "C62_conversion_denotes",
    "C62_reading"
   ],
   "note": ""
  },
  {
   "property": "C63",
   "status": "proved",
   "theorems": [
    "C63_kept_keys_read_as_copies",
    "C63_key_stable",
    "C63_no_leak"
   ],
   "note": ""
  },
  {
   "property": "C64",
   "status": "proved",
   "theorems": [
    "C64_vecmap_macro",
    "C64_vecset_macro"
   ],
   "note": ""
  },
  {
   "property": "C65",
   "status": "proved",
   "theorems": [
    "C65_map_eq_extensional",
    "C65_map_ord_hash"
   ],
   "note": ""
  },
  {
   "property": "C66",
   "status": "proved",
   "theorems": [
    "C66_is_zero_is_one"
   ],
   "note": ""
  },
  {
   "property": "C67",
   "status": "partial",
   "theorems": [
    "C67_conversion_is_eager",
    "C67_lazy_loading_refuted"
   ],
   "note": "False of the code: From<&ArchivedLazyRadixTree> converts the whole tree (refuted with a witness; C67_conversion_is_eager gives the exact number of allocations)."
  },
  {
   "property": "C68",
   "status": "proved",
   "theorems": [
    "C68_counts_exact",
    "C68_live_is_reachable",
    "C68_no_leak"
   ],
   "note": ""
  },
  {
   "property": "C69",
   "status": "proved",
   "theorems": [
    "C69_operations_on_shared_trees",
    "C69_snapshot_isolated",
    "C69_no_leak"
   ],
   "note": ""
  },
  {
   "property": "C70",
   "status": "proved",
   "theorems": [
    "C70_programs_compute_mappings",
    "C70_programs_with_reads"
   ],
   "note": ""
  },
  {
   "property": "C71",
   "status": "proved",
   "theorems": [
    "C71_assign_conserves",
    "C71_assign_ref_conserves",
    "C71_pure_operations",
    "C71_single_element_operations",
    "C71_map_joins"
   ],
   "note": ""
  },
  {
   "property": "C72",
   "status": "proved",
   "theorems": [
    "C72_interrupted_leaves_prefix",
    "C72_panicking_cmp_leaves_valid_set",
    "C72_map_interrupted_leaves_prefix",
    "C72_panicking_cmp_leaves_valid_map",
    "C72_panicking_cmp_combine_with",
    "C72_single_element_unchanged"
   ],
   "note": ""
  },
  {
   "property": "C73",
   "status": "partial",
   "theorems": [
    "C73_retain_exact",
    "C73_retain_valid",
    "C73_retain_panic_conserves",
    "C73_retain_panic_valid_refuted"
   ],
   "note": "The last part is false of the code: VecSet::retain forwards to SmallVec::retain, which swaps elements while it runs and has no guard, so a panicking predicate leaves the elements in a wrong order (refuted with a witness; it rests on the modelled source of the external smallvec retain). Exactness and conservation are proved."
  },
  {
   "property": "C74",
   "status": "proved",
   "theorems": [
    "C74_listing_is_iter",
    "C74_outer_combine_with",
    "C74_inner_combine_with",
    "C74_left_combine_with"
   ],
   "note": "RadixEffModel.v repeats the in-place combinations with a world and panics; RadixEffSpec.join is the merge join over the iterations."
  },
  {
   "property": "C75",
   "status": "partial",
   "theorems": [
    "C75_after_panic_partial",
    "C75_eq_after_panic_exact",
    "C75_eq_after_panic_refuted"
   ],
   "note": "False: the unsplit after the children merge does not run, so the root may be left with no value and one child (or a prefix and nothing); == compares structure. Proved instead: the damage is confined to the root (C75_after_panic_partial), and C75_eq_after_panic_exact says for which roots == still works."
  },
  {
   "property": "C76",
   "status": "proved",
   "theorems": [
    "C76_remove_prefix_with",
    "C76_retain_prefix_with",
    "C76_empty_self"
   ],
   "note": "RadixEffSpec.asks lists the accepted keys; selected/remains_prefix say what is kept."
  },
  {
   "property": "C77",
   "status": "proved",
   "theorems": [
    "C77_save_load",
    "C77_relocatable"
   ],
   "note": "PersistModel.v (ser_root, de_root) over the heap of HeapModel.v; meaning of a file: froot in PersistSpec.v."
  },
  {
   "property": "C78",
   "status": "proved",
   "theorems": [
    "C78_written_once",
    "C78_sharing_preserved",
    "C78_sharing_history"
   ],
   "note": "Sharing preservation is stated for a save from an empty registry (save of a tree, vacuum)."
  },
  {
   "property": "C79",
   "status": "proved",
   "theorems": [
    "C79_registry_right",
    "C79_flush_appends_new",
    "C79_pins_needed"
   ],
   "note": "Addresses are never reused by the model's heap; registered addresses are pinned, so reuse could not concern them."
  },
  {
   "property": "C80",
   "status": "proved",
   "theorems": [
    "C80_database",
    "C80_no_leak"
   ],
   "note": "Record-granular files; alignment and the i32 range of RelPtr are not modelled."
  },
  {
   "property": "C81",
   "status": "partial",
   "theorems": [
    "C81_vacuum_atomic",
    "C81_flush_retry",
    "C81_flush_atomic_refuted"
   ],
   "note": "Vacuum is atomic and a failed flush is repaired by the next successful one (proved). A flush that is torn is not atomic: C81_flush_atomic_refuted (the loader takes the end of the file for a root, unchecked)."
  },
  {
   "property": "C82",
   "status": "partial",
   "theorems": [
    "C82_watch_partial",
    "C82_watch_refuted"
   ],
   "note": "Refuted: the closure given to scan never updates its state, so every batch is relative to the tree at the time of the call; that is what is proved (_partial)."
  },
  {
   "property": "C83",
   "status": "partial",
   "theorems": [
    "C83_set_validate_safe",
    "C83_map_validate_safe",
    "C83_tree_validate_partial",
    "C83_tree_validate_refuted"
   ],
   "note": "Proved for VecSet and VecMap; for RadixTree check_bytes follows the children pointer and the children's prefix pointers before they are validated (C83_tree_validate_refuted); what holds there is C83_tree_validate_partial. ArcRadixTree's check_bytes (arc_radix_tree.rs:287-319) has the same order of checks; its shared pointers are not modelled."
  },
  {
   "property": "C84",
   "status": "proved",
   "theorems": [
    "C84_accepted_set",
    "C84_accepted_map",
    "C84_accepted_tree",
    "C84_saved_set",
    "C84_saved_map",
    "C84_saved_tree"
   ],
   "note": "Word-level memory: pointers absolute, one word per key component, value, length and tag; keys of sets and maps are strings (pointer and length)."
  },
  {
   "property": "C85",
   "status": "proved",
   "theorems": [
    "C85_collect_n_log_n",
    "C85_collect_sorted_linear"
   ],
   "note": "The comparisons of the standard library's sort are a parameter; the bound assumes it makes at most K m (log2 m + 1) on m elements."
  },
  {
   "property": "C86",
   "status": "proved",
   "theorems": [
    "C86_set_operations_linear",
    "C86_set_operations_logarithmic",
    "C86_map_joins_linear",
    "C86_single_element"
   ],
   "note": "Comparison counts of the model of the external crate binary-merge (see trusted base)."
  },
  {
   "property": "C87",
   "status": "proved",
   "theorems": [
    "C87_collect_conserves",
    "C87_collect_interrupted",
    "C87_extend_conserves",
    "C87_extend_interrupted"
   ],
   "note": "The standard library's sort is a parameter assumed to leave a permutation, also when it unwinds."
  },
  {
   "property": "C88",
   "status": "proved",
   "theorems": [
    "C88_in_place_allocations",
    "C88_insert_allocations",
    "C88_no_allocation"
   ],
   "note": "ArcRadixTree only: reading archived nodes of a LazyRadixTree allocates as well (C67). The bound for combinations counts a copy of a subtree of the argument for every level it descends, as the code does (materialize_shortened in every step)."
  },
  {
   "property": "C89",
   "status": "proved",
   "theorems": [
    "C89_flush_after_changes",
    "C89_flush_after_inserts"
   ],
   "note": "Records, not bytes, are counted. The bound of C89_flush_after_changes is the number of vectors created in between, which C88 bounds by the arguments; the theorem for inserts combines both."
  },
  {
   "property": "C90",
   "status": "proved",
   "theorems": [
    "C90_no_new_sharing"
   ],
   "note": "Sharing means that a children vector (one Arc) is reachable from both trees. Calls that build a new tree (clone, filter_prefix, node) do share, and may."
  },
  {
   "property": "C91",
   "status": "proved",
   "theorems": [
    "C91_panics_on_shared_trees",
    "C91_programs_run",
    "C91_no_leak",
    "C91_call"
   ],
   "note": "Panics of Clone or Drop of keys and values while vectors are copied or freed are not modelled here."
  },
  {
   "property": "C92",
   "status": "proved",
   "theorems": [
    "C92_multimap_collect",
    "C92_multimap_combine",
    "C92_bimultimap_collect"
   ],
   "note": ""
  },
  {
   "property": "C93",
   "status": "proved",
   "theorems": [
    "C93_borrowed_get",
    "C93_borrowed_get_mut"
   ],
   "note": ""
  },
  {
   "property": "C94",
   "status": "partial",
   "theorems": [
    "C94_bounds_pointwise_partial",
    "C94_order_bounds_partial",
    "C94_max_value_greatest_refuted"
   ],
   "note": "False of the code for max_value in the order of the type: Ord compares the non-default mappings first, so every map with a non-default mapping is greater than max_value() (C94_max_value_greatest_refuted). Proved: both are bounds at every key; min_value is the least in the order; exactly the constant maps are at most max_value."
  },
  {
   "property": "C95",
   "status": "proved",
   "theorems": [
    "C95_iterators",
    "C95_conversions"
   ],
   "note": ""
  },
  {
   "property": "C96",
   "status": "proved",
   "theorems": [
    "C96_map_values",
    "C96_map_values_pure"
   ],
   "note": ""
  },
  {
   "property": "C97",
   "status": "proved",
   "theorems": [
    "C97_threads_are_linearizable",
    "C97_order_is_real_time"
   ],
   "note": ""
  },
  {
   "property": "C98",
   "status": "proved",
   "theorems": [
    "C98_calls_are_wait_free"
   ],
   "note": ""
  },
  {
   "property": "C99",
   "status": "proved",
   "theorems": [
    "C99_counts_exact",
    "C99_live_is_reachable",
    "C99_no_leak"
   ],
   "note": ""
  },
  {
   "property": "C100",
   "status": "proved",
   "theorems": [
    "C100_collect",
    "C100_fits_so_no_allocation_refuted",
    "C100_map_collect"
   ],
   "note": "C100_fits_so_no_allocation_refuted: the plain documented reading is false of the code; C100_collect and C100_map_collect give exact sufficient conditions, and the necessary one. SmallVec is modelled from its documentation with an arbitrary growth policy; scratch memory of the standard library's sort is not counted."
  },
  {
   "property": "C101",
   "status": "proved",
   "theorems": [
    "C101_pure_operators",
    "C101_in_place",
    "C101_insert_remove",
    "C101_shrink_and_conversions",
    "C101_map_from_btreemap",
    "C101_map_insert"
   ],
   "note": "In place: the external inplace-vec-builder's own allocation policy is not modelled; the theorem counts the room it is asked to make."
  },
  {
   "property": "C102",
   "status": "proved",
   "theorems": [
    "C102_deserialize_memory_refuted",
    "C102_deserialize",
    "C102_map_deserialize"
   ],
   "note": "C102_deserialize_memory_refuted: with_capacity(claimed length), no cap as serde's size_hint::cautious would give. Formats that claim no more than what they hold are covered by C102_deserialize."
  },
  {
   "property": "C103",
   "status": "proved",
   "theorems": [
    "C103_set_operators",
    "C103_clone_calls",
    "C103_map_joins"
   ],
   "note": "The external inplace-vec-builder is modelled by its documented behaviour (its Drop keeps the finished part)."
  },
  {
   "property": "C104",
   "status": "proved",
   "theorems": [
    "C104_panicking_clone_leaves_valid_set",
    "C104_panicking_clone_leaves_valid_map"
   ],
   "note": "Elements of self that were not yet reached are lost (dropped), as with a panicking comparison (C72)."
  },
  {
   "property": "C105",
   "status": "proved",
   "theorems": [
    "C105_map_values_calls",
    "C105_combine_ref_calls",
    "C105_panics_only_from_closure"
   ],
   "note": "Exact call sequences: the outcome (environment, result or panic) is that of the specified sequence of calls."
  },
  {
   "property": "C106",
   "status": "proved",
   "theorems": [
    "C106_lookup_cost",
    "C106_counts_exact",
    "C106_finite_components"
   ],
   "note": "Comparisons are counted in a copy of the lookups (RadixCostModel.v), proved to give the same answers."
  },
  {
   "property": "C107",
   "status": "partial",
   "theorems": [
    "C107_logarithmic_refuted",
    "C107_linear_in_key_length"
   ],
   "note": "False of the code as documented when n is the number of keys: a key that extends n others needs n comparisons (C107_logarithmic_refuted, for all constants). The cost is linear in the key length (C106), and C107_linear_in_key_length shows this order is reached."
  },
  {
   "property": "C108",
   "status": "proved",
   "theorems": [
    "C108_pure_joins",
    "C108_in_place_joins"
   ],
   "note": "std's BTreeMap is external; retain is modelled as visiting in order and keeping the entry of a panicking call and all later ones. A panicking key comparison or Clone is not covered here. inner_join_with has removed the keys before the panicking one that the other map lacks (the job 'discard')."
  },
  {
   "property": "C109",
   "status": "proved",
   "theorems": [
    "C109_outer_combine",
    "C109_inner_combine",
    "C109_left_combine",
    "C109_nodes",
    "C109_nodes_in_order"
   ],
   "note": "The operands are borrowed and the tree under construction is dropped, so a panic leaves nothing behind. V::clone is modelled as having no effect."
  },
  {
   "property": "C110",
   "status": "proved",
   "theorems": [
    "C110_set_operators",
    "C110_set_predicates",
    "C110_single_element",
    "C110_collect",
    "C110_map_joins",
    "C110_map_point_and_collect"
   ],
   "note": "The comparison and the closure of a join have separate states in the model: a closure whose answers depend on the comparison's side effects is not covered. The standard library's sort is a parameter that sorts stably and returns."
  },
  {
   "property": "C111",
   "status": "proved",
   "theorems": [
    "C111_new_map_joins",
    "C111_point_operations",
    "C111_extend_conserves_keys",
    "C111_extend_interrupted"
   ],
   "note": "The standard library's sort is a parameter; assumed: it permutes, also when it unwinds, and sorts when it returns normally under a lawful comparison."
  },
  {
   "property": "C112",
   "status": "proved",
   "theorems": [
    "C112_any_comparison",
    "C112_collect_set",
    "C112_collect_map",
    "C112_extend_set",
    "C112_extend_map",
    "C112_collect_radix"
   ],
   "note": "The exactness theorems let the iterator and the comparison have side effects on separate states; the conservation theorem lets them share one. The RadixTree part has a pure key comparison. An endless iterator is the outcome DoneNoFuel/OutOfFuel at every fuel."
  },
  {
   "property": "C113",
   "status": "partial",
   "theorems": [
    "C113_programs",
    "C113_into_iter_like_iter",
    "C113_safe_without_drop_partial",
    "C113_values_outlive_iterator_refuted"
   ],
   "note": "C113_values_outlive_iterator_refuted: the last sentence is false of the code for every tree with an entry: dropping the iterator frees the tree, and the &'static V it yielded dangles (the lifetime comes from a transmute; reachable from safe code). C113_programs is exact: a read is defined exactly while the iterator it came from lives. Model: flat trees, allocations freed as a whole, no aliasing rules beyond liveness."
  },
  {
   "property": "C114",
   "status": "proved",
   "theorems": [
    "C114_counts_are_calls",
    "C114_insert_calls",
    "C114_counted_is_plain",
    "C114_linear",
    "C114_insert",
    "C114_insert_finite",
    "C114_exact"
   ],
   "note": "C114_counted_is_plain: counting changes no result. C114_linear, C114_insert(_finite): the bounds; C114_exact: the exact numbers for a family of every size. C114_counts_are_calls ties the counted work (comparisons and clones) to the calls of user code made by the model of C116; C114_insert_calls does so for insert."
  },
  {
   "property": "C115",
   "status": "proved",
   "theorems": [
    "C115_clones",
    "C115_per_entry_refuted",
    "C115_exact_fork"
   ],
   "note": "C115_clones: the bound that holds. C115_per_entry_refuted: no constant number of clones per entry is enough, for any of the eight combinations and any strategy. C115_exact_fork: the exact numbers where two keys part. The clones counted are the calls of Clone: C114_counts_are_calls."
  },
  {
   "property": "C116",
   "status": "proved",
   "theorems": [
    "C116_in_place",
    "C116_building",
    "C116_questions",
    "C116_values_in_place",
    "C116_values_building",
    "C116_plain_in_place",
    "C116_plain_borrowing",
    "C116_incoherent_panics"
   ],
   "note": "C116_in_place, C116_building, C116_questions: termination, who panics, and the shape; C116_values_*: nothing invented or duplicated (user code instrumented with a log of what it makes); C116_plain_*: for effect-free lawful comparisons and copying clones the model is the one of C74-C76, C109 and C49-C58; C116_incoherent_panics: an == that denies equality breaks a tree built by insert alone."
  },
  {
   "property": "C117",
   "status": "proved",
   "theorems": [
    "C117_answers_with_panics",
    "C117_answers",
    "C117_loaded_once",
    "C117_no_race",
    "C117_read_finds_children",
    "C117_no_deadlock",
    "C117_terminates",
    "C117_no_infinite_run",
    "C117_all_answer",
    "C117_start_lazy",
    "C117_start_eager",
    "C117_get",
    "C117_concurrent_get"
   ],
   "note": "C117_answers, C117_answers_with_panics, C117_all_answer: answers are those of the program alone on plain trees; C117_loaded_once, C117_no_race, C117_read_finds_children, C117_no_deadlock, C117_terminates, C117_no_infinite_run; C117_get ties the walk to the get of C44, C117_concurrent_get combines; C117_start_*: initial memories exist. Sequentially consistent memory and ideal mutexes; nothing is freed (C68, C97, C99 are about freeing)."
  },
  {
   "property": "C118",
   "status": "proved",
   "theorems": [
    "C118_set_identities",
    "C118_set_relations",
    "C118_total_identities",
    "C118_total_relations",
    "C118_radix_identities",
    "C118_radix_relations"
   ],
   "note": "Expressions, their truth value and the running of an expression are defined at the top of PropAlgebra.v and PropRadixAlgebra.v. The named methods union_with and xor_with of VecSet are not forms here: they are wrong (C11, C12)."
  },
  {
   "property": "C119",
   "status": "proved",
   "theorems": [
    "C119_rebuilt_from_entries"
   ],
   "note": "Stated for canonical trees, which are the ones the API produces (C46)."
  },
  {
   "property": "C120",
   "status": "proved",
   "theorems": [
    "C120_outer_combine_with",
    "C120_inner_combine_with",
    "C120_left_combine_with",
    "C120_remove_prefix_with",
    "C120_retain_prefix_with",
    "C120_insert",
    "C120_panicking_lt_hides_an_entry"
   ],
   "note": "answers_like, copies, decided, answered and the *_entry / *_rest relations are in RadixLawSpec.v. C120_panicking_lt_hides_an_entry is the counterexample for a panicking <: insert pushes the new node and then sorts, so the unwinding leaves two children out of order."
  },
  {
   "property": "C121",
   "status": "proved",
   "theorems": [
    "C121_outer_combine",
    "C121_inner_combine",
    "C121_left_combine",
    "C121_filter_prefix",
    "C121_get",
    "C121_scan_prefix",
    "C121_intersects",
    "C121_is_subset"
   ],
   "note": "lawful_building and lawful_answer also say that the operation ends (returns or panics). left_combine calls its closure only for some of the entries the right tree does not have (C51, C109): hence the 'either a clone or what the closure returned'. is_subset's wrong 'no' for non-canonical trees is C59."
  },
  {
   "property": "C122",
   "status": "proved",
   "theorems": [
    "C122_union",
    "C122_intersection",
    "C122_difference",
    "C122_union_with",
    "C122_intersection_with",
    "C122_difference_with",
    "C122_is_disjoint",
    "C122_is_superset"
   ],
   "note": "Corollaries of C120 and C121 for the closures the code passes."
  },
  {
   "property": "C123",
   "status": "proved",
   "theorems": [
    "C123_set_moving",
    "C123_set_building",
    "C123_set_assigning",
    "C123_set_panics",
    "C123_map_joins",
    "C123_map_joins_with",
    "C123_map_combine_with",
    "C123_map_panics"
   ],
   "note": "`merges` says the call ends and `woven` what became of each element. The first component of Unwound is what self holds (assigning forms) or the result under construction, which unwinding drops (building forms)."
  },
  {
   "property": "C124",
   "status": "proved",
   "theorems": [
    "C124_set_moving",
    "C124_set_building",
    "C124_set_assigning",
    "C124_map_joins",
    "C124_map_joins_with",
    "C124_map_combine_with"
   ],
   "note": "`merges_keys` and `point` in VecUserSpec.v: what the result has for each key."
  },
  {
   "property": "C125",
   "status": "proved",
   "theorems": [
    "C125_operators",
    "C125_assigning",
    "C125_not",
    "C125_panics",
    "C125_panic_mixes"
   ],
   "note": "C125_panic_mixes exhibits the last clause. computes/salvages in TotalUserSpec.v. The result of a building operator that panics is dropped by unwinding."
  },
  {
   "property": "C126",
   "status": "proved",
   "theorems": [
    "C126_combine_any",
    "C126_combine_ref",
    "C126_index",
    "C126_arith",
    "C126_lattice",
    "C126_panics",
    "C126_map_values",
    "C126_map_values_index",
    "C126_new",
    "C126_new_index"
   ],
   "note": "combine_any and map_values/new need no laws; combine_ref the laws of keys; index, arith, lattice, map_values_index, new_index also those of values."
  },
  {
   "property": "C127",
   "status": "proved",
   "theorems": [
    "C127_contains",
    "C127_relations",
    "C127_insert",
    "C127_remove",
    "C127_total_set",
    "C127_total_relations",
    "C127_map_get",
    "C127_map_get_mut",
    "C127_map_insert",
    "C127_total_map_index",
    "C127_collect",
    "C127_extend",
    "C127_map_collect",
    "C127_map_extend"
   ],
   "note": "Extends C110 (comparisons that never panic). TotalVecSet::is_superset is the negation of is_subset in the code; see C40."
  },
  {
   "property": "C128",
   "status": "proved",
   "theorems": [
    "C128_serialize",
    "C128_any",
    "C128_endless",
    "C128_set",
    "C128_map",
    "C128_round_trip"
   ],
   "note": "Extends C14 and C31. A hint too large to allocate is C102's subject; TotalVecSet and TotalVecMap serialize as pairs and are modelled without errors (C35, C38)."
  },
  {
   "property": "C129",
   "status": "proved",
   "theorems": [
    "C129_threads_are_linearizable",
    "C129_order_is_real_time",
    "C129_calls_take_bounded_steps",
    "C129_counts_exact",
    "C129_live_is_reachable",
    "C129_no_leak"
   ],
   "note": "A critical section of a Lazy is one step here, so this is no claim of wait-freedom; what happens inside, and the data that is read without the mutex, is the subject of C61 and C117. Panics of V::clone while loading: C117."
  },
  {
   "property": "C130",
   "status": "proved",
   "theorems": [
    "C130_text",
    "C130_writers",
    "C130_elements",
    "C130_readable",
    "C130_distinct",
    "C130_archived_tree"
   ],
   "note": "The builders of core::fmt (DebugSet, DebugList, DebugTuple, DebugStruct, PadAdapter) are modelled from the standard library's documentation and source. Distinctness is proved for {:?}."
  },
  {
   "property": "C131",
   "status": "proved",
   "theorems": [
    "C131_contained",
    "C131_shared_empty_stays_empty",
    "C131_counts_exact",
    "C131_live_is_reachable",
    "C131_no_leak",
    "C131_no_panic_same",
    "C131_panics_reach_the_caller"
   ],
   "note": "Arc::make_mut and Vec::clone of the standard library are modelled from their documented behaviour on unwinding. Drop of a value does not panic; a double panic is outside the model. Programs call the primitive operations of HeapModel; for the merges of the trait with panicking closures see C91."
  },
  {
   "property": "C132",
   "status": "proved",
   "theorems": [
    "C132_operations",
    "C132_combinations",
    "C132_queries"
   ],
   "note": "Renamings are functions with cmp' (q x) (q y) = cmp x y; the trees need not be well formed."
  },
  {
   "property": "C133",
   "status": "proved",
   "theorems": [
    "C133_get",
    "C133_contains_key",
    "C133_functional",
    "C133_insert",
    "C133_from_iter",
    "C133_outer_combine",
    "C133_outer_combine_with",
    "C133_inner_combine",
    "C133_inner_combine_with",
    "C133_left_combine_with",
    "C133_left_combine",
    "C133_union",
    "C133_union_with",
    "C133_intersection",
    "C133_intersection_with",
    "C133_difference",
    "C133_difference_with",
    "C133_remove_prefix_with",
    "C133_retain_prefix_with",
    "C133_filter_prefix",
    "C133_iter",
    "C133_scan_prefix",
    "C133_is_subset",
    "C133_is_superset",
    "C133_intersects",
    "C133_is_disjoint",
    "C133_eq",
    "C133_check",
    "C133_left_combine_exact",
    "C133_reachable_canonical"
   ],
   "note": "Proved by naturality: the components that occur are ranked by numbers and the theorems C44 to C58 are transferred back. left_combine: exact for every function (C133_left_combine_exact), as in C51."
  },
  {
   "property": "C134",
   "status": "proved",
   "theorems": [
    "C134_set_operations",
    "C134_in_place",
    "C134_elements",
    "C134_total_sets"
   ],
   "note": "No hypothesis on the comparison or on the vectors. serde sequences and rkyv checks included (vset_visit_seq, vset_check_bytes)."
  },
  {
   "property": "C135",
   "status": "proved",
   "theorems": [
    "C135_joins",
    "C135_joins_in_place",
    "C135_entries",
    "C135_total_maps"
   ],
   "note": "Closures run in an environment that is renamed by any function; results after a panic (Unwound) are related too."
  },
  {
   "property": "C136",
   "status": "proved",
   "theorems": [
    "C136_joins_are_pointwise",
    "C136_map_identities",
    "C136_identities_compare_equal",
    "C136_one_entry_suffices"
   ],
   "note": "Operands and results share one value type V (the joins of the model allow three); closures are pure functions here (effects and panics: C24-C32). key_blind is vacuous when Eq of the key order means identical."
  },
  {
   "property": "C137",
   "status": "proved",
   "theorems": [
    "C137_in_place",
    "C137_building",
    "C137_questions",
    "C137_set_operations"
   ],
   "note": "Panics in Drop of the values are not modelled. The clause for operands that are not usable (a node below the root with an empty prefix) cannot be met by API-built trees with a coherent Eq/Ord (C116); Example unusable_panics shows that it is needed for others."
  },
  {
   "property": "C138",
   "status": "proved",
   "theorems": [
    "C138_set_operators",
    "C138_total_set_operators",
    "C138_map_joins",
    "C138_total_map_operations",
    "C138_total_map_values",
    "C138_retain"
   ],
   "note": "Panics in Drop of the elements are not modelled here. Capacity overflow and memory exhaustion are not modelled."
  },
  {
   "property": "C139",
   "status": "proved",
   "theorems": [
    "C139_set",
    "C139_total_set",
    "C139_map",
    "C139_collect",
    "C139_extend"
   ],
   "note": "The standard library's sort is a parameter: assumed is that it permutes the slice, returns only if all comparisons it made returned, and unwinds only because the last one panicked (newer standard libraries may also panic of their own accord when the order is not total). Panics in Drop and in the iterator that feeds collecting are not modelled here."
  },
  {
   "property": "C140",
   "status": "proved",
   "theorems": [
    "C140_combinations_are_pointwise",
    "C140_combination_identities",
    "C140_identities_compare_equal",
    "C140_one_entry_suffices"
   ],
   "note": "left_combine is included only with functions f with f(v, None) = Some(v): without that its result is not a function of the two values (C51, refuted). Removing or retaining by another tree's prefixes is not pointwise and not part of the expressions."
  },
  {
   "property": "C141",
   "status": "proved",
   "theorems": [
    "C141_arithmetic_is_pointwise",
    "C141_laws_lift",
    "C141_constants_suffice",
    "C141_named_operations"
   ],
   "note": "Value operations are functions that may panic; operations with effects are the subject of C105 and C126. Equality of results is == together with equal defaults and equal values at every key, since == alone ignores the default (C36)."
  },
  {
   "property": "C142",
   "status": "proved",
   "theorems": [
    "C142_filters_exact",
    "C142_order_and_repetition",
    "C142_partition",
    "C142_distributes_over_union",
    "C142_single_and_union_of_filters"
   ],
   "note": "The removal by the union of two trees is stated for the predicate that accepts every value: union keeps the left value of a common key, so for other predicates it would not hold."
  },
  {
   "property": "C143",
   "status": "proved",
   "theorems": [
    "C143_outer_and_left_joins_agree",
    "C143_right_and_inner_joins_agree",
    "C143_in_place_joins_agree",
    "C143_in_place_right_joins_differ"
   ],
   "note": "Functions with effects or panics are the subject of C108 (BTreeMap) and C111, C123, C124 (VecMap)."
  },
  {
   "property": "C144",
   "status": "proved",
   "theorems": [
    "C144_queries",
    "C144_insert_and_filter",
    "C144_combinations_are_joins",
    "C144_collect"
   ],
   "note": "Functions with effects or panics are the subject of C109, C120-C121 (radix trees) and C111, C123-C124 (VecMap)."
  },
  {
   "property": "C145",
   "status": "proved",
   "theorems": [
    "C145_relations",
    "C145_operations"
   ],
   "note": ""
  },
  {
   "property": "C146",
   "status": "proved",
   "theorems": [
    "C146_outer_join_keys",
    "C146_other_joins_keys",
    "C146_single_element",
    "C146_collect"
   ],
   "note": "Closures with effects or panics are the subject of C111, C123 and C124."
  },
  {
   "property": "C147",
   "status": "proved",
   "theorems": [
    "C147_prefix_operations"
   ],
   "note": "Predicates with effects or panics are the subject of C76 and C120."
  },
  {
   "property": "C148",
   "status": "proved",
   "theorems": [
    "C148_programs_agree"
   ],
   "note": "left_combine (the form that borrows its operands) is left out: it does not call its function for every key (C51)."
  }
 ]
}