{
 "C11": {
  "note": "False of the code: union_with runs a converter that panics as soon as b has an element missing from a. Refuted with a witness; C11_union_with_exact states when it returns and what it leaves behind when it panics."
 },
 "C12": {
  "note": "False of the code: xor_with runs the intersection operation. Refuted with a witness; C12_xor_with_exact states what it computes."
 },
 "C31": {
  "note": "Validity, round trip and agreement with collect on distinct keys are proved. The duplicate-key part is false of the code: deserialization keeps the first value, collect the last (refuted with a witness; C31_deserialize_valid states the exact behaviour)."
 },
 "C36": {
  "note": "False of the code: PartialEq and Hash compare only the non-default mappings and ignore the default value (and so disagree with Ord). Refuted with a witness. Proved instead: extensional among maps with equal defaults; over infinite key types equal functions are ==, and Ord::cmp is Equal exactly for equal functions; Hash agrees with ==, Ord is a total order finer than ==."
 },
 "C40": {
  "note": "False of the code: is_superset is !is_subset. Refuted with a witness (it answers false for a set and itself); C40_is_superset_exact states what it computes."
 },
 "C39": {
  "note": "The infinite-type hypothesis is necessary: C39_infinite_needed shows the answer is wrong over bool. C39_true_is_sound holds over every type."
 },
 "C43": {
  "note": "False of the code: right_join_with leaves every key that is only in self, and never adds keys of that. Refuted with a witness; C43_right_join_with_exact states the exact result."
 },
 "C41": {
  "note": "Both branches of inner_join are proved; C41 also records that the iterator's size_hint is always 0, so only the second branch runs."
 },
 "C51": {
  "note": "False of the code: where the path of a leaves the nodes of b, left_combine copies a's values without calling f. Refuted with a witness; C51_left_combine_exact states at which keys f is applied; C51_left_combine_partial is the claim for functions with f(v,None)=Some(v)."
 },
 "C59": {
  "note": "The check accepts exactly the well ordered trees and all queries are exact and panic free on them. The is_subset part is false of the code: validation does not demand canonical form, and on an accepted non-canonical left operand is_subset answers false for an included key set (refuted with a witness); answers true are always right (C59_is_subset_sound)."
 },
 "C60": {
  "note": "Operations are the primitives through which every method of the trait works on a shared tree (new, clone, drop, children, children_mut, prefix_mut, value_mut, and inserting into / removing from a children vector); a method is a sequence of them."
 },
 "C61": {
  "note": "Sequentially consistent interleaving model of the mutex-protected cell; Rust's aliasing rules (a &mut Either created while a &B is held) are outside the model."
 },
 "C67": {
  "note": "False of the code: From<&ArchivedLazyRadixTree> converts the whole tree (refuted with a witness; C67_conversion_is_eager gives the exact number of allocations)."
 },
 "C73": {
  "note": "The last part is false of the code: VecSet::retain forwards to SmallVec::retain, which swaps elements while it runs and has no guard, so a panicking predicate leaves the elements in a wrong order (refuted with a witness; it rests on the modelled source of the external smallvec retain). Exactness and conservation are proved."
 },
 "C74": {
  "note": "RadixEffModel.v repeats the in-place combinations with a world and panics; RadixEffSpec.join is the merge join over the iterations."
 },
 "C75": {
  "note": "False: the unsplit after the children merge does not run, so the root may be left with no value and one child (or a prefix and nothing); == compares structure. Proved instead: the damage is confined to the root (C75_after_panic_partial), and C75_eq_after_panic_exact says for which roots == still works."
 },
 "C76": {
  "note": "RadixEffSpec.asks lists the accepted keys; selected/remains_prefix say what is kept."
 },
 "C77": {
  "note": "PersistModel.v (ser_root, de_root) over the heap of HeapModel.v; meaning of a file: froot in PersistSpec.v."
 },
 "C78": {
  "note": "Sharing preservation is stated for a save from an empty registry (save of a tree, vacuum)."
 },
 "C79": {
  "note": "Addresses are never reused by the model's heap; registered addresses are pinned, so reuse could not concern them."
 },
 "C80": {
  "note": "Record-granular files; alignment and the i32 range of RelPtr are not modelled."
 },
 "C81": {
  "note": "Vacuum is atomic and a failed flush is repaired by the next successful one (proved). A flush that is torn is not atomic: C81_flush_atomic_refuted (the loader takes the end of the file for a root, unchecked)."
 },
 "C82": {
  "note": "Refuted: the closure given to scan never updates its state, so every batch is relative to the tree at the time of the call; that is what is proved (_partial)."
 },
 "C83": {
  "note": "Proved for VecSet and VecMap; for RadixTree check_bytes follows the children pointer and the children's prefix pointers before they are validated (C83_tree_validate_refuted); what holds there is C83_tree_validate_partial. ArcRadixTree's check_bytes (arc_radix_tree.rs:287-319) has the same order of checks; its shared pointers are not modelled."
 },
 "C84": {
  "note": "Word-level memory: pointers absolute, one word per key component, value, length and tag; keys of sets and maps are strings (pointer and length)."
 },
 "C85": {
  "note": "The comparisons of the standard library's sort are a parameter; the bound assumes it makes at most K m (log2 m + 1) on m elements."
 },
 "C86": {
  "note": "Comparison counts of the model of the external crate binary-merge (see trusted base)."
 },
 "C87": {
  "note": "The standard library's sort is a parameter assumed to leave a permutation, also when it unwinds."
 },
 "C88": {
  "note": "ArcRadixTree only: reading archived nodes of a LazyRadixTree allocates as well (C67). The bound for combinations counts a copy of a subtree of the argument for every level it descends, as the code does (materialize_shortened in every step)."
 },
 "C89": {
  "note": "Records, not bytes, are counted. The bound of C89_flush_after_changes is the number of vectors created in between, which C88 bounds by the arguments; the theorem for inserts combines both."
 },
 "C90": {
  "note": "Sharing means that a children vector (one Arc) is reachable from both trees. Calls that build a new tree (clone, filter_prefix, node) do share, and may."
 },
 "C91": {
  "note": "Panics of Clone or Drop of keys and values while vectors are copied or freed are not modelled here."
 },
 "C94": {
  "note": "False of the code for max_value in the order of the type: Ord compares the non-default mappings first, so every map with a non-default mapping is greater than max_value() (C94_max_value_greatest_refuted). Proved: both are bounds at every key; min_value is the least in the order; exactly the constant maps are at most max_value."
 },
 "C100": {
  "note": "C100_fits_so_no_allocation_refuted: the plain documented reading is false of the code; C100_collect and C100_map_collect give exact sufficient conditions, and the necessary one. SmallVec is modelled from its documentation with an arbitrary growth policy; scratch memory of the standard library's sort is not counted.",
  "status": "proved"
 },
 "C101": {
  "note": "In place: the external inplace-vec-builder's own allocation policy is not modelled; the theorem counts the room it is asked to make."
 },
 "C102": {
  "note": "C102_deserialize_memory_refuted: with_capacity(claimed length), no cap as serde's size_hint::cautious would give. Formats that claim no more than what they hold are covered by C102_deserialize.",
  "status": "proved"
 },
 "C103": {
  "note": "The external inplace-vec-builder is modelled by its documented behaviour (its Drop keeps the finished part)."
 },
 "C104": {
  "note": "Elements of self that were not yet reached are lost (dropped), as with a panicking comparison (C72)."
 },
 "C105": {
  "note": "Exact call sequences: the outcome (environment, result or panic) is that of the specified sequence of calls."
 },
 "C106": {
  "note": "Comparisons are counted in a copy of the lookups (RadixCostModel.v), proved to give the same answers."
 },
 "C107": {
  "note": "False of the code as documented when n is the number of keys: a key that extends n others needs n comparisons (C107_logarithmic_refuted, for all constants). The cost is linear in the key length (C106), and C107_linear_in_key_length shows this order is reached."
 },
 "C108": {
  "note": "std's BTreeMap is external; retain is modelled as visiting in order and keeping the entry of a panicking call and all later ones. A panicking key comparison or Clone is not covered here. inner_join_with has removed the keys before the panicking one that the other map lacks (the job 'discard')."
 },
 "C109": {
  "note": "The operands are borrowed and the tree under construction is dropped, so a panic leaves nothing behind. V::clone is modelled as having no effect."
 },
 "C110": {
  "note": "The comparison and the closure of a join have separate states in the model: a closure whose answers depend on the comparison's side effects is not covered. The standard library's sort is a parameter that sorts stably and returns."
 },
 "C111": {
  "note": "The standard library's sort is a parameter; assumed: it permutes, also when it unwinds, and sorts when it returns normally under a lawful comparison."
 },
 "C112": {
  "note": "The exactness theorems let the iterator and the comparison have side effects on separate states; the conservation theorem lets them share one. The RadixTree part has a pure key comparison. An endless iterator is the outcome DoneNoFuel/OutOfFuel at every fuel."
 },
 "C113": {
  "note": "C113_values_outlive_iterator_refuted: the last sentence is false of the code for every tree with an entry: dropping the iterator frees the tree, and the &'static V it yielded dangles (the lifetime comes from a transmute; reachable from safe code). C113_programs is exact: a read is defined exactly while the iterator it came from lives. Model: flat trees, allocations freed as a whole, no aliasing rules beyond liveness."
 },
 "C114": {
  "note": "C114_counted_is_plain: counting changes no result. C114_linear, C114_insert(_finite): the bounds; C114_exact: the exact numbers for a family of every size. C114_counts_are_calls ties the counted work (comparisons and clones) to the calls of user code made by the model of C116; C114_insert_calls does so for insert."
 },
 "C115": {
  "note": "C115_clones: the bound that holds. C115_per_entry_refuted: no constant number of clones per entry is enough, for any of the eight combinations and any strategy. C115_exact_fork: the exact numbers where two keys part. The clones counted are the calls of Clone: C114_counts_are_calls.",
  "status": "proved"
 },
 "C116": {
  "note": "C116_in_place, C116_building, C116_questions: termination, who panics, and the shape; C116_values_*: nothing invented or duplicated (user code instrumented with a log of what it makes); C116_plain_*: for effect-free lawful comparisons and copying clones the model is the one of C74-C76, C109 and C49-C58; C116_incoherent_panics: an == that denies equality breaks a tree built by insert alone."
 },
 "C117": {
  "note": "C117_answers, C117_answers_with_panics, C117_all_answer: answers are those of the program alone on plain trees; C117_loaded_once, C117_no_race, C117_read_finds_children, C117_no_deadlock, C117_terminates, C117_no_infinite_run; C117_get ties the walk to the get of C44, C117_concurrent_get combines; C117_start_*: initial memories exist. Sequentially consistent memory and ideal mutexes; nothing is freed (C68, C97, C99 are about freeing)."
 },
 "C118": {
  "note": "Expressions, their truth value and the running of an expression are defined at the top of PropAlgebra.v and PropRadixAlgebra.v. The named methods union_with and xor_with of VecSet are not forms here: they are wrong (C11, C12)."
 },
 "C119": {
  "note": "Stated for canonical trees, which are the ones the API produces (C46)."
 },
 "C120": {
  "note": "answers_like, copies, decided, answered and the *_entry / *_rest relations are in RadixLawSpec.v. C120_panicking_lt_hides_an_entry is the counterexample for a panicking <: insert pushes the new node and then sorts, so the unwinding leaves two children out of order."
 },
 "C121": {
  "note": "lawful_building and lawful_answer also say that the operation ends (returns or panics). left_combine calls its closure only for some of the entries the right tree does not have (C51, C109): hence the 'either a clone or what the closure returned'. is_subset's wrong 'no' for non-canonical trees is C59."
 },
 "C122": {
  "note": "Corollaries of C120 and C121 for the closures the code passes."
 },
 "C123": {
  "note": "`merges` says the call ends and `woven` what became of each element. The first component of Unwound is what self holds (assigning forms) or the result under construction, which unwinding drops (building forms)."
 },
 "C124": {
  "note": "`merges_keys` and `point` in VecUserSpec.v: what the result has for each key."
 },
 "C125": {
  "note": "C125_panic_mixes exhibits the last clause. computes/salvages in TotalUserSpec.v. The result of a building operator that panics is dropped by unwinding."
 },
 "C126": {
  "note": "combine_any and map_values/new need no laws; combine_ref the laws of keys; index, arith, lattice, map_values_index, new_index also those of values."
 },
 "C127": {
  "note": "Extends C110 (comparisons that never panic). TotalVecSet::is_superset is the negation of is_subset in the code; see C40."
 },
 "C128": {
  "note": "Extends C14 and C31. A hint too large to allocate is C102's subject; TotalVecSet and TotalVecMap serialize as pairs and are modelled without errors (C35, C38)."
 },
 "C129": {
  "note": "A critical section of a Lazy is one step here, so this is no claim of wait-freedom; what happens inside, and the data that is read without the mutex, is the subject of C61 and C117. Panics of V::clone while loading: C117."
 },
 "C130": {
  "note": "The builders of core::fmt (DebugSet, DebugList, DebugTuple, DebugStruct, PadAdapter) are modelled from the standard library's documentation and source. Distinctness is proved for {:?}."
 },
 "C131": {
  "note": "Arc::make_mut and Vec::clone of the standard library are modelled from their documented behaviour on unwinding. Drop of a value does not panic; a double panic is outside the model. Programs call the primitive operations of HeapModel; for the merges of the trait with panicking closures see C91."
 },
 "C132": {
  "note": "Renamings are functions with cmp' (q x) (q y) = cmp x y; the trees need not be well formed."
 },
 "C133": {
  "note": "Proved by naturality: the components that occur are ranked by numbers and the theorems C44 to C58 are transferred back. left_combine: exact for every function (C133_left_combine_exact), as in C51."
 },
 "C134": {
  "note": "No hypothesis on the comparison or on the vectors. serde sequences and rkyv checks included (vset_visit_seq, vset_check_bytes)."
 },
 "C135": {
  "note": "Closures run in an environment that is renamed by any function; results after a panic (Unwound) are related too."
 },
 "C136": {
  "note": "Operands and results share one value type V (the joins of the model allow three); closures are pure functions here (effects and panics: C24-C32). key_blind is vacuous when Eq of the key order means identical."
 },
 "C137": {
  "note": "Panics in Drop of the values are not modelled. The clause for operands that are not usable (a node below the root with an empty prefix) cannot be met by API-built trees with a coherent Eq/Ord (C116); Example unusable_panics shows that it is needed for others."
 },
 "C138": {
  "note": "Panics in Drop of the elements are not modelled here. Capacity overflow and memory exhaustion are not modelled."
 },
 "C139": {
  "note": "The standard library's sort is a parameter: assumed is that it permutes the slice, returns only if all comparisons it made returned, and unwinds only because the last one panicked (newer standard libraries may also panic of their own accord when the order is not total). Panics in Drop and in the iterator that feeds collecting are not modelled here."
 },
 "C140": {
  "note": "left_combine is included only with functions f with f(v, None) = Some(v): without that its result is not a function of the two values (C51, refuted). Removing or retaining by another tree's prefixes is not pointwise and not part of the expressions."
 },
 "C141": {
  "note": "Value operations are functions that may panic; operations with effects are the subject of C105 and C126. Equality of results is == together with equal defaults and equal values at every key, since == alone ignores the default (C36)."
 },
 "C142": {
  "note": "The removal by the union of two trees is stated for the predicate that accepts every value: union keeps the left value of a common key, so for other predicates it would not hold."
 },
 "C143": {
  "note": "Functions with effects or panics are the subject of C108 (BTreeMap) and C111, C123, C124 (VecMap)."
 },
 "C144": {
  "note": "Functions with effects or panics are the subject of C109, C120-C121 (radix trees) and C111, C123-C124 (VecMap)."
 },
 "C146": {
  "note": "Closures with effects or panics are the subject of C111, C123 and C124."
 },
 "C147": {
  "note": "Predicates with effects or panics are the subject of C76 and C120."
 },
 "C148": {
  "note": "left_combine (the form that borrows its operands) is left out: it does not call its function for every key (C51)."
 }
}