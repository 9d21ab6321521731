{"id": "C01", "title": "VecSet slice is always strictly ordered", "statement": "After any sequence of public VecSet operations (construction, insert, remove, retain, extend, every operator and its assigning variant, conversions), the slice exposed by as_ref()/iter() is strictly increasing, hence duplicate free.", "quantifier": "every element type with a lawful Ord, every finite history of public operations and their arguments", "why_tests_cant": "Tests sample histories; binary search and every merge silently misbehave on the first unsorted state, so the invariant must hold inductively over all histories.", "anchors": ["src/vec_set.rs: VecSet, insert, remove, retain, from_vec, FromIterator, Extend, BitOrAssign..SubAssign, From<BTreeSet>", "src/vec_map.rs: From<VecMap<A>> for VecSet<A>"]}
{"id": "C02", "title": "VecSet refines a mathematical set", "statement": "contains(x) is true exactly when x is in the abstract set obtained by replaying the history; insert returns true exactly when the element was absent, remove returns true exactly when it was present, and each changes membership of no other element; len is the number of elements.", "quantifier": "every history of operations, every probe element", "why_tests_cant": "Agreement of binary search and in-place shifting with set semantics is needed for every size, position and history.", "anchors": ["src/vec_set.rs: contains, insert, remove, retain, len, is_empty"]}
{"id": "C03", "title": "insert replaces an equal element, set operators keep the left one", "statement": "When an element comparing Equal is already present, insert stores the new instance, whereas union, |= and extend keep the instance already in the left operand and collect keeps the first instance.", "quantifier": "every Ord type whose equality is coarser than identity, every set and element", "why_tests_cant": "Tests use integers, where Equal means identical, so which instance survives is never observed.", "anchors": ["src/vec_set.rs: insert, union, extend, FromIterator, SetUnionOp"]}
{"id": "C04", "title": "union is exact", "statement": "a.union(b), &a | &b and AbstractVecSet::union return a strictly ordered set whose elements are exactly those of a plus those of b not equal to an element of a.", "quantifier": "all pairs of valid sets of any sizes, whichever merge algorithm the merge crate picks", "why_tests_cant": "The recursive merge has unboundedly many interleavings of runs and collisions.", "anchors": ["src/vec_set.rs: SetUnionOp, AbstractVecSet::union, VecSet::union, BitOr", "src/merge_state.rs: SmallVecMergeState"]}
{"id": "C05", "title": "intersection is exact", "statement": "a.intersection(b) and &a & &b contain exactly the elements of a that compare equal to some element of b, in strict order.", "quantifier": "all pairs of valid sets, any merge algorithm", "why_tests_cant": "Same as union: all interleavings must be covered.", "anchors": ["src/vec_set.rs: SetIntersectionOp, BitAnd"]}
{"id": "C06", "title": "difference is exact", "statement": "a.difference(b) and &a - &b contain exactly the elements of a not equal to any element of b, in strict order.", "quantifier": "all pairs of valid sets, any merge algorithm", "why_tests_cant": "Same as union.", "anchors": ["src/vec_set.rs: SetDiffOpt, Sub"]}
{"id": "C07", "title": "symmetric difference is exact", "statement": "a.symmetric_difference(b) and &a ^ &b contain exactly the elements in one but not the other operand, in strict order.", "quantifier": "all pairs of valid sets, any merge algorithm", "why_tests_cant": "Same as union.", "anchors": ["src/vec_set.rs: SetXorOp, BitXor"]}
{"id": "C08", "title": "assigning operators equal the pure operators", "statement": "a |= b, a &= b, a ^= b, a -= b (with b by value or by reference) leave in a exactly the value of the corresponding pure operator and never panic.", "quantifier": "all pairs of valid sets", "why_tests_cant": "The in-place builder overwrites its own input while reading it; correctness is needed for all run lengths.", "anchors": ["src/vec_set.rs: BitAndAssign, BitOrAssign, BitXorAssign, SubAssign", "src/merge_state.rs: InPlaceMergeState, InPlaceSmallVecMergeStateRef"]}
{"id": "C09", "title": "is_disjoint / is_subset / is_superset decide the set relations", "statement": "The predicates return true exactly when the mathematical relation holds between the element sets.", "quantifier": "all pairs of valid sets, any merge algorithm", "why_tests_cant": "Early exit of the merge must never produce a wrong answer for any interleaving.", "anchors": ["src/vec_set.rs: is_disjoint, is_subset, is_superset", "src/merge_state.rs: BoolOpMergeState"]}
{"id": "C10", "title": "named in-place methods intersection_with / difference_with", "statement": "a.intersection_with(&b) and a.difference_with(&b) leave a equal to the intersection / difference and never panic.", "quantifier": "all pairs of valid sets", "why_tests_cant": "They are run with a converter that panics when used: it has to be unreachable for every input.", "anchors": ["src/vec_set.rs: intersection_with, difference_with", "src/merge_state.rs: NoConverter"]}
{"id": "C11", "title": "union_with leaves the union", "statement": "a.union_with(&b) leaves a equal to the union of a and b, for any b.", "quantifier": "all pairs of valid sets", "why_tests_cant": "No test calls union_with; whether it can panic depends on all inputs.", "anchors": ["src/vec_set.rs: VecSet::union_with", "src/merge_state.rs: NoConverter"]}
{"id": "C12", "title": "xor_with leaves the symmetric difference", "statement": "a.xor_with(&b) leaves a equal to the symmetric difference of a and b.", "quantifier": "all pairs of valid sets", "why_tests_cant": "No test calls xor_with.", "anchors": ["src/vec_set.rs: VecSet::xor_with"]}
{"id": "C13", "title": "collect into a VecSet keeps the first of equal elements", "statement": "Collecting any iterator gives the strictly ordered list of the first occurrences of each distinct element, for every length and arrival order, regardless of when intermediate compactions happen.", "quantifier": "every finite input sequence, every lawful Ord", "why_tests_cant": "The incremental compaction heuristic makes the control flow depend on the whole arrival history.", "anchors": ["src/vec_set.rs: FromIterator", "src/dedup.rs: sort_dedup, SortAndDedup::push, sort_and_dedup, dedup_by"]}
{"id": "C14", "title": "From<Vec>, deserialization and collect agree", "statement": "VecSet::from(vec), serde deserialization of a sequence and collect of the same sequence give the same set; serializing a set and deserializing it gives the set back.", "quantifier": "every finite input sequence", "why_tests_cant": "Three different code paths must agree for all inputs, including unsorted and duplicated untrusted input.", "anchors": ["src/vec_set.rs: from_vec, VecSetVisitor::visit_seq, Serialize for VecSet, FromIterator"]}
{"id": "C15", "title": "sort_dedup_by_key honours keep", "statement": "The public sort_dedup / sort_dedup_by_key return the elements sorted by key, one per distinct key: the first arrival with Keep::First, the last arrival with Keep::Last.", "quantifier": "every finite input sequence, key function and keep mode", "why_tests_cant": "Swap-based in-place deduplication with intermediate compactions; the order of equal keys must be tracked through all of them.", "anchors": ["src/dedup.rs: sort_dedup_by, sort_dedup_by_key, dedup_by, Keep"]}
{"id": "C16", "title": "intermediate storage while collecting is bounded", "statement": "While collecting, the buffer never holds more than max(16, 2*d+1) elements, d being the number of distinct elements seen so far.", "quantifier": "every input sequence and every prefix of it", "why_tests_cant": "The documented bound (twice the size of the result) concerns every intermediate state, which tests never observe.", "anchors": ["src/dedup.rs: SortAndDedup::push", "src/vec_set.rs: doc of FromIterator for VecSet"]}
{"id": "C17", "title": "Eq, Ord and Hash of VecSet are extensional and lawful", "statement": "a == b exactly when they have the same elements; cmp is a total order that is Equal exactly when ==; equal sets feed equal data to any Hasher compatible with the element's Eq.", "quantifier": "all pairs/triples of valid sets", "why_tests_cant": "Extensionality rests on the canonical representation of every reachable state.", "anchors": ["src/vec_set.rs: PartialEq, Ord, PartialOrd, Hash for VecSet"]}
{"id": "C18", "title": "in-place set operators neither lose nor duplicate elements", "statement": "For each assigning operator taking its argument by value, the elements of the result together with the elements dropped during the operation are exactly (as multisets) the elements of the two operands: nothing is leaked, dropped twice, or both kept and dropped.", "quantifier": "all pairs of inputs, any merge algorithm", "why_tests_cant": "Ownership accounting has to be right on every path through the unsafe builder's protocol.", "anchors": ["src/merge_state.rs: InPlaceMergeState, advance_a, advance_b", "src/vec_set.rs: BitOrAssign, BitAndAssign, BitXorAssign, SubAssign"]}
{"id": "C19", "title": "lookup uses logarithmically many comparisons", "statement": "contains/get on a collection of n elements perform at most floor(log2 n)+1 comparisons (0 if empty).", "quantifier": "all sizes and probes", "why_tests_cant": "The bound is over all sizes and all probe outcomes.", "anchors": ["src/vec_set.rs: contains", "src/vec_map.rs: AbstractVecMap::get doc comment 'O(log N)'"]}
{"id": "C20", "title": "boolean algebra laws", "statement": "Union, intersection, symmetric difference and difference of VecSets satisfy commutativity, associativity, idempotence, distributivity and absorption as equality (==) of sets.", "quantifier": "all triples of valid sets", "why_tests_cant": "Laws quantify over all triples.", "anchors": ["src/vec_set.rs: BitOr, BitAnd, BitXor, Sub, PartialEq"]}
{"id": "C21", "title": "VecMap entries are always strictly ordered by key", "statement": "After any sequence of public VecMap operations the entry slice is strictly increasing in the key.", "quantifier": "every key type with a lawful Ord, every history of operations and closures", "why_tests_cant": "Inductive invariant over all histories.", "anchors": ["src/vec_map.rs: VecMap, insert, retain, FromIterator, Extend, merge_with, combine_with, *_join, *_join_with, map_values, From<BTreeMap>"]}
{"id": "C22", "title": "VecMap refines a finite map", "statement": "get returns the value given by replaying the history on an abstract map; insert returns the previous value and changes only its key; get_mut updates only its key; retain keeps exactly the entries satisfying the predicate; map_values maps every value and no key.", "quantifier": "every history, every probe key", "why_tests_cant": "All sizes, positions and histories.", "anchors": ["src/vec_map.rs: get, get_mut, insert, retain, map_values"]}
{"id": "C23", "title": "collect into a VecMap keeps the last value per key", "statement": "Collecting pairs gives the map in which every key is bound to the last value that arrived for it.", "quantifier": "every finite sequence of pairs", "why_tests_cant": "Incremental compaction must not reorder equal keys on any arrival history.", "anchors": ["src/vec_map.rs: FromIterator", "src/dedup.rs: sort_dedup_by_key"]}
{"id": "C24", "title": "outer_join is pointwise", "statement": "get(k) of a.outer_join(b,f) is f(Both/Left/Right) according to which operands have k, None if f returns None or neither has k; f is applied to exactly the keys present.", "quantifier": "all pairs of valid maps, all closures", "why_tests_cant": "All interleavings and all closures.", "anchors": ["src/vec_map.rs: outer_join, OuterJoinOp, OuterJoinArg"]}
{"id": "C25", "title": "left_join is pointwise", "statement": "get(k) of a.left_join(b,f) is f(k, a[k], b.get(k)) when a has k, else None.", "quantifier": "all pairs of valid maps, all closures", "why_tests_cant": "All interleavings and all closures.", "anchors": ["src/vec_map.rs: left_join, LeftJoinOp"]}
{"id": "C26", "title": "right_join is pointwise", "statement": "get(k) of a.right_join(b,f) is f(k, a.get(k), b[k]) when b has k, else None.", "quantifier": "all pairs of valid maps, all closures", "why_tests_cant": "All interleavings and all closures.", "anchors": ["src/vec_map.rs: right_join, RightJoinOp"]}
{"id": "C27", "title": "inner_join is pointwise", "statement": "get(k) of a.inner_join(b,f) is f(k, a[k], b[k]) when both have k, else None.", "quantifier": "all pairs of valid maps, all closures", "why_tests_cant": "All interleavings and all closures.", "anchors": ["src/vec_map.rs: inner_join, InnerJoinOp"]}
{"id": "C28", "title": "in-place joins equal the pure joins", "statement": "outer/left/right/inner_join_with leave in self the value of the corresponding pure join and never panic (with non panicking closures).", "quantifier": "all pairs of valid maps, all closures", "why_tests_cant": "The in-place builder pops and pushes in its own buffer.", "anchors": ["src/vec_map.rs: outer_join_with, left_join_with, right_join_with, inner_join_with"]}
{"id": "C29", "title": "merge_with / combine_with / extend", "statement": "combine_with binds keys of one side to their value and common keys to f(left,right); merge_with and extend are right biased (extend: last value wins, existing entries overridden).", "quantifier": "all maps, all functions, all iterators", "why_tests_cant": "All interleavings.", "anchors": ["src/vec_map.rs: merge_with, combine_with, Extend, CombineOp"]}
{"id": "C30", "title": "a VecMap converts to a valid VecSet of its entries", "statement": "VecSet::from(map) is strictly ordered for the pair order and contains exactly the entries.", "quantifier": "all valid maps with ordered values", "why_tests_cant": "Relies on the key invariant for all maps.", "anchors": ["src/vec_map.rs: From<VecMap<A>> for VecSet<A>"]}
{"id": "C31", "title": "VecMap deserialization", "statement": "Deserializing any sequence of entries gives a valid map, serialize followed by deserialize is the identity, and duplicate keys are resolved as collect does (last wins).", "quantifier": "every entry sequence including hostile ones", "why_tests_cant": "Duplicate keys in untrusted input are not generated by round-trip tests.", "anchors": ["src/vec_map.rs: VecMapVisitor::visit_map, Serialize for VecMap"]}
{"id": "C32", "title": "a panicking closure leaves a valid map", "statement": "If the user closure panics at any call during outer/left/right/inner_join_with or combine_with, the map left behind (after unwinding) is still strictly ordered by key and contains only entries produced before the panic.", "quantifier": "all maps, all closures, every call at which the closure panics", "why_tests_cant": "Every crash point must be considered.", "anchors": ["src/vec_map.rs: OuterJoinOp, LeftJoinOp, RightJoinOp, InnerJoinOp for in-place states", "src/merge_state.rs: InPlaceSmallVecMergeStateRef, InPlaceMergeState"]}
{"id": "C33", "title": "archive validation enforces the invariant", "statement": "The rkyv check of an archived set/map succeeds exactly when its elements/keys are strictly increasing (given valid elements), so lookups and set operations on a validated archive are exact; archiving then deserializing a valid collection gives it back.", "quantifier": "all archived element sequences", "why_tests_cant": "Hostile archives of every shape.", "anchors": ["src/vec_set.rs: CheckBytes for ArchivedVecSet, rkyv::Deserialize", "src/vec_map.rs: CheckBytes for ArchivedVecMap"]}
{"id": "C34", "title": "TotalVecMap combines pointwise", "statement": "combine_ref(a,b,f)[k] = f(a[k], b[k]) for every key, likewise supremum, infimum, +, -, *, / and map_values, neg.", "quantifier": "all total maps, all functions, all keys (including those stored in neither)", "why_tests_cant": "Quantifies over infinitely many keys and all functions.", "anchors": ["src/total_vec_map.rs: combine_ref, supremum, infimum, map_values, Index, Add, Sub, Mul, Div, Neg"]}
{"id": "C35", "title": "TotalVecMap stores no default mappings", "statement": "After any operation no stored mapping has the default value, keys stay strictly ordered, and new(map, d)[k] is map.get(k) or d.", "quantifier": "every history of operations", "why_tests_cant": "Canonicity is an inductive invariant.", "anchors": ["src/total_vec_map.rs: new, constant, combine_ref, map_values, non_default_mappings"]}
{"id": "C36", "title": "TotalVecMap equality is extensional", "statement": "a == b exactly when a[k] == b[k] for every key k; Eq, Ord and Hash agree.", "quantifier": "all pairs of canonical total maps", "why_tests_cant": "Equality of functions on an unbounded key space cannot be sampled.", "anchors": ["src/total_vec_map.rs: PartialEq, Ord, Hash for TotalVecMap"]}
{"id": "C37", "title": "TotalVecSet operators are pointwise", "statement": "contains(x) of &a & &b, &a | &b, &a ^ &b, &a - &b, !a and the assigning variants equals the boolean combination of a.contains(x) and b.contains(x).", "quantifier": "all total sets, both polarities, all probes", "why_tests_cant": "Infinite (negated) sets cannot be enumerated.", "anchors": ["src/total_vec_set.rs: BitAnd, BitOr, BitXor, Sub, Not, *Assign, contains"]}
{"id": "C38", "title": "TotalVecSet insert/remove history", "statement": "After any history of insert, remove, negation and operators, contains agrees with the abstract predicate obtained by replaying it.", "quantifier": "every history", "why_tests_cant": "All histories.", "anchors": ["src/total_vec_set.rs: insert, remove, constant, empty, all, From<VecSet>"]}
{"id": "C39", "title": "TotalVecSet is_subset / is_disjoint / is_empty / is_all", "statement": "They decide the relations between the represented (possibly infinite) sets whenever the element type has more values than any stored list; equality is extensional there.", "quantifier": "all total sets over an infinite element type", "why_tests_cant": "Cannot enumerate infinite complements.", "anchors": ["src/total_vec_set.rs: is_subset, is_disjoint, is_empty, is_all, PartialEq"]}
{"id": "C40", "title": "TotalVecSet is_superset", "statement": "a.is_superset(b) is true exactly when every element of b is an element of a.", "quantifier": "all pairs of total sets", "why_tests_cant": "No test calls is_superset.", "anchors": ["src/total_vec_set.rs: is_superset"]}
{"id": "C41", "title": "BTreeMap joins are pointwise", "statement": "outer_join, left_join, right_join and inner_join of (archived) BTreeMaps have, for every key, the value given by the closure applied to the operands' values at that key.", "quantifier": "all pairs of maps, all closures, both branches of inner_join", "why_tests_cant": "All maps and closures.", "anchors": ["src/btree_map.rs: outer_join, left_join, right_join, inner_join"]}
{"id": "C42", "title": "in-place BTreeMap joins", "statement": "inner_join_with, left_join_with and outer_join_with leave for every key the value given by the (mutating) closures, and drop exactly the keys for which they return false/None.", "quantifier": "all maps, all closures", "why_tests_cant": "All maps and closures.", "anchors": ["src/btree_map.rs: InPlaceRelationalOps"]}
{"id": "C43", "title": "in-place BTreeMap right join keeps exactly the right keys", "statement": "right_join_with leaves only keys that are present in that.", "quantifier": "all maps, all closures", "why_tests_cant": "No test covers it.", "anchors": ["src/btree_map.rs: right_join_with"]}
{"id": "C44", "title": "radix tree lookup is exact", "statement": "get(k) returns v and contains_key(k) is true exactly when the tree holds the pair (k,v) along some root-to-node path; lookup never panics.", "quantifier": "all well ordered trees (owned or validated archived), all keys of any length", "why_tests_cant": "Unbounded depth and key length.", "anchors": ["src/radix_tree/mod.rs: find, get, contains_key, common_prefix"]}
{"id": "C45", "title": "radix tree insert history refines a map", "statement": "After any sequence of inserts (or collecting pairs), get(k) is the value of the last insert for k and nothing else; insert never panics.", "quantifier": "every sequence of keys and values", "why_tests_cant": "All histories; node splitting depends on all previous keys.", "anchors": ["src/radix_tree/mod.rs: insert, single, outer_combine_with", "src/radix_tree/flat_radix_tree.rs: FromIterator"]}
{"id": "C46", "title": "radix tree operations keep the canonical form", "statement": "Every public constructor and operation returns a canonical tree: children non-empty, their prefixes non-empty, strictly ordered by first component, no value-less node with a single child, the empty tree has an empty prefix.", "quantifier": "every history of operations", "why_tests_cant": "Inductive invariant across recursion of unbounded depth.", "anchors": ["src/radix_tree/mod.rs: unsplit, split, outer_combine, inner_combine, left_combine, *_with, filter_prefix, prepend"]}
{"id": "C47", "title": "canonical trees are equal exactly when they hold the same mapping", "statement": "Two trees reachable by public operations are == exactly when get agrees on all keys.", "quantifier": "all pairs of reachable trees", "why_tests_cant": "Quantifies over all keys.", "anchors": ["src/radix_tree/flat_radix_tree.rs: derive PartialEq for RadixTree", "src/radix_tree/mod.rs: unsplit"]}
{"id": "C48", "title": "outer_combine / union are pointwise", "statement": "get(k) of outer_combine(a,b,f) is f(x,y) when both have k, else whichever value exists; union is left biased; the in-place variants agree; none panics.", "quantifier": "all pairs of well ordered trees, all functions, all keys", "why_tests_cant": "Unbounded recursion over two trees.", "anchors": ["src/radix_tree/mod.rs: outer_combine, outer_combine_with, union, union_with, OuterCombineOp"]}
{"id": "C49", "title": "inner_combine / intersection are pointwise", "statement": "get(k) of inner_combine(a,b,f) is f(x,y) when both have k, else None; in-place variants agree; none panics.", "quantifier": "all pairs of well ordered trees, all functions, all keys", "why_tests_cant": "Unbounded recursion over two trees.", "anchors": ["src/radix_tree/mod.rs: inner_combine, inner_combine_with, intersection, intersection_with, InnerCombineOp"]}
{"id": "C50", "title": "left_combine_with / difference are pointwise", "statement": "get(k) of left_combine_with(a,b,f) is f(x,y) on common keys and a's value on keys only in a; difference and difference_with hold exactly the keys of a not in b; none panics.", "quantifier": "all pairs of well ordered trees, all functions, all keys", "why_tests_cant": "Unbounded recursion over two trees.", "anchors": ["src/radix_tree/mod.rs: left_combine_with, difference, difference_with, LeftCombineOp"]}
{"id": "C51", "title": "left_combine applies its function to every key of self", "statement": "get(k) of left_combine(a,b,f) is f(x, b.get(k)) for every key k of a with value x.", "quantifier": "all pairs of trees, all functions", "why_tests_cant": "Whether f sees (x, None) depends on the shape of the other tree.", "anchors": ["src/radix_tree/mod.rs: left_combine, LeftCombineOp"]}
{"id": "C52", "title": "remove_prefix_with removes exactly the prefixed keys", "statement": "After a.remove_prefix_with(b,f), a holds exactly its former pairs whose key has no prefix that is a key of b accepted by f.", "quantifier": "all pairs of trees, all predicates", "why_tests_cant": "Unbounded recursion.", "anchors": ["src/radix_tree/mod.rs: remove_prefix_with, RemovePrefixOp"]}
{"id": "C53", "title": "retain_prefix_with retains exactly the prefixed keys", "statement": "After a.retain_prefix_with(b,f), a holds exactly its former pairs whose key has some prefix that is a key of b accepted by f.", "quantifier": "all pairs of trees, all predicates", "why_tests_cant": "Unbounded recursion.", "anchors": ["src/radix_tree/mod.rs: retain_prefix_with, RetainPrefixOp"]}
{"id": "C54", "title": "filter_prefix and prepend", "statement": "filter_prefix(p) holds exactly the pairs whose key starts with p, with unchanged keys; prepend(p) holds exactly the pairs (p++k, v).", "quantifier": "all trees, prefixes and keys", "why_tests_cant": "All prefixes ending inside, at or beyond a node.", "anchors": ["src/radix_tree/mod.rs: filter_prefix, prepend, find"]}
{"id": "C55", "title": "scan_prefix yields exactly the prefixed pairs in order", "statement": "scan_prefix(p) yields each pair whose key starts with p exactly once, in strictly increasing lexicographic key order.", "quantifier": "all trees and prefixes", "why_tests_cant": "All shapes.", "anchors": ["src/radix_tree/mod.rs: scan_prefix, Iter"]}
{"id": "C56", "title": "iteration is complete, duplicate free and sorted", "statement": "iter() yields exactly the pairs of the tree, once each, in strictly increasing lexicographic key order; values() yields the same values in the same order; both terminate.", "quantifier": "all well ordered trees of any depth", "why_tests_cant": "Stack machine with path reconstruction over unbounded trees.", "anchors": ["src/radix_tree/mod.rs: Iter, Values, IterKey, SortedByKey"]}
{"id": "C57", "title": "radix is_subset / is_superset", "statement": "a.is_subset(b) is true exactly when every key of a is a key of b; is_superset is the converse.", "quantifier": "all pairs of canonical trees", "why_tests_cant": "Early-exit recursion over two trees.", "anchors": ["src/radix_tree/mod.rs: is_subset0, NonSubsetOp, is_superset"]}
{"id": "C58", "title": "radix intersects / is_disjoint", "statement": "a.intersects(b) is true exactly when some key is in both; is_disjoint is its negation.", "quantifier": "all pairs of well ordered trees", "why_tests_cant": "Early-exit recursion over two trees.", "anchors": ["src/radix_tree/mod.rs: intersects0, IntersectOp"]}
{"id": "C59", "title": "validated archived radix trees are safe to query", "statement": "The rkyv check accepts exactly the trees that are well ordered at every depth; on those every query and combination is exact and panic free; in particular is_subset decides key inclusion.", "quantifier": "all archived trees accepted by validation", "why_tests_cant": "Hostile archives of every shape.", "anchors": ["src/radix_tree/flat_radix_tree.rs: CheckBytes for ArchivedRadixTree", "src/radix_tree/arc_radix_tree.rs: CheckBytes for ArchivedArcRadixTree", "src/radix_tree/mod.rs: is_subset0"]}
{"id": "C60", "title": "ArcRadixTree snapshots are isolated", "statement": "After cloning an ArcRadixTree, any mutation of either copy is invisible through the other, whatever nodes they share.", "quantifier": "every heap of shared nodes, every sequence of clone, drop and copy-on-write mutations", "why_tests_cant": "Sharing graphs are unbounded.", "anchors": ["src/radix_tree/arc_radix_tree.rs: ArcRadixTree, children_mut, Clone, wrap_in_arc, empty_arc"]}
{"id": "C61", "title": "lazy children are created once and consistently under every schedule", "statement": "When several threads access the children of the same lazily loaded node, the materialisation function runs at most once, every access returns the same value, no access panics and clones taken at any time denote the same children.", "quantifier": "every number of threads and every interleaving", "why_tests_cant": "Schedules cannot be enumerated by tests.", "anchors": ["src/radix_tree/lazy_radix_tree.rs: Lazy, get_or_create, get, Clone for Lazy, Either::a_to_b"]}
{"id": "C62", "title": "LazyRadixTree denotes its archive", "statement": "Whatever subset of nodes has been materialised, prefix/value/children of a LazyRadixTree describe the same tree as the archive, so all queries give the same answers as on the archive or on an owned RadixTree.", "quantifier": "all archived trees, all access histories", "why_tests_cant": "All partial materialisation states.", "anchors": ["src/radix_tree/lazy_radix_tree.rs: LazyRadixTree, materialize_shallow, children_arc, From<RadixTree>"]}
{"id": "C63", "title": "keys handed out by iteration are stable", "statement": "A key returned by iter()/scan_prefix and kept by the caller never changes while iteration continues.", "quantifier": "all trees, all subsets of retained keys", "why_tests_cant": "Depends on copy-on-write of the shared path buffer for every retention pattern.", "anchors": ["src/radix_tree/mod.rs: IterKey::append, IterKey::pop"]}
{"id": "C64", "title": "vecset! and vecmap! build the listed collection", "statement": "vecset!{x1..xn} contains exactly the listed elements and vecmap!{k1=>v1,..} binds each key to its last listed value, for any number and order of arguments.", "quantifier": "all argument lists", "why_tests_cant": "All lengths and duplicate patterns.", "anchors": ["src/macros.rs: vecset, vecmap"]}
{"id": "C65", "title": "VecMap equality is extensional and agrees with Ord and Hash", "statement": "Two valid VecMaps are == exactly when get agrees (up to value ==) on every key; cmp is a lawful total order with cmp == Equal iff ==; equal maps feed equal data to any Hasher.", "quantifier": "all pairs of valid maps, all lawful key and value orders", "why_tests_cant": "ranges over all maps and all key/value types; a test compares finitely many pairs", "anchors": ["src/vec_map.rs: PartialEq, Ord, Hash for VecMap"]}
{"id": "C66", "title": "TotalVecMap is_zero / is_one", "statement": "m.is_zero() (is_one()) is true exactly when m[k] equals zero (one) for every key k, over a key type with infinitely many values.", "quantifier": "all canonical total maps", "why_tests_cant": "Quantifies over an infinite key space.", "anchors": ["src/total_vec_map.rs: Zero::is_zero, One::is_one"]}
{"id": "C67", "title": "LazyRadixTree loads children on first access", "statement": "Converting an archived tree to a LazyRadixTree reads and allocates for the root only; children are loaded from the archive when they are first accessed.", "quantifier": "all archived trees", "why_tests_cant": "Cost for every tree shape; no test observes how much of the archive a conversion copied.", "anchors": ["src/radix_tree/lazy_radix_tree.rs: From<&ArchivedLazyRadixTree>, materialize_shallow, Lazy::uninitialized"]}
{"id": "C68", "title": "shared trees neither leak nor free early", "statement": "After any history of creating, cloning, mutating and dropping ArcRadixTrees and LazyRadixTrees, every allocated child vector is reachable from a tree that still exists (or is the static empty vector) and its count equals the number of its owners; when all trees are dropped nothing is left.", "quantifier": "all operation histories, all sharing graphs", "why_tests_cant": "Needs exact counts in every sharing graph; a leak or premature free shows only in particular histories.", "anchors": ["src/radix_tree/arc_radix_tree.rs: ArcRadixTree, children_mut, wrap_in_arc, EMPTY_ARC_VEC", "src/radix_tree/lazy_radix_tree.rs: LazyRadixTree, children_arc_mut"]}
{"id": "C69", "title": "library operations on shared trees behave as on unshared ones", "statement": "After any sequence of public calls (insert, prepend, filter_prefix, the combine, remove and retain operations in place and pure, clone, drop, conversions, lookups, iteration, is_subset, intersects) on ArcRadixTrees or LazyRadixTrees that share nodes, every call has answered and every tree holds exactly what it would if each tree were a private deep copy; snapshots not named as a target are unchanged; no freed node is touched and none is leaked.", "quantifier": "all programs, all sharing graphs, all closures, both tree types", "why_tests_cant": "Copy-on-write mistakes show only for particular sharing graphs and operation orders; there are infinitely many.", "anchors": ["src/radix_tree/mod.rs: AbstractRadixTreeMut, Converter, InPlaceBuilder based operations", "src/radix_tree/arc_radix_tree.rs: children_mut, materialize_shallow, empty, Clone", "src/radix_tree/lazy_radix_tree.rs: children_mut, materialize_shallow"]}
{"id": "C70", "title": "programs over shared radix trees compute on mappings", "statement": "A program of public calls over ArcRadixTrees or LazyRadixTrees, run with arbitrary sharing, never panics and answers every get, iter, is_subset and intersects as the same program over mathematical mappings from keys to values does; at the end every tree denotes its mapping.", "quantifier": "all programs of public calls, all keys and values, all closures, both tree types, all sharing graphs", "why_tests_cant": "End-to-end over all histories and all sharing; a test fixes one.", "anchors": ["src/radix_tree/mod.rs: AbstractRadixTree, AbstractRadixTreeMut", "src/radix_tree/arc_radix_tree.rs: ArcRadixTree", "src/radix_tree/lazy_radix_tree.rs: LazyRadixTree"]}
{"id": "C71", "title": "any comparison is survived", "statement": "Whatever the element type's Ord does (inconsistent, stateful, answering differently each time, panicking at any call) and whatever order the elements are already in, every VecSet operator and query and every in-place VecMap join terminates, panics only if the comparison (or the user's closure) panicked, never reads out of bounds, and neither loses nor duplicates an element: what is kept plus what is dropped is what came in; a panic inside insert or remove leaves the set as it was.", "quantifier": "all comparison behaviours (any function of a world that changes with each call), all inputs, all merge strategies, all closures", "why_tests_cant": "Ord is user code; the space of misbehaviours is infinite and no test enumerates it.", "anchors": ["src/merge_state.rs: InPlaceMergeState, InPlaceSmallVecMergeStateRef, SmallVecMergeState, BoolOpMergeState", "src/vec_set.rs: BitOrAssign, BitAndAssign, BitXorAssign, SubAssign, insert, remove, contains, is_subset", "src/vec_map.rs: outer_join_with, left_join_with, right_join_with, inner_join_with"]}
{"id": "C72", "title": "a panicking comparison leaves a valid collection", "statement": "If the comparison of a lawful order panics at any call during an in-place VecSet operator or VecMap join (or combine_with), the collection left after unwinding is a prefix of what the uninterrupted call would have left, hence strictly ordered and usable.", "quantifier": "all crash points (the n-th comparison for every n), all inputs, all merge strategies, all closures", "why_tests_cant": "Every comparison of every input is a crash point.", "anchors": ["src/merge_state.rs: InPlaceMergeState, InPlaceSmallVecMergeStateRef", "src/vec_set.rs: assigning operators, insert, remove", "src/vec_map.rs: in-place joins, combine_with"]}
{"id": "C73", "title": "retain with effects and panics", "statement": "retain asks the predicate exactly once per element, in order, and keeps exactly the accepted elements in order, for predicates with any state; if the predicate panics nothing is lost or duplicated and the set left behind is still strictly ordered.", "quantifier": "all sets and maps, all stateful predicates, all crash points", "why_tests_cant": "The predicate is user code with arbitrary state, and may panic at any call.", "anchors": ["src/vec_set.rs: VecSet::retain", "src/vec_map.rs: VecMap::retain"]}
{"id": "C74", "title": "radix in-place combine with effectful or panicking closures", "statement": "outer/inner/left_combine_with on radix trees call the closure exactly once for every key that is in both trees, in ascending key order, with the values of that key, and leave exactly the entries that a sorted merge join of the two iterations produces; if the closure panics at some key, every call before it has been made, none after it, and the tree left behind is well ordered and holds exactly: the old entries with the changed value if the key is the common root prefix, otherwise the entries produced so far outside the root's child that contains the key.", "quantifier": "all well ordered trees, all closures with any state and effects, all crash points, all merge strategies", "why_tests_cant": "The closure is user code with arbitrary state and may panic at any of its calls.", "anchors": ["src/radix_tree/mod.rs: outer_combine_with, inner_combine_with, left_combine_with, OuterCombineOp, InnerCombineOp, LeftCombineOp", "src/merge_state.rs: InPlaceVecMergeStateRef"]}
{"id": "C75", "title": "== after a caught panic in a radix combine", "statement": "After a panic of the closure in an in-place combination was caught, the tree still equals (==) every tree with the same entries.", "quantifier": "all canonical trees, all closures, all crash points", "why_tests_cant": "It must hold for every crash point; one crash point refutes it.", "anchors": ["src/radix_tree/mod.rs: outer_combine_with, inner_combine_with, left_combine_with, OuterCombineOp, InnerCombineOp, LeftCombineOp", "src/merge_state.rs: InPlaceVecMergeStateRef"]}
{"id": "C76", "title": "remove_prefix_with / retain_prefix_with with effectful or panicking predicates", "statement": "The predicate is asked about a key of the second tree iff some entry of the first extends that key and no already accepted key is a prefix of it, in ascending key order; remove_prefix_with drops and retain_prefix_with keeps exactly the entries that extend an accepted key; if the predicate panics the tree left is well ordered and is exactly: unchanged if the key is the common root prefix, else the selected entries before the key outside the root's child containing it. On an empty first tree nothing changes (the predicate may be asked about the empty key).", "quantifier": "all canonical first trees, all well ordered second trees, all predicates with any state, all crash points, all merge strategies", "why_tests_cant": "Predicates are user code with state; every call is a crash point.", "anchors": ["src/radix_tree/mod.rs: remove_prefix_with, retain_prefix_with, RemovePrefixOp, RetainPrefixOp", "src/merge_state.rs: InPlaceVecMergeStateRef"]}
{"id": "C77", "title": "Saving and loading gives back the tree", "statement": "Serializing any ArcRadixTree or LazyRadixTree that a program has built gives a file from which a new process loads an equal tree; serializing changes the value of no tree in memory, also where it materialises lazy parts; the file can follow any other bytes.", "quantifier": "all programs, all sharing between trees, both kinds of shared trees", "why_tests_cant": "It must hold for every shape of sharing that any history of operations can produce.", "anchors": ["src/radix_tree/arc_radix_tree.rs: Serialize for ArcRadixTree, Deserialize for ArchivedArcRadixTree, all_arcs", "src/radix_tree/lazy_radix_tree.rs: Serialize for LazyRadixTree, all_arcs"]}
{"id": "C78", "title": "Shared parts are written once and stay shared", "statement": "Serializing writes each distinct children vector exactly once (plus one root), and after loading two paths lead to the same vector exactly if they did before saving - also when, over a history of flushes and vacuums, the parts of the tree were written by different flushes and the process restarts after the last one.", "quantifier": "all programs, all histories of flushes, vacuums, failures and restarts, all pairs of paths", "why_tests_cant": "Sharing is not observable by comparing values; it must hold for every pair of paths of every tree.", "anchors": ["src/radix_tree/arc_radix_tree.rs: Serialize for ArcRadixTree, Deserialize for ArchivedArcRadixTree, all_arcs", "src/radix_tree/lazy_radix_tree.rs: Serialize for LazyRadixTree, all_arcs", "examples/radix_db.rs: SharedSerializeMap2, SharedDeserializeMap2"]}
{"id": "C79", "title": "Incremental saving is sound", "statement": "In every state of a database every address in the serializer's registry is alive and holds exactly what the file has at the registered position, whatever the user does to the tree in between; a flush appends one root and only vectors that are not registered, each once, so flushing twice appends one record; after it everything the tree reaches is registered. Without the shares kept by all_arcs this fails.", "quantifier": "all histories of user operations, flushes, vacuums, failing writes, restarts", "why_tests_cant": "A stale registry entry corrupts a file silently and only after particular histories of in-place mutation.", "anchors": ["src/radix_tree/arc_radix_tree.rs: Serialize for ArcRadixTree, Deserialize for ArchivedArcRadixTree, all_arcs", "examples/radix_db.rs: RadixDb::flush, vacuum, load, to_shared_serializer_map"]}
{"id": "C80", "title": "The database over all histories", "statement": "Any history of operations on the tree, flushes, vacuums, failing appends and moves, and restarts gives the answers of a database that stores plain trees; a restart gives the tree of the last flush or vacuum that returned, and no vector leaks.", "quantifier": "all histories, all write failures", "why_tests_cant": "It ranges over all interleavings of user operations and failures.", "anchors": ["examples/radix_db.rs: RadixDb::load, flush, vacuum"]}
{"id": "C81", "title": "Crash points of flush and vacuum", "statement": "After a flush or vacuum that was cut off at any point, a restart finds the tree that was on disk before or the one being written; a failed flush is repaired by the next one.", "quantifier": "all histories, all crash points", "why_tests_cant": "Every prefix of every write is a crash point.", "anchors": ["examples/radix_db.rs: RadixDb::flush, vacuum, load", "examples/radix_db.rs: Storage"]}
{"id": "C82", "title": "Batches of watch_prefix", "statement": "Every batch of watch_prefix tells which keys below the prefix were added and removed since the previous batch.", "quantifier": "all sequences of trees sent, all prefixes", "why_tests_cant": "It ranges over all sequences of trees.", "anchors": ["examples/radix_db.rs: watch_prefix, Batch::added, Batch::removed"]}
{"id": "C83", "title": "Validating untrusted bytes never leaves them", "statement": "Validating any byte sequence as an archived VecSet, VecMap or RadixTree ends with acceptance or an error and reads no memory outside the sequence.", "quantifier": "all byte sequences, all orders on the elements", "why_tests_cant": "The input is adversarial: every pointer and length can have any value, and an out of bounds read is undefined behaviour a test need not notice.", "anchors": ["src/vec_set.rs: CheckBytes for ArchivedVecSet, Serialize for VecSet", "src/vec_map.rs: CheckBytes for ArchivedVecMap, Serialize for VecMap", "src/radix_tree/flat_radix_tree.rs: CheckBytes for ArchivedRadixTree, Serialize for RadixTree, AbstractRadixTree for ArchivedRadixTree"]}
{"id": "C84", "title": "Accepted archives are sound, saved ones are accepted", "statement": "An accepted archive holds a strictly ordered set or map, or a finite well ordered tree, that can be read completely, and looked up in place, without leaving the archive, with the answers of that tree; and a saved collection reads back unchanged and is accepted exactly if it is ordered.", "quantifier": "all byte sequences, all sets, maps and trees, all keys", "why_tests_cant": "Soundness of validation quantifies over all accepted byte sequences.", "anchors": ["src/vec_set.rs: CheckBytes for ArchivedVecSet, Serialize for VecSet", "src/vec_map.rs: CheckBytes for ArchivedVecMap, Serialize for VecMap", "src/radix_tree/flat_radix_tree.rs: CheckBytes for ArchivedRadixTree, Serialize for RadixTree, AbstractRadixTree for ArchivedRadixTree", "src/radix_tree/mod.rs: find, AbstractRadixTree::get"]}
{"id": "C85", "title": "Cost of collecting", "statement": "Collecting n items into a VecSet or VecMap makes at most O(n log n) comparisons (within the documented O(n log(n)^2)), and exactly n-1, without ever sorting, when the items arrive in order.", "quantifier": "all item sequences, all comparisons", "why_tests_cant": "A worst case bound over all inputs; a test measures single inputs.", "anchors": ["src/dedup.rs: sort_dedup_by, SortAndDedup::push, sort_and_dedup, dedup_by", "src/vec_set.rs: FromIterator for VecSet, Extend for VecSet", "src/vec_map.rs: FromIterator for VecMap"]}
{"id": "C86", "title": "Cost of set operations, joins and searches", "statement": "A set operation or in-place map join on collections of sizes n and m makes at most 6n+m comparisons whichever merge algorithm is used, at most n(log2 m + 1) with the binary one; contains, insert and remove make at most log2 n + 1.", "quantifier": "all inputs, all comparisons (also unlawful ones), all choices of merge algorithm, all closures", "why_tests_cant": "A worst case bound over all inputs and all answers of the comparison.", "anchors": ["src/merge_state.rs: InPlaceMergeState, InPlaceMergeStateRef, SmallVecMergeState, BoolOpMergeState", "src/vec_set.rs: set operators, is_subset, is_disjoint, contains, insert, remove", "src/vec_map.rs: outer_join_with, left_join_with, right_join_with, inner_join_with, combine_with"]}
{"id": "C87", "title": "Collecting and extending under any comparison", "statement": "However the comparison behaves, collecting and extending end, and every item ends up in exactly one of: the collection, dropped, not yet consumed. If an order panics at some call, extend leaves the set as it was or a prefix of the union, in both cases a valid set; collect hands out nothing or the right collection.", "quantifier": "all inputs, all comparisons including ones with effects, without laws and panicking at any call", "why_tests_cant": "Ranges over all behaviours of user code and all crash points.", "anchors": ["src/dedup.rs: sort_dedup_by, SortAndDedup::push, sort_and_dedup, dedup_by", "src/vec_set.rs: FromIterator for VecSet, Extend for VecSet"]}
{"id": "C88", "title": "Copy-on-write touches only what the argument reaches", "statement": "After any program of public calls on ArcRadixTrees, insert allocates at most |key|+2 child vectors and each in-place combination at most a number that depends only on its argument tree, however large the tree that is changed is and however much of it is shared with snapshots; taking or dropping a snapshot, reading, prepend, filter_prefix and single allocate none.", "quantifier": "all programs of public calls (so all trees and all ways of sharing), all arguments, closures and choices of merge algorithm", "why_tests_cant": "A bound for all trees, sharing patterns and arguments; a test counts allocations of single runs.", "anchors": ["src/radix_tree/arc_radix_tree.rs: children_mut, wrap_in_arc, new, Clone", "src/radix_tree/mod.rs: insert, outer_combine_with, inner_combine_with, left_combine_with, remove_prefix_with, retain_prefix_with, split, unsplit, materialize_shortened, filter_prefix"]}
{"id": "C89", "title": "A flush after changes in place appends only what changed", "statement": "After any history of a persisted tree (snapshots, flushes, failed flushes, vacuums, restarts), once it has been flushed, vacuumed or loaded, and after any sequence of in-place changes, snapshots and reads since then, the next flush appends at most one record per child vector these calls created, plus two; after inserts this is at most the sum of |key|+2 over the inserted keys, plus two - whatever the size of the tree and whatever is shared.", "quantifier": "all histories, all trees, all sequences of in-place changes (with any argument trees and closures) between two flushes, all choices of merge algorithm", "why_tests_cant": "A bound on the written data for all histories and tree sizes; a test measures single runs.", "anchors": ["examples/radix_db.rs: RadixDb::flush, vacuum, load, to_shared_serializer_map", "src/radix_tree/arc_radix_tree.rs: serialization with shared pointers"]}
{"id": "C90", "title": "A change in place never creates sharing with another tree", "statement": "After any program, insert, prepend and the in-place combinations and prefix operations (outer/inner/left_combine_with, remove/retain_prefix_with) never make two trees share a child vector (other than the one empty vector) that they did not share before: what is taken over from the argument is copied.", "quantifier": "all programs, all pairs of trees, both ArcRadixTree and LazyRadixTree, all arguments, closures and choices of merge algorithm", "why_tests_cant": "Ranges over all heaps and sharing patterns reachable by a program.", "anchors": ["src/radix_tree/mod.rs: insert, prepend, outer_combine_with, inner_combine_with, left_combine_with, remove_prefix_with, retain_prefix_with, materialize_shortened", "src/radix_tree/arc_radix_tree.rs: children_mut", "src/radix_tree/lazy_radix_tree.rs: children_mut"]}
{"id": "C91", "title": "A panic in a closure is contained, also on trees that share nodes", "statement": "In any program of public calls on ArcRadixTrees or LazyRadixTrees in which closures have effects and may panic at any call, with the panics caught and the program going on: every call behaves - return or panic, effects, answers, what is left in the tree - exactly as on private deep copies; an interrupted call changes only its own tree (no snapshot, no argument, although they share nodes); its tree stays in order and is what C74/C76 say; no later call panics by itself or touches freed memory; every child vector still alive is reachable from a variable, and none is left when all trees are dropped.", "quantifier": "all programs, all sharing graphs, all closures with any state and effects, all crash points, both tree types, all choices of merge algorithm", "why_tests_cant": "The crash point, the sharing graph and the further program are arbitrary; unwinding runs destructors on half-finished vectors whose nodes other trees own.", "anchors": ["src/radix_tree/mod.rs: outer_combine_with, inner_combine_with, left_combine_with, remove_prefix_with, retain_prefix_with, InPlaceVecMergeStateRef", "src/radix_tree/arc_radix_tree.rs: children_mut", "src/radix_tree/lazy_radix_tree.rs: children_mut", "inplace-vec-builder: Drop"]}
{"id": "C92", "title": "Multimaps built on VecMap and VecSet", "statement": "Collecting pairs into the Multimap of the examples never panics; its keys are exactly the given keys, in order, each once (the first of equal ones), and every key has exactly the values given for it as a valid, non-empty set (the first of equal ones). combine_with is the union of the two relations. Both halves of a BiMultimap always describe the same relation: v is a value of k exactly when k is a key of v.", "quantifier": "all sequences of pairs, all lawful orders (also with equal but distinguishable elements), all multimaps that are in order", "why_tests_cant": "The result depends on the whole sequence of pairs, with merges at every step.", "anchors": ["examples/multimap.rs: Multimap, BiMultimap, single, combine_with, from_iter", "src/vec_map.rs: combine_with", "src/vec_set.rs: BitOr"]}
{"id": "C93", "title": "Lookups through a borrowed key", "statement": "get, get_mut and indexing with a borrowed form of the key (K: Borrow<Q>, whose order agrees with the order of K) find exactly the entry whose key has that borrowed form; get_mut changes the value of this entry and nothing else, and keys stay in order.", "quantifier": "all maps, all borrowed forms that satisfy the Borrow contract, all queries, also ones that are no borrowed form of any key", "why_tests_cant": "The search compares in the order of Q in a slice sorted in the order of K; any disagreement shows only for particular key sets.", "anchors": ["src/vec_map.rs: get, get_mut", "src/total_vec_map.rs: Index"]}
{"id": "C94", "title": "Bounded for TotalVecMap", "statement": "TotalVecMap::min_value() and max_value() are a lower and an upper bound: at every key, and in the order of TotalVecMap.", "quantifier": "all total maps, all keys, all value types with bounds", "why_tests_cant": "It is a statement about all values of the type.", "anchors": ["src/total_vec_map.rs: Bounded, Ord"]}
{"id": "C95", "title": "Iterators and conversions are exact", "statement": "The iterators of VecSet and VecMap yield every element exactly once in strictly ascending order and then None for ever, and size_hint is exact at every point, for every interleaving of the calls. Taking a collection apart (iterator, Vec, SmallVec, BTreeSet, BTreeMap) and putting it together again gives an identical collection.", "quantifier": "all collections, all sequences of next and size_hint calls", "why_tests_cant": "Sequences of calls and contents are unbounded; VecSetIter and VecMapIter promise sortedness to the sorted-iter crate unconditionally.", "anchors": ["src/iterators.rs: VecSetIter, VecMapIter", "src/vec_set.rs: iter, into_iter, From", "src/vec_map.rs: iter, into_iter, From"]}
{"id": "C96", "title": "map_values with effects and panics", "statement": "VecMap::map_values calls the closure on the values in key order, each once, also when it has effects; it returns the results under the same keys; when the closure panics nothing more is called, and every entry was either mapped or is dropped unmapped.", "quantifier": "all maps, all closures with any state, all crash points", "why_tests_cant": "The closure's state and crash point are arbitrary.", "anchors": ["src/vec_map.rs: map_values"]}
{"id": "C97", "title": "ArcRadixTrees can be used from several threads at once", "statement": "However the atomic accesses of several threads to the shared vectors are interleaved, no data race, use after free or double free happens; all answers the threads get, and all trees they hold between calls, are those of an execution in which the calls are indivisible, happen in the order in which they returned, and every tree is a plain value that shares nothing with another. The trees that all threads can see never change.", "quantifier": "all numbers of threads, all programs of the threads (the next call may depend on all answers so far), all schedules, all trees built before the threads start, all ways of handing trees from thread to thread", "why_tests_cant": "Schedules are unboundedly many; a missing count or a premature free shows only in particular interleavings of make_mut with drops and clones elsewhere.", "anchors": ["src/radix_tree/arc_radix_tree.rs: ArcRadixTree, children_mut, wrap_in_arc, Clone, From"]}
{"id": "C98", "title": "Calls on shared trees are wait-free", "statement": "A call on an ArcRadixTree (reading, cloning, changing, dropping) returns after a bounded number of atomic accesses of its own thread, whatever the other threads do meanwhile; the bound depends only on the trees the calling thread owns, the depth of the node that is accessed and the argument.", "quantifier": "all threads, all schedules, all calls, all trees", "why_tests_cant": "Starvation shows only under adversarial schedules of unbounded length.", "anchors": ["src/radix_tree/arc_radix_tree.rs: children, children_mut, prefix_mut, value_mut"]}
{"id": "C99", "title": "No leaks after concurrent use", "statement": "Whenever all threads are between calls, the reference counts are exact and every live vector is reachable from a tree that somebody holds; when the threads have dropped all their trees exactly the vectors of the shared trees are left.", "quantifier": "all threads, all schedules, all programs, also ones whose calls panicked", "why_tests_cant": "Whether the last owner frees a vector depends on the interleaving of the decrements.", "anchors": ["src/radix_tree/arc_radix_tree.rs: ArcRadixTree (derived Clone and Drop), children_mut"]}
{"id": "C100", "title": "Collecting into inline storage", "statement": "Collecting into a VecSet leaves the elements in the inline array exactly if they fit there. Nothing at all is allocated on the way if the size hint (capped at 16) fits and either all items fit, or the items come in order and the distinct ones fit, or the array has room for 16 and for twice the distinct items plus one. The plain claim 'a set that fits in the array is collected without allocating' is false: unsorted duplicates are buffered, and a large size hint allocates at once. A collected VecMap follows the same rules but is not shrunk, so a small map may stay on the heap.", "quantifier": "all inline sizes, growth policies of the vector, size hints (honest or not), sequences of items, total orders", "why_tests_cant": "The peak length of the collecting buffer depends on the whole sequence of duplicates and on the place of each compaction; tests inspect a few sequences.", "anchors": ["src/vec_set.rs: VecSet, FromIterator, shrink_to_fit", "src/vec_map.rs: FromIterator", "src/dedup.rs: sort_dedup_by, SortAndDedup::push"]}
{"id": "C101", "title": "When the set operations allocate", "statement": "The operators on references allocate exactly if their result does not fit in the inline array. The operators &= and -= (by value and by reference), intersection_with and difference_with never need more room than the set already has; |= and ^= ask for exactly as many new places as there are elements of the argument not in the set. insert allocates only for a new element when the vector is full; remove and retain never change the storage; shrink_to_fit brings the elements back into the array exactly if they fit; From<Vec> allocates nothing and keeps the vector's block, From<BTreeSet>, single and empty allocate only what cannot be inline.", "quantifier": "all sets, inline sizes, growth policies, total orders, merge strategies", "why_tests_cant": "The number of reallocations depends on the sizes of the runs the merge copies, for every pair of sets and every strategy choice.", "anchors": ["src/vec_set.rs: BitAnd, BitOr, BitXor, Sub, BitAndAssign, BitOrAssign, BitXorAssign, SubAssign, intersection_with, difference_with, insert, remove, retain, shrink_to_fit, From<Vec>, From<BTreeSet>", "src/merge_state.rs: SmallVecMergeState, InPlaceMergeState", "src/vec_map.rs: insert"]}
{"id": "C102", "title": "Memory used by deserializing", "statement": "The memory deserializing a VecSet or VecMap asks for is NOT bounded by the input that is really there: the length the input claims to have is allocated up front. What holds: the resulting elements do not depend on the claim; with an exact claim exactly the input's length (or nothing, if it fits inline) is allocated.", "quantifier": "all claimed lengths, all inputs, all inline sizes and growth policies", "why_tests_cant": "An adversarial input chooses the claimed length freely; tests use honest ones.", "anchors": ["src/vec_set.rs: Deserialize, visit_seq", "src/vec_map.rs: Deserialize, visit_map"]}
{"id": "C103", "title": "What the operators clone", "statement": "&a | &b, &a & &b, &a ^ &b and &a - &b clone exactly the elements of their result, each once, in ascending order; a |= &b and a ^= &b clone exactly the elements of the result that a does not have, a &= &b and a -= &b clone nothing. The pure joins of VecMap clone the key of each entry they make, once, after the closure returned its value; outer_join_with and right_join_with clone only keys the map does not have.", "quantifier": "all sets and maps, total orders, merge strategies, closures and Clone implementations with arbitrary effects and panics", "why_tests_cant": "The calls of Clone depend on how the merge splits the operands; tests count clones on a few pairs.", "anchors": ["src/vec_set.rs: AbstractVecSet::union, intersection, symmetric_difference, difference, BitOrAssign<&VecSet>, BitXorAssign<&VecSet>, BitAndAssign<&VecSet>, SubAssign<&VecSet>", "src/vec_map.rs: outer_join, left_join, right_join, inner_join, outer_join_with, right_join_with", "src/merge_state.rs: CloneConverter, SmallVecMergeState, InPlaceSmallVecMergeStateRef"]}
{"id": "C104", "title": "A panicking Clone leaves a valid collection", "statement": "If Clone panics at any call during a |= &b or a ^= &b, the set a left behind is strictly ordered and holds the beginning of the result; the operators on references change nothing. outer_join_with and right_join_with leave a strictly ordered map whose values were all returned by the closure for their key, if the closure or the Clone of a key panics. A call unwinds only because user code panicked.", "quantifier": "all sets and maps, total orders, merge strategies, all closures, all Clone implementations whose clones equal their originals, panicking at any call", "why_tests_cant": "The panic can come at any call of Clone in any state of the half finished merge.", "anchors": ["src/vec_set.rs: BitOrAssign<&VecSet>, BitXorAssign<&VecSet>", "src/vec_map.rs: outer_join_with, right_join_with", "src/merge_state.rs: InPlaceSmallVecMergeStateRef::advance_b"]}
{"id": "C105", "title": "How TotalVecMap calls its closures", "statement": "map_values calls its function first on the default and then once on each non-default value in key order; combine_ref calls it first on the two defaults and then once for each key that is mapped in either map, in key order, with the values the two total maps have at that key. The results are stored under their keys unless they equal the new default. A panic of the function ends the call at that point; without one both return a valid map.", "quantifier": "all total maps, total orders, value equalities, merge strategies and functions with arbitrary effects and panics", "why_tests_cant": "The number, order and arguments of the calls depend on how the outer join splits the maps; a test sees a few maps and usually a pure function.", "anchors": ["src/total_vec_map.rs: TotalVecMap::combine_ref, map_values"]}
{"id": "C106", "title": "Cost of radix tree lookups", "statement": "get, contains_key, filter_prefix and scan_prefix make at most |key| + min(|key|, height) * (log2(fan-out) + 1) comparisons of key components, where height is the longest path of the tree and fan-out the largest number of children of a node. With n different components (256 for bytes) this is at most log2(n) + 2 per component of the key, however many keys the tree holds.", "quantifier": "all trees (well formed or not), keys and orders of components", "why_tests_cant": "A bound on the number of comparisons for every tree and key; a test measures a few.", "anchors": ["src/radix_tree/mod.rs: find, common_prefix, AbstractRadixTree::get, contains_key, scan_prefix, AbstractRadixTreeMut::filter_prefix"]}
{"id": "C107", "title": "Filtering by prefix is logarithmic in the number of keys", "statement": "filter_prefix (documented as O(log n)) and get make at most a * log2(n) + b comparisons of key components for some constants a and b, n being the number of keys in the tree.", "quantifier": "all canonical trees and keys", "why_tests_cant": "An asymptotic statement over all trees.", "anchors": ["src/radix_tree/mod.rs: module documentation, find, AbstractRadixTreeMut::filter_prefix"]}
{"id": "C108", "title": "BTreeMap joins with effectful or panicking closures", "statement": "Each join of BTreeMaps calls its closure once per key it concerns, in a fixed order (outer_join: the keys of self, then those only in the other map; outer_join_with: the keys of the other map, then those only in self; all others in key order), and does nothing else to any key. If a closure panics, a pure join leaves nothing; an in-place join leaves a valid map in which every key whose call returned is as decided, the key of the panicking call has the value the closure left there, and every other key is untouched.", "quantifier": "all valid BTreeMaps, total orders, closures with arbitrary effects, panicking at any call", "why_tests_cant": "Order, number and arguments of the calls and the map left by a panic at any of them, for all maps and closures.", "anchors": ["src/btree_map.rs: AbstractBTreeMap::outer_join, left_join, right_join, inner_join; InPlaceRelationalOps::inner_join_with, left_join_with, right_join_with, outer_join_with"]}
{"id": "C109", "title": "Radix tree outer/inner/left_combine with effectful or panicking closures", "statement": "outer_combine, inner_combine and left_combine of radix trees call their closure once per key concerned, in key order, each call in the state the previous one left, and return a new tree whose entries are exactly the answers together with the entries that are kept; if the closure panics, the call panics at once, with no further calls. For outer_combine and inner_combine the keys concerned are those in both trees. For left_combine they are the keys of the left tree that are keys of the right one or at which two keys of the right one part (there the closure gets None), or the empty key if the right tree is empty; all other entries of the left tree are kept without a call.", "quantifier": "all well-formed radix trees, total orders on key components, search strategies, closures with arbitrary effects, panicking at any call", "why_tests_cant": "Order, number and arguments of the calls and the resulting tree, for all trees and closures and panics at any call.", "anchors": ["src/radix_tree/mod.rs: AbstractRadixTree::outer_combine, inner_combine, left_combine; outer_combine, inner_combine, left_combine (free functions)"]}
{"id": "C110", "title": "A comparison with side effects but lawful answers changes no result", "statement": "If the Ord implementation of the elements or keys has side effects (it counts, caches, logs, mutates interior state) but always answers as one fixed total order does, then every VecSet operator, predicate and single-element operation, collect and extend, and every VecMap lookup, insert, collect, extend, join and combine_with returns the result that the order prescribes; nothing panics that would not have panicked.", "quantifier": "all comparisons with arbitrary state whose answers follow a fixed order, all operands, merge strategies, closures with effects or panics, initial states", "why_tests_cant": "The effects of the comparison and the sequence in which it is called are arbitrary.", "anchors": ["src/vec_set.rs: AbstractVecSet, VecSet", "src/vec_map.rs: AbstractVecMap, VecMap", "src/dedup.rs: sort_dedup_by", "src/merge_state.rs"]}
{"id": "C111", "title": "VecMap lookups, insert, extend and new-map joins under a broken or panicking Ord", "statement": "With a key comparison that may answer anything each time and may panic: get returns a value of the map or nothing; get_mut touches the value of at most one entry and no key; insert adds the entry or replaces exactly one and returns the replaced value; the joins that produce a new map terminate and use each key at most as often as it occurs in the operands; extend keeps only keys of the map and the items, each at most as often as it occurs. They unwind only if the comparison (or the closure) does, and a panic in get, get_mut or insert leaves the map unchanged. If a lawful comparison panics at any call during extend, the map is untouched, or holds a prefix of the extended map; it is always valid.", "quantifier": "all comparisons (stateful, unlawful, panicking), closures with effects, maps that need not be sorted, search strategies, sorts that permute", "why_tests_cant": "Arbitrary comparisons, arbitrary histories of answers and panics at any call.", "anchors": ["src/vec_map.rs: AbstractVecMap::get, outer_join, left_join, right_join, inner_join; VecMap::get_mut, insert, merge_with; Extend, FromIterator"]}
{"id": "C112", "title": "Collecting and extending consume the caller's iterator exactly and are safe when it panics", "statement": "collect into a VecSet, VecMap or RadixTree and extend of a VecSet or VecMap call next exactly until it first returns None or panics, whatever size_hint says. If it ends, the result is that of collecting or extending by the items it gave: first occurrences (VecSet), last values (VecMap, RadixTree). If next or size_hint panics, extend leaves the collection as it was, and every item given so far is dropped exactly once. With an arbitrary, even panicking comparison no item is lost or duplicated.", "quantifier": "all iterators with state, side effects and panics (finite for the exactness part), all size hints, all lawful stateful comparisons (all comparisons whatsoever for conservation), all collections and merge strategies", "why_tests_cant": "The iterator is arbitrary user code: any state, any length, a panic at any call.", "anchors": ["src/dedup.rs: sort_dedup_by, SortAndDedup", "src/vec_set.rs: FromIterator, Extend for VecSet", "src/vec_map.rs: FromIterator, Extend for VecMap", "src/radix_tree/flat_radix_tree.rs: FromIterator for RadixTree"]}
{"id": "C113", "title": "into_iter of radix trees: same items as iter, and what it yields is safe to use", "statement": "into_iter yields what iter yields, in the same order, and then None for ever. Iterators can be moved and used in any interleaving, and every value reference they have yielded reads as the value of its key. Because the references have the type &'static V, safe code may use them at any later time, also after the iterator is gone.", "quantifier": "all trees, all programs that create, advance, move and drop any number of such iterators and read any yielded reference at any time", "why_tests_cant": "All interleavings of uses of iterators and of references that outlive them; a dangling read may go unnoticed in a test.", "anchors": ["src/radix_tree/mod.rs: AbstractRadixTree::into_iter, ObjAndIter::new, ObjAndIter::next, Iter::next"]}
{"id": "C114", "title": "Combining two radix trees compares key components linearly often, insert per component of the key", "statement": "union_with, intersection_with, difference_with, outer/inner/left_combine(_with), remove_prefix_with, retain_prefix_with, intersects and is_subset compare two key components at most as often as both trees have components in their keys, plus 14 per key, plus 2: never quadratically, for every merge strategy and whatever the callbacks answer. insert compares at most (6 F + 1)(L + 1) + 2 L times for a key of length L, F the largest number of children of a node (at most the number of different components), and (log2 F + 1)(L + 1) + 2 L times where the merge searches; the number of keys in the tree does not matter.", "quantifier": "all canonical trees (insert: all well-ordered trees), all callbacks, all merge strategies, all comparison functions (the predicates: all lawful orders)", "why_tests_cant": "A test measures a few trees; the bound is for every shape, depth and overlap of the two.", "anchors": ["src/radix_tree/mod.rs: outer_combine_with, inner_combine_with, left_combine_with, remove_prefix_with, retain_prefix_with, outer_combine, inner_combine, left_combine, intersects0, is_subset0, insert, common_prefix"]}
{"id": "C115", "title": "How often combining two radix trees clones values", "statement": "The in-place combinations clone no value of the tree they change, and a value of the other tree at most once per component of its key and twice more; the combinations that build a new tree clone a value of either tree at most so often; intersects and is_subset clone nothing. A bound of a constant number of clones per entry does not hold: a deep tree combined with one whose keys share a long beginning clones all of the second tree at every level, even for an intersection, which keeps nothing of it.", "quantifier": "all well-ordered trees, all callbacks, all merge strategies", "why_tests_cant": "Clones are not visible in the result; a test with small or shallow trees sees about one per entry.", "anchors": ["src/radix_tree/mod.rs: materialize_shortened, materialize, outer_combine_with, inner_combine_with, left_combine_with, remove_prefix_with, retain_prefix_with, outer_combine, inner_combine, left_combine"]}
{"id": "C116", "title": "Radix tree operations under arbitrary user code", "statement": "Whatever ==, cmp and < of the key components, Clone of the values and the closures do (answer inconsistently, differently each time, change outside state, panic), every radix tree operation ends; it neither invents nor duplicates values: a tree changed in place, also after a caught panic, holds only values it held before or that user code made, each no more often than that, and a tree that is built only what user code made. On trees whose nodes below the root have non-empty prefixes, a panic is always a panic of user code; this shape is kept, also through caught panics, as long as == never denies what cmp called Equal. If it does, insert alone can produce a tree on which a later insert panics.", "quantifier": "all trees (also not well-formed ones), all user code with arbitrary state and panics, all merge strategies", "why_tests_cant": "User code is an arbitrary stateful program; tests use derived implementations of Ord, Eq and Clone.", "anchors": ["src/radix_tree/mod.rs: common_prefix, find, get, contains_key, scan_prefix, filter_prefix, insert, outer_combine_with, inner_combine_with, left_combine_with, remove_prefix_with, retain_prefix_with, outer_combine, inner_combine, left_combine, intersects0, is_subset0, materialize_shortened"]}
{"id": "C117", "title": "Lazily loaded trees can be read by several threads at once", "statement": "Any number of threads that walk through the same LazyRadixTrees by prefix(), value() and children(), decide what to do next by what they saw, and clone nodes, all get exactly the answers they would get alone on plain trees, however their accesses to mutexes and data interleave and however much was loaded before; get is such a walk. If V::clone panics while children are loaded only the call that was loading fails, and the mutex is free again. No node loads its children twice, the data of a node is never written while another thread accesses it, the read after the mutex was released always finds the children, there is no deadlock, and every execution ends with all threads answered. LazyRadixTrees made lazily or eagerly hold their tree.", "quantifier": "all trees, all degrees of loading and sharing, all programs, all schedules, all panics of V::clone", "why_tests_cant": "The interleavings of lock, load, write, unlock and the read outside the mutex, over a tree whose nodes come into being during the run, are unbounded.", "anchors": ["src/radix_tree/lazy_radix_tree.rs: LazyRadixTree, Lazy, get_or_create, materialize_shallow, Clone for Lazy, From<&ArchivedLazyRadixTree>, From<RadixTree>, children"]}
{"id": "C118", "title": "Every law of set algebra holds of the operators", "statement": "Take any two expressions built from variables, the empty set (all/none for TotalVecSet) and the operators |, &, ^, - and !, each used in any of its forms (on references, assigning a moved operand, assigning a borrowed operand). If they agree as boolean functions then, on every choice of sets, both evaluate without panicking and the results are ==; an implication between them makes is_subset true, incompatibility makes is_disjoint true, a tautology is_all, a contradiction is_empty. Conversely no other law holds. For TotalVecSet this is so for every element type, also finite ones, although == compares representations. For radix trees the same holds of union, intersection and difference (pure and in place) with the laws of left-biased maps.", "quantifier": "all pairs of expressions of any depth, all values of the variables, all element / key / value types with a lawful order, all search strategies of the merge", "why_tests_cant": "There are infinitely many laws and each ranges over all sets; tests check a handful of laws on sampled sets.", "anchors": ["src/vec_set.rs: BitOr, BitAnd, BitXor, Sub, *Assign, is_subset, is_disjoint", "src/total_vec_set.rs: operators, Not, is_all, is_empty", "src/radix_tree/mod.rs: union, intersection, difference, *_with"]}
{"id": "C119", "title": "A radix tree is determined by its entries", "statement": "Collecting the items of iter() in any order, also after other values for the same keys, gives a tree == to the original; two trees are == exactly when they iterate over the same sequence of items.", "quantifier": "all trees obtainable through the API, all orders of the items, all earlier entries for the same keys", "why_tests_cant": "The order of insertion decides which nodes are split and merged; every order of every set of keys must end in the same tree.", "anchors": ["src/radix_tree/mod.rs: iter, insert", "src/radix_tree/flat_radix_tree.rs: FromIterator, PartialEq"]}
{"id": "C120", "title": "In-place radix tree operations with a lawful order and arbitrary clones, closures, effects and panics", "statement": "Suppose ==, cmp and < of the key components, whenever they return, answer like one total order (they may have side effects, and panic at any call), while Clone of the values and the closures may do anything. If outer/inner/left_combine_with, insert, remove_prefix_with or retain_prefix_with returns, the tree is well ordered, canonical if the inputs were, and each key has what the operation promises: outer: self's value where that has none, a clone (at least one Clone call away) of that's value where self has none, and where both have one, what one call of the closure on self's value and a copy of that's value left, or nothing if it said false; inner, left, insert accordingly; remove_prefix_with keeps an entry of self only if the closure said false of every value of that at a prefix of its key, and drops it only if it said true of one of them; retain_prefix_with the other way round. If user code panics (for outer_combine_with and insert: user code other than <), the tree left behind is well ordered and every entry in it is self's, or a clone of that's, or what a call of the closure left. A panic in < inside outer_combine_with or insert can leave a tree in which an entry of self is present but get no longer finds it.", "quantifier": "all trees and keys, all effects and panics of the comparisons, all clones and closures, all search strategies", "why_tests_cant": "Which user code runs when, in which order and how often depends on the shape of both trees; the claim is about every panic point and every behaviour of the user code.", "anchors": ["src/radix_tree/mod.rs: outer_combine_with, inner_combine_with, left_combine_with, insert, remove_prefix_with, retain_prefix_with, materialize_shortened, unsplit", "src/merge_state.rs: InPlaceVecMergeStateRef"]}
{"id": "C121", "title": "Radix tree operations that borrow their operands: lawful order, arbitrary clones, closures, effects and panics", "statement": "Suppose ==, cmp and < of the key components, whenever they return, answer like one total order (they may have side effects, and panic at any call), while Clone of the values and the closures may do anything. If outer_combine, inner_combine, left_combine or filter_prefix returns, the new tree is well ordered, canonical if the trees it copies from are (the right tree of inner_combine and left_combine may have any shape), and each key has what the operation promises: outer_combine a clone (at least one Clone call away) of the only value, or, where both trees have one, what one call of the closure on copies of the two values returned; inner_combine that result where both have a value and nothing elsewhere; left_combine that result where both have a value, and where only the left one has a value either a clone of it or what the closure returned for it; filter_prefix a clone of each value under the prefix. If get, contains_key, scan_prefix, intersects or is_subset returns, the answer is the one for the two finite maps (is_subset's 'no' for a canonical left tree), whatever effects the comparisons had.", "quantifier": "all trees and keys, all effects and panics of the comparisons, all clones and closures, all search strategies", "why_tests_cant": "Which user code runs when and on which copies depends on the shapes of both trees; the claim is about every behaviour of user code that can be stateful and can panic at any call.", "anchors": ["src/radix_tree/mod.rs: outer_combine, inner_combine, left_combine, filter_prefix, get, contains_key, scan_prefix, intersects, is_subset, find, common_prefix", "src/merge_state.rs: VecMergeState, BoolOpMergeState"]}
{"id": "C122", "title": "Radix tree set operations: lawful order, arbitrary Clone, effects and panics", "statement": "Under the hypotheses of C121: union, when it returns, has for every key a clone of the left value, or of the right one where the left tree has none; intersection and difference have a clone of the left value exactly where the right tree has a value, and exactly where it has none. union_with, intersection_with and difference_with leave the values of self that they keep untouched (the same values, not clones), and union_with adds clones of the others. If user code panics inside one of the three, what is left in self are values of self under their own keys, plus, for union_with, clones of values that only the other tree has (for union_with: unless < panicked, see C120). is_disjoint and is_superset, when they return, answer for the two finite maps (is_superset's 'no' for a canonical right tree).", "quantifier": "all trees, all effects and panics of the comparisons, all behaviours of Clone, all search strategies", "why_tests_cant": "The values are cloned as often as the shapes of the trees ask for, and the claim is about every behaviour of Clone and every panic point.", "anchors": ["src/radix_tree/mod.rs: union, union_with, intersection, intersection_with, difference, difference_with, is_disjoint, is_superset"]}
{"id": "C123", "title": "VecSet operators and VecMap joins when cmp, Clone and the closures do anything, including panic", "statement": "Let cmp, Clone and the closures be arbitrary code sharing state: lawless, different at each call, panicking at any call; and let the operands be arbitrary, not even sorted. Every call of |, &, ^, - on two borrowed sets, |=, &=, ^=, -= with a borrowed or a moved set, outer/left/right/inner_join, the four *_join_with and combine_with then terminates, by returning or by a panic of user code, without panicking itself. Each element (entry) of either operand is dealt with at most once, in order from the front (if the call returns: exactly once), alone or paired with an element of the other operand, and paired only if one cmp call said Equal. What it gives is what the operation promises: dropped; one clone of it for borrowed elements; the element itself, moved, for those of self in the assigning forms and of a moved operand (then nothing is cloned); for joins the result of one closure call on exactly these values under one clone of the key (or self's own key in place), and no entry where the closure said None. The result lists these in the order in which they were dealt with, and after a panic self holds exactly what the dealt-with part gave.", "quantifier": "all operands, sorted or not, all user comparisons, clones and closures with shared state and panics, all search strategies", "why_tests_cant": "The claim is about every behaviour of three kinds of user code at once and every point at which one of them can panic.", "anchors": ["src/vec_set.rs: BitAnd, BitOr, BitXor, Sub, BitAndAssign, BitOrAssign, BitXorAssign, SubAssign", "src/vec_map.rs: outer_join, left_join, right_join, inner_join, outer_join_with, left_join_with, right_join_with, inner_join_with, combine_with", "src/merge_state.rs: SmallVecMergeState, InPlaceSmallVecMergeState, InPlaceSmallVecMergeStateRef", "binary-merge merge"]}
{"id": "C124", "title": "VecSet operators and VecMap joins: lawful order, arbitrary Clone and closures, effects and panics", "statement": "If, besides, cmp answers like one total order whenever it returns, the operands are ascending and a clone of an element or key, when Clone returns, is equal to the original: when a call of C123 returns, its result is ascending and has for every key exactly what the operation promises for what the two operands have under that key (clone, moved original, closure result under a clone of the key, or nothing); when it panics, there is a place in the key order such that the result so far (self, in the assigning forms) has, for every key, exactly what the operation promises for the parts of the operands before that place, and is ascending.", "quantifier": "all ascending operands, all effects and panics of cmp, all clones equal to the original with effects and panics, all closures, all search strategies", "why_tests_cant": "Which calls are made, and at which one a panic strikes, depends on the operands and on the user code; the claim covers all of them.", "anchors": ["src/vec_set.rs: BitAnd, BitOr, BitXor, Sub, BitAndAssign, BitOrAssign, BitXorAssign, SubAssign", "src/vec_map.rs: outer_join, left_join, right_join, inner_join, outer_join_with, left_join_with, right_join_with, inner_join_with, combine_with", "src/merge_state.rs: SmallVecMergeState, InPlaceSmallVecMergeState, InPlaceSmallVecMergeStateRef"]}
{"id": "C125", "title": "TotalVecSet operators with effectful, panicking comparisons and clones", "statement": "Let cmp answer like one total order whenever it returns (with any effects, and panicking at any call), let Clone give equal elements when it returns, and let both TotalVecSets be ascending, negated or not. If &, |, ^, - (on references, any of the four combinations of flags) returns, x is in the result exactly if it is in both / at least one / exactly one / the first only, for every x of the type; the result is ascending and each of its elements is one clone of an element of an operand. !&a returns the complement with one clone per element, in order. The assigning forms compute the same sets, moving elements and never cloning. No call diverges, and every panic is the panic of a user call that was its last. When an assigning operator panics, self is still ascending, has only elements of the two operands, and keeps its old flag; but it may then represent a set unrelated to both the old and the new one: an x in neither operand can be in it.", "quantifier": "all pairs of ascending sets and flags, all x, all effects and panics of cmp and Clone, all search strategies", "why_tests_cant": "Pointwise equality quantifies over every x of the type and every operand, and the panic clauses over every point at which user code can panic.", "anchors": ["src/total_vec_set.rs: BitAnd, BitAndAssign, BitOr, BitOrAssign, BitXor, BitXorAssign, Sub, SubAssign, Not", "src/vec_set.rs: BitAnd, BitOr, BitXor, Sub and their assigning forms", "src/merge_state.rs: InPlaceMergeState, SmallVecMergeState"]}
{"id": "C126", "title": "TotalVecMap with all user code open: combine_ref, arithmetic, supremum/infimum, map_values, new", "statement": "Whatever key comparison, key clone, value != and the closure do (sharing state, lawless, panicking): combine_ref, +, -, *, /, supremum, infimum, map_values, neg and new end, by returning or by a panic of one of these. The new default is the closure's answer on the two defaults; each stored entry comes from one closure call on the two values (a default standing in for a missing one) followed by one != against the new default that said true, under one clone of the key; entries for which != said false are left out. If the key comparison answers like an order and key clones are equal to the originals this holds for each key. If moreover the closure acts like a function g (up to ==) and != is the opposite of an equivalence ==, then for every key k the result maps k to a value == g(a[k], b[k]) (for supremum and infimum the larger, the smaller), stores no value == the default, and has ascending keys; likewise map_values gives g(m[k]) and new gives m[k] or the default.", "quantifier": "all TotalVecMaps with ascending keys, all keys, all closures, comparisons, clones and value equalities with effects and panics, all search strategies", "why_tests_cant": "The claims hold for every key, every closure and every panic point; for lawless user code there is not even an oracle to test against.", "anchors": ["src/total_vec_map.rs: new, combine_ref, Add, Sub, Mul, Div, Neg, supremum, infimum, map_values", "src/vec_map.rs: outer_join, retain"]}
{"id": "C127", "title": "Lookups, single-element changes, relations and collecting with effectful, panicking comparisons", "statement": "Let cmp answer like one total order whenever it returns, with any effects and panicking at any call. Then on ascending collections contains, is_disjoint, is_subset, is_superset, get, Index and TotalVecSet::contains give the answer they give for a plain order, or panic with the panic of the last cmp call. insert, remove and get_mut return with the change a plain order would give (and the right flag or old value), or panic likewise, and then the collection is exactly what it was before. TotalVecSet::insert and remove change membership of the argument only (remove may also panic in Clone, again changing nothing). A true answer of TotalVecSet::is_subset and is_disjoint is right; if no list exhausts the type so is a false one. Collecting returns the ascending first occurrences (VecSet) or last items per key (VecMap) and consumes all items; extend returns what was there plus those (VecMap: the last item of a key wins), and after a panic self is still ascending with only its own elements and first occurrences of items. None of these diverges.", "quantifier": "all ascending collections, arguments and item lists, all effects and panics of cmp and Clone, all search strategies, all standard-library sorts that sort stably whenever they return", "why_tests_cant": "A panic can come at any of the comparison calls and the answer must be right for every argument; tests try a few of either.", "anchors": ["src/vec_set.rs: contains, is_subset, is_superset, is_disjoint, insert, remove, FromIterator, Extend", "src/vec_map.rs: get, get_mut, insert, FromIterator, Extend, merge_with", "src/total_vec_set.rs: contains, insert, remove, is_subset, is_disjoint", "src/total_vec_map.rs: Index", "src/dedup.rs: sort_and_dedup_by"]}
{"id": "C128", "title": "Serializing and deserializing when the format, cmp, == and Clone do anything", "statement": "Serializing a VecSet or VecMap makes exactly the calls begin(Some(len)), one per item in ascending order, end; it stops at the first that fails or panics and gives back that error, panic or final value. Deserializing asks size_hint once (its answer changes no result), then takes items until the deserializer first says it is finished, fails or panics: an error or panic is passed on at once, with no further call; otherwise, whatever cmp, == and Clone do, the result contains only items that were handed out, or one of these panicked. It fails to return only if the deserializer never stops. If cmp answers like an order (the sort sorts stably whenever it returns), == agrees and clones are equal, a returned set is ascending and has exactly the first occurrences, a returned map has ascending keys and the first entry of each key. So a set that is handed out item for item, in any order and under any effects, comes back as it was.", "quantifier": "all collections, serializers and deserializers (effects, errors, panics, lying size hints), all comparisons, equalities and clones", "why_tests_cant": "Errors can come at any call and a round trip must hold for every set and delivery order; tests use one well-behaved format.", "anchors": ["src/vec_set.rs: Serialize, Deserialize, VecSetVisitor::visit_seq", "src/vec_map.rs: Serialize, Deserialize, VecMapVisitor::visit_map"]}
{"id": "C129", "title": "LazyRadixTrees can be sent to and used by several threads at once", "statement": "LazyRadixTree is Send, so threads may own clones of one tree that share their vectors of children and load, read, clone, change and drop them at the same time. However their accesses to the reference counts, the vectors and the mutexes of the lazy children inside them are interleaved, no data race, use after free or double free happens and get_or_create never finds children missing that it has just loaded; all answers the threads get, and all trees they hold between calls, are those of an execution in which the calls are indivisible, happen in the order in which they returned, and every tree is a plain value that shares nothing and has nothing to load. A call takes a bounded number of accesses of its own thread, a critical section counting as one. Whenever all threads are between calls the reference counts are exact and every live vector is reachable from a tree that somebody holds; when all trees are dropped nothing is left allocated.", "quantifier": "all numbers of threads, all programs of the threads (the next call may depend on all answers so far), all schedules, all trees and degrees of loading, all ways of handing trees from thread to thread", "why_tests_cant": "unsafe impl Send promises that no interleaving of loading, copying on write, cloning and dropping goes wrong; schedules are unboundedly many.", "anchors": ["src/radix_tree/lazy_radix_tree.rs: unsafe impl Send for Lazy, Lazy, get_or_create, get_or_create_mut, Clone for Lazy, LazyRadixTree, children, children_arc, children_mut, prefix_mut, value_mut, Default, From<RadixTree>, From<&ArchivedLazyRadixTree>"]}
{"id": "C130", "title": "Debug output is exact and unambiguous", "statement": "Formatting with {:?} writes {a, b, c} for a VecSet, the same after a ! for a TotalVecSet that holds the complement, {(k, v), (k, v)} for a VecMap, TotalVecMap { values: {(k, v)}, default: d } for a TotalVecMap and the nested struct with its prefix, value and children for a RadixTree; {:#?} writes one indented item per line with a trailing comma. The text arrives at the writer in order and once; as soon as the writer refuses (or panics) nothing more is written and the error reaches the caller. If the Debug of an element fails or panics, exactly what precedes it has been written, nothing after it. If the texts of the elements can be told apart from what follows them (as numbers can), two sets, complements, maps or trees are printed alike exactly when they are equal.", "quantifier": "all contents, all element Debug implementations, all writers and the points at which they fail, both modes", "why_tests_cant": "a test compares a few printed values; that no two different values ever print alike, and that every possible failure of the writer is reported after an exact prefix, quantifies over all contents and writers.", "anchors": ["src/vec_set.rs: Debug for VecSet", "src/vec_map.rs: Debug for VecMap", "src/total_vec_set.rs: Debug for TotalVecSet", "src/total_vec_map.rs: Debug for TotalVecMap", "src/radix_tree/flat_radix_tree.rs: RadixTree derive(Debug), Debug for ArchivedRadixTree", "src/radix_tree/mod.rs: Fragment, IterKey derive(Debug)"]}
{"id": "C131", "title": "A panicking Clone is contained when shared trees are copied, loaded or converted", "statement": "If Clone of a value panics while an ArcRadixTree or LazyRadixTree is cloned, copied on write (prefix_mut, value_mut, children_mut below a shared node), lazily loaded or converted from an archive, and the caller catches the panic, then every tree still describes exactly what it described before the step, except that a tree moved into the failing step is dropped; no other tree that shares nodes with it sees a half-made copy, nothing freed is touched, reference counts stay exact, nothing leaks, the shared empty vector stays empty, and the same step can be tried again. Every panic reaches the caller: a step panics exactly if one of its calls of Clone does, and that call is its last. If no call panics every step returns and behaves as in C60.", "quantifier": "all programs of operations on any number of trees that catch panics and branch on them, all choices of the calls of Clone that panic (which may depend on everything before), ArcRadixTree and LazyRadixTree", "why_tests_cant": "a test makes one chosen call of Clone panic in one chosen shape of sharing; the claim is about every call in every program and about everything that happens after the panic is caught.", "anchors": ["src/radix_tree/arc_radix_tree.rs: derive(Clone), children_mut, From<&ArchivedArcRadixTree>", "src/radix_tree/lazy_radix_tree.rs: derive(Clone), children_mut, materialize_shallow, Lazy::get_or_create, Lazy::get_or_create_mut, a_to_b, From<&ArchivedLazyRadixTree>"]}
{"id": "C132", "title": "Radix trees use keys only through their order and never look at values", "statement": "If key components are renamed so that the order between any two is kept, and values are renamed in any way (closures correspondingly), then every operation of the radix trees on the renamed trees and keys returns the renamed result, gives the same answer to every question, and panics exactly when the original does.", "quantifier": "all trees (well formed or not), key types, value types, order-preserving renamings of components (which may identify Equal components), renamings of values, closures that correspond, search strategies; all operations of AbstractRadixTree and AbstractRadixTreeMut", "why_tests_cant": "it is a parametricity statement over all key and value types; a test runs with a few concrete types.", "anchors": ["src/radix_tree/mod.rs: AbstractRadixTree, AbstractRadixTreeMut and their helper functions"]}
{"id": "C133", "title": "Radix trees with key components that are Equal without being identical", "statement": "When Ord of the key component type is only a total preorder (components may compare Equal and still differ, for example letters compared without case), every operation of the radix trees keeps its meaning with keys taken up to Equal components: lookups find a key in any spelling, a key has at most one value, insert and collect replace the value of an equal key, the set operations, merges, prefix removals, filter_prefix, scans, relations and == do what they say up to Equal keys, iteration is strictly increasing, and every tree obtained through the public interface is canonical.", "quantifier": "all total preorders of key components, all trees, keys, closures, value types and search strategies", "why_tests_cant": "tests use integer components, for which Equal and identical coincide; the claim is about every component type with a coarser Ord and every input.", "anchors": ["src/radix_tree/mod.rs: AbstractRadixTree, AbstractRadixTreeMut, common_prefix, outer_combine_with, inner_combine_with, left_combine_with, find"]}
{"id": "C134", "title": "Vector sets use elements only through their comparison", "statement": "If elements are renamed so that the comparison of any two is kept, every operation of VecSet and TotalVecSet on the renamed sets returns the renamed result (in place: keeps the renamed elements and drops the renamed ones), answers every question alike, makes as many comparisons in contains, and panics exactly when the original does. The comparison need not be an order.", "quantifier": "all element types, all comparison functions (consistent or not), all renamings that keep the comparison (which may identify elements), all vectors (sorted or not), all merge strategies", "why_tests_cant": "it is a parametricity statement over all element types, comparisons and inputs; a test runs with a few concrete types.", "anchors": ["src/vec_set.rs: VecSet, AbstractVecSet", "src/total_vec_set.rs: TotalVecSet", "src/dedup.rs: sort_dedup", "src/merge_state.rs"]}
{"id": "C135", "title": "Vector maps use keys only through their comparison and never look at values", "statement": "If keys are renamed so that their comparison is kept and values in any way, with closures that correspond (they may have effects and panic), every join, in-place join, combine_with, merge_with, lookup, insert, collect, retain and comparison of VecMap returns the renamed result with the closures called on the renamed arguments in the same order, and panics exactly when the original does. TotalVecMap looks at values only through ==, Ord and the closure.", "quantifier": "all key and value types, comparison functions (consistent or not), renamings, corresponding closures with effects and panics, all vectors of entries, all merge strategies", "why_tests_cant": "it is a parametricity statement over all types, closures and inputs.", "anchors": ["src/vec_map.rs: VecMap, AbstractVecMap, OuterJoinOp, LeftJoinOp, RightJoinOp, InnerJoinOp", "src/total_vec_map.rs: TotalVecMap", "src/merge_state.rs"]}
{"id": "C136", "title": "Every identity of pointwise partial-map algebra holds of VecMap joins", "statement": "However outer, left, right and inner joins, combine_with, merge_with, retain and map_values are nested, and whether the pure or the in-place form is used, the value of the result at every key is the function of the operands' values at that key which the calls describe. Two such expressions give equal maps for all operands exactly if they agree as functions of optional values, and maps with at most one entry are enough to refute a false identity.", "quantifier": "all expressions of any depth over any number of map variables, all closures (not distinguishing equal keys), all valid maps, all key and value types, all merge strategies", "why_tests_cant": "it ranges over all expressions, all closures and all maps; a test fixes one identity and a few maps.", "anchors": ["src/vec_map.rs: outer_join, left_join, right_join, inner_join, outer_join_with, left_join_with, right_join_with, inner_join_with, combine_with, merge_with, retain, map_values, get, single, empty"]}
{"id": "C137", "title": "A panic in user code reaches the caller of a radix-tree operation, and no user code runs after it", "statement": "Whatever the comparisons of the key components, Clone of the values and the closures do: a radix-tree operation returns only if every piece of user code it called returned; if it panics, all calls of user code it made returned except the very last one, which panicked. So no panic is swallowed, no user code runs during or after the unwinding, and on trees built by the API the operation has no panics of its own: in the very run in which it panicked, user code did.", "quantifier": "all key and value types, all user code (stateful, lawless, panicking at any moment), all operands, all merge strategies, in place and building operations, set operations and queries", "why_tests_cant": "it ranges over every moment at which any user code can panic, in every operation and on every pair of trees.", "anchors": ["src/radix_tree/mod.rs: outer_combine_with, inner_combine_with, left_combine_with, remove_prefix_with, retain_prefix_with, insert, outer_combine, inner_combine, left_combine, union, intersection, difference, filter_prefix, scan_prefix, get, contains_key, intersects, is_subset", "src/merge_state.rs: InPlaceVecMergeStateRef, VecMergeState"]}
{"id": "C138", "title": "A panic in user code reaches the caller of a VecSet, VecMap, TotalVecSet or TotalVecMap operation, no user code runs after it, and the operations have no panics of their own", "statement": "Whatever Ord and Clone of the elements and keys, Clone, PartialEq and PartialOrd of the values, the arithmetic operators and the closures do, and whatever the operands (sorted or not): a set operator (by reference, assigning, moving), an operator of TotalVecSet, a join of maps (building or in place), combine_with, an operation of TotalVecMap (combine_ref, arithmetic, supremum, infimum, new, map_values) or a retain always ends; it returns only if every piece of user code it called returned, and it panics only if the last piece of user code it called panicked, all earlier ones having returned. So no panic is swallowed, no user code runs during or after the unwinding, and the operation itself never panics.", "quantifier": "all element, key and value types, all user code (stateful, lawless, panicking at any moment), all operands even unsorted ones, all merge strategies", "why_tests_cant": "it ranges over every moment at which any user code can panic, in every operation and on every pair of operands.", "anchors": ["src/vec_set.rs: union, intersection, difference, symmetric_difference, BitAndAssign, BitOrAssign, BitXorAssign, SubAssign, retain", "src/vec_map.rs: outer_join, left_join, right_join, inner_join, outer_join_with, left_join_with, right_join_with, inner_join_with, combine_with, retain", "src/total_vec_set.rs: BitAnd, BitOr, BitXor, Sub, Not and the assigning forms", "src/total_vec_map.rs: new, combine_ref, map_values, supremum, infimum, Add, Sub, Mul, Div", "src/merge_state.rs: MergeState, InPlaceMergeState, InPlaceMergeStateRef, VecMergeState, InPlaceVecMergeStateRef"]}
{"id": "C139", "title": "A panic in Ord or Clone reaches the caller of lookups, single-element changes, relations, collecting and extending, and no user code runs after it", "statement": "Whatever Ord of the elements and keys (and Clone of the elements) does, and whatever the operands (sorted or not): contains, is_subset, is_disjoint, is_superset, insert and remove of VecSet and TotalVecSet, get, get_mut and insert of VecMap, indexing of TotalVecMap, FromIterator and Extend of VecSet and VecMap always end; they return only if every piece of user code they called returned, and panic only if the last piece of user code they called panicked, all earlier ones having returned. A panic in insert, remove or get_mut leaves the collection as it was.", "quantifier": "all element, key and value types, all comparisons and clones (stateful, lawless, panicking at any moment), all operands even unsorted ones, all merge strategies, all sorts that pass panics on", "why_tests_cant": "it ranges over every moment at which any user code can panic, in every operation and on every collection.", "anchors": ["src/vec_set.rs: contains, is_disjoint, is_subset, is_superset, insert, remove, FromIterator, Extend", "src/vec_map.rs: get, get_mut, insert, FromIterator, Extend", "src/total_vec_set.rs: contains, insert, remove, is_subset, is_disjoint", "src/total_vec_map.rs: Index", "src/dedup.rs: sort_dedup_by, sort_dedup_by_key, SortAndDedup", "src/merge_state.rs: BoolOpMergeState"]}
{"id": "C140", "title": "Every identity of pointwise algebra holds of radix-tree combinations, and no other", "statement": "outer_combine, inner_combine and left_combine_with, their pure and in-place forms, left_combine with a function that keeps the values the other tree lacks, insert and filter_prefix, however they are nested, return a tree whose value at each key is the described function of the operands' values at that key. Hence two such expressions hold the same entries for all operands exactly if they agree as functions of optional values; then == answers true; and trees with at most one entry, all at one key, suffice to refute an identity.", "quantifier": "all expressions, of any depth and over any number of trees, all reachable trees, all combining functions, all prefixes, all ordered key elements and merge strategies", "why_tests_cant": "it ranges over all nestings of the operations, all functions passed to them and all trees.", "anchors": ["src/radix_tree/mod.rs: outer_combine, outer_combine_with, inner_combine, inner_combine_with, left_combine, left_combine_with, insert, filter_prefix, single"]}
{"id": "C141", "title": "A law holds of all TotalVecMaps exactly if it holds of their values, panics included", "statement": "+, -, *, /, combine_ref, supremum, infimum, unary minus, map_values and the constants, however they are nested, give a TotalVecMap whose value at every key, and whose default, is what the value operations compute from the operands' values there; such an expression panics exactly if a value operation does (overflow, division by zero) at some key or on the defaults. Hence an equation between two such expressions, with its panics, holds of all TotalVecMaps exactly if it holds of all values (maps over a commutative ring form one, maps over an order form a lattice), == then answers true, and constant maps suffice to refute a law.", "quantifier": "all expressions of any depth, all maps and defaults, all value operations that may panic and do not tell equal values apart, all key orders and merge strategies", "why_tests_cant": "it ranges over all nestings of the operations, all value types and operators, and all maps.", "anchors": ["src/total_vec_map.rs: combine_ref, supremum, infimum, map_values, constant, new, Add, Sub, Mul, Div, Neg, Index, PartialEq"]}
{"id": "C142", "title": "Algebra of the prefix filters of radix trees", "statement": "remove_prefix_with, retain_prefix_with and filter_prefix, chained in any number, return exactly the entries whose keys pass every filter; only the set of filters matters, not their order or repetitions. Removing and retaining by the same tree split a tree into two disjoint parts, whose union in either order is == to the tree and each of which is the difference of the tree and the other. Every filter distributes over union. Retaining by a one-key tree is filter_prefix; removing by two trees in turn is removing by their union.", "quantifier": "all chains of filters of any length, all reachable trees and trees to filter by, all predicates on values, all ordered key elements and merge strategies", "why_tests_cant": "it ranges over all chains of filters, all trees and all predicates.", "anchors": ["src/radix_tree/mod.rs: remove_prefix_with, retain_prefix_with, filter_prefix, union, difference, is_disjoint, single"]}
{"id": "C143", "title": "The joins of BTreeMap and of VecMap agree", "statement": "For the same entries and the same function, outer_join and left_join on BTreeMaps return exactly the entries that the joins of VecMaps return; so do right_join and inner_join (whatever the lengths of the maps) and the in-place outer, left and inner joins if keys that compare equal are identical. The in-place right joins do not agree: there are maps on which they differ whatever the closures (C43).", "quantifier": "all maps, all functions without effects or panics, all key orders, merge strategies and size hints", "why_tests_cant": "it relates two different implementations on all inputs and for all functions.", "anchors": ["src/btree_map.rs: outer_join, left_join, right_join, inner_join, inner_join_with, left_join_with, outer_join_with, right_join_with", "src/vec_map.rs: outer_join, left_join, right_join, inner_join and the in-place forms"]}
{"id": "C144", "title": "A radix tree is a sorted map from key sequences", "statement": "Listing the entries of a radix tree (iter) gives a VecMap whose keys are ordered lexicographically, and turns every operation into that map's: get into get; == into ==; insert into insert; filter_prefix into retain of the keys that start with the prefix; outer_combine, inner_combine, left_combine_with and the _with variants into outer_join, inner_join and left_join with the same function; and collecting the same items into a radix tree and into a VecMap keeps the same entries.", "quantifier": "all reachable trees, all functions without effects or panics, all items, prefixes and keys, all key orders in which only identical elements compare equal, all merge strategies", "why_tests_cant": "it relates two different data structures on all inputs and for all functions.", "anchors": ["src/radix_tree/mod.rs: get, iter, insert, filter_prefix, outer_combine, outer_combine_with, inner_combine, inner_combine_with, left_combine_with, FromIterator", "src/vec_map.rs: get, insert, retain, outer_join, inner_join, left_join, PartialEq, FromIterator"]}
{"id": "C145", "title": "A radix set is a sorted set of key sequences", "statement": "Listing the keys of radix trees turns contains_key, is_subset, is_superset, is_disjoint and intersects, also between trees with different value types, into contains, is_subset, is_superset and (not) is_disjoint of VecSets whose elements are ordered lexicographically, and union, intersection, difference and their in-place forms into the VecSet operations.", "quantifier": "all reachable trees, all value types, all keys, all key orders in which only identical elements compare equal, all merge strategies on both sides", "why_tests_cant": "it relates two different data structures on all inputs.", "anchors": ["src/radix_tree/mod.rs: contains_key, is_subset, is_superset, is_disjoint, intersects, union, union_with, intersection, intersection_with, difference, difference_with", "src/vec_set.rs: contains, is_subset, is_superset, is_disjoint, union, intersection, difference"]}
{"id": "C146", "title": "The keys of VecMaps behave as VecSets", "statement": "The keys of an outer_join whose closure keeps every entry are the union of the key sets, element for element (of equal keys, the left one); a closure that keeps only common keys, only keys of the left map, or only keys of exactly one map gives intersection, difference and symmetric difference. inner_join gives the intersection, left_join the left keys (or, by what the closure keeps, intersection or difference), right_join the right keys up to equality (or intersection, or the difference the other way round). get finds a key exactly if the set of keys contains it, insert changes the keys as VecSet's insert does, and retain by key as VecSet's retain. Collecting items into a map and collecting their keys into a set keeps equal keys, though not always identical ones: of equal keys the map keeps the last and the set the first.", "quantifier": "all maps, all closures without effects or panics, all item lists, all key orders (also with equal but distinguishable keys) and merge strategies", "why_tests_cant": "it relates two data structures on all inputs and for all closures.", "anchors": ["src/vec_map.rs: outer_join, inner_join, left_join, right_join, get, insert, retain, FromIterator", "src/vec_set.rs: BitOr, BitAnd, Sub, BitXor, contains, insert, retain, FromIterator"]}
{"id": "C147", "title": "Prefix operations of a radix tree as operations on its list of entries", "statement": "With the entries listed in lexicographic order: scan_prefix and filter_prefix give the sub-list of the entries whose key starts with the prefix; prepend puts the prefix before every key and keeps the order; remove_prefix_with drops, and retain_prefix_with keeps, exactly the entries whose key starts with some key of the other tree whose value the predicate accepts. Every tree returned is canonical.", "quantifier": "all reachable trees, value types, prefixes and predicates without effects or panics, all key orders in which only identical elements compare equal, all merge strategies", "why_tests_cant": "it gives the whole result for all trees, prefixes and predicates.", "anchors": ["src/radix_tree/mod.rs: scan_prefix, filter_prefix, prepend, remove_prefix_with, retain_prefix_with, iter"]}
{"id": "C148", "title": "Programs over radix trees do what the same programs over sorted maps do", "statement": "Run a program over any number of variables twice, once on radix trees and once on VecMaps with lexicographically ordered keys, where its commands collect, insert, combine (outer_combine, inner_combine and the in-place outer, inner and left forms with any functions), filter or prepend a prefix, remove or retain prefixes with a predicate, get, compare with ==, list the entries and scan a prefix. Neither run panics, every command shows the same result in both, and at the end every variable holds the same entries.", "quantifier": "all programs of any length, all keys, values, functions and predicates without effects or panics, all key orders in which only identical elements compare equal, all merge strategies on both sides", "why_tests_cant": "it is a refinement over all programs.", "anchors": ["src/radix_tree/mod.rs: get, iter, insert, outer_combine, outer_combine_with, inner_combine, inner_combine_with, left_combine_with, filter_prefix, prepend, remove_prefix_with, retain_prefix_with, scan_prefix, FromIterator, PartialEq", "src/vec_map.rs: get, insert, retain, outer_join, inner_join, left_join, PartialEq, FromIterator"]}
