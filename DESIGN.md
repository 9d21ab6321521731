# Formal model of vec-collections in Rocq (Coq 8.16.1)

The sources in /repo are read as text; nothing is built or run. The model is a set of total,
computable Gallina functions under `rocq/theories/`, one definition per Rust function, each
with a comment citing the file and lines it models and what it simplifies.
`Spec*.v` files contain the specifications (sorted lists, finite maps, prefix relation, ...)
that the property theorems are stated with; they do not mention the model.
`Prop*.v` files contain only the property theorems (`exact some_lemma`), their non-vacuity
examples and `Print Assumptions`.

## Layers

`*Model.v` (and Merge.v, HeapOps.v, HeapApi.v) hold the model, `Spec.v`, `*Spec.v` the separate
specification vocabulary, `*Facts/Comb/Merge/Find/...v` lemmas, `Prop*.v` the property theorems.

| layer | files | models / contains |
|---|---|---|
| specification | Spec.v, VecMapSpec.v, RadixSpec.v, HeapSpec.v, HeapApiSpec.v, LazySpec.v | strict order, membership up to Equal, map lookup, serving a closure over arguments, radix-tree mapping `lk`, histories over private copies, programs over mappings |
| std and external crates | StdModel.v, StdFacts.v, Merge.v, MergeFacts.v | `binary_search_by`, stable `sort`, `dedup`, `Vec::insert/remove/swap`; `binary_merge::MergeOperation`, `inplace_vec_builder` (external, see trusted base) |
| merge states | Merge.v | src/merge_state.rs, src/iterators.rs: all six merge states and three converters |
| dedup | DedupModel.v, DedupFacts.v | src/dedup.rs |
| sets | VecSetModel.v, VecSetFacts.v, VecSetHist.v, PropSet.v | src/vec_set.rs, vecset! |
| maps | VecMapModel.v, VecMapFacts.v, VecMapHist.v, PropMap.v | src/vec_map.rs, vecmap! |
| arbitrary comparisons | OracleModel.v, OracleFacts.v, PropOracle.v | the same operations when `Ord::cmp` has effects, breaks every law, panics |
| radix closures | RadixEffModel.v, RadixEffSpec.v, RadixEff{Facts,Merge,Comb,Prefix}.v, PropRadixEff.v | the in-place radix combinations with effectful, panicking closures |
| retain | RetainModel.v, PropRetain.v | VecSet/VecMap::retain with an effectful predicate (smallvec's loop) |
| total | TotalModel.v, PropTotal.v | src/total_vec_map.rs, src/total_vec_set.rs |
| BTreeMap extension traits | BTreeModel.v, PropBTree.v | src/btree_map.rs |
| radix trees | RadixModel.v, RadixFacts.v, RadixComb.v, RadixMerge.v, RadixFind.v, RadixPred.v, RadixCanon.v, RadixReach.v, PropRadix.v | src/radix_tree/mod.rs, flat_radix_tree.rs, on plain trees |
| sharing | HeapModel.v, HeapFacts.v, HeapRefine.v, PropShared.v | arc_radix_tree.rs / lazy_radix_tree.rs nodes: a heap of reference-counted child vectors, the trait's primitives |
| operations on shared trees | HeapOps.v, HeapFrame.v, HeapOpsFacts.v, HeapOpsRefine.v, HeapOpsPure.v, HeapApi.v, HeapApiRefine.v, PropHeapOps.v | mod.rs once more, over the heap: copy on write at `children_mut`, drops, in-place merges |
| iteration keys | KeyModel.v, PropKey.v | IterKey (mod.rs): shared key buffer with reference counts |
| laziness | LazyModel.v, LazyFacts.v, PropLazy.v | lazy_radix_tree.rs: threads interleaving over Mutex + cell |
| saving and loading | PersistModel.v, PersistSpec.v, PersistFacts.v, PersistIO.v, PersistRegs.v, PersistRefine.v, PersistShare.v, PropPersist.v | Serialize/Deserialize of shared trees, all_arcs, and the append-only database of examples/radix_db.rs, over the heap |
| archives as memory | ArchiveModel.v, ArchiveFacts.v, ArchiveTree.v, ArchiveSave.v, PropArchive.v | CheckBytes, in-place reading and serialization of archived sets, maps and radix trees over a memory of words |
| collecting, costs | CollectModel.v, CollectFacts.v, CostFacts.v, PropCost.v | src/dedup.rs, FromIterator and Extend under an arbitrary comparison; comparison counts |
| allocation bounds | HeapAlloc.v, HeapCost.v, PropAlloc.v | Arc::new / Arc::make_mut counts of the operations of HeapOps.v |
| what a change may reach | HeapClosed.v, PersistFrame.v, PersistIncr.v, PropIncr.v | proofs about the operations of HeapOps.v and radix_db.rs as modelled above |
| in-place combinations on shared nodes with effectful, panicking closures | HeapEffModel.v, HeapEffSpec.v, HeapEffSim.v, HeapEffFacts.v, HeapEffRefine.v, HeapEffWO.v, PropHeapEff.v | src/radix_tree/mod.rs:345-550, 1262-1557 over arc_radix_tree.rs / lazy_radix_tree.rs children_mut; unwinding gives every borrowed vector back with its finished part and drops the rest |
| multimaps of the examples | MultimapModel.v, PropMultimap.v | examples/multimap.rs (all but Debug and main) |
| borrowed lookups, Bounded, iterators, conversions, map_values with effects | ApiModel.v, PropApi.v | src/vec_map.rs:42-57, 179-193, 261-271, 608-615, 652-654, 758-768; src/total_vec_map.rs:134-141, 263-275; src/iterators.rs:14-24, 39-49; src/vec_set.rs:195-197, 273-275, 293-295, 352-380 |
| ArcRadixTree in several threads | ConcModel.v (programs of atomic accesses), ConcSpec.v (indivisible calls on plain trees), ConcLogic/Rules/Ops/Calls/Sim/Threads/Run.v, PropConc.v | src/radix_tree/arc_radix_tree.rs:23-29, 34-43, 46-109 and std's Arc::clone, drop, new, make_mut; sequentially consistent interleavings, unbounded counts, no Weak |
| where elements are stored | StorageModel.v, StorageFacts.v, PropStorage.v | SmallVec with capacity and allocation count (smallvec's documented policy, arbitrary growth function) under src/dedup.rs:81-200, src/vec_set.rs:263-349, 381-500, 610-623, 720-780, src/vec_map.rs:243-253, 663-675, 817-828, src/merge_state.rs:327-400 |
| Clone as user code | CloneModel.v, CloneSpec.v, CloneFacts.v, PropClone.v | the functions that clone, with a Clone that has effects and may panic: src/merge_state.rs:105-159, 309-400, src/vec_set.rs:146-192, 382-466, src/vec_map.rs:61-115, 273-604, 703-727 |
| cost of radix lookups | RadixCostModel.v, PropRadixCost.v | find and the lookups, counting comparisons of components: src/radix_tree/mod.rs:53-55, 269-285, 609-626, 682-760 |
| BTreeMap joins with effects | BTreeEffModel.v, PropBTreeEff.v | src/btree_map.rs:63-145, 172-223 with closures that have effects and may panic |
| Radix combinations into a new tree, with effects | RadixPureEffModel.v, RadixPureEffSpec.v, RadixPureEffFacts.v, PropRadixPureEff.v | src/radix_tree/mod.rs:655-679, 1031-1202, 1297-1489 with closures that have effects and may panic |
| VecMap under an arbitrary comparison; lawful comparisons with effects | OracleMapModel.v, OracleMapFacts.v, FollowFacts.v, PropOracleMap.v, PropFollow.v | src/vec_map.rs:47-115, 243-259, 663-675, 731-733, 758-768 with a stateful, possibly panicking comparison; the agreement of OracleModel.v/CollectModel.v/OracleMapModel.v with the ordinary models |
| Iterators as user code | IterModel.v, PropIter.v | src/dedup.rs:108-123, the FromIterator and Extend impls of VecSet, VecMap and RadixTree, with `next` and `size_hint` that have effects and may panic |
| into_iter | OwnIterModel.v, PropOwnIter.v | src/radix_tree/mod.rs:588-598, 885-941, 1903-1925: ownership of the boxed tree, references into it, drops |
| radix work | RadixWorkModel.v, RadixWorkFacts.v, RadixWorkComb.v, PropRadixWork.v | src/radix_tree/mod.rs: the combinations and predicates once more, counting component comparisons and cloned values |
| radix trees under arbitrary user code | RadixUserModel.v, RadixUserEngine.v, RadixUserFacts.v, RadixUserWith.v, RadixUserPure.v, RadixUserPlain.v, PropRadixUser.v | src/radix_tree/mod.rs: all operations with stateful, lawless, panicking ==, cmp, <, Clone and closures |
| lazy trees read by threads | LazyTreeModel.v, LazyTreeSpec.v, LazyTreeFacts.v, PropLazyTree.v | src/radix_tree/lazy_radix_tree.rs: Lazy of every node, get_or_create, materialize_shallow, Clone, atomic steps of any number of threads |
| the work counted is the calls made | RadixWorkTie.v, PropRadixCalls.v | simulation between RadixWorkModel.v and RadixUserModel.v run with counting user code |
| laws of the operators | PropAlgebra.v, PropRadixAlgebra.v | expressions over the operators, induction on them from the pointwise theorems; completeness by one-point valuations |
| radix trees, lawful order, arbitrary user code | RadixLaw*.v, PropRadixLaw.v | the model of RadixUserModel.v; Hoare-style rules for the merge engine (postcondition for return and for panic), invariant: which slots are finished |
| radix trees, borrowing and set operations, lawful order, arbitrary user code | RadixLawQuest.v, RadixLawPure.v, RadixLawMade.v, RadixUserSetModel.v, PropRadixMade.v | the models of RadixUserModel.v and RadixUserSetModel.v; each node, made from two, obeys one set of laws (made_laws) |
| VecSet operators and VecMap joins, all user code open at once | VecUserModel.v, VecUserSpec.v, VecUserFacts.v, VecUserLaw.v, VecUserOps.v, VecUserBlame.v, PropVecUser.v | the merge with user comparisons of RadixUserModel.v on the operations of CloneModel.v and VecMapModel.v; each operation obeys a table of fates (obeys) |
| VecSet operators with a moved right side, TotalVecSet, TotalVecMap, all user code open | TotalUserModel.v, TotalUserSpec.v, TotalUserFacts.v, PropTotalUser.v | over VecUserModel.v; retain from RetainModel.v |
| lookups, single-element changes, relations, collecting, user comparison open | LookUserModel.v, LookUserSpec.v, PropLookUser.v | over OracleModel.v, OracleMapModel.v, CollectModel.v |
| serde with arbitrary formats | SerdeModel.v, SerdeSpec.v, PropSerde.v | serializer and SeqAccess/MapAccess as user code; sort as in CollectModel.v |
| LazyRadixTree used by several threads | LconcModel.v .. LconcRun.v, PropLconc.v | as for ArcRadixTree; mutexes of the Lazy fields inside the shared vectors; a critical section is one step |
| Debug of the collections and trees | DebugModel.v, PropDebug.v | a Debug implementation is a program of writes with the answers of the writer; builders of core::fmt |
| panicking Clone on shared nodes | HeapThrowModel.v, HeapThrowSpec.v, HeapThrowFacts.v, PropHeapThrow.v | the operations of HeapModel.v with every call of V::clone explicit; a panic unwinds, the caller catches it |
| radix trees under renamings, coarser orders | RadixRename.v, RadixCoarse.v, PropRename.v | no new model: naturality of every function of RadixModel.v, transfer from components ordered by identity to total preorders |
| vector sets and maps under renamings | VecRename.v, PropVecRename.v | no new model: naturality of every function of VecSetModel.v, VecMapModel.v, TotalModel.v |
| map expressions | PropMapAlgebra.v | expressions over VecMap variables, run with the functions of VecMapModel.v |
| panics of user code | PanicRadix.v, PropPanic.v | about RadixUserModel.v: user code that records its outcomes, compared with the same user code made calm |
| panics of user code, vectors | PanicVec.v, PropPanicVec.v | about VecUserModel.v, CloneModel.v, TotalUserModel.v, RetainModel.v: as PanicRadix.v |
| panics of comparisons in lookups and collecting | PropPanicLook.v | about OracleModel.v, OracleMapModel.v, LookUserModel.v, CollectModel.v |
| identities of radix-tree combinations | PropRadixIdent.v | about RadixModel.v |
| laws of TotalVecMap arithmetic | PropTotalIdent.v | about TotalModel.v |
| algebra of prefix filters | PropRadixPrefix.v | about RadixModel.v |
| BTreeMap joins against VecMap joins | PropJoinsAgree.v | about BTreeModel.v, VecMapModel.v |
| radix tree against VecMap | PropRadixAsMap.v | about RadixModel.v, VecMapModel.v |
| radix tree against VecSet | PropRadixAsSet.v | about RadixModel.v, VecSetModel.v |
| keys of a VecMap against VecSet | PropKeys.v | about VecMapModel.v, VecSetModel.v |
| prefix operations on lists of entries | PropRadixAsMap2.v | about RadixModel.v |
| programs over radix trees and over VecMaps | PropRadixSim.v | about RadixModel.v, VecMapModel.v |

## General modelling decisions

* Element/key types are arbitrary types `T` with `cmp : T -> T -> comparison`. Laws assumed of
  `Ord`: antisymmetry in the form `cmp y x = CompOpp (cmp x y)` and transitivity of `<=`, i.e. a
  total preorder. `Equal` may be coarser than identity, so theorems can say *which* instance
  survives. `PartialEq` of elements is modelled as `cmp = Eq` (consistency of Ord and Eq).
* `Clone` returns an equal value. `SmallVec`/`Vec` are lists; capacity, spilling to the heap and
  `shrink_to_fit` only appear in StorageModel.v (C100-C102); allocation failure is not modelled. `usize` is `nat` (lengths cannot overflow in reality).
* Closures. VecMap and TotalVecMap joins (C21, C24-C32, C34, C35, C71, C72), retain (C73), map_values (C96, C105),
  the VecMap-with-BTreeMap joins (BTreeEffModel.v, C108), the in-place radix combinations (RadixEffModel.v, C74-C76)
  and the radix combinations that build a new tree (RadixPureEffModel.v, C109) take closures in full generality:
  `clos E X Y = E -> X -> E * cres Y` has an environment `E` of any type (captured state) and may panic at any
  call. Elsewhere closures are pure functions; the crate's radix closures are `Fn + Copy`.
  In-place closures `Fn(&mut V, &W) -> bool` become `V -> W -> V * bool`. Iterators that are collected or extended
  from are lists, except in IterModel.v (C112), where `next` and `size_hint` are user code.
* Dead code. `CombineOp` (src/vec_map.rs:207-230) is `#[allow(dead_code)]`, used by nothing and private: not modelled.
* Comparisons are pure total orders except in RadixUserModel.v and RadixUserSetModel.v (C116, C120-C122), VecUserModel.v (C123, C124),
  TotalUserModel.v (C125, C126), LookUserModel.v (C127) and OracleModel.v (C71, C72), where the comparison is an arbitrary function of a world. Radix key components additionally have `cmp x y = Eq -> x = y`
  (`OrdEq`; TKey is `Copy + Ord + Eq + ...` and used with bytes and chars) in C44 to C59 and wherever a key is identified with its components; C133 (PropRename.v) removes this assumption for the radix operations, with keys taken up to Equal components.
* Operations on shared trees (HeapOps.v) are written over the primitives of the trait
  (`prefix/value/children`, `children_mut`, `value_mut`, `prefix_mut`, `new`, clone, drop) so that each
  reference count change and each copy on write of the code is one in the model.
* Panics are an explicit outcome, together with the state visible after unwinding.
* Loops become structural recursion or recursion on fuel with a separate out-of-fuel outcome;
  every theorem shows fuel is never exhausted.

## Trusted base

* Coq's kernel (8.16.1) and the standard library. `Print Assumptions` is printed by the build for
  each property theorem; the result is "Closed under the global context" for every one of them, i.e.
  no axiom is used. (Importing `Lia`/ssreflect-based library files loads the seven declarations
  `Coq.ssr.ssrunder.Under_rel.*` of the standard library; no theorem depends on them.)
* The reading of /repo. The code is not run against the model.
* Code outside /repo, modelled from its documentation:
  `binary-merge 0.1.2` (`MergeOperation::merge` picks a strategy; the model takes an arbitrary
  strategy oracle `strat : nat -> nat -> bool` that chooses, at every entry, between the linear
  "tape" merge and the binary merge; the theorems hold for every oracle);
  `inplace-vec-builder 0.1.1` (a builder is a pair target/source; dropping it, also during
  unwinding, keeps the target and drops the remaining source); `smallvec`; Rust std slices
  (`binary_search_by` is the std loop; `sort` is any stable sort – shown unique); `BTreeMap`
  (as a sorted association list); `rkyv`/`bytecheck`/`serde` framing (only the checks and
  conversions written in /repo are modelled). For C83/C84 the validation of rkyv's ArchivedVec (the
  vector must lie in the unclaimed range, its elements are checked against what lies before it) is modelled
  from its documentation. For C77-C81 rkyv 0.7's shared pointers are modelled from
  knowledge of the crate: `serialize_shared`/`deserialize_shared` look an address up in the registry,
  else process the pointee and register it; pointers are relative. A file is a list of records (one
  archived vector or root), so torn writes are torn at record boundaries followed by arbitrary records;
  alignment, the i32 range of RelPtr and reading a non-root as a root are not modelled (the last is a
  load failure in the model). The model's heap never reuses an address; registered addresses are pinned,
  so reuse cannot concern them. Also assumed: `parking_lot::Mutex` as an atomic lock.
  `SmallVec::retain` is modelled from its source (swap, then truncate), which matters only for C73.
* Lazy trees: the memory model is sequentially consistent interleaving of the lock operations and
  cell accesses. The aliasing rules for `&mut` obtained through `UnsafeCell`, and the transmute of the
  static empty Arc, are undefined-behaviour questions of Rust itself and are not expressible here.
* Not modelled: memory safety of the `unsafe` blocks (beyond C113 and the indices and counts that appear in the
  model), Display of the error types, performance except C16/C19/C85/C86/C88/C89/C100-C102/C106/C107, feature gating, scratch memory
  of the standard library's sort, the allocation policy of inplace-vec-builder, rkyv byte
  layout (a word-level layout is modelled for C83/C84), examples/ (except radix_db.rs and multimap.rs) and benches/.

## Properties

For refuted properties (the code violates the statement) we prove a `_refuted` theorem with a
concrete witness and the strongest positive statement that does hold, and mark the claim partial.

| id | model | proof |
|---|---|---|
| C01,C02 | `vs_step` over an op datatype covering the public API | invariant + refinement, induction over histories |
| C03 | insert/union/collect on preorder elements | exact `In` characterisations |
| C04–C07 | `SmallVecMergeState` merge with the four set operations | merge = reference tape merge, for every strategy; `In` characterisation + sortedness |
| C08,C10 | in-place merge states, by value / by reference | both equal the reference merge, no Panic outcome |
| C09 | `BoolOpMergeState` with early exit | r = true iff reference result non-empty |
| C11 | `union_with` with NoConverter | `_refuted`; exact behaviour: completes iff that ⊆ self |
| C12 | `xor_with` as written (intersection op) | `_refuted`; exact behaviour: it is the intersection |
| C13,C15 | SortAndDedup machine | invariant over pushes; equal to a one-line fold specification |
| C14 | from_vec / visit_seq / collect | all equal the same specification |
| C16 | SortAndDedup buffer length | invariant over pushes |
| C17 | list equality/lexicographic order/hash feed | canonicity of sorted lists |
| C18 | ghost log of dropped elements in merge states | Permutation invariant of every step |
| C19 | comparison-counting binary search | log2 bound by strong induction |
| C20 | set operations | corollaries of C04–C07 and canonicity |
| C21,C22 | `vm_step` over the VecMap API | as C01/C02 |
| C23 | collect with Keep::Last | as C13 |
| C24–C27 | join operations on `VecMergeState`/`SmallVec…` | generic pointwise lemma for keyed merges |
| C28 | join operations on the in-place state | same reference merge |
| C29 | combine_with/merge_with/extend | corollaries |
| C30 | From<VecMap> for VecSet | pair order |
| C31 | visit_map | round trip proved; duplicate policy `_refuted` |
| C32 | closures returning `option` of a result = panic | invariant at Panic outcomes |
| C33 | check_bytes loops; element-wise archive and deserialize | equivalence with sortedness; round trip and exact lookups on validated archives |
| C34,C35 | TotalVecMap operations | from C22/C24 |
| C36 | PartialEq/Hash/Ord as written | `_refuted`; extensional when defaults equal |
| C37–C39 | TotalVecSet | from C04–C09; unbounded type hypothesis for C39 |
| C40 | is_superset as written | `_refuted`; exact behaviour |
| C41–C43 | BTreeMap joins over sorted association lists | pointwise; right_join_with `_refuted` |
| C44–C54 | recursive radix tree functions on fuel | denotation `lk`, induction on nodes |
| C55,C56 | iterator step machine | stack invariant |
| C57,C58 | is_subset0/intersects0 | induction; BoolOp early exit |
| C59 | check_bytes of the children vector | equivalence with well-orderedness; is_subset part `_refuted` |
| C60,C63 | heap with reference counts | simulation: abstract value of each root |
| C61 | small-step interleaving of threads over lock + cell | invariant over all schedules |
| C62 | partially materialised tree | denotation preserved by materialisation |
| C64 | macro expansion to insert/collect | corollary of C13/C23 |
| C65 | VecMap PartialEq/Ord/Hash | canonicity of sorted entry lists |
| C66 | is_zero / is_one of TotalVecMap | exact characterisation |
| C67 | conversion of an archived lazy tree | allocation counting; lazy loading `_refuted`, exact count proved |
| C68 | reference counts | invariant: count = number of owners, over all histories |
| C69 | HeapOps.v/HeapApi.v | refinement of the pure trees: every heap operation computes the pure one on denotations, with a frame condition for all other roots |
| C70 | programs of public calls | composition of C69 with C44-C58 |
| C71 | engine with a comparison oracle | generic step relation, instantiated with permutation invariants |
| C72 | oracle that panics at call n+1 | lock-step simulation of the interrupted and the uninterrupted run; "target only grows" |
| C73 | smallvec's retain loop | loop invariant kept ++ junk ++ rest; validity after a panic `_refuted` |
| C74 | radix *_combine_with with a world | children merge = join of the listings (schedule induction), then induction on size; spec: merge join of the two iterations |
| C75 | the tree after a caught panic | witness `_refuted`; damage confined to the root `_partial` |
| C76 | radix remove/retain_prefix_with with a world | as C74 with the list of accepted keys (`asks`) |
| C77 | saving/loading over the heap | serializer step invariant (registry mirrors the file), deserializer invariant |
| C78 | as C77; for histories radix_db.rs | new registry entries = records; path simulation through the file; the registry mirrors the file, so a loaded tree is the registered one |
| C79 | radix_db.rs | invariant over all histories: pins keep registered vectors alive and unchanged |
| C80 | radix_db.rs | refinement of a database on plain trees |
| C81 | outcomes of writes: all, or a prefix followed by anything | from C80; torn flush `_refuted` |
| C82 | watch_prefix, Batch | composition of C54 and C50 `_partial`; intended meaning `_refuted` |
| C83 | validators over words, wild access = `Ub` | safety of each checker by induction on the archive; RadixTree `_refuted`, intact archives `_partial` |
| C84 | as C83, readers and writers | accepted => readable by induction on the recursion depth; in-place get simulates get on the tree; written => accepted iff ordered |
| C85 | CollectModel with a counting comparison | amortised: 2G per unsorted element pays for the compaction; sorted inputs by induction |
| C86 | OracleModel's engine with a counting comparison | potential 3*2^h - h - 3 + m - m/2^h for the binary merge |
| C87 | CollectModel | permutation invariant; simulation by the pure code until the panic |
| C88 | HeapOps, HeapApi; allocations are counted by the next free address | on top of the refinement invariant of C69: vectors freshly copied are not shared, so each level pays once; merges carry the sum of the costs of the unvisited argument children |
| C89 | radix_db.rs, HeapOps | a set of vectors that is closed below (registered, empty, or new) is never left by the calls that change a tree in place; a flush writes only vectors outside the registry |
| C90 | HeapOps, HeapApi | the same closed-set argument for "reachable from the tree before", and the frame of C69 for the other trees |
| C91 | HeapEffModel (heap, unwinding) against RadixEffModel (plain trees) | panic-aware simulation of merges; each operation refines its plain counterpart on both outcomes with the frame and count invariants of C69; order is kept (WO) by a merge invariant, so every later call is defined |
| C92 | MultimapModel over VecMapModel and VecSetModel | loop invariant on the pairs seen so far: entries are the first keys, their sets the first values; union closure total |
| C93 | ApiModel: binary search with the borrowed comparator | simulation of the search by the search in the map with borrowed keys, then C22 |
| C94 | ApiModel, TotalModel.tmap_cmp | by cases; counterexample for max_value in the order |
| C95 | ApiModel: iterator as a state machine under any sequence of calls | induction on the calls; collecting a sorted sequence is the identity |
| C96 | ApiModel.vmap_map_values_eff | induction, against running the closure over the list of values |
| C97 | ConcModel: every call is a program of atomic accesses, any scheduler | a separation-style program logic (ConcLogic.v: owned nodes, exclusive borrows, nodes seen through an owner, vectors with a sole owner); every call satisfies its specification under interference (ConcSim.code_wp); global invariant over all threads (ConcThreads.sim_step); simulation by the machine with indivisible calls |
| C98 | as C97; the logic counts the steps of the program itself | step bounds in the same weakest precondition, then induction on the schedule |
| C99 | as C97 | the global invariant makes counts exact; acyclicity by the size of the trees |
| C100 | StorageModel: SmallVec = elements, capacity, number of heap requests | refinement onto the list model of C13 (`forget`), the peak length of the buffer bounded by C19's invariant; plain claim `_refuted` |
| C101 | as C100; the in-place builder only counts the room it is asked for | invariant of the merge (`filled`, `asked`) lifted by a generic `merge_inv`, then the pointwise theorem for merges |
| C102 | as C100 | direct; boundedness by the real input `_refuted` |
| C103 | CloneModel: Clone is a closure with a world and panics | every merge performs a list of jobs in order until one panics (`merge_finished`), from the schedule theorem of Merge.v; the jobs are the elements of the result |
| C104 | as C103 | corollary: what was put so far is a beginning of the result |
| C105 | TotalModel (combine_ref, map_values with arbitrary closures) | C24's list of arguments of the outer join; induction over it (PropTotalCalls.v) |
| C106 | RadixCostModel: find with a counter | the counting lookups erase to the lookups; induction over the descent: each step consumes a component and searches one list of children |
| C107 | as C106 | refuted for all constants by trees whose keys extend each other; the bound of C106 is of the right order |
| C108 | BTreeEffModel | the loops and retain each refine a sequence of jobs, one per key, on a mapping from keys to entries (`perform`); jobs on different keys commute with the frame |
| C109 | RadixPureEffModel | the merge into a new vector simulates the in-place merge step by step (`merge_simb`), so each combination equals the in-place one with the tree forgotten on a panic; then C74. left_combine is the in-place one on the tree whose every node is an entry |
| C110 | OracleModel, CollectModel, OracleMapModel against VecSetModel, VecMapModel | the effectful engine run with a comparison whose answers follow `cmp` has the outcome of the effect-free engine (`wmerge_follow`, `wbsearch_follow`, `wsort_dedup_follow`, by induction on fuel and input); then C01-C29 |
| C111 | OracleMapModel | step relation on the keys in play (`mv_R`) preserved by every merge step, `wmerge_ok`; bounds of the binary search; C87 and C72 for extend |
| C112 | IterModel | the run of an iterator as a relation (`pulls`); induction on it, with the erasure of CollectFacts/FollowFacts to reach C13, C23, C03, C29, C45; conservation from `wsd_push_ok`, `wsd_compact_ok` and C71 |
| C113 | OwnIterModel | refinement to lists of remaining items with an invariant on live allocations (`inv`, `step_ok`); the claim on references that outlive the iterator is refuted |
| C114 | RadixWorkModel | potential argument: a weight per tree (`psi`) pays for the comparisons of every call (`*_cost`), canonical trees weigh what their keys weigh (`psi_canon`); insert by induction with a weight on the key only |
| C115 | RadixWorkModel | potential `lam`: every value carries the length of its key plus a slack; every copy that goes down a level uses up a component. Refuted per entry with a chain against a broom |
| C116 | RadixUserModel | one induction per operation with a ledger of what user code made (`ip_ok`, `pu_ok`, `bo_ok`) over the merge engine with an arbitrary comparison (`gmerge_ok`); agreement with the other models by induction on the fuel (`*_plain`) |
| C117 | LazyTreeModel | invariant over all threads (`linv`): memory only gets more loaded (`refines`), so what a thread knows stays true; lock ownership; termination by a lexicographic order on (rest of the program, place in the call) |
| C118 | syntax of expressions with their boolean (three-valued for trees) meaning, run on the operator models | induction on the expression, C09/C37/C48-C50, representation of the complement flag tracked beside membership |
| C119 | rt_iter, rt_from_iter, rt_eqb | C45, C47, C56 and uniqueness of sorted lists |
| C120 | RadixUserModel.v with comparisons that answer like an order | gmerge_law (engine), minv (slots of the children), induction on the depth with one set of laws per operation (entry_laws) |
| C121 | RadixUserModel.v with comparisons that answer like an order | `like` (agrees with the model without effects) for the questions; uchildren_law and made_laws by induction on the depth for the combinations |
| C122 | RadixUserSetModel.v | C120 and C121 with the closures of the set operations |
| C123 | VecUserModel.v | induction over the merge: what each element gives is appended in order (`woven`), for any user code |
| C124 | VecUserModel.v with comparisons that answer like an order | the merge only pairs equal keys and passes smaller ones (law_steps); then the weave is the pointwise merge (woven_points) |
| C125 | TotalUserModel.v | from C123/C124 on the elements: the fates give membership (picked_of), then a truth table per pair of flags |
| C126 | TotalUserModel.v | from C123/C124 for outer_join with the closure of combine_ref unfolded (ref_answered); induction over the entries for map_values and retain |
| C127 | LookUserModel.v, OracleModel.v, CollectModel.v | search and merge are those of the plain model up to the first panicking call (like_search, like_merge, by induction on the fuel); collecting by erasure (CollectFacts), extend from C124 |
| C128 | SerdeModel.v | induction over the items (serialize), over the deliveries (deserialize); dedup by induction, then DedupFacts std_sort_dedup |
| C129 | LconcModel: every call is a program of atomic accesses, any scheduler | the program logic of C97 with frames that let other threads load more (LconcLogic.lframe), vectors reached through an owner and the nodes in them seen loaded as resources; LconcSim.code_wp; LconcThreads.sim_step |
| C130 | DebugModel: interaction trees of writes, any writer | equality of programs up to the writer's answers; the text of each builder by induction; unambiguity by peeling off items up to a delimiter |
| C131 | HeapThrowModel: an oracle says which calls of Clone panic | each operation either equals the one of HeapModel or leaves an invariant heap with the same trees; one simulation step, induction over the program tree |
| C132 | RadixModel | naturality of each function by induction on fuel/trees |
| C133 | RadixModel, total preorder on components | rank the components that occur; move the operation to trees over nat along the span K <- members -> nat, apply C44 to C58, move back; reachable trees by induction |
| C134 | VecSetModel, TotalModel | naturality of the merge engine (RadixRename.v Engine) at each merge state and operation |
| C135 | VecMapModel, TotalModel | the same with closures in an environment |
| C136 | VecMapModel | induction over expressions from the pointwise theorems C24-C29; one-entry probe maps for the converse |
| C137 | RadixUserModel | relational Hoare-style induction over every function (run with user code against run with calmed user code), then C116 for the calm run |
| C138 | VecUserModel, CloneModel, TotalUserModel, RetainModel | as C137; the calm run is the one of C123, where only user code is to blame |
| C139 | OracleModel, OracleMapModel, LookUserModel, CollectModel | invariant of the searches and of the collecting loop; relations as C138 (run against calm run, which never panics by C71) |
| C140 | RadixModel | induction on expressions over C45, C48-C51 and C54; probe trees with one entry for the converse |
| C141 | TotalModel | induction on expressions over C34; constant maps for the converse |
| C142 | RadixModel | induction on chains over C52-C54; C47, C48, C50, C58 for the laws |
| C143 | BTreeModel, VecMapModel | both are pointwise (C24-C28, C41, C42) and sorted, hence equal |
| C144 | RadixModel, VecMapModel | both sides are pointwise (C22-C27, C45-C56) and sorted, hence equal |
| C145 | RadixModel, VecSetModel | both sides are exact (C04-C06, C09, C48-C50, C57, C58) and sorted, hence equal |
| C146 | VecMapModel, VecSetModel | both sides are exact (C04-C07, C22-C27) and sorted, hence equal |
| C147 | RadixModel | the entries are characterised (C52-C56) and sorted, hence equal to the filtered list |
| C148 | RadixModel, VecMapModel | simulation: C144, C147 give each step; induction on the program |
