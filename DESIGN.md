# Formal model of `fallible_collections` in Rocq (Coq 8.16.1)

## 1. Layout

All Coq files are in `rocq/theories/` (logical name `Verif`), Coq's standard library only.

| files | contents |
|---|---|
| `Base.v` | outcomes (`Ret/Err/Panic/Abort/UB`), the failing state monad, list lemmas |
| `VecModel.v`; `VecSpec.v`; `VecProofs*.v` | `src/vec.rs`, `src/try_clone.rs` over a raw-buffer model of `alloc::vec::Vec` |
| `MiscModel.v`; `MiscSpec.v`; `MiscProofs.v` | `src/boxed.rs`, `src/rc.rs`, `src/arc.rs`, `src/format.rs`, `src/hashmap.rs`, `vec.rs::std_io` |
| `PtrModel.v`; `PtrSpec.v`; `PtrProofs.v`, `PtrSteps.v`, `Properties_Ptr.v` | `src/boxed.rs`, `src/rc.rs`, `src/arc.rs` on memory blocks: programs with raw pointers and sharing |
| `LookModel.v`; `LookSpec.v`; `LookProofs.v`, `Properties_Look.v` | `Debug`, `Clone` and `len` of the iterators of `src/btree/map.rs` at any point, on raw memory |
| `LayoutModel.v` | where `src/btree/node.rs` looks for the keys (repr(C) layouts) |
| `BTreeModel.v`, `BTreeIterModel.v`, `BTreeBulkModel.v`, `BTreeSetModel.v`, `BTreeViewModel.v` | `src/btree/{search,node,map,set}.rs` on functional trees with zipper handles (layer 1) |
| `HeapModel.v`, `HeapMapModel.v` | `src/btree/{search,node,map}.rs` statement by statement on a heap of nodes with raw parent pointers and `MaybeUninit` arrays (layer 2) |
| `HostileModel.v`; `HostileSpec.v`; `Hostile*.v` | the operations of layer 2 that compare, with comparisons that answer anything, change the world or panic; what they may do to lists; proofs |
| `DropModel.v`; `DropSpec.v`; `Drop*.v` | the operations of layer 2 that destroy entries, with destructors of keys and values that change the world or panic; what is observed, destroyed and leaked; proofs |
| `VecHistoryModel.v`; `VecHistorySpec.v`; `VecHistoryProofs.v`, `VecConserve.v` | programs over several vectors; what they do to plain lists; proofs and the ledger of values |
| `VecExact.v` | the calls that build a vector (clone, concat, collect, from_elem), with every way they can end: which memory is asked for, what is cloned when, and that nothing else makes them fail |
| `HashHistoryModel.v`; `HashHistorySpec.v`; `HashHistoryProofs.v`, `HashBooks.v`, `Properties_Hash.v` | programs over several `TryHashMap`s; what they do to bags of entries; proofs and the ledger |
| `ContainSpec.v`; `ContainProofs.v`, `Properties_Contain.v` | programs that go on after a map was damaged; proofs |
| `FrameSpec.v`; `FrameProofs.v`, `Properties_Frame.v` | what an operation may write to; proofs |
| `TouchModel.v`; `TouchSpec.v`; `TouchBlind.v`, `TouchProofs.v`, `TouchWalk.v`, `Properties_Touch.v` | user code with effects and panics on a `&mut V`, entries used step by step; what it does to sorted lists; proofs |
| `ShuffleSpec.v`; `Properties_Shuffle.v` | threads, interleavings, address assignments; proofs |
| `SetHistoryModel.v`; `SetHistorySpec.v`; `SetHistoryProofs.v` | programs over several sets; what they do to ascending lists; proofs |
| `SpaceSpec.v`; `BTreeSpace.v` | the number of nodes of a map; counting nodes and allocator requests through the functions of the model |
| `LedgerModel.v`; `LedgerSpec.v`; `LedgerProofs.v`, `LedgerBooks.v`, `LedgerSteps.v`, `LedgerRun.v` | the functions that own keys and values with a record of what is cloned, dropped and leaked (proved equal to the model when the record is dropped); what it is to balance; that every operation and every program balances |
| `HistoryModel.v` | programs: lists of operations on any number of maps |
| `MapSpec.v`, `IterSpec.v`, `SetSpec.v`, `MergeSpec.v`, `HistorySpec.v`, `HeapSpec.v` | independent specifications: sorted association lists, deques, bounds, set algebra, what programs may observe, what memory looks like |
| `BTree*.v`, `Heap*.v`, `HistoryProofs.v`, `SpecFacts.v` (the others) | proofs |
| `Properties_*.v` | the theorems `Cnn_...`, concrete instances of their hypotheses, `Print Assumptions` |

`tools/props.py` writes `properties.jsonl`; `tools/manifest.py` (with `tools/notes.py`) writes `MANIFEST.json`;
`tools/mutate.py` and `tools/seedlog.py` are the mutation tests behind `seeded/LOG.jsonl`.

## 2. How the code is modelled

* **Outcomes.** Each model function is `state -> outcome * state`. `Err` is a Rust `Err`,
  `Panic` an unwinding panic, `Abort` the process abort of an *infallible* allocation that was
  refused (`handle_alloc_error`), `UB` undefined behaviour (out of bounds or uninitialised access,
  `unwrap_unchecked` of `None`, double drop). On every outcome the state reached so far is kept,
  which is exactly what an observer of `&mut self` sees after `?` or after a caught panic.
* **Allocator, clone, destructor.** An arbitrary type `W` of worlds, an arbitrary function
  `alloc : request -> W -> answer * W`, arbitrary effectful clone / drop / closure functions in the
  same world. Theorems quantify over all of them, so every pattern of refusals, failing clones and
  panics at every point is covered, without bound.
* **Machine width** is a parameter (`isize_max`), so theorems hold for 16, 32 and 64 bit targets.
* **std** (`Vec::{try_reserve,push,insert,...}`, `hashbrown::HashMap`, `Read::read_to_end`,
  `fmt::write`) is not in `/repo`; it is modelled by its documented contract, spelled out at each
  definition. These contracts are part of the trusted base.
* **BTree keys**: a comparison `cmp : K -> K -> comparison` that is a lawful total preorder
  (`Eq` does not imply identity, so key identity is observable); look-ups take any borrowed
  query type through a monotone `probe`.
* **BTree layer 1**: a node is its list of entries and its list of children; handles are zippers.
  Node allocation goes through the world's allocator.
* **BTree layer 2**: nodes are heap cells with `parent`, `parent_idx`, `len`, 11 key slots, 11
  value slots, 12 edge slots, each slot possibly uninitialised; freed nodes are gone.

## 3. Properties (plan per property)

| id | modelled | proof |
|---|---|---|
| C01, C02, C03, C04 | all `FallibleVec` methods on the raw buffer; std ops by contract | symbolic execution against the list view, all worlds |
| C05 | `try_extend_from_slice_no_copy`, `try_extend_with` loops slot by slot | loop invariant: list view = old ++ clones so far |
| C06 | `Truncate::truncate` with panicking destructors | refuted by a concrete run; partial: exactly once if no destructor panics |
| C07 | histories of pushes/inserts after a reservation | induction over the history |
| C08 | `TryClone` for primitives, Option, Box, Vec as combinators over effectful clone functions | induction on nesting via a faithful-clone relation closed under every instance |
| C09, C10, C19 | `concat`, `try_from_iterator`, `try_from_elem` both impls | loop invariants |
| C11, C12 | `try_new` of Box, Rc, Arc (stable and unstable) | case analysis; refutation for Rc/stable Arc |
| C13 | `try_format` over the list of fragments written by `fmt` | induction over fragments |
| C14-C16 | `TryHashMap` over hashbrown's contract with `growth_left` | induction over histories against finite maps |
| C17, C18 | `std_io` over a reader given as script of reads | loop invariant over the script |
| C20, C21 | histories of operations on a register file of BTreeMaps | refinement: `inorder` of the tree = sorted list, invariant preserved |
| C22, C23 | `Iter`, `IterMut`, `IntoIter`, `Range` cursors with leaf-edge handles | simulation of every next/next_back interleaving by a deque |
| C24 | `VacantEntry::try_insert` with refused node allocation, at both layers | refuted by concrete run; proved: what the tree holds after a refusal, that the map is unchanged exactly if it was empty, and (`HeapTorn`, `Properties_Torn`) that every damaged map in raw memory has an undefined drop, whatever other maps did in between; `Properties_Collect`: exactly which collect() calls are undefined; `Properties_PanicSets`: the drop theorem for programs over sets (and, for C43, what a panicking append or split_off of sets leaves) |
| C25, C26, C33, C34 | `try_insert`, `remove`, `Entry`, set `get/take/replace` | via refinement to the list spec |
| C27, C28, C29, C37 | `append`, `split_off`, `try_clone`, `from_iter`/`extend` | tree surgery lemmas on `inorder` and invariants |
| C30 | `IntoIter` with `deallocate_and_ascend`, `Drop` | trace of freed nodes is a permutation of all nodes |
| C31, C32, C41 | set iterators, predicates and operators with all strategies | simulation to list-level merge, then set specs |
| C35 | `eq`/`cmp`/`hash` over iterators | lists |
| C36 | instrumented search, height bound | induction |
| C38 | entry addresses (paths) yielded by mutable iterators, `update_at` | distinctness and locality of update |
| C39 | layout arithmetic of `NodeHeader` | arithmetic; refutation for align 32 |
| C40 | layer 2 heap transcription of `node.rs`, `search.rs`, `map.rs`; programs on memory (`hrun`) | representation predicate with ownership of addresses, simulation of layer 1 by layer 2 for each operation, then histories |
| C42, C43 | layer 2 with comparisons `A -> B -> W -> option answer * W` (`None`: panic) (`hxrun`) | for any answers searches end at some place of the tree; the operations from such a place are those of layer 1 and 2; the order that holds of every list (`fun _ _ => Lt`) stands for no order. What is left behind when `split_off` or `append` panics is a property of the memory (`damaged`, `partly`), carried through later programs by the invariant of C59 (`Properties_Split`, `Properties_Append`) |
| C44 | layer 2 with destructors `W -> bool * W` (`false`: panic), unwinding drops and double-panic aborts (`hdrun`) | the loops of C30/C40 stopped at any entry leave a forest of owned nodes; that forest is what is leaked. The half-built map of a panicking `append` is carried through later programs by the invariant of C59 (`Properties_DropAppend`) |
| C45 | programs over a table of vectors (`VecHistoryModel.vrun`), world threaded through allocator, clones, closures, destructors; partial results and arguments dropped as in Rust | each call refines a relation on plain lists (`VecHistorySpec.vspec`), induction over the program |
| C46 | the same programs, a ledger of values made and destroyed kept in the world | weights of values in, made, out, destroyed and live balance over each relation of `vspec`; induction |
| C47 | programs over a table of sets (`SetHistoryModel.srun`) calling the functions of C20, C22, C23, C31, C32, C41 | each call refines a relation on ascending lists (`SetHistorySpec.sspec`), induction over the program |
| C48 | nodes of the model's trees, requests to the abstract allocator seen through any counting observer of the world | size lemmas for every tree transformation, induction over trees, over lists of insertions and over programs |
| C49 | the programs of C20 with a record of every key and value made, dropped or leaked (`LedgerModel`) | weights of trees under arbitrary weight functions, per operation; induction over programs; permutations via indicator weights |
| C50 | the set algebra of `set.rs` over the raw iterators and searches of C42 (`HostileSetModel.xrun`) | the lazy iterators seen as lists still to come (`HostileSets.future`), for any answers; induction over programs |
| C51 | the same programs (`HostileSetModel.xrun`) with comparisons that are lawful functions | the futures of C50's iterators computed by a lawful order are the mathematical combinations (`LawfulSets`); induction over programs |
| C52 | `PtrModel`: variables holding a Box/TryBox or a counted pointer, raw pointers, and memory as a list of blocks with address, allocated size, value and strong count; the placement of blocks is an arbitrary function returning a free address; a read of a missing block or a free with another size is UB | an invariant that counts the references to each address (boxes and raws exactly one, counted pointers as many as the block's count), kept through every step with the value being moved held as a pending slot; books by arbitrary weights as in C46 |
| C53 | `LookModel`: sessions of next/next_back/len/clone/Debug on pools of iterators and of next/next_back/len/Debug on an IntoIter, on the memory model of C40; printing = running a copy to its end and keeping the entries | an iterator in order at positions a..b of the tree "has left" the segment a..b of the entries; a position within the segment is not freed by the IntoIter (no node on its spine lies left of the front or right of the back handle), so the Range that prints it reads live nodes only |
| C54 | the programs of C42 and C50 (`hxrun`, `xrun`) with any counter of the world that comparisons raise by one | a cost logic over the heap programs (`CostLogic.pays`): no node has more than 11 keys (an invariant of the heap alone, `CostHeap.slim`), the path is at most the tree's height (`BTreeCost.height_bound`), the lazy iterators pay from the elements still to come (`CostSets.pot`) |
| C55 | `LazyModel`: sessions of next/size_hint/clone/Debug on pools of the lazy set iterators of C50, on raw memory | the futures of an iterator (`HostileSets.future`) under a total order leave exactly one list; that list is what every clone has left |
| C56 | the sessions of C55 with arbitrary comparisons, a panic in next() caught and the iterator used on (`hlazy_next_c`) | with every answer possible the futures of an iterator are exactly the combinations of what it has not passed (`HostileLazy.future_iff`) |
| C57 | `LayoutModel`: repr(C) layouts of `NodeHeader`, `LeafNode`, `InternalNode` | arithmetic of rounding up and of powers of two |
| C58 | `HashHistoryModel`: programs over numbered `TryHashMap`s, with the drops of arguments, duplicates and half-made clones; the table by contract | refinement of a specification on plain lists up to permutation (`HashHistorySpec`), weights for the ledger |
| C59 | nothing new: `HostileModel`, `HostileSetModel` and `DropModel` | the invariant of C42/C44 for the variables with the damaged ones emptied; the failing step run on the damaged variable alone (all others empty) bounds what it can have touched, framing does the rest |
| C60 | nothing new: `HostileModel` | readers and `&mut V` operations: a relation between heaps carried through every function they call, on any heap; the others: the resource triples (`goes`) of C42 for the step run on its own variables, with the invariant of C59 for the rest. Sets: the same carried through the lazy iterators and their sessions; an operator's and collect's result is built from no old node (`built`) |
| C61 | nothing new: `HeapMapModel` | operations are the atoms of an interleaving (C60: their writes are confined); by C40 every step is as `HistorySpec.spec` says, which is shown to be functional in the lists mentioned and to leave the lists not given alone; then induction on the schedule. The hardware's memory model is not modelled |
| C62 | `TouchModel` over `HeapMapModel`: closures on a place with effects and panics, entry sessions, loops over iter_mut/range_mut, iterators given to extend/collect | the functions of layer 2 are blind to values (`TouchBlind`: the same run on two heaps that differ only in values), so an iterator taken before the writes goes on as if nothing was written; each step refines `TouchSpec.tspec` |

## 4. Trusted base

* Coq 8.16.1's kernel (and `coqchk`). `Print Assumptions` is run for every theorem at the end of its file; each prints
  "Closed under the global context": no axioms at all are used. (`coqchk` also lists the axioms of `Coq.ssr.ssrunder`, a
  standard library module that is loaded, not used.)
* The correspondence between the Rust text and the model, by inspection: every definition cites the lines it models.
* The contracts of code that is not in `/repo`, spelled out at their definitions: `Vec` (buffer, length, capacity; push
  and friends grow the buffer infallibly when it is full), the allocator (any answers), `hashbrown::HashMap` (a finite
  map with `growth_left`), `Read::read_to_end` and `Take`, `fmt::write` (a list of fragments), `mem::*`, `ptr::*`.
* Rust semantics that is not modelled: types, lifetimes and the borrow checker (a reference is an address and is used
  while the borrow lasts), the aliasing model (Stacked/Tree Borrows), auto traits, code generation.

### What is modelled, and what is not

| source | modelled | not modelled |
|---|---|---|
| `vec.rs` | all methods of `FallibleVec` and `TryVec` (the wrappers are the same functions), `try_vec!`, `TryCollect`, `concat`, `std_io`, `Truncate` | `Debug`, slice/`Deref`/`Index` views (`as_slice` is the list view), `Borrow`, `AsRef` |
| `try_clone.rs`, `boxed.rs`, `rc.rs`, `arc.rs`, `format.rs` | `TryClone` instances, `try_new` with both configurations, `try_format` | `Weak`, the layout of `Rc`/`Arc` blocks beyond two counters and the value |
| `hashmap.rs` | all of `TryHashMap` | hashing itself, `Debug` |
| `btree/search.rs` | all | |
| `btree/node.rs` | all node and handle operations at both layers; node layouts (C39, C57) | borrow-type conversions (`reborrow`, `cast_unchecked`, `forget_type`, ...: identities on addresses) |
| `btree/map.rs` | all operations incl. entries, iterators, ranges, bulk operations, comparison, hashing, `Drop`, `Debug` and `Clone` of iterators (which entries are printed) | the text `Debug` produces, `Debug` of entries |
| `btree/set.rs` | all operations, lazy set operations with all strategies, operators | the text `Debug` produces (which elements are printed: C53, C55) |

### Simplifications (each is also stated at the definition)

* The number `alloc` is shown for a `Vec` is the least number of bytes that will do; std asks for more (amortised growth) and
  never retries with less. What is granted beyond the need, and a refusal of the larger request, are answers of the
  arbitrary `alloc`; "memory was refused" in the theorems means this request.
* Lengths and indices are natural numbers. In `vec.rs` the arithmetic that can overflow (`checked_*`, capacity in bytes
  against `isize::MAX`) is modelled with the width as parameter; in the B-tree `len: u16` and `parent_idx: u16` never
  exceed 12 (proved: C21, C40), and the map's `length: usize` is bounded by memory.
* In C01-C41 comparisons are pure functions of the keys; for the B-tree theorems about contents they are lawful total orders.
  C42, C43, C50, C54 and C56 drop both assumptions (`HostileModel.v`, `HostileSetModel.v`).
* Destructors of elements matter for C06 and C44-C46 (where they may panic) and for C30 and C49 (as a trace of what is dropped); elsewhere
  dropping an element has no effect on the collection.
* The closures of `try_resize_with`, `or_try_insert_with` and the clone functions are arbitrary effectful functions that
  may fail or panic. `and_modify`'s closure, and what is done with a `&mut V`, is pure in the programs of C29 and C40; C62
  (`TouchModel.v`) makes it arbitrary code with effects and panics.
* Layer 1 and layer 2 are two transcriptions of the same code. Layer 2 is the one that is close to the text of
  `node.rs`; `HeapHistory.step_fine` proves that every operation of layer 2, on any heap that represents the trees of
  layer 1, for any placement of new nodes at unused addresses, has the outcome of layer 1 and leads to a heap that
  represents its trees. So theorems about layer 1 (C20-C38) are theorems about the raw-memory program too.
* Fuel is used where loops are bounded by the height or the length; running out is `UB`, so the theorems prove that it does not happen.

## 5. Properties that are false of the code

C06 (a panicking destructor in `truncate` is run twice), C12 (`Rc::try_new` and the stable `Arc::try_new` abort on the
second allocation), C43 (a comparison that panics inside `append` or `split_off` leaves a map whose later use is
undefined behaviour), C44 (likewise a destructor that panics inside `append`), C24 (a refused insertion changes `len()` and loses entries; later drops are undefined behaviour) are
listed as properties a user relies on, with theorems named `_refuted` that prove their negation by a concrete run of the
model and theorems named `_partial` for what holds. C21's documented minimum (5 entries per node) and C39 for key
alignments of 32 and more are refuted likewise; C13 shows the documented abort of `try_format` beyond its capacity.

## 6. Testing the theorems

`tools/mutate.py` edits one definition of the model in a scratch copy the way a realistic bug would, rebuilds, admits
(there only) each lemma whose proof breaks, and reports which of the `Cnn_` theorems now rest on an admitted lemma, or
are broken themselves. `seeded/LOG.jsonl` has one line per edit. An edit that breaks no theorem whose claim it falsifies
is a reason to tighten the theorem.
