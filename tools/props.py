#!/usr/bin/env python3
"""Single source for properties.jsonl: run it to regenerate the file."""
import json, os
P = []
def p(title, statement, quantifier, why, anchors):
    P.append(dict(id="C%02d" % (len(P)+1), title=title, statement=statement,
                  quantifier=quantifier, why_tests_cant=why, anchors=anchors))

V="src/vec.rs:"; M="src/btree/map.rs:"; N="src/btree/node.rs:"; S="src/btree/set.rs:"; H="src/hashmap.rs:"

p("Vec operations: a failed call leaves the vector as it was",
  "If try_reserve, try_push, try_push_give_back, try_insert, try_append, try_resize, try_resize_with or try_extend_from_slice on a Vec (or the TryVec wrapper of the same operation) returns Err, then every vector involved has exactly the elements, length and capacity it had before the call (for try_append: both vectors).",
  "every vector (any length, capacity, element size including 0), every argument, every answer of the allocator",
  "the failure depends on allocator answers and on size arithmetic near usize::MAX / isize::MAX that a test cannot provoke in combination",
  [V+"FallibleVec for Vec", V+"TryVec"])
p("Vec operations: a successful call has the effect of the std operation of the same name",
  "When they return Ok: try_push appends the element; try_insert puts it at the index and shifts the rest; try_append moves all of other to the end and leaves other empty; try_resize/try_resize_with/try_resize_no_copy truncate or extend to exactly new_len; try_extend_from_slice(_no_copy) appends the slice (its clones) in order; pop, clear are those of a stack. try_insert panics exactly when index > len.",
  "every vector, argument and allocator behaviour", "unbounded sizes and positions",
  [V+"FallibleVec for Vec", V+"TryVec"])
p("Vec operations never take an infallible allocation path",
  "No FallibleVec/TryVec operation ever aborts the process because memory ran out: whenever memory is needed and refused, the caller gets Err. In particular the std push/insert/append/resize/extend called after the reservation never has to grow the buffer.",
  "every vector state, every argument (including lengths whose sum overflows usize), every allocator behaviour",
  "needs an allocator failing at an arbitrary point; the abort kills the test process",
  [V+"FallibleVec for Vec", V+"needs_to_grow"])
p("Ownership is given back on failure",
  "try_push_give_back and try_insert return, on failure, the very element that was passed in (paired with the error), so no element is lost or dropped by the failure.",
  "every vector, element and allocator behaviour", "failure injection at every point", [V+"try_push_give_back", V+"try_insert"])
p("Cloning extensions are safe at every interruption point",
  "try_extend_from_slice_no_copy and try_resize_no_copy stopped by a failing or panicking element try_clone at any position leave the vector equal to the old contents followed by exactly the clones already produced, in order; no uninitialised slot is ever exposed, no slot outside the capacity is written, and the vector never shrinks when growing.",
  "every vector, slice, clone function (may fail or panic at any element), allocator behaviour",
  "the interruption point ranges over all positions and allocator answers; uninitialised reads are invisible to tests",
  [V+"try_extend_from_slice_no_copy", V+"TryExtend::try_extend_with", V+"try_resize_no_copy"])
p("Shrinking drops every removed element exactly once",
  "try_resize_no_copy to a smaller length drops exactly the removed elements, each exactly once, even if the destructor of one of them panics (in which case the vector must not still own the element whose destructor already ran).",
  "every vector, target length, and every set of elements whose destructor panics",
  "destructor panics at arbitrary positions; double drop is undefined behaviour and need not be visible",
  [V+"Truncate::truncate", V+"try_resize_no_copy"])
p("A successful reservation is a promise",
  "After try_reserve(n) or try_with_capacity(n) returns Ok, any sequence of at most n try_push/try_insert calls succeeds whatever the allocator does, without asking it for memory; a repeated try_reserve of no more than the spare room is a no-op.",
  "every vector, every n, every sequence of insertions, every later allocator behaviour",
  "quantifies over all later operation sequences and allocator answers", [V+"try_reserve", V+"try_with_capacity", V+"try_push"])
p("try_clone is a faithful deep copy",
  "For primitives, Option, Box/TryBox, Vec/TryVec (nested to any depth) try_clone returns either Err, or a value whose structure is that of the source with every leaf cloned in order; the source is never changed; for the primitive leaf types the copy equals the source; a Vec clone fails only if an allocation or an element clone failed.",
  "every value of every nesting of these types, every allocator behaviour", "unbounded nesting and sizes; failure at every point",
  ["src/try_clone.rs:impl_try_clone", "src/boxed.rs:TryClone for Box", V+"TryClone for Vec", "src/arc.rs:TryClone for Arc"])
p("concat is the concatenation in order",
  "TryVec<TryVec<T>>::concat returns Err, or the concatenation of (clones of) all inner vectors in order; it never returns a truncated or reordered result, and does not panic when the total length is representable; then it fails only if memory for all elements together, asked for once and before anything is cloned, is not there, or an element clone failed.",
  "every vector of vectors, clone function, allocator behaviour", "sums of lengths near the usize limit", [V+"concat"])
p("Collecting an iterator keeps order and length",
  "try_from_iterator / try_collect return Err, or a vector holding exactly the items of the iterator in order; they fail only if room for the next item was refused, and then the iterator is not asked again.",
  "every finite iterator and allocator behaviour", "unbounded length, failure at every step", [V+"TryFromIterator", V+"TryCollect"])
p("Box::try_new / TryBox::try_new",
  "Returns Ok with a box holding exactly the given value, or Err when the single allocation is refused; a zero-sized value never fails; it never aborts (given that an exact reservation yields an exact capacity).",
  "every value, element size and allocator behaviour", "allocator failure injection", ["src/boxed.rs:FallibleBox for Box", "src/boxed.rs:TryBox"])
p("Rc::try_new / Arc::try_new report allocation failure",
  "On refused memory Rc::try_new and Arc::try_new return Err rather than aborting, and on success hold the given value. (The code is documented as not fully fallible: the property is refuted for the stable path and proved for the unstable Arc path.)",
  "every value and allocator behaviour", "the abort kills the test process", ["src/rc.rs:FallibleRc for Rc", "src/arc.rs:FallibleArc for Arc"])
p("try_format never aborts within its stated capacity",
  "tryformat!(cap, ...) returns Ok with exactly the formatted text, or Err if the initial reservation is refused; if the text fits in cap bytes there is no further allocation and no abort. Beyond cap an abort is possible.",
  "every capacity, every sequence of written fragments, every allocator behaviour", "allocator failure injection over all fragmentations", ["src/format.rs:try_format"])
p("TryHashMap behaves like a finite map for every history",
  "Any sequence of insert/remove/get/len/iter/into_iter on a TryHashMap returns what a finite map would return, where an insert that returns Err changes nothing (elements, length, capacity).",
  "every history of operations, every allocator behaviour, every (unspecified) internal iteration order and tombstone policy",
  "unbounded histories with failures at arbitrary points", [H+"TryHashMap"])
p("TryHashMap::insert never aborts; with_capacity(n) covers n inserts",
  "insert never takes hashbrown's infallible growth path. After with_capacity(n) succeeds, any n inserts succeed whatever the allocator does.",
  "every map state, n, key/value sequence, allocator behaviour", "all later histories and allocator answers", [H+"insert", H+"with_capacity", H+"reserve"])
p("TryHashMap::try_clone copies every entry",
  "try_clone returns Err or a map with exactly the cloned entries of the source (when key clones are equal to their keys); the source is unchanged and after the initial reservation only element clones can fail.",
  "every map, clone functions, allocator behaviour", "failure at each element", [H+"TryClone for TryHashMap"])
p("Bounded reads append exactly a prefix of the source",
  "try_read_up_to(src, limit, buf) / try_read_to_end / read_into_try_vec: on Ok(n), buf is its old contents followed by the first n bytes of src, n <= limit, and n < limit only at end of input; on a refused reservation buf is unchanged and nothing was read; on a read error buf holds its old contents followed by the bytes read before the error. No infallible growth for limit > 0.",
  "every reader behaviour (chunk sizes, interruptions, errors, EOF), limit, buffer and allocator behaviour",
  "all chunkings and failure points", [V+"std_io::try_read_up_to", V+"std_io::TryRead"])
p("io::Write for TryVec<u8> is all-or-nothing",
  "write(buf) either appends all bytes and returns buf.len(), or returns an error and leaves the vector unchanged; bytes written by successive calls are concatenated.",
  "every buffer, vector and allocator behaviour, every sequence of writes", "failure at each write", [V+"std_io::Write for TryVec<u8>"])
p("try_vec! / try_from_elem",
  "try_from_elem(x, n) / try_vec![x; n] returns Err or a vector of exactly n elements each equal to (a clone of) x, also for the u8 fast path, with no uninitialised element; it fails only if memory for n elements, asked for once and first, is not there, or a clone failed.",
  "every element, n, clone function, allocator behaviour", "unbounded n, failure at each clone", [V+"try_from_elem", V+"SpecFromElem", V+"try_vec!"])
p("BTreeMap behaves like a sorted map for every history",
  "Any sequence of new, try_insert, remove, get, get_key_value, contains_key, get_mut, index, len, is_empty, clear, append, split_off, try_clone, clone, extend, iter, iter_mut, into_iter, range, range_mut, entry operations and comparisons on any number of BTreeMaps returns exactly what sorted association lists return, as long as no insertion of a new key (into a map of 11 or more entries) has been refused memory and no append or extend has panicked for lack of memory.",
  "every lawful total order, every history, every allocator behaviour",
  "unbounded histories reaching every tree shape (splits, merges, steals at every depth)",
  [M+"BTreeMap", N+"Handle", "src/btree/search.rs:search_tree"])
p("BTreeMap keeps its structural invariants",
  "After every successful operation: all leaves have the same depth, every node holds at most 2B-1 = 11 entries, keys are strictly increasing in iteration order, len() is the number of entries, and every non-root node holds at least B-2 = 4 entries (one less than the documented minimum B-1 = 5, which insertion splits violate).",
  "every history of operations", "deep trees, all split/merge/steal combinations", [M+"BTreeMap", N+"CAPACITY", N+"MIN_LEN"])
p("Iteration from both ends visits every entry once, in order",
  "For every interleaving of next and next_back, iter, iter_mut, into_iter, keys, values and values_mut deliver exactly the entries of the map in ascending order from the front and descending order from the back, never the same entry twice, then None forever; size_hint/len are exact at each step; no undefined 'unchecked' step is ever taken.",
  "every map and every sequence of next/next_back calls", "all interleavings on all tree shapes", [M+"Iter", M+"IterMut", M+"IntoIter", M+"Range::next_unchecked"])
p("range/range_mut deliver exactly the entries within the bounds",
  "For every pair of bounds, range panics exactly when start > end, or start == end with both Excluded; otherwise, for every interleaving of next and next_back, it yields exactly the entries within the bounds, ascending from the front and descending from the back, each once.",
  "every map, lawful order, pair of bounds (included/excluded/unbounded) and interleaving", "all boundary coincidences at all depths", [M+"range", M+"range_mut", M+"range_search"])
p("A refused BTreeMap insertion changes nothing",
  "If try_insert (or entry insertion, or BTreeSet::try_insert/replace) returns Err, the map's entries and len() are as before the call. (Refuted: see the theorems; what does hold is proved.)",
  "every map, key, value and allocator behaviour", "failure at every allocation of a cascading split", [M+"VacantEntry::try_insert", M+"try_insert", N+"insert"])
p("Inserting an existing key replaces only the value",
  "try_insert of a key comparing equal to a present one returns Some(old value), keeps the stored key object, changes that entry's value only, keeps len, and needs no memory.",
  "every map, key, value", "all positions in all tree shapes", [M+"try_insert", M+"OccupiedEntry::insert"])
p("remove takes out exactly the matching entry",
  "remove/remove_entry/take returns the entry (value) comparing equal to the argument and leaves all others untouched, or returns None and changes nothing; it never allocates, never fails, never reaches an unreachable!() branch.",
  "every map and key", "all rebalancing cascades", [M+"remove", M+"OccupiedEntry::remove_kv", M+"handle_underfull_node", N+"merge", N+"steal_left", N+"steal_right"])
p("append merges with the right side winning",
  "a.append(&mut b) leaves in a the union of the entries where for equal keys b's entry wins, leaves b empty, and the result satisfies the structural invariants. It can panic (only) when memory is refused.",
  "every pair of maps, every allocator behaviour", "bulk building and right-edge repair over all sizes", [M+"append", M+"from_sorted_iter", M+"fix_right_edge", M+"MergeIter"])
p("split_off divides at the key, atomically",
  "split_off(k) returns the entries >= k and keeps the entries < k, both valid maps with exact len(); if it returns Err the map is unchanged.",
  "every map, key and allocator behaviour", "border repair over all shapes", [M+"split_off", M+"fix_right_border", M+"fix_left_border", M+"recalc_length", N+"move_suffix"])
p("BTreeMap::try_clone gives an equal, independent map",
  "try_clone returns Ok with the same sequence of (cloned) entries and a valid structure, or Err; the source is unchanged; it fails only if an allocation or an element clone fails.",
  "every map, clone functions, allocator behaviour", "failure at each of the nodes/elements", [M+"TryClone for BTreeMap"])
p("Dropping or consuming a map releases everything exactly once",
  "Consuming a BTreeMap (drop, or into_iter consumed partially from both ends in any interleaving and then dropped) hands out or drops each entry exactly once and deallocates each tree node exactly once, never a node that is still needed, and never the static shared root; also for the partially built trees discarded when try_clone or split_off fails.",
  "every tree shape and every interleaving of next/next_back before the drop", "leaks and double frees are invisible to functional tests", [M+"Drop for IntoIter", M+"IntoIter::next", M+"IntoIter::next_back", N+"deallocate_and_ascend"])
p("Set algebra is exact",
  "union, intersection, difference and symmetric_difference of two BTreeSets yield exactly the elements of the mathematical operation in ascending order without repetition (elements taken from self, except other's own elements), whatever internal strategy (stitch/search) the relative sizes select; size_hint bounds the number of remaining items.",
  "every pair of sets, every number of steps already taken", "sizes on both sides of the 16x tipping point", [S+"difference", S+"symmetric_difference", S+"intersection", S+"union"])
p("Subset, superset and disjointness tests are exact",
  "is_subset, is_superset, is_disjoint decide the mathematical relation for every pair of sets, for all three internal strategies.",
  "every pair of sets", "sizes on both sides of the tipping point", [S+"is_subset", S+"is_superset", S+"is_disjoint"])
p("Entry API acts on the entry of its key only",
  "try_entry(k) is Occupied iff k is present; key() reports the stored key (Occupied) or the given key (Vacant); or_try_insert(_with)/or_default return a reference to the value stored for k, through which writes reach that entry and nothing else; and_modify changes only the occupied value; remove_entry removes it.",
  "every map, key, value, modification function", "reference stability across cascading splits", [M+"Entry", M+"VacantEntry", M+"OccupiedEntry"])
p("Set get/take/replace respect key identity",
  "BTreeSet::get returns the stored element; take removes and returns it; replace stores the new element and returns the old stored one if an equal element was present (len unchanged) or inserts it (None); try_insert returns true iff the element was absent and keeps the stored one otherwise.",
  "every set and element under an order whose equality need not be identity", "equality vs identity for all positions", [S+"replace", S+"take", S+"get", M+"Recover for BTreeMap"])
p("Equality, ordering and hashing depend on content only",
  "Two maps compare equal iff they hold equal sequences of entries (whatever histories and shapes produced them); cmp/partial_cmp is lexicographic on the entry sequence and Equal iff ==; equal maps feed equal data to a Hasher.",
  "every pair of maps", "different shapes for the same content", [M+"PartialEq for BTreeMap", M+"Ord for BTreeMap", M+"Hash for BTreeMap"])
p("Lookup cost is logarithmic",
  "A lookup in a map of n entries visits one node per level and makes at most 11 comparisons per level; a tree of height h holds at least 2*5^h - 1 entries, so height <= log_5((n+1)/2).",
  "every reachable map", "asymptotic bound over all shapes", ["src/btree/search.rs:search_tree", "src/btree/search.rs:search_linear"])
p("Bulk construction equals repeated insertion",
  "collect/from_iter/extend give the map obtained by inserting the pairs one by one (the last value for a key wins, the first key object stays), and panic only if memory is refused.",
  "every sequence of pairs, allocator behaviour", "unbounded sequences", [M+"FromIterator", M+"Extend"])
p("Mutable access changes exactly the addressed value",
  "A write through get_mut, iter_mut, values_mut or range_mut changes the value of exactly the yielded entry; keys, order, len and all other values are unchanged; no two references yielded by one iterator alias.",
  "every map, key/iterator position, written value", "aliasing over all shapes", [M+"get_mut", M+"iter_mut", M+"range_mut"])
p("Key storage is located correctly for every key alignment",
  "Reading the keys of a node never panics and always looks at the place where the keys were written, for every key type. (Refuted for key types aligned to 32 bytes or more: the header size assertion fails; proved for smaller alignments.)",
  "every key alignment and pointer width", "exotic layouts", [N+"into_key_slice", N+"NodeHeader", N+"LeafNode"])
p("The unsafe node code never touches invalid memory",
  "Executing insert, remove, get, iteration, append, split_off, clone and drop at the level of nodes with raw parent pointers and partially initialised arrays never reads an uninitialised or freed slot, never writes out of bounds, never frees twice, keeps every child's parent pointer and index exact, and leaks no node (except on refused insertion).",
  "every history, allocator behaviour and address assignment", "memory errors need not be observable", [N+"correct_parent_link", N+"merge", N+"split", N+"insert_fit", N+"bulk_steal_left"])
p("Set operators build the corresponding set",
  "&a - &b, &a ^ &b, &a & &b, &a | &b produce sets whose elements are exactly the difference, symmetric difference, intersection and union.",
  "every pair of sets", "all sizes", [S+"Sub", S+"BitXor", S+"BitAnd", S+"BitOr"])
p("An inconsistent ordering never causes memory unsafety",
  "If Ord, Borrow, PartialEq, PartialOrd or RangeBounds of the keys answer inconsistently (anything, differently on each call, depending on global state) but return, every BTreeMap operation still ends without undefined behaviour, abort or leak; the map remains a sequence of entries whose len() is exact; insert adds the pair at some place or replaces some value, remove takes out one entry or none, append interleaves the two sequences (dropping for each matched pair the left entry), split_off cuts the sequence in two, a range is a contiguous part of it.",
  "every history, every behaviour of the comparison functions over time, every allocator behaviour", "comparison functions are arbitrary safe user code with arbitrary state", [M+"try_insert", M+"remove", M+"append", M+"split_off", M+"range_search", "src/btree/search.rs:search_tree"])
p("A panicking comparison leaves maps as they were",
  "If a comparison panics in the middle of an operation and the panic is caught, the maps involved are as before the operation (extend: as after the pairs already inserted) and every later operation on them is defined. (Refuted for append and split_off: after the panic, removing from or dropping the map is undefined behaviour; proved for every other operation.)",
  "every history, every call at which a comparison panics", "panics at every comparison of every history", [M+"append", M+"split_off", M+"from_sorted_iter", M+"MergeIter", M+"try_insert"])
p("A panicking destructor does not corrupt maps",
  "If the destructor of a key or value panics while a map is dropped, cleared, overwritten or consumed by an iterator, and the panic is caught, the operation has had its effect, no entry is destroyed twice, the entries after the panicking one are leaked and nothing else, the memory of every map is intact, and every later operation behaves as if nothing had happened; the process aborts only if a second destructor panics while the first panic unwinds. (Refuted for append, which destroys replaced entries while the new tree is half built: removing from the map afterwards is undefined behaviour; proved for every other operation, and for append that nothing is destroyed twice.)",
  "every history, every destructor behaviour over time, every allocator behaviour and address assignment", "panics at every destructor call of every history", [M+"Drop for BTreeMap", M+"Drop for IntoIter", M+"clear", M+"append", M+"MergeIter"])
p("Programs over vectors behave like programs over lists",
  "Any sequence of calls of the fallible vector operations on any number of vectors observes exactly what the same calls on plain lists give: every successful call has its list effect, every failing call is justified by a request that does not fit any allocation or that the allocator refused (or by a failing clone), arguments are given back or dropped, panics come only from user code or an index out of range, a second panic during unwinding aborts, no call is undefined, and afterwards every vector is valid. (The one exception, named in the statement: try_resize_no_copy shrinking past an element whose destructor panics, C06.)",
  "every program, every allocator behaviour, every behaviour of clones, closures and destructors over time, every element size", "unbounded histories with failures and panics at every point", ["src/vec.rs:FallibleVec", "src/vec.rs:TryVec", "src/vec.rs:try_from_elem", "src/vec.rs:try_from_iterator"])
p("No value is lost or dropped twice by vector programs",
  "Over any program of fallible vector operations, the values passed in together with those produced by clones and closures are exactly those handed back, those dropped and those still in a vector, counted with multiplicity; if all vectors are dropped at the end, every value was handed back or dropped exactly once - on success, on allocation failure, on clone failure and on panic alike.",
  "every program, every allocator and clone behaviour", "leaks and double drops on error paths are invisible to assertions on content", ["src/vec.rs:FallibleVec", "src/vec.rs:try_push_give_back", "src/vec.rs:try_extend_with", "src/vec.rs:Truncate"])
p("Programs over sets behave like programs over ascending lists",
  "Any sequence of calls on any number of BTreeSets observes exactly what the same calls on ascending lists give: insertions, replacements, removals, lookups, append, split_off, clone, extend, collect, iterators and ranges from both ends, comparisons, the four lazy combinations with their size hints, the three relations and the four operators; failures only for lack of memory, panics only for that, from an element's own clone, or for bad range bounds; afterwards every set is well built. (As for maps, nothing is promised after a refused insertion of a new element into a set of 11 or more elements, or after a bulk operation that panicked for lack of memory.)",
  "every program, every allocator behaviour, every lawful order and clone", "unbounded histories mixing all set operations", [S+"try_insert", S+"replace", S+"append", S+"split_off", S+"difference", S+"union", S+"is_subset", S+"Sub", S+"range"])
p("Memory requests and space are bounded by the size of the map",
  "A BTreeMap of n entries holds at most n/4 + 1 blocks of memory, whatever its history. Inserting a present key asks for no memory (so it cannot fail); inserting a new key asks for at most height + 2 blocks, with the height at most logarithmic in n; all insertions that build a map of n entries ask for at most n/4 + 1 blocks together. split_off asks for at most one block per level, append (of two non-empty maps) and try_clone for exactly the blocks of the map they build, an append with an empty map for none; removal, lookup, iteration, ranges and comparisons ask for none, and removal never makes the map larger in memory.",
  "every map, every history, every lawful order", "bounds over all histories; the number of requests is what decides whether a fallible call can fail", [M+"try_insert", M+"split_off", M+"append", M+"clone_subtree", N+"new_leaf", N+"push_level"])
p("No key or value is lost or dropped twice by map programs",
  "Over any program of BTreeMap operations, the keys and values handed in together with those made by cloning are exactly those handed back, those dropped and those still in a map, counted with multiplicity: at every step, on success, on a refused split_off, clone or append, on a failing or panicking clone alike. If all maps are dropped at the end, each was handed back or dropped exactly once. (A refused insertion balances too, but the part of the tree that it loses, C24, is leaked: never dropped.)",
  "every program, every allocator and clone behaviour, every lawful order", "leaks and double drops on error paths are invisible to assertions on content", [M+"try_insert", M+"append", M+"split_off", M+"clone_subtree", M+"Drop for BTreeMap", M+"Drop for IntoIter", M+"VacantEntry"])
p("Set algebra with an inconsistent ordering is memory safe and honest about its parts",
  "If the ordering of the elements answers inconsistently (anything, differently on each call), every BTreeSet operation, including the four lazy combinations with their size hints, the relations, the four operators and collect, still terminates without undefined behaviour, abort or leak of memory, and its result is made of the operands: a difference or intersection is a subsequence of the one set, at most as many elements short as the other set has; a union interleaves both, leaving out at most elements of the right one for elements of the left; a symmetric difference leaves out elements in pairs; size_hint() is right; is_subset() is true for an empty and false for a longer left set. If the ordering panics and the panic is caught, the sets are as before the call and the half-built result of an operator is freed (except append and split_off, C43).",
  "every program, every behaviour of the ordering over time, every allocator behaviour", "orderings are arbitrary safe user code with arbitrary state", [S+"Difference", S+"SymmetricDifference", S+"Intersection", S+"Union", S+"is_subset", S+"is_disjoint", S+"Sub", S+"FromIterator"])
p("Set programs on raw memory behave like programs over ascending lists",
  "Any sequence of calls on any number of BTreeSets, run on raw memory with nodes placed wherever the allocator likes, observes exactly what the same calls on ascending lists give: the lazy difference, symmetric difference, intersection and union yield exactly the members of that combination in ascending order with a right size_hint() at any point; is_subset, is_superset and is_disjoint answer the mathematical question; the operators and collect build the set of clones; the rest as for maps; and after every step the memory is exactly that of the sets: nothing freed is reachable, nothing allocated is lost.",
  "every program, every allocator behaviour and address assignment, every lawful order and clone", "unbounded histories; memory layout and iterator positions are not observable by assertions", [S+"Difference", S+"SymmetricDifference", S+"Intersection", S+"Union", S+"is_subset", S+"is_superset", S+"is_disjoint", S+"BitOr", S+"FromIterator"])
p("Programs over Box, TryBox, Rc and Arc: each value and each block once",
  "Over any program that creates, clones, reads, overwrites, moves out of and drops boxes (through the fallible constructors and try_clone), turns TryBoxes into raw pointers and back, and creates, shares and drops Rc and Arc values: every read sees the value last stored; no freed block is touched and every block is freed once, with the size it was allocated with; a shared value is dropped exactly when its last reference is; a value handed to a constructor that fails is dropped and nothing else changes; failures come only from the allocator (or the clone), and the process ends only when the second, infallible allocation of Rc::try_new (or stable Arc::try_new) is refused, when the allocator refuses to shrink a reservation, or past isize::MAX references. When all variables are dropped, each value that was handed in or cloned was dropped once, moved out once, or sits behind a raw pointer that was never turned back, and only the blocks of those pointers remain. With memory available no call fails.",
  "every program, every allocator behaviour and address assignment, every clone, every element size including zero", "use after free, wrong-size frees and leaks on error paths are not visible to assertions; histories are unbounded", ["src/boxed.rs:FallibleBox::try_new", "src/boxed.rs:TryBox::into_raw", "src/boxed.rs:TryBox::from_raw", "src/boxed.rs:TryClone for TryBox", "src/rc.rs:FallibleRc", "src/arc.rs:FallibleArc", "src/arc.rs:TryClone for Arc"])
p("Iterators can be cloned and printed at any point",
  "At any point of its life an iterator over a map (iter, keys, values, range, and the mutable and set forms that wrap them) can be cloned, asked for its length and printed with {:?}: a clone delivers exactly the entries the original had left, each independently of the other; printing lists exactly the entries still to come, in order, and neither changes nor advances anything; len() is their number. Printing an IntoIter that has been partly consumed from either end reads only nodes it has not freed and lists exactly what it will still deliver; dropping it then destroys those entries and frees every remaining node. No such session changes the map or its memory, in any program.",
  "every program, every position and interleaving of any number of clones, every allocator behaviour and address assignment, every lawful order", "a half-consumed IntoIter owns a half-freed tree; whether printing touches a freed node is not visible to assertions", [M+"Debug for Iter", M+"Clone for Iter", M+"Debug for IntoIter", M+"Debug for Range", M+"Clone for Range", M+"Debug for RangeMut", M+"Debug for BTreeMap", M+"ExactSizeIterator for Iter", S+"Clone for Iter"])
p("The number of comparisons is bounded, whatever the comparisons answer",
  "Every BTreeMap and BTreeSet operation calls the user's comparison code (Ord, PartialEq, PartialOrd, RangeBounds) at most as often as the sizes of the collections allow, even if the answers are inconsistent or a call panics: a lookup, insertion, removal, entry or split_off in a collection of n entries at most 11 * (1 + log2(n+1)/2) times, a range a little more than twice that, append at most once per entry of the two maps, extend and collect one lookup per item, == only for maps of equal length and then at most n times, cmp at most as often as the shorter is long, iteration, clone, clear and len never; the lazy set operations, however often they are asked, at most n + m times or, where one set is sixteen times smaller, one lookup in the larger per element of the smaller; the operators that and one lookup per delivered element.",
  "every program, every behaviour of the comparisons over time, every allocator behaviour and address assignment", "complexity bounds against adversarial comparisons over all histories", ["src/btree/search.rs:search_tree", "src/btree/search.rs:search_linear", M+"range_search", M+"append", M+"PartialEq for BTreeMap", S+"Difference", S+"Intersection", S+"is_subset"])
p("Lazy set iterators can be cloned, printed and asked for their size at any point",
  "At any point of its life the iterator of a difference, symmetric difference, intersection or union of two BTreeSets is exactly the ascending list of what it has not delivered: a clone delivers the same elements, each independently of the other; next() takes the first, and after the first None returns None for ever; size_hint() bounds the number of elements still to come; printing with {:?} shows, of each set that is walked, exactly the elements behind those already passed, among them everything still to come, and neither changes nor advances anything. No such session changes a set or its memory, fails or panics, in any program.",
  "every program, every interleaving of calls to any number of clones, every allocator behaviour and address assignment, every lawful order", "the iterators keep peeked elements and half-advanced positions in two trees; all interleavings and sizes (the strategy depends on the ratio of sizes)", [S+"Clone for Difference", S+"Clone for SymmetricDifference", S+"Clone for Intersection", S+"Clone for Union", S+"Debug for Difference", S+"Debug for Union", S+"FusedIterator for Difference", S+"Difference::size_hint"])
p("Cloned and printed lazy set iterators are safe when Ord answers anything",
  "When the comparisons of the elements are arbitrary, inconsistent or stateful code, a session that advances, clones, prints and measures the iterators of difference, symmetric difference, intersection and union never has undefined behaviour and never changes a set or its memory. Each iterator stands at a place in the two sets, and a clone at the same place; next() only moves forward and delivers an element the operation may deliver from there for some answers; None means that nothing may come any more, for ever; size_hint() bounds whatever may still come; {:?} shows exactly what has not been passed. When a comparison panics in next() and the caller catches the panic, the sets and the memory are unchanged, the iterator and its clones remain usable with everything said here, and the iterator has at most moved forward.",
  "every program over BTreeSets with sessions of any commands in any order, all sets, all comparison functions with any answers and effects, panicking ones included, all allocators and placements",
  "The answers of a hostile comparison, the order of commands and the places of the iterators are unbounded, and undefined behaviour need not show in a test.",
  ["src/btree/set.rs: Difference, SymmetricDifference, Intersection, Union (Clone, Debug, Iterator)","src/btree/map.rs: Iter, Keys"])
p("The parts of a B-tree node never overlap and are found through every view of the node",
  "For every key and value type, the header fields, the 11 keys, the 11 values and the 12 edges of a node are pairwise disjoint in memory, lie within the node, and are properly aligned wherever an aligned node is allocated; an internal node looked at as a leaf, and either looked at as a bare header (as the shared empty root is), has the parts it shares with that view at the same places.",
  "every pointer width, every size and power-of-two alignment of keys and values, every pair of parts",
  "The layouts of generic types are unbounded; an overlap or misalignment corrupts memory only for some types.",
  ["src/btree/node.rs:NodeHeader","src/btree/node.rs:LeafNode","src/btree/node.rs:InternalNode","src/btree/node.rs:as_header"])
p("Programs over several TryHashMaps: contents, and each key and value once",
  "Over any program that creates, fills, reads, empties, clones and drops TryHashMaps, whatever the equality of keys does: insert keeps the stored key of an equal entry, replaces its value and returns the old one, otherwise adds the entry; remove takes out one equal entry and returns its value; get, len and iter agree with the contents; try_clone gives a map of the clones or changes nothing; a failing call changes no map; an error is a capacity overflow because the allocator refused, or comes from a clone; nothing aborts. With a lawful equality no map ever holds two equal keys. Every key and value handed in or made by a clone is in a map, was handed out, or was destroyed exactly once, also when insert is refused, when the key was there already, and when try_clone fails or panics half way.",
  "every program, every allocator behaviour, every equality of keys, table layout and iteration order, every clone that returns, fails or panics",
  "leaks and double drops on the error paths of insert and try_clone are not visible to assertions; histories, orders and failure points are unbounded",
  ["src/hashmap.rs:TryHashMap::insert","src/hashmap.rs:TryHashMap::remove","src/hashmap.rs:TryHashMap::with_capacity","src/hashmap.rs:TryClone for TryHashMap","src/hashmap.rs:IntoIterator for TryHashMap"])
p("A damaged map does not harm the others",
  "When an insertion into a BTreeMap is refused memory, or extend, append or split_off of it panics (for want of memory, because a comparison panicked, or because a destructor did), only that map may be unusable. All other maps keep their entries and their memory - append has emptied the map it took from, split_off has not touched its target - and everything a program goes on to do with them, including further failures, is as if nothing had happened, next to leaked nodes that no map touches. So a program that never again uses such a map (and does not drop it) has no undefined behaviour and never aborts, whatever the allocator and the comparisons do; a destructor that panics while a panic is being handled is the only thing that stops it. The same holds of BTreeSets; comparing and combining sets damages none, but a set of 11 elements or more that is refused memory while an operator or collect() builds it is dropped at once, which is undefined.",
  "every program, every point of failure and any number of failures, every allocator behaviour and address assignment, every behaviour of the comparisons, every destructor",
  "a corrupted tree could share nodes with a healthy one without showing it for long; failure points and continuations are unbounded",
  ["src/btree/map.rs:VacantEntry::try_insert","src/btree/map.rs:try_insert","src/btree/map.rs:append","src/btree/map.rs:split_off","src/btree/map.rs:Extend for BTreeMap"])
p("An operation writes only to the maps it is given",
  "Operations that take &self (get, get_key_value, contains_key, indexing, len, is_empty, iter, range, ==, partial_cmp) write nothing to memory at all, whatever the comparisons do and even on a corrupted map. get_mut, iter_mut and range_mut change values and nothing else: no key, length, link, node. try_clone and clone do not write to the map they read. Every other operation writes to or frees only nodes of the maps it takes by &mut or by value, besides nodes it allocates itself; other maps, damaged maps and leaked nodes keep their contents cell by cell, also when the operation returns an error or panics. Likewise for BTreeSet: comparing sets and using the lazy difference, symmetric difference, intersection and union (next, size_hint, clone, {:?}) write nothing; the operators -, ^, &, | and collect write only to the set their result is assigned to.",
  "every program, every operation and outcome, every allocator behaviour and address assignment, every behaviour of the comparisons; for the readers and the &mut V operations every heap, in order or not",
  "a stray write to a neighbouring structure, or a hidden write through a shared reference (a data race in safe code), shows only much later or never in a test",
  ["src/btree/search.rs:search_tree","src/btree/map.rs:range_search","src/btree/map.rs:get","src/btree/map.rs:get_mut","src/btree/map.rs:iter_mut","src/btree/map.rs:TryClone for BTreeMap","src/btree/map.rs:VacantEntry::try_insert","src/btree/node.rs:correct_parent_link","src/btree/set.rs:Difference","src/btree/set.rs:is_subset","src/btree/set.rs:BitOr","src/btree/set.rs:FromIterator"])
p("Threads with separate maps do not influence each other, and node addresses are invisible",
  "Several threads that each work on their own BTreeMaps, and share others only for reading (lookups, iteration, comparison, cloning from them), each see exactly the results they would see running alone after the same preparation: the interleaving of their operations cannot be observed. Nor can it be observed where the allocator places the nodes, or which freed addresses it reuses.",
  "every preparation, every set of programs, every interleaving of their operations, every address assignment of the allocator (granting memory); lawful comparisons, clone functions that return the same copy each time",
  "interleavings and address reuse cannot be enumerated by tests; a dependency shows only under a particular schedule or heap layout",
  ["src/btree/map.rs:BTreeMap","src/btree/map.rs:get","src/btree/map.rs:TryClone for BTreeMap","src/btree/map.rs:append","src/btree/map.rs:split_off","src/btree/node.rs:unsafe impl Send","src/btree/node.rs:unsafe impl Sync"])
p("User code that holds a &mut V, or feeds a map, may do anything and panic; entries may be used step by step",
  "Code that is given a &mut V - the closure of and_modify, or whatever is done with get_mut, with the reference or_try_insert_with returns, with OccupiedEntry::get_mut, or in a loop over iter_mut or range_mut from either end - may change the value and its own surroundings and then panic. Afterwards the map is in order: the value is what the code left there, no other entry has changed, and exactly the code that should run has run, on the values it should see, in order. An entry may be asked for its key and value, and changed, any number of times before it is dropped, removed, filled or overwritten; what it shows is always what the map holds. If the closure of or_try_insert_with panics, nothing is inserted. The iterator given to extend or collect may have effects and panic too: the items it has delivered are in the map extend was called on, a map that collect was building is dropped and nothing else has changed. Any program may go on using the maps.",
  "every program, every user code with any effects, panicking ones included, every point at which it panics, every sequence of calls on an entry and to both ends of an iterator, every allocator behaviour and address assignment, every lawful order",
  "user code, the points where it panics and the interleavings with the rest of a program are unbounded",
  ["src/btree/map.rs:Entry::and_modify","src/btree/map.rs:Entry::or_try_insert_with","src/btree/map.rs:OccupiedEntry","src/btree/map.rs:VacantEntry","src/btree/map.rs:get_mut","src/btree/map.rs:iter_mut","src/btree/map.rs:range_mut"])
out=os.path.join(os.path.dirname(os.path.abspath(__file__)),"..","properties.jsonl")
with open(out,"w") as f:
    for x in P: f.write(json.dumps(x)+"\n")
print(len(P))
