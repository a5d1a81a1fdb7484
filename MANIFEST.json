{
 "claims": [
  {
   "property": "C01",
   "status": "proved",
   "theorems": [
    "C01_failed_call_changes_nothing"
   ],
   "note": "Every operation named in the claim, for an arbitrary allocator; the TryVec methods are the same functions by delegation."
  },
  {
   "property": "C02",
   "status": "proved",
   "theorems": [
    "C02_push",
    "C02_push_give_back",
    "C02_insert",
    "C02_append",
    "C02_resize",
    "C02_resize_with",
    "C02_extend_from_slice",
    "C02_extend_from_slice_no_copy",
    "C02_resize_no_copy",
    "C02_pop"
   ],
   "note": ""
  },
  {
   "property": "C03",
   "status": "proved",
   "theorems": [
    "C03_never_aborts"
   ],
   "note": ""
  },
  {
   "property": "C04",
   "status": "proved",
   "theorems": [
    "C04_gives_back"
   ],
   "note": ""
  },
  {
   "property": "C05",
   "status": "proved",
   "theorems": [
    "C05_extend_interrupted",
    "C05_resize_interrupted"
   ],
   "note": ""
  },
  {
   "property": "C06",
   "status": "partial",
   "theorems": [
    "C06_shrink_drops_once_partial",
    "C06_panic_exact_partial",
    "C06_double_drop_refuted"
   ],
   "note": "The full property is false of the code: truncate (src/vec.rs) decrements len only after drop_in_place returns, so a panicking destructor leaves the element in the vector and it is dropped again. C06_double_drop_refuted proves the negation of the full statement with a concrete run; C06_shrink_drops_once_partial proves the property when destructors return. C06_panic_exact_partial characterises every run: either all removed elements are destroyed once, or the vector still owns the one whose destructor panicked and dropping it is a double drop."
  },
  {
   "property": "C07",
   "status": "proved",
   "theorems": [
    "C07_reservation_covers_pushes",
    "C07_with_capacity_covers_pushes",
    "C07_reserve_within_room_is_noop"
   ],
   "note": ""
  },
  {
   "property": "C08",
   "status": "proved",
   "theorems": [
    "C08_deep_clone",
    "C08_vec_clone"
   ],
   "note": ""
  },
  {
   "property": "C09",
   "status": "proved",
   "theorems": [
    "C09_concat"
   ],
   "note": ""
  },
  {
   "property": "C10",
   "status": "proved",
   "theorems": [
    "C10_collect_exact",
    "C10_collect_whole",
    "C10_collect_total"
   ],
   "note": ""
  },
  {
   "property": "C11",
   "status": "proved",
   "theorems": [
    "C11_box_try_new",
    "C11_box_fails_only_on_refusal"
   ],
   "note": ""
  },
  {
   "property": "C12",
   "status": "partial",
   "theorems": [
    "C12_rc_holds_value_partial",
    "C12_rc_exact_partial",
    "C12_arc_unstable_fallible",
    "C12_arc_clone",
    "C12_rc_aborts_refuted"
   ],
   "note": "Refuted for Rc and the stable Arc (second infallible allocation aborts: C12_rc_aborts_refuted); proved for the unstable Arc path; the value held on success is proved for all. C12_rc_exact_partial: exactly when Rc::try_new returns, fails and aborts."
  },
  {
   "property": "C13",
   "status": "proved",
   "theorems": [
    "C13_within_capacity",
    "C13_exact_text",
    "C13_beyond_capacity_can_abort"
   ],
   "note": "C13_beyond_capacity_can_abort exhibits the documented limitation."
  },
  {
   "property": "C14",
   "status": "proved",
   "theorems": [
    "C14_history",
    "C14_refused_insert_changes_nothing"
   ],
   "note": ""
  },
  {
   "property": "C15",
   "status": "proved",
   "theorems": [
    "C15_insert_never_aborts",
    "C15_with_capacity_covers_inserts"
   ],
   "note": ""
  },
  {
   "property": "C16",
   "status": "proved",
   "theorems": [
    "C16_try_clone"
   ],
   "note": ""
  },
  {
   "property": "C17",
   "status": "proved",
   "theorems": [
    "C17_read_up_to"
   ],
   "note": ""
  },
  {
   "property": "C18",
   "status": "proved",
   "theorems": [
    "C18_write_all_or_nothing",
    "C18_writes_concatenate"
   ],
   "note": ""
  },
  {
   "property": "C19",
   "status": "proved",
   "theorems": [
    "C19_from_elem",
    "C19_from_elem_whole",
    "C19_from_elem_u8"
   ],
   "note": ""
  },
  {
   "property": "C20",
   "status": "proved",
   "theorems": [
    "C20_history",
    "C20_with_memory"
   ],
   "note": "A program is any list of 27 kinds of operations on numbered maps (HistoryModel), its meaning the model's functions; spec/agrees (HistorySpec) speak about plain lists only. C20_with_memory is the unconditional form when memory suffices."
  },
  {
   "property": "C21",
   "status": "proved",
   "theorems": [
    "C21_history",
    "C21_min_len_refuted"
   ],
   "note": "C21_history: after every step of every program every map is well built (uniform depth, at most 11 entries per node, at least 4 in a non-root node, order, length). The documented minimum 5 is false: C21_min_len_refuted reaches a node of 4 entries with twelve insertions."
  },
  {
   "property": "C22",
   "status": "proved",
   "theorems": [
    "C22_iter",
    "C22_into_iter",
    "C22_keys",
    "C22_values",
    "C22_values_mut",
    "C22_each_once",
    "C22_in_order",
    "C22_exhausted"
   ],
   "note": ""
  },
  {
   "property": "C23",
   "status": "proved",
   "theorems": [
    "C23_range_panics",
    "C23_range"
   ],
   "note": ""
  },
  {
   "property": "C24",
   "status": "partial",
   "theorems": [
    "C24_try_insert_partial",
    "C24_replace_partial",
    "C24_unchanged",
    "C24_exact_partial",
    "C24_len_refuted",
    "C24_entries_refuted",
    "C24_drop_refuted",
    "C24_set_try_insert_partial",
    "C24_set_replace_partial",
    "C24_collect_exact",
    "C24_collect_all_refuted",
    "C24_raw_memory_refuted",
    "C24_sets_drop",
    "C24_hostile_drop",
    "C24_drop",
    "C24_collect_refuted"
   ],
   "note": "The full property is false of the code: VacantEntry::try_insert increments the length before anything that can fail, and a refused split loses entries. C24_len_refuted, C24_entries_refuted, C24_drop_refuted prove this with concrete runs; the _partial theorems prove what holds for every map, and C24_unchanged the cases in which the full property holds. C24_exact_partial: a refused insertion leaves the map unchanged iff it owned no tree, and always does the damage otherwise. C24_collect_refuted: collect() of twelve entries that is refused its second node is itself undefined behaviour, because the damaged map is dropped while the panic unwinds. C24_collect_exact: a collect() that is refused its first node panics and has done nothing; refused any later one it is undefined behaviour. C24_collect_all_refuted: so is every collect() of twelve or more different keys that is refused everything after its first node, at any moment of any program. C24_drop (lawful or lawless pure comparisons) and C24_hostile_drop (comparisons that answer anything): in raw memory, after any program, a refused insertion into a map with entries makes every later drop or clear() of that map undefined behaviour, whatever is done to other maps in between. C24_sets_drop says the same for programs over sets."
  },
  {
   "property": "C25",
   "status": "proved",
   "theorems": [
    "C25_existing_key"
   ],
   "note": ""
  },
  {
   "property": "C26",
   "status": "proved",
   "theorems": [
    "C26_remove_entry",
    "C26_remove",
    "C26_get"
   ],
   "note": ""
  },
  {
   "property": "C27",
   "status": "proved",
   "theorems": [
    "C27_append"
   ],
   "note": ""
  },
  {
   "property": "C28",
   "status": "proved",
   "theorems": [
    "C28_split_off"
   ],
   "note": ""
  },
  {
   "property": "C29",
   "status": "proved",
   "theorems": [
    "C29_try_clone",
    "C29_clone"
   ],
   "note": ""
  },
  {
   "property": "C30",
   "status": "proved",
   "theorems": [
    "C30_drop",
    "C30_into_iter",
    "C30_try_clone",
    "C30_split_off",
    "C30_append",
    "C30_split_off_keeps"
   ],
   "note": "Drops and deallocations are recorded as traces of the model; the leak of the split-off right node on a refused insertion is C24. C30_split_off_keeps: a split_off loses nothing, and what a refused one throws away holds no entry."
  },
  {
   "property": "C31",
   "status": "proved",
   "theorems": [
    "C31_difference",
    "C31_symmetric_difference",
    "C31_union",
    "C31_intersection",
    "C31_intersection_membership"
   ],
   "note": ""
  },
  {
   "property": "C32",
   "status": "proved",
   "theorems": [
    "C32_is_subset",
    "C32_is_superset",
    "C32_is_disjoint"
   ],
   "note": ""
  },
  {
   "property": "C33",
   "status": "proved",
   "theorems": [
    "C33_try_entry",
    "C33_key",
    "C33_and_modify",
    "C33_or_insert",
    "C33_vacant_insert",
    "C33_occupied"
   ],
   "note": ""
  },
  {
   "property": "C34",
   "status": "proved",
   "theorems": [
    "C34_get",
    "C34_contains",
    "C34_take",
    "C34_remove",
    "C34_try_insert",
    "C34_replace"
   ],
   "note": ""
  },
  {
   "property": "C35",
   "status": "proved",
   "theorems": [
    "C35_eq",
    "C35_partial_cmp",
    "C35_lexicographic",
    "C35_cmp_eq",
    "C35_hash",
    "C35_eq_hash"
   ],
   "note": ""
  },
  {
   "property": "C36",
   "status": "proved",
   "theorems": [
    "C36_cost"
   ],
   "note": ""
  },
  {
   "property": "C37",
   "status": "proved",
   "theorems": [
    "C37_extend",
    "C37_from_iter",
    "C37_lookup"
   ],
   "note": ""
  },
  {
   "property": "C38",
   "status": "proved",
   "theorems": [
    "C38_get_mut",
    "C38_range_mut",
    "C38_iter_mut",
    "C38_values_mut"
   ],
   "note": ""
  },
  {
   "property": "C39",
   "status": "partial",
   "theorems": [
    "C39_keys_located_partial",
    "C39_large_alignment_panics_refuted"
   ],
   "note": "The full property is false of the code: for every key alignment above 16 bytes (64-bit), the size assertion in into_key_slice fails and any lookup panics (C39_large_alignment_panics_refuted). C39_keys_located_partial proves it for every smaller alignment; the two theorems together cover every alignment."
  },
  {
   "property": "C40",
   "status": "proved",
   "theorems": [
    "C40_history",
    "C40_with_memory",
    "C40_no_leak"
   ],
   "note": "HeapModel/HeapMapModel are node.rs, search.rs and map.rs statement by statement on a heap of cells with MaybeUninit slots; every read of an uninitialised or dead slot, write outside an array, write or free of a dead or static node, free with the wrong layout and failed debug assertion is the outcome UB. C40_history: no step of any program has it (other than through an element's own clone), and after each step HeapSpec.memory holds (arrays, lengths, parent pointers and indices exact, maps disjoint, every allocated node owned); after a refused insertion the weaker torn_memory. C40_no_leak: dropping the variables frees every node. C24_raw_memory_refuted shows that the exception is real."
  },
  {
   "property": "C41",
   "status": "proved",
   "theorems": [
    "C41_sub",
    "C41_bitxor",
    "C41_bitor",
    "C41_bitand"
   ],
   "note": ""
  },
  {
   "property": "C42",
   "status": "proved",
   "theorems": [
    "C42_history",
    "C42_never_unsafe",
    "C42_no_leak",
    "C42_lawful",
    "C42_same_program"
   ],
   "note": "HostileModel: the functions of HeapMapModel that compare, with comparisons that are arbitrary effectful functions of the world which may panic. HostileSpec.loose says what each operation may then do to plain lists; C42_history: after every step of every program the raw memory is that of such lists. C42_never_unsafe: with comparisons that return and enough memory no step is undefined, aborts or is refused. C42_no_leak: dropping the variables frees every node. C42_lawful and C42_same_program (HostilePure): with comparisons that are lawful functions the same program text does what HistorySpec says, and is the program of C40."
  },
  {
   "property": "C43",
   "status": "partial",
   "theorems": [
    "C43_append_panics",
    "C43_panic_partial",
    "C43_append_panic_refuted",
    "C43_split_off_panic_refuted",
    "C43_sets_split_off",
    "C43_sets_append",
    "C43_split_off_panics"
   ],
   "note": "The full property is false of the code: append moves both trees into iterators before it compares (self is left with a half-built tree without its right border repaired), and split_off moves the upper part of the root before it compares in the next level (len() keeps the old value). C43_append_panic_refuted and C43_split_off_panic_refuted run a program to undefined behaviour; C43_panic_partial proves the property for every program without these two operations. C43_split_off_panics: a split_off that panics leaves its map either exactly as it was (all later use as any other map's) or in a state in which every later drop or clear of it is undefined, whatever is done with other maps meanwhile. C43_append_panics: after a panicking append, self holds a weave of first parts of both maps in an unbalanced tree whose len() is right, the other map is empty, dropping or clearing self is defined and gives the variable back, and all other maps behave as if nothing had happened. C43_sets_split_off and C43_sets_append say the same for programs over sets."
  },
  {
   "property": "C44",
   "status": "partial",
   "theorems": [
    "C44_history_partial",
    "C44_quiet",
    "C44_without_append",
    "C44_append_panic_refuted",
    "C44_append_panics"
   ],
   "note": "The full property is false of the code: append drops the replaced entries of self in the middle of from_sorted_iter, whose tree is then left without its right border repaired; C44_append_panic_refuted runs a program to undefined behaviour. C44_history_partial covers every program up to such a panic (DropSpec.runs_dropping: outcomes, which entries are destroyed in which order, exact memory, what is leaked, that append destroys nothing twice); C44_without_append is the unconditional form for programs without append; C44_quiet relates the model to C40 when no destructor panics. C44_append_panics: after an append that panicked (destructor or memory), self holds a first part of the merged map in an unbalanced tree with a right len(), the other map is empty, every other entry was destroyed once; whatever is done with other maps meanwhile, dropping or clearing self then destroys what it holds in order and gives the variable back (a destructor that panics ends the destruction, a second one aborts)."
  },
  {
   "property": "C45",
   "status": "proved",
   "theorems": [
    "C45_history",
    "C45_quiet"
   ],
   "note": "VecHistoryModel: programs of 20 kinds of calls on numbered vectors (collecting from any iterator and concat among them), with the drops of arguments, partial results and old values; VecHistorySpec says what each call does to plain lists and the world. C45_history for panicking destructors (it stops promising after the C06 case); C45_quiet: with destructors that return no program aborts, is undefined or ends early."
  },
  {
   "property": "C46",
   "status": "proved",
   "theorems": [
    "C46_conservation",
    "C46_exactly_once"
   ],
   "note": "The ledger is any pair of observers of the world that clones, closures and destructors keep (VecConserve); equality of weights under every weight function, and of multisets when equality is decidable. The two operations for Copy types are excluded: they duplicate values."
  },
  {
   "property": "C47",
   "status": "proved",
   "theorems": [
    "C47_history",
    "C47_with_memory"
   ],
   "note": "SetHistoryModel: programs of 31 kinds of calls on numbered sets; SetHistorySpec says, about ascending lists only, what each call may do. C47_with_memory is the unconditional form when memory suffices and clones return."
  },
  {
   "property": "C48",
   "status": "proved",
   "theorems": [
    "C48_space",
    "C48_remove",
    "C48_insert",
    "C48_extend",
    "C48_from_iter",
    "C48_split_off",
    "C48_append",
    "C48_clone",
    "C48_history",
    "C48_only_these_ask"
   ],
   "note": "Requests are counted by any observer of the world that each allocator call raises by one; blocks (SpaceSpec) counts the nodes of the tree. C48_history is the space bound along every program of C20."
  },
  {
   "property": "C49",
   "status": "proved",
   "theorems": [
    "C49_same_run",
    "C49_books",
    "C49_keys",
    "C49_values",
    "C49_refused_insertion_leaks"
   ],
   "note": "LedgerModel repeats the functions that own keys and values with a record of what they clone, drop and leak; C49_same_run: without the record it is the program of C20. C49_books: the balance of every step for arbitrary weights (hence for every multiset); C49_keys and C49_values: the same as permutations of lists for whole programs whose variables go out of scope. C49_refused_insertion_leaks: the leak after a refused insertion is real."
  },
  {
   "property": "C50",
   "status": "proved",
   "theorems": [
    "C50_history",
    "C50_never_unsafe",
    "C50_panic"
   ],
   "note": "HostileSetModel: set.rs's lazy iterators, relations, operators and collect over the raw iterators and searches of C40/C42, comparisons arbitrary effectful functions that may panic. HostileSetSpec.xloose says what each call may do, about lists of elements; C50_history: after every step of every program the memory is that of such lists. C50_never_unsafe and C50_panic: the unconditional forms when memory suffices, for comparisons that return and for programs without append and split_off."
  },
  {
   "property": "C51",
   "status": "proved",
   "theorems": [
    "C51_history",
    "C51_with_memory"
   ],
   "note": "The program text of C50 (HostileSetModel) with comparisons that are lawful functions. LawfulSetSpec.xspec says what each call does, about ascending lists; C51_history: every step agrees with it and leaves exactly the memory of those lists, up to a refused insertion or bulk operation (xquits, as in C40 and C47). C51_with_memory: the unconditional form when memory suffices and clones return."
  },
  {
   "property": "C52",
   "status": "proved",
   "theorems": [
    "C52_history",
    "C52_balance",
    "C52_with_memory"
   ],
   "note": "PtrModel: programs over Box/TryBox, raw pointers and Rc/Arc on memory blocks (address, size, value, strong count). PtrSpec.pspec says what each call does about values in boxes and shared values, pmemory which blocks are behind them. C52_history: every program; C52_balance: the books and the blocks at the end; C52_with_memory: no failure if the allocator grants. Not modelled: Weak, destructors that panic."
  },
  {
   "property": "C53",
   "status": "proved",
   "theorems": [
    "C53_history"
   ],
   "note": "LookModel: sessions on pools of iterators (next, next_back, len, clone, Debug) over the raw iterators of C40, and on an IntoIter, whose Debug reads the partly freed tree through a Range of its two handles. LookSpec treats an iterator as the list of what it has left. C53_history: every step of every program that mixes these sessions with the operations of C40 agrees with it and leaves exactly the memory of the maps (the very same cells, for sessions that only read)."
  },
  {
   "property": "C54",
   "status": "proved",
   "theorems": [
    "C54_map_history",
    "C54_set_history"
   ],
   "note": "The programs of C42 and C50 with a counter in the world that every call of a comparison raises by one and nothing else touches; CostSpec.price/xprice give each operation's bound from the sizes of the lists. C54_map_history and C54_set_history: along every program every step moves the counter by at most its price (up to and including a step after which HostileSpec promises nothing more, C43)."
  },
  {
   "property": "C55",
   "status": "proved",
   "theorems": [
    "C55_history",
    "C55_with_memory"
   ],
   "note": "LazyModel: sessions (next, size_hint, clone, Debug) on pools of the lazy iterators of C50/C51, within programs of C51. LazySpec.zsees treats each iterator as the list it has left. LazySpec.printed: the printed fields are suffixes of the two sets. C55_history: every step of every program agrees with it; a session leaves the very same memory. C55_with_memory: the unconditional form when memory suffices."
  },
  {
   "property": "C56",
   "status": "proved",
   "theorems": [
    "C56_history",
    "C56_with_memory"
   ],
   "note": "The sessions of C55 (LazyModel) with the arbitrary comparisons of C50. HostileLazySpec.zwalks: each iterator is the pair of what it has not passed; panics of next() are caught inside the session (ZW_panic) and the iterators used on. LazyCatch.next_c_same: not caught, this is the next() of C50. C56_history: every step of every program; C56_with_memory: the unconditional form when memory suffices (no append/split_off if comparisons may panic, as in C43)."
  },
  {
   "property": "C57",
   "status": "proved",
   "theorems": [
    "C57_casts",
    "C57_apart",
    "C57_within",
    "C57_aligned"
   ],
   "note": "LayoutModel: the repr(C) algorithm of the Rust reference applied to the three structs, and the place of each part. C57_apart, C57_within, C57_aligned and C57_casts hold for every size and alignment (also those C39 refutes lookups for)."
  },
  {
   "property": "C58",
   "status": "proved",
   "theorems": [
    "C58_history",
    "C58_distinct",
    "C58_lookup",
    "C58_conservation",
    "C58_exactly_once"
   ],
   "note": "The table itself (probing, hashing) is std by contract: a bag of entries, of which a lookup finds one that equals the key, if any; layout and iteration order arbitrary. Eq is a pure function without any laws; Hash, and an Eq that panics or changes its answers, are inside std and not modelled. Destructors act on the world and return."
  },
  {
   "property": "C59",
   "status": "proved",
   "theorems": [
    "C59_hostile",
    "C59_careful",
    "C59_lawful",
    "C59_careful_lawful",
    "C59_policy_needed",
    "C59_sets",
    "C59_careful_sets"
   ],
   "note": "ContainSpec.runs_contained (comparisons answer anything, HostileModel) and keeps_going (lawful comparisons, panicking destructors, DropModel): the histories of C42 and C44 continued behind the failures at which those stop, with the list of damaged variables. C59_careful, C59_careful_lawful: a program that never mentions a variable again after a failed insertion, or after a panicking extend, append or split_off, never meets undefined behaviour. C59_policy_needed: without the policy it may. Leaving a damaged map alone includes not dropping it (mem::forget). C59_sets and C59_careful_sets (ContainSetSpec): the same for programs over sets with the set algebra of C50; a set of 11 elements or more that is refused memory while an operator or collect() builds it is dropped at once, which is undefined (C24)."
  },
  {
   "property": "C60",
   "status": "proved",
   "theorems": [
    "C60_readers",
    "C60_lenders",
    "C60_frames",
    "C60_set_readers",
    "C60_sessions",
    "C60_set_frames"
   ],
   "note": "FrameSpec: reader, lender, given (which variables an operation takes mutably), only_values, confined (about cells and addresses), frames (programs). C60_readers and C60_lenders: one step of HostileModel on an arbitrary heap. C60_frames: along every program that leaves damaged maps alone; the carry-over of damaged variables is the policy `suspect` of C59. Programs over maps with returning destructors. For sets (FrameSetSpec, Properties_FrameSet): C60_set_readers - comparing sets and the lazy iterators write nothing, on any heap; C60_sessions - the same for sessions with clone, {:?} and caught panics; C60_set_frames - along programs, the operators and collect write only to the set that is assigned."
  },
  {
   "property": "C61",
   "status": "proved",
   "theorems": [
    "C61_threads",
    "C61_schedules",
    "C61_addresses"
   ],
   "note": "ShuffleSpec: schedules (thread, operation), the program of a thread, what it sees, independent (nobody is given a map another thread mentions). C61_threads: interleaved with the others or alone in another environment, a thread sees the same; C61_schedules, C61_addresses: any two interleavings, any two allocators. Operations are the atoms of the interleaving: that the writes of one touch no node of another thread's maps is C60; the memory model of the hardware is not modelled."
  },
  {
   "property": "C62",
   "status": "proved",
   "theorems": [
    "C62_history",
    "C62_with_memory",
    "C62_keys"
   ],
   "note": "TouchModel: closures V -> world -> outcome * value left behind * world, run by HeapMapModel's functions on raw memory; entry sessions; loops over both ends of iter_mut and range_mut; extend and collect from iterators with effects. TouchSpec.tspec says on sorted lists which code runs on which value in which world. C62_history: every step of every program, with memory in order after it (nothing is claimed after a refused insertion of a new key, as in C24; a collect() refused a node other than the first drops the damaged map it was building: exactly UB). C62_with_memory: if memory is granted and the code returns or panics, the program is followed to its end. C62_keys: keys and other maps are untouched. A reference is used before the iterator is advanced again; references kept from several calls and written later are RangeMut/IterMut of C40."
  }
 ]
}