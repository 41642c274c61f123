{"id": "C01", "title": "Handles are never issued twice", "statement": "No two calls of create / extend / create_atomic return the same Entity unless reset() happened in between.", "quantifier": "every finite history of World calls (create, extend, destroy, create_atomic, maintain, insert, remove, delete, get_mut, for_each, clear, reset, register, set_layout) from every WorldBuilder configuration", "why_tests_cant": "Handles repeat only after particular interleavings of destroy, create and maintain; a test fixes one history and the free list is consumed through an atomic counter shared by two paths.", "anchors": ["src/entity/entity_allocator.rs: EntityAllocator::{allocate,allocate_atomic,recycle,maintain}", "src/world/mod.rs: World::{create,extend,create_atomic,destroy,maintain}"]}
{"id": "C02", "title": "A destroyed entity stays dead", "statement": "After destroy(e) returned true, contains_entity(e) is false for ever, whatever is called later (until reset()).", "quantifier": "every finite history of World calls (create, extend, destroy, create_atomic, maintain, insert, remove, delete, get_mut, for_each, clear, reset, register, set_layout) from every WorldBuilder configuration", "why_tests_cant": "It speaks about all continuations: the handle must stay dead whatever is called later, which a test can only sample.", "anchors": ["src/entity/entity_storage.rs: EntityStorage::{remove,maintain}", "src/world/mod.rs: World::{destroy,maintain,contains_entity}"]}
{"id": "C03", "title": "entities() and contains_entity agree", "statement": "entities() lists every live entity exactly once and nothing else: e is in entities() iff contains_entity(e); no two listed entities share an index; is_empty() iff entities() is empty.", "quantifier": "every tidy history: any finite sequence of World calls (create, extend, destroy, create_atomic, maintain, insert, remove, delete, get_mut, for_each, clear, reset, register, set_layout) from any WorldBuilder configuration in which maintain is only called while no entity made by create or extend since the last maintain, clear or reset has been destroyed (false for others: C03_untidy_refuted)", "why_tests_cant": "The two answers come from different arrays that every call updates separately; a discrepancy needs a particular history.", "anchors": ["src/entity/entity_sparse_set.rs: EntitySparseSet", "src/world/mod.rs: World::{entities,contains_entity,is_empty}"]}
{"id": "C04", "title": "destroy removes exactly one entity", "statement": "destroy(e) returns true iff e was live; afterwards e is dead and has no components, and every other entity keeps its liveness and every component value. On a dead or forged handle nothing changes.", "quantifier": "every sound history: a tidy one (maintain is only called while no entity made by create or extend since the last maintain, clear or reset has been destroyed) of World calls (create, extend, destroy, create_atomic, maintain, insert, remove, delete, get_mut, for_each, clear, reset, register, set_layout) from any WorldBuilder configuration, in which at each moment all owners of a component type that is in a group have the same version, and set_layout is only called with layouts it accepts (fewer than 64 groups, fewer than 16 types per family); histories that never destroy, and tidy histories without groups, are sound (false for others: C04_mixed_refuted); every handle, live, dead or forged", "why_tests_cant": "The frame condition covers every other entity and type, after all the swaps that removal from nested groups causes.", "anchors": ["src/world/mod.rs: World::destroy", "src/component/component_storage.rs: ComponentStorage::strip"]}
{"id": "C05", "title": "Concurrent create_atomic is duplicate-free", "statement": "For any number of threads calling create_atomic on a shared world, for every interleaving of the atomic loads and compare-exchanges, with spurious failures and stale relaxed loads, all returned handles are pairwise distinct, and none of them was live, queued or issued before.", "quantifier": "every tidy history (see C03; false for others: C05_untidy_refuted) before the concurrent phase, every number of threads, every number of calls per thread, every schedule", "why_tests_cant": "Races only show on particular schedules; tests sample a few.", "anchors": ["src/entity/entity_allocator.rs: allocate_atomic, increment_recycled_since_maintain, increment_next_index_to_allocate"]}
{"id": "C06", "title": "maintain adds exactly the queued entities", "statement": "After maintain() the live entities are those live before plus exactly the handles returned by create_atomic since the last maintain/clear/reset, with no components; component data is untouched.", "quantifier": "every tidy history: any finite sequence of World calls (create, extend, destroy, create_atomic, maintain, insert, remove, delete, get_mut, for_each, clear, reset, register, set_layout) from any WorldBuilder configuration in which maintain is only called while no entity made by create or extend since the last maintain, clear or reset has been destroyed (false for others: C06_untidy_refuted); that maintain returns and leaves components alone: every finite history of World calls (create, extend, destroy, create_atomic, maintain, insert, remove, delete, get_mut, for_each, clear, reset, register, set_layout) from every WorldBuilder configuration whose calls performed no invalid access (see C33); that the new entities have no components: every sound history (see C04)", "why_tests_cant": "Which handles are queued is the difference of two counters; only histories mixing both creation paths with destroy tell them apart.", "anchors": ["src/world/mod.rs: World::{create_atomic,maintain}", "src/entity/entity_storage.rs: EntityStorage::maintain"]}
{"id": "C07", "title": "clear empties the world for good", "statement": "After clear() no entity is live, no component is stored, queued entities are forgotten, registrations and layout are kept, and no handle issued before clear() is ever live again or issued again (until reset()).", "quantifier": "the effect of clear: every finite history of World calls (create, extend, destroy, create_atomic, maintain, insert, remove, delete, get_mut, for_each, clear, reset, register, set_layout) from every WorldBuilder configuration whose calls performed no invalid access (see C33); that old handles never return: every tidy history (see C03)", "why_tests_cant": "It speaks about all continuations after clear.", "anchors": ["src/world/mod.rs: World::clear", "src/entity/entity_storage.rs: EntityStorage::clear"]}
{"id": "C08", "title": "reset restores a fresh allocator", "statement": "After reset() the world is empty and keeps its registrations, and from then on it cannot be told from a newly built world: the same calls return the same values, the same handles in particular, and leave worlds that answer every observation alike (only the order of views and queries may differ, as their layouts may). This holds whatever caught panics, mixed versions or badly timed maintain calls happened before reset().", "quantifier": "every finite history of World calls (create, extend, destroy, create_atomic, maintain, insert, remove, delete, get_mut, for_each, clear, reset, register, set_layout) from every WorldBuilder configuration whose calls performed no invalid access (see C33) and in which no call of set_layout panicked (the history before reset need not be tidy or sound), every new world with the same registered types, every sound continuation (see C04)", "why_tests_cant": "It quantifies over every continuation: the two worlds must be indistinguishable for ever.", "anchors": ["src/world/mod.rs: World::reset", "src/entity/entity_allocator.rs: EntityAllocator::reset"]}
{"id": "C09", "title": "Exhaustion panics instead of wrapping", "statement": "create / create_atomic panic for lack of handles only when every one of the 2^32 indexes has been issued since the last reset; index and version never wrap; an index whose version reached Version::LAST is retired when destroyed.", "quantifier": "every tidy history: any finite sequence of World calls (create, extend, destroy, create_atomic, maintain, insert, remove, delete, get_mut, for_each, clear, reset, register, set_layout) from any WorldBuilder configuration in which maintain is only called while no entity made by create or extend since the last maintain, clear or reset has been destroyed (false for others: C09_untidy_refuted)", "why_tests_cant": "Needs 2^32 operations to reach.", "anchors": ["src/entity/entity_allocator.rs: allocate, allocate_atomic, recycle", "src/entity/mod.rs: Version::next"]}
{"id": "C10", "title": "Dense indexes never truncate", "statement": "The `as u32` casts of dense positions never lose information: the stored dense index of an entity or component always equals its real position.", "quantifier": "entities: every tidy history (see C03; false for others: C10_untidy_refuted); components: every sound history (see C04; false for others: C10_mixed_refuted)", "why_tests_cant": "The cast only truncates beyond 2^32 elements.", "anchors": ["src/entity/entity_sparse_set.rs: EntitySparseSet::insert", "src/component/component_sparse_set.rs: ComponentSparseSet::insert"]}
{"id": "C11", "title": "create attaches exactly the given components", "statement": "create((c1,...,cn)) returns a live handle whose components are exactly the given ones (the last one wins when a type repeats); all other entities are unchanged; a value that is overwritten is dropped.", "quantifier": "every sound history (see C04; false for others: C11_mixed_refuted); every component tuple", "why_tests_cant": "The component lands in a storage that is then regrouped with all others; the frame covers every other entity.", "anchors": ["src/world/mod.rs: World::create", "src/component/component_set.rs: ComponentSet::insert"]}
{"id": "C12", "title": "insert overwrites exactly the given components", "statement": "insert(e, cs) returns whether e is live; if so, afterwards e has the given values for the given types and its old values for all others; no other entity changes. If e is not live nothing changes.", "quantifier": "every sound history (see C04; false for others: C12_mixed_refuted); every handle and component tuple", "why_tests_cant": "As C11; overwriting and regrouping interact with the group sizes left by the whole history.", "anchors": ["src/world/mod.rs: World::insert", "src/component/component_set.rs: ComponentSet::insert"]}
{"id": "C13", "title": "remove returns and detaches exactly the requested components", "statement": "remove::<C>(e) returns for each type the value e had (None if it had none, or on a repeated type the second time), afterwards e lacks these types and nothing else changes; on a dead handle it returns None everywhere and changes nothing.", "quantifier": "every sound history (see C04; false for others: C13_mixed_refuted); every handle and type tuple", "why_tests_cant": "Removal swaps cells in every storage of a nested chain of groups; which ones depends on the history.", "anchors": ["src/world/mod.rs: World::remove", "src/component/component_set.rs: ComponentSet::remove"]}
{"id": "C14", "title": "delete equals remove without the values", "statement": "delete::<C>(e) leaves exactly the same world as remove::<C>(e), and drops exactly the values that remove would return.", "quantifier": "every state of the world, reachable or not, every handle and type tuple", "why_tests_cant": "It compares two programs on every state; a test compares them on one.", "anchors": ["src/world/mod.rs: World::delete", "src/component/component_set.rs: ComponentSet::delete", "src/component/component_sparse_set.rs: ComponentSparseSet::{remove,delete}"]}
{"id": "C15", "title": "The world is a map from handles to components", "statement": "After any history, each component lookup (View::get, query_one().get, contains) returns what a plain map from live handles to component values would, i.e. the last value written to that entity and type.", "quantifier": "every sound history (see C04; false for others: C15_mixed_refuted); every handle and type", "why_tests_cant": "It is a simulation by a plain map over all histories; tests sample histories.", "anchors": ["src/world/mod.rs", "src/component/view.rs", "src/query/query_one.rs"]}
{"id": "C16", "title": "Views are aligned", "statement": "For a component view, entities() and as_slice() have length len(), entities()[i] owns as_slice()[i], each entity occurs once, and contains(e) / get(e) agree with that table.", "quantifier": "every sound history (see C04; false for others: C16_mixed_refuted), every type; up to versions also every finite history of World calls (create, extend, destroy, create_atomic, maintain, insert, remove, delete, get_mut, for_each, clear, reset, register, set_layout) from every WorldBuilder configuration whose calls performed no invalid access (see C33)", "why_tests_cant": "The three arrays are updated separately by each call, and permuted by grouping.", "anchors": ["src/component/view.rs: View, ViewMut", "src/component/component_sparse_set.rs: entities, as_slice, get"]}
{"id": "C17", "title": "Registration is idempotent and monotone", "statement": "register returns true iff the type was not registered; is_registered holds exactly for types registered explicitly or by a layout; no operation unregisters a type; registering never disturbs data.", "quantifier": "every finite history of World calls (create, extend, destroy, create_atomic, maintain, insert, remove, delete, get_mut, for_each, clear, reset, register, set_layout) from every WorldBuilder configuration whose calls performed no invalid access (see C33); for which types are registered, set_layout must not have panicked", "why_tests_cant": "That no call ever loses a registration is a statement about all histories, including layout changes that rebuild the table.", "anchors": ["src/world/mod.rs: World::{register,is_registered}", "src/component/component_storage.rs: register_dyn"]}
{"id": "C18", "title": "Unregistered types panic without damage", "statement": "remove, delete, borrowing a view, queries and extend with an unregistered type panic and leave the world unchanged; create and insert with an unregistered type panic, and the world remains memory safe.", "quantifier": "remove, delete, extend, views: every state; queries: every finite history of World calls (create, extend, destroy, create_atomic, maintain, insert, remove, delete, get_mut, for_each, clear, reset, register, set_layout) from every WorldBuilder configuration whose calls performed no invalid access (see C33); create and insert: every sound history (see C04)", "why_tests_cant": "That a panicking call leaves the state untouched concerns every state and every position of the unregistered type in the tuple.", "anchors": ["src/component/component_storage.rs: panic_missing_comp", "src/component/component_set.rs"]}
{"id": "C19", "title": "extend equals repeated create", "statement": "extend(rows) returns the created handles in order, and the resulting world answers every query like creating the rows one by one with create.", "quantifier": "every sound history (see C04), every list of rows", "why_tests_cant": "It compares two different code paths, which allocate and group differently, on every list of rows.", "anchors": ["src/world/mod.rs: World::extend", "src/component/component_set.rs: ComponentSet::extend"]}
{"id": "C20", "title": "Every component value is released exactly once", "statement": "Over any history, the values moved into the world are exactly (as a multiset) the values returned by remove plus the values dropped plus the values still stored; dropping the world drops the stored ones.", "quantifier": "every finite history of World calls (create, extend, destroy, create_atomic, maintain, insert, remove, delete, get_mut, for_each, clear, reset, register, set_layout) from every WorldBuilder configuration whose calls performed no invalid access (see C33)", "why_tests_cant": "A leak or double drop of one value in one history is not visible to functional tests.", "anchors": ["src/component/component_sparse_set.rs: insert, remove, delete, clear_typed, drop_typed", "src/component/component_set.rs"]}
{"id": "C21", "title": "set_layout preserves the data", "statement": "set_layout(l) keeps every entity, every component value and every registration (and registers the types of l), for every valid layout and whatever order the hash map is traversed.", "quantifier": "every sound history (see C04), every layout within the limits, every hash map iteration order", "why_tests_cant": "The order in which storages are rebuilt is that of a hash map; a test sees one order.", "anchors": ["src/world/mod.rs: World::set_layout", "src/component/component_storage.rs: set_layout, extract_sparse_sets"]}
{"id": "C22", "title": "Grouped storages share a dense prefix", "statement": "For each group of the layout the entities owning all its components form a common prefix, in the same order, of all the component views of the group. (Entities whose insertion was cut short by a caught panic may be missing from it, see C36.)", "quantifier": "every sound history (see C04), every group of the layout in force", "why_tests_cant": "The invariant must survive every sequence of swaps; a violated prefix shows only in later dense queries.", "anchors": ["src/component/group.rs: group, ungroup, ungroup_all, group_components, ungroup_components"]}
{"id": "C23", "title": "query_all yields exactly the matching entities", "statement": "query_all::<G>().include::<I>().exclude::<E>().iter() yields exactly one item for each live entity that has all components of G and I and none of E, made of that entity's own values. This is for queries that require at least one component (the others: C40) and exclude only plain components: at most one type, or several of which one is in no group, or any number in a query that is not dense (the others: C26), and for entities whose insertion was not cut short by a caught panic (C36). Any query yields only live entities with all required components, each once, with their own values.", "quantifier": "every sound history (see C04), every query of Entity, &T, &mut T, Option<&T>, Option<&mut T> parts as described", "why_tests_cant": "Whether a query is answered densely, and from which range, depends on layout and history; tests sample both.", "anchors": ["src/query/query_all.rs: QueryAll::iter, get_group_range", "src/query/iter/sparse_iter.rs", "src/query/iter/dense_iter.rs", "src/component/component_storage.rs: group_range"]}
{"id": "C24", "title": "Grouping is only an optimisation", "statement": "Two worlds that register the same types and went through the same calls but have different group layouts give the same results (as multisets) for every query described in C23 and the same answers for all other observations, including the results of all the calls.", "quantifier": "every pair of layouts, every pair of sound histories (see C04; false for others: C24_mixed_refuted) with the same calls", "why_tests_cant": "It quantifies over pairs of layouts.", "anchors": ["src/component/component_storage.rs: group_range", "src/query/query_all.rs"]}
{"id": "C25", "title": "slice agrees with iter", "statement": "When slice() returns Some, the i-th elements of the returned slices are the parts of the i-th item of iter().", "quantifier": "every sound history (see C04), every query", "why_tests_cant": "Whether the slice starts at the right place depends on the group sizes left by the whole history.", "anchors": ["src/query/query_all.rs: QueryAll::slice", "src/query/query_part.rs: slice_raw"]}
{"id": "C26", "title": "exclude on a group excludes every listed component", "statement": "An exclude query answered densely from groups returns no entity that has any of the excluded components.", "quantifier": "every sound history (see C04), every layout and query", "why_tests_cant": "It needs a layout with nested groups and entities between the group boundaries.", "anchors": ["src/component/component_storage.rs: exclude_group_range", "src/component/group_mask.rs: QueryMask::exclude"]}
{"id": "C27", "title": "query_one agrees with query_all", "statement": "query_one with the same get/include/exclude returns Some(item) for e exactly if query_all yields that item for e; contains(e) iff get(e) is Some. (Not for entities whose insertion was cut short by a caught panic, see C36.)", "quantifier": "every sound history (see C04; false for others: C27_mixed_refuted), the queries of C23 (false for others: C27_dense_exclude_refuted), every handle", "why_tests_cant": "It compares two algorithms (group arithmetic and per-entity lookup) on every state and query.", "anchors": ["src/query/query_one.rs", "src/query/query_all.rs"]}
{"id": "C28", "title": "for_each updates each match exactly once", "statement": "for_each over a query with &mut parts calls the closure once per visited entity and afterwards each visited component holds the closure's result on its old value; nothing else changes. The visited entities are the matching ones as in C23.", "quantifier": "every sound history (see C04), every query and closure", "why_tests_cant": "That each match is visited exactly once and nothing else written concerns every entity and type of every state.", "anchors": ["src/world/mod.rs: World::for_each", "src/query/query_all.rs: for_each"]}
{"id": "C29", "title": "Iteration never aliases", "statement": "Two different items of one iteration never refer to the same component cell, and within an item two parts refer to the same cell only if both are shared; so no two &mut alias.", "quantifier": "every sound history (see C04), every query that does not panic", "why_tests_cant": "Aliasing is undefined behaviour, not an observable failure.", "anchors": ["src/query/iter/", "src/query/par_iter/", "src/query/mod.rs"]}
{"id": "C30", "title": "Parallel iteration equals sequential iteration", "statement": "par_iter produces, for every way the range or slice is split and every interleaving of the pieces, exactly the items of iter(), each once; opt_len of the dense iterator is exact.", "quantifier": "every sound history (see C04), every query that does not panic, every split tree and every interleaving", "why_tests_cant": "Schedules cannot be enumerated by tests.", "anchors": ["src/query/par_iter/dense_par_iter.rs", "src/query/par_iter/sparse_par_iter.rs"]}
{"id": "C31", "title": "Borrow conflicts panic, and only conflicts do", "statement": "Borrowing a view or a query part panics exactly if its type is unregistered or borrowed already with one of the two borrows exclusive; building a query panics exactly if one of its parts must be refused or two of them clash; a failed query releases what it borrowed, and dropping a query or view releases exactly its borrows; no component is ever borrowed twice with one borrow exclusive.", "quantifier": "every finite history of World calls (create, extend, destroy, create_atomic, maintain, insert, remove, delete, get_mut, for_each, clear, reset, register, set_layout) from every WorldBuilder configuration whose calls performed no invalid access (see C33), every set of live views and queries, every further query", "why_tests_cant": "The number of combinations of live borrows is unbounded, and a leak of a borrow flag shows only in a later, unrelated query.", "anchors": ["src/component/view.rs", "src/component/component_storage.rs: borrow, borrow_mut", "src/query/mod.rs: borrow"]}
{"id": "C32", "title": "Iterator protocol", "statement": "next() repeated yields the same items as fold/for_each; after None it stays None; a dense iterator's size_hint and len are exact at every point.", "quantifier": "every state of an iterator whose remaining items can be produced without invalid access; in particular every iterator of a query after a sound history (see C04)", "why_tests_cant": "It concerns every intermediate state of the iterator, of both kinds.", "anchors": ["src/query/iter/dense_iter.rs", "src/query/iter/sparse_iter.rs", "src/query/iter/mod.rs"]}
{"id": "C33", "title": "Safe API calls never cause undefined behaviour", "statement": "No history of safe calls, including queries and slices, reads uninitialised or moved-out component memory or indexes out of bounds.", "quantifier": "every finite history of World calls (create, extend, destroy, create_atomic, maintain, insert, remove, delete, get_mut, for_each, clear, reset, register, set_layout) from every WorldBuilder configuration, each followed by any query", "why_tests_cant": "Undefined behaviour may go unnoticed in any test.", "anchors": ["src/component/component_sparse_set.rs", "src/component/group.rs", "src/query/query_part.rs"]}
{"id": "C34", "title": "Compatible groups are accepted in any order", "statement": "A sequence of groups that are pairwise nested or disjoint, and nested whenever they lie inside a common group, is accepted in any order by GroupLayout::add_group, and the groups of the layout are then exactly these; a group that breaks this condition panics.", "quantifier": "every sequence of add_group calls", "why_tests_cant": "The acceptance of a group depends on the order of all earlier calls; the number of orders is factorial.", "anchors": ["src/component/group_layout.rs: GroupLayout::add_group_dyn, GroupFamily::try_add_group"]}
{"id": "C35", "title": "Documented layout limits are usable", "statement": "A layout with groups of up to MAX_GROUP_ARITY (16) component types and up to MAX_GROUP_COUNT (64) groups can be set on a world; larger ones panic.", "quantifier": "every layout; set_layout: every history without invalid accesses in which no call of set_layout panicked", "why_tests_cant": "The limits depend on the arrangement of all groups in families, not only on their number.", "anchors": ["src/component/group_layout.rs: MAX_GROUP_ARITY, MAX_GROUP_COUNT", "src/component/group_mask.rs: GroupMask::from_to", "src/component/storage_mask.rs: StorageMask::from_to"]}
{"id": "C36", "title": "A caught panic leaves the world usable", "statement": "If create, insert or extend panics (unregistered type, exhausted handles, panicking iterator) and the panic is caught, later operations and queries still behave as the map specification says.", "quantifier": "every sound history (see C04) and every call of it that panics", "why_tests_cant": "Crash points cannot be enumerated by tests.", "anchors": ["src/component/component_set.rs: insert, extend", "src/world/mod.rs"]}
{"id": "C37", "title": "A panicking Drop does not corrupt the storage", "statement": "If a component's Drop panics inside insert, create, extend, delete, destroy, clear or reset and the panic is caught, no value is dropped twice and no moved-out value is readable.", "quantifier": "every sound history (see C04), every crash point in the call", "why_tests_cant": "Crash points cannot be enumerated by tests.", "anchors": ["src/component/component_sparse_set.rs: delete, clear_typed"]}
{"id": "C38", "title": "A failed set_layout leaves the world safe", "statement": "If set_layout panics because of a layout limit and the panic is caught, the world keeps its components and further calls are memory safe.", "quantifier": "every sound history (see C04), every layout beyond the limits", "why_tests_cant": "Crash points cannot be enumerated by tests.", "anchors": ["src/component/component_storage.rs: set_layout, extract_sparse_sets"]}
{"id": "C39", "title": "Entity ordering is a total order consistent with equality", "statement": "cmp on Entity is reflexive-equal exactly on equal handles, antisymmetric, transitive and total (version first, then index).", "quantifier": "all triples of entities", "why_tests_cant": "A comparison function is tested on pairs; transitivity and antisymmetry concern all pairs and triples of 64-bit handles.", "anchors": ["src/entity/mod.rs: impl Ord for Entity"]}
{"id": "C40", "title": "query_all without required components covers all entities", "statement": "query_all::<Entity>() (or with only Option parts) yields every live entity.", "quantifier": "every sound history (see C04)", "why_tests_cant": "It must hold in every world; a test of one world with an empty result looks like an empty world.", "anchors": ["src/query/query_all.rs: QueryAll::iter", "src/query/query_part.rs: impl QueryPart for Entity"]}
{"id": "C41", "title": "query_one rejects dead handles", "statement": "query_one::<G>().get(e) and contains::<G>(e) succeed only for live entities.", "quantifier": "every sound history (see C04), every handle", "why_tests_cant": "It concerns every dead or forged handle.", "anchors": ["src/query/query_one.rs", "src/query/query_part.rs: impl QueryPart for Entity"]}
{"id": "C42", "title": "SparseVec is a versioned map", "statement": "The public SparseVec behaves as a map from index to versioned dense index: get/contains/remove see exactly the written slot with a matching version; growing never loses or invents entries.", "quantifier": "every sequence of SparseVec operations", "why_tests_cant": "It concerns every sequence of operations including growth and indexes near the limit.", "anchors": ["src/entity/sparse_vec.rs"]}
{"id": "C43", "title": "set_layout does not accumulate storages", "statement": "Repeating set_layout does not grow the number of component storages beyond the number of registered types.", "quantifier": "every finite history of World calls (create, extend, destroy, create_atomic, maintain, insert, remove, delete, get_mut, for_each, clear, reset, register, set_layout) from every WorldBuilder configuration", "why_tests_cant": "The growth is invisible to all functional observations.", "anchors": ["src/component/component_storage.rs: set_layout, extract_sparse_sets"]}
{"id": "C44", "title": "build equals new plus register", "statement": "WorldBuilder::build returns a world whose registered types are exactly those of the layout and those registered, whatever the order of builder calls, with no entities.", "quantifier": "every sequence of builder calls; that the groups' types are registered: groups that are coherent (nested or disjoint, and nested inside a common group; false for others: C44_lost_type_refuted)", "why_tests_cant": "It concerns every order of builder calls.", "anchors": ["src/world/builder.rs"]}
{"id": "C45", "title": "Growing the storage is safe and content preserving", "statement": "Growing a component storage at least doubles its capacity, keeps all entities and values at their positions, and the entity area and component area of the single allocation never overlap, are aligned and fit the allocation, for every component size and alignment; allocation and deallocation use the same layout.", "quantifier": "every capacity, every size and alignment of T", "why_tests_cant": "Overlap or misalignment needs particular combinations of size, alignment and capacity and shows as memory corruption only.", "anchors": ["src/component/component_sparse_set.rs: grow_typed, compute_layout"]}
{"id": "C46", "title": "Results do not depend on stale versions", "statement": "Looking up, inserting, removing or querying with a handle whose index is in use but whose version differs never touches the current owner's components.", "quantifier": "every sound history (see C04; false for others: C46_mixed_refuted), every stale or forged handle", "why_tests_cant": "It concerns every stale handle after every history.", "anchors": ["src/entity/sparse_vec.rs: get, contains, remove", "src/component/component_sparse_set.rs: insert, remove, swap_typed"]}
{"id": "C47", "title": "A rejected group leaves the layout unchanged", "statement": "If GroupLayout::add_group panics and the panic is caught, the layout has the same groups as before.", "quantifier": "every sequence of add_group calls and every rejected group", "why_tests_cant": "The claim is about every layout and every group; a test fixes one of each.", "anchors": ["src/component/group_layout.rs: GroupLayout::add_group_dyn"]}
{"id": "C48", "title": "Mutable access writes the component it names", "statement": "Assigning to element i of a view's as_mut_slice is assigning to the component of the i-th entity of entities(); view[e] reads and writes the component of e and panics when there is none; query_one().map(e, f) has no effect when e does not match and otherwise performs exactly the assignments of the closure to the components of e, dropping the replaced values. An index out of bounds, an unregistered type or a conflicting query panics without effect.", "quantifier": "every sound history (see C04), every type, index, handle, query and closure; assignment through view[e] also in every state", "why_tests_cant": "The position of a component moves with every grouping, removal and re-layout; a test sees the positions of one history.", "anchors": ["src/component/view.rs: as_mut_slice, Index, IndexMut", "src/query/query_one.rs: get, map"]}
{"id": "C49", "title": "Slices of a grouped query write to the entities it yields", "statement": "Assigning to element i of a mutable slice returned by query_all().slice() writes the component of the i-th entity that the query yields; outside its bounds it panics without effect.", "quantifier": "every sound history (see C04), every query and index", "why_tests_cant": "Whether the slice starts at the right place depends on the group sizes left by the whole history.", "anchors": ["src/query/query_all.rs: slice", "src/query/query_part.rs: slice_raw of &mut T"]}
{"id": "C50", "title": "Which queries are dense", "statement": "Iterator::is_dense of a query is true, and query_all().slice() returns slices, exactly when the query requires one component and excludes none, or requires the components of a group and excludes none, or requires the components of a group and excludes exactly those that the next larger group adds. It depends on the layout in force (the one of the builder or of the last set_layout) and on the component types of the query, not on the contents of the world or on how the types are split between the query and include().", "quantifier": "every sound history (see C04), every query that does not panic", "why_tests_cant": "A query that falls back to sparse iteration returns the same entities, so tests that compare results cannot see it; and the mask arithmetic that decides it depends on the arrangement of the whole family.", "anchors": ["src/query/iter/mod.rs: is_dense", "src/query/query_all.rs: slice, get_group_range", "src/component/component_storage.rs: group_range", "src/component/group_info.rs: GroupInfo"]}
{"id": "C51", "title": "Destroyed indexes are reused before new ones", "statement": "A handle returned by create, extend or create_atomic is the replacement of a destroyed one (same index, next version) as long as such a replacement is waiting, and the one of the handle destroyed first; otherwise it has the first version and an index that no handle since the last reset had. The indexes of the handles since the last reset are 0, 1, 2, ... without gaps.", "quantifier": "every tidy history (see C03), every call and each handle it returns", "why_tests_cant": "The free list is consumed by an atomic counter from both the exclusive and the shared path; a leak of indexes shows only in the size of the sparse arrays after long histories.", "anchors": ["src/entity/entity_allocator.rs: allocate, allocate_atomic, recycle, maintain", "src/entity/entity_storage.rs: create, create_atomic, remove"]}
{"id": "C52", "title": "Exactly which groups add_group takes", "statement": "GroupLayout::add_group ignores a group of fewer than two distinct types. Any other group is taken, and not answered with a panic, exactly when it has at most 16 types, the groups it touches (those sharing a type with it, and those inside one that does) all share a type with each other, every touched group with at most as many types is inside it, and every type it shares with the smallest larger touched group belongs to a smaller touched group (this last condition only if no touched group has as many types). A taken group that the layout already has changes nothing; one that touches no larger group is added to the groups; one that touches a larger group is not among the groups afterwards.", "quantifier": "every layout obtained by add_group calls that did not panic, every group", "why_tests_cant": "The comparison runs over the components of a whole family in an order that earlier calls rearranged; the cases where it accepts too much need three groups and only show in later queries.", "anchors": ["src/component/group_layout.rs: GroupLayout::add_group_dyn, GroupFamily::try_add_group"]}
{"id": "C53", "title": "The order of iteration", "statement": "A query_all() that is not dense visits the matching entities in the order of View::entities of one of its required components: the one with the fewest components, and the first named among equals (the types of the query before those of include()). A dense one visits a contiguous run of entities that is the same in View::entities of every required component, and that is at the front when the query excludes nothing. So the number of entities examined is at most that of the rarest required component.", "quantifier": "every sound history (see C04), every query that does not panic", "why_tests_cant": "Choosing another slice gives the same set of entities, so tests that compare sets pass; and the order of the storages is the result of all the swaps that grouping and removals made before.", "anchors": ["src/query/query_all.rs: iter, for_each", "src/query/mod.rs: split_sparse_parts, split_filter_parts, split_dense_parts", "src/query/iter/sparse_iter.rs: next", "src/query/iter/dense_iter.rs: next"]}
{"id": "C54", "title": "Loops over a query can be left at any item", "statement": "A loop over query_all() whose body keeps a state, writes through the exclusive references it gets and leaves where it likes (break, return, a panic of the closure) gets the entities of query_all().iter() one by one, each once, and for each of them the components it had before the loop. The world afterwards, the values dropped and the body's state are those of the same assignments made one by one through get_mut, in the same order, up to the item where it left. Entities it did not reach keep their components, and the world stays sound. for_each and a loop over next() do the same. A query that cannot be borrowed panics before the body is called.", "quantifier": "every sound history (see C04), every query, every body (any state, any assignments, any place to stop)", "why_tests_cant": "The iterators hold raw pointers into the storages while the body writes through others; tests run a few bodies to the end, not every body stopped everywhere on every layout.", "anchors": ["src/query/query_all.rs: for_each, iter", "src/query/iter/mod.rs: next, fold", "src/query/iter/sparse_iter.rs: next, fold", "src/query/iter/dense_iter.rs: next, fold", "src/query/query_part.rs: get_sparse, get_dense"]}
{"id": "C55", "title": "The order of World::entities", "statement": "World::entities() lists the live entities in this order: create and extend append the handles they return; destroy moves the last entity into the place of the destroyed one and leaves the others where they are; maintain appends the entities of create_atomic, first those whose handle replaces a destroyed one (the latest call first), then those with a new index (in the order of the calls); clear and reset empty it; no other call changes it.", "quantifier": "every tidy history (see C03)", "why_tests_cant": "The order depends on every swap made before and on how reused and new handles interleave between two calls of maintain.", "anchors": ["src/entity/entity_sparse_set.rs: insert, remove", "src/entity/entity_allocator.rs: maintain", "src/entity/entity_storage.rs: create, maintain, remove", "src/world/mod.rs: entities"]}
{"id": "C56", "title": "The order of a view", "statement": "View::entities() (and with it as_slice() and iteration over the view alone) of a component type that is in no group lists the owners in this order: create, extend and insert append the entities that get the component; when an entity loses it (remove, delete, destroy) the last entity takes its place and the others stay where they are; insert of a component the entity already has, assignments, create_atomic, maintain and register move nothing; set_layout moves nothing in types the new layout does not group; clear and reset empty the list. For any type, grouped or not, a call about entities that neither have nor get the component moves nothing in its view.", "quantifier": "every sound history (see C04), every call, every registered type (in no group for the first part)", "why_tests_cant": "The order is the result of every swap made before, including those of grouping, which must not reach the storages outside the group; tests look at a few orders.", "anchors": ["src/component/component_sparse_set.rs: insert, remove, delete, clear, entities", "src/component/group.rs: group, ungroup, ungroup_all, group_components, ungroup_components", "src/component/component_storage.rs: set_layout, strip", "src/component/component_set.rs: insert, extend, remove, delete"]}
{"id": "C57", "title": "What maintain does in every case", "statement": "maintain() returns, drops nothing and leaves the components alone. Call recent the handles returned by create, extend or create_atomic since the last maintain, clear or reset, destroyed or not. Afterwards contains_entity(e) holds iff e was live, or e is the recent handle with the highest version of its index and no live entity has that index. entities() lists, once per index, the recent handle with the lowest version, or the live entity where no recent handle has that index. So a destroyed handle comes back iff it is recent, no recent handle of its index is newer, and no live entity has its index; and entities() lists exactly the live and the queued entities iff no entity created since the last maintain has been destroyed: the condition of the tidy histories is the weakest possible.", "quantifier": "every tidy history (see C03) followed by one call of maintain, tidy or not", "why_tests_cant": "The result depends on the order in which handles of one index were given out between two calls of maintain, through the recycling queue and two counters.", "anchors": ["src/entity/entity_storage.rs: EntityStorage::maintain", "src/entity/entity_allocator.rs: maintain, recycle", "src/entity/entity_sparse_set.rs: insert, contains"]}
{"id": "C58", "title": "create_atomic is lock-free", "statement": "Let n threads share a world through &World and call create_atomic, and stop them anywhere in their calls. If they then make a further accesses to the two atomics (entering a call counts as one), of which k read a value that is not the newest or fail as compare-exchange although the expected value is there, then a is at most 3n + (2n+2)·c + 3k, c being the number of calls that finish on the way. So with k = 0, among any 3n+1 accesses one finishes a call, whichever threads make them; a thread that runs alone finishes its call with the fourth access at the latest, wherever the others stopped; and no thread ever waits for another. With spurious failures of the weak compare-exchange there is no bound.", "quantifier": "every world, every number of threads, every schedule, every point of it", "why_tests_cant": "Tests run a few schedules; a livelock needs a particular infinite interleaving of the two retry loops.", "anchors": ["src/entity/entity_allocator.rs: EntityAllocator::allocate_atomic, increment_recycled_since_maintain, increment_next_index_to_allocate", "src/world/mod.rs: World::create_atomic"]}
{"id": "C59", "title": "What a query answered from a group yields", "statement": "In any sound history (panics may be caught on the way) keep for each group of the layout a set of filed entities: a create, extend or insert that returns files the entities it touched anew under every group of each family one of its types belongs to, i.e. an entity is filed under a group exactly if it now has all its types; remove and delete take the entity out of the groups that contain one of the named types; destroy takes it out of all; clear and reset empty all; set_layout files every entity anew; a call that panics changes nothing. Then the storages of a group start with the entities filed under it, in one common order; a query for the types of a group yields exactly those; a query for a group without what the next larger group adds yields exactly those filed under the first and not the second; a query for one component yields its owners; every other plain query yields exactly the entities that match. Filed entities always have all types of the group; the converse fails only for entities whose last insertion was cut short by a panic, and a later insertion of one of the group's types that returns makes up for it.", "quantifier": "every layout, every sound history with caught panics, every query whose types are registered and do not conflict", "why_tests_cant": "The set depends on the whole history of panics, insertions and layouts; tests never catch a panic inside insert and query afterwards.", "anchors": ["src/world/mod.rs: World::create, extend, insert, remove, delete, destroy, clear, set_layout", "src/component/component_set.rs: ComponentSet::insert, extend, remove, delete", "src/component/group.rs: group, ungroup, ungroup_all, group_components, ungroup_components", "src/component/component_storage.rs: ComponentStorage::strip, group_range", "src/query/query_all.rs"]}
{"id": "C60", "title": "A caught set_layout panic can be repaired", "statement": "After any number of set_layout calls that panicked because of a layout limit and were caught, in a world with a sound history before, a set_layout with a layout within the limits succeeds (provided the surviving owners of each component it groups have handles of one version, which the empty layout needs not), drops nothing, and afterwards the world is again as specified: the entities are those from before the panics; the registered types are those that survived and those of the new layout, with the surviving components; and every further sound call, view and query agrees with that.", "quantifier": "every sound history, every sequence of failed set_layout calls, every later layout within the limits, every sound history after it", "why_tests_cant": "Needs caught panics at every point of the layout loops and arbitrary calls afterwards.", "anchors": ["src/component/component_storage.rs: set_layout, extract_sparse_sets", "src/world/mod.rs: World::set_layout"]}
{"id": "C61", "title": "Memory is bounded by the peak", "statement": "The allocation of a component type has room for 0, 4, 8, 16, ... components. A call changes it only when the components stored after the call do not fit; then it becomes the least of these sizes that is large enough. No call shrinks it, except that a set_layout that panicked may lose it. So after any calls it has at most the least such size for the largest number of components of the type there ever was at once (exactly that size if no set_layout panicked), which is 0 or at most max(4, twice that number), and the number k of calls that moved the components to another allocation satisfies 2^k <= max(2, that number). The table of a type from handle indexes to positions has at most two entries per index up to the largest index handed out since the last reset.", "quantifier": "every builder, every sequence of calls without invalid accesses, every component type; for the tables every history in which maintain is called only when no entity created since the last one was destroyed", "why_tests_cant": "A bound on memory over all sequences of inserting, removing, clearing, regrouping and caught panics; a leak or a quadratic growth shows only in long runs and is not observable through the API.", "anchors": ["src/component/component_sparse_set.rs: insert, grow_typed, clear_typed", "src/entity/sparse_vec.rs: get_mut_or_allocate_at, extend_to_index", "src/component/component_storage.rs: set_layout"]}
{"id": "C62", "title": "Handles and their memory are recycled", "statement": "create and create_atomic run out of handles only if 2^32 entities are live, waiting for maintain, or were destroyed with the last version; and the memory for handles is bounded by the number of entities there were at once and the number of those retired. This is true of the indexes except that clear loses the index of every entity it removes (live or waiting for maintain): that index is not given out again before reset, so create panics in an empty world after enough calls of create and clear. Exactly: the indexes given out since the last reset are those of live entities, of entities waiting for maintain, of destroyed entities whose next handle is waiting, of entities destroyed with the last version, and of entities removed by clear, each counted once; handles run out exactly when there are none waiting and 2^32 of the others. The bound on the memory fails for the queue of destroyed handles: destroy adds an entry, giving the handle out again does not remove it, and only maintain, clear and reset do.", "quantifier": "every history in which maintain is called only when no entity created since the last one was destroyed (a create that panics and is caught may be part of it); every call after it", "why_tests_cant": "Running out takes 2^32 calls; leaks of indexes or of queue entries are not observable before that, and depend on the whole history of create, destroy, clear and maintain.", "anchors": ["src/entity/entity_allocator.rs: allocate, allocate_atomic, recycle, maintain, reset", "src/entity/entity_storage.rs: create, remove, clear, reset", "src/world/mod.rs: World::clear"]}
{"id": "C63", "title": "A call on one entity moves few others", "statement": "create and insert leave every other entity at its position in View::entities of every type, except for at most one entity per group that contains the type; remove, delete and destroy for at most one more. In particular a type in no group keeps its order under create and insert, and a removal moves at most one entity. extend moves at most one other entity per group and new entity. The bounds are reached.", "quantifier": "every builder, every sequence of calls without invalid accesses and without a panicking set_layout (the contents need not be sound), every call of create, insert, remove, delete or destroy, also one that panics after creating its entity, every registered type; for extend, every sound history (see C04); other entities are those with another index", "why_tests_cant": "It is a bound on what regrouping may touch for every layout of nested groups and every arrangement of entities; a needless swap in the loop over the groups keeps all contents right.", "anchors": ["src/component/group.rs: group, ungroup, ungroup_all, group_components, ungroup_components", "src/component/component_sparse_set.rs: insert, remove, delete, swap_typed"]}
{"id": "C64", "title": "Grouping works as long as it exchanges equal versions", "statement": "Grouping exchanges whole slots of the sparse arrays, versions included. It is enough that each call only exchanges entities of the same version: an entity that joins a group has the version of those that have a component of the group but are not in it, and an entity that leaves a group has the version of those in it. Then every call has the expected outcome without an invalid access, views, queries and contains agree with the components inserted and not removed, groups stay packed, and every value is dropped, handed back or stored once, although the owners of a grouped type may have different versions. Without the condition a component may be lost (C64_unfair_refuted).", "quantifier": "every WorldBuilder configuration, every finite history of World calls in which each call meets the condition, which only speaks of the layout, the handles and which components they have (every sound history does, C64_sound_is_fair), in which maintain is called only when no entity created since the last one was destroyed, and set_layout only with layouts within the limits; every further call, view and query", "why_tests_cant": "Which entities are exchanged depends on the positions in all arrays of a family of groups; the statement is about all histories with reused indices.", "anchors": ["src/component/group.rs: group, ungroup, ungroup_all", "src/component/component_sparse_set.rs: swap_typed", "src/component/group.rs: group_components, ungroup_components"]}
{"id": "C65", "title": "Reading a world with reused grouped entities", "statement": "After any history of calls that only exchange entities of the same version (C64), although the owners of a grouped type may have different versions: contains, views and query_one find exactly the components inserted and not removed, and nothing for stale handles; a query yields what C26, C27 and C53 say, in that order; its slices, its iterator with the size hints and the parallel iteration under every way to split and interleave it agree with it; writing in parallel has the effect of for_each; no component that can be written is handed out twice; none of the read-only calls and no drop of the world performs an invalid access; and if a destructor panics while the world is dropped, of each type exactly the components up to the first that panics are dropped.", "quantifier": "every WorldBuilder configuration, every finite history as in C64, every query that borrows without conflict, every handle (live or stale), every split tree and interleaving, every set of values whose destructor panics", "why_tests_cant": "Histories with reused indices, splits, interleavings and queries are unbounded in number.", "anchors": ["src/query/query_all.rs", "src/query/query_one.rs", "src/query/iter/", "src/query/par_iter/", "src/component/view.rs", "src/component/component_sparse_set.rs: get, drop"]}
{"id": "C66", "title": "clear and reset put worn-out components right", "statement": "Whatever happened before except invalid accesses, panics of set_layout and, for clear, a maintain call while an entity created since the last one was destroyed: mixed versions of the owners of grouped types may have lost components or left them to stale handles, and other panics may have been caught. clear drops every value that is still stored, and from then on the world is as specified: as long as the calls only exchange entities of the same version (C64), every call has the expected outcome, views, queries and contains agree with the components inserted since, no call performs an invalid access and every value is dropped, handed back or stored once. The same holds for reset, which needs no condition on maintain. clear does not repair the handles after such a maintain call (C66_untidy_refuted), and set_layout does not bring lost components back (C66_set_layout_refuted).", "quantifier": "every WorldBuilder configuration, every finite history of World calls without an invalid access and without a panic of set_layout (tidy for clear), every continuation as in C64", "why_tests_cant": "The state that clear meets may be damaged in unboundedly many ways; the statement is about all of them and all continuations.", "anchors": ["src/world/mod.rs: clear, reset", "src/component/component_storage.rs: clear", "src/component/component_sparse_set.rs: clear_typed", "src/entity/entity_storage.rs: clear, reset"]}
{"id": "C67", "title": "Grouping is only an optimisation, also with reused indices", "statement": "Build two worlds with the same registered types and different layouts and make the same calls on both, such that each world only exchanges entities of the same version (C64), although the owners of a grouped type may have different versions. Then every call has the same outcome in both worlds, and afterwards contains, views, query_one and the other lookups answer alike; the queries described in C23 yield the same items, up to the order, unless a caught panic left an entity outside its groups. A world without groups needs no condition: it has the outcomes and the answers of every world with groups in which the calls only exchange entities of the same version, whatever those calls are, as long as none of them is set_layout.", "quantifier": "every pair of WorldBuilder configurations with the same types, every finite history as in C64; a for_each must have an effect that does not depend on the order of the items (as in C24)", "why_tests_cant": "Pairs of layouts and histories with reused indices are unbounded in number.", "anchors": ["src/component/component_storage.rs: new, insert, remove, delete", "src/layout/", "src/world/mod.rs"]}
{"id": "C68", "title": "The past of a world does not matter", "statement": "Take two worlds with any layouts and any pasts as in C64. If their calls did the same to the handles (created, queued and destroyed the same entities in the same order, with maintain, clear and reset in between), and if views find the same components for the same handles now, then the worlds cannot be told apart: the lookups answer alike, the queries described in C23 yield the same items up to the order, and all further calls have the same outcomes and lead to worlds that cannot be told apart either; and if the same values were handed in, the same values were dropped or handed back. The handles depend on nothing but what was done to the handles, whatever happens to the components. So calls can be replaced by others: a tuple can be inserted or deleted in parts and in another order, calls on different entities can be exchanged, create is create without components followed by insert, extend is create for each row (with the same handles), an insert right before a delete of the same types or before destroy has no effect, writing through a view is insert. The condition on the handles is needed (C68_handles_refuted).", "quantifier": "every pair of fair histories (C64) of any length and any pair of layouts, all continuations; a caught panic must have left the same entities outside their groups in both; for the handles every pair of tidy histories", "why_tests_cant": "It compares all pairs of histories and all continuations of them.", "anchors": ["src/world/mod.rs", "src/entity/entity_allocator.rs", "src/entity/entity_storage.rs", "src/component/component_storage.rs", "src/component/component_set.rs"]}
