{"claims": [
 {"property": "C01", "status": "partial", "theorems": ["C01_handles_unique_partial", "C01_handles_unique_refuted"], "note": "Proved for histories that call maintain only while no entity created since the last maintain has been destroyed. False without that: the refuted theorem gives a history that returns one handle twice."},
 {"property": "C02", "status": "partial", "theorems": ["C02_destroyed_not_reissued_partial", "C02_destroyed_stays_dead_partial", "C02_destroyed_stays_dead_refuted"], "note": "As C01: proved for tidy histories, refuted in general (maintain revives destroyed handles)."},
 {"property": "C03", "status": "proved", "theorems": ["C03_entities_agree", "C03_untidy_refuted"], "note": "For tidy histories. Unrestricted it is false: C03_untidy_refuted."},
 {"property": "C04", "status": "proved", "theorems": ["C04_destroy", "C04_destroy_dead", "C04_mixed_refuted"], "note": "Destroying live and dead handles, for sound histories. Unrestricted it is false: C04_mixed_refuted."},
 {"property": "C05", "status": "proved", "theorems": ["C05_concurrent_as_sequence", "C05_concurrent_exhausted", "C05_concurrent_handles", "C05_concurrent_sound", "C05_untidy_refuted"], "note": "All schedules, any number of threads and calls, stale and spurious reads; C05_concurrent_as_sequence: linearizable after any history; distinctness under the tidy condition, C05_untidy_refuted shows it is needed."},
 {"property": "C06", "status": "proved", "theorems": ["C06_maintain", "C06_maintain_every", "C06_maintain_no_components", "C06_untidy_refuted"], "note": "C06_maintain_every: maintain returns and leaves components alone after every history without invalid accesses. The rest for tidy histories. Unrestricted it is false: C06_untidy_refuted."},
 {"property": "C07", "status": "proved", "theorems": ["C07_clear", "C07_clear_every", "C07_cleared_for_good"], "note": "C07_clear_every: after every history without invalid accesses. C07_clear: for sound histories also that the values dropped are those of the client's view. Never again: for tidy histories."},
 {"property": "C08", "status": "proved", "theorems": ["C08_reset_is_fresh", "C08_reset_like_new"], "note": "C08_reset_like_new: after every history without invalid accesses and set_layout panics, a reset world answers every later call like a new one. C08_reset_is_fresh: same handles."},
 {"property": "C09", "status": "proved", "theorems": ["C09_handles_in_range", "C09_last_version_retires", "C09_out_of_handles", "C09_untidy_refuted", "C09_versions_increase"], "note": "For tidy histories: exhaustion, range and growth of versions, retirement of an index. Unrestricted it is false: C09_untidy_refuted."},
 {"property": "C10", "status": "proved", "theorems": ["C10_component_positions", "C10_entity_positions", "C10_mixed_refuted", "C10_untidy_refuted"], "note": "Dense positions of entities (tidy histories) and components (sound histories). Unrestricted it is false: C10_untidy_refuted, C10_mixed_refuted."},
 {"property": "C11", "status": "proved", "theorems": ["C11_create", "C11_mixed_refuted"], "note": "For sound histories. Unrestricted it is false: C11_mixed_refuted."},
 {"property": "C12", "status": "proved", "theorems": ["C12_insert", "C12_insert_dead", "C12_mixed_refuted"], "note": "For sound histories. Unrestricted it is false: C12_mixed_refuted."},
 {"property": "C13", "status": "proved", "theorems": ["C13_mixed_refuted", "C13_remove", "C13_remove_dead"], "note": "For sound histories. Unrestricted it is false: C13_mixed_refuted."},
 {"property": "C14", "status": "proved", "theorems": ["C14_delete"], "note": "For every state of the world."},
 {"property": "C15", "status": "proved", "theorems": ["C15_lookup", "C15_mixed_refuted"], "note": "For sound histories. Unrestricted it is false: C15_mixed_refuted."},
 {"property": "C16", "status": "proved", "theorems": ["C16_mixed_refuted", "C16_views_aligned", "C16_views_every"], "note": "For sound histories. Unrestricted it is false: C16_mixed_refuted; C16_views_every is what holds then."},
 {"property": "C17", "status": "proved", "theorems": ["C17_register", "C17_register_every", "C17_registered_types"], "note": "After every history without invalid accesses; which types are registered: also no survived set_layout panic. C17_register adds that the world stays sound."},
 {"property": "C18", "status": "proved", "theorems": ["C18_unregistered_calls", "C18_unregistered_insert", "C18_unregistered_query", "C18_unregistered_view"], "note": "remove, delete, extend, views in every state; queries after every history without invalid accesses; create and insert after sound histories."},
 {"property": "C19", "status": "proved", "theorems": ["C19_extend"], "note": "For sound histories; also when the iterator of extend panics or lies about its length."},
 {"property": "C20", "status": "proved", "theorems": ["C20_values_every_history", "C20_values_released_once"], "note": "C20_values_every_history: every history whose calls performed no invalid access (untidy maintain, any versions, caught panics, failed set_layout included). C20_values_released_once: for sound histories also that the stored values are those of the client's view."},
 {"property": "C21", "status": "proved", "theorems": ["C21_set_layout"], "note": "For sound histories."},
 {"property": "C22", "status": "proved", "theorems": ["C22_groups_share_a_prefix"], "note": "For sound histories."},
 {"property": "C23", "status": "proved", "theorems": ["C23_query_all"], "note": "For sound histories and plain queries that exclude at most one type or a type in no group, without an entity left loose by a caught panic."},
 {"property": "C24", "status": "proved", "theorems": ["C24_layouts_agree", "C24_mixed_refuted"], "note": "For sound histories and the queries of C23. Unrestricted it is false: C24_mixed_refuted."},
 {"property": "C25", "status": "partial", "theorems": ["C25_slice_agrees_partial", "C25_slice_exactly", "C25_slice_exclude_refuted"], "note": "Component slices of queries with exclude are wrong in the code (refuted theorem); the rest is proved. C25_slice_exactly says what they hold in general: the front of the storage."},
 {"property": "C26", "status": "partial", "theorems": ["C26_dense_exclude_exactly", "C26_dense_exclude_partial", "C26_dense_exclude_refuted"], "note": "Proved for one excluded type; the exact behaviour in general is proved too, and refutes the claim for two excluded types."},
 {"property": "C27", "status": "proved", "theorems": ["C27_dense_exclude_refuted", "C27_mixed_refuted", "C27_query_one"], "note": "For sound histories and the queries of C23. Unrestricted it is false: C27_dense_exclude_refuted, C27_mixed_refuted."},
 {"property": "C28", "status": "proved", "theorems": ["C28_for_each"], "note": "For sound histories; the visited entities are the matching ones for the queries of C23."},
 {"property": "C29", "status": "proved", "theorems": ["C29_no_alias"], "note": "For sound histories and all queries."},
 {"property": "C30", "status": "proved", "theorems": ["C30_par_for_each", "C30_par_iter"], "note": "For sound histories and all queries; rayon is represented by its contract (split trees and interleavings of whole items)."},
 {"property": "C31", "status": "proved", "theorems": ["C31_borrow_panics", "C31_exclusive", "C31_query_call", "C31_query_panics", "C31_query_refused"], "note": "After every history without invalid accesses, any interleaving of views and queries; AtomicRefCell is represented by its documented contract. C31_query_call (the whole call panics in no other case) is for sound histories."},
 {"property": "C32", "status": "proved", "theorems": ["C32_any_iter", "C32_iter"], "note": "For all iterators of sound histories, and for any iterator state whose fold returns."},
 {"property": "C33", "status": "partial", "theorems": ["C33_lookups_partial", "C33_no_ub_partial", "C33_query_refuted", "C33_sound_without_destroy", "C33_sound_without_groups", "C33_ungrouped_partial"], "note": "Proved for sound histories (tidy maintain, owners of each grouped component share one version, no survived set_layout panic): every call and every read-only call. In worlds that never have groups: every history, unconditionally (C33_ungrouped_partial). With groups, after any history without an invalid access, the calls that do not rely on the groups are safe (C33_lookups_partial). C33_sound_without_destroy and C33_sound_without_groups: histories that never destroy, and tidy ones without groups, are sound. Weaker condition on the versions, call by call: C64. Refuted without the version condition by six calls and a query, and after a survived set_layout panic (C38)."},
 {"property": "C34", "status": "partial", "theorems": ["C34_any_order_refuted", "C34_incompatible_refuted", "C34_smaller_first_partial"], "note": "Proved for coherent groups (nested or disjoint, chains inside a common group): accepted if and only if added smaller first, and then the layout has exactly these groups. Any order and the rejection of other groups are refuted by concrete layouts."},
 {"property": "C35", "status": "partial", "theorems": ["C35_build_partial", "C35_large_group", "C35_set_layout_every_partial", "C35_set_layout_partial", "C35_sixteen_types_refuted", "C35_sixty_four_groups_refuted"], "note": "Proved with the limits 63 groups and 15 types, for build and for set_layout after every history without invalid accesses and set_layout panics. The documented 64 and 16 are refuted. Groups of more than 16 types are rejected."},
 {"property": "C36", "status": "partial", "theorems": ["C36_caught_panic_partial", "C36_dense_query_refuted", "C36_exactly"], "note": "Proved: the world after the panic is reachable and described by the map, so lookups and queries not answered from a group are exact. Refuted for queries answered from a group, which miss the entity. C36_exactly says what every query yields after the panic: those answered from a group, what was filed under it before the call (C59); all others, what matches."},
 {"property": "C37", "status": "partial", "theorems": ["C37_clear_exactly", "C37_clear_refuted", "C37_create_exactly", "C37_delete_exactly", "C37_delete_partial", "C37_delete_ungrouped_refuted", "C37_destroy_exactly", "C37_drop_world", "C37_drop_world_exactly", "C37_extend_exactly", "C37_insert", "C37_insert_exactly", "C37_no_panic", "C37_refuted", "C37_reset_exactly", "C37_reset_refuted"], "note": "False in general. Proved: exactly what a panicking insert, create or extend leaves behind, a world of a sound history with every value accounted for once; exactly what clear and reset leave behind; exactly what delete and destroy leave behind, a world that goes on as specified or one with a single unreadable component and a double drop to come; dropping the world never drops twice, and exactly which components it drops. Refuted for delete, destroy, clear and reset; clear and reset are always followed by a double drop."},
 {"property": "C38", "status": "partial", "theorems": ["C38_exactly", "C38_failed_set_layout_partial", "C38_failed_set_layout_refuted", "C38_reset_refuted"], "note": "Proved: the entities survive and every component is dropped exactly once, in the panic or with the world. Survival of the components and safety of later calls are refuted (reset does not help, C38_reset_refuted). C38_exactly says what survives and what is dropped; C60 how to go on."},
 {"property": "C39", "status": "proved", "theorems": ["C39_entity_order"], "note": "entity_cmp is the lexicographic order on (version, index)."},
 {"property": "C40", "status": "partial", "theorems": ["C40_all_entities_refuted", "C40_no_required_component"], "note": "False of the code, which yields nothing; this is proved for every such query. Complete coverage of queries that require a component is C23."},
 {"property": "C41", "status": "partial", "theorems": ["C41_dead_exactly", "C41_exactly", "C41_query_one_partial", "C41_query_one_refuted"], "note": "Proved for queries that require a component, refuted for the others; C41_exactly and C41_dead_exactly say what query_one answers for every query and handle."},
 {"property": "C42", "status": "proved", "theorems": ["C42_sparse_vec_is_a_versioned_map"], "note": "Refinement to a map for every call sequence within the unsafe contracts."},
 {"property": "C43", "status": "partial", "theorems": ["C43_other_calls_partial", "C43_set_layout_partial", "C43_storages_refuted"], "note": "Proved: every other call keeps the number of storages per registered type, and set_layout adds exactly one storage per registered type (after every history without invalid accesses and set_layout panics). The claim itself is refuted for every bound."},
 {"property": "C44", "status": "proved", "theorems": ["C44_build", "C44_coherent", "C44_lost_type_refuted"], "note": "For every sequence of builder calls, including set_layout after add_group. For incoherent groups the types are those of the layout, which may lack a type of an accepted group (refuted theorem)."},
 {"property": "C45", "status": "proved", "theorems": ["C45_cells_placed", "C45_drop", "C45_grow", "C45_grow_cells", "C45_writes"], "note": "For every size, alignment and capacity, on a 64-bit target, with the allocator as an assumption (fresh_block); byte contents, one block, no leak, same layout for dealloc."},
 {"property": "C46", "status": "proved", "theorems": ["C46_dead_handle", "C46_mixed_refuted", "C46_stale_handle"], "note": "For sound histories. Unrestricted it is false: C46_mixed_refuted."},
 {"property": "C47", "status": "partial", "theorems": ["C47_rejected_exactly", "C47_rejected_group_partial", "C47_rejected_group_refuted"], "note": "Proved if the groups sharing a type with the rejected group share types with each other. Refuted for a group meeting two disjoint ones. C47_rejected_exactly says exactly when the layout changes."},
 {"property": "C48", "status": "proved", "theorems": ["C48_index", "C48_index_mut", "C48_map", "C48_map_panics", "C48_slice_element", "C48_slice_unregistered"], "note": "For sound histories; the index operators for every world."},
 {"property": "C49", "status": "partial", "theorems": ["C49_group_slice_exactly", "C49_group_slice_exclude_refuted", "C49_group_slice_partial"], "note": "Proved for queries without a required exclusion. With one, the slice starts at the wrong component and writes to an entity the query excludes: the refuted theorem gives the history. C49_group_slice_exactly says where it writes in general."},
 {"property": "C50", "status": "proved", "theorems": ["C50_dense_iff"], "note": "For sound histories. The groups are those of layout_groups of the layout in force."},
 {"property": "C51", "status": "proved", "theorems": ["C51_exact_handles", "C51_no_gaps", "C51_reuse"], "note": "For tidy histories. C51_exact_handles predicts every handle."},
 {"property": "C52", "status": "proved", "theorems": ["C52_add_group", "C52_no_group"], "note": "Describes the code as it is: taken is the condition the code checks, stated on the groups. That it differs from the documented condition is C34."},
 {"property": "C53", "status": "proved", "theorems": ["C53_order"], "note": "For sound histories."},
 {"property": "C54", "status": "proved", "theorems": ["C54_for_each", "C54_loop", "C54_panics"], "note": "For sound histories. Drop of the values assigned over is taken not to panic (see C37)."},
 {"property": "C55", "status": "proved", "theorems": ["C55_entities_order"], "note": "For tidy histories."},
 {"property": "C56", "status": "proved", "theorems": ["C56_apart", "C56_history", "C56_view_order"], "note": "For sound histories. The order inside a group is left to C22 and C53."},
 {"property": "C57", "status": "proved", "theorems": ["C57_any_maintain", "C57_revived", "C57_tidy_needed"], "note": "For the first untidy call of maintain of a history, and every tidy one."},
 {"property": "C58", "status": "proved", "theorems": ["C58_alone", "C58_lock_free", "C58_never_stuck", "C58_some_call_finishes", "C58_spurious_refuted"], "note": "Accesses are those of AtomicM; the bound counts stale loads and spurious failures of the weak compare-exchange."},
 {"property": "C59", "status": "proved", "theorems": ["C59_filed", "C59_prefix", "C59_query", "C59_repair"], "note": "Sound histories: the good_history of the other claims (maintain only when nothing queued was destroyed, layouts that fit, versions of C02), here with the layout and types the world was built with."},
 {"property": "C60", "status": "proved", "theorems": ["C60_repair", "C60_repair_empty"], "note": "fails: the panicking calls; lives_on: after every further good history the entities, views, queries and the drop of the world agree with the map, and every good call is allowed."},
 {"property": "C61", "status": "proved", "theorems": ["C61_fit", "C61_moves", "C61_one_call", "C61_peak", "C61_peak_exactly", "C61_tables"], "note": "The size of the allocation and of the table are fields of the storage that the API does not show (SpecSpace.v). Vec may reserve more than the entries of the table."},
 {"property": "C62", "status": "partial", "theorems": ["C62_account", "C62_backlog", "C62_backlog_refuted", "C62_clear_refuted", "C62_cleared_gone", "C62_peak", "C62_runs_out_exactly", "C62_runs_out_partial"], "note": "False for clear (C62_clear_refuted) and for the queue of a program that never calls maintain (C62_backlog_refuted); exact statements for both. The length of the queue is a field the API does not show."},
 {"property": "C63", "status": "proved", "theorems": ["C63_extend", "C63_few_moved", "C63_sound_unbroken"], "note": "Also for histories whose versions are mixed up (unbroken_history_from), except for extend. C63_tight and C63_extend_tight show that the bounds are reached."},
 {"property": "C64", "status": "proved", "theorems": ["C64_groups", "C64_outcomes", "C64_query_all", "C64_query_one", "C64_read", "C64_sound_is_fair", "C64_unfair_refuted", "C64_values"], "note": "The condition (fair_call, SpecFair.v) is weaker than that of sound histories (same_versions): sound histories are fair (C64_sound_is_fair), and the example history of PropFair.v is not sound. It is sufficient, not necessary: an entity that is already in place is not exchanged. Without it: C64_unfair_refuted."},
 {"property": "C65", "status": "proved", "theorems": ["C65_dense_exclude", "C65_drop_world", "C65_iter", "C65_lookups", "C65_no_alias", "C65_one_exactly", "C65_one_like_all", "C65_order", "C65_par_for_each", "C65_par_iter", "C65_safe_reads", "C65_slice", "C65_views_aligned"], "note": "The theorems C15_lookup, C16_views_aligned, C25_slice_agrees_partial, C26_dense_exclude_exactly, C27_query_one, C29, C30, C32, C37_drop_world_exactly, C41_exactly and C53_order for the larger class of histories of C64. Slices of queries with exclude are excepted as in C25."},
 {"property": "C66", "status": "proved", "theorems": ["C66_clear", "C66_reset", "C66_set_layout_refuted", "C66_untidy_refuted"], "note": "worn_history and works_from are in SpecMend.v. Untidy histories need reset (C66_reset); for clear they are refuted (C66_untidy_refuted)."},
 {"property": "C67", "status": "proved", "theorems": ["C67_layouts_agree", "C67_no_groups"], "note": "C24 for the larger class of histories of C64. fair_paired is in SpecFairPair.v. A for_each is restricted by determined as in C24."},
 {"property": "C68", "status": "proved", "theorems": ["C68_create_split", "C68_extend_split", "C68_handles", "C68_handles_refuted", "C68_laws", "C68_laws_run", "C68_past_forgotten", "C68_values"], "note": "asks (what a call did to the handles), alike (cannot be told apart) and law (the calls that can be replaced) are in SpecPast.v. The laws of C68_laws suppose that both ways are fair; C68_laws_run gives a condition on the versions (level) under which they are."}
]}
