# A formal model of sparsey 0.13.1 in Rocq (Coq 8.16.1)

The Rust sources in `/repo` were read as text; nothing was compiled or run. The
model is a set of executable Gallina functions that follow the code function by
function. Every definition of a model file carries a comment with the file and
lines it models. The properties are in `properties.jsonl`, the theorems in
`rocq/theories/Prop*.v`, and `MANIFEST.json` links the two.

## How the code is represented

* `u32` and `u64` are `N`, `usize` and positions are `nat`. A cast `as u32` is
  `mod 2^32`. Versions are `NonZeroU32` values as `N`.
* A raw buffer is a list of cells `option _` of length `cap`. `None` means
  uninitialised or moved out.
* A call returns `Ok x`, `Panic` or `UB`. `UB` is returned by each unchecked access
  that is out of bounds or reads a cell that is `None`. Where the state left by a
  panic can be seen later, the model returns it with the panic (`create`, `insert`,
  `extend`, `set_layout`, `add_group`).
* Component types are numbers (`TypeId`), component values are opaque numbers. One
  value may only be in one place; moves, drops and returns of values are tracked, so
  leaks and double drops are visible.
* A mutating call of the world is an operation `op`; `step : world → op → outcome ×
  dropped values × world` (StepM.v) is the transition function. Reading calls are
  functions of the world.
* The order in which a hash map is traversed is a parameter of `set_layout`
  (`perm`), and the theorems hold for every order.

## Files

| files | content |
|---|---|
| Base | results, entities, versions |
| SparseVecM | src/entity/sparse_vec.rs |
| EntityM | entity_allocator.rs, entity_sparse_set.rs, entity_storage.rs |
| CssM | component_sparse_set.rs: dense arrays, sparse array, swap, grow, clear, drop |
| MaskM | group_mask.rs, storage_mask.rs |
| LayoutM | group_layout.rs |
| GroupM | group.rs: grouping and ungrouping loops |
| StorageM | component_storage.rs, group_info.rs, `set_layout` |
| WorldM | world/mod.rs, component_set.rs (create, insert, remove, delete, extend), view.rs |
| BuilderM | world/builder.rs |
| QueryM | query/query_part.rs, query/mod.rs, query_one.rs, query_all.rs, iter/*.rs |
| ParM | query/par_iter/*.rs and the iterator protocol |
| WriteM | writes through slices, the index operators, `QueryOne::map`, `slice()` |
| LoopM | `for_each` and loops over `next` whose body has a state, writes and may stop |
| StepM | `step`: the API as a transition function |
| AtomicM | threads running `create_atomic`, one atomic access at a time |
| BorrowM | `AtomicRefCell` flags, views and queries that live side by side |
| MemLayoutM | bytes of the allocation: `compute_layout`, `grow_typed`, `drop_typed` |
| DropPanicM | the calls that drop components, when a `Drop` panics |
| Spec*, SparseVecSpec | what is claimed, in terms of calls and results |
| Demo*, *Demo | concrete histories used by the examples and the refutations |
| RepoTests | /repo/tests and the README example, run on the model to check it |
| *Proofs, *Facts, *Ops, *Iter, *Range, History, Lockstep, Contents, Grouped, Entity{Run,History}, Blind*, BorrowHist, StorageCount, Drop{Clear,Delete,Exact,World}, Fair{Pair,Reads}, Lists, LocalExtend, Members{Query,Run}, SpaceRun | lemmas |
| Prop* | the property theorems, each closed by one lemma, with `Print Assumptions` and a concrete example |

## Specification

`Spec.v` defines the client's view `sstate`: a finite map from live handles to rows
(type → value), the registered types, the handles issued, queued and created since
the last `maintain`, the grouped types, and the entities whose insertion was cut
short by a caught panic (`s_loose`). `client_step` says how each call changes this
view. It uses none of the model's functions except the type of operations. The main
lemma is a simulation between `step` and `client_step`; most property theorems are
consequences, stated with `reachable w s` ("`w` is reached by a sound history and `s`
is the client's view of it").

Kinds of histories (a history starts at any world that a `WorldBuilder` builds and
is a sequence of calls with their outcomes):

* `any_history`: no condition.
* `ub_free_history`: no call performed an invalid access.
* `tidy_history`: `maintain` is only called while no entity made by `create` or
  `extend` since the last `maintain`, `clear` or `reset` has been destroyed.
* `good_history` (sound): tidy; after each call, all owners of a component type that
  is in a group have the same version; `set_layout` is only called with a layout it
  accepts (fewer than 64 groups, fewer than 16 types per family).
* `fair_history` (SpecFair.v): as sound, but instead of the condition on all owners,
  each call only exchanges entities of the same version. Sound histories are fair.
* `ungrouped_history`: the world never has groups.
* `unbroken_history`: no call performed an invalid access and no call of `set_layout`
  panicked. Its groups and tables are right even if its contents are not, so `reset`
  makes the world as good as new (C08, ShapeFacts.v).
* `worn_history` (SpecMend.v): tidy and unbroken. `clear` puts its world right (C66).
* `fair_paired` (SpecFairPair.v): two fair histories of the same calls (C67); `paired`
  (Spec.v) is the same for sound histories (C24).

The conditions are about calls and handles, so a client can check them. They are
needed: PropSound.v and PropSafety.v give, for each property, a history that
violates one condition and on which the property fails. C33_sound_without_destroy
and C33_sound_without_groups name two large classes of sound histories. The
invariant of the `Blind*` files holds without them and gives the theorems about
every history (C06, C07, C16, C17, C18, C20, C31, C33).

## Trusted base

* Coq's kernel, including its virtual machine (`vm_compute`), and the tools that
  load the compiled files.
* No axioms. `Print Assumptions` says "Closed under the global context" for each
  theorem of the Prop files. The development uses std++ (as installed), which adds
  no axioms. `coqchk` lists, for every development that loads it, the parameters
  of the sealed module in the standard library's `Coq.ssr.ssrunder` (`Under_rel`,
  `Under_rel_from_rel`, `Under_relE`, `under_rel_done`, `Over_rel`, `over_rel`,
  `over_rel_done`). No theorem depends on them.
* The reading of the Rust sources: that the Gallina functions say what the code does.
* The behaviour of what the code uses, as modelled:
  * `atomic_refcell`: `borrow` panics iff the cell is mutably borrowed, `borrow_mut`
    iff it is borrowed at all, a guard releases its borrow when dropped (BorrowM).
  * `rayon`: a producer is split at positions within its length in some tree, each
    leaf is folded in order, leaves run interleaved item by item (ParM). Items are
    consumed one at a time; two threads never run inside one item.
  * Relaxed atomics (AtomicM): a load, or a compare-exchange that fails (which may be
    spurious), returns any value written so far, however old; a compare-exchange that
    succeeds acts on the newest value. This allows more than Rust does.
  * The allocator (MemLayoutM): a fresh block is disjoint from all live ones and
    aligned as asked; `usize` has 64 bits; `Layout::array` and `Layout::extend` as
    documented.
  * A panic in a `Drop` (DropPanicM): the value counts as dropped, and unwinding drops
    what the frames own. A second panic while unwinding would abort; the model goes on,
    which allows more.
  * `Vec`, `HashMap`, slices and iterators of the Rust standard library, as lists,
    finite maps and their documented functions. Vectors are assumed to be able to
    grow (no allocation failure, no capacity overflow).

## What is not modelled

* `Debug` implementations, documentation, re-exports (lib.rs, mod.rs), the
  `IntoIterator` wrappers, `Default` implementations that call `new`.
* The arities of the macros: tuples are lists of any length.
* `Send`/`Sync` and lifetimes, that is, what the type checker of Rust guarantees. In
  particular that views and queries cannot outlive the borrow of the world.
* Zero sized component types have the same model as others in CssM; their memory is
  part of MemLayoutM.
* Stacked-borrows style rules on raw pointers. `UB` covers out of bounds accesses,
  reads of uninitialised or moved-out cells and, in C29, two `&mut` to one cell.
* component_data.rs: a `ComponentData` is its `TypeId`, equality and order included.
* Allocation failure.

## Findings

The theorems named `_refuted` are counterexamples found in the code:

1. `maintain` makes destroyed entities live again, and handles are then issued twice
   (C01, C02, C03, C05, C06, C09, C10). C57 says exactly when and which ones.
2. Grouping swaps whole sparse slots, versions included. If owners of grouped
   components have different versions, lookups fail, stale handles find components,
   and later calls read moved-out memory (C04, C10–C13, C15, C16, C24, C27, C33, C46). C64
   says which calls are safe nevertheless.
3. Slices of a dense query with `exclude` start at the wrong position (C25, C49).
4. A dense `exclude` of two or more types only excludes entities that have them all
   (C26, C27).
5. A query that requires no component yields nothing (C40), and `query_one` accepts
   dead handles when no component is required (C41).
6. `add_group` accepts compatible groups only smaller first, accepts some
   incompatible ones, may lose a type, and a rejected call may change the layout
   (C34, C44, C47, C52).
7. The limits 64 and 16 are off by one (C35).
8. A caught panic in an insertion leaves an entity out of its group (C36).
9. A panicking `Drop` leads to a double drop (C37).
10. `set_layout` that panics loses the components, and later calls are undefined (C38).
11. `set_layout` never removes old storages (C43).
12. `clear` loses the indices of the entities it removes until `reset`, so `create` can
    run out of handles in an empty world (C62).
13. The queue of destroyed handles grows with every `destroy` until `maintain`, `clear`
    or `reset`, even if the handles are used again (C62).

## Properties

`partial` means that the statement of properties.jsonl is false of the code or proved
only in part; the theorem names and notes in MANIFEST.json say which part.

| property | status | theorems |
|---|---|---|
| C01 Handles are never issued twice | partial | `C01_handles_unique_partial`, `C01_handles_unique_refuted` |
| C02 A destroyed entity stays dead | partial | `C02_destroyed_not_reissued_partial`, `C02_destroyed_stays_dead_partial`, `C02_destroyed_stays_dead_refuted` |
| C03 entities() and contains_entity agree | proved | `C03_entities_agree`, `C03_untidy_refuted` |
| C04 destroy removes exactly one entity | proved | `C04_destroy`, `C04_destroy_dead`, `C04_mixed_refuted` |
| C05 Concurrent create_atomic is duplicate-free | proved | `C05_concurrent_as_sequence`, `C05_concurrent_exhausted`, `C05_concurrent_handles`, `C05_concurrent_sound`, `C05_untidy_refuted` |
| C06 maintain adds exactly the queued entities | proved | `C06_maintain`, `C06_maintain_every`, `C06_maintain_no_components`, `C06_untidy_refuted` |
| C07 clear empties the world for good | proved | `C07_clear`, `C07_clear_every`, `C07_cleared_for_good` |
| C08 reset restores a fresh allocator | proved | `C08_reset_is_fresh`, `C08_reset_like_new` |
| C09 Exhaustion panics instead of wrapping | proved | `C09_handles_in_range`, `C09_last_version_retires`, `C09_out_of_handles`, `C09_untidy_refuted`, `C09_versions_increase` |
| C10 Dense indexes never truncate | proved | `C10_component_positions`, `C10_entity_positions`, `C10_mixed_refuted`, `C10_untidy_refuted` |
| C11 create attaches exactly the given components | proved | `C11_create`, `C11_mixed_refuted` |
| C12 insert overwrites exactly the given components | proved | `C12_insert`, `C12_insert_dead`, `C12_mixed_refuted` |
| C13 remove returns and detaches exactly the requested components | proved | `C13_mixed_refuted`, `C13_remove`, `C13_remove_dead` |
| C14 delete equals remove without the values | proved | `C14_delete` |
| C15 The world is a map from handles to components | proved | `C15_lookup`, `C15_mixed_refuted` |
| C16 Views are aligned | proved | `C16_mixed_refuted`, `C16_views_aligned`, `C16_views_every` |
| C17 Registration is idempotent and monotone | proved | `C17_register`, `C17_register_every`, `C17_registered_types` |
| C18 Unregistered types panic without damage | proved | `C18_unregistered_calls`, `C18_unregistered_insert`, `C18_unregistered_query`, `C18_unregistered_view` |
| C19 extend equals repeated create | proved | `C19_extend` |
| C20 Every component value is released exactly once | proved | `C20_values_every_history`, `C20_values_released_once` |
| C21 set_layout preserves the data | proved | `C21_set_layout` |
| C22 Grouped storages share a dense prefix | proved | `C22_groups_share_a_prefix` |
| C23 query_all yields exactly the matching entities | proved | `C23_query_all` |
| C24 Grouping is only an optimisation | proved | `C24_layouts_agree`, `C24_mixed_refuted` |
| C25 slice agrees with iter | partial | `C25_slice_agrees_partial`, `C25_slice_exactly`, `C25_slice_exclude_refuted` |
| C26 exclude on a group excludes every listed component | partial | `C26_dense_exclude_exactly`, `C26_dense_exclude_partial`, `C26_dense_exclude_refuted` |
| C27 query_one agrees with query_all | proved | `C27_dense_exclude_refuted`, `C27_mixed_refuted`, `C27_query_one` |
| C28 for_each updates each match exactly once | proved | `C28_for_each` |
| C29 Iteration never aliases | proved | `C29_no_alias` |
| C30 Parallel iteration equals sequential iteration | proved | `C30_par_for_each`, `C30_par_iter` |
| C31 Borrow conflicts panic, and only conflicts do | proved | `C31_borrow_panics`, `C31_exclusive`, `C31_query_call`, `C31_query_panics`, `C31_query_refused` |
| C32 Iterator protocol | proved | `C32_any_iter`, `C32_iter` |
| C33 Safe API calls never cause undefined behaviour | partial | `C33_lookups_partial`, `C33_no_ub_partial`, `C33_query_refuted`, `C33_sound_without_destroy`, `C33_sound_without_groups`, `C33_ungrouped_partial` |
| C34 Compatible groups are accepted in any order | partial | `C34_any_order_refuted`, `C34_incompatible_refuted`, `C34_smaller_first_partial` |
| C35 Documented layout limits are usable | partial | `C35_build_partial`, `C35_large_group`, `C35_set_layout_every_partial`, `C35_set_layout_partial`, `C35_sixteen_types_refuted`, `C35_sixty_four_groups_refuted` |
| C36 A caught panic leaves the world usable | partial | `C36_caught_panic_partial`, `C36_dense_query_refuted`, `C36_exactly` |
| C37 A panicking Drop does not corrupt the storage | partial | `C37_clear_exactly`, `C37_clear_refuted`, `C37_create_exactly`, `C37_delete_exactly`, `C37_delete_partial`, `C37_delete_ungrouped_refuted`, `C37_destroy_exactly`, `C37_drop_world`, `C37_drop_world_exactly`, `C37_extend_exactly`, `C37_insert`, `C37_insert_exactly`, `C37_no_panic`, `C37_refuted`, `C37_reset_exactly`, `C37_reset_refuted` |
| C38 A failed set_layout leaves the world safe | partial | `C38_exactly`, `C38_failed_set_layout_partial`, `C38_failed_set_layout_refuted`, `C38_reset_refuted` |
| C39 Entity ordering is a total order consistent with equality | proved | `C39_entity_order` |
| C40 query_all without required components covers all entities | partial | `C40_all_entities_refuted`, `C40_no_required_component` |
| C41 query_one rejects dead handles | partial | `C41_dead_exactly`, `C41_exactly`, `C41_query_one_partial`, `C41_query_one_refuted` |
| C42 SparseVec is a versioned map | proved | `C42_sparse_vec_is_a_versioned_map` |
| C43 set_layout does not accumulate storages | partial | `C43_other_calls_partial`, `C43_set_layout_partial`, `C43_storages_refuted` |
| C44 build equals new plus register | proved | `C44_build`, `C44_coherent`, `C44_lost_type_refuted` |
| C45 Growing the storage is safe and content preserving | proved | `C45_cells_placed`, `C45_drop`, `C45_grow`, `C45_grow_cells`, `C45_writes` |
| C46 Results do not depend on stale versions | proved | `C46_dead_handle`, `C46_mixed_refuted`, `C46_stale_handle` |
| C47 A rejected group leaves the layout unchanged | partial | `C47_rejected_exactly`, `C47_rejected_group_partial`, `C47_rejected_group_refuted` |
| C48 Mutable access writes the component it names | proved | `C48_index`, `C48_index_mut`, `C48_map`, `C48_map_panics`, `C48_slice_element`, `C48_slice_unregistered` |
| C49 Slices of a grouped query write to the entities it yields | partial | `C49_group_slice_exactly`, `C49_group_slice_exclude_refuted`, `C49_group_slice_partial` |
| C50 Which queries are dense | proved | `C50_dense_iff` |
| C51 Destroyed indexes are reused before new ones | proved | `C51_exact_handles`, `C51_no_gaps`, `C51_reuse` |
| C52 Exactly which groups add_group takes | proved | `C52_add_group`, `C52_no_group` |
| C53 The order of iteration | proved | `C53_order` |
| C54 Loops over a query can be left at any item | proved | `C54_for_each`, `C54_loop`, `C54_panics` |
| C55 The order of World::entities | proved | `C55_entities_order` |
| C56 The order of a view | proved | `C56_apart`, `C56_history`, `C56_view_order` |
| C57 What maintain does in every case | proved | `C57_any_maintain`, `C57_revived`, `C57_tidy_needed` |
| C58 create_atomic is lock-free | proved | `C58_alone`, `C58_lock_free`, `C58_never_stuck`, `C58_some_call_finishes`, `C58_spurious_refuted` |
| C59 What a query answered from a group yields | proved | `C59_filed`, `C59_prefix`, `C59_query`, `C59_repair` |
| C60 A caught set_layout panic can be repaired | proved | `C60_repair`, `C60_repair_empty` |
| C61 Memory is bounded by the peak | proved | `C61_fit`, `C61_moves`, `C61_one_call`, `C61_peak`, `C61_peak_exactly`, `C61_tables` |
| C62 Handles and their memory are recycled | partial | `C62_account`, `C62_backlog`, `C62_backlog_refuted`, `C62_clear_refuted`, `C62_cleared_gone`, `C62_peak`, `C62_runs_out_exactly`, `C62_runs_out_partial` |
| C63 A call on one entity moves few others | proved | `C63_extend`, `C63_few_moved`, `C63_sound_unbroken` |
| C64 Grouping works as long as it exchanges equal versions | proved | `C64_groups`, `C64_outcomes`, `C64_query_all`, `C64_query_one`, `C64_read`, `C64_sound_is_fair`, `C64_unfair_refuted`, `C64_values` |
| C65 Reading a world with reused grouped entities | proved | `C65_dense_exclude`, `C65_drop_world`, `C65_iter`, `C65_lookups`, `C65_no_alias`, `C65_one_exactly`, `C65_one_like_all`, `C65_order`, `C65_par_for_each`, `C65_par_iter`, `C65_safe_reads`, `C65_slice`, `C65_views_aligned` |
| C66 clear and reset put worn-out components right | proved | `C66_clear`, `C66_reset`, `C66_set_layout_refuted`, `C66_untidy_refuted` |
| C67 Grouping is only an optimisation, also with reused indices | proved | `C67_layouts_agree`, `C67_no_groups` |
| C68 The past of a world does not matter | proved | `C68_create_split`, `C68_extend_split`, `C68_handles`, `C68_handles_refuted`, `C68_laws`, `C68_laws_run`, `C68_past_forgotten`, `C68_values` |

## Wrong programs

`seeded/LOG.jsonl` lists edits of the model that were tried in a copy. Each line has
the definition, the edit and the claim it breaks. `first_failure` is the first lemma
that no longer compiles, `theorems_failed` the property theorems that depend on it.
`statements_false_on_a_run` are the statements of which a computed execution of the
edited model is a counterexample; these are independent of the proofs.
`theorems_tightened` names the theorems that were changed because of the edit.
