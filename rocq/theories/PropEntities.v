(** C01-C04, C06-C10: entities and their handles. *)
From Verif Require Import Base SparseVecM EntityM CssM LayoutM StorageM WorldM QueryM StepM Spec SpecMore Demo
  EntityHistory Lockstep Facts HandleFacts SpecSafety SpecSound Demo2 BlindDemo ShapeFacts.

(** ** C01 *)

(** In full: [∀ evs w s, any_history evs w s → never_twice evs]. This is false
    ([C01_handles_unique_refuted]). It holds if [maintain] is only called while no
    entity created since the last [maintain], [clear] or [reset] has been destroyed. *)
Theorem C01_handles_unique_partial : ∀ evs w s, tidy_history evs w s → never_twice evs.
Proof. exact tidy_never_twice. Qed.
Print Assumptions C01_handles_unique_partial.

Definition C01_ops : list op :=
  [OCreate []; OCreateAtomic; OMaintain; ODestroy (Ent 0 1); OCreate [(tA, 1%N)]; ODestroy (Ent 0 2);
   OExtend [] [[]; []; []] false; OClear; OCreate []; OCreateAtomic].
Example C01_nonvacuous : let x := tidy_run [] [tA] C01_ops in
  tidy_history (r_evs x) (r_w x) (r_s x) ∧
  issued (r_evs x) = [Ent 0 1; Ent 1 1; Ent 0 2; Ent 0 3; Ent 2 1; Ent 3 1; Ent 4 1; Ent 5 1].
Proof. split; [apply tidy_run_ok|]; by vm_compute. Qed.

(** Two calls of [create] return the same handle. *)
Theorem C01_handles_unique_refuted : ∃ evs w s, any_history evs w s ∧ ¬ never_twice evs.
Proof.
  pose (x := any_run [] [] [OCreate []; ODestroy (Ent 0 1); OMaintain; ODestroy (Ent 0 1); OCreate []; OCreate []]).
  exists (r_evs x), (r_w x), (r_s x). split; [apply any_run_ok; by vm_compute|]. intros [_ H].
  specialize (H (take 4 (r_evs x)) (OCreate []) (Ret (REnt (Ent 0 2))) [] []
                (OCreate []) (Ret (REnt (Ent 0 2))) [] []).
  apply (H ltac:(by vm_compute)) with (Ent 0 2).
  - intros o out ds Ho. apply elem_of_list_singleton in Ho. by simplify_eq.
  - by left.
  - by left.
Qed.
Print Assumptions C01_handles_unique_refuted.

(** ** C02 *)

(** In full: [∀ evs w s, any_history evs w s → stays_dead evs w], which is false
    ([C02_destroyed_stays_dead_refuted]). *)
Theorem C02_destroyed_stays_dead_partial : ∀ evs w s, tidy_history evs w s → stays_dead evs w.
Proof. exact tidy_stays_dead. Qed.
Print Assumptions C02_destroyed_stays_dead_partial.

(** Nor is the handle given out again. *)
Theorem C02_destroyed_not_reissued_partial : ∀ evs1 e ds evs2 w s,
  tidy_history (evs1 ++ (ODestroy e, Ret (RBool true), ds) :: evs2) w s → no_reset evs2 →
  world_contains w e = false ∧ e ∉ world_entities w ∧ ∀ o out ds, (o, out, ds) ∈ evs2 → e ∉ reported out.
Proof. exact tidy_destroyed. Qed.
Print Assumptions C02_destroyed_not_reissued_partial.

Example C02_nonvacuous : let x := tidy_run [] [tA] C01_ops in
  tidy_history (r_evs x) (r_w x) (r_s x) ∧ r_evs x !! 5 = Some (ODestroy (Ent 0 2), Ret (RBool true), [1%N]) ∧
  world_entities (r_w x) = [Ent 4 1].
Proof. split_and!; [apply tidy_run_ok|..]; by vm_compute. Qed.

(** [maintain] brings a destroyed entity back. *)
Theorem C02_destroyed_stays_dead_refuted : ∃ evs w s, any_history evs w s ∧ ¬ stays_dead evs w.
Proof.
  pose (x := any_run [] [] [OCreate []; ODestroy (Ent 0 1); OMaintain]).
  exists (r_evs x), (r_w x), (r_s x). split; [apply any_run_ok; by vm_compute|]. intros H.
  destruct (H (take 1 (r_evs x)) (Ent 0 1) [] (drop 2 (r_evs x))) as [Hd _]; [by vm_compute| |].
  - intros o out ds Ho. change (drop 2 (r_evs x)) with [(OMaintain, Ret RUnit, @nil val)] in Ho.
    apply elem_of_list_singleton in Ho. by simplify_eq.
  - vm_compute in Hd. done.
Qed.
Print Assumptions C02_destroyed_stays_dead_refuted.

(** ** C03 *)

Theorem C03_entities_agree : ∀ evs w s, tidy_history evs w s → lists_entities w.
Proof. exact tidy_lists_entities. Qed.
Print Assumptions C03_entities_agree.

Example C03_nonvacuous : let x := tidy_run [] [tA] (take 7 C01_ops) in
  tidy_history (r_evs x) (r_w x) (r_s x) ∧ world_entities (r_w x) = [Ent 1 1; Ent 0 3; Ent 2 1; Ent 3 1].
Proof. split; [apply tidy_run_ok|]; by vm_compute. Qed.

(** Without the condition on [maintain] it fails. *)
Theorem C03_untidy_refuted : ∃ evs w s, any_history evs w s ∧ ¬ lists_entities w.
Proof.
  pose (x := any_run [] [] [OCreate []; ODestroy (Ent 0 1); OCreate []; OMaintain]).
  exists (r_evs x), (r_w x), (r_s x). split; [apply any_run_ok; by vm_compute|]. intros (_ & H & _).
  specialize (H (Ent 0 1)). change (world_entities (r_w x)) with [Ent 0 1] in H.
  destruct H as [H _]. specialize (H ltac:(by left)). vm_compute in H. done.
Qed.
Print Assumptions C03_untidy_refuted.

(** ** C04 *)

Theorem C04_destroy : ∀ w s e out ds w',
  reachable w s → step w (ODestroy e) = (out, ds, w') →
  out = Ret (RBool (world_contains w e)) ∧
  world_contains w' e = false ∧ has_comps w' e ∅ ∧
  (∀ t, world_is_registered w' t = world_is_registered w t) ∧
  (∀ e', e' ≠ e → unchanged w w' e') ∧
  ds ≡ₚ values (s_row s e) ∧ reachable w' (client_step s (ODestroy e) out).
Proof. exact destroy_effect. Qed.
Print Assumptions C04_destroy.

Theorem C04_destroy_dead : ∀ w s e out ds w',
  reachable w s → step w (ODestroy e) = (out, ds, w') → world_contains w e = false →
  out = Ret (RBool false) ∧ ds = [] ∧ w' = w.
Proof. exact destroy_dead. Qed.
Print Assumptions C04_destroy_dead.

Example C04_nonvacuous :
  reachable (r_w demo) (r_s demo) ∧
  (step (r_w demo) (ODestroy (Ent 3 1))).1 = (Ret (RBool true), [16; 21]%N) ∧
  world_contains (r_w demo) (Ent 1 1) = false ∧
  world_entities (r_w demo) = [Ent 0 1; Ent 2 1; Ent 3 1; Ent 4 1; Ent 5 1].
Proof. split; [apply demo_reachable|]. split_and!; by vm_compute. Qed.

(** ** C06 *)

Theorem C06_maintain : ∀ evs out ds w s, tidy_history (evs ++ [(OMaintain, out, ds)]) w s →
  ∃ w1 s1, tidy_history evs w1 s1 ∧ step w1 OMaintain = (out, ds, w) ∧
  out = Ret RUnit ∧ ds = [] ∧
  (∀ e, world_contains w e = true ↔ world_contains w1 e = true ∨ e ∈ queued evs) ∧
  (∀ t e, view_get w t e = view_get w1 t e) ∧
  (∀ t, world_is_registered w t = world_is_registered w1 t).
Proof. exact tidy_maintained. Qed.
Print Assumptions C06_maintain.

(** The entities made live have no components. *)
Theorem C06_maintain_no_components : ∀ w s e,
  reachable w s → world_contains w e = false → has_comps w e ∅.
Proof. intros w s e H1 H2. exact (proj1 (dead_handle w s e H1 H2)). Qed.
Print Assumptions C06_maintain_no_components.

(** Whatever was done before, [maintain] returns and leaves the components alone. *)
Theorem C06_maintain_every : ∀ evs w s out ds w', ub_free_history evs w s → step w OMaintain = (out, ds, w') →
  out = Ret RUnit ∧ ds = [] ∧ (∀ t e, view_get w' t e = view_get w t e) ∧
  (∀ t, world_is_registered w' t = world_is_registered w t).
Proof. exact every_maintain. Qed.
Print Assumptions C06_maintain_every.

Example C06_nonvacuous :
  let x := tidy_run [] [tA] [OCreate [(tA, 7%N)]; OCreateAtomic; OMaintain; ODestroy (Ent 1 1); OCreateAtomic;
                             OCreateAtomic; OMaintain] in
  tidy_history (r_evs x) (r_w x) (r_s x) ∧ queued (take 6 (r_evs x)) = [Ent 1 2; Ent 2 1] ∧
  drop 6 (r_evs x) = [(OMaintain, Ret RUnit, [])] ∧
  world_entities (r_w x) = [Ent 0 1; Ent 1 2; Ent 2 1].
Proof. split_and!; [apply tidy_run_ok|..]; by vm_compute. Qed.

(** ** C07 *)

Theorem C07_clear : ∀ w s o out ds w',
  o = OClear ∨ o = OReset → reachable w s → step w o = (out, ds, w') →
  out = Ret RUnit ∧ world_entities w' = [] ∧
  (∀ e, world_contains w' e = false ∧ has_comps w' e ∅) ∧
  (∀ t, world_is_registered w' t = world_is_registered w t) ∧
  (∀ t, world_is_registered w t = true → view_len w' t = Ok 0) ∧
  ds ≡ₚ contents s ∧ reachable w' (client_step s o out).
Proof. exact empty_effect. Qed.
Print Assumptions C07_clear.

(** After any history without an invalid access; the values dropped are those dropping
    the world would have dropped. *)
Theorem C07_clear_every : ∀ evs w s o out ds w',
  ub_free_history evs w s → o = OClear ∨ o = OReset → step w o = (out, ds, w') →
  out = Ret RUnit ∧ world_entities w' = [] ∧
  (∀ e, world_contains w' e = false ∧ has_comps w' e ∅) ∧
  (∀ t, world_is_registered w' t = world_is_registered w t) ∧
  (∀ t, world_is_registered w t = true → view_len w' t = Ok 0) ∧
  world_drop w = Ok ds ∧ world_drop w' = Ok [].
Proof. exact every_empty. Qed.
Print Assumptions C07_clear_every.

(** Handles from before [clear], queued ones included, are gone for good. *)
Theorem C07_cleared_for_good : ∀ evs1 o out ds evs2 out' ds' evs3 w s e,
  tidy_history (evs1 ++ (o, out, ds) :: evs2 ++ (OClear, out', ds') :: evs3) w s →
  no_reset (evs2 ++ (OClear, out', ds') :: evs3) → e ∈ reported out →
  world_contains w e = false ∧ ∀ o out ds, (o, out, ds) ∈ evs3 → e ∉ reported out.
Proof. exact tidy_cleared. Qed.
Print Assumptions C07_cleared_for_good.

Example C07_nonvacuous :
  let x := tidy_run [[tA; tB]] [] [OCreate [(tA, 7); (tB, 8)]%N; OCreateAtomic; OClear; OMaintain; OCreate []; OCreate []] in
  tidy_history (r_evs x) (r_w x) (r_s x) ∧
  map (λ ev : event, ev.2) (r_evs x) = [[]; []; [7; 8]%N; []; []; []] ∧
  issued (r_evs x) = [Ent 0 1; Ent 1 1; Ent 2 1; Ent 3 1].
Proof. split_and!; [apply tidy_run_ok|..]; by vm_compute. Qed.

(** The history [rough] makes two entities with one index, and a panic is caught. *)
Example C07_rough :
  ub_free_history (r_evs rough) (r_w rough) (r_s rough) ∧
  world_entities (r_w rough) = [Ent 1 1; Ent 0 1] ∧
  world_drop (r_w rough) = Ok (step (r_w rough) OClear).1.2 ∧ (step (r_w rough) OClear).1.2 = [19; 18]%N ∧
  world_entities (step (r_w rough) OMaintain).2 = [Ent 1 1; Ent 0 1].
Proof. split; [apply ub_free_run_ok; by vm_compute|]. split_and!; by vm_compute. Qed.

(** ** C08 *)

(** After [reset], the same calls return the same handles as in a new world with
    the same registered types. That [reset] empties the world is [C07_clear]. *)
Theorem C08_reset_is_fresh : ∀ w s out ds w1 w0 s0 evs1 v1 t1 evs0 v0 t0,
  reachable w s → step w OReset = (out, ds, w1) →
  built w0 s0 → (∀ t, world_is_registered w0 t = world_is_registered w t) →
  history good_side w1 (client_step s OReset out) evs1 v1 t1 → history good_side w0 s0 evs0 v0 t0 →
  map (λ ev, ev.1.1) evs1 = map (λ ev, ev.1.1) evs0 →
  map (λ ev, reported ev.1.2) evs1 = map (λ ev, reported ev.1.2) evs0.
Proof. exact reset_is_fresh. Qed.
Print Assumptions C08_reset_is_fresh.

(** From then on the world cannot be told from a new one: the same calls have the same
    outcomes and leave worlds that answer every call alike (the layouts may differ, so
    only the order of views and queries does). Before [reset] anything may have
    happened except invalid accesses and panics of [set_layout]: [reset] repairs what
    caught panics, [maintain] and mixed versions left behind. *)
Theorem C08_reset_like_new : ∀ evs w s out ds w1 w0 s0 evs1 v1 t1 evs0 v0 t0,
  unbroken_history evs w s → step w OReset = (out, ds, w1) →
  built w0 s0 → (∀ t, world_is_registered w0 t = world_is_registered w t) →
  paired w1 (client_step s OReset out) w0 s0 evs1 evs0 v1 t1 v0 t0 →
  out = Ret RUnit ∧ world_drop w = Ok ds ∧
  Forall2 (λ ev1 ev0, same_outcome ev1.1.2 ev0.1.2) evs1 evs0 ∧
  same_answers v1 v0 ∧ (s_loose t1 = ∅ → same_queries v1 v0).
Proof. exact reset_like_new. Qed.
Print Assumptions C08_reset_like_new.

Definition C08_ops : list op :=
  [OCreate [(tA, 1); (tB, 2)]; OCreateAtomic; OMaintain; OInsert (Ent 1 1) [(tA, 3)]; OCreate [(tB, 4); (tA, 5)];
   OSet tA (Ent 1 1) 9; OCreate [(tA, 6); (99, 7)]; ODestroy (Ent 0 1); OCreate []]%N.
Definition C08_before := unbroken_run [[tA; tB]] [] rough_ops.
Definition C08_new := good_run [] [tB; tA] [].
Definition C08_pair :=
  exec2 (step (r_w C08_before) OReset).2 (client_step (r_s C08_before) OReset (Ret RUnit)) (r_w C08_new) (s_init [] [tB; tA]) C08_ops.

Example C08_nonvacuous_pair :
  unbroken_history (r_evs C08_before) (r_w C08_before) (r_s C08_before) ∧
  world_contains (r_w C08_before) (Ent 0 2) = true ∧ world_entities (r_w C08_before) = [Ent 1 1; Ent 0 1] ∧
  built (r_w C08_new) (s_init [] [tB; tA]) ∧
  ∃ evs1 evs0 v1 t1 v0 t0, C08_pair = Some (evs1, evs0, (v1, t1), (v0, t0)) ∧
    paired (step (r_w C08_before) OReset).2 (client_step (r_s C08_before) OReset (Ret RUnit))
      (r_w C08_new) (s_init [] [tB; tA]) evs1 evs0 v1 t1 v0 t0 ∧
    map (λ ev, reported ev.1.2) evs1 = [[Ent 0 1]; [Ent 1 1]; []; []; [Ent 2 1]; []; [Ent 3 1]; []; [Ent 0 2]] ∧
    world_entities v1 = [Ent 3 1; Ent 1 1; Ent 2 1; Ent 0 2].
Proof.
  split; [apply unbroken_run_ok; by vm_compute|]. split; [by vm_compute|]. split; [by vm_compute|]. split.
  { exists [], [], [tB; tA]. split_and!; by vm_compute. }
  assert (bool_decide (is_Some C08_pair) = true) as [[[[evs1 evs0] [v1 t1]] [v0 t0]] H]%bool_decide_eq_true by (by vm_compute).
  exists evs1, evs0, v1, t1, v0, t0. split; [done|]. split.
  { exact (exec2_paired _ _ _ _ _ [] [] _ _ _ _ _ _ _ _ (paired_nil _ _ _ _) H). }
  split.
  - assert ((λ x, map (λ ev, reported ev.1.2) x.1.1.1) <$> C08_pair =
      Some [[Ent 0 1]; [Ent 1 1]; []; []; [Ent 2 1]; []; [Ent 3 1]; []; [Ent 0 2]]) as Hc by (by vm_compute).
    rewrite H in Hc. by injection Hc.
  - assert ((λ x, world_entities x.1.2.1) <$> C08_pair = Some [Ent 3 1; Ent 1 1; Ent 2 1; Ent 0 2]) as Hc by (by vm_compute).
    rewrite H in Hc. by injection Hc.
Qed.

Example C08_nonvacuous :
  let ops := [OCreate [(tA, 1%N)]; OCreateAtomic; OMaintain; ODestroy (Ent 0 1); OCreate []; OCreate []] in
  let x := good_run [[tA; tB]] [tC] (demo_ops ++ OReset :: ops) in
  let y := good_run [] [tC; tB; tA] ops in
  good_history (r_evs x) (r_w x) (r_s x) ∧ good_history (r_evs y) (r_w y) (r_s y) ∧
  issued (r_evs x) = [Ent 0 1; Ent 1 1; Ent 0 2; Ent 2 1] ∧ issued (r_evs y) = issued (r_evs x).
Proof. split_and!; [apply good_run_ok|apply good_run_ok|..]; by vm_compute. Qed.

(** ** C09 *)

(** A call that fails for lack of a handle: all indexes have been used. *)
Theorem C09_out_of_handles : ∀ evs o out ds w s,
  tidy_history (evs ++ [(o, out, ds)]) w s → (∃ cs, o = OCreate cs) ∨ o = OCreateAtomic → reported out = [] →
  ∀ i, (i < u32_lim)%N → ∃ e, e ∈ issued evs ∧ e_index e = i.
Proof. exact tidy_out_of_handles. Qed.
Print Assumptions C09_out_of_handles.

(** Handles are in range. *)
Theorem C09_handles_in_range : ∀ evs w s, tidy_history evs w s →
  ∀ e, e ∈ issued evs → (e_index e < u32_lim)%N ∧ (1 ≤ e_version e)%N ∧ (e_version e < u32_lim)%N.
Proof. exact tidy_valid. Qed.
Print Assumptions C09_handles_in_range.

(** The versions of an index never go back. *)
Theorem C09_versions_increase : ∀ evs1 o1 out1 ds1 evs2 o2 out2 ds2 w s e1 e2,
  tidy_history (evs1 ++ (o1, out1, ds1) :: evs2 ++ [(o2, out2, ds2)]) w s →
  no_reset (evs2 ++ [(o2, out2, ds2)]) →
  e1 ∈ reported out1 → e2 ∈ reported out2 → e_index e1 = e_index e2 → (e_version e1 < e_version e2)%N.
Proof. exact tidy_versions_increase. Qed.
Print Assumptions C09_versions_increase.

(** The last version of an index is never followed by another. *)
Theorem C09_last_version_retires : ∀ evs1 o1 out1 ds1 evs2 o2 out2 ds2 w s e1,
  tidy_history (evs1 ++ (o1, out1, ds1) :: evs2 ++ [(o2, out2, ds2)]) w s →
  no_reset (evs2 ++ [(o2, out2, ds2)]) →
  e1 ∈ reported out1 → e_version e1 = version_last →
  ∀ e2, e2 ∈ reported out2 → e_index e2 ≠ e_index e1.
Proof. exact tidy_retired. Qed.
Print Assumptions C09_last_version_retires.

Example C09_nonvacuous : let x := tidy_run [] [tA] C01_ops in
  tidy_history (r_evs x) (r_w x) (r_s x) ∧ issued (take 6 (r_evs x)) = [Ent 0 1; Ent 1 1; Ent 0 2].
Proof. split; [apply tidy_run_ok|]; by vm_compute. Qed.

(** ** C10 *)

(** The stored dense index of an entity is its position in [entities]. *)
Theorem C10_entity_positions : ∀ evs w s, tidy_history evs w s →
  ∀ i e, world_entities w !! i = Some e ↔
    (N.of_nat i < u32_lim)%N ∧ sv_get (es_sparse (st_set (w_ents w))) e = Some (N.of_nat i).
Proof. exact tidy_positions. Qed.
Print Assumptions C10_entity_positions.

(** The stored dense index of a component is its position in the view. *)
Theorem C10_component_positions : ∀ w s t c i, reachable w s → cs_borrow (w_comps w) t = Ok (c, i) →
  ∃ es, view_entities w t = Ok es ∧
  ∀ k e, es !! k = Some e ↔ (N.of_nat k < u32_lim)%N ∧ sv_get (c_sparse c) e = Some (N.of_nat k).
Proof. exact reach_positions. Qed.
Print Assumptions C10_component_positions.

Example C10_nonvacuous :
  reachable (r_w demo) (r_s demo) ∧ tidy_history (r_evs demo) (r_w demo) (r_s demo) ∧
  view_entities (r_w demo) tA = Ok [Ent 2 1; Ent 3 1; Ent 4 1; Ent 0 1].
Proof. split_and!; [apply demo_reachable|apply good_tidy, demo_ok|]. by vm_compute. Qed.
