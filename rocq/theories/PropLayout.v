(** Group layouts, builders and storages. *)
From Verif Require Import Base LayoutM WorldM StepM BuilderM Spec SpecMore SpecLayout LayoutFacts StorageCount BuilderFacts
  Demo LayoutDemo SpecSafety SpecSound BlindDemo ShapeFacts.

(** ** C34 *)

(** Missing: any order of the calls, and rejection of all other groups; both are
    false (below). Groups that are coherent and added smaller first are all
    accepted, and are then exactly the groups of the layout. *)
Theorem C34_smaller_first_partial : ∀ gs, coherent gs → Forall small gs →
  (is_Some (add_groups [] gs) ↔ smaller_first gs) ∧ ∀ l, add_groups [] gs = Some l → has_groups l gs.
Proof. exact coherent_groups. Qed.
Print Assumptions C34_smaller_first_partial.

(** The larger group first: the smaller is rejected. *)
Theorem C34_any_order_refuted : ∃ gs, coherent gs ∧ Forall small gs ∧ add_groups [] gs = None.
Proof. exists [[tA; tB; tC; tD]; [tA; tB]]. exact larger_first_rejected. Qed.
Print Assumptions C34_any_order_refuted.

(** Groups neither nested nor disjoint are accepted, and the layout then has
    another set of groups. *)
Theorem C34_incompatible_refuted : ∃ gs l, Forall small gs ∧ ¬ coherent gs ∧ add_groups [] gs = Some l ∧
  ¬ has_groups l gs ∧ ∃ t, t ∈ concat gs ∧ t ∉ layout_tids l.
Proof. exists [[tA; tB]; [tA; tB; tC; tD; tE]; [tA; tB; tF]]. exact incompatible_accepted. Qed.
Print Assumptions C34_incompatible_refuted.

Example C34_nonvacuous :
  let gs := [[tA; tB]; [tC; tD]; [tB; tA; tE]; [tF]; [tB; tA]] in
  coherent gs ∧ Forall small gs ∧ smaller_first gs ∧
  add_groups [] gs = Some [Fam [tA; tB; tE] [2; 3]; Fam [tC; tD] [2]].
Proof. exact layout_demo. Qed.

(** ** C35 *)

(** Missing: 16 types and 64 groups; the limits are 15 and 63. *)
Theorem C35_build_partial : ∀ gs l ts, add_groups [] gs = Some l →
  is_Some (builder_build l ts) ↔ length (layout_groups l) ≤ 63 ∧ ∀ g, g ∈ layout_groups l → length g ≤ 15.
Proof. exact built_limits. Qed.
Print Assumptions C35_build_partial.

Theorem C35_set_layout_partial : ∀ w s l perm out ds w',
  reachable w s → op_ok (OSetLayout l perm) → step w (OSetLayout l perm) = (out, ds, w') →
  (length (layout_groups l) ≤ 63 ∧ (∀ g, g ∈ layout_groups l → length g ≤ 15) →
     same_versions (client_step s (OSetLayout l perm) (Ret RUnit)) → out = Ret RUnit) ∧
  (¬ (length (layout_groups l) ≤ 63 ∧ ∀ g, g ∈ layout_groups l → length g ≤ 15) → out = Panicked []).
Proof. exact set_layout_limits. Qed.
Print Assumptions C35_set_layout_partial.

(** The same after every history without an invalid access or a panic of [set_layout],
    in which the versions may be mixed: [set_layout] then returns unless it makes an
    invalid access. *)
Theorem C35_set_layout_every_partial : ∀ evs w s l perm out ds w',
  unbroken_history evs w s → op_ok (OSetLayout l perm) → step w (OSetLayout l perm) = (out, ds, w') →
  (length (layout_groups l) ≤ 63 ∧ (∀ g, g ∈ layout_groups l → length g ≤ 15) → ub_free out → out = Ret RUnit) ∧
  (¬ (length (layout_groups l) ≤ 63 ∧ ∀ g, g ∈ layout_groups l → length g ≤ 15) → out = Panicked []).
Proof. exact unbroken_limits. Qed.
Print Assumptions C35_set_layout_every_partial.

(** A group with more than 16 types is rejected. *)
Theorem C35_large_group : ∀ l g, ¬ small g → (add_group_dyn l g).1 = true.
Proof. exact large_group. Qed.
Print Assumptions C35_large_group.

Theorem C35_sixteen_types_refuted : ∃ g l, length (remove_dups g) = 16 ∧ add_groups [] [g] = Some l ∧
  layout_groups l = [g] ∧ builder_build l [] = None.
Proof. exists (types 0 16), [Fam (types 0 16) [16]]. split_and!; by vm_compute. Qed.
Print Assumptions C35_sixteen_types_refuted.

Theorem C35_sixty_four_groups_refuted : ∃ gs l, length gs = 64 ∧ add_groups [] gs = Some l ∧
  layout_groups l = gs ∧ builder_build l [] = None.
Proof.
  exists (map (λ i, types (2 * i) 2) (seq 0 64)), (map (λ i, Fam (types (2 * i) 2) [2]) (seq 0 64)).
  split_and!; by vm_compute.
Qed.
Print Assumptions C35_sixty_four_groups_refuted.

Example C35_nonvacuous :
  let gs := map (λ i, types (15 * i) 15) (seq 0 63) in let l := layout_of gs in
  add_groups [] gs = Some l ∧ length (layout_groups l) = 63 ∧ map length (layout_groups l) = replicate 63 15 ∧
  bool_decide (is_Some (builder_build l [])) = true ∧ ¬ small (types 0 17) ∧
  let w := r_w demo in let o := OSetLayout (layout_of [types 5 16]) [] in
  reachable w (r_s demo) ∧ op_ok o ∧ (step w o).1.1 = Panicked [].
Proof.
  split; [by vm_compute|]. split; [by vm_compute|]. split; [by vm_compute|]. split; [by vm_compute|].
  split; [apply (bool_decide_unpack _); by vm_compute|]. split; [apply demo_reachable|].
  split; [apply op_okb_ok; by vm_compute|]. by vm_compute.
Qed.

(** ** C43 *)

(** Missing: [set_layout] keeps the number of storages; it is false (below). *)
Theorem C43_other_calls_partial : ∀ w o out ds w',
  step w o = (out, ds, w') → (∀ l p, o ≠ OSetLayout l p) →
  storages w' + registered_types w = storages w + registered_types w'.
Proof. exact step_storages. Qed.
Print Assumptions C43_other_calls_partial.

(** [set_layout] adds a storage for every type and drops none. *)
Theorem C43_set_layout_partial : ∀ evs w s l perm out ds w',
  unbroken_history evs w s → op_ok (OSetLayout l perm) → step w (OSetLayout l perm) = (out, ds, w') →
  unbroken (OSetLayout l perm) out → storages w' = storages w + registered_types w'.
Proof. exact unbroken_set_layout_count. Qed.
Print Assumptions C43_set_layout_partial.

(** A world with two types and any number of storages. *)
Theorem C43_storages_refuted : ∀ n, ∃ w s, reachable w s ∧ registered_types w = 2 ∧ n < storages w.
Proof. exact many_storages. Qed.
Print Assumptions C43_storages_refuted.

(** [rough] leaves a world that contains [Ent 0 2] but does not list it. *)
Definition C43_world := unbroken_run [[tA; tB]] [tC] rough_ops.
Example C43_nonvacuous :
  let x := C43_world in let w := r_w x in let l := layout_of [[tB; tC]; [tB; tC; tD]] in let o := OSetLayout l [tC; tA; tB] in
  unbroken_history (r_evs x) w (r_s x) ∧ op_ok o ∧ unbroken o (step w o).1.1 ∧ (step w o).1.1 = Ret RUnit ∧
  world_contains w (Ent 0 2) = true ∧ world_entities w = [Ent 1 1; Ent 0 1] ∧
  (storages w, registered_types w) = (3, 3) ∧
  (storages (step w o).2, registered_types (step w o).2) = (7, 4) ∧
  (storages (step w (ORegister tE)).2, registered_types (step w (ORegister tE)).2) = (4, 4).
Proof.
  cbv zeta. split; [apply unbroken_run_ok; by vm_compute|]. split; [apply op_okb_ok; by vm_compute|].
  assert ((step (r_w C43_world) (OSetLayout (layout_of [[tB; tC]; [tB; tC; tD]]) [tC; tA; tB])).1.1 = Ret RUnit) as Ho by (by vm_compute).
  split; [rewrite Ho; split; [exact I|intros; reflexivity]|]. split; [exact Ho|].
  repeat (split; [vm_compute; reflexivity|]). vm_compute; reflexivity.
Qed.

(** ** C44 *)

(** [told_groups [] cs] are the groups given to the builder since the last
    [set_layout]. *)
Theorem C44_build : ∀ cs b,
  bcalls_run builder_default cs = Some b →
  add_groups [] (told_groups [] cs) = Some (b_layout b) ∧
  (build b = None ↔ world_new (b_layout b) = None) ∧
  ∀ w, build b = Some w →
    (∃ w0, world_new (b_layout b) = Some w0 ∧ w = foldl (λ w t, (step w (ORegister t)).2) w0 (told_types cs)) ∧
    world_entities w = [] ∧
    (∀ t, world_is_registered w t = true ↔ (∃ g, g ∈ layout_groups (b_layout b) ∧ t ∈ g) ∨ t ∈ told_types cs) ∧
    (∀ t, world_is_registered w t = true → view_len w t = Ok 0) ∧
    ∃ s, reachable w s.
Proof. exact build_world. Qed.
Print Assumptions C44_build.

(** With coherent groups, the types of the groups are registered. *)
Theorem C44_coherent : ∀ cs b w t,
  bcalls_run builder_default cs = Some b → build b = Some w →
  coherent (told_groups [] cs) → Forall small (told_groups [] cs) →
  world_is_registered w t = true ↔
    (∃ g, g ∈ told_groups [] cs ∧ is_group g ∧ t ∈ g) ∨ t ∈ told_types cs.
Proof. exact build_coherent. Qed.
Print Assumptions C44_coherent.

(** Without, a type of an accepted group may stay unregistered. *)
Theorem C44_lost_type_refuted : ∃ cs b w g t,
  bcalls_run builder_default cs = Some b ∧ build b = Some w ∧
  g ∈ told_groups [] cs ∧ is_group g ∧ t ∈ g ∧ world_is_registered w t = false.
Proof. exact build_loses_type. Qed.
Print Assumptions C44_lost_type_refuted.

Example C44_nonvacuous :
  let cs := [BRegister tE; BAddGroup [tC; tD]; BSetLayout [[tA; tB]]; BRegister tA; BAddGroup [tB; tA; tD]] in
  coherent (told_groups [] cs) ∧ Forall small (told_groups [] cs) ∧
  match bcalls_run builder_default cs with
  | Some b => match build b with
              | Some w => map (world_is_registered w) [tA; tB; tC; tD; tE] = [true; true; false; true; true]
              | None => False
              end
  | None => False
  end.
Proof. exact builder_demo. Qed.

(** ** C47 *)

(** Missing: a group sharing types with two disjoint groups; it changes the layout
    before it is rejected (below). *)
Theorem C47_rejected_group_partial : ∀ gs l g, add_groups [] gs = Some l →
  (∀ h k, h ∈ layout_groups l → k ∈ layout_groups l → meets h g → meets k g → meets h k) →
  (add_group_dyn l g).1 = true → (add_group_dyn l g).2 = l.
Proof. exact rejected_group. Qed.
Print Assumptions C47_rejected_group_partial.

Theorem C47_rejected_group_refuted : ∃ gs l g, add_groups [] gs = Some l ∧ Forall small (g :: gs) ∧
  (add_group_dyn l g).1 = true ∧ ¬ has_groups (add_group_dyn l g).2 gs.
Proof. exact rejected_changes. Qed.
Print Assumptions C47_rejected_group_refuted.

Example C47_nonvacuous :
  let gs := [[tA; tB; tC]; [tD; tE]] in let l := layout_of gs in
  add_groups [] gs = Some l ∧ (add_group_dyn l [tA; tC]).1 = true ∧
  (∀ h k, h ∈ layout_groups l → k ∈ layout_groups l → meets h [tA; tC] → meets k [tA; tC] → meets h k).
Proof. exact rejected_demo. Qed.
