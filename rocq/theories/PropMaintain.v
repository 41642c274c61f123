(** C57: what [maintain] does when entities created since the last one were destroyed. *)
From Verif Require Import Base EntityM LayoutM WorldM QueryM StepM Spec SpecMore SpecMaintain Demo Demo2 MaintainFacts.

(** [maintain] returns and leaves the components alone, tidy or not. Afterwards the live
    handles are those live before and, for each index without a live entity, the latest
    handle given out since the last [maintain], [clear] or [reset], destroyed or not.
    [World::entities] shows instead the first such handle of each index; each index
    is listed once. *)
Theorem C57_any_maintain : ∀ evs w s out dr w',
  tidy_history evs w s → step w OMaintain = (out, dr, w') →
  out = Ret RUnit ∧ dr = [] ∧ w_comps w' = w_comps w ∧
  (∀ e, world_contains w' e = true ↔ s_alive s e ∨ latest s e ∧ ¬ live_index s (e_index e)) ∧
  (∀ e, e ∈ world_entities w' ↔ earliest s e ∨ s_alive s e ∧ ¬ recent_index s (e_index e)) ∧
  NoDup (e_index <$> world_entities w').
Proof. exact any_maintain. Qed.
Print Assumptions C57_any_maintain.

(** The condition of the tidy histories cannot be weakened: [maintain] makes
    [World::entities] list the live and the queued entities if and only if no entity
    created since the last [maintain] has been destroyed. *)
Theorem C57_tidy_needed : ∀ evs w s out dr w',
  tidy_history evs w s → step w OMaintain = (out, dr, w') →
  (∀ e, e ∈ world_entities w' ↔ s_alive s e ∨ e ∈ s_queued s) ↔ tidy s.
Proof. exact maintain_needs_tidy. Qed.
Print Assumptions C57_tidy_needed.

(** The dead handles that come back to life: those created since the last
    [maintain] that are the latest of their index. *)
Theorem C57_revived : ∀ evs w s out dr w' e,
  tidy_history evs w s → step w OMaintain = (out, dr, w') → world_contains w e = false → e ∉ s_queued s →
  world_contains w' e = true ↔ e ∈ s_created s ∧ latest s e ∧ ¬ live_index s (e_index e).
Proof. exact maintain_revives. Qed.
Print Assumptions C57_revived.

(** Index 0 is live again, index 1 is queued again, index 2 is only destroyed. *)
Definition C57_run : list op :=
  [OExtend [tA] [[1]; [2]; [3]; [4]]%N false; ODestroy (Ent 0 1); OCreate []; ODestroy (Ent 1 1);
   OCreateAtomic; ODestroy (Ent 2 1)].
Example C57_nonvacuous :
  let x := tidy_run [] [tA] C57_run in
  let y := step (r_w x) OMaintain in
  tidy_history (r_evs x) (r_w x) (r_s x) ∧
  world_entities (r_w x) = [Ent 3 1; Ent 0 2] ∧ elements (s_queued (r_s x)) = [Ent 1 2] ∧
  world_entities y.2 = [Ent 3 1; Ent 0 1; Ent 1 1; Ent 2 1] ∧
  world_contains y.2 <$> [Ent 3 1; Ent 0 1; Ent 0 2; Ent 1 1; Ent 1 2; Ent 2 1] =
    [true; false; true; false; true; true].
Proof.
  cbv zeta. split; [apply tidy_run_ok; by vm_compute|].
  repeat (split; [vm_compute; reflexivity|]). vm_compute. reflexivity.
Qed.
