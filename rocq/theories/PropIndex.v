(** C62: what becomes of the indices. *)
From Verif Require Import Base EntityM LayoutM WorldM QueryM StepM Spec SpecMore SpecListing SpecSpace SpecIndex
  Demo Demo2 IndexFacts.

(** Every index given out since the last [reset] is that of a live entity, of one waiting
    for [maintain], of a handle waiting to be given out, or lost. *)
Theorem C62_account : ∀ evs w s, tidy_history evs w s →
  span (issued evs) =
  length (world_entities w) + length (queued evs) + length (p_wait (pooled evs)) + n_lost (counted evs).
Proof. exact tidy_account. Qed.
Print Assumptions C62_account.

(** Unless [clear] removed entities: handles run out exactly if 2^32 entities are live,
    waiting for [maintain], or were destroyed with the last version. *)
Theorem C62_runs_out_partial : ∀ evs w s o out ds w',
  tidy_history evs w s → n_cleared (counted evs) = 0 → (∃ cs, o = OCreate cs) ∨ o = OCreateAtomic →
  step w o = (out, ds, w') → tidy_side s o out →
  reported out = [] ↔
  N.of_nat (length (world_entities w) + length (queued evs) + n_retired (counted evs)) = u32_lim.
Proof. exact tidy_runs_out_no_clear. Qed.
Print Assumptions C62_runs_out_partial.

(** In general the entities that [clear] removed count as well. *)
Theorem C62_runs_out_exactly : ∀ evs w s o out ds w',
  tidy_history evs w s → (∃ cs, o = OCreate cs) ∨ o = OCreateAtomic →
  step w o = (out, ds, w') → tidy_side s o out →
  reported out = [] ↔
  N.of_nat (length (world_entities w) + length (queued evs) + n_lost (counted evs)) = u32_lim.
Proof. exact tidy_runs_out. Qed.
Print Assumptions C62_runs_out_exactly.

(** So after enough calls of [create] and [clear], [create] panics in an empty world. *)
Theorem C62_clear_refuted : ∃ evs w s,
  tidy_history evs w s ∧ only (λ o, o = OCreate [] ∨ o = OClear) evs ∧
  world_entities w = [] ∧ queued evs = [] ∧ step w (OCreate []) = (Panicked [], [], w).
Proof. exact clear_leaks. Qed.
Print Assumptions C62_clear_refuted.

(** The index of an entity removed by [clear] is not given out again before [reset]. *)
Theorem C62_cleared_gone : ∀ evs1 ds1 evs2 o2 out2 ds2 w s w1 s1 e e2,
  tidy_history evs1 w1 s1 → e ∈ world_entities w1 ∨ e ∈ queued evs1 →
  tidy_history (evs1 ++ (OClear, Ret RUnit, ds1) :: evs2 ++ [(o2, out2, ds2)]) w s →
  no_reset (evs2 ++ [(o2, out2, ds2)]) → e2 ∈ reported out2 → e_index e2 ≠ e_index e.
Proof. exact tidy_gone. Qed.
Print Assumptions C62_cleared_gone.

(** There are at most as many indices as there were entities at once, besides the lost
    ones; so the tables of the storages are bounded by these numbers. *)
Theorem C62_peak : ∀ evs w s, tidy_history evs w s →
  n_pop (counted evs) = length (world_entities w) + length (queued evs) ∧
  n_pop (counted evs) ≤ n_peak (counted evs) ∧
  span (issued evs) ≤ n_peak (counted evs) + n_lost (counted evs) ∧
  ∀ t, entries w t ≤ 2 * (n_peak (counted evs) + n_lost (counted evs)).
Proof. exact tidy_peaks. Qed.
Print Assumptions C62_peak.

(** The queue of destroyed handles: [destroy] adds an entry, and handing the handle out
    does not remove it; [maintain] and [clear] remove those handed out. *)
Theorem C62_backlog : ∀ evs w s o out ds w',
  tidy_history evs w s → step w o = (out, ds, w') → tidy_side s o out →
  backlog w' =
  match o with
  | ODestroy e =>
      if decide (world_contains w e = true ∧ (e_version e < version_last)%N) then backlog w + 1 else backlog w
  | OMaintain | OClear => length (p_wait (pooled evs))
  | OReset => 0
  | _ => backlog w
  end.
Proof. exact backlog_step. Qed.
Print Assumptions C62_backlog.

(** So a program that never calls [maintain] grows it without bound, with one entity. *)
Theorem C62_backlog_refuted : ∀ n, (N.of_nat n < version_last)%N → ∃ evs w s,
  tidy_history evs w s ∧ only (λ o, o = OCreate [] ∨ ∃ e, o = ODestroy e) evs ∧
  n_peak (counted evs) ≤ 1 ∧ world_entities w = [] ∧ backlog w = n.
Proof. exact backlog_grows. Qed.
Print Assumptions C62_backlog_refuted.

(** Five entities, two destroyed and one reused, the rest cleared, then two new ones. *)
Definition index_ops : list op :=
  [OExtend [tA] [[1]; [2]; [3]; [4]]%N false; OMaintain; ODestroy (Ent 1 1); ODestroy (Ent 2 1); OCreate [];
   OCreateAtomic; OCreateAtomic; OClear; OCreate []; OCreateAtomic].
Example C62_nonvacuous :
  let x := tidy_run [] [tA] (take 6 index_ops) in let y := tidy_run [] [tA] index_ops in
  (tidy_history (r_evs x) (r_w x) (r_s x) ∧ world_entities (r_w x) = [Ent 0 1; Ent 3 1; Ent 1 2] ∧
   queued (r_evs x) = [Ent 2 2] ∧ backlog (r_w x) = 2) ∧
  tidy_history (r_evs y) (r_w y) (r_s y) ∧ world_entities (r_w y) = [Ent 5 1] ∧ queued (r_evs y) = [Ent 6 1] ∧
  counted (r_evs y) = Census 2 5 0 5 ∧ span (issued (r_evs y)) = 7 ∧ backlog (r_w y) = 0.
Proof.
  cbv zeta. split.
  - split; [apply tidy_run_ok; by vm_compute|]. by vm_compute.
  - split; [apply tidy_run_ok; by vm_compute|]. by vm_compute.
Qed.
