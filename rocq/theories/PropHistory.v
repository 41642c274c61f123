(** Theorems about every history, without the conditions of a sound one. *)
From Verif Require Import Base LayoutM WorldM QueryM ParM StepM Spec SpecMore SpecQuery SpecSafety Demo
  BlindHist BlindDemo.

(** ** C20 *)

(** Every history, as long as no call performed an invalid access: [maintain] at any
    time, any versions, caught panics, failed changes of the layout. *)
Theorem C20_values_every_history : ∀ evs w s, ub_free_history evs w s →
  ∃ vs, world_drop w = Ok vs ∧ hist_in evs ≡ₚ hist_dropped evs ++ hist_out evs ++ vs.
Proof. exact history_values. Qed.
Print Assumptions C20_values_every_history.

(** The history is not sound: [maintain] brings back a destroyed entity. *)
Example C20_every_nonvacuous :
  ub_free_history (r_evs rough) (r_w rough) (r_s rough) ∧
  world_contains (r_w rough) (Ent 0 2) = true ∧
  existsb (λ ev, outcome_panics ev.1.2) (r_evs rough) = true ∧
  hist_in (r_evs rough) = [10; 11; 12; 13; 14; 15; 16; 17; 18; 19; 20]%N ∧
  hist_dropped (r_evs rough) = [10; 11; 16; 17; 12; 13; 15]%N ∧ hist_out (r_evs rough) = [14; 20]%N ∧
  world_drop (r_w rough) = Ok [19; 18]%N.
Proof. split; [apply ub_free_run_ok; by vm_compute|]. split_and!; by vm_compute. Qed.

(** ** C33 *)

(** In a world without groups no call of any history performs an invalid access, and
    neither does any reading call afterwards. Missing: worlds with groups (for those
    see C33_no_ub_partial and C33_lookups_partial). *)
Theorem C33_ungrouped_partial : ∀ evs w s, ungrouped_history evs w s →
  (∀ o out ds, (o, out, ds) ∈ evs → ub_free out) ∧ safe_reads w ∧
  ∀ G J X f, ¬ par_for_each w G J X f UB.
Proof. exact ungrouped_safe. Qed.
Print Assumptions C33_ungrouped_partial.

Example C33_ungrouped_nonvacuous :
  ungrouped_history (r_evs rough_plain) (r_w rough_plain) (r_s rough_plain) ∧
  length (r_evs rough_plain) = 12 ∧ world_contains (r_w rough_plain) (Ent 0 2) = true ∧
  query_all (r_w rough_plain) [PEntity; PRef tB] [] [] =
    Ok [[IEnt (Ent 1 1); IRef tB 0 19]; [IEnt (Ent 0 2); IRef tB 1 18]]%N.
Proof. split; [apply ungrouped_run_ok; by vm_compute|]. split_and!; by vm_compute. Qed.

(** With groups, whatever happened before without an invalid access, the calls that
    do not rely on the groups are safe. Missing: the other calls (false for them,
    C33_query_refuted). *)
Theorem C33_lookups_partial : ∀ evs w s, ub_free_history evs w s →
  safe_lookups w ∧ ∀ o, groupless o → ub_free (step w o).1.1.
Proof. exact any_lookups. Qed.
Print Assumptions C33_lookups_partial.

(** The world of C33_query_refuted, where a query answered from the group reads past
    the end: it is covered, and queries not answered from the group still work. *)
Example C33_lookups_nonvacuous :
  let x := ub_free_run [[tA; tB]] [] [OCreate []; ODestroy (Ent 0 1); OCreate [(tA, 10)];
    OCreate [(tA, 11); (tB, 12)]; ORemove (Ent 1 1) [tB]]%N in
  ub_free_history (r_evs x) (r_w x) (r_s x) ∧ query_all (r_w x) [PRef tA; PRef tB] [] [] = UB ∧
  query_is_dense (r_w x) [PRef tA] [PRef tB] [PRef tB] = Ok false ∧ groupless (OSet tA (Ent 1 1) 5%N).
Proof. intros x. split; [apply ub_free_run_ok; by vm_compute|]. split_and!; by vm_compute. Qed.
