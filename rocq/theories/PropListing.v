(** C55: the order of [World::entities]; C51: which handles are given out. *)
From Verif Require Import Base EntityM LayoutM WorldM QueryM StepM Spec SpecMore SpecListing Demo Demo2 ListingFacts.

(** ** C51 *)

(** The handles a call gives out are known in advance: first those that replace
    destroyed ones, in the order of their destruction, then new indices counting up. *)
Theorem C51_exact_handles : ∀ evs w s o out dr w',
  tidy_history evs w s → step w o = (out, dr, w') → tidy_side s o out →
  reported out = (give (asked w o) (pooled evs)).1.
Proof. exact tidy_given. Qed.
Print Assumptions C51_exact_handles.

(** ** C55 *)

(** [World::entities] is the list one gets by appending what [create] and [extend] return,
    filling the hole of a destroyed entity with the last one, and appending at
    [maintain] what [create_atomic] returned: the reused handles, the latest first, then
    the new ones ([listed]). *)
Theorem C55_entities_order : ∀ evs w s, tidy_history evs w s →
  world_entities w = ls_ents (listed evs) ∧ (∀ e, e ∈ ls_queue (listed evs) ↔ e ∈ s_queued s).
Proof. exact tidy_listing. Qed.
Print Assumptions C55_entities_order.

(** Two handles of the four of [create_atomic] are reused. *)
Definition C55_run : list op :=
  [OExtend [tA] [[1]; [2]; [3]; [4]]%N false; OMaintain; ODestroy (Ent 1 1); ODestroy (Ent 0 1);
   OCreateAtomic; OCreateAtomic; OCreateAtomic; OCreate []; OCreateAtomic].
Example C55_nonvacuous :
  let x := tidy_run [] [tA] C55_run in
  let y := tidy_run [] [tA] (C55_run ++ [OMaintain; ODestroy (Ent 2 1)]) in
  tidy_history (r_evs x) (r_w x) (r_s x) ∧ tidy_history (r_evs y) (r_w y) (r_s y) ∧
  world_entities (r_w x) = [Ent 2 1; Ent 3 1; Ent 5 1] ∧ ls_queue (listed (r_evs x)) = [Ent 1 2; Ent 0 2; Ent 4 1; Ent 6 1] ∧
  pooled (take 4 (r_evs x)) = Pool [Ent 1 2; Ent 0 2] 4 ∧
  (give 4 (pooled (take 4 (r_evs x)))).1 = [Ent 1 2; Ent 0 2; Ent 4 1; Ent 5 1] ∧
  world_entities (r_w y) = [Ent 6 1; Ent 3 1; Ent 5 1; Ent 0 2; Ent 1 2; Ent 4 1].
Proof.
  cbv zeta. split; [apply tidy_run_ok; by vm_compute|]. split; [apply tidy_run_ok; by vm_compute|].
  repeat (split; [vm_compute; reflexivity|]). vm_compute. reflexivity.
Qed.
