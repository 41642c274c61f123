(** C61: the memory of the storages. *)
From Verif Require Import Base LayoutM WorldM QueryM StepM Spec SpecMore SpecSpace Demo SpaceFacts SpaceRun.

(** One call: the allocation of a type stays as it is unless it is too small for the
    components now stored; then it has the least size of 4, 8, 16, ... that is large
    enough. It never shrinks, except that a [set_layout] that panicked may lose it. *)
Theorem C61_one_call : ∀ side ws w o out dr w' t,
  life side (w :: ws) → op_ok o → step w o = (out, dr, w') →
  fit (count w' t) ≤ reserved w' t ∧ reserved w' t ≤ reserved w t `max` fit (count w' t) ∧
  (ub_free out → ¬ failed_layout o out → reserved w' t = reserved w t `max` fit (count w' t)).
Proof. exact reserved_step. Qed.
Print Assumptions C61_one_call.

(** After any calls the allocation is at most the one needed for the largest number of
    components of the type there ever was. *)
Theorem C61_peak : ∀ side ws, life side ws → ∀ w t, head ws = Some w → reserved w t ≤ fit (peak ws t).
Proof. exact life_reserved. Qed.
Print Assumptions C61_peak.

(** It is exactly that, unless a [set_layout] panicked. *)
Theorem C61_peak_exactly : ∀ ws, life no_failed_layout ws → ∀ w t, head ws = Some w → reserved w t = fit (peak ws t).
Proof. exact life_reserved_eq. Qed.
Print Assumptions C61_peak_exactly.

(** [fit n] is the least of 0, 4, 8, 16, ... that is at least [n]. *)
Theorem C61_fit : ∀ n,
  n ≤ fit n ∧ (fit n = 0 ∨ ∃ k, fit n = 4 * 2 ^ k) ∧
  (∀ m, n ≤ m → (m = 0 ∨ ∃ k, m = 4 * 2 ^ k) → fit n ≤ m) ∧ fit n ≤ 4 `max` (2 * n).
Proof. exact fit_spec. Qed.
Print Assumptions C61_fit.

(** The components of a type are moved to another allocation by at most about log2 of
    their largest number calls. *)
Theorem C61_moves : ∀ ws t, life no_failed_layout ws → 2 ^ moves ws t ≤ 2 `max` peak ws t.
Proof. exact life_moves. Qed.
Print Assumptions C61_moves.

(** The tables from indexes to positions have at most two entries per index given out
    since the last [reset]. *)
Theorem C61_tables : ∀ evs w s t, tidy_history evs w s → entries w t ≤ 2 * span (issued evs).
Proof. exact tidy_tables. Qed.
Print Assumptions C61_tables.

(** Nine entities in two steps, all removed again, groups changed, two new ones. *)
Definition space_ops : list op :=
  [OExtend [tA; tB] (replicate 3 [1; 2]%N) false; OExtend [tA; tB] (replicate 6 [3; 4]%N) false;
   ODestroy (Ent 0 1); OClear; OSetLayout [] []; OExtend [tA] [[5]; [6]]%N false].
Example C61_nonvacuous :
  let ws := lives_built [[tA; tB]] [tC] space_ops in
  life no_failed_layout ws ∧
  match ws with
  | w :: _ => count w tA = 2 ∧ peak ws tA = 9 ∧ reserved w tA = 16 ∧ moves ws tA = 2 ∧ reserved w tC = 0
  | [] => False
  end.
Proof. split; [apply lives_built_life; by vm_compute|]. by vm_compute. Qed.

Example C61_tables_nonvacuous :
  let x := tidy_run [[tA; tB]] [tC] space_ops in
  tidy_history (r_evs x) (r_w x) (r_s x) ∧ span (issued (r_evs x)) = 10 ∧ entries (r_w x) tA = 17 ∧ entries (r_w x) tB = 0.
Proof. split; [by apply tidy_run_ok; vm_compute|]. by vm_compute. Qed.
