(** C63: a call on one entity moves few others. *)
From Verif Require Import Base EntityM LayoutM WorldM QueryM StepM Spec SpecMore SpecSound SpecLocal Demo Demo2 LocalFacts LocalExtend.

Theorem C63_few_moved : ∀ l evs w s o out ds w' e k t es,
  unbroken_history_from l evs w s → op_ok o → step w o = (out, ds, w') → ub_free out →
  about o out = Some (e, k) → view_entities w t = Ok es →
  ∃ es', view_entities w' t = Ok es' ∧
    disturbed e (k + groups_with t (layout_groups (layout_after l evs))) es es'.
Proof. exact step_local. Qed.
Print Assumptions C63_few_moved.

(** [extend] of a sound history: at most one other per group and new entity. *)
Theorem C63_extend : ∀ l evs w s ts rows b out ds w' t es,
  good_history_from l evs w s → op_ok (OExtend ts rows b) → step w (OExtend ts rows b) = (out, ds, w') → ub_free out →
  view_entities w t = Ok es →
  ∃ es', view_entities w' t = Ok es' ∧
    displaced (length (reported out) * groups_with t (layout_groups (layout_after l evs))) es es'.
Proof. exact extend_local. Qed.
Print Assumptions C63_extend.

(** Sound histories are unbroken. *)
Theorem C63_sound_unbroken : ∀ l evs w s, good_history_from l evs w s → unbroken_history_from l evs w s.
Proof. exact good_unbroken_from. Qed.
Print Assumptions C63_sound_unbroken.

(** The type [tA] is in two groups. Inserting into one entity moves two others. *)
Definition C63_ops : list op :=
  [OCreate [(tA, 1%N); (tB, 2%N)]; OCreate [(tA, 3%N)]; OCreate [(tA, 5%N); (tC, 6%N); (tD, 7%N)]].
Definition C63_run := good_run [[tA; tB]; [tA; tB; tC; tD]] [tE] C63_ops.
(** Of [tA] there are now two entities in the larger group, one more in the smaller
    group, and two others. Destroying the first moves three others. *)
Definition C63_ops2 : list op := C63_ops ++
  [OInsert (Ent 2 1) [(tB, 8%N)]; OCreate [(tA, 1%N); (tB, 2%N); (tC, 3%N); (tD, 4%N)]; OCreate [(tA, 5%N)]].
Definition C63_run2 := good_run [[tA; tB]; [tA; tB; tC; tD]] [tE] C63_ops2.

Example C63_tight :
  let l := [Fam [tA; tB; tC; tD] [2; 4]] in
  groups_with tA (layout_groups (layout_after l (r_evs C63_run))) = 2 ∧
  groups_with tC (layout_groups (layout_after l (r_evs C63_run))) = 1 ∧
  groups_with tE (layout_groups (layout_after l (r_evs C63_run))) = 0 ∧
  (let w := r_w C63_run in let o := OInsert (Ent 2 1) [(tB, 8%N)] in
   good_history_from l (r_evs C63_run) w (r_s C63_run) ∧ op_ok o ∧
   let out := (step w o).1.1 in let w' := (step w o).2 in
   out = Ret (RBool true) ∧ about o out = Some (Ent 2 1, 0) ∧
   view_entities w tA = Ok [Ent 0 1; Ent 1 1; Ent 2 1] ∧ view_entities w' tA = Ok [Ent 2 1; Ent 0 1; Ent 1 1] ∧
   ¬ disturbed (Ent 2 1) 1 [Ent 0 1; Ent 1 1; Ent 2 1] [Ent 2 1; Ent 0 1; Ent 1 1]) ∧
  (let w := r_w C63_run2 in let o := ODestroy (Ent 2 1) in
   good_history_from l (r_evs C63_run2) w (r_s C63_run2) ∧ op_ok o ∧
   let out := (step w o).1.1 in let w' := (step w o).2 in
   out = Ret (RBool true) ∧ about o out = Some (Ent 2 1, 1) ∧
   view_entities w tA = Ok [Ent 2 1; Ent 3 1; Ent 0 1; Ent 1 1; Ent 4 1] ∧
   view_entities w' tA = Ok [Ent 3 1; Ent 0 1; Ent 4 1; Ent 1 1] ∧
   ¬ disturbed (Ent 2 1) 2 [Ent 2 1; Ent 3 1; Ent 0 1; Ent 1 1; Ent 4 1] [Ent 3 1; Ent 0 1; Ent 4 1; Ent 1 1]).
Proof.
  cbv zeta. split; [by vm_compute|]. split; [by vm_compute|]. split; [by vm_compute|]. split.
  - split; [apply good_run_from; by vm_compute|]. split; [done|].
    split_and!; try by vm_compute.
    eapply (disturbed_lower _ _ _ _ [(0, Ent 0 1); (1, Ent 1 1)]); [|by vm_compute|simpl; lia].
    apply (bool_decide_unpack _); by vm_compute.
  - split; [apply good_run_from; by vm_compute|]. split; [done|].
    split_and!; try by vm_compute.
    eapply (disturbed_lower _ _ _ _ [(1, Ent 3 1); (2, Ent 0 1); (4, Ent 4 1)]); [|by vm_compute|simpl; lia].
    apply (bool_decide_unpack _); by vm_compute.
Qed.

(** Two new entities of a group move two others. *)
Definition C63_run3 := good_run [[tA; tB]] [tE] [OCreate [(tA, 1%N)]; OCreate [(tA, 3%N)]; OCreate [(tA, 5%N); (tE, 6%N)]].

Example C63_extend_tight :
  let l := [Fam [tA; tB] [2]] in let w := r_w C63_run3 in let o := OExtend [tA; tB] [[1; 2]; [3; 4]]%N false in
  good_history_from l (r_evs C63_run3) w (r_s C63_run3) ∧ op_ok o ∧
  groups_with tA (layout_groups (layout_after l (r_evs C63_run3))) = 1 ∧
  (step w o).1.1 = Ret (REnts [Ent 3 1; Ent 4 1]) ∧
  view_entities w tA = Ok [Ent 0 1; Ent 1 1; Ent 2 1] ∧
  view_entities (step w o).2 tA = Ok [Ent 3 1; Ent 4 1; Ent 2 1; Ent 0 1; Ent 1 1] ∧
  ¬ displaced 1 [Ent 0 1; Ent 1 1; Ent 2 1] [Ent 3 1; Ent 4 1; Ent 2 1; Ent 0 1; Ent 1 1].
Proof.
  cbv zeta. split; [apply good_run_from; by vm_compute|].
  split; [apply (bool_decide_unpack _); by vm_compute|].
  split; [by vm_compute|]. split; [by vm_compute|]. split; [by vm_compute|]. split; [by vm_compute|].
  intros (M & HM & H).
  assert (Ent 0 1 ∈ M) as H0 by (destruct (decide (Ent 0 1 ∈ M)) as [|Hn]; [done|]; by specialize (H 0 _ eq_refl Hn)).
  assert (Ent 1 1 ∈ M) as H1 by (destruct (decide (Ent 1 1 ∈ M)) as [|Hn]; [done|]; by specialize (H 1 _ eq_refl Hn)).
  destruct M as [|x [|y M]]; simpl in HM; [by apply elem_of_nil in H0| |lia].
  apply elem_of_list_singleton in H0, H1. congruence.
Qed.
