(** Histories used as examples for the theorems about every history. *)
From Verif Require Import Base LayoutM WorldM QueryM StepM Spec SpecMore SpecSafety SpecSound Demo.

Definition ub_freeb (s : sstate) (o : op) (out : outcome) : bool :=
  match out with UndefBeh _ => false | _ => true end.
Definition no_groupsb (s : sstate) (o : op) (out : outcome) : bool :=
  match o with OSetLayout l _ => match l with [] => true | _ => false end | _ => true end.

Definition ub_free_run gs ts ops := run_or (exec_built ub_freeb gs ts ops).
Lemma ub_free_run_ok gs ts ops :
  bool_decide (is_Some (exec_built ub_freeb gs ts ops)) = true →
  let x := ub_free_run gs ts ops in ub_free_history (r_evs x) (r_w x) (r_s x).
Proof.
  intros H%run_or_eq. unfold ub_free_run. destruct (run_or _) as [[]]. eapply exec_built_history; [|done].
  intros s' o' out. by destruct out.
Qed.

Definition ungrouped_run ts ops := run_or (exec_built no_groupsb [] ts ops).
Lemma ungrouped_run_ok ts ops :
  bool_decide (is_Some (exec_built no_groupsb [] ts ops)) = true →
  let x := ungrouped_run ts ops in ungrouped_history (r_evs x) (r_w x) (r_s x).
Proof.
  intros H%run_or_eq. unfold ungrouped_run. destruct (run_or _) as [[evs w] s]. simpl.
  unfold exec_built in H. simpl in H. destruct (builder_build [] ts) as [w0|] eqn:Hw; [|done].
  exists ts, w0. split; [done|]. change evs with ([] ++ evs).
  refine (exec_history no_groupsb (λ _ o _, no_groups o) _ _ _ _ _ _ _ _ _ _ (history_nil _ _ _) H).
  intros s' [] out; try done. by destruct l.
Qed.

Definition unbrokenb (s : sstate) (o : op) (out : outcome) : bool :=
  ub_freeb s o out && match o with OSetLayout _ _ => negb (panicked out) | _ => true end.
Definition unbroken_run gs ts ops := run_or (exec_built unbrokenb gs ts ops).
Lemma unbroken_run_ok gs ts ops :
  bool_decide (is_Some (exec_built unbrokenb gs ts ops)) = true →
  let x := unbroken_run gs ts ops in unbroken_history (r_evs x) (r_w x) (r_s x).
Proof.
  intros H%run_or_eq. unfold unbroken_run. destruct (run_or _) as [[]]. eapply exec_built_history; [|done].
  intros s' o' out [H1 H2]%andb_true_iff. split; [by destruct out|]. intros l0 p ->. by destruct (panicked out).
Qed.

(** Two entities with the same index are made, the second while the first is being
    brought back by [maintain]; a panic is caught. *)
Definition rough_ops : list op :=
  [ OCreate [(tA, 10); (tB, 11)]; ODestroy (Ent 0 1); OCreate [(tA, 12); (tB, 13)]; OCreate [(tB, 14)]
  ; OInsert (Ent 1 1) [(tA, 15); (99, 16); (tB, 17)]; ODestroy (Ent 0 2); OMaintain
  ; OInsert (Ent 0 2) [(tB, 18)]; OSet tB (Ent 1 1) 19
  ; OForEach [PMut tA] [] [] (λ _ _, Some 20); ORemove (Ent 1 1) [tA] ]%N.
Definition rough := ub_free_run [[tA; tB]] [] rough_ops.
Definition rough_plain := ungrouped_run [tA; tB] (rough_ops ++ [OSetLayout [] []]).
