(** [clear] and [reset] put a world right whose components are worn out. *)
From Verif Require Import Base EntityM LayoutM WorldM QueryM StepM Spec SpecMore SpecLayout SpecSound SpecSafety SpecLocal SpecRepair SpecFair SpecMend
  Demo BlindDemo FairDemo MendFacts MendDemo.

(** Owners of grouped types had different versions, components were lost, panics were
    caught: [clear] drops what is left, and from then on everything goes as specified. *)
Theorem C66_clear : ∀ l evs w s out ds w',
  worn_history l evs w s → step w OClear = (out, ds, w') →
  out = Ret RUnit ∧ world_drop w = Ok ds ∧
  works_from (layout_after l evs) w' (client_step s OClear out) ∧ lives_on w' (client_step s OClear out).
Proof. exact worn_clear. Qed.
Print Assumptions C66_clear.

(** [reset] does so even if [maintain] made destroyed entities live again. *)
Theorem C66_reset : ∀ l evs w s out ds w',
  unbroken_history_from l evs w s → step w OReset = (out, ds, w') →
  out = Ret RUnit ∧ world_drop w = Ok ds ∧
  works_from (layout_after l evs) w' (client_step s OReset out) ∧ lives_on w' (client_step s OReset out).
Proof. exact worn_reset. Qed.
Print Assumptions C66_reset.

(** The world before [clear] has lost a component; the one after it is used further. *)
Example C66_nonvacuous :
  worn_history (layout_of [[tA; tB]]) (r_evs worn) (r_w worn) (r_s worn) ∧ length (r_evs worn) = 13 ∧
  s_row (r_s worn) (Ent 1 1) !! tB = Some 5%N ∧ view_get (r_w worn) tB (Ent 1 1) = Ok None ∧
  layout_after (layout_of [[tA; tB]]) (r_evs worn) = layout_of [[tA; tB]] ∧
  (step (r_w worn) OClear).1 = (Ret RUnit, [13; 14; 5; 9; 4]%N) ∧
  match mended with
  | Some (evs, w, s) =>
      length evs = 5 ∧ view_entities w tA = Ok [Ent 4 1] ∧ view_entities w tB = Ok [Ent 4 1; Ent 5 1] ∧
      world_entities w = [Ent 4 1; Ent 5 1; Ent 6 1]
  | None => False
  end.
Proof. split; [apply worn_ok|]. split_and!; by vm_compute. Qed.
Example C66_mended_run : ∃ evs w s,
  mended = Some (evs, w, s) ∧
  fair_run (layout_of [[tA; tB]]) (step (r_w worn) OClear).2 (client_step (r_s worn) OClear (Ret RUnit)) evs w s.
Proof.
  destruct mended as [[[evs w] s]|] eqn:E; [|exfalso; assert (match mended with Some _ => True | None => False end) as H by (by vm_compute); by rewrite E in H].
  exists evs, w, s. split; [done|]. change evs with ([] ++ evs). eapply fair_exec_ok; [constructor|exact E].
Qed.
Example C66_reset_nonvacuous : let x := unbroken_run [[tA; tB]] [] rough_ops in
  unbroken_history_from (layout_of [[tA; tB]]) (r_evs x) (r_w x) (r_s x) ∧ length (r_evs x) = 11 ∧
  (step (r_w x) OReset).1.1 = Ret RUnit ∧ world_contains (r_w x) (Ent 0 2) = true ∧
  r_evs x !! 5 = Some (ODestroy (Ent 0 2), Ret (RBool true), [12; 13]%N).
Proof. split; [apply unbroken_run_from; by vm_compute|]. split_and!; by vm_compute. Qed.

(** [clear] does not repair what an untidy [maintain] did: handles are issued twice. *)
Theorem C66_untidy_refuted : ∃ l evs w s ds w1 w2 w3 e,
  unbroken_history_from l evs w s ∧ step w OClear = (Ret RUnit, ds, w1) ∧
  step w1 (OCreate []) = (Ret (REnt e), [], w2) ∧ step w2 (OCreate []) = (Ret (REnt e), [], w3).
Proof.
  pose (x := unbroken_run [] [] [OCreate []; ODestroy (Ent 0 1); OMaintain; ODestroy (Ent 0 1)]).
  pose (w1 := (step (r_w x) OClear).2). pose (w2 := (step w1 (OCreate [])).2).
  exists [], (r_evs x), (r_w x), (r_s x), [], w1, w2, (step w2 (OCreate [])).2, (Ent 0 2).
  split; [apply unbroken_run_from; by vm_compute|]. split_and!; by vm_compute.
Qed.
Print Assumptions C66_untidy_refuted.

(** [set_layout] does not bring lost components back. *)
Theorem C66_set_layout_refuted : ∃ l evs w s w' e t,
  worn_history l evs w s ∧ step w (OSetLayout [] []) = (Ret RUnit, [], w') ∧
  is_Some (s_row (client_step s (OSetLayout [] []) (Ret RUnit)) e !! t) ∧ view_get w' t e = Ok None.
Proof.
  exists (layout_of [[tA; tB]]), (r_evs worn), (r_w worn), (r_s worn), (step (r_w worn) (OSetLayout [] [])).2, (Ent 1 1), tB.
  split; [apply worn_ok|]. split; [by vm_compute|]. split; [apply (bool_decide_unpack _); by vm_compute|by vm_compute].
Qed.
Print Assumptions C66_set_layout_refuted.
