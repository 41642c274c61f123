(** Running histories that wear the components out. *)
From Verif Require Import Base LayoutM WorldM QueryM StepM Spec SpecMore SpecLayout SpecSound SpecLocal SpecFair SpecMend
  Demo BlindDemo FairDemo.

Definition wornb (s : sstate) (o : op) (out : outcome) : bool := tidy_sideb s o out && unbrokenb s o out.
Definition worn_run gs ts ops := run_or (exec_built wornb gs ts ops).

Lemma unbrokenb_ok s o out : unbrokenb s o out = true → unbroken o out.
Proof. intros [H1 H2]%andb_true_iff. split; [by destruct out|]. intros l0 p ->. by destruct (panicked out). Qed.

Lemma worn_run_ok gs ts ops l :
  add_groups [] gs = Some l → bool_decide (is_Some (exec_built wornb gs ts ops)) = true →
  let x := worn_run gs ts ops in worn_history l (r_evs x) (r_w x) (r_s x).
Proof.
  intros Hl H%run_or_eq. unfold worn_run. destruct (run_or _) as [[evs w] s]. simpl.
  unfold exec_built in H. rewrite Hl in H. destruct (builder_build l ts) as [w0|] eqn:Hw; [|done].
  exists gs, ts, w0. split_and!; try done.
  change evs with ([] ++ evs). eapply exec_history; [|constructor|done].
  intros s' o' out [H1%tidy_sideb_ok H2%unbrokenb_ok]%andb_true_iff. done.
Qed.

Lemma unbroken_run_from gs ts ops l :
  add_groups [] gs = Some l → bool_decide (is_Some (exec_built unbrokenb gs ts ops)) = true →
  let x := unbroken_run gs ts ops in unbroken_history_from l (r_evs x) (r_w x) (r_s x).
Proof.
  intros Hl H%run_or_eq. unfold unbroken_run. destruct (run_or _) as [[evs w] s]. simpl.
  unfold exec_built in H. rewrite Hl in H. destruct (builder_build l ts) as [w0|] eqn:Hw; [|done].
  exists gs, ts, w0. split_and!; try done.
  change evs with ([] ++ evs). eapply exec_history; [|constructor|done]. intros s' o' out. apply unbrokenb_ok.
Qed.

(** [reuse], then an insertion that loses the B of [Ent 1 1], and a panic. *)
Definition worn := worn_run [[tA; tB]] [tC]
  (map (λ ev : event, ev.1.1) (r_evs reuse) ++
   [OInsert (Ent 1 1) [(tA, 13)]; OCreate [(tA, 14); (99, 15); (tB, 16)]; OCreateAtomic])%N.
Lemma worn_ok : worn_history (layout_of [[tA; tB]]) (r_evs worn) (r_w worn) (r_s worn).
Proof. apply worn_run_ok; by vm_compute. Qed.

(** Calls after [clear]. *)
Definition mended := fair_exec (layout_of [[tA; tB]]) (step (r_w worn) OClear).2 (client_step (r_s worn) OClear (Ret RUnit))
  [OCreate [(tA, 1); (tB, 2)]; OMaintain; OCreate [(tB, 3)]; OCreate []; OInsert (Ent 4 1) [(tA, 5)]]%N.
