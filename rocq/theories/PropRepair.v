(** C38, C60: what a [set_layout] that panics leaves, and how to go on. *)
From Verif Require Import Base EntityM LayoutM WorldM QueryM StepM Spec SpecMore SpecLayout SpecGroups SpecRepair Demo RepairFacts.

(** What is lost, exactly, however many calls of [set_layout] panicked before: the
    types not in [placed] are no longer registered and their components are dropped by
    the call; everything else is as before. *)
Theorem C38_exactly : ∀ w s w1 s1 l perm out ds w2,
  reachable w s → fails w s w1 s1 → op_ok (OSetLayout l perm) → ¬ layout_fits l →
  step w1 (OSetLayout l perm) = (out, ds, w2) →
  out = Panicked [] ∧ ∃ K : gset tid, (∀ t, t ∈ K ↔ placed (layout_groups l) t) ∧ fails w s w2 (only K s1) ∧
    world_entities w2 = world_entities w ∧ (∀ e, world_contains w2 e = world_contains w e) ∧
    (∀ t, world_is_registered w2 t = bool_decide (t ∈ K)) ∧
    (∀ t e, t ∈ K → view_get w2 t e = Ok (s_row s1 e !! t)) ∧ (∀ t e, t ∉ K → view_get w2 t e = Panic) ∧
    ds ++ contents (only K s1) ≡ₚ contents s1 ∧
    ∃ vs, world_drop w2 = Ok vs ∧ vs ≡ₚ contents (only K s1).
Proof. exact failed_exactly. Qed.
Print Assumptions C38_exactly.

(** A layout of (A, C) and sixteen types: the first family is placed, the components of
    type B are lost. *)
Definition C38_layout : layout := layout_of [[tA; tC]; types 11 16].
Definition C38_kept : gset tid := {[tA; tC]}.
Definition C38_broken : world := (step (r_w demo) (OSetLayout C38_layout [])).2.

Example C38_exactly_nonvacuous :
  fails (r_w demo) (r_s demo) C38_broken (only C38_kept (r_s demo)) ∧
  (∀ t, t ∈ C38_kept ↔ placed (layout_groups C38_layout) t) ∧
  (step (r_w demo) (OSetLayout C38_layout [])).1 = (Panicked [], [23; 21; 22])%N ∧
  view_get (r_w demo) tA (Ent 0 1) = Ok (Some 10%N) ∧ view_get C38_broken tA (Ent 0 1) = Ok (Some 10%N) ∧
  view_get (r_w demo) tB (Ent 2 1) = Ok (Some 23%N) ∧ view_get C38_broken tB (Ent 2 1) = Panic.
Proof.
  assert (∀ P `{Decision P}, bool_decide P = true → P) as dec by (by intros P ? ?%bool_decide_eq_true).
  assert (¬ layout_fits C38_layout) as Hn by (apply (dec _ _); by vm_compute).
  assert (op_ok (OSetLayout C38_layout [])) as Hok by (apply op_okb_ok; by vm_compute).
  assert (layout_groups C38_layout = [[tA; tC]; types 11 16]) as Hg by (by vm_compute).
  assert (¬ length (types 11 16) ≤ 15) as H16 by (apply (dec _ _); by vm_compute).
  assert (∀ t, t ∈ C38_kept ↔ placed (layout_groups C38_layout) t) as HK.
  { intros t. rewrite Hg. unfold C38_kept. rewrite elem_of_union, !elem_of_singleton. split.
    - intros Ht. exists 0, [tA; tC]. split; [done|]. split; [rewrite !elem_of_cons; tauto|]. split.
      + intros [|j] h Hj Hh; cbn [lookup list_lookup] in Hh; [|lia]; injection Hh as <-; simpl; lia.
      + intros [|[|j]] h Hh _; cbn [lookup list_lookup] in Hh; [lia..|done].
    - intros (k & g & Hk & Ht & H1 & _). destruct k as [|[|k]]; cbn [lookup list_lookup] in Hk; [| |done]; injection Hk as <-.
      + rewrite !elem_of_cons, elem_of_nil in Ht. tauto.
      + exfalso. by apply H16, (H1 1). }
  split; [|split; [done|]; split_and!; by vm_compute].
  unfold C38_broken. assert ((step (r_w demo) (OSetLayout C38_layout [])).1.1 = Panicked []) as Ho by (by vm_compute).
  revert Hn Hok Ho HK. clear Hg. generalize C38_layout (r_w demo) (r_s demo) C38_kept. intros l w s K Hn Hok Ho HK.
  destruct (step w (OSetLayout l [])) as [[out ds] w'] eqn:Hs. simpl in Ho. subst out.
  eapply fails_once; [apply fails_none|done|done|exact Hs|done].
Qed.

(** It is then in a bad state: in the next [create] the code performs an invalid
    access; and calling [reset] first does not help. *)
Theorem C38_reset_refuted : ∃ w s l cs,
  reachable w s ∧ op_ok (OSetLayout l []) ∧
  let w1 := (step w (OSetLayout l [])).2 in let w2 := (step w1 OReset).2 in
  (step w (OSetLayout l [])).1.1 = Panicked [] ∧ (step w1 OReset).1.1 = Ret RUnit ∧
  (∃ es, (step w1 (OCreate cs)).1.1 = UndefBeh es) ∧ ∃ es, (step w2 (OCreate cs)).1.1 = UndefBeh es.
Proof.
  pose (x := good_run [[tA; tB]] [tC] [OCreate [(tA, 10); (tB, 12); (tC, 13)]]%N).
  exists (r_w x), (r_s x), (layout_of [[tA; tB]; types 1 16]), [(tA, 1); (tB, 2)]%N.
  split; [apply good_run_reachable; by vm_compute|]. split; [apply op_okb_ok; by vm_compute|].
  cbv zeta. split; [by vm_compute|]. split; [by vm_compute|]. split; eexists; by vm_compute.
Qed.
Print Assumptions C38_reset_refuted.

(** ** C60 *)

(** A [set_layout] that succeeds repairs the world: it drops nothing, and from then on
    the world is in step with what was left of the client's view. *)
Theorem C60_repair : ∀ w s w1 s1 l perm out ds w2,
  reachable w s → fails w s w1 s1 → op_ok (OSetLayout l perm) → layout_fits l →
  step w1 (OSetLayout l perm) = (out, ds, w2) →
  same_versions (client_step s1 (OSetLayout l perm) (Ret RUnit)) →
  out = Ret RUnit ∧ ds = [] ∧ lives_on w2 (client_step s1 (OSetLayout l perm) (Ret RUnit)).
Proof. exact failed_repair. Qed.
Print Assumptions C60_repair.

(** The empty layout always does. *)
Theorem C60_repair_empty : ∀ w s w1 s1 out ds w2,
  reachable w s → fails w s w1 s1 → step w1 (OSetLayout [] []) = (out, ds, w2) →
  out = Ret RUnit ∧ ds = [] ∧ lives_on w2 (client_step s1 (OSetLayout [] []) (Ret RUnit)).
Proof. exact failed_repair_empty. Qed.
Print Assumptions C60_repair_empty.

Example C60_nonvacuous :
  let o := OSetLayout (layout_of [[tB; tC]]) [] in let r := step C38_broken o in
  let s2 := client_step (only C38_kept (r_s demo)) o (Ret RUnit) in
  fails (r_w demo) (r_s demo) C38_broken (only C38_kept (r_s demo)) ∧ op_ok o ∧
  layout_fits (layout_of [[tB; tC]]) ∧ same_versions s2 ∧ r.1 = (Ret RUnit, []) ∧ lives_on r.2 s2 ∧
  view_get r.2 tA (Ent 0 1) = Ok (Some 10%N) ∧ view_get r.2 tB (Ent 2 1) = Ok None ∧
  (step r.2 (OCreate [(tB, 2); (tC, 3)]%N)).1 = (Ret (REnt (Ent 6 1)), []).
Proof.
  assert (∀ P `{Decision P}, bool_decide P = true → P) as dec by (by intros P ? ?%bool_decide_eq_true).
  cbv zeta. pose proof (proj1 C38_exactly_nonvacuous) as Hf. split; [done|].
  assert (op_ok (OSetLayout (layout_of [[tB; tC]]) [])) as Hok by (apply op_okb_ok; by vm_compute).
  assert (layout_fits (layout_of [[tB; tC]])) as Hfit by (apply (dec _ _); by vm_compute).
  assert (same_versions (client_step (only C38_kept (r_s demo)) (OSetLayout (layout_of [[tB; tC]]) []) (Ret RUnit))) as Hsv
    by (apply same_versionsb_ok; by vm_compute).
  split; [done|]. split; [done|]. split; [done|]. split; [by vm_compute|]. split; [|split_and!; by vm_compute].
  revert Hf Hok Hfit Hsv. generalize C38_broken (only C38_kept (r_s demo)) (layout_of [[tB; tC]]). intros w1 s1 l Hf Hok Hfit Hsv.
  destruct (step w1 (OSetLayout l [])) as [[out ds] w2] eqn:Hs.
  apply (C60_repair _ _ _ _ _ _ _ _ _ demo_reachable Hf Hok Hfit Hs Hsv).
Qed.
