(** Grouping is only an optimisation, also when indices are reused. *)
From Verif Require Import Base EntityM LayoutM WorldM QueryM StepM Spec SpecMore SpecLayout SpecFair SpecFairPair Demo FairDemo FairPair.

(** Two worlds with different layouts that make the same calls have the same outcomes
    and answer every call alike. *)
Theorem C67_layouts_agree : ∀ gs1 l1 ts1 w1 gs2 l2 ts2 w2 evs1 evs2 v1 t1 v2 t2,
  add_groups [] gs1 = Some l1 → builder_build l1 ts1 = Some w1 →
  add_groups [] gs2 = Some l2 → builder_build l2 ts2 = Some w2 →
  (∀ t, world_is_registered w1 t = world_is_registered w2 t) →
  fair_paired l1 w1 (s_init l1 ts1) l2 w2 (s_init l2 ts2) evs1 evs2 v1 t1 v2 t2 →
  Forall2 (λ ev1 ev2, same_outcome ev1.1.2 ev2.1.2) evs1 evs2 ∧ same_answers v1 v2 ∧
  (s_loose t1 = ∅ → same_queries v1 v2).
Proof. exact fair_layouts_agree. Qed.
Print Assumptions C67_layouts_agree.

(** The world without groups needs no condition: it has the outcomes and answers of any
    world with groups in which the calls only exchange entities of the same version. *)
Theorem C67_no_groups : ∀ l evs w s gs ts w0,
  add_groups [] gs = Some l → builder_build l ts = Some w0 →
  fair_run l w0 (s_init l ts) evs w s → plain_calls (s_init l ts) evs →
  ∃ w1 evs1 v1 t1, builder_build [] (layout_tids l ++ ts) = Some w1 ∧
    history (λ _ _ _, True) w1 (s_init [] (layout_tids l ++ ts)) evs1 v1 t1 ∧
    evs1.*1.*1 = evs.*1.*1 ∧ Forall2 (λ ev ev1, same_outcome ev.1.2 ev1.1.2) evs evs1 ∧
    same_answers w v1 ∧ (s_loose s = ∅ → same_queries w v1).
Proof. exact fair_no_groups. Qed.
Print Assumptions C67_no_groups.

(** [reuse] has groups, and owners with different versions; the views of the world
    without groups are in another order. *)
Example C67_no_groups_nonvacuous :
  fair_history (layout_of [[tA; tB]]) (r_evs reuse) (r_w reuse) (r_s reuse) ∧
  plain_calls (s_init (layout_of [[tA; tB]]) [tC]) (r_evs reuse) ∧ s_loose (r_s reuse) = ∅ ∧
  layout_groups (layout_of [[tA; tB]]) = [[tA; tB]] ∧ length (r_evs reuse) = 10.
Proof.
  split; [apply reuse_fair|]. split; [apply simple_plain; by vm_compute|].
  split; [apply (bool_decide_unpack _); by vm_compute|]. split; by vm_compute.
Qed.
Definition reuse_plain := fair_demo [] [tA; tB; tC] (map (λ ev : event, ev.1.1) (r_evs reuse)).
Example C67_outcomes : map (λ ev : event, ev.1.2) (r_evs reuse_plain) = map (λ ev : event, ev.1.2) (r_evs reuse) ∧
  length (r_evs reuse_plain) = 10 ∧ query_all (r_w reuse_plain) [PRef tB] [] [] ≠ query_all (r_w reuse) [PRef tB] [] [].
Proof. split_and!; [by vm_compute..|]. by vm_compute. Qed.

(** A pair of histories. *)
Example C67_layouts_agree_nonvacuous : ∃ w0 w1 evs1 v1 t1,
  builder_build (layout_of [[tA; tB]]) [tC] = Some w0 ∧ builder_build [] [tA; tB; tC] = Some w1 ∧
  fair_paired (layout_of [[tA; tB]]) w0 (s_init (layout_of [[tA; tB]]) [tC]) [] w1 (s_init [] [tA; tB; tC])
    (r_evs reuse) evs1 (r_w reuse) (r_s reuse) v1 t1.
Proof.
  destruct reuse_from as (w0 & Hb & Hr). destruct (fair_follow_built [[tA; tB]] (layout_of [[tA; tB]]) [tC] w0 (r_evs reuse) (r_w reuse) (r_s reuse))
    as (w1 & evs1 & v1 & t1 & Hb1 & Hp & _); [by vm_compute|done|done|apply simple_plain; by vm_compute|].
  by exists w0, w1, evs1, v1, t1.
Qed.
