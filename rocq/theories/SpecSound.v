(** Simple conditions under which every history is sound. *)
From Verif Require Import Base LayoutM WorldM QueryM StepM Spec SpecMore SpecSafety.

(** No entity is destroyed and the layouts have at most 63 groups and 15 types per
    family. ([clear] and [reset] are allowed, so is [maintain] at any time.) *)
Definition never_destroys (s : sstate) (o : op) (out : outcome) : Prop :=
  (∀ e, o ≠ ODestroy e) ∧ match o with OSetLayout l _ => layout_fits l | _ => True end.

(** There are no groups, and [maintain] is called only while no entity created since
    the last [maintain] has been destroyed. *)
Definition tidy_no_groups (s : sstate) (o : op) (out : outcome) : Prop :=
  no_groups o ∧ (o = OMaintain → tidy s).

(** No call performed an invalid access and no call of [set_layout] panicked. Nothing
    is asked of [maintain], of the versions or of other panics. *)
Definition unbroken (o : op) (out : outcome) : Prop :=
  ub_free out ∧ ∀ l p, o = OSetLayout l p → panicked out = false.
Definition unbroken_history (evs : list event) (w : world) (s : sstate) : Prop :=
  ∃ w0 s0, built w0 s0 ∧ history (λ _, unbroken) w0 s0 evs w s.
