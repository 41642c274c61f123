(** Worlds that went through anything but invalid accesses and panics of [set_layout]. *)
From Verif Require Import Base LayoutM WorldM QueryM StepM Spec SpecMore SpecLayout SpecQuery SpecSound SpecSafety SpecRepair SpecFair.

(** Histories from a world built with layout [l]: tidy, without invalid accesses and
    panics of [set_layout]. Owners of grouped types may have any versions, and other
    panics may have been caught. *)
Definition worn_history (l : layout) (evs : list event) (w : world) (s : sstate) : Prop :=
  ∃ gs ts w0, add_groups [] gs = Some l ∧ builder_build l ts = Some w0 ∧
    history (λ s o out, tidy_side s o out ∧ unbroken o out) w0 (s_init l ts) evs w s.

(** From [w], seen as [s] and with layout [l], everything goes as specified as long as
    the calls only exchange entities of the same version. *)
Definition works_from (l : layout) (w : world) (s : sstate) : Prop :=
  ∀ evs w' s', fair_run l w s evs w' s' →
    in_step w' s' ∧ safe_reads w' ∧
    hist_in evs ++ contents s ≡ₚ hist_dropped evs ++ hist_out evs ++ contents s' ∧
    ∀ o out ds w'', op_ok o → step w' o = (out, ds, w'') → good_call s' o →
      fair_call (layout_groups (layout_after l evs)) s' o out → allowed s' o out ∧ ub_free out.
