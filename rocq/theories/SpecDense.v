(** When a query is answered from a group. *)
From Verif Require Import Base LayoutM WorldM QueryM StepM Spec SpecMore SpecLayout.

(** [h] is the next larger group around [g]. *)
Definition next_group (gs : list (list tid)) (g h : list tid) : Prop :=
  g ∈ gs ∧ h ∈ gs ∧ inside g h ∧ ¬ inside h g ∧
  ∀ k, k ∈ gs → inside g k → inside k h → inside k g ∨ inside h k.

(** With the groups [gs], a query that requires the types [T] and excludes the
    types [U] can be answered from contiguous arrays: a single component; the types
    of a group; or the types of a group without those that the next larger group
    adds. *)
Definition dense_by (gs : list (list tid)) (T U : list tid) : Prop :=
  (U = [] ∧ length T = 1) ∨
  (U = [] ∧ ∃ g, g ∈ gs ∧ same_types T g) ∨
  (∃ g h, next_group gs g h ∧ same_types T g ∧ ∀ t, t ∈ U ↔ t ∈ h ∧ t ∉ g).
