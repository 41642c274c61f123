(** What one call of [add_group] does to a layout. *)
From Verif Require Import Base LayoutM StorageM WorldM StepM Spec SpecMore SpecLayout.

(** The types of a group, counted once. *)
Definition types_of (g : list tid) : nat := length (remove_dups g).

(** [h] is one of the groups [gs], and [g] shares a type with it or with a larger
    one of them. *)
Definition touched (gs : list (list tid)) (g h : list tid) : Prop :=
  h ∈ gs ∧ ∃ k, k ∈ gs ∧ inside h k ∧ meets k g.

(** [h] is the smallest of the touched groups with more types than [g], and none has
    as many. *)
Definition next_larger (gs : list (list tid)) (g h : list tid) : Prop :=
  touched gs g h ∧ types_of g < types_of h ∧
  ∀ k, touched gs g k → types_of k < types_of h → types_of k < types_of g.

(** The groups that [add_group] takes: the touched groups are nested; those with at
    most as many types are inside; and what the next larger one shares with the new
    group belongs to a smaller one already. *)
Record taken (gs : list (list tid)) (g : list tid) : Prop := {
  tk_nested : ∀ h k, touched gs g h → touched gs g k → meets h k;
  tk_smaller : ∀ h, touched gs g h → types_of h ≤ types_of g → inside h g;
  tk_larger : ∀ h, next_larger gs g h →
    ∀ t, t ∈ h → t ∈ g → ∃ k, touched gs g k ∧ types_of k < types_of g ∧ t ∈ k
}.

(** The group is not one of [gs]. *)
Definition no_such (gs : list (list tid)) (g : list tid) : Prop := ∀ h, h ∈ gs → ¬ same_types h g.

(** The first of the groups [gs] that [g] touches would take [g], together with the
    groups that share a type with it. *)
Definition first_takes (gs : list (list tid)) (g : list tid) : Prop :=
  ∃ gs1 k gs2 fs, gs = gs1 ++ k :: gs2 ∧ (∀ h, h ∈ gs1 → ¬ touched gs g h) ∧ touched gs g k ∧
    (∀ h, h ∈ fs ↔ h ∈ gs ∧ meets h k) ∧ taken fs g.
