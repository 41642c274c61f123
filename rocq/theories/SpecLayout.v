(** What group layouts should do. *)
From Verif Require Import Base LayoutM StorageM WorldM StepM BuilderM Spec SpecMore.

Definition inside (g h : list tid) : Prop := ∀ t, t ∈ g → t ∈ h.
Definition same_types (g h : list tid) : Prop := ∀ t, t ∈ g ↔ t ∈ h.
(** The groups have a type in common. *)
Definition meets (g h : list tid) : Prop := ∃ t, t ∈ g ∧ t ∈ h.
Definition no_common (g h : list tid) : Prop := ∀ t, t ∈ g → t ∉ h.

(** A group has at least two types; the others are ignored. *)
Definition is_group (g : list tid) : Prop := ∃ t t', t ∈ g ∧ t' ∈ g ∧ t ≠ t'.

(** At most 16 types. *)
Definition small (g : list tid) : Prop := length (remove_dups g) ≤ 16.

(** Groups that may be used together: any two are nested or have no type in
    common, and the groups inside a group are nested. *)
Definition coherent (gs : list (list tid)) : Prop :=
  ∀ g h, g ∈ gs → h ∈ gs → is_group g → is_group h →
    (inside g h ∨ inside h g ∨ no_common g h) ∧
    ∀ k, k ∈ gs → inside g k → inside h k → inside g h ∨ inside h g.

(** Every group comes after the groups inside it, or is repeated. *)
Definition smaller_first (gs : list (list tid)) : Prop :=
  ∀ j g, gs !! j = Some g → is_group g →
    (∃ i h, i < j ∧ gs !! i = Some h ∧ same_types h g) ∨
    ∀ i h, i < j → gs !! i = Some h → is_group h → inside h g ∨ no_common h g.

(** The groups of [l] are those of [gs]. *)
Definition has_groups (l : layout) (gs : list (list tid)) : Prop :=
  (∀ g, g ∈ layout_groups l → ∃ h, h ∈ gs ∧ is_group h ∧ same_types g h) ∧
  (∀ h, h ∈ gs → is_group h → ∃ g, g ∈ layout_groups l ∧ same_types g h) ∧
  NoDup (map (λ g, list_to_set g : gset tid) (layout_groups l)).

(** The storages a world holds, and its registered types. *)
Definition storages (w : world) : nat := length (cs_comps (w_comps w)).
Definition registered_types (w : world) : nat := size (cs_meta (w_comps w)).

(** The groups and types a builder was told, the groups since the last
    [set_layout]. *)
Fixpoint told_groups (gs : list (list tid)) (cs : list bcall) : list (list tid) :=
  match cs with
  | [] => gs
  | BSetLayout gs' :: cs => told_groups gs' cs
  | BAddGroup g :: cs => told_groups (gs ++ [g]) cs
  | BRegister _ :: cs => told_groups gs cs
  end.
Definition told_types (cs : list bcall) : list tid :=
  omap (λ c, match c with BRegister t => Some t | _ => None end) cs.
