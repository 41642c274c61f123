(** The order in which queries visit entities. *)
From Verif Require Import Base EntityM WorldM QueryM StepM Spec SpecMore.

(** Among the component types [T], [t] is the first with the fewest components; [l]
    lists the entities of these, in the order of the storage. *)
Definition first_shortest (w : world) (T : list tid) (t : tid) (l : list entity) : Prop :=
  ∃ i, T !! i = Some t ∧ view_entities w t = Ok l ∧
    ∀ j t' l', T !! j = Some t' → view_entities w t' = Ok l' →
      length l ≤ length l' ∧ (j < i → length l < length l').

(** A query that requires the types [T] and that is not dense visits [es]. *)
Definition sparse_order (w : world) (T : list tid) (es : list entity) : Prop :=
  (T = [] ∧ es = []) ∨ ∃ t l, first_shortest w T t l ∧ es `sublist_of` l.

(** A dense one visits a contiguous part of each of the storages, and the front of
    them if it excludes nothing. *)
Definition dense_order (w : world) (T U : list tid) (es : list entity) : Prop :=
  T ≠ [] ∧
  ∀ t, t ∈ T → ∃ p q, view_entities w t = Ok (p ++ es ++ q) ∧ (U = [] → p = []).
