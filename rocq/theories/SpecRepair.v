(** What a failed [set_layout] leaves behind. *)
From Verif Require Import Base EntityM LayoutM WorldM QueryM StepM Spec SpecMore SpecLayout SpecGroups SpecQuery.

(** The types that [set_layout] reaches before it panics: those of the groups of the
    new layout (in its order) before the first with more than 15 types, as far as the
    last group of the family is among the first 63. *)
Definition placed (gs : list (list tid)) (t : tid) : Prop :=
  ∃ k g, gs !! k = Some g ∧ t ∈ g ∧
    (∀ j h, j ≤ k → gs !! j = Some h → length h ≤ 15) ∧
    (∀ j h, gs !! j = Some h → meets g h → j < 63).

(** The client's view [s], with the types [K] and no groups. *)
Definition only (K : gset tid) (s : sstate) : sstate :=
  SState ((λ r : row, filter (λ p, p.1 ∈ K) r) <$> s_map s) (s_created s) (s_queued s) (s_issued s) (s_free s) K ∅ ∅.

(** From world [w], seen as [s], some calls of [set_layout] that panic. *)
Inductive fails : world → sstate → world → sstate → Prop :=
  | fails_none w s : fails w s w s
  | fails_once w s w1 s1 l perm ds w2 K :
      fails w s w1 s1 → op_ok (OSetLayout l perm) → ¬ layout_fits l →
      step w1 (OSetLayout l perm) = (Panicked [], ds, w2) →
      (∀ t, t ∈ K ↔ placed (layout_groups l) t) → fails w s w2 (only K s1).

(** What the client sees of [w] is [s]. *)
Record in_step (w : world) (s : sstate) : Prop := {
  is_entities : NoDup (world_entities w) ∧ ∀ e, e ∈ world_entities w ↔ s_alive s e;
  is_contains : ∀ e, world_contains w e = bool_decide (s_alive s e);
  is_types : ∀ t, world_is_registered w t = bool_decide (t ∈ s_reg s);
  is_view : ∀ t e, view_get w t e = if decide (t ∈ s_reg s) then Ok (s_row s e !! t) else Panic;
  is_query : ∀ G J X, query_ok s G J X →
    ∃ es its, query_all w G J X = Ok its ∧ NoDup es ∧ answers s G es its ∧
      (plain G J X → simple_exclude s X → ∀ e, e ∉ s_loose s → e ∈ es ↔ s_alive s e ∧ matches (s_row s e) G J X);
  is_query_panics : ∀ G J X, ¬ query_ok s G J X → query_all w G J X = Panic;
  is_drop : ∃ vs, world_drop w = Ok vs ∧ vs ≡ₚ contents s
}.

(** From [w], seen as [s], everything goes as specified. *)
Definition lives_on (w : world) (s : sstate) : Prop :=
  ∀ evs w' s', history good_side w s evs w' s' →
    in_step w' s' ∧
    ∀ o out ds w'', op_ok o → step w' o = (out, ds, w'') → good_side s' o out → allowed s' o out.
