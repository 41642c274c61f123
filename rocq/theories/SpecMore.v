(** More of the specification: histories without conditions, and what their
    events tell. *)
From Verif Require Import Base LayoutM WorldM QueryM StepM Spec.

(** Every history of calls, without any condition. *)
Definition any_history (evs : list event) (w : world) (s : sstate) : Prop :=
  ∃ w0 s0, built w0 s0 ∧ history (λ _ _ _, True) w0 s0 evs w s.

(** No [reset] among the calls. *)
Definition no_reset (evs : list event) : Prop := ∀ o out ds, (o, out, ds) ∈ evs → o ≠ OReset.

(** The handles given out since the last reset. *)
Definition issued (evs : list event) : list entity :=
  foldl (λ acc ev, match ev.1.1 with OReset => [] | _ => acc ++ reported ev.1.2 end) [] evs.

(** The handles given out by [create_atomic] since the last [maintain], [clear] or
    [reset]. *)
Definition queued (evs : list event) : list entity :=
  foldl (λ acc ev, match ev.1.1 with
                   | OCreateAtomic => acc ++ reported ev.1.2
                   | OMaintain | OClear | OReset => []
                   | _ => acc
                   end) [] evs.

(** No handle is given out twice, unless there is a [reset] in between. *)
Definition never_twice (evs : list event) : Prop :=
  (∀ evs1 o out ds evs2, evs = evs1 ++ (o, out, ds) :: evs2 → NoDup (reported out)) ∧
  ∀ evs1 o1 out1 ds1 evs2 o2 out2 ds2 evs3,
    evs = evs1 ++ (o1, out1, ds1) :: evs2 ++ (o2, out2, ds2) :: evs3 →
    no_reset (evs2 ++ [(o2, out2, ds2)]) →
    ∀ e, e ∈ reported out1 → e ∉ reported out2.

(** A handle that [destroy] returned true for is dead from then on, until a
    [reset]. *)
Definition stays_dead (evs : list event) (w : world) : Prop :=
  ∀ evs1 e ds evs2, evs = evs1 ++ (ODestroy e, Ret (RBool true), ds) :: evs2 → no_reset evs2 →
    world_contains w e = false ∧ e ∉ world_entities w.

(** [entities] lists the live entities, each once, and no two share an index. *)
Definition lists_entities (w : world) : Prop :=
  NoDup (world_entities w) ∧ (∀ e, e ∈ world_entities w ↔ world_contains w e = true) ∧
  (∀ e e', e ∈ world_entities w → e' ∈ world_entities w → e_index e = e_index e' → e = e') ∧
  (world_is_empty w = true ↔ world_entities w = []) ∧
  (world_is_empty w = true ↔ ∀ e, world_contains w e = false).

(** The groups of a layout: the prefixes of each family given by its arities. *)
Definition layout_groups (l : layout) : list (list tid) :=
  concat (map (λ fam, map (λ a, take a (f_comps fam)) (f_arities fam)) l).

(** The layout in force after the calls [evs] on a world built with [l]. *)
Definition layout_after (l : layout) (evs : list event) : layout :=
  foldl (λ l ev, match ev.1.1 with OSetLayout l' _ => l' | _ => l end) l evs.

(** The views of the types [g] start with the same list [P] of entities. *)
Definition common_prefix (w : world) (g : list tid) (P : list entity) : Prop :=
  ∀ t, t ∈ g → ∃ es, view_entities w t = Ok es ∧ take (length P) es = P.

(** A sound history of a world built with layout [l]. *)
Definition good_history_from (l : layout) (evs : list event) (w : world) (s : sstate) : Prop :=
  ∃ gs ts w0, add_groups [] gs = Some l ∧ builder_build l ts = Some w0 ∧
    history good_side w0 (s_init l ts) evs w s.
