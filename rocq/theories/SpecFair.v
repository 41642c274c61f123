(** Which entities grouping exchanges, seen by the client.

    The sparse slots that grouping exchanges carry the versions of the entities
    (DESIGN.md, Findings, 2), so calls should only exchange entities of the same
    version. An entity that joins a group changes places with one that has some
    component of the group but is not in it; an entity that leaves a group changes
    places with one in it. *)
From Verif Require Import Base LayoutM WorldM QueryM StepM Spec SpecMore SpecLayout.

(** [e] has all (some) types of [g]. *)
Definition owns_all (s : sstate) (e : entity) (g : list tid) : Prop := ∀ t, t ∈ g → is_Some (s_row s e !! t).
Definition owns_some (s : sstate) (e : entity) (g : list tid) : Prop := ∃ t, t ∈ g ∧ is_Some (s_row s e !! t).

(** The entities [E] can join [g], once the components are those of [s]: whoever
    has a component of [g] without having been in [g] before has their version. *)
Definition may_join (s : sstate) (E : list entity) (g : list tid) : Prop :=
  ∀ e f, e ∈ E → owns_all s e g → owns_some s f g →
    f ∈ E ∨ ¬ owns_all s f g ∨ f ∈ s_loose s → e_version f = e_version e.

(** [e] can leave [g]: if it is complete, the complete ones have its version. *)
Definition may_leave (s : sstate) (e : entity) (g : list tid) : Prop :=
  ∀ f, owns_all s e g → owns_all s f g → e_version f = e_version e.

(** The call only exchanges entities of the same version; [L] are the groups. *)
Definition fair_call (L : list (list tid)) (s : sstate) (o : op) (out : outcome) : Prop :=
  match o with
  | OCreate cs => all_reg s cs.*1 → ∀ g, g ∈ L → may_join (client_step s o out) (reported out) g
  | OExtend _ _ _ => panicked out = false → ∀ g, g ∈ L → may_join (client_step s o out) (reported out) g
  | OInsert e cs =>
      s_alive s e → all_reg s cs.*1 → ∀ g, g ∈ L → e ∈ s_loose s ∨ ¬ owns_all s e g →
      may_join (client_step s o out) [e] g
  | ORemove e ts | ODelete e ts => ∀ g, g ∈ L → meets g ts → may_leave s e g
  | ODestroy e => ∀ g, g ∈ L → may_leave s e g
  | OSetLayout l _ =>
      ∀ g e f, g ∈ layout_groups l → owns_all s e g → owns_some s f g → e_version f = e_version e
  | _ => True
  end.

(** Histories of such calls from a world built with layout [l]. *)
Inductive fair_run (l : layout) (w : world) (s : sstate) : list event → world → sstate → Prop :=
| fair_run_nil : fair_run l w s [] w s
| fair_run_snoc evs w1 s1 o out ds w2 :
    fair_run l w s evs w1 s1 →
    op_ok o → step w1 o = (out, ds, w2) → good_call s1 o →
    fair_call (layout_groups (layout_after l evs)) s1 o out →
    fair_run l w s (evs ++ [(o, out, ds)]) w2 (client_step s1 o out).

Definition fair_history (l : layout) (evs : list event) (w : world) (s : sstate) : Prop :=
  ∃ gs ts w0, add_groups [] gs = Some l ∧ builder_build l ts = Some w0 ∧ fair_run l w0 (s_init l ts) evs w s.
