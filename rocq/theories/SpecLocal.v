(** How far the effect of a call on one entity reaches into the storages. *)
From Verif Require Import Base LayoutM WorldM StepM Spec SpecMore SpecSound.

(** From the list [es] to the list [es'], all entities stay at their position except
    at most [n], apart from those with the index of [e]. *)
Definition disturbed (e : entity) (n : nat) (es es' : list entity) : Prop :=
  ∃ M, length M ≤ n ∧
    ∀ i x, es !! i = Some x → e_index x ≠ e_index e → x ∉ M → es' !! i = Some x.

(** The number of groups with the type [t]. *)
Definition groups_with (t : tid) (gs : list (list tid)) : nat := length (filter (λ g, t ∈ g) gs).

(** The entity that a call is about, and how many entities it moves even without
    groups. *)
Definition about (o : op) (out : outcome) : option (entity * nat) :=
  match o, out with
  | OCreate _, Ret (REnt e) | OCreate _, Panicked [e] => Some (e, 0)
  | OInsert e _, _ => Some (e, 0)
  | ORemove e _, _ | ODelete e _, _ | ODestroy e, _ => Some (e, 1)
  | _, _ => None
  end.

(** An unbroken history of a world built with the layout [l]. *)
Definition unbroken_history_from (l : layout) (evs : list event) (w : world) (s : sstate) : Prop :=
  ∃ gs ts w0, add_groups [] gs = Some l ∧ builder_build l ts = Some w0 ∧
    history (λ _, unbroken) w0 (s_init l ts) evs w s.

(** From the list [es] to the list [es'], all entities but at most [n] stay at their
    position. *)
Definition displaced (n : nat) (es es' : list entity) : Prop :=
  ∃ M, length M ≤ n ∧ ∀ i x, es !! i = Some x → x ∉ M → es' !! i = Some x.
