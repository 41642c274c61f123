(** What [maintain] does when entities created since the last one were destroyed. *)
From Verif Require Import Base EntityM WorldM StepM Spec.

(** Given out by [create], [extend] or [create_atomic] since the last [maintain],
    [clear] or [reset]. *)
Definition recent (s : sstate) (e : entity) : Prop := e ∈ s_created s ∨ e ∈ s_queued s.

(** The latest recent handle of its index. *)
Definition latest (s : sstate) (e : entity) : Prop :=
  recent s e ∧ ∀ f, recent s f → e_index f = e_index e → (e_version f ≤ e_version e)%N.

(** The first recent handle of its index. *)
Definition earliest (s : sstate) (e : entity) : Prop :=
  recent s e ∧ ∀ f, recent s f → e_index f = e_index e → (e_version e ≤ e_version f)%N.

(** Some live entity has index [i]. *)
Definition live_index (s : sstate) (i : N) : Prop := ∃ f, s_alive s f ∧ e_index f = i.

(** Some recent handle has index [i]. *)
Definition recent_index (s : sstate) (i : N) : Prop := ∃ f, recent s f ∧ e_index f = i.
