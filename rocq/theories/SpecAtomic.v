(** What the calls of concurrent threads say. *)
From Verif Require Import Base WorldM QueryM StepM Spec.

(** The finished calls of all threads, as events of a history. *)
Definition call_event (x : nat * outcome) : event := (OCreateAtomic, x.2, []).

(** The handles they return. *)
Definition handles (tr : list (nat * outcome)) : list entity := tr ≫= λ x, reported x.2.
