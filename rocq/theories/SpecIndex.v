(** What becomes of the indices. *)
From Verif Require Import Base EntityM WorldM StepM Spec.

(** Counted along a history since the last [reset]: the entities that are live or wait
    for [maintain], the largest number of them, the handles of the last version that were
    destroyed, and the entities removed by [clear]. *)
Record census := Census { n_pop : nat; n_peak : nat; n_retired : nat; n_cleared : nat }.

Definition census_step (c : census) (o : op) (out : outcome) : census :=
  match o, out with
  | OReset, _ => Census 0 0 0 0
  | OClear, _ => Census 0 (n_peak c) (n_retired c) (n_cleared c + n_pop c)
  | ODestroy e, Ret (RBool true) =>
      Census (n_pop c - 1) (n_peak c)
        (if decide (e_version e < version_last)%N then n_retired c else n_retired c + 1) (n_cleared c)
  | _, _ =>
      let n := n_pop c + length (reported out) in Census n (n_peak c `max` n) (n_retired c) (n_cleared c)
  end.

Definition counted (evs : list event) : census :=
  foldl (λ c ev, census_step c ev.1.1 ev.1.2) (Census 0 0 0 0) evs.

(** The indices that no handle can have any more until the next [reset]. *)
Definition n_lost (c : census) : nat := n_retired c + n_cleared c.

(** The entries of the queue of destroyed handles. *)
Definition backlog (w : world) : nat := length (a_recycled (st_alloc (w_ents w))).

(** Only calls that satisfy [P]. *)
Definition only (P : op → Prop) (evs : list event) : Prop := Forall (λ ev, P ev.1.1) evs.
