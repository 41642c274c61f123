(** Safety: the read-only calls perform no invalid access. *)
From Verif Require Import Base EntityM LayoutM WorldM QueryM ParM StepM Spec SpecMore SpecQuery.

(** The model reports every invalid access: a read of an uninitialised or moved-out
    cell, a position outside a buffer, a missing storage. *)
Record safe_reads (w : world) : Prop := {
  sr_all : ∀ G J X, query_all w G J X ≠ UB;
  sr_slice : ∀ G J X, query_all_slice w G J X ≠ UB;
  sr_one : ∀ G J X e, query_one w G J X e ≠ UB;
  sr_one_contains : ∀ G J X e, query_one_contains w G J X e ≠ UB;
  sr_iter : ∀ G J X, query_all_iter w G J X ≠ UB;
  sr_next : ∀ G J X it n, query_all_iter w G J X = Ok it → nexts n it ≠ UB;
  sr_par : ∀ G J X t, par_collect w G J X t ≠ UB;
  sr_par_run : ∀ G J X, ¬ par_produces w G J X UB;
  sr_views : ∀ t e, view_entities w t ≠ UB ∧ view_slice w t ≠ UB ∧ view_len w t ≠ UB ∧
                    view_contains w t e ≠ UB ∧ view_get w t e ≠ UB;
  sr_drop : world_drop w ≠ UB
}.


(** Calls that do not introduce groups. *)
Definition no_groups (o : op) : Prop := match o with OSetLayout l _ => l = [] | _ => True end.

(** Every history of a world that never has groups, without any other condition. *)
Definition ungrouped_history (evs : list event) (w : world) (s : sstate) : Prop :=
  ∃ ts w0, builder_build [] ts = Some w0 ∧ history (λ _ o _, no_groups o) w0 (s_init [] ts) evs w s.

(** Every history in which no call so far performed an invalid access. *)
Definition ub_free_history (evs : list event) (w : world) (s : sstate) : Prop :=
  ∃ w0 s0, built w0 s0 ∧ history (λ _ _ out, ub_free out) w0 s0 evs w s.

(** What does not rely on the groups is safe: looking at one entity, the views,
    iteration that is not answered from a group, dropping the world. *)
Record safe_lookups (w : world) : Prop := {
  sl_one : ∀ G J X e, query_one w G J X e ≠ UB;
  sl_one_contains : ∀ G J X e, query_one_contains w G J X e ≠ UB;
  sl_sparse : ∀ G J X, query_is_dense w G J X = Ok false →
    query_all w G J X ≠ UB ∧ (∀ it n, query_all_iter w G J X = Ok it → nexts n it ≠ UB) ∧
    (∀ t, par_collect w G J X t ≠ UB) ∧ ¬ par_produces w G J X UB ∧
    ∀ f, query_for_each w G J X f ≠ UB ∧ ¬ par_for_each w G J X f UB;
  sl_views : ∀ t e, view_entities w t ≠ UB ∧ view_slice w t ≠ UB ∧ view_len w t ≠ UB ∧
                    view_contains w t e ≠ UB ∧ view_get w t e ≠ UB;
  sl_drop : world_drop w ≠ UB
}.

(** Calls that do not touch the groups of any entity. *)
Definition groupless (o : op) : Prop :=
  match o with
  | OCreateAtomic | OMaintain | OClear | OReset | ORegister _ | OSet _ _ _ => True
  | _ => False
  end.
