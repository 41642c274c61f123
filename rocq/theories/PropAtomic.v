(** C05: threads that share a world and call [create_atomic]. *)
From Verif Require Import Base SparseVecM EntityM CssM LayoutM StorageM WorldM QueryM StepM AtomicM Spec SpecMore SpecAtomic
  Demo AtomicProofs AtomicDemo.

(** For every number of threads, every number of calls and every schedule of the loads
    and compare-exchanges: no handle is returned twice, and none was given out
    before. The calls do not change which entities are alive. *)
Theorem C05_concurrent_handles : ∀ n evs w s tr w',
  tidy_history evs w s → threads_run n w tr w' →
  NoDup (handles tr) ∧
  (∀ e, e ∈ handles tr → entity_valid e ∧ e ∉ issued evs ∧ e ∉ queued evs ∧ world_contains w e = false) ∧
  (∀ e, world_contains w' e = world_contains w e).
Proof. exact threads_handles. Qed.
Print Assumptions C05_concurrent_handles.

(** A call returns a handle, or panics because all indices are used up. *)
Theorem C05_concurrent_exhausted : ∀ n evs w s tr1 t out tr2 w',
  tidy_history evs w s → threads_run n w (tr1 ++ (t, out) :: tr2) w' →
  (∃ e, out = Ret (REnt e)) ∨
  (out = Panicked [] ∧ ∀ i, (i < u32_lim)%N → ∃ e, e ∈ issued evs ++ handles tr1 ∧ e_index e = i).
Proof. exact threads_exhausted. Qed.
Print Assumptions C05_concurrent_exhausted.

(** The outcomes, and the world afterwards, are those of the same calls made one after
    the other in the order in which they finished. This needs no condition on the
    history. *)
Theorem C05_concurrent_as_sequence : ∀ n evs w s tr w',
  any_history evs w s → threads_run n w tr w' → ∃ s', any_history (evs ++ (call_event <$> tr)) w' s'.
Proof. exact threads_any. Qed.
Print Assumptions C05_concurrent_as_sequence.

(** So everything proved of sound histories goes on holding after the threads. *)
Theorem C05_concurrent_sound : ∀ n w s tr w',
  reachable w s → threads_run n w tr w' → ∃ s', reachable w' s' ∧ s_map s' = s_map s.
Proof. exact threads_reachable. Qed.
Print Assumptions C05_concurrent_sound.

(** Three threads and one recycled handle: a spurious failure, a real failure and a
    stale load. *)
Definition C05_start := tidy_run [] [] [OCreate []; OMaintain; ODestroy (Ent 0 1)].
Definition C05_schedule : list (nat * choice) :=
  [(0, CTake); (1, CTake); (2, CTake); (0, CRead 0); (1, CRead 0); (2, CRead 0);
   (0, CRead 0); (1, CTake); (0, CRead 0); (2, CRead 1); (2, CRead 0); (0, CRead 0); (2, CRead 0);
   (2, CTake); (0, CRead 1); (0, CRead 0); (0, CTake)].
Example C05_nonvacuous :
  tidy_history (r_evs C05_start) (r_w C05_start) (r_s C05_start) ∧
  ∃ w', threads_run 3 (r_w C05_start) [(1, Ret (REnt (Ent 0 2))); (2, Ret (REnt (Ent 1 1))); (0, Ret (REnt (Ent 2 1)))] w'.
Proof.
  split; [apply tidy_run_ok; by vm_compute|].
  eexists. apply (do_threads_ok _ _ C05_schedule). by vm_compute.
Qed.

(** After an untidy history two threads may get the same handle. *)
Theorem C05_untidy_refuted : ∃ n evs w s tr w',
  any_history evs w s ∧ threads_run n w tr w' ∧ ¬ NoDup (handles tr).
Proof.
  pose (x := any_run [] [] [OCreate []; ODestroy (Ent 0 1); OMaintain; ODestroy (Ent 0 1)]).
  exists 2, (r_evs x), (r_w x), (r_s x), [(0, Ret (REnt (Ent 0 2))); (1, Ret (REnt (Ent 0 2)))]. eexists.
  split; [apply any_run_ok; by vm_compute|]. split.
  - apply (do_threads_ok _ _ [(0, CTake); (1, CTake); (0, CRead 0); (1, CRead 0); (0, CTake); (1, CRead 0); (1, CTake)]).
    by vm_compute.
  - simpl. intros [Hn _]%NoDup_cons. apply Hn. by left.
Qed.
Print Assumptions C05_untidy_refuted.
