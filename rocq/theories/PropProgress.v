(** C58: [create_atomic] is lock-free. *)
From Verif Require Import Base SparseVecM EntityM CssM LayoutM StorageM WorldM QueryM StepM AtomicM Spec SpecMore SpecAtomic
  SpecProgress Demo AtomicDemo ProgressFacts PropAtomic.

(** [n] threads share any world, and are left anywhere in their calls. If they then make
    [a] more accesses, and [k] of these read an old value or fail for no reason, the
    number of calls that finish is bounded from below. *)
Theorem C58_lock_free : ∀ n w tr0 sh0 ths0 a k tr sh ths,
  schedule (a_recycled (st_alloc (w_ents w))) (shared_of (st_alloc (w_ents w))) (replicate n PIdle) tr0 sh0 ths0 →
  counted (a_recycled (st_alloc (w_ents w))) sh0 ths0 a k tr sh ths →
  a ≤ 3 * n + (2 * n + 2) * length tr + 3 * k.
Proof. exact atomic_progress. Qed.
Print Assumptions C58_lock_free.

(** So among any [3 * n + 1] accesses that read newest values one finishes a call. *)
Theorem C58_some_call_finishes : ∀ n w tr0 sh0 ths0 a tr sh ths,
  schedule (a_recycled (st_alloc (w_ents w))) (shared_of (st_alloc (w_ents w))) (replicate n PIdle) tr0 sh0 ths0 →
  counted (a_recycled (st_alloc (w_ents w))) sh0 ths0 a 0 tr sh ths → 3 * n < a → tr ≠ [].
Proof. exact atomic_finishes. Qed.
Print Assumptions C58_some_call_finishes.

(** A thread that runs while the others rest, wherever these are in their calls,
    finishes its own with the fourth access at the latest. *)
Theorem C58_alone : ∀ n w tr0 sh0 ths0 t p a sh ths,
  schedule (a_recycled (st_alloc (w_ents w))) (shared_of (st_alloc (w_ents w))) (replicate n PIdle) tr0 sh0 ths0 →
  ths0 !! t = Some p →
  counted (a_recycled (st_alloc (w_ents w))) sh0 [p] a 0 [] sh ths → a ≤ 3.
Proof. exact atomic_alone. Qed.
Print Assumptions C58_alone.

(** No thread ever waits: it can make its next access, reading the newest value. *)
Theorem C58_never_stuck : ∀ n w tr0 sh0 ths0 t p,
  schedule (a_recycled (st_alloc (w_ents w))) (shared_of (st_alloc (w_ents w))) (replicate n PIdle) tr0 sh0 ths0 →
  ths0 !! t = Some p →
  ∃ sh' r, access (a_recycled (st_alloc (w_ents w))) sh0 p sh' r ∧ prompt (a_recycled (st_alloc (w_ents w))) sh0 p r.
Proof. exact atomic_not_stuck. Qed.
Print Assumptions C58_never_stuck.

(** The three threads of [C05_schedule]: 17 accesses, three of which are not prompt,
    finish three calls. *)
Example C58_nonvacuous :
  let al := st_alloc (w_ents (r_w C05_start)) in
  ∃ sh ths, counted (a_recycled al) (shared_of al) (replicate 3 PIdle) 17 3
    [(1, Ret (REnt (Ent 0 2))); (2, Ret (REnt (Ent 1 1))); (0, Ret (REnt (Ent 2 1)))] sh ths.
Proof.
  cbv zeta. do 2 eexists. eapply (do_counted_ok _ _ _ C05_schedule); [apply CountNil|]. vm_compute. reflexivity.
Qed.

(** Nine prompt accesses of three threads that finish no call: the tenth has to. *)
Example C58_tight :
  let al := st_alloc (w_ents (r_w (tidy_run [] [] []))) in
  ∃ sh ths, counted (a_recycled al) (shared_of al) (replicate 3 PIdle) 9 0 [] sh ths.
Proof.
  cbv zeta. do 2 eexists.
  eapply (do_counted_ok _ _ _ (flat_map (λ t, replicate 3 (t, CRead 0)) [0; 1; 2])); [apply CountNil|].
  vm_compute. reflexivity.
Qed.

(** Without the condition there is no bound: a compare-exchange may fail for no reason
    any number of times. *)
Theorem C58_spurious_refuted : ∀ m, ∃ n w a sh ths,
  counted (a_recycled (st_alloc (w_ents w))) (shared_of (st_alloc (w_ents w))) (replicate n PIdle) a a [] sh ths ∧ m < a.
Proof. exact atomic_spurious. Qed.
Print Assumptions C58_spurious_refuted.
