(** C31: views and queries that share a world, after any history without invalid accesses. *)
From Verif Require Import Base SparseVecM EntityM CssM LayoutM StorageM WorldM QueryM ParM StepM BorrowM Spec SpecMore SpecSafety
  SpecBorrow Demo BlindDemo BorrowProofs BorrowHist.

(** Whatever views and queries exist: borrowing one more part panics if and only if
    its type is not registered, or it is borrowed already and one of the two borrows
    is exclusive. Dropping never panics. *)
Theorem C31_borrow_panics : ∀ evs w s, ub_free_history evs w s → ∀ tr st a r st',
  session w tr st → b_act w st a = (r, st') →
  (r = Panic ↔ ∃ id p, a = BAdd id p ∧ refused w (live_after tr) p) ∧ r ≠ UB.
Proof. exact every_session_step. Qed.
Print Assumptions C31_borrow_panics.

(** Building a query panics if and only if one of its types is not registered, or
    borrowed in a conflicting way by something alive or by another part. A failed
    query releases all it borrowed, and so does dropping a query. *)
Theorem C31_query_panics : ∀ evs w s, ub_free_history evs w s → ∀ tr st id q,
  session w tr st → unheld id (live_after tr) →
  let bad := (∃ p, p ∈ q ∧ refused w (live_after tr) p) ∨ clash q in
  (bad ∧ b_build w st id q = (Panic, st)) ∨
  (¬ bad ∧ ∃ st', b_build w st id q = (Ok tt, st') ∧ b_release st' id = st).
Proof. exact every_session_build. Qed.
Print Assumptions C31_query_panics.

(** At no time are there two borrows of a component of which one is exclusive. *)
Theorem C31_exclusive : ∀ evs w s, ub_free_history evs w s → ∀ tr st, session w tr st → exclusive_alone (live_after tr).
Proof. exact every_exclusive. Qed.
Print Assumptions C31_exclusive.

(** With nothing else borrowed: a query that must be refused is, by every operation
    on it, and changes nothing. *)
Theorem C31_query_refused : ∀ evs w s G J X, ub_free_history evs w s →
  (∃ p, p ∈ G ++ J ++ X ∧ refused w [] p) ∨ clash (G ++ J ++ X) →
  query_all w G J X = Panic ∧ query_all_slice w G J X = Panic ∧
  (∀ e, query_one w G J X e = Panic ∧ query_one_contains w G J X e = Panic) ∧
  (∀ t, par_collect w G J X t = Panic) ∧
  (∀ f, step w (OForEach G J X f) = (Panicked [], [], w)).
Proof. exact every_query_refused. Qed.
Print Assumptions C31_query_refused.

(** With nothing else borrowed and after a sound history, the whole query call panics in these cases only. *)
Theorem C31_query_call : ∀ w s, reachable w s → ∀ id G J X,
  (b_build w (b_init w) id (G ++ J ++ X)).1 = Panic ↔ query_all w G J X = Panic.
Proof. exact reach_query_call. Qed.
Print Assumptions C31_query_call.

Fixpoint C31_run (w : world) (st : bstate) (acts : list baction) : list (baction * res unit) * bstate :=
  match acts with
  | [] => ([], st)
  | a :: acts => let '(r, st') := b_act w st a in
                 let '(tr, st2) := C31_run w st' acts in ((a, r) :: tr, st2)
  end.
Lemma C31_run_ok w acts : ∀ tr st, session w tr st →
  session w (tr ++ (C31_run w st acts).1) (C31_run w st acts).2.
Proof.
  induction acts as [|a acts IH]; intros tr st Hs; simpl; [by rewrite app_nil_r|].
  destruct (b_act w st a) as [r st'] eqn:E. specialize (IH _ _ (session_snoc _ _ _ _ _ _ Hs E)).
  destruct (C31_run w st' acts) as [tr2 st2]. simpl in *. by rewrite <-(assoc_L (++)) in IH.
Qed.

(** A view, a mutable view, a query that fails half way, and one that succeeds. *)
Definition C31_acts : list baction :=
  [BAdd 0 (PRef tA); BAdd 1 (PMut tB); BAdd 2 (PRef tA); BAdd 2 (PMut tC); BAdd 2 (POptRef tB);
   BAdd 3 (PMut tC); BAdd 3 (PRef tA); BAdd 3 PEntity; BDrop 0].
Example C31_nonvacuous :
  let x := C31_run (r_w demo) (b_init (r_w demo)) C31_acts in
  reachable (r_w demo) (r_s demo) ∧ session (r_w demo) x.1 x.2 ∧
  x.1.*2 = [Ok tt; Ok tt; Ok tt; Ok tt; Panic; Ok tt; Ok tt; Ok tt; Ok tt] ∧
  live_after x.1 = [(3, (tA, false)); (3, (tC, true)); (1, (tB, true))].
Proof.
  cbn zeta. split; [apply demo_reachable|]. split; [apply (C31_run_ok _ _ []); constructor|].
  split; by vm_compute.
Qed.

(** The same on a world with a group of owners with different versions. *)
Example C31_rough :
  let x := C31_run (r_w rough) (b_init (r_w rough)) [BAdd 0 (PRef tA); BAdd 1 (PMut tB); BAdd 2 (PMut tA); BDrop 0; BAdd 2 (PMut tA)] in
  ub_free_history (r_evs rough) (r_w rough) (r_s rough) ∧ session (r_w rough) x.1 x.2 ∧
  x.1.*2 = [Ok tt; Ok tt; Panic; Ok tt; Ok tt] ∧ live_after x.1 = [(2, (tA, true)); (1, (tB, true))] ∧
  query_all (r_w rough) [PRef tA] [PMut tA] [] = Panic.
Proof.
  cbn zeta. split; [apply ub_free_run_ok; by vm_compute|]. split; [apply (C31_run_ok _ _ []); constructor|].
  split_and!; by vm_compute.
Qed.
