(** Memory safety and caught panics. *)
From Verif Require Import Base LayoutM WorldM QueryM StepM Spec SpecMore SpecQuery SpecSafety SafetyFacts Demo Demo2.

(** ** C33 *)

(** Missing: histories where the owners of a grouped component have different
    versions, or that go on after a panic of [set_layout]; it is false for both
    (below and C38). *)
Theorem C33_no_ub_partial : ∀ w s, reachable w s →
  safe_reads w ∧
  ∀ o out ds w', op_ok o → step w o = (out, ds, w') → good_side s o out → ub_free out ∧ safe_reads w'.
Proof. exact reach_safe. Qed.
Print Assumptions C33_no_ub_partial.

Example C33_nonvacuous :
  reachable (r_w nest) (r_s nest) ∧
  let o := OInsert (Ent 2 1) [(tB, 90); (tC, 91)]%N in
  op_ok o ∧ (step (r_w nest) o).1.1 = Ret (RBool true) ∧ good_side (r_s nest) o (Ret (RBool true)).
Proof.
  split; [apply nest_reachable|]. split; [done|]. split; [by vm_compute|]. apply good_sideb_ok. by vm_compute.
Qed.

(** Six calls and a query, no panic: an entity with a reused index joins the group
    (A, B), and the query reads past the end of the storage of B. *)
Theorem C33_query_refuted : ∃ evs w s,
  tidy_history evs w s ∧ existsb (λ ev, outcome_panics ev.1.2) evs = false ∧ query_all w [PRef tA; PRef tB] [] [] = UB.
Proof.
  pose (x := tidy_run [[tA; tB]] [] [OCreate []; ODestroy (Ent 0 1); OCreate [(tA, 10)];
    OCreate [(tA, 11); (tB, 12)]; ORemove (Ent 1 1) [tB]]%N).
  exists (r_evs x), (r_w x), (r_s x). split; [apply tidy_run_ok; by vm_compute|]. split; by vm_compute.
Qed.
Print Assumptions C33_query_refuted.

(** ** C36 *)

(** Missing: after the panic, an entity whose insertion was cut short may be missing
    from queries that are answered from a group (below). *)
Theorem C36_caught_panic_partial : ∀ w s o es ds w',
  reachable w s → op_ok o → step w o = (Panicked es, ds, w') → good_side s o (Panicked es) →
  let s' := client_step s o (Panicked es) in
  reachable w' s' ∧ (∀ e, world_contains w' e = bool_decide (s_alive s' e)) ∧ (∀ e, has_comps w' e (s_row s' e)) ∧
  (∀ G J X, query_ok s' G J X → plain G J X → ∃ es' its, query_all w' G J X = Ok its ∧ NoDup es' ∧ answers s' G es' its ∧
     (query_is_dense w' G J X = Ok false → ∀ e, e ∈ es' ↔ s_alive s' e ∧ matches (s_row s' e) G J X) ∧
     (simple_exclude s' X → ∀ e, e ∉ s_loose s' → e ∈ es' ↔ s_alive s' e ∧ matches (s_row s' e) G J X)) ∧
  (∀ e, e ∈ s_loose s' → e ∈ s_loose s ∨ e ∈ es ∨ ∃ cs, o = OInsert e cs).
Proof. exact caught_panic. Qed.
Print Assumptions C36_caught_panic_partial.

(** An insertion that panics at its second component. *)
Example C36_nonvacuous :
  let o := OInsert (Ent 2 1) [(tB, 90); (9, 91); (tA, 92)]%N in
  let w' := (step (r_w nest) o).2 in
  reachable (r_w nest) (r_s nest) ∧ op_ok o ∧ (step (r_w nest) o).1 = (Panicked [], [91; 92]%N) ∧
  good_side (r_s nest) o (Panicked []) ∧ view_get w' tB (Ent 2 1) = Ok (Some 90%N) ∧
  view_get w' tA (Ent 2 1) = Ok (Some 12%N) ∧ s_loose (client_step (r_s nest) o (Panicked [])) = {[Ent 2 1]}.
Proof.
  split; [apply nest_reachable|]. split; [done|]. split; [by vm_compute|].
  split; [apply good_sideb_ok; by vm_compute|]. split; [by vm_compute|]. split; [by vm_compute|].
  apply (bool_decide_unpack _). by vm_compute.
Qed.

(** [create((a, b, e))] with [e] of an unregistered type: the entity exists with A and
    B, and the query for A and B does not yield it. *)
Theorem C36_dense_query_refuted : ∃ w s e,
  reachable w s ∧ query_ok s [PRef tA; PRef tB] [] [] ∧ query_all w [PRef tA; PRef tB] [] [] = Ok [] ∧
  world_contains w e = true ∧ view_get w tA e = Ok (Some 10%N) ∧ view_get w tB e = Ok (Some 12%N) ∧
  query_one_contains w [PRef tA; PRef tB] [] [] e = Ok true.
Proof.
  pose (x := good_run [[tA; tB]] [] [OCreate [(tA, 10); (tB, 12); (tE, 5)]]%N).
  exists (r_w x), (r_s x), (Ent 0 1). split; [apply good_run_reachable; by vm_compute|].
  split; [apply (bool_decide_unpack _); by vm_compute|]. split_and!; by vm_compute.
Qed.
Print Assumptions C36_dense_query_refuted.

(** ** C38 *)

(** Missing: the components survive and later calls are safe; both are false
    (below). The entities survive, and every component is dropped once: during the
    panic or with the world. *)
Theorem C38_failed_set_layout_partial : ∀ w s l perm out ds w',
  reachable w s → op_ok (OSetLayout l perm) → ¬ layout_fits l → step w (OSetLayout l perm) = (out, ds, w') →
  out = Panicked [] ∧ world_entities w' = world_entities w ∧ (∀ e, world_contains w' e = world_contains w e) ∧
  ∃ vs, world_drop w' = Ok vs ∧ ds ++ vs ≡ₚ contents s.
Proof. exact failed_set_layout. Qed.
Print Assumptions C38_failed_set_layout_partial.

Example C38_nonvacuous :
  let l := layout_of [[tA; tC]; types 11 16] in let o := OSetLayout l [] in
  reachable (r_w demo) (r_s demo) ∧ op_ok o ∧ ¬ layout_fits l ∧
  (step (r_w demo) o).1 = (Panicked [], [23; 21; 22])%N ∧
  world_drop (step (r_w demo) o).2 = Ok [15; 16; 13; 10; 32]%N.
Proof.
  split; [apply demo_reachable|]. split; [apply op_okb_ok; by vm_compute|].
  split; [apply (bool_decide_unpack _); by vm_compute|]. split; by vm_compute.
Qed.

(** The layout (A, B), (1..16) panics; the component of type C is lost, and the next
    [create] is undefined behaviour. *)
Theorem C38_failed_set_layout_refuted : ∃ w s l e,
  reachable w s ∧ op_ok (OSetLayout l []) ∧ view_get w tC e = Ok (Some 13%N) ∧
  let r := step w (OSetLayout l []) in
  r.1.1 = Panicked [] ∧ world_contains r.2 e = true ∧ view_get r.2 tC e = Panic ∧
  ∃ es, (step r.2 (OCreate [(tA, 1); (tB, 2)]%N)).1.1 = UndefBeh es.
Proof.
  pose (x := good_run [[tA; tB]] [tC] [OCreate [(tA, 10); (tB, 12); (tC, 13)]]%N).
  exists (r_w x), (r_s x), (layout_of [[tA; tB]; types 1 16]), (Ent 0 1).
  split; [apply good_run_reachable; by vm_compute|]. split; [apply op_okb_ok; by vm_compute|].
  split; [by vm_compute|]. cbv zeta. split; [by vm_compute|]. split; [by vm_compute|]. split; [by vm_compute|].
  eexists. by vm_compute.
Qed.
Print Assumptions C38_failed_set_layout_refuted.
