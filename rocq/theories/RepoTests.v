(** The tests of /repo/tests and the example of /repo/README.md, run on the model. They
    check the model, not the properties: every assertion that the repository makes about
    the code must hold of the model too. *)
From Verif Require Import Base EntityM LayoutM WorldM QueryM StepM Demo.

Global Instance retval_eq_dec : EqDecision retval.
Proof. solve_decision. Defined.

(** Not /repo code: a test is a list of calls, which must return the given value, and
    assertions. *)
Inductive line := Call (o : op) (r : retval) | Check (b : world → bool).

Fixpoint passes (w : world) (test : list line) : bool :=
  match test with
  | [] => true
  | Call o r :: test =>
      let '(out, _, w') := step w o in
      match out with Ret r' => bool_decide (r' = r) && passes w' test | _ => false end
  | Check b :: test => b w && passes w test
  end.

Definition says (r : res bool) (b : bool) : bool := match r with Ok b' => eqb b' b | _ => false end.
Definition has (t : tid) (e : entity) (w : world) : bool :=
  says (query_one_contains w [PRef t] [] [] e) true.
Definition has_not (t : tid) (e : entity) (w : world) : bool :=
  says (query_one_contains w [PRef t] [] [] e) false.
Definition got (t : tid) (e : entity) (v : option val) (w : world) : bool :=
  match query_one w [PRef t] [] [] e with
  | Ok r => bool_decide (option_map (map abs_item) r = option_map (λ v, [AVal t v]) v)
  | _ => false
  end.

(** tests/components_crud.rs:7-53. *)
Definition test_components_crud : list line :=
  let e0 := Ent 0 1 in
  [Call (ORegister tA) (RBool true); Call (ORegister tB) (RBool true);
   Call (OCreate []) (REnt e0);
   Check (has_not tA e0); Check (has_not tB e0); Check (got tA e0 None); Check (got tB e0 None);
   Call (OInsert e0 [(tA, 1)]%N) (RBool true);
   Check (has tA e0); Check (has_not tB e0); Check (got tA e0 (Some 1%N)); Check (got tB e0 None);
   Call (OInsert e0 [(tB, 1)]%N) (RBool true);
   Check (has tA e0); Check (has tB e0); Check (got tA e0 (Some 1%N)); Check (got tB e0 (Some 1%N));
   Call (ORemove e0 [tA]) (ROpts [Some 1%N]);
   Check (has_not tA e0); Check (has tB e0); Check (got tA e0 None); Check (got tB e0 (Some 1%N));
   Call (ORemove e0 [tA]) (ROpts [None]);
   Check (has_not tA e0); Check (has tB e0); Check (got tA e0 None); Check (got tB e0 (Some 1%N));
   Call (ODestroy e0) (RBool true);
   Check (has_not tA e0); Check (has_not tB e0); Check (got tA e0 None); Check (got tB e0 None)].
Example components_crud : passes world_default test_components_crud = true.
Proof. by vm_compute. Qed.

(** tests/components_register.rs:7-32. *)
Definition test_components_register : list line :=
  let yes t w := world_is_registered w t in let no t w := negb (world_is_registered w t) in
  [Check (no tA); Check (no tB);
   Call (ORegister tA) (RBool true); Check (yes tA);
   Call (ORegister tB) (RBool true); Check (yes tA); Check (yes tB);
   Call OClear RUnit; Check (yes tA); Check (yes tB);
   Call OReset RUnit; Check (yes tA); Check (yes tB)].
Example components_register : passes world_default test_components_register = true.
Proof. by vm_compute. Qed.

(** tests/entities_crud.rs:4-40. *)
Definition test_entities_crud : list line :=
  let e0 := Ent 0 1 in let e1 := Ent 1 1 in
  let are l w := bool_decide (world_entities w = l) in
  let yes e w := world_contains w e in let no e w := negb (world_contains w e) in
  [Check world_is_empty; Check (are []);
   Call (OCreate []) (REnt e0); Check (negb ∘ world_is_empty); Check (yes e0); Check (are [e0]);
   Call (OCreate []) (REnt e1); Check (negb ∘ world_is_empty); Check (yes e0); Check (yes e1); Check (are [e0; e1]);
   Call (ODestroy e0) (RBool true);
   Check (negb ∘ world_is_empty); Check (no e0); Check (yes e1); Check (are [e1]);
   Call (ODestroy e0) (RBool false);
   Call OClear RUnit; Check world_is_empty; Check (no e0); Check (no e1); Check (are [])].
Example entities_crud : passes world_default test_entities_crud = true.
Proof. by vm_compute. Qed.

(** tests/iterators.rs:50-67: [query_all::<Entity>().include::<J>().exclude::<X>()]. *)
Definition test_iter (J X : query) (dense : bool) (expected : list entity) : line :=
  Check (λ w, says (query_is_dense w [PEntity] J X) dense &&
    match query_all w [PEntity] J X with
    | Ok its => let found := map (map abs_item) its in
                forallb (λ x, bool_decide (x ∈ map (λ e, [AEnt e]) expected)) found &&
                forallb (λ e, bool_decide ([AEnt e] ∈ found)) expected
    | _ => false
    end).
(** tests/iterators.rs:18-20, 38-40. *)
Definition test_creates : list line :=
  [Call (OCreate [(tA, 0); (tB, 0)]%N) (REnt (Ent 0 1));
   Call (OCreate [(tA, 1); (tB, 1); (tC, 1)]%N) (REnt (Ent 1 1));
   Call (OCreate [(tA, 2); (tB, 2); (tC, 2); (tD, 2)]%N) (REnt (Ent 2 1))].
(** tests/iterators.rs:23-27, 43-47. *)
Definition test_iters (dense : bool) : list line :=
  let e0 := Ent 0 1 in let e1 := Ent 1 1 in let e2 := Ent 2 1 in
  [test_iter [PRef tA; PRef tB] [] dense [e0; e1; e2];
   test_iter [PRef tA; PRef tB; PRef tC] [] dense [e1; e2];
   test_iter [PRef tA; PRef tB; PRef tC; PRef tD] [] dense [e2];
   test_iter [PRef tA; PRef tB] [PRef tC] dense [e0];
   test_iter [PRef tA; PRef tB; PRef tC] [PRef tD] dense [e1]].
(** tests/iterators.rs:10-28. *)
Example test_sparse :
  match builder_build [] [tA; tB; tC; tD] with
  | Some w => passes w (test_creates ++ test_iters false)
  | None => false
  end = true.
Proof. by vm_compute. Qed.
(** tests/iterators.rs:30-48. *)
Example test_dense :
  match add_groups [] [[tA; tB]; [tA; tB; tC]; [tA; tB; tC; tD]] with
  | Some l => match builder_build l [] with
              | Some w => passes w (test_creates ++ test_iters true)
              | None => false
              end
  | None => false
  end = true.
Proof. by vm_compute. Qed.

(** README.md:20-40, src/lib.rs:6-26:
    Positions move by their velocities. A component is one value here, so the pair
    (x, y) is x + 10 y. *)
Definition readme_add : writer := λ k seen,
  match k, seen with
  | 0, [AVal _ p; AVal _ v] => Some (p + v)%N
  | _, _ => None
  end.
Example readme :
  match builder_build [] [tA; tB] with
  | Some w => passes w
      [Call (OCreate [(tA, 0); (tB, 21)]%N) (REnt (Ent 0 1));
       Call (OCreate [(tA, 0); (tB, 32)]%N) (REnt (Ent 1 1));
       Check (λ w, match step w (OForEach [PMut tA; PRef tB] [] [] readme_add) with
                   | (Ret _, _, w') => got tA (Ent 0 1) (Some 21%N) w' && got tA (Ent 1 1) (Some 32%N) w' &&
                                       got tB (Ent 0 1) (Some 21%N) w' && got tB (Ent 1 1) (Some 32%N) w'
                   | _ => false
                   end)]
  | None => false
  end = true.
Proof. by vm_compute. Qed.
