(** C41: [query_one] for every query and handle. *)
From Verif Require Import Base EntityM WorldM QueryM StepM Spec SpecMore Demo Demo2 OneFacts.

(** What [query_one] and [contains] answer, for every query that borrows without a panic
    and every handle: an exclusion that is not a component type excludes everything. *)
Theorem C41_exactly : ∀ w s G J X e,
  reachable w s → query_ok s G J X →
  ∃ r, query_one w G J X e = Ok r ∧ query_one_contains w G J X e = Ok (bool_decide (is_Some r)) ∧
    (is_Some r ↔ matches (s_row s e) G J X ∧ ∀ p, p ∈ X → part_required p) ∧
    (∀ it, r = Some it → sees e (s_row s e) G = Some (abs_item <$> it)).
Proof. exact reach_one_exact. Qed.
Print Assumptions C41_exactly.

(** Which queries accept a dead handle: exactly those that require no component and
    exclude nothing but components. They show the handle itself and no component. *)
Theorem C41_dead_exactly : ∀ w s G J X e,
  reachable w s → query_ok s G J X → ¬ s_alive s e →
  world_contains w e = false ∧
  ∃ r, query_one w G J X e = Ok r ∧ query_one_contains w G J X e = Ok (bool_decide (is_Some r)) ∧
    (is_Some r ↔ required (G ++ J) = [] ∧ ∀ p, p ∈ X → part_required p) ∧
    (∀ it, r = Some it → sees e ∅ G = Some (abs_item <$> it)).
Proof. exact reach_one_dead. Qed.
Print Assumptions C41_dead_exactly.

(** A destroyed handle: accepted by the first query, rejected by the other three. *)
Example C41_exactly_nonvacuous :
  let e := Ent 5 1 in let G := [PEntity; POptRef tA] in
  reachable (r_w nest) (r_s nest) ∧ query_ok (r_s nest) G [] [PRef tE] ∧ ¬ s_alive (r_s nest) e ∧
  match query_one (r_w nest) G [] [PRef tE] e with
  | Ok (Some it) => abs_item <$> it = [AEnt e; AOpt tA None]
  | _ => False
  end ∧
  query_one (r_w nest) G [] [PEntity] e = Ok None ∧
  query_one (r_w nest) G [] [POptRef tE] e = Ok None ∧
  query_one (r_w nest) G [PRef tB] [] e = Ok None.
Proof.
  split; [apply nest_reachable|]. split; [apply (bool_decide_unpack _); by vm_compute|].
  split; [apply (bool_decide_unpack _); by vm_compute|]. split_and!; by vm_compute.
Qed.
