(** C56: the order of the entities of a view. *)
From Verif Require Import Base EntityM LayoutM WorldM QueryM StepM Spec SpecMore SpecListing SpecOrder Demo Demo2 OrderFacts.

(** One call on a type that is in no group (after the call, when the call is [set_layout]):
    new owners of the component come last, the last one takes the place of one
    that loses it, and nothing else moves ([order_step]). Assignments, [create_atomic],
    [maintain] and [register] move nothing in any view. *)
Theorem C56_view_order : ∀ w s o out dr w' t,
  reachable w s → op_ok o → step w o = (out, dr, w') → good_side s o out → t ∈ s_reg s →
  keeps_order o ∨ (t ∉ s_grouped s ∨ ∃ l p, o = OSetLayout l p) ∧ t ∉ s_grouped (client_step s o out) →
  ∃ l, view_entities w t = Ok l ∧ view_entities w' t = Ok (order_step t (client_step s o out) o out l).
Proof. exact view_order_step. Qed.
Print Assumptions C56_view_order.

(** The whole view of a type that is never in a group. *)
Theorem C56_history : ∀ t w0 s0 evs w s,
  built w0 s0 → never_grouped t s0 evs → history good_side w0 s0 evs w s → t ∈ s_reg s →
  view_entities w t = Ok (order_run t s0 evs).2.
Proof. exact order_run_history. Qed.
Print Assumptions C56_history.

(** Also for grouped types: a call moves nothing in the view of [t] unless it is about an
    entity that has or gets a [t]. *)
Theorem C56_apart : ∀ w s o out dr w' t,
  reachable w s → op_ok o → step w o = (out, dr, w') → good_side s o out → t ∈ s_reg s → apart t s o →
  ∃ l, view_entities w t = Ok l ∧ view_entities w' t = Ok l.
Proof. exact view_apart. Qed.
Print Assumptions C56_apart.

Definition C56_ops : list op :=
  [OExtend [tC; tA] [[1; 2]; [3; 4]; [5; 6]; [7; 8]]%N false; OCreate [(tA, 9)]%N; ORemove (Ent 1 1) [tA; tC];
   OInsert (Ent 4 1) [(tC, 10)]%N; OInsert (Ent 0 1) [(tC, 11)]%N].
Definition C56_more : list op := [ODestroy (Ent 0 1); OSetLayout (default [] (add_groups [] [[tA; tB]])) []; OInsert (Ent 1 1) [(tC, 12)]%N].
Example C56_nonvacuous :
  let x := good_run [] [tA; tC] C56_ops in
  let y := good_run [] [tA; tC] (C56_ops ++ C56_more) in
  reachable (r_w x) (r_s x) ∧ reachable (r_w y) (r_s y) ∧
  view_entities (r_w x) tC = Ok [Ent 0 1; Ent 3 1; Ent 2 1; Ent 4 1] ∧
  view_entities (r_w x) tA = Ok [Ent 0 1; Ent 4 1; Ent 2 1; Ent 3 1] ∧
  view_entities (r_w y) tC = Ok [Ent 4 1; Ent 3 1; Ent 2 1; Ent 1 1] ∧
  (order_run tC (s_init [] [tA; tC]) (r_evs y)).2 = [Ent 4 1; Ent 3 1; Ent 2 1; Ent 1 1].
Proof.
  cbv zeta. split; [eexists; apply good_run_ok; by vm_compute|]. split; [eexists; apply good_run_ok; by vm_compute|].
  repeat (split; [vm_compute; reflexivity|]). vm_compute. reflexivity.
Qed.

(** The order of a grouped type does change when it gets into the group: entity 1 moves
    before entity 0, which has no B. *)
Example C56_grouped_moves :
  let x := good_run [[tA; tB]] [] [OCreate [(tA, 1)]; OCreate [(tA, 2)]]%N in
  let y := good_run [[tA; tB]] [] [OCreate [(tA, 1)]; OCreate [(tA, 2)]; OInsert (Ent 1 1) [(tB, 3)]]%N in
  view_entities (r_w x) tA = Ok [Ent 0 1; Ent 1 1] ∧ view_entities (r_w y) tA = Ok [Ent 1 1; Ent 0 1].
Proof. cbv zeta. split; vm_compute; reflexivity. Qed.

(** Groups (A, B) and (A, B, C, D): entity 1 gets into the inner group and out of it
    again; the view of C stays as it is. *)
Definition C56_nest : list op :=
  [OCreate [(tC, 1)]; OCreate [(tA, 2)]; OCreate [(tA, 3); (tB, 4); (tC, 5); (tD, 6)]; OCreate [(tC, 7); (tD, 8)]]%N.
Example C56_apart_nonvacuous :
  let run k := good_run [[tA; tB]; [tA; tB; tC; tD]] [] (C56_nest ++ take k [OInsert (Ent 1 1) [(tB, 9)]; ODestroy (Ent 1 1)]%N) in
  reachable (r_w (run 0)) (r_s (run 0)) ∧ reachable (r_w (run 2)) (r_s (run 2)) ∧
  bool_decide (apart tC (r_s (run 0)) (OInsert (Ent 1 1) [(tB, 9%N)])) = true ∧
  bool_decide (¬ owns tC (r_s (run 1)) (Ent 1 1)) = true ∧ tC ∈ s_grouped (r_s (run 0)) ∧
  view_entities (r_w (run 0)) tA = Ok [Ent 2 1; Ent 1 1] ∧ view_len (r_w (run 1)) tB = Ok 2 ∧
  view_entities (r_w (run 0)) tC = Ok [Ent 2 1; Ent 0 1; Ent 3 1] ∧
  view_entities (r_w (run 1)) tC = Ok [Ent 2 1; Ent 0 1; Ent 3 1] ∧
  view_entities (r_w (run 2)) tC = Ok [Ent 2 1; Ent 0 1; Ent 3 1].
Proof.
  cbv zeta. split; [eexists; apply good_run_ok; by vm_compute|]. split; [eexists; apply good_run_ok; by vm_compute|].
  split; [vm_compute; reflexivity|]. split; [vm_compute; reflexivity|].
  split; [apply (bool_decide_unpack _); vm_compute; exact I|].
  repeat (split; [vm_compute; reflexivity|]). vm_compute. reflexivity.
Qed.
