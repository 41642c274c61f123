(** Reused indices in grouped components: what is exchanged must have equal versions. *)
From Verif Require Import Base SparseVecM EntityM CssM LayoutM StorageM WorldM QueryM StepM
  Spec SpecMore SpecLayout SpecFair Demo Demo2 FairFacts FairDemo.

(** A call that only exchanges entities of the same version has the outcome the
    client expects, and none of its accesses is invalid. *)
Theorem C64_outcomes : ∀ l evs w s o out dr w',
  fair_history l evs w s → op_ok o → step w o = (out, dr, w') → good_call s o →
  fair_call (layout_groups (layout_after l evs)) s o out →
  allowed s o out ∧ ub_free out ∧ fair_history l (evs ++ [(o, out, dr)]) w' (client_step s o out).
Proof. exact fair_outcome. Qed.
Print Assumptions C64_outcomes.

(** What the world contains. *)
Theorem C64_read : ∀ l evs w s, fair_history l evs w s →
  NoDup (world_entities w) ∧ (∀ e, e ∈ world_entities w ↔ s_alive s e) ∧
  (∀ e, world_contains w e = bool_decide (s_alive s e)) ∧
  (∀ t, t ∈ s_reg s → ∃ es vs, view_entities w t = Ok es ∧ view_slice w t = Ok vs ∧ view_len w t = Ok (length es) ∧
    length vs = length es ∧ NoDup es ∧ (∀ e x, (e, x) ∈ zip es vs ↔ s_row s e !! t = Some x) ∧
    (∀ e, view_contains w t e = Ok (bool_decide (is_Some (s_row s e !! t)))) ∧
    (∀ e, view_get w t e = Ok (s_row s e !! t))).
Proof. exact fair_read. Qed.
Print Assumptions C64_read.

Theorem C64_query_all : ∀ l evs w s G J X,
  fair_history l evs w s → query_ok s G J X →
  ∃ es its, query_all w G J X = Ok its ∧ NoDup es ∧ answers s G es its ∧
    (∀ e, e ∈ es → s_alive s e ∧ has_all (s_row s e) G ∧ has_all (s_row s e) J) ∧
    (plain G J X → simple_exclude s X →
     ∀ e, e ∉ s_loose s → e ∈ es ↔ s_alive s e ∧ matches (s_row s e) G J X) ∧
    (plain G J X → query_is_dense w G J X = Ok false →
     ∀ e, e ∈ es ↔ s_alive s e ∧ matches (s_row s e) G J X).
Proof. exact fair_query_all. Qed.
Print Assumptions C64_query_all.

Theorem C64_query_one : ∀ l evs w s G J X e,
  fair_history l evs w s → query_ok s G J X →
  ∃ r, query_one w G J X e = Ok r ∧ query_one_contains w G J X e = Ok (bool_decide (is_Some r)) ∧
    (∀ it, r = Some it → sees e (s_row s e) G = Some (abs_item <$> it)) ∧
    ((∀ p, p ∈ X → part_required p) → is_Some r ↔ matches (s_row s e) G J X).
Proof. exact fair_query_one. Qed.
Print Assumptions C64_query_one.

(** Every value handed in was dropped, handed back or is stored. *)
Theorem C64_values : ∀ l evs w s, fair_history l evs w s →
  hist_in evs ≡ₚ hist_dropped evs ++ hist_out evs ++ contents s.
Proof. exact fair_balance. Qed.
Print Assumptions C64_values.

(** The views of the types of a group start with the complete entities. *)
Theorem C64_groups : ∀ l evs w s g,
  fair_history l evs w s → g ∈ layout_groups (layout_after l evs) →
  ∃ P, NoDup P ∧ common_prefix w g P ∧
    (∀ e, e ∈ P → s_alive s e ∧ owns_all s e g) ∧
    (∀ e, e ∉ s_loose s → owns_all s e g → e ∈ P).
Proof. exact fair_prefix. Qed.
Print Assumptions C64_groups.

(** Sound histories are among them. *)
Theorem C64_sound_is_fair : ∀ l evs w s, good_history_from l evs w s → fair_history l evs w s.
Proof. exact sound_fair. Qed.
Print Assumptions C64_sound_is_fair.

(** Not a sound history. *)
Example reuse_not_sound : ¬ same_versions (r_s reuse).
Proof.
  intros H. assert (e_version (Ent 0 2) = e_version (Ent 1 1)) as Hv; [|done].
  apply (H tB); apply (bool_decide_unpack _); by vm_compute.
Qed.

Example C64_read_nonvacuous :
  world_entities (r_w reuse) = [Ent 0 2; Ent 1 1] ∧ length (r_evs reuse) = 10 ∧
  view_get (r_w reuse) tB (Ent 0 2) = Ok (Some 9%N) ∧ view_get (r_w reuse) tB (Ent 1 1) = Ok (Some 5%N) ∧
  view_get (r_w reuse) tA (Ent 1 1) = Ok None ∧ view_entities (r_w reuse) tB = Ok [Ent 0 2; Ent 1 1].
Proof. split_and!; by vm_compute. Qed.

Example C64_outcomes_nonvacuous :
  fair_history (layout_of [[tA; tB]]) (r_evs reuse_next) (r_w reuse_next) (r_s reuse_next) ∧
  length (r_evs reuse_next) = 14 ∧ layout_groups (layout_after (layout_of [[tA; tB]]) (r_evs reuse_next)) = [[tB; tC]] ∧
  query_is_dense (r_w reuse_next) [PRef tB; PRef tC] [] [] = Ok true ∧
  match query_all (r_w reuse_next) [PEntity; PRef tB; PRef tC] [PRef tA] [] with
  | Ok its => map (map abs_item) its = [[AEnt (Ent 0 2); AVal tB 9%N; AVal tC 12%N]]
  | _ => False
  end.
Proof. split; [apply fair_demo_ok; by vm_compute|]. split_and!; by vm_compute. Qed.
Example C64_values_nonvacuous :
  hist_in (r_evs reuse) = [1; 2; 3; 4; 5; 6; 7; 8; 9]%N ∧ hist_out (r_evs reuse) = [6]%N ∧
  hist_dropped (r_evs reuse) ≡ₚ [1; 2; 3; 7; 8]%N ∧ contents (r_s reuse) ≡ₚ [4; 5; 9]%N.
Proof. split_and!; [by vm_compute|by vm_compute| |]; apply (bool_decide_unpack _); by vm_compute. Qed.

Example C64_groups_nonvacuous :
  [tB; tC] ∈ layout_groups (layout_after (layout_of [[tA; tB]]) (r_evs reuse_next)) ∧
  owns_all (r_s reuse_next) (Ent 0 2) [tB; tC] ∧
  view_entities (r_w reuse_next) tB = Ok [Ent 0 2] ∧ view_entities (r_w reuse_next) tC = Ok [Ent 0 2].
Proof.
  split; [apply (bool_decide_unpack _); by vm_compute|]. split; [apply owns_allb_ok; by vm_compute|].
  split; by vm_compute.
Qed.
Example C64_query_one_nonvacuous :
  query_ok (r_s reuse) [PRef tB] [] [PRef tA] ∧
  query_one_contains (r_w reuse) [PRef tB] [] [PRef tA] (Ent 0 2) = Ok true ∧
  query_one_contains (r_w reuse) [PRef tB] [] [PRef tA] (Ent 0 1) = Ok false.
Proof. split; [apply (bool_decide_unpack _); by vm_compute|]. split; by vm_compute. Qed.
Example C64_sound_is_fair_nonvacuous :
  good_history_from (layout_of [[tA; tB]]) (r_evs demo) (r_w demo) (r_s demo) ∧ length (r_evs demo) = 11.
Proof. split; [apply good_run_from|]; by vm_compute. Qed.

(** Without the condition it fails: the insertion that completes [Ent 1 1] while
    [Ent 0 2] has a B returns true, and the component is not found. *)
Theorem C64_unfair_refuted : ∃ l evs w s o dr w' t e,
  fair_history l evs w s ∧ op_ok o ∧ step w o = (Ret (RBool true), dr, w') ∧ good_call s o ∧
  allowed s o (Ret (RBool true)) ∧
  ¬ fair_call (layout_groups (layout_after l evs)) s o (Ret (RBool true)) ∧
  is_Some (s_row (client_step s o (Ret (RBool true))) e !! t) ∧ view_get w' t e = Ok None.
Proof.
  exists (layout_of [[tA; tB]]), (r_evs reuse), (r_w reuse), (r_s reuse), (OInsert (Ent 1 1) [(tA, 13)])%N,
    (step (r_w reuse) (OInsert (Ent 1 1) [(tA, 13)])%N).1.2, (step (r_w reuse) (OInsert (Ent 1 1) [(tA, 13)])%N).2, tB, (Ent 1 1).
  split; [apply reuse_fair|]. split; [done|]. split; [by vm_compute|]. split; [done|]. split; [by vm_compute|].
  split; [|split; [apply (bool_decide_unpack _)|]; by vm_compute].
  intros H. assert (e_version (Ent 0 2) = e_version (Ent 1 1)) as Hv; [|done].
  apply (H ltac:(apply (bool_decide_unpack _); by vm_compute) ltac:(apply (bool_decide_unpack _); by vm_compute) [tA; tB]).
  - apply (bool_decide_unpack _); by vm_compute.
  - right. apply (bool_decide_unpack _); by vm_compute.
  - apply elem_of_list_singleton. done.
  - apply owns_allb_ok. by vm_compute.
  - apply owns_someb_ok. by vm_compute.
  - right. left. rewrite <-owns_allb_ok. by vm_compute.
Qed.
Print Assumptions C64_unfair_refuted.
