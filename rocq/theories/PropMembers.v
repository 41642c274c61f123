(** C59: which entities a query answered from a group yields, in any sound history.
    C36: what queries yield after a caught panic, exactly. *)
From Verif Require Import Base EntityM LayoutM WorldM QueryM StepM Spec SpecMore SpecLayout SpecQuery SpecDense SpecMembers
  Demo Demo2 MembersRun MembersQuery.

(** ** C59 *)

(** The storages of a group start with the entities filed under it, in one order. *)
Theorem C59_prefix : ∀ l ts evs w s g,
  good_history_of l ts evs w s → g ∈ layout_groups (layout_after l evs) →
  ∃ P, NoDup P ∧ common_prefix w g P ∧ ∀ e, e ∈ P ↔ e ∈ files_after l ts evs g.
Proof. exact files_prefix. Qed.
Print Assumptions C59_prefix.

Theorem C59_query : ∀ l ts evs w s G J X,
  good_history_of l ts evs w s → query_ok s G J X →
  ∃ es its, query_all w G J X = Ok its ∧ NoDup es ∧ answers s G es its ∧
    yields (layout_groups (layout_after l evs)) s (files_after l ts evs) G J X es.
Proof. exact history_yields. Qed.
Print Assumptions C59_query.

(** Filed entities have all types of the group; those that have them and are not
    filed had an insertion cut short by a panic. *)
Theorem C59_filed : ∀ l ts evs w s g e,
  good_history_of l ts evs w s → g ∈ layout_groups (layout_after l evs) →
  (e ∈ files_after l ts evs g → e ∈ complete s g) ∧
  (e ∈ complete s g → e ∉ s_loose s → e ∈ files_after l ts evs g).
Proof. exact history_filed. Qed.
Print Assumptions C59_filed.

(** A later insertion of one of the types of the group makes up for it. *)
Theorem C59_repair : ∀ l ts evs e cs ds w s g G J,
  good_history_of l ts (evs ++ [(OInsert e cs, Ret (RBool true), ds)]) w s →
  g ∈ layout_groups (layout_after l evs) → meets g cs.*1 → e ∈ complete s g →
  query_ok s G J [] → same_types (required (G ++ J)) g →
  ∃ es its, query_all w G J [] = Ok its ∧ NoDup es ∧ answers s G es its ∧ e ∈ es.
Proof. exact history_repaired. Qed.
Print Assumptions C59_repair.

(** The entity [Ent 2 1] has A; the insertion of B and of an unregistered type is cut
    short after B; the insertion of B once more returns. *)
Definition cut_ops : list op := nest_ops ++ [OInsert (Ent 2 1) [(tB, 90); (9, 91)]]%N.
Definition made_up_ops : list op := cut_ops ++ [OInsert (Ent 2 1) [(tB, 92)]]%N.
Definition cut := good_run [[tA; tB]; [tA; tB; tC; tD]] [tE] cut_ops.
Definition made_up := good_run [[tA; tB]; [tA; tB; tC; tD]] [tE] made_up_ops.
Definition nested : layout := [Fam [tA; tB; tC; tD] [2; 4]].

Example C59_nonvacuous :
  let gs := layout_groups (layout_after nested (r_evs cut)) in
  good_history_of nested [tE] (r_evs cut) (r_w cut) (r_s cut) ∧ gs = [[tA; tB]; [tA; tB; tC; tD]] ∧
  (** before the panic *)
  elements (files_after nested [tE] (r_evs nest) [tA; tB]) = [Ent 3 1; Ent 1 1; Ent 0 1; Ent 6 1] ∧
  elements (files_after nested [tE] (r_evs nest) [tA; tB; tC; tD]) = [Ent 1 1; Ent 6 1] ∧
  (** after it: complete, not filed and not yielded *)
  Ent 2 1 ∈ complete (r_s cut) [tA; tB] ∧ Ent 2 1 ∉ files_after nested [tE] (r_evs cut) [tA; tB] ∧
  Ent 2 1 ∈ s_loose (r_s cut) ∧ query_ok (r_s cut) [PEntity] [PRef tA; PRef tB] [] ∧
  seen (query_all (r_w cut) [PEntity] [PRef tA; PRef tB] []) =
    Some [[AEnt (Ent 1 1)]; [AEnt (Ent 6 1)]; [AEnt (Ent 3 1)]; [AEnt (Ent 0 1)]] ∧
  query_ok (r_s cut) [PEntity] [PRef tA; PRef tB] [PRef tC; PRef tD] ∧
  seen (query_all (r_w cut) [PEntity] [PRef tA; PRef tB] [PRef tC; PRef tD]) =
    Some [[AEnt (Ent 3 1)]; [AEnt (Ent 0 1)]] ∧
  (** after the second insertion *)
  good_history_of nested [tE] (r_evs made_up) (r_w made_up) (r_s made_up) ∧
  r_evs made_up = r_evs cut ++ [(OInsert (Ent 2 1) [(tB, 92)], Ret (RBool true), [90])]%N ∧
  Ent 2 1 ∈ files_after nested [tE] (r_evs made_up) [tA; tB] ∧
  seen (query_all (r_w made_up) [PEntity] [PRef tA; PRef tB] []) =
    Some [[AEnt (Ent 1 1)]; [AEnt (Ent 6 1)]; [AEnt (Ent 3 1)]; [AEnt (Ent 0 1)]; [AEnt (Ent 2 1)]].
Proof.
  cbv zeta. assert (∀ P `{Decision P}, bool_decide P = true → P) as dec by (by intros P ? ?%bool_decide_eq_true).
  split; [apply good_run_of; by vm_compute|]. split; [by vm_compute|]. split; [by vm_compute|]. split; [by vm_compute|].
  split; [apply (dec _ _); by vm_compute|]. split; [apply (dec _ _); by vm_compute|]. split; [apply (dec _ _); by vm_compute|].
  split; [apply (dec _ _); by vm_compute|]. split; [by vm_compute|]. split; [apply (dec _ _); by vm_compute|].
  split; [by vm_compute|]. split; [apply good_run_of; by vm_compute|]. split; [by vm_compute|].
  split; [apply (dec _ _); by vm_compute|by vm_compute].
Qed.

(** ** C36 *)

(** After a caught panic queries answered from a group yield the entities that were
    filed under it before the call, and all others are exact. *)
Theorem C36_exactly : ∀ l ts evs w s o es ds w' G J X,
  good_history_of l ts evs w s → op_ok o → step w o = (Panicked es, ds, w') → good_side s o (Panicked es) →
  let s' := client_step s o (Panicked es) in query_ok s' G J X →
  ∃ es' its, query_all w' G J X = Ok its ∧ NoDup es' ∧ answers s' G es' its ∧
    yields (layout_groups (layout_after l evs)) s' (files_after l ts evs) G J X es'.
Proof. exact caught_panic_yields. Qed.
Print Assumptions C36_exactly.

Example C36_exactly_nonvacuous :
  let o := OInsert (Ent 2 1) [(tB, 90); (9, 91)]%N in
  good_history_of nested [tE] (r_evs nest) (r_w nest) (r_s nest) ∧ op_ok o ∧
  (step (r_w nest) o).1 = (Panicked [], [91])%N ∧ good_side (r_s nest) o (Panicked []) ∧
  query_ok (client_step (r_s nest) o (Panicked [])) [PEntity] [PRef tA; PRef tB] [] ∧
  seen (query_all (step (r_w nest) o).2 [PEntity] [PRef tA; PRef tB] []) =
    Some [[AEnt (Ent 1 1)]; [AEnt (Ent 6 1)]; [AEnt (Ent 3 1)]; [AEnt (Ent 0 1)]].
Proof.
  cbv zeta. assert (∀ P `{Decision P}, bool_decide P = true → P) as dec by (by intros P ? ?%bool_decide_eq_true).
  split; [apply good_run_of; by vm_compute|]. split; [done|]. split; [by vm_compute|].
  split; [apply good_sideb_ok; by vm_compute|]. split; [apply (dec _ _); by vm_compute|]. by vm_compute.
Qed.
