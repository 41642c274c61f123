(** C53: the order in which a query visits entities. *)
From Verif Require Import Base EntityM LayoutM WorldM QueryM StepM Spec SpecMore SpecVisit Demo Demo2 VisitFacts.

(** A query that is not dense goes through the storage of the first required type
    with the fewest components, in the order of that storage ([view_entities] is
    [View::entities]), and yields exactly the entities that match. A dense one yields a
    contiguous part of all the required storages: the front when nothing is excluded. *)
Theorem C53_order : ∀ w s G J X,
  reachable w s → query_ok s G J X →
  ∃ es its dn, query_all w G J X = Ok its ∧ query_is_dense w G J X = Ok dn ∧
    NoDup es ∧ answers s G es its ∧
    (dn = false → sparse_order w (required (G ++ J)) es ∧
       (plain G J X → ∀ e, e ∈ es ↔ s_alive s e ∧ matches (s_row s e) G J X)) ∧
    (dn = true → dense_order w (required (G ++ J)) (required X) es).
Proof. exact reach_visit. Qed.
Print Assumptions C53_order.

(** Storages of 5, 4, 3 and 2 components. [tA] with [tE] follows [tE], where entity 2
    comes first; [tA] itself has entity 3 first. [tB] and [tC] have as many
    components: the one named first decides. The last query is dense. *)
Example C53_nonvacuous :
  let w := r_w nest in
  reachable w (r_s nest) ∧
  view_entities w tA = Ok [Ent 1 1; Ent 6 1; Ent 3 1; Ent 0 1; Ent 2 1] ∧
  view_entities w tB = Ok [Ent 1 1; Ent 6 1; Ent 3 1; Ent 0 1] ∧
  view_entities w tC = Ok [Ent 1 1; Ent 6 1; Ent 4 1; Ent 3 1] ∧
  view_entities w tE = Ok [Ent 2 1; Ent 3 1] ∧
  query_ok (r_s nest) [PEntity; PRef tA] [PRef tE] [] ∧
  query_is_dense w [PEntity; PRef tA] [PRef tE] [] = Ok false ∧
  first_shortest w (required ([PEntity; PRef tA] ++ [PRef tE])) tE [Ent 2 1; Ent 3 1] ∧
  query_all w [PEntity; PRef tA] [PRef tE] [] = Ok [[IEnt (Ent 2 1); IRef tA 4 12%N]; [IEnt (Ent 3 1); IRef tA 2 13%N]] ∧
  first_shortest w [tA; tC; tB] tC [Ent 1 1; Ent 6 1; Ent 4 1; Ent 3 1] ∧
  query_ok (r_s nest) [PEntity; PRef tA] [PRef tB] [PRef tC; PRef tD] ∧
  query_is_dense w [PEntity; PRef tA] [PRef tB] [PRef tC; PRef tD] = Ok true ∧
  query_all w [PEntity; PRef tA] [PRef tB] [PRef tC; PRef tD] =
    Ok [[IEnt (Ent 3 1); IRef tA 2 13%N]; [IEnt (Ent 0 1); IRef tA 3 10%N]].
Proof.
  cbv zeta. split; [apply nest_reachable|]. do 4 (split; [by vm_compute|]).
  split; [apply (bool_decide_unpack _); by vm_compute|]. split; [by vm_compute|].
  split.
  { exists 1. split; [done|]. split; [by vm_compute|].
    intros [|[|[]]] t' l' Ht' Hl'; vm_compute in Ht'; try discriminate Ht'; injection Ht' as <-;
      vm_compute in Hl'; injection Hl' as <-; simpl; split; lia. }
  split; [by vm_compute|]. split.
  { exists 1. split; [done|]. split; [by vm_compute|].
    intros [|[|[|[]]]] t' l' Ht' Hl'; vm_compute in Ht'; try discriminate Ht'; injection Ht' as <-;
      vm_compute in Hl'; injection Hl' as <-; simpl; split; lia. }
  split; [apply (bool_decide_unpack _); by vm_compute|]. split; by vm_compute.
Qed.
