(** C22-C30, C32, C40 and C41: groups, queries, slices and iterators. *)
From Verif Require Import Base LayoutM WorldM QueryM ParM StepM Spec SpecMore SpecQuery Demo Demo2 History Lockstep
  Grouped IterFacts QueryFacts WriteFacts.

(** ** C22 *)

(** Entities of the prefix own all components of the group; conversely all owners
    are in it, except those whose insertion was cut short by a caught panic. *)
Theorem C22_groups_share_a_prefix : ∀ l evs w s g,
  good_history_from l evs w s → g ∈ layout_groups (layout_after l evs) →
  ∃ P, NoDup P ∧ common_prefix w g P ∧
    (∀ e, e ∈ P → s_alive s e ∧ ∀ t, t ∈ g → is_Some (s_row s e !! t)) ∧
    (∀ e, e ∉ s_loose s → s_alive s e → (∀ t, t ∈ g → is_Some (s_row s e !! t)) → e ∈ P).
Proof. exact grouped_prefix. Qed.
Print Assumptions C22_groups_share_a_prefix.

Example C22_nonvacuous :
  let l := [Fam [tA; tB; tC; tD] [2; 4]] in
  good_history_from l (r_evs nest) (r_w nest) (r_s nest) ∧ s_loose (r_s nest) = ∅ ∧
  layout_groups (layout_after l (r_evs nest)) = [[tA; tB]; [tA; tB; tC; tD]] ∧
  view_entities (r_w nest) tB = Ok [Ent 1 1; Ent 6 1; Ent 3 1; Ent 0 1] ∧
  common_prefix (r_w nest) [tA; tB; tC; tD] [Ent 1 1; Ent 6 1].
Proof.
  split; [apply good_run_from; by vm_compute|]. split; [apply (bool_decide_unpack _); by vm_compute|].
  split; [by vm_compute|]. split; [by vm_compute|].
  intros t Ht. repeat (apply elem_of_cons in Ht as [->|Ht]; [eexists; split; by vm_compute|]). by apply elem_of_nil in Ht.
Qed.

(** ** C23 *)

(** [matches] and [sees] speak of the plain map [s] of the history only. Entities
    whose insertion was cut short by a caught panic may be missing from, or show
    up in, a dense iteration (C36). *)
Theorem C23_query_all : ∀ w s G J X,
  reachable w s → query_ok s G J X →
  ∃ es its, query_all w G J X = Ok its ∧ NoDup es ∧ answers s G es its ∧
    (∀ e, e ∈ es → s_alive s e ∧ has_all (s_row s e) G ∧ has_all (s_row s e) J) ∧
    (plain G J X → simple_exclude s X →
     ∀ e, e ∉ s_loose s → e ∈ es ↔ s_alive s e ∧ matches (s_row s e) G J X) ∧
    (plain G J X → query_is_dense w G J X = Ok false →
     ∀ e, e ∈ es ↔ s_alive s e ∧ matches (s_row s e) G J X).
Proof. exact reach_query_all. Qed.
Print Assumptions C23_query_all.

Example C23_nonvacuous :
  let '(G, J, X) := ([PEntity; PRef tA; PMut tB; POptRef tE], @nil part, [PRef tC]) in
  reachable (r_w nest) (r_s nest) ∧ query_ok (r_s nest) G J X ∧ plain G J X ∧ simple_exclude (r_s nest) X ∧
  s_loose (r_s nest) = ∅ ∧ query_is_dense (r_w nest) G J X = Ok false ∧
  query_all (r_w nest) G J X = Ok [[IEnt (Ent 0 1); IRef tA 3 10%N; IRef tB 3 20%N; IOpt tE None]] ∧
  query_is_dense (r_w nest) G J [] = Ok true ∧
  seen (query_all (r_w nest) G J []) =
    Some [[AEnt (Ent 1 1); AVal tA 11; AVal tB 21; AOpt tE None]; [AEnt (Ent 6 1); AVal tA 15; AVal tB 24; AOpt tE None];
          [AEnt (Ent 3 1); AVal tA 13; AVal tB 22; AOpt tE (Some 53)]; [AEnt (Ent 0 1); AVal tA 10; AVal tB 20; AOpt tE None]]%N.
Proof.
  split; [apply nest_reachable|]. split; [apply (bool_decide_unpack _); by vm_compute|].
  split; [by split; [|intros p [->|Hp]%elem_of_cons; [|by apply elem_of_nil in Hp]]|].
  split; [by left; intros t t' [->|H]%elem_of_cons [->|H']%elem_of_cons;
    try (by apply elem_of_nil in H); try (by apply elem_of_nil in H')|].
  split; [apply (bool_decide_unpack _); by vm_compute|]. split_and!; by vm_compute.
Qed.

(** ** C24 *)

(** Two worlds that register the same types, with any layouts, and the same calls
    ([set_layout] may be called with different layouts). [same_queries] compares
    [query_all] as multisets, for queries that require something and exclude at
    most one type; [same_answers] covers everything else. *)
Theorem C24_layouts_agree : ∀ w1 s1 w2 s2 evs1 evs2 v1 t1 v2 t2,
  built w1 s1 → built w2 s2 → (∀ t, world_is_registered w1 t = world_is_registered w2 t) →
  paired w1 s1 w2 s2 evs1 evs2 v1 t1 v2 t2 →
  Forall2 (λ ev1 ev2, same_outcome ev1.1.2 ev2.1.2) evs1 evs2 ∧ same_answers v1 v2 ∧
  (s_loose t1 = ∅ → same_queries v1 v2).
Proof. exact layouts_agree. Qed.
Print Assumptions C24_layouts_agree.

Definition C24_pair := pair_run [[tA; tB]; [tA; tB; tC; tD]] [[tA; tD]; [tB; tC]] [tE] [tE]
  (take 6 nest_ops ++
   [OCreateAtomic; OMaintain; OInsert (Ent 7 1) [(tA, 60); (tB, 61)]; ORemove (Ent 1 1) [tE; tB; tB];
    OSet tA (Ent 0 1) 62; ODelete (Ent 4 1) [tC]; OInsert (Ent 2 1) [(tC, 63); (tD, 64)]; ODestroy (Ent 5 1)])%N.

Example C24_nonvacuous : ∃ w1 s1 w2 s2 evs1 evs2 v1 t1 v2 t2,
  C24_pair = Some (w1, s1, (w2, s2), (evs1, evs2, (v1, t1), (v2, t2))) ∧
  built w1 s1 ∧ built w2 s2 ∧ paired w1 s1 w2 s2 evs1 evs2 v1 t1 v2 t2 ∧
  length evs1 = 14 ∧ view_entities v1 tA = Ok [Ent 6 1; Ent 3 1; Ent 7 1; Ent 0 1; Ent 2 1; Ent 1 1] ∧
  view_entities v2 tA = Ok [Ent 1 1; Ent 2 1; Ent 6 1; Ent 7 1; Ent 0 1; Ent 3 1] ∧
  query_is_dense v1 [PRef tA; PRef tB] [] [] = Ok true ∧ query_is_dense v2 [PRef tA; PRef tB] [] [] = Ok false ∧
  world_contains v1 (Ent 5 1) = false ∧ length <$> seen (query_all v1 [PRef tA; PRef tB] [] []) = Some 4.
Proof.
  assert (bool_decide (is_Some C24_pair) = true) as [[[[w1 s1] [w2 s2]] [[[evs1 evs2] [v1 t1]] [v2 t2]]] H]%bool_decide_eq_true
    by (by vm_compute).
  exists w1, s1, w2, s2, evs1, evs2, v1, t1, v2, t2. split; [done|].
  pose proof (pair_run_ok _ _ _ _ _ _ _ _ _ _ _ _ _ _ _ H) as (H1 & H2 & H3).
  split; [exact H1|]. split; [exact H2|]. split; [exact H3|]. clear H1 H2 H3. split_and!.
  - assert ((λ x, length x.2.1.1.1) <$> C24_pair = Some 14) as Hc by (by vm_compute). rewrite H in Hc. by injection Hc.
  - assert ((λ x, view_entities x.2.1.2.1 tA) <$> C24_pair =
      Some (Ok [Ent 6 1; Ent 3 1; Ent 7 1; Ent 0 1; Ent 2 1; Ent 1 1])) as Hc by (by vm_compute).
    rewrite H in Hc. by injection Hc.
  - assert ((λ x, view_entities x.2.2.1 tA) <$> C24_pair =
      Some (Ok [Ent 1 1; Ent 2 1; Ent 6 1; Ent 7 1; Ent 0 1; Ent 3 1])) as Hc by (by vm_compute).
    rewrite H in Hc. by injection Hc.
  - assert ((λ x, query_is_dense x.2.1.2.1 [PRef tA; PRef tB] [] []) <$> C24_pair = Some (Ok true)) as Hc
      by (by vm_compute). rewrite H in Hc. by injection Hc.
  - assert ((λ x, query_is_dense x.2.2.1 [PRef tA; PRef tB] [] []) <$> C24_pair = Some (Ok false)) as Hc
      by (by vm_compute). rewrite H in Hc. by injection Hc.
  - assert ((λ x, world_contains x.2.1.2.1 (Ent 5 1)) <$> C24_pair = Some false) as Hc by (by vm_compute).
    rewrite H in Hc. by injection Hc.
  - assert ((λ x, length <$> seen (query_all x.2.1.2.1 [PRef tA; PRef tB] [] [])) <$> C24_pair = Some (Some 4)) as Hc
      by (by vm_compute). rewrite H in Hc. by injection Hc.
Qed.

(** ** C25 *)

(** [slice] returns something exactly if the iteration is dense. Then there is one
    slice per part, of the right type and length. All slices of entities, and
    without [exclude] also those of components, agree with the items. Not proved
    because false: component slices of a query with [exclude] (below). *)
Theorem C25_slice_agrees_partial : ∀ w s G J X,
  reachable w s → query_ok s G J X →
  ∃ r its dn, query_all_slice w G J X = Ok r ∧ query_all w G J X = Ok its ∧ query_is_dense w G J X = Ok dn ∧
    dn = bool_decide (is_Some r) ∧
    ∀ sl, r = Some sl → Forall2 slice_kind G sl ∧ Forall (λ x, slice_length x (length its)) sl ∧
      ∀ k x, sl !! k = Some x → required X = [] ∨ G !! k = Some PEntity → shows_column k x its.
Proof. exact reach_slice. Qed.
Print Assumptions C25_slice_agrees_partial.

Example C25_nonvacuous :
  let G := [PEntity; PRef tA; PMut tB; POptRef tE] in
  reachable (r_w nest) (r_s nest) ∧ query_ok (r_s nest) G [] [] ∧
  query_all_slice (r_w nest) G [] [] =
    Ok (Some [SEnts [Ent 1 1; Ent 6 1; Ent 3 1; Ent 0 1]; SVals tA [11; 15; 13; 10]; SVals tB [21; 24; 22; 20]; SUnit])%N ∧
  (∃ its, query_all (r_w nest) G [] [] = Ok its ∧ length its = 4 ∧ shows_column 1 (SVals tA [11; 15; 13; 10])%N its ∧
     ¬ shows_column 1 (SVals tA [11; 15; 10; 13])%N its).
Proof.
  split; [apply nest_reachable|]. split; [apply (bool_decide_unpack _); by vm_compute|]. split; [by vm_compute|].
  eexists. split; [by vm_compute|]. split_and!; by vm_compute.
Qed.

(** With any exclusion, a slice of components is the front of the storage of its type
    ([view_slice] is [View::as_slice]), as long as the iteration. The iteration itself
    goes over a run of the same storage that may start further back (C53). *)
Theorem C25_slice_exactly : ∀ w s G J X sl,
  reachable w s → query_ok s G J X → query_all_slice w G J X = Ok (Some sl) →
  ∃ its, query_all w G J X = Ok its ∧
    ∀ k t, G !! k = Some (PRef t) ∨ G !! k = Some (PMut t) →
      ∃ vl, view_slice w t = Ok vl ∧ length its ≤ length vl ∧ sl !! k = Some (SVals t (take (length its) vl)).
Proof. exact reach_slice_front. Qed.
Print Assumptions C25_slice_exactly.

(** The slices of a query with [exclude] hold components of other entities
    (query_part.rs:255-261: the start of the range is ignored). *)
Theorem C25_slice_exclude_refuted : ∃ w s G X sl its k x,
  reachable w s ∧ query_ok s G [] X ∧ query_all_slice w G [] X = Ok (Some sl) ∧ query_all w G [] X = Ok its ∧
  sl !! k = Some x ∧ ¬ shows_column k x its.
Proof.
  exists (r_w nest), (r_s nest), [PEntity; PRef tA; PRef tB], [PRef tC; PRef tD].
  eexists [SEnts [Ent 3 1; Ent 0 1]; SVals tA [11; 15]; SVals tB [21; 24]]%N.
  eexists. exists 1. eexists. split; [apply nest_reachable|].
  split; [apply (bool_decide_unpack _); by vm_compute|]. split; [by vm_compute|]. split; [by vm_compute|].
  split; [done|]. by vm_compute.
Qed.
Print Assumptions C25_slice_exclude_refuted.

(** ** C26 *)

(** A dense exclusion of one type excludes it. In general it only excludes the
    entities that have all the excluded types, as the second theorem says. *)
Theorem C26_dense_exclude_partial : ∀ w s G J X,
  reachable w s → query_ok s G J X → query_is_dense w G J X = Ok true → one_exclude X →
  ∃ es its, query_all w G J X = Ok its ∧ NoDup es ∧ answers s G es its ∧
    ∀ e, e ∈ es → e ∉ s_loose s → has_none (s_row s e) X.
Proof. exact reach_dense_exclude_one. Qed.
Print Assumptions C26_dense_exclude_partial.

Theorem C26_dense_exclude_exactly : ∀ w s G J X,
  reachable w s → query_ok s G J X → query_is_dense w G J X = Ok true →
  ∃ es its, query_all w G J X = Ok its ∧ NoDup es ∧ answers s G es its ∧
    ∀ e, e ∉ s_loose s → e ∈ es ↔
      s_alive s e ∧ has_all (s_row s e) G ∧ has_all (s_row s e) J ∧ (required X = [] ∨ ¬ has_all (s_row s e) X).
Proof. exact reach_dense_exclude. Qed.
Print Assumptions C26_dense_exclude_exactly.

(** Groups (A, B) and (A, B, C): a dense exclusion of C. *)
Definition C26_world := good_run [[tA; tB]; [tA; tB; tC]] []
  [OCreate [(tA, 10); (tB, 20)]; OCreate [(tA, 11); (tB, 21); (tC, 31)]; OCreate [(tB, 70); (tC, 71); (tA, 72)]]%N.

Example C26_nonvacuous :
  let G := [PEntity; PRef tA; PMut tB] in
  reachable (r_w C26_world) (r_s C26_world) ∧ query_ok (r_s C26_world) G [] [PRef tC] ∧ one_exclude [PRef tC] ∧
  s_loose (r_s C26_world) = ∅ ∧
  query_is_dense (r_w C26_world) G [] [PRef tC] = Ok true ∧
  seen (query_all (r_w C26_world) G [] [PRef tC]) = Some [[AEnt (Ent 0 1); AVal tA 10; AVal tB 20]]%N ∧
  option_map length (seen (query_all (r_w C26_world) G [] [])) = Some 3.
Proof.
  split; [eexists; apply good_run_ok; by vm_compute|]. split; [apply (bool_decide_unpack _); by vm_compute|].
  split; [by intros t t' ->%elem_of_list_singleton ->%elem_of_list_singleton|]. split; [apply (bool_decide_unpack _); by vm_compute|].
  split_and!; by vm_compute.
Qed.

(** The entity (3, 1) has the excluded component C. *)
Theorem C26_dense_exclude_refuted : ∃ w s G X its e t v,
  reachable w s ∧ query_ok s G [] X ∧ s_loose s = ∅ ∧ query_is_dense w G [] X = Ok true ∧ query_all w G [] X = Ok its ∧
  [IEnt e] ∈ map (take 1) its ∧ G !! 0 = Some PEntity ∧ t ∈ required X ∧ view_get w t e = Ok (Some v).
Proof.
  exists (r_w nest), (r_s nest), [PEntity; PRef tA; PRef tB], [PRef tC; PRef tD].
  eexists. exists (Ent 3 1), tC, 32%N. split; [apply nest_reachable|].
  split; [apply (bool_decide_unpack _); by vm_compute|]. split; [apply (bool_decide_unpack _); by vm_compute|].
  split; [by vm_compute|]. split; [by vm_compute|].
  split; [apply (bool_decide_unpack _); by vm_compute|]. split; [done|].
  split; [apply (bool_decide_unpack _); by vm_compute|]. by vm_compute.
Qed.
Print Assumptions C26_dense_exclude_refuted.

(** ** C27 *)

(** For an entity that no caught panic left ungrouped: [get] gives the item that
    [query_all] gives for it, if any. [query_all] visits the entities [es]. *)
Theorem C27_query_one : ∀ w s G J X,
  reachable w s → query_ok s G J X → plain G J X → simple_exclude s X →
  ∃ es its, query_all w G J X = Ok its ∧ NoDup es ∧ length es = length its ∧
    ∀ e, e ∉ s_loose s → ∃ r, query_one w G J X e = Ok r ∧ query_one_contains w G J X e = Ok (bool_decide (e ∈ es)) ∧
      ∀ it, r = Some it ↔ (e, it) ∈ zip es its.
Proof. exact reach_one_all. Qed.
Print Assumptions C27_query_one.

Example C27_nonvacuous :
  let G := [PEntity; PRef tA; POptMut tD] in
  reachable (r_w nest) (r_s nest) ∧ query_ok (r_s nest) G [PRef tB] [PRef tE] ∧ plain G [PRef tB] [PRef tE] ∧
  simple_exclude (r_s nest) [PRef tE] ∧ s_loose (r_s nest) = ∅ ∧
  option_map length (seen (query_all (r_w nest) G [PRef tB] [PRef tE])) = Some 3 ∧
  query_one (r_w nest) G [PRef tB] [PRef tE] (Ent 0 1) ≠ Ok None ∧
  query_one (r_w nest) G [PRef tB] [PRef tE] (Ent 3 1) = Ok None ∧
  query_one (r_w nest) G [PRef tB] [PRef tE] (Ent 5 1) = Ok None.
Proof.
  split; [apply nest_reachable|]. split; [apply (bool_decide_unpack _); by vm_compute|].
  split; [apply plain_ok; [done|by repeat constructor]|].
  split; [left; by intros t t' ->%elem_of_list_singleton ->%elem_of_list_singleton|].
  split; [apply (bool_decide_unpack _); by vm_compute|].
  split_and!; by vm_compute.
Qed.

(** Without [simple_exclude] they disagree: [query_all] yields an item for (3, 1),
    [query_one] none. *)
Theorem C27_dense_exclude_refuted : ∃ w s G X its e it,
  reachable w s ∧ query_ok s G [] X ∧ plain G [] X ∧ s_loose s = ∅ ∧ query_all w G [] X = Ok its ∧
  it ∈ its ∧ G !! 0 = Some PEntity ∧ it !! 0 = Some (IEnt e) ∧ query_one w G [] X e = Ok None.
Proof.
  exists (r_w nest), (r_s nest), [PEntity; PRef tA; PRef tB], [PRef tC; PRef tD].
  eexists. exists (Ent 3 1). eexists. split; [apply nest_reachable|].
  split; [apply (bool_decide_unpack _); by vm_compute|]. split; [apply plain_ok; [done|by repeat constructor]|].
  split; [apply (bool_decide_unpack _); by vm_compute|].
  split; [by vm_compute|]. split; [left|]. split_and!; by vm_compute.
Qed.
Print Assumptions C27_dense_exclude_refuted.

(** ** C28 *)

(** [for_each] visits the entities [es], each once, and writes to their components
    only. [es] are the matching ones. *)
Theorem C28_for_each : ∀ w s G J X f,
  reachable w s → query_ok s G J X →
  ∃ es vs dr w', step w (OForEach G J X f) = (Ret (RWrote es vs), dr, w') ∧ NoDup es ∧
    (plain G J X → simple_exclude s X →
     ∀ e, e ∉ s_loose s → e ∈ es ↔ s_alive s e ∧ matches (s_row s e) G J X) ∧
    wrote_to G f es s w w' ∧ reachable w' (client_step s (OForEach G J X f) (Ret (RWrote es vs))).
Proof. exact reach_for_each_effect. Qed.
Print Assumptions C28_for_each.

(** The closure adds 100 to A and copies A into B. *)
Definition C28_write : writer := λ k row,
  match k, row with
  | 1, [_; AVal _ a; _] => Some (a + 100)%N
  | 2, [_; AVal _ a; _] => Some a
  | _, _ => None
  end.

Example C28_nonvacuous :
  let G := [PEntity; PMut tA; PMut tB] in
  reachable (r_w nest) (r_s nest) ∧ query_ok (r_s nest) G [] [PRef tE] ∧ plain G [] [PRef tE] ∧
  simple_exclude (r_s nest) [PRef tE] ∧ s_loose (r_s nest) = ∅ ∧
  (let '(out, ds, w) := step (r_w nest) (OForEach G [] [PRef tE] C28_write) in
   out = Ret (RWrote [Ent 1 1; Ent 6 1; Ent 0 1] [111; 11; 115; 15; 110; 10]) ∧ ds = [11; 21; 15; 24; 10; 20] ∧
   view_get w tA (Ent 6 1) = Ok (Some 115) ∧ view_get w tB (Ent 6 1) = Ok (Some 15) ∧
   view_get w tA (Ent 3 1) = Ok (Some 13))%N.
Proof.
  split; [apply nest_reachable|]. split; [apply (bool_decide_unpack _); by vm_compute|].
  split; [apply plain_ok; [done|by repeat constructor]|].
  split; [left; by intros t t' ->%elem_of_list_singleton ->%elem_of_list_singleton|].
  split; [apply (bool_decide_unpack _); by vm_compute|].
  by vm_compute.
Qed.

(** ** C29 *)

Theorem C29_no_alias : ∀ w s G J X its,
  reachable w s → query_ok s G J X → query_all w G J X = Ok its → no_alias G its.
Proof. exact reach_no_alias. Qed.
Print Assumptions C29_no_alias.

Example C29_nonvacuous :
  let G := [PRef tA; PMut tB; PRef tA; POptMut tE] in
  reachable (r_w nest) (r_s nest) ∧ query_ok (r_s nest) G [] [] ∧
  query_all (r_w nest) G [] [] = Ok
    [[IRef tA 0 11; IRef tB 0 21; IRef tA 0 11; IOpt tE None]; [IRef tA 1 15; IRef tB 1 24; IRef tA 1 15; IOpt tE None];
     [IRef tA 2 13; IRef tB 2 22; IRef tA 2 13; IOpt tE (Some (1%nat, 53))]; [IRef tA 3 10; IRef tB 3 20; IRef tA 3 10; IOpt tE None]]%N ∧
  ¬ no_alias G [[IRef tA 0 11; IRef tB 0 21]; [IRef tA 1 15; IRef tB 0 21]]%N ∧
  ¬ no_alias [PRef tA; PMut tA] [[IRef tA 0 11; IRef tA 0 11]]%N.
Proof.
  split; [apply nest_reachable|]. split; [apply (bool_decide_unpack _); by vm_compute|]. split; [by vm_compute|]. split.
  - intros H. by destruct (H 0 1 _ _ 1 1 _ _ tB 0 eq_refl eq_refl eq_refl eq_refl) as [? _].
  - intros H. destruct (H 0 0 _ _ 0 1 _ _ tA 0 eq_refl eq_refl eq_refl eq_refl) as [_ [?|Hm]]; try done.
    by pose proof (Hm (PMut tA) (or_intror eq_refl)).
Qed.

(** ** C30 *)

(** Any way to split the work and to interleave the pieces. [par_collect] keeps the
    order of the pieces, as [collect] does. *)
Theorem C30_par_iter : ∀ w s G J X,
  reachable w s → query_ok s G J X →
  ∃ its, query_all w G J X = Ok its ∧ (∀ t, par_collect w G J X t = Ok its) ∧
    (∀ r, par_produces w G J X r → ∃ its', r = Ok its' ∧ its' ≡ₚ its) ∧
    (par_opt_len w G J X = Ok None ∧ query_is_dense w G J X = Ok false ∨
     par_opt_len w G J X = Ok (Some (length its)) ∧ query_is_dense w G J X = Ok true).
Proof. exact reach_par. Qed.
Print Assumptions C30_par_iter.

(** Writing in parallel has the effect of [for_each]. *)
Theorem C30_par_for_each : ∀ w s G J X f,
  reachable w s → query_ok s G J X →
  ∃ es vs dr w1, step w (OForEach G J X f) = (Ret (RWrote es vs), dr, w1) ∧
    ∀ r, par_for_each w G J X f r →
      ∃ s2 es' dr' vs', r = Ok (s2, es', dr', vs') ∧ es' ≡ₚ es ∧
        wrote_to G f es s w (World (w_ents w) s2) ∧ same_answers w1 (World (w_ents w) s2) ∧
        (s_loose s = ∅ → same_queries w1 (World (w_ents w) s2)) ∧
        vs' ++ contents s ≡ₚ dr' ++ contents (client_step s (OForEach G J X f) (Ret (RWrote es vs))).
Proof. exact reach_par_for_each. Qed.
Print Assumptions C30_par_for_each.

Example C30_nonvacuous :
  let G := [PEntity; PMut tA] in
  reachable (r_w nest) (r_s nest) ∧ query_ok (r_s nest) G [] [PRef tE] ∧
  par_opt_len (r_w nest) G [] [PRef tE] = Ok None ∧
  par_opt_len (r_w nest) [PRef tA; PRef tB] [] [] = Ok (Some 4) ∧
  match par_collect (r_w nest) [PRef tA; PRef tB] [] [] (SNode 1 SLeaf (SNode 2 SLeaf SLeaf)) with
  | Ok l => length l | _ => 0 end = 4.
Proof.
  split; [apply nest_reachable|]. split; [apply (bool_decide_unpack _); by vm_compute|]. split_and!; by vm_compute.
Qed.

(** There is a run for every world and query. *)
Example C30_some_run : ∀ w G J X, ∃ r, par_produces w G J X r.
Proof. exact par_produces_some. Qed.

(** ** C32 *)

(** Iterators of queries, and any other state of an iterator whose [fold] returns. *)
Theorem C32_iter : ∀ w s G J X,
  reachable w s → query_ok s G J X →
  ∃ it its dn, query_all_iter w G J X = Ok it ∧ query_all w G J X = Ok its ∧ query_is_dense w G J X = Ok dn ∧
    yields it its ∧ hints_right dn it its.
Proof. exact reach_iter. Qed.
Print Assumptions C32_iter.

Theorem C32_any_iter : ∀ it its, iter_fold it = Ok its →
  yields it its ∧ hints_right (match it with IDense _ _ _ _ => true | _ => false end) it its.
Proof. exact any_iter. Qed.
Print Assumptions C32_any_iter.

(** A sparse and a dense iterator, in the middle. *)
Example C32_nonvacuous : ∃ it its,
  query_all_iter (r_w nest) [PRef tA] [] [PRef tE] = Ok it ∧ iter_fold it = Ok its ∧ length its = 3 ∧
  nexts 4 it = Ok (map Some its ++ [None]) ∧
  ∃ it2, query_all_iter (r_w nest) [PRef tA; PRef tB] [] [] = Ok it2 ∧ hint_after 3 it2 = Ok (1, Some 1).
Proof.
  eexists _, _. split; [by vm_compute|]. split; [by vm_compute|]. split; [by vm_compute|]. split; [by vm_compute|].
  eexists. split; by vm_compute.
Qed.

(** ** C40 *)

(** A query that requires no component yields nothing, whatever is alive; it should
    yield every live entity. *)
Theorem C40_no_required_component : ∀ w s G J X,
  reachable w s → query_ok s G J X → required (G ++ J) = [] → query_all w G J X = Ok [].
Proof. exact reach_no_required. Qed.
Print Assumptions C40_no_required_component.

Theorem C40_all_entities_refuted : ∃ w s e,
  reachable w s ∧ query_ok s [PEntity] [] [] ∧ world_contains w e = true ∧ query_all w [PEntity] [] [] = Ok [].
Proof.
  exists (r_w nest), (r_s nest), (Ent 3 1). split; [apply nest_reachable|].
  split; [apply (bool_decide_unpack _); by vm_compute|]. split; by vm_compute.
Qed.
Print Assumptions C40_all_entities_refuted.

(** ** C41 *)

(** Holds for queries that require a component; false for the others. *)
Theorem C41_query_one_partial : ∀ w s G J X e it,
  reachable w s → query_ok s G J X → required (G ++ J) ≠ [] →
  query_one w G J X e = Ok (Some it) ∨ query_one_contains w G J X e = Ok true →
  s_alive s e ∧ world_contains w e = true.
Proof. exact reach_one_alive. Qed.
Print Assumptions C41_query_one_partial.

Theorem C41_query_one_refuted : ∃ w s e it,
  reachable w s ∧ query_ok s [PEntity] [] [] ∧ world_contains w e = false ∧
  query_one w [PEntity] [] [] e = Ok (Some it) ∧ query_one_contains w [] [] [] e = Ok true.
Proof.
  exists (r_w nest), (r_s nest), (Ent 5 1). eexists. split; [apply nest_reachable|].
  split; [apply (bool_decide_unpack _); by vm_compute|]. split_and!; by vm_compute.
Qed.
Print Assumptions C41_query_one_refuted.

Example C41_nonvacuous : ∃ it,
  let G := [PEntity; PRef tA] in
  reachable (r_w nest) (r_s nest) ∧ query_ok (r_s nest) G [] [] ∧ required (G ++ []) ≠ [] ∧
  query_one (r_w nest) G [] [] (Ent 3 1) = Ok (Some it) ∧ query_one (r_w nest) G [] [] (Ent 5 1) = Ok None ∧
  query_one_contains (r_w nest) G [] [] (Ent 5 1) = Ok false.
Proof.
  eexists. split; [apply nest_reachable|]. split; [apply (bool_decide_unpack _); by vm_compute|].
  split; [done|]. split_and!; by vm_compute.
Qed.
