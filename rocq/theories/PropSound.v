(** What the conditions of the theorems about sound and tidy histories exclude, and
    simple ways to meet them. *)
From Verif Require Import Base SparseVecM EntityM CssM LayoutM StorageM WorldM QueryM StepM
  Spec SpecMore SpecQuery SpecSafety SpecSound Demo SoundFacts.

(** ** Simple conditions *)

(** As long as no entity is destroyed, every history whose layouts are within the
    limits is sound: whatever the groups, whenever [maintain] is called. *)
Theorem C33_sound_without_destroy : ∀ w0 s0 evs w s,
  built w0 s0 → history never_destroys w0 s0 evs w s → good_history evs w s.
Proof. exact sound_no_destroy. Qed.
Print Assumptions C33_sound_without_destroy.

(** Without groups only [maintain] matters. *)
Theorem C33_sound_without_groups : ∀ ts w0 evs w s,
  builder_build [] ts = Some w0 → history tidy_no_groups w0 (s_init [] ts) evs w s → good_history evs w s.
Proof. exact sound_no_groups. Qed.
Print Assumptions C33_sound_without_groups.

Definition tidy_no_groupsb (s : sstate) (o : op) (out : outcome) : bool :=
  match o with OSetLayout (_ :: _) _ => false | OMaintain => tidyb s | _ => true end.
Definition never_destroysb (s : sstate) (o : op) (out : outcome) : bool :=
  match o with ODestroy _ => false | OSetLayout l _ => bool_decide (layout_fits l) | _ => true end.

Definition plain_start := default world_default (builder_build [] [tA; tB]).
Definition plain_run := run_or (exec tidy_no_groupsb plain_start (s_init [] [tA; tB])
  [OCreate [(tA, 1); (tB, 2)]; OMaintain; ODestroy (Ent 0 1); OCreate [(tA, 3)]; OCreateAtomic;
   OCreate [(tA, 4); (tB, 5)];
   OMaintain; OSetLayout [] []]%N).
(** An index is reused with a higher version, and a queued entity is made live. *)
Example C33_without_groups_nonvacuous :
  builder_build [] [tA; tB] = Some plain_start ∧
  history tidy_no_groups plain_start (s_init [] [tA; tB]) (r_evs plain_run) (r_w plain_run) (r_s plain_run) ∧
  length (r_evs plain_run) = 8 ∧ world_entities (r_w plain_run) = [Ent 0 2; Ent 2 1; Ent 1 1].
Proof.
  split; [by vm_compute|]. split; [|split; by vm_compute].
  change (r_evs plain_run) with ([] ++ r_evs plain_run).
  eapply (exec_history tidy_no_groupsb tidy_no_groups); [|constructor|].
  - intros s o out Hb. split; [destruct o; try done; by destruct l|]. intros ->. by apply tidyb_ok.
  - transitivity (Some plain_run); [|by destruct plain_run as [[? ?] ?]]. apply run_or_eq. by vm_compute.
Qed.

Definition free_start := default world_default (builder_build (layout_of [[tA; tB]]) [tC]).
Definition free_run := run_or (exec never_destroysb free_start (s_init (layout_of [[tA; tB]]) [tC])
  [OCreate [(tA, 1); (tB, 2)]; OCreateAtomic; OCreate [(tA, 3)]; OMaintain; OInsert (Ent 1 1) [(tB, 4); (tA, 5)];
   OSetLayout (layout_of [[tB; tC]]) []; OClear; OCreate [(tB, 6); (tC, 7)]]%N).
Example C33_without_destroy_nonvacuous :
  built free_start (s_init (layout_of [[tA; tB]]) [tC]) ∧
  history never_destroys free_start (s_init (layout_of [[tA; tB]]) [tC]) (r_evs free_run) (r_w free_run) (r_s free_run) ∧
  length (r_evs free_run) = 8 ∧ query_is_dense (r_w free_run) [PRef tB; PRef tC] [] [] = Ok true.
Proof.
  split; [exists [[tA; tB]], (layout_of [[tA; tB]]), [tC]; split_and!; by vm_compute|]. split; [|split; by vm_compute].
  change (r_evs free_run) with ([] ++ r_evs free_run).
  eapply (exec_history never_destroysb never_destroys); [|constructor|].
  - intros s o out Hb. split; [by intros e ->|]. destruct o; try done. by apply bool_decide_eq_true in Hb.
  - transitivity (Some free_run); [|by destruct free_run as [[? ?] ?]]. apply run_or_eq. by vm_compute.
Qed.

(** ** Grouped entities with different versions

    Four calls, none of which panics: an index is reused ([Ent 0 2]), then a second
    entity joins the group (A, B). This exchanges the slots of the two entities in
    the sparse array of A, versions included. *)

Definition mixed := tidy_run [[tA; tB]] [] [OCreate []; ODestroy (Ent 0 1); OCreate [(tA, 10)]; OCreate [(tA, 11); (tB, 12)]]%N.
Lemma mixed_ok : tidy_history (r_evs mixed) (r_w mixed) (r_s mixed).
Proof. apply tidy_run_ok. by vm_compute. Qed.

(** Both entities are live, have a component A in the eyes of the client, and the
    view of A contains them with their values. *)
Example mixed_client :
  existsb (λ ev, outcome_panics ev.1.2) (r_evs mixed) = false ∧
  issued (r_evs mixed) = [Ent 0 1; Ent 0 2; Ent 1 1] ∧ world_entities (r_w mixed) = [Ent 0 2; Ent 1 1] ∧
  s_row (r_s mixed) (Ent 0 2) !! tA = Some 10%N ∧ s_row (r_s mixed) (Ent 1 1) !! tA = Some 11%N ∧
  view_entities (r_w mixed) tA = Ok [Ent 1 1; Ent 0 2] ∧ view_slice (r_w mixed) tA = Ok [11; 10]%N.
Proof. split_and!; by vm_compute. Qed.

(** A component given to [create] is not found, and one of another entity gets lost
    on the way. *)
Theorem C11_mixed_refuted : ∃ evs w s out w', tidy_history evs w s ∧
  step w (OCreate [(tA, 11); (tB, 12)]%N) = (out, [], w') ∧ out = Ret (REnt (Ent 1 1)) ∧
  view_get w' tA (Ent 1 1) = Ok None ∧
  view_get w tA (Ent 0 2) = Ok (Some 10%N) ∧ view_get w' tA (Ent 0 2) = Ok None.
Proof.
  pose (x := tidy_run [[tA; tB]] [] [OCreate []; ODestroy (Ent 0 1); OCreate [(tA, 10)]]%N).
  pose (r := step (r_w x) (OCreate [(tA, 11); (tB, 12)]%N)).
  exists (r_evs x), (r_w x), (r_s x), r.1.1, r.2. split; [apply tidy_run_ok; by vm_compute|]. split_and!; by vm_compute.
Qed.
Print Assumptions C11_mixed_refuted.

(** Neither component is found under its handle; the handle of the destroyed entity
    finds one. *)
Theorem C15_mixed_refuted : ∃ evs w s, tidy_history evs w s ∧
  ∃ e t v, world_contains w e = true ∧ s_row s e !! t = Some v ∧ view_get w t e = Ok None ∧ view_contains w t e = Ok false.
Proof.
  exists (r_evs mixed), (r_w mixed), (r_s mixed). split; [apply mixed_ok|].
  exists (Ent 0 2), tA, 10%N. split_and!; by vm_compute.
Qed.
Print Assumptions C15_mixed_refuted.

Theorem C46_mixed_refuted : ∃ evs w s, tidy_history evs w s ∧
  ∃ e t v, e ∈ issued evs ∧ world_contains w e = false ∧ view_get w t e = Ok (Some v).
Proof.
  exists (r_evs mixed), (r_w mixed), (r_s mixed). split; [apply mixed_ok|].
  exists (Ent 0 1), tA, 10%N. split; [|split; by vm_compute].
  assert (issued (r_evs mixed) = [Ent 0 1; Ent 0 2; Ent 1 1]) as -> by (by vm_compute). by left.
Qed.
Print Assumptions C46_mixed_refuted.

(** The view lists an entity that it does not contain. *)
Theorem C16_mixed_refuted : ∃ evs w s, tidy_history evs w s ∧
  ∃ e t es, view_entities w t = Ok es ∧ e ∈ es ∧ view_contains w t e = Ok false.
Proof.
  exists (r_evs mixed), (r_w mixed), (r_s mixed). split; [apply mixed_ok|].
  exists (Ent 0 2), tA, [Ent 1 1; Ent 0 2]. split; [by vm_compute|]. split; [by right; left|by vm_compute].
Qed.
Print Assumptions C16_mixed_refuted.

Theorem C10_mixed_refuted : ∃ evs w s, tidy_history evs w s ∧
  ∃ t c i es k e, cs_borrow (w_comps w) t = Ok (c, i) ∧ view_entities w t = Ok es ∧ es !! k = Some e ∧
    sv_get (c_sparse c) e = None.
Proof.
  exists (r_evs mixed), (r_w mixed), (r_s mixed). split; [apply mixed_ok|].
  destruct (cs_borrow (w_comps (r_w mixed)) tA) as [[c i]| |] eqn:E; [|vm_compute in E; discriminate..].
  exists tA, c, i, [Ent 1 1; Ent 0 2], 1, (Ent 0 2). split; [done|]. split; [by vm_compute|]. split; [done|].
  assert (match cs_borrow (w_comps (r_w mixed)) tA with Ok (c, _) => sv_get (c_sparse c) (Ent 0 2) | _ => Some 0%N end = None) as H
    by (by vm_compute). by rewrite E in H.
Qed.
Print Assumptions C10_mixed_refuted.

(** Destroying an entity leaves its component behind: it is not dropped, and views
    and queries still show it. *)
Theorem C04_mixed_refuted : ∃ evs w s, tidy_history evs w s ∧
  ∃ e t v w' es, s_row s e !! t = Some v ∧ step w (ODestroy e) = (Ret (RBool true), [], w') ∧
    world_contains w' e = false ∧ view_entities w' t = Ok es ∧ e ∈ es ∧
    query_all w' [PRef t] [] [] = Ok [[IRef t 0 11%N]; [IRef t 1 v]].
Proof.
  exists (r_evs mixed), (r_w mixed), (r_s mixed). split; [apply mixed_ok|].
  pose (r := step (r_w mixed) (ODestroy (Ent 0 2))). exists (Ent 0 2), tA, 10%N, r.2, [Ent 1 1; Ent 0 2].
  split; [by vm_compute|]. split; [by vm_compute|]. split; [by vm_compute|]. split; [by vm_compute|].
  split; [by right; left|by vm_compute].
Qed.
Print Assumptions C04_mixed_refuted.

(** [insert] reports success and [get] does not find the value. *)
Theorem C12_mixed_refuted : ∃ evs w s, tidy_history evs w s ∧
  ∃ e t v w' ds, step w (OInsert e [(t, v)]) = (Ret (RBool true), ds, w') ∧ view_get w' t e = Ok None.
Proof.
  exists (r_evs mixed), (r_w mixed), (r_s mixed). split; [apply mixed_ok|].
  pose (r := step (r_w mixed) (OInsert (Ent 0 2) [(tA, 99%N)])). exists (Ent 0 2), tA, 99%N, r.2, [10%N]. split; by vm_compute.
Qed.
Print Assumptions C12_mixed_refuted.

(** [remove] does not return the component. *)
Theorem C13_mixed_refuted : ∃ evs w s, tidy_history evs w s ∧
  ∃ e t v w' es, s_row s e !! t = Some v ∧ step w (ORemove e [t]) = (Ret (ROpts [None]), [], w') ∧
    view_entities w' t = Ok es ∧ e ∈ es.
Proof.
  exists (r_evs mixed), (r_w mixed), (r_s mixed). split; [apply mixed_ok|].
  pose (r := step (r_w mixed) (ORemove (Ent 1 1) [tA])). exists (Ent 1 1), tA, 11%N, r.2, [Ent 1 1; Ent 0 2].
  split; [by vm_compute|]. split; [by vm_compute|]. split; [by vm_compute|by left].
Qed.
Print Assumptions C13_mixed_refuted.

(** Iteration shows an entity that the query for one entity denies. *)
Theorem C27_mixed_refuted : ∃ evs w s, tidy_history evs w s ∧
  ∃ e it, query_all w [PEntity; PRef tA; PRef tB] [] [] = Ok [IEnt e :: it] ∧ query_one w [PEntity; PRef tA; PRef tB] [] [] e = Ok None.
Proof.
  exists (r_evs mixed), (r_w mixed), (r_s mixed). split; [apply mixed_ok|].
  exists (Ent 1 1), [IRef tA 0 11%N; IRef tB 0 12%N]. split; by vm_compute.
Qed.
Print Assumptions C27_mixed_refuted.

(** The same calls on a world without the group give another answer. *)
Theorem C24_mixed_refuted : ∃ evs1 w1 s1 evs2 w2 s2, tidy_history evs1 w1 s1 ∧ tidy_history evs2 w2 s2 ∧ evs1 = evs2 ∧
  (∀ t, world_is_registered w1 t = world_is_registered w2 t) ∧ ∃ t e, view_get w1 t e ≠ view_get w2 t e.
Proof.
  pose (x := tidy_run [] [tA; tB] [OCreate []; ODestroy (Ent 0 1); OCreate [(tA, 10)]; OCreate [(tA, 11); (tB, 12)]]%N).
  exists (r_evs mixed), (r_w mixed), (r_s mixed), (r_evs x), (r_w x), (r_s x).
  split; [apply mixed_ok|]. split; [apply tidy_run_ok; by vm_compute|]. split; [by vm_compute|]. split.
  - assert (∀ (m : gmap tid meta) t, is_Some (m !! t) ↔ t ∈ (map_to_list m).*1) as Hk.
    { intros m t. rewrite elem_of_list_fmap. split.
      - intros [v Hv]. exists (t, v). by rewrite elem_of_map_to_list.
      - intros ([t' v] & -> & Hv). apply elem_of_map_to_list in Hv. by exists v. }
    assert ((map_to_list (cs_meta (w_comps (r_w mixed)))).*1 = (map_to_list (cs_meta (w_comps (r_w x)))).*1) as Hd
      by (by vm_compute).
    intros t. pose proof (Hk (cs_meta (w_comps (r_w mixed))) t) as H1. rewrite Hd, <- Hk in H1.
    unfold world_is_registered, is_registered. clear Hd. clearbody x.
    generalize dependent (cs_meta (w_comps (r_w x))). generalize (cs_meta (w_comps (r_w mixed))). intros m1 m2 He.
    destruct (m1 !! t) as [m|], (m2 !! t) as [m'|]; try done.
    + destruct (proj1 He) as [? H]; [by eexists|discriminate H].
    + destruct (proj2 He) as [? H]; [by eexists|discriminate H].
  - exists tA, (Ent 0 2). by vm_compute.
Qed.
Print Assumptions C24_mixed_refuted.

(** [maintain] in the situation excluded by tidiness makes an entity live that was
    neither live nor created by [create_atomic]. *)
Theorem C06_untidy_refuted : ∃ evs w s e w', any_history evs w s ∧ step w OMaintain = (Ret RUnit, [], w') ∧
  world_contains w e = false ∧ queued evs = [] ∧ world_contains w' e = true.
Proof.
  pose (x := any_run [] [] [OCreate []; ODestroy (Ent 0 1)]).
  exists (r_evs x), (r_w x), (r_s x), (Ent 0 1), (step (r_w x) OMaintain).2.
  split; [apply any_run_ok; by vm_compute|]. split_and!; by vm_compute.
Qed.
Print Assumptions C06_untidy_refuted.

(** A handle is listed at a position that its slot does not hold. *)
Theorem C10_untidy_refuted : ∃ evs w s i e, any_history evs w s ∧ world_entities w !! i = Some e ∧
  sv_get (es_sparse (st_set (w_ents w))) e = None.
Proof.
  pose (x := any_run [] [] [OCreate []; ODestroy (Ent 0 1); OCreate []; OMaintain]).
  exists (r_evs x), (r_w x), (r_s x), 0, (Ent 0 1). split; [apply any_run_ok; by vm_compute|]. split; by vm_compute.
Qed.
Print Assumptions C10_untidy_refuted.

(** The versions of an index go back. *)
Theorem C09_untidy_refuted : ∃ evs1 o1 out1 ds1 evs2 o2 out2 ds2 w s e1 e2,
  any_history (evs1 ++ (o1, out1, ds1) :: evs2 ++ [(o2, out2, ds2)]) w s ∧
  e1 ∈ reported out1 ∧ e2 ∈ reported out2 ∧ e_index e1 = e_index e2 ∧ e_version e1 = e_version e2 ∧
  existsb (λ ev, match ev.1.1 with OReset => true | _ => false end) evs2 = false.
Proof.
  pose (x := any_run [] [] [OCreate []; ODestroy (Ent 0 1); OMaintain; ODestroy (Ent 0 1); OCreate []; OCreate []]).
  exists (take 4 (r_evs x)), (OCreate []), (Ret (REnt (Ent 0 2))), [], [], (OCreate []), (Ret (REnt (Ent 0 2))), [],
    (r_w x), (r_s x), (Ent 0 2), (Ent 0 2).
  split; [|split_and!; try done; by left].
  assert (take 4 (r_evs x) ++ (OCreate [], Ret (REnt (Ent 0 2)), []) :: [] ++ [(OCreate [], Ret (REnt (Ent 0 2)), [])] = r_evs x) as ->
    by (by vm_compute).
  apply any_run_ok. by vm_compute.
Qed.
Print Assumptions C09_untidy_refuted.
