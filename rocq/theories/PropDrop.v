(** C37: components whose [Drop] panics. The panic is caught and the world is used
    further. [bomb v] says that dropping [v] panics. *)
From Verif Require Import Base SparseVecM EntityM CssM MaskM LayoutM GroupM StorageM WorldM QueryM StepM DropPanicM
  Spec SpecMore SpecRepair SpecDrop Demo Demo2 DropPanicProofs DropExact DropDelete DropWorld DropClear.

(** A call that drops no such component does what it does in the other theorems. *)
Theorem C37_no_panic : ∀ bomb w,
  (∀ e cs, defined (world_insert w e cs) → existsb bomb (world_insert w e cs).1.2 = false →
     world_insert_p bomb w e cs = world_insert w e cs) ∧
  (∀ e ts, defined (set_delete w e ts) → existsb bomb (set_delete w e ts).1.2 = false →
     world_delete_p bomb w e ts = set_delete w e ts) ∧
  (∀ e, defined (world_destroy w e) → existsb bomb (world_destroy w e).1.2 = false →
     world_destroy_p bomb w e = world_destroy w e) ∧
  (defined (world_clear w) → existsb bomb (world_clear w).1.2 = false →
     world_clear_p bomb w = world_clear w) ∧
  (defined (world_reset w) → existsb bomb (world_reset w).1.2 = false →
     world_reset_p bomb w = world_reset w) ∧
  (∀ cs, defined (world_create w cs) → existsb bomb (world_create w cs).1.2 = false →
     world_create_p bomb w cs = world_create w cs) ∧
  (∀ ts rows b, defined (set_extend w ts rows b) → existsb bomb (set_extend w ts rows b).1.2 = false →
     set_extend_p bomb w ts rows b = set_extend w ts rows b).
Proof. exact no_bomb. Qed.
Print Assumptions C37_no_panic.

(** An [insert] whose replaced component panics: the world is that of a sound history in
    which the first [k] components were inserted; every value handed in or stored before
    is dropped once or still stored. *)
Theorem C37_insert : ∀ w s bomb e cs es dr w', reachable w s → s_alive s e →
  world_insert_p bomb w e cs = (Panicked es, dr, w') →
  ∃ k, let s' := with_loose (with_map s (<[e := put (s_reg s) (take k cs) (s_row s e)]> (s_map s))) ({[e]} ∪ s_loose s) in
    same_versions s' → reachable w' s' ∧ cs.*2 ++ contents s ≡ₚ dr ++ contents s'.
Proof. exact insert_bomb_reach. Qed.
Print Assumptions C37_insert.

(** Which components these are: [insert] stops at the first one that replaces a component
    that panics, or whose type is not registered; otherwise it is the [insert] of the
    other theorems. *)
Theorem C37_insert_exactly : ∀ w s bomb e cs out dr w', reachable w s → s_alive s e →
  world_insert_p bomb w e cs = (out, dr, w') →
  let '(p, r, ds) := put_drop bomb (s_reg s) cs (s_row s e) in
  if p : bool then
    out = Panicked [] ∧ dr = ds ∧
    let s' := loosen (with_map s (<[e := r]> (s_map s))) true [e] in
    same_versions s' → reachable w' s' ∧ cs.*2 ++ contents s ≡ₚ dr ++ contents s'
  else step w (OInsert e cs) = (out, dr, w') ∧ (ub_free out → dr = ds).
Proof. exact insert_exactly. Qed.
Print Assumptions C37_insert_exactly.

(** [create] replaces a component if its tuple has a type twice. The new entity stays in
    the world, with the components inserted before the panic. *)
Theorem C37_create_exactly : ∀ w s bomb cs out dr w', reachable w s → world_create_p bomb w cs = (out, dr, w') →
  let '(p, r, ds) := put_drop bomb (s_reg s) cs ∅ in
  if p : bool then
    (out = Panicked [] ∧ exhausted s ∧ step w (OCreate cs) = (out, dr, w')) ∨
    ∃ e, new_handle s e ∧ out = Panicked [e] ∧ dr = ds ∧
      let s' := cut_short s [e] [r] in
      same_versions s' → reachable w' s' ∧ cs.*2 ++ contents s ≡ₚ dr ++ contents s'
  else step w (OCreate cs) = (out, dr, w').
Proof. exact create_exactly. Qed.
Print Assumptions C37_create_exactly.

(** The same for [extend]: the rows up to the one that panics are in the world, unless
    the indices ran out before it. *)
Theorem C37_extend_exactly : ∀ w s bomb ts rows b out dr w', reachable w s → op_ok (OExtend ts rows b) →
  set_extend_p bomb w ts rows b = (out, dr, w') →
  let '(p, rs, ds) := rows_drop bomb (s_reg s) ts rows in
  step w (OExtend ts rows b) = (out, dr, w') ∧
    (all_reg s ts → p = true → length (reported out) < length rs) ∨
  all_reg s ts ∧ p = true ∧ ∃ es, out = Panicked es ∧ length es = length rs ∧ dr = ds ∧
    let s' := cut_short s es rs in
    same_versions s' → reachable w' s' ∧ concat rows ++ contents s ≡ₚ dr ++ contents s'.
Proof. exact extend_exactly. Qed.
Print Assumptions C37_extend_exactly.

(** Dropping the world: no value is dropped twice, and all are dropped if none panics. *)
Theorem C37_drop_world : ∀ w s bomb, reachable w s →
  ∃ p vs rest, drop_all_p bomb (cs_comps (w_comps w)) = Ok (p, vs) ∧ contents s ≡ₚ vs ++ rest ∧
    (p = true ↔ ∃ e t v, s_row s e !! t = Some v ∧ bomb v = true) ∧ (p = false → rest = []).
Proof. exact drop_world_bomb. Qed.
Print Assumptions C37_drop_world.

(** Exactly: of each type, in the order of its view, the components up to the first that
    panics. The others of that type are leaked; no other type is affected. *)
Theorem C37_drop_world_exactly : ∀ w s bomb f, reachable w s → (∀ t, t ∈ s_reg s → view_slice w t = Ok (f t)) →
  ∃ p vs, drop_all_p bomb (cs_comps (w_comps w)) = Ok (p, vs) ∧
    (p = true ↔ ∃ e t v, s_row s e !! t = Some v ∧ bomb v = true) ∧
    vs ≡ₚ concat ((λ t, until_bomb bomb (f t)) <$> elements (s_reg s)).
Proof. exact drop_world_exactly. Qed.
Print Assumptions C37_drop_world_exactly.

(** Missing: it is false in general (below). Deleting a component that panics leaves the
    world of a [delete] that does not panic, or some other entity reads a dropped value. *)
Theorem C37_delete_partial : ∀ w s bomb t e v, reachable w s → s_row s e !! t = Some v → bomb v = true →
  ∃ w', world_delete_p bomb w e [t] = (Panicked [], [v], w') ∧
    (step w (ODelete e [t]) = (Ret RUnit, [v], w') ∨
     ∃ e' v', e' ≠ e ∧ s_row s e' !! t = Some v' ∧ view_get w' t e' = UB).
Proof. exact delete_bomb. Qed.
Print Assumptions C37_delete_partial.

(** For components in no group: the claim holds if and only if the entity is the last of
    its storage. *)
Theorem C37_delete_ungrouped_refuted : ∀ w s bomb t e v ents e', reachable w s → s_row s e !! t = Some v → bomb v = true →
  t ∉ s_grouped s → view_entities w t = Ok ents → last ents = Some e' →
  ∃ w', world_delete_p bomb w e [t] = (Panicked [], [v], w') ∧
    if decide (e' = e) then step w (ODelete e [t]) = (Ret RUnit, [v], w')
    else s_alive s e' ∧ view_get w' t e' = UB.
Proof. exact delete_bomb_ungrouped. Qed.
Print Assumptions C37_delete_ungrouped_refuted.

(** [delete] of any components, in groups or not: the types are deleted in turn up to the
    first component that panics. Every value is then accounted for once, and the world
    goes on as specified, or another entity with that type reads a dropped value, all
    other reads are right, and dropping the world is undefined behaviour. *)
Theorem C37_delete_exactly : ∀ w s bomb e ts out dr w', reachable w s → s_alive s e → all_reg s ts →
  world_delete_p bomb w e ts = (out, dr, w') →
  let '(p, r, ds) := drops bomb ts (s_row s e) in
  let s' := with_map s (<[e := r]> (s_map s)) in
  dr = ds ∧ contents s ≡ₚ dr ++ contents s' ∧
  match p with
  | None => step w (ODelete e ts) = (out, dr, w')
  | Some t => out = Panicked [] ∧
      (lives_on w' (loosen s' true [e]) ∨ ∃ x, x ≠ e ∧ is_Some (s_row s x !! t) ∧ wrecked w' s' t x)
  end.
Proof. exact delete_exactly. Qed.
Print Assumptions C37_delete_exactly.

(** The same for [destroy], which deletes all types in some order. The handle is dead in
    any case; the components not deleted stay in the storages under the dead handle. If
    there are none and no value is lost, the world goes on as specified. *)
Theorem C37_destroy_exactly : ∀ w s bomb e out dr w', reachable w s → s_alive s e →
  world_destroy_p bomb w e = (out, dr, w') →
  ∃ ts, (∀ t, t ∈ ts ↔ t ∈ s_reg s) ∧
  let '(p, r, ds) := drops bomb ts (s_row s e) in
  let s' := with_map s (<[e := r]> (s_map s)) in
  dr = ds ∧ contents s ≡ₚ dr ++ contents s' ∧
  match p with
  | None => step w (ODestroy e) = (out, dr, w')
  | Some t => out = Panicked [] ∧ (∀ e', world_contains w' e' = bool_decide (e' ≠ e ∧ s_alive s e')) ∧
      ((∀ t' e', t' ∈ s_reg s → view_get w' t' e' = Ok (s_row s' e' !! t')) ∧
         (r = ∅ → lives_on w' (client_step s (ODestroy e) out)) ∨
       ∃ x, x ≠ e ∧ is_Some (s_row s x !! t) ∧ wrecked w' s' t x)
  end.
Proof. exact destroy_exactly. Qed.
Print Assumptions C37_destroy_exactly.

(** [clear] panics if some stored component does, and then dropping the world is always
    undefined behaviour: it drops a component again. *)
Theorem C37_clear_refuted : ∀ w s bomb, reachable w s → (∃ e t v, s_row s e !! t = Some v ∧ bomb v = true) →
  ∃ vs rest w', world_clear_p bomb w = (Panicked [], vs, w') ∧ contents s ≡ₚ vs ++ rest ∧
    world_entities w' = [] ∧ drop_all_p bomb (cs_comps (w_comps w')) = UB.
Proof. exact clear_bomb. Qed.
Print Assumptions C37_clear_refuted.

Theorem C37_reset_refuted : ∀ w s bomb, reachable w s → (∃ e t v, s_row s e !! t = Some v ∧ bomb v = true) →
  ∃ vs rest w', world_reset_p bomb w = (Panicked [], vs, w') ∧ contents s ≡ₚ vs ++ rest ∧
    world_entities w' = [] ∧ drop_all_p bomb (cs_comps (w_comps w')) = UB.
Proof. exact reset_bomb. Qed.
Print Assumptions C37_reset_refuted.

(** Exactly: the types are cleared in some order, up to the first component that panics.
    The types before it are empty; its own type lists its entities and is unreadable; the
    types after it are untouched, and their components belong to dead handles. *)
Theorem C37_clear_exactly : ∀ w s bomb f out dr w',
  reachable w s → (∀ t, t ∈ s_reg s → view_slice w t = Ok (f t)) →
  world_clear_p bomb w = (out, dr, w') →
  (∀ t, t ∈ s_reg s → existsb bomb (f t) = false) ∧ step w OClear = (out, dr, w') ∨
  out = Panicked [] ∧ ∃ t B A, s_reg s = {[t]} ∪ B ∪ A ∧ t ∉ B ∪ A ∧ B ## A ∧
    existsb bomb (f t) = true ∧ (∀ t', t' ∈ B → existsb bomb (f t') = false) ∧
    dr ≡ₚ concat (f <$> elements B) ++ until_bomb bomb (f t) ∧ half_cleared w w' t B A.
Proof. exact clear_exactly. Qed.
Print Assumptions C37_clear_exactly.

Theorem C37_reset_exactly : ∀ w s bomb f out dr w',
  reachable w s → (∀ t, t ∈ s_reg s → view_slice w t = Ok (f t)) →
  world_reset_p bomb w = (out, dr, w') →
  (∀ t, t ∈ s_reg s → existsb bomb (f t) = false) ∧ step w OReset = (out, dr, w') ∨
  out = Panicked [] ∧ ∃ t B A, s_reg s = {[t]} ∪ B ∪ A ∧ t ∉ B ∪ A ∧ B ## A ∧
    existsb bomb (f t) = true ∧ (∀ t', t' ∈ B → existsb bomb (f t') = false) ∧
    dr ≡ₚ concat (f <$> elements B) ++ until_bomb bomb (f t) ∧ half_cleared w w' t B A.
Proof. exact reset_exactly. Qed.
Print Assumptions C37_reset_exactly.

(** Three entities with a component; the second panics. *)
Definition bomb_run := good_run [[tA; tB]] [tC; tD]
  [OCreate [(tC, 1); (tA, 10); (tB, 20)]; OCreate [(tC, 2); (tD, 30)]; OCreate [(tC, 3); (tA, 11)]]%N.
Definition bomb2 (v : val) : bool := (v =? 2)%N.

(** Each of the calls panics, and afterwards the third entity reads the dropped value;
    after [destroy] a component of the destroyed entity is still stored. *)
Theorem C37_refuted : ∃ w s e e', reachable w s ∧ view_get w tC e' = Ok (Some 3%N) ∧
  (let r := world_delete_p bomb2 w e [tC] in r.1 = (Panicked [], [2%N]) ∧ view_get r.2 tC e' = UB) ∧
  (let r := world_destroy_p bomb2 w e in r.1 = (Panicked [], [2%N]) ∧ view_get r.2 tC e' = UB ∧
     world_contains r.2 e = false ∧ view_get r.2 tD e = Ok (Some 30%N)) ∧
  (let r := world_clear_p bomb2 w in r.1.1 = Panicked [] ∧ drop_all_p bomb2 (cs_comps (w_comps r.2)) = UB).
Proof.
  exists (r_w bomb_run), (r_s bomb_run), (Ent 1 1), (Ent 2 1).
  split; [apply good_run_reachable; by vm_compute|]. cbv zeta. split_and!; by vm_compute.
Qed.
Print Assumptions C37_refuted.

(** The hypotheses hold: replacing the second component panics, and the world is intact. *)
Example C37_nonvacuous :
  let w := r_w bomb_run in let s := r_s bomb_run in
  reachable w s ∧ s_alive s (Ent 1 1) ∧
  (let r := world_insert_p bomb2 w (Ent 1 1) [(tA, 50); (tC, 51); (tB, 52)]%N in
   r.1 = (Panicked [], [2; 52]%N) ∧ view_get r.2 tA (Ent 1 1) = Ok (Some 50%N) ∧
   view_get r.2 tC (Ent 1 1) = Ok (Some 51%N) ∧ view_get r.2 tB (Ent 1 1) = Ok None ∧
   same_versions (client_step s (OInsert (Ent 1 1) [(tA, 50); (tC, 51)]%N) (Panicked []))) ∧
  s_row s (Ent 1 1) !! tC = Some 2%N ∧ bomb2 2%N = true ∧ tC ∉ s_grouped s ∧
  view_entities w tC = Ok [Ent 0 1; Ent 1 1; Ent 2 1] ∧
  drop_all_p bomb2 (cs_comps (w_comps w)) = Ok (true, [10; 11; 20; 1; 2; 30]%N) ∧
  s_reg s = {[tA; tB; tC; tD]} ∧ view_slice w tA = Ok [10; 11]%N ∧ view_slice w tB = Ok [20]%N ∧
  view_slice w tC = Ok [1; 2; 3]%N ∧ view_slice w tD = Ok [30]%N ∧ until_bomb bomb2 [1; 2; 3]%N = [1; 2]%N.
Proof.
  cbv zeta. split; [apply good_run_reachable; by vm_compute|].
  split; [apply (bool_decide_unpack _); by vm_compute|].
  split.
  - split; [by vm_compute|]. split; [by vm_compute|]. split; [by vm_compute|]. split; [by vm_compute|].
    eapply proj2, (good_sideb_ok _ (OInsert _ _)). by vm_compute.
  - split; [by vm_compute|]. split; [done|]. split; [apply (bool_decide_unpack _); by vm_compute|]. split; [by vm_compute|].
    split; [by vm_compute|]. split; [apply (bool_decide_unpack _); by vm_compute|]. split_and!; by vm_compute.
Qed.

(** A tuple with a type twice: the first of the two panics. The second row of [extend]
    and the tuple of [create] are cut short. *)
Example C37_exactly_nonvacuous :
  let w := r_w bomb_run in let s := r_s bomb_run in
  let rows := [[5; 6; 7]; [2; 8; 9]; [10; 11; 12]]%N in
  let ext := set_extend_p bomb2 w [tC; tC; tA] rows false in
  let cre := world_create_p bomb2 w [(tD, 40); (tC, 2); (tC, 41); (tA, 42)]%N in
  reachable w s ∧ op_ok (OExtend [tC; tC; tA] rows false) ∧
  ext.1 = (Panicked [Ent 3 1; Ent 4 1], [5; 2; 9; 10; 11; 12]%N) ∧
  view_get ext.2 tC (Ent 3 1) = Ok (Some 6%N) ∧ view_get ext.2 tA (Ent 3 1) = Ok (Some 7%N) ∧
  view_get ext.2 tC (Ent 4 1) = Ok (Some 8%N) ∧ view_get ext.2 tA (Ent 4 1) = Ok None ∧
  same_versions (cut_short s [Ent 3 1; Ent 4 1] [{[tC := 6; tA := 7]}; {[tC := 8]}]%N) ∧
  cre.1 = (Panicked [Ent 3 1], [2; 42]%N) ∧
  view_get cre.2 tC (Ent 3 1) = Ok (Some 41%N) ∧ view_get cre.2 tA (Ent 3 1) = Ok None ∧
  (world_reset_p bomb2 w).1.1 = Panicked [].
Proof.
  cbv zeta. split; [apply good_run_reachable; by vm_compute|]. split; [apply op_okb_ok; by vm_compute|].
  split; [by vm_compute|]. split; [by vm_compute|]. split; [by vm_compute|]. split; [by vm_compute|].
  split; [by vm_compute|].
  split; [apply same_versionsb_ok; by vm_compute|].
  split_and!; by vm_compute.
Qed.

(** Both ends of the last two theorems. The component of the second entity: a hole, with
    another component deleted before. That of the third entity, the last of its storage:
    none, and [destroy] leaves nothing behind. *)
Example C37_delete_nonvacuous :
  let w := r_w bomb_run in let s := r_s bomb_run in let bomb3 := (λ v, v =? 3)%N in
  let del := world_delete_p bomb2 w (Ent 1 1) [tD; tC; tA] in
  let des := world_destroy_p bomb3 w (Ent 2 1) in
  reachable w s ∧ s_alive s (Ent 1 1) ∧ s_alive s (Ent 2 1) ∧ all_reg s [tD; tC; tA] ∧
  del.1 = (Panicked [], [30; 2]%N) ∧ view_get del.2 tC (Ent 2 1) = UB ∧
  view_get del.2 tC (Ent 0 1) = Ok (Some 1%N) ∧ world_drop del.2 = UB ∧
  des.1 = (Panicked [], [11; 3]%N) ∧ world_contains des.2 (Ent 2 1) = false ∧
  view_get des.2 tC (Ent 0 1) = Ok (Some 1%N) ∧ world_drop des.2 = Ok [10; 20; 1; 2; 30]%N.
Proof.
  cbv zeta. split; [apply good_run_reachable; by vm_compute|].
  split; [apply (bool_decide_unpack _); by vm_compute|]. split; [apply (bool_decide_unpack _); by vm_compute|].
  split; [apply (bool_decide_unpack _); by vm_compute|]. split_and!; by vm_compute.
Qed.

(** A panicking [clear]: the groups' types before, [tC] where it panics, [tD] after. *)
Example C37_clear_nonvacuous :
  let w := r_w bomb_run in let s := r_s bomb_run in let r := world_clear_p bomb2 w in
  let f t := match view_slice w t with Ok l => l | _ => [] end in
  reachable w s ∧ (∀ t, t ∈ s_reg s → view_slice w t = Ok (f t)) ∧
  r.1 = (Panicked [], [10; 11; 20; 1; 2]%N) ∧ view_entities r.2 tC = Ok [Ent 0 1; Ent 1 1; Ent 2 1] ∧
  view_get r.2 tD (Ent 1 1) = Ok (Some 30%N) ∧ world_contains r.2 (Ent 1 1) = false ∧
  (world_reset_p bomb2 w).1 = (Panicked [], [10; 11; 20; 1; 2]%N) ∧
  (let r' := step (world_reset_p bomb2 w).2 (OCreate []) in
   r'.1.1 = Ret (REnt (Ent 0 1)) ∧ (step r'.2 (OCreate [])).1.1 = Ret (REnt (Ent 1 1)) ∧
   view_get (step r'.2 (OCreate [])).2 tD (Ent 1 1) = Ok (Some 30%N)).
Proof.
  cbv zeta. split; [apply good_run_reachable; by vm_compute|]. split.
  { assert (s_reg (r_s bomb_run) = {[tA; tB; tC; tD]}) as -> by (apply (bool_decide_unpack _); by vm_compute).
    intros t. rewrite !elem_of_union, !elem_of_singleton. intros [[[-> | ->] | ->] | ->]; by vm_compute. }
  split_and!; by vm_compute.
Qed.
