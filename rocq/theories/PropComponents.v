(** C11-C21 and C46: components, views, registration, drops. *)
From Verif Require Import Base LayoutM WorldM QueryM ParM StepM Spec SpecMore SpecSafety Demo BlindDemo
  History EntityHistory Lockstep Facts ReadFacts EveryFacts BorrowHist.

(** ** C11 *)

(** [create] with registered types. It may only fail for lack of handles (then
    nothing happens but dropping the tuple). *)
Theorem C11_create : ∀ w s cs out ds w',
  reachable w s → step w (OCreate cs) = (out, ds, w') → good_side s (OCreate cs) out →
  (∀ t, t ∈ cs.*1 → world_is_registered w t = true) →
  (out = Panicked [] ∧ exhausted s ∧ w' = w ∧ ds = cs.*2) ∨
  ∃ e, out = Ret (REnt e) ∧ world_contains w e = false ∧ world_contains w' e = true ∧
    has_comps w' e (tuple_row cs) ∧
    (∀ t, world_is_registered w' t = world_is_registered w t) ∧
    (∀ e', e' ≠ e → unchanged w w' e') ∧
    cs.*2 ≡ₚ ds ++ values (tuple_row cs) ∧
    reachable w' (client_step s (OCreate cs) out).
Proof. exact create_effect. Qed.
Print Assumptions C11_create.

Example C11_nonvacuous :
  let cs := [(tA, 40); (tC, 41); (tB, 42); (tA, 43)]%N in
  let r := step (r_w demo) (OCreate cs) in
  reachable (r_w demo) (r_s demo) ∧ good_side (r_s demo) (OCreate cs) r.1.1 ∧
  r.1 = (Ret (REnt (Ent 6 1)), [40%N]) ∧
  view_get r.2 tA (Ent 6 1) = Ok (Some 43%N) ∧ view_get r.2 tB (Ent 6 1) = Ok (Some 42%N) ∧
  view_get r.2 tC (Ent 6 1) = Ok (Some 41%N) ∧ view_get r.2 tA (Ent 0 1) = Ok (Some 10%N).
Proof. split; [apply demo_reachable|]. split; [apply good_sideb_ok; by vm_compute|]. split_and!; by vm_compute. Qed.

(** ** C12 *)

Theorem C12_insert : ∀ w s e cs out ds w',
  reachable w s → step w (OInsert e cs) = (out, ds, w') → good_side s (OInsert e cs) out →
  (∀ t, t ∈ cs.*1 → world_is_registered w t = true) → world_contains w e = true →
  out = Ret (RBool true) ∧
  (∀ e', world_contains w' e' = world_contains w e') ∧
  (∀ t, world_is_registered w' t = world_is_registered w t) ∧
  (∀ t, view_get w' t e = match tuple_row cs !! t with Some v => Ok (Some v) | None => view_get w t e end) ∧
  (∀ e', e' ≠ e → unchanged w w' e') ∧
  cs.*2 ++ values (s_row s e) ≡ₚ ds ++ values (tuple_row cs ∪ s_row s e) ∧
  reachable w' (client_step s (OInsert e cs) out).
Proof. exact insert_effect. Qed.
Print Assumptions C12_insert.

Theorem C12_insert_dead : ∀ w s e cs out ds w',
  reachable w s → step w (OInsert e cs) = (out, ds, w') → world_contains w e = false →
  out = Ret (RBool false) ∧ w' = w ∧ ds = cs.*2.
Proof. exact insert_dead. Qed.
Print Assumptions C12_insert_dead.

Example C12_nonvacuous :
  let cs := [(tB, 50); (tA, 51); (tB, 52)]%N in
  let r := step (r_w demo) (OInsert (Ent 0 1) cs) in
  reachable (r_w demo) (r_s demo) ∧ good_side (r_s demo) (OInsert (Ent 0 1) cs) r.1.1 ∧
  r.1 = (Ret (RBool true), [10; 50]%N) ∧
  view_get r.2 tA (Ent 0 1) = Ok (Some 51%N) ∧ view_get r.2 tB (Ent 0 1) = Ok (Some 52%N) ∧
  (step (r_w demo) (OInsert (Ent 1 1) cs)).1 = (Ret (RBool false), [50; 51; 52]%N).
Proof. split; [apply demo_reachable|]. split; [apply good_sideb_ok; by vm_compute|]. split_and!; by vm_compute. Qed.

(** ** C13 *)

Theorem C13_remove : ∀ w s e ts out ds w',
  reachable w s → step w (ORemove e ts) = (out, ds, w') →
  (∀ t, t ∈ ts → world_is_registered w t = true) →
  ds = [] ∧
  (∃ vs, out = Ret (ROpts vs) ∧ length vs = length ts ∧
     ∀ i t, ts !! i = Some t → ∃ v, vs !! i = Some v ∧
       if decide (t ∈ take i ts) then v = None else view_get w t e = Ok v) ∧
  (∀ e', world_contains w' e' = world_contains w e') ∧
  (∀ t, world_is_registered w' t = world_is_registered w t) ∧
  (∀ t, view_get w' t e = if decide (t ∈ ts) then Ok None else view_get w t e) ∧
  (∀ e', e' ≠ e → unchanged w w' e') ∧
  reachable w' (client_step s (ORemove e ts) out).
Proof. exact remove_effect. Qed.
Print Assumptions C13_remove.

Theorem C13_remove_dead : ∀ w s e ts out ds w',
  reachable w s → step w (ORemove e ts) = (out, ds, w') → world_contains w e = false →
  (∀ t, t ∈ ts → world_is_registered w t = true) →
  out = Ret (ROpts (replicate (length ts) None)) ∧ ∀ e', unchanged w w' e'.
Proof. exact remove_dead. Qed.
Print Assumptions C13_remove_dead.

Example C13_nonvacuous :
  let r := step (r_w demo) (ORemove (Ent 3 1) [tB; tC; tB]) in
  reachable (r_w demo) (r_s demo) ∧ r.1 = (Ret (ROpts [Some 21%N; None; None]), []) ∧
  view_get r.2 tA (Ent 3 1) = Ok (Some 16%N) ∧ view_get r.2 tB (Ent 3 1) = Ok None ∧
  (step (r_w demo) (ORemove (Ent 3 2) [tA; tB])).1 = (Ret (ROpts [None; None]), []).
Proof. split; [apply demo_reachable|]. split_and!; by vm_compute. Qed.

(** ** C14 *)

(** In every world whatsoever: [delete] fails like [remove], or drops what [remove]
    returns and leaves the same world. *)
Theorem C14_delete : ∀ w e ts,
  match step w (ORemove e ts) with
  | (Ret (ROpts vs), _, w') => step w (ODelete e ts) = (Ret RUnit, omap id vs, w')
  | (out, ds, w') => step w (ODelete e ts) = (out, ds, w')
  end.
Proof. exact delete_is_remove. Qed.
Print Assumptions C14_delete.

Example C14_nonvacuous :
  (step (r_w demo) (ORemove (Ent 3 1) [tB; tC; tA])).1 = (Ret (ROpts [Some 21%N; None; Some 16%N]), []) ∧
  (step (r_w demo) (ODelete (Ent 3 1) [tB; tC; tA])).1 = (Ret RUnit, [21; 16]%N).
Proof. split; by vm_compute. Qed.

(** ** C15 *)

(** Lookups return what the client's map holds. The map is [s_map s]: [client_step]
    (Spec.v) says how each call changes it. *)
Theorem C15_lookup : ∀ w s, reachable w s →
  (∀ e, world_contains w e = bool_decide (is_Some (s_map s !! e))) ∧
  (∀ e t, view_get w t e = if decide (t ∈ s_reg s) then Ok (s_row s e !! t) else Panic) ∧
  (∀ e t, view_contains w t e =
     if decide (t ∈ s_reg s) then Ok (bool_decide (is_Some (s_row s e !! t))) else Panic) ∧
  (∀ e t, shown (query_one w [PRef t] [] [] e) =
     if decide (t ∈ s_reg s) then Ok (option_map (λ v, [AVal t v]) (s_row s e !! t)) else Panic) ∧
  (∀ e t, query_one_contains w [PRef t] [] [] e =
     if decide (t ∈ s_reg s) then Ok (bool_decide (is_Some (s_row s e !! t))) else Panic).
Proof. exact reach_lookups. Qed.
Print Assumptions C15_lookup.

Example C15_nonvacuous :
  reachable (r_w demo) (r_s demo) ∧ s_row (r_s demo) (Ent 3 1) !! tA = Some 16%N ∧
  view_get (r_w demo) tA (Ent 3 1) = Ok (Some 16%N) ∧ view_get (r_w demo) tE (Ent 3 1) = Panic ∧
  query_one (r_w demo) [PRef tB] [] [] (Ent 2 1) = Ok (Some [IRef tB 0 23%N]).
Proof. split; [apply demo_reachable|]. split_and!; by vm_compute. Qed.

(** ** C16 *)

Theorem C16_views_aligned : ∀ w s t, reachable w s → world_is_registered w t = true →
  ∃ es vs, view_entities w t = Ok es ∧ view_slice w t = Ok vs ∧ view_len w t = Ok (length es) ∧
    length vs = length es ∧ NoDup es ∧
    (∀ i e v, es !! i = Some e → vs !! i = Some v → view_get w t e = Ok (Some v)) ∧
    (∀ e, e ∉ es → view_get w t e = Ok None) ∧
    (∀ e, view_contains w t e = Ok (bool_decide (e ∈ es))) ∧
    (∀ e, e ∈ es → world_contains w e = true).
Proof. exact reach_aligned. Qed.
Print Assumptions C16_views_aligned.

Example C16_nonvacuous :
  reachable (r_w demo) (r_s demo) ∧ world_is_registered (r_w demo) tA = true ∧
  view_entities (r_w demo) tA = Ok [Ent 2 1; Ent 3 1; Ent 4 1; Ent 0 1] ∧
  view_slice (r_w demo) tA = Ok [15; 16; 13; 10]%N.
Proof. split; [apply demo_reachable|]. split_and!; by vm_compute. Qed.

(** What is left of it after any history without invalid accesses: the three arrays
    have the same length, each index occurs once, and what [contains] and [get] find
    is in the table, for an entity with the index of the handle (C16_mixed_refuted:
    the version may differ). *)
Theorem C16_views_every : ∀ evs w s t, ub_free_history evs w s → world_is_registered w t = true →
  ∃ es vs, view_entities w t = Ok es ∧ view_slice w t = Ok vs ∧ view_len w t = Ok (length es) ∧
    length vs = length es ∧ NoDup (e_index <$> es) ∧
    ∀ e, ∃ b r, view_contains w t e = Ok b ∧ view_get w t e = Ok r ∧ b = bool_decide (is_Some r) ∧
      ∀ v, r = Some v → ∃ i e', es !! i = Some e' ∧ vs !! i = Some v ∧ e_index e' = e_index e.
Proof. exact every_view. Qed.
Print Assumptions C16_views_every.

Example C16_rough :
  let w := r_w rough in
  ub_free_history (r_evs rough) w (r_s rough) ∧ world_is_registered w tB = true ∧
  view_entities w tB = Ok [Ent 1 1; Ent 0 2] ∧ view_slice w tB = Ok [19; 18]%N ∧ view_get w tB (Ent 1 1) = Ok (Some 19%N).
Proof. cbn zeta. split; [apply ub_free_run_ok; by vm_compute|]. split_and!; by vm_compute. Qed.

(** ** C17 *)

Theorem C17_register : ∀ w s t out ds w',
  reachable w s → step w (ORegister t) = (out, ds, w') →
  out = Ret (RBool (negb (world_is_registered w t))) ∧ ds = [] ∧
  (∀ t', world_is_registered w' t' = bool_decide (t' = t) || world_is_registered w t') ∧
  (∀ e, kept w w' e) ∧
  (world_is_registered w t = false → ∀ e, view_get w' t e = Ok None) ∧
  reachable w' (client_step s (ORegister t) out).
Proof. exact register_effect. Qed.
Print Assumptions C17_register.

(** [register] after any history without invalid accesses. *)
Theorem C17_register_every : ∀ evs w s t, ub_free_history evs w s → ∀ out ds w', step w (ORegister t) = (out, ds, w') →
  out = Ret (RBool (negb (world_is_registered w t))) ∧ ds = [] ∧
  (∀ t', world_is_registered w' t' = bool_decide (t' = t) || world_is_registered w t') ∧
  (∀ e, kept w w' e) ∧ world_entities w' = world_entities w ∧
  (world_is_registered w t = false → ∀ e, view_get w' t e = Ok None).
Proof. exact every_register. Qed.
Print Assumptions C17_register_every.

(** The registered types are those of the builder, of the layouts set and those
    registered by [register]; in particular none is ever lost. Only a [set_layout]
    that panicked (C38) and invalid accesses (C33) are excluded. *)
Theorem C17_registered_types : ∀ gs l ts w0 evs w s t,
  add_groups [] gs = Some l → builder_build l ts = Some w0 →
  history (λ _ o out, match o with OSetLayout _ _ => panicked out = false | _ => True end) w0 (s_init l ts) evs w s →
  (∀ o out ds, (o, out, ds) ∈ evs → ub_free out) →
  world_is_registered w t = true ↔
  t ∈ layout_tids l ∨ t ∈ ts ∨ ∃ o out ds, (o, out, ds) ∈ evs ∧ registers o t.
Proof. exact every_registered. Qed.
Print Assumptions C17_registered_types.

Example C17_nonvacuous :
  let w := r_w demo in
  reachable w (r_s demo) ∧ (step w (ORegister tE)).1 = (Ret (RBool true), []) ∧
  (step w (ORegister tC)).1 = (Ret (RBool false), []) ∧
  map (world_is_registered w) [tA; tB; tC; tD] = [true; true; true; false].
Proof. split; [apply demo_reachable|]. split_and!; by vm_compute. Qed.

(** ** C18 *)

(** In any world, reached or not. *)
Theorem C18_unregistered_calls : ∀ w ts, (∃ t, t ∈ ts ∧ world_is_registered w t = false) →
  (∀ e, step w (ORemove e ts) = (Panicked [], [], w)) ∧
  (∀ e, step w (ODelete e ts) = (Panicked [], [], w)) ∧
  (∀ rows b, step w (OExtend ts rows b) = (Panicked [], concat rows, w)).
Proof. exact any_unregistered_calls. Qed.
Print Assumptions C18_unregistered_calls.

Theorem C18_unregistered_view : ∀ w t, world_is_registered w t = false →
  view_len w t = Panic ∧ view_entities w t = Panic ∧ view_slice w t = Panic ∧
  (∀ e, view_get w t e = Panic ∧ view_contains w t e = Panic) ∧
  (∀ e v, step w (OSet t e v) = (Panicked [], [v], w)).
Proof. exact any_unregistered_view. Qed.
Print Assumptions C18_unregistered_view.

Theorem C18_unregistered_query : ∀ evs w s G J X, ub_free_history evs w s →
  (∃ t, t ∈ omap part_tid (G ++ J ++ X) ∧ world_is_registered w t = false) →
  query_all w G J X = Panic ∧ query_all_slice w G J X = Panic ∧
  (∀ e, query_one w G J X e = Panic ∧ query_one_contains w G J X e = Panic) ∧
  (∀ t, par_collect w G J X t = Panic) ∧
  (∀ f, step w (OForEach G J X f) = (Panicked [], [], w)).
Proof. exact every_unregistered_query. Qed.
Print Assumptions C18_unregistered_query.

(** [create] and [insert] panic and leave a world that is still reachable in the
    sense of the safety theorem C33; other entities are unchanged. *)
Theorem C18_unregistered_insert : ∀ w s o out ds w',
  reachable w s → step w o = (out, ds, w') → good_side s o out →
  match o with
  | OCreate cs => ∃ t, t ∈ cs.*1 ∧ world_is_registered w t = false
  | OInsert e cs => world_contains w e = true ∧ ∃ t, t ∈ cs.*1 ∧ world_is_registered w t = false
  | _ => False
  end →
  panicked out = true ∧ reachable w' (client_step s o out) ∧
  (∀ t, world_is_registered w' t = world_is_registered w t) ∧
  ∀ e, e ∉ reported out → (∀ cs, o ≠ OInsert e cs) → unchanged w w' e.
Proof. exact unregistered_insert. Qed.
Print Assumptions C18_unregistered_insert.

Example C18_nonvacuous :
  let w := r_w demo in let o := OCreate [(tA, 60); (tE, 61); (tC, 62)]%N in
  reachable w (r_s demo) ∧ world_is_registered w tE = false ∧ good_side (r_s demo) o (step w o).1.1 ∧
  (step w o).1 = (Panicked [Ent 6 1], [61; 62]%N) ∧
  step w (ORemove (Ent 3 1) [tA; tE]) = (Panicked [], [], w) ∧
  view_entities w tE = Panic ∧ view_get w tE (Ent 3 1) = Panic ∧
  query_all w [PRef tA; POptRef tE] [] [] = Panic.
Proof.
  split; [apply demo_reachable|]. split; [by vm_compute|]. split; [apply good_sideb_ok; by vm_compute|].
  split_and!; by vm_compute.
Qed.

(** [rough] is a world after an untidy [maintain], which brought a destroyed entity
    back, and a caught panic. *)
Example C17_C18_rough :
  let w := r_w rough in
  ub_free_history (r_evs rough) w (r_s rough) ∧ s_map (r_s rough) !! Ent 0 2 = None ∧ world_contains w (Ent 0 2) = true ∧
  (step w (ORegister tE)).1 = (Ret (RBool true), []) ∧ (step w (ORegister tA)).1 = (Ret (RBool false), []) ∧
  world_is_registered w tE = false ∧ query_all w [PRef tA; POptRef tE] [] [] = Panic ∧
  step w (OExtend [tA; tE] [[1; 2]; [3; 4]]%N true) = (Panicked [], [1; 2; 3; 4]%N, w).
Proof.
  cbn zeta. split; [apply ub_free_run_ok; by vm_compute|]. split_and!; by vm_compute.
Qed.

(** ** C19 *)

(** The list [es] of handles that [extend] returns has the order of the rows;
    creating the rows one by one returns the same handles and a world with the same
    answers. (After a caught panic in an insertion, [query_all] may miss
    entities that were being inserted, see C36; hence [s_loose s = ∅].) *)
Theorem C19_extend : ∀ w s ts rows es ds w1,
  reachable w s → op_ok (OExtend ts rows false) →
  step w (OExtend ts rows false) = (Ret (REnts es), ds, w1) →
  good_side s (OExtend ts rows false) (Ret (REnts es)) →
  ∃ w2, run w (map (λ r, OCreate (zip ts r)) rows) = (map (λ e, Ret (REnt e)) es, w2) ∧
    same_answers w1 w2 ∧ (s_loose s = ∅ → same_queries w1 w2).
Proof. exact extend_is_creates. Qed.
Print Assumptions C19_extend.

Example C19_nonvacuous :
  let w := r_w demo in let rows := [[70; 71]; [72; 73]; [74; 75]]%N in let o := OExtend [tA; tB] rows false in
  reachable w (r_s demo) ∧ good_side (r_s demo) o (step w o).1.1 ∧ s_loose (r_s demo) = ∅ ∧
  (step w o).1 = (Ret (REnts [Ent 6 1; Ent 7 1; Ent 8 1]), []) ∧
  (run w (map (λ r, OCreate (zip [tA; tB] r)) rows)).1 = [Ret (REnt (Ent 6 1)); Ret (REnt (Ent 7 1)); Ret (REnt (Ent 8 1))].
Proof.
  split; [apply demo_reachable|]. split; [apply good_sideb_ok; by vm_compute|].
  split; [apply (bool_decide_unpack _); by vm_compute|]. split_and!; by vm_compute.
Qed.

(** ** C20 *)

(** Along every history, what was handed over is what was dropped, handed back or
    is still stored; dropping the world drops the rest. *)
Theorem C20_values_released_once : ∀ evs w s, good_history evs w s →
  hist_in evs ≡ₚ hist_dropped evs ++ hist_out evs ++ contents s ∧
  ∃ vs, world_drop w = Ok vs ∧ vs ≡ₚ contents s.
Proof. exact history_balance. Qed.
Print Assumptions C20_values_released_once.

Example C20_nonvacuous :
  good_history (r_evs demo) (r_w demo) (r_s demo) ∧
  hist_in (r_evs demo) = [10; 20; 11; 31; 21; 12; 22; 13; 14; 23; 15; 32; 16]%N ∧
  hist_dropped (r_evs demo) = [11; 31; 14]%N ∧ hist_out (r_evs demo) = [20; 12]%N ∧
  world_drop (r_w demo) = Ok [15; 16; 13; 10; 23; 21; 22; 32]%N.
Proof. split; [apply demo_ok|]. split_and!; by vm_compute. Qed.

(** ** C21 *)

(** [perm] is the order in which the hash map is traversed. *)
Theorem C21_set_layout : ∀ w s l perm out ds w',
  reachable w s → op_ok (OSetLayout l perm) → step w (OSetLayout l perm) = (out, ds, w') →
  good_side s (OSetLayout l perm) out →
  out = Ret RUnit ∧ ds = [] ∧ world_entities w' = world_entities w ∧ (∀ e, kept w w' e) ∧
  (∀ t, world_is_registered w' t = bool_decide (t ∈ layout_tids l) || world_is_registered w t) ∧
  reachable w' (client_step s (OSetLayout l perm) out).
Proof. exact set_layout_effect. Qed.
Print Assumptions C21_set_layout.

Example C21_nonvacuous :
  let w := r_w demo in let l := layout_of [[tB; tC]; [tB; tC; tD]] in let o := OSetLayout l [tC; tA; tB] in
  reachable w (r_s demo) ∧ op_ok o ∧ good_side (r_s demo) o (step w o).1.1 ∧
  (step w o).1 = (Ret RUnit, []) ∧ view_get (step w o).2 tB (Ent 3 1) = Ok (Some 21%N) ∧
  map (world_is_registered (step w o).2) [tA; tB; tC; tD; tE] = [true; true; true; true; false].
Proof.
  split; [apply demo_reachable|]. split; [apply op_okb_ok; by vm_compute|].
  split; [apply good_sideb_ok; by vm_compute|]. split_and!; by vm_compute.
Qed.

(** ** C46 *)

(** A handle with the index of a live entity but another version is dead and has no
    components. *)
Theorem C46_stale_handle : ∀ w s e e',
  reachable w s → world_contains w e' = true → e_index e = e_index e' → e_version e ≠ e_version e' →
  world_contains w e = false ∧ has_comps w e ∅.
Proof. exact stale_handle. Qed.
Print Assumptions C46_stale_handle.

(** Calls with a dead handle find nothing and change nothing. *)
Theorem C46_dead_handle : ∀ w s e,
  reachable w s → world_contains w e = false →
  has_comps w e ∅ ∧
  (∀ cs out ds w', step w (OInsert e cs) = (out, ds, w') → out = Ret (RBool false) ∧ w' = w) ∧
  (∀ out ds w', step w (ODestroy e) = (out, ds, w') → out = Ret (RBool false) ∧ w' = w) ∧
  (∀ ts out ds w', step w (ORemove e ts) = (out, ds, w') → (∀ t, t ∈ ts → world_is_registered w t = true) →
     out = Ret (ROpts (replicate (length ts) None)) ∧ ∀ e', unchanged w w' e') ∧
  (∀ ts out ds w', step w (ODelete e ts) = (out, ds, w') → (∀ t, t ∈ ts → world_is_registered w t = true) →
     ds = [] ∧ ∀ e', unchanged w w' e') ∧
  (∀ t v out ds w', step w (OSet t e v) = (out, ds, w') → world_is_registered w t = true →
     out = Ret (ROpts [None]) ∧ ∀ e', unchanged w w' e') ∧
  (∀ G J X, query_ok s G J X → required (G ++ J) ≠ [] → query_one w G J X e = Ok None).
Proof. exact dead_handle. Qed.
Print Assumptions C46_dead_handle.

Definition stale_demo := good_run [] [tA; tB]
  [OCreate [(tA, 1); (tB, 2)]%N; ODestroy (Ent 0 1); OCreate [(tA, 3)%N]].
Example C46_nonvacuous : let w := r_w stale_demo in
  reachable w (r_s stale_demo) ∧ world_contains w (Ent 0 2) = true ∧ world_contains w (Ent 0 1) = false ∧
  view_get w tA (Ent 0 2) = Ok (Some 3%N) ∧ view_get w tA (Ent 0 1) = Ok None ∧
  (step w (ORemove (Ent 0 1) [tA])).1 = (Ret (ROpts [None]), []).
Proof. split; [apply good_run_reachable; by vm_compute|]. split_and!; by vm_compute. Qed.
