(** Reading a world in which grouped entities have reused indices. *)
From Verif Require Import Base SparseVecM EntityM CssM LayoutM StorageM WorldM QueryM ParM DropPanicM StepM
  Spec SpecMore SpecQuery SpecVisit SpecDrop SpecSafety SpecLayout SpecFair Demo Demo2 FairDemo FairReads.

(** Looking up one entity: its own components, and nothing for stale handles. *)
Theorem C65_lookups : ∀ l evs w s, fair_history l evs w s →
  (∀ e, world_contains w e = bool_decide (is_Some (s_map s !! e))) ∧
  (∀ e t, view_get w t e = if decide (t ∈ s_reg s) then Ok (s_row s e !! t) else Panic) ∧
  (∀ e t, view_contains w t e =
     if decide (t ∈ s_reg s) then Ok (bool_decide (is_Some (s_row s e !! t))) else Panic) ∧
  (∀ e t, shown (query_one w [PRef t] [] [] e) =
     if decide (t ∈ s_reg s) then Ok (option_map (λ v, [AVal t v]) (s_row s e !! t)) else Panic) ∧
  (∀ e t, query_one_contains w [PRef t] [] [] e =
     if decide (t ∈ s_reg s) then Ok (bool_decide (is_Some (s_row s e !! t))) else Panic).
Proof. exact fair_lookups. Qed.
Print Assumptions C65_lookups.

(** The slices of a view belong together. *)
Theorem C65_views_aligned : ∀ l evs w s t, fair_history l evs w s → world_is_registered w t = true →
  ∃ es vs, view_entities w t = Ok es ∧ view_slice w t = Ok vs ∧ view_len w t = Ok (length es) ∧
    length vs = length es ∧ NoDup es ∧
    (∀ i e v, es !! i = Some e → vs !! i = Some v → view_get w t e = Ok (Some v)) ∧
    (∀ e, e ∉ es → view_get w t e = Ok None) ∧
    (∀ e, view_contains w t e = Ok (bool_decide (e ∈ es))) ∧
    (∀ e, e ∈ es → world_contains w e = true).
Proof. exact fair_views_aligned. Qed.
Print Assumptions C65_views_aligned.

(** What a query yields, and in which order. *)
Theorem C65_order : ∀ l evs w s G J X,
  fair_history l evs w s → query_ok s G J X →
  ∃ es its dn, query_all w G J X = Ok its ∧ query_is_dense w G J X = Ok dn ∧
    NoDup es ∧ answers s G es its ∧
    (dn = false → sparse_order w (required (G ++ J)) es ∧
       (plain G J X → ∀ e, e ∈ es ↔ s_alive s e ∧ matches (s_row s e) G J X)) ∧
    (dn = true → dense_order w (required (G ++ J)) (required X) es).
Proof. exact fair_order. Qed.
Print Assumptions C65_order.

(** [query_one] for every handle. *)
Theorem C65_one_exactly : ∀ l evs w s G J X e,
  fair_history l evs w s → query_ok s G J X →
  ∃ r, query_one w G J X e = Ok r ∧ query_one_contains w G J X e = Ok (bool_decide (is_Some r)) ∧
    (is_Some r ↔ matches (s_row s e) G J X ∧ ∀ p, p ∈ X → part_required p) ∧
    (∀ it, r = Some it → sees e (s_row s e) G = Some (abs_item <$> it)).
Proof. exact fair_one_exactly. Qed.
Print Assumptions C65_one_exactly.

(** [query_one] and [query_all] agree. *)
Theorem C65_one_like_all : ∀ l evs w s G J X,
  fair_history l evs w s → query_ok s G J X → plain G J X → simple_exclude s X →
  ∃ es its, query_all w G J X = Ok its ∧ NoDup es ∧ length es = length its ∧
    ∀ e, e ∉ s_loose s → ∃ r, query_one w G J X e = Ok r ∧ query_one_contains w G J X e = Ok (bool_decide (e ∈ es)) ∧
      ∀ it, r = Some it ↔ (e, it) ∈ zip es its.
Proof. exact fair_one_like_all. Qed.
Print Assumptions C65_one_like_all.

(** The slices of a dense query. *)
Theorem C65_slice : ∀ l evs w s G J X,
  fair_history l evs w s → query_ok s G J X →
  ∃ r its dn, query_all_slice w G J X = Ok r ∧ query_all w G J X = Ok its ∧ query_is_dense w G J X = Ok dn ∧
    dn = bool_decide (is_Some r) ∧
    ∀ sl, r = Some sl → Forall2 slice_kind G sl ∧ Forall (λ x, slice_length x (length its)) sl ∧
      ∀ k x, sl !! k = Some x → required X = [] ∨ G !! k = Some PEntity → shows_column k x its.
Proof. exact fair_slice. Qed.
Print Assumptions C65_slice.

(** What a dense query yields, exactly. *)
Theorem C65_dense_exclude : ∀ l evs w s G J X,
  fair_history l evs w s → query_ok s G J X → query_is_dense w G J X = Ok true →
  ∃ es its, query_all w G J X = Ok its ∧ NoDup es ∧ answers s G es its ∧
    ∀ e, e ∉ s_loose s → e ∈ es ↔
      s_alive s e ∧ has_all (s_row s e) G ∧ has_all (s_row s e) J ∧ (required X = [] ∨ ¬ has_all (s_row s e) X).
Proof. exact fair_dense_exclude. Qed.
Print Assumptions C65_dense_exclude.

(** No component is handed out twice if it can be written. *)
Theorem C65_no_alias : ∀ l evs w s G J X its,
  fair_history l evs w s → query_ok s G J X → query_all w G J X = Ok its → no_alias G its.
Proof. exact fair_no_alias. Qed.
Print Assumptions C65_no_alias.

(** The iterator yields the items of the query, and its hints are right. *)
Theorem C65_iter : ∀ l evs w s G J X,
  fair_history l evs w s → query_ok s G J X →
  ∃ it its dn, query_all_iter w G J X = Ok it ∧ query_all w G J X = Ok its ∧ query_is_dense w G J X = Ok dn ∧
    yields it its ∧ hints_right dn it its.
Proof. exact fair_iter. Qed.
Print Assumptions C65_iter.

(** Any way to split and interleave the work of a parallel iterator. *)
Theorem C65_par_iter : ∀ l evs w s G J X,
  fair_history l evs w s → query_ok s G J X →
  ∃ its, query_all w G J X = Ok its ∧ (∀ t, par_collect w G J X t = Ok its) ∧
    (∀ r, par_produces w G J X r → ∃ its', r = Ok its' ∧ its' ≡ₚ its) ∧
    (par_opt_len w G J X = Ok None ∧ query_is_dense w G J X = Ok false ∨
     par_opt_len w G J X = Ok (Some (length its)) ∧ query_is_dense w G J X = Ok true).
Proof. exact fair_par_iter. Qed.
Print Assumptions C65_par_iter.

(** Writing in parallel has the effect of [for_each]. *)
Theorem C65_par_for_each : ∀ l evs w s G J X f,
  fair_history l evs w s → query_ok s G J X →
  ∃ es vs dr w1, step w (OForEach G J X f) = (Ret (RWrote es vs), dr, w1) ∧
    ∀ r, par_for_each w G J X f r →
      ∃ s2 es' dr' vs', r = Ok (s2, es', dr', vs') ∧ es' ≡ₚ es ∧
        wrote_to G f es s w (World (w_ents w) s2) ∧ same_answers w1 (World (w_ents w) s2) ∧
        (s_loose s = ∅ → same_queries w1 (World (w_ents w) s2)) ∧
        vs' ++ contents s ≡ₚ dr' ++ contents (client_step s (OForEach G J X f) (Ret (RWrote es vs))).
Proof. exact fair_par_for_each. Qed.
Print Assumptions C65_par_for_each.

(** None of the read-only calls, nor dropping the world, has an invalid access. *)
Theorem C65_safe_reads : ∀ l evs w s, fair_history l evs w s → safe_reads w.
Proof. exact fair_safe_reads. Qed.
Print Assumptions C65_safe_reads.

(** Dropping the world while some [Drop] panics: which values are dropped. *)
Theorem C65_drop_world : ∀ l evs w s bomb f, fair_history l evs w s → (∀ t, t ∈ s_reg s → view_slice w t = Ok (f t)) →
  ∃ p vs, drop_all_p bomb (cs_comps (w_comps w)) = Ok (p, vs) ∧
    (p = true ↔ ∃ e t v, s_row s e !! t = Some v ∧ bomb v = true) ∧
    vs ≡ₚ concat ((λ t, until_bomb bomb (f t)) <$> elements (s_reg s)).
Proof. exact fair_drop_world. Qed.
Print Assumptions C65_drop_world.

(** The reused [Ent 0 2] and [Ent 1 1] both have a B, and the group is empty. *)
Example C65_sparse_nonvacuous :
  fair_history (layout_of [[tA; tB]]) (r_evs reuse) (r_w reuse) (r_s reuse) ∧
  query_ok (r_s reuse) [PEntity; PMut tB] [] [PRef tC] ∧
  query_is_dense (r_w reuse) [PEntity; PMut tB] [] [PRef tC] = Ok false ∧
  match query_all (r_w reuse) [PEntity; PMut tB] [] [PRef tC] with
  | Ok its => map (map abs_item) its = [[AEnt (Ent 0 2); AVal tB 9%N]]
  | _ => False
  end ∧
  match par_collect (r_w reuse) [PEntity; PMut tB] [] [] (SNode 1 SLeaf SLeaf) with
  | Ok its => length its = 2 | _ => False end ∧
  view_get (r_w reuse) tB (Ent 0 1) = Ok None.
Proof.
  split; [apply reuse_fair|]. split; [apply (bool_decide_unpack _); by vm_compute|]. split_and!; by vm_compute.
Qed.

(** Slices of a group whose only member is the reused entity. *)
Example C65_dense_nonvacuous :
  fair_history (layout_of [[tA; tB]]) (r_evs reuse_next) (r_w reuse_next) (r_s reuse_next) ∧
  query_ok (r_s reuse_next) [PEntity; PMut tB; PRef tC] [] [] ∧
  query_is_dense (r_w reuse_next) [PEntity; PMut tB; PRef tC] [] [] = Ok true ∧
  is_Some (s_row (r_s reuse_next) (Ent 0 2) !! tA) ∧
  match query_all_slice (r_w reuse_next) [PEntity; PMut tB; PRef tC] [] [] with
  | Ok (Some sl) => length sl = 3 | _ => False end.
Proof.
  split; [apply reuse_next_fair|]. split; [apply (bool_decide_unpack _); by vm_compute|].
  split; [by vm_compute|]. split; [apply (bool_decide_unpack _); by vm_compute|by vm_compute].
Qed.

(** The components of the demonstration when the destructor of 9 panics. *)
Example C65_drop_nonvacuous :
  view_slice (r_w reuse) tB = Ok [9; 5]%N ∧
  match drop_all_p (λ v, bool_decide (v = 9%N)) (cs_comps (w_comps (r_w reuse))) with
  | Ok (p, vs) => p = true ∧ vs = [9; 4]%N
  | _ => False
  end.
Proof. split; by vm_compute. Qed.
