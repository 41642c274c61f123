(** Read-only calls after histories whose calls only exchange entities of the same version. *)
From Verif Require Import Base Lists SparseVecM EntityM CssM LayoutM StorageM WorldM QueryM ParM DropPanicM StepM
  Spec SpecMore SpecQuery SpecVisit SpecDrop SpecSafety SpecLayout SpecFair
  History Facts IterFacts OneFacts QueryFacts ReadFacts SafetyFacts VisitFacts DropWorld FairFacts.

Lemma fair_agreeing l evs w s : fair_history l evs w s → agreeing w s.
Proof. intros (_ & ds & HI & _)%fair_history_inv. by exists ds. Qed.

Lemma fair_lookups : ∀ l evs w s, fair_history l evs w s →
  (∀ e, world_contains w e = bool_decide (is_Some (s_map s !! e))) ∧
  (∀ e t, view_get w t e = if decide (t ∈ s_reg s) then Ok (s_row s e !! t) else Panic) ∧
  (∀ e t, view_contains w t e =
     if decide (t ∈ s_reg s) then Ok (bool_decide (is_Some (s_row s e !! t))) else Panic) ∧
  (∀ e t, shown (query_one w [PRef t] [] [] e) =
     if decide (t ∈ s_reg s) then Ok (option_map (λ v, [AVal t v]) (s_row s e !! t)) else Panic) ∧
  (∀ e t, query_one_contains w [PRef t] [] [] e =
     if decide (t ∈ s_reg s) then Ok (bool_decide (is_Some (s_row s e !! t))) else Panic).
Proof. intros l evs w s H%fair_agreeing. exact (reach_lookups_at w s H). Qed.

Lemma fair_views_aligned : ∀ l evs w s t, fair_history l evs w s → world_is_registered w t = true →
  ∃ es vs, view_entities w t = Ok es ∧ view_slice w t = Ok vs ∧ view_len w t = Ok (length es) ∧
    length vs = length es ∧ NoDup es ∧
    (∀ i e v, es !! i = Some e → vs !! i = Some v → view_get w t e = Ok (Some v)) ∧
    (∀ e, e ∉ es → view_get w t e = Ok None) ∧
    (∀ e, view_contains w t e = Ok (bool_decide (e ∈ es))) ∧
    (∀ e, e ∈ es → world_contains w e = true).
Proof. intros l evs w s t H%fair_agreeing. exact (reach_aligned_at w s t H). Qed.

Lemma fair_order : ∀ l evs w s G J X,
  fair_history l evs w s → query_ok s G J X →
  ∃ es its dn, query_all w G J X = Ok its ∧ query_is_dense w G J X = Ok dn ∧
    NoDup es ∧ answers s G es its ∧
    (dn = false → sparse_order w (required (G ++ J)) es ∧
       (plain G J X → ∀ e, e ∈ es ↔ s_alive s e ∧ matches (s_row s e) G J X)) ∧
    (dn = true → dense_order w (required (G ++ J)) (required X) es).
Proof. intros l evs w s G J X H%fair_agreeing. exact (reach_visit_at w s G J X H). Qed.

Lemma fair_one_exactly : ∀ l evs w s G J X e,
  fair_history l evs w s → query_ok s G J X →
  ∃ r, query_one w G J X e = Ok r ∧ query_one_contains w G J X e = Ok (bool_decide (is_Some r)) ∧
    (is_Some r ↔ matches (s_row s e) G J X ∧ ∀ p, p ∈ X → part_required p) ∧
    (∀ it, r = Some it → sees e (s_row s e) G = Some (abs_item <$> it)).
Proof. intros l evs w s G J X e H%fair_agreeing. exact (reach_one_exact_at w s G J X e H). Qed.

Lemma fair_one_like_all : ∀ l evs w s G J X,
  fair_history l evs w s → query_ok s G J X → plain G J X → simple_exclude s X →
  ∃ es its, query_all w G J X = Ok its ∧ NoDup es ∧ length es = length its ∧
    ∀ e, e ∉ s_loose s → ∃ r, query_one w G J X e = Ok r ∧ query_one_contains w G J X e = Ok (bool_decide (e ∈ es)) ∧
      ∀ it, r = Some it ↔ (e, it) ∈ zip es its.
Proof. intros l evs w s G J X H%fair_agreeing. exact (reach_one_all_at w s G J X H). Qed.

Lemma fair_slice : ∀ l evs w s G J X,
  fair_history l evs w s → query_ok s G J X →
  ∃ r its dn, query_all_slice w G J X = Ok r ∧ query_all w G J X = Ok its ∧ query_is_dense w G J X = Ok dn ∧
    dn = bool_decide (is_Some r) ∧
    ∀ sl, r = Some sl → Forall2 slice_kind G sl ∧ Forall (λ x, slice_length x (length its)) sl ∧
      ∀ k x, sl !! k = Some x → required X = [] ∨ G !! k = Some PEntity → shows_column k x its.
Proof. intros l evs w s G J X H%fair_agreeing. exact (reach_slice_at w s G J X H). Qed.

Lemma fair_dense_exclude : ∀ l evs w s G J X,
  fair_history l evs w s → query_ok s G J X → query_is_dense w G J X = Ok true →
  ∃ es its, query_all w G J X = Ok its ∧ NoDup es ∧ answers s G es its ∧
    ∀ e, e ∉ s_loose s → e ∈ es ↔
      s_alive s e ∧ has_all (s_row s e) G ∧ has_all (s_row s e) J ∧ (required X = [] ∨ ¬ has_all (s_row s e) X).
Proof. intros l evs w s G J X H%fair_agreeing. exact (reach_dense_exclude_at w s G J X H). Qed.

Lemma fair_no_alias : ∀ l evs w s G J X its,
  fair_history l evs w s → query_ok s G J X → query_all w G J X = Ok its → no_alias G its.
Proof. intros l evs w s G J X its H%fair_agreeing. exact (reach_no_alias_at w s G J X its H). Qed.

Lemma fair_iter : ∀ l evs w s G J X,
  fair_history l evs w s → query_ok s G J X →
  ∃ it its dn, query_all_iter w G J X = Ok it ∧ query_all w G J X = Ok its ∧ query_is_dense w G J X = Ok dn ∧
    yields it its ∧ hints_right dn it its.
Proof. intros l evs w s G J X H%fair_agreeing. exact (reach_iter_at w s G J X H). Qed.

Lemma fair_par_iter : ∀ l evs w s G J X,
  fair_history l evs w s → query_ok s G J X →
  ∃ its, query_all w G J X = Ok its ∧ (∀ t, par_collect w G J X t = Ok its) ∧
    (∀ r, par_produces w G J X r → ∃ its', r = Ok its' ∧ its' ≡ₚ its) ∧
    (par_opt_len w G J X = Ok None ∧ query_is_dense w G J X = Ok false ∨
     par_opt_len w G J X = Ok (Some (length its)) ∧ query_is_dense w G J X = Ok true).
Proof. intros l evs w s G J X H%fair_agreeing. exact (reach_par_at w s G J X H). Qed.

Lemma fair_par_for_each : ∀ l evs w s G J X f,
  fair_history l evs w s → query_ok s G J X →
  ∃ es vs dr w1, step w (OForEach G J X f) = (Ret (RWrote es vs), dr, w1) ∧
    ∀ r, par_for_each w G J X f r →
      ∃ s2 es' dr' vs', r = Ok (s2, es', dr', vs') ∧ es' ≡ₚ es ∧
        wrote_to G f es s w (World (w_ents w) s2) ∧ same_answers w1 (World (w_ents w) s2) ∧
        (s_loose s = ∅ → same_queries w1 (World (w_ents w) s2)) ∧
        vs' ++ contents s ≡ₚ dr' ++ contents (client_step s (OForEach G J X f) (Ret (RWrote es vs))).
Proof. intros l evs w s G J X f H%fair_agreeing. exact (reach_par_for_each_at w s G J X f H). Qed.

Lemma fair_safe_reads : ∀ l evs w s, fair_history l evs w s → safe_reads w.
Proof. intros l evs w s H%fair_agreeing. exact (reach_safe_reads_at w s H). Qed.

Lemma fair_drop_world : ∀ l evs w s bomb f, fair_history l evs w s → (∀ t, t ∈ s_reg s → view_slice w t = Ok (f t)) →
  ∃ p vs, drop_all_p bomb (cs_comps (w_comps w)) = Ok (p, vs) ∧
    (p = true ↔ ∃ e t v, s_row s e !! t = Some v ∧ bomb v = true) ∧
    vs ≡ₚ concat ((λ t, until_bomb bomb (f t)) <$> elements (s_reg s)).
Proof. intros l evs w s bomb f H%fair_agreeing. exact (drop_world_exactly_at w s bomb f H). Qed.

