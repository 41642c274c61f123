(** [query_one] for every query and handle, dead ones too. *)
From Verif Require Import Base EntityM CssM LayoutM StorageM WorldM QueryM StepM Spec SpecMore EntityProofs QueryProofs QueryIter History.

Lemma excl_none_iff r X : excl_none r X ↔ has_none r X ∧ ∀ p, p ∈ X → part_required p.
Proof.
  split.
  - intros H. assert (∀ p, p ∈ X → part_required p) as Hp.
    { intros p Hin. specialize (H p Hin). destruct p; try done; by destruct H. }
    split; [by apply excl_none_plain|done].
  - intros [H Hp]. by apply excl_none_plain.
Qed.

Lemma reach_one_exact_at w s G J X e :
  agreeing w s → query_ok s G J X →
  ∃ r, query_one w G J X e = Ok r ∧ query_one_contains w G J X e = Ok (bool_decide (is_Some r)) ∧
    (is_Some r ↔ matches (s_row s e) G J X ∧ ∀ p, p ∈ X → part_required p) ∧
    (∀ it, r = Some it → sees e (s_row s e) G = Some (abs_item <$> it)).
Proof.
  intros Hr Hq. destruct (reach_query_one_at w s G J X e Hr Hq) as (r & H1 & H2 & H3 & _).
  apply agreeing_inv in Hr as (_ & ds & HI).
  destruct (query_one_at w s ds G J X e HI Hq) as (r' & H1' & _ & H4). rewrite H1 in H1'. injection H1' as <-.
  exists r. split_and!; try done. unfold matches. destruct r as [it|].
  - destruct H4 as (? & ? & (? & ?)%excl_none_iff & _). split; [done|]. intros _. eauto.
  - rewrite excl_none_iff in H4. split; [by intros [? ?]|]. intros [(? & ? & ?) ?]. destruct H4. done.
Qed.
Lemma reach_one_exact w s G J X e :
  reachable w s → query_ok s G J X →
  ∃ r, query_one w G J X e = Ok r ∧ query_one_contains w G J X e = Ok (bool_decide (is_Some r)) ∧
    (is_Some r ↔ matches (s_row s e) G J X ∧ ∀ p, p ∈ X → part_required p) ∧
    (∀ it, r = Some it → sees e (s_row s e) G = Some (abs_item <$> it)).
Proof. exact (λ Hr, reach_one_exact_at w s G J X e (reachable_agreeing _ _ Hr)). Qed.

Lemma dead_row s e : ¬ s_alive s e → s_row s e = ∅.
Proof.
  unfold s_alive, s_row, row_of. intros H. apply eq_None_not_Some in H. by rewrite H.
Qed.

Lemma matches_empty G J X : matches ∅ G J X ↔ required (G ++ J) = [].
Proof.
  unfold matches, has_all, has_none. rewrite required_app. split.
  - intros (HG & HJ & _). destruct (required G) as [|t l]; [|by destruct (HG t ltac:(left)) as [? ?]].
    destruct (required J) as [|t l]; [done|]. by destruct (HJ t ltac:(left)) as [? ?].
  - intros (-> & ->)%app_eq_nil. split_and!; try (intros t []%elem_of_nil). done.
Qed.

Lemma reach_one_dead_at w s G J X e :
  agreeing w s → query_ok s G J X → ¬ s_alive s e →
  world_contains w e = false ∧
  ∃ r, query_one w G J X e = Ok r ∧ query_one_contains w G J X e = Ok (bool_decide (is_Some r)) ∧
    (is_Some r ↔ required (G ++ J) = [] ∧ ∀ p, p ∈ X → part_required p) ∧
    (∀ it, r = Some it → sees e ∅ G = Some (abs_item <$> it)).
Proof.
  intros Hr Hq Hd. destruct (reach_one_exact_at w s G J X e Hr Hq) as (r & H1 & H2 & H3 & H4).
  rewrite (dead_row _ _ Hd), matches_empty in H3. rewrite (dead_row _ _ Hd) in H4.
  split; [|by exists r]. apply agreeing_inv in Hr as (_ & ds & HE & _).
  unfold world_contains. rewrite (estore_contains_alive _ _ _ HE). by apply bool_decide_false.
Qed.
Lemma reach_one_dead w s G J X e :
  reachable w s → query_ok s G J X → ¬ s_alive s e →
  world_contains w e = false ∧
  ∃ r, query_one w G J X e = Ok r ∧ query_one_contains w G J X e = Ok (bool_decide (is_Some r)) ∧
    (is_Some r ↔ required (G ++ J) = [] ∧ ∀ p, p ∈ X → part_required p) ∧
    (∀ it, r = Some it → sees e ∅ G = Some (abs_item <$> it)).
Proof. exact (λ Hr, reach_one_dead_at w s G J X e (reachable_agreeing _ _ Hr)). Qed.
