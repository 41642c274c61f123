(** Facts about queries used by the property files. *)
From Verif Require Import Base Lists SparseVecM EntityM CssM MaskM LayoutM GroupM StorageM WorldM QueryM ParM StepM
  SparseProofs CssProofs MaskProofs GroupProofs Spec SpecMore SpecQuery EntityProofs LayoutProofs StorageProofs
  StoreOps LayoutOps WorldProofs QueryProofs QueryRange QueryIter ForEachProofs History Lockstep SliceFacts IterFacts.

Lemma reach_slice_at w s G J X :
  agreeing w s → query_ok s G J X →
  ∃ r its dn, query_all_slice w G J X = Ok r ∧ query_all w G J X = Ok its ∧ query_is_dense w G J X = Ok dn ∧
    dn = bool_decide (is_Some r) ∧
    ∀ sl, r = Some sl → Forall2 slice_kind G sl ∧ Forall (λ x, slice_length x (length its)) sl ∧
      ∀ k x, sl !! k = Some x → required X = [] ∨ G !! k = Some PEntity → shows_column k x its.
Proof. intros (_ & ds & HI)%agreeing_inv. by eapply inv_slice. Qed.
Lemma reach_slice w s G J X :
  reachable w s → query_ok s G J X →
  ∃ r its dn, query_all_slice w G J X = Ok r ∧ query_all w G J X = Ok its ∧ query_is_dense w G J X = Ok dn ∧
    dn = bool_decide (is_Some r) ∧
    ∀ sl, r = Some sl → Forall2 slice_kind G sl ∧ Forall (λ x, slice_length x (length its)) sl ∧
      ∀ k x, sl !! k = Some x → required X = [] ∨ G !! k = Some PEntity → shows_column k x its.
Proof. exact (λ Hr, reach_slice_at w s G J X (reachable_agreeing _ _ Hr)). Qed.

Lemma reach_dense_exclude_at w s G J X :
  agreeing w s → query_ok s G J X → query_is_dense w G J X = Ok true →
  ∃ es its, query_all w G J X = Ok its ∧ NoDup es ∧ answers s G es its ∧
    ∀ e, e ∉ s_loose s → e ∈ es ↔
      s_alive s e ∧ has_all (s_row s e) G ∧ has_all (s_row s e) J ∧ (required X = [] ∨ ¬ has_all (s_row s e) X).
Proof.
  intros (_ & ds & HI)%agreeing_inv Hq Hd.
  destruct (query_all_at w s ds G J X HI Hq) as (es & its & dn & H1 & H2 & H3 & HV).
  rewrite H2 in Hd. injection Hd as ->.
  exists es, its. split_and!; [done|apply HV|by eapply items_answers|]. intros e He.
  destruct (vs_dense _ _ _ _ _ _ _ _ HV eq_refl) as (Hreq & _ & Hex).
  split.
  - intros Hin. pose proof (vs_sound _ _ _ _ _ _ _ _ HV e Hin) as (Ha & _). split; [done|]. by apply Hex.
  - intros (_ & H). by apply Hex.
Qed.
Lemma reach_dense_exclude w s G J X :
  reachable w s → query_ok s G J X → query_is_dense w G J X = Ok true →
  ∃ es its, query_all w G J X = Ok its ∧ NoDup es ∧ answers s G es its ∧
    ∀ e, e ∉ s_loose s → e ∈ es ↔
      s_alive s e ∧ has_all (s_row s e) G ∧ has_all (s_row s e) J ∧ (required X = [] ∨ ¬ has_all (s_row s e) X).
Proof. exact (λ Hr, reach_dense_exclude_at w s G J X (reachable_agreeing _ _ Hr)). Qed.

Lemma reach_dense_exclude_one_at w s G J X :
  agreeing w s → query_ok s G J X → query_is_dense w G J X = Ok true → one_exclude X →
  ∃ es its, query_all w G J X = Ok its ∧ NoDup es ∧ answers s G es its ∧
    ∀ e, e ∈ es → e ∉ s_loose s → has_none (s_row s e) X.
Proof.
  intros Hr Hq Hd Hone. destruct (reach_dense_exclude_at w s G J X Hr Hq Hd) as (es & its & H1 & H2 & H3 & H4).
  exists es, its. split_and!; try done. intros e He Hl. apply H4 in He as (_ & _ & _ & He); [|done].
  intros t Ht. destruct He as [He|He]; [rewrite He in Ht; by apply elem_of_nil in Ht|].
  destruct (s_row s e !! t) as [v|] eqn:E; [|done]. exfalso. apply He. intros t' Ht'.
  rewrite (Hone t' t Ht' Ht), E. eauto.
Qed.
Lemma reach_dense_exclude_one w s G J X :
  reachable w s → query_ok s G J X → query_is_dense w G J X = Ok true → one_exclude X →
  ∃ es its, query_all w G J X = Ok its ∧ NoDup es ∧ answers s G es its ∧
    ∀ e, e ∈ es → e ∉ s_loose s → has_none (s_row s e) X.
Proof. exact (λ Hr, reach_dense_exclude_one_at w s G J X (reachable_agreeing _ _ Hr)). Qed.

Lemma reach_no_required_at w s G J X :
  agreeing w s → query_ok s G J X → required (G ++ J) = [] → query_all w G J X = Ok [].
Proof.
  intros (_ & ds & HI)%agreeing_inv Hq Hreq.
  destruct (query_all_at w s ds G J X HI Hq) as (es & its & dn & H1 & H2 & H3 & HV).
  rewrite H1. assert (es = []) as ->; [|by inversion H3].
  destruct es as [|e es]; [done|]. exfalso. destruct dn.
  - by destruct (vs_dense _ _ _ _ _ _ _ _ HV eq_refl).
  - by destruct (proj1 (vs_sparse _ _ _ _ _ _ _ _ HV eq_refl e) ltac:(by left)).
Qed.
Lemma reach_no_required w s G J X :
  reachable w s → query_ok s G J X → required (G ++ J) = [] → query_all w G J X = Ok [].
Proof. exact (λ Hr, reach_no_required_at w s G J X (reachable_agreeing _ _ Hr)). Qed.

Lemma reach_one_alive_at w s G J X e it :
  agreeing w s → query_ok s G J X → required (G ++ J) ≠ [] →
  query_one w G J X e = Ok (Some it) ∨ query_one_contains w G J X e = Ok true →
  s_alive s e ∧ world_contains w e = true.
Proof.
  intros Hr Hq Hreq Hone. pose proof (agreeing_inv _ _ Hr) as (_ & ds & HI).
  destruct (query_one_at w s ds G J X e HI Hq) as (r & H1 & H2 & H3).
  assert (∃ it', r = Some it') as [it' ->].
  { destruct Hone as [H|H]; [rewrite H1 in H; injection H as ->; eauto|].
    rewrite H2 in H. injection H as H%bool_decide_eq_true. by destruct H; eauto. }
  destruct H3 as (HG & HJ & _). assert (s_alive s e) as Ha by (by eapply matches_alive).
  split; [done|]. destruct (reach_entities_at w s Hr) as (_ & _ & Hc). rewrite Hc. by apply bool_decide_true.
Qed.
Lemma reach_one_alive w s G J X e it :
  reachable w s → query_ok s G J X → required (G ++ J) ≠ [] →
  query_one w G J X e = Ok (Some it) ∨ query_one_contains w G J X e = Ok true →
  s_alive s e ∧ world_contains w e = true.
Proof. exact (λ Hr, reach_one_alive_at w s G J X e it (reachable_agreeing _ _ Hr)). Qed.
