(** Good histories: every call meets the client's view, and what the read-only
    calls return. *)
From Verif Require Import Base Lists SparseVecM EntityM CssM MaskM LayoutM GroupM StorageM WorldM QueryM StepM
  SparseProofs CssProofs MaskProofs GroupProofs Spec EntityProofs LayoutProofs StorageProofs StoreOps LayoutOps
  WorldProofs QueryProofs QueryRange QueryIter ForEachProofs.

Lemma step_ok w s ds o :
  winv w s ds → same_versions s → op_ok o → good_call s o → step_good s ds o (step w o).
Proof.
  intros HI Hsv Hop Hg. destruct o; simpl in *.
  - by apply step_create.
  - by apply step_extend.
  - by apply step_destroy.
  - by apply step_create_atomic.
  - by apply step_maintain.
  - by apply step_insert.
  - by apply step_remove.
  - by apply step_delete.
  - by apply step_clear.
  - by apply step_reset.
  - by apply step_register.
  - destruct Hop as [gs Hgs]. apply step_set_layout; try done. by eapply layout_built_wf.
  - by apply step_set.
  - by apply step_for_each.
Qed.

Lemma step_inv w s ds o out dr w' :
  winv w s ds → same_versions s → op_ok o → step w o = (out, dr, w') → good_side s o out →
  allowed s o out ∧
  ∃ ds', winv w' (client_step s o out) ds' ∧
    handed_in o out ++ stored ds ≡ₚ dr ++ handed_out out ++ stored ds'.
Proof.
  intros HI Hsv Hop Hstep [Hg Hsv']. pose proof (step_ok w s ds o HI Hsv Hop Hg) as H.
  rewrite Hstep in H. by apply H.
Qed.

(** The invariant and the balance of values along a history. *)
Lemma history_inv w0 s0 ds0 evs w s :
  winv w0 s0 ds0 → same_versions s0 → history good_side w0 s0 evs w s →
  same_versions s ∧ ∃ ds, winv w s ds ∧
    hist_in evs ++ stored ds0 ≡ₚ hist_dropped evs ++ hist_out evs ++ stored ds.
Proof.
  intros HI Hsv. induction 1 as [|evs w1 s1 o out dr w2 _ [Hsv1 (ds1 & HI1 & Hb1)] Hop Hstep Hside]; [eauto|].
  split; [apply Hside|].
  destruct (step_inv _ _ _ _ _ _ _ HI1 Hsv1 Hop Hstep Hside) as (_ & ds2 & HI2 & Hb2).
  exists ds2. split; [done|]. unfold hist_in, hist_dropped, hist_out in *. rewrite !bind_app. simpl.
  rewrite !app_nil_r.
  assert (∀ A B C D E F G : list val, A ++ B ≡ₚ C ++ D ++ E → F ++ E ≡ₚ G →
            (A ++ F) ++ B ≡ₚ C ++ D ++ G) as Hperm.
  { intros A B C D E F G H1 H2. rewrite <-H2. rewrite <-(assoc_L (++)), (Permutation_app_comm F B), (assoc_L (++)), H1.
    rewrite <-!(assoc_L (++)). do 2 f_equiv. by rewrite Permutation_app_comm. }
  rewrite (Hperm _ _ _ _ _ _ _ Hb1 Hb2). rewrite <-!(assoc_L (++)). f_equiv.
  rewrite !(assoc_L (++)). by rewrite (Permutation_app_comm (_ ≫= _) dr).
Qed.

Lemma built_inv w s : built w s → same_versions s ∧ ∃ ds, winv w s ds ∧ stored ds = [].
Proof.
  intros (gs & l & ts & Hgs & Hb & ->).
  destruct (builder_ok l ts w (layout_built_wf _ _ Hgs) Hb) as (_ & Hsv & ds & HI & Hst). eauto.
Qed.

Lemma good_history_inv evs w s :
  good_history evs w s →
  same_versions s ∧ ∃ ds, winv w s ds ∧ hist_in evs ≡ₚ hist_dropped evs ++ hist_out evs ++ stored ds.
Proof.
  intros (w0 & s0 & Hb & Hh). destruct (built_inv _ _ Hb) as (Hsv & ds0 & HI & Hst).
  destruct (history_inv _ _ _ _ _ _ HI Hsv Hh) as (Hsv' & ds & HI' & Hbal). split; [done|].
  exists ds. split; [done|]. by rewrite Hst, app_nil_r in Hbal.
Qed.

Lemma reachable_inv w s : reachable w s → same_versions s ∧ ∃ ds, winv w s ds.
Proof. intros [evs (? & ds & ? & _)%good_history_inv]. eauto. Qed.

Lemma good_history_step evs w s o out dr w' :
  good_history evs w s → op_ok o → step w o = (out, dr, w') → good_side s o out →
  good_history (evs ++ [(o, out, dr)]) w' (client_step s o out).
Proof.
  intros (w0 & s0 & Hb & Hh) ???. exists w0, s0. split; [done|]. by econstructor.
Qed.

(** All that the read-only calls need. *)
Definition agreeing (w : world) (s : sstate) : Prop := ∃ ds, winv w s ds.
Lemma agreeing_inv w s : agreeing w s → True ∧ ∃ ds, winv w s ds.
Proof. done. Qed.
Lemma reachable_agreeing w s : reachable w s → agreeing w s.
Proof. by intros [_ H]%reachable_inv. Qed.

(** One more call. *)
Lemma reachable_step w s o out dr w' :
  reachable w s → op_ok o → step w o = (out, dr, w') → good_side s o out →
  allowed s o out ∧ reachable w' (client_step s o out).
Proof.
  intros Hr Hop Hstep Hside. destruct (reachable_inv _ _ Hr) as [Hsv [ds HI]]. split.
  - by destruct (step_inv _ _ _ _ _ _ _ HI Hsv Hop Hstep Hside).
  - destruct Hr as [evs Hh]. eexists. by eapply good_history_step.
Qed.

(** ** Reading *)

Lemma reach_entities_at w s : agreeing w s →
  NoDup (world_entities w) ∧ (∀ e, e ∈ world_entities w ↔ s_alive s e) ∧
  (∀ e, world_contains w e = bool_decide (s_alive s e)).
Proof.
  intros (_ & ds & [HE _])%agreeing_inv. split_and!.
  - by eapply einv_nodup.
  - intros e. apply HE.
  - intros e. by apply estore_contains_alive.
Qed.
Lemma reach_entities w s : reachable w s →
  NoDup (world_entities w) ∧ (∀ e, e ∈ world_entities w ↔ s_alive s e) ∧
  (∀ e, world_contains w e = bool_decide (s_alive s e)).
Proof. exact (λ Hr, reach_entities_at w s (reachable_agreeing _ _ Hr)). Qed.

Lemma reach_registered_at w s t : agreeing w s → world_is_registered w t = bool_decide (t ∈ s_reg s).
Proof.
  intros (_ & ds & [_ HC])%agreeing_inv. unfold world_is_registered, is_registered.
  pose proof (ci_reg _ _ _ _ _ _ HC t) as H. destruct (cs_meta (w_comps w) !! t) as [m|] eqn:E.
  - symmetry. apply bool_decide_eq_true. apply H. eauto.
  - symmetry. apply bool_decide_eq_false. rewrite H. by intros [? ?].
Qed.
Lemma reach_registered w s t : reachable w s → world_is_registered w t = bool_decide (t ∈ s_reg s).
Proof. exact (λ Hr, reach_registered_at w s t (reachable_agreeing _ _ Hr)). Qed.

Section view.
  Context (w : world) (s : sstate) (ds : list dense) (HI : winv w s ds) (t : tid).

  Lemma view_cases :
    (t ∉ s_reg s ∧ cs_borrow (w_comps w) t = Panic) ∨
    ∃ c i d, t ∈ s_reg s ∧ cs_borrow (w_comps w) t = Ok (c, i) ∧ css_rep c d ∧
      (∀ e x, (e, x) ∈ d ↔ s_row s e !! t = Some x).
  Proof using HI.
    destruct HI as [HE HC].
    destruct (cs_borrow_ok _ _ _ _ _ _ HC t) as [?|(m & c & Ht & Hm & Hc & Hb)]; [by left|]. right.
    destruct (ci_lookup _ _ _ _ _ _ HC t m Hm) as (c' & d & Hc' & Hd & Hrep). simplify_eq.
    exists c, (m_info m), d. split_and!; try done. intros e x.
    rewrite (ci_data _ _ _ _ _ _ HC t m d e x Hm Hd). by rewrite am_has_row.
  Qed.
End view.

(** The table of a view: entities and values, aligned. *)
Lemma inv_view w s ds t : winv w s ds → t ∈ s_reg s →
  ∃ es vs, view_entities w t = Ok es ∧ view_slice w t = Ok vs ∧ view_len w t = Ok (length es) ∧
    length vs = length es ∧ NoDup es ∧ (∀ e x, (e, x) ∈ zip es vs ↔ s_row s e !! t = Some x) ∧
    (∀ e, view_contains w t e = Ok (bool_decide (is_Some (s_row s e !! t)))) ∧
    (∀ e, view_get w t e = Ok (s_row s e !! t)).
Proof.
  intros HI Ht.
  destruct (view_cases w s ds HI t) as [[? _]|(c & i & d & _ & Hb & Hrep & Hd)]; [done|].
  unfold view_entities, view_slice, view_len, view_contains, view_get. rewrite Hb.
  exists d.*1, d.*2. rewrite (css_entities_ok _ _ Hrep), (css_slice_ok _ _ Hrep), (cr_len _ _ Hrep).
  rewrite !fmap_length. split_and!; try done.
  - by apply (sparse_ok_nodup_ents _ _ (cr_sparse _ _ Hrep)).
  - intros e x. by rewrite zip_fst_snd.
  - intros e. f_equal. pose proof (css_contains_elem _ _ Hrep e) as H. rewrite dense_fst_elem in H.
    setoid_rewrite Hd in H. destruct (bool_decide_reflect (is_Some (s_row s e !! t))) as [Hy|Hn].
    + by apply H.
    + apply not_true_is_false. rewrite H. done.
  - intros e. destruct (s_row s e !! t) as [x|] eqn:Hx.
    + apply Hd, elem_of_list_lookup in Hx as [j Hj]. by apply (css_get_lookup _ _ Hrep) in Hj.
    + apply (css_get_None _ _ Hrep). rewrite dense_fst_elem. intros [x Hin%Hd]. congruence.
Qed.

Lemma inv_view_unreg w s ds t : winv w s ds → t ∉ s_reg s →
  view_entities w t = Panic ∧ view_slice w t = Panic ∧ view_len w t = Panic ∧
  (∀ e, view_contains w t e = Panic) ∧ (∀ e, view_get w t e = Panic).
Proof.
  intros HI Ht.
  destruct (view_cases w s ds HI t) as [[_ Hb]|(c & i & d & ? & _)]; [|done].
  unfold view_entities, view_slice, view_len, view_contains, view_get. rewrite Hb. done.
Qed.

Lemma inv_view_get w s ds t e : winv w s ds →
  view_get w t e = if decide (t ∈ s_reg s) then Ok (s_row s e !! t) else Panic.
Proof.
  intros Hr. destruct (decide (t ∈ s_reg s)) as [Ht|Ht].
  - by destruct (inv_view w s ds t Hr Ht) as (es & vs & _ & _ & _ & _ & _ & _ & _ & ?).
  - by destruct (inv_view_unreg w s ds t Hr Ht) as (_ & _ & _ & _ & ?).
Qed.

Lemma reach_view_at w s t : agreeing w s → t ∈ s_reg s →
  ∃ es vs, view_entities w t = Ok es ∧ view_slice w t = Ok vs ∧ view_len w t = Ok (length es) ∧
    length vs = length es ∧ NoDup es ∧ (∀ e x, (e, x) ∈ zip es vs ↔ s_row s e !! t = Some x) ∧
    (∀ e, view_contains w t e = Ok (bool_decide (is_Some (s_row s e !! t)))) ∧
    (∀ e, view_get w t e = Ok (s_row s e !! t)).
Proof. intros (_ & ds & HI)%agreeing_inv. by eapply inv_view. Qed.
Lemma reach_view w s t : reachable w s → t ∈ s_reg s →
  ∃ es vs, view_entities w t = Ok es ∧ view_slice w t = Ok vs ∧ view_len w t = Ok (length es) ∧
    length vs = length es ∧ NoDup es ∧ (∀ e x, (e, x) ∈ zip es vs ↔ s_row s e !! t = Some x) ∧
    (∀ e, view_contains w t e = Ok (bool_decide (is_Some (s_row s e !! t)))) ∧
    (∀ e, view_get w t e = Ok (s_row s e !! t)).
Proof. exact (λ Hr, reach_view_at w s t (reachable_agreeing _ _ Hr)). Qed.

Lemma reach_view_unreg_at w s t : agreeing w s → t ∉ s_reg s →
  view_entities w t = Panic ∧ view_slice w t = Panic ∧ view_len w t = Panic ∧
  (∀ e, view_contains w t e = Panic) ∧ (∀ e, view_get w t e = Panic).
Proof. intros (_ & ds & HI)%agreeing_inv. by eapply inv_view_unreg. Qed.
Lemma reach_view_unreg w s t : reachable w s → t ∉ s_reg s →
  view_entities w t = Panic ∧ view_slice w t = Panic ∧ view_len w t = Panic ∧
  (∀ e, view_contains w t e = Panic) ∧ (∀ e, view_get w t e = Panic).
Proof. exact (λ Hr, reach_view_unreg_at w s t (reachable_agreeing _ _ Hr)). Qed.

Lemma reach_view_get_at w s t e : agreeing w s →
  view_get w t e = if decide (t ∈ s_reg s) then Ok (s_row s e !! t) else Panic.
Proof. intros (_ & ds & HI)%agreeing_inv. by eapply inv_view_get. Qed.
Lemma reach_view_get w s t e : reachable w s →
  view_get w t e = if decide (t ∈ s_reg s) then Ok (s_row s e !! t) else Panic.
Proof. exact (λ Hr, reach_view_get_at w s t e (reachable_agreeing _ _ Hr)). Qed.

(** ** Queries *)

Lemma excl_simple X (r : row) :
  (∀ p, p ∈ X → part_required p) →
  (∀ t t', t ∈ required X → t' ∈ required X → t = t') →
  (required X = [] ∨ ¬ has_all r X) ↔ has_none r X.
Proof.
  intros _ Hs. unfold has_all, has_none. split.
  - intros [->|H] t Ht; [by apply elem_of_nil in Ht|]. apply eq_None_not_Some. intros Hx. apply H.
    intros t' Ht'. by rewrite (Hs t' t).
  - intros H. destruct (required X) as [|t l]; [by left|]. right. intros H'.
    specialize (H t ltac:(by left)). destruct (H' t ltac:(by left)). congruence.
Qed.

(** The entities visited, in the client's terms. *)
Lemma visits_exact s am G J X dn es :
  s_map s = am → visits am (s_grouped s) (s_loose s) G J X dn es → plain G J X → simple_exclude s X →
  ∀ e, e ∉ s_loose s → e ∈ es ↔ s_alive s e ∧ matches (s_row s e) G J X.
Proof.
  intros <- HV [Hreq Hplain] Hs e He. destruct dn.
  - destruct (vs_dense _ _ _ _ _ _ _ _ HV eq_refl) as (_ & Hg & H). specialize (H e He).
    assert (∀ t t', t ∈ required X → t' ∈ required X → t = t') as Hone.
    { destruct Hs as [?|(t & Ht & Hn)]; [done|]. by apply Hg in Ht. }
    rewrite (excl_simple X) in H by done. unfold matches.
    split; [|by intros (_ & ?); apply H]. intros Hin. split; [by apply (vs_sound _ _ _ _ _ _ _ _ HV)|by apply H].
  - rewrite (vs_sparse _ _ _ _ _ _ _ _ HV eq_refl e). rewrite (excl_none_plain _ X Hplain). unfold matches.
    split; [|naive_solver]. intros (_ & HG & HJ & HX). split; [|done].
    destruct (required (G ++ J)) as [|t l] eqn:E; [done|].
    assert (t ∈ required (G ++ J)) as Ht by (rewrite E; by left).
    rewrite required_app, elem_of_app in Ht.
    destruct Ht as [Ht|Ht]; [destruct (HG t Ht) as [x Hx]|destruct (HJ t Ht) as [x Hx]];
      by apply (row_alive (s_map s) e t x).
Qed.

Lemma visits_sparse_exact s G J X es :
  visits (s_map s) (s_grouped s) (s_loose s) G J X false es → plain G J X →
  ∀ e, e ∈ es ↔ s_alive s e ∧ matches (s_row s e) G J X.
Proof.
  intros HV [Hreq Hplain] e.
  rewrite (vs_sparse _ _ _ _ _ _ _ _ HV eq_refl e). rewrite (excl_none_plain _ X Hplain). unfold matches.
  split; [|naive_solver]. intros (_ & HG & HJ & HX). split; [|done].
  destruct (required (G ++ J)) as [|t l] eqn:E; [done|].
  assert (t ∈ required (G ++ J)) as Ht by (rewrite E; by left).
  rewrite required_app, elem_of_app in Ht.
  destruct Ht as [Ht|Ht]; [destruct (HG t Ht) as [x Hx]|destruct (HJ t Ht) as [x Hx]];
    by apply (row_alive (s_map s) e t x).
Qed.

(** What [query_all] yields. [cells] says where the items point. *)
Lemma query_all_at w s ds G J X :
  winv w s ds → query_ok s G J X →
  ∃ es its dn, query_all w G J X = Ok its ∧ query_is_dense w G J X = Ok dn ∧
    Forall2 (λ e it, items_ok (w_comps w) ds (s_map s) e G it) es its ∧
    visits (s_map s) (s_grouped s) (s_loose s) G J X dn es.
Proof.
  intros [HE HC] [Hreg Hnc]. unfold query_all, query_is_dense.
  destruct (borrow3_ok w ds _ _ _ _ HC G J X) as [[Hn _]|(g & i & x & _ & _ & -> & [G1 G2] & [J1 J2] & [X1 X2])].
  { by destruct Hn. }
  destruct (query_iter_ok _ _ _ _ _ _ HC G J X g i x) as (it & -> & Hit); try done.
  destruct (iter_fold_ok _ _ _ _ _ _ HC G J X g i x it) as (es & its & -> & Hits & HV); try done.
  exists es, its, (iter_dense it). split_and!; try done. by destruct it.
Qed.

Lemma query_all_panics w s ds G J X :
  winv w s ds → ¬ query_ok s G J X → query_all w G J X = Panic.
Proof.
  intros [HE HC] Hn. unfold query_all.
  destruct (borrow3_ok w ds _ _ _ _ HC G J X) as [[_ ->]|(g & i & x & H1 & H2 & _)]; [done|].
  by destruct Hn.
Qed.

Lemma items_answers w s ds G es its :
  winv w s ds → Forall2 (λ e it, items_ok (w_comps w) ds (s_map s) e G it) es its → answers s G es its.
Proof.
  intros [_ HC] H. eapply Forall2_impl; [done|]. intros e it Hit. by eapply (items_ok_sees _ _ _ _ _ _ HC).
Qed.

Lemma reach_query_all_at w s G J X :
  agreeing w s → query_ok s G J X →
  ∃ es its, query_all w G J X = Ok its ∧ NoDup es ∧ answers s G es its ∧
    (∀ e, e ∈ es → s_alive s e ∧ has_all (s_row s e) G ∧ has_all (s_row s e) J) ∧
    (plain G J X → simple_exclude s X →
     ∀ e, e ∉ s_loose s → e ∈ es ↔ s_alive s e ∧ matches (s_row s e) G J X) ∧
    (plain G J X → query_is_dense w G J X = Ok false →
     ∀ e, e ∈ es ↔ s_alive s e ∧ matches (s_row s e) G J X).
Proof.
  intros (_ & ds & HI)%agreeing_inv Hq.
  destruct (query_all_at w s ds G J X HI Hq) as (es & its & dn & H1 & H2 & H3 & HV).
  exists es, its. split_and!; try done.
  - apply HV.
  - by eapply items_answers.
  - apply HV.
  - intros Hp Hs. by eapply visits_exact.
  - intros Hp Hd. rewrite H2 in Hd. simplify_eq. by apply visits_sparse_exact.
Qed.
Lemma reach_query_all w s G J X :
  reachable w s → query_ok s G J X →
  ∃ es its, query_all w G J X = Ok its ∧ NoDup es ∧ answers s G es its ∧
    (∀ e, e ∈ es → s_alive s e ∧ has_all (s_row s e) G ∧ has_all (s_row s e) J) ∧
    (plain G J X → simple_exclude s X →
     ∀ e, e ∉ s_loose s → e ∈ es ↔ s_alive s e ∧ matches (s_row s e) G J X) ∧
    (plain G J X → query_is_dense w G J X = Ok false →
     ∀ e, e ∈ es ↔ s_alive s e ∧ matches (s_row s e) G J X).
Proof. exact (λ Hr, reach_query_all_at w s G J X (reachable_agreeing _ _ Hr)). Qed.

Lemma reach_query_all_panics_at w s G J X :
  agreeing w s → ¬ query_ok s G J X → query_all w G J X = Panic.
Proof. intros (_ & ds & HI)%agreeing_inv Hq. by eapply query_all_panics. Qed.
Lemma reach_query_all_panics w s G J X :
  reachable w s → ¬ query_ok s G J X → query_all w G J X = Panic.
Proof. exact (λ Hr, reach_query_all_panics_at w s G J X (reachable_agreeing _ _ Hr)). Qed.

Lemma query_one_at w s ds G J X e :
  winv w s ds → query_ok s G J X →
  ∃ r, query_one w G J X e = Ok r ∧ query_one_contains w G J X e = Ok (bool_decide (is_Some r)) ∧
    match r with
    | None => ¬ (has_all (s_row s e) G ∧ has_all (s_row s e) J ∧ excl_none (s_row s e) X)
    | Some it => has_all (s_row s e) G ∧ has_all (s_row s e) J ∧ excl_none (s_row s e) X ∧
                 items_ok (w_comps w) ds (s_map s) e G it
    end.
Proof.
  intros [HE HC] [Hreg Hnc]. unfold query_one, query_one_contains.
  destruct (borrow3_ok w ds _ _ _ _ HC G J X) as [[Hn _]|(g & i & x & _ & _ & -> & [G1 _] & [J1 _] & [X1 _])].
  { by destruct Hn. }
  destruct (one_get_ok _ _ _ _ _ _ HC G J X g i x e) as (r & -> & Hr); try done.
  pose proof (one_contains_iff _ _ _ _ _ _ HC G J X g i x e G1 J1 X1) as Hc.
  exists r. split_and!; try done. f_equal. destruct r as [it|].
  - rewrite bool_decide_true by eauto. apply Hc. naive_solver.
  - rewrite bool_decide_false by (by intros [? ?]). apply not_true_is_false. by rewrite Hc.
Qed.

Lemma reach_query_one_at w s G J X e :
  agreeing w s → query_ok s G J X →
  ∃ r, query_one w G J X e = Ok r ∧ query_one_contains w G J X e = Ok (bool_decide (is_Some r)) ∧
    (∀ it, r = Some it → sees e (s_row s e) G = Some (abs_item <$> it)) ∧
    ((∀ p, p ∈ X → part_required p) → is_Some r ↔ matches (s_row s e) G J X).
Proof.
  intros (_ & ds & HI)%agreeing_inv Hq.
  destruct (query_one_at w s ds G J X e HI Hq) as (r & H1 & H2 & H3). pose proof HI as [_ HC].
  exists r. split_and!; try done.
  - intros it ->. destruct H3 as (_ & _ & _ & H3). by eapply (items_ok_sees _ _ _ _ _ _ HC).
  - intros Hp. unfold matches. destruct r as [it|].
    + destruct H3 as (? & ? & H3 & _). rewrite (excl_none_plain _ X Hp) in H3. split; eauto.
    + rewrite (excl_none_plain _ X Hp) in H3. split; [by intros [? ?]|done].
Qed.
Lemma reach_query_one w s G J X e :
  reachable w s → query_ok s G J X →
  ∃ r, query_one w G J X e = Ok r ∧ query_one_contains w G J X e = Ok (bool_decide (is_Some r)) ∧
    (∀ it, r = Some it → sees e (s_row s e) G = Some (abs_item <$> it)) ∧
    ((∀ p, p ∈ X → part_required p) → is_Some r ↔ matches (s_row s e) G J X).
Proof. exact (λ Hr, reach_query_one_at w s G J X e (reachable_agreeing _ _ Hr)). Qed.

Lemma matches_alive s G J e :
  required (G ++ J) ≠ [] → has_all (s_row s e) G → has_all (s_row s e) J → s_alive s e.
Proof.
  intros Hreq HG HJ. destruct (required (G ++ J)) as [|t l] eqn:E; [done|].
  assert (t ∈ required (G ++ J)) as Ht by (rewrite E; by left).
  rewrite required_app, elem_of_app in Ht.
  destruct Ht as [Ht|Ht]; [destruct (HG t Ht) as [x Hx]|destruct (HJ t Ht) as [x Hx]];
    by apply (row_alive (s_map s) e t x).
Qed.

(** The item of an entity is the same in [query_one] and [query_all]: the same
    cells, hence the same references. *)
Lemma reach_one_all_at w s G J X :
  agreeing w s → query_ok s G J X → plain G J X → simple_exclude s X →
  ∃ es its, query_all w G J X = Ok its ∧ NoDup es ∧ length es = length its ∧
    ∀ e, e ∉ s_loose s → ∃ r, query_one w G J X e = Ok r ∧ query_one_contains w G J X e = Ok (bool_decide (e ∈ es)) ∧
      ∀ it, r = Some it ↔ (e, it) ∈ zip es its.
Proof.
  intros (_ & ds & HI)%agreeing_inv Hq Hp Hs.
  destruct (query_all_at w s ds G J X HI Hq) as (es & its & dn & H4 & H5 & H6 & HV).
  pose proof HI as [_ HC].
  exists es, its. split_and!; [done|apply HV|by eapply Forall2_length|]. intros e He.
  destruct (query_one_at w s ds G J X e HI Hq) as (r & H1 & H2 & H3).
  pose proof (visits_exact s _ G J X dn es eq_refl HV Hp Hs e He) as Hex.
  exists r. split; [done|].
  assert (is_Some r ↔ e ∈ es) as Hr.
  { rewrite Hex. unfold matches. destruct r as [it|].
    - destruct H3 as (HG & HJ & HX & _). rewrite (excl_none_plain _ X) in HX by apply Hp.
      split; [|by eauto]. intros _. split; [|done]. eapply matches_alive; [apply Hp|done..].
    - rewrite (excl_none_plain _ X) in H3 by apply Hp. split; [by intros [? ?]|naive_solver]. }
  split.
  { rewrite H2. f_equal. by apply bool_decide_ext. }
  intros it. split.
  - intros ->. assert (e ∈ es) as Hin by (by apply Hr). destruct H3 as (_ & _ & _ & Hit).
    apply elem_of_list_lookup in Hin as [k Hk].
    destruct (Forall2_lookup_l _ _ _ _ _ H6 Hk) as (it' & Hit' & Hok).
    rewrite (items_ok_fun _ _ _ _ _ _ HC e G it it') by done.
    apply elem_of_list_lookup. exists k. rewrite lookup_zip_with, Hk. simpl. by rewrite Hit'.
  - intros [k Hk]%elem_of_list_lookup. rewrite lookup_zip_with in Hk.
    destruct (es !! k) as [e'|] eqn:Ee; [|done]. simpl in Hk. destruct (its !! k) as [it'|] eqn:Ei; simplify_eq/=.
    pose proof (Forall2_lookup_lr _ _ _ _ _ _ H6 Ee Ei) as Hok. simpl in Hok.
    destruct Hr as [_ Hr]. destruct (Hr ltac:(by eapply elem_of_list_lookup_2)) as [it2 ->].
    destruct H3 as (_ & _ & _ & Hit). f_equal. by apply (items_ok_fun _ _ _ _ _ _ HC e G).
Qed.
Lemma reach_one_all w s G J X :
  reachable w s → query_ok s G J X → plain G J X → simple_exclude s X →
  ∃ es its, query_all w G J X = Ok its ∧ NoDup es ∧ length es = length its ∧
    ∀ e, e ∉ s_loose s → ∃ r, query_one w G J X e = Ok r ∧ query_one_contains w G J X e = Ok (bool_decide (e ∈ es)) ∧
      ∀ it, r = Some it ↔ (e, it) ∈ zip es its.
Proof. exact (λ Hr, reach_one_all_at w s G J X (reachable_agreeing _ _ Hr)). Qed.

(** ** for_each *)

Lemma assign_dom f seen q : ∀ k r t, is_Some (assign f seen k q r !! t) ↔ is_Some (r !! t).
Proof.
  induction q as [|p q IH]; intros k r t; [done|]. rewrite assign_cons, IH. unfold assign_one.
  assert (∀ t' v, is_Some ((if decide (is_Some (r !! t')) then <[t' := v]> r else r) !! t) ↔ is_Some (r !! t)) as H.
  { intros t' v. destruct (decide (is_Some (r !! t'))) as [Hs|]; [|done].
    destruct (decide (t' = t)) as [->|Hne]; [rewrite lookup_insert|by rewrite lookup_insert_ne]. split; [done|eauto]. }
  destruct p; try done; destruct (f k seen); try done; apply H.
Qed.

Lemma reach_for_each w s G J X f :
  reachable w s → query_ok s G J X →
  ∃ es vs dr w', step w (OForEach G J X f) = (Ret (RWrote es vs), dr, w') ∧ NoDup es ∧
    (plain G J X → simple_exclude s X →
     ∀ e, e ∉ s_loose s → e ∈ es ↔ s_alive s e ∧ matches (s_row s e) G J X) ∧
    reachable w' (client_step s (OForEach G J X f) (Ret (RWrote es vs))).
Proof.
  intros Hr Hq. pose proof (reachable_inv _ _ Hr) as (Hsv & ds & HI). pose proof HI as [HE HC].
  destruct (query_for_each_ok w ds _ _ _ _ G J X f HC) as
    [[Hn _]|(s' & ds' & es & o & n & dn & Hrg & Hc & Hf & HC' & HW & HV & _)]; [by destruct Hn|].
  exists es, n, o, (World (w_ents w) s').
  assert (step w (OForEach G J X f) = (Ret (RWrote es n), o, World (w_ents w) s')) as Hstep.
  { simpl. unfold world_for_each. by rewrite Hf. }
  split_and!; [done|apply HV|intros; by eapply visits_exact|].
  eapply (reachable_step _ _ _ _ _ _ Hr); [done|done|]. split; [done|].
  simpl. intros t e1 e2 Ht. simpl in Ht.
  assert (∀ e, is_Some (s_row (with_map s (visit_all G f es (s_map s))) e !! t) → is_Some (s_row s e !! t)) as Hdom.
  { intros e. unfold s_row; simpl. unfold visit_all. rewrite map_lookup_imap.
    destruct (s_map s !! e) as [r|]; simpl; [|done]. case_decide; [|done]. unfold visit_row.
    destruct (sees e r G); [|done]. apply assign_dom. }
  intros H1%Hdom H2%Hdom. by apply (Hsv t).
Qed.
