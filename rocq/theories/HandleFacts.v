(** Versions of handles, exhaustion and dense positions. *)
From Verif Require Import Base Lists SparseVecM EntityM CssM MaskM LayoutM GroupM StorageM WorldM QueryM StepM
  SparseProofs CssProofs MaskProofs GroupProofs Spec SpecMore EntityProofs LayoutProofs StorageProofs StoreOps LayoutOps
  WorldProofs QueryProofs QueryRange QueryIter ForEachProofs History EntityRun EntityHistory Lockstep.

Lemma issued_snoc evs o out ds :
  issued (evs ++ [(o, out, ds)]) = match o with OReset => [] | _ => issued evs ++ reported out end.
Proof. unfold issued. by rewrite foldl_app. Qed.

Lemma history_issued w0 s0 evs w s :
  einv (w_ents w0) s0 → s_issued s0 = ∅ → history tidy_side w0 s0 evs w s →
  s_issued s = list_to_set (issued evs).
Proof.
  intros HE H0 Hh. induction Hh as [|evs w1 s1 o out dr w2 Hh IH Hop Hstep Hside]; [done|].
  pose proof (history_einv _ _ _ _ _ HE Hh) as HE1. rewrite issued_snoc.
  assert (o = OReset ∨ o ≠ OReset) as [->|Hne] by (destruct o; auto); [done|].
  destruct (client_step_sets _ _ _ _ _ _ HE1 Hstep Hside Hne) as (-> & _ & _). rewrite IH.
  assert (match o with OReset => [] | _ => issued evs ++ reported out end = issued evs ++ reported out) as ->
    by (by destruct o). by rewrite list_to_set_app_L.
Qed.

Lemma tidy_issued evs w s : tidy_history evs w s → s_issued s = list_to_set (issued evs).
Proof.
  intros (w0 & s0 & Hb & Hh). eapply history_issued; [by apply built_einv| |done].
  by destruct Hb as (? & ? & ? & _ & _ & ->).
Qed.

(** *** C09 *)

Lemma tidy_valid evs w s : tidy_history evs w s → ∀ e, e ∈ issued evs → entity_valid e.
Proof.
  intros Ht e He. pose proof Ht as HE%tidy_einv.
  apply (ai_valid _ _ _ _ _ _ (ei_alloc _ _ HE)). left. rewrite (tidy_issued _ _ _ Ht). by apply elem_of_list_to_set.
Qed.

Lemma tidy_exhausted evs w s o out ds w' :
  tidy_history evs w s → (∃ cs, o = OCreate cs) ∨ o = OCreateAtomic →
  step w o = (out, ds, w') → tidy_side s o out → reported out = [] →
  ∀ i, (i < u32_lim)%N → ∃ e, e ∈ issued evs ∧ e_index e = i.
Proof.
  intros Ht Ho Hs Hside Hr. pose proof Ht as HE%tidy_einv.
  destruct (step_ents _ _ _ _ _ _ HE Hs Hside) as [_ Ha].
  assert ((∃ e, reported out = [e] ∧ new_handle s e) ∨ (reported out = [] ∧ exhausted s)) as Hc.
  { destruct Ho as [[cs ->]| ->]; exact Ha. }
  destruct Hc as [(e & He & _)|[_ [_ Hex]]]; [congruence|].
  intros i (e & He & Hi)%Hex. exists e. split; [|done]. rewrite (tidy_issued _ _ _ Ht) in He.
  by apply elem_of_list_to_set in He.
Qed.

Lemma new_handle_version st s e e' :
  einv st s → new_handle s e → e' ∈ s_issued s → e_index e' = e_index e → (e_version e' < e_version e)%N.
Proof.
  intros HE (_ & _ & [Hf|(_ & _ & Hn)]) He' Hi.
  - by eapply (ai_free_version _ _ _ _ _ _ (ei_alloc _ _ HE)).
  - by destruct (Hn e').
Qed.

Lemma new_handles_version st s es : ∀ s', einv st s → s_free s' ⊆ s_free s → s_issued s ⊆ s_issued s' →
  new_handles s' es → ∀ e e', e ∈ es → e' ∈ s_issued s → e_index e' = e_index e → (e_version e' < e_version e)%N.
Proof.
  induction es as [|x es IH]; intros s' HE Hf Hi Hn e e' He He' Hix; [by apply elem_of_nil in He|].
  destruct Hn as [(_ & _ & Hx) Hn]. apply elem_of_cons in He as [->|He].
  - destruct Hx as [Hx|(_ & _ & Hx)].
    + eapply (ai_free_version _ _ _ _ _ _ (ei_alloc _ _ HE)); auto.
    + by destruct (Hx e'); auto.
  - eapply (IH (add_entity s' x ∅)); try done; simpl; set_solver.
Qed.

(** Later handles of an index have higher versions. *)
Lemma tidy_versions_increase evs1 o1 out1 ds1 evs2 o2 out2 ds2 w s e1 e2 :
  tidy_history (evs1 ++ (o1, out1, ds1) :: evs2 ++ [(o2, out2, ds2)]) w s →
  no_reset (evs2 ++ [(o2, out2, ds2)]) →
  e1 ∈ reported out1 → e2 ∈ reported out2 → e_index e1 = e_index e2 → (e_version e1 < e_version e2)%N.
Proof.
  intros (w0 & s0 & Hb & Hh) Hnr He1 He2 Hi.
  apply history_app_inv in Hh as (w1 & s1 & Hh1 & Hh2).
  pose proof (history_einv _ _ _ _ _ (built_einv _ _ Hb) Hh1) as HE1.
  apply history_cons_inv in Hh2 as (w2 & Hop & Hstep & Hside & Hh2).
  pose proof (step_ents _ _ _ _ _ _ HE1 Hstep Hside) as [HE2 _].
  assert (o1 ≠ OReset) as Ho1.
  { intros ->. simpl in Hstep. unfold world_reset in Hstep.
    destruct (cstore_clear (w_comps w1)) as [[cs dr]| |]; simplify_eq; by apply elem_of_nil in He1. }
  destruct (client_step_sets _ _ _ _ _ _ HE1 Hstep Hside Ho1) as (Hi1 & _ & _).
  apply history_app_inv in Hh2 as (w3 & s3 & Hh3 & Hh4).
  pose proof (history_einv _ _ _ _ _ HE2 Hh3) as HE3.
  assert (no_reset evs2) as Hnr2 by (intros ????; eapply Hnr; by apply elem_of_app; left).
  destruct (history_gone _ _ _ _ _ e1 HE2 Hh3 Hnr2) as (Hi3 & _ & _); [rewrite Hi1; set_solver|].
  apply history_cons_inv in Hh4 as (w4 & Hop4 & Hstep4 & Hside4 & Hh4).
  destruct (step_ents _ _ _ _ _ _ HE3 Hstep4 Hside4) as [_ Ha].
  assert ((∃ e, reported out2 = [e] ∧ new_handle s3 e) ∨ new_handles s3 (reported out2)) as [(e & He & Hn)|Hn].
  { destruct o2; simpl in Ha; try (right; by rewrite Ha); try (by right); try (destruct Ha as [?|[-> _]]; [by left|by right]). }
  - rewrite He in He2. apply elem_of_list_singleton in He2 as ->. by eapply new_handle_version.
  - by eapply (new_handles_version _ s3 _ s3).
Qed.

Lemma tidy_retired evs1 o1 out1 ds1 evs2 o2 out2 ds2 w s e1 :
  tidy_history (evs1 ++ (o1, out1, ds1) :: evs2 ++ [(o2, out2, ds2)]) w s →
  no_reset (evs2 ++ [(o2, out2, ds2)]) →
  e1 ∈ reported out1 → e_version e1 = version_last →
  ∀ e2, e2 ∈ reported out2 → e_index e2 ≠ e_index e1.
Proof.
  intros Ht Hnr He1 Hv e2 He2 Hi.
  pose proof (tidy_versions_increase _ _ _ _ _ _ _ _ _ _ _ _ Ht Hnr He1 He2 (eq_sym Hi)) as Hlt.
  assert (entity_valid e2) as (_ & _ & Hb).
  { eapply tidy_valid; [done|]. rewrite app_comm_cons, (assoc_L (++)), issued_snoc.
    assert (o2 ≠ OReset) as Ho. { eapply Hnr. apply elem_of_app; right. by apply elem_of_list_singleton. }
    destruct o2; try done; apply elem_of_app; by right. }
  rewrite Hv in Hlt. unfold version_last in Hlt. lia.
Qed.

(** *** C10 *)

Lemma sparse_ok_small sp es : sparse_ok sp es → small es → (N.of_nat (length es) ≤ u32_lim)%N.
Proof.
  intros Hok Hs. rewrite <-(fmap_length e_index). apply pigeonhole; [by eapply sparse_ok_nodup|by apply Forall_fmap].
Qed.

Lemma tidy_positions evs w s : tidy_history evs w s →
  ∀ i e, world_entities w !! i = Some e ↔
    (N.of_nat i < u32_lim)%N ∧ sv_get (es_sparse (st_set (w_ents w))) e = Some (N.of_nat i).
Proof.
  intros HE%tidy_einv i e. destruct (ei_set _ _ HE) as [Hok Hs].
  rewrite (sv_get_Some _ _ Hok), Nat2N.id. split; [|by intros [_ ?]].
  intros H. split; [|done]. pose proof (sparse_ok_small _ _ Hok Hs). apply lookup_lt_Some in H.
  unfold world_entities, estore_slice in H. lia.
Qed.

Lemma reach_positions w s t c i : reachable w s → cs_borrow (w_comps w) t = Ok (c, i) →
  ∃ es, view_entities w t = Ok es ∧
  ∀ k e, es !! k = Some e ↔ (N.of_nat k < u32_lim)%N ∧ sv_get (c_sparse c) e = Some (N.of_nat k).
Proof.
  intros (_ & d & HI)%reachable_inv Hb.
  destruct (view_cases w s d HI t) as [[_ Hb']|(c' & i' & dn & _ & Hb' & Hrep & Hd)]; [congruence|].
  rewrite Hb in Hb'. injection Hb' as <- <-. exists dn.*1. unfold view_entities. rewrite Hb.
  split; [by apply css_entities_ok|]. intros k e. pose proof (cr_sparse _ _ Hrep) as Hok.
  rewrite (sv_get_Some _ _ Hok), Nat2N.id. split; [|by intros [_ ?]]. intros H. split; [|done].
  assert (small dn.*1) as Hs.
  { apply Forall_forall. intros e' [v Hv]%dense_fst_elem. apply Hd in Hv. destruct HI as [_ HC].
    apply (am_small _ (ci_am _ _ _ _ _ _ HC)). unfold s_row in Hv. destruct (s_map s !! e'); [eauto|].
    simpl in Hv. by rewrite lookup_empty in Hv. }
  pose proof (sparse_ok_small _ _ Hok Hs). apply lookup_lt_Some in H. lia.
Qed.

(** ** The same over whole histories *)

Lemma tidy_prefix evs1 evs2 w s : tidy_history (evs1 ++ evs2) w s → ∃ w1 s1, tidy_history evs1 w1 s1.
Proof. intros (w0 & s0 & Hb & Hh). apply history_app_inv in Hh as (w1 & s1 & Hh1 & _). exists w1, s1, w0, s0. done. Qed.

Lemma tidy_never_twice evs w s : tidy_history evs w s → never_twice evs.
Proof.
  intros Ht. split.
  - intros evs1 o out ds evs2 ->. rewrite cons_middle, (assoc_L (++)) in Ht.
    apply tidy_prefix in Ht as (w1 & s1 & Ht). by eapply tidy_handles_nodup.
  - intros evs1 o1 out1 ds1 evs2 o2 out2 ds2 evs3 -> Hnr.
    assert (evs1 ++ (o1, out1, ds1) :: evs2 ++ (o2, out2, ds2) :: evs3 =
            (evs1 ++ (o1, out1, ds1) :: evs2 ++ [(o2, out2, ds2)]) ++ evs3) as Heq.
    { rewrite <-(assoc_L (++)). simpl. by rewrite <-(assoc_L (++)). }
    rewrite Heq in Ht. apply tidy_prefix in Ht as (w1 & s1 & Ht). by eapply tidy_handles_distinct.
Qed.

Lemma tidy_stays_dead evs w s : tidy_history evs w s → stays_dead evs w.
Proof. intros Ht evs1 e ds evs2 -> Hnr. by destruct (tidy_destroyed _ _ _ _ _ _ Ht Hnr) as (? & ? & _). Qed.

Lemma tidy_lists_entities evs w s : tidy_history evs w s → lists_entities w.
Proof.
  intros (H1 & H2 & H3 & H4)%tidy_entities. split_and!; try done.
  unfold world_is_empty. by destruct (world_entities w).
Qed.

Lemma add_rows_queued ts es : ∀ s rows, s_queued (add_rows s ts es rows) = s_queued s.
Proof. intros s rows. apply add_rows_sets. Qed.

Lemma client_step_queued s o out :
  s_queued (client_step s o out) =
  match o with
  | OCreateAtomic => s_queued s ∪ list_to_set (reported out)
  | OMaintain | OClear | OReset => ∅
  | _ => s_queued s
  end.
Proof.
  assert (∀ s b es, s_queued (loosen s b es) = s_queued s) as Hl by (by intros ? [] ?).
  destruct o; simpl; try done; rewrite ?Hl.
  - generalize (reported out). intros l. revert s. induction l; intros s; simpl; [done|]. by rewrite IHl.
  - by rewrite add_rows_queued.
  - by destruct (decide _).
  - generalize (reported out). intros l. revert s. induction l as [|x l IH]; intros s; simpl; [set_solver|].
    rewrite IH. simpl. set_solver.
  - destruct (decide _); [|done]. by rewrite Hl.
  - by destruct (decide _).
  - by destruct (decide _).
  - by destruct out as [[]| |].
Qed.

Lemma history_queued side w0 s0 evs w s :
  s_queued s0 = ∅ → history side w0 s0 evs w s → s_queued s = list_to_set (queued evs).
Proof.
  intros H0. induction 1 as [|evs w1 s1 o out dr w2 Hh IH Hop Hstep Hside]; [done|].
  rewrite client_step_queued, IH.
  assert (queued (evs ++ [(o, out, dr)]) = match o with
            | OCreateAtomic => queued evs ++ reported out
            | OMaintain | OClear | OReset => []
            | _ => queued evs
            end) as -> by (unfold queued; by rewrite foldl_app).
  destruct o; try done. by rewrite list_to_set_app_L.
Qed.

Lemma tidy_queued evs w s : tidy_history evs w s → s_queued s = list_to_set (queued evs).
Proof.
  intros (w0 & s0 & (? & ? & ? & _ & _ & ->) & Hh). by eapply history_queued in Hh.
Qed.

Lemma tidy_maintained evs out ds w s : tidy_history (evs ++ [(OMaintain, out, ds)]) w s →
  ∃ w1 s1, tidy_history evs w1 s1 ∧ step w1 OMaintain = (out, ds, w) ∧
  out = Ret RUnit ∧ ds = [] ∧
  (∀ e, world_contains w e = true ↔ world_contains w1 e = true ∨ e ∈ queued evs) ∧
  (∀ t e, view_get w t e = view_get w1 t e) ∧
  (∀ t, world_is_registered w t = world_is_registered w1 t).
Proof.
  intros (w0 & s0 & Hb & Hh). pose proof (history_snoc_inv _ _ _ _ _ _ _ _ _ _ Hh eq_refl) as
    (w1 & s1 & Hh1 & Hop & Hstep & [Htidy _] & ->).
  assert (tidy_history evs w1 s1) as Ht1 by (by exists w0, s0).
  destruct (tidy_maintain _ _ _ _ _ _ Ht1 (Htidy eq_refl) Hstep) as (-> & -> & Hc & He).
  exists w1, s1. split_and!; try done.
  - intros e. rewrite He, (tidy_queued _ _ _ Ht1). by rewrite elem_of_list_to_set.
  - intros t e. unfold view_get. by rewrite Hc.
  - intros t. unfold world_is_registered. by rewrite Hc.
Qed.

Lemma tidy_out_of_handles evs o out ds w s :
  tidy_history (evs ++ [(o, out, ds)]) w s → (∃ cs, o = OCreate cs) ∨ o = OCreateAtomic → reported out = [] →
  ∀ i, (i < u32_lim)%N → ∃ e, e ∈ issued evs ∧ e_index e = i.
Proof.
  intros (w0 & s0 & Hb & Hh) Ho Hr. pose proof (history_snoc_inv _ _ _ _ _ _ _ _ _ _ Hh eq_refl) as
    (w1 & s1 & Hh1 & Hop & Hstep & Hside & ->).
  eapply tidy_exhausted; [by exists w0, s0|done..].
Qed.
