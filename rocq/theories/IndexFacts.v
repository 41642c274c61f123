(** What becomes of the indices. *)
From Verif Require Import Base Lists SparseVecM EntityM CssM MaskM LayoutM GroupM StorageM WorldM QueryM StepM
  SparseProofs Spec SpecMore EntityProofs EntityRun EntityHistory SpecListing ListingFacts SpecSpace SpaceRun SpecIndex
  HandleFacts.

Lemma give_prefix n : ∀ p es p', give n p = (es, p') → give (length es) p = (es, p').
Proof.
  induction n as [|n IH]; intros p es p' H; simpl in H; [by simplify_eq|].
  destruct (give_one p) as [[e p1]|] eqn:E; [|by simplify_eq].
  destruct (give n p1) as [es1 p2] eqn:E2. simplify_eq. simpl. rewrite E. by rewrite (IH _ _ _ E2).
Qed.

Lemma give_count n : ∀ p es p', give n p = (es, p') →
  N.to_nat (p_next p') + length (p_wait p) = N.to_nat (p_next p) + length (p_wait p') + length es ∧
  (p_next p' = p_next p ∨ p_wait p' = []).
Proof.
  induction n as [|n IH]; intros p es p' H; simpl in H; [simplify_eq; simpl; split; [lia|by left]|].
  destruct (give_one p) as [[e p1]|] eqn:E; [|simplify_eq; simpl; split; [lia|by left]].
  destruct (give n p1) as [es1 p2] eqn:E2. simplify_eq. destruct (IH _ _ _ E2) as [H1 H2].
  unfold give_one in E. destruct p as [[|x l] k]; simpl in *.
  - destruct (decide _); [|done]. simplify_eq. simpl in *. split; [lia|]. right.
    destruct H2 as [H2|]; [|done]. destruct (p_wait p'); [done|]. simpl in *. lia.
  - simplify_eq. simpl in *. split; [lia|done].
Qed.

Lemma counted_snoc evs o out ds : counted (evs ++ [(o, out, ds)]) = census_step (counted evs) o out.
Proof. unfold counted. by rewrite foldl_app. Qed.
Lemma pooled_snoc evs o out ds : pooled (evs ++ [(o, out, ds)]) = pool_step (pooled evs) o out.
Proof. unfold pooled. by rewrite foldl_app. Qed.
Lemma listed_snoc evs o out ds : listed (evs ++ [(o, out, ds)]) = list_step (listed evs) o out.
Proof. unfold listed. by rewrite foldl_app. Qed.

Lemma arrivals_length q : length (arrivals q) = length q.
Proof.
  unfold arrivals. rewrite app_length, reverse_length.
  induction q as [|e q IH]; [done|]. rewrite !filter_cons.
  destruct (decide (e_version e = version_first)) as [Hv|Hv].
  - rewrite decide_False by (by intros ?). simpl. lia.
  - rewrite decide_True by done. simpl. lia.
Qed.

Lemma fill_hole_length e l : e ∈ l → S (length (fill_hole e l)) = length l.
Proof.
  intros He. unfold fill_hole. rewrite decide_True by done. rewrite last_lookup.
  destruct l as [|x l]; [by apply elem_of_nil in He|].
  destruct (lookup_lt_is_Some_2 (x :: l) (pred (length (x :: l)))) as [z Hz]; [simpl; lia|]. rewrite Hz.
  rewrite fmap_length, take_length. simpl. lia.
Qed.

(** One call changes the counts as the lists. *)
Record count_inv (evs : list event) : Prop := {
  ci_pop : n_pop (counted evs) = length (ls_ents (listed evs)) + length (ls_queue (listed evs));
  ci_next : N.to_nat (p_next (pooled evs)) =
            n_pop (counted evs) + length (p_wait (pooled evs)) + n_lost (counted evs);
  ci_peak : N.to_nat (p_next (pooled evs)) ≤ n_peak (counted evs) + n_lost (counted evs);
  ci_most : n_pop (counted evs) ≤ n_peak (counted evs)
}.

Lemma count_quiet evs o out ds :
  reported out = [] → census_step (counted evs) o out = 
    (let n := n_pop (counted evs) + length (reported out) in
     Census n (n_peak (counted evs) `max` n) (n_retired (counted evs)) (n_cleared (counted evs))) →
  pool_step (pooled evs) o out = (give (length (reported out)) (pooled evs)).2 →
  length (ls_ents (list_step (listed evs) o out)) + length (ls_queue (list_step (listed evs) o out)) =
    length (ls_ents (listed evs)) + length (ls_queue (listed evs)) →
  count_inv evs → count_inv (evs ++ [(o, out, ds)]).
Proof.
  intros Hr Hc Hp Hl []. unfold n_lost in *. rewrite Hr in *. simpl in *.
  split; unfold n_lost; rewrite ?counted_snoc, ?pooled_snoc, ?listed_snoc, ?Hc, ?Hp; simpl; lia.
Qed.

Lemma count_step evs w s o out ds w' :
  tidy_history evs w s → step w o = (out, ds, w') → tidy_side s o out →
  count_inv evs → count_inv (evs ++ [(o, out, ds)]).
Proof.
  intros Hh Hstep Hside HI. pose proof (tidy_given _ _ _ _ _ _ _ Hh Hstep Hside) as Hg.
  pose proof (tidy_einv _ _ _ Hh) as HE. destruct (tidy_listing _ _ _ Hh) as [Hle _].
  assert (asked w o = 0 → reported out = []) as H0. { intros H. by rewrite Hg, H. }
  assert (∀ ls', length (ls_ents ls') + length (ls_queue ls') =
      length (ls_ents (listed evs)) + length (ls_queue (listed evs)) + length (reported out) →
    list_step (listed evs) o out = ls' →
    census_step (counted evs) o out =
     (let n := n_pop (counted evs) + length (reported out) in
      Census n (n_peak (counted evs) `max` n) (n_retired (counted evs)) (n_cleared (counted evs))) →
    pool_step (pooled evs) o out = (give (length (reported out)) (pooled evs)).2 →
    count_inv (evs ++ [(o, out, ds)])) as Hnew.
  { intros ls' H1 H2 H3 H4. destruct (give (asked w o) (pooled evs)) as [es p'] eqn:E. simpl in Hg. subst es.
    pose proof (give_prefix _ _ _ _ E) as E2. destruct (give_count _ _ _ _ E) as [Hc1 Hc2].
    rewrite E2 in H4. simpl in H4. destruct HI. unfold n_lost in *.
    split; unfold n_lost; rewrite ?counted_snoc, ?pooled_snoc, ?listed_snoc, ?H2, ?H3, ?H4; simpl; try lia.
    destruct Hc2 as [Hc2|Hc2]; rewrite Hc2 in *; simpl in *; lia. }
  destruct o as [cs|ts rows q|e| | |e cs|e ts|e ts| | |t|ly perm|t e v|G J X f].
  - eapply Hnew; [|done..]. simpl. rewrite app_length. lia.
  - eapply Hnew; [|done..]. simpl. rewrite app_length. lia.
  - pose proof (step_destroy_out _ _ _ _ _ _ HE Hstep (proj2 Hside)) as ->.
    destruct (decide (s_alive s e)) as [Ha|Hd].
    + assert (e ∈ ls_ents (listed evs)) as Hin. { rewrite <-Hle. by apply (ei_dom _ _ HE). }
      pose proof (fill_hole_length _ _ Hin) as Hf. destruct HI. unfold n_lost in *.
      rewrite bool_decide_true by done.
      split; unfold n_lost; rewrite ?counted_snoc, ?pooled_snoc, ?listed_snoc; simpl; try lia;
        destruct (decide (e_version e < version_last)%N); simpl; rewrite ?app_length; simpl; lia.
    + assert (e ∉ ls_ents (listed evs)) as Hin. { rewrite <-Hle. intros Hin. by apply (ei_dom _ _ HE) in Hin. }
      rewrite bool_decide_false by done. apply count_quiet; try done. simpl. by rewrite fill_hole_absent.
  - eapply Hnew; [|done..]. simpl. rewrite app_length. lia.
  - eapply Hnew; [|done..]. simpl. rewrite app_length, arrivals_length, H0 by done. simpl. lia.
  - apply count_quiet; auto.
  - apply count_quiet; auto.
  - apply count_quiet; auto.
  - rewrite H0 in * by done. destruct HI. unfold n_lost in *. split; unfold n_lost; rewrite ?counted_snoc, ?pooled_snoc, ?listed_snoc; simpl;
      rewrite ?H0 by done; simpl; lia.
  - split; unfold n_lost; rewrite ?counted_snoc, ?pooled_snoc, ?listed_snoc; simpl; lia.
  - apply count_quiet; auto.
  - apply count_quiet; auto.
  - apply count_quiet; auto.
  - apply count_quiet; auto.
Qed.

Lemma tidy_count evs w s : tidy_history evs w s → count_inv evs.
Proof.
  intros (w0 & s0 & Hb & Hh). induction Hh as [|evs w1 s1 o out dr w2 Hh IH Hop Hstep Hside].
  - split; unfold n_lost; simpl; lia.
  - eapply count_step; [by exists w0, s0|done..].
Qed.

(** The next new index is one above the largest. *)
Lemma tidy_span evs w s : tidy_history evs w s → span (issued evs) = N.to_nat (p_next (pooled evs)).
Proof.
  intros Ht. pose proof (tidy_pool _ _ _ Ht) as [_ Hn]. pose proof (tidy_einv _ _ _ Ht) as [_ _ HA].
  pose proof (tidy_issued _ _ _ Ht) as HIs. rewrite Hn. apply Nat.le_antisymm.
  - assert (∀ l, (∀ e, e ∈ l → (e_index e < a_next (st_alloc (w_ents w)))%N) →
      span l ≤ N.to_nat (a_next (st_alloc (w_ents w)))) as H.
    { induction l as [|e l IH]; intros Hl; [unfold span; simpl; lia|]. rewrite span_cons.
      pose proof (Hl e (elem_of_list_here _ _)). specialize (IH (λ x Hx, Hl x (elem_of_list_further _ _ _ Hx))).
      unfold e_sparse. lia. }
    apply H. intros e He. apply (ai_valid _ _ _ _ _ _ HA). left. rewrite HIs. by apply elem_of_list_to_set.
  - destruct (decide (a_next (st_alloc (w_ents w)) = 0)%N) as [->|Hne]; [lia|].
    destruct (ai_all _ _ _ _ _ _ HA (a_next (st_alloc (w_ents w)) - 1)%N) as (x & Hx & Hxi); [lia|].
    rewrite HIs in Hx. apply elem_of_list_to_set, span_elem in Hx. unfold e_sparse in Hx. lia.
Qed.

Lemma queued_listed evs : queued evs = ls_queue (listed evs).
Proof.
  induction evs as [|[[o out] ds] evs IH] using rev_ind; [done|].
  unfold queued, listed in *. rewrite !foldl_app. simpl. rewrite IH. by destruct o.
Qed.

Lemma tidy_account evs w s : tidy_history evs w s →
  span (issued evs) = length (world_entities w) + length (queued evs) + length (p_wait (pooled evs)) + n_lost (counted evs).
Proof.
  intros Ht. rewrite (tidy_span _ _ _ Ht). destruct (tidy_count _ _ _ Ht) as [H1 -> _ _].
  rewrite H1, queued_listed. destruct (tidy_listing _ _ _ Ht) as [-> _]. lia.
Qed.

Lemma tidy_population evs w s : tidy_history evs w s →
  n_pop (counted evs) = length (world_entities w) + length (queued evs).
Proof.
  intros Ht. destruct (tidy_count _ _ _ Ht) as [-> _ _ _]. rewrite queued_listed.
  by destruct (tidy_listing _ _ _ Ht) as [-> _].
Qed.

Lemma tidy_peak_span evs w s : tidy_history evs w s → span (issued evs) ≤ n_peak (counted evs) + n_lost (counted evs).
Proof. intros Ht. rewrite (tidy_span _ _ _ Ht). apply (tidy_count _ _ _ Ht). Qed.

Lemma tidy_peak_tables evs w s t : tidy_history evs w s →
  entries w t ≤ 2 * (n_peak (counted evs) + n_lost (counted evs)).
Proof. intros Ht. pose proof (tidy_tables _ _ _ t Ht). pose proof (tidy_peak_span _ _ _ Ht). lia. Qed.

(** When [create] runs out of indices. *)
Lemma tidy_runs_out evs w s o out ds w' :
  tidy_history evs w s → (∃ cs, o = OCreate cs) ∨ o = OCreateAtomic →
  step w o = (out, ds, w') → tidy_side s o out →
  reported out = [] ↔
  N.of_nat (length (world_entities w) + length (queued evs) + n_lost (counted evs)) = u32_lim.
Proof.
  intros Ht Ho Hstep Hside. pose proof (tidy_given _ _ _ _ _ _ _ Ht Hstep Hside) as Hg.
  assert (asked w o = 1) as Ha. { by destruct Ho as [[cs ->]| ->]. }
  rewrite Ha in Hg. simpl in Hg. destruct (tidy_count _ _ _ Ht) as [_ Hn _ _].
  rewrite (tidy_population _ _ _ Ht) in Hn.
  pose proof (tidy_pool _ _ _ Ht) as [_ Hnx]. pose proof (tidy_einv _ _ _ Ht) as [_ _ HA].
  pose proof (proj2 (ai_next _ _ _ _ _ _ HA)) as Hle. rewrite <-Hnx in Hle.
  unfold give_one in Hg. destruct (pooled evs) as [[|x l] k]; simpl in *.
  - destruct (decide (k < u32_lim)%N) as [Hk|Hk]; simpl in Hg; rewrite Hg.
    + split; [done|]. lia.
    + split; [|done]. intros _. lia.
  - rewrite Hg. split; [done|]. lia.
Qed.

(** An index whose entity was cleared is never given out again. *)
Record gone (i : N) (evs : list event) : Prop := {
  gn_next : (i < p_next (pooled evs))%N;
  gn_wait : ∀ x, x ∈ p_wait (pooled evs) → e_index x ≠ i;
  gn_ents : ∀ x, x ∈ ls_ents (listed evs) → e_index x ≠ i;
  gn_queue : ∀ x, x ∈ ls_queue (listed evs) → e_index x ≠ i
}.

Lemma give_spec n : ∀ p es p', give n p = (es, p') →
  (p_next p ≤ p_next p')%N ∧ (∀ x, x ∈ p_wait p' → x ∈ p_wait p) ∧
  (∀ x, x ∈ es → x ∈ p_wait p ∨ (p_next p ≤ e_index x)%N).
Proof.
  induction n as [|n IH]; intros p es p' H; simpl in H; [simplify_eq; split; [lia|]; split; [done|by intros x ?%elem_of_nil]|].
  destruct (give_one p) as [[e p1]|] eqn:E; [|simplify_eq; split; [lia|]; split; [done|by intros x ?%elem_of_nil]].
  destruct (give n p1) as [es1 p2] eqn:E2. simplify_eq. destruct (IH _ _ _ E2) as (H1 & H2 & H3).
  unfold give_one in E. destruct p as [[|y l] k]; simpl in *.
  - destruct (decide _); [|done]. simplify_eq. simpl in *. split; [lia|]. split; [done|].
    intros x [->|Hx]%elem_of_cons; [by right|]. destruct (H3 _ Hx) as [?%elem_of_nil|]; [done|]. right. lia.
  - simplify_eq. simpl in *. split; [done|]. split; [intros x Hx; right; by apply H2|].
    intros x [->|Hx]%elem_of_cons; [left; left|]. destruct (H3 _ Hx) as [?|]; [left; by right|by right].
Qed.

Lemma fill_hole_elem e l x : x ∈ fill_hole e l → x ∈ l.
Proof.
  unfold fill_hole. destruct (decide (e ∈ l)); [|done]. destruct (last l) as [z|] eqn:Hz; [|by intros ?%elem_of_nil].
  intros (y & -> & Hy)%elem_of_list_fmap. destruct (decide (y = e)); [|by apply elem_of_take in Hy as (j & Hj & _); eapply elem_of_list_lookup_2].
  rewrite last_lookup in Hz. by eapply elem_of_list_lookup_2.
Qed.

Lemma arrivals_elem q x : x ∈ arrivals q → x ∈ q.
Proof.
  unfold arrivals. rewrite elem_of_app, elem_of_reverse, !elem_of_list_filter. tauto.
Qed.

Lemma gone_given i evs w s o out ds w' :
  tidy_history evs w s → step w o = (out, ds, w') → tidy_side s o out → gone i evs →
  (∀ x, x ∈ reported out → e_index x ≠ i) ∧
  (i < p_next (give (length (reported out)) (pooled evs)).2)%N ∧
  (∀ x, x ∈ p_wait (give (length (reported out)) (pooled evs)).2 → e_index x ≠ i).
Proof.
  intros Ht Hstep Hside []. pose proof (tidy_given _ _ _ _ _ _ _ Ht Hstep Hside) as Hg.
  destruct (give (asked w o) (pooled evs)) as [es p'] eqn:E. simpl in Hg. subst es.
  rewrite (give_prefix _ _ _ _ E). simpl. destruct (give_spec _ _ _ _ E) as (H1 & H2 & H3).
  split_and!; [|lia|eauto].
  intros x [Hx|Hx]%H3; [eauto|]. lia.
Qed.

Lemma gone_step i evs w s o out ds w' :
  tidy_history evs w s → step w o = (out, ds, w') → tidy_side s o out → o ≠ OReset →
  gone i evs → gone i (evs ++ [(o, out, ds)]).
Proof.
  intros Ht Hstep Hside Hno Hg. destruct (gone_given _ _ _ _ _ _ _ _ Ht Hstep Hside Hg) as (Hrep & Hnx & Hwt).
  pose proof (tidy_einv _ _ _ Ht) as HE. destruct (tidy_listing _ _ _ Ht) as [Hle _].
  destruct o as [cs|ts rows q|e| | |e cs|e ts|e ts| | |t|ly perm|t e v|G J X f]; [..|done| | | |];
    try (destruct Hg; split; rewrite ?pooled_snoc, ?listed_snoc; done).
  - destruct Hg. split; rewrite ?pooled_snoc, ?listed_snoc; try done.
    simpl. intros x [?|?]%elem_of_app; eauto.
  - destruct Hg. split; rewrite ?pooled_snoc, ?listed_snoc; try done.
    simpl. intros x [?|?]%elem_of_app; eauto.
  - pose proof (step_destroy_out _ _ _ _ _ _ HE Hstep (proj2 Hside)) as ->. destruct Hg.
    split; rewrite ?pooled_snoc, ?listed_snoc; try done.
    + simpl. destruct (bool_decide _); [|done]. by destruct (decide _).
    + simpl. case_bool_decide as Ha; [|done]. destruct (decide _); [|done]. simpl.
      intros x [?|?%elem_of_list_singleton]%elem_of_app; [eauto|]. subst x. simpl.
      apply gn_ents0. rewrite <-Hle. by apply (ei_dom _ _ HE).
    + simpl. intros x ?%fill_hole_elem. eauto.
  - destruct Hg. split; rewrite ?pooled_snoc, ?listed_snoc; try done.
    simpl. intros x [?|?]%elem_of_app; eauto.
  - destruct Hg. split; rewrite ?pooled_snoc, ?listed_snoc; try done; simpl.
    + intros x [?|?%arrivals_elem]%elem_of_app; eauto.
    + by intros x ?%elem_of_nil.
  - destruct Hg. split; rewrite ?pooled_snoc, ?listed_snoc; try done; simpl; by intros x ?%elem_of_nil.
Qed.

Lemma tidy_snoc_inv evs o out ds w s : tidy_history (evs ++ [(o, out, ds)]) w s →
  ∃ w1 s1, tidy_history evs w1 s1 ∧ step w1 o = (out, ds, w) ∧ tidy_side s1 o out.
Proof.
  intros (w0 & s0 & Hb & Hh). inversion Hh as [Hnil|evs' w1 s1 o' out' ds' w2' Hh1 Hop Hstep Hside Heq]; subst.
  - by destruct evs.
  - apply app_inj_tail in Heq as [-> ?]. simplify_eq. exists w1, s1. split; [by exists w0, s0|done].
Qed.

Lemma gone_clear evs w1 s1 w s ds e :
  tidy_history evs w1 s1 → e ∈ world_entities w1 ∨ e ∈ queued evs →
  tidy_history (evs ++ [(OClear, Ret RUnit, ds)]) w s → gone (e_index e) (evs ++ [(OClear, Ret RUnit, ds)]).
Proof.
  intros Ht He Ht2. rewrite queued_listed in He. destruct (tidy_listing _ _ _ Ht) as [Hle Hq].
  pose proof (tidy_einv _ _ _ Ht) as [_ _ HA]. pose proof (tidy_pool _ _ _ Ht) as [Hw Hn].
  assert (e ∈ es_ents (st_set (w_ents w1)) ∨ e ∈ s_queued s1) as He'. { rewrite <-Hq. done. }
  split; rewrite ?pooled_snoc, ?listed_snoc; simpl; try (by intros x ?%elem_of_nil).
  - rewrite Hn. apply (ai_valid _ _ _ _ _ _ HA). left. apply (ai_issued _ _ _ _ _ _ HA). tauto.
  - intros x. rewrite Hw, elem_of_reverse. intros Hx Heq. apply (ai_avail _ _ _ _ _ _ HA) in Hx.
    by eapply (ai_free_new _ _ _ _ _ _ HA).
Qed.

Lemma tidy_gone evs1 ds1 evs2 o2 out2 ds2 w s w1 s1 e e2 :
  tidy_history evs1 w1 s1 → e ∈ world_entities w1 ∨ e ∈ queued evs1 →
  tidy_history (evs1 ++ (OClear, Ret RUnit, ds1) :: evs2 ++ [(o2, out2, ds2)]) w s →
  no_reset (evs2 ++ [(o2, out2, ds2)]) → e2 ∈ reported out2 → e_index e2 ≠ e_index e.
Proof.
  intros Ht1 He Ht Hnr He2. rewrite app_comm_cons, (assoc_L (++)) in Ht.
  apply tidy_snoc_inv in Ht as (w2 & s2 & Ht & Hstep & Hside).
  assert (gone (e_index e) (evs1 ++ (OClear, Ret RUnit, ds1) :: evs2)) as Hg.
  2:{ exact (proj1 (gone_given _ _ _ _ _ _ _ _ Ht Hstep Hside Hg) _ He2). }
  assert (no_reset evs2) as Hnr2. { intros ????; eapply Hnr; by apply elem_of_app; left. }
  clear Hnr He2 Hstep Hside. revert w2 s2 Ht Hnr2. induction evs2 as [|[[o out] ds] evs2 IH] using rev_ind; intros w2 s2 Ht Hnr.
  - by eapply gone_clear.
  - rewrite app_comm_cons, (assoc_L (++)) in *. apply tidy_snoc_inv in Ht as (w3 & s3 & Ht & Hstep & Hside).
    eapply gone_step; [done..| |].
    + eapply Hnr. apply elem_of_app. right. by left.
    + eapply IH; [done|]. intros ????; eapply Hnr; by apply elem_of_app; left.
Qed.

(** ** The queue of destroyed handles *)

Lemma create_n_backlog n : ∀ st es st', create_n st n = Ok (es, st') →
  length (a_recycled (st_alloc st')) = length (a_recycled (st_alloc st)).
Proof.
  induction n as [|n IH]; intros st es st' H; simpl in H; [by simplify_eq|].
  destruct (estore_create st) as [[e st1]| |] eqn:E; [|by simplify_eq|done].
  destruct (create_n st1 n) as [[es1 st2]| |] eqn:E2; simplify_eq. rewrite (IH _ _ _ E2).
  unfold estore_create, allocate in E. destruct (_ <? _).
  - destruct (_ !! _); simpl in E; [|done]. destruct (eset_insert _ _); simpl in E; by simplify_eq.
  - destruct (_ <? _)%N; simpl in E; [|done]. destruct (eset_insert _ _); simpl in E; by simplify_eq.
Qed.

Lemma backlog_step evs w s o out ds w' :
  tidy_history evs w s → step w o = (out, ds, w') → tidy_side s o out →
  backlog w' =
  match o with
  | ODestroy e =>
      if decide (world_contains w e = true ∧ (e_version e < version_last)%N) then backlog w + 1 else backlog w
  | OMaintain | OClear => length (p_wait (pooled evs))
  | OReset => 0
  | _ => backlog w
  end.
Proof.
  intros Ht Hstep Hside. pose proof (tidy_einv _ _ _ Ht) as HE. pose proof (tidy_pool _ _ _ Ht) as [Hw _].
  pose proof (ei_alloc _ _ HE) as HA. pose proof (ai_rsm _ _ _ _ _ _ HA) as Hr.
  assert (length (p_wait (pooled evs)) = length (a_recycled (st_alloc (w_ents w))) - a_rsm (st_alloc (w_ents w))) as Hlw.
  { rewrite Hw, reverse_length. unfold avail. rewrite take_length. lia. }
  pose proof (step_ent_effect _ _ _ _ _ _ HE Hstep (proj2 Hside)) as Heff. unfold backlog.
  destruct o as [cs|ts rows q|e| | |e cs|e ts|e ts| | |t|ly perm|t e v|G J X f]; cbn [ent_effect] in Heff;
    try (injection Heff as _ <-; done).
  - destruct (estore_create (w_ents w)) as [[e st1]| |] eqn:E; [|by injection Heff as _ <-|done].
    injection Heff as _ <-. apply (create_n_backlog 1 _ [e]). simpl. by rewrite E.
  - destruct (forallb _ ts); [|by injection Heff as _ <-]. by eapply create_n_backlog.
  - rewrite (tidy_contains _ _ _ e Ht). destruct (decide (s_alive s e)) as [Ha|Hd].
    + pose proof Ha as Hin. apply (ei_dom _ _ HE), elem_of_list_lookup in Hin as [i Hi]. unfold estore_remove in Heff.
      destruct (eset_remove_present _ i e (ei_set _ _ HE) Hi) as (es' & He & _ & Hes). rewrite He in Heff. simpl in Heff.
      injection Heff as _ <-. simpl. unfold recycle, version_next. destruct (einv_valid _ _ _ HE Ha) as [[_ [_ Hv]] _].
      rewrite bool_decide_true by done. destruct (N.ltb_spec (e_version e + 1) u32_lim).
      * rewrite decide_True by (split; [done|]; unfold version_last; lia). simpl. lia.
      * rewrite decide_False by (intros [_ ?]; unfold version_last in *; lia). done.
    + rewrite bool_decide_false by done. rewrite decide_False by (by intros [? _]).
      rewrite (estore_remove_dead _ _ e HE Hd) in Heff. by injection Heff as _ <-.
  - unfold estore_create_atomic, allocate_atomic in Heff. destruct (_ <? _).
    + destruct (_ !! _); simpl in Heff; by injection Heff as _ <-.
    + destruct (_ <? _)%N; simpl in Heff; by injection Heff as _ <-.
  - destruct (estore_maintain_ok _ _ HE (proj1 Hside eq_refl)) as (st' & Hm & _). rewrite Hm in Heff.
    injection Heff as _ <-. unfold estore_maintain, alloc_maintain in Hm.
    rewrite (proj2 (Nat.leb_le _ _) Hr) in Hm. simpl in Hm.
    destruct (eset_insert_all _ _) as [es| |]; simpl in Hm; try done. injection Hm as <-. simpl.
    rewrite take_length. lia.
  - unfold estore_clear, alloc_maintain in Heff. rewrite (proj2 (Nat.leb_le _ _) Hr) in Heff. simpl in Heff.
    injection Heff as _ <-. simpl. rewrite take_length. lia.
Qed.

(** ** Rounds of [create] and [clear], and of [create] and [destroy] *)

Lemma built_bare : built (World estore_new cstore_new) (s_init [] []).
Proof. exists [], [], []. by vm_compute. Qed.

Lemma bare_step evs w s o out w' : tidy_history evs w s → step w o = (out, [], w') → tidy_side s o out → op_ok o →
  tidy_history (evs ++ [(o, out, [])]) w' (client_step s o out).
Proof. intros (w0 & s0 & Hb & Hh) Hs Hside Hop. exists w0, s0. split; [done|]. by eapply history_snoc. Qed.

Lemma bare_create evs w s e p : tidy_history evs w s → w_comps w = cstore_new →
  give_one (pooled evs) = Some (e, p) →
  ∃ st, step w (OCreate []) = (Ret (REnt e), [], World st cstore_new) ∧ es_ents (st_set st) = world_entities w ++ [e].
Proof.
  intros Ht Hc Hg. pose proof (tidy_einv _ _ _ Ht) as HE. pose proof (tidy_pool _ _ _ Ht) as HP.
  pose proof (estore_create_pool _ _ _ HE HP) as H.
  destruct (estore_create_ok _ _ HE) as [(e' & st & He & _ & Hes & _)|[He _]]; rewrite He in H; [|congruence].
  destruct H as (p' & H1 & _). rewrite Hg in H1. simplify_eq.
  exists st. split; [|done]. simpl. unfold world_create. rewrite He, Hc. done.
Qed.

Lemma clear_rounds n : (N.of_nat n ≤ u32_lim)%N → ∃ evs w s,
  tidy_history evs w s ∧ w_comps w = cstore_new ∧ world_entities w = [] ∧ queued evs = [] ∧
  pooled evs = Pool [] (N.of_nat n) ∧ only (λ o, o = OCreate [] ∨ o = OClear) evs.
Proof.
  induction n as [|n IH]; intros Hn.
  - exists [], (World estore_new cstore_new), (s_init [] []). split; [|split_and!; try done; constructor].
    exists (World estore_new cstore_new), (s_init [] []). split; [apply built_bare|constructor].
  - destruct IH as (evs & w & s & Ht & Hc & He & Hq & Hp & Ho); [lia|].
    assert (give_one (pooled evs) = Some (Ent (N.of_nat n) version_first, Pool [] (N.of_nat (S n)))) as Hg.
    { unfold give_one. rewrite Hp. simpl. rewrite decide_True by lia. do 3 f_equal. lia. }
    destruct (bare_create evs w s _ _ Ht Hc Hg) as (st & Hs1 & _).
    assert (tidy_side s (OCreate []) (Ret (REnt (Ent (N.of_nat n) version_first)))) as Hsd1 by done.
    pose proof (bare_step _ _ _ _ _ _ Ht Hs1 Hsd1 I) as Ht1.
    set (evs1 := evs ++ _) in *. set (s1 := client_step s _ _) in *.
    assert (pooled evs1 = Pool [] (N.of_nat (S n))) as Hp1. { subst evs1. rewrite pooled_snoc. cbn [pool_step reported length give]. by rewrite Hg. }
    destruct (estore_clear_ok _ _ (tidy_einv _ _ _ Ht1)) as (st2 & Hcl & _). simpl in Hcl.
    exists (evs1 ++ [(OClear, Ret RUnit, [])]), (World st2 cstore_new), (client_step s1 OClear (Ret RUnit)).
    assert (tidy_history (evs1 ++ [(OClear, Ret RUnit, [])]) (World st2 cstore_new) (client_step s1 OClear (Ret RUnit))) as Ht2.
    { destruct Ht1 as (w0 & s0 & Hb & Hh). exists w0, s0. split; [done|]. eapply history_snoc; [done|done| |done].
      simpl. unfold world_clear. simpl. rewrite Hcl. done. }
    destruct (tidy_listing _ _ _ Ht2) as [Hl _]. rewrite listed_snoc in Hl.
    split_and!; [done|done|done| |by rewrite pooled_snoc|].
    + by rewrite queued_listed, listed_snoc.
    + subst evs1. apply Forall_app. split; [apply Forall_app; split; [done|]|]; constructor; simpl; auto.
Qed.

Lemma clear_leaks : ∃ evs w s,
  tidy_history evs w s ∧ only (λ o, o = OCreate [] ∨ o = OClear) evs ∧
  world_entities w = [] ∧ queued evs = [] ∧ step w (OCreate []) = (Panicked [], [], w).
Proof.
  assert (∃ n, N.of_nat n = u32_lim) as [n Hn]; [eexists; apply N2Nat.id|].
  destruct (clear_rounds n) as (evs & w & s & Ht & Hc & He & Hq & Hp & Ho); [lia|].
  exists evs, w, s. split_and!; [done..|]. cbn [step]. unfold world_create.
  pose proof (estore_create_pool _ _ _ (tidy_einv _ _ _ Ht) (tidy_pool _ _ _ Ht)) as H.
  rewrite Hp, Hn in H. unfold give_one in H. cbn [p_wait p_next] in H.
  rewrite decide_False in H by lia. destruct (estore_create (w_ents w)) as [[e st]| |]; [|done|done].
  by destruct H as (? & ? & _).
Qed.

Lemma bare_destroy evs w s e : tidy_history evs w s → w_comps w = cstore_new → e ∈ world_entities w →
  ∃ st, step w (ODestroy e) = (Ret (RBool true), [], World st cstore_new).
Proof.
  intros Ht Hc Hin. pose proof (tidy_einv _ _ _ Ht) as HE.
  destruct (estore_remove_ok _ _ e HE) as (st & Hr & _); [by apply (ei_dom _ _ HE)|].
  exists st. simpl. unfold world_destroy. rewrite Hr, Hc. done.
Qed.

Lemma destroy_rounds n : (N.of_nat n < version_last)%N → ∃ evs w s,
  tidy_history evs w s ∧ w_comps w = cstore_new ∧ world_entities w = [] ∧ backlog w = n ∧
  n_pop (counted evs) = 0 ∧ n_peak (counted evs) ≤ 1 ∧
  only (λ o, o = OCreate [] ∨ ∃ e, o = ODestroy e) evs ∧
  ∃ i p, give_one (pooled evs) = Some (Ent i (N.of_nat n + 1), p) ∧ p_wait p = [].
Proof.
  induction n as [|n IH]; intros Hn.
  - exists [], (World estore_new cstore_new), (s_init [] []). split; [|split_and!; try done; simpl; try lia].
    + exists (World estore_new cstore_new), (s_init [] []). split; [apply built_bare|constructor].
    + constructor.
    + eexists _, _. split; done.
  - destruct IH as (evs & w & s & Ht & Hc & He & Hb & Hpop & Hpk & Ho & i & p & Hg & Hw); [lia|].
    set (e := Ent i (N.of_nat n + 1)) in *.
    destruct (bare_create evs w s _ _ Ht Hc Hg) as (st & Hs1 & Hes). rewrite He in Hes. simpl in Hes.
    assert (tidy_side s (OCreate []) (Ret (REnt e))) as Hsd1 by done.
    pose proof (bare_step _ _ _ _ _ _ Ht Hs1 Hsd1 I) as Ht1.
    pose proof (backlog_step _ _ _ _ _ _ _ Ht Hs1 Hsd1) as Hb1. simpl in Hb1. rewrite Hb in Hb1.
    set (evs1 := evs ++ [_]) in *. set (s1 := client_step s _ _) in *. set (w1 := World st cstore_new) in *.
    assert (pooled evs1 = p) as Hp1. { subst evs1. rewrite pooled_snoc. cbn [pool_step reported length give]. by rewrite Hg. }
    assert (e ∈ world_entities w1) as Hin. { unfold world_entities, estore_slice. simpl. rewrite Hes. by left. }
    destruct (bare_destroy evs1 w1 s1 e Ht1 eq_refl Hin) as (st2 & Hs2).
    assert (tidy_side s1 (ODestroy e) (Ret (RBool true))) as Hsd2 by done.
    pose proof (bare_step _ _ _ _ _ _ Ht1 Hs2 Hsd2 I) as Ht2.
    pose proof (backlog_step _ _ _ _ _ _ _ Ht1 Hs2 Hsd2) as Hb2. cbn beta iota in Hb2.
    assert (world_contains w1 e = true) as Hcn.
    { rewrite (tidy_contains _ _ _ e Ht1). apply bool_decide_eq_true_2. by apply (ei_dom _ _ (tidy_einv _ _ _ Ht1)). }
    rewrite decide_True in Hb2 by (split; [done|]; subst e; simpl; lia). fold w1 in Hb1. rewrite Hb1 in Hb2.
    eexists _, _, _. split; [exact Ht2|]. destruct (tidy_listing _ _ _ Ht2) as [Hl _].
    destruct (tidy_listing _ _ _ Ht1) as [Hl1 _]. destruct (tidy_listing _ _ _ Ht) as [Hl0 _].
    split; [done|]. split; [|split; [lia|]].
    + rewrite Hl, listed_snoc. simpl. rewrite <-Hl1. unfold world_entities, estore_slice. simpl. rewrite Hes.
      unfold fill_hole. by rewrite decide_True by (by left).
    + rewrite !counted_snoc. subst evs1. rewrite counted_snoc. simpl. rewrite Hpop.
      split; [done|]. split; [lia|]. split.
      * repeat apply Forall_app_2; [done| |]; constructor; simpl; eauto.
      * exists i, (Pool [] (p_next p)). split; [|done]. rewrite pooled_snoc, Hp1. cbn [pool_step].
        rewrite decide_True by (subst e; simpl; lia). unfold give_one. simpl. rewrite Hw. simpl. do 3 f_equal. lia.
Qed.

Lemma tidy_runs_out_no_clear evs w s o out ds w' :
  tidy_history evs w s → n_cleared (counted evs) = 0 → (∃ cs, o = OCreate cs) ∨ o = OCreateAtomic →
  step w o = (out, ds, w') → tidy_side s o out →
  reported out = [] ↔
  N.of_nat (length (world_entities w) + length (queued evs) + n_retired (counted evs)) = u32_lim.
Proof.
  intros Ht Hc Ho Hs Hsd. rewrite (tidy_runs_out _ _ _ _ _ _ _ Ht Ho Hs Hsd). unfold n_lost. rewrite Hc.
  by rewrite Nat.add_0_r.
Qed.

Lemma tidy_peaks evs w s : tidy_history evs w s →
  n_pop (counted evs) = length (world_entities w) + length (queued evs) ∧
  n_pop (counted evs) ≤ n_peak (counted evs) ∧
  span (issued evs) ≤ n_peak (counted evs) + n_lost (counted evs) ∧
  ∀ t, entries w t ≤ 2 * (n_peak (counted evs) + n_lost (counted evs)).
Proof.
  intros Ht. split; [by apply tidy_population with s|]. split; [by apply (tidy_count _ _ _ Ht)|].
  split; [by apply tidy_peak_span with w s|]. intros t. by apply tidy_peak_tables with s.
Qed.

Lemma backlog_grows n : (N.of_nat n < version_last)%N → ∃ evs w s,
  tidy_history evs w s ∧ only (λ o, o = OCreate [] ∨ ∃ e, o = ODestroy e) evs ∧
  n_peak (counted evs) ≤ 1 ∧ world_entities w = [] ∧ backlog w = n.
Proof.
  intros Hn. destruct (destroy_rounds n Hn) as (evs & w & s & ? & ? & ? & ? & ? & ? & ? & _). by exists evs, w, s.
Qed.
