(** Histories under the version-blind invariant: conservation of the values and
    safety of the reading calls. *)
From Verif Require Import Base SparseVecM EntityM CssM MaskM LayoutM GroupM StorageM WorldM QueryM ParM StepM
  Spec SpecMore SpecQuery SpecSafety Lists SparseProofs CssProofs StorageProofs IterFacts
  BlindCss BlindStore BlindQuery BlindEnts BlindLayout BlindWrite BlindWorld.

(** ** The initial world *)

Lemma register_all_bl ts : ∀ s ds, bstore s ds → ∃ ds', bstore (register_all s ts) ds' ∧ stored ds' = stored ds.
Proof.
  induction ts as [|t ts IH]; intros s ds Hs; simpl; [by exists ds|].
  destruct (bl_register _ _ t Hs) as (ds1 & Hs1 & H1). destruct (IH _ _ Hs1) as (ds2 & Hs2 & H2).
  exists ds2. split; [done|]. by rewrite H2.
Qed.

Lemma built_bl l ts w : builder_build l ts = Some w → ∃ ds, binv w ds ∧ stored ds = [].
Proof.
  unfold builder_build, world_new. intros H.
  pose proof (bl_set_layout _ _ l [] [] bstore_new) as Hl.
  destruct (set_layout cstore_new l [] []) as [s|vs s|]; [|done..]. simpl in H. injection H as <-.
  destruct Hl as (ds & Hs & Hp). destruct (register_all_bl ts _ _ Hs) as (ds' & Hs' & Hn).
  exists ds'. split; [split; [apply bestore_new|done]|]. rewrite Hn. apply Permutation_nil. symmetry. by rewrite Hp.
Qed.

Lemma built_plain ts w : builder_build [] ts = Some w → plain_store (w_comps w).
Proof.
  unfold builder_build, world_new. intros H. destruct (plain_set_layout _ _ [] [] bstore_new) as (s & Heq & Hp).
  rewrite Heq in H. simpl in H. injection H as <-. by apply plain_register_all.
Qed.

(** ** Conservation *)

Lemma history_bl w0 s0 ds0 evs w s : binv w0 ds0 →
  history (λ _ _ out, ub_free out) w0 s0 evs w s →
  ∃ ds, binv w ds ∧ hist_in evs ++ stored ds0 ≡ₚ hist_dropped evs ++ hist_out evs ++ stored ds.
Proof.
  intros H0. induction 1 as [|evs w1 s1 o out dr w2 Hh (ds1 & H1 & Hp1) Hok Hstep Hs]; [by exists ds0|].
  destruct (step_bl w1 ds1 o H1 Hok) as [Hb _]. unfold bpost in Hb. rewrite Hstep in Hb. simpl in Hb.
  destruct (Hb Hs) as (ds2 & H2 & Hp2). exists ds2. split; [done|].
  unfold hist_in, hist_dropped, hist_out in *. rewrite !bind_app. simpl. rewrite !app_nil_r.
  revert Hp1 Hp2. generalize (evs ≫= λ ev : event, handed_in ev.1.1 ev.1.2) (evs ≫= λ ev : event, ev.2)
    (evs ≫= λ ev : event, handed_out ev.1.2) (handed_in o out) (handed_out out). intros I D O hi ho Hp1 Hp2.
  transitivity (hi ++ I ++ stored ds0); [by rewrite (Permutation_app_comm I hi), <-(assoc_L (++))|].
  rewrite Hp1. transitivity (D ++ O ++ hi ++ stored ds1).
  { rewrite !(assoc_L (++)). f_equiv. rewrite <-(assoc_L (++)). apply Permutation_app_comm. }
  rewrite Hp2, <-!(assoc_L (++)). f_equiv. rewrite !(assoc_L (++)). f_equiv. f_equiv. apply Permutation_app_comm.
Qed.

Lemma history_values evs w s : ub_free_history evs w s →
  ∃ vs, world_drop w = Ok vs ∧ hist_in evs ≡ₚ hist_dropped evs ++ hist_out evs ++ vs.
Proof.
  intros (w0 & s0 & (gs & l & ts & _ & Hb & ->) & Hh). destruct (built_bl _ _ _ Hb) as (ds0 & H0 & Hn).
  destruct (history_bl _ _ _ _ _ _ H0 Hh) as (ds & [_ Hs] & Hp). exists (stored ds). split.
  - apply bl_drop_all, Hs.
  - by rewrite Hn, app_nil_r in Hp.
Qed.

(** ** Reading *)

Lemma views_safe w t e : bst (w_comps w) →
  view_entities w t ≠ UB ∧ view_slice w t ≠ UB ∧ view_len w t ≠ UB ∧ view_contains w t e ≠ UB ∧ view_get w t e ≠ UB.
Proof.
  intros Hb. unfold view_entities, view_slice, view_len, view_contains, view_get.
  destruct (bst_borrow _ t Hb) as [[-> _]|(m & c & k & d & _ & _ & -> & Hc)]; [done|].
  rewrite (bc_entities _ _ _ Hc), (bc_slice _ _ _ Hc). split_and!; try done.
  unfold css_get. destruct (bc_get_ref _ _ _ Hc e) as (r & -> & _). by destruct r as [[]|].
Qed.

Lemma one_safe w G J X e : bst (w_comps w) → query_one w G J X e ≠ UB ∧ query_one_contains w G J X e ≠ UB.
Proof.
  intros Hb. unfold query_one, query_one_contains, one_get.
  destruct (borrow3_bl w G J X Hb) as [->|(g & i & x & -> & Hg & V1 & V2 & V3 & _)]; [done|]. split; [|done].
  destruct (negb _); [done|]. destruct (negb _); [done|]. by destruct (query_get_bl _ g e Hb V1) as [r ->].
Qed.

(** An iterator that can be run. *)
Definition iter_good (w : world) (G : query) (it : iter) : Prop :=
  iter_in it ∧ pv_part <$> iter_views it = G ∧ Forall (vview (w_comps w)) (iter_views it).

Lemma iter_good_fold w G it : bst (w_comps w) → iter_good w G it → ∃ its, iter_fold it = Ok its.
Proof.
  intros Hb (Hin & _ & Hv). destruct it as [ents x i g|lo hi ents g]; simpl in *.
  - by eapply sparse_fold_bl.
  - by eapply dense_fold_bl.
Qed.

Lemma iter_good_runs w G J X it : bst (w_comps w) → query_all_iter w G J X = Ok it → iter_good w G it →
  query_all w G J X ≠ UB ∧ (∀ it n, query_all_iter w G J X = Ok it → nexts n it ≠ UB) ∧
  (∀ t, par_collect w G J X t ≠ UB) ∧ ¬ par_produces w G J X UB ∧
  ∀ f, query_for_each w G J X f ≠ UB ∧ ¬ par_for_each w G J X f UB.
Proof.
  intros Hb Hit Hg. destruct (iter_good_fold w G it Hb Hg) as [its Hits].
  assert (query_all w G J X = Ok its) as Hq by (by rewrite query_all_iter_fold, Hit).
  destruct (par_items _ _ _ _ _ Hq) as [P1 P2]. split_and!.
  - by rewrite Hq.
  - intros it' n Hit'. rewrite Hit in Hit'. injection Hit' as <-. destruct (any_iter _ _ Hits) as [Hy _]. by rewrite Hy.
  - intros t. by rewrite P1.
  - intros (? & ? & _)%P2. done.
  - intros f. destruct Hg as (Hin & Hpart & Hv).
    assert (Forall (vreg (w_comps w)) (iter_views it)) as Hvr by (eapply Forall_impl; [exact Hv|apply vview_vreg]). split.
    + unfold query_for_each. unfold query_all_iter in Hit.
      destruct (borrow3 w G J X) as [[[g i] x]| |]; [|done..]. rewrite Hit.
      destruct it as [ents x' i' g'|lo hi ents g']; simpl in *.
      * by destruct (sparse_for_each_safe f G x' i' g' Hpart ents _ Hb Hvr) as [r ->].
      * pose proof (range_in_tlen _ _ _ _ Hv Hin) as Hr. destruct Hin as [Hle _].
        destruct (dense_for_each_safe f G ents g' hi Hpart Hle (seq lo (hi - lo)) _ Hb Hvr Hr) as [r ->]; [|done].
        intros k Hk%elem_of_seq. lia.
    + unfold par_for_each. rewrite query_all_par_iter_eq, Hit. intros (t & us & Hi & Hub).
      apply interleaving_perm in Hi. rewrite concat_pieces in Hi.
      destruct (par_run_safe f G (piter_of it) us _ Hb) as [r Hr].
      * destruct it as [ents x' i' g'|lo hi ents g']; simpl in *; [done|].
        split_and!; [done..|apply Hin|by apply (range_in_tlen _ _ _ _ Hv Hin)].
      * rewrite Hi. destruct it as [ents x' i' g'|lo hi ents g']; simpl; apply Forall_forall; intros u Hu.
        -- apply elem_of_list_In, in_map_iff in Hu as (e & <- & _). done.
        -- apply elem_of_list_In, in_map_iff in Hu as (k & <- & Hk). apply elem_of_list_In, elem_of_seq in Hk. simpl. lia.
      * by rewrite Hr in Hub.
Qed.

Lemma lookups_safe w ds : binv w ds → safe_lookups w.
Proof.
  intros [_ Hs]. pose proof (bstore_bst _ _ Hs) as Hb. split.
  - intros. by apply one_safe.
  - intros. by apply one_safe.
  - intros G J X Hd. rewrite query_is_dense_iter in Hd.
    destruct (query_all_iter w G J X) as [it| |] eqn:Hit; [|done..]. rewrite <-Hit. eapply (iter_good_runs w G J X it Hb Hit).
    unfold query_all_iter in Hit.
    destruct (borrow3_bl w G J X Hb) as [Hx|(g & i & x & Hx & Hg & V1 & _)]; rewrite Hx in Hit; [done|].
    destruct it as [ents x' i' g'|]; [|done]. assert (g' = g) as ->.
    { unfold query_iter in Hit. destruct (get_group_range _ g i x) as [[[lo hi]|]| |]; [..|done|done].
      - by destruct (first_entities g) as [[]| |], (shortest_entities None i) as [[]| |].
      - destruct (shortest_entities None g), (shortest_entities None i), (shortest_entities None x); try done.
        by injection Hit. }
    by split.
  - intros. by apply views_safe.
  - unfold world_drop. by rewrite (bl_drop_all _ _ (bt_rep _ _ Hs)).
Qed.

Lemma plain_iter w G J X : bst (w_comps w) → plain_store (w_comps w) →
  query_all_iter w G J X = Panic ∨ ∃ it, query_all_iter w G J X = Ok it ∧ iter_good w G it.
Proof.
  intros Hb Hpl. unfold query_all_iter.
  destruct (borrow3_bl w G J X Hb) as [->|(g & i & x & -> & Hg & V1 & V2 & V3 & I1 & I2 & I3)]; [by left|right].
  destruct (query_iter_plain w g i x Hb Hpl V1 V2 V3 I1 I2 I3) as (it & -> & Hin & Hv).
  exists it. split; [done|]. unfold iter_good. by rewrite Hv.
Qed.

Lemma all_ok_safe {A B} (f : A → res B) : ∀ l, (∀ x, x ∈ l → ∃ y, f x = Ok y) → ∃ ys, all_ok f l = Ok ys.
Proof.
  induction l as [|x l IH]; intros H; simpl; [by eexists|].
  destruct (H x) as [y ->]; [left|]. destruct IH as [ys ->]; [intros; apply H; by right|]. by eexists.
Qed.

Lemma plain_slice w G J X : bst (w_comps w) → plain_store (w_comps w) → query_all_slice w G J X ≠ UB.
Proof.
  intros Hb Hpl. unfold query_all_slice.
  destruct (borrow3_bl w G J X Hb) as [->|(g & i & x & -> & Hg & V1 & V2 & V3 & I1 & I2 & I3)]; [done|].
  destruct (query_iter_plain w g i x Hb Hpl V1 V2 V3 I1 I2 I3) as (it & Hit & Hin & Hv).
  unfold query_iter in Hit. unfold query_slice.
  pose proof (group_range_plain w g i x Hpl I1 I2 I3) as Hlo.
  destruct (get_group_range (w_comps w) g i x) as [[[lo hi]|]| |]; [|done|done|done].
  assert (lo = 0) as ->. { destruct Hlo as [?|(v0 & info & _ & H & _)]; [done|]. congruence. }
  assert (∀ l, it = IDense 0 hi l g → ∃ r, all_ok (λ v, part_slice_raw v l 0 hi) g = Ok r) as Hsl.
  { intros l ->. destruct Hin as [Hle Hr]. apply all_ok_safe. intros v Hvin.
    apply (part_slice_bl (w_comps w) v l 0 hi); [done| |done|lia|].
    - exact (proj1 (Forall_forall _ _) V1 v Hvin).
    - exact (proj1 (Forall_forall _ _) Hr v Hvin). }
  destruct (first_entities g) as [[l|]| |], (shortest_entities None i) as [[l'|]| |]; try done;
    injection Hit as <-; by destruct (Hsl _ eq_refl) as [r ->].
Qed.

Lemma plain_reads w ds : binv w ds → plain_store (w_comps w) →
  safe_reads w ∧ ∀ G J X f, query_for_each w G J X f ≠ UB ∧ ¬ par_for_each w G J X f UB.
Proof.
  intros HI Hpl. pose proof (bstore_bst _ _ (proj2 HI)) as Hb. pose proof (lookups_safe w ds HI) as HL.
  assert (∀ G J X, query_all w G J X ≠ UB ∧ (∀ it n, query_all_iter w G J X = Ok it → nexts n it ≠ UB) ∧
    (∀ t, par_collect w G J X t ≠ UB) ∧ ¬ par_produces w G J X UB ∧
    ∀ f, query_for_each w G J X f ≠ UB ∧ ¬ par_for_each w G J X f UB) as H.
  { intros G J X. destruct (plain_iter w G J X Hb Hpl) as [Hit|(it & Hit & Hg)]; [|by eapply iter_good_runs].
    split_and!.
    - by rewrite query_all_iter_fold, Hit.
    - intros it n Hit'. by rewrite Hit in Hit'.
    - intros t. unfold par_collect. by rewrite query_all_par_iter_eq, Hit.
    - unfold par_produces. by rewrite query_all_par_iter_eq, Hit.
    - intros f. split; [by apply query_for_each_safe|]. unfold par_for_each. by rewrite query_all_par_iter_eq, Hit. }
  split; [|intros; apply H]. split; try (intros; apply H); try apply HL.
  - intros. by apply plain_slice.
  - intros G J X. destruct (plain_iter w G J X Hb Hpl) as [->|(it & -> & _)]; done.
  - intros G J X it n Hit. by eapply H.
Qed.

(** ** The theorems *)

Lemma ungrouped_inv evs w s : ungrouped_history evs w s →
  (∃ ds, binv w ds) ∧ plain_store (w_comps w) ∧ ∀ o out dr, (o, out, dr) ∈ evs → ub_free out.
Proof.
  intros (ts & w0 & Hb & Hh). destruct (built_bl _ _ _ Hb) as (ds0 & H0 & _). pose proof (built_plain _ _ Hb) as Hp.
  induction Hh as [|evs w1 s1 o out dr w2 Hh IH Hok Hstep Hs].
  - split_and!; [by eexists|done|]. intros ? ? ? H. by apply elem_of_nil in H.
  - destruct IH as ((ds1 & H1) & Hp1 & Hub). destruct (step_bl w1 ds1 o H1 Hok) as [Hpost Hpl].
    unfold bpost, ppost in *. rewrite Hstep in Hpost, Hpl. simpl in *. destruct (Hpl Hp1 Hs) as [Hu Hp2].
    destruct (Hpost Hu) as (ds2 & H2 & _). split_and!; [by eexists|done|].
    intros o' out' dr' [?|Hin]%elem_of_app; [by eapply Hub|]. apply elem_of_list_singleton in Hin. by simplify_eq.
Qed.

Lemma ungrouped_safe evs w s : ungrouped_history evs w s →
  (∀ o out ds, (o, out, ds) ∈ evs → ub_free out) ∧ safe_reads w ∧
  ∀ G J X f, ¬ par_for_each w G J X f UB.
Proof.
  intros ((ds & HI) & Hp & Hu)%ungrouped_inv. destruct (plain_reads w ds HI Hp) as [H1 H2].
  split_and!; [done..|]. intros. apply H2.
Qed.

Lemma groupless_safe w ds o : binv w ds → groupless o → ub_free (step w o).1.1.
Proof.
  intros [He Hs] Ho. destruct o; try done; simpl.
  - unfold world_create_atomic. pose proof (be_create_atomic _ He). by destruct (estore_create_atomic _) as [[]| |].
  - unfold world_maintain. by destruct (be_maintain _ He) as (st' & -> & _).
  - unfold world_clear. destruct (be_clear _ He) as (st' & -> & _).
    by destruct (cstore_clear_bl _ _ Hs) as (s' & ds' & -> & _).
  - unfold world_reset. by destruct (cstore_clear_bl _ _ Hs) as (s' & ds' & -> & _).
  - unfold world_register. by destruct (register_dyn _ _).
  - unfold world_set. destruct (cs_meta (w_comps w) !! t) as [m|] eqn:Em; [|done].
    destruct (lookup_lt_is_Some_2 (cs_comps (w_comps w)) (m_index m)) as [c Hc]; [by eapply Hs|]. rewrite Hc.
    destruct (bsts_lookup _ _ _ _ (bt_rep _ _ Hs) Hc) as (d & _ & k & Hb).
    destruct (bc_get_ref _ _ _ Hb e) as (r & -> & Hr). destruct r as [[i old]|]; [|done].
    destruct (Hr _ _ eq_refl) as [e0 Hi]. by destruct (bc_set_safe _ _ _ Hb _ _ _ v Hi) as [c' ->].
Qed.

Lemma any_lookups evs w s : ub_free_history evs w s →
  safe_lookups w ∧ ∀ o, groupless o → ub_free (step w o).1.1.
Proof.
  intros (w0 & s0 & (gs & l & ts & _ & Hb & ->) & Hh). destruct (built_bl _ _ _ Hb) as (ds0 & H0 & Hn).
  destruct (history_bl _ _ _ _ _ _ H0 Hh) as (ds & HI & _). split; [by eapply lookups_safe|].
  intros. by eapply groupless_safe.
Qed.
