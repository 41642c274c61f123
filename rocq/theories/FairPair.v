(** Two worlds with different layouts that make the same calls. *)
From Verif Require Import Base Lists SparseVecM EntityM CssM LayoutM GroupM StorageM WorldM QueryM StepM
  Spec SpecMore SpecLayout SpecMembers SpecFair SpecFairPair EntityProofs LayoutProofs StorageProofs StoreOps LayoutOps
  WorldProofs History Lockstep Grouped MembersFacts MembersRun FairFacts.

Lemma fair_paired_inv l1 w1 s1 ds1 l2 w2 s2 ds2 evs1 evs2 v1 t1 v2 t2 :
  winv w1 s1 ds1 → laid_out l1 (w_comps w1) → winv w2 s2 ds2 → laid_out l2 (w_comps w2) →
  w_ents w1 = w_ents w2 → agree s1 s2 → fair_paired l1 w1 s1 l2 w2 s2 evs1 evs2 v1 t1 v2 t2 →
  (∃ ds, winv v1 t1 ds) ∧ laid_out (layout_after l1 evs1) (w_comps v1) ∧
  (∃ ds, winv v2 t2 ds) ∧ laid_out (layout_after l2 evs2) (w_comps v2) ∧
  w_ents v1 = w_ents v2 ∧ agree t1 t2 ∧
  Forall2 (λ ev1 ev2, same_outcome ev1.1.2 ev2.1.2) evs1 evs2.
Proof.
  intros HI1 HL1 HI2 HL2 Hw Hag Hp.
  induction Hp as [|evs1 evs2 v1 t1 v2 t2 o1 o2 out1 out2 dr1 dr2 v1' v2' Hp IH Ho Hd Hop1 Hop2 Hs1 Hg1 Hf1 Hs2 Hg2 Hf2].
  { split_and!; eauto. }
  destruct IH as ([d1 HJ1] & HK1 & [d2 HJ2] & HK2 & Hw' & Hag' & HF).
  destruct (fair_step_inv _ _ _ _ _ _ _ _ HJ1 HK1 Hop1 Hg1 Hs1 Hf1) as (Ha1 & e1 & HN1 & _).
  destruct (fair_step_inv _ _ _ _ _ _ _ _ HJ2 HK2 Hop2 Hg2 Hs2 Hf2) as (Ha2 & e2 & HN2 & _).
  destruct (agree_allowed _ _ _ _ _ _ _ _ _ _ _ _ _ _ HJ1 HJ2 Hw' Hag' Ho Hd Hs1 Hg1 Ha1 Hs2 Hg2 Ha2) as (Hout & Hw'' & Hag'').
  split_and!; [eauto| |eauto| |done|done|].
  - rewrite layout_after_snoc. exact (fair_step_layout _ _ _ _ _ _ _ _ HJ1 HK1 Hop1 Hg1 Hs1 Ha1).
  - rewrite layout_after_snoc. exact (fair_step_layout _ _ _ _ _ _ _ _ HJ2 HK2 Hop2 Hg2 Hs2 Ha2).
  - apply Forall2_app; [done|]. by repeat constructor.
Qed.

Lemma built_start gs l ts w : add_groups [] gs = Some l → builder_build l ts = Some w →
  (∃ ds, winv w (s_init l ts) ds) ∧ laid_out l (w_comps w) ∧ w_ents w = estore_new.
Proof.
  intros Hl Hb. pose proof (layout_built_wf _ _ Hl) as Hwf. destruct (builder_ok l ts w Hwf Hb) as (_ & _ & ds & HI & _).
  split_and!; [by exists ds|by eapply built_laid_out|]. apply (built_ents w (s_init l ts)). by exists gs, l, ts.
Qed.

Lemma built_agree l1 ts1 w1 d1 l2 ts2 w2 d2 : winv w1 (s_init l1 ts1) d1 → winv w2 (s_init l2 ts2) d2 →
  (∀ t, world_is_registered w1 t = world_is_registered w2 t) → agree (s_init l1 ts1) (s_init l2 ts2).
Proof.
  intros H1 H2 H. split; try done. apply set_eq. intros t. specialize (H t).
  rewrite (winv_registered _ _ _ t H1), (winv_registered _ _ _ t H2) in H.
  by rewrite <-(bool_decide_eq_true (t ∈ s_reg (s_init l1 ts1))), H, bool_decide_eq_true.
Qed.

Lemma fair_layouts_agree gs1 l1 ts1 w1 gs2 l2 ts2 w2 evs1 evs2 v1 t1 v2 t2 :
  add_groups [] gs1 = Some l1 → builder_build l1 ts1 = Some w1 →
  add_groups [] gs2 = Some l2 → builder_build l2 ts2 = Some w2 →
  (∀ t, world_is_registered w1 t = world_is_registered w2 t) →
  fair_paired l1 w1 (s_init l1 ts1) l2 w2 (s_init l2 ts2) evs1 evs2 v1 t1 v2 t2 →
  Forall2 (λ ev1 ev2, same_outcome ev1.1.2 ev2.1.2) evs1 evs2 ∧ same_answers v1 v2 ∧
  (s_loose t1 = ∅ → same_queries v1 v2).
Proof.
  intros Hl1 Hb1 Hl2 Hb2 Hreg Hp.
  destruct (built_start _ _ _ _ Hl1 Hb1) as ([d1 HI1] & HL1 & He1). destruct (built_start _ _ _ _ Hl2 Hb2) as ([d2 HI2] & HL2 & He2).
  destruct (fair_paired_inv _ _ _ _ _ _ _ _ _ _ _ _ _ _ HI1 HL1 HI2 HL2 (eq_trans He1 (eq_sym He2))
    (built_agree _ _ _ _ _ _ _ _ HI1 HI2 Hreg) Hp) as ([e1 HJ1] & _ & [e2 HJ2] & _ & Hw & Hag & HF).
  split_and!; [done|by eapply inv_answers|]. by eapply inv_queries.
Qed.

(** ** A world without groups can always follow *)

Lemma fair_run_seen l w s evs w' s' : fair_run l w s evs w' s' → s' = seen_after s evs.
Proof. induction 1 as [|evs w1 s1 o out dr w2 _ IH]; [done|]. unfold seen_after. rewrite foldl_app. simpl. by rewrite IH. Qed.

Lemma layout_after_plain l evs : (∀ o out ds, (o, out, ds) ∈ evs → ∀ l p, o ≠ OSetLayout l p) → layout_after l evs = l.
Proof.
  induction evs as [|[[o out] dr] evs IH] using rev_ind; intros H; [done|]. rewrite layout_after_snoc, IH.
  - destruct o; try done. exfalso. eapply (H _ out dr); [|done]. apply elem_of_app. right. by left.
  - intros o' out' dr' He. apply (H o' out' dr'). apply elem_of_app. by left.
Qed.

Lemma fair_follow l1 w1 s1 ds1 w2 s2 ds2 evs1 v1 t1 :
  winv w1 s1 ds1 → laid_out l1 (w_comps w1) → winv w2 s2 ds2 → laid_out [] (w_comps w2) →
  w_ents w1 = w_ents w2 → agree s1 s2 → fair_run l1 w1 s1 evs1 v1 t1 → plain_calls s1 evs1 →
  ∃ evs2 v2 t2, fair_paired l1 w1 s1 [] w2 s2 evs1 evs2 v1 t1 v2 t2 ∧ evs2.*1.*1 = evs1.*1.*1.
Proof.
  intros HI1 HL1 HI2 HL2 Hw Hag Hr. induction Hr as [|evs1 v1 t1 o out dr v1' Hr IH Hop Hs Hg Hf]; intros Hpl.
  { exists [], w2, s2. split; [constructor|done]. }
  destruct IH as (evs2 & v2 & t2 & Hp & Hops).
  { intros pre o' out' dr' post ->. apply (Hpl pre o' out' dr' (post ++ [(o, out, dr)])). by rewrite <-(assoc_L (++)). }
  destruct (Hpl evs1 o out dr [] eq_refl) as [Hd Hn]. rewrite <-(fair_run_seen _ _ _ _ _ _ Hr) in Hd.
  destruct (fair_paired_inv _ _ _ _ _ _ _ _ _ _ _ _ _ _ HI1 HL1 HI2 HL2 Hw Hag Hp) as (_ & _ & _ & _ & _ & Hag' & _).
  assert (layout_after [] evs2 = []) as Hl2.
  { apply layout_after_plain. intros o' out' dr' He. assert (o' ∈ evs1.*1.*1) as Ho'.
    { rewrite <-Hops. apply elem_of_list_fmap. exists (o', out'). split; [done|]. apply elem_of_list_fmap. by exists (o', out', dr'). }
    apply elem_of_list_fmap in Ho' as ([o1 out1] & -> & H1). apply elem_of_list_fmap in H1 as ([[o2 out2] dr2] & [= -> ->] & H2).
    apply elem_of_list_split in H2 as (pre & post & ->). simpl.
    apply (Hpl pre o2 out2 dr2 (post ++ [(o, out, dr)])). by rewrite <-(assoc_L (++)). }
  destruct (step v2 o) as [[out2 dr2] v2'] eqn:Hs2.
  exists (evs2 ++ [(o, out2, dr2)]), v2', (client_step t2 o out2). split.
  - econstructor; try done.
    + destruct o; done.
    + destruct o; try done. simpl in Hg |- *.
      revert Hg. unfold tidy, s_alive. by rewrite (ag_created _ _ Hag'), (ag_map _ _ Hag').
    + rewrite Hl2. destruct o; simpl; try done; try (by intros ? g ?%elem_of_nil); try (by intros g ?%elem_of_nil).
      * by intros ? ? g ?%elem_of_nil.
      * by destruct (Hn l perm).
  - by rewrite !fmap_app, Hops.
Qed.

Lemma fair_paired_any l1 w1 s1 l2 w2 s2 evs1 evs2 v1 t1 v2 t2 :
  fair_paired l1 w1 s1 l2 w2 s2 evs1 evs2 v1 t1 v2 t2 → history (λ _ _ _, True) w2 s2 evs2 v2 t2.
Proof. induction 1; econstructor; eauto. Qed.

Lemma fair_follow_built gs l ts w0 evs w s :
  add_groups [] gs = Some l → builder_build l ts = Some w0 → fair_run l w0 (s_init l ts) evs w s → plain_calls (s_init l ts) evs →
  ∃ w1 evs1 v1 t1, builder_build [] (layout_tids l ++ ts) = Some w1 ∧
    fair_paired l w0 (s_init l ts) [] w1 (s_init [] (layout_tids l ++ ts)) evs evs1 w s v1 t1 ∧
    evs1.*1.*1 = evs.*1.*1 ∧ Forall2 (λ ev ev1, same_outcome ev.1.2 ev1.1.2) evs evs1 ∧
    same_answers w v1 ∧ (s_loose s = ∅ → same_queries w v1).
Proof.
  intros Hl Hb Hr Hpl. destruct (built_start _ _ _ _ Hl Hb) as ([d HI] & HL & He).
  assert (∃ w1, builder_build [] (layout_tids l ++ ts) = Some w1) as [w1 Hb1] by (by eexists).
  destruct (built_start [] [] _ _ eq_refl Hb1) as ([d1 HI1] & HL1 & He1).
  assert (agree (s_init l ts) (s_init [] (layout_tids l ++ ts))) as Hag.
  { split; try done. simpl. apply set_eq. intros t. rewrite !elem_of_union, !elem_of_list_to_set, elem_of_app. set_solver. }
  destruct (fair_follow _ _ _ _ _ _ _ _ _ _ HI HL HI1 HL1 (eq_trans He (eq_sym He1)) Hag Hr Hpl) as (evs1 & v1 & t1 & Hp & Hops).
  destruct (fair_paired_inv _ _ _ _ _ _ _ _ _ _ _ _ _ _ HI HL HI1 HL1 (eq_trans He (eq_sym He1)) Hag Hp)
    as ([e HJ] & _ & [e1 HJ1] & _ & Hw & Hag' & HF).
  exists w1, evs1, v1, t1. split_and!; [done..|by eapply inv_answers|]. by eapply inv_queries.
Qed.

Lemma fair_no_groups l evs w s gs ts w0 :
  add_groups [] gs = Some l → builder_build l ts = Some w0 → fair_run l w0 (s_init l ts) evs w s → plain_calls (s_init l ts) evs →
  ∃ w1 evs1 v1 t1, builder_build [] (layout_tids l ++ ts) = Some w1 ∧
    history (λ _ _ _, True) w1 (s_init [] (layout_tids l ++ ts)) evs1 v1 t1 ∧
    evs1.*1.*1 = evs.*1.*1 ∧ Forall2 (λ ev ev1, same_outcome ev.1.2 ev1.1.2) evs evs1 ∧
    same_answers w v1 ∧ (s_loose s = ∅ → same_queries w v1).
Proof.
  intros Hl Hb Hr Hpl. destruct (fair_follow_built _ _ _ _ _ _ _ Hl Hb Hr Hpl) as (w1 & evs1 & v1 & t1 & H1 & Hp & H2).
  exists w1, evs1, v1, t1. split; [done|]. split; [by eapply fair_paired_any|done].
Qed.

(** For examples. *)
Definition simple_call (ev : event) : bool := match ev.1.1 with OForEach _ _ _ _ | OSetLayout _ _ => false | _ => true end.
Lemma simple_plain s evs : forallb simple_call evs = true → plain_calls s evs.
Proof.
  intros H pre o out dr post ->. rewrite forallb_app in H. apply andb_true_iff in H as [_ H]. simpl in H.
  apply andb_true_iff in H as [H _]. by destruct o.
Qed.
