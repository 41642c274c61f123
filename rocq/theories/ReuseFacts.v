(** Destroyed indexes are reused before new ones. *)
From Verif Require Import Base Lists SparseVecM EntityM CssM MaskM LayoutM GroupM StorageM WorldM QueryM StepM
  Spec SpecMore SpecReuse EntityProofs EntityRun EntityHistory HandleFacts.

Lemma add_rows_free ts es : ∀ s rows, length es ≤ length rows →
  s_free (add_rows s ts es rows) = s_free s ∖ list_to_set es.
Proof.
  induction es as [|e es IH]; intros s rows Hl; [simpl; set_solver|].
  destruct rows as [|r rows]; simpl in Hl; [lia|]. simpl. rewrite IH by lia. simpl. set_solver.
Qed.

Lemma client_step_free w s o out dr w' :
  einv (w_ents w) s → step w o = (out, dr, w') → tidy_side s o out → o ≠ OReset → (∀ e, o ≠ ODestroy e) →
  s_free (client_step s o out) = s_free s ∖ list_to_set (reported out).
Proof.
  intros HE Hstep Hside Hnr Hnd. pose proof (step_ents _ _ _ _ _ _ HE Hstep Hside) as [_ Ha].
  pose proof (step_ent_effect _ _ _ _ _ _ HE Hstep (proj2 Hside)) as Heff.
  assert (∀ s b es, s_free (loosen s b es) = s_free s) as Hl by (by intros ? [] ?).
  assert (∀ s', reported out = [] → s_free s' = s_free s → s_free s' = s_free s ∖ list_to_set (reported out)) as Hsame.
  { intros s' -> ->. clear. set_solver. }
  destruct o as [cs|ts rows p|e| | |e cs|e ts|e ts| | |t|l perm|t e v|G J X f]; cbn [client_step]; try done;
    try (by destruct (Hnd e)).
  - rewrite Hl. simpl in Ha. destruct Ha as [(e & -> & _)|[-> _]]; simpl; clear; set_solver.
  - rewrite Hl. cbn [ent_effect] in Heff. apply add_rows_free.
    destruct (forallb _ ts); [by eapply create_n_length|]. injection Heff as <- _. simpl. lia.
  - simpl in Ha. destruct Ha as [(e & -> & _)|[-> _]]; simpl; clear; set_solver.
  - by apply Hsame.
  - apply Hsame; [done|]. destruct (decide _); [by rewrite Hl|done].
  - apply Hsame; [done|]. by destruct (decide _).
  - apply Hsame; [done|]. by destruct (decide _).
  - by apply Hsame.
  - by apply Hsame.
  - by apply Hsame.
  - by apply Hsame.
  - apply Hsame; [done|]. by destruct out as [[]| |].
Qed.

Lemma waiting_snoc evs o out ds : waiting (evs ++ [(o, out, ds)]) = wait_step (waiting evs) o out.
Proof. unfold waiting. by rewrite foldl_app. Qed.

Lemma filter_unreported (l : list entity) es :
  (list_to_set (filter (λ x, x ∉ es) l) : gset entity) = list_to_set l ∖ list_to_set es.
Proof.
  apply set_eq. intros x. rewrite elem_of_difference, !elem_of_list_to_set, elem_of_list_filter. naive_solver.
Qed.

Lemma tidy_waiting evs w s : tidy_history evs w s → s_free s = list_to_set (waiting evs).
Proof.
  intros (w0 & s0 & Hb & Hh). pose proof (built_einv _ _ Hb) as HE.
  assert (s_free s0 = ∅) as H0 by (by destruct Hb as (? & ? & ? & _ & _ & ->)). clear Hb.
  induction Hh as [|evs w1 s1 o out dr w2 Hh IH Hop Hstep Hside]; [done|].
  pose proof (history_einv _ _ _ _ _ HE Hh) as HE1. rewrite waiting_snoc.
  assert (o = OReset ∨ (∃ e, o = ODestroy e) ∨ (o ≠ OReset ∧ ∀ e, o ≠ ODestroy e)) as [->|[[e ->]|[Hnr Hnd]]].
  { destruct o; try (right; right; split; [done|intros ?; done]); eauto. }
  - done.
  - pose proof (step_ents _ _ _ _ _ _ HE1 Hstep Hside) as [_ Ha]. simpl in Ha. subst out. cbn [client_step].
    destruct (bool_decide_reflect (s_alive s1 e)) as [Hal|Hal].
    + rewrite decide_True by done. simpl. rewrite IH. unfold successor.
      destruct (N.ltb_spec (e_version e) version_last) as [Hv|Hv]; unfold version_last in Hv.
      * rewrite decide_True by (change u32_lim with 4294967296%N in *; lia). done.
      * rewrite decide_False by (change u32_lim with 4294967296%N in *; lia). clear. set_solver.
    + by rewrite decide_False by done.
  - rewrite (client_step_free _ _ _ _ _ _ HE1 Hstep Hside Hnr Hnd), IH.
    assert (wait_step (waiting evs) o out = filter (λ x, x ∉ reported out) (waiting evs)) as ->.
    { destruct o; try done. by destruct (Hnd e). }
    by rewrite filter_unreported.
Qed.

(** The handles of a call, one after the other. *)
Lemma new_handles_nth es : ∀ s k e, new_handles s es → es !! k = Some e →
  e ∈ s_free s ∨
  ((∀ x, x ∈ s_free s → x ∈ take k es) ∧ e_version e = version_first ∧
   ∀ x, x ∈ s_issued s ∨ x ∈ take k es → e_index x ≠ e_index e).
Proof.
  induction es as [|x es IH]; intros s k e Hn Hk; [done|]. destruct Hn as [Hx Hn].
  destruct k as [|k]; simpl in Hk.
  - injection Hk as ->. destruct Hx as (_ & _ & [?|(Hf & Hv & Hi)]); [by left|right]. split_and!; [|done|].
    + intros y. rewrite Hf. set_solver.
    + intros y [?|Hy]; [by apply Hi|]. by apply elem_of_nil in Hy.
  - destruct (IH _ k e Hn Hk) as [He|(H1 & H2 & H3)]; [left; simpl in He; set_solver|right]. split_and!; [|done|].
    + intros y Hy. simpl. apply elem_of_cons. destruct (decide (y = x)); [by left|right]. apply H1. simpl. set_solver.
    + intros y [Hy|[->|Hy]%elem_of_cons]; apply H3; simpl; set_solver.
Qed.

Lemma tidy_reuse evs o out ds w s k e :
  tidy_history (evs ++ [(o, out, ds)]) w s → reported out !! k = Some e →
  (∀ x, x ∈ waiting evs → x ∉ take k (reported out) → e ∈ waiting evs) ∧
  (e ∉ waiting evs → e_version e = version_first ∧
   ∀ x, x ∈ issued evs ∨ x ∈ take k (reported out) → e_index x ≠ e_index e).
Proof.
  intros (w0 & s0 & Hb & Hh) Hk. apply history_app_inv in Hh as (w1 & s1 & Hh1 & Hh2).
  assert (tidy_history evs w1 s1) as Ht by (by exists w0, s0).
  pose proof (tidy_waiting _ _ _ Ht) as HF. pose proof (tidy_issued _ _ _ Ht) as HIs.
  pose proof (history_einv _ _ _ _ _ (built_einv _ _ Hb) Hh1) as HE1.
  apply history_cons_inv in Hh2 as (w2 & Hop & Hstep & Hside & _).
  destruct (step_ents _ _ _ _ _ _ HE1 Hstep Hside) as [_ Ha].
  assert (new_handles s1 (reported out)) as Hn.
  { destruct o; simpl in Ha; try (by rewrite Ha); try done; destruct Ha as [(e' & -> & ?)|[-> _]]; done. }
  destruct (new_handles_nth _ _ _ _ Hn Hk) as [He|(H1 & H2 & H3)]; rewrite HF, ?HIs in *;
    setoid_rewrite elem_of_list_to_set in He || (setoid_rewrite elem_of_list_to_set in H1; setoid_rewrite elem_of_list_to_set in H3).
  - split; [done|]. by intros [].
  - split; [|done]. intros x Hx Hnx. by destruct Hnx; apply H1.
Qed.

Lemma tidy_segment evs w s : tidy_history evs w s →
  ∀ e i, e ∈ issued evs → (i < e_index e)%N → ∃ x, x ∈ issued evs ∧ e_index x = i.
Proof.
  intros Ht e i He Hi. pose proof (tidy_einv _ _ _ Ht) as [_ _ HA]. pose proof (tidy_issued _ _ _ Ht) as HIs.
  destruct (ai_valid _ _ _ _ _ _ HA e) as [_ Hlt]; [left; rewrite HIs; by apply elem_of_list_to_set|].
  destruct (ai_all _ _ _ _ _ _ HA i) as (x & Hx & Hxi); [lia|]. exists x. split; [|done].
  rewrite HIs in Hx. by apply elem_of_list_to_set in Hx.
Qed.
