(** [clear] and [reset] put the components right. *)
From Verif Require Import Base Lists SparseVecM EntityM CssM MaskM LayoutM GroupM StorageM WorldM QueryM StepM
  SparseProofs CssProofs GroupProofs Spec SpecMore SpecLayout SpecQuery SpecSound SpecSafety SpecRepair SpecLocal SpecMembers SpecFair SpecMend
  EntityProofs LayoutProofs StorageProofs StoreOps LayoutOps WorldProofs QueryProofs History Contents EntityHistory
  BlindCss BlindEnts BlindStore BlindWorld BlindHist SafetyFacts MembersFacts MembersRun Lockstep Grouped BlindLayout  ShapeFacts LocalFacts RepairFacts FairFacts.

Lemma inv_works l w s ds : winv w s ds → laid_out l (w_comps w) → works_from l w s.
Proof.
  intros HI HL evs w' s' Hr. destruct (fair_run_inv _ _ _ _ _ _ _ HI HL Hr) as (HL' & ds' & HI' & Hb).
  split_and!; [by eapply in_step_inv|by apply (reach_safe_reads_at w' s'); exists ds'| |].
  - by rewrite <-(stored_contents _ _ _ HI), <-(stored_contents _ _ _ HI').
  - intros o out dr w'' Hop Hst Hg Hf. destruct (fair_step_inv _ _ _ _ _ _ _ _ HI' HL' Hop Hg Hst Hf) as (Ha & _).
    split; [done|]. by eapply allowed_ub_free.
Qed.

Lemma inv_lives_on w s ds : winv w s ds → same_versions s → lives_on w s.
Proof.
  intros HI Hsv evs w' s' Hh. destruct (history_inv _ _ _ _ _ _ HI Hsv Hh) as (Hsv' & ds' & HI' & _).
  split; [by eapply in_step_inv|]. intros o out dr w'' Hop Ho Hg. by destruct (step_inv _ _ _ _ _ _ _ HI' Hsv' Hop Ho Hg).
Qed.

Lemma empty_same_versions s : s_map s = ∅ → same_versions s.
Proof.
  intros Hm t e1 e2 _ [v Hv]. unfold s_row in Hv. rewrite Hm, lookup_empty in Hv. simpl in Hv. by rewrite lookup_empty in Hv.
Qed.

Lemma worn_tidy l evs w s : worn_history l evs w s → tidy_history evs w s.
Proof.
  intros (gs & ts & w0 & Hl & Hb & Hh). exists w0, (s_init l ts). split; [by exists gs, l, ts|].
  clear -Hh. induction Hh as [|evs w1 s1 o out dr w2 Hh IH Hop Hstep [H1 H2]]; [constructor|by econstructor].
Qed.
Lemma worn_unbroken l evs w s : worn_history l evs w s → unbroken_history_from l evs w s.
Proof.
  intros (gs & ts & w0 & Hl & Hb & Hh). exists gs, ts, w0. split_and!; [done..|].
  clear -Hh. induction Hh as [|evs w1 s1 o out dr w2 Hh IH Hop Hstep [H1 H2]]; [constructor|by econstructor].
Qed.

(** The components after [clear] and [reset]. *)
Lemma worn_cleared l evs w s : unbroken_history_from l evs w s →
  ∃ s' vs ds', cstore_clear (w_comps w) = Ok (s', vs) ∧ world_drop w = Ok vs ∧ laid_out (layout_after l evs) s' ∧
    cinv s' ds' ∅ (s_reg s) (s_grouped s) ∅.
Proof.
  intros Hf. pose proof (unbroken_from _ _ _ _ Hf) as Hu. pose proof (unbroken_shape _ _ _ Hu) as Hsh.
  destruct (history_binv _ _ _ (unbroken_ub_free _ _ _ Hu)) as (ds0 & He & Hs).
  destruct (every_cleared _ _ Hs) as (s' & Hc & HF & Heq & Hg0).
  exists s', (stored ds0), (replicate (length (cs_comps s')) []). split_and!; [done| | |].
  - unfold world_drop. apply (bl_drop_all _ _ (bt_rep _ _ Hs)).
  - eapply laid_out_eq; [by eapply unbroken_laid_out|done].
  - apply shape_empty; [by eapply shape_ok_eq|done|done].
Qed.

Lemma worn_clear l evs w s out ds w' : worn_history l evs w s → step w OClear = (out, ds, w') →
  out = Ret RUnit ∧ world_drop w = Ok ds ∧
  works_from (layout_after l evs) w' (client_step s OClear out) ∧ lives_on w' (client_step s OClear out).
Proof.
  intros Hw Hst. destruct (worn_cleared _ _ _ _ (worn_unbroken _ _ _ _ Hw)) as (s' & vs & ds' & Hc & Hd & HL & HC).
  destruct (estore_clear_ok _ _ (tidy_einv _ _ _ (worn_tidy _ _ _ _ Hw))) as (st' & Hs & HE).
  simpl in Hst. unfold world_clear in Hst. rewrite Hs, Hc in Hst. injection Hst as <- <- <-.
  assert (winv (World st' s') (client_step s OClear (Ret RUnit)) ds') as HI by (by split).
  split_and!; [done..|by eapply inv_works|]. by eapply inv_lives_on, empty_same_versions.
Qed.

Lemma worn_reset l evs w s out ds w' : unbroken_history_from l evs w s → step w OReset = (out, ds, w') →
  out = Ret RUnit ∧ world_drop w = Ok ds ∧
  works_from (layout_after l evs) w' (client_step s OReset out) ∧ lives_on w' (client_step s OReset out).
Proof.
  intros Hw Hst. destruct (worn_cleared _ _ _ _ Hw) as (s' & vs & ds' & Hc & Hd & HL & HC).
  simpl in Hst. unfold world_reset in Hst. rewrite Hc in Hst. injection Hst as <- <- <-.
  assert (winv (World (estore_reset (w_ents w)) s') (client_step s OReset (Ret RUnit)) ds') as HI.
  { split; [apply (estore_reset_ok (w_ents w) s)|done]. }
  split_and!; [done..|by eapply inv_works|]. by eapply inv_lives_on, empty_same_versions.
Qed.
