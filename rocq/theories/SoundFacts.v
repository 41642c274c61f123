(** Conditions under which histories are sound. *)
From Verif Require Import Base SparseVecM EntityM CssM MaskM LayoutM GroupM StorageM WorldM QueryM StepM
  Spec SpecMore SpecSafety SpecSound Lists EntityProofs EntityRun EntityHistory StorageProofs WorldProofs History.

(** The handles a call reports are new, whatever its outcome. *)
Lemma handles_new w s o out dr w' : einv (w_ents w) s → step w o = (out, dr, w') →
  match o with OCreate _ | OExtend _ _ _ | OCreateAtomic => True | _ => False end → new_handles s (reported out).
Proof.
  intros HE Hs Ho. destruct o as [cs|ts rows p|e| | |e cs|e ts|e ts| | |t|l perm|t e v|G J X f]; try done; simpl in Hs.
  - unfold world_create in Hs. destruct (estore_create_ok _ _ HE) as [(e & st' & He & Hn & _)|[He _]]; rewrite He in Hs.
    + unfold set_insert in Hs. destruct (insert_loop _ _ _ _ _); [destruct (group_if _ _ _)|..]; by simplify_eq.
    + by simplify_eq.
  - unfold set_extend in Hs. destruct (lookup_metas _ _ ts) as [[is_ mask]|]; [|by simplify_eq].
    pose proof (extend_rows_ents is_ rows (w_ents w) (cs_comps (w_comps w))) as H.
    destruct (extend_rows _ _ _ _) as [dr' ents' comps' new|dr' ents' comps' new|]; [..|by simplify_eq].
    + pose proof H as H'. destruct (create_n_einv ts _ _ _ _ _ rows HE H eq_refl) as (_ & Hn & _).
      destruct (create_n_ok s (length rows) (w_ents w) HE) as (es & st' & Hc & Hes). rewrite H' in Hc. simplify_eq.
      destruct p; [by simplify_eq|]. unfold estore_slice in Hs. rewrite Hes in Hs.
      rewrite app_length, (proj2 (Nat.leb_le _ _)) in Hs by lia. rewrite drop_app in Hs.
      destruct (mask =? 0)%N; [by simplify_eq|]. by destruct (group_each _ _ _ _) as [[? ?]| |]; simplify_eq.
    + destruct (create_n_einv ts _ _ _ _ _ rows HE H eq_refl) as (_ & Hn & _). by simplify_eq.
  - unfold world_create_atomic in Hs.
    destruct (estore_create_atomic_ok _ _ HE) as [(e & st' & He & Hn & _)|[He _]]; rewrite He in Hs; by simplify_eq.
Qed.

(** ** Without [destroy] *)

Record virgin (s : sstate) : Prop := {
  vi_free : s_free s = ∅;
  vi_map : ∀ e, is_Some (s_map s !! e) → e_version e = version_first;
  vi_queued : ∀ e, e ∈ s_queued s → e_version e = version_first;
  vi_tidy : tidy s
}.

Lemma virgin_versions s : virgin s → same_versions s.
Proof.
  intros [_ H _ _] t e1 e2 _ H1 H2.
  assert (∀ e, is_Some (s_row s e !! t) → e_version e = version_first) as Hv; [|by rewrite !Hv].
  intros e [v He]. apply H. unfold s_row in He. destruct (s_map s !! e); [by eexists|]. simpl in He. by rewrite lookup_empty in He.
Qed.

Lemma virgin_add s e r : virgin s → e_version e = version_first → virgin (add_entity s e r).
Proof.
  intros [H1 H2 H3 H4] He. split; simpl.
  - set_solver.
  - intros e' Hs. destruct (decide (e = e')) as [<-|Hne]; [done|]. rewrite lookup_insert_ne in Hs by done. by apply H2.
  - done.
  - intros e'. simpl. rewrite elem_of_union, elem_of_singleton. unfold s_alive. simpl.
    destruct (decide (e = e')) as [<-|Hne]; [rewrite lookup_insert; by eexists|]. rewrite lookup_insert_ne by done.
    intros [->|Hc]; [done|]. by apply H4.
Qed.

Lemma new_handles_first es : ∀ s, s_free s = ∅ → new_handles s es → ∀ e, e ∈ es → e_version e = version_first.
Proof.
  induction es as [|e0 es IH]; intros s Hf Hn e Hin; [by apply elem_of_nil in Hin|]. destruct Hn as [(_ & _ & Hv) Hn].
  apply elem_of_cons in Hin as [->|Hin].
  - destruct Hv as [Hv|(_ & Hv & _)]; [|done]. by rewrite Hf in Hv.
  - eapply IH; [|exact Hn|done]. simpl. set_solver.
Qed.

Lemma virgin_rows ts es : ∀ s rows, virgin s → (∀ e, e ∈ es → e_version e = version_first) → virgin (add_rows s ts es rows).
Proof.
  induction es as [|e es IH]; intros s [|r rows] Hv Hes; try done. simpl. apply IH; [|intros; apply Hes; by right].
  apply virgin_add; [done|]. apply Hes. by left.
Qed.

Lemma virgin_loosen s b es : virgin s → virgin (loosen s b es).
Proof. by destruct b; [intros []|]. Qed.

Lemma virgin_with_map s m : virgin s → (∀ e, is_Some (m !! e) ↔ is_Some (s_map s !! e)) → virgin (with_map s m).
Proof.
  intros [H1 H2 H3 H4] Hm. split; [done| |done|].
  - intros e He. by apply H2, Hm.
  - intros e He. apply H4 in He. unfold s_alive in *. simpl. by apply Hm.
Qed.

Lemma virgin_step w s o out dr w' : einv (w_ents w) s → step w o = (out, dr, w') → virgin s →
  (∀ e, o ≠ ODestroy e) → virgin (client_step s o out).
Proof.
  intros HE Hs Hv Hd. pose proof (handles_new _ _ _ _ _ _ HE Hs) as Hn.
  pose proof (new_handles_first (reported out) s (vi_free _ Hv)) as Hf.
  destruct o as [cs|ts rows p|e| | |e cs|e ts|e ts| | |t|l perm|t e v|G J X f]; cbn [client_step].
  - apply virgin_loosen. specialize (Hf (Hn I)). clear Hn Hs. revert s HE Hv Hf.
    assert (∀ es s, virgin s → (∀ e, e ∈ es → e_version e = version_first) →
      virgin (foldl (λ s e, add_entity s e (put (s_reg s) cs ∅)) s es)) as H; [|intros; by apply H].
    induction es as [|e es IH]; intros s Hv Hf; [done|]. simpl. apply IH; [|intros; apply Hf; by right].
    apply virgin_add; [done|]. apply Hf. by left.
  - apply virgin_loosen, virgin_rows; [done|]. by apply Hf, Hn.
  - by destruct (Hd e).
  - specialize (Hf (Hn I)). clear Hn Hs. revert s HE Hv Hf.
    assert (∀ es s, virgin s → (∀ e, e ∈ es → e_version e = version_first) → virgin (foldl add_queued s es)) as H;
      [|intros; by apply H].
    induction es as [|e es IH]; intros s Hv Hf; [done|]. simpl. apply IH; [|intros; apply Hf; by right].
    destruct Hv as [H1 H2 H3 H4]. split; simpl; [set_solver|done| |done].
    intros e'. rewrite elem_of_union, elem_of_singleton. intros [->|He']; [apply Hf; by left|by apply H3].
  - destruct Hv as [H1 H2 H3 H4]. split; simpl; [done| |set_solver|].
    + intros e [r Hr]. apply lookup_union_Some_raw in Hr as [Hr|[_ Hr]]; [apply H2; by eexists|].
      apply lookup_gset_to_gmap_Some in Hr as [He _]. by apply H3.
    + intros e He. simpl in He. set_solver.
  - destruct (decide (s_alive s e)) as [Ha|]; [|done]. apply virgin_loosen, virgin_with_map; [done|].
    intros e'. destruct (decide (e = e')) as [<-|Hne]; [rewrite lookup_insert|by rewrite lookup_insert_ne].
    split; [done|eauto].
  - destruct (decide (all_reg s ts)); [|done]. apply virgin_with_map; [done|]. intros e'. apply lookup_alter_is_Some.
  - destruct (decide (all_reg s ts)); [|done]. apply virgin_with_map; [done|]. intros e'. apply lookup_alter_is_Some.
  - destruct Hv. split; simpl; [done|intros e [? He]; by rewrite lookup_empty in He|set_solver|intros e He; simpl in He; set_solver].
  - split; simpl; [done|intros e [? He]; by rewrite lookup_empty in He|set_solver|intros e He; simpl in He; set_solver].
  - by destruct Hv.
  - by destruct Hv.
  - apply virgin_with_map; [done|]. intros e'. apply lookup_alter_is_Some.
  - destruct out as [[]| |]; try done. apply virgin_with_map; [done|]. intros e'. apply visit_all_dom.
Qed.

Lemma virgin_init l ts : virgin (s_init l ts).
Proof. split; simpl; [done|intros e [? He]; by rewrite lookup_empty in He|set_solver|intros e He; simpl in He; set_solver]. Qed.

Lemma sound_no_destroy w0 s0 evs w s : built w0 s0 → history never_destroys w0 s0 evs w s → good_history evs w s.
Proof.
  intros Hb Hh. enough (good_history evs w s ∧ virgin s) as [? _] by done.
  induction Hh as [|evs w1 s1 o out dr w2 Hh [IH Hv] Hok Hs [Hd Hl]].
  - destruct Hb as (gs & l & ts & ? & ? & ->). split; [|apply virgin_init].
    eexists w0, _. split; [by eexists _, _, _|constructor].
  - destruct (reachable_inv w1 s1) as (_ & ds & HI); [by eexists|].
    pose proof (virgin_step _ _ _ _ _ _ (wi_ents _ _ _ HI) Hs Hv Hd) as Hv'. split; [|done].
    eapply good_history_step; [done|done|done|]. split; [|by apply virgin_versions].
    destruct o; try done. by apply vi_tidy.
Qed.

(** ** Without groups *)

Lemma client_grouped s o out : s_grouped s = ∅ → no_groups o → s_grouped (client_step s o out) = ∅.
Proof.
  intros Hg Hn. assert (∀ s b es, s_grouped (loosen s b es) = s_grouped s) as Hl by (by intros ? []).
  destruct o as [cs|ts rows p|e| | |e cs|e ts|e ts| | |t|l perm|t e v|G J X f]; cbn [client_step]; try done.
  - rewrite Hl. revert s Hg. induction (reported out) as [|e es IH]; intros s Hg; [done|]. simpl. by apply IH.
  - rewrite Hl. revert s rows Hg Hn. induction (reported out) as [|e es IH]; intros s [|r rows] Hg Hn; try done. simpl. by apply IH.
  - by case_decide.
  - revert s Hg. induction (reported out) as [|e es IH]; intros s Hg; [done|]. simpl. by apply IH.
  - case_decide; [|done]. by rewrite Hl.
  - by case_decide.
  - by case_decide.
  - simpl in Hn. subst l. done.
  - by destruct out as [[]| |].
Qed.

Lemma sound_no_groups ts w0 evs w s : builder_build [] ts = Some w0 →
  history tidy_no_groups w0 (s_init [] ts) evs w s → good_history evs w s.
Proof.
  intros Hb Hh. enough (good_history evs w s ∧ s_grouped s = ∅) as [? _] by done.
  induction Hh as [|evs w1 s1 o out dr w2 Hh [IH Hg] Hok Hs [Hn Ht]].
  - split; [|done]. eexists w0, _. split; [by exists [], [], ts|constructor].
  - pose proof (client_grouped _ _ out Hg Hn) as Hg'. split; [|done].
    eapply good_history_step; [done|done|done|]. split.
    + destruct o; try done; [by apply Ht|]. simpl in Hn. subst l. simpl. split; [simpl; lia|]. by intros ? ?%elem_of_nil.
    + intros t e1 e2 Hin. rewrite Hg' in Hin. set_solver.
Qed.
