(** Handles along a tidy history. *)
From Verif Require Import Base Lists SparseVecM EntityM CssM MaskM LayoutM GroupM StorageM WorldM QueryM StepM
  SparseProofs Spec SpecMore EntityProofs EntityRun.

Lemma built_einv w s : built w s → einv (w_ents w) s.
Proof.
  intros (gs & l & ts & _ & Hb & ->). unfold builder_build, world_new in Hb.
  destruct (set_layout cstore_new l [] []); simplify_eq. apply estore_new_ok.
Qed.

Lemma history_einv w0 s0 evs w s :
  einv (w_ents w0) s0 → history tidy_side w0 s0 evs w s → einv (w_ents w) s.
Proof.
  intros HE. induction 1 as [|evs w1 s1 o out dr w2 _ IH Hop Hstep Hside]; [done|].
  by eapply step_ents.
Qed.

Lemma tidy_einv evs w s : tidy_history evs w s → einv (w_ents w) s.
Proof. intros (w0 & s0 & Hb & Hh). eapply history_einv; [by apply built_einv|done]. Qed.

Lemma history_app_inv side w s evs1 evs2 w2 s2 :
  history side w s (evs1 ++ evs2) w2 s2 →
  ∃ w1 s1, history side w s evs1 w1 s1 ∧ history side w1 s1 evs2 w2 s2.
Proof.
  revert w2 s2. induction evs2 as [|ev evs2 IH] using rev_ind; intros w2 s2 H.
  - rewrite app_nil_r in H. exists w2, s2. split; [done|constructor].
  - rewrite (assoc_L (++)) in H. inversion H as [Hnil|evs w1 s1 o out ds w2' Hh Hop Hstep Hside Heq]; subst.
    { by destruct (evs1 ++ evs2). }
    apply app_inj_tail in Heq as [-> <-].
    destruct (IH _ _ Hh) as (wm & sm & H1 & H2). exists wm, sm. split; [done|]. by econstructor.
Qed.

Lemma history_cons_inv side w s o out ds evs w2 s2 :
  history side w s ((o, out, ds) :: evs) w2 s2 →
  ∃ w1, op_ok o ∧ step w o = (out, ds, w1) ∧ side s o out ∧ history side w1 (client_step s o out) evs w2 s2.
Proof.
  change ((o, out, ds) :: evs) with ([] ++ [(o, out, ds)] ++ evs). intros (w1 & s1 & H1 & H2)%history_app_inv.
  apply history_app_inv in H2 as (w3 & s3 & H3 & H2).
  assert (∀ side w s w' s', history side w s [] w' s' → w' = w ∧ s' = s) as Hnil.
  { clear. intros side w s w' s' H. inversion H as [|evs ? ? ? ? ? ? ? ? ? ? Heq]; subst; [done|]. by destruct evs. }
  destruct (Hnil _ _ _ _ _ H1) as [-> ->].
  inversion H3 as [|evs' w1' s1' o' out' ds' w2' Hh Hop Hstep Hside Heq]; subst.
  apply (app_inj_tail evs' []) in Heq as [-> [= -> -> ->]].
  destruct (Hnil _ _ _ _ _ Hh) as [-> ->]. eauto.
Qed.

Lemma history_app side w s evs1 w1 s1 evs2 w2 s2 :
  history side w s evs1 w1 s1 → history side w1 s1 evs2 w2 s2 → history side w s (evs1 ++ evs2) w2 s2.
Proof.
  intros H1. induction 1; [by rewrite app_nil_r|]. rewrite (assoc_L (++)). by econstructor.
Qed.

(** The handles a call hands out. *)
Lemma new_handles_spec es : ∀ s, new_handles s es → NoDup es ∧ ∀ e, e ∈ es → e ∉ s_issued s.
Proof.
  induction es as [|e es IH]; intros s; simpl; [split; [constructor|by intros ? ?%elem_of_nil]|].
  intros [(_ & Hn & _) (Hnd & Hes)%IH]. simpl in Hes. split.
  - apply NoDup_cons. split; [|done]. intros He%Hes. set_solver.
  - intros e' [->|He']%elem_of_cons; [done|]. apply Hes in He'. set_solver.
Qed.

Lemma handles_allowed_new s o out :
  handles_allowed s o out → NoDup (reported out) ∧ ∀ e, e ∈ reported out → e ∉ s_issued s.
Proof.
  assert (∀ e, reported out = [e] → new_handle s e → NoDup (reported out) ∧ ∀ e, e ∈ reported out → e ∉ s_issued s).
  { intros e -> (_ & Hn & _). split; [apply NoDup_singleton|]. by intros e' ->%elem_of_list_singleton. }
  assert (reported out = [] → NoDup (reported out) ∧ ∀ e, e ∈ reported out → e ∉ s_issued s).
  { intros ->. split; [constructor|by intros ? ?%elem_of_nil]. }
  destruct o; simpl; try done; try (intros [(e & ? & ?)|[? _]]; by eauto).
  - apply new_handles_spec.
  - intros ->. split; [constructor|by intros ? ?%elem_of_nil].
Qed.

Lemma add_rows_sets ts es : ∀ s rows,
  s_queued (add_rows s ts es rows) = s_queued s ∧
  s_issued (add_rows s ts es rows) = s_issued s ∪ list_to_set (take (length rows) es) ∧
  (∀ e, e ∉ take (length rows) es → s_map (add_rows s ts es rows) !! e = s_map s !! e).
Proof.
  induction es as [|e es IH]; intros s rows; simpl.
  - rewrite take_nil. split_and!; try done. set_solver.
  - destruct rows as [|row rows]; simpl; [split_and!; try done; set_solver|].
    destruct (IH (add_entity s e (put (s_reg s) (zip ts row) ∅)) rows) as (H1 & H2 & H3). split_and!.
    + done.
    + rewrite H2. simpl. set_solver.
    + intros e' He'. rewrite H3 by set_solver. simpl. rewrite lookup_insert_ne; [done|]. set_solver.
Qed.

Lemma create_n_length n : ∀ st es st', create_n st n = Ok (es, st') → length es ≤ n.
Proof.
  induction n as [|n IH]; intros st es st' H; simpl in H; [by simplify_eq|].
  destruct (estore_create st) as [[e st1]| |]; simplify_eq; [|simpl; lia].
  destruct (create_n st1 n) as [[es1 st2]| |] eqn:E; simplify_eq. simpl. apply IH in E. lia.
Qed.

(** What a call does to the sets of handles. *)
Lemma client_step_sets w s o out dr w' :
  einv (w_ents w) s → step w o = (out, dr, w') → tidy_side s o out → o ≠ OReset →
  s_issued (client_step s o out) = s_issued s ∪ list_to_set (reported out) ∧
  (∀ e, s_alive (client_step s o out) e → s_alive s e ∨ e ∈ reported out ∨ e ∈ s_queued s) ∧
  (∀ e, e ∈ s_queued (client_step s o out) → e ∈ s_queued s ∨ e ∈ reported out).
Proof.
  intros HE Hstep Hside Hnr. pose proof (step_ents _ _ _ _ _ _ HE Hstep Hside) as [_ Ha].
  pose proof (step_ent_effect _ _ _ _ _ _ HE Hstep (proj2 Hside)) as Heff.
  assert (∀ s b es, s_issued (loosen s b es) = s_issued s ∧ s_queued (loosen s b es) = s_queued s ∧
                    s_map (loosen s b es) = s_map s) as Hl by (by intros ? [] ?).
  assert (∀ s', reported out = [] → s_issued s' = s_issued s → s_queued s' ⊆ s_queued s →
      (∀ e, s_alive s' e → s_alive s e ∨ e ∈ s_queued s) →
      s_issued s' = s_issued s ∪ list_to_set (reported out) ∧
      (∀ e, s_alive s' e → s_alive s e ∨ e ∈ reported out ∨ e ∈ s_queued s) ∧
      (∀ e, e ∈ s_queued s' → e ∈ s_queued s ∨ e ∈ reported out)) as Hsame.
  { clear. intros s' -> -> Hq Ha. split_and!; [set_solver| |auto]. intros e [?|?]%Ha; auto. }
  destruct o as [cs|ts rows p|e| | |e cs|e ts|e ts| | |t|l perm|t e v|G J X f]; cbn [client_step]; try done.
  - edestruct Hl as (-> & -> & Hm). unfold s_alive. rewrite Hm. clear Hm Hl. simpl in Ha.
    destruct Ha as [(e & -> & _)|[-> _]]; simpl; [|clear; set_solver].
    split_and!; [clear; set_solver| |by auto]. intros e' He'. destruct (decide (e = e')) as [<-|Hne]; [right; left; by left|].
    rewrite lookup_insert_ne in He' by done. by left.
  - edestruct Hl as (-> & -> & Hm). unfold s_alive. rewrite Hm. clear Hm Hl Hsame. cbn [ent_effect] in Heff.
    destruct (add_rows_sets ts (reported out) s rows) as (H1 & H2 & H3).
    assert (length (reported out) ≤ length rows) as Hle.
    { destruct (forallb _ ts); [by eapply create_n_length|]. injection Heff as <- _. simpl. lia. }
    rewrite take_ge in H2, H3 by done. rewrite H1, H2. split_and!; [done| |auto].
    intros e He. destruct (decide (e ∈ reported out)); [auto|]. rewrite H3 in He by done. auto.
  - simpl in Ha. apply Hsame; [by rewrite Ha|by destruct (decide _)|by destruct (decide _)|].
    intros e'. destruct (decide (s_alive s e)); [|auto].
    unfold s_alive; simpl. intros [? [_ ?]%lookup_delete_Some]. eauto.
  - simpl in Ha. destruct Ha as [(e & -> & _)|[-> _]]; simpl; clear; [|set_solver].
    split_and!; [set_solver| |set_solver]. by left.
  - apply Hsame; [done|done|clear; set_solver|]. unfold s_alive; simpl.
    intros e [r Hr]. apply lookup_union_Some_raw in Hr as [?|[_ Hr]]; [eauto|].
    apply lookup_gset_to_gmap_Some in Hr as [? _]. auto.
  - apply Hsame; [done|by destruct (decide _), (panicked out)|by destruct (decide _), (panicked out)|].
    intros e'. destruct (decide (s_alive s e)) as [Hal|]; [|auto].
    edestruct Hl as (_ & _ & Hm). unfold s_alive. rewrite Hm. simpl.
    intros He'. destruct (decide (e = e')) as [<-|Hne]; [by auto|].
    rewrite lookup_insert_ne in He' by done. by left.
  - apply Hsame; [done|by destruct (decide _)|by destruct (decide _)|]. intros e'.
    destruct (decide (all_reg s ts)); [|auto]. unfold s_alive; simpl. rewrite lookup_alter_is_Some. auto.
  - apply Hsame; [done|by destruct (decide _)|by destruct (decide _)|]. intros e'.
    destruct (decide (all_reg s ts)); [|auto]. unfold s_alive; simpl. rewrite lookup_alter_is_Some. auto.
  - apply Hsame; [done|done|clear; set_solver|]. unfold s_alive; simpl.
    intros e [? H]. by rewrite lookup_empty in H.
  - apply Hsame; [done|done|done|auto].
  - apply Hsame; [done|done|done|auto].
  - apply Hsame; [done|done|done|]. unfold s_alive; simpl. intros e'.
    rewrite lookup_alter_is_Some. auto.
  - simpl in Ha. apply Hsame; [done|by destruct out as [[]| |]|by destruct out as [[]| |]|].
    intros e'. destruct out as [[]| |]; auto.
    unfold s_alive; simpl. rewrite visit_all_dom. auto.
Qed.

(** Handles issued stay issued; those gone stay gone. *)
Definition gone (s : sstate) (e : entity) : Prop := e ∈ s_issued s ∧ ¬ s_alive s e ∧ e ∉ s_queued s.

Lemma history_gone w s evs w' s' e :
  einv (w_ents w) s → history tidy_side w s evs w' s' → no_reset evs → e ∈ s_issued s →
  e ∈ s_issued s' ∧ (gone s e → gone s' e) ∧
  ∀ o out ds, (o, out, ds) ∈ evs → e ∉ reported out.
Proof.
  intros HE Hh Hnr He. induction Hh as [|evs w1 s1 o out dr w2 Hh IH Hop Hstep Hside].
  { split_and!; [done|done|]. by intros ??? ?%elem_of_nil. }
  destruct IH as (Hi & Hg & Hev).
  { intros ????. eapply Hnr. by apply elem_of_app; left. }
  pose proof (history_einv _ _ _ _ _ HE Hh) as HE1.
  assert (o ≠ OReset) as Ho. { eapply Hnr. apply elem_of_app; right. by apply elem_of_list_singleton. }
  destruct (client_step_sets _ _ _ _ _ _ HE1 Hstep Hside Ho) as (H1 & H2 & H3).
  destruct (step_ents _ _ _ _ _ _ HE1 Hstep Hside) as [_ (_ & Hn)%handles_allowed_new].
  assert (e ∉ reported out) as Hne by (by intros ?%Hn).
  split_and!.
  - rewrite H1. set_solver.
  - intros (_ & Hd & Hq)%Hg. split_and!; [rewrite H1; set_solver| |].
    + intros [?|[?|?]]%H2; done.
    + intros [?|?]%H3; done.
  - intros o' out' ds' [Hin|Heq%elem_of_list_singleton]%elem_of_app; [by eapply Hev|by simplify_eq].
Qed.

(** *** C01 *)
Lemma tidy_handles_distinct evs1 o1 out1 ds1 evs2 o2 out2 ds2 w s :
  tidy_history (evs1 ++ (o1, out1, ds1) :: evs2 ++ [(o2, out2, ds2)]) w s →
  no_reset (evs2 ++ [(o2, out2, ds2)]) →
  ∀ e, e ∈ reported out1 → e ∉ reported out2.
Proof.
  intros (w0 & s0 & Hb & Hh) Hnr e He.
  apply history_app_inv in Hh as (w1 & s1 & Hh1 & Hh2).
  pose proof (history_einv _ _ _ _ _ (built_einv _ _ Hb) Hh1) as HE1.
  apply history_cons_inv in Hh2 as (w2 & Hop & Hstep & Hside & Hh2).
  pose proof (step_ents _ _ _ _ _ _ HE1 Hstep Hside) as [HE2 _].
  assert (o1 ≠ OReset) as Ho1.
  { intros ->. simpl in Hstep. unfold world_reset in Hstep.
    destruct (cstore_clear (w_comps w1)) as [[cs dr]| |]; simplify_eq; by apply elem_of_nil in He. }
  destruct (client_step_sets _ _ _ _ _ _ HE1 Hstep Hside Ho1) as (Hi & _ & _).
  destruct (history_gone _ _ _ _ _ e HE2 Hh2 Hnr) as (_ & _ & Hev); [rewrite Hi; set_solver|].
  eapply Hev. apply elem_of_app; right. by apply elem_of_list_singleton.
Qed.

Lemma tidy_handles_nodup evs o out ds w s :
  tidy_history (evs ++ [(o, out, ds)]) w s → NoDup (reported out).
Proof.
  intros (w0 & s0 & Hb & Hh). apply history_app_inv in Hh as (w1 & s1 & Hh1 & Hh2).
  pose proof (history_einv _ _ _ _ _ (built_einv _ _ Hb) Hh1) as HE1.
  apply history_cons_inv in Hh2 as (w2 & Hop & Hstep & Hside & _).
  destruct (step_ents _ _ _ _ _ _ HE1 Hstep Hside) as [_ (? & _)%handles_allowed_new]. done.
Qed.

Lemma tidy_contains evs w s e : tidy_history evs w s → world_contains w e = bool_decide (s_alive s e).
Proof. intros H%tidy_einv. by apply estore_contains_alive. Qed.

(** *** C02 *)
Lemma tidy_destroyed evs1 e ds evs2 w s :
  tidy_history (evs1 ++ (ODestroy e, Ret (RBool true), ds) :: evs2) w s → no_reset evs2 →
  world_contains w e = false ∧ e ∉ world_entities w ∧ ∀ o out ds, (o, out, ds) ∈ evs2 → e ∉ reported out.
Proof.
  intros Ht Hnr. pose proof Ht as HE%tidy_einv. rewrite (tidy_contains _ _ _ _ Ht).
  destruct Ht as (w0 & s0 & Hb & Hh). apply history_app_inv in Hh as (w1 & s1 & Hh1 & Hh2).
  pose proof (history_einv _ _ _ _ _ (built_einv _ _ Hb) Hh1) as HE1.
  apply history_cons_inv in Hh2 as (w2 & Hop & Hstep & Hside & Hh2).
  pose proof (step_ents _ _ _ _ _ _ HE1 Hstep Hside) as [HE2 Hout]. simpl in Hout.
  assert (s_alive s1 e) as Ha. { injection Hout as Hout. symmetry in Hout. by apply bool_decide_eq_true in Hout. }
  assert (gone (client_step s1 (ODestroy e) (Ret (RBool true))) e) as Hgone.
  { cbn [client_step]. rewrite decide_True by done. split_and!; simpl.
    - by eapply einv_valid.
    - unfold s_alive; simpl. rewrite lookup_delete. by intros [? ?].
    - intros Hq. eapply (ai_LQ _ _ _ _ _ _ (ei_alloc _ _ HE1)); [|done]. by apply (ei_dom _ _ HE1). }
  destruct (history_gone _ _ _ _ _ e HE2 Hh2 Hnr) as (_ & Hg & Hev); [apply Hgone|].
  destruct (Hg Hgone) as (_ & Hd & _).
  split_and!; [by apply bool_decide_eq_false| |done]. by rewrite (ei_dom _ _ HE e).
Qed.

(** *** C07: handles issued before [clear] are gone for good. *)
Lemma tidy_cleared evs1 o out ds evs2 out' ds' evs3 w s e :
  tidy_history (evs1 ++ (o, out, ds) :: evs2 ++ (OClear, out', ds') :: evs3) w s →
  no_reset (evs2 ++ (OClear, out', ds') :: evs3) → e ∈ reported out →
  world_contains w e = false ∧ ∀ o out ds, (o, out, ds) ∈ evs3 → e ∉ reported out.
Proof.
  intros Ht Hnr He. rewrite (tidy_contains _ _ _ _ Ht).
  destruct Ht as (w0 & s0 & Hb & Hh). apply history_app_inv in Hh as (w1 & s1 & Hh1 & Hh2).
  pose proof (history_einv _ _ _ _ _ (built_einv _ _ Hb) Hh1) as HE1.
  apply history_cons_inv in Hh2 as (w2 & Hop & Hstep & Hside & Hh2).
  pose proof (step_ents _ _ _ _ _ _ HE1 Hstep Hside) as [HE2 _].
  apply history_app_inv in Hh2 as (w3 & s3 & Hh3 & Hh4).
  pose proof (history_einv _ _ _ _ _ HE2 Hh3) as HE3.
  apply history_cons_inv in Hh4 as (w4 & Hop4 & Hstep4 & Hside4 & Hh4).
  pose proof (step_ents _ _ _ _ _ _ HE3 Hstep4 Hside4) as [HE4 _].
  assert (o ≠ OReset) as Ho1.
  { intros ->. simpl in Hstep. unfold world_reset in Hstep.
    destruct (cstore_clear (w_comps w1)) as [[cs dr]| |]; simplify_eq; by apply elem_of_nil in He. }
  destruct (client_step_sets _ _ _ _ _ _ HE1 Hstep Hside Ho1) as (Hi & _ & _).
  destruct (history_gone _ _ _ _ _ e HE2 Hh3) as (Hi3 & _ & _).
  { intros ????. eapply Hnr. by apply elem_of_app; left. } { rewrite Hi; set_solver. }
  assert (gone (client_step s3 OClear out') e) as Hgone.
  { split_and!; simpl; [done| |set_solver]. unfold s_alive; simpl. rewrite lookup_empty. by intros [? ?]. }
  destruct (history_gone _ _ _ _ _ e HE4 Hh4) as (_ & Hg & Hev); [|apply Hgone|].
  { intros ????. eapply Hnr. apply elem_of_app; right. by right. }
  destruct (Hg Hgone) as (_ & Hd & _). split; [by apply bool_decide_eq_false|done].
Qed.

(** *** C03 *)
Lemma tidy_entities evs w s : tidy_history evs w s →
  NoDup (world_entities w) ∧ (∀ e, e ∈ world_entities w ↔ world_contains w e = true) ∧
  (∀ e e', e ∈ world_entities w → e' ∈ world_entities w → e_index e = e_index e' → e = e') ∧
  (world_is_empty w = true ↔ ∀ e, world_contains w e = false).
Proof.
  intros Ht. pose proof Ht as HE%tidy_einv.
  assert (∀ e, e ∈ world_entities w ↔ world_contains w e = true) as Hc.
  { intros e. rewrite (tidy_contains _ _ _ _ Ht), bool_decide_eq_true. apply HE. }
  split_and!; [by eapply einv_nodup|done| |].
  - intros e e' H H'. apply (einv_unique _ _ _ _ HE); by apply (ei_dom _ _ HE).
  - unfold world_is_empty. split.
    + intros H e. apply not_true_is_false. rewrite <-Hc. destruct (world_entities w); [apply not_elem_of_nil|done].
    + intros H. destruct (world_entities w) as [|e l] eqn:E; [done|].
      specialize (H e). assert (world_contains w e = true) as H'; [|congruence]. apply Hc. by left.
Qed.

(** *** C06, C09 *)
Lemma tidy_maintain evs w s out ds w' : tidy_history evs w s → tidy s →
  step w OMaintain = (out, ds, w') →
  out = Ret RUnit ∧ ds = [] ∧ w_comps w' = w_comps w ∧
  ∀ e, world_contains w' e = true ↔ world_contains w e = true ∨ e ∈ s_queued s.
Proof.
  intros Hh Ht Hstep. pose proof Hh as HE%tidy_einv. simpl in Hstep. unfold world_maintain in Hstep.
  destruct (estore_maintain_ok _ _ HE Ht) as (st' & Hm & HE'). rewrite Hm in Hstep. simplify_eq.
  split_and!; try done. intros e. rewrite (tidy_contains _ _ _ _ Hh). unfold world_contains. cbn [w_ents].
  rewrite (estore_contains_alive _ _ _ HE'), !bool_decide_eq_true. unfold s_alive; simpl. split.
  - intros [r Hr]. apply lookup_union_Some_raw in Hr as [?|[_ Hr]]; [eauto|].
    apply lookup_gset_to_gmap_Some in Hr as [? _]. auto.
  - intros [[r Hr]|Hq].
    + exists r. by apply lookup_union_Some_l.
    + destruct (s_map s !! e) as [r|] eqn:E; [exists r; by apply lookup_union_Some_l|].
      exists ∅. apply lookup_union_Some_raw. right. split; [done|]. by apply lookup_gset_to_gmap_Some.
Qed.
