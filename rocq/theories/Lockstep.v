(** Worlds with the same entities in lockstep: what a call returns depends on the
    client's view only. *)
From Verif Require Import Base Lists SparseVecM EntityM CssM MaskM LayoutM GroupM StorageM WorldM QueryM StepM
  SparseProofs CssProofs MaskProofs GroupProofs Spec EntityProofs LayoutProofs StorageProofs StoreOps LayoutOps
  WorldProofs QueryProofs QueryRange QueryIter ForEachProofs History EntityRun EntityHistory.

Lemma allowed_ub_free s o out : allowed s o out → ub_free out.
Proof.
  destruct o; simpl; try (by intros ->).
  - by intros [(_ & e & -> & _)|[(_ & e & -> & _)|[-> _]]].
  - by intros [(_ & _ & es & -> & _)|[(_ & es & -> & _)|[_ ->]]].
  - by intros [(e & -> & _)|[-> _]].
  - intros ->. by repeat destruct (decide _).
  - destruct (decide _); by intros ->.
  - destruct (decide _); by intros ->.
  - destruct (decide _); by intros ->.
  - destruct (decide _); by intros ->.
  - by intros [(_ & es & vs & -> & _)|[_ ->]].
Qed.

Lemma good_tidy evs w s : good_history evs w s → tidy_history evs w s.
Proof.
  intros (w0 & s0 & Hb & Hh). exists w0, s0. split; [done|].
  destruct (built_inv _ _ Hb) as (Hsv & ds0 & HI & _).
  induction Hh as [|evs w1 s1 o out dr w2 Hh IH Hop Hstep Hside]; [constructor|].
  econstructor; try done. destruct (history_inv _ _ _ _ _ _ HI Hsv Hh) as (Hsv1 & ds1 & HI1 & _).
  destruct (step_inv _ _ _ _ _ _ _ HI1 Hsv1 Hop Hstep Hside) as [Ha _].
  split; [|by eapply allowed_ub_free]. intros ->. apply Hside.
Qed.

Lemma winv_registered w s ds t : winv w s ds → world_is_registered w t = bool_decide (t ∈ s_reg s).
Proof.
  intros [_ HC]. unfold world_is_registered. rewrite is_registered_lookup.
  apply bool_decide_ext. by rewrite (ci_reg _ _ _ _ _ _ HC t).
Qed.

Lemma ent_effect_ext reg1 reg2 st o1 o2 s :
  (∀ t, reg1 t = reg2 t) → same_op s o1 o2 → ent_effect reg1 st o1 = ent_effect reg2 st o2.
Proof.
  intros Hreg Hs. assert (∀ ts, forallb reg1 ts = forallb reg2 ts) as Hf.
  { induction ts as [|t ts IH]; [done|]. simpl. by rewrite Hreg, IH. }
  destruct o1, o2; simpl in Hs; simplify_eq; try done. simpl. by rewrite Hf.
Qed.

(** The same handles are given out. *)
Lemma lockstep_handles w1 s1 ds1 w2 s2 ds2 o1 o2 out1 dr1 w1' out2 dr2 w2' :
  winv w1 s1 ds1 → winv w2 s2 ds2 → w_ents w1 = w_ents w2 → s_reg s1 = s_reg s2 → same_op s1 o1 o2 →
  step w1 o1 = (out1, dr1, w1') → ub_free out1 → step w2 o2 = (out2, dr2, w2') → ub_free out2 →
  reported out1 = reported out2 ∧ w_ents w1' = w_ents w2'.
Proof.
  intros HI1 HI2 Hw Hreg Ho Hs1 Hu1 Hs2 Hu2.
  pose proof (step_ent_effect _ _ _ _ _ _ (wi_ents _ _ _ HI1) Hs1 Hu1) as H1.
  pose proof (step_ent_effect _ _ _ _ _ _ (wi_ents _ _ _ HI2) Hs2 Hu2) as H2.
  rewrite <-Hw in H2. rewrite (ent_effect_ext _ (world_is_registered w2) _ o1 o2 s1) in H1; [|..|done].
  - rewrite H1 in H2. by simplify_eq.
  - intros t. by rewrite (winv_registered _ _ _ t HI1), (winv_registered _ _ _ t HI2), Hreg.
Qed.

Lemma all_reg_agree s1 s2 ts : s_reg s1 = s_reg s2 → all_reg s1 ts ↔ all_reg s2 ts.
Proof. intros H. unfold all_reg. by rewrite H. Qed.

Lemma query_ok_agree s1 s2 G J X : s_reg s1 = s_reg s2 → query_ok s1 G J X ↔ query_ok s2 G J X.
Proof. intros H. unfold query_ok. by rewrite (all_reg_agree s1 s2) by done. Qed.

Lemma same_outcome_refl out : same_outcome out out.
Proof. destruct out as [[]| |]; simpl; done. Qed.

(** The same outcome, if both are allowed. *)
Lemma agree_allowed w1 s1 ds1 w2 s2 ds2 o1 o2 out1 dr1 w1' out2 dr2 w2' :
  winv w1 s1 ds1 → winv w2 s2 ds2 →
  w_ents w1 = w_ents w2 → agree s1 s2 → same_op s1 o1 o2 → determined s1 o1 →
  step w1 o1 = (out1, dr1, w1') → good_call s1 o1 → allowed s1 o1 out1 →
  step w2 o2 = (out2, dr2, w2') → good_call s2 o2 → allowed s2 o2 out2 →
  same_outcome out1 out2 ∧ w_ents w1' = w_ents w2' ∧ agree (client_step s1 o1 out1) (client_step s2 o2 out2).
Proof.
  intros HI1 HI2 Hw Hag Ho Hd Hs1 Hg1 Ha1 Hs2 Hg2 Ha2.
  pose proof (allowed_ub_free _ _ _ Ha1) as Hu1. pose proof (allowed_ub_free _ _ _ Ha2) as Hu2.
  destruct (lockstep_handles _ _ _ _ _ _ _ _ _ _ _ _ _ _ HI1 HI2 Hw (ag_reg _ _ Hag) Ho Hs1 Hu1 Hs2 Hu2) as [Hr Hw'].
  assert (out1 = out2 → o1 = o2 → agree (client_step s1 o1 out1) (client_step s2 o2 out2)) as Hstep.
  { intros <- <-. clear -Hag. destruct Hag as [Hm Hc Hq Hi Hf Hrg Hl], s1, s2; simpl in *; subst.
    destruct o1; cbn [client_step].
    - assert (∀ es s1 s2, agree s1 s2 →
        agree (foldl (λ s e, add_entity s e (put (s_reg s) cs ∅)) s1 es) (foldl (λ s e, add_entity s e (put (s_reg s) cs ∅)) s2 es)) as H.
      { clear. induction es as [|e es IH]; intros s1 s2 H; [done|]. simpl. apply IH. destruct H. split; simpl; congruence. }
      match goal with |- agree (loosen ?a ?b ?c) (loosen ?a' _ _) => assert (agree a a') as []
        by (apply H; by split) end. destruct (panicked out1); split; simpl; congruence.
    - assert (∀ es s1 s2 rows, agree s1 s2 → agree (add_rows s1 ts es rows) (add_rows s2 ts es rows)) as H.
      { clear. induction es as [|e es IH]; intros s1 s2 rows H; [done|]. destruct rows as [|r rows]; [done|].
        simpl. apply IH. destruct H. split; simpl; congruence. }
      match goal with |- agree (loosen ?a ?b ?c) (loosen ?a' _ _) => assert (agree a a') as []
        by (apply H; by split) end. destruct (panicked out1); split; simpl; congruence.
    - unfold s_alive; simpl. destruct (decide _); by split.
    - assert (∀ es s1 s2, agree s1 s2 → agree (foldl add_queued s1 es) (foldl add_queued s2 es)) as H.
      { clear. induction es as [|e es IH]; intros s1 s2 H; [done|]. simpl. apply IH. destruct H. split; simpl; congruence. }
      apply H. by split.
    - by split.
    - unfold s_alive; simpl. destruct (decide _); [|by split]. by destruct (panicked out1); split.
    - repeat case_decide; by split.
    - repeat case_decide; by split.
    - by split.
    - by split.
    - by split.
    - by split.
    - by split.
    - by destruct out1 as [[]| |]; split. }
  pose proof (all_reg_agree s1 s2) as Hall. specialize (λ ts, Hall ts (ag_reg _ _ Hag)).
  assert (∀ e, s_alive s1 e ↔ s_alive s2 e) as Hal by (intros e; unfold s_alive; by rewrite (ag_map _ _ Hag)).
  assert (∀ e, s_row s1 e = s_row s2 e) as Hrow by (intros e; unfold s_row; by rewrite (ag_map _ _ Hag)).
  assert (same_outcome out1 out2 ∧ agree (client_step s1 o1 out1) (client_step s2 o2 out2)); [|tauto].
  destruct o1 as [cs|ts rows p|e| | |e cs|e ts|e ts| | |t|l perm|t e v|G J X f];
    (destruct o2 as [cs2|ts2 rows2 p2|e2| | |e2 cs2|e2 ts2|e2 ts2| | |t2|l2 perm2|t2 e2 v2|G2 J2 X2 f2];
     simpl in Ho; try (by discriminate Ho)).
  - injection Ho as <-. assert (out1 = out2) as <-; [|split; [apply same_outcome_refl|by apply Hstep]].
    simpl in Ha1, Ha2. rewrite (Hall cs.*1) in Ha1.
    destruct Ha1 as [(H1 & e & -> & _)|[(H1 & e & -> & _)|[-> _]]],
             Ha2 as [(H2 & e' & -> & _)|[(H2 & e' & -> & _)|[-> _]]]; simpl in Hr; simplify_eq; done.
  - injection Ho as <- <- <-. assert (out1 = out2) as <-; [|split; [apply same_outcome_refl|by apply Hstep]].
    simpl in Ha1, Ha2. rewrite (Hall ts) in Ha1.
    destruct Ha1 as [(H1 & Hp1 & es & -> & Hl1 & _)|[(H1 & es & -> & _ & Hx1)|[H1 ->]]],
             Ha2 as [(H2 & Hp2 & es' & -> & Hl2 & _)|[(H2 & es' & -> & _ & Hx2)|[H2 ->]]]; simpl in Hr; simplify_eq; try done.
    + destruct Hx2 as [[??]|[??]]; [done|lia].
    + destruct Hx1 as [[??]|[??]]; [done|lia].
  - injection Ho as <-. assert (out1 = out2) as <-; [|split; [apply same_outcome_refl|by apply Hstep]].
    simpl in Ha1, Ha2. subst. do 2 f_equal. by apply bool_decide_ext.
  - assert (out1 = out2) as <-; [|split; [apply same_outcome_refl|by apply Hstep]].
    simpl in Ha1, Ha2. destruct Ha1 as [(e & -> & _)|[-> _]], Ha2 as [(e' & -> & _)|[-> _]]; simpl in Hr; by simplify_eq.
  - simpl in Ha1, Ha2. subst. split; [done|by apply Hstep].
  - injection Ho as <- <-. assert (out1 = out2) as <-; [|split; [apply same_outcome_refl|by apply Hstep]].
    simpl in Ha1, Ha2. rewrite Ha1, Ha2. specialize (Hall cs.*1). specialize (Hal e).
    destruct (decide (s_alive s1 e)), (decide (s_alive s2 e)); try tauto.
    destruct (decide (all_reg s1 cs.*1)), (decide (all_reg s2 cs.*1)); tauto.
  - injection Ho as <- <-. assert (out1 = out2) as <-; [|split; [apply same_outcome_refl|by apply Hstep]].
    simpl in Ha1, Ha2. rewrite Ha1, Ha2. specialize (Hall ts). rewrite Hrow.
    destruct (decide (all_reg s1 ts)), (decide (all_reg s2 ts)); tauto.
  - injection Ho as <- <-. assert (out1 = out2) as <-; [|split; [apply same_outcome_refl|by apply Hstep]].
    simpl in Ha1, Ha2. rewrite Ha1, Ha2. specialize (Hall ts).
    destruct (decide (all_reg s1 ts)), (decide (all_reg s2 ts)); tauto.
  - simpl in Ha1, Ha2. subst. split; [done|by apply Hstep].
  - simpl in Ha1, Ha2. subst. split; [done|by apply Hstep].
  - injection Ho as <-. simpl in Ha1, Ha2. rewrite <-(ag_reg _ _ Hag) in Ha2. subst. split; [done|by apply Hstep].
  - simpl in Ha1, Ha2. pose proof Hg1 as Hf1. pose proof Hg2 as Hf2. simpl in Hf1, Hf2.
    rewrite decide_True in Ha1 by done. rewrite decide_True in Ha2 by done. subst. split; [done|]. destruct Hag as [? ? ? ? ? Hrg ?]. split; simpl; try done.
    apply set_eq. intros t. rewrite !elem_of_union, !elem_of_list_to_set. rewrite <-Hrg. apply Ho.
  - injection Ho as <- <- <-. assert (out1 = out2) as <-; [|split; [apply same_outcome_refl|by apply Hstep]].
    simpl in Ha1, Ha2. rewrite Ha1, Ha2, Hrow, (ag_reg _ _ Hag). done.
  - injection Ho as <- <- <- <-. destruct Hd as (Hp & Hone & Hloose).
    pose proof (query_ok_agree s1 s2 G J X (ag_reg _ _ Hag)) as Hqa.
    assert (∀ w s ds out dr w', winv w s ds → s_loose s = ∅ → step w (OForEach G J X f) = (out, dr, w') →
      (¬ query_ok s G J X ∧ out = Panicked []) ∨
      ∃ es vs, query_ok s G J X ∧ out = Ret (RWrote es vs) ∧ NoDup es ∧ ∀ e, e ∈ es ↔ s_alive s e ∧ matches (s_row s e) G J X) as Hfe.
    { clear -Hp Hone. intros w s ds out dr w' [HE HC] Hl Hs. simpl in Hs. unfold world_for_each in Hs.
      destruct (query_for_each_ok w ds _ _ _ _ G J X f HC) as
        [[Hn Hf]|(s' & ds' & es & o & n & dn & Hrg & Hc & Hf & HC' & HW & HV & _)]; rewrite Hf in Hs.
      - left. injection Hs as <- _ _. split; [|done]. exact Hn.
      - right. injection Hs as <- _ _. exists es, n. split; [done|]. split; [done|]. split; [apply HV|].
        intros e. apply (visits_exact s _ G J X dn es eq_refl HV Hp); [by left|]. rewrite Hl. apply not_elem_of_empty. }
    destruct (Hfe _ _ _ _ _ _ HI1 Hloose Hs1) as [[Hn1 ->]|(es1 & vs1 & Hq1 & -> & Hnd1 & He1)],
             (Hfe _ _ _ _ _ _ HI2 (eq_trans (eq_sym (ag_loose _ _ Hag)) Hloose) Hs2)
               as [[Hn2 ->]|(es2 & vs2 & Hq2 & -> & Hnd2 & He2)]; try tauto.
    + split; [done|]. by apply Hstep.
    + assert (∀ e, e ∈ es1 ↔ e ∈ es2) as Hes by (intros e; by rewrite He1, He2, Hal, Hrow).
      split; [by apply NoDup_Permutation|]. simpl. destruct Hag as [Hm ? ? ? ? ? ?]. split; simpl; try done. rewrite Hm.
      unfold visit_all. apply map_eq. intros e. rewrite !map_lookup_imap. destruct (s_map s2 !! e); simpl; [|done].
      f_equal. destruct (decide (e ∈ es1)) as [H|H], (decide (e ∈ es2)) as [H'|H']; try done; by rewrite Hes in H.
Qed.

(** The same outcome. *)
Lemma agree_outcome w1 s1 ds1 w2 s2 ds2 o1 o2 out1 dr1 w1' out2 dr2 w2' :
  winv w1 s1 ds1 → winv w2 s2 ds2 → same_versions s1 → same_versions s2 →
  w_ents w1 = w_ents w2 → agree s1 s2 → same_op s1 o1 o2 → determined s1 o1 →
  op_ok o1 → op_ok o2 →
  step w1 o1 = (out1, dr1, w1') → good_side s1 o1 out1 → step w2 o2 = (out2, dr2, w2') → good_side s2 o2 out2 →
  same_outcome out1 out2 ∧ w_ents w1' = w_ents w2' ∧ agree (client_step s1 o1 out1) (client_step s2 o2 out2).
Proof.
  intros HI1 HI2 Hsv1 Hsv2 Hw Hag Ho Hd Hop1 Hop2 Hs1 Hg1 Hs2 Hg2.
  destruct (step_inv _ _ _ _ _ _ _ HI1 Hsv1 Hop1 Hs1 Hg1) as [Ha1 _].
  destruct (step_inv _ _ _ _ _ _ _ HI2 Hsv2 Hop2 Hs2 Hg2) as [Ha2 _].
  exact (agree_allowed _ _ _ _ _ _ _ _ _ _ _ _ _ _ HI1 HI2 Hw Hag Ho Hd Hs1 (proj1 Hg1) Ha1 Hs2 (proj1 Hg2) Ha2).
Qed.

Lemma paired_inv w1 s1 ds1 w2 s2 ds2 evs1 evs2 v1 t1 v2 t2 :
  winv w1 s1 ds1 → winv w2 s2 ds2 → same_versions s1 → same_versions s2 →
  w_ents w1 = w_ents w2 → agree s1 s2 → paired w1 s1 w2 s2 evs1 evs2 v1 t1 v2 t2 →
  same_versions t1 ∧ same_versions t2 ∧ (∃ ds, winv v1 t1 ds) ∧ (∃ ds, winv v2 t2 ds) ∧
  w_ents v1 = w_ents v2 ∧ agree t1 t2 ∧
  Forall2 (λ ev1 ev2, same_outcome ev1.1.2 ev2.1.2) evs1 evs2.
Proof.
  intros HI1 HI2 Hsv1 Hsv2 Hw Hag Hp.
  induction Hp as [|evs1 evs2 v1 t1 v2 t2 o1 o2 out1 out2 dr1 dr2 v1' v2' Hp IH Ho Hd Hop1 Hop2 Hs1 Hg1 Hs2 Hg2].
  { split_and!; eauto. }
  destruct IH as (Hv1 & Hv2 & [d1 HJ1] & [d2 HJ2] & Hw' & Hag' & HF).
  destruct (agree_outcome _ _ _ _ _ _ _ _ _ _ _ _ _ _ HJ1 HJ2 Hv1 Hv2 Hw' Hag' Ho Hd Hop1 Hop2 Hs1 Hg1 Hs2 Hg2)
    as (Hout & Hw'' & Hag'').
  destruct (step_inv _ _ _ _ _ _ _ HJ1 Hv1 Hop1 Hs1 Hg1) as (_ & d1' & HK1 & _).
  destruct (step_inv _ _ _ _ _ _ _ HJ2 Hv2 Hop2 Hs2 Hg2) as (_ & d2' & HK2 & _).
  split_and!; [apply Hg1|apply Hg2|eauto|eauto|done|done|].
  apply Forall2_app; [done|]. by repeat constructor.
Qed.

(** Every part of a paired history is a good history. *)
Lemma paired_history w1 s1 w2 s2 evs1 evs2 v1 t1 v2 t2 :
  paired w1 s1 w2 s2 evs1 evs2 v1 t1 v2 t2 →
  history good_side w1 s1 evs1 v1 t1 ∧ history good_side w2 s2 evs2 v2 t2.
Proof. induction 1; [split; constructor|]. destruct_and!. split; econstructor; eauto. Qed.

Lemma query_one_panics w s ds G J X e :
  winv w s ds → ¬ query_ok s G J X → query_one w G J X e = Panic.
Proof.
  intros [HE HC] Hn. unfold query_one.
  destruct (borrow3_ok w ds _ _ _ _ HC G J X) as [[_ ->]|(g & i & x & H1 & H2 & _)]; [done|].
  by destruct Hn.
Qed.

Lemma inv_answers w1 s1 ds1 w2 s2 ds2 :
  winv w1 s1 ds1 → winv w2 s2 ds2 → w_ents w1 = w_ents w2 → agree s1 s2 → same_answers w1 w2.
Proof.
  intros HI1 HI2 Hw Hag.
  assert (∀ e, s_row s1 e = s_row s2 e) as Hrow by (intros e; unfold s_row; by rewrite (ag_map _ _ Hag)).
  split.
  - unfold world_entities. by rewrite Hw.
  - intros e. unfold world_contains. by rewrite Hw.
  - intros t. by rewrite (winv_registered _ _ _ _ HI1), (winv_registered _ _ _ _ HI2), (ag_reg _ _ Hag).
  - intros t e. by rewrite (inv_view_get _ _ _ _ _ HI1), (inv_view_get _ _ _ _ _ HI2), (ag_reg _ _ Hag), Hrow.
  - intros G J X e.
    destruct (decide (query_ok s1 G J X)) as [Hq|Hq].
    + assert (query_ok s2 G J X) as Hq2 by (by apply (query_ok_agree s1 s2 G J X (ag_reg _ _ Hag))).
      destruct (query_one_at w1 s1 ds1 G J X e HI1 Hq) as (r1 & -> & _ & Hr1).
      destruct (query_one_at w2 s2 ds2 G J X e HI2 Hq2) as (r2 & -> & _ & Hr2). rewrite Hrow in Hr1.
      destruct r1 as [it1|], r2 as [it2|]; [|tauto|tauto|done]. simpl. do 2 f_equal.
      pose proof HI1 as [_ HC1]. pose proof HI2 as [_ HC2].
      destruct Hr1 as (_ & _ & _ & Hi1), Hr2 as (_ & _ & _ & Hi2).
      apply (items_ok_sees _ _ _ _ _ _ HC1) in Hi1. apply (items_ok_sees _ _ _ _ _ _ HC2) in Hi2.
      rewrite (ag_map _ _ Hag) in Hi1. rewrite Hi1 in Hi2. by simplify_eq.
    + assert (¬ query_ok s2 G J X) as Hq2 by (by rewrite <-(query_ok_agree s1 s2 G J X (ag_reg _ _ Hag))).
      by rewrite (query_one_panics _ _ _ _ _ _ e HI1 Hq), (query_one_panics _ _ _ _ _ _ e HI2 Hq2).
Qed.

Lemma agree_answers w1 s1 w2 s2 :
  reachable w1 s1 → reachable w2 s2 → w_ents w1 = w_ents w2 → agree s1 s2 → same_answers w1 w2.
Proof.
  intros (_ & ds1 & HI1)%reachable_inv (_ & ds2 & HI2)%reachable_inv. by eapply inv_answers.
Qed.

Lemma answers_perm s1 s2 G es1 its1 es2 its2 :
  (∀ e, s_row s1 e = s_row s2 e) → answers s1 G es1 its1 → answers s2 G es2 its2 → es1 ≡ₚ es2 →
  map (map abs_item) its1 ≡ₚ map (map abs_item) its2.
Proof.
  intros Hrow H1 H2 Hp.
  assert (∀ s es its, answers s G es its → map Some (map (map abs_item) its) = map (λ e, sees e (s_row s e) G) es) as H.
  { clear. intros s es its H. induction H as [|e it es its He _ IH]; [done|]. simpl. rewrite IH. f_equal. by rewrite He. }
  apply H in H1. apply H in H2.
  assert (map Some (map (map abs_item) its1) ≡ₚ map Some (map (map abs_item) its2)) as Hs.
  { rewrite H1, H2. rewrite (map_ext _ (λ e, sees e (s_row s2 e) G)); [by apply Permutation_map|]. intros e. by rewrite Hrow. }
  clear -Hs. apply (Permutation_map (λ o, match o with Some x => x | None => [] end)) in Hs.
  by rewrite !(map_map Some), !map_id in Hs.
Qed.

Lemma inv_queries w1 s1 ds1 w2 s2 ds2 :
  winv w1 s1 ds1 → winv w2 s2 ds2 → agree s1 s2 → s_loose s1 = ∅ → same_queries w1 w2.
Proof.
  intros HI1 HI2 Hag Hl G J X Hp Hone.
  assert (∀ e, s_row s1 e = s_row s2 e) as Hrow by (intros e; unfold s_row; by rewrite (ag_map _ _ Hag)).
  destruct (decide (query_ok s1 G J X)) as [Hq|Hq].
  - right. assert (query_ok s2 G J X) as Hq2 by (by apply (query_ok_agree s1 s2 G J X (ag_reg _ _ Hag))).
    destruct (query_all_at _ _ _ _ _ _ HI1 Hq) as (es1 & its1 & dn1 & Hq1 & _ & Hi1 & HV1).
    destruct (query_all_at _ _ _ _ _ _ HI2 Hq2) as (es2 & its2 & dn2 & Hq2' & _ & Hi2 & HV2).
    exists its1, its2. split_and!; [done|done|].
    pose proof (items_answers _ _ _ _ _ _ HI1 Hi1) as Ha1. pose proof (items_answers _ _ _ _ _ _ HI2 Hi2) as Ha2.
    eapply (answers_perm s1 s2); try done.
    apply NoDup_Permutation; [apply HV1|apply HV2|]. intros e.
    rewrite (visits_exact s1 _ G J X dn1 es1 eq_refl HV1), (visits_exact s2 _ G J X dn2 es2 eq_refl HV2); try done; try (by left).
    + unfold s_alive. by rewrite Hrow, (ag_map _ _ Hag).
    + rewrite <-(ag_loose _ _ Hag), Hl. apply not_elem_of_empty.
    + rewrite Hl. apply not_elem_of_empty.
  - left. split; [by eapply query_all_panics|]. eapply query_all_panics; [done|].
    by rewrite <-(query_ok_agree s1 s2 G J X (ag_reg _ _ Hag)).
Qed.

Lemma agree_queries w1 s1 w2 s2 :
  reachable w1 s1 → reachable w2 s2 → agree s1 s2 → s_loose s1 = ∅ → same_queries w1 w2.
Proof.
  intros (_ & ds1 & HI1)%reachable_inv (_ & ds2 & HI2)%reachable_inv. by eapply inv_queries.
Qed.

(** ** extend against create *)

Lemma same_versions_add_rows s ts es rows :
  NoDup es → (∀ e, e ∈ es → s_map s !! e = None) → same_versions (add_rows s ts es rows) → same_versions s.
Proof.
  intros Hnd Hes Hsv t e1 e2 Ht.
  assert (s_grouped (add_rows s ts es rows) = s_grouped s) as Hg.
  { clear. revert s rows. induction es as [|e es IH]; intros s [|r rows]; simpl; try done. by rewrite IH. }
  assert (∀ e, is_Some (s_row s e !! t) → is_Some (s_row (add_rows s ts es rows) e !! t)) as H.
  { intros e He. destruct (add_rows_sets ts es s rows) as (_ & _ & H). unfold s_row in *. rewrite H; [done|].
    intros Hi%elem_of_take. destruct Hi as (i & _ & Hi%elem_of_list_lookup_2). rewrite (Hes e Hi) in He. simpl in He. rewrite lookup_empty in He. by destruct He. }
  intros H1%H H2%H. rewrite <-Hg in Ht. by apply (Hsv t).
Qed.

Lemma create_rows_run ts : ∀ rows w s es st',
  reachable w s → all_reg s ts → Forall (λ r, length r = length ts) rows →
  create_n (w_ents w) (length rows) = Ok (es, st') → length es = length rows →
  same_versions (add_rows s ts es rows) →
  ∃ w2, run w ((λ r, OCreate (zip ts r)) <$> rows) = ((λ e, Ret (REnt e)) <$> es, w2) ∧
    reachable w2 (add_rows s ts es rows) ∧ w_ents w2 = st'.
Proof.
  induction rows as [|r rows IH]; intros w s es st' Hre Hreg Hrows Hc Hlen Hsv; simpl in Hc.
  { simplify_eq. exists w. by split_and!. }
  destruct (estore_create (w_ents w)) as [[e st1]| |] eqn:Ec; [|by simplify_eq|done].
  destruct (create_n st1 (length rows)) as [[es1 st2]| |] eqn:En; simplify_eq.
  apply Forall_cons in Hrows as [Hr Hrows]. simpl in Hlen, Hsv.
  destruct (reachable_inv _ _ Hre) as (Hsv0 & ds & HI).
  assert ((zip ts r).*1 = ts) as Hz by (apply fst_zip; lia).
  destruct (create_n_einv ts (S (length rows)) s (w_ents w) (e :: es1) st' (r :: rows) (wi_ents _ _ _ HI)) as (HE2 & [Hnew Hnews] & _);
    [simpl; by rewrite Ec, En|done|].
  assert (∀ x, x ∈ s_issued s ∨ x = e → x ∉ es1) as Hfresh.
  { intros x Hx Hin. destruct (new_handles_spec _ _ Hnews) as [_ H]. apply H in Hin. simpl in Hin.
    apply Hin. apply elem_of_union. destruct Hx as [?| ->]; [by right|left; by apply elem_of_singleton]. }
  destruct (step w (OCreate (zip ts r))) as [[out dr] w1] eqn:Hstep.
  assert (reported out = [e]) as Hrep.
  { pose proof Hstep as Hs. simpl in Hs. unfold world_create in Hs. rewrite Ec in Hs.
    unfold set_insert in Hs. destruct (insert_loop _ _ _ _ _) as [? comps mask|? comps|]; [|by simplify_eq|by simplify_eq].
    by destruct (group_if _ mask e); simplify_eq. }
  pose proof (new_handle_dead _ _ _ (wi_ents _ _ _ HI) Hnew) as Hdead.
  assert (good_side s (OCreate (zip ts r)) out) as Hg.
  { split; [done|]. cbn [client_step]. rewrite Hrep. simpl.
    assert (same_versions (add_entity s e (put (s_reg s) (zip ts r) ∅))) as H.
    { eapply same_versions_add_rows; [..|exact Hsv].
      - by destruct (new_handles_spec _ _ Hnews).
      - intros x Hx. simpl. rewrite lookup_insert_ne by (intros <-; by eapply (Hfresh e); eauto).
        destruct (s_map s !! x) as [rx|] eqn:Ex; [|done]. exfalso. apply (Hfresh x); [|done]. left.
        eapply einv_valid; [apply HI|]. unfold s_alive. by rewrite Ex. }
    by destruct (panicked out). }
  assert (op_ok (OCreate (zip ts r))) as Hop by done.
  destruct (reachable_step _ _ _ _ _ _ Hre Hop Hstep Hg) as [Hal Hre'].
  assert (ub_free out) as Hu by (by eapply allowed_ub_free).
  pose proof (step_ent_effect _ _ _ _ _ _ (wi_ents _ _ _ HI) Hstep Hu) as Heff. cbn [ent_effect] in Heff.
  rewrite Ec in Heff. injection Heff as _ Hw1.
  assert (out = Ret (REnt e)) as ->.
  { simpl in Hal. rewrite Hz in Hal. destruct Hal as [(_ & e' & -> & _)|[(Hn & _)|[-> _]]]; [by simplify_eq/=|done|done]. }
  simpl in Hre'. rewrite Hw1 in En.
  destruct (IH w1 _ es1 st' Hre') as (w2 & Hrun & Hre2 & Hw2); [done|done|done|lia|done|].
  exists w2. split_and!; [|done|done]. rewrite !fmap_cons. cbn [run]. by rewrite Hstep, Hrun.
Qed.

(** ** Fresh worlds and reset *)

Lemma reset_fresh w out ds w' :
  step w OReset = (out, ds, w') → ub_free out → w_ents w' = estore_new.
Proof. simpl. unfold world_reset. destruct (cstore_clear _) as [[? ?]| |]; intros; by simplify_eq. Qed.

Lemma built_ents w s : built w s → w_ents w = estore_new.
Proof.
  intros (gs & l & ts & _ & Hb & ->). unfold builder_build, world_new in Hb.
  by destruct (set_layout cstore_new l [] []); simplify_eq.
Qed.

Lemma history_nil_inv side w s evs w' s' : history side w s evs w' s' → evs = [] → w' = w ∧ s' = s.
Proof. intros [|evs1]; [done|]. by destruct evs1. Qed.

Lemma history_snoc_inv side w s evs o out ds w2 s2 evs' :
  history side w s evs' w2 s2 → evs' = evs ++ [(o, out, ds)] →
  ∃ w1 s1, history side w s evs w1 s1 ∧ op_ok o ∧ step w1 o = (out, ds, w2) ∧ side s1 o out ∧
    s2 = client_step s1 o out.
Proof.
  intros [|evs1 w1 s1 o1 out1 ds1 w2' Hh Hop Hs Hside]; [by destruct evs|].
  intros [-> ?]%app_inj_tail. simplify_eq. eauto 10.
Qed.

Lemma same_op_refl s o : same_op s o o.
Proof. by destruct o. Qed.

(** Worlds with the same entities and registered types give out the same handles. *)
Lemma lockstep_history w1 s1 d1 w2 s2 d2 evs1 v1 t1 :
  winv w1 s1 d1 → winv w2 s2 d2 → same_versions s1 → same_versions s2 →
  w_ents w1 = w_ents w2 → s_reg s1 = s_reg s2 →
  history good_side w1 s1 evs1 v1 t1 → ∀ evs2 v2 t2,
  history good_side w2 s2 evs2 v2 t2 → map (λ ev, ev.1.1) evs1 = map (λ ev, ev.1.1) evs2 →
  map (λ ev, reported ev.1.2) evs1 = map (λ ev, reported ev.1.2) evs2 ∧
  w_ents v1 = w_ents v2 ∧ s_reg t1 = s_reg t2.
Proof.
  intros HI1 HI2 Hsv1 Hsv2 Hw Hreg Hh1.
  induction Hh1 as [|evs1 v1 t1 o out dr v1' Hh1 IH Hop Hs1 Hg1]; intros evs2 v2 t2 Hh2 Hops.
  { destruct evs2; [|done]. by destruct (history_nil_inv _ _ _ _ _ _ Hh2 eq_refl) as [-> ->]. }
  destruct evs2 as [|[[o2 out2] dr2] evs2' _] using rev_ind.
  { rewrite map_app in Hops. by destruct evs1. }
  destruct (history_snoc_inv _ _ _ _ _ _ _ _ _ _ Hh2 eq_refl) as (v2' & t2' & Hh2' & Hop2 & Hs2 & Hg2 & ->).
  rewrite !map_app in Hops. simpl in Hops. apply app_inj_tail in Hops as [Hops <-].
  destruct (IH _ _ _ Hh2' Hops) as (IH1 & IH2 & IH3).
  destruct (history_inv _ _ _ _ _ _ HI1 Hsv1 Hh1) as (Hv1 & e1 & HJ1 & _).
  destruct (history_inv _ _ _ _ _ _ HI2 Hsv2 Hh2') as (Hv2 & e2 & HJ2 & _).
  destruct (step_inv _ _ _ _ _ _ _ HJ1 Hv1 Hop Hs1 Hg1) as [Ha1%allowed_ub_free _].
  destruct (step_inv _ _ _ _ _ _ _ HJ2 Hv2 Hop2 Hs2 Hg2) as [Ha2%allowed_ub_free _].
  destruct (lockstep_handles _ _ _ _ _ _ _ _ _ _ _ _ _ _ HJ1 HJ2 IH2 IH3 (same_op_refl t1 o) Hs1 Ha1 Hs2 Ha2) as [Hr Hw'].
  split_and!; [|done|].
  - rewrite !map_app, IH1. simpl. by rewrite Hr.
  - assert (∀ s o out, s_reg (client_step s o out) = match o with ORegister t => {[t]} ∪ s_reg s
      | OSetLayout l _ => list_to_set (layout_tids l) ∪ s_reg s | _ => s_reg s end) as Hcr.
    { clear. intros s o out. destruct o; cbn [client_step]; try done; try (by case_decide).
      - assert (∀ es s, s_reg (foldl (λ s e, add_entity s e (put (s_reg s) cs ∅)) s es) = s_reg s) as H.
        { induction es as [|e es IH]; intros s'; [done|]. simpl. by rewrite IH. }
        rewrite <-(H (reported out) s). by destruct (panicked out).
      - assert (∀ es s rows, s_reg (add_rows s ts es rows) = s_reg s) as H.
        { induction es as [|e es IH]; intros s' [|r rs]; try done. simpl. by rewrite IH. }
        rewrite <-(H (reported out) s rows). by destruct (panicked out).
      - assert (∀ es s, s_reg (foldl add_queued s es) = s_reg s) as H.
        { induction es as [|e es IH]; intros s'; [done|]. simpl. by rewrite IH. }
        apply H.
      - case_decide; [|done]. by destruct (panicked out).
      - by destruct out as [[]| |]. }
    rewrite !Hcr, IH3. done.
Qed.

(** ** Statements used by the property files *)

Lemma built_registered w s : built w s → reachable w s.
Proof. intros Hb. exists [], w, s. split; [done|constructor]. Qed.

Lemma history_reachable w0 s0 evs w s : built w0 s0 → history good_side w0 s0 evs w s → reachable w s.
Proof. intros. exists evs, w0, s0. done. Qed.

Lemma reachable_history w0 s0 evs w s : reachable w0 s0 → history good_side w0 s0 evs w s → reachable w s.
Proof.
  intros (evs0 & w1 & s1 & Hb & Hh1) Hh2. exists (evs0 ++ evs), w1, s1. split; [done|]. by eapply history_app.
Qed.

Lemma reg_eq w1 s1 w2 s2 : reachable w1 s1 → reachable w2 s2 →
  (∀ t, world_is_registered w1 t = world_is_registered w2 t) → s_reg s1 = s_reg s2.
Proof.
  intros H1 H2 H. apply set_eq. intros t. specialize (H t).
  rewrite (reach_registered _ _ _ H1), (reach_registered _ _ _ H2) in H.
  by rewrite <-(bool_decide_eq_true (t ∈ s_reg s1)), H, bool_decide_eq_true.
Qed.

Lemma layouts_agree w1 s1 w2 s2 evs1 evs2 v1 t1 v2 t2 :
  built w1 s1 → built w2 s2 → (∀ t, world_is_registered w1 t = world_is_registered w2 t) →
  paired w1 s1 w2 s2 evs1 evs2 v1 t1 v2 t2 →
  Forall2 (λ ev1 ev2, same_outcome ev1.1.2 ev2.1.2) evs1 evs2 ∧ same_answers v1 v2 ∧
  (s_loose t1 = ∅ → same_queries v1 v2).
Proof.
  intros Hb1 Hb2 Hreg Hp.
  pose proof (built_registered _ _ Hb1) as Hr1. pose proof (built_registered _ _ Hb2) as Hr2.
  destruct (reachable_inv _ _ Hr1) as (Hsv1 & d1 & HI1). destruct (reachable_inv _ _ Hr2) as (Hsv2 & d2 & HI2).
  assert (agree s1 s2) as Hag.
  { pose proof (reg_eq _ _ _ _ Hr1 Hr2 Hreg) as Hrg.
    destruct Hb1 as (? & ? & ? & _ & _ & ->), Hb2 as (? & ? & ? & _ & _ & ->). by split. }
  assert (w_ents w1 = w_ents w2) as Hw by (by rewrite (built_ents _ _ Hb1), (built_ents _ _ Hb2)).
  destruct (paired_inv _ _ _ _ _ _ _ _ _ _ _ _ HI1 HI2 Hsv1 Hsv2 Hw Hag Hp) as (_ & _ & _ & _ & Hw' & Hag' & HF).
  destruct (paired_history _ _ _ _ _ _ _ _ _ _ Hp) as [Hh1 Hh2].
  pose proof (history_reachable _ _ _ _ _ Hb1 Hh1) as Hq1. pose proof (history_reachable _ _ _ _ _ Hb2 Hh2) as Hq2.
  split_and!; [done|by eapply agree_answers|]. intros Hl. by eapply agree_queries.
Qed.

Lemma reset_is_fresh w s out ds w1 w0 s0 evs1 v1 t1 evs0 v0 t0 :
  reachable w s → step w OReset = (out, ds, w1) →
  built w0 s0 → (∀ t, world_is_registered w0 t = world_is_registered w t) →
  history good_side w1 (client_step s OReset out) evs1 v1 t1 → history good_side w0 s0 evs0 v0 t0 →
  map (λ ev, ev.1.1) evs1 = map (λ ev, ev.1.1) evs0 →
  map (λ ev, reported ev.1.2) evs1 = map (λ ev, reported ev.1.2) evs0.
Proof.
  intros Hr Hs Hb Hreg Hh1 Hh0 Hops.
  assert (good_side s OReset out) as Hg.
  { split; [done|]. intros t e1 e2 _ H. unfold s_row in H. simpl in H. rewrite lookup_empty in H. simpl in H.
    rewrite lookup_empty in H. by destruct H. }
  assert (op_ok OReset) as Hop by done.
  destruct (reachable_step _ _ _ _ _ _ Hr Hop Hs Hg) as [Ha Hr1].
  pose proof (built_registered _ _ Hb) as Hr0.
  destruct (reachable_inv _ _ Hr1) as (Hsv1 & d1 & HI1). destruct (reachable_inv _ _ Hr0) as (Hsv0 & d0 & HI0).
  eapply (lockstep_history w1 _ d1 w0 s0 d0); try done.
  - rewrite (built_ents _ _ Hb). eapply reset_fresh; [done|by eapply allowed_ub_free].
  - simpl. symmetry. by eapply reg_eq.
Qed.

Lemma extend_is_creates w s ts rows es ds w1 :
  reachable w s → op_ok (OExtend ts rows false) →
  step w (OExtend ts rows false) = (Ret (REnts es), ds, w1) →
  good_side s (OExtend ts rows false) (Ret (REnts es)) →
  ∃ w2, run w (map (λ r, OCreate (zip ts r)) rows) = (map (λ e, Ret (REnt e)) es, w2) ∧
    same_answers w1 w2 ∧ (s_loose s = ∅ → same_queries w1 w2).
Proof.
  intros Hr Hop Hs Hg. destruct (reachable_step _ _ _ _ _ _ Hr Hop Hs Hg) as [Ha Hr1].
  destruct (reachable_inv _ _ Hr) as (Hsv & d & HI).
  pose proof (step_ent_effect _ _ _ _ _ _ (wi_ents _ _ _ HI) Hs I) as Heff. cbn [ent_effect] in Heff.
  simpl in Ha. destruct Ha as [(Hreg & _ & es' & [= <-] & Hlen & _)|[(_ & ? & [=] & _)|[_ [=]]]].
  assert (forallb (world_is_registered w) ts = true) as Hf.
  { apply forallb_forall. intros t Ht%elem_of_list_In. rewrite (winv_registered _ _ _ _ HI).
    apply bool_decide_true. by apply Hreg. }
  rewrite Hf in Heff.
  destruct (create_rows_run ts rows w s es (w_ents w1) Hr Hreg Hop Heff Hlen (proj2 Hg)) as (w2 & Hrun & Hr2 & Hw2).
  exists w2. split; [done|]. assert (agree (add_rows s ts es rows) (add_rows s ts es rows)) as Hag by done.
  split; [by eapply agree_answers|]. intros Hl. eapply agree_queries; try done.
  assert (∀ es s rows, s_loose (add_rows s ts es rows) = s_loose s) as H.
  { clear. induction es as [|e es IH]; intros s' [|r rs]; try done. simpl. by rewrite IH. }
  change (s_loose (add_rows s ts es rows) = ∅). by rewrite H.
Qed.
