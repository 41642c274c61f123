(** The run-time borrow checks after any history without invalid accesses. *)
From Verif Require Import Base SparseVecM EntityM CssM MaskM LayoutM GroupM StorageM WorldM QueryM ParM StepM BorrowM
  Spec SpecMore SpecSafety SpecBorrow Lists SparseProofs StorageProofs EntityRun WorldProofs History SafetyFacts
  BlindCss BlindQuery BlindLayout EveryFacts BorrowProofs.

Lemma good_ub_free evs w s : good_history evs w s → ub_free_history evs w s.
Proof.
  intros (w0 & s0 & Hb & Hh). exists w0, s0. split; [done|].
  induction Hh as [|evs w1 s1 o out dr w2 Hh IH Hok Hs Hg]; [constructor|].
  econstructor; [exact IH|done|exact Hs|].
  assert (reachable w1 s1) as Hr by (exists evs, w0, s0; done).
  eapply (reach_safe _ _ Hr); [done|exact Hs|done].
Qed.

Lemma every_session_step evs w s : ub_free_history evs w s → ∀ tr st a r st',
  session w tr st → b_act w st a = (r, st') →
  (r = Panic ↔ ∃ id p, a = BAdd id p ∧ refused w (live_after tr) p) ∧ r ≠ UB.
Proof. intros [ds Hd]%history_bstore. by eapply session_step. Qed.

Lemma every_session_build evs w s : ub_free_history evs w s → ∀ tr st id q,
  session w tr st → unheld id (live_after tr) →
  let bad := (∃ p, p ∈ q ∧ refused w (live_after tr) p) ∨ clash q in
  (bad ∧ b_build w st id q = (Panic, st)) ∨
  (¬ bad ∧ ∃ st', b_build w st id q = (Ok tt, st') ∧ b_release st' id = st).
Proof. intros [ds Hd]%history_bstore. by eapply session_build. Qed.

Lemma every_exclusive evs w s : ub_free_history evs w s →
  ∀ tr st, session w tr st → exclusive_alone (live_after tr).
Proof. intros [ds Hd]%history_bstore. by eapply session_exclusive. Qed.

Lemma reach_query_call w s : reachable w s → ∀ id G J X,
  (b_build w (b_init w) id (G ++ J ++ X)).1 = Panic ↔ query_all w G J X = Panic.
Proof.
  intros Hr. destruct Hr as [evs Hg]. destruct (history_bstore evs w s (good_ub_free _ _ _ Hg)) as [ds Hd].
  eapply build_query_all; [by exists evs|done].
Qed.

(** ** The query calls *)

Lemma query_borrow_reg w : bst (w_comps w) → ∀ q,
  query_borrow w q = Panic ∧ (∃ t, t ∈ omap part_tid q ∧ world_is_registered w t = false) ∨
  (∃ vs, query_borrow w q = Ok vs) ∧ ∀ t, t ∈ omap part_tid q → world_is_registered w t = true.
Proof.
  intros Hb. unfold world_is_registered. induction q as [|p q IH]; simpl; [right; split; [by eexists|by intros t ?%elem_of_nil]|].
  assert (part_borrow w p = Panic ∧ (∃ t, part_tid p = Some t ∧ is_registered (w_comps w) t = false) ∨
    (∃ v, part_borrow w p = Ok v) ∧ ∀ t, part_tid p = Some t → is_registered (w_comps w) t = true) as Hp.
  { unfold is_registered.
    destruct p as [|t|t|t|t]; simpl; [right; split; [by eexists|done]|..];
      (destruct (bst_borrow (w_comps w) t Hb) as [[-> Hm]|(m & c & k & d & Hm & _ & -> & _)];
       [left; split; [done|]; exists t; by rewrite Hm|right; split; [by eexists|]; intros ? [= <-]; by rewrite Hm]). }
  destruct Hp as [[-> (t & Ht & Hn)]|[(v & ->) Hv]].
  - left. split; [done|]. exists t. rewrite Ht. split; [by left|done].
  - destruct IH as [[-> (t & Ht & Hn)]|[(vs & ->) Hvs]]; simpl.
    + left. split; [done|]. exists t. split; [|done]. destruct (part_tid p); [by right|done].
    + right. split; [by eexists|]. intros t. destruct (part_tid p) as [t0|] eqn:E; [|apply Hvs].
      intros [->|?]%elem_of_cons; [by apply Hv|by apply Hvs].
Qed.

Lemma borrow3_refused w G J X : bst (w_comps w) →
  (∃ p, p ∈ G ++ J ++ X ∧ refused w [] p) ∨ clash (G ++ J ++ X) → borrow3 w G J X = Panic.
Proof.
  intros Hb Hbad. unfold borrow3.
  destruct (query_borrow_reg w Hb G) as [[-> _]|[(g & ->) HG]]; [done|].
  destruct (query_borrow_reg w Hb J) as [[-> _]|[(i & ->) HJ]]; [done|].
  destruct (query_borrow_reg w Hb X) as [[-> _]|[(x & ->) HX]]; [done|].
  destruct (no_conflict _ _) eqn:E; [|done]. exfalso. apply no_conflict_clash in E as [Hc _].
  destruct Hbad as [(p & Hp & t & Ht & [Hr|(i' & m & []%elem_of_nil & _)])|?]; [|done].
  assert (∀ q, p ∈ q → t ∈ omap part_tid q) as Hin by (intros q ?; apply elem_of_list_omap; by exists p).
  apply elem_of_app in Hp as [Hp|[Hp|Hp]%elem_of_app]; apply Hin in Hp; [apply HG in Hp|apply HJ in Hp|apply HX in Hp]; congruence.
Qed.

Lemma every_query_refused evs w s G J X : ub_free_history evs w s →
  (∃ p, p ∈ G ++ J ++ X ∧ refused w [] p) ∨ clash (G ++ J ++ X) →
  query_all w G J X = Panic ∧ query_all_slice w G J X = Panic ∧
  (∀ e, query_one w G J X e = Panic ∧ query_one_contains w G J X e = Panic) ∧
  (∀ t, par_collect w G J X t = Panic) ∧
  (∀ f, step w (OForEach G J X f) = (Panicked [], [], w)).
Proof.
  intros [ds Hd%bstore_bst]%history_bstore Hbad. pose proof (borrow3_refused _ _ _ _ Hd Hbad) as Hb.
  split_and!.
  - unfold query_all. by rewrite Hb.
  - unfold query_all_slice. by rewrite Hb.
  - intros e. unfold query_one, query_one_contains. by rewrite Hb.
  - intros t. unfold par_collect, query_all_par_iter. by rewrite Hb.
  - intros f. simpl. unfold world_for_each, query_for_each. by rewrite Hb.
Qed.

Lemma every_unregistered_query evs w s G J X : ub_free_history evs w s →
  (∃ t, t ∈ omap part_tid (G ++ J ++ X) ∧ world_is_registered w t = false) →
  query_all w G J X = Panic ∧ query_all_slice w G J X = Panic ∧
  (∀ e, query_one w G J X e = Panic ∧ query_one_contains w G J X e = Panic) ∧
  (∀ t, par_collect w G J X t = Panic) ∧
  (∀ f, step w (OForEach G J X f) = (Panicked [], [], w)).
Proof.
  intros Hh (t & (p & Hp & Ht)%elem_of_list_omap & Hr). eapply every_query_refused; [done|]. left.
  exists p. split; [done|]. exists t. auto.
Qed.

(** ** [register] and unregistered types *)

Lemma any_unregistered_calls w ts : (∃ t, t ∈ ts ∧ world_is_registered w t = false) →
  (∀ e, step w (ORemove e ts) = (Panicked [], [], w)) ∧
  (∀ e, step w (ODelete e ts) = (Panicked [], [], w)) ∧
  (∀ rows b, step w (OExtend ts rows b) = (Panicked [], concat rows, w)).
Proof.
  intros (t & Ht & Hn).
  assert (∀ f, lookup_metas (cs_meta (w_comps w)) f ts = None) as H.
  { intros f. apply lookup_metas_registered, not_true_iff_false. intros H. rewrite forallb_forall in H.
    apply elem_of_list_In in Ht. apply H in Ht. unfold world_is_registered in Hn. rewrite is_registered_lookup in Hn. congruence. }
  split_and!; intros; simpl; [unfold set_remove|unfold set_delete|unfold set_extend]; by rewrite H.
Qed.

Lemma every_register evs w s t : ub_free_history evs w s → ∀ out ds w', step w (ORegister t) = (out, ds, w') →
  out = Ret (RBool (negb (world_is_registered w t))) ∧ ds = [] ∧
  (∀ t', world_is_registered w' t' = bool_decide (t' = t) || world_is_registered w t') ∧
  (∀ e, kept w w' e) ∧ world_entities w' = world_entities w ∧
  (world_is_registered w t = false → ∀ e, view_get w' t e = Ok None).
Proof.
  intros [d Hd]%history_bstore out ds w' Hs. simpl in Hs. unfold world_register in Hs.
  destruct (register_dyn (w_comps w) t) as [b s0] eqn:E. injection Hs as <- <- <-.
  assert (s0 = (register_dyn (w_comps w) t).2) as Hs0 by (by rewrite E).
  assert (b = negb (world_is_registered w t)) as ->.
  { unfold register_dyn in E. unfold world_is_registered, is_registered. by destruct (cs_meta (w_comps w) !! t); injection E as <- _. }
  split_and!; [done|done| | |done|].
  - intros t'. unfold world_is_registered. simpl. by rewrite Hs0, register_known.
  - intros e. split; [done|]. intros t' Ht'. unfold view_get, cs_borrow. simpl. subst s0. unfold register_dyn.
    unfold world_is_registered, is_registered in Ht'.
    destruct (cs_meta (w_comps w) !! t) as [m|] eqn:Em; [done|]. simpl.
    destruct (cs_meta (w_comps w) !! t') as [m'|] eqn:Em'; [|done].
    rewrite lookup_insert_ne by congruence. rewrite Em'. rewrite lookup_app_l; [done|]. by eapply (bt_in _ _ Hd).
  - intros Ht e. unfold view_get, cs_borrow. simpl. subst s0. unfold register_dyn.
    unfold world_is_registered, is_registered in Ht.
    destruct (cs_meta (w_comps w) !! t) as [m|] eqn:Em; [done|]. simpl. rewrite lookup_insert. simpl.
    rewrite lookup_app_r, Nat.sub_diag by lia. by vm_compute.
Qed.

(** ** Views *)

Lemma any_unregistered_view w t : world_is_registered w t = false →
  view_len w t = Panic ∧ view_entities w t = Panic ∧ view_slice w t = Panic ∧
  (∀ e, view_get w t e = Panic ∧ view_contains w t e = Panic) ∧
  (∀ e v, step w (OSet t e v) = (Panicked [], [v], w)).
Proof.
  unfold world_is_registered, is_registered. intros Hn.
  assert (cs_meta (w_comps w) !! t = None) as Hm by (by destruct (cs_meta (w_comps w) !! t)).
  assert (cs_borrow (w_comps w) t = Panic) as Hb by (unfold cs_borrow; by rewrite Hm).
  unfold view_len, view_entities, view_slice, view_get, view_contains. rewrite Hb. split_and!; [done..|].
  intros e v. simpl. unfold world_set. by rewrite Hm.
Qed.

(** The length and, up to the versions, the entities of a view are right. *)
Lemma every_view evs w s t : ub_free_history evs w s → world_is_registered w t = true →
  ∃ es vs, view_entities w t = Ok es ∧ view_slice w t = Ok vs ∧ view_len w t = Ok (length es) ∧ length vs = length es ∧
    NoDup (e_index <$> es) ∧
    ∀ e, ∃ b r, view_contains w t e = Ok b ∧ view_get w t e = Ok r ∧ b = bool_decide (is_Some r) ∧
      ∀ v, r = Some v → ∃ i e', es !! i = Some e' ∧ vs !! i = Some v ∧ e_index e' = e_index e.
Proof.
  intros [ds Hd%bstore_bst]%history_bstore Hr. unfold world_is_registered, is_registered in Hr.
  destruct (bst_borrow _ t Hd) as [[_ Hm]|(m & c & k & d & Hm & Hc & Hb & Hk)]; [by rewrite Hm in Hr|].
  exists d.*1, d.*2. unfold view_entities, view_slice, view_len, view_contains, view_get. rewrite !Hb.
  split_and!; [by eapply bc_entities|by eapply bc_slice|by rewrite fmap_length, (bc_len _ _ _ Hk)|by rewrite !fmap_length| |].
  - assert (e_index <$> d.*1 = e_index <$> k) as -> by (symmetry; by apply (bc_idx _ _ _ Hk)).
    eapply sparse_ok_nodup, (bc_sparse _ _ _ Hk).
  - intros e. exists (css_contains c e). unfold css_contains, sv_contains, css_get, css_get_ref, sv_get.
    destruct (c_sparse c !! e_sparse e) as [[sl|]|] eqn:Es; [|by exists None..].
    destruct (s_version sl =? e_version e)%N; [|by exists None].
    destruct (bc_slot _ _ _ Hk _ _ Es) as (_ & e0 & v & Hd' & He). destruct (bc_cells _ _ _ Hk _ _ _ Hd') as [_ Hv].
    change (N.to_nat (s_index sl)) with (s_dense sl). unfold buf_read. rewrite Hv. simpl. exists (Some v).
    split_and!; [done..|]. intros ? [= <-]. exists (s_dense sl), e0. rewrite !list_lookup_fmap, Hd'.
    split_and!; [done..|by apply e_sparse_inj].
Qed.
