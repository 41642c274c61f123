(** Safety of reading, caught panics, failed layout changes. *)
From Verif Require Import Base EntityM CssM MaskM LayoutM GroupM StorageM WorldM QueryM ParM StepM Spec SpecMore SpecQuery SpecSafety
  CssProofs LayoutProofs StorageProofs StoreOps LayoutOps WorldProofs QueryProofs QueryRange QueryIter History Lockstep Contents Facts IterFacts QueryFacts.

Lemma borrow3_bad_at w s G J X : agreeing w s → ¬ query_ok s G J X → borrow3 w G J X = Panic.
Proof.
  intros (_ & ds & [HE HC])%agreeing_inv Hn.
  destruct (borrow3_ok w ds _ _ _ _ HC G J X) as [[_ ->]|(g & i & x & H1 & H2 & _)]; [done|].
  by destruct Hn.
Qed.
Lemma borrow3_bad w s G J X : reachable w s → ¬ query_ok s G J X → borrow3 w G J X = Panic.
Proof. exact (λ Hr, borrow3_bad_at w s G J X (reachable_agreeing _ _ Hr)). Qed.

Lemma reach_safe_reads_at w s : agreeing w s → safe_reads w.
Proof.
  intros Hr. assert (∀ G J X, ¬ query_ok s G J X → borrow3 w G J X = Panic) as Hbad by (intros; by eapply borrow3_bad_at).
  split.
  - intros G J X. destruct (decide (query_ok s G J X)) as [Hq|Hq].
    + destruct (reach_query_all_at w s G J X Hr Hq) as (? & ? & -> & _). done.
    + unfold query_all. by rewrite (Hbad _ _ _ Hq).
  - intros G J X. destruct (decide (query_ok s G J X)) as [Hq|Hq].
    + destruct (reach_slice_at w s G J X Hr Hq) as (? & ? & ? & -> & _). done.
    + unfold query_all_slice. by rewrite (Hbad _ _ _ Hq).
  - intros G J X e. destruct (decide (query_ok s G J X)) as [Hq|Hq].
    + destruct (reach_query_one_at w s G J X e Hr Hq) as (? & -> & _). done.
    + unfold query_one. by rewrite (Hbad _ _ _ Hq).
  - intros G J X e. destruct (decide (query_ok s G J X)) as [Hq|Hq].
    + destruct (reach_query_one_at w s G J X e Hr Hq) as (? & _ & -> & _). done.
    + unfold query_one_contains. by rewrite (Hbad _ _ _ Hq).
  - intros G J X. destruct (decide (query_ok s G J X)) as [Hq|Hq].
    + destruct (reach_iter_at w s G J X Hr Hq) as (? & ? & ? & -> & _). done.
    + unfold query_all_iter. by rewrite (Hbad _ _ _ Hq).
  - intros G J X it n Hit. destruct (decide (query_ok s G J X)) as [Hq|Hq].
    + destruct (reach_iter_at w s G J X Hr Hq) as (it' & ? & ? & Hit' & _ & _ & Hy & _). rewrite Hit in Hit'. injection Hit' as <-.
      by rewrite Hy.
    + unfold query_all_iter in Hit. by rewrite (Hbad _ _ _ Hq) in Hit.
  - intros G J X t. destruct (decide (query_ok s G J X)) as [Hq|Hq].
    + destruct (reach_par_at w s G J X Hr Hq) as (? & _ & -> & _). done.
    + unfold par_collect, query_all_par_iter. by rewrite (Hbad _ _ _ Hq).
  - intros G J X H. destruct (decide (query_ok s G J X)) as [Hq|Hq].
    + destruct (reach_par_at w s G J X Hr Hq) as (? & _ & _ & Hp & _). by destruct (Hp _ H) as (? & ? & _).
    + unfold par_produces, query_all_par_iter in H. by rewrite (Hbad _ _ _ Hq) in H.
  - intros t e. destruct (decide (t ∈ s_reg s)) as [Ht|Ht].
    + destruct (reach_view_at w s t Hr Ht) as (es & vs & -> & -> & -> & _ & _ & _ & H1 & H2). by rewrite H1, H2.
    + destruct (reach_view_unreg_at w s t Hr Ht) as (-> & -> & -> & H1 & H2). by rewrite H1, H2.
  - destruct (agreeing_inv _ _ Hr) as (_ & ds & HI). by rewrite (world_drop_ok _ _ _ HI).
Qed.
Lemma reach_safe_reads w s : reachable w s → safe_reads w.
Proof. exact (λ Hr, reach_safe_reads_at w s (reachable_agreeing _ _ Hr)). Qed.

Lemma reach_no_ub w s o out ds w' :
  reachable w s → op_ok o → step w o = (out, ds, w') → good_side s o out → ub_free out ∧ safe_reads w'.
Proof.
  intros Hr Hop Hs Hg. destruct (reachable_step _ _ _ _ _ _ Hr Hop Hs Hg) as [Ha Hr'].
  split; [by eapply allowed_ub_free|by eapply reach_safe_reads].
Qed.

(** ** Caught panics *)

Lemma loose_add_entities f : ∀ es s, s_loose (foldl (λ s e, add_entity s e (f s)) s es) = s_loose s.
Proof. induction es as [|e es IH]; intros s; simpl; [done|]. by rewrite IH. Qed.
Lemma loose_add_queued : ∀ es s, s_loose (foldl add_queued s es) = s_loose s.
Proof. induction es as [|e es IH]; intros s; simpl; [done|]. by rewrite IH. Qed.
Lemma loose_add_rows ts : ∀ es rows s, s_loose (add_rows s ts es rows) = s_loose s.
Proof. induction es as [|e es IH]; intros [|r rows] s; simpl; [done..|]. by rewrite IH. Qed.

Lemma loose_after s o es e : e ∈ s_loose (client_step s o (Panicked es)) →
  e ∈ s_loose s ∨ e ∈ es ∨ ∃ cs, o = OInsert e cs.
Proof.
  destruct o; simpl; try by eauto.
  - rewrite (loose_add_entities (λ s, put (s_reg s) cs ∅)). intros [H%elem_of_list_to_set|?]%elem_of_union; eauto.
  - rewrite loose_add_rows. intros [H%elem_of_list_to_set|?]%elem_of_union; eauto.
  - case_decide; simpl; [|by eauto]. intros [? _]%elem_of_difference. eauto.
  - rewrite loose_add_queued. eauto.
  - case_decide; simpl; [|by eauto]. rewrite (right_id_L ∅ (∪)). intros [->%elem_of_singleton|?]%elem_of_union; eauto.
  - case_decide; simpl; eauto.
  - case_decide; simpl; eauto.
Qed.

Lemma caught_panic w s o es ds w' :
  reachable w s → op_ok o → step w o = (Panicked es, ds, w') → good_side s o (Panicked es) →
  let s' := client_step s o (Panicked es) in
  reachable w' s' ∧ (∀ e, world_contains w' e = bool_decide (s_alive s' e)) ∧ (∀ e, has_comps w' e (s_row s' e)) ∧
  (∀ G J X, query_ok s' G J X → plain G J X → ∃ es' its, query_all w' G J X = Ok its ∧ NoDup es' ∧ answers s' G es' its ∧
     (query_is_dense w' G J X = Ok false → ∀ e, e ∈ es' ↔ s_alive s' e ∧ matches (s_row s' e) G J X) ∧
     (simple_exclude s' X → ∀ e, e ∉ s_loose s' → e ∈ es' ↔ s_alive s' e ∧ matches (s_row s' e) G J X)) ∧
  (∀ e, e ∈ s_loose s' → e ∈ s_loose s ∨ e ∈ es ∨ ∃ cs, o = OInsert e cs).
Proof.
  intros Hr Hop Hs Hg. destruct (reachable_step _ _ _ _ _ _ Hr Hop Hs Hg) as [Ha Hr']. simpl.
  split; [done|]. split; [apply (reach_entities _ _ Hr')|]. split; [intros e; by apply reach_row|]. split.
  - intros G J X Hq Hp. destruct (reach_query_all _ _ G J X Hr' Hq) as (es' & its & H1 & H2 & H3 & _ & H5 & H6).
    exists es', its. split_and!; auto.
  - intros e He. by apply loose_after in He.
Qed.

(** ** [set_layout] panics *)

Definition unwinds (D : tid → dense) (V : list val) (st : sl_state) : Prop :=
  ∃ ds, Forall2 css_rep (cs_comps st.1) ds ∧ (∀ t c, st.2 !! t = Some c → css_rep c (D t)) ∧
    stored ds ++ held D st.2 ≡ₚ V.

Definition unwinds_after D V (r : after sl_state) : Prop :=
  match r with Done st | Paniced st => unwinds D V st end.

Lemma then_unwinds D V r f :
  unwinds_after D V r → (∀ st, unwinds D V st → unwinds_after D V (f st)) → unwinds_after D V (then_ r f).
Proof. destruct r; simpl; auto. Qed.

Lemma sl_comps_unwinds D V fam G ge ngs n : ∀ local st,
  unwinds D V st → unwinds_after D V (sl_comps fam G ge ngs local n st).
Proof.
  induction n as [|n IH]; intros local [s sets] (ds & Hr & Hs & Hv); cbn [sl_comps].
  { by exists ds. }
  assert (unwinds D V (s, sets)) as Hu by (by exists ds).
  destruct (f_comps fam !! local) as [t|]; [|done]. destruct (gm_from_to G ge); [|done].
  destruct (gm_from_to ngs ge); [|done]. destruct (sm_single local); [|done].
  apply IH. simpl in *. destruct (sets !! t) as [c|] eqn:Ht; simpl.
  - exists (ds ++ [D t]). split_and!; simpl.
    + apply Forall2_app; [done|]. constructor; [by apply Hs|done].
    + intros t' c' [_ H]%lookup_delete_Some. by apply Hs.
    + rewrite <-Hv, (held_delete D sets t) by (by rewrite Ht). unfold stored. rewrite bind_app. simpl.
      by rewrite app_nil_r, <-(assoc_L (++)).
  - exists (ds ++ [[]]). split_and!; simpl.
    + apply Forall2_app; [done|]. constructor; [apply css_rep_new|done].
    + intros t' c' [_ H]%lookup_delete_Some. by apply Hs.
    + rewrite delete_notin by done. unfold stored. rewrite bind_app. simpl. by rewrite app_nil_r.
Qed.

Lemma sl_arities_unwinds D V fam b G ge : ∀ ar p st,
  unwinds D V st → unwinds_after D V (sl_arities fam b G ge p ar st).
Proof.
  induction ar as [|a ar IH]; intros p [s sets] Hu; cbn [sl_arities]; [done|].
  destruct (gm_skip_from_to _ _) as [skip|]; [|done].
  destruct (qm_of_include a) as [inc|]; [|done]. destruct (qm_of_exclude p a) as [exc|]; [|done].
  apply then_unwinds; [|intros; by apply IH]. apply sl_comps_unwinds. destruct Hu as (ds & ? & ? & ?). by exists ds.
Qed.

Lemma sl_families_unwinds D V : ∀ l st, unwinds D V st → unwinds_after D V (sl_families l st).
Proof.
  induction l as [|fam l IH]; intros st Hu; cbn [sl_families]; [done|].
  apply then_unwinds; [by apply sl_arities_unwinds|done].
Qed.

Lemma set_layout_unwinds s ds am reg grp loose l perm es vs s' :
  cinv s ds am reg grp loose → layout_wf l → ¬ layout_fits l → set_layout s l perm es = SlPanic vs s' →
  ∃ ds', Forall2 css_rep (cs_comps s') ds' ∧ vs ++ stored ds' ≡ₚ stored ds.
Proof.
  intros HI [Hwf Hdis] Hn H. unfold set_layout in H.
  destruct (extract_sets_ok s ds am reg grp loose HI) as (sets & s0 & ds0 & Hx & HL0 & Hg0). rewrite Hx in H.
  destruct (sl_families_inv l (s0, sets)) as [Hsub Hdone].
  assert (unwinds_after (content s ds) (stored ds) (sl_families l (s0, sets))) as Hu.
  { apply sl_families_unwinds. exists ds0. split; [apply HL0|]. split; [|apply HL0].
    intros t c Hc. by eapply (li_sets _ _ _ _ _ _ _ _ HL0). }
  destruct (sl_families l (s0, sets)) as [st|[s1 sets1]]; simpl in *.
  - exfalso. destruct (Hdone st eq_refl Hwf) as [? ?]; [rewrite Hg0; simpl; lia|]. rewrite Hg0 in *. by apply Hn.
  - destruct Hu as (ds1 & H1 & H2 & H3). simpl in *.
    assert (Forall2 css_rep (snd <$> map_to_list sets1) (content s ds <$> (map_to_list sets1).*1)) as Hrep.
    { rewrite <-list_fmap_compose. apply Forall2_fmap_2, Forall_Forall2_diag, Forall_forall.
      intros [t c] Ht%elem_of_map_to_list. simpl. by apply H2. }
    rewrite (drop_all_ok _ _ Hrep) in H. injection H as <- <-. exists ds1. split; [done|]. rewrite <-H3.
    rewrite (Permutation_app_comm _ (stored ds1)). f_equiv. unfold held, stored.
    rewrite <-list_fmap_compose. generalize (map_to_list sets1). intros L. induction L as [|[t c] L IHL]; [done|]. simpl. by f_equiv.
Qed.

Lemma failed_set_layout w s l perm out ds w' :
  reachable w s → op_ok (OSetLayout l perm) → ¬ layout_fits l → step w (OSetLayout l perm) = (out, ds, w') →
  out = Panicked [] ∧ world_entities w' = world_entities w ∧ (∀ e, world_contains w' e = world_contains w e) ∧
  ∃ vs, world_drop w' = Ok vs ∧ ds ++ vs ≡ₚ contents s.
Proof.
  intros Hr [gs Hgs] Hn Hs. pose proof (reachable_inv _ _ Hr) as (_ & ds0 & HI). pose proof (layout_built_wf gs l Hgs) as Hwf.
  pose proof HI as [HE HC]. simpl in Hs. unfold world_set_layout in Hs.
  destruct (set_layout_unfit _ _ _ _ _ _ l perm (estore_slice (w_ents w)) HC Hwf Hn) as (vs & s' & Heq).
  destruct (set_layout_unwinds _ _ _ _ _ _ l perm (estore_slice (w_ents w)) vs s' HC Hwf Hn Heq) as (ds' & H1 & H2).
  rewrite Heq in Hs. injection Hs as <- <- <-. split_and!; [done..|].
  exists (stored ds'). unfold world_drop. simpl. split; [by apply drop_all_ok|]. by rewrite H2, (stored_contents _ _ _ HI).
Qed.

Lemma reach_safe w s : reachable w s →
  safe_reads w ∧
  ∀ o out ds w', op_ok o → step w o = (out, ds, w') → good_side s o out → ub_free out ∧ safe_reads w'.
Proof. intros Hr. split; [by eapply reach_safe_reads|]. intros. by eapply reach_no_ub. Qed.
