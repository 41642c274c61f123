(** Registration and borrowing after any history without invalid accesses. *)
From Verif Require Import Base SparseVecM EntityM CssM MaskM LayoutM GroupM StorageM WorldM QueryM ParM StepM BorrowM
  Spec SpecMore SpecQuery SpecSafety SpecBorrow Lists SparseProofs CssProofs LayoutProofs StorageProofs LayoutOps EntityRun
  BlindCss BlindStore BlindQuery BlindEnts BlindLayout BlindWrite BlindWorld BlindHist.

Lemma history_bstore evs w s : ub_free_history evs w s → ∃ ds, bstore (w_comps w) ds.
Proof.
  intros (w0 & s0 & (gs & l & ts & _ & Hb & ->) & Hh). destruct (built_bl _ _ _ Hb) as (ds0 & H0 & Hn).
  destruct (history_bl _ _ _ _ _ _ H0 Hh) as (ds & HI & _). exists ds. apply HI.
Qed.

(** ** The calls that do not register keep the metadata *)

Lemma set_insert_meta w e cs r gh : cs_meta (w_comps (set_insert w e cs r gh).2) = cs_meta (w_comps w).
Proof.
  unfold set_insert. destruct (insert_loop _ _ _ _ _) as [d c m|d c|]; try done.
  destruct (group_if _ _ _) as [s'| |] eqn:Eg; try done. by apply group_if_keeps in Eg as [_ ?].
Qed.

Lemma step_meta w o : (∀ t, o ≠ ORegister t) → (∀ l p, o ≠ OSetLayout l p) →
  cs_meta (w_comps (step w o).2) = cs_meta (w_comps w).
Proof.
  intros Hr Hl. destruct o as [cs|ts rows b|e| | |e cs|e ts|e ts| | |t|l p|t e v|G J X f];
    [..|by destruct (Hr t)|by destruct (Hl l p)|idtac|idtac]; simpl.
  - unfold world_create. destruct (estore_create _) as [[e ents]| |]; try done. by rewrite set_insert_meta.
  - unfold set_extend. destruct (lookup_metas _ _ _) as [[is_ mask]|]; [|done].
    destruct (extend_rows _ _ _ _) as [dr en cs new|dr en cs new|]; try done.
    destruct b; [done|]. destruct (_ <=? _); [|done]. destruct (mask =? 0)%N; [done|].
    by destruct (group_each _ _ _ _) as [[? ?]| |].
  - unfold world_destroy. destruct (estore_remove _ _) as [[[] ents]| |]; try done.
    unfold strip. destruct (ungroup_all _ _ _) as [r| |]; try done. simpl. by destruct (delete_each _ _) as [[? ?]| |].
  - unfold world_create_atomic. by destruct (estore_create_atomic _) as [[? ?]| |].
  - unfold world_maintain. by destruct (estore_maintain _).
  - unfold world_insert. destruct (estore_contains _ _); [|done]. by rewrite set_insert_meta.
  - unfold set_remove. destruct (lookup_metas _ _ _) as [[is_ mask]|]; [|done].
    destruct (ungroup_if _ _ _) as [s1| |] eqn:E; try done. apply ungroup_if_keeps in E as [_ E].
    by destruct (remove_each _ _ _) as [[? ?]| |].
  - unfold set_delete. destruct (lookup_metas _ _ _) as [[is_ mask]|]; [|done].
    destruct (ungroup_if _ _ _) as [s1| |] eqn:E; try done. apply ungroup_if_keeps in E as [_ E].
    by destruct (delete_list _ _ _) as [[? ?]| |].
  - unfold world_clear. destruct (estore_clear _); try done. unfold cstore_clear. by destruct (clear_each _) as [[? ?]| |].
  - unfold world_reset. unfold cstore_clear. by destruct (clear_each _) as [[? ?]| |].
  - unfold world_set. destruct (cs_meta (w_comps w) !! t) as [m|]; [|done].
    destruct (cs_comps (w_comps w) !! m_index m); [|done]. destruct (css_get_ref _ _) as [[[? ?]|]| |]; try done.
    by destruct (css_set _ _ _).
  - unfold world_for_each. destruct (query_for_each w G J X f) as [[[[s es] o] n]| |] eqn:E; try done.
    apply query_for_each_wrote in E. by apply wr_meta in E.
Qed.

(** ** What a layout registers *)

Definition known (st : sl_state) (t : tid) : Prop := is_Some (cs_meta st.1 !! t) ∨ is_Some (st.2 !! t).

Lemma sl_comps_known fam G ge ngs n : ∀ local st st', sl_comps fam G ge ngs local n st = Done st' →
  ∀ t, known st' t ↔ known st t ∨ t ∈ take n (drop local (f_comps fam)).
Proof.
  induction n as [|n IH]; intros local [s sets] st'; cbn [sl_comps].
  { intros [= <-] t. rewrite take_0, elem_of_nil. tauto. }
  destruct (f_comps fam !! local) as [t0|] eqn:Et; [|done]. destruct (gm_from_to G ge) as [im|]; [|done].
  destruct (gm_from_to ngs ge) as [dm|]; [|done]. destruct (sm_single local) as [sm|]; [|done].
  intros H t. rewrite (IH _ _ _ H t), (drop_S _ _ _ Et). simpl. rewrite elem_of_cons. unfold known. simpl.
  destruct (decide (t0 = t)) as [->|Hne].
  - rewrite lookup_insert, lookup_delete. split; [|left; left; by eexists]. intros _. right. by left.
  - rewrite lookup_insert_ne, lookup_delete_ne by done. split; [tauto|]. intros [?|[?|?]]; [tauto|congruence|tauto].
Qed.

Lemma slice_app {A} (l : list A) p a q : p ≤ a → a ≤ q → drop p (take q l) = drop p (take a l) ++ drop a (take q l).
Proof.
  intros Hp Hq. rewrite <-(take_drop a (take q l)) at 1. rewrite take_take, Nat.min_l by lia.
  destruct (decide (a ≤ length l)).
  - rewrite drop_app_le; [done|]. rewrite take_length. lia.
  - rewrite (drop_ge (take q l) a) by (rewrite take_length; lia). by rewrite !app_nil_r.
Qed.

Lemma sorted_last p : ∀ ar, Sorted.StronglySorted lt (p :: ar) → p ≤ List.last ar p.
Proof.
  intros ar Hs. inversion Hs as [|? ? _ Hlt]; subst. destruct ar as [|a ar]; [simpl; lia|].
  assert (List.last (a :: ar) p ∈ a :: ar) as Hin.
  { clear. revert a. induction ar as [|x ar IH]; intros a; [left|]. right. apply IH. }
  apply Nat.lt_le_incl. by apply (proj1 (Forall_forall _ _) Hlt).
Qed.

Lemma last_cons_default {A} (a p : A) ar : List.last (a :: ar) p = List.last ar a.
Proof. revert a p. induction ar as [|x ar IH]; intros a p; [done|]. change (List.last (x :: ar) p = List.last (x :: ar) a). by rewrite !IH. Qed.

Lemma sl_arities_known fam b G ge : ∀ ar p st st', sl_arities fam b G ge p ar st = Done st' →
  Sorted.StronglySorted lt (p :: ar) → ∀ t, known st' t ↔
    known st t ∨ t ∈ drop p (take (List.last ar p) (f_comps fam)).
Proof.
  induction ar as [|a ar IH]; intros p [s sets] st'; cbn [sl_arities].
  { intros [= <-] _ t. simpl. rewrite (drop_ge (take p _)) by (rewrite take_length; lia). rewrite elem_of_nil. tauto. }
  destruct (gm_skip_from_to _ _) as [skip|]; [|done].
  destruct (qm_of_include a) as [inc|]; [|done]. destruct (qm_of_exclude p a) as [exc|]; [|done].
  destruct (sl_comps _ _ _ _ _ _ _) as [st1|st1] eqn:E; simpl; [|done]. intros H Hs t.
  inversion Hs as [|? ? Hs' Hlt]; subst. apply Forall_cons in Hlt as [Hlt _].
  rewrite (IH _ _ _ H Hs' t), (sl_comps_known _ _ _ _ _ _ _ _ E t).
  change (match ar with [] => a | _ :: _ => List.last ar p end) with (List.last (a :: ar) p).
  rewrite last_cons_default, (slice_app _ p a (List.last ar a)), elem_of_app by (lia || by apply sorted_last).
  rewrite take_drop_commute. replace (p + (a - p)) with a by lia. unfold known. simpl. tauto.
Qed.

Lemma family_last f : family_wf f → List.last (f_arities f) 0 = length (f_comps f).
Proof. intros [_ _ _ [l ->]]. by rewrite List.last_last. Qed.

Lemma family_sorted f : family_wf f → Sorted.StronglySorted lt (0 :: f_arities f).
Proof. intros [_ H1 H2 _]. constructor; [done|]. eapply Forall_impl; [done|]. simpl. lia. Qed.

Lemma sl_families_known : ∀ l st st', sl_families l st = Done st' → Forall family_wf l →
  ∀ t, known st' t ↔ known st t ∨ t ∈ layout_tids l.
Proof.
  induction l as [|f l IH]; intros st st'; cbn [sl_families].
  { intros [= <-] _ t. simpl. rewrite elem_of_nil. tauto. }
  destruct (sl_arities _ _ _ _ _ _ _) as [st1|st1] eqn:E; simpl; [|done]. intros H [Hf Hl]%Forall_cons t.
  rewrite (IH _ _ H Hl t), (sl_arities_known _ _ _ _ _ _ _ _ E (family_sorted _ Hf) t), (family_last _ Hf).
  rewrite drop_0, take_ge, elem_of_app by done. tauto.
Qed.

Lemma leftover_known : ∀ order sets s t, is_Some (cs_meta (sl_leftover order sets s) !! t) ↔ is_Some (cs_meta s !! t) ∨ t ∈ order.
Proof.
  induction order as [|t0 order IH]; intros sets s t; cbn [sl_leftover]; [rewrite elem_of_nil; tauto|].
  rewrite IH, elem_of_cons. simpl. destruct (decide (t0 = t)) as [->|Hne].
  - rewrite lookup_insert. split; [tauto|]. intros _. left. by eexists.
  - rewrite lookup_insert_ne by done. split; [tauto|]. intros [?|[?|?]]; [tauto|congruence|tauto].
Qed.

Lemma set_layout_known s l perm es s' : set_layout s l perm es = SlOk s' → Forall family_wf l →
  ∀ t, is_registered s' t = true ↔ is_registered s t = true ∨ t ∈ layout_tids l.
Proof.
  unfold set_layout, extract_sets. destruct (forallb _ _) eqn:Ef; [|done].
  destruct (sl_families l _) as [[s1 sets1]|[s1 sets1]] eqn:Es; [|by destruct (drop_all _)].
  destruct (gm_from_to _ _) as [mask|]; [|done]. destruct (group_each _ _ _ _) as [[comps gs]| |]; [|done..].
  intros [= <-] Hl t. rewrite !is_registered_lookup, !bool_decide_eq_true. simpl. rewrite leftover_known, order_by_elem.
  rewrite (sl_families_known _ _ _ Es Hl t). unfold known. simpl. rewrite lookup_empty, lookup_omap.
  destruct (cs_meta s !! t) as [m|] eqn:Em; simpl.
  - assert (is_Some (cs_comps s !! m_index m)) as Hs; [|naive_solver].
    apply lookup_lt_is_Some_2. apply Is_true_true, forallb_True in Ef. rewrite Forall_forall in Ef.
    specialize (Ef (t, m)). apply Nat.ltb_lt, Is_true_true, Ef. by apply elem_of_map_to_list.
  - split; [intros [[[? ?]|[? ?]]|?]; by auto|intros [[? ?]|?]; by auto].
Qed.

(** ** Histories *)

Lemma register_known s t t' : is_registered (register_dyn s t).2 t' = bool_decide (t' = t) || is_registered s t'.
Proof.
  unfold register_dyn, is_registered. destruct (cs_meta s !! t) as [m|] eqn:Et; simpl.
  - case_bool_decide; [|done]. subst t'. by rewrite Et.
  - case_bool_decide; [subst t'; by rewrite lookup_insert|]. by rewrite lookup_insert_ne.
Qed.

Lemma register_all_known ts : ∀ s t, is_registered (register_all s ts) t = true ↔ is_registered s t = true ∨ t ∈ ts.
Proof.
  induction ts as [|t0 ts IH]; intros s t; simpl; [rewrite elem_of_nil; tauto|].
  rewrite IH, register_known, orb_true_iff, bool_decide_eq_true, elem_of_cons. tauto.
Qed.

Lemma every_registered gs l ts w0 evs w s t :
  add_groups [] gs = Some l → builder_build l ts = Some w0 →
  history (λ _ o out, match o with OSetLayout _ _ => panicked out = false | _ => True end) w0 (s_init l ts) evs w s →
  (∀ o out ds, (o, out, ds) ∈ evs → ub_free out) →
  world_is_registered w t = true ↔
  t ∈ layout_tids l ∨ t ∈ ts ∨ ∃ o out ds, (o, out, ds) ∈ evs ∧ registers o t.
Proof.
  intros Hl Hb Hh. pose proof (add_groups_wf _ _ _ layout_wf_nil Hl) as Hwf.
  induction Hh as [|evs w1 s1 o out dr w2 Hh IH Hok Hstep Hs]; intros Hu.
  - unfold world_is_registered. unfold builder_build, world_new in Hb.
    destruct (set_layout cstore_new l [] []) as [s0|vs s0|] eqn:E; [|done..]. simpl in Hb. injection Hb as <-. simpl.
    rewrite register_all_known, (set_layout_known _ _ _ _ _ E) by apply Hwf.
    split; [intros [[?|?]|?]; [done|tauto..]|intros [?|[?|(? & ? & ? & []%elem_of_nil & _)]]; tauto].
  - assert (ub_free out) as Hout by (eapply Hu; apply elem_of_app; right; by left).
    assert (world_is_registered w2 t = true ↔ world_is_registered w1 t = true ∨ registers o t) as H2.
    { assert (w2 = (step w1 o).2) as -> by (by rewrite Hstep). unfold world_is_registered.
      assert ((∀ t, o ≠ ORegister t) → (∀ l p, o ≠ OSetLayout l p) → ¬ registers o t →
        is_registered (w_comps (step w1 o).2) t = true ↔ is_registered (w_comps w1) t = true ∨ registers o t) as Hrest.
      { intros G1 G2 G3. unfold is_registered. rewrite step_meta by done. tauto. }
      destruct o as [| | | | | | | | | |t0|l0 p| |]; try (apply Hrest; [done|done|tauto]).
      - simpl. unfold world_register. destruct (register_dyn (w_comps w1) t0) as [b s0] eqn:E. simpl.
        assert (s0 = (register_dyn (w_comps w1) t0).2) as -> by (by rewrite E).
        rewrite register_known, orb_true_iff, bool_decide_eq_true. tauto.
      - destruct Hok as [gs0 Hg0]. simpl in Hstep. unfold world_set_layout in *. simpl. unfold world_set_layout.
        destruct (set_layout _ _ _ _) as [s0|ds0 s0|] eqn:E; simplify_eq/=; [|done].
        by rewrite (set_layout_known _ _ _ _ _ E) by apply (add_groups_wf _ _ _ layout_wf_nil Hg0). }
    rewrite H2, IH by (intros o' out' ds' Hin; eapply Hu, elem_of_app; left; exact Hin).
    setoid_rewrite elem_of_app. setoid_rewrite elem_of_list_singleton. naive_solver.
Qed.
