(** The files of a client are the packed prefixes of the groups. *)
From Verif Require Import Base SparseVecM EntityM CssM MaskM LayoutM GroupM StorageM WorldM QueryM StepM.
From Verif Require Import Lists SparseProofs CssProofs MaskProofs GroupProofs Spec SpecMore SpecLayout SpecGroups SpecOrder SpecDense SpecMembers
  EntityProofs LayoutProofs StorageProofs StoreOps LayoutOps WorldProofs QueryProofs History Grouped ShapeFacts Facts OrderFacts DenseFacts MembersFacts.

Lemma elem_of_complete s g e : e ∈ complete s g ↔ s_alive s e ∧ ∀ t, t ∈ g → is_Some (s_row s e !! t).
Proof.
  unfold complete, s_alive, s_row. rewrite elem_of_list_to_set, elem_of_list_fmap. split.
  - intros ([e' r] & -> & [H Hin]%elem_of_list_filter). apply elem_of_map_to_list in Hin. simpl in *. rewrite Hin. split; [eauto|].
    by rewrite Forall_forall in H.
  - intros [[r Hr] H]. rewrite Hr in H. exists (e, r). split; [done|]. apply elem_of_list_filter. split.
    + by apply Forall_forall.
    + by apply elem_of_map_to_list.
Qed.

Lemma meets_dec_spec g h : meets_dec g h = true ↔ meets g h.
Proof.
  unfold meets_dec, meets. rewrite existsb_exists. setoid_rewrite <-elem_of_list_In. setoid_rewrite bool_decide_eq_true. done.
Qed.
Lemma inside_dec_spec g h : inside_dec g h = true ↔ inside g h.
Proof.
  unfold inside_dec, inside. rewrite forallb_forall. setoid_rewrite <-elem_of_list_In. setoid_rewrite bool_decide_eq_true. done.
Qed.
Lemma concerns_spec L ts g : concerns L ts g = true ↔ ∃ h, h ∈ L ∧ inside g h ∧ meets h ts.
Proof.
  unfold concerns. rewrite existsb_exists. setoid_rewrite <-elem_of_list_In. setoid_rewrite andb_true_iff.
  setoid_rewrite inside_dec_spec. setoid_rewrite meets_dec_spec. done.
Qed.

Section bits.
  Context (s : cstore) (ds : list dense) (am : amap) (reg grp : gset tid) (loose : gset entity).
  Context (HI : cinv s ds am reg grp loose) (l : layout) (HL : laid_out l s).
  Local Notation ms := (g_meta <$> cs_groups s).
  Local Notation mt := (cs_meta s).
  Local Notation L := (layout_groups l).

  Lemma group_at k g : L !! k = Some g → ∃ gr, cs_groups s !! k = Some gr ∧ ms !! k = Some (g_meta gr).
  Proof using HL.
    intros Hk. destruct (Forall2_lookup_r _ _ _ _ _ HL Hk) as (gm & Hm & _). pose proof Hm as Hm'.
    apply list_lookup_fmap_Some in Hm as (gr & Hm & ->). eauto.
  Qed.

  Lemma insert_bit ts mask k g : union_mask mt m_insert ts mask → L !! k = Some g →
    bit mask k = concerns L ts g.
  Proof using HI HL.
    intros Hm Hk. destruct (group_at k g Hk) as (gr & _ & Hgm). set (gm := g_meta gr) in *.
    pose proof (gi_wf _ _ (ci_ginv _ _ _ _ _ _ HI)) as HW. pose proof (ci_static _ _ _ _ _ _ HI) as HS.
    apply eq_true_iff_eq. rewrite (Hm k), concerns_spec. split.
    - intros (t & m & Hin & Ht & Hb). apply (st_insert _ _ _ HS t m k Ht) in Hb as (gj & k' & gk & Hj & Hk' & Hs & Hc).
      assert (gj = gm) as -> by congruence.
      destruct (Forall2_lookup_l _ _ _ _ _ HL Hk') as (h & Hh & _).
      destruct (decide (g_end gm ≤ g_end gk)) as [Hle|Hgt].
      + exists h. split_and!; [by eapply elem_of_list_lookup_2| |].
        * by apply (sub_covers _ _ _ _ _ _ HI l HL k k' gm gk Hgm Hk' g h Hk Hh).
        * exists t. split; [|done]. apply (group_types _ _ _ _ _ _ HI l HL k' gk h t Hk' Hh). eauto.
      + exists g. split_and!; [by eapply elem_of_list_lookup_2|by intros ?|].
        exists t. split; [|done]. apply (group_types _ _ _ _ _ _ HI l HL k gm g t Hgm Hk). exists m. split; [done|].
        unfold covers in *. lia.
    - intros (h & Hh & Hi & (t & Hth & Hin)). apply (layout_lookup s l HL) in Hh as (k' & gk & Hk' & Lk').
      apply (sub_covers _ _ _ _ _ _ HI l HL k k' gm gk Hgm Hk' g h Hk Lk') in Hi as [Hs _].
      apply (group_types _ _ _ _ _ _ HI l HL k' gk h t Hk' Lk') in Hth as (m & Ht & Hc).
      exists t, m. split_and!; [done|done|]. apply (st_insert _ _ _ HS t m k Ht). eauto 10.
  Qed.

  Lemma delete_bit ts mask k g : union_mask mt m_delete ts mask → L !! k = Some g → bit mask k = meets_dec g ts.
  Proof using HI HL.
    intros Hm Hk. destruct (group_at k g Hk) as (gr & _ & Hgm). pose proof (ci_static _ _ _ _ _ _ HI) as HS.
    apply eq_true_iff_eq. rewrite (Hm k), meets_dec_spec. split.
    - intros (t & m & Hin & Ht & Hb). apply (st_delete _ _ _ HS t m k Ht) in Hb as (gj & Hj & Hc).
      assert (gj = g_meta gr) as -> by congruence. exists t. split; [|done].
      apply (group_types _ _ _ _ _ _ HI l HL k (g_meta gr) g t Hgm Hk). eauto.
    - intros (t & Htg & Hin). apply (group_types _ _ _ _ _ _ HI l HL k (g_meta gr) g t Hgm Hk) in Htg as (m & Ht & Hc).
      exists t, m. split_and!; [done|done|]. apply (st_delete _ _ _ HS t m k Ht). eauto.
  Qed.

  Lemma full_row k g e : L !! k = Some g → full s k e ↔ ∀ t, t ∈ g → is_Some (row_of am e !! t).
  Proof using HI HL.
    intros Hk. destruct (group_at k g Hk) as (gr & Hgr & Hgm). rewrite (full_has s ds) by apply HI.
    assert (Hhas : ∀ t m, mt !! t = Some m → has ds (m_index m) e ↔ is_Some (row_of am e !! t)).
    { intros t m Ht. rewrite (ci_has_meta _ _ _ _ _ _ HI t m e Ht). unfold is_Some. by setoid_rewrite am_has_row. }
    split.
    - intros (g' & Hg' & H) t Ht. assert (g' = gr) as -> by congruence.
      apply (group_types _ _ _ _ _ _ HI l HL k (g_meta gr) g t Hgm Hk) in Ht as (m & Hm & Hc). apply (Hhas t m Hm). by apply H.
    - intros H. exists gr. split; [done|]. intros i Hi.
      destruct (st_owner _ _ _ (ci_static _ _ _ _ _ _ HI) k (g_meta gr) i Hgm Hi) as (t & m & Hm & <-).
      apply (Hhas t m Hm), H. apply (group_types _ _ _ _ _ _ HI l HL k (g_meta gr) g t Hgm Hk). eauto.
  Qed.

  (** A group has a type, so only live entities have all of its components. *)
  Lemma full_alive k e : full s k e → is_Some (am !! e).
  Proof using HI.
    rewrite (full_has s ds) by apply HI. intros (g & Hg & H). eapply (ci_has_alive _ _ _ _ _ _ HI (g_start (g_meta g))).
    apply H. by eapply in_group_start; [apply HI|].
  Qed.
End bits.

Lemma full_complete w s ds l k g e :
  winv w s ds → laid_out l (w_comps w) → layout_groups l !! k = Some g → full (w_comps w) k e ↔ e ∈ complete s g.
Proof.
  intros [_ HC] HL Hk. rewrite elem_of_complete. split.
  - intros H. split; [by eapply full_alive|]. by apply (full_row _ _ _ _ _ _ HC l HL k g e Hk).
  - intros [_ H]. by apply (full_row _ _ _ _ _ _ HC l HL k g e Hk).
Qed.

(** ** One call *)

Definition files_ok (l : layout) (w : world) (F : files) : Prop :=
  ∀ k g e, layout_groups l !! k = Some g → member (w_comps w) k e ↔ e ∈ F g.

Lemma files_ok_kept l w w' F : kept (w_comps w) (w_comps w') → files_ok l w F → files_ok l w' F.
Proof. intros H1 H2 k g e Hk. by rewrite (H1 k e), (H2 k g e Hk). Qed.

Lemma files_ok_refile w s ds w' s' ds' l F ts mask es (X : gset entity) :
  winv w s ds → laid_out l (w_comps w) → winv w' s' ds' → laid_out l (w_comps w') → files_ok l w F →
  union_mask (cs_meta (w_comps w)) m_insert ts mask → refiled mask es (w_comps w) (w_comps w') → (∀ e, e ∈ X ↔ e ∈ es) →
  files_ok l w' (refile (layout_groups l) ts X s' F).
Proof.
  intros [_ HC] HL HI' HL' HF Hm HR HX k g e Hk. rewrite (HR k e), (HF k g e Hk).
  rewrite (full_complete _ _ _ _ _ _ _ HI' HL' Hk), (insert_bit _ _ _ _ _ _ HC l HL ts mask k g Hm Hk).
  unfold refile. destruct (concerns _ _ _); [|naive_solver].
  rewrite elem_of_union, elem_of_difference, elem_of_intersection, HX. destruct (decide (e ∈ es)); naive_solver.
Qed.

Lemma step_files w s ds w' ds' l l' o out dr F :
  winv w s ds → same_versions s → laid_out l (w_comps w) → files_ok l w F →
  op_ok o → step w o = (out, dr, w') → good_side s o out → allowed s o out →
  winv w' (client_step s o out) ds' → laid_out l' (w_comps w') →
  l' = match o with OSetLayout l1 _ => l1 | _ => l end →
  files_ok l' w' (files_step (layout_groups l) (client_step s o out) o out F).
Proof.
  intros HI Hsv HL HF Hop H Hside Hall HI' HL' El. pose proof HI as [HE HC].
  pose proof (proj1 (same_versions_uniform _) Hsv) as Hu.
  assert (Hub : ∀ es, out ≠ UndefBeh es).
  { intros es ->. destruct o; simpl in Hall; repeat case_decide; naive_solver. }
  destruct (decide (keeps_order o)) as [Hk|Hnk].
  { assert (El' : l' = l) by (destruct o; done). rewrite El' in *. clear El El'.
    assert (files_ok l w' F) as HF'.
    { eapply files_ok_kept; [|exact HF]. eapply order_kept_members; [exact HC|by eapply step_order_kept|].
      destruct o; try done; cbn [step] in H.
      - unfold world_create_atomic in H. by destruct (estore_create_atomic _) as [[? ?]| |]; inversion H.
      - unfold world_maintain in H. by destruct (estore_maintain _); inversion H.
      - unfold world_register in H. destruct (register_dyn _ _) as [b s1] eqn:Hr. inversion H; subst. simpl.
        unfold register_dyn in Hr. by destruct (_ !! t); inversion Hr; subst.
      - unfold world_set in H. destruct (cs_meta _ !! _); [|by inversion H]. destruct (cs_comps _ !! _); [|by inversion H].
        destruct (css_get_ref _ _) as [[[? ?]|]| |]; [|by inversion H..]. by destruct (css_set _ _ _); inversion H.
      - unfold world_for_each in H. destruct (query_for_each _ _ _ _ _) as [[[[s1 vis] old] new]| |] eqn:Hq; [|by inversion H..].
        inversion H; subst. simpl. by apply query_for_each_groups in Hq. }
    by destruct o; destruct out as [[]| |]. }
  destruct o; cbn [step] in H; try (by destruct Hnk).
  - (* create *)
    subst l'. unfold world_create in H. destruct (estore_create_ok _ _ HE) as [(e & st' & He & Hnew & Hes & HE')|[He _]]; rewrite He in H.
    2:{ injection H as <- <- <-. done. }
    pose proof (new_handle_dead _ _ _ HE Hnew) as Hn. specialize (HE' ∅).
    assert (cinv (w_comps w) ds (<[e := ∅]> (s_map s)) (s_reg s) (s_grouped s) (s_loose s)) as HC1.
    { apply cinv_new_entity; [done|done|]. exact (am_ok_alive _ _ HE'). }
    destruct Hside as [_ Hsv'].
    destruct (set_insert_members (World st' (w_comps w)) ds _ _ _ _ e ∅ cs (REnt e) [e] out dr w' HC1) as [[-> Hkp]|[-> (mask & Hm & HR)]];
      [by rewrite lookup_insert| |done|done|by eapply files_ok_kept|].
    + rewrite insert_insert. apply same_versions_uniform in Hsv'. destruct Hall as [(_ & e' & -> & _)|[(_ & e' & -> & _)|[-> _]]].
      * assert (e' = e) as -> by (unfold set_insert in H; repeat case_match; congruence). exact Hsv'.
      * assert (e' = e) as -> by (unfold set_insert in H; repeat case_match; congruence). exact Hsv'.
      * exfalso. unfold set_insert in H; repeat case_match; congruence.
    + simpl files_step. eapply files_ok_refile; [exact HI|done|exact HI'|done|done|exact Hm|exact HR|].
      intros e'. by rewrite elem_of_singleton, elem_of_list_singleton.
  - (* extend *)
    subst l'. destruct (set_extend_members w s ds ts rows ends_in_panic out dr w' HI Hop) as [[(es & ->) Hkp]|(es & -> & mask & Hm & HR)];
      [apply Hside|done|done|by eapply files_ok_kept|].
    simpl files_step. eapply files_ok_refile; [exact HI|done|exact HI'|done|done|exact Hm|exact HR|].
    intros e. by rewrite elem_of_list_to_set.
  - (* destroy *)
    subst l'. unfold world_destroy in H. simpl in Hall. subst out. destruct (estore_remove _ _) as [[[] ents]| |]; try done.
    + destruct (strip _ _) as [[s1 d1]| |] eqn:Hs; try done.
      pose proof (strip_members _ _ _ _ _ _ _ _ _ HC Hu Hs) as HM. inversion H; subst. intros k g e' Hk. simpl in *.
      rewrite (HM k e'), (HF k g e' Hk), elem_of_difference, elem_of_singleton. done.
    + inversion H; subst. intros k g e' Hk. simpl. rewrite (HF k g e' Hk), elem_of_difference, elem_of_singleton.
      split; [|naive_solver]. intros Hin. split; [done|]. intros ->.
      apply (HF k g e Hk), (member_full _ _ _ _ _ _ _ _ HC), (full_alive _ _ _ _ _ _ HC) in Hin.
      case_bool_decide; done.
  - (* insert *)
    subst l'. unfold world_insert in H. rewrite (estore_contains_alive _ _ e HE) in H.
    destruct (bool_decide_reflect (s_alive s e)) as [Ha|Hn]; [|by injection H as <- <- <-].
    pose proof Ha as [r Hr]. destruct Hside as [_ Hsv']. apply same_versions_uniform in Hsv'. unfold client_step in Hsv'.
    rewrite decide_True in Hsv' by done. unfold s_row in Hsv'. rewrite Hr in Hsv'. simpl in Hsv'.
    destruct (set_insert_members w ds _ _ _ _ e r cs (RBool true) [] out dr w' HC Hr) as [[-> Hkp]|[-> (mask & Hm & HR)]];
      [|done|done|by eapply files_ok_kept|].
    + unfold loosen in Hsv'. by destruct (panicked out).
    + cbn [files_step]. eapply files_ok_refile; [exact HI|done|exact HI'|done|done|exact Hm|exact HR|].
      intros e'. by rewrite elem_of_singleton, elem_of_list_singleton.
  - (* remove *)
    subst l'. unfold set_remove in H. destruct (lookup_metas _ _ _) as [[is_ mask]|] eqn:Hlm; [|by injection H as <- <- <-].
    destruct (ungroup_if _ _ _) as [s1| |] eqn:Hug; [|injection H as <- <- <-; by destruct (Hub [])..].
    destruct (remove_each _ _ _) as [[comps vs]| |] eqn:Hrm; [|injection H as <- <- <-; by destruct (Hub [])..].
    pose proof (set_remove_members _ _ _ _ _ _ _ _ _ _ _ _ _ HC Hu Hlm Hug Hrm) as HM. injection H as <- <- <-.
    apply lookup_metas_Some in Hlm as [_ Hm]. intros k g e' Hk. cbn [files_step w_comps].
    rewrite (HM k e'), (HF k g e' Hk), (delete_bit _ _ _ _ _ _ HC l HL ts mask k g Hm Hk).
    destruct (meets_dec g ts); [rewrite elem_of_difference, elem_of_singleton|]; naive_solver.
  - (* delete *)
    subst l'. unfold set_delete in H. destruct (lookup_metas _ _ _) as [[is_ mask]|] eqn:Hlm; [|by injection H as <- <- <-].
    destruct (ungroup_if _ _ _) as [s1| |] eqn:Hug; [|injection H as <- <- <-; by destruct (Hub [])..].
    rewrite delete_list_remove_each in H.
    destruct (remove_each _ _ _) as [[comps vs]| |] eqn:Hrm; [|injection H as <- <- <-; by destruct (Hub [])..].
    pose proof (set_remove_members _ _ _ _ _ _ _ _ _ _ _ _ _ HC Hu Hlm Hug Hrm) as HM. injection H as <- <- <-.
    apply lookup_metas_Some in Hlm as [_ Hm]. intros k g e' Hk. cbn [files_step w_comps].
    rewrite (HM k e'), (HF k g e' Hk), (delete_bit _ _ _ _ _ _ HC l HL ts mask k g Hm Hk).
    destruct (meets_dec g ts); [rewrite elem_of_difference, elem_of_singleton|]; naive_solver.
  - (* clear *)
    simpl in Hall. subst out. intros k g e Hk. cbn [files_step]. split; [|by intros ?%elem_of_empty].
    destruct HI' as [_ HC']. intros Hm%(member_full _ _ _ _ _ _ _ _ HC'). apply (full_alive _ _ _ _ _ _ HC') in Hm as [? Hm]. done.
  - (* reset *)
    simpl in Hall. subst out. intros k g e Hk. cbn [files_step]. split; [|by intros ?%elem_of_empty].
    destruct HI' as [_ HC']. intros Hm%(member_full _ _ _ _ _ _ _ _ HC'). apply (full_alive _ _ _ _ _ _ HC') in Hm as [? Hm]. done.
  - (* set_layout *)
    simpl in Hall. destruct Hside as [Hfit _]. simpl in Hfit. rewrite decide_True in Hall by done. subst out l'.
    intros k g e Hk. cbn [files_step]. rewrite <-(full_complete _ _ _ _ _ _ _ HI' HL' Hk). destruct HI' as [_ HC'].
    split; [by eapply member_full|]. apply (full_member _ _ _ _ _ _ _ _ HC'). simpl. set_solver.
Qed.

(** ** Histories *)

Lemma files_run_last x evs o out dr :
  files_run x (evs ++ [(o, out, dr)]) =
  let '(s, l, F) := files_run x evs in
  let s' := client_step s o out in
  (s', match o with OSetLayout l' _ => l' | _ => l end, files_step (layout_groups l) s' o out F).
Proof. unfold files_run. rewrite foldl_app. simpl. by destruct (foldl _ _ _) as [[? ?] ?]. Qed.

Lemma good_of_from l ts evs w s : good_history_of l ts evs w s → good_history_from l evs w s.
Proof. intros (gs & w0 & ? & ? & ?). by exists gs, ts, w0. Qed.

Lemma good_of_inv l ts evs w s : good_history_of l ts evs w s →
  same_versions s ∧ (∃ ds, winv w s ds) ∧ laid_out (layout_after l evs) (w_comps w).
Proof.
  intros H%good_of_from. split_and!; [| |by eapply history_laid_out].
  - apply (reachable_inv w s). exists evs. by eapply good_from_history.
  - apply (reachable_inv w s). exists evs. by eapply good_from_history.
Qed.

Lemma history_files l ts evs w s :
  good_history_of l ts evs w s →
  ∃ F, files_run (s_init l ts, l, λ _, ∅) evs = (s, layout_after l evs, F) ∧ files_ok (layout_after l evs) w F.
Proof.
  intros (gs & w0 & Hgs & Hb & Hh).
  assert (Hg : ∀ evs w s, history good_side w0 (s_init l ts) evs w s → good_history_of l ts evs w s)
    by (intros; by exists gs, w0).
  induction Hh as [|evs w1 s1 o out dr w2 Hh IH Hok Hstep Hside].
  - exists (λ _, ∅). split; [done|]. intros k g e Hk. split; [|by intros ?%elem_of_empty].
    destruct (good_of_inv l ts [] w0 (s_init l ts)) as (_ & (ds & _ & HC) & _). { apply Hg. constructor. }
    intros Hm%(member_full _ _ _ _ _ _ _ _ HC). apply (full_alive _ _ _ _ _ _ HC) in Hm as [? Hm]. done.
  - destruct IH as (F & HR & HF). rewrite files_run_last, HR. eexists. split.
    { unfold layout_after. rewrite foldl_app. reflexivity. }
    destruct (good_of_inv l ts evs w1 s1) as (Hsv & (ds & HI) & HL); [by apply Hg|].
    destruct (good_of_inv l ts (evs ++ [(o, out, dr)]) w2 (client_step s1 o out)) as (_ & (ds' & HI') & HL'); [apply Hg; by econstructor|].
    destruct (step_inv _ _ _ _ _ _ _ HI Hsv Hok Hstep Hside) as (Hall & _).
    assert (layout_after l (evs ++ [(o, out, dr)]) = match o with OSetLayout l1 _ => l1 | _ => layout_after l evs end) as El.
    { unfold layout_after. by rewrite foldl_app. }
    by eapply step_files.
Qed.

Lemma history_files_after l ts evs w s :
  good_history_of l ts evs w s → files_ok (layout_after l evs) w (files_after l ts evs).
Proof. intros (F & HR & HF)%history_files. unfold files_after. by rewrite HR. Qed.
