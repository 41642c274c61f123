(** The groups of the layout in the reachable worlds. *)
From Verif Require Import Base SparseVecM EntityM CssM MaskM LayoutM GroupM StorageM WorldM QueryM StepM.
From Coq Require Import Sorted.
From Verif Require Import Lists SparseProofs CssProofs MaskProofs GroupProofs Spec SpecMore LayoutProofs.
From Verif Require Import StorageProofs StoreOps LayoutOps WorldProofs QueryProofs History.

(** ** No call but [set_layout] changes the groups *)

Definition framed (s s' : cstore) : Prop :=
  g_meta <$> cs_groups s' = g_meta <$> cs_groups s ∧ cs_meta s ⊆ cs_meta s'.

Lemma framed_refl s : framed s s.
Proof. by split. Qed.
Lemma framed_trans s1 s2 s3 : framed s1 s2 → framed s2 s3 → framed s1 s3.
Proof. intros [H1 H2] [H3 H4]. split; [congruence|]. by etrans. Qed.

Lemma g_meta_insert (gs : list group) k g n :
  gs !! k = Some g → g_meta <$> <[k := Grp (g_meta g) n]> gs = g_meta <$> gs.
Proof.
  intros Hk. rewrite list_fmap_insert. simpl. apply list_insert_id. by rewrite list_lookup_fmap, Hk.
Qed.

Lemma group_loop_metas fuel : ∀ comps gs mask e r,
  group_loop fuel comps gs mask e = Ok r → g_meta <$> r.2 = g_meta <$> gs.
Proof.
  induction fuel as [|fuel IH]; intros comps gs mask e r; cbn [group_loop];
    destruct (bit_next mask) as [[k mask']|]; try done; try (intros H; inversion H; done).
  destruct (gs !! k) as [g|] eqn:Hk; [|done].
  destruct (status_of comps g e) as [[]| |]; try done; cbn [mbind res_bind]; try apply IH.
  unfold group_components. destruct (on_range _ _ _ _) as [comps'| |]; try done. cbn [mbind res_bind].
  intros H%IH. rewrite H. simpl. by apply g_meta_insert.
Qed.

Lemma ungroup_one_metas comps gs k g e r :
  gs !! k = Some g → ungroup_one comps gs k g e = Ok r → g_meta <$> r.2 = g_meta <$> gs.
Proof.
  intros Hk. unfold ungroup_one. destruct (status_of comps g e) as [[]| |]; try done; cbn [mbind res_bind];
    try (intros H; inversion H; done).
  unfold ungroup_components. destruct (g_len g); [done|]. destruct (on_range _ _ _ _) as [comps'| |]; try done.
  cbn [mbind res_bind]. intros H. inversion H. simpl. by apply g_meta_insert.
Qed.

Lemma ungroup_loop_metas fuel : ∀ comps gs mask e r,
  ungroup_loop fuel comps gs mask e = Ok r → g_meta <$> r.2 = g_meta <$> gs.
Proof.
  induction fuel as [|fuel IH]; intros comps gs mask e r; cbn [ungroup_loop];
    destruct (bit_next_back mask) as [[k mask']|]; try done; try (intros H; inversion H; done).
  destruct (gs !! k) as [g|] eqn:Hk; [|done].
  destruct (ungroup_one comps gs k g e) as [r1| |] eqn:H1; try done. cbn [mbind res_bind].
  intros H%IH. rewrite H. by eapply ungroup_one_metas.
Qed.

Lemma ungroup_all_metas k : ∀ comps gs e r,
  ungroup_all_from k comps gs e = Ok r → g_meta <$> r.2 = g_meta <$> gs.
Proof.
  induction k as [|k IH]; intros comps gs e r; cbn [ungroup_all_from]; [intros H; inversion H; done|].
  destruct (gs !! k) as [g|] eqn:Hk; [|done].
  destruct (ungroup_one comps gs k g e) as [r1| |] eqn:H1; try done. cbn [mbind res_bind].
  intros H%IH. rewrite H. by eapply ungroup_one_metas.
Qed.

Lemma do_group_metas comps gs mask e r : do_group comps gs mask e = Ok r → g_meta <$> r.2 = g_meta <$> gs.
Proof. unfold do_group. apply group_loop_metas. Qed.
Lemma do_ungroup_metas comps gs mask e r : do_ungroup comps gs mask e = Ok r → g_meta <$> r.2 = g_meta <$> gs.
Proof. unfold do_ungroup. apply ungroup_loop_metas. Qed.

Lemma group_each_metas mask : ∀ es comps gs r,
  group_each comps gs mask es = Ok r → g_meta <$> r.2 = g_meta <$> gs.
Proof.
  induction es as [|e es IH]; intros comps gs r; cbn [group_each]; [intros H; inversion H; done|].
  destruct (do_group comps gs mask e) as [r1| |] eqn:H1; try done.
  intros H%IH. rewrite H. by apply do_group_metas in H1.
Qed.

Lemma write_items_framed f seen : ∀ G k s its s' o n,
  write_items s f seen k G its = Ok (s', o, n) → framed s s'.
Proof.
  induction G as [|p G IH]; intros k s its s' o n; cbn [write_items]; [intros H; inversion H; apply framed_refl|].
  destruct its as [|it its]; [intros H; inversion H; apply framed_refl|].
  destruct (write_one s p it (f k seen)) as [[[s1 o1] n1]| |] eqn:H1; try done.
  destruct (write_items s1 f seen (S k) G its) as [[[s2 o2] n2]| |] eqn:H2; try done.
  intros H. inversion H; subst. eapply framed_trans; [|by eapply IH].
  unfold write_one in H1. destruct p, it, (f k seen); try (destruct r as [[? ?]|]); try (inversion H1; apply framed_refl);
    destruct (cs_meta s !! _); try done; destruct (cs_comps s !! _); try done;
    destruct (buf_read _ _); try done; destruct (css_set _ _ _); try done; inversion H1; by split.
Qed.

Lemma sparse_for_each_framed f G : ∀ ents s x i g s' es o n,
  sparse_for_each s f G ents x i g = Ok (s', es, o, n) → framed s s'.
Proof.
  induction ents as [|e ents IH]; intros s x i g s' es o n; cbn [sparse_for_each];
    [intros H; inversion H; apply framed_refl|].
  destruct (negb _); [apply IH|]. destruct (negb _); [apply IH|].
  destruct (query_get_raw _ e) as [[it|]| |]; try done; [|apply IH].
  destruct (visit s f G it) as [[[s1 o1] n1]| |] eqn:H1; try done.
  destruct (sparse_for_each s1 f G ents x i g) as [[[[s2 es2] o2] n2]| |] eqn:H2; try done.
  intros H. inversion H; subst. eapply framed_trans; [by eapply write_items_framed|by eapply IH].
Qed.

Lemma dense_for_each_framed f G ents g : ∀ ks s s' es o n,
  dense_for_each s f G ks ents g = Ok (s', es, o, n) → framed s s'.
Proof.
  induction ks as [|k ks IH]; intros s s' es o n; cbn [dense_for_each];
    [intros H; inversion H; apply framed_refl|].
  destruct (ents !! k) as [e|]; [|done].
  destruct (query_get_dense _ k e) as [it| |]; try done.
  destruct (visit s f G it) as [[[s1 o1] n1]| |] eqn:H1; try done.
  destruct (dense_for_each s1 f G ks ents g) as [[[[s2 es2] o2] n2]| |] eqn:H2; try done.
  intros H. inversion H; subst. eapply framed_trans; [by eapply write_items_framed|by eapply IH].
Qed.

Lemma register_framed s t : framed s (register_dyn s t).2.
Proof.
  unfold register_dyn. destruct (cs_meta s !! t) eqn:H; [apply framed_refl|]. split; [done|].
  by apply insert_subseteq.
Qed.

Lemma group_if_framed s mask e s' : group_if s mask e = Ok s' → framed s s'.
Proof.
  unfold group_if. destruct (mask =? 0)%N; [intros H; inversion H; apply framed_refl|].
  destruct (do_group _ _ _ _) as [r| |] eqn:Hg; try done. intros H. inversion H.
  split; [by apply do_group_metas in Hg|done].
Qed.
Lemma ungroup_if_framed s mask e s' : ungroup_if s mask e = Ok s' → framed s s'.
Proof.
  unfold ungroup_if. destruct (mask =? 0)%N; [intros H; inversion H; apply framed_refl|].
  destruct (do_ungroup _ _ _ _) as [r| |] eqn:Hg; try done. intros H. inversion H.
  split; [by apply do_ungroup_metas in Hg|done].
Qed.

Lemma set_insert_framed w e cs r g out ds w' :
  set_insert w e cs r g = (out, ds, w') → framed (w_comps w) (w_comps w').
Proof.
  unfold set_insert. destruct (insert_loop _ _ _ _ _) as [d c m|d c|].
  - destruct (group_if _ _ _) as [s'| |] eqn:Hg; intros H; inversion H; subst; try apply framed_refl.
    apply group_if_framed in Hg. exact Hg.
  - intros H. inversion H. by split.
  - intros H. inversion H. apply framed_refl.
Qed.

Lemma step_framed w o out ds w' :
  step w o = (out, ds, w') → (∀ l p, o ≠ OSetLayout l p) → framed (w_comps w) (w_comps w').
Proof.
  intros H Ho. destruct o; cbn [step] in H; try (by destruct (Ho l perm)).
  - unfold world_create in H. destruct (estore_create _) as [[e ents]| |].
    + by apply set_insert_framed in H.
    + inversion H. apply framed_refl.
    + inversion H. apply framed_refl.
  - unfold set_extend in H. destruct (lookup_metas _ _ _) as [[is_ mask]|]; [|inversion H; apply framed_refl].
    destruct (extend_rows _ _ _ _) as [d en c n|d en c n|]; try (inversion H; by split).
    destruct ends_in_panic; [inversion H; by split|].
    destruct (_ <=? _); [|inversion H; by split]. destruct (mask =? 0)%N; [inversion H; by split|].
    destruct (group_each _ _ _ _) as [[c' g']| |] eqn:Hg; inversion H; split; try done.
    apply group_each_metas in Hg. exact Hg.
  - unfold world_destroy in H. destruct (estore_remove _ _) as [[[] ents]| |]; try (inversion H; by split).
    unfold strip in H. destruct (ungroup_all _ _ _) as [r| |] eqn:Hu; try (inversion H; by split).
    cbn [mbind res_bind] in H. destruct (delete_each _ _) as [r'| |]; cbn [mbind res_bind] in H; inversion H; split; try done.
    by apply ungroup_all_metas in Hu.
  - unfold world_create_atomic in H. destruct (estore_create_atomic _) as [[? ?]| |]; inversion H; by split.
  - unfold world_maintain in H. destruct (estore_maintain _); inversion H; by split.
  - unfold world_insert in H. destruct (estore_contains _ _); [by apply set_insert_framed in H|inversion H; by split].
  - unfold set_remove in H. destruct (lookup_metas _ _ _) as [[is_ mask]|]; [|inversion H; by split].
    destruct (ungroup_if _ _ _) as [s1| |] eqn:Hu; try (inversion H; by split).
    apply ungroup_if_framed in Hu. destruct (remove_each _ _ _) as [[? ?]| |]; inversion H; subst; try apply framed_refl.
    exact Hu.
  - unfold set_delete in H. destruct (lookup_metas _ _ _) as [[is_ mask]|]; [|inversion H; by split].
    destruct (ungroup_if _ _ _) as [s1| |] eqn:Hu; try (inversion H; by split).
    apply ungroup_if_framed in Hu. destruct (delete_list _ _ _) as [[? ?]| |]; inversion H; subst; try apply framed_refl.
    exact Hu.
  - unfold world_clear in H. destruct (estore_clear _); try (inversion H; by split).
    unfold cstore_clear in H. destruct (clear_each _) as [r| |]; cbn [mbind res_bind] in H; inversion H; split; try done.
    simpl. by rewrite <-list_fmap_compose.
  - unfold world_reset, cstore_clear in H. destruct (clear_each _) as [r| |]; cbn [mbind res_bind] in H; inversion H; split; try done.
    simpl. by rewrite <-list_fmap_compose.
  - unfold world_register in H. destruct (register_dyn _ _) as [b s] eqn:Hr. inversion H; subst.
    pose proof (register_framed (w_comps w) t) as Hf. by rewrite Hr in Hf.
  - unfold world_set in H. destruct (cs_meta _ !! _); try (inversion H; by split).
    destruct (cs_comps _ !! _); try (inversion H; by split).
    destruct (css_get_ref _ _) as [[[? ?]|]| |]; try (inversion H; by split).
    destruct (css_set _ _ _); inversion H; by split.
  - unfold world_for_each in H. destruct (query_for_each _ _ _ _ _) as [[[[s vis] old] new]| |] eqn:Hq;
      inversion H; subst; try (by split). cbn [w_comps]. unfold query_for_each in Hq.
    destruct (borrow3 _ _ _ _) as [[[g i] x]| |]; try done.
    destruct (query_iter _ _ _ _) as [[]| |]; try done.
    + by eapply sparse_for_each_framed.
    + by eapply dense_for_each_framed.
Qed.

(** ** The groups of the layout *)

(** The storages of the group [gm] are those of the types [g]. *)
Definition for_group (mt : gmap tid meta) (gm : gmeta) (g : list tid) : Prop :=
  (∃ i, covers gm i) ∧
  (∀ t, t ∈ g → ∃ m, mt !! t = Some m ∧ covers gm (m_index m)) ∧
  (∀ i, covers gm i → ∃ t m, t ∈ g ∧ mt !! t = Some m ∧ m_index m = i).

Definition laid_out (l : layout) (s : cstore) : Prop :=
  Forall2 (for_group (cs_meta s)) (g_meta <$> cs_groups s) (layout_groups l).

Lemma for_group_mono mt mt' gm g : for_group mt gm g → mt ⊆ mt' → for_group mt' gm g.
Proof.
  intros (Hne & H1 & H2) Hs. split_and!; [done|..].
  - intros t Ht. destruct (H1 t Ht) as (m & Hm & Hc). exists m. split; [|done]. by eapply lookup_weaken.
  - intros i Hi. destruct (H2 i Hi) as (t & m & Ht & Hm & He). exists t, m. split_and!; [done| |done].
    by eapply lookup_weaken.
Qed.

Lemma laid_out_framed l s s' : laid_out l s → framed s s' → laid_out l s'.
Proof.
  intros H [Hm Hs]. unfold laid_out. rewrite Hm. eapply Forall2_impl; [exact H|].
  intros gm g Hg. by eapply for_group_mono.
Qed.

Lemma layout_groups_cons fam l :
  layout_groups (fam :: l) = map (λ a, take a (f_comps fam)) (f_arities fam) ++ layout_groups l.
Proof. done. Qed.

Lemma then_Done {A} (r : after A) f x : then_ r f = Done x → ∃ y, r = Done y ∧ f y = Done x.
Proof. destruct r as [y|y]; [|done]. intros H. by exists y. Qed.

Lemma sl_families_laid_out R D V : ∀ l s sets ds P GP s' sets',
  lay_inv R D V s sets ds P GP → Forall family_wf l → NoDup (layout_tids l) →
  (∀ t, t ∈ layout_tids l → t ∉ P) →
  length (cs_groups s) + length (concat (f_arities <$> l)) < 64 →
  (∀ fam, fam ∈ l → length (f_comps fam) < 16) →
  sl_families l (s, sets) = Done (s', sets') →
  ∃ new, g_meta <$> cs_groups s' = (g_meta <$> cs_groups s) ++ new ∧
    Forall2 (for_group (cs_meta s')) new (layout_groups l) ∧ cs_meta s ⊆ cs_meta s'.
Proof.
  induction l as [|fam l IH]; intros s sets ds P GP s' sets' HI Hf Hnd HP H64 H16 Heq.
  { inversion Heq; subst. exists []. split_and!; [by rewrite app_nil_r|constructor|done]. }
  change (layout_tids (fam :: l)) with (f_comps fam ++ layout_tids l) in *.
  apply Forall_cons in Hf as [Hfam Hf]. apply NoDup_app in Hnd as (Hnd1 & Hdis & Hnd2).
  change (concat (f_arities <$> fam :: l)) with (f_arities fam ++ concat (f_arities <$> l)) in H64.
  rewrite app_length in H64.
  assert (HPf : ∀ t, t ∈ f_comps fam → t ∉ P) by (intros t Ht; apply HP, elem_of_app; by left).
  destruct (sl_family_ok R D V s sets ds P GP fam) as (s1 & sets1 & ds1 & Heq1 & Hlen1 & HI1); try done; [lia|apply H16; left|].
  cbn [sl_families fst] in Heq. rewrite Heq1 in Heq. cbn [then_] in Heq.
  destruct (IH s1 sets1 ds1 (list_to_set (f_comps fam) ∪ P) (list_to_set (f_comps fam) ∪ GP) s' sets')
    as (new & Hnew & Hl & Hsub); try done.
  { intros t Ht. rewrite elem_of_union, elem_of_list_to_set. intros [Hc|Hp]; [by eapply Hdis|].
    apply (HP t); [|done]. apply elem_of_app. by right. }
  { lia. }
  { intros. apply H16. by right. }
  clear IH.
  (* the groups of the first family *)
  destruct (fw_last _ Hfam) as [l0 Hl0].
  assert (Hlast : default 0 (last (f_arities fam)) = length (f_comps fam)) by (rewrite Hl0, last_snoc; done).
  assert (Hsorted : StronglySorted lt (0 :: f_arities fam)).
  { constructor; [apply Hfam|]. eapply Forall_impl; [apply Hfam|]. simpl. intros. lia. }
  destruct (sl_arities_ok fam (length (cs_comps s)) (length (cs_groups s))
    (length (cs_groups s) + length (f_arities fam)) (f_arities fam) 0 s sets)
    as (ms & mt' & sets2 & Heq2 & Hnl & Hms & Hmeta & Hother & _); try done; try lia; try apply H16; [left..|].
  assert (H16f : length (f_comps fam) < 16) by (apply H16; left).
  rewrite Heq1 in Heq2. inversion Heq2; subst s1 sets2; clear Heq2. cbn [cs_groups cs_meta cs_comps] in *.
  rewrite Hlast in Hmeta, Hother.
  assert (Hfm : g_meta <$> (cs_groups s ++ (new_group <$> ms)) = (g_meta <$> cs_groups s) ++ ms).
  { rewrite fmap_app, <-list_fmap_compose. f_equal. rewrite <-(list_fmap_id ms) at 2. done. }
  rewrite Hfm in Hnew.
  assert (Hsub1 : cs_meta s ⊆ mt').
  { apply map_subseteq_spec. intros t m Ht. rewrite Hother; [done|]. rewrite Nat.sub_0_r, drop_0, take_ge by done.
    intros Hin%HPf. apply Hin, (li_dom _ _ _ _ _ _ _ _ HI). eauto. }
  exists (ms ++ new). split_and!; [by rewrite Hnew, (assoc_L (++))| |by etrans].
  apply Forall2_app; [|done].
  apply Forall2_same_length_lookup. split; [by rewrite map_length|].
  intros j m g Hm Hg.
  rewrite list_lookup_fmap in Hg. destruct (f_arities fam !! j) as [a|] eqn:Hj; [|done]. simpl in Hg. injection Hg as <-.
  destruct (Hms j m Hm) as (pj & aj & Hpj & Haj & Hspec). rewrite Hj in Haj. inversion Haj; subst aj; clear Haj.
  assert (Ha0 : 0 < a).
  { inversion Hsorted as [|? ? ? Hall]; subst. rewrite Forall_forall in Hall. apply Hall. by eapply elem_of_list_lookup_2. }
  assert (Hale : a ≤ length (f_comps fam)).
  { rewrite <-Hlast. apply elem_of_list_lookup_2 in Hj. clear -Hj Hsorted.
    inversion Hsorted as [|? ? Hs _]; subst. revert Hj Hs. generalize (f_arities fam) as ar. intros ar.
    assert (∀ n, a ∈ ar → StronglySorted lt ar → a ≤ default n (last ar)) as H; [|by apply H].
    induction ar as [|b ar IH]; intros n Hin Hs; [by apply elem_of_nil in Hin|].
    rewrite last_cons_default. inversion Hs as [|? ? Hs' Hall]; subst.
    apply elem_of_cons in Hin as [->|Hin]; [by apply last_sorted_le|by apply IH]. }
  apply for_group_mono with mt'; [|done].
  assert (Hcov : ∀ i, covers m i ↔ length (cs_comps s) ≤ i ∧ i < length (cs_comps s) + a).
  { intros i. unfold covers. rewrite (gs_start _ _ _ _ _ _ Hspec), (gs_end _ _ _ _ _ _ Hspec). done. }
  split_and!.
  - exists (length (cs_comps s)). rewrite Hcov. lia.
  - intros t [i Hi]%elem_of_list_lookup. apply lookup_take_Some in Hi as [Hi Hia].
    destruct (Hmeta i t) as (j' & pj' & aj' & m' & _ & _ & _ & _ & Hm' & Hms'); [lia|lia|done|].
    exists m'. split; [done|]. rewrite Hcov, (ms_index _ _ _ _ _ _ Hms'). lia.
  - intros i Hi. rewrite Hcov in Hi.
    destruct (lookup_lt_is_Some_2 (f_comps fam) (i - length (cs_comps s))) as [t Ht]; [lia|].
    destruct (Hmeta (i - length (cs_comps s)) t) as (j' & pj' & aj' & m' & _ & _ & _ & _ & Hm' & Hms'); [lia|lia|done|].
    exists t, m'. split_and!; [|done|rewrite (ms_index _ _ _ _ _ _ Hms'); lia].
    apply elem_of_list_lookup. exists (i - length (cs_comps s)). apply lookup_take_Some. split; [done|lia].
Qed.

Lemma sl_leftover_framed all : ∀ order s,
  NoDup order → (∀ t, t ∈ order → cs_meta s !! t = None) → framed s (sl_leftover order all s).
Proof.
  induction order as [|t order IH]; intros s Hnd Hn; [apply framed_refl|]. cbn [sl_leftover].
  inversion Hnd; subst. eapply framed_trans; [|apply IH; [done|]].
  - split; [done|]. simpl. apply insert_subseteq, Hn. left.
  - intros t' Ht'. simpl. rewrite lookup_insert_ne by (intros ->; done). apply Hn. by right.
Qed.

Lemma set_layout_laid_out s ds am reg grp loose l perm es s' :
  cinv s ds am reg grp loose → layout_wf l → layout_fits l →
  set_layout s l perm es = SlOk s' → laid_out l s'.
Proof.
  intros HI [Hwf Hdis] [H64 H16]. unfold set_layout.
  destruct (extract_sets_ok s ds am reg grp loose HI) as (sets & s0 & ds0 & -> & HL0 & Hg0).
  assert (H64' : length (cs_groups s0) + length (concat (f_arities <$> l)) < 64) by (by rewrite Hg0).
  assert (Hemp : ∀ t, t ∈ layout_tids l → t ∉ (∅ : gset tid)) by (intros; apply not_elem_of_empty).
  destruct (sl_families_ok _ _ _ l s0 sets ds0 ∅ ∅ HL0 Hwf Hdis Hemp H64' H16) as (s1 & sets1 & ds1 & Heq1 & HL1).
  destruct (sl_families_laid_out _ _ _ l s0 sets ds0 ∅ ∅ s1 sets1 HL0 Hwf Hdis Hemp H64' H16 Heq1) as (new & Hnew & Hl & _).
  rewrite Heq1. cbv zeta.
  assert (framed s1 (sl_leftover (order_by perm sets1) sets1 s1)) as Hfr.
  { apply sl_leftover_framed; [apply order_by_NoDup|]. intros t Ht%order_by_elem. apply eq_None_not_Some.
    rewrite <-(li_dom _ _ _ _ _ _ _ _ HL1). destruct Ht as [c Hc]. by apply (li_sets _ _ _ _ _ _ _ _ HL1) in Hc as [_ ?]. }
  set (s2 := sl_leftover _ _ _) in *.
  destruct (gm_from_to 0 _) as [mask|]; [|done].
  destruct (group_each _ _ _ _) as [[comps gs]| |] eqn:Hg; [|done..].
  intros H. inversion H; subst s'. apply laid_out_framed with s1; [unfold laid_out; by rewrite Hnew, Hg0|]. eapply framed_trans; [exact Hfr|].
  split; [by apply group_each_metas in Hg|done].
Qed.

Lemma register_all_framed ts : ∀ s, framed s (register_all s ts).
Proof.
  induction ts as [|t ts IH]; intros s; [apply framed_refl|]. cbn [register_all].
  eapply framed_trans; [apply register_framed|apply IH].
Qed.

Lemma built_laid_out l ts w : layout_wf l → builder_build l ts = Some w → laid_out l (w_comps w).
Proof.
  intros Hwf Hb. pose proof (builder_ok l ts w Hwf Hb) as [Hf _]. unfold builder_build, world_new in Hb.
  destruct (set_layout cstore_new l [] []) as [s'| |] eqn:Hs; [|done..]. inversion Hb; subst w; clear Hb. simpl.
  eapply laid_out_framed; [|apply register_all_framed]. eapply set_layout_laid_out; [apply cinv_empty|done..].
Qed.

Lemma good_from_history l evs w s : good_history_from l evs w s → good_history evs w s.
Proof. intros (gs & ts & w0 & Hgs & Hb & Hh). exists w0, (s_init l ts). split; [|done]. by exists gs, l, ts. Qed.

Lemma history_laid_out l evs w s :
  good_history_from l evs w s → laid_out (layout_after l evs) (w_comps w).
Proof.
  intros (gs & ts & w0 & Hgs & Hb & Hh).
  assert (Hh0 : ∀ evs w s, history good_side w0 (s_init l ts) evs w s → good_history_from l evs w s)
    by (intros; by exists gs, ts, w0).
  induction Hh as [|evs w1 s1 o out dr w2 Hh IH Hok Hstep Hside].
  { unfold layout_after. simpl. eapply built_laid_out; [|done]. by eapply layout_built_wf. }
  unfold layout_after. rewrite foldl_app. cbn [foldl fst snd]. fold (layout_after l evs).
  assert ((∃ l' p, o = OSetLayout l' p) ∨ ∀ l' p, o ≠ OSetLayout l' p) as [(l' & p & ->)|Hne].
  { destruct o; try (right; intros ? ?; discriminate). left. eauto. }
  - destruct (reachable_inv w1 s1) as (Hsv & ds & [HE HC]).
    { exists evs. eapply good_from_history, Hh0, Hh. }
    destruct Hok as [gs' Hgs']. destruct Hside as [Hfit Hsv2]. simpl in Hfit.
    assert (good_side s1 (OSetLayout l' p) out) as Hside' by (by split).
    assert (op_ok (OSetLayout l' p)) as Hok' by (by exists gs').
    destruct (step_inv w1 s1 ds _ _ _ _ (Build_winv _ _ _ HE HC) Hsv Hok' Hstep Hside') as (Hout & _).
    simpl in Hout. rewrite decide_True in Hout by done. subst out.
    cbn [step] in Hstep. unfold world_set_layout in Hstep.
    destruct (set_layout _ _ _ _) as [s'|d s'|] eqn:Hs; inversion Hstep; subst w2. simpl.
    eapply set_layout_laid_out; [exact HC| |done|exact Hs]. by eapply layout_built_wf.
  - assert (match o with OSetLayout l' _ => l' | _ => layout_after l evs end = layout_after l evs) as Hl.
    { destruct o; try done. by destruct (Hne l0 perm). }
    unfold layout_after in Hl |- *. rewrite Hl. eapply laid_out_framed; [exact IH|]. by eapply step_framed.
Qed.

Lemma grouped_prefix l evs w s g :
  good_history_from l evs w s → g ∈ layout_groups (layout_after l evs) →
  ∃ P, NoDup P ∧ common_prefix w g P ∧
    (∀ e, e ∈ P → s_alive s e ∧ ∀ t, t ∈ g → is_Some (s_row s e !! t)) ∧
    (∀ e, e ∉ s_loose s → s_alive s e → (∀ t, t ∈ g → is_Some (s_row s e !! t)) → e ∈ P).
Proof.
  intros Hh [k Hkg]%elem_of_list_lookup.
  destruct (Forall2_lookup_r _ _ _ _ _ (history_laid_out _ _ _ _ Hh) Hkg) as (gm & Hk & [i0 Hi0] & H1 & H2).
  destruct (reachable_inv w s) as (Hsv & ds & [HE HC]).
  { exists evs. by eapply good_from_history. }
  apply list_lookup_fmap_Some in Hk as (gr & Hk & ->). pose proof (ci_ginv _ _ _ _ _ _ HC) as HG.
  destruct (mw_range _ _ (gi_wf _ _ HG) k (g_meta gr)) as (Hr1 & Hr2 & Hr3); [by rewrite list_lookup_fmap, Hk|].
  assert (Hin : ∀ i, covers (g_meta gr) i → in_group gr i) by (intros i Hi; exact Hi).
  assert (Hs0 : in_group gr (g_start (g_meta gr))) by (unfold in_group; lia).
  destruct (lookup_lt_is_Some_2 ds (g_start (g_meta gr))) as [d0 Hd0]; [lia|].
  pose proof (gi_len _ _ HG k gr _ _ Hk Hs0 Hd0) as Hl0.
  assert (Hhas : ∀ e t m, cs_meta (w_comps w) !! t = Some m → has ds (m_index m) e ↔ is_Some (s_row s e !! t)).
  { intros e t m Hm. rewrite (ci_has_meta _ _ _ _ _ _ HC t m e Hm). unfold is_Some.
    split; intros [v Hv]; exists v; by apply am_has_row. }
  assert (Hlen : length (take (g_len gr) d0.*1) = g_len gr) by (rewrite take_length, fmap_length; lia).
  exists (take (g_len gr) d0.*1). split_and!.
  - pose proof (css_rep_dnodup _ _ (ci_rep _ _ _ _ _ _ HC) _ _ Hd0) as Hnd.
    rewrite <-(take_drop (g_len gr) d0.*1) in Hnd. by apply NoDup_app in Hnd as [? _].
  - intros t Ht. destruct (H1 t Ht) as (m & Hm & Hc). destruct (ci_lookup _ _ _ _ _ _ HC t m Hm) as (c & d & Hcc & Hd & Hrep).
    exists d.*1. rewrite Hlen. split.
    + unfold view_entities, cs_borrow. rewrite Hm, Hcc. by apply css_entities_ok.
    + by apply (gi_prefix _ _ HG k gr (m_index m) (g_start (g_meta gr)) d d0 Hk (Hin _ Hc) Hs0 Hd Hd0).
  - intros e He. split.
    + eapply (ci_has_alive _ _ _ _ _ _ HC (g_start (g_meta gr))). exists d0. split; [done|].
      rewrite <-(take_drop (g_len gr) d0.*1). apply elem_of_app. by left.
    + intros t Ht. destruct (H1 t Ht) as (m & Hm & Hc). destruct (ci_lookup _ _ _ _ _ _ HC t m Hm) as (c & d & Hcc & Hd & Hrep).
      apply (Hhas e t m Hm). exists d. split; [done|]. rewrite <-(take_drop (g_len gr) d.*1). apply elem_of_app. left.
      by rewrite (gi_prefix _ _ HG k gr (m_index m) (g_start (g_meta gr)) d d0 Hk (Hin _ Hc) Hs0 Hd Hd0).
  - intros e Hn Ha He. destruct (ci_complete _ _ _ _ _ _ HC k gr e Hk Hn) as (gr' & d & Hk' & Hd & Hin').
    + intros i Hi. destruct (H2 i Hi) as (t & m & Ht & Hm & <-). apply (Hhas e t m Hm). by apply He.
    + rewrite Hk in Hk'. inversion Hk'; subst gr'. rewrite Hd0 in Hd. by inversion Hd.
Qed.
