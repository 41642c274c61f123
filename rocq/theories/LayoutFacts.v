(** Which groups [GroupLayout] accepts. *)
From stdpp Require Import sorting.
From Verif Require Import Base Lists MaskM LayoutM WorldM StepM Spec SpecMore SpecLayout LayoutProofs.

Lemma is_group_norm g : is_group g ↔ 2 ≤ length (norm g).
Proof.
  pose proof (norm_nodup g) as Hnd. split.
  - intros (t & t' & Ht & Ht' & Hne). apply norm_elem in Ht. apply norm_elem in Ht'.
    destruct (norm g) as [|x [|y l]]; simpl; [by apply elem_of_nil in Ht| |lia].
    apply elem_of_list_singleton in Ht, Ht'. by subst.
  - intros Hl. destruct (norm g) as [|x [|y l]] eqn:E; simpl in Hl; [lia|lia|].
    exists x, y. split_and!; [apply norm_elem; rewrite E; by left|apply norm_elem; rewrite E; right; by left|].
    intros ->. apply NoDup_cons in Hnd as [Hn _]. apply Hn. by left.
Qed.

Lemma small_norm g : small g ↔ length (norm g) ≤ 16.
Proof.
  unfold small. replace (length (remove_dups g)) with (length (norm g)); [done|].
  apply nodup_same_length; [apply norm_nodup|apply NoDup_remove_dups|].
  intros x. by rewrite norm_elem, elem_of_remove_dups.
Qed.

Lemma norm_same g : same_types (norm g) g.
Proof. intros t. apply norm_elem. Qed.

Lemma nodup_inside_length g h : NoDup g → inside g h → length g ≤ length h.
Proof. intros Hnd Hi. apply submseteq_length, NoDup_submseteq; [done|exact Hi]. Qed.

Lemma nodup_inside_same g h : NoDup g → NoDup h → inside g h → length h ≤ length g → same_types g h.
Proof.
  intros Hg Hh Hi Hl. assert (g ⊆+ h) as [k Hk]%submseteq_Permutation by (by apply NoDup_submseteq).
  assert (k = []) as ->; [|intros t; by rewrite Hk, app_nil_r].
  apply nil_length_inv. apply Permutation_length in Hk. rewrite app_length in Hk. lia.
Qed.

(** ** The search loop *)

Lemma part_inside comps group prev arity :
  prev ≤ arity →
  (∀ x, x ∈ take arity comps → x ∈ group) →
  forallb (contains_tid group) (take (arity - prev) (drop prev comps)) = true.
Proof.
  intros Hle Hin. apply forallb_forall_elem. intros x Hx. apply contains_tid_true, Hin.
  replace arity with (prev + (arity - prev)) by lia. rewrite <-take_take_drop. apply elem_of_app. by right.
Qed.

Lemma take_prev comps group prev arity :
  prev ≤ arity → (∀ x, x ∈ take prev comps → x ∈ group) →
  forallb (contains_tid group) (take (arity - prev) (drop prev comps)) = true →
  ∀ x, x ∈ take arity comps → x ∈ group.
Proof.
  intros Hle Hp Hf x Hx. replace arity with (prev + (arity - prev)) in Hx by lia.
  rewrite <-take_take_drop in Hx. apply elem_of_app in Hx as [Hx|Hx]; [by apply Hp|].
  apply forallb_forall_elem with (x := x) in Hf; [|done]. by apply contains_tid_true in Hf.
Qed.

(** All of the family is inside the group. *)
Lemma search_all comps group : ∀ arities i prev,
  StronglySorted lt arities → Forall (λ a, prev ≤ a ∧ a ≤ length comps ∧ a ≤ length group) arities →
  inside comps group →
  try_search comps arities i prev group =
    Ok (if bool_decide (length group ∈ arities) then FoundEqual else AtEnd).
Proof.
  induction arities as [|a rest IH]; intros i prev Hs Hf Hin; simpl.
  { done. }
  apply Forall_cons in Hf as [(H1 & H2 & H3) Hf]. inversion Hs as [|?? Hs' Hlt]; subst.
  rewrite slice_range_in by done. simpl.
  assert (∀ x, x ∈ take a comps → x ∈ group) as Ha.
  { intros x Hx. apply Hin. eapply elem_of_take in Hx as (j & Hj & _). by eapply elem_of_list_lookup_2. }
  destruct (Nat.compare_spec a (length group)) as [->|Hc|Hc]; [| |lia].
  - rewrite part_inside by done. rewrite bool_decide_eq_true_2; [done|by left].
  - rewrite part_inside by done. rewrite IH; [|done| |done].
    + f_equal. destruct (decide (length group ∈ rest)) as [Hd|Hd].
      * rewrite !bool_decide_eq_true_2; [done|by right|done].
      * rewrite !bool_decide_eq_false_2; [done| |done]. rewrite elem_of_cons. intros [?|?]; [lia|done].
    + rewrite Forall_forall in Hf, Hlt |- *. intros b Hb. specialize (Hf b Hb). specialize (Hlt b Hb). simpl in *. lia.
Qed.

(** The group is there already. *)
Lemma search_found comps group : ∀ arities i prev,
  StronglySorted lt arities → Forall (λ a, prev ≤ a ∧ a ≤ length comps) arities →
  length group ∈ arities → inside (take (length group) comps) group →
  try_search comps arities i prev group = Ok FoundEqual.
Proof.
  induction arities as [|a rest IH]; intros i prev Hs Hf Hel Hin; [by apply elem_of_nil in Hel|]. simpl.
  apply Forall_cons in Hf as [(H1 & H2) Hf]. inversion Hs as [|?? Hs' Hlt]; subst.
  rewrite slice_range_in by done. simpl. rewrite Forall_forall in Hlt.
  destruct (Nat.compare_spec a (length group)) as [->|Hc|Hc].
  - by rewrite part_inside.
  - rewrite part_inside; [|done|].
    + apply IH; [done| | |done].
      * rewrite Forall_forall in Hf |- *. intros b Hb. specialize (Hf b Hb). specialize (Hlt b Hb). simpl in *. lia.
      * apply elem_of_cons in Hel as [?|?]; [lia|done].
    + intros x Hx. apply Hin. apply elem_of_take in Hx as (j & Hj & Hja). apply elem_of_take. exists j. split; [done|lia].
  - apply elem_of_cons in Hel as [?|Hel]; [lia|]. specialize (Hlt _ Hel). lia.
Qed.

(** A smaller group that is not there. *)
Lemma search_panic comps group : ∀ arities i prev,
  NoDup group → StronglySorted lt arities → Forall (λ a, prev ≤ a ∧ a ≤ length comps) arities →
  prev < length group → inside (take prev comps) group →
  (∃ a, a ∈ arities ∧ length group ≤ a) →
  (∀ a, a ∈ arities → length group = a → ¬ inside (take a comps) group) →
  (∀ a, a ∈ arities → length group < a → inside group (take a comps)) →
  try_search comps arities i prev group = Panic.
Proof.
  induction arities as [|a rest IH]; intros i prev Hnd Hs Hf Hpg Hprev Hex Heq Hgt.
  { destruct Hex as (a & []%elem_of_nil & _). }
  simpl. apply Forall_cons in Hf as [(H1 & H2) Hf]. inversion Hs as [|?? Hs' Hlt]; subst.
  rewrite slice_range_in by done. simpl. rewrite Forall_forall in Hlt.
  destruct (Nat.compare_spec a (length group)) as [->|Hc|Hc].
  - destruct (forallb _ _) eqn:E; [|done]. exfalso. eapply Heq; [left|done|]. exact (take_prev comps group prev _ H1 Hprev E).
  - destruct (forallb _ _) eqn:E; [|done]. apply IH; try done.
    + rewrite Forall_forall in Hf |- *. intros b Hb. specialize (Hf b Hb). specialize (Hlt b Hb). simpl in *. lia.
    + exact (take_prev comps group prev _ H1 Hprev E).
    + destruct Hex as (b & [->|Hb]%elem_of_cons & Hl); [lia|by exists b].
    + intros b Hb. apply Heq. by right.
    + intros b Hb. apply Hgt. by right.
  - destruct (forallb _ _) eqn:E; [|done]. exfalso.
    specialize (Hgt a ltac:(left) Hc).
    assert (inside group (take prev comps)) as Hi.
    { intros x Hx. specialize (Hgt x Hx). replace a with (prev + (a - prev)) in Hgt by lia.
      rewrite <-take_take_drop in Hgt. apply elem_of_app in Hgt as [?|Hgt]; [done|].
      apply forallb_forall_elem with (x := x) in E; [|done].
      apply negb_true_iff, contains_tid_false in E. done. }
    apply nodup_inside_length in Hi; [|done]. rewrite take_length in Hi. lia.
Qed.

(** ** One family *)

Definition fam_groups (f : family) : list (list tid) := map (λ a, take a (f_comps f)) (f_arities f).

Lemma layout_groups_eq l : layout_groups l = concat (map fam_groups l).
Proof. done. Qed.

Lemma elem_groups l g : g ∈ layout_groups l ↔ ∃ f, f ∈ l ∧ g ∈ fam_groups f.
Proof.
  rewrite layout_groups_eq, elem_of_list_In, in_concat. split.
  - intros (x & (f & <- & Hf)%in_map_iff & Hg). exists f. by rewrite !elem_of_list_In.
  - intros (f & Hf%elem_of_list_In & Hg%elem_of_list_In). exists (fam_groups f). split; [by apply in_map|done].
Qed.

Lemma arities_le f a : family_wf f → a ∈ f_arities f → 2 ≤ a ∧ a ≤ length (f_comps f).
Proof.
  intros [Hnd Hs Hm [pre Hl]] Ha. rewrite Forall_forall in Hm. split; [by apply Hm|].
  rewrite Hl in Ha, Hs. apply elem_of_app in Ha as [Ha|Ha%elem_of_list_singleton]; [|lia].
  apply sorted_app_lt in Hs as (_ & _ & H). specialize (H a _ Ha (elem_of_list_here _ _)). lia.
Qed.

Lemma comps_group f : family_wf f → f_comps f ∈ fam_groups f.
Proof.
  intros [Hnd Hs Hm [pre Hl]]. unfold fam_groups. rewrite Hl, map_app. apply elem_of_app. right. simpl.
  rewrite firstn_all. by left.
Qed.

Lemma try_add_disjoint f g : no_common (f_comps f) g → try_add_group f g = Ok (false, f).
Proof.
  intros H. unfold try_add_group.
  replace (forallb _ (f_comps f)) with true; [done|]. symmetry. apply forallb_forall_elem. intros x Hx.
  apply negb_true_iff, contains_tid_false. by apply H.
Qed.

Lemma overlap_dec g h : {∃ t, t ∈ g ∧ t ∈ h} + {no_common g h}.
Proof.
  destruct (decide (Exists (λ t, t ∈ h) g)) as [H|H].
  - left. apply Exists_exists in H as (t & ? & ?). eauto.
  - right. intros t Ht Hh. apply H, Exists_exists. eauto.
Qed.

Lemma not_disjoint f g t : t ∈ f_comps f → t ∈ g →
  forallb (λ c, negb (contains_tid g c)) (f_comps f) = false.
Proof.
  intros H1 H2. destruct (forallb _ _) eqn:E; [|done]. rewrite forallb_forall_elem in E.
  specialize (E t H1). apply negb_true_iff, contains_tid_false in E. done.
Qed.

Lemma arities_bounds f : family_wf f → Forall (λ a, 0 ≤ a ∧ a ≤ length (f_comps f)) (f_arities f).
Proof. intros Hf. apply Forall_forall. intros a Ha. destruct (arities_le f a Hf Ha). lia. Qed.

(** The family is inside the group. *)
Lemma try_add_larger f g t : family_wf f → NoDup g → t ∈ f_comps f → t ∈ g → inside (f_comps f) g →
  (∃ h, h ∈ fam_groups f ∧ same_types h g) ∧ try_add_group f g = Ok (true, f) ∨
  (∀ h, h ∈ fam_groups f → ¬ same_types h g) ∧
  ∃ f', try_add_group f g = Ok (true, f') ∧ (∀ h, h ∈ fam_groups f' ↔ h ∈ fam_groups f ∨ h = f_comps f') ∧
    same_types (f_comps f') g.
Proof.
  intros Hf Hg Ht1 Ht2 Hin. unfold try_add_group. rewrite (not_disjoint f g t) by done.
  pose proof (arities_bounds f Hf) as Hb. pose proof Hf as [Hnd Hs Hm [pre Hl]].
  pose proof (nodup_inside_length _ _ Hnd Hin) as Hlen.
  rewrite search_all; [|done| |done].
  2:{ rewrite Forall_forall in Hb |- *. intros a Ha. specialize (Hb a Ha). simpl in *. lia. }
  simpl. case_bool_decide as Hc.
  - left. split; [|done]. destruct (arities_le f _ Hf Hc) as [_ Hle].
    exists (f_comps f). split; [by apply comps_group|by apply nodup_inside_same].
  - right. assert (length (f_comps f) ≠ length g) as Hne.
    { intros Heq. apply Hc. rewrite <-Heq, Hl. apply elem_of_app. right. by left. }
    split.
    { intros h (a & -> & Ha)%elem_of_list_fmap Hsame. destruct (arities_le f a Hf Ha) as [_ Ha'].
      assert (length g ≤ length (take a (f_comps f))) as Hg'.
      { apply nodup_inside_length; [done|]. intros x. apply Hsame. }
      rewrite take_length in Hg'. lia. }
    destruct (push_missing_spec g (f_comps f) Hnd) as (ext & -> & Hnd' & Hext).
    eexists. split; [done|]. simpl.
    assert (same_types (f_comps f ++ ext) g) as Hsame.
    { intros x. rewrite elem_of_app, Hext. destruct (decide (x ∈ f_comps f)) as [Hx|Hx]; [|tauto].
      split; [intros _; by apply Hin|by left]. }
    assert (length g = length (f_comps f ++ ext)) as Hgl.
    { apply nodup_same_length; [done|done|]. intros x. symmetry. apply Hsame. }
    split; [|done]. intros h. unfold fam_groups. simpl. rewrite map_app, elem_of_app. simpl.
    rewrite elem_of_list_singleton, Hgl, firstn_all.
    assert (map (λ a, take a (f_comps f ++ ext)) (f_arities f) = map (λ a, take a (f_comps f)) (f_arities f)) as ->; [|done].
    apply map_ext_in. intros a Ha%elem_of_list_In. destruct (arities_le f a Hf Ha). by rewrite take_app_le.
Qed.

(** The group is inside the family, and its groups are nested with it. *)
Lemma try_add_smaller f g : family_wf f → NoDup g → 2 ≤ length g → inside g (f_comps f) →
  (∀ h, h ∈ fam_groups f → inside h g ∨ inside g h) →
  ((∃ h, h ∈ fam_groups f ∧ same_types h g) ∧ try_add_group f g = Ok (true, f)) ∨
  ((∀ h, h ∈ fam_groups f → ¬ same_types h g) ∧ try_add_group f g = Panic).
Proof.
  intros Hf Hg Hlen Hin Hnest. unfold try_add_group.
  destruct g as [|t g'] eqn:Eg; [simpl in Hlen; lia|]. rewrite <-Eg in *.
  assert (t ∈ g) as Ht by (rewrite Eg; by left). clear Eg g'.
  rewrite (not_disjoint f g t) by auto.
  pose proof (arities_bounds f Hf) as Hb. pose proof Hf as [Hnd Hs Hm [pre Hl]].
  destruct (decide (length g ∈ f_arities f)) as [Hd|Hd];
    [destruct (decide (Forall (λ x, x ∈ g) (take (length g) (f_comps f)))) as [Hi|Hi]|].
  - left. rewrite Forall_forall in Hi. destruct (arities_le f _ Hf Hd) as [_ Hle]. split.
    + exists (take (length g) (f_comps f)). split.
      * apply elem_of_list_fmap. by eexists.
      * apply nodup_inside_same; [|done|exact Hi|rewrite take_length; lia].
        rewrite <-(take_drop (length g) (f_comps f)) in Hnd. by apply NoDup_app in Hnd as [? _].
    + rewrite search_found; done.
  - right. rewrite Forall_forall in Hi. split.
    + intros h (a & -> & Ha)%elem_of_list_fmap Hsame. destruct (arities_le f a Hf Ha) as [_ Ha'].
      assert (a = length g) as ->.
      { rewrite <-(take_length_le (f_comps f) a) by done. apply nodup_same_length; [|done|done].
        rewrite <-(take_drop a (f_comps f)) in Hnd. by apply NoDup_app in Hnd as [? _]. }
      apply Hi. intros x. apply Hsame.
    + rewrite search_panic; [done| |done|done|lia| | | |].
      * done.
      * rewrite take_0. by intros ? ?%elem_of_nil.
      * by exists (length g).
      * intros a Ha <-. exact Hi.
      * intros a Ha Hla. destruct (Hnest (take a (f_comps f))) as [Hh|Hh]; [|..].
        { apply elem_of_list_fmap. by eexists. }
        { apply nodup_inside_length in Hh.
          2:{ rewrite <-(take_drop a (f_comps f)) in Hnd. by apply NoDup_app in Hnd as [? _]. }
          destruct (arities_le f a Hf Ha). rewrite take_length in Hh. lia. }
        done.
  - right. split.
    + intros h (a & -> & Ha)%elem_of_list_fmap Hsame. destruct (arities_le f a Hf Ha) as [_ Ha'].
      apply Hd. replace (length g) with a; [done|].
      rewrite <-(take_length_le (f_comps f) a) by done. apply nodup_same_length; [|done|done].
      rewrite <-(take_drop a (f_comps f)) in Hnd. by apply NoDup_app in Hnd as [? _].
    + rewrite search_panic; [done| |done|done|lia| | | |].
      * done.
      * rewrite take_0. by intros ? ?%elem_of_nil.
      * exists (length (f_comps f)). split; [rewrite Hl; apply elem_of_app; right; by left|].
        by apply nodup_inside_length.
      * intros a Ha <-. done.
      * intros a Ha Hla. destruct (Hnest (take a (f_comps f))) as [Hh|Hh]; [|..].
        { apply elem_of_list_fmap. by eexists. }
        { apply nodup_inside_length in Hh.
          2:{ rewrite <-(take_drop a (f_comps f)) in Hnd. by apply NoDup_app in Hnd as [? _]. }
          destruct (arities_le f a Hf Ha). rewrite take_length in Hh. lia. }
        done.
Qed.

(** ** The whole layout *)

Lemma groups_nodup l : layout_wf l → NoDup (map (λ g, list_to_set g : gset tid) (layout_groups l)).
Proof.
  intros [Hf Hd]. unfold layout_tids in Hd. induction l as [|f l IH]; [constructor|].
  apply Forall_cons in Hf as [Hf Hfs]. simpl in Hd. apply NoDup_app in Hd as (Hd1 & Hd2 & Hd3).
  rewrite layout_groups_eq. simpl. rewrite map_app. apply NoDup_app. split_and!; [| |by apply IH].
  - unfold fam_groups. rewrite map_map. pose proof Hf as [Hnd Hs _ _].
    assert (NoDup (f_arities f)) as Ha.
    { clear -Hs. induction Hs as [|a r Hs IH Hlt]; constructor; [|done].
      intros Hin. rewrite Forall_forall in Hlt. specialize (Hlt _ Hin). lia. }
    assert (∀ a, a ∈ f_arities f → size (list_to_set (take a (f_comps f)) : gset tid) = a) as Hsz.
    { intros a Hin. destruct (arities_le f a Hf Hin) as [_ Hle].
      rewrite size_list_to_set; [by rewrite take_length_le|].
      rewrite <-(take_drop a (f_comps f)) in Hnd. by apply NoDup_app in Hnd as [? _]. }
    clear -Ha Hsz. induction Ha as [|a r Hn Hr IH]; simpl; constructor.
    + intros (b & Heq & Hb)%elem_of_list_fmap. apply Hn.
      replace a with b; [done|]. rewrite <-(Hsz a), <-(Hsz b) by (by left || by right). by rewrite Heq.
    + apply IH. intros b Hb. apply Hsz. by right.
  - intros X (g & -> & (a & -> & Ha)%elem_of_list_fmap)%elem_of_list_fmap (h & Heq & (f2 & Hf2 & (b & -> & Hb)%elem_of_list_fmap)%elem_groups)%elem_of_list_fmap.
    destruct (arities_le f a Hf Ha) as [H2 H3].
    destruct (f_comps f) as [|t r] eqn:Ec; [simpl in H3; lia|].
    assert (t ∈ (list_to_set (take a (t :: r)) : gset tid)) as Ht.
    { apply elem_of_list_to_set. destruct a; [lia|]. by left. }
    rewrite Heq in Ht. apply elem_of_list_to_set, elem_of_take in Ht as (j & Hj%elem_of_list_lookup_2 & _).
    apply (Hd2 t); [by left|]. apply elem_of_list_bind. eauto.
Qed.

Lemma try_families_none l g : Forall (λ f, no_common (f_comps f) g) l → try_families l g = (false, 0, l).
Proof. induction 1 as [|f l Hf Hl IH]; [done|]. simpl. by rewrite try_add_disjoint, IH. Qed.

Lemma try_families_one l1 f l2 g :
  Forall (λ f, no_common (f_comps f) g) l1 → Forall (λ f, no_common (f_comps f) g) l2 →
  (∀ f', try_add_group f g = Ok (true, f') → try_families (l1 ++ f :: l2) g = (false, 1, l1 ++ f' :: l2)) ∧
  (try_add_group f g = Panic → (try_families (l1 ++ f :: l2) g).1.1 = true).
Proof.
  intros H1 H2. induction H1 as [|f1 l1 Hf1 Hl1 IH]; simpl.
  - split; [intros f' ->|intros ->; done]. by rewrite try_families_none.
  - destruct IH as [IH1 IH2]. rewrite (try_add_disjoint f1 g Hf1). split.
    + intros f' Hf'. by rewrite (IH1 f' Hf').
    + intros Hp. specialize (IH2 Hp). by destruct (try_families (l1 ++ f :: l2) g) as [[[] n] l'].
Qed.

(** The layout [l] has the groups [done]. *)
Record layout_inv (l : layout) (done : list (list tid)) : Prop := {
  ly_wf : layout_wf l;
  ly_done : ∀ g, g ∈ layout_groups l → ∃ h, h ∈ done ∧ is_group h ∧ same_types g h;
  ly_all : ∀ h, h ∈ done → is_group h → ∃ g, g ∈ layout_groups l ∧ same_types g h
}.

Definition acceptable (done : list (list tid)) (g : list tid) : Prop :=
  (∃ h, h ∈ done ∧ same_types h g) ∨ ∀ h, h ∈ done → is_group h → inside h g ∨ no_common h g.

Lemma family_group l f : layout_wf l → f ∈ l → f_comps f ∈ layout_groups l.
Proof.
  intros [Hf _] Hin. apply elem_groups. exists f. split; [done|]. apply comps_group.
  rewrite Forall_forall in Hf. by apply Hf.
Qed.

Lemma group_family l g : layout_wf l → g ∈ layout_groups l → ∃ f, f ∈ l ∧ g ∈ fam_groups f ∧ inside g (f_comps f).
Proof.
  intros Hwf (f & Hf & Hg)%elem_groups. exists f. split_and!; [done|done|].
  apply elem_of_list_fmap in Hg as (a & -> & _). intros t (j & Hj%elem_of_list_lookup_2 & _)%elem_of_take. done.
Qed.

Lemma is_group_same g h : same_types g h → is_group g → is_group h.
Proof. intros Hs (t & t' & H1 & H2 & H3). exists t, t'. by rewrite <-!(Hs _). Qed.

Lemma add_group_dyn_eq l g : 2 ≤ length (norm g) ≤ 16 →
  (∀ l', try_families l (norm g) = (false, 1, l') → add_group_dyn l g = (false, l')) ∧
  (∀ l', try_families l (norm g) = (false, 0, l') →
     add_group_dyn l g = (false, l' ++ [Fam (norm g) [length (norm g)]])) ∧
  ((try_families l (norm g)).1.1 = true → (add_group_dyn l g).1 = true).
Proof.
  intros Hl. unfold add_group_dyn. change (dedup (sort_tids g)) with (norm g).
  destruct (Nat.leb_spec (length (norm g)) 1) as [|_]; [lia|].
  unfold max_group_arity. destruct (Nat.ltb_spec 16 (length (norm g))) as [|_]; [lia|].
  split_and!; [by intros l' -> |by intros l' ->|].
  destruct (try_families l (norm g)) as [[p n] l']. simpl. by intros ->.
Qed.

Lemma add_group_dyn_no l g : ¬ is_group g → add_group_dyn l g = (false, l).
Proof.
  rewrite is_group_norm. intros Hn. unfold add_group_dyn. change (dedup (sort_tids g)) with (norm g).
  destruct (Nat.leb_spec (length (norm g)) 1); [done|lia].
Qed.

Lemma add_group_step l done g :
  layout_inv l done → coherent (done ++ [g]) → small g →
  (∃ l', add_group_dyn l g = (false, l') ∧ layout_inv l' (done ++ [g]) ∧ (is_group g → acceptable done g)) ∨
  ((add_group_dyn l g).1 = true ∧ is_group g ∧ ¬ acceptable done g).
Proof.
  intros [Hwf Hd Ha] Hco Hsm.
  pose proof (norm_same g) as Hng. pose proof (norm_nodup g) as Hnd.
  destruct (decide (2 ≤ length (norm g))) as [Hgt|Hle].
  2:{ left. exists l. assert (¬ is_group g) as Hn by (rewrite is_group_norm; lia). rewrite add_group_dyn_no by done. split_and!; [done| |done]. split; [done| |].
    - intros g0 (h & Hh & H1 & H2)%Hd. exists h. split_and!; [|done|done]. apply elem_of_app. by left.
    - intros h [Hh|Hh%elem_of_list_singleton]%elem_of_app Hgr; [by apply Ha|]. by subst. }
  assert (is_group g) as Hgr by (rewrite is_group_norm; lia).
  rewrite small_norm in Hsm. destruct (add_group_dyn_eq l g (conj Hgt Hsm)) as (Hd1 & Hd0 & Hdp).
  assert (g ∈ done ++ [g]) as Hg_in by (apply elem_of_app; right; by left).
  (* every family is one of the groups seen so far *)
  assert (∀ f, f ∈ l → ∃ k, k ∈ done ∧ is_group k ∧ same_types (f_comps f) k) as Hfam.
  { intros f Hf. by apply Hd, family_group. }
  assert (∀ f f' t, f ∈ l → f' ∈ l → t ∈ f_comps f → t ∈ f_comps f' → ∃ l1 l2, l = l1 ++ f :: l2 ∧ f' = f ∧
            ∀ f2, f2 ∈ l1 ++ l2 → no_common (f_comps f) (f_comps f2)) as Huni.
  { intros f f' t Hf Hf' Ht Ht'. apply elem_of_list_split in Hf as (l1 & l2 & ->). exists l1, l2.
    destruct Hwf as [_ Hdis]. unfold layout_tids in Hdis. rewrite bind_app in Hdis. simpl in Hdis.
    apply NoDup_app in Hdis as (_ & Hx & (_ & Hy & _)%NoDup_app).
    assert (∀ f2, f2 ∈ l1 ++ l2 → no_common (f_comps f) (f_comps f2)) as Hno.
    { intros f2 [Hf2|Hf2]%elem_of_app u Hu Hu2.
      - apply (Hx u); [apply elem_of_list_bind; eauto|]. apply elem_of_app. by left.
      - apply (Hy u); [done|]. apply elem_of_list_bind; eauto. }
    split_and!; [done| |done].
    apply elem_of_app in Hf' as [Hf'|[->|Hf']%elem_of_cons]; [| done |];
      exfalso; eapply Hno; [apply elem_of_app; by left|done|done|apply elem_of_app; by right|done|done]. }
  destruct (decide (Exists (λ f, Exists (λ t, t ∈ norm g) (f_comps f)) l)) as [Hov|Hov].
  - apply Exists_exists in Hov as (f & Hf & (t & Htf & Htg)%Exists_exists).
    destruct (Huni f f t Hf Hf Htf Htf) as (l1 & l2 & El & _ & Hno).
    pose proof (proj1 (Forall_forall _ _) (lw_families _ Hwf) f Hf) as Hfw.
    destruct (Hfam f Hf) as (k & Hk & Hkg & Hks).
    assert (k ∈ done ++ [g]) as Hk_in by (apply elem_of_app; by left).
    assert (∀ h, h ∈ done → is_group h → inside h (f_comps f) ∨ no_common h (f_comps f)) as Hcases.
    { intros h Hh Hhg. destruct (Ha h Hh Hhg) as (h' & Hh' & Hs'). destruct (group_family l h' Hwf Hh') as (f2 & Hf2 & _ & Hi2).
      rewrite El in Hf2. apply elem_of_app in Hf2 as [Hf2|[->|Hf2]%elem_of_cons].
      - right. intros u Hu Hu'. eapply Hno; [apply elem_of_app; by left|exact Hu'|]. by apply Hi2, Hs'.
      - left. intros u Hu. by apply Hi2, Hs'.
      - right. intros u Hu Hu'. eapply Hno; [apply elem_of_app; by right|exact Hu'|]. by apply Hi2, Hs'. }
    destruct (Hco g k Hg_in Hk_in Hgr Hkg) as [Hnest Hin].
    (* the other families have nothing in common with the group *)
    assert (∀ f2, f2 ∈ l1 ++ l2 → no_common (f_comps f2) (norm g)) as Hoth.
    { intros f2 Hf2 u Hu Hug. assert (f2 ∈ l) as Hf2l.
      { rewrite El. apply elem_of_app. apply elem_of_app in Hf2 as [?|?]; [by left|right; by right]. }
      destruct (Hfam f2 Hf2l) as (k2 & Hk2 & Hk2g & Hk2s).
      assert (k2 ∈ done ++ [g]) as Hk2_in by (apply elem_of_app; by left).
      destruct Hnest as [Hn|[Hn|Hn]].
      - eapply (Hno f2 Hf2 u); [|done]. apply Hks, Hn. by apply Hng.
      - destruct (Hco g k2 Hg_in Hk2_in Hgr Hk2g) as [[Hm|[Hm|Hm]] _].
        + eapply (Hno f2 Hf2 t); [done|]. apply Hk2s, Hm. by apply Hng.
        + destruct (Hco k k2 Hk_in Hk2_in Hkg Hk2g) as [_ Hb]. destruct (Hb g Hg_in Hn Hm) as [Hb'|Hb'].
          * eapply (Hno f2 Hf2 t); [done|]. apply Hk2s, Hb', Hks. done.
          * eapply (Hno f2 Hf2 u); [|done]. apply Hks, Hb', Hk2s. done.
        + apply (Hm u); [by apply Hng|by apply Hk2s].
      - apply (Hn t); [by apply Hng|by apply Hks]. }
    assert (Forall (λ f, no_common (f_comps f) (norm g)) l1 ∧ Forall (λ f, no_common (f_comps f) (norm g)) l2) as [HF1 HF2].
    { apply Forall_app, Forall_forall. exact Hoth. }
    destruct (try_families_one l1 f l2 (norm g) HF1 HF2) as [Hone Hpan].
    assert (∀ f', try_add_group f (norm g) = Ok (true, f') → add_group_dyn l g = (false, l1 ++ f' :: l2)) as Hres.
    { intros f' Hf'. apply Hd1. rewrite El. by apply Hone. }
    assert (∀ f', try_add_group f (norm g) = Ok (true, f') → layout_wf (l1 ++ f' :: l2)) as Hwf'.
    { intros f' Hf'. apply (add_group_dyn_spec l g _ Hwf). by apply Hres. }
    assert (∀ h, h ∈ fam_groups f → h ∈ layout_groups l) as Hfl by (intros h Hh; apply elem_groups; eauto).
    (* same family, group found *)
    assert ((∃ h, h ∈ fam_groups f ∧ same_types h (norm g)) → layout_inv l (done ++ [g]) ∧ (∃ h, h ∈ done ∧ same_types h g)) as Hfound.
    { intros (h & Hh & Hs). split; [split; [done| |]|].
      - intros g0 (h0 & Hh0 & H1 & H2)%Hd. exists h0. split_and!; [|done|done]. apply elem_of_app. by left.
      - intros h0 [Hh0|Hh0%elem_of_list_singleton]%elem_of_app Hgr0; [by apply Ha|]. subst h0. exists h.
        split; [by apply Hfl|]. intros u. by rewrite (Hs u), (Hng u).
      - destruct (Hd h (Hfl h Hh)) as (h0 & Hh0 & _ & Hs0). exists h0. split; [done|].
        intros u. by rewrite <-(Hs0 u), (Hs u), (Hng u). }
    destruct Hnest as [Hn|[Hn|Hn]].
    + (* the group is inside the family *)
      destruct (try_add_smaller f (norm g) Hfw Hnd ltac:(lia)) as [[Hex Hok]|[Hnex Hp]].
      { intros u Hu. apply Hks, Hn. by apply Hng. }
      { intros h Hh. destruct (Hd h (Hfl h Hh)) as (h' & Hh' & Hhg' & Hhs').
        assert (h' ∈ done ++ [g]) as Hh'_in by (apply elem_of_app; by left).
        destruct (Hco g h' Hg_in Hh'_in Hgr Hhg') as [_ Hb].
        destruct (Hb k Hk_in Hn) as [Hb'|Hb'].
        - intros u Hu. apply Hks. apply elem_of_list_fmap in Hh as (a & -> & _).
          apply Hhs', elem_of_take in Hu as (j & Hj%elem_of_list_lookup_2 & _). done.
        - right. intros u Hu. apply Hhs', Hb'. by apply Hng.
        - left. intros u Hu. apply Hng, Hb'. by apply Hhs'. }
      * left. rewrite (Hres f Hok), <-El. exists l. destruct (Hfound Hex) as [? ?]. split_and!; [done|done|]. intros _. by left.
      * right. split_and!; [|done|].
        { apply Hdp. rewrite El. by apply Hpan. }
        intros [(h & Hh & Hs)|Hall].
        -- assert (is_group h) as Hhg by (by apply (is_group_same g h); [intros u; symmetry; apply Hs|]).
           destruct (Ha h Hh Hhg) as (h' & Hh' & Hs'). destruct (group_family l h' Hwf Hh') as (f2 & Hf2 & Hff & Hi2).
           assert (t ∈ f_comps f2) as Ht2 by (apply Hi2, Hs', Hs; by apply Hng).
           destruct (Huni f f2 t Hf Hf2 Htf Ht2) as (_ & _ & _ & -> & _).
           apply (Hnex h' Hff). intros u. by rewrite (Hs' u), (Hs u), (Hng u).
        -- destruct (Hall k Hk Hkg) as [Hi|Hi].
           ++ apply (Hnex (f_comps f)); [by apply comps_group|]. intros u. rewrite (Hng u). split.
              ** intros Hu. apply Hi. by apply Hks.
              ** intros Hu. apply Hks. by apply Hn.
           ++ apply (Hi t); [by apply Hks|by apply Hng].
    + (* the family is inside the group *)
      assert (inside (f_comps f) (norm g)) as Hfin by (intros u Hu; apply Hng, Hn; by apply Hks).
      destruct (try_add_larger f (norm g) t Hfw Hnd Htf Htg Hfin) as [[Hex Hok]|(Hnex & f' & Hok & Hgs & Hsame)].
      * left. rewrite (Hres f Hok), <-El. exists l. destruct (Hfound Hex) as [? ?]. split_and!; [done|done|]. intros _. by left.
      * left. rewrite (Hres f' Hok). eexists. split; [done|]. split.
        { split; [by apply Hwf'| |].
          - intros g0 (f2 & Hf2 & Hg0)%elem_groups. apply elem_of_app in Hf2 as [Hf2|[->|Hf2]%elem_of_cons].
            + destruct (Hd g0) as (h0 & Hh0 & ? & ?); [apply elem_groups; exists f2; rewrite El; split; [apply elem_of_app; by left|done]|].
              exists h0. split_and!; [apply elem_of_app; by left|done|done].
            + apply Hgs in Hg0 as [Hg0| ->].
              * destruct (Hd g0 (Hfl g0 Hg0)) as (h0 & Hh0 & ? & ?).
                exists h0. split_and!; [apply elem_of_app; by left|done|done].
              * exists g. split_and!; [done|done|]. intros u. by rewrite (Hsame u), (Hng u).
            + destruct (Hd g0) as (h0 & Hh0 & ? & ?); [apply elem_groups; exists f2; rewrite El; split; [apply elem_of_app; right; by right|done]|].
              exists h0. split_and!; [apply elem_of_app; by left|done|done].
          - intros h0 [Hh0|Hh0%elem_of_list_singleton]%elem_of_app Hgr0.
            + destruct (Ha h0 Hh0 Hgr0) as (g0 & (f2 & Hf2 & Hg0)%elem_groups & Hs0). exists g0. split; [|done].
              apply elem_groups. rewrite El in Hf2. apply elem_of_app in Hf2 as [Hf2|[->|Hf2]%elem_of_cons].
              * exists f2. split; [apply elem_of_app; by left|done].
              * exists f'. split; [apply elem_of_app; right; by left|]. apply Hgs. by left.
              * exists f2. split; [apply elem_of_app; right; by right|done].
            + subst h0. exists (f_comps f'). split; [|intros u; by rewrite (Hsame u), (Hng u)].
              apply elem_groups. exists f'. split; [apply elem_of_app; right; by left|]. apply Hgs. by right. }
        intros _. right. intros h Hh Hhg. destruct (Hcases h Hh Hhg) as [Hc|Hc].
        -- left. intros u Hu. apply Hn, Hks. by apply Hc.
        -- destruct (Ha h Hh Hhg) as (h' & Hh' & Hs'). destruct (group_family l h' Hwf Hh') as (f2 & Hf2 & _ & Hi2).
           rewrite El in Hf2. apply elem_of_app in Hf2 as [Hf2|[->|Hf2]%elem_of_cons].
           ++ right. intros u Hu Hug. eapply Hoth; [apply elem_of_app; by left|by apply Hi2, Hs'|by apply Hng].
           ++ left. intros u Hu. apply Hn, Hks, Hi2. by apply Hs'.
           ++ right. intros u Hu Hug. eapply Hoth; [apply elem_of_app; by right|by apply Hi2, Hs'|by apply Hng].
    + exfalso. apply (Hn t); [by apply Hng|by apply Hks].
  - assert (Forall (λ f, no_common (f_comps f) (norm g)) l) as Hall.
    { apply Forall_forall. intros f Hf u Hu Hug. apply Hov, Exists_exists. exists f. split; [done|].
      apply Exists_exists. eauto. }
    pose proof (Hd0 _ (try_families_none l _ Hall)) as Hnew. left. rewrite Hnew. eexists. split; [done|]. split.
    + split.
      * by apply (add_group_dyn_spec l g _ Hwf).
      * intros g0 (f2 & Hf2 & Hg0)%elem_groups. apply elem_of_app in Hf2 as [Hf2|Hf2%elem_of_list_singleton].
        -- destruct (Hd g0) as (h0 & Hh0 & ? & ?); [apply elem_groups; eauto|].
           exists h0. split_and!; [apply elem_of_app; by left|done|done].
        -- subst f2. unfold fam_groups in Hg0. simpl in Hg0. apply elem_of_list_singleton in Hg0 as ->.
           rewrite firstn_all. by exists g.
      * intros h0 [Hh0|Hh0%elem_of_list_singleton]%elem_of_app Hgr0.
        -- destruct (Ha h0 Hh0 Hgr0) as (g0 & (f2 & Hf2 & Hg0)%elem_groups & Hs0). exists g0. split; [|done].
           apply elem_groups. exists f2. split; [apply elem_of_app; by left|done].
        -- subst h0. exists (norm g). split; [|done]. apply elem_groups. eexists. split; [apply elem_of_app; right; by left|].
           unfold fam_groups. simpl. rewrite firstn_all. by left.
    + intros _. right. intros h Hh Hhg. right. destruct (Ha h Hh Hhg) as (h' & Hh' & Hs').
      destruct (group_family l h' Hwf Hh') as (f2 & Hf2 & _ & Hi2). rewrite Forall_forall in Hall.
      intros u Hu Hug. eapply (Hall f2 Hf2 u); [by apply Hi2, Hs'|by apply Hng].
Qed.

Lemma coherent_sub gs hs : (∀ g, g ∈ gs → g ∈ hs) → coherent hs → coherent gs.
Proof.
  intros Hs Hc g h Hg Hh Hgg Hhg. destruct (Hc g h (Hs _ Hg) (Hs _ Hh) Hgg Hhg) as [H1 H2]. split; [done|].
  intros k Hk. by apply H2, Hs.
Qed.

Lemma add_groups_run gs : ∀ l done, layout_inv l done → coherent (done ++ gs) → Forall small gs →
  (is_Some (add_groups l gs) ↔ ∀ j g, gs !! j = Some g → is_group g → acceptable (done ++ take j gs) g) ∧
  ∀ l', add_groups l gs = Some l' → layout_inv l' (done ++ gs).
Proof.
  induction gs as [|g gs IH]; intros l done HI Hco Hsm; simpl.
  { rewrite app_nil_r. split; [by split; [|eauto]|]. by intros l' [= <-]. }
  apply Forall_cons in Hsm as [Hg Hgs].
  destruct (add_group_step l done g HI) as [(l' & -> & HI' & Hacc)|(Hp & Hgr & Hacc)]; [|done|..].
  { eapply coherent_sub; [|exact Hco]. intros h [Hh|Hh%elem_of_list_singleton]%elem_of_app; apply elem_of_app;
      [by left|subst h; right; by left]. }
  - destruct (IH l' (done ++ [g]) HI') as [IH1 IH2]; [by rewrite <-(assoc_L (++))|done|].
    rewrite <-(assoc_L (++)) in IH2. split; [|exact IH2]. rewrite IH1. split.
    + intros H j h Hj Hh. destruct j as [|j]; simpl in *.
      * injection Hj as <-. rewrite app_nil_r. by apply Hacc.
      * specialize (H j h Hj Hh). by rewrite <-(assoc_L (++)) in H.
    + intros H j h Hj Hh. specialize (H (S j) h Hj Hh). simpl in H. by rewrite <-(assoc_L (++)).
  - destruct (add_group_dyn l g) as [p l']. simpl in Hp. subst p. split; [|done]. split; [by intros []|].
    intros H. exfalso. apply Hacc. specialize (H 0 g eq_refl Hgr). simpl in H. by rewrite app_nil_r in H.
Qed.

Lemma acceptable_order gs :
  (∀ j g, gs !! j = Some g → is_group g → acceptable (take j gs) g) ↔ smaller_first gs.
Proof.
  assert (∀ j h, h ∈ take j gs ↔ ∃ i, i < j ∧ gs !! i = Some h) as Ht.
  { intros j h. rewrite elem_of_take. split; intros (i & ? & ?); eauto. }
  split; intros H j g Hj Hg.
  - destruct (H j g Hj Hg) as [(h & Hh & Hs)|Hall].
    + left. apply Ht in Hh as (i & Hi & Hl). eauto.
    + right. intros i h Hi Hh Hhg. apply Hall; [|done]. apply Ht. eauto.
  - destruct (H j g Hj Hg) as [(i & h & Hi & Hh & Hs)|Hall].
    + left. exists h. split; [apply Ht; eauto|done].
    + right. intros h (i & Hi & Hh)%Ht Hhg. by eapply Hall.
Qed.

Lemma coherent_groups gs :
  coherent gs → Forall small gs →
  (is_Some (add_groups [] gs) ↔ smaller_first gs) ∧ ∀ l, add_groups [] gs = Some l → has_groups l gs.
Proof.
  intros Hco Hsm. destruct (add_groups_run gs [] []) as [H1 H2]; [|done|done|].
  { split; [apply layout_wf_nil|by intros g ?%elem_of_nil|by intros h ?%elem_of_nil]. }
  simpl in *. split; [rewrite H1; apply acceptable_order|].
  intros l Hl. destruct (H2 l Hl) as [Hwf Hd Ha]. split_and!; [done|done|by apply groups_nodup].
Qed.

(** ** Limits *)

Lemma arities_length l : length (concat (f_arities <$> l)) = length (layout_groups l).
Proof.
  induction l as [|f l IH]; simpl; [done|]. unfold layout_groups in *. simpl.
  rewrite !app_length, map_length. f_equal. done.
Qed.

Lemma fits_groups l : layout_wf l →
  layout_fits l ↔ length (layout_groups l) ≤ 63 ∧ ∀ g, g ∈ layout_groups l → length g ≤ 15.
Proof.
  intros [Hf _]. rewrite Forall_forall in Hf. unfold layout_fits. rewrite arities_length. split; intros [H1 H2].
  - split; [lia|]. intros g (f & Hfl & (a & -> & Ha)%elem_of_list_fmap)%elem_groups.
    specialize (H2 f Hfl). rewrite take_length. lia.
  - split; [lia|]. intros f Hfl. specialize (H2 (f_comps f)). enough (length (f_comps f) ≤ 15) by lia. apply H2, elem_groups.
    exists f. split; [done|]. by apply comps_group, Hf.
Qed.

(** ** A rejected group *)

Lemma try_families_fail l1 f l2 g :
  Forall (λ f, no_common (f_comps f) g) l1 → (∀ r, try_add_group f g ≠ Ok r) →
  try_families (l1 ++ f :: l2) g = (true, 0, l1 ++ f :: l2).
Proof.
  intros H1 Hf. induction H1 as [|f1 l1 Hf1 Hl1 IH]; simpl.
  - destruct (try_add_group f g) as [[b f']| |] eqn:E; [|done..]. by destruct (Hf (b, f')).
  - rewrite (try_add_disjoint f1 g Hf1), IH. done.
Qed.

Lemma try_add_false f g f' : try_add_group f g = Ok (false, f') → no_common (f_comps f) g.
Proof.
  unfold try_add_group. destruct (forallb _ (f_comps f)) eqn:E.
  - intros _ t Ht Hg. rewrite forallb_forall in E. specialize (E t ltac:(by apply elem_of_list_In)).
    apply negb_true_iff in E. apply contains_tid_true in Hg. congruence.
  - destruct (try_search _ _ _ _ _) as [[]| |]; simpl; try done. destruct (f_arities f !! i) as [a|]; [|done].
    by destruct (a <=? _).
Qed.

Lemma rejected_unchanged l g : layout_wf l →
  (∀ h k, h ∈ layout_groups l → k ∈ layout_groups l → meets h g → meets k g → meets h k) →
  (add_group_dyn l g).1 = true → (add_group_dyn l g).2 = l.
Proof.
  intros [Hf Hd] Hmeet. unfold add_group_dyn. change (dedup (sort_tids g)) with (norm g).
  destruct (length (norm g) <=? 1); [done|]. destruct (max_group_arity <? length (norm g)); [done|].
  assert (Forall (λ f, no_common (f_comps f) (norm g)) l ∨ ∃ l1 f l2, l = l1 ++ f :: l2 ∧
    Forall (λ f, no_common (f_comps f) (norm g)) l1 ∧ Forall (λ f, no_common (f_comps f) (norm g)) l2 ∧
    meets (f_comps f) (norm g)) as [H|(l1 & f & l2 & -> & H1 & H2 & (t & Ht1 & Ht2))].
  { assert (∀ f f', f ∈ l → f' ∈ l → meets (f_comps f) (norm g) → meets (f_comps f') (norm g) → meets (f_comps f) (f_comps f')) as Hm.
    { intros f f' Hfl Hfl' (t & Ht & Htg) (t' & Ht' & Htg'). rewrite Forall_forall in Hf.
      apply Hmeet; [apply elem_groups; exists f; split; [done|]; by apply comps_group, Hf|
        apply elem_groups; exists f'; split; [done|]; by apply comps_group, Hf| |].
      - exists t. split; [done|]. by apply norm_elem.
      - exists t'. split; [done|]. by apply norm_elem. }
    clear Hf Hmeet. induction l as [|f l IH]; [by left|]. unfold layout_tids in Hd. rewrite bind_cons in Hd.
    apply NoDup_app in Hd as (_ & Hd1 & Hd2).
    assert (meets (f_comps f) (norm g) ∨ no_common (f_comps f) (norm g)) as [Hfm|Hfm].
    { clear. destruct (decide (Exists (λ t, t ∈ norm g) (f_comps f))) as [(t & ? & ?)%Exists_exists|Hn]; [left; by exists t|].
      right. intros t Ht Htg. apply Hn, Exists_exists. eauto. }
    - right. exists [], f, l. split_and!; [done|done| |done]. apply Forall_forall. intros f' Hf' t Ht Htg.
      destruct (Hm f f') as (t' & Ht1 & Ht2); [by left|by right|done|by exists t|].
      apply (Hd1 t' Ht1). apply elem_of_list_bind. eauto.
    - destruct IH as [IH|(l1 & f1 & l2 & -> & IH)]; [done|intros; apply Hm; by try right|left; by constructor|].
      right. exists (f :: l1), f1, l2. destruct IH as (? & ? & ?). split_and!; [done|by constructor|done|done]. }
  - rewrite try_families_none; done.
  - destruct (try_add_group f (norm g)) as [[[] f']| |] eqn:E.
    + rewrite (proj1 (try_families_one l1 f l2 (norm g) H1 H2) f' E). done.
    + apply try_add_false in E. by destruct (E t Ht1).
    + rewrite (try_families_fail l1 f l2 (norm g) H1); [done|]. by rewrite E.
    + rewrite (try_families_fail l1 f l2 (norm g) H1); [done|]. by rewrite E.
Qed.

Lemma layout_tids_groups l t : layout_wf l → t ∈ layout_tids l ↔ ∃ g, g ∈ layout_groups l ∧ t ∈ g.
Proof.
  intros [Hf _]. rewrite Forall_forall in Hf. unfold layout_tids. rewrite elem_of_list_bind. split.
  - intros (f & Ht & Hfl). exists (f_comps f). split; [|done]. apply elem_groups. exists f. split; [done|]. by apply comps_group, Hf.
  - intros (g & (f & Hfl & (a & -> & Ha)%elem_of_list_fmap)%elem_groups & Ht). exists f. split; [|done].
    apply elem_of_list_lookup in Ht as [i Hi]. apply lookup_take_Some in Hi as [Hi _]. by eapply elem_of_list_lookup_2.
Qed.
