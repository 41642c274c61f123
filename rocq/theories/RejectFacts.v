(** When a rejected [add_group] changes the layout. *)
From Verif Require Import Base Lists MaskM LayoutM GroupM StorageM WorldM StepM BuilderM Spec SpecMore SpecLayout SpecGroups
  LayoutProofs LayoutFacts AddGroupFacts.

Lemma taken_fam gs f g : family_wf f → (∀ h, touched gs g h ↔ h ∈ fam_groups f) →
  taken gs g ↔ fam_taken f (norm g).
Proof.
  intros Hf Htf.
  assert (∀ h, h ∈ fam_groups f → types_of h = length h) as Hty'.
  { intros h Hh. apply types_of_nodup. by eapply fam_group_nodup. }
  split; intros Hx.
  - destruct Hx as [_ X2 X3]. split.
    + intros h Hh Hle t Ht. apply norm_elem. apply (X2 h); [by apply Htf| |done]. by rewrite (Hty' h Hh), (types_of_norm g).
    + intros h Hh Hgt Hno t Ht Htg. destruct (X3 h) with t as (k & Hk & Hkl & Hkt); try done.
      * split_and!; [by apply Htf|by rewrite (Hty' h Hh), (types_of_norm g)|].
        intros k Hk%Htf. rewrite (Hty' k Hk), (Hty' h Hh), (types_of_norm g). by apply Hno.
      * by apply norm_elem.
      * apply Htf in Hk. exists k. by rewrite (Hty' k Hk), (types_of_norm g) in Hkl.
  - destruct Hx as [X2 X3]. split.
    + intros h k Hh%Htf Hk%Htf. apply fam_group_in in Hh as (a & Ha & ->). apply fam_group_in in Hk as (b & Hb & ->).
      destruct (arities_le f a Hf Ha), (arities_le f b Hf Hb).
      destruct (f_comps f) as [|t r]; [simpl in *; lia|]. exists t. destruct a, b; try lia. split; by left.
    + intros h Hh%Htf. rewrite (Hty' h Hh), (types_of_norm g). intros Hle t Ht. apply norm_elem. by apply (X2 h).
    + intros h (Hh%Htf & Hgt & Hno) t Ht Htg. rewrite (Hty' h Hh), (types_of_norm g) in Hgt.
      destruct (X3 h Hh Hgt) with t as (k & Hk & Hkl & Hkt); [| |by apply norm_elem|].
      * intros k Hk Hkl. specialize (Hno k). rewrite (Hty' k Hk), (Hty' h Hh), (types_of_norm g) in Hno.
        apply Hno; [by apply Htf|done].
      * done.
      * exists k. rewrite (Hty' k Hk), (types_of_norm g). split; [by apply Htf|done].
Qed.

Lemma meets_norm h g : meets h g ↔ meets h (norm g).
Proof. split; intros (t & H1 & H2); exists t; by rewrite norm_elem in *. Qed.

(** Two groups of a family have a type in common. *)
Lemma fam_groups_meet f h k : family_wf f → h ∈ fam_groups f → k ∈ fam_groups f → meets h k.
Proof.
  intros Hf (a & Ha & ->)%fam_group_in (b & Hb & ->)%fam_group_in.
  destruct (arities_le f a Hf Ha), (arities_le f b Hf Hb).
  destruct (f_comps f) as [|t r]; [simpl in *; lia|]. exists t. destruct a, b; try lia. split; by left.
Qed.

(** The groups that share a type with a group of [f] are those of [f]. *)
Lemma same_family l f k h : layout_wf l → f ∈ l → k ∈ fam_groups f → h ∈ layout_groups l → meets h k → h ∈ fam_groups f.
Proof.
  intros [Hfs Hd] Hf Hk (f' & Hf' & Hh)%elem_groups (t & H1 & H2).
  assert (f' = f) as ->; [|done]. eapply (family_unique l); [exact Hd|done|done| |].
  - by eapply fam_group_inside.
  - by eapply fam_group_inside.
Qed.

Lemma first_takes_family l g l1 f l2 : layout_wf l → l = l1 ++ f :: l2 →
  Forall (λ f, no_common (f_comps f) (norm g)) l1 → meets (f_comps f) (norm g) →
  first_takes (layout_groups l) g ↔ fam_taken f (norm g).
Proof.
  intros Hwf Hl H1 Hm. pose proof Hwf as [Hfs Hd]. rewrite Forall_forall in Hfs.
  assert (f ∈ l) as Hfl by (rewrite Hl; apply elem_of_app; right; by left).
  assert (family_wf f) as Hf by (by apply Hfs).
  assert (∀ h, h ∈ layout_groups l1 → ¬ touched (layout_groups l) g h) as Hno.
  { intros h (f1 & Hf1 & Hh)%elem_groups Ht. apply touched_family in Ht as (f' & Hf' & Hh' & Hm'); [|done].
    assert (f1 ∈ l) as Hf1l by (rewrite Hl; apply elem_of_app; by left).
    destruct (fam_group_some f1 h (Hfs _ Hf1l) Hh) as [t Ht].
    assert (f' = f1) as -> by (eapply (family_unique l); [exact Hd|done|done|by eapply fam_group_inside..]).
    rewrite Forall_forall in H1. apply meets_norm in Hm' as (t' & Ht1 & Ht2). by apply (H1 f1 Hf1 t'). }
  assert (∀ h, h ∈ fam_groups f → touched (layout_groups l) g h) as Hyes.
  { intros h Hh. apply touched_family; [done|]. exists f. split_and!; [done|done|by apply meets_norm]. }
  assert (layout_groups l = layout_groups l1 ++ fam_groups f ++ layout_groups l2) as Hlg.
  { by rewrite Hl, !layout_groups_eq, map_app, concat_app. }
  assert (∀ k fs, k ∈ fam_groups f → (∀ h, h ∈ fs ↔ h ∈ layout_groups l ∧ meets h k) →
    taken fs g ↔ fam_taken f (norm g)) as Htk.
  { intros k fs Hk Hfs'.
    assert (∀ h, h ∈ fs ↔ h ∈ fam_groups f) as Hff.
    { intros h. rewrite Hfs'. split.
      - intros [Hh Hmk]. by eapply same_family.
      - intros Hh. split; [apply elem_groups; by exists f|]. by eapply fam_groups_meet. }
    apply taken_fam; [done|]. intros h. unfold touched. setoid_rewrite Hff. split; [by intros [? _]|].
    intros Hh. split; [done|]. exists (f_comps f). split_and!; [by apply comps_group|by eapply fam_group_inside|].
    by apply meets_norm. }
  split.
  - intros (gs1 & k & gs2 & fs & Heq & Hn1 & Hk & Hfs' & Ht).
    assert (k ∈ fam_groups f) as Hkf; [|by apply (Htk k fs)].
    destruct (fam_groups f) as [|k0 r] eqn:Ef; [pose proof (comps_group f Hf) as Hc; rewrite Ef in Hc; by apply elem_of_nil in Hc|].
    assert (touched (layout_groups l) g k0) as Hk0 by (apply Hyes; by left).
    rewrite Hlg in Heq. simpl in Heq.
    assert (k = k0) as ->; [|by left].
    clear -Heq Hn1 Hk Hk0 Hno.
    revert gs1 Heq Hn1. generalize dependent (layout_groups l1).
    intros L HnoL. induction L as [|x L IH]; intros gs1 Heq Hn1.
    + destruct gs1 as [|y gs1]; simpl in Heq; [congruence|]. injection Heq as -> _. exfalso. apply (Hn1 y); [by left|done].
    + destruct gs1 as [|y gs1]; simpl in Heq.
      * injection Heq as -> _. exfalso. apply (HnoL k); [by left|done].
      * injection Heq as -> Heq. apply (IH (λ h Hh, HnoL h (elem_of_list_further _ _ _ Hh)) gs1 Heq).
        intros h Hh. apply Hn1. by right.
  - intros Ht. destruct (fam_groups f) as [|k0 r] eqn:Ef;
      [pose proof (comps_group f Hf) as Hc; rewrite Ef in Hc; by apply elem_of_nil in Hc|].
    exists (layout_groups l1), k0, (r ++ layout_groups l2), (fam_groups f). rewrite Ef. split_and!; [done|done|apply Hyes; by left| |].
    + intros h. split.
      * intros Hh. split; [apply elem_groups; exists f; by rewrite Ef|].
        eapply fam_groups_meet; [done|by rewrite Ef|rewrite Ef; by left].
      * intros [Hh Hmk]. rewrite <-Ef. eapply same_family; [done|done| |done|done]. rewrite Ef. by left.
    + apply (Htk k0); [by left| |done].
      intros h. split.
      * intros Hh. split; [apply elem_groups; exists f; by rewrite Ef|].
        eapply fam_groups_meet; [done|by rewrite Ef|rewrite Ef; by left].
      * intros [Hh Hmk]. rewrite <-Ef. eapply same_family; [done|done| |done|done]. rewrite Ef. by left.
Qed.

(** The families before a refusal keep what they took. *)
Lemma try_families_keeps l1 f l2 g f' : Forall (λ f, no_common (f_comps f) g) l1 → try_add_group f g = Ok (true, f') →
  ∃ l2', (try_families (l1 ++ f :: l2) g).2 = l1 ++ f' :: l2'.
Proof.
  intros H1 Hf. induction H1 as [|x l1 Hx H1 IH]; simpl.
  - rewrite Hf. destruct (try_families l2 g) as [[p n] l']. by exists l'.
  - rewrite (try_add_disjoint x g Hx). destruct IH as [l2' IH].
    destruct (try_families (l1 ++ f :: l2) g) as [[p n] l']. simpl in *. exists l2'. by rewrite IH.
Qed.

Lemma rejected_exactly gs l g : add_groups [] gs = Some l → (add_group_dyn l g).1 = true →
  (add_group_dyn l g).2 ≠ l ↔ small g ∧ first_takes (layout_groups l) g.
Proof.
  intros Hgs Hrej. pose proof (layout_built_wf gs l Hgs) as Hwf. pose proof Hwf as [Hfs Hd]. rewrite Forall_forall in Hfs.
  assert (2 ≤ length (norm g)) as Hgr.
  { unfold add_group_dyn in Hrej. change (dedup (sort_tids g)) with (norm g) in Hrej.
    destruct (Nat.leb_spec (length (norm g)) 1); [done|lia]. }
  destruct (decide (length (norm g) ≤ 16)) as [Hs|Hs].
  2:{ assert (add_group_dyn l g = (true, l)) as Hp.
      { unfold add_group_dyn. change (dedup (sort_tids g)) with (norm g).
        destruct (Nat.leb_spec (length (norm g)) 1); [lia|].
        change max_group_arity with 16. destruct (Nat.ltb_spec 16 (length (norm g))); [done|lia]. }
      rewrite Hp. simpl. split; [done|]. intros [Hsm _]. by apply small_norm in Hsm. }
  destruct (add_group_dyn_eq l g ltac:(lia)) as (He1 & He0 & Hep).
  assert (small g) as Hsm by (by apply small_norm).
  assert ((add_group_dyn l g).2 = (try_families l (norm g)).2) as Htf.
  { unfold add_group_dyn in *. change (dedup (sort_tids g)) with (norm g) in *.
    destruct (Nat.leb_spec (length (norm g)) 1); [lia|].
    change max_group_arity with 16 in *. destruct (Nat.ltb_spec 16 (length (norm g))); [lia|].
    destruct (try_families l (norm g)) as [[[] n] l']; [done|]. by destruct n as [|[|n]]. }
  destruct (meeting_families l (norm g)) as [Hnone|(l1 & f & l2 & Hl & H1 & Hm & Hrest)].
  { by rewrite (He0 l (try_families_none _ _ Hnone)) in Hrej. }
  rewrite (first_takes_family l g l1 f l2 Hwf Hl H1 Hm).
  assert (f ∈ l) as Hfl by (rewrite Hl; apply elem_of_app; right; by left).
  assert (family_wf f) as Hf by (by apply Hfs).
  destruct (try_add_exact f (norm g) Hf (norm_nodup g) Hgr Hm) as [(Hft & f' & Ht & Hres)|(Hnft & Ht)].
  - split; [done|]. intros _. rewrite Htf. destruct (try_families_keeps l1 f l2 (norm g) f' H1 Ht) as [l2' Hk].
    rewrite <-Hl in Hk. rewrite Hk, Hl. intros Heq%(inj (app l1)). injection Heq as Heq _.
    destruct Hres as [((h & Hh & Hst) & _)|[(_ & _ & g' & _ & Hfg)|(_ & _ & _ & _ & Hlen)]].
    + destruct Hrest as [H2|(f2 & Hf2 & (t & Ht1 & Ht2))].
      * destruct (try_families_one l1 f l2 (norm g) H1 H2) as [Ho1 _]. rewrite <-Hl in Ho1.
        by rewrite (He1 _ (Ho1 _ Ht)) in Hrej.
      * apply Hst in Ht2. apply (fam_group_inside f h Hh) in Ht2.
        rewrite Hl in Hd. unfold layout_tids in Hd. rewrite bind_app in Hd. apply NoDup_app in Hd as (_ & _ & Hd).
        simpl in Hd. apply NoDup_app in Hd as (_ & Hd & _). apply (Hd t Ht2). apply elem_of_list_bind. eauto.
    + rewrite Heq in Hfg. apply (f_equal length) in Hfg. rewrite app_length in Hfg. simpl in Hfg. lia.
    + rewrite Heq in Hlen. lia.
  - rewrite Htf, Hl, (try_families_fail l1 f l2 (norm g) H1); [|intros r; by rewrite Ht].
    simpl. split; [done|]. by intros [_ ?].
Qed.
