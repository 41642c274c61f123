(** One call of [add_group], exactly. *)
From stdpp Require Import sorting.
From Verif Require Import Base Lists MaskM LayoutM StorageM WorldM StepM Spec SpecMore SpecLayout SpecGroups
  LayoutProofs LayoutFacts.

Lemma types_of_nodup g : NoDup g → types_of g = length g.
Proof.
  intros H. unfold types_of. apply nodup_same_length; [apply NoDup_remove_dups|done|].
  intros x. apply elem_of_remove_dups.
Qed.
Lemma types_of_norm g : types_of g = length (norm g).
Proof.
  unfold types_of. apply nodup_same_length; [apply NoDup_remove_dups|apply norm_nodup|].
  intros x. by rewrite elem_of_remove_dups, norm_elem.
Qed.

Lemma part_none comps group prev arity :
  prev ≤ arity →
  forallb (λ c, negb (contains_tid group c)) (take (arity - prev) (drop prev comps)) = true ↔
  ∀ t, t ∈ take (arity - prev) (drop prev comps) → t ∉ group.
Proof.
  intros _. rewrite forallb_forall_elem. split; intros H t Ht; specialize (H t Ht).
  - by apply negb_true_iff, contains_tid_false in H.
  - by apply negb_true_iff, contains_tid_false.
Qed.

Lemma in_part {A} (comps : list A) prev arity x : prev ≤ arity →
  x ∈ take arity comps ↔ x ∈ take prev comps ∨ x ∈ take (arity - prev) (drop prev comps).
Proof.
  intros H. replace arity with (prev + (arity - prev)) at 1 by lia. rewrite <-take_take_drop. apply elem_of_app.
Qed.

(** The search, exactly. *)
Lemma search_exact comps group : NoDup comps → ∀ arities i prev,
  StronglySorted lt arities → Forall (λ a, prev < a ∧ a ≤ length comps) arities →
  inside (take prev comps) group →
  match try_search comps arities i prev group with
  | Ok FoundEqual => length group ∈ arities ∧ ∀ b, b ∈ arities → b ≤ length group → inside (take b comps) group
  | Ok (InsertAt k) => ∃ j a, k = i + j ∧ arities !! j = Some a ∧ length group < a ∧
      (∀ b, b ∈ arities → b < a → b < length group ∧ inside (take b comps) group) ∧
      (∀ t, t ∈ take a comps → t ∈ group → t ∈ take prev comps ∨ ∃ b, b ∈ arities ∧ b < length group ∧ t ∈ take b comps)
  | Ok AtEnd => ∀ b, b ∈ arities → b < length group ∧ inside (take b comps) group
  | Panic =>
      (∃ b, b ∈ arities ∧ b ≤ length group ∧ ¬ inside (take b comps) group) ∨
      (∃ a t, a ∈ arities ∧ length group < a ∧ (∀ b, b ∈ arities → b < a → b < length group) ∧
        t ∈ take a comps ∧ t ∈ group ∧ t ∉ take prev comps ∧ ∀ b, b ∈ arities → b < length group → t ∉ take b comps)
  | UB => False
  end.
Proof.
  intros Hnd. induction arities as [|a rest IH]; intros i prev Hs Hf Hp; simpl; [by intros b ?%elem_of_nil|].
  apply Forall_cons in Hf as [(H1 & H2) Hf]. inversion Hs as [|?? Hs' Hlt]; subst.
  rewrite slice_range_in by lia. simpl. rewrite Forall_forall in Hlt.
  assert (∀ b, b ∈ rest → a < b) as Hlt' by exact Hlt. clear Hlt. rename Hlt' into Hlt.
  destruct (Nat.compare_spec a (length group)) as [->|Hc|Hc].
  - destruct (forallb _ _) eqn:E.
    + split; [by left|]. intros b [->|Hb]%elem_of_cons Hl; [|specialize (Hlt b Hb); lia].
      exact (take_prev comps group prev _ (Nat.lt_le_incl _ _ H1) Hp E).
    + left. exists (length group). split_and!; [by left|done|]. intros Hin.
      rewrite part_inside in E; [done|lia|exact Hin].
  - destruct (forallb _ _) eqn:E.
    + assert (inside (take a comps) group) as Ha by (exact (take_prev comps group prev _ (Nat.lt_le_incl _ _ H1) Hp E)).
      assert (Forall (λ b, a < b ∧ b ≤ length comps) rest) as Hf'.
      { rewrite Forall_forall in Hf |- *. intros b Hb. specialize (Hf b Hb). specialize (Hlt b Hb). simpl in *. lia. }
      specialize (IH (S i) a Hs' Hf' Ha).
      destruct (try_search comps rest (S i) a group) as [[|k|]| |].
      * destruct IH as [I1 I2]. split; [by right|]. intros b [->|Hb]%elem_of_cons Hl; [done|by apply I2].
      * destruct IH as (j & c & -> & Hj & Hlc & I1 & I2). exists (S j), c. split_and!; [lia|done|done| |].
        -- intros b [->|Hb]%elem_of_cons Hl; [done|by apply I1].
        -- intros t Ht Hg. right. destruct (I2 t Ht Hg) as [?|(b & Hb & ? & ?)]; [exists a; split; [by left|done]|].
           exists b. split; [by right|done].
      * intros b [->|Hb]%elem_of_cons; [done|by apply IH].
      * destruct IH as [(b & Hb & Hl & Hi)|(c & t & Hin & Hlc & I1 & I2 & I3 & I4 & I5)].
        -- left. exists b. split; [by right|done].
        -- right. exists c, t. split_and!; [by right|done| |done|done| |].
           ++ intros b [->|Hb]%elem_of_cons Hl; [done|by apply I1].
           ++ intros Ht. apply I4. rewrite (in_part comps prev a) by lia. by left.
           ++ intros b [->|Hb]%elem_of_cons Hl; [done|by apply I5].
      * done.
    + left. exists a. split_and!; [by left|lia|]. intros Hin. rewrite part_inside in E; [done|lia|exact Hin].
  - destruct (forallb _ _) eqn:E.
    + rewrite part_none in E by lia. exists 0, a. split_and!; [lia|done|done| |].
      * intros b [->|Hb]%elem_of_cons Hl; [lia|specialize (Hlt b Hb); lia].
      * intros t Ht Hg. left. apply (in_part comps prev a t (Nat.lt_le_incl _ _ H1)) in Ht as [?|Ht]; [done|]. by destruct (E t Ht).
    + right. apply forallb_exists_false in E as (t & Ht & Hc').
      apply negb_false_iff, contains_tid_true in Hc'. exists a, t. split_and!; [by left|done| | |done| |].
      * intros b [->|Hb]%elem_of_cons Hl; [lia|specialize (Hlt b Hb); lia].
      * apply (in_part comps prev a); [lia|by right].
      * intros Hin. apply elem_of_take in Hin as (x & Hx & Hxl). apply elem_of_take in Ht as (y & Hy & Hyl).
        rewrite lookup_drop in Hy. pose proof (NoDup_lookup _ _ _ _ Hnd Hx Hy). lia.
      * intros b [->|Hb]%elem_of_cons Hl; [lia|specialize (Hlt b Hb); lia].
Qed.

(** ** One family *)

Lemma fam_group_in f h : h ∈ fam_groups f ↔ ∃ a, a ∈ f_arities f ∧ h = take a (f_comps f).
Proof.
  unfold fam_groups. rewrite elem_of_list_fmap. split; intros (a & H1 & H2); exists a; done.
Qed.

Lemma fam_group_len f a : family_wf f → a ∈ f_arities f → length (take a (f_comps f)) = a.
Proof. intros Hf Ha. destruct (arities_le f a Hf Ha). by apply take_length_le. Qed.

Lemma fam_group_nodup f h : family_wf f → h ∈ fam_groups f → NoDup h.
Proof.
  intros [Hnd _ _ _] (a & _ & ->)%fam_group_in.
  rewrite <-(take_drop a (f_comps f)) in Hnd. by apply NoDup_app in Hnd as [? _].
Qed.

Record fam_taken (f : family) (g : list tid) : Prop := {
  ft_smaller : ∀ h, h ∈ fam_groups f → length h ≤ length g → inside h g;
  ft_larger : ∀ h, h ∈ fam_groups f → length g < length h →
    (∀ k, k ∈ fam_groups f → length k < length h → length k < length g) →
    ∀ t, t ∈ h → t ∈ g → ∃ k, k ∈ fam_groups f ∧ length k < length g ∧ t ∈ k
}.

Lemma take_inside {A} (l : list A) a b x : a ≤ b → x ∈ take a l → x ∈ take b l.
Proof. intros H (i & Hi & Hl)%elem_of_take. apply elem_of_take. exists i. split; [done|lia]. Qed.

Lemma try_add_exact f g : family_wf f → NoDup g → 2 ≤ length g → meets (f_comps f) g →
  (fam_taken f g ∧ ∃ f', try_add_group f g = Ok (true, f') ∧
    ((∃ h, h ∈ fam_groups f ∧ same_types h g) ∧ f' = f ∨
     no_such (fam_groups f) g ∧ (∀ h, h ∈ fam_groups f → length h ≤ length g) ∧
       (∃ g', same_types g' g ∧ fam_groups f' = fam_groups f ++ [g']) ∨
     no_such (fam_groups f) g ∧ (∃ h, h ∈ fam_groups f ∧ length g < length h) ∧
       no_such (fam_groups f') g ∧ f_comps f' ≡ₚ f_comps f ∧ length (fam_groups f') = S (length (fam_groups f)))) ∨
  (¬ fam_taken f g ∧ try_add_group f g = Panic).
Proof.
  intros Hf Hg Hlen (t & Ht1 & Ht2). unfold try_add_group. rewrite (not_disjoint f g t) by done.
  pose proof (arities_bounds f Hf) as Hb. pose proof Hf as [Hnd Hs Hm [pre Hl]].
  assert (Forall (λ a, 0 < a ∧ a ≤ length (f_comps f)) (f_arities f)) as Hb'.
  { apply Forall_forall. intros a Ha. destruct (arities_le f a Hf Ha). lia. }
  assert (inside (take 0 (f_comps f)) g) as H0 by (rewrite take_0; by intros ? ?%elem_of_nil).
  pose proof (search_exact (f_comps f) g Hnd (f_arities f) 0 0 Hs Hb' H0) as Hex.
  assert (∀ h, h ∈ fam_groups f → same_types h g → length h = length g) as Hsl.
  { intros h Hh Hst. apply nodup_same_length; [by eapply fam_group_nodup|done|done]. }
  destruct (try_search _ _ _ _ _) as [[|k|]| |]; simpl.
  - left. destruct Hex as [He Hi]. split.
    + split.
      * intros h (a & Ha & ->)%fam_group_in. rewrite fam_group_len by done. by apply Hi.
      * intros h (a & Ha & ->)%fam_group_in. rewrite fam_group_len by done. intros Hgt Hno.
        specialize (Hno (take (length g) (f_comps f))). rewrite fam_group_len in Hno by done.
        assert (length g < length g); [|lia]. apply Hno; [|done]. apply fam_group_in. eauto.
    + eexists. split; [done|]. left. split; [|done]. exists (take (length g) (f_comps f)).
      assert (take (length g) (f_comps f) ∈ fam_groups f) as Hin by (apply fam_group_in; eauto).
      split; [done|]. apply nodup_inside_same; [by eapply fam_group_nodup|done|by apply Hi|].
      by rewrite fam_group_len.
  - left. destruct Hex as (j & a & -> & Hj & Hlt & Hi & Hsh). simpl. rewrite Hj.
    pose proof (elem_of_list_lookup_2 _ _ _ Hj) as Ha. destruct (arities_le f a Hf Ha) as [_ Hal].
    destruct (Nat.leb_spec a (length (f_comps f))); [|lia].
    assert (no_such (fam_groups f) g) as Hns.
    { intros h Hh Hst. pose proof (Hsl h Hh Hst) as He. apply fam_group_in in Hh as (b & Hbin & ->).
      rewrite fam_group_len in He by done. destruct (Hi b Hbin); lia. }
    split; [split|].
    + intros h (b & Hbin & ->)%fam_group_in. rewrite fam_group_len by done. intros Hle.
      apply Hi; [done|lia].
    + intros h (b & Hbin & ->)%fam_group_in. rewrite fam_group_len by done. intros Hgt Hno x Hx Hxg.
      assert (b ≤ a) as Hba.
      { destruct (decide (a < b)); [|lia]. exfalso. specialize (Hno (take a (f_comps f))).
        rewrite fam_group_len in Hno by done.
        assert (a < length g); [|lia]. apply Hno; [|done]. apply fam_group_in. eauto. }
      destruct (Hsh x) as [Hin|(c & Hc & Hcl & Hxc)]; [by eapply take_inside|done| |].
      * by rewrite take_0 in Hin; apply elem_of_nil in Hin.
      * exists (take c (f_comps f)). rewrite fam_group_len by done. split_and!; [|done|done]. apply fam_group_in. eauto.
    + eexists. split; [done|]. right. right.
      assert (Hperm : sort_by_bool (contains_tid g) (take a (f_comps f)) ++ drop a (f_comps f) ≡ₚ f_comps f).
      { rewrite sort_by_bool_perm. by rewrite take_drop. }
      split_and!; [done| | |done|].
      * exists (take a (f_comps f)). rewrite fam_group_len by done. split; [|done]. apply fam_group_in. eauto.
      * intros h Hh Hst. apply fam_group_in in Hh as (b & Hbin & ->). simpl in *.
        assert (inside g (take (length g - 1) (f_comps f))) as Hin.
        { intros x Hx.
          assert (b = length g) as ->.
          { rewrite <-(take_length_le (sort_by_bool (contains_tid g) (take a (f_comps f)) ++ drop a (f_comps f)) b).
            - apply nodup_same_length; [|done|done]. pose proof Hnd as Hnd'. rewrite <-Hperm in Hnd'.
              rewrite <-(take_drop b (sort_by_bool _ _ ++ _)) in Hnd'. by apply NoDup_app in Hnd' as [? _].
            - rewrite (Permutation_length Hperm). apply elem_of_app in Hbin as [Hb1|[->|Hb2]%elem_of_cons].
              + apply elem_of_take in Hb1 as (? & ?%elem_of_list_lookup_2 & _). by apply (arities_le f b Hf).
              + lia.
              + apply (arities_le f b Hf). apply elem_of_list_lookup in Hb2 as (i & Hi2). rewrite lookup_drop in Hi2.
                by eapply elem_of_list_lookup_2. }
          apply Hst in Hx as Hx'. rewrite take_app_le in Hx'.
          2:{ rewrite (Permutation_length (sort_by_bool_perm _ _)), take_length. lia. }
          assert (x ∈ take a (f_comps f)) as Hxa.
          { rewrite <-(sort_by_bool_perm (contains_tid g)). apply elem_of_take in Hx' as (? & ?%elem_of_list_lookup_2 & _). done. }
          destruct (Hsh x Hxa Hx) as [H1|(c & Hc & Hcl & Hxc)].
          - by rewrite take_0 in H1; apply elem_of_nil in H1.
          - eapply take_inside; [|exact Hxc]. lia. }
        apply nodup_inside_length in Hin; [|done]. rewrite take_length in Hin. lia.
      * unfold fam_groups. simpl. rewrite !map_length, app_length. simpl. rewrite take_length, drop_length.
        apply lookup_lt_Some in Hj. lia.
  - left. assert (inside (f_comps f) g) as Hin.
    { destruct (Hex (length (f_comps f))) as [_ Hi]; [rewrite Hl; apply elem_of_app; right; by left|].
      by rewrite firstn_all in Hi. }
    split; [split|].
    + intros h (a & Ha & ->)%fam_group_in _. by apply Hex.
    + intros h (a & Ha & ->)%fam_group_in. rewrite fam_group_len by done. intros Hgt. destruct (Hex a Ha). lia.
    + eexists. split; [done|]. right. left.
      destruct (push_missing_spec g (f_comps f) Hnd) as (ext & -> & Hnd' & Hext).
      assert (same_types (f_comps f ++ ext) g) as Hsame.
      { intros x. rewrite elem_of_app, Hext. destruct (decide (x ∈ f_comps f)) as [Hx|Hx]; [|tauto].
        split; [intros _; by apply Hin|by left]. }
      assert (length g = length (f_comps f ++ ext)) as Hgl.
      { apply nodup_same_length; [done|done|]. intros x. symmetry. apply Hsame. }
      split_and!.
      * intros h Hh Hst. pose proof (Hsl h Hh Hst) as He. apply fam_group_in in Hh as (b & Hbin & ->).
        rewrite fam_group_len in He by done. destruct (Hex b Hbin). lia.
      * intros h (a & Ha & ->)%fam_group_in. rewrite fam_group_len by done. destruct (Hex a Ha). lia.
      * exists (f_comps f ++ ext). split; [done|]. unfold fam_groups. simpl. rewrite map_app. simpl. rewrite Hgl, firstn_all.
        f_equal. apply map_ext_in. intros a Ha%elem_of_list_In. destruct (arities_le f a Hf Ha). by rewrite take_app_le.
  - right. split; [|done]. intros [Hsm Hla].
    destruct Hex as [(b & Hbin & Hble & Hn)|(a & x & Ha & Hgt & Hno & Hx & Hxg & _ & Hxn)].
    + apply Hn, Hsm; [apply fam_group_in; eauto|by rewrite fam_group_len].
    + destruct (Hla (take a (f_comps f))) with x as (k & (c & Hc & ->)%fam_group_in & Hkl & Hxk); try done.
      * apply fam_group_in. eauto.
      * by rewrite fam_group_len.
      * intros k (c & Hc & ->)%fam_group_in. rewrite !fam_group_len by done. by apply Hno.
      * rewrite fam_group_len in Hkl by done. by apply (Hxn c).
  - done.
Qed.

(** ** The whole layout *)

Lemma family_unique (l : layout) f f' t : NoDup (l ≫= f_comps) → f ∈ l → f' ∈ l → t ∈ f_comps f → t ∈ f_comps f' → f = f'.
Proof.
  induction l as [|x l IH]; simpl; intros Hnd Hf Hf' Ht Ht'; [by apply elem_of_nil in Hf|].
  apply NoDup_app in Hnd as (_ & Hd & Hnd).
  apply elem_of_cons in Hf as [->|Hf]; apply elem_of_cons in Hf' as [->|Hf']; [done| | |by apply IH].
  - destruct (Hd t Ht). apply elem_of_list_bind. eauto.
  - destruct (Hd t Ht'). apply elem_of_list_bind. eauto.
Qed.

Lemma fam_group_inside f h : h ∈ fam_groups f → inside h (f_comps f).
Proof. intros (a & _ & ->)%fam_group_in t (i & Hi%elem_of_list_lookup_2 & _)%elem_of_take. done. Qed.

Lemma fam_group_some f h : family_wf f → h ∈ fam_groups f → ∃ t, t ∈ h.
Proof.
  intros Hf (a & Ha & ->)%fam_group_in. destruct (arities_le f a Hf Ha) as [H1 H2].
  destruct (f_comps f) as [|t r]; [simpl in H2; lia|]. exists t. destruct a; [lia|]. by left.
Qed.

Lemma touched_family l g h : layout_wf l →
  touched (layout_groups l) g h ↔ ∃ f, f ∈ l ∧ h ∈ fam_groups f ∧ meets (f_comps f) g.
Proof.
  intros Hwf. pose proof Hwf as [Hf Hd]. rewrite Forall_forall in Hf. split.
  - intros ((f & Hin & Hh)%elem_groups & k & (f2 & Hin2 & Hk)%elem_groups & Hi & t & Ht & Htg).
    destruct (fam_group_some f h) as (x & Hx); [by apply Hf|done|].
    assert (f = f2) as <-.
    { eapply (family_unique l f f2 x); try done; [by eapply fam_group_inside|].
      eapply fam_group_inside; [exact Hk|]. by apply Hi. }
    exists f. split_and!; [done|done|]. exists t. split; [|done]. by eapply fam_group_inside.
  - intros (f & Hin & Hh & Hm). split; [apply elem_groups; eauto|]. exists (f_comps f). split_and!; [|by apply fam_group_inside|done].
    by apply family_group.
Qed.

Lemma meeting_families (l : layout) g :
  Forall (λ f, no_common (f_comps f) g) l ∨
  ∃ l1 f l2, l = l1 ++ f :: l2 ∧ Forall (λ f, no_common (f_comps f) g) l1 ∧ meets (f_comps f) g ∧
    (Forall (λ f, no_common (f_comps f) g) l2 ∨ ∃ f2, f2 ∈ l2 ∧ meets (f_comps f2) g).
Proof.
  assert (∀ l : layout, Forall (λ f, no_common (f_comps f) g) l ∨
    ∃ l1 f l2, l = l1 ++ f :: l2 ∧ Forall (λ f, no_common (f_comps f) g) l1 ∧ meets (f_comps f) g) as Hfirst.
  { clear l. induction l as [|f l IH]; [by left; constructor|].
    destruct (overlap_dec (f_comps f) g) as [Hm|Hn].
    - right. exists [], f, l. by split_and!; [|constructor|].
    - destruct IH as [IH|(l1 & f1 & l2 & -> & H1 & H2)]; [left; by constructor|].
      right. exists (f :: l1), f1, l2. split_and!; [done|by constructor|done]. }
  destruct (Hfirst l) as [?|(l1 & f & l2 & -> & H1 & H2)]; [by left|]. right. exists l1, f, l2. split_and!; try done.
  destruct (Hfirst l2) as [?|(l3 & f2 & l4 & -> & _ & H3)]; [by left|right]. exists f2. split; [|done].
  apply elem_of_app. right. by left.
Qed.

Lemma try_families_some l g f : f ∈ l → meets (f_comps f) g → (try_families l g).1.1 = true ∨ 1 ≤ (try_families l g).1.2.
Proof.
  induction l as [|x l IH]; intros Hin Hm; [by apply elem_of_nil in Hin|]. simpl.
  destruct (try_add_group x g) as [[b x']| |] eqn:E; [|by left|by left].
  apply elem_of_cons in Hin as [<-|Hin].
  - destruct (try_families l g) as [[p n] l']. simpl. right. destruct b; [lia|].
    apply try_add_false in E. destruct Hm as (t & H1 & H2). by destruct (E t H1).
  - specialize (IH Hin Hm). destruct (try_families l g) as [[p n] l']. simpl in *. destruct b; lia || tauto.
Qed.

Lemma try_families_two l1 f l2 g f2 : meets (f_comps f) g → f2 ∈ l2 → meets (f_comps f2) g →
  (try_families (l1 ++ f :: l2) g).1.1 = true ∨ 2 ≤ (try_families (l1 ++ f :: l2) g).1.2.
Proof.
  intros Hm Hin Hm2. induction l1 as [|x l1 IH]; simpl.
  - destruct (try_add_group f g) as [[b f']| |] eqn:E; [|by left|by left].
    destruct b.
    + pose proof (try_families_some l2 g f2 Hin Hm2) as H. destruct (try_families l2 g) as [[p n] l']. simpl in *.
      destruct H; [by left|right; lia].
    + apply try_add_false in E. destruct Hm as (t & H1 & H2). by destruct (E t H1).
  - destruct (try_add_group x g) as [[b x']| |]; [|by left|by left].
    destruct (try_families (l1 ++ f :: l2) g) as [[p n] l']. simpl in *. destruct IH; [by left|right]. destruct b; lia.
Qed.

Lemma add_group_exact l g : layout_wf l → is_group g →
  ((add_group_dyn l g).1 = false ↔ small g ∧ taken (layout_groups l) g) ∧
  ∀ l', add_group_dyn l g = (false, l') →
    ((∃ h, h ∈ layout_groups l ∧ same_types h g) → l' = l) ∧
    (no_such (layout_groups l) g → (∀ h, touched (layout_groups l) g h → types_of h ≤ types_of g) →
      ∃ g', same_types g' g ∧ layout_groups l' ≡ₚ layout_groups l ++ [g']) ∧
    (no_such (layout_groups l) g → (∃ h, touched (layout_groups l) g h ∧ types_of g < types_of h) →
      no_such (layout_groups l') g ∧ length (layout_groups l') = S (length (layout_groups l))).
Proof.
  intros Hwf Hgr. pose proof Hwf as [Hfs Hd]. rewrite Forall_forall in Hfs. apply is_group_norm in Hgr.
  assert (∀ h, h ∈ layout_groups l → types_of h = length h) as Hty.
  { intros h (f & Hf & Hh)%elem_groups. apply types_of_nodup. eapply fam_group_nodup; [by apply Hfs|done]. }
  assert (∀ h, meets h g ↔ meets h (norm g)) as Hmn.
  { intros h. split; intros (t & H1 & H2); exists t; by rewrite norm_elem in *. }
  destruct (decide (length (norm g) ≤ 16)) as [Hs|Hs].
  2:{ assert (add_group_dyn l g = (true, l)) as Hp.
      { unfold add_group_dyn. change (dedup (sort_tids g)) with (norm g).
        destruct (Nat.leb_spec (length (norm g)) 1); [lia|].
        change max_group_arity with 16. destruct (Nat.ltb_spec 16 (length (norm g))); [done|lia]. }
      rewrite Hp. simpl. split; [split; [done|]|done]. intros [Hsm _]. by apply small_norm in Hsm. }
  destruct (add_group_dyn_eq l g ltac:(lia)) as (He1 & He0 & Hep).
  assert (small g) as Hsm by (by apply small_norm).
  destruct (meeting_families l (norm g)) as [Hnone|(l1 & f & l2 & Hl & H1 & Hm & Hrest)].
  - assert (∀ h, ¬ touched (layout_groups l) g h) as Hnt.
    { intros h (f & Hf & _ & (t & Ht & Htg)%Hmn)%touched_family; [|done]. rewrite Forall_forall in Hnone.
      by apply (Hnone f Hf t). }
    pose proof (He0 l (try_families_none _ _ Hnone)) as Hr. rewrite Hr. simpl. split.
    { split; [intros _; split; [done|]|done]. split.
      - intros h k Hh. by destruct (Hnt h).
      - intros h Hh. by destruct (Hnt h).
      - intros h (Hh & _). by destruct (Hnt h). }
    intros l' [= <-]. split_and!.
    + intros (h & Hh & Hst). exfalso. apply (Hnt h). split; [done|]. exists h. split_and!; [done|by intros ?|].
      destruct (norm g) as [|t r] eqn:En; [simpl in Hgr; lia|]. exists t.
      assert (t ∈ g) by (apply norm_elem; rewrite En; by left). split; [by apply Hst|done].
    + intros _ _. exists (norm g). split; [apply norm_same|]. rewrite !layout_groups_eq, map_app, concat_app. simpl.
      unfold fam_groups at 2. simpl. by rewrite firstn_all.
    + intros _ (h & Hh & _). by destruct (Hnt h).
  - assert (∀ f', f' ∈ l → meets (f_comps f') (norm g) → f' = f ∨ f' ∈ l2) as Hothers.
    { intros f' Hin (t & Ht & Htg). rewrite Hl in Hin. apply elem_of_app in Hin as [Hin|[->|Hin]%elem_of_cons]; [|by left|by right].
      rewrite Forall_forall in H1. by destruct (H1 f' Hin t Ht). }
    assert (f ∈ l) as Hfl by (rewrite Hl; apply elem_of_app; right; by left).
    assert (family_wf f) as Hf by (by apply Hfs).
    destruct Hrest as [H2|(f2 & Hf2 & Hm2)].
    + assert (∀ h, touched (layout_groups l) g h ↔ h ∈ fam_groups f) as Htf.
      { intros h. rewrite touched_family by done. split.
        - intros (f' & Hin & Hh & Hmm). apply Hmn in Hmm as Hmm'. destruct (Hothers f' Hin Hmm') as [->|Hin2]; [done|].
          rewrite Forall_forall in H2. destruct Hmm' as (t & Ht & Htg). by destruct (H2 f' Hin2 t Ht).
        - intros Hh. exists f. split_and!; [done|done|]. by apply Hmn. }
      assert (∀ h, h ∈ fam_groups f → types_of h = length h) as Hty'.
      { intros h Hh. apply types_of_nodup. by eapply fam_group_nodup. }
      assert (taken (layout_groups l) g ↔ fam_taken f (norm g)) as Htk.
      { split; intros Hx.
        - destruct Hx as [_ X2 X3]. split.
          + intros h Hh Hle t Ht. apply norm_elem. apply (X2 h); [by apply Htf| |done]. by rewrite (Hty' h Hh), (types_of_norm g).
          + intros h Hh Hgt Hno t Ht Htg. destruct (X3 h) with t as (k & Hk & Hkl & Hkt); try done.
            * split_and!; [by apply Htf|by rewrite (Hty' h Hh), (types_of_norm g)|].
              intros k Hk%Htf. rewrite (Hty' k Hk), (Hty' h Hh), (types_of_norm g). by apply Hno.
            * by apply norm_elem.
            * apply Htf in Hk. exists k. by rewrite (Hty' k Hk), (types_of_norm g) in Hkl.
        - destruct Hx as [X2 X3]. split.
          + intros h k Hh%Htf Hk%Htf. apply fam_group_in in Hh as (a & Ha & ->). apply fam_group_in in Hk as (b & Hb & ->).
            destruct (arities_le f a Hf Ha), (arities_le f b Hf Hb).
            destruct (f_comps f) as [|t r]; [simpl in *; lia|]. exists t. destruct a, b; try lia. split; by left.
          + intros h Hh%Htf. rewrite (Hty' h Hh), (types_of_norm g). intros Hle t Ht. apply norm_elem. by apply (X2 h).
          + intros h (Hh%Htf & Hgt & Hno) t Ht Htg. rewrite (Hty' h Hh), (types_of_norm g) in Hgt.
            destruct (X3 h Hh Hgt) with t as (k & Hk & Hkl & Hkt); [| |by apply norm_elem|].
            * intros k Hk Hkl. specialize (Hno k). rewrite (Hty' k Hk), (Hty' h Hh), (types_of_norm g) in Hno.
              apply Hno; [by apply Htf|done].
            * done.
            * exists k. rewrite (Hty' k Hk), (types_of_norm g). split; [by apply Htf|done]. }
      rewrite Htk. destruct (try_families_one l1 f l2 (norm g) H1 H2) as [Ho1 Ho2]. rewrite <-Hl in Ho1, Ho2.
      assert (∀ f', layout_groups (l1 ++ f' :: l2) ≡ₚ fam_groups f' ++ (layout_groups l1 ++ layout_groups l2)) as Hlg.
      { intros f'. rewrite !layout_groups_eq, map_app, concat_app. simpl. rewrite Permutation_app_comm, <-!app_assoc.
        f_equiv. by rewrite Permutation_app_comm. }
      assert (∀ h, h ∈ layout_groups l → same_types h g → h ∈ fam_groups f) as Hsf.
      { intros h Hh Hst. apply Htf. split; [done|]. exists h. split_and!; [done|by intros ?|].
        destruct (norm g) as [|t r] eqn:En; [simpl in Hgr; lia|]. exists t.
        assert (t ∈ g) by (apply norm_elem; rewrite En; by left). split; [by apply Hst|done]. }
      assert (∀ h, same_types h (norm g) ↔ same_types h g) as Hsn.
      { intros h. split; intros Hst t; rewrite (Hst t); [|symmetry]; apply norm_elem. }
      destruct (try_add_exact f (norm g) Hf (norm_nodup g) Hgr Hm) as [(Hft & f' & Ht & Hres)|(Hnft & Ht)].
      * pose proof (He1 _ (Ho1 _ Ht)) as Hr. rewrite Hr. simpl. split; [done|]. intros l' [= <-].
        destruct Hres as [((h & Hh & Hst) & ->)|[(Hns & Hle & g' & Hst & Hfg)|(Hns & (h & Hh & Hgt) & Hns' & _ & Hlen)]].
        -- assert (¬ no_such (layout_groups l) g) as Hno.
           { intros Hx. apply (Hx h); [|by apply Hsn]. apply elem_groups. eauto. }
           by split_and!.
        -- split_and!.
           ++ intros (h & Hh & Hst'). destruct (Hns h); [by apply Hsf|by apply Hsn].
           ++ intros _ _. exists g'. split; [by apply Hsn|]. rewrite Hlg, Hfg, Hl, Hlg, <-!app_assoc.
              apply Permutation_app_head. rewrite (app_assoc (layout_groups l1)). apply Permutation_app_comm.
           ++ intros _ (h & Hh%Htf & Hgt). rewrite (Hty' h Hh), (types_of_norm g) in Hgt. specialize (Hle h Hh). lia.
        -- split_and!.
           ++ intros (h2 & Hh2 & Hst'). destruct (Hns h2); [by apply Hsf|by apply Hsn].
           ++ intros _ Hle. specialize (Hle h). rewrite (Hty' h Hh), (types_of_norm g) in Hle. specialize (Hle ltac:(by apply Htf)). lia.
           ++ intros Hnl _. split.
              ** intros k Hk Hst. rewrite Hlg in Hk. apply elem_of_app in Hk as [Hk|Hk].
                 { apply (Hns' k Hk). by apply Hsn. }
                 apply (Hnl k); [|done]. rewrite Hl, Hlg. apply elem_of_app. by right.
              ** rewrite Hl, !(Permutation_length (Hlg _)), !(app_length (fam_groups _)). lia.
      * specialize (Hep (Ho2 Ht)). destruct (add_group_dyn l g) as [p l'']. simpl in *. subst p. split; [|done].
        split; [done|]. by intros [_ ?].
    + assert (¬ taken (layout_groups l) g) as Hnt.
      { intros [X _ _]. destruct (X (f_comps f) (f_comps f2)) as (t & Ht & Ht2).
        - apply touched_family; [done|]. exists f. split_and!; [done|by apply comps_group|by apply Hmn].
        - apply touched_family; [done|]. assert (f2 ∈ l) by (rewrite Hl; apply elem_of_app; right; by right).
          exists f2. split_and!; [done|apply comps_group; by apply Hfs|by apply Hmn].
        - rewrite Hl in Hd. unfold layout_tids in Hd. rewrite bind_app in Hd. apply NoDup_app in Hd as (_ & _ & Hd).
          simpl in Hd. apply NoDup_app in Hd as (_ & Hd & _). apply (Hd t Ht). apply elem_of_list_bind. eauto. }
      assert ((add_group_dyn l g).1 = true) as Hp.
      { pose proof (try_families_two l1 f l2 (norm g) f2 Hm Hf2 Hm2) as Htwo. rewrite <-Hl in Htwo.
        destruct Htwo as [?|Hn]; [by apply Hep|].
        unfold add_group_dyn. change (dedup (sort_tids g)) with (norm g).
        destruct (Nat.leb_spec (length (norm g)) 1); [lia|].
        change max_group_arity with 16. destruct (Nat.ltb_spec 16 (length (norm g))); [lia|].
        destruct (try_families l (norm g)) as [[p n] l']. simpl in Hn. destruct p; [done|].
        destruct n as [|[|n]]; [lia|lia|done]. }
      destruct (add_group_dyn l g) as [p l'']. simpl in *. subst p. split; [|done]. split; [done|]. by intros [_ ?].
Qed.

Lemma add_group_call gs l g : add_groups [] gs = Some l → is_group g →
  ((add_group_dyn l g).1 = false ↔ small g ∧ taken (layout_groups l) g) ∧
  ∀ l', add_group_dyn l g = (false, l') →
    ((∃ h, h ∈ layout_groups l ∧ same_types h g) → l' = l) ∧
    (no_such (layout_groups l) g → (∀ h, touched (layout_groups l) g h → types_of h ≤ types_of g) →
      ∃ g', same_types g' g ∧ layout_groups l' ≡ₚ layout_groups l ++ [g']) ∧
    (no_such (layout_groups l) g → (∃ h, touched (layout_groups l) g h ∧ types_of g < types_of h) →
      no_such (layout_groups l') g ∧ length (layout_groups l') = S (length (layout_groups l))).
Proof. intros H. by apply add_group_exact, (layout_built_wf gs). Qed.
