(** When a query is answered from a group. *)
From Verif Require Import Base Lists SparseVecM EntityM CssM MaskM LayoutM GroupM StorageM WorldM QueryM StepM
  SparseProofs CssProofs MaskProofs GroupProofs Spec SpecMore SpecLayout SpecQuery SpecDense EntityProofs LayoutProofs
  StorageProofs StoreOps LayoutOps WorldProofs QueryProofs QueryRange QueryIter History Grouped SliceFacts IterFacts.

Lemma bits_eq a b : (∀ j, bit a j = bit b j) → a = b.
Proof.
  intros H. apply N.bits_inj. intros n. specialize (H (N.to_nat n)). unfold bit in H. by rewrite N2Nat.id in H.
Qed.

(** The number of types a group info stands for. *)
Definition qsize (q : qinfo) (n : nat) : Prop :=
  match q with QEmpty => n = 0 | QOne _ => n = 1 | QMany _ => 2 ≤ n end.

Lemma add_view_size q v q' n : qsize q n → add_view q v = Some q' → qsize q' (n + 1).
Proof.
  destruct q as [|old|old]; simpl; intros Hq H.
  - inversion H; subst. simpl. lia.
  - destruct (vi_info old); [|done]. destruct (vi_info v); [|done]. destruct (add_group _ _); [|done].
    inversion H; subst. simpl. lia.
  - destruct (vi_info v); [|done]. destruct (add_group _ _); [|done]. inversion H; subst. simpl. lia.
Qed.

Lemma add_query_size a b c n m : qsize a n → qsize b m → add_query a b = Some c → qsize c (n + m).
Proof.
  destruct a, b; simpl; intros Ha Hb H; try (inversion H; subst; simpl; lia);
    repeat match type of H with
      | (match ?x with _ => _ end) = _ => destruct x; simpl in H
      | mbind _ ?x = _ => destruct x; simpl in H
      | _ <$> ?x = _ => destruct x; simpl in H
    end; simplify_eq; simpl; lia.
Qed.

Section dense.
  Context (s : cstore) (ds : list dense) (am : amap) (reg grp : gset tid) (loose : gset entity).
  Context (HI : cinv s ds am reg grp loose).
  Local Notation ms := (g_meta <$> cs_groups s).
  Local Notation mt := (cs_meta s).

  Local Lemma HW : metas_wf ms (length ds).
  Proof using HI. apply (gi_wf _ _ (ci_ginv _ _ _ _ _ _ HI)). Qed.
  Local Lemma HS : static ms mt (length ds).
  Proof using HI. apply HI. Qed.

  (** The group infos of the types of a group. *)
  Lemma covered_info k gm t m : ms !! k = Some gm → mt !! t = Some m → covers gm (m_index m) →
    ∃ gi gf, info_of s t gi ∧ ms !! gi_start gi = Some gf ∧ g_start gf = g_start gm ∧ g_nstart gf = g_start gf ∧
      gi_end gi ≤ S k ∧ (g_nstart gm ≤ m_index m → gi_end gi = S k).
  Proof using HI.
    intros Hk Ht Hc. pose proof (st_info _ _ _ HS t m Ht) as Hi. destruct (m_info m) as [gi|] eqn:Hmi.
    2:{ by destruct (Hi k gm Hk). }
    destruct Hi as (k' & gf & gk & Hf & Hk' & He & Hle & Hsf & Hn & H1 & H2 & _).
    assert (Hinf : info_of s t gi) by (by exists m).
    exists gi, gf. pose proof (mw_range _ _ HW _ _ Hk) as (?&?&?). pose proof (mw_range _ _ HW _ _ Hk') as (?&?&?).
    unfold covers in Hc. destruct (Nat.lt_trichotomy k' k) as [Hlt|[->|Hlt]].
    - destruct (mw_order _ _ HW k' k gk gm Hlt Hk' Hk) as [[? ?]|?]; [|lia]. split_and!; [done|done|lia|done|lia|lia].
    - assert (gk = gm) as -> by congruence. split_and!; [done|done|lia|done|lia|lia].
    - destruct (mw_order _ _ HW k k' gm gk Hlt Hk Hk') as [[? ?]|?]; lia.
  Qed.

  Lemma first_unique j k mj mk : ms !! j = Some mj → ms !! k = Some mk → g_start mj = g_start mk →
    g_nstart mj = g_start mj → g_nstart mk = g_start mk → j = k.
  Proof using HI.
    intros Hj Hk H1 H2 H3. pose proof (mw_range _ _ HW _ _ Hj) as (?&?&?). pose proof (mw_range _ _ HW _ _ Hk) as (?&?&?).
    destruct (Nat.lt_trichotomy j k) as [Hlt|[->|Hlt]]; [|done|].
    - destruct (mw_order _ _ HW j k mj mk Hlt Hj Hk) as [[? ?]|?]; lia.
    - destruct (mw_order _ _ HW k j mk mj Hlt Hk Hj) as [[? ?]|?]; lia.
  Qed.

  (** The types [T] have group infos of one family. *)
  Definition one_family (T : list tid) : Prop := ∃ a, ∀ t, t ∈ T → ∃ gi, info_of s t gi ∧ gi_start gi = a.

  Lemma one_family_sub T T' : one_family T' → T ⊆ T' → one_family T.
  Proof using Type. intros [a H] Hs. exists a. intros t Ht. apply H, Hs, Ht. Qed.

  Lemma group_one_family k gm T : ms !! k = Some gm →
    (∀ t, t ∈ T → ∃ m, mt !! t = Some m ∧ covers gm (m_index m)) → one_family T.
  Proof using HI.
    intros Hk HT. destruct T as [|t0 T]; [exists 0; intros t Ht; by apply elem_of_nil in Ht|].
    destruct (HT t0) as (m0 & Hm0 & Hc0); [by left|].
    destruct (covered_info k gm t0 m0 Hk Hm0 Hc0) as (gi0 & gf0 & _ & Hf0 & Hs0 & Hn0 & _).
    exists (gi_start gi0). intros t Ht. destruct (HT t Ht) as (m & Hm & Hc).
    destruct (covered_info k gm t m Hk Hm Hc) as (gi & gf & Hi & Hf & Hs & Hn & _). exists gi. split; [done|].
    eapply first_unique; try done. lia.
  Qed.

  Definition joinable (T : list tid) : Prop := length T ≤ 1 ∨ one_family T.

  Lemma joinable_app T T' : joinable (T ++ T') → joinable T ∧ joinable T'.
  Proof using Type.
    unfold joinable. rewrite app_length. intros [H|H]; [split; left; lia|].
    split; right; (eapply one_family_sub; [exact H|]); intros t Ht; apply elem_of_app; auto.
  Qed.

  Lemma add_group_some T T' a b :
    ginfo_for s T a → ginfo_for s T' b → one_family (T ++ T') → is_Some (add_group a b).
  Proof using HI.
    intros [A1 (ta & ga & Ha & Hga & _) _] [B1 (tb & gb & Hb & Hgb & _) _] [f Hf]. unfold add_group.
    assert (gi_start a = gi_start b) as ->; [|rewrite Nat.eqb_refl; eauto].
    destruct (A1 ta Ha) as (ga' & Hga' & <- & _). destruct (B1 tb Hb) as (gb' & Hgb' & <- & _).
    destruct (Hf ta) as (x & Hx & Hxs); [set_solver|]. destruct (Hf tb) as (y & Hy & Hys); [set_solver|].
    rewrite (info_of_fun _ _ _ _ Hga' Hx), (info_of_fun _ _ _ _ Hgb' Hy). lia.
  Qed.

  Lemma add_view_some T q v t :
    qinfo_for s ds T q → qsize q (length T) →
    (∃ m d, mt !! t = Some m ∧ ds !! m_index m = Some d ∧ v = VInfo (m_info m) (length d)) →
    joinable (T ++ [t]) → is_Some (add_view q v).
  Proof using HI.
    intros Hq Hn (m & d & Hm & Hd & ->) Hj.
    assert (q ≠ QEmpty → one_family (T ++ [t])) as Hf.
    { intros Hne. destruct Hj as [Hj|Hj]; [|done]. rewrite app_length in Hj. simpl in Hj.
      destruct q; simpl in Hn; [done|lia..]. }
    assert (one_family (T ++ [t]) → ∃ b, m_info m = Some b ∧ ginfo_for s [t] b) as Hb.
    { intros [f H]. destruct (H t) as (gi & (m' & Hm' & Hgi) & _); [set_solver|]. exists gi.
      assert (m' = m) as -> by congruence. split; [done|]. apply ginfo_single. by exists m. }
    destruct q as [|old|old]; simpl in *; [eauto|..].
    - specialize (Hf ltac:(done)). destruct (Hb Hf) as (b & -> & Hgb).
      destruct Hq as (t1 & m1 & d1 & -> & Hm1 & Hd1 & ->). simpl.
      destruct Hf as [f Hff]. destruct (Hff t1) as (g1 & (m' & Hm' & Hg1) & _); [set_solver|].
      assert (m' = m1) as -> by congruence. rewrite Hg1.
      destruct (add_group_some [t1] [t] g1 b) as [c ->]; [apply ginfo_single; by exists m1|done|by exists f|eauto].
    - specialize (Hf ltac:(done)). destruct (Hb Hf) as (b & -> & Hgb).
      destruct (add_group_some T [t] old b) as [c ->]; try done.
  Qed.

  Lemma query_info_from_some q vs acc T :
    Forall2 (view_ok s) q vs → Forall2 (view_info s) q vs → qinfo_for s ds T acc → qsize acc (length T) →
    (joinable (T ++ required q) → is_Some (query_info_from acc vs)) ∧
    ∀ qi, query_info_from acc vs = Some qi → qsize qi (length (T ++ required q)).
  Proof using HI.
    intros HF. revert acc T. induction HF as [|p v q vs Hv _ IH]; intros acc T HF' Hacc Hn.
    { simpl. rewrite app_nil_r. split; [eauto|]. by intros qi [= <-]. }
    inversion HF' as [|? ? ? ? Hi HF'']; subst. cbn [query_info_from].
    assert (Hcase : (¬ part_required p ∧ pv_info v = None) ∨
       ∃ t m d, part_required p ∧ part_tid p = Some t ∧ mt !! t = Some m ∧ ds !! m_index m = Some d ∧
         pv_info v = Some (VInfo (m_info m) (length d))).
    { destruct p as [|t|t|t|t]; simpl in *; auto; right; destruct Hi as (m & Hm & ->);
      destruct (view_rep _ _ _ _ _ _ HI _ v t Hv eq_refl) as (m' & d & Hm' & _ & Hd & Hr & _);
      assert (m' = m) as -> by congruence; exists t, m, d; rewrite (cr_len _ _ Hr); done. }
    destruct Hcase as [[Hnr Hi']|(t & m & d & Hr & Ht & Hm & Hd & Hi')]; rewrite Hi'.
    - rewrite required_cons_opt by done. by apply IH.
    - rewrite (required_cons_req p q t) by done.
      replace (T ++ t :: required q) with ((T ++ [t]) ++ required q) by by rewrite <-app_assoc.
      destruct (add_view acc (VInfo (m_info m) (length d))) as [acc'|] eqn:Ea.
      + assert (qinfo_for s ds (T ++ [t]) acc') as Hacc' by (eapply add_view_for; eauto).
        apply IH; [done|done|]. rewrite app_length. by eapply add_view_size.
      + split; [|done]. intros [Hj _]%joinable_app. exfalso.
        destruct (add_view_some T acc (VInfo (m_info m) (length d)) t) as [? Hs]; eauto. by rewrite Ea in Hs.
  Qed.

  Lemma add_query_some T T' a b : qinfo_for s ds T a → qinfo_for s ds T' b →
    qsize a (length T) → qsize b (length T') → joinable (T ++ T') → is_Some (add_query a b).
  Proof using HI.
    intros Ha Hb Na Nb Hj.
    assert (∀ T q, qinfo_for s ds T q → one_family T → q ≠ QEmpty → ∃ g, qi_group_info q = Some g ∧ ginfo_for s T g) as Hg.
    { intros T0 q Hq [f H] Hne. destruct q as [|v|g]; simpl in *; [done| |eauto].
      destruct Hq as (t & m & d & -> & Hm & Hd & ->). destruct (H t) as (gi & (m' & Hm' & Hgi) & _); [set_solver|].
      assert (m' = m) as -> by congruence. exists gi. split; [done|]. apply ginfo_single. by exists m. }
    assert (a ≠ QEmpty → b ≠ QEmpty →
      is_Some (ga ← qi_group_info a; gb ← qi_group_info b; QMany <$> add_group ga gb)) as Hgen.
    { intros Hae Hbe. destruct Hj as [Hj|Hj].
      { rewrite app_length in Hj. destruct a, b; simpl in *; try done; lia. }
      destruct (Hg T a Ha) as (ga & -> & Hga); [eapply one_family_sub; [done|intros t Ht; apply elem_of_app; auto]|done|].
      destruct (Hg T' b Hb) as (gb & -> & Hgb); [eapply one_family_sub; [done|intros t Ht; apply elem_of_app; auto]|done|].
      simpl. destruct (add_group_some T T' ga gb) as [c ->]; try done. }
    destruct a, b; simpl; eauto; by apply Hgen.
  Qed.

  (** ** The groups of the layout *)

  Context (l : layout) (HL : laid_out l s).
  Local Notation L := (layout_groups l).

  Lemma group_types k gm g t : ms !! k = Some gm → L !! k = Some g →
    t ∈ g ↔ ∃ m, mt !! t = Some m ∧ covers gm (m_index m).
  Proof using HI HL.
    intros Hm Hg. destruct (Forall2_lookup_lr _ _ _ _ _ _ HL Hm Hg) as (_ & H1 & H2). split; [apply H1|].
    intros (m & Ht & Hc). destruct (H2 _ Hc) as (t' & m' & Ht' & Hm' & Heq).
    by rewrite <-(st_inj _ _ _ HS t' t m' m Hm' Ht Heq).
  Qed.

  Lemma layout_lookup g : g ∈ L ↔ ∃ k gm, ms !! k = Some gm ∧ L !! k = Some g.
  Proof using HL.
    rewrite elem_of_list_lookup. split; [|intros (k & _ & _ & ?); eauto].
    intros [k Hk]. destruct (Forall2_lookup_r _ _ _ _ _ HL Hk) as (gm & ? & _). eauto.
  Qed.

  Lemma types_at_group k gm g T : ms !! k = Some gm → L !! k = Some g →
    types_at s T (g_start gm) (g_end gm) ↔ same_types T g.
  Proof using HI HL.
    intros Hk Hg. pose proof (group_types k gm g) as HG. split.
    - intros [H1 H2] t. rewrite (HG t) by done. split; [apply H1|]. intros (m & Hm & Hc).
      destruct (H2 _ Hc) as (t' & m' & Ht' & Hm' & Heq). by rewrite <-(st_inj _ _ _ HS t' t m' m Hm' Hm Heq).
    - intros H. split.
      + intros t Ht%H. by apply HG in Ht.
      + intros i Hi. destruct (st_owner _ _ _ HS k gm i Hk Hi) as (t & m & Hm & <-). exists t, m. split_and!; try done.
        apply H. apply HG; eauto.
  Qed.

  (** *** Including *)

  Lemma include_range_iff T a r : ginfo_for s T a → include_group_range s a = Ok r →
    is_Some r ↔ ∃ g, g ∈ L ∧ same_types T g.
  Proof using HI HL.
    intros Hg. destruct (ginfo_groups _ _ _ _ _ _ HI T a Hg) as (k & gf & gk & Hgf & Hgk & Hend & Hle & Hfam & Hin & Hmask).
    unfold include_group_range. rewrite Hend, Hgk. intros [= <-].
    pose proof (ci_groups_meta _ _ _ Hgk) as Hmk. pose proof (st_masks _ _ _ HS k _ Hmk) as HM.
    pose proof (mw_range _ _ HW _ _ Hmk) as (Hr1 & Hr2 & Hr3).
    assert (QMask (gi_mask a) 0 = g_include (g_meta gk) ↔ types_at s T (g_start (g_meta gk)) (g_end (g_meta gk))) as Hiff.
    { unfold same_family in Hfam. split.
      - intros Heq. split.
        + intros t Ht. destruct (Hin t Ht) as (m & Hm & [? ?]). eauto.
        + intros i Hi. pose proof (mo_inc _ HM (i - g_start (g_meta gk))) as Hb. rewrite <-Heq in Hb. cbn [qm_include] in Hb.
          assert (bit (gi_mask a) (i - g_start (g_meta gk)) = true) as Hb'.
          { rewrite Hb. apply Nat.ltb_lt. lia. }
          apply Hmask in Hb' as (t & m & Ht & Hm & Hidx). exists t, m. split_and!; try done. lia.
      - intros [H1 H2]. destruct (g_include (g_meta gk)) as [mi mx] eqn:Hgi.
        pose proof (mo_inc_x _ HM) as Hx. pose proof (mo_inc _ HM) as Hb. rewrite Hgi in Hx, Hb. simpl in Hx, Hb. subst mx.
        f_equal. apply bits_eq. intros j. rewrite Hb. apply eq_true_iff_eq. rewrite Hmask, Nat.ltb_lt. split.
        + intros (t & m & Ht & Hm & Hi). destruct (H1 t Ht) as (m' & Hm' & Hi'). assert (m' = m) as -> by congruence. lia.
        + intros Hj. destruct (H2 (g_start (g_meta gk) + j)) as (t & m & Ht & Hm & Hi); [lia|].
          exists t, m. split_and!; try done. lia. }
    destruct (Forall2_lookup_l _ _ _ _ _ HL Hmk) as (gg & Hgg & _).
    rewrite (types_at_group k _ gg T Hmk Hgg) in Hiff.
    split.
    - case_bool_decide as Heq; [|by intros [? ?]]. intros _. exists gg. split; [by eapply elem_of_list_lookup_2|by apply Hiff].
    - intros (g & (k' & gm & Hk' & Hg')%layout_lookup & Hsame).
      assert (k' = k) as ->.
      { destruct (gf_end _ _ _ Hg) as (t0 & gi0 & Ht0 & Hi0 & He0).
        assert (gi_end gi0 ≤ S k').
        { apply Hsame, (group_types k' gm g t0 Hk' Hg') in Ht0 as (m0 & Hm0 & Hc0).
          destruct (covered_info k' gm t0 m0 Hk' Hm0 Hc0) as (gi & _ & Hi & _ & _ & _ & Hle' & _).
          by rewrite (info_of_fun _ _ _ _ Hi0 Hi). }
        pose proof (mw_range _ _ HW _ _ Hk') as (?&?&?).
        destruct (st_owner _ _ _ HS k' gm (g_nstart gm) Hk') as (t & m & Hm & Hidx); [unfold covers; lia|].
        assert (t ∈ T) as Ht.
        { apply Hsame, (group_types k' gm g t Hk' Hg'). exists m. split; [done|]. unfold covers. lia. }
        destruct (covered_info k' gm t m Hk' Hm) as (gi & _ & Hi & _ & _ & _ & _ & Heq); [unfold covers; lia|].
        specialize (Heq ltac:(lia)). destruct (gf_all _ _ _ Hg t Ht) as (gi' & Hi' & _ & Hle').
        rewrite (info_of_fun _ _ _ _ Hi' Hi) in Hle'. lia. }
      assert (gm = g_meta gk) as -> by congruence. assert (gg = g) as -> by congruence.
      rewrite bool_decide_eq_true_2 by (by apply Hiff). eauto.
  Qed.

  (** *** Excluding *)

  Lemma sub_covers a b ga gb : ms !! a = Some ga → ms !! b = Some gb → ∀ xa xb, L !! a = Some xa → L !! b = Some xb →
    inside xa xb ↔ g_start ga = g_start gb ∧ g_end ga ≤ g_end gb.
  Proof using HI HL.
    intros Ha Hb xa xb La Lb.
    pose proof (mw_range _ _ HW _ _ Ha) as (?&?&?). pose proof (mw_range _ _ HW _ _ Hb) as (?&?&?).
    split.
    - intros Hin.
      assert (∀ i, covers ga i → covers gb i) as Hc.
      { intros i Hi. destruct (st_owner _ _ _ HS a ga i Ha Hi) as (t & m & Hm & <-).
        assert (t ∈ xa) as Ht by (apply (group_types a ga xa); eauto).
        apply Hin, (group_types b gb xb t Hb Lb) in Ht as (m' & Hm' & Hc'). by assert (m' = m) as -> by congruence. }
      pose proof (Hc (g_start ga)) as C1. pose proof (Hc (g_end ga - 1)) as C2. unfold covers in *.
      destruct C1; [lia|]. destruct C2; [lia|]. split; [|lia].
      destruct (Nat.lt_trichotomy a b) as [Hlt|[->|Hlt]]; [|congruence|].
      + destruct (mw_order _ _ HW a b ga gb Hlt Ha Hb) as [[? ?]|?]; lia.
      + destruct (mw_order _ _ HW b a gb ga Hlt Hb Ha) as [[? ?]|?]; lia.
    - intros [Hst Hen] t. rewrite (group_types a ga xa t Ha La), (group_types b gb xb t Hb Lb). unfold covers.
      intros (m & Hm & ? & ?). exists m. split; [done|]. lia.
  Qed.

  Lemma end_inj a b ga gb : ms !! a = Some ga → ms !! b = Some gb → g_start ga = g_start gb → g_end ga = g_end gb → a = b.
  Proof using HI.
    intros Ha Hb H1 H2.
    pose proof (mw_range _ _ HW _ _ Ha) as (?&?&?). pose proof (mw_range _ _ HW _ _ Hb) as (?&?&?).
    destruct (Nat.lt_trichotomy a b) as [Hlt|[->|Hlt]]; [|done|].
    - destruct (mw_order _ _ HW a b ga gb Hlt Ha Hb) as [[? ?]|?]; lia.
    - destruct (mw_order _ _ HW b a gb ga Hlt Hb Ha) as [[? ?]|?]; lia.
  Qed.

  Lemma next_group_iff g h :
    next_group L g h ↔
    ∃ k gp gc, ms !! k = Some gp ∧ ms !! S k = Some gc ∧ L !! k = Some g ∧ L !! S k = Some h ∧
      g_start gp = g_start gc ∧ g_end gp = g_nstart gc.
  Proof using HI HL.
    split.
    - intros ((a & ga & Ha & La)%layout_lookup & (b & gb & Hb & Lb)%layout_lookup & Hin & Hni & Hbet).
      rewrite (sub_covers a b ga gb Ha Hb g h La Lb) in Hin. rewrite (sub_covers b a gb ga Hb Ha h g Lb La) in Hni.
      pose proof (mw_range _ _ HW _ _ Ha) as (?&?&?). pose proof (mw_range _ _ HW _ _ Hb) as (?&?&?).
      assert (a < b) as Hlt.
      { destruct (Nat.lt_trichotomy a b) as [?|[->|Hlt]]; [done|exfalso; assert (ga = gb) by congruence; subst; lia|].
        destruct (mw_order _ _ HW b a gb ga Hlt Hb Ha) as [[? ?]|?]; lia. }
      destruct (mw_order _ _ HW a b ga gb Hlt Ha Hb) as [[Hs He]|?]; [|lia].
      destruct (mw_parent _ _ HW b gb Hb) as (j & gj & -> & Hj & Hjs & Hje); [lia|].
      destruct (Forall2_lookup_l _ _ _ _ _ HL Hj) as (x & Lj & _).
      pose proof (mw_range _ _ HW _ _ Hj) as (?&?&?).
      assert (a = j) as ->.
      { destruct (Hbet x) as [Hc|Hc].
        - by eapply elem_of_list_lookup_2.
        - apply (sub_covers a j ga gj Ha Hj g x La Lj). lia.
        - apply (sub_covers j (S j) gj gb Hj Hb x h Lj Lb). lia.
        - apply (sub_covers j a gj ga Hj Ha x g Lj La) in Hc. eapply (end_inj a j ga gj); try done; lia.
        - apply (sub_covers (S j) j gb gj Hb Hj h x Lb Lj) in Hc. lia. }
      exists j, gj, gb. assert (ga = gj) as -> by congruence. done.
    - intros (k & gp & gc & Hp & Hc & Lp & Lc & Hs & He).
      pose proof (mw_range _ _ HW _ _ Hp) as (?&?&?). pose proof (mw_range _ _ HW _ _ Hc) as (?&?&?).
      split_and!.
      + by eapply elem_of_list_lookup_2.
      + by eapply elem_of_list_lookup_2.
      + apply (sub_covers k (S k) gp gc Hp Hc g h Lp Lc). lia.
      + rewrite (sub_covers (S k) k gc gp Hc Hp h g Lc Lp). lia.
      + intros x (j & gj & Hj & Lj)%layout_lookup Hi1 Hi2.
        rewrite (sub_covers k j gp gj Hp Hj g x Lp Lj) in Hi1. rewrite (sub_covers j (S k) gj gc Hj Hc x h Lj Lc) in Hi2.
        rewrite (sub_covers j k gj gp Hj Hp x g Lj Lp), (sub_covers (S k) j gc gj Hc Hj h x Lc Lj).
        pose proof (mw_range _ _ HW _ _ Hj) as (?&?&?).
        destruct (Nat.lt_trichotomy j k) as [Hlt|[->|Hlt]].
        * destruct (mw_order _ _ HW j k gj gp Hlt Hj Hp) as [[? ?]|?]; lia.
        * assert (gj = gp) as -> by congruence. left. lia.
        * destruct (decide (j = S k)) as [->|]; [assert (gj = gc) as -> by congruence; right; lia|].
          destruct (mw_order _ _ HW (S k) j gc gj ltac:(lia) Hc Hj) as [[? ?]|?]; lia.
  Qed.

  Lemma exclude_range_iff T U a b r : ginfo_for s T a → ginfo_for s U b → exclude_group_range s a b = Ok r →
    is_Some r ↔ ∃ g h, next_group L g h ∧ same_types T g ∧ ∀ t, t ∈ U ↔ t ∈ h ∧ t ∉ g.
  Proof using HI HL.
    intros Ha Hb Hr. pose proof (ci_ginv _ _ _ _ _ _ HI) as HG.
    destruct (ginfo_groups _ _ _ _ _ _ HI T a Ha) as (ka & gf & ga & Hgf & Hga & Hea & Hlea & Hfa & Hina & Hma).
    destruct (ginfo_groups _ _ _ _ _ _ HI U b Hb) as (kb & gf' & gb & Hgf' & Hgb & Heb & Hleb & Hfb & Hinb & Hmb).
    pose proof (ci_groups_meta _ _ _ Hga) as Mga. pose proof (ci_groups_meta _ _ _ Hgb) as Mgb.
    pose proof (mw_range _ _ HW _ _ Mga) as (?&?&?). pose proof (mw_range _ _ HW _ _ Mgb) as (?&?&?).
    split.
    - unfold exclude_group_range in Hr. destruct (Nat.eqb_spec (gi_start a) (gi_start b)) as [Hs|Hs]; simpl in Hr.
      2:{ simplify_eq. by intros [? ?]. }
      rewrite <-Hs, Hgf in Hgf'. inversion Hgf'; subst gf'. clear Hgf'.
      rewrite Hea, Heb in Hr. replace (S ka `max` S kb) with (S (ka `max` kb)) in Hr by lia.
      assert (∃ child, cs_groups s !! (ka `max` kb) = Some child ∧ same_family gf child ∧
                ∀ t, t ∈ T ∨ t ∈ U → ∃ m, mt !! t = Some m ∧ in_group child (m_index m)) as (child & Hc & Hfc & Hinc).
      { unfold same_family in *. destruct (Nat.max_spec ka kb) as [[? ->]|[? ->]].
        - exists gb. split_and!; try done. intros t [Ht|Ht]; [|by apply Hinb]. destruct (Hina t Ht) as (m & Hm & Hi).
          exists m. split; [done|]. apply (family_in_group _ _ HG ka kb ga); try done; [lia|].
          unfold same_family. congruence.
        - exists ga. split_and!; try done. intros t [Ht|Ht]; [by apply Hina|]. destruct (Hinb t Ht) as (m & Hm & Hi).
          exists m. split; [done|]. apply (family_in_group _ _ HG kb ka gb); try done.
          unfold same_family. congruence. }
      rewrite Hc in Hr. case_bool_decide as Heq; [|simplify_eq; by intros [? ?]]. intros _.
      pose proof (ci_groups_meta _ _ _ Hc) as Mc. pose proof (st_masks _ _ _ HS _ _ Mc) as HM.
      pose proof (mw_range _ _ HW _ _ Mc) as (Hr1 & Hr2 & Hr3). unfold same_family in Hfc.
      assert (HT : types_at s T (g_start (g_meta child)) (g_nstart (g_meta child))).
      { pose proof (mo_exc _ HM) as Hx. rewrite <-Heq in Hx. cbn [qm_include] in Hx. split.
        - intros t Ht. destruct (Hinc t (or_introl Ht)) as (m & Hm & [Hi1 Hi2]). exists m. split; [done|].
          assert (bit (gi_mask a) (m_index m - g_start (g_meta gf)) = true) as Hbit.
          { apply Hma. exists t, m. split_and!; try done. lia. }
          rewrite Hx in Hbit. apply Nat.ltb_lt in Hbit. lia.
        - intros i Hi. assert (bit (gi_mask a) (i - g_start (g_meta child)) = true) as Hbit.
          { rewrite Hx. apply Nat.ltb_lt. lia. }
          apply Hma in Hbit as (t & m & Ht & Hm & Hid). exists t, m. split_and!; try done. lia. }
      assert (HU : types_at s U (g_nstart (g_meta child)) (g_end (g_meta child))).
      { pose proof (mo_exc_x _ HM) as Hx. rewrite <-Heq in Hx. cbn [qm_exclude] in Hx. split.
        - intros t Ht. destruct (Hinc t (or_intror Ht)) as (m & Hm & [Hi1 Hi2]). exists m. split; [done|].
          assert (bit (gi_mask b) (m_index m - g_start (g_meta gf)) = true) as Hbit.
          { apply Hmb. exists t, m. split_and!; try done. lia. }
          rewrite Hx in Hbit. apply andb_true_iff in Hbit as [Hb1%Nat.leb_le Hb2%Nat.ltb_lt]. lia.
        - intros i Hi. assert (bit (gi_mask b) (i - g_start (g_meta child)) = true) as Hbit.
          { rewrite Hx. apply andb_true_iff. rewrite Nat.leb_le, Nat.ltb_lt. lia. }
          apply Hmb in Hbit as (t & m & Ht & Hm & Hid). exists t, m. split_and!; try done. lia. }
      destruct (gf_end _ _ _ Ha) as (t0 & _ & Ht0 & _). destruct (proj1 HT t0 Ht0) as (m0 & Hm0 & Hi0).
      destruct (mw_parent _ _ HW _ _ Mc) as (k' & mp & Hk' & Hp & Hps & Hpe); [lia|]. rewrite Hk' in Mc.
      destruct (Forall2_lookup_l _ _ _ _ _ HL Hp) as (g & Lg & _). destruct (Forall2_lookup_l _ _ _ _ _ HL Mc) as (h & Lh & _).
      exists g, h. split_and!.
      + apply next_group_iff. exists k', mp, (g_meta child). done.
      + apply (types_at_group k' mp g T Hp Lg). by rewrite Hps, Hpe.
      + intros t. rewrite (group_types _ _ h t Mc Lh), (group_types _ _ g t Hp Lg). unfold covers. split.
        * intros Ht. destruct (proj1 HU t Ht) as (m & Hm & Hi). split; [exists m; split; [done|lia]|].
          intros (m' & Hm' & ?). assert (m' = m) as -> by congruence. lia.
        * intros [(m & Hm & Hi) Hn]. destruct (proj2 HU (m_index m)) as (t' & m' & Ht' & Hm' & Hid).
          { assert (¬ (m_index m < g_nstart (g_meta child))); [|lia]. intros ?. apply Hn. exists m. split; [done|]. lia. }
          by rewrite <-(st_inj _ _ _ HS t' t m' m Hm' Hm Hid).
    - intros (g & h & (k & gp & gc & Hp & Hc & Lp & Lc & Hs & He)%next_group_iff & HT & HU).
      pose proof (mw_range _ _ HW _ _ Hp) as (?&?&?). pose proof (mw_range _ _ HW _ _ Hc) as (?&?&?).
      assert (HTc : ∀ t, t ∈ T ↔ ∃ m, mt !! t = Some m ∧ covers gp (m_index m)).
      { intros t. rewrite (HT t). by apply (group_types k gp g). }
      assert (HUc : ∀ t, t ∈ U ↔ ∃ m, mt !! t = Some m ∧ g_nstart gc ≤ m_index m < g_end gc).
      { intros t. rewrite (HU t), (group_types _ _ h t Hc Lc), (group_types _ _ g t Hp Lp). unfold covers. split.
        - intros [(m & Hm & Hi) Hn]. exists m. split; [done|].
          assert (¬ (m_index m < g_nstart gc)); [|lia]. intros ?. apply Hn. exists m. split; [done|]. lia.
        - intros (m & Hm & Hi). split; [exists m; split; [done|lia]|].
          intros (m' & Hm' & ?). assert (m' = m) as -> by congruence. lia. }
      assert (ka = k) as ->.
      { destruct (gf_end _ _ _ Ha) as (t0 & gi0 & Ht0 & Hi0 & He0). rewrite Hea in He0.
        apply HTc in Ht0 as (m0 & Hm0 & Hc0).
        destruct (covered_info k gp t0 m0 Hp Hm0 Hc0) as (gi & _ & Hi & _ & _ & _ & Hle & _).
        rewrite (info_of_fun _ _ _ _ Hi Hi0) in Hle.
        destruct (st_owner _ _ _ HS k gp (g_nstart gp) Hp) as (t & m & Hm & Hidx); [unfold covers; lia|].
        assert (t ∈ T) as Ht by (apply HTc; exists m; split; [done|]; unfold covers; lia).
        destruct (covered_info k gp t m Hp Hm) as (gi1 & _ & Hi1 & _ & _ & _ & _ & Heq); [unfold covers; lia|].
        specialize (Heq ltac:(lia)). destruct (gf_all _ _ _ Ha t Ht) as (gi' & Hi' & _ & Hle').
        rewrite (info_of_fun _ _ _ _ Hi' Hi1) in Hle'. lia. }
      assert (kb = S k) as ->.
      { destruct (gf_end _ _ _ Hb) as (t0 & gi0 & Ht0 & Hi0 & He0). rewrite Heb in He0.
        apply HUc in Ht0 as (m0 & Hm0 & Hc0).
        destruct (covered_info (S k) gc t0 m0 Hc Hm0) as (gi & _ & Hi & _ & _ & _ & _ & Heq); [unfold covers; lia|].
        specialize (Heq ltac:(lia)). rewrite (info_of_fun _ _ _ _ Hi Hi0) in Heq. lia. }
      assert (g_meta ga = gp) as <- by congruence. assert (g_meta gb = gc) as <- by congruence.
      unfold same_family in *.
      assert (gi_start a = gi_start b) as Hst.
      { destruct (gf_end _ _ _ Ha) as (ta & gia & Hta & Hia & _). destruct (gf_end _ _ _ Hb) as (tb & gib & Htb & Hib & _).
        destruct (gf_all _ _ _ Ha ta Hta) as (gia' & Hia' & <- & _). destruct (gf_all _ _ _ Hb tb Htb) as (gib' & Hib' & <- & _).
        apply HTc in Hta as (ma & Hma' & Hca). apply HUc in Htb as (mb & Hmb' & Hcb).
        destruct (covered_info k _ ta ma Hp Hma' Hca) as (x & fx & Hx & Hfx & Hsx & Hnx & _).
        destruct (covered_info (S k) _ tb mb Hc Hmb') as (y & fy & Hy & Hfy & Hsy & Hny & _); [unfold covers; lia|].
        rewrite (info_of_fun _ _ _ _ Hia' Hx), (info_of_fun _ _ _ _ Hib' Hy).
        eapply first_unique; try done. lia. }
      unfold exclude_group_range in Hr. rewrite Hst, Nat.eqb_refl, Hea, Heb in Hr. simpl in Hr.
      replace (S (k `max` S k)) with (S (S k)) in Hr by lia. replace (k `max` S k) with (S k) in Hr by lia.
      rewrite Hgb in Hr. rewrite <-Hst, Hgf in Hgf'. inversion Hgf'; subst gf'. clear Hgf'.
      rewrite bool_decide_eq_true_2 in Hr; [rewrite Hga in Hr; simplify_eq; eauto|].
      pose proof (st_masks _ _ _ HS _ _ Hc) as HM. pose proof (mo_exc _ HM) as Hx1. pose proof (mo_exc_x _ HM) as Hx2.
      destruct (g_exclude (g_meta gb)) as [mi mx]. simpl in Hx1, Hx2. f_equal; apply bits_eq; intros j; apply eq_true_iff_eq.
      + rewrite Hma, Hx1, Nat.ltb_lt. unfold covers in HTc. split.
        * intros (t & m & Ht & Hm & Hi). apply HTc in Ht as (m' & Hm' & Hi'). assert (m' = m) as -> by congruence. lia.
        * intros Hj. destruct (st_owner _ _ _ HS k _ (g_start (g_meta gf) + j) Hp) as (t & m & Hm & Hi); [unfold covers; lia|].
          exists t, m. split_and!; try done. apply HTc. exists m. split; [done|]. lia.
      + rewrite Hmb, Hx2, andb_true_iff, Nat.ltb_lt, Nat.leb_le. split.
        * intros (t & m & Ht & Hm & Hi). apply HUc in Ht as (m' & Hm' & Hi'). assert (m' = m) as -> by congruence. lia.
        * intros Hj. destruct (st_owner _ _ _ HS (S k) _ (g_start (g_meta gf) + j) Hc) as (t & m & Hm & Hi); [unfold covers; lia|].
          exists t, m. split_and!; try done. apply HUc. exists m. split; [done|]. lia.
  Qed.

  (** ** Queries *)

  Lemma qinfo_empty (T : list tid) q : qsize q (length T) → (T = [] ↔ q = QEmpty).
  Proof using Type. destruct q, T; simpl; intros; split; intros; try done; lia. Qed.

  Lemma next_family g h T : next_group L g h → (∀ t, t ∈ T → t ∈ h) → one_family T.
  Proof using HI HL.
    intros (k & gp & gc & Hp & Hc & Lp & Lc & Hs & He)%next_group_iff HT. eapply group_one_family; [exact Hc|].
    intros t Ht%HT. by apply (group_types (S k) gc h).
  Qed.

  Lemma dense_joinable T U : dense_by L T U → joinable T ∧ joinable U.
  Proof using HI HL.
    intros [[-> H]|[[-> (g & (k & gm & Hk & Hg)%layout_lookup & H)]|(g & h & Hn & HT & HU)]].
    - split; left; simpl; lia.
    - split; [right|left; simpl; lia]. eapply group_one_family; [exact Hk|]. intros t Ht%H. by apply (group_types k gm g).
    - split; right; (eapply next_family; [exact Hn|]); intros t Ht; [|apply HU in Ht; apply Ht].
      destruct Hn as (_ & _ & Hin & _). by apply Hin, HT.
  Qed.

  Lemma group_range_iff T U inc exc r :
    qinfo_for s ds T inc → qinfo_for s ds U exc → qsize inc (length T) → qsize exc (length U) →
    group_range s inc exc = Ok r → is_Some r ↔ dense_by L T U.
  Proof using HI HL.
    intros HT HU NT NU Hr. pose proof (qinfo_empty U exc NU) as HUe.
    assert (Hno : ∀ g h, next_group L g h → ¬ (∀ t, t ∈ [] ↔ t ∈ h ∧ t ∉ g)).
    { intros g h (_ & _ & _ & Hni & _) Hall. apply Hni. intros t Ht.
      destruct (decide (t ∈ g)) as [|Hn]; [done|]. by pose proof (proj2 (Hall t) (conj Ht Hn)) as ?%elem_of_nil. }
    assert (Hnt : ∀ g, g ∈ L → ¬ same_types [] g).
    { intros g (k & gm & Hk & Hg)%layout_lookup Hsame.
      destruct (Forall2_lookup_lr _ _ _ _ _ _ HL Hk Hg) as ([i Hi] & _ & H2).
      destruct (H2 i Hi) as (t & _ & Ht & _). by apply Hsame, elem_of_nil in Ht. }
    destruct (decide (U = [])) as [Hu|Hu].
    - assert (exc = QEmpty) as -> by naive_solver. subst U.
      destruct inc as [|v|g]; simpl in Hr, NT.
      + injection Hr as <-. destruct T; [|done]. split; [by intros [? ?]|].
        intros [[_ ?]|[[_ (g & Hg & Hs)]|(g & h & Hn & _ & H)]]; [done|by destruct (Hnt g Hg)|by destruct (Hno g h Hn)].
      + injection Hr as <-. split; [|eauto]. intros _. left. done.
      + rewrite (include_range_iff T g r HT Hr). unfold dense_by. split; [auto|].
        intros [[_ ?]|[[_ ?]|(g' & h & Hn & _ & H)]]; [lia|done|by destruct (Hno g' h Hn)].
    - assert (Hr' : match qi_group_info inc, qi_group_info exc with
                    | Some i, Some x => exclude_group_range s i x
                    | _, _ => Ok None
                    end = Ok r).
      { destruct inc, exc; try done; naive_solver. }
      clear Hr. split.
      + destruct (qi_group_info inc) as [a|] eqn:Ha; [|injection Hr' as <-; by intros [? ?]].
        destruct (qi_group_info exc) as [b|] eqn:Hb; [|injection Hr' as <-; by intros [? ?]].
        intros Hsome. right; right. eapply exclude_range_iff; [by eapply qi_group_info_for|by eapply qi_group_info_for|done|done].
      + intros Hd. pose proof (dense_joinable T U Hd) as _.
        destruct Hd as [[? _]|[[? _]|(g & h & Hn & H1 & H2)]]; [done..|].
        assert (∀ V q, qinfo_for s ds V q → qsize q (length V) → V ≠ [] → one_family V → ∃ a, qi_group_info q = Some a) as Hsome.
        { intros V q Hq Nq Hne [f Hf]. destruct q as [|v|a]; simpl in *; [by destruct V| |eauto].
          destruct Hq as (t & m & d & -> & Hm & _ & ->). destruct (Hf t) as (gi & (m' & Hm' & Hgi) & _); [by left|].
          assert (m' = m) as -> by congruence. eauto. }
        assert (HTh : ∀ t, t ∈ T → t ∈ h).
        { intros t Ht. destruct Hn as (_ & _ & Hin & _). by apply Hin, H1. }
        destruct (Hsome T inc HT NT) as [a Ha].
        { intros ->. by apply (Hnt g); [apply Hn|]. }
        { by eapply next_family. }
        destruct (Hsome U exc HU NU Hu) as [b Hb].
        { eapply next_family; [exact Hn|]. intros t Ht. by apply H2. }
        rewrite Ha, Hb in Hr'.
        apply (exclude_range_iff T U a b r); [by eapply qi_group_info_for|by eapply qi_group_info_for|done|by exists g, h].
  Qed.

  Lemma get_group_range_iff G J X g i x r :
    Forall2 (view_ok s) G g → Forall2 (view_info s) G g →
    Forall2 (view_ok s) J i → Forall2 (view_info s) J i →
    Forall2 (view_ok s) X x → Forall2 (view_info s) X x →
    get_group_range s g i x = Ok r → is_Some r ↔ dense_by L (required (G ++ J)) (required X).
  Proof using HI HL.
    intros G1 G2 J1 J2 X1 X2. unfold get_group_range. rewrite required_app.
    assert (∀ q vs, Forall2 (view_ok s) q vs → Forall2 (view_info s) q vs →
      (joinable (required q) → is_Some (query_info vs)) ∧
      ∀ qi, query_info vs = Some qi → qsize qi (length (required q)) ∧ qinfo_for s ds (required q) qi) as HQ.
    { intros q vs V1 V2. destruct (query_info_from_some q vs QEmpty [] V1 V2) as [A B]; [done..|]. split; [done|].
      intros qi Hqi. split; [by apply B|by eapply query_info_for]. }
    destruct (HQ G g G1 G2) as [Gs Gq]. destruct (HQ J i J1 J2) as [Js Jq]. destruct (HQ X x X1 X2) as [Xs Xq].
    assert (∀ r : option (nat * nat), r = None → (dense_by L (required G ++ required J) (required X) → False) →
       is_Some r ↔ dense_by L (required G ++ required J) (required X)) as Hnone.
    { intros r0 -> H. split; [by intros [? ?]|done]. }
    assert (Hj : dense_by L (required G ++ required J) (required X) →
      joinable (required G) ∧ joinable (required J) ∧ joinable (required X) ∧ joinable (required G ++ required J)).
    { intros [H1 H2]%dense_joinable. pose proof (joinable_app _ _ H1) as [? ?]. done. }
    destruct (query_info g) as [gi|] eqn:Eg.
    2:{ intros [= <-]. apply Hnone; [done|]. intros (H & _)%Hj. by destruct (Gs H). }
    destruct (query_info i) as [ii|] eqn:Ei.
    2:{ intros [= <-]. apply Hnone; [done|]. intros (_ & H & _)%Hj. by destruct (Js H). }
    destruct (query_info x) as [xi|] eqn:Ex.
    2:{ intros [= <-]. apply Hnone; [done|]. intros (_ & _ & H & _)%Hj. by destruct (Xs H). }
    destruct (Gq _ eq_refl) as [Ng Hg]. destruct (Jq _ eq_refl) as [Ni Hi]. destruct (Xq _ eq_refl) as [Nx Hx].
    destruct (add_query gi ii) as [q|] eqn:Eq.
    2:{ intros [= <-]. apply Hnone; [done|]. intros (_ & _ & _ & H)%Hj.
        destruct (add_query_some _ _ gi ii Hg Hi Ng Ni H) as [? Hs]. by rewrite Eq in Hs. }
    intros Hr. eapply group_range_iff; [by eapply add_query_for|exact Hx| |done|exact Hr].
    rewrite app_length. by eapply add_query_size.
  Qed.
End dense.

(** A query is answered from contiguous arrays, and has slices, exactly if the
    layout in force provides for it. *)
Lemma reach_dense l evs w s G J X :
  good_history_from l evs w s → query_ok s G J X →
  ∃ dn r, query_is_dense w G J X = Ok dn ∧ query_all_slice w G J X = Ok r ∧
    (dn = true ↔ dense_by (layout_groups (layout_after l evs)) (required (G ++ J)) (required X)) ∧
    (is_Some r ↔ dn = true).
Proof.
  intros Hh [Hreg Hnc]. pose proof (history_laid_out _ _ _ _ Hh) as HL.
  destruct (reachable_inv w s) as (_ & ds & [HE HC]); [exists evs; by eapply good_from_history|].
  unfold query_is_dense, query_all_slice.
  destruct (borrow3_ok w ds _ _ _ _ HC G J X) as [[Hn _]|(g & i & x & _ & _ & -> & [G1 G2] & [J1 J2] & [X1 X2])].
  { by destruct Hn. }
  destruct (query_slice_ok _ _ _ _ _ _ HC G J X g i x) as (r & it & Hs & Hit & Hr); try done. rewrite Hs, Hit.
  destruct (get_group_range_ok _ _ _ _ _ _ HC G J X g i x) as (rg & Hrg & _); try done.
  pose proof (get_group_range_iff _ _ _ _ _ _ HC _ HL G J X g i x rg G1 G2 J1 J2 X1 X2 Hrg) as Hiff.
  exists (iter_dense it), r. split_and!; [by destruct it|done| |].
  - rewrite <-Hiff. unfold query_iter in Hit. rewrite Hrg in Hit. destruct rg as [[lo hi]|].
    + assert (iter_dense it = true) as ->; [|split; eauto].
      destruct (first_entities g) as [[]| |], (shortest_entities None i) as [[]| |]; simplify_eq; done.
    + destruct (shortest_entities None g), (shortest_entities None i), (shortest_entities None x); simplify_eq.
      simpl. split; [done|by intros [? ?]].
  - destruct r as [sl|].
    + destruct Hr as (its & -> & _). split; eauto.
    + rewrite Hr. split; [by intros [? ?]|done].
Qed.
