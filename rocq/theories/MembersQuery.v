(** Queries that are answered from a group yield what is filed under it. *)
From Verif Require Import Base SparseVecM EntityM CssM MaskM LayoutM GroupM StorageM WorldM QueryM StepM.
From Verif Require Import Lists SparseProofs CssProofs MaskProofs GroupProofs Spec SpecMore SpecLayout SpecGroups SpecOrder SpecDense SpecQuery SpecMembers
  EntityProofs LayoutProofs StorageProofs StoreOps LayoutOps WorldProofs QueryProofs QueryRange QueryIter History Grouped ShapeFacts OrderFacts
  SliceFacts IterFacts DenseFacts MembersFacts MembersRun Demo Demo2.

(** ** The packed prefixes *)

Lemma files_prefix l ts evs w s g :
  good_history_of l ts evs w s → g ∈ layout_groups (layout_after l evs) →
  ∃ P, NoDup P ∧ common_prefix w g P ∧ ∀ e, e ∈ P ↔ e ∈ files_after l ts evs g.
Proof.
  intros Hh [k Hk]%elem_of_list_lookup. pose proof (history_files_after _ _ _ _ _ Hh) as HF.
  destruct (good_of_inv _ _ _ _ _ Hh) as (_ & (ds & _ & HC) & HL).
  destruct (group_at _ _ HL k g Hk) as (gr & Hgr & Hgm). pose proof (ci_ginv _ _ _ _ _ _ HC) as HG.
  pose proof (in_group_start _ _ HG k gr Hgr) as Hs0.
  destruct (in_group_lookup _ _ HG k gr _ Hgr Hs0) as [d0 Hd0].
  pose proof (group_prefix_len _ _ _ _ _ _ HC k gr _ d0 Hgr Hs0 Hd0) as Hlen.
  exists (take (g_len gr) d0.*1). split_and!.
  - apply NoDup_take. by eapply css_rep_dnodup; [apply HC|].
  - intros t Ht. apply (group_types _ _ _ _ _ _ HC _ HL k _ g t Hgm Hk) in Ht as (m & Hm & Hc).
    destruct (ci_lookup _ _ _ _ _ _ HC t m Hm) as (c & d & Hcc & Hd & Hrep).
    exists d.*1. rewrite Hlen. split.
    + unfold view_entities, cs_borrow. rewrite Hm, Hcc. by apply css_entities_ok.
    + by apply (gi_prefix _ _ HG k gr (m_index m) (g_start (g_meta gr)) d d0 Hgr Hc Hs0 Hd Hd0).
  - intros e. rewrite <-(HF k g e Hk), (member_mem _ ds) by apply HC.
    by apply (mem_prefix _ _ _ _ _ _ HC k gr (g_start (g_meta gr)) d0 e).
Qed.

(** ** The range of a dense query *)

Section range.
  Context (s : cstore) (ds : list dense) (am : amap) (reg grp : gset tid) (loose : gset entity).
  Context (HI : cinv s ds am reg grp loose).
  Local Notation gs := (cs_groups s).

  Definition whole (T U : list tid) (lo hi : nat) : Prop :=
    U = [] ∧ ∃ t m d, T = [t] ∧ cs_meta s !! t = Some m ∧ ds !! m_index m = Some d ∧ lo = 0 ∧ hi = length d.
  Definition of_group (T U : list tid) (lo hi : nat) : Prop :=
    U = [] ∧ 2 ≤ length T ∧ ∃ k gk, gs !! k = Some gk ∧ types_at s T (g_start (g_meta gk)) (g_end (g_meta gk)) ∧ lo = 0 ∧ hi = g_len gk.
  Definition of_groups (T U : list tid) (lo hi : nat) : Prop :=
    U ≠ [] ∧ ∃ k gp gc, gs !! k = Some gp ∧ gs !! S k = Some gc ∧ g_start (g_meta gp) = g_start (g_meta gc) ∧
      g_end (g_meta gp) = g_nstart (g_meta gc) ∧ types_at s T (g_start (g_meta gp)) (g_end (g_meta gp)) ∧
      types_at s U (g_nstart (g_meta gc)) (g_end (g_meta gc)) ∧ lo = g_len gc ∧ hi = g_len gp.

  Lemma include_range_of T g lo hi :
    ginfo_for s T g → 2 ≤ length T → include_group_range s g = Ok (Some (lo, hi)) → of_group T [] lo hi.
  Proof using HI.
    intros Hg Hn. destruct (ginfo_groups _ _ _ _ _ _ HI T g Hg) as (k & gf & gk & Hgf & Hgk & Hend & Hle & Hfam & Hin & Hmask).
    unfold include_group_range. rewrite Hend, Hgk.
    destruct (bool_decide _) eqn:Heq; [|done]. apply bool_decide_eq_true in Heq. intros [= <- <-].
    split; [done|]. split; [done|]. exists k, gk. split_and!; try done. unfold same_family in Hfam. split.
    - intros t Ht. destruct (Hin t Ht) as (m & Hm & [? ?]). eauto.
    - intros i Hi. pose proof (st_masks _ _ _ (ci_static _ _ _ _ _ _ HI) k (g_meta gk)) as HM.
      specialize (HM ltac:(by apply ci_groups_meta)).
      pose proof (mo_inc _ HM (i - g_start (g_meta gk))) as Hb. rewrite <-Heq in Hb. cbn [qm_include] in Hb.
      assert (bit (gi_mask g) (i - g_start (g_meta gk)) = true) as Hb'.
      { rewrite Hb. apply Nat.ltb_lt. lia. }
      apply Hmask in Hb' as (t & m & Ht & Hm & Hidx). exists t, m. split_and!; try done. lia.
  Qed.

  Lemma exclude_range_of T U a b lo hi :
    ginfo_for s T a → ginfo_for s U b → exclude_group_range s a b = Ok (Some (lo, hi)) → of_groups T U lo hi.
  Proof using HI.
    intros Ha Hb. pose proof (ci_ginv _ _ _ _ _ _ HI) as HG.
    destruct (ginfo_groups _ _ _ _ _ _ HI T a Ha) as (ka & gf & ga & Hgf & Hga & Hea & Hlea & Hfa & Hina & Hma).
    destruct (ginfo_groups _ _ _ _ _ _ HI U b Hb) as (kb & gf' & gb & Hgf' & Hgb & Heb & Hleb & Hfb & Hinb & Hmb).
    unfold exclude_group_range. destruct (Nat.eqb_spec (gi_start a) (gi_start b)) as [Hs|Hs]; simpl; [|done].
    rewrite <-Hs, Hgf in Hgf'. inversion Hgf'; subst gf'.
    rewrite Hea, Heb. replace (S ka `max` S kb) with (S (ka `max` kb)) by lia.
    assert (∃ child, gs !! (ka `max` kb) = Some child ∧ same_family gf child ∧
              ∀ t, t ∈ T ∨ t ∈ U → ∃ m, cs_meta s !! t = Some m ∧ in_group child (m_index m)) as (child & Hc & Hfc & Hinc).
    { unfold same_family in *. destruct (Nat.max_spec ka kb) as [[? ->]|[? ->]].
      - exists gb. split_and!; try done. intros t [Ht|Ht]; [|by apply Hinb]. destruct (Hina t Ht) as (m & Hm & Hi).
        exists m. split; [done|]. apply (family_in_group _ _ HG ka kb ga); try done; [lia|].
        unfold same_family. congruence.
      - exists ga. split_and!; try done. intros t [Ht|Ht]; [by apply Hina|]. destruct (Hinb t Ht) as (m & Hm & Hi).
        exists m. split; [done|]. apply (family_in_group _ _ HG kb ka gb); try done.
        unfold same_family. congruence. }
    rewrite Hc. case_bool_decide as Heq; [|done].
    pose proof (st_masks _ _ _ (ci_static _ _ _ _ _ _ HI) _ _ (ci_groups_meta _ _ _ Hc)) as HM.
    destruct (ginv_range _ _ HG _ _ Hc) as (Hr1 & Hr2 & Hr3).
    unfold same_family in Hfc.
    assert (HT : types_at s T (g_start (g_meta child)) (g_nstart (g_meta child))).
    { pose proof (mo_exc _ HM) as Hx. rewrite <-Heq in Hx. cbn [qm_include] in Hx. split.
      - intros t Ht. destruct (Hinc t (or_introl Ht)) as (m & Hm & [Hi1 Hi2]). exists m. split; [done|].
        assert (bit (gi_mask a) (m_index m - g_start (g_meta gf)) = true) as Hbit.
        { apply Hma. exists t, m. split_and!; try done. lia. }
        rewrite Hx in Hbit. apply Nat.ltb_lt in Hbit. lia.
      - intros i Hi. assert (bit (gi_mask a) (i - g_start (g_meta child)) = true) as Hbit.
        { rewrite Hx. apply Nat.ltb_lt. lia. }
        apply Hma in Hbit as (t & m & Ht & Hm & Hid). exists t, m. split_and!; try done. lia. }
    assert (HU : types_at s U (g_nstart (g_meta child)) (g_end (g_meta child))).
    { pose proof (mo_exc_x _ HM) as Hx. rewrite <-Heq in Hx. cbn [qm_exclude] in Hx. split.
      - intros t Ht. destruct (Hinc t (or_intror Ht)) as (m & Hm & [Hi1 Hi2]). exists m. split; [done|].
        assert (bit (gi_mask b) (m_index m - g_start (g_meta gf)) = true) as Hbit.
        { apply Hmb. exists t, m. split_and!; try done. lia. }
        rewrite Hx in Hbit. apply andb_true_iff in Hbit as [Hb1%Nat.leb_le Hb2%Nat.ltb_lt]. lia.
      - intros i Hi. assert (bit (gi_mask b) (i - g_start (g_meta child)) = true) as Hbit.
        { rewrite Hx. apply andb_true_iff. rewrite Nat.leb_le, Nat.ltb_lt. lia. }
        apply Hmb in Hbit as (t & m & Ht & Hm & Hid). exists t, m. split_and!; try done. lia. }
    destruct (gf_end _ _ _ Ha) as (t0 & _ & Ht0 & _). destruct (gf_end _ _ _ Hb) as (u0 & _ & Hu0 & _).
    destruct (proj1 HT t0 Ht0) as (m0 & Hm0 & Hi0).
    destruct (mw_parent _ _ (gi_wf _ _ HG) _ _ (ci_groups_meta _ _ _ Hc)) as (k' & mp & Hk' & Hp & Hps & Hpe); [lia|].
    apply ci_meta_groups in Hp as (parent & Hp & <-). rewrite Hk'. rewrite Hp. intros [= <- <-].
    split; [intros ->; by apply elem_of_nil in Hu0|]. rewrite Hk' in Hc.
    exists k', parent, child. split_and!; try done. by rewrite Hps, Hpe.
  Qed.

  Lemma group_range_of T U inc exc lo hi :
    qinfo_for s ds T inc → qinfo_for s ds U exc → qsize inc (length T) → group_range s inc exc = Ok (Some (lo, hi)) →
    whole T U lo hi ∨ of_group T U lo hi ∨ of_groups T U lo hi.
  Proof using HI.
    intros HT HU Hn Hr.
    assert (match qi_group_info inc, qi_group_info exc with
            | Some i, Some x => exclude_group_range s i x
            | _, _ => Ok None
            end = Ok (Some (lo, hi)) → of_groups T U lo hi) as Hgen.
    { destruct (qi_group_info inc) as [a|] eqn:Ea; [|done]. destruct (qi_group_info exc) as [b|] eqn:Eb; [|done].
      eapply exclude_range_of; by eapply qi_group_info_for. }
    destruct inc as [|v|g], exc as [|v'|g']; simpl in Hr; try (right; right; by apply Hgen); try done.
    - left. destruct HT as (t & m & d & -> & Hm & Hd & ->). simpl in HU. subst U. simpl in Hr. injection Hr as <- <-.
      split; [done|]. exists t, m, d. done.
    - right; left. simpl in HU. subst U. by eapply include_range_of.
  Qed.

  Lemma get_group_range_of G J X g i x lo hi :
    Forall2 (view_ok s) G g → Forall2 (view_info s) G g →
    Forall2 (view_ok s) J i → Forall2 (view_info s) J i →
    Forall2 (view_ok s) X x → Forall2 (view_info s) X x →
    get_group_range s g i x = Ok (Some (lo, hi)) →
    whole (required (G ++ J)) (required X) lo hi ∨ of_group (required (G ++ J)) (required X) lo hi ∨
    of_groups (required (G ++ J)) (required X) lo hi.
  Proof using HI.
    intros G1 G2 J1 J2 X1 X2. unfold get_group_range.
    destruct (query_info g) as [gi|] eqn:Eg; [|done]. destruct (query_info i) as [ii|] eqn:Ei; [|done].
    destruct (query_info x) as [xi|] eqn:Ex; [|done]. destruct (add_query gi ii) as [q|] eqn:Eq; [|done].
    pose proof (query_info_for _ _ _ _ _ _ HI G g gi G1 G2 Eg) as Hg.
    pose proof (query_info_for _ _ _ _ _ _ HI J i ii J1 J2 Ei) as Hi.
    pose proof (query_info_for _ _ _ _ _ _ HI X x xi X1 X2 Ex) as Hx.
    pose proof (proj2 (query_info_from_some _ _ _ _ _ _ HI G g QEmpty [] G1 G2 eq_refl eq_refl) gi Eg) as Ng.
    pose proof (proj2 (query_info_from_some _ _ _ _ _ _ HI J i QEmpty [] J1 J2 eq_refl eq_refl) ii Ei) as Ni.
    rewrite required_app. eapply group_range_of; [by eapply add_query_for|done|].
    rewrite app_length. by eapply add_query_size.
  Qed.

  (** What the window holds. *)
  Lemma window_mem T U lo hi P :
    dense_range s ds am grp loose T U lo hi P → whole T U lo hi ∨ of_group T U lo hi ∨ of_groups T U lo hi →
    (∃ t, T = [t] ∧ U = [] ∧ ∀ e, e ∈ drop lo P ↔ is_Some (row_of am e !! t)) ∨
    (∃ k gk, U = [] ∧ 2 ≤ length T ∧ gs !! k = Some gk ∧ types_at s T (g_start (g_meta gk)) (g_end (g_meta gk)) ∧
       ∀ e, e ∈ drop lo P ↔ mem gs ds k e) ∨
    (∃ k gp gc, U ≠ [] ∧ gs !! k = Some gp ∧ gs !! S k = Some gc ∧ g_start (g_meta gp) = g_start (g_meta gc) ∧
      g_end (g_meta gp) = g_nstart (g_meta gc) ∧ types_at s T (g_start (g_meta gp)) (g_end (g_meta gp)) ∧
      types_at s U (g_nstart (g_meta gc)) (g_end (g_meta gc)) ∧
      ∀ e, e ∈ drop lo P ↔ mem gs ds k e ∧ ¬ mem gs ds (S k) e).
  Proof using HI.
    intros HD HW. pose proof (ci_ginv _ _ _ _ _ _ HI) as HG. pose proof (dense_nodup _ _ _ _ _ _ HI _ _ _ _ _ HD) as Hnd.
    assert (HP : ∀ k g, gs !! k = Some g → types_at s T (g_start (g_meta g)) (g_end (g_meta g)) → hi = g_len g →
      ∃ d, ds !! g_start (g_meta g) = Some d ∧ P = take (g_len g) d.*1).
    { intros k g Hk [_ HT] ->. destruct (ginv_range _ _ HG _ _ Hk) as (?&?&?).
      destruct (HT (g_start (g_meta g))) as (t & m & Ht & Hm & <-); [lia|].
      destruct (dr_pre _ _ _ _ _ _ _ _ _ _ HD t Ht) as (m' & d & Hm' & Hd & <-). assert (m' = m) as -> by congruence. eauto. }
    destruct HW as [(-> & t & m & d & -> & Hm & Hd & -> & ->)|[(-> & Hn & k & gk & Hk & HT & -> & ->)|(Hu & k & gp & gc & Hp & Hc & Hs & He & HT & HU & -> & ->)]].
    - left. exists t. split_and!; try done. intros e. rewrite drop_0.
      destruct (dr_pre _ _ _ _ _ _ _ _ _ _ HD t) as (m' & d' & Hm' & Hd' & <-); [by left|].
      assert (m' = m) as -> by congruence. assert (d' = d) as -> by congruence.
      rewrite firstn_all2 by (rewrite fmap_length; lia). rewrite elem_fst_pair. unfold is_Some. setoid_rewrite <-am_has_row.
      by setoid_rewrite (ci_data _ _ _ _ _ _ HI t m d e _ Hm Hd).
    - right; left. exists k, gk. split_and!; try done. intros e. rewrite drop_0.
      destruct (HP k gk Hk HT eq_refl) as (d & Hd & ->).
      apply (mem_prefix _ _ _ _ _ _ HI k gk (g_start (g_meta gk)) d e Hk); [by eapply in_group_start|done].
    - right; right. exists k, gp, gc. split_and!; try done. intros e.
      destruct (HP k gp Hp HT eq_refl) as (d & Hd & HPd).
      pose proof (in_group_start _ _ HG k gp Hp) as Hst.
      assert (Hst' : in_group gc (g_start (g_meta gp))) by (rewrite Hs; by eapply in_group_start).
      assert (Hlen : g_len gc ≤ g_len gp) by (eapply (gi_nest _ _ HG k (S k)); try done; lia).
      rewrite <-(mem_prefix _ _ _ _ _ _ HI k gp _ d e Hp Hst Hd), <-(mem_prefix _ _ _ _ _ _ HI (S k) gc _ d e Hc Hst' Hd).
      replace (take (g_len gc) d.*1) with (take (g_len gc) P) by (rewrite HPd, take_take; f_equal; lia).
      rewrite <-HPd. rewrite <-(take_drop (g_len gc) P) in Hnd. apply NoDup_app in Hnd as (_ & Hdis & _).
      rewrite <-(take_drop (g_len gc) P) at 2. rewrite elem_of_app. naive_solver.
  Qed.
End range.

(** ** Queries *)

Lemma iter_range cs g i x lo hi ents g' :
  query_iter cs g i x = Ok (IDense lo hi ents g') → get_group_range cs g i x = Ok (Some (lo, hi)).
Proof.
  unfold query_iter. intros H. destruct (get_group_range cs g i x) as [[[a b]|]| |]; simpl in H; [..|done|done];
    repeat (match type of H with
            | (match ?y with _ => _ end) = _ => destruct y
            | mbind _ ?y = _ => destruct y
            | context [match ?y with _ => _ end] => destruct y
            end; simpl in H; try done); by simplify_eq.
Qed.

Section yield.
  Context (w : world) (s : sstate) (ds : list dense) (HI : winv w s ds) (l : layout) (HL : laid_out l (w_comps w)).
  Context (F : files) (HF : files_ok l w F).
  Local Notation L := (layout_groups l).

  Lemma same_group g h a b : L !! a = Some g → L !! b = Some h → same_types g h → a = b.
  Proof using HI HL.
    intros Ha Hb Hs. destruct HI as [_ HC].
    destruct (group_at _ _ HL a g Ha) as (ga & _ & Hga). destruct (group_at _ _ HL b h Hb) as (gb & _ & Hgb).
    assert (inside g h) as H1 by (intros t Ht; by apply Hs). assert (inside h g) as H2 by (intros t Ht; by apply Hs).
    apply (sub_covers _ _ _ _ _ _ HC l HL a b _ _ Hga Hgb g h Ha Hb) in H1 as [Es H1].
    apply (sub_covers _ _ _ _ _ _ HC l HL b a _ _ Hgb Hga h g Hb Ha) in H2 as [_ H2].
    eapply (end_inj _ _ _ _ _ _ HC a b); try done. lia.
  Qed.

  Lemma next_excludes g h U : next_group L g h → (∀ t, t ∈ U ↔ t ∈ h ∧ t ∉ g) → U ≠ [].
  Proof using Type.
    intros (_ & _ & _ & Hni & _) HU ->. apply Hni. intros t Ht. destruct (decide (t ∈ g)) as [|Hn]; [done|].
    by pose proof (proj2 (HU t) (conj Ht Hn)) as ?%elem_of_nil.
  Qed.

  Lemma mem_filed k g e : L !! k = Some g → mem (cs_groups (w_comps w)) ds k e ↔ e ∈ F g.
  Proof using HI HF.
    intros Hk. rewrite <-(HF k g e Hk). symmetry. apply (member_mem _ ds). apply HI.
  Qed.

  Lemma query_yields G J X : query_ok s G J X →
    ∃ es its dn, query_all w G J X = Ok its ∧
      Forall2 (λ e it, items_ok (w_comps w) ds (s_map s) e G it) es its ∧
      visits (s_map s) (s_grouped s) (s_loose s) G J X dn es ∧ yields L s F G J X es.
  Proof using HI HL HF.
    intros [Hreg Hnc]. pose proof HI as [_ HC]. unfold query_all.
    destruct (borrow3_ok w ds _ _ _ _ HC G J X) as [[Hn _]|(g & i & x & _ & _ & -> & [G1 G2] & [J1 J2] & [X1 X2])].
    { by destruct Hn. }
    destruct (query_iter_ok _ _ _ _ _ _ HC G J X g i x) as (it & Eit & Hit); try done. rewrite Eit.
    destruct (get_group_range_ok _ _ _ _ _ _ HC G J X g i x) as (r & Er & _); try done.
    pose proof (get_group_range_iff _ _ _ _ _ _ HC l HL G J X g i x r G1 G2 J1 J2 X1 X2 Er) as Hiff.
    destruct it as [ents x' i' g'|lo hi ents g'].
    - assert (¬ dense_by L (required (G ++ J)) (required X)) as Hnd.
      { intros Hd%Hiff. destruct Hd as [[lo hi] ->]. unfold query_iter in Eit. rewrite Er in Eit. simpl in Eit.
        repeat (match type of Eit with
                | (match ?y with _ => _ end) = _ => destruct y
                | context [match ?y with _ => _ end] => destruct y
                end; simpl in Eit; try done). }
      destruct (iter_fold_ok _ _ _ _ _ _ HC G J X g i x _ G1 J1 X1 Hit) as (es & its & -> & Hits & HV).
      exists es, its, false. split_and!; try done. unfold yields. split_and!.
      + intros t HT HU. destruct Hnd. left. by rewrite HT.
      + intros h Hh HT _ HU. destruct Hnd. right; left. eauto.
      + intros h h' Hn HT HU. destruct Hnd. right; right. eauto 10.
      + intros _ Hp. by apply visits_sparse_exact.
    - pose proof (iter_range _ _ _ _ _ _ _ _ Eit) as Er'. assert (r = Some (lo, hi)) as -> by congruence.
      assert (dense_by L (required (G ++ J)) (required X)) as Hd by (apply Hiff; eauto).
      destruct Hit as (-> & P & HD & Hp & _).
      destruct (dense_fold_ok _ _ _ _ _ _ HC G g _ _ lo hi P ents HD) as (its & Hf & Hits); try done.
      { rewrite required_app. set_solver. }
      exists (drop lo P), its, true. split_and!; [done|done|by eapply dense_visits|].
      pose proof (get_group_range_of _ _ _ _ _ _ HC G J X g i x lo hi G1 G2 J1 J2 X1 X2 Er) as Hof.
      pose proof (window_mem _ _ _ _ _ _ HC _ _ _ _ _ HD Hof) as Hw.
      unfold yields. split_and!; [..|done].
      + intros t HT HU. destruct Hw as [(t' & HT' & _ & H)|[(k & gk & _ & Hn & _)|(k & gp & gc & Hu & _)]].
        * rewrite HT in HT'. simplify_eq. exact H.
        * rewrite HT in Hn. simpl in Hn. lia.
        * done.
      + intros h Hh HT Hn HU e. destruct Hw as [(t' & HT' & _ & _)|[(k & gk & _ & _ & Hk & HTk & H)|(k & gp & gc & Hu & _)]].
        * by rewrite HT' in Hn.
        * apply elem_of_list_lookup in Hh as [k' Hk']. rewrite H.
          destruct (Forall2_lookup_l _ _ _ _ _ HL (ci_groups_meta _ _ _ Hk)) as (g' & Hg' & _).
          apply (types_at_group _ _ _ _ _ _ HC l HL k _ g' _ (ci_groups_meta _ _ _ Hk) Hg') in HTk.
          assert (k' = k) as -> by (eapply same_group; [done..|]; intros t; by rewrite <-(HT t), <-(HTk t)).
          by apply mem_filed.
        * done.
      + intros h h' Hn HT HU e. pose proof (next_excludes _ _ _ Hn HU) as Hne.
        destruct Hw as [(t' & _ & HU' & _)|[(k & gk & HU' & _)|(k & gp & gc & _ & Hk & HSk & Hs & He & HTk & _ & H)]]; [done..|].
        apply (next_group_iff _ _ _ _ _ _ HC l HL) in Hn as (k' & _ & _ & _ & _ & Lk & LSk & _ & _).
        destruct (Forall2_lookup_l _ _ _ _ _ HL (ci_groups_meta _ _ _ Hk)) as (g' & Hg' & _).
        apply (types_at_group _ _ _ _ _ _ HC l HL k _ g' _ (ci_groups_meta _ _ _ Hk) Hg') in HTk.
        assert (k' = k) as -> by (eapply same_group; [done..|]; intros t; by rewrite <-(HT t), <-(HTk t)).
        by rewrite H, (mem_filed k h e Lk), (mem_filed (S k) h' e LSk).
  Qed.
End yield.

Lemma history_yields l ts evs w s G J X :
  good_history_of l ts evs w s → query_ok s G J X →
  ∃ es its, query_all w G J X = Ok its ∧ NoDup es ∧ answers s G es its ∧
    yields (layout_groups (layout_after l evs)) s (files_after l ts evs) G J X es.
Proof.
  intros Hh Hq. pose proof (history_files_after _ _ _ _ _ Hh) as HF.
  destruct (good_of_inv _ _ _ _ _ Hh) as (_ & (ds & HI) & HL).
  destruct (query_yields w s ds HI _ HL _ HF G J X Hq) as (es & its & dn & H1 & H2 & H3 & H4).
  exists es, its. split_and!; try done; [apply H3|]. by eapply items_answers.
Qed.

(** ** What is filed *)

Lemma history_filed l ts evs w s g e :
  good_history_of l ts evs w s → g ∈ layout_groups (layout_after l evs) →
  (e ∈ files_after l ts evs g → e ∈ complete s g) ∧
  (e ∈ complete s g → e ∉ s_loose s → e ∈ files_after l ts evs g).
Proof.
  intros Hh [k Hk]%elem_of_list_lookup. pose proof (history_files_after _ _ _ _ _ Hh k g e Hk) as HF.
  destruct (good_of_inv _ _ _ _ _ Hh) as (_ & (ds & HI) & HL).
  rewrite <-HF, <-(full_complete _ _ _ _ _ _ _ HI HL Hk). destruct HI as [_ HC]. split.
  - by eapply member_full.
  - intros Hf Hn. apply (member_mem _ ds); [apply HC|]. apply (full_has _ ds) in Hf as (gr & Hgr & H); [|apply HC].
    by eapply (ci_complete _ _ _ _ _ _ HC).
Qed.

(** ** After an insertion that returned *)

Lemma history_repaired l ts evs e cs ds w s g G J :
  good_history_of l ts (evs ++ [(OInsert e cs, Ret (RBool true), ds)]) w s →
  g ∈ layout_groups (layout_after l evs) → meets g cs.*1 → e ∈ complete s g →
  query_ok s G J [] → same_types (required (G ++ J)) g →
  ∃ es its, query_all w G J [] = Ok its ∧ NoDup es ∧ answers s G es its ∧ e ∈ es.
Proof.
  intros Hh Hg Hm He Hq HT. pose proof (history_filed _ _ _ _ _ g e Hh) as Hfd.
  destruct (history_yields _ _ _ _ _ G J [] Hh Hq) as (es & its & H1 & H2 & H3 & Hy).
  assert (layout_after l (evs ++ [(OInsert e cs, Ret (RBool true), ds)]) = layout_after l evs) as El.
  { unfold layout_after. by rewrite ?foldl_app, ?fold_left_app. }
  rewrite El in *. exists es, its. split_and!; try done.
  destruct (decide (length (required (G ++ J)) = 1)) as [Hone|Hone].
  - destruct (required (G ++ J)) as [|t [|]] eqn:Er; try done. destruct Hy as (Hy & _).
    apply (Hy t); [done|done|]. apply elem_of_complete in He as [_ He]. apply He, HT. by left.
  - destruct Hy as (_ & Hy & _). apply (Hy g); try done.
    destruct (history_files _ _ _ _ _ Hh) as (F & HR & _). unfold files_after. revert HR. rewrite files_run_last.
    destruct (files_run (s_init l ts, l, λ _, ∅) evs) as [[s0 l0] F0]. cbn [snd files_step]. rewrite El.
    generalize (client_step s0 (OInsert e cs) (Ret (RBool true))). intros s1 HR. injection HR as -> -> _. unfold refile.
    assert (concerns (layout_groups (layout_after l evs)) cs.*1 g = true) as ->.
    { apply concerns_spec. exists g. split_and!; [done|by intros ?|done]. }
    set_solver.
Qed.

(** ** After a caught panic *)

Lemma caught_panic_yields l ts evs w s o es ds w' G J X :
  good_history_of l ts evs w s → op_ok o → step w o = (Panicked es, ds, w') → good_side s o (Panicked es) →
  let s' := client_step s o (Panicked es) in query_ok s' G J X →
  ∃ es' its, query_all w' G J X = Ok its ∧ NoDup es' ∧ answers s' G es' its ∧
    yields (layout_groups (layout_after l evs)) s' (files_after l ts evs) G J X es'.
Proof.
  intros Hh Hok Hstep Hside s' Hq.
  assert (Hh' : good_history_of l ts (evs ++ [(o, Panicked es, ds)]) w' s').
  { destruct Hh as (gs & w0 & H1 & H2 & Hh). exists gs, w0. split_and!; try done. by econstructor. }
  destruct (history_yields _ _ _ _ _ G J X Hh' Hq) as (es' & its & H1 & H2 & H3 & H4).
  exists es', its. split_and!; try done.
  destruct (good_of_inv _ _ _ _ _ Hh) as (Hsv & (dd & HI) & _).
  destruct (step_inv _ _ _ _ _ _ _ HI Hsv Hok Hstep Hside) as (Hall & _).
  assert (layout_after l (evs ++ [(o, Panicked es, ds)]) = layout_after l evs) as El.
  { unfold layout_after. rewrite foldl_app. cbn [foldl fst]. destruct o; try done.
    destruct Hside as [Hfit _]. cbn [allowed] in Hall. by rewrite decide_True in Hall by exact Hfit. }
  rewrite El in H4. revert H4. unfold files_after. rewrite files_run_last.
  destruct (files_run (s_init l ts, l, λ _, ∅) evs) as [[s0 l0] F0]. cbn [snd].
  by replace (files_step (layout_groups l0) (client_step s0 o (Panicked es)) o (Panicked es) F0) with F0 by (by destruct o).
Qed.

Lemma good_run_of gs ts ops l :
  add_groups [] gs = Some l →
  bool_decide (is_Some (exec_built good_sideb gs ts ops)) = true →
  let x := good_run gs ts ops in good_history_of l ts (r_evs x) (r_w x) (r_s x).
Proof.
  intros Hl H%run_or_eq. unfold good_run. destruct (run_or _) as [[evs w] s]. simpl.
  unfold exec_built in H. rewrite Hl in H. destruct (builder_build l ts) as [w0|] eqn:Hw; [|done].
  exists gs, w0. split_and!; try done.
  change evs with ([] ++ evs). eapply exec_history; [apply good_sideb_ok|constructor|done].
Qed.
