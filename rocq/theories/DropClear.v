(** [clear] and [reset] when a [Drop] panics: exactly what is left. *)
From Verif Require Import Base Lists SparseVecM EntityM CssM MaskM LayoutM GroupM StorageM WorldM QueryM StepM DropPanicM
  EntityProofs CssProofs Spec SpecMore SpecDrop StorageProofs WorldProofs Contents History DropPanicProofs DropWorld.

Lemma clear_each_p_at bomb comps ds : Forall2 css_rep comps ds → existsb bomb (stored ds) = true →
  ∃ k c d b cs', comps !! k = Some c ∧ ds !! k = Some d ∧ existsb bomb d.*2 = true ∧
    (∀ j dj, j < k → ds !! j = Some dj → existsb bomb dj.*2 = false) ∧
    length cs' = k ∧ Forall (λ c', css_rep c' []) cs' ∧ b !! 0 = Some None ∧
    clear_each_p bomb comps = Ok (true, cs' ++ Css [] (c_ents c) b (c_len c) (c_cap c) :: drop (S k) comps,
      concat ((λ d, d.*2) <$> take k ds) ++ until_bomb bomb d.*2).
Proof.
  induction 1 as [|c d comps ds Hr _ IH]; [done|]. unfold stored in *. simpl. rewrite existsb_app.
  pose proof (css_clear_p_ok bomb c d Hr) as H. destruct (existsb bomb d.*2) eqn:Hb; simpl.
  - intros _. assert (buf_slice (c_comps c) (c_len c) = Ok d.*2) as Hs by by apply css_slice_ok.
    destruct (drop_cells_until bomb (c_len c) (c_comps c) 0 d.*2 Hs) as [b Hu].
    pose proof (drop_cells_ok bomb (c_len c) (c_comps c) 0 d.*2 Hs) as H'. rewrite Hb, Hu in H'.
    destruct H' as (b' & vs & rest & Hbb & _ & H3 & _). assert (b' = b) as -> by congruence.
    exists 0, c, d, b, []. unfold css_clear_p. rewrite Hu, Hb. simpl. split_and!; try done.
    intros; lia.
  - intros Hb'. destruct H as (c' & -> & Hr'). destruct (IH Hb') as (k & c1 & d1 & b & cs' & Hc & Hd & He & Hn & Hl & Hf & Hh & ->).
    exists (S k), c1, d1, b, (c' :: cs'). split_and!; try done; [|simpl; lia|by constructor|by simpl; rewrite <-(assoc_L (++))].
    intros [|j] dj Hj Hdj; simpl in Hdj; [by simplify_eq|]. apply (Hn j); [lia|done].
Qed.

Lemma clear_exactly_aux w s bomb f ds comps' vs ents : winv w s ds → (∀ t, t ∈ s_reg s → view_slice w t = Ok (f t)) →
  existsb bomb (stored ds) = true → clear_each_p bomb (cs_comps (w_comps w)) = Ok (true, comps', vs) →
  estore_slice ents = [] →
  ∃ t B A, s_reg s = {[t]} ∪ B ∪ A ∧ t ∉ B ∪ A ∧ B ## A ∧
    existsb bomb (f t) = true ∧ (∀ t', t' ∈ B → existsb bomb (f t') = false) ∧
    vs ≡ₚ concat (f <$> elements B) ++ until_bomb bomb (f t) ∧
    half_cleared w (World ents (CStore ((λ g, Grp (g_meta g) 0) <$> cs_groups (w_comps w)) (cs_meta (w_comps w)) comps')) t B A.
Proof.
  intros HI Hf Hb Hc Hents. pose proof HI as [HE HC]. pose proof (ci_static _ _ _ _ _ _ HC) as Hst.
  destruct (clear_each_p_at bomb _ _ (ci_rep _ _ _ _ _ _ HC) Hb)
    as (k & c & d & b & cs' & Hck & Hdk & Hbd & Hpre & Hl & Hcs' & Hhd & Heq).
  rewrite Heq in Hc. injection Hc as <- <-. clear Heq.
  assert (∃ t m, cs_meta (w_comps w) !! t = Some m ∧ m_index m = k) as (t & m & Hm & Hmk).
  { destruct (decide (map_Exists (λ (t : tid) m, m_index m = k) (cs_meta (w_comps w)))) as [(t & m & Ht & Hi)|Hn]; [by exists t, m|].
    exfalso. rewrite (ci_spare _ _ _ _ _ _ HC k d Hdk) in Hbd; [done|]. intros t m Ht Heq. apply Hn. by exists t, m. }
  set (idx := λ t, match cs_meta (w_comps w) !! t with Some m => m_index m | None => 0 end).
  assert (∀ t, t ∈ s_reg s ↔ is_Some (cs_meta (w_comps w) !! t)) as Hreg by apply (ci_reg _ _ _ _ _ _ HC).
  assert (∀ t m, cs_meta (w_comps w) !! t = Some m → idx t = m_index m) as Hidx by (intros t' m' Ht'; unfold idx; by rewrite Ht').
  assert (∀ t m, cs_meta (w_comps w) !! t = Some m → ∃ c d, cs_comps (w_comps w) !! m_index m = Some c ∧
    ds !! m_index m = Some d ∧ css_rep c d ∧ f t = d.*2) as Hlk.
  { intros t' m' Ht'. destruct (ci_lookup _ _ _ _ _ _ HC t' m' Ht') as (c' & d' & Hc' & Hd' & Hrep).
    exists c', d'. split_and!; [done..|]. assert (t' ∈ s_reg s) as Hr by (apply Hreg; by exists m').
    pose proof (Hf t' Hr) as Hv. unfold view_slice, cs_borrow in Hv. rewrite Ht', Hc', (css_slice_ok _ _ Hrep) in Hv. by injection Hv as ->. }
  destruct (Hlk t m Hm) as (c0 & d0 & Hc0 & Hd0 & Hrep0 & Hft). rewrite Hmk in Hc0, Hd0. simplify_eq.
  exists t, (filter (λ t', idx t' < length cs') (s_reg s)), (filter (λ t', length cs' < idx t') (s_reg s)).
  pose proof (Hidx t m Hm) as Hit. split_and!.
  - apply set_eq. intros t'. rewrite !elem_of_union, elem_of_singleton, !elem_of_filter. split.
    + intros Ht'. destruct (Nat.lt_trichotomy (idx t') (length cs')) as [?|[?|?]]; [tauto| |tauto].
      left. left. apply Hreg in Ht' as [m' Hm']. rewrite (Hidx _ _ Hm') in *. eapply (st_inj _ _ _ Hst); [done..|]. congruence.
    + intros [[->|?]|?]; [|tauto..]. apply Hreg. by exists m.
  - rewrite elem_of_union, !elem_of_filter. lia.
  - intros t'. rewrite !elem_of_filter. lia.
  - by rewrite Hft.
  - intros t' [Hlt [m' Hm']%Hreg]%elem_of_filter. destruct (Hlk t' m' Hm') as (c' & d' & _ & Hd' & _ & ->).
    rewrite (Hidx _ _ Hm') in Hlt. by eapply Hpre.
  - rewrite Hft. apply Permutation_app; [|done].
    set (F := λ i, match ds !! i with Some d => d.*2 | None => [] end).
    assert (length cs' ≤ length ds) as Hle by (apply lookup_lt_Some in Hdk; lia).
    assert (((λ d, d.*2) <$> take (length cs') ds) = F <$> seq 0 (length cs')) as ->.
    { apply list_eq. intros i. rewrite !list_lookup_fmap. destruct (decide (i < length cs')).
      - rewrite lookup_take by done. rewrite lookup_seq_lt by done. simpl.
        destruct (lookup_lt_is_Some_2 ds i) as [di Hdi]; [lia|]. unfold F. by rewrite Hdi.
      - rewrite lookup_take_ge by lia. by rewrite lookup_seq_ge by lia. }
    rewrite (concat_at F (length cs') (idx <$> elements (filter (λ t', idx t' < length cs') (s_reg s)))).
    + rewrite <-list_fmap_compose. apply reflexive_eq. f_equal. apply list_fmap_ext. intros i t' Ht'.
      apply elem_of_list_lookup_2, elem_of_elements, elem_of_filter in Ht' as [_ [m' Hm']%Hreg]. simpl.
      destruct (Hlk t' m' Hm') as (c' & d' & _ & Hd' & _ & ->). rewrite (Hidx _ _ Hm'). unfold F. by rewrite Hd'.
    + apply NoDup_fmap_2_strong; [|apply NoDup_elements].
      intros t1 t2 [_ [m1 H1]%Hreg]%elem_of_elements%elem_of_filter [_ [m2 H2]%Hreg]%elem_of_elements%elem_of_filter He.
      rewrite (Hidx _ _ H1), (Hidx _ _ H2) in He. by eapply (st_inj _ _ _ Hst).
    + apply Forall_fmap, Forall_forall. intros t' [Ht' _]%elem_of_elements%elem_of_filter. done.
    + intros i Hi Hn. unfold F. destruct (ds !! i) as [d'|] eqn:Hd'; [|done].
      rewrite (ci_spare _ _ _ _ _ _ HC i d' Hd'); [done|]. intros t' m' Ht' <-. apply Hn.
      apply elem_of_list_fmap. exists t'. rewrite (Hidx _ _ Ht'). split; [done|].
      apply elem_of_elements, elem_of_filter. rewrite (Hidx _ _ Ht'). split; [done|]. apply Hreg. by exists m'.
  - refine (conj _ (conj _ (conj _ _))).
    + done.
    + intros t' [Hlt [m' Hm']%Hreg]%elem_of_filter. rewrite (Hidx _ _ Hm') in Hlt.
      unfold view_entities, view_slice, view_get, cs_borrow. simpl. rewrite Hm', lookup_app_l by done.
      destruct (lookup_lt_is_Some_2 cs' _ Hlt) as [c' Hc']. rewrite Hc'.
      pose proof (Forall_lookup_1 _ _ _ _ Hcs' Hc') as Hr. simpl in Hr.
      split_and!; [by rewrite (css_entities_ok _ _ Hr)|by rewrite (css_slice_ok _ _ Hr)|].
      intros e. unfold css_get. rewrite (css_get_ref_None _ _ Hr); [done|]. apply not_elem_of_nil.
    + unfold view_entities, view_slice, view_get, cs_borrow. simpl. rewrite Hm, Hmk, Hck, list_lookup_middle by done.
      split; [done|split].
      * unfold css_slice. simpl. destruct (c_len c) as [|n] eqn:Hl.
        { by rewrite (css_rep_nil_inv _ _ Hrep0 Hl) in Hbd. }
        destruct b as [|[]]; simpl in *; done.
      * done.
    + intros t' [Hlt [m' Hm']%Hreg]%elem_of_filter. rewrite (Hidx _ _ Hm') in Hlt.
      assert ((cs' ++ Css [] (c_ents c) b (c_len c) (c_cap c) :: drop (S (length cs')) (cs_comps (w_comps w))) !! m_index m'
        = cs_comps (w_comps w) !! m_index m') as He.
      { rewrite lookup_app_r by lia. destruct (m_index m' - length cs') as [|n] eqn:Hn; [lia|]. simpl.
        rewrite lookup_drop. f_equal. lia. }
      unfold view_entities, view_slice, view_get, cs_borrow. simpl. rewrite Hm', He. done.
Qed.

Lemma clear_each_stored comps ds : Forall2 css_rep comps ds → ∃ comps', clear_each comps = Ok (comps', stored ds).
Proof.
  induction 1 as [|c d comps ds Hr _ [l' IH]]; [by eexists|]. simpl. destruct (css_clear_ok c d Hr) as (c' & -> & _). simpl.
  rewrite IH. simpl. by eexists.
Qed.

Lemma no_bombs w s bomb f ds : winv w s ds → (∀ t, t ∈ s_reg s → view_slice w t = Ok (f t)) →
  existsb bomb (stored ds) = false → ∀ t, t ∈ s_reg s → existsb bomb (f t) = false.
Proof.
  intros HI Hf Hb t Ht. pose proof HI as [_ HC]. pose proof Ht as [m Hm]%(ci_reg _ _ _ _ _ _ HC).
  destruct (ci_lookup _ _ _ _ _ _ HC t m Hm) as (c & d & Hc & Hd & Hrep).
  pose proof (Hf t Ht) as Hv. unfold view_slice, cs_borrow in Hv. rewrite Hm, Hc, (css_slice_ok _ _ Hrep) in Hv. injection Hv as <-.
  apply not_true_is_false. intros (v & Hv & Hbv)%existsb_exists. apply not_true_iff_false in Hb. apply Hb, existsb_exists.
  exists v. split; [|done]. apply elem_of_list_In. apply elem_of_list_In in Hv. unfold stored. apply elem_of_list_bind.
  exists d. split; [done|]. by eapply elem_of_list_lookup_2.
Qed.

Lemma clear_exactly w s bomb f out dr w' : reachable w s → (∀ t, t ∈ s_reg s → view_slice w t = Ok (f t)) →
  world_clear_p bomb w = (out, dr, w') →
  (∀ t, t ∈ s_reg s → existsb bomb (f t) = false) ∧ step w OClear = (out, dr, w') ∨
  out = Panicked [] ∧ ∃ t B A, s_reg s = {[t]} ∪ B ∪ A ∧ t ∉ B ∪ A ∧ B ## A ∧
    existsb bomb (f t) = true ∧ (∀ t', t' ∈ B → existsb bomb (f t') = false) ∧
    dr ≡ₚ concat (f <$> elements B) ++ until_bomb bomb (f t) ∧ half_cleared w w' t B A.
Proof.
  intros (_ & ds & HI)%reachable_inv Hf Hs. pose proof HI as [HE HC]. destruct (existsb bomb (stored ds)) eqn:Hb.
  - right. revert Hs. unfold world_clear_p. destruct (estore_clear_ok _ _ HE) as (st' & -> & HE').
    destruct (clear_each_p_bomb bomb _ _ (ci_rep _ _ _ _ _ _ HC) Hb) as (comps' & vs & rest & Hc & Hst & Hub).
    rewrite Hc. intros [= <- <- <-]. split; [done|]. eapply clear_exactly_aux; [done..|].
    apply elem_of_nil_inv. intros e He. apply (ei_dom _ _ HE') in He as [r Hr]. simpl in Hr. by rewrite lookup_empty in Hr.
  - left. split; [by eapply no_bombs|]. revert Hs. simpl. unfold world_clear_p, world_clear, cstore_clear.
    destruct (estore_clear_ok _ _ HE) as (st' & -> & HE').
    destruct (clear_each_stored _ _ (ci_rep _ _ _ _ _ _ HC)) as [comps' Hc]. rewrite Hc, (clear_each_p_none bomb _ _ _ Hc Hb). done.
Qed.

Lemma reset_exactly w s bomb f out dr w' : reachable w s → (∀ t, t ∈ s_reg s → view_slice w t = Ok (f t)) →
  world_reset_p bomb w = (out, dr, w') →
  (∀ t, t ∈ s_reg s → existsb bomb (f t) = false) ∧ step w OReset = (out, dr, w') ∨
  out = Panicked [] ∧ ∃ t B A, s_reg s = {[t]} ∪ B ∪ A ∧ t ∉ B ∪ A ∧ B ## A ∧
    existsb bomb (f t) = true ∧ (∀ t', t' ∈ B → existsb bomb (f t') = false) ∧
    dr ≡ₚ concat (f <$> elements B) ++ until_bomb bomb (f t) ∧ half_cleared w w' t B A.
Proof.
  intros (_ & ds & HI)%reachable_inv Hf Hs. pose proof HI as [HE HC]. destruct (existsb bomb (stored ds)) eqn:Hb.
  - right. revert Hs. unfold world_reset_p.
    destruct (clear_each_p_bomb bomb _ _ (ci_rep _ _ _ _ _ _ HC) Hb) as (comps' & vs & rest & Hc & Hst & Hub).
    rewrite Hc. intros [= <- <- <-]. split; [done|]. by eapply clear_exactly_aux.
  - left. split; [by eapply no_bombs|]. revert Hs. simpl. unfold world_reset_p, world_reset, cstore_clear.
    destruct (clear_each_stored _ _ (ci_rep _ _ _ _ _ _ HC)) as [comps' Hc]. rewrite Hc, (clear_each_p_none bomb _ _ _ Hc Hb). done.
Qed.
