(** Slices against iteration. *)
From Verif Require Import Base Lists SparseVecM EntityM CssM MaskM LayoutM GroupM StorageM WorldM QueryM ParM StepM
  SparseProofs CssProofs MaskProofs GroupProofs Spec SpecMore SpecQuery EntityProofs LayoutProofs StorageProofs
  StoreOps LayoutOps WorldProofs QueryProofs QueryRange QueryIter ForEachProofs History Lockstep.

(** ** Slices *)

Section slice.
  Context (s : cstore) (ds : list dense) (am : amap) (reg grp : gset tid) (loose : gset entity).
  Context (HI : cinv s ds am reg grp loose).

  Lemma part_slice_at T U lo hi P ents p v :
    dense_range s ds am grp loose T U lo hi P → take hi ents = P → hi ≤ length ents →
    view_ok s p v → (∀ t, part_required p → part_tid p = Some t → t ∈ T) →
    ∃ x, part_slice_raw v ents lo hi = Ok x ∧ slice_kind p x ∧ slice_length x (hi - lo) ∧
      (part_tid p = None → x = SEnts (drop lo P)) ∧
      (∀ t, part_required p → part_tid p = Some t →
         ∃ m d, cs_meta s !! t = Some m ∧ ds !! m_index m = Some d ∧ hi ≤ length d ∧ x = SVals t (take (hi - lo) d.*2)).
  Proof using HI.
    intros HD Hp Hlen Hv HT. pose proof (dr_le _ _ _ _ _ _ _ _ _ _ HD) as Hle.
    unfold part_slice_raw. rewrite (proj1 Hv).
    assert (Hval : ∀ t, part_tid p = Some t → t ∈ T →
      ∃ m d, cs_meta s !! t = Some m ∧ ds !! m_index m = Some d ∧ hi ≤ length d ∧
        buf_slice (c_comps (pv_css v)) (hi - lo) = Ok (take (hi - lo) d.*2)).
    { intros t Ht HtT. destruct (view_rep _ _ _ _ _ _ HI p v t Hv Ht) as (m & d & Hm & Hc & Hd & Hr & _).
      destruct (dr_pre _ _ _ _ _ _ _ _ _ _ HD t HtT) as (m' & d' & Hm' & Hd' & Hpre). simplify_eq.
      pose proof (dr_len _ _ _ _ _ _ _ _ _ _ HD) as Hl. rewrite <-Hpre, take_length, fmap_length in Hl.
      exists m, d. split_and!; try done; [lia|]. apply css_slice_prefix; [done|lia]. }
    assert (Hdrop : take (hi - lo) (drop lo ents) = drop lo P).
    { rewrite <-Hp, skipn_firstn_comm. done. }
    assert (Hdl : length (drop lo P) = hi - lo).
    { rewrite drop_length, (dr_len _ _ _ _ _ _ _ _ _ _ HD). done. }
    destruct p as [|t|t|t|t].
    - rewrite (proj2 (Nat.leb_le _ _) Hle), (proj2 (Nat.leb_le _ _) Hlen). simpl. rewrite Hdrop.
      eexists. split_and!; try done. unfold slice_length. simpl. by rewrite map_length.
    - rewrite (proj2 (Nat.ltb_ge hi lo) Hle).
      destruct (Hval t) as (m & d & Hm & Hd & Hn & ->); [done|by apply HT|]. simpl.
      eexists. split_and!; try done.
      + unfold slice_length. simpl. rewrite map_length, take_length, fmap_length. lia.
      + intros ? _ [= <-]. by exists m, d.
    - rewrite (proj2 (Nat.ltb_ge hi lo) Hle).
      destruct (Hval t) as (m & d & Hm & Hd & Hn & ->); [done|by apply HT|]. simpl.
      eexists. split_and!; try done.
      + unfold slice_length. simpl. rewrite map_length, take_length, fmap_length. lia.
      + intros ? _ [= <-]. by exists m, d.
    - eexists. split_and!; try done; by intros.
    - eexists. split_and!; try done; by intros.
  Qed.

  Lemma parts_slice_at T U lo hi P ents q vs :
    dense_range s ds am grp loose T U lo hi P → take hi ents = P → hi ≤ length ents →
    Forall2 (view_ok s) q vs → required q ⊆ T →
    ∃ sl, all_ok (λ v, part_slice_raw v ents lo hi) vs = Ok sl ∧
      Forall2 (λ p x, slice_kind p x ∧ slice_length x (hi - lo) ∧ (part_tid p = None → x = SEnts (drop lo P)) ∧
        (∀ t, part_required p → part_tid p = Some t →
         ∃ m d, cs_meta s !! t = Some m ∧ ds !! m_index m = Some d ∧ hi ≤ length d ∧ x = SVals t (take (hi - lo) d.*2))) q sl.
  Proof using HI.
    intros HD Hp Hlen HF. induction HF as [|p v q vs Hv _ IH]; intros HT; [by exists []|]. simpl.
    destruct (part_slice_at T U lo hi P ents p v HD Hp Hlen Hv) as (y & -> & Hy).
    { intros t Hpr Ht. apply HT. rewrite (required_cons_req p q t Hpr Ht). by left. }
    destruct IH as (sl & -> & Hsl).
    { intros t Ht. apply HT. destruct p; simpl; try done; by right. }
    exists (y :: sl). split; [done|]. by constructor.
  Qed.

  Lemma query_slice_ok G J X g i x :
    Forall2 (view_ok s) G g → Forall2 (view_info s) G g →
    Forall2 (view_ok s) J i → Forall2 (view_info s) J i →
    Forall2 (view_ok s) X x → Forall2 (view_info s) X x →
    ∃ r it, query_slice s g i x = Ok r ∧ query_iter s g i x = Ok it ∧
      match r with
      | None => iter_dense it = false
      | Some sl => ∃ its, iter_dense it = true ∧ iter_fold it = Ok its ∧ Forall2 slice_kind G sl ∧
          Forall (λ x, slice_length x (length its)) sl ∧
          ∀ k x, sl !! k = Some x → required X = [] ∨ G !! k = Some PEntity → shows_column k x its
      end.
  Proof using HI.
    intros G1 G2 J1 J2 X1 X2.
    destruct (query_iter_ok _ _ _ _ _ _ HI G J X g i x) as (it & Hit & Hok); try done.
    unfold query_slice. unfold query_iter in Hit.
    destruct (get_group_range_ok _ _ _ _ _ _ HI G J X g i x) as (r & Hr & HP); try done. rewrite Hr in *.
    destruct r as [[lo hi]|].
    2:{ exists None, it. split_and!; try done.
        - unfold query_iter. by rewrite Hr.
        - destruct (shortest_entities None g), (shortest_entities None i), (shortest_entities None x); simplify_eq; done. }
    destruct HP as [P HP].
    assert (query_iter s g i x = Ok it) as Hqi by (unfold query_iter; by rewrite Hr).
    destruct (first_entities_ok _ _ _ _ _ _ HI G g G1) as (ge & Hge & Hge').
    destruct (shortest_entities_ok _ _ _ _ _ _ HI J i J1) as (ie & Hie & Hie'). rewrite Hge, Hie in *.
    assert (∃ l, it = IDense lo hi l g ∧
      match ge, ie with Some l, _ => l | None, Some l => l | None, None => [] end = l) as (l & -> & ->).
    { destruct ge as [l|], ie as [l'|]; simplify_eq; eauto. }
    simpl in Hok. destruct Hok as (_ & P' & HP' & Htake & Hlen).
    assert (P' = P) as ->.
    { pose proof (dr_some _ _ _ _ _ _ _ _ _ _ HP) as HT. destruct (required (G ++ J)) as [|t T]; [done|].
      destruct (dr_pre _ _ _ _ _ _ _ _ _ _ HP t) as (? & ? & ? & ? & Ha); [by left|].
      destruct (dr_pre _ _ _ _ _ _ _ _ _ _ HP' t) as (? & ? & ? & ? & Hb); [by left|]. simplify_eq. done. }
    assert (HrG : required G ⊆ required (G ++ J)) by (rewrite required_app; set_solver).
    destruct (dense_fold_ok _ _ _ _ _ _ HI G g _ _ lo hi P l HP HrG G1 Htake) as (its & Hf & HF).
    assert (Hlens : length its = hi - lo).
    { rewrite <-(Forall2_length _ _ _ HF), drop_length, (dr_len _ _ _ _ _ _ _ _ _ _ HP). done. }
    destruct (parts_slice_at _ _ lo hi P l G g HP Htake Hlen G1 HrG) as (sl & -> & HS).
    exists (Some sl), (IDense lo hi l g). split_and!; try done. exists its. split_and!; try done.
    - eapply Forall2_impl; [exact HS|]. naive_solver.
    - apply Forall_lookup. intros k y Hy. destruct (Forall2_lookup_r _ _ _ _ _ HS Hy) as (p & _ & _ & Hl & _).
      by rewrite Hlens.
    - intros k y Hy Hcase. destruct (Forall2_lookup_r _ _ _ _ _ HS Hy) as (p & Hp & Hk & Hl & He & Hv).
      unfold shows_column, column.
      assert (Hcol : ∀ e it j, its !! j = Some it → drop lo P !! j = Some e → ∃ a, it !! k = Some a ∧ item_ok s ds am e p a).
      { intros e it j Hj Hej. pose proof (Forall2_lookup_lr _ _ _ _ _ _ HF Hej Hj) as Hio.
        destruct (Forall2_lookup_l _ _ _ _ _ Hio Hp) as (a & Ha & Hia). eauto. }
      assert (Hvals : ∀ t vl, p = PRef t ∨ p = PMut t → y = SVals t vl →
        map Some (map (AVal t) vl) = map (λ it, option_map abs_item (it !! k)) its).
      { intros t vl Hpt ->.
        assert (HX : required X = []) by (destruct Hcase; [done|destruct Hpt; congruence]).
        pose proof (dr_zero _ _ _ _ _ _ _ _ _ _ HP HX) as ->.
        destruct (Hv t) as (m & d & Hm & Hd & _ & [= ->]); [by destruct Hpt as [->| ->]..|]. rewrite Nat.sub_0_r.
        assert (HtT : t ∈ required (G ++ J)).
        { apply HrG. apply elem_of_list_omap. exists p. split; [by eapply elem_of_list_lookup_2|].
          by destruct Hpt as [->| ->]. }
        apply list_eq. intros j. rewrite !list_lookup_fmap.
        destruct (drop 0 P !! j) as [e|] eqn:Ej; simpl.
        - destruct (Forall2_lookup_l _ _ _ _ _ HF Ej) as (it & Hj & _). rewrite Hj. simpl.
          destruct (Hcol e it j Hj Ej) as (a & -> & Ha). rewrite drop_0 in Ej.
          destruct (dense_prefix_at _ _ _ _ _ _ _ _ _ _ j e t HP HtT Ej) as [v'' Hc'].
          assert (∃ i' v', a = IRef t i' v' ∧ cell s ds t e i' v') as (i' & v' & -> & Hcell).
          { destruct Hpt as [->| ->], a as [|t' i' v'|]; simpl in Ha; try done; destruct Ha as [-> Ha]; eauto. }
          destruct (cell_fun _ _ _ _ _ _ HI _ _ _ _ _ _ Hcell Hc') as [-> ->]. simpl.
          destruct Hc' as (m' & d' & Hm' & Hd' & Hjd). assert (m' = m) as -> by congruence. assert (d' = d) as -> by congruence.
          apply lookup_lt_Some in Ej. rewrite (dr_len _ _ _ _ _ _ _ _ _ _ HP) in Ej.
          rewrite lookup_take by lia. by rewrite list_lookup_fmap, Hjd.
        - rewrite drop_0 in Ej. apply lookup_ge_None in Ej. rewrite (dr_len _ _ _ _ _ _ _ _ _ _ HP) in Ej.
          rewrite (lookup_ge_None_2 its) by lia. rewrite lookup_ge_None_2; [done|]. rewrite take_length. lia. }
      destruct p as [|t|t|t|t]; destruct y as [el|t' vl|]; simpl in Hk; try done; simpl.
      + specialize (He eq_refl). injection He as ->. clear Hy Hl Hvals. apply list_eq. intros j. rewrite !list_lookup_fmap.
        destruct (drop lo P !! j) as [e|] eqn:Ej; simpl.
        * destruct (Forall2_lookup_l _ _ _ _ _ HF Ej) as (it & Hj & _). rewrite Hj. simpl.
          destruct (Hcol e it j Hj Ej) as (a & -> & Ha). destruct a; simpl in Ha; try done. by subst.
        * apply lookup_ge_None in Ej. rewrite (lookup_ge_None_2 its); [done|]. rewrite Hlens.
          rewrite drop_length, (dr_len _ _ _ _ _ _ _ _ _ _ HP) in Ej. lia.
      + subst t'. by apply (Hvals t vl); auto.
      + subst t'. by apply (Hvals t vl); auto.
  Qed.
End slice.

Lemma inv_slice w s ds G J X :
  winv w s ds → query_ok s G J X →
  ∃ r its dn, query_all_slice w G J X = Ok r ∧ query_all w G J X = Ok its ∧ query_is_dense w G J X = Ok dn ∧
    dn = bool_decide (is_Some r) ∧
    ∀ sl, r = Some sl → Forall2 slice_kind G sl ∧ Forall (λ x, slice_length x (length its)) sl ∧
      ∀ k x, sl !! k = Some x → required X = [] ∨ G !! k = Some PEntity → shows_column k x its.
Proof.
  intros HI Hq. pose proof HI as [HE HC]. destruct (query_all_at w s ds G J X HI Hq) as (_ & its & dn & Hall & Hdn & _).
  unfold query_all, query_is_dense, query_all_slice in *. pose proof Hq as [Hreg Hnc].
  destruct (borrow3_ok w ds _ _ _ _ HC G J X) as [[Hn _]|(g & i & x & _ & _ & Hb & [G1 G2] & [J1 J2] & [X1 X2])].
  { by destruct Hn. }
  rewrite Hb in *.
  destruct (query_slice_ok _ _ _ _ _ _ HC G J X g i x) as (r & it & -> & Hit & Hr); try done.
  rewrite Hit in *. exists r, its, dn. split_and!; try done.
  - destruct r as [sl|]; [destruct Hr as (? & Hd & _)|rename Hr into Hd]; destruct it; simpl in *; simplify_eq; done.
  - intros sl ->. destruct Hr as (its' & _ & Hf & H1 & H2 & H3). rewrite Hf in Hall. by simplify_eq.
Qed.
