(** Writes through slices, the index operator and [QueryOne::map]. *)
From Verif Require Import Base Lists SparseVecM EntityM CssM MaskM LayoutM GroupM StorageM WorldM QueryM ParM StepM WriteM
  SparseProofs CssProofs MaskProofs GroupProofs Spec SpecMore SpecQuery SpecWrite EntityProofs LayoutProofs StorageProofs
  StoreOps LayoutOps WorldProofs QueryProofs QueryRange QueryIter ForEachProofs History Lockstep Facts SliceFacts IterFacts.

Lemma world_eta w : World (w_ents w) (w_comps w) = w.
Proof. by destruct w. Qed.

(** ** One assignment *)

Lemma set_at_cell w s ds t m d e i old v :
  winv w s ds → cs_meta (w_comps w) !! t = Some m → ds !! m_index m = Some d → d !! i = Some (e, old) →
  ∃ c c', cs_comps (w_comps w) !! m_index m = Some c ∧ css_rep c d ∧ css_set c i v = Ok c' ∧
    buf_read (c_comps c) i = Ok old ∧ css_slice c = Ok d.*2 ∧
    step w (OSet t e v) = (Ret (ROpts [Some old]), [], put_storage w m c').
Proof.
  intros [_ HC] Hm Hd Hi. destruct (ci_lookup _ _ _ _ _ _ HC t m Hm) as (c & d' & Hc & Hd' & Hrep). simplify_eq.
  destruct (css_set_lookup _ _ Hrep i e old v Hi) as (c' & Hset & _).
  destruct (cr_cells _ _ Hrep _ _ _ Hi) as [_ Hcell].
  exists c, c'. split_and!; try done.
  - unfold buf_read. by rewrite Hcell.
  - by apply css_slice_ok.
  - simpl. unfold world_set. by rewrite Hm, Hc, (css_get_ref_lookup _ _ Hrep i e old Hi), Hset.
Qed.

Lemma inv_set_at w s ds t i v : winv w s ds → t ∈ s_reg s →
  ∃ es, view_entities w t = Ok es ∧
    world_set_at w t i v =
      match es !! i with Some e => step w (OSet t e v) | None => (Panicked [], [v], w) end.
Proof.
  intros HI Ht. destruct (inv_view w s ds t HI Ht) as (es & vs & He & _). exists es. split; [done|].
  pose proof HI as [_ HC]. rewrite (ci_reg _ _ _ _ _ _ HC) in Ht. destruct Ht as [m Hm].
  destruct (ci_lookup _ _ _ _ _ _ HC t m Hm) as (c & d & Hc & Hd & Hrep).
  assert (es = d.*1) as ->.
  { unfold view_entities, cs_borrow in He. rewrite Hm, Hc in He. rewrite (css_entities_ok _ _ Hrep) in He. by simplify_eq. }
  unfold world_set_at. rewrite Hm, Hc, (css_slice_ok _ _ Hrep), !list_lookup_fmap.
  destruct (d !! i) as [[e old]|] eqn:Hi; simpl; [|done].
  destruct (set_at_cell w s ds t m d e i old v HI Hm Hd Hi) as (c0 & c' & Hc0 & _ & Hset & _ & _ & Hstep). simplify_eq.
  rewrite Hset. simpl in Hstep. by rewrite Hstep.
Qed.

Lemma reach_set_at w s t i v : reachable w s → t ∈ s_reg s →
  ∃ es, view_entities w t = Ok es ∧
    world_set_at w t i v =
      match es !! i with Some e => step w (OSet t e v) | None => (Panicked [], [v], w) end.
Proof. intros (_ & ds & HI)%reachable_inv. by eapply inv_set_at. Qed.

Lemma reach_set_at_unreg w s t i v : reachable w s → t ∉ s_reg s → world_set_at w t i v = (Panicked [], [v], w).
Proof.
  intros (_ & ds & [_ HC])%reachable_inv Ht. unfold world_set_at.
  destruct (cs_meta (w_comps w) !! t) eqn:E; [|done]. destruct Ht. rewrite (ci_reg _ _ _ _ _ _ HC), E. eauto.
Qed.

Lemma reach_row_reg w s t e v : reachable w s → s_row s e !! t = Some v → t ∈ s_reg s.
Proof.
  intros (_ & ds & [_ HC])%reachable_inv Hv. unfold s_row in Hv. destruct (s_map s !! e) as [r|] eqn:E; simpl in Hv.
  - eapply (ci_types _ _ _ _ _ _ HC e t v). by exists r.
  - by rewrite lookup_empty in Hv.
Qed.

Lemma reach_index w s t e : reachable w s →
  view_index w t e = match s_row s e !! t with Some v => Ok v | None => Panic end.
Proof.
  intros Hr. unfold view_index. rewrite (reach_view_get w s t e Hr). destruct (s_row s e !! t) as [v|] eqn:E.
  - rewrite decide_True; [done|]. by eapply reach_row_reg.
  - by case_decide.
Qed.

Lemma set_index_step w t e v :
  world_set_index w t e v =
    match step w (OSet t e v) with
    | (Ret (ROpts [None]), _, _) => (Panicked [], [v], w)
    | r => r
    end.
Proof.
  simpl. unfold world_set_index, world_set. destruct (cs_meta _ !! t) as [m|]; [|done].
  destruct (cs_comps _ !! m_index m) as [c|]; [|done].
  destruct (css_get_ref c e) as [[[i old]|]| |]; try done. by destruct (css_set c i v).
Qed.

(** ** [QueryOne::map] *)

Definition one_set (p : part) (nv : option val) (e : entity) : list op :=
  match p, nv with PMut t, Some v | POptMut t, Some v => [OSet t e v] | _, _ => [] end.

Lemma winv_assign w s ds e p it nv :
  winv w s ds → cell_ok (w_comps w) ds e p it →
  ∃ c' ds' o n, write_one (w_comps w) p it nv = Ok (c', o, n) ∧
    winv (World (w_ents w) c') (with_map s (alter (assign_one p nv) e (s_map s))) ds' ∧
    wrote (w_comps w) ds c' ds' o n.
Proof.
  intros HI Hc. pose proof HI as [HE HC].
  destruct (s_map s !! e) as [r|] eqn:Hr.
  - destruct (write_one_ok _ _ _ _ _ _ e r p it nv HC Hr Hc) as (c' & ds' & o & n & H1 & H2 & H3).
    exists c', ds', o, n. split_and!; try done. split; simpl.
    + eapply einv_ext; [..|exact HE]; try done. intros e'. symmetry. apply alive_alter.
    + by rewrite (alter_Some _ _ _ r).
  - assert (Hdead : ∀ t m d, cs_meta (w_comps w) !! t = Some m → ds !! m_index m = Some d → e ∉ d.*1).
    { intros t m d Hm Hd (x & Hx)%elem_fst_pair. apply (ci_data _ _ _ _ _ _ HC t m d) in Hx as (r & ? & _); congruence. }
    assert (write_one (w_comps w) p it nv = Ok (w_comps w, [], [])) as ->.
    { destruct p as [|t|t|t|t], it as [|t' i x|t' [[i x]|]], nv as [v|]; simpl; try done;
        destruct Hc as (m & d & Hm & Hd & Hi); destruct (Hdead t m d Hm Hd); by eapply elem_of_list_lookup_2. }
    exists (w_comps w), ds, [], []. split_and!; [done| |apply wrote_refl]. split; simpl.
    + eapply einv_ext; [..|exact HE]; try done. intros e'. symmetry. apply alive_alter.
    + assert (alter (assign_one p nv) e (s_map s) = s_map s) as ->; [|done].
      apply map_eq. intros e'. destruct (decide (e = e')) as [<-|]; [by rewrite lookup_alter, Hr|by rewrite lookup_alter_ne].
Qed.

Lemma write_one_step w s ds e p it nv :
  winv w s ds → cell_ok (w_comps w) ds e p it →
  ∃ outs c' o n, write_one (w_comps w) p it nv = Ok (c', o, n) ∧
    run w (one_set p nv e) = (outs, World (w_ents w) c') ∧ o = replaced outs ∧ n = assigned (one_set p nv e) outs.
Proof.
  intros HI Hc. pose proof HI as [_ HC].
  assert (Hset : ∀ t i v m d, cs_meta (w_comps w) !! t = Some m → ds !! m_index m = Some d → d.*1 !! i = Some e →
    ∃ c c' old, cs_comps (w_comps w) !! m_index m = Some c ∧ buf_read (c_comps c) i = Ok old ∧ css_set c i v = Ok c' ∧
      step w (OSet t e v) = (Ret (ROpts [Some old]), [], put_storage w m c')).
  { intros t i v m d Hm Hd Hi. apply dense_fst_lookup in Hi as [old Hi].
    destruct (set_at_cell w s ds t m d e i old v HI Hm Hd Hi) as (c & c' & ? & ? & ? & ? & ? & ?). eauto 10. }
  assert (Hno : ∀ t v m d, cs_meta (w_comps w) !! t = Some m → ds !! m_index m = Some d → e ∉ d.*1 →
    step w (OSet t e v) = (Ret (ROpts [None]), [v], w)).
  { intros t v m d Hm Hd Hn. destruct (ci_lookup _ _ _ _ _ _ HC t m Hm) as (c & d' & Hc' & Hd' & Hrep). simplify_eq.
    simpl. unfold world_set. by rewrite Hm, Hc', (css_get_ref_None _ _ Hrep e Hn). }
  destruct p as [|t|t|t|t], it as [|t' i x|t' [[i x]|]], nv as [v|]; simpl in Hc |- *;
    try (by destruct Hc as (? & ? & _ & _ & []));
    try (exists [], (w_comps w), [], []; by rewrite world_eta);
    destruct Hc as (m & d & Hm & Hd & Hi).
  - destruct (Hset t i v m d Hm Hd Hi) as (c & c' & old & H1 & H2 & H3 & H4). simpl in H4. rewrite Hm, H1, H2, H3, H4. by do 4 eexists.
  - destruct (Hset t i v m d Hm Hd Hi) as (c & c' & old & H1 & H2 & H3 & H4). simpl in H4. rewrite Hm, H1, H2, H3, H4. by do 4 eexists.
  - pose proof (Hno t v m d Hm Hd Hi) as H4. simpl in H4. rewrite H4. exists [Ret (ROpts [None])], (w_comps w), [], [].
    by rewrite world_eta.
Qed.

Lemma run_app w a b outs1 w1 outs2 w2 :
  run w a = (outs1, w1) → run w1 b = (outs2, w2) → run w (a ++ b) = (outs1 ++ outs2, w2).
Proof.
  revert w outs1. induction a as [|o a IH]; intros w outs1; simpl; [by intros [= <- <-]|].
  destruct (step w o) as [[out dr] w'] eqn:E. destruct (run w' a) as [outs w''] eqn:E'. intros [= <- <-] H2.
  by rewrite (IH w' outs E' H2).
Qed.

Lemma run_length w a : length (run w a).1 = length a.
Proof.
  revert w. induction a as [|o a IH]; intros w; simpl; [done|]. destruct (step w o) as [[out dr] w'].
  specialize (IH w'). destruct (run w' a). simpl in *. lia.
Qed.

Lemma run_one_set w s p nv e outs w' :
  reachable w s → run w (one_set p nv e) = (outs, w') → reachable w' (with_map s (alter (assign_one p nv) e (s_map s))).
Proof.
  intros Hr. assert (Hid : (∀ r, assign_one p nv r = r) → with_map s (alter (assign_one p nv) e (s_map s)) = s).
  { intros Hf. assert (alter (assign_one p nv) e (s_map s) = s_map s) as ->; [|by destruct s].
    apply map_eq. intros e'. destruct (decide (e = e')) as [<-|]; [|by rewrite lookup_alter_ne].
    rewrite lookup_alter. destruct (s_map s !! e); simpl; [by rewrite Hf|done]. }
  assert (Hgo : ∀ t v out dr w1, step w (OSet t e v) = (out, dr, w1) → reachable w1 (client_step s (OSet t e v) out)).
  { intros t v out dr w1 Hs. destruct (reachable_inv _ _ Hr) as [Hsv _].
    eapply reachable_step; [done|done|exact Hs|]. apply calm_good; [done|done|]. by intros []. }
  destruct p as [|t|t|t|t], nv as [v|]; simpl; try (intros [= <- <-]; by rewrite Hid).
  - pose proof (Hgo t v) as Hs. simpl in Hs. destruct (world_set w t e v) as [[out dr] w1] eqn:E. intros [= <- <-]. by eapply Hs.
  - pose proof (Hgo t v) as Hs. simpl in Hs. destruct (world_set w t e v) as [[out dr] w1] eqn:E. intros [= <- <-]. by eapply Hs.
Qed.

Lemma write_items_sets f seen e q : ∀ its w s ds k,
  reachable w s → winv w s ds → Forall2 (cell_ok (w_comps w) ds e) q its →
  ∃ outs c' o n, write_items (w_comps w) f seen k q its = Ok (c', o, n) ∧
    run w (map_sets f seen k q e) = (outs, World (w_ents w) c') ∧
    o = replaced outs ∧ n = assigned (map_sets f seen k q e) outs ∧
    reachable (World (w_ents w) c') (with_map s (alter (assign f seen k q) e (s_map s))).
Proof.
  induction q as [|p q IH]; intros its w s ds k Hr HI HF; inversion HF as [|? it ? its' Hc HF']; subst.
  { exists [], (w_comps w), [], []. rewrite world_eta. split_and!; try done.
    assert (alter (assign f seen k []) e (s_map s) = s_map s) as ->; [|by destruct s].
    apply map_eq. intros e'. destruct (decide (e = e')) as [<-|]; [|by rewrite lookup_alter_ne].
    rewrite lookup_alter. by destruct (s_map s !! e). }
  destruct (winv_assign w s ds e p it (f k seen) HI Hc) as (c1 & ds1 & o1 & n1 & Hw1 & HI1 & HW).
  destruct (write_one_step w s ds e p it (f k seen) HI Hc) as (outs1 & c1' & o1' & n1' & Hw1' & Hrun1 & Ho1 & Hn1).
  rewrite Hw1 in Hw1'. injection Hw1' as <- <- <-.
  pose proof (run_one_set _ _ _ _ _ _ _ Hr Hrun1) as Hr1.
  destruct (IH its' _ _ ds1 (S k) Hr1 HI1) as (outs2 & c2 & o2 & n2 & Hw2 & Hrun2 & Ho2 & Hn2 & Hr2).
  { eapply Forall2_impl; [exact HF'|]. intros p' it'. apply cell_ok_shape; [apply HW|apply (wr_shape _ _ _ _ _ _ HW)]. }
  simpl in Hw2, Hrun2, Hr2.
  exists (outs1 ++ outs2), c2, (o1 ++ o2), (n1 ++ n2).
  change (map_sets f seen k (p :: q) e) with (one_set p (f k seen) e ++ map_sets f seen (S k) q e).
  split_and!.
  - simpl. by rewrite Hw1, Hw2.
  - by eapply run_app.
  - unfold replaced. rewrite omap_app. by subst.
  - subst n1 n2. unfold assigned. rewrite zip_with_app, omap_app; [done|].
    rewrite <-(run_length w). by rewrite Hrun1.
  - rewrite <-alter_compose in Hr2. exact Hr2.
Qed.

Lemma visit_all_single G f e am : visit_all G f [e] am = alter (visit_row G f e) e am.
Proof.
  unfold visit_all. apply map_eq. intros e'. rewrite map_lookup_imap. destruct (decide (e = e')) as [<-|Hne].
  - rewrite lookup_alter. destruct (am !! e); simpl; [|done]. by rewrite decide_True by (by left).
  - rewrite lookup_alter_ne by done. destruct (am !! e'); simpl; [|done].
    rewrite decide_False; [done|]. intros ?%elem_of_list_singleton. congruence.
Qed.

Lemma reach_map w s G J X e f :
  reachable w s → query_ok s G J X →
  ∃ r, query_one w G J X e = Ok r ∧
    match r with
    | None => query_one_map w G J X e f = (Ret (RWrote [] []), [], w)
    | Some it => ∃ outs w',
        run w (map_sets f (abs_item <$> it) 0 G e) = (outs, w') ∧
        query_one_map w G J X e f =
          (Ret (RWrote [e] (assigned (map_sets f (abs_item <$> it) 0 G e) outs)), replaced outs, w') ∧
        wrote_to G f [e] s w w' ∧ reachable w' (with_map s (alter (visit_row G f e) e (s_map s)))
    end.
Proof.
  intros Hr Hq. destruct (reachable_inv _ _ Hr) as (_ & ds & HI). pose proof HI as [_ HC].
  destruct (query_one_at w s ds G J X e HI Hq) as (r & H1 & _ & H3). exists r. split; [done|].
  unfold query_one_map. unfold query_one in H1. destruct Hq as [Hreg Hnc].
  destruct (borrow3_ok w ds _ _ _ _ HC G J X) as [[Hn _]|(g & i & x & _ & _ & Hb & [G1 _] & _ & _)].
  { by destruct Hn. }
  rewrite Hb in *. rewrite H1. destruct r as [it|]; [|done]. destruct H3 as (_ & _ & _ & Hit).
  assert (HF : Forall2 (cell_ok (w_comps w) ds e) G it).
  { eapply items_cells; [done|by eapply views_types|done]. }
  destruct (write_items_sets f (abs_item <$> it) e G it w s ds 0 Hr HI HF) as (outs & c' & o & n & Hw & Hrun & -> & -> & Hr').
  assert (Hsame : alter (assign f (abs_item <$> it) 0 G) e (s_map s) = alter (visit_row G f e) e (s_map s)).
  { apply map_eq. intros e'. destruct (decide (e = e')) as [<-|]; [|by rewrite !lookup_alter_ne].
    rewrite !lookup_alter. pose proof (items_ok_sees _ _ _ _ _ _ HC e G it Hit) as Hs. unfold row_of in Hs.
    destruct (s_map s !! e) as [r|]; [|done]. simpl in *. unfold visit_row. by rewrite Hs. }
  rewrite Hsame in Hr'.
  unfold visit. rewrite Hw. exists outs, (World (w_ents w) c'). split_and!; try done.
  destruct (reachable_inv _ _ Hr') as (_ & ds' & HI'). eapply inv_wrote; [exact HI|].
  by rewrite visit_all_single.
Qed.

Lemma reach_map_panics w s G J X e f :
  reachable w s → ¬ query_ok s G J X → query_one_map w G J X e f = (Panicked [], [], w).
Proof.
  intros (_ & ds & [_ HC])%reachable_inv Hn. unfold query_one_map.
  destruct (borrow3_ok w ds _ _ _ _ HC G J X) as [[_ ->]|(g & i & x & H1 & H2 & _)]; [done|].
  destruct Hn. by split.
Qed.

(** ** Slices of grouped queries *)

Lemma inv_slice_set w s ds G J X sl :
  winv w s ds → query_ok s G J X → required X = [] → query_all_slice w G J X = Ok (Some sl) →
  ∃ es its, query_all w G J X = Ok its ∧ NoDup es ∧ answers s G es its ∧
    ∀ k t i v, G !! k = Some (PMut t) →
      query_slice_set w G J X k i v =
        match es !! i with Some e => step w (OSet t e v) | None => (Panicked [], [v], w) end.
Proof.
  intros HI Hq HX Hsl. pose proof HI as [HE HC]. pose proof Hq as [Hreg Hnc].
  destruct (query_all_at w s ds G J X HI Hq) as (es & its & dn & Hall & Hdn & Hits & HV).
  pose proof (vs_nodup _ _ _ _ _ _ _ _ HV) as Hnd.
  exists es, its. split_and!; [done|done|by eapply items_answers|].
  intros k t i v Hk. unfold query_slice_set. rewrite Hsl, Hk.
  unfold query_all, query_all_slice, query_is_dense in *.
  destruct (borrow3_ok w ds _ _ _ _ HC G J X) as [[Hn _]|(g & j & x & _ & _ & Hb & [G1 G2] & [J1 J2] & [X1 X2])].
  { by destruct Hn. }
  rewrite Hb in *. destruct (query_iter_ok _ _ _ _ _ _ HC G J X g j x) as (it & Hit & Hok); try done. rewrite Hit in *.
  unfold query_slice in Hsl. unfold query_iter in Hit.
  destruct (get_group_range_ok _ _ _ _ _ _ HC G J X g j x) as (r & Hr & HP); try done. rewrite Hr in *.
  destruct r as [[lo hi]|]; [|done]. destruct HP as [P HP].
  destruct (first_entities_ok _ _ _ _ _ _ HC G g G1) as (ge & Hge & Hge').
  destruct (shortest_entities_ok _ _ _ _ _ _ HC J j J1) as (ie & Hie & Hie'). rewrite Hge, Hie in *.
  assert (∃ l, it = IDense lo hi l g ∧
    match ge, ie with Some l, _ => l | None, Some l => l | None, None => [] end = l) as (l & -> & Hl).
  { destruct ge as [l|], ie as [l'|]; simplify_eq; eauto. }
  rewrite Hl in Hsl. simpl in Hok. destruct Hok as (_ & P' & HP' & Htake & Hlen).
  assert (P' = P) as ->.
  { pose proof (dr_some _ _ _ _ _ _ _ _ _ _ HP) as HT. destruct (required (G ++ J)) as [|t' T]; [done|].
    destruct (dr_pre _ _ _ _ _ _ _ _ _ _ HP t') as (? & ? & ? & ? & Ha); [by left|].
    destruct (dr_pre _ _ _ _ _ _ _ _ _ _ HP' t') as (? & ? & ? & ? & Hb'); [by left|]. simplify_eq. done. }
  assert (HrG : required G ⊆ required (G ++ J)) by (rewrite required_app; set_solver).
  pose proof (dr_zero _ _ _ _ _ _ _ _ _ _ HP HX) as ->.
  destruct (dense_fold_ok _ _ _ _ _ _ HC G g _ _ 0 hi P l HP HrG G1 Htake) as (its' & Hf & HF).
  simpl in Hall. rewrite Hf in Hall. injection Hall as <-. rewrite drop_0 in HF.
  destruct (parts_slice_at _ _ _ _ _ _ HC _ _ 0 hi P l G g HP Htake Hlen G1 HrG) as (sl' & Hsl' & HS).
  rewrite Hsl' in Hsl. injection Hsl as <-.
  destruct (Forall2_lookup_l _ _ _ _ _ HS Hk) as (y & Hy & _ & _ & _ & Hv).
  destruct (Hv t) as (m & d & Hm & Hd & _ & ->); [done|done|]. rewrite Hy, Nat.sub_0_r.
  assert (HtT : t ∈ required (G ++ J)).
  { apply HrG. apply elem_of_list_omap. exists (PMut t). split; [by eapply elem_of_list_lookup_2|done]. }
  (* the entities of the items are those of the prefix *)
  assert (es = P) as ->.
  { apply list_eq. intros n. destruct (its' !! n) as [q|] eqn:Hn.
    - destruct (Forall2_lookup_r _ _ _ _ _ Hits Hn) as (e1 & He1 & Hi1).
      destruct (Forall2_lookup_r _ _ _ _ _ HF Hn) as (e2 & He2 & Hi2).
      destruct (Forall2_lookup_l _ _ _ _ _ Hi1 Hk) as (a & Ha & Hia).
      destruct (Forall2_lookup_l _ _ _ _ _ Hi2 Hk) as (a' & Ha' & Hia'). simplify_eq.
      destruct a as [|t' i' v'|]; simpl in Hia, Hia'; try done. destruct Hia as [_ Hc1], Hia' as [_ Hc2].
      pose proof (cell_owner _ _ _ _ _ _ _ _ Hc1 Hc2) as ->. congruence.
    - apply lookup_ge_None in Hn.
      rewrite !lookup_ge_None_2; [done|by rewrite (Forall2_length _ _ _ HF)|by rewrite (Forall2_length _ _ _ Hits)]. }
  pose proof (dr_len _ _ _ _ _ _ _ _ _ _ HP) as HlP.
  destruct (P !! i) as [e|] eqn:Hi.
  - destruct (dense_prefix_at _ _ _ _ _ _ _ _ _ _ i e t HP HtT Hi) as [old (m' & d' & Hm' & Hd' & Hdi)].
    assert (m' = m) as -> by congruence. assert (d' = d) as -> by congruence.
    destruct (set_at_cell w s ds t m d e i old v HI Hm Hd Hdi) as (c & c' & Hc & _ & Hset & _ & _ & Hstep).
    apply lookup_lt_Some in Hi. rewrite lookup_take by lia. rewrite list_lookup_fmap, Hdi. simpl.
    rewrite Hm, Hc, Hset. simpl in Hstep. by rewrite Hstep.
  - apply lookup_ge_None in Hi. rewrite lookup_ge_None_2; [done|]. rewrite take_length. lia.
Qed.

Lemma reach_slice_set w s G J X sl :
  reachable w s → query_ok s G J X → required X = [] → query_all_slice w G J X = Ok (Some sl) →
  ∃ es its, query_all w G J X = Ok its ∧ NoDup es ∧ answers s G es its ∧
    ∀ k t i v, G !! k = Some (PMut t) →
      query_slice_set w G J X k i v =
        match es !! i with Some e => step w (OSet t e v) | None => (Panicked [], [v], w) end.
Proof. intros (_ & ds & HI)%reachable_inv. by eapply inv_slice_set. Qed.

(** The slices with any exclusion: the front of the storages. *)
Lemma inv_slice_exactly w s ds G J X sl :
  winv w s ds → query_ok s G J X → query_all_slice w G J X = Ok (Some sl) →
  ∃ its, query_all w G J X = Ok its ∧
    ∀ k p t, G !! k = Some p → part_required p → part_tid p = Some t →
      ∃ l vl, view_entities w t = Ok l ∧ view_slice w t = Ok vl ∧ length its ≤ length l ∧ length vl = length l ∧
        sl !! k = Some (SVals t (take (length its) vl)) ∧
        (p = PMut t → ∀ i v, query_slice_set w G J X k i v =
           match take (length its) l !! i with Some e => step w (OSet t e v) | None => (Panicked [], [v], w) end).
Proof.
  intros HI Hq Hsl. pose proof HI as [HE HC]. pose proof Hq as [Hreg Hnc].
  pose proof Hsl as Hsl0. unfold query_all. unfold query_all_slice in Hsl.
  destruct (borrow3_ok w ds _ _ _ _ HC G J X) as [[Hn _]|(g & j & x & _ & _ & Hb & [G1 G2] & [J1 J2] & [X1 X2])].
  { by destruct Hn. }
  rewrite Hb in *. destruct (query_iter_ok _ _ _ _ _ _ HC G J X g j x) as (it & Hit & Hok); try done. rewrite Hit in *.
  unfold query_slice in Hsl. unfold query_iter in Hit.
  destruct (get_group_range_ok _ _ _ _ _ _ HC G J X g j x) as (r & Hr & HP); try done. rewrite Hr in *.
  destruct r as [[lo hi]|]; [|done]. destruct HP as [P HP].
  destruct (first_entities_ok _ _ _ _ _ _ HC G g G1) as (ge & Hge & Hge').
  destruct (shortest_entities_ok _ _ _ _ _ _ HC J j J1) as (ie & Hie & Hie'). rewrite Hge, Hie in *.
  assert (∃ l, it = IDense lo hi l g ∧
    match ge, ie with Some l, _ => l | None, Some l => l | None, None => [] end = l) as (l & -> & Hl).
  { destruct ge as [l|], ie as [l'|]; simplify_eq; eauto. }
  rewrite Hl in Hsl. simpl in Hok. destruct Hok as (_ & P' & HP' & Htake & Hlen).
  assert (P' = P) as ->.
  { pose proof (dr_some _ _ _ _ _ _ _ _ _ _ HP) as HT. destruct (required (G ++ J)) as [|t' T]; [done|].
    destruct (dr_pre _ _ _ _ _ _ _ _ _ _ HP t') as (? & ? & ? & ? & Ha); [by left|].
    destruct (dr_pre _ _ _ _ _ _ _ _ _ _ HP' t') as (? & ? & ? & ? & Hb'); [by left|]. simplify_eq. done. }
  assert (HrG : required G ⊆ required (G ++ J)) by (rewrite required_app; set_solver).
  destruct (dense_fold_ok _ _ _ _ _ _ HC G g _ _ lo hi P l HP HrG G1 Htake) as (its & Hf & HF).
  simpl. rewrite Hf. exists its. split; [done|].
  assert (Hlens : length its = hi - lo).
  { rewrite <-(Forall2_length _ _ _ HF), drop_length, (dr_len _ _ _ _ _ _ _ _ _ _ HP). done. }
  destruct (parts_slice_at _ _ _ _ _ _ HC _ _ lo hi P l G g HP Htake Hlen G1 HrG) as (sl' & Hsl' & HS).
  rewrite Hsl' in Hsl. injection Hsl as <-.
  intros k p t Hk Hp Ht.
  destruct (Forall2_lookup_l _ _ _ _ _ HS Hk) as (y & Hy & _ & _ & _ & Hv).
  destruct (Hv t) as (m & d & Hm & Hd & Hhi & ->); [done|done|].
  destruct (ci_lookup _ _ _ _ _ _ HC t m Hm) as (c & d' & Hc & Hd' & Hrep). rewrite Hd in Hd'. injection Hd' as <-.
  exists d.*1, d.*2. unfold view_entities, view_slice, cs_borrow. rewrite Hm, Hc.
  split; [by apply css_entities_ok|]. split; [by apply css_slice_ok|]. rewrite !fmap_length, Hlens.
  split; [lia|]. split; [done|]. split; [done|].
  intros -> i v. unfold query_slice_set. rewrite Hsl0, Hk, Hy.
  destruct (decide (i < hi - lo)) as [Hi|Hi].
  - destruct (lookup_lt_is_Some_2 d i) as [[e old] Hdi]; [lia|].
    destruct (set_at_cell w s ds t m d e i old v HI Hm Hd Hdi) as (c1 & c' & Hc1 & _ & Hset & _ & _ & Hstep).
    rewrite !lookup_take, !list_lookup_fmap, Hdi by lia. simpl. rewrite Hm, Hc1, Hset. simpl in Hstep. by rewrite Hstep.
  - rewrite !lookup_ge_None_2; [done|rewrite take_length; lia..].
Qed.

Lemma reach_slice_exactly_at w s G J X sl :
  agreeing w s → query_ok s G J X → query_all_slice w G J X = Ok (Some sl) →
  ∃ its, query_all w G J X = Ok its ∧
    ∀ k p t, G !! k = Some p → part_required p → part_tid p = Some t →
      ∃ l vl, view_entities w t = Ok l ∧ view_slice w t = Ok vl ∧ length its ≤ length l ∧ length vl = length l ∧
        sl !! k = Some (SVals t (take (length its) vl)) ∧
        (p = PMut t → ∀ i v, query_slice_set w G J X k i v =
           match take (length its) l !! i with Some e => step w (OSet t e v) | None => (Panicked [], [v], w) end).
Proof. intros (_ & ds & HI)%agreeing_inv. by eapply inv_slice_exactly. Qed.
Lemma reach_slice_exactly w s G J X sl :
  reachable w s → query_ok s G J X → query_all_slice w G J X = Ok (Some sl) →
  ∃ its, query_all w G J X = Ok its ∧
    ∀ k p t, G !! k = Some p → part_required p → part_tid p = Some t →
      ∃ l vl, view_entities w t = Ok l ∧ view_slice w t = Ok vl ∧ length its ≤ length l ∧ length vl = length l ∧
        sl !! k = Some (SVals t (take (length its) vl)) ∧
        (p = PMut t → ∀ i v, query_slice_set w G J X k i v =
           match take (length its) l !! i with Some e => step w (OSet t e v) | None => (Panicked [], [v], w) end).
Proof. exact (λ Hr, reach_slice_exactly_at w s G J X sl (reachable_agreeing _ _ Hr)). Qed.

Lemma reach_slice_front w s G J X sl :
  reachable w s → query_ok s G J X → query_all_slice w G J X = Ok (Some sl) →
  ∃ its, query_all w G J X = Ok its ∧
    ∀ k t, G !! k = Some (PRef t) ∨ G !! k = Some (PMut t) →
      ∃ vl, view_slice w t = Ok vl ∧ length its ≤ length vl ∧ sl !! k = Some (SVals t (take (length its) vl)).
Proof.
  intros Hr Hq Hs. destruct (reach_slice_exactly w s G J X sl Hr Hq Hs) as (its & Hits & H). exists its. split; [done|].
  intros k t Hk. assert (∃ p, G !! k = Some p ∧ part_required p ∧ part_tid p = Some t) as (p & Hp & Hpr & Ht).
  { destruct Hk as [Hk|Hk]; eexists; (split; [exact Hk|done]). }
  destruct (H k p t Hp Hpr Ht) as (l & vl & _ & Hvl & Hl & Hll & Hsl & _). exists vl. split; [done|]. split; [lia|done].
Qed.

Lemma reach_slice_set_front w s G J X sl :
  reachable w s → query_ok s G J X → query_all_slice w G J X = Ok (Some sl) →
  ∃ its, query_all w G J X = Ok its ∧
    ∀ k t i v, G !! k = Some (PMut t) →
      ∃ l, view_entities w t = Ok l ∧ length its ≤ length l ∧
        query_slice_set w G J X k i v =
          match take (length its) l !! i with Some e => step w (OSet t e v) | None => (Panicked [], [v], w) end.
Proof.
  intros Hr Hq Hs. destruct (reach_slice_exactly w s G J X sl Hr Hq Hs) as (its & Hits & H). exists its. split; [done|].
  intros k t i v Hk. destruct (H k (PMut t) t Hk) as (l & vl & Hl & _ & Hle & _ & _ & Hset); [done|done|].
  exists l. split_and!; [done|done|]. by apply Hset.
Qed.
