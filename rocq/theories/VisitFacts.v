(** The order in which queries visit entities. *)
From Verif Require Import Base Lists SparseVecM EntityM CssM MaskM LayoutM GroupM StorageM WorldM QueryM StepM
  SparseProofs CssProofs MaskProofs GroupProofs Spec SpecMore EntityProofs LayoutProofs StorageProofs StoreOps LayoutOps
  WorldProofs QueryProofs QueryRange QueryIter History SpecVisit.

Lemma sublist_nodup (l k : list entity) : l `sublist_of` k → NoDup k → NoDup l.
Proof.
  induction 1 as [|x l k Hs IH|x l k Hs IH]; intros Hn; [done|..]; apply NoDup_cons in Hn as [Hx Hn]; [|auto].
  apply NoDup_cons. split; [|auto]. intros Hl. apply Hx. by eapply elem_of_submseteq, sublist_submseteq.
Qed.

(** *** The shortest of a list of slices *)

Definition shorter (acc : option (list entity)) (l : list entity) : option (list entity) :=
  match acc with
  | Some old => if length l <? length old then Some l else Some old
  | None => Some l
  end.

Definition min_at (ls : list (list entity)) (i : nat) (l : list entity) : Prop :=
  ls !! i = Some l ∧ ∀ j l', ls !! j = Some l' → length l ≤ length l' ∧ (j < i → length l < length l').

Lemma min_at_snoc_old ls i l l' : min_at ls i l → length l ≤ length l' → min_at (ls ++ [l']) i l.
Proof.
  intros [Hi Hm] Hle. split; [by apply lookup_app_l_Some|]. intros j k Hj.
  apply lookup_app_Some in Hj as [Hj|[Hge Hj]]; [by apply (Hm j)|].
  apply list_lookup_singleton_Some in Hj as [_ <-]. apply lookup_lt_Some in Hi. split; lia.
Qed.

Lemma min_at_app ls ls' i i' l l' :
  min_at ls i l → min_at ls' i' l' →
  if length l <=? length l' then min_at (ls ++ ls') i l else min_at (ls ++ ls') (length ls + i') l'.
Proof.
  intros [Hi Hm] [Hi' Hm']. destruct (Nat.leb_spec (length l) (length l')) as [Hle|Hlt].
  - split; [by apply lookup_app_l_Some|]. intros j k Hj. apply lookup_app_Some in Hj as [Hj|[Hge Hj]]; [by apply (Hm j)|].
    apply lookup_lt_Some in Hi. destruct (Hm' _ _ Hj). split; lia.
  - split; [by rewrite lookup_app_r, Nat.add_comm, Nat.add_sub by lia|]. intros j k Hj.
    apply lookup_app_Some in Hj as [Hj|[Hge Hj]].
    + destruct (Hm _ _ Hj). split; lia.
    + destruct (Hm' _ _ Hj) as [H1 H2]. split; [done|]. intros Hlt'. apply H2. lia.
Qed.

Lemma min_at_app_nil_l ls i l : min_at ls i l → min_at (ls ++ []) i l.
Proof. by rewrite app_nil_r. Qed.

Lemma shorter_fold ls : ∀ ls0 acc,
  match acc with None => ls0 = [] | Some l => ∃ i, min_at ls0 i l end →
  match fold_left shorter ls acc with None => ls0 ++ ls = [] | Some l => ∃ i, min_at (ls0 ++ ls) i l end.
Proof.
  induction ls as [|l ls IH]; intros ls0 acc Hacc; simpl.
  { rewrite app_nil_r. done. }
  replace (ls0 ++ l :: ls) with ((ls0 ++ [l]) ++ ls) by (by rewrite <-app_assoc).
  apply IH. destruct acc as [old|]; simpl.
  - destruct Hacc as [i Hi]. destruct (Nat.ltb_spec (length l) (length old)).
    + exists (length ls0). split; [by rewrite lookup_app_r, Nat.sub_diag by lia|].
      intros j k Hj. apply lookup_app_Some in Hj as [Hj|[Hge Hj]].
      * destruct Hi as [_ Hm]. destruct (Hm _ _ Hj). split; lia.
      * apply list_lookup_singleton_Some in Hj as [_ <-]. split; lia.
    + exists i. apply min_at_snoc_old; [done|lia].
  - subst ls0. exists 0. split; [done|]. intros j k Hj. apply list_lookup_singleton_Some in Hj as [-> <-]. split; lia.
Qed.

Section visit.
  Context (w : world) (ds : list dense) (am : amap) (reg grp : gset tid) (loose : gset entity).
  Context (HI : cinv (w_comps w) ds am reg grp loose).
  Local Notation s := (w_comps w).

  Lemma part_entities_view p v :
    view_ok s p v →
    (¬ part_required p ∧ part_entities v = Ok None) ∨
    ∃ t l, part_required p ∧ part_tid p = Some t ∧ part_entities v = Ok (Some l) ∧ view_entities w t = Ok l.
  Proof using HI.
    intros Hv. destruct (part_entities_at _ _ _ _ _ _ HI p v Hv) as [[Hn ->]|(t & m & d & Hr & Ht & Hm & Hd & He)]; [by left|].
    right. exists t, d.*1. split_and!; try done.
    destruct (ci_lookup _ _ _ _ _ _ HI t m Hm) as (c & d' & Hc & Hd' & Hrep).
    rewrite Hd in Hd'. injection Hd' as <-.
    unfold view_entities, cs_borrow. rewrite Hm, Hc. by apply css_entities_ok.
  Qed.

  Lemma shortest_fold q vs :
    Forall2 (view_ok s) q vs →
    ∃ ls, Forall2 (λ t l, view_entities w t = Ok l) (required q) ls ∧
      (∀ acc, shortest_entities acc vs = Ok (fold_left shorter ls acc)) ∧ first_entities vs = Ok (head ls).
  Proof using HI.
    induction 1 as [|p v q vs Hv _ (ls & IH1 & IH2 & IH3)]; cbn [shortest_entities first_entities].
    { exists []. split_and!; [constructor|done|done]. }
    destruct (part_entities_view p v Hv) as [[Hn ->]|(t & l & Hr & Ht & -> & Hl)].
    - exists ls. rewrite required_cons_opt by done. done.
    - exists (l :: ls). rewrite (required_cons_req p q t) by done. split_and!; [by constructor| |done].
      intros acc. simpl. by rewrite <-IH2.
  Qed.

  Lemma min_first T ls i l :
    Forall2 (λ t l, view_entities w t = Ok l) T ls → min_at ls i l → ∃ t, first_shortest w T t l.
  Proof using Type.
    intros HF [Hi Hm]. destruct (Forall2_lookup_r _ _ _ _ _ HF Hi) as (t & Ht & Hl). exists t, i. split_and!; try done.
    intros j t' l' Hj Hl'. destruct (Forall2_lookup_l _ _ _ _ _ HF Hj) as (k & Hk & Hk').
    rewrite Hl' in Hk'. injection Hk' as <-. by apply (Hm j).
  Qed.

  Lemma sparse_fold_sub G J X g i x ents :
    Forall2 (view_ok s) G g → Forall2 (view_ok s) J i → Forall2 (view_ok s) X x →
    (∀ e, e ∈ ents → is_Some (am !! e)) →
    ∃ es its, sparse_fold ents x i g = Ok its ∧ Forall2 (λ e it, items_ok s ds am e G it) es its ∧ es `sublist_of` ents ∧
      ∀ e, e ∈ es ↔ e ∈ ents ∧ has_all (row_of am e) G ∧ has_all (row_of am e) J ∧ excl_none (row_of am e) X.
  Proof using HI.
    intros HG HJ HX. induction ents as [|e ents IH]; intros Hal; simpl.
    { exists [], []. split_and!; [done|constructor|done|]. intros e. rewrite elem_of_nil. naive_solver. }
    destruct IH as (es & its & Hf & HF & Hsub & Hes); [intros; apply Hal; by right|].
    assert (He : is_Some (am !! e)) by (apply Hal; by left).
    assert (Hskip : ¬ (has_all (row_of am e) G ∧ has_all (row_of am e) J ∧ excl_none (row_of am e) X) →
      ∃ es its', Ok its = Ok its' ∧ Forall2 (λ e it, items_ok s ds am e G it) es its' ∧ es `sublist_of` e :: ents ∧
        ∀ e', e' ∈ es ↔ e' ∈ e :: ents ∧ has_all (row_of am e') G ∧ has_all (row_of am e') J ∧ excl_none (row_of am e') X).
    { intros Hn. exists es, its. split_and!; try done; [by apply sublist_cons|]. intros e'. rewrite Hes, elem_of_cons. naive_solver. }
    rewrite Hf.
    destruct (contains_none_raw x (e_sparse e)) eqn:E1; simpl.
    2:{ apply Hskip. intros (_ & _ & Hx). apply (contains_none_raw_iff _ _ _ _ _ _ HI X x e He HX) in Hx. congruence. }
    destruct (contains_all_raw i (e_sparse e)) eqn:E2; simpl.
    2:{ apply Hskip. intros (_ & Hx & _). apply (contains_all_raw_iff _ _ _ _ _ _ HI J i e He HJ) in Hx. congruence. }
    apply (contains_none_raw_iff _ _ _ _ _ _ HI X x e He HX) in E1.
    apply (contains_all_raw_iff _ _ _ _ _ _ HI J i e He HJ) in E2.
    destruct (query_get_raw_at _ _ _ _ _ _ HI G g e He HG) as [[Hn ->]|(it & Hh & -> & Hit)].
    { apply Hskip. naive_solver. }
    exists (e :: es), (it :: its). split_and!; try done.
    - by constructor.
    - by apply sublist_skip.
    - intros e'. rewrite !elem_of_cons, Hes. naive_solver.
  Qed.

  Lemma view_entities_slice t l : view_entities w t = Ok l → slice_of s ds [t] l.
  Proof using HI.
    unfold view_entities, cs_borrow. destruct (cs_meta s !! t) as [m|] eqn:Hm; [|done].
    destruct (ci_lookup _ _ _ _ _ _ HI t m Hm) as (c & d & Hc & Hd & Hrep). rewrite Hc.
    rewrite (css_entities_ok c d Hrep). intros [= <-]. exists t, m, d. split_and!; try done. by left.
  Qed.

  Lemma query_visit G J X g i x :
    Forall2 (view_ok s) G g → Forall2 (view_info s) G g →
    Forall2 (view_ok s) J i → Forall2 (view_info s) J i →
    Forall2 (view_ok s) X x → Forall2 (view_info s) X x →
    ∃ it es its, query_iter s g i x = Ok it ∧ iter_fold it = Ok its ∧
      Forall2 (λ e it, items_ok s ds am e G it) es its ∧
      visits am grp loose G J X (iter_dense it) es ∧
      (if iter_dense it then dense_order w (required (G ++ J)) (required X) es
       else sparse_order w (required (G ++ J)) es).
  Proof using HI.
    intros G1 G2 J1 J2 X1 X2.
    destruct (query_iter_ok _ _ _ _ _ _ HI G J X g i x) as (it & Hq & Hit); try done.
    exists it. destruct it as [ents x' i' g'|lo hi ents g']; simpl in Hit.
    - destruct Hit as (-> & -> & -> & Hents).
      destruct (sparse_fold_sub G J X g i x ents) as (es & its & Hf & HF & Hsub & Hes); try done.
      { intros e He. destruct Hents as [[_ ->]|Hs]; [by apply elem_of_nil in He|].
        by eapply (slice_of_alive _ _ _ _ _ _ HI). }
      assert (NoDup es) as Hnd.
      { destruct Hents as [[_ ->]|Hs]; [apply sublist_nil_r in Hsub as ->; constructor|].
        eapply sublist_nodup; [done|]. by eapply (slice_of_nodup _ _ _ _ _ _ HI). }
      exists es, its. split_and!; try done; [by eapply (sparse_visits _ _ _ _ _ _ HI)|].
      simpl. unfold query_iter in Hq.
      destruct (get_group_range s g i x) as [[[lo hi]|]| |]; [|..|done|done].
      { destruct (first_entities g) as [[]| |]; try done; destruct (shortest_entities None i) as [[]| |]; done. }
      destruct (shortest_fold G g G1) as (lg & Hlg & Hg & _). destruct (shortest_fold J i J1) as (lj & Hlj & Hj & _).
      destruct (shortest_fold X x X1) as (lx & _ & Hx & _). rewrite Hg, Hj, Hx in Hq.
      injection Hq as Hq. rewrite required_app.
      assert (Forall2 (λ t l, view_entities w t = Ok l) (required G ++ required J) (lg ++ lj)) as Hl by (by apply Forall2_app).
      pose proof (shorter_fold lg [] None eq_refl) as Mg. pose proof (shorter_fold lj [] None eq_refl) as Mj.
      simpl in Mg, Mj.
      destruct (fold_left shorter lg None) as [a|], (fold_left shorter lj None) as [b|]; subst ents.
      + right. destruct Mg as [ia Ha], Mj as [ib Hb]. pose proof (min_at_app _ _ _ _ _ _ Ha Hb) as Hm.
        destruct (length a <=? length b); destruct (min_first _ _ _ _ Hl Hm) as [t Ht]; exists t; eexists; done.
      + right. subst lj. destruct Mg as [ia Ha]. rewrite app_nil_r in Hl.
        destruct (min_first _ _ _ _ Hl Ha) as [t Ht]. by exists t, a.
      + right. subst lg. destruct Mj as [ib Hb]. simpl in Hl.
        destruct (min_first _ _ _ _ Hl Hb) as [t Ht]. by exists t, b.
      + left. subst lg lj. apply Forall2_nil_inv_r in Hlg as ->, Hlj as ->. split; [done|].
        by apply sublist_nil_r in Hsub.
    - destruct Hit as (-> & P & HD & Hp & Hhi).
      destruct (dense_fold_ok _ _ _ _ _ _ HI G g _ _ lo hi P ents HD) as (its & Hf & HF); try done.
      { rewrite required_app. set_solver. }
      exists (drop lo P), its. split_and!; try done; [by eapply (dense_visits _ _ _ _ _ _ HI)|].
      simpl. split; [apply HD|]. intros t Ht.
      destruct (dr_pre _ _ _ _ _ _ _ _ _ _ HD t Ht) as (m & d & Hm & Hd & HP).
      destruct (ci_lookup _ _ _ _ _ _ HI t m Hm) as (c & d' & Hc & Hd' & Hrep).
      rewrite Hd in Hd'. injection Hd' as <-.
      exists (take lo P), (drop hi d.*1). split.
      + unfold view_entities, cs_borrow. rewrite Hm, Hc, (css_entities_ok c d Hrep). f_equal.
        rewrite app_assoc, take_drop, <-HP. by rewrite take_drop.
      + intros HX. by rewrite (dr_zero _ _ _ _ _ _ _ _ _ _ HD HX).
  Qed.
End visit.

Lemma reach_visit_at w s G J X :
  agreeing w s → query_ok s G J X →
  ∃ es its dn, query_all w G J X = Ok its ∧ query_is_dense w G J X = Ok dn ∧
    NoDup es ∧ answers s G es its ∧
    (dn = false → sparse_order w (required (G ++ J)) es ∧
       (plain G J X → ∀ e, e ∈ es ↔ s_alive s e ∧ matches (s_row s e) G J X)) ∧
    (dn = true → dense_order w (required (G ++ J)) (required X) es).
Proof.
  intros (_ & ds & HI)%agreeing_inv [Hreg Hnc]. pose proof HI as [HE HC].
  unfold query_all, query_is_dense.
  destruct (borrow3_ok w ds _ _ _ _ HC G J X) as [[Hn _]|(g & i & x & _ & _ & -> & [G1 G2] & [J1 J2] & [X1 X2])].
  { by destruct Hn. }
  destruct (query_visit w ds _ _ _ _ HC G J X g i x) as (it & es & its & -> & -> & HF & HV & HO); try done.
  exists es, its, (iter_dense it). split_and!; try done.
  - by destruct it.
  - apply HV.
  - by eapply items_answers.
  - intros Hd. rewrite Hd in HO, HV. split; [done|]. intros Hp. by apply visits_sparse_exact.
  - intros Hd. by rewrite Hd in HO.
Qed.
Lemma reach_visit w s G J X :
  reachable w s → query_ok s G J X →
  ∃ es its dn, query_all w G J X = Ok its ∧ query_is_dense w G J X = Ok dn ∧
    NoDup es ∧ answers s G es its ∧
    (dn = false → sparse_order w (required (G ++ J)) es ∧
       (plain G J X → ∀ e, e ∈ es ↔ s_alive s e ∧ matches (s_row s e) G J X)) ∧
    (dn = true → dense_order w (required (G ++ J)) (required X) es).
Proof. exact (λ Hr, reach_visit_at w s G J X (reachable_agreeing _ _ Hr)). Qed.
