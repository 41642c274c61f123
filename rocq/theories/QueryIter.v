(** Running a query: lookups by handle, iteration and [for_each]. *)
From Verif Require Import Base Lists SparseVecM EntityM CssM MaskM LayoutM GroupM StorageM WorldM QueryM StepM
  SparseProofs CssProofs MaskProofs GroupProofs Spec EntityProofs LayoutProofs StorageProofs StoreOps LayoutOps
  WorldProofs QueryProofs QueryRange.

Lemma required_app q q' : required (q ++ q') = required q ++ required q'.
Proof. apply omap_app. Qed.

Lemma has_all_types r q : has_all r q ↔ types_in r (required q).
Proof. done. Qed.

Lemma types_in_app r T U : types_in r (T ++ U) ↔ types_in r T ∧ types_in r U.
Proof. unfold types_in. setoid_rewrite elem_of_app. naive_solver. Qed.

(** The entities [es] that an iteration visits: all those selected, in the sparse
    case; in the dense case the exclusion is weaker. *)
Record visits (am : amap) (grp : gset tid) (loose : gset entity) (G J X : query) (dense : bool) (es : list entity)
    : Prop := {
  vs_nodup : NoDup es;
  vs_sound : ∀ e, e ∈ es → is_Some (am !! e) ∧ has_all (row_of am e) G ∧ has_all (row_of am e) J;
  vs_sparse : dense = false →
    ∀ e, e ∈ es ↔ required (G ++ J) ≠ [] ∧ has_all (row_of am e) G ∧ has_all (row_of am e) J ∧
                  excl_none (row_of am e) X;
  vs_dense : dense = true →
    required (G ++ J) ≠ [] ∧ (∀ t, t ∈ required X → t ∈ grp) ∧
    ∀ e, e ∉ loose → e ∈ es ↔ has_all (row_of am e) G ∧ has_all (row_of am e) J ∧
                  (required X = [] ∨ ¬ has_all (row_of am e) X)
}.

Section query.
  Context (s : cstore) (ds : list dense) (am : amap) (reg grp : gset tid) (loose : gset entity).
  Context (HI : cinv s ds am reg grp loose).

  Notation row_of := (row_of am).
  Notation items_ok := (items_ok s ds am).

  Lemma get_group_range_ok G J X g i x :
    Forall2 (view_ok s) G g → Forall2 (view_info s) G g →
    Forall2 (view_ok s) J i → Forall2 (view_info s) J i →
    Forall2 (view_ok s) X x → Forall2 (view_info s) X x →
    ∃ r, get_group_range s g i x = Ok r ∧
      match r with
      | None => True
      | Some (lo, hi) => ∃ P, dense_range s ds am grp loose (required (G ++ J)) (required X) lo hi P
      end.
  Proof using HI.
    intros G1 G2 J1 J2 X1 X2. unfold get_group_range.
    destruct (query_info g) as [gi|] eqn:Eg; [|by exists None].
    destruct (query_info i) as [ii|] eqn:Ei; [|by exists None].
    destruct (query_info x) as [xi|] eqn:Ex; [|by exists None].
    destruct (add_query gi ii) as [q|] eqn:Eq; [|by exists None].
    pose proof (query_info_for _ _ _ _ _ _ HI G g gi G1 G2 Eg) as Hg.
    pose proof (query_info_for _ _ _ _ _ _ HI J i ii J1 J2 Ei) as Hi.
    pose proof (query_info_for _ _ _ _ _ _ HI X x xi X1 X2 Ex) as Hx.
    rewrite required_app. eapply group_range_ok; [done| |done]. by eapply add_query_for.
  Qed.

  Lemma dense_slice T U lo hi P l :
    dense_range s ds am grp loose T U lo hi P → (∃ T', slice_of s ds T' l ∧ T' ⊆ T) → take hi l = P ∧ hi ≤ length l.
  Proof using Type.
    intros HD (T' & (t & m & d & Ht & Hm & Hd & ->) & HT).
    destruct (dr_pre _ _ _ _ _ _ _ _ _ _ HD t (HT t Ht)) as (m' & d' & Hm' & Hd' & Hp).
    assert (m' = m) as -> by congruence. assert (d' = d) as -> by congruence. split; [done|].
    pose proof (dr_len _ _ _ _ _ _ _ _ _ _ HD) as Hl. rewrite <-Hp in Hl.
    rewrite take_length in Hl. lia.
  Qed.

  (** The iterators. *)
  Definition iter_ok (G J X : query) (g i x : list pview) (it : iter) : Prop :=
    match it with
    | ISparse ents x' i' g' =>
        x' = x ∧ i' = i ∧ g' = g ∧
        (required (G ++ J) = [] ∧ ents = [] ∨ slice_of s ds (required (G ++ J)) ents)
    | IDense lo hi ents g' =>
        g' = g ∧ ∃ P, dense_range s ds am grp loose (required (G ++ J)) (required X) lo hi P ∧
          take hi ents = P ∧ hi ≤ length ents
    end.

  Lemma slice_of_sub T T' l : slice_of s ds T l → T ⊆ T' → slice_of s ds T' l.
  Proof using Type. intros (t & m & d & Ht & ?) HT. exists t, m, d. split; [by apply HT|done]. Qed.

  Lemma query_iter_ok G J X g i x :
    Forall2 (view_ok s) G g → Forall2 (view_info s) G g →
    Forall2 (view_ok s) J i → Forall2 (view_info s) J i →
    Forall2 (view_ok s) X x → Forall2 (view_info s) X x →
    ∃ it, query_iter s g i x = Ok it ∧ iter_ok G J X g i x it.
  Proof using HI.
    intros G1 G2 J1 J2 X1 X2. unfold query_iter.
    destruct (get_group_range_ok G J X g i x) as (r & -> & Hr); try done.
    destruct (shortest_entities_ok _ _ _ _ _ _ HI J i J1) as (ie & Hie & Hie').
    destruct r as [[lo hi]|].
    - destruct Hr as [P HP]. destruct (first_entities_ok _ _ _ _ _ _ HI G g G1) as (ge & -> & Hge). rewrite Hie.
      destruct ge as [l|].
      + eexists. split; [done|]. simpl. split; [done|]. exists P. split; [done|]. eapply dense_slice; [done|].
        exists (required G). split; [done|]. rewrite required_app. set_solver.
      + destruct ie as [l|].
        * eexists. split; [done|]. simpl. split; [done|]. exists P. split; [done|]. eapply dense_slice; [done|].
          exists (required J). split; [done|]. rewrite required_app. set_solver.
        * exfalso. apply (dr_some _ _ _ _ _ _ _ _ _ _ HP). by rewrite required_app, Hge, Hie'.
    - destruct (shortest_entities_ok _ _ _ _ _ _ HI G g G1) as (ge & -> & Hge). rewrite Hie.
      destruct (shortest_entities_ok _ _ _ _ _ _ HI X x X1) as (xe & -> & _).
      eexists. split; [done|]. simpl. split_and!; try done. rewrite required_app.
      destruct ge as [a|], ie as [b|].
      + right. destruct (_ <=? _); eapply slice_of_sub; try done; set_solver.
      + right. eapply slice_of_sub; [done|]. set_solver.
      + right. eapply slice_of_sub; [done|]. set_solver.
      + left. by rewrite Hge, Hie'.
  Qed.

  (** *** Folding *)

  Lemma sparse_fold_ok G J X g i x ents :
    Forall2 (view_ok s) G g → Forall2 (view_ok s) J i → Forall2 (view_ok s) X x →
    NoDup ents → (∀ e, e ∈ ents → is_Some (am !! e)) →
    ∃ es its, sparse_fold ents x i g = Ok its ∧ Forall2 (λ e it, items_ok e G it) es its ∧ NoDup es ∧
      ∀ e, e ∈ es ↔ e ∈ ents ∧ has_all (row_of e) G ∧ has_all (row_of e) J ∧ excl_none (row_of e) X.
  Proof using HI.
    intros HG HJ HX. induction ents as [|e ents IH]; intros Hnd Hal; simpl.
    { exists [], []. split; [done|]. split; [constructor|]. split; [constructor|]. intros e. rewrite elem_of_nil. naive_solver. }
    apply NoDup_cons in Hnd as [Hne Hnd].
    destruct IH as (es & its & Hf & HF & Hnd' & Hes); [done|intros; apply Hal; by right|].
    assert (He : is_Some (am !! e)) by (apply Hal; by left).
    assert (Hskip : ¬ (has_all (row_of e) G ∧ has_all (row_of e) J ∧ excl_none (row_of e) X) →
      ∃ es its', Ok its = Ok its' ∧ Forall2 (λ e it, items_ok e G it) es its' ∧ NoDup es ∧
        ∀ e', e' ∈ es ↔ e' ∈ e :: ents ∧ has_all (row_of e') G ∧ has_all (row_of e') J ∧ excl_none (row_of e') X).
    { intros Hn. exists es, its. split_and!; try done. intros e'. rewrite Hes, elem_of_cons. naive_solver. }
    rewrite Hf.
    destruct (contains_none_raw x (e_sparse e)) eqn:E1; simpl.
    2:{ apply Hskip. intros (_ & _ & Hx). apply (contains_none_raw_iff _ _ _ _ _ _ HI X x e He HX) in Hx. congruence. }
    destruct (contains_all_raw i (e_sparse e)) eqn:E2; simpl.
    2:{ apply Hskip. intros (_ & Hx & _). apply (contains_all_raw_iff _ _ _ _ _ _ HI J i e He HJ) in Hx. congruence. }
    apply (contains_none_raw_iff _ _ _ _ _ _ HI X x e He HX) in E1.
    apply (contains_all_raw_iff _ _ _ _ _ _ HI J i e He HJ) in E2.
    destruct (query_get_raw_at _ _ _ _ _ _ HI G g e He HG) as [[Hn ->]|(it & Hh & -> & Hit)].
    { apply Hskip. naive_solver. }
    exists (e :: es), (it :: its). split_and!; try done.
    - by constructor.
    - constructor; [|done]. rewrite Hes. naive_solver.
    - intros e'. rewrite !elem_of_cons, Hes. naive_solver.
  Qed.

  Lemma all_ok_ok {A B} (f : A → res B) (R : A → B → Prop) l :
    (∀ a, a ∈ l → ∃ b, f a = Ok b ∧ R a b) → ∃ bs, all_ok f l = Ok bs ∧ Forall2 R l bs.
  Proof using Type.
    induction l as [|a l IH]; intros H; simpl; [by exists []|].
    destruct (H a) as (b & -> & Hb); [by left|].
    destruct IH as (bs & -> & Hbs); [intros; apply H; by right|].
    exists (b :: bs). split; [done|]. by constructor.
  Qed.

  Lemma dense_prefix_at T U lo hi P k e t :
    dense_range s ds am grp loose T U lo hi P → t ∈ T → P !! k = Some e → ∃ x, cell s ds t e k x.
  Proof using Type.
    intros HD Ht Hk. destruct (dr_pre _ _ _ _ _ _ _ _ _ _ HD t Ht) as (m & d & Hm & Hd & Hp).
    rewrite <-Hp in Hk. apply lookup_take_Some in Hk as [Hk _]. apply dense_fst_lookup in Hk as [x Hx].
    exists x, m, d. done.
  Qed.

  Lemma dense_alive T U lo hi P e :
    dense_range s ds am grp loose T U lo hi P → e ∈ P → is_Some (am !! e) ∧ types_in (row_of e) T.
  Proof using HI.
    intros HD He. apply elem_of_list_lookup in He as [k Hk].
    assert (Hall : types_in (row_of e) T).
    { intros t Ht. destruct (dense_prefix_at _ _ _ _ _ _ _ _ HD Ht Hk) as [x Hx]. apply (cell_row _ _ _ _ _ _ HI) in Hx. eauto. }
    split; [|done]. pose proof (dr_some _ _ _ _ _ _ _ _ _ _ HD) as HT. destruct T as [|t T]; [done|].
    destruct (Hall t) as [x Hx]; [by left|]. by eapply row_alive.
  Qed.

  Lemma dense_nodup T U lo hi P : dense_range s ds am grp loose T U lo hi P → NoDup P.
  Proof using HI.
    intros HD. pose proof (dr_some _ _ _ _ _ _ _ _ _ _ HD) as HT. destruct T as [|t T]; [done|].
    destruct (dr_pre _ _ _ _ _ _ _ _ _ _ HD t) as (m & d & Hm & Hd & <-); [by left|].
    apply NoDup_take. eapply css_rep_dnodup; [apply (ci_rep _ _ _ _ _ _ HI)|done].
  Qed.

  Lemma seq_drop (P : list entity) lo hi :
    lo ≤ hi → length P = hi → Forall2 (λ k e, P !! k = Some e) (seq lo (hi - lo)) (drop lo P).
  Proof using Type.
    intros Hle Hl. apply Forall2_same_length_lookup_2; [rewrite seq_length, drop_length; lia|].
    intros j k e Hk He. apply lookup_seq in Hk as [-> _]. by rewrite lookup_drop in He.
  Qed.

  Lemma dense_get_ok G g T U lo hi P ents k e :
    dense_range s ds am grp loose T U lo hi P → required G ⊆ T →
    Forall2 (view_ok s) G g → take hi ents = P → P !! k = Some e →
    ∃ it, dense_get ents g k = Ok it ∧ items_ok e G it.
  Proof using HI.
    intros HD HT HG Hp Hk. unfold dense_get. pose proof Hk as Hk'. rewrite <-Hp in Hk'.
    apply lookup_take_Some in Hk' as [-> _].
    apply (query_get_dense_at _ _ _ _ _ _ HI); [|done|].
    - eapply dense_alive; [done|]. by eapply elem_of_list_lookup_2.
    - intros t Ht. eapply dense_prefix_at; [done|by apply HT|done].
  Qed.

  Lemma dense_fold_ok G g T U lo hi P ents :
    dense_range s ds am grp loose T U lo hi P → required G ⊆ T →
    Forall2 (view_ok s) G g → take hi ents = P →
    ∃ its, dense_fold lo hi ents g = Ok its ∧ Forall2 (λ e it, items_ok e G it) (drop lo P) its.
  Proof using HI.
    intros HD HT HG Hp. unfold dense_fold.
    pose proof (seq_drop P lo hi (dr_le _ _ _ _ _ _ _ _ _ _ HD) (dr_len _ _ _ _ _ _ _ _ _ _ HD)) as Hseq.
    revert Hseq. generalize (drop lo P). induction (seq lo (hi - lo)) as [|k ks IH]; intros es Hseq; simpl.
    { inversion Hseq; subst. by exists []. }
    inversion Hseq as [|? e ? es' Hk Hseq']; subst.
    destruct (dense_get_ok G g T U lo hi _ ents k e HD HT HG eq_refl Hk) as (it & -> & Hit).
    destruct (IH es' Hseq') as (its & -> & Hits). exists (it :: its). split; [done|]. by constructor.
  Qed.

  Definition iter_dense (it : iter) : bool := match it with IDense _ _ _ _ => true | _ => false end.

  Lemma has_all_app r q q' : has_all r (q ++ q') ↔ has_all r q ∧ has_all r q'.
  Proof using Type. rewrite !has_all_types, required_app. apply types_in_app. Qed.

  Lemma dense_visits G J X lo hi P :
    dense_range s ds am grp loose (required (G ++ J)) (required X) lo hi P →
    visits am grp loose G J X true (drop lo P).
  Proof using HI.
    intros HD. split; [| |done|].
    - apply NoDup_drop. by eapply dense_nodup.
    - intros e He. assert (e ∈ P) as HeP.
      { rewrite <-(take_drop lo P), elem_of_app. auto. }
      destruct (dense_alive _ _ _ _ _ _ HD HeP) as [Ha Hall]. split; [done|].
      by apply has_all_types, has_all_app in Hall.
    - intros _. split_and!.
      + apply HD.
      + apply (dr_grouped _ _ _ _ _ _ _ _ _ _ HD).
      + intros e He. rewrite (dr_exact _ _ _ _ _ _ _ _ _ _ HD e He), <-has_all_types, has_all_app. tauto.
  Qed.

  Lemma sparse_visits G J X ents es :
    required (G ++ J) = [] ∧ ents = [] ∨ slice_of s ds (required (G ++ J)) ents → NoDup es →
    (∀ e, e ∈ es ↔ e ∈ ents ∧ has_all (row_of e) G ∧ has_all (row_of e) J ∧ excl_none (row_of e) X) →
    visits am grp loose G J X false es.
  Proof using HI.
    intros Hents Hnd Hes. split; try done.
    - intros e He. apply Hes in He as (He & HG & HJ & _). split; [|done].
      destruct Hents as [[_ ->]|Hs]; [by apply elem_of_nil in He|].
      by eapply (slice_of_alive _ _ _ _ _ _ HI).
    - intros _ e. rewrite Hes. destruct Hents as [[HT ->]|Hs].
      + rewrite elem_of_nil. naive_solver.
      + split; [|intros (_ & H); split; [|done]].
        * intros (_ & H). split; [|done]. destruct Hs as (t & m & d & Ht & _). intros HT. rewrite HT in Ht.
          by apply elem_of_nil in Ht.
        * eapply (slice_of_complete _ _ _ _ _ _ HI); [done|]. apply has_all_app. naive_solver.
  Qed.

  Lemma iter_fold_ok G J X g i x it :
    Forall2 (view_ok s) G g → Forall2 (view_ok s) J i → Forall2 (view_ok s) X x →
    iter_ok G J X g i x it →
    ∃ es its, iter_fold it = Ok its ∧ Forall2 (λ e it, items_ok e G it) es its ∧
      visits am grp loose G J X (iter_dense it) es.
  Proof using HI.
    intros HG HJ HX Hit. destruct it as [ents x' i' g'|lo hi ents g']; simpl in *.
    - destruct Hit as (-> & -> & -> & Hents).
      destruct (sparse_fold_ok G J X g i x ents) as (es & its & Hf & HF & Hnd & Hes); try done.
      + destruct Hents as [[_ ->]|Hs]; [constructor|]. by eapply (slice_of_nodup _ _ _ _ _ _ HI).
      + intros e He. destruct Hents as [[_ ->]|Hs]; [by apply elem_of_nil in He|].
        by eapply (slice_of_alive _ _ _ _ _ _ HI).
      + exists es, its. split_and!; try done. by eapply sparse_visits.
    - destruct Hit as (-> & P & HD & Hp & _).
      destruct (dense_fold_ok G g _ _ lo hi P ents HD) as (its & Hf & HF); try done.
      { rewrite required_app. set_solver. }
      exists (drop lo P), its. split_and!; try done. by eapply dense_visits.
  Qed.

  (** *** Lookup by handle *)

  Lemma one_get_ok G J X g i x e :
    Forall2 (view_ok s) G g → Forall2 (view_ok s) J i → Forall2 (view_ok s) X x →
    ∃ r, one_get g i x e = Ok r ∧
      match r with
      | None => ¬ (has_all (row_of e) G ∧ has_all (row_of e) J ∧ excl_none (row_of e) X)
      | Some it => has_all (row_of e) G ∧ has_all (row_of e) J ∧ excl_none (row_of e) X ∧ items_ok e G it
      end.
  Proof using HI.
    intros HG HJ HX. unfold one_get.
    destruct (contains_none x e) eqn:E1; simpl.
    2:{ exists None. split; [done|]. intros (_ & _ & H). apply (contains_none_iff _ _ _ _ _ _ HI X x e HX) in H. congruence. }
    destruct (contains_all i e) eqn:E2; simpl.
    2:{ exists None. split; [done|]. intros (_ & H & _). apply (contains_all_iff _ _ _ _ _ _ HI J i e HJ) in H. congruence. }
    apply (contains_none_iff _ _ _ _ _ _ HI X x e HX) in E1. apply (contains_all_iff _ _ _ _ _ _ HI J i e HJ) in E2.
    destruct (query_get_at _ _ _ _ _ _ HI G g e HG) as [[Hn ->]|(it & Hh & -> & Hit)]; eexists; (split; [done|]); naive_solver.
  Qed.

  Lemma one_contains_iff G J X g i x e :
    Forall2 (view_ok s) G g → Forall2 (view_ok s) J i → Forall2 (view_ok s) X x →
    one_contains g i x e = true ↔ has_all (row_of e) G ∧ has_all (row_of e) J ∧ excl_none (row_of e) X.
  Proof using HI.
    intros HG HJ HX. unfold one_contains. rewrite !andb_true_iff.
    rewrite (contains_none_iff _ _ _ _ _ _ HI X x e HX), (contains_all_iff _ _ _ _ _ _ HI J i e HJ),
      (contains_all_iff _ _ _ _ _ _ HI G g e HG). tauto.
  Qed.
End query.

(** ** Borrowing *)

Section borrow.
  Context (w : world) (ds : list dense) (am : amap) (reg grp : gset tid) (loose : gset entity).
  Context (HI : cinv (w_comps w) ds am reg grp loose).
  Local Notation s := (w_comps w).

  Lemma cs_borrow_ok t :
    (t ∉ reg ∧ cs_borrow s t = Panic) ∨
    ∃ m c, t ∈ reg ∧ cs_meta s !! t = Some m ∧ cs_comps s !! m_index m = Some c ∧ cs_borrow s t = Ok (c, m_info m).
  Proof using HI.
    unfold cs_borrow. destruct (cs_meta s !! t) as [m|] eqn:Hm.
    - right. destruct (ci_lookup _ _ _ _ _ _ HI t m Hm) as (c & d & Hc & _ & _). exists m, c. rewrite Hc.
      split_and!; try done. apply (ci_reg _ _ _ _ _ _ HI). eauto.
    - left. split; [|done]. rewrite (ci_reg _ _ _ _ _ _ HI), Hm. by intros [? ?].
  Qed.

  Lemma part_borrow_ok p :
    ((∃ t, part_tid p = Some t ∧ t ∉ reg) ∧ part_borrow w p = Panic) ∨
    ∃ v, (∀ t, part_tid p = Some t → t ∈ reg) ∧ part_borrow w p = Ok v ∧ view_ok s p v ∧ view_info s p v.
  Proof using HI.
    destruct p as [|t|t|t|t]; simpl.
    - right. eexists. split_and!; [done|done| |done]. split; [done|]. done.
    - destruct (cs_borrow_ok t) as [[Hn ->]|(m & c & Hin & Hm & Hc & ->)]; [left; naive_solver|right].
      eexists. split_and!; [naive_solver|done|split; [done|naive_solver]|]. simpl. eauto.
    - destruct (cs_borrow_ok t) as [[Hn ->]|(m & c & Hin & Hm & Hc & ->)]; [left; naive_solver|right].
      eexists. split_and!; [naive_solver|done|split; [done|naive_solver]|]. simpl. eauto.
    - destruct (cs_borrow_ok t) as [[Hn ->]|(m & c & Hin & Hm & Hc & ->)]; [left; naive_solver|right].
      eexists. split_and!; [naive_solver|done|split; [done|naive_solver]|]. done.
    - destruct (cs_borrow_ok t) as [[Hn ->]|(m & c & Hin & Hm & Hc & ->)]; [left; naive_solver|right].
      eexists. split_and!; [naive_solver|done|split; [done|naive_solver]|]. done.
  Qed.

  Definition types_reg (q : query) : Prop := ∀ t, t ∈ omap part_tid q → t ∈ reg.

  Lemma types_reg_cons p q :
    types_reg (p :: q) ↔ (∀ t, part_tid p = Some t → t ∈ reg) ∧ types_reg q.
  Proof using Type.
    unfold types_reg. simpl. destruct (part_tid p) as [t|]; simpl.
    - setoid_rewrite elem_of_cons. naive_solver.
    - naive_solver.
  Qed.

  Lemma query_borrow_ok q :
    (¬ types_reg q ∧ query_borrow w q = Panic) ∨
    ∃ vs, types_reg q ∧ query_borrow w q = Ok vs ∧ Forall2 (view_ok s) q vs ∧ Forall2 (view_info s) q vs.
  Proof using HI.
    induction q as [|p q IH]; simpl.
    { right. exists []. split_and!; try done. intros t. simpl. by rewrite elem_of_nil. }
    destruct (part_borrow_ok p) as [[(t & Ht & Hn) ->]|(v & Ht & -> & Hv & Hi)]; simpl.
    { left. split; [|done]. intros [H _]%types_reg_cons. naive_solver. }
    destruct IH as [[Hn ->]|(vs & Hr & -> & HF & HF')]; simpl.
    { left. split; [|done]. by intros [_ H]%types_reg_cons. }
    right. exists (v :: vs). split_and!; [by apply types_reg_cons|done|by constructor|by constructor].
  Qed.

  Lemma types_reg_app q q' : types_reg (q ++ q') ↔ types_reg q ∧ types_reg q'.
  Proof using Type. unfold types_reg. rewrite omap_app. setoid_rewrite elem_of_app. naive_solver. Qed.

  Lemma borrow3_ok G J X :
    (¬ (types_reg (G ++ J ++ X) ∧ no_conflict [] (accesses (G ++ J ++ X)) = true) ∧ borrow3 w G J X = Panic) ∨
    ∃ g i x, types_reg (G ++ J ++ X) ∧ no_conflict [] (accesses (G ++ J ++ X)) = true ∧
      borrow3 w G J X = Ok (g, i, x) ∧
      (Forall2 (view_ok s) G g ∧ Forall2 (view_info s) G g) ∧
      (Forall2 (view_ok s) J i ∧ Forall2 (view_info s) J i) ∧
      (Forall2 (view_ok s) X x ∧ Forall2 (view_info s) X x).
  Proof using HI.
    rewrite !types_reg_app. unfold borrow3.
    destruct (query_borrow_ok G) as [[Hn ->]|(g & Hg & -> & G1 & G2)]; [left; split; [tauto|done]|].
    destruct (query_borrow_ok J) as [[Hn ->]|(i & Hi & -> & J1 & J2)]; [left; split; [tauto|done]|].
    destruct (query_borrow_ok X) as [[Hn ->]|(x & Hx & -> & X1 & X2)]; [left; split; [tauto|done]|].
    destruct (no_conflict _ _); [right|left; split; [intros [_ ?]; discriminate|done]].
    exists g, i, x. split; [by rewrite !types_reg_app|done].
  Qed.
End borrow.
