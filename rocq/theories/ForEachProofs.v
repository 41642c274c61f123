(** [for_each]: writing through the items of an iteration. *)
From Verif Require Import Base Lists SparseVecM EntityM CssM MaskM LayoutM GroupM StorageM WorldM QueryM StepM
  SparseProofs CssProofs MaskProofs GroupProofs Spec EntityProofs LayoutProofs StorageProofs StoreOps LayoutOps
  WorldProofs QueryProofs QueryRange QueryIter.

(** The entities at their positions; assignments keep them. *)
Definition shape (ds : list dense) : list (list entity) := (λ d, d.*1) <$> ds.

Lemma shape_lookup ds ds' i d :
  shape ds = shape ds' → ds !! i = Some d → ∃ d', ds' !! i = Some d' ∧ d'.*1 = d.*1.
Proof.
  intros H Hd. assert (shape ds !! i = Some d.*1) as Hi by (unfold shape; by rewrite list_lookup_fmap, Hd).
  rewrite H in Hi. unfold shape in Hi. apply list_lookup_fmap_Some in Hi as (d' & Hd' & Heq). by exists d'.
Qed.

(** The cell an item writes to. *)
Definition cell_ok (s : cstore) (ds : list dense) (e : entity) (p : part) (it : item) : Prop :=
  match p with
  | PMut t | POptMut t =>
      ∃ m d, cs_meta s !! t = Some m ∧ ds !! m_index m = Some d ∧
        match p, it with
        | PMut _, IRef _ i _ | POptMut _, IOpt _ (Some (i, _)) => d.*1 !! i = Some e
        | POptMut _, IOpt _ None => e ∉ d.*1
        | _, _ => False
        end
  | _ => True
  end.

Lemma cell_ok_shape s s' ds ds' e p it :
  cs_meta s' = cs_meta s → shape ds = shape ds' → cell_ok s ds e p it → cell_ok s' ds' e p it.
Proof.
  intros Hm Hs. unfold cell_ok. rewrite Hm. destruct p; try done;
    intros (m & d & Ht & Hd & H); destruct (shape_lookup _ _ _ _ Hs Hd) as (d' & Hd' & Heq); exists m, d'; by rewrite Heq.
Qed.

(** A write of part [p] to the row [r]. *)
Definition assign_one (p : part) (nv : option val) (r : row) : row :=
  match p, nv with
  | PMut t, Some v | POptMut t, Some v => if decide (is_Some (r !! t)) then <[t := v]> r else r
  | _, _ => r
  end.

Lemma assign_cons f seen k p q r :
  assign f seen k (p :: q) r = assign f seen (S k) q (assign_one p (f k seen) r).
Proof. done. Qed.

Record wrote (s : cstore) (ds : list dense) (s' : cstore) (ds' : list dense) (old new : list val) : Prop := {
  wr_meta : cs_meta s' = cs_meta s;
  wr_groups : cs_groups s' = cs_groups s;
  wr_shape : shape ds = shape ds';
  wr_stored : new ++ stored ds ≡ₚ old ++ stored ds'
}.

Lemma wrote_refl s ds : wrote s ds s ds [] [].
Proof. by split. Qed.

Lemma wrote_trans s0 d0 s1 d1 s2 d2 o1 n1 o2 n2 :
  wrote s0 d0 s1 d1 o1 n1 → wrote s1 d1 s2 d2 o2 n2 → wrote s0 d0 s2 d2 (o1 ++ o2) (n1 ++ n2).
Proof.
  intros [A1 A2 A3 A4] [B1 B2 B3 B4]. split; [congruence..|].
  rewrite <-!(assoc_L (++)). rewrite <-B4.
  rewrite (Permutation_app_swap_app o1 n2). rewrite <-A4. apply Permutation_app_swap_app.
Qed.

Section write.
  Context (reg grp : gset tid) (loose : gset entity).
  Notation cinv s ds am := (cinv s ds am reg grp loose).

  Lemma write_one_ok s ds am e r p it nv :
    cinv s ds am → am !! e = Some r → cell_ok s ds e p it →
    ∃ s' ds' o n, write_one s p it nv = Ok (s', o, n) ∧ cinv s' ds' (<[e := assign_one p nv r]> am) ∧
      wrote s ds s' ds' o n.
  Proof using Type.
    intros HI He Hc.
    assert (Hsame : ∃ s' ds' o n, Ok (s, @nil val, @nil val) = Ok (s', o, n) ∧ cinv s' ds' (<[e := r]> am) ∧ wrote s ds s' ds' o n).
    { exists s, ds, [], []. split_and!; [done| |apply wrote_refl]. by rewrite insert_id. }
    assert (Hgo : ∀ t i v m d, cs_meta s !! t = Some m → ds !! m_index m = Some d → d.*1 !! i = Some e →
      ∃ c c' old ds', cs_comps s !! m_index m = Some c ∧ buf_read (c_comps c) i = Ok old ∧ css_set c i v = Ok c' ∧
        cinv (CStore (cs_groups s) (cs_meta s) (<[m_index m := c']> (cs_comps s))) ds' (<[e := <[t := v]> r]> am) ∧
        wrote s ds (CStore (cs_groups s) (cs_meta s) (<[m_index m := c']> (cs_comps s))) ds' [old] [v] ∧
        is_Some (r !! t)).
    { intros t i v m d Hm Hd Hi. apply dense_fst_lookup in Hi as [old Hi].
      destruct (ci_set_one _ _ _ _ _ _ HI t m e v r i old d He Hm Hd Hi) as (c & c' & H1 & H2 & H3 & H4 & H5 & H6 & _).
      exists c, c', old, (<[m_index m := <[i := (e, v)]> d]> ds). split_and!; try done; eauto.
      split; try done. unfold shape. rewrite list_fmap_insert, list_fmap_insert. simpl.
      rewrite (list_insert_id d.*1) by (by rewrite list_lookup_fmap, Hi).
      rewrite list_insert_id; [done|]. by rewrite list_lookup_fmap, Hd. }
    destruct p as [|t|t|t|t], it as [|t' i x|t' [[i x]|]], nv as [v|]; simpl; simpl in Hc; try exact Hsame;
      try (by destruct Hc as (m & d & _ & _ & [])).
    - destruct Hc as (m & d & Hm & Hd & Hi).
      destruct (Hgo t i v m d Hm Hd Hi) as (c & c' & old & ds' & H1 & H2 & H3 & H4 & H5 & H6).
      rewrite Hm, H1, H2, H3, decide_True by done. eauto 10.
    - destruct Hc as (m & d & Hm & Hd & Hi).
      destruct (Hgo t i v m d Hm Hd Hi) as (c & c' & old & ds' & H1 & H2 & H3 & H4 & H5 & H6).
      rewrite Hm, H1, H2, H3, decide_True by done. eauto 10.
    - destruct Hc as (m & d & Hm & Hd & Hn). rewrite decide_False; [exact Hsame|].
      intros [y Hy]. apply Hn, elem_fst_pair. exists y. apply (ci_data _ _ _ _ _ _ HI t m d); try done. by exists r.
  Qed.

  Lemma write_items_ok s ds am e r f seen k q its :
    cinv s ds am → am !! e = Some r → Forall2 (cell_ok s ds e) q its →
    ∃ s' ds' o n, write_items s f seen k q its = Ok (s', o, n) ∧ cinv s' ds' (<[e := assign f seen k q r]> am) ∧
      wrote s ds s' ds' o n.
  Proof using Type.
    intros HI He HF. revert s ds am r k HI He HF. revert its.
    induction q as [|p q IH]; intros its s ds am r k HI He HF; inversion HF as [|? it ? its' Hc HF']; subst; simpl.
    { exists s, ds, [], []. split_and!; [done| |apply wrote_refl]. by rewrite insert_id. }
    destruct (write_one_ok s ds am e r p it (f k seen) HI He Hc) as (s1 & ds1 & o1 & n1 & -> & HI1 & HW1).
    destruct (IH its' s1 ds1 _ (assign_one p (f k seen) r) (S k) HI1) as (s2 & ds2 & o2 & n2 & -> & HI2 & HW2).
    { by rewrite lookup_insert. }
    { eapply Forall2_impl; [exact HF'|]. intros p' it'. apply cell_ok_shape; [apply HW1|apply (wr_shape _ _ _ _ _ _ HW1)]. }
    rewrite insert_insert in HI2. exists s2, ds2, (o1 ++ o2), (n1 ++ n2). split_and!; [done|exact HI2|].
    by eapply wrote_trans.
  Qed.

  Lemma items_cells s ds am e q its :
    cinv s ds am → Forall (λ p, ∀ t, part_tid p = Some t → is_Some (cs_meta s !! t)) q →
    items_ok s ds am e q its → Forall2 (cell_ok s ds e) q its.
  Proof using Type.
    intros HI Hreg H. induction H as [|p it q its Hit _ IH]; [constructor|].
    inversion Hreg as [|? ? Hp Hreg']; subst. constructor; [|by apply IH].
    assert (Hcell : ∀ t i x, cell s ds t e i x → ∃ m d, cs_meta s !! t = Some m ∧ ds !! m_index m = Some d ∧ d.*1 !! i = Some e).
    { intros t i x (m & d & Hm & Hd & Hi). exists m, d. split_and!; try done. apply dense_fst_lookup. eauto. }
    destruct p as [|t|t|t|t], it as [|t' i x|t' [[i x]|]]; simpl in *; try done; destruct Hit as [-> Hit]; try (by eapply Hcell).
    destruct (Hp t eq_refl) as [m Hm]. destruct (ci_lookup _ _ _ _ _ _ HI t m Hm) as (c & d & _ & Hd & _).
    exists m, d. split_and!; try done. intros (x & Hx)%elem_fst_pair.
    apply (ci_data _ _ _ _ _ _ HI t m d) in Hx; [|done..]. apply am_has_row in Hx. congruence.
  Qed.

  Lemma visit_ok s ds am e r f G its :
    cinv s ds am → am !! e = Some r → Forall (λ p, ∀ t, part_tid p = Some t → is_Some (cs_meta s !! t)) G →
    items_ok s ds am e G its →
    ∃ s' ds' o n, visit s f G its = Ok (s', o, n) ∧ cinv s' ds' (<[e := visit_row G f e r]> am) ∧
      wrote s ds s' ds' o n.
  Proof using Type.
    intros HI He Hreg Hits. unfold visit, visit_row.
    pose proof (items_ok_sees _ _ _ _ _ _ HI e G its Hits) as Hs. unfold row_of in Hs. rewrite He in Hs. simpl in Hs.
    rewrite Hs. apply write_items_ok; try done. eapply items_cells; eauto.
  Qed.

  (** *** Views after assignments *)

  Lemma refresh_ok s s' ds' am' p v :
    cinv s' ds' am' → cs_meta s' = cs_meta s → view_ok s p v → view_ok s' p (refresh s' v).
  Proof using Type.
    intros HI Hm [Hp Hv]. unfold refresh. rewrite Hp. destruct (part_tid p) as [t|] eqn:Ht.
    - destruct (Hv t eq_refl) as (m & Hmt & _). rewrite <-Hm in Hmt.
      destruct (ci_lookup _ _ _ _ _ _ HI t m Hmt) as (c & d & Hc & _ & _).
      unfold cs_borrow. rewrite Hmt, Hc. split; [done|]. simpl. intros t' Ht'. rewrite Ht in Ht'. inversion Ht'; subst. eauto.
    - split; [done|]. intros t Ht'. congruence.
  Qed.

  Lemma refresh_all s s' ds' am' q vs :
    cinv s' ds' am' → cs_meta s' = cs_meta s → Forall2 (view_ok s) q vs → Forall2 (view_ok s') q (refresh s' <$> vs).
  Proof using Type.
    intros HI Hm. induction 1 as [|p v q vs Hv _ IH]; simpl; constructor; [|done]. by eapply refresh_ok.
  Qed.

  Lemma views_types s q vs :
    Forall2 (view_ok s) q vs → Forall (λ p, ∀ t, part_tid p = Some t → is_Some (cs_meta s !! t)) q.
  Proof using Type.
    induction 1 as [|p v q vs [_ Hv] _ IH]; constructor; [|done].
    intros t Ht. destruct (Hv t Ht) as (m & -> & _). eauto.
  Qed.

  Lemma visit_all_nil G f am : visit_all G f [] am = am.
  Proof using Type.
    unfold visit_all. apply map_eq. intros e. rewrite map_lookup_imap. by destruct (am !! e).
  Qed.

  Lemma visit_all_cons G f e r es am :
    am !! e = Some r → e ∉ es → visit_all G f (e :: es) am = visit_all G f es (<[e := visit_row G f e r]> am).
  Proof using Type.
    intros He Hn. unfold visit_all. apply map_eq. intros e'. rewrite !map_lookup_imap.
    destruct (decide (e' = e)) as [->|Hne].
    - rewrite lookup_insert, He. cbn [mbind option_bind]. rewrite decide_True by (by left). by rewrite decide_False.
    - rewrite lookup_insert_ne by done. destruct (am !! e') as [r'|]; [|done]. cbn [mbind option_bind].
      destruct (decide (e' ∈ es)).
      + rewrite decide_True by (by right). done.
      + rewrite decide_False; [done|]. by intros [|]%elem_of_cons.
  Qed.

  Lemma row_of_insert_ne am e e' r : e ≠ e' → row_of (<[e := r]> am) e' = row_of am e'.
  Proof using Type. intros H. unfold row_of. by rewrite lookup_insert_ne. Qed.

  (** *** The loops *)

  (* [s0] is the storage at the start; only values have changed since. *)
  Lemma sparse_for_each_ok s0 s ds am f G J X g i x ents :
    cinv s ds am → cs_meta s = cs_meta s0 →
    Forall2 (view_ok s0) G g → Forall2 (view_ok s0) J i → Forall2 (view_ok s0) X x →
    NoDup ents → (∀ e, e ∈ ents → is_Some (am !! e)) →
    ∃ s' ds' es o n, sparse_for_each s f G ents x i g = Ok (s', es, o, n) ∧
      cinv s' ds' (visit_all G f es am) ∧ wrote s ds s' ds' o n ∧ NoDup es ∧
      ∀ e, e ∈ es ↔ e ∈ ents ∧ has_all (row_of am e) G ∧ has_all (row_of am e) J ∧ excl_none (row_of am e) X.
  Proof using Type.
    revert s ds am. induction ents as [|e ents IH]; intros s ds am HI Hmeta HG HJ HX Hnd Hal; simpl.
    { exists s, ds, [], [], []. split_and!; [done| |apply wrote_refl|constructor|].
      - by rewrite visit_all_nil.
      - intros e. rewrite elem_of_nil. naive_solver. }
    apply NoDup_cons in Hnd as [Hne Hnd].
    assert (He : is_Some (am !! e)) by (apply Hal; by left).
    assert (Hskip : ¬ (has_all (row_of am e) G ∧ has_all (row_of am e) J ∧ excl_none (row_of am e) X) →
      ∃ s' ds' es o n, sparse_for_each s f G ents x i g = Ok (s', es, o, n) ∧
        cinv s' ds' (visit_all G f es am) ∧ wrote s ds s' ds' o n ∧ NoDup es ∧
        ∀ e', e' ∈ es ↔ e' ∈ e :: ents ∧ has_all (row_of am e') G ∧ has_all (row_of am e') J ∧ excl_none (row_of am e') X).
    { intros Hn. destruct (IH s ds am) as (s' & ds' & es & o & n & H1 & H2 & H3 & H4 & H5); try done.
      { intros; apply Hal; by right. }
      exists s', ds', es, o, n. split_and!; try done. intros e'. rewrite H5, elem_of_cons. naive_solver. }
    pose proof (refresh_all s0 s ds am _ _ HI Hmeta HX) as HX'.
    pose proof (refresh_all s0 s ds am _ _ HI Hmeta HJ) as HJ'.
    pose proof (refresh_all s0 s ds am _ _ HI Hmeta HG) as HG'.
    destruct (contains_none_raw (refresh s <$> x) (e_sparse e)) eqn:E1; simpl.
    2:{ apply Hskip. intros (_ & _ & Hx). apply (contains_none_raw_iff _ _ _ _ _ _ HI X _ e He HX') in Hx. congruence. }
    destruct (contains_all_raw (refresh s <$> i) (e_sparse e)) eqn:E2; simpl.
    2:{ apply Hskip. intros (_ & Hx & _). apply (contains_all_raw_iff _ _ _ _ _ _ HI J _ e He HJ') in Hx. congruence. }
    apply (contains_none_raw_iff _ _ _ _ _ _ HI X _ e He HX') in E1.
    apply (contains_all_raw_iff _ _ _ _ _ _ HI J _ e He HJ') in E2.
    destruct (query_get_raw_at _ _ _ _ _ _ HI G _ e He HG') as [[Hn ->]|(it & Hh & -> & Hit)].
    { apply Hskip. naive_solver. }
    destruct He as [r He].
    destruct (visit_ok s ds am e r f G it HI He) as (s1 & ds1 & o1 & n1 & -> & HI1 & HW1); [by eapply views_types|done|].
    destruct (IH s1 ds1 _ HI1) as (s2 & ds2 & es & o2 & n2 & -> & HI2 & HW2 & Hnd2 & Hes); try done.
    { rewrite (wr_meta _ _ _ _ _ _ HW1). done. }
    { intros e' He'. rewrite lookup_insert_ne by (by intros ->). apply Hal. by right. }
    assert (Hes' : ∀ e', e' ∈ es ↔ e' ∈ ents ∧ has_all (row_of am e') G ∧ has_all (row_of am e') J ∧ excl_none (row_of am e') X).
    { intros e'. rewrite Hes. destruct (decide (e' = e)) as [->|Hne']; [naive_solver|].
      by rewrite row_of_insert_ne. }
    assert (Hn : e ∉ es) by (rewrite Hes'; naive_solver).
    exists s2, ds2, (e :: es), (o1 ++ o2), (n1 ++ n2). split_and!; try done.
    - by rewrite (visit_all_cons G f e r).
    - by eapply wrote_trans.
    - by constructor.
    - intros e'. rewrite !elem_of_cons, Hes'. naive_solver.
  Qed.

  Lemma dense_for_each_ok s0 s ds am f G g ents P hi ks es :
    cinv s ds am → cs_meta s = cs_meta s0 → Forall2 (view_ok s0) G g →
    take hi ents = P →
    (∀ t, t ∈ required G → ∃ m d, cs_meta s !! t = Some m ∧ ds !! m_index m = Some d ∧ take hi d.*1 = P) →
    NoDup es → (∀ e, e ∈ es → is_Some (am !! e)) → Forall2 (λ k e, P !! k = Some e) ks es →
    ∃ s' ds' o n, dense_for_each s f G ks ents g = Ok (s', es, o, n) ∧
      cinv s' ds' (visit_all G f es am) ∧ wrote s ds s' ds' o n.
  Proof using Type.
    intros HI Hmeta HG Hp Hpre Hnd Hal HF. revert s ds am HI Hmeta Hpre Hnd Hal.
    induction HF as [|k e ks es Hk HF IH]; intros s ds am HI Hmeta Hpre Hnd Hal; simpl.
    { exists s, ds, [], []. split_and!; [done| |apply wrote_refl]. by rewrite visit_all_nil. }
    apply NoDup_cons in Hnd as [Hne Hnd].
    pose proof Hk as Hk'. rewrite <-Hp in Hk'. apply lookup_take_Some in Hk' as [-> _].
    pose proof (refresh_all s0 s ds am _ _ HI Hmeta HG) as HG'.
    destruct (Hal e) as [r He]; [by left|].
    destruct (query_get_dense_at _ _ _ _ _ _ HI G (refresh s <$> g) k e) as (it & -> & Hit); [eauto|done| |].
    { intros t Ht. destruct (Hpre t Ht) as (m & d & Hm & Hd & Hpd). rewrite <-Hpd in Hk.
      apply lookup_take_Some in Hk as [Hk _]. apply dense_fst_lookup in Hk as [y Hy]. exists y, m, d. done. }
    destruct (visit_ok s ds am e r f G it HI He) as (s1 & ds1 & o1 & n1 & -> & HI1 & HW1); [by eapply views_types|done|].
    destruct (IH s1 ds1 _ HI1) as (s2 & ds2 & o2 & n2 & -> & HI2 & HW2); try done.
    { rewrite (wr_meta _ _ _ _ _ _ HW1). done. }
    { intros t Ht. destruct (Hpre t Ht) as (m & d & Hm & Hd & Hpd).
      destruct (shape_lookup _ _ _ _ (wr_shape _ _ _ _ _ _ HW1) Hd) as (d' & Hd' & Heq).
      exists m, d'. rewrite (wr_meta _ _ _ _ _ _ HW1), Heq. done. }
    { intros e' He'. rewrite lookup_insert_ne by (by intros ->). apply Hal. by right. }
    exists s2, ds2, (o1 ++ o2), (n1 ++ n2). split_and!; try done.
    - by rewrite (visit_all_cons G f e r).
    - by eapply wrote_trans.
  Qed.
End write.

Lemma query_for_each_ok w ds am reg grp loose G J X f :
  cinv (w_comps w) ds am reg grp loose →
  (¬ (types_reg reg (G ++ J ++ X) ∧ no_conflict [] (accesses (G ++ J ++ X)) = true) ∧ query_for_each w G J X f = Panic) ∨
  ∃ s' ds' es o n dn, types_reg reg (G ++ J ++ X) ∧ no_conflict [] (accesses (G ++ J ++ X)) = true ∧
    query_for_each w G J X f = Ok (s', es, o, n) ∧ cinv s' ds' (visit_all G f es am) reg grp loose ∧
    wrote (w_comps w) ds s' ds' o n ∧ visits am grp loose G J X dn es ∧ query_is_dense w G J X = Ok dn.
Proof.
  intros HI. unfold query_for_each, query_is_dense.
  destruct (borrow3_ok w ds am reg grp loose HI G J X) as [[Hn ->]|(g & i & x & Hr & Hc & -> & [G1 G2] & [J1 J2] & [X1 X2])].
  { left. done. }
  right. destruct (query_iter_ok _ _ _ _ _ _ HI G J X g i x) as (it & -> & Hit); try done.
  destruct it as [ents x' i' g'|lo hi ents g']; simpl in Hit.
  - destruct Hit as (-> & -> & -> & Hents).
    destruct (sparse_for_each_ok reg grp loose (w_comps w) (w_comps w) ds am f G J X g i x ents)
      as (s' & ds' & es & o & n & H1 & H2 & H3 & H4 & H5); try done.
    + destruct Hents as [[_ ->]|Hs]; [constructor|]. by eapply (slice_of_nodup _ _ _ _ _ _ HI).
    + intros e He. destruct Hents as [[_ ->]|Hs]; [by apply elem_of_nil in He|].
      by eapply (slice_of_alive _ _ _ _ _ _ HI).
    + exists s', ds', es, o, n, false. split_and!; try done. by eapply (sparse_visits _ _ _ _ _ _ HI).
  - destruct Hit as (-> & P & HD & Hp & _).
    destruct (dense_for_each_ok reg grp loose (w_comps w) (w_comps w) ds am f G g ents P hi (seq lo (hi - lo)) (drop lo P))
      as (s' & ds' & o & n & H1 & H2 & H3); try done.
    + intros t Ht. apply (dr_pre _ _ _ _ _ _ _ _ _ _ HD). rewrite required_app, elem_of_app. auto.
    + apply NoDup_drop. by eapply (dense_nodup _ _ _ _ _ _ HI).
    + intros e He. eapply (dense_alive _ _ _ _ _ _ HI); [done|]. rewrite <-(take_drop lo P), elem_of_app. auto.
    + apply seq_drop; [apply HD|apply (dr_len _ _ _ _ _ _ _ _ _ _ HD)].
    + exists s', ds', (drop lo P), o, n, true. split_and!; try done. by eapply (dense_visits _ _ _ _ _ _ HI).
Qed.

Lemma step_for_each (pre : outcome → Prop) w s ds G J X f :
  winv w s ds → step_given pre s ds (OForEach G J X f) (world_for_each w G J X f).
Proof.
  intros [HE HC]. unfold world_for_each.
  destruct (query_for_each_ok w ds _ _ _ _ G J X f HC) as
    [[Hn ->]|(s' & ds' & es & o & n & dn & Hr & Hc & -> & HC' & HW & HV & _)]; simpl; intros _.
  - split; [right; split; [|done]|].
    + intros [H1 H2]. apply Hn. split; [|done]. exact H1.
    + exists ds. split; [|done]. split; [|done]. done.
  - split.
    + left. split; [split; done|]. exists es, n. split_and!; try done; [apply HV|].
      intros e He. apply (vs_sound _ _ _ _ _ _ _ _ HV) in He. exact He.
    + exists ds'. split; [|apply HW]. split; simpl; [|exact HC'].
      eapply einv_ext; [..|exact HE]; try done. intros e. unfold s_alive. simpl. unfold visit_all.
      rewrite map_lookup_imap. destruct (s_map s !! e); simpl; split; intros [? ?]; eauto; done.
Qed.
