(** Queries on a storage that meets its invariant: what they return in terms of
    the map from entities to components. *)
From Verif Require Import Base Lists SparseVecM EntityM CssM MaskM LayoutM GroupM StorageM WorldM QueryM StepM
  SparseProofs CssProofs MaskProofs GroupProofs Spec EntityProofs LayoutProofs StorageProofs StoreOps LayoutOps
  WorldProofs.

(** ** Views *)

(** The view of part [p]. *)
Definition view_ok (s : cstore) (p : part) (v : pview) : Prop :=
  pv_part v = p ∧
  ∀ t, part_tid p = Some t → ∃ m, cs_meta s !! t = Some m ∧ cs_comps s !! m_index m = Some (pv_css v).

(** ... and its group info. *)
Definition view_info (s : cstore) (p : part) (v : pview) : Prop :=
  match p with
  | PRef t | PMut t => ∃ m, cs_meta s !! t = Some m ∧ pv_info v = Some (VInfo (m_info m) (c_len (pv_css v)))
  | _ => pv_info v = None
  end.

Definition row_of (am : amap) (e : entity) : row := default ∅ (am !! e).

Lemma am_has_row am t e v : am_has am t e v ↔ row_of am e !! t = Some v.
Proof.
  unfold am_has, row_of. destruct (am !! e) as [r|]; simpl; [naive_solver|].
  rewrite lookup_empty. naive_solver.
Qed.

(** The item [it] of part [p] is that of entity [e]. *)
Definition cell (s : cstore) (ds : list dense) (t : tid) (e : entity) (i : nat) (x : val) : Prop :=
  ∃ m d, cs_meta s !! t = Some m ∧ ds !! m_index m = Some d ∧ d !! i = Some (e, x).

Definition item_ok (s : cstore) (ds : list dense) (am : amap) (e : entity) (p : part) (it : item) : Prop :=
  match p, it with
  | PEntity, IEnt e' => e' = e
  | PRef t, IRef t' i x | PMut t, IRef t' i x => t' = t ∧ cell s ds t e i x
  | POptRef t, IOpt t' (Some (i, x)) | POptMut t, IOpt t' (Some (i, x)) => t' = t ∧ cell s ds t e i x
  | POptRef t, IOpt t' None | POptMut t, IOpt t' None => t' = t ∧ row_of am e !! t = None
  | _, _ => False
  end.

Definition items_ok (s : cstore) (ds : list dense) (am : amap) (e : entity) (q : query) (its : list item) : Prop :=
  Forall2 (item_ok s ds am e) q its.

Section views.
  Context (s : cstore) (ds : list dense) (am : amap) (reg grp : gset tid) (loose : gset entity).
  Context (HI : cinv s ds am reg grp loose).

  Notation row_of := (row_of am).
  Notation item_ok := (item_ok s ds am).
  Notation items_ok := (items_ok s ds am).

  Lemma view_rep p v t :
    view_ok s p v → part_tid p = Some t →
    ∃ m d, cs_meta s !! t = Some m ∧ cs_comps s !! m_index m = Some (pv_css v) ∧ ds !! m_index m = Some d ∧
      css_rep (pv_css v) d ∧ ∀ e x, (e, x) ∈ d ↔ row_of e !! t = Some x.
  Proof using HI.
    intros [Hp H] Ht. destruct (H t Ht) as (m & Hm & Hc).
    destruct (ci_lookup _ _ _ _ _ _ HI t m Hm) as (c & d & Hc' & Hd & Hr).
    rewrite Hc in Hc'. inversion Hc'; subst c. exists m, d. split_and!; try done.
    intros e x. rewrite <-am_has_row. by apply (ci_data _ _ _ _ _ _ HI t m).
  Qed.

  Lemma cell_row t e i x : cell s ds t e i x → row_of e !! t = Some x.
  Proof using HI.
    intros (m & d & Hm & Hd & Hi). apply am_has_row. apply (ci_data _ _ _ _ _ _ HI t m d); try done.
    by eapply elem_of_list_lookup_2.
  Qed.

  Lemma row_alive e t x : row_of e !! t = Some x → is_Some (am !! e).
  Proof using Type. intros (r & Hr & _)%am_has_row. eauto. Qed.

  Lemma item_ok_sees e p it : item_ok e p it → sees_part e (row_of e) p = Some (abs_item it).
  Proof using HI.
    intros H. destruct p, it as [|?|? [[??]|]]; simpl in *; try done; [by subst|..];
      destruct H as [-> H]; try (apply cell_row in H); by rewrite H.
  Qed.

  Lemma items_ok_sees e q its : items_ok e q its → sees e (row_of e) q = Some (abs_item <$> its).
  Proof using HI.
    induction 1 as [|p it q its H _ IH]; [done|]. simpl. by rewrite (item_ok_sees _ _ _ H), IH.
  Qed.

  Lemma items_ok_has_all e q its : items_ok e q its → has_all (row_of e) q.
  Proof using HI.
    induction 1 as [|p it q its H _ IH]; intros t; simpl; [by rewrite elem_of_nil|].
    destruct p, it as [|?|? [[??]|]]; simpl in *; try done; try (by apply IH);
      destruct H as [-> H%cell_row]; intros [->|]%elem_of_cons; eauto; by apply IH.
  Qed.

  (** A cell has one place. *)
  Lemma cell_fun t e i x j y : cell s ds t e i x → cell s ds t e j y → i = j ∧ x = y.
  Proof using HI.
    intros (m & d & Hm & Hd & Hi) (m' & d' & Hm' & Hd' & Hj).
    assert (m' = m) as -> by congruence. assert (d' = d) as -> by congruence.
    destruct (ci_lookup _ _ _ _ _ _ HI t m Hm) as (c & d0 & _ & Hd0 & Hr).
    assert (d0 = d) as -> by congruence. by eapply css_rep_pair_inj.
  Qed.

  Lemma cell_owner t e e' i x y : cell s ds t e i x → cell s ds t e' i y → e = e'.
  Proof using Type.
    intros (m & d & Hm & Hd & Hi) (m' & d' & Hm' & Hd' & Hj).
    assert (m' = m) as -> by congruence. assert (d' = d) as -> by congruence. congruence.
  Qed.

  Lemma item_ok_fun e p it it' : item_ok e p it → item_ok e p it' → it = it'.
  Proof using HI.
    intros H H'. destruct p, it as [|?|? [[??]|]], it' as [|?|? [[??]|]]; simpl in *; try done; try congruence;
      destruct H as [-> H], H' as [-> H'];
      try (by destruct (cell_fun _ _ _ _ _ _ H H') as [-> ->]);
      try (apply cell_row in H); try (apply cell_row in H'); congruence.
  Qed.

  Lemma items_ok_fun e q its its' : items_ok e q its → items_ok e q its' → its = its'.
  Proof using HI.
    intros H. revert its'. induction H as [|p it q its H _ IH]; intros its' H'; inversion H'; subst; [done|].
    f_equal; [by eapply item_ok_fun|by apply IH].
  Qed.

  (** Reading a cell. *)
  Lemma view_deref p v t i e x :
    view_ok s p v → part_tid p = Some t → cell s ds t e i x → deref v i = Ok x.
  Proof using HI.
    intros Hv Ht (m & d & Hm & Hd & Hi). destruct (view_rep p v t Hv Ht) as (m' & d' & Hm' & _ & Hd' & Hr & _).
    assert (m' = m) as -> by congruence. assert (d' = d) as -> by congruence.
    unfold deref, buf_read. destruct (cr_cells _ _ Hr _ _ _ Hi) as [_ ->]. done.
  Qed.

  (** Lookup by handle. *)
  Lemma view_get_at p v t e :
    view_ok s p v → part_tid p = Some t →
    (sv_get (c_sparse (pv_css v)) e = None ∧ row_of e !! t = None) ∨
    ∃ i x, sv_get (c_sparse (pv_css v)) e = Some (N.of_nat i) ∧ cell s ds t e i x.
  Proof using HI.
    intros Hv Ht. destruct (view_rep p v t Hv Ht) as (m & d & Hm & _ & Hd & Hr & Hdata).
    destruct (decide (e ∈ d.*1)) as [(x & Hin)%elem_fst_pair|Hn].
    - right. apply elem_of_list_lookup in Hin as [i Hi]. exists i, x. split; [|by exists m, d].
      eapply sv_get_lookup; [apply Hr|]. apply dense_fst_lookup. eauto.
    - left. split; [by eapply sv_get_None; [apply Hr|]|].
      apply eq_None_not_Some. intros [x Hx]. apply Hn, elem_fst_pair. exists x. by apply Hdata.
  Qed.

  (** Lookup by index of a live entity. *)
  Lemma view_get_raw_at p v t e :
    is_Some (am !! e) → view_ok s p v → part_tid p = Some t →
    (sv_get_sparse (c_sparse (pv_css v)) (e_sparse e) = None ∧ row_of e !! t = None) ∨
    ∃ i x, sv_get_sparse (c_sparse (pv_css v)) (e_sparse e) = Some (N.of_nat i) ∧ cell s ds t e i x.
  Proof using HI.
    intros He Hv Ht. destruct (view_rep p v t Hv Ht) as (m & d & Hm & _ & Hd & Hr & Hdata).
    destruct (decide (e ∈ d.*1)) as [(x & Hin)%elem_fst_pair|Hn].
    - right. apply elem_of_list_lookup in Hin as [i Hi]. exists i, x. split; [|by exists m, d].
      eapply sv_get_sparse_lookup; [apply Hr|]. apply dense_fst_lookup. eauto.
    - left. split.
      + eapply sv_get_sparse_None; [apply Hr|]. intros e' He' Heq.
        eapply (ci_fresh _ _ _ _ _ _ HI _ d e Hd He Hn e' He'). by apply e_sparse_inj.
      + apply eq_None_not_Some. intros [x Hx]. apply Hn, elem_fst_pair. exists x. by apply Hdata.
  Qed.

  Definition part_has (r : row) (p : part) : Prop :=
    match p with PRef t | PMut t => is_Some (r !! t) | _ => True end.

  Lemma has_all_cons r p q : has_all r (p :: q) ↔ part_has r p ∧ has_all r q.
  Proof using Type.
    unfold has_all. destruct p; simpl; try naive_solver; setoid_rewrite elem_of_cons; naive_solver.
  Qed.

  Lemma part_contains_iff p v e : view_ok s p v → part_contains v e = true ↔ part_has (row_of e) p.
  Proof using HI.
    intros Hv. pose proof Hv as [Hp _]. unfold part_contains. rewrite Hp.
    destruct p as [|t|t|t|t]; simpl; try done;
      unfold css_contains; rewrite sv_contains_get;
      (destruct (view_get_at _ v t e Hv eq_refl) as [[-> ->]|(i & x & -> & Hc)];
        [by split; [|intros [? ?]]|]); split; try done; intros _; apply cell_row in Hc; eauto.
  Qed.

  Lemma part_contains_raw_iff p v e :
    is_Some (am !! e) → view_ok s p v → part_contains_raw v (e_sparse e) = true ↔ part_has (row_of e) p.
  Proof using HI.
    intros He Hv. pose proof Hv as [Hp _]. unfold part_contains_raw. rewrite Hp.
    assert (sv_contains_sparse (c_sparse (pv_css v)) (e_sparse e) =
            match sv_get_sparse (c_sparse (pv_css v)) (e_sparse e) with Some _ => true | None => false end) as Heq.
    { unfold sv_contains_sparse, sv_get_sparse. by destruct (c_sparse (pv_css v) !! e_sparse e) as [[?|]|]. }
    destruct p as [|t|t|t|t]; simpl; try done; rewrite Heq;
      (destruct (view_get_raw_at _ v t e He Hv eq_refl) as [[-> ->]|(i & x & -> & Hc)];
        [by split; [|intros [? ?]]|]); split; try done; intros _; apply cell_row in Hc; eauto.
  Qed.

  Lemma contains_all_iff q vs e :
    Forall2 (view_ok s) q vs → contains_all vs e = true ↔ has_all (row_of e) q.
  Proof using HI.
    induction 1 as [|p v q vs Hv _ IH]; simpl.
    { split; [|done]. intros _ t. simpl. by rewrite elem_of_nil. }
    rewrite andb_true_iff, (part_contains_iff _ _ _ Hv), has_all_cons. by rewrite IH.
  Qed.

  Lemma contains_all_raw_iff q vs e :
    is_Some (am !! e) →
    Forall2 (view_ok s) q vs → contains_all_raw vs (e_sparse e) = true ↔ has_all (row_of e) q.
  Proof using HI.
    intros He. induction 1 as [|p v q vs Hv _ IH]; simpl.
    { split; [|done]. intros _ t. simpl. by rewrite elem_of_nil. }
    rewrite andb_true_iff, (part_contains_raw_iff _ _ _ He Hv), has_all_cons. by rewrite IH.
  Qed.

  (** Excluding a part that is not a component excludes everything. *)
  Definition excl_none (r : row) (q : query) : Prop := ∀ p, p ∈ q → ¬ part_has r p.

  Lemma excl_none_plain r q : (∀ p, p ∈ q → part_required p) → excl_none r q ↔ has_none r q.
  Proof using Type.
    intros Hp. unfold excl_none, has_none, required. setoid_rewrite elem_of_list_omap. split.
    - intros H t (p & Hin & Heq). specialize (H p Hin). destruct p; try done; inversion Heq; subst; simpl in H;
        by apply eq_None_not_Some.
    - intros H p Hin. specialize (Hp p Hin). destruct p as [|t|t|t|t]; try done; simpl;
        rewrite (H t) by eauto; by intros [? ?].
  Qed.

  Lemma contains_none_iff q vs e :
    Forall2 (view_ok s) q vs → contains_none vs e = true ↔ excl_none (row_of e) q.
  Proof using HI.
    unfold excl_none. induction 1 as [|p v q vs Hv _ IH]; simpl.
    { split; [|done]. intros _ p. by rewrite elem_of_nil. }
    rewrite andb_true_iff, negb_true_iff, <-not_true_iff_false, (part_contains_iff _ _ _ Hv), IH.
    setoid_rewrite elem_of_cons. naive_solver.
  Qed.

  Lemma contains_none_raw_iff q vs e :
    is_Some (am !! e) →
    Forall2 (view_ok s) q vs → contains_none_raw vs (e_sparse e) = true ↔ excl_none (row_of e) q.
  Proof using HI.
    intros He. unfold excl_none. induction 1 as [|p v q vs Hv _ IH]; simpl.
    { split; [|done]. intros _ p. by rewrite elem_of_nil. }
    rewrite andb_true_iff, negb_true_iff, <-not_true_iff_false, (part_contains_raw_iff _ _ _ He Hv), IH.
    setoid_rewrite elem_of_cons. naive_solver.
  Qed.

  (** *** Items *)

  Lemma part_get_at p v e :
    view_ok s p v →
    (part_key v e = None ∧ ¬ part_has (row_of e) p) ∨
    ∃ k it, part_key v e = Some k ∧ part_get v k = Ok it ∧ part_has (row_of e) p ∧ item_ok e p it.
  Proof using HI.
    intros Hv. pose proof Hv as [Hp _]. unfold part_key, part_get. rewrite Hp.
    destruct p as [|t|t|t|t]; simpl.
    - right. exists (KEnt e), (IEnt e). done.
    - destruct (view_get_at _ v t e Hv eq_refl) as [[-> ->]|(i & x & -> & Hc)]; [left|right].
      + split; [done|]. by intros [? ?].
      + exists (KDense i), (IRef t i x). simpl. rewrite Nat2N.id, (view_deref _ v t i e x Hv eq_refl Hc). simpl.
        split_and!; try done. apply cell_row in Hc. eauto.
    - destruct (view_get_at _ v t e Hv eq_refl) as [[-> ->]|(i & x & -> & Hc)]; [left|right].
      + split; [done|]. by intros [? ?].
      + exists (KDense i), (IRef t i x). simpl. rewrite Nat2N.id, (view_deref _ v t i e x Hv eq_refl Hc). simpl.
        split_and!; try done. apply cell_row in Hc. eauto.
    - right. exists (KEnt e). unfold css_get_ref.
      destruct (view_get_at _ v t e Hv eq_refl) as [[-> Hn]|(i & x & -> & Hc)].
      + exists (IOpt t None). done.
      + exists (IOpt t (Some (i, x))). rewrite Nat2N.id.
        pose proof (view_deref _ v t i e x Hv eq_refl Hc) as Hd. unfold deref in Hd. rewrite Hd. done.
    - right. exists (KEnt e). unfold css_get_ref.
      destruct (view_get_at _ v t e Hv eq_refl) as [[-> Hn]|(i & x & -> & Hc)].
      + exists (IOpt t None). done.
      + exists (IOpt t (Some (i, x))). rewrite Nat2N.id.
        pose proof (view_deref _ v t i e x Hv eq_refl Hc) as Hd. unfold deref in Hd. rewrite Hd. done.
  Qed.

  Lemma part_opt_raw_at p v t e :
    is_Some (am !! e) → view_ok s p v → part_tid p = Some t → part_mut p = true ∨ part_mut p = false →
    (p = POptRef t ∨ p = POptMut t) →
    ∃ it, part_opt_raw v t e = Ok it ∧ item_ok e p it.
  Proof using HI.
    intros He Hv Ht _ Hp. unfold part_opt_raw.
    destruct (view_get_raw_at _ v t e He Hv Ht) as [[-> Hn]|(i & x & -> & Hc)].
    - exists (IOpt t None). split; [done|]. by destruct Hp as [-> | ->].
    - exists (IOpt t (Some (i, x))). rewrite Nat2N.id, (view_deref _ v t i e x Hv Ht Hc). split; [done|].
      by destruct Hp as [-> | ->].
  Qed.

  Lemma part_get_raw_at p v e :
    is_Some (am !! e) → view_ok s p v →
    (part_key_raw v e = None ∧ ¬ part_has (row_of e) p) ∨
    ∃ k it, part_key_raw v e = Some k ∧ part_get_raw v k = Ok it ∧ part_has (row_of e) p ∧ item_ok e p it.
  Proof using HI.
    intros He Hv. pose proof Hv as [Hp _]. unfold part_key_raw, part_get_raw. rewrite Hp.
    destruct p as [|t|t|t|t]; simpl.
    - right. exists (KEnt e), (IEnt e). done.
    - destruct (view_get_raw_at _ v t e He Hv eq_refl) as [[-> ->]|(i & x & -> & Hc)]; [left|right].
      + split; [done|]. by intros [? ?].
      + exists (KDense i), (IRef t i x). simpl. rewrite Nat2N.id, (view_deref _ v t i e x Hv eq_refl Hc). simpl.
        split_and!; try done. apply cell_row in Hc. eauto.
    - destruct (view_get_raw_at _ v t e He Hv eq_refl) as [[-> ->]|(i & x & -> & Hc)]; [left|right].
      + split; [done|]. by intros [? ?].
      + exists (KDense i), (IRef t i x). simpl. rewrite Nat2N.id, (view_deref _ v t i e x Hv eq_refl Hc). simpl.
        split_and!; try done. apply cell_row in Hc. eauto.
    - right. exists (KEnt e). destruct (part_opt_raw_at _ v t e He Hv eq_refl) as (it & -> & Hit); auto. eauto.
    - right. exists (KEnt e). destruct (part_opt_raw_at _ v t e He Hv eq_refl) as (it & -> & Hit); auto. eauto.
  Qed.

  Lemma part_get_dense_at p v i e :
    is_Some (am !! e) → view_ok s p v →
    (∀ t, part_required p → part_tid p = Some t → ∃ x, cell s ds t e i x) →
    ∃ it, part_get_dense v i e = Ok it ∧ item_ok e p it.
  Proof using HI.
    intros He Hv Hcell. pose proof Hv as [Hp _]. unfold part_get_dense. rewrite Hp.
    destruct p as [|t|t|t|t]; simpl in *.
    - by exists (IEnt e).
    - destruct (Hcell t I eq_refl) as [x Hc]. rewrite (view_deref _ v t i e x Hv eq_refl Hc). by exists (IRef t i x).
    - destruct (Hcell t I eq_refl) as [x Hc]. rewrite (view_deref _ v t i e x Hv eq_refl Hc). by exists (IRef t i x).
    - apply (part_opt_raw_at _ v t e He Hv eq_refl); auto.
    - apply (part_opt_raw_at _ v t e He Hv eq_refl); auto.
  Qed.

  Lemma query_get_at q vs e :
    Forall2 (view_ok s) q vs →
    (¬ has_all (row_of e) q ∧ query_get vs e = Ok None) ∨
    ∃ its, has_all (row_of e) q ∧ query_get vs e = Ok (Some its) ∧ items_ok e q its.
  Proof using HI.
    unfold query_get. induction 1 as [|p v q vs Hv _ IH]; simpl.
    { right. exists []. split_and!; [|done|constructor]. intros t. simpl. by rewrite elem_of_nil. }
    rewrite has_all_cons. destruct (part_get_at p v e Hv) as [[-> Hn]|(k & it & -> & Hg & Hh & Hit)].
    { left. split; [naive_solver|done]. }
    destruct IH as [[Hn IH]|(its & Hh' & IH & Hits)].
    - left. split; [naive_solver|]. destruct (all_some _ vs) as [ks|]; [|done]. simpl. rewrite Hg.
      by destruct (all_ok _ (zip vs ks)).
    - right. exists (it :: its). split_and!; [by apply has_all_cons| |by constructor].
      destruct (all_some _ vs) as [ks|]; [|done]. simpl. rewrite Hg.
      destruct (all_ok _ (zip vs ks)); try done. by inversion IH; subst.
  Qed.

  Lemma query_get_raw_at q vs e :
    is_Some (am !! e) →
    Forall2 (view_ok s) q vs →
    (¬ has_all (row_of e) q ∧ query_get_raw vs e = Ok None) ∨
    ∃ its, has_all (row_of e) q ∧ query_get_raw vs e = Ok (Some its) ∧ items_ok e q its.
  Proof using HI.
    intros He. unfold query_get_raw. induction 1 as [|p v q vs Hv _ IH]; simpl.
    { right. exists []. split_and!; [|done|constructor]. intros t. simpl. by rewrite elem_of_nil. }
    rewrite has_all_cons. destruct (part_get_raw_at p v e He Hv) as [[-> Hn]|(k & it & -> & Hg & Hh & Hit)].
    { left. split; [naive_solver|done]. }
    destruct IH as [[Hn IH]|(its & Hh' & IH & Hits)].
    - left. split; [naive_solver|]. destruct (all_some _ vs) as [ks|]; [|done]. simpl. rewrite Hg.
      by destruct (all_ok _ (zip vs ks)).
    - right. exists (it :: its). split_and!; [by apply has_all_cons| |by constructor].
      destruct (all_some _ vs) as [ks|]; [|done]. simpl. rewrite Hg.
      destruct (all_ok _ (zip vs ks)); try done. by inversion IH; subst.
  Qed.

  Lemma query_get_dense_at q vs i e :
    is_Some (am !! e) → Forall2 (view_ok s) q vs →
    (∀ t, t ∈ required q → ∃ x, cell s ds t e i x) →
    ∃ its, query_get_dense vs i e = Ok its ∧ items_ok e q its.
  Proof using HI.
    intros He. unfold query_get_dense. induction 1 as [|p v q vs Hv _ IH]; intros Hc; simpl.
    { exists []. split; [done|constructor]. }
    destruct (part_get_dense_at p v i e He Hv) as (it & -> & Hit).
    { intros t Hr Ht. apply Hc. destruct p; try done; simpl in *; inversion Ht; subst; apply elem_of_cons; auto. }
    destruct IH as (its & -> & Hits).
    { intros t Ht. apply Hc. destruct p; simpl; rewrite ?elem_of_cons; auto. }
    exists (it :: its). split; [done|]. by constructor.
  Qed.

  (** *** Entity slices *)

  Local Arguments required : simpl never.

  Lemma part_entities_at p v :
    view_ok s p v →
    (¬ part_required p ∧ part_entities v = Ok None) ∨
    ∃ t m d, part_required p ∧ part_tid p = Some t ∧ cs_meta s !! t = Some m ∧ ds !! m_index m = Some d ∧
      part_entities v = Ok (Some d.*1).
  Proof using HI.
    intros Hv. pose proof Hv as [Hp _]. unfold part_entities. rewrite Hp.
    destruct p as [|t|t|t|t]; simpl; auto;
      destruct (view_rep _ v t Hv eq_refl) as (m & d & Hm & _ & Hd & Hr & _); right; exists t, m, d;
      rewrite (css_entities_ok _ _ Hr); done.
  Qed.

  (** [l] is the entities slice of a type of [T]. *)
  Definition slice_of (T : list tid) (l : list entity) : Prop :=
    ∃ t m d, t ∈ T ∧ cs_meta s !! t = Some m ∧ ds !! m_index m = Some d ∧ l = d.*1.

  Lemma required_cons_req p q t : part_required p → part_tid p = Some t → required (p :: q) = t :: required q.
  Proof using Type. unfold required. by destruct p; simpl; intros; simplify_eq. Qed.
  Lemma required_cons_opt p q : ¬ part_required p → required (p :: q) = required q.
  Proof using Type. by destruct p. Qed.

  Lemma shortest_entities_at q vs acc T0 :
    Forall2 (view_ok s) q vs →
    match acc with None => T0 = [] | Some l => slice_of T0 l end →
    ∃ r, shortest_entities acc vs = Ok r ∧
      match r with None => T0 ++ required q = [] | Some l => slice_of (T0 ++ required q) l end.
  Proof using HI.
    intros HF. revert acc T0. induction HF as [|p v q vs Hv _ IH]; intros acc T0 Hacc; simpl.
    { exists acc. split; [done|]. by rewrite app_nil_r. }
    destruct (part_entities_at p v Hv) as [[Hn ->]|(t & m & d & Hr & Ht & Hm & Hd & ->)].
    { destruct (IH acc T0 Hacc) as (r & -> & H). exists r. split; [done|]. by rewrite required_cons_opt. }
    assert (Hs : slice_of (T0 ++ [t]) d.*1).
    { exists t, m, d. rewrite elem_of_app, elem_of_list_singleton. auto. }
    destruct (IH (match acc with
                  | Some old => if length d.*1 <? length old then Some d.*1 else Some old
                  | None => Some d.*1 end) (T0 ++ [t])) as (r & -> & H).
    { destruct acc as [old|]; [|done]. destruct (_ <? _); [done|].
      destruct Hacc as (t' & m' & d' & ? & ? & ? & ?). exists t', m', d'. rewrite elem_of_app. auto. }
    exists r. split; [done|].
    rewrite (required_cons_req p q t) by done. by rewrite <-app_assoc in H.
  Qed.

  Lemma shortest_entities_ok q vs :
    Forall2 (view_ok s) q vs →
    ∃ r, shortest_entities None vs = Ok r ∧
      match r with None => required q = [] | Some l => slice_of (required q) l end.
  Proof using HI. intros HF. by apply (shortest_entities_at q vs None []). Qed.

  Lemma first_entities_ok q vs :
    Forall2 (view_ok s) q vs →
    ∃ r, first_entities vs = Ok r ∧
      match r with None => required q = [] | Some l => slice_of (required q) l end.
  Proof using HI.
    induction 1 as [|p v q vs Hv _ IH]; simpl; [by exists None|].
    destruct (part_entities_at p v Hv) as [[Hn ->]|(t & m & d & Hr & Ht & Hm & Hd & ->)].
    { destruct IH as (r & -> & H). exists r. by rewrite required_cons_opt. }
    exists (Some d.*1). split; [done|].
    rewrite (required_cons_req p q t) by done. exists t, m, d. rewrite elem_of_cons. auto.
  Qed.

  Lemma slice_of_nodup T l : slice_of T l → NoDup l.
  Proof using HI.
    intros (t & m & d & _ & _ & Hd & ->). eapply css_rep_dnodup; [apply (ci_rep _ _ _ _ _ _ HI)|done].
  Qed.

  Lemma slice_of_alive T l e : slice_of T l → e ∈ l → is_Some (am !! e).
  Proof using HI.
    intros (t & m & d & _ & _ & Hd & ->) He. eapply (ci_has_alive _ _ _ _ _ _ HI (m_index m)). by exists d.
  Qed.

  Lemma slice_of_complete T l e : slice_of T l → (∀ t, t ∈ T → is_Some (row_of e !! t)) → e ∈ l.
  Proof using HI.
    intros (t & m & d & Ht & Hm & Hd & ->) He. destruct (He t Ht) as [x Hx%am_has_row].
    apply elem_fst_pair. exists x. by apply (ci_data _ _ _ _ _ _ HI t m).
  Qed.

  (** *** Group infos *)

  Definition info_of (t : tid) (gi : ginfo) : Prop := ∃ m, cs_meta s !! t = Some m ∧ m_info m = Some gi.

  (** [g] is the sum of the group infos of the types [T]. *)
  Record ginfo_for (T : list tid) (g : ginfo) : Prop := {
    gf_all : ∀ t, t ∈ T → ∃ gi, info_of t gi ∧ gi_start gi = gi_start g ∧ gi_end gi ≤ gi_end g;
    gf_end : ∃ t gi, t ∈ T ∧ info_of t gi ∧ gi_end gi = gi_end g;
    gf_mask : ∀ j, bit (gi_mask g) j = true ↔ ∃ t gi, t ∈ T ∧ info_of t gi ∧ bit (gi_mask gi) j = true
  }.

  Lemma info_of_fun t gi gi' : info_of t gi → info_of t gi' → gi = gi'.
  Proof using Type. intros (m & ? & ?) (m' & ? & ?). congruence. Qed.

  Lemma ginfo_single t gi : info_of t gi → ginfo_for [t] gi.
  Proof using Type.
    intros H. split.
    - intros t' ->%elem_of_list_singleton. eauto.
    - exists t, gi. rewrite elem_of_list_singleton. auto.
    - intros j. split.
      + intros. exists t, gi. rewrite elem_of_list_singleton. auto.
      + intros (t' & gi' & ->%elem_of_list_singleton & H' & ?). by rewrite (info_of_fun _ _ _ H H').
  Qed.

  Lemma add_group_for T1 T2 a b c :
    ginfo_for T1 a → ginfo_for T2 b → add_group a b = Some c → ginfo_for (T1 ++ T2) c.
  Proof using Type.
    intros [A1 A2 A3] [B1 B2 B3]. unfold add_group.
    destruct (Nat.eqb_spec (gi_start a) (gi_start b)) as [Heq|]; [|done]. intros [= <-]. split; simpl.
    - intros t [Ht|Ht]%elem_of_app.
      + destruct (A1 t Ht) as (gi & ? & ? & ?). exists gi. split_and!; try done. lia.
      + destruct (B1 t Ht) as (gi & ? & ? & ?). exists gi. split_and!; try done; lia.
    - destruct A2 as (ta & ga & Ha1 & Ha2 & Ha3), B2 as (tb & gb & Hb1 & Hb2 & Hb3).
      destruct (Nat.max_spec (gi_end a) (gi_end b)) as [[? ->]|[? ->]].
      + exists tb, gb. rewrite elem_of_app. auto.
      + exists ta, ga. rewrite elem_of_app. auto.
    - intros j. rewrite bit_lor, orb_true_iff, A3, B3. clear. split.
      + intros [(t & gi & Ht & H)|(t & gi & Ht & H)]; exists t, gi; rewrite elem_of_app; auto.
      + intros (t & gi & [Ht|Ht]%elem_of_app & H); eauto.
  Qed.

  (** [q] is the group info of the types [T]. *)
  Definition qinfo_for (T : list tid) (q : qinfo) : Prop :=
    match q with
    | QEmpty => T = []
    | QOne v => ∃ t m d, T = [t] ∧ cs_meta s !! t = Some m ∧ ds !! m_index m = Some d ∧ v = VInfo (m_info m) (length d)
    | QMany g => ginfo_for T g
    end.

  Lemma qi_group_info_for T q g : qinfo_for T q → qi_group_info q = Some g → ginfo_for T g.
  Proof using Type.
    destruct q as [|v|g']; simpl; [done| |].
    - intros (t & m & d & -> & Hm & _ & ->) Hg. simpl in Hg. apply ginfo_single. by exists m.
    - by intros ? [= ->].
  Qed.

  Lemma add_view_for T q q' v t :
    qinfo_for T q → (∃ m d, cs_meta s !! t = Some m ∧ ds !! m_index m = Some d ∧ v = VInfo (m_info m) (length d)) →
    add_view q v = Some q' → qinfo_for (T ++ [t]) q'.
  Proof using Type.
    intros Hq (m & d & Hm & Hd & ->). assert (Hinfo : ∀ b, m_info m = Some b → ginfo_for [t] b).
    { intros b Hb. apply ginfo_single. by exists m. }
    destruct q as [|old|old]; simpl in *.
    - subst T. intros [= <-]. exists t, m, d. done.
    - destruct (vi_info old) as [a|] eqn:Ea; [|done]. destruct (m_info m) as [b|]; [|done].
      destruct (add_group a b) as [c|] eqn:Ec; [|done]. intros [= <-]. simpl.
      eapply add_group_for; [|by apply Hinfo|done].
      apply (qi_group_info_for T (QOne old)); done.
    - destruct (m_info m) as [b|]; [|done].
      destruct (add_group old b) as [c|] eqn:Ec; [|done]. intros [= <-]. simpl.
      eapply add_group_for; [done|by apply Hinfo|done].
  Qed.

  Lemma query_info_from_for q vs acc T qi :
    Forall2 (view_ok s) q vs → Forall2 (view_info s) q vs → qinfo_for T acc →
    query_info_from acc vs = Some qi → qinfo_for (T ++ required q) qi.
  Proof using HI.
    intros HF. revert acc T. induction HF as [|p v q vs Hv _ IH]; intros acc T HF' Hacc H.
    { simpl in H. inversion H; subst. by rewrite app_nil_r. }
    inversion HF' as [|? ? ? ? Hi HF'']; subst. simpl in H.
    assert (Hcase : (¬ part_required p ∧ pv_info v = None) ∨
       ∃ t m d, part_required p ∧ part_tid p = Some t ∧ cs_meta s !! t = Some m ∧ ds !! m_index m = Some d ∧
         pv_info v = Some (VInfo (m_info m) (length d))).
    { destruct p as [|t|t|t|t]; simpl in *; auto; right; destruct Hi as (m & Hm & ->);
      destruct (view_rep _ v t Hv eq_refl) as (m' & d & Hm' & _ & Hd & Hr & _);
      assert (m' = m) as -> by congruence; exists t, m, d; rewrite (cr_len _ _ Hr); done. }
    destruct Hcase as [[Hn Hi']|(t & m & d & Hr & Ht & Hm & Hd & Hi')]; rewrite Hi' in H.
    - rewrite required_cons_opt by done. by eapply IH.
    - destruct (add_view acc _) as [acc'|] eqn:Ea; [|done].
      rewrite (required_cons_req p q t) by done.
      replace (T ++ t :: required q) with ((T ++ [t]) ++ required q) by by rewrite <-app_assoc.
      eapply IH; [done| |done]. eapply add_view_for; eauto.
  Qed.

  Lemma query_info_for q vs qi :
    Forall2 (view_ok s) q vs → Forall2 (view_info s) q vs → query_info vs = Some qi → qinfo_for (required q) qi.
  Proof using HI. intros H1 H2 H3. by apply (query_info_from_for q vs QEmpty []). Qed.

  Lemma add_query_for T1 T2 a b c :
    qinfo_for T1 a → qinfo_for T2 b → add_query a b = Some c → qinfo_for (T1 ++ T2) c.
  Proof using Type.
    intros H1 H2. unfold add_query.
    assert (Hgen : ∀ c, (ga ← qi_group_info a; gb ← qi_group_info b; QMany <$> add_group ga gb) = Some c →
              qinfo_for (T1 ++ T2) c).
    { intros c' H. destruct (qi_group_info a) as [ga|] eqn:Ea; [|done].
      destruct (qi_group_info b) as [gb|] eqn:Eb; [|done]. simpl in H.
      destruct (add_group ga gb) as [g|] eqn:Eg; [|done]. inversion H; subst. simpl.
      eapply add_group_for; [by eapply qi_group_info_for|by eapply qi_group_info_for|done]. }
    destruct a as [|va|ga], b as [|vb|gb]; try (by apply Hgen); intros [= <-].
    - simpl in *. by subst.
    - change (T1 = []) in H1. by subst.
    - change (T1 = []) in H1. by subst.
    - change (T2 = []) in H2. subst. by rewrite app_nil_r.
    - change (T2 = []) in H2. subst. by rewrite app_nil_r.
  Qed.
End views.
