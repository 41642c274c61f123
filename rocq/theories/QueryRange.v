(** Dense ranges: which entities the group infos of a query select. *)
From Verif Require Import Base Lists SparseVecM EntityM CssM MaskM LayoutM GroupM StorageM WorldM QueryM StepM
  SparseProofs CssProofs MaskProofs GroupProofs Spec EntityProofs LayoutProofs StorageProofs StoreOps LayoutOps
  WorldProofs QueryProofs.

Definition types_in (r : row) (T : list tid) : Prop := ∀ t, t ∈ T → is_Some (r !! t).

Global Instance types_in_dec r T : Decision (types_in r T).
Proof.
  refine (cast_if (decide (Forall (λ t, is_Some (r !! t)) T))); unfold types_in; by rewrite <-Forall_forall.
Defined.

Lemma NoDup_take {A} (l : list A) n : NoDup l → NoDup (take n l).
Proof. rewrite <-(take_drop n l) at 1. by intros (? & _ & _)%NoDup_app. Qed.
Lemma NoDup_drop {A} (l : list A) n : NoDup l → NoDup (drop n l).
Proof. rewrite <-(take_drop n l) at 1. by intros (_ & _ & ?)%NoDup_app. Qed.

Section range.
  Context (s : cstore) (ds : list dense) (am : amap) (reg grp : gset tid) (loose : gset entity).
  Context (HI : cinv s ds am reg grp loose).

  Notation row_of := (row_of am).
  Notation ginfo_for := (ginfo_for s).
  Notation qinfo_for := (qinfo_for s ds).
  Local Notation gs := (cs_groups s).

  Lemma info_of_group t gi :
    info_of s t gi →
    ∃ m k gf gk, cs_meta s !! t = Some m ∧ gs !! gi_start gi = Some gf ∧ gs !! k = Some gk ∧
      gi_end gi = S k ∧ gi_start gi ≤ k ∧ same_family gf gk ∧ in_group gk (m_index m) ∧
      ∀ j, bit (gi_mask gi) j = true ↔ m_index m = g_start (g_meta gf) + j.
  Proof using HI.
    intros (m & Hm & Hi). pose proof (st_info _ _ _ (ci_static _ _ _ _ _ _ HI) t m Hm) as H.
    rewrite Hi in H. destruct H as (k & gf & gk & Hf & Hk & He & Hle & Hs & _ & H1 & H2 & Hb).
    apply ci_meta_groups in Hf as (gf' & Hf & <-). apply ci_meta_groups in Hk as (gk' & Hk & <-).
    destruct (ginv_range _ _ (ci_ginv _ _ _ _ _ _ HI) _ _ Hk) as (?&?&?).
    exists m, k, gf', gk'. split_and!; try done; [split; lia|].
    intros j. rewrite Hb, Nat.eqb_eq. lia.
  Qed.

  Lemma ginfo_groups T g :
    ginfo_for T g →
    ∃ k gf gk, gs !! gi_start g = Some gf ∧ gs !! k = Some gk ∧ gi_end g = S k ∧ gi_start g ≤ k ∧
      same_family gf gk ∧
      (∀ t, t ∈ T → ∃ m, cs_meta s !! t = Some m ∧ in_group gk (m_index m)) ∧
      (∀ j, bit (gi_mask g) j = true ↔ ∃ t m, t ∈ T ∧ cs_meta s !! t = Some m ∧ m_index m = g_start (g_meta gf) + j).
  Proof using HI.
    intros [Hall (t0 & gi0 & Ht0 & Hi0 & He0) Hmask].
    destruct (Hall t0 Ht0) as (gi0' & Hi0' & Hs0 & _). rewrite (info_of_fun _ _ _ _ Hi0' Hi0) in Hs0.
    destruct (info_of_group t0 gi0 Hi0) as (m0 & k & gf & gk & Hm0 & Hgf & Hgk & Hend & Hle & Hfam & _ & _).
    rewrite Hs0 in *. rewrite He0 in Hend.
    exists k, gf, gk. split_and!; try done.
    - intros t Ht. destruct (Hall t Ht) as (gi & Hi & Hs & He).
      destruct (info_of_group t gi Hi) as (m & k' & gf' & gk' & Hm & Hgf' & Hgk' & Hend' & Hle' & Hfam' & Hin & _).
      exists m. split; [done|]. rewrite Hs, Hgf in Hgf'. inversion Hgf'; subst gf'.
      apply (family_in_group _ _ (ci_ginv _ _ _ _ _ _ HI) k' k gk'); try done; [lia|].
      unfold same_family in *. congruence.
    - intros j. rewrite Hmask. split.
      + intros (t & gi & Ht & Hi & Hb). destruct (Hall t Ht) as (gi' & Hi' & Hs & _).
        rewrite (info_of_fun _ _ _ _ Hi' Hi) in Hs.
        destruct (info_of_group t gi Hi) as (m & k' & gf' & gk' & Hm & Hgf' & _ & _ & _ & _ & _ & Hb').
        rewrite Hs, Hgf in Hgf'. inversion Hgf'; subst gf'. exists t, m. split_and!; try done. by apply Hb'.
      + intros (t & m & Ht & Hm & Hidx). destruct (Hall t Ht) as (gi & Hi & Hs & _).
        destruct (info_of_group t gi Hi) as (m' & k' & gf' & gk' & Hm' & Hgf' & _ & _ & _ & _ & _ & Hb').
        rewrite Hs, Hgf in Hgf'. inversion Hgf'; subst gf'. rewrite Hm in Hm'. inversion Hm'; subst m'.
        exists t, gi. split_and!; try done. by apply Hb'.
  Qed.

  (** The storages of [T] are exactly the positions from [a] to [b]. *)
  Definition types_at (T : list tid) (a b : nat) : Prop :=
    (∀ t, t ∈ T → ∃ m, cs_meta s !! t = Some m ∧ a ≤ m_index m < b) ∧
    (∀ i, a ≤ i < b → ∃ t m, t ∈ T ∧ cs_meta s !! t = Some m ∧ m_index m = i).

  Lemma types_at_in T a b e :
    types_at T a b → types_in (row_of e) T ↔ ∀ i, a ≤ i < b → has ds i e.
  Proof using HI.
    intros [H1 H2]. split.
    - intros H i Hi. destruct (H2 i Hi) as (t & m & Ht & Hm & <-).
      apply (ci_has_meta _ _ _ _ _ _ HI t m e Hm). destruct (H t Ht) as [v Hv]. exists v. by apply am_has_row.
    - intros H t Ht. destruct (H1 t Ht) as (m & Hm & Hi).
      apply H in Hi. apply (ci_has_meta _ _ _ _ _ _ HI t m e Hm) in Hi as [v Hv%am_has_row]. eauto.
  Qed.

  (** The entities selected by a dense range for the included types [T] and the
      excluded types [U]: the window of a common prefix [P] of all storages of
      [T]. Entities that lack only some of [U] are selected too. *)
  Record dense_range (T U : list tid) (lo hi : nat) (P : list entity) : Prop := {
    dr_some : T ≠ [];
    dr_le : lo ≤ hi;
    dr_len : length P = hi;
    dr_pre : ∀ t, t ∈ T → ∃ m d, cs_meta s !! t = Some m ∧ ds !! m_index m = Some d ∧ take hi d.*1 = P;
    dr_exact : ∀ e, e ∉ loose → e ∈ drop lo P ↔ types_in (row_of e) T ∧ (U = [] ∨ ¬ types_in (row_of e) U);
    dr_zero : U = [] → lo = 0;
    dr_grouped : ∀ t, t ∈ U → t ∈ grp
  }.

  Lemma mem_prefix k g i d e :
    gs !! k = Some g → in_group g i → ds !! i = Some d → e ∈ take (g_len g) d.*1 ↔ mem gs ds k e.
  Proof using HI. intros. symmetry. eapply mem_at; try done. apply (ci_ginv _ _ _ _ _ _ HI). Qed.

  Lemma group_prefix_len k g i d :
    gs !! k = Some g → in_group g i → ds !! i = Some d → length (take (g_len g) d.*1) = g_len g.
  Proof using HI.
    intros Hg Hi Hd. rewrite take_length, fmap_length.
    pose proof (gi_len _ _ (ci_ginv _ _ _ _ _ _ HI) k g i d Hg Hi Hd). lia.
  Qed.

  Lemma include_group_range_ok T g :
    ginfo_for T g →
    ∃ r, include_group_range s g = Ok r ∧
      match r with None => True | Some (lo, hi) => ∃ P, dense_range T [] lo hi P end.
  Proof using HI.
    intros Hg. destruct (ginfo_groups T g Hg) as (k & gf & gk & Hgf & Hgk & Hend & Hle & Hfam & Hin & Hmask).
    unfold include_group_range. rewrite Hend, Hgk. eexists. split; [done|].
    destruct (bool_decide _) eqn:Heq; [|done]. apply bool_decide_eq_true in Heq.
    pose proof (ci_ginv _ _ _ _ _ _ HI) as HG.
    assert (Htypes : types_at T (g_start (g_meta gk)) (g_end (g_meta gk))).
    { split.
      - intros t Ht. destruct (Hin t Ht) as (m & Hm & [? ?]). eauto.
      - intros i Hi. pose proof (st_masks _ _ _ (ci_static _ _ _ _ _ _ HI) k (g_meta gk)) as HM.
        specialize (HM ltac:(by apply ci_groups_meta)).
        pose proof (mo_inc _ HM (i - g_start (g_meta gk))) as Hb. rewrite <-Heq in Hb. cbn [qm_include] in Hb.
        assert (bit (gi_mask g) (i - g_start (g_meta gk)) = true) as Hb'.
        { rewrite Hb. apply Nat.ltb_lt. lia. }
        apply Hmask in Hb' as (t & m & Ht & Hm & Hidx). exists t, m. split_and!; try done.
        unfold same_family in Hfam. lia. }
    destruct (in_group_lookup _ _ HG k gk (g_start (g_meta gk)) Hgk) as [d Hd].
    { by eapply in_group_start. }
    exists (take (g_len gk) d.*1).
    assert (Hst : in_group gk (g_start (g_meta gk))) by (by eapply in_group_start).
    split; try done.
    - destruct (gf_end _ _ _ Hg) as (t & ? & Ht & _). intros ->. by apply elem_of_nil in Ht.
    - lia.
    - by apply (group_prefix_len k gk _ d Hgk Hst Hd).
    - intros t Ht. destruct (Hin t Ht) as (m & Hm & Hgi).
      destruct (in_group_lookup _ _ HG k gk _ Hgk Hgi) as [d' Hd']. exists m, d'. split_and!; try done.
      apply (gi_prefix _ _ HG k gk (m_index m) (g_start (g_meta gk)) d' d Hgk Hgi Hst Hd' Hd).
    - intros e He. rewrite drop_0, (mem_prefix k gk _ d e Hgk Hst Hd).
      rewrite (types_at_in T _ _ e Htypes). split.
      + intros Hm. split; [|by left]. intros i Hi. eapply (mem_has _ _ HG k gk); done.
      + intros [H _]. apply (ci_complete _ _ _ _ _ _ HI k gk e Hgk He). intros i [? ?]. apply H. lia.
    - intros t Ht. by apply elem_of_nil in Ht.
  Qed.

  Lemma exclude_group_range_ok T U a b :
    ginfo_for T a → ginfo_for U b →
    ∃ r, exclude_group_range s a b = Ok r ∧
      match r with None => True | Some (lo, hi) => ∃ P, U ≠ [] ∧ dense_range T U lo hi P end.
  Proof using HI.
    intros Ha Hb. pose proof (ci_ginv _ _ _ _ _ _ HI) as HG.
    destruct (ginfo_groups T a Ha) as (ka & gf & ga & Hgf & Hga & Hea & Hlea & Hfa & Hina & Hma).
    destruct (ginfo_groups U b Hb) as (kb & gf' & gb & Hgf' & Hgb & Heb & Hleb & Hfb & Hinb & Hmb).
    unfold exclude_group_range. destruct (Nat.eqb_spec (gi_start a) (gi_start b)) as [Hs|Hs]; simpl.
    2:{ by exists None. }
    rewrite <-Hs, Hgf in Hgf'. inversion Hgf'; subst gf'.
    rewrite Hea, Heb. replace (S ka `max` S kb) with (S (ka `max` kb)) by lia.
    assert (∃ child, gs !! (ka `max` kb) = Some child ∧ same_family gf child ∧
              ∀ t, t ∈ T ∨ t ∈ U → ∃ m, cs_meta s !! t = Some m ∧ in_group child (m_index m)) as (child & Hc & Hfc & Hinc).
    { unfold same_family in *. destruct (Nat.max_spec ka kb) as [[? ->]|[? ->]].
      - exists gb. split_and!; try done. intros t [Ht|Ht]; [|by apply Hinb]. destruct (Hina t Ht) as (m & Hm & Hi).
        exists m. split; [done|]. apply (family_in_group _ _ HG ka kb ga); try done; [lia|].
        unfold same_family. congruence.
      - exists ga. split_and!; try done. intros t [Ht|Ht]; [by apply Hina|]. destruct (Hinb t Ht) as (m & Hm & Hi).
        exists m. split; [done|]. apply (family_in_group _ _ HG kb ka gb); try done.
        unfold same_family. congruence. }
    rewrite Hc. case_bool_decide as Heq; [|by exists None].
    pose proof (st_masks _ _ _ (ci_static _ _ _ _ _ _ HI) _ _ (ci_groups_meta _ _ _ Hc)) as HM.
    destruct (ginv_range _ _ HG _ _ Hc) as (Hr1 & Hr2 & Hr3).
    unfold same_family in Hfc.
    assert (Hidx : ∀ t m, t ∈ T ∨ t ∈ U → cs_meta s !! t = Some m → g_start (g_meta gf) ≤ m_index m).
    { intros t m Ht Hm. destruct (Hinc t Ht) as (m' & Hm' & [? ?]). rewrite Hm in Hm'. inversion Hm'; subst. lia. }
    assert (HT : types_at T (g_start (g_meta child)) (g_nstart (g_meta child))).
    { pose proof (mo_exc _ HM) as Hx. rewrite <-Heq in Hx. cbn [qm_include] in Hx. split.
      - intros t Ht. destruct (Hinc t (or_introl Ht)) as (m & Hm & [Hi1 Hi2]). exists m. split; [done|].
        assert (bit (gi_mask a) (m_index m - g_start (g_meta gf)) = true) as Hbit.
        { apply Hma. exists t, m. split_and!; try done. lia. }
        rewrite Hx in Hbit. apply Nat.ltb_lt in Hbit. lia.
      - intros i Hi. assert (bit (gi_mask a) (i - g_start (g_meta child)) = true) as Hbit.
        { rewrite Hx. apply Nat.ltb_lt. lia. }
        apply Hma in Hbit as (t & m & Ht & Hm & Hid). exists t, m. split_and!; try done. lia. }
    assert (HU : types_at U (g_nstart (g_meta child)) (g_end (g_meta child))).
    { pose proof (mo_exc_x _ HM) as Hx. rewrite <-Heq in Hx. cbn [qm_exclude] in Hx. split.
      - intros t Ht. destruct (Hinc t (or_intror Ht)) as (m & Hm & [Hi1 Hi2]). exists m. split; [done|].
        assert (bit (gi_mask b) (m_index m - g_start (g_meta gf)) = true) as Hbit.
        { apply Hmb. exists t, m. split_and!; try done. lia. }
        rewrite Hx in Hbit. apply andb_true_iff in Hbit as [Hb1%Nat.leb_le Hb2%Nat.ltb_lt]. lia.
      - intros i Hi. assert (bit (gi_mask b) (i - g_start (g_meta child)) = true) as Hbit.
        { rewrite Hx. apply andb_true_iff. rewrite Nat.leb_le, Nat.ltb_lt. lia. }
        apply Hmb in Hbit as (t & m & Ht & Hm & Hid). exists t, m. split_and!; try done. lia. }
    destruct (gf_end _ _ _ Ha) as (t0 & _ & Ht0 & _). destruct (gf_end _ _ _ Hb) as (u0 & _ & Hu0 & _).
    destruct (proj1 HT t0 Ht0) as (m0 & Hm0 & Hi0).
    destruct (mw_parent _ _ (gi_wf _ _ HG) _ _ (ci_groups_meta _ _ _ Hc)) as (k' & mp & Hk' & Hp & Hps & Hpe); [lia|].
    apply ci_meta_groups in Hp as (parent & Hp & <-). rewrite Hk'. rewrite Hp.
    eexists. split; [done|]. cbv beta iota.
    assert (Hfam : same_family parent child) by done.
    assert (Hst : in_group parent (g_start (g_meta parent))) by (by eapply in_group_start).
    assert (Hst' : in_group child (g_start (g_meta parent))).
    { eapply (family_in_group _ _ HG k' (ka `max` kb)); try done. lia. }
    destruct (in_group_lookup _ _ HG k' parent (g_start (g_meta parent)) Hp Hst) as [d Hd].
    exists (take (g_len parent) d.*1). split; [intros ->; by apply elem_of_nil in Hu0|].
    assert (Hlen : g_len child ≤ g_len parent).
    { eapply (gi_nest _ _ HG k' (ka `max` kb)); try done. lia. }
    assert (HT' : types_at T (g_start (g_meta parent)) (g_end (g_meta parent))) by (by rewrite Hps, Hpe).
    assert (Hnd : NoDup (take (g_len parent) d.*1)).
    { apply NoDup_take. eapply css_rep_dnodup; [apply (ci_rep _ _ _ _ _ _ HI)|done]. }
    assert (Hall : ∀ e, types_in (row_of e) T ∧ types_in (row_of e) U ↔ ∀ i, in_group child i → has ds i e).
    { intros e. rewrite (types_at_in T _ _ e HT), (types_at_in U _ _ e HU). unfold in_group. split.
      - intros [H1 H2] i Hi. destruct (decide (i < g_nstart (g_meta child))); [apply H1|apply H2]; lia.
      - intros H. split; intros i Hi; apply H; lia. }
    split; try done.
    - intros ->. by apply elem_of_nil in Ht0.
    - by apply (group_prefix_len k' parent _ d Hp Hst Hd).
    - intros t Ht. destruct (proj1 HT' t Ht) as (m & Hm & Hgi).
      destruct (in_group_lookup _ _ HG k' parent (m_index m) Hp Hgi) as [d' Hd']. exists m, d'. split_and!; try done.
      apply (gi_prefix _ _ HG k' parent (m_index m) (g_start (g_meta parent)) d' d Hp Hgi Hst Hd' Hd).
    - intros e He.
      assert (Hmem : e ∈ take (g_len child) (take (g_len parent) d.*1) ↔ mem gs ds (ka `max` kb) e).
      { rewrite take_take, Nat.min_l by done. by apply (mem_prefix _ child _ d e Hc Hst' Hd). }
      assert (Hmemp : e ∈ take (g_len parent) d.*1 ↔ types_in (row_of e) T).
      { rewrite (mem_prefix k' parent _ d e Hp Hst Hd), (types_at_in T _ _ e HT'). split.
        - intros Hm i Hi. eapply (mem_has _ _ HG k' parent); done.
        - intros H. by apply (ci_complete _ _ _ _ _ _ HI k' parent e Hp He). }
      assert (Hmemc : e ∈ take (g_len child) (take (g_len parent) d.*1) ↔ types_in (row_of e) T ∧ types_in (row_of e) U).
      { rewrite Hmem, Hall. split.
        - intros Hm i Hi. eapply (mem_has _ _ HG _ child); done.
        - intros H. by apply (ci_complete _ _ _ _ _ _ HI _ child e Hc He). }
      rewrite <-(take_drop (g_len child) (take (g_len parent) d.*1)), NoDup_app in Hnd.
      destruct Hnd as (_ & Hdisj & _).
      rewrite <-(take_drop (g_len child) (take (g_len parent) d.*1)), elem_of_app in Hmemp.
      split.
      + intros Hin. assert (types_in (row_of e) T) by (apply Hmemp; by right). split; [done|]. right.
        intros HUin. apply (Hdisj e); [|done]. by apply Hmemc.
      + intros [H1 [->|H2]]; [by apply elem_of_nil in Hu0|]. apply Hmemp in H1 as [H1|H1]; [|done].
        apply Hmemc in H1. naive_solver.
    - intros ->. by apply elem_of_nil in Hu0.
    - intros t Ht. destruct (Hinc t (or_intror Ht)) as (m & Hm & Hi). apply (ci_grp _ _ _ _ _ _ HI).
      exists m, (ka `max` kb), (g_meta child). split_and!; [done|by apply ci_groups_meta|done].
  Qed.

  Lemma group_range_ok T U inc exc :
    qinfo_for T inc → qinfo_for U exc →
    ∃ r, group_range s inc exc = Ok r ∧
      match r with None => True | Some (lo, hi) => ∃ P, dense_range T U lo hi P end.
  Proof using HI.
    intros HT HU.
    assert (Hgen : ∃ r, match qi_group_info inc, qi_group_info exc with
                        | Some i, Some x => exclude_group_range s i x
                        | _, _ => Ok None
                        end = Ok r ∧
              match r with None => True | Some (lo, hi) => ∃ P, dense_range T U lo hi P end).
    { destruct (qi_group_info inc) as [a|] eqn:Ea; [|by exists None].
      destruct (qi_group_info exc) as [b|] eqn:Eb; [|by exists None].
      destruct (exclude_group_range_ok T U a b) as (r & Hr & Hr').
      - by eapply qi_group_info_for.
      - by eapply qi_group_info_for.
      - exists r. split; [done|]. destruct r as [[lo hi]|]; [|done]. destruct Hr' as (P & _ & ?). by exists P. }
    destruct inc as [|v|g], exc as [|v'|g']; try done; simpl.
    - destruct HT as (t & m & d & -> & Hm & Hd & ->). simpl in HU. subst U. eexists. split; [done|]. simpl.
      exists d.*1. split; try done; try lia.
      + by rewrite fmap_length.
      + intros t' ->%elem_of_list_singleton. exists m, d. split_and!; try done. apply firstn_all2. rewrite fmap_length. lia.
      + intros e _. rewrite drop_0, elem_fst_pair. unfold types_in. split.
        * intros [x Hx]. split; [|by left]. intros t' ->%elem_of_list_singleton. exists x. apply am_has_row.
          by apply (ci_data _ _ _ _ _ _ HI t m d).
        * intros [H _]. destruct (H t) as [x Hx%am_has_row]; [by apply elem_of_list_singleton|].
          exists x. by apply (ci_data _ _ _ _ _ _ HI t m d).
      + intros t' Ht. by apply elem_of_nil in Ht.
    - simpl in HU. subst U. apply include_group_range_ok. exact HT.
  Qed.
End range.
