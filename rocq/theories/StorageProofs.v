(** The component storage: invariant and effect of its operations on the map from
    entities to components. *)
From Verif Require Import Base Lists SparseVecM EntityM CssM MaskM LayoutM GroupM StorageM WorldM QueryM StepM
  SparseProofs CssProofs MaskProofs GroupProofs Spec.

(** ** Metadata *)

Definition covers (m : gmeta) (i : nat) : Prop := g_start m ≤ i ∧ i < g_end m.

(** The group info of the storage [i]: first group of its family, and the group
    that introduces the storage. *)
Definition info_ok (ms : list gmeta) (i : nat) (info : option ginfo) : Prop :=
  match info with
  | None => ∀ k gm, ms !! k = Some gm → ¬ covers gm i
  | Some gi => ∃ k gf gk, ms !! gi_start gi = Some gf ∧ ms !! k = Some gk ∧ gi_end gi = S k ∧
      gi_start gi ≤ k ∧ g_start gf = g_start gk ∧ g_nstart gf = g_start gf ∧
      g_nstart gk ≤ i ∧ i < g_end gk ∧
      ∀ j, bit (gi_mask gi) j = (j =? i - g_start gk)
  end.

Record masks_ok (gm : gmeta) : Prop := {
  mo_inc : ∀ j, bit (qm_include (g_include gm)) j = (j <? g_end gm - g_start gm);
  mo_inc_x : qm_exclude (g_include gm) = 0%N;
  mo_exc : ∀ j, bit (qm_include (g_exclude gm)) j = (j <? g_nstart gm - g_start gm);
  mo_exc_x : ∀ j, bit (qm_exclude (g_exclude gm)) j =
               (g_nstart gm - g_start gm <=? j) && (j <? g_end gm - g_start gm)
}.

Record static (ms : list gmeta) (mt : gmap tid meta) (n : nat) : Prop := {
  st_index : ∀ t m, mt !! t = Some m → m_index m < n;
  st_inj : ∀ t t' m m', mt !! t = Some m → mt !! t' = Some m' → m_index m = m_index m' → t = t';
  st_owner : ∀ k gm i, ms !! k = Some gm → covers gm i → ∃ t m, mt !! t = Some m ∧ m_index m = i;
  st_insert : ∀ t m j, mt !! t = Some m →
    bit (m_insert m) j = true ↔
    ∃ gj k gk, ms !! j = Some gj ∧ ms !! k = Some gk ∧ g_start gj = g_start gk ∧ covers gk (m_index m);
  st_delete : ∀ t m j, mt !! t = Some m →
    bit (m_delete m) j = true ↔ ∃ gj, ms !! j = Some gj ∧ covers gj (m_index m);
  st_info : ∀ t m, mt !! t = Some m → info_ok ms (m_index m) (m_info m);
  st_masks : ∀ k gm, ms !! k = Some gm → masks_ok gm
}.

(** ** The invariant *)

Notation amap := (gmap entity row).

(** Distinct live entities have distinct indexes below 2^32. *)
Record am_ok (am : amap) : Prop := {
  am_small : ∀ e, is_Some (am !! e) → (e_index e < u32_lim)%N;
  am_unique : ∀ e e', is_Some (am !! e) → is_Some (am !! e') → e_index e = e_index e' → e = e'
}.

Definition am_has (am : amap) (t : tid) (e : entity) (v : val) : Prop :=
  ∃ r, am !! e = Some r ∧ r !! t = Some v.

Definition am_uniform (grp : gset tid) (am : amap) : Prop :=
  ∀ t e1 e2 v1 v2, t ∈ grp → am_has am t e1 v1 → am_has am t e2 v2 → e_version e1 = e_version e2.

Record cinv (s : cstore) (ds : list dense) (am : amap) (reg grp : gset tid) (loose : gset entity) : Prop := {
  ci_am : am_ok am;
  ci_rep : Forall2 css_rep (cs_comps s) ds;
  ci_ginv : ginv (cs_groups s) ds;
  ci_static : static (g_meta <$> cs_groups s) (cs_meta s) (length ds);
  ci_reg : ∀ t, t ∈ reg ↔ is_Some (cs_meta s !! t);
  ci_grp : ∀ t, t ∈ grp ↔ ∃ m k gm, cs_meta s !! t = Some m ∧ (g_meta <$> cs_groups s) !! k = Some gm ∧
             covers gm (m_index m);
  ci_data : ∀ t m d e v, cs_meta s !! t = Some m → ds !! m_index m = Some d →
             (e, v) ∈ d ↔ am_has am t e v;
  ci_types : ∀ e t v, am_has am t e v → t ∈ reg;
  ci_spare : ∀ i d, ds !! i = Some d → (∀ t m, cs_meta s !! t = Some m → m_index m ≠ i) → d = [];
  ci_complete : ∀ k g e, cs_groups s !! k = Some g → e ∉ loose →
             (∀ i, in_group g i → has ds i e) → mem (cs_groups s) ds k e
}.

Lemma elem_fst_pair (d : dense) e : e ∈ d.*1 ↔ ∃ v, (e, v) ∈ d.
Proof. apply dense_fst_elem. Qed.

Section facts.
  Context (s : cstore) (ds : list dense) (am : amap) (reg grp : gset tid) (loose : gset entity).
  Context (HI : cinv s ds am reg grp loose).

  Lemma ci_length : length (cs_comps s) = length ds.
  Proof using HI. eapply Forall2_length, (ci_rep _ _ _ _ _ _ HI). Qed.

  Lemma ci_has_alive i e : has ds i e → is_Some (am !! e).
  Proof using HI.
    intros (d & Hd & (v & Hv)%elem_fst_pair).
    destruct (decide (map_Exists (λ (t : tid) m, m_index m = i) (cs_meta s))) as [Hex|Hn].
    - destruct Hex as (t & m & Ht & Hi). subst i.
      destruct (proj1 (ci_data _ _ _ _ _ _ HI t m d e v Ht Hd) Hv) as (r & Hr & _). by exists r.
    - exfalso. assert (d = []) as ->; [|by apply elem_of_nil in Hv].
      eapply (ci_spare _ _ _ _ _ _ HI); [done|]. intros t m Ht Heq. apply Hn. by exists t, m.
  Qed.

  Lemma ci_has_meta t m e :
    cs_meta s !! t = Some m → has ds (m_index m) e ↔ ∃ v, am_has am t e v.
  Proof using HI.
    intros Ht. pose proof (st_index _ _ _ (ci_static _ _ _ _ _ _ HI) t m Ht) as Hlt.
    apply lookup_lt_is_Some_2 in Hlt as [d Hd]. split.
    - intros (d' & Hd' & (v & Hv)%elem_fst_pair). rewrite Hd in Hd'. inversion Hd'; subst.
      exists v. by eapply (ci_data _ _ _ _ _ _ HI).
    - intros (v & Hv). exists d. split; [done|]. apply elem_fst_pair. exists v.
      by eapply (ci_data _ _ _ _ _ _ HI).
  Qed.

  Lemma ci_consistent e : consistent ds e.
  Proof using HI.
    intros i i' e' H1 H2 Heq. apply (am_unique _ (ci_am _ _ _ _ _ _ HI)); [|by eapply ci_has_alive..|done].
    by eapply ci_has_alive.
  Qed.

  Lemma ci_groups_meta k g : cs_groups s !! k = Some g → (g_meta <$> cs_groups s) !! k = Some (g_meta g).
  Proof using Type. intros H. by rewrite list_lookup_fmap, H. Qed.

  Lemma ci_meta_groups k gm : (g_meta <$> cs_groups s) !! k = Some gm → ∃ g, cs_groups s !! k = Some g ∧ g_meta g = gm.
  Proof using Type.
    rewrite list_lookup_fmap. destruct (cs_groups s !! k) as [g|] eqn:E; [|done]. simpl. intros [= <-]. eauto.
  Qed.

  Lemma ci_uniform : am_uniform grp am → uniform (cs_groups s) ds.
  Proof using HI.
    intros Hu k g i e e' Hg Hi H1 H2.
    destruct (st_owner _ _ _ (ci_static _ _ _ _ _ _ HI) k (g_meta g) i) as (t & m & Ht & <-).
    { by apply ci_groups_meta. }
    { done. }
    destruct (proj1 (ci_has_meta t m e Ht) H1) as [v Hv]. destruct (proj1 (ci_has_meta t m e' Ht) H2) as [v' Hv'].
    eapply (Hu t); [|done..]. apply (ci_grp _ _ _ _ _ _ HI). exists m, k, (g_meta g).
    split_and!; [done|by apply ci_groups_meta|done..].
  Qed.

  Lemma ci_small i d : ds !! i = Some d → small d.*1.
  Proof using HI.
    intros Hd. apply Forall_forall. intros e He. apply (am_small _ (ci_am _ _ _ _ _ _ HI)).
    apply (ci_has_alive i). by exists d.
  Qed.

  Lemma ci_fresh i d e :
    ds !! i = Some d → is_Some (am !! e) → e ∉ d.*1 → fresh_index e d.*1.
  Proof using HI.
    intros Hd He Hn e' He' Heq. apply Hn.
    rewrite (am_unique _ (ci_am _ _ _ _ _ _ HI) e e'); try done. apply (ci_has_alive i). by exists d.
  Qed.

  Lemma ci_lookup t m :
    cs_meta s !! t = Some m → ∃ c d, cs_comps s !! m_index m = Some c ∧ ds !! m_index m = Some d ∧ css_rep c d.
  Proof using HI.
    intros Ht. pose proof (st_index _ _ _ (ci_static _ _ _ _ _ _ HI) t m Ht) as Hlt.
    apply lookup_lt_is_Some_2 in Hlt as [d Hd].
    destruct (Forall2_lookup_r _ _ _ _ _ (ci_rep _ _ _ _ _ _ HI) Hd) as (c & Hc & Hr). eauto.
  Qed.
End facts.

(** ** Changing the storages *)

(** The grouped prefixes are unchanged. *)
Definition stable (gs : list group) (ds ds' : list dense) : Prop :=
  length ds' = length ds ∧
  ∀ k g i d d', gs !! k = Some g → in_group g i → ds !! i = Some d → ds' !! i = Some d' →
    take (g_len g) d'.*1 = take (g_len g) d.*1 ∧ g_len g ≤ length d'.

Lemma stable_lookup gs ds ds' i d' : stable gs ds ds' → ds' !! i = Some d' → ∃ d, ds !! i = Some d.
Proof.
  intros [Hl _] H. apply lookup_lt_is_Some_2. rewrite <-Hl. by eapply lookup_lt_Some.
Qed.

Lemma stable_ginv gs ds ds' : stable gs ds ds' → ginv gs ds → ginv gs ds'.
Proof.
  intros Hs [Hwf Hp Hl Hn]. split.
  - by rewrite (proj1 Hs).
  - intros k g i i' d d' Hg Hi Hi' Hd Hd'.
    destruct (stable_lookup _ _ _ _ _ Hs Hd) as [d0 Hd0]. destruct (stable_lookup _ _ _ _ _ Hs Hd') as [d0' Hd0'].
    destruct (proj2 Hs k g i d0 d) as [-> _]; try done.
    destruct (proj2 Hs k g i' d0' d') as [-> _]; try done. by apply (Hp k g i i').
  - intros k g i d Hg Hi Hd. destruct (stable_lookup _ _ _ _ _ Hs Hd) as [d0 Hd0].
    by destruct (proj2 Hs k g i d0 d).
  - done.
Qed.

Lemma stable_mem gs ds ds' k e : ginv gs ds → stable gs ds ds' → mem gs ds' k e ↔ mem gs ds k e.
Proof.
  intros HG Hs. split; intros (g & d & Hg & Hd & He); exists g.
  - destruct (stable_lookup _ _ _ _ _ Hs Hd) as [d0 Hd0].
    exists d0. split_and!; [done..|].
    destruct (proj2 Hs k g _ d0 d Hg (in_group_start _ _ HG k g Hg) Hd0 Hd) as [<- _]. done.
  - assert (∃ d', ds' !! g_start (g_meta g) = Some d') as [d' Hd'].
    { apply lookup_lt_is_Some_2. rewrite (proj1 Hs). by eapply lookup_lt_Some. }
    exists d'. split_and!; [done..|].
    destruct (proj2 Hs k g _ d d' Hg (in_group_start _ _ HG k g Hg) Hd Hd') as [-> _]. done.
Qed.

Lemma stable_refl gs ds : ginv gs ds → stable gs ds ds.
Proof.
  intros HG. split; [done|]. intros k g i d d' Hg Hi Hd Hd'. rewrite Hd in Hd'. inversion Hd'; subst.
  split; [done|]. by eapply (gi_len _ _ HG).
Qed.

(** Replacing one storage. *)
Lemma stable_insert gs ds i d d' :
  ginv gs ds → ds !! i = Some d →
  (∀ k g, gs !! k = Some g → in_group g i →
     take (g_len g) d'.*1 = take (g_len g) d.*1 ∧ g_len g ≤ length d') →
  stable gs ds (<[i := d']> ds).
Proof.
  intros HG Hd H. split; [by rewrite insert_length|].
  intros k g i' d1 d2 Hg Hi' H1 H2. destruct (decide (i = i')) as [<-|Hne].
  - rewrite list_lookup_insert in H2 by (by eapply lookup_lt_Some).
    rewrite Hd in H1. inversion H1; inversion H2; subst. eauto.
  - rewrite list_lookup_insert_ne in H2 by done. rewrite H1 in H2. inversion H2; subst.
    split; [done|]. by eapply (gi_len _ _ HG).
Qed.

(** The values in the storages. *)
Definition stored (ds : list dense) : list val := ds ≫= (λ d, d.*2).

Lemma stored_app ds ds' : stored (ds ++ ds') = stored ds ++ stored ds'.
Proof. apply bind_app. Qed.

Lemma stored_insert ds i d d' vs vs' :
  ds !! i = Some d → vs ++ d.*2 ≡ₚ vs' ++ d'.*2 → vs ++ stored ds ≡ₚ vs' ++ stored (<[i := d']> ds).
Proof.
  intros Hd Hp. rewrite <-(take_drop_middle ds i d Hd) at 1.
  rewrite (insert_take_drop ds i d') by (by eapply lookup_lt_Some).
  unfold stored. rewrite !bind_app, !bind_cons.
  rewrite (Permutation_app_swap_app (take i ds ≫= _)), (Permutation_app_swap_app (take i ds ≫= _) (d'.*2)).
  rewrite !(assoc_L (++) vs), !(assoc_L (++) vs'). by rewrite Hp.
Qed.

Lemma stored_perm ds ds' : Forall2 (≡ₚ) ds ds' → stored ds ≡ₚ stored ds'.
Proof.
  induction 1 as [|d d' ds ds' Hd _ IH]; [done|]. unfold stored in *. rewrite !bind_cons, IH. by rewrite Hd.
Qed.

(** Replacing the storage of one component type. *)
Lemma ci_update s ds am am' reg grp loose loose' t m c' d d' :
  cinv s ds am reg grp loose → cs_meta s !! t = Some m → ds !! m_index m = Some d → css_rep c' d' →
  stable (cs_groups s) ds (<[m_index m := d']> ds) → am_ok am' →
  (∀ e v, (e, v) ∈ d' ↔ am_has am' t e v) →
  (∀ t' e v, t' ≠ t → am_has am' t' e v ↔ am_has am t' e v) →
  (∀ e, e ∉ loose' → e ∉ loose ∧ (e ∈ d'.*1 → e ∈ d.*1)) →
  cinv (CStore (cs_groups s) (cs_meta s) (<[m_index m := c']> (cs_comps s)))
       (<[m_index m := d']> ds) am' reg grp loose'.
Proof.
  intros HI Ht Hd Hr Hst Hok Hnew Hother Hloose. pose proof (ci_static _ _ _ _ _ _ HI) as Hstat.
  assert (Hlt : m_index m < length ds) by (by eapply lookup_lt_Some).
  split; simpl.
  - done.
  - apply Forall2_insert; [apply HI|done].
  - eapply stable_ginv; [done|apply HI].
  - by rewrite insert_length.
  - apply HI.
  - apply HI.
  - intros t' m' d2 e v Ht' Hd2. destruct (decide (t' = t)) as [->|Hne].
    + rewrite Ht in Ht'. inversion Ht'; subst. rewrite list_lookup_insert in Hd2 by done.
      inversion Hd2; subst. apply Hnew.
    + rewrite list_lookup_insert_ne in Hd2.
      2:{ intros Heq. apply Hne. by eapply (st_inj _ _ _ Hstat). }
      rewrite Hother by done. by apply (ci_data _ _ _ _ _ _ HI t' m').
  - intros e t' v H. destruct (decide (t' = t)) as [->|Hne].
    + apply (ci_reg _ _ _ _ _ _ HI). eauto.
    + apply (ci_types _ _ _ _ _ _ HI e t' v). by apply Hother.
  - intros i d2 Hd2 Hi. assert (m_index m ≠ i) by (by eapply Hi).
    rewrite list_lookup_insert_ne in Hd2 by done. by eapply (ci_spare _ _ _ _ _ _ HI).
  - intros k g e Hg He Hall. rewrite (stable_mem (cs_groups s) ds) by (done || apply HI).
    destruct (Hloose e He) as [He' Hd'].
    eapply (ci_complete _ _ _ _ _ _ HI); [done|done|].
    intros i Hi. destruct (Hall i Hi) as (d2 & Hd2 & He2).
    destruct (decide (m_index m = i)) as [<-|Hne].
    + rewrite list_lookup_insert in Hd2 by done. inversion Hd2; subst. exists d. split; [done|auto].
    + rewrite list_lookup_insert_ne in Hd2 by done. by exists d2.
Qed.

Lemma cinv_loosen s ds am reg grp loose loose' :
  loose ⊆ loose' → cinv s ds am reg grp loose → cinv s ds am reg grp loose'.
Proof.
  intros Hsub []. split; try done. intros k g e Hg He. apply ci_complete0; [done|]. set_solver.
Qed.

Lemma cinv_tighten s ds am reg grp loose loose' :
  cinv s ds am reg grp loose' →
  (∀ k g e, cs_groups s !! k = Some g → e ∉ loose → e ∈ loose' → (∀ i, in_group g i → has ds i e) →
     mem (cs_groups s) ds k e) →
  cinv s ds am reg grp loose.
Proof.
  intros [] H. split; try done. intros k g e Hg He. destruct (decide (e ∈ loose')); [by apply H|].
  by apply ci_complete0.
Qed.

Lemma am_has_insert (am : amap) e r r' t e' v :
  am !! e = Some r → (∀ v, r' !! t = Some v ↔ r !! t = Some v) →
  am_has (<[e := r']> am) t e' v ↔ am_has am t e' v.
Proof.
  intros He Hr. unfold am_has. destruct (decide (e = e')) as [<-|Hne].
  - split.
    + intros (r0 & Hr0 & H). rewrite lookup_insert in Hr0. inversion Hr0; subst. exists r. split; [done|]. by apply Hr.
    + intros (r0 & Hr0 & H). rewrite He in Hr0. inversion Hr0; subst. exists r'. split; [by rewrite lookup_insert|]. by apply Hr.
  - split; intros (r0 & Hr0 & H); exists r0; (split; [|done]); by rewrite lookup_insert_ne in *.
Qed.

Lemma am_has_at (am : amap) e r t v : am_has (<[e := r]> am) t e v ↔ r !! t = Some v.
Proof.
  unfold am_has. split.
  - intros (r0 & Hr0 & H). rewrite lookup_insert in Hr0. by inversion Hr0; subst.
  - intros H. exists r. by rewrite lookup_insert.
Qed.

Lemma am_has_ne (am : amap) e e' r t v : e ≠ e' → am_has (<[e := r]> am) t e' v ↔ am_has am t e' v.
Proof.
  intros. unfold am_has. split; intros (r0 & Hr0 & H'); exists r0; (split; [|done]); by rewrite lookup_insert_ne in *.
Qed.

Lemma am_has_fun am t e v v' : am_has am t e v → am_has am t e v' → v = v'.
Proof. intros (r & H1 & H2) (r' & H3 & H4). congruence. Qed.

Lemma am_ok_insert am e r r0 : am_ok am → am !! e = Some r0 → am_ok (<[e := r]> am).
Proof.
  intros [H1 H2] He.
  assert (∀ e', is_Some (<[e:=r]> am !! e') → is_Some (am !! e')) as Hd.
  { intros e'. destruct (decide (e = e')) as [<-|Hne]; [rewrite He; eauto|by rewrite lookup_insert_ne]. }
  split; [intros e' ?; by apply H1, Hd|]. intros e' e'' ?? Heq. apply H2; auto.
Qed.

Section ops.
  Context (s : cstore) (ds : list dense) (am : amap) (reg grp : gset tid) (loose : gset entity).
  Context (HI : cinv s ds am reg grp loose).

  Definition with_storage (i : nat) (c : css) : cstore :=
    CStore (cs_groups s) (cs_meta s) (<[i := c]> (cs_comps s)).

  Lemma ci_insert_one t m e v r :
    e ∈ loose → am !! e = Some r → cs_meta s !! t = Some m →
    ∃ c c' d', cs_comps s !! m_index m = Some c ∧ css_insert c e v = Ok (c', r !! t) ∧
      cinv (with_storage (m_index m) c') (<[m_index m := d']> ds) (<[e := <[t := v]> r]> am) reg grp loose ∧
      v :: stored ds ≡ₚ option_list (r !! t) ++ stored (<[m_index m := d']> ds) ∧
      stable (cs_groups s) ds (<[m_index m := d']> ds).
  Proof using HI.
    intros Hl He Ht. destruct (ci_lookup _ _ _ _ _ _ HI t m Ht) as (c & d & Hc & Hd & Hr).
    assert (Hrow : ∀ e' v', (e', v') ∈ d ↔ am_has am t e' v').
    { intros e' v'. by apply (ci_data _ _ _ _ _ _ HI t m). }
    assert (Hin : ∀ v', (e, v') ∈ d ↔ r !! t = Some v').
    { intros v'. rewrite Hrow. unfold am_has. rewrite He. naive_solver. }
    assert (Hlt : m_index m < length ds) by (by eapply lookup_lt_Some).
    destruct (r !! t) as [old|] eqn:Hold.
    - destruct (elem_of_list_lookup_1 d (e, old)) as [i Hi]; [by apply Hin|].
      destruct (css_insert_replace c d Hr i e v old Hi) as (c' & Hins & Hr').
      exists c, c', (<[i := (e, v)]> d). split_and!; [done|done| | |].
      + apply (ci_update s ds am _ reg grp loose loose t m c' d); try done.
        * apply (stable_insert _ _ _ d); [apply HI|done|].
          intros k g Hg Hgi. rewrite list_fmap_insert. simpl.
          rewrite list_insert_id by (by rewrite list_lookup_fmap, Hi).
          split; [done|]. rewrite insert_length. by eapply (gi_len _ _ (ci_ginv _ _ _ _ _ _ HI)).
        * eapply am_ok_insert; [apply HI|done].
        * intros e' v'. destruct (decide (e = e')) as [<-|Hne].
          -- rewrite am_has_at, lookup_insert. rewrite elem_of_list_lookup. split.
             ++ intros [j Hj]. destruct (decide (i = j)) as [<-|Hij].
                ** rewrite list_lookup_insert in Hj by (by eapply lookup_lt_Some). congruence.
                ** rewrite list_lookup_insert_ne in Hj by done.
                   by destruct (css_rep_pair_inj c d Hr i j e old v').
             ++ intros [= <-]. exists i. apply list_lookup_insert. by eapply lookup_lt_Some.
          -- rewrite am_has_ne, <-Hrow by done. rewrite !elem_of_list_lookup. f_equiv. intros j.
             destruct (decide (i = j)) as [<-|Hij]; [|by rewrite list_lookup_insert_ne].
             rewrite list_lookup_insert by (by eapply lookup_lt_Some). rewrite Hi. naive_solver.
        * intros t' e' v' Hne. apply (am_has_insert _ _ r); [done|]. intros v2. by rewrite lookup_insert_ne.
        * intros e' He'. split; [done|]. rewrite list_fmap_insert. simpl.
          by rewrite list_insert_id by (by rewrite list_lookup_fmap, Hi).
      + simpl. apply (stored_insert ds (m_index m) d _ [v] [old]); [done|]. simpl.
        rewrite list_fmap_insert. simpl. apply list_insert_perm. by rewrite list_lookup_fmap, Hi.
      + apply (stable_insert _ _ _ d); [apply HI|done|].
        intros k g Hg Hgi. rewrite list_fmap_insert. simpl.
        rewrite list_insert_id by (by rewrite list_lookup_fmap, Hi).
        split; [done|]. rewrite insert_length. by eapply (gi_len _ _ (ci_ginv _ _ _ _ _ _ HI)).
    - assert (Hnin : e ∉ d.*1).
      { rewrite elem_fst_pair. intros [v' Hv']. apply Hin in Hv'. done. }
      assert (is_Some (am !! e)) as Hal by eauto.
      destruct (css_insert_app c d Hr e v) as (c' & Hins & Hr').
      { by eapply (ci_small _ _ _ _ _ _ HI). }
      { by apply (am_small _ (ci_am _ _ _ _ _ _ HI)). }
      { by eapply (ci_fresh _ _ _ _ _ _ HI). }
      assert (Hst : stable (cs_groups s) ds (<[m_index m := d ++ [(e, v)]]> ds)).
      { apply (stable_insert _ _ _ d); [apply HI|done|].
        intros k g Hg Hgi. pose proof (gi_len _ _ (ci_ginv _ _ _ _ _ _ HI) k g _ d Hg Hgi Hd) as Hlen.
        rewrite fmap_app, app_length. split; [|simpl; lia].
        apply take_app_le. by rewrite fmap_length. }
      exists c, c', (d ++ [(e, v)]). split_and!; [done|done| | |done].
      + apply (ci_update s ds am _ reg grp loose loose t m c' d); try done.
        * eapply am_ok_insert; [apply HI|done].
        * intros e' v'. rewrite elem_of_app, elem_of_list_singleton. destruct (decide (e = e')) as [<-|Hne].
          -- rewrite am_has_at, lookup_insert. rewrite Hin. naive_solver.
          -- rewrite am_has_ne, <-Hrow by done. naive_solver.
        * intros t' e' v' Hne. apply (am_has_insert _ _ r); [done|]. intros v2. by rewrite lookup_insert_ne.
        * intros e' He'. split; [done|]. rewrite fmap_app, elem_of_app. simpl. rewrite elem_of_list_singleton.
          intros [?| ->]; done.
      + simpl. apply (stored_insert ds (m_index m) d _ [v] []); [done|]. simpl.
        rewrite fmap_app. simpl. by rewrite Permutation_app_comm.
  Qed.

  (** Removing the component [t] of [e], which is in no group. *)
  Lemma ci_remove_one t m e r :
    am !! e = Some r → cs_meta s !! t = Some m →
    (∀ k g, cs_groups s !! k = Some g → in_group g (m_index m) → ¬ mem (cs_groups s) ds k e) →
    ∃ c c' d', cs_comps s !! m_index m = Some c ∧ css_remove c e = Ok (c', r !! t) ∧
      cinv (with_storage (m_index m) c') (<[m_index m := d']> ds) (<[e := delete t r]> am) reg grp loose ∧
      stored ds ≡ₚ option_list (r !! t) ++ stored (<[m_index m := d']> ds) ∧
      stable (cs_groups s) ds (<[m_index m := d']> ds) ∧ e ∉ d'.*1.
  Proof using HI.
    intros He Ht Hng. destruct (ci_lookup _ _ _ _ _ _ HI t m Ht) as (c & d & Hc & Hd & Hr).
    assert (Hrow : ∀ e' v', (e', v') ∈ d ↔ am_has am t e' v').
    { intros e' v'. by apply (ci_data _ _ _ _ _ _ HI t m). }
    assert (Hin : ∀ v', (e, v') ∈ d ↔ r !! t = Some v').
    { intros v'. rewrite Hrow. unfold am_has. rewrite He. naive_solver. }
    destruct (r !! t) as [old|] eqn:Hold.
    - destruct (elem_of_list_lookup_1 d (e, old)) as [i Hi]; [by apply Hin|].
      assert (Hlt : i < length d) by (by eapply lookup_lt_Some).
      destruct (css_remove_lookup c d Hr i e old Hi) as (c' & Hrem & Hr').
      pose proof (swap_remove_perm d i _ Hi) as Hp.
      assert (Hnd : NoDup d.*1) by (eapply sparse_ok_nodup_ents, Hr).
      assert (Hmem : ∀ p, p ∈ d ↔ p = (e, old) ∨ p ∈ swap_remove d i).
      { intros p. rewrite <-elem_of_cons. by split; apply elem_of_Permutation_proper. }
      assert (Hnin : e ∉ (swap_remove d i).*1).
      { assert (NoDup ((e, old) :: swap_remove d i).*1) as Hnd' by (by rewrite <-Hp).
        simpl in Hnd'. by apply NoDup_cons in Hnd' as [? _]. }
      assert (Hst : stable (cs_groups s) ds (<[m_index m := swap_remove d i]> ds)).
      { apply (stable_insert _ _ _ d); [apply HI|done|].
        intros k g Hg Hgi. pose proof (gi_len _ _ (ci_ginv _ _ _ _ _ _ HI) k g _ d Hg Hgi Hd) as Hlen.
        assert (g_len g ≤ i).
        { destruct (decide (g_len g ≤ i)) as [|Hgt]; [done|]. exfalso. apply (Hng k g Hg Hgi).
          rewrite (mem_at _ _ (ci_ginv _ _ _ _ _ _ HI) k g (m_index m) d) by done.
          apply elem_of_take. exists i. split; [lia|]. by rewrite list_lookup_fmap, Hi. }
        rewrite swap_remove_fmap, swap_remove_length. split; [|lia].
        apply swap_remove_take; [done|]. by rewrite fmap_length. }
      exists c, c', (swap_remove d i). split_and!; [done|done| | |done|done].
      + apply (ci_update s ds am _ reg grp loose loose t m c' d); try done.
        * eapply am_ok_insert; [apply HI|done].
        * intros e' v'. destruct (decide (e = e')) as [<-|Hne].
          -- rewrite am_has_at, lookup_delete. split; [|done]. intros H. exfalso. apply Hnin.
             apply elem_fst_pair. eauto.
          -- rewrite am_has_ne, <-Hrow by done. rewrite Hmem. naive_solver.
        * intros t' e' v' Hne. apply (am_has_insert _ _ r); [done|]. intros v2. by rewrite lookup_delete_ne.
        * intros e' He'. split; [done|]. rewrite !elem_fst_pair. setoid_rewrite Hmem. naive_solver.
      + simpl. apply (stored_insert ds (m_index m) d _ [] [old]); [done|]. simpl. change (old :: (swap_remove d i).*2) with (((e, old) :: swap_remove d i).*2). by apply fmap_Permutation.
    - assert (Hnin : e ∉ d.*1).
      { rewrite elem_fst_pair. intros [v' Hv']. apply Hin in Hv'. done. }
      assert (Hst : stable (cs_groups s) ds (<[m_index m := d]> ds)).
      { rewrite list_insert_id by done. apply stable_refl, HI. }
      exists c, c, d. split_and!; [done|by apply (css_remove_None c d Hr)| | |done|done].
      + apply (ci_update s ds am _ reg grp loose loose t m c d); try done.
        * eapply am_ok_insert; [apply HI|done].
        * intros e' v'. destruct (decide (e = e')) as [<-|Hne].
          -- rewrite am_has_at, lookup_delete, Hin. done.
          -- by rewrite am_has_ne, <-Hrow by done.
        * intros t' e' v' Hne. apply (am_has_insert _ _ r); [done|]. intros v2. by rewrite lookup_delete_ne.
      + simpl. by rewrite list_insert_id.
  Qed.

  (** A dead handle. *)
  Lemma ci_remove_dead t m e :
    am !! e = None → cs_meta s !! t = Some m →
    ∃ c, cs_comps s !! m_index m = Some c ∧ css_remove c e = Ok (c, None).
  Proof using HI.
    intros He Ht. destruct (ci_lookup _ _ _ _ _ _ HI t m Ht) as (c & d & Hc & Hd & Hr).
    exists c. split; [done|]. apply (css_remove_None c d Hr).
    intros Hin. assert (is_Some (am !! e)) as [? ?]; [|congruence].
    apply (ci_has_alive _ _ _ _ _ _ HI (m_index m)). by exists d.
  Qed.

  (** Writing a component in place. *)
  Lemma ci_set_one t m e v r i old d :
    am !! e = Some r → cs_meta s !! t = Some m → ds !! m_index m = Some d → d !! i = Some (e, old) →
    ∃ c c', cs_comps s !! m_index m = Some c ∧ buf_read (c_comps c) i = Ok old ∧ css_set c i v = Ok c' ∧
      r !! t = Some old ∧
      cinv (with_storage (m_index m) c') (<[m_index m := <[i := (e, v)]> d]> ds)
           (<[e := <[t := v]> r]> am) reg grp loose ∧
      v :: stored ds ≡ₚ old :: stored (<[m_index m := <[i := (e, v)]> d]> ds) ∧
      stable (cs_groups s) ds (<[m_index m := <[i := (e, v)]> d]> ds).
  Proof using HI.
    intros He Ht Hd Hi. destruct (ci_lookup _ _ _ _ _ _ HI t m Ht) as (c & d' & Hc & Hd' & Hr).
    rewrite Hd in Hd'. inversion Hd'; subst d'; clear Hd'.
    assert (Hrow : ∀ e' v', (e', v') ∈ d ↔ am_has am t e' v').
    { intros e' v'. by apply (ci_data _ _ _ _ _ _ HI t m). }
    assert (Hold : r !! t = Some old).
    { assert (am_has am t e old) as (r0 & Hr0 & ?).
      { apply Hrow. by eapply elem_of_list_lookup_2. }
      congruence. }
    destruct (css_set_lookup c d Hr i e old v Hi) as (c' & Hset & Hr').
    assert (Hents : (<[i := (e, v)]> d).*1 = d.*1).
    { rewrite list_fmap_insert. simpl. by rewrite list_insert_id by (by rewrite list_lookup_fmap, Hi). }
    assert (Hst : stable (cs_groups s) ds (<[m_index m := <[i := (e, v)]> d]> ds)).
    { apply (stable_insert _ _ _ d); [apply HI|done|].
      intros k g Hg Hgi. rewrite Hents. split; [done|]. rewrite insert_length.
      by eapply (gi_len _ _ (ci_ginv _ _ _ _ _ _ HI)). }
    exists c, c'. split_and!; [done| |done|done| | |done].
    - unfold buf_read. by destruct (cr_cells _ _ Hr _ _ _ Hi) as [_ ->].
    - apply (ci_update s ds am _ reg grp loose loose t m c' d); try done.
      + eapply am_ok_insert; [apply HI|done].
      + intros e' v'. destruct (decide (e = e')) as [<-|Hne].
        * rewrite am_has_at, lookup_insert. rewrite elem_of_list_lookup. split.
          -- intros [j Hj]. destruct (decide (i = j)) as [<-|Hij].
             ++ rewrite list_lookup_insert in Hj by (by eapply lookup_lt_Some). congruence.
             ++ rewrite list_lookup_insert_ne in Hj by done.
                by destruct (css_rep_pair_inj c d Hr i j e old v').
          -- intros [= <-]. exists i. apply list_lookup_insert. by eapply lookup_lt_Some.
        * rewrite am_has_ne, <-Hrow by done. rewrite !elem_of_list_lookup. f_equiv. intros j.
          destruct (decide (i = j)) as [<-|Hij]; [|by rewrite list_lookup_insert_ne].
          rewrite list_lookup_insert by (by eapply lookup_lt_Some). rewrite Hi. naive_solver.
      + intros t' e' v' Hne. apply (am_has_insert _ _ r); [done|]. intros v2. by rewrite lookup_insert_ne.
      + intros e' He'. by rewrite Hents.
    - apply (stored_insert ds (m_index m) d _ [v] [old]); [done|]. simpl.
      rewrite list_fmap_insert. simpl. apply list_insert_perm. by rewrite list_lookup_fmap, Hi.
  Qed.
End ops.
