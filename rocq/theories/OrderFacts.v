(** The order of the entities of a view. *)
From Verif Require Import Base Lists SparseVecM EntityM CssM MaskM LayoutM GroupM StorageM WorldM QueryM StepM
  SparseProofs CssProofs MaskProofs GroupProofs Spec SpecListing SpecOrder EntityProofs LayoutProofs StorageProofs StoreOps LayoutOps
  WorldProofs History Facts ListingFacts Grouped QueryIter QueryProofs ShapeFacts.

(** ** Storages outside all groups *)

Definition outside (gms : list gmeta) (i : nat) : Prop := ∀ k gm, gms !! k = Some gm → ¬ covers gm i.

Lemma mapM_from_other {A} (f : A → res A) a b : ∀ l off l' i,
  mapM_from f a b off l = Ok l' → ¬ (a ≤ off + i ∧ off + i < b) → l' !! i = l !! i.
Proof.
  induction l as [|x l IH]; intros off l' i; cbn [mapM_from]; [by intros [= <-]|].
  intros H Hn. destruct (if _ && _ then f x else Ok x) as [x'| |] eqn:Hx; [|done..]. simpl in H.
  destruct (mapM_from f a b (S off) l) as [l1| |] eqn:Hl; [|done..]. simpl in H. injection H as <-.
  destruct i as [|i]; simpl.
  - rewrite Nat.add_0_r in Hn. destruct (Nat.leb_spec a off), (Nat.ltb_spec off b); simpl in Hx; try congruence.
    exfalso. apply Hn. lia.
  - eapply IH; [done|]. intros ?. apply Hn. lia.
Qed.

Lemma on_range_other f a b comps comps' i :
  on_range f a b comps = Ok comps' → ¬ (a ≤ i ∧ i < b) → comps' !! i = comps !! i.
Proof. unfold on_range. destruct (range_ok _ _ _); [|done]. intros H Hn. eapply mapM_from_other; [done|]. by rewrite Nat.add_0_l. Qed.

Lemma outside_group gs k g i : outside (g_meta <$> gs) i → gs !! k = Some g → ¬ (g_start (g_meta g) ≤ i ∧ i < g_end (g_meta g)).
Proof. intros H Hk. apply (H k). by rewrite list_lookup_fmap, Hk. Qed.

Lemma group_loop_other i fuel : ∀ comps gs mask e r,
  outside (g_meta <$> gs) i → group_loop fuel comps gs mask e = Ok r → r.1 !! i = comps !! i.
Proof.
  induction fuel as [|fuel IH]; intros comps gs mask e r Ho; cbn [group_loop];
    destruct (bit_next mask) as [[k mask']|]; try done; try (intros H; inversion H; done).
  destruct (gs !! k) as [g|] eqn:Hk; [|done].
  destruct (status_of comps g e) as [[]| |]; try done; cbn [mbind res_bind]; try by apply IH.
  unfold group_components. destruct (on_range _ _ _ _) as [comps'| |] eqn:Hr; try done. cbn [mbind res_bind].
  intros H. apply IH in H; simpl in *.
  - rewrite H. eapply on_range_other; [done|]. by eapply outside_group.
  - by rewrite g_meta_insert.
Qed.

Lemma ungroup_one_other i comps gs k g e r :
  outside (g_meta <$> gs) i → gs !! k = Some g → ungroup_one comps gs k g e = Ok r → r.1 !! i = comps !! i.
Proof.
  intros Ho Hk. unfold ungroup_one. destruct (status_of comps g e) as [[]| |]; try done; cbn [mbind res_bind];
    try (intros H; inversion H; done).
  unfold ungroup_components. destruct (g_len g); [done|]. destruct (on_range _ _ _ _) as [comps'| |] eqn:Hr; try done.
  cbn [mbind res_bind]. intros H. inversion H. simpl. eapply on_range_other; [done|]. by eapply outside_group.
Qed.

Lemma ungroup_loop_other i fuel : ∀ comps gs mask e r,
  outside (g_meta <$> gs) i → ungroup_loop fuel comps gs mask e = Ok r → r.1 !! i = comps !! i.
Proof.
  induction fuel as [|fuel IH]; intros comps gs mask e r Ho; cbn [ungroup_loop];
    destruct (bit_next_back mask) as [[k mask']|]; try done; try (intros H; inversion H; done).
  destruct (gs !! k) as [g|] eqn:Hk; [|done].
  destruct (ungroup_one comps gs k g e) as [r1| |] eqn:H1; try done. cbn [mbind res_bind].
  intros H. apply IH in H.
  - rewrite H. by eapply ungroup_one_other.
  - by rewrite (ungroup_one_metas _ _ _ _ _ _ Hk H1).
Qed.

Lemma ungroup_all_other i k : ∀ comps gs e r,
  outside (g_meta <$> gs) i → ungroup_all_from k comps gs e = Ok r → r.1 !! i = comps !! i.
Proof.
  induction k as [|k IH]; intros comps gs e r Ho; cbn [ungroup_all_from]; [intros H; inversion H; done|].
  destruct (gs !! k) as [g|] eqn:Hk; [|done].
  destruct (ungroup_one comps gs k g e) as [r1| |] eqn:H1; try done. cbn [mbind res_bind].
  intros H. apply IH in H.
  - rewrite H. by eapply ungroup_one_other.
  - by rewrite (ungroup_one_metas _ _ _ _ _ _ Hk H1).
Qed.

Lemma do_group_other i comps gs mask e r :
  outside (g_meta <$> gs) i → do_group comps gs mask e = Ok r → r.1 !! i = comps !! i.
Proof. unfold do_group. apply group_loop_other. Qed.

Lemma do_ungroup_other i comps gs mask e r :
  outside (g_meta <$> gs) i → do_ungroup comps gs mask e = Ok r → r.1 !! i = comps !! i.
Proof. unfold do_ungroup. apply ungroup_loop_other. Qed.

Lemma group_each_other i mask : ∀ es comps gs r,
  outside (g_meta <$> gs) i → group_each comps gs mask es = Ok r → r.1 !! i = comps !! i.
Proof.
  induction es as [|e es IH]; intros comps gs r Ho; cbn [group_each]; [intros H; inversion H; done|].
  destruct (do_group comps gs mask e) as [r1| |] eqn:H1; try done.
  intros H. apply IH in H.
  - rewrite H. exact (do_group_other i _ _ _ _ _ Ho H1).
  - by rewrite (do_group_metas _ _ _ _ _ H1).
Qed.

Lemma group_if_other i s mask e s' :
  outside (g_meta <$> cs_groups s) i → group_if s mask e = Ok s' → cs_comps s' !! i = cs_comps s !! i.
Proof.
  intros Ho. unfold group_if. destruct (mask =? 0)%N; [intros H; inversion H; done|].
  destruct (do_group _ _ _ _) as [r| |] eqn:Hg; try done. intros H. inversion H. exact (do_group_other i _ _ _ _ _ Ho Hg).
Qed.

Lemma ungroup_if_other i s mask e s' :
  outside (g_meta <$> cs_groups s) i → ungroup_if s mask e = Ok s' → cs_comps s' !! i = cs_comps s !! i.
Proof.
  intros Ho. unfold ungroup_if. destruct (mask =? 0)%N; [intros H; inversion H; done|].
  destruct (do_ungroup _ _ _ _) as [r| |] eqn:Hg; try done. intros H. inversion H. exact (do_ungroup_other i _ _ _ _ _ Ho Hg).
Qed.

(** ** The entities of the storage at [i] *)

Definition keyed (comps : list css) (i : nat) (l : list entity) : Prop :=
  ∃ c d, comps !! i = Some c ∧ css_rep c d ∧ d.*1 = l.

Definition fits (e : entity) (l : list entity) : Prop :=
  small l ∧ (e_index e < u32_lim)%N ∧ ∀ e', e' ∈ l → e_index e' = e_index e → e' = e.

Definition add_new (e : entity) (l : list entity) : list entity := if decide (e ∈ l) then l else l ++ [e].

Lemma fits_add_new e l : fits e l → fits e (add_new e l).
Proof.
  intros (H1 & H2 & H3). unfold add_new. destruct (decide (e ∈ l)); [done|]. split_and!; [|done|].
  - apply Forall_app. split; [done|]. by constructor.
  - intros e' [?| ->%elem_of_list_singleton]%elem_of_app ?; [by apply H3|done].
Qed.

Lemma fits_sub e l l' : fits e l' → l ⊆ l' → fits e l.
Proof.
  intros (H1 & H2 & H3) Hs. split_and!; [|done|].
  - unfold small in *. rewrite Forall_forall in *. auto.
  - auto.
Qed.

Lemma add_new_twice e l : add_new e (add_new e l) = add_new e l.
Proof.
  unfold add_new. destruct (decide (e ∈ l)) as [H|H].
  - by rewrite decide_True.
  - rewrite decide_True; [done|]. apply elem_of_app. right. by apply elem_of_list_singleton.
Qed.

Lemma keyed_same comps comps' i l : comps' !! i = comps !! i → keyed comps i l → keyed comps' i l.
Proof. intros H (c & d & Hc & Hr & Hd). exists c, d. by rewrite H. Qed.

Lemma keyed_entities comps i l c : keyed comps i l → comps !! i = Some c → css_entities c = Ok l.
Proof. intros (c' & d & Hc & Hr & <-) Hc'. assert (c' = c) as -> by congruence. by apply css_entities_ok. Qed.

Lemma css_insert_keys c d e v c' old :
  css_rep c d → fits e d.*1 → css_insert c e v = Ok (c', old) → ∃ d', css_rep c' d' ∧ d'.*1 = add_new e d.*1.
Proof.
  intros Hr (H1 & H2 & H3) H. unfold add_new. destruct (decide (e ∈ d.*1)) as [Hin|Hn].
  - apply elem_of_list_lookup in Hin as [j Hj]. apply dense_fst_lookup in Hj as [x Hj].
    destruct (css_insert_replace c d Hr j e v x Hj) as (c1 & H' & Hr1). assert (c1 = c') as -> by congruence.
    exists (<[j := (e, v)]> d). split; [done|]. rewrite list_fmap_insert. simpl. apply list_insert_id.
    apply dense_fst_lookup. eauto.
  - destruct (css_insert_app c d Hr e v) as (c1 & H' & Hr1); [done|done| |].
    { intros e' He'. intros Heq. assert (e' = e) as -> by (by apply H3). done. }
    assert (c1 = c') as -> by congruence. exists (d ++ [(e, v)]). split; [done|]. by rewrite fmap_app.
Qed.

Lemma keyed_insert comps i l e v j c c' old :
  keyed comps i l → fits e l → comps !! j = Some c → css_insert c e v = Ok (c', old) →
  keyed (<[j := c']> comps) i (if decide (j = i) then add_new e l else l).
Proof.
  intros (ci & d & Hc & Hr & <-) Hf Hj H. destruct (decide (j = i)) as [-> |Hne].
  - assert (ci = c) as -> by congruence. destruct (css_insert_keys _ _ _ _ _ _ Hr Hf H) as (d' & Hr' & Hd').
    exists c', d'. split_and!; [|done|done]. apply list_lookup_insert. by eapply lookup_lt_Some.
  - exists ci, d. by rewrite list_lookup_insert_ne.
Qed.

Lemma keyed_remove comps i l e j c c' r :
  keyed comps i l → comps !! j = Some c → css_remove c e = Ok (c', r) →
  keyed (<[j := c']> comps) i l ∨ keyed (<[j := c']> comps) i (fill_hole e l).
Proof.
  intros (ci & d & Hc & Hr & <-) Hj H. destruct (decide (j = i)) as [-> |Hne].
  2:{ left. exists ci, d. by rewrite list_lookup_insert_ne. }
  assert (ci = c) as -> by congruence. assert (Hlt : i < length comps) by (by eapply lookup_lt_Some).
  destruct (decide (e ∈ d.*1)) as [Hin|Hn].
  - right. apply elem_of_list_lookup in Hin as [k Hk]. pose proof Hk as Hk'. apply dense_fst_lookup in Hk as [x Hx].
    destruct (css_remove_lookup c d Hr k e x Hx) as (c1 & H' & Hr1). assert (c1 = c') as -> by congruence.
    exists c', (swap_remove d k). split_and!; [by apply list_lookup_insert|done|].
    rewrite swap_remove_fmap. apply fill_hole_swap_remove; [|done]. by apply (sparse_ok_nodup_ents _ _ (cr_sparse _ _ Hr)).
  - left. rewrite (css_remove_None c d Hr e Hn) in H. injection H as <- <-. exists c, d.
    split_and!; [by apply list_lookup_insert|done|done].
Qed.

Lemma fill_hole_gone e l : NoDup l → e ∉ fill_hole e l.
Proof.
  intros Hnd. destruct (decide (e ∈ l)) as [Hin|Hn]; [|by rewrite fill_hole_absent].
  apply elem_of_list_lookup in Hin as [k Hk]. rewrite <-(fill_hole_swap_remove l k e) by done.
  pose proof (swap_remove_perm l k e Hk) as Hp. rewrite Hp in Hnd. by apply NoDup_cons in Hnd as [? _].
Qed.

Lemma keyed_nodup comps i l : keyed comps i l → NoDup l.
Proof. intros (c & d & _ & Hr & <-). by apply (sparse_ok_nodup_ents _ _ (cr_sparse _ _ Hr)). Qed.

Lemma insert_loop_keyed mt e i cs : ∀ comps mask l,
  keyed comps i l → fits e l →
  match insert_loop mt comps mask e cs with
  | InsOk _ comps' _ | InsPanic _ comps' => keyed comps' i l ∨ keyed comps' i (add_new e l)
  | InsUB => True
  end.
Proof.
  induction cs as [|[t v] cs IH]; intros comps mask l HK Hf; cbn [insert_loop]; [by left|].
  destruct (mt !! t) as [m|]; [|by left]. destruct (comps !! m_index m) as [c|] eqn:Hc; [|done].
  destruct (css_insert c e v) as [[c' old]| |] eqn:Hi; [|done..].
  pose proof (keyed_insert _ _ _ _ _ _ _ _ _ HK Hf Hc Hi) as HK'. cbv zeta.
  assert (∃ l', keyed (<[m_index m := c']> comps) i l' ∧ fits e l' ∧ (l' = l ∨ l' = add_new e l)) as (l' & HK1 & Hf1 & Hl').
  { destruct (decide (m_index m = i)); eexists; (split; [exact HK'|]); split; auto using fits_add_new. }
  specialize (IH (<[m_index m := c']> comps) (gm_or mask (m_insert m)) l' HK1 Hf1).
  assert (∀ comps', keyed comps' i l' ∨ keyed comps' i (add_new e l') → keyed comps' i l ∨ keyed comps' i (add_new e l)).
  { intros comps'. destruct Hl' as [->| ->]; [done|]. rewrite add_new_twice. tauto. }
  destruct (insert_loop _ _ _ _ _); auto.
Qed.

Lemma insert_row_keyed mt t m e ts : mt !! t = Some m →
  (∀ t' m', mt !! t' = Some m' → m_index m' = m_index m → t' = t) →
  ∀ is_ vs comps l comps' ds, indexes mt ts is_ → length vs = length ts →
  keyed comps (m_index m) l → fits e l → insert_row comps e (zip is_ vs) = Ok (comps', ds) →
  keyed comps' (m_index m) (if decide (t ∈ ts) then add_new e l else l).
Proof.
  intros Ht Hinj. induction ts as [|t' ts IH]; intros is_ vs comps l comps' ds Hi Hlen HK Hf H.
  { inversion Hi; subst. simpl in H. injection H as <- <-. rewrite decide_False; [done|]. apply not_elem_of_nil. }
  inversion Hi as [|? j ? is' (m' & Ht' & Hm') Hi']; subst. destruct vs as [|v vs]; [done|]. simpl in Hlen, H.
  destruct (comps !! m_index m') as [c|] eqn:Hc; [|done]. destruct (css_insert c e v) as [[c' old]| |] eqn:Hins; [|done..].
  destruct (insert_row _ _ _) as [[comps1 ds1]| |] eqn:Hr; [|done..]. injection H as <- <-.
  pose proof (keyed_insert _ _ _ _ _ _ _ _ _ HK Hf Hc Hins) as HK'.
  assert (Hle : length vs = length ts) by lia.
  destruct (decide (m_index m' = m_index m)) as [Heq|Hne].
  - assert (t' = t) as -> by (by eapply Hinj). rewrite decide_True by left.
    pose proof (IH _ _ _ _ _ _ Hi' Hle HK' (fits_add_new _ _ Hf) Hr) as HK2. rewrite add_new_twice in HK2.
    by destruct (decide (t ∈ ts)).
  - assert (t ≠ t') as Hnt. { intros ->. assert (m' = m) as -> by congruence. done. }
    pose proof (IH _ _ _ _ _ _ Hi' Hle HK' Hf Hr) as HK2. destruct (decide (t ∈ ts)) as [Hin|Hn].
    + rewrite decide_True by (by right). done.
    + rewrite decide_False; [done|]. by intros [?|?]%elem_of_cons.
Qed.

Lemma alive_fits st s e l : einv st s → s_alive s e → (∀ e', e' ∈ l → s_alive s e') → fits e l.
Proof.
  intros HE He Hl. pose proof (am_ok_alive _ _ HE) as [H1 H2]. split_and!.
  - apply Forall_forall. intros e' He'. by apply H1, Hl.
  - by apply H1.
  - intros e' He' Heq. apply H2; [by apply Hl|done|done].
Qed.

Lemma extend_rows_keyed mt t m ts is_ rows : mt !! t = Some m →
  (∀ t' m', mt !! t' = Some m' → m_index m' = m_index m → t' = t) →
  indexes mt ts is_ → Forall (λ r, length r = length ts) rows →
  ∀ s ents comps l, einv ents s → (∀ e, e ∈ l → s_alive s e) → keyed comps (m_index m) l →
  match extend_rows ents comps is_ rows with
  | RowsOk _ ents' comps' new | RowsPanic _ ents' comps' new =>
      estore_slice ents' = estore_slice ents ++ new ∧
      keyed comps' (m_index m) (if decide (t ∈ ts) then l ++ new else l) ∧ (∀ e, e ∈ new → ¬ s_alive s e ∧ fits e l)
  | RowsUB => True
  end.
Proof.
  intros Ht Hinj Hidx. induction rows as [|row rows IH]; intros Hlen s ents comps l HE Hl HK; cbn [extend_rows].
  { rewrite !app_nil_r. split_and!; [done|by destruct (decide _)|]. by intros ? ?%elem_of_nil. }
  apply Forall_cons in Hlen as [Hrow Hlen].
  destruct (estore_create_ok _ _ HE) as [(e & st' & -> & Hnew & Hes & HE')|[-> Hex]].
  2:{ rewrite !app_nil_r. split_and!; [done|by destruct (decide _)|]. by intros ? ?%elem_of_nil. }
  pose proof (new_handle_dead _ _ _ HE Hnew) as Hn.
  destruct (insert_row comps e (zip is_ row)) as [[comps1 ds1]| |] eqn:Hr; [|done..].
  specialize (HE' ∅).
  assert (Hal : ∀ e', s_alive s e' → s_alive (add_entity s e ∅) e').
  { intros e' ?. unfold s_alive. simpl. rewrite lookup_insert_is_Some. destruct (decide (e = e')); [by left|by right]. }
  assert (Hae : s_alive (add_entity s e ∅) e) by (unfold s_alive; simpl; rewrite lookup_insert; eauto).
  assert (Hf : fits e l) by (eapply alive_fits; [exact HE'|done|]; auto).
  pose proof (insert_row_keyed mt t m e ts Ht Hinj _ _ _ _ _ _ Hidx Hrow HK Hf Hr) as HK1.
  assert (Hnl : e ∉ l). { intros Hin. apply Hl in Hin as [? ?]. congruence. }
  unfold add_new in HK1. rewrite (decide_False (P := e ∈ l)) in HK1 by done.
  assert (Hl1 : ∀ e', e' ∈ (if decide (t ∈ ts) then l ++ [e] else l) → s_alive (add_entity s e ∅) e').
  { intros e' He'. destruct (decide (t ∈ ts)); [|auto]. apply elem_of_app in He' as [?| ->%elem_of_list_singleton]; auto. }
  specialize (IH Hlen (add_entity s e ∅) st' comps1 _ HE' Hl1 HK1).
  assert (Hgo : ∀ ents' comps' new,
    estore_slice ents' = estore_slice st' ++ new ∧
    keyed comps' (m_index m) (if decide (t ∈ ts) then (if decide (t ∈ ts) then l ++ [e] else l) ++ new
                              else (if decide (t ∈ ts) then l ++ [e] else l)) ∧
    (∀ e', e' ∈ new → ¬ s_alive (add_entity s e ∅) e' ∧ fits e' (if decide (t ∈ ts) then l ++ [e] else l)) →
    estore_slice ents' = estore_slice ents ++ e :: new ∧
    keyed comps' (m_index m) (if decide (t ∈ ts) then l ++ e :: new else l) ∧ (∀ e', e' ∈ e :: new → ¬ s_alive s e' ∧ fits e' l)).
  { intros ents' comps' new (G1 & G2 & G3). split_and!.
    - rewrite G1. unfold estore_slice in *. rewrite Hes. by rewrite <-(assoc_L (++)).
    - destruct (decide (t ∈ ts)); [|done]. by rewrite <-(assoc_L (++)) in G2.
    - intros e' [-> |Hin]%elem_of_cons; [split; [intros [? ?]; congruence|done]|]. destruct (G3 e' Hin) as [G4 G5]. split.
      + intros Ha. by apply G4, Hal.
      + destruct (decide (t ∈ ts)); [|done]. eapply fits_sub; [exact G5|]. set_solver. }
  destruct (extend_rows st' comps1 is_ rows); auto.
Qed.

Lemma remove_each_keyed e i is_ : ∀ comps l comps' vs,
  keyed comps i l → remove_each comps e is_ = Ok (comps', vs) → keyed comps' i l ∨ keyed comps' i (fill_hole e l).
Proof.
  induction is_ as [|j is_ IH]; intros comps l comps' vs HK; cbn [remove_each]; [intros [= <- <-]; by left|].
  destruct (comps !! j) as [c|] eqn:Hc; [|done]. destruct (css_remove c e) as [[c' r]| |] eqn:Hr; [|done..].
  destruct (remove_each _ _ _) as [[comps1 vs1]| |] eqn:H1; [|done..]. intros [= <- <-].
  destruct (keyed_remove _ _ _ _ _ _ _ _ HK Hc Hr) as [HK'|HK'].
  - by eapply IH.
  - right. destruct (IH _ _ _ _ HK' H1) as [?|H2]; [done|].
    rewrite fill_hole_absent in H2; [done|]. apply fill_hole_gone. by eapply keyed_nodup.
Qed.

Lemma delete_each_keyed e : ∀ comps comps' vs i l,
  keyed comps i l → delete_each comps e = Ok (comps', vs) → keyed comps' i l ∨ keyed comps' i (fill_hole e l).
Proof.
  induction comps as [|c comps IH]; intros comps' vs i l HK; cbn [delete_each]; [intros [= <- <-]; by left|].
  destruct (css_delete c e) as [[c' dr]| |] eqn:Hd; [|done..]. cbn [mbind res_bind].
  destruct (delete_each comps e) as [[comps1 vs1]| |] eqn:H1; [|done..]. cbn [mbind res_bind fst snd]. intros [= <- <-].
  destruct i as [|i].
  - destruct HK as (c0 & d & [= <-] & Hr & Hd'). rewrite css_delete_remove in Hd.
    destruct (css_remove c e) as [[c1 r]| |] eqn:Hrm; [|done..].
    assert (c1 = c') as -> by (destruct r; congruence).
    assert (keyed [c] 0 l) as HK by (by exists c, d).
    pose proof (keyed_remove [c] 0 l e 0 c c' r HK eq_refl Hrm) as H. simpl in H.
    destruct H as [(c2 & d2 & [= <-] & ? & ?)|(c2 & d2 & [= <-] & ? & ?)]; [left|right]; by exists c', d2.
  - destruct HK as (c0 & d & Hc & Hr & Hd'). destruct (IH comps1 vs1 i l) as [(c2 & d2 & ? & ?)|(c2 & d2 & ? & ?)];
      [by exists c0, d|done|left|right]; by exists c2, d2.
Qed.

Lemma clear_each_keyed : ∀ comps comps' vs i l,
  keyed comps i l → clear_each comps = Ok (comps', vs) → keyed comps' i [].
Proof.
  induction comps as [|c comps IH]; intros comps' vs i l (c0 & d & Hc & Hr & Hd); cbn [clear_each]; [done|].
  destruct (css_clear c) as [[c' dr]| |] eqn:Hcl; [|done..]. cbn [mbind res_bind].
  destruct (clear_each comps) as [[comps1 vs1]| |] eqn:H1; [|done..]. cbn [mbind res_bind fst snd]. intros [= <- <-].
  destruct i as [|i].
  - simpl in Hc. injection Hc as <-. destruct (css_clear_ok c d Hr) as (c1 & H2 & Hr1).
    assert (c1 = c') as -> by congruence. by exists c', [].
  - simpl in Hc. apply (IH comps1 vs1 i l); [|done]. by exists c0, d.
Qed.

(** ** Writing leaves all orders *)

Definition order_kept (s s' : cstore) : Prop :=
  cs_meta s ⊆ cs_meta s' ∧
  ∀ i c, cs_comps s !! i = Some c → ∃ c', cs_comps s' !! i = Some c' ∧ css_entities c' = css_entities c.

Lemma order_kept_refl s : order_kept s s.
Proof. split; [done|]. eauto. Qed.
Lemma order_kept_trans s1 s2 s3 : order_kept s1 s2 → order_kept s2 s3 → order_kept s1 s3.
Proof.
  intros [H1 H2] [H3 H4]. split; [by etrans|]. intros i c (c2 & Hc2 & E2)%H2. apply H4 in Hc2 as (c3 & Hc3 & E3).
  exists c3. split; [done|]. congruence.
Qed.

Lemma css_set_entities c i v c' : css_set c i v = Ok c' → css_entities c' = css_entities c.
Proof.
  unfold css_set. destruct (buf_read _ _); try done. cbn [mbind res_bind]. destruct (buf_write _ _ _); try done.
  cbn [mbind res_bind]. by intros [= <-].
Qed.

Lemma set_order_kept s j c i v c' :
  cs_comps s !! j = Some c → css_set c i v = Ok c' →
  order_kept s (CStore (cs_groups s) (cs_meta s) (<[j := c']> (cs_comps s))).
Proof.
  intros Hc H. split; [done|]. intros k ck Hk. simpl. destruct (decide (j = k)) as [<-|Hne].
  - exists c'. split; [apply list_lookup_insert; by eapply lookup_lt_Some|]. assert (ck = c) as -> by congruence. by eapply css_set_entities.
  - exists ck. by rewrite list_lookup_insert_ne.
Qed.

Lemma write_items_order f seen : ∀ G k s its s' o n,
  write_items s f seen k G its = Ok (s', o, n) → order_kept s s'.
Proof.
  induction G as [|p G IH]; intros k s its s' o n; cbn [write_items]; [intros H; inversion H; apply order_kept_refl|].
  destruct its as [|it its]; [intros H; inversion H; apply order_kept_refl|].
  destruct (write_one s p it (f k seen)) as [[[s1 o1] n1]| |] eqn:H1; try done.
  destruct (write_items s1 f seen (S k) G its) as [[[s2 o2] n2]| |] eqn:H2; try done.
  intros H. inversion H; subst. eapply order_kept_trans; [|by eapply IH].
  unfold write_one in H1. destruct p, it, (f k seen); try (destruct r as [[? ?]|]); try (inversion H1; apply order_kept_refl);
    destruct (cs_meta s !! _); try done; destruct (cs_comps s !! _) eqn:Hc; try done;
    destruct (buf_read _ _); try done; destruct (css_set _ _ _) eqn:Hs; try done; inversion H1; by eapply set_order_kept.
Qed.

Lemma sparse_for_each_order f G : ∀ ents s x i g s' es o n,
  sparse_for_each s f G ents x i g = Ok (s', es, o, n) → order_kept s s'.
Proof.
  induction ents as [|e ents IH]; intros s x i g s' es o n; cbn [sparse_for_each];
    [intros H; inversion H; apply order_kept_refl|].
  destruct (negb _); [apply IH|]. destruct (negb _); [apply IH|].
  destruct (query_get_raw _ e) as [[it|]| |]; try done; [|apply IH].
  destruct (visit s f G it) as [[[s1 o1] n1]| |] eqn:H1; try done.
  destruct (sparse_for_each s1 f G ents x i g) as [[[[s2 es2] o2] n2]| |] eqn:H2; try done.
  intros H. inversion H; subst. eapply order_kept_trans; [by eapply write_items_order|by eapply IH].
Qed.

Lemma dense_for_each_order f G ents g : ∀ ks s s' es o n,
  dense_for_each s f G ks ents g = Ok (s', es, o, n) → order_kept s s'.
Proof.
  induction ks as [|k ks IH]; intros s s' es o n; cbn [dense_for_each];
    [intros H; inversion H; apply order_kept_refl|].
  destruct (ents !! k) as [e|]; [|done].
  destruct (query_get_dense _ k e) as [it| |]; try done.
  destruct (visit s f G it) as [[[s1 o1] n1]| |] eqn:H1; try done.
  destruct (dense_for_each s1 f G ks ents g) as [[[[s2 es2] o2] n2]| |] eqn:H2; try done.
  intros H. inversion H; subst. eapply order_kept_trans; [by eapply write_items_order|by eapply IH].
Qed.

Lemma step_order_kept w o out dr w' :
  step w o = (out, dr, w') → keeps_order o → order_kept (w_comps w) (w_comps w').
Proof.
  intros H Ho. destruct o; cbn [step] in H; try done.
  - unfold world_create_atomic in H. destruct (estore_create_atomic _) as [[? ?]| |]; inversion H; apply order_kept_refl.
  - unfold world_maintain in H. destruct (estore_maintain _); inversion H; apply order_kept_refl.
  - unfold world_register in H. pose proof (register_framed (w_comps w) t) as [_ Hf].
    destruct (register_dyn _ _) as [b s] eqn:Hr. inversion H; subst. split; [done|]. intros i c Hc. exists c. split; [|done].
    unfold register_dyn in Hr. destruct (_ !! t); inversion Hr; subst; simpl; [done|]. by apply lookup_app_l_Some.
  - unfold world_set in H. destruct (cs_meta _ !! _); try (inversion H; apply order_kept_refl).
    destruct (cs_comps _ !! _) eqn:Hc; try (inversion H; apply order_kept_refl).
    destruct (css_get_ref _ _) as [[[? ?]|]| |]; try (inversion H; apply order_kept_refl).
    destruct (css_set _ _ _) eqn:Hs; inversion H; try apply order_kept_refl. by eapply set_order_kept.
  - unfold world_for_each in H. destruct (query_for_each _ _ _ _ _) as [[[[s vis] old] new]| |] eqn:Hq;
      inversion H; subst; try apply order_kept_refl. cbn [w_comps]. unfold query_for_each in Hq.
    destruct (borrow3 _ _ _ _) as [[[g i] x]| |]; try done.
    destruct (query_iter _ _ _ _) as [[]| |]; try done.
    + by eapply sparse_for_each_order.
    + by eapply dense_for_each_order.
Qed.

Lemma order_kept_view w w' t l :
  order_kept (w_comps w) (w_comps w') → view_entities w t = Ok l → view_entities w' t = Ok l.
Proof.
  intros [H1 H2]. unfold view_entities, cs_borrow. destruct (cs_meta (w_comps w) !! t) as [m|] eqn:Hm; [|done].
  destruct (cs_comps (w_comps w) !! m_index m) as [c|] eqn:Hc; [|done]. apply H2 in Hc as (c' & Hc' & E).
  rewrite (lookup_weaken _ _ _ _ Hm H1), Hc', E. done.
Qed.

(** ** One call *)

Definition order_shape (o : op) (out : outcome) (l l' : list entity) : Prop :=
  match o with
  | OCreate _ | OExtend _ _ _ => (∀ e, e ∈ reported out → e ∉ l) ∧ (l' = l ∨ l' = l ++ reported out)
  | OInsert e _ => l' = l ∨ l' = add_new e l
  | ORemove e _ | ODelete e _ | ODestroy e => l' = l ∨ l' = fill_hole e l
  | OClear | OReset => out = Ret RUnit → l' = []
  | _ => True
  end.

Lemma set_insert_keyed w e cs r gh out dr w' i l :
  set_insert w e cs r gh = (out, dr, w') → (∀ es, out ≠ UndefBeh es) →
  outside (g_meta <$> cs_groups (w_comps w)) i → keyed (cs_comps (w_comps w)) i l → fits e l →
  (keyed (cs_comps (w_comps w')) i l ∨ keyed (cs_comps (w_comps w')) i (add_new e l)) ∧ (out = Ret r ∨ out = Panicked gh).
Proof.
  intros H Hub Ho HK Hf. unfold set_insert in H.
  pose proof (insert_loop_keyed (cs_meta (w_comps w)) e i cs (cs_comps (w_comps w)) 0 l HK Hf) as HL.
  destruct (insert_loop _ _ _ _ _) as [d comps mask|d comps|].
  - destruct (group_if _ _ _) as [s1| |] eqn:Hg.
    + apply (group_if_other i) in Hg; [|done]. simpl in Hg. injection H as <- <- <-. simpl. split; [|by left].
      destruct HL as [HL|HL]; [left|right]; by eapply keyed_same.
    + injection H as <- <- <-. by destruct (Hub gh).
    + injection H as <- <- <-. by destruct (Hub gh).
  - injection H as <- <- <-. simpl. split; [done|by right].
  - injection H as <- <- <-. by destruct (Hub gh).
Qed.

Lemma step_keyed w s ds o out dr w' t m l :
  winv w s ds → op_ok o → step w o = (out, dr, w') → (∀ es, out ≠ UndefBeh es) →
  (∀ l p, o ≠ OSetLayout l p) → ¬ keeps_order o →
  cs_meta (w_comps w) !! t = Some m → outside (g_meta <$> cs_groups (w_comps w)) (m_index m) →
  keyed (cs_comps (w_comps w)) (m_index m) l → (∀ e, e ∈ l → s_alive s e) →
  ∃ l', keyed (cs_comps (w_comps w')) (m_index m) l' ∧ order_shape o out l l'.
Proof.
  intros [HE HC] Hop H Hub Hnl Hnk Hm Ho HK Hl.
  destruct o; cbn [step] in H; try (by destruct Hnk); try (by destruct (Hnl l0 perm)); simpl order_shape.
  - (* create *)
    unfold world_create in H. destruct (estore_create_ok _ _ HE) as [(e & st' & He & Hnew & Hes & HE')|[He _]]; rewrite He in H.
    2:{ injection H as <- <- <-. exists l. split; [done|]. split; [|by left]. by intros ? ?%elem_of_nil. }
    pose proof (new_handle_dead _ _ _ HE Hnew) as Hn. specialize (HE' ∅).
    assert (Hnl' : e ∉ l). { intros [? ?]%Hl. congruence. }
    assert (Hf : fits e l).
    { eapply alive_fits; [exact HE'| |].
      - unfold s_alive. simpl. rewrite lookup_insert. eauto.
      - intros e' He'%Hl. unfold s_alive. simpl. rewrite lookup_insert_is_Some. destruct (decide (e = e')); [by left|by right]. }
    destruct (set_insert_keyed _ _ _ _ _ _ _ _ (m_index m) l H Hub Ho HK Hf) as [HK' Hout].
    unfold add_new in HK'. rewrite decide_False in HK' by done.
    assert (reported out = [e]) as -> by (by destruct Hout as [-> | ->]).
    destruct HK' as [HK'|HK']; eexists; (split; [exact HK'|]); (split; [|auto]);
      intros e' ->%elem_of_list_singleton; done.
  - (* extend *)
    unfold set_extend in H. destruct (lookup_metas _ _ _) as [[is_ mask]|] eqn:Hlm.
    2:{ injection H as <- <- <-. exists l. split; [done|]. split; [|by left]. by intros ? ?%elem_of_nil. }
    apply lookup_metas_Some in Hlm as [Hidx _].
    pose proof (extend_rows_keyed (cs_meta (w_comps w)) t m ts is_ rows Hm) as HX.
    specialize (HX ltac:(intros t' m' Ht' Heq; by eapply (st_inj _ _ _ (ci_static _ _ _ _ _ _ HC)))).
    specialize (HX Hidx Hop s (w_ents w) (cs_comps (w_comps w)) l HE Hl HK).
    assert (Hgo : ∀ comps' new, keyed comps' (m_index m) (if decide (t ∈ ts) then l ++ new else l) →
       (∀ e, e ∈ new → ¬ s_alive s e ∧ fits e l) → ∃ l', keyed comps' (m_index m) l' ∧
         (∀ e, e ∈ new → e ∉ l) ∧ (l' = l ∨ l' = l ++ new)).
    { intros comps' new HK' Hd. eexists. split; [exact HK'|]. split; [intros e He He'; by eapply (Hd e), Hl|].
      destruct (decide (t ∈ ts)); auto. }
    destruct (extend_rows _ _ _ _) as [d ents comps new|d ents comps new|].
    + destruct HX as (Hsl & HK' & Hdead). destruct ends_in_panic; [injection H as <- <- <-; simpl; by apply Hgo|].
      assert (Hdrop : drop (length (estore_slice (w_ents w))) (estore_slice ents) = new) by (by rewrite Hsl, drop_app).
      destruct (_ <=? _); [|injection H as <- <- <-; by destruct (Hub new)]. rewrite Hdrop in H.
      destruct (mask =? 0)%N; [injection H as <- <- <-; simpl; by apply Hgo|].
      destruct (group_each _ _ _ _) as [[comps' gs']| |] eqn:Hg.
      * apply (group_each_other (m_index m)) in Hg; [|done]. injection H as <- <- <-. simpl. apply Hgo; [|done].
        eapply keyed_same; [exact Hg|done].
      * injection H as <- <- <-. by destruct (Hub new).
      * injection H as <- <- <-. by destruct (Hub new).
    + destruct HX as (Hsl & HK' & Hdead). injection H as <- <- <-. simpl. by apply Hgo.
    + injection H as <- <- <-. by destruct (Hub []).
  - (* destroy *)
    unfold world_destroy in H. destruct (estore_remove _ _) as [[[] ents]| |].
    + unfold strip in H. destruct (ungroup_all _ _ _) as [r| |] eqn:Hu; cbn [mbind res_bind] in H.
      2,3: injection H as <- <- <-; by destruct (Hub []).
      unfold ungroup_all in Hu. apply (ungroup_all_other (m_index m)) in Hu; [|done].
      destruct (delete_each _ _) as [[comps vs]| |] eqn:Hd; cbn [mbind res_bind fst snd] in H.
      2,3: injection H as <- <- <-; by destruct (Hub []).
      injection H as <- <- <-. simpl. pose proof (keyed_same _ _ _ _ Hu HK) as HK1.
      destruct (delete_each_keyed _ _ _ _ _ _ HK1 Hd); eauto.
    + injection H as <- <- <-. eauto.
    + injection H as <- <- <-. eauto.
    + injection H as <- <- <-. eauto.
  - (* insert *)
    unfold world_insert in H. rewrite (estore_contains_alive _ _ e HE) in H. destruct (bool_decide_reflect (s_alive s e)) as [Ha|Hn].
    + destruct (set_insert_keyed _ _ _ _ _ _ _ _ (m_index m) l H Hub Ho HK) as [[?|?] _]; [by eapply alive_fits|eauto|eauto].
    + injection H as <- <- <-. eauto.
  - (* remove *)
    unfold set_remove in H. destruct (lookup_metas _ _ _) as [[is_ mask]|]; [|injection H as <- <- <-; eauto].
    destruct (ungroup_if _ _ _) as [s1| |] eqn:Hu; [|injection H as <- <- <-; by destruct (Hub [])..].
    apply (ungroup_if_other (m_index m)) in Hu; [|done]. pose proof (keyed_same _ _ _ _ Hu HK) as HK1.
    destruct (remove_each _ _ _) as [[comps vs]| |] eqn:Hd; [|injection H as <- <- <-; by destruct (Hub [])..].
    injection H as <- <- <-. simpl. destruct (remove_each_keyed _ _ _ _ _ _ _ HK1 Hd); eauto.
  - (* delete *)
    unfold set_delete in H. destruct (lookup_metas _ _ _) as [[is_ mask]|]; [|injection H as <- <- <-; eauto].
    destruct (ungroup_if _ _ _) as [s1| |] eqn:Hu; [|injection H as <- <- <-; by destruct (Hub [])..].
    apply (ungroup_if_other (m_index m)) in Hu; [|done]. pose proof (keyed_same _ _ _ _ Hu HK) as HK1.
    rewrite delete_list_remove_each in H.
    destruct (remove_each _ _ _) as [[comps vs]| |] eqn:Hd; [|injection H as <- <- <-; by destruct (Hub [])..].
    injection H as <- <- <-. simpl. destruct (remove_each_keyed _ _ _ _ _ _ _ HK1 Hd); eauto.
  - (* clear *)
    unfold world_clear in H. destruct (estore_clear _) as [ents| |].
    + unfold cstore_clear in H. destruct (clear_each _) as [[comps vs]| |] eqn:Hd; cbn [mbind res_bind fst snd] in H.
      2,3: injection H as <- <- <-; by destruct (Hub []).
      injection H as <- <- <-. simpl. exists []. split; [by eapply clear_each_keyed|done].
    + injection H as <- <- <-. exists l. done.
    + injection H as <- <- <-. by destruct (Hub []).
  - (* reset *)
    unfold world_reset, cstore_clear in H. destruct (clear_each _) as [[comps vs]| |] eqn:Hd; cbn [mbind res_bind fst snd] in H.
    2,3: injection H as <- <- <-; by destruct (Hub []).
    injection H as <- <- <-. simpl. exists []. split; [by eapply clear_each_keyed|done].
Qed.

Lemma set_layout_keyed s ds am reg grp loose l perm es s' t m :
  cinv s ds am reg grp loose → layout_wf l → layout_fits l → set_layout s l perm es = SlOk s' →
  t ∉ layout_tids l → cs_meta s !! t = Some m →
  ∀ d, ds !! m_index m = Some d → ∃ m', cs_meta s' !! t = Some m' ∧ keyed (cs_comps s') (m_index m') d.*1.
Proof.
  intros HI [Hwf Hdis] [H64 H16] H Ht Hm d Hd. unfold set_layout in H.
  destruct (extract_sets_ok s ds am reg grp loose HI) as (sets & s0 & ds0 & He & HL0 & Hg0). rewrite He in H.
  destruct (sl_families_ok _ _ _ l s0 sets ds0 ∅ ∅ HL0 Hwf Hdis) as (s1 & sets1 & ds1 & Hf & HL1).
  { intros. apply not_elem_of_empty. } { rewrite Hg0. done. } { done. }
  rewrite Hf in H. rewrite !(right_id_L ∅ (∪)) in HL1.
  destruct (sl_leftover_ok _ _ _ sets1 (order_by perm sets1) s1 sets1 ds1 _ _ HL1) as (ds2 & HL2 & Hgs2).
  { apply order_by_NoDup. } { apply order_by_elem. } { done. }
  cbv zeta in H. set (s2 := sl_leftover (order_by perm sets1) sets1 s1) in *.
  assert (Htr : t ∈ reg) by (apply (ci_reg _ _ _ _ _ _ HI); eauto).
  destruct (proj1 (li_dom _ _ _ _ _ _ _ _ HL2 t)) as [m2 Hm2].
  { apply elem_of_union. left. apply elem_of_list_to_set, order_by_elem, (li_keys _ _ _ _ _ _ _ _ HL1). split; [done|].
    by rewrite elem_of_list_to_set. }
  pose proof (li_data _ _ _ _ _ _ _ _ HL2 t m2 Hm2) as Hd2. unfold content in Hd2. rewrite Hm, Hd in Hd2. simpl in Hd2.
  destruct (gm_from_to 0 _) as [mask|]; [|done].
  destruct (group_each _ _ _ _) as [[comps gs]| |] eqn:Hg; [|done..]. injection H as <-. simpl.
  exists m2. split; [done|]. apply (group_each_other (m_index m2)) in Hg.
  - simpl in Hg. destruct (Forall2_lookup_r _ _ _ _ _ (li_rep _ _ _ _ _ _ _ _ HL2) Hd2) as (c & Hc & Hr).
    exists c, d. by rewrite Hg.
  - intros k gm Hk Hc. apply Ht. rewrite <-(elem_of_list_to_set (C := gset tid)).
    apply (li_grp _ _ _ _ _ _ _ _ HL2). exists m2, k, gm. split_and!; done.
Qed.

Lemma keyed_view w t m l : cs_meta (w_comps w) !! t = Some m → keyed (cs_comps (w_comps w)) (m_index m) l →
  view_entities w t = Ok l.
Proof.
  intros Hm HK. unfold view_entities, cs_borrow. rewrite Hm. pose proof HK as (c & d & Hc & _). rewrite Hc.
  by eapply keyed_entities.
Qed.

Lemma view_owners w s ds t l : winv w s ds → t ∈ s_reg s → view_entities w t = Ok l →
  NoDup l ∧ ∀ e, e ∈ l ↔ owns t s e.
Proof.
  intros HI Ht Hl. destruct (inv_view w s ds t HI Ht) as (es & vs & Hv & _ & _ & Hlen & Hnd & Hzip & _).
  assert (es = l) as -> by congruence. split; [done|]. intros e. unfold owns. split.
  - intros [i Hi]%elem_of_list_lookup. destruct (lookup_lt_is_Some_2 vs i) as [x Hx].
    { rewrite Hlen. by eapply lookup_lt_Some. }
    exists x. apply Hzip. apply elem_of_list_lookup. exists i. apply lookup_zip_with_Some. eauto.
  - intros [x Hx]. apply Hzip in Hx. by apply elem_of_zip_l in Hx.
Qed.

Lemma filter_all {A} (P : A → Prop) `{HP : ∀ x, Decision (P x)} (l : list A) : (∀ x, x ∈ l → P x) → filter P l = l.
Proof.
  induction l as [|x l IH]; intros Hx; [done|]. rewrite filter_cons_True by (apply Hx; left). f_equal. apply IH. intros. apply Hx. by right.
Qed.

Lemma filter_none {A} (P : A → Prop) `{HP : ∀ x, Decision (P x)} (l : list A) : (∀ x, x ∈ l → ¬ P x) → filter P l = [].
Proof.
  induction l as [|x l IH]; intros Hx; [done|]. rewrite filter_cons_False by (apply Hx; left). apply IH. intros. apply Hx. by right.
Qed.

Lemma order_shape_step t s' o out l l' :
  order_shape o out l l' → NoDup l → (∀ e, e ∈ l' ↔ owns t s' e) → (o = OClear ∨ o = OReset → out = Ret RUnit) →
  ¬ keeps_order o → (∀ l p, o ≠ OSetLayout l p) → l' = order_step t s' o out l.
Proof.
  intros Hs Hnd Hown Hclr Hk Hnl.
  assert (Hfill : ∀ e, l' = l ∨ l' = fill_hole e l → l' = if decide (owns t s' e) then l else fill_hole e l).
  { intros e Hl'. destruct (decide (owns t s' e)) as [Ho|Hn]; rewrite <-Hown in *.
    - destruct Hl' as [->| ->]; [done|]. by apply fill_hole_gone in Ho.
    - destruct Hl' as [->| ->]; [|done]. by rewrite fill_hole_absent. }
  assert (Hnew : (∀ e, e ∈ reported out → e ∉ l) → l' = l ∨ l' = l ++ reported out → l' = l ++ filter (owns t s') (reported out)).
  { intros Hd [->| ->].
    - rewrite filter_none; [by rewrite app_nil_r|]. intros e He. rewrite <-Hown. by apply Hd.
    - rewrite filter_all; [done|]. intros e He. apply Hown, elem_of_app. by right. }
  destruct o; simpl in *; try (by destruct Hk); try (by destruct (Hnl l0 perm)); auto.
  - destruct Hs. auto.
  - destruct Hs. auto.
  - destruct Hs as [->| ->].
    + rewrite decide_False; [done|]. rewrite <-Hown. tauto.
    + unfold add_new in *. destruct (decide (e ∈ l)).
      * rewrite decide_False; [done|]. tauto.
      * rewrite decide_True; [done|]. split; [|done]. apply Hown, elem_of_app. right. by apply elem_of_list_singleton.
Qed.

Lemma allowed_not_ub s o out es : allowed s o out → out ≠ UndefBeh es.
Proof.
  intros H ->. destruct o; simpl in H; repeat case_decide; naive_solver.
Qed.

Lemma view_order_step w s o out dr w' t :
  reachable w s → op_ok o → step w o = (out, dr, w') → good_side s o out → t ∈ s_reg s →
  keeps_order o ∨ (t ∉ s_grouped s ∨ ∃ l p, o = OSetLayout l p) ∧ t ∉ s_grouped (client_step s o out) →
  ∃ l, view_entities w t = Ok l ∧ view_entities w' t = Ok (order_step t (client_step s o out) o out l).
Proof.
  intros Hr Hop H Hside Ht Hcase. destruct (reachable_inv _ _ Hr) as [Hsv [ds HI]].
  destruct (step_inv _ _ _ _ _ _ _ HI Hsv Hop H Hside) as (Hall & ds' & HI' & _).
  destruct (inv_view w s ds t HI Ht) as (l & _ & Hv & _ & _ & _ & _).
  destruct (view_owners w s ds t l HI Ht Hv) as [Hnd Hown]. exists l. split; [done|].
  destruct (decide (keeps_order o)) as [Hk|Hk].
  { pose proof (step_order_kept _ _ _ _ _ H Hk) as HO.
    rewrite (order_kept_view _ _ _ _ HO Hv). by destruct o. }
  destruct Hcase as [?|[Hcase Hng]]; [done|].
  pose proof (wi_comps _ _ _ HI) as HC. destruct (proj1 (ci_reg _ _ _ _ _ _ HC t) Ht) as [m Hm].
  destruct (ci_lookup _ _ _ _ _ _ HC t m Hm) as (c & d & Hc & Hd & Hrep).
  assert (HK : keyed (cs_comps (w_comps w)) (m_index m) d.*1) by (by exists c, d).
  pose proof (keyed_view _ _ _ _ Hm HK) as Hv'. assert (d.*1 = l) as Hdl by congruence.
  destruct (decide (is_layout o)) as [Hlay|Hlay].
  - destruct o; try done. simpl in *. destruct Hop as [gs Hgs]. destruct Hside as [Hfit _]. simpl in Hfit.
    rewrite elem_of_list_to_set in Hng. unfold world_set_layout in H.
    rewrite decide_True in Hall by done. subst out.
    destruct (set_layout _ _ _ _) as [s1|? s1|] eqn:Hsl; try done. injection H as <- <-.
    destruct (set_layout_keyed _ _ _ _ _ _ _ _ _ _ t m HC (layout_built_wf _ _ Hgs) Hfit Hsl Hng Hm d Hd) as (m' & Hm' & HK').
    rewrite Hdl in HK'. by eapply keyed_view.
  - assert (Hnl : ∀ l p, o ≠ OSetLayout l p) by (by intros l0 p ->).
    destruct Hcase as [Hg|(l0 & p & ->)]; [|by destruct (Hlay I)].
    assert (Ho : outside (g_meta <$> cs_groups (w_comps w)) (m_index m)).
    { intros k gm Hk' Hcov. apply Hg. apply (ci_grp _ _ _ _ _ _ HC). by exists m, k, gm. }
    rewrite Hdl in HK.
    destruct (step_keyed w s ds o out dr w' t m l HI Hop H) as (l' & HK' & Hshape); try done.
    { intros es. by eapply allowed_not_ub. }
    { intros e He%Hown. unfold owns, s_row in He. unfold s_alive. destruct (s_map s !! e); [eauto|].
      simpl in He. rewrite lookup_empty in He. by destruct He. }
    pose proof (step_framed _ _ _ _ _ H Hnl) as [_ Hsub].
    pose proof (lookup_weaken _ _ _ _ Hm Hsub) as Hm'.
    pose proof (keyed_view _ _ _ _ Hm' HK') as Hv2. rewrite Hv2. f_equal.
    assert (Ht' : t ∈ s_reg (client_step s o out)).
    { apply (ci_reg _ _ _ _ _ _ (wi_comps _ _ _ HI')). eauto. }
    destruct (view_owners _ _ _ _ _ HI' Ht' Hv2) as [_ Hown'].
    eapply order_shape_step; try done. intros [->| ->]; done.
Qed.

(** ** Histories *)

Lemma owns_reg w s ds t e : winv w s ds → owns t s e → t ∈ s_reg s.
Proof.
  intros HI [x Hx]. apply (ci_types _ _ _ _ _ _ (wi_comps _ _ _ HI) e t x). by apply am_has_row.
Qed.

Lemma order_step_nil t s' o out : (∀ e, ¬ owns t s' e) → order_step t s' o out [] = [].
Proof.
  intros Hn. assert (∀ es, filter (owns t s') es = []) as Hf by (intros es; by apply filter_none).
  destruct o; simpl; rewrite ?Hf; try done; try (by case_decide).
  rewrite decide_False; [done|]. intros [? _]. by eapply Hn.
Qed.

Lemma no_owners_view w s ds t : winv w s ds → t ∈ s_reg s → (∀ e, ¬ owns t s e) → view_entities w t = Ok [].
Proof.
  intros HI Ht Hn. destruct (inv_view w s ds t HI Ht) as (l & _ & Hv & _). rewrite Hv. f_equal.
  destruct (view_owners w s ds t l HI Ht Hv) as [_ Hown]. destruct l as [|e l]; [done|]. exfalso. apply (Hn e), Hown. left.
Qed.

Lemma order_run_history t w0 s0 evs w s :
  built w0 s0 → never_grouped t s0 evs → history good_side w0 s0 evs w s → t ∈ s_reg s →
  view_entities w t = Ok (order_run t s0 evs).2.
Proof.
  intros Hb [Hg0 Hl] Hh Ht.
  assert (Hr : reachable w0 s0) by (exists [], w0, s0; split; [done|constructor]).
  assert ((order_run t s0 evs).1 = s ∧
          (if decide (t ∈ s_reg s) then view_entities w t = Ok (order_run t s0 evs).2 else (order_run t s0 evs).2 = []) ∧
          t ∉ s_grouped s ∧ reachable w s) as (_ & H & _); [|by rewrite decide_True in H].
  clear Ht. induction Hh as [|evs w1 s1 o out dr w2 Hh IH Hop Hstep Hside].
  - split_and!; try done. case_decide as Ht; [|done]. destruct (reachable_inv _ _ Hr) as [_ [ds HI]].
    eapply no_owners_view; [done|done|]. intros e Ho. destruct Hb as (gs & lay & ts & _ & _ & ->).
    unfold owns, s_row in Ho. simpl in Ho. rewrite lookup_empty in Ho. simpl in Ho. rewrite lookup_empty in Ho. by destruct Ho.
  - destruct IH as (H1 & H2 & H4 & H5).
    { intros l p out' dr' Hin. eapply Hl, elem_of_app. left. exact Hin. }
    assert (Hg : t ∉ s_grouped (client_step s1 o out)).
    { rewrite client_grp. destruct o; try done. rewrite elem_of_list_to_set. eapply Hl, elem_of_app. right. by apply elem_of_list_singleton. }
    destruct (reachable_step _ _ _ _ _ _ H5 Hop Hstep Hside) as [_ Hr2].
    unfold order_run. rewrite foldl_app. simpl. fold (order_run t s0 evs). rewrite H1. split_and!; try done.
    destruct (decide (t ∈ s_reg s1)) as [Ht|Ht].
    + rewrite decide_True by (apply client_step_reg; by right).
      destruct (view_order_step w1 s1 o out dr w2 t H5 Hop Hstep Hside Ht) as (l & Hv & Hv'); [right; auto|].
      by assert (l = (order_run t s0 evs).2) as -> by congruence.
    + rewrite H2. destruct (reachable_inv _ _ H5) as [_ [ds1 HI1]]. destruct (reachable_inv _ _ Hr2) as [_ [ds2 HI2]].
      assert (Hno : ∀ e, ¬ owns t (client_step s1 o out) e).
      { intros e Ho. destruct (decide (t ∈ s_reg (client_step s1 o out))) as [Hin|Hn].
        - apply client_step_reg in Hin as [Hin|?]; [|done]. destruct o; try done.
          + simpl in Hin. subst t0. simpl in Ho. by eapply Ht, owns_reg.
          + simpl in Hin. by eapply Hl, Hin; apply elem_of_app; right; apply elem_of_list_singleton.
        - by eapply Hn, owns_reg. }
      rewrite (order_step_nil _ _ _ _ Hno). case_decide; [|done]. by eapply no_owners_view.
Qed.

(** ** Entities that are not in the storage *)

Definition untouched (e : entity) (comps : list css) (i : nat) : Prop :=
  ∃ c, comps !! i = Some c ∧ sv_contains_sparse (c_sparse c) (e_sparse e) = false.

Lemma untouched_same e comps comps' i : comps' !! i = comps !! i → untouched e comps i → untouched e comps' i.
Proof. intros H (c & Hc & Hn). exists c. by rewrite H. Qed.

Lemma move_to_untouched e n c : sv_contains_sparse (c_sparse c) (e_sparse e) = false → move_to e n c = UB.
Proof.
  unfold sv_contains_sparse, move_to, sv_get_sparse_unchecked. by destruct (c_sparse c !! e_sparse e) as [[]|].
Qed.

Lemma mapM_from_untouched e n a b : ∀ comps off comps' i,
  mapM_from (move_to e n) a b off comps = Ok comps' → untouched e comps i → comps' !! i = comps !! i.
Proof.
  induction comps as [|x l IH]; intros off l' i; cbn [mapM_from]; [by intros [= <-]|].
  intros H (c & Hc & Hn). destruct (if _ && _ then move_to e n x else Ok x) as [x'| |] eqn:Hx; [|done..]. simpl in H.
  destruct (mapM_from _ a b (S off) l) as [l1| |] eqn:Hl; [|done..]. simpl in H. injection H as <-.
  destruct i as [|i]; simpl in *.
  - injection Hc as ->. rewrite move_to_untouched in Hx by done. destruct (_ && _); congruence.
  - eapply IH; [done|]. by exists c.
Qed.

Lemma on_range_untouched e n a b comps comps' i :
  on_range (move_to e n) a b comps = Ok comps' → untouched e comps i → comps' !! i = comps !! i.
Proof. unfold on_range. destruct (range_ok _ _ _); [|done]. apply mapM_from_untouched. Qed.

Lemma group_loop_untouched i fuel : ∀ comps gs mask e r,
  untouched e comps i → group_loop fuel comps gs mask e = Ok r → r.1 !! i = comps !! i.
Proof.
  induction fuel as [|fuel IH]; intros comps gs mask e r Ho; cbn [group_loop];
    destruct (bit_next mask) as [[k mask']|]; try done; try (intros H; inversion H; done).
  destruct (gs !! k) as [g|] eqn:Hk; [|done].
  destruct (status_of comps g e) as [[]| |]; try done; cbn [mbind res_bind]; try by apply IH.
  unfold group_components. destruct (on_range _ _ _ _) as [comps'| |] eqn:Hr; try done. cbn [mbind res_bind].
  pose proof (on_range_untouched _ _ _ _ _ _ i Hr Ho) as Heq.
  intros H. apply IH in H; simpl in *; [congruence|]. by eapply untouched_same.
Qed.

Lemma ungroup_one_untouched i comps gs k g e r :
  untouched e comps i → ungroup_one comps gs k g e = Ok r → r.1 !! i = comps !! i.
Proof.
  intros Ho. unfold ungroup_one. destruct (status_of comps g e) as [[]| |]; try done; cbn [mbind res_bind];
    try (intros H; inversion H; done).
  unfold ungroup_components. destruct (g_len g); [done|]. destruct (on_range _ _ _ _) as [comps'| |] eqn:Hr; try done.
  cbn [mbind res_bind]. intros H. inversion H. simpl. by eapply on_range_untouched.
Qed.

Lemma ungroup_loop_untouched i fuel : ∀ comps gs mask e r,
  untouched e comps i → ungroup_loop fuel comps gs mask e = Ok r → r.1 !! i = comps !! i.
Proof.
  induction fuel as [|fuel IH]; intros comps gs mask e r Ho; cbn [ungroup_loop];
    destruct (bit_next_back mask) as [[k mask']|]; try done; try (intros H; inversion H; done).
  destruct (gs !! k) as [g|] eqn:Hk; [|done].
  destruct (ungroup_one comps gs k g e) as [r1| |] eqn:H1; try done. cbn [mbind res_bind].
  pose proof (ungroup_one_untouched i _ _ _ _ _ _ Ho H1) as Heq.
  intros H. apply IH in H; [congruence|]. by eapply untouched_same.
Qed.

Lemma ungroup_all_untouched i k : ∀ comps gs e r,
  untouched e comps i → ungroup_all_from k comps gs e = Ok r → r.1 !! i = comps !! i.
Proof.
  induction k as [|k IH]; intros comps gs e r Ho; cbn [ungroup_all_from]; [intros H; inversion H; done|].
  destruct (gs !! k) as [g|] eqn:Hk; [|done].
  destruct (ungroup_one comps gs k g e) as [r1| |] eqn:H1; try done. cbn [mbind res_bind].
  pose proof (ungroup_one_untouched i _ _ _ _ _ _ Ho H1) as Heq.
  intros H. apply IH in H; [congruence|]. by eapply untouched_same.
Qed.

Lemma do_group_untouched i comps gs mask e r :
  untouched e comps i → do_group comps gs mask e = Ok r → r.1 !! i = comps !! i.
Proof. unfold do_group. apply group_loop_untouched. Qed.

Lemma do_ungroup_untouched i comps gs mask e r :
  untouched e comps i → do_ungroup comps gs mask e = Ok r → r.1 !! i = comps !! i.
Proof. unfold do_ungroup. apply ungroup_loop_untouched. Qed.

Lemma group_each_untouched i mask : ∀ es comps gs r,
  (∀ e, e ∈ es → untouched e comps i) → group_each comps gs mask es = Ok r → r.1 !! i = comps !! i.
Proof.
  induction es as [|e es IH]; intros comps gs r Ho; cbn [group_each]; [intros H; inversion H; done|].
  destruct (do_group comps gs mask e) as [r1| |] eqn:H1; try done.
  assert (Heq : r1.1 !! i = comps !! i) by (eapply do_group_untouched; [apply Ho; left|exact H1]).
  intros H. apply IH in H; [congruence|]. intros e' He'. eapply untouched_same; [exact Heq|]. apply Ho. by right.
Qed.

Lemma group_if_untouched i s mask e s' :
  untouched e (cs_comps s) i → group_if s mask e = Ok s' → cs_comps s' !! i = cs_comps s !! i.
Proof.
  intros Ho. unfold group_if. destruct (mask =? 0)%N; [intros H; inversion H; done|].
  destruct (do_group _ _ _ _) as [r| |] eqn:Hg; try done. intros H. inversion H. exact (do_group_untouched i _ _ _ _ _ Ho Hg).
Qed.

Lemma ungroup_if_untouched i s mask e s' :
  untouched e (cs_comps s) i → ungroup_if s mask e = Ok s' → cs_comps s' !! i = cs_comps s !! i.
Proof.
  intros Ho. unfold ungroup_if. destruct (mask =? 0)%N; [intros H; inversion H; done|].
  destruct (do_ungroup _ _ _ _) as [r| |] eqn:Hg; try done. intros H. inversion H. exact (do_ungroup_untouched i _ _ _ _ _ Ho Hg).
Qed.

Lemma keyed_untouched comps i l e : keyed comps i l → (∀ e', e' ∈ l → e_index e' = e_index e → e' = e) → e ∉ l → untouched e comps i.
Proof.
  intros (c & d & Hc & Hr & <-) Hu Hn. exists c. split; [done|]. apply not_true_is_false.
  intros (e' & He' & Heq)%(sv_contains_sparse_elem _ _ (cr_sparse _ _ Hr)). apply Hn.
  rewrite <-(Hu e'); [done|done|]. by apply N2Nat.inj.
Qed.

(** A handle in no storage. *)
Lemma status_of_nowhere comps g e st : (∀ i c, comps !! i = Some c → sv_get (c_sparse c) e = None) →
  status_of comps g e = Ok st → st = Incomplete.
Proof.
  intros Hn. unfold status_of. destruct (range_ok _ _ _); [|done]. unfold get_group_status.
  destruct (take _ _) as [|c cs] eqn:Ht; [done|].
  assert (Hc : ∃ i, comps !! i = Some c).
  { exists (g_nstart (g_meta g)). assert (H : take (g_end (g_meta g) - g_nstart (g_meta g)) (drop (g_nstart (g_meta g)) comps) !! 0 = Some c) by (by rewrite Ht).
    apply lookup_take_Some in H as [H _]. by rewrite lookup_drop, Nat.add_0_r in H. }
  destruct Hc as [i Hc]. rewrite (Hn i c Hc). by intros [= <-].
Qed.

Lemma ungroup_loop_nowhere fuel : ∀ comps gs mask e r, (∀ i c, comps !! i = Some c → sv_get (c_sparse c) e = None) →
  ungroup_loop fuel comps gs mask e = Ok r → r.1 = comps.
Proof.
  induction fuel as [|fuel IH]; intros comps gs mask e r Ho; cbn [ungroup_loop];
    destruct (bit_next_back mask) as [[k mask']|]; try done; try (intros H; inversion H; done).
  destruct (gs !! k) as [g|] eqn:Hk; [|done]. unfold ungroup_one.
  destruct (status_of comps g e) as [st| |] eqn:Hst; try done. apply status_of_nowhere in Hst as ->; [|done].
  cbn [mbind res_bind fst snd]. by apply IH.
Qed.

Lemma do_ungroup_nowhere comps gs mask e r : (∀ i c, comps !! i = Some c → sv_get (c_sparse c) e = None) →
  do_ungroup comps gs mask e = Ok r → r.1 = comps.
Proof. unfold do_ungroup. apply ungroup_loop_nowhere. Qed.

Lemma ungroup_if_nowhere s mask e s' : (∀ i c, cs_comps s !! i = Some c → sv_get (c_sparse c) e = None) →
  ungroup_if s mask e = Ok s' → cs_comps s' = cs_comps s.
Proof.
  intros Ho. unfold ungroup_if. destruct (mask =? 0)%N; [intros H; inversion H; done|].
  destruct (do_ungroup _ _ _ _) as [r| |] eqn:Hg; try done. intros H. inversion H. exact (do_ungroup_nowhere _ _ _ _ _ Ho Hg).
Qed.

(** Types not in the call. *)
Lemma insert_loop_apart mt e t m cs : mt !! t = Some m →
  (∀ t' m', mt !! t' = Some m' → m_index m' = m_index m → t' = t) → t ∉ cs.*1 → ∀ comps mask,
  match insert_loop mt comps mask e cs with
  | InsOk _ comps' _ | InsPanic _ comps' => comps' !! m_index m = comps !! m_index m
  | InsUB => True
  end.
Proof.
  intros Ht Hinj. induction cs as [|[t' v] cs IH]; intros Hn comps mask; cbn [insert_loop]; [done|].
  simpl in Hn. apply not_elem_of_cons in Hn as [Hne Hn].
  destruct (mt !! t') as [m'|] eqn:Hm'; [|done]. destruct (comps !! m_index m') as [c|] eqn:Hc; [|done].
  destruct (css_insert c e v) as [[c' old]| |] eqn:Hi; [|done..]. cbv zeta.
  specialize (IH Hn (<[m_index m' := c']> comps) (gm_or mask (m_insert m'))).
  rewrite list_lookup_insert_ne in IH by (intros Heq; apply Hne; symmetry; by eapply Hinj).
  destruct (insert_loop _ _ _ _ _); done.
Qed.

Lemma set_insert_apart w e cs r gh out dr w' t m l :
  set_insert w e cs r gh = (out, dr, w') → (∀ es, out ≠ UndefBeh es) →
  cs_meta (w_comps w) !! t = Some m →
  (∀ t' m', cs_meta (w_comps w) !! t' = Some m' → m_index m' = m_index m → t' = t) → t ∉ cs.*1 →
  keyed (cs_comps (w_comps w)) (m_index m) l → fits e l → e ∉ l →
  cs_comps (w_comps w') !! m_index m = cs_comps (w_comps w) !! m_index m.
Proof.
  intros H Hub Hm Hinj Hn HK Hf Hel. unfold set_insert in H.
  pose proof (insert_loop_apart (cs_meta (w_comps w)) e t m cs Hm Hinj Hn (cs_comps (w_comps w)) 0) as HL.
  destruct (insert_loop _ _ _ _ _) as [d comps mask|d comps|].
  - destruct (group_if _ _ _) as [s1| |] eqn:Hg; injection H as <- <- <-; [|by destruct (Hub gh)..].
    apply (group_if_untouched (m_index m)) in Hg; simpl in *; [congruence|].
    eapply keyed_untouched; [by eapply keyed_same|apply Hf|done].
  - injection H as <- <- <-. done.
  - injection H as <- <- <-. by destruct (Hub gh).
Qed.

Lemma remove_each_keeps e i l is_ : ∀ comps comps' vs,
  keyed comps i l → e ∉ l → remove_each comps e is_ = Ok (comps', vs) → keyed comps' i l.
Proof.
  intros comps comps' vs HK Hn H. destruct (remove_each_keyed _ _ _ _ _ _ _ HK H) as [?|HK']; [done|].
  by rewrite fill_hole_absent in HK'.
Qed.

Lemma step_apart w s ds o out dr w' t m l :
  winv w s ds → op_ok o → step w o = (out, dr, w') → (∀ es, out ≠ UndefBeh es) → apart t s o →
  cs_meta (w_comps w) !! t = Some m → keyed (cs_comps (w_comps w)) (m_index m) l →
  (∀ e, e ∈ l ↔ owns t s e) → (∀ e, owns t s e → s_alive s e) →
  keyed (cs_comps (w_comps w')) (m_index m) l.
Proof.
  intros [HE HC] Hop H Hub Ha Hm HK Hown Hal.
  assert (Hinj : ∀ t' m', cs_meta (w_comps w) !! t' = Some m' → m_index m' = m_index m → t' = t).
  { intros t' m' Ht' Heq. by eapply (st_inj _ _ _ (ci_static _ _ _ _ _ _ HC)). }
  assert (Hl : ∀ e, e ∈ l → s_alive s e) by (intros e He%Hown; auto).
  assert (Hunt : ∀ e, s_alive s e → ¬ owns t s e → untouched e (cs_comps (w_comps w)) (m_index m)).
  { intros e He Hn. destruct (alive_fits _ _ e l HE He Hl) as (_ & _ & Hu). eapply keyed_untouched; [done|done|by rewrite Hown]. }
  assert (Hnowhere : ∀ e, ¬ s_alive s e → ∀ i c, cs_comps (w_comps w) !! i = Some c → sv_get (c_sparse c) e = None).
  { intros e He i c Hc. destruct (Forall2_lookup_l _ _ _ _ _ (ci_rep _ _ _ _ _ _ HC) Hc) as (d & Hd & Hr).
    apply (sv_get_None _ _ (cr_sparse _ _ Hr)). intros Hin. apply He. unfold s_alive.
    eapply (ci_has_alive _ _ _ _ _ _ HC i). by exists d. }
  assert (Hung : ∀ e mask s1, ¬ owns t s e → ungroup_if (w_comps w) mask e = Ok s1 → keyed (cs_comps s1) (m_index m) l).
  { intros e mask s1 Hn Hu. destruct (decide (s_alive s e)) as [Hae|Hae].
    - apply (ungroup_if_untouched (m_index m)) in Hu; [|by apply Hunt]. by eapply keyed_same.
    - apply ungroup_if_nowhere in Hu; [|by apply Hnowhere]. by rewrite Hu. }
  destruct o; cbn [step] in H; simpl in Ha; try done.
  - (* create *)
    unfold world_create in H. destruct (estore_create_ok _ _ HE) as [(e & st' & He & Hnew & Hes & HE')|[He _]]; rewrite He in H.
    2:{ injection H as <- <- <-. done. }
    pose proof (new_handle_dead _ _ _ HE Hnew) as Hn. specialize (HE' ∅).
    assert (Hnl' : e ∉ l). { intros [? ?]%Hl. congruence. }
    assert (Hf : fits e l).
    { eapply alive_fits; [exact HE'| |].
      - unfold s_alive. simpl. rewrite lookup_insert. eauto.
      - intros e' He'%Hl. unfold s_alive. simpl. rewrite lookup_insert_is_Some. destruct (decide (e = e')); [by left|by right]. }
    eapply keyed_same; [|done]. exact (set_insert_apart _ _ _ _ _ _ _ _ t m l H Hub Hm Hinj Ha HK Hf Hnl').
  - (* extend *)
    unfold set_extend in H. destruct (lookup_metas _ _ _) as [[is_ mask]|] eqn:Hlm.
    2:{ injection H as <- <- <-. done. }
    apply lookup_metas_Some in Hlm as [Hidx _].
    pose proof (extend_rows_keyed (cs_meta (w_comps w)) t m ts is_ rows Hm Hinj Hidx Hop s (w_ents w) (cs_comps (w_comps w)) l HE Hl HK) as HX.
    destruct (extend_rows _ _ _ _) as [d ents comps new|d ents comps new|].
    + destruct HX as (Hsl & HK' & Hdead). rewrite decide_False in HK' by done. destruct ends_in_panic; [by injection H as <- <- <-|].
      assert (Hdrop : drop (length (estore_slice (w_ents w))) (estore_slice ents) = new) by (by rewrite Hsl, drop_app).
      destruct (_ <=? _); [|injection H as <- <- <-; by destruct (Hub new)]. rewrite Hdrop in H.
      destruct (mask =? 0)%N; [by injection H as <- <- <-|].
      destruct (group_each _ _ _ _) as [[comps' gs']| |] eqn:Hg; injection H as <- <- <-; [|by destruct (Hub new)..].
      apply (group_each_untouched (m_index m)) in Hg; [by eapply keyed_same|].
      intros e He. destruct (Hdead e He) as [Hd Hf]. eapply keyed_untouched; [done|apply Hf|]. intros Hin. by apply Hd, Hl.
    + destruct HX as (Hsl & HK' & Hdead). rewrite decide_False in HK' by done. by injection H as <- <- <-.
    + injection H as <- <- <-. by destruct (Hub []).
  - (* destroy *)
    unfold world_destroy in H. destruct (decide (s_alive s e)) as [Hae|Hae].
    2:{ rewrite (estore_remove_dead _ _ e HE Hae) in H. by injection H as <- <- <-. }
    destruct (estore_remove_ok _ _ e HE Hae) as (st' & Hrm & _). rewrite Hrm in H.
    unfold strip in H. destruct (ungroup_all _ _ _) as [r| |] eqn:Hu; cbn [mbind res_bind] in H.
    2,3: injection H as <- <- <-; by destruct (Hub []).
    unfold ungroup_all in Hu. apply (ungroup_all_untouched (m_index m)) in Hu; [|by apply Hunt].
    destruct (delete_each _ _) as [[comps vs]| |] eqn:Hd; cbn [mbind res_bind fst snd] in H.
    2,3: injection H as <- <- <-; by destruct (Hub []).
    injection H as <- <- <-. simpl. pose proof (keyed_same _ _ _ _ Hu HK) as HK1.
    destruct (delete_each_keyed _ _ _ _ _ _ HK1 Hd) as [?|HK2]; [done|].
    rewrite fill_hole_absent in HK2; [done|]. by rewrite Hown.
  - (* insert *)
    unfold world_insert in H. rewrite (estore_contains_alive _ _ e HE) in H. destruct Ha as [Ha1 Ha2].
    destruct (bool_decide_reflect (s_alive s e)) as [Hae|Hn]; [|by injection H as <- <- <-].
    eapply keyed_same; [|done]. eapply set_insert_apart; [exact H|done|done|done|done|done|by eapply alive_fits|by rewrite Hown].
  - (* remove *)
    unfold set_remove in H. destruct (lookup_metas _ _ _) as [[is_ mask]|]; [|by injection H as <- <- <-].
    destruct (ungroup_if _ _ _) as [s1| |] eqn:Hu; [|injection H as <- <- <-; by destruct (Hub [])..].
    destruct (remove_each _ _ _) as [[comps vs]| |] eqn:Hd; injection H as <- <- <-; [|by destruct (Hub [])..].
    simpl. eapply remove_each_keeps; [by eapply Hung|by rewrite Hown|done].
  - (* delete *)
    unfold set_delete in H. destruct (lookup_metas _ _ _) as [[is_ mask]|]; [|by injection H as <- <- <-].
    destruct (ungroup_if _ _ _) as [s1| |] eqn:Hu; [|injection H as <- <- <-; by destruct (Hub [])..].
    rewrite delete_list_remove_each in H.
    destruct (remove_each _ _ _) as [[comps vs]| |] eqn:Hd; injection H as <- <- <-; [|by destruct (Hub [])..].
    simpl. eapply remove_each_keeps; [by eapply Hung|by rewrite Hown|done].
Qed.

Lemma owns_alive t s e : owns t s e → s_alive s e.
Proof.
  intros Ho. unfold owns, s_row in Ho. unfold s_alive. destruct (s_map s !! e); [eauto|].
  simpl in Ho. rewrite lookup_empty in Ho. by destruct Ho.
Qed.

Lemma view_apart w s o out dr w' t :
  reachable w s → op_ok o → step w o = (out, dr, w') → good_side s o out → t ∈ s_reg s → apart t s o →
  ∃ l, view_entities w t = Ok l ∧ view_entities w' t = Ok l.
Proof.
  intros Hr Hop H Hside Ht Ha. destruct (reachable_inv _ _ Hr) as [Hsv [ds HI]].
  destruct (step_inv _ _ _ _ _ _ _ HI Hsv Hop H Hside) as (Hall & _).
  destruct (inv_view w s ds t HI Ht) as (l & _ & Hv & _).
  destruct (view_owners w s ds t l HI Ht Hv) as [Hnd Hown]. exists l. split; [done|].
  pose proof (wi_comps _ _ _ HI) as HC. destruct (proj1 (ci_reg _ _ _ _ _ _ HC t) Ht) as [m Hm].
  destruct (ci_lookup _ _ _ _ _ _ HC t m Hm) as (c & d & Hc & Hd & Hrep).
  assert (HK : keyed (cs_comps (w_comps w)) (m_index m) d.*1) by (by exists c, d).
  pose proof (keyed_view _ _ _ _ Hm HK) as Hv'. assert (d.*1 = l) as Hdl by congruence. rewrite Hdl in HK.
  assert (Hnl : ∀ l p, o ≠ OSetLayout l p) by (intros l0 p ->; done).
  pose proof (step_framed _ _ _ _ _ H Hnl) as [_ Hsub].
  pose proof (lookup_weaken _ _ _ _ Hm Hsub) as Hm'.
  eapply keyed_view; [done|]. eapply step_apart; try done.
  - intros es. by eapply allowed_not_ub.
  - apply owns_alive.
Qed.
