(** Which entities are in the packed prefix of a group, exactly. *)
From Verif Require Import Base SparseVecM EntityM CssM MaskM LayoutM GroupM StorageM WorldM QueryM StepM.
From Verif Require Import Lists SparseProofs CssProofs MaskProofs GroupProofs Spec SpecMore SpecLayout SpecGroups SpecOrder SpecMembers
  EntityProofs LayoutProofs StorageProofs StoreOps LayoutOps WorldProofs QueryProofs History Grouped ShapeFacts OrderFacts.

(** [e] is in the packed prefix of the group number [k]. *)
Definition member (s : cstore) (k : nat) (e : entity) : Prop :=
  ∃ g c l, cs_groups s !! k = Some g ∧ cs_comps s !! g_start (g_meta g) = Some c ∧ css_entities c = Ok l ∧
    e ∈ take (g_len g) l.

Lemma member_mem s ds k e : Forall2 css_rep (cs_comps s) ds → member s k e ↔ mem (cs_groups s) ds k e.
Proof.
  intros HF. unfold member, mem. split.
  - intros (g & c & l & Hg & Hc & Hl & He). destruct (Forall2_lookup_l _ _ _ _ _ HF Hc) as (d & Hd & Hr).
    exists g, d. rewrite (css_entities_ok _ _ Hr) in Hl. injection Hl as <-. done.
  - intros (g & d & Hg & Hd & He). destruct (Forall2_lookup_r _ _ _ _ _ HF Hd) as (c & Hc & Hr).
    exists g, c, d.*1. split_and!; try done. by apply css_entities_ok.
Qed.

Lemma NoDup_take {A} n (l : list A) : NoDup l → NoDup (take n l).
Proof. intros H. rewrite <-(take_drop n l) in H. by apply NoDup_app in H as [? _]. Qed.

(** ** Groups that grouping leaves alone *)

Lemma group_loop_len k fuel : ∀ comps gs mask e r,
  bit mask k = false → group_loop fuel comps gs mask e = Ok r → r.2 !! k = gs !! k.
Proof.
  induction fuel as [|fuel IH]; intros comps gs mask e r Hk; cbn [group_loop];
    destruct (bit_next mask) as [[j mask']|] eqn:Eb; try done; try (intros H; inversion H; done).
  apply bit_next_Some in Eb as (Hj & _ & Hm'). assert (j ≠ k) by (intros ->; congruence).
  assert (Hm : bit mask' k = false) by (by rewrite Hm', Hk).
  destruct (gs !! j) as [g|] eqn:Hg; [|done].
  destruct (status_of comps g e) as [[]| |]; try done; cbn [mbind res_bind].
  - apply IH. by rewrite bit_land, Hm.
  - unfold group_components. destruct (on_range _ _ _ _) as [comps'| |]; try done. cbn [mbind res_bind fst snd].
    intros H'. rewrite (IH _ _ _ _ _ Hm H'). by rewrite list_lookup_insert_ne.
  - by apply IH.
Qed.

Lemma do_group_len k comps gs mask e r :
  bit mask k = false → do_group comps gs mask e = Ok r → r.2 !! k = gs !! k.
Proof. unfold do_group. apply group_loop_len. Qed.

Lemma same_but_one (P Q : list entity) e :
  NoDup P → NoDup Q → length P = length Q → (∀ e', e' ≠ e → e' ∈ P ↔ e' ∈ Q) → e ∈ P → e ∈ Q.
Proof.
  intros HP HQ Hl Ho He. destruct (decide (e ∈ Q)) as [|Hn]; [done|]. exfalso.
  assert (submseteq (e :: Q) P) as Hs.
  { apply NoDup_submseteq; [by constructor|]. intros x [->|Hx]%elem_of_cons; [done|]. apply Ho; [|done]. by intros ->. }
  apply submseteq_length in Hs. simpl in Hs. lia.
Qed.

Lemma regrouped_len e gs ds gs' ds' k :
  dnodup ds → dnodup ds' → ginv gs ds → regrouped e gs ds gs' ds' → gs' !! k = gs !! k →
  mem gs' ds' k e ↔ mem gs ds k e.
Proof.
  intros Hnd Hnd' HG HR Hk.
  destruct (gs !! k) as [g|] eqn:Hg.
  2:{ unfold mem. rewrite Hg, Hk. split; by intros (? & ? & ? & _). }
  assert (HG' : ginv gs' ds') by apply HR.
  pose proof (in_group_start _ _ HG k g Hg) as Hi. pose proof (in_group_start _ _ HG' k g Hk) as Hi'.
  destruct (in_group_lookup _ _ HG k g _ Hg Hi) as [d Hd]. destruct (in_group_lookup _ _ HG' k g _ Hk Hi') as [d' Hd'].
  assert (Hm : ∀ e', mem gs ds k e' ↔ e' ∈ take (g_len g) d.*1) by (intros e'; by eapply mem_at).
  assert (Hm' : ∀ e', mem gs' ds' k e' ↔ e' ∈ take (g_len g) d'.*1) by (intros e'; by eapply mem_at).
  pose proof (gi_len _ _ HG k g _ _ Hg Hi Hd). pose proof (gi_len _ _ HG' k g _ _ Hk Hi' Hd').
  assert (NoDup (take (g_len g) d.*1)) by (apply NoDup_take; by eapply Hnd).
  assert (NoDup (take (g_len g) d'.*1)) by (apply NoDup_take; by eapply Hnd').
  assert (length (take (g_len g) d.*1) = length (take (g_len g) d'.*1)) by (rewrite !take_length, !fmap_length; lia).
  assert (Ho : ∀ e', e' ≠ e → e' ∈ take (g_len g) d.*1 ↔ e' ∈ take (g_len g) d'.*1).
  { intros e' Hne. rewrite <-Hm, <-Hm'. symmetry. by apply (rg_other _ _ _ _ _ HR). }
  rewrite Hm, Hm'. split; eapply same_but_one; try done. intros e' Hne. symmetry. by apply Ho.
Qed.

(** ** Grouping *)

Definition has_entity (s : cstore) (i : nat) (e : entity) : Prop :=
  ∃ c l, cs_comps s !! i = Some c ∧ css_entities c = Ok l ∧ e ∈ l.

(** [e] has all components of the group number [k]. *)
Definition full (s : cstore) (k : nat) (e : entity) : Prop :=
  ∃ g, cs_groups s !! k = Some g ∧ ∀ i, in_group g i → has_entity s i e.

Lemma has_entity_has s ds i e : Forall2 css_rep (cs_comps s) ds → has_entity s i e ↔ has ds i e.
Proof.
  intros HF. split.
  - intros (c & l & Hc & Hl & He). destruct (Forall2_lookup_l _ _ _ _ _ HF Hc) as (d & Hd & Hr).
    exists d. rewrite (css_entities_ok _ _ Hr) in Hl. injection Hl as <-. done.
  - intros (d & Hd & He). destruct (Forall2_lookup_r _ _ _ _ _ HF Hd) as (c & Hc & Hr).
    exists c, d.*1. split_and!; try done. by apply css_entities_ok.
Qed.

Lemma full_has s ds k e : Forall2 css_rep (cs_comps s) ds →
  full s k e ↔ ∃ g, cs_groups s !! k = Some g ∧ ∀ i, in_group g i → has ds i e.
Proof. intros HF. unfold full. by setoid_rewrite (has_entity_has s ds _ _ HF). Qed.

Lemma full_perm s s' ds ds' k e :
  Forall2 css_rep (cs_comps s) ds → Forall2 css_rep (cs_comps s') ds' → Forall2 (≡ₚ) ds ds' →
  g_meta <$> cs_groups s' = g_meta <$> cs_groups s → full s' k e ↔ full s k e.
Proof.
  intros HF HF' Hp Hm. rewrite (full_has s ds), (full_has s' ds') by done.
  split; intros (g & Hg & H).
  - destruct (same_meta_lookup (cs_groups s') (cs_groups s) k g (eq_sym Hm) Hg) as (g1 & Hg1 & E). exists g1. split; [done|].
    intros i Hi. rewrite <-(perm_has ds ds' _ _ Hp). apply H. unfold in_group in *. by rewrite <-E.
  - destruct (same_meta_lookup (cs_groups s) (cs_groups s') k g Hm Hg) as (g1 & Hg1 & E). exists g1. split; [done|].
    intros i Hi. rewrite (perm_has ds ds' _ _ Hp). apply H. unfold in_group in *. by rewrite <-E.
Qed.

Lemma member_full s ds am reg grp loose k e : cinv s ds am reg grp loose → member s k e → full s k e.
Proof.
  intros HI. rewrite (member_mem s ds), (full_has s ds) by apply HI. intros Hm. pose proof Hm as (g & d & Hg & _).
  exists g. split; [done|]. intros i Hi. by eapply (mem_has _ _ (ci_ginv _ _ _ _ _ _ HI) k g).
Qed.

Lemma full_member s ds am reg grp loose k e : cinv s ds am reg grp loose → e ∉ loose → full s k e → member s k e.
Proof.
  intros HI Hn. rewrite (member_mem s ds), (full_has s ds) by apply HI. intros (g & Hg & H).
  by apply (ci_complete _ _ _ _ _ _ HI k g).
Qed.

(** The members are those before, or the entities [es] are filed anew under the groups of [mask]. *)
Definition kept (s s' : cstore) : Prop := ∀ k e, member s' k e ↔ member s k e.
Definition refiled (mask : N) (es : list entity) (s s' : cstore) : Prop :=
  ∀ k e, member s' k e ↔ (e ∈ es ∧ bit mask k = true ∧ full s' k e) ∨ (¬ (e ∈ es ∧ bit mask k = true) ∧ member s k e).

Section group.
  Context (am : amap) (reg grp : gset tid).

  Lemma group_members s ds loose mask e s' :
    cinv s ds am reg grp loose → am_uniform grp am → closed_down (cs_groups s) mask → group_if s mask e = Ok s' →
    (∃ ds', cinv s' ds' am reg grp loose ∧ Forall2 (≡ₚ) ds ds' ∧ g_meta <$> cs_groups s' = g_meta <$> cs_groups s) ∧
    refiled mask [e] s s'.
  Proof using Type.
    intros HI Hu Hcl Hg. destruct (ci_group _ _ _ _ _ _ HI mask e Hu Hcl) as (s1 & ds1 & Hg1 & _ & HR & HI1 & Hmono & Hset).
    assert (s1 = s') as -> by congruence. clear Hg1. split.
    { exists ds1. split_and!; [done|apply HR|apply HR]. }
    intros k e'. rewrite elem_of_list_singleton.
    rewrite (full_perm s s' ds ds1) by (apply HI || apply HI1 || apply HR).
    rewrite (full_has s ds) by apply HI.
    rewrite (member_mem s' ds1), (member_mem s ds) by (apply HI || apply HI1).
    destruct (decide (e' = e)) as [->|Hne].
    2:{ rewrite (rg_other _ _ _ _ _ HR) by done. naive_solver. }
    destruct (bit mask k) eqn:Hb.
    - split; [|intros [(_ & _ & (g & Hk & H))|[H _]]; [by eapply Hset|by destruct H]].
      intros Hm. left. split_and!; [done..|]. pose proof Hm as (g' & _ & Hk' & _).
      destruct (same_meta_lookup (cs_groups s') (cs_groups s) k g' (eq_sym (rg_meta _ _ _ _ _ HR)) Hk') as (g & Hk & E).
      exists g. split; [done|]. intros i Hi. rewrite <-(perm_has ds ds1) by apply HR.
      eapply (mem_has _ _ (ci_ginv _ _ _ _ _ _ HI1) k g'); [done| |done]. unfold in_group in *. by rewrite <-E.
    - assert (cs_groups s' !! k = cs_groups s !! k) as Hlen.
      { rewrite group_if_eq in Hg. destruct (do_group _ _ _ _) as [r| |] eqn:Hd; try done. simpl in Hg.
        injection Hg as <-. simpl. by eapply do_group_len. }
      rewrite (regrouped_len e (cs_groups s) ds (cs_groups s') ds1 k); [naive_solver| | | |done|done].
      + eapply css_rep_dnodup, HI.
      + eapply css_rep_dnodup, HI1.
      + apply HI.
  Qed.

  Lemma group_each_members mask : ∀ es s ds loose comps' gs',
    cinv s ds am reg grp loose → am_uniform grp am → closed_down (cs_groups s) mask →
    group_each (cs_comps s) (cs_groups s) mask es = Ok (comps', gs') →
    let s' := CStore gs' (cs_meta s) comps' in
    (∃ ds', cinv s' ds' am reg grp loose ∧ Forall2 (≡ₚ) ds ds' ∧ g_meta <$> cs_groups s' = g_meta <$> cs_groups s) ∧
    refiled mask es s s'.
  Proof using Type.
    induction es as [|e es IH]; intros s ds loose comps' gs' HI Hu Hcl; cbn [group_each].
    { intros [= <- <-]. destruct s. simpl. split; [by exists ds|]. intros k e'. rewrite elem_of_nil. naive_solver. }
    destruct (do_group (cs_comps s) (cs_groups s) mask e) as [[comps1 gs1]| |] eqn:Hg; [|done..]. cbn [fst snd].
    intros Hge. set (s' := CStore gs' (cs_meta s) comps'). set (s1 := CStore gs1 (cs_meta s) comps1).
    destruct (group_members s ds loose mask e s1) as [(ds1 & HI1 & Hp & Hm) Hmem]; [done..| |].
    { rewrite group_if_eq, Hg. done. }
    destruct (IH s1 ds1 loose comps' gs' HI1 Hu) as [(ds2 & HI2 & Hp2 & Hm2) Hmem2]; [by eapply closed_down_meta|done|].
    change (CStore gs' (cs_meta s1) comps') with s' in *. split.
    { exists ds2. split_and!; [done|by etrans|by rewrite Hm2]. }
    intros k e'. rewrite (Hmem2 k e'), (Hmem k e'), elem_of_list_singleton, elem_of_cons.
    rewrite (full_perm s1 s' ds1 ds2) by (apply HI1 || apply HI2 || done).
    destruct (decide (e' = e)), (decide (e' ∈ es)), (bit mask k); naive_solver.
  Qed.
End group.

(** ** The calls *)

Lemma stable_kept s ds am reg grp loose comps ds' mt :
  cinv s ds am reg grp loose → Forall2 css_rep comps ds' → stable (cs_groups s) ds ds' →
  kept s (CStore (cs_groups s) mt comps).
Proof.
  intros HI HF Hst k e. rewrite (member_mem s ds), (member_mem _ ds') by (apply HI || done).
  apply stable_mem; [apply HI|done].
Qed.

Lemma kept_refiled mask es s s1 s' : kept s s1 → refiled mask es s1 s' → refiled mask es s s'.
Proof. intros H1 H2 k e. by rewrite (H2 k e), (H1 k e). Qed.

Lemma set_insert_members w ds am reg grp loose e r cs on_ok gh out dr w' :
  cinv (w_comps w) ds am reg grp loose → am !! e = Some r → am_uniform grp (<[e := put reg cs r]> am) →
  set_insert w e cs on_ok gh = (out, dr, w') → (∀ es, out ≠ UndefBeh es) →
  (out = Panicked gh ∧ kept (w_comps w) (w_comps w')) ∨
  (out = Ret on_ok ∧ ∃ mask, union_mask (cs_meta (w_comps w)) m_insert cs.*1 mask ∧ refiled mask [e] (w_comps w) (w_comps w')).
Proof.
  intros HI He Hu H Hub. unfold set_insert in H. set (s := w_comps w) in *.
  assert (cinv s ds am reg grp ({[e]} ∪ loose)) as HL by (eapply cinv_loosen; [|done]; set_solver).
  pose proof (insert_loop_ok cs s ds am reg grp ({[e]} ∪ loose) e r 0 HL ltac:(set_solver) He) as Hi.
  destruct (insert_loop _ _ _ _ _) as [d comps mask|d comps|]; [| |done].
  - destruct Hi as (_ & Hmask & ds1 & HI1 & _ & Hst). right.
    assert (union_mask (cs_meta s) m_insert cs.*1 mask) as Hm.
    { intros j. rewrite Hmask, bit_0. naive_solver. }
    destruct (group_if _ _ _) as [s'| |] eqn:Hg; injection H as <- <- <-; [|by destruct (Hub gh)..].
    split; [done|]. exists mask. split; [done|].
    eapply kept_refiled; [|eapply group_members; [exact HI1|exact Hu| |exact Hg]].
    + eapply stable_kept; [exact HI|apply HI1|done].
    + by eapply (insert_mask_closed _ _ _ _ _ _ HI1).
  - destruct Hi as (_ & ds1 & HI1 & _ & Hst). left. injection H as <- <- <-. split; [done|].
    eapply stable_kept; [exact HI|apply HI1|done].
Qed.

Lemma set_extend_members w s ds ts rows p out dr w' :
  winv w s ds → Forall (λ r, length r = length ts) rows → same_versions (client_step s (OExtend ts rows p) out) →
  set_extend w ts rows p = (out, dr, w') → (∀ es, out ≠ UndefBeh es) →
  ((∃ es, out = Panicked es) ∧ kept (w_comps w) (w_comps w')) ∨
  (∃ es, out = Ret (REnts es) ∧ ∃ mask, union_mask (cs_meta (w_comps w)) m_insert ts mask ∧
     refiled mask es (w_comps w) (w_comps w')).
Proof.
  intros [HE HC] Hlen Hsv H Hub. unfold set_extend in H.
  destruct (lookup_metas (cs_meta (w_comps w)) m_insert ts) as [[is_ mask]|] eqn:Hl.
  2:{ injection H as <- <- <-. left. split; [by eexists|]. by intros k e. }
  assert (Hall : all_in ts (s_reg s)).
  { intros t Ht. destruct (decide (t ∈ s_reg s)); [done|].
    assert (lookup_metas (cs_meta (w_comps w)) m_insert ts = None) as Hx; [|by rewrite Hl in Hx].
    apply (lookup_metas_reg _ _ _ _ _ _ _ _ HC). intros Ha. by apply Ha in Ht. }
  destruct (lookup_metas_Some _ _ _ _ _ Hl) as [Hidx Hmask].
  assert (HC0 : cinv (CStore (cs_groups (w_comps w)) (cs_meta (w_comps w)) (cs_comps (w_comps w))) ds
    (s_map s) (s_reg s) (s_grouped s) (s_loose s)) by (by destruct (w_comps w)).
  pose proof (extend_rows_ok ts is_ _ _ _ _ Hall Hidx rows s (w_ents w) _ ds _ HE eq_refl eq_refl HC0 Hlen) as HX.
  assert (HK : ∀ ents' comps' new d, (extend_rows (w_ents w) (cs_comps (w_comps w)) is_ rows = RowsOk d ents' comps' new ∨
     extend_rows (w_ents w) (cs_comps (w_comps w)) is_ rows = RowsPanic d ents' comps' new) →
     kept (w_comps w) (CStore (cs_groups (w_comps w)) (cs_meta (w_comps w)) comps')).
  { intros ents' comps' new d Hr k e. pose proof (ci_ginv _ _ _ _ _ _ HC) as HG.
    destruct (cs_groups (w_comps w) !! k) as [g|] eqn:Hk.
    2:{ unfold member. simpl. rewrite Hk. split; by intros (? & ? & ? & ? & _). }
    pose proof (in_group_start _ _ HG k g Hk) as Hin.
    destruct (st_owner _ _ _ (ci_static _ _ _ _ _ _ HC) k (g_meta g) (g_start (g_meta g))) as (t & m & Ht & Hmi);
      [by apply ci_groups_meta|done|].
    destruct (ci_lookup _ _ _ _ _ _ HC t m Ht) as (c & d0 & Hc & Hd & Hrep).
    pose proof (extend_rows_keyed (cs_meta (w_comps w)) t m ts is_ rows Ht) as HK.
    specialize (HK ltac:(intros t' m' Ht' Heq; by eapply (st_inj _ _ _ (ci_static _ _ _ _ _ _ HC)))).
    specialize (HK Hidx Hlen s (w_ents w) (cs_comps (w_comps w)) d0.*1 HE).
    specialize (HK ltac:(intros e' He'; eapply (ci_has_alive _ _ _ _ _ _ HC (m_index m)); by exists d0) ltac:(by exists c, d0)).
    pose proof (gi_len _ _ HG k g _ _ Hk Hin ltac:(by rewrite <-Hmi)) as Hle.
    assert (∃ x, keyed comps' (m_index m) (d0.*1 ++ x)) as [x (c' & d' & Hc' & Hr' & Hd')].
    { destruct Hr as [Hr|Hr]; rewrite Hr in HK; destruct HK as (_ & HK & _); destruct (decide (t ∈ ts)); eauto;
        exists []; by rewrite app_nil_r. }
    unfold member. simpl. rewrite Hk. split.
    - intros (g1 & c1 & l & [= <-] & H1 & H2 & H3). exists g, c, d0.*1. rewrite <-Hmi in *. split_and!; [done|done|by apply css_entities_ok|].
      rewrite Hc' in H1. injection H1 as <-. rewrite (css_entities_ok _ _ Hr'), Hd' in H2. injection H2 as <-.
      rewrite take_app_le in H3; [done|]. by rewrite fmap_length.
    - intros (g1 & c1 & l & [= <-] & H1 & H2 & H3). exists g, c', d'.*1. rewrite <-Hmi in *. split_and!; [done|done|by apply css_entities_ok|].
      rewrite Hc in H1. injection H1 as <-. rewrite (css_entities_ok _ _ Hrep) in H2. injection H2 as <-.
      rewrite Hd', take_app_le; [done|]. by rewrite fmap_length. }
  destruct (extend_rows (w_ents w) (cs_comps (w_comps w)) is_ rows) as [d ents' comps' new|d ents' comps' new|]; [| |done].
  - specialize (HK ents' comps' new d ltac:(by left)).
    destruct HX as [_ (_ & H2 & _ & H4 & H5 & H6 & _ & _ & _ & _ & ds' & H11 & _)].
    destruct p. { injection H as <- <- <-. left. split; [by eexists|]. done. }
    unfold estore_slice in *. rewrite H2 in H. rewrite app_length, (proj2 (Nat.leb_le _ _)) in H by lia.
    rewrite drop_app in H. cbv zeta in H. right. destruct (N.eqb_spec mask 0) as [Hm0|Hm0].
    + injection H as <- <- <-. exists new. split; [done|]. exists mask. split; [done|]. intros k e. simpl.
      rewrite (HK k e), Hm0, bit_0. naive_solver.
    + destruct (group_each comps' _ _ _) as [[comps2 gs2]| |] eqn:Hge; injection H as <- <- <-; [|by destruct (Hub new)..].
      exists new. split; [done|]. exists mask. split; [done|]. simpl. eapply kept_refiled; [exact HK|].
      apply same_versions_uniform in Hsv. simpl in Hsv. rewrite H6 in Hsv.
      eapply (group_each_members _ _ _ mask new _ ds' _ comps2 gs2 H11 Hsv); [|done].
      by eapply (insert_mask_closed _ _ _ _ _ _ HC).
  - specialize (HK ents' comps' new d ltac:(by right)). injection H as <- <- <-. left. split; [by eexists|]. done.
Qed.

(** Ungrouping. *)
Definition unfiled (mask : N) (e : entity) (s s' : cstore) : Prop :=
  ∀ k e', member s' k e' ↔ member s k e' ∧ ¬ (e' = e ∧ bit mask k = true).

Lemma ungroup_members s ds am reg grp loose mask e s' :
  cinv s ds am reg grp loose → am_uniform grp am → closed_up (cs_groups s) mask → ungroup_if s mask e = Ok s' →
  (∃ ds', cinv s' ds' am reg grp ({[e]} ∪ loose) ∧ cs_meta s' = cs_meta s ∧
     g_meta <$> cs_groups s' = g_meta <$> cs_groups s) ∧ unfiled mask e s s'.
Proof.
  intros HI Hu Hcl Hg. destruct (ci_ungroup _ _ _ _ _ _ HI mask e Hu Hcl) as (s1 & ds1 & Hg1 & Hmt & HR & HI1 & Hmem).
  assert (s1 = s') as -> by congruence. split. { exists ds1. split_and!; [done|done|apply HR]. }
  intros k e'. rewrite (member_mem s' ds1), (member_mem s ds) by (apply HI || apply HI1).
  destruct (decide (e' = e)) as [->|Hne].
  - rewrite Hmem. destruct (bit mask k); naive_solver.
  - rewrite (rg_other _ _ _ _ _ HR) by done. naive_solver.
Qed.

Lemma set_remove_members s ds am reg grp loose e ts is_ mask s1 comps vs :
  cinv s ds am reg grp loose → am_uniform grp am → lookup_metas (cs_meta s) m_delete ts = Some (is_, mask) →
  ungroup_if s mask e = Ok s1 → remove_each (cs_comps s1) e is_ = Ok (comps, vs) →
  unfiled mask e s (CStore (cs_groups s1) (cs_meta s1) comps).
Proof.
  intros HI Hu Hlm Hug Hrm. destruct (lookup_metas_Some _ _ _ _ _ Hlm) as [Hidx Hmask].
  destruct (ungroup_members s ds am reg grp loose mask e s1 HI Hu) as [(ds1 & HI1 & Hmt & Hgm) Hun]; [|done|].
  { by eapply (delete_mask_closed _ _ _ _ _ _ HI). }
  assert (kept s1 (CStore (cs_groups s1) (cs_meta s1) comps)) as Hk.
  2:{ intros k e'. by rewrite (Hk k e'). }
  destruct (am !! e) as [r|] eqn:He.
  - destruct (remove_each_ok ts is_ s1 ds1 am reg grp ({[e]} ∪ loose) e r HI1 He) as (comps' & ds' & Hrem & HI2 & _ & Hst).
    { by rewrite Hmt. }
    { intros t m k g Hin Ht Hk Hg Hm. rewrite <-(member_mem s1 ds1) in Hm by apply HI1. apply Hun in Hm as [_ Hm].
      apply Hm. split; [done|]. rewrite Hmt in Ht.
      destruct (same_meta_lookup _ (cs_groups s) k g (eq_sym Hgm) Hk) as (g0 & Hg0 & Heq).
      eapply (delete_mask_covers _ _ _ _ _ _ HI); [done..|]. unfold in_group in *. by rewrite Heq. }
    assert (comps' = comps) as -> by congruence. eapply stable_kept; [exact HI1|apply HI2|done].
  - rewrite (remove_each_dead ts is_ s1 ds1 am reg grp ({[e]} ∪ loose) e HI1 He) in Hrm by (by rewrite Hmt).
    injection Hrm as <- <-. destruct s1. by intros k e'.
Qed.

Lemma strip_members s ds am reg grp loose e s' dr :
  cinv s ds am reg grp loose → am_uniform grp am → strip s e = Ok (s', dr) →
  ∀ k e', member s' k e' ↔ member s k e' ∧ e' ≠ e.
Proof.
  intros HI Hu H.
  destruct (ungroup_all_ok (cs_comps s) ds (cs_groups s) e) as (comps1 & gs1 & ds1 & Hun & Hrep1 & HR & Hmem);
    try apply HI; [by eapply ci_uniform|by eapply ci_consistent|].
  assert (cinv s ds am reg grp ({[e]} ∪ loose)) as HL by (eapply cinv_loosen; [|done]; set_solver).
  assert (cinv (CStore gs1 (cs_meta s) comps1) ds1 am reg grp ({[e]} ∪ loose)) as HI1.
  { eapply ci_regrouped; [done..|]. set_solver. }
  destruct (delete_each_ok e comps1 ds1 Hrep1) as (comps2 & ds2 & dr' & Hdel & Hrep2 & Hp & HW).
  unfold strip in H. rewrite Hun in H. simpl in H. rewrite Hdel in H. simpl in H. injection H as <- <-.
  pose proof (Forall2_length _ _ _ HW) as Hlen.
  assert (Hst : stable gs1 ds1 ds2).
  { split; [done|]. intros k g i d d' Hk Hi Hd Hd'.
    destruct (Forall2_lookup_lr _ _ _ _ _ _ HW Hd Hd') as [_ Hw]. apply Hw.
    - by eapply (gi_len _ _ (ci_ginv _ _ _ _ _ _ HI1)).
    - intros He. apply (Hmem k). eapply (mem_at _ _ (ci_ginv _ _ _ _ _ _ HI1)); done. }
  intros k e'. rewrite (member_mem _ ds2) by done. rewrite (member_mem s ds) by apply HI. simpl.
  rewrite (stable_mem gs1 ds1 ds2) by (done || apply HI1).
  destruct (decide (e' = e)) as [->|Hne].
  - split; [by intros ?%Hmem|by intros [_ ?]].
  - rewrite (rg_other _ _ _ _ _ HR) by done. naive_solver.
Qed.

Lemma order_kept_members s s' ds am reg grp loose :
  cinv s ds am reg grp loose → order_kept s s' → cs_groups s' = cs_groups s → kept s s'.
Proof.
  intros HI [_ Ho] Hg k e. unfold member. rewrite Hg. split.
  - intros (g & c & l & Hk & Hc & Hl & He).
    destruct (cs_comps s !! g_start (g_meta g)) as [c0|] eqn:Hc0.
    2:{ exfalso. pose proof (in_group_lookup _ _ (ci_ginv _ _ _ _ _ _ HI) k g _ Hk (in_group_start _ _ (ci_ginv _ _ _ _ _ _ HI) k g Hk)) as [d Hd].
        destruct (Forall2_lookup_r _ _ _ _ _ (ci_rep _ _ _ _ _ _ HI) Hd) as (? & ? & _). congruence. }
    destruct (Ho _ _ Hc0) as (c1 & Hc1 & E). exists g, c0, l. split_and!; try done. rewrite <-E. congruence.
  - intros (g & c & l & Hk & Hc & Hl & He). destruct (Ho _ _ Hc) as (c1 & Hc1 & E). exists g, c1, l. split_and!; try done. by rewrite E.
Qed.
