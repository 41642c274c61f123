(** Insertion, removal, grouping and clearing on the component storage. *)
From Verif Require Import Base Lists SparseVecM EntityM CssM MaskM LayoutM GroupM StorageM WorldM QueryM StepM
  SparseProofs CssProofs MaskProofs GroupProofs Spec StorageProofs.

Lemma stable_trans gs ds ds1 ds2 : stable gs ds ds1 → stable gs ds1 ds2 → stable gs ds ds2.
Proof.
  intros [Hl1 H1] [Hl2 H2]. split; [congruence|]. intros k g i d d2 Hg Hi Hd Hd2.
  assert (∃ d1, ds1 !! i = Some d1) as [d1 Hd1].
  { apply lookup_lt_is_Some_2. rewrite <-Hl2. by eapply lookup_lt_Some. }
  destruct (H1 k g i d d1) as [E1 _]; try done. destruct (H2 k g i d1 d2) as [E2 L2]; try done.
  split; [congruence|done].
Qed.

(** ** Masks *)

Definition closed_down (gs : list group) (m : N) : Prop :=
  (∀ k, bit m k = true → k < length gs) ∧
  ∀ j k gj gk, j < k → bit m k = true → gs !! j = Some gj → gs !! k = Some gk → same_family gj gk → bit m j = true.

Definition closed_up (gs : list group) (m : N) : Prop :=
  (∀ k, bit m k = true → k < length gs) ∧
  ∀ j k gj gk, j < k → bit m j = true → gs !! j = Some gj → gs !! k = Some gk → same_family gj gk → bit m k = true.

(** [m] is the union of the masks selected by [f] of the types [ts]. *)
Definition union_mask (mt : gmap tid meta) (f : meta → N) (ts : list tid) (m : N) : Prop :=
  ∀ j, bit m j = true ↔ ∃ t mm, t ∈ ts ∧ mt !! t = Some mm ∧ bit (f mm) j = true.

Section masks.
  Context (s : cstore) (ds : list dense) (am : amap) (reg grp : gset tid) (loose : gset entity).
  Context (HI : cinv s ds am reg grp loose).

  Lemma insert_mask_closed ts m :
    union_mask (cs_meta s) m_insert ts m → closed_down (cs_groups s) m.
  Proof using HI.
    intros Hm. pose proof (ci_static _ _ _ _ _ _ HI) as Hst. split.
    - intros k (t & mm & _ & Ht & Hb)%Hm. apply (st_insert _ _ _ Hst t mm k Ht) in Hb as (gj & _ & _ & Hj & _).
      apply lookup_lt_Some in Hj. by rewrite fmap_length in Hj.
    - intros j k gj gk Hjk (t & mm & Hin & Ht & Hb)%Hm Hj Hk Hsf. apply Hm. exists t, mm. split_and!; [done..|].
      apply (st_insert _ _ _ Hst t mm k Ht) in Hb as (g1 & k2 & g2 & H1 & H2 & Heq & Hc).
      apply (st_insert _ _ _ Hst t mm j Ht). exists (g_meta gj), k2, g2.
      split_and!; [by apply ci_groups_meta|done| |done..].
      apply (ci_groups_meta s) in Hk. rewrite Hk in H1. inversion H1; subst g1.
      unfold same_family in Hsf. congruence.
  Qed.

  Lemma delete_mask_closed ts m :
    union_mask (cs_meta s) m_delete ts m → closed_up (cs_groups s) m.
  Proof using HI.
    intros Hm. pose proof (ci_static _ _ _ _ _ _ HI) as Hst. split.
    - intros k (t & mm & _ & Ht & Hb)%Hm. apply (st_delete _ _ _ Hst t mm k Ht) in Hb as (gj & Hj & _).
      apply lookup_lt_Some in Hj. by rewrite fmap_length in Hj.
    - intros j k gj gk Hjk (t & mm & Hin & Ht & Hb)%Hm Hj Hk Hsf. apply Hm. exists t, mm. split_and!; [done..|].
      apply (st_delete _ _ _ Hst t mm j Ht) in Hb as (g1 & H1 & Hc).
      apply (st_delete _ _ _ Hst t mm k Ht). exists (g_meta gk). split; [by apply ci_groups_meta|].
      apply (ci_groups_meta s) in Hj as Hj'. rewrite Hj' in H1. inversion H1; subst g1.
      eapply (family_in_group (cs_groups s) ds (ci_ginv _ _ _ _ _ _ HI) j k); [lia|done..].
  Qed.

  (** The groups that contain a storage of one of the inserted types. *)
  Lemma insert_mask_covers ts m k g t mm :
    union_mask (cs_meta s) m_insert ts m → cs_groups s !! k = Some g → t ∈ ts → cs_meta s !! t = Some mm →
    in_group g (m_index mm) → bit m k = true.
  Proof using HI.
    intros Hm Hk Hin Ht Hi. apply Hm. exists t, mm. split_and!; [done..|].
    apply (st_insert _ _ _ (ci_static _ _ _ _ _ _ HI) t mm k Ht). exists (g_meta g), k, (g_meta g).
    apply (ci_groups_meta s) in Hk. split_and!; try done; apply Hi.
  Qed.

  Lemma delete_mask_covers ts m k g t mm :
    union_mask (cs_meta s) m_delete ts m → cs_groups s !! k = Some g → t ∈ ts → cs_meta s !! t = Some mm →
    in_group g (m_index mm) → bit m k = true.
  Proof using HI.
    intros Hm Hk Hin Ht Hi. apply Hm. exists t, mm. split_and!; [done..|].
    apply (st_delete _ _ _ (ci_static _ _ _ _ _ _ HI) t mm k Ht). exists (g_meta g).
    split; [by apply ci_groups_meta|apply Hi].
  Qed.
End masks.

(** ** Grouping *)

Lemma do_group_0 comps gs e : do_group comps gs 0 e = Ok (comps, gs).
Proof. done. Qed.

Lemma do_ungroup_0 comps gs e : do_ungroup comps gs 0 e = Ok (comps, gs).
Proof. done. Qed.

Lemma group_if_eq s mask e :
  group_if s mask e = match do_group (cs_comps s) (cs_groups s) mask e with
                      | Ok r => Ok (CStore r.2 (cs_meta s) r.1) | Panic => Panic | UB => UB end.
Proof. unfold group_if. destruct (N.eqb_spec mask 0); [|done]. subst. rewrite do_group_0. by destruct s. Qed.

Lemma ungroup_if_eq s mask e :
  ungroup_if s mask e = match do_ungroup (cs_comps s) (cs_groups s) mask e with
                        | Ok r => Ok (CStore r.2 (cs_meta s) r.1) | Panic => Panic | UB => UB end.
Proof. unfold ungroup_if. destruct (N.eqb_spec mask 0); [|done]. subst. rewrite do_ungroup_0. by destruct s. Qed.

Section grouping.
  Context (s : cstore) (ds : list dense) (am : amap) (reg grp : gset tid) (loose : gset entity).
  Context (HI : cinv s ds am reg grp loose).

  Lemma ci_regrouped e gs' ds' comps' :
    regrouped e (cs_groups s) ds gs' ds' → Forall2 css_rep comps' ds' →
    (e ∉ loose → ∀ k, mem (cs_groups s) ds k e → mem gs' ds' k e) →
    cinv (CStore gs' (cs_meta s) comps') ds' am reg grp loose.
  Proof using HI.
    intros HR Hrep Hmem. pose proof (rg_meta _ _ _ _ _ HR) as Hmeta. pose proof (rg_perm _ _ _ _ _ HR) as Hperm.
    split; simpl.
    - apply HI.
    - done.
    - apply HR.
    - rewrite Hmeta, <-(Forall2_length _ _ _ Hperm). apply HI.
    - apply HI.
    - rewrite Hmeta. apply HI.
    - intros t m d e' v Ht Hd. destruct (Forall2_lookup_r _ _ _ _ _ Hperm Hd) as (d0 & Hd0 & Hp).
      rewrite <-(ci_data _ _ _ _ _ _ HI t m d0 e' v Ht Hd0). by rewrite Hp.
    - apply HI.
    - intros i d Hd Hi. destruct (Forall2_lookup_r _ _ _ _ _ Hperm Hd) as (d0 & Hd0 & Hp).
      rewrite (ci_spare _ _ _ _ _ _ HI i d0 Hd0 Hi) in Hp. by apply Permutation_nil_l in Hp.
    - intros k g' e' Hg' He' Hall.
      destruct (same_meta_lookup gs' (cs_groups s) k g' (eq_sym Hmeta) Hg') as (g & Hg & Heq).
      assert (mem (cs_groups s) ds k e') as Hm.
      { eapply (ci_complete _ _ _ _ _ _ HI); [done|done|]. intros i Hi.
        rewrite <-(perm_has _ _ _ _ Hperm). apply Hall. unfold in_group in *. by rewrite <-Heq. }
      destruct (decide (e' = e)) as [->|Hne]; [by apply Hmem|].
      by apply (rg_other _ _ _ _ _ HR).
  Qed.

  Lemma regrouped_stored e gs' ds' : regrouped e (cs_groups s) ds gs' ds' → stored ds ≡ₚ stored ds'.
  Proof using Type. intros HR. apply stored_perm, HR. Qed.

  Lemma ci_group_gen mask e :
    enter_ok (cs_groups s) ds e → closed_down (cs_groups s) mask →
    ∃ s' ds', group_if s mask e = Ok s' ∧ cs_meta s' = cs_meta s ∧
      regrouped e (cs_groups s) ds (cs_groups s') ds' ∧
      cinv s' ds' am reg grp loose ∧
      (∀ k, mem (cs_groups s) ds k e → mem (cs_groups s') ds' k e) ∧
      (∀ k g, bit mask k = true → cs_groups s !! k = Some g → (∀ i, in_group g i → has ds i e) →
         mem (cs_groups s') ds' k e).
  Proof using HI.
    intros Hu [Hlt Hdown].
    destruct (do_group_gen (cs_comps s) ds (cs_groups s) mask e) as (comps' & gs' & ds' & Hg & Hrep & HR & Hm1 & Hm2);
      try done; try apply HI; [by eapply ci_consistent|].
    exists (CStore gs' (cs_meta s) comps'), ds'. rewrite group_if_eq, Hg. simpl. split_and!; try done.
    eapply ci_regrouped; eauto.
  Qed.

  Lemma ci_group mask e :
    am_uniform grp am → closed_down (cs_groups s) mask →
    ∃ s' ds', group_if s mask e = Ok s' ∧ cs_meta s' = cs_meta s ∧
      regrouped e (cs_groups s) ds (cs_groups s') ds' ∧
      cinv s' ds' am reg grp loose ∧
      (∀ k, mem (cs_groups s) ds k e → mem (cs_groups s') ds' k e) ∧
      (∀ k g, bit mask k = true → cs_groups s !! k = Some g → (∀ i, in_group g i → has ds i e) →
         mem (cs_groups s') ds' k e).
  Proof using HI. intros Hu. apply ci_group_gen, uniform_enter; [apply HI|by eapply ci_uniform]. Qed.

End grouping.

Section ungrouping.
  Context (s : cstore) (ds : list dense) (am : amap) (reg grp : gset tid) (loose : gset entity).
  Context (HI : cinv s ds am reg grp loose).

  Lemma ci_ungroup_gen mask e :
    leave_ok (λ k, bit mask k = true) (cs_groups s) ds e → closed_up (cs_groups s) mask →
    ∃ s' ds', ungroup_if s mask e = Ok s' ∧ cs_meta s' = cs_meta s ∧
      regrouped e (cs_groups s) ds (cs_groups s') ds' ∧
      cinv s' ds' am reg grp ({[e]} ∪ loose) ∧
      (∀ k, mem (cs_groups s') ds' k e ↔ mem (cs_groups s) ds k e ∧ bit mask k = false).
  Proof using HI.
    intros Hu [Hlt Hup].
    destruct (do_ungroup_gen (cs_comps s) ds (cs_groups s) mask e) as (comps' & gs' & ds' & Hg & Hrep & HR & Hm);
      try done; try apply HI; [by eapply ci_consistent|].
    exists (CStore gs' (cs_meta s) comps'), ds'. rewrite ungroup_if_eq, Hg. simpl. split_and!; try done.
    assert (cinv s ds am reg grp ({[e]} ∪ loose)) as HI' by (eapply cinv_loosen; [|done]; set_solver).
    eapply ci_regrouped; [done..|]. set_solver.
  Qed.

  Lemma ci_ungroup mask e :
    am_uniform grp am → closed_up (cs_groups s) mask →
    ∃ s' ds', ungroup_if s mask e = Ok s' ∧ cs_meta s' = cs_meta s ∧
      regrouped e (cs_groups s) ds (cs_groups s') ds' ∧
      cinv s' ds' am reg grp ({[e]} ∪ loose) ∧
      (∀ k, mem (cs_groups s') ds' k e ↔ mem (cs_groups s) ds k e ∧ bit mask k = false).
  Proof using HI. intros Hu. apply ci_ungroup_gen, uniform_leave; [apply HI|by eapply ci_uniform]. Qed.
End ungrouping.

(** ** Insertion *)

Definition all_in (ts : list tid) (reg : gset tid) : Prop := ∀ t, t ∈ ts → t ∈ reg.

Lemma insert_loop_ok cs : ∀ s ds am reg grp loose e r mask,
  cinv s ds am reg grp loose → e ∈ loose → am !! e = Some r →
  match insert_loop (cs_meta s) (cs_comps s) mask e cs with
  | InsUB => False
  | InsPanic dr comps => ¬ all_in cs.*1 reg ∧ ∃ ds',
      cinv (CStore (cs_groups s) (cs_meta s) comps) ds' (<[e := put reg cs r]> am) reg grp loose ∧
      cs.*2 ++ stored ds ≡ₚ dr ++ stored ds' ∧ stable (cs_groups s) ds ds'
  | InsOk dr comps mask' => all_in cs.*1 reg ∧
      (∀ j, bit mask' j = true ↔ bit mask j = true ∨
         ∃ t m, t ∈ cs.*1 ∧ cs_meta s !! t = Some m ∧ bit (m_insert m) j = true) ∧
      ∃ ds', cinv (CStore (cs_groups s) (cs_meta s) comps) ds' (<[e := put reg cs r]> am) reg grp loose ∧
      cs.*2 ++ stored ds ≡ₚ dr ++ stored ds' ∧ stable (cs_groups s) ds ds'
  end.
Proof.
  induction cs as [|[t v] cs IH]; intros s ds am reg grp loose e r mask HI Hl He.
  { simpl. split_and!.
    - intros t Ht. by apply elem_of_nil in Ht.
    - intros j. split; [by left|]. intros [?|(t & m & Ht & _)]; [done|by apply elem_of_nil in Ht].
    - exists ds. rewrite insert_id by done. destruct s. split_and!; [done..|]. eapply stable_refl, HI. }
  cbn [insert_loop]. destruct (cs_meta s !! t) as [m|] eqn:Ht.
  2:{ assert (t ∉ reg) as Hn by (rewrite (ci_reg _ _ _ _ _ _ HI), Ht; by intros [? ?]).
    split.
    - intros H. apply Hn, H. left.
    - exists ds. simpl. rewrite decide_False by done. rewrite insert_id by done.
      destruct s. split_and!; [done..|]. eapply stable_refl, HI. }
  assert (t ∈ reg) as Hin by (rewrite (ci_reg _ _ _ _ _ _ HI), Ht; eauto).
  destruct (ci_insert_one _ _ _ _ _ _ HI t m e v r Hl He Ht) as (c & c' & d' & Hc & Hins & HI' & Hcons & Hst).
  rewrite Hc, Hins.
  specialize (IH (with_storage s (m_index m) c') _ _ reg grp loose e (<[t:=v]> r) (gm_or mask (m_insert m)) HI' Hl).
  rewrite lookup_insert in IH. specialize (IH eq_refl). unfold with_storage in IH. cbn [cs_meta cs_comps cs_groups] in IH.
  destruct (insert_loop _ _ _ _ _) as [dr comps mask'|dr comps|]; [| |done].
  - destruct IH as (Hall & Hmask & ds' & HI2 & Hcons2 & Hst2). split_and!.
    + intros t' Ht'. simpl in Ht'. apply elem_of_cons in Ht' as [->|Ht']; [done|]. by apply Hall.
    + intros j. rewrite Hmask. unfold gm_or. rewrite bit_lor, orb_true_iff.
      split.
      * intros [[?|?]|(t' & m' & ? & ? & ?)]; [by left|right; exists t, m|right; exists t', m'].
        -- split_and!; [left|done..].
        -- split_and!; [by right|done..].
      * intros [?|(t' & m' & Hin' & Ht' & Hb)]; [by left; left|].
        apply elem_of_cons in Hin' as [->|Hin'].
        -- simpl in Ht'. rewrite Ht in Ht'. inversion Ht'; subst. by left; right.
        -- right. by exists t', m'.
    + exists ds'. simpl. rewrite decide_True by done. rewrite insert_insert in HI2. split_and!; [done| |].
      * rewrite <-(assoc_L (++)), <-Hcons2, Permutation_middle, Hcons. rewrite Permutation_app_swap_app.
        destruct (r !! t); simpl; by rewrite ?(assoc_L (++)).
      * by eapply stable_trans.
  - destruct IH as (Hall & ds' & HI2 & Hcons2 & Hst2). split.
    + intros H. apply Hall. intros t' Ht'. apply H. by right.
    + exists ds'. simpl. rewrite decide_True by done. rewrite insert_insert in HI2. split_and!; [done| |].
      * rewrite <-(assoc_L (++)), <-Hcons2, Permutation_middle, Hcons. rewrite Permutation_app_swap_app.
        destruct (r !! t); simpl; by rewrite ?(assoc_L (++)).
      * by eapply stable_trans.
Qed.

Lemma put_ne reg cs r t : t ∉ cs.*1 → put reg cs r !! t = r !! t.
Proof.
  revert r. induction cs as [|[t' v] cs IH]; intros r Hn; simpl; [done|].
  simpl in Hn. apply not_elem_of_cons in Hn as [Hne Hn].
  destruct (decide (t' ∈ reg)); [|done]. rewrite IH by done. by rewrite lookup_insert_ne.
Qed.

Lemma am_has_put am e r reg cs t e' v :
  am !! e = Some r → t ∉ cs.*1 → am_has (<[e := put reg cs r]> am) t e' v ↔ am_has am t e' v.
Proof.
  intros He Hn. apply (am_has_insert _ _ r); [done|]. intros v'. by rewrite put_ne.
Qed.

(** [ComponentSet::insert] on a live entity. *)
Lemma ci_insert_set_gen s ds am reg grp loose e r cs :
  cinv s ds am reg grp loose → am !! e = Some r →
  match insert_loop (cs_meta s) (cs_comps s) 0 e cs with
  | InsUB => False
  | InsPanic dr comps => ¬ all_in cs.*1 reg ∧ ∃ ds',
      cinv (CStore (cs_groups s) (cs_meta s) comps) ds' (<[e := put reg cs r]> am) reg grp ({[e]} ∪ loose) ∧
      cs.*2 ++ stored ds ≡ₚ dr ++ stored ds'
  | InsOk dr comps mask => all_in cs.*1 reg ∧
      ((∀ s1 ds1, cs_groups s1 = cs_groups s → cs_meta s1 = cs_meta s → stable (cs_groups s) ds ds1 →
          cinv s1 ds1 (<[e := put reg cs r]> am) reg grp ({[e]} ∪ loose) → enter_ok (cs_groups s) ds1 e) →
       ∃ s' ds', group_if (CStore (cs_groups s) (cs_meta s) comps) mask e = Ok s' ∧
         cinv s' ds' (<[e := put reg cs r]> am) reg grp loose ∧
         cs.*2 ++ stored ds ≡ₚ dr ++ stored ds')
  end.
Proof.
  intros HI He.
  assert (cinv s ds am reg grp ({[e]} ∪ loose)) as HL by (eapply cinv_loosen; [|done]; set_solver).
  pose proof (insert_loop_ok cs s ds am reg grp ({[e]} ∪ loose) e r 0 HL) as H.
  specialize (H ltac:(set_solver) He). destruct (insert_loop _ _ _ _ _) as [dr comps mask|dr comps|]; [| |done].
  - destruct H as (Hall & Hmask & ds1 & HI1 & Hcons & Hst). split; [done|]. intros Hu.
    assert (union_mask (cs_meta s) m_insert cs.*1 mask) as Hm.
    { intros j. rewrite Hmask, bit_0. naive_solver. }
    destruct (ci_group_gen _ _ _ _ _ _ HI1 mask e (Hu (CStore (cs_groups s) (cs_meta s) comps) ds1 eq_refl eq_refl Hst HI1)) as (s' & ds2 & Hg & Hmt & HR & HI2 & Hm1 & Hm2).
    { by eapply (insert_mask_closed _ _ _ _ _ _ HI1). }
    exists s', ds2. split_and!; [done| |].
    + apply (cinv_tighten _ _ _ _ _ _ ({[e]} ∪ loose)); [done|]. intros k g' e' Hk Hnl Hl Hall'.
      apply elem_of_union in Hl as [->%elem_of_singleton|]; [|done].
      destruct (same_meta_lookup (cs_groups s') (cs_groups s) k g' (eq_sym (rg_meta _ _ _ _ _ HR)) Hk) as (g & Hg0 & Heq).
      assert (Hall1 : ∀ i, in_group g i → has ds1 i e).
      { intros i Hi. rewrite <-(perm_has _ _ _ _ (rg_perm _ _ _ _ _ HR)). apply Hall'.
        unfold in_group in *. by rewrite <-Heq. }
      destruct (bit mask k) eqn:Hb; [by eapply Hm2|].
      apply Hm1. simpl. rewrite (stable_mem (cs_groups s) ds ds1) by (done || apply HI).
      apply (ci_complete _ _ _ _ _ _ HI k g); [done|done|]. intros i Hi.
      destruct (st_owner _ _ _ (ci_static _ _ _ _ _ _ HI) k (g_meta g) i) as (t & m & Ht & <-);
        [by apply ci_groups_meta|done|].
      apply (ci_has_meta _ _ _ _ _ _ HI t m e Ht).
      destruct (decide (t ∈ cs.*1)) as [Hin|Hnin].
      { exfalso. rewrite (insert_mask_covers _ _ _ _ _ _ HI cs.*1 mask k g t m) in Hb; done. }
      destruct (proj1 (ci_has_meta _ _ _ _ _ _ HI1 t m e Ht) (Hall1 _ Hi)) as [v Hv].
      exists v. by eapply am_has_put.
    + rewrite Hcons. by rewrite (regrouped_stored _ _ _ _ _ HR).
  - destruct H as (Hall & ds1 & HI1 & Hcons & Hst). split; [done|]. by exists ds1.
Qed.

Lemma ci_insert_set s ds am reg grp loose e r cs :
  cinv s ds am reg grp loose → am !! e = Some r →
  match insert_loop (cs_meta s) (cs_comps s) 0 e cs with
  | InsUB => False
  | InsPanic dr comps => ¬ all_in cs.*1 reg ∧ ∃ ds',
      cinv (CStore (cs_groups s) (cs_meta s) comps) ds' (<[e := put reg cs r]> am) reg grp ({[e]} ∪ loose) ∧
      cs.*2 ++ stored ds ≡ₚ dr ++ stored ds'
  | InsOk dr comps mask => all_in cs.*1 reg ∧
      (am_uniform grp (<[e := put reg cs r]> am) →
       ∃ s' ds', group_if (CStore (cs_groups s) (cs_meta s) comps) mask e = Ok s' ∧
         cinv s' ds' (<[e := put reg cs r]> am) reg grp loose ∧
         cs.*2 ++ stored ds ≡ₚ dr ++ stored ds')
  end.
Proof.
  intros HI He. pose proof (ci_insert_set_gen s ds am reg grp loose e r cs HI He) as H.
  destruct (insert_loop _ _ _ _ _) as [dr comps mask|dr comps|]; [|done..].
  destruct H as [Hall H]. split; [done|]. intros Hu. apply H. intros s1 ds1 Hg _ _ HI1. rewrite <-Hg.
  apply uniform_enter; [apply HI1|by eapply ci_uniform].
Qed.

(** The map matters only through the components it holds. *)
Lemma cinv_am_ext s ds am am' reg grp loose :
  cinv s ds am reg grp loose → am_ok am' → (∀ t e v, am_has am' t e v ↔ am_has am t e v) →
  cinv s ds am' reg grp loose.
Proof.
  intros HI Hok Heq. split; try apply HI; try done.
  - intros t m d e v Ht Hd. rewrite Heq. by eapply (ci_data _ _ _ _ _ _ HI).
  - intros e t v H. apply Heq in H. by eapply (ci_types _ _ _ _ _ _ HI).
Qed.

(** Rows of [extend]. *)
Definition indexes (mt : gmap tid meta) (ts : list tid) (is_ : list nat) : Prop :=
  Forall2 (λ t i, ∃ m, mt !! t = Some m ∧ m_index m = i) ts is_.

Lemma lookup_metas_Some mt f ts is_ mask :
  lookup_metas mt f ts = Some (is_, mask) → indexes mt ts is_ ∧ union_mask mt f ts mask.
Proof.
  revert is_ mask. induction ts as [|t ts IH]; intros is_ mask; simpl.
  - intros [= <- <-]. split; [constructor|]. intros j. rewrite bit_0. split; [done|].
    intros (t & m & Ht & _). by apply elem_of_nil in Ht.
  - destruct (mt !! t) as [m|] eqn:Ht; [|done].
    destruct (lookup_metas mt f ts) as [[is' mask']|]; [|done].
    intros H. inversion H; subst; clear H. destruct (IH is' mask' eq_refl) as [H1 H2]. split.
    + constructor; eauto.
    + intros j. unfold gm_or. rewrite bit_lor, orb_true_iff, (H2 j). split.
      * intros [?|(t' & m' & ? & ? & ?)]; [exists t, m|exists t', m']; split_and!; try done; by constructor.
      * intros (t' & m' & Hin & Ht' & Hb). apply elem_of_cons in Hin as [->|Hin].
        -- left. congruence.
        -- right. eauto.
Qed.

Lemma lookup_metas_None mt f ts :
  lookup_metas mt f ts = None ↔ ∃ t, t ∈ ts ∧ mt !! t = None.
Proof.
  induction ts as [|t ts IH]; simpl.
  - split; [done|]. intros (t & Ht & _). by apply elem_of_nil in Ht.
  - destruct (mt !! t) as [m|] eqn:Ht.
    + destruct (lookup_metas mt f ts) as [[is' mask']|].
      * split; [done|]. intros (t' & Hin & Ht'). apply elem_of_cons in Hin as [->|Hin]; [congruence|].
        assert (Some (is', mask') = None); [|done]. apply IH. eauto.
      * split; [|done]. intros _. destruct (proj1 IH eq_refl) as (t' & ? & ?). exists t'. split; [by right|done].
    + split; [|done]. intros _. exists t. split; [left|done].
Qed.

Lemma insert_row_loop mt e ts : ∀ is_ vs comps mask dr comps' mask',
  indexes mt ts is_ → insert_loop mt comps mask e (zip ts vs) = InsOk dr comps' mask' →
  insert_row comps e (zip is_ vs) = Ok (comps', dr).
Proof.
  induction ts as [|t ts IH]; intros is_ vs comps mask dr comps' mask' Hi H.
  - inversion Hi; subst. simpl in *. by inversion H.
  - inversion Hi as [|? i ? is' (m & Ht & Hm) Hi']; subst. destruct vs as [|v vs]; simpl in *; [by inversion H|].
    rewrite Ht in H. destruct (comps !! m_index m) as [c|]; [|done].
    destruct (css_insert c e v) as [[c' old]| |]; [|done..].
    destruct (insert_loop _ _ _ _ _) as [dr1 comps1 mask1| |] eqn:El; [|done..].
    inversion H; subst. rewrite (IH is' vs _ _ _ _ _ Hi' El). by destruct old.
Qed.

(** ** Removal *)

Lemma delete_all_ne r ts t : t ∉ ts → delete_all r ts !! t = r !! t.
Proof.
  revert r. induction ts as [|t' ts IH]; intros r Hn; simpl; [done|].
  apply not_elem_of_cons in Hn as [Hne Hn]. rewrite IH by done. by rewrite lookup_delete_ne.
Qed.

Lemma delete_all_in r ts t : t ∈ ts → delete_all r ts !! t = None.
Proof.
  revert r. induction ts as [|t' ts IH]; intros r Hin; [by apply elem_of_nil in Hin|]. simpl.
  destruct (decide (t ∈ ts)) as [|Hn]; [by apply IH|]. rewrite delete_all_ne by done.
  apply elem_of_cons in Hin as [->|]; [|done]. apply lookup_delete.
Qed.

Lemma delete_list_remove e is_ : ∀ comps comps' vs,
  remove_each comps e is_ = Ok (comps', vs) → delete_list comps e is_ = Ok (comps', omap id vs).
Proof.
  induction is_ as [|i is_ IH]; intros comps comps' vs; simpl; [by intros [= <- <-]|].
  destruct (comps !! i) as [c|]; [|done]. rewrite css_delete_remove.
  destruct (css_remove c e) as [[c' v]| |]; [|done..].
  destruct (remove_each _ _ _) as [[comps1 vs1]| |] eqn:E; [|done..]. intros [= <- <-].
  destruct v as [v|]; by rewrite (IH _ _ _ E).
Qed.

Lemma take_all_None (r : row) ts : (∀ t, r !! t = None) → take_all r ts = replicate (length ts) None.
Proof.
  revert r. induction ts as [|t ts IH]; intros r Hr; simpl; [done|]. rewrite Hr. f_equal. apply IH.
  intros t'. destruct (decide (t = t')) as [<-|]; [by rewrite lookup_delete|by rewrite lookup_delete_ne].
Qed.

Lemma remove_each_ok ts : ∀ is_ s ds am reg grp loose e r,
  cinv s ds am reg grp loose → am !! e = Some r → indexes (cs_meta s) ts is_ →
  (∀ t m k g, t ∈ ts → cs_meta s !! t = Some m → cs_groups s !! k = Some g → in_group g (m_index m) →
     ¬ mem (cs_groups s) ds k e) →
  ∃ comps' ds', remove_each (cs_comps s) e is_ = Ok (comps', take_all r ts) ∧
    cinv (CStore (cs_groups s) (cs_meta s) comps') ds' (<[e := delete_all r ts]> am) reg grp loose ∧
    stored ds ≡ₚ omap id (take_all r ts) ++ stored ds' ∧ stable (cs_groups s) ds ds'.
Proof.
  induction ts as [|t ts IH]; intros is_ s ds am reg grp loose e r HI He Hi Hnm.
  { inversion Hi; subst. exists (cs_comps s), ds. simpl. rewrite insert_id by done. destruct s.
    split_and!; [done..|]. eapply stable_refl, HI. }
  inversion Hi as [|? i ? is' (m & Ht & Hm) Hi']; subst.
  destruct (ci_remove_one _ _ _ _ _ _ HI t m e r He Ht) as (c & c' & d' & Hc & Hrem & HI1 & Hcons & Hst & Hnin).
  { intros k g Hk Hg. eapply Hnm; [left|done..]. }
  specialize (IH is' _ _ _ _ _ _ e (delete t r) HI1). rewrite lookup_insert in IH. specialize (IH eq_refl).
  unfold with_storage in IH. cbn [cs_meta cs_comps cs_groups] in IH. destruct (IH Hi') as (comps' & ds' & Hr & HI2 & Hcons2 & Hst2).
  { intros t' m' k g Hin Ht' Hk Hg. rewrite (stable_mem (cs_groups s) ds) by (done || apply HI).
    eapply Hnm; [by right|done..]. }
  exists comps', ds'. simpl. rewrite Hc, Hrem, Hr. rewrite insert_insert in HI2. split_and!; [done|done| |].
  - rewrite Hcons, Hcons2. destruct (r !! t); simpl; done.
  - by eapply stable_trans.
Qed.

Lemma remove_each_dead ts : ∀ is_ s ds am reg grp loose e,
  cinv s ds am reg grp loose → am !! e = None → indexes (cs_meta s) ts is_ →
  remove_each (cs_comps s) e is_ = Ok (cs_comps s, replicate (length ts) None).
Proof.
  induction ts as [|t ts IH]; intros is_ s ds am reg grp loose e HI He Hi; inversion Hi as [|? i ? is' (m & Ht & Hm) Hi']; subst; [done|].
  destruct (ci_remove_dead _ _ _ _ _ _ HI t m e He Ht) as (c & Hc & Hrem). simpl. rewrite Hc, Hrem.
  rewrite list_insert_id by done. by rewrite (IH is' s ds am reg grp loose e HI He Hi').
Qed.

Lemma alter_Some (am : amap) f e r : am !! e = Some r → alter f e am = <[e := f r]> am.
Proof.
  intros He. apply map_eq. intros e'. destruct (decide (e = e')) as [<-|].
  - by rewrite lookup_alter, He, lookup_insert.
  - by rewrite lookup_alter_ne, lookup_insert_ne.
Qed.

Lemma alter_None (am : amap) f e : am !! e = None → alter f e am = am.
Proof.
  intros He. apply map_eq. intros e'. destruct (decide (e = e')) as [<-|].
  - by rewrite lookup_alter, He.
  - by rewrite lookup_alter_ne.
Qed.

(** [ComponentSet::remove] (and [delete]) on any handle. *)
Lemma ci_remove_set_gen s ds am reg grp loose e ts is_ mask :
  cinv s ds am reg grp loose → leave_ok (λ k, bit mask k = true) (cs_groups s) ds e → lookup_metas (cs_meta s) m_delete ts = Some (is_, mask) →
  ∃ s1 comps' ds', ungroup_if s mask e = Ok s1 ∧
    remove_each (cs_comps s1) e is_ = Ok (comps', take_all (default ∅ (am !! e)) ts) ∧
    cinv (CStore (cs_groups s1) (cs_meta s1) comps') ds' (alter (λ r, delete_all r ts) e am) reg grp loose ∧
    stored ds ≡ₚ omap id (take_all (default ∅ (am !! e)) ts) ++ stored ds'.
Proof.
  intros HI Hu Hlm. destruct (lookup_metas_Some _ _ _ _ _ Hlm) as [Hidx Hmask].
  destruct (ci_ungroup_gen _ _ _ _ _ _ HI mask e Hu) as (s1 & ds1 & Hun & Hmt & HR & HI1 & Hmem).
  { by eapply (delete_mask_closed _ _ _ _ _ _ HI). }
  pose proof (rg_meta _ _ _ _ _ HR) as Hgm. pose proof (rg_perm _ _ _ _ _ HR) as Hperm.
  assert (Hns : ∀ t m k g, t ∈ ts → cs_meta s1 !! t = Some m → cs_groups s1 !! k = Some g →
             in_group g (m_index m) → bit mask k = true).
  { intros t m k g Hin Ht Hk Hg. rewrite Hmt in Ht.
    destruct (same_meta_lookup _ (cs_groups s) k g (eq_sym Hgm) Hk) as (g0 & Hg0 & Heq).
    eapply (delete_mask_covers _ _ _ _ _ _ HI); [done..|]. unfold in_group in *. by rewrite Heq. }
  destruct (am !! e) as [r|] eqn:He; simpl.
  - destruct (remove_each_ok ts is_ s1 ds1 am reg grp ({[e]} ∪ loose) e r HI1 He) as (comps' & ds' & Hrem & HI2 & Hcons & Hst).
    { by rewrite Hmt. }
    { intros t m k g Hin Ht Hk Hg Hm. apply Hmem in Hm as [_ Hb]. rewrite (Hns t m k g) in Hb; done. }
    exists s1, comps', ds'. rewrite (alter_Some _ _ _ r) by done. split_and!; [done|done| |].
    + apply (cinv_tighten _ _ _ _ _ _ ({[e]} ∪ loose)); [done|]. intros k g e' Hk Hnl Hl Hall. simpl in *.
      apply elem_of_union in Hl as [->%elem_of_singleton|]; [|done].
      rewrite (stable_mem (cs_groups s1) ds1) by (done || apply HI1).
      destruct (same_meta_lookup _ (cs_groups s) k g (eq_sym Hgm) Hk) as (g0 & Hg0 & Heq).
      assert (Hall1 : ∀ i, in_group g i → ∃ t m v, cs_meta s !! t = Some m ∧ m_index m = i ∧ t ∉ ts ∧ am_has am t e v).
      { intros i Hi.
        destruct (st_owner _ _ _ (ci_static _ _ _ _ _ _ HI2) k (g_meta g) i) as (t & m & Ht & Hmi);
          [by apply ci_groups_meta|done|]. simpl in Ht. exists t, m. rewrite <-Hmi in Hi |- *.
        destruct (proj1 (ci_has_meta _ _ _ _ _ _ HI2 t m e Ht) (Hall _ Hi)) as [v Hv].
        apply am_has_at in Hv. exists v. rewrite Hmt in Ht. split_and!; [done|done| |].
        - intros Hin. by rewrite delete_all_in in Hv.
        - exists r. split; [done|]. rewrite delete_all_ne in Hv; [done|]. intros Hin. by rewrite delete_all_in in Hv. }
      apply Hmem. split.
      * apply (ci_complete _ _ _ _ _ _ HI k g0); [done|done|]. intros i Hi.
        destruct (Hall1 i) as (t & m & v & Ht & <- & _ & Hv). { unfold in_group in *. by rewrite <-Heq. }
        apply (ci_has_meta _ _ _ _ _ _ HI t m e Ht). by exists v.
      * destruct (bit mask k) eqn:Hb; [|done]. apply Hmask in Hb as (t & m & Hin & Ht & Hb).
        apply (st_delete _ _ _ (ci_static _ _ _ _ _ _ HI) t m k Ht) in Hb as (gm & Hgk & Hc).
        rewrite (ci_groups_meta s k g0 Hg0) in Hgk. inversion Hgk; subst gm.
        destruct (Hall1 (m_index m)) as (t' & m' & v & Ht' & Hmi & Hnin & _).
        { unfold in_group, covers in *. by rewrite <-Heq. }
        rewrite (st_inj _ _ _ (ci_static _ _ _ _ _ _ HI) t' t m' m Ht' Ht Hmi) in Hnin. done.
    + by rewrite (regrouped_stored _ _ _ _ _ HR), Hcons.
  - exists s1, (cs_comps s1), ds1. rewrite alter_None by done. rewrite take_all_None by (intros; apply lookup_empty).
    split_and!; [done| | |].
    + eapply remove_each_dead; [done..|]. by rewrite Hmt.
    + destruct s1 as [gs1 mt1 cs1]. simpl. apply (cinv_tighten _ _ _ _ _ _ ({[e]} ∪ loose)); [done|].
      intros k g e' Hk Hnl Hl Hall. apply elem_of_union in Hl as [->%elem_of_singleton|]; [|done]. exfalso.
      destruct (ci_has_alive _ _ _ _ _ _ HI1 (g_start (g_meta g)) e) as [r Hr]; [|congruence].
      apply Hall. eapply in_group_start; [apply HI1|done].
    + rewrite (regrouped_stored _ _ _ _ _ HR). clear. by induction (length ts).
Qed.

Lemma ci_remove_set s ds am reg grp loose e ts is_ mask :
  cinv s ds am reg grp loose → am_uniform grp am → lookup_metas (cs_meta s) m_delete ts = Some (is_, mask) →
  ∃ s1 comps' ds', ungroup_if s mask e = Ok s1 ∧
    remove_each (cs_comps s1) e is_ = Ok (comps', take_all (default ∅ (am !! e)) ts) ∧
    cinv (CStore (cs_groups s1) (cs_meta s1) comps') ds' (alter (λ r, delete_all r ts) e am) reg grp loose ∧
    stored ds ≡ₚ omap id (take_all (default ∅ (am !! e)) ts) ++ stored ds'.
Proof. intros HI Hu. eapply ci_remove_set_gen; [done|]. apply uniform_leave; [apply HI|by eapply ci_uniform]. Qed.

(** ** Stripping an entity *)

(** [d'] is [d] without the entity [e]; prefixes without [e] are unchanged. *)
Definition without (e : entity) (d d' : dense) : Prop :=
  (∀ e' v, (e', v) ∈ d' ↔ e' ≠ e ∧ (e', v) ∈ d) ∧
  (∀ n, n ≤ length d → e ∉ take n d.*1 → take n d'.*1 = take n d.*1 ∧ n ≤ length d').

Lemma css_delete_without c d e :
  css_rep c d → ∃ c' d' dr, css_delete c e = Ok (c', dr) ∧ css_rep c' d' ∧ d.*2 ≡ₚ dr ++ d'.*2 ∧ without e d d'.
Proof.
  intros Hr. destruct (decide (e ∈ d.*1)) as [Hin|Hnin].
  - apply elem_of_list_lookup in Hin as [i Hi]. apply dense_fst_lookup in Hi as [v Hi].
    destruct (css_delete_lookup c d Hr i e v Hi) as (c' & Hdel & Hr').
    pose proof (swap_remove_perm d i _ Hi) as Hp.
    assert (Hlt : i < length d) by (by eapply lookup_lt_Some).
    exists c', (swap_remove d i), [v]. split_and!; [done|done| |].
    + change ([v] ++ (swap_remove d i).*2) with (((e, v) :: swap_remove d i).*2). by apply fmap_Permutation.
    + assert (Hmem : ∀ p, p ∈ d ↔ p = (e, v) ∨ p ∈ swap_remove d i).
      { intros p. rewrite <-elem_of_cons. by split; apply elem_of_Permutation_proper. }
      assert (Hnin : e ∉ (swap_remove d i).*1).
      { assert (Hnd : NoDup d.*1) by (eapply sparse_ok_nodup_ents, Hr).
        assert (NoDup ((e, v) :: swap_remove d i).*1) as Hnd' by (by rewrite <-Hp).
        simpl in Hnd'. by apply NoDup_cons in Hnd' as [? _]. }
      split.
      * intros e' v'. rewrite Hmem. split.
        -- intros H. split; [|by right]. intros ->. apply Hnin, elem_fst_pair. eauto.
        -- intros [Hne [[= -> _]|H]]; done.
      * intros n Hn Hnt. assert (n ≤ i).
        { destruct (decide (n ≤ i)); [done|]. exfalso. apply Hnt. apply elem_of_take. exists i.
          split; [lia|]. by rewrite list_lookup_fmap, Hi. }
        rewrite swap_remove_length. split; [|lia]. rewrite swap_remove_fmap. apply swap_remove_take; [done|].
        by rewrite fmap_length.
  - exists c, d, []. split_and!; [by apply (css_delete_None c d Hr)|done|done|].
    split; [|done]. intros e' v. split; [|by intros [_ ?]]. intros H. split; [|done]. intros ->.
    apply Hnin, elem_fst_pair. eauto.
Qed.

Lemma delete_each_ok e comps ds :
  Forall2 css_rep comps ds →
  ∃ comps' ds' dr, delete_each comps e = Ok (comps', dr) ∧ Forall2 css_rep comps' ds' ∧
    stored ds ≡ₚ dr ++ stored ds' ∧ Forall2 (without e) ds ds'.
Proof.
  induction 1 as [|c d comps ds Hr _ IH]; simpl.
  { exists [], [], []. split_and!; constructor. }
  destruct (css_delete_without c d e Hr) as (c' & d' & dr & Hdel & Hr' & Hp & Hw).
  destruct IH as (comps' & ds' & dr' & Hdel' & HF & Hp' & HW).
  exists (c' :: comps'), (d' :: ds'), (dr ++ dr'). rewrite Hdel. simpl. rewrite Hdel'. simpl.
  split_and!; [done|by constructor| |by constructor].
  change (stored (d :: ds)) with (d.*2 ++ stored ds). change (stored (d' :: ds')) with (d'.*2 ++ stored ds').
  rewrite Hp, Hp'. rewrite <-!(assoc_L (++)). f_equiv.
  apply Permutation_app_swap_app.
Qed.

Lemma am_has_delete (am : amap) e t e' v : am_has (delete e am) t e' v ↔ e' ≠ e ∧ am_has am t e' v.
Proof.
  unfold am_has. split.
  - intros (r & Hr & H). apply lookup_delete_Some in Hr as [? ?]. split; [congruence|]. eauto.
  - intros [Hne (r & Hr & H)]. exists r. split; [|done]. by rewrite lookup_delete_ne.
Qed.

Lemma am_ok_delete am e : am_ok am → am_ok (delete e am).
Proof.
  intros [H1 H2].
  assert (∀ e', is_Some (delete e am !! e') → is_Some (am !! e')) as Hd.
  { intros e' [r Hr]. apply lookup_delete_Some in Hr as [_ ?]. eauto. }
  split; [intros e' ?; by apply H1, Hd|]. intros e' e'' ?? Heq. apply H2; auto.
Qed.

Lemma am_uniform_delete grp am e : am_uniform grp am → am_uniform grp (delete e am).
Proof. intros Hu t e1 e2 v1 v2 Ht [_ H1]%am_has_delete [_ H2]%am_has_delete. by eapply Hu. Qed.

Lemma ci_strip_gen s ds am reg grp loose e :
  cinv s ds am reg grp loose → leave_ok (λ _, True) (cs_groups s) ds e →
  ∃ s' ds' dr, strip s e = Ok (s', dr) ∧ cinv s' ds' (delete e am) reg grp (loose ∖ {[e]}) ∧
    stored ds ≡ₚ dr ++ stored ds'.
Proof.
  intros HI Hu.
  destruct (ungroup_all_gen (cs_comps s) ds (cs_groups s) e) as (comps1 & gs1 & ds1 & Hun & Hrep1 & HR & Hmem);
    try apply HI; [done|by eapply ci_consistent|].
  assert (cinv s ds am reg grp ({[e]} ∪ loose)) as HL by (eapply cinv_loosen; [|done]; set_solver).
  assert (cinv (CStore gs1 (cs_meta s) comps1) ds1 am reg grp ({[e]} ∪ loose)) as HI1.
  { eapply ci_regrouped; [done..|]. set_solver. }
  destruct (delete_each_ok e comps1 ds1 Hrep1) as (comps2 & ds2 & dr & Hdel & Hrep2 & Hp & HW).
  exists (CStore gs1 (cs_meta s) comps2), ds2, dr. unfold strip. rewrite Hun. simpl. rewrite Hdel. simpl.
  split_and!; [done| |by rewrite (regrouped_stored _ _ _ _ _ HR)].
  pose proof (Forall2_length _ _ _ HW) as Hlen.
  assert (Hst : stable gs1 ds1 ds2).
  { split; [done|]. intros k g i d d' Hk Hi Hd Hd'.
    destruct (Forall2_lookup_lr _ _ _ _ _ _ HW Hd Hd') as [_ Hw]. apply Hw.
    - by eapply (gi_len _ _ (ci_ginv _ _ _ _ _ _ HI1)).
    - intros He. apply (Hmem k). eapply (mem_at _ _ (ci_ginv _ _ _ _ _ _ HI1)); done. }
  split; simpl.
  - apply am_ok_delete, HI.
  - done.
  - eapply stable_ginv; [done|apply HI1].
  - rewrite <-Hlen. apply HI1.
  - apply HI.
  - apply HI1.
  - intros t m d' e' v Ht Hd'. destruct (Forall2_lookup_r _ _ _ _ _ HW Hd') as (d & Hd & [Hw _]).
    rewrite Hw, am_has_delete. f_equiv. by apply (ci_data _ _ _ _ _ _ HI1 t m).
  - intros e' t v [_ H]%am_has_delete. by eapply (ci_types _ _ _ _ _ _ HI).
  - intros i d' Hd' Hi. destruct (Forall2_lookup_r _ _ _ _ _ HW Hd') as (d & Hd & [Hw _]).
    pose proof (ci_spare _ _ _ _ _ _ HI1 i d Hd Hi) as ->. destruct d' as [|[e' v] d']; [done|].
    destruct (proj1 (Hw e' v)) as [_ Hn]; [left|]. by apply elem_of_nil in Hn.
  - intros k g e' Hk Hnl Hall. rewrite (stable_mem gs1 ds1) by (done || apply HI1).
    assert (Hhas : ∀ i, in_group g i → has ds1 i e' ∧ e' ≠ e).
    { intros i Hi. destruct (Hall i Hi) as (d' & Hd' & (v & Hv)%elem_fst_pair).
      destruct (Forall2_lookup_r _ _ _ _ _ HW Hd') as (d & Hd & [Hw _]). destruct (proj1 (Hw _ _) Hv) as [Hne Hv0].
      split; [|done]. exists d. split; [done|]. apply elem_fst_pair. eauto. }
    destruct (Hhas (g_start (g_meta g))) as [_ Hne].
    { eapply in_group_start; [apply HI1|done]. }
    eapply (ci_complete _ _ _ _ _ _ HI1); [done| |by intros i Hi; apply Hhas]. set_solver.
Qed.

Lemma ci_strip s ds am reg grp loose e :
  cinv s ds am reg grp loose → am_uniform grp am →
  ∃ s' ds' dr, strip s e = Ok (s', dr) ∧ cinv s' ds' (delete e am) reg grp (loose ∖ {[e]}) ∧
    stored ds ≡ₚ dr ++ stored ds'.
Proof. intros HI Hu. eapply ci_strip_gen; [done|]. apply uniform_leave; [apply HI|by eapply ci_uniform]. Qed.

(** ** Clearing *)

Lemma clear_each_ok comps ds :
  Forall2 css_rep comps ds →
  ∃ comps', clear_each comps = Ok (comps', stored ds) ∧ Forall2 css_rep comps' ((λ _, []) <$> ds).
Proof.
  induction 1 as [|c d comps ds Hr _ IH]; simpl.
  { exists []. split; [done|constructor]. }
  destruct (css_clear_ok c d Hr) as (c' & Hc & Hr'). destruct IH as (comps' & Hc' & HF).
  exists (c' :: comps'). rewrite Hc. simpl. rewrite Hc'. simpl. split; [done|by constructor].
Qed.

Lemma stored_nils {A} (l : list A) : stored ((λ _, []) <$> l) = [].
Proof. induction l; [done|]. done. Qed.

Lemma ci_clear s ds am reg grp loose :
  cinv s ds am reg grp loose →
  ∃ s' ds', cstore_clear s = Ok (s', stored ds) ∧ cinv s' ds' ∅ reg grp ∅ ∧ stored ds' = [].
Proof.
  intros HI. destruct (clear_each_ok _ _ (ci_rep _ _ _ _ _ _ HI)) as (comps' & Hc & HF).
  exists (CStore ((λ g, Grp (g_meta g) 0) <$> cs_groups s) (cs_meta s) comps'), ((λ _, []) <$> ds).
  unfold cstore_clear. rewrite Hc. simpl. split_and!; [done| |apply stored_nils].
  set (gs' := (λ g, Grp (g_meta g) 0) <$> cs_groups s).
  assert (Hgm : g_meta <$> gs' = g_meta <$> cs_groups s).
  { unfold gs'. rewrite <-list_fmap_compose. by apply list_fmap_ext. }
  assert (Hds : ∀ i d, ((λ _, []) <$> ds : list dense) !! i = Some d → d = []).
  { intros i d H. apply list_lookup_fmap_inv in H as (? & -> & _). done. }
  assert (Hg0 : ∀ k g, gs' !! k = Some g → g_len g = 0).
  { intros k g H. apply list_lookup_fmap_inv in H as (? & -> & _). done. }
  split; simpl.
  - split; intros e; [by rewrite lookup_empty; intros [? ?]|]. intros e' H. rewrite lookup_empty in H. by destruct H.
  - done.
  - split.
    + rewrite Hgm, fmap_length. apply HI.
    + intros k g i i' d d' Hk _ _ Hd Hd'. by rewrite (Hds _ _ Hd), (Hds _ _ Hd').
    + intros k g i d Hk _ Hd. rewrite (Hg0 _ _ Hk). lia.
    + intros j k gj gk _ Hj Hk _. rewrite (Hg0 _ _ Hk). lia.
  - rewrite Hgm, fmap_length. apply HI.
  - apply HI.
  - rewrite Hgm. apply HI.
  - intros t m d e v Ht Hd. rewrite (Hds _ _ Hd). split; [by intros ?%elem_of_nil|].
    intros (r & Hr & _). by rewrite lookup_empty in Hr.
  - intros e t v (r & Hr & _). by rewrite lookup_empty in Hr.
  - intros i d Hd _. by apply (Hds _ _ Hd).
  - intros k g e Hk _ Hall. exfalso.
    assert (∃ g0, cs_groups s !! k = Some g0 ∧ g_meta g0 = g_meta g) as (g0 & Hk0 & Heq).
    { by apply (same_meta_lookup gs'). }
    destruct (Hall (g_start (g_meta g))) as (d & Hd & He).
    { pose proof (in_group_start _ _ (ci_ginv _ _ _ _ _ _ HI) k g0 Hk0) as H. unfold in_group in *.
      by rewrite Heq in H. }
    rewrite (Hds _ _ Hd) in He. by apply elem_of_nil in He.
Qed.

(** ** Registration *)

Lemma metas_wf_mono ms n n' : n ≤ n' → metas_wf ms n → metas_wf ms n'.
Proof.
  intros Hn [H1 H2 H3 H4 H5]. split; try done. intros k m Hk. destruct (H1 k m Hk) as (? & ? & ?). split_and!; lia.
Qed.

Lemma ci_register s ds am reg grp loose t :
  cinv s ds am reg grp loose →
  ∃ ds', (register_dyn s t).1 = bool_decide (t ∉ reg) ∧
    cinv (register_dyn s t).2 ds' am ({[t]} ∪ reg) grp loose ∧ stored ds' = stored ds.
Proof.
  intros HI. unfold register_dyn. destruct (cs_meta s !! t) as [m|] eqn:Ht.
  - assert (t ∈ reg) by (rewrite (ci_reg _ _ _ _ _ _ HI), Ht; eauto).
    exists ds. simpl. split_and!; [by rewrite bool_decide_false by tauto| |done].
    replace ({[t]} ∪ reg) with reg by set_solver. done.
  - assert (Hnr : t ∉ reg) by (rewrite (ci_reg _ _ _ _ _ _ HI), Ht; by intros [? ?]).
    exists (ds ++ [[]]). simpl. split_and!; [by rewrite bool_decide_true| |].
    2:{ rewrite stored_app. unfold stored at 2. simpl. by rewrite app_nil_r. }
    pose proof (ci_length _ _ _ _ _ _ HI) as Hlen. pose proof (ci_ginv _ _ _ _ _ _ HI) as HG.
    pose proof (ci_static _ _ _ _ _ _ HI) as Hst.
    assert (Hgd : ∀ k g i d, cs_groups s !! k = Some g → in_group g i → (ds ++ [[]]) !! i = Some d → ds !! i = Some d).
    { intros k g i d Hk Hi Hd. destruct (in_group_lookup _ _ HG k g i Hk Hi) as [d0 Hd0].
      rewrite lookup_app_l in Hd; [done|]. by eapply lookup_lt_Some. }
    assert (Hnc : ∀ k gm, (g_meta <$> cs_groups s) !! k = Some gm → ¬ covers gm (length ds)).
    { intros k gm Hk [_ Hlt]. destruct (mw_range _ _ (gi_wf _ _ HG) k gm Hk) as (_ & _ & ?). lia. }
    assert (Hhas : ∀ i e, has (ds ++ [[]]) i e ↔ has ds i e).
    { intros i e. split; intros (d & Hd & He); exists d; (split; [|done]).
      - apply lookup_app_Some in Hd as [Hd|[_ Hd]]; [done|].
        apply list_lookup_singleton_Some in Hd as [_ <-]. by apply elem_of_nil in He.
      - by apply lookup_app_l_Some. }
    split; simpl.
    + apply HI.
    + apply Forall2_app; [apply HI|]. constructor; [apply css_rep_new|constructor].
    + split.
      * eapply metas_wf_mono; [|apply HG]. rewrite app_length. simpl. lia.
      * intros k g i i' d d' Hk Hi Hi' Hd Hd'. eapply (gi_prefix _ _ HG k g i i'); try done; by eapply (Hgd k g).
      * intros k g i d Hk Hi Hd. eapply (gi_len _ _ HG k g i); try done; by eapply (Hgd k g).
      * apply HG.
    + split.
      * intros t' m Ht'. rewrite app_length. simpl. apply lookup_insert_Some in Ht' as [[_ <-]|[_ Ht']]; simpl; [lia|].
        apply (st_index _ _ _ Hst) in Ht'. lia.
      * intros t1 t2 m1 m2 H1 H2 Heq.
        apply lookup_insert_Some in H1 as [[<- <-]|[Hn1 H1]]; apply lookup_insert_Some in H2 as [[<- <-]|[Hn2 H2]];
          try done.
        -- apply (st_index _ _ _ Hst) in H2. simpl in *. lia.
        -- apply (st_index _ _ _ Hst) in H1. simpl in *. lia.
        -- by apply (st_inj _ _ _ Hst t1 t2 m1 m2).
      * intros k gm i Hk Hc. destruct (st_owner _ _ _ Hst k gm i Hk Hc) as (t' & m & Ht' & Hm).
        exists t', m. split; [|done]. rewrite lookup_insert_ne by congruence. done.
      * intros t' m j Ht'. apply lookup_insert_Some in Ht' as [[_ <-]|[_ Ht']]; [|by apply (st_insert _ _ _ Hst t')].
        unfold meta_plain. cbn [m_insert m_index]. rewrite bit_0. split; [done|]. intros (gj & k & gk & _ & Hk & _ & Hc).
        rewrite Hlen in Hc. by eapply Hnc in Hc.
      * intros t' m j Ht'. apply lookup_insert_Some in Ht' as [[_ <-]|[_ Ht']]; [|by apply (st_delete _ _ _ Hst t')].
        unfold meta_plain. cbn [m_delete m_index]. rewrite bit_0. split; [done|]. intros (gj & Hk & Hc). rewrite Hlen in Hc. by eapply Hnc in Hc.
      * intros t' m Ht'. apply lookup_insert_Some in Ht' as [[_ <-]|[_ Ht']]; [|by apply (st_info _ _ _ Hst t')].
        simpl. intros k gm Hk Hc. rewrite Hlen in Hc. by eapply Hnc in Hc.
      * apply Hst.
    + intros t'. rewrite elem_of_union, elem_of_singleton, (ci_reg _ _ _ _ _ _ HI).
      destruct (decide (t = t')) as [<-|Hne].
      * rewrite lookup_insert. naive_solver.
      * rewrite lookup_insert_ne by done. naive_solver.
    + intros t'. rewrite (ci_grp _ _ _ _ _ _ HI). destruct (decide (t = t')) as [<-|Hne].
      * rewrite lookup_insert, Ht. split; [by intros (? & ? & ? & ? & _)|].
        intros (m & k & gm & [= <-] & Hk & Hc). exfalso. simpl in Hc. rewrite Hlen in Hc. by eapply Hnc in Hc.
      * by rewrite lookup_insert_ne.
    + intros t' m d e v Ht' Hd. apply lookup_insert_Some in Ht' as [[<- <-]|[Hne Ht']].
      * simpl in Hd. rewrite Hlen, lookup_app_r, Nat.sub_diag in Hd by done. inversion Hd; subst.
        split; [by intros ?%elem_of_nil|]. intros H. by apply (ci_types _ _ _ _ _ _ HI) in H.
      * rewrite lookup_app_l in Hd by (by eapply (st_index _ _ _ Hst)). by eapply (ci_data _ _ _ _ _ _ HI).
    + intros e t' v H. apply (ci_types _ _ _ _ _ _ HI) in H. set_solver.
    + intros i d Hd Hi. apply lookup_app_Some in Hd as [Hd|[_ Hd]].
      * eapply (ci_spare _ _ _ _ _ _ HI); [done|]. intros t' m Ht'. apply (Hi t' m).
        rewrite lookup_insert_ne by congruence. done.
      * by apply list_lookup_singleton_Some in Hd as [_ <-].
    + intros k g e Hk Hnl Hall.
      assert (mem (cs_groups s) ds k e) as (g0 & d & Hg0 & Hd & He).
      { eapply (ci_complete _ _ _ _ _ _ HI); [done|done|]. intros i Hi. by apply Hhas, Hall. }
      exists g0, d. split_and!; [done| |done]. by apply lookup_app_l_Some.
Qed.

(** ** Dropping *)

Lemma drop_all_ok comps ds : Forall2 css_rep comps ds → drop_all comps = Ok (stored ds).
Proof.
  induction 1 as [|c d comps ds Hr _ IH]; simpl; [done|].
  rewrite (css_drop_ok c d Hr). simpl. rewrite IH. done.
Qed.
