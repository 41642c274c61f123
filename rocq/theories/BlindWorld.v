(** Every history: the version-blind invariant holds after every sequence of calls
    without undefined behaviour, and without groups there is none. *)
From Verif Require Import Base SparseVecM EntityM CssM MaskM LayoutM GroupM StorageM WorldM QueryM ParM StepM
  Spec SpecMore SpecQuery SpecSafety Lists SparseProofs CssProofs StorageProofs IterFacts
  BlindCss BlindStore BlindQuery BlindEnts BlindLayout BlindWrite.

Definition binv (w : world) (ds : list dense) : Prop := bestore (w_ents w) ∧ bstore (w_comps w) ds.

(** What a call that ends without undefined behaviour leaves: the invariant, and
    every value accounted for. *)
Definition bpost (ds : list dense) (vin : list val) (r : result) : Prop :=
  ub_free r.1.1 → ∃ ds', binv r.2 ds' ∧ vin ++ stored ds ≡ₚ r.1.2 ++ handed_out r.1.1 ++ stored ds'.

(** What a call leaves in a world without groups. *)
Definition ppost (r : result) : Prop := ub_free r.1.1 ∧ plain_store (w_comps r.2).

Lemma bpost_same w ds vin : binv w ds → ∀ out dr, vin = dr → handed_out out = [] → bpost ds vin (out, dr, w).
Proof. intros Hw out dr -> Hout _. exists ds. simpl. by rewrite Hout. Qed.

Lemma plain_comps gs mt comps comps' : plain_store (CStore gs mt comps) → plain_store (CStore gs mt comps').
Proof. by intros [H1 H2]. Qed.

Lemma plain_insert_mask s : plain_store s → ∀ t m, cs_meta s !! t = Some m → m_insert m = 0%N.
Proof. intros [_ H] t m Hm. by rewrite (H _ _ Hm). Qed.
Lemma plain_delete_mask s : plain_store s → ∀ t m, cs_meta s !! t = Some m → m_delete m = 0%N.
Proof. intros [_ H] t m Hm. by rewrite (H _ _ Hm). Qed.

Lemma set_insert_bl w ds e cs ok ghost : binv w ds → (e_index e < u32_lim)%N → handed_out (Ret ok) = [] →
  bpost ds cs.*2 (set_insert w e cs ok ghost) ∧
  (plain_store (w_comps w) → ppost (set_insert w e cs ok ghost)).
Proof.
  intros [He Hs] Hidx Hok. unfold set_insert. destruct w as [ents [gs mt comps]]. simpl in *.
  pose proof (bl_insert_loop mt e Hidx cs comps 0 (all_brep _ _ (bt_rep _ _ Hs)) (bt_in _ _ Hs)) as Hl.
  destruct (insert_loop mt comps 0 e cs) as [dr comps' mask|dr comps'|]; [..|done].
  - destruct Hl as [Hm Hmask]. destruct (bstore_moves _ gs _ _ _ _ _ _ Hs Hm) as (ds1 & Hs1 & Hp1).
    pose proof (group_if_keeps (CStore gs mt comps') mask e) as Hg. split.
    + destruct (group_if (CStore gs mt comps') mask e) as [s'| |]; [|intros []..].
      destruct (Hg s' eq_refl) as [Hk Hme]. destruct s' as [gs' mt' comps2]. simpl in *. subst mt'.
      destruct (bstore_keeps _ gs' _ _ _ _ Hs1 Hk) as (ds2 & Hs2 & Hp2).
      intros _. exists ds2. simpl. split; [done|]. unfold handed_out in Hok. simpl in Hok. rewrite Hok. simpl. by rewrite Hp2.
    + intros Hpl. rewrite (Hmask (plain_insert_mask _ Hpl)). simpl. by split; [|eapply plain_comps].
  - destruct (bstore_moves _ gs _ _ _ _ _ _ Hs Hl) as (ds1 & Hs1 & Hp1). split.
    + intros _. exists ds1. by split.
    + intros Hpl. by split; [|eapply plain_comps].
Qed.

Lemma zip_snd {A B} : ∀ (l : list A) (k : list B), length l = length k → (zip l k).*2 = k.
Proof. induction l as [|x l IH]; intros [|y k] H; simplify_eq/=; [done|]. f_equal. by apply IH. Qed.

Lemma zip_fst_in {A B} (P : A → Prop) : ∀ (l : list A) (k : list B), Forall P l → Forall (λ p : A * B, P p.1) (zip l k).
Proof. induction l as [|x l IH]; intros [|y k] H; simpl; try constructor; inversion H; subst; auto. Qed.

Lemma extend_rows_bl is_ : ∀ rows ents comps,
  bestore ents → Forall (λ c, ∃ d, brep c d) comps → Forall (λ i, i < length comps) is_ →
  Forall (λ r, length r = length is_) rows →
  match extend_rows ents comps is_ rows with
  | RowsOk dr ents' comps' _ => bestore ents' ∧ bmoves (concat rows) dr comps comps' ∧
      length (estore_slice ents) ≤ length (estore_slice ents')
  | RowsPanic dr ents' comps' _ => bestore ents' ∧ bmoves (concat rows) dr comps comps'
  | RowsUB => False
  end.
Proof.
  induction rows as [|r rows IH]; intros ents comps He Hall Hin Hrows; simpl.
  { split_and!; [done|apply bkeeps_moves, bkeeps_refl|done]. }
  apply Forall_cons in Hrows as [Hr Hrows]. pose proof (be_create _ He) as Hc.
  destruct (estore_create ents) as [[e ents1]| |]; [..|done].
  - destruct Hc as (He1 & Hidx & Hlen).
    destruct (bl_insert_row e Hidx (zip is_ r) comps Hall) as (comps1 & dr & Heq & Hm).
    { by apply (zip_fst_in (λ i, i < length comps)). }
    rewrite Heq. rewrite zip_snd in Hm by done.
    specialize (IH ents1 comps1 He1 (bmoves_all _ _ _ _ Hm Hall)). rewrite (proj1 Hm) in IH. specialize (IH Hin Hrows).
    destruct (extend_rows ents1 comps1 is_ rows) as [dr' ents2 comps2 new|dr' ents2 comps2 new|]; [..|done].
    + destruct IH as (H1 & H2 & H3). split_and!; [done|exact (bmoves_trans _ _ _ _ _ _ _ Hm H2)|lia].
    + destruct IH as (H1 & H2). split_and!; [done|exact (bmoves_trans _ _ _ _ _ _ _ Hm H2)].
  - split; [done|]. split; [done|]. intros ds Hd. by exists ds.
Qed.

Lemma set_extend_bl w ds ts rows b : binv w ds → Forall (λ r, length r = length ts) rows →
  bpost ds (concat rows) (set_extend w ts rows b) ∧
  (plain_store (w_comps w) → ppost (set_extend w ts rows b)).
Proof.
  intros [He Hs] Hrows. unfold set_extend. destruct w as [ents [gs mt comps]]. simpl in *.
  destruct (lookup_metas mt m_insert ts) as [[is_ mask]|] eqn:El.
  2:{ split; [by apply bpost_same|done]. }
  destruct (bl_lookup_metas _ _ _ (bt_in _ _ Hs) _ _ _ El) as (Hin & Hlen & Hmask).
  pose proof (extend_rows_bl is_ rows ents comps He (all_brep _ _ (bt_rep _ _ Hs)) Hin) as Hr.
  rewrite Hlen in Hr. specialize (Hr Hrows).
  destruct (extend_rows ents comps is_ rows) as [dr ents1 comps1 new|dr ents1 comps1 new|]; [..|done].
  - destruct Hr as (He1 & Hm & Hle). destruct (bstore_moves _ gs _ _ _ _ _ _ Hs Hm) as (ds1 & Hs1 & Hp1).
    destruct b.
    { split; [intros _; by exists ds1|]. intros Hpl. by split; [|eapply plain_comps]. }
    rewrite (proj2 (Nat.leb_le _ _) Hle). split.
    + destruct (mask =? 0)%N; [intros _; by exists ds1|].
      pose proof (group_each_keeps mask (drop (length (estore_slice ents)) (estore_slice ents1)) comps1 gs) as Hg.
      destruct (group_each _ _ _ _) as [[comps2 gs2]| |]; [|intros []..].
      specialize (Hg _ eq_refl). simpl in Hg. destruct (bstore_keeps _ gs2 _ _ _ _ Hs1 Hg) as (ds2 & Hs2 & Hp2).
      intros _. exists ds2. split; [done|]. simpl. by rewrite Hp2.
    + intros Hpl. rewrite (Hmask (plain_insert_mask _ Hpl)). simpl. by split; [|eapply plain_comps].
  - destruct Hr as (He1 & Hm). destruct (bstore_moves _ gs _ _ _ _ _ _ Hs Hm) as (ds1 & Hs1 & Hp1).
    split; [intros _; by exists ds1|]. intros Hpl. by split; [|eapply plain_comps].
Qed.

Lemma set_remove_bl w ds e ts : binv w ds →
  bpost ds [] (set_remove w e ts) ∧ (plain_store (w_comps w) → ppost (set_remove w e ts)).
Proof.
  intros [He Hs]. unfold set_remove. destruct w as [ents [gs mt comps]]. simpl in *.
  destruct (lookup_metas mt m_delete ts) as [[is_ mask]|] eqn:El.
  2:{ split; [by apply bpost_same|done]. }
  destruct (bl_lookup_metas _ _ _ (bt_in _ _ Hs) _ _ _ El) as (Hin & Hlen & Hmask). split.
  - pose proof (ungroup_if_keeps (CStore gs mt comps) mask e) as Hg.
    destruct (ungroup_if (CStore gs mt comps) mask e) as [s1| |]; [|intros []..].
    destruct (Hg s1 eq_refl) as [Hk Hme]. destruct s1 as [gs1 mt1 comps1]. simpl in *. subst mt1.
    destruct (bstore_keeps _ gs1 _ _ _ _ Hs Hk) as (ds1 & Hs1 & Hp1).
    destruct (bl_remove_each e is_ comps1) as (comps2 & vs & -> & Hm).
    { by eapply all_brep, Hs1. } { by rewrite (proj1 Hk). }
    destruct (bstore_moves _ gs1 _ _ _ _ _ _ Hs1 Hm) as (ds2 & Hs2 & Hp2).
    intros _. exists ds2. split; [done|]. simpl in *. by rewrite <-Hp1.
  - intros Hpl. rewrite (Hmask (plain_delete_mask _ Hpl)). simpl.
    destruct (bl_remove_each e is_ comps) as (comps2 & vs & -> & Hm).
    { by eapply all_brep, Hs. } { done. }
    by split; [|eapply plain_comps].
Qed.

Lemma set_delete_bl w ds e ts : binv w ds →
  bpost ds [] (set_delete w e ts) ∧ (plain_store (w_comps w) → ppost (set_delete w e ts)).
Proof.
  intros [He Hs]. unfold set_delete. destruct w as [ents [gs mt comps]]. simpl in *.
  destruct (lookup_metas mt m_delete ts) as [[is_ mask]|] eqn:El.
  2:{ split; [by apply bpost_same|done]. }
  destruct (bl_lookup_metas _ _ _ (bt_in _ _ Hs) _ _ _ El) as (Hin & Hlen & Hmask). split.
  - pose proof (ungroup_if_keeps (CStore gs mt comps) mask e) as Hg.
    destruct (ungroup_if (CStore gs mt comps) mask e) as [s1| |]; [|intros []..].
    destruct (Hg s1 eq_refl) as [Hk Hme]. destruct s1 as [gs1 mt1 comps1]. simpl in *. subst mt1.
    destruct (bstore_keeps _ gs1 _ _ _ _ Hs Hk) as (ds1 & Hs1 & Hp1).
    destruct (bl_delete_list e is_ comps1) as (comps2 & vs & -> & Hm).
    { by eapply all_brep, Hs1. } { by rewrite (proj1 Hk). }
    destruct (bstore_moves _ gs1 _ _ _ _ _ _ Hs1 Hm) as (ds2 & Hs2 & Hp2).
    intros _. exists ds2. split; [done|]. simpl in *. by rewrite <-Hp1.
  - intros Hpl. rewrite (Hmask (plain_delete_mask _ Hpl)). simpl.
    destruct (bl_delete_list e is_ comps) as (comps2 & vs & -> & Hm).
    { by eapply all_brep, Hs. } { done. }
    by split; [|eapply plain_comps].
Qed.

Lemma create_bl w ds cs : binv w ds →
  bpost ds cs.*2 (world_create w cs) ∧ (plain_store (w_comps w) → ppost (world_create w cs)).
Proof.
  intros [He Hs]. unfold world_create. pose proof (be_create _ He) as Hc.
  destruct (estore_create (w_ents w)) as [[e ents]| |]; [..|done].
  - destruct Hc as (He1 & Hidx & _). by apply (set_insert_bl (World ents (w_comps w))).
  - split; [by apply bpost_same|done].
Qed.

Lemma insert_bl w ds e cs : binv w ds →
  bpost ds cs.*2 (world_insert w e cs) ∧ (plain_store (w_comps w) → ppost (world_insert w e cs)).
Proof.
  intros HI. unfold world_insert. destruct (estore_contains (w_ents w) e) eqn:E.
  - apply set_insert_bl; [done| |done]. by eapply be_contains; [apply HI|].
  - split; [by apply bpost_same|done].
Qed.

Lemma delete_each_length e : ∀ l l' vs, delete_each l e = Ok (l', vs) → length l' = length l.
Proof.
  induction l as [|c l IH]; intros l' vs H; simpl in H; [by simplify_eq|].
  destruct (css_delete c e) as [r| |]; [|done..]. simpl in H.
  destruct (delete_each l e) as [[l2 vs2]| |]; [|done..]. simpl in H. simplify_eq. simpl. f_equal. by eapply IH.
Qed.

Lemma clear_each_length : ∀ l l' vs, clear_each l = Ok (l', vs) → length l' = length l.
Proof.
  induction l as [|c l IH]; intros l' vs H; simpl in H; [by simplify_eq|].
  destruct (css_clear c) as [r| |]; [|done..]. simpl in H.
  destruct (clear_each l) as [[l2 vs2]| |]; [|done..]. simpl in H. simplify_eq. simpl. f_equal. by eapply IH.
Qed.

Lemma destroy_bl w ds e : binv w ds →
  bpost ds [] (world_destroy w e) ∧ (plain_store (w_comps w) → ppost (world_destroy w e)).
Proof.
  intros [He Hs]. unfold world_destroy. destruct (be_remove _ e He) as (b & ents & -> & He1).
  destruct b; [|split; [by apply bpost_same|done]]. unfold strip, ungroup_all.
  destruct w as [ents0 [gs mt comps]]. simpl in *. split.
  - destruct (ungroup_all_from _ comps gs e) as [r| |] eqn:Eu; [|intros []..]. simpl.
    apply ungroup_all_keeps in Eu as Hk.
    destruct (bstore_keeps _ r.2 _ _ _ _ Hs Hk) as (ds1 & Hs1 & Hp1).
    destruct (bl_delete_each e _ _ (bt_rep _ _ Hs1)) as (comps2 & vs & ds2 & Heq & Hr2 & Hp2). simpl in Heq. rewrite Heq. simpl.
    intros _. exists ds2. split.
    + split; [done|]. split; simpl; [done| |apply Hs1].
      rewrite (delete_each_length _ _ _ _ Heq). apply Hs1.
    + simpl. by rewrite <-Hp1, <-Hp2.
  - intros Hpl. pose proof (pl_groups _ Hpl) as Hg. simpl in Hg. subst gs. simpl.
    destruct (bl_delete_each e _ _ (bt_rep _ _ Hs)) as (comps2 & vs & ds2 & Heq & Hr2 & Hp2). simpl in Heq. rewrite Heq. simpl.
    by split; [|eapply plain_comps].
Qed.

Lemma cstore_clear_bl s ds : bstore s ds →
  ∃ s' ds', cstore_clear s = Ok (s', stored ds) ∧ bstore s' ds' ∧ stored ds' = [] ∧ (plain_store s → plain_store s').
Proof.
  intros Hs. unfold cstore_clear. destruct (bl_clear_each _ _ (bt_rep _ _ Hs)) as (comps & Heq & Hr).
  rewrite Heq. simpl. eexists _, _. split; [done|]. split_and!.
  - split; simpl; [exact Hr|rewrite (clear_each_length _ _ _ Heq); apply Hs|apply Hs].
  - apply stored_nils.
  - intros [H1 H2]. split; simpl; [by rewrite H1|done].
Qed.

Lemma clear_bl w ds : binv w ds →
  bpost ds [] (world_clear w) ∧ (plain_store (w_comps w) → ppost (world_clear w)).
Proof.
  intros [He Hs]. unfold world_clear. destruct (be_clear _ He) as (ents & -> & Hc & _).
  destruct (cstore_clear_bl _ _ Hs) as (s' & ds' & -> & Hs' & Hn & Hpl). split.
  - intros _. exists ds'. split; [done|]. simpl. by rewrite Hn, app_nil_r.
  - intros H. split; [done|]. by apply Hpl.
Qed.

Lemma reset_bl w ds : binv w ds →
  bpost ds [] (world_reset w) ∧ (plain_store (w_comps w) → ppost (world_reset w)).
Proof.
  intros [He Hs]. unfold world_reset. destruct (cstore_clear_bl _ _ Hs) as (s' & ds' & -> & Hs' & Hn & Hpl). split.
  - intros _. exists ds'. split; [split; [|done]|simpl; by rewrite Hn, app_nil_r]. simpl. apply bestore_new.
  - intros H. split; [done|]. by apply Hpl.
Qed.

Lemma create_atomic_bl w ds : binv w ds →
  bpost ds [] (world_create_atomic w) ∧ (plain_store (w_comps w) → ppost (world_create_atomic w)).
Proof.
  intros [He Hs]. unfold world_create_atomic. pose proof (be_create_atomic _ He) as Hc.
  destruct (estore_create_atomic (w_ents w)) as [[e ents]| |]; [..|done]; (split; [by apply bpost_same|done]).
Qed.

Lemma maintain_bl w ds : binv w ds →
  bpost ds [] (world_maintain w) ∧ (plain_store (w_comps w) → ppost (world_maintain w)).
Proof.
  intros [He Hs]. unfold world_maintain. destruct (be_maintain _ He) as (ents & -> & Hc).
  split; [by apply bpost_same|done].
Qed.

Lemma register_bl w ds t : binv w ds →
  bpost ds [] (world_register w t) ∧ (plain_store (w_comps w) → ppost (world_register w t)).
Proof.
  intros [He Hs]. unfold world_register. destruct (bl_register _ _ t Hs) as (ds' & Hs' & Hn).
  pose proof (plain_register (w_comps w) t) as Hp. destruct (register_dyn (w_comps w) t) as [b s]. simpl in *. split.
  - intros _. exists ds'. split; [done|]. simpl. by rewrite Hn.
  - intros H. split; [done|]. by apply Hp.
Qed.

Lemma set_layout_bl w ds l perm : binv w ds →
  bpost ds [] (world_set_layout w l perm) ∧ (l = [] → ppost (world_set_layout w l perm)).
Proof.
  intros [He Hs]. unfold world_set_layout. split.
  - pose proof (bl_set_layout _ _ l perm (estore_slice (w_ents w)) Hs) as Hl.
    destruct (set_layout _ _ _ _) as [s'|vs s'|]; [..|intros []].
    + destruct Hl as (ds' & Hs' & Hp). intros _. exists ds'. split; [done|]. simpl. by rewrite Hp.
    + destruct Hl as (ds' & Hs' & Hp). intros _. exists ds'. split; [done|]. simpl. by rewrite Hp.
  - intros ->. destruct (plain_set_layout _ _ perm (estore_slice (w_ents w)) Hs) as (s' & -> & Hp). by split.
Qed.

Lemma world_set_bl w ds t e v : binv w ds →
  bpost ds [v] (world_set w t e v) ∧ (plain_store (w_comps w) → ppost (world_set w t e v)).
Proof.
  intros [He Hs]. unfold world_set. destruct w as [ents [gs mt comps]]. simpl in *.
  destruct (mt !! t) as [m|] eqn:Em; [|split; [by apply bpost_same|done]].
  pose proof (bt_in _ _ Hs _ _ Em) as Hm. simpl in Hm.
  destruct (lookup_lt_is_Some_2 comps _ Hm) as [c Hc]. rewrite Hc.
  destruct (bsts_lookup _ _ _ _ (bt_rep _ _ Hs) Hc) as (d & Hd & k & Hb).
  destruct (bc_get_ref _ _ _ Hb e) as (r & -> & Hr).
  destruct r as [[i old]|]; [|split; [by apply bpost_same|done]].
  destruct (Hr _ _ eq_refl) as [e0 Hi]. destruct (bc_set_safe _ _ _ Hb _ _ _ v Hi) as [c' Hc']. rewrite Hc'.
  split; [|intros Hpl; by split; [|eapply plain_comps]].
  assert (bmoves [v] [old] comps (<[m_index m := c']> comps)) as Hmv.
  { apply (bmoves_one _ _ c); [done|]. intros d1 [k1 Hb1].
    destruct (bc_get_ref _ _ _ Hb e) as (r & Hr1 & _).
    destruct (bc_set _ _ _ Hb1 _ _ _ Hc') as (e1 & old1 & Hi1 & Hb1'). exists (<[i := (e1, v)]> d1). split; [done|].
    assert (old1 = old) as ->.
    { destruct (bc_cells _ _ _ Hb _ _ _ Hi) as [_ G1]. destruct (bc_cells _ _ _ Hb1 _ _ _ Hi1) as [_ G2]. congruence. }
    rewrite list_fmap_insert. apply (f_equal (fmap snd)) in Hi1. simpl in Hi1. rewrite <-list_lookup_fmap in Hi1. simpl.
    clear -Hi1. revert i Hi1. generalize d1.*2. induction l as [|x l IH]; intros [|i] H; simplify_eq/=; [apply Permutation_swap|].
    etrans; [apply Permutation_swap|]. etrans; [|apply Permutation_swap]. f_equiv. by apply IH. }
  destruct (bstore_moves _ gs _ _ _ _ _ _ Hs Hmv) as (ds' & Hs' & Hp).
  intros _. exists ds'. by split.
Qed.

Lemma query_for_each_safe w G J X f : bst (w_comps w) → plain_store (w_comps w) → query_for_each w G J X f ≠ UB.
Proof.
  intros Hb Hpl. unfold query_for_each.
  destruct (borrow3_bl w G J X Hb) as [->|(g & i & x & -> & Hg & V1 & V2 & V3 & I1 & I2 & I3)]; [done|].
  destruct (query_iter_plain w g i x Hb Hpl V1 V2 V3 I1 I2 I3) as (it & -> & Hin & Hv).
  assert (Forall (vreg (w_comps w)) g) as Hvr by (eapply Forall_impl; [exact V1|apply vview_vreg]).
  destruct it as [ents x' i' g'|lo hi ents g']; simpl in Hin, Hv; subst g'.
  - destruct (sparse_for_each_safe f G x' i' g Hg ents _ Hb Hvr) as [r ->]. done.
  - pose proof (range_in_tlen _ _ _ _ V1 Hin) as Hr. destruct Hin as [Hle _].
    destruct (dense_for_each_safe f G ents g hi Hg Hle (seq lo (hi - lo)) _ Hb Hvr Hr) as [r ->]; [|done].
    intros k Hk%elem_of_seq. lia.
Qed.

Lemma for_each_bl w ds G J X f : binv w ds →
  bpost ds (handed_in (OForEach G J X f) (world_for_each w G J X f).1.1) (world_for_each w G J X f) ∧
  (plain_store (w_comps w) → ppost (world_for_each w G J X f)).
Proof.
  intros [He Hs]. unfold world_for_each. split.
  - pose proof (query_for_each_wrote w G J X f) as Hw.
    destruct (query_for_each w G J X f) as [[[[s es] o] n]| |]; [..|intros []].
    + specialize (Hw _ _ _ _ eq_refl). destruct (bwrote_bstore _ _ _ _ _ Hs Hw) as (ds' & Hs' & Hp).
      intros _. exists ds'. by split.
    + by apply bpost_same.
  - intros Hpl. pose proof (query_for_each_safe w G J X f (bstore_bst _ _ Hs) Hpl) as Hu.
    pose proof (query_for_each_wrote w G J X f) as Hw.
    destruct (query_for_each w G J X f) as [[[[s es] o] n]| |].
    + split; [done|]. simpl. eapply bwrote_plain; [done|]. by eapply Hw.
    + by split.
    + by destruct Hu.
Qed.

Lemma step_bl w ds o : binv w ds → op_ok o →
  bpost ds (handed_in o (step w o).1.1) (step w o) ∧
  (plain_store (w_comps w) → no_groups o → ppost (step w o)).
Proof.
  intros HI Hok. destruct o; simpl.
  - destruct (create_bl w ds cs HI); eauto.
  - destruct (set_extend_bl w ds ts rows ends_in_panic HI Hok); eauto.
  - destruct (destroy_bl w ds e HI); eauto.
  - destruct (create_atomic_bl w ds HI); eauto.
  - destruct (maintain_bl w ds HI); eauto.
  - destruct (insert_bl w ds e cs HI); eauto.
  - destruct (set_remove_bl w ds e ts HI); eauto.
  - destruct (set_delete_bl w ds e ts HI); eauto.
  - destruct (clear_bl w ds HI); eauto.
  - destruct (reset_bl w ds HI); eauto.
  - destruct (register_bl w ds t HI); eauto.
  - destruct (set_layout_bl w ds l perm HI); eauto.
  - destruct (world_set_bl w ds t e v HI); eauto.
  - destruct (for_each_bl w ds G J X f HI); eauto.
Qed.
