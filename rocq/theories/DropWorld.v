(** Dropping the world when a [Drop] panics: exactly which components are dropped. *)
From Verif Require Import Base Lists SparseVecM EntityM CssM MaskM LayoutM GroupM StorageM WorldM QueryM StepM DropPanicM
  CssProofs Spec SpecMore SpecDrop StorageProofs WorldProofs Contents History DropPanicProofs.

Lemma drop_cells_until bomb n : ∀ b i vs, buf_slice (drop i b) n = Ok vs →
  ∃ b', drop_cells bomb b i n = Ok (existsb bomb vs, b', until_bomb bomb vs).
Proof.
  induction n as [|n IH]; intros b i vs Hs.
  - assert (vs = []) as -> by (destruct (drop i b); simpl in Hs; congruence). by exists b.
  - apply buf_slice_S in Hs as (v & vs' & -> & Hi & Hs). simpl. unfold buf_read, buf_write. rewrite Hi. simpl.
    pose proof (lookup_lt_Some _ _ _ Hi) as Hlt. destruct (Nat.ltb_spec i (length b)); [|lia]. simpl.
    destruct (bomb v) eqn:Hb; simpl; [by eexists|].
    specialize (IH (<[i := None]> b) (S i) vs'). rewrite drop_insert_gt in IH by lia.
    destruct (IH Hs) as [b' ->]. by exists b'.
Qed.

Definition untils (bomb : val → bool) (ds : list dense) : list val := concat ((λ d, until_bomb bomb d.*2) <$> ds).

Lemma drop_all_p_until bomb comps ds : Forall2 css_rep comps ds →
  drop_all_p bomb comps = Ok (existsb bomb (stored ds), untils bomb ds).
Proof.
  induction 1 as [|c d comps ds Hr _ IH]; simpl; [done|]. unfold stored in *. simpl. rewrite existsb_app, IH.
  unfold css_drop_p. assert (buf_slice (c_comps c) (c_len c) = Ok d.*2) as Hs by by apply css_slice_ok.
  destruct (drop_cells_until bomb (c_len c) (c_comps c) 0 d.*2 Hs) as [b' ->]. done.
Qed.

(** A list of lists, taken at some positions, when the others are empty. *)
Lemma concat_at {A} (F : nat → list A) n is_ : NoDup is_ → Forall (λ i, i < n) is_ → (∀ i, i < n → i ∉ is_ → F i = []) →
  concat (F <$> seq 0 n) ≡ₚ concat (F <$> is_).
Proof.
  intros Hnd Hlt He.
  assert (is_ ⊆+ seq 0 n) as [k Hk]%submseteq_Permutation.
  { apply NoDup_submseteq; [done|]. intros i Hi. apply elem_of_seq. pose proof (proj1 (Forall_forall _ _) Hlt i Hi). simpl in *. lia. }
  rewrite Hk, fmap_app, concat_app.
  assert (concat (F <$> k) = []) as ->; [|by rewrite app_nil_r].
  assert (NoDup (is_ ++ k)) as (_ & Hdis & _)%NoDup_app by (rewrite <-Hk; apply NoDup_seq).
  assert (∀ i, i ∈ k → F i = []) as Hn.
  { intros i Hi. apply He; [|intros Hi'; by eapply Hdis].
    assert (i ∈ seq 0 n) as Hs by (rewrite Hk, elem_of_app; by right). apply elem_of_seq in Hs. lia. }
  clear -Hn. induction k as [|i k IH]; [done|]. simpl. rewrite Hn by constructor. simpl. apply IH. intros j Hj. apply Hn. by constructor.
Qed.

Lemma drop_world_exactly_at w s bomb f : agreeing w s → (∀ t, t ∈ s_reg s → view_slice w t = Ok (f t)) →
  ∃ p vs, drop_all_p bomb (cs_comps (w_comps w)) = Ok (p, vs) ∧
    (p = true ↔ ∃ e t v, s_row s e !! t = Some v ∧ bomb v = true) ∧
    vs ≡ₚ concat ((λ t, until_bomb bomb (f t)) <$> elements (s_reg s)).
Proof.
  intros (_ & ds & HI)%agreeing_inv Hf. pose proof HI as [HE HC].
  eexists _, _. split; [by apply drop_all_p_until; apply HC|]. split; [by eapply existsb_stored|].
  set (idx := λ t, match cs_meta (w_comps w) !! t with Some m => m_index m | None => 0 end).
  set (F := λ i, match ds !! i with Some d => until_bomb bomb d.*2 | None => [] end).
  assert (untils bomb ds = concat (F <$> seq 0 (length ds))) as ->.
  { unfold untils. f_equal. apply list_eq. intros i. rewrite !list_lookup_fmap. destruct (ds !! i) as [d|] eqn:Hd.
    - rewrite lookup_seq_lt by (by eapply lookup_lt_Some). simpl. unfold F. by rewrite Hd.
    - rewrite lookup_seq_ge by (by apply lookup_ge_None). done. }
  pose proof (ci_static _ _ _ _ _ _ HC) as Hst.
  assert (∀ t, t ∈ s_reg s → ∃ m, cs_meta (w_comps w) !! t = Some m ∧ idx t = m_index m) as Hm.
  { intros t [m Hm]%(ci_reg _ _ _ _ _ _ HC). exists m. split; [done|]. unfold idx. by rewrite Hm. }
  rewrite (concat_at F (length ds) (idx <$> elements (s_reg s))).
  - rewrite <-list_fmap_compose. apply reflexive_eq. f_equal. apply list_fmap_ext. intros i t Ht.
    apply elem_of_list_lookup_2, elem_of_elements in Ht. destruct (Hm t Ht) as (m & Hmt & Hi). simpl. rewrite Hi.
    destruct (ci_lookup _ _ _ _ _ _ HC t m Hmt) as (c & d & Hc & Hd & Hrep). unfold F. rewrite Hd.
    pose proof (Hf t Ht) as Hv. unfold view_slice, cs_borrow in Hv. rewrite Hmt, Hc, (css_slice_ok _ _ Hrep) in Hv. by injection Hv as ->.
  - apply NoDup_fmap_2_strong; [|apply NoDup_elements]. intros t1 t2 Ht1%elem_of_elements Ht2%elem_of_elements He.
    destruct (Hm t1 Ht1) as (m1 & H1 & E1). destruct (Hm t2 Ht2) as (m2 & H2 & E2).
    eapply (st_inj _ _ _ Hst); [done..|]. congruence.
  - apply Forall_fmap, Forall_forall. intros t Ht%elem_of_elements. destruct (Hm t Ht) as (m & H1 & E1). simpl. rewrite E1.
    by eapply (st_index _ _ _ Hst).
  - intros i Hi Hn. unfold F. destruct (ds !! i) as [d|] eqn:Hd; [|done].
    rewrite (ci_spare _ _ _ _ _ _ HC i d Hd); [done|]. intros t m Ht <-. apply Hn.
    apply elem_of_list_fmap. exists t. assert (t ∈ s_reg s) as Hr by (apply (ci_reg _ _ _ _ _ _ HC); by exists m).
    destruct (Hm t Hr) as (m' & H1 & E1). split; [congruence|by apply elem_of_elements].
Qed.
Lemma drop_world_exactly w s bomb f : reachable w s → (∀ t, t ∈ s_reg s → view_slice w t = Ok (f t)) →
  ∃ p vs, drop_all_p bomb (cs_comps (w_comps w)) = Ok (p, vs) ∧
    (p = true ↔ ∃ e t v, s_row s e !! t = Some v ∧ bomb v = true) ∧
    vs ≡ₚ concat ((λ t, until_bomb bomb (f t)) <$> elements (s_reg s)).
Proof. exact (λ Hr, drop_world_exactly_at w s bomb f (reachable_agreeing _ _ Hr)). Qed.
