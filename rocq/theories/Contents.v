(** The stored values are those of the client's map. *)
From Verif Require Import Base Lists SparseVecM EntityM CssM MaskM LayoutM GroupM StorageM WorldM QueryM StepM
  SparseProofs CssProofs MaskProofs GroupProofs Spec EntityProofs LayoutProofs StorageProofs StoreOps LayoutOps
  WorldProofs.

Lemma NoDup_bind_disjoint {A B} (f : A → list B) (l : list A) :
  NoDup l → (∀ x, x ∈ l → NoDup (f x)) →
  (∀ x y z, x ∈ l → y ∈ l → z ∈ f x → z ∈ f y → x = y) → NoDup (l ≫= f).
Proof.
  induction l as [|x l IH]; intros Hnd Hf Hd; [constructor|]. apply NoDup_cons in Hnd as [Hx Hnd]. simpl.
  apply NoDup_app. split_and!.
  - apply Hf. by left.
  - intros z Hz (y & Hy & Hin)%elem_of_list_bind. apply Hx.
    by rewrite (Hd x y z); [|left|right|..].
  - apply IH; [done| |].
    + intros y Hy. apply Hf. by right.
    + intros y1 y2 z H1 H2. apply Hd; by right.
Qed.

Fixpoint tagged (k : nat) (ds : list dense) : list (nat * entity * val) :=
  match ds with
  | [] => []
  | d :: ds => ((λ ev : entity * val, (k, ev.1, ev.2)) <$> d) ++ tagged (S k) ds
  end.

Lemma tagged_stored ds : ∀ k, (tagged k ds).*2 = stored ds.
Proof.
  induction ds as [|d ds IH]; intros k; [done|]. simpl. rewrite fmap_app, IH. unfold stored. simpl. f_equal.
  rewrite <-list_fmap_compose. done.
Qed.

Lemma tagged_elem ds : ∀ k i e v, (i, e, v) ∈ tagged k ds ↔ ∃ j d, i = k + j ∧ ds !! j = Some d ∧ (e, v) ∈ d.
Proof.
  induction ds as [|d ds IH]; intros k i e v; simpl.
  - split; [by intros ?%elem_of_nil|by intros (j & ? & _ & ? & _)].
  - rewrite elem_of_app, elem_of_list_fmap, IH. split.
    + intros [([e' v'] & [= -> -> ->] & Hin)|(j & d' & -> & Hd & Hin)].
      * exists 0, d. split_and!; [lia|done|done].
      * exists (S j), d'. split_and!; [lia|done|done].
    + intros ([|j] & d' & -> & Hd & Hin); simpl in Hd.
      * simplify_eq. left. exists (e, v). split; [|done]. simpl. do 2 f_equal. lia.
      * right. exists j, d'. split_and!; [lia|done|done].
Qed.

Lemma tagged_nodup ds : ∀ k, dnodup ds → NoDup (tagged k ds).
Proof.
  induction ds as [|d ds IH]; intros k Hnd; simpl; [constructor|]. apply NoDup_app. split_and!.
  - apply NoDup_fmap_2_strong.
    + by intros [e v] [e' v'] _ _ [= -> ->].
    + eapply NoDup_fmap_1. apply (Hnd 0 d). done.
  - intros [[i e] v] ([e' v'] & [= -> -> ->] & _)%elem_of_list_fmap (j & d' & Hj & _)%tagged_elem. lia.
  - apply IH. intros i d' Hd. by apply (Hnd (S i)).
Qed.

Lemma stored_contents w s ds : winv w s ds → stored ds ≡ₚ contents s.
Proof.
  intros [HE HC].
  set (idx := λ t, default 0 (m_index <$> cs_meta (w_comps w) !! t)).
  set (L := map_to_list (s_map s) ≫= (λ er : entity * row, (λ tv : tid * val, (idx tv.1, er.1, tv.2)) <$> map_to_list er.2)).
  assert (L.*2 = contents s) as <-.
  { unfold L, contents. clear. induction (map_to_list (s_map s)) as [|[e r] l IH]; [done|]. csimpl.
    rewrite fmap_app, IH. f_equal. by rewrite <-list_fmap_compose. }
  rewrite <-(tagged_stored ds 0). apply fmap_Permutation.
  assert (∀ t m, cs_meta (w_comps w) !! t = Some m → idx t = m_index m) as Hidx by (intros t m Ht; unfold idx; by rewrite Ht).
  assert (∀ e r t v, s_map s !! e = Some r → r !! t = Some v → ∃ m, cs_meta (w_comps w) !! t = Some m) as Hty.
  { intros e r t v Hr Hv. assert (is_Some (cs_meta (w_comps w) !! t)) as [m Hm]; [|eauto].
    apply (ci_reg _ _ _ _ _ _ HC). eapply (ci_types _ _ _ _ _ _ HC). by exists r. }
  apply NoDup_Permutation.
  - apply tagged_nodup. eapply css_rep_dnodup, (ci_rep _ _ _ _ _ _ HC).
  - apply NoDup_bind_disjoint.
    + apply NoDup_map_to_list.
    + intros [e r] Hr%elem_of_map_to_list. simpl. apply NoDup_fmap_2_strong; [|apply NoDup_map_to_list].
      intros [t v] [t' v'] Ht%elem_of_map_to_list Ht'%elem_of_map_to_list [= Hi ->].
      destruct (Hty _ _ _ _ Hr Ht) as [m Hm], (Hty _ _ _ _ Hr Ht') as [m' Hm'].
      rewrite (Hidx _ _ Hm), (Hidx _ _ Hm') in Hi. f_equal.
      by eapply (st_inj _ _ _ (ci_static _ _ _ _ _ _ HC)).
    + intros [e r] [e' r'] [[i e''] v] Hr%elem_of_map_to_list Hr'%elem_of_map_to_list
        ([t1 v1] & [= _ -> _] & _)%elem_of_list_fmap ([t2 v2] & [= _ <- _] & _)%elem_of_list_fmap.
      simpl in *. congruence.
  - intros [[i e] v]. rewrite tagged_elem. unfold L. rewrite elem_of_list_bind. split.
    + intros (j & d & -> & Hd & Hin).
      destruct (decide (map_Exists (λ (t : tid) m, m_index m = j) (cs_meta (w_comps w)))) as [Hex|Hn].
      * destruct Hex as (t & m & Ht & Hj). subst j. destruct (proj1 (ci_data _ _ _ _ _ _ HC t m d e v Ht Hd) Hin) as (r & Hr & Hv).
        exists (e, r). split; [|by apply elem_of_map_to_list]. simpl. apply elem_of_list_fmap.
        exists (t, v). split; [|by apply elem_of_map_to_list]. simpl. by rewrite (Hidx _ _ Ht).
      * rewrite (ci_spare _ _ _ _ _ _ HC j d Hd) in Hin; [by apply elem_of_nil in Hin|].
        intros t m Ht Hi. apply Hn. by exists t, m.
    + intros ([e' r] & ([t v'] & [= -> -> ->] & Ht%elem_of_map_to_list)%elem_of_list_fmap & Hr%elem_of_map_to_list).
      simpl in *. destruct (Hty _ _ _ _ Hr Ht) as [m Hm]. rewrite (Hidx _ _ Hm).
      assert (m_index m < length ds) as Hlt by (by eapply (st_index _ _ _ (ci_static _ _ _ _ _ _ HC))).
      apply lookup_lt_is_Some in Hlt as [d Hd]. exists (m_index m), d. split_and!; [done|done|].
      apply (ci_data _ _ _ _ _ _ HC t m d _ _ Hm Hd). by exists r.
Qed.
