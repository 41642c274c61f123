(** [set_layout] that panics, and [set_layout] after it. *)
From stdpp Require Import sorting.
From Verif Require Import Base Lists SparseVecM EntityM CssM MaskM LayoutM GroupM StorageM WorldM QueryM StepM
  SparseProofs CssProofs MaskProofs GroupProofs Spec SpecMore SpecLayout SpecGroups SpecSafety SpecRepair EntityProofs LayoutProofs StorageProofs StoreOps LayoutOps
  WorldProofs QueryProofs QueryRange QueryIter History Contents Facts SafetyFacts.

(** ** The loops *)

(** Like [lay_inv], without the groups. *)
Record half (R : gset tid) (D : tid → dense) (V : list val) (st : sl_state) (ds : list dense) (P : gset tid) : Prop := {
  hf_rep : Forall2 css_rep (cs_comps st.1) ds;
  hf_index : ∀ t m, cs_meta st.1 !! t = Some m → m_index m < length ds;
  hf_inj : ∀ t t' m m', cs_meta st.1 !! t = Some m → cs_meta st.1 !! t' = Some m' → m_index m = m_index m' → t = t';
  hf_dom : ∀ t, t ∈ P ↔ is_Some (cs_meta st.1 !! t);
  hf_data : ∀ t m, cs_meta st.1 !! t = Some m → ds !! m_index m = Some (D t);
  hf_spare : ∀ i d, ds !! i = Some d → (∀ t m, cs_meta st.1 !! t = Some m → m_index m ≠ i) → d = [];
  hf_sets : ∀ t c, st.2 !! t = Some c → css_rep c (D t);
  hf_keys : ∀ t, is_Some (st.2 !! t) ↔ t ∈ R ∧ t ∉ P;
  hf_rest : ∀ t, t ∉ R → D t = [];
  hf_vals : stored ds ++ held D st.2 ≡ₚ V
}.

Lemma half_place R D V s sets ds P gs t m :
  half R D V (s, sets) ds P → t ∉ P → m_index m = length (cs_comps s) →
  half R D V (CStore gs (<[t := m]> (cs_meta s)) (cs_comps s ++ [default css_new (sets !! t)]), delete t sets)
    (ds ++ [D t]) ({[t]} ∪ P).
Proof.
  intros H Ht Hm. pose proof (Forall2_length _ _ _ (hf_rep _ _ _ _ _ _ H)) as Hlen. simpl in Hlen.
  assert (Hn : cs_meta s !! t = None).
  { apply eq_None_not_Some. intros Hs. by apply Ht, (hf_dom _ _ _ _ _ _ H). }
  assert (HD : sets !! t = None → D t = []).
  { intros Hnone. apply (hf_rest _ _ _ _ _ _ H). intros HR. assert (is_Some (sets !! t)) as [? ?]; [|congruence].
    by apply (hf_keys _ _ _ _ _ _ H). }
  split; simpl.
  - apply Forall2_app; [apply H|]. constructor; [|done]. destruct (sets !! t) as [c|] eqn:E; simpl.
    + by apply (hf_sets _ _ _ _ _ _ H t c).
    + rewrite HD by done. apply css_rep_new.
  - intros t' m' [[<- <-]|[Hne Hm']]%lookup_insert_Some; rewrite app_length; simpl; [lia|].
    apply (hf_index _ _ _ _ _ _ H) in Hm'. lia.
  - intros t1 t2 m1 m2 [[<- <-]|[H1 Hm1]]%lookup_insert_Some [[<- <-]|[H2 Hm2]]%lookup_insert_Some Heq; [done|..].
    + apply (hf_index _ _ _ _ _ _ H) in Hm2. lia.
    + apply (hf_index _ _ _ _ _ _ H) in Hm1. lia.
    + by eapply (hf_inj _ _ _ _ _ _ H).
  - intros t'. destruct (decide (t' = t)) as [->|Hne].
    + rewrite lookup_insert. split; [eauto|set_solver].
    + rewrite lookup_insert_ne by done. rewrite <-(hf_dom _ _ _ _ _ _ H t'). set_solver.
  - intros t' m' [[<- <-]|[Hne Hm']]%lookup_insert_Some.
    + rewrite Hm, Hlen, lookup_app_r by lia. by rewrite Nat.sub_diag.
    + apply lookup_app_l_Some. by apply (hf_data _ _ _ _ _ _ H).
  - intros i d Hd Hno. apply lookup_app_Some in Hd as [Hd|[Hle Hd]].
    + eapply (hf_spare _ _ _ _ _ _ H); [done|]. intros t' m' Hm'. simpl in Hm'. apply (Hno t'). rewrite lookup_insert_ne; [done|congruence].
    + exfalso. assert (i = length ds) as ->; [|by apply (Hno t m); [apply lookup_insert|lia]].
      apply lookup_lt_Some in Hd. simpl in Hd. lia.
  - intros t' c [_ Hc]%lookup_delete_Some. by apply (hf_sets _ _ _ _ _ _ H).
  - intros t'. destruct (decide (t' = t)) as [->|Hne].
    + rewrite lookup_delete. split; [by intros [? ?]|set_solver].
    + rewrite lookup_delete_ne by done. rewrite (hf_keys _ _ _ _ _ _ H t'). set_solver.
  - apply H.
  - rewrite <-(hf_vals _ _ _ _ _ _ H). simpl. unfold stored. rewrite bind_app. simpl. rewrite app_nil_r, <-(assoc_L (++)). f_equiv.
    destruct (sets !! t) as [c|] eqn:E.
    + by rewrite (held_delete D sets t) by (by rewrite E).
    + rewrite HD, delete_notin by done. done.
Qed.

Lemma half_groups R D V s sets ds P gs :
  half R D V (s, sets) ds P → half R D V (CStore gs (cs_meta s) (cs_comps s), sets) ds P.
Proof. intros []. by split. Qed.

Lemma take_extend (l : list tid) a b t : a ≤ b → t ∈ take b l ↔ t ∈ take a l ∨ t ∈ take (b - a) (drop a l).
Proof.
  intros Hab. rewrite <-elem_of_app. replace (take a l ++ take (b - a) (drop a l)) with (take b l); [done|].
  rewrite <-(take_drop a (take b l)), take_take, skipn_firstn_comm. by rewrite Nat.min_l by lia.
Qed.

Lemma sl_comps_half R D V fam G ge ngs im dm n : ∀ local s sets ds P,
  half R D V (s, sets) ds P → NoDup (f_comps fam) → (∀ t, t ∈ drop local (f_comps fam) → t ∉ P) →
  local + n ≤ length (f_comps fam) → local + n ≤ 16 → gm_from_to G ge = Some im → gm_from_to ngs ge = Some dm →
  ∃ st ds', sl_comps fam G ge ngs local n (s, sets) = Done st ∧
    half R D V st ds' (list_to_set (take n (drop local (f_comps fam))) ∪ P) ∧ cs_groups st.1 = cs_groups s.
Proof.
  induction n as [|n IH]; intros local s sets ds P H Hnd HP Hl H16 Him Hdm.
  { rewrite take_0. exists (s, sets), ds. split_and!; try done. simpl. by rewrite (left_id_L ∅ (∪)). }
  destruct (lookup_lt_is_Some_2 (f_comps fam) local) as [t Ht]; [lia|].
  destruct (sm_single_ok local) as (sm & Hsm & _); [lia|].
  rewrite (slice_cons _ _ _ t Ht). cbn [sl_comps]. rewrite Ht, Him, Hdm, Hsm.
  pose proof (drop_S _ _ _ Ht) as Hd. rewrite Hd in HP.
  set (m := Meta _ _ _ _).
  destruct (IH (S local) (CStore (cs_groups s) (<[t:=m]> (cs_meta s)) (cs_comps s ++ [default css_new (sets !! t)]))
    (delete t sets) (ds ++ [D t]) ({[t]} ∪ P)) as (st & ds' & H1 & H2 & H3); [|done| |lia|lia|done|done|].
  - apply half_place; [done| |done]. apply HP. by left.
  - intros t' Ht'. apply not_elem_of_union. split; [|apply HP; by right]. intros ->%elem_of_singleton.
    rewrite <-(take_drop local (f_comps fam)), Hd in Hnd. apply NoDup_app in Hnd as (_ & _ & Hnd). by apply NoDup_cons in Hnd as [? _].
  - exists st, ds'. split_and!; [done| |done]. cbn [list_to_set]. by rewrite <-(assoc_L (∪)), (comm_L (∪) {[t]}), <-(assoc_L (∪)), (comm_L (∪) P).
Qed.

Definition stopped {A} (r : after A) : Prop := match r with Paniced _ => True | _ => False end.

Lemma sl_arities_over fam b G ge p a ar st : 64 ≤ ge → sl_arities fam b G ge p (a :: ar) st = Paniced st.
Proof.
  intros Hge. cbn [sl_arities]. destruct st as [s sets]. destruct (gm_skip_from_to _ _) as [skip|] eqn:Hskip; [|done].
  destruct (gm_skip_from_to_Some _ _ _ Hskip) as (_ & ? & _). lia.
Qed.

Lemma sl_arities_half R D V fam b G ge : ∀ ar p s sets ds P,
  half R D V (s, sets) ds (list_to_set (take p (f_comps fam)) ∪ P) → NoDup (f_comps fam) → (∀ t, t ∈ f_comps fam → t ∉ P) →
  ge < 64 → G ≤ ge → length (cs_groups s) + length ar = ge → StronglySorted lt (p :: ar) → Forall (λ a, a ≤ length (f_comps fam)) ar →
  ∃ z ds', let r := sl_arities fam b G ge p ar (s, sets) in
    half R D V (after_state r) ds' (list_to_set (take z (f_comps fam)) ∪ P) ∧
    (z = p ∨ z ∈ ar ∧ z < 16) ∧ (∀ a, a ∈ ar → a < 16 → a ≤ z) ∧
    (stopped r ↔ ∃ a, a ∈ ar ∧ 16 ≤ a) ∧ (¬ stopped r → length (cs_groups (after_state r).1) = ge).
Proof.
  induction ar as [|a ar IH]; intros p s sets ds P H Hnd HP Hge HG Hgl Hs Hle.
  { exists p, ds. cbn. split_and!; [done|by left|by intros ? ?%elem_of_nil|..].
    - split; [done|]. by intros (? & ?%elem_of_nil & _).
    - simpl in Hgl. lia. }
  apply Forall_cons in Hle as [Ha Hle]. apply StronglySorted_inv in Hs as [Hs Hall]. apply Forall_cons in Hall as [Hpa _].
  assert (Hsa : ∀ x, x ∈ ar → a < x).
  { apply StronglySorted_inv in Hs as [_ Hs]. by apply Forall_forall. }
  cbn [sl_arities]. simpl in Hgl.
  destruct (gm_skip_from_to_ok (length (cs_groups s)) ge) as [skip Hskip]; [lia..|]. rewrite Hskip.
  destruct (decide (a < 16)) as [H16|H16].
  - destruct (qm_include_ok a) as (inc & Hinc & _); [lia|]. destruct (qm_exclude_ok p a) as (exc & Hexc & _); [lia..|].
    rewrite Hinc, Hexc. destruct (gm_from_to_ok G ge) as [im Him]; [lia..|].
    destruct (gm_from_to_ok (length (cs_groups s)) ge) as [dm Hdm]; [lia..|].
    set (g := Grp _ 0).
    destruct (sl_comps_half R D V fam G ge (length (cs_groups s)) im dm (a - p) p (CStore (cs_groups s ++ [g]) (cs_meta s) (cs_comps s))
      sets ds (list_to_set (take p (f_comps fam)) ∪ P)) as (st1 & ds1 & -> & H1 & Hg1); [by apply half_groups|done| |lia|lia|done|done|].
    { intros t Ht. rewrite not_elem_of_union. split.
      - rewrite elem_of_list_to_set. intros Ht'. rewrite <-(take_drop p (f_comps fam)) in Hnd.
        apply NoDup_app in Hnd as (_ & Hnd & _). by apply (Hnd t).
      - apply HP. rewrite <-(take_drop p (f_comps fam)). apply elem_of_app. by right. }
    cbn [then_]. destruct st1 as [s1 sets1]. simpl in Hg1.
    destruct (IH a s1 sets1 ds1 P) as (z & ds' & H2 & H3 & H4 & H5 & H6); try done.
    { replace (list_to_set (take a (f_comps fam)) ∪ P)
        with (list_to_set (take (a - p) (drop p (f_comps fam))) ∪ (list_to_set (take p (f_comps fam)) ∪ P)); [done|].
      apply set_eq. intros t. rewrite !elem_of_union, !elem_of_list_to_set, (take_extend _ p a) by lia. tauto. }
    { rewrite Hg1, app_length. simpl. lia. }
    exists z, ds'. cbv zeta. split_and!; [done|..|done].
    + right. destruct H3 as [->|[? ?]]; [split; [by left|done]|]. split; [by right|done].
    + intros x [->|Hx]%elem_of_cons Hx'; [|by apply H4]. destruct H3 as [->|[Hz _]]; [done|]. apply Hsa in Hz. lia.
    + rewrite H5. setoid_rewrite elem_of_cons. split; [naive_solver|]. intros (x & [->|Hx] & ?); [lia|eauto].
  - assert (qm_of_include a = None) as ->.
    { unfold qm_of_include. destruct (sm_from_to 0 a) as [m|] eqn:Hm; [|done].
      destruct (sm_from_to_Some _ _ _ Hm) as (_ & ? & _). lia. }
    exists p, ds. cbn. split_and!; [done|by left|..].
    + intros x [->|Hx]%elem_of_cons Hx'; [lia|]. apply Hsa in Hx. lia.
    + split; [|done]. intros _. exists a. split; [by left|lia].
    + done.
Qed.

(** [placed], with [n] groups before. *)
Definition placed_at (n : nat) (gs : list (list tid)) (t : tid) : Prop :=
  ∃ k g, gs !! k = Some g ∧ t ∈ g ∧
    (∀ j h, j ≤ k → gs !! j = Some h → length h ≤ 15) ∧
    (∀ j h, gs !! j = Some h → meets g h → n + j < 63).

Section family.
  Context (fam : family) (l : layout) (Hf : family_wf fam) (Hdis : ∀ t, t ∈ f_comps fam → t ∉ layout_tids l) (n : nat).
  Local Notation ar := (f_arities fam).
  Local Notation G1 := (map (λ a, take a (f_comps fam)) ar).
  Local Notation G2 := (layout_groups l).

  Lemma fam_arity a : a ∈ ar → 2 ≤ a ∧ a ≤ length (f_comps fam).
  Proof using Hf.
    intros Ha. destruct Hf as [_ Hs Hm [l0 Hl]]. split; [rewrite Forall_forall in Hm; by apply Hm|].
    rewrite Hl in Ha, Hs. apply elem_of_app in Ha as [Ha|Ha%elem_of_list_singleton]; [|lia].
    apply elem_of_list_lookup in Ha as [i Hi]. apply Nat.lt_le_incl.
    eapply (sorted_lookup_lt _ i (length l0) a _ Hs); [by eapply lookup_lt_Some|by apply lookup_app_l_Some|].
    by rewrite lookup_app_r, Nat.sub_diag by lia.
  Qed.

  Lemma fam_group j h : G1 !! j = Some h → ∃ a, ar !! j = Some a ∧ h = take a (f_comps fam) ∧ length h = a.
  Proof using Hf.
    intros (a & Hj & ->)%list_lookup_fmap_Some. exists a. split_and!; [done..|]. rewrite take_length.
    apply elem_of_list_lookup_2, fam_arity in Hj. lia.
  Qed.

  Lemma rest_group g t : g ∈ G2 → t ∈ g → t ∈ layout_tids l.
  Proof using Type.
    unfold layout_groups, layout_tids. intros Hg Ht. apply elem_of_list_In, in_concat in Hg as (x & Hx & Hg).
    apply in_map_iff in Hx as (f & <- & Hx). apply in_map_iff in Hg as (a & <- & Hg).
    apply elem_of_list_bind. exists f. split; [|by apply elem_of_list_In].
    rewrite <-(take_drop a (f_comps f)). apply elem_of_app. by left.
  Qed.

  Lemma no_meets g h : g ∈ G1 → h ∈ G2 → ¬ meets g h.
  Proof using Hdis.
    intros (a & -> & Ha)%elem_of_list_fmap Hh (t & Ht & Ht'). apply (Hdis t).
    - rewrite <-(take_drop a (f_comps fam)). apply elem_of_app. by left.
    - by eapply rest_group.
  Qed.

  Lemma fam_nonempty : 1 ≤ length ar.
  Proof using Hf. destruct (fw_last _ Hf) as [l0 ->]. rewrite app_length. simpl. lia. Qed.

  Lemma placed_over t : 64 ≤ n + length ar → ¬ placed_at n (G1 ++ G2) t.
  Proof using Hf.
    intros Hn (k & g & Hk & Ht & _ & H). pose proof fam_nonempty as Hne. apply lookup_app_Some in Hk as [Hk|[Hle Hk]].
    - destruct (fw_last _ Hf) as [l0 Hl0]. destruct (fam_group k g Hk) as (a & _ & -> & _).
      specialize (H (length l0) (f_comps fam)). assert (n + length l0 < 63); [apply H|].
      + apply lookup_app_l_Some. rewrite list_lookup_fmap, Hl0, lookup_app_r, Nat.sub_diag by lia. simpl. by rewrite firstn_all.
      + exists t. split; [done|]. rewrite <-(take_drop a (f_comps fam)). apply elem_of_app. by left.
      + rewrite Hl0, app_length in Hn. simpl in Hn. lia.
    - assert (n + k < 63); [|rewrite map_length in Hle; lia]. apply (H k g).
      + by rewrite lookup_app_r by done.
      + by exists t.
  Qed.

  Lemma placed_here t z : n + length ar < 64 → (z = 0 ∨ z ∈ ar ∧ z < 16) → (∀ a, a ∈ ar → a < 16 → a ≤ z) →
    t ∈ take z (f_comps fam) → placed_at n (G1 ++ G2) t.
  Proof using Hf Hdis.
    intros Hn [->|[Hz Hz16]] Hmax Ht; [rewrite take_0 in Ht; by apply elem_of_nil in Ht|].
    pose proof Hz as Hz'. apply elem_of_list_lookup in Hz as [k Hk].
    assert (G1 !! k = Some (take z (f_comps fam))) as Hg by (by rewrite list_lookup_fmap, Hk).
    exists k, (take z (f_comps fam)). split_and!; [by apply lookup_app_l_Some|done|..].
    - intros j h Hj Hh. pose proof (lookup_lt_Some _ _ _ Hg) as Hlt. rewrite lookup_app_l in Hh by lia.
      destruct (fam_group j h Hh) as (a & Ha & _ & ->). destruct (decide (j = k)) as [->|].
      + assert (a = z) as -> by congruence. lia.
      + assert (a < z); [|lia]. eapply (sorted_lookup_lt ar j k); try done; [apply Hf|lia].
    - intros j h Hh Hm. apply lookup_app_Some in Hh as [Hh|[_ Hh]].
      + apply lookup_lt_Some in Hh. rewrite map_length in Hh. lia.
      + exfalso. eapply no_meets; [by eapply elem_of_list_lookup_2|by eapply elem_of_list_lookup_2|done].
  Qed.

  Lemma placed_first t k g z : (∀ a, a ∈ ar → a < 16 → a ≤ z) → G1 !! k = Some g → t ∈ g →
    (∀ j h, j ≤ k → (G1 ++ G2) !! j = Some h → length h ≤ 15) → t ∈ take z (f_comps fam).
  Proof using Hf.
    intros Hmax Hk Ht H. destruct (fam_group k g Hk) as (a & Ha & -> & Hl).
    specialize (H k _ ltac:(lia) (lookup_app_l_Some _ _ _ _ Hk)). rewrite Hl in H.
    assert (a ≤ z) by (apply Hmax; [by eapply elem_of_list_lookup_2|lia]). apply (take_extend _ a z); [done|]. by left.
  Qed.

  Lemma placed_stops t z : (∀ a, a ∈ ar → a < 16 → a ≤ z) → (∃ a, a ∈ ar ∧ 16 ≤ a) →
    placed_at n (G1 ++ G2) t → t ∈ take z (f_comps fam).
  Proof using Hf.
    intros Hmax (a & [i Hi]%elem_of_list_lookup & Ha) (k & g & Hk & Ht & H & _).
    pose proof Hk as Hk'. apply lookup_app_Some in Hk as [Hk|[Hle _]]; [by eapply placed_first|].
    exfalso. assert (G1 !! i = Some (take a (f_comps fam))) as Hg by (by rewrite list_lookup_fmap, Hi).
    destruct (fam_group _ _ Hg) as (a' & Ha' & _ & Hl). assert (a' = a) as -> by congruence.
    pose proof (lookup_lt_Some _ _ _ Hg). specialize (H i _ ltac:(lia) (lookup_app_l_Some _ _ _ _ Hg)). lia.
  Qed.

  Lemma placed_on t z : n + length ar < 64 → (∀ a, a ∈ ar → a < 16) → (z = 0 ∨ z ∈ ar ∧ z < 16) → (∀ a, a ∈ ar → a < 16 → a ≤ z) →
    placed_at n (G1 ++ G2) t ↔ t ∈ take z (f_comps fam) ∨ placed_at (n + length ar) G2 t.
  Proof using Hf Hdis.
    intros Hn Hall Hz Hmax. split.
    - intros (k & g & Hk & Ht & H1 & H2). pose proof Hk as Hk'. apply lookup_app_Some in Hk as [Hk|[Hle Hk]]; [left; by eapply placed_first|].
      right. rewrite map_length in *. exists (k - length ar), g. split_and!; try done.
      + intros j h Hj Hh. apply (H1 (length ar + j)); [lia|]. rewrite lookup_app_r, map_length by (rewrite map_length; lia).
        by replace (length ar + j - length ar) with j by lia.
      + intros j h Hh Hm. rewrite <-Nat.add_assoc. apply (H2 (length ar + j) h); [|done].
        rewrite lookup_app_r, map_length by (rewrite map_length; lia). by replace (length ar + j - length ar) with j by lia.
    - intros [Ht|(k & g & Hk & Ht & H1 & H2)]; [by eapply placed_here|].
      exists (length ar + k), g. split_and!; try done.
      + rewrite lookup_app_r, map_length by (rewrite map_length; lia). by replace (length ar + k - length ar) with k by lia.
      + intros j h Hj Hh. apply lookup_app_Some in Hh as [Hh|[Hle Hh]].
        * destruct (fam_group j h Hh) as (a & Ha & _ & ->). apply elem_of_list_lookup_2, Hall in Ha. lia.
        * rewrite map_length in *. eapply (H1 (j - length ar)); [lia|done].
      + intros j h Hh Hm. apply lookup_app_Some in Hh as [Hh|[Hle Hh]].
        * exfalso. eapply no_meets; [by eapply elem_of_list_lookup_2|by eapply elem_of_list_lookup_2|].
          destruct Hm as (x & ? & ?). by exists x.
        * rewrite map_length in *. specialize (H2 _ _ Hh Hm). lia.
  Qed.
End family.

Lemma sl_families_half R D V : ∀ l s sets ds P,
  half R D V (s, sets) ds P → Forall family_wf l → NoDup (layout_tids l) → (∀ t, t ∈ layout_tids l → t ∉ P) →
  ∃ K ds', half R D V (after_state (sl_families l (s, sets))) ds' (K ∪ P) ∧
    ∀ t, t ∈ K ↔ placed_at (length (cs_groups s)) (layout_groups l) t.
Proof.
  induction l as [|fam l IH]; intros s sets ds P H Hwf Hnd HP.
  { exists ∅, ds. simpl. rewrite (left_id_L ∅ (∪)). split; [done|]. intros t. split; [by intros ?%elem_of_empty|].
    intros (k & g & Hk & _). done. }
  apply Forall_cons in Hwf as [Hf Hwf]. unfold layout_tids in Hnd, HP. cbn [mbind list_bind] in Hnd, HP.
  apply NoDup_app in Hnd as (Hnd1 & Hdis & Hnd). fold (layout_tids l) in Hdis, Hnd, HP.
  assert (layout_groups (fam :: l) = map (λ a, take a (f_comps fam)) (f_arities fam) ++ layout_groups l) as -> by done.
  cbn [sl_families fst]. set (n := length (cs_groups s)) in *.
  destruct (decide (64 ≤ n + length (f_arities fam))) as [H64|H64].
  - destruct (f_arities fam) as [|a ar] eqn:Har; [pose proof (fam_nonempty fam Hf) as Hx; rewrite Har in Hx; simpl in Hx; lia|].
    rewrite sl_arities_over by done. cbn [then_ after_state]. exists ∅, ds. rewrite (left_id_L ∅ (∪)). split; [done|].
    intros t. split; [by intros ?%elem_of_empty|]. rewrite <-Har. rewrite <-Har in H64.
    intros Hp. by destruct (placed_over fam l Hf n t H64).
  - destruct (sl_arities_half R D V fam (length (cs_comps s)) n (n + length (f_arities fam)) (f_arities fam) 0 s sets ds P)
      as (z & ds' & H1 & Hz & Hmax & Hst & Hlen); try done.
    { rewrite take_0. simpl. by rewrite (left_id_L ∅ (∪)). }
    { intros t Ht. apply HP. apply elem_of_app. by left. }
    { lia. } { lia. }
    { constructor; [apply Hf|]. apply Forall_forall. intros a Ha. destruct (fam_arity fam Hf a Ha). lia. }
    { apply Forall_forall. intros a Ha. by destruct (fam_arity fam Hf a Ha). }
    cbv zeta in *. destruct (sl_arities _ _ _ _ _ _ _) as [[s1 sets1]|[s1 sets1]]; cbn [then_ after_state stopped fst] in *.
    + specialize (Hlen ltac:(by intros ?)).
      assert (Hall : ∀ a, a ∈ f_arities fam → a < 16).
      { intros a Ha. destruct (decide (a < 16)); [done|]. destruct Hst as [_ []]. exists a. split; [done|lia]. }
      destruct (IH s1 sets1 ds' (list_to_set (take z (f_comps fam)) ∪ P)) as (K & ds2 & H2 & HK); try done.
      { intros t Ht. rewrite not_elem_of_union, elem_of_list_to_set. split; [|apply HP, elem_of_app; by right].
        intros Ht'. apply (Hdis t); [|done]. rewrite <-(take_drop z (f_comps fam)). apply elem_of_app. by left. }
      exists (list_to_set (take z (f_comps fam)) ∪ K), ds2. split.
      * by rewrite (comm_L (∪) _ K), <-(assoc_L (∪)).
      * intros t. rewrite elem_of_union, elem_of_list_to_set, HK, Hlen. symmetry. apply placed_on; try done. lia.
    + exists (list_to_set (take z (f_comps fam))), ds'. split; [done|]. intros t. rewrite elem_of_list_to_set. split.
      * intros Ht. eapply placed_here; try done. lia.
      * intros Hp. eapply placed_stops; try done. by apply Hst.
Qed.

(** ** One call *)

(** The store without its groups. *)
Definition ungrouped (s : cstore) : cstore :=
  CStore [] ((λ m, meta_plain (m_index m)) <$> cs_meta s) (cs_comps s).

Lemma ungrouped_meta s t m : cs_meta (ungrouped s) !! t = Some m →
  ∃ m0, cs_meta s !! t = Some m0 ∧ m = meta_plain (m_index m0).
Proof. simpl. rewrite lookup_fmap. intros (m0 & ? & ?)%fmap_Some. eauto. Qed.

Lemma ungrouped_extract s : extract_sets (ungrouped s) = extract_sets s.
Proof.
  unfold extract_sets, ungrouped. cbn [cs_meta cs_comps cs_groups].
  assert (∀ f : tid * meta → bool, (∀ t m, f (t, meta_plain (m_index m)) = f (t, m)) →
    existsb f (map_to_list ((λ m, meta_plain (m_index m)) <$> cs_meta s)) = existsb f (map_to_list (cs_meta s))) as Hex.
  { intros f Hf. apply eq_bool_prop_intro. rewrite !Is_true_true, !existsb_exists. split.
    - intros ([t m] & Hin & Hb). apply elem_of_list_In, elem_of_map_to_list in Hin.
      rewrite lookup_fmap in Hin. apply fmap_Some in Hin as (m0 & Hm0 & ->). exists (t, m0). rewrite Hf in Hb. split; [|done].
      apply elem_of_list_In. by apply elem_of_map_to_list.
    - intros ([t m] & Hin & Hb). apply elem_of_list_In, elem_of_map_to_list in Hin.
      exists (t, meta_plain (m_index m)). rewrite Hf. split; [|done].
      apply elem_of_list_In, elem_of_map_to_list. by rewrite lookup_fmap, Hin. }
  assert (∀ f : tid * meta → bool, (∀ t m, f (t, meta_plain (m_index m)) = f (t, m)) →
    forallb f (map_to_list ((λ m, meta_plain (m_index m)) <$> cs_meta s)) = forallb f (map_to_list (cs_meta s))) as Hall.
  { intros f Hf. specialize (Hex (λ p, negb (f p))). 
    assert (∀ l, forallb f l = negb (existsb (λ p, negb (f p)) l)) as Hfe.
    { induction l as [|x l IHl]; [done|]. simpl. rewrite IHl. by destruct (f x). }
    rewrite !Hfe, Hex; [done|]. intros t m. by rewrite Hf. }
  rewrite Hall by done. destruct (forallb _ _); [|done]. do 2 f_equal.
  - apply map_eq. intros t. rewrite !lookup_omap, lookup_fmap. by destruct (cs_meta s !! t).
  - f_equal. apply imap_ext. intros i c _. by rewrite Hex.
Qed.

Lemma ungrouped_set_layout s l perm es sets s0 : extract_sets s = Ok (sets, s0) →
  set_layout (ungrouped s) l perm es = set_layout s l perm es.
Proof. intros H. unfold set_layout. rewrite ungrouped_extract. by rewrite H. Qed.

Lemma ungrouped_static s n :
  (∀ t m, cs_meta s !! t = Some m → m_index m < n) →
  (∀ t t' m m', cs_meta s !! t = Some m → cs_meta s !! t' = Some m' → m_index m = m_index m' → t = t') →
  static [] (cs_meta (ungrouped s)) n.
Proof.
  intros Hi Hj. split.
  - intros t m (m0 & ? & ->)%ungrouped_meta. simpl. eauto.
  - intros t t' m m' (m0 & ? & ->)%ungrouped_meta (m1 & ? & ->)%ungrouped_meta. simpl. eauto.
  - by intros k gm i Hk.
  - intros t m j (m0 & ? & ->)%ungrouped_meta. cbn [meta_plain m_insert m_delete]. split; [by rewrite bit_0|]. by intros (? & ? & ? & ? & _).
  - intros t m j (m0 & ? & ->)%ungrouped_meta. cbn [meta_plain m_insert m_delete]. split; [by rewrite bit_0|]. by intros (? & ? & _).
  - intros t m (m0 & ? & ->)%ungrouped_meta. simpl. by intros ?.
  - by intros k gm Hk.
Qed.

(** [w], seen as [s], up to the groups. *)
Definition torn (w : world) (s : sstate) : Prop :=
  einv (w_ents w) s ∧ ∃ ds, cinv (ungrouped (w_comps w)) ds (s_map s) (s_reg s) ∅ ∅.

Lemma ginv_none ds : ginv [] ds.
Proof. split; [|by intros k g ????|by intros k g ??|by intros j k ????]. split; simpl; try lia; try done; by intros. Qed.

Lemma torn_inv w s ds : winv w s ds → torn w s.
Proof.
  intros [HE HC]. split; [done|]. exists ds. pose proof HC as []. split; simpl; try done.
  - apply ginv_none.
  - by apply ungrouped_static; eapply ci_static.
  - intros t. rewrite ci_reg, lookup_fmap. by destruct (cs_meta (w_comps w) !! t).
  - intros t. split; [by intros ?%elem_of_empty|]. by intros (? & ? & ? & _ & ? & _).
  - intros t m d e v (m0 & ? & ->)%ungrouped_meta. simpl. eauto.
  - intros i d Hd Hno. eapply ci_spare; [done|]. intros t m Hm. apply (Hno t (meta_plain (m_index m))). by rewrite lookup_fmap, Hm.
Qed.

Lemma only_map K s e : s_map (only K s) !! e = (λ r : row, filter (λ p, p.1 ∈ K) r) <$> s_map s !! e.
Proof. apply lookup_fmap. Qed.
Lemma only_alive K s e : s_alive (only K s) e ↔ s_alive s e.
Proof. unfold s_alive. rewrite only_map. by destruct (s_map s !! e). Qed.
Lemma only_row K s e t : t ∈ K → s_row (only K s) e !! t = s_row s e !! t.
Proof.
  intros Ht. unfold s_row. rewrite only_map. destruct (s_map s !! e) as [r|]; [|done]. simpl.
  destruct (r !! t) as [v|] eqn:E.
  - apply map_filter_lookup_Some. done.
  - apply map_filter_lookup_None. by left.
Qed.
Lemma only_has K s t e v : am_has (s_map (only K s)) t e v ↔ am_has (s_map s) t e v ∧ t ∈ K.
Proof.
  unfold am_has. rewrite only_map. split.
  - intros (r & (r0 & Hr0 & ->)%fmap_Some & [? ?]%map_filter_lookup_Some). eauto.
  - intros [(r & -> & ?) ?]. eexists. split; [done|]. by apply map_filter_lookup_Some.
Qed.

Lemma torn_contents w s ds : einv (w_ents w) s → cinv (ungrouped (w_comps w)) ds (s_map s) (s_reg s) ∅ ∅ → stored ds ≡ₚ contents s.
Proof.
  intros HE HC.
  apply (stored_contents (World (w_ents w) (ungrouped (w_comps w)))
    (SState (s_map s) (s_created s) (s_queued s) (s_issued s) (s_free s) (s_reg s) ∅ ∅) ds).
  split; [|done]. by eapply einv_ext; [..|exact HE].
Qed.

Lemma torn_reads w s : torn w s →
  (∀ t, world_is_registered w t = bool_decide (t ∈ s_reg s)) ∧
  (∀ t e, view_get w t e = if decide (t ∈ s_reg s) then Ok (s_row s e !! t) else Panic) ∧
  (∃ vs, world_drop w = Ok vs ∧ vs ≡ₚ contents s).
Proof.
  intros (HE & ds & HC). set (s0 := SState (s_map s) (s_created s) (s_queued s) (s_issued s) (s_free s) (s_reg s) ∅ ∅).
  assert (winv (World (w_ents w) (ungrouped (w_comps w))) s0 ds) as HI by (split; [by eapply einv_ext; [..|exact HE]|done]).
  split_and!.
  - intros t. unfold world_is_registered, is_registered. pose proof (ci_reg _ _ _ _ _ _ HC t) as H. simpl in H. rewrite lookup_fmap in H.
    destruct (cs_meta (w_comps w) !! t) as [m|]; simpl in H; symmetry.
    + apply bool_decide_eq_true, H. eauto.
    + apply bool_decide_eq_false. rewrite H. by intros [? ?].
  - intros t e. pose proof (inv_view_get _ s0 ds t e HI) as H. etransitivity; [|exact H].
    unfold view_get, cs_borrow. simpl. rewrite lookup_fmap. destruct (cs_meta (w_comps w) !! t); [|done]. simpl.
    by destruct (cs_comps (w_comps w) !! _).
  - exists (stored ds). split; [|by eapply torn_contents]. unfold world_drop. eapply drop_all_ok. apply HC.
Qed.

Lemma torn_fails w s l perm out dr w' :
  torn w s → op_ok (OSetLayout l perm) → ¬ layout_fits l → step w (OSetLayout l perm) = (out, dr, w') →
  out = Panicked [] ∧ w_ents w' = w_ents w ∧
  ∃ K : gset tid, (∀ t, t ∈ K ↔ placed (layout_groups l) t) ∧ torn w' (only K s) ∧ dr ++ contents (only K s) ≡ₚ contents s.
Proof.
  intros (HE & ds & HC) [gs Hgs] Hn Hs. pose proof (layout_built_wf gs l Hgs) as Hwf0. pose proof Hwf0 as [Hwf Hdis].
  simpl in Hs. unfold world_set_layout in Hs.
  destruct (extract_sets_ok _ _ _ _ _ _ HC) as (sets & s0 & ds0 & Hx & HL0 & Hg0).
  rewrite ungrouped_extract in Hx. unfold set_layout in Hs. rewrite Hx in Hs.
  destruct (sl_families_inv l (s0, sets)) as [Hsub Hdone]. set (D := content (ungrouped (w_comps w)) ds) in *.
  assert (half (s_reg s) D (stored ds) (s0, sets) ds0 ∅) as H0.
  { pose proof (li_static _ _ _ _ _ _ _ _ HL0) as Hst. pose proof (li_keys _ _ _ _ _ _ _ _ HL0) as Hk. split; cbn [fst snd].
    - apply HL0.
    - apply Hst.
    - apply Hst.
    - apply HL0.
    - apply HL0.
    - apply HL0.
    - intros t c Hc. by apply (li_sets _ _ _ _ _ _ _ _ HL0).
    - apply Hk.
    - intros t Ht. apply (li_rest _ _ _ _ _ _ _ _ HL0); [|apply not_elem_of_empty]. apply eq_None_not_Some. rewrite Hk. tauto.
    - apply HL0. }
  destruct (sl_families_half _ _ _ l s0 sets ds0 ∅ H0 Hwf Hdis) as (K & ds1 & H1 & HK); [intros; set_solver|].
  rewrite (right_id_L ∅ (∪)) in H1. rewrite Hg0 in HK. simpl in HK.
  destruct (sl_families l (s0, sets)) as [st|[s1 sets1]]; cbn [after_state] in *.
  - exfalso. destruct (Hdone st eq_refl Hwf) as [Hx1 Hx2]; [simpl; rewrite Hg0; simpl; lia|].
    simpl in Hx1, Hx2. rewrite Hg0 in Hx1. by apply Hn.
  - assert (Forall2 css_rep (snd <$> map_to_list sets1) (D <$> (map_to_list sets1).*1)) as Hrep.
    { rewrite <-list_fmap_compose. apply Forall2_fmap_2, Forall_Forall2_diag, Forall_forall.
      intros [t c] Ht%elem_of_map_to_list. simpl. by apply (hf_sets _ _ _ _ _ _ H1). }
    rewrite (drop_all_ok _ _ Hrep) in Hs. injection Hs as <- <- <-. split; [done|]. split; [done|].
    exists K. split; [done|].
    assert (torn (World (w_ents w) s1) (only K s) ∧ stored ds1 ≡ₚ contents (only K s)) as [HT Hc].
    { assert (einv (w_ents w) (only K s)) as HE1.
      { apply (einv_ext _ s); try done. intros e. by rewrite only_alive. }
      assert (cinv (ungrouped s1) ds1 (s_map (only K s)) K ∅ ∅) as HC1; [|split; [split; [done|by exists ds1]|by eapply (torn_contents (World (w_ents w) s1))]].
      pose proof H1 as []. simpl in *. split; simpl; try done.
      - destruct (ci_am _ _ _ _ _ _ HC) as [A1 A2].
        assert (∀ e, is_Some (((λ r : row, filter (λ p, p.1 ∈ K) r) <$> s_map s) !! e) → is_Some (s_map s !! e)) as Hi.
        { intros e. rewrite lookup_fmap. by destruct (s_map s !! e). }
        split; eauto.
      - apply ginv_none.
      - by apply ungrouped_static.
      - intros t. rewrite hf_dom0, lookup_fmap. by destruct (cs_meta s1 !! t).
      - intros t. split; [by intros ?%elem_of_empty|]. by intros (? & ? & ? & _ & ? & _).
      - intros t m d e v (m0 & Hm0 & ->)%ungrouped_meta Hd. simpl in Hd. rewrite (hf_data0 t m0) in Hd by done.
        injection Hd as <-. unfold D. rewrite (content_data _ _ _ _ _ _ _ _ _ HC).
        pose proof (only_has K s t e v) as Hh. simpl in Hh. rewrite Hh. split; [|tauto]. intros ?. split; [done|].
        apply hf_dom0. eauto.
      - intros e t v Hh. pose proof (only_has K s t e v) as Hh'. simpl in Hh'. tauto.
      - intros i d Hd Hno. eapply hf_spare0; [done|]. intros t m Hm. apply (Hno t (meta_plain (m_index m))). by rewrite lookup_fmap, Hm. }
    split; [done|]. rewrite <-Hc, <-(torn_contents _ _ _ HE HC), <-(hf_vals _ _ _ _ _ _ H1).
    rewrite (Permutation_app_comm _ (stored ds1)). f_equiv. unfold held, stored.
    rewrite <-list_fmap_compose. simpl. generalize (map_to_list sets1). intros L. induction L as [|[t c] L IHL]; [done|]. simpl. by f_equiv.
Qed.

Lemma torn_repair w s l perm out dr w' :
  torn w s → op_ok (OSetLayout l perm) → layout_fits l → step w (OSetLayout l perm) = (out, dr, w') →
  same_versions (client_step s (OSetLayout l perm) (Ret RUnit)) →
  out = Ret RUnit ∧ dr = [] ∧ ∃ ds, winv w' (client_step s (OSetLayout l perm) (Ret RUnit)) ds.
Proof.
  intros (HE & ds & HC) [gs Hgs] Hfit Hs Hsv%same_versions_uniform. pose proof (layout_built_wf gs l Hgs) as Hwf.
  simpl in Hs, Hsv. unfold world_set_layout in Hs.
  assert (Hes : ∀ e, is_Some (s_map s !! e) → e ∈ estore_slice (w_ents w)) by (intros e He; by apply HE).
  destruct (extract_sets_ok _ _ _ _ _ _ HC) as (sets & s0 & ds0 & Hx & _). rewrite ungrouped_extract in Hx.
  destruct (set_layout_ok _ _ _ _ _ _ l perm (estore_slice (w_ents w)) HC Hwf Hfit Hsv Hes) as (s1 & ds' & Heq & HC' & _).
  rewrite (ungrouped_set_layout _ _ _ _ _ _ Hx) in Heq. rewrite Heq in Hs. injection Hs as <- <- <-.
  split; [done|]. split; [done|]. exists ds'. split; simpl; [|done]. by eapply einv_ext; [..|exact HE].
Qed.

(** ** Any number of failures *)

Lemma fails_torn w s w1 s1 : fails w s w1 s1 → torn w s → torn w1 s1 ∧ w_ents w1 = w_ents w.
Proof.
  induction 1 as [|w s w1 s1 l perm ds w2 K _ IH Hok Hn Hs HK]; intros HT; [done|].
  destruct (IH HT) as [HT1 He]. destruct (torn_fails _ _ _ _ _ _ _ HT1 Hok Hn Hs) as (_ & He2 & K' & HK' & HT2 & _).
  assert (K = K') as -> by (apply set_eq; intros t; by rewrite HK, HK'). split; [done|congruence].
Qed.

Lemma in_step_inv w s ds : winv w s ds → in_step w s.
Proof.
  intros HI. pose proof HI as [HE HC]. split.
  - split; [by eapply einv_nodup|]. apply HE.
  - intros e. by apply estore_contains_alive.
  - apply (torn_reads w s). by eapply torn_inv.
  - intros t e. by eapply inv_view_get.
  - intros G J X Hq. destruct (query_all_at w s ds G J X HI Hq) as (es & its & dn & H1 & H2 & H3 & HV).
    exists es, its. split_and!; [done|apply HV|by eapply items_answers|]. intros Hp Hs. by eapply visits_exact.
  - intros G J X Hq. by eapply query_all_panics.
  - apply (torn_reads w s). by eapply torn_inv.
Qed.

Lemma failed_exactly w s w1 s1 l perm out dr w2 :
  reachable w s → fails w s w1 s1 → op_ok (OSetLayout l perm) → ¬ layout_fits l →
  step w1 (OSetLayout l perm) = (out, dr, w2) →
  out = Panicked [] ∧ ∃ K : gset tid, (∀ t, t ∈ K ↔ placed (layout_groups l) t) ∧ fails w s w2 (only K s1) ∧
    world_entities w2 = world_entities w ∧ (∀ e, world_contains w2 e = world_contains w e) ∧
    (∀ t, world_is_registered w2 t = bool_decide (t ∈ K)) ∧
    (∀ t e, t ∈ K → view_get w2 t e = Ok (s_row s1 e !! t)) ∧ (∀ t e, t ∉ K → view_get w2 t e = Panic) ∧
    dr ++ contents (only K s1) ≡ₚ contents s1 ∧
    ∃ vs, world_drop w2 = Ok vs ∧ vs ≡ₚ contents (only K s1).
Proof.
  intros (_ & ds & HT%torn_inv)%reachable_inv Hf Hok Hn Hs. destruct (fails_torn _ _ _ _ Hf HT) as [HT1 He1].
  destruct (torn_fails _ _ _ _ _ _ _ HT1 Hok Hn Hs) as (-> & He2 & K & HK & HT2 & Hd). split; [done|].
  exists K. destruct (torn_reads _ _ HT2) as (R1 & R2 & R3). split; [done|].
  split; [by eapply fails_once|]. split; [unfold world_entities; congruence|]. split; [intros e; unfold world_contains; congruence|].
  split; [done|]. split_and!; try done.
  - intros t e Ht. rewrite R2. simpl. rewrite decide_True by done. by rewrite only_row.
  - intros t e Ht. rewrite R2. simpl. by rewrite decide_False.
Qed.

Lemma failed_repair w s w1 s1 l perm out dr w2 :
  reachable w s → fails w s w1 s1 → op_ok (OSetLayout l perm) → layout_fits l →
  step w1 (OSetLayout l perm) = (out, dr, w2) → 
  same_versions (client_step s1 (OSetLayout l perm) (Ret RUnit)) →
  out = Ret RUnit ∧ dr = [] ∧ lives_on w2 (client_step s1 (OSetLayout l perm) (Ret RUnit)).
Proof.
  intros (_ & ds & HT%torn_inv)%reachable_inv Hf Hok Hfit Hs Hsv. destruct (fails_torn _ _ _ _ Hf HT) as [HT1 He1].
  destruct (torn_repair _ _ _ _ _ _ _ HT1 Hok Hfit Hs Hsv) as (-> & -> & ds2 & HI). split; [done|]. split; [done|].
  intros evs w' s' Hh. destruct (history_inv _ _ _ _ _ _ HI Hsv Hh) as (Hsv' & ds' & HI' & _). split; [by eapply in_step_inv|].
  intros o out ds'' w'' Hop Ho Hg. by destruct (step_inv _ _ _ _ _ _ _ HI' Hsv' Hop Ho Hg).
Qed.

Lemma failed_repair_empty w s w1 s1 out dr w2 :
  reachable w s → fails w s w1 s1 → step w1 (OSetLayout [] []) = (out, dr, w2) →
  out = Ret RUnit ∧ dr = [] ∧ lives_on w2 (client_step s1 (OSetLayout [] []) (Ret RUnit)).
Proof.
  intros Hr Hf Hs.
  assert (layout_fits []) as Hfit by (split; [simpl; lia|by intros f ?%elem_of_nil]).
  eapply (failed_repair w s w1 s1 [] []); [done..|by exists []|done|done|].
  intros t e1 e2. simpl. by intros ?%elem_of_empty.
Qed.
