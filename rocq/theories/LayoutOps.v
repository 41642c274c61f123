(** [set_layout]: the metadata it builds and its effect on the storage. *)
From stdpp Require Import sorting.
From Verif Require Import Base Lists SparseVecM EntityM CssM MaskM LayoutM GroupM StorageM WorldM QueryM StepM
  SparseProofs CssProofs MaskProofs GroupProofs Spec LayoutProofs StorageProofs StoreOps.

(** ** The loops, in closed form *)

Lemma as_u8_small n : n < 64 → as_u8 n = n.
Proof. intros. unfold as_u8. apply Nat.mod_small. lia. Qed.

Definition get_set (sets : gmap tid css) (t : tid) : css := default css_new (sets !! t).

Lemma sm_single_ok i : i < 16 → ∃ m, sm_single i = Some m ∧ ∀ j, bit m j = (j =? i).
Proof.
  intros Hi. unfold sm_single, max_group_arity. rewrite (proj2 (Nat.ltb_lt _ _) Hi).
  eexists. split; [done|]. intros j. apply bit_single.
Qed.

(** The slice of [l] from [a] to [b]. *)
Notation slice l a b := (take ((b) - (a)) (drop (a) l)).

Lemma slice_cons {A} (l : list A) a n x : l !! a = Some x → take (S n) (drop a l) = x :: take n (drop (S a) l).
Proof. intros H. by rewrite (drop_S l x a H). Qed.

Lemma sl_comps_ok fam G ge ngs im dm n : ∀ local s sets,
  gm_from_to G ge = Some im → gm_from_to ngs ge = Some dm → local + n ≤ length (f_comps fam) → local + n ≤ 16 →
  NoDup (f_comps fam) →
  let ts := take n (drop local (f_comps fam)) in
  ∃ mt' sets', sl_comps fam G ge ngs local n (s, sets) =
     Done (CStore (cs_groups s) mt' (cs_comps s ++ (get_set sets <$> ts)), sets') ∧
   (∀ i t, ts !! i = Some t → ∃ sm, (∀ j, bit sm j = (j =? local + i)) ∧
      mt' !! t = Some (Meta (length (cs_comps s) + i) im dm
                         (Some (GInfo (as_u8 G) (as_u8 (length (cs_groups s))) sm)))) ∧
   (∀ t, t ∉ ts → mt' !! t = cs_meta s !! t) ∧
   (∀ t, sets' !! t = if decide (t ∈ ts) then None else sets !! t).
Proof.
  induction n as [|n IH]; intros local s sets Him Hdm Hl H16 Hnd ts; subst ts.
  { rewrite take_0. simpl. exists (cs_meta s), sets. rewrite app_nil_r. destruct s. split_and!; try done. }
  destruct (lookup_lt_is_Some_2 (f_comps fam) local) as [t Ht]; [lia|].
  destruct (sm_single_ok local) as (sm & Hsm & Hbit); [lia|].
  rewrite (slice_cons _ _ _ t Ht). cbn [sl_comps]. rewrite Ht, Him, Hdm, Hsm.
  set (m := Meta _ _ _ _).
  destruct (IH (S local) (CStore (cs_groups s) (<[t:=m]> (cs_meta s)) (cs_comps s ++ [default css_new (sets !! t)]))
    (delete t sets)) as (mt' & sets' & Heq & Hts & Hnts & Hsets); [done|done|lia|lia|done|].
  assert (Hnin : t ∉ take n (drop (S local) (f_comps fam))).
  { intros Hin. apply elem_of_take in Hin as (i & _ & Hi). rewrite lookup_drop in Hi.
    assert (S local + i = local); [|lia]. by eapply NoDup_lookup. }
  exists mt', sets'. split_and!.
  - rewrite Heq. cbn [cs_groups cs_comps]. do 3 f_equal. rewrite <-(assoc_L (++)). f_equal. simpl.
    f_equal. apply Forall_fmap_ext_1, Forall_forall. intros x Hx. unfold get_set.
    rewrite lookup_delete_ne; [done|]. intros ->. done.
  - intros [|i] t' Hi; simpl in Hi.
    + inversion Hi; subst t'. exists sm. rewrite Nat.add_0_r. split; [done|]. rewrite Hnts by done. simpl.
      rewrite lookup_insert. unfold m. by rewrite Nat.add_0_r.
    + destruct (Hts i t' Hi) as (sm' & Hb' & Hm'). exists sm'. split.
      * intros j. rewrite Hb'. f_equal. lia.
      * rewrite Hm'. simpl. rewrite app_length. simpl. do 2 f_equal. lia.
  - intros t' Hn. apply not_elem_of_cons in Hn as [Hne Hn]. rewrite Hnts by done. simpl. by rewrite lookup_insert_ne.
  - intros t'. rewrite Hsets. destruct (decide (t' ∈ take n _)) as [Hin|Hn].
    + rewrite decide_True; [done|]. by right.
    + destruct (decide (t' = t)) as [->|Hne].
      * rewrite decide_True by left. apply lookup_delete.
      * rewrite decide_False by (by apply not_elem_of_cons). by rewrite lookup_delete_ne.
Qed.

Definition new_group (g : gmeta) : group := Grp g 0.

(** The group with storages [b, b + a), of which those from [b + p] on are new,
    at position [k] in a family that ends at group [ge]. *)
Record group_spec (b p a k ge : nat) (m : gmeta) : Prop := {
  gs_start : g_start m = b;
  gs_nstart : g_nstart m = b + p;
  gs_end : g_end m = b + a;
  gs_skip : ∀ x, x < 64 → bit (g_skip m) x = negb ((k <=? x) && (x <? ge));
  gs_masks : masks_ok m
}.

(** The component at position [i] of a family that starts at storage [b] and has
    groups [G, ge), introduced by group [k]. *)
Record meta_spec (b G ge i k : nat) (m : meta) : Prop := {
  ms_index : m_index m = b + i;
  ms_insert : ∀ x, bit (m_insert m) x = (G <=? x) && (x <? ge);
  ms_delete : ∀ x, bit (m_delete m) x = (k <=? x) && (x <? ge);
  ms_info : ∃ sm, m_info m = Some (GInfo G (S k) sm) ∧ ∀ x, bit sm x = (x =? i)
}.

Lemma last_cons_default (a p : nat) l : default p (last (a :: l)) = default a (last l).
Proof.
  destruct l as [|a' l]; [done|]. change (last (a :: a' :: l)) with (last (a' :: l)).
  destruct (last (a' :: l)) eqn:E; [done|]. by apply last_None in E.
Qed.

Lemma last_sorted_le (p : nat) l : StronglySorted lt (p :: l) → p ≤ default p (last l).
Proof.
  revert p. induction l as [|a l IH]; intros p Hs; [done|]. rewrite last_cons_default.
  inversion Hs as [|? ? Hs' Hall]; subst. specialize (IH a Hs'). inversion Hall; subst. lia.
Qed.

Lemma slice_lookup {A} (l : list A) a b i :
  slice l a b !! i = if decide (i < b - a) then l !! (a + i) else None.
Proof.
  destruct (decide (i < b - a)).
  - rewrite lookup_take by done. apply lookup_drop.
  - apply lookup_take_ge. lia.
Qed.

Lemma slice_split {A} (l : list A) a b c : a ≤ b → b ≤ c → c ≤ length l →
  slice l a c = slice l a b ++ slice l b c.
Proof.
  intros H1 H2 H3. apply list_eq. intros i. rewrite slice_lookup.
  destruct (decide (i < b - a)).
  - rewrite lookup_app_l by (rewrite take_length, drop_length; lia).
    rewrite slice_lookup. rewrite !decide_True by lia. done.
  - rewrite lookup_app_r by (rewrite take_length, drop_length; lia).
    rewrite slice_lookup. rewrite take_length, drop_length.
    replace ((b - a) `min` (length l - a)) with (b - a) by lia.
    destruct (decide (i < c - a)).
    + rewrite decide_True by lia. f_equal. lia.
    + rewrite decide_False by lia. done.
Qed.

Lemma elem_of_slice {A} (l : list A) a b x :
  x ∈ slice l a b ↔ ∃ i, a ≤ i ∧ i < b ∧ l !! i = Some x.
Proof.
  rewrite elem_of_list_lookup. split.
  - intros [i Hi]. rewrite slice_lookup in Hi. destruct (decide (i < b - a)); [|done].
    exists (a + i). split_and!; [lia..|done].
  - intros (i & H1 & H2 & H3). exists (i - a). rewrite slice_lookup, decide_True by lia.
    by replace (a + (i - a)) with i by lia.
Qed.

Lemma qm_include_ok a : a < 16 → ∃ q, qm_of_include a = Some q ∧ qm_exclude q = 0%N ∧
  ∀ j, bit (qm_include q) j = (j <? a).
Proof.
  intros Ha. unfold qm_of_include. destruct (sm_from_to_ok 0 a) as [m Hm]; [lia|done|]. rewrite Hm. simpl.
  eexists. split_and!; [done|done|]. intros j. simpl. by destruct (sm_from_to_Some _ _ _ Hm) as (_ & _ & ->).
Qed.

Lemma qm_exclude_ok p a : p ≤ a → a < 16 → ∃ q, qm_of_exclude p a = Some q ∧
  (∀ j, bit (qm_include q) j = (j <? p)) ∧ ∀ j, bit (qm_exclude q) j = (p <=? j) && (j <? a).
Proof.
  intros Hp Ha. unfold qm_of_exclude. destruct (sm_from_to_ok 0 p) as [m Hm]; [lia..|]. rewrite Hm. simpl.
  destruct (sm_from_to_ok p a) as [m' Hm']; [lia..|]. rewrite Hm'. simpl.
  eexists. split_and!; [done| |]; intros j; simpl.
  - by destruct (sm_from_to_Some _ _ _ Hm) as (_ & _ & ->).
  - by destruct (sm_from_to_Some _ _ _ Hm') as (_ & _ & ->).
Qed.

Lemma sl_arities_ok fam b G ge : ∀ ar p s sets,
  NoDup (f_comps fam) → length (f_comps fam) < 16 → ge < 64 → G ≤ length (cs_groups s) →
  length (cs_groups s) + length ar = ge → length (cs_comps s) = b + p →
  StronglySorted lt (p :: ar) → default p (last ar) ≤ length (f_comps fam) →
  let z := default p (last ar) in
  let ts := slice (f_comps fam) p z in
  ∃ ms mt' sets', sl_arities fam b G ge p ar (s, sets) =
      Done (CStore (cs_groups s ++ (new_group <$> ms)) mt' (cs_comps s ++ (get_set sets <$> ts)), sets') ∧
    length ms = length ar ∧
    (∀ j m, ms !! j = Some m → ∃ pj aj, (p :: ar) !! j = Some pj ∧ ar !! j = Some aj ∧
       group_spec b pj aj (length (cs_groups s) + j) ge m) ∧
    (∀ i t, p ≤ i → i < z → f_comps fam !! i = Some t →
       ∃ j pj aj m, (p :: ar) !! j = Some pj ∧ ar !! j = Some aj ∧ pj ≤ i ∧ i < aj ∧ mt' !! t = Some m ∧
         meta_spec b G ge i (length (cs_groups s) + j) m) ∧
    (∀ t, t ∉ ts → mt' !! t = cs_meta s !! t) ∧
    (∀ t, sets' !! t = if decide (t ∈ ts) then None else sets !! t).
Proof.
  induction ar as [|a ar IH]; intros p s sets Hnd H16 Hge HG Hgl Hcl Hs Hz z ts; subst z ts.
  { simpl. rewrite Nat.sub_diag, take_0. exists [], (cs_meta s), sets. rewrite !app_nil_r. destruct s.
    split_and!; try done. intros i t ??. lia. }
  rewrite last_cons_default in *.
  inversion Hs as [|? ? Hs' Hall]; subst. inversion Hall as [|? ? Hpa _]; subst.
  pose proof (last_sorted_le a ar Hs') as Hle. simpl in Hge.
  cbn [sl_arities]. set (ge := length (cs_groups s) + length (a :: ar)) in *.
  assert (Hge' : length (cs_groups s) < ge) by (subst ge; simpl; lia).
  assert (Hge64 : ge < 64) by done.
  destruct (gm_skip_from_to_ok (length (cs_groups s)) ge) as [skip Hskip]; [lia..|].
  destruct (qm_include_ok a) as (inc & Hinc & Hinc1 & Hinc2); [lia|].
  destruct (qm_exclude_ok p a) as (exc & Hexc & Hexc1 & Hexc2); [lia..|].
  rewrite Hskip, Hinc, Hexc.
  destruct (gm_from_to_ok G ge) as [im Him]; [lia..|].
  destruct (gm_from_to_ok (length (cs_groups s)) ge) as [dm Hdm]; [lia..|].
  set (gm := GMeta b (b + p) (b + a) skip inc exc).
  destruct (sl_comps_ok fam G ge (length (cs_groups s)) im dm (a - p) p
     (CStore (cs_groups s ++ [Grp gm 0]) (cs_meta s) (cs_comps s)) sets) as (mt1 & sets1 & Heq1 & Hts1 & Hnts1 & Hsets1);
    [done|done|lia|lia|done|].
  rewrite Heq1. cbn [then_ cs_groups cs_comps cs_meta] in *.
  destruct (IH a (CStore (cs_groups s ++ [Grp gm 0]) mt1
      (cs_comps s ++ (get_set sets <$> slice (f_comps fam) p a))) sets1) as (ms & mt2 & sets2 & Heq2 & Hlen & Hms & Hmt & Hnts2 & Hsets2);
    clear IH; cbn [cs_groups cs_comps cs_meta] in *.
  { done. } { done. } { done. }
  { rewrite app_length. lia. }
  { rewrite app_length. simpl. subst ge. simpl. lia. }
  { rewrite app_length, fmap_length, take_length, drop_length. lia. }
  { done. } { done. }
  set (z := default a (last ar)) in *.
  assert (Hsplit : slice (f_comps fam) p z = slice (f_comps fam) p a ++ slice (f_comps fam) a z).
  { apply slice_split; lia. }
  assert (Hdisj : ∀ t, t ∈ slice (f_comps fam) p a → t ∈ slice (f_comps fam) a z → False).
  { intros t (i & Hi1 & Hi2 & Hi)%elem_of_slice (i' & Hi1' & Hi2' & Hi')%elem_of_slice.
    assert (i = i'); [by eapply NoDup_lookup|lia]. }
  exists (gm :: ms), mt2, sets2. split_and!.
  - rewrite Heq2. do 2 f_equal. f_equal.
    + rewrite <-(assoc_L (++)). done.
    + rewrite Hsplit, fmap_app, <-(assoc_L (++)). do 2 f_equal.
      apply Forall_fmap_ext_1, Forall_forall. intros t Ht. unfold get_set. rewrite Hsets1.
      rewrite decide_False; [done|]. intros Ht'. by eapply Hdisj.
  - simpl. by rewrite Hlen.
  - intros [|j] m Hj; simpl in Hj.
    + inversion Hj; subst m. exists p, a. split_and!; [done..|]. rewrite Nat.add_0_r. split; try done.
      * simpl. by destruct (gm_skip_from_to_Some _ _ _ Hskip) as (_ & _ & ?).
      * split; simpl.
        -- intros j. rewrite Hinc2. f_equal. lia.
        -- done.
        -- intros j. rewrite Hexc1. f_equal. lia.
        -- intros j. rewrite Hexc2. by replace (b + p - b) with p by lia; replace (b + a - b) with a by lia.
    + destruct (Hms j m Hj) as (pj & aj & H1 & H2 & H3). exists pj, aj. split_and!; [done|done|].
      rewrite app_length in H3. simpl in H3. by replace (length (cs_groups s) + S j) with (length (cs_groups s) + 1 + j) by lia.
  - intros i t Hi1 Hi2 Hi. destruct (decide (i < a)) as [Hia|Hia].
    + assert (slice (f_comps fam) p a !! (i - p) = Some t) as Hsl.
      { rewrite slice_lookup, decide_True by lia. by replace (p + (i - p)) with i by lia. }
      destruct (Hts1 (i - p) t Hsl) as (sm & Hsm & Hm). exists 0, p, a. eexists.
      split_and!; [done|done|done|done| |].
      * rewrite Hnts2; [done|]. intros Ht. eapply Hdisj; [|done]. by eapply elem_of_list_lookup_2.
      * rewrite Nat.add_0_r. split; simpl.
        -- lia.
        -- intros x. by destruct (gm_from_to_Some _ _ _ Him) as (_ & _ & ->).
        -- intros x. by destruct (gm_from_to_Some _ _ _ Hdm) as (_ & _ & ->).
        -- exists sm. split.
           ++ rewrite !as_u8_small by (rewrite ?app_length; simpl; lia). rewrite app_length. simpl. do 2 f_equal. lia.
           ++ intros x. rewrite Hsm. f_equal. lia.
    + destruct (Hmt i t) as (j & pj & aj & m & H1 & H2 & H3 & H4 & H5 & H6); [lia..|done|].
      exists (S j), pj, aj, m. split_and!; [done..|]. rewrite app_length in H6. simpl in H6.
      by replace (length (cs_groups s) + S j) with (length (cs_groups s) + 1 + j) by lia.
  - intros t Ht. rewrite Hsplit, elem_of_app in Ht. rewrite Hnts2 by tauto. rewrite Hnts1 by tauto. done.
  - intros t. rewrite Hsets2, Hsets1, Hsplit. repeat destruct (decide _); try done; rewrite elem_of_app in *; tauto.
Qed.

(** ** The state of [set_layout] between families *)

(** [D t]: the entities and values of type [t], before and after. *)
Definition held (D : tid → dense) (sets : gmap tid css) : list val :=
  map_to_list sets ≫= (λ p, (D p.1).*2).

Record lay_inv (R : gset tid) (D : tid → dense) (V : list val) (s : cstore) (sets : gmap tid css) (ds : list dense)
    (P GP : gset tid) : Prop := {
  li_rep : Forall2 css_rep (cs_comps s) ds;
  li_wf : metas_wf (g_meta <$> cs_groups s) (length ds);
  li_skip : ∀ k m x, (g_meta <$> cs_groups s) !! k = Some m → length (cs_groups s) ≤ x → x < 64 →
              bit (g_skip m) x = true;
  li_static : static (g_meta <$> cs_groups s) (cs_meta s) (length ds);
  li_len : ∀ k g, cs_groups s !! k = Some g → g_len g = 0;
  li_dom : ∀ t, t ∈ P ↔ is_Some (cs_meta s !! t);
  li_grp : ∀ t, t ∈ GP ↔ ∃ m k gm, cs_meta s !! t = Some m ∧ (g_meta <$> cs_groups s) !! k = Some gm ∧
             covers gm (m_index m);
  li_data : ∀ t m, cs_meta s !! t = Some m → ds !! m_index m = Some (D t);
  li_spare : ∀ i d, ds !! i = Some d → (∀ t m, cs_meta s !! t = Some m → m_index m ≠ i) → d = [];
  li_sets : ∀ t c, sets !! t = Some c → css_rep c (D t) ∧ t ∉ P;
  li_keys : ∀ t, is_Some (sets !! t) ↔ t ∈ R ∧ t ∉ P;
  li_rest : ∀ t, sets !! t = None → t ∉ P → D t = [];
  li_vals : stored ds ++ held D sets ≡ₚ V
}.

Lemma sorted_lookup_lt (l : list nat) i j x y :
  StronglySorted lt l → i < j → l !! i = Some x → l !! j = Some y → x < y.
Proof.
  revert i j. induction l as [|a l IH]; intros i j Hs Hij Hi Hj; [done|].
  inversion Hs as [|? ? Hs' Hall]; subst. destruct i as [|i], j as [|j]; try lia; simpl in *.
  - inversion Hi; subst. rewrite Forall_forall in Hall. apply Hall. by eapply elem_of_list_lookup_2.
  - apply (IH i j); [done|lia|done|done].
Qed.

Lemma sorted_le_last (ar : list nat) p j a :
  StronglySorted lt (p :: ar) → ar !! j = Some a → a ≤ default p (last ar).
Proof.
  revert p j a. induction ar as [|a0 ar IH]; intros p j a Hs Hj; [done|]. rewrite last_cons_default.
  inversion Hs as [|? ? Hs' Hall]; subst. destruct j as [|j]; simpl in Hj.
  - inversion Hj; subst. by apply last_sorted_le.
  - by apply (IH a0 j).
Qed.

Section family_step.
  Context (ms : list gmeta) (mt : gmap tid meta) (n : nat).
  Context (Hwf : metas_wf ms n) (Hst : static ms mt n).
  Context (Hskip : ∀ k m x, ms !! k = Some m → length ms ≤ x → x < 64 → bit (g_skip m) x = true).
  Context (C : list tid) (ar : list nat) (new : list gmeta) (mt' : gmap tid meta).
  Context (Hnd : NoDup C) (Hlen : length new = length ar) (Hge : length ms + length ar < 64).
  Context (Hsorted : StronglySorted lt (0 :: ar)) (Hlast : default 0 (last ar) = length C) (Hne : ar ≠ []).
  Context (Hfresh : ∀ t, t ∈ C → mt !! t = None).
  Context (Hnew : ∀ j m, new !! j = Some m → ∃ pj aj, (0 :: ar) !! j = Some pj ∧ ar !! j = Some aj ∧
             group_spec n pj aj (length ms + j) (length ms + length ar) m).
  Context (Hmeta : ∀ i t, i < length C → C !! i = Some t → ∃ j pj aj m,
             (0 :: ar) !! j = Some pj ∧ ar !! j = Some aj ∧ pj ≤ i ∧ i < aj ∧ mt' !! t = Some m ∧
             meta_spec n (length ms) (length ms + length ar) i (length ms + j) m).
  Context (Hother : ∀ t, t ∉ C → mt' !! t = mt !! t).

  Lemma ar_le j a : ar !! j = Some a → a ≤ length C.
  Proof using All. intros Hj. rewrite <-Hlast. by eapply sorted_le_last. Qed.

  Lemma ar_prev j p a : (0 :: ar) !! j = Some p → ar !! j = Some a → p < a.
  Proof using All. intros Hp Ha. eapply (sorted_lookup_lt (0 :: ar) j (S j)); [done|lia|done|done]. Qed.

  (** A group before [j] ends where [j] begins at the latest. *)
  Lemma ar_before i j a p : i < j → ar !! i = Some a → (0 :: ar) !! j = Some p → a ≤ p.
  Proof using All.
    intros Hij Ha Hp. destruct j as [|j]; [lia|]. destruct (decide (i = j)) as [->|Hn].
    - simpl in Hp. rewrite Ha in Hp. inversion Hp. done.
    - assert (a < p); [|lia]. eapply (sorted_lookup_lt (0 :: ar) (S i) (S j)); [done|lia|done|done].
  Qed.

  Lemma new_lookup k m :
    (ms ++ new) !! k = Some m → ms !! k = Some m ∨
    ∃ j, k = length ms + j ∧ new !! j = Some m.
  Proof using All.
    intros H. apply lookup_app_Some in H as [H|[H1 H2]]; [by left|right]. exists (k - length ms). split; [lia|done].
  Qed.

  Lemma old_end k m : ms !! k = Some m → g_start m < n ∧ g_end m ≤ n.
  Proof using All. intros H. destruct (mw_range _ _ Hwf k m H) as (? & ? & ?). lia. Qed.

  Lemma new_exists j a : ar !! j = Some a → ∃ m, new !! j = Some m.
  Proof using All. intros H. apply lookup_lt_is_Some_2. rewrite Hlen. by eapply lookup_lt_Some. Qed.

  Lemma family_metas_wf : metas_wf (ms ++ new) (n + length C).
  Proof using All.
    split.
    - intros k m [H|(j & -> & H)]%new_lookup.
      + destruct (mw_range _ _ Hwf k m H) as (? & ? & ?). lia.
      + destruct (Hnew j m H) as (p & a & Hp & Ha & Hg).
        rewrite (gs_start _ _ _ _ _ _ Hg), (gs_nstart _ _ _ _ _ _ Hg), (gs_end _ _ _ _ _ _ Hg).
        pose proof (ar_prev j p a Hp Ha). pose proof (ar_le j a Ha). lia.
    - intros j k mj mk Hjk [Hj|(j' & -> & Hj)]%new_lookup [Hk|(k' & -> & Hk)]%new_lookup.
      + by apply (mw_order _ _ Hwf j k).
      + right. destruct (Hnew k' mk Hk) as (p & a & _ & _ & Hg). rewrite (gs_start _ _ _ _ _ _ Hg).
        by apply (old_end j).
      + apply lookup_lt_Some in Hk. lia.
      + left. destruct (Hnew j' mj Hj) as (p & a & Hp & Ha & Hg). destruct (Hnew k' mk Hk) as (p' & a' & Hp' & Ha' & Hg').
        rewrite (gs_start _ _ _ _ _ _ Hg), (gs_start _ _ _ _ _ _ Hg'), (gs_end _ _ _ _ _ _ Hg), (gs_nstart _ _ _ _ _ _ Hg').
        assert (a ≤ p') by (eapply (ar_before j' k'); [lia|done|done]). lia.
    - intros k mk [Hk|(k' & -> & Hk)]%new_lookup Hlt.
      + destruct (mw_parent _ _ Hwf k mk Hk Hlt) as (j & mj & -> & Hj & ? & ?).
        exists j, mj. split_and!; try done. by apply lookup_app_l_Some.
      + destruct (Hnew k' mk Hk) as (p' & a' & Hp' & Ha' & Hg').
        rewrite (gs_start _ _ _ _ _ _ Hg'), (gs_nstart _ _ _ _ _ _ Hg') in *.
        destruct k' as [|j]; simpl in Hp'; [inversion Hp'; lia|].
        destruct (new_exists j p' Hp') as [mj Hj]. destruct (Hnew j mj Hj) as (p & a & Hp & Ha & Hg).
        exists (length ms + j), mj. split_and!.
        * lia.
        * rewrite lookup_app_r by lia. by replace (length ms + j - length ms) with j by lia.
        * apply Hg.
        * rewrite (gs_end _ _ _ _ _ _ Hg). congruence.
    - intros k mk j mj Hk Hj.
      pose proof (lookup_lt_Some _ _ _ Hj) as Hj64. rewrite app_length in Hj64.
      apply new_lookup in Hk as [Hk|(k' & -> & Hk)]; apply new_lookup in Hj as [Hj|(j' & -> & Hj)].
      + by apply (mw_skip _ _ Hwf).
      + rewrite (Hskip k mk) by (done || lia). split; [done|]. intros [_ Heq].
        destruct (Hnew j' mj Hj) as (p & a & _ & _ & Hg). rewrite (gs_start _ _ _ _ _ _ Hg) in Heq.
        apply old_end in Hk. lia.
      + apply lookup_lt_Some in Hj as Hj'. destruct (Hnew k' mk Hk) as (p & a & _ & _ & Hg).
        rewrite (gs_skip _ _ _ _ _ _ Hg) by lia. rewrite (proj2 (Nat.leb_gt _ _)) by lia. simpl. split; [done|lia].
      + destruct (Hnew k' mk Hk) as (p & a & _ & _ & Hg). destruct (Hnew j' mj Hj) as (p' & a' & _ & _ & Hg').
        rewrite (gs_skip _ _ _ _ _ _ Hg) by lia.
        rewrite (gs_start _ _ _ _ _ _ Hg), (gs_start _ _ _ _ _ _ Hg').
        rewrite (proj2 (Nat.ltb_lt (length ms + j') _)) by lia. rewrite andb_true_r, negb_false_iff, Nat.leb_le. lia.
    - rewrite app_length. lia.
  Qed.

  Lemma family_skip k m x :
    (ms ++ new) !! k = Some m → length (ms ++ new) ≤ x → x < 64 → bit (g_skip m) x = true.
  Proof using All.
    rewrite app_length. intros [Hk|(k' & -> & Hk)]%new_lookup Hx H64.
    - apply (Hskip k m); [done|lia|done].
    - destruct (Hnew k' m Hk) as (p & a & _ & _ & Hg). rewrite (gs_skip _ _ _ _ _ _ Hg) by done.
      rewrite (proj2 (Nat.ltb_ge x _)) by lia. by rewrite andb_false_r.
  Qed.

  (** Which component a metadata belongs to. *)
  Lemma family_meta t m :
    mt' !! t = Some m →
    (t ∉ C ∧ mt !! t = Some m ∧ m_index m < n) ∨
    ∃ i j p a, C !! i = Some t ∧ (0 :: ar) !! j = Some p ∧ ar !! j = Some a ∧ p ≤ i ∧ i < a ∧
      meta_spec n (length ms) (length ms + length ar) i (length ms + j) m.
  Proof using All.
    intros Hm. destruct (decide (t ∈ C)) as [Hin|Hnin].
    - right. apply elem_of_list_lookup in Hin as [i Hi].
      destruct (Hmeta i t) as (j & p & a & m' & ? & ? & ? & ? & Hm' & ?); [by eapply lookup_lt_Some|done|].
      rewrite Hm in Hm'. inversion Hm'; subst. eauto 10.
    - left. rewrite Hother in Hm by done. split_and!; [done..|]. by eapply (st_index _ _ _ Hst).
  Qed.

  Lemma new_covers j m i :
    new !! j = Some m → covers m i → n ≤ i ∧ ∃ a, ar !! j = Some a ∧ i < n + a.
  Proof using All.
    intros Hj [H1 H2]. destruct (Hnew j m Hj) as (p & a & _ & Ha & Hg).
    rewrite (gs_start _ _ _ _ _ _ Hg) in H1. rewrite (gs_end _ _ _ _ _ _ Hg) in H2. eauto.
  Qed.

  Lemma covers_new j m a i :
    new !! j = Some m → ar !! j = Some a → n ≤ i → i < n + a → covers m i.
  Proof using All.
    intros Hj Ha H1 H2. destruct (Hnew j m Hj) as (p & a' & _ & Ha' & Hg).
    split; [rewrite (gs_start _ _ _ _ _ _ Hg)|rewrite (gs_end _ _ _ _ _ _ Hg)]; [done|]. congruence.
  Qed.

  Lemma family_static : static (ms ++ new) mt' (n + length C).
  Proof using All.
    split.
    - intros t m [(_ & _ & ?)|(i & j & p & a & _ & _ & Ha & _ & ? & Hm)]%family_meta; [lia|].
      rewrite (ms_index _ _ _ _ _ _ Hm). pose proof (ar_le j a Ha). lia.
    - intros t t' m m' [(Hn & Hm & Hi)|(i & j & p & a & Ht & _ & _ & _ & _ & Hm)]%family_meta
        [(Hn' & Hm' & Hi')|(i' & j' & p' & a' & Ht' & _ & _ & _ & _ & Hm')]%family_meta Heq.
      + by eapply (st_inj _ _ _ Hst).
      + rewrite (ms_index _ _ _ _ _ _ Hm') in Heq. lia.
      + rewrite (ms_index _ _ _ _ _ _ Hm) in Heq. lia.
      + rewrite (ms_index _ _ _ _ _ _ Hm), (ms_index _ _ _ _ _ _ Hm') in Heq.
        assert (i = i') by lia. congruence.
    - intros k gm i [Hk|(k' & -> & Hk)]%new_lookup Hc.
      + destruct (st_owner _ _ _ Hst k gm i Hk Hc) as (t & m & Ht & Hi). exists t, m. split; [|done].
        rewrite Hother; [done|]. intros Hin. rewrite Hfresh in Ht by done. done.
      + destruct (new_covers k' gm i Hk Hc) as (Hni & a & Ha & Hlt). pose proof (ar_le k' a Ha).
        destruct (lookup_lt_is_Some_2 C (i - n)) as [t Ht]; [lia|].
        destruct (Hmeta (i - n) t) as (j & p & a' & m & _ & _ & _ & _ & Hm & Hsp); [lia|done|].
        exists t, m. split; [done|]. rewrite (ms_index _ _ _ _ _ _ Hsp). lia.
    - intros t m j [(Hn & Hm & Hi)|(i & j' & p & a & Ht & Hp & Ha & H1 & H2 & Hm)]%family_meta.
      + rewrite (st_insert _ _ _ Hst t m j Hm). split.
        * intros (gj & k & gk & H1 & H2 & H3 & H4). exists gj, k, gk. split_and!; try done; try apply H4;
            by apply lookup_app_l_Some.
        * intros (gj & k & gk & Hj & Hk & Heq & Hc). exists gj, k, gk.
          apply new_lookup in Hk as [Hk|(k' & -> & Hk)].
          2:{ destruct (new_covers k' gk _ Hk Hc). lia. }
          apply new_lookup in Hj as [Hj|(j' & -> & Hj)]; [done|].
          destruct (Hnew j' gj Hj) as (p & a & _ & _ & Hg). rewrite (gs_start _ _ _ _ _ _ Hg) in Heq.
          apply old_end in Hk. lia.
      + rewrite (ms_insert _ _ _ _ _ _ Hm), andb_true_iff, Nat.leb_le, Nat.ltb_lt. split.
        * intros [Hj1 Hj2]. destruct (lookup_lt_is_Some_2 new (j - length ms)) as [gj Hj]; [lia|].
          destruct (new_exists j' a Ha) as [gk Hk]. exists gj, (length ms + j'), gk.
          assert (covers gk (m_index m)) as Hc.
          { rewrite (ms_index _ _ _ _ _ _ Hm). eapply covers_new; [done|done|lia|lia]. }
          split_and!; try apply Hc.
          -- rewrite lookup_app_r by lia. done.
          -- rewrite lookup_app_r by lia. by replace (length ms + j' - length ms) with j' by lia.
          -- destruct (Hnew _ _ Hj) as (? & ? & _ & _ & Hg). destruct (Hnew _ _ Hk) as (? & ? & _ & _ & Hg').
             by rewrite (gs_start _ _ _ _ _ _ Hg), (gs_start _ _ _ _ _ _ Hg').
        * intros (gj & k & gk & Hj & Hk & Heq & Hc).
          rewrite (ms_index _ _ _ _ _ _ Hm) in Hc.
          apply new_lookup in Hk as [Hk|(k' & -> & Hk)].
          { apply old_end in Hk. destruct Hc. lia. }
          apply lookup_lt_Some in Hj as Hjl. rewrite app_length in Hjl. split; [|lia].
          apply new_lookup in Hj as [Hj|(j'' & -> & Hj)]; [|lia].
          destruct (Hnew _ _ Hk) as (? & ? & _ & _ & Hg'). rewrite (gs_start _ _ _ _ _ _ Hg') in Heq.
          apply old_end in Hj. lia.
    - intros t m j [(Hn & Hm & Hi)|(i & j' & p & a & Ht & Hp & Ha & H1 & H2 & Hm)]%family_meta.
      + rewrite (st_delete _ _ _ Hst t m j Hm). split.
        * intros (gj & Hj & Hc). exists gj. split; [|done]. by apply lookup_app_l_Some.
        * intros (gj & Hj & Hc). exists gj. split; [|done].
          apply new_lookup in Hj as [Hj|(j' & -> & Hj)]; [done|].
          destruct (new_covers j' gj _ Hj Hc). lia.
      + rewrite (ms_delete _ _ _ _ _ _ Hm), andb_true_iff, Nat.leb_le, Nat.ltb_lt. rewrite (ms_index _ _ _ _ _ _ Hm). split.
        * intros [Hj1 Hj2]. destruct (lookup_lt_is_Some_2 new (j - length ms)) as [gj Hj]; [lia|].
          exists gj. split; [rewrite lookup_app_r by lia; done|].
          destruct (Hnew _ _ Hj) as (p2 & a2 & Hp2 & Ha2 & Hg).
          eapply covers_new; [done|done|lia|].
          destruct (decide (j - length ms = j')) as [Heq|Hne'].
          { rewrite Heq in Ha2. rewrite Ha in Ha2. inversion Ha2. lia. }
          assert (a ≤ p2) by (eapply (ar_before j' (j - length ms)); [lia|done|done]).
          pose proof (ar_prev _ _ _ Hp2 Ha2). lia.
        * intros (gj & Hj & Hc). apply lookup_lt_Some in Hj as Hjl. rewrite app_length in Hjl. split; [|lia].
          apply new_lookup in Hj as [Hj|(j'' & -> & Hj)].
          { apply old_end in Hj. destruct Hc. lia. }
          destruct (new_covers _ _ _ Hj Hc) as (_ & a2 & Ha2 & Hlt).
          destruct (decide (j' ≤ j'')); [lia|].
          assert (a2 ≤ p) by (eapply (ar_before j'' j'); [lia|done|done]). lia.
    - intros t m [(Hn & Hm & Hi)|(i & j' & p & a & Ht & Hp & Ha & H1 & H2 & Hm)]%family_meta.
      + pose proof (st_info _ _ _ Hst t m Hm) as Hinfo. destruct (m_info m) as [gi|]; simpl in *.
        * destruct Hinfo as (k & gf & gk & Hf & Hk & ?). exists k, gf, gk. split_and!; try tauto; by apply lookup_app_l_Some.
        * intros k gm [Hk|(k' & -> & Hk)]%new_lookup Hc; [by eapply Hinfo|].
          destruct (new_covers _ _ _ Hk Hc). lia.
      + destruct (ms_info _ _ _ _ _ _ Hm) as (sm & -> & Hsm). simpl.
        destruct ar as [|a0 ar'] eqn:Har; [done|].
        destruct (lookup_lt_is_Some_2 new 0) as [gf Hf]; [rewrite Hlen; simpl; lia|].
        destruct (lookup_lt_is_Some_2 new j') as [gk Hk]; [rewrite Hlen; by eapply lookup_lt_Some|].
        destruct (Hnew _ _ Hf) as (p0 & a0' & Hp0 & _ & Hg0). destruct (Hnew _ _ Hk) as (pk & ak & Hpk & Hak & Hgk).
        simpl in Hp0. inversion Hp0; subst p0.
        assert (pk = p) by congruence. assert (ak = a) by congruence. subst pk ak.
        exists (length ms + j'), gf, gk.
        rewrite (gs_start _ _ _ _ _ _ Hg0), (gs_start _ _ _ _ _ _ Hgk), (gs_nstart _ _ _ _ _ _ Hg0),
          (gs_nstart _ _ _ _ _ _ Hgk), (gs_end _ _ _ _ _ _ Hgk), (ms_index _ _ _ _ _ _ Hm).
        split_and!; try lia.
        * rewrite lookup_app_r, Nat.sub_diag by lia. done.
        * rewrite lookup_app_r by lia. by replace (length ms + j' - length ms) with j' by lia.
        * intros x. rewrite Hsm. f_equal. lia.
    - intros k gm [Hk|(k' & -> & Hk)]%new_lookup.
      + by eapply (st_masks _ _ _ Hst).
      + destruct (Hnew _ _ Hk) as (? & ? & _ & _ & Hg). apply Hg.
  Qed.

  Lemma family_grp t :
    (∃ m k gm, mt' !! t = Some m ∧ (ms ++ new) !! k = Some gm ∧ covers gm (m_index m)) ↔
    t ∈ C ∨ ∃ m k gm, mt !! t = Some m ∧ ms !! k = Some gm ∧ covers gm (m_index m).
  Proof using All.
    split.
    - intros (m & k & gm & [(Hn & Hm & Hi)|(i & _ & _ & _ & Ht & _)]%family_meta & Hk & Hc).
      + right. apply new_lookup in Hk as [Hk|(k' & -> & Hk)]; [eauto 10|].
        destruct (new_covers _ _ _ Hk Hc). lia.
      + left. by eapply elem_of_list_lookup_2.
    - intros [[i Hi]%elem_of_list_lookup|(m & k & gm & Hm & Hk & Hc)].
      + destruct (Hmeta i t) as (j & p & a & m & Hp & Ha & H1 & H2 & Hm & Hsp); [by eapply lookup_lt_Some|done|].
        destruct (new_exists j a Ha) as [gm Hj]. exists m, (length ms + j), gm. split_and!; [done| |].
        * rewrite lookup_app_r by lia. by replace (length ms + j - length ms) with j by lia.
        * rewrite (ms_index _ _ _ _ _ _ Hsp). eapply covers_new; [done|done|lia|lia].
      + exists m, k, gm. split_and!; try apply Hc.
        * rewrite Hother; [done|]. intros Hin. rewrite Hfresh in Hm; done.
        * by apply lookup_app_l_Some.
  Qed.
End family_step.

(** ** The loop over the families *)

Lemma held_delete D sets t :
  (sets !! t = None → D t = []) → held D sets ≡ₚ (D t).*2 ++ held D (delete t sets).
Proof.
  intros Hn. unfold held. destruct (sets !! t) as [c|] eqn:Ht.
  - rewrite <-(map_to_list_delete sets t c Ht). done.
  - rewrite (Hn eq_refl), delete_notin by done. done.
Qed.

Lemma held_delete_list D C : ∀ sets sets',
  NoDup C → (∀ t, t ∈ C → sets !! t = None → D t = []) →
  (∀ t, sets' !! t = if decide (t ∈ C) then None else sets !! t) →
  held D sets ≡ₚ stored (D <$> C) ++ held D sets'.
Proof.
  induction C as [|t C IH]; intros sets sets' Hnd Hn Hs.
  - assert (sets' = sets) as -> by (apply map_eq; intros t; apply Hs). done.
  - inversion Hnd as [|? ? Hnin Hnd']; subst.
    rewrite (held_delete D sets t) by (apply Hn; left).
    rewrite (IH (delete t sets) sets'); [|done| |].
    + simpl. change (stored (D t :: (D <$> C))) with ((D t).*2 ++ stored (D <$> C)). by rewrite (assoc_L (++)).
    + intros t' Ht'. rewrite lookup_delete_ne by (intros ->; done). apply Hn. by right.
    + intros t'. rewrite Hs. destruct (decide (t = t')) as [<-|Hne].
      * rewrite lookup_delete, decide_True by left. by destruct (decide _).
      * rewrite lookup_delete_ne by done. destruct (decide (t' ∈ C)).
        -- rewrite decide_True; [done|by right].
        -- rewrite decide_False; [done|]. by intros [?|?]%elem_of_cons.
Qed.

Lemma sl_family_ok R D V s sets ds P GP fam :
  lay_inv R D V s sets ds P GP → family_wf fam → (∀ t, t ∈ f_comps fam → t ∉ P) →
  length (cs_groups s) + length (f_arities fam) < 64 → length (f_comps fam) < 16 →
  ∃ s' sets' ds',
    sl_arities fam (length (cs_comps s)) (length (cs_groups s)) (length (cs_groups s) + length (f_arities fam))
      0 (f_arities fam) (s, sets) = Done (s', sets') ∧
    length (cs_groups s') = length (cs_groups s) + length (f_arities fam) ∧
    lay_inv R D V s' sets' ds' (list_to_set (f_comps fam) ∪ P) (list_to_set (f_comps fam) ∪ GP).
Proof.
  intros HI Hf HP H64 H16. pose proof (Forall2_length _ _ _ (li_rep _ _ _ _ _ _ _ _ HI)) as Hlen.
  destruct (fw_last _ Hf) as [l0 Hl0].
  assert (Hlast : default 0 (last (f_arities fam)) = length (f_comps fam)) by (rewrite Hl0, last_snoc; done).
  assert (Hsorted : StronglySorted lt (0 :: f_arities fam)).
  { constructor; [apply Hf|]. eapply Forall_impl; [apply Hf|]. simpl. intros. lia. }
  assert (Hne : f_arities fam ≠ []) by (rewrite Hl0; by destruct l0).
  set (C := f_comps fam) in *. set (ar := f_arities fam) in *.
  destruct (sl_arities_ok fam (length (cs_comps s)) (length (cs_groups s)) (length (cs_groups s) + length ar) ar 0 s sets)
    as (new & mt' & sets' & Heq & Hnl & Hnew & Hmeta & Hother & Hsets); try done; try apply Hf; try lia; [rewrite Hlast; fold C; lia|].
  change (f_comps fam) with C in Heq, Hmeta, Hother, Hsets. rewrite Hlast in Heq, Hmeta, Hother, Hsets. rewrite Nat.sub_0_r, drop_0 in Heq, Hother, Hsets.
  rewrite (take_ge C (length C)) in Heq, Hother, Hsets by done.
  set (ms := g_meta <$> cs_groups s) in *.
  assert (Hms : length ms = length (cs_groups s)) by apply fmap_length.
  rewrite <-Hms in Hnew, Hmeta. rewrite Hlen in Hnew, Hmeta.
  assert (Hfresh : ∀ t, t ∈ C → cs_meta s !! t = None).
  { intros t Ht. apply HP in Ht. rewrite (li_dom _ _ _ _ _ _ _ _ HI) in Ht. by apply eq_None_not_Some. }
  pose proof (li_wf _ _ _ _ _ _ _ _ HI) as Hwf. pose proof (li_static _ _ _ _ _ _ _ _ HI) as Hst.
  assert (Hskip : ∀ k m x, ms !! k = Some m → length ms ≤ x → x < 64 → bit (g_skip m) x = true).
  { rewrite Hms. apply HI. }
  assert (Hge : length ms + length ar < 64) by lia.
  assert (Hms' : g_meta <$> (cs_groups s ++ (new_group <$> new)) = ms ++ new).
  { rewrite fmap_app, <-list_fmap_compose. f_equal. rewrite <-(list_fmap_id new) at 2. done. }
  assert (Hnd : NoDup C) by apply Hf.
  assert (Hmeta' : ∀ i t, i < length C → C !! i = Some t → ∃ j pj aj m,
    (0 :: ar) !! j = Some pj ∧ ar !! j = Some aj ∧ pj ≤ i ∧ i < aj ∧ mt' !! t = Some m ∧
    meta_spec (length ds) (length ms) (length ms + length ar) i (length ms + j) m).
  { intros i t Hi Ht. apply Hmeta; [lia|done|done]. }
  eexists _, sets', (ds ++ (D <$> C)). split; [done|]. cbn [cs_groups].
  split; [rewrite app_length, fmap_length, Hnl; done|].
  split; cbn [cs_groups cs_meta cs_comps]; rewrite ?Hms', ?app_length, ?fmap_length.
  - apply Forall2_app; [apply HI|]. apply Forall2_fmap_2, Forall_Forall2_diag, Forall_forall. intros t Ht.
    unfold get_set. destruct (sets !! t) as [c|] eqn:Hc.
    + by apply (li_sets _ _ _ _ _ _ _ _ HI).
    + rewrite (li_rest _ _ _ _ _ _ _ _ HI t Hc (HP t Ht)). apply css_rep_new.
  - by eapply family_metas_wf.
  - intros k m x Hk Hx H. eapply (family_skip ms (cs_meta s) (length ds)); try done.
    rewrite app_length. lia.
  - by eapply family_static.
  - intros k g [Hk|[_ Hk]]%lookup_app_Some; [by eapply (li_len _ _ _ _ _ _ _ _ HI)|].
    apply list_lookup_fmap_Some in Hk as (m & _ & ->). done.
  - intros t. rewrite elem_of_union, elem_of_list_to_set. destruct (decide (t ∈ C)) as [Hin|Hnin].
    + split; [intros _|by left]. apply elem_of_list_lookup in Hin as [i Hi].
      destruct (Hmeta' i t) as (_ & _ & _ & m & _ & _ & _ & _ & -> & _); [by eapply lookup_lt_Some|done|done].
    + rewrite Hother by done. rewrite <-(li_dom _ _ _ _ _ _ _ _ HI). tauto.
  - intros t. rewrite elem_of_union, elem_of_list_to_set, (li_grp _ _ _ _ _ _ _ _ HI). symmetry.
    by eapply family_grp.
  - intros t m Hm. destruct (decide (t ∈ C)) as [Hin|Hnin].
    + apply elem_of_list_lookup in Hin as [i Hi].
      destruct (Hmeta' i t) as (? & ? & ? & m' & _ & _ & _ & _ & Hm' & Hsp); [by eapply lookup_lt_Some|done|].
      rewrite Hm in Hm'. inversion Hm'; subst m'. rewrite (ms_index _ _ _ _ _ _ Hsp).
      rewrite lookup_app_r by lia. replace (length ds + i - length ds) with i by lia.
      by rewrite list_lookup_fmap, Hi.
    + rewrite Hother in Hm by done. apply lookup_app_l_Some. by apply (li_data _ _ _ _ _ _ _ _ HI).
  - intros i d [Hi|[Hge' Hi]]%lookup_app_Some Hn.
    + eapply (li_spare _ _ _ _ _ _ _ _ HI); [done|]. intros t m Ht. apply (Hn t).
      rewrite Hother; [done|]. intros Hin. by rewrite Hfresh in Ht.
    + apply list_lookup_fmap_Some in Hi as (t & Ht & ->).
      destruct (Hmeta' (i - length ds) t) as (? & ? & ? & m' & _ & _ & _ & _ & Hm' & Hsp); [by eapply lookup_lt_Some|done|].
      exfalso. apply (Hn t m' Hm'). rewrite (ms_index _ _ _ _ _ _ Hsp). lia.
  - intros t c. rewrite Hsets. destruct (decide (t ∈ C)) as [|Hnin]; [done|]. intros Hc.
    destruct (li_sets _ _ _ _ _ _ _ _ HI t c Hc) as [? Hp]. split; [done|].
    rewrite elem_of_union, elem_of_list_to_set. tauto.
  - intros t. rewrite Hsets, elem_of_union, elem_of_list_to_set.
    destruct (decide (t ∈ C)) as [|Hnin].
    + split; [by intros [? ?]|tauto].
    + rewrite (li_keys _ _ _ _ _ _ _ _ HI). tauto.
  - intros t. rewrite Hsets, elem_of_union, elem_of_list_to_set.
    destruct (decide (t ∈ C)) as [|Hnin]; [tauto|]. intros Hc Hp. apply (li_rest _ _ _ _ _ _ _ _ HI); [done|tauto].
  - rewrite <-(li_vals _ _ _ _ _ _ _ _ HI), stored_app, <-(assoc_L (++)). f_equiv. symmetry.
    apply held_delete_list; [done| |done]. intros t Ht Hc. apply (li_rest _ _ _ _ _ _ _ _ HI); [done|by apply HP].
Qed.

Lemma sl_families_ok R D V : ∀ l s sets ds P GP,
  lay_inv R D V s sets ds P GP → Forall family_wf l → NoDup (layout_tids l) →
  (∀ t, t ∈ layout_tids l → t ∉ P) →
  length (cs_groups s) + length (concat (f_arities <$> l)) < 64 →
  (∀ fam, fam ∈ l → length (f_comps fam) < 16) →
  ∃ s' sets' ds', sl_families l (s, sets) = Done (s', sets') ∧
    lay_inv R D V s' sets' ds' (list_to_set (layout_tids l) ∪ P) (list_to_set (layout_tids l) ∪ GP).
Proof.
  induction l as [|fam l IH]; intros s sets ds P GP HI Hf Hnd HP H64 H16.
  { exists s, sets, ds. split; [done|]. unfold layout_tids. simpl. by rewrite !(left_id_L ∅ (∪)). }
  change (layout_tids (fam :: l)) with (f_comps fam ++ layout_tids l) in *.
  apply Forall_cons in Hf as [Hfam Hf]. apply NoDup_app in Hnd as (Hnd1 & Hdis & Hnd2).
  change (concat (f_arities <$> fam :: l)) with (f_arities fam ++ concat (f_arities <$> l)) in H64.
  rewrite app_length in H64.
  destruct (sl_family_ok R D V s sets ds P GP fam) as (s1 & sets1 & ds1 & Heq & Hlen & HI1); try done.
  { intros t Ht. apply HP. apply elem_of_app. by left. }
  { lia. }
  { apply H16. left. }
  destruct (IH s1 sets1 ds1 (list_to_set (f_comps fam) ∪ P) (list_to_set (f_comps fam) ∪ GP))
    as (s2 & sets2 & ds2 & Heq2 & HI2); try done.
  { intros t Ht. rewrite elem_of_union, elem_of_list_to_set. intros [Hc|Hp]; [by eapply Hdis|].
    apply (HP t); [|done]. apply elem_of_app. by right. }
  { lia. }
  { intros. apply H16. by right. }
  exists s2, sets2, ds2. split.
  - cbn [sl_families fst]. rewrite Heq. exact Heq2.
  - rewrite list_to_set_app_L. rewrite <-!(assoc_L (∪)) in *.
    rewrite (comm_L (∪) (list_to_set (f_comps fam)) (list_to_set (layout_tids l) ∪ P)),
      (comm_L (∪) (list_to_set (f_comps fam)) (list_to_set (layout_tids l) ∪ GP)).
    rewrite <-!(assoc_L (∪)), (comm_L (∪) P), (comm_L (∪) GP). done.
Qed.

(** ** The left-over storages *)

Lemma metas_wf_grow ms n n' : metas_wf ms n → n ≤ n' → metas_wf ms n'.
Proof. intros [H1 H2 H3 H4 H5] Hn. split; try done. intros k m Hk. destruct (H1 k m Hk) as (? & ? & ?). lia. Qed.

Lemma static_plain ms mt n t :
  metas_wf ms n → static ms mt n → mt !! t = None → static ms (<[t := meta_plain n]> mt) (S n).
Proof.
  intros Hwf [H1 H2 H3 H4 H5 H6 H7] Ht.
  assert (Hnc : ∀ k gm, ms !! k = Some gm → ¬ covers gm n).
  { intros k gm Hk [_ Hc]. destruct (mw_range _ _ Hwf k gm Hk) as (_ & _ & ?). lia. }
  assert (Hcase : ∀ t' m, <[t := meta_plain n]> mt !! t' = Some m →
    (t' = t ∧ m = meta_plain n) ∨ (t' ≠ t ∧ mt !! t' = Some m)).
  { intros t' m Hm. apply lookup_insert_Some in Hm as [[-> <-]|[? ?]]; [by left|by right]. }
  split.
  - intros t' m [[-> ->]|[? Hm]]%Hcase; [simpl; lia|]. apply H1 in Hm. lia.
  - intros t1 t2 m1 m2 [[-> ->]|[? Hm]]%Hcase [[-> ->]|[? Hm']]%Hcase Heq; simpl in *; try done.
    + apply H1 in Hm'. lia.
    + apply H1 in Hm. lia.
    + by eapply H2.
  - intros k gm i Hk Hc. destruct (H3 k gm i Hk Hc) as (t' & m & Ht' & Hi). exists t', m. split; [|done].
    rewrite lookup_insert_ne; [done|]. intros ->. congruence.
  - intros t' m j [[-> ->]|[? Hm]]%Hcase; [|by eapply H4]. cbn [meta_plain m_insert m_index]. rewrite bit_0.
    split; [done|]. intros (gj & k & gk & _ & Hk & _ & Hc). by eapply Hnc in Hc.
  - intros t' m j [[-> ->]|[? Hm]]%Hcase; [|by eapply H5]. cbn [meta_plain m_delete m_index]. rewrite bit_0.
    split; [done|]. intros (gj & Hk & Hc). by eapply Hnc in Hc.
  - intros t' m [[-> ->]|[? Hm]]%Hcase; [|by eapply H6]. done.
  - done.
Qed.

Lemma sl_leftover_ok R D V all : ∀ order s sets ds P GP,
  lay_inv R D V s sets ds P GP → NoDup order → (∀ t, t ∈ order ↔ is_Some (sets !! t)) →
  (∀ t, t ∈ order → all !! t = sets !! t) →
  ∃ ds', lay_inv R D V (sl_leftover order all s) ∅ ds' (list_to_set order ∪ P) GP ∧
    cs_groups (sl_leftover order all s) = cs_groups s.
Proof.
  induction order as [|t order IH]; intros s sets ds P GP HI Hnd Hord Hall.
  { exists ds. assert (sets = ∅) as ->.
    { apply map_empty. intros t. apply eq_None_not_Some. rewrite <-Hord. apply not_elem_of_nil. }
    simpl. by rewrite (left_id_L ∅ (∪)). }
  inversion Hnd as [|? ? Hnin Hnd']; subst. cbn [sl_leftover].
  destruct (proj1 (Hord t)) as [c Hc]; [left|]. destruct (li_sets _ _ _ _ _ _ _ _ HI t c Hc) as [Hrep HtP].
  pose proof (Forall2_length _ _ _ (li_rep _ _ _ _ _ _ _ _ HI)) as Hlen.
  assert (Ht : cs_meta s !! t = None).
  { apply eq_None_not_Some. by rewrite <-(li_dom _ _ _ _ _ _ _ _ HI). }
  rewrite (Hall t) by left. rewrite Hc. cbn [default from_option id].
  destruct (IH (CStore (cs_groups s) (<[t:=meta_plain (length (cs_comps s))]> (cs_meta s)) (cs_comps s ++ [c]))
    (delete t sets) (ds ++ [D t]) ({[t]} ∪ P) GP) as (ds' & HI' & Hgs); [|done| | |].
  - split; cbn [cs_groups cs_meta cs_comps]; rewrite ?app_length, ?Hlen; cbn [length].
    + apply Forall2_app; [apply HI|]. by constructor.
    + eapply metas_wf_grow; [apply HI|lia].
    + apply HI.
    + rewrite Nat.add_1_r. apply static_plain; [apply HI..|done].
    + apply HI.
    + intros t'. rewrite elem_of_union, elem_of_singleton, (li_dom _ _ _ _ _ _ _ _ HI), lookup_insert_is_Some. clear. destruct (decide (t = t')); naive_solver.
    + intros t'. rewrite (li_grp _ _ _ _ _ _ _ _ HI). split; intros (m & k & gm & Hm & Hk & Hcv); exists m, k, gm.
      * split; [|done]. rewrite lookup_insert_ne; [done|]. intros ->. congruence.
      * apply lookup_insert_Some in Hm as [[<- <-]|[? Hm]]; [|done]. exfalso.
        destruct Hcv as [_ Hcv]. simpl in Hcv.
        destruct (mw_range _ _ (li_wf _ _ _ _ _ _ _ _ HI) k gm Hk) as (_ & _ & ?). lia.
    + intros t' m [[<- <-]|[? Hm]]%lookup_insert_Some.
      * simpl. by rewrite lookup_app_r, Nat.sub_diag by lia.
      * apply lookup_app_l_Some. by apply (li_data _ _ _ _ _ _ _ _ HI).
    + intros i d [Hi|[Hi1 Hi]]%lookup_app_Some Hn.
      * eapply (li_spare _ _ _ _ _ _ _ _ HI); [done|]. intros t' m Hm. apply (Hn t').
        rewrite lookup_insert_ne; [done|]. intros ->. congruence.
      * exfalso. apply (Hn t (meta_plain (length ds))); [by rewrite lookup_insert|]. simpl.
        apply list_lookup_singleton_Some in Hi as [? _]. lia.
    + intros t' c' [Hne Hc']%lookup_delete_Some. destruct (li_sets _ _ _ _ _ _ _ _ HI t' c' Hc') as [? ?].
      split; [done|]. set_solver.
    + intros t'. rewrite lookup_delete_is_Some, (li_keys _ _ _ _ _ _ _ _ HI). clear. set_solver.
    + intros t' Hn Hp. apply (li_rest _ _ _ _ _ _ _ _ HI); [|set_solver].
      apply lookup_delete_None in Hn as [->|?]; [set_solver|done].
    + rewrite <-(li_vals _ _ _ _ _ _ _ _ HI), stored_app, <-(assoc_L (++)).
      rewrite (held_delete D sets t) by (rewrite Hc; done). unfold stored at 2. simpl. by rewrite app_nil_r.
  - intros t'. rewrite lookup_delete_is_Some, <-Hord. split.
    + intros Hin. split; [intros ->; done|by right].
    + intros [Hne [->|?]%elem_of_cons]; done.
  - intros t' Hin. rewrite lookup_delete_ne by (intros ->; done). apply Hall. by right.
  - exists ds'. rewrite Hgs. split; [|done]. rewrite Hlen in HI'. 
    replace (list_to_set (t :: order) ∪ P) with (list_to_set order ∪ ({[t]} ∪ P)) by (simpl; set_solver).
    by rewrite Hlen.
Qed.

Lemma order_by_NoDup perm sets : NoDup (order_by perm sets).
Proof.
  unfold order_by. apply NoDup_app. split_and!.
  - apply NoDup_filter, NoDup_remove_dups.
  - intros t Ht [? _]%elem_of_list_filter. done.
  - apply NoDup_filter, NoDup_fst_map_to_list.
Qed.

Lemma order_by_elem perm sets t : t ∈ order_by perm sets ↔ is_Some (sets !! t).
Proof.
  unfold order_by. set (p := filter _ _). rewrite elem_of_app, elem_of_list_filter. split.
  - intros [Hp|[_ Ht]].
    + subst p. by apply elem_of_list_filter in Hp as [? _].
    + apply elem_of_list_fmap in Ht as ([t' c] & -> & Ht). apply elem_of_map_to_list in Ht. by exists c.
  - intros [c Hc]. destruct (decide (t ∈ p)); [by left|right]. split; [done|].
    apply elem_of_list_fmap. exists (t, c). split; [done|]. by apply elem_of_map_to_list.
Qed.

(** ** Extraction *)

(** The content of type [t]. *)
Definition content (s : cstore) (ds : list dense) (t : tid) : dense :=
  match cs_meta s !! t with Some m => default [] (ds !! m_index m) | None => [] end.

Lemma bind_ext_in {A B} (f g : A → list B) l : (∀ x, x ∈ l → f x = g x) → l ≫= f = l ≫= g.
Proof.
  induction l as [|x l IH]; intros H; [done|]. simpl. rewrite (H x) by left. f_equal. apply IH. intros. apply H. by right.
Qed.

Lemma list_bind_fmap {A B C} (f : A → B) (g : B → list C) l : (f <$> l) ≫= g = l ≫= (λ x, g (f x)).
Proof. induction l as [|x l IH]; [done|]. simpl. f_equal. exact IH. Qed.

Lemma stored_indexed (L : list (tid * nat)) : ∀ ds,
  NoDup L.*2 → (∀ p, p ∈ L → p.2 < length ds) → (∀ i d, ds !! i = Some d → i ∉ L.*2 → d = []) →
  stored ds ≡ₚ L ≫= (λ p, (default [] (ds !! p.2)).*2).
Proof.
  induction L as [|[t i] L IH]; intros ds Hnd Hlt Hrest.
  - simpl. unfold stored. replace (ds ≫= _) with (@nil val); [done|]. symmetry.
    assert (∀ d, d ∈ ds → d = []) as Hall.
    { intros d [i Hi]%elem_of_list_lookup. eapply Hrest; [done|]. apply not_elem_of_nil. }
    clear -Hall. induction ds as [|d ds IH]; [done|]. simpl. rewrite (Hall d) by left. simpl.
    apply IH. intros. apply Hall. by right.
  - simpl in Hnd. inversion Hnd as [|? ? Hnin Hnd']; subst.
    destruct (lookup_lt_is_Some_2 ds i) as [d Hd]; [apply (Hlt (t, i)); left|].
    cbn [mbind list_bind snd]. rewrite Hd. cbn [default from_option id].
    assert (stored ds ≡ₚ d.*2 ++ stored (<[i := []]> ds)) as ->.
    { apply (stored_insert ds i d [] [] d.*2); [done|]. simpl. by rewrite app_nil_r. }
    f_equiv. rewrite (IH (<[i := []]> ds)); [|done| |].
    + apply reflexive_eq, bind_ext_in. intros [t' i'] Hin. simpl. rewrite list_lookup_insert_ne; [done|].
      intros ->. apply Hnin. apply elem_of_list_fmap. by exists (t', i').
    + intros p Hp. rewrite insert_length. apply Hlt. by right.
    + intros i' d' Hd' Hn. destruct (decide (i = i')) as [<-|Hne].
      * rewrite list_lookup_insert in Hd' by (by eapply lookup_lt_Some). congruence.
      * rewrite list_lookup_insert_ne in Hd' by done. eapply Hrest; [done|]. simpl.
        by intros [?|?]%elem_of_cons.
Qed.

Lemma extract_sets_ok s ds am reg grp loose :
  cinv s ds am reg grp loose →
  ∃ sets s0 ds0, extract_sets s = Ok (sets, s0) ∧
    lay_inv reg (content s ds) (stored ds) s0 sets ds0 ∅ ∅ ∧ cs_groups s0 = [].
Proof.
  intros HI. pose proof (ci_length _ _ _ _ _ _ HI) as Hlen. pose proof (ci_static _ _ _ _ _ _ HI) as Hst.
  unfold extract_sets. destruct (forallb _ _) eqn:Hfa.
  2:{ exfalso. apply not_true_iff_false in Hfa. apply Hfa, Is_true_true, forallb_True, Forall_forall. intros [t m] Ht. apply elem_of_map_to_list in Ht. apply Is_true_true, Nat.ltb_lt. simpl.
      rewrite Hlen. by eapply (st_index _ _ _ Hst). }
  set (mt := cs_meta s) in *.
  assert (Hsets : ∀ t, omap (λ m, cs_comps s !! m_index m) mt !! t = mt !! t ≫= (λ m, cs_comps s !! m_index m))
    by (intros; apply lookup_omap).
  assert (Hsome : ∀ t, is_Some (omap (λ m, cs_comps s !! m_index m) mt !! t) ↔ is_Some (mt !! t)).
  { intros t. rewrite Hsets. destruct (mt !! t) as [m|] eqn:Ht; simpl; [|split; by intros [? ?]]. split; [eauto|intros _].
    apply lookup_lt_is_Some_2. rewrite Hlen. by eapply (st_index _ _ _ Hst). }
  eexists _, _, (replicate (length ds) []). split; [done|]. split; [|done].
  assert (Hnil : stored (replicate (length ds) []) = []).
  { generalize (length ds). induction n; [done|]. done. }
  split; cbn [cs_groups cs_meta cs_comps fmap list_fmap]; rewrite ?replicate_length.
  - apply Forall2_same_length_lookup. rewrite imap_length, replicate_length. split; [done|].
    intros i c d Hc Hd. apply lookup_replicate in Hd as [-> Hi].
    rewrite list_lookup_imap in Hc. destruct (cs_comps s !! i) as [c0|] eqn:Hc0; [|done]. simpl in Hc.
    inversion Hc; subst c; clear Hc.
    destruct (existsb _ _) eqn:Hex; [apply css_rep_new|].
    destruct (lookup_lt_is_Some_2 ds i) as [d Hd]; [done|].
    assert (css_rep c0 d) as Hr by (eapply Forall2_lookup_lr; [apply HI|done|done]).
    assert (d = []) as <-; [|done]. eapply (ci_spare _ _ _ _ _ _ HI); [done|]. intros t m Ht Heq.
    apply not_true_iff_false in Hex. apply Hex. apply existsb_exists. exists (t, m). split.
    + apply elem_of_list_In, elem_of_map_to_list. done.
    + simpl. by apply Nat.eqb_eq.
  - split; try (intros; by rewrite lookup_nil in *). simpl. lia.
  - intros k m x Hk. by rewrite lookup_nil in Hk.
  - split; try (intros; by rewrite lookup_nil in *); try (intros; by rewrite lookup_empty in *).
  - intros k g Hk. by rewrite lookup_nil in Hk.
  - intros t. rewrite lookup_empty. split; [set_solver|by intros [? ?]].
  - intros t. split; [set_solver|]. intros (m & _ & _ & H & _). by rewrite lookup_empty in H.
  - intros t m Hm. by rewrite lookup_empty in Hm.
  - intros i d Hi _. by apply lookup_replicate in Hi as [-> _].
  - intros t c Hc. split; [|set_solver]. rewrite Hsets in Hc. unfold content. fold mt.
    destruct (mt !! t) as [m|] eqn:Ht; simpl in Hc; [|done].
    destruct (Forall2_lookup_l _ _ _ _ _ (ci_rep _ _ _ _ _ _ HI) Hc) as (d & -> & Hr). done.
  - intros t. rewrite Hsome, (ci_reg _ _ _ _ _ _ HI). fold mt. set_solver.
  - intros t Hn _. unfold content. fold mt. destruct (mt !! t) as [m|] eqn:Ht; [|done].
    exfalso. destruct (proj2 (Hsome t)) as [c Hc]; [by rewrite Ht|]. congruence.
  - rewrite Hnil. simpl. unfold held.
    rewrite (stored_indexed (prod_map id m_index <$> map_to_list mt) ds).
    + transitivity ((map_to_list (omap (λ m, cs_comps s !! m_index m) mt)).*1 ≫= (λ t, (content s ds t).*2)).
      { rewrite list_bind_fmap. done. }
      transitivity ((map_to_list mt).*1 ≫= (λ t, (content s ds t).*2)).
      { apply bind_Permutation, NoDup_Permutation; [apply NoDup_fst_map_to_list..|]. intros t.
        rewrite !elem_of_list_fmap. split.
        - intros ([t' c] & -> & Hc). apply elem_of_map_to_list in Hc.
          destruct (proj1 (Hsome t')) as [m Hm]; [eauto|]. exists (t', m). split; [done|]. by apply elem_of_map_to_list.
        - intros ([t' m] & -> & Hc). apply elem_of_map_to_list in Hc.
          destruct (proj2 (Hsome t')) as [c Hm]; [eauto|]. exists (t', c). split; [done|]. by apply elem_of_map_to_list. }
      rewrite !list_bind_fmap. apply reflexive_eq, bind_ext_in. intros [t m] Hm. apply elem_of_map_to_list in Hm. simpl.
      unfold content. fold mt. by rewrite Hm.
    + rewrite <-list_fmap_compose. apply NoDup_fmap_2_strong; [|apply NoDup_map_to_list].
      intros [t m] [t' m'] H1%elem_of_map_to_list H2%elem_of_map_to_list Heq. simpl in Heq.
      assert (t = t') as -> by (by eapply (st_inj _ _ _ Hst)). congruence.
    + intros p ([t m] & -> & H)%elem_of_list_fmap. apply elem_of_map_to_list in H. simpl. by eapply (st_index _ _ _ Hst).
    + intros i d Hd Hn. eapply (ci_spare _ _ _ _ _ _ HI); [done|]. intros t m Ht <-. apply Hn.
      rewrite <-list_fmap_compose. apply elem_of_list_fmap. exists (t, m). split; [done|]. by apply elem_of_map_to_list.
Qed.

(** ** Grouping a list of entities *)

Lemma closed_down_meta gs gs' m :
  g_meta <$> gs = g_meta <$> gs' → closed_down gs m → closed_down gs' m.
Proof.
  intros Heq [H1 H2]. assert (Hlen : length gs = length gs').
  { rewrite <-(fmap_length g_meta gs), Heq. apply fmap_length. }
  split; [intros k Hk; rewrite <-Hlen; by apply H1|].
  intros j k gj gk Hjk Hk Hj' Hk' Hf.
  destruct (same_meta_lookup gs' gs j gj Heq Hj') as (hj & Hhj & E1).
  destruct (same_meta_lookup gs' gs k gk Heq Hk') as (hk & Hhk & E2).
  apply (H2 j k hj hk); try done. unfold same_family in *. congruence.
Qed.

Lemma group_each_gen mask am reg grp loose : ∀ es s ds,
  cinv s ds am reg grp (list_to_set es ∪ loose) → (∀ e, e ∈ es → enter_ok (cs_groups s) ds e) → closed_down (cs_groups s) mask →
  (∀ k g e, e ∈ es → cs_groups s !! k = Some g → (∀ i, in_group g i → has ds i e) → bit mask k = true) →
  ∃ comps' gs' ds', group_each (cs_comps s) (cs_groups s) mask es = Ok (comps', gs') ∧
    cinv (CStore gs' (cs_meta s) comps') ds' am reg grp loose ∧ stored ds ≡ₚ stored ds' ∧
    g_meta <$> gs' = g_meta <$> cs_groups s.
Proof.
  induction es as [|e es IH]; intros s ds HI Hu Hcl Hall.
  { exists (cs_comps s), (cs_groups s), ds. split; [done|]. destruct s. simpl in *. split; [|done].
    by rewrite (left_id_L ∅ (∪)) in HI. }
  destruct (ci_group_gen s ds am reg grp (list_to_set (e :: es) ∪ loose) HI mask e (Hu e ltac:(left)) Hcl)
    as (s1 & ds1 & Heq & Hmt & HR & HI1 & Hkeep & Hmem).
  rewrite group_if_eq in Heq. cbn [group_each].
  destruct (do_group (cs_comps s) (cs_groups s) mask e) as [[comps1 gs1]| |] eqn:Hg; [|done..].
  inversion Heq; subst s1; clear Heq. cbn [cs_meta cs_groups cs_comps fst snd] in *. 
  pose proof (rg_meta _ _ _ _ _ HR) as Hm1. pose proof (rg_perm _ _ _ _ _ HR) as Hp1.
  assert (HI1' : cinv (CStore gs1 (cs_meta s) comps1) ds1 am reg grp (list_to_set es ∪ loose)).
  { eapply cinv_tighten; [exact HI1|]. intros k g e' Hk Hn Hin Hh. simpl in *.
    assert (e' = e) as -> by set_solver.
    destruct (same_meta_lookup gs1 (cs_groups s) k g (eq_sym Hm1) Hk) as (g0 & Hg0 & E).
    assert (∀ i, in_group g0 i → has ds i e) as Hh0.
    { intros i Hi. rewrite <-(perm_has _ _ _ _ Hp1). apply Hh. unfold in_group in *. by rewrite <-E. }
    apply (Hmem k g0); [|done|done]. eapply Hall; [left|done|done]. }
  destruct (IH (CStore gs1 (cs_meta s) comps1) ds1) as (comps' & gs' & ds' & Heq' & HI' & Hst & Hm').
  - done.
  - intros e' He'. simpl. eapply enter_ok_regrouped; [exact HR|exact Hkeep|]. apply Hu. by right.
  - simpl. eapply closed_down_meta; [|done]. by symmetry.
  - intros k g e' He' Hk Hh. simpl in Hk.
    destruct (same_meta_lookup gs1 (cs_groups s) k g (eq_sym Hm1) Hk) as (g0 & Hg0 & E).
    eapply Hall; [by right|done|]. intros i Hi. rewrite <-(perm_has _ _ _ _ Hp1). apply Hh.
    unfold in_group in *. by rewrite <-E.
  - exists comps', gs', ds'. cbn [cs_groups cs_comps cs_meta] in *. split_and!; try done.
    + rewrite <-Hst. by eapply regrouped_stored.
    + congruence.
Qed.

Lemma group_each_ok mask am reg grp loose : ∀ es s ds,
  cinv s ds am reg grp (list_to_set es ∪ loose) → am_uniform grp am → closed_down (cs_groups s) mask →
  (∀ k g e, e ∈ es → cs_groups s !! k = Some g → (∀ i, in_group g i → has ds i e) → bit mask k = true) →
  ∃ comps' gs' ds', group_each (cs_comps s) (cs_groups s) mask es = Ok (comps', gs') ∧
    cinv (CStore gs' (cs_meta s) comps') ds' am reg grp loose ∧ stored ds ≡ₚ stored ds' ∧
    g_meta <$> gs' = g_meta <$> cs_groups s.
Proof.
  intros es s ds HI Hu. apply group_each_gen; [done|]. intros e _.
  apply uniform_enter; [apply HI|by eapply ci_uniform].
Qed.

(** ** [set_layout] *)

Lemma content_data s ds am reg grp loose t e v :
  cinv s ds am reg grp loose → (e, v) ∈ content s ds t ↔ am_has am t e v.
Proof.
  intros HI. unfold content. destruct (cs_meta s !! t) as [m|] eqn:Ht.
  - destruct (lookup_lt_is_Some_2 ds (m_index m)) as [d Hd];
      [by eapply (st_index _ _ _ (ci_static _ _ _ _ _ _ HI))|].
    rewrite Hd. by eapply (ci_data _ _ _ _ _ _ HI).
  - split; [by intros ?%elem_of_nil|]. intros H. apply (ci_types _ _ _ _ _ _ HI) in H.
    rewrite (ci_reg _ _ _ _ _ _ HI), Ht in H. by destruct H.
Qed.

Lemma lay_inv_cinv R D V s ds P GP am es :
  lay_inv R D V s ∅ ds P GP → am_ok am → (∀ t e v, (e, v) ∈ D t ↔ am_has am t e v) →
  (∀ e, is_Some (am !! e) → e ∈ es) →
  cinv s ds am P GP (list_to_set es).
Proof.
  intros HI Hok HD Hes. pose proof (li_wf _ _ _ _ _ _ _ _ HI) as Hwf.
  assert (Hlook : ∀ k g, cs_groups s !! k = Some g → (g_meta <$> cs_groups s) !! k = Some (g_meta g)).
  { intros k g Hk. by rewrite list_lookup_fmap, Hk. }
  split.
  - done.
  - apply HI.
  - split.
    + apply HI.
    + intros k g i i' d d' Hk _ _ _ _. by rewrite (li_len _ _ _ _ _ _ _ _ HI k g Hk).
    + intros k g i d Hk _ _. rewrite (li_len _ _ _ _ _ _ _ _ HI k g Hk). lia.
    + intros j k gj gk _ Hj Hk _. rewrite (li_len _ _ _ _ _ _ _ _ HI k gk Hk). lia.
  - apply HI.
  - apply HI.
  - apply HI.
  - intros t m d e v Ht Hd. rewrite (li_data _ _ _ _ _ _ _ _ HI t m Ht) in Hd. inversion Hd; subst. apply HD.
  - intros e t v Hh. apply HD in Hh. destruct (decide (t ∈ P)); [done|].
    rewrite (li_rest _ _ _ _ _ _ _ _ HI t) in Hh; [by apply elem_of_nil in Hh|apply lookup_empty|done].
  - apply HI.
  - intros k g e Hk He Hall. exfalso. apply He. apply elem_of_list_to_set, Hes.
    destruct (mw_range _ _ Hwf k _ (Hlook k g Hk)) as (H1 & H2 & H3).
    destruct (Hall (g_start (g_meta g))) as (d & Hd & (v & Hv)%elem_fst_pair); [split; lia|].
    destruct (st_owner _ _ _ (li_static _ _ _ _ _ _ _ _ HI) k _ (g_start (g_meta g)) (Hlook k g Hk)) as (t & m & Ht & Hi).
    { split; lia. }
    rewrite <-Hi, (li_data _ _ _ _ _ _ _ _ HI t m Ht) in Hd. inversion Hd; subst.
    apply HD in Hv as (r & Hr & _). by exists r.
Qed.

Lemma set_layout_gen s ds am reg grp loose l perm es :
  cinv s ds am reg grp loose → layout_wf l → layout_fits l →
  (∀ s2 ds2, set_layout s l perm [] = SlOk s2 →
     cinv s2 ds2 am (list_to_set (layout_tids l) ∪ reg) (list_to_set (layout_tids l)) (list_to_set es) →
     ∀ e, e ∈ es → enter_ok (cs_groups s2) ds2 e) →
  (∀ e, is_Some (am !! e) → e ∈ es) →
  ∃ s' ds', set_layout s l perm es = SlOk s' ∧
    cinv s' ds' am (list_to_set (layout_tids l) ∪ reg) (list_to_set (layout_tids l)) ∅ ∧
    stored ds ≡ₚ stored ds'.
Proof.
  intros HI [Hwf Hdis] [H64 H16] Hu Hes. unfold set_layout in *.
  destruct (extract_sets_ok s ds am reg grp loose HI) as (sets & s0 & ds0 & Hx & HL0 & Hg0). rewrite Hx in *.
  destruct (sl_families_ok _ _ _ l s0 sets ds0 ∅ ∅ HL0 Hwf Hdis) as (s1 & sets1 & ds1 & Hf & HL1).
  { intros. apply not_elem_of_empty. }
  { rewrite Hg0. done. }
  { done. }
  rewrite Hf in *. rewrite !(right_id_L ∅ (∪)) in HL1.
  destruct (sl_leftover_ok _ _ _ sets1 (order_by perm sets1) s1 sets1 ds1 _ _ HL1) as (ds2 & HL2 & Hgs2).
  { apply order_by_NoDup. } { apply order_by_elem. } { done. }
  cbv zeta. set (s2 := sl_leftover (order_by perm sets1) sets1 s1) in *.
  assert (HP : list_to_set (order_by perm sets1) ∪ list_to_set (layout_tids l) =@{gset tid} list_to_set (layout_tids l) ∪ reg).
  { apply set_eq. intros t. rewrite !elem_of_union, !elem_of_list_to_set, order_by_elem, (li_keys _ _ _ _ _ _ _ _ HL1),
      elem_of_list_to_set. destruct (decide (t ∈ layout_tids l)); tauto. }
  rewrite HP in HL2.
  pose proof (mw_count _ _ (li_wf _ _ _ _ _ _ _ _ HL2)) as Hcount. rewrite fmap_length in Hcount.
  destruct (gm_from_to_ok 0 (length (cs_groups s2))) as [mask Hmask]; [lia..|]. cbv zeta in Hu. fold s2 in Hu. rewrite Hmask in *.
  destruct (gm_from_to_Some _ _ _ Hmask) as (_ & _ & Hbit).
  assert (HI2 : cinv s2 ds2 am (list_to_set (layout_tids l) ∪ reg) (list_to_set (layout_tids l)) (list_to_set es ∪ ∅)).
  { rewrite (right_id_L ∅ (∪)). eapply lay_inv_cinv; [done|apply HI| |done]. intros t e v. by eapply content_data. }
  destruct (group_each_gen mask am _ _ _ es s2 ds2 HI2) as (comps' & gs' & ds' & -> & HI' & Hst & _).
  { intros e He. apply Hu; [|by rewrite (right_id_L ∅ (∪)) in HI2|done]. cbn [group_each fst snd]. by destruct s2. }
  { split.
    - intros k. rewrite Hbit. simpl. by intros ?%Nat.ltb_lt.
    - intros j k gj gk Hjk Hk _ _ _. rewrite Hbit in *. simpl in *. rewrite Nat.ltb_lt in *. lia. }
  { intros k g e _ Hk _. rewrite Hbit. simpl. apply Nat.ltb_lt. by eapply lookup_lt_Some. }
  eexists _, ds'. split; [done|]. split; [done|]. rewrite <-Hst.
  pose proof (li_vals _ _ _ _ _ _ _ _ HL2) as Hv. unfold held in Hv. rewrite map_to_list_empty in Hv. simpl in Hv.
  by rewrite app_nil_r in Hv.
Qed.

Lemma set_layout_ok s ds am reg grp loose l perm es :
  cinv s ds am reg grp loose → layout_wf l → layout_fits l →
  am_uniform (list_to_set (layout_tids l)) am →
  (∀ e, is_Some (am !! e) → e ∈ es) →
  ∃ s' ds', set_layout s l perm es = SlOk s' ∧
    cinv s' ds' am (list_to_set (layout_tids l) ∪ reg) (list_to_set (layout_tids l)) ∅ ∧
    stored ds ≡ₚ stored ds'.
Proof.
  intros HI Hwf Hfit Hu. apply (set_layout_gen s ds am reg grp loose); [done..|]. intros s2 ds2 _ HI2 e _.
  apply uniform_enter; [apply HI2|by eapply ci_uniform].
Qed.

(** ** Layouts beyond the limits *)

Definition after_state {A} (r : after A) : A := match r with Done a | Paniced a => a end.

Lemma sl_comps_inv fam G ge ngs n : ∀ local st,
  (after_state (sl_comps fam G ge ngs local n st)).2 ⊆ st.2 ∧
  cs_groups (after_state (sl_comps fam G ge ngs local n st)).1 = cs_groups st.1.
Proof.
  induction n as [|n IH]; intros local [s sets]; [done|]. cbn [sl_comps].
  destruct (f_comps fam !! local); [|done]. destruct (gm_from_to G ge); [|done].
  destruct (gm_from_to ngs ge); [|done]. destruct (sm_single local); [|done].
  destruct (IH (S local) (CStore (cs_groups s)
    (<[t:=Meta (length (cs_comps s)) n0 n1 (Some (GInfo (as_u8 G) (as_u8 (length (cs_groups s))) n2))]> (cs_meta s))
    (cs_comps s ++ [default css_new (sets !! t)]), delete t sets)) as [H1 H2].
  split; [|exact H2]. etrans; [exact H1|]. simpl. apply delete_subseteq.
Qed.

Lemma then_state {A} (r : after A) f : after_state (then_ r f) = match r with Done a => after_state (f a) | Paniced a => a end.
Proof. by destruct r. Qed.

Lemma sl_arities_inv fam b G ge : ∀ ar p st,
  (after_state (sl_arities fam b G ge p ar st)).2 ⊆ st.2 ∧
  ∀ st', sl_arities fam b G ge p ar st = Done st' →
    length (cs_groups st'.1) = length (cs_groups st.1) + length ar ∧
    (ar ≠ [] → ge < 64) ∧ Forall (λ a, a < 16) ar.
Proof.
  induction ar as [|a ar IH]; intros p [s sets].
  { split; [done|]. intros st' H. inversion H; subst. simpl. split_and!; [lia|done|constructor]. }
  cbn [sl_arities]. destruct (gm_skip_from_to _ _) as [skip|] eqn:Hskip; [|done].
  destruct (qm_of_include a) as [inc|] eqn:Hinc; [|done]. destruct (qm_of_exclude p a) as [exc|] eqn:Hexc; [|done].
  set (g := Grp _ 0).
  destruct (sl_comps_inv fam G ge (length (cs_groups s)) (a - p) p (CStore (cs_groups s ++ [g]) (cs_meta s) (cs_comps s), sets))
    as [H1 H2].
  assert (a < 16).
  { unfold qm_of_include in Hinc. destruct (sm_from_to 0 a) as [m|] eqn:Hm; [|done].
    by destruct (sm_from_to_Some _ _ _ Hm) as (_ & ? & _). }
  destruct (gm_skip_from_to_Some _ _ _ Hskip) as (_ & Hge & _).
  destruct (sl_comps _ _ _ _ _ _ _) as [st1|st1] eqn:Hc; simpl in *; [|done].
  destruct (IH a st1) as [H3 H4]. split; [by etrans|]. intros st' Hst'. destruct (H4 st' Hst') as (H5 & H6 & H7).
  split_and!.
  - rewrite H5, H2, app_length. simpl. lia.
  - done.
  - by constructor.
Qed.

Lemma sl_families_inv : ∀ l st,
  (after_state (sl_families l st)).2 ⊆ st.2 ∧
  ∀ st', sl_families l st = Done st' → Forall family_wf l → length (cs_groups st.1) < 64 →
    length (cs_groups st.1) + length (concat (f_arities <$> l)) < 64 ∧ ∀ fam, fam ∈ l → length (f_comps fam) < 16.
Proof.
  induction l as [|fam l IH]; intros st.
  { split; [done|]. intros st' H _ ?. simpl. split; [lia|]. by intros ? ?%elem_of_nil. }
  cbn [sl_families].
  destruct (sl_arities_inv fam (length (cs_comps st.1)) (length (cs_groups st.1))
    (length (cs_groups st.1) + length (f_arities fam)) (f_arities fam) 0 st) as [H1 H2].
  destruct (sl_arities _ _ _ _ _ _ _) as [st1|st1] eqn:Ha; simpl in *; [|done].
  destruct (IH st1) as [H3 H4]. split; [by etrans|]. intros st' Hst' [Hf Hfs]%Forall_cons Hlt.
  destruct (H2 st1 eq_refl) as (Hl & Hge & H16). destruct (fw_last _ Hf) as [l0 Hl0].
  assert (f_arities fam ≠ []) as Hne by (rewrite Hl0; by destruct l0). specialize (Hge Hne).
  destruct (H4 st' Hst' Hfs) as [H64 Hall]; [lia|]. split.
  - change (length (cs_groups st.1) + length (f_arities fam ++ concat (f_arities <$> l)) < 64). rewrite app_length. lia.
  - intros fam' [->|Hin]%elem_of_cons; [|by apply Hall].
    rewrite Hl0 in H16. apply Forall_app in H16 as [_ H16]. by inversion H16.
Qed.

Lemma set_layout_unfit s ds am reg grp loose l perm es :
  cinv s ds am reg grp loose → layout_wf l → ¬ layout_fits l →
  ∃ vs s', set_layout s l perm es = SlPanic vs s'.
Proof.
  intros HI [Hwf Hdis] Hn. unfold set_layout.
  destruct (extract_sets_ok s ds am reg grp loose HI) as (sets & s0 & ds0 & -> & HL0 & Hg0).
  destruct (sl_families_inv l (s0, sets)) as [Hsub Hdone].
  destruct (sl_families l (s0, sets)) as [st|[s1 sets1]]; simpl in *.
  - exfalso. destruct (Hdone st eq_refl Hwf) as [? ?]; [rewrite Hg0; simpl; lia|]. rewrite Hg0 in *. by apply Hn.
  - assert (Forall2 css_rep (snd <$> map_to_list sets1) (content s ds <$> (map_to_list sets1).*1)) as Hrep.
    { rewrite <-list_fmap_compose. apply Forall2_fmap_2, Forall_Forall2_diag, Forall_forall.
      intros [t c] Ht%elem_of_map_to_list. simpl. eapply (li_sets _ _ _ _ _ _ _ _ HL0). by eapply lookup_weaken. }
    rewrite (drop_all_ok _ _ Hrep). eauto.
Qed.
