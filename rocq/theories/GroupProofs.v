(** The grouping code keeps, for every group, a common prefix of the storages
    of the group. *)
From Verif Require Import Base SparseVecM EntityM CssM MaskM GroupM Lists SparseProofs CssProofs MaskProofs.

(** * Moving an entity inside a storage *)

(** The position of [e]. *)
Definition epos (e : entity) (d : dense) : nat :=
  match list_find (λ p, p.1 = e) d with Some (i, _) => i | None => 0 end.

Definition dmove (e : entity) (n : nat) (d : dense) : dense := list_swap d (epos e d) n.

Lemma epos_lookup e (d : dense) : e ∈ d.*1 → d.*1 !! epos e d = Some e.
Proof.
  intros (v & Hv)%dense_fst_elem. unfold epos.
  destruct (list_find _ d) as [[i [e' v']]|] eqn:E.
  - apply list_find_Some in E as (Hi & He & _). simpl in *. subst.
    apply dense_fst_lookup. eauto.
  - apply list_find_None in E. rewrite Forall_forall in E. by destruct (E (e, v) Hv).
Qed.

Lemma epos_eq e (d : dense) i : NoDup d.*1 → d.*1 !! i = Some e → epos e d = i.
Proof.
  intros Hnd Hi. assert (e ∈ d.*1) as He by (by eapply elem_of_list_lookup_2).
  apply epos_lookup in He. by eapply NoDup_lookup.
Qed.

Lemma epos_lt e (d : dense) : e ∈ d.*1 → epos e d < length d.
Proof. intros He%epos_lookup. apply lookup_lt_Some in He. by rewrite fmap_length in He. Qed.

Lemma dmove_perm e n d : dmove e n d ≡ₚ d.
Proof. apply list_swap_perm. Qed.

Lemma dmove_length e n d : length (dmove e n d) = length d.
Proof. apply list_swap_length. Qed.

Lemma elem_of_take {A} (l : list A) n x : x ∈ take n l ↔ ∃ i, i < n ∧ l !! i = Some x.
Proof.
  rewrite elem_of_list_lookup. setoid_rewrite lookup_take_Some. naive_solver.
Qed.

Lemma take_elem_pos (d : dense) e n :
  NoDup d.*1 → e ∈ d.*1 → e ∈ take n d.*1 ↔ epos e d < n.
Proof.
  intros Hnd He. rewrite elem_of_take. split.
  - intros (i & Hi & Hl). by rewrite (epos_eq e d i).
  - intros H. exists (epos e d). split; [done|]. by apply epos_lookup.
Qed.

Lemma dmove_take_lt e n (d : dense) m :
  m ≤ epos e d → m ≤ n → take m (dmove e n d).*1 = take m d.*1.
Proof. intros H1 H2. unfold dmove. rewrite list_swap_fmap. by apply list_swap_take. Qed.

Lemma dmove_take_in e n (d : dense) m :
  epos e d < m → n < m → m ≤ length d → take m (dmove e n d).*1 = list_swap (take m d.*1) (epos e d) n.
Proof.
  intros H1 H2 H3. unfold dmove. rewrite list_swap_fmap. apply list_swap_take_in; try done.
  by rewrite fmap_length.
Qed.

Lemma dmove_take_S e n (d : dense) :
  e ∈ d.*1 → n ≤ epos e d → take (S n) (dmove e n d).*1 = take n d.*1 ++ [e].
Proof.
  intros He Hn. pose proof (epos_lt _ _ He) as Hlt.
  rewrite (take_S_r _ _ e).
  - f_equal. by apply dmove_take_lt.
  - unfold dmove. rewrite list_swap_fmap, list_swap_lookup by (rewrite fmap_length; lia).
    pose proof (epos_lookup _ _ He) as Hp.
    destruct (decide (n = epos e d)); [by subst|]. by rewrite decide_True.
Qed.

(** * Moving an entity in a range of storages *)

Definition dmove_range (e : entity) (n a b : nat) (ds : list dense) : list dense :=
  imap (λ i d, if decide (a ≤ i < b) then dmove e n d else d) ds.

Lemma dmove_range_lookup e n a b ds i :
  dmove_range e n a b ds !! i = (λ d, if decide (a ≤ i < b) then dmove e n d else d) <$> ds !! i.
Proof. apply list_lookup_imap. Qed.

Lemma dmove_range_length e n a b ds : length (dmove_range e n a b ds) = length ds.
Proof. apply imap_length. Qed.

Lemma dmove_range_perm e n a b ds : Forall2 (≡ₚ) ds (dmove_range e n a b ds).
Proof.
  apply Forall2_same_length_lookup_2; [by rewrite dmove_range_length|].
  intros i d d' H1 H2. rewrite dmove_range_lookup, H1 in H2. simpl in H2. inversion H2; subst.
  destruct (decide _); [|done]. symmetry. apply dmove_perm.
Qed.

Lemma move_to_ok c d e n f :
  css_rep c d → e ∈ d.*1 → d.*1 !! n = Some f → e_version f = e_version e →
  ∃ c', move_to e n c = Ok c' ∧ css_rep c' (dmove e n d).
Proof.
  intros Hr He Hn Hv. unfold move_to.
  pose proof (epos_lookup _ _ He) as Hp.
  rewrite (sv_get_sparse_unchecked_lookup _ _ (cr_sparse _ _ Hr) e (epos e d)) by done. simpl.
  destruct (Nat.eqb_spec (epos e d) n) as [<-|Hne].
  - exists c. unfold dmove. by rewrite list_swap_same.
  - apply dense_fst_lookup in Hp as [v Hp]. apply dense_fst_lookup in Hn as [w Hn].
    destruct (css_swap_ok _ _ Hr _ _ _ _ _ _ Hp Hn Hne) as (c' & H1 & H2); [done|].
    exists c'. done.
Qed.

Lemma mapM_from_ok e n a b off comps ds :
  Forall2 css_rep comps ds →
  (∀ i d, ds !! i = Some d → a ≤ off + i < b → e ∈ d.*1 ∧ ∃ f, d.*1 !! n = Some f ∧ e_version f = e_version e) →
  ∃ comps', mapM_from (move_to e n) a b off comps = Ok comps' ∧
    Forall2 css_rep comps' (imap (λ i d, if decide (a ≤ off + i < b) then dmove e n d else d) ds).
Proof.
  intros HF. revert off. induction HF as [|c d comps ds Hr HF IH]; intros off Hn.
  { exists []. by split; [|constructor]. }
  destruct (IH (S off)) as (comps' & H1 & H2).
  { intros i d' Hi Hin. apply (Hn (S i) d' Hi). lia. }
  assert (∃ c', (if (a <=? off) && (off <? b) then move_to e n c else Ok c) = Ok c' ∧
          css_rep c' (if decide (a ≤ off + 0 < b) then dmove e n d else d)) as (c' & Hc1 & Hc2).
  { destruct (decide (a ≤ off + 0 < b)) as [Hin|Hin].
    - destruct (Nat.leb_spec a off); [|lia]. destruct (Nat.ltb_spec off b); [|lia]. simpl.
      destruct (Hn 0 d eq_refl Hin) as (He & f & Hf & Hv). by eapply move_to_ok.
    - exists c. destruct (Nat.leb_spec a off), (Nat.ltb_spec off b); simpl; try done. lia. }
  exists (c' :: comps'). simpl. rewrite Hc1. simpl. rewrite H1. simpl. split; [done|].
  constructor; [done|]. erewrite imap_ext; [exact H2|]. intros i x _. simpl.
  by replace (off + S i) with (S off + i) by lia.
Qed.

Lemma on_range_ok e n a b comps ds :
  Forall2 css_rep comps ds → a ≤ b → b ≤ length ds →
  (∀ i d, ds !! i = Some d → a ≤ i < b → e ∈ d.*1 ∧ ∃ f, d.*1 !! n = Some f ∧ e_version f = e_version e) →
  ∃ comps', on_range (move_to e n) a b comps = Ok comps' ∧
    Forall2 css_rep comps' (dmove_range e n a b ds).
Proof.
  intros HF Hab Hb Hn. unfold on_range, range_ok.
  rewrite (Forall2_length _ _ _ HF).
  destruct (Nat.leb_spec a b); [|lia]. destruct (Nat.leb_spec b (length ds)); [|lia]. simpl.
  by apply mapM_from_ok.
Qed.

(** * Well-formed group descriptions *)

(** A family is a maximal run of groups with the same [g_start]. *)
Record metas_wf (ms : list gmeta) (n : nat) : Prop := {
  mw_range : ∀ k m, ms !! k = Some m → g_start m ≤ g_nstart m ∧ g_nstart m < g_end m ∧ g_end m ≤ n;
  mw_order : ∀ j k mj mk, j < k → ms !! j = Some mj → ms !! k = Some mk →
    (g_start mj = g_start mk ∧ g_end mj ≤ g_nstart mk) ∨ g_end mj ≤ g_start mk;
  mw_parent : ∀ k mk, ms !! k = Some mk → g_start mk < g_nstart mk →
    ∃ j mj, k = S j ∧ ms !! j = Some mj ∧ g_start mj = g_start mk ∧ g_end mj = g_nstart mk;
  mw_skip : ∀ k mk j mj, ms !! k = Some mk → ms !! j = Some mj →
    bit (g_skip mk) j = false ↔ k ≤ j ∧ g_start mj = g_start mk;
  mw_count : length ms < 64
}.

Definition in_group (g : group) (i : nat) : Prop := g_start (g_meta g) ≤ i ∧ i < g_end (g_meta g).
Definition same_family (g h : group) : Prop := g_start (g_meta g) = g_start (g_meta h).

Global Instance in_group_dec g i : Decision (in_group g i).
Proof. unfold in_group. apply _. Defined.
Global Instance same_family_dec g h : Decision (same_family g h).
Proof. unfold same_family. apply _. Defined.

Record ginv (gs : list group) (ds : list dense) : Prop := {
  gi_wf : metas_wf (g_meta <$> gs) (length ds);
  gi_prefix : ∀ k g i i' d d', gs !! k = Some g → in_group g i → in_group g i' →
     ds !! i = Some d → ds !! i' = Some d' → take (g_len g) d.*1 = take (g_len g) d'.*1;
  gi_len : ∀ k g i d, gs !! k = Some g → in_group g i → ds !! i = Some d → g_len g ≤ length d;
  gi_nest : ∀ j k gj gk, j < k → gs !! j = Some gj → gs !! k = Some gk → same_family gj gk →
     g_len gk ≤ g_len gj
}.

(** [e] is in the packed prefix of group [k]. *)
Definition mem (gs : list group) (ds : list dense) (k : nat) (e : entity) : Prop :=
  ∃ g d, gs !! k = Some g ∧ ds !! g_start (g_meta g) = Some d ∧ e ∈ take (g_len g) d.*1.

(** Storage [i] has [e]. *)
Definition has (ds : list dense) (i : nat) (e : entity) : Prop := ∃ d, ds !! i = Some d ∧ e ∈ d.*1.

Definition dnodup (ds : list dense) : Prop := ∀ i d, ds !! i = Some d → NoDup d.*1.

Lemma css_rep_dnodup comps ds : Forall2 css_rep comps ds → dnodup ds.
Proof.
  intros HF i d Hd. destruct (Forall2_lookup_r _ _ _ _ _ HF Hd) as (c & _ & Hr).
  eapply sparse_ok_nodup_ents, Hr.
Qed.

(** What a (un)grouping step of [e] preserves. *)
Record regrouped (e : entity) (gs : list group) (ds : list dense) (gs' : list group) (ds' : list dense)
    : Prop := {
  rg_meta : g_meta <$> gs' = g_meta <$> gs;
  rg_perm : Forall2 (≡ₚ) ds ds';
  rg_inv : ginv gs' ds';
  rg_other : ∀ k e', e' ≠ e → mem gs' ds' k e' ↔ mem gs ds k e'
}.

Lemma regrouped_refl e gs ds : ginv gs ds → regrouped e gs ds gs ds.
Proof. intros H. split; try done. Qed.

Lemma regrouped_trans e gs ds gs1 ds1 gs2 ds2 :
  regrouped e gs ds gs1 ds1 → regrouped e gs1 ds1 gs2 ds2 → regrouped e gs ds gs2 ds2.
Proof.
  intros [A1 A2 A3 A4] [B1 B2 B3 B4]. split.
  - congruence.
  - eapply Forall2_transitive; [|exact A2|exact B2]. intros x y z Hx Hy. by etrans.
  - done.
  - intros k e' He. rewrite B4 by done. by apply A4.
Qed.

Lemma perm_has ds ds' i e : Forall2 (≡ₚ) ds ds' → has ds' i e ↔ has ds i e.
Proof.
  intros HF. split; intros (d & Hd & He).
  - destruct (Forall2_lookup_r _ _ _ _ _ HF Hd) as (d0 & H0 & Hp). exists d0. split; [done|].
    by rewrite Hp.
  - destruct (Forall2_lookup_l _ _ _ _ _ HF Hd) as (d0 & H0 & Hp). exists d0. split; [done|].
    by rewrite <-Hp.
Qed.

(** Every storage of a group holds entities of a single version. *)
Definition uniform (gs : list group) (ds : list dense) : Prop :=
  ∀ k g i e e', gs !! k = Some g → in_group g i → has ds i e → has ds i e' → e_version e = e_version e'.

Lemma uniform_perm gs gs' ds ds' :
  g_meta <$> gs' = g_meta <$> gs → Forall2 (≡ₚ) ds ds' → uniform gs ds → uniform gs' ds'.
Proof.
  intros Hm HF Hu k g i e e' Hg Hin H1 H2. rewrite perm_has in H1, H2 by done.
  assert ((g_meta <$> gs') !! k = Some (g_meta g)) as Hk by (by rewrite list_lookup_fmap, Hg).
  rewrite Hm, list_lookup_fmap in Hk. destruct (gs !! k) as [g0|] eqn:Eg; [|done].
  simpl in Hk. inversion Hk as [Hk'].
  eapply (Hu k g0 i); eauto. unfold in_group in *. by rewrite Hk'.
Qed.

(** Where [e] enters a group, the owners outside of the group have its version. *)
Definition enter_ok (gs : list group) (ds : list dense) (e : entity) : Prop :=
  ∀ k g i f, gs !! k = Some g → (∀ i, in_group g i → has ds i e) → ¬ mem gs ds k e →
    in_group g i → has ds i f → ¬ mem gs ds k f → e_version f = e_version e.

(** Where [e] leaves a group (one of those in [P]), the members have its version. *)
Definition leave_ok (P : nat → Prop) (gs : list group) (ds : list dense) (e : entity) : Prop :=
  ∀ k f, P k → mem gs ds k e → mem gs ds k f → e_version f = e_version e.

Lemma enter_ok_regrouped e0 e gs ds gs' ds' :
  regrouped e0 gs ds gs' ds' → (∀ k, mem gs ds k e0 → mem gs' ds' k e0) → enter_ok gs ds e → enter_ok gs' ds' e.
Proof.
  intros HR Hm Ho k g i f Hg Hall Hn Hi Hf Hnf.
  assert (Hmono : ∀ x, mem gs ds k x → mem gs' ds' k x).
  { intros x Hx. destruct (decide (x = e0)) as [->|Hne]; [by apply Hm|]. by apply (rg_other _ _ _ _ _ HR). }
  pose proof (rg_perm _ _ _ _ _ HR) as Hp.
  assert ((g_meta <$> gs') !! k = Some (g_meta g)) as Hk by (by rewrite list_lookup_fmap, Hg).
  rewrite (rg_meta _ _ _ _ _ HR), list_lookup_fmap in Hk. destruct (gs !! k) as [g0|] eqn:Eg; [|done].
  simpl in Hk. inversion Hk as [Hk'].
  apply (Ho k g0 i f Eg).
  - intros j Hj. rewrite <-(perm_has _ _ _ _ Hp). apply Hall. unfold in_group in *. by rewrite <-Hk'.
  - naive_solver.
  - unfold in_group in *. by rewrite Hk'.
  - by rewrite <-(perm_has _ _ _ _ Hp).
  - naive_solver.
Qed.

Lemma leave_ok_regrouped P e gs ds gs' ds' :
  regrouped e gs ds gs' ds' → (∀ k, mem gs' ds' k e → mem gs ds k e) → leave_ok P gs ds e → leave_ok P gs' ds' e.
Proof.
  intros HR Hm Ho k f Hk He Hf. destruct (decide (f = e)) as [->|Hne]; [done|].
  apply (Ho k); [done|by apply Hm|]. by apply (rg_other _ _ _ _ _ HR).
Qed.

Section gfacts.
  Context (gs : list group) (ds : list dense) (HG : ginv gs ds).

  Lemma ginv_range k g :
    gs !! k = Some g → g_start (g_meta g) ≤ g_nstart (g_meta g) ∧ g_nstart (g_meta g) < g_end (g_meta g)
                     ∧ g_end (g_meta g) ≤ length ds.
  Proof using HG.
    intros Hg. apply (mw_range _ _ (gi_wf _ _ HG) k). by rewrite list_lookup_fmap, Hg.
  Qed.

  Lemma ginv_order j k gj gk :
    j < k → gs !! j = Some gj → gs !! k = Some gk →
    (same_family gj gk ∧ g_end (g_meta gj) ≤ g_nstart (g_meta gk)) ∨ g_end (g_meta gj) ≤ g_start (g_meta gk).
  Proof using HG.
    intros Hlt Hj Hk. apply (mw_order _ _ (gi_wf _ _ HG) j k); try done;
      by rewrite list_lookup_fmap, ?Hj, ?Hk.
  Qed.

  Lemma in_group_lookup k g i : gs !! k = Some g → in_group g i → ∃ d, ds !! i = Some d.
  Proof using HG.
    intros Hg [H1 H2]. apply ginv_range in Hg as (? & ? & ?). apply lookup_lt_is_Some_2. lia.
  Qed.

  Lemma in_group_start k g : gs !! k = Some g → in_group g (g_start (g_meta g)).
  Proof using HG. intros Hg. apply ginv_range in Hg as (? & ? & ?). split; lia. Qed.

  Lemma in_group_nstart k g : gs !! k = Some g → in_group g (g_nstart (g_meta g)).
  Proof using HG. intros Hg. apply ginv_range in Hg as (? & ? & ?). split; lia. Qed.

  Lemma mem_at k g i d e :
    gs !! k = Some g → in_group g i → ds !! i = Some d → mem gs ds k e ↔ e ∈ take (g_len g) d.*1.
  Proof using HG.
    intros Hg Hi Hd. split.
    - intros (g' & d' & Hg' & Hd' & He). rewrite Hg in Hg'. inversion Hg'; subst g'.
      rewrite (gi_prefix _ _ HG k g i (g_start (g_meta g)) d d'); try done. by eapply in_group_start.
    - intros He. pose proof (in_group_start k g Hg) as Hs.
      destruct (in_group_lookup k g _ Hg Hs) as [d' Hd'].
      exists g, d'. split_and!; try done. by rewrite (gi_prefix _ _ HG k g (g_start (g_meta g)) i d' d).
  Qed.

  Lemma mem_has k g i e : gs !! k = Some g → in_group g i → mem gs ds k e → has ds i e.
  Proof using HG.
    intros Hg Hi Hm. destruct (in_group_lookup k g i Hg Hi) as [d Hd].
    rewrite (mem_at k g i d) in Hm by done. exists d. split; [done|].
    apply elem_of_list_lookup in Hm as [j Hj]. apply lookup_take_Some in Hj as [Hj _].
    by eapply elem_of_list_lookup_2.
  Qed.

  (** Ancestors are contained, groups of other families are disjoint. *)
  Lemma family_in_group j k gj gk i :
    j ≤ k → gs !! j = Some gj → gs !! k = Some gk → same_family gj gk → in_group gj i → in_group gk i.
  Proof using HG.
    intros Hle Hj Hk Hf [H1 H2]. destruct (decide (j = k)) as [->|Hne].
    { rewrite Hj in Hk. inversion Hk; subst. done. }
    destruct (ginv_range _ _ Hk) as (?&?&?). destruct (ginv_range _ _ Hj) as (?&?&?).
    unfold same_family in *.
    destruct (ginv_order j k gj gk) as [[Ho He]|He]; try done; try lia; unfold in_group; lia.
  Qed.

  Lemma other_family j k gj gk i :
    gs !! j = Some gj → gs !! k = Some gk → ¬ same_family gj gk → in_group gj i → ¬ in_group gk i.
  Proof using HG.
    intros Hj Hk Hf Hi Hi'. unfold in_group, same_family in *.
    destruct (decide (j < k)); [|destruct (decide (j = k)) as [->|]].
    - destruct (ginv_order j k gj gk) as [[Ho He]|He]; try done; lia.
    - rewrite Hj in Hk. inversion Hk; subst. done.
    - destruct (ginv_order k j gk gj) as [[Ho He]|He]; try done; try lia. 
  Qed.

  Lemma mem_nest j k gj gk e :
    j ≤ k → gs !! j = Some gj → gs !! k = Some gk → same_family gj gk → mem gs ds k e → mem gs ds j e.
  Proof using HG.
    intros Hle Hj Hk Hf Hm. destruct (decide (j = k)) as [->|Hne]; [done|].
    pose proof (in_group_start j gj Hj) as Hs.
    destruct (in_group_lookup j gj _ Hj Hs) as [d Hd].
    rewrite (mem_at j gj _ d) by done. rewrite (mem_at k gk (g_start (g_meta gj)) d) in Hm; try done.
    2:{ by eapply (family_in_group j k). }
    apply elem_of_take in Hm as (i & Hi & Hl). apply elem_of_take. exists i. split; [|done].
    pose proof (gi_nest _ _ HG j k gj gk ltac:(lia) Hj Hk Hf). lia.
  Qed.
End gfacts.

(** * One swap of the storages of a group *)

Section swap.
  Context (gs : list group) (ds : list dense) (HG : ginv gs ds) (Hnd : dnodup ds).
  Context (k : nat) (g : group) (Hk : gs !! k = Some g) (e : entity) (n L' : nat).
  Context (Hhas : ∀ i, in_group g i → has ds i e).
  (* both positions are inside the prefix of the ancestors and outside of that
     of the descendants *)
  Context (Hanc : ∀ j gj i d, j < k → gs !! j = Some gj → same_family gj g → in_group gj i →
             ds !! i = Some d → epos e d < g_len gj ∧ n < g_len gj).
  Context (Hdesc : ∀ j gj i d, k < j → gs !! j = Some gj → same_family gj g → in_group g i →
             ds !! i = Some d → g_len gj ≤ epos e d ∧ g_len gj ≤ n).
  Context (Hself : ∀ i d, in_group g i → ds !! i = Some d → n < length d ∧ L' ≤ length d).
  Context (Hself_pre : ∀ i i' d d', in_group g i → in_group g i' → ds !! i = Some d → ds !! i' = Some d' →
             take L' (dmove e n d).*1 = take L' (dmove e n d').*1).
  Context (HnestL : ∀ j gj, j < k → gs !! j = Some gj → same_family gj g → L' ≤ g_len gj).
  Context (HnestR : ∀ j gj, k < j → gs !! j = Some gj → same_family gj g → g_len gj ≤ L').
  Context (Hself_mem : ∀ e' i d, e' ≠ e → in_group g i → ds !! i = Some d →
             e' ∈ take L' (dmove e n d).*1 ↔ e' ∈ take (g_len g) d.*1).

  Let ds' := dmove_range e n (g_start (g_meta g)) (g_end (g_meta g)) ds.
  Let gs' := <[k := Grp (g_meta g) L']> gs.

  Local Lemma swap_lookup i :
    ds' !! i = (λ d, if decide (in_group g i) then dmove e n d else d) <$> ds !! i.
  Proof using All.
    unfold ds'. rewrite dmove_range_lookup. unfold in_group. done.
  Qed.

  Local Lemma swap_other_pre j gj i d :
    j ≠ k → gs !! j = Some gj → in_group gj i → ds !! i = Some d →
    take (g_len gj) (if decide (in_group g i) then dmove e n d else d).*1 =
      if decide (j < k ∧ same_family gj g) then list_swap (take (g_len gj) d.*1) (epos e d) n
      else take (g_len gj) d.*1.
  Proof using All.
    intros Hne Hj Hi Hd. destruct (decide (in_group g i)) as [Hin|Hin].
    - destruct (decide (j < k ∧ same_family gj g)) as [[Hlt Hf]|Hn].
      + destruct (Hanc j gj i d) as [H1 H2]; try done.
        apply dmove_take_in; try done. by eapply (gi_len _ _ HG j).
      + destruct (decide (same_family gj g)) as [Hf|Hf].
        * destruct (Hdesc j gj i d) as [H1 H2]; try done. { destruct (decide (j < k)); [naive_solver|lia]. }
          by apply dmove_take_lt.
        * by destruct (other_family _ _ HG j k gj g i).
    - destruct (decide (j < k ∧ same_family gj g)) as [[Hlt Hf]|Hn]; [|done].
      exfalso. apply Hin. eapply (family_in_group _ _ HG j k); eauto. lia.
  Qed.

  Local Lemma swap_anc_pos j gj i i' d d' :
    j < k → gs !! j = Some gj → same_family gj g → in_group gj i → in_group gj i' →
    ds !! i = Some d → ds !! i' = Some d' → epos e d = epos e d'.
  Proof using All.
    intros Hlt Hj Hf Hi Hi' Hd Hd'.
    pose proof (gi_prefix _ _ HG j gj i i' d d' Hj Hi Hi' Hd Hd') as Hp.
    destruct (Hanc j gj i d) as [H1 _]; try done.
    symmetry. apply epos_eq; [by eapply Hnd|].
    assert (e ∈ d.*1) as He.
    { destruct (Hhas i) as (d0 & Hd0 & He). { eapply (family_in_group _ _ HG j k); eauto. lia. } congruence. }
    assert (take (g_len gj) d.*1 !! epos e d = Some e) as Hl.
    { rewrite lookup_take by done. by apply epos_lookup. }
    rewrite Hp in Hl. by apply lookup_take_Some in Hl as [? _].
  Qed.

  Local Lemma swap_gs_lookup j gj' :
    gs' !! j = Some gj' →
    (j = k ∧ gj' = Grp (g_meta g) L') ∨ (j ≠ k ∧ gs !! j = Some gj').
  Proof using All.
    unfold gs'. intros H. apply list_lookup_insert_Some in H as [(-> & <- & _)|[Hne H]]; [by left|].
    right. done.
  Qed.

  Lemma swap_ginv : ginv gs' ds'.
  Proof using All.
    split.
    - unfold gs'. rewrite list_fmap_insert. simpl. rewrite list_insert_id.
      + unfold ds'. rewrite dmove_range_length. apply HG.
      + by rewrite list_lookup_fmap, Hk.
    - intros j gj' i i' d d' Hj Hi Hi' Hd Hd'. rewrite swap_lookup in Hd, Hd'.
      destruct (ds !! i) as [d0|] eqn:Ed; [|done]. destruct (ds !! i') as [d0'|] eqn:Ed'; [|done].
      simpl in Hd, Hd'. inversion Hd; inversion Hd'; subst d d'.
      apply swap_gs_lookup in Hj as [[-> ->]|[Hne Hj]].
      + change (in_group g i) in Hi. change (in_group g i') in Hi'. simpl.
        rewrite !decide_True by done. by apply (Hself_pre i i').
      + rewrite !(swap_other_pre j) by done.
        rewrite (gi_prefix _ _ HG j gj' i i' d0 d0') by done.
        destruct (decide (j < k ∧ same_family gj' g)) as [[Hlt Hf]|]; [|done].
        by rewrite (swap_anc_pos j gj' i i' d0 d0').
    - intros j gj' i d Hj Hi Hd. rewrite swap_lookup in Hd.
      destruct (ds !! i) as [d0|] eqn:Ed; [|done]. simpl in Hd. inversion Hd; subst d.
      apply swap_gs_lookup in Hj as [[-> ->]|[Hne Hj]].
      + change (in_group g i) in Hi. simpl. rewrite decide_True by done. rewrite dmove_length.
        by destruct (Hself i d0 Hi Ed).
      + pose proof (gi_len _ _ HG j gj' i d0 Hj Hi Ed). destruct (decide (in_group g i)); [|done].
        by rewrite dmove_length.
    - intros j1 j2 g1 g2 Hlt H1 H2 Hf.
      apply swap_gs_lookup in H1 as [[-> ->]|[Hne1 H1]]; apply swap_gs_lookup in H2 as [[-> ->]|[Hne2 H2]];
        simpl in *.
      + lia.
      + apply (HnestR j2); try done.
      + apply (HnestL j1); try done.
      + by apply (gi_nest _ _ HG j1 j2).
  Qed.

  Lemma swap_mem_other j e' : j ≠ k → mem gs' ds' j e' ↔ mem gs ds j e'.
  Proof using All.
    intros Hne. destruct (gs !! j) as [gj|] eqn:Ej.
    2:{ unfold mem, gs'. rewrite list_lookup_insert_ne by done. rewrite Ej. naive_solver. }
    assert (gs' !! j = Some gj) as Ej' by (unfold gs'; by rewrite list_lookup_insert_ne).
    pose proof (in_group_start _ _ HG j gj Ej) as Hs.
    destruct (in_group_lookup _ _ HG j gj _ Ej Hs) as [d Hd].
    rewrite (mem_at _ _ HG j gj _ d) by done.
    rewrite (mem_at _ _ swap_ginv j gj (g_start (g_meta gj)) (if decide (in_group g (g_start (g_meta gj))) then dmove e n d else d)); try done.
    2:{ rewrite swap_lookup, Hd. done. }
    rewrite (swap_other_pre j) by done.
    destruct (decide _); [|done]. by rewrite list_swap_perm.
  Qed.

  Lemma swap_mem_self e' : mem gs' ds' k e' ↔ ∃ d, ds !! g_start (g_meta g) = Some d ∧ e' ∈ take L' (dmove e n d).*1.
  Proof using All.
    pose proof (in_group_start _ _ HG k g Hk) as Hs.
    destruct (in_group_lookup _ _ HG k g _ Hk Hs) as [d Hd].
    rewrite (mem_at _ _ swap_ginv k (Grp (g_meta g) L') (g_start (g_meta g)) (dmove e n d)); simpl; try done.
    - rewrite Hd. naive_solver.
    - unfold gs'. apply list_lookup_insert. by eapply lookup_lt_Some.
    - rewrite swap_lookup, Hd. simpl. by rewrite decide_True.
  Qed.

  Lemma swap_regrouped : regrouped e gs ds gs' ds'.
  Proof using All.
    split.
    - unfold gs'. rewrite list_fmap_insert. apply list_insert_id. by rewrite list_lookup_fmap, Hk.
    - apply dmove_range_perm.
    - apply swap_ginv.
    - intros j e' He. destruct (decide (j = k)) as [->|Hne]; [|by apply swap_mem_other].
      rewrite swap_mem_self.
      pose proof (in_group_start _ _ HG k g Hk) as Hs.
      destruct (in_group_lookup _ _ HG k g _ Hk Hs) as [d Hd].
      rewrite (mem_at _ _ HG k g _ d) by done. rewrite Hd. split.
      + intros (d' & [= <-] & Hm). by eapply (Hself_mem e' (g_start (g_meta g)) d).
      + intros Hm. exists d. split; [done|]. by eapply (Hself_mem e' (g_start (g_meta g)) d).
  Qed.
End swap.

(** * One iteration of the loops *)

(** [e] is stored under its index only. *)
Definition consistent (ds : list dense) (e : entity) : Prop :=
  ∀ i i' e', has ds i e → has ds i' e' → e_index e' = e_index e → e' = e.

Lemma consistent_perm ds ds' e : Forall2 (≡ₚ) ds ds' → consistent ds e → consistent ds' e.
Proof. intros HF Hc i i' e' H1 H2. rewrite perm_has in H1, H2 by done. eauto. Qed.

Lemma not_has ds i d e : ds !! i = Some d → ¬ has ds i e → e ∉ d.*1.
Proof. intros Hd Hn He. apply Hn. by exists d. Qed.

Section steps.
  Context (comps : list css) (ds : list dense) (gs : list group) (e : entity).
  Context (HF : Forall2 css_rep comps ds) (HG : ginv gs ds) (HC : consistent ds e).

  Lemma status_of_ok k g :
    gs !! k = Some g →
    ∃ st, status_of comps g e = Ok st ∧
      match st with
      | Incomplete => ∃ i, g_nstart (g_meta g) ≤ i ∧ i < g_end (g_meta g) ∧ ¬ has ds i e
      | Ungrouped => (∀ i, g_nstart (g_meta g) ≤ i → i < g_end (g_meta g) → has ds i e) ∧ ¬ mem gs ds k e
      | Grouped => mem gs ds k e
      end.
  Proof using HF HG HC.
    intros Hg. destruct (ginv_range _ _ HG k g Hg) as (H1 & H2 & H3).
    unfold status_of, range_ok. rewrite (Forall2_length _ _ _ HF).
    destruct (Nat.leb_spec (g_nstart (g_meta g)) (g_end (g_meta g))); [|lia].
    destruct (Nat.leb_spec (g_end (g_meta g)) (length ds)); [|lia]. simpl.
    set (a := g_nstart (g_meta g)) in *. set (b := g_end (g_meta g)) in *.
    assert (∃ d, ds !! a = Some d) as [d Hd] by (apply lookup_lt_is_Some_2; lia).
    destruct (Forall2_lookup_r _ _ _ _ _ HF Hd) as (c & Hc & Hr).
    assert (take (b - a) (drop a comps) = c :: take (b - a - 1) (drop (S a) comps)) as Hsl.
    { rewrite (drop_S _ _ _ Hc). destruct (b - a) as [|x] eqn:Ex; [lia|]. simpl. do 2 f_equal. lia. }
    rewrite Hsl. simpl.
    destruct (decide (e ∈ d.*1)) as [He|He].
    2:{ rewrite (sv_get_None _ _ (cr_sparse _ _ Hr) e He). exists Incomplete. split; [done|].
        exists a. split_and!; [done|done|]. intros (d' & Hd' & He'). congruence. }
    pose proof (epos_lookup _ _ He) as Hp.
    rewrite (sv_get_lookup _ _ (cr_sparse _ _ Hr) e (epos e d) Hp).
    assert (Hin : in_group g a) by (by eapply in_group_nstart).
    destruct (forallb _ _) eqn:Efa.
    - rewrite forallb_forall_elem in Efa.
      assert (∀ i, a ≤ i → i < b → has ds i e) as Hall.
      { intros i Hi1 Hi2. destruct (decide (i = a)) as [->|Hne]; [by exists d|].
        assert (∃ di, ds !! i = Some di) as [di Hdi] by (apply lookup_lt_is_Some_2; lia).
        destruct (Forall2_lookup_r _ _ _ _ _ HF Hdi) as (ci & Hci & Hri).
        assert (ci ∈ take (b - a - 1) (drop (S a) comps)) as Hel.
        { apply elem_of_list_lookup. exists (i - S a). rewrite lookup_take by lia. rewrite lookup_drop.
          by replace (S a + (i - S a)) with i by lia. }
        apply Efa in Hel. apply (sv_contains_sparse_elem _ _ (cr_sparse _ _ Hri)) in Hel as (e' & He' & Hs).
        apply e_sparse_inj in Hs.
        assert (e' = e) as ->. { eapply HC; [exists d; eauto|exists di; eauto|done]. }
        by exists di. }
      pose proof (css_rep_dnodup _ _ HF a d Hd) as Hnd.
      rewrite Nat2N.id. destruct (Nat.ltb_spec (epos e d) (g_len g)) as [Hl|Hl].
      + exists Grouped. split; [done|]. rewrite (mem_at _ _ HG k g a d) by done.
        by apply take_elem_pos.
      + exists Ungrouped. split; [done|]. split; [done|]. rewrite (mem_at _ _ HG k g a d) by done.
        rewrite take_elem_pos by done. lia.
    - exists Incomplete. split; [done|].
      destruct (forallb_exists_false _ _ Efa) as (x & Hx & Hfx).
      apply elem_of_list_lookup in Hx as [j Hj]. apply lookup_take_Some in Hj as [Hj Hlt].
      rewrite lookup_drop in Hj. exists (S a + j). split_and!; [lia|lia|].
      intros (d' & Hd' & He').
      destruct (Forall2_lookup_l _ _ _ _ _ HF Hj) as (d'' & Hd'' & Hr').
      rewrite Hd' in Hd''. inversion Hd''; subst d''.
      enough (sv_contains_sparse (c_sparse x) (e_sparse e) = true) by congruence.
      apply (sv_contains_sparse_elem _ _ (cr_sparse _ _ Hr')). eauto.
  Qed.

  Lemma group_step k g :
    gs !! k = Some g → (∀ i, in_group g i → has ds i e) → ¬ mem gs ds k e →
    (∀ j gj, j < k → gs !! j = Some gj → same_family gj g → mem gs ds j e) →
    (∀ i f, in_group g i → has ds i f → ¬ mem gs ds k f → e_version f = e_version e) →
    ∃ comps' gs' ds', group_components comps gs k g e = Ok (comps', gs') ∧ Forall2 css_rep comps' ds' ∧
      regrouped e gs ds gs' ds' ∧ (∀ j, mem gs' ds' j e ↔ j = k ∨ mem gs ds j e).
  Proof using HF HG HC.
    intros Hg Hhas Hnm Hanc HU.
    destruct (ginv_range _ _ HG k g Hg) as (H1 & H2 & H3).
    pose proof (css_rep_dnodup _ _ HF) as Hnd.
    assert (Hpos : ∀ i d, in_group g i → ds !! i = Some d → e ∈ d.*1 ∧ g_len g ≤ epos e d ∧ epos e d < length d).
    { intros i d Hi Hd. destruct (Hhas i Hi) as (d' & Hd' & He). rewrite Hd in Hd'. inversion Hd'; subst d'.
      split; [done|]. split; [|by apply epos_lt].
      rewrite (mem_at _ _ HG k g i d) in Hnm by done. rewrite take_elem_pos in Hnm by eauto. lia. }
    assert (Hapos : ∀ j gj i d, j < k → gs !! j = Some gj → same_family gj g → in_group gj i →
             ds !! i = Some d → epos e d < g_len gj ∧ g_len g < g_len gj).
    { intros j gj i d Hlt Hj Hf Hi Hd.
      assert (in_group g i) as Hi' by (eapply (family_in_group _ _ HG j k); eauto; lia).
      destruct (Hpos i d Hi' Hd) as (He & Hp1 & Hp2).
      pose proof (Hanc j gj Hlt Hj Hf) as Hm. rewrite (mem_at _ _ HG j gj i d) in Hm by done.
      rewrite take_elem_pos in Hm by eauto. lia. }
    set (ds' := dmove_range e (g_len g) (g_start (g_meta g)) (g_end (g_meta g)) ds).
    set (gs' := <[k := Grp (g_meta g) (g_len g + 1)]> gs).
    assert (Hpre : ∀ i d, in_group g i → ds !! i = Some d →
              take (g_len g + 1) (dmove e (g_len g) d).*1 = take (g_len g) d.*1 ++ [e]).
    { intros i d Hi Hd. destruct (Hpos i d Hi Hd) as (He & Hp1 & Hp2).
      rewrite Nat.add_1_r. by apply dmove_take_S. }
    assert (Hdesc : ∀ j gj i d, k < j → gs !! j = Some gj → same_family gj g → in_group g i →
       ds !! i = Some d → g_len gj ≤ epos e d ∧ g_len gj ≤ g_len g).
    { intros j gj i d Hlt Hj Hf Hi Hd. destruct (Hpos i d Hi Hd) as (He & Hp1 & Hp2).
      assert (g_len gj ≤ g_len g) by (apply (gi_nest _ _ HG k j g gj); done). lia. }
    assert (HR : regrouped e gs ds gs' ds').
    { apply swap_regrouped; try done.
      - intros i d Hi Hd. destruct (Hpos i d Hi Hd) as (He & Hp1 & Hp2). lia.
      - intros i i' d d' Hi Hi' Hd Hd'. rewrite !(Hpre i d), !(Hpre i' d') by done. f_equal.
        by apply (gi_prefix _ _ HG k g i i').
      - intros j gj Hlt Hj Hf. pose proof (in_group_start _ _ HG j gj Hj) as Hs.
        destruct (in_group_lookup _ _ HG j gj _ Hj Hs) as [d Hd].
        destruct (Hapos j gj _ d Hlt Hj Hf Hs Hd). lia.
      - intros j gj Hlt Hj Hf. pose proof (gi_nest _ _ HG k j g gj Hlt Hg Hj). unfold same_family in *. lia.
      - intros e' i d Hne Hi Hd. rewrite (Hpre i d) by done. set_solver. }
    assert (Hm : ∀ j, mem gs' ds' j e ↔ j = k ∨ mem gs ds j e).
    { intros j. destruct (decide (j = k)) as [->|Hne].
      - split; [by left|]. intros _.
        pose proof (in_group_start _ _ HG k g Hg) as Hs.
        destruct (in_group_lookup _ _ HG k g _ Hg Hs) as [d Hd].
        exists (Grp (g_meta g) (g_len g + 1)), (dmove e (g_len g) d). split_and!.
        + unfold gs'. apply list_lookup_insert. by eapply lookup_lt_Some.
        + simpl. unfold ds'. rewrite dmove_range_lookup, Hd. simpl. by rewrite decide_True.
        + simpl. rewrite (Hpre (g_start (g_meta g)) d) by done. set_solver.
      - unfold gs', ds'. rewrite (swap_mem_other gs ds HG Hnd k g Hg e (g_len g) (g_len g + 1)); try done.
        + naive_solver.
        + intros i d Hi Hd. destruct (Hpos i d Hi Hd) as (He & Hp1 & Hp2). lia.
        + intros i i' d d' Hi Hi' Hd Hd'. rewrite !(Hpre i d), !(Hpre i' d') by done. f_equal.
          by apply (gi_prefix _ _ HG k g i i').
        + intros j' gj Hlt Hj Hf. pose proof (in_group_start _ _ HG j' gj Hj) as Hs.
          destruct (in_group_lookup _ _ HG j' gj _ Hj Hs) as [d Hd].
          destruct (Hapos j' gj _ d Hlt Hj Hf Hs Hd). lia.
        + intros j' gj Hlt Hj Hf. pose proof (gi_nest _ _ HG k j' g gj Hlt Hg Hj). unfold same_family in *. lia.
        + intros e' i d Hne' Hi Hd. rewrite (Hpre i d) by done. set_solver. }
    destruct (on_range_ok e (g_len g) (g_start (g_meta g)) (g_end (g_meta g)) comps ds) as (comps' & Ho & HF');
      try done; try lia.
    { intros i d Hd Hi. destruct (Hpos i d Hi Hd) as (He & Hp1 & Hp2). split; [done|].
      destruct (lookup_lt_is_Some_2 d.*1 (g_len g)) as [f Hf]; [rewrite fmap_length; lia|].
      exists f. split; [done|]. apply (HU i f Hi).
      - exists d. split; [done|]. by eapply elem_of_list_lookup_2.
      - rewrite (mem_at _ _ HG k g i d) by done. intros (j & Hj & Hl)%elem_of_take.
        rewrite (NoDup_lookup _ _ _ _ (Hnd i d Hd) Hl Hf) in Hj. lia. }
    exists comps', gs', ds'. unfold group_components. rewrite Ho. done.
  Qed.

  Lemma ungroup_step k g :
    gs !! k = Some g → mem gs ds k e →
    (∀ j gj, k < j → gs !! j = Some gj → same_family gj g → ¬ mem gs ds j e) →
    (∀ f, mem gs ds k f → e_version f = e_version e) →
    ∃ comps' gs' ds', ungroup_components comps gs k g e = Ok (comps', gs') ∧ Forall2 css_rep comps' ds' ∧
      regrouped e gs ds gs' ds' ∧ (∀ j, mem gs' ds' j e ↔ j ≠ k ∧ mem gs ds j e).
  Proof using HF HG HC.
    intros Hg Hmem Hdm HU.
    destruct (ginv_range _ _ HG k g Hg) as (H1 & H2 & H3).
    pose proof (css_rep_dnodup _ _ HF) as Hnd.
    assert (Hhas : ∀ i, in_group g i → has ds i e).
    { intros i Hi. by eapply (mem_has _ _ HG k g). }
    assert (Hpos : ∀ i d, in_group g i → ds !! i = Some d →
              e ∈ d.*1 ∧ epos e d < g_len g ∧ g_len g ≤ length d).
    { intros i d Hi Hd. destruct (Hhas i Hi) as (d' & Hd' & He). rewrite Hd in Hd'. inversion Hd'; subst d'.
      split; [done|]. split; [|by eapply (gi_len _ _ HG k g i)].
      rewrite (mem_at _ _ HG k g i d) in Hmem by done. rewrite take_elem_pos in Hmem by eauto. lia. }
    destruct (g_len g) as [|n] eqn:El.
    { pose proof (in_group_start _ _ HG k g Hg) as Hs.
      destruct (in_group_lookup _ _ HG k g _ Hg Hs) as [d Hd].
      destruct (Hpos _ _ Hs Hd). lia. }
    assert (Hsame : ∀ i i' d d', in_group g i → in_group g i' → ds !! i = Some d → ds !! i' = Some d' →
              epos e d = epos e d').
    { intros i i' d d' Hi Hi' Hd Hd'. pose proof (gi_prefix _ _ HG k g i i' d d' Hg Hi Hi' Hd Hd') as Hp.
      destruct (Hpos i d Hi Hd) as (He & Hp1 & Hp2). symmetry. apply epos_eq; [by eapply Hnd|].
      assert (take (g_len g) d.*1 !! epos e d = Some e) as Hl.
      { rewrite lookup_take by lia. by apply epos_lookup. }
      rewrite Hp in Hl. by apply lookup_take_Some in Hl as [? _]. }
    assert (Hapos : ∀ j gj i d, j < k → gs !! j = Some gj → same_family gj g → in_group gj i →
             ds !! i = Some d → epos e d < g_len gj ∧ n < g_len gj).
    { intros j gj i d Hlt Hj Hf Hi Hd.
      assert (in_group g i) as Hi' by (eapply (family_in_group _ _ HG j k); eauto; lia).
      destruct (Hpos i d Hi' Hd) as (He & Hp1 & Hp2).
      pose proof (gi_nest _ _ HG j k gj g Hlt Hj Hg Hf). lia. }
    assert (Hdesc : ∀ j gj i d, k < j → gs !! j = Some gj → same_family gj g → in_group g i →
       ds !! i = Some d → g_len gj ≤ epos e d ∧ g_len gj ≤ n).
    { intros j gj i d Hlt Hj Hf Hi Hd. destruct (Hpos i d Hi Hd) as (He & Hp1 & Hp2).
      pose proof (Hdm j gj Hlt Hj Hf) as Hn.
      assert (in_group gj i) as Hi'.
      { eapply (family_in_group _ _ HG k j g gj); eauto; [lia|]. unfold same_family in *. done. }
      rewrite (mem_at _ _ HG j gj i d) in Hn by done. rewrite take_elem_pos in Hn by eauto. lia. }
    set (ds' := dmove_range e n (g_start (g_meta g)) (g_end (g_meta g)) ds).
    set (gs' := <[k := Grp (g_meta g) n]> gs).
    assert (Hpre : ∀ i d, in_group g i → ds !! i = Some d →
              take n (dmove e n d).*1 = take n (list_swap (take (g_len g) d.*1) (epos e d) n)).
    { intros i d Hi Hd. destruct (Hpos i d Hi Hd) as (He & Hp1 & Hp2).
      rewrite <-dmove_take_in by lia. rewrite take_take. f_equal. lia. }
    assert (Hswl : ∀ i d, in_group g i → ds !! i = Some d →
              list_swap (take (g_len g) d.*1) (epos e d) n = take n (list_swap (take (g_len g) d.*1) (epos e d) n) ++ [e]).
    { intros i d Hi Hd. destruct (Hpos i d Hi Hd) as (He & Hp1 & Hp2).
      rewrite <-(firstn_all2 (n := S n) (list_swap _ _ _)) at 1.
      2:{ rewrite list_swap_length, take_length. lia. }
      apply take_S_r. rewrite list_swap_lookup by (rewrite take_length, fmap_length; lia).
      pose proof (epos_lookup _ _ He) as Hlk.
      destruct (decide (n = epos e d)) as [->|]; [|destruct (decide (n = n)); [|done]].
      - rewrite lookup_take by lia. done.
      - rewrite lookup_take by lia. done. }
    assert (Hmemn : ∀ e' i d, in_group g i → ds !! i = Some d →
              e' ∈ take n (dmove e n d).*1 ↔ e' ≠ e ∧ e' ∈ take (g_len g) d.*1).
    { intros e' i d Hi Hd. rewrite (Hpre i d) by done.
      pose proof (Hswl i d Hi Hd) as Hs. set (P := list_swap _ _ _) in *.
      assert (P ≡ₚ take (g_len g) d.*1) as HP by apply list_swap_perm.
      assert (NoDup P) as HndP.
      { rewrite HP. pose proof (Hnd i d Hd) as Hx. rewrite <-(take_drop (g_len g) d.*1) in Hx.
        by apply NoDup_app in Hx as [? _]. }
      rewrite <-HP. rewrite Hs in HndP. apply NoDup_app in HndP as (_ & HndP & _).
      rewrite Hs at 2. rewrite elem_of_app, elem_of_list_singleton. split.
      - intros Hin. split; [|by left]. intros ->. apply (HndP e); [done|]. by apply elem_of_list_singleton.
      - intros [Hne [?|?]]; done. }
    assert (Hself_pre : ∀ i i' d d', in_group g i → in_group g i' → ds !! i = Some d → ds !! i' = Some d' →
             take n (dmove e n d).*1 = take n (dmove e n d').*1).
    { intros i i' d d' Hi Hi' Hd Hd'. rewrite (Hpre i d), (Hpre i' d') by done.
      rewrite (gi_prefix _ _ HG k g i i' d d') by done. by rewrite (Hsame i i' d d'). }
    assert (HnestL : ∀ j gj, j < k → gs !! j = Some gj → same_family gj g → n ≤ g_len gj).
    { intros j gj Hlt Hj Hf. pose proof (gi_nest _ _ HG j k gj g Hlt Hj Hg Hf). lia. }
    assert (HnestR : ∀ j gj, k < j → gs !! j = Some gj → same_family gj g → g_len gj ≤ n).
    { intros j gj Hlt Hj Hf. pose proof (in_group_start _ _ HG k g Hg) as Hs.
      destruct (in_group_lookup _ _ HG k g _ Hg Hs) as [d Hd]. by destruct (Hdesc j gj _ d Hlt Hj Hf Hs Hd). }
    assert (Hself : ∀ i d, in_group g i → ds !! i = Some d → n < length d ∧ n ≤ length d).
    { intros i d Hi Hd. destruct (Hpos i d Hi Hd) as (He & Hp1 & Hp2). lia. }
    assert (Hself_mem : ∀ e' i d, e' ≠ e → in_group g i → ds !! i = Some d →
             e' ∈ take n (dmove e n d).*1 ↔ e' ∈ take (g_len g) d.*1).
    { intros e' i d Hne Hi Hd. rewrite (Hmemn e' i d) by done. naive_solver. }
    assert (HR : regrouped e gs ds gs' ds').
    { apply swap_regrouped; done. }
    assert (Hm : ∀ j, mem gs' ds' j e ↔ j ≠ k ∧ mem gs ds j e).
    { intros j. destruct (decide (j = k)) as [->|Hne].
      - split; [|naive_solver]. intros Hx. exfalso. revert Hx.
        pose proof (in_group_start _ _ HG k g Hg) as Hs.
        destruct (in_group_lookup _ _ HG k g _ Hg Hs) as [d Hd].
        unfold gs', ds'. rewrite swap_mem_self; try done. intros (d' & Hd' & Hin).
        rewrite Hd in Hd'. inversion Hd'; subst d'. apply (Hmemn e _ d Hs Hd) in Hin. naive_solver.
      - unfold gs', ds'. rewrite swap_mem_other; try done. naive_solver. }
    destruct (on_range_ok e n (g_start (g_meta g)) (g_end (g_meta g)) comps ds) as (comps' & Ho & HF');
      try done; try lia.
    { intros i d Hd Hi. destruct (Hpos i d Hi Hd) as (He & Hp1 & Hp2). split; [done|].
      destruct (lookup_lt_is_Some_2 d.*1 n) as [f Hf]; [rewrite fmap_length; lia|].
      exists f. split; [done|]. apply HU. rewrite (mem_at _ _ HG k g i d) by done. apply elem_of_take.
      exists n. split; [lia|done]. }
    exists comps', gs', ds'. unfold ungroup_components. rewrite El, Ho. done.
  Qed.
End steps.

(** * The loops *)

Lemma same_meta_lookup (gs gs' : list group) (k : nat) g :
  g_meta <$> gs' = g_meta <$> gs → gs !! k = Some g → ∃ g', gs' !! k = Some g' ∧ g_meta g' = g_meta g.
Proof.
  intros Hm Hg. assert ((g_meta <$> gs) !! k = Some (g_meta g)) as H by (by rewrite list_lookup_fmap, Hg).
  rewrite <-Hm, list_lookup_fmap in H. destruct (gs' !! k) as [g'|]; [|done]. simpl in H.
  inversion H. eauto.
Qed.

Lemma mem_lookup gs ds k e : mem gs ds k e → ∃ g, gs !! k = Some g.
Proof. intros (g & d & Hg & _). eauto. Qed.

Lemma group_loop_ok fuel b comps ds gs m e :
  Forall2 css_rep comps ds → ginv gs ds → enter_ok gs ds e → consistent ds e →
  (∀ k, bit m k = true → b ≤ k ∧ k < length gs) → 64 ≤ fuel + b →
  (∀ j k gj gk, j < k → bit m k = true → gs !! j = Some gj → gs !! k = Some gk → same_family gj gk →
     bit m j = true ∨ mem gs ds j e) →
  ∃ comps' gs' ds', group_loop fuel comps gs m e = Ok (comps', gs') ∧ Forall2 css_rep comps' ds' ∧
    regrouped e gs ds gs' ds' ∧
    (∀ k, mem gs ds k e → mem gs' ds' k e) ∧
    (∀ k g, bit m k = true → gs !! k = Some g → (∀ i, in_group g i → has ds i e) → mem gs' ds' k e).
Proof.
  revert b comps ds gs m. induction fuel as [|fuel IH]; intros b comps ds gs m HF HG HU HC Hb Hfuel Hanc.
  { destruct (bit_next m) as [[k m']|] eqn:Eb.
    - exfalso. apply bit_next_Some in Eb as (H1 & _). apply Hb in H1 as [H1 H2].
      pose proof (mw_count _ _ (gi_wf _ _ HG)) as Hc. rewrite fmap_length in Hc. lia.
    - exists comps, gs, ds. simpl. rewrite Eb. split_and!; try done.
      intros k g Hk. by rewrite (bit_next_None _ Eb) in Hk. }
  simpl. destruct (bit_next m) as [[k m']|] eqn:Eb.
  2:{ exists comps, gs, ds. split_and!; try done; try by apply regrouped_refl.
      intros k g Hk. by rewrite (bit_next_None _ Eb) in Hk. }
  apply bit_next_Some in Eb as (Hk & Hlow & Hm').
  destruct (Hb k Hk) as [Hbk Hkl]. destruct (lookup_lt_is_Some_2 gs k Hkl) as [g Hg]. rewrite Hg.
  assert (Hancm : ∀ j gj, j < k → gs !! j = Some gj → same_family gj g → mem gs ds j e).
  { intros j gj Hlt Hj Hf. destruct (Hanc j k gj g Hlt Hk Hj Hg Hf) as [Hx|]; [|done].
    by rewrite Hlow in Hx. }
  destruct (status_of_ok comps ds gs e HF HG HC k g Hg) as (st & Hst & Hstm). rewrite Hst. simpl.
  destruct (ginv_range _ _ HG k g Hg) as (Hr1 & Hr2 & Hr3).
  destruct st.
  - (* Incomplete *)
    destruct Hstm as (i & Hi1 & Hi2 & Hnh).
    set (m2 := N.land m' (g_skip (g_meta g))).
    assert (Hm2 : ∀ j gj, gs !! j = Some gj →
              bit m2 j = true ↔ bit m j = true ∧ j ≠ k ∧ ¬ (k ≤ j ∧ same_family gj g)).
    { intros j gj Hj. unfold m2. rewrite bit_land, Hm'.
      pose proof (mw_skip _ _ (gi_wf _ _ HG) k (g_meta g) j (g_meta gj)) as Hs.
      rewrite !list_lookup_fmap, Hg, Hj in Hs. specialize (Hs eq_refl eq_refl).
      unfold same_family. rewrite <-Hs. destruct (Nat.eqb_spec j k); destruct (bit m j), (bit (g_skip (g_meta g)) j); simpl; naive_solver. }
    destruct (IH (S k) comps ds gs m2) as (comps' & gs' & ds' & Hrun & HF' & HR & Hmono & Hpost); try done; try lia.
    { intros j Hj. assert (bit m j = true) as Hmj.
      { unfold m2 in Hj. rewrite bit_land, Hm' in Hj. by destruct (bit m j). }
      destruct (Hb j Hmj). split; [|done]. destruct (decide (j < k)); [by rewrite Hlow in Hmj|].
      destruct (lookup_lt_is_Some_2 gs j) as [gj Hgj]; [done|]. apply (Hm2 j gj Hgj) in Hj as (_ & ? & _). lia. }
    { intros j1 j2 g1 g2 Hlt H2 Hg1 Hg2 Hf. apply (Hm2 _ _ Hg2) in H2 as (H2 & Hne & Hnf).
      destruct (Hanc j1 j2 g1 g2 Hlt H2 Hg1 Hg2 Hf) as [Hx|]; [|by right].
      left. apply (Hm2 _ _ Hg1). split; [done|].
      assert (k ≤ j1) by (destruct (decide (j1 < k)); [by rewrite Hlow in Hx|lia]).
      split.
      - intros ->. apply Hnf. split; [lia|]. rewrite Hg in Hg1. inversion Hg1; subst.
        unfold same_family in *. done.
      - intros [_ Hf']. apply Hnf. split; [lia|]. unfold same_family in *. congruence. }
    exists comps', gs', ds'. split_and!; try done.
    intros j gj Hj Hgj Hall. destruct (decide (bit m2 j = true)) as [H2|H2]; [by eapply Hpost|].
    exfalso. rewrite (Hm2 _ _ Hgj) in H2.
    assert (k ≤ j) by (destruct (decide (j < k)); [by rewrite Hlow in Hj|lia]).
    assert (same_family g gj) as Hf.
    { destruct (decide (same_family g gj)); [done|]. exfalso. apply H2. split; [done|]. split.
      - intros ->. rewrite Hg in Hgj. inversion Hgj; subst. done.
      - intros [_ Hf]. unfold same_family in *. congruence. }
    apply Hnh. apply Hall. eapply (family_in_group _ _ HG k j); eauto. split; lia.
  - (* Ungrouped *)
    destruct Hstm as [Hall Hnm].
    assert (Hhas : ∀ i, in_group g i → has ds i e).
    { intros i [Hi1 Hi2]. destruct (decide (g_nstart (g_meta g) ≤ i)); [by apply Hall|].
      destruct (mw_parent _ _ (gi_wf _ _ HG) k (g_meta g)) as (j & mj & Hkj & Hj & Hs & He).
      { by rewrite list_lookup_fmap, Hg. } { lia. }
      rewrite list_lookup_fmap in Hj. destruct (gs !! j) as [gj|] eqn:Egj; [|done]. simpl in Hj.
      inversion Hj; subst mj. eapply (mem_has _ _ HG j gj); [done|split; lia|].
      apply (Hancm j gj); [lia|done|done]. }
    destruct (group_step comps ds gs e HF HG HC k g Hg Hhas Hnm Hancm)
      as (comps1 & gs1 & ds1 & Hs1 & HF1 & HR1 & Hmem1).
    { intros i f. by apply (HU k g i f). }
    rewrite Hs1. simpl.
    destruct (IH (S k) comps1 ds1 gs1 m') as (comps' & gs' & ds' & Hrun & HF' & HR & Hmono & Hpost); try done; try lia.
    { apply HR1. } { eapply enter_ok_regrouped; [done| |done]. intros j Hj. apply Hmem1. by right. } { eapply consistent_perm; [apply HR1|done]. }
    { intros j Hj. rewrite Hm' in Hj. apply andb_true_iff in Hj as [Hj Hne].
      apply negb_true_iff, Nat.eqb_neq in Hne. destruct (Hb j Hj).
      assert (length gs1 = length gs) as ->.
      { rewrite <-(fmap_length g_meta gs1), (rg_meta _ _ _ _ _ HR1), fmap_length. done. }
      split; [|done]. destruct (decide (j < k)); [by rewrite Hlow in Hj|lia]. }
    { intros j1 j2 g1 g2 Hlt H2 Hg1 Hg2 Hf.
      rewrite Hm' in H2. apply andb_true_iff in H2 as [H2 Hne].
      destruct (same_meta_lookup gs1 gs j1 g1) as (g1' & Hg1' & Hmm1); [symmetry; apply HR1|done|].
      destruct (same_meta_lookup gs1 gs j2 g2) as (g2' & Hg2' & Hmm2); [symmetry; apply HR1|done|].
      destruct (decide (j1 = k)) as [->|Hne1]; [right; apply Hmem1; by left|].
      destruct (Hanc j1 j2 g1' g2') as [Hx|Hx]; try done.
      { unfold same_family in *. congruence. }
      - left. rewrite Hm', Hx. simpl. by apply negb_true_iff, Nat.eqb_neq.
      - right. apply Hmem1. by right. }
    exists comps', gs', ds'. split_and!; try done.
    + by eapply regrouped_trans.
    + intros j Hj. apply Hmono, Hmem1. by right.
    + intros j gj Hj Hgj Hx. destruct (decide (j = k)) as [->|Hne].
      { apply Hmono, Hmem1. by left. }
      destruct (same_meta_lookup gs gs1 j gj) as (gj' & Hgj' & Hmm); [apply HR1|done|].
      apply (Hpost j gj'); [|done|].
      * rewrite Hm', Hj. simpl. by apply negb_true_iff, Nat.eqb_neq.
      * intros i Hi. rewrite (perm_has ds ds1) by apply HR1. apply Hx. unfold in_group in *. by rewrite Hmm in Hi.
  - (* Grouped *)
    destruct (IH (S k) comps ds gs m') as (comps' & gs' & ds' & Hrun & HF' & HR & Hmono & Hpost); try done; try lia.
    { intros j Hj. rewrite Hm' in Hj. apply andb_true_iff in Hj as [Hj Hne].
      apply negb_true_iff, Nat.eqb_neq in Hne. destruct (Hb j Hj).
      split; [|done]. destruct (decide (j < k)); [by rewrite Hlow in Hj|lia]. }
    { intros j1 j2 g1 g2 Hlt H2 Hg1 Hg2 Hf.
      rewrite Hm' in H2. apply andb_true_iff in H2 as [H2 Hne].
      destruct (decide (j1 = k)) as [->|Hne1]; [by right|].
      destruct (Hanc j1 j2 g1 g2) as [Hx|Hx]; try done; [|by right].
      left. rewrite Hm', Hx. simpl. by apply negb_true_iff, Nat.eqb_neq. }
    exists comps', gs', ds'. split_and!; try done.
    intros j gj Hj Hgj Hx. destruct (decide (j = k)) as [->|Hne]; [by apply Hmono|].
    apply (Hpost j gj); [|done..]. rewrite Hm', Hj. simpl. by apply negb_true_iff, Nat.eqb_neq.
Qed.

Lemma do_group_gen comps ds gs m e :
  Forall2 css_rep comps ds → ginv gs ds → enter_ok gs ds e → consistent ds e →
  (∀ k, bit m k = true → k < length gs) →
  (∀ j k gj gk, j < k → bit m k = true → gs !! j = Some gj → gs !! k = Some gk → same_family gj gk →
     bit m j = true) →
  ∃ comps' gs' ds', do_group comps gs m e = Ok (comps', gs') ∧ Forall2 css_rep comps' ds' ∧
    regrouped e gs ds gs' ds' ∧
    (∀ k, mem gs ds k e → mem gs' ds' k e) ∧
    (∀ k g, bit m k = true → gs !! k = Some g → (∀ i, in_group g i → has ds i e) → mem gs' ds' k e).
Proof.
  intros HF HG HU HC Hb Hanc. apply (group_loop_ok 64 0); try done; try lia.
  - intros k Hk. split; [lia|by apply Hb].
  - intros j k gj gk ?????. left. by eapply (Hanc j k).
Qed.

Lemma ungroup_one_ok comps ds gs e k g :
  Forall2 css_rep comps ds → ginv gs ds → consistent ds e → gs !! k = Some g →
  (∀ j gj, k < j → gs !! j = Some gj → same_family gj g → ¬ mem gs ds j e) →
  (mem gs ds k e → ∀ f, mem gs ds k f → e_version f = e_version e) →
  ∃ comps' gs' ds', ungroup_one comps gs k g e = Ok (comps', gs') ∧ Forall2 css_rep comps' ds' ∧
    regrouped e gs ds gs' ds' ∧ (∀ j, mem gs' ds' j e ↔ j ≠ k ∧ mem gs ds j e).
Proof.
  intros HF HG HC Hg Hd HU. unfold ungroup_one.
  destruct (status_of_ok comps ds gs e HF HG HC k g Hg) as (st & Hst & Hstm). rewrite Hst. simpl.
  assert (¬ mem gs ds k e →
    ∃ comps' gs' ds', Ok (comps, gs) = Ok (comps', gs') ∧ Forall2 css_rep comps' ds' ∧
    regrouped e gs ds gs' ds' ∧ (∀ j, mem gs' ds' j e ↔ j ≠ k ∧ mem gs ds j e)) as Hno.
  { intros Hn. exists comps, gs, ds. split_and!; try done; try by apply regrouped_refl.
    intros j. split; [|naive_solver]. intros Hj. split; [|done]. by intros ->. }
  destruct st.
  - apply Hno. destruct Hstm as (i & Hi1 & Hi2 & Hnh). intros Hm. apply Hnh.
    eapply (mem_has _ _ HG k g); [done| |done].
    destruct (ginv_range _ _ HG k g Hg) as (Hr1 & Hr2 & Hr3). split; lia.
  - apply Hno. by destruct Hstm.
  - apply ungroup_step; try done. by apply HU.
Qed.

Lemma ungroup_loop_ok fuel comps ds gs m e :
  Forall2 css_rep comps ds → ginv gs ds → leave_ok (λ k, bit m k = true) gs ds e → consistent ds e →
  (∀ k, bit m k = true → k < length gs ∧ k < fuel) →
  (∀ j k gj gk, j < k → bit m j = true → gs !! j = Some gj → gs !! k = Some gk → same_family gj gk →
     bit m k = true ∨ ¬ mem gs ds k e) →
  ∃ comps' gs' ds', ungroup_loop fuel comps gs m e = Ok (comps', gs') ∧ Forall2 css_rep comps' ds' ∧
    regrouped e gs ds gs' ds' ∧
    (∀ k, mem gs' ds' k e ↔ mem gs ds k e ∧ bit m k = false).
Proof.
  revert comps ds gs m. induction fuel as [|fuel IH]; intros comps ds gs m HF HG HU HC Hb Hanc.
  { destruct (bit_next_back m) as [[k m']|] eqn:Eb.
    - exfalso. apply bit_next_back_Some in Eb as (H1 & _). apply Hb in H1 as [H1 H2]. lia.
    - exists comps, gs, ds. simpl. rewrite Eb. split_and!; try done; try by apply regrouped_refl.
      intros k. rewrite (bit_next_back_None _ Eb). naive_solver. }
  simpl. destruct (bit_next_back m) as [[k m']|] eqn:Eb.
  2:{ exists comps, gs, ds. split_and!; try done; try by apply regrouped_refl.
      intros k. rewrite (bit_next_back_None _ Eb). naive_solver. }
  apply bit_next_back_Some in Eb as (Hk & Hhigh & Hm').
  destruct (Hb k Hk) as [Hkl Hkf]. destruct (lookup_lt_is_Some_2 gs k Hkl) as [g Hg]. rewrite Hg.
  destruct (ungroup_one_ok comps ds gs e k g) as (comps1 & gs1 & ds1 & Hs1 & HF1 & HR1 & Hmem1); try done.
  { intros j gj Hlt Hj Hf. destruct (Hanc k j g gj) as [Hx|]; try done. by rewrite Hhigh in Hx. }
  { intros Hme f. by apply (HU k f). }
  rewrite Hs1. simpl.
  destruct (IH comps1 ds1 gs1 m') as (comps' & gs' & ds' & Hrun & HF' & HR & Hpost); try done.
  { apply HR1. } { intros j f Hj. eapply (leave_ok_regrouped _ e gs ds gs1 ds1 HR1); [|exact HU|].
    - intros j'. rewrite Hmem1. by intros [_ ?].
    - simpl in *. rewrite Hm' in Hj. by destruct (bit m j). } { eapply consistent_perm; [apply HR1|done]. }
  { intros j Hj. rewrite Hm' in Hj. apply andb_true_iff in Hj as [Hj Hne].
    apply negb_true_iff, Nat.eqb_neq in Hne. destruct (Hb j Hj).
    assert (length gs1 = length gs) as ->.
    { rewrite <-(fmap_length g_meta gs1), (rg_meta _ _ _ _ _ HR1), fmap_length. done. }
    split; [done|]. destruct (decide (k < j)); [by rewrite Hhigh in Hj|lia]. }
  { intros j1 j2 g1 g2 Hlt H1 Hg1 Hg2 Hf.
    rewrite Hm' in H1. apply andb_true_iff in H1 as [H1 Hne].
    destruct (same_meta_lookup gs1 gs j1 g1) as (g1' & Hg1' & Hmm1); [symmetry; apply HR1|done|].
    destruct (same_meta_lookup gs1 gs j2 g2) as (g2' & Hg2' & Hmm2); [symmetry; apply HR1|done|].
    rewrite Hm', Hmem1.
    destruct (Hanc j1 j2 g1' g2') as [Hx|Hx]; try done.
    { unfold same_family in *. congruence. }
    - rewrite Hx. simpl. destruct (Nat.eqb_spec j2 k); [right; naive_solver|by left].
    - right. naive_solver. }
  exists comps', gs', ds'. split_and!; try done.
  - by eapply regrouped_trans.
  - intros j. rewrite Hpost, Hmem1, Hm'. destruct (Nat.eqb_spec j k) as [->|]; simpl.
    + rewrite Hk. naive_solver.
    + rewrite andb_true_r. naive_solver.
Qed.

Lemma do_ungroup_gen comps ds gs m e :
  Forall2 css_rep comps ds → ginv gs ds → leave_ok (λ k, bit m k = true) gs ds e → consistent ds e →
  (∀ k, bit m k = true → k < length gs) →
  (∀ j k gj gk, j < k → bit m j = true → gs !! j = Some gj → gs !! k = Some gk → same_family gj gk →
     bit m k = true) →
  ∃ comps' gs' ds', do_ungroup comps gs m e = Ok (comps', gs') ∧ Forall2 css_rep comps' ds' ∧
    regrouped e gs ds gs' ds' ∧
    (∀ k, mem gs' ds' k e ↔ mem gs ds k e ∧ bit m k = false).
Proof.
  intros HF HG HU HC Hb Hanc. apply ungroup_loop_ok; try done.
  - intros k Hk. pose proof (mw_count _ _ (gi_wf _ _ HG)) as Hc. rewrite fmap_length in Hc.
    apply Hb in Hk. lia.
  - intros j k gj gk ?????. left. by eapply (Hanc j k).
Qed.

Lemma ungroup_all_from_ok n comps ds gs e :
  Forall2 css_rep comps ds → ginv gs ds → leave_ok (λ _, True) gs ds e → consistent ds e → n ≤ length gs →
  (∀ k, n ≤ k → ¬ mem gs ds k e) →
  ∃ comps' gs' ds', ungroup_all_from n comps gs e = Ok (comps', gs') ∧ Forall2 css_rep comps' ds' ∧
    regrouped e gs ds gs' ds' ∧ (∀ k, ¬ mem gs' ds' k e).
Proof.
  revert comps ds gs. induction n as [|n IH]; intros comps ds gs HF HG HU HC Hn Hge.
  { exists comps, gs, ds. split_and!; try done; try by apply regrouped_refl. intros k. apply Hge. lia. }
  simpl. destruct (lookup_lt_is_Some_2 gs n) as [g Hg]; [lia|]. rewrite Hg.
  destruct (ungroup_one_ok comps ds gs e n g) as (comps1 & gs1 & ds1 & Hs1 & HF1 & HR1 & Hmem1); try done.
  { intros j gj Hlt Hj Hf. apply Hge. lia. }
  { intros Hme f. by apply (HU n f). }
  rewrite Hs1. simpl.
  destruct (IH comps1 ds1 gs1) as (comps' & gs' & ds' & Hrun & HF' & HR & Hpost); try done.
  { apply HR1. } { eapply leave_ok_regrouped; [done| |done]. intros j. rewrite Hmem1. by intros [_ ?]. } { eapply consistent_perm; [apply HR1|done]. }
  { rewrite <-(fmap_length g_meta gs1), (rg_meta _ _ _ _ _ HR1), fmap_length. lia. }
  { intros k Hk. rewrite Hmem1. intros [Hne Hm]. apply (Hge k); [lia|done]. }
  exists comps', gs', ds'. split_and!; try done. by eapply regrouped_trans.
Qed.

Lemma ungroup_all_gen comps ds gs e :
  Forall2 css_rep comps ds → ginv gs ds → leave_ok (λ _, True) gs ds e → consistent ds e →
  ∃ comps' gs' ds', ungroup_all comps gs e = Ok (comps', gs') ∧ Forall2 css_rep comps' ds' ∧
    regrouped e gs ds gs' ds' ∧ (∀ k, ¬ mem gs' ds' k e).
Proof.
  intros HF HG HU HC. apply ungroup_all_from_ok; try done.
  intros k Hk (g & d & Hg & _). apply lookup_lt_Some in Hg. lia.
Qed.

(** ** Storages with a single version *)

Lemma uniform_enter gs ds e : ginv gs ds → uniform gs ds → enter_ok gs ds e.
Proof. intros HG Hu k g i f Hg Hall _ Hi Hf _. eapply (Hu k g i); [done..|]. by apply Hall. Qed.

Lemma uniform_leave P gs ds e : ginv gs ds → uniform gs ds → leave_ok P gs ds e.
Proof.
  intros HG Hu k f _ He Hf. destruct (mem_lookup _ _ _ _ He) as [g Hg].
  pose proof (in_group_start _ _ HG k g Hg) as Hs.
  eapply (Hu k g (g_start (g_meta g))); [done..| |]; by eapply (mem_has _ _ HG k g).
Qed.

Lemma do_group_ok comps ds gs m e :
  Forall2 css_rep comps ds → ginv gs ds → uniform gs ds → consistent ds e →
  (∀ k, bit m k = true → k < length gs) →
  (∀ j k gj gk, j < k → bit m k = true → gs !! j = Some gj → gs !! k = Some gk → same_family gj gk →
     bit m j = true) →
  ∃ comps' gs' ds', do_group comps gs m e = Ok (comps', gs') ∧ Forall2 css_rep comps' ds' ∧
    regrouped e gs ds gs' ds' ∧
    (∀ k, mem gs ds k e → mem gs' ds' k e) ∧
    (∀ k g, bit m k = true → gs !! k = Some g → (∀ i, in_group g i → has ds i e) → mem gs' ds' k e).
Proof. intros HF HG HU HC. apply do_group_gen; try done. by apply uniform_enter. Qed.

Lemma do_ungroup_ok comps ds gs m e :
  Forall2 css_rep comps ds → ginv gs ds → uniform gs ds → consistent ds e →
  (∀ k, bit m k = true → k < length gs) →
  (∀ j k gj gk, j < k → bit m j = true → gs !! j = Some gj → gs !! k = Some gk → same_family gj gk →
     bit m k = true) →
  ∃ comps' gs' ds', do_ungroup comps gs m e = Ok (comps', gs') ∧ Forall2 css_rep comps' ds' ∧
    regrouped e gs ds gs' ds' ∧
    (∀ k, mem gs' ds' k e ↔ mem gs ds k e ∧ bit m k = false).
Proof. intros HF HG HU HC. apply do_ungroup_gen; try done. by apply uniform_leave. Qed.

Lemma ungroup_all_ok comps ds gs e :
  Forall2 css_rep comps ds → ginv gs ds → uniform gs ds → consistent ds e →
  ∃ comps' gs' ds', ungroup_all comps gs e = Ok (comps', gs') ∧ Forall2 css_rep comps' ds' ∧
    regrouped e gs ds gs' ds' ∧ (∀ k, ¬ mem gs' ds' k e).
Proof. intros HF HG HU HC. apply ungroup_all_gen; try done. by apply uniform_leave. Qed.
