(** [extend] moves few of the other entities. *)
From Verif Require Import Base SparseVecM EntityM CssM MaskM LayoutM GroupM StorageM WorldM StepM Spec SpecMore SpecSound SpecLocal
  Lists EntityProofs SparseProofs CssProofs MaskProofs StorageProofs StoreOps WorldProofs Grouped BlindCss BlindStore BlindLayout BlindEnts BlindWorld BlindHist LayoutProofs LayoutOps
  History Lockstep ShapeFacts LocalFacts.

Definition fewX (n : nat) (X : list N) (c c' : css) : Prop :=
  ∃ M, length M ≤ n ∧ ∀ i y, i < c_len c → c_ents c !! i = Some (Some y) → e_index y ∉ X → y ∉ M →
    i < c_len c' ∧ c_ents c' !! i = Some (Some y).

Lemma fewX_few n x X c c' : few n x c c' → x ∈ X → fewX n X c c'.
Proof. intros (M & HM & H) Hx. exists M. split; [done|]. intros i y Hi Hy Hn. apply H; [done..|]. by intros <-. Qed.

Lemma fewX_trans n m X c1 c2 c3 : fewX n X c1 c2 → fewX m X c2 c3 → fewX (n + m) X c1 c3.
Proof.
  intros (M1 & L1 & H1) (M2 & L2 & H2). exists (M1 ++ M2). rewrite app_length. split; [lia|].
  intros i y Hi Hy Hx Hn. rewrite elem_of_app in Hn. destruct (H1 i y Hi Hy Hx) as [H3 H4]; [tauto|].
  apply H2; tauto.
Qed.

Lemma fewX_refl X c : fewX 0 X c c.
Proof. exists []. split; [done|]. done. Qed.

Record fewSX (n : nat → nat) (X : list N) (comps comps' : list css) : Prop := {
  fx_sane : sane comps';
  fx_few : ∀ i c, comps !! i = Some c → ∃ c', comps' !! i = Some c' ∧ fewX (n i) X c c'
}.

Lemma fewSX_refl X comps : sane comps → fewSX (λ _, 0) X comps comps.
Proof. intros H. split; [done|]. intros i c Hc. exists c. split; [done|]. apply fewX_refl. Qed.

Lemma fewSX_of n x X comps comps' : fewS (λ i _, n i) x comps comps' → x ∈ X → fewSX n X comps comps'.
Proof.
  intros [H1 H2] Hx. split; [done|]. intros i c Hc. destruct (H2 i c Hc) as (c' & ? & ?). exists c'. split; [done|]. by eapply fewX_few.
Qed.

Lemma fewSX_trans n m X c1 c2 c3 : fewSX n X c1 c2 → fewSX m X c2 c3 → fewSX (λ i, n i + m i) X c1 c3.
Proof.
  intros [_ H1] [H2 H3]. split; [done|]. intros i c Hc. destruct (H1 i c Hc) as (c' & Hc' & F1).
  destruct (H3 i c' Hc') as (c'' & Hc'' & F2). exists c''. split; [done|]. by eapply fewX_trans.
Qed.

Lemma few_insert_row e : (e_index e < u32_lim)%N → ∀ row comps comps' ds, sane comps →
  insert_row comps e row = Ok (comps', ds) → fewS (λ _ _, 0) (e_index e) comps comps'.
Proof.
  intros He. induction row as [|[i v] row IH]; intros comps comps' ds Hs H; simpl in H. { injection H as <- <-. by apply fewS_refl. }
  destruct (comps !! i) as [c|] eqn:Hc; [|done].
  destruct (sane_lookup _ _ _ Hs Hc) as (d & k & Hb). destruct (bc_insert _ _ _ Hb e v He) as (c' & old & d' & Heq & Hb' & _).
  rewrite Heq in H. assert (fewS (λ _ _, 0) (e_index e) comps (<[i := c']> comps)) as H1.
  { eapply fewS_one; [done..|by exists d'|by eapply few_insert]. }
  destruct (insert_row (<[i:=c']> comps) e row) as [[comps2 ds2]| |] eqn:Er; [|done..]. injection H as <- <-.
  eapply fewS_trans; [exact H1|by eapply IH, Er; apply H1|done].
Qed.

Lemma few_extend_rows is_ X : ∀ rows ents comps, bestore ents → sane comps →
  match extend_rows ents comps is_ rows with
  | RowsOk _ _ comps' new | RowsPanic _ _ comps' new => (∀ e, e ∈ new → e_index e ∈ X) → fewSX (λ _, 0) X comps comps'
  | RowsUB => True
  end.
Proof.
  induction rows as [|r rows IH]; intros ents comps He Hs; simpl. { intros _. by apply fewSX_refl. }
  pose proof (be_create _ He) as Hc. destruct (estore_create ents) as [[e ents1]| |]; [|intros _; by apply fewSX_refl|done].
  destruct Hc as (He1 & Hidx & _). destruct (insert_row comps e (zip is_ r)) as [[comps1 ds]| |] eqn:Er; [|done..].
  pose proof (few_insert_row e Hidx _ _ _ _ Hs Er) as H1. specialize (IH ents1 comps1 He1 (fs_sane _ _ _ _ H1)).
  destruct (extend_rows ents1 comps1 is_ rows) as [dr' ents2 comps2 new|dr' ents2 comps2 new|]; [..|done];
    intros HX; (eapply (fewSX_trans (λ _, 0) (λ _, 0)); [eapply fewSX_of; [exact H1|apply HX; by left]|apply IH; intros e' He'; apply HX; by right]).
Qed.

Lemma few_group_each X mask : ∀ es comps gs r, group_each comps gs mask es = Ok r → sane comps →
  (∀ e, e ∈ es → e_index e ∈ X) → fewSX (λ i, length es * cov (gms gs) i) X comps r.1.
Proof.
  induction es as [|e es IH]; intros comps gs r; cbn [group_each]; [intros H Hs HX; injection H as <-; by apply fewSX_refl|].
  destruct (do_group comps gs mask e) as [r1| |] eqn:Ed; [|done..]. intros H Hs HX.
  pose proof (few_do_group _ _ _ _ _ Ed Hs) as H1. apply do_group_gms in Ed as Hg. clear Ed.
  specialize (IH _ _ _ H (fs_sane _ _ _ _ H1)). rewrite Hg in IH. clear H Hg.
  pose proof (fewSX_of _ _ X _ _ H1 (HX e ltac:(by left))) as H2.
  assert (∀ e, e ∈ es → e_index e ∈ X) as HX' by (intros e' He'; apply HX; by right).
  pose proof (fewSX_trans _ _ _ _ _ _ H2 (IH HX')) as [H3 H4]. split; [exact H3|]. intros i c Hc.
  destruct (H4 i c Hc) as (c' & Hc' & Hf). exists c'. split; [exact Hc'|].
  replace (length (e :: es) * cov (gms gs) i) with (cov (gms gs) i + length es * cov (gms gs) i) by (simpl; lia). exact Hf.
Qed.

Lemma sane_entities c : (∃ d, brep c d) → ∃ es, css_entities c = Ok es ∧
  ∀ i x, es !! i = Some x ↔ i < c_len c ∧ c_ents c !! i = Some (Some x).
Proof.
  intros (d & k0 & Hb). exists d.*1. pose proof (bc_len _ _ _ Hb) as Hlen. split; [by eapply bc_entities|].
  intros i x. split.
  - intros Hx. apply dense_fst_lookup in Hx as [v Hx]. split; [|by eapply (bc_cells _ _ _ Hb)].
    rewrite Hlen. by eapply lookup_lt_Some.
  - intros [H1 H2]. rewrite Hlen in H1. destruct (lookup_lt_is_Some_2 d i H1) as [[x' v] Hd].
    destruct (bc_cells _ _ _ Hb _ _ _ Hd) as [H3 _]. assert (x' = x) as -> by congruence. apply dense_fst_lookup. eauto.
Qed.

(** The other entities in the storages have other indices than the new ones. *)
Lemma few_extend w s ds bd ts rows b out dr w' : winv w s ds → binv w bd → Forall (λ r, length r = length ts) rows →
  set_extend w ts rows b = (out, dr, w') → ub_free out →
  (∀ e e', s_alive s e → e' ∈ reported out → e_index e ≠ e_index e') ∧
  fewSX (λ i, length (reported out) * cov (sgm (w_comps w)) i) (e_index <$> reported out)
    (cs_comps (w_comps w)) (cs_comps (w_comps w')).
Proof.
  intros [HE HC] [HBE HS] Hlen H Hu. pose proof (all_brep _ _ (bt_rep _ _ HS)) as Hs. unfold set_extend in H.
  destruct (lookup_metas (cs_meta (w_comps w)) m_insert ts) as [[is_ mask]|] eqn:Hl.
  2:{ injection H as <- <- <-. split; [by intros e e' _ ?%elem_of_nil|]. by apply fewSX_refl. }
  assert (Hall : all_in ts (s_reg s)).
  { intros t Ht. destruct (decide (t ∈ s_reg s)); [done|].
    assert (lookup_metas (cs_meta (w_comps w)) m_insert ts = None) as Hx; [|by rewrite Hl in Hx].
    apply (lookup_metas_reg _ _ _ _ _ _ _ _ HC). intros Ha. by apply Ha in Ht. }
  destruct (lookup_metas_Some _ _ _ _ _ Hl) as [Hidx Hmask].
  assert (HC0 : cinv (CStore (cs_groups (w_comps w)) (cs_meta (w_comps w)) (cs_comps (w_comps w))) ds
    (s_map s) (s_reg s) (s_grouped s) (s_loose s)) by (by destruct (w_comps w)).
  pose proof (extend_rows_ok ts is_ _ _ _ _ Hall Hidx rows s (w_ents w) _ ds _ HE eq_refl eq_refl HC0 Hlen) as Hr.
  assert (∀ ents' s' new, es_ents (st_set ents') = es_ents (st_set (w_ents w)) ++ new → einv ents' s' →
    new_handles s new → ∀ e e', s_alive s e → e' ∈ new → e_index e ≠ e_index e') as Hne.
  { intros ents' s' new Hes HE' Hnew e e' He He' Heq. apply (ei_dom _ _ HE) in He.
    apply elem_of_list_lookup in He as [i Hi]. apply elem_of_list_lookup in He' as [j Hj].
    destruct (ei_set _ _ HE') as [Hsp _]. rewrite Hes in Hsp.
    assert ((es_ents (st_set (w_ents w)) ++ new) !! i = Some e) as Hi' by (by apply lookup_app_l_Some).
    assert ((es_ents (st_set (w_ents w)) ++ new) !! (length (es_ents (st_set (w_ents w))) + j) = Some e') as Hj'.
    { rewrite lookup_app_r by lia. by replace (_ + j - _) with j by lia. }
    destruct (sparse_ok_inj _ _ Hsp _ _ _ _ Hi' Hj' Heq) as [-> _]. apply lookup_lt_Some in Hi. lia. }
  pose proof (few_extend_rows is_) as Hf.
  destruct (extend_rows (w_ents w) (cs_comps (w_comps w)) is_ rows) as [dr1 ents' comps' new|dr1 ents' comps' new|] eqn:Er; [| |done].
  - destruct Hr as [Hnl (H1 & H2 & H3 & _)]. specialize (Hne _ _ _ H2 H3 H1).
    specialize (Hf (e_index <$> new) rows (w_ents w) (cs_comps (w_comps w)) HBE Hs). rewrite Er in Hf.
    assert (∀ e, e ∈ new → e_index e ∈ e_index <$> new) as HX by (intros e He; by apply elem_of_list_fmap_1).
    specialize (Hf HX).
    assert (fewSX (λ i, length new * cov (sgm (w_comps w)) i) (e_index <$> new) (cs_comps (w_comps w)) comps') as Hf'.
    { destruct Hf as [F1 F2]. split; [done|]. intros i c Hc. destruct (F2 i c Hc) as (c' & Hc' & M & HM & F). exists c'. split; [done|].
      exists M. split; [lia|done]. }
    destruct b. { injection H as <- <- <-. by split. }
    unfold estore_slice in *. rewrite H2, app_length, (proj2 (Nat.leb_le _ _)), drop_app in H by lia. cbv zeta in H.
    destruct (mask =? 0)%N. { injection H as <- <- <-. by split. }
    destruct (group_each _ _ _ _) as [[comps2 gs2]| |] eqn:Eg; [|by injection H as <- <- <-..]. injection H as <- <- <-.
    split; [done|]. simpl. pose proof (few_group_each _ _ _ _ _ _ Eg (fx_sane _ _ _ _ Hf) HX) as Hg.
    exact (fewSX_trans _ _ _ _ _ _ Hf Hg).
  - destruct Hr as (Hnl & Hex & H1 & H2 & H3 & _). specialize (Hne _ _ _ H2 H3 H1).
    specialize (Hf (e_index <$> new) rows (w_ents w) (cs_comps (w_comps w)) HBE Hs). rewrite Er in Hf.
    assert (∀ e, e ∈ new → e_index e ∈ e_index <$> new) as HX by (intros e He; by apply elem_of_list_fmap_1).
    destruct (Hf HX) as [F1 F2]. injection H as <- <- <-. split; [done|]. simpl.
    split; [done|]. intros i c Hc. destruct (F2 i c Hc) as (c' & Hc' & M & HM & F). exists c'. split; [done|].
    exists M. split; [lia|done].
Qed.

Lemma extend_local l evs w s ts rows b out dr w' t es : good_history_from l evs w s → op_ok (OExtend ts rows b) →
  step w (OExtend ts rows b) = (out, dr, w') → ub_free out → view_entities w t = Ok es →
  ∃ es', view_entities w' t = Ok es' ∧
    displaced (length (reported out) * groups_with t (layout_groups (layout_after l evs))) es es'.
Proof.
  intros Hgh Hok Hst Hu Hv. pose proof (good_unbroken_from _ _ _ _ Hgh) as Hh. pose proof (unbroken_from _ _ _ _ Hh) as Hub.
  destruct (history_binv _ _ _ (unbroken_ub_free _ _ _ Hub)) as (bd & HB).
  pose proof (unbroken_shape _ _ _ Hub) as Hsh. pose proof (unbroken_laid_out _ _ _ _ Hh) as Hl.
  assert (∃ ds, winv w s ds) as [ds HI].
  { pose proof (good_from_history _ _ _ _ Hgh) as Hg. assert (reachable w s) as (_ & ds & HI)%reachable_inv by (by exists evs). by exists ds. }
  destruct (few_extend _ _ _ _ _ _ _ _ _ _ HI HB Hok Hst Hu) as [Hne [Hs' Hf]].
  assert (∀ l p, OExtend ts rows b ≠ OSetLayout l p) as Hnl by done.
  destruct (step_framed _ _ _ _ _ Hst Hnl) as [_ Hsub].
  unfold view_entities, cs_borrow in *. destruct (cs_meta (w_comps w) !! t) as [m|] eqn:Hm; [|done].
  rewrite (lookup_weaken _ _ _ _ Hm Hsub).
  destruct (cs_comps (w_comps w) !! m_index m) as [c|] eqn:Hc; [|done].
  destruct (Hf _ _ Hc) as (c' & Hc' & M & HM & Hfew). rewrite Hc'.
  destruct (sane_entities c) as (es0 & He0 & Hi0). { destruct HB as [_ HS]. destruct (bsts_lookup _ _ _ _ (bt_rep _ _ HS) Hc) as (d & _ & ?). by exists d. }
  assert (es0 = es) as -> by congruence.
  destruct (sane_entities c') as (es' & He' & Hi'). { by apply (proj1 (Forall_lookup _ _) Hs' _ _ Hc'). }
  exists es'. split; [done|]. exists M. split.
  - rewrite <-(cov_groups (cs_meta (w_comps w)) (sgm (w_comps w)) _ t m); [done|..].
    + intros t' m' Hm' He. by eapply (st_inj _ _ _ (sh_static _ _ _ Hsh)).
    + exact Hl.
    + done.
  - intros i x Hx Hn. pose proof Hx as Hx0. apply Hi0 in Hx as [H1 H2]. apply Hi'. apply Hfew; [done..| |done].
    intros (e' & Heq & He'')%elem_of_list_fmap. eapply Hne; [|done|exact Heq].
    destruct HI as [_ HC]. eapply (ci_has_alive _ _ _ _ _ _ HC (m_index m)).
    destruct (ci_lookup _ _ _ _ _ _ HC t m Hm) as (c2 & d & Hc2 & Hd & Hrep). assert (c2 = c) as -> by congruence.
    exists d. split; [done|]. rewrite (css_entities_ok _ _ Hrep) in He0. injection He0 as <-. by eapply elem_of_list_lookup_2.
Qed.
