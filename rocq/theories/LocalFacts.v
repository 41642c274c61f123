(** A call on one entity moves few others. *)
From Verif Require Import Base SparseVecM EntityM CssM MaskM LayoutM GroupM StorageM WorldM StepM Spec SpecMore SpecSound SpecLocal
  Lists SparseProofs CssProofs MaskProofs StorageProofs Grouped BlindCss BlindStore BlindLayout BlindEnts BlindWorld BlindHist LayoutProofs LayoutOps History Lockstep ShapeFacts.

(** ** One storage *)

Definition few (n : nat) (x : N) (c c' : css) : Prop :=
  ∃ M, length M ≤ n ∧ ∀ i y, i < c_len c → c_ents c !! i = Some (Some y) → e_index y ≠ x → y ∉ M →
    i < c_len c' ∧ c_ents c' !! i = Some (Some y).

Lemma few_refl n x c : few n x c c.
Proof. exists []. split; [simpl; lia|done]. Qed.

Lemma few_trans n m x c1 c2 c3 : few n x c1 c2 → few m x c2 c3 → few (n + m) x c1 c3.
Proof.
  intros (M1 & L1 & H1) (M2 & L2 & H2). exists (M1 ++ M2). rewrite app_length. split; [lia|].
  intros i y Hi Hy Hx Hn. rewrite elem_of_app in Hn. destruct (H1 i y Hi Hy Hx) as [H3 H4]; [tauto|].
  apply H2; tauto.
Qed.

Lemma few_mono n m x c c' : few n x c c' → n ≤ m → few m x c c'.
Proof. intros (M & L & H) Hle. exists M. split; [lia|done]. Qed.

Lemma few_insert c k d e v c' old : bcss c k d → css_insert c e v = Ok (c', old) → few 0 (e_index e) c c'.
Proof.
  intros Hb H. exists []. split; [done|]. intros i y Hi Hy Hx _. unfold css_insert in H.
  pose proof (sparse_ok_allocate _ _ (e_sparse e) (bc_sparse _ _ _ Hb)) as Hsp.
  pose proof (bc_ents_cap _ _ _ Hb) as Hec. pose proof (bc_len _ _ _ Hb) as Hl. pose proof (bc_le _ _ _ Hb) as Hle.
  set (sp := sv_allocate_at (c_sparse c) (e_sparse e)) in *. clearbody sp.
  destruct (sp !! e_sparse e) as [[sl|]|] eqn:Esp; [..|done].
  - apply (sparse_ok_slot_inv _ _ Hsp) in Esp as (e1 & j & Hj & Hx1 & ->). rewrite s_dense_of_nat in H.
    unfold buf_write in H. destruct (j <? length (c_ents c)) eqn:Ej; [|done]. simpl in H.
    destruct (buf_read _ _) as [o| |]; [|done..]. simpl in H. destruct (j <? length (c_comps c)); [|done]. simpl in H.
    injection H as <- <-. simpl. split; [done|]. rewrite list_lookup_insert_ne; [done|]. intros ->.
    destruct (bc_key _ _ _ Hb _ _ Hj) as (e0 & v0 & Hd & He0). destruct (bc_cells _ _ _ Hb _ _ _ Hd) as [Hc _].
    assert (y = e0) as -> by congruence. apply Hx. rewrite He0. by apply e_sparse_inj.
  - set (sp' := <[e_sparse e := _]> sp) in *. clearbody sp'. set (s1 := Css sp' (c_ents c) (c_comps c) (c_len c) (c_cap c)) in *.
    assert (Hg : c_ents (if c_len c =? c_cap c then css_grow s1 else s1) !! i = Some (Some y)).
    { destruct (c_len c =? c_cap c); [|done]. simpl. rewrite lookup_app_l, lookup_take; [done|lia|]. rewrite take_length. lia. }
    set (s2 := if c_len c =? c_cap c then css_grow s1 else s1) in *. clearbody s2.
    unfold buf_write in H. destruct (c_len c <? length (c_ents s2)); [|done]. simpl in H.
    destruct (c_len c <? length (c_comps s2)); [|done]. simpl in H. injection H as <- <-. simpl.
    split; [lia|]. by rewrite list_lookup_insert_ne by lia.
Qed.

(** Removal of an entity that is there moves the last one, and only the first removal
    does anything. *)
Definition held (c : css) (e : entity) : nat := match sv_get (c_sparse c) e with Some _ => 1 | None => 0 end.

Lemma few_detach c k d e : bcss c k d →
  match css_detach c e with
  | Ok None => held c e = 0
  | Ok (Some (_, c1)) => held c e = 1 ∧ held c1 e = 0 ∧ few 1 (e_index e) c c1
  | _ => True
  end.
Proof.
  intros Hb. unfold css_detach, held, sv_get, sv_remove.
  destruct (c_sparse c !! e_sparse e) as [[sl|]|] eqn:Es; [|done..].
  destruct (s_version sl =? e_version e)%N; [|done].
  destruct (c_len c) as [|n] eqn:El; [done|]. destruct (buf_read (c_ents c) n) as [f| |] eqn:Ef; [|done..].
  cbn [mbind res_bind]. unfold buf_write. destruct (_ <? length (c_ents c)) eqn:Ew; [|done]. cbn [mbind res_bind].
  destruct (bc_slot _ _ _ Hb _ _ Es) as (Hlt & e0 & v & Hd & Hs0). destruct (bc_cells _ _ _ Hb _ _ _ Hd) as [Hc0 _].
  unfold s_dense in *. set (p := N.to_nat (s_index sl)) in *.
  unfold buf_read in Ef. destruct (c_ents c !! n) as [[f'|]|] eqn:En; [|done..]. injection Ef as ->.
  assert (few 1 (e_index e) c (Css (c_sparse c) (<[p:=Some f]> (c_ents c)) (c_comps c) n (c_cap c))) as Hfew.
  { exists [f]. split; [done|]. intros i y Hi Hy Hx Hn. simpl. rewrite elem_of_list_singleton in Hn.
    assert (i ≠ n) by (intros ->; congruence). split; [lia|]. rewrite list_lookup_insert_ne; [done|].
    intros <-. assert (y = e0) as -> by congruence. apply Hx. by apply e_sparse_inj. }
  assert (e_sparse e < length (c_sparse c)) as Hle by (by eapply lookup_lt_Some).
  destruct (Nat.ltb_spec p n) as [Hpn|Hpn]; cbn [mbind res_bind].
  2:{ split; [done|]. split; [|exact Hfew]. simpl. by rewrite list_lookup_insert. }
  unfold sv_write. destruct (_ <? length (<[_:=_]> _)); [|done]. cbn [mbind res_bind]. split; [done|]. split; [|exact Hfew]. simpl.
  assert (n < length d) as Hnd by (rewrite <-(bc_len _ _ _ Hb); lia).
  destruct (lookup_lt_is_Some_2 d n Hnd) as [[f' vf] Hf]. destruct (bc_cells _ _ _ Hb _ _ _ Hf) as [Hcf _].
  assert (f' = f) as -> by congruence.
  destruct (bc_pos _ _ _ Hb _ _ _ Hd) as (k0 & Hk0 & Hki0). destruct (bc_pos _ _ _ Hb _ _ _ Hf) as (k1 & Hk1 & Hki1).
  rewrite list_lookup_insert_ne; [by rewrite list_lookup_insert|].
  intros Heq. rewrite <-Hs0 in Heq. apply e_sparse_inj in Heq. rewrite <-Hki0, <-Hki1 in Heq.
  destruct (sparse_ok_inj _ _ (bc_sparse _ _ _ Hb) _ _ _ _ Hk1 Hk0 Heq) as [-> _]. lia.
Qed.

Lemma few_remove c k d e c' o : bcss c k d → css_remove c e = Ok (c', o) → few (held c e) (e_index e) c c' ∧ held c' e = 0.
Proof.
  intros Hb H. unfold css_remove in H. pose proof (few_detach c k d e Hb) as Hd.
  destruct (css_detach c e) as [[[i c1]|]| |]; try done; cbn [mbind res_bind] in H.
  - destruct Hd as (-> & H1 & H2). destruct (buf_read _ _) as [v| |]; try done. cbn [mbind res_bind] in H.
    destruct (c_comps c1 !! c_len c1) as [lc|]; [|done].
    destruct (buf_write _ i lc) as [b1| |]; [|done..]. cbn [mbind res_bind] in H.
    destruct (buf_write b1 _ _) as [b2| |]; [|done..]. cbn [mbind res_bind] in H. injection H as <- <-. by split.
  - injection H as <- <-. split; [apply few_refl|done].
Qed.

Lemma few_move e n c c' d : brep c d → move_to e n c = Ok c' → few 1 (e_index e) c c'.
Proof.
  intros [k Hb] H. unfold move_to, sv_get_sparse_unchecked in H.
  destruct (c_sparse c !! e_sparse e) as [[sl|]|] eqn:Es; [|done..]. cbn [mbind res_bind] in H.
  destruct (bc_slot _ _ _ Hb _ _ Es) as (Hlt & e0 & v & Hd & Hs0). destruct (bc_cells _ _ _ Hb _ _ _ Hd) as [Hc0 _].
  unfold s_dense in *. set (p := N.to_nat (s_index sl)) in *.
  destruct (Nat.eqb_spec p n) as [|Hne]; [injection H as <-; apply few_refl|].
  unfold css_swap in H. destruct (_ && _); [|done]. unfold buf_read in H. rewrite Hc0 in H. cbn [mbind res_bind] in H.
  destruct (c_ents c !! n) as [[f|]|] eqn:En; [|done..]. cbn [mbind res_bind] in H.
  destruct (sv_swap _ _ _) as [sp| |]; [|done..]. cbn [mbind res_bind] in H.
  unfold buf_write in H. destruct (p <? length (c_ents c)); [|done]. cbn [mbind res_bind] in H. rewrite insert_length in H.
  destruct (n <? length (c_ents c)); [|done]. cbn [mbind res_bind] in H.
  destruct (c_comps c !! p) as [[va|]|]; [|done..]. cbn [mbind res_bind] in H.
  destruct (c_comps c !! n) as [[vb|]|]; [|done..]. cbn [mbind res_bind] in H.
  destruct (p <? length (c_comps c)); [|done]. cbn [mbind res_bind] in H. rewrite insert_length in H.
  destruct (n <? length (c_comps c)); [|done]. cbn [mbind res_bind] in H. injection H as <-.
  exists [f]. split; [done|]. intros i y Hi Hy Hx Hn. simpl. rewrite elem_of_list_singleton in Hn. split; [done|].
  rewrite !list_lookup_insert_ne; [done| |].
  - intros <-. assert (y = e0) as -> by congruence. apply Hx. by apply e_sparse_inj.
  - intros <-. congruence.
Qed.

(** ** All storages *)

Definition sane (comps : list css) : Prop := Forall (λ c, ∃ d, brep c d) comps.

Record fewS (n : nat → css → nat) (x : N) (comps comps' : list css) : Prop := {
  fs_sane : sane comps';
  fs_few : ∀ i c, comps !! i = Some c → ∃ c', comps' !! i = Some c' ∧ few (n i c) x c c'
}.

Lemma fewS_refl n x comps : sane comps → fewS n x comps comps.
Proof. intros H. split; [done|]. intros i c Hc. exists c. split; [done|]. apply few_refl. Qed.

Lemma fewS_trans (n m p : nat → css → nat) x c1 c2 c3 : fewS n x c1 c2 → fewS m x c2 c3 →
  (∀ i c c', c1 !! i = Some c → c2 !! i = Some c' → n i c + m i c' ≤ p i c) → fewS p x c1 c3.
Proof.
  intros [_ H1] [H2 H3] Hle. split; [done|]. intros i c Hc. destruct (H1 i c Hc) as (c' & Hc' & F1).
  destruct (H3 i c' Hc') as (c'' & Hc'' & F2). exists c''. split; [done|].
  eapply few_mono; [by eapply few_trans|by apply Hle].
Qed.

Lemma fewS_mono (n m : nat → css → nat) x c1 c2 : fewS n x c1 c2 → (∀ i c, c1 !! i = Some c → n i c ≤ m i c) → fewS m x c1 c2.
Proof. intros [H1 H2] H. split; [done|]. intros i c Hc. destruct (H2 i c Hc) as (c' & ? & ?). exists c'. split; [done|]. eapply few_mono; [done|by apply H]. Qed.

Lemma sane_lookup comps i c : sane comps → comps !! i = Some c → ∃ d k, bcss c k d.
Proof. intros H Hc. destruct (proj1 (Forall_lookup _ _) H _ _ Hc) as (d & k & Hb). eauto. Qed.

Lemma fewS_one n x comps i c c' : sane comps → comps !! i = Some c → (∃ d, brep c' d) → few (n i c) x c c' →
  fewS n x comps (<[i := c']> comps).
Proof.
  intros Hs Hc Hb Hf. split.
  - apply Forall_insert; [done|]. done.
  - intros j cj Hj. destruct (decide (i = j)) as [<-|Hne].
    + assert (cj = c) as -> by congruence. exists c'. split; [|done]. apply list_lookup_insert. by eapply lookup_lt_Some.
    + exists cj. rewrite list_lookup_insert_ne by done. split; [done|]. apply few_refl.
Qed.

(** ** Grouping *)

Global Instance covers_dec gm i : Decision (covers gm i).
Proof. unfold covers. apply _. Defined.

Definition cov (ms : list gmeta) (i : nat) : nat := length (filter (λ gm, covers gm i) ms).
Definition cov1 (gm : gmeta) (i : nat) : nat := if decide (covers gm i) then 1 else 0.

Lemma cov_cons gm ms i : cov (gm :: ms) i = cov1 gm i + cov ms i.
Proof. unfold cov, cov1. rewrite filter_cons. by destruct (decide (covers gm i)). Qed.
Lemma cov_app ms ms' i : cov (ms ++ ms') i = cov ms i + cov ms' i.
Proof. unfold cov. by rewrite filter_app, app_length. Qed.
Lemma cov_drop b k ms gm i : ms !! k = Some gm → b ≤ k → cov1 gm i + cov (drop (S k) ms) i ≤ cov (drop b ms) i.
Proof.
  intros Hk Hb. rewrite <-cov_cons, <-(drop_S _ _ _ Hk). replace (drop k ms) with (drop (k - b) (drop b ms)).
  2:{ rewrite drop_drop. f_equal. lia. }
  rewrite <-(take_drop (k - b) (drop b ms)) at 2. rewrite cov_app. lia.
Qed.
Lemma cov_take b k ms gm i : ms !! k = Some gm → k < b → cov1 gm i + cov (take k ms) i ≤ cov (take b ms) i.
Proof.
  intros Hk Hb. rewrite <-(take_drop (S k) (take b ms)), cov_app, take_take, Nat.min_l by lia.
  rewrite (take_S_r _ _ _ Hk), cov_app, cov_cons. unfold cov at 4. simpl. lia.
Qed.

Lemma few_range e n a b : ∀ comps off comps', mapM_from (move_to e n) a b off comps = Ok comps' → sane comps →
  sane comps' ∧ ∀ i c, comps !! i = Some c → ∃ c', comps' !! i = Some c' ∧
    few (if decide (a ≤ off + i ∧ off + i < b) then 1 else 0) (e_index e) c c'.
Proof.
  induction comps as [|c comps IH]; intros off comps' H Hs; simpl in H. { injection H as <-. done. }
  apply Forall_cons in Hs as [[d Hd] Hs].
  destruct (if _ && _ then move_to e n c else Ok c) as [c1| |] eqn:E1; try done. simpl in H.
  destruct (mapM_from _ _ _ _ comps) as [cs| |] eqn:E2; try done. simpl in H. injection H as <-.
  destruct (IH _ _ E2 Hs) as [IH1 IH2].
  assert ((∃ d, brep c1 d) ∧ few (if decide (a ≤ off + 0 ∧ off + 0 < b) then 1 else 0) (e_index e) c c1) as [Hb1 Hf1].
  { destruct (Nat.leb_spec a off), (Nat.ltb_spec off b); simpl in E1.
    1: { destruct (move_to_keeps _ _ _ _ _ Hd E1) as (d' & ? & _). split; [by exists d'|]. rewrite decide_True by lia. by eapply few_move. }
    all: injection E1 as <-; split; [by exists d|apply few_refl]. }
  split; [by constructor|]. intros [|i] c0 Hc0; simpl in Hc0.
  - injection Hc0 as <-. exists c1. done.
  - destruct (IH2 i c0 Hc0) as (c' & Hc' & Hf). exists c'. split; [done|].
    by replace (off + S i) with (S off + i) by lia.
Qed.

Lemma few_on_range e n gm comps comps' : on_range (move_to e n) (g_start gm) (g_end gm) comps = Ok comps' → sane comps →
  fewS (λ i _, cov1 gm i) (e_index e) comps comps'.
Proof.
  unfold on_range. destruct (range_ok _ _ _); [|done]. intros H Hs. destruct (few_range _ _ _ _ _ _ _ H Hs) as [H1 H2].
  split; [done|]. intros i c Hc. destruct (H2 i c Hc) as (c' & Hc' & Hf). exists c'. split; [done|].
  simpl in Hf. unfold cov1. destruct (decide (covers gm i)) as [Hy|Hn].
  - by rewrite decide_True in Hf by exact Hy.
  - by rewrite decide_False in Hf by exact Hn.
Qed.

Lemma few_group_loop e : ∀ fuel comps gs mask b r, group_loop fuel comps gs mask e = Ok r → sane comps →
  (∀ j, bit mask j = true → b ≤ j) → fewS (λ i _, cov (drop b (gms gs)) i) (e_index e) comps r.1.
Proof.
  induction fuel as [|fuel IH]; intros comps gs mask b r H Hs Hb; simpl in H;
    (destruct (bit_next mask) as [[k mask']|] eqn:Eb; [|injection H as <-; by apply fewS_refl]); [done|].
  apply bit_next_Some in Eb as (Hk & Hlow & Hm').
  assert (Hb' : ∀ j, bit mask' j = true → S k ≤ j).
  { intros j. rewrite Hm'. intros [H1 H2]%andb_true_iff. destruct (Nat.eqb_spec j k); [done|].
    destruct (Nat.lt_ge_cases j k) as [Hlt|]; [|lia]. by rewrite (Hlow j Hlt) in H1. }
  destruct (gs !! k) as [g|] eqn:Hg; [|done].
  assert (gms gs !! k = Some (g_meta g)) as Hgm by (unfold gms; by rewrite list_lookup_fmap, Hg).
  pose proof (λ i, cov_drop b k (gms gs) (g_meta g) i Hgm (Hb k Hk)) as Hcov.
  destruct (status_of comps g e) as [[| |]| |]; try done; simpl in H.
  - eapply fewS_mono; [eapply (IH _ _ _ (S k) _ H); [done|]|].
    { intros j Hj. apply Hb'. unfold bit in *. rewrite N.land_spec in Hj. by apply andb_true_iff in Hj as [? _]. }
    intros i c _. simpl. specialize (Hcov i). lia.
  - unfold group_components in H. destruct (on_range _ _ _ _) as [cs| |] eqn:E; try done. simpl in H.
    pose proof (few_on_range _ _ _ _ _ E Hs) as H1.
    pose proof (IH _ _ _ (S k) _ H (fs_sane _ _ _ _ H1) Hb') as H2. rewrite gms_insert in H2 by done.
    eapply fewS_trans; [exact H1|exact H2|]. intros i c c' _ _. apply Hcov.
  - eapply fewS_mono; [by eapply (IH _ _ _ (S k) _ H)|]. intros i c _. simpl. specialize (Hcov i). lia.
Qed.

Lemma few_ungroup_one comps gs k g e r : ungroup_one comps gs k g e = Ok r → sane comps →
  fewS (λ i _, cov1 (g_meta g) i) (e_index e) comps r.1.
Proof.
  unfold ungroup_one. intros H Hs. destruct (status_of comps g e) as [[| |]| |]; try done; simpl in H.
  1,2: injection H as <-; by apply fewS_refl.
  unfold ungroup_components in H. destruct (g_len g); [done|]. destruct (on_range _ _ _ _) as [cs| |] eqn:E; try done.
  simpl in H. injection H as <-. by eapply few_on_range.
Qed.

Lemma few_ungroup_loop e : ∀ fuel comps gs mask b r, ungroup_loop fuel comps gs mask e = Ok r → sane comps →
  (∀ j, bit mask j = true → j < b) → fewS (λ i _, cov (take b (gms gs)) i) (e_index e) comps r.1.
Proof.
  induction fuel as [|fuel IH]; intros comps gs mask b r H Hs Hb; simpl in H;
    (destruct (bit_next_back mask) as [[k mask']|] eqn:Eb; [|injection H as <-; by apply fewS_refl]); [done|].
  apply bit_next_back_Some in Eb as (Hk & Hhigh & Hm').
  assert (Hb' : ∀ j, bit mask' j = true → j < k).
  { intros j. rewrite Hm'. intros [H1 H2]%andb_true_iff. destruct (Nat.eqb_spec j k); [done|].
    destruct (Nat.lt_ge_cases j k) as [|Hle]; [done|]. rewrite (Hhigh j) in H1; [done|lia]. }
  destruct (gs !! k) as [g|] eqn:Hg; [|done].
  assert (gms gs !! k = Some (g_meta g)) as Hgm by (unfold gms; by rewrite list_lookup_fmap, Hg).
  destruct (ungroup_one comps gs k g e) as [r1| |] eqn:E; try done. simpl in H.
  pose proof (few_ungroup_one _ _ _ _ _ _ E Hs) as H1.
  pose proof (IH _ _ _ k _ H (fs_sane _ _ _ _ H1) Hb') as H2. rewrite (ungroup_one_gms _ _ _ _ _ _ Hg E) in H2.
  eapply fewS_trans; [exact H1|exact H2|]. intros i c c' _ _. apply cov_take; [done|by apply Hb].
Qed.

Lemma few_ungroup_all e : ∀ k comps gs r, ungroup_all_from k comps gs e = Ok r → sane comps →
  fewS (λ i _, cov (take k (gms gs)) i) (e_index e) comps r.1.
Proof.
  induction k as [|k IH]; intros comps gs r H Hs; simpl in H. { injection H as <-. by apply fewS_refl. }
  destruct (gs !! k) as [g|] eqn:Hg; [|done].
  assert (gms gs !! k = Some (g_meta g)) as Hgm by (unfold gms; by rewrite list_lookup_fmap, Hg).
  destruct (ungroup_one comps gs k g e) as [r1| |] eqn:E; try done. simpl in H.
  pose proof (few_ungroup_one _ _ _ _ _ _ E Hs) as H1.
  pose proof (IH _ _ _ H (fs_sane _ _ _ _ H1)) as H2. rewrite (ungroup_one_gms _ _ _ _ _ _ Hg E) in H2.
  eapply fewS_trans; [exact H1|exact H2|]. intros i c c' _ _. by apply cov_take; [|lia].
Qed.

Lemma cov_take_all n ms i : cov (take n ms) i ≤ cov ms i.
Proof. rewrite <-(take_drop n ms) at 2. rewrite cov_app. lia. Qed.

Lemma few_do_group comps gs mask e r : do_group comps gs mask e = Ok r → sane comps →
  fewS (λ i _, cov (gms gs) i) (e_index e) comps r.1.
Proof. unfold do_group. intros H Hs. apply (few_group_loop e _ _ _ _ 0 _ H Hs). intros; lia. Qed.

Lemma few_do_ungroup comps gs mask e r : do_ungroup comps gs mask e = Ok r → sane comps →
  fewS (λ i _, cov (gms gs) i) (e_index e) comps r.1.
Proof.
  unfold do_ungroup. intros H Hs. eapply fewS_mono; [apply (few_ungroup_loop e _ _ _ _ (S (N.to_nat (N.log2 mask))) _ H Hs)|].
  - intros j Hj. destruct (Nat.lt_ge_cases j (S (N.to_nat (N.log2 mask)))) as [|Hge]; [done|].
    unfold bit in Hj. rewrite N.bits_above_log2 in Hj; [done|]. lia.
  - intros i c _. apply cov_take_all.
Qed.

(** ** Insertion and removal *)

Lemma few_insert_loop mt e : (e_index e < u32_lim)%N → ∀ cs comps mask, sane comps →
  match insert_loop mt comps mask e cs with
  | InsOk _ comps' _ | InsPanic _ comps' => fewS (λ _ _, 0) (e_index e) comps comps'
  | InsUB => True
  end.
Proof.
  intros He. induction cs as [|[t v] cs IH]; intros comps mask Hs; simpl. { by apply fewS_refl. }
  destruct (mt !! t) as [m|]; [|by apply fewS_refl]. destruct (comps !! m_index m) as [c|] eqn:Hc; [|done].
  destruct (sane_lookup _ _ _ Hs Hc) as (d & k & Hb). destruct (bc_insert _ _ _ Hb e v He) as (c' & old & d' & Heq & Hb' & _).
  rewrite Heq. assert (fewS (λ _ _, 0) (e_index e) comps (<[m_index m := c']> comps)) as H1.
  { eapply fewS_one; [done..|by exists d'|by eapply few_insert]. }
  specialize (IH _ (gm_or mask (m_insert m)) (fs_sane _ _ _ _ H1)).
  destruct (insert_loop _ (<[_:=_]> comps) _ _ _); [..|done]; (eapply fewS_trans; [exact H1|exact IH|done]).
Qed.

Lemma few_remove_each e : ∀ is_ comps r, remove_each comps e is_ = Ok r → sane comps →
  fewS (λ _ c, held c e) (e_index e) comps r.1.
Proof.
  induction is_ as [|i is_ IH]; intros comps r H Hs; simpl in H. { injection H as <-. by apply fewS_refl. }
  destruct (comps !! i) as [c|] eqn:Hc; [|done]. destruct (sane_lookup _ _ _ Hs Hc) as (d & k & Hb).
  destruct (bc_remove _ _ _ Hb e) as (c' & o & d' & Heq & Hb' & _). rewrite Heq in H.
  destruct (few_remove _ _ _ _ _ _ Hb Heq) as [Hf Hh].
  destruct (remove_each _ _ _) as [[comps' vs]| |] eqn:E; [|done..]. injection H as <-. simpl.
  assert (sane (<[i := c']> comps)) as Hs1 by (apply Forall_insert; [done|by exists d']).
  specialize (IH _ _ E Hs1). simpl in IH. destruct IH as [I1 I2]. split; [done|]. intros j cj Hj.
  destruct (decide (i = j)) as [<-|Hne].
  - assert (cj = c) as -> by congruence. destruct (I2 i c') as (c2 & Hc2 & F2).
    { apply list_lookup_insert. by eapply lookup_lt_Some. }
    exists c2. split; [done|]. rewrite Hh in F2. eapply few_mono; [by eapply few_trans|lia].
  - apply I2. by rewrite list_lookup_insert_ne.
Qed.

Lemma few_delete_list e : ∀ is_ comps r, delete_list comps e is_ = Ok r → sane comps →
  fewS (λ _ c, held c e) (e_index e) comps r.1.
Proof.
  induction is_ as [|i is_ IH]; intros comps r H Hs; simpl in H. { injection H as <-. by apply fewS_refl. }
  destruct (comps !! i) as [c|] eqn:Hc; [|done]. destruct (sane_lookup _ _ _ Hs Hc) as (d & k & Hb).
  destruct (bc_remove _ _ _ Hb e) as (c' & o & d' & Heq & Hb' & _). 
  assert (∃ ol, css_delete c e = Ok (c', ol)) as [ol Hol] by (rewrite css_delete_remove, Heq; destruct o; by eexists).
  rewrite Hol in H. destruct (few_remove _ _ _ _ _ _ Hb Heq) as [Hf Hh].
  destruct (delete_list _ _ _) as [[comps' vs]| |] eqn:E; [|done..]. injection H as <-. simpl.
  assert (sane (<[i := c']> comps)) as Hs1 by (apply Forall_insert; [done|by exists d']).
  specialize (IH _ _ E Hs1). simpl in IH. destruct IH as [I1 I2]. split; [done|]. intros j cj Hj.
  destruct (decide (i = j)) as [<-|Hne].
  - assert (cj = c) as -> by congruence. destruct (I2 i c') as (c2 & Hc2 & F2).
    { apply list_lookup_insert. by eapply lookup_lt_Some. }
    exists c2. split; [done|]. rewrite Hh in F2. eapply few_mono; [by eapply few_trans|lia].
  - apply I2. by rewrite list_lookup_insert_ne.
Qed.

Lemma few_delete_each e : ∀ comps r, delete_each comps e = Ok r → sane comps →
  fewS (λ _ _, 1) (e_index e) comps r.1.
Proof.
  induction comps as [|c comps IH]; intros r H Hs; simpl in H. { injection H as <-. by apply fewS_refl. }
  apply Forall_cons in Hs as [(d & k & Hb) Hs]. destruct (bc_remove _ _ _ Hb e) as (c' & o & d' & Heq & Hb' & _).
  assert (∃ ol, css_delete c e = Ok (c', ol)) as [ol Hol] by (rewrite css_delete_remove, Heq; destruct o; by eexists).
  rewrite Hol in H. simpl in H. destruct (few_remove _ _ _ _ _ _ Hb Heq) as [Hf _].
  destruct (delete_each comps e) as [[l vs]| |] eqn:E; [|done..]. simpl in H. injection H as <-. simpl.
  destruct (IH _ eq_refl Hs) as [I1 I2]. split; [constructor; [by exists d'|done]|]. intros [|i] ci Hi; simpl in *.
  - injection Hi as <-. exists c'. split; [done|]. eapply few_mono; [done|]. unfold held. destruct (sv_get _ _); lia.
  - by apply I2.
Qed.

(** ** The calls *)

Lemma few_step w ds o out dr w' e k : binv w ds → step w o = (out, dr, w') → ub_free out → about o out = Some (e, k) →
  fewS (λ i _, k + cov (sgm (w_comps w)) i) (e_index e) (cs_comps (w_comps w)) (cs_comps (w_comps w')).
Proof.
  intros [HE HS] Hst Hu Ha. pose proof (all_brep _ _ (bt_rep _ _ HS)) as Hs.
  assert (Hins : ∀ w0 e0 cs ok gh, w_comps w0 = w_comps w → (e_index e0 < u32_lim)%N → set_insert w0 e0 cs ok gh = (out, dr, w') →
     fewS (λ i _, 0 + cov (sgm (w_comps w)) i) (e_index e0) (cs_comps (w_comps w)) (cs_comps (w_comps w'))).
  { intros w0 e0 cs ok gh Hw He H. unfold set_insert in H. rewrite Hw in H.
    pose proof (few_insert_loop (cs_meta (w_comps w)) e0 He cs (cs_comps (w_comps w)) 0 Hs) as Hl.
    destruct (insert_loop _ _ _ _ _) as [d1 comps mask|d1 comps|].
    - destruct (group_if _ mask e0) as [s'| |] eqn:Eg; [|by injection H as <- <- <-..]. injection H as <- <- <-. simpl.
      unfold group_if in Eg. destruct (mask =? 0)%N.
      + injection Eg as <-. simpl. eapply fewS_mono; [exact Hl|]. intros; simpl; lia.
      + simpl in Eg. destruct (do_group _ _ _ _) as [r| |] eqn:Ed; [|done..]. injection Eg as <-. simpl.
        pose proof (few_do_group _ _ _ _ _ Ed (fs_sane _ _ _ _ Hl)) as H2.
        eapply fewS_trans; [exact Hl|exact H2|]. intros i c c' _ _. done.
    - injection H as <- <- <-. simpl. eapply fewS_mono; [exact Hl|]. intros; simpl; lia.
    - by injection H as <- <- <-. }
  assert (Hung : ∀ mask e0 s1, ungroup_if (w_comps w) mask e0 = Ok s1 →
     fewS (λ i _, cov (sgm (w_comps w)) i) (e_index e0) (cs_comps (w_comps w)) (cs_comps s1)).
  { intros mask e0 s1 H. unfold ungroup_if in H. destruct (mask =? 0)%N; [injection H as <-; by apply fewS_refl|].
    destruct (do_ungroup _ _ _ _) as [r| |] eqn:Ed; [|done..]. injection H as <-. simpl.
    by eapply few_do_ungroup. }
  destruct o; simpl in Ha; try done.
  - simpl in Hst. unfold world_create in Hst. pose proof (be_create _ HE) as Hc.
    destruct (estore_create (w_ents w)) as [[e0 ents]| |]; simplify_eq.
    destruct Hc as (_ & Hidx & _).
    assert (e0 = e ∧ k = 0) as [-> ->].
    { unfold set_insert in Hst. destruct (insert_loop _ _ _ _ _) as [d1 comps mask|d1 comps|].
      - destruct (group_if _ _ _); by simplify_eq.
      - by simplify_eq.
      - by simplify_eq. }
    by eapply Hins; [|done|exact Hst].
  - simpl in Hst. unfold world_destroy in Hst. simplify_eq.
    destruct (estore_remove (w_ents w) e) as [[[|] ents]| |]; simplify_eq; try (by apply fewS_refl); try done.
    unfold strip, ungroup_all in Hst. destruct (ungroup_all_from _ _ _ _) as [r| |] eqn:Eu; cbn [mbind res_bind] in Hst; [|by simplify_eq..].
    destruct (delete_each _ _) as [r2| |] eqn:Ed; cbn [mbind res_bind] in Hst; [|by simplify_eq..].
    simplify_eq. simpl.
    pose proof (few_ungroup_all _ _ _ _ _ Eu Hs) as H1. pose proof (few_delete_each _ _ _ Ed (fs_sane _ _ _ _ H1)) as H2.
    eapply fewS_trans; [exact H1|exact H2|]. intros i c c' _ _. simpl. unfold sgm.
    pose proof (cov_take_all (length (cs_groups (w_comps w))) (gms (cs_groups (w_comps w))) i). lia.
  - simpl in Hst. unfold world_insert in Hst. simplify_eq. destruct (estore_contains (w_ents w) e) eqn:Ec.
    + eapply Hins; [..|exact Hst]; [done|]. by eapply be_contains.
    + simplify_eq. by apply fewS_refl.
  - simpl in Hst. unfold set_remove in Hst. simplify_eq.
    destruct (lookup_metas _ _ _) as [[is_ mask]|]; [|simplify_eq; by apply fewS_refl].
    destruct (ungroup_if _ _ _) as [s1| |] eqn:Eu; [|by simplify_eq..].
    destruct (remove_each _ _ _) as [[comps vs]| |] eqn:Er; simplify_eq; simpl; try done.
    pose proof (Hung _ _ _ Eu) as H1. pose proof (few_remove_each _ _ _ _ Er (fs_sane _ _ _ _ H1)) as H2.
    eapply fewS_trans; [exact H1|exact H2|]. intros i c c' _ _. simpl. unfold held. destruct (sv_get _ _); lia.
  - simpl in Hst. unfold set_delete in Hst. simplify_eq.
    destruct (lookup_metas _ _ _) as [[is_ mask]|]; [|simplify_eq; by apply fewS_refl].
    destruct (ungroup_if _ _ _) as [s1| |] eqn:Eu; [|by simplify_eq..].
    destruct (delete_list _ _ _) as [[comps vs]| |] eqn:Er; simplify_eq; simpl; try done.
    pose proof (Hung _ _ _ Eu) as H1. pose proof (few_delete_list _ _ _ _ Er (fs_sane _ _ _ _ H1)) as H2.
    eapply fewS_trans; [exact H1|exact H2|]. intros i c c' _ _. simpl. unfold held. destruct (sv_get _ _); lia.
Qed.

(** ** The groups of a type *)

Lemma laid_out_eq l s s' : laid_out l s → shape_eq s s' → laid_out l s'.
Proof. intros H [H1 H2 _]. unfold laid_out, sgm, gms in *. by rewrite H1, H2. Qed.

Lemma unbroken_from l evs w s : unbroken_history_from l evs w s → unbroken_history evs w s.
Proof. intros (gs & ts & w0 & Hgs & Hb & Hh). exists w0, (s_init l ts). split; [|done]. by exists gs, l, ts. Qed.

Lemma good_unbroken_from l evs w s : good_history_from l evs w s → unbroken_history_from l evs w s.
Proof.
  intros (gs & ts & w0 & Hgs & Hb & Hh). exists gs, ts, w0. split; [done|]. split; [done|].
  assert (built w0 (s_init l ts)) as Hbl by (by exists gs, l, ts).
  destruct (built_inv _ _ Hbl) as (Hsv & ds0 & HI & _).
  induction Hh as [|evs w1 s1 o out dr w2 Hh IH Hop Hstep Hside]; [constructor|].
  econstructor; try done. destruct (history_inv _ _ _ _ _ _ HI Hsv Hh) as (Hsv1 & ds1 & HI1 & _).
  destruct (step_inv _ _ _ _ _ _ _ HI1 Hsv1 Hop Hstep Hside) as [Ha _].
  split; [by eapply allowed_ub_free|]. intros l' p ->. simpl in Ha. rewrite decide_True in Ha by apply Hside. by subst out.
Qed.

Lemma unbroken_laid_out l evs w s : unbroken_history_from l evs w s → laid_out (layout_after l evs) (w_comps w).
Proof.
  intros (gs & ts & w0 & Hgs & Hb & Hh).
  induction Hh as [|evs w1 s1 o out dr w2 Hh IH Hok Hstep Hside].
  { unfold layout_after. simpl. eapply built_laid_out; [|done]. by eapply layout_built_wf. }
  unfold layout_after. rewrite foldl_app. cbn [foldl fst snd]. fold (layout_after l evs).
  assert ((∃ l' p, o = OSetLayout l' p) ∨ ∀ l' p, o ≠ OSetLayout l' p) as [(l' & p & ->)|Hne].
  { destruct o; try (right; intros ? ?; discriminate). left. eauto. }
  - assert (unbroken_history evs w1 s1) as Hu by (eapply unbroken_from; by exists gs, ts, w0).
    pose proof (unbroken_shape _ _ _ Hu) as Hsh. destruct (shadow_inv _ _ _ Hsh) as [ds HI].
    destruct Hok as [gs' Hgs']. pose proof (layout_built_wf _ _ Hgs') as Hwf. destruct Hside as [Hub Hp].
    cbn [step] in Hstep. unfold world_set_layout in Hstep.
    destruct (set_layout _ _ _ _) as [s'|d s'|] eqn:Hs; inversion Hstep; subst; simpl.
    + destruct (shape_set_layout _ _ _ _ _ _ _ Hsh Hwf Hs) as (Hfit & _ & _).
      destruct (set_layout_eq _ _ _ _ _ _ (shadow_eq (w_comps w1)) (static_in _ _ _ (sh_static _ _ _ Hsh)) Hs) as (perm1 & r1 & H1 & He).
      eapply laid_out_eq; [|exact He]. eapply set_layout_laid_out; [exact HI|done|done|exact H1].
    + by specialize (Hp _ _ eq_refl).
    + done.
  - assert (match o with OSetLayout l' _ => l' | _ => layout_after l evs end = layout_after l evs) as Hl.
    { destruct o; try done. by destruct (Hne l0 perm). }
    unfold layout_after in Hl |- *. rewrite Hl. eapply laid_out_framed; [exact IH|]. by eapply step_framed.
Qed.

Lemma cov_groups mt ms gs t m : (∀ t' m', mt !! t' = Some m' → m_index m = m_index m' → t = t') →
  Forall2 (for_group mt) ms gs → mt !! t = Some m → cov ms (m_index m) = groups_with t gs.
Proof.
  intros Hinj HF Hm. unfold cov, groups_with. induction HF as [|gm g ms gs (_ & H1 & H2) HF IH]; [done|].
  assert (covers gm (m_index m) ↔ t ∈ g) as Hiff.
  { split.
    - intros Hc. destruct (H2 _ Hc) as (t' & m' & Ht' & Hm' & He). by rewrite (Hinj t' m' Hm' (eq_sym He)).
    - intros Ht. destruct (H1 t Ht) as (m' & Hm' & Hc). assert (m' = m) as -> by congruence. done. }
  rewrite !filter_cons. destruct (decide (covers gm (m_index m))), (decide (t ∈ g)); simpl; try tauto; by rewrite IH.
Qed.

(** ** The views *)

Lemma step_local l evs w s o out dr w' e k t es : unbroken_history_from l evs w s → op_ok o →
  step w o = (out, dr, w') → ub_free out → about o out = Some (e, k) → view_entities w t = Ok es →
  ∃ es', view_entities w' t = Ok es' ∧ disturbed e (k + groups_with t (layout_groups (layout_after l evs))) es es'.
Proof.
  intros Hh Hok Hst Hu Ha Hv. pose proof (unbroken_from _ _ _ _ Hh) as Hub.
  destruct (history_binv _ _ _ (unbroken_ub_free _ _ _ Hub)) as (ds & HB).
  pose proof (unbroken_shape _ _ _ Hub) as Hsh. pose proof (unbroken_laid_out _ _ _ _ Hh) as Hl.
  destruct (few_step _ _ _ _ _ _ _ _ HB Hst Hu Ha) as [Hs' Hf].
  assert (∀ l p, o ≠ OSetLayout l p) as Hnl by (intros l' p ->; done).
  destruct (step_framed _ _ _ _ _ Hst Hnl) as [_ Hsub].
  unfold view_entities, cs_borrow in *. destruct (cs_meta (w_comps w) !! t) as [m|] eqn:Hm; [|done].
  rewrite (lookup_weaken _ _ _ _ Hm Hsub).
  destruct (cs_comps (w_comps w) !! m_index m) as [c|] eqn:Hc; [|done].
  destruct (Hf _ _ Hc) as (c' & Hc' & M & HM & Hfew). rewrite Hc'.
  assert (∀ c, (∃ d, brep c d) → ∃ es, css_entities c = Ok es ∧ length es = c_len c ∧
            ∀ i x, es !! i = Some x ↔ i < c_len c ∧ c_ents c !! i = Some (Some x)) as Hents.
  { intros c0 (d & k0 & Hb). exists d.*1. pose proof (bc_len _ _ _ Hb) as Hlen.
    assert (∀ i x, d.*1 !! i = Some x ↔ i < c_len c0 ∧ c_ents c0 !! i = Some (Some x)) as Hi.
    { intros i x. split.
      - intros Hx. apply dense_fst_lookup in Hx as [v Hx]. split; [|by eapply (bc_cells _ _ _ Hb)].
        rewrite Hlen. by eapply lookup_lt_Some.
      - intros [H1 H2]. rewrite Hlen in H1. destruct (lookup_lt_is_Some_2 d i H1) as [[x' v] Hd].
        destruct (bc_cells _ _ _ Hb _ _ _ Hd) as [H3 _]. assert (x' = x) as -> by congruence. apply dense_fst_lookup. eauto. }
    split_and!; [by eapply bc_entities|by rewrite fmap_length|done]. }
  destruct (Hents c) as (es0 & He0 & _ & Hi0). { destruct HB as [_ HS]. destruct (bsts_lookup _ _ _ _ (bt_rep _ _ HS) Hc) as (d & _ & ?). by exists d. }
  assert (es0 = es) as -> by congruence.
  destruct (Hents c') as (es' & He' & _ & Hi'). { by apply (proj1 (Forall_lookup _ _) Hs' _ _ Hc'). }
  exists es'. split; [done|]. exists M. split.
  - rewrite <-(cov_groups (cs_meta (w_comps w)) (sgm (w_comps w)) _ t m); [done|..].
    + intros t' m' Hm' He. by eapply (st_inj _ _ _ (sh_static _ _ _ Hsh)).
    + exact Hl.
    + done.
  - intros i x Hx Hne Hn. apply Hi0 in Hx as [H1 H2]. apply Hi'. by apply Hfew.
Qed.

(** A lower bound: the entities that do move. *)
Definition movedb (e : entity) (es es' : list entity) (ix : nat * entity) : bool :=
  bool_decide (es !! ix.1 = Some ix.2 ∧ e_index ix.2 ≠ e_index e ∧ es' !! ix.1 ≠ Some ix.2).

Lemma disturbed_lower e n es es' X : NoDup X.*2 → forallb (movedb e es es') X = true → n < length X →
  ¬ disturbed e n es es'.
Proof.
  intros Hnd HX Hn (M & HM & H).
  assert (∀ x, x ∈ X.*2 → x ∈ M) as Hsub.
  { intros x (ix & -> & Hix)%elem_of_list_fmap. destruct (decide (ix.2 ∈ M)) as [|Hni]; [done|]. exfalso.
    rewrite forallb_forall in HX. specialize (HX ix (proj1 (elem_of_list_In _ _) Hix)).
    apply bool_decide_eq_true in HX as (H1 & H2 & H3). apply H3. by apply H. }
  pose proof (NoDup_submseteq _ _ Hnd Hsub) as Hs. apply submseteq_length in Hs. rewrite fmap_length in Hs. lia.
Qed.
