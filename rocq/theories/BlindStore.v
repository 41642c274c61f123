(** The component storage under the invariant of BlindCss.v: values are neither
    lost nor duplicated, whatever the groups and versions. *)
From Verif Require Import Base SparseVecM EntityM CssM MaskM LayoutM GroupM StorageM WorldM QueryM StepM
  Lists SparseProofs CssProofs BlindCss StorageProofs LayoutOps.

Lemma bsts_lookup comps ds i c : Forall2 brep comps ds → comps !! i = Some c → ∃ d, ds !! i = Some d ∧ brep c d.
Proof. intros H Hc. destruct (Forall2_lookup_l _ _ _ _ _ H Hc) as (d & ? & ?). eauto. Qed.

Lemma bsts_insert comps ds i c d : Forall2 brep comps ds → brep c d → Forall2 brep (<[i := c]> comps) (<[i := d]> ds).
Proof. intros. by apply Forall2_insert. Qed.

(** [comps'] holds the same values as [comps]. *)
Definition bkeeps (comps comps' : list css) : Prop :=
  length comps' = length comps ∧
  ∀ ds, Forall2 brep comps ds → ∃ ds', Forall2 brep comps' ds' ∧ stored ds' ≡ₚ stored ds.

Lemma bkeeps_refl comps : bkeeps comps comps.
Proof. split; [done|]. intros ds H. by exists ds. Qed.

Lemma bkeeps_trans c1 c2 c3 : bkeeps c1 c2 → bkeeps c2 c3 → bkeeps c1 c3.
Proof.
  intros [L1 H1] [L2 H2]. split; [congruence|]. intros ds Hd. destruct (H1 _ Hd) as (d1 & Hd1 & E1).
  destruct (H2 _ Hd1) as (d2 & Hd2 & E2). exists d2. split; [done|]. by rewrite E2.
Qed.

Lemma move_to_keeps e n c c' d : brep c d → move_to e n c = Ok c' → ∃ d', brep c' d' ∧ d'.*2 ≡ₚ d.*2.
Proof.
  intros [k Hb] H. unfold move_to in H. destruct (sv_get_sparse_unchecked _ _) as [i| |]; try done. simpl in H.
  destruct (i =? n). { injection H as <-. exists d. split; [by exists k|done]. }
  destruct (bc_swap _ _ _ Hb _ _ _ H) as (d' & ? & ? & _). eauto.
Qed.

Lemma mapM_from_keeps e n from to : ∀ comps i comps',
  mapM_from (move_to e n) from to i comps = Ok comps' → bkeeps comps comps'.
Proof.
  induction comps as [|c comps IH]; intros i comps' H; simpl in H. { injection H as <-. apply bkeeps_refl. }
  destruct (if _ && _ then move_to e n c else Ok c) as [c1| |] eqn:E1; try done. simpl in H.
  destruct (mapM_from _ _ _ _ comps) as [cs| |] eqn:E2; try done. simpl in H. injection H as <-.
  destruct (IH _ _ E2) as [HL HK]. split; [by simpl; rewrite HL|]. intros ds Hd.
  apply Forall2_cons_inv_l in Hd as (d & ds' & Hb & Hds & ->). destruct (HK _ Hds) as (ds2 & H2 & P2).
  assert (∃ d', brep c1 d' ∧ d'.*2 ≡ₚ d.*2) as (d' & Hd' & Pd').
  { destruct (_ && _); [by eapply move_to_keeps|]. injection E1 as <-. by exists d. }
  exists (d' :: ds2). split; [by constructor|]. unfold stored in *. simpl. by rewrite P2, Pd'.
Qed.

Lemma on_range_keeps e n from to comps comps' : on_range (move_to e n) from to comps = Ok comps' → bkeeps comps comps'.
Proof. unfold on_range. destruct (range_ok _ _ _); [|done]. apply mapM_from_keeps. Qed.

Lemma group_components_keeps comps gs k g e r : group_components comps gs k g e = Ok r → bkeeps comps r.1.
Proof.
  unfold group_components. intros H. destruct (on_range _ _ _ _) as [cs| |] eqn:E; try done. simpl in H. injection H as <-.
  by eapply on_range_keeps.
Qed.

Lemma ungroup_components_keeps comps gs k g e r : ungroup_components comps gs k g e = Ok r → bkeeps comps r.1.
Proof.
  unfold ungroup_components. intros H. destruct (g_len g); [done|]. destruct (on_range _ _ _ _) as [cs| |] eqn:E; try done.
  simpl in H. injection H as <-. by eapply on_range_keeps.
Qed.

Lemma group_loop_keeps e : ∀ fuel comps gs mask r, group_loop fuel comps gs mask e = Ok r → bkeeps comps r.1.
Proof.
  induction fuel as [|fuel IH]; intros comps gs mask r H; simpl in H;
    (destruct (bit_next mask) as [[k mask']|]; [|injection H as <-; apply bkeeps_refl]); [done|].
  destruct (gs !! k) as [g|]; [|done]. destruct (status_of comps g e) as [[| |]| |]; try done; simpl in H.
  - by eapply IH.
  - destruct (group_components comps gs k g e) as [r1| |] eqn:E; try done. simpl in H.
    eapply bkeeps_trans; [by eapply group_components_keeps|by eapply IH].
  - by eapply IH.
Qed.

Lemma do_group_keeps comps gs mask e r : do_group comps gs mask e = Ok r → bkeeps comps r.1.
Proof. apply group_loop_keeps. Qed.

Lemma ungroup_one_keeps comps gs k g e r : ungroup_one comps gs k g e = Ok r → bkeeps comps r.1.
Proof.
  unfold ungroup_one. intros H. destruct (status_of comps g e) as [[| |]| |]; try done; simpl in H.
  - injection H as <-. apply bkeeps_refl.
  - injection H as <-. apply bkeeps_refl.
  - by eapply ungroup_components_keeps.
Qed.

Lemma ungroup_loop_keeps e : ∀ fuel comps gs mask r, ungroup_loop fuel comps gs mask e = Ok r → bkeeps comps r.1.
Proof.
  induction fuel as [|fuel IH]; intros comps gs mask r H; simpl in H;
    (destruct (bit_next_back mask) as [[k mask']|]; [|injection H as <-; apply bkeeps_refl]); [done|].
  destruct (gs !! k) as [g|]; [|done]. destruct (ungroup_one comps gs k g e) as [r1| |] eqn:E; try done. simpl in H.
  eapply bkeeps_trans; [by eapply ungroup_one_keeps|by eapply IH].
Qed.

Lemma do_ungroup_keeps comps gs mask e r : do_ungroup comps gs mask e = Ok r → bkeeps comps r.1.
Proof. apply ungroup_loop_keeps. Qed.

Lemma ungroup_all_keeps e : ∀ k comps gs r, ungroup_all_from k comps gs e = Ok r → bkeeps comps r.1.
Proof.
  induction k as [|k IH]; intros comps gs r H; simpl in H. { injection H as <-. apply bkeeps_refl. }
  destruct (gs !! k) as [g|]; [|done]. destruct (ungroup_one comps gs k g e) as [r1| |] eqn:E; try done. simpl in H.
  eapply bkeeps_trans; [by eapply ungroup_one_keeps|by eapply IH].
Qed.

Lemma group_each_keeps mask : ∀ es comps gs r, group_each comps gs mask es = Ok r → bkeeps comps r.1.
Proof.
  induction es as [|e es IH]; intros comps gs r; cbn [group_each]; [intros [= <-]; apply bkeeps_refl|].
  pose proof (do_group_keeps comps gs mask e) as Hk. destruct (do_group comps gs mask e) as [r1| |]; [|done..].
  intros H. eapply bkeeps_trans; [by apply Hk|by eapply IH].
Qed.

Lemma group_if_keeps s mask e s' : group_if s mask e = Ok s' → bkeeps (cs_comps s) (cs_comps s') ∧ cs_meta s' = cs_meta s.
Proof.
  unfold group_if. destruct (_ =? _)%N. { intros [= <-]. split; [apply bkeeps_refl|done]. }
  pose proof (do_group_keeps (cs_comps s) (cs_groups s) mask e) as Hk. destruct (do_group _ _ _ _) as [r| |]; [|done..].
  intros [= <-]. split; [|done]. by apply Hk.
Qed.

Lemma ungroup_if_keeps s mask e s' : ungroup_if s mask e = Ok s' → bkeeps (cs_comps s) (cs_comps s') ∧ cs_meta s' = cs_meta s.
Proof.
  unfold ungroup_if. destruct (_ =? _)%N. { intros [= <-]. split; [apply bkeeps_refl|done]. }
  pose proof (do_ungroup_keeps (cs_comps s) (cs_groups s) mask e) as Hk. destruct (do_ungroup _ _ _ _) as [r| |]; [|done..].
  intros [= <-]. split; [|done]. by apply Hk.
Qed.

(** [comps'] is [comps] with the values [vin] added and [vout] taken out. *)
Definition bmoves (vin vout : list val) (comps comps' : list css) : Prop :=
  length comps' = length comps ∧
  ∀ ds, Forall2 brep comps ds → ∃ ds', Forall2 brep comps' ds' ∧ vin ++ stored ds ≡ₚ vout ++ stored ds'.

Lemma bkeeps_moves c1 c2 : bkeeps c1 c2 → bmoves [] [] c1 c2.
Proof. intros [HL HK]. split; [done|]. intros ds Hd. destruct (HK _ Hd) as (ds' & ? & ?). exists ds'. by split. Qed.

Lemma bmoves_trans i1 i2 o1 o2 c1 c2 c3 :
  bmoves i1 o1 c1 c2 → bmoves i2 o2 c2 c3 → bmoves (i1 ++ i2) (o1 ++ o2) c1 c3.
Proof.
  intros [L1 H1] [L2 H2]. split; [congruence|]. intros ds Hd. destruct (H1 _ Hd) as (d1 & Hd1 & E1).
  destruct (H2 _ Hd1) as (d2 & Hd2 & E2). exists d2. split; [done|].
  rewrite (Permutation_app_comm i1 i2), <-(assoc_L (++)), E1, !(assoc_L (++)), (Permutation_app_comm i2 o1), <-!(assoc_L (++)), E2.
  done.
Qed.

Lemma bmoves_one comps i c c' vin vout :
  comps !! i = Some c → (∀ d, brep c d → ∃ d', brep c' d' ∧ vin ++ d.*2 ≡ₚ vout ++ d'.*2) →
  bmoves vin vout comps (<[i := c']> comps).
Proof.
  intros Hc H. split; [by rewrite insert_length|]. intros ds Hd. destruct (bsts_lookup _ _ _ _ Hd Hc) as (d & Hi & Hb).
  destruct (H _ Hb) as (d' & Hb' & Hp). exists (<[i := d']> ds). split; [by apply bsts_insert|]. by eapply stored_insert.
Qed.

Lemma bmoves_css_insert comps i c e v : Forall (λ c, ∃ d, brep c d) comps → (e_index e < u32_lim)%N → comps !! i = Some c →
  ∃ c' old, css_insert c e v = Ok (c', old) ∧ bmoves [v] (opt_list old) comps (<[i := c']> comps).
Proof.
  intros Hall He Hi. destruct (proj1 (Forall_lookup _ _) Hall _ _ Hi) as (d & k & Hb).
  destruct (bc_insert _ _ _ Hb e v He) as (c' & old & d' & Heq & _ & _). exists c', old. split; [done|].
  apply (bmoves_one _ _ c); [done|]. intros d1 [k1 Hb1]. destruct (bc_insert _ _ _ Hb1 e v He) as (c2 & old2 & d2 & Heq2 & Hr2 & P2).
  rewrite Heq in Heq2. injection Heq2 as <- <-. eauto.
Qed.

Lemma all_brep comps ds : Forall2 brep comps ds → Forall (λ c, ∃ d, brep c d) comps.
Proof. intros H. apply Forall_lookup. intros i c Hi. destruct (bsts_lookup _ _ _ _ H Hi) as (d & _ & ?). eauto. Qed.

Lemma bmoves_all vin vout c1 c2 : bmoves vin vout c1 c2 → Forall (λ c, ∃ d, brep c d) c1 → Forall (λ c, ∃ d, brep c d) c2.
Proof.
  intros [_ H] Hall. assert (∃ ds, Forall2 brep c1 ds) as [ds Hds].
  { clear H. induction Hall as [|c l [d Hd] _ [ds IH]]; [by exists []|]. exists (d :: ds). by constructor. }
  destruct (H _ Hds) as (ds' & Hd' & _). by eapply all_brep.
Qed.

Definition metas_in (mt : gmap tid meta) (n : nat) : Prop := ∀ t m, mt !! t = Some m → m_index m < n.

Lemma bl_insert_loop mt e : (e_index e < u32_lim)%N → ∀ cs comps mask,
  Forall (λ c, ∃ d, brep c d) comps → metas_in mt (length comps) →
  match insert_loop mt comps mask e cs with
  | InsOk ds comps' mask' => bmoves cs.*2 ds comps comps' ∧ ((∀ t m, mt !! t = Some m → m_insert m = 0%N) → mask' = mask)
  | InsPanic ds comps' => bmoves cs.*2 ds comps comps'
  | InsUB => False
  end.
Proof.
  intros He. induction cs as [|[t v] cs IH]; intros comps mask Hall Hin; simpl.
  { split; [|done]. apply bkeeps_moves, bkeeps_refl. }
  destruct (mt !! t) as [m|] eqn:Ht.
  2:{ split; [done|]. intros ds Hd. by exists ds. }
  destruct (lookup_lt_is_Some_2 comps (m_index m)) as [c Hc]; [by eapply Hin|]. rewrite Hc.
  destruct (bmoves_css_insert _ _ _ e v Hall He Hc) as (c' & old & Heq & Hm). rewrite Heq.
  specialize (IH (<[m_index m:=c']> comps) (gm_or mask (m_insert m))).
  assert (Hall' : Forall (λ c, ∃ d, brep c d) (<[m_index m:=c']> comps)) by (by eapply bmoves_all).
  assert (Hin' : metas_in mt (length (<[m_index m:=c']> comps))) by (by rewrite insert_length).
  specialize (IH Hall' Hin'). change (match old with Some o => [o] | None => [] end) with (opt_list old).
  destruct (insert_loop _ _ _ _ _) as [ds comps' mask'|ds comps'|];
    [|exact (bmoves_trans _ _ _ _ _ _ _ Hm IH)|done].
  destruct IH as [IH1 IH2]. split; [exact (bmoves_trans _ _ _ _ _ _ _ Hm IH1)|]. intros Hz. rewrite IH2 by done.
  unfold gm_or. by rewrite (Hz _ _ Ht), N.lor_0_r.
Qed.

Lemma bl_lookup_metas mt n f : metas_in mt n → ∀ ts is_ mask, lookup_metas mt f ts = Some (is_, mask) →
  Forall (λ i, i < n) is_ ∧ length is_ = length ts ∧ ((∀ t m, mt !! t = Some m → f m = 0%N) → mask = 0%N).
Proof.
  intros Hin. induction ts as [|t ts IH]; intros is_ mask H; simpl in H. { injection H as <- <-. by split_and!. }
  destruct (mt !! t) as [m|] eqn:Ht; [|done]. destruct (lookup_metas mt f ts) as [[js mk]|]; [|done]. injection H as <- <-.
  destruct (IH _ _ eq_refl) as (H1 & H2 & H3). split_and!.
  - constructor; [by eapply Hin|done].
  - simpl. by rewrite H2.
  - intros Hz. rewrite H3 by done. unfold gm_or. by rewrite (Hz _ _ Ht).
Qed.

Lemma bl_insert_row e : (e_index e < u32_lim)%N → ∀ row comps,
  Forall (λ c, ∃ d, brep c d) comps → Forall (λ p : nat * val, p.1 < length comps) row →
  ∃ comps' ds, insert_row comps e row = Ok (comps', ds) ∧ bmoves row.*2 ds comps comps'.
Proof.
  intros He. induction row as [|[i v] row IH]; intros comps Hall Hin; simpl.
  { eexists _, _. split; [done|]. apply bkeeps_moves, bkeeps_refl. }
  apply Forall_cons in Hin as [Hi Hin]. destruct (lookup_lt_is_Some_2 comps i Hi) as [c Hc]. rewrite Hc.
  destruct (bmoves_css_insert _ _ _ e v Hall He Hc) as (c' & old & Heq & Hm). rewrite Heq.
  destruct (IH (<[i := c']> comps)) as (comps' & ds & Heq' & Hm').
  { by eapply bmoves_all. } { by rewrite insert_length. }
  rewrite Heq'. eexists _, _. split; [done|]. pose proof (bmoves_trans _ _ _ _ _ _ _ Hm Hm') as HM.
  by destruct old.
Qed.

Lemma bl_remove_each e : ∀ is_ comps,
  Forall (λ c, ∃ d, brep c d) comps → Forall (λ i, i < length comps) is_ →
  ∃ comps' vs, remove_each comps e is_ = Ok (comps', vs) ∧ bmoves [] (omap id vs) comps comps'.
Proof.
  induction is_ as [|i is_ IH]; intros comps Hall Hin; simpl.
  { eexists _, _. split; [done|]. apply bkeeps_moves, bkeeps_refl. }
  apply Forall_cons in Hin as [Hi Hin]. destruct (lookup_lt_is_Some_2 comps i Hi) as [c Hc]. rewrite Hc.
  destruct (proj1 (Forall_lookup _ _) Hall _ _ Hc) as (d & k & Hb).
  destruct (bc_remove _ _ _ Hb e) as (c' & o & d' & Heq & _ & _). rewrite Heq.
  assert (Hm : bmoves [] (opt_list o) comps (<[i := c']> comps)).
  { apply (bmoves_one _ _ c); [done|]. intros d1 [k1 Hb1]. destruct (bc_remove _ _ _ Hb1 e) as (c2 & o2 & d2 & Heq2 & Hr2 & P2).
    rewrite Heq in Heq2. injection Heq2 as <- <-. eauto. }
  destruct (IH (<[i := c']> comps)) as (comps' & vs & Heq' & Hm').
  { by eapply bmoves_all. } { by rewrite insert_length. }
  rewrite Heq'. eexists _, _. split; [done|]. pose proof (bmoves_trans _ _ _ _ _ _ _ Hm Hm') as HM. by destruct o.
Qed.

Lemma bl_delete_list e : ∀ is_ comps,
  Forall (λ c, ∃ d, brep c d) comps → Forall (λ i, i < length comps) is_ →
  ∃ comps' vs, delete_list comps e is_ = Ok (comps', vs) ∧ bmoves [] vs comps comps'.
Proof.
  induction is_ as [|i is_ IH]; intros comps Hall Hin; simpl.
  { eexists _, _. split; [done|]. apply bkeeps_moves, bkeeps_refl. }
  apply Forall_cons in Hin as [Hi Hin]. destruct (lookup_lt_is_Some_2 comps i Hi) as [c Hc]. rewrite Hc.
  destruct (proj1 (Forall_lookup _ _) Hall _ _ Hc) as (d & k & Hb).
  destruct (bc_delete _ _ _ Hb e) as (c' & o & d' & Heq & _ & _). rewrite Heq.
  assert (Hm : bmoves [] o comps (<[i := c']> comps)).
  { apply (bmoves_one _ _ c); [done|]. intros d1 [k1 Hb1]. destruct (bc_delete _ _ _ Hb1 e) as (c2 & o2 & d2 & Heq2 & Hr2 & P2).
    rewrite Heq in Heq2. injection Heq2 as <- <-. eauto. }
  destruct (IH (<[i := c']> comps)) as (comps' & vs & Heq' & Hm').
  { by eapply bmoves_all. } { by rewrite insert_length. }
  rewrite Heq'. eexists _, _. split; [done|]. exact (bmoves_trans _ _ _ _ _ _ _ Hm Hm').
Qed.

Lemma bl_delete_each e : ∀ comps ds, Forall2 brep comps ds →
  ∃ comps' vs ds', delete_each comps e = Ok (comps', vs) ∧ Forall2 brep comps' ds' ∧ stored ds ≡ₚ vs ++ stored ds'.
Proof.
  induction 1 as [|c d comps ds [k Hb] Hall (comps' & vs & ds' & Heq & Hr & Hp)]; simpl. { by eexists _, _, []. }
  destruct (bc_delete _ _ _ Hb e) as (c' & o & d' & Heq1 & Hb1 & Hp1). rewrite Heq1, Heq. simpl.
  eexists _, _, (d' :: ds'). split; [done|]. split; [by constructor|]. unfold stored in *. simpl. rewrite Hp, Hp1.
  rewrite <-!(assoc_L (++)). f_equiv. rewrite !(assoc_L (++)). by rewrite (Permutation_app_comm vs).
Qed.

Lemma bl_clear_each : ∀ comps ds, Forall2 brep comps ds →
  ∃ comps', clear_each comps = Ok (comps', stored ds) ∧ Forall2 brep comps' ((λ _, []) <$> ds).
Proof.
  induction 1 as [|c d comps ds [k Hb] Hall (comps' & Heq & Hr)]; simpl. { by eexists []. }
  destruct (bc_clear _ _ _ Hb) as (c' & Heq1 & Hb1). rewrite Heq1, Heq. simpl.
  eexists. split; [done|]. by constructor.
Qed.

Lemma stored_nils {A} (l : list A) : stored ((λ _, []) <$> l) = [].
Proof. induction l; [done|]. by unfold stored in *. Qed.

Lemma bl_drop_all : ∀ comps ds, Forall2 brep comps ds → drop_all comps = Ok (stored ds).
Proof.
  induction 1 as [|c d comps ds [k Hb] Hall IH]; simpl; [done|].
  assert (css_drop c = Ok d.*2) as -> by apply (bc_slice _ _ _ Hb). simpl. by rewrite IH.
Qed.
