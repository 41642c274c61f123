(** The order of [World::entities]. *)
From Verif Require Import Base Lists SparseVecM EntityM CssM MaskM LayoutM GroupM StorageM WorldM QueryM StepM
  SparseProofs Spec SpecMore EntityProofs EntityRun EntityHistory SpecListing.

Lemma allocate_pending a L C Q I F e a' :
  alloc_inv a L C Q I F → allocate a = Ok (Some e, a') →
  (pending a' = e :: pending a ∧ e_version e ≠ version_first) ∨
  (pending a' = pending a ++ [e] ∧ e_version e = version_first).
Proof.
  intros HI. unfold allocate. destruct (Nat.ltb_spec (a_rsm a) (length (a_recycled a))) as [Hlt|Hge].
  - destruct (a_recycled a !! _) as [e'|] eqn:He; [|done]. intros [= -> <-]. left.
    set (n := length (a_recycled a) - a_rsm a - 1) in *.
    assert (Hn : length (a_recycled a) - a_rsm a = S n) by lia.
    split.
    + unfold pending; simpl. replace (length (a_recycled a) - S (a_rsm a)) with n by lia.
      rewrite Hn. by rewrite (drop_S _ e n).
    + assert (e ∈ F) as HF.
      { apply (ai_avail _ _ _ _ _ _ HI). unfold avail. rewrite Hn, (take_S_r _ _ e) by done. set_solver. }
      destruct (ai_valid _ _ _ _ _ _ HI e (or_intror HF)) as [_ Hlt'].
      destruct (ai_all _ _ _ _ _ _ HI _ Hlt') as (e1 & H1 & H2).
      pose proof (ai_free_version _ _ _ _ _ _ HI e1 e H1 HF H2).
      destruct (ai_valid _ _ _ _ _ _ HI e1 (or_introl H1)) as [[_ [Hv _]] _]. unfold version_first in *. lia.
  - destruct (N.ltb_spec (a_next a) u32_lim); [|done]. intros [= <- <-]. right. split; [|done].
    unfold pending; simpl. rewrite <-(assoc_L (++)). f_equal.
    destruct (ai_next _ _ _ _ _ _ HI) as [H1 _].
    unfold N_range. replace (N.to_nat (a_next a + 1 - a_lastm a)) with (N.to_nat (a_next a - a_lastm a) + 1) by lia.
    rewrite seq_app, !fmap_app. simpl. f_equal. f_equal.
    rewrite as_u32_small by lia. f_equal. lia.
Qed.

Lemma recycle_pending a e : a_rsm a ≤ length (a_recycled a) → pending (recycle a e) = pending a.
Proof.
  intros H. unfold recycle. destruct (version_next _); [|done]. unfold pending; simpl. f_equal.
  by replace (S (length (a_recycled a)) - a_rsm a) with (S (length (a_recycled a) - a_rsm a)) by lia.
Qed.

Lemma fill_hole_swap_remove l i e : NoDup l → l !! i = Some e → swap_remove l i = fill_hole e l.
Proof.
  intros Hnd Hi. unfold fill_hole. rewrite decide_True by (by eapply elem_of_list_lookup_2).
  rewrite last_lookup. unfold swap_remove. replace (pred (length l)) with (length l - 1) by lia.
  destruct (l !! (length l - 1)) as [z|] eqn:Hz.
  2:{ apply lookup_ge_None in Hz. apply lookup_lt_Some in Hi. lia. }
  apply list_eq. intros j. rewrite list_lookup_fmap. destruct (decide (j < length l - 1)) as [Hj|Hj].
  - rewrite !lookup_take by done. destruct (decide (i = j)) as [<-|Hne].
    + rewrite list_lookup_insert by lia. rewrite Hi. simpl. by rewrite decide_True.
    + rewrite list_lookup_insert_ne by done. destruct (l !! j) as [x|] eqn:Hx; [|done]. simpl.
      rewrite decide_False; [done|]. intros ->. apply Hne. by eapply NoDup_lookup.
  - rewrite !lookup_ge_None_2; [done|rewrite take_length; lia|rewrite take_length, insert_length; lia].
Qed.

Lemma fill_hole_absent l e : e ∉ l → fill_hole e l = l.
Proof. intros. unfold fill_hole. by rewrite decide_False. Qed.

Lemma filter_in_ext {A} (P Q : A → Prop) `{∀ x, Decision (P x), ∀ x, Decision (Q x)} (l : list A) :
  (∀ x, x ∈ l → P x ↔ Q x) → filter P l = filter Q l.
Proof.
  induction l as [|x l IH]; intros Hx; [done|]. rewrite !filter_cons.
  rewrite IH by (intros; apply Hx; by right). pose proof (Hx x (elem_of_list_here _ _)) as Hxx.
  destruct (decide (P x)), (decide (Q x)); tauto.
Qed.

(** [maintain] appends the handles that are not there. *)
Lemma eset_insert_all_list l : ∀ s,
  eset_ok s → NoDup (filter (λ e, e ∉ es_ents s) l) → Forall (λ e, e_index e < u32_lim)%N l →
  (∀ e e', e ∈ l ++ es_ents s → e' ∈ l ++ es_ents s → e_index e = e_index e' → e = e') →
  ∃ s', eset_insert_all s l = Ok s' ∧ es_ents s' = es_ents s ++ filter (λ e, e ∉ es_ents s) l.
Proof.
  induction l as [|e l IH]; intros s Hok Hnd Hl Hu; simpl.
  { exists s. by rewrite app_nil_r. }
  apply Forall_cons in Hl as [He Hl].
  destruct (decide (e ∈ es_ents s)) as [Hin|Hnin].
  - rewrite filter_cons_False in Hnd |- * by naive_solver.
    destruct (eset_insert_present s e Hok Hin) as (s1 & -> & H2 & H3). simpl. rewrite <-H3 in *.
    destruct (IH s1 H2 Hnd Hl) as (s' & H4 & H5); [|by exists s'].
    intros e1 e2 ? ?. apply Hu; set_solver.
  - rewrite filter_cons_True in Hnd |- * by done. apply NoDup_cons in Hnd as [Hne Hnd].
    destruct (eset_insert_fresh s e Hok He) as (s1 & -> & H2 & H3).
    { intros e' He' Heq. apply Hnin. rewrite (Hu e e'); [done|set_solver|set_solver|done]. }
    assert (filter (λ e, e ∉ es_ents s1) l = filter (λ e, e ∉ es_ents s) l) as Hf.
    { apply filter_in_ext. intros x Hx. rewrite H3, elem_of_app, elem_of_list_singleton. split; [tauto|].
      intros Hn [?| ->]; [done|]. apply Hne. by apply elem_of_list_filter. }
    simpl. destruct (IH s1 H2) as (s' & H4 & H5); [by rewrite Hf|done| |].
    { rewrite H3. intros e1 e2 ? ?. apply Hu; set_solver. }
    exists s'. split; [done|]. rewrite H5, Hf, H3. by rewrite <-(assoc_L (++)).
Qed.

(** The storage and the listing. *)
Record linv (st : estore) (s : sstate) (l : listing) : Prop := {
  li_ents : es_ents (st_set st) = ls_ents l;
  li_nodup : NoDup (ls_queue l);
  li_queue : ∀ e, e ∈ ls_queue l ↔ e ∈ s_queued s;
  li_pending : filter (λ e, e ∈ ls_queue l) (pending (st_alloc st)) = arrivals (ls_queue l)
}.

Lemma linv_queued st s s' l : s_queued s = s_queued s' → linv st s l → linv st s' l.
Proof. intros H []. split; try done. by rewrite <-H. Qed.

Lemma arrivals_nodup q : NoDup q → NoDup (arrivals q).
Proof.
  intros H. unfold arrivals. apply NoDup_app. split_and!.
  - rewrite reverse_Permutation. by apply NoDup_filter.
  - intros e He Hf. rewrite elem_of_reverse, elem_of_list_filter in He. apply elem_of_list_filter in Hf. tauto.
  - by apply NoDup_filter.
Qed.

Lemma pending_issued st s e : einv st s → e ∈ pending (st_alloc st) → e ∈ s_issued s.
Proof.
  intros [_ _ HA] He. apply (ai_issued _ _ _ _ _ _ HA). apply (ai_pending _ _ _ _ _ _ HA) in He. tauto.
Qed.

Lemma filter_none {A} (P : A → Prop) `{∀ x, Decision (P x)} (l : list A) : (∀ x, x ∈ l → ¬ P x) → filter P l = [].
Proof.
  induction l as [|x l IH]; intros Hx; [done|]. rewrite filter_cons_False by (apply Hx; left).
  apply IH. intros; apply Hx; by right.
Qed.

Lemma filter_single {A} (P : A → Prop) `{∀ x, Decision (P x)} x : filter P [x] = if decide (P x) then [x] else [].
Proof. by rewrite filter_cons. Qed.

Lemma estore_create_linv st s l e st' r :
  einv st s → linv st s l → estore_create st = Ok (e, st') →
  linv st' (add_entity s e r) (Listing (ls_ents l ++ [e]) (ls_queue l)).
Proof.
  intros HE HL Hc. destruct (estore_create_ok _ _ HE) as [(e' & st1 & He & Hnew & Hes & _)|[He _]]; [|congruence].
  assert (e' = e ∧ st1 = st') as [-> ->] by (split; congruence). clear He.
  destruct Hnew as (_ & Hni & _). destruct HL. split; simpl; [by rewrite Hes, li_ents0|done|done|].
  unfold estore_create in Hc. destruct (allocate (st_alloc st)) as [[[e'|] a']| |] eqn:Ha; simpl in Hc; try done.
  destruct (eset_insert (st_set st) e') as [es| |]; simpl in Hc; simplify_eq; simpl.
  assert (e ∉ ls_queue l) as Hnq.
  { rewrite li_queue0. intros Hq. apply Hni. apply (ai_issued _ _ _ _ _ _ (ei_alloc _ _ HE)). auto. }
  destruct (allocate_pending _ _ _ _ _ _ _ _ (ei_alloc _ _ HE) Ha) as [[-> _]|[-> _]].
  - by rewrite filter_cons_False.
  - by rewrite filter_app, filter_single, decide_False, app_nil_r.
Qed.

Lemma create_n_linv n : ∀ s st l es st', einv st s → linv st s l → create_n st n = Ok (es, st') →
  linv st' s (Listing (ls_ents l ++ es) (ls_queue l)).
Proof.
  induction n as [|n IH]; intros s st l es st' HE HL Hc; simpl in Hc.
  - simplify_eq. rewrite app_nil_r. by destruct l.
  - destruct (estore_create st) as [[e st1]| |] eqn:E; [|simplify_eq; rewrite app_nil_r; by destruct l|done].
    destruct (create_n st1 n) as [[es1 st2]| |] eqn:Ec; simplify_eq.
    pose proof (estore_create_linv _ _ _ _ _ ∅ HE HL E) as HL1.
    destruct (estore_create_ok _ _ HE) as [(e' & st1' & He & _ & _ & HE')|[He _]]; [|congruence].
    assert (e' = e ∧ st1' = st1) as [-> ->] by (split; congruence). clear He.
    pose proof (IH _ _ _ _ _ (HE' ∅) HL1 Ec) as HL2. simpl in HL2. rewrite <-(assoc_L (++)) in HL2.
    by eapply linv_queued; [|exact HL2].
Qed.

Lemma estore_atomic_linv st s l e st' :
  einv st s → linv st s l → estore_create_atomic st = Ok (e, st') →
  linv st' (add_queued s e) (Listing (ls_ents l) (ls_queue l ++ [e])).
Proof.
  intros HE HL Hc. pose proof (ei_alloc _ _ HE) as HA.
  destruct (estore_create_atomic_ok _ _ HE) as [(e' & st1 & He & Hnew & _)|[He _]]; [|congruence].
  assert (e' = e ∧ st1 = st') as [-> ->] by (split; congruence). clear He.
  destruct Hnew as (_ & Hni & _).
  unfold estore_create_atomic in Hc. rewrite (allocate_atomic_eq _ _ _ _ _ _ HA) in Hc.
  destruct (allocate (st_alloc st)) as [[[e'|] a']| |] eqn:Ha; simpl in Hc; simplify_eq.
  destruct HL.
  assert (e ∉ ls_queue l) as Hnq.
  { rewrite li_queue0. intros Hq. apply Hni. apply (ai_issued _ _ _ _ _ _ HA). auto. }
  assert (filter (λ x, x ∈ ls_queue l ++ [e]) (pending (st_alloc st)) = arrivals (ls_queue l)) as Hf.
  { rewrite <-li_pending0. apply filter_in_ext. intros x Hx. rewrite elem_of_app, elem_of_list_singleton.
    split; [|tauto]. intros [?| ->]; [done|]. by apply (pending_issued _ _ _ HE) in Hx. }
  split; simpl; [done| | |].
  - apply NoDup_app. split_and!; [done|set_solver|apply NoDup_singleton].
  - intros x. rewrite elem_of_app, elem_of_list_singleton, elem_of_union, elem_of_singleton, li_queue0. tauto.
  - unfold arrivals in *. rewrite !filter_app, !filter_single.
    destruct (allocate_pending _ _ _ _ _ _ _ _ HA Ha) as [[-> Hv]|[-> Hv]].
    + rewrite filter_cons_True by set_solver. rewrite (decide_True _ _ Hv), decide_False by done.
      rewrite reverse_app, app_nil_r, Hf. done.
    + rewrite filter_app, filter_single, (decide_True (P := e ∈ _)) by set_solver.
      rewrite decide_False by naive_solver. rewrite decide_True by done.
      rewrite Hf, app_nil_r. by rewrite <-(assoc_L (++)).
Qed.

Lemma estore_maintain_linv st s l st' s' :
  einv st s → tidy s → linv st s l → estore_maintain st = Ok st' → s_queued s' = ∅ →
  linv st' s' (Listing (ls_ents l ++ arrivals (ls_queue l)) []).
Proof.
  intros HE Ht HL Hm Hq. pose proof (ei_alloc _ _ HE) as HA. destruct HL.
  unfold estore_maintain in Hm. destruct (alloc_clear_inv _ _ _ _ _ _ HA) as (a' & Hal & Ha'). rewrite Hal in Hm. simpl in Hm.
  assert (Hpend : ∀ e, e ∈ pending (st_alloc st) → e ∈ es_ents (st_set st) ∨ e ∈ s_queued s).
  { intros e [He|He]%(ai_pending _ _ _ _ _ _ HA); [|by right]. left. by apply (ei_dom _ _ HE), Ht. }
  assert (filter (λ e, e ∉ es_ents (st_set st)) (pending (st_alloc st)) = arrivals (ls_queue l)) as Hf.
  { rewrite <-li_pending0. apply filter_in_ext. intros e He. rewrite li_queue0. split.
    - intros Hn. apply Hpend in He. tauto.
    - intros He1 He2. by apply (ai_LQ _ _ _ _ _ _ HA e). }
  destruct (eset_insert_all_list (pending (st_alloc st)) (st_set st) (ei_set _ _ HE)) as (es' & Hi & He').
  { rewrite Hf. by apply arrivals_nodup. }
  { apply Forall_forall. intros e He. apply (ai_valid _ _ _ _ _ _ HA). left.
    apply (ai_issued _ _ _ _ _ _ HA). apply Hpend in He. tauto. }
  { intros e1 e2 H1 H2. rewrite elem_of_app in H1, H2. apply (ai_unique _ _ _ _ _ _ HA).
    - destruct H1 as [H1%Hpend|]; tauto.
    - destruct H2 as [H2%Hpend|]; tauto. }
  rewrite Hi in Hm. simpl in Hm. simplify_eq. split; simpl.
  - by rewrite He', Hf, li_ents0.
  - constructor.
  - rewrite Hq. intros e. rewrite elem_of_nil. set_solver.
  - apply filter_none. intros e _ He. by apply elem_of_nil in He.
Qed.

Lemma step_linv w s l o out dr w' :
  einv (w_ents w) s → linv (w_ents w) s l → step w o = (out, dr, w') → tidy_side s o out →
  linv (w_ents w') (client_step s o out) (list_step l o out).
Proof.
  intros HE HL Hstep Hside. pose proof (step_ents _ _ _ _ _ _ HE Hstep Hside) as [_ Hal].
  destruct Hside as [Htidy Hub]. pose proof (step_ent_effect _ _ _ _ _ _ HE Hstep Hub) as Heff.
  assert (∀ s b es, s_queued (loosen s b es) = s_queued s) as Hlo by (by intros ? [] ?).
  destruct o as [cs|ts rows p|e| | |e cs|e ts|e ts| | |t|ly perm|t e v|G J X f]; cbn [ent_effect list_step client_step] in *.
  - destruct (estore_create (w_ents w)) as [[e st1]| |] eqn:E; [| |done]; injection Heff as Hr Hw; symmetry in Hr, Hw.
    + rewrite Hr, Hw. eapply linv_queued; [symmetry; apply Hlo|]. by apply (estore_create_linv _ _ _ _ _ _ HE HL).
    + rewrite Hr, Hw, app_nil_r. eapply linv_queued; [symmetry; apply Hlo|]. by destruct l.
  - eapply linv_queued; [symmetry; apply Hlo|]. destruct (forallb _ ts).
    + pose proof (create_n_linv _ _ _ _ _ _ HE HL Heff) as H. eapply linv_queued; [|exact H].
      symmetry. apply add_rows_sets.
    + injection Heff as Hr Hw; symmetry in Hr, Hw. rewrite Hr, Hw, app_nil_r. simpl. by destruct l.
  - pose proof (step_destroy_out _ _ _ _ _ _ HE Hstep Hub) as ->.
    apply (linv_queued _ s); [by destruct (decide (s_alive s e))|].
    destruct (decide (s_alive s e)) as [Ha|Hd].
    + pose proof Ha as Hin. apply (ei_dom _ _ HE), elem_of_list_lookup in Hin as [i Hi].
      unfold estore_remove in Heff.
      destruct (eset_remove_present _ i e (ei_set _ _ HE) Hi) as (es' & Hr & _ & Hes). rewrite Hr in Heff. simpl in Heff.
      injection Heff as Hw. rewrite <-Hw. destruct HL. split; simpl; try done.
      * rewrite Hes, <-li_ents0. apply fill_hole_swap_remove; [by eapply einv_nodup|done].
      * rewrite recycle_pending; [done|]. apply (ai_rsm _ _ _ _ _ _ (ei_alloc _ _ HE)).
    + rewrite (estore_remove_dead _ _ e HE Hd) in Heff. injection Heff as Hw. rewrite <-Hw.
      destruct HL. split; simpl; try done. rewrite fill_hole_absent; [done|]. rewrite <-li_ents0. by rewrite (ei_dom _ _ HE).
  - destruct (estore_create_atomic (w_ents w)) as [[e st1]| |] eqn:E; [| |done]; injection Heff as Hr Hw; symmetry in Hr, Hw.
    + rewrite Hr, Hw. by apply (estore_atomic_linv _ _ _ _ _ HE HL).
    + rewrite Hr, Hw, app_nil_r. by destruct l.
  - destruct (estore_maintain_ok _ _ HE (Htidy eq_refl)) as (st' & Hm & _). rewrite Hm in Heff.
    injection Heff as _ Hw. rewrite <-Hw. by apply (estore_maintain_linv _ s _ _ _ HE (Htidy eq_refl) HL).
  - injection Heff as _ Hw. rewrite <-Hw. eapply linv_queued; [|exact HL]. destruct (decide _); [|done]. by rewrite Hlo.
  - injection Heff as _ Hw. rewrite <-Hw. eapply linv_queued; [|exact HL]. by destruct (decide _).
  - injection Heff as _ Hw. rewrite <-Hw. eapply linv_queued; [|exact HL]. by destruct (decide _).
  - unfold estore_clear in Heff. destruct (alloc_clear_inv _ _ _ _ _ _ (ei_alloc _ _ HE)) as (a' & Hm & _).
    rewrite Hm in Heff. simpl in Heff. injection Heff as _ Hw. rewrite <-Hw.
    split; simpl; [done|constructor| |by apply filter_none; intros ? _ ?%elem_of_nil].
    intros e. rewrite elem_of_nil. set_solver.
  - injection Heff as _ Hw. rewrite <-Hw.
    split; simpl; [done|constructor| |by apply filter_none; intros ? _ ?%elem_of_nil].
    intros e. rewrite elem_of_nil. set_solver.
  - injection Heff as _ Hw. rewrite <-Hw. by eapply linv_queued; [|exact HL].
  - injection Heff as _ Hw. rewrite <-Hw. by eapply linv_queued; [|exact HL].
  - injection Heff as _ Hw. rewrite <-Hw. by eapply linv_queued; [|exact HL].
  - injection Heff as _ Hw. rewrite <-Hw. eapply linv_queued; [|exact HL]. by destruct out as [[]| |].
Qed.

Lemma tidy_listing evs w s : tidy_history evs w s →
  world_entities w = ls_ents (listed evs) ∧ (∀ e, e ∈ ls_queue (listed evs) ↔ e ∈ s_queued s).
Proof.
  intros (w0 & s0 & Hb & Hh).
  assert (linv (w_ents w) s (listed evs)) as [H1 _ H2 _]; [|done].
  pose proof (built_einv _ _ Hb) as HE0.
  induction Hh as [|evs w1 s1 o out dr w2 Hh IH Hop Hstep Hside].
  - destruct Hb as (gs & l & ts & _ & Hb & ->). unfold builder_build, world_new in Hb.
    destruct (set_layout cstore_new l [] []); simplify_eq. split; simpl; [done|constructor| |done].
    intros e. rewrite elem_of_nil. set_solver.
  - unfold listed. rewrite foldl_app. simpl. eapply step_linv; [|exact IH|exact Hstep|exact Hside].
    by eapply history_einv.
Qed.

(** ** The handles given out *)

Record pinv (st : estore) (p : pool) : Prop := {
  pi_wait : p_wait p = reverse (avail (st_alloc st));
  pi_next : p_next p = a_next (st_alloc st)
}.

Lemma allocate_pool a L C Q I F p :
  alloc_inv a L C Q I F → p_wait p = reverse (avail a) → p_next p = a_next a →
  match allocate a with
  | Ok (Some e, a') => ∃ p', give_one p = Some (e, p') ∧ p_wait p' = reverse (avail a') ∧ p_next p' = a_next a'
  | Ok (None, a') => give_one p = None
  | _ => False
  end.
Proof.
  intros HI Hw Hn. unfold allocate. destruct (Nat.ltb_spec (a_rsm a) (length (a_recycled a))) as [Hlt|Hge].
  - destruct (lookup_lt_is_Some_2 (a_recycled a) (length (a_recycled a) - a_rsm a - 1)) as [e He]; [lia|]. rewrite He.
    set (n := length (a_recycled a) - a_rsm a - 1) in *.
    assert (Hk : length (a_recycled a) - a_rsm a = S n) by lia.
    assert (Hav : avail a = take n (a_recycled a) ++ [e]).
    { unfold avail. rewrite Hk. by apply take_S_r. }
    rewrite Hav, reverse_app in Hw. simpl in Hw. unfold give_one. rewrite Hw. eexists. split; [done|]. simpl.
    unfold avail; simpl. by replace (length (a_recycled a) - S (a_rsm a)) with n by lia.
  - assert (avail a = []) as Hav. { unfold avail. by replace (length (a_recycled a) - a_rsm a) with 0 by lia. }
    unfold give_one. rewrite Hw, Hav. simpl. rewrite Hn.
    destruct (N.ltb_spec (a_next a) u32_lim) as [Hl|Hl].
    + rewrite decide_True by done. eexists. split; [done|]. simpl. split; [|done].
      unfold avail; simpl. by replace (length (a_recycled a) - a_rsm a) with 0 by lia.
    + by rewrite decide_False by lia.
Qed.

Lemma estore_create_pool st s p : einv st s → pinv st p →
  match estore_create st with
  | Ok (e, st') => ∃ p', give_one p = Some (e, p') ∧ pinv st' p'
  | Panic => give_one p = None
  | UB => False
  end.
Proof.
  intros HE [Hw Hn]. pose proof (allocate_pool _ _ _ _ _ _ _ (ei_alloc _ _ HE) Hw Hn) as H.
  destruct (estore_create_ok _ _ HE) as [(e' & st1 & He & _)|[He _]].
  - rewrite He. unfold estore_create in He. destruct (allocate (st_alloc st)) as [[[e|] a']| |]; simpl in He; try done.
    destruct (eset_insert (st_set st) e) as [es| |]; simpl in He; simplify_eq.
    destruct H as (p' & H1 & H2 & H3). exists p'. done.
  - rewrite He. unfold estore_create in He. destruct (allocate (st_alloc st)) as [[[e|] a']| |]; simpl in He; try done.
    assert (eset_insert (st_set st) e ≠ Panic) as Hi.
    { unfold eset_insert. destruct (_ !! _) as [[?|]|]; [|done|done]. by destruct (_ <? _). }
    by destruct (eset_insert (st_set st) e).
Qed.

Lemma create_n_pool n : ∀ s st p es st', einv st s → pinv st p → create_n st n = Ok (es, st') →
  ∃ p', give n p = (es, p') ∧ give (length es) p = (es, p') ∧ pinv st' p'.
Proof.
  induction n as [|n IH]; intros s st p es st' HE HP Hc; simpl in Hc.
  - simplify_eq. by exists p.
  - pose proof (estore_create_pool _ _ _ HE HP) as H.
    destruct (estore_create_ok _ _ HE) as [(e & st1 & He & _ & _ & HE')|[He _]]; rewrite He in Hc, H.
    + destruct H as (p1 & Hg & HP1). destruct (create_n st1 n) as [[es1 st2]| |] eqn:Ec; simplify_eq.
      destruct (IH _ _ _ _ _ (HE' ∅) HP1 Ec) as (p' & H1 & H2 & H3). exists p'. simpl. by rewrite Hg, H1, H2.
    + simplify_eq. simpl. rewrite H. by exists p.
Qed.

Lemma step_pinv w s p o out dr w' :
  einv (w_ents w) s → pinv (w_ents w) p → step w o = (out, dr, w') → tidy_side s o out →
  reported out = (give (asked w o) p).1 ∧ pinv (w_ents w') (pool_step p o out).
Proof.
  intros HE HP Hstep Hside. pose proof (step_ents _ _ _ _ _ _ HE Hstep Hside) as [_ Hal].
  destruct Hside as [Htidy Hub]. pose proof (step_ent_effect _ _ _ _ _ _ HE Hstep Hub) as Heff.
  pose proof (ei_alloc _ _ HE) as HA.
  assert (∀ st', reported out = [] → pinv st' p → pinv st' (give (length (reported out)) p).2) as Hsame.
  { by intros st' -> H. }
  destruct o as [cs|ts rows q|e| | |e cs|e ts|e ts| | |t|ly perm|t e v|G J X f]; cbn [ent_effect asked pool_step] in *.
  - pose proof (estore_create_pool _ _ _ HE HP) as H.
    destruct (estore_create (w_ents w)) as [[e st1]| |]; [| |done]; injection Heff as Hr Hw; symmetry in Hr, Hw; rewrite Hr, Hw.
    + destruct H as (p' & H1 & H2). cbn [give length]. by rewrite H1.
    + cbn [give length]. by rewrite H.
  - destruct (forallb _ ts).
    + destruct (create_n_pool _ _ _ _ _ _ HE HP Heff) as (p' & H1 & H2 & H3). by rewrite H1, H2.
    + injection Heff as Hr Hw; symmetry in Hr, Hw. by rewrite Hr, Hw.
  - pose proof (step_destroy_out _ _ _ _ _ _ HE Hstep Hub) as ->. split; [done|].
    destruct (decide (s_alive s e)) as [Ha|Hd].
    + rewrite bool_decide_true by done.
      pose proof Ha as Hin. apply (ei_dom _ _ HE), elem_of_list_lookup in Hin as [i Hi].
      unfold estore_remove in Heff.
      destruct (eset_remove_present _ i e (ei_set _ _ HE) Hi) as (es' & Hr & _ & Hes). rewrite Hr in Heff. simpl in Heff.
      injection Heff as Hw. rewrite <-Hw. destruct HP as [Hwt Hn].
      pose proof (ai_rsm _ _ _ _ _ _ HA) as Hrsm.
      unfold recycle, version_next. destruct (einv_valid _ _ _ HE Ha) as [[_ [_ Hv]] _].
      destruct (N.ltb_spec (e_version e + 1) u32_lim) as [Hl|Hl].
      2:{ rewrite decide_False by (unfold version_last; lia). done. }
      * rewrite decide_True by (unfold version_last; lia). split; simpl; [|done].
        rewrite Hwt. unfold avail; simpl.
        replace (S (length (a_recycled (st_alloc (w_ents w)))) - a_rsm (st_alloc (w_ents w)))
          with (S (length (a_recycled (st_alloc (w_ents w))) - a_rsm (st_alloc (w_ents w)))) by lia.
        by rewrite firstn_cons, reverse_cons.
    + rewrite bool_decide_false by done. rewrite (estore_remove_dead _ _ e HE Hd) in Heff.
      injection Heff as Hw. by rewrite <-Hw.
  - destruct HP as [Hwt Hn]. pose proof (allocate_pool _ _ _ _ _ _ _ HA Hwt Hn) as H.
    unfold estore_create_atomic in Heff. rewrite (allocate_atomic_eq _ _ _ _ _ _ HA) in Heff.
    destruct (allocate (st_alloc (w_ents w))) as [[[e|] a']| |]; simpl in Heff; try done;
      injection Heff as Hr Hw; symmetry in Hr, Hw; rewrite Hr, Hw.
    + destruct H as (p' & H1 & H2 & H3). cbn [give length]. rewrite H1. split; [done|by split].
    + cbn [give length]. rewrite H. split; [done|by split].
  - destruct (estore_maintain_ok _ _ HE (Htidy eq_refl)) as (st' & Hm & _). rewrite Hm in Heff.
    injection Heff as Hr Hw. rewrite <-Hr, <-Hw. split; [done|]. unfold estore_maintain, alloc_maintain in Hm.
    rewrite (proj2 (Nat.leb_le _ _) (ai_rsm _ _ _ _ _ _ HA)) in Hm. simpl in Hm.
    destruct (eset_insert_all _ _) as [es| |]; simpl in Hm; try done. injection Hm as <-. destruct HP as [Hwt Hn].
    split; simpl; [|exact Hn]. rewrite Hwt. unfold avail; simpl. rewrite take_take, take_length. do 2 f_equal. lia.
  - injection Heff as Hr Hw. rewrite <-Hr, <-Hw. done.
  - injection Heff as Hr Hw. rewrite <-Hr, <-Hw. done.
  - injection Heff as Hr Hw. rewrite <-Hr, <-Hw. done.
  - unfold estore_clear, alloc_maintain in Heff.
    rewrite (proj2 (Nat.leb_le _ _) (ai_rsm _ _ _ _ _ _ HA)) in Heff. simpl in Heff.
    injection Heff as Hr Hw. rewrite <-Hr, <-Hw. split; [done|]. destruct HP as [Hwt Hn].
    split; simpl; [|done]. rewrite Hwt. unfold avail; simpl. rewrite take_take, take_length. do 2 f_equal. lia.
  - injection Heff as Hr Hw. rewrite <-Hr, <-Hw. by split.
  - injection Heff as Hr Hw. rewrite <-Hr, <-Hw. done.
  - injection Heff as Hr Hw. rewrite <-Hr, <-Hw. done.
  - injection Heff as Hr Hw. rewrite <-Hr, <-Hw. done.
  - injection Heff as Hr Hw. rewrite <-Hr, <-Hw. done.
Qed.

Lemma tidy_pool evs w s : tidy_history evs w s → pinv (w_ents w) (pooled evs).
Proof.
  intros (w0 & s0 & Hb & Hh). pose proof (built_einv _ _ Hb) as HE0.
  induction Hh as [|evs w1 s1 o out dr w2 Hh IH Hop Hstep Hside].
  - destruct Hb as (gs & l & ts & _ & Hb & ->). unfold builder_build, world_new in Hb.
    destruct (set_layout cstore_new l [] []); simplify_eq. by split.
  - unfold pooled. rewrite foldl_app. simpl. eapply step_pinv; [|exact IH|exact Hstep|exact Hside].
    by eapply history_einv.
Qed.

Lemma tidy_given evs w s o out dr w' :
  tidy_history evs w s → step w o = (out, dr, w') → tidy_side s o out →
  reported out = (give (asked w o) (pooled evs)).1.
Proof.
  intros Hh Hstep Hside. eapply step_pinv; [by eapply tidy_einv|by eapply tidy_pool|done|done].
Qed.
