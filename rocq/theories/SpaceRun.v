(** The memory of the storages over the life of a world. *)
From stdpp Require Import sorting.
From Verif Require Import Base SparseVecM EntityM CssM MaskM LayoutM GroupM StorageM WorldM QueryM StepM Spec SpecMore SpecSpace
  EntityProofs LayoutProofs LayoutOps WorldProofs EntityRun EntityHistory HandleFacts Demo SpaceFacts.

(** ** New worlds *)

(** [K] bounds the indexes. *)
Definition wide (K : nat) (c c' : css) : Prop := length (c_sparse c') ≤ length (c_sparse c) `max` (2 * K).

Lemma wide_refl K c : wide K c c.
Proof. unfold wide. lia. Qed.
Lemma wide_trans K a b c : wide K a b → wide K b c → wide K a c.
Proof. unfold wide. lia. Qed.
Lemma wide_swap K c a b c' : css_swap c a b = Ok c' → wide K c c'.
Proof. intros (_ & _ & H)%swap_sizes. unfold wide. lia. Qed.

Definition both (c c' : css) : Prop := same_cap c c' ∧ wide 0 c c'.
Lemma both_refl c : both c c.
Proof. split; [apply same_cap_refl|apply wide_refl]. Qed.
Lemma both_trans a b c : both a b → both b c → both a c.
Proof. intros [] []. split; [by eapply same_cap_trans|by eapply wide_trans]. Qed.
Lemma both_swap c a b c' : css_swap c a b = Ok c' → both c c'.
Proof. intros H. split; [by eapply swap_same_cap|by eapply wide_swap]. Qed.

Definition fresh (s : cstore) : Prop :=
  ∀ t m, cs_meta s !! t = Some m → ∃ c, cs_comps s !! m_index m = Some c ∧ c_cap c = 0 ∧ c_len c = 0 ∧ c_sparse c = [].

Lemma fresh_register s t : fresh s → fresh (register_dyn s t).2.
Proof.
  intros Hf. unfold register_dyn. destruct (cs_meta s !! t) as [m0|]; [done|]. simpl. intros t' m' H. simpl in *.
  destruct (decide (t = t')) as [<-|].
  - rewrite lookup_insert in H. injection H as <-. eexists. split; [by apply list_lookup_middle|done].
  - rewrite lookup_insert_ne in H by done. destruct (Hf _ _ H) as (c & Hc & ?). exists c. split; [by apply lookup_app_l_Some|done].
Qed.
Lemma fresh_register_all ts : ∀ s, fresh s → fresh (register_all s ts).
Proof. induction ts as [|t ts IH]; intros s Hs; simpl; [done|]. by apply IH, fresh_register. Qed.

Lemma built_fresh w s : built w s → fresh (w_comps w).
Proof.
  intros (gs & l & ts & _ & Hb & _). unfold builder_build, world_new in Hb.
  pose proof (set_layout_from both cstore_new l [] [] both_refl both_trans both_swap) as Hf.
  destruct (set_layout cstore_new l [] []) as [s0| |]; [|done..]. injection Hb as <-. simpl. apply fresh_register_all.
  destruct Hf as [->|(s1 & Hf & Hm & Hk)]; [by intros ? ?|]. intros t m H. rewrite Hm in H.
  destruct (Hf t m H) as (c & Hc & [->|(m0 & ? & _)]); [|done].
  destruct (Forall2_lookup_l _ _ _ _ _ Hk Hc) as (c' & Hc' & [H1 H2] & H3). exists c'. unfold wide in H3. simpl in *.
  split_and!; [done|done|lia|]. apply nil_length_inv. lia.
Qed.

Lemma fresh_storage w t c : fresh (w_comps w) → storage w t = Some c → c_cap c = 0 ∧ c_len c = 0 ∧ c_sparse c = [].
Proof. intros Hf (m & H1 & H2)%storage_some. destruct (Hf _ _ H1) as (c' & Hc' & ?). by simplify_eq. Qed.

(** ** The allocation *)

Lemma wok_step w o out dr w' : op_ok o → wok w → step w o = (out, dr, w') → wok w'.
Proof. intros Hop Hw H t c Hc. by apply (step_storage w o out dr w' t Hop Hw H). Qed.
Lemma built_wok w s : built w s → wok w.
Proof. intros Hb t c Hc. apply built_fresh in Hb. destruct (fresh_storage _ _ _ Hb Hc) as (H1 & H2 & _). split; [by left|lia]. Qed.
Lemma life_wok side ws : life side ws → ∀ w, head ws = Some w → wok w.
Proof.
  induction 1 as [w s Hb|w ws o out dr w' _ IH Hop Hst _ _]; intros w1 [= <-]; [by eapply built_wok|].
  eapply wok_step; [done| |done]. by apply IH.
Qed.

Lemma fit_max a b : fit (a `max` b) = fit a `max` fit b.
Proof. destruct (Nat.max_spec a b) as [[H ->]|[H ->]]; pose proof (fit_mono a b); pose proof (fit_mono b a); lia. Qed.

(** *** One call *)

Lemma reserved_step side ws w o out dr w' t : life side (w :: ws) → op_ok o → step w o = (out, dr, w') →
  fit (count w' t) ≤ reserved w' t ∧ reserved w' t ≤ reserved w t `max` fit (count w' t) ∧
  (ub_free out → ¬ failed_layout o out → reserved w' t = reserved w t `max` fit (count w' t)).
Proof.
  intros Hl Hop H. apply life_wok with (w := w) in Hl; [|done].
  destruct (step_storage w o out dr w' t Hop Hl H) as [H1 H2]. rewrite count_storage.
  assert (fit (from_option c_len 0 (storage w' t)) ≤ reserved w' t ∧
    reserved w' t ≤ reserved w t `max` fit (from_option c_len 0 (storage w' t))) as [H3 H4].
  { unfold reserved at 1 2. destruct (storage w' t) as [c'|]; simpl; [|change (fit 0) with 0; lia]. destruct (H1 c' eq_refl) as [Hok Hle].
    split; [by apply cok_fit|done]. }
  split_and!; [done..|]. intros Hub Hnf. specialize (H2 Hnf Hub). lia.
Qed.

(** *** The whole life *)

Lemma peak_cons w ws t : peak (w :: ws) t = count w t `max` peak ws t.
Proof. done. Qed.

Lemma life_reserved side ws : life side ws → ∀ w t, head ws = Some w → reserved w t ≤ fit (peak ws t).
Proof.
  induction 1 as [w s Hb|w ws o out dr w' Hl IH Hop Hst Hub Hs]; intros w1 t [= <-].
  - unfold reserved. destruct (storage w t) as [c|] eqn:E; [|simpl; lia].
    destruct (fresh_storage _ _ _ (built_fresh _ _ Hb) E) as (H & _). simpl. lia.
  - destruct (reserved_step _ _ _ _ _ _ _ t Hl Hop Hst) as (_ & H & _). rewrite peak_cons, fit_max.
    specialize (IH w t eq_refl). lia.
Qed.

Lemma life_reserved_eq ws : life no_failed_layout ws → ∀ w t, head ws = Some w → reserved w t = fit (peak ws t).
Proof.
  induction 1 as [w s Hb|w ws o out dr w' Hl IH Hop Hst Hub Hs]; intros w1 t [= <-].
  - rewrite peak_cons. replace (count w t) with 0.
    2: { rewrite count_storage. destruct (storage w t) as [c|] eqn:E; [|done].
         destruct (fresh_storage _ _ _ (built_fresh _ _ Hb) E) as (_ & H & _). simpl. lia. }
    unfold reserved. destruct (storage w t) as [c|] eqn:E; [|done].
    destruct (fresh_storage _ _ _ (built_fresh _ _ Hb) E) as (H & _). done.
  - destruct (reserved_step _ _ _ _ _ _ _ t Hl Hop Hst) as (_ & _ & H). rewrite peak_cons, fit_max.
    rewrite <-(IH w t eq_refl). rewrite H by done. lia.
Qed.

Lemma fit_lt_double n m : fit n < fit m → 0 < fit n → 2 * fit n ≤ fit m.
Proof.
  intros H H0. destruct (fit_shape n) as [E|[k E]]; [lia|]. destruct (fit_shape m) as [E'|[k' E']]; [lia|].
  rewrite E, E' in *. assert (k < k') as Hk. { apply (Nat.pow_lt_mono_r_iff 2); lia. }
  pose proof (Nat.pow_le_mono_r 2 (S k) k'). rewrite Nat.pow_succ_r' in *. lia.
Qed.

Lemma moves_cons w' w ws t : moves (w' :: w :: ws) t = (if reserved w t =? reserved w' t then 0 else 1) + moves (w :: ws) t.
Proof. done. Qed.

(** [2 ^ (moves + 1)] is at most the allocation once there is one. *)
Lemma life_moves_cap ws : life no_failed_layout ws → ∀ w t, head ws = Some w →
  (reserved w t = 0 → moves ws t = 0) ∧ (0 < reserved w t → 2 * 2 ^ moves ws t ≤ reserved w t).
Proof.
  intros Hl. induction Hl as [w s Hb|w ws o out dr w' Hl IH Hop Hst Hub Hs]; intros w1 t [= <-].
  - assert (reserved w t = 0) as H0.
    { unfold reserved. destruct (storage w t) as [c|] eqn:E; [|done]. by destruct (fresh_storage _ _ _ (built_fresh _ _ Hb) E). }
    split; [done|lia].
  - destruct (IH w t eq_refl) as [IH1 IH2]. destruct (reserved_step _ _ _ _ _ _ _ t Hl Hop Hst) as (_ & _ & H).
    specialize (H Hub Hs). pose proof (life_reserved_eq _ Hl w t eq_refl) as Hw.
    assert (reserved w' t = fit (peak (w' :: w :: ws) t)) as Hw'. { rewrite peak_cons, fit_max, <-Hw. lia. }
    rewrite moves_cons. destruct (Nat.eqb_spec (reserved w t) (reserved w' t)) as [E|E]; cbn [Nat.add].
    + rewrite <-E. done.
    + assert (reserved w t < reserved w' t) as Hlt by lia. split; [lia|]. intros _. rewrite Nat.pow_succ_r'.
      destruct (decide (reserved w t = 0)) as [E0|E0].
      * rewrite IH1 by done. simpl. rewrite Hw' in Hlt |- *. destruct (fit_shape (peak (w' :: w :: ws) t)) as [E1|[k E1]]; rewrite E1 in *; [lia|].
        pose proof (Nat.pow_nonzero 2 k). lia.
      * specialize (IH2 ltac:(lia)). rewrite Hw, Hw' in Hlt. pose proof (fit_lt_double _ _ Hlt). rewrite Hw in IH2, E0. lia.
Qed.

Lemma life_moves ws t : life no_failed_layout ws → 2 ^ moves ws t ≤ 2 `max` peak ws t.
Proof.
  intros Hl. destruct ws as [|w ws]; [inversion Hl|]. destruct (life_moves_cap _ Hl w t eq_refl) as [H1 H2].
  pose proof (life_reserved_eq _ Hl w t eq_refl) as Hw. destruct (decide (reserved w t = 0)) as [E|E].
  - rewrite H1 by done. simpl. lia.
  - specialize (H2 ltac:(lia)). rewrite Hw in H2. revert H2. generalize (peak (w :: ws) t). intros p H2.
    unfold fit in H2. destruct (Nat.eqb_spec p 0); [lia|].
    destruct (decide (p ≤ 1)); [assert (p = 1) as -> by lia; change (2 ^ Nat.log2_up 1) with 1 in H2; lia|].
    pose proof (Nat.log2_up_spec p ltac:(lia)) as [Hs _].
    assert (Nat.log2_up p = S (Nat.pred (Nat.log2_up p))) as Hp. { pose proof (Nat.log2_up_pos p). lia. }
    rewrite Hp in H2. rewrite Nat.pow_succ_r' in H2. lia.
Qed.

(** ** The table from indexes to positions *)

Lemma wide_set K c i v c' : css_set c i v = Ok c' → wide K c c'.
Proof. intros (_ & _ & H)%set_sizes. unfold wide. rewrite H. lia. Qed.
Lemma wide_remove K c e r : css_remove c e = Ok r → wide K c r.1.
Proof. intros (_ & H)%remove_sizes. unfold wide. lia. Qed.
Lemma wide_delete K c e r : css_delete c e = Ok r → wide K c r.1.
Proof. intros (_ & H)%delete_sizes. unfold wide. lia. Qed.
Lemma wide_clear K c r : css_clear c = Ok r → wide K c r.1.
Proof. intros (_ & H)%clear_sizes. unfold wide. lia. Qed.

Lemma allocate_length sp i : length (sv_allocate_at sp i) ≤ length sp `max` (2 * S i).
Proof.
  unfold sv_allocate_at. destruct (Nat.leb_spec (length sp) i) as [H|H]; [|lia].
  unfold sv_extend_to_index. rewrite app_length, replicate_length.
  assert (i ≤ next_pow2 i ∧ next_pow2 i + 1 ≤ 2 * S i) as [H1 H2]; [|lia]. unfold next_pow2.
  destruct (decide (i ≤ 1)) as [Hi|Hi].
  { assert (i = 0 ∨ i = 1) as [-> | ->] by lia; simpl; lia. }
  pose proof (Nat.log2_up_spec i ltac:(lia)) as [H1 H2].
  assert (Nat.log2_up i = S (Nat.pred (Nat.log2_up i))) as Hp. { pose proof (Nat.log2_up_pos i). lia. }
  rewrite Hp at 2. rewrite Nat.pow_succ_r'. lia.
Qed.
Lemma wide_insert K c e v c' o : S (e_sparse e) ≤ K → css_insert c e v = Ok (c', o) → wide K c c'.
Proof.
  intros HK. unfold css_insert. pose proof (allocate_length (c_sparse c) (e_sparse e)) as Hl.
  destruct (sv_allocate_at (c_sparse c) (e_sparse e) !! e_sparse e) as [[sl|]|]; try done.
  - destruct (buf_write (c_ents c) _ _) as [x| |]; try done. simpl. destruct (buf_read _ _) as [y| |]; try done. simpl.
    destruct (buf_write _ _ _) as [z| |]; try done. simpl. intros [= <- _]. unfold wide. simpl. lia.
  - destruct (c_len c =? c_cap c); cbn [css_grow c_ents c_comps c_len c_cap c_sparse].
    + destruct (buf_write (_ (c_ents c) ++ _) _ _) as [x| |]; try done. simpl. destruct (buf_write _ _ _) as [y| |]; try done. simpl.
      intros [= <- _]. unfold wide. simpl. rewrite insert_length. lia.
    + destruct (buf_write (c_ents c) _ _) as [x| |]; try done. simpl. destruct (buf_write _ _ _) as [y| |]; try done. simpl.
      intros [= <- _]. unfold wide. simpl. rewrite insert_length. lia.
Qed.

(** All tables have at most [2 * K] entries. *)
Definition narrow (K : nat) (w : world) : Prop := ∀ t, entries w t ≤ 2 * K.

Lemma narrow_mono K K' w : K ≤ K' → narrow K w → narrow K' w.
Proof. intros H Hn t. specialize (Hn t). lia. Qed.
Lemma narrow_keeps K w w' : narrow K w → keeps (wide K) (w_comps w) (w_comps w') → narrow K w'.
Proof.
  intros Hn Hk t. specialize (Hn t). unfold entries in *. pose proof (keeps_storage _ _ _ t Hk) as Hs.
  destruct (storage w t) as [c|]; inversion Hs as [? c' Hw|]; subst; simpl in *; [|done]. unfold wide in Hw. lia.
Qed.
Lemma narrow_same K w w' : narrow K w → w_comps w' = w_comps w → narrow K w'.
Proof. intros Hn Hs t. specialize (Hn t). unfold entries, storage in *. by rewrite Hs. Qed.
Lemma narrow_insert K w e cs r gh out dr w' : narrow K w → S (e_sparse e) ≤ K → set_insert w e cs r gh = (out, dr, w') → narrow K w'.
Proof.
  intros Hn HK H. eapply narrow_keeps; [done|].
  by apply (set_insert_all (wide K) (wide_refl K) (wide_trans K) (wide_swap K) (λ e, S (e_sparse e) ≤ K) (wide_insert K)) in H as (_ & ?).
Qed.

Lemma span_cons e es : span (e :: es) = S (e_sparse e) `max` span es.
Proof. done. Qed.
Lemma span_elem e es : e ∈ es → S (e_sparse e) ≤ span es.
Proof.
  induction es as [|x es IH]; [by intros ?%elem_of_nil|]. rewrite span_cons. intros [->|H%IH]%elem_of_cons; lia.
Qed.
Lemma span_app es1 es2 : span (es1 ++ es2) = span es1 `max` span es2.
Proof. induction es1 as [|x es1 IH]; [done|]. simpl app. rewrite !span_cons, IH. lia. Qed.

Lemma narrow_step K w s o out dr w' : einv (w_ents w) s → narrow K w → step w o = (out, dr, w') → ub_free out →
  (∀ e, s_alive s e → S (e_sparse e) ≤ K) → (∀ e, e ∈ reported out → S (e_sparse e) ≤ K) → narrow K w'.
Proof.
  intros HE Hn H Hub Ha Hr. pose proof (step_ent_effect _ _ _ _ _ _ HE H Hub) as Heff.
  destruct o as [cs|ts rows p|e| | |e cs|e ts|e ts| | |t|l perm|t e v|G J X f]; cbn [step ent_effect] in H, Heff.
  - unfold world_create in H. destruct (estore_create _) as [[e ents]| |]; [|by injection H as <- <- <-..].
    injection Heff as He _. eapply narrow_insert; [|apply Hr; rewrite <-He; by left|done]. by eapply narrow_same.
  - eapply narrow_keeps; [done|].
    apply (set_extend_all (wide K) (wide_refl K) (wide_trans K) (wide_swap K) (λ e, S (e_sparse e) ≤ K) (wide_insert K)) in H; [done|].
    intros is_ mask El. pose proof (extend_rows_ents is_ rows (w_ents w) (cs_comps (w_comps w))) as Hx.
    destruct (forallb (world_is_registered w) ts) eqn:Ef.
    + destruct (extend_rows _ _ _ _); try done; rewrite Hx in Heff; injection Heff as -> _; by apply Forall_forall.
    + exfalso. assert (lookup_metas (cs_meta (w_comps w)) m_insert ts = None) as Hnone; [|congruence].
      apply lookup_metas_registered. rewrite <-Ef. clear. induction ts as [|t ts IH]; [done|]. simpl. rewrite IH. f_equal.
      symmetry. apply is_registered_lookup.
  - unfold world_destroy in H. destruct (estore_remove _ e) as [[[] ents]| |]; try (by injection H as <- <- <-).
    destruct (strip _ e) as [[s' ds]| |] eqn:E; injection H as <- <- <-; try done. eapply narrow_keeps; [done|].
    unfold strip in E. destruct (ungroup_all _ _ e) as [r| |] eqn:E1; try done. simpl in E.
    destruct (delete_each r.1 e) as [d| |] eqn:E2; try done. injection E as <- <-. split; [done|]. simpl.
    unfold ungroup_all in E1. apply (ungroup_all_all (wide K) (wide_refl K) (wide_trans K) (wide_swap K)) in E1.
    eapply (all_trans (wide K) (wide_trans K)); [done|]. by apply (delete_each_all (wide K) (wide_delete K)) in E2.
  - unfold world_create_atomic in H. destruct (estore_create_atomic _) as [[e ents]| |]; by injection H as <- <- <-.
  - unfold world_maintain in H. destruct (estore_maintain _) as [ents| |]; by injection H as <- <- <-.
  - unfold world_insert in H. destruct (estore_contains (w_ents w) e) eqn:Ec; [|by injection H as <- <- <-].
    eapply narrow_insert; [done| |done]. apply Ha. rewrite (estore_contains_alive _ _ _ HE) in Ec. by apply bool_decide_eq_true in Ec.
  - unfold set_remove in H. destruct (lookup_metas _ _ ts) as [[is_ mask]|]; [|by injection H as <- <- <-].
    destruct (ungroup_if _ mask e) as [s1| |] eqn:E; [|by injection H as <- <- <-..].
    destruct (remove_each _ e is_) as [[comps vs]| |] eqn:E1; injection H as <- <- <-; try done. eapply narrow_keeps; [done|].
    apply (ungroup_if_all (wide K) (wide_refl K) (wide_trans K) (wide_swap K)) in E as [Hm E].
    apply (remove_each_all (wide K) (wide_refl K) (wide_trans K) (wide_remove K)) in E1.
    split; [done|]. by eapply (all_trans (wide K) (wide_trans K)).
  - unfold set_delete in H. destruct (lookup_metas _ _ ts) as [[is_ mask]|]; [|by injection H as <- <- <-].
    destruct (ungroup_if _ mask e) as [s1| |] eqn:E; [|by injection H as <- <- <-..].
    destruct (delete_list _ e is_) as [[comps vs]| |] eqn:E1; injection H as <- <- <-; try done. eapply narrow_keeps; [done|].
    apply (ungroup_if_all (wide K) (wide_refl K) (wide_trans K) (wide_swap K)) in E as [Hm E].
    apply (delete_list_all (wide K) (wide_refl K) (wide_trans K) (wide_delete K)) in E1.
    split; [done|]. by eapply (all_trans (wide K) (wide_trans K)).
  - unfold world_clear in H. destruct (estore_clear _) as [ents| |]; [|by injection H as <- <- <-..].
    unfold cstore_clear in H. destruct (clear_each _) as [r| |] eqn:E; simpl in H; injection H as <- <- <-; try done.
    eapply narrow_keeps; [done|]. split; [done|]. by apply (clear_each_all (wide K) (wide_clear K)) in E.
  - unfold world_reset, cstore_clear in H. destruct (clear_each _) as [r| |] eqn:E; simpl in H; injection H as <- <- <-; try done.
    eapply narrow_keeps; [done|]. split; [done|]. by apply (clear_each_all (wide K) (wide_clear K)) in E.
  - unfold world_register, register_dyn in H. destruct (cs_meta (w_comps w) !! t) as [m|] eqn:Ht; injection H as <- <- <-; [by eapply narrow_same|].
    intros t'. specialize (Hn t'). unfold entries in *.
    match goal with |- context [storage ?w1 t'] => destruct (storage w1 t') as [c'|] eqn:E end; [|simpl; lia].
    apply storage_some in E as (m & E1 & E2). simpl in *.
    apply lookup_app_Some in E2 as [E2|[_ E2%elem_of_list_lookup_2%elem_of_list_singleton]]; [|subst; simpl; lia].
    destruct (decide (t = t')) as [<-|].
    { rewrite lookup_insert in E1. injection E1 as <-. simpl in E2. apply lookup_lt_Some in E2. lia. }
    rewrite lookup_insert_ne in E1 by done. rewrite (proj2 (storage_some w t' c')) in Hn by (by exists m). done.
  - unfold world_set_layout in H.
    pose proof (set_layout_from (wide K) (w_comps w) l perm (estore_slice (w_ents w)) (wide_refl K) (wide_trans K) (wide_swap K)) as Hf.
    assert (∀ e s1 s', from (w_comps w) s1 → keeps (wide K) s1 s' → narrow K (World e s')) as Hfrom.
    { intros e s1 s' Hf1 [Hk1 Hk2] t. unfold entries. destruct (storage (World e s') t) as [c'|] eqn:E; [|simpl; lia].
      apply storage_some in E as (m & E1 & E2). simpl in *. rewrite Hk1 in E1.
      destruct (Hf1 _ _ E1) as (c & Hc & Hor). destruct (Forall2_lookup_l _ _ _ _ _ Hk2 Hc) as (c2 & Hc2 & Hw).
      assert (c2 = c') as -> by congruence. unfold wide in Hw. assert (length (c_sparse c) ≤ 2 * K); [|lia].
      destruct Hor as [->|Hor]; [simpl; lia|]. apply storage_some in Hor. specialize (Hn t). unfold entries in Hn. by rewrite Hor in Hn. }
    destruct (set_layout (w_comps w) l perm (estore_slice (w_ents w))) as [s'|ds s'|]; injection H as <- <- <-; [..|done].
    + destruct Hf as [->|(s1 & Hf1 & Hf2)]; [by eapply narrow_same|by eapply Hfrom].
    + destruct Hf as [->|(s1 & Hf1 & Hf2)]; [by eapply narrow_same|by eapply Hfrom].
  - unfold world_set in H. destruct (cs_meta _ !! t) as [m|]; [|by injection H as <- <- <-].
    destruct (cs_comps (w_comps w) !! m_index m) as [c|] eqn:Hc; [|by injection H as <- <- <-].
    destruct (css_get_ref c e) as [[[i old]|]| |]; try (by injection H as <- <- <-).
    destruct (css_set c i v) as [c'| |] eqn:E; injection H as <- <- <-; try done.
    eapply narrow_keeps; [done|]. split; [done|]. simpl. apply (all_insert (wide K) (wide_refl K)) with c; [done|by eapply wide_set].
  - unfold world_for_each in H. destruct (query_for_each w G J X f) as [[[[s' vis] old] new]| |] eqn:E; injection H as <- <- <-; try done.
    eapply narrow_keeps; [done|]. by apply (query_for_each_all (wide K) (wide_refl K) (wide_trans K) (wide_set K)) in E.
Qed.

Lemma narrow_reset w out dr w' : step w OReset = (out, dr, w') → ub_free out → narrow 0 w'.
Proof.
  cbn [step]. unfold world_reset, cstore_clear. destruct (clear_each _) as [r| |] eqn:E; simpl; intros H; injection H as <- <- <-; try done.
  intros _ t. unfold entries. match goal with |- context [storage ?w1 t] => destruct (storage w1 t) as [c'|] eqn:Es end; [|simpl; lia].
  apply storage_some in Es as (m & _ & E2). simpl in *.
  apply (clear_each_all (λ _ c', length (c_sparse c') = 0)) in E; [|by intros ? ? [_ ?]%clear_sizes].
  destruct (Forall2_lookup_r _ _ _ _ _ E E2) as (c & _ & Hz). rewrite Hz. lia.
Qed.

Lemma tidy_narrow evs w s : tidy_history evs w s → narrow (span (issued evs)) w.
Proof.
  intros (w0 & s0 & Hb & Hh). pose proof (built_einv _ _ Hb) as HE0.
  assert (s_issued s0 = ∅) as H0 by (by destruct Hb as (? & ? & ? & _ & _ & ->)).
  induction Hh as [|evs w1 s1 o out dr w2 Hh IH Hop Hstep [Hmt Hub]].
  - intros t. unfold entries. destruct (storage w0 t) as [c|] eqn:E; [|simpl; lia].
    destruct (fresh_storage _ _ _ (built_fresh _ _ Hb) E) as (_ & _ & H). simpl. rewrite H. simpl. lia.
  - assert (o = OReset ∨ o ≠ OReset) as [->|Hne] by (destruct o; auto).
    { apply narrow_reset in Hstep; [|done]. eapply narrow_mono; [|done]. lia. }
    rewrite issued_snoc. replace (match o with OReset => [] | _ => issued evs ++ reported out end) with (issued evs ++ reported out) by (by destruct o).
    pose proof (history_einv _ _ _ _ _ HE0 Hh) as HE. eapply narrow_step; [done| |done|done|..].
    + eapply narrow_mono; [|done]. rewrite span_app. lia.
    + intros e He. destruct (einv_valid _ _ _ HE He) as [_ Hi]. rewrite (history_issued _ _ _ _ _ HE0 H0 Hh) in Hi.
      apply elem_of_list_to_set in Hi. apply span_elem in Hi. rewrite span_app. lia.
    + intros e He%span_elem. rewrite span_app. lia.
Qed.

(** ** Concrete lives *)

Fixpoint lives (ws : list world) (ops : list op) : option (list world) :=
  match ops, ws with
  | [], _ => Some ws
  | o :: ops, w :: _ =>
      let '(out, _, w') := step w o in
      if op_okb o && match o, out with _, UndefBeh _ | OSetLayout _ _, Panicked _ => false | _, _ => true end
      then lives (w' :: ws) ops else None
  | _, [] => None
  end.
Definition lives_built (gs : list (list tid)) (ts : list tid) (ops : list op) : list world :=
  match add_groups [] gs with
  | Some l => match builder_build l ts with Some w => default [] (lives [w] ops) | None => [] end
  | None => []
  end.

Lemma lives_life ops : ∀ ws ws', life no_failed_layout ws → lives ws ops = Some ws' → life no_failed_layout ws'.
Proof.
  induction ops as [|o ops IH]; intros ws ws' Hl H; cbn [lives] in H; [by injection H as <-|].
  destruct ws as [|w ws]; [done|]. destruct (step w o) as [[out dr] w'] eqn:E.
  destruct (op_okb o && _) eqn:Hb; [|done]. apply andb_true_iff in Hb as [Ho Hb]. eapply IH, H.
  econstructor; [done|by apply op_okb_ok|done|by destruct o, out|]. unfold no_failed_layout. destruct o, out; try done; by intros [].
Qed.
Lemma lives_built_life gs ts ops : lives_built gs ts ops ≠ [] → life no_failed_layout (lives_built gs ts ops).
Proof.
  unfold lives_built. destruct (add_groups [] gs) as [l|] eqn:Hl; [|done]. destruct (builder_build l ts) as [w|] eqn:Hw; [|done].
  destruct (lives [w] ops) as [ws|] eqn:E; [|done]. intros _. simpl. eapply lives_life, E. econstructor. by exists gs, l, ts.
Qed.

Lemma fit_spec n :
  n ≤ fit n ∧ (fit n = 0 ∨ ∃ k, fit n = 4 * 2 ^ k) ∧
  (∀ m, n ≤ m → (m = 0 ∨ ∃ k, m = 4 * 2 ^ k) → fit n ≤ m) ∧ fit n ≤ 4 `max` (2 * n).
Proof.
  split_and!; [apply fit_ge|apply fit_shape| |].
  - intros m H [->|[k ->]]; [by replace n with 0 by lia|]. rewrite <-(fit_pow k). by apply fit_mono.
  - unfold fit. destruct (Nat.eqb_spec n 0); [lia|].
    destruct (decide (n ≤ 1)); [assert (n = 1) as -> by lia; change (2 ^ Nat.log2_up 1) with 1; lia|].
    pose proof (Nat.log2_up_spec n ltac:(lia)) as [Hs _].
    assert (Nat.log2_up n = S (Nat.pred (Nat.log2_up n))) as Hp. { pose proof (Nat.log2_up_pos n). lia. }
    rewrite Hp at 1. rewrite Nat.pow_succ_r'. lia.
Qed.
Lemma tidy_tables evs w s t : tidy_history evs w s → entries w t ≤ 2 * span (issued evs).
Proof. intros H. by apply tidy_narrow in H. Qed.
