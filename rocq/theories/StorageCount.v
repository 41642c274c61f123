(** The number of storages and the registered types along each call. *)
From stdpp Require Import sorting.
From Verif Require Import Base CssM MaskM LayoutM EntityM GroupM StorageM WorldM QueryM StepM Spec SpecMore SpecLayout
  LayoutProofs StorageProofs StoreOps LayoutOps WorldProofs History.

Lemma mapM_from_length {A} (f : A → res A) a b : ∀ l i l', mapM_from f a b i l = Ok l' → length l' = length l.
Proof.
  induction l as [|x l IH]; intros i l' H; simpl in H; [by injection H as <-|].
  destruct (if (a <=? i) && (i <? b) then f x else Ok x) as [x'| |]; [|done..]. simpl in H.
  destruct (mapM_from f a b (S i) l) as [l2| |] eqn:E; [|done..]. simpl in H. injection H as <-. simpl. f_equal. by eapply IH.
Qed.

Lemma on_range_length f a b l l' : on_range f a b l = Ok l' → length l' = length l.
Proof. unfold on_range. destruct (range_ok l a b); [|done]. apply mapM_from_length. Qed.

Lemma group_loop_length fuel : ∀ comps gs mask e r, group_loop fuel comps gs mask e = Ok r → length r.1 = length comps.
Proof.
  induction fuel as [|fuel IH]; intros comps gs mask e r H; simpl in H; destruct (bit_next mask) as [[k mask']|];
    try (by injection H as <-); try done.
  destruct (gs !! k) as [g|]; [|done]. destruct (status_of comps g e) as [st| |]; [|done..]. simpl in H.
  destruct st; try by eapply IH. unfold group_components in H.
  destruct (on_range _ _ _ comps) as [c| |] eqn:Ho; [|done..]. simpl in H. apply IH in H. simpl in H.
  by rewrite H, (on_range_length _ _ _ _ _ Ho).
Qed.

Lemma do_group_length comps gs mask e r : do_group comps gs mask e = Ok r → length r.1 = length comps.
Proof. unfold do_group. apply group_loop_length. Qed.

Lemma group_each_length mask : ∀ es comps gs r, group_each comps gs mask es = Ok r → length r.1 = length comps.
Proof.
  induction es as [|e es IH]; intros comps gs r; cbn [group_each]; [intros H; inversion H; done|].
  destruct (do_group comps gs mask e) as [r1| |] eqn:H1; try done.
  intros H%IH. rewrite H. by apply do_group_length in H1.
Qed.

Lemma ungroup_one_length comps gs k g e r : ungroup_one comps gs k g e = Ok r → length r.1 = length comps.
Proof.
  unfold ungroup_one. destruct (status_of comps g e) as [st| |]; [|done..]. simpl. destruct st; try by intros [= <-].
  unfold ungroup_components. destruct (g_len g); [done|].
  destruct (on_range _ _ _ comps) as [c| |] eqn:Ho; [|done..]. simpl. intros [= <-]. simpl. by eapply on_range_length.
Qed.

Lemma ungroup_loop_length fuel : ∀ comps gs mask e r, ungroup_loop fuel comps gs mask e = Ok r → length r.1 = length comps.
Proof.
  induction fuel as [|fuel IH]; intros comps gs mask e r H; simpl in H; destruct (bit_next_back mask) as [[k mask']|];
    try (by injection H as <-); try done.
  destruct (gs !! k) as [g|]; [|done]. destruct (ungroup_one comps gs k g e) as [r1| |] eqn:E; [|done..]. simpl in H.
  apply IH in H. by rewrite H, (ungroup_one_length _ _ _ _ _ _ E).
Qed.

Lemma do_ungroup_length comps gs mask e r : do_ungroup comps gs mask e = Ok r → length r.1 = length comps.
Proof. unfold do_ungroup. apply ungroup_loop_length. Qed.

Lemma ungroup_all_length e : ∀ k comps gs r, ungroup_all_from k comps gs e = Ok r → length r.1 = length comps.
Proof.
  induction k as [|k IH]; intros comps gs r H; simpl in H; [by injection H as <-|].
  destruct (gs !! k) as [g|]; [|done]. destruct (ungroup_one comps gs k g e) as [r1| |] eqn:E; [|done..]. simpl in H.
  apply IH in H. by rewrite H, (ungroup_one_length _ _ _ _ _ _ E).
Qed.

Lemma insert_loop_length mt e : ∀ cs comps mask,
  match insert_loop mt comps mask e cs with
  | InsOk _ c _ | InsPanic _ c => length c = length comps
  | InsUB => True
  end.
Proof.
  induction cs as [|[t v] cs IH]; intros comps mask; simpl; [done|].
  destruct (mt !! t) as [m|]; [|done]. destruct (comps !! m_index m) as [s|]; [|done].
  destruct (css_insert s e v) as [[s' old]| |]; [|done..].
  specialize (IH (<[m_index m := s']> comps) (gm_or mask (m_insert m))).
  destruct (insert_loop mt _ _ e cs); rewrite ?IH, ?insert_length; done.
Qed.

Lemma insert_row_length e : ∀ row comps r, insert_row comps e row = Ok r → length r.1 = length comps.
Proof.
  induction row as [|[i v] row IH]; intros comps r H; simpl in H; [by injection H as <-|].
  destruct (comps !! i) as [s|]; [|done]. destruct (css_insert s e v) as [[s' old]| |]; [|done..].
  destruct (insert_row _ e row) as [[c ds]| |] eqn:E; [|done..]. injection H as <-. apply IH in E. simpl in *.
  by rewrite E, insert_length.
Qed.

Lemma extend_rows_length is_ : ∀ rows ents comps,
  match extend_rows ents comps is_ rows with
  | RowsOk _ _ c _ | RowsPanic _ _ c _ => length c = length comps
  | RowsUB => True
  end.
Proof.
  induction rows as [|row rows IH]; intros ents comps; simpl; [done|].
  destruct (estore_create ents) as [[e ents']| |]; [|done..].
  destruct (insert_row comps e (zip is_ row)) as [[c ds]| |] eqn:E; [|done..]. apply insert_row_length in E. simpl in E.
  specialize (IH ents' c). destruct (extend_rows ents' c is_ rows); rewrite ?IH; done.
Qed.

Lemma remove_each_length e : ∀ is_ comps r, remove_each comps e is_ = Ok r → length r.1 = length comps.
Proof.
  induction is_ as [|i is_ IH]; intros comps r H; simpl in H; [by injection H as <-|].
  destruct (comps !! i) as [s|]; [|done]. destruct (css_remove s e) as [[s' v]| |]; [|done..].
  destruct (remove_each _ e is_) as [[c ds]| |] eqn:E; [|done..]. injection H as <-. apply IH in E. simpl in *.
  by rewrite E, insert_length.
Qed.

Lemma delete_list_length e : ∀ is_ comps r, delete_list comps e is_ = Ok r → length r.1 = length comps.
Proof.
  induction is_ as [|i is_ IH]; intros comps r H; simpl in H; [by injection H as <-|].
  destruct (comps !! i) as [s|]; [|done]. destruct (css_delete s e) as [[s' v]| |]; [|done..].
  destruct (delete_list _ e is_) as [[c ds]| |] eqn:E; [|done..]. injection H as <-. apply IH in E. simpl in *.
  by rewrite E, insert_length.
Qed.

Lemma delete_each_length e : ∀ l r, delete_each l e = Ok r → length r.1 = length l.
Proof.
  induction l as [|s l IH]; intros r H; simpl in H; [by injection H as <-|].
  destruct (css_delete s e) as [r1| |]; [|done..]. simpl in H. destruct (delete_each l e) as [r2| |]; [|done..].
  simpl in H. injection H as <-. simpl. f_equal. by apply IH.
Qed.

Lemma clear_each_length : ∀ l r, clear_each l = Ok r → length r.1 = length l.
Proof.
  induction l as [|s l IH]; intros r H; simpl in H; [by injection H as <-|].
  destruct (css_clear s) as [r1| |]; [|done..]. simpl in H. destruct (clear_each l) as [r2| |]; [|done..].
  simpl in H. injection H as <-. simpl. f_equal. by apply IH.
Qed.

(** The same types and as many storages. *)
Definition same_shape (s s' : cstore) : Prop := cs_meta s' = cs_meta s ∧ length (cs_comps s') = length (cs_comps s).

Lemma write_one_shape s p it nv r : write_one s p it nv = Ok r → same_shape s r.1.1.
Proof.
  unfold write_one.
  assert (∀ t i v, (match cs_meta s !! t with
    | None => UB
    | Some m =>
        match cs_comps s !! m_index m with
        | None => UB
        | Some c =>
            match buf_read (c_comps c) i, css_set c i v with
            | Ok old, Ok c' =>
                Ok (CStore (cs_groups s) (cs_meta s) (<[m_index m := c']> (cs_comps s)), [old], [v])
            | _, _ => UB
            end
        end
    end) = Ok r → same_shape s r.1.1) as Hgo.
  { intros t i v H. destruct (cs_meta s !! t) as [m|]; [|done]. destruct (cs_comps s !! m_index m) as [c|]; [|done].
    destruct (buf_read (c_comps c) i); [|done..]. destruct (css_set c i v); [|done..]. injection H as <-. split; [done|]. simpl. apply insert_length. }
  intros H. destruct p; try (by injection H as <-); destruct it as [|? ? ?|? [[]|]]; try (by injection H as <-);
    destruct nv; try (by injection H as <-); by eapply Hgo.
Qed.

Lemma same_shape_trans s1 s2 s3 : same_shape s1 s2 → same_shape s2 s3 → same_shape s1 s3.
Proof. intros [H1 H2] [H3 H4]. split; congruence. Qed.

Lemma write_items_shape f seen : ∀ ps its s k r, write_items s f seen k ps its = Ok r → same_shape s r.1.1.
Proof.
  induction ps as [|p ps IH]; intros [|it its] s k r H; simpl in H; try (by injection H as <-).
  destruct (write_one s p it (f k seen)) as [[[s1 o1] n1]| |] eqn:E; [|done..].
  destruct (write_items s1 f seen (S k) ps its) as [[[s2 o2] n2]| |] eqn:E2; [|done..]. injection H as <-.
  apply write_one_shape in E. apply IH in E2. by eapply same_shape_trans.
Qed.

Lemma sparse_for_each_shape f G x i g : ∀ ents s r, sparse_for_each s f G ents x i g = Ok r → same_shape s r.1.1.1.
Proof.
  induction ents as [|e ents IH]; intros s r H; simpl in H; [by injection H as <-|].
  destruct (negb _); [by apply IH|]. destruct (negb _); [by apply IH|].
  destruct (query_get_raw _ e) as [[it|]| |]; [|by apply IH|done..].
  destruct (visit s f G it) as [[[s1 o1] n1]| |] eqn:E; [|done..].
  destruct (sparse_for_each s1 f G ents x i g) as [[[[s2 es] o2] n2]| |] eqn:E2; [|done..]. injection H as <-.
  apply write_items_shape in E. apply IH in E2. by eapply same_shape_trans.
Qed.

Lemma dense_for_each_shape f G ents g : ∀ ks s r, dense_for_each s f G ks ents g = Ok r → same_shape s r.1.1.1.
Proof.
  induction ks as [|k ks IH]; intros s r H; simpl in H; [by injection H as <-|].
  destruct (ents !! k) as [e|]; [|done]. destruct (query_get_dense _ k e) as [it| |]; [|done..].
  destruct (visit s f G it) as [[[s1 o1] n1]| |] eqn:E; [|done..].
  destruct (dense_for_each s1 f G ks ents g) as [[[[s2 es] o2] n2]| |] eqn:E2; [|done..]. injection H as <-.
  apply write_items_shape in E. apply IH in E2. by eapply same_shape_trans.
Qed.

Lemma query_for_each_shape w G J X f r : query_for_each w G J X f = Ok r → same_shape (w_comps w) r.1.1.1.
Proof.
  unfold query_for_each. destruct (borrow3 w G J X) as [[[g i] x]| |]; [|done..].
  destruct (query_iter _ g i x) as [[]| |]; [..|done|done]; try apply sparse_for_each_shape; try apply dense_for_each_shape.
Qed.

Lemma set_insert_shape w e cs ok gh : same_shape (w_comps w) (w_comps (set_insert w e cs ok gh).2).
Proof.
  unfold set_insert. pose proof (insert_loop_length (cs_meta (w_comps w)) e cs (cs_comps (w_comps w)) 0%N) as H.
  destruct (insert_loop _ _ _ _ _) as [ds comps mask|ds comps|]; [|done|done].
  unfold group_if. simpl. destruct (mask =? 0)%N; [done|].
  destruct (do_group comps _ mask e) as [r| |] eqn:E; [|done..]. apply do_group_length in E. split; [done|]. simpl.
  by rewrite E.
Qed.

Lemma ungroup_if_shape s mask e s' : ungroup_if s mask e = Ok s' → same_shape s s'.
Proof.
  unfold ungroup_if. destruct (mask =? 0)%N; [by intros [= <-]|].
  destruct (do_ungroup _ _ mask e) as [r| |] eqn:E; [|done..]. intros [= <-]. split; [done|].
  by eapply do_ungroup_length.
Qed.

(** Calls that register no type. *)
Lemma step_shape w o :
  (∀ t, o ≠ ORegister t) → (∀ l p, o ≠ OSetLayout l p) → same_shape (w_comps w) (w_comps (step w o).2).
Proof.
  intros Hr Hl. destruct o; simpl.
  - unfold world_create. destruct (estore_create (w_ents w)) as [[e en]| |]; [|done..].
    apply (set_insert_shape (World en (w_comps w))).
  - unfold set_extend. destruct (lookup_metas _ _ ts) as [[is_ mask]|]; [|done].
    pose proof (extend_rows_length is_ rows (w_ents w) (cs_comps (w_comps w))) as H.
    destruct (extend_rows _ _ is_ rows) as [ds en c new|ds en c new|]; [|done|done].
    destruct ends_in_panic; [done|]. destruct (_ <=? _); [|done]. destruct (mask =? 0)%N; [done|].
    destruct (group_each c _ mask _) as [[c' gs']| |] eqn:E; [|done..]. apply group_each_length in E. simpl in E.
    split; [done|]. simpl. congruence.
  - unfold world_destroy. destruct (estore_remove _ e) as [[[] en]| |]; [|done..].
    unfold strip. destruct (ungroup_all _ _ e) as [r| |] eqn:E; [|done..]. simpl.
    destruct (delete_each r.1 e) as [d| |] eqn:E2; [|done..]. simpl. split; [done|]. simpl.
    by rewrite (delete_each_length _ _ _ E2), (ungroup_all_length _ _ _ _ _ E).
  - unfold world_create_atomic. by destruct (estore_create_atomic _) as [[e en]| |].
  - unfold world_maintain. by destruct (estore_maintain _) as [en| |].
  - unfold world_insert. destruct (estore_contains _ e); [|done]. apply set_insert_shape.
  - unfold set_remove. destruct (lookup_metas _ _ ts) as [[is_ mask]|]; [|done].
    destruct (ungroup_if _ mask e) as [s1| |] eqn:E; [|done..]. apply ungroup_if_shape in E as [E1 E2].
    destruct (remove_each _ e is_) as [[c vs]| |] eqn:E3; [|done..]. apply remove_each_length in E3. simpl in E3.
    split; simpl; congruence.
  - unfold set_delete. destruct (lookup_metas _ _ ts) as [[is_ mask]|]; [|done].
    destruct (ungroup_if _ mask e) as [s1| |] eqn:E; [|done..]. apply ungroup_if_shape in E as [E1 E2].
    destruct (delete_list _ e is_) as [[c vs]| |] eqn:E3; [|done..]. apply delete_list_length in E3. simpl in E3.
    split; simpl; congruence.
  - unfold world_clear. destruct (estore_clear _) as [en| |]; [|done..]. unfold cstore_clear.
    destruct (clear_each _) as [r| |] eqn:E; [|done..]. split; [done|]. simpl. by eapply clear_each_length.
  - unfold world_reset, cstore_clear.
    destruct (clear_each _) as [r| |] eqn:E; [|done..]. split; [done|]. simpl. by eapply clear_each_length.
  - by destruct (Hr t).
  - by destruct (Hl l perm).
  - unfold world_set. destruct (cs_meta _ !! t) as [m|]; [|done]. destruct (cs_comps _ !! m_index m) as [s|]; [|done].
    destruct (css_get_ref s e) as [[[i old]|]| |]; [|done..]. destruct (css_set s i v); [|done..].
    split; [done|]. simpl. apply insert_length.
  - unfold world_for_each. destruct (query_for_each w G J X f) as [[[[s es] o] n]| |] eqn:E; [|done..].
    by apply query_for_each_shape in E.
Qed.

Lemma step_storages w o out ds w' :
  step w o = (out, ds, w') → (∀ l p, o ≠ OSetLayout l p) →
  storages w' + registered_types w = storages w + registered_types w'.
Proof.
  intros Hs Hl. unfold storages, registered_types.
  assert ((∃ t, o = ORegister t) ∨ ∀ t, o ≠ ORegister t) as [[t ->]|Hr] by (destruct o; eauto); cycle 1.
  { destruct (step_shape w o Hr Hl) as [H1 H2]. rewrite Hs in H1, H2. simpl in *. rewrite H1, H2. lia. }
  simpl in Hs. unfold world_register, register_dyn in Hs.
  destruct (cs_meta (w_comps w) !! t) as [m|] eqn:E; injection Hs as <- <- <-; simpl; [done|].
  rewrite app_length, map_size_insert, E. simpl. lia.
Qed.

(** ** [set_layout] *)

Lemma sl_comps_count fam G ge ngs n : ∀ local st st',
  sl_comps fam G ge ngs local n st = Done st' → length (cs_comps st'.1) = length (cs_comps st.1) + n.
Proof.
  induction n as [|n IH]; intros local [s sets] st' H; simpl in H; [injection H as <-; simpl; lia|].
  destruct (f_comps fam !! local); [|done]. destruct (gm_from_to G ge); [|done].
  destruct (gm_from_to ngs ge); [|done]. destruct (sm_single local); [|done].
  apply IH in H. simpl in *. rewrite app_length in H. simpl in H. lia.
Qed.

Lemma sl_arities_count fam b G ge : ∀ ar p st st',
  StronglySorted lt (p :: ar) →
  sl_arities fam b G ge p ar st = Done st' → length (cs_comps st'.1) + p = length (cs_comps st.1) + default p (last ar).
Proof.
  induction ar as [|a ar IH]; intros p [s sets] st' Hs H; [injection H as <-; simpl; lia|].
  cbn [sl_arities] in H. rewrite last_cons_default.
  destruct (gm_skip_from_to _ _) as [skip|]; [|done].
  destruct (qm_of_include a) as [inc|]; [|done]. destruct (qm_of_exclude p a) as [exc|]; [|done].
  destruct (sl_comps _ _ _ _ _ _ _) as [st1|st1] eqn:Hc; simpl in H; [|done].
  inversion Hs as [|?? Hs' Hlt]; subst. apply IH in H; [|done]. apply sl_comps_count in Hc. simpl in Hc.
  inversion Hlt; subst. simpl. lia.
Qed.

Lemma sl_families_count : ∀ l st st', Forall family_wf l →
  sl_families l st = Done st' → length (cs_comps st'.1) = length (cs_comps st.1) + length (layout_tids l).
Proof.
  induction l as [|fam l IH]; intros st st' Hf H; [injection H as <-; simpl; lia|].
  cbn [sl_families] in H. apply Forall_cons in Hf as [Hf Hfs].
  destruct (sl_arities _ _ _ _ _ _ _) as [st1|st1] eqn:Ha; simpl in H; [|done].
  apply IH in H; [|done]. apply sl_arities_count in Ha.
  - destruct (fw_last _ Hf) as [l0 Hl0]. rewrite Hl0, last_snoc in Ha. simpl in Ha.
    unfold layout_tids in *. rewrite bind_cons, app_length. lia.
  - constructor; [apply Hf|]. eapply Forall_impl; [apply (fw_min _ Hf)|]. simpl. lia.
Qed.

Lemma sl_leftover_count all : ∀ order s, length (cs_comps (sl_leftover order all s)) = length (cs_comps s) + length order.
Proof. induction order as [|t order IH]; intros s; simpl; [lia|]. rewrite IH. simpl. rewrite app_length. simpl. lia. Qed.

Lemma set_layout_count s ds am reg grp loose l perm es s' :
  cinv s ds am reg grp loose → layout_wf l → layout_fits l → set_layout s l perm es = SlOk s' →
  length (cs_comps s') = length (cs_comps s) + size (list_to_set (layout_tids l) ∪ reg).
Proof.
  intros HI [Hwf Hdis] [H64 H16] H. unfold set_layout in H.
  destruct (extract_sets_ok s ds am reg grp loose HI) as (sets & s0 & ds0 & Hx & HL0 & Hg0). rewrite Hx in H.
  destruct (sl_families_ok _ _ _ l s0 sets ds0 ∅ ∅ HL0 Hwf Hdis) as (s1 & sets1 & ds1 & Hfam & HL1).
  { intros. apply not_elem_of_empty. }
  { rewrite Hg0. done. }
  { done. }
  rewrite !(right_id_L ∅ (∪)) in HL1. rewrite Hfam in H. cbv zeta in H.
  destruct (gm_from_to 0 _) as [mask|]; [|done].
  destruct (group_each _ _ mask es) as [[comps gs]| |] eqn:Hg; [|done..]. injection H as <-.
  apply group_each_length in Hg. simpl in *. rewrite Hg, sl_leftover_count.
  apply sl_families_count in Hfam; [|done]. simpl in Hfam. rewrite Hfam.
  assert (length (cs_comps s0) = length (cs_comps s)) as ->.
  { unfold extract_sets in Hx. destruct (forallb _ _); [|done]. injection Hx as _ <-. simpl. apply imap_length. }
  rewrite <-Nat.add_assoc. f_equal.
  assert (size (list_to_set (layout_tids l) ∪ reg : gset tid) = length (layout_tids l) + length (order_by perm sets1)) as ->; [|done].
  rewrite <-app_length, <-(size_list_to_set (C := gset tid) (layout_tids l ++ order_by perm sets1)).
  - f_equal. apply set_eq. intros t. rewrite list_to_set_app, !elem_of_union, !elem_of_list_to_set, order_by_elem,
      (li_keys _ _ _ _ _ _ _ _ HL1), elem_of_list_to_set. destruct (decide (t ∈ layout_tids l)); tauto.
  - apply NoDup_app. split_and!; [done| |apply order_by_NoDup].
    intros t Ht. rewrite order_by_elem, (li_keys _ _ _ _ _ _ _ _ HL1), elem_of_list_to_set. tauto.
Qed.

Lemma inv_registered w s ds : winv w s ds → registered_types w = size (s_reg s).
Proof.
  intros [_ HC]. unfold registered_types. rewrite <-size_dom. f_equal. apply set_eq. intros t.
  by rewrite elem_of_dom, (ci_reg _ _ _ _ _ _ HC).
Qed.

Lemma reach_set_layout_count w s l perm out ds w' :
  reachable w s → op_ok (OSetLayout l perm) → step w (OSetLayout l perm) = (out, ds, w') →
  good_side s (OSetLayout l perm) out →
  storages w' = storages w + registered_types w'.
Proof.
  intros Hr Hok Hs Hg. pose proof (reachable_inv _ _ Hr) as (Hsv & ds0 & HI).
  destruct Hg as [Hfit Hsv']. pose proof (step_ok w s ds0 (OSetLayout l perm) HI Hsv Hok Hfit) as Hst. rewrite Hs in Hst.
  destruct (Hst Hsv') as (_ & ds1 & HI' & _). rewrite (inv_registered _ _ _ HI').
  simpl in *. unfold world_set_layout in Hs.
  destruct Hok as [gs Hgs]. pose proof (layout_built_wf gs l Hgs) as Hwf. destruct HI as [HE HC].
  assert (Hes : ∀ e, is_Some (s_map s !! e) → e ∈ estore_slice (w_ents w)) by (intros e He; by apply HE).
  apply same_versions_uniform in Hsv'. simpl in Hsv'.
  destruct (set_layout_ok _ _ _ _ _ _ l perm (estore_slice (w_ents w)) HC Hwf Hfit Hsv' Hes) as (s1 & ds2 & Heq & _).
  rewrite Heq in Hs. injection Hs as <- <- <-. unfold storages. simpl. by eapply set_layout_count.
Qed.
