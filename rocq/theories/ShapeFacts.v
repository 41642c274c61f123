(** The groups and the table of types do not depend on the contents of the
    storages. They are right after any history without invalid accesses and without
    a survived panic of [set_layout], and so is everything after a [reset]. *)
From stdpp Require Import sorting.
From Verif Require Import Base SparseVecM CssM MaskM LayoutM EntityM GroupM StorageM WorldM QueryM StepM Spec SpecMore SpecSafety SpecSound
  SpecLayout CssProofs LayoutProofs GroupProofs StorageProofs StoreOps LayoutOps EntityProofs WorldProofs History StorageCount
  BlindCss BlindEnts BlindStore BlindQuery BlindLayout BlindWorld BlindHist Lockstep LayoutFacts.

(** ** Calls keep the ranges and masks of the groups *)

Definition gms (gs : list group) : list gmeta := g_meta <$> gs.

Lemma gms_insert gs k g n : gs !! k = Some g → gms (<[k := Grp (g_meta g) n]> gs) = gms gs.
Proof. intros H. unfold gms. rewrite list_fmap_insert. simpl. apply list_insert_id. by rewrite list_lookup_fmap, H. Qed.

Lemma group_loop_gms fuel : ∀ comps gs mask e r, group_loop fuel comps gs mask e = Ok r → gms r.2 = gms gs.
Proof.
  induction fuel as [|fuel IH]; intros comps gs mask e r H; simpl in H; destruct (bit_next mask) as [[k mask']|];
    try (by injection H as <-); try done.
  destruct (gs !! k) as [g|] eqn:Hk; [|done]. destruct (status_of comps g e) as [st| |]; [|done..]. simpl in H.
  destruct st; try by eapply IH. unfold group_components in H.
  destruct (on_range _ _ _ comps) as [c| |] eqn:Ho; [|done..]. simpl in H. apply IH in H. rewrite H. by apply gms_insert.
Qed.

Lemma do_group_gms comps gs mask e r : do_group comps gs mask e = Ok r → gms r.2 = gms gs.
Proof. unfold do_group. apply group_loop_gms. Qed.

Lemma group_each_gms mask : ∀ es comps gs r, group_each comps gs mask es = Ok r → gms r.2 = gms gs.
Proof.
  induction es as [|e es IH]; intros comps gs r; cbn [group_each]; [intros H; inversion H; done|].
  destruct (do_group comps gs mask e) as [r1| |] eqn:H1; try done.
  intros H%IH. rewrite H. by apply do_group_gms in H1.
Qed.

Lemma ungroup_one_gms comps gs k g e r : gs !! k = Some g → ungroup_one comps gs k g e = Ok r → gms r.2 = gms gs.
Proof.
  intros Hk. unfold ungroup_one. destruct (status_of comps g e) as [st| |]; [|done..]. simpl. destruct st; try by intros [= <-].
  unfold ungroup_components. destruct (g_len g); [done|].
  destruct (on_range _ _ _ comps) as [c| |] eqn:Ho; [|done..]. simpl. intros [= <-]. by apply gms_insert.
Qed.

Lemma ungroup_loop_gms fuel : ∀ comps gs mask e r, ungroup_loop fuel comps gs mask e = Ok r → gms r.2 = gms gs.
Proof.
  induction fuel as [|fuel IH]; intros comps gs mask e r H; simpl in H; destruct (bit_next_back mask) as [[k mask']|];
    try (by injection H as <-); try done.
  destruct (gs !! k) as [g|] eqn:Hk; [|done]. destruct (ungroup_one comps gs k g e) as [r1| |] eqn:E; [|done..]. simpl in H.
  apply IH in H. by rewrite H, (ungroup_one_gms _ _ _ _ _ _ Hk E).
Qed.

Lemma do_ungroup_gms comps gs mask e r : do_ungroup comps gs mask e = Ok r → gms r.2 = gms gs.
Proof. unfold do_ungroup. apply ungroup_loop_gms. Qed.

Lemma ungroup_all_gms e : ∀ k comps gs r, ungroup_all_from k comps gs e = Ok r → gms r.2 = gms gs.
Proof.
  induction k as [|k IH]; intros comps gs r H; simpl in H; [by injection H as <-|].
  destruct (gs !! k) as [g|] eqn:Hk; [|done]. destruct (ungroup_one comps gs k g e) as [r1| |] eqn:E; [|done..]. simpl in H.
  apply IH in H. by rewrite H, (ungroup_one_gms _ _ _ _ _ _ Hk E).
Qed.

Definition sgm (s : cstore) : list gmeta := gms (cs_groups s).

Lemma write_one_groups s p it nv r : write_one s p it nv = Ok r → cs_groups r.1.1 = cs_groups s.
Proof.
  unfold write_one.
  assert (∀ t i v, (match cs_meta s !! t with
    | None => UB
    | Some m =>
        match cs_comps s !! m_index m with
        | None => UB
        | Some c =>
            match buf_read (c_comps c) i, css_set c i v with
            | Ok old, Ok c' =>
                Ok (CStore (cs_groups s) (cs_meta s) (<[m_index m := c']> (cs_comps s)), [old], [v])
            | _, _ => UB
            end
        end
    end) = Ok r → cs_groups r.1.1 = cs_groups s) as Hgo.
  { intros t i v H. destruct (cs_meta s !! t) as [m|]; [|done]. destruct (cs_comps s !! m_index m) as [c|]; [|done].
    destruct (buf_read (c_comps c) i); [|done..]. destruct (css_set c i v); [|done..]. by injection H as <-. }
  intros H. destruct p; try (by injection H as <-); destruct it as [|? ? ?|? [[]|]]; try (by injection H as <-);
    destruct nv; try (by injection H as <-); by eapply Hgo.
Qed.

Lemma write_items_groups f seen : ∀ ps its s k r, write_items s f seen k ps its = Ok r → cs_groups r.1.1 = cs_groups s.
Proof.
  induction ps as [|p ps IH]; intros [|it its] s k r H; simpl in H; try (by injection H as <-).
  destruct (write_one s p it (f k seen)) as [[[s1 o1] n1]| |] eqn:E; [|done..].
  destruct (write_items s1 f seen (S k) ps its) as [[[s2 o2] n2]| |] eqn:E2; [|done..]. injection H as <-.
  apply write_one_groups in E. apply IH in E2. simpl in *. congruence.
Qed.

Lemma sparse_for_each_groups f G x i g : ∀ ents s r, sparse_for_each s f G ents x i g = Ok r → cs_groups r.1.1.1 = cs_groups s.
Proof.
  induction ents as [|e ents IH]; intros s r H; simpl in H; [by injection H as <-|].
  destruct (negb _); [by apply IH|]. destruct (negb _); [by apply IH|].
  destruct (query_get_raw _ e) as [[it|]| |]; [|by apply IH|done..].
  destruct (visit s f G it) as [[[s1 o1] n1]| |] eqn:E; [|done..].
  destruct (sparse_for_each s1 f G ents x i g) as [[[[s2 es] o2] n2]| |] eqn:E2; [|done..]. injection H as <-.
  apply write_items_groups in E. apply IH in E2. simpl in *. congruence.
Qed.

Lemma dense_for_each_groups f G ents g : ∀ ks s r, dense_for_each s f G ks ents g = Ok r → cs_groups r.1.1.1 = cs_groups s.
Proof.
  induction ks as [|k ks IH]; intros s r H; simpl in H; [by injection H as <-|].
  destruct (ents !! k) as [e|]; [|done]. destruct (query_get_dense _ k e) as [it| |]; [|done..].
  destruct (visit s f G it) as [[[s1 o1] n1]| |] eqn:E; [|done..].
  destruct (dense_for_each s1 f G ks ents g) as [[[[s2 es] o2] n2]| |] eqn:E2; [|done..]. injection H as <-.
  apply write_items_groups in E. apply IH in E2. simpl in *. congruence.
Qed.

Lemma query_for_each_groups w G J X f r : query_for_each w G J X f = Ok r → cs_groups r.1.1.1 = cs_groups (w_comps w).
Proof.
  unfold query_for_each. destruct (borrow3 w G J X) as [[[g i] x]| |]; [|done..].
  destruct (query_iter _ g i x) as [[]| |]; [..|done|done]; try apply sparse_for_each_groups; try apply dense_for_each_groups.
Qed.

Lemma set_insert_gms w e cs ok gh : sgm (w_comps (set_insert w e cs ok gh).2) = sgm (w_comps w).
Proof.
  unfold set_insert. destruct (insert_loop _ _ _ _ _) as [ds comps mask|ds comps|]; [|done|done].
  unfold group_if. simpl. destruct (mask =? 0)%N; [done|].
  destruct (do_group comps _ mask e) as [r| |] eqn:E; [|done..]. by apply do_group_gms in E.
Qed.

Lemma ungroup_if_gms s mask e s' : ungroup_if s mask e = Ok s' → sgm s' = sgm s.
Proof.
  unfold ungroup_if. destruct (mask =? 0)%N; [by intros [= <-]|].
  destruct (do_ungroup _ _ mask e) as [r| |] eqn:E; [|done..]. intros [= <-]. by apply do_ungroup_gms in E.
Qed.

Lemma gms_clear gs : gms ((λ g, Grp (g_meta g) 0) <$> gs) = gms gs.
Proof. unfold gms. rewrite <-list_fmap_compose. by apply list_fmap_ext. Qed.

Lemma step_gms w o : (∀ l p, o ≠ OSetLayout l p) → sgm (w_comps (step w o).2) = sgm (w_comps w).
Proof.
  intros Hl. destruct o; simpl.
  - unfold world_create. destruct (estore_create (w_ents w)) as [[e en]| |]; [|done..].
    apply (set_insert_gms (World en (w_comps w))).
  - unfold set_extend. destruct (lookup_metas _ _ ts) as [[is_ mask]|]; [|done].
    destruct (extend_rows _ _ is_ rows) as [ds en c new|ds en c new|]; [|done|done].
    destruct ends_in_panic; [done|]. destruct (_ <=? _); [|done]. destruct (mask =? 0)%N; [done|].
    destruct (group_each c _ mask _) as [[c' gs']| |] eqn:E; [|done..]. by apply group_each_gms in E.
  - unfold world_destroy. destruct (estore_remove _ e) as [[[] en]| |]; [|done..].
    unfold strip. destruct (ungroup_all _ _ e) as [r| |] eqn:E; [|done..]. simpl.
    destruct (delete_each r.1 e) as [d| |] eqn:E2; [|done..]. by apply ungroup_all_gms in E.
  - unfold world_create_atomic. by destruct (estore_create_atomic _) as [[e en]| |].
  - unfold world_maintain. by destruct (estore_maintain _) as [en| |].
  - unfold world_insert. destruct (estore_contains _ e); [|done]. apply set_insert_gms.
  - unfold set_remove. destruct (lookup_metas _ _ ts) as [[is_ mask]|]; [|done].
    destruct (ungroup_if _ mask e) as [s1| |] eqn:E; [|done..]. apply ungroup_if_gms in E.
    by destruct (remove_each _ e is_) as [[c vs]| |].
  - unfold set_delete. destruct (lookup_metas _ _ ts) as [[is_ mask]|]; [|done].
    destruct (ungroup_if _ mask e) as [s1| |] eqn:E; [|done..]. apply ungroup_if_gms in E.
    by destruct (delete_list _ e is_) as [[c vs]| |].
  - unfold world_clear. destruct (estore_clear _) as [en| |]; [|done..]. unfold cstore_clear.
    destruct (clear_each _) as [r| |] eqn:E; [|done..]. apply gms_clear.
  - unfold world_reset, cstore_clear. destruct (clear_each _) as [r| |] eqn:E; [|done..]. apply gms_clear.
  - unfold world_register, register_dyn. by destruct (cs_meta _ !! t).
  - by destruct (Hl l perm).
  - unfold world_set. destruct (cs_meta _ !! t) as [m|]; [|done]. destruct (cs_comps _ !! m_index m) as [s|]; [|done].
    destruct (css_get_ref s e) as [[[i old]|]| |]; [|done..]. by destruct (css_set s i v).
  - unfold world_for_each. destruct (query_for_each w G J X f) as [[[[s es] o] n]| |] eqn:E; [|done..].
    apply query_for_each_groups in E. simpl in *. unfold sgm. by rewrite E.
Qed.

(** ** The shape of a storage *)

Record shape_eq (s s' : cstore) : Prop := {
  se_gms : sgm s' = sgm s;
  se_meta : cs_meta s' = cs_meta s;
  se_len : length (cs_comps s') = length (cs_comps s)
}.

Record shape_ok (s : cstore) (reg grp : gset tid) : Prop := {
  sh_wf : metas_wf (sgm s) (length (cs_comps s));
  sh_static : static (sgm s) (cs_meta s) (length (cs_comps s));
  sh_reg : ∀ t, t ∈ reg ↔ is_Some (cs_meta s !! t);
  sh_grp : ∀ t, t ∈ grp ↔ ∃ m k gm, cs_meta s !! t = Some m ∧ sgm s !! k = Some gm ∧ covers gm (m_index m)
}.

Lemma shape_ok_eq s s' reg grp : shape_eq s s' → shape_ok s reg grp → shape_ok s' reg grp.
Proof. intros [H1 H2 H3] [G1 G2 G3 G4]. split; by rewrite ?H1, ?H2, ?H3. Qed.

Lemma cinv_shape s ds am reg grp loose : cinv s ds am reg grp loose → shape_ok s reg grp.
Proof.
  intros HI. pose proof (ci_length _ _ _ _ _ _ HI) as Hl. split; rewrite ?Hl; try apply HI.
Qed.

(** Any storage of this shape without components is as it should be. *)
Lemma shape_empty s reg grp : shape_ok s reg grp → (∀ k g, cs_groups s !! k = Some g → g_len g = 0) →
  Forall (λ c, css_rep c []) (cs_comps s) → cinv s (replicate (length (cs_comps s)) []) ∅ reg grp ∅.
Proof.
  intros [H1 H2 H3 H4] Hg0 Hc.
  assert (Hds : ∀ n i d, (replicate n [] : list dense) !! i = Some d → d = []).
  { intros n i d H. by apply lookup_replicate in H as [-> _]. }
  split; rewrite ?replicate_length; try done.
  - split; intros e; [by rewrite lookup_empty; intros [? ?]|]. intros e' H. rewrite lookup_empty in H. by destruct H.
  - clear -Hc. induction Hc; constructor; done.
  - split; rewrite ?replicate_length.
    + done.
    + intros k g i i' d d' Hk _ _ Hd Hd'. by rewrite (Hds _ _ _ Hd), (Hds _ _ _ Hd').
    + intros k g i d Hk _ Hd. rewrite (Hg0 _ _ Hk). lia.
    + intros j k gj gk _ Hj Hk _. rewrite (Hg0 _ _ Hk). lia.
  - intros t m d e v Ht Hd. rewrite (Hds _ _ _ Hd). split; [by intros ?%elem_of_nil|].
    intros (r & Hr & _). by rewrite lookup_empty in Hr.
  - intros e t v (r & Hr & _). by rewrite lookup_empty in Hr.
  - intros i d Hd _. by apply (Hds _ _ _ Hd).
  - intros k g e Hk _ Hall. exfalso.
    destruct (Hall (g_start (g_meta g))) as (d & Hd & He).
    { destruct (mw_range _ _ H1 k (g_meta g)) as (? & ? & ?); [|split; lia]. unfold sgm, gms. by rewrite list_lookup_fmap, Hk. }
    rewrite (Hds _ _ _ Hd) in He. by apply elem_of_nil in He.
Qed.

Definition shadow (s : cstore) : cstore :=
  CStore ((λ g, Grp (g_meta g) 0) <$> cs_groups s) (cs_meta s) (replicate (length (cs_comps s)) css_new).

Lemma shadow_eq s : shape_eq s (shadow s).
Proof. split; [apply gms_clear|done|apply replicate_length]. Qed.

Lemma shadow_inv s reg grp : shape_ok s reg grp → ∃ ds, cinv (shadow s) ds ∅ reg grp ∅.
Proof.
  intros H. eexists. apply shape_empty.
  - eapply shape_ok_eq; [apply shadow_eq|done].
  - intros k g Hk. simpl in Hk. by apply list_lookup_fmap_inv in Hk as (? & -> & _).
  - simpl. apply Forall_replicate, css_rep_new.
Qed.

Lemma register_eq s s' t : shape_eq s s' → shape_eq (register_dyn s t).2 (register_dyn s' t).2.
Proof.
  intros [H1 H2 H3]. unfold register_dyn. rewrite H2. destruct (cs_meta s !! t); [done|]. simpl.
  split; simpl; [done|by rewrite ?H2, H3|]. rewrite !app_length. simpl. lia.
Qed.

Lemma shape_eq_sym s s' : shape_eq s s' → shape_eq s' s.
Proof. intros []. by split. Qed.

Lemma shape_eq_trans s1 s2 s3 : shape_eq s1 s2 → shape_eq s2 s3 → shape_eq s1 s3.
Proof. intros [] []. split; congruence. Qed.

Lemma shape_register s reg grp t : shape_ok s reg grp → shape_ok (register_dyn s t).2 ({[t]} ∪ reg) grp.
Proof.
  intros H. destruct (shadow_inv _ _ _ H) as [ds HI]. destruct (ci_register _ _ _ _ _ _ t HI) as (ds' & _ & HI' & _).
  eapply shape_ok_eq; [apply register_eq, shape_eq_sym, shadow_eq|]. by eapply cinv_shape.
Qed.

(** ** [set_layout] *)

(** The loops on two storages of the same shape, with storages for the same types. *)
Definition st_eq (st st' : sl_state) : Prop :=
  cs_groups st'.1 = cs_groups st.1 ∧ cs_meta st'.1 = cs_meta st.1 ∧
  length (cs_comps st'.1) = length (cs_comps st.1) ∧ ∀ t, is_Some (st'.2 !! t) ↔ is_Some (st.2 !! t).

Definition after_eq (r r' : after sl_state) : Prop :=
  match r, r' with
  | Done st, Done st' | Paniced st, Paniced st' => st_eq st st'
  | _, _ => False
  end.

Lemma then_eq r r' f f' : after_eq r r' → (∀ st st', st_eq st st' → after_eq (f st) (f' st')) →
  after_eq (then_ r f) (then_ r' f').
Proof. destruct r, r'; simpl; auto; done. Qed.

Lemma sl_comps_eq fam G ge ngs n : ∀ local st st', st_eq st st' →
  after_eq (sl_comps fam G ge ngs local n st) (sl_comps fam G ge ngs local n st').
Proof.
  induction n as [|n IH]; intros local [s sets] [s' sets'] He; cbn [sl_comps]; [done|].
  destruct (f_comps fam !! local) as [t|]; [|done]. destruct (gm_from_to G ge); [|done].
  destruct (gm_from_to ngs ge); [|done]. destruct (sm_single local); [|done].
  apply IH. destruct He as (H1 & H2 & H3 & H4). simpl in *. split_and!; simpl; [done|by rewrite H1, H2, H3| |].
  - rewrite !app_length. simpl. lia.
  - intros t'. destruct (decide (t' = t)) as [->|Hne]; [by rewrite !lookup_delete|by rewrite !lookup_delete_ne].
Qed.

Lemma sl_arities_eq fam b G ge : ∀ ar p st st', st_eq st st' →
  after_eq (sl_arities fam b G ge p ar st) (sl_arities fam b G ge p ar st').
Proof.
  induction ar as [|a ar IH]; intros p [s sets] [s' sets'] He; cbn [sl_arities]; [done|].
  destruct He as (H1 & H2 & H3 & H4). simpl in *. rewrite !H1.
  destruct (gm_skip_from_to _ _) as [skip|]; [|done].
  destruct (qm_of_include a) as [inc|]; [|done]. destruct (qm_of_exclude p a) as [exc|]; [|done].
  apply then_eq; [|intros; by apply IH]. by apply sl_comps_eq.
Qed.

Lemma sl_families_eq : ∀ l st st', st_eq st st' → after_eq (sl_families l st) (sl_families l st').
Proof.
  induction l as [|fam l IH]; intros st st' He; cbn [sl_families]; [done|].
  apply then_eq; [|done]. destruct He as (H1 & H2 & H3 & H4). rewrite H1, H3. by apply sl_arities_eq.
Qed.

Lemma sl_leftover_eq sets sets' : ∀ order s s', cs_groups s' = cs_groups s → cs_meta s' = cs_meta s →
  length (cs_comps s') = length (cs_comps s) →
  let r := sl_leftover order sets s in let r' := sl_leftover order sets' s' in
  cs_groups r' = cs_groups r ∧ cs_meta r' = cs_meta r ∧ length (cs_comps r') = length (cs_comps r).
Proof.
  induction order as [|t order IH]; intros s s' H1 H2 H3; [done|]. cbn [sl_leftover]. apply IH; simpl; [done|by rewrite H2, H3|].
  rewrite !app_length. simpl. lia.
Qed.

Lemma order_by_self p sets : NoDup p → (∀ t, t ∈ p ↔ is_Some (sets !! t)) → order_by p sets = p.
Proof.
  intros Hnd Hp. unfold order_by.
  assert (remove_dups p = p) as ->.
  { clear Hp. induction Hnd as [|t p Hn Hnd IH]; [done|]. simpl. destruct (decide_rel _ _ _); [done|]. by rewrite IH. }
  assert (filter (λ t, is_Some (sets !! t)) p = p) as ->.
  { assert (∀ q : list tid, (∀ t, t ∈ q → is_Some (sets !! t)) → filter (λ t, is_Some (sets !! t)) q = q) as Hf.
    { induction q as [|t q IH]; intros Hq; [done|]. rewrite filter_cons_True by (apply Hq; left). f_equal. apply IH.
      intros t' ?. apply Hq. by right. }
    apply Hf. intros t. apply Hp. }
  assert (filter (λ t, t ∉ p) (fst <$> map_to_list sets) = []) as ->; [|apply app_nil_r].
  apply elem_of_nil_inv. intros t [Hn Ht]%elem_of_list_filter. apply Hn, Hp.
  apply elem_of_list_fmap in Ht as ([t' c] & -> & Hc). apply elem_of_map_to_list in Hc. by exists c.
Qed.

Lemma extract_eq s s' : shape_eq s s' → metas_in (cs_meta s) (length (cs_comps s)) →
  ∃ sets s0 sets' s0', extract_sets s = Ok (sets, s0) ∧ extract_sets s' = Ok (sets', s0') ∧ st_eq (s0, sets) (s0', sets').
Proof.
  intros [H1 H2 H3] Hin. unfold extract_sets. rewrite H2, H3.
  assert (forallb (λ p : tid * meta, m_index p.2 <? length (cs_comps s)) (map_to_list (cs_meta s)) = true) as ->.
  { apply forallb_forall. intros [t m] Ht%elem_of_list_In. apply elem_of_map_to_list in Ht. apply Nat.ltb_lt. by eapply Hin. }
  eexists _, _, _, _. split; [done|]. split; [done|]. split_and!; [done..|simpl; rewrite !imap_length; done|].
  intros t. simpl. rewrite !lookup_omap. destruct (cs_meta s !! t) as [m|] eqn:Hm; simpl; [|done]. apply Hin in Hm.
  split; intros _; apply lookup_lt_is_Some_2; lia.
Qed.

Lemma set_layout_eq s s1 l perm es r : shape_eq s s1 → metas_in (cs_meta s) (length (cs_comps s)) →
  set_layout s l perm es = SlOk r → ∃ perm1 r1, set_layout s1 l perm1 [] = SlOk r1 ∧ shape_eq r1 r.
Proof.
  intros He Hin H. destruct (extract_eq _ _ He Hin) as (sets & s0 & sets' & s0' & Hx & Hx' & Hst).
  unfold set_layout in *. rewrite Hx in H. rewrite Hx'. pose proof (sl_families_eq l _ _ Hst) as Hf.
  destruct (sl_families l (s0, sets)) as [[s2 sets2]|[s2 sets2]]; [|destruct (drop_all _); done].
  destruct (sl_families l (s0', sets')) as [[s3 sets3]|[s3 sets3]]; [|done]. destruct Hf as (H1 & H2 & H3 & H4). simpl in *.
  exists (order_by perm sets2). rewrite (order_by_self _ sets3); [|apply order_by_NoDup|].
  2:{ intros t. by rewrite order_by_elem, H4. }
  destruct (sl_leftover_eq sets2 sets3 (order_by perm sets2) s2 s3 H1 H2 H3) as (G1 & G2 & G3).
  rewrite G1. destruct (gm_from_to 0 _) as [mask|]; [|done].
  destruct (group_each _ _ mask es) as [[comps gs]| |] eqn:Hg; [|done..]. injection H as <-.
  cbn [group_each]. eexists. split; [done|].
  pose proof (group_each_gms _ _ _ _ _ Hg) as K1. pose proof (group_each_length _ _ _ _ _ Hg) as K2. simpl in *.
  split; simpl; [done|by rewrite G2|congruence].
Qed.

Lemma static_in ms mt n : static ms mt n → metas_in mt n.
Proof. intros H t m Hm. by eapply (st_index _ _ _ H). Qed.

Lemma shape_set_layout s reg grp l perm es s' : shape_ok s reg grp → layout_wf l → set_layout s l perm es = SlOk s' →
  layout_fits l ∧ shape_ok s' (list_to_set (layout_tids l) ∪ reg) (list_to_set (layout_tids l)) ∧
  length (cs_comps s') = length (cs_comps s) + size (list_to_set (layout_tids l) ∪ reg).
Proof.
  intros Hs Hwf H. destruct (shadow_inv _ _ _ Hs) as [ds HI].
  destruct (set_layout_eq _ _ _ _ _ _ (shadow_eq s) (static_in _ _ _ (sh_static _ _ _ Hs)) H) as (perm1 & r1 & H1 & He).
  assert (layout_fits l) as Hfit.
  { destruct (decide (layout_fits l)) as [|Hn]; [done|].
    destruct (set_layout_unfit _ _ _ _ _ _ l perm1 [] HI Hwf Hn) as (vs & r & Hr). by rewrite Hr in H1. }
  destruct (set_layout_ok _ _ _ _ _ _ l perm1 [] HI Hwf Hfit) as (r & ds' & Hr & HI' & _).
  { intros t e1 e2 v1 v2 _ (r & Hr & _). by rewrite lookup_empty in Hr. }
  { intros e [? He']. by rewrite lookup_empty in He'. }
  assert (r = r1) as -> by congruence. split; [done|]. split.
  - eapply shape_ok_eq; [exact He|]. by eapply cinv_shape.
  - rewrite (se_len _ _ He), (set_layout_count _ _ _ _ _ _ _ _ _ _ HI Hwf Hfit H1). simpl. by rewrite replicate_length.
Qed.

(** ** Along histories *)

Lemma client_reg s o out : s_reg (client_step s o out) =
  match o with ORegister t => {[t]} ∪ s_reg s | OSetLayout l _ => list_to_set (layout_tids l) ∪ s_reg s | _ => s_reg s end.
Proof.
  destruct o; cbn [client_step]; try done; try (by case_decide).
  - assert (∀ es s, s_reg (foldl (λ s e, add_entity s e (put (s_reg s) cs ∅)) s es) = s_reg s) as H.
    { induction es as [|e es IH]; intros s'; [done|]. simpl. by rewrite IH. }
    rewrite <-(H (reported out) s). by destruct (panicked out).
  - assert (∀ es s rows, s_reg (add_rows s ts es rows) = s_reg s) as H.
    { induction es as [|e es IH]; intros s' [|r rs]; try done. simpl. by rewrite IH. }
    rewrite <-(H (reported out) s rows). by destruct (panicked out).
  - assert (∀ es s, s_reg (foldl add_queued s es) = s_reg s) as H.
    { induction es as [|e es IH]; intros s'; [done|]. simpl. by rewrite IH. }
    apply H.
  - case_decide; [|done]. by destruct (panicked out).
  - by destruct out as [[]| |].
Qed.

Lemma client_grp s o out : s_grouped (client_step s o out) =
  match o with OSetLayout l _ => list_to_set (layout_tids l) | _ => s_grouped s end.
Proof.
  destruct o; cbn [client_step]; try done; try (by case_decide).
  - assert (∀ es s, s_grouped (foldl (λ s e, add_entity s e (put (s_reg s) cs ∅)) s es) = s_grouped s) as H.
    { induction es as [|e es IH]; intros s'; [done|]. simpl. by rewrite IH. }
    rewrite <-(H (reported out) s). by destruct (panicked out).
  - assert (∀ es s rows, s_grouped (add_rows s ts es rows) = s_grouped s) as H.
    { induction es as [|e es IH]; intros s' [|r rs]; try done. simpl. by rewrite IH. }
    rewrite <-(H (reported out) s rows). by destruct (panicked out).
  - assert (∀ es s, s_grouped (foldl add_queued s es) = s_grouped s) as H.
    { induction es as [|e es IH]; intros s'; [done|]. simpl. by rewrite IH. }
    apply H.
  - case_decide; [|done]. by destruct (panicked out).
  - by destruct out as [[]| |].
Qed.

Lemma step_shape_ok w s o out dr w' : shape_ok (w_comps w) (s_reg s) (s_grouped s) → op_ok o →
  step w o = (out, dr, w') → unbroken o out → shape_ok (w_comps w') (s_reg (client_step s o out)) (s_grouped (client_step s o out)).
Proof.
  intros Hs Hok Hst [Hu Hl]. rewrite client_reg, client_grp. assert (w' = (step w o).2) as -> by (by rewrite Hst).
  destruct o as [| | | | | | | | | |t|l perm| |];
    try (eapply shape_ok_eq; [|done]; split; [by apply step_gms|by apply step_shape..]).
  - simpl. unfold world_register. pose proof (shape_register _ _ _ t Hs) as H. by destruct (register_dyn _ t).
  - simpl in *. unfold world_set_layout in *. destruct (set_layout _ l perm _) as [s1|vs s1|] eqn:E; injection Hst as <- <-; [|by specialize (Hl _ _ eq_refl)|done].
    destruct Hok as [gs Hgs]. by eapply shape_set_layout; [|eapply layout_built_wf|].
Qed.

Lemma unbroken_ub_free evs w s : unbroken_history evs w s → ub_free_history evs w s.
Proof.
  intros (w0 & s0 & Hb & Hh). exists w0, s0. split; [done|].
  induction Hh as [|evs w1 s1 o out dr w2 Hh IH Hop Hstep Hside]; [constructor|]. econstructor; try done. apply Hside.
Qed.

Lemma unbroken_shape evs w s : unbroken_history evs w s → shape_ok (w_comps w) (s_reg s) (s_grouped s).
Proof.
  intros (w0 & s0 & Hb & Hh). destruct (built_inv _ _ Hb) as (_ & ds & [_ HI] & _).
  induction Hh as [|evs w1 s1 o out dr w2 Hh IH Hop Hstep Hside]; [by eapply cinv_shape|]. by eapply step_shape_ok.
Qed.

Lemma good_unbroken evs w s : good_history evs w s → unbroken_history evs w s.
Proof.
  intros (w0 & s0 & Hb & Hh). exists w0, s0. split; [done|].
  destruct (built_inv _ _ Hb) as (Hsv & ds0 & HI & _).
  induction Hh as [|evs w1 s1 o out dr w2 Hh IH Hop Hstep Hside]; [constructor|].
  econstructor; try done. destruct (history_inv _ _ _ _ _ _ HI Hsv Hh) as (Hsv1 & ds1 & HI1 & _).
  destruct (step_inv _ _ _ _ _ _ _ HI1 Hsv1 Hop Hstep Hside) as [Ha _].
  split; [by eapply allowed_ub_free|]. intros l p ->. simpl in Ha. rewrite decide_True in Ha by apply Hside. by subst out.
Qed.

(** ** [clear] and [reset] *)

Lemma bl_clear_empty comps ds : Forall2 brep comps ds →
  ∃ comps', clear_each comps = Ok (comps', stored ds) ∧ Forall (λ c, css_rep c []) comps' ∧ length comps' = length comps.
Proof.
  induction 1 as [|c d comps ds [k Hr] _ IH]; simpl.
  { by exists []. }
  destruct (bc_clear _ _ _ Hr) as (c' & Hc & k' & Hr'). destruct IH as (comps' & Hc' & HF & Hl).
  exists (c' :: comps'). rewrite Hc. simpl. rewrite Hc'. simpl. split; [done|]. split; [|by rewrite Hl]. constructor; [|done].
  pose proof (bc_length _ _ _ Hr') as Hk. destruct k'; [|done]. destruct Hr'. by split.
Qed.

Lemma every_cleared w ds : bstore (w_comps w) ds →
  ∃ s', cstore_clear (w_comps w) = Ok (s', stored ds) ∧ Forall (λ c, css_rep c []) (cs_comps s') ∧ shape_eq (w_comps w) s' ∧
    (∀ k g, cs_groups s' !! k = Some g → g_len g = 0).
Proof.
  intros Hs. destruct (bl_clear_empty _ _ (bt_rep _ _ Hs)) as (comps' & Hc & HF & Hl). unfold cstore_clear. rewrite Hc. simpl.
  eexists. split; [done|]. split; [done|]. split; [split; [apply gms_clear|done|done]|].
  intros k g Hk. simpl in Hk. by apply list_lookup_fmap_inv in Hk as (? & -> & _).
Qed.

Lemma history_binv evs w s : ub_free_history evs w s → ∃ ds, binv w ds.
Proof.
  intros (w0 & s0 & Hb & Hh). destruct Hb as (gs & l & ts & _ & Hb & _). destruct (built_bl _ _ _ Hb) as (ds & HI & _).
  destruct (history_bl _ _ _ _ _ _ HI Hh) as (ds' & HI' & _). by exists ds'.
Qed.

Lemma every_maintain evs w s out ds w' : ub_free_history evs w s → step w OMaintain = (out, ds, w') →
  out = Ret RUnit ∧ ds = [] ∧ (∀ t e, view_get w' t e = view_get w t e) ∧
  (∀ t, world_is_registered w' t = world_is_registered w t).
Proof.
  intros (ds0 & He & Hs)%history_binv Hst. simpl in Hst. unfold world_maintain in Hst.
  destruct (be_maintain _ He) as (en & Hen & _). rewrite Hen in Hst. by injection Hst as <- <- <-.
Qed.

(** [clear] and [reset] empty the world. *)
Lemma every_empty evs w s o out ds w' : ub_free_history evs w s → o = OClear ∨ o = OReset → step w o = (out, ds, w') →
  out = Ret RUnit ∧ world_entities w' = [] ∧
  (∀ e, world_contains w' e = false ∧ has_comps w' e ∅) ∧
  (∀ t, world_is_registered w' t = world_is_registered w t) ∧
  (∀ t, world_is_registered w t = true → view_len w' t = Ok 0) ∧
  world_drop w = Ok ds ∧ world_drop w' = Ok [].
Proof.
  intros (ds0 & He & Hs)%history_binv Ho Hst.
  destruct (every_cleared _ _ Hs) as (s' & Hc & HF & Hsh & _). pose proof (bl_drop_all _ _ (bt_rep _ _ Hs)) as Hdrop.
  assert (∃ en, out = Ret RUnit ∧ ds = stored ds0 ∧ w' = World en s' ∧ st_set en = eset_new) as (en & -> & -> & -> & Hen).
  { destruct Ho as [->| ->]; simpl in Hst.
    - unfold world_clear in Hst. destruct (be_clear _ He) as (en & Hen & _ & _). rewrite Hen, Hc in Hst.
      injection Hst as <- <- <-. exists en. split_and!; try done.
      unfold estore_clear in Hen. destruct (alloc_maintain _) as [[]| |]; [|done..]. simpl in Hen. by injection Hen as <-.
    - unfold world_reset in Hst. rewrite Hc in Hst. injection Hst as <- <- <-. by eexists. }
  assert (Hreg : ∀ t, is_registered s' t = is_registered (w_comps w) t).
  { intros t. unfold is_registered. by rewrite (se_meta _ _ Hsh). }
  assert (Hb : ∀ t, is_registered s' t = true → ∃ c i, cs_borrow s' t = Ok (c, i) ∧ css_rep c []).
  { intros t. unfold is_registered, cs_borrow. destruct (cs_meta s' !! t) as [m|] eqn:Em; [|done]. intros _.
    rewrite (se_meta _ _ Hsh) in Em. apply (bt_in _ _ Hs) in Em. rewrite <-(se_len _ _ Hsh) in Em.
    destruct (lookup_lt_is_Some_2 _ _ Em) as [c Hci]. rewrite Hci. eexists _, _. split; [done|]. by eapply (proj1 (Forall_lookup _ _) HF). }
  split_and!; try done.
  - unfold world_entities, estore_slice. simpl. by rewrite Hen.
  - intros e. split; [unfold world_contains, estore_contains; simpl; by rewrite Hen|].
    intros t. unfold view_get, world_is_registered. simpl. rewrite lookup_empty.
    destruct (is_registered s' t) eqn:Er.
    + destruct (Hb t Er) as (c & i & -> & Hr). pose proof (cr_sparse _ _ Hr) as Hsp. unfold css_get, css_get_ref, sv_get.
      destruct (c_sparse c !! e_sparse e) as [[sl|]|] eqn:E; [|done..]. exfalso. apply Hsp in E as (? & E & _). simpl in E. by rewrite lookup_nil in E.
    + unfold is_registered in Er. unfold cs_borrow. by destruct (cs_meta s' !! t).
  - intros t Ht. unfold world_is_registered in Ht. rewrite <-Hreg in Ht. unfold view_len. simpl.
    destruct (Hb t Ht) as (c & i & -> & Hr). by rewrite (cr_len _ _ Hr).
  - unfold world_drop. simpl. clear -HF. induction HF as [|c l Hc _ IH]; [done|]. simpl. unfold css_drop.
    rewrite (cr_len _ _ Hc). cbn [length]. destruct (c_comps c); simpl; by rewrite IH.
Qed.

(** A [reset] makes the world as good as new. *)
Lemma reset_inv evs w s out ds w1 : unbroken_history evs w s → step w OReset = (out, ds, w1) →
  out = Ret RUnit ∧ w_ents w1 = estore_new ∧ ∃ ds1, winv w1 (client_step s OReset out) ds1.
Proof.
  intros Hu Hst. pose proof (unbroken_shape _ _ _ Hu) as Hsh. destruct (history_binv _ _ _ (unbroken_ub_free _ _ _ Hu)) as (ds0 & He & Hs).
  destruct (every_cleared _ _ Hs) as (s' & Hc & HF & Heq & Hg0). simpl in Hst. unfold world_reset in Hst. rewrite Hc in Hst.
  injection Hst as <- <- <-. split; [done|]. split; [done|].
  exists (replicate (length (cs_comps s')) []). split; [apply (estore_reset_ok (w_ents w) s)|].
  apply shape_empty; [by eapply shape_ok_eq|done|done].
Qed.

Lemma reset_like_new evs w s out ds w1 w0 s0 evs1 v1 t1 evs0 v0 t0 :
  unbroken_history evs w s → step w OReset = (out, ds, w1) →
  built w0 s0 → (∀ t, world_is_registered w0 t = world_is_registered w t) →
  paired w1 (client_step s OReset out) w0 s0 evs1 evs0 v1 t1 v0 t0 →
  out = Ret RUnit ∧ world_drop w = Ok ds ∧
  Forall2 (λ ev1 ev0, same_outcome ev1.1.2 ev0.1.2) evs1 evs0 ∧ same_answers v1 v0 ∧ (s_loose t1 = ∅ → same_queries v1 v0).
Proof.
  intros Hu Hst Hb Hreg Hp. destruct (reset_inv _ _ _ _ _ _ Hu Hst) as (-> & Hen & ds1 & HI1).
  destruct (every_empty _ _ _ _ _ _ _ (unbroken_ub_free _ _ _ Hu) (or_intror eq_refl) Hst) as (_ & _ & _ & Hr1 & _ & Hdrop & _).
  destruct (built_inv _ _ Hb) as (Hsv0 & ds0 & HI0 & _). pose proof (built_ents _ _ Hb) as Hen0.
  assert (same_versions (client_step s OReset (Ret RUnit))) as Hsv1.
  { intros t e1 e2 _ [v Hv]. unfold s_row in Hv. simpl in Hv. rewrite lookup_empty in Hv. simpl in Hv. by rewrite lookup_empty in Hv. }
  assert (agree (client_step s OReset (Ret RUnit)) s0) as Hag.
  { assert (s_reg s = s_reg s0) as Hrg.
    { apply set_eq. intros t. pose proof (winv_registered _ _ _ t HI1) as E1. pose proof (winv_registered _ _ _ t HI0) as E0.
      rewrite Hr1, <-Hreg, E0 in E1. simpl in E1. by rewrite <-(bool_decide_eq_true (t ∈ s_reg s)), <-E1, bool_decide_eq_true. }
    destruct Hb as (gs & l & ts & _ & _ & ->). by split. }
  destruct (paired_inv _ _ _ _ _ _ _ _ _ _ _ _ HI1 HI0 Hsv1 Hsv0 (eq_trans Hen (eq_sym Hen0)) Hag Hp)
    as (_ & _ & [e1 HJ1] & [e0 HJ0] & Hw' & Hag' & HF).
  split_and!; [done..| |].
  - by eapply inv_answers.
  - by eapply inv_queries.
Qed.

(** ** The limits of [set_layout] and the number of storages *)

Lemma sl_leftover_groups sets : ∀ order s, cs_groups (sl_leftover order sets s) = cs_groups s.
Proof. induction order as [|t order IH]; intros s; [done|]. cbn [sl_leftover]. by rewrite IH. Qed.

Lemma set_layout_fate s s1 ds l perm perm1 es : shape_eq s s1 → bstore s ds →
  match set_layout s1 l perm1 [], set_layout s l perm es with
  | SlOk _, SlPanic _ _ | SlPanic _ _, SlOk _ | SlPanic _ _, SlUB => False
  | _, _ => True
  end.
Proof.
  intros He Hs. destruct (extract_eq _ _ He (bt_in _ _ Hs)) as (sets & s0 & sets' & s0' & Hx & Hx' & Hst).
  destruct (bl_extract s ds Hs) as (sets2 & s2 & Hx2 & Hu & _). assert (sets2 = sets ∧ s2 = s0) as [-> ->] by (split; congruence).
  unfold set_layout. rewrite Hx, Hx'. pose proof (sl_families_eq l _ _ Hst) as Hf. pose proof (bl_sl_families _ _ l _ Hu) as Hb.
  destruct (sl_families l (s0, sets)) as [[s3 sets3]|[s3 sets3]], (sl_families l (s0', sets')) as [[s4 sets4]|[s4 sets4]]; try done; simpl in *.
  - destruct Hf as (H1 & _). simpl in H1. rewrite !sl_leftover_groups, H1. destruct (gm_from_to 0 _) as [mask|]; [|done].
    destruct (group_each _ _ mask es) as [[]| |]; done.
  - destruct Hb as (ds1 & H1 & H2 & H3). simpl in *.
    assert (Forall2 brep (snd <$> map_to_list sets3) (content s ds <$> (map_to_list sets3).*1)) as Hrep.
    { rewrite <-list_fmap_compose. apply Forall2_fmap_2, Forall_Forall2_diag, Forall_forall.
      intros [t c] Ht%elem_of_map_to_list. simpl. by apply H2. }
    rewrite (bl_drop_all _ _ Hrep). by destruct (drop_all _).
Qed.

Lemma unbroken_set_layout evs w s l perm out ds w' : unbroken_history evs w s → op_ok (OSetLayout l perm) →
  step w (OSetLayout l perm) = (out, ds, w') →
  if decide (layout_fits l) then ub_free out → out = Ret RUnit ∧ ds = [] ∧ storages w' = storages w + registered_types w'
  else out = Panicked [].
Proof.
  intros Hu Hok Hst. pose proof (unbroken_shape _ _ _ Hu) as Hsh. destruct (history_binv _ _ _ (unbroken_ub_free _ _ _ Hu)) as (ds0 & He & Hs).
  destruct (shadow_inv _ _ _ Hsh) as [ds1 HI]. destruct Hok as [gs Hgs]. pose proof (layout_built_wf _ _ Hgs) as Hwf.
  simpl in Hst. unfold world_set_layout in Hst.
  pose proof (set_layout_fate _ _ _ l perm perm (estore_slice (w_ents w)) (shadow_eq (w_comps w)) Hs) as Hfate.
  case_decide as Hfit.
  - destruct (set_layout_ok _ _ _ _ _ _ l perm [] HI Hwf Hfit) as (r & ds' & Hr & _ & _).
    { intros t e1 e2 v1 v2 _ (r & Hr & _). by rewrite lookup_empty in Hr. }
    { intros e [? He']. by rewrite lookup_empty in He'. }
    rewrite Hr in Hfate. destruct (set_layout (w_comps w) l perm _) as [s'|vs s'|] eqn:E; [|done|].
    + injection Hst as <- <- <-. intros _. split; [done|]. split; [done|]. unfold storages, registered_types. simpl.
      destruct (shape_set_layout _ _ _ _ _ _ _ Hsh Hwf E) as (_ & Hsh' & ->). f_equal. rewrite <-size_dom. f_equal.
      apply set_eq. intros t. by rewrite elem_of_dom, <-(sh_reg _ _ _ Hsh').
    + injection Hst as <- <- <-. done.
  - destruct (set_layout_unfit _ _ _ _ _ _ l perm [] HI Hwf Hfit) as (vs & r & Hr). rewrite Hr in Hfate.
    destruct (set_layout (w_comps w) l perm _); [done| |done]. by injection Hst as <- <- <-.
Qed.

Lemma unbroken_set_layout_count evs w s l perm out ds w' : unbroken_history evs w s → op_ok (OSetLayout l perm) →
  step w (OSetLayout l perm) = (out, ds, w') → unbroken (OSetLayout l perm) out → storages w' = storages w + registered_types w'.
Proof.
  intros Hu Hok Hst [H1 H2]. pose proof (unbroken_set_layout _ _ _ _ _ _ _ _ Hu Hok Hst) as H.
  case_decide; [by apply H|]. subst out. by specialize (H2 _ _ eq_refl).
Qed.

Lemma unbroken_limits evs w s l perm out ds w' : unbroken_history evs w s → op_ok (OSetLayout l perm) →
  step w (OSetLayout l perm) = (out, ds, w') →
  (length (layout_groups l) ≤ 63 ∧ (∀ g, g ∈ layout_groups l → length g ≤ 15) → ub_free out → out = Ret RUnit) ∧
  (¬ (length (layout_groups l) ≤ 63 ∧ ∀ g, g ∈ layout_groups l → length g ≤ 15) → out = Panicked []).
Proof.
  intros Hu Hok Hst. pose proof (unbroken_set_layout _ _ _ _ _ _ _ _ Hu Hok Hst) as H. destruct Hok as [gs Hgs].
  pose proof (fits_groups l (layout_built_wf _ _ Hgs)) as Hf.
  case_decide as Hd; split; intros H1; try done; tauto.
Qed.
