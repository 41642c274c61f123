(** [set_layout] and [register] under the invariant of BlindCss.v. *)
From Verif Require Import Base SparseVecM EntityM CssM MaskM LayoutM GroupM StorageM WorldM
  Lists SparseProofs CssProofs BlindCss StorageProofs LayoutOps BlindStore BlindQuery.

(** Different types have different storages. *)
Definition metas_inj (mt : gmap tid meta) : Prop :=
  ∀ t1 t2 m1 m2, mt !! t1 = Some m1 → mt !! t2 = Some m2 → m_index m1 = m_index m2 → t1 = t2.

(** The invariant of the component storage. *)
Record bstore (s : cstore) (ds : list dense) : Prop := {
  bt_rep : Forall2 brep (cs_comps s) ds;
  bt_in : metas_in (cs_meta s) (length (cs_comps s));
  bt_inj : metas_inj (cs_meta s)
}.

Lemma bstore_bst s ds : bstore s ds → bst s.
Proof. intros [H1 H2 _]. split; [by eapply all_brep|done]. Qed.

Lemma bstore_new : bstore cstore_new [].
Proof. split; simpl; [constructor|intros ? ? H; by rewrite lookup_empty in H|intros ? ? ? ? H; by rewrite lookup_empty in H]. Qed.

(** A storage is added at the end. *)
Lemma bstore_push gs mt comps ds t m c d : m_index m = length comps → bstore (CStore gs mt comps) ds → brep c d →
  ∀ gs', bstore (CStore gs' (<[t := m]> mt) (comps ++ [c])) (ds ++ [d]).
Proof.
  intros Hm [H1 H2 H3] Hc gs'. simpl in *. split; simpl.
  - apply Forall2_app; [done|]. by constructor.
  - intros t' m' [[<- <-]|[_ H]]%lookup_insert_Some; rewrite app_length; simpl; [lia|]. apply H2 in H. lia.
  - intros t1 t2 m1 m2 [[<- <-]|[? G1]]%lookup_insert_Some [[<- <-]|[? G2]]%lookup_insert_Some Heq; try done.
    + apply H2 in G2. lia.
    + apply H2 in G1. lia.
    + by eapply H3.
Qed.

Lemma bstore_groups gs gs' mt comps ds : bstore (CStore gs mt comps) ds → bstore (CStore gs' mt comps) ds.
Proof. by intros [H1 H2 H3]. Qed.

Lemma bstore_keeps gs gs' mt comps comps' ds : bstore (CStore gs mt comps) ds → bkeeps comps comps' →
  ∃ ds', bstore (CStore gs' mt comps') ds' ∧ stored ds' ≡ₚ stored ds.
Proof.
  intros [H1 H2 H3] [Hl Hk]. simpl in *. destruct (Hk ds H1) as (ds' & Hd & Hp). exists ds'. split; [|done].
  split; simpl; [done|by rewrite Hl|done].
Qed.

Lemma bstore_moves gs gs' mt comps comps' ds vin vout : bstore (CStore gs mt comps) ds → bmoves vin vout comps comps' →
  ∃ ds', bstore (CStore gs' mt comps') ds' ∧ vin ++ stored ds ≡ₚ vout ++ stored ds'.
Proof.
  intros [H1 H2 H3] [Hl Hk]. simpl in *. destruct (Hk ds H1) as (ds' & Hd & Hp). exists ds'. split; [|done].
  split; simpl; [done|by rewrite Hl|done].
Qed.

Lemma bl_register s ds t : bstore s ds → ∃ ds', bstore (register_dyn s t).2 ds' ∧ stored ds' = stored ds.
Proof.
  intros Hs. unfold register_dyn. destruct (cs_meta s !! t) eqn:E; [by exists ds|].
  destruct s as [gs mt comps]. exists (ds ++ [[]]). split; [|rewrite stored_app; apply app_nil_r].
  eapply (bstore_push gs mt comps ds t (meta_plain (length comps))); [done|done|apply brep_new].
Qed.

(** ** Taking the storages out *)

Lemma stored_extract {A} (f : A → nat) (L : list A) : ∀ ds,
  NoDup (f <$> L) → (∀ p, p ∈ L → f p < length ds) →
  stored ds ≡ₚ (L ≫= λ p, (default [] (ds !! f p)).*2) ++
               stored (imap (λ i d, if existsb (λ p, f p =? i) L then [] else d) ds).
Proof.
  induction L as [|p L IH]; intros ds Hnd Hlt.
  - simpl. replace (imap _ ds) with ds; [done|]. apply list_eq. intros i. rewrite list_lookup_imap. by destruct (ds !! i).
  - rewrite fmap_cons in Hnd. inversion Hnd as [|? ? Hnin Hnd']; subst.
    destruct (lookup_lt_is_Some_2 ds (f p)) as [d Hd]; [apply Hlt; left|].
    rewrite bind_cons, Hd. cbn [default from_option id].
    assert (stored ds ≡ₚ d.*2 ++ stored (<[f p := []]> ds)) as ->.
    { apply (stored_insert ds (f p) d [] [] d.*2); [done|]. simpl. by rewrite app_nil_r. }
    rewrite <-(assoc_L (++)). f_equiv. rewrite (IH (<[f p := []]> ds)); [|done|].
    + f_equiv.
      * apply reflexive_eq, bind_ext_in. intros q Hin. rewrite list_lookup_insert_ne; [done|].
        intros Heq. apply Hnin. apply elem_of_list_fmap. by exists q.
      * apply reflexive_eq. f_equal. apply list_eq. intros i. rewrite !list_lookup_imap.
        destruct (decide (f p = i)) as [<-|Hne].
        -- rewrite list_lookup_insert by (by eapply lookup_lt_Some). rewrite Hd. simpl. rewrite Nat.eqb_refl. simpl. by destruct (existsb _ _).
        -- rewrite list_lookup_insert_ne by done. destruct (ds !! i); [|done]. simpl. by destruct (Nat.eqb_spec (f p) i).
    + intros q Hq. rewrite insert_length. apply Hlt. by right.
Qed.

(** The state of [set_layout] in between. *)
Definition bunw (D : tid → dense) (V : list val) (st : sl_state) : Prop :=
  ∃ ds, bstore st.1 ds ∧ (∀ t c, st.2 !! t = Some c → brep c (D t)) ∧ stored ds ++ held D st.2 ≡ₚ V.

Definition bunw_after D V (r : after sl_state) : Prop :=
  match r with Done st | Paniced st => bunw D V st end.

Lemma bl_extract s ds : bstore s ds →
  ∃ sets s0, extract_sets s = Ok (sets, s0) ∧ bunw (content s ds) (stored ds) (s0, sets) ∧ cs_groups s0 = [].
Proof.
  intros [H1 H2 H3]. pose proof (Forall2_length _ _ _ H1) as Hlen.
  unfold extract_sets. destruct (forallb _ _) eqn:Hfa.
  2:{ exfalso. apply not_true_iff_false in Hfa. apply Hfa, Is_true_true, forallb_True, Forall_forall. intros [t m] Ht.
      apply elem_of_map_to_list in Ht. apply Is_true_true, Nat.ltb_lt. simpl. by eapply H2. }
  set (mt := cs_meta s) in *. eexists _, _. split; [done|]. split; [|done].
  assert (Hsets : ∀ t, omap (λ m, cs_comps s !! m_index m) mt !! t = mt !! t ≫= (λ m, cs_comps s !! m_index m))
    by (intros; apply lookup_omap).
  assert (Hsome : ∀ t, is_Some (omap (λ m, cs_comps s !! m_index m) mt !! t) ↔ is_Some (mt !! t)).
  { intros t. rewrite Hsets. destruct (mt !! t) as [m|] eqn:Ht; simpl; [|split; by intros [? ?]]. split; [eauto|intros _].
    apply lookup_lt_is_Some_2. by eapply H2. }
  exists (imap (λ i d, if existsb (λ p : tid * meta, m_index p.2 =? i) (map_to_list mt) then [] else d) ds). simpl. split; [|split].
  - split; simpl; [|intros ? ? H; by rewrite lookup_empty in H|intros ? ? ? ? H; by rewrite lookup_empty in H].
    apply Forall2_same_length_lookup. rewrite !imap_length. split; [done|].
    intros i c d Hc Hd. rewrite list_lookup_imap in Hc. rewrite list_lookup_imap in Hd.
    destruct (cs_comps s !! i) as [c0|] eqn:Ec; [|done]. destruct (ds !! i) as [d0|] eqn:Ed; [|done]. simpl in *.
    injection Hc as <-. injection Hd as <-. destruct (existsb _ _); [apply brep_new|]. by eapply Forall2_lookup_lr.
  - intros t c Hc. rewrite Hsets in Hc. unfold content. fold mt.
    destruct (mt !! t) as [m|] eqn:Ht; simpl in Hc; [|done].
    destruct (Forall2_lookup_l _ _ _ _ _ H1 Hc) as (d & -> & Hr). done.
  - rewrite (stored_extract (λ p : tid * meta, m_index p.2) (map_to_list mt) ds).
    + rewrite Permutation_app_comm. f_equiv. unfold held.
      transitivity ((map_to_list (omap (λ m, cs_comps s !! m_index m) mt)).*1 ≫= (λ t, (content s ds t).*2)).
      { rewrite list_bind_fmap. done. }
      transitivity ((map_to_list mt).*1 ≫= (λ t, (content s ds t).*2)).
      { apply bind_Permutation, NoDup_Permutation; [apply NoDup_fst_map_to_list..|]. intros t.
        rewrite !elem_of_list_fmap. split.
        - intros ([t' c] & -> & Hc). apply elem_of_map_to_list in Hc.
          destruct (proj1 (Hsome t')) as [m Hm]; [eauto|]. exists (t', m). split; [done|]. by apply elem_of_map_to_list.
        - intros ([t' m] & -> & Hc). apply elem_of_map_to_list in Hc.
          destruct (proj2 (Hsome t')) as [c Hm]; [eauto|]. exists (t', c). split; [done|]. by apply elem_of_map_to_list. }
      rewrite !list_bind_fmap. apply reflexive_eq, bind_ext_in. intros [t m] Hm. apply elem_of_map_to_list in Hm. simpl.
      unfold content. fold mt. by rewrite Hm.
    + apply NoDup_fmap_2_strong; [|apply NoDup_map_to_list].
      intros [t m] [t' m'] G1%elem_of_map_to_list G2%elem_of_map_to_list Heq. simpl in Heq.
      assert (t = t') as -> by (by eapply H3). congruence.
    + intros [t m] H%elem_of_map_to_list. simpl. rewrite <-Hlen. by eapply H2.
Qed.

(** ** The loops *)

Lemma then_bunw D V r f :
  bunw_after D V r → (∀ st, bunw D V st → bunw_after D V (f st)) → bunw_after D V (then_ r f).
Proof. destruct r; simpl; auto. Qed.

Lemma bunw_take D V s sets t m gs' : m_index m = length (cs_comps s) → bunw D V (s, sets) →
  bunw D V (CStore gs' (<[t := m]> (cs_meta s)) (cs_comps s ++ [default css_new (sets !! t)]), delete t sets).
Proof.
  intros Hm (ds & Hs & Hset & Hv). destruct s as [gs mt comps]. simpl in *. destruct (sets !! t) as [c|] eqn:Ht; simpl.
  - exists (ds ++ [D t]). simpl. split; [by eapply bstore_push; eauto|]. split.
    + intros t' c' [_ H]%lookup_delete_Some. by apply Hset.
    + rewrite <-Hv, (held_delete D sets t) by (by rewrite Ht). rewrite stored_app. unfold stored at 2. simpl.
      by rewrite app_nil_r, <-(assoc_L (++)).
  - exists (ds ++ [[]]). simpl. split; [eapply bstore_push; [done|exact Hs|apply brep_new]|]. split.
    + intros t' c' [_ H]%lookup_delete_Some. by apply Hset.
    + rewrite delete_notin by done. rewrite stored_app. unfold stored at 2. simpl. by rewrite app_nil_r.
Qed.

Lemma bl_sl_comps D V fam G ge ngs n : ∀ local st,
  bunw D V st → bunw_after D V (sl_comps fam G ge ngs local n st).
Proof.
  induction n as [|n IH]; intros local [s sets] Hu; cbn [sl_comps]; [done|].
  destruct (f_comps fam !! local) as [t|]; [|done]. destruct (gm_from_to G ge); [|done].
  destruct (gm_from_to ngs ge); [|done]. destruct (sm_single local); [|done].
  apply IH. by apply bunw_take.
Qed.

Lemma bl_sl_arities D V fam b G ge : ∀ ar p st,
  bunw D V st → bunw_after D V (sl_arities fam b G ge p ar st).
Proof.
  induction ar as [|a ar IH]; intros p [s sets] Hu; cbn [sl_arities]; [done|].
  destruct (gm_skip_from_to _ _) as [skip|]; [|done].
  destruct (qm_of_include a) as [inc|]; [|done]. destruct (qm_of_exclude p a) as [exc|]; [|done].
  apply then_bunw; [|intros; by apply IH]. apply bl_sl_comps. destruct Hu as (ds & ? & ? & ?). exists ds.
  split; [|done]. simpl. destruct s. by eapply bstore_groups.
Qed.

Lemma bl_sl_families D V : ∀ l st, bunw D V st → bunw_after D V (sl_families l st).
Proof.
  induction l as [|fam l IH]; intros st Hu; cbn [sl_families]; [done|].
  apply then_bunw; [by apply bl_sl_arities|done].
Qed.

Lemma bl_leftover D : ∀ order sets s ds,
  bstore s ds → (∀ t c, sets !! t = Some c → brep c (D t)) → NoDup order → (∀ t, t ∈ order → is_Some (sets !! t)) →
  ∃ ds', bstore (sl_leftover order sets s) ds' ∧ stored ds' = stored ds ++ (order ≫= λ t, (D t).*2) ∧
    cs_groups (sl_leftover order sets s) = cs_groups s.
Proof.
  induction order as [|t order IH]; intros sets s ds Hs Hset Hnd Hin; cbn [sl_leftover].
  { exists ds. simpl. by rewrite app_nil_r. }
  destruct (Hin t) as [c Hc]; [left|]. rewrite Hc. cbn [default from_option id]. apply NoDup_cons in Hnd as [_ Hnd].
  destruct s as [gs mt comps]. simpl in *.
  destruct (IH sets (CStore gs (<[t := meta_plain (length comps)]> mt) (comps ++ [c])) (ds ++ [D t])) as (ds' & H1 & H2 & H3).
  - eapply (bstore_push gs mt comps); [done|done|by apply Hset].
  - done.
  - done.
  - intros t' ?. apply Hin. by right.
  - exists ds'. split; [done|]. split; [|done]. rewrite H2, stored_app. unfold stored at 2. simpl. by rewrite app_nil_r, <-(assoc_L (++)).
Qed.

Lemma bl_set_layout s ds l perm es : bstore s ds →
  match set_layout s l perm es with
  | SlOk s' => ∃ ds', bstore s' ds' ∧ stored ds' ≡ₚ stored ds
  | SlPanic vs s' => ∃ ds', bstore s' ds' ∧ vs ++ stored ds' ≡ₚ stored ds
  | SlUB => True
  end.
Proof.
  intros Hs. unfold set_layout. destruct (bl_extract s ds Hs) as (sets & s0 & -> & Hu & _).
  pose proof (bl_sl_families _ _ l _ Hu) as Hf. destruct (sl_families l (s0, sets)) as [[s1 sets1]|[s1 sets1]]; simpl in Hf.
  - destruct Hf as (ds1 & H1 & H2 & H3). simpl in *.
    destruct (bl_leftover (content s ds) (order_by perm sets1) sets1 s1 ds1) as (ds2 & H4 & H5 & H6); [done|done|apply order_by_NoDup|by intros t; rewrite order_by_elem|].
    set (s2 := sl_leftover (order_by perm sets1) sets1 s1) in *.
    assert (stored ds2 ≡ₚ stored ds) as Hp.
    { rewrite H5, <-H3. f_equiv. unfold held. rewrite <-(list_bind_fmap fst (λ t, (content s ds t).*2)).
      apply bind_Permutation, NoDup_Permutation; [apply order_by_NoDup|apply NoDup_fst_map_to_list|]. intros t.
      rewrite order_by_elem, elem_of_list_fmap. split.
      - intros [c Hc]. exists (t, c). split; [done|]. by apply elem_of_map_to_list.
      - intros ([t' c] & -> & Hc). apply elem_of_map_to_list in Hc. by exists c. }
    destruct (gm_from_to _ _) as [mask|]; [|by exists ds2].
    pose proof (group_each_keeps mask es (cs_comps s2) (cs_groups s2)) as Hk.
    destruct (group_each _ _ mask es) as [[comps gs]| |]; [|done..].
    destruct s2 as [gs2 mt2 comps2]. simpl in *.
    destruct (bstore_keeps _ gs _ _ _ _ H4 (Hk _ eq_refl)) as (ds3 & H7 & H8). exists ds3. split; [done|]. by rewrite H8.
  - destruct Hf as (ds1 & H1 & H2 & H3). simpl in *.
    assert (Forall2 brep (snd <$> map_to_list sets1) (content s ds <$> (map_to_list sets1).*1)) as Hrep.
    { rewrite <-list_fmap_compose. apply Forall2_fmap_2, Forall_Forall2_diag, Forall_forall.
      intros [t c] Ht%elem_of_map_to_list. simpl. by apply H2. }
    rewrite (bl_drop_all _ _ Hrep). exists ds1. split; [done|]. rewrite <-H3.
    rewrite (Permutation_app_comm _ (stored ds1)). f_equiv. unfold held, stored.
    rewrite <-list_fmap_compose. generalize (map_to_list sets1). intros L. induction L as [|[t c] L IHL]; [done|]. simpl. by f_equiv.
Qed.

(** ** Without groups *)

Lemma plain_new : plain_store cstore_new.
Proof. split; [done|]. intros t m H. simpl in H. by rewrite lookup_empty in H. Qed.

Lemma plain_push gs mt comps t c : plain_store (CStore gs mt comps) →
  plain_store (CStore gs (<[t := meta_plain (length comps)]> mt) (comps ++ [c])).
Proof. intros [H1 H2]. split; [done|]. simpl in *. intros t' m [[<- <-]|[_ H]]%lookup_insert_Some; [done|]. by eapply H2. Qed.

Lemma plain_register s t : plain_store s → plain_store (register_dyn s t).2.
Proof. intros Hp. unfold register_dyn. destruct (cs_meta s !! t); [done|]. destruct s. by apply plain_push. Qed.

Lemma plain_register_all ts : ∀ s, plain_store s → plain_store (register_all s ts).
Proof. induction ts as [|t ts IH]; intros s Hs; simpl; [done|]. by apply IH, plain_register. Qed.

Lemma plain_leftover : ∀ order sets s, plain_store s → plain_store (sl_leftover order sets s).
Proof.
  induction order as [|t order IH]; intros sets s Hs; cbn [sl_leftover]; [done|]. apply IH. destruct s. by apply plain_push.
Qed.

(** Without groups grouping an entity does nothing. *)
Lemma group_none comps e : do_group comps [] 0 e = Ok (comps, []).
Proof. unfold do_group. by vm_compute. Qed.

Lemma group_each_none comps : ∀ es, group_each comps [] 0 es = Ok (comps, []).
Proof. induction es as [|e es IH]; [done|]. cbn [group_each]. by rewrite group_none. Qed.

Lemma plain_set_layout s ds perm es : bstore s ds →
  ∃ s', set_layout s [] perm es = SlOk s' ∧ plain_store s'.
Proof.
  intros Hs. unfold set_layout. destruct (bl_extract s ds Hs) as (sets & s0 & Hx & Hu & Hg). rewrite Hx. simpl.
  assert (plain_store s0) as Hp.
  { split; [done|]. unfold extract_sets in Hx. destruct (forallb _ _); [|done]. injection Hx as _ <-. simpl.
    intros t m H. by rewrite lookup_empty in H. }
  pose proof (plain_leftover (order_by perm sets) sets s0 Hp) as Hl.
  set (s2 := sl_leftover (order_by perm sets) sets s0) in *. rewrite (pl_groups _ Hl).
  assert (gm_from_to 0 (length (@nil group)) = Some 0%N) as -> by (by vm_compute).
  rewrite group_each_none. eexists. split; [done|]. split; [done|]. apply Hl.
Qed.
