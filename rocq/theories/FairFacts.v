(** Histories whose calls only exchange entities of the same version. *)
From Verif Require Import Base Lists SparseVecM EntityM CssM MaskM LayoutM GroupM StorageM WorldM QueryM StepM
  SparseProofs CssProofs MaskProofs GroupProofs Spec SpecMore SpecLayout SpecMembers SpecFair EntityProofs LayoutProofs StorageProofs StoreOps LayoutOps
  WorldProofs QueryProofs QueryRange QueryIter ForEachProofs History Contents Lockstep Grouped Facts DenseFacts MembersFacts MembersRun.

Global Instance owns_all_dec s e g : Decision (owns_all s e g).
Proof. refine (cast_if (decide (Forall (λ t, is_Some (s_row s e !! t)) g))); unfold owns_all; by rewrite <-Forall_forall. Defined.

(** ** The groups of the store and those of the layout *)

Section groups.
  Context (s : cstore) (ds : list dense) (st : sstate) (reg grp : gset tid) (loose : gset entity).
  Context (HI : cinv s ds (s_map st) reg grp loose) (l : layout) (HL : laid_out l s).

  Lemma row_has e t m : cs_meta s !! t = Some m → has ds (m_index m) e ↔ is_Some (s_row st e !! t).
  Proof using HI.
    intros Hm. rewrite (ci_has_meta _ _ _ _ _ _ HI t m e Hm). unfold is_Some.
    split; intros [v Hv]; exists v; by apply am_has_row.
  Qed.

  Lemma fair_group k gr : cs_groups s !! k = Some gr → ∃ g, layout_groups l !! k = Some g ∧ g ∈ layout_groups l ∧ g ≠ [] ∧
    (∀ e, owns_all st e g ↔ ∀ i, in_group gr i → has ds i e) ∧
    (∀ e, owns_some st e g ↔ ∃ i, in_group gr i ∧ has ds i e).
  Proof using HI HL.
    intros Hk. assert (Hm : (g_meta <$> cs_groups s) !! k = Some (g_meta gr)) by (by rewrite list_lookup_fmap, Hk).
    destruct (Forall2_lookup_l _ _ _ _ _ HL Hm) as (g & Hg & [i0 Hi0] & H1 & H2). exists g.
    split_and!; [done|by eapply elem_of_list_lookup_2| | |].
    - intros ->. destruct (H2 _ Hi0) as (t & _ & Ht & _). by apply elem_of_nil in Ht.
    - intros e. split.
      + intros He i Hi. destruct (H2 i Hi) as (t & m & Ht & Hmt & <-). apply (row_has e t m Hmt). by apply He.
      + intros He t Ht. destruct (H1 t Ht) as (m & Hmt & Hc). apply (row_has e t m Hmt). by apply He.
    - intros e. split.
      + intros (t & Ht & He). destruct (H1 t Ht) as (m & Hmt & Hc). exists (m_index m). split; [done|]. by apply (row_has e t m Hmt).
      + intros (i & Hi & He). destruct (H2 i Hi) as (t & m & Ht & Hmt & <-). exists t. split; [done|]. by apply (row_has e t m Hmt).
  Qed.

  (** Members are complete. *)
  Lemma fair_mem k gr g e : cs_groups s !! k = Some gr → layout_groups l !! k = Some g → mem (cs_groups s) ds k e → owns_all st e g.
  Proof using HI HL.
    intros Hk Hg He. destruct (fair_group k gr Hk) as (g' & Hg' & _ & _ & Ha & _). assert (g' = g) as -> by congruence.
    apply Ha. intros i Hi. by eapply mem_has; [apply HI|done..].
  Qed.

  (** Complete entities that are not loose are members. *)
  Lemma fair_full k gr g e : cs_groups s !! k = Some gr → layout_groups l !! k = Some g → e ∉ loose → owns_all st e g →
    mem (cs_groups s) ds k e.
  Proof using HI HL.
    intros Hk Hg He Ho. destruct (fair_group k gr Hk) as (g' & Hg' & _ & _ & Ha & _). assert (g' = g) as -> by congruence.
    apply (ci_complete _ _ _ _ _ _ HI k gr e Hk He). by apply Ha.
  Qed.

  (** Joining: [E] are loose, as they are about to be grouped. *)
  Lemma fair_enter (E : list entity) e : (∀ f, f ∈ loose → f ∈ E ∨ f ∈ s_loose st) → e ∈ E →
    (∀ g k, layout_groups l !! k = Some g → ¬ mem (cs_groups s) ds k e → may_join st E g) → enter_ok (cs_groups s) ds e.
  Proof using HI HL.
    intros HE He Hj k gr i f Hk Hfull Hn Hi Hf Hnf.
    destruct (fair_group k gr Hk) as (g & Hg & Hin & _ & Ha & Hs).
    apply (Hj g k Hg Hn e f He); [by apply Ha|apply Hs; eauto|].
    destruct (decide (owns_all st f g)) as [Ho|]; [|by right; left].
    destruct (decide (f ∈ loose)) as [Hl|Hl]; [destruct (HE f Hl); auto|].
    destruct Hnf. by eapply fair_full.
  Qed.

  Lemma fair_leave (P : nat → Prop) e : (∀ k g, P k → layout_groups l !! k = Some g → may_leave st e g) → leave_ok P (cs_groups s) ds e.
  Proof using HI HL.
    intros Hl k f HP He Hf. pose proof He as (gr & d & Hk & _).
    destruct (fair_group k gr Hk) as (g & Hg & _). apply (Hl k g HP Hg); by eapply fair_mem.
  Qed.
End groups.

(** ** One call *)

Lemma fair_insert w s ds l e cs :
  winv w s ds → laid_out l (w_comps w) →
  step_given (fair_call (layout_groups l) s (OInsert e cs)) s ds (OInsert e cs) (world_insert w e cs).
Proof.
  intros HI HL. apply step_insert_given; [|done]. intros out r Hf Hall Hr s1 ds1 Hg Hm Hst HC1.
  pose proof HI as [_ HC]. assert (Ha : s_alive s e) by (by exists r). specialize (Hf Ha Hall).
  assert (Hmap : s_map (client_step s (OInsert e cs) out) = <[e := put (s_reg s) cs r]> (s_map s)).
  { unfold client_step, s_row. rewrite decide_True by done. rewrite Hr. simpl. by destruct (panicked out). }
  assert (Hlo : s_loose s ⊆ s_loose (client_step s (OInsert e cs) out)).
  { unfold client_step. rewrite decide_True by done. destruct (panicked out); simpl; set_solver. }
  rewrite <-Hmap in HC1. rewrite <-Hg.
  assert (HL1 : laid_out l s1) by (unfold laid_out; by rewrite Hg, Hm).
  apply (fair_enter _ _ _ _ _ _ HC1 l HL1 [e]); [set_solver|set_solver|].
  intros g k Hk Hn. apply Hf; [by eapply elem_of_list_lookup_2|].
  destruct (decide (e ∈ s_loose s)) as [|Hl]; [by left|]. right. intros Ho. apply Hn. rewrite Hg.
  apply (stable_mem _ _ _ k e (ci_ginv _ _ _ _ _ _ HC) Hst).
  destruct (group_at _ l HL k g Hk) as (gr & Hgr & _).
  by eapply (fair_full _ _ _ _ _ _ HC l HL).
Qed.

Lemma fair_create w s ds l cs :
  winv w s ds → laid_out l (w_comps w) →
  step_given (fair_call (layout_groups l) s (OCreate cs)) s ds (OCreate cs) (world_create w cs).
Proof.
  intros HI HL. apply step_create_given; [|done]. intros out e Hf Hall Hrep Hn s1 ds1 Hg Hm Hst HC1.
  specialize (Hf Hall). rewrite Hrep in Hf.
  assert (Hmap : s_map (client_step s (OCreate cs) out) = <[e := put (s_reg s) cs ∅]> (s_map s)).
  { cbn [client_step]. rewrite Hrep. simpl. by destruct (panicked out). }
  assert (Hlo : s_loose s ⊆ s_loose (client_step s (OCreate cs) out)).
  { cbn [client_step]. rewrite Hrep. destruct (panicked out); simpl; set_solver. }
  rewrite <-Hmap in HC1. rewrite <-Hg.
  assert (HL1 : laid_out l s1) by (unfold laid_out; by rewrite Hg, Hm).
  apply (fair_enter _ _ _ _ _ _ HC1 l HL1 [e]); [set_solver|set_solver|].
  intros g k Hk _. apply Hf. by eapply elem_of_list_lookup_2.
Qed.

Lemma fair_extend w s ds l ts rows p :
  winv w s ds → laid_out l (w_comps w) → Forall (λ r, length r = length ts) rows →
  step_given (fair_call (layout_groups l) s (OExtend ts rows p)) s ds (OExtend ts rows p) (set_extend w ts rows p).
Proof.
  intros HI HL Hlen. apply step_extend_given; [done..|]. intros out new comps ds' Hf Hnew Hnl Hp Hrep HC1 e He.
  specialize (Hf Hp). cbn [client_step] in Hf. rewrite Hp, Hrep in Hf. cbn [loosen] in Hf.
  assert (Hlo : ∀ rows es s, s_loose (add_rows s ts es rows) = s_loose s).
  { clear. intros rows es. revert rows. induction es as [|e es IH]; intros rows s; [done|]. destruct rows as [|r rows]; [done|].
    cbn [add_rows]. by rewrite IH. }
  change (cs_groups (w_comps w)) with (cs_groups (CStore (cs_groups (w_comps w)) (cs_meta (w_comps w)) comps)).
  eapply (fair_enter _ _ _ _ _ _ HC1 l HL new); [|done|].
  - intros f Hfl. rewrite Hlo. set_solver.
  - intros g k Hk _. apply Hf. by eapply elem_of_list_lookup_2.
Qed.

Lemma fair_destroy w s ds l (pre : outcome → Prop) e :
  winv w s ds → laid_out l (w_comps w) →
  (∀ g, g ∈ layout_groups l → may_leave s e g) →
  step_given pre s ds (ODestroy e) (world_destroy w e).
Proof.
  intros HI HL Hf. apply step_destroy_given; [done|]. intros _. pose proof HI as [_ HC].
  apply (fair_leave _ _ _ _ _ _ HC l HL). intros k g _ Hg. apply Hf. by eapply elem_of_list_lookup_2.
Qed.

Lemma fair_leave_types w s ds l e ts is_ mask :
  winv w s ds → laid_out l (w_comps w) →
  (∀ g, g ∈ layout_groups l → meets g ts → may_leave s e g) →
  lookup_metas (cs_meta (w_comps w)) m_delete ts = Some (is_, mask) →
  leave_ok (λ k, bit mask k = true) (cs_groups (w_comps w)) ds e.
Proof.
  intros HI HL Hf Hlm. pose proof HI as [_ HC]. destruct (lookup_metas_Some _ _ _ _ _ Hlm) as [_ Hmask].
  apply (fair_leave _ _ _ _ _ _ HC l HL). intros k g Hb Hg. apply Hf; [by eapply elem_of_list_lookup_2|].
  apply meets_dec_spec. by rewrite <-(delete_bit _ _ _ _ _ _ HC l HL ts mask k g Hmask Hg).
Qed.

Lemma fair_set_layout (pre : outcome → Prop) w s ds l perm :
  winv w s ds → layout_wf l → layout_fits l →
  (∀ g e f, g ∈ layout_groups l → owns_all s e g → owns_some s f g → e_version f = e_version e) →
  step_given pre s ds (OSetLayout l perm) (world_set_layout w l perm).
Proof.
  intros HI Hwf Hfit Hf. apply step_set_layout_given; [done..|]. intros s2 ds2 out _ Hs2 HC2 e He.
  pose proof HI as [_ HC].
  assert (HL2 : laid_out l s2) by (by eapply set_layout_laid_out).
  apply (fair_enter _ _ _ _ _ _ HC2 l HL2 (estore_slice (w_ents w))); [set_solver|done|].
  intros g k Hk _ e1 f _ Ho Hs _. apply (Hf g); [by eapply elem_of_list_lookup_2|done..].
Qed.

Lemma step_given_ask (pre : outcome → Prop) s ds o res :
  (pre res.1.1 → step_given pre s ds o res) → step_given pre s ds o res.
Proof. destruct res as [[out dr] w']. intros H Hp. by apply H. Qed.

Lemma fair_step_ok w s ds l o :
  winv w s ds → laid_out l (w_comps w) → op_ok o → good_call s o →
  step_given (fair_call (layout_groups l) s o) s ds o (step w o).
Proof.
  intros HI HL Hop Hg. apply step_given_ask. intros Hf. destruct o; cbn [step].
  - by apply fair_create.
  - by apply fair_extend.
  - by eapply fair_destroy.
  - by apply step_create_atomic.
  - by apply step_maintain.
  - by apply fair_insert.
  - apply step_remove_given; [done|]. intros is_ mask. by eapply fair_leave_types.
  - apply step_delete_given; [done|]. intros is_ mask. by eapply fair_leave_types.
  - by apply step_clear.
  - by apply step_reset.
  - by apply step_register.
  - destruct Hop as [gs Hgs]. apply fair_set_layout; try done. by eapply layout_built_wf.
  - by apply step_set.
  - by apply step_for_each.
Qed.

Lemma fair_step_inv w s ds l o out dr w' :
  winv w s ds → laid_out l (w_comps w) → op_ok o → good_call s o → step w o = (out, dr, w') →
  fair_call (layout_groups l) s o out →
  allowed s o out ∧
  ∃ ds', winv w' (client_step s o out) ds' ∧
    handed_in o out ++ stored ds ≡ₚ dr ++ handed_out out ++ stored ds'.
Proof.
  intros HI HL Hop Hg Hstep Hf. pose proof (fair_step_ok w s ds l o HI HL Hop Hg) as H.
  rewrite Hstep in H. by apply H.
Qed.

Definition next_layout (l : layout) (o : op) : layout := match o with OSetLayout l' _ => l' | _ => l end.

Lemma layout_after_snoc l evs o out dr : layout_after l (evs ++ [(o, out, dr)]) = next_layout (layout_after l evs) o.
Proof. unfold layout_after. rewrite foldl_app. by destruct o. Qed.

Lemma fair_step_layout w s ds l o out dr w' :
  winv w s ds → laid_out l (w_comps w) → op_ok o → good_call s o → step w o = (out, dr, w') →
  allowed s o out → laid_out (next_layout l o) (w_comps w').
Proof.
  intros HI HL Hop Hg Hstep Hout.
  assert ((∃ l' p, o = OSetLayout l' p) ∨ ∀ l' p, o ≠ OSetLayout l' p) as [(l' & p & ->)|Hne].
  { destruct o; try (right; intros ? ?; discriminate). left. eauto. }
  - destruct Hop as [gs' Hgs']. simpl in Hg, Hout. rewrite decide_True in Hout by done. subst out.
    cbn [step] in Hstep. unfold world_set_layout in Hstep. destruct HI as [HE HC].
    destruct (set_layout (w_comps w) l' p (estore_slice (w_ents w))) as [s'|d s'|] eqn:Hs; inversion Hstep; subst w'. simpl.
    eapply set_layout_laid_out; [exact HC| |done|exact Hs]. by eapply layout_built_wf.
  - assert (next_layout l o = l) as ->. { destruct o; try done. by destruct (Hne l0 perm). }
    eapply laid_out_framed; [exact HL|]. by eapply step_framed.
Qed.

(** ** Histories *)

Lemma fair_run_inv l w0 s0 ds0 evs w s :
  winv w0 s0 ds0 → laid_out l (w_comps w0) → fair_run l w0 s0 evs w s →
  laid_out (layout_after l evs) (w_comps w) ∧ ∃ ds, winv w s ds ∧
    hist_in evs ++ stored ds0 ≡ₚ hist_dropped evs ++ hist_out evs ++ stored ds.
Proof.
  intros HI HL. induction 1 as [|evs w1 s1 o out dr w2 _ [HL1 (ds1 & HI1 & Hb1)] Hop Hstep Hg Hf]; [eauto|].
  destruct (fair_step_inv _ _ _ _ _ _ _ _ HI1 HL1 Hop Hg Hstep Hf) as (Hout & ds2 & HI2 & Hb2).
  split; [rewrite layout_after_snoc; exact (fair_step_layout _ _ _ _ _ _ _ _ HI1 HL1 Hop Hg Hstep Hout)|].
  exists ds2. split; [done|]. unfold hist_in, hist_dropped, hist_out in *. rewrite !bind_app. simpl.
  rewrite !app_nil_r.
  assert (∀ A B C D E F G : list val, A ++ B ≡ₚ C ++ D ++ E → F ++ E ≡ₚ G →
            (A ++ F) ++ B ≡ₚ C ++ D ++ G) as Hperm.
  { intros A B C D E F G H1 H2. rewrite <-H2. rewrite <-(assoc_L (++)), (Permutation_app_comm F B), (assoc_L (++)), H1.
    rewrite <-!(assoc_L (++)). do 2 f_equiv. by rewrite Permutation_app_comm. }
  rewrite (Hperm _ _ _ _ _ _ _ Hb1 Hb2). rewrite <-!(assoc_L (++)). f_equiv.
  rewrite !(assoc_L (++)). by rewrite (Permutation_app_comm (_ ≫= _) dr).
Qed.

Lemma fair_history_inv l evs w s :
  fair_history l evs w s →
  laid_out (layout_after l evs) (w_comps w) ∧
  ∃ ds, winv w s ds ∧ hist_in evs ≡ₚ hist_dropped evs ++ hist_out evs ++ stored ds.
Proof.
  intros (gs & ts & w0 & Hgs & Hb & Hr). pose proof (layout_built_wf _ _ Hgs) as Hwf.
  destruct (builder_ok l ts w0 Hwf Hb) as (_ & _ & ds0 & HI & Hst).
  destruct (fair_run_inv _ _ _ _ _ _ _ HI (built_laid_out _ _ _ Hwf Hb) Hr) as (HL & ds & HI' & Hbal). split; [done|].
  exists ds. split; [done|]. by rewrite Hst, app_nil_r in Hbal.
Qed.

(** The next call is as the client expects. *)
Lemma fair_outcome l evs w s o out dr w' :
  fair_history l evs w s → op_ok o → step w o = (out, dr, w') → good_call s o →
  fair_call (layout_groups (layout_after l evs)) s o out →
  allowed s o out ∧ ub_free out ∧ fair_history l (evs ++ [(o, out, dr)]) w' (client_step s o out).
Proof.
  intros Hh Hop Hstep Hg Hf. destruct (fair_history_inv _ _ _ _ Hh) as (HL & ds & HI & _).
  destruct (fair_step_inv _ _ _ _ _ _ _ _ HI HL Hop Hg Hstep Hf) as (Hout & _).
  split; [done|]. split; [by eapply allowed_ub_free|].
  destruct Hh as (gs & ts & w0 & Hgs & Hb & Hr). exists gs, ts, w0. split_and!; [done..|]. by econstructor.
Qed.

(** Reading. *)
Lemma fair_read l evs w s : fair_history l evs w s →
  NoDup (world_entities w) ∧ (∀ e, e ∈ world_entities w ↔ s_alive s e) ∧
  (∀ e, world_contains w e = bool_decide (s_alive s e)) ∧
  (∀ t, t ∈ s_reg s → ∃ es vs, view_entities w t = Ok es ∧ view_slice w t = Ok vs ∧ view_len w t = Ok (length es) ∧
    length vs = length es ∧ NoDup es ∧ (∀ e x, (e, x) ∈ zip es vs ↔ s_row s e !! t = Some x) ∧
    (∀ e, view_contains w t e = Ok (bool_decide (is_Some (s_row s e !! t)))) ∧
    (∀ e, view_get w t e = Ok (s_row s e !! t))).
Proof.
  intros (_ & ds & HI & _)%fair_history_inv. pose proof HI as [HE _]. split_and!.
  - by eapply einv_nodup.
  - intros e. apply HE.
  - intros e. by apply estore_contains_alive.
  - intros t Ht. by eapply inv_view.
Qed.

Lemma fair_query_all l evs w s G J X :
  fair_history l evs w s → query_ok s G J X →
  ∃ es its, query_all w G J X = Ok its ∧ NoDup es ∧ answers s G es its ∧
    (∀ e, e ∈ es → s_alive s e ∧ has_all (s_row s e) G ∧ has_all (s_row s e) J) ∧
    (plain G J X → simple_exclude s X →
     ∀ e, e ∉ s_loose s → e ∈ es ↔ s_alive s e ∧ matches (s_row s e) G J X) ∧
    (plain G J X → query_is_dense w G J X = Ok false →
     ∀ e, e ∈ es ↔ s_alive s e ∧ matches (s_row s e) G J X).
Proof.
  intros (_ & ds & HI & _)%fair_history_inv Hq.
  destruct (query_all_at w s ds G J X HI Hq) as (es & its & dn & H1 & H2 & H3 & HV).
  exists es, its. split_and!; try done.
  - apply HV.
  - by eapply items_answers.
  - apply HV.
  - intros Hp Hs. by eapply visits_exact.
  - intros Hp Hd. rewrite H2 in Hd. simplify_eq. by apply visits_sparse_exact.
Qed.

Lemma fair_query_one l evs w s G J X e :
  fair_history l evs w s → query_ok s G J X →
  ∃ r, query_one w G J X e = Ok r ∧ query_one_contains w G J X e = Ok (bool_decide (is_Some r)) ∧
    (∀ it, r = Some it → sees e (s_row s e) G = Some (abs_item <$> it)) ∧
    ((∀ p, p ∈ X → part_required p) → is_Some r ↔ matches (s_row s e) G J X).
Proof.
  intros (_ & ds & HI & _)%fair_history_inv Hq.
  destruct (query_one_at w s ds G J X e HI Hq) as (r & H1 & H2 & H3). pose proof HI as [_ HC].
  exists r. split_and!; try done.
  - intros it ->. destruct H3 as (_ & _ & _ & H3). by eapply (items_ok_sees _ _ _ _ _ _ HC).
  - intros Hp. unfold matches. destruct r as [it|].
    + destruct H3 as (? & ? & H3 & _). rewrite (excl_none_plain _ X Hp) in H3. split; eauto.
    + rewrite (excl_none_plain _ X Hp) in H3. split; [by intros [? ?]|done].
Qed.

(** Every value is stored, handed back or dropped, once. *)
Lemma fair_balance l evs w s : fair_history l evs w s → hist_in evs ≡ₚ hist_dropped evs ++ hist_out evs ++ contents s.
Proof.
  intros (_ & ds & HI & Hb)%fair_history_inv. rewrite Hb. by rewrite (stored_contents _ _ _ HI).
Qed.

(** The views of the types of a group start with the same entities. *)
Lemma fair_prefix l evs w s g :
  fair_history l evs w s → g ∈ layout_groups (layout_after l evs) →
  ∃ P, NoDup P ∧ common_prefix w g P ∧
    (∀ e, e ∈ P → s_alive s e ∧ owns_all s e g) ∧
    (∀ e, e ∉ s_loose s → owns_all s e g → e ∈ P).
Proof.
  intros Hh [k Hkg]%elem_of_list_lookup. destruct (fair_history_inv _ _ _ _ Hh) as (HL & ds & HI & _). pose proof HI as [HE HC].
  destruct (group_at _ _ HL k g Hkg) as (gr & Hk & Hm). pose proof (ci_ginv _ _ _ _ _ _ HC) as HG.
  destruct (fair_group _ _ _ _ _ _ HC _ HL k gr Hk) as (g' & Hg' & _ & Hne & Ha & _). assert (g' = g) as -> by congruence.
  assert (Hs0 : in_group gr (g_start (g_meta gr))) by (by eapply in_group_start).
  destruct (gi_wf _ _ HG) as [Hrange _ _ _]. destruct (mw_range _ _ (gi_wf _ _ HG) k (g_meta gr) Hm) as (Hr1 & Hr2 & Hr3).
  destruct (lookup_lt_is_Some_2 ds (g_start (g_meta gr))) as [d0 Hd0]; [lia|].
  pose proof (gi_len _ _ HG k gr _ _ Hk Hs0 Hd0) as Hl0.
  assert (Hlen : length (take (g_len gr) d0.*1) = g_len gr) by (rewrite take_length, fmap_length; lia).
  assert (Hmem : ∀ e, e ∈ take (g_len gr) d0.*1 → mem (cs_groups (w_comps w)) ds k e) by (intros e He; by exists gr, d0).
  exists (take (g_len gr) d0.*1). split_and!.
  - pose proof (css_rep_dnodup _ _ (ci_rep _ _ _ _ _ _ HC) _ _ Hd0) as Hnd.
    rewrite <-(take_drop (g_len gr) d0.*1) in Hnd. by apply NoDup_app in Hnd as [? _].
  - intros t Ht. apply (group_types _ _ _ _ _ _ HC _ HL k (g_meta gr) g t Hm Hkg) in Ht as (m & Hmt & Hc).
    destruct (ci_lookup _ _ _ _ _ _ HC t m Hmt) as (c & d & Hcc & Hd & Hrep).
    exists d.*1. rewrite Hlen. split.
    + unfold view_entities, cs_borrow. rewrite Hmt, Hcc. by apply css_entities_ok.
    + by apply (gi_prefix _ _ HG k gr (m_index m) (g_start (g_meta gr)) d d0 Hk Hc Hs0 Hd Hd0).
  - intros e He%Hmem. split; [|by eapply (fair_mem _ _ _ _ _ _ HC _ HL)].
    eapply (ci_has_alive _ _ _ _ _ _ HC (g_start (g_meta gr))). by eapply mem_has.
  - intros e Hn Ho. destruct (fair_full _ _ _ _ _ _ HC _ HL k gr g e Hk Hkg Hn Ho) as (gr' & d & Hk' & Hd & Hin).
    rewrite Hk in Hk'. inversion Hk'; subst gr'. rewrite Hd0 in Hd. by inversion Hd; subst.
Qed.

(** ** Sound histories are fair *)

Lemma group_type_grouped w s ds l g t :
  winv w s ds → laid_out l (w_comps w) → g ∈ layout_groups l → t ∈ g → t ∈ s_grouped s.
Proof.
  intros [_ HC] HL [k Hk]%elem_of_list_lookup Ht. destruct (group_at _ _ HL k g Hk) as (gr & Hgr & Hm).
  destruct (proj1 (group_types _ _ _ _ _ _ HC l HL k (g_meta gr) g t Hm Hk) Ht) as (m & Hmt & Hc).
  apply (ci_grp _ _ _ _ _ _ HC). eauto 10.
Qed.

Lemma layout_group_nonempty w s ds l g : winv w s ds → laid_out l (w_comps w) → g ∈ layout_groups l → ∃ t, t ∈ g.
Proof.
  intros [_ HC] HL [k Hk]%elem_of_list_lookup. destruct (group_at _ _ HL k g Hk) as (gr & Hgr & Hm).
  destruct (fair_group _ _ _ _ _ _ HC _ HL k gr Hgr) as (g' & Hg' & _ & Hne & _). assert (g' = g) as -> by congruence.
  destruct g as [|t g]; [done|]. exists t. by left.
Qed.

Lemma may_join_same s E g : same_versions s → (∀ t, t ∈ g → t ∈ s_grouped s) → may_join s E g.
Proof. intros Hs Hg e f _ Ho (t & Ht & Hf) _. apply (Hs t f e); [by apply Hg|done|by apply Ho]. Qed.

Lemma may_leave_same s e g : same_versions s → (∃ t, t ∈ g) → (∀ t, t ∈ g → t ∈ s_grouped s) → may_leave s e g.
Proof. intros Hs [t Ht] Hg f He Hf. apply (Hs t f e); [by apply Hg|by apply Hf|by apply He]. Qed.

Lemma grouped_kept s o out : (∀ l p, o ≠ OSetLayout l p) → s_grouped (client_step s o out) = s_grouped s.
Proof.
  intros Ho. destruct o; cbn [client_step]; try done; try (by destruct (decide _)).
  - assert (∀ es s, s_grouped (foldl (λ s e, add_entity s e (put (s_reg s) cs ∅)) s es) = s_grouped s) as H.
    { clear. induction es as [|e es IH]; intros s; [done|]. cbn [foldl]. by rewrite IH. }
    destruct (panicked out); simpl; by rewrite H.
  - assert (∀ es rows s, s_grouped (add_rows s ts es rows) = s_grouped s) as H.
    { clear. induction es as [|e es IH]; intros [|r rows] s; try done. cbn [add_rows]. by rewrite IH. }
    destruct (panicked out); simpl; by rewrite H.
  - assert (∀ es s, s_grouped (foldl add_queued s es) = s_grouped s) as H; [|by apply H].
    clear. induction es as [|e es IH]; intros s; [done|]. cbn [foldl]. by rewrite IH.
  - destruct (decide _); [|done]. by destruct (panicked out).
  - by destruct (Ho l perm).
  - destruct out as [[]| |]; try done.
Qed.

Lemma layout_group_tids l g t : g ∈ layout_groups l → t ∈ g → t ∈ layout_tids l.
Proof.
  unfold layout_groups, layout_tids. rewrite elem_of_list_In, in_concat. intros (x & Hx & Hg) Ht.
  apply in_map_iff in Hx as (fam & <- & Hfam). apply in_map_iff in Hg as (a & <- & Ha).
  rewrite <-elem_of_list_In in Hfam. apply elem_of_list_bind. exists fam. split; [|done].
  rewrite <-(take_drop a (f_comps fam)). apply elem_of_app. by left.
Qed.

Lemma sound_fair_call w s ds l o out :
  winv w s ds → laid_out l (w_comps w) → same_versions s → good_side s o out → fair_call (layout_groups l) s o out.
Proof.
  intros HI HL Hs [_ Hs'].
  assert (Hg : ∀ g, g ∈ layout_groups l → ∀ t, t ∈ g → t ∈ s_grouped s) by (intros; by eapply group_type_grouped).
  assert (Hn : ∀ g, g ∈ layout_groups l → ∃ t, t ∈ g) by (intros; by eapply layout_group_nonempty).
  destruct o; cbn [fair_call]; try done.
  - intros _ g Hin. apply may_join_same; [done|]. rewrite grouped_kept by done. by apply Hg.
  - intros _ g Hin. apply may_join_same; [done|]. rewrite grouped_kept by done. by apply Hg.
  - intros g Hin. apply may_leave_same; [done|by apply Hn|by apply Hg].
  - intros _ _ g Hin _. apply may_join_same; [done|]. rewrite grouped_kept by done. by apply Hg.
  - intros g Hin _. apply may_leave_same; [done|by apply Hn|by apply Hg].
  - intros g Hin _. apply may_leave_same; [done|by apply Hn|by apply Hg].
  - intros g e f Hin He (t & Ht & Hf). apply (Hs' t f e); [|done|by apply He].
    simpl. apply elem_of_list_to_set. by eapply layout_group_tids.
Qed.

Lemma sound_fair l evs w s : good_history_from l evs w s → fair_history l evs w s.
Proof.
  intros (gs & ts & w0 & Hgs & Hb & Hh). exists gs, ts, w0. split_and!; [done..|].
  assert (Hh0 : ∀ evs w s, history good_side w0 (s_init l ts) evs w s → good_history_from l evs w s)
    by (intros; by exists gs, ts, w0).
  induction Hh as [|evs w1 s1 o out dr w2 Hh IH Hok Hstep Hside]; [constructor|].
  econstructor; try done; [apply Hside|]. apply Hh0 in Hh.
  destruct (reachable_inv w1 s1) as (Hsv & ds & HI); [exists evs; by eapply good_from_history|].
  by eapply sound_fair_call; [done|by eapply history_laid_out|..].
Qed.
