(** Builders: which worlds they build. *)
From Verif Require Import Base EntityM MaskM LayoutM StorageM WorldM StepM BuilderM Spec SpecMore SpecLayout LayoutProofs LayoutFacts
  StorageProofs LayoutOps WorldProofs History StorageCount.

Lemma built_limits gs l ts : add_groups [] gs = Some l →
  is_Some (builder_build l ts) ↔ length (layout_groups l) ≤ 63 ∧ ∀ g, g ∈ layout_groups l → length g ≤ 15.
Proof.
  intros H%layout_built_wf. rewrite <-fits_groups by done. split.
  - intros [w Hw]. by eapply builder_ok.
  - intros Hf. by apply builder_some.
Qed.

(** ** The builder *)

Lemma bcalls_groups : ∀ cs b b' gs, add_groups [] gs = Some (b_layout b) → bcalls_run b cs = Some b' →
  add_groups [] (told_groups gs cs) = Some (b_layout b') ∧ b_types b' = b_types b ++ told_types cs.
Proof.
  induction cs as [|c cs IH]; intros b b' gs Hg Hr; simpl in Hr.
  { injection Hr as <-. by rewrite app_nil_r. }
  destruct (bcall_run b c) as [b1|] eqn:Hc; [|done]. destruct c as [gs'|g|t]; simpl in Hc.
  - destruct (add_groups [] gs') as [l|] eqn:Hl; [|done]. injection Hc as <-. apply (IH (Builder l (b_types b)) b' gs' Hl Hr).
  - destruct (add_group_dyn (b_layout b) g) as [[] l] eqn:Hl; [done|]. injection Hc as <-.
    apply (IH (Builder l (b_types b)) b' (gs ++ [g])); [|done]. clear IH Hr. revert Hg. generalize (@nil family).
    induction gs as [|g0 gs IH]; intros l0; simpl.
    + intros [= ->]. by rewrite Hl.
    + destruct (add_group_dyn l0 g0) as [[] l1]; [done|]. apply IH.
  - injection Hc as <-. destruct (IH (Builder (b_layout b) (b_types b ++ [t])) b' gs Hg Hr) as [H1 H2]. split; [done|]. rewrite H2. simpl. by rewrite <-app_assoc.
Qed.


Lemma register_steps : ∀ ts w, foldl (λ w t, (step w (ORegister t)).2) w ts = World (w_ents w) (register_all (w_comps w) ts).
Proof.
  induction ts as [|t ts IH]; intros w; simpl; [by destruct w|]. rewrite IH. unfold world_register.
  by destruct (register_dyn (w_comps w) t).
Qed.

Lemma build_world cs b :
  bcalls_run builder_default cs = Some b →
  add_groups [] (told_groups [] cs) = Some (b_layout b) ∧
  (build b = None ↔ world_new (b_layout b) = None) ∧
  ∀ w, build b = Some w →
    (∃ w0, world_new (b_layout b) = Some w0 ∧ w = foldl (λ w t, (step w (ORegister t)).2) w0 (told_types cs)) ∧
    world_entities w = [] ∧
    (∀ t, world_is_registered w t = true ↔ (∃ g, g ∈ layout_groups (b_layout b) ∧ t ∈ g) ∨ t ∈ told_types cs) ∧
    (∀ t, world_is_registered w t = true → view_len w t = Ok 0) ∧
    ∃ s, reachable w s.
Proof.
  intros Hr. destruct (bcalls_groups cs builder_default b [] eq_refl Hr) as [Hg Ht]. simpl in Ht.
  pose proof (layout_built_wf _ _ Hg) as Hwf.
  split; [done|]. unfold build, builder_build. split; [by destruct (world_new _)|].
  intros w Hw. rewrite Ht in Hw.
  assert (reachable w (s_init (b_layout b) (told_types cs))) as Hre.
  { exists [], w, (s_init (b_layout b) (told_types cs)). split; [|constructor].
    exists (told_groups [] cs), (b_layout b), (told_types cs). done. }
  split.
  { destruct (world_new (b_layout b)) as [w0|]; [|done]. exists w0. split; [done|]. injection Hw as <-. by rewrite register_steps. }
  assert (∀ t, world_is_registered w t = true ↔ t ∈ s_reg (s_init (b_layout b) (told_types cs))) as Hreg.
  { intros t. rewrite (reach_registered _ _ _ Hre). apply bool_decide_eq_true. }
  split.
  { destruct (world_entities w) as [|e es] eqn:E; [done|]. destruct (reach_entities w _ Hre) as (_ & H & _).
    exfalso. specialize (H e). rewrite E in H. destruct H as [H _]. specialize (H (elem_of_list_here _ _)). unfold s_alive in H. simpl in H. rewrite lookup_empty in H. by destruct H. }
  split; [|split; [|eauto]].
  - intros t. rewrite Hreg, <-layout_tids_groups by done. simpl. by rewrite elem_of_union, !elem_of_list_to_set.
  - intros t Htr. apply Hreg in Htr. destruct (reach_view _ _ _ Hre Htr) as (es & vs & _ & _ & -> & Hes).
    destruct Hes as (Hlen & _ & Hes & _). destruct es as [|e es]; [done|]. destruct vs as [|v vs]; [done|].
    exfalso. destruct (Hes e v) as [H _]. specialize (H (elem_of_list_here _ _)). unfold s_row in H. simpl in H. by rewrite lookup_empty in H.
Qed.

(** ** [set_layout] on a world *)

Lemma set_layout_limits w s l perm out ds w' :
  reachable w s → op_ok (OSetLayout l perm) → step w (OSetLayout l perm) = (out, ds, w') →
  (length (layout_groups l) ≤ 63 ∧ (∀ g, g ∈ layout_groups l → length g ≤ 15) →
     same_versions (client_step s (OSetLayout l perm) (Ret RUnit)) → out = Ret RUnit) ∧
  (¬ (length (layout_groups l) ≤ 63 ∧ ∀ g, g ∈ layout_groups l → length g ≤ 15) → out = Panicked []).
Proof.
  intros Hr Hok Hs. pose proof (reachable_inv _ _ Hr) as (Hsv & ds0 & HI). simpl in Hok, Hs. destruct Hok as [gs Hgs].
  pose proof (layout_built_wf gs l Hgs) as Hwf. rewrite <-(fits_groups l Hwf).
  unfold world_set_layout in Hs. destruct HI as [HE HC]. split.
  - intros Hf Hsv'. assert (Hes : ∀ e, is_Some (s_map s !! e) → e ∈ estore_slice (w_ents w)) by (intros e He; by apply HE).
    apply same_versions_uniform in Hsv'. simpl in Hsv'.
    destruct (set_layout_ok _ _ _ _ _ _ l perm (estore_slice (w_ents w)) HC Hwf Hf Hsv' Hes) as (s1 & ds2 & Heq & _).
    rewrite Heq in Hs. by injection Hs as <- <- <-.
  - intros Hn. destruct (set_layout_unfit _ _ _ _ _ _ l perm (estore_slice (w_ents w)) HC Hwf Hn) as (vs & s' & Heq).
    rewrite Heq in Hs. by injection Hs as <- <- <-.
Qed.

Lemma large_group l g : ¬ small g → (add_group_dyn l g).1 = true.
Proof.
  intros Hn. assert (¬ length (norm g) ≤ 16) as Hn' by (by rewrite <-small_norm). unfold add_group_dyn.
  change (dedup (sort_tids g)) with (norm g). destruct (Nat.leb_spec (length (norm g)) 1) as [|_]; [lia|].
  unfold max_group_arity. destruct (Nat.ltb_spec 16 (length (norm g))) as [|]; [done|lia].
Qed.

(** The layout with one group, set again and again. *)
Lemma set_layout_again gs l t : add_groups [] gs = Some l → layout_fits l → t ∈ layout_tids l → ∀ n, ∃ w s,
  reachable w s ∧ s_map s = ∅ ∧ s_reg s = list_to_set (layout_tids l) ∧
  storages w = registered_types w + n * registered_types w.
Proof.
  intros Hgs Hf Ht. pose proof (layout_built_wf gs l Hgs) as Hwf. induction n as [|n (w & s & Hr & Hm & Hreg & Hst)].
  - destruct (builder_some l [] Hwf Hf) as [w Hw]. exists w, (s_init l []).
    assert (reachable w (s_init l [])) as Hr.
    { exists [], w, (s_init l []). split; [by exists gs, l, []|constructor]. }
    split; [done|]. split; [done|]. simpl. rewrite (right_id_L ∅ (∪)). split; [done|].
    rewrite Nat.add_0_r. pose proof (reachable_inv _ _ Hr) as (_ & ds & HI). rewrite (inv_registered _ _ _ HI). simpl.
    rewrite (right_id_L ∅ (∪)).
    unfold builder_build, world_new in Hw.
    destruct (set_layout cstore_new l [] []) as [s'| |] eqn:E; [|done..]. injection Hw as <-. unfold storages. simpl.
    rewrite (set_layout_count _ _ _ _ _ _ l [] [] s' cinv_empty Hwf Hf E). by rewrite (right_id_L ∅ (∪)).
  - destruct (step w (OSetLayout l [])) as [[out ds] w'] eqn:Hs.
    assert (same_versions (client_step s (OSetLayout l []) (Ret RUnit))) as Hsv.
    { apply same_versions_uniform. simpl. rewrite Hm. apply am_uniform_empty. }
    assert (op_ok (OSetLayout l [])) as Hok by (by exists gs).
    destruct (set_layout_limits w s l [] out ds w' Hr Hok Hs) as [Hout _].
    rewrite (Hout (proj1 (fits_groups l Hwf) Hf) Hsv) in Hs.
    assert (good_side s (OSetLayout l []) (Ret RUnit)) as Hg by done.
    pose proof (reach_set_layout_count w s l [] _ ds w' Hr Hok Hs Hg) as Hc.
    assert (reachable w' (client_step s (OSetLayout l []) (Ret RUnit))) as Hr'.
    { destruct Hr as (evs & w0 & s0 & Hb & Hh). eexists _, w0, s0. split; [done|]. by econstructor. }
    exists w', (client_step s (OSetLayout l []) (Ret RUnit)). split; [done|]. split; [done|].
    assert (s_reg (client_step s (OSetLayout l []) (Ret RUnit)) = list_to_set (layout_tids l)) as Hreg'.
    { simpl. rewrite Hreg. set_solver. }
    split; [done|]. rewrite Hc, Hst.
    pose proof (reachable_inv _ _ Hr) as (_ & ? & HI). pose proof (reachable_inv _ _ Hr') as (_ & ? & HI').
    rewrite (inv_registered _ _ _ HI), (inv_registered _ _ _ HI'), Hreg, Hreg'. lia.
Qed.

Lemma rejected_group gs l g : add_groups [] gs = Some l →
  (∀ h k, h ∈ layout_groups l → k ∈ layout_groups l → meets h g → meets k g → meets h k) →
  (add_group_dyn l g).1 = true → (add_group_dyn l g).2 = l.
Proof. intros H%layout_built_wf. by apply rejected_unchanged. Qed.

Lemma build_coherent cs b w t :
  bcalls_run builder_default cs = Some b → build b = Some w →
  coherent (told_groups [] cs) → Forall small (told_groups [] cs) →
  world_is_registered w t = true ↔
    (∃ g, g ∈ told_groups [] cs ∧ is_group g ∧ t ∈ g) ∨ t ∈ told_types cs.
Proof.
  intros Hr Hb Hc Hsm. destruct (build_world cs b Hr) as (Hg & _ & H). destruct (H w Hb) as (_ & _ & -> & _).
  destruct (coherent_groups _ Hc Hsm) as [_ Hh]. destruct (Hh _ Hg) as (H1 & H2 & _).
  f_equiv. split.
  - intros (g & Hgl & Ht). destruct (H1 g Hgl) as (h & Hh1 & Hh2 & Hs). exists h. split_and!; [done|done|by apply Hs].
  - intros (h & Hh1 & Hh2 & Ht). destruct (H2 h Hh1 Hh2) as (g & Hgl & Hs). exists g. split; [done|by apply Hs].
Qed.
