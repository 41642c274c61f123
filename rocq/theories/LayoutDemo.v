(** Concrete layouts. *)
From Verif Require Import Base MaskM LayoutM WorldM StepM BuilderM Spec SpecMore SpecLayout LayoutProofs LayoutFacts
  LayoutOps WorldProofs StorageCount BuilderFacts History Demo.

Global Instance inside_dec g h : Decision (inside g h).
Proof. refine (cast_if (decide (Forall (λ t, t ∈ h) g))); unfold inside; by rewrite <-Forall_forall. Defined.
Global Instance no_common_dec g h : Decision (no_common g h).
Proof. refine (cast_if (decide (Forall (λ t, t ∉ h) g))); unfold no_common; by rewrite <-Forall_forall. Defined.
Global Instance meets_dec g h : Decision (meets g h).
Proof. refine (cast_if (decide (Exists (λ t, t ∈ h) g))); unfold meets; by rewrite <-Exists_exists. Defined.
Lemma same_types_inside g h : same_types g h ↔ inside g h ∧ inside h g.
Proof. unfold same_types, inside. split; [intros H; split; intros t; apply H|intros [H1 H2] t; split; auto]. Qed.
Global Instance same_types_dec g h : Decision (same_types g h).
Proof. refine (cast_if (decide (inside g h ∧ inside h g))); by rewrite same_types_inside. Defined.
Global Instance is_group_dec g : Decision (is_group g).
Proof. refine (cast_if (decide (2 ≤ length (norm g)))); by rewrite is_group_norm. Defined.
Global Instance small_dec g : Decision (small g).
Proof. unfold small. apply _. Defined.

Lemma coherent_forall gs : coherent gs ↔ Forall (λ g, Forall (λ h, is_group g → is_group h →
  (inside g h ∨ inside h g ∨ no_common g h) ∧
  Forall (λ k, inside g k → inside h k → inside g h ∨ inside h g) gs) gs) gs.
Proof.
  unfold coherent. rewrite Forall_forall. setoid_rewrite Forall_forall. setoid_rewrite Forall_forall. split.
  - intros H g Hg h Hh Hg1 Hg2. by apply H.
  - intros H g h Hg Hh. by apply H.
Qed.
Global Instance coherent_dec gs : Decision (coherent gs).
Proof.
  refine (cast_if (decide (Forall (λ g, Forall (λ h, is_group g → is_group h →
    (inside g h ∨ inside h g ∨ no_common g h) ∧
    Forall (λ k, inside g k → inside h k → inside g h ∨ inside h g) gs) gs) gs))); by rewrite coherent_forall.
Defined.

Lemma elem_take_lt {A} (l : list A) j h : h ∈ take j l ↔ ∃ i, i < j ∧ l !! i = Some h.
Proof.
  rewrite elem_of_list_lookup. split.
  - intros [i [Hi ?]%lookup_take_Some]. eauto.
  - intros (i & ? & Hi). exists i. by apply lookup_take_Some.
Qed.

Lemma smaller_first_forall gs : smaller_first gs ↔
  Forall (λ j, match gs !! j with
               | Some g => is_group g → Exists (λ h, same_types h g) (take j gs) ∨
                                        Forall (λ h, is_group h → inside h g ∨ no_common h g) (take j gs)
               | None => True
               end) (seq 0 (length gs)).
Proof.
  rewrite Forall_forall. split.
  - intros H j _. destruct (gs !! j) as [g|] eqn:Hj; [|done]. intros Hg. destruct (H j g Hj Hg) as [(i & h & Hi & Hh & Hs)|Ha].
    + left. apply Exists_exists. exists h. split; [|done]. apply elem_take_lt. eauto.
    + right. apply Forall_forall. intros h (i & Hi & Hh)%elem_take_lt. by eapply Ha.
  - intros H j g Hj Hg. specialize (H j). rewrite Hj in H. destruct H as [H|H]; [|done| |].
    + apply elem_of_seq. apply lookup_lt_Some in Hj. lia.
    + left. apply Exists_exists in H as (h & (i & Hi & Hh)%elem_take_lt & Hs). eauto.
    + right. intros i h Hi Hh. rewrite Forall_forall in H. apply H, elem_take_lt. eauto.
Qed.
Global Instance smaller_first_dec gs : Decision (smaller_first gs).
Proof.
  refine (cast_if (decide (Forall (λ j, match gs !! j with
               | Some g => is_group g → Exists (λ h, same_types h g) (take j gs) ∨
                                        Forall (λ h, is_group h → inside h g ∨ no_common h g) (take j gs)
               | None => True
               end) (seq 0 (length gs))))); try by rewrite smaller_first_forall.
  apply Forall_dec. intros j. destruct (gs !! j); apply _.
Defined.

Lemma larger_first_rejected : let gs := [[tA; tB; tC; tD]; [tA; tB]] in
  coherent gs ∧ Forall small gs ∧ add_groups [] gs = None.
Proof. split_and!; [apply (bool_decide_unpack _); by vm_compute..|by vm_compute]. Qed.

Lemma incompatible_accepted : let gs := [[tA; tB]; [tA; tB; tC; tD; tE]; [tA; tB; tF]] in ∃ l,
  Forall small gs ∧ ¬ coherent gs ∧ add_groups [] gs = Some l ∧ ¬ has_groups l gs ∧ ∃ t, t ∈ concat gs ∧ t ∉ layout_tids l.
Proof.
  eexists. split; [|split; [|split; [by vm_compute|]]]; [apply (bool_decide_unpack _); by vm_compute..|].
  split.
  - intros (_ & H & _). destruct (H [tA; tB; tF]) as (g & Hg & Hs); [by apply (bool_decide_unpack _); vm_compute..|].
    assert (tF ∈ g) as Hf by (apply Hs; apply (bool_decide_unpack _); by vm_compute).
    revert Hf. vm_compute in Hg. revert g Hg Hs.
    apply (Forall_forall (λ g, same_types g [tA; tB; tF] → tF ∈ g → False)). apply (bool_decide_unpack _). by vm_compute.
  - exists tF. split; apply (bool_decide_unpack _); by vm_compute.
Qed.

Lemma layout_demo : let gs := [[tA; tB]; [tC; tD]; [tB; tA; tE]; [tF]; [tB; tA]] in
  coherent gs ∧ Forall small gs ∧ smaller_first gs ∧
  add_groups [] gs = Some [Fam [tA; tB; tE] [2; 3]; Fam [tC; tD] [2]].
Proof. split_and!; [apply (bool_decide_unpack _); by vm_compute..|by vm_compute]. Qed.

Lemma many_storages n : ∃ w s, reachable w s ∧ registered_types w = 2 ∧ n < storages w.
Proof.
  destruct (set_layout_again [[tA; tB]] (layout_of [[tA; tB]]) tA) with (n := n) as (w & s & Hr & _ & Hreg & Hst);
    [by vm_compute|apply (bool_decide_unpack _); by vm_compute..|].
  exists w, s. split; [done|]. pose proof (reachable_inv _ _ Hr) as (_ & ds & HI).
  assert (registered_types w = 2) as H2.
  { rewrite (inv_registered _ _ _ HI), Hreg. by vm_compute. }
  split; [done|]. rewrite Hst, H2. lia.
Qed.

Lemma build_loses_type : ∃ cs b w g t,
  bcalls_run builder_default cs = Some b ∧ build b = Some w ∧
  g ∈ told_groups [] cs ∧ is_group g ∧ t ∈ g ∧ world_is_registered w t = false.
Proof.
  exists [BAddGroup [tA; tB]; BAddGroup [tA; tB; tC; tD; tE]; BAddGroup [tA; tB; tF]].
  eexists. eexists. exists [tA; tB; tF], tF. split; [by vm_compute|]. split; [by vm_compute|].
  split_and!; [apply (bool_decide_unpack _); by vm_compute..|by vm_compute].
Qed.

Lemma builder_demo :
  let cs := [BRegister tE; BAddGroup [tC; tD]; BSetLayout [[tA; tB]]; BRegister tA; BAddGroup [tB; tA; tD]] in
  coherent (told_groups [] cs) ∧ Forall small (told_groups [] cs) ∧
  match bcalls_run builder_default cs with
  | Some b => match build b with
              | Some w => map (world_is_registered w) [tA; tB; tC; tD; tE] = [true; true; false; true; true]
              | None => False
              end
  | None => False
  end.
Proof. split_and!; [apply (bool_decide_unpack _); by vm_compute..|by vm_compute]. Qed.

Lemma rejected_changes : ∃ gs l g, add_groups [] gs = Some l ∧ Forall small (g :: gs) ∧
  (add_group_dyn l g).1 = true ∧ ¬ has_groups (add_group_dyn l g).2 gs.
Proof.
  exists [[tA; tB]; [tC; tD]], (layout_of [[tA; tB]; [tC; tD]]), [tA; tB; tC; tD].
  split; [by vm_compute|]. split; [apply (bool_decide_unpack _); by vm_compute|]. split; [by vm_compute|].
  intros (H & _ & _). destruct (H [tA; tB; tC; tD]) as (h & Hh & _ & Hs); [apply (bool_decide_unpack _); by vm_compute|].
  revert h Hh Hs. apply (Forall_forall (λ h, ¬ same_types [tA; tB; tC; tD] h)). apply (bool_decide_unpack _). by vm_compute.
Qed.

Lemma rejected_demo : let gs := [[tA; tB; tC]; [tD; tE]] in let l := layout_of gs in
  add_groups [] gs = Some l ∧ (add_group_dyn l [tA; tC]).1 = true ∧
  (∀ h k, h ∈ layout_groups l → k ∈ layout_groups l → meets h [tA; tC] → meets k [tA; tC] → meets h k).
Proof.
  split; [by vm_compute|]. split; [by vm_compute|]. cbv zeta.
  assert (Forall (λ h, Forall (λ k, meets h [tA; tC] → meets k [tA; tC] → meets h k)
    (layout_groups (layout_of [[tA; tB; tC]; [tD; tE]]))) (layout_groups (layout_of [[tA; tB; tC]; [tD; tE]]))) as H.
  { apply (bool_decide_unpack _). by vm_compute. }
  intros h k Hh Hk. rewrite Forall_forall in H. specialize (H h Hh). simpl in H. rewrite Forall_forall in H. by apply H.
Qed.
