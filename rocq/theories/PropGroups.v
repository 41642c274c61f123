(** C52: what one call of [add_group] does; C47: when a rejected one changes the layout. *)
From Verif Require Import Base LayoutM StorageM WorldM StepM Spec SpecMore SpecLayout SpecGroups Demo LayoutFacts AddGroupFacts RejectFacts.

(** ** C52 *)

(** A group of fewer than two types is ignored. *)
Theorem C52_no_group : ∀ l g, ¬ is_group g → add_group_dyn l g = (false, l).
Proof. exact add_group_dyn_no. Qed.
Print Assumptions C52_no_group.

(** Which groups are taken, and the layout then: a known group changes nothing; a
    group with no larger one touched is added; a group with a larger one touched is
    never one of the groups afterwards, though the layout has one more. *)
Theorem C52_add_group : ∀ gs l g, add_groups [] gs = Some l → is_group g →
  ((add_group_dyn l g).1 = false ↔ small g ∧ taken (layout_groups l) g) ∧
  ∀ l', add_group_dyn l g = (false, l') →
    ((∃ h, h ∈ layout_groups l ∧ same_types h g) → l' = l) ∧
    (no_such (layout_groups l) g → (∀ h, touched (layout_groups l) g h → types_of h ≤ types_of g) →
      ∃ g', same_types g' g ∧ layout_groups l' ≡ₚ layout_groups l ++ [g']) ∧
    (no_such (layout_groups l) g → (∃ h, touched (layout_groups l) g h ∧ types_of g < types_of h) →
      no_such (layout_groups l') g ∧ length (layout_groups l') = S (length (layout_groups l))).
Proof. exact add_group_call. Qed.
Print Assumptions C52_add_group.

Definition after (l : layout) (g : list tid) : option (list (list tid)) :=
  match add_group_dyn l g with (false, l') => Some (layout_groups l') | _ => None end.

Example C52_nonvacuous :
  let gs := [[tA; tB]; [tE; tF]; [tA; tB; tC; tD]] in let l := layout_of gs in
  add_groups [] gs = Some l ∧ layout_groups l = [[tA; tB]; [tA; tB; tC; tD]; [tE; tF]] ∧
  (∀ g, g ∈ [[tB; tA; tB]; [tA; tB; tC; tD; 7%N]; [7%N; 8%N]; [tB; tA; 7%N]; [tA; tB; tC]; [tA; tE]] → is_group g) ∧
  (** known, larger, separate *)
  after l [tB; tA; tB] = Some (layout_groups l) ∧
  after l [tA; tB; tC; tD; 7%N] = Some [[tA; tB]; [tA; tB; tC; tD]; [tA; tB; tC; tD; 7%N]; [tE; tF]] ∧
  after l [7%N; 8%N] = Some (layout_groups l ++ [[7%N; 8%N]]) ∧
  (** taken, but the groups are now others *)
  after l [tB; tA; 7%N] = Some [[tC; tD]; [tC; tD; tA]; [tC; tD; tA; tB]; [tE; tF]] ∧
  (** rejected *)
  after l [tA; tB; tC] = None ∧ after l [tA; tE] = None.
Proof.
  cbv zeta. split; [by vm_compute|]. split; [by vm_compute|]. split.
  - intros g Hg. apply is_group_norm. repeat (apply elem_of_cons in Hg as [->|Hg]; [vm_compute; lia|]). by apply elem_of_nil in Hg.
  - split_and!; by vm_compute.
Qed.

(** ** C47 *)

(** A rejected group changes the layout if and only if it is not too large and the
    first of the groups it touches, with those that share types with that one, would
    have taken it. *)
Theorem C47_rejected_exactly : ∀ gs l g, add_groups [] gs = Some l → (add_group_dyn l g).1 = true →
  (add_group_dyn l g).2 ≠ l ↔ small g ∧ first_takes (layout_groups l) g.
Proof. exact rejected_exactly. Qed.
Print Assumptions C47_rejected_exactly.

(** Two rejected groups that share types with both groups; only the first changes the layout. *)
Example C47_exactly_nonvacuous :
  let l := layout_of [[tA; tB]; [tC; tD]] in
  add_groups [] [[tA; tB]; [tC; tD]] = Some l ∧
  (add_group_dyn l [tA; tB; tC]).1 = true ∧ (add_group_dyn l [tA; tB; tC]).2 ≠ l ∧
  (add_group_dyn l [tA; tC; tD]).1 = true ∧ (add_group_dyn l [tA; tC; tD]).2 = l.
Proof. cbv zeta. repeat (split; [vm_compute; (reflexivity || discriminate)|]). vm_compute. reflexivity. Qed.
