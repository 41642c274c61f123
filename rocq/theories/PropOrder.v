(** C39 *)
From Verif Require Import Base OrderProofs.

(** [cmp] is the lexicographic order on (version, index), which is a strict total
    order, and [Equal] means equality. *)
Theorem C39_entity_order : ∀ a b c : entity,
  (entity_cmp a b = Lt ↔ before a b) ∧ (entity_cmp a b = Eq ↔ a = b) ∧ (entity_cmp a b = Gt ↔ before b a) ∧
  ¬ before a a ∧ (before a b → before b c → before a c) ∧ (before a b ∨ a = b ∨ before b a).
Proof. exact entity_order. Qed.
Print Assumptions C39_entity_order.

Example C39_nonvacuous :
  before (Ent 9 1) (Ent 3 2) ∧ before (Ent 3 2) (Ent 4 2) ∧ entity_cmp (Ent 9 1) (Ent 3 2) = Lt.
Proof. unfold before; simpl; split_and!; [left|right|]; try split; try done; lia. Qed.
