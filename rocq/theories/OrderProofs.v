(** The order on entities. *)
From Verif Require Import Base.

(** Lexicographic order: version first, then index. *)
Definition before (a b : entity) : Prop :=
  (e_version a < e_version b)%N ∨ (e_version a = e_version b ∧ (e_index a < e_index b)%N).

Lemma entity_cmp_spec a b :
  (entity_cmp a b = Lt ↔ before a b) ∧ (entity_cmp a b = Eq ↔ a = b) ∧ (entity_cmp a b = Gt ↔ before b a).
Proof.
  destruct a as [i v], b as [j w]. unfold entity_cmp, before; cbn [e_index e_version].
  destruct (N.compare_spec v w) as [Hv|Hv|Hv].
  - subst. destruct (N.compare_spec i j) as [Hi|Hi|Hi]; split_and!; split; intros H;
      try done; try (destruct H; lia); try (injection H; lia); try (right; split; lia); subst; done.
  - split_and!; split; intros H; try done; try (destruct H; lia); try (injection H; lia); by left.
  - split_and!; split; intros H; try done; try (destruct H; lia); try (injection H; lia); by left.
Qed.

Lemma before_irrefl a : ¬ before a a.
Proof. unfold before. lia. Qed.

Lemma before_trans a b c : before a b → before b c → before a c.
Proof. unfold before. lia. Qed.

Lemma before_total a b : before a b ∨ a = b ∨ before b a.
Proof.
  destruct (entity_cmp_spec a b) as (H1 & H2 & H3).
  destruct (entity_cmp a b); [right; left|left|right; right]; naive_solver.
Qed.

Lemma entity_order a b c :
  (entity_cmp a b = Lt ↔ before a b) ∧ (entity_cmp a b = Eq ↔ a = b) ∧ (entity_cmp a b = Gt ↔ before b a) ∧
  ¬ before a a ∧ (before a b → before b c → before a c) ∧ (before a b ∨ a = b ∨ before b a).
Proof.
  destruct (entity_cmp_spec a b) as (H1 & H2 & H3).
  split_and!; [apply H1|apply H2|apply H3|apply before_irrefl|apply before_trans|apply before_total].
Qed.
