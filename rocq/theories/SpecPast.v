(** What of the past of a world matters. *)
From Verif Require Import Base EntityM LayoutM WorldM QueryM StepM Spec SpecMore SpecLayout SpecFair SpecFairPair.

(** What a call did to the handles, whatever the components. *)
Inductive ask := AskCreate | AskQueue | AskDestroy (e : entity) | AskMaintain | AskClear | AskReset.

Definition asks (ev : event) : list ask :=
  match ev.1.1 with
  | OCreate _ | OExtend _ _ _ => replicate (length (reported ev.1.2)) AskCreate
  | OCreateAtomic => replicate (length (reported ev.1.2)) AskQueue
  | ODestroy e => [AskDestroy e]
  | OMaintain => [AskMaintain]
  | OClear => [AskClear]
  | OReset => [AskReset]
  | _ => []
  end.

(** From now on, the same calls have the same outcomes in the two worlds, and the same
    answers after them. *)
Definition alike (l1 : layout) (w1 : world) (s1 : sstate) (l2 : layout) (w2 : world) (s2 : sstate) : Prop :=
  ∀ evs1 evs2 v1 t1 v2 t2, fair_paired l1 w1 s1 l2 w2 s2 evs1 evs2 v1 t1 v2 t2 →
    Forall2 (λ ev1 ev2, same_outcome ev1.1.2 ev2.1.2) evs1 evs2 ∧ same_answers v1 v2 ∧
    (s_loose t1 = ∅ → same_queries v1 v2).

(** Calls that can be replaced by others. *)
Inductive law (s : sstate) : list op → list op → Prop :=
| law_insert_split e cs1 cs2 : all_reg s (cs1 ++ cs2).*1 →
    law s [OInsert e (cs1 ++ cs2)] [OInsert e cs1; OInsert e cs2]
| law_insert_order e cs1 cs2 : all_reg s cs1.*1 → NoDup cs1.*1 → cs1 ≡ₚ cs2 →
    law s [OInsert e cs1] [OInsert e cs2]
| law_insert_swap e1 cs1 e2 cs2 : all_reg s cs1.*1 → all_reg s cs2.*1 → e1 ≠ e2 →
    law s [OInsert e1 cs1; OInsert e2 cs2] [OInsert e2 cs2; OInsert e1 cs1]
| law_delete_split e ts1 ts2 : all_reg s (ts1 ++ ts2) →
    law s [ODelete e (ts1 ++ ts2)] [ODelete e ts1; ODelete e ts2]
| law_delete_order e ts1 ts2 : all_reg s ts1 → (∀ t, t ∈ ts1 ↔ t ∈ ts2) →
    law s [ODelete e ts1] [ODelete e ts2]
| law_delete_swap e1 ts1 e2 ts2 : all_reg s ts1 → all_reg s ts2 →
    law s [ODelete e1 ts1; ODelete e2 ts2] [ODelete e2 ts2; ODelete e1 ts1]
| law_insert_delete_swap e1 cs e2 ts : all_reg s cs.*1 → all_reg s ts →
    e1 ≠ e2 ∨ (∀ t, t ∈ ts → t ∉ cs.*1) →
    law s [OInsert e1 cs; ODelete e2 ts] [ODelete e2 ts; OInsert e1 cs]
| law_delete_insert e ts cs : all_reg s cs.*1 → (∀ t, t ∈ ts → t ∈ cs.*1) →
    law s [ODelete e ts; OInsert e cs] [OInsert e cs]
| law_insert_delete e cs ts : all_reg s ts → (∀ t, t ∈ cs.*1 → t ∈ ts) →
    law s [OInsert e cs; ODelete e ts] [ODelete e ts]
| law_remove e ts : law s [ORemove e ts] [ODelete e ts]
| law_set t e v : is_Some (s_row s e !! t) → law s [OSet t e v] [OInsert e [(t, v)]]
| law_delete_destroy e ts : law s [ODelete e ts; ODestroy e] [ODestroy e]
| law_insert_destroy e cs : all_reg s cs.*1 → law s [OInsert e cs; ODestroy e] [ODestroy e].

(** Calls on entities that have the version of all others they share a group with, so
    that nothing else is exchanged (SpecFair.v): [level L s ops]. *)
Definition names (o : op) (e : entity) : Prop :=
  match o with
  | OInsert e' _ | ODelete e' _ | ORemove e' _ | ODestroy e' | OSet _ e' _ => e = e'
  | _ => False
  end.
Definition has_or_gets (s : sstate) (ops : list op) (e : entity) (t : tid) : Prop :=
  is_Some (s_row s e !! t) ∨ ∃ cs, OInsert e cs ∈ ops ∧ t ∈ cs.*1.
Definition level (L : list (list tid)) (s : sstate) (ops : list op) : Prop :=
  ∀ g e f o t t', g ∈ L → o ∈ ops → names o e → t ∈ g → t' ∈ g →
    has_or_gets s ops e t → has_or_gets s ops f t' → e_version f = e_version e.
