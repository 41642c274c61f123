(** The same calls on two worlds with different layouts, when indices are reused. *)
From Verif Require Import Base LayoutM WorldM QueryM StepM Spec SpecMore SpecLayout SpecFair.

(** As [paired] (Spec.v); in each world the calls only exchange entities of the same
    version. *)
Inductive fair_paired (l1 : layout) (w1 : world) (s1 : sstate) (l2 : layout) (w2 : world) (s2 : sstate)
    : list event → list event → world → sstate → world → sstate → Prop :=
| fair_paired_nil : fair_paired l1 w1 s1 l2 w2 s2 [] [] w1 s1 w2 s2
| fair_paired_snoc evs1 evs2 v1 t1 v2 t2 o1 o2 out1 out2 ds1 ds2 v1' v2' :
    fair_paired l1 w1 s1 l2 w2 s2 evs1 evs2 v1 t1 v2 t2 →
    same_op t1 o1 o2 → determined t1 o1 → op_ok o1 → op_ok o2 →
    step v1 o1 = (out1, ds1, v1') → good_call t1 o1 → fair_call (layout_groups (layout_after l1 evs1)) t1 o1 out1 →
    step v2 o2 = (out2, ds2, v2') → good_call t2 o2 → fair_call (layout_groups (layout_after l2 evs2)) t2 o2 out2 →
    fair_paired l1 w1 s1 l2 w2 s2 (evs1 ++ [(o1, out1, ds1)]) (evs2 ++ [(o2, out2, ds2)])
           v1' (client_step t1 o1 out1) v2' (client_step t2 o2 out2).

(** The client's view after some calls. *)
Definition seen_after (s : sstate) (evs : list event) : sstate :=
  foldl (λ s (ev : event), client_step s ev.1.1 ev.1.2) s evs.

(** No call changes the groups, and the effect of each is determined by the client's view. *)
Definition plain_calls (s : sstate) (evs : list event) : Prop :=
  ∀ pre o out ds post, evs = pre ++ (o, out, ds) :: post →
    determined (seen_after s pre) o ∧ ∀ l p, o ≠ OSetLayout l p.
