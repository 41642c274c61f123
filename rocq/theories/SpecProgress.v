(** Counting the accesses of concurrent [create_atomic] calls. *)
From Verif Require Import Base EntityM WorldM StepM AtomicM.

(** Only the newest values can be read. *)
Definition newest (sh : shared) : shared := Shared (take 1 (sh_rsm sh)) (take 1 (sh_next sh)).

(** The compare-exchange a thread is about to make expects the value that is there. *)
Definition can_swap (sh : shared) (p : pc) : Prop :=
  (∃ v, p = PCasR v ∧ head (sh_rsm sh) = Some v) ∨ (∃ v, p = PCasN v ∧ head (sh_next sh) = Some v).

(** An access with result [r] reads the newest value, and does not fail for no reason. *)
Definition prompt (recycled : list entity) (sh : shared) (p : pc) (r : pc * list outcome) : Prop :=
  (∃ sh', access recycled (newest sh) p sh' r) ∧ (can_swap sh p → r.2 ≠ []).

(** Schedules with the number of accesses, and of those that are not prompt. *)
Inductive counted (recycled : list entity) (sh0 : shared) (ths0 : list pc)
    : nat → nat → list (nat * outcome) → shared → list pc → Prop :=
| CountNil : counted recycled sh0 ths0 0 0 [] sh0 ths0
| CountPrompt a k tr sh ths t p sh' p' outs :
    counted recycled sh0 ths0 a k tr sh ths → ths !! t = Some p → access recycled sh p sh' (p', outs) →
    prompt recycled sh p (p', outs) →
    counted recycled sh0 ths0 (S a) k (tr ++ (pair t <$> outs)) sh' (<[t := p']> ths)
| CountOther a k tr sh ths t p sh' p' outs :
    counted recycled sh0 ths0 a k tr sh ths → ths !! t = Some p → access recycled sh p sh' (p', outs) →
    counted recycled sh0 ths0 (S a) (S k) (tr ++ (pair t <$> outs)) sh' (<[t := p']> ths).
