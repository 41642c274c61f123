(** What a client expects of the calls that insert, when the [Drop] of a replaced
    component panics: [bomb v] says that dropping [v] panics. *)
From Verif Require Import Base LayoutM WorldM QueryM StepM Spec.

(** Putting the components [cs] one after the other on the row [r]: whether this
    panics, the row then, and the values dropped (the replaced ones, and after a panic
    those not inserted). *)
Fixpoint put_drop (bomb : val → bool) (reg : gset tid) (cs : list (tid * val)) (r : row) : bool * row * list val :=
  match cs with
  | [] => (false, r, [])
  | (t, v) :: cs =>
      if decide (t ∈ reg) then
        let d := option_list (r !! t) in
        if existsb bomb d then (true, <[t := v]> r, d ++ cs.*2) else
        let '(p, r', ds) := put_drop bomb reg cs (<[t := v]> r) in (p, r', d ++ ds)
      else (true, r, v :: cs.*2)
  end.

(** The rows of new entities with the types [ts], up to the first panic. *)
Fixpoint rows_drop (bomb : val → bool) (reg : gset tid) (ts : list tid) (rows : list (list val))
    : bool * list row * list val :=
  match rows with
  | [] => (false, [], [])
  | row :: rows =>
      let '(p, r, ds) := put_drop bomb reg (zip ts row) ∅ in
      if p : bool then (true, [r], ds ++ concat rows) else
      let '(p', rs, ds') := rows_drop bomb reg ts rows in (p', r :: rs, ds ++ ds')
  end.

(** The entities [es] with the rows [rs] are added; their insertion may have been cut
    short. *)
Fixpoint add_each (s : sstate) (es : list entity) (rs : list row) : sstate :=
  match es, rs with
  | e :: es, r :: rs => add_each (add_entity s e r) es rs
  | _, _ => s
  end.
Definition cut_short (s : sstate) (es : list entity) (rs : list row) : sstate := loosen (add_each s es rs) true es.

(** Deleting the components of the types [ts] of the row [r] one after the other, up to
    the first that panics: its type, the row then, and the values dropped. *)
Fixpoint drops (bomb : val → bool) (ts : list tid) (r : row) : option tid * row * list val :=
  match ts with
  | [] => (None, r, [])
  | t :: ts =>
      match r !! t with
      | None => drops bomb ts r
      | Some v =>
          if bomb v then (Some t, delete t r, [v]) else
          let '(p, r', ds) := drops bomb ts (delete t r) in (p, r', v :: ds)
      end
  end.

(** The world reads as the rows of [s], except that reading the component [t] of [x] is
    undefined behaviour, and so is dropping the world. *)
Definition wrecked (w : world) (s : sstate) (t : tid) (x : entity) : Prop :=
  view_get w t x = UB ∧ world_drop w = UB ∧
  ∀ t' e', t' ∈ s_reg s → (t', e') ≠ (t, x) → view_get w t' e' = Ok (s_row s e' !! t').

(** The values [vs] dropped in order, up to the first that panics. *)
Fixpoint until_bomb (bomb : val → bool) (vs : list val) : list val :=
  match vs with
  | [] => []
  | v :: vs => v :: if bomb v then [] else until_bomb bomb vs
  end.

(** [clear] has stopped at the type [t], after the types [B] and before the types [A]:
    no entity is left; the types [B] are empty; [t] still lists its entities, but none
    has a component, and reading the slice is undefined behaviour; the dead handles
    still have their components of the types [A]. *)
Definition half_cleared (w w' : world) (t : tid) (B A : gset tid) : Prop :=
  world_entities w' = [] ∧
  (∀ t', t' ∈ B → view_entities w' t' = Ok [] ∧ view_slice w' t' = Ok [] ∧ ∀ e, view_get w' t' e = Ok None) ∧
  (view_entities w' t = view_entities w t ∧ view_slice w' t = UB ∧ ∀ e, view_get w' t e = Ok None) ∧
  (∀ t', t' ∈ A → view_entities w' t' = view_entities w t' ∧ view_slice w' t' = view_slice w t' ∧
     ∀ e, view_get w' t' e = view_get w t' e).
