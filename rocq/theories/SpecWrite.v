(** Writes through references as assignments to components. *)
From Verif Require Import Base SparseVecM EntityM CssM MaskM LayoutM GroupM StorageM WorldM QueryM StepM WriteM Spec SpecMore SpecQuery.

(** The assignments [*get_mut(e) = v] that the closure [f] makes on seeing the item
    [seen] of [e], for the parts [q] from position [k] on. *)
Fixpoint map_sets (f : writer) (seen : list aitem) (k : nat) (q : query) (e : entity) : list op :=
  match q with
  | [] => []
  | p :: q =>
      (match p, f k seen with
       | PMut t, Some v | POptMut t, Some v => [OSet t e v]
       | _, _ => []
       end) ++ map_sets f seen (S k) q e
  end.

(** The values replaced by assignments with these outcomes. *)
Definition replaced (outs : list outcome) : list val :=
  omap (λ o, match o with Ret (ROpts [Some v]) => Some v | _ => None end) outs.

(** The values that found a component to be assigned to. *)
Definition assigned (sets : list op) (outs : list outcome) : list val :=
  omap (λ so : op * outcome,
          match so with (OSet _ _ v, Ret (ROpts [Some _])) => Some v | _ => None end) (zip sets outs).
