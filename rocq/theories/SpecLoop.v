(** Loops over a query as assignments to components. *)
From Verif Require Import Base SparseVecM EntityM CssM MaskM LayoutM GroupM StorageM WorldM QueryM StepM LoopM Spec SpecMore SpecQuery SpecWrite.

(** The loop over the entities [es]: the body is given the components each entity
    has in [s]. The assignments it makes, its last state, how many entities it got
    to and whether it ran to the end. *)
Fixpoint loop_sets {St} (b : body St) (st : St) (G : query) (s : sstate) (es : list entity)
    : list op * St * nat * bool :=
  match es with
  | [] => ([], st, 0, true)
  | e :: es =>
      let seen := default [] (sees e (s_row s e) G) in
      let '(st1, wr, go) := b st seen in
      let sets := map_sets (λ k _, wr k) seen 0 G e in
      if go then let '(sets', st2, n, fin) := loop_sets b st1 G s es in (sets ++ sets', st2, S n, fin)
      else (sets, st1, 1, false)
  end.

(** The client's view after assignments. *)
Definition after_sets (sets : list op) (s : sstate) : sstate :=
  foldl (λ s o, client_step s o (Ret RUnit)) s sets.
