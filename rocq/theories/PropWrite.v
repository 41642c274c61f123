(** C48 and C49: writing through slices, the index operator and [QueryOne::map]. *)
From Verif Require Import Base EntityM WorldM QueryM StepM WriteM Spec SpecMore SpecQuery SpecWrite Demo Demo2 History WriteFacts.

(** ** C48 *)

(** Element [i] of [as_mut_slice] is the component of the [i]-th entity of
    [entities]: assigning to it is [*get_mut(e) = v], and outside the bounds the
    assignment panics without effect. *)
Theorem C48_slice_element : ∀ w s t i v,
  reachable w s → t ∈ s_reg s →
  ∃ es, view_entities w t = Ok es ∧
    world_set_at w t i v =
      match es !! i with Some e => step w (OSet t e v) | None => (Panicked [], [v], w) end.
Proof. exact reach_set_at. Qed.
Print Assumptions C48_slice_element.

Theorem C48_slice_unregistered : ∀ w s t i v,
  reachable w s → t ∉ s_reg s → world_set_at w t i v = (Panicked [], [v], w).
Proof. exact reach_set_at_unreg. Qed.
Print Assumptions C48_slice_unregistered.

(** [view[e]] is the component of [e], or a panic. *)
Theorem C48_index : ∀ w s t e,
  reachable w s →
  view_index w t e = match s_row s e !! t with Some v => Ok v | None => Panic end.
Proof. exact reach_index. Qed.
Print Assumptions C48_index.

(** [view[e] = v] is [*get_mut(e) = v] when the component exists and a panic
    otherwise, in every world. *)
Theorem C48_index_mut : ∀ w t e v,
  world_set_index w t e v =
    match step w (OSet t e v) with
    | (Ret (ROpts [None]), _, _) => (Panicked [], [v], w)
    | r => r
    end.
Proof. exact set_index_step. Qed.
Print Assumptions C48_index_mut.

(** [query_one().map(e, f)]: no effect when [e] does not match. Otherwise it is the
    sequence of assignments [*get_mut(e) = v] the closure makes: the components
    of [e] are those the closure wrote, the replaced values are dropped and
    nothing else changes. *)
Theorem C48_map : ∀ w s G J X e f,
  reachable w s → query_ok s G J X →
  ∃ r, query_one w G J X e = Ok r ∧
    match r with
    | None => query_one_map w G J X e f = (Ret (RWrote [] []), [], w)
    | Some it => ∃ outs w',
        run w (map_sets f (abs_item <$> it) 0 G e) = (outs, w') ∧
        query_one_map w G J X e f =
          (Ret (RWrote [e] (assigned (map_sets f (abs_item <$> it) 0 G e) outs)), replaced outs, w') ∧
        wrote_to G f [e] s w w' ∧ reachable w' (with_map s (alter (visit_row G f e) e (s_map s)))
    end.
Proof. exact reach_map. Qed.
Print Assumptions C48_map.

Theorem C48_map_panics : ∀ w s G J X e f,
  reachable w s → ¬ query_ok s G J X → query_one_map w G J X e f = (Panicked [], [], w).
Proof. exact reach_map_panics. Qed.
Print Assumptions C48_map_panics.

(** In a world with nested groups: the third element of the slice of [tA] belongs
    to [Ent 3 1]. *)
Example C48_slice_nonvacuous :
  reachable (r_w nest) (r_s nest) ∧ tA ∈ s_reg (r_s nest) ∧ tF ∉ s_reg (r_s nest) ∧
  (let '(out, dr, w') := world_set_at (r_w nest) tA 2 77%N in
   out = Ret (ROpts [Some 13%N]) ∧ view_get w' tA (Ent 3 1) = Ok (Some 77%N) ∧
   view_slice w' tA = Ok [11; 15; 77; 10; 12]%N) ∧
  world_set_at (r_w nest) tA 5 77%N = (Panicked [], [77%N], r_w nest) ∧
  view_index (r_w nest) tB (Ent 3 1) = Ok 22%N ∧ view_index (r_w nest) tB (Ent 3 2) = Panic ∧
  view_index (r_w nest) tF (Ent 3 1) = Panic.
Proof.
  split; [apply nest_reachable|]. split; [apply (bool_decide_unpack _); by vm_compute|].
  split; [apply (bool_decide_unpack _); by vm_compute|]. split_and!; by vm_compute.
Qed.

(** A closure that adds one to the first part and stores the sum in the second. *)
Definition map_demo : writer := λ k seen,
  match k, seen with
  | 0, AVal _ a :: _ => Some (a + 1)%N
  | 1, AVal _ a :: AVal _ b :: _ => Some (a + b)%N
  | _, _ => Some 5%N
  end.

Example C48_map_nonvacuous :
  let G := [PMut tA; PMut tB; POptMut tE] in
  reachable (r_w nest) (r_s nest) ∧ query_ok (r_s nest) G [] [PRef tD] ∧ ¬ query_ok (r_s nest) G [PRef tA] [] ∧
  (let '(out, dr, w') := query_one_map (r_w nest) G [] [PRef tD] (Ent 3 1) map_demo in
   out = Ret (RWrote [Ent 3 1] [14; 35; 5]%N) ∧ dr = [13; 22; 53]%N ∧
   view_slice w' tA = Ok [11; 15; 14; 10; 12]%N ∧ view_slice w' tB = Ok [21; 24; 35; 20]%N ∧
   view_slice w' tE = Ok [52; 5]%N) ∧
  (let '(out, dr, w') := query_one_map (r_w nest) G [] [PRef tD] (Ent 0 1) map_demo in
   out = Ret (RWrote [Ent 0 1] [11; 30]%N) ∧ dr = [10; 20]%N ∧ view_slice w' tE = Ok [52; 53]%N) ∧
  query_one_map (r_w nest) G [] [PRef tD] (Ent 1 1) map_demo = (Ret (RWrote [] []), [], r_w nest) ∧
  query_one_map (r_w nest) G [] [] (Ent 3 7) map_demo = (Ret (RWrote [] []), [], r_w nest).
Proof.
  split; [apply nest_reachable|]. split; [apply (bool_decide_unpack _); by vm_compute|].
  split; [apply (bool_decide_unpack _); by vm_compute|]. split_and!; by vm_compute.
Qed.

(** ** C49 *)

(** Without an exclusion, element [i] of a mutable slice of a grouped query is the
    component of the [i]-th entity the query yields. The full statement has no
    condition on [X]; that is refuted below. *)
Theorem C49_group_slice_partial : ∀ w s G J X sl,
  reachable w s → query_ok s G J X → required X = [] → query_all_slice w G J X = Ok (Some sl) →
  ∃ es its, query_all w G J X = Ok its ∧ NoDup es ∧ answers s G es its ∧
    ∀ k t i v, G !! k = Some (PMut t) →
      query_slice_set w G J X k i v =
        match es !! i with Some e => step w (OSet t e v) | None => (Panicked [], [v], w) end.
Proof. exact reach_slice_set. Qed.
Print Assumptions C49_group_slice_partial.

(** With any exclusion: element [i] is the component of the [i]-th entity of the
    storage of [t] ([view_entities] is [View::entities]), and there are as many elements as
    items. Where the query starts further back (C53) this is another entity. *)
Theorem C49_group_slice_exactly : ∀ w s G J X sl,
  reachable w s → query_ok s G J X → query_all_slice w G J X = Ok (Some sl) →
  ∃ its, query_all w G J X = Ok its ∧
    ∀ k t i v, G !! k = Some (PMut t) →
      ∃ l, view_entities w t = Ok l ∧ length its ≤ length l ∧
        query_slice_set w G J X k i v =
          match take (length its) l !! i with Some e => step w (OSet t e v) | None => (Panicked [], [v], w) end.
Proof. exact reach_slice_set_front. Qed.
Print Assumptions C49_group_slice_exactly.

(** With an exclusion the write goes to an entity that the query excludes. The
    entity slice of the same call says the element belongs to [e]. *)
Theorem C49_group_slice_exclude_refuted : ∃ w s G X l sl k t i v e e' out dr w',
  reachable w s ∧ query_ok s G [] X ∧ query_all_slice w G [] X = Ok (Some (SEnts l :: sl)) ∧
  G !! k = Some (PMut t) ∧ l !! i = Some e ∧ query_slice_set w G [] X k i v = (out, dr, w') ∧
  e' ≠ e ∧ has_all (s_row s e') X ∧ ¬ has_all (s_row s e) X ∧
  view_get w' t e = view_get w t e ∧ view_get w' t e ≠ Ok (Some v) ∧ view_get w' t e' = Ok (Some v).
Proof.
  exists (r_w nest), (r_s nest), [PEntity; PMut tA; PRef tB], [PRef tC; PRef tD].
  do 2 eexists. exists 1, tA, 0, 99%N, (Ent 3 1), (Ent 1 1). do 3 eexists.
  split; [apply nest_reachable|]. split; [apply (bool_decide_unpack _); by vm_compute|].
  split; [by vm_compute|]. split; [done|]. split; [done|]. split; [by vm_compute|]. split; [done|].
  split; [|split].
  - intros t [->|[->|Ht]%elem_of_cons]%elem_of_cons; [by eexists; vm_compute..|by apply elem_of_nil in Ht].
  - intros H. destruct (H tD) as [v Hv]; [by right; left|]. by vm_compute in Hv.
  - split_and!; by vm_compute.
Qed.
Print Assumptions C49_group_slice_exclude_refuted.

Example C49_nonvacuous :
  let G := [PEntity; PMut tA; PRef tB] in
  reachable (r_w nest) (r_s nest) ∧ query_ok (r_s nest) G [] [] ∧
  query_all_slice (r_w nest) G [] [] = Ok (Some
    [SEnts [Ent 1 1; Ent 6 1; Ent 3 1; Ent 0 1]; SVals tA [11; 15; 13; 10]; SVals tB [21; 24; 22; 20]])%N ∧
  (let '(out, dr, w') := query_slice_set (r_w nest) G [] [] 1 2 99%N in
   out = Ret (ROpts [Some 13%N]) ∧ view_get w' tA (Ent 3 1) = Ok (Some 99%N)) ∧
  query_slice_set (r_w nest) G [] [] 1 4 99%N = (Panicked [], [99%N], r_w nest).
Proof.
  split; [apply nest_reachable|]. split; [apply (bool_decide_unpack _); by vm_compute|]. split_and!; by vm_compute.
Qed.
