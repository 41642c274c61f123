(** What slices, iterators and parallel iterators should return. *)
From Verif Require Import Base EntityM LayoutM WorldM QueryM ParM StepM Spec SpecMore.

(** ** Slices *)

(** The elements of a slice; [Option] parts have no slice. *)
Definition slice_elems (x : part_slice) : option (list aitem) :=
  match x with
  | SEnts l => Some (map AEnt l)
  | SVals t l => Some (map (AVal t) l)
  | SUnit => None
  end.

(** The [k]-th parts of the items. *)
Definition column (k : nat) (its : list (list item)) : list (option aitem) :=
  map (λ it, option_map abs_item (it !! k)) its.

(** Slice [k] shows the [k]-th parts of the items. *)
Definition shows_column (k : nat) (x : part_slice) (its : list (list item)) : Prop :=
  match slice_elems x with Some l => map Some l = column k its | None => True end.

(** A slice is of entities, of components or absent according to the part. *)
Definition slice_kind (p : part) (x : part_slice) : Prop :=
  match p, x with
  | PEntity, SEnts _ => True
  | PRef t, SVals t' _ | PMut t, SVals t' _ => t' = t
  | POptRef _, SUnit | POptMut _, SUnit => True
  | _, _ => False
  end.

Definition slice_length (x : part_slice) (n : nat) : Prop :=
  match slice_elems x with Some l => length l = n | None => True end.

(** ** Aliasing *)

(** The item part refers to the component cell number [c] of type [t]. *)
Definition refers (it : item) (t : tid) (c : nat) : Prop :=
  match it with
  | IEnt _ => False
  | IRef t' c' _ => t' = t ∧ c' = c
  | IOpt t' (Some (c', _)) => t' = t ∧ c' = c
  | IOpt _ None => False
  end.

(** No cell is referred to twice, unless by shared references of one item. *)
Definition no_alias (G : query) (its : list (list item)) : Prop :=
  ∀ i j it1 it2 k1 k2 a1 a2 t c,
    its !! i = Some it1 → its !! j = Some it2 →
    it1 !! k1 = Some a1 → it2 !! k2 = Some a2 → refers a1 t c → refers a2 t c →
    i = j ∧ (k1 = k2 ∨ ∀ p, G !! k1 = Some p ∨ G !! k2 = Some p → part_mut p = false).

(** ** Iterators *)

(** The results of [n] calls of [next]. *)
Fixpoint nexts (n : nat) (it : iter) : res (list (option (list item))) :=
  match n with
  | 0 => Ok []
  | S n =>
      match iter_next it with
      | Ok (r, it') => match nexts n it' with Ok l => Ok (r :: l) | Panic => Panic | UB => UB end
      | Panic => Panic | UB => UB
      end
  end.

(** The [size_hint] after [n] calls of [next]. *)
Fixpoint hint_after (n : nat) (it : iter) : res (nat * option nat) :=
  match n with
  | 0 => Ok (iter_size_hint it)
  | S n =>
      match iter_next it with
      | Ok (_, it') => hint_after n it'
      | Panic => Panic | UB => UB
      end
  end.

(** [next] gives the items in order, then [None] for ever. *)
Definition yields (it : iter) (its : list (list item)) : Prop :=
  ∀ n, nexts n it = Ok (map Some (take n its) ++ repeat None (n - length its)).

(** The hint is right; it is exact for a dense iterator. *)
Definition hints_right (dense : bool) (it : iter) (its : list (list item)) : Prop :=
  ∀ n, ∃ lo hi, hint_after n it = Ok (lo, hi) ∧
    lo ≤ length its - n ∧ (∀ h, hi = Some h → length its - n ≤ h) ∧
    (dense = true → lo = length its - n ∧ hi = Some (length its - n)).

(** ** Writing *)

(** [w'] is what writing [f] to the items of the entities [es] makes of [w], as
    seen by [s]. *)
Definition wrote_to (G : query) (f : writer) (es : list entity) (s : sstate) (w w' : world) : Prop :=
  world_entities w' = world_entities w ∧
  (∀ e, world_contains w' e = world_contains w e) ∧
  (∀ t, world_is_registered w' t = world_is_registered w t) ∧
  (∀ e, e ∈ es → has_comps w' e (visit_row G f e (s_row s e))) ∧
  (∀ e, e ∉ es → has_comps w' e (s_row s e)).
