(** Model of src/component/group.rs. *)
From Verif Require Import Base SparseVecM CssM MaskM.

(** src/component/group.rs:27-35 [GroupMetadata]. *)
Record gmeta := GMeta {
  g_start : nat;      (* storage_start *)
  g_nstart : nat;     (* new_storage_start *)
  g_end : nat;        (* storage_end *)
  g_skip : N;         (* skip_mask *)
  g_include : query_mask;
  g_exclude : query_mask
}.

(** src/component/group.rs:6-10 [Group]. *)
Record group := Grp { g_meta : gmeta; g_len : nat }.

(** src/component/group.rs:131-136 [GroupStatus]. *)
Inductive group_status := Incomplete | Ungrouped | Grouped.

(** src/component/group.rs:138-166 [get_group_status]; [split_first_mut] is
    unchecked, so an empty slice is UB. *)
Definition get_group_status (comps : list css) (group_len : nat) (e : entity) : res group_status :=
  match comps with
  | [] => UB
  | first :: others =>
      match sv_get (c_sparse first) e with
      | None => Ok Incomplete
      | Some dense =>
          if forallb (λ s, sv_contains_sparse (c_sparse s) (e_sparse e)) others
          then Ok (if N.to_nat dense <? group_len then Grouped else Ungrouped)
          else Ok Incomplete
      end
  end.

(** src/component/group.rs:177-186, 201-210:
    The closure of the [for_each] in [group_components]/[ungroup_components]. *)
Definition move_to (e : entity) (swap_index : nat) (s : css) : res css :=
  dense ← sv_get_sparse_unchecked (c_sparse s) (e_sparse e);
  if dense =? swap_index then Ok s else css_swap s dense swap_index.

(** src/component/group.rs:177-186, 201-210 ([for_each] on a subslice):
    Apply [f] in place to the elements with index in [from, to). *)
Fixpoint mapM_from {A} (f : A → res A) (from to i : nat) (l : list A) : res (list A) :=
  match l with
  | [] => Ok []
  | x :: l =>
      x' ← (if (from <=? i) && (i <? to) then f x else Ok x);
      l' ← mapM_from f from to (S i) l;
      Ok (x' :: l')
  end.

(** src/component/group.rs:63, 74, 94, 101, 116, 123:
    Slicing [components[from..to]] panics when out of range. *)
Definition range_ok {A} (l : list A) (from to : nat) : bool :=
  (from <=? to) && (to <=? length l).

(** src/component/group.rs:74, 101, 123. *)
Definition on_range (f : css → res css) (from to : nat) (comps : list css) : res (list css) :=
  if range_ok comps from to then mapM_from f from to 0 comps else Panic.

(** src/component/group.rs:62-66, 93-97, 115-119:
    [get_group_status] on [components[new_storage_range()]]. *)
Definition status_of (comps : list css) (g : group) (e : entity) : res group_status :=
  let m := g_meta g in
  if range_ok comps (g_nstart m) (g_end m)
  then get_group_status (take (g_end m - g_nstart m) (drop (g_nstart m) comps)) (g_len g) e
  else Panic.

(** src/component/group.rs:168-189 [group_components] on the group at [k]. *)
Definition group_components (comps : list css) (gs : list group) (k : nat) (g : group) (e : entity)
    : res (list css * list group) :=
  comps' ← on_range (move_to e (g_len g)) (g_start (g_meta g)) (g_end (g_meta g)) comps;
  Ok (comps', <[k := Grp (g_meta g) (g_len g + 1)]> gs).

(** src/component/group.rs:191-211 [ungroup_components]; [*group_len -= 1]
    underflows at 0. *)
Definition ungroup_components (comps : list css) (gs : list group) (k : nat) (g : group) (e : entity)
    : res (list css * list group) :=
  match g_len g with
  | 0 => UB
  | S n =>
      comps' ← on_range (move_to e n) (g_start (g_meta g)) (g_end (g_meta g)) comps;
      Ok (comps', <[k := Grp (g_meta g) n]> gs)
  end.

(** src/component/group.rs:51-82 [group]: the loop over the set bits of the mask
    in ascending order; the mask is narrowed by skip_mask. [fuel] bounds the
    number of iterations (a u64 has at most 64 set bits); running out is
    reported as [UB] and proved impossible. *)
Fixpoint group_loop (fuel : nat) (comps : list css) (gs : list group) (mask : N) (e : entity)
    : res (list css * list group) :=
  match bit_next mask with
  | None => Ok (comps, gs)
  | Some (k, mask') =>
      match fuel with
      | 0 => UB
      | S fuel =>
          match gs !! k with
          | None => UB
          | Some g =>
              st ← status_of comps g e;
              match st with
              | Incomplete => group_loop fuel comps gs (N.land mask' (g_skip (g_meta g))) e
              | Ungrouped =>
                  r ← group_components comps gs k g e;
                  group_loop fuel r.1 r.2 mask' e
              | Grouped => group_loop fuel comps gs mask' e
              end
          end
      end
  end.

(** src/component/group.rs:57-81; the loop ends after at most 64 steps. *)
Definition do_group (comps : list css) (gs : list group) (mask : N) (e : entity) :=
  group_loop 64 comps gs mask e.

(** src/component/group.rs:91-105, 115-127:
    One iteration of [ungroup]/[ungroup_all]. *)
Definition ungroup_one (comps : list css) (gs : list group) (k : nat) (g : group) (e : entity)
    : res (list css * list group) :=
  st ← status_of comps g e;
  match st with
  | Grouped => ungroup_components comps gs k g e
  | _ => Ok (comps, gs)
  end.

(** src/component/group.rs:84-107 [ungroup]: set bits in descending order. *)
Fixpoint ungroup_loop (fuel : nat) (comps : list css) (gs : list group) (mask : N) (e : entity)
    : res (list css * list group) :=
  match bit_next_back mask with
  | None => Ok (comps, gs)
  | Some (k, mask') =>
      match fuel with
      | 0 => UB
      | S fuel =>
          match gs !! k with
          | None => UB
          | Some g =>
              r ← ungroup_one comps gs k g e;
              ungroup_loop fuel r.1 r.2 mask' e
          end
      end
  end.

(** src/component/group.rs:84-107. *)
Definition do_ungroup (comps : list css) (gs : list group) (mask : N) (e : entity) :=
  ungroup_loop 64 comps gs mask e.

(** src/component/group.rs:109-129 [ungroup_all]: all groups, last to first. *)
Fixpoint ungroup_all_from (k : nat) (comps : list css) (gs : list group) (e : entity)
    : res (list css * list group) :=
  match k with
  | 0 => Ok (comps, gs)
  | S k =>
      match gs !! k with
      | None => UB
      | Some g =>
          r ← ungroup_one comps gs k g e;
          ungroup_all_from k r.1 r.2 e
      end
  end.

(** src/component/group.rs:109-129. *)
Definition ungroup_all (comps : list css) (gs : list group) (e : entity) :=
  ungroup_all_from (length gs) comps gs e.

Global Arguments do_group : simpl never.
Global Arguments do_ungroup : simpl never.
