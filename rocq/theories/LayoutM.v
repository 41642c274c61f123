(** Model of src/component/group_layout.rs. *)
From stdpp Require Import sorting.
From Verif Require Import Base MaskM.

(** src/component/group_layout.rs:71-76 [GroupFamily]. *)
Record family := Fam { f_comps : list tid; f_arities : list nat }.

(** src/component/group_layout.rs:16-21 [GroupLayout]: its families. *)
Definition layout := list family.

(** src/component/group_layout.rs:103, 117, 126, 137, 152, 156 ([components.contains(c)]). *)
Definition contains_tid (l : list tid) (c : tid) : bool := bool_decide (c ∈ l).

(** src/component/group_layout.rs:35:
    [Vec::sort_unstable] on type ids; equal ids are indistinguishable, so any
    sorting algorithm gives the same result. *)
Definition sort_tids (l : list tid) : list tid := merge_sort N.le l.

(** src/component/group_layout.rs:36:
    [Vec::dedup]: removes repeated neighbours. *)
Fixpoint dedup (l : list tid) : list tid :=
  match l with
  | [] => []
  | x :: l' =>
      match dedup l' with
      | y :: r => if (x =? y)%N then y :: r else x :: y :: r
      | [] => [x]
      end
  end.

(** src/component/group_layout.rs:115, 124, 135:
    Checked slicing [&v[from..to]]. *)
Definition slice_range {A} (l : list A) (from to : nat) : res (list A) :=
  if (from <=? to) && (to <=? length l) then Ok (take (to - from) (drop from l)) else Panic.

(** src/component/group_layout.rs:107-147:
    Result of the search loop: equal group found, insertion index,
    or no larger group. *)
Inductive search := FoundEqual | InsertAt (i : nat) | AtEnd.

(** src/component/group_layout.rs:107-147: the loop over the arities;
    [i] is the loop index and [prev] is prev_arity. *)
Fixpoint try_search (comps : list tid) (arities : list nat) (i prev : nat)
    (group : list tid) : res search :=
  match arities with
  | [] => Ok AtEnd
  | arity :: rest =>
      part ← slice_range comps prev arity;
      match Nat.compare arity (length group) with
      | Lt => if forallb (contains_tid group) part
              then try_search comps rest (S i) arity group else Panic
      | Eq => if forallb (contains_tid group) part then Ok FoundEqual else Panic
      | Gt => if forallb (λ c, negb (contains_tid group c)) part
              then Ok (InsertAt i) else Panic
      end
  end.

(** src/component/group_layout.rs:152:
    [sort_by_cached_key] with a boolean key: stable, [false] first. *)
Definition sort_by_bool {A} (key : A → bool) (l : list A) : list A :=
  filter (λ x, key x = false) l ++ filter (λ x, key x = true) l.

(** src/component/group_layout.rs:155-159:
    The [for] loop pushing the components not yet present. *)
Fixpoint push_missing (comps group : list tid) : list tid :=
  match group with
  | [] => comps
  | c :: g => push_missing (if contains_tid comps c then comps else comps ++ [c]) g
  end.

(** src/component/group_layout.rs:100-165 [try_add_group]. *)
Definition try_add_group (f : family) (group : list tid) : res (bool * family) :=
  if forallb (λ c, negb (contains_tid group c)) (f_comps f) then Ok (false, f) else
  s ← try_search (f_comps f) (f_arities f) 0 0 group;
  match s with
  | FoundEqual => Ok (true, f)
  | InsertAt i =>
      match f_arities f !! i with
      | None => Panic
      | Some next_arity =>
          if next_arity <=? length (f_comps f) then
            Ok (true, Fam (sort_by_bool (contains_tid group) (take next_arity (f_comps f))
                             ++ drop next_arity (f_comps f))
                          (take i (f_arities f) ++ length group :: drop i (f_arities f)))
          else Panic
      end
  | AtEnd => Ok (true, Fam (push_missing (f_comps f) group) (f_arities f ++ [length group]))
  end.

(** src/component/group_layout.rs:47-51:
    The [map(..).sum()] over the families, in order. A panic in the
    middle leaves the families before it changed: the boolean is the panic
    flag, the counter the number of successes. *)
Fixpoint try_families (fs : list family) (group : list tid) : bool * nat * list family :=
  match fs with
  | [] => (false, 0, [])
  | f :: fs =>
      match try_add_group f group with
      | Ok (b, f') =>
          let '(p, n, fs') := try_families fs group in
          (p, (if b then S n else n), f' :: fs')
      | _ => (true, 0, f :: fs)
      end
  end.

(** src/component/group_layout.rs:32-61 [add_group_dyn]: panic flag and the
    layout afterwards (also after a panic). *)
Definition add_group_dyn (l : layout) (components : list tid) : bool * layout :=
  let group := dedup (sort_tids components) in
  if length group <=? 1 then (false, l)
  else if max_group_arity <? length group then (true, l)
  else
    let '(p, n, l') := try_families l group in
    if p then (true, l')
    else match n with
         | 0 => (false, l' ++ [Fam group [length group]])
         | 1 => (false, l')
         | _ => (true, l')
         end.

(** src/component/group_layout.rs:18 (derived [Default]), 25-61:
    A sequence of [add_group] calls from [GroupLayout::default()], ending at the
    first panic ([None]). *)
Fixpoint add_groups (l : layout) (gs : list (list tid)) : option layout :=
  match gs with
  | [] => Some l
  | g :: gs => match add_group_dyn l g with
               | (false, l') => add_groups l' gs
               | (true, _) => None
               end
  end.

(** src/component/group_layout.rs:63-68, 86-91:
    The component types mentioned by a layout. *)
Definition layout_tids (l : layout) : list tid := l ≫= f_comps.
