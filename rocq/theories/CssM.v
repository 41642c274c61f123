(** Model of src/component/component_sparse_set.rs. *)
From Verif Require Import Base SparseVecM.

(** src/component/component_sparse_set.rs:7-14 [ComponentSparseSet]. The two
    buffers of the allocation have [c_cap] cells; [None] marks memory that is
    uninitialised or whose value was moved out. The vtable only selects the
    type-specific versions of the functions below. *)
Record css := Css {
  c_sparse : sparse_vec;
  c_ents : list (option entity);
  c_comps : list (option val);
  c_len : nat;
  c_cap : nat
}.

(** src/component/component_sparse_set.rs:18-30 [new]. *)
Definition css_new : css := Css [] [] [] 0 0.

(** src/component/component_sparse_set.rs:74, 84-90, 135 (reads), 43, 57-58, 75 (writes):
    Reading and writing a cell through a raw pointer. *)
Definition buf_read {A} (b : list (option A)) (i : nat) : res A :=
  match b !! i with Some (Some x) => Ok x | _ => UB end.
Definition buf_write {A} (b : list (option A)) (i : nat) (x : option A) : res (list (option A)) :=
  if i <? length b then Ok (<[i := x]> b) else UB.

(** src/component/component_sparse_set.rs:228-273 [grow_typed]: new capacity 4
    or twice the old one, contents copied. Simplification: allocation always
    succeeds and the capacity arithmetic does not saturate (the arithmetic of
    [compute_layout] is modelled in MemLayoutM.v). *)
Definition css_new_cap (cap : nat) : nat := match cap with 0 => 4 | _ => cap + cap end.
Definition css_grow (s : css) : css :=
  let cap := css_new_cap (c_cap s) in
  Css (c_sparse s)
      (take (c_len s) (c_ents s) ++ replicate (cap - c_len s) None)
      (take (c_len s) (c_comps s) ++ replicate (cap - c_len s) None)
      (c_len s) cap.

(** src/component/component_sparse_set.rs:32-64 [insert]; returns the replaced
    component. In the first case the slot keeps its version. *)
Definition css_insert (s : css) (e : entity) (v : val) : res (css * option val) :=
  let sp := sv_allocate_at (c_sparse s) (e_sparse e) in
  match sp !! e_sparse e with
  | None => UB
  | Some (Some sl) =>
      let i := s_dense sl in
      ents ← buf_write (c_ents s) i (Some e);
      old ← buf_read (c_comps s) i;
      comps ← buf_write (c_comps s) i (Some v);
      Ok (Css sp ents comps (c_len s) (c_cap s), Some old)
  | Some None =>
      let sp := <[e_sparse e := Some (Slot (as_u32 (N.of_nat (c_len s))) (e_version e))]> sp in
      let s1 := Css sp (c_ents s) (c_comps s) (c_len s) (c_cap s) in
      let s2 := if c_len s =? c_cap s then css_grow s1 else s1 in
      ents ← buf_write (c_ents s2) (c_len s) (Some e);
      comps ← buf_write (c_comps s2) (c_len s) (Some v);
      Ok (Css (c_sparse s2) ents comps (c_len s + 1) (c_cap s2), None)
  end.

(** src/component/component_sparse_set.rs:70-82, 97-112:
    The part common to [remove] (70-82) and [delete] (97-112): detach [entity]
    from the sparse vec and overwrite its dense entity by the last one.
    Returns the dense index and the new length. *)
Definition css_detach (s : css) (e : entity) : res (option (nat * css)) :=
  match sv_remove (c_sparse s) e with
  | (_, None) => Ok None
  | (sp, Some raw) =>
      let index := N.to_nat raw in
      match c_len s with
      | 0 => UB
      | S len =>
          last_e ← buf_read (c_ents s) len;
          ents ← buf_write (c_ents s) index (Some last_e);
          sp' ← (if index <? len
                 then sv_write sp (e_sparse last_e) (Some (Slot raw (e_version last_e)))
                 else Ok sp);
          Ok (Some (index, Css sp' ents (c_comps s) len (c_cap s)))
      end
  end.

(** src/component/component_sparse_set.rs:66-91 [remove]: the component is moved
    out of its cell, then the last cell is moved into it. *)
Definition css_remove (s : css) (e : entity) : res (css * option val) :=
  d ← css_detach s e;
  match d with
  | None => Ok (s, None)
  | Some (index, s1) =>
      v ← buf_read (c_comps s1) index;
      match c_comps s1 !! c_len s1 with
      | None => UB
      | Some last_cell =>
          comps ← buf_write (c_comps s1) index last_cell;
          comps' ← buf_write comps (c_len s1) None;
          Ok (Css (c_sparse s1) (c_ents s1) comps' (c_len s1) (c_cap s1), Some v)
      end
  end.

(** src/component/component_sparse_set.rs:93-119 [delete]; returns the dropped
    component. Same memory effect as [remove]; unwinding out of
    [drop_in_place] is modelled in DropPanicM.v. *)
Definition css_delete (s : css) (e : entity) : res (css * list val) :=
  d ← css_detach s e;
  match d with
  | None => Ok (s, [])
  | Some (index, s1) =>
      v ← buf_read (c_comps s1) index;
      match c_comps s1 !! c_len s1 with
      | None => UB
      | Some last_cell =>
          comps ← buf_write (c_comps s1) index last_cell;
          comps' ← buf_write comps (c_len s1) None;
          Ok (Css (c_sparse s1) (c_ents s1) comps' (c_len s1) (c_cap s1), [v])
      end
  end.

(** src/component/component_sparse_set.rs:128-146 [get], [get_mut]: the value
    (and cell number) the returned reference points to. *)
Definition css_get_ref (s : css) (e : entity) : res (option (nat * val)) :=
  match sv_get (c_sparse s) e with
  | None => Ok None
  | Some d => v ← buf_read (c_comps s) (N.to_nat d); Ok (Some (N.to_nat d, v))
  end.
Definition css_get (s : css) (e : entity) : res (option val) :=
  match css_get_ref s e with
  | Ok (Some (_, v)) => Ok (Some v)
  | Ok None => Ok None
  | Panic => Panic
  | UB => UB
  end.

(** src/component/component_sparse_set.rs:140-146:
    Writing through the reference returned by [get_mut]. *)
Definition css_set (s : css) (i : nat) (v : val) : res css :=
  _ ← buf_read (c_comps s) i;
  comps ← buf_write (c_comps s) i (Some v);
  Ok (Css (c_sparse s) (c_ents s) comps (c_len s) (c_cap s)).

(** src/component/component_sparse_set.rs:148-152 [contains]. *)
Definition css_contains (s : css) (e : entity) : bool := sv_contains (c_sparse s) e.

(** src/component/component_sparse_set.rs:163, 172, 181:
    Reading the first [n] cells as a slice: all must be initialised. *)
Fixpoint buf_slice {A} (b : list (option A)) (n : nat) : res (list A) :=
  match n, b with
  | 0, _ => Ok []
  | S n, Some x :: b => l ← buf_slice b n; Ok (x :: l)
  | S _, _ => UB
  end.

(** src/component/component_sparse_set.rs:160-173 [entities], [as_slice]. *)
Definition css_entities (s : css) : res (list entity) := buf_slice (c_ents s) (c_len s).
Definition css_slice (s : css) : res (list val) := buf_slice (c_comps s) (c_len s).

(** src/component/component_sparse_set.rs:275-294 [swap_typed]; the debug
    assertions are the safety contract. *)
Definition css_swap (s : css) (a b : nat) : res css :=
  if (a <? c_len s) && (b <? c_len s) && negb (a =? b) then
    ea ← buf_read (c_ents s) a;
    eb ← buf_read (c_ents s) b;
    sp ← sv_swap (c_sparse s) (e_sparse ea) (e_sparse eb);
    ents1 ← buf_write (c_ents s) a (Some eb);
    ents2 ← buf_write ents1 b (Some ea);
    va ← buf_read (c_comps s) a;
    vb ← buf_read (c_comps s) b;
    comps1 ← buf_write (c_comps s) a (Some vb);
    comps2 ← buf_write comps1 b (Some va);
    Ok (Css sp ents2 comps2 (c_len s) (c_cap s))
  else UB.

(** src/component/component_sparse_set.rs:296-311 [clear_typed]: drops the
    components (returned in order) and forgets the entities. *)
Definition css_clear (s : css) : res (css * list val) :=
  vs ← buf_slice (c_comps s) (c_len s);
  Ok (Css [] (c_ents s) (replicate (c_len s) None ++ drop (c_len s) (c_comps s)) 0 (c_cap s), vs).

(** src/component/component_sparse_set.rs:313-329 [drop_typed]: the values
    dropped with the storage. *)
Definition css_drop (s : css) : res (list val) := buf_slice (c_comps s) (c_len s).
