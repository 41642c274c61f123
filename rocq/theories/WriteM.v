(** Model of the writes through references that are not made by [get_mut] or
    [for_each]: slices, the index operator, [QueryOne::map] and the slices of
    grouped queries. *)
From Verif Require Import Base SparseVecM EntityM CssM MaskM LayoutM GroupM StorageM WorldM QueryM StepM.

(** src/component/component_storage.rs:22:
    The storage of [t] replaced. *)
Definition put_storage (w : world) (m : meta) (c : css) : world :=
  World (w_ents w) (CStore (cs_groups (w_comps w)) (cs_meta (w_comps w)) (<[m_index m := c]> (cs_comps (w_comps w)))).

(** [world.borrow_mut::<T>().as_mut_slice()[i] = v] as [mem::replace]:
    src/component/view.rs:56-58, src/component/component_sparse_set.rs:177-182.
    Indexing the slice panics outside its bounds. *)
Definition world_set_at (w : world) (t : tid) (i : nat) (v : val) : result :=
  match cs_meta (w_comps w) !! t with
  | None => (Panicked [], [v], w)
  | Some m =>
      match cs_comps (w_comps w) !! m_index m with
      | None => (UndefBeh [], [], w)
      | Some c =>
          match css_slice c with
          | Ok l =>
              match l !! i with
              | None => (Panicked [], [v], w)
              | Some old =>
                  match css_set c i v with
                  | Ok c' => (Ret (ROpts [Some old]), [], put_storage w m c')
                  | _ => (UndefBeh [], [], w)
                  end
              end
          | _ => (UndefBeh [], [], w)
          end
      end
  end.

(** [world.borrow::<T>()[e]] and [world.borrow_mut::<T>()[e]]:
    src/component/view.rs:123-132, [get(e).unwrap()]. *)
Definition view_index (w : world) (t : tid) (e : entity) : res val :=
  match view_get w t e with
  | Ok (Some v) => Ok v
  | Ok None => Panic
  | Panic => Panic
  | UB => UB
  end.

(** [world.borrow_mut::<T>()[e] = v] as [mem::replace]:
    src/component/view.rs:61-68, [get_mut(e).unwrap()]. *)
Definition world_set_index (w : world) (t : tid) (e : entity) (v : val) : result :=
  match cs_meta (w_comps w) !! t with
  | None => (Panicked [], [v], w)
  | Some m =>
      match cs_comps (w_comps w) !! m_index m with
      | None => (UndefBeh [], [], w)
      | Some c =>
          match css_get_ref c e with
          | Ok None => (Panicked [], [v], w)
          | Ok (Some (i, old)) =>
              match css_set c i v with
              | Ok c' => (Ret (ROpts [Some old]), [], put_storage w m c')
              | _ => (UndefBeh [], [], w)
              end
          | _ => (UndefBeh [], [], w)
          end
      end
  end.

(** [world.query_one::<G>().include::<J>().exclude::<X>().map(e, f)] with a
    closure that assigns through the exclusive references of the item:
    src/query/query_one.rs:91-112. *)
Definition query_one_map (w : world) (G J X : query) (e : entity) (f : writer) : result :=
  match borrow3 w G J X with
  | Ok (g, i, x) =>
      match one_get g i x e with
      | Ok None => (Ret (RWrote [] []), [], w)
      | Ok (Some it) =>
          match visit (w_comps w) f G it with
          | Ok (s, old, new) => (Ret (RWrote [e] new), old, World (w_ents w) s)
          | Panic => (Panicked [], [], w)
          | UB => (UndefBeh [], [], w)
          end
      | Panic => (Panicked [], [], w)
      | UB => (UndefBeh [], [], w)
      end
  | Panic => (Panicked [], [], w)
  | UB => (UndefBeh [], [], w)
  end.

(** [query.slice().unwrap().k[i] = v] as [mem::replace], for a part [&mut T] at
    position [k]: src/query/query_all.rs:189-198. The slice of a part starts at
    the data pointer of its storage (src/query/query_part.rs:334-340), so cell
    [i] of the slice is cell [i] of the storage. *)
Definition query_slice_set (w : world) (G J X : query) (k i : nat) (v : val) : result :=
  match query_all_slice w G J X with
  | Ok (Some sl) =>
      match G !! k, sl !! k with
      | Some (PMut t), Some (SVals _ l) =>
          match l !! i with
          | None => (Panicked [], [v], w)
          | Some old =>
              match cs_meta (w_comps w) !! t with
              | None => (UndefBeh [], [], w)
              | Some m =>
                  match cs_comps (w_comps w) !! m_index m with
                  | None => (UndefBeh [], [], w)
                  | Some c =>
                      match css_set c i v with
                      | Ok c' => (Ret (ROpts [Some old]), [], put_storage w m c')
                      | _ => (UndefBeh [], [], w)
                      end
                  end
              end
          end
      | _, _ => (Panicked [], [v], w)
      end
  | Ok None => (Panicked [], [v], w)
  | Panic => (Panicked [], [v], w)
  | UB => (UndefBeh [], [], w)
  end.
