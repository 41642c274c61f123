(** Model of src/world/mod.rs, src/world/builder.rs and
    src/component/component_set.rs. *)
From Verif Require Import Base SparseVecM EntityM CssM MaskM LayoutM GroupM StorageM.

(** src/world/mod.rs:14-19 [World]. *)
Record world := World { w_ents : estore; w_comps : cstore }.

(** src/world/mod.rs:21-298:
    Values returned by the API. *)
Inductive retval :=
| RUnit
| RBool (b : bool)
| REnt (e : entity)
| REnts (es : list entity)
| ROpts (vs : list (option val))
| RWrote (es : list entity) (vs : list val).
    (* for_each returns unit; ghost: entities visited, values assigned by the closure *)

(** Not /repo code:
    How a call ends. [Panicked es]: the call panics and the panic unwinds to the
    caller, who may catch it and keep using the world; [es] is ghost
    information, the entities the call had created and could not return.
    [UndefBeh es]: the call performed an invalid access; [es] is the same ghost. *)
Inductive outcome :=
| Ret (r : retval)
| Panicked (es : list entity)
| UndefBeh (es : list entity).

(** Not /repo code:
    Outcome, values dropped by the call in order, world afterwards. *)
Definition result : Type := outcome * list val * world.

(** ** component_set.rs *)

(** src/component/component_set.rs:44-76:
    Insertion loop shared by [insert] and one row of [extend]: the
    status, the values dropped (replaced components; on a panic also the rest
    of the tuple), the storages, and the accumulated group mask. *)
Inductive ins_result :=
| InsOk (dropped : list val) (comps : list css) (mask : N)
| InsPanic (dropped : list val) (comps : list css)
| InsUB.

(** src/component/component_set.rs:44-63 [insert], the repeated block. *)
Fixpoint insert_loop (mt : gmap tid meta) (comps : list css) (mask : N) (e : entity)
    (cs : list (tid * val)) : ins_result :=
  match cs with
  | [] => InsOk [] comps mask
  | (t, v) :: cs =>
      match mt !! t with
      | None => InsPanic (v :: (snd <$> cs)) comps
      | Some m =>
          match comps !! m_index m with
          | None => InsUB
          | Some s =>
              match css_insert s e v with
              | Ok (s', old) =>
                  let d := match old with Some o => [o] | None => [] end in
                  match insert_loop mt (<[m_index m := s']> comps) (gm_or mask (m_insert m)) e cs with
                  | InsOk ds comps' mask' => InsOk (d ++ ds) comps' mask'
                  | InsPanic ds comps' => InsPanic (d ++ ds) comps'
                  | InsUB => InsUB
                  end
              | _ => InsUB
              end
          end
      end
  end.

(** src/component/component_set.rs:66-75:
    [if group_mask != EMPTY { group(..) }]. *)
Definition group_if (s : cstore) (mask : N) (e : entity) : res cstore :=
  if (mask =? 0)%N then Ok s else
  match do_group (cs_comps s) (cs_groups s) mask e with
  | Ok r => Ok (CStore r.2 (cs_meta s) r.1)
  | Panic => Panic
  | UB => UB
  end.

(** src/component/component_set.rs:44-76 [ComponentSet::insert]; for [()] (213-215)
    the list is empty. [on_ok] is what the caller returns; [ghost] the entities
    to report if the call panics. Panics of the slice indexing in [group] are
    unreachable and mapped to [UndefBeh], the worst outcome. *)
Definition set_insert (w : world) (e : entity) (cs : list (tid * val)) (on_ok : retval)
    (ghost : list entity) : result :=
  let s := w_comps w in
  match insert_loop (cs_meta s) (cs_comps s) 0 e cs with
  | InsUB => (UndefBeh ghost, [], w)
  | InsPanic ds comps =>
      (Panicked ghost, ds, World (w_ents w) (CStore (cs_groups s) (cs_meta s) comps))
  | InsOk ds comps mask =>
      match group_if (CStore (cs_groups s) (cs_meta s) comps) mask e with
      | Ok s' => (Ret on_ok, ds, World (w_ents w) s')
      | _ => (UndefBeh ghost, [], w)
      end
  end.

(** src/component/component_set.rs:84-100, 135-151, 172-188:
    The metadata lookups at the start of [extend], [remove] and [delete]:
    storage indexes and the union of the masks
    selected by [f]; [None] when a type is not registered. *)
Fixpoint lookup_metas (mt : gmap tid meta) (f : meta → N) (ts : list tid) : option (list nat * N) :=
  match ts with
  | [] => Some ([], 0%N)
  | t :: ts =>
      match mt !! t with
      | None => None
      | Some m =>
          match lookup_metas mt f ts with
          | None => None
          | Some (is_, mask) => Some (m_index m :: is_, gm_or (f m) mask)
          end
      end
  end.

(** src/component/component_set.rs:107-109: insert one row. *)
Fixpoint insert_row (comps : list css) (e : entity) (row : list (nat * val))
    : res (list css * list val) :=
  match row with
  | [] => Ok (comps, [])
  | (i, v) :: row =>
      match comps !! i with
      | None => UB
      | Some s =>
          match css_insert s e v with
          | Ok (s', old) =>
              match insert_row (<[i := s']> comps) e row with
              | Ok (comps', ds) =>
                  Ok (comps', match old with Some o => o :: ds | None => ds end)
              | Panic => Panic
              | UB => UB
              end
          | Panic => Panic
          | UB => UB
          end
      end
  end.

(** src/component/component_set.rs:104-110: the [for_each] over the iterator. *)
Inductive rows_result :=
| RowsOk (dropped : list val) (ents : estore) (comps : list css) (new : list entity)
| RowsPanic (dropped : list val) (ents : estore) (comps : list css) (new : list entity)
| RowsUB.

(** src/component/component_set.rs:104-110. *)
Fixpoint extend_rows (ents : estore) (comps : list css) (is_ : list nat) (rows : list (list val))
    : rows_result :=
  match rows with
  | [] => RowsOk [] ents comps []
  | row :: rows =>
      match estore_create ents with
      | UB => RowsUB
      | Panic => RowsPanic (row ++ concat rows) ents comps []
      | Ok (e, ents') =>
          match insert_row comps e (zip is_ row) with
          | Ok (comps', ds) =>
              match extend_rows ents' comps' is_ rows with
              | RowsOk ds' en cs new => RowsOk (ds ++ ds') en cs (e :: new)
              | RowsPanic ds' en cs new => RowsPanic (ds ++ ds') en cs (e :: new)
              | RowsUB => RowsUB
              end
          | _ => RowsUB
          end
      end
  end.

(** src/component/component_set.rs:78-130 [ComponentSet::extend] and 217-228 for
    [()]. [rows] are the items of the iterator; [ends_in_panic] says that the
    iterator panics when asked for the item after the last row. The values of
    rows not inserted are dropped with the iterator. *)
Definition set_extend (w : world) (ts : list tid) (rows : list (list val)) (ends_in_panic : bool)
    : result :=
  let s := w_comps w in
  match lookup_metas (cs_meta s) m_insert ts with
  | None => (Panicked [], concat rows, w)
  | Some (is_, mask) =>
      let start := length (estore_slice (w_ents w)) in
      match extend_rows (w_ents w) (cs_comps s) is_ rows with
      | RowsUB => (UndefBeh [], [], w)
      | RowsPanic ds ents comps new =>
          (Panicked new, ds, World ents (CStore (cs_groups s) (cs_meta s) comps))
      | RowsOk ds ents comps new =>
          let w' := World ents (CStore (cs_groups s) (cs_meta s) comps) in
          if ends_in_panic then (Panicked new, ds, w') else
          if start <=? length (estore_slice ents) then
            let new_entities := drop start (estore_slice ents) in
            if (mask =? 0)%N then (Ret (REnts new_entities), ds, w') else
            match group_each comps (cs_groups s) mask new_entities with
            | Ok (comps', gs') =>
                (Ret (REnts new_entities), ds, World ents (CStore gs' (cs_meta s) comps'))
            | _ => (UndefBeh new, [], w)
            end
          else (UndefBeh new, [], w)
      end
  end.

(** src/component/component_set.rs:154-161, 191-198:
    [if group_mask != EMPTY { ungroup(..) }]. *)
Definition ungroup_if (s : cstore) (mask : N) (e : entity) : res cstore :=
  if (mask =? 0)%N then Ok s else
  match do_ungroup (cs_comps s) (cs_groups s) mask e with
  | Ok r => Ok (CStore r.2 (cs_meta s) r.1)
  | Panic => Panic
  | UB => UB
  end.

(** src/component/component_set.rs:163-165:
    The removals at the end of [ComponentSet::remove]. *)
Fixpoint remove_each (comps : list css) (e : entity) (is_ : list nat)
    : res (list css * list (option val)) :=
  match is_ with
  | [] => Ok (comps, [])
  | i :: is_ =>
      match comps !! i with
      | None => UB
      | Some s =>
          match css_remove s e with
          | Ok (s', v) =>
              match remove_each (<[i := s']> comps) e is_ with
              | Ok (comps', vs) => Ok (comps', v :: vs)
              | Panic => Panic
              | UB => UB
              end
          | Panic => Panic
          | UB => UB
          end
      end
  end.

(** src/component/component_set.rs:132-167 [ComponentSet::remove]. *)
Definition set_remove (w : world) (e : entity) (ts : list tid) : result :=
  let s := w_comps w in
  match lookup_metas (cs_meta s) m_delete ts with
  | None => (Panicked [], [], w)
  | Some (is_, mask) =>
      match ungroup_if s mask e with
      | Ok s1 =>
          match remove_each (cs_comps s1) e is_ with
          | Ok (comps, vs) =>
              (Ret (ROpts vs), [], World (w_ents w) (CStore (cs_groups s1) (cs_meta s1) comps))
          | _ => (UndefBeh [], [], w)
          end
      | _ => (UndefBeh [], [], w)
      end
  end.

(** src/component/component_set.rs:200-202:
    The deletions at the end of [ComponentSet::delete]. *)
Fixpoint delete_list (comps : list css) (e : entity) (is_ : list nat) : res (list css * list val) :=
  match is_ with
  | [] => Ok (comps, [])
  | i :: is_ =>
      match comps !! i with
      | None => UB
      | Some s =>
          match css_delete s e with
          | Ok (s', ds) =>
              match delete_list (<[i := s']> comps) e is_ with
              | Ok (comps', ds') => Ok (comps', ds ++ ds')
              | Panic => Panic
              | UB => UB
              end
          | Panic => Panic
          | UB => UB
          end
      end
  end.

(** src/component/component_set.rs:169-204 [ComponentSet::delete]. *)
Definition set_delete (w : world) (e : entity) (ts : list tid) : result :=
  let s := w_comps w in
  match lookup_metas (cs_meta s) m_delete ts with
  | None => (Panicked [], [], w)
  | Some (is_, mask) =>
      match ungroup_if s mask e with
      | Ok s1 =>
          match delete_list (cs_comps s1) e is_ with
          | Ok (comps, ds) =>
              (Ret RUnit, ds, World (w_ents w) (CStore (cs_groups s1) (cs_meta s1) comps))
          | _ => (UndefBeh [], [], w)
          end
      | _ => (UndefBeh [], [], w)
      end
  end.

(** ** world/mod.rs *)

(** src/world/mod.rs:83-97 [World::create]; when no entity is left the tuple is
    dropped by unwinding. *)
Definition world_create (w : world) (cs : list (tid * val)) : result :=
  match estore_create (w_ents w) with
  | Ok (e, ents) => set_insert (World ents (w_comps w)) e cs (REnt e) [e]
  | Panic => (Panicked [], snd <$> cs, w)
  | UB => (UndefBeh [], [], w)
  end.

(** src/world/mod.rs:110-122 [World::destroy]. *)
Definition world_destroy (w : world) (e : entity) : result :=
  match estore_remove (w_ents w) e with
  | Ok (false, _) => (Ret (RBool false), [], w)
  | Ok (true, ents) =>
      match strip (w_comps w) e with
      | Ok (s, ds) => (Ret (RBool true), ds, World ents s)
      | _ => (UndefBeh [], [], w)
      end
  | Panic => (Panicked [], [], w)
  | UB => (UndefBeh [], [], w)
  end.

(** src/world/mod.rs:124-132 [World::create_atomic]. *)
Definition world_create_atomic (w : world) : result :=
  match estore_create_atomic (w_ents w) with
  | Ok (e, ents) => (Ret (REnt e), [], World ents (w_comps w))
  | Panic => (Panicked [], [], w)
  | UB => (UndefBeh [], [], w)
  end.

(** src/world/mod.rs:134-139 [World::maintain]. *)
Definition world_maintain (w : world) : result :=
  match estore_maintain (w_ents w) with
  | Ok ents => (Ret RUnit, [], World ents (w_comps w))
  | Panic => (Panicked [], [], w)
  | UB => (UndefBeh [], [], w)
  end.

(** src/world/mod.rs:141-159 [World::insert]. *)
Definition world_insert (w : world) (e : entity) (cs : list (tid * val)) : result :=
  if estore_contains (w_ents w) e
  then set_insert w e cs (RBool true) []
  else (Ret (RBool false), snd <$> cs, w).

(** src/world/mod.rs:246-251 [World::clear]. *)
Definition world_clear (w : world) : result :=
  match estore_clear (w_ents w) with
  | Ok ents =>
      match cstore_clear (w_comps w) with
      | Ok (s, ds) => (Ret RUnit, ds, World ents s)
      | _ => (UndefBeh [], [], w)
      end
  | Panic => (Panicked [], [], w)
  | UB => (UndefBeh [], [], w)
  end.

(** src/world/mod.rs:253-259 [World::reset]. *)
Definition world_reset (w : world) : result :=
  match cstore_clear (w_comps w) with
  | Ok (s, ds) => (Ret RUnit, ds, World (estore_reset (w_ents w)) s)
  | _ => (UndefBeh [], [], w)
  end.

(** src/world/mod.rs:49-65 [World::register_dyn]. *)
Definition world_register (w : world) (t : tid) : result :=
  let '(b, s) := register_dyn (w_comps w) t in (Ret (RBool b), [], World (w_ents w) s).

(** src/world/mod.rs:38-47 [World::set_layout]. *)
Definition world_set_layout (w : world) (l : layout) (perm : list tid) : result :=
  match set_layout (w_comps w) l perm (estore_slice (w_ents w)) with
  | SlOk s => (Ret RUnit, [], World (w_ents w) s)
  | SlPanic ds s => (Panicked [], ds, World (w_ents w) s)
  | SlUB => (UndefBeh [], [], w)
  end.

(** [*world.borrow_mut::<T>().get_mut(entity)? = v]: src/world/mod.rs:270-277,
    src/component/view.rs:50-52. Returns the old value, [None] when absent. *)
Definition world_set (w : world) (t : tid) (e : entity) (v : val) : result :=
  match cs_meta (w_comps w) !! t with
  | None => (Panicked [], [v], w)
  | Some m =>
      match cs_comps (w_comps w) !! m_index m with
      | None => (UndefBeh [], [], w)
      | Some s =>
          match css_get_ref s e with
          | Ok None => (Ret (ROpts [None]), [v], w)
          | Ok (Some (i, old)) =>
              match css_set s i v with
              | Ok s' => (Ret (ROpts [Some old]), [],
                          World (w_ents w) (CStore (cs_groups (w_comps w)) (cs_meta (w_comps w))
                                              (<[m_index m := s']> (cs_comps (w_comps w)))))
              | _ => (UndefBeh [], [], w)
              end
          | _ => (UndefBeh [], [], w)
          end
      end
  end.

(** ** Read-only API *)

(** src/world/mod.rs:225-244 [contains_entity], [entities], [is_empty]. *)
Definition world_contains (w : world) (e : entity) : bool := estore_contains (w_ents w) e.
Definition world_entities (w : world) : list entity := estore_slice (w_ents w).
Definition world_is_empty (w : world) : bool :=
  match world_entities w with [] => true | _ => false end.

(** src/world/mod.rs:67-81 [is_registered]. *)
Definition world_is_registered (w : world) (t : tid) : bool := is_registered (w_comps w) t.

(** src/world/mod.rs:261-268 [borrow] then src/component/view.rs:77-109:
    [get], [contains], [len], [entities], [as_slice] of the view. *)
Definition view_get (w : world) (t : tid) (e : entity) : res (option val) :=
  match cs_borrow (w_comps w) t with
  | Ok (s, _) => css_get s e | Panic => Panic | UB => UB
  end.
Definition view_contains (w : world) (t : tid) (e : entity) : res bool :=
  match cs_borrow (w_comps w) t with
  | Ok (s, _) => Ok (css_contains s e) | Panic => Panic | UB => UB
  end.
Definition view_len (w : world) (t : tid) : res nat :=
  match cs_borrow (w_comps w) t with
  | Ok (s, _) => Ok (c_len s) | Panic => Panic | UB => UB
  end.
Definition view_entities (w : world) (t : tid) : res (list entity) :=
  match cs_borrow (w_comps w) t with
  | Ok (s, _) => css_entities s | Panic => Panic | UB => UB
  end.
Definition view_slice (w : world) (t : tid) : res (list val) :=
  match cs_borrow (w_comps w) t with
  | Ok (s, _) => css_slice s | Panic => Panic | UB => UB
  end.

(** Dropping the world: [Drop for ComponentSparseSet] of every storage
    (src/component/component_sparse_set.rs:353-360); the values dropped. *)
Definition world_drop (w : world) : res (list val) := drop_all (cs_comps (w_comps w)).

(** ** Construction *)

(** src/world/mod.rs:15 (derived [Default]). *)
Definition world_default : world := World estore_new cstore_new.

(** src/world/mod.rs:28-36 [World::new] and component_storage.rs:26-35
    [ComponentStorage::new]: [None] when the layout makes it panic. *)
Definition world_new (l : layout) : option world :=
  match set_layout cstore_new l [] [] with
  | SlOk s => Some (World estore_new s)
  | _ => None
  end.

(** src/world/builder.rs:55-63 (the loop of [build]). *)
Fixpoint register_all (s : cstore) (ts : list tid) : cstore :=
  match ts with [] => s | t :: ts => register_all (register_dyn s t).2 ts end.

(** src/world/builder.rs:53-63 [WorldBuilder::build]. *)
Definition builder_build (l : layout) (ts : list tid) : option world :=
  match world_new l with
  | Some w => Some (World (w_ents w) (register_all (w_comps w) ts))
  | None => None
  end.
