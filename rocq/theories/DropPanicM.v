(** The calls that drop components, when the [Drop] of a component panics. [bomb v]
    says that dropping [v] panics; [v] then counts as dropped. A panic while unwinding
    aborts the process: the functions below go on as if it did not, which allows more
    behaviours. *)
From Verif Require Import Base SparseVecM EntityM CssM MaskM LayoutM GroupM StorageM WorldM.

Section drop_panic.
  Context (bomb : val → bool).

  (** src/component/component_sparse_set.rs:93-119 [delete]: whether it panicked, the
      storage and the dropped component. [drop_in_place] is called after the entity is
      detached and before the last component is moved into the hole. *)
  Definition css_delete_p (s : css) (e : entity) : res (bool * css * list val) :=
    d ← css_detach s e;
    match d with
    | None => Ok (false, s, [])
    | Some (index, s1) =>
        v ← buf_read (c_comps s1) index;
        comps ← buf_write (c_comps s1) index None;
        if bomb v then Ok (true, Css (c_sparse s1) (c_ents s1) comps (c_len s1) (c_cap s1), [v]) else
        match (if c_len s1 =? index then Some None else comps !! c_len s1) with
        | None => UB
        | Some last_cell =>
            comps1 ← buf_write comps index last_cell;
            comps2 ← buf_write comps1 (c_len s1) None;
            Ok (false, Css (c_sparse s1) (c_ents s1) comps2 (c_len s1) (c_cap s1), [v])
        end
    end.

  (** src/component/component_sparse_set.rs:303-307, 318-322:
      Dropping the cells [i], [i+1], ... ([n] of them) one after the other: whether it
      panicked, the cells and the dropped components. *)
  Fixpoint drop_cells (b : list (option val)) (i n : nat) : res (bool * list (option val) * list val) :=
    match n with
    | 0 => Ok (false, b, [])
    | S n =>
        v ← buf_read b i;
        b1 ← buf_write b i None;
        if bomb v then Ok (true, b1, [v]) else
        match drop_cells b1 (S i) n with Ok (p, b2, vs) => Ok (p, b2, v :: vs) | Panic => Panic | UB => UB end
    end.

  (** src/component/component_sparse_set.rs:296-311 [clear_typed]: [len] is set to 0 at
      the end only. *)
  Definition css_clear_p (s : css) : res (bool * css * list val) :=
    match drop_cells (c_comps s) 0 (c_len s) with
    | Ok (p, b, vs) => Ok (p, Css [] (c_ents s) b (if p : bool then c_len s else 0) (c_cap s), vs)
    | Panic => Panic
    | UB => UB
    end.

  (** src/component/component_sparse_set.rs:313-329 [drop_typed]. *)
  Definition css_drop_p (s : css) : res (bool * list val) :=
    match drop_cells (c_comps s) 0 (c_len s) with Ok (p, _, vs) => Ok (p, vs) | Panic => Panic | UB => UB end.

  (** src/component/component_storage.rs:143-145. *)
  Fixpoint delete_each_p (l : list css) (e : entity) : res (bool * list css * list val) :=
    match l with
    | [] => Ok (false, [], [])
    | s :: l =>
        match css_delete_p s e with
        | Ok (true, s', ds) => Ok (true, s' :: l, ds)
        | Ok (false, s', ds) =>
            match delete_each_p l e with Ok (p, l', ds') => Ok (p, s' :: l', ds ++ ds') | Panic => Panic | UB => UB end
        | Panic => Panic
        | UB => UB
        end
    end.

  (** src/component/component_storage.rs:148-156 [clear], the second loop. *)
  Fixpoint clear_each_p (l : list css) : res (bool * list css * list val) :=
    match l with
    | [] => Ok (false, [], [])
    | s :: l =>
        match css_clear_p s with
        | Ok (true, s', ds) => Ok (true, s' :: l, ds)
        | Ok (false, s', ds) =>
            match clear_each_p l with Ok (p, l', ds') => Ok (p, s' :: l', ds ++ ds') | Panic => Panic | UB => UB end
        | Panic => Panic
        | UB => UB
        end
    end.

  (** src/component/component_set.rs:200-202. *)
  Fixpoint delete_list_p (comps : list css) (e : entity) (is_ : list nat) : res (bool * list css * list val) :=
    match is_ with
    | [] => Ok (false, comps, [])
    | i :: is_ =>
        match comps !! i with
        | None => UB
        | Some s =>
            match css_delete_p s e with
            | Ok (true, s', ds) => Ok (true, <[i := s']> comps, ds)
            | Ok (false, s', ds) =>
                match delete_list_p (<[i := s']> comps) e is_ with
                | Ok (p, comps', ds') => Ok (p, comps', ds ++ ds')
                | Panic => Panic
                | UB => UB
                end
            | Panic => Panic
            | UB => UB
            end
        end
    end.

  (** src/component/component_set.rs:44-63 [insert], the repeated block: the replaced
      component is dropped at the end of each statement. *)
  Fixpoint insert_loop_p (mt : gmap tid meta) (comps : list css) (mask : N) (e : entity)
      (cs : list (tid * val)) : ins_result :=
    match cs with
    | [] => InsOk [] comps mask
    | (t, v) :: cs =>
        match mt !! t with
        | None => InsPanic (v :: (snd <$> cs)) comps
        | Some m =>
            match comps !! m_index m with
            | None => InsUB
            | Some s =>
                match css_insert s e v with
                | Ok (s', old) =>
                    let d := match old with Some o => [o] | None => [] end in
                    if existsb bomb d then InsPanic (d ++ (snd <$> cs)) (<[m_index m := s']> comps) else
                    match insert_loop_p mt (<[m_index m := s']> comps) (gm_or mask (m_insert m)) e cs with
                    | InsOk ds comps' mask' => InsOk (d ++ ds) comps' mask'
                    | InsPanic ds comps' => InsPanic (d ++ ds) comps'
                    | InsUB => InsUB
                    end
                | _ => InsUB
                end
            end
        end
    end.

  (** Not /repo code:
      The status of a call that ends normally or by a panic. *)
  Definition ended (p : bool) (r : retval) : outcome := if p then Panicked [] else Ret r.

  (** src/component/component_set.rs:44-76 [ComponentSet::insert]. *)
  Definition set_insert_p (w : world) (e : entity) (cs : list (tid * val)) (on_ok : retval) (ghost : list entity)
      : result :=
    let s := w_comps w in
    match insert_loop_p (cs_meta s) (cs_comps s) 0 e cs with
    | InsUB => (UndefBeh ghost, [], w)
    | InsPanic ds comps => (Panicked ghost, ds, World (w_ents w) (CStore (cs_groups s) (cs_meta s) comps))
    | InsOk ds comps mask =>
        match group_if (CStore (cs_groups s) (cs_meta s) comps) mask e with
        | Ok s' => (Ret on_ok, ds, World (w_ents w) s')
        | _ => (UndefBeh ghost, [], w)
        end
    end.

  (** src/world/mod.rs:141-159 [World::insert]; if the entity is not in the world, the
      tuple is dropped. *)
  Definition world_insert_p (w : world) (e : entity) (cs : list (tid * val)) : result :=
    if estore_contains (w_ents w) e then set_insert_p w e cs (RBool true) []
    else (ended (existsb bomb (snd <$> cs)) (RBool false), snd <$> cs, w).

  (** src/world/mod.rs:83-97 [World::create]. *)
  Definition world_create_p (w : world) (cs : list (tid * val)) : result :=
    match estore_create (w_ents w) with
    | Ok (e, ents) => set_insert_p (World ents (w_comps w)) e cs (REnt e) [e]
    | Panic => (Panicked [], snd <$> cs, w)
    | UB => (UndefBeh [], [], w)
    end.

  (** src/component/component_set.rs:107-109 ([extend]): one row; a component that is
      replaced, because the tuple has its type twice, is dropped at the end of the
      statement, and a panic drops the components not inserted yet. *)
  Fixpoint insert_row_p (comps : list css) (e : entity) (row : list (nat * val)) : res (bool * list css * list val) :=
    match row with
    | [] => Ok (false, comps, [])
    | (i, v) :: row =>
        match comps !! i with
        | None => UB
        | Some s =>
            match css_insert s e v with
            | Ok (s', old) =>
                let d := match old with Some o => [o] | None => [] end in
                if existsb bomb d then Ok (true, <[i := s']> comps, d ++ (snd <$> row)) else
                match insert_row_p (<[i := s']> comps) e row with
                | Ok (p, comps', ds) => Ok (p, comps', d ++ ds)
                | Panic => Panic
                | UB => UB
                end
            | Panic => Panic
            | UB => UB
            end
        end
    end.

  (** src/component/component_set.rs:104-110: the loop over the rows. *)
  Fixpoint extend_rows_p (ents : estore) (comps : list css) (is_ : list nat) (rows : list (list val)) : rows_result :=
    match rows with
    | [] => RowsOk [] ents comps []
    | row :: rows =>
        match estore_create ents with
        | UB => RowsUB
        | Panic => RowsPanic (row ++ concat rows) ents comps []
        | Ok (e, ents') =>
            match insert_row_p comps e (zip is_ row) with
            | Ok (true, comps', ds) => RowsPanic (ds ++ concat rows) ents' comps' [e]
            | Ok (false, comps', ds) =>
                match extend_rows_p ents' comps' is_ rows with
                | RowsOk ds' en cs new => RowsOk (ds ++ ds') en cs (e :: new)
                | RowsPanic ds' en cs new => RowsPanic (ds ++ ds') en cs (e :: new)
                | RowsUB => RowsUB
                end
            | _ => RowsUB
            end
        end
    end.

  (** src/component/component_set.rs:78-130 [ComponentSet::extend]. *)
  Definition set_extend_p (w : world) (ts : list tid) (rows : list (list val)) (ends_in_panic : bool) : result :=
    let s := w_comps w in
    match lookup_metas (cs_meta s) m_insert ts with
    | None => (Panicked [], concat rows, w)
    | Some (is_, mask) =>
        let start := length (estore_slice (w_ents w)) in
        match extend_rows_p (w_ents w) (cs_comps s) is_ rows with
        | RowsUB => (UndefBeh [], [], w)
        | RowsPanic ds ents comps new =>
            (Panicked new, ds, World ents (CStore (cs_groups s) (cs_meta s) comps))
        | RowsOk ds ents comps new =>
            let w' := World ents (CStore (cs_groups s) (cs_meta s) comps) in
            if ends_in_panic then (Panicked new, ds, w') else
            if start <=? length (estore_slice ents) then
              let new_entities := drop start (estore_slice ents) in
              if (mask =? 0)%N then (Ret (REnts new_entities), ds, w') else
              match group_each comps (cs_groups s) mask new_entities with
              | Ok (comps', gs') => (Ret (REnts new_entities), ds, World ents (CStore gs' (cs_meta s) comps'))
              | _ => (UndefBeh new, [], w)
              end
            else (UndefBeh new, [], w)
        end
    end.

  (** src/world/mod.rs:174-183 [World::delete] with src/component/component_set.rs:169-204. *)
  Definition world_delete_p (w : world) (e : entity) (ts : list tid) : result :=
    let s := w_comps w in
    match lookup_metas (cs_meta s) m_delete ts with
    | None => (Panicked [], [], w)
    | Some (is_, mask) =>
        match ungroup_if s mask e with
        | Ok s1 =>
            match delete_list_p (cs_comps s1) e is_ with
            | Ok (p, comps, ds) =>
                (ended p RUnit, ds, World (w_ents w) (CStore (cs_groups s1) (cs_meta s1) comps))
            | _ => (UndefBeh [], [], w)
            end
        | _ => (UndefBeh [], [], w)
        end
    end.

  (** src/world/mod.rs:110-122 [World::destroy] with
      src/component/component_storage.rs:138-146 [strip]. *)
  Definition world_destroy_p (w : world) (e : entity) : result :=
    match estore_remove (w_ents w) e with
    | Ok (false, _) => (Ret (RBool false), [], w)
    | Ok (true, ents) =>
        match ungroup_all (cs_comps (w_comps w)) (cs_groups (w_comps w)) e with
        | Ok (comps1, gs) =>
            match delete_each_p comps1 e with
            | Ok (p, comps, ds) => (ended p (RBool true), ds, World ents (CStore gs (cs_meta (w_comps w)) comps))
            | _ => (UndefBeh [], [], w)
            end
        | _ => (UndefBeh [], [], w)
        end
    | Panic => (Panicked [], [], w)
    | UB => (UndefBeh [], [], w)
    end.

  (** src/world/mod.rs:246-251 [World::clear]. *)
  Definition world_clear_p (w : world) : result :=
    match estore_clear (w_ents w) with
    | Ok ents =>
        match clear_each_p (cs_comps (w_comps w)) with
        | Ok (p, comps, ds) =>
            (ended p RUnit, ds,
             World ents (CStore ((λ g, Grp (g_meta g) 0) <$> cs_groups (w_comps w)) (cs_meta (w_comps w)) comps))
        | _ => (UndefBeh [], [], w)
        end
    | Panic => (Panicked [], [], w)
    | UB => (UndefBeh [], [], w)
    end.

  (** src/world/mod.rs:253-259 [World::reset]. *)
  Definition world_reset_p (w : world) : result :=
    match clear_each_p (cs_comps (w_comps w)) with
    | Ok (p, comps, ds) =>
        (ended p RUnit, ds,
         World (estore_reset (w_ents w))
               (CStore ((λ g, Grp (g_meta g) 0) <$> cs_groups (w_comps w)) (cs_meta (w_comps w)) comps))
    | _ => (UndefBeh [], [], w)
    end.

  (** src/component/component_sparse_set.rs:353-360:
      Dropping the world: the storages in order; when one panics, the others are still
      dropped. *)
  Fixpoint drop_all_p (l : list css) : res (bool * list val) :=
    match l with
    | [] => Ok (false, [])
    | s :: l =>
        match css_drop_p s, drop_all_p l with
        | Ok (p, ds), Ok (p', ds') => Ok (p || p', ds ++ ds')
        | UB, _ | _, UB => UB
        | _, _ => Panic
        end
    end.
End drop_panic.
