(** Model of src/query/par_iter and of the iterator behind [query_all().iter()]. *)
From Verif Require Import Base SparseVecM EntityM CssM MaskM LayoutM GroupM StorageM WorldM QueryM.

(** [world.query_all::<G>().include::<I>().exclude::<E>().iter()]: the iterator
    before anything is taken from it (src/query/query_all.rs:31-92, 102-134). *)
Definition query_all_iter (w : world) (G J X : query) : res iter :=
  match borrow3 w G J X with
  | Ok (g, i, x) => query_iter (w_comps w) g i x
  | Panic => Panic | UB => UB
  end.

(** ** Parallel iterators *)

(** src/query/par_iter/mod.rs:11-22, dense_par_iter.rs:10-17, sparse_par_iter.rs:8-19. *)
Inductive piter :=
| PSparse (ents : list entity) (x i g : list pview)
| PDense (lo hi : nat) (ents : list entity) (g : list pview).

(** src/query/query_all.rs:145-178 [par_iter]. *)
Definition query_par_iter (s : cstore) (g i x : list pview) : res piter :=
  match get_group_range s g i x with
  | Ok (Some (lo, hi)) =>
      match first_entities g, shortest_entities None i with
      | Ok (Some l), Ok _ => Ok (PDense lo hi l g)
      | Ok None, Ok (Some l) => Ok (PDense lo hi l g)
      | Ok None, Ok None => Panic
      | _, _ => UB
      end
  | Ok None =>
      match shortest_entities None g, shortest_entities None i, shortest_entities None x with
      | Ok ge, Ok ie, Ok _ =>
          Ok (PSparse (match ge, ie with
                       | Some a, Some b => if length a <=? length b then a else b
                       | Some a, None => a
                       | None, Some b => b
                       | None, None => []
                       end) x i g)
      | _, _, _ => UB
      end
  | Panic => Panic
  | UB => UB
  end.

(** src/query/query_all.rs:146-178. *)
Definition query_all_par_iter (w : world) (G J X : query) : res piter :=
  match borrow3 w G J X with
  | Ok (g, i, x) => query_par_iter (w_comps w) g i x
  | Panic => Panic | UB => UB
  end.

(** The units of work handed to rayon: indexes of a range
    (dense_par_iter.rs:68-72) or entities of a slice (sparse_par_iter.rs:89-92). *)
Inductive work := WIndex (k : nat) | WEntity (e : entity).

(** src/query/par_iter/dense_par_iter.rs:64-73, src/query/par_iter/sparse_par_iter.rs:85-93: the units that are split among threads. *)
Definition piter_work (p : piter) : list work :=
  match p with
  | PSparse ents _ _ _ => map WEntity ents
  | PDense lo hi _ _ => map WIndex (seq lo (hi - lo))
  end.

(** src/query/par_iter/sparse_par_iter.rs:43-57 [SparseParIter::get]. *)
Definition psparse_get (x i g : list pview) (e : entity) : res (option (list item)) :=
  if negb (contains_none_raw x (e_sparse e)) then Ok None
  else if negb (contains_all_raw i (e_sparse e)) then Ok None
  else query_get_raw g e.

(** src/query/par_iter/dense_par_iter.rs:37-41 [DenseParIter::get]; the entity is
    read through an unchecked pointer. *)
Definition pdense_get (ents : list entity) (g : list pview) (k : nat) : res (list item) :=
  match ents !! k with
  | None => UB
  | Some e => query_get_dense g k e
  end.

(** src/query/par_iter/dense_par_iter.rs:38-41, 71, src/query/par_iter/sparse_par_iter.rs:44-56, 91:
    The items of one unit of work: [map] gives one, [flat_map] over an [Option]
    gives none or one. *)
Definition work_items (p : piter) (u : work) : res (list (list item)) :=
  match p, u with
  | PSparse _ x i g, WEntity e =>
      match psparse_get x i g e with
      | Ok (Some it) => Ok [it]
      | Ok None => Ok []
      | Panic => Panic | UB => UB
      end
  | PDense _ _ ents g, WIndex k => it ← pdense_get ents g k; Ok [it]
  | _, _ => UB
  end.

(** Not /repo code (rayon):
    Units of work done one after the other. *)
Fixpoint works_items (p : piter) (us : list work) : res (list (list item)) :=
  match us with
  | [] => Ok []
  | u :: us =>
      match work_items p u with
      | Ok l => match works_items p us with
                | Ok l' => Ok (l ++ l')
                | Panic => Panic | UB => UB
                end
      | Panic => Panic | UB => UB
      end
  end.

(** What rayon does with a range or a slice (not part of /repo): it is split at
    arbitrary places, again and again; ... *)
Inductive split := SLeaf | SNode (mid : nat) (l r : split).

(** Not /repo code (rayon): the pieces of a range or slice after splitting. *)
Fixpoint pieces {A} (t : split) (us : list A) : list (list A) :=
  match t with
  | SLeaf => [us]
  | SNode mid l r => pieces l (take mid us) ++ pieces r (drop mid us)
  end.

(** Not /repo code (rayon):
    ... each piece is worked off in order, but the pieces progress independently.
    [interleaving ps us]: [us] is a merge of the pieces [ps]. *)
Inductive interleaving {A} : list (list A) → list A → Prop :=
| il_done ps : Forall (λ p, p = []) ps → interleaving ps []
| il_step ps1 u p ps2 us :
    interleaving (ps1 ++ p :: ps2) us → interleaving (ps1 ++ (u :: p) :: ps2) (u :: us).

(** Not /repo code (rayon):
    Consumers that keep the order ([collect]): the results of the two halves are
    appended. *)
Fixpoint par_reduce (p : piter) (t : split) (us : list work) : res (list (list item)) :=
  match t with
  | SLeaf => works_items p us
  | SNode mid l r =>
      match par_reduce p l (take mid us), par_reduce p r (drop mid us) with
      | Ok a, Ok b => Ok (a ++ b)
      | UB, _ | _, UB => UB
      | _, _ => Panic
      end
  end.

(** src/query/query_all.rs:146-178 followed by rayon code:
    [query_all().par_iter().collect()] with the splits [t]. *)
Definition par_collect (w : world) (G J X : query) (t : split) : res (list (list item)) :=
  match query_all_par_iter w G J X with
  | Ok p => par_reduce p t (piter_work p)
  | Panic => Panic | UB => UB
  end.

(** Not /repo code (rayon):
    The items in the order in which they are produced in some parallel run. *)
Definition par_produces (w : world) (G J X : query) (r : res (list (list item))) : Prop :=
  match query_all_par_iter w G J X with
  | Ok p => ∃ t us, interleaving (pieces t (piter_work p)) us ∧ r = works_items p us
  | Panic => r = Panic | UB => r = UB
  end.

(** src/query/par_iter/mod.rs:62-67, dense_par_iter.rs:75-77 [opt_len]; the sparse
    iterator keeps rayon's default, [None]. The subtraction must not underflow. *)
Definition par_opt_len (w : world) (G J X : query) : res (option nat) :=
  match query_all_par_iter w G J X with
  | Ok (PSparse _ _ _ _) => Ok None
  | Ok (PDense lo hi _ _) => if hi <? lo then Panic else Ok (Some (hi - lo))
  | Panic => Panic | UB => UB
  end.

(** *** Writing in parallel *)

(** src/query/par_iter/dense_par_iter.rs:16, src/query/par_iter/sparse_par_iter.rs:18 (the [Data] pointers):
    The data pointers of the iterator show the current contents. *)
Definition piter_refresh (s : cstore) (p : piter) : piter :=
  match p with
  | PSparse ents x i g => PSparse ents (refresh s <$> x) (refresh s <$> i) (refresh s <$> g)
  | PDense lo hi ents g => PDense lo hi ents (refresh s <$> g)
  end.

(** src/query/query_all.rs:182-188:
    The closure applied to the items of one unit of work. *)
Fixpoint visits_of (s : cstore) (f : writer) (G : query) (its : list (list item))
    : res (cstore * list val * list val) :=
  match its with
  | [] => Ok (s, [], [])
  | it :: its =>
      match visit s f G it with
      | Ok (s1, o1, n1) =>
          match visits_of s1 f G its with
          | Ok (s2, o2, n2) => Ok (s2, o1 ++ o2, n1 ++ n2)
          | Panic => Panic | UB => UB
          end
      | Panic => Panic | UB => UB
      end
  end.

(** src/query/par_iter/dense_par_iter.rs:39, src/query/par_iter/sparse_par_iter.rs:91:
    The entity of a unit of work (ghost). *)
Definition work_entity (p : piter) (u : work) : list entity :=
  match p, u with
  | PSparse _ _ _ _, WEntity e => [e]
  | PDense _ _ ents _, WIndex k => match ents !! k with Some e => [e] | None => [] end
  | _, _ => []
  end.

(** src/query/query_all.rs:182-188, then rayon code:
    Units of work done in the order [us], whichever threads do them. A unit of
    work is one step: its reads and writes do not mix with those of another unit
    (they touch different cells, see C29). *)
Fixpoint par_run (s : cstore) (f : writer) (G : query) (p : piter) (us : list work)
    : res (cstore * list entity * list val * list val) :=
  match us with
  | [] => Ok (s, [], [], [])
  | u :: us =>
      match work_items (piter_refresh s p) u with
      | Ok its =>
          match visits_of s f G its with
          | Ok (s1, o1, n1) =>
              match par_run s1 f G p us with
              | Ok (s2, es, o2, n2) =>
                  Ok (s2, match its with [] => es | _ => work_entity p u ++ es end, o1 ++ o2, n1 ++ n2)
              | Panic => Panic | UB => UB
              end
          | Panic => Panic | UB => UB
          end
      | Panic => Panic | UB => UB
      end
  end.

(** src/query/query_all.rs:180-187 [par_for_each]: a possible run. *)
Definition par_for_each (w : world) (G J X : query) (f : writer)
    (r : res (cstore * list entity * list val * list val)) : Prop :=
  match query_all_par_iter w G J X with
  | Ok p => ∃ t us, interleaving (pieces t (piter_work p)) us ∧ r = par_run (w_comps w) f G p us
  | Panic => r = Panic | UB => r = UB
  end.
