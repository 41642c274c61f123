(** Model of src/entity/entity_allocator.rs, entity_sparse_set.rs and
    entity_storage.rs. *)
From Verif Require Import Base SparseVecM.

(** ** EntityAllocator *)

(** src/entity/entity_allocator.rs:6-11. The two atomics are read and written
    sequentially here; concurrent [allocate_atomic] calls are modelled in
    AtomicM.v. The head of [a_recycled] is the front of the VecDeque. *)
Record allocator := Alloc {
  a_next : N;            (* next_index_to_allocate: AtomicU64 *)
  a_lastm : N;           (* last_maintained_index: u64 *)
  a_recycled : list entity;
  a_rsm : nat            (* recycled_since_maintain: AtomicUsize *)
}.

(** src/entity/entity_allocator.rs:5 (derived [Default]). *)
Definition alloc_new : allocator := Alloc 0 0 [] 0.

(** src/entity/entity_allocator.rs:14-27 [allocate]. *)
Definition allocate (a : allocator) : res (option entity * allocator) :=
  if a_rsm a <? length (a_recycled a) then
    match a_recycled a !! (length (a_recycled a) - a_rsm a - 1) with
    | Some e => Ok (Some e, Alloc (a_next a) (a_lastm a) (a_recycled a) (S (a_rsm a)))
    | None => Panic
    end
  else if (a_next a <? u32_lim)%N then
    Ok (Some (with_index (a_next a)),
        Alloc (a_next a + 1) (a_lastm a) (a_recycled a) (a_rsm a))
  else Ok (None, a).

(** src/entity/entity_allocator.rs:29-40 and 74-110 [allocate_atomic] executed
    without interference: each compare-exchange loop succeeds with the loaded
    value. The interleaved version is in AtomicM.v. *)
Definition allocate_atomic (a : allocator) : res (option entity * allocator) :=
  if a_rsm a <? length (a_recycled a) then
    match a_recycled a !! (length (a_recycled a) - a_rsm a - 1) with
    | Some e => Ok (Some e, Alloc (a_next a) (a_lastm a) (a_recycled a) (a_rsm a + 1))
    | None => Panic
    end
  else if (a_next a <? u32_lim)%N then
    Ok (Some (with_index (as_u32 (a_next a))),
        Alloc (a_next a + 1) (a_lastm a) (a_recycled a) (a_rsm a))
  else Ok (None, a).

(** src/entity/entity_allocator.rs:42-47 [recycle]. *)
Definition recycle (a : allocator) (e : entity) : allocator :=
  match version_next (e_version e) with
  | Some v => Alloc (a_next a) (a_lastm a) (Ent (e_index e) v :: a_recycled a) (a_rsm a)
  | None => a
  end.

(** src/entity/entity_allocator.rs:58:
    The u64 range [lo..hi]. *)
Definition N_range (lo hi : N) : list N :=
  (λ k, (lo + N.of_nat k)%N) <$> seq 0 (N.to_nat (hi - lo)).

(** src/entity/entity_allocator.rs:49-66 [maintain]: the iterator's items and
    the allocator after the iterator is dropped. [len - recycled_since_maintain]
    underflows (panic) when the counter exceeds the length. *)
Definition alloc_maintain (a : allocator) : res (list entity * allocator) :=
  if a_rsm a <=? length (a_recycled a) then
    let k := length (a_recycled a) - a_rsm a in
    Ok (drop k (a_recycled a) ++
          ((λ i, with_index (as_u32 i)) <$> N_range (a_lastm a) (a_next a)),
        Alloc (a_next a) (a_next a) (take k (a_recycled a)) 0)
  else Panic.

(** src/entity/entity_allocator.rs:68-73 [reset]. *)
Definition alloc_reset (a : allocator) : allocator := alloc_new.

(** ** EntitySparseSet *)

(** src/entity/entity_sparse_set.rs:6-9. *)
Record eset := ESet { es_sparse : sparse_vec; es_ents : list entity }.

(** src/entity/entity_sparse_set.rs:5 (derived [Default]). *)
Definition eset_new : eset := ESet [] [].

(** src/entity/entity_sparse_set.rs:12-32 [insert]; the returned old entity is
    ignored by all callers. In the first case the slot keeps its version. *)
Definition eset_insert (s : eset) (e : entity) : res eset :=
  let sp := sv_allocate_at (es_sparse s) (e_sparse e) in
  match sp !! e_sparse e with
  | None => UB
  | Some (Some sl) =>
      if s_dense sl <? length (es_ents s)
      then Ok (ESet sp (<[s_dense sl := e]> (es_ents s)))
      else UB
  | Some None =>
      Ok (ESet (<[e_sparse e := Some (Slot (as_u32 (N.of_nat (length (es_ents s)))) (e_version e))]> sp)
               (es_ents s ++ [e]))
  end.

(** src/entity/entity_sparse_set.rs:40:
    [Vec::swap_remove]: panics when out of bounds. *)
Definition swap_remove {A} (l : list A) (i : nat) : list A :=
  match l !! (length l - 1) with
  | Some x => take (length l - 1) (<[i := x]> l)
  | None => l
  end.

(** src/entity/entity_sparse_set.rs:34-52 [remove]. *)
Definition eset_remove (s : eset) (e : entity) : res (bool * eset) :=
  match sv_remove (es_sparse s) e with
  | (_, None) => Ok (false, s)
  | (sp, Some raw) =>
      let dense := N.to_nat raw in
      if dense <? length (es_ents s) then
        let es := swap_remove (es_ents s) dense in
        match es !! dense with
        | Some f =>
            sp' ← sv_write sp (e_sparse f) (Some (Slot raw (e_version f)));
            Ok (true, ESet sp' es)
        | None => Ok (true, ESet sp es)
        end
      else Panic
  end.

(** src/entity/entity_sparse_set.rs:54-58 [contains]. *)
Definition eset_contains (s : eset) (e : entity) : bool := sv_contains (es_sparse s) e.

(** src/entity/entity_sparse_set.rs:78-82 [clear]. *)
Definition eset_clear (s : eset) : eset := ESet [] [].

(** ** EntityStorage *)

(** src/entity/entity_storage.rs:3-7. *)
Record estore := EStore { st_alloc : allocator; st_set : eset }.

(** src/entity/entity_storage.rs:3 (derived [Default]). *)
Definition estore_new : estore := EStore alloc_new eset_new.

(** src/entity/entity_storage.rs:10-19 [create]; [expect] panics when the
    allocator is exhausted. *)
Definition estore_create (s : estore) : res (entity * estore) :=
  r ← allocate (st_alloc s);
  match r with
  | (None, _) => Panic
  | (Some e, a) => es ← eset_insert (st_set s) e; Ok (e, EStore a es)
  end.

(** src/entity/entity_storage.rs:21-26 [create_atomic]. *)
Definition estore_create_atomic (s : estore) : res (entity * estore) :=
  r ← allocate_atomic (st_alloc s);
  match r with
  | (None, _) => Panic
  | (Some e, a) => Ok (e, EStore a (st_set s))
  end.

(** src/entity/entity_storage.rs:29-31:
    The [for_each] loop of [maintain]. *)
Fixpoint eset_insert_all (s : eset) (l : list entity) : res eset :=
  match l with
  | [] => Ok s
  | e :: l => s' ← eset_insert s e; eset_insert_all s' l
  end.

(** src/entity/entity_storage.rs:28-32 [maintain]. *)
Definition estore_maintain (s : estore) : res estore :=
  r ← alloc_maintain (st_alloc s);
  es ← eset_insert_all (st_set s) r.1;
  Ok (EStore r.2 es).

(** src/entity/entity_storage.rs:34-52 [contains], [len], [is_empty], [as_slice]. *)
Definition estore_contains (s : estore) (e : entity) : bool := eset_contains (st_set s) e.
Definition estore_slice (s : estore) : list entity := es_ents (st_set s).

(** src/entity/entity_storage.rs:54-61 [remove]. *)
Definition estore_remove (s : estore) (e : entity) : res (bool * estore) :=
  r ← eset_remove (st_set s) e;
  match r with
  | (false, _) => Ok (false, s)
  | (true, es) => Ok (true, EStore (recycle (st_alloc s) e) es)
  end.

(** src/entity/entity_storage.rs:63-66 [clear]: the maintain iterator is dropped
    unused, which still drains the recycled range. *)
Definition estore_clear (s : estore) : res estore :=
  r ← alloc_maintain (st_alloc s);
  Ok (EStore r.2 (eset_clear (st_set s))).

(** src/entity/entity_storage.rs:68-71 [reset]. *)
Definition estore_reset (s : estore) : estore :=
  EStore (alloc_reset (st_alloc s)) (eset_clear (st_set s)).
