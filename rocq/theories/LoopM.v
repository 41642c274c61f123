(** Model of loops over a query whose body has a state and may leave the loop. *)
From Verif Require Import Base SparseVecM EntityM CssM MaskM LayoutM GroupM StorageM WorldM QueryM StepM.

(** The body of a loop (an [FnMut] closure, src/query/query_all.rs:137-142, or a
    [for] block, src/query/query_all.rs:218-231). Given its state and the item seen: the
    new state, the assignment through each exclusive reference of the item, and
    whether it goes on; otherwise it leaves after these assignments, by [break],
    [return], [?] or a panic. *)
Definition body (St : Type) : Type := St → list aitem → St * (nat → option val) * bool.

(** What a loop leaves: the storage, the state, the values dropped by the
    assignments, the number of items it got and whether it ran to the end. *)
Definition loop_end (St : Type) : Type := cstore * St * list val * nat * bool.

(** src/query/iter/dense_iter.rs:52-64, src/query/iter/sparse_iter.rs:76-99:
    The body applied to one item, then the rest of the loop. *)
Definition body_then {St} (b : body St) (st : St) (s : cstore) (G : query) (it : list item)
    (rest : St → cstore → res (loop_end St)) : res (loop_end St) :=
  let '(st1, wr, go) := b st (abs_item <$> it) in
  match visit s (λ k _, wr k) G it with
  | Ok (s1, o1, _) =>
      if go then
        match rest st1 s1 with
        | Ok (s2, st2, o2, n, fin) => Ok (s2, st2, o1 ++ o2, S n, fin)
        | Panic => Panic | UB => UB
        end
      else Ok (s1, st1, o1, 1, false)
  | Panic => Panic | UB => UB
  end.

(** *** [for_each] *)

(** src/query/iter/sparse_iter.rs:76-99 [fold]; a panic of the closure ends it. *)
Fixpoint sparse_each {St} (b : body St) (st : St) (s : cstore) (G : query) (ents : list entity)
    (x i g : list pview) : res (loop_end St) :=
  match ents with
  | [] => Ok (s, st, [], 0, true)
  | e :: ents =>
      if negb (contains_none_raw (refresh s <$> x) (e_sparse e)) then sparse_each b st s G ents x i g
      else if negb (contains_all_raw (refresh s <$> i) (e_sparse e)) then sparse_each b st s G ents x i g
      else match query_get_raw (refresh s <$> g) e with
           | Ok (Some it) => body_then b st s G it (λ st s, sparse_each b st s G ents x i g)
           | Ok None => sparse_each b st s G ents x i g
           | Panic => Panic
           | UB => UB
           end
  end.

(** src/query/iter/dense_iter.rs:52-64 [fold]. *)
Fixpoint dense_each {St} (b : body St) (st : St) (s : cstore) (G : query) (ks : list nat)
    (ents : list entity) (g : list pview) : res (loop_end St) :=
  match ks with
  | [] => Ok (s, st, [], 0, true)
  | k :: ks =>
      match ents !! k with
      | None => UB
      | Some e =>
          match query_get_dense (refresh s <$> g) k e with
          | Ok it => body_then b st s G it (λ st s, dense_each b st s G ks ents g)
          | Panic => Panic
          | UB => UB
          end
      end
  end.

(** *** [for item in &mut query] and [while let Some(item) = iter.next()] *)

(** src/query/query_part.rs:232, 236, 311, 315 ([as_non_null_ptr]):
    The iterator holds pointers to the storages. *)
Definition iter_refresh (s : cstore) (it : iter) : iter :=
  match it with
  | ISparse ents x i g => ISparse ents (refresh s <$> x) (refresh s <$> i) (refresh s <$> g)
  | IDense lo hi ents g => IDense lo hi ents (refresh s <$> g)
  end.

(** src/query/iter/mod.rs:51-56: [next] until it returns [None]; [fuel] bounds the
    number of calls (the model's recursion only). *)
Fixpoint next_loop {St} (fuel : nat) (b : body St) (st : St) (s : cstore) (G : query) (it : iter)
    : res (loop_end St) :=
  match fuel with
  | 0 => UB
  | S fuel =>
      match iter_next (iter_refresh s it) with
      | Ok (None, _) => Ok (s, st, [], 0, true)
      | Ok (Some item, it') => body_then b st s G item (λ st s, next_loop fuel b st s G it')
      | Panic => Panic
      | UB => UB
      end
  end.

(** src/query/iter/mod.rs:14-22: the items and the final [None]. *)
Definition iter_calls (it : iter) : nat :=
  match it with
  | ISparse ents _ _ _ => S (length ents)
  | IDense lo hi _ _ => S (hi - lo)
  end.

(** src/query/iter/mod.rs:58-66 [fold], 51-56 [next]; the flag tells [for_each] from
    [next]. *)
Definition iter_loop {St} (each : bool) (b : body St) (st : St) (s : cstore) (G : query) (it : iter)
    : res (loop_end St) :=
  match each, it with
  | true, ISparse ents x i g => sparse_each b st s G ents x i g
  | true, IDense lo hi ents g => dense_each b st s G (seq lo (hi - lo)) ents g
  | false, it => next_loop (iter_calls it) b st s G it
  end.

(** The query, then the loop: src/query/query_all.rs:102-142. *)
Definition world_loop {St} (each : bool) (w : world) (G J X : query) (b : body St) (st : St)
    : res (world * St * list val * nat * bool) :=
  match borrow3 w G J X with
  | Ok (g, i, x) =>
      match query_iter (w_comps w) g i x with
      | Ok it =>
          match iter_loop each b st (w_comps w) G it with
          | Ok (s, st, o, n, fin) => Ok (World (w_ents w) s, st, o, n, fin)
          | Panic => Panic | UB => UB
          end
      | Panic => Panic | UB => UB
      end
  | Panic => Panic | UB => UB
  end.
