(** Model of src/query: query_part.rs, mod.rs, query_one.rs, query_all.rs and
    iter/. *)
From Verif Require Import Base SparseVecM EntityM CssM MaskM LayoutM GroupM StorageM WorldM.

(** The implementors of [QueryPart] (src/query/query_part.rs:91-510). *)
Inductive part :=
| PEntity               (* Entity *)
| PRef (t : tid)        (* &T *)
| PMut (t : tid)        (* &mut T *)
| POptRef (t : tid)     (* Option<&T> *)
| POptMut (t : tid).    (* Option<&mut T> *)

Global Instance part_eq_dec : EqDecision part.
Proof. solve_decision. Defined.

(** A [Query] (src/query/mod.rs): [()] is the empty list; a single part and a
    1-tuple behave alike (202-279, 281-440). *)
Definition query := list part.

(** src/query/query_part.rs:95, 190, 269, 348, 431 ([Item]):
    Items: entities, references (type, cell number, value read through it),
    optional references. *)
Inductive item :=
| IEnt (e : entity)
| IRef (t : tid) (i : nat) (v : val)
| IOpt (t : tid) (r : option (nat * val)).

Global Instance item_eq_dec : EqDecision item.
Proof. solve_decision. Defined.

(** src/query/query_part.rs:93, 185, 264, 343, 426 (the five impls):
    The component type accessed by a part, and whether exclusively. *)
Definition part_tid (p : part) : option tid :=
  match p with PEntity => None | PRef t | PMut t | POptRef t | POptMut t => Some t end.
Definition part_mut (p : part) : bool :=
  match p with PMut _ | POptMut _ => true | _ => false end.

(** src/query/query_part.rs:35-39:
    A borrowed part: [QueryPart::View] with the group info that
    [borrow_with_group_info] returns. *)
Record pview := PView { pv_part : part; pv_css : css; pv_info : option vinfo }.

(** src/query/query_part.rs: [borrow] (102, 196, 275, 354, 437) and
    [borrow_with_group_info] (107, 200-209, 279-288, 358-360, 441-443): panics
    when the type is not registered. *)
Definition part_borrow (w : world) (p : part) : res pview :=
  match p with
  | PEntity => Ok (PView p css_new None)
  | PRef t | PMut t =>
      match cs_borrow (w_comps w) t with
      | Ok (s, info) => Ok (PView p s (Some (VInfo info (c_len s))))
      | Panic => Panic
      | UB => UB
      end
  | POptRef t | POptMut t =>
      match cs_borrow (w_comps w) t with
      | Ok (s, _) => Ok (PView p s None)
      | Panic => Panic
      | UB => UB
      end
  end.

(** src/query/mod.rs:293-295 [borrow] of a tuple, in order. *)
Fixpoint query_borrow (w : world) (q : query) : res (list pview) :=
  match q with
  | [] => Ok []
  | p :: q => v ← part_borrow w p; vs ← query_borrow w q; Ok (v :: vs)
  end.

(** src/query/mod.rs:297-316, 216-220 and 126-128 [borrow_with_group_info]: the
    group info of the query. *)
Fixpoint query_info_from (acc : qinfo) (vs : list pview) : option qinfo :=
  match vs with
  | [] => Some acc
  | v :: vs =>
      match pv_info v with
      | None => query_info_from acc vs
      | Some i =>
          match add_view acc i with
          | None => None
          | Some acc' => query_info_from acc' vs
          end
      end
  end.
Definition query_info (vs : list pview) : option qinfo := query_info_from QEmpty vs.

(** src/query/query_part.rs [QueryPart::contains] (112, 211, 290, 362, 445). *)
Definition part_contains (v : pview) (e : entity) : bool :=
  match pv_part v with
  | PRef _ | PMut _ => css_contains (pv_css v) e
  | _ => true
  end.

(** src/query/mod.rs [contains_all] and [contains_none] (131-138, 222-228, 318-324). *)
Definition contains_all (vs : list pview) (e : entity) : bool :=
  forallb (λ v, part_contains v e) vs.
Definition contains_none (vs : list pview) (e : entity) : bool :=
  forallb (λ v, negb (part_contains v e)) vs.

(** src/query/query_part.rs:98, 193, 272, 351, 434 ([SparseKey]):
    A key: what [get_sparse_key] returns (a dense index or the entity). *)
Inductive key := KEnt (e : entity) | KDense (i : nat).

(** src/query/query_part.rs [QueryPart::get_sparse_key] (117, 215, 294, 366, 449). *)
Definition part_key (v : pview) (e : entity) : option key :=
  match pv_part v with
  | PRef _ | PMut _ => (λ d, KDense (N.to_nat d)) <$> sv_get (c_sparse (pv_css v)) e
  | _ => Some (KEnt e)
  end.

(** src/query/query_part.rs:220, 248, 252, 299, 327, 331:
    Dereferencing the component cell [i] of a view. *)
Definition deref (v : pview) (i : nat) : res val := buf_read (c_comps (pv_css v)) i.

(** src/query/query_part.rs [QueryPart::get_sparse] (122, 219, 298, 370, 453). *)
Definition part_get (v : pview) (k : key) : res item :=
  match pv_part v, k with
  | PEntity, KEnt e => Ok (IEnt e)
  | (PRef t | PMut t), KDense i => x ← deref v i; Ok (IRef t i x)
  | (POptRef t | POptMut t), KEnt e => r ← css_get_ref (pv_css v) e; Ok (IOpt t r)
  | _, _ => UB
  end.

(** Tuples of options ([?] on each, src/query/mod.rs:327) and of results. *)
Fixpoint all_some {A B} (f : A → option B) (l : list A) : option (list B) :=
  match l with
  | [] => Some []
  | x :: l => match f x with
              | None => None
              | Some y => match all_some f l with None => None | Some ys => Some (y :: ys) end
              end
  end.
Fixpoint all_ok {A B} (f : A → res B) (l : list A) : res (list B) :=
  match l with
  | [] => Ok []
  | x :: l => match f x with
              | Ok y => match all_ok f l with Ok ys => Ok (y :: ys) | Panic => Panic | UB => UB end
              | Panic => Panic
              | UB => UB
              end
  end.

(** src/query/mod.rs:326-329 [Query::get] of a tuple (also 230-233, 141-143). *)
Definition query_get (vs : list pview) (e : entity) : res (option (list item)) :=
  match all_some (λ v, part_key v e) vs with
  | None => Ok None
  | Some ks =>
      match all_ok (λ vk : pview * key, part_get vk.1 vk.2) (zip vs ks) with
      | Ok is_ => Ok (Some is_)
      | Panic => Panic
      | UB => UB
      end
  end.

(** src/query/query_part.rs:129-146, 223-237, 302-316, 374-388, 457-471:
    The entities slice of a part: [split_filter_parts], [split_sparse_parts],
    [split_dense_parts] (223-237, 302-316; [None] for the other parts). *)
Definition part_entities (v : pview) : res (option (list entity)) :=
  match pv_part v with
  | PRef _ | PMut _ => l ← css_entities (pv_css v); Ok (Some l)
  | _ => Ok None
  end.

(** src/query/mod.rs:331-353, 355-385: the shortest slice, the first one among
    equals. *)
Fixpoint shortest_entities (acc : option (list entity)) (vs : list pview)
    : res (option (list entity)) :=
  match vs with
  | [] => Ok acc
  | v :: vs =>
      match part_entities v with
      | Ok None => shortest_entities acc vs
      | Ok (Some l) =>
          shortest_entities (match acc with
                             | Some old => if length l <? length old then Some l else Some old
                             | None => Some l
                             end) vs
      | Panic => Panic
      | UB => UB
      end
  end.

(** src/query/mod.rs:387-403 [split_dense_parts]: the first slice. *)
Fixpoint first_entities (vs : list pview) : res (option (list entity)) :=
  match vs with
  | [] => Ok None
  | v :: vs =>
      match part_entities v with
      | Ok None => first_entities vs
      | r => r
      end
  end.

(** src/query/query_part.rs [QueryPart::contains_raw] (149, 239, 318, 390, 473): by index only. *)
Definition part_contains_raw (v : pview) (i : nat) : bool :=
  match pv_part v with
  | PRef _ | PMut _ => sv_contains_sparse (c_sparse (pv_css v)) i
  | _ => true
  end.

(** src/query/mod.rs [contains_all_raw], [contains_none_raw] (165-172, 251-257, 405-411). *)
Definition contains_all_raw (vs : list pview) (i : nat) : bool :=
  forallb (λ v, part_contains_raw v i) vs.
Definition contains_none_raw (vs : list pview) (i : nat) : bool :=
  forallb (λ v, negb (part_contains_raw v i)) vs.

(** src/query/query_part.rs [QueryPart::get_sparse_key_raw] (154, 243, 322, 394, 477): by index only. *)
Definition part_key_raw (v : pview) (e : entity) : option key :=
  match pv_part v with
  | PRef _ | PMut _ => (λ d, KDense (N.to_nat d)) <$> sv_get_sparse (c_sparse (pv_css v)) (e_sparse e)
  | _ => Some (KEnt e)
  end.

(** src/query/query_part.rs:398-415, 484-501:
    Optional access by index (398-405, 407-415, 484-501). *)
Definition part_opt_raw (v : pview) (t : tid) (e : entity) : res item :=
  match sv_get_sparse (c_sparse (pv_css v)) (e_sparse e) with
  | None => Ok (IOpt t None)
  | Some d => x ← deref v (N.to_nat d); Ok (IOpt t (Some (N.to_nat d, x)))
  end.

(** src/query/query_part.rs [QueryPart::get_sparse_raw] (162, 247, 326, 398, 484). *)
Definition part_get_raw (v : pview) (k : key) : res item :=
  match pv_part v, k with
  | PEntity, KEnt e => Ok (IEnt e)
  | (PRef t | PMut t), KDense i => x ← deref v i; Ok (IRef t i x)
  | (POptRef t | POptMut t), KEnt e => part_opt_raw v t e
  | _, _ => UB
  end.

(** src/query/mod.rs:413-420 [Query::get_sparse_raw] of a tuple. *)
Definition query_get_raw (vs : list pview) (e : entity) : res (option (list item)) :=
  match all_some (λ v, part_key_raw v e) vs with
  | None => Ok None
  | Some ks =>
      match all_ok (λ vk : pview * key, part_get_raw vk.1 vk.2) (zip vs ks) with
      | Ok is_ => Ok (Some is_)
      | Panic => Panic
      | UB => UB
      end
  end.

(** src/query/query_part.rs [QueryPart::get_dense_raw] (167, 251, 330, 407, 493). *)
Definition part_get_dense (v : pview) (i : nat) (e : entity) : res item :=
  match pv_part v with
  | PEntity => Ok (IEnt e)
  | PRef t | PMut t => x ← deref v i; Ok (IRef t i x)
  | POptRef t | POptMut t => part_opt_raw v t e
  end.

(** src/query/mod.rs:422-428 [Query::get_dense_raw] of a tuple. *)
Definition query_get_dense (vs : list pview) (i : nat) (e : entity) : res (list item) :=
  all_ok (λ v, part_get_dense v i e) vs.

(** ** QueryOne *)

(** src/query/query_one.rs:79-89 [contains]. *)
Definition one_contains (g i x : list pview) (e : entity) : bool :=
  contains_none x e && contains_all i e && contains_all g e.

(** src/query/query_one.rs:93-103 [get]. *)
Definition one_get (g i x : list pview) (e : entity) : res (option (list item)) :=
  if negb (contains_none x e) then Ok None
  else if negb (contains_all i e) then Ok None
  else query_get g e.

(** ** QueryAll *)

(** src/query/query_all.rs:200-211 [get_group_range]. *)
Definition get_group_range (s : cstore) (g i x : list pview) : res (option (nat * nat)) :=
  match query_info g, query_info i, query_info x with
  | Some gi, Some ii, Some xi =>
      match add_query gi ii with
      | Some q => group_range s q xi
      | None => Ok None
      end
  | _, _, _ => Ok None
  end.

(** Iterators, src/query/iter/mod.rs:12-22. The dense one holds the remaining
    range, the entities pointer and the data pointers; the sparse one the
    remaining entities. *)
Inductive iter :=
| ISparse (ents : list entity) (x i g : list pview)
| IDense (lo hi : nat) (ents : list entity) (g : list pview).

(** src/query/query_all.rs:102-134 [iter]; [unwrap] panics when there is no
    entities slice. *)
Definition query_iter (s : cstore) (g i x : list pview) : res iter :=
  match get_group_range s g i x with
  | Ok (Some (lo, hi)) =>
      match first_entities g, shortest_entities None i with
      | Ok (Some l), Ok _ => Ok (IDense lo hi l g)
      | Ok None, Ok (Some l) => Ok (IDense lo hi l g)
      | Ok None, Ok None => Panic
      | _, _ => UB
      end
  | Ok None =>
      match shortest_entities None g, shortest_entities None i, shortest_entities None x with
      | Ok ge, Ok ie, Ok _ =>
          Ok (ISparse (match ge, ie with
                       | Some a, Some b => if length a <=? length b then a else b
                       | Some a, None => a
                       | None, Some b => b
                       | None, None => []
                       end) x i g)
      | _, _, _ => UB
      end
  | Panic => Panic
  | UB => UB
  end.

(** src/query/iter/sparse_iter.rs:52-74 [SparseIter::next]. *)
Fixpoint sparse_next (ents : list entity) (x i g : list pview)
    : res (option (list item) * list entity) :=
  match ents with
  | [] => Ok (None, [])
  | e :: ents =>
      if negb (contains_none_raw x (e_sparse e)) then sparse_next ents x i g
      else if negb (contains_all_raw i (e_sparse e)) then sparse_next ents x i g
      else match query_get_raw g e with
           | Ok (Some it) => Ok (Some it, ents)
           | Ok None => sparse_next ents x i g
           | Panic => Panic
           | UB => UB
           end
  end.

(** src/query/iter/dense_iter.rs:43-50 [DenseIter::next]; the entity is read
    through an unchecked pointer. *)
Definition dense_next (lo hi : nat) (ents : list entity) (g : list pview)
    : res (option (list item) * nat) :=
  if lo <? hi then
    match ents !! lo with
    | None => UB
    | Some e => match query_get_dense g lo e with
                | Ok it => Ok (Some it, S lo)
                | Panic => Panic
                | UB => UB
                end
    end
  else Ok (None, lo).

(** src/query/iter/mod.rs:51-56 [Iter::next]. *)
Definition iter_next (it : iter) : res (option (list item) * iter) :=
  match it with
  | ISparse ents x i g =>
      match sparse_next ents x i g with
      | Ok (r, ents') => Ok (r, ISparse ents' x i g)
      | Panic => Panic
      | UB => UB
      end
  | IDense lo hi ents g =>
      match dense_next lo hi ents g with
      | Ok (r, lo') => Ok (r, IDense lo' hi ents g)
      | Panic => Panic
      | UB => UB
      end
  end.

(** src/query/iter/mod.rs:68-73, dense_iter.rs:66-68 [size_hint]; the sparse
    iterator uses the default [(0, None)]. *)
Definition iter_size_hint (it : iter) : nat * option nat :=
  match it with
  | ISparse _ _ _ _ => (0, None)
  | IDense lo hi _ _ => (hi - lo, Some (hi - lo))
  end.

(** src/query/iter/sparse_iter.rs:76-99 [SparseIter::fold]: the items passed to
    the closure, in order. *)
Fixpoint sparse_fold (ents : list entity) (x i g : list pview) : res (list (list item)) :=
  match ents with
  | [] => Ok []
  | e :: ents =>
      if negb (contains_none_raw x (e_sparse e)) then sparse_fold ents x i g
      else if negb (contains_all_raw i (e_sparse e)) then sparse_fold ents x i g
      else match query_get_raw g e with
           | Ok (Some it) =>
               match sparse_fold ents x i g with Ok l => Ok (it :: l) | Panic => Panic | UB => UB end
           | Ok None => sparse_fold ents x i g
           | Panic => Panic
           | UB => UB
           end
  end.

(** One item of the dense iterators (dense_iter.rs:57-60). *)
Definition dense_get (ents : list entity) (g : list pview) (k : nat) : res (list item) :=
  match ents !! k with
  | None => UB
  | Some e => query_get_dense g k e
  end.

(** src/query/iter/dense_iter.rs:52-64 [DenseIter::fold]. *)
Definition dense_fold (lo hi : nat) (ents : list entity) (g : list pview) : res (list (list item)) :=
  all_ok (dense_get ents g) (seq lo (hi - lo)).

(** src/query/iter/mod.rs:58-66 [Iter::fold], used by [for_each]. *)
Definition iter_fold (it : iter) : res (list (list item)) :=
  match it with
  | ISparse ents x i g => sparse_fold ents x i g
  | IDense lo hi ents g => dense_fold lo hi ents g
  end.

(** src/query/query_part.rs [QueryPart::slice_raw] (176-182, 255-261, 334-340, 417-423, 503-509): for
    references the slice starts at the data pointer, whatever the range start.
    [range.end - range.start] must not underflow: the length would be huge. *)
Inductive part_slice := SEnts (l : list entity) | SVals (t : tid) (l : list val) | SUnit.

(** src/query/query_part.rs:175-182, 255-261, 334-340, 417-423, 503-509. *)
Definition part_slice_raw (v : pview) (ents : list entity) (lo hi : nat) : res part_slice :=
  match pv_part v with
  | PEntity =>
      if (lo <=? hi) && (hi <=? length ents)
      then Ok (SEnts (take (hi - lo) (drop lo ents))) else UB
  | PRef t | PMut t =>
      if hi <? lo then UB else l ← buf_slice (c_comps (pv_css v)) (hi - lo); Ok (SVals t l)
  | POptRef _ | POptMut _ => Ok SUnit
  end.

(** src/query/query_all.rs:189-198 [slice]. *)
Definition query_slice (s : cstore) (g i x : list pview) : res (option (list part_slice)) :=
  match get_group_range s g i x with
  | Ok (Some (lo, hi)) =>
      match first_entities g, shortest_entities None i with
      | Ok ge, Ok ie =>
          let ents := match ge, ie with Some l, _ => l | None, Some l => l | None, None => [] end in
          match all_ok (λ v, part_slice_raw v ents lo hi) g with
          | Ok l => Ok (Some l)
          | Panic => Panic
          | UB => UB
          end
      | _, _ => UB
      end
  | Ok None => Ok None
  | Panic => Panic
  | UB => UB
  end.

(** ** Borrow conflicts inside one query *)

(** src/query/mod.rs:293-316:
    The accesses of a query in borrow order. *)
Definition accesses (q : query) : list (tid * bool) :=
  omap (λ p, (λ t, (t, part_mut p)) <$> part_tid p) q.

(** src/component/component_storage.rs:158-232:
    Borrowing with AtomicRefCell from an unborrowed world: two accesses of the
    same type conflict when one is exclusive. *)
Fixpoint no_conflict (held : list (tid * bool)) (acc : list (tid * bool)) : bool :=
  match acc with
  | [] => true
  | (t, m) :: acc =>
      forallb (λ h : tid * bool, negb ((h.1 =? t)%N && (h.2 || m))) held &&
      no_conflict ((t, m) :: held) acc
  end.

(** ** The user-facing calls, on a world without outstanding borrows *)

(** [world.query_all::<G>().include::<I>().exclude::<E>()]: src/world/mod.rs:191-197,
    src/query/query_all.rs:31-92. *)
Definition borrow3 (w : world) (G J X : query) : res (list pview * list pview * list pview) :=
  match query_borrow w G with
  | Ok g =>
      match query_borrow w J with
      | Ok i =>
          match query_borrow w X with
          | Ok x => if no_conflict [] (accesses (G ++ J ++ X)) then Ok (g, i, x) else Panic
          | Panic => Panic | UB => UB
          end
      | Panic => Panic | UB => UB
      end
  | Panic => Panic | UB => UB
  end.

(** src/query/query_all.rs:102-134, src/query/iter/mod.rs:58-66:
    [.iter()] collected through [fold] ([for_each]). *)
Definition query_all (w : world) (G J X : query) : res (list (list item)) :=
  match borrow3 w G J X with
  | Ok (g, i, x) =>
      match query_iter (w_comps w) g i x with
      | Ok it => iter_fold it
      | Panic => Panic | UB => UB
      end
  | Panic => Panic | UB => UB
  end.

(** src/query/iter/mod.rs:38-40:
    [.iter().is_dense()]. *)
Definition query_is_dense (w : world) (G J X : query) : res bool :=
  match borrow3 w G J X with
  | Ok (g, i, x) =>
      match query_iter (w_comps w) g i x with
      | Ok (IDense _ _ _ _) => Ok true
      | Ok _ => Ok false
      | Panic => Panic | UB => UB
      end
  | Panic => Panic | UB => UB
  end.

(** src/query/query_all.rs:192-199:
    [.slice()]. *)
Definition query_all_slice (w : world) (G J X : query) : res (option (list part_slice)) :=
  match borrow3 w G J X with
  | Ok (g, i, x) => query_slice (w_comps w) g i x
  | Panic => Panic | UB => UB
  end.

(** [world.query_one::<G>().include::<I>().exclude::<E>().get(e)] and
    [.contains(e)]: src/world/mod.rs:183-189, 199-206. *)
Definition query_one (w : world) (G J X : query) (e : entity) : res (option (list item)) :=
  match borrow3 w G J X with
  | Ok (g, i, x) => one_get g i x e
  | Panic => Panic | UB => UB
  end.
Definition query_one_contains (w : world) (G J X : query) (e : entity) : res bool :=
  match borrow3 w G J X with
  | Ok (g, i, x) => Ok (one_contains g i x e)
  | Panic => Panic | UB => UB
  end.

(** ** Writing through the items of a query *)

(** Not /repo code:
    What a closure can observe of an item: not the cell number. *)
Inductive aitem :=
| AEnt (e : entity)
| AVal (t : tid) (v : val)
| AOpt (t : tid) (v : option val).

Global Instance aitem_eq_dec : EqDecision aitem.
Proof. solve_decision. Defined.

(** Not /repo code: the observable part of an item. *)
Definition abs_item (it : item) : aitem :=
  match it with
  | IEnt e => AEnt e
  | IRef t _ v => AVal t v
  | IOpt t r => AOpt t (match r with Some (_, v) => Some v | None => None end)
  end.

(** src/query/query_all.rs:137-142:
    The closure given to [for_each]: for the part at position [k] and the item
    seen, the value assigned through the exclusive reference, if any. *)
Definition writer : Type := nat → list aitem → option val.

(** src/query/query_all.rs:137-142 (an assignment in the closure [f]):
    Assignment through an item of part [p]: the old value is dropped. Result:
    storage, old values, new values. *)
Definition write_one (s : cstore) (p : part) (it : item) (nv : option val)
    : res (cstore * list val * list val) :=
  let go t i v :=
    match cs_meta s !! t with
    | None => UB
    | Some m =>
        match cs_comps s !! m_index m with
        | None => UB
        | Some c =>
            match buf_read (c_comps c) i, css_set c i v with
            | Ok old, Ok c' =>
                Ok (CStore (cs_groups s) (cs_meta s) (<[m_index m := c']> (cs_comps s)), [old], [v])
            | _, _ => UB
            end
        end
    end in
  match p, it, nv with
  | PMut t, IRef _ i _, Some v => go t i v
  | POptMut t, IOpt _ (Some (i, _)), Some v => go t i v
  | _, _, _ => Ok (s, [], [])
  end.

(** src/query/query_all.rs:137-142: the assignments for one item, part by part. *)
Fixpoint write_items (s : cstore) (f : writer) (seen : list aitem) (k : nat)
    (ps : query) (its : list item) : res (cstore * list val * list val) :=
  match ps, its with
  | p :: ps, it :: its =>
      match write_one s p it (f k seen) with
      | Ok (s1, o1, n1) =>
          match write_items s1 f seen (S k) ps its with
          | Ok (s2, o2, n2) => Ok (s2, o1 ++ o2, n1 ++ n2)
          | Panic => Panic | UB => UB
          end
      | Panic => Panic | UB => UB
      end
  | _, _ => Ok (s, [], [])
  end.

(** src/query/query_part.rs:232, 236, 311, 315 ([as_non_null_ptr]):
    The views hold pointers: their contents are those of the current storage. *)
Definition refresh (s : cstore) (v : pview) : pview :=
  match part_tid (pv_part v) with
  | None => v
  | Some t => match cs_borrow s t with
              | Ok (c, _) => PView (pv_part v) c (pv_info v)
              | _ => v
              end
  end.

(** src/query/iter/dense_iter.rs:52-64, src/query/iter/sparse_iter.rs:76-99:
    The closure applied to one item of the iterator. *)
Definition visit (s : cstore) (f : writer) (G : query) (its : list item)
    : res (cstore * list val * list val) :=
  write_items s f (abs_item <$> its) 0 G its.

(** src/query/iter/sparse_iter.rs:76-99 [fold] with a writing closure. *)
Fixpoint sparse_for_each (s : cstore) (f : writer) (G : query) (ents : list entity)
    (x i g : list pview) : res (cstore * list entity * list val * list val) :=
  match ents with
  | [] => Ok (s, [], [], [])
  | e :: ents =>
      if negb (contains_none_raw (refresh s <$> x) (e_sparse e)) then sparse_for_each s f G ents x i g
      else if negb (contains_all_raw (refresh s <$> i) (e_sparse e)) then sparse_for_each s f G ents x i g
      else match query_get_raw (refresh s <$> g) e with
           | Ok (Some it) =>
               match visit s f G it with
               | Ok (s1, o1, n1) =>
                   match sparse_for_each s1 f G ents x i g with
                   | Ok (s2, es, o2, n2) => Ok (s2, e :: es, o1 ++ o2, n1 ++ n2)
                   | Panic => Panic | UB => UB
                   end
               | Panic => Panic | UB => UB
               end
           | Ok None => sparse_for_each s f G ents x i g
           | Panic => Panic
           | UB => UB
           end
  end.

(** src/query/iter/dense_iter.rs:52-64 [fold] with a writing closure. *)
Fixpoint dense_for_each (s : cstore) (f : writer) (G : query) (ks : list nat)
    (ents : list entity) (g : list pview) : res (cstore * list entity * list val * list val) :=
  match ks with
  | [] => Ok (s, [], [], [])
  | k :: ks =>
      match ents !! k with
      | None => UB
      | Some e =>
          match query_get_dense (refresh s <$> g) k e with
          | Ok it =>
              match visit s f G it with
              | Ok (s1, o1, n1) =>
                  match dense_for_each s1 f G ks ents g with
                  | Ok (s2, es, o2, n2) => Ok (s2, e :: es, o1 ++ o2, n1 ++ n2)
                  | Panic => Panic | UB => UB
                  end
              | Panic => Panic | UB => UB
              end
          | Panic => Panic
          | UB => UB
          end
      end
  end.

(** [query_all().include().exclude().for_each(f)]: src/query/query_all.rs:136-142,
    src/world/mod.rs:208-214. Returns the storage, the entities visited (ghost),
    the old values dropped by the assignments and the new values. *)
Definition query_for_each (w : world) (G J X : query) (f : writer)
    : res (cstore * list entity * list val * list val) :=
  match borrow3 w G J X with
  | Ok (g, i, x) =>
      match query_iter (w_comps w) g i x with
      | Ok (ISparse ents x i g) => sparse_for_each (w_comps w) f G ents x i g
      | Ok (IDense lo hi ents g) => dense_for_each (w_comps w) f G (seq lo (hi - lo)) ents g
      | Panic => Panic | UB => UB
      end
  | Panic => Panic | UB => UB
  end.
