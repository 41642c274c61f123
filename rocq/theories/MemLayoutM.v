(** The allocation behind a component storage, byte by byte, on a 64-bit target:
    [compute_layout], [grow_typed] and [drop_typed] of
    src/component/component_sparse_set.rs. *)
From Verif Require Import Base.

(** Not /repo code (64-bit target). *)
Definition isize_max : N := 9223372036854775807.

(** src/component/component_sparse_set.rs:3, 331-342:
    [core::alloc::Layout]. *)
Record mlayout := ML { l_size : N; l_align : N }.

(** src/component/component_sparse_set.rs:333-335 (inside [Layout::array], [Layout::extend]):
    [Layout::from_size_align]: the size, rounded up to the alignment, must not exceed
    [isize::MAX]. *)
Definition layout_checked (size align : N) : option mlayout :=
  if (size + (align - 1) <=? isize_max)%N then Some (ML size align) else None.

(** src/component/component_sparse_set.rs:333-334:
    [Layout::array::<T>(n)]; [T] is given by its size and alignment. *)
Definition layout_array (T : mlayout) (n : N) : option mlayout := layout_checked (l_size T * n) (l_align T).

(** src/component/component_sparse_set.rs:335 (inside [Layout::extend]):
    [x] rounded up to a multiple of [a]. *)
Definition round_up (x a : N) : N := ((x + (a - 1)) / a * a)%N.

(** src/component/component_sparse_set.rs:335:
    [Layout::extend]: the combined layout and the offset of the second part. *)
Definition layout_extend (L next : mlayout) : option (mlayout * N) :=
  let offset := round_up (l_size L) (l_align next) in
  match layout_checked (offset + l_size next) (N.max (l_align L) (l_align next)) with
  | Some L' => Some (L', offset)
  | None => None
  end.

(** [Entity]: src/entity/mod.rs:20 ([repr(align(8))]). *)
Definition entity_layout : mlayout := ML 8 8.

(** src/component/component_sparse_set.rs:331-342 [compute_layout]; [None]: it panics. *)
Definition compute_layout (T : mlayout) (cap : N) : option (mlayout * N) :=
  match layout_array entity_layout cap with
  | Some le => match layout_array T cap with
               | Some lt => layout_extend le lt
               | None => None
               end
  | None => None
  end.

(** Not /repo code (the allocator and memory):
    Memory: the content of every address, and the allocated blocks with the layouts
    they were allocated with. *)
Record mem := Mem { m_bytes : N → N; m_blocks : list (N * mlayout) }.

(** Not /repo code:
    [n] bytes from [p] lie within one allocated block. *)
Definition inside (m : mem) (p n : N) : bool :=
  (n =? 0)%N ||
  existsb (λ b : N * mlayout, (b.1 <=? p) && (p + n <=? b.1 + l_size b.2))%N (m_blocks m).

(** src/component/component_sparse_set.rs:257-261:
    [ptr::copy_to_nonoverlapping::<T>(count)]. *)
Definition copy_to (T : mlayout) (m : mem) (src dst count : N) : res mem :=
  let n := (l_size T * count)%N in
  if inside m src n && inside m dst n && (src mod l_align T =? 0)%N && (dst mod l_align T =? 0)%N &&
     ((n =? 0)%N || (src + n <=? dst)%N || (dst + n <=? src)%N)
  then Ok (Mem (λ x, if ((dst <=? x) && (x <? dst + n))%N then m_bytes m (src + (x - dst))%N else m_bytes m x) (m_blocks m))
  else UB.

(** src/component/component_sparse_set.rs:266, 327:
    [alloc::dealloc]: the block must have been allocated with this layout. *)
Definition dealloc (m : mem) (p : N) (L : mlayout) : res mem :=
  match list_find (λ b : N * mlayout, b.1 = p ∧ l_size b.2 = l_size L ∧ l_align b.2 = l_align L) (m_blocks m) with
  | Some (i, _) => Ok (Mem (m_bytes m) (delete i (m_blocks m)))
  | None => UB
  end.

(** The two pointers, length and capacity of a [ComponentSparseSet]
    (src/component/component_sparse_set.rs:7-14). *)
Record raw := Raw { r_ents : N; r_comps : N; r_len : N; r_cap : N }.

(** src/component/component_sparse_set.rs:18-30 [new]: dangling pointers have the
    alignment as address. *)
Definition raw_new (T : mlayout) : raw := Raw (l_align entity_layout) (l_align T) 0 0.

(** src/component/component_sparse_set.rs:228-273 [grow_typed]. [addr] is what the
    allocator returns; if it fails, [handle_alloc_error] does not return. *)
Definition raw_new_cap (cap : N) : option N :=
  if (cap =? 0)%N then Some 4%N else
  let new_cap := N.min (cap + cap) (u64_lim - 1) in
  if (new_cap =? cap)%N then None else Some new_cap.

(** src/component/component_sparse_set.rs:228-273. *)
Definition grow_typed (T : mlayout) (addr : N) (m : mem) (s : raw) : res (mem * raw) :=
  match raw_new_cap (r_cap s) with
  | None => Panic
  | Some new_cap =>
      match compute_layout T new_cap with
      | None => Panic
      | Some (L, offset) =>
          let m1 := Mem (m_bytes m) ((addr, L) :: m_blocks m) in
          m2 ← copy_to entity_layout m1 (r_ents s) addr (r_len s);
          m3 ← copy_to T m2 (r_comps s) (addr + offset)%N (r_len s);
          m4 ← (if (r_cap s =? 0)%N then Ok m3 else
                match compute_layout T (r_cap s) with
                | None => Panic
                | Some (L0, _) => dealloc m3 (r_ents s) L0
                end);
          Ok (m4, Raw addr (addr + offset) (r_len s) new_cap)
      end
  end.

(** src/component/component_sparse_set.rs:313-329 [drop_typed] without the drops of the
    components. *)
Definition raw_drop (T : mlayout) (m : mem) (s : raw) : res mem :=
  if (r_cap s =? 0)%N then Ok m else
  match compute_layout T (r_cap s) with
  | None => Panic
  | Some (L, _) => dealloc m (r_ents s) L
  end.

(** src/component/component_sparse_set.rs:57-58:
    Writing one cell: an entity or a component of [n] bytes at [p]. *)
Definition write_cell (m : mem) (p n : N) (bs : N → N) : res mem :=
  if inside m p n
  then Ok (Mem (λ x, if ((p <=? x) && (x <? p + n))%N then bs (x - p)%N else m_bytes m x) (m_blocks m))
  else UB.
