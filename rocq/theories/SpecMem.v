(** What it means that a component storage uses its memory properly. *)
From Verif Require Import Base MemLayoutM.

(** Sizes and alignments of Rust types. *)
Definition type_ok (T : mlayout) : Prop :=
  (∃ k, l_align T = 2 ^ k)%N ∧ (l_size T mod l_align T = 0)%N ∧ (l_size T + (l_align T - 1) ≤ isize_max)%N.

(** Two ranges of addresses without a common byte. *)
Definition apart (p n q k : N) : Prop := n = 0%N ∨ k = 0%N ∨ (p + n ≤ q ∨ q + k ≤ p)%N.

(** The allocated blocks are apart from each other and from address 0. *)
Definition heap_ok (m : mem) : Prop :=
  (∀ a L, (a, L) ∈ m_blocks m → a ≠ 0%N ∧ (a mod l_align L = 0)%N ∧ (0 < l_size L)%N) ∧
  (∀ i j a L b K, m_blocks m !! i = Some (a, L) → m_blocks m !! j = Some (b, K) → i ≠ j →
     apart a (l_size L) b (l_size K)).

(** The contract of [alloc::alloc]. *)
Definition fresh_block (m : mem) (addr : N) (L : mlayout) : Prop :=
  addr ≠ 0%N ∧ (addr mod l_align L = 0)%N ∧
  ∀ b K, (b, K) ∈ m_blocks m → apart addr (l_size L) b (l_size K).

(** Addresses of the [i]-th entity and component. *)
Definition ent_addr (s : raw) (i : N) : N := (r_ents s + 8 * i)%N.
Definition comp_addr (T : mlayout) (s : raw) (i : N) : N := (r_comps s + l_size T * i)%N.

(** [n] bytes from [p] lie in the block [a, L]. *)
Definition within (p n a : N) (L : mlayout) : Prop := (a ≤ p ∧ p + n ≤ a + l_size L)%N.

(** The block [L] at the entity pointer holds [r_cap] entities and components, all
    properly aligned and apart from each other. *)
Definition cells_placed (T : mlayout) (L : mlayout) (s : raw) : Prop :=
  ∀ i, (i < r_cap s)%N →
    (within (ent_addr s i) 8 (r_ents s) L ∧ ent_addr s i mod 8 = 0)%N ∧
    (within (comp_addr T s i) (l_size T) (r_ents s) L ∧ comp_addr T s i mod l_align T = 0)%N ∧
    ∀ j, (j < r_cap s)%N →
      apart (ent_addr s i) 8 (comp_addr T s j) (l_size T) ∧
      (i ≠ j → apart (ent_addr s i) 8 (ent_addr s j) 8 ∧
               apart (comp_addr T s i) (l_size T) (comp_addr T s j) (l_size T)).

(** A storage without memory, or with one block that holds its cells. The layout is the one
    computed again when the block is freed. *)
Definition storage_ok (T : mlayout) (m : mem) (s : raw) : Prop :=
  (r_len s ≤ r_cap s)%N ∧
  (r_cap s ≠ 0%N → ∃ L off, compute_layout T (r_cap s) = Some (L, off) ∧ (r_ents s, L) ∈ m_blocks m ∧
                     r_comps s = (r_ents s + off)%N) ∧
  (r_cap s = 0%N → (r_ents s mod 8 = 0 ∧ r_comps s mod l_align T = 0)%N).

(** The bytes of the first [n] entities and components are the same. *)
Definition same_cells (T : mlayout) (m : mem) (s : raw) (m' : mem) (s' : raw) (n : N) : Prop :=
  ∀ i, (i < n)%N →
    (∀ k, (k < 8)%N → m_bytes m' (ent_addr s' i + k)%N = m_bytes m (ent_addr s i + k)%N) ∧
    (∀ k, (k < l_size T)%N → m_bytes m' (comp_addr T s' i + k)%N = m_bytes m (comp_addr T s i + k)%N).

(** The block of a storage. *)
Definition own_block (T : mlayout) (s : raw) : list (N * mlayout) :=
  if (r_cap s =? 0)%N then [] else
  match compute_layout T (r_cap s) with Some (L, _) => [(r_ents s, L)] | None => [] end.

(** The bytes that a storage of [cap] cells would need, rounded up to its alignment:
    the entities, padding, and the components. *)
Definition layout_limit (T : mlayout) (cap : N) : N :=
  (round_up (8 * cap) (l_align T) + l_size T * cap + (N.max 8 (l_align T) - 1))%N.

(** The next capacity. *)
Definition doubled (cap : N) : N := (if cap =? 0 then 4 else 2 * cap)%N.

(** The life of a storage in a heap that others use too: it grows, changes its length,
    writes its cells; the others leave its block alone. *)
Inductive storage_run (T : mlayout) : mem → raw → Prop :=
| run_new m : heap_ok m → storage_run T m (raw_new T)
| run_grow m s c L off addr m' s' :
    storage_run T m s → raw_new_cap (r_cap s) = Some c → compute_layout T c = Some (L, off) → fresh_block m addr L →
    grow_typed T addr m s = Ok (m', s') → storage_run T m' s'
| run_len m s n : storage_run T m s → (n ≤ r_cap s)%N → storage_run T m (Raw (r_ents s) (r_comps s) n (r_cap s))
| run_write_ent m s i bs m' :
    storage_run T m s → (i < r_cap s)%N → write_cell m (ent_addr s i) 8 bs = Ok m' → storage_run T m' s
| run_write_comp m s i bs m' :
    storage_run T m s → (i < r_cap s)%N → write_cell m (comp_addr T s i) (l_size T) bs = Ok m' → storage_run T m' s
| run_others m s m' :
    storage_run T m s → heap_ok m' → (∀ b, b ∈ own_block T s → b ∈ m_blocks m') → storage_run T m' s.

(** All the cells except the entity or the component [skip] are unchanged. *)
Definition other_cells (T : mlayout) (m m' : mem) (s : raw) (skip : N + N) : Prop :=
  ∀ j, (j < r_cap s)%N →
    (skip ≠ inl j → ∀ k, (k < 8)%N → m_bytes m' (ent_addr s j + k)%N = m_bytes m (ent_addr s j + k)%N) ∧
    (skip ≠ inr j → ∀ k, (k < l_size T)%N → m_bytes m' (comp_addr T s j + k)%N = m_bytes m (comp_addr T s j + k)%N).
