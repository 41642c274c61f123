(** C45: the memory of a component storage. *)
From Verif Require Import Base SparseVecM CssM MemLayoutM SpecMem MemProofs.
Local Open Scope N_scope.

(** Whatever a storage did so far, if it has a capacity then it has exactly one block,
    aligned and not too large, and all its entities and components lie in that block,
    aligned and without overlap, for components of every size and alignment. *)
Theorem C45_cells_placed : ∀ T m s, type_ok T → storage_run T m s → r_cap s ≠ 0 →
  ∃ L, own_block T s = [(r_ents s, L)] ∧ (r_ents s, L) ∈ m_blocks m ∧ cells_placed T L s ∧
    r_ents s mod l_align L = 0 ∧ l_size L + (l_align L - 1) ≤ isize_max ∧ 0 < l_size L.
Proof. exact run_placed. Qed.
Print Assumptions C45_cells_placed.

(** So writing one cell is defined and changes no other one. *)
Theorem C45_writes : ∀ T m s i bs, type_ok T → storage_run T m s → i < r_cap s →
  (∃ m', write_cell m (ent_addr s i) 8 bs = Ok m' ∧ storage_run T m' s ∧
     (∀ k, k < 8 → m_bytes m' (ent_addr s i + k) = bs k) ∧ other_cells T m m' s (inl i)) ∧
  (∃ m', write_cell m (comp_addr T s i) (l_size T) bs = Ok m' ∧ storage_run T m' s ∧
     (∀ k, k < l_size T → m_bytes m' (comp_addr T s i + k) = bs k) ∧ other_cells T m m' s (inr i)).
Proof. exact run_write. Qed.
Print Assumptions C45_writes.

(** Growing panics if and only if the doubled storage is larger than the address space
    allows. Otherwise it is defined, doubles the capacity, keeps the bytes of all
    entities and components at their positions, touches no other block, and frees the
    old block with the layout it was allocated with. *)
Theorem C45_grow : ∀ T m s addr, type_ok T → storage_run T m s →
  (∀ c L off, raw_new_cap (r_cap s) = Some c → compute_layout T c = Some (L, off) → fresh_block m addr L) →
  (isize_max < layout_limit T (doubled (r_cap s)) ∧ grow_typed T addr m s = Panic) ∨
  (layout_limit T (doubled (r_cap s)) ≤ isize_max ∧ ∃ m' s', grow_typed T addr m s = Ok (m', s') ∧
    r_cap s' = doubled (r_cap s) ∧ r_len s' = r_len s ∧ storage_run T m' s' ∧
    same_cells T m s m' s' (r_len s) ∧
    (∀ b K x, (b, K) ∈ m_blocks m → (b, K) ∉ own_block T s → b ≤ x → x < b + l_size K → m_bytes m' x = m_bytes m x) ∧
    ∃ rest, m_blocks m ≡ₚ own_block T s ++ rest ∧ m_blocks m' ≡ₚ own_block T s' ++ rest).
Proof. exact run_grow_ok. Qed.
Print Assumptions C45_grow.

(** Dropping the storage frees its block and nothing else. *)
Theorem C45_drop : ∀ T m s, type_ok T → storage_run T m s →
  ∃ m', raw_drop T m s = Ok m' ∧ m_blocks m ≡ₚ own_block T s ++ m_blocks m' ∧ m_bytes m' = m_bytes m.
Proof. exact run_drop_ok. Qed.
Print Assumptions C45_drop.

(** The storage of the other theorems grows to the same capacities, and keeps the same
    cells. *)
Theorem C45_grow_cells : ∀ (s : css) i,
  (c_len s ≤ length (c_ents s))%nat → (c_len s ≤ length (c_comps s))%nat →
  N.of_nat (c_cap (css_grow s)) = doubled (N.of_nat (c_cap s)) ∧
  c_len (css_grow s) = c_len s ∧ c_sparse (css_grow s) = c_sparse s ∧
  ((i < c_len s)%nat → c_ents (css_grow s) !! i = c_ents s !! i ∧ c_comps (css_grow s) !! i = c_comps s !! i).
Proof. exact css_grow_cells. Qed.
Print Assumptions C45_grow_cells.

(** Components of 12 bytes aligned to 4, and of 48 bytes aligned to 16: the storage
    grows to 4, is filled, and grows to 8 cells, next to a foreign block. *)
Definition mem_demo (T : mlayout) : res (mem * raw) :=
  p ← grow_typed T 4096 (Mem (λ _, 0) [(256, ML 100 4)]) (raw_new T);
  m ← write_cell p.1 (comp_addr T p.2 3) (l_size T) (λ k, k + 7);
  grow_typed T 8192 m (Raw (r_ents p.2) (r_comps p.2) 4 (r_cap p.2)).

Definition mem_shown (T : mlayout) : option (list (N * N * N) * N * N * N) :=
  match mem_demo T with
  | Ok (m, s) => Some (map (λ b, (b.1, l_size b.2, l_align b.2)) (m_blocks m), r_comps s, r_cap s,
                       m_bytes m (comp_addr T s 3 + 2))
  | _ => None
  end.

Example C45_demo :
  mem_shown (ML 12 4) = Some ([(8192, 160, 8); (256, 100, 4)], 8256, 8, 9) ∧
  mem_shown (ML 48 16) = Some ([(8192, 448, 16); (256, 100, 4)], 8256, 8, 9) ∧
  mem_shown (ML 0 128) = Some ([(8192, 128, 128); (256, 100, 4)], 8320, 8, 0).
Proof. split_and!; by vm_compute. Qed.

Ltac fresh_demo := split_and!; [done|done|]; intros b K Hin;
  repeat (apply elem_of_cons in Hin as [Hin|Hin]; [injection Hin as -> ->; right; right; right; by vm_compute|]);
  by apply not_elem_of_nil in Hin.

Example C45_nonvacuous : ∀ T, T = ML 12 4 ∨ T = ML 48 16 ∨ T = ML 0 128 → type_ok T ∧
  match mem_demo T with Ok (m, s) => storage_run T m s ∧ r_cap s = 8 ∧ r_len s = 4 | _ => False end.
Proof.
  intros T HT. assert (storage_run T (Mem (λ _, 0) [(256, ML 100 4)]) (raw_new T)) as H0.
  { apply run_new. split.
    - intros a L Ha. apply elem_of_list_singleton in Ha. injection Ha as -> ->. done.
    - intros [|[|i]] [|[|j]]; simpl; intros; simplify_eq/=. }
  split.
  { destruct HT as [->|[->| ->]]; split_and!; simpl; try done; [by exists 2|by exists 4|by exists 7]. }
  destruct HT as [->|[->| ->]].
  all: unshelve epose proof (run_grow _ _ _ _ _ _ 4096 _ _ H0 eq_refl eq_refl _ eq_refl) as H1; [fresh_demo|].
  all: epose proof (run_write_comp _ _ _ 3 (λ k, k + 7) _ H1 eq_refl eq_refl) as H2.
  all: epose proof (run_len _ _ _ 4 H2 ltac:(done)) as H3.
  all: unshelve epose proof (run_grow _ _ _ _ _ _ 8192 _ _ H3 eq_refl eq_refl _ eq_refl) as H4; [fresh_demo|].
  all: split; [exact H4|done].
Qed.
