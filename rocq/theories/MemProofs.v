(** Layouts, growing and dropping. *)
From Verif Require Import Base SparseVecM CssM MemLayoutM SpecMem.
Local Open Scope N_scope.

Lemma pow2_pos k : 0 < 2 ^ k.
Proof. apply N.neq_0_lt_0, N.pow_nonzero. lia. Qed.

Lemma round_up_spec x a : 0 < a → x ≤ round_up x a ∧ round_up x a < x + a ∧ round_up x a mod a = 0.
Proof.
  intros Ha. unfold round_up. pose proof (N.div_mod (x + (a - 1)) a ltac:(lia)) as H.
  pose proof (N.mod_lt (x + (a - 1)) a ltac:(lia)) as Hlt.
  generalize dependent ((x + (a - 1)) mod a). intros r H Hlt.
  generalize dependent ((x + (a - 1)) / a). intros q H. rewrite (N.mul_comm q a).
  generalize (N.mod_mul q a ltac:(lia)). rewrite (N.mul_comm q a). intros Hm. split_and!; [lia|lia|done].
Qed.

Lemma pow2_max a b : (∃ k, a = 2 ^ k) → (∃ k, b = 2 ^ k) → (∃ k, N.max a b = 2 ^ k) ∧
  N.max a b mod a = 0 ∧ N.max a b mod b = 0.
Proof.
  intros [j ->] [k ->].
  assert (∀ x y, x ≤ y → 2 ^ y mod 2 ^ x = 0) as Hm.
  { intros x y Hle. replace y with (y - x + x) by lia. rewrite N.pow_add_r. apply N.mod_mul. pose proof (pow2_pos x). lia. }
  destruct (N.le_ge_cases j k) as [Hle|Hle].
  - rewrite N.max_r by (apply N.pow_le_mono_r; lia). split_and!; [by exists k|by apply Hm|].
    apply N.mod_same. pose proof (pow2_pos k). lia.
  - rewrite N.max_l by (apply N.pow_le_mono_r; lia). split_and!; [by exists j| |by apply Hm].
    apply N.mod_same. pose proof (pow2_pos j). lia.
Qed.

Lemma mod_mod_0 x a b : a ≠ 0 → b ≠ 0 → x mod a = 0 → a mod b = 0 → x mod b = 0.
Proof.
  intros Ha Hb Hx Hab. apply N.mod_divide in Hx, Hab; [|done..]. apply N.mod_divide; [done|]. by etransitivity.
Qed.

Lemma mod_add_0 x y a : a ≠ 0 → x mod a = 0 → y mod a = 0 → (x + y) mod a = 0.
Proof. intros Ha Hx Hy. rewrite N.add_mod, Hx, Hy by done. by apply N.mod_0_l. Qed.

Lemma mod_mul_0 x y a : a ≠ 0 → x mod a = 0 → (x * y) mod a = 0.
Proof. intros Ha Hx. rewrite N.mul_mod, Hx by done. simpl. by apply N.mod_0_l. Qed.

(** When [compute_layout] succeeds, and what it returns. *)
Lemma compute_layout_spec T cap : type_ok T →
  compute_layout T cap =
  if layout_limit T cap <=? isize_max
  then Some (ML (round_up (8 * cap) (l_align T) + l_size T * cap) (N.max 8 (l_align T)), round_up (8 * cap) (l_align T))
  else None.
Proof.
  intros ([k Hk] & _ & _). pose proof (pow2_pos k) as Hpos. rewrite <-Hk in Hpos.
  pose proof (round_up_spec (8 * cap) (l_align T) Hpos) as (H1 & H2 & _).
  unfold compute_layout, layout_array, layout_checked, layout_limit, layout_extend, layout_checked, entity_layout. cbn [l_size l_align].
  destruct (N.leb_spec (8 * cap + (8 - 1)) isize_max) as [Ha|Ha].
  - destruct (N.leb_spec (l_size T * cap + (l_align T - 1)) isize_max) as [Hb|Hb]; cbn [l_size l_align].
    + by destruct (N.leb_spec (round_up (8 * cap) (l_align T) + l_size T * cap + (N.max 8 (l_align T) - 1)) isize_max).
    + rewrite (proj2 (N.leb_gt _ _)); [done|]. lia.
  - rewrite (proj2 (N.leb_gt _ _)); [done|]. lia.
Qed.

Section layout.
  Context (T : mlayout) (HT : type_ok T).

  Lemma align_pos : 0 < l_align T.
  Proof using HT. destruct HT as ([k ->] & _). apply pow2_pos. Qed.

  Lemma layout_facts cap L off : compute_layout T cap = Some (L, off) →
    8 * cap ≤ off ∧ off + l_size T * cap = l_size L ∧ off mod l_align T = 0 ∧
    l_align L mod 8 = 0 ∧ l_align L mod l_align T = 0 ∧ (∃ k, l_align L = 2 ^ k) ∧
    l_size L + (l_align L - 1) ≤ isize_max.
  Proof using HT.
    rewrite compute_layout_spec by done. unfold layout_limit.
    destruct (N.leb_spec (round_up (8 * cap) (l_align T) + l_size T * cap + (N.max 8 (l_align T) - 1)) isize_max) as [Hl|]; [|done].
    intros; simplify_eq. cbn [l_size l_align].
    pose proof (round_up_spec (8 * cap) (l_align T) align_pos) as (H1 & H2 & H3).
    destruct (pow2_max 8 (l_align T)) as (H4 & H5 & H6); [by exists 3|apply HT|].
    by split_and!.
  Qed.

  Lemma cells_placed_ok s L off :
    r_cap s ≠ 0 → compute_layout T (r_cap s) = Some (L, off) → r_comps s = r_ents s + off →
    r_ents s mod l_align L = 0 → cells_placed T L s.
  Proof using HT.
    intros Hc HL Hcomps Hal. pose proof (layout_facts _ _ _ HL) as (H1 & H2 & H3 & H4 & H5 & [k Hk] & _).
    pose proof align_pos as Hpos. pose proof (pow2_pos k) as HposL. rewrite <-Hk in HposL.
    assert (r_ents s mod 8 = 0) as He8 by (apply (mod_mod_0 _ (l_align L)); [lia|lia|done..]).
    assert (r_ents s mod l_align T = 0) as HeT by (apply (mod_mod_0 _ (l_align L)); [lia|lia|done..]).
    intros i Hi. unfold within, ent_addr, comp_addr. rewrite Hcomps. split_and!; try lia.
    - apply mod_add_0; [lia|done|]. by apply mod_mul_0.
    - nia.
    - apply mod_add_0; [lia| |].
      + apply mod_add_0; [lia|done..].
      + apply mod_mul_0; [lia|]. apply HT.
    - intros j Hj. split.
      + right; right. left. lia.
      + intros Hne. split; right; right; [lia|]. destruct (N.lt_ge_cases i j); [left|right]; nia.
  Qed.
End layout.

(** ** Copying and freeing *)

Lemma inside_ok m a L p n : (a, L) ∈ m_blocks m → a ≤ p → p + n ≤ a + l_size L → inside m p n = true.
Proof.
  intros Hin H1 H2. unfold inside. apply orb_true_iff. right. apply existsb_exists. exists (a, L).
  split; [by apply elem_of_list_In|]. simpl. apply andb_true_iff. split; by apply N.leb_le.
Qed.

Lemma inside_0 m p : inside m p 0 = true.
Proof. done. Qed.

Lemma copy_to_ok T m src dst count :
  let n := l_size T * count in
  inside m src n = true → inside m dst n = true → src mod l_align T = 0 → dst mod l_align T = 0 →
  apart src n dst n →
  ∃ m', copy_to T m src dst count = Ok m' ∧ m_blocks m' = m_blocks m ∧
    (∀ k, k < n → m_bytes m' (dst + k) = m_bytes m (src + k)) ∧
    (∀ x, (x < dst ∨ dst + n ≤ x) → m_bytes m' x = m_bytes m x).
Proof.
  cbn zeta. intros H1 H2 H3 H4 Hap. unfold copy_to. rewrite H1, H2, H3, H4. simpl.
  assert (((l_size T * count =? 0) || (src + l_size T * count <=? dst) || (dst + l_size T * count <=? src)) = true) as ->.
  { destruct Hap as [->|[->|[H|H]]]; [done|done| |].
    - by rewrite (proj2 (N.leb_le _ _) H), orb_true_r.
    - by rewrite (proj2 (N.leb_le _ _) H), orb_true_r. }
  eexists. split; [done|]. split; [done|]. simpl. split.
  - intros k Hk. rewrite (proj2 (N.leb_le _ _)), (proj2 (N.ltb_lt _ _)) by lia. simpl. f_equal. lia.
  - intros x [Hx|Hx].
    + by rewrite (proj2 (N.leb_gt _ _)) by lia.
    + rewrite (proj2 (N.ltb_ge _ _)) by lia. by rewrite andb_false_r.
Qed.

Lemma dealloc_ok m p L : (p, L) ∈ m_blocks m →
  ∃ m', dealloc m p L = Ok m' ∧ m_bytes m' = m_bytes m ∧ m_blocks m ≡ₚ (p, L) :: m_blocks m' ∧
    ∃ i, m_blocks m' = delete i (m_blocks m).
Proof.
  intros Hin. unfold dealloc.
  destruct (list_find _ (m_blocks m)) as [[i b]|] eqn:E.
  - apply list_find_Some in E as (Hi & (H1 & H2 & H3) & _). eexists. split; [done|]. split; [done|]. simpl.
    assert (b = (p, L)) as -> by (destruct b as [? []], L; simpl in *; by simplify_eq). split; [|by exists i].
    by apply delete_Permutation.
  - eapply list_find_None in E. rewrite Forall_forall in E. by destruct (E _ Hin).
Qed.

Lemma lookup_delete_inv {A} (l : list A) i j x : delete i l !! j = Some x → ∃ j', l !! j' = Some x ∧ j' = (if decide (j < i)%nat then j else S j).
Proof.
  intros H. eexists. split; [|done]. case_decide.
  - by rewrite list.lookup_delete_lt in H.
  - by rewrite list.lookup_delete_ge in H by lia.
Qed.

Lemma heap_delete m bs i : heap_ok m → heap_ok (Mem bs (delete i (m_blocks m))).
Proof.
  intros [H1 H2]. split; simpl.
  - intros a L (j & Hj)%elem_of_list_lookup. apply lookup_delete_inv in Hj as (j' & Hj & _).
    eapply H1. by eapply elem_of_list_lookup_2.
  - intros j k a L b K Hj Hk Hne. apply lookup_delete_inv in Hj as (j' & Hj & ->), Hk as (k' & Hk & ->).
    eapply H2; [exact Hj|exact Hk|]. repeat case_decide; lia.
Qed.

Lemma heap_cons m bs addr L : heap_ok m → fresh_block m addr L → 0 < l_size L → heap_ok (Mem bs ((addr, L) :: m_blocks m)).
Proof.
  intros [H1 H2] (F1 & F2 & F3) Hs. split; simpl.
  - intros a K [?|Hin]%elem_of_cons; [by simplify_eq|by apply H1].
  - intros [|i] [|j] a K b K' Hi Hj Hne; simpl in *; simplify_eq.
    + by apply F3, elem_of_list_lookup_2 in Hj || (apply F3; by eapply elem_of_list_lookup_2).
    + assert (apart b (l_size K') a (l_size K)) as Hap by (apply F3; by eapply elem_of_list_lookup_2).
      unfold apart in *. tauto.
    + eapply H2; [done..|lia].
Qed.

Lemma heap_bytes m bs : heap_ok m → heap_ok (Mem bs (m_blocks m)).
Proof. by intros [H1 H2]. Qed.

(** ** Growing *)

Lemma raw_new_cap_ok T cap c L off : type_ok T → raw_new_cap cap = Some c → compute_layout T c = Some (L, off) →
  c = doubled cap ∧ cap < c.
Proof.
  intros HT Hc HL. pose proof (layout_facts T HT _ _ _ HL) as (H1 & H2 & _ & _ & _ & _ & H7).
  unfold raw_new_cap in Hc. unfold doubled. destruct (N.eqb_spec cap 0) as [->|Hne]; [by simplify_eq|].
  assert (u64_lim = 18446744073709551616) as Hu by done. assert (isize_max = 9223372036854775807) as Hi by done.
  destruct (N.eqb_spec (N.min (cap + cap) (u64_lim - 1)) cap); [done|]. injection Hc as <-. lia.
Qed.

Section grow.
  Context (T : mlayout) (HT : type_ok T) (m : mem) (s : raw) (Hh : heap_ok m) (Hs : storage_ok T m s).
  Context (c : N) (L : mlayout) (off addr : N).
  Context (Hc : raw_new_cap (r_cap s) = Some c) (HL : compute_layout T c = Some (L, off)) (Hf : fresh_block m addr L).

  (** The old block, if there is anything in it. *)
  Lemma old_block : r_cap s ≠ 0 → ∃ L0 off0, compute_layout T (r_cap s) = Some (L0, off0) ∧ (r_ents s, L0) ∈ m_blocks m ∧
    r_comps s = r_ents s + off0 ∧ 8 * r_cap s ≤ off0 ∧ off0 + l_size T * r_cap s = l_size L0 ∧
    apart addr (l_size L) (r_ents s) (l_size L0).
  Proof using HT Hs Hf.
    intros Hne. destruct Hs as (_ & H2 & _). destruct (H2 Hne) as (L0 & off0 & HL0 & Hin & Hco).
    pose proof (layout_facts T HT _ _ _ HL0) as (F1 & F2 & _). exists L0, off0. split_and!; try done.
    by apply Hf.
  Qed.

  Lemma old_aligned : r_ents s mod 8 = 0 ∧ r_comps s mod l_align T = 0.
  Proof using HT Hh Hs Hf.
    destruct (decide (r_cap s = 0)) as [Hz|Hne]; [by apply Hs|].
    destruct (old_block Hne) as (L0 & off0 & HL0 & Hin & Hco & _).
    pose proof (layout_facts T HT _ _ _ HL0) as (_ & _ & F3 & F4 & F5 & [k Hk] & _).
    pose proof (align_pos T HT) as Hpos. pose proof (pow2_pos k) as HposL. rewrite <-Hk in HposL.
    destruct Hh as [Hb _]. destruct (Hb _ _ Hin) as (_ & Hal & _). split.
    - apply (mod_mod_0 _ (l_align L0)); [lia|lia|done..].
    - rewrite Hco. apply mod_add_0; [lia| |done]. apply (mod_mod_0 _ (l_align L0)); [lia|lia|done..].
  Qed.

  Lemma grow_ok : ∃ m' s', grow_typed T addr m s = Ok (m', s') ∧
    r_cap s' = doubled (r_cap s) ∧ r_len s' = r_len s ∧
    storage_ok T m' s' ∧ heap_ok m' ∧ same_cells T m s m' s' (r_len s) ∧
    (∀ x, x < addr ∨ addr + l_size L ≤ x → m_bytes m' x = m_bytes m x) ∧
    (∃ rest, m_blocks m ≡ₚ own_block T s ++ rest ∧ m_blocks m' ≡ₚ own_block T s' ++ rest).
  Proof using HT Hh Hs Hc HL Hf.
    pose proof (raw_new_cap_ok T _ _ _ _ HT Hc HL) as [Hc1 Hc2].
    pose proof (layout_facts T HT _ _ _ HL) as (F1 & F2 & F3 & F4 & F5 & [k Hk] & _).
    pose proof (align_pos T HT) as Hpos. pose proof (pow2_pos k) as HposL. rewrite <-Hk in HposL.
    pose proof Hf as (Fa & Fb & Fc). pose proof (proj1 Hs) as Hlen. destruct old_aligned as [Hal1 Hal2].
    assert (0 < l_size L) as HsL by lia.
    assert (l_size T * r_len s ≤ l_size T * c) as Hmul by (apply N.mul_le_mono_l; lia).
    assert (l_size T * r_len s ≤ l_size T * r_cap s) as Hmul2 by (apply N.mul_le_mono_l; lia).
    unfold grow_typed. rewrite Hc, HL.
    set (m1 := Mem (m_bytes m) ((addr, L) :: m_blocks m)).
    assert (addr mod 8 = 0) as Ha8 by (apply (mod_mod_0 _ (l_align L)); [lia|lia|done..]).
    assert (addr mod l_align T = 0) as HaT by (apply (mod_mod_0 _ (l_align L)); [lia|lia|done..]).
    assert (∀ mm, m_blocks mm = m_blocks m1 → inside mm (r_ents s) (8 * r_len s) = true) as Hi1.
    { intros mm Hmm. destruct (decide (r_cap s = 0)) as [Hz|Hne].
      - replace (r_len s) with 0 by lia. apply inside_0.
      - destruct (old_block Hne) as (L0 & off0 & _ & Hin & _ & B1 & B2 & _).
        eapply (inside_ok _ _ L0); [|reflexivity|lia]. rewrite Hmm. simpl. by right. }
    assert (∀ mm, m_blocks mm = m_blocks m1 → inside mm (r_comps s) (l_size T * r_len s) = true) as Hi2.
    { intros mm Hmm. destruct (decide (r_cap s = 0)) as [Hz|Hne].
      - replace (r_len s) with 0 by lia. rewrite N.mul_0_r. apply inside_0.
      - destruct (old_block Hne) as (L0 & off0 & _ & Hin & Hco & B1 & B2 & _).
        eapply (inside_ok _ (r_ents s) L0); [|lia|lia]. rewrite Hmm. simpl. by right. }
    assert (∀ mm p n, m_blocks mm = m_blocks m1 → addr ≤ p → p + n ≤ addr + l_size L → inside mm p n = true) as Hi3.
    { intros mm p n Hmm Hp Hn. eapply (inside_ok _ addr L); [|done|done]. rewrite Hmm. simpl. by left. }
    (* the old cells are apart from the new block *)
    assert (r_cap s ≠ 0 → ∀ p n, r_ents s ≤ p → p + n ≤ r_comps s + l_size T * r_cap s → n ≠ 0 →
              p + n ≤ addr ∨ addr + l_size L ≤ p) as Hapart.
    { intros Hne p n Hp Hn Hn0. destruct (old_block Hne) as (L0 & off0 & _ & Hin & Hco & B1 & B2 & [?|[?|[?|?]]]); lia. }
    destruct (copy_to_ok entity_layout m1 (r_ents s) addr (r_len s)) as (m2 & -> & Hb2 & Hc2' & Hu2);
      cbn [entity_layout l_size l_align] in *; [by apply Hi1|apply Hi3; [done|lia|lia]|done|done| |].
    { destruct (decide (r_cap s = 0)) as [Hz|Hne]; [left; lia|]. destruct (decide (r_len s = 0)); [left; lia|].
      destruct (old_block Hne) as (L0 & off0 & _ & _ & Hco & B1 & B2 & _).
      right; right. destruct (Hapart Hne (r_ents s) (8 * r_len s)); [lia|lia|lia|left; lia|right; lia]. }
    cbn [mbind res_bind].
    destruct (copy_to_ok T m2 (r_comps s) (addr + off) (r_len s)) as (m3 & -> & Hb3 & Hc3 & Hu3);
      [by apply Hi2|apply Hi3; [done|lia|lia]|done|by apply mod_add_0; [lia|..]| |].
    { destruct (decide (l_size T * r_len s = 0)) as [->|Hn0]; [by left|].
      assert (r_cap s ≠ 0) as Hne by lia. destruct (old_block Hne) as (L0 & off0 & _ & _ & Hco & B1 & B2 & _).
      right; right. destruct (Hapart Hne (r_comps s) (l_size T * r_len s)); [lia|lia|done|left; lia|right; lia]. }
    cbn [mbind res_bind]. rewrite Hb2 in Hb3.
    assert (heap_ok m1) as Hh1 by (by apply heap_cons).
    assert (heap_ok m3) as Hh3 by (destruct m3 as [b3 bl3]; simpl in Hb3; rewrite Hb3; by apply (heap_bytes m1)).
    (* what all the cases below share *)
    assert (∀ m4, m_bytes m4 = m_bytes m3 → (addr, L) ∈ m_blocks m4 →
      let s' := Raw addr (addr + off) (r_len s) c in
      storage_ok T m4 s' ∧ same_cells T m s m4 s' (r_len s) ∧
      (∀ x, x < addr ∨ addr + l_size L ≤ x → m_bytes m4 x = m_bytes m x)) as Hcommon.
    { intros m4 Hby Hin4. cbn zeta. split_and!.
      - split_and!; simpl; [lia|intros _; by exists L, off|]. intros ->. lia.
      - intros i Hi. unfold ent_addr, comp_addr. cbn [r_ents r_comps]. rewrite Hby. split.
        + intros j Hj. rewrite <-N.add_assoc. rewrite Hu3 by lia. rewrite Hc2' by lia. cbn [m1 m_bytes]. f_equal. lia.
        + intros j Hj. assert (r_cap s ≠ 0) as Hne by lia.
          assert (l_size T * (i + 1) ≤ l_size T * r_len s) as Hi' by (apply N.mul_le_mono_l; lia).
          rewrite N.mul_add_distr_l, N.mul_1_r in Hi'. rewrite <-N.add_assoc. rewrite Hc3 by lia.
          rewrite N.add_assoc. destruct (old_block Hne) as (L0 & off0 & _ & _ & Hco & B1 & B2 & _).
          destruct (Hapart Hne (r_comps s + l_size T * i + j) 1) as [?|?]; [lia|lia|lia|rewrite Hu2 by lia; done|].
          rewrite Hu2 by lia. done.
      - intros x Hx. rewrite Hby. rewrite Hu3 by (destruct Hx; [left; lia|right; lia]).
        rewrite Hu2 by (destruct Hx; [left; lia|right; lia]). done. }
    destruct (N.eqb_spec (r_cap s) 0) as [Hz|Hne].
    - eexists m3, _. split; [done|]. cbn [r_cap r_len]. split; [done|]. split; [done|].
      destruct (Hcommon m3) as (C1 & C2 & C3); [done|rewrite Hb3; by left|]. split_and!; [done..|].
      exists (m_blocks m). unfold own_block. cbn [r_cap r_ents]. rewrite (proj2 (N.eqb_eq _ _) Hz). split; [done|].
      rewrite (proj2 (N.eqb_neq _ _)) by lia. rewrite HL. by rewrite Hb3.
    - destruct (old_block Hne) as (L0 & off0 & HL0 & Hin & Hco & B1 & B2 & Hap). rewrite HL0.
      destruct (dealloc_ok m3 (r_ents s) L0) as (m4 & -> & Hby & Hperm & i & Hdel); [rewrite Hb3; simpl; by right|].
      cbn [mbind res_bind]. eexists m4, _. split; [done|]. cbn [r_cap r_len]. split; [done|]. split; [done|].
      assert ((addr, L) ∈ m_blocks m4) as Hin4.
      { assert ((addr, L) ∈ (r_ents s, L0) :: m_blocks m4) as Hx by (rewrite <-Hperm, Hb3; by left).
        apply elem_of_cons in Hx as [Hx|Hx]; [|done]. simplify_eq. exfalso.
        destruct Hh as [Hh1' _]. destruct (Hh1' _ _ Hin) as (_ & _ & ?). destruct Hap as [?|[?|?]]; lia. }
      destruct (Hcommon m4 Hby Hin4) as (C1 & C2 & C3). split_and!; [done| |done|done|].
      + destruct m4 as [b4 bl4]; simpl in *. rewrite Hdel. by apply heap_delete.
      + apply elem_of_Permutation in Hin4 as [rest Hrest]. exists rest. unfold own_block. cbn [r_cap r_ents].
        rewrite !(proj2 (N.eqb_neq _ _)) by lia. rewrite HL, HL0. split; [|done].
        apply (Permutation_cons_inv (a := (addr, L))). change ((addr, L) :: m_blocks m) with (m_blocks m1).
        rewrite <-Hb3, Hperm, Hrest. apply perm_swap.
  Qed.
End grow.

Lemma grow_panics T m s addr : type_ok T → heap_ok m → storage_ok T m s →
  (∀ c L off, raw_new_cap (r_cap s) = Some c → compute_layout T c = Some (L, off) → fresh_block m addr L) →
  grow_typed T addr m s = Panic ↔ isize_max < layout_limit T (doubled (r_cap s)).
Proof.
  intros HT Hh Hs Hf.
  assert (u64_lim = 18446744073709551616) as Hu by done. assert (isize_max = 9223372036854775807) as Hi by done.
  assert (∀ c, 8 * c ≤ layout_limit T c) as Hlim.
  { intros c. unfold layout_limit. pose proof (round_up_spec (8 * c) (l_align T) (align_pos T HT)). lia. }
  assert ((∃ c L off, raw_new_cap (r_cap s) = Some c ∧ compute_layout T c = Some (L, off)) ↔
          layout_limit T (doubled (r_cap s)) ≤ isize_max) as Hiff.
  { split.
    - intros (c & L & off & Hc & HL). destruct (raw_new_cap_ok T _ _ _ _ HT Hc HL) as [-> _].
      rewrite compute_layout_spec in HL by done. destruct (N.leb_spec (layout_limit T (doubled (r_cap s))) isize_max); done.
    - intros Hle. pose proof (Hlim (doubled (r_cap s))) as H8. exists (doubled (r_cap s)).
      rewrite compute_layout_spec, (proj2 (N.leb_le _ _) Hle) by done. eexists _, _. split; [|done].
      unfold raw_new_cap, doubled in *. destruct (N.eqb_spec (r_cap s) 0) as [|Hne]; [done|].
      rewrite (proj2 (N.eqb_neq _ _)) by lia. f_equal. lia. }
  split.
  - intros Hg. apply N.nle_gt. intros Hle. apply Hiff in Hle as (c & L & off & Hc & HL).
    destruct (grow_ok T HT m s Hh Hs c L off addr Hc HL (Hf _ _ _ Hc HL)) as (? & ? & Hg' & _). by rewrite Hg' in Hg.
  - intros Hlt. unfold grow_typed. destruct (raw_new_cap (r_cap s)) as [c|] eqn:Hc; [|done].
    destruct (compute_layout T c) as [[L off]|] eqn:HL; [|done]. exfalso.
    apply N.lt_nge in Hlt. apply Hlt, Hiff. eauto 10.
Qed.

Lemma raw_drop_ok T m s : heap_ok m → storage_ok T m s →
  ∃ m', raw_drop T m s = Ok m' ∧ m_bytes m' = m_bytes m ∧ m_blocks m ≡ₚ own_block T s ++ m_blocks m' ∧ heap_ok m'.
Proof.
  intros Hh (_ & H2 & _). unfold raw_drop, own_block. destruct (N.eqb_spec (r_cap s) 0) as [|Hne].
  - exists m. done.
  - destruct (H2 Hne) as (L & off & HL & Hin & _). rewrite HL. destruct (dealloc_ok m _ _ Hin) as (m' & -> & Hb & Hp & i & Hd).
    exists m'. split_and!; [done..|]. destruct m' as [b' bl']; simpl in *. rewrite Hd. by apply heap_delete.
Qed.

Lemma write_cell_blocks m p n bs m' : write_cell m p n bs = Ok m' → m_blocks m' = m_blocks m.
Proof. unfold write_cell. destruct (inside m p n); intros; by simplify_eq. Qed.

Lemma heap_blocks m m' : m_blocks m' = m_blocks m → heap_ok m → heap_ok m'.
Proof. destruct m' as [b bl]; simpl. intros ->. apply heap_bytes. Qed.
Lemma storage_blocks T m m' s : m_blocks m' = m_blocks m → storage_ok T m s → storage_ok T m' s.
Proof. intros Hb. unfold storage_ok. by rewrite Hb. Qed.

Lemma run_ok T m s : type_ok T → storage_run T m s → storage_ok T m s ∧ heap_ok m.
Proof.
  intros HT. induction 1 as [m Hh|m s c L off addr m' s' Hr [Hs Hh] Hc HL Hf Hg|m s n Hr [Hs Hh] Hn|
    m s i bs m' Hr [Hs Hh] Hi Hw|m s i bs m' Hr [Hs Hh] Hi Hw|m s m' Hr [Hs Hh] Hh' Hown].
  - split; [|done]. split_and!; simpl; [done|done|]. intros _. split; [done|]. apply N.mod_same. pose proof (align_pos T HT). lia.
  - destruct (grow_ok T HT m s Hh Hs c L off addr Hc HL Hf) as (m2 & s2 & Hg2 & _ & _ & H1 & H2 & _).
    rewrite Hg in Hg2. by simplify_eq.
  - split; [|done]. destruct Hs as (_ & H2 & H3). by split_and!.
  - apply write_cell_blocks in Hw. split; [by eapply storage_blocks|by eapply heap_blocks].
  - apply write_cell_blocks in Hw. split; [by eapply storage_blocks|by eapply heap_blocks].
  - split; [|done]. destruct Hs as (H1 & H2 & H3). split_and!; [done| |done]. intros Hne.
    destruct (H2 Hne) as (L & off & HL & Hin & Hco). exists L, off. split_and!; try done. apply Hown.
    unfold own_block. rewrite (proj2 (N.eqb_neq _ _) Hne), HL. by left.
Qed.

(** *** C45 *)

Lemma run_placed T m s : type_ok T → storage_run T m s → r_cap s ≠ 0 →
  ∃ L, own_block T s = [(r_ents s, L)] ∧ (r_ents s, L) ∈ m_blocks m ∧ cells_placed T L s ∧
    r_ents s mod l_align L = 0 ∧ l_size L + (l_align L - 1) ≤ isize_max ∧ 0 < l_size L.
Proof.
  intros HT Hr Hne. apply run_ok in Hr as [(H1 & H2 & H3) Hh]; [|done].
  destruct (H2 Hne) as (L & off & HL & Hin & Hco). exists L. destruct (proj1 Hh _ _ Hin) as (_ & Hal & Hsz).
  pose proof (layout_facts T HT _ _ _ HL) as (_ & _ & _ & _ & _ & _ & F7). split_and!; try done.
  - unfold own_block. by rewrite (proj2 (N.eqb_neq _ _) Hne), HL.
  - by eapply cells_placed_ok.
Qed.

Lemma run_grow_ok T m s addr : type_ok T → storage_run T m s →
  (∀ c L off, raw_new_cap (r_cap s) = Some c → compute_layout T c = Some (L, off) → fresh_block m addr L) →
  (isize_max < layout_limit T (doubled (r_cap s)) ∧ grow_typed T addr m s = Panic) ∨
  (layout_limit T (doubled (r_cap s)) ≤ isize_max ∧ ∃ m' s', grow_typed T addr m s = Ok (m', s') ∧
    r_cap s' = doubled (r_cap s) ∧ r_len s' = r_len s ∧ storage_run T m' s' ∧
    same_cells T m s m' s' (r_len s) ∧
    (∀ b K x, (b, K) ∈ m_blocks m → (b, K) ∉ own_block T s → b ≤ x → x < b + l_size K → m_bytes m' x = m_bytes m x) ∧
    ∃ rest, m_blocks m ≡ₚ own_block T s ++ rest ∧ m_blocks m' ≡ₚ own_block T s' ++ rest).
Proof.
  intros HT Hr Hf. pose proof (run_ok _ _ _ HT Hr) as [Hs Hh].
  pose proof (grow_panics T m s addr HT Hh Hs Hf) as Hp.
  destruct (N.lt_ge_cases isize_max (layout_limit T (doubled (r_cap s)))) as [Hlt|Hle]; [left; split; [done|by apply Hp]|].
  right. split; [done|]. destruct (raw_new_cap (r_cap s)) as [c|] eqn:Hc.
  2:{ exfalso. apply N.le_ngt in Hle. apply Hle, Hp. unfold grow_typed. by rewrite Hc. }
  destruct (compute_layout T c) as [[L off]|] eqn:HL.
  2:{ exfalso. apply N.le_ngt in Hle. apply Hle, Hp. unfold grow_typed. by rewrite Hc, HL. }
  specialize (Hf _ _ _ eq_refl HL).
  destruct (grow_ok T HT m s Hh Hs c L off addr Hc HL Hf) as (m' & s' & Hg & H1 & H2 & H3 & H4 & H5 & H6 & H7).
  exists m', s'. split_and!; try done.
  - by eapply run_grow.
  - intros b K x Hb _ Hx1 Hx2. apply H6. destruct Hf as (_ & _ & Hf).
    pose proof (layout_facts T HT _ _ _ HL) as (F1 & F2 & _). destruct (raw_new_cap_ok T _ _ _ _ HT Hc HL) as [_ Hlt].
    destruct (Hf _ _ Hb) as [?|[?|[?|?]]]; lia.
Qed.

Lemma run_drop_ok T m s : type_ok T → storage_run T m s →
  ∃ m', raw_drop T m s = Ok m' ∧ m_blocks m ≡ₚ own_block T s ++ m_blocks m' ∧ m_bytes m' = m_bytes m.
Proof.
  intros HT [Hs Hh]%run_ok; [|done]. destruct (raw_drop_ok T m s Hh Hs) as (m' & H1 & H2 & H3 & _). eauto.
Qed.

(** The abstract [css_grow] takes the same capacities and keeps the same cells. *)
Lemma css_grow_cells (s : css) i :
  (c_len s ≤ length (c_ents s))%nat → (c_len s ≤ length (c_comps s))%nat →
  N.of_nat (c_cap (css_grow s)) = doubled (N.of_nat (c_cap s)) ∧
  c_len (css_grow s) = c_len s ∧ c_sparse (css_grow s) = c_sparse s ∧
  ((i < c_len s)%nat → c_ents (css_grow s) !! i = c_ents s !! i ∧ c_comps (css_grow s) !! i = c_comps s !! i).
Proof.
  intros H1 H2. split_and!; [|done|done|].
  - simpl. unfold css_new_cap, doubled. destruct (c_cap s) as [|n]; [done|]. rewrite (proj2 (N.eqb_neq _ _)) by lia. lia.
  - intros Hi. simpl. rewrite !lookup_app_l by (rewrite take_length; lia). by rewrite !lookup_take.
Qed.

Lemma inside_within m p n a L : (a, L) ∈ m_blocks m → within p n a L → inside m p n = true.
Proof.
  intros Hin [H1 H2]. unfold inside. apply orb_true_iff. right. apply existsb_exists. exists (a, L).
  split; [by apply elem_of_list_In|]. simpl. apply andb_true_iff. split; by apply N.leb_le.
Qed.

Lemma write_cell_ok m p n a L bs : (a, L) ∈ m_blocks m → within p n a L →
  ∃ m', write_cell m p n bs = Ok m' ∧ (∀ k, k < n → m_bytes m' (p + k) = bs k) ∧
    ∀ q l, apart p n q l → ∀ k, k < l → m_bytes m' (q + k) = m_bytes m (q + k).
Proof.
  intros Hin Hw. unfold write_cell. rewrite (inside_within _ _ _ _ _ Hin Hw). eexists. split_and!; [done|..]; simpl.
  - intros k Hk. rewrite (proj2 (N.leb_le _ _)), (proj2 (N.ltb_lt _ _)) by lia. simpl. f_equal. lia.
  - intros q l Ha k Hk. destruct (N.leb_spec p (q + k)), (N.ltb_spec (q + k) (p + n)); simpl; try done.
    exfalso. destruct Ha as [?|[?|[?|?]]]; lia.
Qed.

Lemma apart_sym p n q k : apart p n q k → apart q k p n.
Proof. intros [?|[?|[?|?]]]; unfold apart; auto. Qed.

Lemma run_write T m s i bs : type_ok T → storage_run T m s → i < r_cap s →
  (∃ m', write_cell m (ent_addr s i) 8 bs = Ok m' ∧ storage_run T m' s ∧
     (∀ k, k < 8 → m_bytes m' (ent_addr s i + k) = bs k) ∧ other_cells T m m' s (inl i)) ∧
  (∃ m', write_cell m (comp_addr T s i) (l_size T) bs = Ok m' ∧ storage_run T m' s ∧
     (∀ k, k < l_size T → m_bytes m' (comp_addr T s i + k) = bs k) ∧ other_cells T m m' s (inr i)).
Proof.
  intros HT Hr Hi. destruct (run_placed T m s HT Hr ltac:(lia)) as (L & _ & Hin & Hp & _).
  destruct (Hp i Hi) as ((He & _) & (Hc & _) & Hij). split.
  - destruct (write_cell_ok m _ _ _ _ bs Hin He) as (m' & Hw & Hk & Ho). exists m'. split_and!; [done|by eapply run_write_ent|done|].
    intros j Hj. destruct (Hij j Hj) as [H1 H2]. split.
    + intros Hne. apply Ho. apply H2. intros ->. by apply Hne.
    + intros _. by apply Ho.
  - destruct (write_cell_ok m _ _ _ _ bs Hin Hc) as (m' & Hw & Hk & Ho). exists m'. split_and!; [done|by eapply run_write_comp|done|].
    intros j Hj. destruct (Hij j Hj) as [H1 H2]. split.
    + intros _. apply Ho. destruct (Hp j Hj) as (_ & _ & Hji). apply apart_sym, Hji. done.
    + intros Hne. apply Ho. apply H2. intros ->. by apply Hne.
Qed.
