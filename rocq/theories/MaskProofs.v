(** Bit level facts about group and storage masks. *)
From Coq Require Import Ndigits.
From Verif Require Import Base MaskM.

Definition bit (m : N) (j : nat) : bool := N.testbit m (N.of_nat j).

Lemma pos_tz_spec p :
  N.testbit_nat (Npos p) (pos_tz p) = true ∧ ∀ j, j < pos_tz p → N.testbit_nat (Npos p) j = false.
Proof.
  induction p as [p IH|p IH|]; simpl; split; try done; try lia.
  - apply IH.
  - intros [|j] Hj; simpl; [done|]. apply IH. lia.
Qed.

Lemma testbit_single k j : N.testbit (N.shiftl 1 k) j = (j =? k)%N.
Proof. rewrite N.shiftl_1_l, N.pow2_bits_eqb. apply N.eqb_sym. Qed.

Lemma of_nat_eqb j k : (N.of_nat j =? N.of_nat k)%N = (j =? k).
Proof. destruct (N.eqb_spec (N.of_nat j) (N.of_nat k)), (Nat.eqb_spec j k); try done; lia. Qed.

Lemma bit_single k j : bit (N.shiftl 1 (N.of_nat k)) j = (j =? k).
Proof. unfold bit. by rewrite testbit_single, of_nat_eqb. Qed.

Lemma bit_ldiff_single m k j :
  bit (N.ldiff m (N.shiftl 1 (N.of_nat k))) j = bit m j && negb (j =? k).
Proof. unfold bit. by rewrite N.ldiff_spec, testbit_single, of_nat_eqb. Qed.

Lemma bit_0 j : bit 0 j = false.
Proof. apply N.bits_0. Qed.

Lemma bit_land a b j : bit (N.land a b) j = bit a j && bit b j.
Proof. apply N.land_spec. Qed.

Lemma bit_lor a b j : bit (N.lor a b) j = bit a j || bit b j.
Proof. apply N.lor_spec. Qed.

Lemma bit_next_None m : bit_next m = None → ∀ j, bit m j = false.
Proof. destruct m; [|done]. intros _ j. apply N.bits_0. Qed.

Lemma bit_next_Some m k m' :
  bit_next m = Some (k, m') →
  bit m k = true ∧ (∀ j, j < k → bit m j = false) ∧ (∀ j, bit m' j = bit m j && negb (j =? k)).
Proof.
  destruct m as [|p]; [done|]. unfold bit_next. intros [= <- <-].
  destruct (pos_tz_spec p) as [H1 H2]. split_and!.
  - unfold bit. by rewrite Ntestbit_Nbit.
  - intros j Hj. unfold bit. rewrite Ntestbit_Nbit. by apply H2.
  - intros j. exact (bit_ldiff_single (N.pos p) (pos_tz p) j).
Qed.

Lemma bit_next_back_None m : bit_next_back m = None → ∀ j, bit m j = false.
Proof. destruct m; [|done]. intros _ j. apply N.bits_0. Qed.

Lemma bit_next_back_Some m k m' :
  bit_next_back m = Some (k, m') →
  bit m k = true ∧ (∀ j, k < j → bit m j = false) ∧ (∀ j, bit m' j = bit m j && negb (j =? k)).
Proof.
  destruct m as [|p]; [done|]. unfold bit_next_back.
  remember (N.pos p) as m eqn:Em. assert (m ≠ 0%N) by (by subst). clear Em.
  intros [= <- <-].
  assert (Hl : N.of_nat (N.to_nat (N.log2 m)) = N.log2 m) by lia. split_and!.
  - unfold bit. rewrite Hl. by apply N.bit_log2.
  - intros j Hj. unfold bit. apply N.bits_above_log2. lia.
  - intros j. rewrite <-bit_ldiff_single. by rewrite Hl.
Qed.

Lemma bits_from_to_bit from to j : bit (bits_from_to from to) j = (from <=? j) && (j <? to).
Proof.
  unfold bit, bits_from_to. destruct (Nat.leb_spec from j); rewrite ?andb_true_l, ?andb_false_l.
  - rewrite N.shiftl_spec_high' by lia.
    rewrite N.shiftl_1_l, N.sub_1_r, <-N.ones_equiv.
    destruct (Nat.ltb_spec j to).
    + apply N.ones_spec_low. lia.
    + apply N.ones_spec_high. lia.
  - apply N.shiftl_spec_low. lia.
Qed.

Lemma bit_mod_pow2 n a j :
  bit (a mod 2 ^ N.of_nat n)%N j = if j <? n then bit a j else false.
Proof.
  unfold bit. destruct (Nat.ltb_spec j n).
  - apply N.mod_pow2_bits_low. lia.
  - apply N.mod_pow2_bits_high. lia.
Qed.

Lemma gm_from_to_Some from to m :
  gm_from_to from to = Some m →
  from ≤ to ∧ to < 64 ∧ ∀ j, bit m j = (from <=? j) && (j <? to).
Proof.
  unfold gm_from_to, max_group_count. intros H.
  destruct (Nat.ltb_spec from 64); [|done]. destruct (Nat.ltb_spec to 64); [|done].
  destruct (Nat.leb_spec from to); [|done]. cbn [andb] in H. apply (inj Some) in H. subst m. split_and!; [lia..|].
  intros j. replace u64_lim with (2 ^ N.of_nat 64)%N by reflexivity. rewrite bit_mod_pow2, bits_from_to_bit.
  destruct (Nat.ltb_spec j 64); [done|]. destruct (Nat.ltb_spec j to); [lia|]. by rewrite andb_false_r.
Qed.

Lemma gm_from_to_ok from to :
  from ≤ to → to < 64 → ∃ m, gm_from_to from to = Some m.
Proof.
  intros. unfold gm_from_to, max_group_count.
  destruct (Nat.ltb_spec from 64); [|lia]. destruct (Nat.ltb_spec to 64); [|lia].
  destruct (Nat.leb_spec from to); [|lia]. cbn [andb]. eexists. reflexivity.
Qed.

Lemma gm_skip_from_to_Some from to m :
  gm_skip_from_to from to = Some m →
  from ≤ to ∧ to < 64 ∧ ∀ j, j < 64 → bit m j = negb ((from <=? j) && (j <? to)).
Proof.
  unfold gm_skip_from_to, max_group_count. intros H.
  destruct (Nat.ltb_spec from 64); [|done]. destruct (Nat.ltb_spec to 64); [|done].
  destruct (Nat.leb_spec from to); [|done]. cbn [andb] in H. apply (inj Some) in H. subst m. split_and!; [lia..|].
  intros j Hj. unfold bit. rewrite N.lxor_spec. fold (bit (bits_from_to from to mod u64_lim) j).
  replace u64_lim with (2 ^ N.of_nat 64)%N by reflexivity. rewrite bit_mod_pow2, bits_from_to_bit.
  destruct (Nat.ltb_spec j 64); [|lia].
  replace (2 ^ N.of_nat 64 - 1)%N with (N.ones 64) by reflexivity.
  rewrite N.ones_spec_low by lia. by rewrite xorb_true_l.
Qed.

Lemma gm_skip_from_to_ok from to :
  from ≤ to → to < 64 → ∃ m, gm_skip_from_to from to = Some m.
Proof.
  intros. unfold gm_skip_from_to, max_group_count.
  destruct (Nat.ltb_spec from 64); [|lia]. destruct (Nat.ltb_spec to 64); [|lia].
  destruct (Nat.leb_spec from to); [|lia]. cbn [andb]. eexists. reflexivity.
Qed.

Lemma sm_from_to_Some from to m :
  sm_from_to from to = Some m →
  from ≤ to ∧ to < 16 ∧ ∀ j, bit m j = (from <=? j) && (j <? to).
Proof.
  unfold sm_from_to, max_group_arity. intros H.
  destruct (Nat.ltb_spec from 16); [|done]. destruct (Nat.ltb_spec to 16); [|done].
  destruct (Nat.leb_spec from to); [|done]. cbn [andb] in H. apply (inj Some) in H. subst m. split_and!; [lia..|].
  intros j. replace u16_lim with (2 ^ N.of_nat 16)%N by reflexivity. rewrite bit_mod_pow2, bits_from_to_bit.
  destruct (Nat.ltb_spec j 16); [done|]. destruct (Nat.ltb_spec j to); [lia|]. by rewrite andb_false_r.
Qed.

Lemma sm_from_to_ok from to : from ≤ to → to < 16 → ∃ m, sm_from_to from to = Some m.
Proof.
  intros. unfold sm_from_to, max_group_arity.
  destruct (Nat.ltb_spec from 16); [|lia]. destruct (Nat.ltb_spec to 16); [|lia].
  destruct (Nat.leb_spec from to); [|lia]. cbn [andb]. eexists. reflexivity.
Qed.

Lemma sm_single_Some i m : sm_single i = Some m → i < 16 ∧ ∀ j, bit m j = (j =? i).
Proof.
  unfold sm_single, max_group_arity. destruct (Nat.ltb_spec i 16); [|done].
  intros [= <-]. split; [done|]. intros j. apply bit_single.
Qed.

Lemma bits_ext a b : (∀ j, bit a j = bit b j) → a = b.
Proof. intros H. apply N.bits_inj. intros n. specialize (H (N.to_nat n)). unfold bit in H. by rewrite N2Nat.id in H. Qed.
