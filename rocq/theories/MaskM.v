(** Model of src/component/group_mask.rs and storage_mask.rs. *)
From Verif Require Import Base.

(** src/component/group_layout.rs:6-14. *)
Definition min_group_arity : nat := 2.
Definition max_group_arity : nat := 16.
Definition max_group_count : nat := 64.

(** src/component/group_mask.rs:18, 28:
    ((1 << (to - from)) - 1) << from *)
Definition bits_from_to (from to : nat) : N :=
  N.shiftl (N.shiftl 1 (N.of_nat (to - from)) - 1) (N.of_nat from).

(** src/component/group_mask.rs:11-19 [GroupMask::from_to] on u64; [None] when
    one of the assertions fails. *)
Definition gm_from_to (from to : nat) : option N :=
  if (from <? max_group_count) && (to <? max_group_count) && (from <=? to)
  then Some (bits_from_to from to mod u64_lim)%N else None.

(** src/component/group_mask.rs:21-29 [GroupMask::skip_from_to]. *)
Definition gm_skip_from_to (from to : nat) : option N :=
  if (from <? max_group_count) && (to <? max_group_count) && (from <=? to)
  then Some (N.lxor (u64_lim - 1) (bits_from_to from to mod u64_lim))%N else None.

(** src/component/group_mask.rs:53-67 [BitOr], [BitOrAssign]. *)
Definition gm_or (a b : N) : N := N.lor a b.

(** src/component/group_mask.rs:115:
    [u64::trailing_zeros] of a non-zero value. *)
Fixpoint pos_tz (p : positive) : nat :=
  match p with xO p => S (pos_tz p) | _ => 0 end.

(** src/component/group_mask.rs:106-119 [BitIndexIter::next]: the lowest set bit
    and the mask without it ([x & !(1 << i)] is [ldiff]). *)
Definition bit_next (m : N) : option (nat * N) :=
  match m with
  | 0%N => None
  | Npos p => let tz := pos_tz p in Some (tz, N.ldiff m (N.shiftl 1 (N.of_nat tz)))
  end.

(** src/component/group_mask.rs:121-132 [BitIndexIter::next_back]: the highest
    set bit ([63 - leading_zeros] is [log2]). *)
Definition bit_next_back (m : N) : option (nat * N) :=
  match m with
  | 0%N => None
  | Npos p => let i := N.log2 m in Some (N.to_nat i, N.ldiff m (N.shiftl 1 i))
  end.

(** src/component/storage_mask.rs:10-18 [StorageMask::from_to] on u16. *)
Definition sm_from_to (from to : nat) : option N :=
  if (from <? max_group_arity) && (to <? max_group_arity) && (from <=? to)
  then Some (bits_from_to from to mod u16_lim)%N else None.

(** src/component/storage_mask.rs:32-37 [NonZeroStorageMask::single]. *)
Definition sm_single (i : nat) : option N :=
  if i <? max_group_arity then Some (N.shiftl 1 (N.of_nat i)) else None.

(** src/component/group_mask.rs:75-80 [QueryMask]. *)
Record query_mask := QMask { qm_include : N; qm_exclude : N }.

Global Instance query_mask_eq_dec : EqDecision query_mask.
Proof. solve_decision. Defined.

(** src/component/group_mask.rs:83-90 [QueryMask::include]. *)
Definition qm_of_include (arity : nat) : option query_mask :=
  m ← sm_from_to 0 arity; Some (QMask m 0).

(** src/component/group_mask.rs:92-99 [QueryMask::exclude]. *)
Definition qm_of_exclude (prev_arity arity : nat) : option query_mask :=
  i ← sm_from_to 0 prev_arity; x ← sm_from_to prev_arity arity; Some (QMask i x).
