(** Model of src/entity/sparse_vec.rs. *)
From Verif Require Import Base.

(** src/entity/sparse_vec.rs:142-149 [SparseVecSlot]. *)
Record slot := Slot { s_index : N; s_version : N }.

(** src/entity/sparse_vec.rs:154-156 [SparseVecSlot::dense]. *)
Definition s_dense (s : slot) : nat := N.to_nat (s_index s).

(** src/entity/sparse_vec.rs:7-9 [SparseVec]: Vec<Option<SparseVecSlot>>. *)
Notation sparse_vec := (list (option slot)).

(** src/entity/sparse_vec.rs:15-17 [SparseVec::new]. *)
Definition sv_new : sparse_vec := [].

(** src/entity/sparse_vec.rs:22-27 [SparseVec::get]. *)
Definition sv_get (sp : sparse_vec) (e : entity) : option N :=
  match sp !! e_sparse e with
  | Some (Some s) => if (s_version s =? e_version e)%N then Some (s_index s) else None
  | _ => None
  end.

(** src/entity/sparse_vec.rs:32-37 [SparseVec::contains]. *)
Definition sv_contains (sp : sparse_vec) (e : entity) : bool :=
  match sp !! e_sparse e with
  | Some (Some s) => (s_version s =? e_version e)%N
  | _ => false
  end.

(** src/entity/sparse_vec.rs:43-48 [SparseVec::remove] ([take_if]). *)
Definition sv_remove (sp : sparse_vec) (e : entity) : sparse_vec * option N :=
  match sp !! e_sparse e with
  | Some (Some s) =>
      if (s_version s =? e_version e)%N
      then (<[e_sparse e := None]> sp, Some (s_index s))
      else (sp, None)
  | _ => (sp, None)
  end.

(** src/entity/sparse_vec.rs:53-55 [SparseVec::get_sparse]. *)
Definition sv_get_sparse (sp : sparse_vec) (i : nat) : option N :=
  match sp !! i with Some (Some s) => Some (s_index s) | _ => None end.

(** src/entity/sparse_vec.rs:61-63 [SparseVec::get_sparse_unchecked]. *)
Definition sv_get_sparse_unchecked (sp : sparse_vec) (i : nat) : res nat :=
  match sp !! i with Some (Some s) => Ok (s_dense s) | _ => UB end.

(** src/entity/sparse_vec.rs:68-70 [SparseVec::contains_sparse]. *)
Definition sv_contains_sparse (sp : sparse_vec) (i : nat) : bool :=
  match sp !! i with Some (Some _) => true | _ => false end.

(** src/entity/sparse_vec.rs:76-78 [SparseVec::remove_sparse]. *)
Definition sv_remove_sparse (sp : sparse_vec) (i : nat) : sparse_vec * option slot :=
  match sp !! i with
  | Some (Some s) => (<[i := None]> sp, Some s)
  | _ => (sp, None)
  end.

(** src/entity/sparse_vec.rs:118:
    [usize::checked_next_power_of_two], used by [extend_to_index]; never
    overflows on 64-bit targets for indexes below 2^63 (simplification: usize
    is unbounded). [log2_up 0 = 0] so the result for 0 is 1, as in Rust. *)
Definition next_pow2 (i : nat) : nat := 2 ^ Nat.log2_up i.

(** src/entity/sparse_vec.rs:117-121 [SparseVec::extend_to_index]; called only
    when [length sp <= i], so the subtraction does not underflow. *)
Definition sv_extend_to_index (sp : sparse_vec) (i : nat) : sparse_vec :=
  sp ++ replicate (next_pow2 i - length sp + 1) None.

(** src/entity/sparse_vec.rs:89-95 [SparseVec::get_mut_or_allocate_at], the
    growing part. The returned [&mut Option<Slot>] is read with [!!] and
    written with [sv_write]. *)
Definition sv_allocate_at (sp : sparse_vec) (i : nat) : sparse_vec :=
  if length sp <=? i then sv_extend_to_index sp i else sp.

(** src/entity/sparse_vec.rs:83-85 [SparseVec::get_unchecked_mut] followed by a
    write through the reference. *)
Definition sv_write (sp : sparse_vec) (i : nat) (s : option slot) : res sparse_vec :=
  if i <? length sp then Ok (<[i := s]> sp) else UB.

(** src/entity/sparse_vec.rs:100-108 [SparseVec::swap_nonoverlapping]: swaps the
    two *whole* slots, dense index and version; the debug assertions are the
    safety contract. *)
Definition sv_swap (sp : sparse_vec) (a b : nat) : res sparse_vec :=
  if (a =? b) then UB else
  match sp !! a, sp !! b with
  | Some sa, Some sb => Ok (<[a := sb]> (<[b := sa]> sp))
  | _, _ => UB
  end.

(** src/entity/sparse_vec.rs:112-114 [SparseVec::clear]. *)
Definition sv_clear (sp : sparse_vec) : sparse_vec := [].
