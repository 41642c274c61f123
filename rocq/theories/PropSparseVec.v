(** C42 *)
From Verif Require Import Base SparseVecM SparseVecSpec SparseVecProofs.

(** Every sequence of [SparseVec] calls that respects the contracts of the unsafe
    functions returns what a map from index to versioned dense index returns; in
    particular it never performs an invalid access. *)
Theorem C42_sparse_vec_is_a_versioned_map : ∀ os : list sv_op,
  sv_contract_run (SvSpec ∅ ∅) os → sv_run sv_new os = sv_spec_run (SvSpec ∅ ∅) os.
Proof. exact sv_refines. Qed.
Print Assumptions C42_sparse_vec_is_a_versioned_map.

Example C42_nonvacuous :
  let os := [SWriteAt 5 (Some (Slot 7 2)); SSlotAt 9; SSwap 5 9; SGet (Ent 9 2); SGet (Ent 9 1);
             SGetSparseUnchecked 9; SRemove (Ent 9 1); SRemove (Ent 9 2); SContains (Ent 9 2);
             SWriteUnchecked 9 (Some (Slot 1 1)); SRemoveSparse 9; SClear; SContainsSparse 9] in
  sv_contract_run (SvSpec ∅ ∅) os ∧
  sv_run sv_new os = [VUnit; VSlot None; VUnit; VIndex (Some 7%N); VIndex None; VPos 7; VIndex None;
                      VIndex (Some 7%N); VBool false; VUnit; VSlot (Some (Slot 1 1)); VUnit; VBool false].
Proof. split; [|by vm_compute]. apply (bool_decide_unpack _). by vm_compute. Qed.
