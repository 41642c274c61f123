(** The public [SparseVec] as a map from sparse indexes to versioned dense
    indexes. *)
From Verif Require Import Base SparseVecM.

(** Calls of the public API of src/entity/sparse_vec.rs. *)
Inductive sv_op :=
| SGet (e : entity)
| SContains (e : entity)
| SRemove (e : entity)
| SGetSparse (i : nat)
| SContainsSparse (i : nat)
| SRemoveSparse (i : nat)
| SSlotAt (i : nat)                             (* read through get_mut_or_allocate_at *)
| SWriteAt (i : nat) (s : option slot)          (* write through get_mut_or_allocate_at *)
| SGetSparseUnchecked (i : nat)
| SWriteUnchecked (i : nat) (s : option slot)   (* write through get_unchecked_mut *)
| SSwap (a b : nat)
| SClear.

Inductive sv_ret :=
| VUnit | VBool (b : bool) | VIndex (n : option N) | VSlot (s : option slot) | VPos (n : nat) | VUB.

(** The model. *)
Definition sv_step (sp : sparse_vec) (o : sv_op) : sparse_vec * sv_ret :=
  match o with
  | SGet e => (sp, VIndex (sv_get sp e))
  | SContains e => (sp, VBool (sv_contains sp e))
  | SRemove e => let '(sp', r) := sv_remove sp e in (sp', VIndex r)
  | SGetSparse i => (sp, VIndex (sv_get_sparse sp i))
  | SContainsSparse i => (sp, VBool (sv_contains_sparse sp i))
  | SRemoveSparse i => let '(sp', r) := sv_remove_sparse sp i in (sp', VSlot r)
  | SSlotAt i => let sp' := sv_allocate_at sp i in
                 (sp', match sp' !! i with Some s => VSlot s | None => VUB end)
  | SWriteAt i s => match sv_write (sv_allocate_at sp i) i s with
                    | Ok sp' => (sp', VUnit) | _ => (sp, VUB) end
  | SGetSparseUnchecked i => (sp, match sv_get_sparse_unchecked sp i with Ok n => VPos n | _ => VUB end)
  | SWriteUnchecked i s => match sv_write sp i s with Ok sp' => (sp', VUnit) | _ => (sp, VUB) end
  | SSwap a b => match sv_swap sp a b with Ok sp' => (sp', VUnit) | _ => (sp, VUB) end
  | SClear => (sv_clear sp, VUnit)
  end.

Fixpoint sv_run (sp : sparse_vec) (os : list sv_op) : list sv_ret :=
  match os with [] => [] | o :: os => let '(sp', r) := sv_step sp o in r :: sv_run sp' os end.

(** The specification: a map, and the indexes whose slot has been allocated. *)
Record sv_spec := SvSpec { sv_map : gmap nat slot; sv_touched : gset nat }.

(** Safety contract of the unsafe functions. *)
Definition sv_contract (m : sv_spec) (o : sv_op) : Prop :=
  match o with
  | SGetSparseUnchecked i => is_Some (sv_map m !! i)
  | SWriteUnchecked i _ => i ∈ sv_touched m
  | SSwap a b => a ∈ sv_touched m ∧ b ∈ sv_touched m ∧ a ≠ b
  | _ => True
  end.

Definition write_slot (m : gmap nat slot) (i : nat) (s : option slot) : gmap nat slot :=
  partial_alter (λ _, s) i m.

(** The slot of [e]: same index and same version. *)
Definition slot_of (m : gmap nat slot) (e : entity) : option slot :=
  match m !! N.to_nat (e_index e) with
  | Some s => if decide (s_version s = e_version e) then Some s else None
  | None => None
  end.

Definition sv_spec_step (m : sv_spec) (o : sv_op) : sv_spec * sv_ret :=
  let mp := sv_map m in let tc := sv_touched m in
  match o with
  | SGet e => (m, VIndex (s_index <$> slot_of mp e))
  | SContains e => (m, VBool (bool_decide (is_Some (slot_of mp e))))
  | SRemove e => (match slot_of mp e with
                  | Some _ => SvSpec (delete (N.to_nat (e_index e)) mp) tc
                  | None => m
                  end, VIndex (s_index <$> slot_of mp e))
  | SGetSparse i => (m, VIndex (s_index <$> mp !! i))
  | SContainsSparse i => (m, VBool (bool_decide (is_Some (mp !! i))))
  | SRemoveSparse i => (SvSpec (delete i mp) tc, VSlot (mp !! i))
  | SSlotAt i => (SvSpec mp ({[i]} ∪ tc), VSlot (mp !! i))
  | SWriteAt i s => (SvSpec (write_slot mp i s) ({[i]} ∪ tc), VUnit)
  | SGetSparseUnchecked i => (m, match mp !! i with Some s => VPos (N.to_nat (s_index s)) | None => VUnit end)
  | SWriteUnchecked i s => (SvSpec (write_slot mp i s) tc, VUnit)
  | SSwap a b => (SvSpec (write_slot (write_slot mp b (mp !! a)) a (mp !! b)) tc, VUnit)
  | SClear => (SvSpec ∅ ∅, VUnit)
  end.

Fixpoint sv_spec_run (m : sv_spec) (os : list sv_op) : list sv_ret :=
  match os with [] => [] | o :: os => let '(m', r) := sv_spec_step m o in r :: sv_spec_run m' os end.

Fixpoint sv_contract_run (m : sv_spec) (os : list sv_op) : Prop :=
  match os with [] => True | o :: os => sv_contract m o ∧ sv_contract_run (sv_spec_step m o).1 os end.

Global Instance sv_contract_dec m o : Decision (sv_contract m o).
Proof. destruct o; simpl; apply _. Defined.
Global Instance sv_contract_run_dec m os : Decision (sv_contract_run m os).
Proof. revert m. induction os; intros m; simpl; apply _. Defined.
