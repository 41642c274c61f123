(** The memory of the storages, as seen through [len()] of the views. *)
From Verif Require Import Base SparseVecM CssM StorageM WorldM StepM Spec.

(** Cells of the allocation of [t]'s storage, and entries of its table from
    indexes to positions (src/component/component_sparse_set.rs:7-14); 0 when [t]
    is not registered. No method of the API shows them. *)
Definition storage (w : world) (t : tid) : option css :=
  match cs_borrow (w_comps w) t with Ok (c, _) => Some c | _ => None end.
Definition reserved (w : world) (t : tid) : nat := from_option c_cap 0 (storage w t).
Definition entries (w : world) (t : tid) : nat := from_option (λ c, length (c_sparse c)) 0 (storage w t).

(** [world.borrow::<T>().len()]; 0 when [t] is not registered. *)
Definition count (w : world) (t : tid) : nat := match view_len w t with Ok n => n | _ => 0 end.

(** A [set_layout] that panicked. *)
Definition failed_layout (o : op) (out : outcome) : Prop :=
  match o, out with OSetLayout _ _, Panicked _ => True | _, _ => False end.

Definition no_failed_layout (o : op) (out : outcome) : Prop := ¬ failed_layout o out.

(** The worlds in the life of one world, the newest first; [side] is asked of every
    call. *)
Inductive life (side : op → outcome → Prop) : list world → Prop :=
| life_built w s : built w s → life side [w]
| life_step w ws o out dr w' :
    life side (w :: ws) → op_ok o → step w o = (out, dr, w') → ub_free out → side o out →
    life side (w' :: w :: ws).

(** The largest number of components of type [t] there ever was at once. *)
Definition peak (ws : list world) (t : tid) : nat := max_list ((λ w, count w t) <$> ws).

(** The least of 0, 4, 8, 16, 32, ... that is at least [n]. *)
Definition fit (n : nat) : nat := if n =? 0 then 0 else 4 `max` 2 ^ Nat.log2_up n.

(** The number of calls after which the components of [t] are in another
    allocation than before. *)
Fixpoint moves (ws : list world) (t : tid) : nat :=
  match ws with
  | w' :: ((w :: _) as ws) => (if reserved w t =? reserved w' t then 0 else 1) + moves ws t
  | _ => 0
  end.

(** One more than the largest index of the handles [es]. *)
Definition span (es : list entity) : nat := max_list ((λ e, S (e_sparse e)) <$> es).
