(** Base types of the model: machine integers, results, entities. *)
From Coq Require Export NArith Lia.
From stdpp Require Export prelude countable gmap.
From stdpp Require Export list.

Global Set Default Proof Using "Type".

(** Not /repo code; the result type of all modelled functions.
    Outcome of a computation of the modelled code.
    [Panic]: the Rust code panics.  [UB]: the Rust code performs an access that
    violates the safety contract of an unchecked operation (out of bounds,
    uninitialised or moved-out memory). *)
Inductive res (A : Type) : Type :=
| Ok (a : A)
| Panic
| UB.
Global Arguments Ok {_} _.
Global Arguments Panic {_}.
Global Arguments UB {_}.

Global Instance res_ret : MRet res := λ A a, Ok a.
Global Instance res_bind : MBind res := λ A B f m,
  match m with Ok a => f a | Panic => Panic | UB => UB end.

(** src/component/storage_mask.rs:5 (u16), src/entity/mod.rs:22-28 (u32), src/component/group_mask.rs:6 (u64):
    2^16, 2^32 and 2^64 as binary numbers. *)
Definition u16_lim : N := 65536.
Definition u32_lim : N := 4294967296.
Definition u64_lim : N := 18446744073709551616.

(** src/entity/entity_allocator.rs:65, 104, src/component/component_sparse_set.rs:48, src/entity/entity_sparse_set.rs:24:
    [x as u32] for a usize or u64 value. *)
Definition as_u32 (n : N) : N := (n mod u32_lim)%N.

(** src/entity/mod.rs:18-28 [Entity]: a u32 index and a NonZeroU32 version. *)
Record entity := Ent { e_index : N; e_version : N }.

Global Instance entity_eq_dec : EqDecision entity.
Proof. solve_decision. Defined.

Global Instance entity_countable : Countable entity.
Proof.
  refine (inj_countable' (λ e, (e_index e, e_version e)) (λ p, Ent p.1 p.2) _).
  by intros [].
Defined.

(** src/entity/mod.rs:86-91 [Version::FIRST], [Version::LAST]. *)
Definition version_first : N := 1.
Definition version_last : N := (u32_lim - 1)%N.

(** src/entity/mod.rs:93-101 [Version::next]: checked_add on NonZeroU32. *)
Definition version_next (v : N) : option N :=
  if (v + 1 <? u32_lim)%N then Some (v + 1)%N else None.

(** src/entity/mod.rs:42-47 [Entity::with_index]. *)
Definition with_index (i : N) : entity := Ent i version_first.

(** src/entity/mod.rs:49-54 [Entity::sparse]: the index as usize. *)
Definition e_sparse (e : entity) : nat := N.to_nat (e_index e).

(** src/entity/mod.rs:64-71 [impl Ord for Entity]: version, then index. *)
Definition entity_cmp (a b : entity) : comparison :=
  match (e_version a ?= e_version b)%N with
  | Eq => (e_index a ?= e_index b)%N
  | c => c
  end.

(** src/entity/mod.rs:22-28, 84:
    Values a Rust [Entity] can hold: u32 index and non-zero u32 version. *)
Definition entity_valid (e : entity) : Prop :=
  (e_index e < u32_lim)%N ∧ (1 ≤ e_version e)%N ∧ (e_version e < u32_lim)%N.

(** Component values are opaque tokens: the crate never inspects a component.
    TypeIds are numbers (src/component/component_data.rs: [ComponentData]
    compares, orders and hashes by type id only, 44-76). *)
Definition val := N.
Definition tid := N.
