(** Borrows as the client sees them. *)
From Verif Require Import Base WorldM QueryM BorrowM.

(** The borrows alive after a session: holder, type, exclusive. *)
Definition live_after (tr : list (baction * res unit)) : list (nat * (tid * bool)) :=
  foldl (λ live ev,
    match ev with
    | (BAdd id p, Ok _) => match part_tid p with Some t => (id, (t, part_mut p)) :: live | None => live end
    | (BAdd id _, _) | (BDrop id, _) => filter (λ b, b.1 ≠ id) live
    end) [] tr.

(** Two borrows of a type conflict if one of them is exclusive. *)
Definition conflicts (live : list (nat * (tid * bool))) (t : tid) (excl : bool) : Prop :=
  ∃ id m, (id, (t, m)) ∈ live ∧ (m = true ∨ excl = true).

(** A part that cannot be borrowed. *)
Definition refused (w : world) (live : list (nat * (tid * bool))) (p : part) : Prop :=
  ∃ t, part_tid p = Some t ∧ (world_is_registered w t = false ∨ conflicts live t (part_mut p)).

(** Two parts of one query that cannot be borrowed together. *)
Definition clash (q : query) : Prop :=
  ∃ j k pj pk t, j < k ∧ q !! j = Some pj ∧ q !! k = Some pk ∧ part_tid pj = Some t ∧ part_tid pk = Some t ∧
    (part_mut pj = true ∨ part_mut pk = true).

(** The borrows of a query held by [id]. *)
Definition borrows_of (id : nat) (q : query) : list (nat * (tid * bool)) := pair id <$> accesses q.

(** No two borrows of a type of which one is exclusive. *)
Definition exclusive_alone (live : list (nat * (tid * bool))) : Prop :=
  ∀ i j id1 id2 t m1 m2, live !! i = Some (id1, (t, m1)) → live !! j = Some (id2, (t, m2)) → i ≠ j →
    m1 = false ∧ m2 = false.

(** [id] holds nothing. *)
Definition unheld (id : nat) (live : list (nat * (tid * bool))) : Prop := ∀ t m, (id, (t, m)) ∉ live.
