(** The order of the entities of a view. *)
From Verif Require Import Base LayoutM EntityM WorldM StepM Spec SpecListing.

Definition owns (t : tid) (s : sstate) (e : entity) : Prop := is_Some (s_row s e !! t).
Global Instance owns_dec t s e : Decision (owns t s e).
Proof. unfold owns. apply _. Defined.

(** What a call makes of the list of the owners of [t]; [s'] is the client's view after it.
    New owners come last, the last one takes the place of one that is lost, and
    nothing else moves. *)
Definition order_step (t : tid) (s' : sstate) (o : op) (out : outcome) (l : list entity) : list entity :=
  match o with
  | OCreate _ | OExtend _ _ _ => l ++ filter (owns t s') (reported out)
  | OInsert e _ => if decide (owns t s' e ∧ e ∉ l) then l ++ [e] else l
  | ORemove e _ | ODelete e _ | ODestroy e => if decide (owns t s' e) then l else fill_hole e l
  | OClear | OReset => []
  | _ => l
  end.

(** Calls that never change the order, also of grouped types. *)
Definition keeps_order (o : op) : Prop :=
  match o with
  | OCreateAtomic | OMaintain | ORegister _ | OSet _ _ _ | OForEach _ _ _ _ => True
  | _ => False
  end.
Global Instance keeps_order_dec o : Decision (keeps_order o).
Proof. destruct o; simpl; apply _. Defined.

Definition is_layout (o : op) : Prop := match o with OSetLayout _ _ => True | _ => False end.
Global Instance is_layout_dec o : Decision (is_layout o).
Proof. destruct o; simpl; apply _. Defined.

(** The owners of [t] after a history from the view [s0] of a new world. *)
Definition order_run (t : tid) (s0 : sstate) (evs : list event) : sstate * list entity :=
  foldl (λ sl ev, let s' := client_step sl.1 ev.1.1 ev.1.2 in (s', order_step t s' ev.1.1 ev.1.2 sl.2)) (s0, []) evs.

(** [t] is in no group after the history. *)
Definition never_grouped (t : tid) (s0 : sstate) (evs : list event) : Prop :=
  t ∉ s_grouped s0 ∧ ∀ l p out dr, (OSetLayout l p, out, dr) ∈ evs → t ∉ layout_tids l.

(** The call concerns no entity that has or gets a component [t]. *)
Definition apart (t : tid) (s : sstate) (o : op) : Prop :=
  match o with
  | OCreate cs => t ∉ cs.*1
  | OExtend ts _ _ => t ∉ ts
  | OInsert e cs => t ∉ cs.*1 ∧ ¬ owns t s e
  | ORemove e _ | ODelete e _ | ODestroy e => ¬ owns t s e
  | _ => False
  end.
Global Instance apart_dec t s o : Decision (apart t s o).
Proof. destruct o; simpl; apply _. Defined.
