(** Run-time borrow checking: views and queries that share a world. *)
From Verif Require Import Base SparseVecM EntityM CssM LayoutM StorageM WorldM QueryM.

(** src/component/component_storage.rs:22:
    The state of an [AtomicRefCell] (crate atomic_refcell, modelled by its documented
    contract: [borrow] panics if the cell is mutably borrowed, [borrow_mut] if it is
    borrowed at all; dropping the guard ends the borrow). *)
Inductive rcell := Reading (n : nat) | Writing.

(** src/component/component_storage.rs:171, 189, 207, 227 ([borrow], [borrow_mut] of the cell). *)
Definition cell_borrow (excl : bool) (c : rcell) : option rcell :=
  match c, excl with
  | Reading n, false => Some (Reading (S n))
  | Reading 0, true => Some Writing
  | _, _ => None
  end.
(** src/component/view.rs:11-14, 29-32: dropping the guard of a view. *)
Definition cell_release (c : rcell) : rcell :=
  match c with
  | Reading (S n) => Reading n
  | Writing => Reading 0
  | c => c
  end.

(** The cells of [ComponentStorage::components] (src/component/component_storage.rs:18-23)
    and the guards alive: who holds them (a [View], [ViewMut], [QueryOne] or [QueryAll]),
    the storage and whether it is an [AtomicRefMut] (src/component/view.rs:9-46). *)
Record bstate := BState { b_cells : list rcell; b_guards : list (nat * (nat * bool)) }.

(** src/component/component_storage.rs:84, 102, 127 ([AtomicRefCell::new]). *)
Definition b_init (w : world) : bstate := BState (replicate (length (cs_comps (w_comps w))) (Reading 0)) [].

(** src/component/view.rs:11-14, 29-32, src/query/query_all.rs:13-26, src/query/query_one.rs:7-17 (the fields):
    Dropping everything that [id] holds. *)
Definition b_release (st : bstate) (id : nat) : bstate :=
  BState (foldr (λ g cells, if decide (g.1 = id) then alter cell_release g.2.1 cells else cells)
                (b_cells st) (b_guards st))
         (filter (λ g, g.1 ≠ id) (b_guards st)).

(** [id] borrows one more part: src/component/component_storage.rs:158-232 for the
    component parts, src/query/query_part.rs:102 and 107 for [Entity]. A panic unwinds through
    the construction of the view or query, which drops all it holds: the views of a
    tuple borrowed so far (src/query/mod.rs:293-298), and [self] in [include] and
    [exclude] (src/query/query_all.rs:53-92, src/query/query_one.rs:39-68). *)
Definition b_add (w : world) (st : bstate) (id : nat) (p : part) : res unit * bstate :=
  match part_tid p with
  | None => (Ok tt, st)
  | Some t =>
      match cs_meta (w_comps w) !! t with
      | None => (Panic, b_release st id)
      | Some m =>
          match b_cells st !! m_index m with
          | None => (UB, st)
          | Some c =>
              match cell_borrow (part_mut p) c with
              | Some c' =>
                  (Ok tt, BState (<[m_index m := c']> (b_cells st)) ((id, (m_index m, part_mut p)) :: b_guards st))
              | None => (Panic, b_release st id)
              end
          end
      end
  end.

(** src/world/mod.rs:184-196, 263-278:
    What holders do, in any order: [BAdd] is [World::borrow]/[borrow_mut] or one part of
    a query; [BDrop] drops the view or query. *)
Inductive baction := BAdd (id : nat) (p : part) | BDrop (id : nat).

(** src/world/mod.rs:184-196, 263-278. *)
Definition b_act (w : world) (st : bstate) (a : baction) : res unit * bstate :=
  match a with
  | BAdd id p => b_add w st id p
  | BDrop id => (Ok tt, b_release st id)
  end.

(** Not /repo code:
    A session: actions with their outcomes. *)
Inductive session (w : world) : list (baction * res unit) → bstate → Prop :=
| session_nil : session w [] (b_init w)
| session_snoc tr st a r st' :
    session w tr st → b_act w st a = (r, st') → session w (tr ++ [(a, r)]) st'.

(** src/query/query_all.rs:32-92, src/query/query_one.rs:23-68:
    Building a whole query without interruption: the parts of [get], [include] and
    [exclude] in the order in which they are written. *)
Fixpoint b_build (w : world) (st : bstate) (id : nat) (q : query) : res unit * bstate :=
  match q with
  | [] => (Ok tt, st)
  | p :: q => match b_add w st id p with
              | (Ok _, st') => b_build w st' id q
              | r => r
              end
  end.
