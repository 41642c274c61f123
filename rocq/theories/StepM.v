(** The API of the world as a transition function: every mutating call of
    src/world/mod.rs. *)
From Verif Require Import Base SparseVecM EntityM CssM MaskM LayoutM GroupM StorageM WorldM QueryM.

(** src/world/mod.rs:43, 63, 86, 102, 115, 130, 137, 146, 164, 174, 209, 248, 256, 272: the calls. *)
Inductive op :=
| OCreate (cs : list (tid * val))                       (* world.create((..)) *)
| OExtend (ts : list tid) (rows : list (list val)) (ends_in_panic : bool)
| ODestroy (e : entity)
| OCreateAtomic
| OMaintain
| OInsert (e : entity) (cs : list (tid * val))
| ORemove (e : entity) (ts : list tid)
| ODelete (e : entity) (ts : list tid)
| OClear
| OReset
| ORegister (t : tid)
| OSetLayout (l : layout) (perm : list tid)             (* perm: hash order oracle *)
| OSet (t : tid) (e : entity) (v : val)                 (* borrow_mut().get_mut() = v *)
| OForEach (G J X : query) (f : writer).

(** src/query/query_all.rs:137-142, src/world/mod.rs:209-214. *)
Definition world_for_each (w : world) (G J X : query) (f : writer) : result :=
  match query_for_each w G J X f with
  | Ok (s, vis, old, new) => (Ret (RWrote vis new), old, World (w_ents w) s)
  | Panic => (Panicked [], [], w)
  | UB => (UndefBeh [], [], w)
  end.

(** src/world/mod.rs:43-276: dispatch to the modelled methods. *)
Definition step (w : world) (o : op) : result :=
  match o with
  | OCreate cs => world_create w cs
  | OExtend ts rows p => set_extend w ts rows p
  | ODestroy e => world_destroy w e
  | OCreateAtomic => world_create_atomic w
  | OMaintain => world_maintain w
  | OInsert e cs => world_insert w e cs
  | ORemove e ts => set_remove w e ts
  | ODelete e ts => set_delete w e ts
  | OClear => world_clear w
  | OReset => world_reset w
  | ORegister t => world_register w t
  | OSetLayout l perm => world_set_layout w l perm
  | OSet t e v => world_set w t e v
  | OForEach G J X f => world_for_each w G J X f
  end.

(** src/component/component_set.rs:78-80 ([Item = Self]):
    A tuple passed to [extend] has one value per type. *)
Definition op_wf (o : op) : Prop :=
  match o with
  | OExtend ts rows _ => Forall (λ r, length r = length ts) rows
  | _ => True
  end.

(** Not /repo code:
    Running a list of operations, collecting the outcomes. *)
Fixpoint run (w : world) (ops : list op) : list outcome * world :=
  match ops with
  | [] => ([], w)
  | o :: ops => let '(out, _, w') := step w o in
                let '(outs, w'') := run w' ops in (out :: outs, w'')
  end.
