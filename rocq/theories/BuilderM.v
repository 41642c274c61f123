(** Model of [WorldBuilder]. *)
From Verif Require Import Base LayoutM StorageM WorldM StepM.

(** src/world/builder.rs:8-11. *)
Record builder := Builder { b_layout : layout; b_types : list tid }.

(** src/world/builder.rs:16, 22, 31, 37, 46:
    The calls on a builder. [set_layout] takes the layout with the groups [gs]; a
    [GroupLayout] can only be made by adding groups to the default one. *)
Inductive bcall :=
| BSetLayout (gs : list (list tid))
| BAddGroup (g : list tid)
| BRegister (t : tid).

(** src/world/builder.rs:14-50; [None] if the call, or building its argument, panics. *)
Definition bcall_run (b : builder) (c : bcall) : option builder :=
  match c with
  | BSetLayout gs => option_map (λ l, Builder l (b_types b)) (add_groups [] gs)
  | BAddGroup g => match add_group_dyn (b_layout b) g with
                   | (false, l) => Some (Builder l (b_types b))
                   | (true, _) => None
                   end
  | BRegister t => Some (Builder (b_layout b) (b_types b ++ [t]))
  end.

(** src/world/builder.rs:16-50 (calls chained on [&mut Self]). *)
Fixpoint bcalls_run (b : builder) (cs : list bcall) : option builder :=
  match cs with
  | [] => Some b
  | c :: cs => match bcall_run b c with Some b => bcalls_run b cs | None => None end
  end.

(** src/world/builder.rs:7 (derived [Default]). *)
Definition builder_default : builder := Builder [] [].

(** src/world/builder.rs:55-63. *)
Definition build (b : builder) : option world := builder_build (b_layout b) (b_types b).
