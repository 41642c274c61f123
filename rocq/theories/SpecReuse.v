(** Which handles wait to be given out. *)
From Verif Require Import Base LayoutM WorldM QueryM StepM Spec SpecMore.

(** One call: [reset] forgets the destroyed handles, a successful [destroy] adds the
    handle that replaces the destroyed one (same index, next version), and a handle
    that is given out no longer waits. *)
Definition wait_step (acc : list entity) (o : op) (out : outcome) : list entity :=
  match o with
  | OReset => []
  | ODestroy e =>
      match out with
      | Ret (RBool true) =>
          if (e_version e <? version_last)%N then Ent (e_index e) (e_version e + 1) :: acc else acc
      | _ => acc
      end
  | _ => filter (λ x, x ∉ reported out) acc
  end.

(** The handles that replace destroyed ones and have not been given out, since the
    last [reset]. *)
Definition waiting (evs : list event) : list entity :=
  foldl (λ acc ev, wait_step acc ev.1.1 ev.1.2) [] evs.
