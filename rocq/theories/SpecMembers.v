(** Which entities a query that is answered from a group yields. *)
From Verif Require Import Base LayoutM WorldM QueryM StepM Spec SpecMore SpecLayout SpecGroups SpecQuery SpecDense.

(** The live entities with all types of [g]. *)
Definition complete (s : sstate) (g : list tid) : gset entity :=
  list_to_set (map fst (filter (λ p : entity * row, Forall (λ t, is_Some (p.2 !! t)) g) (map_to_list (s_map s)))).

Definition meets_dec (g h : list tid) : bool := existsb (λ t, bool_decide (t ∈ h)) g.
Definition inside_dec (g h : list tid) : bool := forallb (λ t, bool_decide (t ∈ h)) g.
(** One of the groups [L] contains [g] and one of the types [ts]. *)
Definition concerns (L : list (list tid)) (ts g : list tid) : bool :=
  existsb (λ k, inside_dec g k && meets_dec k ts) L.

(** The entities filed under each group. *)
Definition files := list tid → gset entity.

(** An insertion of the types [ts] to the entities [es] that returned: [es] are filed
    anew under the groups that [ts] concern. *)
Definition refile (L : list (list tid)) (ts : list tid) (es : gset entity) (s' : sstate) (F : files) : files :=
  λ g, if concerns L ts g then (F g ∖ es) ∪ (complete s' g ∩ es) else F g.

(** What a call does to the files; [s'] is the client's view after it. A call that
    panics changes nothing. *)
Definition files_step (L : list (list tid)) (s' : sstate) (o : op) (out : outcome) (F : files) : files :=
  match o, out with
  | OCreate cs, Ret (REnt e) => refile L cs.*1 {[e]} s' F
  | OExtend ts _ _, Ret (REnts es) => refile L ts (list_to_set es) s' F
  | OInsert e cs, Ret (RBool true) => refile L cs.*1 {[e]} s' F
  | ORemove e ts, Ret _ | ODelete e ts, Ret _ => λ g, if meets_dec g ts then F g ∖ {[e]} else F g
  | ODestroy e, Ret _ => λ g, F g ∖ {[e]}
  | OClear, Ret _ | OReset, Ret _ => λ _, ∅
  | OSetLayout _ _, Ret _ => complete s'
  | _, _ => F
  end.

(** The client's view, the layout and the files after some calls. *)
Definition files_run (x : sstate * layout * files) (evs : list event) : sstate * layout * files :=
  foldl (λ x ev, let '(s, l, F) := x in
           let '(o, out, _) := ev in
           let s' := client_step s o out in
           (s', match o with OSetLayout l' _ => l' | _ => l end, files_step (layout_groups l) s' o out F)) x evs.

(** Those of a world built with the layout [l] and the types [ts]. *)
Definition files_after (l : layout) (ts : list tid) (evs : list event) : files :=
  (files_run (s_init l ts, l, λ _, ∅) evs).2.

(** A sound history of a world built with [l] and [ts]. *)
Definition good_history_of (l : layout) (ts : list tid) (evs : list event) (w : world) (s : sstate) : Prop :=
  ∃ gs w0, add_groups [] gs = Some l ∧ builder_build l ts = Some w0 ∧ history good_side w0 (s_init l ts) evs w s.

(** The entities that a query yields, where a group answers it and where none does.
    [L] are the groups of the layout in force, [F] the files. *)
Definition yields (L : list (list tid)) (s : sstate) (F : files) (G J X : query) (es : list entity) : Prop :=
  (** one type: its owners *)
  (∀ t, required (G ++ J) = [t] → required X = [] → ∀ e, e ∈ es ↔ is_Some (s_row s e !! t)) ∧
  (** the types of a group: those filed under it *)
  (∀ g, g ∈ L → same_types (required (G ++ J)) g → length (required (G ++ J)) ≠ 1 → required X = [] →
     ∀ e, e ∈ es ↔ e ∈ F g) ∧
  (** a group without what the next larger one adds: those filed under the first only *)
  (∀ g h, next_group L g h → same_types (required (G ++ J)) g → (∀ t, t ∈ required X ↔ t ∈ h ∧ t ∉ g) →
     ∀ e, e ∈ es ↔ e ∈ F g ∧ e ∉ F h) ∧
  (** any other: those that match *)
  (¬ dense_by L (required (G ++ J)) (required X) → plain G J X →
     ∀ e, e ∈ es ↔ s_alive s e ∧ matches (s_row s e) G J X).
