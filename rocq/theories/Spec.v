(** What a client expects of the world, independently of its implementation: a
    map from live entities to their components, plus the sets of handles the
    client has seen. *)
From Verif Require Import Base LayoutM WorldM QueryM StepM.

Notation row := (gmap tid val).

Record sstate := SState {
  s_map : gmap entity row;      (* the live entities and their components *)
  s_created : gset entity;      (* handles from create/extend since the last maintain, clear or reset *)
  s_queued : gset entity;       (* handles from create_atomic since then *)
  s_issued : gset entity;       (* all handles since the last reset *)
  s_free : gset entity;         (* handles that replace destroyed ones: same index, next version *)
  s_reg : gset tid;             (* registered component types *)
  s_grouped : gset tid;         (* component types that belong to a group *)
  s_loose : gset entity         (* entities whose insertion was cut short by a caught panic *)
}.

Definition s_alive (s : sstate) (e : entity) : Prop := is_Some (s_map s !! e).
Definition s_row (s : sstate) (e : entity) : row := default ∅ (s_map s !! e).

(** All stored values. *)
Definition contents (s : sstate) : list val :=
  map_to_list (s_map s) ≫= (λ er, (map_to_list er.2).*2).

(** A handle the allocator may give out: it replaces a destroyed handle, or when
    there is none, it is the first handle of a new index. *)
Definition new_handle (s : sstate) (e : entity) : Prop :=
  entity_valid e ∧ e ∉ s_issued s ∧
  (e ∈ s_free s ∨
   (s_free s = ∅ ∧ e_version e = version_first ∧ ∀ e', e' ∈ s_issued s → e_index e' ≠ e_index e)).

(** No handle is left. *)
Definition exhausted (s : sstate) : Prop :=
  s_free s = ∅ ∧ ∀ i, (i < u32_lim)%N → ∃ e, e ∈ s_issued s ∧ e_index e = i.

(** The components of a tuple up to the first unregistered type; later values of
    the same type win. *)
Fixpoint put (reg : gset tid) (cs : list (tid * val)) (r : row) : row :=
  match cs with
  | [] => r
  | (t, v) :: cs => if decide (t ∈ reg) then put reg cs (<[t := v]> r) else r
  end.

Definition all_reg (s : sstate) (ts : list tid) : Prop := ∀ t, t ∈ ts → t ∈ s_reg s.
Global Instance all_reg_dec s ts : Decision (all_reg s ts).
Proof.
  refine (cast_if (decide (Forall (λ t, t ∈ s_reg s) ts))); unfold all_reg; by rewrite <-Forall_forall.
Defined.

Definition add_entity (s : sstate) (e : entity) (r : row) : sstate :=
  SState (<[e := r]> (s_map s)) ({[e]} ∪ s_created s) (s_queued s) ({[e]} ∪ s_issued s)
         (s_free s ∖ {[e]}) (s_reg s) (s_grouped s) (s_loose s).

Definition add_queued (s : sstate) (e : entity) : sstate :=
  SState (s_map s) (s_created s) ({[e]} ∪ s_queued s) ({[e]} ∪ s_issued s)
         (s_free s ∖ {[e]}) (s_reg s) (s_grouped s) (s_loose s).

Definition with_map (s : sstate) (m : gmap entity row) : sstate :=
  SState m (s_created s) (s_queued s) (s_issued s) (s_free s) (s_reg s) (s_grouped s) (s_loose s).

Definition with_loose (s : sstate) (l : gset entity) : sstate :=
  SState (s_map s) (s_created s) (s_queued s) (s_issued s) (s_free s) (s_reg s) (s_grouped s) l.

(** The handle that replaces a destroyed one, if its version is not the last. *)
Definition successor (e : entity) : gset entity :=
  if decide (e_version e + 1 < u32_lim)%N then {[Ent (e_index e) (e_version e + 1)]} else ∅.

(** New entities reported by a call. *)
Definition reported (out : outcome) : list entity :=
  match out with
  | Ret (REnt e) => [e]
  | Ret (REnts es) => es
  | Ret _ => []
  | Panicked es => es
  | UndefBeh es => es
  end.

Definition panicked (out : outcome) : bool := match out with Panicked _ => true | _ => false end.

Fixpoint add_rows (s : sstate) (ts : list tid) (es : list entity) (rows : list (list val)) : sstate :=
  match es, rows with
  | e :: es, r :: rows => add_rows (add_entity s e (put (s_reg s) (zip ts r) ∅)) ts es rows
  | _, _ => s
  end.

Definition loosen (s : sstate) (b : bool) (es : list entity) : sstate :=
  if b then with_loose s (list_to_set es ∪ s_loose s) else s.

(** ** Queries *)

(** The types a query requires an entity to have. *)
Definition required (q : query) : list tid :=
  omap (λ p, match p with PRef t | PMut t => Some t | _ => None end) q.

(** What a query part shows of an entity with components [r]. *)
Definition sees_part (e : entity) (r : row) (p : part) : option aitem :=
  match p with
  | PEntity => Some (AEnt e)
  | PRef t | PMut t => AVal t <$> r !! t
  | POptRef t | POptMut t => Some (AOpt t (r !! t))
  end.

Fixpoint sees (e : entity) (r : row) (q : query) : option (list aitem) :=
  match q with
  | [] => Some []
  | p :: q => match sees_part e r p, sees e r q with
              | Some a, Some l => Some (a :: l)
              | _, _ => None
              end
  end.

(** [e] has what [G] and [J] require and nothing of what [X] excludes. *)
Definition has_all (r : row) (q : query) : Prop := ∀ t, t ∈ required q → is_Some (r !! t).
Definition has_none (r : row) (q : query) : Prop := ∀ t, t ∈ required q → r !! t = None.
Definition matches (r : row) (G J X : query) : Prop := has_all r G ∧ has_all r J ∧ has_none r X.

(** The queries whose meaning is not in doubt: at least one component is
    required, and only components are excluded. *)
Definition part_required (p : part) : Prop := match p with PRef _ | PMut _ => True | _ => False end.
Definition plain (G J X : query) : Prop :=
  required (G ++ J) ≠ [] ∧ ∀ p, p ∈ X → part_required p.

(** All types are registered and no type is borrowed twice, once exclusively. *)
Definition query_ok (s : sstate) (G J X : query) : Prop :=
  all_reg s (omap part_tid (G ++ J ++ X)) ∧ no_conflict [] (accesses (G ++ J ++ X)) = true.
Global Instance query_ok_dec s G J X : Decision (query_ok s G J X).
Proof. unfold query_ok. apply _. Defined.

(** The items [its] are those of the entities [es]. *)
Definition answers (s : sstate) (G : query) (es : list entity) (its : list (list item)) : Prop :=
  Forall2 (λ e it, sees e (s_row s e) G = Some (abs_item <$> it)) es its.

(** The exclusions that [exclude] implements also when it is answered from the
    groups: one type, or one that belongs to no group. *)
Definition simple_exclude (s : sstate) (X : query) : Prop :=
  (∀ t t', t ∈ required X → t' ∈ required X → t = t') ∨ ∃ t, t ∈ required X ∧ t ∉ s_grouped s.

(** The assignments of the closure [f] to the components [r] of [e]. *)
Fixpoint assign (f : writer) (seen : list aitem) (k : nat) (q : query) (r : row) : row :=
  match q with
  | [] => r
  | p :: q =>
      assign f seen (S k) q
        (match p, f k seen with
         | PMut t, Some v | POptMut t, Some v => if decide (is_Some (r !! t)) then <[t := v]> r else r
         | _, _ => r
         end)
  end.

Definition visit_row (G : query) (f : writer) (e : entity) (r : row) : row :=
  match sees e r G with Some seen => assign f seen 0 G r | None => r end.

Definition visit_all (G : query) (f : writer) (es : list entity) (m : gmap entity row) : gmap entity row :=
  map_imap (λ e r, Some (if decide (e ∈ es) then visit_row G f e r else r)) m.

(** ** The client's view of a call *)

Fixpoint take_all (r : row) (ts : list tid) : list (option val) :=
  match ts with
  | [] => []
  | t :: ts => r !! t :: take_all (delete t r) ts
  end.

Fixpoint delete_all (r : row) (ts : list tid) : row :=
  match ts with [] => r | t :: ts => delete_all (delete t r) ts end.

Definition client_step (s : sstate) (o : op) (out : outcome) : sstate :=
  match o with
  | OCreate cs =>
      loosen (foldl (λ s e, add_entity s e (put (s_reg s) cs ∅)) s (reported out))
             (panicked out) (reported out)
  | OExtend ts rows _ => loosen (add_rows s ts (reported out) rows) (panicked out) (reported out)
  | ODestroy e =>
      if decide (s_alive s e) then
        SState (delete e (s_map s)) (s_created s) (s_queued s) (s_issued s)
               (successor e ∪ s_free s) (s_reg s) (s_grouped s) (s_loose s ∖ {[e]})
      else s
  | OCreateAtomic => foldl add_queued s (reported out)
  | OMaintain =>
      SState (s_map s ∪ gset_to_gmap ∅ (s_queued s)) ∅ ∅ (s_issued s) (s_free s) (s_reg s)
             (s_grouped s) (s_loose s)
  | OInsert e cs =>
      if decide (s_alive s e)
      then loosen (with_map s (<[e := put (s_reg s) cs (s_row s e)]> (s_map s))) (panicked out) [e]
      else s
  | ORemove e ts | ODelete e ts =>
      if decide (all_reg s ts)
      then with_map s (alter (λ r, delete_all r ts) e (s_map s)) else s
  | OClear => SState ∅ ∅ ∅ (s_issued s) (s_free s) (s_reg s) (s_grouped s) ∅
  | OReset => SState ∅ ∅ ∅ ∅ ∅ (s_reg s) (s_grouped s) ∅
  | ORegister t =>
      SState (s_map s) (s_created s) (s_queued s) (s_issued s) (s_free s) ({[t]} ∪ s_reg s)
             (s_grouped s) (s_loose s)
  | OSetLayout l _ =>
      SState (s_map s) (s_created s) (s_queued s) (s_issued s) (s_free s)
             (list_to_set (layout_tids l) ∪ s_reg s) (list_to_set (layout_tids l)) ∅
  | OSet t e v =>
      with_map s (alter (λ r, if decide (is_Some (r !! t)) then <[t := v]> r else r) e (s_map s))
  | OForEach G J X f =>
      match out with
      | Ret (RWrote es _) => with_map s (visit_all G f es (s_map s))
      | _ => s
      end
  end.

(** A layout within the limits of the mask types: at most 63 groups of at most 15
    components. (The documented limits are 64 and 16; see properties C35.) *)
Definition layout_fits (l : layout) : Prop :=
  length (concat (f_arities <$> l)) < 64 ∧
  ∀ fam, fam ∈ l → length (f_comps fam) < 16.
Global Instance layout_fits_dec l : Decision (layout_fits l).
Proof.
  refine (cast_if (decide (length (concat (f_arities <$> l)) < 64 ∧ Forall (λ fam, length (f_comps fam) < 16) l)));
    unfold layout_fits; by rewrite <-Forall_forall.
Defined.

Fixpoint new_handles (s : sstate) (es : list entity) : Prop :=
  match es with
  | [] => True
  | e :: es => new_handle s e ∧ new_handles (add_entity s e ∅) es
  end.
Fixpoint after_handles (s : sstate) (es : list entity) : sstate :=
  match es with [] => s | e :: es => after_handles (add_entity s e ∅) es end.

(** The outcomes a client expects. *)
Definition allowed (s : sstate) (o : op) (out : outcome) : Prop :=
  match o with
  | OCreate cs =>
      (all_reg s cs.*1 ∧ ∃ e, out = Ret (REnt e) ∧ new_handle s e) ∨
      (¬ all_reg s cs.*1 ∧ ∃ e, out = Panicked [e] ∧ new_handle s e) ∨
      (out = Panicked [] ∧ exhausted s)
  | OExtend ts rows ends_in_panic =>
      (all_reg s ts ∧ ends_in_panic = false ∧
         ∃ es, out = Ret (REnts es) ∧ length es = length rows ∧ new_handles s es) ∨
      (all_reg s ts ∧ ∃ es, out = Panicked es ∧ new_handles s es ∧
         (ends_in_panic = true ∧ length es = length rows ∨
          length es < length rows ∧ exhausted (after_handles s es))) ∨
      (¬ all_reg s ts ∧ out = Panicked [])
  | ODestroy e => out = Ret (RBool (bool_decide (s_alive s e)))
  | OCreateAtomic =>
      (∃ e, out = Ret (REnt e) ∧ new_handle s e) ∨ (out = Panicked [] ∧ exhausted s)
  | OMaintain | OClear | OReset => out = Ret RUnit
  | OInsert e cs =>
      out = if decide (s_alive s e)
            then if decide (all_reg s cs.*1) then Ret (RBool true) else Panicked []
            else Ret (RBool false)
  | ORemove e ts =>
      out = if decide (all_reg s ts) then Ret (ROpts (take_all (s_row s e) ts)) else Panicked []
  | ODelete e ts => out = if decide (all_reg s ts) then Ret RUnit else Panicked []
  | ORegister t => out = Ret (RBool (bool_decide (t ∉ s_reg s)))
  | OSetLayout l _ => out = if decide (layout_fits l) then Ret RUnit else Panicked []
  | OSet t e v =>
      out = if decide (t ∈ s_reg s) then Ret (ROpts [s_row s e !! t]) else Panicked []
  | OForEach G J X f =>
      (query_ok s G J X ∧ ∃ es vs, out = Ret (RWrote es vs) ∧ NoDup es ∧
         ∀ e, e ∈ es → s_alive s e ∧ has_all (s_row s e) G ∧ has_all (s_row s e) J) ∨
      (¬ query_ok s G J X ∧ out = Panicked [])
  end.

(** Values the caller hands over to a call, and values a call hands back. The
    values assigned by the closure of [for_each] count as handed over. *)
Definition handed_in (o : op) (out : outcome) : list val :=
  match o with
  | OCreate cs | OInsert _ cs => cs.*2
  | OExtend _ rows _ => concat rows
  | OSet _ _ v => [v]
  | OForEach _ _ _ _ => match out with Ret (RWrote _ vs) => vs | _ => [] end
  | _ => []
  end.
Definition handed_out (out : outcome) : list val :=
  match out with Ret (ROpts vs) => omap id vs | _ => [] end.

(** ** Histories *)

(** No entity created since the last [maintain] has been destroyed. *)
Definition tidy (s : sstate) : Prop := ∀ e, e ∈ s_created s → s_alive s e.

(** In each grouped component type, the owners have equal versions. *)
Definition same_versions (s : sstate) : Prop :=
  ∀ t e1 e2, t ∈ s_grouped s → is_Some (s_row s e1 !! t) → is_Some (s_row s e2 !! t) →
    e_version e1 = e_version e2.

(** Calls that can be written: layouts come from [GroupLayout], rows of [extend]
    are tuples of the right arity. *)
Definition op_ok (o : op) : Prop :=
  match o with
  | OExtend ts rows _ => Forall (λ r, length r = length ts) rows
  | OSetLayout l _ => ∃ gs, add_groups [] gs = Some l
  | _ => True
  end.

(** The side conditions under which the code works (see C02, C22 and C38 for what
    happens without them). *)
Definition good_call (s : sstate) (o : op) : Prop :=
  match o with
  | OMaintain => tidy s
  | OSetLayout l _ => layout_fits l
  | _ => True
  end.

Definition s_init (l : layout) (ts : list tid) : sstate :=
  SState ∅ ∅ ∅ ∅ ∅ (list_to_set (layout_tids l) ∪ list_to_set ts) (list_to_set (layout_tids l)) ∅.

(** An event of a history: the call, its outcome and the values it dropped. *)
Notation event := (op * outcome * list val)%type.

(** [history side w s evs w' s']: from world [w], seen as [s], the calls [evs] lead
    to [w'], seen as [s']. [side] is the condition asked of each call. *)
Inductive history (side : sstate → op → outcome → Prop) (w : world) (s : sstate)
    : list event → world → sstate → Prop :=
| history_nil : history side w s [] w s
| history_snoc evs w1 s1 o out ds w2 :
    history side w s evs w1 s1 →
    op_ok o → step w1 o = (out, ds, w2) → side s1 o out →
    history side w s (evs ++ [(o, out, ds)]) w2 (client_step s1 o out).

(** The side conditions under which the code works. *)
Definition good_side (s : sstate) (o : op) (out : outcome) : Prop :=
  good_call s o ∧ same_versions (client_step s o out).

(** Those under which the entity handles work, whatever the components. *)
Definition ub_free (out : outcome) : Prop := match out with UndefBeh _ => False | _ => True end.
Definition tidy_side (s : sstate) (o : op) (out : outcome) : Prop :=
  (o = OMaintain → tidy s) ∧ ub_free out.

(** A world built by [WorldBuilder] and its history. *)
Definition built (w : world) (s : sstate) : Prop :=
  ∃ gs l ts, add_groups [] gs = Some l ∧ builder_build l ts = Some w ∧ s = s_init l ts.

Definition good_history (evs : list event) (w : world) (s : sstate) : Prop :=
  ∃ w0 s0, built w0 s0 ∧ history good_side w0 s0 evs w s.
Definition tidy_history (evs : list event) (w : world) (s : sstate) : Prop :=
  ∃ w0 s0, built w0 s0 ∧ history tidy_side w0 s0 evs w s.

(** What went in, came out and was dropped along a history. *)
Definition hist_in (evs : list event) : list val := evs ≫= λ ev, handed_in ev.1.1 ev.1.2.
Definition hist_out (evs : list event) : list val := evs ≫= λ ev, handed_out ev.1.2.
Definition hist_dropped (evs : list event) : list val := evs ≫= λ ev, ev.2.

(** Reachable worlds. *)
Definition reachable (w : world) (s : sstate) : Prop := ∃ evs, good_history evs w s.

(** ** Comparing worlds *)

(** The same view, except for which types are grouped. *)
Record agree (s1 s2 : sstate) : Prop := {
  ag_map : s_map s1 = s_map s2;
  ag_created : s_created s1 = s_created s2;
  ag_queued : s_queued s1 = s_queued s2;
  ag_issued : s_issued s1 = s_issued s2;
  ag_free : s_free s1 = s_free s2;
  ag_reg : s_reg s1 = s_reg s2;
  ag_loose : s_loose s1 = s_loose s2
}.

(** The same call; layouts may differ if they register the same types. *)
Definition same_op (s : sstate) (o1 o2 : op) : Prop :=
  match o1, o2 with
  | OSetLayout l1 _, OSetLayout l2 _ =>
      ∀ t, t ∈ layout_tids l1 ∨ t ∈ s_reg s ↔ t ∈ layout_tids l2 ∨ t ∈ s_reg s
  | _, _ => o1 = o2
  end.

(** [exclude] of at most one type. *)
Definition one_exclude (X : query) : Prop := ∀ t t', t ∈ required X → t' ∈ required X → t = t'.

(** A call whose effect is determined by the client's view: [for_each] over a
    plain query with at most one excluded type, and no insertion was cut short. *)
Definition determined (s : sstate) (o : op) : Prop :=
  match o with
  | OForEach G J X _ => plain G J X ∧ one_exclude X ∧ s_loose s = ∅
  | _ => True
  end.

(** The same outcome, up to the order in which [for_each] visits. *)
Definition same_outcome (out1 out2 : outcome) : Prop :=
  match out1, out2 with
  | Ret (RWrote es1 _), Ret (RWrote es2 _) => es1 ≡ₚ es2
  | _, _ => out1 = out2
  end.

(** Two good histories with the same calls. *)
Inductive paired (w1 : world) (s1 : sstate) (w2 : world) (s2 : sstate)
    : list event → list event → world → sstate → world → sstate → Prop :=
| paired_nil : paired w1 s1 w2 s2 [] [] w1 s1 w2 s2
| paired_snoc evs1 evs2 v1 t1 v2 t2 o1 o2 out1 out2 ds1 ds2 v1' v2' :
    paired w1 s1 w2 s2 evs1 evs2 v1 t1 v2 t2 →
    same_op t1 o1 o2 → determined t1 o1 → op_ok o1 → op_ok o2 →
    step v1 o1 = (out1, ds1, v1') → good_side t1 o1 out1 →
    step v2 o2 = (out2, ds2, v2') → good_side t2 o2 out2 →
    paired w1 s1 w2 s2 (evs1 ++ [(o1, out1, ds1)]) (evs2 ++ [(o2, out2, ds2)])
           v1' (client_step t1 o1 out1) v2' (client_step t2 o2 out2).

(** What the closure or the caller sees of an optional item, or a panic. *)
Definition shown (r : res (option (list item))) : res (option (list aitem)) :=
  match r with Ok o => Ok (option_map (map abs_item) o) | Panic => Panic | UB => UB end.

(** The two worlds answer alike; [query_all] up to the order of the items. *)
Record same_answers (w1 w2 : world) : Prop := {
  sa_entities : world_entities w1 = world_entities w2;
  sa_contains : ∀ e, world_contains w1 e = world_contains w2 e;
  sa_registered : ∀ t, world_is_registered w1 t = world_is_registered w2 t;
  sa_get : ∀ t e, view_get w1 t e = view_get w2 t e;
  sa_one : ∀ G J X e, shown (query_one w1 G J X e) = shown (query_one w2 G J X e)
}.

Definition same_queries (w1 w2 : world) : Prop :=
  ∀ G J X, plain G J X → one_exclude X →
    (query_all w1 G J X = Panic ∧ query_all w2 G J X = Panic) ∨
    ∃ its1 its2, query_all w1 G J X = Ok its1 ∧ query_all w2 G J X = Ok its2 ∧
      map (map abs_item) its1 ≡ₚ map (map abs_item) its2.

(** ** What a client reads *)

(** The components of [e] are those of [r]. *)
Definition has_comps (w : world) (e : entity) (r : row) : Prop :=
  ∀ t, view_get w t e = if world_is_registered w t then Ok (r !! t) else Panic.

(** Nothing about [e] changes from [w] to [w']. *)
Definition unchanged (w w' : world) (e : entity) : Prop :=
  world_contains w' e = world_contains w e ∧ ∀ t, view_get w' t e = view_get w t e.

(** The same, while more types may become registered. *)
Definition kept (w w' : world) (e : entity) : Prop :=
  world_contains w' e = world_contains w e ∧
  ∀ t, world_is_registered w t = true → view_get w' t e = view_get w t e.

(** The components given by a tuple: the last one of a type wins. *)
Definition tuple_row (cs : list (tid * val)) : row := list_to_map (reverse cs).

Definition values (r : row) : list val := (map_to_list r).*2.

(** The types a call registers. *)
Definition registers (o : op) (t : tid) : Prop :=
  match o with
  | ORegister t' => t = t'
  | OSetLayout l _ => t ∈ layout_tids l
  | _ => False
  end.

(** Calls that may add components or change the groups. *)
Definition grows (o : op) : Prop :=
  match o with OCreate _ | OExtend _ _ _ | OInsert _ _ | OSetLayout _ _ => True | _ => False end.
