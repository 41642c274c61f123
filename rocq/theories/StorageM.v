(** Model of src/component/group_info.rs and component_storage.rs. *)
From Verif Require Import Base SparseVecM CssM MaskM LayoutM GroupM.

(** ** group_info.rs *)

(** src/component/group_info.rs:82-88 [GroupInfo]; the u8 fields are numbers. *)
Record ginfo := GInfo { gi_start : nat; gi_end : nat; gi_mask : N }.

(** src/component/group_info.rs:73-80 [ViewGroupInfo]. *)
Record vinfo := VInfo { vi_info : option ginfo; vi_len : nat }.

(** src/component/group_info.rs:4-14 [QueryGroupInfo]. *)
Inductive qinfo := QEmpty | QOne (v : vinfo) | QMany (g : ginfo).

(** src/component/group_info.rs:90-107 [GroupInfo::add_group]. *)
Definition add_group (a b : ginfo) : option ginfo :=
  if gi_start a =? gi_start b
  then Some (GInfo (gi_start a) (gi_end a `max` gi_end b) (N.lor (gi_mask a) (gi_mask b)))
  else None.

(** src/component/group_info.rs:61-70 [QueryGroupInfo::group_info]. *)
Definition qi_group_info (q : qinfo) : option ginfo :=
  match q with QEmpty => None | QOne v => vi_info v | QMany g => Some g end.

(** src/component/group_info.rs:20-34 [QueryGroupInfo::add_query]. *)
Definition add_query (a b : qinfo) : option qinfo :=
  match a, b with
  | QEmpty, QEmpty => Some QEmpty
  | q, QEmpty | QEmpty, q => Some q
  | a, b => ga ← qi_group_info a; gb ← qi_group_info b; QMany <$> add_group ga gb
  end.

(** src/component/group_info.rs:36-59 [QueryGroupInfo::add_view]. *)
Definition add_view (q : qinfo) (v : vinfo) : option qinfo :=
  match q with
  | QEmpty => Some (QOne v)
  | QOne old => match vi_info old, vi_info v with
                | Some a, Some b => QMany <$> add_group a b
                | _, _ => None
                end
  | QMany old => match vi_info v with
                 | Some b => QMany <$> add_group old b
                 | None => None
                 end
  end.

(** ** component_storage.rs *)

(** src/component/component_storage.rs:316-322 [ComponentMetadata]. *)
Record meta := Meta {
  m_index : nat;           (* storage_index *)
  m_insert : N;            (* insert_mask *)
  m_delete : N;            (* delete_mask *)
  m_info : option ginfo    (* group_info *)
}.

(** src/component/component_storage.rs:18-23 [ComponentStorage]. The
    AtomicRefCells are not represented: all functions with [&mut self] bypass
    them; the borrow state is modelled in BorrowM.v. *)
Record cstore := CStore {
  cs_groups : list group;
  cs_meta : gmap tid meta;
  cs_comps : list css
}.

(** src/component/component_storage.rs:18 (derived [Default]). *)
Definition cstore_new : cstore := CStore [] ∅ [].

(** src/component/component_storage.rs:94-99, 119-124:
    Metadata of an ungrouped component at position [i]. *)
Definition meta_plain (i : nat) : meta := Meta i 0 0 None.

(** src/component/component_storage.rs:294-313 [extract_sparse_sets]: the storages
    by type, and [self] with the extracted storages replaced by empty ones. The
    vector of storages is not shortened. Simplification: storages are taken
    simultaneously rather than one by one; equivalent because the storage
    indexes are distinct (invariant [cstore_wf]). *)
Definition extract_sets (s : cstore) : res (gmap tid css * cstore) :=
  if forallb (λ p : tid * meta, m_index p.2 <? length (cs_comps s)) (map_to_list (cs_meta s)) then
    Ok (omap (λ m, cs_comps s !! m_index m) (cs_meta s),
        CStore [] ∅
          (imap (λ i c, if existsb (λ p : tid * meta, m_index p.2 =? i) (map_to_list (cs_meta s))
                        then css_new else c) (cs_comps s)))
  else Panic.

(** Not /repo code (outcomes of the loops of src/component/component_storage.rs:40-89):
    Result of a step that may panic and leaves a state behind in either case. *)
Inductive after (A : Type) := Done (a : A) | Paniced (a : A).
Arguments Done {_} _.
Arguments Paniced {_} _.

(** Not /repo code: one iteration after the other, stopping at a panic. *)
Definition then_ {A} (r : after A) (f : A → after A) : after A :=
  match r with Done a => f a | Paniced a => Paniced a end.

(** src/component/component_storage.rs:37-38:
    State of the loops of [set_layout]: [self] and the remaining sparse sets. *)
Definition sl_state : Type := cstore * gmap tid css.

(** src/component/component_storage.rs:73-74 ([as u8]). *)
Definition as_u8 (n : nat) : nat := n mod 256.

(** src/component/component_storage.rs:63-85: the innermost loop, over the
    [n] components from [local] on. *)
Fixpoint sl_comps (fam : family) (group_start group_end new_group_start local n : nat)
    (st : sl_state) : after sl_state :=
  match n with
  | 0 => Done st
  | S n =>
      let '(s, sets) := st in
      match f_comps fam !! local, gm_from_to group_start group_end,
            gm_from_to new_group_start group_end, sm_single local with
      | Some t, Some im, Some dm, Some sm =>
          let m := Meta (length (cs_comps s)) im dm
                     (Some (GInfo (as_u8 group_start) (as_u8 (length (cs_groups s))) sm)) in
          let c := default css_new (sets !! t) in
          sl_comps fam group_start group_end new_group_start (S local) n
            (CStore (cs_groups s) (<[t := m]> (cs_meta s)) (cs_comps s ++ [c]), delete t sets)
      | _, _, _, _ => Paniced st
      end
  end.

(** src/component/component_storage.rs:47-88: the loop over the arities. *)
Fixpoint sl_arities (fam : family) (storage_start group_start group_end prev : nat)
    (arities : list nat) (st : sl_state) : after sl_state :=
  match arities with
  | [] => Done st
  | arity :: rest =>
      let '(s, sets) := st in
      let new_group_start := length (cs_groups s) in
      match gm_skip_from_to new_group_start group_end, qm_of_include arity,
            qm_of_exclude prev arity with
      | Some skip, Some inc, Some exc =>
          let g := Grp (GMeta storage_start (storage_start + prev) (storage_start + arity)
                          skip inc exc) 0 in
          then_ (sl_comps fam group_start group_end new_group_start prev (arity - prev)
                   (CStore (cs_groups s ++ [g]) (cs_meta s) (cs_comps s), sets))
                (sl_arities fam storage_start group_start group_end arity rest)
      | _, _, _ => Paniced st
      end
  end.

(** src/component/component_storage.rs:40-89: the loop over the families. *)
Fixpoint sl_families (l : layout) (st : sl_state) : after sl_state :=
  match l with
  | [] => Done st
  | fam :: l =>
      let s := st.1 in
      let group_start := length (cs_groups s) in
      then_ (sl_arities fam (length (cs_comps s)) group_start
               (group_start + length (f_arities fam)) 0 (f_arities fam) st)
            (sl_families l)
  end.

(** src/component/component_storage.rs:91:
    The iteration order of the hash map of left-over sparse sets is arbitrary:
    [perm] is an oracle, and every order of the keys is [order_by perm] for some
    [perm]. *)
Definition order_by (perm : list tid) (sets : gmap tid css) : list tid :=
  let p := filter (λ t, is_Some (sets !! t)) (remove_dups perm) in
  p ++ filter (λ t, t ∉ p) (fst <$> map_to_list sets).

(** src/component/component_storage.rs:91-103: the left-over storages. *)
Fixpoint sl_leftover (order : list tid) (sets : gmap tid css) (s : cstore) : cstore :=
  match order with
  | [] => s
  | t :: order =>
      sl_leftover order sets
        (CStore (cs_groups s) (<[t := meta_plain (length (cs_comps s))]> (cs_meta s))
                (cs_comps s ++ [default css_new (sets !! t)]))
  end.

(** src/component/component_storage.rs:107-111: group every entity. *)
Fixpoint group_each (comps : list css) (gs : list group) (mask : N) (es : list entity) {struct es}
    : res (list css * list group) :=
  match es with
  | [] => Ok (comps, gs)
  | e :: es =>
      match do_group comps gs mask e with
      | Ok r => group_each r.1 r.2 mask es
      | Panic => Panic
      | UB => UB
      end
  end.

(** src/component/component_sparse_set.rs:353-360:
    The values dropped together with a map of storages. *)
Fixpoint drop_all (l : list css) : res (list val) :=
  match l with
  | [] => Ok []
  | s :: l => v ← css_drop s; vs ← drop_all l; Ok (v ++ vs)
  end.

(** src/component/component_storage.rs:37:
    Outcome of [set_layout]: the status, the values dropped by unwinding, and
    the storage afterwards. *)
Inductive sl_result :=
| SlOk (s : cstore)
| SlPanic (dropped : list val) (s : cstore)
| SlUB.

(** src/component/component_storage.rs:37-112 [set_layout]. When a mask
    assertion panics, the storages still in the local hash map are dropped
    during unwinding and the partially filled [self] remains. A panic of the
    slice indexing inside [group] (unreachable for well-formed groups) is
    mapped to [SlUB], the worst outcome. *)
Definition set_layout (s : cstore) (l : layout) (perm : list tid) (es : list entity) : sl_result :=
  match extract_sets s with
  | Ok (sets, s0) =>
      match sl_families l (s0, sets) with
      | Paniced (s1, sets1) =>
          match drop_all (snd <$> map_to_list sets1) with
          | Ok vs => SlPanic vs s1
          | _ => SlUB
          end
      | Done (s1, sets1) =>
          let s2 := sl_leftover (order_by perm sets1) sets1 s1 in
          match gm_from_to 0 (length (cs_groups s2)) with
          | None => SlPanic [] s2
          | Some mask =>
              match group_each (cs_comps s2) (cs_groups s2) mask es with
              | Ok (comps, gs) => SlOk (CStore gs (cs_meta s2) comps)
              | _ => SlUB
              end
          end
      end
  | Panic => SlPanic [] s
  | UB => SlUB
  end.

(** src/component/component_storage.rs:114-130 [register_dyn]. *)
Definition register_dyn (s : cstore) (t : tid) : bool * cstore :=
  match cs_meta s !! t with
  | Some _ => (false, s)
  | None => (true, CStore (cs_groups s) (<[t := meta_plain (length (cs_comps s))]> (cs_meta s))
                          (cs_comps s ++ [css_new]))
  end.

(** src/component/component_storage.rs:132-136 [is_registered_dyn]. *)
Definition is_registered (s : cstore) (t : tid) : bool :=
  match cs_meta s !! t with Some _ => true | None => false end.

(** src/component/component_storage.rs:143-145: delete the entity from each
    storage; the dropped values in order. *)
Fixpoint delete_each (l : list css) (e : entity) : res (list css * list val) :=
  match l with
  | [] => Ok ([], [])
  | s :: l => r ← css_delete s e; r' ← delete_each l e; Ok (r.1 :: r'.1, r.2 ++ r'.2)
  end.

(** src/component/component_storage.rs:138-146 [strip]. *)
Definition strip (s : cstore) (e : entity) : res (cstore * list val) :=
  r ← ungroup_all (cs_comps s) (cs_groups s) e;
  d ← delete_each r.1 e;
  Ok (CStore r.2 (cs_meta s) d.1, d.2).

(** src/component/component_storage.rs:153-155. *)
Fixpoint clear_each (l : list css) : res (list css * list val) :=
  match l with
  | [] => Ok ([], [])
  | s :: l => r ← css_clear s; r' ← clear_each l; Ok (r.1 :: r'.1, r.2 ++ r'.2)
  end.

(** src/component/component_storage.rs:148-156 [clear]. *)
Definition cstore_clear (s : cstore) : res (cstore * list val) :=
  r ← clear_each (cs_comps s);
  Ok (CStore ((λ g, Grp (g_meta g) 0) <$> cs_groups s) (cs_meta s) r.1, r.2).

(** src/component/component_storage.rs:158-232 [borrow] and its variants: the
    storage and group info of a component type; panics when unregistered. *)
Definition cs_borrow (s : cstore) (t : tid) : res (css * option ginfo) :=
  match cs_meta s !! t with
  | None => Panic
  | Some m => match cs_comps s !! m_index m with
              | Some c => Ok (c, m_info m)
              | None => UB
              end
  end.

(** src/component/component_storage.rs:253-266 [include_group_range]; the inner
    option is the Rust option. [group_end - 1] is only evaluated for infos of
    grouped storages. *)
Definition include_group_range (s : cstore) (inc : ginfo) : res (option (nat * nat)) :=
  match gi_end inc with
  | 0 => UB
  | S k =>
      match cs_groups s !! k with
      | None => UB
      | Some g =>
          Ok (if bool_decide (QMask (gi_mask inc) 0 = g_include (g_meta g))
              then Some (0, g_len g) else None)
      end
  end.

(** src/component/component_storage.rs:268-292 [exclude_group_range]. *)
Definition exclude_group_range (s : cstore) (inc exc : ginfo) : res (option (nat * nat)) :=
  if negb (gi_start inc =? gi_start exc) then Ok None else
  let group_end := gi_end inc `max` gi_end exc in
  match group_end with
  | 0 => UB
  | S k =>
      match cs_groups s !! k with
      | None => UB
      | Some child =>
          if bool_decide (QMask (gi_mask inc) (gi_mask exc) = g_exclude (g_meta child)) then
            match k with
            | 0 => UB
            | S k' => match cs_groups s !! k' with
                      | None => UB
                      | Some parent => Ok (Some (g_len child, g_len parent))
                      end
            end
          else Ok None
      end
  end.

(** src/component/component_storage.rs:234-251 [group_range]. *)
Definition group_range (s : cstore) (inc exc : qinfo) : res (option (nat * nat)) :=
  match inc, exc with
  | QOne v, QEmpty => Ok (Some (0, vi_len v))
  | QMany g, QEmpty => include_group_range s g
  | inc, exc =>
      match qi_group_info inc, qi_group_info exc with
      | Some i, Some x => exclude_group_range s i x
      | _, _ => Ok None
      end
  end.
