(** C50: which queries are answered from contiguous arrays.
    C51: destroyed indexes are reused before new ones. *)
From Verif Require Import Base EntityM LayoutM WorldM QueryM StepM Spec SpecMore SpecLayout SpecQuery SpecDense SpecReuse
  Demo Demo2 DenseFacts ReuseFacts.

(** ** C50 *)

(** [is_dense] of the iterators, and whether [slice] returns something, depends only on
    the layout in force and on the types the query names. *)
Theorem C50_dense_iff : ∀ l evs w s G J X,
  good_history_from l evs w s → query_ok s G J X →
  ∃ dn r, query_is_dense w G J X = Ok dn ∧ query_all_slice w G J X = Ok r ∧
    (dn = true ↔ dense_by (layout_groups (layout_after l evs)) (required (G ++ J)) (required X)) ∧
    (is_Some r ↔ dn = true).
Proof. exact reach_dense. Qed.
Print Assumptions C50_dense_iff.

Example C50_nonvacuous :
  let l := [Fam [tA; tB; tC; tD] [2; 4]] in
  let gs := layout_groups (layout_after l (r_evs nest)) in
  let w := r_w nest in
  good_history_from l (r_evs nest) w (r_s nest) ∧
  (** one type *)
  query_ok (r_s nest) [PRef tE] [] [] ∧ query_is_dense w [PRef tE] [] [] = Ok true ∧
  (** a group, spread over [get] and [include] *)
  query_ok (r_s nest) [PMut tB; PEntity] [PRef tA] [] ∧
  query_is_dense w [PMut tB; PEntity] [PRef tA] [] = Ok true ∧
  (** a group without the types of the larger one *)
  query_ok (r_s nest) [PRef tB; PRef tA] [] [PRef tD; PRef tC] ∧
  query_is_dense w [PRef tB; PRef tA] [] [PRef tD; PRef tC] = Ok true ∧
  (** no group has these types *)
  query_is_dense w [PRef tC; PRef tD] [] [] = Ok false ∧
  query_is_dense w [PRef tA; PRef tB] [] [PRef tC] = Ok false ∧
  query_all_slice w [PRef tA; PRef tB] [] [PRef tC] = Ok None ∧
  dense_by gs [tE] [] ∧ dense_by gs [tB; tA] [] ∧ dense_by gs [tB; tA] [tD; tC] ∧ ¬ dense_by gs [tC; tD] [].
Proof.
  cbv zeta. split; [apply good_run_from; by vm_compute|].
  repeat (split; [first [by vm_compute | apply (bool_decide_unpack _); by vm_compute]|]).
  assert (∀ T U b G J X, good_history_from [Fam [tA; tB; tC; tD] [2; 4]] (r_evs nest) (r_w nest) (r_s nest) →
    query_ok (r_s nest) G J X → required (G ++ J) = T → required X = U → query_is_dense (r_w nest) G J X = Ok b →
    if b then dense_by (layout_groups (layout_after [Fam [tA; tB; tC; tD] [2; 4]] (r_evs nest))) T U
    else ¬ dense_by (layout_groups (layout_after [Fam [tA; tB; tC; tD] [2; 4]] (r_evs nest))) T U) as Hd.
  { intros T U b G J X Hh Hq <- <- Hb. destruct (reach_dense _ _ _ _ _ _ _ Hh Hq) as (dn & r & H1 & _ & H2 & _).
    rewrite Hb in H1. injection H1 as <-. destruct b; [by apply H2|]. by intros H%H2. }
  assert (good_history_from [Fam [tA; tB; tC; tD] [2; 4]] (r_evs nest) (r_w nest) (r_s nest)) as Hh
    by (apply good_run_from; by vm_compute).
  split_and!.
  - apply (Hd _ _ true [PRef tE] [] []); [exact Hh|apply (bool_decide_unpack _)|..]; by vm_compute.
  - apply (Hd _ _ true [PRef tB; PRef tA] [] []); [exact Hh|apply (bool_decide_unpack _)|..]; by vm_compute.
  - apply (Hd _ _ true [PRef tB; PRef tA] [] [PRef tD; PRef tC]); [exact Hh|apply (bool_decide_unpack _)|..]; by vm_compute.
  - apply (Hd _ _ false [PRef tC; PRef tD] [] []); [exact Hh|apply (bool_decide_unpack _)|..]; by vm_compute.
Qed.

(** ** C51 *)

(** A handle that a call gives out is a waiting one as long as there are any; if it
    is not, it has the first version and an index no handle had before. *)
Theorem C51_reuse : ∀ evs o out ds w s k e,
  tidy_history (evs ++ [(o, out, ds)]) w s → reported out !! k = Some e →
  (∀ x, x ∈ waiting evs → x ∉ take k (reported out) → e ∈ waiting evs) ∧
  (e ∉ waiting evs → e_version e = version_first ∧
   ∀ x, x ∈ issued evs ∨ x ∈ take k (reported out) → e_index x ≠ e_index e).
Proof. exact tidy_reuse. Qed.
Print Assumptions C51_reuse.

(** The indexes of the handles since the last [reset] have no gaps. *)
Theorem C51_no_gaps : ∀ evs w s, tidy_history evs w s →
  ∀ e i, e ∈ issued evs → (i < e_index e)%N → ∃ x, x ∈ issued evs ∧ e_index x = i.
Proof. exact tidy_segment. Qed.
Print Assumptions C51_no_gaps.

Example C51_nonvacuous :
  let x := tidy_run [] [tA] [OCreate []; OExtend [tA] [[1]; [2]; [3]]%N false; OMaintain; ODestroy (Ent 1 1);
                             ODestroy (Ent 2 1); OExtend [tA] [[4]; [5]; [6]]%N false] in
  tidy_history (r_evs x) (r_w x) (r_s x) ∧ waiting (take 5 (r_evs x)) = [Ent 2 2; Ent 1 2] ∧
  drop 5 (r_evs x) = [(OExtend [tA] [[4]; [5]; [6]]%N false, Ret (REnts [Ent 1 2; Ent 2 2; Ent 4 1]), [])] ∧
  issued (r_evs x) = [Ent 0 1; Ent 1 1; Ent 2 1; Ent 3 1; Ent 1 2; Ent 2 2; Ent 4 1].
Proof. split; [apply tidy_run_ok|]; split_and?; by vm_compute. Qed.
