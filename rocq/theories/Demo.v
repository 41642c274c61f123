(** Concrete histories: an executable checker for the side conditions of
    histories, and the worlds used in the examples beside the theorems. *)
From Verif Require Import Base LayoutM WorldM QueryM StepM Spec SpecMore.

Definition outcome_panics (out : outcome) : bool := match out with Ret _ => false | _ => true end.

Definition tidyb (s : sstate) : bool := forallb (λ e, bool_decide (s_alive s e)) (elements (s_created s)).

Definition same_versionsb (s : sstate) : bool :=
  forallb (λ t, forallb (λ p1 : entity * row, forallb (λ p2 : entity * row,
    negb (bool_decide (is_Some (p1.2 !! t))) || negb (bool_decide (is_Some (p2.2 !! t))) ||
    (e_version p1.1 =? e_version p2.1)%N)
    (map_to_list (s_map s))) (map_to_list (s_map s))) (elements (s_grouped s)).

(** The groups of a layout. *)
Definition groups_of (l : layout) : list (list tid) :=
  concat (map (λ fam, map (λ a, take a (f_comps fam)) (f_arities fam)) l).

Definition layout_eqb (l1 l2 : layout) : bool :=
  bool_decide (map (λ f, (f_comps f, f_arities f)) l1 = map (λ f, (f_comps f, f_arities f)) l2).

Definition op_okb (o : op) : bool :=
  match o with
  | OExtend ts rows _ => forallb (λ r, length r =? length ts) rows
  | OSetLayout l _ => match add_groups [] (groups_of l) with Some l' => layout_eqb l' l | None => false end
  | _ => true
  end.

Definition good_sideb (s : sstate) (o : op) (out : outcome) : bool :=
  match o with
  | OMaintain => tidyb s
  | OSetLayout l _ => bool_decide (layout_fits l)
  | _ => true
  end && same_versionsb (client_step s o out).

Definition tidy_sideb (s : sstate) (o : op) (out : outcome) : bool :=
  match o with OMaintain => tidyb s | _ => true end &&
  match out with UndefBeh _ => false | _ => true end.

(** Runs [ops], checking each call. *)
Fixpoint exec (side : sstate → op → outcome → bool) (w : world) (s : sstate) (ops : list op)
    : option (list event * world * sstate) :=
  match ops with
  | [] => Some ([], w, s)
  | o :: ops =>
      let '(out, ds, w') := step w o in
      if op_okb o && side s o out then
        match exec side w' (client_step s o out) ops with
        | Some (evs, w2, s2) => Some ((o, out, ds) :: evs, w2, s2)
        | None => None
        end
      else None
  end.

Definition exec_built (side : sstate → op → outcome → bool) (gs : list (list tid)) (ts : list tid) (ops : list op)
    : option (list event * world * sstate) :=
  match add_groups [] gs with
  | Some l => match builder_build l ts with
              | Some w => exec side w (s_init l ts) ops
              | None => None
              end
  | None => None
  end.

Lemma tidyb_ok s : tidyb s = true → tidy s.
Proof.
  unfold tidyb. rewrite forallb_forall. intros H e He.
  eapply bool_decide_unpack, Is_true_true, H. apply elem_of_list_In. by apply elem_of_elements.
Qed.

Lemma same_versionsb_ok s : same_versionsb s = true → same_versions s.
Proof.
  unfold same_versionsb. rewrite forallb_forall. intros H t e1 e2 Ht H1 H2.
  specialize (H t). rewrite <-elem_of_list_In, elem_of_elements, forallb_forall in H. specialize (H Ht).
  unfold s_row in H1, H2.
  destruct (s_map s !! e1) as [r1|] eqn:E1; [|simpl in H1; by destruct H1].
  destruct (s_map s !! e2) as [r2|] eqn:E2; [|simpl in H2; by destruct H2].
  simpl in H1, H2. specialize (H (e1, r1)). rewrite <-elem_of_list_In, elem_of_map_to_list, forallb_forall in H.
  specialize (H E1 (e2, r2)). rewrite <-elem_of_list_In, elem_of_map_to_list in H. specialize (H E2). simpl in H.
  rewrite !bool_decide_eq_true_2 in H by done. by apply N.eqb_eq in H.
Qed.

Lemma op_okb_ok o : op_okb o = true → op_ok o.
Proof.
  destruct o; try done; simpl.
  - rewrite forallb_forall. intros H. apply Forall_forall. intros r Hr. apply Nat.eqb_eq, H. by apply elem_of_list_In.
  - destruct (add_groups [] (groups_of l)) as [l'|] eqn:E; [|done]. intros H%bool_decide_eq_true.
    exists (groups_of l). rewrite E. f_equal. clear -H. revert l H.
    induction l' as [|[c a] l' IH]; intros [|[c' a'] l]; simpl; intros H; simplify_eq; [done|].
    f_equal. by apply IH.
Qed.

Lemma good_sideb_ok s o out : good_sideb s o out = true → good_side s o out.
Proof.
  intros [H1 H2]%andb_true_iff. split; [|by apply same_versionsb_ok].
  destruct o; try done; simpl in *; [by apply tidyb_ok|by apply bool_decide_eq_true in H1].
Qed.

Lemma tidy_sideb_ok s o out : tidy_sideb s o out = true → tidy_side s o out.
Proof.
  intros [H1 H2]%andb_true_iff. split; [|by destruct out]. intros ->. by apply tidyb_ok.
Qed.

Section exec.
  Context (sideb : sstate → op → outcome → bool) (side : sstate → op → outcome → Prop).
  Context (side_ok : ∀ s o out, sideb s o out = true → side s o out).

  Lemma exec_history ops : ∀ w0 s0 evs0 w s evs w' s',
    history side w0 s0 evs0 w s → exec sideb w s ops = Some (evs, w', s') →
    history side w0 s0 (evs0 ++ evs) w' s'.
  Proof using side_ok.
    induction ops as [|o ops IH]; intros w0 s0 evs0 w s evs w' s' Hh H; simpl in H.
    - simplify_eq. by rewrite app_nil_r.
    - destruct (step w o) as [[out ds] w1] eqn:Hs.
      destruct (op_okb o && sideb s o out) eqn:Hb; [|done]. apply andb_true_iff in Hb as [Ho Hb].
      destruct (exec sideb w1 (client_step s o out) ops) as [[[evs1 w2] s2]|] eqn:He; [|done].
      injection H as <- <- <-. rewrite cons_middle, (assoc_L (++)). eapply IH; [|done].
      econstructor; eauto using op_okb_ok.
  Qed.

  Lemma exec_built_history gs ts ops evs w s :
    exec_built sideb gs ts ops = Some (evs, w, s) →
    ∃ w0 s0, built w0 s0 ∧ history side w0 s0 evs w s.
  Proof using side_ok.
    unfold exec_built. destruct (add_groups [] gs) as [l|] eqn:Hl; [|done].
    destruct (builder_build l ts) as [w0|] eqn:Hw; [|done]. intros H.
    exists w0, (s_init l ts). split; [by exists gs, l, ts|].
    change evs with ([] ++ evs). eapply exec_history; [constructor|done].
  Qed.
End exec.

Lemma exec_good gs ts ops evs w s :
  exec_built good_sideb gs ts ops = Some (evs, w, s) → good_history evs w s.
Proof. apply exec_built_history, good_sideb_ok. Qed.

Lemma exec_tidy gs ts ops evs w s :
  exec_built tidy_sideb gs ts ops = Some (evs, w, s) → tidy_history evs w s.
Proof. apply exec_built_history, tidy_sideb_ok. Qed.

Lemma exec_any gs ts ops evs w s :
  exec_built (λ _ _ _, true) gs ts ops = Some (evs, w, s) → any_history evs w s.
Proof. by apply exec_built_history. Qed.

(** ** Worlds used in examples *)

Definition run_or (x : option (list event * world * sstate)) : list event * world * sstate :=
  default ([], world_default, s_init [] []) x.
Lemma run_or_eq x : bool_decide (is_Some x) = true → x = Some (run_or x).
Proof. intros [[] ->]%bool_decide_eq_true. done. Qed.

Definition good_run gs ts ops := run_or (exec_built good_sideb gs ts ops).
Definition tidy_run gs ts ops := run_or (exec_built tidy_sideb gs ts ops).
Definition any_run gs ts ops := run_or (exec_built (λ _ _ _, true) gs ts ops).
Notation r_evs x := (x.1.1) (only parsing).
Notation r_w x := (x.1.2) (only parsing).
Notation r_s x := (x.2) (only parsing).

Lemma good_run_ok gs ts ops :
  bool_decide (is_Some (exec_built good_sideb gs ts ops)) = true →
  let x := good_run gs ts ops in good_history (r_evs x) (r_w x) (r_s x).
Proof. intros H%run_or_eq. unfold good_run. destruct (run_or _) as [[]]. by eapply exec_good. Qed.
Lemma good_run_reachable gs ts ops :
  bool_decide (is_Some (exec_built good_sideb gs ts ops)) = true →
  let x := good_run gs ts ops in reachable (r_w x) (r_s x).
Proof. intros H x. exists (r_evs x). by apply good_run_ok. Qed.
Lemma tidy_run_ok gs ts ops :
  bool_decide (is_Some (exec_built tidy_sideb gs ts ops)) = true →
  let x := tidy_run gs ts ops in tidy_history (r_evs x) (r_w x) (r_s x).
Proof. intros H%run_or_eq. unfold tidy_run. destruct (run_or _) as [[]]. by eapply exec_tidy. Qed.
Lemma any_run_ok gs ts ops :
  bool_decide (is_Some (exec_built (λ _ _ _, true) gs ts ops)) = true →
  let x := any_run gs ts ops in any_history (r_evs x) (r_w x) (r_s x).
Proof. intros H%run_or_eq. unfold any_run. destruct (run_or _) as [[]]. by eapply exec_any. Qed.

(** Component types. *)
Definition tA : tid := 1%N.
Definition tB : tid := 2%N.
Definition tC : tid := 3%N.
Definition tD : tid := 4%N.
Definition tE : tid := 5%N.
Definition tF : tid := 6%N.
Definition types (i n : nat) : list tid := map N.of_nat (seq i n).

(** The layout with the groups [gs]. *)
Definition layout_of (gs : list (list tid)) : layout := default [] (add_groups [] gs).

(** A world with the group (A, B) and the ungrouped type C, after calls of all
    kinds. *)
Definition demo_ops : list op :=
  [OCreate [(tA, 10); (tB, 20)]; OCreate [(tA, 11); (tC, 31)]; OCreateAtomic;
   OExtend [tB; tA] [[21; 12]; [22; 13]] false; OMaintain; ODestroy (Ent 1 1);
   OInsert (Ent 2 1) [(tA, 14); (tB, 23); (tA, 15)]; ORemove (Ent 0 1) [tB; tB; tC];
   OCreateAtomic; OCreate [(tC, 32)]; OSet tA (Ent 3 1) 16]%N.
Definition demo := good_run [[tA; tB]] [tC] demo_ops.
Lemma demo_ok : good_history (r_evs demo) (r_w demo) (r_s demo).
Proof. apply good_run_ok. by vm_compute. Qed.
Lemma demo_reachable : reachable (r_w demo) (r_s demo).
Proof. eexists. apply demo_ok. Qed.
