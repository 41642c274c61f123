(** More concrete histories: two worlds in lockstep, nested groups. *)
From Verif Require Import Base LayoutM WorldM QueryM StepM Spec SpecMore Demo.

(** The layout a history starts with. *)
Lemma good_run_from gs ts ops l :
  add_groups [] gs = Some l →
  bool_decide (is_Some (exec_built good_sideb gs ts ops)) = true →
  let x := good_run gs ts ops in good_history_from l (r_evs x) (r_w x) (r_s x).
Proof.
  intros Hl H%run_or_eq. unfold good_run. destruct (run_or _) as [[evs w] s]. simpl.
  unfold exec_built in H. rewrite Hl in H. destruct (builder_build l ts) as [w0|] eqn:Hw; [|done].
  exists gs, ts, w0. split_and!; try done.
  change evs with ([] ++ evs). eapply exec_history; [apply good_sideb_ok|constructor|done].
Qed.

(** The same calls on two worlds. *)
Definition determinedb (s : sstate) (o : op) : bool :=
  match o with OForEach _ _ _ _ => false | _ => true end.

Fixpoint exec2 (w1 : world) (s1 : sstate) (w2 : world) (s2 : sstate) (ops : list op)
    : option (list event * list event * (world * sstate) * (world * sstate)) :=
  match ops with
  | [] => Some ([], [], (w1, s1), (w2, s2))
  | o :: ops =>
      let '(out1, ds1, w1') := step w1 o in
      let '(out2, ds2, w2') := step w2 o in
      if op_okb o && determinedb s1 o && good_sideb s1 o out1 && good_sideb s2 o out2 then
        match exec2 w1' (client_step s1 o out1) w2' (client_step s2 o out2) ops with
        | Some (e1, e2, x1, x2) => Some ((o, out1, ds1) :: e1, (o, out2, ds2) :: e2, x1, x2)
        | None => None
        end
      else None
  end.

Lemma exec2_paired ops : ∀ a b c d evs1 evs2 w1 s1 w2 s2 e1 e2 x1 x2,
  paired a b c d evs1 evs2 w1 s1 w2 s2 → exec2 w1 s1 w2 s2 ops = Some (e1, e2, x1, x2) →
  paired a b c d (evs1 ++ e1) (evs2 ++ e2) x1.1 x1.2 x2.1 x2.2.
Proof.
  induction ops as [|o ops IH]; intros a b c d evs1 evs2 w1 s1 w2 s2 e1 e2 x1 x2 Hp H; simpl in H.
  - simplify_eq. by rewrite !app_nil_r.
  - destruct (step w1 o) as [[out1 ds1] w1'] eqn:Hs1. destruct (step w2 o) as [[out2 ds2] w2'] eqn:Hs2.
    destruct (op_okb o && _ && _ && _) eqn:Hb; [|done].
    apply andb_true_iff in Hb as [[[Ho Hd]%andb_true_iff Hg1]%andb_true_iff Hg2].
    destruct (exec2 _ _ _ _ ops) as [[[[f1 f2] y1] y2]|] eqn:He; [|done].
    injection H as <- <- <- <-. rewrite (cons_middle _ evs1), (cons_middle _ evs2), !(assoc_L (++)). eapply IH; [|done].
    econstructor; eauto using op_okb_ok, good_sideb_ok; by destruct o.
Qed.

Definition pair_run (gs1 gs2 : list (list tid)) (ts1 ts2 : list tid) (ops : list op) :=
  match add_groups [] gs1, add_groups [] gs2 with
  | Some l1, Some l2 =>
      match builder_build l1 ts1, builder_build l2 ts2 with
      | Some w1, Some w2 => (λ r, (w1, s_init l1 ts1, (w2, s_init l2 ts2), r)) <$>
                              exec2 w1 (s_init l1 ts1) w2 (s_init l2 ts2) ops
      | _, _ => None
      end
  | _, _ => None
  end.

Lemma pair_run_ok gs1 gs2 ts1 ts2 ops w1 s1 w2 s2 e1 e2 v1 t1 v2 t2 :
  pair_run gs1 gs2 ts1 ts2 ops = Some (w1, s1, (w2, s2), (e1, e2, (v1, t1), (v2, t2))) →
  built w1 s1 ∧ built w2 s2 ∧ paired w1 s1 w2 s2 e1 e2 v1 t1 v2 t2.
Proof.
  unfold pair_run. destruct (add_groups [] gs1) as [l1|] eqn:E1; [|done].
  destruct (add_groups [] gs2) as [l2|] eqn:E2; [|done].
  destruct (builder_build l1 ts1) as [x1|] eqn:B1; [|done]. destruct (builder_build l2 ts2) as [x2|] eqn:B2; [|done].
  destruct (exec2 _ _ _ _ _) as [r|] eqn:E; [|done]. simpl. intros H. simplify_eq.
  split_and!; [by exists gs1, l1, ts1|by exists gs2, l2, ts2|].
  pose proof (exec2_paired ops _ _ _ _ [] [] _ _ _ _ _ _ _ _ (paired_nil _ _ _ _) E) as H. done.
Qed.

(** Nested groups (A, B), (A, B, C, D) and the ungrouped type E. *)
Definition nest_ops : list op :=
  [OCreate [(tA, 10); (tB, 20)]; OCreate [(tA, 11); (tB, 21); (tC, 31); (tD, 41)]; OCreate [(tA, 12); (tE, 52)];
   OCreate [(tB, 22); (tA, 13); (tC, 32); (tE, 53)]; OCreate [(tC, 33); (tD, 42)];
   OExtend [tA; tB; tC; tD] [[14; 23; 34; 43]; [15; 24; 35; 44]] false; ODestroy (Ent 5 1)]%N.
Definition nest := good_run [[tA; tB]; [tA; tB; tC; tD]] [tE] nest_ops.
Lemma nest_ok : good_history (r_evs nest) (r_w nest) (r_s nest).
Proof. apply good_run_ok. by vm_compute. Qed.
Lemma nest_reachable : reachable (r_w nest) (r_s nest).
Proof. eexists. apply nest_ok. Qed.

(** What a query shows. *)
Definition seen (r : res (list (list item))) : option (list (list aitem)) :=
  match r with Ok l => Some (map (map abs_item) l) | _ => None end.

(** Plain queries. *)
Lemma plain_ok G J X : required (G ++ J) ≠ [] → Forall part_required X → plain G J X.
Proof. intros H1 H2. split; [done|]. intros p Hp. by eapply Forall_forall in H2. Qed.
