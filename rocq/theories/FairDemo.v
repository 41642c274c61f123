(** Running histories that only exchange entities of the same version. *)
From Verif Require Import Base LayoutM WorldM QueryM StepM Spec SpecMore SpecLayout SpecMembers SpecFair Demo MembersRun FairFacts.

Definition owns_allb (s : sstate) (e : entity) (g : list tid) : bool := forallb (λ t, bool_decide (is_Some (s_row s e !! t))) g.
Definition owns_someb (s : sstate) (e : entity) (g : list tid) : bool := existsb (λ t, bool_decide (is_Some (s_row s e !! t))) g.
Definition lives (s : sstate) : list entity := (map_to_list (s_map s)).*1.

Definition may_joinb (s : sstate) (E : list entity) (g : list tid) : bool :=
  forallb (λ e, forallb (λ f,
    implb (owns_allb s e g && owns_someb s f g &&
           (bool_decide (f ∈ E) || negb (owns_allb s f g) || bool_decide (f ∈ s_loose s)))
          (e_version f =? e_version e)%N) (lives s)) E.
Definition may_leaveb (s : sstate) (e : entity) (g : list tid) : bool :=
  negb (owns_allb s e g) ||
  (match g with [] => false | _ => true end &&
   forallb (λ f, implb (owns_allb s f g) (e_version f =? e_version e)%N) (lives s)).
Definition fair_layoutb (s : sstate) (g : list tid) : bool :=
  match g with [] => false | _ => true end &&
  forallb (λ e, forallb (λ f, implb (owns_allb s e g && owns_someb s f g) (e_version f =? e_version e)%N) (lives s)) (lives s).

Definition fair_callb (L : list (list tid)) (s : sstate) (o : op) (out : outcome) : bool :=
  match o with
  | OCreate _ | OExtend _ _ _ => forallb (may_joinb (client_step s o out) (reported out)) L
  | OInsert e cs =>
      forallb (λ g, (bool_decide (e ∉ s_loose s) && owns_allb s e g) || may_joinb (client_step s o out) [e] g) L
  | ORemove e ts | ODelete e ts => forallb (λ g, negb (meets_dec g ts) || may_leaveb s e g) L
  | ODestroy e => forallb (may_leaveb s e) L
  | OSetLayout l _ => forallb (fair_layoutb s) (layout_groups l)
  | _ => true
  end.
Definition good_callb (s : sstate) (o : op) : bool :=
  match o with OMaintain => tidyb s | OSetLayout l _ => bool_decide (layout_fits l) | _ => true end.

Fixpoint fair_exec (l : layout) (w : world) (s : sstate) (ops : list op) : option (list event * world * sstate) :=
  match ops with
  | [] => Some ([], w, s)
  | o :: ops =>
      let '(out, ds, w') := step w o in
      if op_okb o && good_callb s o && fair_callb (layout_groups l) s o out then
        match fair_exec (next_layout l o) w' (client_step s o out) ops with
        | Some (evs, w2, s2) => Some ((o, out, ds) :: evs, w2, s2)
        | None => None
        end
      else None
  end.

Lemma owns_allb_ok s e g : owns_allb s e g = true ↔ owns_all s e g.
Proof.
  unfold owns_allb, owns_all. rewrite forallb_forall. setoid_rewrite <-elem_of_list_In. by setoid_rewrite bool_decide_eq_true.
Qed.
Lemma owns_someb_ok s e g : owns_someb s e g = true ↔ owns_some s e g.
Proof.
  unfold owns_someb, owns_some. rewrite existsb_exists. setoid_rewrite <-elem_of_list_In. by setoid_rewrite bool_decide_eq_true.
Qed.

Lemma owns_lives s e g : owns_some s e g → e ∈ lives s.
Proof.
  intros (t & _ & H). unfold lives, s_row in *. destruct (s_map s !! e) as [r|] eqn:E; simpl in H; [|by destruct H].
  apply elem_of_list_fmap. exists (e, r). split; [done|]. by apply elem_of_map_to_list.
Qed.
Lemma owns_all_some s e g : g ≠ [] → owns_all s e g → owns_some s e g.
Proof. destruct g as [|t g]; [done|]. intros _ H. exists t. split; [by left|]. apply H. by left. Qed.

Lemma may_joinb_ok s E g : may_joinb s E g = true → may_join s E g.
Proof.
  unfold may_joinb. rewrite forallb_forall. setoid_rewrite <-elem_of_list_In. intros H e f He Ho Hf Hc.
  specialize (H e He). rewrite forallb_forall in H. specialize (H f). rewrite <-elem_of_list_In in H.
  specialize (H (owns_lives _ _ _ Hf)). rewrite (proj2 (owns_allb_ok _ _ _) Ho), (proj2 (owns_someb_ok _ _ _) Hf) in H. simpl in H.
  assert (bool_decide (f ∈ E) || negb (owns_allb s f g) || bool_decide (f ∈ s_loose s) = true) as Hb.
  { rewrite !orb_true_iff, negb_true_iff, !bool_decide_eq_true. destruct Hc as [?|[Hn|?]]; [by left; left|left; right|by right].
    apply not_true_is_false. by rewrite owns_allb_ok. }
  rewrite Hb in H. by apply N.eqb_eq in H.
Qed.

Lemma may_leaveb_ok s e g : may_leaveb s e g = true → may_leave s e g.
Proof.
  unfold may_leaveb. rewrite orb_true_iff, negb_true_iff, andb_true_iff. intros H f He Hf.
  apply owns_allb_ok in He. rewrite He in H. destruct H as [?|[Hne H]]; [done|].
  assert (g ≠ []) as Hg by (by destruct g). rewrite forallb_forall in H. specialize (H f). rewrite <-elem_of_list_In in H.
  specialize (H (owns_lives _ _ _ (owns_all_some _ _ _ Hg Hf))). apply owns_allb_ok in Hf. rewrite Hf in H. by apply N.eqb_eq in H.
Qed.

Lemma fair_layoutb_ok s g e f : fair_layoutb s g = true → owns_all s e g → owns_some s f g → e_version f = e_version e.
Proof.
  unfold fair_layoutb. rewrite andb_true_iff. intros [Hne H] He Hf. assert (g ≠ []) as Hg by (by destruct g).
  rewrite forallb_forall in H. specialize (H e). rewrite <-elem_of_list_In in H.
  specialize (H (owns_lives _ _ _ (owns_all_some _ _ _ Hg He))). rewrite forallb_forall in H. specialize (H f).
  rewrite <-elem_of_list_In in H. specialize (H (owns_lives _ _ _ Hf)).
  rewrite (proj2 (owns_allb_ok _ _ _) He), (proj2 (owns_someb_ok _ _ _) Hf) in H. by apply N.eqb_eq in H.
Qed.

Lemma fair_callb_ok L s o out : fair_callb L s o out = true → fair_call L s o out.
Proof.
  destruct o; cbn [fair_callb fair_call]; try done; rewrite forallb_forall; setoid_rewrite <-elem_of_list_In; intros H.
  - intros _ g Hg. by apply may_joinb_ok, H.
  - intros _ g Hg. by apply may_joinb_ok, H.
  - intros g Hg. by apply may_leaveb_ok, H.
  - intros _ _ g Hg Hc. specialize (H g Hg). apply orb_true_iff in H as [H|H]; [|by apply may_joinb_ok].
    apply andb_true_iff in H as [H1 H2]. apply bool_decide_eq_true in H1. apply owns_allb_ok in H2. by destruct Hc.
  - intros g Hg Hm. specialize (H g Hg). apply meets_dec_spec in Hm. rewrite Hm in H. by apply may_leaveb_ok.
  - intros g Hg Hm. specialize (H g Hg). apply meets_dec_spec in Hm. rewrite Hm in H. by apply may_leaveb_ok.
  - intros g e f Hg. by apply fair_layoutb_ok, H.
Qed.

Lemma good_callb_ok s o : good_callb s o = true → good_call s o.
Proof. destruct o; try done; simpl; [apply tidyb_ok|by intros ?%bool_decide_eq_true]. Qed.

Lemma fair_exec_ok l0 w0 s0 ops : ∀ evs0 w s evs w' s',
  fair_run l0 w0 s0 evs0 w s → fair_exec (layout_after l0 evs0) w s ops = Some (evs, w', s') →
  fair_run l0 w0 s0 (evs0 ++ evs) w' s'.
Proof.
  induction ops as [|o ops IH]; intros evs0 w s evs w' s' Hr; cbn [fair_exec].
  { intros [= <- <- <-]. by rewrite app_nil_r. }
  destruct (step w o) as [[out dr] w1] eqn:Hs.
  destruct (op_okb o && good_callb s o && fair_callb _ s o out) eqn:Hb; [|done].
  apply andb_true_iff in Hb as [[Ho Hg]%andb_true_iff Hf].
  destruct (fair_exec _ w1 _ ops) as [[[evs1 w2] s2]|] eqn:Hx; [|done]. intros [= <- <- <-].
  replace (evs0 ++ (o, out, dr) :: evs1) with ((evs0 ++ [(o, out, dr)]) ++ evs1) by (by rewrite <-app_assoc).
  eapply IH; [|rewrite layout_after_snoc; exact Hx].
  econstructor; [done|by apply op_okb_ok|done|by apply good_callb_ok|by apply fair_callb_ok].
Qed.

Definition fair_demo (gs : list (list tid)) (ts : list tid) (ops : list op) : list event * world * sstate :=
  default ([], world_default, s_init [] [])
    (match builder_build (layout_of gs) ts with
     | Some w => fair_exec (layout_of gs) w (s_init (layout_of gs) ts) ops
     | None => None
     end).

Lemma fair_demo_from gs ts ops :
  (0 <? length ops) = true → length (r_evs (fair_demo gs ts ops)) = length ops →
  ∃ w0, builder_build (layout_of gs) ts = Some w0 ∧
    fair_run (layout_of gs) w0 (s_init (layout_of gs) ts)
      (r_evs (fair_demo gs ts ops)) (r_w (fair_demo gs ts ops)) (r_s (fair_demo gs ts ops)).
Proof.
  intros Hne Hlen. unfold fair_demo in *.
  destruct (builder_build (layout_of gs) ts) as [w|] eqn:Hb; [|by destruct ops].
  destruct (fair_exec _ w _ ops) as [[[evs w'] s']|] eqn:Hx; [|by destruct ops]. simpl in *.
  exists w. split; [done|].
  by apply (fair_exec_ok (layout_of gs) w (s_init (layout_of gs) ts) ops [] w (s_init (layout_of gs) ts) evs w' s'); [constructor|].
Qed.

Lemma fair_demo_ok gs ts ops :
  add_groups [] gs = Some (layout_of gs) → (0 <? length ops) = true →
  length (r_evs (fair_demo gs ts ops)) = length ops →
  fair_history (layout_of gs) (r_evs (fair_demo gs ts ops)) (r_w (fair_demo gs ts ops)) (r_s (fair_demo gs ts ops)).
Proof. intros Hg Hne Hlen. destruct (fair_demo_from _ _ _ Hne Hlen) as (w & Hb & Hr). by exists gs, ts, w. Qed.

(** Grouped types whose owners have different versions: [Ent 0 2] reuses an index
    and joins the group alone; then [Ent 1 1] joins while [Ent 0 2] has no component
    of the group, which gets one afterwards. *)
Definition reuse := fair_demo [[tA; tB]] [tC]
  [OCreate [(tA, 1)]; ODestroy (Ent 0 1); OCreate [(tA, 2); (tB, 3)]; OCreate [(tC, 4)];
   ODelete (Ent 0 2) [tA; tB]; OInsert (Ent 1 1) [(tB, 5); (tA, 6)]; OExtend [tB; tA] [[7; 8]] false;
   OInsert (Ent 0 2) [(tB, 9)]; ORemove (Ent 1 1) [tA]; ODestroy (Ent 2 1)]%N.
Lemma reuse_fair : fair_history (layout_of [[tA; tB]]) (r_evs reuse) (r_w reuse) (r_s reuse).
Proof. apply fair_demo_ok; by vm_compute. Qed.
Lemma reuse_from : ∃ w0, builder_build (layout_of [[tA; tB]]) [tC] = Some w0 ∧
  fair_run (layout_of [[tA; tB]]) w0 (s_init (layout_of [[tA; tB]]) [tC]) (r_evs reuse) (r_w reuse) (r_s reuse).
Proof. apply fair_demo_from; by vm_compute. Qed.

(** The next calls: the recycled entity is completed once [Ent 1 1] has no component
    of the group, and the groups change. *)
Definition reuse_next := fair_demo [[tA; tB]] [tC]
  (map (λ ev : event, ev.1.1) (r_evs reuse) ++
   [ODelete (Ent 1 1) [tB; tC]; OInsert (Ent 0 2) [(tA, 10)]; OSetLayout (layout_of [[tB; tC]]) [];
    OInsert (Ent 0 2) [(tC, 12)]])%N.
Lemma reuse_next_fair : fair_history (layout_of [[tA; tB]]) (r_evs reuse_next) (r_w reuse_next) (r_s reuse_next).
Proof. apply fair_demo_ok; by vm_compute. Qed.
