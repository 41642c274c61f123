(** Example pasts. *)
From Verif Require Import Base EntityM LayoutM WorldM QueryM StepM Spec SpecMore SpecLayout SpecFair SpecFairPair SpecPast
  Demo FairDemo FairFacts FairPair PastFacts.

Definition past1 := fair_demo [[tA; tB]] [tC]
  [OCreate [(tA, 1%N); (tB, 2%N)]; OCreate [(tB, 3%N)]; ODestroy (Ent 0 1); OInsert (Ent 1 1) [(tA, 7%N)]; OCreate [(tC, 5%N)]].
Definition past2 := fair_demo [] [tA; tB; tC]
  [OExtend [tB] [[9%N]; [4%N]] false; OInsert (Ent 1 1) [(tC, 8%N); (tA, 7%N)]; ODelete (Ent 0 1) [tB]; ODestroy (Ent 0 1);
   OSet tB (Ent 1 1) 3%N; OCreate []; ORemove (Ent 1 1) [tC]; OInsert (Ent 0 2) [(tC, 5%N)]].

Lemma fair_demo_history gs ts ops :
  add_groups [] gs = Some (layout_of gs) → (0 <? length ops) = true → length (r_evs (fair_demo gs ts ops)) = length ops →
  fair_history (layout_of gs) (r_evs (fair_demo gs ts ops)) (r_w (fair_demo gs ts ops)) (r_s (fair_demo gs ts ops)).
Proof.
  intros Hl H1 H2. destruct (fair_demo_from _ ts _ H1 H2) as (w0 & Hb & Hr). by exists gs, ts, w0.
Qed.

Lemma past1_fair : fair_history (layout_of [[tA; tB]]) (r_evs past1) (r_w past1) (r_s past1).
Proof. apply fair_demo_history; by vm_compute. Qed.
Lemma past2_fair : fair_history (layout_of []) (r_evs past2) (r_w past2) (r_s past2).
Proof. apply fair_demo_history; by vm_compute. Qed.

(** All entities that have a type of the group or are named by a call have version 1. *)
Definition levelb (s : sstate) (g : list tid) (ops : list op) : bool :=
  forallb (λ e, negb (owns_someb s e g) || (e_version e =? 1)%N) (lives s) &&
  forallb (λ o, match o with OInsert e _ => (e_version e =? 1)%N | _ => false end) ops.
Lemma levelb_ok s g ops : levelb s g ops = true → level [g] s ops.
Proof.
  unfold levelb. rewrite andb_true_iff, !forallb_forall. setoid_rewrite <-elem_of_list_In. intros [H1 H2].
  assert (∀ e t, t ∈ g → has_or_gets s ops e t → e_version e = 1%N) as H.
  { intros e t Ht [Hs|(cs & Ho & _)].
    - assert (owns_some s e g) as Hs' by (by exists t). specialize (H1 e (owns_lives _ _ _ Hs')).
      apply owns_someb_ok in Hs'. rewrite Hs' in H1. by apply N.eqb_eq in H1.
    - specialize (H2 _ Ho). by apply N.eqb_eq in H2. }
  intros g' e f o t t' ->%elem_of_list_singleton _ _ Ht Ht' He Hf. by rewrite (H e t Ht He), (H f t' Ht' Hf).
Qed.
Definition past1_level ops : levelb (r_s past1) [tA; tB] ops = true → level [[tA; tB]] (r_s past1) ops := levelb_ok _ _ ops.

(** More calls after a past. *)
Definition fair_more (l : layout) (w : world) (s : sstate) (ops : list op) : list event * world * sstate :=
  default ([], w, s) (fair_exec l w s ops).
Lemma fair_more_run l w s ops : length (r_evs (fair_more l w s ops)) = length ops →
  fair_run l w s (r_evs (fair_more l w s ops)) (r_w (fair_more l w s ops)) (r_s (fair_more l w s ops)).
Proof.
  intros Hlen. unfold fair_more in *. destruct (fair_exec l w s ops) as [[[evs w'] s']|] eqn:Hx; simpl in *; [|constructor].
  exact (fair_exec_ok l w s ops [] w s evs w' s' (fair_run_nil _ _ _) Hx).
Qed.

(** Two ways to end up without entities. *)
Definition end1 := fair_demo [] [tA] [OCreate []; OCreate []; ODestroy (Ent 0 1); ODestroy (Ent 1 1)].
Definition end2 := fair_demo [] [tA] [OCreate []; OCreate []; ODestroy (Ent 1 1); ODestroy (Ent 0 1)].
Lemma end1_fair : fair_history (layout_of []) (r_evs end1) (r_w end1) (r_s end1).
Proof. apply fair_demo_history; by vm_compute. Qed.
Lemma end2_fair : fair_history (layout_of []) (r_evs end2) (r_w end2) (r_s end2).
Proof. apply fair_demo_history; by vm_compute. Qed.

Lemma create_differs w1 s1 w2 s2 e1 d1 w1' e2 d2 w2' :
  step w1 (OCreate []) = (Ret (REnt e1), d1, w1') → step w2 (OCreate []) = (Ret (REnt e2), d2, w2') → e1 ≠ e2 →
  ¬ alike [] w1 s1 [] w2 s2.
Proof.
  intros H1 H2 Hne Ha. edestruct (Ha ([] ++ [(OCreate [], Ret (REnt e1), d1)]) ([] ++ [(OCreate [], Ret (REnt e2), d2)])) as [HF _].
  - eapply fair_paired_snoc; [apply fair_paired_nil|done..|exact H1|done| |exact H2|done|].
    + by intros _ g ?%elem_of_nil.
    + by intros _ g ?%elem_of_nil.
  - apply Forall2_cons in HF as [HF _]. simpl in HF. by injection HF.
Qed.

Lemma handles_matter : ∃ l1 evs1 w1 s1 l2 evs2 w2 s2,
  fair_history l1 evs1 w1 s1 ∧ fair_history l2 evs2 w2 s2 ∧
  (∀ t e, view_get w1 t e = view_get w2 t e) ∧ s_loose s1 = s_loose s2 ∧
  world_entities w1 = world_entities w2 ∧ ¬ alike (layout_after l1 evs1) w1 s1 (layout_after l2 evs2) w2 s2.
Proof.
  exists (layout_of []), (r_evs end1), (r_w end1), (r_s end1), (layout_of []), (r_evs end2), (r_w end2), (r_s end2).
  split; [apply end1_fair|]. split; [apply end2_fair|].
  split; [eapply known_gets; [apply end1_fair|apply end2_fair|apply (bool_decide_unpack _); by vm_compute..]|].
  split; [apply (bool_decide_unpack _); by vm_compute|]. split; [by vm_compute|].
  assert (layout_after (layout_of []) (r_evs end1) = []) as -> by (by vm_compute).
  assert (layout_after (layout_of []) (r_evs end2) = []) as -> by (by vm_compute).
  eapply (create_differs (r_w end1) (r_s end1) (r_w end2) (r_s end2)); [by vm_compute..|done].
Qed.
