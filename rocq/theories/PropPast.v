(** The past of a world does not matter, only what the client knows of it. *)
From Verif Require Import Base EntityM LayoutM WorldM QueryM StepM Spec SpecMore SpecLayout SpecFair SpecFairPair SpecPast
  Demo FairDemo FairPair PastFacts PastDemo.

(** Two worlds, whatever their layouts and pasts: if the same was done to the handles
    and [view_get] answers alike, then so does everything else, now and later. *)
Theorem C68_past_forgotten : ∀ l1 evs1 w1 s1 l2 evs2 w2 s2,
  fair_history l1 evs1 w1 s1 → fair_history l2 evs2 w2 s2 → evs1 ≫= asks = evs2 ≫= asks →
  (∀ t e, view_get w1 t e = view_get w2 t e) → s_loose s1 = s_loose s2 →
  alike (layout_after l1 evs1) w1 s1 (layout_after l2 evs2) w2 s2.
Proof. exact past_forgotten. Qed.
Print Assumptions C68_past_forgotten.

(** Moreover the same values were given up. *)
Theorem C68_values : ∀ l1 evs1 w1 s1 l2 evs2 w2 s2,
  fair_history l1 evs1 w1 s1 → fair_history l2 evs2 w2 s2 → evs1 ≫= asks = evs2 ≫= asks →
  (∀ t e, view_get w1 t e = view_get w2 t e) → hist_in evs1 ≡ₚ hist_in evs2 →
  hist_dropped evs1 ++ hist_out evs1 ≡ₚ hist_dropped evs2 ++ hist_out evs2.
Proof. exact same_past_values. Qed.
Print Assumptions C68_values.

(** Components, groups and registrations have no influence on the handles. *)
Theorem C68_handles : ∀ evs1 w1 s1 evs2 w2 s2,
  tidy_history evs1 w1 s1 → tidy_history evs2 w2 s2 → evs1 ≫= asks = evs2 ≫= asks →
  (evs1 ≫= λ ev, reported ev.1.2) = (evs2 ≫= λ ev, reported ev.1.2) ∧
  world_entities w1 = world_entities w2 ∧ ∀ e, world_contains w1 e = world_contains w2 e.
Proof. exact same_handles. Qed.
Print Assumptions C68_handles.

(** Calls that can be replaced by others. *)
Theorem C68_laws : ∀ l evs w s ops1 ops2 evs1 w1 s1 evs2 w2 s2,
  fair_history l evs w s → law s ops1 ops2 →
  fair_run (layout_after l evs) w s evs1 w1 s1 → evs1.*1.*1 = ops1 →
  fair_run (layout_after l evs) w s evs2 w2 s2 → evs2.*1.*1 = ops2 →
  alike (layout_after (layout_after l evs) evs1) w1 s1 (layout_after (layout_after l evs) evs2) w2 s2.
Proof. exact laws_hold. Qed.
Print Assumptions C68_laws.

(** They can if the entities have the version of all others with components of their
    groups, for example if there are no groups. *)
Theorem C68_laws_run : ∀ l evs w s ops1 ops2 outs1 w1 outs2 w2,
  fair_history l evs w s → law s ops1 ops2 →
  level (layout_groups (layout_after l evs)) s ops1 → level (layout_groups (layout_after l evs)) s ops2 →
  run w ops1 = (outs1, w1) → run w ops2 = (outs2, w2) → same_answers w1 w2 ∧ (s_loose s = ∅ → same_queries w1 w2).
Proof. exact laws_level. Qed.
Print Assumptions C68_laws_run.

Theorem C68_create_split : ∀ l evs w s cs e dr1 w1 s1 e' dr2 out dr3 w2 s2,
  fair_history l evs w s →
  fair_run (layout_after l evs) w s [(OCreate cs, Ret (REnt e), dr1)] w1 s1 →
  fair_run (layout_after l evs) w s [(OCreate [], Ret (REnt e'), dr2); (OInsert e' cs, out, dr3)] w2 s2 →
  e = e' ∧ alike (layout_after l evs) w1 s1 (layout_after l evs) w2 s2.
Proof. exact create_split. Qed.
Print Assumptions C68_create_split.

(** [extend] creates the rows one by one, also when indices of grouped entities are
    reused (C19_extend asks for more). *)
Theorem C68_extend_split : ∀ l evs w s ts rows p es dr w1 s1 evs2 w2 s2,
  fair_history l evs w s →
  fair_run (layout_after l evs) w s [(OExtend ts rows p, Ret (REnts es), dr)] w1 s1 →
  fair_run (layout_after l evs) w s evs2 w2 s2 → evs2.*1.*1 = map (λ r, OCreate (zip ts r)) rows →
  evs2.*1.*2 = map (λ e, Ret (REnt e)) es ∧
  alike (layout_after l evs) w1 s1 (layout_after (layout_after l evs) evs2) w2 s2.
Proof. exact extend_split. Qed.
Print Assumptions C68_extend_split.

(** What was done to the handles matters: the next one depends on it. *)
Theorem C68_handles_refuted : ∃ l1 evs1 w1 s1 l2 evs2 w2 s2,
  fair_history l1 evs1 w1 s1 ∧ fair_history l2 evs2 w2 s2 ∧
  (∀ t e, view_get w1 t e = view_get w2 t e) ∧ s_loose s1 = s_loose s2 ∧
  world_entities w1 = world_entities w2 ∧ ¬ alike (layout_after l1 evs1) w1 s1 (layout_after l2 evs2) w2 s2.
Proof. exact handles_matter. Qed.
Print Assumptions C68_handles_refuted.

(** Two pasts; the second world has no groups, and other calls led to it. *)
Example C68_past_nonvacuous :
  fair_history (layout_of [[tA; tB]]) (r_evs past1) (r_w past1) (r_s past1) ∧
  fair_history (layout_of []) (r_evs past2) (r_w past2) (r_s past2) ∧
  r_evs past1 ≫= asks = r_evs past2 ≫= asks ∧ (∀ t e, view_get (r_w past1) t e = view_get (r_w past2) t e) ∧
  s_loose (r_s past1) = s_loose (r_s past2) ∧
  length (r_evs past1) = 5 ∧ length (r_evs past2) = 8 ∧
  r_evs past1 ≫= asks = [AskCreate; AskCreate; AskDestroy (Ent 0 1); AskCreate] ∧
  world_entities (r_w past1) = [Ent 1 1; Ent 0 2] ∧ view_get (r_w past1) tA (Ent 1 1) = Ok (Some 7%N) ∧
  query_is_dense (r_w past1) [PRef tA; PRef tB] [] [] = Ok true ∧
  query_is_dense (r_w past2) [PRef tA; PRef tB] [] [] = Ok false.
Proof.
  split; [apply past1_fair|]. split; [apply past2_fair|]. split; [by vm_compute|].
  split; [eapply known_gets; [apply past1_fair|apply past2_fair|apply (bool_decide_unpack _); by vm_compute..]|].
  split; [apply (bool_decide_unpack _); by vm_compute|]. split_and!; by vm_compute.
Qed.

(** With [reuse] as the past: the two ways to insert, to delete and insert, to create. *)
Example C68_laws_nonvacuous :
  let l := layout_after (layout_of [[tA; tB]]) (r_evs reuse) in
  let go := fair_more l (r_w reuse) (r_s reuse) in
  let cs1 := [(tC, 90%N)] in let cs2 := [(tB, 91%N); (tC, 92%N)] in let e := Ent 0 2 in
  fair_history (layout_of [[tA; tB]]) (r_evs reuse) (r_w reuse) (r_s reuse) ∧
  law (r_s reuse) [OInsert e (cs1 ++ cs2)] [OInsert e cs1; OInsert e cs2] ∧
  law (r_s reuse) [ODelete e [tC]; OInsert e cs2] [OInsert e cs2] ∧
  (∀ ops, ops ∈ [[OInsert e (cs1 ++ cs2)]; [OInsert e cs1; OInsert e cs2]; [ODelete e [tC]; OInsert e cs2]; [OInsert e cs2];
                 [OCreate cs1]; [OCreate []; OInsert (Ent 2 2) cs1]] →
    fair_run l (r_w reuse) (r_s reuse) (r_evs (go ops)) (r_w (go ops)) (r_s (go ops)) ∧ (r_evs (go ops)).*1.*1 = ops) ∧
  (r_evs (go [OCreate cs1])).*1.*2 = [Ret (REnt (Ent 2 2))] ∧
  (r_evs (go [OCreate []; OInsert (Ent 2 2) cs1])).*1.*2 = [Ret (REnt (Ent 2 2)); Ret (RBool true)] ∧
  view_get (r_w (go [OInsert e cs1; OInsert e cs2])) tC e = Ok (Some 92%N).
Proof.
  cbv zeta. split; [apply reuse_fair|].
  assert (all_reg (r_s reuse) [tC; tB; tC]) as Hr by (apply (bool_decide_unpack _); by vm_compute).
  split; [by constructor|]. split; [constructor|].
  - intros t Ht. apply Hr. by right.
  - intros t ->%elem_of_list_singleton. right. by left.
  - split; [|split_and!; by vm_compute]. intros ops Hops.
    repeat (apply elem_of_cons in Hops as [->|Hops]; [split; [apply fair_more_run; by vm_compute|by vm_compute]|]).
    by apply elem_of_nil in Hops.
Qed.

(** [past1] has groups; the entity is the only one with components of its group. *)
Example C68_laws_run_nonvacuous :
  let e := Ent 1 1 in let ops1 := [OInsert e [(tB, 90%N); (tC, 91%N)]] in
  let ops2 := [OInsert e [(tB, 90%N)]; OInsert e [(tC, 91%N)]] in
  fair_history (layout_of [[tA; tB]]) (r_evs past1) (r_w past1) (r_s past1) ∧ law (r_s past1) ops1 ops2 ∧
  layout_groups (layout_after (layout_of [[tA; tB]]) (r_evs past1)) = [[tA; tB]] ∧
  level [[tA; tB]] (r_s past1) ops1 ∧ level [[tA; tB]] (r_s past1) ops2 ∧ s_loose (r_s past1) = ∅ ∧
  view_get (run (r_w past1) ops1).2 tC e = Ok (Some 91%N) ∧ view_get (run (r_w past1) ops2).2 tB e = Ok (Some 90%N).
Proof.
  cbv zeta. split; [apply past1_fair|].
  split; [apply (law_insert_split _ _ [(tB, 90%N)] [(tC, 91%N)]); apply (bool_decide_unpack _); by vm_compute|].
  split; [by vm_compute|].
  split; [apply past1_level; by vm_compute|]. split; [apply past1_level; by vm_compute|].
  split; [apply (bool_decide_unpack _); by vm_compute|]. split; by vm_compute.
Qed.

(** [reuse] is the past; one of the handles replaces a destroyed one. *)
Example C68_extend_split_nonvacuous :
  let l := layout_after (layout_of [[tA; tB]]) (r_evs reuse) in
  let go := fair_more l (r_w reuse) (r_s reuse) in
  let rows := [[90; 91]; [92; 93]; [94; 95]]%N in let x := go [OExtend [tC; tA] rows false] in
  let y := go (map (λ r, OCreate (zip [tC; tA] r)) rows) in
  fair_history (layout_of [[tA; tB]]) (r_evs reuse) (r_w reuse) (r_s reuse) ∧
  fair_run l (r_w reuse) (r_s reuse) (r_evs x) (r_w x) (r_s x) ∧
  fair_run l (r_w reuse) (r_s reuse) (r_evs y) (r_w y) (r_s y) ∧
  (r_evs x).*1.*1 = [OExtend [tC; tA] rows false] ∧ (r_evs y).*1.*1 = map (λ r, OCreate (zip [tC; tA] r)) rows ∧
  (r_evs x).*1.*2 = [Ret (REnts [Ent 2 2; Ent 3 1; Ent 4 1])].
Proof.
  cbv zeta. split; [apply reuse_fair|]. split; [apply fair_more_run; by vm_compute|].
  split; [apply fair_more_run; by vm_compute|]. split_and!; by vm_compute.
Qed.
