(** Two pasts with the same effect on the handles that leave the same components. *)
From Verif Require Import Base Lists SparseVecM EntityM CssM LayoutM GroupM StorageM WorldM QueryM StepM
  Spec SpecMore SpecLayout SpecMembers SpecFair SpecFairPair SpecPast EntityProofs EntityRun LayoutProofs StorageProofs
  StoreOps LayoutOps WorldProofs History Lockstep Grouped MembersFacts MembersRun Facts FairFacts FairPair FairReads
  EntityHistory.

(** The client's view without the components. *)
Definition bare (s : sstate) : sstate :=
  SState ((λ _, ∅) <$> s_map s) (s_created s) (s_queued s) (s_issued s) (s_free s) ∅ ∅ ∅.

Definition some_outcome : outcome := Ret RUnit.

(** The storage of the entities and the view after a request. *)
Definition ask_step (k : estore * sstate) (a : ask) : estore * sstate :=
  match a with
  | AskCreate => match estore_create k.1 with Ok (e, st) => (st, add_entity k.2 e ∅) | _ => k end
  | AskQueue => match estore_create_atomic k.1 with Ok (e, st) => (st, add_queued k.2 e) | _ => k end
  | AskDestroy e =>
      (match estore_remove k.1 e with Ok (true, st) => st | _ => k.1 end, client_step k.2 (ODestroy e) some_outcome)
  | AskMaintain => (match estore_maintain k.1 with Ok st => st | _ => k.1 end, bare (client_step k.2 OMaintain some_outcome))
  | AskClear => (match estore_clear k.1 with Ok st => st | _ => k.1 end, client_step k.2 OClear some_outcome)
  | AskReset => (estore_reset k.1, client_step k.2 OReset some_outcome)
  end.

Lemma bare_eq s s' : (∀ e, s_alive s e ↔ s_alive s' e) → s_created s = s_created s' → s_queued s = s_queued s' →
  s_issued s = s_issued s' → s_free s = s_free s' → bare s = bare s'.
Proof.
  intros Ha Hc Hq Hi Hf. unfold bare. rewrite Hc, Hq, Hi, Hf. f_equal. apply map_eq. intros e. rewrite !lookup_fmap.
  specialize (Ha e). unfold s_alive in Ha. destruct (s_map s !! e), (s_map s' !! e); try done.
  - by destruct (proj1 Ha) as [? ?]; [eauto|].
  - by destruct (proj2 Ha) as [? ?]; [eauto|].
Qed.

Lemma bare_alive s e : s_alive (bare s) e ↔ s_alive s e.
Proof. unfold s_alive. simpl. rewrite lookup_fmap. by rewrite fmap_is_Some. Qed.

Lemma bare_add s e r : bare (add_entity s e r) = add_entity (bare s) e ∅.
Proof. unfold bare, add_entity. simpl. by rewrite fmap_insert. Qed.

Lemma bare_loosen s b es : bare (loosen s b es) = bare s.
Proof. by destruct b. Qed.

Lemma bare_with_map s m : (∀ e, is_Some (m !! e) ↔ s_alive s e) → bare (with_map s m) = bare s.
Proof. intros H. by apply bare_eq. Qed.

Lemma create_n_asks n : ∀ st es st' s ts rows, n ≤ length rows → create_n st n = Ok (es, st') →
  (st', bare (add_rows s ts es rows)) = foldl ask_step (st, bare s) (replicate (length es) AskCreate).
Proof.
  induction n as [|n IH]; intros st es st' s ts rows Hn H; simpl in H; [by simplify_eq|].
  destruct rows as [|r rows]; simpl in Hn; [lia|].
  destruct (estore_create st) as [[e st1]| |] eqn:Hc; [|by simplify_eq..].
  destruct (create_n st1 n) as [[es1 st2]| |] eqn:Hn1; simplify_eq. simpl. rewrite Hc.
  rewrite (IH _ _ _ (add_entity s e (put (s_reg s) (zip ts r) ∅)) ts rows ltac:(lia) Hn1). by rewrite bare_add.
Qed.

Lemma step_asks w s o out dr w' : einv (w_ents w) s → step w o = (out, dr, w') → ub_free out →
  (w_ents w', bare (client_step s o out)) = foldl ask_step (w_ents w, bare s) (asks (o, out, dr)).
Proof.
  intros HE Hs Hu. pose proof (step_ent_effect _ _ _ _ _ _ HE Hs Hu) as He.
  destruct o as [cs|ts rows p|e| | |e cs|e ts|e ts| | |t|l perm|t e v|G J X f]; cbn [ent_effect] in He; unfold asks;
    cbn [fst snd]; cbn [client_step].
  - rewrite bare_loosen. destruct (estore_create (w_ents w)) as [[e st]| |] eqn:Hc; [|by injection He as <- <-|done].
    injection He as <- <-. simpl. rewrite Hc. by rewrite bare_add.
  - rewrite bare_loosen. destruct (forallb _ ts).
    + by eapply create_n_asks.
    + injection He as <- <-. by destruct rows.
  - simpl. assert (bare (client_step s (ODestroy e) out) = client_step (bare s) (ODestroy e) some_outcome) as Hb.
    { simpl. destruct (decide (s_alive s e)) as [Ha|Ha].
      - rewrite decide_True by (by apply bare_alive). unfold bare. simpl. rewrite fmap_delete. f_equal. set_solver.
      - rewrite decide_False by (by rewrite bare_alive). done. }
    simpl in Hb. rewrite Hb. f_equal. destruct (estore_remove (w_ents w) e) as [[[] st]| |]; by simplify_eq/=.
  - destruct (estore_create_atomic (w_ents w)) as [[e st]| |] eqn:Hc; [|by injection He as <- <-|done].
    injection He as <- <-. simpl. by rewrite Hc.
  - simpl. f_equal.
    + destruct (estore_maintain (w_ents w)) as [st| |]; by simplify_eq/=.
    + apply bare_eq; try done. intros e. unfold s_alive. simpl. rewrite !lookup_union_is_Some, lookup_fmap, fmap_is_Some. done.
  - injection He as _ <-. cbn [foldl]. f_equal. destruct (decide (s_alive s e)) as [Ha|Ha]; [|done].
    rewrite bare_loosen. apply bare_with_map. intros e'.
    destruct (decide (e' = e)) as [->|]; [|by rewrite lookup_insert_ne]. rewrite lookup_insert. split; eauto.
  - injection He as _ <-. cbn [foldl]. f_equal. case_decide; [|done]. apply bare_with_map. intros e'. by rewrite lookup_alter_is_Some.
  - injection He as _ <-. cbn [foldl]. f_equal. case_decide; [|done]. apply bare_with_map. intros e'. by rewrite lookup_alter_is_Some.
  - simpl. f_equal; [destruct (estore_clear (w_ents w)) as [st| |]; by simplify_eq/=|].
    unfold bare. simpl. by rewrite fmap_empty.
  - injection He as _ <-. simpl. f_equal. unfold bare. simpl. by rewrite fmap_empty.
  - by injection He as _ <-.
  - by injection He as _ <-.
  - injection He as _ <-. cbn [foldl]. f_equal. apply bare_with_map. intros e'. by rewrite lookup_alter_is_Some.
  - injection He as _ <-. cbn [foldl]. f_equal. destruct out as [[]| |]; try done. apply bare_with_map. intros e'.
    unfold visit_all. rewrite map_lookup_imap. unfold s_alive. destruct (s_map s !! e'); simpl; split; intros [? ?]; eauto; done.
Qed.

Lemma fair_run_asks l w0 s0 ds0 evs w s :
  winv w0 s0 ds0 → laid_out l (w_comps w0) → fair_run l w0 s0 evs w s →
  (w_ents w, bare s) = foldl ask_step (w_ents w0, bare s0) (evs ≫= asks).
Proof.
  intros HI HL Hr. induction Hr as [|evs w1 s1 o out dr w2 Hr IH Hop Hs Hg Hf]; [done|].
  destruct (fair_run_inv _ _ _ _ _ _ _ HI HL Hr) as (HL1 & ds1 & HI1 & _).
  destruct (fair_step_inv _ _ _ _ _ _ _ _ HI1 HL1 Hop Hg Hs Hf) as (Hout & _).
  rewrite bind_app, foldl_app, <-IH. simpl. rewrite app_nil_r.
  exact (step_asks _ _ _ _ _ _ (wi_ents _ _ _ HI1) Hs (allowed_ub_free _ _ _ Hout)).
Qed.

(** The views of two pasts agree. *)
Lemma bare_agree s1 s2 : bare s1 = bare s2 → s_map s1 = s_map s2 → s_reg s1 = s_reg s2 → s_loose s1 = s_loose s2 → agree s1 s2.
Proof. unfold bare. intros [= _ H2 H3 H4 H5] H6 H7 H8. by split. Qed.

Lemma inv_alike l1 w1 s1 ds1 l2 w2 s2 ds2 :
  winv w1 s1 ds1 → laid_out l1 (w_comps w1) → winv w2 s2 ds2 → laid_out l2 (w_comps w2) →
  w_ents w1 = w_ents w2 → agree s1 s2 → alike l1 w1 s1 l2 w2 s2.
Proof.
  intros HI1 HL1 HI2 HL2 Hw Hag evs1 evs2 v1 t1 v2 t2 Hp.
  destruct (fair_paired_inv _ _ _ _ _ _ _ _ _ _ _ _ _ _ HI1 HL1 HI2 HL2 Hw Hag Hp) as ([e1 HJ1] & _ & [e2 HJ2] & _ & Hw' & Hag' & HF).
  split_and!; [done|by eapply inv_answers|]. by eapply inv_queries.
Qed.

(** What [view_get] answers determines the components. *)
Lemma gets_map w1 s1 ds1 w2 s2 ds2 :
  winv w1 s1 ds1 → winv w2 s2 ds2 → bare s1 = bare s2 → (∀ t e, view_get w1 t e = view_get w2 t e) →
  s_map s1 = s_map s2 ∧ s_reg s1 = s_reg s2.
Proof.
  intros HI1 HI2 Hb Hv.
  assert (∀ t e, (if decide (t ∈ s_reg s1) then Ok (s_row s1 e !! t) else Panic) =
                 (if decide (t ∈ s_reg s2) then Ok (s_row s2 e !! t) else Panic : res (option val))) as Hg.
  { intros t e. rewrite <-(inv_view_get _ _ _ t e HI1), <-(inv_view_get _ _ _ t e HI2). apply Hv. }
  assert (s_reg s1 = s_reg s2) as Hr.
  { apply set_eq. intros t. specialize (Hg t (Ent 0 0)). by destruct (decide (t ∈ s_reg s1)), (decide (t ∈ s_reg s2)). }
  split; [|done]. apply map_eq. intros e.
  assert (s_alive s1 e ↔ s_alive s2 e) as Ha by (by rewrite <-(bare_alive s1), <-(bare_alive s2), Hb).
  assert (∀ t, s_row s1 e !! t = s_row s2 e !! t) as Hrow.
  { intros t. specialize (Hg t e). rewrite Hr in Hg. destruct (decide (t ∈ s_reg s2)) as [|Hn]; [by simplify_eq|].
    assert (∀ s w ds, winv w s ds → t ∉ s_reg s → s_row s e !! t = None) as H.
    { intros s w ds HI Hn'. destruct (s_row s e !! t) as [v|] eqn:E; [|done]. exfalso. apply Hn'.
      apply (ci_types _ _ _ _ _ _ (wi_comps _ _ _ HI) e t v). unfold s_row in E. unfold am_has.
      destruct (s_map s !! e) as [r|]; [by exists r|]. simpl in E. by rewrite lookup_empty in E. }
    rewrite (H _ _ _ HI1), (H _ _ _ HI2); [done..|by rewrite Hr]. }
  unfold s_alive, s_row in *. destruct (s_map s1 !! e) as [r1|], (s_map s2 !! e) as [r2|]; try done.
  - f_equal. by apply map_eq.
  - by destruct (proj1 Ha) as [? ?]; [eauto|].
  - by destruct (proj2 Ha) as [? ?]; [eauto|].
Qed.

Lemma past_forgotten l1 evs1 w1 s1 l2 evs2 w2 s2 :
  fair_history l1 evs1 w1 s1 → fair_history l2 evs2 w2 s2 → evs1 ≫= asks = evs2 ≫= asks →
  (∀ t e, view_get w1 t e = view_get w2 t e) → s_loose s1 = s_loose s2 →
  alike (layout_after l1 evs1) w1 s1 (layout_after l2 evs2) w2 s2.
Proof.
  intros H1 H2 Hasks Hv Hl.
  destruct (fair_history_inv _ _ _ _ H1) as (HL1 & ds1 & HI1 & _). destruct (fair_history_inv _ _ _ _ H2) as (HL2 & ds2 & HI2 & _).
  destruct H1 as (gs1 & ts1 & v1 & Hg1 & Hb1 & Hr1), H2 as (gs2 & ts2 & v2 & Hg2 & Hb2 & Hr2).
  destruct (built_start _ _ _ _ Hg1 Hb1) as ([d1 HJ1] & HK1 & He1). destruct (built_start _ _ _ _ Hg2 Hb2) as ([d2 HJ2] & HK2 & He2).
  pose proof (fair_run_asks _ _ _ _ _ _ _ HJ1 HK1 Hr1) as Ha1. pose proof (fair_run_asks _ _ _ _ _ _ _ HJ2 HK2 Hr2) as Ha2.
  rewrite He1, Hasks in Ha1. rewrite He2 in Ha2.
  assert (bare (s_init l1 ts1) = bare (s_init l2 ts2)) as Hb by (by apply bare_eq). rewrite Hb, <-Ha2 in Ha1.
  apply pair_equal_spec in Ha1 as [Hw Hbare]. destruct (gets_map _ _ _ _ _ _ HI1 HI2 Hbare Hv) as [Hm Hr].
  eapply inv_alike; try done. by apply bare_agree.
Qed.

(** ** Calls that can be replaced by others *)

Fixpoint goes (s : sstate) (ops : list op) (s' : sstate) : Prop :=
  match ops with
  | [] => s' = s
  | o :: ops => ∃ out, allowed s o out ∧ goes (client_step s o out) ops s'
  end.

Lemma goes_snoc ops : ∀ s s1 o out, goes s ops s1 → allowed s1 o out → goes s (ops ++ [o]) (client_step s1 o out).
Proof.
  induction ops as [|o' ops IH]; intros s s1 o out H Ha; simpl in *; [subst; eauto|].
  destruct H as (out' & Ha' & H). exists out'. eauto.
Qed.

Lemma fair_run_goes l w0 s0 ds0 evs w s :
  winv w0 s0 ds0 → laid_out l (w_comps w0) → fair_run l w0 s0 evs w s → goes s0 evs.*1.*1 s.
Proof.
  intros HI HL Hr. induction Hr as [|evs w1 s1 o out dr w2 Hr IH Hop Hs Hg Hf]; [done|].
  destruct (fair_run_inv _ _ _ _ _ _ _ HI HL Hr) as (HL1 & ds1 & HI1 & _).
  destruct (fair_step_inv _ _ _ _ _ _ _ _ HI1 HL1 Hop Hg Hs Hf) as (Hout & _).
  rewrite !fmap_app. by apply goes_snoc.
Qed.

Definition ask_op (o : op) : list ask := asks (o, some_outcome, []).
Definition no_new (o : op) : Prop := match o with OCreate _ | OExtend _ _ _ | OCreateAtomic => False | _ => True end.

Lemma asks_ops evs : Forall no_new evs.*1.*1 → evs ≫= asks = evs.*1.*1 ≫= ask_op.
Proof.
  induction evs as [|[[o out] dr] evs IH]; [done|]. rewrite !fmap_cons, !bind_cons. intros [Ho H]%Forall_cons.
  rewrite IH by done. f_equal. by destruct o.
Qed.

Lemma law_asks s ops1 ops2 : law s ops1 ops2 → Forall no_new ops1 ∧ Forall no_new ops2 ∧ ops1 ≫= ask_op = ops2 ≫= ask_op.
Proof. intros []; (split_and!; [by repeat constructor..|done]). Qed.

Lemma with_map_id s m : m = s_map s → with_map s m = s.
Proof. intros ->. by destruct s. Qed.

Lemma alter_none (f : row → row) e (m : gmap entity row) : m !! e = None → alter f e m = m.
Proof.
  intros H. apply map_eq. intros e'. destruct (decide (e = e')) as [<-|]; [|by rewrite lookup_alter_ne].
  by rewrite lookup_alter, H.
Qed.

Lemma ins_step s e cs out : all_reg s cs.*1 → allowed s (OInsert e cs) out →
  client_step s (OInsert e cs) out = with_map s (alter (put (s_reg s) cs) e (s_map s)).
Proof.
  intros Hr ->. simpl. destruct (decide (s_alive s e)) as [[r Hr']|Ha].
  - rewrite decide_True by done. simpl. f_equal. apply map_eq. intros e'. unfold s_row. rewrite Hr'. simpl.
    destruct (decide (e = e')) as [<-|]; [|by rewrite lookup_insert_ne, lookup_alter_ne].
    by rewrite lookup_insert, lookup_alter, Hr'.
  - symmetry. apply with_map_id. apply alter_none. by apply eq_None_not_Some.
Qed.

Lemma del_step s e ts out : all_reg s ts →
  client_step s (ODelete e ts) out = with_map s (alter (λ r, delete_all r ts) e (s_map s)).
Proof. intros Hr. simpl. by rewrite decide_True. Qed.

Lemma put_split reg cs1 cs2 : ∀ r, (∀ t, t ∈ cs1.*1 → t ∈ reg) → put reg (cs1 ++ cs2) r = put reg cs2 (put reg cs1 r).
Proof.
  induction cs1 as [|[t v] cs1 IH]; intros r H; [done|]. simpl. rewrite !decide_True by (apply H; by left).
  apply IH. intros t' Ht. apply H. by right.
Qed.

Lemma delete_all_split r ts1 ts2 : delete_all r (ts1 ++ ts2) = delete_all (delete_all r ts1) ts2.
Proof. revert r. by induction ts1 as [|t ts1 IH]; intros r; simpl. Qed.

Lemma put_lookup reg cs r t : (∀ t, t ∈ cs.*1 → t ∈ reg) →
  put reg cs r !! t = if decide (t ∈ cs.*1) then tuple_row cs !! t else r !! t.
Proof.
  intros H. destruct (decide (t ∈ cs.*1)) as [Ht|Ht]; [|by apply put_ne].
  rewrite put_tuple by done. destruct (tuple_row cs !! t) as [v|] eqn:E; [by apply lookup_union_Some_l|].
  exfalso. unfold tuple_row in E. apply not_elem_of_list_to_map_2 in E. apply E. by rewrite fmap_reverse, elem_of_reverse.
Qed.

Lemma del_del_step s e1 ts1 o1 e2 ts2 o2 : all_reg s ts1 → all_reg s ts2 →
  client_step (client_step s (ODelete e1 ts1) o1) (ODelete e2 ts2) o2 =
  with_map s (alter (λ r, delete_all r ts2) e2 (alter (λ r, delete_all r ts1) e1 (s_map s))).
Proof. intros H1 H2. rewrite (del_step s) by done. by rewrite (del_step (with_map _ _)). Qed.

Lemma law_view s ops1 ops2 s1 s2 : law s ops1 ops2 → (∀ e t, is_Some (s_row s e !! t) → t ∈ s_reg s) →
  goes s ops1 s1 → goes s ops2 s2 → s_map s1 = s_map s2 ∧ s_reg s1 = s_reg s2 ∧ s_loose s1 = s_loose s2.
Proof.
  intros [e cs1 cs2 Hr|e cs1 cs2 Hr Hnd Hp|e1 cs1 e2 cs2 Hr1 Hr2 Hne|e ts1 ts2 Hr|e ts1 ts2 Hr Heq|e1 ts1 e2 ts2 Hr1 Hr2
         |e1 cs e2 ts Hr1 Hr2 Hd|e ts cs Hr Hin|e cs ts Hr Hin|e ts|t e v Hv|e ts|e cs Hr] Hreg.
  - intros (o & Ho & ->) (o1 & H1 & o2 & H2 & ->).
    assert (all_reg s cs1.*1) as Hr1 by (intros t Ht; apply Hr; rewrite fmap_app; apply elem_of_app; by left).
    assert (all_reg s cs2.*1) as Hr2 by (intros t Ht; apply Hr; rewrite fmap_app; apply elem_of_app; by right).
    rewrite (ins_step _ _ _ _ Hr Ho). revert H2. rewrite (ins_step _ _ _ _ Hr1 H1). intros H2. rewrite (ins_step (with_map _ _) _ _ _ Hr2 H2).
    simpl. split_and!; [|done..]. rewrite <-alter_compose. apply alter_ext. intros r _. by apply put_split.
  - intros (o1 & H1 & ->) (o2 & H2 & ->).
    assert (all_reg s cs2.*1) as Hr2 by (intros t Ht; apply Hr; by rewrite Hp).
    rewrite (ins_step _ _ _ _ Hr H1), (ins_step _ _ _ _ Hr2 H2). simpl. split_and!; [|done..].
    apply alter_ext. intros r _. rewrite !put_tuple by done. f_equal. unfold tuple_row. apply list_to_map_proper.
    + rewrite fmap_reverse. by rewrite reverse_Permutation.
    + by rewrite !reverse_Permutation.
  - intros (o1 & H1 & o2 & H2 & ->) (o3 & H3 & o4 & H4 & ->).
    revert H2 H4. rewrite (ins_step _ _ _ _ Hr1 H1), (ins_step _ _ _ _ Hr2 H3). intros H2 H4.
    rewrite (ins_step (with_map _ _) _ _ _ Hr2 H2), (ins_step (with_map _ _) _ _ _ Hr1 H4). simpl. split_and!; [|done..].
    by apply alter_commute.
  - intros (o & Ho & ->) (o1 & H1 & o2 & H2 & ->).
    assert (all_reg s ts1) as Hr1 by (intros t Ht; apply Hr, elem_of_app; by left).
    assert (all_reg s ts2) as Hr2 by (intros t Ht; apply Hr, elem_of_app; by right).
    rewrite (del_del_step s), (del_step s) by done. simpl. split_and!; [|done..].
    rewrite <-alter_compose. apply alter_ext. intros r _. apply delete_all_split.
  - intros (o1 & H1 & ->) (o2 & H2 & ->).
    assert (all_reg s ts2) as Hr2 by (intros t Ht; apply Hr; by apply Heq).
    rewrite (del_step _ _ _ _ Hr), (del_step _ _ _ _ Hr2). simpl. split_and!; [|done..].
    apply alter_ext. intros r _. apply map_eq. intros t. rewrite !delete_all_lookup. by rewrite (decide_ext _ _ _ _ (Heq t)).
  - intros (o1 & H1 & o2 & H2 & ->) (o3 & H3 & o4 & H4 & ->).
    rewrite !(del_del_step s) by done. simpl. split_and!; [|done..].
    destruct (decide (e1 = e2)) as [<-|]; [|by apply alter_commute].
    rewrite <-!alter_compose. apply alter_ext. intros r _. apply map_eq. intros t. simpl. rewrite !delete_all_lookup.
    by destruct (decide (t ∈ ts1)), (decide (t ∈ ts2)).
  - intros (o1 & H1 & o2 & H2 & ->) (o3 & H3 & o4 & H4 & ->).
    rewrite (ins_step _ _ _ _ Hr1 H1). revert H4. rewrite (del_step (with_map _ _)), (del_step s) by done. intros H4. rewrite (ins_step (with_map _ _) _ _ _ Hr1 H4).
    simpl. split_and!; [|done..]. destruct (decide (e1 = e2)) as [<-|]; [|by apply alter_commute].
    destruct Hd as [Hd|Hd]; [done|].
    rewrite <-!alter_compose. apply alter_ext. intros r _. apply map_eq. intros t. simpl.
    rewrite delete_all_lookup, !put_lookup, delete_all_lookup by done.
    destruct (decide (t ∈ ts)) as [Ht|]; [|done]. by rewrite decide_False by (by apply Hd).
  - intros (o1 & H1 & o2 & H2 & ->) (o3 & H3 & ->).
    assert (all_reg s ts) as Hr2 by (intros t Ht; apply Hr; by apply Hin).
    revert H2. rewrite (del_step _ _ _ _ Hr2), (ins_step _ _ _ _ Hr H3). intros H2. rewrite (ins_step (with_map _ _) _ _ _ Hr H2).
    simpl. split_and!; [|done..]. rewrite <-alter_compose. apply alter_ext. intros r _. apply map_eq. intros t. simpl.
    rewrite !put_lookup, delete_all_lookup by done. destruct (decide (t ∈ cs.*1)) as [|Hn]; [done|].
    rewrite decide_False; [done|]. intros Ht. by apply Hn, Hin.
  - intros (o1 & H1 & o2 & H2 & ->) (o3 & H3 & ->).
    assert (all_reg s cs.*1) as Hr2 by (intros t Ht; apply Hr; by apply Hin).
    rewrite (ins_step _ _ _ _ Hr2 H1), (del_step (with_map _ _)), (del_step s) by done.
    simpl. split_and!; [|done..]. rewrite <-alter_compose. apply alter_ext. intros r _. apply map_eq. intros t. simpl.
    rewrite !delete_all_lookup, put_lookup by done. destruct (decide (t ∈ ts)) as [|Hn]; [done|].
    rewrite decide_False; [done|]. intros Ht. by apply Hn, Hin.
  - intros (o1 & H1 & ->) (o2 & H2 & ->). simpl. by destruct (decide (all_reg s ts)).
  - intros (o1 & H1 & ->) (o2 & H2 & ->).
    assert (all_reg s [(t, v)].*1) as Hr by (intros t' Ht; apply elem_of_list_singleton in Ht as ->; by eapply Hreg).
    rewrite (ins_step _ _ _ _ Hr H2). simpl. split_and!; [|done..]. apply alter_ext. intros r Hm.
    unfold s_row in Hv. rewrite Hm in Hv. simpl in Hv. rewrite decide_True by done.
    rewrite decide_True; [done|]. apply Hr. by left.
  - intros (o1 & H1 & o2 & H2 & ->) (o3 & H3 & ->). 
    destruct (decide (all_reg s ts)) as [Hr|Hr].
    2:{ assert (client_step s (ODelete e ts) o1 = s) as -> by (simpl; by rewrite decide_False). simpl. by destruct (decide (s_alive s e)). }
    rewrite (del_step s) by done. cbn [client_step].
    destruct (decide (s_alive s e)) as [Ha|Ha].
    + rewrite decide_True by (unfold s_alive; simpl; by apply lookup_alter_is_Some). simpl. split_and!; [|done..].
      apply delete_alter.
    + rewrite decide_False by (unfold s_alive; simpl; by rewrite lookup_alter_is_Some). simpl. split_and!; [|done..].
      apply alter_none. by apply eq_None_not_Some.
  - intros (o1 & H1 & o2 & H2 & ->) (o3 & H3 & ->). 
    rewrite (ins_step _ _ _ _ Hr H1). cbn [client_step].
    destruct (decide (s_alive s e)) as [Ha|Ha].
    + rewrite decide_True by (unfold s_alive; simpl; by apply lookup_alter_is_Some). simpl. split_and!; [|done..].
      apply delete_alter.
    + rewrite decide_False by (unfold s_alive; simpl; by rewrite lookup_alter_is_Some). simpl. split_and!; [|done..].
      apply alter_none. by apply eq_None_not_Some.
Qed.

Lemma row_registered w s ds e t : winv w s ds → is_Some (s_row s e !! t) → t ∈ s_reg s.
Proof.
  intros HI [v E]. apply (ci_types _ _ _ _ _ _ (wi_comps _ _ _ HI) e t v). unfold s_row in E. unfold am_has.
  destruct (s_map s !! e) as [r|]; [by exists r|]. simpl in E. by rewrite lookup_empty in E.
Qed.

Lemma laws_hold l evs w s ops1 ops2 evs1 w1 s1 evs2 w2 s2 :
  fair_history l evs w s → law s ops1 ops2 →
  fair_run (layout_after l evs) w s evs1 w1 s1 → evs1.*1.*1 = ops1 →
  fair_run (layout_after l evs) w s evs2 w2 s2 → evs2.*1.*1 = ops2 →
  alike (layout_after (layout_after l evs) evs1) w1 s1 (layout_after (layout_after l evs) evs2) w2 s2.
Proof.
  intros Hh Hlaw Hr1 <- Hr2 <-. destruct (fair_history_inv _ _ _ _ Hh) as (HL & ds & HI & _).
  destruct (fair_run_inv _ _ _ _ _ _ _ HI HL Hr1) as (HL1 & ds1 & HI1 & _).
  destruct (fair_run_inv _ _ _ _ _ _ _ HI HL Hr2) as (HL2 & ds2 & HI2 & _).
  destruct (law_asks _ _ _ Hlaw) as (Hn1 & Hn2 & Hask).
  pose proof (fair_run_asks _ _ _ _ _ _ _ HI HL Hr1) as Ha1. pose proof (fair_run_asks _ _ _ _ _ _ _ HI HL Hr2) as Ha2.
  rewrite asks_ops, Hask, <-asks_ops, <-Ha2 in Ha1 by done. apply pair_equal_spec in Ha1 as [Hw Hb].
  destruct (law_view _ _ _ _ _ Hlaw (λ e t, row_registered _ _ _ e t HI) (fair_run_goes _ _ _ _ _ _ _ HI HL Hr1)
    (fair_run_goes _ _ _ _ _ _ _ HI HL Hr2)) as (Hm & Hreg & Hl).
  eapply inv_alike; try done. by apply bare_agree.
Qed.

(** If nothing but equal versions is around, every call is fair. *)
Definition at_ease (o : op) : Prop :=
  match o with OInsert _ _ | ODelete _ _ | ORemove _ _ | ODestroy _ | OSet _ _ _ => True | _ => False end.

Lemma put_has reg cs r t : is_Some (put reg cs r !! t) → t ∈ cs.*1 ∨ is_Some (r !! t).
Proof. intros H. destruct (decide (t ∈ cs.*1)) as [|Hn]; [by left|right]. by rewrite (put_ne reg cs r t Hn) in H. Qed.

Lemma row_alter (f : row → row) s e e' : s_row (with_map s (alter f e (s_map s))) e' =
  if decide (e' = e) then (if decide (s_alive s e) then f (s_row s e) else ∅) else s_row s e'.
Proof.
  unfold s_row, s_alive. simpl. destruct (decide (e' = e)) as [->|].
  - rewrite lookup_alter. by destruct (s_map s !! e).
  - by rewrite lookup_alter_ne.
Qed.

Lemma step_has s ops s1 o out : (∀ e t, is_Some (s_row s1 e !! t) → has_or_gets s ops e t) → o ∈ ops → at_ease o →
  ∀ e t, is_Some (s_row (client_step s1 o out) e !! t) → has_or_gets s ops e t.
Proof.
  intros HP Ho Hc e t. destruct o as [| |e'| | |e' cs|e' ts|e' ts| | | | |t' e' v|]; try done; cbn [client_step].
  - case_decide; [|apply HP]. unfold s_row at 1. simpl. destruct (decide (e = e')) as [->|].
    + rewrite lookup_delete. simpl. by rewrite lookup_empty, is_Some_alt.
    + rewrite lookup_delete_ne by done. apply HP.
  - case_decide; [|apply HP].
    assert (s_row (loosen (with_map s1 (<[e':=put (s_reg s1) cs (s_row s1 e')]> (s_map s1))) (panicked out) [e']) e =
      if decide (e = e') then put (s_reg s1) cs (s_row s1 e') else s_row s1 e) as ->.
    { unfold s_row at 1. destruct (panicked out); simpl; (destruct (decide (e = e')) as [->|]; [by rewrite lookup_insert|by rewrite lookup_insert_ne]). }
    destruct (decide (e = e')) as [->|]; [|apply HP]. intros [H1|H1]%put_has; [right; eauto|by apply HP].
  - case_decide; [|apply HP]. rewrite row_alter. destruct (decide (e = e')) as [->|]; [|apply HP].
    case_decide; [|by rewrite lookup_empty, is_Some_alt]. rewrite delete_all_lookup. case_decide; [by rewrite is_Some_alt|apply HP].
  - case_decide; [|apply HP]. rewrite row_alter. destruct (decide (e = e')) as [->|]; [|apply HP].
    case_decide; [|by rewrite lookup_empty, is_Some_alt]. rewrite delete_all_lookup. case_decide; [by rewrite is_Some_alt|apply HP].
  - rewrite row_alter. destruct (decide (e = e')) as [->|]; [|apply HP].
    case_decide; [|by rewrite lookup_empty, is_Some_alt]. case_decide as Hs; [|apply HP].
    destruct (decide (t = t')) as [->|]; [intros _; by apply HP|rewrite lookup_insert_ne by done; apply HP].
Qed.

Lemma level_fair L s ops s1 o out : (∀ g, g ∈ L → ∃ t, t ∈ g) → level L s ops →
  (∀ e t, is_Some (s_row s1 e !! t) → has_or_gets s ops e t) → o ∈ ops → at_ease o → fair_call L s1 o out.
Proof.
  intros Hne HL HP Ho Hc. pose proof (step_has s ops s1 o out HP Ho Hc) as HP'.
  assert (∀ e, names o e → ∀ g, g ∈ L → may_leave s1 e g) as Hleave.
  { intros e Hn g Hg f He Hf. destruct (Hne g Hg) as [t Ht]. eapply (HL g e f o t t); eauto. }
  destruct o as [| |e'| | |e' cs|e' ts|e' ts| | | | |t' e' v|]; try done; cbn [fair_call].
  - intros g Hg. by apply Hleave.
  - intros _ _ g Hg _ e f He Hall (t' & Ht' & Hf) _. apply elem_of_list_singleton in He as ->.
    destruct (Hne g Hg) as [t Ht]. eapply (HL g e' f _ t t'); eauto. done.
  - intros g Hg _. by apply Hleave.
  - intros g Hg _. by apply Hleave.
Qed.

Lemma level_run L s ops0 ops : ∀ l0 w0 s0 evs w s1 outs w',
  layout_groups (layout_after l0 evs) = L → (∀ g, g ∈ L → ∃ t, t ∈ g) → level L s ops0 →
  (∀ e t, is_Some (s_row s1 e !! t) → has_or_gets s ops0 e t) →
  Forall at_ease ops → (∀ o, o ∈ ops → o ∈ ops0) →
  fair_run l0 w0 s0 evs w s1 → run w ops = (outs, w') →
  ∃ evs' s', fair_run l0 w0 s0 (evs ++ evs') w' s' ∧ evs'.*1.*1 = ops.
Proof.
  induction ops as [|o ops IH]; intros l0 w0 s0 evs w s1 outs w' Hl Hne Hlev HP Hops Hsub Hr Hrun; simpl in Hrun.
  { injection Hrun as <- <-. exists [], s1. by rewrite app_nil_r. }
  apply Forall_cons in Hops as [Ho Hops]. assert (o ∈ ops0) as Ho0 by (apply Hsub; by left).
  destruct (step w o) as [[out dr] w1] eqn:Hs. destruct (run w1 ops) as [outs1 w2] eqn:Hr2. injection Hrun as <- <-.
  destruct (IH l0 w0 s0 (evs ++ [(o, out, dr)]) w1 (client_step s1 o out) outs1 w2) as (evs' & s' & Hr' & H1);
    [|done|done| |done| | |done|].
  - rewrite layout_after_snoc. by destruct o.
  - by apply step_has.
  - intros o' Ho'. apply Hsub. by right.
  - econstructor; [done|by destruct o|done|by destruct o|]. rewrite Hl. by eapply level_fair.
  - exists ((o, out, dr) :: evs'), s'. rewrite <-(assoc_L (++)) in Hr'. split; [done|by rewrite !fmap_cons, H1].
Qed.

Lemma law_at_ease s ops1 ops2 : law s ops1 ops2 → Forall at_ease ops1 ∧ Forall at_ease ops2.
Proof. intros []; (split; by repeat constructor). Qed.

Definition calm (s : sstate) (o : op) : Prop :=
  match o with OInsert _ cs => all_reg s cs.*1 | ODelete _ _ | ORemove _ _ | ODestroy _ | OSet _ _ _ => True | _ => False end.

Lemma goes_calm ops : ∀ s s', Forall (calm s) ops → goes s ops s' → s_loose s' ⊆ s_loose s.
Proof.
  induction ops as [|o ops IH]; intros s s' Hc; simpl; [by intros ->|]. intros (out & Ha & Hg).
  apply Forall_cons in Hc as [Ho Hc].
  assert (s_reg (client_step s o out) = s_reg s ∧ s_loose (client_step s o out) ⊆ s_loose s) as [Hr Hl].
  { destruct o; try done.
    - simpl. case_decide; [|done]. simpl. split; [done|]. set_solver.
    - by rewrite (ins_step _ _ _ _ Ho Ha).
    - simpl. by case_decide.
    - simpl. by case_decide. }
  etrans; [eapply IH; [|exact Hg]|done]. eapply Forall_impl; [exact Hc|]. intros [] H; try done.
  simpl in *. unfold all_reg in *. by rewrite Hr.
Qed.

Lemma law_calm s ops1 ops2 : law s ops1 ops2 → Forall (calm s) ops1.
Proof.
  intros [e cs1 cs2 Hr|e cs1 cs2 Hr Hnd Hp|e1 cs1 e2 cs2 Hr1 Hr2 Hne|e ts1 ts2 Hr|e ts1 ts2 Hr Heq|e1 ts1 e2 ts2 Hr1 Hr2
         |e1 cs e2 ts Hr1 Hr2 Hd|e ts cs Hr Hin|e cs ts Hr Hin|e ts|t e v Hv|e ts|e cs Hr]; repeat constructor; try done.
  intros t Ht. apply Hr. by apply Hin.
Qed.

Lemma laws_level l evs w s ops1 ops2 outs1 w1 outs2 w2 :
  fair_history l evs w s → law s ops1 ops2 →
  level (layout_groups (layout_after l evs)) s ops1 → level (layout_groups (layout_after l evs)) s ops2 →
  run w ops1 = (outs1, w1) → run w ops2 = (outs2, w2) → same_answers w1 w2 ∧ (s_loose s = ∅ → same_queries w1 w2).
Proof.
  intros Hh Hlaw Hl1 Hl2 H1 H2. destruct (law_at_ease _ _ _ Hlaw) as [He1 He2].
  destruct (fair_history_inv _ _ _ _ Hh) as (HL & ds & HI & _).
  assert (∀ g, g ∈ layout_groups (layout_after l evs) → ∃ t, t ∈ g) as Hne by (intros g Hg; by eapply layout_group_nonempty).
  destruct (level_run _ s ops1 ops1 (layout_after l evs) w s [] w s outs1 w1 eq_refl Hne Hl1) as (evs1 & s1 & Hr1 & Ho1);
    [intros e t; by left|done|done|constructor|done|].
  destruct (level_run _ s ops2 ops2 (layout_after l evs) w s [] w s outs2 w2 eq_refl Hne Hl2) as (evs2 & s2 & Hr2 & Ho2);
    [intros e t; by left|done|done|constructor|done|].
  simpl in Hr1, Hr2. pose proof (laws_hold _ _ _ _ _ _ _ _ _ _ _ _ Hh Hlaw Hr1 Ho1 Hr2 Ho2) as Ha.
  destruct (Ha [] [] w1 s1 w2 s2 (fair_paired_nil _ _ _ _ _ _)) as (_ & H3 & H4). split; [done|]. intros Hl. apply H4.
  pose proof (fair_run_goes _ _ _ _ _ _ _ HI HL Hr1) as Hgo. rewrite Ho1 in Hgo.
  pose proof (goes_calm _ _ _ (law_calm _ _ _ Hlaw) Hgo). set_solver.
Qed.

(** Creating an entity with components, or without them and inserting them. *)
Fixpoint went (s : sstate) (evs : list event) (s' : sstate) : Prop :=
  match evs with
  | [] => s' = s
  | (o, out, _) :: evs => allowed s o out ∧ went (client_step s o out) evs s'
  end.

Lemma went_snoc evs : ∀ s s1 o out dr, went s evs s1 → allowed s1 o out → went s (evs ++ [(o, out, dr)]) (client_step s1 o out).
Proof.
  induction evs as [|[[o' out'] dr'] evs IH]; intros s s1 o out dr H Ha; simpl in *; [by subst|].
  destruct H as (Ha' & H). split; eauto.
Qed.

Lemma fair_run_went l w0 s0 ds0 evs w s :
  winv w0 s0 ds0 → laid_out l (w_comps w0) → fair_run l w0 s0 evs w s → went s0 evs s.
Proof.
  intros HI HL Hr. induction Hr as [|evs w1 s1 o out dr w2 Hr IH Hop Hs Hg Hf]; [done|].
  destruct (fair_run_inv _ _ _ _ _ _ _ HI HL Hr) as (HL1 & ds1 & HI1 & _).
  destruct (fair_step_inv _ _ _ _ _ _ _ _ HI1 HL1 Hop Hg Hs Hf) as (Hout & _). by apply went_snoc.
Qed.

Lemma create_split l evs w s cs e dr1 w1 s1 e' dr2 out dr3 w2 s2 :
  fair_history l evs w s →
  fair_run (layout_after l evs) w s [(OCreate cs, Ret (REnt e), dr1)] w1 s1 →
  fair_run (layout_after l evs) w s [(OCreate [], Ret (REnt e'), dr2); (OInsert e' cs, out, dr3)] w2 s2 →
  e = e' ∧ alike (layout_after l evs) w1 s1 (layout_after l evs) w2 s2.
Proof.
  intros Hh Hr1 Hr2. destruct (fair_history_inv _ _ _ _ Hh) as (HL & ds & HI & _).
  destruct (fair_run_inv _ _ _ _ _ _ _ HI HL Hr1) as (HL1 & ds1 & HI1 & _).
  destruct (fair_run_inv _ _ _ _ _ _ _ HI HL Hr2) as (HL2 & ds2 & HI2 & _).
  pose proof (fair_run_asks _ _ _ _ _ _ _ HI HL Hr1) as Ha1. pose proof (fair_run_asks _ _ _ _ _ _ _ HI HL Hr2) as Ha2.
  change ([(OCreate [], Ret (REnt e'), dr2); (OInsert e' cs, out, dr3)] ≫= asks) with [AskCreate] in Ha2.
  change ([(OCreate cs, Ret (REnt e), dr1)] ≫= asks) with [AskCreate] in Ha1.
  rewrite <-Ha2 in Ha1. apply pair_equal_spec in Ha1 as [Hw Hb].
  destruct (fair_run_went _ _ _ _ _ _ _ HI HL Hr1) as [Hc1 Hs1].
  destruct (fair_run_went _ _ _ _ _ _ _ HI HL Hr2) as (Hc2 & Hc3 & Hs2).
  assert (all_reg s cs.*1 ∧ new_handle s e) as [Hreg Hnew].
  { destruct Hc1 as [[? (e0 & [= ->] & ?)]|[[_ (? & ? & _)]|[? _]]]; done. }
  remember (client_step s (OCreate []) (Ret (REnt e'))) as s' eqn:Hs'.
  change (client_step s (OCreate []) (Ret (REnt e'))) with (add_entity s e' ∅) in Hs'.
  change (s1 = add_entity s e (put (s_reg s) cs ∅)) in Hs1.
  assert (all_reg s' cs.*1) as Hreg' by (by rewrite Hs').
  rewrite (ins_step _ _ _ _ Hreg' Hc3) in Hs2.
  assert (e = e') as <-.
  { assert (s_issued s1 = s_issued s2) as Hi by (by injection Hb). rewrite Hs1, Hs2, Hs' in Hi. simpl in Hi.
    assert (e ∈ {[e']} ∪ s_issued s) as He by (rewrite <-Hi; set_solver). apply elem_of_union in He as [He|He].
    - by apply elem_of_singleton in He.
    - by destruct Hnew as (_ & ? & _). }
  split; [done|]. eapply inv_alike; try done. apply bare_agree; [done| | |]; rewrite Hs1, Hs2, Hs'; [|done..].
  simpl. apply map_eq. intros f. destruct (decide (e = f)) as [<-|]; [|by rewrite lookup_alter_ne, !lookup_insert_ne].
  by rewrite lookup_alter, !lookup_insert.
Qed.

(** Creating entities with [extend], or one by one. *)
Fixpoint served (st : estore) (s : sstate) (evs : list event) (st' : estore) (s' : sstate) : Prop :=
  match evs with
  | [] => st' = st ∧ s' = s
  | (o, out, _) :: evs =>
      allowed s o out ∧ ∃ reg st1, ent_effect reg st o = Ok (reported out, st1) ∧ served st1 (client_step s o out) evs st' s'
  end.

Lemma served_snoc evs : ∀ st s st1 s1 reg o out dr st2, served st s evs st1 s1 → allowed s1 o out →
  ent_effect reg st1 o = Ok (reported out, st2) → served st s (evs ++ [(o, out, dr)]) st2 (client_step s1 o out).
Proof.
  induction evs as [|[[o' out'] dr'] evs IH]; intros st s st1 s1 reg o out dr st2 H Ha He; simpl in *.
  - destruct H as [-> ->]. split; [done|]. by exists reg, st2.
  - destruct H as (Ha' & reg' & st' & He' & H). split; [done|]. exists reg', st'. split; [done|]. by eapply IH.
Qed.

Lemma fair_run_served l w0 s0 ds0 evs w s :
  winv w0 s0 ds0 → laid_out l (w_comps w0) → fair_run l w0 s0 evs w s → served (w_ents w0) s0 evs (w_ents w) s.
Proof.
  intros HI HL Hr. induction Hr as [|evs w1 s1 o out dr w2 Hr IH Hop Hs Hg Hf]; [done|].
  destruct (fair_run_inv _ _ _ _ _ _ _ HI HL Hr) as (HL1 & ds1 & HI1 & _).
  destruct (fair_step_inv _ _ _ _ _ _ _ _ HI1 HL1 Hop Hg Hs Hf) as (Hout & _).
  eapply served_snoc; [done..|]. exact (step_ent_effect _ _ _ _ _ _ (wi_ents _ _ _ HI1) Hs (allowed_ub_free _ _ _ Hout)).
Qed.

Lemma creates_served ts rows : ∀ st es st' s evs st2 s2,
  create_n st (length rows) = Ok (es, st') → length es = length rows → all_reg s ts →
  served st s evs st2 s2 → evs.*1.*1 = map (λ r, OCreate (zip ts r)) rows →
  evs.*1.*2 = map (λ e, Ret (REnt e)) es ∧ st2 = st' ∧ s2 = add_rows s ts es rows.
Proof.
  induction rows as [|r rows IH]; intros st es st' s evs st2 s2 Hn Hlen Hreg Hse Hops; simpl in Hn.
  - destruct evs as [|[[o out] dr] evs]; [|done]. injection Hn as <- <-. by destruct Hse as [-> ->].
  - destruct evs as [|[[o out] dr] evs]; [done|]. rewrite !fmap_cons in Hops. cbn [fst map] in Hops. injection Hops as -> Hops.
    destruct Hse as (Ha & reg & st1 & He & Hse). cbn [ent_effect] in He.
    destruct (estore_create st) as [[e st3]| |] eqn:Hc; [|injection Hn as <- <-; done|done].
    destruct (create_n st3 (length rows)) as [[es' st4]| |] eqn:Hn'; [|done..]. injection Hn as <- <-.
    injection He as He <-. injection Hlen as Hlen.
    assert (all_reg s (zip ts r).*1) as Hz.
    { intros t Ht. apply Hreg. apply elem_of_list_fmap in Ht as ([t' v] & -> & Ht). by apply elem_of_zip_l in Ht. }
    assert (out = Ret (REnt e)) as ->.
    { destruct Ha as [[_ (e' & -> & _)]|[[? _]|[-> _]]]; [by injection He as ->|done|done]. }
    destruct (IH _ _ _ (add_entity s e (put (s_reg s) (zip ts r) ∅)) _ _ _ Hn' Hlen Hreg Hse Hops) as (H1 & H2 & H3).
    split_and!; [|done|done]. rewrite !fmap_cons. simpl. by f_equal.
Qed.

Lemma extend_split l evs w s ts rows p es dr w1 s1 evs2 w2 s2 :
  fair_history l evs w s →
  fair_run (layout_after l evs) w s [(OExtend ts rows p, Ret (REnts es), dr)] w1 s1 →
  fair_run (layout_after l evs) w s evs2 w2 s2 → evs2.*1.*1 = map (λ r, OCreate (zip ts r)) rows →
  evs2.*1.*2 = map (λ e, Ret (REnt e)) es ∧
  alike (layout_after l evs) w1 s1 (layout_after (layout_after l evs) evs2) w2 s2.
Proof.
  intros Hh Hr1 Hr2 Hops. destruct (fair_history_inv _ _ _ _ Hh) as (HL & ds & HI & _).
  destruct (fair_run_inv _ _ _ _ _ _ _ HI HL Hr1) as (HL1 & ds1 & HI1 & _).
  destruct (fair_run_inv _ _ _ _ _ _ _ HI HL Hr2) as (HL2 & ds2 & HI2 & _).
  destruct (fair_run_served _ _ _ _ _ _ _ HI HL Hr1) as (Ha & reg & st1 & He & Hw1 & Hs1).
  pose proof (fair_run_served _ _ _ _ _ _ _ HI HL Hr2) as Hse. cbn [ent_effect] in He.
  destruct Ha as [(Hreg & _ & es' & [= <-] & Hlen & _)|[(_ & ? & ? & _)|[_ ?]]]; [|done..].
  assert (create_n (w_ents w) (length rows) = Ok (es, st1)) as Hn.
  { destruct (forallb reg ts); [done|]. injection He as He <-. destruct es; [|done]. by destruct rows. }
  destruct (creates_served _ _ _ _ _ _ _ _ _ Hn Hlen Hreg Hse Hops) as (H1 & H2 & H3).
  split; [done|]. change (s1 = add_rows s ts es rows) in Hs1.
  eapply inv_alike; try done; [by rewrite Hw1, H2|]. rewrite Hs1, H3. by split.
Qed.

(** ** The handles *)

Definition ask_out (st : estore) (a : ask) : list entity :=
  match a with
  | AskCreate => match estore_create st with Ok (e, _) => [e] | _ => [] end
  | AskQueue => match estore_create_atomic st with Ok (e, _) => [e] | _ => [] end
  | _ => []
  end.
Fixpoint issue (k : estore * sstate) (l : list ask) : list entity :=
  match l with [] => [] | a :: l => ask_out k.1 a ++ issue (ask_step k a) l end.

Lemma issue_app l1 l2 : ∀ k, issue k (l1 ++ l2) = issue k l1 ++ issue (foldl ask_step k l1) l2.
Proof. induction l1 as [|a l1 IH]; intros k; [done|]. simpl. by rewrite IH, (assoc_L (++)). Qed.

Lemma create_n_issue n : ∀ st es st' s, create_n st n = Ok (es, st') →
  es = issue (st, s) (replicate (length es) AskCreate).
Proof.
  induction n as [|n IH]; intros st es st' s H; simpl in H; [by simplify_eq|].
  destruct (estore_create st) as [[e st1]| |] eqn:Hc; [|by simplify_eq..].
  destruct (create_n st1 n) as [[es1 st2]| |] eqn:Hn1; simplify_eq. simpl. rewrite Hc. simpl. f_equal. by eapply IH.
Qed.

Lemma step_issue w s o out dr w' : einv (w_ents w) s → step w o = (out, dr, w') → ub_free out →
  reported out = issue (w_ents w, bare s) (asks (o, out, dr)).
Proof.
  intros HE Hs Hu. pose proof (step_ent_effect _ _ _ _ _ _ HE Hs Hu) as He.
  destruct o as [cs|ts rows p|e| | |e cs|e ts|e ts| | |t|l perm|t e v|G J X f]; cbn [ent_effect] in He; unfold asks;
    cbn [fst snd]; try (by injection He as <- _).
  - destruct (estore_create (w_ents w)) as [[e st]| |] eqn:Hc; [|by injection He as <- _|done].
    injection He as <- _. simpl. by rewrite Hc.
  - destruct (forallb _ ts); [by eapply create_n_issue|by injection He as <- _].
  - destruct (estore_remove (w_ents w) e) as [[[] st]| |]; try done; by injection He as <- _.
  - destruct (estore_create_atomic (w_ents w)) as [[e st]| |] eqn:Hc; [|by injection He as <- _|done].
    injection He as <- _. simpl. by rewrite Hc.
  - destruct (estore_maintain (w_ents w)) as [st| |]; try done; by injection He as <- _.
  - destruct (estore_clear (w_ents w)) as [st| |]; try done; by injection He as <- _.
Qed.

Lemma tidy_asks w0 s0 evs w s : einv (w_ents w0) s0 → history tidy_side w0 s0 evs w s →
  (w_ents w, bare s) = foldl ask_step (w_ents w0, bare s0) (evs ≫= asks) ∧
  (evs ≫= λ ev, reported ev.1.2) = issue (w_ents w0, bare s0) (evs ≫= asks).
Proof.
  intros HE Hh. induction Hh as [|evs w1 s1 o out dr w2 Hh IH Hop Hs Hside]; [done|].
  pose proof (history_einv _ _ _ _ _ HE Hh) as HE1. destruct IH as [IH1 IH2].
  rewrite !bind_app, foldl_app, issue_app, <-IH1, <-IH2. simpl. rewrite !app_nil_r. split.
  - exact (step_asks _ _ _ _ _ _ HE1 Hs (proj2 Hside)).
  - f_equal. exact (step_issue _ _ _ _ _ _ HE1 Hs (proj2 Hside)).
Qed.

Lemma same_handles evs1 w1 s1 evs2 w2 s2 :
  tidy_history evs1 w1 s1 → tidy_history evs2 w2 s2 → evs1 ≫= asks = evs2 ≫= asks →
  (evs1 ≫= λ ev, reported ev.1.2) = (evs2 ≫= λ ev, reported ev.1.2) ∧
  world_entities w1 = world_entities w2 ∧ ∀ e, world_contains w1 e = world_contains w2 e.
Proof.
  intros (u1 & r1 & Hb1 & Hh1) (u2 & r2 & Hb2 & Hh2) Ha.
  destruct (tidy_asks _ _ _ _ _ (built_einv _ _ Hb1) Hh1) as [H1 H2]. destruct (tidy_asks _ _ _ _ _ (built_einv _ _ Hb2) Hh2) as [H3 H4].
  assert (bare r1 = bare r2) as Hr. { destruct Hb1 as (? & ? & ? & _ & _ & ->), Hb2 as (? & ? & ? & _ & _ & ->). by apply bare_eq. }
  rewrite (built_ents _ _ Hb1), Hr, Ha in H1, H2. rewrite (built_ents _ _ Hb2) in H3, H4.
  rewrite <-H3 in H1. rewrite <-H4 in H2. apply pair_equal_spec in H1 as [Hw _].
  split; [done|]. unfold world_entities, world_contains. by rewrite Hw.
Qed.

(** ** The values *)

Lemma same_past_map l1 evs1 w1 s1 l2 evs2 w2 s2 :
  fair_history l1 evs1 w1 s1 → fair_history l2 evs2 w2 s2 → evs1 ≫= asks = evs2 ≫= asks →
  (∀ t e, view_get w1 t e = view_get w2 t e) → s_map s1 = s_map s2.
Proof.
  intros H1 H2 Hasks Hv.
  destruct (fair_history_inv _ _ _ _ H1) as (HL1 & ds1 & HI1 & _). destruct (fair_history_inv _ _ _ _ H2) as (HL2 & ds2 & HI2 & _).
  destruct H1 as (gs1 & ts1 & v1 & Hg1 & Hb1 & Hr1), H2 as (gs2 & ts2 & v2 & Hg2 & Hb2 & Hr2).
  destruct (built_start _ _ _ _ Hg1 Hb1) as ([d1 HJ1] & HK1 & He1). destruct (built_start _ _ _ _ Hg2 Hb2) as ([d2 HJ2] & HK2 & He2).
  pose proof (fair_run_asks _ _ _ _ _ _ _ HJ1 HK1 Hr1) as Ha1. pose proof (fair_run_asks _ _ _ _ _ _ _ HJ2 HK2 Hr2) as Ha2.
  rewrite He1, Hasks in Ha1. rewrite He2 in Ha2.
  assert (bare (s_init l1 ts1) = bare (s_init l2 ts2)) as Hb by (by apply bare_eq). rewrite Hb, <-Ha2 in Ha1.
  apply pair_equal_spec in Ha1 as [Hw Hbare]. by apply (gets_map _ _ _ _ _ _ HI1 HI2 Hbare Hv).
Qed.

Lemma same_past_values l1 evs1 w1 s1 l2 evs2 w2 s2 :
  fair_history l1 evs1 w1 s1 → fair_history l2 evs2 w2 s2 → evs1 ≫= asks = evs2 ≫= asks →
  (∀ t e, view_get w1 t e = view_get w2 t e) → hist_in evs1 ≡ₚ hist_in evs2 →
  hist_dropped evs1 ++ hist_out evs1 ≡ₚ hist_dropped evs2 ++ hist_out evs2.
Proof.
  intros H1 H2 Ha Hv Hin. pose proof (same_past_map _ _ _ _ _ _ _ _ H1 H2 Ha Hv) as Hm.
  pose proof (fair_balance _ _ _ _ H1) as Hb1. pose proof (fair_balance _ _ _ _ H2) as Hb2.
  rewrite Hb1, Hb2, (contents_map _ _ Hm), !(assoc_L (++)) in Hin. by eapply (inj (λ l, l ++ contents s2)).
Qed.

(** For examples: what the client knows determines [view_get]. *)
Lemma known_gets l1 evs1 w1 s1 l2 evs2 w2 s2 :
  fair_history l1 evs1 w1 s1 → fair_history l2 evs2 w2 s2 → s_map s1 = s_map s2 → s_reg s1 = s_reg s2 →
  ∀ t e, view_get w1 t e = view_get w2 t e.
Proof.
  intros (_ & ds1 & HI1 & _)%fair_history_inv (_ & ds2 & HI2 & _)%fair_history_inv Hm Hr t e.
  rewrite (inv_view_get _ _ _ t e HI1), (inv_view_get _ _ _ t e HI2). unfold s_row. by rewrite Hm, Hr.
Qed.
