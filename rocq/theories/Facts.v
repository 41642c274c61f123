(** What each call does, in terms of what a client reads before and after. *)
From Verif Require Import Base Lists SparseVecM EntityM CssM MaskM LayoutM GroupM StorageM WorldM QueryM StepM
  SparseProofs CssProofs MaskProofs GroupProofs Spec EntityProofs LayoutProofs StorageProofs StoreOps LayoutOps
  WorldProofs QueryProofs QueryRange QueryIter ForEachProofs History EntityRun EntityHistory Lockstep Contents.

Lemma delete_all_lookup ts : ∀ (r : row) t, delete_all r ts !! t = if decide (t ∈ ts) then None else r !! t.
Proof.
  induction ts as [|t' ts IH]; intros r t; simpl; [done|]. rewrite IH.
  destruct (decide (t = t')) as [->|Hne].
  - rewrite lookup_delete. rewrite (decide_True (P := t' ∈ t' :: ts)) by (by left). by case_decide.
  - rewrite lookup_delete_ne by done. case_decide as H1; case_decide as H2; try done.
    + destruct H2. by right.
    + by apply elem_of_cons in H2 as [?|?].
Qed.

(** Calls that do not add components keep a history good. *)
Lemma calm_good s o out : same_versions s → good_call s o → ¬ grows o → good_side s o out.
Proof.
  intros Hsv Hg Hn. split; [done|].
  assert (s_grouped (client_step s o out) = s_grouped s ∧
    ∀ e t, is_Some (s_row (client_step s o out) e !! t) → is_Some (s_row s e !! t)) as [Hgr Hrow].
  { clear Hsv Hg. destruct o as [cs|ts rows p|e| | |e cs|e ts|e ts| | |t|l perm|t e v|G J X f]; cbn [client_step]; try done.
    - case_decide; [|done]. split; [done|]. intros e' t. unfold s_row; simpl.
      destruct (decide (e = e')) as [<-|Hne]; [|by rewrite lookup_delete_ne].
      rewrite lookup_delete. simpl. rewrite lookup_empty. by intros [? ?].
    - assert (∀ es s, s_grouped (foldl add_queued s es) = s_grouped s ∧ s_map (foldl add_queued s es) = s_map s) as H.
      { induction es as [|x es IH]; intros s'; [done|]. simpl. by destruct (IH (add_queued s' x)) as [-> ->]. }
      destruct (H (reported out) s) as [H1 H2]. split; [done|]. unfold s_row. by rewrite H2.
    - split; [done|]. intros e t. unfold s_row; simpl. destruct (s_map s !! e) as [r|] eqn:E.
      + by rewrite (lookup_union_Some_l _ _ _ _ E).
      + rewrite lookup_union_r by done. intros [v Hv]. destruct (gset_to_gmap ∅ (s_queued s) !! e) as [r|] eqn:E'; simpl in Hv.
        * apply lookup_gset_to_gmap_Some in E' as [_ <-]. by rewrite lookup_empty in Hv.
        * by rewrite lookup_empty in Hv.
    - case_decide; [|done]. split; [done|]. intros e' t. unfold s_row; simpl. destruct (decide (e = e')) as [<-|Hne].
      + rewrite lookup_alter. destruct (s_map s !! e); simpl; [|done]. rewrite delete_all_lookup. case_decide; [by intros [? ?]|done].
      + by rewrite lookup_alter_ne.
    - case_decide; [|done]. split; [done|]. intros e' t. unfold s_row; simpl. destruct (decide (e = e')) as [<-|Hne].
      + rewrite lookup_alter. destruct (s_map s !! e); simpl; [|done]. rewrite delete_all_lookup. case_decide; [by intros [? ?]|done].
      + by rewrite lookup_alter_ne.
    - split; [done|]. intros e t. unfold s_row; simpl. rewrite lookup_empty. simpl. rewrite lookup_empty. by intros [? ?].
    - split; [done|]. intros e t. unfold s_row; simpl. rewrite lookup_empty. simpl. rewrite lookup_empty. by intros [? ?].
    - split; [done|]. intros e' t'. unfold s_row; simpl. destruct (decide (e = e')) as [<-|Hne].
      + rewrite lookup_alter. destruct (s_map s !! e) as [r|]; simpl; [|done]. case_decide as Hs; [|done].
        destruct (decide (t = t')) as [<-|]; [done|]. by rewrite lookup_insert_ne.
      + by rewrite lookup_alter_ne.
    - destruct out as [[]| |]; try done. split; [done|]. intros e t. unfold s_row; simpl. unfold visit_all.
      rewrite map_lookup_imap. destruct (s_map s !! e) as [r|]; simpl; [|done]. case_decide; [|done]. unfold visit_row.
      destruct (sees e r G); [|done]. apply assign_dom. }
  intros t e1 e2 Ht H1%Hrow H2%Hrow. rewrite Hgr in Ht. by apply (Hsv t).
Qed.

Lemma calm_step w s o out ds w' :
  reachable w s → op_ok o → good_call s o → ¬ grows o → step w o = (out, ds, w') →
  allowed s o out ∧ reachable w' (client_step s o out).
Proof.
  intros Hr Hop Hg Hn Hs. eapply reachable_step; try done. destruct (reachable_inv _ _ Hr) as [Hsv _].
  by apply calm_good.
Qed.

(** The balance of one call. *)
Lemma reach_balance w s o out ds w' :
  reachable w s → op_ok o → step w o = (out, ds, w') → good_side s o out →
  handed_in o out ++ contents s ≡ₚ ds ++ handed_out out ++ contents (client_step s o out).
Proof.
  intros Hr Hop Hs Hg. destruct (reachable_inv _ _ Hr) as (Hsv & d & HI).
  destruct (step_inv _ _ _ _ _ _ _ HI Hsv Hop Hs Hg) as (_ & d' & HI' & Hb).
  by rewrite <-(stored_contents _ _ _ HI), <-(stored_contents _ _ _ HI').
Qed.

Lemma contains_alive_at w s e : agreeing w s → world_contains w e = bool_decide (s_alive s e).
Proof. intros (_ & _ & H)%reach_entities_at. done. Qed.
Lemma contains_alive w s e : reachable w s → world_contains w e = bool_decide (s_alive s e).
Proof. exact (λ Hr, contains_alive_at w s e (reachable_agreeing _ _ Hr)). Qed.
Lemma contains_true_at w s e : agreeing w s → world_contains w e = true ↔ s_alive s e.
Proof. intros H. rewrite (contains_alive_at _ _ _ H). apply bool_decide_eq_true. Qed.
Lemma contains_true w s e : reachable w s → world_contains w e = true ↔ s_alive s e.
Proof. exact (λ Hr, contains_true_at w s e (reachable_agreeing _ _ Hr)). Qed.
Lemma contains_false w s e : reachable w s → world_contains w e = false ↔ ¬ s_alive s e.
Proof. intros H. rewrite (contains_alive _ _ _ H). apply bool_decide_eq_false. Qed.
Lemma registered_true_at w s t : agreeing w s → world_is_registered w t = true ↔ t ∈ s_reg s.
Proof. intros H. rewrite (reach_registered_at _ _ _ H). apply bool_decide_eq_true. Qed.
Lemma registered_true w s t : reachable w s → world_is_registered w t = true ↔ t ∈ s_reg s.
Proof. exact (λ Hr, registered_true_at w s t (reachable_agreeing _ _ Hr)). Qed.

Lemma reach_row w s e : reachable w s → has_comps w e (s_row s e).
Proof.
  intros H t. rewrite (reach_view_get _ _ _ _ H), (reach_registered _ _ _ H).
  by destruct (decide (t ∈ s_reg s)), (bool_decide_reflect (t ∈ s_reg s)).
Qed.

Lemma reach_unchanged w s w' s' e :
  reachable w s → reachable w' s' → s_reg s' = s_reg s → s_map s' !! e = s_map s !! e → unchanged w w' e.
Proof.
  intros H H' Hreg Hm. split.
  - rewrite (contains_alive _ _ _ H), (contains_alive _ _ _ H'). unfold s_alive. by rewrite Hm.
  - intros t. rewrite (reach_view_get _ _ _ _ H), (reach_view_get _ _ _ _ H'), Hreg. unfold s_row. by rewrite Hm.
Qed.

Lemma reach_kept w s w' s' e :
  reachable w s → reachable w' s' → s_reg s ⊆ s_reg s' → s_map s' !! e = s_map s !! e → kept w w' e.
Proof.
  intros H H' Hreg Hm. split.
  - rewrite (contains_alive _ _ _ H), (contains_alive _ _ _ H'). unfold s_alive. by rewrite Hm.
  - intros t Ht%(registered_true _ _ _ H). rewrite (reach_view_get _ _ _ _ H), (reach_view_get _ _ _ _ H').
    rewrite !decide_True by auto. unfold s_row. by rewrite Hm.
Qed.

Lemma put_tuple reg cs : ∀ r, (∀ t, t ∈ cs.*1 → t ∈ reg) → put reg cs r = tuple_row cs ∪ r.
Proof.
  unfold tuple_row. induction cs as [|[t v] cs IH]; intros r Hreg.
  - simpl. by rewrite (left_id_L ∅ (∪)).
  - simpl. rewrite decide_True by (apply Hreg; by left). rewrite IH by (intros; apply Hreg; by right).
    rewrite reverse_cons, list_to_map_app. simpl. rewrite <-(assoc_L (∪)). f_equal.
    by rewrite insert_union_singleton_l, insert_empty.
Qed.

Lemma values_insert (r : row) t v : r !! t = None → values (<[t := v]> r) ≡ₚ v :: values r.
Proof. intros H. unfold values. by rewrite map_to_list_insert. Qed.

Lemma contents_insert s e r :
  s_map s !! e = None → contents (with_map s (<[e := r]> (s_map s))) ≡ₚ values r ++ contents s.
Proof.
  intros H. unfold contents. simpl. rewrite map_to_list_insert by done. by rewrite bind_cons.
Qed.

Lemma contents_map s s' : s_map s = s_map s' → contents s = contents s'.
Proof. unfold contents. by intros ->. Qed.

(** The values of [e] and those of all others. *)
Lemma contents_split s e r : s_map s !! e = Some r →
  contents s ≡ₚ values r ++ contents (with_map s (delete e (s_map s))).
Proof.
  intros H. rewrite <-contents_insert by (simpl; apply lookup_delete). simpl.
  apply reflexive_eq, contents_map. simpl. by rewrite insert_delete.
Qed.

Lemma s_row_alive s e r : s_map s !! e = Some r → s_row s e = r.
Proof. unfold s_row. by intros ->. Qed.

(** ** destroy *)

Lemma destroy_effect w s e out ds w' :
  reachable w s → step w (ODestroy e) = (out, ds, w') →
  out = Ret (RBool (world_contains w e)) ∧
  world_contains w' e = false ∧ has_comps w' e ∅ ∧
  (∀ t, world_is_registered w' t = world_is_registered w t) ∧
  (∀ e', e' ≠ e → unchanged w w' e') ∧
  ds ≡ₚ values (s_row s e) ∧ reachable w' (client_step s (ODestroy e) out).
Proof.
  intros Hr Hs. assert (op_ok (ODestroy e)) as Hop by done. assert (¬ grows (ODestroy e)) as Hn by (intros []).
  destruct (calm_step _ _ _ _ _ _ Hr Hop I Hn Hs) as [Ha Hr']. simpl in Ha.
  assert (s_map (client_step s (ODestroy e) out) = delete e (s_map s)) as Hm.
  { cbn [client_step]. case_decide as Hd; [done|]. symmetry. apply delete_notin.
    apply eq_None_not_Some. done. }
  assert (s_reg (client_step s (ODestroy e) out) = s_reg s) as Hreg by (cbn [client_step]; by case_decide).
  split_and!.
  - by rewrite (contains_alive _ _ _ Hr).
  - apply (contains_false _ _ _ Hr'). unfold s_alive. rewrite Hm, lookup_delete. by intros [? ?].
  - pose proof (reach_row _ _ e Hr') as H. unfold s_row in H. by rewrite Hm, lookup_delete in H.
  - intros t. by rewrite (reach_registered _ _ _ Hr), (reach_registered _ _ _ Hr'), Hreg.
  - intros e' He'. eapply reach_unchanged; try done. rewrite Hm. by rewrite lookup_delete_ne.
  - assert (good_side s (ODestroy e) out) as Hg by (apply calm_good; try done; apply (reachable_inv _ _ Hr)).
    pose proof (reach_balance _ _ _ _ _ _ Hr Hop Hs Hg) as Hb.
    assert (handed_out out = []) as Ho by (by rewrite Ha). rewrite Ho in Hb. cbn [handed_in app] in Hb.
    rewrite (contents_map (client_step s (ODestroy e) out) (with_map s (delete e (s_map s)))) in Hb by done.
    clear Ha. destruct (s_map s !! e) as [r|] eqn:E.
    + rewrite (contents_split s e r E) in Hb. rewrite (s_row_alive s e r E).
      symmetry. by eapply Permutation_app_inv_r.
    + unfold s_row. rewrite E. simpl. rewrite delete_notin in Hb by done.
      rewrite (contents_map (with_map s (s_map s)) s) in Hb by done.
      symmetry. by apply (Permutation_app_inv_r (contents s)).
  - done.
Qed.

Lemma destroy_dead w s e out ds w' :
  reachable w s → step w (ODestroy e) = (out, ds, w') → world_contains w e = false →
  out = Ret (RBool false) ∧ ds = [] ∧ w' = w.
Proof.
  intros Hr Hs Hd%(contains_false _ _ _ Hr). destruct (reachable_inv _ _ Hr) as (_ & d & HI). destruct HI as [HE _].
  simpl in Hs. unfold world_destroy in Hs. rewrite (estore_remove_dead _ _ _ HE Hd) in Hs. by simplify_eq.
Qed.

(** ** maintain, clear, reset *)

Lemma maintain_effect w s out ds w' :
  reachable w s → tidy s → step w OMaintain = (out, ds, w') →
  out = Ret RUnit ∧ ds = [] ∧
  (∀ e, world_contains w' e = bool_decide (world_contains w e = true ∨ e ∈ s_queued s)) ∧
  (∀ e t, view_get w' t e = view_get w t e) ∧
  (∀ t, world_is_registered w' t = world_is_registered w t) ∧
  reachable w' (client_step s OMaintain out).
Proof.
  intros Hr Ht Hs. assert (op_ok OMaintain) as Hop by done. assert (¬ grows OMaintain) as Hn by (intros []).
  destruct (calm_step _ _ _ _ _ _ Hr Hop Ht Hn Hs) as [Ha Hr']. simpl in Ha. subst out.
  split_and!; [done| | | | |done].
  - simpl in Hs. unfold world_maintain in Hs. by destruct (estore_maintain (w_ents w)) as [?| |]; simplify_eq.
  - intros e. rewrite (contains_alive _ _ _ Hr'). apply bool_decide_ext. rewrite (contains_true _ _ _ Hr).
    unfold s_alive; simpl. split.
    + intros [r Hx]. apply lookup_union_Some_raw in Hx as [?|[_ Hx]]; [eauto|].
      apply lookup_gset_to_gmap_Some in Hx as [? _]. auto.
    + intros [[r Hx]|Hq].
      * exists r. by apply lookup_union_Some_l.
      * destruct (s_map s !! e) as [r|] eqn:E; [exists r; by apply lookup_union_Some_l|].
        exists ∅. rewrite lookup_union_r by done. by apply lookup_gset_to_gmap_Some.
  - intros e t. rewrite (reach_view_get _ _ _ _ Hr), (reach_view_get _ _ _ _ Hr'). simpl.
    destruct (decide (t ∈ s_reg s)); [|done]. f_equal. unfold s_row; simpl.
    destruct (s_map s !! e) as [r|] eqn:E; [by rewrite (lookup_union_Some_l _ _ _ _ E)|].
    rewrite lookup_union_r by done. destruct (gset_to_gmap ∅ (s_queued s) !! e) as [r|] eqn:E'; [|done].
    by apply lookup_gset_to_gmap_Some in E' as [_ <-].
  - intros t. by rewrite (reach_registered _ _ _ Hr), (reach_registered _ _ _ Hr').
Qed.

Lemma empty_effect w s o out ds w' :
  o = OClear ∨ o = OReset → reachable w s → step w o = (out, ds, w') →
  out = Ret RUnit ∧ world_entities w' = [] ∧
  (∀ e, world_contains w' e = false ∧ has_comps w' e ∅) ∧
  (∀ t, world_is_registered w' t = world_is_registered w t) ∧
  (∀ t, world_is_registered w t = true → view_len w' t = Ok 0) ∧
  ds ≡ₚ contents s ∧ reachable w' (client_step s o out).
Proof.
  intros Ho Hr Hs. assert (op_ok o) as Hop by (by destruct Ho as [->| ->]).
  assert (¬ grows o) as Hn by (by destruct Ho as [->| ->]; intros []).
  assert (good_call s o) as Hg by (by destruct Ho as [->| ->]).
  destruct (calm_step _ _ _ _ _ _ Hr Hop Hg Hn Hs) as [Ha Hr'].
  assert (out = Ret RUnit) as -> by (by destruct Ho as [->| ->]).
  assert (s_map (client_step s o (Ret RUnit)) = ∅ ∧ s_reg (client_step s o (Ret RUnit)) = s_reg s) as [Hm Hreg]
    by (by destruct Ho as [->| ->]).
  assert (∀ e, s_row (client_step s o (Ret RUnit)) e = ∅) as Hrow by (intros e; unfold s_row; by rewrite Hm).
  split_and!; [done| | | | | |done].
  - destruct (reach_entities _ _ Hr') as (_ & H & _). destruct (world_entities w') as [|e l]; [done|].
    assert (s_alive (client_step s o (Ret RUnit)) e) as [x Hx] by (apply H; by left). by rewrite Hm in Hx.
  - intros e. split; [|rewrite <-(Hrow e); by apply reach_row].
    apply (contains_false _ _ _ Hr'). unfold s_alive. rewrite Hm, lookup_empty. by intros [? ?].
  - intros t. by rewrite (reach_registered _ _ _ Hr), (reach_registered _ _ _ Hr'), Hreg.
  - intros t Ht%(registered_true _ _ _ Hr). rewrite <-Hreg in Ht.
    destruct (reach_view _ _ _ Hr' Ht) as (es & vs & _ & _ & -> & Hl & _ & H & _). f_equal.
    destruct es as [|e es]; [done|]. destruct vs as [|v vs]; [done|].
    assert (s_row (client_step s o (Ret RUnit)) e !! t = Some v) as Hx by (apply H; by left).
    by rewrite Hrow, lookup_empty in Hx.
  - assert (good_side s o (Ret RUnit)) as Hg' by (apply calm_good; try done; apply (reachable_inv _ _ Hr)).
    pose proof (reach_balance _ _ _ _ _ _ Hr Hop Hs Hg') as Hb.
    assert (contents (client_step s o (Ret RUnit)) = []) as Hc by (unfold contents; by rewrite Hm).
    rewrite Hc in Hb. destruct Ho as [->| ->]; simpl in Hb; by rewrite app_nil_r in Hb.
Qed.

(** ** create and insert *)

Lemma registered_all w s ts : reachable w s → (∀ t, t ∈ ts → world_is_registered w t = true) ↔ all_reg s ts.
Proof.
  intros Hr. unfold all_reg. split; intros H t Ht; apply (registered_true _ _ _ Hr); auto.
Qed.

Lemma create_effect w s cs out ds w' :
  reachable w s → step w (OCreate cs) = (out, ds, w') → good_side s (OCreate cs) out →
  (∀ t, t ∈ cs.*1 → world_is_registered w t = true) →
  (out = Panicked [] ∧ exhausted s ∧ w' = w ∧ ds = cs.*2) ∨
  ∃ e, out = Ret (REnt e) ∧ world_contains w e = false ∧ world_contains w' e = true ∧
    has_comps w' e (tuple_row cs) ∧
    (∀ t, world_is_registered w' t = world_is_registered w t) ∧
    (∀ e', e' ≠ e → unchanged w w' e') ∧
    cs.*2 ≡ₚ ds ++ values (tuple_row cs) ∧
    reachable w' (client_step s (OCreate cs) out).
Proof.
  intros Hr Hs Hg Hreg%(registered_all _ _ _ Hr). assert (op_ok (OCreate cs)) as Hop by done.
  destruct (reachable_step _ _ _ _ _ _ Hr Hop Hs Hg) as [Ha Hr'].
  pose proof (reach_balance _ _ _ _ _ _ Hr Hop Hs Hg) as Hb.
  destruct (reachable_inv _ _ Hr) as (_ & d & HI).
  simpl in Ha. destruct Ha as [(_ & e & -> & Hnew)|[(Hn & _)|[-> Hex]]]; [|done|].
  - right. exists e. pose proof (new_handle_dead _ _ _ (wi_ents _ _ _ HI) Hnew) as Hd.
    change (client_step s (OCreate cs) (Ret (REnt e))) with (add_entity s e (put (s_reg s) cs ∅)) in *.
    rewrite put_tuple, (right_id_L ∅ (∪)) in Hb, Hr' |- * by done.
    assert (s_map (add_entity s e (tuple_row cs)) !! e = Some (tuple_row cs)) as Hl by apply lookup_insert.
    split_and!; [done| | | | | | |done].
    + apply (contains_false _ _ _ Hr). unfold s_alive. rewrite Hd. by intros [? ?].
    + apply (contains_true _ _ _ Hr'). unfold s_alive. by rewrite Hl.
    + rewrite <-(s_row_alive _ _ _ Hl). by apply reach_row.
    + intros t. by rewrite (reach_registered _ _ _ Hr), (reach_registered _ _ _ Hr').
    + intros e' He'. eapply reach_unchanged; try done. simpl. by rewrite lookup_insert_ne.
    + cbn [handed_in handed_out app] in Hb.
      rewrite (contents_map (add_entity s e (tuple_row cs)) (with_map s (<[e := tuple_row cs]> (s_map s)))) in Hb by done.
      rewrite (contents_insert s e _ Hd), (assoc_L (++)) in Hb. by eapply Permutation_app_inv_r.
  - left. split_and!; try done; simpl in Hs; unfold world_create in Hs.
    + destruct (estore_create (w_ents w)) as [[? ?]| |]; [|by simplify_eq|done].
      apply set_insert_ents in Hs as [_ [?|?]]; try done; by simplify_eq.
    + destruct (estore_create (w_ents w)) as [[? ?]| |]; [|by simplify_eq|done].
      apply set_insert_ents in Hs as [_ [?|?]]; try done; by simplify_eq.
Qed.

Lemma insert_effect w s e cs out ds w' :
  reachable w s → step w (OInsert e cs) = (out, ds, w') → good_side s (OInsert e cs) out →
  (∀ t, t ∈ cs.*1 → world_is_registered w t = true) → world_contains w e = true →
  out = Ret (RBool true) ∧
  (∀ e', world_contains w' e' = world_contains w e') ∧
  (∀ t, world_is_registered w' t = world_is_registered w t) ∧
  (∀ t, view_get w' t e = match tuple_row cs !! t with Some v => Ok (Some v) | None => view_get w t e end) ∧
  (∀ e', e' ≠ e → unchanged w w' e') ∧
  cs.*2 ++ values (s_row s e) ≡ₚ ds ++ values (tuple_row cs ∪ s_row s e) ∧
  reachable w' (client_step s (OInsert e cs) out).
Proof.
  intros Hr Hs Hg Hreg%(registered_all _ _ _ Hr) He%(contains_true _ _ _ Hr). assert (op_ok (OInsert e cs)) as Hop by done.
  destruct (reachable_step _ _ _ _ _ _ Hr Hop Hs Hg) as [Ha Hr'].
  pose proof (reach_balance _ _ _ _ _ _ Hr Hop Hs Hg) as Hb.
  simpl in Ha. rewrite decide_True in Ha by done. rewrite decide_True in Ha by done. subst out.
  assert (client_step s (OInsert e cs) (Ret (RBool true)) = with_map s (<[e := tuple_row cs ∪ s_row s e]> (s_map s))) as Hc.
  { cbn [client_step]. rewrite decide_True by done. simpl. by rewrite put_tuple by done. }
  rewrite Hc in *. destruct He as [r He]. rewrite (s_row_alive _ _ _ He) in *.
  set (s' := with_map s (<[e := tuple_row cs ∪ r]> (s_map s))) in *.
  assert (s_map s' !! e = Some (tuple_row cs ∪ r)) as Hl by apply lookup_insert.
  split_and!; [done| | | | | |done].
  - intros e'. rewrite (contains_alive _ _ _ Hr), (contains_alive _ _ _ Hr'). apply bool_decide_ext. unfold s_alive; simpl.
    destruct (decide (e = e')) as [<-|Hne]; [|by rewrite lookup_insert_ne]. rewrite lookup_insert, He. split; eauto.
  - intros t. by rewrite (reach_registered _ _ _ Hr), (reach_registered _ _ _ Hr').
  - intros t. rewrite (reach_view_get _ _ _ _ Hr), (reach_view_get _ _ _ _ Hr').
    rewrite (s_row_alive _ _ _ He), (s_row_alive _ _ _ Hl). simpl.
    destruct (tuple_row cs !! t) as [v|] eqn:Ev.
    + rewrite decide_True; [by rewrite (lookup_union_Some_l _ _ _ _ Ev)|]. apply Hreg.
      unfold tuple_row in Ev. apply elem_of_list_to_map_2 in Ev. rewrite elem_of_reverse in Ev.
      apply elem_of_list_fmap. by exists (t, v).
    + by rewrite lookup_union_r.
  - intros e' He'. eapply reach_unchanged; try done. simpl. by rewrite lookup_insert_ne.
  - cbn [handed_in handed_out app] in Hb. rewrite (contents_split s e r He), (contents_split s' e _ Hl) in Hb.
    rewrite (contents_map (with_map s' (delete e (s_map s'))) (with_map s (delete e (s_map s)))) in Hb
      by (simpl; by rewrite delete_insert_delete).
    rewrite !(assoc_L (++)) in Hb. by eapply Permutation_app_inv_r.
Qed.

Lemma insert_dead w s e cs out ds w' :
  reachable w s → step w (OInsert e cs) = (out, ds, w') → world_contains w e = false →
  out = Ret (RBool false) ∧ w' = w ∧ ds = cs.*2.
Proof.
  intros Hr Hs He. simpl in Hs. unfold world_insert in Hs. unfold world_contains in He. rewrite He in Hs. by simplify_eq.
Qed.

(** ** remove and delete *)

Lemma take_all_lookup ts : ∀ (r : row) i t, ts !! i = Some t →
  take_all r ts !! i = Some (if decide (t ∈ take i ts) then None else r !! t).
Proof.
  induction ts as [|t' ts IH]; intros r i t Hi; [done|]. destruct i as [|i]; simpl in Hi |- *.
  - by simplify_eq.
  - rewrite (IH _ _ _ Hi). f_equal. destruct (decide (t = t')) as [->|Hne].
    + rewrite lookup_delete. rewrite (decide_True (P := t' ∈ t' :: take i ts)) by (by left). by case_decide.
    + rewrite lookup_delete_ne by done. case_decide as H1; case_decide as H2; try done.
      * destruct H2. by right.
      * by apply elem_of_cons in H2 as [?|?].
Qed.

Lemma take_all_length ts : ∀ r, length (take_all r ts) = length ts.
Proof. induction ts as [|t ts IH]; intros r; [done|]. simpl. by rewrite IH. Qed.

Lemma remove_effect w s e ts out ds w' :
  reachable w s → step w (ORemove e ts) = (out, ds, w') →
  (∀ t, t ∈ ts → world_is_registered w t = true) →
  ds = [] ∧
  (∃ vs, out = Ret (ROpts vs) ∧ length vs = length ts ∧
     ∀ i t, ts !! i = Some t → ∃ v, vs !! i = Some v ∧
       if decide (t ∈ take i ts) then v = None else view_get w t e = Ok v) ∧
  (∀ e', world_contains w' e' = world_contains w e') ∧
  (∀ t, world_is_registered w' t = world_is_registered w t) ∧
  (∀ t, view_get w' t e = if decide (t ∈ ts) then Ok None else view_get w t e) ∧
  (∀ e', e' ≠ e → unchanged w w' e') ∧
  reachable w' (client_step s (ORemove e ts) out).
Proof.
  intros Hr Hs Hreg%(registered_all _ _ _ Hr). assert (op_ok (ORemove e ts)) as Hop by done.
  assert (¬ grows (ORemove e ts)) as Hn by (intros []).
  destruct (calm_step _ _ _ _ _ _ Hr Hop I Hn Hs) as [Ha Hr'].
  simpl in Ha. rewrite decide_True in Ha by done. subst out.
  assert (client_step s (ORemove e ts) (Ret (ROpts (take_all (s_row s e) ts))) =
          with_map s (alter (λ r, delete_all r ts) e (s_map s))) as Hc.
  { cbn [client_step]. by rewrite decide_True. }
  rewrite Hc in *. split_and!; [| | | | | |done].
  - simpl in Hs. unfold set_remove in Hs. destruct (lookup_metas _ _ ts) as [[? ?]|]; [|by simplify_eq].
    destruct (ungroup_if _ _ _); [|by simplify_eq..]. by destruct (remove_each _ _ _) as [[? ?]| |]; simplify_eq.
  - exists (take_all (s_row s e) ts). split_and!; [done|apply take_all_length|]. intros i t Hi.
    exists (if decide (t ∈ take i ts) then None else s_row s e !! t). split; [by apply take_all_lookup|].
    case_decide; [done|]. rewrite (reach_view_get _ _ _ _ Hr), decide_True; [done|]. apply Hreg.
    by eapply elem_of_list_lookup_2.
  - intros e'. rewrite (contains_alive _ _ _ Hr), (contains_alive _ _ _ Hr'). apply bool_decide_ext. unfold s_alive; simpl.
    by rewrite lookup_alter_is_Some.
  - intros t. by rewrite (reach_registered _ _ _ Hr), (reach_registered _ _ _ Hr').
  - intros t. rewrite (reach_view_get _ _ _ _ Hr), (reach_view_get _ _ _ _ Hr'). simpl.
    assert (s_row (with_map s (alter (λ r, delete_all r ts) e (s_map s))) e !! t = if decide (t ∈ ts) then None else s_row s e !! t) as ->.
    { unfold s_row; simpl. rewrite lookup_alter. destruct (s_map s !! e) as [r|]; simpl; [by rewrite delete_all_lookup|].
      by case_decide. }
    case_decide as H1; case_decide as H2; try done. by apply Hreg in H2.
  - intros e' He'. eapply reach_unchanged; try done. simpl. by rewrite lookup_alter_ne.
Qed.

Lemma remove_dead w s e ts out ds w' :
  reachable w s → step w (ORemove e ts) = (out, ds, w') → world_contains w e = false →
  (∀ t, t ∈ ts → world_is_registered w t = true) →
  out = Ret (ROpts (replicate (length ts) None)) ∧ ∀ e', unchanged w w' e'.
Proof.
  intros Hr Hs He%(contains_false _ _ _ Hr) Hreg. pose proof Hreg as Hreg'%(registered_all _ _ _ Hr).
  destruct (remove_effect _ _ _ _ _ _ _ Hr Hs Hreg) as (_ & _ & _ & _ & _ & _ & Hr').
  assert (op_ok (ORemove e ts)) as Hop by done.
  assert (¬ grows (ORemove e ts)) as Hn by (intros []).
  destruct (calm_step _ _ _ _ _ _ Hr Hop I Hn Hs) as [Ha _].
  simpl in Ha. rewrite decide_True in Ha by done. apply eq_None_not_Some in He. subst out. split.
  - do 2 f_equal. unfold s_row. rewrite He. simpl. clear. induction ts as [|t ts IH]; [done|]. simpl.
    by rewrite lookup_empty, delete_empty, IH.
  - intros e'. eapply reach_unchanged; try done; cbn [client_step]; case_decide; try done.
    simpl. destruct (decide (e = e')) as [<-|]; [|by rewrite lookup_alter_ne]. by rewrite lookup_alter, He.
Qed.

(** [delete] does to the world what [remove] does, in every state. *)
Lemma css_delete_remove c e :
  css_delete c e = match css_remove c e with
                   | Ok (c', v) => Ok (c', option_list v) | Panic => Panic | UB => UB
                   end.
Proof.
  unfold css_delete, css_remove. destruct (css_detach c e) as [[[i c1]|]| |]; simpl; try done.
  destruct (buf_read (c_comps c1) i) as [v| |]; simpl; try done.
  destruct (c_comps c1 !! c_len c1); try done.
  destruct (buf_write (c_comps c1) i _) as [b| |]; simpl; try done.
  by destruct (buf_write b (c_len c1) None) as [b'| |].
Qed.

Lemma delete_list_remove_each e is_ : ∀ comps,
  delete_list comps e is_ = match remove_each comps e is_ with
                            | Ok (comps', vs) => Ok (comps', omap id vs) | Panic => Panic | UB => UB
                            end.
Proof.
  induction is_ as [|i is_ IH]; intros comps; simpl; [done|].
  destruct (comps !! i) as [c|]; [|done]. rewrite css_delete_remove.
  destruct (css_remove c e) as [[c' v]| |]; try done. rewrite IH.
  destruct (remove_each (<[i:=c']> comps) e is_) as [[comps' vs]| |]; try done. by destruct v.
Qed.

Lemma delete_is_remove w e ts :
  match step w (ORemove e ts) with
  | (Ret (ROpts vs), _, w') => step w (ODelete e ts) = (Ret RUnit, omap id vs, w')
  | (out, ds, w') => step w (ODelete e ts) = (out, ds, w')
  end.
Proof.
  simpl. unfold set_remove, set_delete. destruct (lookup_metas _ _ ts) as [[is_ mask]|]; [|done].
  destruct (ungroup_if _ mask e) as [s1| |]; [|done..]. rewrite delete_list_remove_each.
  by destruct (remove_each _ e is_) as [[comps vs]| |].
Qed.

(** ** Registration and layouts *)

Lemma register_effect w s t out ds w' :
  reachable w s → step w (ORegister t) = (out, ds, w') →
  out = Ret (RBool (negb (world_is_registered w t))) ∧ ds = [] ∧
  (∀ t', world_is_registered w' t' = bool_decide (t' = t) || world_is_registered w t') ∧
  (∀ e, kept w w' e) ∧
  (world_is_registered w t = false → ∀ e, view_get w' t e = Ok None) ∧
  reachable w' (client_step s (ORegister t) out).
Proof.
  intros Hr Hs. assert (op_ok (ORegister t)) as Hop by done. assert (¬ grows (ORegister t)) as Hn by (intros []).
  destruct (calm_step _ _ _ _ _ _ Hr Hop I Hn Hs) as [Ha Hr']. simpl in Ha. subst out.
  destruct (reachable_inv _ _ Hr) as (_ & d & [HE HC]).
  split_and!; [| | | | |done].
  - rewrite (reach_registered _ _ _ Hr). by rewrite bool_decide_not.
  - simpl in Hs. unfold world_register in Hs. destruct (register_dyn _ t). by simplify_eq.
  - intros t'. rewrite (reach_registered _ _ _ Hr), (reach_registered _ _ _ Hr'). simpl.
    rewrite <-bool_decide_or. apply bool_decide_ext. by rewrite elem_of_union, elem_of_singleton.
  - intros e. eapply reach_kept; try done. simpl. set_solver.
  - intros Ht e. rewrite (reach_view_get _ _ _ _ Hr'), decide_True by (simpl; set_solver).
    rewrite (reach_registered _ _ _ Hr) in Ht. apply bool_decide_eq_false in Ht. f_equal.
    change (s_row s e !! t = None). apply eq_None_not_Some. intros [v Hv]. apply Ht.
    apply (ci_types _ _ _ _ _ _ HC e t v). by apply am_has_row.
Qed.

Lemma set_layout_effect w s l perm out ds w' :
  reachable w s → op_ok (OSetLayout l perm) → step w (OSetLayout l perm) = (out, ds, w') →
  good_side s (OSetLayout l perm) out →
  out = Ret RUnit ∧ ds = [] ∧ world_entities w' = world_entities w ∧ (∀ e, kept w w' e) ∧
  (∀ t, world_is_registered w' t = bool_decide (t ∈ layout_tids l) || world_is_registered w t) ∧
  reachable w' (client_step s (OSetLayout l perm) out).
Proof.
  intros Hr Hop Hs Hg. destruct (reachable_step _ _ _ _ _ _ Hr Hop Hs Hg) as [Ha Hr'].
  simpl in Ha. rewrite decide_True in Ha by apply Hg. subst out. split_and!; [done| | | | |done].
  - simpl in Hs. unfold world_set_layout in Hs. by destruct (set_layout _ _ _ _); simplify_eq.
  - unfold world_entities. simpl in Hs. unfold world_set_layout in Hs. by destruct (set_layout _ _ _ _); simplify_eq.
  - intros e. eapply reach_kept; try done. simpl. set_solver.
  - intros t. rewrite (reach_registered _ _ _ Hr), (reach_registered _ _ _ Hr'). simpl.
    rewrite <-bool_decide_or. apply bool_decide_ext. by rewrite elem_of_union, elem_of_list_to_set.
Qed.

Lemma client_step_reg s o out t :
  t ∈ s_reg (client_step s o out) ↔ registers o t ∨ t ∈ s_reg s.
Proof.
  destruct o as [cs|ts rows p|e| | |e cs|e ts|e ts| | |t'|l perm|t' e v|G J X f]; cbn [client_step registers];
    try (by split; [by right|by intros [?|?]]); try (by case_decide; (split; [by right|by intros [?|?]])).
  - assert (∀ es s, s_reg (foldl (λ s e, add_entity s e (put (s_reg s) cs ∅)) s es) = s_reg s) as H.
    { induction es as [|e es IH]; intros s'; [done|]. simpl. by rewrite IH. }
    assert (∀ b, s_reg (loosen (foldl (λ s e, add_entity s e (put (s_reg s) cs ∅)) s (reported out)) b (reported out)) = s_reg s) as ->
      by (intros []; simpl; by rewrite H). naive_solver.
  - assert (∀ es s rows, s_reg (add_rows s ts es rows) = s_reg s) as H.
    { induction es as [|e es IH]; intros s' [|r rs]; try done. simpl. by rewrite IH. }
    assert (∀ b, s_reg (loosen (add_rows s ts (reported out) rows) b (reported out)) = s_reg s) as ->
      by (intros []; simpl; by rewrite H). naive_solver.
  - assert (∀ es s, s_reg (foldl add_queued s es) = s_reg s) as ->; [|naive_solver].
    induction es as [|e es IH]; intros s'; [done|]. simpl. by rewrite IH.
  - case_decide; [destruct (panicked out)|]; simpl; naive_solver.
  - simpl. by rewrite elem_of_union, elem_of_singleton.
  - simpl. by rewrite elem_of_union, elem_of_list_to_set.
  - destruct out as [[]| |]; simpl; naive_solver.
Qed.

Lemma history_registered w0 s0 evs w s t : history good_side w0 s0 evs w s →
  t ∈ s_reg s ↔ t ∈ s_reg s0 ∨ ∃ o out ds, (o, out, ds) ∈ evs ∧ registers o t.
Proof.
  induction 1 as [|evs w1 s1 o out dr w2 _ IH Hop Hs Hg].
  - split; [by left|]. intros [?|(? & ? & ? & ?%elem_of_nil & _)]; done.
  - rewrite client_step_reg, IH. setoid_rewrite elem_of_app. setoid_rewrite elem_of_list_singleton. naive_solver.
Qed.

Lemma registered_types gs l ts w0 evs w s t :
  add_groups [] gs = Some l → builder_build l ts = Some w0 → history good_side w0 (s_init l ts) evs w s →
  world_is_registered w t = true ↔
  t ∈ layout_tids l ∨ t ∈ ts ∨ ∃ o out ds, (o, out, ds) ∈ evs ∧ registers o t.
Proof.
  intros Hl Hb Hh. assert (built w0 (s_init l ts)) as Hbt by (by exists gs, l, ts).
  pose proof (history_reachable _ _ _ _ _ Hbt Hh) as Hr. rewrite (registered_true _ _ _ Hr).
  rewrite (history_registered _ _ _ _ _ _ Hh). simpl. rewrite elem_of_union, !elem_of_list_to_set. tauto.
Qed.

(** ** Unregistered types *)

Lemma reach_lookup_metas w s f ts :
  reachable w s → (∃ t, t ∈ ts ∧ world_is_registered w t = false) → lookup_metas (cs_meta (w_comps w)) f ts = None.
Proof.
  intros Hr (t & Ht & Hn). apply lookup_metas_registered. apply not_true_iff_false. intros H.
  rewrite forallb_forall in H. apply elem_of_list_In in Ht. apply H in Ht.
  unfold world_is_registered in Hn. rewrite is_registered_lookup in Hn. congruence.
Qed.

Lemma unregistered_calls w s ts :
  reachable w s → (∃ t, t ∈ ts ∧ world_is_registered w t = false) →
  (∀ e, step w (ORemove e ts) = (Panicked [], [], w)) ∧
  (∀ e, step w (ODelete e ts) = (Panicked [], [], w)) ∧
  (∀ rows b, ∃ ds, step w (OExtend ts rows b) = (Panicked [], ds, w)).
Proof.
  intros Hr Hn. split_and!.
  - intros e. simpl. unfold set_remove. by rewrite (reach_lookup_metas _ _ _ _ Hr Hn).
  - intros e. simpl. unfold set_delete. by rewrite (reach_lookup_metas _ _ _ _ Hr Hn).
  - intros rows b. simpl. unfold set_extend. rewrite (reach_lookup_metas _ _ _ _ Hr Hn). eauto.
Qed.

Lemma unregistered_query w s G J X :
  reachable w s → (∃ t, t ∈ omap part_tid (G ++ J ++ X) ∧ world_is_registered w t = false) →
  query_all w G J X = Panic ∧ (∀ e, query_one w G J X e = Panic) ∧
  (∀ f, step w (OForEach G J X f) = (Panicked [], [], w)).
Proof.
  intros Hr (t & Ht & Hn). destruct (reachable_inv _ _ Hr) as (_ & d & HI).
  assert (¬ query_ok s G J X) as Hq.
  { intros [Hq _]. apply Hq, (registered_true _ _ _ Hr) in Ht. congruence. }
  split_and!.
  - by eapply query_all_panics.
  - intros e. by eapply query_one_panics.
  - intros f. destruct HI as [HE HC]. simpl. unfold world_for_each.
    destruct (query_for_each_ok w d _ _ _ _ G J X f HC) as
      [[_ ->]|(s' & ds' & es & o & n & dn & Hrg & Hc & _)]; [done|]. by destruct Hq.
Qed.

(** [create] and [insert] panic at the first unregistered type; the types before it
    are inserted. *)
Lemma unregistered_insert w s o out ds w' :
  reachable w s → step w o = (out, ds, w') → good_side s o out →
  match o with
  | OCreate cs => ∃ t, t ∈ cs.*1 ∧ world_is_registered w t = false
  | OInsert e cs => world_contains w e = true ∧ ∃ t, t ∈ cs.*1 ∧ world_is_registered w t = false
  | _ => False
  end →
  panicked out = true ∧ reachable w' (client_step s o out) ∧
  (∀ t, world_is_registered w' t = world_is_registered w t) ∧
  ∀ e, e ∉ reported out → (∀ cs, o ≠ OInsert e cs) → unchanged w w' e.
Proof.
  intros Hr Hs Hg Ho. assert (op_ok o) as Hop by (by destruct o).
  destruct (reachable_step _ _ _ _ _ _ Hr Hop Hs Hg) as [Ha Hr'].
  assert (s_reg (client_step s o out) = s_reg s) as Hreg.
  { apply set_eq. intros t. rewrite client_step_reg. destruct o; try done; simpl; tauto. }
  assert (∀ t, world_is_registered w' t = world_is_registered w t) as Hreg'.
  { intros t. by rewrite (reach_registered _ _ _ Hr), (reach_registered _ _ _ Hr'), Hreg. }
  assert (∀ ts, (∃ t, t ∈ ts ∧ world_is_registered w t = false) → ¬ all_reg s ts) as Hnr.
  { intros ts (t & Ht & Hn) H. apply H, (registered_true _ _ _ Hr) in Ht. congruence. }
  destruct o as [cs|ts rows p|e| | |e cs|e ts|e ts| | |t|l perm|t e v|G J X f]; try done.
  - apply Hnr in Ho. simpl in Ha. destruct Ha as [[? _]|[(_ & e & -> & _)|[-> _]]]; [done| |].
    + split_and!; [done|done|done|]. intros e' He' _. eapply reach_unchanged; try done. simpl.
      rewrite lookup_insert_ne; [done|]. intros <-. apply He'. simpl. by left.
    + split_and!; [done|done|done|]. intros e' _ _. by eapply reach_unchanged.
  - destruct Ho as [He%(contains_true _ _ _ Hr) Ho%Hnr]. simpl in Ha. rewrite decide_True, decide_False in Ha by done.
    subst out. split_and!; [done|done|done|]. intros e' _ He'. eapply reach_unchanged; try done.
    cbn [client_step]. rewrite decide_True by done. simpl. rewrite lookup_insert_ne; [done|]. intros <-. by eapply He'.
Qed.

(** ** The balance of values *)

Lemma history_balance evs w s : good_history evs w s →
  hist_in evs ≡ₚ hist_dropped evs ++ hist_out evs ++ contents s ∧
  ∃ vs, world_drop w = Ok vs ∧ vs ≡ₚ contents s.
Proof.
  intros (_ & d & HI & Hb)%good_history_inv. rewrite Hb. split.
  - by rewrite (stored_contents _ _ _ HI).
  - exists (stored d). split; [by eapply world_drop_ok|by eapply stored_contents].
Qed.

(** ** Stale handles *)

Lemma stale_handle w s e e' :
  reachable w s → world_contains w e' = true → e_index e = e_index e' → e_version e ≠ e_version e' →
  world_contains w e = false ∧ has_comps w e ∅.
Proof.
  intros Hr He'%(contains_true _ _ _ Hr) Hi Hv. destruct (reachable_inv _ _ Hr) as (_ & d & [HE HC]).
  assert (¬ s_alive s e) as Hd.
  { intros He. assert (e = e'); [|congruence]. by eapply (am_unique _ (ci_am _ _ _ _ _ _ HC)). }
  split; [by apply (contains_false _ _ _ Hr)|].
  pose proof (reach_row _ _ e Hr) as H. apply eq_None_not_Some in Hd. unfold s_row in H. by rewrite Hd in H.
Qed.

(** A handle that is not live has no components and no call through it has an effect. *)
Lemma dead_handle w s e :
  reachable w s → world_contains w e = false →
  has_comps w e ∅ ∧
  (∀ cs out ds w', step w (OInsert e cs) = (out, ds, w') → out = Ret (RBool false) ∧ w' = w) ∧
  (∀ out ds w', step w (ODestroy e) = (out, ds, w') → out = Ret (RBool false) ∧ w' = w) ∧
  (∀ ts out ds w', step w (ORemove e ts) = (out, ds, w') → (∀ t, t ∈ ts → world_is_registered w t = true) →
     out = Ret (ROpts (replicate (length ts) None)) ∧ ∀ e', unchanged w w' e') ∧
  (∀ ts out ds w', step w (ODelete e ts) = (out, ds, w') → (∀ t, t ∈ ts → world_is_registered w t = true) →
     ds = [] ∧ ∀ e', unchanged w w' e') ∧
  (∀ t v out ds w', step w (OSet t e v) = (out, ds, w') → world_is_registered w t = true →
     out = Ret (ROpts [None]) ∧ ∀ e', unchanged w w' e') ∧
  (∀ G J X, query_ok s G J X → required (G ++ J) ≠ [] → query_one w G J X e = Ok None).
Proof.
  intros Hr Hd. pose proof Hd as Hd'%(contains_false _ _ _ Hr). apply eq_None_not_Some in Hd'.
  assert (s_row s e = ∅) as Hrow by (unfold s_row; by rewrite Hd').
  split_and!.
  - rewrite <-Hrow. by apply reach_row.
  - intros cs out ds w' Hs. by destruct (insert_dead _ _ _ _ _ _ _ Hr Hs Hd) as (? & ? & _).
  - intros out ds w' Hs. by destruct (destroy_dead _ _ _ _ _ _ Hr Hs Hd) as (? & _ & ?).
  - intros ts out ds w' Hs Hreg. by eapply remove_dead.
  - intros ts out ds w' Hs Hreg. pose proof (delete_is_remove w e ts) as H.
    destruct (step w (ORemove e ts)) as [[out1 ds1] w1] eqn:Hs1.
    destruct (remove_dead _ _ _ _ _ _ _ Hr Hs1 Hd Hreg) as [-> Hu]. rewrite Hs in H. simplify_eq. split; [|done].
    clear. induction (length ts); done.
  - intros t v out ds w' Hs Ht%(registered_true _ _ _ Hr).
    assert (op_ok (OSet t e v)) as Hop by done. assert (¬ grows (OSet t e v)) as Hn by (intros []).
    destruct (calm_step _ _ _ _ _ _ Hr Hop I Hn Hs) as [Ha Hr']. simpl in Ha. rewrite decide_True in Ha by done.
    subst out. split; [by rewrite Hrow|]. intros e'. eapply reach_unchanged; try done. simpl.
    destruct (decide (e = e')) as [<-|]; [|by rewrite lookup_alter_ne]. by rewrite lookup_alter, Hd'.
  - intros G J X Hq Hne. destruct (reach_query_one _ _ _ _ _ e Hr Hq) as (r & Hq1 & _ & _ & _).
    rewrite Hq1. f_equal. destruct (reachable_inv _ _ Hr) as (_ & d & HI).
    destruct (query_one_at w s d G J X e HI Hq) as (r' & Hq2 & _ & H). rewrite Hq1 in Hq2. injection Hq2 as <-.
    destruct r as [it|]; [|done]. exfalso. destruct H as (H1 & H2 & _). rewrite Hrow in H1, H2.
    destruct (required (G ++ J)) as [|t l] eqn:E; [done|].
    assert (t ∈ required (G ++ J)) as Ht by (rewrite E; by left).
    unfold required in Ht. rewrite omap_app in Ht. apply elem_of_app in Ht as [Ht|Ht].
    + apply H1 in Ht. rewrite lookup_empty in Ht. by destruct Ht.
    + apply H2 in Ht. rewrite lookup_empty in Ht. by destruct Ht.
Qed.
