(** Reading and querying reachable worlds, in the form of the property theorems. *)
From Verif Require Import Base Lists SparseVecM EntityM CssM MaskM LayoutM GroupM StorageM WorldM QueryM StepM
  SparseProofs CssProofs MaskProofs GroupProofs Spec SpecMore EntityProofs LayoutProofs StorageProofs StoreOps LayoutOps
  WorldProofs QueryProofs QueryRange QueryIter ForEachProofs History EntityRun EntityHistory Lockstep Contents Facts.

(** *** C15 *)

Lemma reach_lookups_at w s : agreeing w s →
  (∀ e, world_contains w e = bool_decide (is_Some (s_map s !! e))) ∧
  (∀ e t, view_get w t e = if decide (t ∈ s_reg s) then Ok (s_row s e !! t) else Panic) ∧
  (∀ e t, view_contains w t e =
     if decide (t ∈ s_reg s) then Ok (bool_decide (is_Some (s_row s e !! t))) else Panic) ∧
  (∀ e t, shown (query_one w [PRef t] [] [] e) =
     if decide (t ∈ s_reg s) then Ok (option_map (λ v, [AVal t v]) (s_row s e !! t)) else Panic) ∧
  (∀ e t, query_one_contains w [PRef t] [] [] e =
     if decide (t ∈ s_reg s) then Ok (bool_decide (is_Some (s_row s e !! t))) else Panic).
Proof.
  intros Hr. assert (∀ t, query_ok s [PRef t] [] [] ↔ t ∈ s_reg s) as Hq.
  { intros t. unfold query_ok, all_reg. simpl. split.
    - intros [H _]. apply H. by left.
    - intros H. split; [|done]. by intros t' ->%elem_of_list_singleton. }
  assert (∀ e t, matches (s_row s e) [PRef t] [] [] ↔ is_Some (s_row s e !! t)) as Hm.
  { intros e t. unfold matches, has_all, has_none. simpl. split.
    - intros (H & _). apply H. by left.
    - intros H. split_and!; [by intros ? ->%elem_of_list_singleton|by intros ? ?%elem_of_nil|by intros ? ?%elem_of_nil]. }
  split_and!.
  - intros e. by rewrite (contains_alive_at _ _ _ Hr).
  - intros e t. by apply reach_view_get_at.
  - intros e t. destruct (decide (t ∈ s_reg s)) as [Ht|Ht].
    + by destruct (reach_view_at _ _ _ Hr Ht) as (?&?&?&?&?&?&?&?&->&?).
    + by destruct (reach_view_unreg_at _ _ _ Hr Ht) as (?&?&?&->&?).
  - intros e t. destruct (decide (t ∈ s_reg s)) as [Ht|Ht].
    + destruct (reach_query_one_at w s [PRef t] [] [] e Hr (proj2 (Hq t) Ht)) as (r & -> & _ & Hs & H).
      rewrite Hm in H. specialize (H ltac:(intros ? ?%elem_of_nil; done)). simpl. f_equal.
      destruct r as [it|].
      * specialize (Hs _ eq_refl). simpl in Hs. destruct (s_row s e !! t); simplify_eq/=. by rewrite Hs.
      * destruct (s_row s e !! t); [|done]. destruct H as [_ H]. by destruct H.
    + pose proof (agreeing_inv _ _ Hr) as (_ & ds & HI). rewrite (query_one_panics _ _ _ _ _ _ _ HI); [done|].
      by rewrite Hq.
  - intros e t. destruct (decide (t ∈ s_reg s)) as [Ht|Ht].
    + destruct (reach_query_one_at w s [PRef t] [] [] e Hr (proj2 (Hq t) Ht)) as (r & _ & -> & _ & H).
      f_equal. apply bool_decide_ext. rewrite H, Hm; [done|]. by intros ? ?%elem_of_nil.
    + pose proof (agreeing_inv _ _ Hr) as (_ & ds & HI).
      destruct HI as [HE HC]. unfold query_one_contains.
      destruct (borrow3_ok w ds _ _ _ _ HC [PRef t] [] []) as [[_ ->]|(g & i & x & H1 & H2 & _)]; [done|].
      by destruct Ht; apply Hq.
Qed.
Lemma reach_lookups w s : reachable w s →
  (∀ e, world_contains w e = bool_decide (is_Some (s_map s !! e))) ∧
  (∀ e t, view_get w t e = if decide (t ∈ s_reg s) then Ok (s_row s e !! t) else Panic) ∧
  (∀ e t, view_contains w t e =
     if decide (t ∈ s_reg s) then Ok (bool_decide (is_Some (s_row s e !! t))) else Panic) ∧
  (∀ e t, shown (query_one w [PRef t] [] [] e) =
     if decide (t ∈ s_reg s) then Ok (option_map (λ v, [AVal t v]) (s_row s e !! t)) else Panic) ∧
  (∀ e t, query_one_contains w [PRef t] [] [] e =
     if decide (t ∈ s_reg s) then Ok (bool_decide (is_Some (s_row s e !! t))) else Panic).
Proof. exact (λ Hr, reach_lookups_at w s (reachable_agreeing _ _ Hr)). Qed.

(** *** C16 *)

Lemma reach_aligned_at w s t : agreeing w s → world_is_registered w t = true →
  ∃ es vs, view_entities w t = Ok es ∧ view_slice w t = Ok vs ∧ view_len w t = Ok (length es) ∧
    length vs = length es ∧ NoDup es ∧
    (∀ i e v, es !! i = Some e → vs !! i = Some v → view_get w t e = Ok (Some v)) ∧
    (∀ e, e ∉ es → view_get w t e = Ok None) ∧
    (∀ e, view_contains w t e = Ok (bool_decide (e ∈ es))) ∧
    (∀ e, e ∈ es → world_contains w e = true).
Proof.
  intros Hr Ht. apply (registered_true_at _ _ _ Hr) in Ht.
  destruct (reach_view_at _ _ _ Hr Ht) as (es & vs & H1 & H2 & H3 & Hl & Hnd & Hz & Hc & Hg).
  assert (∀ i e v, es !! i = Some e → vs !! i = Some v → s_row s e !! t = Some v) as Hi.
  { intros i e v He Hv. apply Hz. apply elem_of_list_lookup. exists i. apply lookup_zip_with_Some. eauto. }
  assert (∀ e, e ∈ es ↔ is_Some (s_row s e !! t)) as Hes.
  { intros e. split.
    - intros [i He]%elem_of_list_lookup. destruct (lookup_lt_is_Some_2 vs i) as [v Hv].
      { apply lookup_lt_Some in He. lia. }
      eauto.
    - intros [v Hv%Hz]. by apply elem_of_zip_l in Hv. }
  exists es, vs. split_and!; try done.
  - intros i e v He Hv. by rewrite Hg, (Hi _ _ _ He Hv).
  - intros e He. rewrite Hg. rewrite Hes in He. destruct (s_row s e !! t); [|done]. by destruct He.
  - intros e. rewrite Hc. f_equal. apply bool_decide_ext. by rewrite Hes.
  - intros e [v Hv]%Hes. apply (contains_true_at _ _ _ Hr). unfold s_row in Hv. unfold s_alive.
    destruct (s_map s !! e); [eauto|]. simpl in Hv. by rewrite lookup_empty in Hv.
Qed.
Lemma reach_aligned w s t : reachable w s → world_is_registered w t = true →
  ∃ es vs, view_entities w t = Ok es ∧ view_slice w t = Ok vs ∧ view_len w t = Ok (length es) ∧
    length vs = length es ∧ NoDup es ∧
    (∀ i e v, es !! i = Some e → vs !! i = Some v → view_get w t e = Ok (Some v)) ∧
    (∀ e, e ∉ es → view_get w t e = Ok None) ∧
    (∀ e, view_contains w t e = Ok (bool_decide (e ∈ es))) ∧
    (∀ e, e ∈ es → world_contains w e = true).
Proof. exact (λ Hr, reach_aligned_at w s t (reachable_agreeing _ _ Hr)). Qed.
