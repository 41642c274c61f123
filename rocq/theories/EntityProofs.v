(** The entity storage: allocator invariant and effect of each operation on the
    sets of handles. *)
From Verif Require Import Base Lists SparseVecM EntityM WorldM StepM SparseProofs Spec.

(** ** EntitySparseSet *)

Definition eset_ok (s : eset) : Prop := sparse_ok (es_sparse s) (es_ents s) ∧ small (es_ents s).

Lemma eset_ok_new : eset_ok eset_new.
Proof. split; [apply sparse_ok_nil|by constructor]. Qed.

Lemma eset_insert_fresh s e :
  eset_ok s → (e_index e < u32_lim)%N → fresh_index e (es_ents s) →
  ∃ s', eset_insert s e = Ok s' ∧ eset_ok s' ∧ es_ents s' = es_ents s ++ [e].
Proof.
  intros [Hok Hs] He Hf. unfold eset_insert.
  pose proof (sparse_ok_allocate _ _ (e_sparse e) Hok) as Hok'.
  pose proof (sv_allocate_at_length (es_sparse s) (e_sparse e)) as Hlen.
  pose proof (sparse_ok_room _ _ Hok e Hs He Hf) as Hroom.
  destruct (sv_allocate_at (es_sparse s) (e_sparse e) !! e_sparse e) as [[sl|]|] eqn:E.
  - by apply (sparse_ok_fresh _ _ Hok') in E.
  - eexists. split; [done|]. split; [|done]. split; simpl.
    + by apply sparse_ok_app.
    + apply Forall_app. split; [done|]. by repeat constructor.
  - apply lookup_ge_None in E. lia.
Qed.

Lemma eset_insert_present s e :
  eset_ok s → e ∈ es_ents s →
  ∃ s', eset_insert s e = Ok s' ∧ eset_ok s' ∧ es_ents s' = es_ents s.
Proof.
  intros [Hok Hs] He. unfold eset_insert.
  pose proof (sparse_ok_allocate _ _ (e_sparse e) Hok) as Hok'.
  apply elem_of_list_lookup in He as [i Hi].
  rewrite (sparse_ok_slot _ _ Hok' i e Hi). rewrite s_dense_of_nat.
  assert (i < length (es_ents s)) by (by eapply lookup_lt_Some).
  destruct (Nat.ltb_spec i (length (es_ents s))); [|lia].
  eexists. split; [done|]. unfold eset_ok. simpl. by rewrite (list_insert_id (es_ents s) i e).
Qed.

Lemma eset_contains_elem s e : eset_ok s → eset_contains s e = true ↔ e ∈ es_ents s.
Proof. intros [Hok _]. by apply sv_contains_elem. Qed.

Lemma eset_remove_present s i e :
  eset_ok s → es_ents s !! i = Some e →
  ∃ s', eset_remove s e = Ok (true, s') ∧ eset_ok s' ∧ es_ents s' = swap_remove (es_ents s) i.
Proof.
  intros [Hok Hs] Hi. unfold eset_remove. rewrite (sv_remove_lookup _ _ Hok e i Hi).
  rewrite Nat2N.id. assert (Hlt : i < length (es_ents s)) by (by eapply lookup_lt_Some).
  destruct (Nat.ltb_spec i (length (es_ents s))); [|lia].
  destruct (lookup_lt_is_Some_2 (es_ents s) (length (es_ents s) - 1)) as [f Hf]; [lia|].
  pose proof (sparse_ok_swap_remove _ _ i e f Hok Hi Hf) as Hok'.
  assert (small (swap_remove (es_ents s) i)) as Hs'.
  { pose proof (swap_remove_perm _ _ _ Hi) as Hp. unfold small in *. rewrite Hp in Hs.
    by apply Forall_cons in Hs as [_ ?]. }
  rewrite swap_remove_lookup by done.
  destruct (decide (i < length (es_ents s) - 1)) as [Hlt'|Hge].
  - rewrite decide_True by done. rewrite Hf.
    unfold sv_write. rewrite insert_length.
    assert (e_sparse f < length (es_sparse s)) as Hfl.
    { pose proof (sparse_ok_slot _ _ Hok _ _ Hf) as H1. by eapply lookup_lt_Some. }
    destruct (Nat.ltb_spec (e_sparse f) (length (es_sparse s))); [|lia]. simpl.
    eexists. split; [done|]. done.
  - eexists. split; [done|]. done.
Qed.

Lemma eset_remove_absent s e : eset_ok s → e ∉ es_ents s → eset_remove s e = Ok (false, s).
Proof. intros [Hok Hs] He. unfold eset_remove. by rewrite (sv_remove_None _ _ Hok e He). Qed.

Lemma eset_insert_all_ok l : ∀ s,
  eset_ok s → Forall (λ e, e_index e < u32_lim)%N l →
  (∀ e e', e ∈ l ++ es_ents s → e' ∈ l ++ es_ents s → e_index e = e_index e' → e = e') →
  ∃ s', eset_insert_all s l = Ok s' ∧ eset_ok s' ∧ ∀ e, e ∈ es_ents s' ↔ e ∈ l ∨ e ∈ es_ents s.
Proof.
  induction l as [|e l IH]; intros s Hok Hl Hu; simpl.
  - exists s. split_and!; [done..|]. intros e. split; [by right|]. intros [H%elem_of_nil|?]; done.
  - apply Forall_cons in Hl as [He Hl].
    assert (∃ s1, eset_insert s e = Ok s1 ∧ eset_ok s1 ∧
              ∀ e', e' ∈ es_ents s1 ↔ e' = e ∨ e' ∈ es_ents s) as (s1 & -> & Hok1 & Hel).
    { destruct (decide (e ∈ es_ents s)) as [Hin|Hnin].
      - destruct (eset_insert_present s e Hok Hin) as (s1 & H1 & H2 & H3).
        exists s1. split_and!; [done..|]. intros e'. rewrite H3. naive_solver.
      - destruct (eset_insert_fresh s e Hok He) as (s1 & H1 & H2 & H3).
        { intros e' He' Heq. apply Hnin. rewrite (Hu e e'); [done|set_solver|set_solver|done]. }
        exists s1. split_and!; [done..|]. intros e'. rewrite H3. set_solver. }
    simpl. destruct (IH s1 Hok1 Hl) as (s' & H1 & H2 & H3).
    { intros e1 e2. rewrite !elem_of_app, !Hel. intros H1 H2.
      apply Hu; rewrite elem_of_app, elem_of_cons; tauto. }
    exists s'. split_and!; [done..|]. intros e'. rewrite H3, Hel, elem_of_cons. tauto.
Qed.

(** Membership in the sets and lists of this file. *)
Ltac els :=
  repeat (rewrite elem_of_app || rewrite elem_of_union || rewrite elem_of_difference ||
          rewrite elem_of_list_singleton || rewrite elem_of_cons || rewrite elem_of_singleton ||
          rewrite elem_of_nil || rewrite elem_of_empty).

(** ** EntityAllocator *)

(** Handles that [allocate] may take from [recycled]. *)
Definition avail (a : allocator) : list entity :=
  take (length (a_recycled a) - a_rsm a) (a_recycled a).

(** Handles allocated since the last [maintain]. *)
Definition pending (a : allocator) : list entity :=
  drop (length (a_recycled a) - a_rsm a) (a_recycled a) ++
  ((λ i, with_index (as_u32 i)) <$> N_range (a_lastm a) (a_next a)).

Lemma elem_of_N_range lo hi i : i ∈ N_range lo hi ↔ (lo ≤ i ∧ i < hi)%N.
Proof.
  unfold N_range. rewrite elem_of_list_fmap. setoid_rewrite elem_of_seq. split.
  - intros (k & -> & ?). lia.
  - intros. exists (N.to_nat (i - lo)). lia.
Qed.

(** The sets of handles described by an allocator: [C]reated, [Q]ueued, [I]ssued
    and [F]ree; [L] are the live entities. *)
Record alloc_inv (a : allocator) (L : list entity) (C Q I F : gset entity) : Prop := {
  ai_rsm : a_rsm a ≤ length (a_recycled a);
  ai_next : (a_lastm a ≤ a_next a ∧ a_next a ≤ u32_lim)%N;
  ai_pending : ∀ e, e ∈ pending a ↔ e ∈ C ∨ e ∈ Q;
  ai_avail : ∀ e, e ∈ avail a ↔ e ∈ F;
  ai_avail_nodup : NoDup (e_index <$> avail a);
  ai_unique : ∀ e e', (e ∈ L ∨ e ∈ Q) → (e' ∈ L ∨ e' ∈ Q) → e_index e = e_index e' → e = e';
  ai_LQ : ∀ e, e ∈ L → e ∈ Q → False;
  ai_CQ : ∀ e, e ∈ C → e ∈ Q → False;
  ai_free_new : ∀ e f, (e ∈ L ∨ e ∈ Q) → f ∈ F → e_index e ≠ e_index f;
  ai_free_version : ∀ e f, e ∈ I → f ∈ F → e_index e = e_index f → (e_version e < e_version f)%N;
  ai_version : ∀ e e', (e ∈ L ∨ e ∈ Q) → e' ∈ I → e_index e = e_index e' → (e_version e' ≤ e_version e)%N;
  ai_valid : ∀ e, (e ∈ I ∨ e ∈ F) → entity_valid e ∧ (e_index e < a_next a)%N;
  ai_all : ∀ i, (i < a_next a)%N → ∃ e, e ∈ I ∧ e_index e = i;
  ai_issued : ∀ e, (e ∈ L ∨ e ∈ C ∨ e ∈ Q) → e ∈ I
}.

Lemma alloc_inv_new : alloc_inv alloc_new [] ∅ ∅ ∅ ∅.
Proof.
  split; simpl; try done; try lia; try set_solver.
  - unfold avail; simpl. constructor.
Qed.

(** The same handles in another order. *)
Lemma alloc_inv_perm a L L' C Q I F :
  (∀ e, e ∈ L ↔ e ∈ L') → alloc_inv a L C Q I F → alloc_inv a L' C Q I F.
Proof.
  intros HL []. split; try done.
  - intros e e'. rewrite <-!HL. eauto.
  - intros e. rewrite <-HL. eauto.
  - intros e f. rewrite <-HL. eauto.
  - intros e e'. rewrite <-HL. eauto.
  - intros e. rewrite <-HL. eauto.
Qed.

Lemma entity_valid_first i : (i < u32_lim)%N → entity_valid (with_index i).
Proof. intros. split_and!; simpl; unfold version_first; try done; lia. Qed.

(** What [allocate] and [allocate_atomic] return. *)
Inductive alloc_case (a : allocator) (I F : gset entity) : option entity → allocator → Prop :=
| AllocRecycled e a' :
    e ∈ F → (e ∉ I) → (∀ e', e' ∈ avail a' ↔ e' ∈ F ∧ e' ≠ e) → NoDup (e_index <$> avail a') →
    (∀ e', e' ∈ pending a' ↔ e' = e ∨ e' ∈ pending a) →
    a_rsm a' ≤ length (a_recycled a') → a_next a' = a_next a → a_lastm a' = a_lastm a →
    alloc_case a I F (Some e) a'
| AllocFresh a' :
    F = ∅ → (a_next a < u32_lim)%N → avail a' = [] →
    (∀ e', e' ∈ pending a' ↔ e' = with_index (a_next a) ∨ e' ∈ pending a) →
    a_rsm a' ≤ length (a_recycled a') → a_next a' = (a_next a + 1)%N → a_lastm a' = a_lastm a →
    alloc_case a I F (Some (with_index (a_next a))) a'
| AllocNone :
    F = ∅ → a_next a = u32_lim → alloc_case a I F None a.

Lemma allocate_case a L C Q I F :
  alloc_inv a L C Q I F → ∃ r a', allocate a = Ok (r, a') ∧ alloc_case a I F r a'.
Proof.
  intros HI. unfold allocate. destruct (Nat.ltb_spec (a_rsm a) (length (a_recycled a))) as [Hlt|Hge].
  - destruct (lookup_lt_is_Some_2 (a_recycled a) (length (a_recycled a) - a_rsm a - 1)) as [e He]; [lia|].
    rewrite He. eexists _, _. split; [done|].
    set (n := length (a_recycled a) - a_rsm a - 1) in *.
    assert (Hn : length (a_recycled a) - a_rsm a = S n) by lia.
    assert (Hav : avail a = take n (a_recycled a) ++ [e]).
    { unfold avail. rewrite Hn. by apply take_S_r. }
    pose proof (ai_avail_nodup _ _ _ _ _ _ HI) as Hnd. rewrite Hav, fmap_app in Hnd.
    apply NoDup_app in Hnd as (Hnd1 & Hnd2 & _).
    assert (Hin : e ∈ F). { apply (ai_avail _ _ _ _ _ _ HI). rewrite Hav. set_solver. }
    apply AllocRecycled; simpl; try done; try lia.
    + intros HeI. pose proof (ai_free_version _ _ _ _ _ _ HI e e HeI Hin eq_refl). lia.
    + intros e'. unfold avail; simpl. replace (length (a_recycled a) - S (a_rsm a)) with n by lia.
      rewrite <-(ai_avail _ _ _ _ _ _ HI), Hav, elem_of_app, elem_of_list_singleton.
      split; [|tauto]. intros H. split; [by left|]. intros ->. apply (Hnd2 (e_index e)); [|set_solver].
      by apply elem_of_list_fmap_1.
    + unfold avail; simpl. by replace (length (a_recycled a) - S (a_rsm a)) with n by lia.
    + intros e'. unfold pending; simpl. replace (length (a_recycled a) - S (a_rsm a)) with n by lia.
      rewrite Hn. rewrite (drop_S _ e n) by done. rewrite <-app_comm_cons, elem_of_cons. done.
  - assert (F = ∅) as HF.
    { apply set_eq. intros e. rewrite <-(ai_avail _ _ _ _ _ _ HI). unfold avail.
      replace (length (a_recycled a) - a_rsm a) with 0 by lia. simpl. set_solver. }
    destruct (ai_next _ _ _ _ _ _ HI) as [H1 H2].
    destruct (N.ltb_spec (a_next a) u32_lim).
    + eexists _, _. split; [done|]. apply AllocFresh; simpl; try done; try lia.
      * unfold avail; simpl. by replace (length (a_recycled a) - a_rsm a) with 0 by lia.
      * intros e'. unfold pending; simpl. rewrite !elem_of_app, !elem_of_list_fmap.
        setoid_rewrite elem_of_N_range. split.
        -- intros [?|(i & -> & ?)]; [by right; left|].
           destruct (decide (i = a_next a)) as [->|]; [left; by rewrite as_u32_small|].
           right. right. exists i. split; [done|lia].
        -- intros [->|[?|(i & -> & ?)]]; [|by left|].
           ++ right. exists (a_next a). rewrite as_u32_small by done. split; [done|lia].
           ++ right. exists i. split; [done|lia].
      * apply (ai_rsm _ _ _ _ _ _ HI).
    + eexists _, _. split; [done|]. apply AllocNone; [done|lia].
Qed.

Lemma allocate_atomic_eq a L C Q I F :
  alloc_inv a L C Q I F → allocate_atomic a = allocate a.
Proof.
  intros HI. unfold allocate, allocate_atomic. rewrite Nat.add_1_r.
  destruct (_ <? _); [done|]. destruct (N.ltb_spec (a_next a) u32_lim); [|done].
  by rewrite as_u32_small.
Qed.

(** The new handle. *)
Lemma alloc_case_fresh a L C Q I F e a' :
  alloc_inv a L C Q I F → alloc_case a I F (Some e) a' →
  entity_valid e ∧ e ∉ I ∧ (∀ e', e' ∈ L ∨ e' ∈ Q → e_index e' ≠ e_index e) ∧
  (e ∈ F ∨ F = ∅ ∧ e_version e = version_first ∧ ∀ e', e' ∈ I → e_index e' ≠ e_index e).
Proof.
  intros HI Hc. inversion Hc; subst; clear Hc.
  - split_and!; [apply (ai_valid _ _ _ _ _ _ HI); by right|done| |by left].
    intros e' He'. by apply (ai_free_new _ _ _ _ _ _ HI).
  - assert (∀ e', e' ∈ I → e_index e' ≠ a_next a) as Hne.
    { intros e' He'. pose proof (ai_valid _ _ _ _ _ _ HI e' (or_introl He')) as [_ ?]. lia. }
    split_and!.
    + by apply entity_valid_first.
    + intros He. by apply (Hne _ He).
    + intros e' He'. apply Hne, (ai_issued _ _ _ _ _ _ HI). tauto.
    + right. split_and!; [done|done|apply Hne].
Qed.

Section alloc_step.
  Context (a : allocator) (L : list entity) (C Q I F : gset entity) (HI : alloc_inv a L C Q I F).

  Lemma alloc_create_inv e a' :
    alloc_case a I F (Some e) a' → alloc_inv a' (L ++ [e]) ({[e]} ∪ C) Q ({[e]} ∪ I) (F ∖ {[e]}).
  Proof using HI.
    intros Hc. destruct (alloc_case_fresh _ _ _ _ _ _ _ _ HI Hc) as (Hv & HnI & Hidx & Hfree).
    assert (HeQ : e ∉ Q).
    { intros H. apply HnI, (ai_issued _ _ _ _ _ _ HI). tauto. }
    assert (HeL : e ∉ L).
    { intros H. apply HnI, (ai_issued _ _ _ _ _ _ HI). tauto. }
    assert (Hrsm : a_rsm a' ≤ length (a_recycled a')) by (by inversion Hc).
    assert (Hpend : ∀ e', e' ∈ pending a' ↔ e' = e ∨ e' ∈ pending a) by (by inversion Hc).
    assert (Hlast : a_lastm a' = a_lastm a) by (by inversion Hc).
    assert (Hnext : (a_next a ≤ a_next a' ∧ a_next a' ≤ u32_lim ∧ e_index e < a_next a')%N).
    { destruct (ai_next _ _ _ _ _ _ HI). inversion Hc; subst; simpl in *; try lia.
      pose proof (ai_valid _ _ _ _ _ _ HI e) as [_ ?]; [by right|]. lia. }
    assert (Hav : ∀ e', e' ∈ avail a' ↔ e' ∈ F ∧ e' ≠ e).
    { inversion Hc as [|? ? ? Hnil|]; subst; [done|]. intros e'. rewrite Hnil. set_solver. }
    assert (Hnd : NoDup (e_index <$> avail a')).
    { inversion Hc as [|? ? ? Hnil|]; subst; [done|]. rewrite Hnil. constructor. }
    assert (Hall : ∀ i, (i < a_next a')%N → (i < a_next a)%N ∨ i = e_index e).
    { inversion Hc; subst; simpl; intros; lia. }
    assert (HF : ∀ f, f ∈ F → f ≠ e → e_index f ≠ e_index e).
    { intros f Hf Hne Heq. destruct Hfree as [He|[HF0 _]]; [|set_solver].
      pose proof (ai_avail_nodup _ _ _ _ _ _ HI) as Hnd0.
      apply (ai_avail _ _ _ _ _ _ HI), elem_of_list_lookup in Hf as [i Hi].
      apply (ai_avail _ _ _ _ _ _ HI), elem_of_list_lookup in He as [j Hj].
      assert (i = j); [|congruence].
      eapply NoDup_lookup; [done|by rewrite list_lookup_fmap, Hi|by rewrite list_lookup_fmap, Hj, Heq]. }
    destruct HI. split; try done.
    - rewrite Hlast. lia.
    - intros e'. rewrite Hpend, ai_pending0. els. tauto.
    - intros e'. rewrite Hav. by els.
    - intros e1 e2. els. intros H1 H2 Heq.
      destruct (decide (e1 = e)) as [->|N1], (decide (e2 = e)) as [->|N2]; try done.
      + exfalso. apply (Hidx e2); [tauto|done].
      + exfalso. apply (Hidx e1); [tauto|done].
      + apply ai_unique0; tauto.
    - intros e'. els. intros [H| ->] ?; eauto.
    - intros e'. els. intros [->|H] ?; eauto.
    - intros e' f. els. intros H1 [H2 H3].
      destruct (decide (e' = e)) as [->|]; [by apply not_eq_sym, HF|]. apply ai_free_new0; tauto.
    - intros e' f. els. intros [->|H] [H2 H3] Heq.
      + by destruct (HF f).
      + eauto.
    - intros e1 e2. els. intros H1 [->|H2] Heq.
      + destruct (decide (e1 = e)) as [->|]; [lia|]. exfalso. apply (Hidx e1); [tauto|done].
      + destruct (decide (e1 = e)) as [->|]; [|apply ai_version0; tauto].
        destruct Hfree as [He|(_ & _ & Hn)]; [|by destruct (Hn e2)].
        apply N.lt_le_incl. by apply ai_free_version0.
    - intros e'. els. intros [[->|H] | [H _]].
      + split; [done|lia].
      + destruct (ai_valid0 e'); [by left|]. split; [done|lia].
      + destruct (ai_valid0 e'); [by right|]. split; [done|lia].
    - intros i Hi. destruct (Hall i Hi) as [Hi'| ->].
      + destruct (ai_all0 i Hi') as (e' & ? & ?). exists e'. els. tauto.
      + exists e. els. tauto.
    - intros e'. els.
      specialize (ai_issued0 e'). tauto.
  Qed.

  Lemma alloc_create_atomic_inv e a' :
    alloc_case a I F (Some e) a' → alloc_inv a' L C ({[e]} ∪ Q) ({[e]} ∪ I) (F ∖ {[e]}).
  Proof using HI.
    intros Hc. destruct (alloc_case_fresh _ _ _ _ _ _ _ _ HI Hc) as (Hv & HnI & Hidx & Hfree).
    pose proof (alloc_create_inv e a' Hc) as H'.
    assert (HeL : e ∉ L).
    { intros H. apply HnI, (ai_issued _ _ _ _ _ _ HI). tauto. }
    assert (HeC : e ∉ C).
    { intros H. apply HnI, (ai_issued _ _ _ _ _ _ HI). tauto. }
    destruct H'. split; try done.
    - intros e'. rewrite ai_pending0. els. tauto.
    - intros e1 e2. els. intros H1 H2. apply ai_unique0; els; tauto.
    - intros e'. els. intros H1 [->|H2]; [done|]. eapply (ai_LQ _ _ _ _ _ _ HI); eauto.
    - intros e'. els. intros H1 [->|H2]; [done|]. eapply (ai_CQ _ _ _ _ _ _ HI); eauto.
    - intros e' f. els. intros H1 H2. apply ai_free_new0; els; tauto.
    - intros e1 e2. els. intros H1 H2. apply ai_version0; els; tauto.
    - intros e' H1. apply ai_issued0. revert H1. els. tauto.
  Qed.

  Lemma alloc_destroy_inv e L' (S : gset entity) :
    (∀ e', e' ∈ L ↔ e' = e ∨ e' ∈ L') → e ∉ L' →
    S = (if decide (e_version e + 1 < u32_lim)%N then {[Ent (e_index e) (e_version e + 1)]} else ∅) →
    alloc_inv (recycle a e) L' C Q I (S ∪ F).
  Proof using HI.
    intros HL Hnin ->.
    assert (HeL : e ∈ L) by (apply HL; by left).
    assert (HL' : ∀ e', e' ∈ L' → e' ∈ L) by (intros e' ?; apply HL; by right).
    assert (HI' : alloc_inv a L' C Q I F).
    { destruct HI. split; try done.
      - intros e1 e2 H1 H2. apply ai_unique0; naive_solver.
      - intros e1 H1. eauto.
      - intros e1 f H1. apply ai_free_new0. naive_solver.
      - intros e1 e2 H1. apply ai_version0. naive_solver.
      - intros e1 H1. apply ai_issued0. naive_solver. }
    unfold recycle, version_next. destruct (N.ltb_spec (e_version e + 1) u32_lim) as [Hlt|Hge].
    2:{ rewrite decide_False by lia. by rewrite (left_id_L ∅ (∪)). }
    rewrite decide_True by done. set (f := Ent (e_index e) (e_version e + 1)).
    assert (Hav : avail (Alloc (a_next a) (a_lastm a) (f :: a_recycled a) (a_rsm a)) = f :: avail a).
    { pose proof (ai_rsm _ _ _ _ _ _ HI). unfold avail; simpl.
      by replace (Datatypes.S (length (a_recycled a)) - a_rsm a)
        with (Datatypes.S (length (a_recycled a) - a_rsm a)) by lia. }
    assert (Hp : pending (Alloc (a_next a) (a_lastm a) (f :: a_recycled a) (a_rsm a)) = pending a).
    { pose proof (ai_rsm _ _ _ _ _ _ HI). unfold pending; simpl.
      by replace (Datatypes.S (length (a_recycled a)) - a_rsm a)
        with (Datatypes.S (length (a_recycled a) - a_rsm a)) by lia. }
    assert (Hidx : ∀ e', e' ∈ L' ∨ e' ∈ Q → e_index e' ≠ e_index e).
    { intros e' He' Heq.
      assert (e' = e) as ->.
      { apply (ai_unique _ _ _ _ _ _ HI); [|by left|done]. destruct He'; auto. }
      destruct He' as [?|HQ]; [done|]. by apply (ai_LQ _ _ _ _ _ _ HI e). }
    destruct HI'. split; simpl; try done.
    - lia.
    - by rewrite Hp.
    - intros e'. rewrite Hav, elem_of_cons, ai_avail0, elem_of_union, elem_of_singleton. done.
    - rewrite Hav. apply NoDup_cons. split; [|done]. intros (e' & He' & Hin)%elem_of_list_fmap.
      apply ai_avail0 in Hin. by eapply (ai_free_new _ _ _ _ _ _ HI e e'); [by left|..].
    - intros e1 f1. els. intros H1 [->|H2]; [|by apply ai_free_new0]. by apply Hidx.
    - intros e1 f1. els. intros H1 [->|H2] Heq; [|by apply ai_free_version0].
      simpl in *. pose proof (ai_version _ _ _ _ _ _ HI e e1 (or_introl HeL) H1 (eq_sym Heq)). lia.
    - intros e1. els. intros [H1 | [->|H1]]; [by apply ai_valid0; left| |by apply ai_valid0; right].
      destruct (ai_valid0 e) as [[? [? ?]] ?].
      { left. apply (ai_issued _ _ _ _ _ _ HI). by left. }
      split; [|done]. split_and!; simpl; [done|lia|done].
  Qed.

  Lemma alloc_maintain_inv L' :
    (∀ e, e ∈ L' ↔ e ∈ L ∨ e ∈ Q) →
    ∃ a', alloc_maintain a = Ok (pending a, a') ∧ alloc_inv a' L' ∅ ∅ I F.
  Proof using HI.
    intros HL. unfold alloc_maintain. destruct HI.
    destruct (Nat.leb_spec (a_rsm a) (length (a_recycled a))); [|lia].
    eexists. split; [done|].
    assert (Hav : avail (Alloc (a_next a) (a_next a) (take (length (a_recycled a) - a_rsm a) (a_recycled a)) 0)
                  = avail a).
    { unfold avail; simpl. rewrite take_length. rewrite take_take. f_equal. lia. }
    split; simpl; try done.
    - lia.
    - lia.
    - intros e. unfold pending; simpl. unfold N_range. rewrite N.sub_diag. simpl.
      rewrite app_nil_r, drop_ge by (rewrite take_length; lia). set_solver.
    - by rewrite Hav.
    - by rewrite Hav.
    - intros e1 e2. els. rewrite !HL. intros [H1|[]] [H2|[]]. by apply ai_unique0.
    - intros e f. els. rewrite HL. intros [H1|[]]. by apply ai_free_new0.
    - intros e e'. els. rewrite HL. intros [H1|[]]. by apply ai_version0.
    - intros e H1. apply ai_issued0. revert H1. els. rewrite HL. tauto.
  Qed.

  Lemma alloc_clear_inv :
    ∃ a', alloc_maintain a = Ok (pending a, a') ∧ alloc_inv a' [] ∅ ∅ I F.
  Proof using HI.
    destruct (alloc_maintain_inv (L ++ elements Q)) as (a' & H1 & H2).
    { intros e. by rewrite elem_of_app, elem_of_elements. }
    exists a'. split; [done|]. destruct H2. split; try done; try set_solver.
  Qed.
End alloc_step.

(** ** EntityStorage *)

Record einv (st : estore) (s : sstate) : Prop := {
  ei_set : eset_ok (st_set st);
  ei_dom : ∀ e, e ∈ es_ents (st_set st) ↔ s_alive s e;
  ei_alloc : alloc_inv (st_alloc st) (es_ents (st_set st)) (s_created s) (s_queued s) (s_issued s) (s_free s)
}.

(** The entity storage does not depend on the components. *)
Lemma einv_ext st s s' :
  (∀ e, s_alive s e ↔ s_alive s' e) → s_created s = s_created s' → s_queued s = s_queued s' →
  s_issued s = s_issued s' → s_free s = s_free s' → einv st s → einv st s'.
Proof.
  intros H1 H2 H3 H4 H5 []. split; [done| |].
  - intros e. by rewrite ei_dom0.
  - by rewrite <-H2, <-H3, <-H4, <-H5.
Qed.

Lemma einv_nodup st s : einv st s → NoDup (es_ents (st_set st)).
Proof. intros [[H _] _ _]. by apply (sparse_ok_nodup_ents _ _ H). Qed.

Lemma einv_valid st s e : einv st s → s_alive s e → entity_valid e ∧ e ∈ s_issued s.
Proof.
  intros [] He. assert (e ∈ s_issued s) as Hi.
  { apply (ai_issued _ _ _ _ _ _ ei_alloc0). left. by apply ei_dom0. }
  split; [|done]. apply (ai_valid _ _ _ _ _ _ ei_alloc0). by left.
Qed.

Lemma einv_unique st s e e' :
  einv st s → s_alive s e → s_alive s e' → e_index e = e_index e' → e = e'.
Proof.
  intros [] He He'. apply (ai_unique _ _ _ _ _ _ ei_alloc0); left; by apply ei_dom0.
Qed.

Lemma estore_contains_alive st s e : einv st s → estore_contains st e = bool_decide (s_alive s e).
Proof.
  intros []. unfold estore_contains. pose proof (eset_contains_elem _ e ei_set0) as H.
  rewrite ei_dom0 in H. destruct (eset_contains (st_set st) e), (bool_decide_reflect (s_alive s e)); naive_solver.
Qed.

Lemma estore_create_ok st s :
  einv st s →
  (∃ e st', estore_create st = Ok (e, st') ∧ new_handle s e ∧
     es_ents (st_set st') = es_ents (st_set st) ++ [e] ∧ ∀ r, einv st' (add_entity s e r)) ∨
  (estore_create st = Panic ∧ exhausted s).
Proof.
  intros []. unfold estore_create.
  destruct (allocate_case _ _ _ _ _ _ ei_alloc0) as (r & a' & -> & Hc). simpl.
  destruct r as [e|].
  - left. destruct (alloc_case_fresh _ _ _ _ _ _ _ _ ei_alloc0 Hc) as (Hv & HnI & Hidx & Hfree).
    destruct (eset_insert_fresh (st_set st) e ei_set0) as (es' & -> & Hok & Hes).
    { apply Hv. }
    { intros e' He'. apply Hidx. by left. }
    simpl. eexists _, _. split_and!; [done|by split_and!|done|].
    intros r. split; simpl; [done| |].
    + intros e'. rewrite Hes, elem_of_app, elem_of_list_singleton, ei_dom0. unfold s_alive; simpl.
      destruct (decide (e = e')) as [->|]; [rewrite lookup_insert|rewrite lookup_insert_ne by done]; naive_solver.
    + rewrite Hes. by apply (alloc_create_inv _ _ _ _ _ _ ei_alloc0).
  - right. inversion Hc; subst. split; [done|]. split; [done|].
    intros i Hi. apply (ai_all _ _ _ _ _ _ ei_alloc0). lia.
Qed.

Lemma estore_create_atomic_ok st s :
  einv st s →
  (∃ e st', estore_create_atomic st = Ok (e, st') ∧ new_handle s e ∧ einv st' (add_queued s e)) ∨
  (estore_create_atomic st = Panic ∧ exhausted s).
Proof.
  intros []. unfold estore_create_atomic. rewrite (allocate_atomic_eq _ _ _ _ _ _ ei_alloc0).
  destruct (allocate_case _ _ _ _ _ _ ei_alloc0) as (r & a' & -> & Hc). simpl.
  destruct r as [e|].
  - left. destruct (alloc_case_fresh _ _ _ _ _ _ _ _ ei_alloc0 Hc) as (Hv & HnI & Hidx & Hfree).
    eexists _, _. split_and!; [done|by split_and!|].
    split; simpl; [done|done|]. by apply (alloc_create_atomic_inv _ _ _ _ _ _ ei_alloc0).
  - right. inversion Hc; subst. split; [done|]. split; [done|].
    intros i Hi. apply (ai_all _ _ _ _ _ _ ei_alloc0). lia.
Qed.

Lemma estore_remove_ok st s e :
  einv st s → s_alive s e →
  ∃ st', estore_remove st e = Ok (true, st') ∧ einv st' (client_step s (ODestroy e) (Ret (RBool true))).
Proof.
  intros HI He. pose proof HI as []. unfold estore_remove.
  apply ei_dom0, elem_of_list_lookup in He as [i Hi].
  destruct (eset_remove_present _ i e ei_set0 Hi) as (es' & -> & Hok & Hes). simpl.
  eexists. split; [done|]. assert (s_alive s e) as He by (apply ei_dom0; by eapply elem_of_list_lookup_2).
  rewrite decide_True by done.
  pose proof (swap_remove_perm _ _ _ Hi) as Hp.
  assert (e ∉ es_ents es') as Hnin.
  { pose proof (einv_nodup _ _ HI) as Hnd. rewrite Hp, NoDup_cons in Hnd. rewrite Hes. tauto. }
  assert (∀ e', e' ∈ es_ents (st_set st) ↔ e' = e ∨ e' ∈ es_ents es') as Hel.
  { intros e'. rewrite Hes. rewrite <-elem_of_cons. by rewrite <-Hp. }
  split; simpl; [done| |].
  - intros e'. unfold s_alive; simpl. destruct (decide (e = e')) as [<-|Hne].
    + rewrite lookup_delete. split; [done|]. by intros [? ?].
    + rewrite lookup_delete_ne by done. specialize (Hel e'). rewrite ei_dom0 in Hel. unfold s_alive in Hel. naive_solver.
  - by apply (alloc_destroy_inv _ _ _ _ _ _ ei_alloc0).
Qed.

Lemma estore_remove_dead st s e :
  einv st s → ¬ s_alive s e → estore_remove st e = Ok (false, st).
Proof.
  intros [] He. unfold estore_remove. rewrite eset_remove_absent; [done|done|]. by rewrite ei_dom0.
Qed.

Lemma estore_maintain_ok st s :
  einv st s → tidy s →
  ∃ st', estore_maintain st = Ok st' ∧ einv st' (client_step s OMaintain (Ret RUnit)).
Proof.
  intros HI Ht. pose proof HI as []. unfold estore_maintain.
  destruct (alloc_clear_inv _ _ _ _ _ _ ei_alloc0) as (a' & Hm & _). rewrite Hm. simpl.
  assert (Hpend : ∀ e, e ∈ pending (st_alloc st) → e ∈ es_ents (st_set st) ∨ e ∈ s_queued s).
  { intros e [He|He]%(ai_pending _ _ _ _ _ _ ei_alloc0); [|by right]. left. by apply ei_dom0, Ht. }
  destruct (eset_insert_all_ok (pending (st_alloc st)) (st_set st) ei_set0) as (es' & -> & Hok & Hel).
  { apply Forall_forall. intros e He. apply (ai_valid _ _ _ _ _ _ ei_alloc0). left.
    apply (ai_issued _ _ _ _ _ _ ei_alloc0). apply Hpend in He. tauto. }
  { intros e1 e2 H1 H2. rewrite elem_of_app in H1, H2. apply (ai_unique _ _ _ _ _ _ ei_alloc0).
    - destruct H1 as [H1%Hpend|]; tauto.
    - destruct H2 as [H2%Hpend|]; tauto. }
  simpl. eexists. split; [done|].
  assert (Hel' : ∀ e, e ∈ es_ents es' ↔ e ∈ es_ents (st_set st) ∨ e ∈ s_queued s).
  { intros e. rewrite Hel. split; [intros [?%Hpend|?]; tauto|]. intros [?|?]; [by right|].
    left. apply (ai_pending _ _ _ _ _ _ ei_alloc0). by right. }
  destruct (alloc_maintain_inv _ _ _ _ _ _ ei_alloc0 (es_ents es') Hel') as (a'' & Hm' & Hai).
  rewrite Hm in Hm'. inversion Hm'; subst.
  split; simpl; [done| |done].
  intros e. rewrite Hel', ei_dom0. unfold s_alive; simpl.
  rewrite lookup_union_is_Some. unfold is_Some at 3. setoid_rewrite lookup_gset_to_gmap_Some. naive_solver.
Qed.

Lemma estore_clear_ok st s :
  einv st s → ∃ st', estore_clear st = Ok st' ∧ einv st' (client_step s OClear (Ret RUnit)).
Proof.
  intros []. unfold estore_clear.
  destruct (alloc_clear_inv _ _ _ _ _ _ ei_alloc0) as (a' & -> & Ha). simpl.
  eexists. split; [done|]. split; simpl; [apply eset_ok_new| |done].
  intros e. unfold s_alive; simpl. rewrite lookup_empty. rewrite elem_of_nil. split; [done|]. by intros [? ?].
Qed.

Lemma estore_reset_ok st s : einv (estore_reset st) (client_step s OReset (Ret RUnit)).
Proof.
  split; simpl; [apply eset_ok_new| |apply alloc_inv_new].
  intros e. unfold s_alive; simpl. rewrite lookup_empty. rewrite elem_of_nil. split; [done|]. by intros [? ?].
Qed.

Lemma estore_new_ok l ts : einv estore_new (s_init l ts).
Proof.
  split; simpl; [apply eset_ok_new| |apply alloc_inv_new].
  intros e. unfold s_alive; simpl. rewrite lookup_empty. rewrite elem_of_nil. split; [done|]. by intros [? ?].
Qed.
