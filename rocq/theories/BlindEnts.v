(** The entity store, whatever versions its slots carry. *)
From Verif Require Import Base SparseVecM EntityM Lists SparseProofs EntityProofs CssProofs BlindCss.

(** [k] are the entities as the slots know them. *)
Definition beset (s : eset) : Prop :=
  ∃ k, sparse_ok (es_sparse s) k ∧ e_index <$> k = e_index <$> es_ents s ∧ small k.

Record bestore (st : estore) : Prop := {
  be_set : beset (st_set st);
  be_rec : small (a_recycled (st_alloc st));
  be_next : (a_next (st_alloc st) ≤ u32_lim)%N;
  be_rsm : a_rsm (st_alloc st) ≤ length (a_recycled (st_alloc st))
}.

Lemma beset_new : beset eset_new.
Proof. exists []. split; [apply sparse_ok_nil|]. split; [done|constructor]. Qed.

Lemma bestore_new : bestore estore_new.
Proof. split; simpl; [apply beset_new|constructor|done|done]. Qed.

Lemma idx_lookup (k l : list entity) i e : e_index <$> k = e_index <$> l → k !! i = Some e → ∃ e', l !! i = Some e' ∧ e_index e' = e_index e.
Proof.
  intros H Hi. pose proof (f_equal (lookup i) H) as Hl. rewrite !list_lookup_fmap, Hi in Hl.
  destruct (l !! i) as [e'|]; [|done]. simpl in Hl. injection Hl as Hl. by exists e'.
Qed.

Lemma idx_length (k l : list entity) : e_index <$> k = e_index <$> l → length k = length l.
Proof. intros H. apply (f_equal length) in H. by rewrite !fmap_length in H. Qed.

Lemma beset_insert s e : beset s → (e_index e < u32_lim)%N →
  ∃ s', eset_insert s e = Ok s' ∧ beset s' ∧ length (es_ents s) ≤ length (es_ents s').
Proof.
  intros (k & Hok & Hidx & Hsm) He. unfold eset_insert.
  pose proof (sparse_ok_allocate _ _ (e_sparse e) Hok) as Ha. pose proof (sv_allocate_at_length (es_sparse s) (e_sparse e)) as Hl.
  set (sp := sv_allocate_at (es_sparse s) (e_sparse e)) in *.
  destruct (lookup_lt_is_Some_2 sp (e_sparse e) Hl) as [[sl|] Hs]; rewrite Hs.
  - destruct (sparse_ok_slot_inv _ _ Ha _ _ Hs) as (g & i & Hi & Hg & ->). rewrite s_dense_of_nat.
    destruct (idx_lookup _ _ _ _ Hidx Hi) as (g' & Hi' & Hgg). pose proof (lookup_lt_Some _ _ _ Hi') as Hlt.
    destruct (Nat.ltb_spec i (length (es_ents s))); [|lia]. eexists. split; [done|]. split.
    + exists k. split; [done|]. split; [|done]. simpl. rewrite Hidx. apply list_eq. intros j. rewrite !list_lookup_fmap.
      destruct (decide (j = i)) as [->|Hj]; [|by rewrite list_lookup_insert_ne].
      rewrite list_lookup_insert, Hi' by done. simpl. f_equal. rewrite Hgg. by apply e_sparse_inj.
    + simpl. by rewrite insert_length.
  - assert (fresh_index e k) as Hf.
    { intros e' (i & Hi)%elem_of_list_lookup Heq. pose proof (sparse_ok_slot _ _ Ha _ _ Hi) as H.
      rewrite (e_sparse_eq _ _ Heq), Hs in H. done. }
    pose proof (idx_length _ _ Hidx) as Hlen.
    assert (N.of_nat (length k) < u32_lim)%N as Hlim by (by eapply sparse_ok_room).
    eexists. split; [done|]. split.
    + exists (k ++ [e]). simpl. split; [rewrite <-Hlen; by apply sparse_ok_app|]. split.
      * by rewrite !fmap_app, Hidx.
      * apply Forall_app. split; [done|]. by constructor.
    + simpl. rewrite app_length. lia.
Qed.

Lemma beset_insert_all : ∀ l s, beset s → small l → ∃ s', eset_insert_all s l = Ok s' ∧ beset s'.
Proof.
  induction l as [|e l IH]; intros s Hs Hl; simpl; [by eexists|]. apply Forall_cons in Hl as [He Hl].
  destruct (beset_insert s e Hs He) as (s' & -> & Hs' & _). simpl. by apply IH.
Qed.

Lemma beset_contains s e : beset s → eset_contains s e = true → (e_index e < u32_lim)%N.
Proof.
  intros (k & Hok & _ & Hsm) H. unfold eset_contains in H. apply (sv_contains_elem _ _ Hok) in H.
  exact (proj1 (Forall_forall _ _) Hsm _ H).
Qed.

Lemma small_swap_remove k i e : small k → k !! i = Some e → small (swap_remove k i).
Proof.
  intros Hs Hi. pose proof (swap_remove_perm _ _ _ Hi) as Hp. unfold small in *. rewrite Hp in Hs.
  by apply Forall_cons in Hs as [_ ?].
Qed.

Lemma beset_remove s e : beset s →
  ∃ b s', eset_remove s e = Ok (b, s') ∧ beset s' ∧ (b = true → (e_index e < u32_lim)%N).
Proof.
  intros (k & Hok & Hidx & Hsm). unfold eset_remove.
  destruct (decide (e ∈ k)) as [Hin|Hn].
  2:{ rewrite (sv_remove_None _ _ Hok e Hn). eexists _, _. split; [done|]. split; [by exists k|done]. }
  apply elem_of_list_lookup in Hin as [i Hi]. rewrite (sv_remove_lookup _ _ Hok e i Hi), Nat2N.id.
  destruct (idx_lookup _ _ _ _ Hidx Hi) as (e0 & Hi0 & He0). pose proof (lookup_lt_Some _ _ _ Hi0) as Hlt.
  pose proof (idx_length _ _ Hidx) as Hlen.
  assert (He : (e_index e < u32_lim)%N) by (by eapply (proj1 (Forall_lookup _ _) Hsm)).
  destruct (Nat.ltb_spec i (length (es_ents s))); [|lia].
  destruct (lookup_lt_is_Some_2 (es_ents s) (length (es_ents s) - 1)) as [f Hf]; [lia|].
  destruct (idx_lookup _ _ _ _ (eq_sym Hidx) Hf) as (f0 & Hf0 & Hff).
  pose proof (sparse_ok_revise _ _ _ f f0 Hok Hf0 (eq_sym Hff)) as Hrev.
  set (n := length (es_ents s) - 1) in *. set (k1 := <[n := f]> k) in *.
  assert (Hk1l : length k1 = length (es_ents s)) by (unfold k1; by rewrite insert_length).
  assert (Hk2 : k1 !! (length k1 - 1) = Some f).
  { rewrite Hk1l. unfold k1. apply list_lookup_insert. lia. }
  assert (Hidx1 : e_index <$> k1 = e_index <$> es_ents s).
  { rewrite <-Hidx. apply list_eq. intros j. rewrite !list_lookup_fmap. unfold k1.
    destruct (decide (j = n)) as [->|Hj]; [|by rewrite list_lookup_insert_ne].
    rewrite list_lookup_insert by lia. rewrite Hf0. simpl. by rewrite Hff. }
  assert (Hsm1 : small k1).
  { unfold k1, small. apply Forall_insert; [done|]. rewrite <-Hff. by eapply (proj1 (Forall_lookup _ _) Hsm). }
  assert (Hfl : e_sparse f < length (es_sparse s)).
  { rewrite (e_sparse_eq f f0) by done. eapply lookup_lt_Some, (sparse_ok_slot _ _ Hok _ _ Hf0). }
  assert (Hsw : e_index <$> swap_remove k1 i = e_index <$> swap_remove (es_ents s) i).
  { by rewrite !swap_remove_fmap, Hidx1. }
  rewrite swap_remove_lookup by done. fold n.
  destruct (decide (i < n)) as [Hin|Hin].
  - rewrite decide_True by done. rewrite Hf. unfold sv_write. rewrite insert_length.
    destruct (Nat.ltb_spec (e_sparse f) (length (es_sparse s))); [|lia]. simpl.
    eexists _, _. split; [done|]. split; [|done]. exists (swap_remove k1 i). simpl.
    assert (k1 !! i = Some e) as Hk1 by (unfold k1; by rewrite list_lookup_insert_ne by lia).
    pose proof (sparse_ok_swap_remove _ _ i e f Hrev Hk1 Hk2) as Hs. rewrite Hk1l in Hs. fold n in Hs.
    rewrite decide_True in Hs by done.
    assert (e_sparse e ≠ e_sparse f) as Hne.
    { intros Heq. rewrite (e_sparse_eq f f0) in Heq by done. apply e_sparse_inj in Heq.
      destruct (sparse_ok_inj _ _ Hok _ _ _ _ Hi Hf0 Heq) as [-> _]. lia. }
    rewrite (list_insert_commute _ (e_sparse e) (e_sparse f)), list_insert_insert in Hs by done.
    split; [done|]. split; [done|]. by eapply small_swap_remove.
  - assert (i = n) as -> by lia. eexists _, _. split; [done|]. split; [|done]. exists (swap_remove k1 n). simpl.
    assert (k1 !! n = Some f) as Hk1 by (by rewrite Hk1l in Hk2).
    pose proof (sparse_ok_swap_remove _ _ n f f Hrev Hk1 Hk2) as Hs. rewrite Hk1l in Hs. fold n in Hs.
    rewrite decide_False in Hs by lia. rewrite list_insert_insert in Hs.
    rewrite (e_sparse_eq f e) in Hs by (rewrite Hf0 in Hi; injection Hi as ->; done).
    split; [done|]. split; [done|]. by eapply small_swap_remove.
Qed.

(** ** The store *)

Lemma be_allocate a e a' : small (a_recycled a) → (a_next a ≤ u32_lim)%N → a_rsm a ≤ length (a_recycled a) →
  allocate a = Ok (e, a') → small (a_recycled a') ∧ (a_next a' ≤ u32_lim)%N ∧
    (∀ x, e = Some x → (e_index x < u32_lim)%N) ∧ a_rsm a' ≤ length (a_recycled a').
Proof.
  intros Hs Hn Hm. unfold allocate. destruct (Nat.ltb_spec (a_rsm a) (length (a_recycled a))).
  - destruct (_ !! _) as [x|] eqn:E; [|done]. intros [= <- <-]. simpl. split_and!; [done..| |lia]. intros ? [= <-].
    by eapply (proj1 (Forall_lookup _ _) Hs).
  - destruct (N.ltb_spec (a_next a) u32_lim); intros [= <- <-]; simpl; split_and!; try done; try lia. by intros ? [= <-].
Qed.

Lemma be_create st : bestore st →
  match estore_create st with
  | Ok (e, st') => bestore st' ∧ (e_index e < u32_lim)%N ∧ length (estore_slice st) ≤ length (estore_slice st')
  | Panic => True
  | UB => False
  end.
Proof.
  intros [Hs Hr Hn Hm]. unfold estore_create. destruct (allocate (st_alloc st)) as [[[e|] a']| |] eqn:Ha; simpl; try done.
  - destruct (be_allocate _ _ _ Hr Hn Hm Ha) as (H1 & H2 & H3 & H4). destruct (beset_insert (st_set st) e Hs (H3 _ eq_refl)) as (s' & -> & Hs' & Hl).
    simpl. split_and!; [by split|by apply H3|done].
  - unfold allocate in Ha. destruct (_ <? _); [by destruct (_ !! _)|]. by destruct (_ <? _)%N.
Qed.

Lemma be_create_atomic st : bestore st →
  match estore_create_atomic st with Ok (e, st') => bestore st' | Panic => True | UB => False end.
Proof.
  intros [Hs Hr Hn Hm]. unfold estore_create_atomic, allocate_atomic. destruct (Nat.ltb_spec (a_rsm (st_alloc st)) (length (a_recycled (st_alloc st)))).
  - destruct (_ !! _); simpl; [|done]. split; simpl; [done..|lia].
  - destruct (N.ltb_spec (a_next (st_alloc st)) u32_lim); simpl; [|done]. split; simpl; [done..|lia|done].
Qed.

Lemma be_alloc_maintain st : bestore st →
  ∃ l a, alloc_maintain (st_alloc st) = Ok (l, a) ∧ small l ∧ small (a_recycled a) ∧ (a_next a ≤ u32_lim)%N ∧ a_rsm a = 0.
Proof.
  intros [Hs Hr Hn Hm]. unfold alloc_maintain. apply Nat.leb_le in Hm as ->. eexists _, _. split; [done|]. simpl. split_and!; [|by apply Forall_take|done..].
  apply Forall_app. split; [by apply Forall_drop|]. apply Forall_fmap, Forall_true. intros i. simpl. unfold as_u32.
  apply N.mod_lt. by unfold u32_lim.
Qed.

Lemma be_maintain st : bestore st → ∃ st', estore_maintain st = Ok st' ∧ bestore st'.
Proof.
  intros Hb. destruct (be_alloc_maintain st Hb) as (l & a & Ha & H1 & H2 & H3 & H4). unfold estore_maintain.
  rewrite Ha. simpl. destruct (beset_insert_all l (st_set st) (be_set _ Hb) H1) as (s' & -> & Hs'). simpl.
  eexists. split; [done|]. split; simpl; [done..|lia].
Qed.

Lemma be_clear st : bestore st → ∃ st', estore_clear st = Ok st' ∧ bestore st' ∧ estore_slice st' = [].
Proof.
  intros Hb. destruct (be_alloc_maintain st Hb) as (l & a & Ha & H1 & H2 & H3 & H4). unfold estore_clear.
  rewrite Ha. simpl. eexists. split; [done|]. split; [|done]. split; simpl; [apply beset_new|done..|lia].
Qed.

Lemma be_remove st e : bestore st → ∃ b st', estore_remove st e = Ok (b, st') ∧ bestore st'.
Proof.
  intros [Hs Hr Hn Hm]. unfold estore_remove. destruct (beset_remove (st_set st) e Hs) as (b & s' & -> & Hs' & He). simpl.
  destruct b; eexists _, _; (split; [done|]); [|by split]. split; simpl; [done|..].
  - unfold recycle. destruct (version_next _); [|done]. constructor; [by apply He|done].
  - unfold recycle. by destruct (version_next _).
  - unfold recycle. destruct (version_next _); simpl; lia.
Qed.

Lemma be_contains st e : bestore st → estore_contains st e = true → (e_index e < u32_lim)%N.
Proof. intros Hb. apply beset_contains, Hb. Qed.
