(** Writing through queries under the invariant of BlindCss.v. *)
From Verif Require Import Base SparseVecM EntityM CssM MaskM LayoutM GroupM StorageM WorldM QueryM ParM StepM
  Lists SparseProofs CssProofs BlindCss StorageProofs LayoutOps BlindStore BlindQuery BlindLayout.

(** [s'] is [s] after assignments that replaced [o] by [n]. *)
Record bwrote (s s' : cstore) (o n : list val) : Prop := {
  wr_groups : cs_groups s' = cs_groups s;
  wr_meta : cs_meta s' = cs_meta s;
  wr_moves : bmoves n o (cs_comps s) (cs_comps s');
  wr_len : c_len <$> cs_comps s' = c_len <$> cs_comps s
}.

Lemma bwrote_refl s : bwrote s s [] [].
Proof. split; try done. apply bkeeps_moves, bkeeps_refl. Qed.

Lemma bwrote_trans s1 s2 s3 o1 o2 n1 n2 : bwrote s1 s2 o1 n1 → bwrote s2 s3 o2 n2 → bwrote s1 s3 (o1 ++ o2) (n1 ++ n2).
Proof. intros [H1 H2 H3 H4] [G1 G2 G3 G4]. split; try congruence. by eapply bmoves_trans. Qed.

Lemma bwrote_tlen s s' o n t : bwrote s s' o n → tlen s' t = tlen s t.
Proof.
  intros [_ Hm _ Hl]. unfold tlen. rewrite Hm. destruct (cs_meta s !! t) as [m|]; [|done].
  pose proof (f_equal (lookup (m_index m)) Hl) as H. rewrite !list_lookup_fmap in H.
  destruct (cs_comps s' !! m_index m), (cs_comps s !! m_index m); try done. simpl in H. by injection H.
Qed.

Lemma bwrote_bst s s' o n : bst s → bwrote s s' o n → bst s'.
Proof.
  intros [H1 H2] [_ Hm Hv _]. split; [by eapply bmoves_all|]. rewrite Hm. destruct Hv as [-> _]. done.
Qed.

Lemma bwrote_bstore s s' o n ds : bstore s ds → bwrote s s' o n → ∃ ds', bstore s' ds' ∧ n ++ stored ds ≡ₚ o ++ stored ds'.
Proof.
  intros Hs [_ Hm Hv _]. destruct s as [gs mt comps], s' as [gs' mt' comps']. simpl in *. subst mt'. by eapply bstore_moves.
Qed.

Lemma bwrote_plain s s' o n : plain_store s → bwrote s s' o n → plain_store s'.
Proof. intros [H1 H2] [Hg Hm _ _]. split; [congruence|]. by rewrite Hm. Qed.

Lemma write_one_wrote s p it nv s' o n : write_one s p it nv = Ok (s', o, n) → bwrote s s' o n.
Proof.
  intros H. set (go := λ t i v, match cs_meta s !! t with
    | None => UB
    | Some m => match cs_comps s !! m_index m with
        | None => UB
        | Some c => match buf_read (c_comps c) i, css_set c i v with
            | Ok old, Ok c' => Ok (CStore (cs_groups s) (cs_meta s) (<[m_index m := c']> (cs_comps s)), [old], [v])
            | _, _ => UB end end end).
  assert (Hgo : ∀ t i v, go t i v = Ok (s', o, n) → bwrote s s' o n).
  { clear H. intros t i v H. unfold go in H. destruct (cs_meta s !! t) as [m|]; [|done].
    destruct (cs_comps s !! m_index m) as [c|] eqn:Hc; [|done].
    destruct (buf_read (c_comps c) i) as [old| |] eqn:Hr; try done. destruct (css_set c i v) as [c'| |] eqn:Hs; try done.
    injection H as <- <- <-. split; [done|done| |]; simpl.
    - apply (bmoves_one _ _ c); [done|]. intros d [k Hb]. destruct (bc_set _ _ _ Hb _ _ _ Hs) as (e & old' & Hd & Hb').
      destruct (bc_read _ _ _ Hb _ _ Hr) as [e' Hd']. rewrite Hd in Hd'. injection Hd' as <- ->.
      eexists. split; [done|]. rewrite list_fmap_insert. simpl.
      rewrite <-(take_drop_middle d.*2 i old) at 1 by (by rewrite list_lookup_fmap, Hd).
      rewrite insert_take_drop by (rewrite fmap_length; by eapply lookup_lt_Some).
      rewrite <-!Permutation_middle. apply perm_swap.
    - rewrite list_fmap_insert. apply list_insert_id. rewrite list_lookup_fmap, Hc. simpl. f_equal.
      unfold css_set in Hs. rewrite Hr in Hs. simpl in Hs. destruct (buf_write _ _ _); try done. by injection Hs as <-. }
  unfold write_one in H. destruct p as [|t|t|t|t], it as [|t0 i v0|t0 [[i v0]|]], nv as [v|];
    first [exact (Hgo t i v H) | injection H as <- <- <-; apply bwrote_refl].
Qed.

Lemma write_one_safe s p it nv : bst s → item_in s p it → ∃ r, write_one s p it nv = Ok r.
Proof.
  intros Hs Hi.
  assert (Hgo : ∀ t i v, i < tlen s t → ∃ r, match cs_meta s !! t with
    | None => UB
    | Some m => match cs_comps s !! m_index m with
        | None => UB
        | Some c => match buf_read (c_comps c) i, css_set c i v with
            | Ok old, Ok c' => Ok (CStore (cs_groups s) (cs_meta s) (<[m_index m := c']> (cs_comps s)), [old], [v])
            | _, _ => UB end end end = Ok r).
  { intros t i v Hlt. destruct (bst_borrow s t Hs) as [[_ Hn]|(m & c & k & d & Hm & Hc & _ & Hb)]; unfold tlen in Hlt.
    - rewrite Hn in Hlt. lia.
    - rewrite Hm, Hc in *. rewrite (bc_len _ _ _ Hb) in Hlt. destruct (lookup_lt_is_Some_2 d i Hlt) as [[e x] Hd].
      destruct (bc_set_safe _ _ _ Hb _ _ _ v Hd) as [c' ->]. destruct (bc_cells _ _ _ Hb _ _ _ Hd) as [_ Hx].
      unfold buf_read. rewrite Hx. by eexists. }
  unfold write_one. destruct p as [|t|t|t|t], it as [|t0 i v0|t0 [[i v0]|]], nv as [v|]; try (by eexists); by apply Hgo.
Qed.

Lemma item_in_wrote s s' o n p it : bwrote s s' o n → item_in s p it → item_in s' p it.
Proof.
  intros Hw. pose proof (λ t, bwrote_tlen s s' o n t Hw) as Ht.
  destruct p, it as [|? i ?|? [[i ?]|]]; simpl; try done; by rewrite Ht.
Qed.

Lemma write_items_wrote f seen : ∀ ps k its s s' o n,
  write_items s f seen k ps its = Ok (s', o, n) → bwrote s s' o n.
Proof.
  induction ps as [|p ps IH]; intros k its s s' o n H; simpl in H. { injection H as <- <- <-. apply bwrote_refl. }
  destruct its as [|it its]. { injection H as <- <- <-. apply bwrote_refl. }
  destruct (write_one s p it (f k seen)) as [[[s1 o1] n1]| |] eqn:E; try done.
  destruct (write_items s1 f seen (S k) ps its) as [[[s2 o2] n2]| |] eqn:E2; try done. injection H as <- <- <-.
  eapply bwrote_trans; [by eapply write_one_wrote|by eapply IH].
Qed.

Lemma write_items_safe f seen : ∀ ps k its s, bst s → Forall2 (item_in s) ps its → ∃ r, write_items s f seen k ps its = Ok r.
Proof.
  induction ps as [|p ps IH]; intros k its s Hs Hi; simpl; [by eexists|].
  inversion Hi as [|? it ? its' H1 H2]; subst. destruct (write_one_safe s p it (f k seen) Hs H1) as [[[s1 o1] n1] E]. rewrite E.
  pose proof (write_one_wrote _ _ _ _ _ _ _ E) as Hw.
  destruct (IH (S k) its' s1) as [[[s2 o2] n2] ->]; [by eapply bwrote_bst| |by eexists].
  eapply Forall2_impl; [done|]. intros. by eapply item_in_wrote.
Qed.

Lemma sparse_for_each_wrote f G x i g : ∀ ents s s' es o n,
  sparse_for_each s f G ents x i g = Ok (s', es, o, n) → bwrote s s' o n.
Proof.
  induction ents as [|e ents IH]; intros s s' es o n H; simpl in H. { injection H as <- <- <- <-. apply bwrote_refl. }
  destruct (negb _); [by eapply IH|]. destruct (negb _); [by eapply IH|].
  destruct (query_get_raw _ e) as [[it|]| |]; try done; [|by eapply IH].
  destruct (visit s f G it) as [[[s1 o1] n1]| |] eqn:E; try done.
  destruct (sparse_for_each s1 f G ents x i g) as [[[[s2 es2] o2] n2]| |] eqn:E2; try done. injection H as <- <- <- <-.
  eapply bwrote_trans; [by eapply write_items_wrote|by eapply IH].
Qed.

Lemma dense_for_each_wrote f G ents g : ∀ ks s s' es o n,
  dense_for_each s f G ks ents g = Ok (s', es, o, n) → bwrote s s' o n.
Proof.
  induction ks as [|k ks IH]; intros s s' es o n H; simpl in H. { injection H as <- <- <- <-. apply bwrote_refl. }
  destruct (ents !! k) as [e|]; [|done]. destruct (query_get_dense _ k e) as [it| |]; try done.
  destruct (visit s f G it) as [[[s1 o1] n1]| |] eqn:E; try done.
  destruct (dense_for_each s1 f G ks ents g) as [[[[s2 es2] o2] n2]| |] eqn:E2; try done. injection H as <- <- <- <-.
  eapply bwrote_trans; [by eapply write_items_wrote|by eapply IH].
Qed.

Lemma query_for_each_wrote w G J X f s' es o n :
  query_for_each w G J X f = Ok (s', es, o, n) → bwrote (w_comps w) s' o n.
Proof.
  unfold query_for_each. destruct (borrow3 w G J X) as [[[g i] x]| |]; try done.
  destruct (query_iter _ g i x) as [[ents x' i' g'|lo hi ents g']| |]; try done.
  - apply sparse_for_each_wrote.
  - apply dense_for_each_wrote.
Qed.

(** ** Views of the current contents *)

Definition vreg (s : cstore) (v : pview) : Prop := ∀ t, part_tid (pv_part v) = Some t → is_Some (cs_meta s !! t).

Lemma vview_vreg s v : vview s v → vreg s v.
Proof. intros Hv t Ht. destruct (Hv t Ht) as [info H]. unfold cs_borrow in H. destruct (cs_meta s !! t); [eauto|done]. Qed.

Lemma refresh_part s v : pv_part (refresh s v) = pv_part v.
Proof. unfold refresh. destruct (part_tid (pv_part v)); [|done]. by destruct (cs_borrow s t) as [[? ?]| |]. Qed.

Lemma refresh_parts s (g : list pview) : pv_part <$> (refresh s <$> g) = pv_part <$> g.
Proof. rewrite <-list_fmap_compose. apply list_fmap_ext. intros _ v _. apply refresh_part. Qed.

Lemma refresh_vview s v : bst s → vreg s v → vview s (refresh s v).
Proof.
  intros Hs Hv t Ht. rewrite refresh_part in Ht. destruct (Hv t Ht) as [m Hm].
  destruct (bst_borrow s t Hs) as [[_ Hn]|(m' & c & k & d & _ & _ & Hb & _)]; [congruence|].
  exists (m_info m'). unfold refresh. rewrite Ht, Hb. done.
Qed.

Lemma refresh_vviews s g : bst s → Forall (vreg s) g → Forall (vview s) (refresh s <$> g).
Proof. intros Hs Hg. apply Forall_fmap. eapply Forall_impl; [done|]. intros v. by apply refresh_vview. Qed.

Lemma vreg_wrote s s' o n g : bwrote s s' o n → Forall (vreg s) g → Forall (vreg s') g.
Proof. intros Hw Hg. eapply Forall_impl; [done|]. intros v Hv t Ht. rewrite (wr_meta _ _ _ _ Hw). by apply Hv. Qed.

Lemma sparse_for_each_safe f G x i g : pv_part <$> g = G → ∀ ents s,
  bst s → Forall (vreg s) g → ∃ r, sparse_for_each s f G ents x i g = Ok r.
Proof.
  intros HG. induction ents as [|e ents IH]; intros s Hs Hg; simpl; [by eexists|].
  destruct (negb _); [by apply IH|]. destruct (negb _); [by apply IH|].
  destruct (query_get_raw_bl s (refresh s <$> g) e Hs) as [->|(it & -> & Hit)]; [by apply refresh_vviews|by apply IH|].
  rewrite refresh_parts, HG in Hit. unfold visit.
  destruct (write_items_safe f (abs_item <$> it) G 0 it s Hs Hit) as [[[s1 o1] n1] E]. rewrite E.
  pose proof (write_items_wrote _ _ _ _ _ _ _ _ _ E) as Hw.
  destruct (IH s1) as [[[[s2 es2] o2] n2] ->]; [by eapply bwrote_bst|by eapply vreg_wrote|by eexists].
Qed.

Lemma dense_for_each_safe f G ents g hi : pv_part <$> g = G → hi ≤ length ents → ∀ ks s,
  bst s → Forall (vreg s) g → (∀ v t, v ∈ g → pv_part v = PRef t ∨ pv_part v = PMut t → hi ≤ tlen s t) →
  (∀ k, k ∈ ks → k < hi) → ∃ r, dense_for_each s f G ks ents g = Ok r.
Proof.
  intros HG He. induction ks as [|k ks IH]; intros s Hs Hg Hl Hk; simpl; [by eexists|].
  pose proof (Hk k ltac:(left)) as Hlt. destruct (lookup_lt_is_Some_2 ents k) as [e ->]; [lia|].
  destruct (query_get_dense_bl s (refresh s <$> g) k e Hs) as (it & -> & Hit); [by apply refresh_vviews| |].
  { apply Forall_fmap, Forall_forall. intros v Hv t Ht. simpl in Ht. rewrite refresh_part in Ht.
    pose proof (proj1 (Forall_forall _ _) Hg v Hv) as Hr. pose proof (refresh_vview s v Hs Hr) as Hvv. specialize (Hl v t Hv Ht).
    rewrite <-(vview_tlen s (refresh s v) t Hvv); [lia|]. rewrite refresh_part. by destruct Ht as [-> | ->]. }
  rewrite refresh_parts, HG in Hit. unfold visit.
  destruct (write_items_safe f (abs_item <$> it) G 0 it s Hs Hit) as [[[s1 o1] n1] E]. rewrite E.
  pose proof (write_items_wrote _ _ _ _ _ _ _ _ _ E) as Hw.
  destruct (IH s1) as [[[[s2 es2] o2] n2] ->]; [by eapply bwrote_bst|by eapply vreg_wrote| |intros; apply Hk; by right|by eexists].
  intros v t Hv Ht. rewrite (bwrote_tlen _ _ _ _ t Hw). by eapply Hl.
Qed.

Lemma range_in_tlen s hi ents g : Forall (vview s) g → range_in hi ents g →
  ∀ v t, v ∈ g → pv_part v = PRef t ∨ pv_part v = PMut t → hi ≤ tlen s t.
Proof.
  intros Hg [_ Hr] v t Hv Ht. rewrite (vview_tlen s v t); [|exact (proj1 (Forall_forall _ _) Hg v Hv)|by destruct Ht as [-> | ->]].
  exact (proj1 (Forall_forall _ _) Hr v Hv t Ht).
Qed.

(** ** Parallel runs *)

Lemma visits_of_wrote f G : ∀ its s s' o n, visits_of s f G its = Ok (s', o, n) → bwrote s s' o n.
Proof.
  induction its as [|it its IH]; intros s s' o n H; simpl in H. { injection H as <- <- <-. apply bwrote_refl. }
  destruct (visit s f G it) as [[[s1 o1] n1]| |] eqn:E; try done.
  destruct (visits_of s1 f G its) as [[[s2 o2] n2]| |] eqn:E2; try done. injection H as <- <- <-.
  eapply bwrote_trans; [by eapply write_items_wrote|by eapply IH].
Qed.

Lemma par_run_wrote f G p : ∀ us s s' es o n, par_run s f G p us = Ok (s', es, o, n) → bwrote s s' o n.
Proof.
  induction us as [|u us IH]; intros s s' es o n H; simpl in H. { injection H as <- <- <- <-. apply bwrote_refl. }
  destruct (work_items _ u) as [its| |]; try done. destruct (visits_of s f G its) as [[[s1 o1] n1]| |] eqn:E; try done.
  destruct (par_run s1 f G p us) as [[[[s2 es2] o2] n2]| |] eqn:E2; try done. injection H as <- <- <- <-.
  eapply bwrote_trans; [by eapply visits_of_wrote|by eapply IH].
Qed.

(** A unit of work that belongs to the iterator. *)
Definition work_in (p : piter) (u : work) : Prop :=
  match p, u with
  | PSparse _ _ _ _, WEntity _ => True
  | PDense _ hi _ _, WIndex k => k < hi
  | _, _ => False
  end.

Definition piter_in (s : cstore) (p : piter) (G : query) : Prop :=
  match p with
  | PSparse _ x i g => pv_part <$> g = G ∧ Forall (vreg s) g
  | PDense _ hi ents g => pv_part <$> g = G ∧ Forall (vreg s) g ∧ hi ≤ length ents ∧
      ∀ v t, v ∈ g → pv_part v = PRef t ∨ pv_part v = PMut t → hi ≤ tlen s t
  end.

Lemma piter_in_wrote s s' o n p G : bwrote s s' o n → piter_in s p G → piter_in s' p G.
Proof.
  intros Hw. destruct p as [ents x i g|lo hi ents g]; simpl.
  - intros [? ?]. split; [done|by eapply vreg_wrote].
  - intros (? & ? & ? & Hl). split_and!; [done|by eapply vreg_wrote|done|]. intros v t Hv Ht.
    rewrite (bwrote_tlen _ _ _ _ t Hw). by eapply Hl.
Qed.

Lemma work_items_safe s p G u : bst s → piter_in s p G → work_in p u →
  ∃ its, work_items (piter_refresh s p) u = Ok its ∧ Forall (Forall2 (item_in s) G) its.
Proof.
  intros Hs Hp Hu. destruct p as [ents x i g|lo hi ents g], u as [k|e]; simpl in *; try done.
  - destruct Hp as [HG Hg]. unfold psparse_get. destruct (negb _); [eexists; split; [done|constructor]|].
    destruct (negb _); [eexists; split; [done|constructor]|].
    destruct (query_get_raw_bl s (refresh s <$> g) e Hs) as [->|(it & -> & Hit)]; [by apply refresh_vviews|eexists; split; [done|constructor]|].
    rewrite refresh_parts, HG in Hit. eexists. split; [done|]. by repeat constructor.
  - destruct Hp as (HG & Hg & He & Hl). unfold pdense_get. destruct (lookup_lt_is_Some_2 ents k) as [e ->]; [lia|].
    destruct (query_get_dense_bl s (refresh s <$> g) k e Hs) as (it & -> & Hit); [by apply refresh_vviews| |].
    { apply Forall_fmap, Forall_forall. intros v Hv t Ht. simpl in Ht. rewrite refresh_part in Ht.
      pose proof (proj1 (Forall_forall _ _) Hg v Hv) as Hr. pose proof (refresh_vview s v Hs Hr) as Hvv. specialize (Hl v t Hv Ht).
      rewrite <-(vview_tlen s (refresh s v) t Hvv); [lia|]. rewrite refresh_part. by destruct Ht as [-> | ->]. }
    rewrite refresh_parts, HG in Hit. simpl. eexists. split; [done|]. by repeat constructor.
Qed.

Lemma visits_of_safe f G : ∀ its s, bst s → Forall (Forall2 (item_in s) G) its → ∃ r, visits_of s f G its = Ok r.
Proof.
  induction its as [|it its IH]; intros s Hs Hi; simpl; [by eexists|]. apply Forall_cons in Hi as [Hi His].
  unfold visit. destruct (write_items_safe f (abs_item <$> it) G 0 it s Hs Hi) as [[[s1 o1] n1] E]. rewrite E.
  pose proof (write_items_wrote _ _ _ _ _ _ _ _ _ E) as Hw.
  destruct (IH s1) as [[[s2 o2] n2] ->]; [by eapply bwrote_bst| |by eexists].
  eapply Forall_impl; [done|]. intros l Hl. eapply Forall2_impl; [done|]. intros. by eapply item_in_wrote.
Qed.

Lemma par_run_safe f G p : ∀ us s, bst s → piter_in s p G → Forall (work_in p) us → ∃ r, par_run s f G p us = Ok r.
Proof.
  induction us as [|u us IH]; intros s Hs Hp Hu; simpl; [by eexists|]. apply Forall_cons in Hu as [Hu Hus].
  destruct (work_items_safe s p G u Hs Hp Hu) as (its & -> & Hi).
  destruct (visits_of_safe f G its s Hs Hi) as [[[s1 o1] n1] E]. rewrite E.
  pose proof (visits_of_wrote _ _ _ _ _ _ _ E) as Hw.
  destruct (IH s1) as [[[[s2 es2] o2] n2] ->]; [by eapply bwrote_bst|by eapply piter_in_wrote|done|by eexists].
Qed.
