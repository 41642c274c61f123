(** Queries on storages that satisfy only the invariant of BlindCss.v. *)
From Verif Require Import Base SparseVecM EntityM CssM MaskM LayoutM GroupM StorageM WorldM QueryM ParM StepM
  Lists SparseProofs CssProofs BlindCss StorageProofs BlindStore.

Record bst (s : cstore) : Prop := {
  bs_all : Forall (λ c, ∃ d, brep c d) (cs_comps s);
  bs_in : metas_in (cs_meta s) (length (cs_comps s))
}.

Lemma bst_borrow s t : bst s →
  cs_borrow s t = Panic ∧ cs_meta s !! t = None ∨
  ∃ m c k d, cs_meta s !! t = Some m ∧ cs_comps s !! m_index m = Some c ∧ cs_borrow s t = Ok (c, m_info m) ∧ bcss c k d.
Proof.
  intros [Hall Hin]. unfold cs_borrow. destruct (cs_meta s !! t) as [m|] eqn:Ht; [right|by left].
  destruct (lookup_lt_is_Some_2 (cs_comps s) (m_index m)) as [c Hc]; [by eapply Hin|]. rewrite Hc.
  destruct (proj1 (Forall_lookup _ _) Hall _ _ Hc) as (d & k & Hb). eauto 10.
Qed.

(** The storage a view points to. *)
Definition vview (s : cstore) (v : pview) : Prop :=
  ∀ t, part_tid (pv_part v) = Some t → ∃ info, cs_borrow s t = Ok (pv_css v, info).

Lemma vview_bcss s v t : bst s → vview s v → part_tid (pv_part v) = Some t → ∃ k d, bcss (pv_css v) k d.
Proof.
  intros Hb Hv Ht. destruct (Hv t Ht) as [info Hi].
  destruct (bst_borrow s t Hb) as [[H _]|(m & c & k & d & _ & _ & H & Hc)]; rewrite Hi in H; [done|].
  injection H as -> _. eauto.
Qed.

Lemma part_borrow_bl w p : bst (w_comps w) →
  part_borrow w p = Panic ∨ ∃ v, part_borrow w p = Ok v ∧ pv_part v = p ∧ vview (w_comps w) v ∧
    (∀ i, pv_info v = Some i → ∃ t, (p = PRef t ∨ p = PMut t) ∧ vi_len i = c_len (pv_css v) ∧
       ∃ m, cs_meta (w_comps w) !! t = Some m ∧ vi_info i = m_info m) ∧
    (pv_info v = None → ∀ t, p ≠ PRef t ∧ p ≠ PMut t).
Proof.
  intros Hb. unfold vview. destruct p as [|t|t|t|t]; simpl;
    [right; eexists; split_and!; try done; by intros|..];
    (destruct (bst_borrow (w_comps w) t Hb) as [[-> _]|(m & c & k & d & Hm & Hc & Hbo & Hcc)]; [by left|right]);
    rewrite Hbo; eexists; (split; [done|]); simpl; split_and!; try done; try (intros ? [= <-]; by eexists).
  - intros i [= <-]. exists t. split_and!; eauto.
  - intros i [= <-]. exists t. split_and!; eauto.
Qed.

Definition info_of (w : world) (v : pview) : Prop :=
  (∀ i, pv_info v = Some i → ∃ t, (pv_part v = PRef t ∨ pv_part v = PMut t) ∧ vi_len i = c_len (pv_css v) ∧
     ∃ m, cs_meta (w_comps w) !! t = Some m ∧ vi_info i = m_info m) ∧
  (pv_info v = None → ∀ t, pv_part v ≠ PRef t ∧ pv_part v ≠ PMut t).

Lemma query_borrow_bl w : bst (w_comps w) → ∀ q,
  query_borrow w q = Panic ∨ ∃ vs, query_borrow w q = Ok vs ∧ pv_part <$> vs = q ∧ Forall (vview (w_comps w)) vs ∧ Forall (info_of w) vs.
Proof.
  intros Hb. induction q as [|p q IH]; simpl; [right; by exists []|].
  destruct (part_borrow_bl w p Hb) as [->|(v & -> & Hp & Hv & Hi)]; [by left|]. simpl.
  destruct IH as [->|(vs & -> & Hps & Hvs & His)]; [by left|right]. exists (v :: vs).
  split_and!; [done|by rewrite fmap_cons, Hp, Hps|by constructor|]. constructor; [|done]. unfold info_of. by rewrite Hp.
Qed.

Lemma borrow3_bl w G J X : bst (w_comps w) →
  borrow3 w G J X = Panic ∨ ∃ g i x, borrow3 w G J X = Ok (g, i, x) ∧ pv_part <$> g = G ∧
    Forall (vview (w_comps w)) g ∧ Forall (vview (w_comps w)) i ∧ Forall (vview (w_comps w)) x ∧
    Forall (info_of w) g ∧ Forall (info_of w) i ∧ Forall (info_of w) x.
Proof.
  intros Hb. unfold borrow3.
  destruct (query_borrow_bl w Hb G) as [->|(g & -> & Hg & ? & ?)]; [by left|].
  destruct (query_borrow_bl w Hb J) as [->|(i & -> & _ & ? & ?)]; [by left|].
  destruct (query_borrow_bl w Hb X) as [->|(x & -> & _ & ? & ?)]; [by left|].
  destruct (no_conflict _ _); [right|by left]. exists g, i, x. by split_and!.
Qed.

(** The length of the storage of [t]. *)
Definition tlen (s : cstore) (t : tid) : nat :=
  match cs_meta s !! t with
  | Some m => match cs_comps s !! m_index m with Some c => c_len c | None => 0 end
  | None => 0
  end.

Lemma vview_tlen s v t : vview s v → part_tid (pv_part v) = Some t → tlen s t = c_len (pv_css v).
Proof.
  intros Hv Ht. destruct (Hv t Ht) as [info Hi]. unfold cs_borrow in Hi. unfold tlen.
  destruct (cs_meta s !! t) as [m|]; [|done]. destruct (cs_comps s !! m_index m); [|done]. by injection Hi as -> _.
Qed.

(** The cell an item refers to is inside its storage. *)
Definition item_in (s : cstore) (p : part) (it : item) : Prop :=
  match p, it with
  | (PRef t | PMut t), IRef _ i _ => i < tlen s t
  | (POptRef t | POptMut t), IOpt _ (Some (i, _)) => i < tlen s t
  | _, _ => True
  end.

Lemma deref_bl c k d i p info : bcss c k d → i < c_len c → ∃ x, deref (PView p c info) i = Ok x.
Proof.
  intros Hb Hi. rewrite (bc_len _ _ _ Hb) in Hi. destruct (lookup_lt_is_Some_2 d i Hi) as [[e v] Hd].
  destruct (bc_cells _ _ _ Hb _ _ _ Hd) as [_ Hc]. unfold deref, buf_read. simpl. rewrite Hc. eauto.
Qed.

Lemma sv_get_bl c k d e n : bcss c k d → sv_get (c_sparse c) e = Some n → N.to_nat n < c_len c.
Proof.
  intros Hb H. unfold sv_get in H. destruct (c_sparse c !! e_sparse e) as [[sl|]|] eqn:E; try done.
  destruct (_ =? _)%N; [|done]. injection H as <-. rewrite (bc_len _ _ _ Hb). by apply (bc_slot _ _ _ Hb) in E as [? _].
Qed.

Lemma sv_get_sparse_bl c k d e n : bcss c k d → sv_get_sparse (c_sparse c) e = Some n → N.to_nat n < c_len c.
Proof.
  intros Hb H. unfold sv_get_sparse in H. destruct (c_sparse c !! e) as [[sl|]|] eqn:E; try done.
  injection H as <-. rewrite (bc_len _ _ _ Hb). by apply (bc_slot _ _ _ Hb) in E as [? _].
Qed.

Lemma part_opt_raw_bl s v t e : bst s → vview s v → part_tid (pv_part v) = Some t →
  ∃ r, part_opt_raw v t e = Ok (IOpt t r) ∧ ∀ i x, r = Some (i, x) → i < tlen s t.
Proof.
  intros Hs Hv Ht. destruct (vview_bcss _ _ _ Hs Hv Ht) as (k & d & Hb). rewrite (vview_tlen _ _ _ Hv Ht).
  unfold part_opt_raw. destruct (sv_get_sparse _ _) as [n|] eqn:E; [|by eexists].
  pose proof (sv_get_sparse_bl _ _ _ _ _ Hb E) as Hn. destruct v as [p c info]. simpl in *.
  destruct (deref_bl c k d _ p info Hb Hn) as [x ->]. simpl. eexists. split; [done|]. by intros ? ? [= <- <-].
Qed.

Lemma part_get_raw_bl s v e key : bst s → vview s v → part_key_raw v e = Some key →
  ∃ it, part_get_raw v key = Ok it ∧ item_in s (pv_part v) it.
Proof.
  intros Hs Hv Hk. unfold part_key_raw in Hk. unfold part_get_raw. destruct (pv_part v) as [|t|t|t|t] eqn:Hp.
  - injection Hk as <-. eexists. split; [done|]. done.
  - destruct (sv_get_sparse _ _) as [n|] eqn:E; [|done]. injection Hk as <-.
    assert (part_tid (pv_part v) = Some t) as Ht by (by rewrite Hp).
    destruct (vview_bcss _ _ _ Hs Hv Ht) as (k & d & Hb). pose proof (sv_get_sparse_bl _ _ _ _ _ Hb E) as Hn.
    simpl. rewrite (vview_tlen _ _ _ Hv Ht). destruct v as [p c info]. simpl in *.
    destruct (deref_bl c k d _ p info Hb Hn) as [x ->]. simpl. eexists. split; [done|]. done.
  - destruct (sv_get_sparse _ _) as [n|] eqn:E; [|done]. injection Hk as <-.
    assert (part_tid (pv_part v) = Some t) as Ht by (by rewrite Hp).
    destruct (vview_bcss _ _ _ Hs Hv Ht) as (k & d & Hb). pose proof (sv_get_sparse_bl _ _ _ _ _ Hb E) as Hn.
    simpl. rewrite (vview_tlen _ _ _ Hv Ht). destruct v as [p c info]. simpl in *.
    destruct (deref_bl c k d _ p info Hb Hn) as [x ->]. simpl. eexists. split; [done|]. done.
  - injection Hk as <-. destruct (part_opt_raw_bl s v t e Hs Hv) as (r & -> & Hr); [by rewrite Hp|].
    eexists. split; [done|]. destruct r as [[i x]|]; [|done]. simpl. by eapply Hr.
  - injection Hk as <-. destruct (part_opt_raw_bl s v t e Hs Hv) as (r & -> & Hr); [by rewrite Hp|].
    eexists. split; [done|]. destruct r as [[i x]|]; [|done]. simpl. by eapply Hr.
Qed.

Lemma part_get_bl s v e key : bst s → vview s v → part_key v e = Some key → ∃ it, part_get v key = Ok it.
Proof.
  intros Hs Hv Hk. unfold part_key in Hk. unfold part_get. destruct (pv_part v) as [|t|t|t|t] eqn:Hp.
  - injection Hk as <-. by eexists.
  - destruct (sv_get _ _) as [n|] eqn:E; [|done]. injection Hk as <-.
    destruct (vview_bcss _ _ t Hs Hv) as (k & d & Hb); [by rewrite Hp|]. pose proof (sv_get_bl _ _ _ _ _ Hb E) as Hn.
    destruct v as [p c info]. simpl in *. destruct (deref_bl c k d _ p info Hb Hn) as [x ->]. by eexists.
  - destruct (sv_get _ _) as [n|] eqn:E; [|done]. injection Hk as <-.
    destruct (vview_bcss _ _ t Hs Hv) as (k & d & Hb); [by rewrite Hp|]. pose proof (sv_get_bl _ _ _ _ _ Hb E) as Hn.
    destruct v as [p c info]. simpl in *. destruct (deref_bl c k d _ p info Hb Hn) as [x ->]. by eexists.
  - injection Hk as <-. destruct (vview_bcss _ _ t Hs Hv) as (k & d & Hb); [by rewrite Hp|].
    destruct (bc_get_ref _ _ _ Hb e) as (r & -> & _). by eexists.
  - injection Hk as <-. destruct (vview_bcss _ _ t Hs Hv) as (k & d & Hb); [by rewrite Hp|].
    destruct (bc_get_ref _ _ _ Hb e) as (r & -> & _). by eexists.
Qed.

Lemma all_some_zip {A B} (f : A → option B) : ∀ l ks, all_some f l = Some ks → Forall2 (λ x y, f x = Some y) l ks.
Proof.
  induction l as [|x l IH]; intros ks H; simpl in H; [by injection H as <-|].
  destruct (f x) as [y|] eqn:E; [|done]. destruct (all_some f l) as [ys|]; [|done]. injection H as <-. constructor; [done|by apply IH].
Qed.

Lemma query_get_raw_bl s vs e : bst s → Forall (vview s) vs →
  query_get_raw vs e = Ok None ∨ ∃ its, query_get_raw vs e = Ok (Some its) ∧ Forall2 (item_in s) (pv_part <$> vs) its.
Proof.
  intros Hs Hv. unfold query_get_raw. destruct (all_some _ vs) as [ks|] eqn:E; [right|by left].
  apply all_some_zip in E. assert (∃ its, all_ok (λ vk : pview * key, part_get_raw vk.1 vk.2) (zip vs ks) = Ok its ∧
    Forall2 (item_in s) (pv_part <$> vs) its) as (its & -> & H).
  { induction E as [|v k vs ks Hk _ IH]; [exists []; split; [done|constructor]|]. apply Forall_cons in Hv as [Hv Hvs]. simpl.
    destruct (part_get_raw_bl s v e k Hs Hv Hk) as (it & -> & Hit). destruct (IH Hvs) as (its & -> & His).
    eexists. split; [done|]. by constructor. }
  eauto.
Qed.

Lemma query_get_bl s vs e : bst s → Forall (vview s) vs → ∃ r, query_get vs e = Ok r.
Proof.
  intros Hs Hv. unfold query_get. destruct (all_some _ vs) as [ks|] eqn:E; [|by eexists].
  apply all_some_zip in E. assert (∃ its, all_ok (λ vk : pview * key, part_get vk.1 vk.2) (zip vs ks) = Ok its) as (its & ->).
  { induction E as [|v k vs ks Hk _ IH]; [by exists []|]. apply Forall_cons in Hv as [Hv Hvs]. simpl.
    destruct (part_get_bl s v e k Hs Hv Hk) as (it & ->). destruct (IH Hvs) as (its & ->). by eexists. }
  eauto.
Qed.

Lemma query_get_dense_bl s vs i e : bst s → Forall (vview s) vs →
  Forall (λ v, ∀ t, pv_part v = PRef t ∨ pv_part v = PMut t → i < c_len (pv_css v)) vs →
  ∃ its, query_get_dense vs i e = Ok its ∧ Forall2 (item_in s) (pv_part <$> vs) its.
Proof.
  intros Hs. induction 1 as [|v vs Hv _ IH]; intros Hl; [exists []; split; [done|constructor]|]. apply Forall_cons in Hl as [Hl Hls].
  destruct (IH Hls) as (its & Heq & His). unfold query_get_dense in *. simpl. rewrite Heq.
  assert (∃ it, part_get_dense v i e = Ok it ∧ item_in s (pv_part v) it) as (it & -> & Hit).
  { unfold part_get_dense. destruct (pv_part v) as [|t|t|t|t] eqn:Hp.
    - eexists. split; [done|]. done.
    - assert (part_tid (pv_part v) = Some t) as Ht by (by rewrite Hp).
      destruct (vview_bcss _ _ _ Hs Hv Ht) as (k & d & Hb). pose proof (Hl t (or_introl eq_refl)) as Hn.
      simpl. rewrite (vview_tlen _ _ _ Hv Ht). destruct v as [p c info]. simpl in *.
      destruct (deref_bl c k d _ p info Hb Hn) as [x ->]. eexists. split; [done|]. done.
    - assert (part_tid (pv_part v) = Some t) as Ht by (by rewrite Hp).
      destruct (vview_bcss _ _ _ Hs Hv Ht) as (k & d & Hb). pose proof (Hl t (or_intror eq_refl)) as Hn.
      simpl. rewrite (vview_tlen _ _ _ Hv Ht). destruct v as [p c info]. simpl in *.
      destruct (deref_bl c k d _ p info Hb Hn) as [x ->]. eexists. split; [done|]. done.
    - destruct (part_opt_raw_bl s v t e Hs Hv) as (r & -> & Hr); [by rewrite Hp|].
      eexists. split; [done|]. destruct r as [[j x]|]; [|done]. simpl. by eapply Hr.
    - destruct (part_opt_raw_bl s v t e Hs Hv) as (r & -> & Hr); [by rewrite Hp|].
      eexists. split; [done|]. destruct r as [[j x]|]; [|done]. simpl. by eapply Hr. }
  eexists. split; [done|]. by constructor.
Qed.

Lemma part_entities_bl s v : bst s → vview s v →
  part_entities v = Ok None ∧ (∀ t, pv_part v ≠ PRef t ∧ pv_part v ≠ PMut t) ∨
  ∃ l, part_entities v = Ok (Some l) ∧ length l = c_len (pv_css v).
Proof.
  intros Hs Hv. unfold part_entities. destruct (pv_part v) as [|t|t|t|t] eqn:Hp; try by left.
  - right. destruct (vview_bcss _ _ t Hs Hv) as (k & d & Hb); [by rewrite Hp|]. rewrite (bc_entities _ _ _ Hb). simpl.
    eexists. split; [done|]. by rewrite fmap_length, (bc_len _ _ _ Hb).
  - right. destruct (vview_bcss _ _ t Hs Hv) as (k & d & Hb); [by rewrite Hp|]. rewrite (bc_entities _ _ _ Hb). simpl.
    eexists. split; [done|]. by rewrite fmap_length, (bc_len _ _ _ Hb).
Qed.

Lemma shortest_bl s : bst s → ∀ vs acc, Forall (vview s) vs → ∃ r, shortest_entities acc vs = Ok r.
Proof.
  intros Hs. induction vs as [|v vs IH]; intros acc Hv; simpl; [by eexists|]. apply Forall_cons in Hv as [Hv Hvs].
  destruct (part_entities_bl s v Hs Hv) as [[-> _]|(l & -> & _)]; by apply IH.
Qed.

Lemma first_bl s : bst s → ∀ vs, Forall (vview s) vs → ∃ r, first_entities vs = Ok r.
Proof.
  intros Hs. induction vs as [|v vs IH]; intros Hv; simpl; [by eexists|]. apply Forall_cons in Hv as [Hv Hvs].
  destruct (part_entities_bl s v Hs Hv) as [[-> _]|(l & -> & _)]; [by apply IH|by eexists].
Qed.

Lemma sparse_fold_bl s x i g : bst s → Forall (vview s) g → ∀ ents, ∃ its, sparse_fold ents x i g = Ok its.
Proof.
  intros Hs Hg. induction ents as [|e ents [its IH]]; simpl; [by eexists|].
  destruct (negb _); [eauto|]. destruct (negb _); [eauto|].
  destruct (query_get_raw_bl s g e Hs Hg) as [->|(it & -> & _)]; [eauto|]. rewrite IH. eauto.
Qed.

(** A dense range that stays inside the storages. *)
Definition range_in (hi : nat) (ents : list entity) (g : list pview) : Prop :=
  hi ≤ length ents ∧ Forall (λ v, ∀ t, pv_part v = PRef t ∨ pv_part v = PMut t → hi ≤ c_len (pv_css v)) g.

Lemma dense_fold_bl s lo hi ents g : bst s → Forall (vview s) g → range_in hi ents g →
  ∃ its, dense_fold lo hi ents g = Ok its.
Proof.
  intros Hs Hg [He Hr]. unfold dense_fold.
  assert (∀ ks, (∀ k, k ∈ ks → k < hi) → ∃ its, all_ok (dense_get ents g) ks = Ok its) as Hgo.
  { induction ks as [|k ks IH]; intros Hk; simpl; [by eexists|]. unfold dense_get at 1.
    pose proof (Hk k ltac:(left)) as Hlt. destruct (lookup_lt_is_Some_2 ents k) as [e ->]; [lia|].
    destruct (query_get_dense_bl s g k e Hs Hg) as (it & -> & _).
    { eapply Forall_impl; [exact Hr|]. intros v Hv t Ht. specialize (Hv t Ht). lia. }
    destruct IH as [its ->]; [intros; apply Hk; by right|]. eauto. }
  apply Hgo. intros k. rewrite elem_of_seq. lia.
Qed.

Lemma part_slice_bl s v ents lo hi : bst s → vview s v → hi ≤ length ents → lo ≤ hi →
  (∀ t, pv_part v = PRef t ∨ pv_part v = PMut t → hi ≤ c_len (pv_css v)) → ∃ r, part_slice_raw v ents lo hi = Ok r.
Proof.
  intros Hs Hv He Hlo Hr. unfold part_slice_raw. destruct (pv_part v) as [|t|t|t|t] eqn:Hp; try by eexists.
  - destruct (Nat.leb_spec lo hi); [|lia]. destruct (Nat.leb_spec hi (length ents)); [|lia]. by eexists.
  - destruct (vview_bcss _ _ t Hs Hv) as (k & d & Hb); [by rewrite Hp|]. specialize (Hr t (or_introl eq_refl)).
    rewrite (bc_len _ _ _ Hb) in Hr. destruct (Nat.ltb_spec hi lo); [lia|].
    rewrite (bc_slice_prefix _ _ _ Hb) by lia. by eexists.
  - destruct (vview_bcss _ _ t Hs Hv) as (k & d & Hb); [by rewrite Hp|]. specialize (Hr t (or_intror eq_refl)).
    rewrite (bc_len _ _ _ Hb) in Hr. destruct (Nat.ltb_spec hi lo); [lia|].
    rewrite (bc_slice_prefix _ _ _ Hb) by lia. by eexists.
Qed.

(** ** No groups *)

Record plain_store (s : cstore) : Prop := {
  pl_groups : cs_groups s = [];
  pl_metas : ∀ t m, cs_meta s !! t = Some m → m = meta_plain (m_index m)
}.

(** The parts of [vs] that require a component. *)
Definition req (vs : list pview) : list pview := filter (λ v, is_Some (pv_info v)) vs.

Definition info_shape (q : option qinfo) (vs : list pview) : Prop :=
  match req vs with
  | [] => q = Some QEmpty
  | [v] => ∃ i, pv_info v = Some i ∧ q = Some (QOne i)
  | _ => q = None
  end.

Lemma query_info_plain w vs : plain_store (w_comps w) → Forall (info_of w) vs → info_shape (query_info vs) vs.
Proof.
  intros Hp Hvs.
  assert (Hnone : ∀ v i, v ∈ vs → pv_info v = Some i → vi_info i = None).
  { intros v i Hin Hi. destruct (proj1 (proj1 (Forall_forall _ _) Hvs v Hin) i Hi) as (t & _ & _ & m & Hm & ->).
    by rewrite (pl_metas _ Hp _ _ Hm). }
  assert (Hone : ∀ i, vi_info i = None → ∀ vs, (∀ v j, v ∈ vs → pv_info v = Some j → vi_info j = None) →
     query_info_from (QOne i) vs = match req vs with [] => Some (QOne i) | _ => None end).
  { clear. intros i Hi. induction vs as [|v vs IH]; intros Hn; [done|]. unfold req. rewrite filter_cons. simpl.
    destruct (pv_info v) as [j|] eqn:Hj.
    - rewrite decide_True by eauto. by rewrite Hi.
    - rewrite decide_False by (by intros [? ?]). apply IH. intros. eapply Hn; [by right|done]. }
  unfold query_info. clear Hvs. induction vs as [|v vs IH]; [done|].
  unfold info_shape, req. rewrite filter_cons. simpl. destruct (pv_info v) as [i|] eqn:Hi.
  - rewrite decide_True by eauto. rewrite Hone; [| |intros; by eapply Hnone; [right|]].
    + fold (req vs). destruct (req vs); [|done]. eauto.
    + eapply Hnone; [left|done].
  - rewrite decide_False by (by intros [? ?]). apply IH. intros. eapply Hnone; [by right|done].
Qed.

Lemma req_cons v vs : req (v :: vs) = if decide (is_Some (pv_info v)) then v :: req vs else req vs.
Proof. unfold req. by rewrite filter_cons. Qed.

Lemma req_nil_parts w vs v : Forall (info_of w) vs → req vs = [] → v ∈ vs → ∀ t, pv_part v ≠ PRef t ∧ pv_part v ≠ PMut t.
Proof.
  intros Hvs Hr Hv. destruct (proj1 (Forall_forall _ _) Hvs v Hv) as [_ H]. apply H.
  destruct (pv_info v) eqn:E; [|done]. exfalso. assert (v ∈ req vs) as Hin.
  { unfold req. apply elem_of_list_filter. split; [by rewrite E|done]. }
  rewrite Hr in Hin. by apply elem_of_nil in Hin.
Qed.

Lemma req_one_parts vs v0 v : req vs = [v0] → v ∈ vs → is_Some (pv_info v) → v = v0.
Proof.
  intros Hr Hv Hi. assert (v ∈ req vs) as Hin by (unfold req; apply elem_of_list_filter; done).
  rewrite Hr in Hin. by apply elem_of_list_singleton in Hin.
Qed.

Lemma info_of_ref w v t : info_of w v → pv_part v = PRef t ∨ pv_part v = PMut t → is_Some (pv_info v).
Proof. intros [_ H] Ht. destruct (pv_info v); [eauto|]. destruct (H eq_refl t). by destruct Ht. Qed.

Lemma first_req s w : bst s → ∀ vs, Forall (vview s) vs → Forall (info_of w) vs →
  first_entities vs = match req vs with [] => Ok None | v :: _ => part_entities v end.
Proof.
  intros Hs. induction vs as [|v vs IH]; intros Hv Hi; [done|]. apply Forall_cons in Hv as [Hv Hvs]. apply Forall_cons in Hi as [Hi His].
  simpl. rewrite req_cons. destruct (decide _) as [[i H]|H].
  - destruct (part_entities_bl s v Hs Hv) as [[Heq Hn]|(l & -> & _)]; [|done].
    exfalso. destruct (proj1 Hi _ H) as (t & Ht & _). destruct (Hn t). by destruct Ht.
  - destruct (part_entities_bl s v Hs Hv) as [[-> Hn]|(l & Heq & _)]; [by apply IH|].
    exfalso. unfold part_entities in Heq. destruct (pv_part v) eqn:Hp; try done; apply H; eapply info_of_ref; eauto.
Qed.

Lemma shortest_req s w : bst s → ∀ vs acc, Forall (vview s) vs → Forall (info_of w) vs →
  req vs = [] → shortest_entities acc vs = Ok acc.
Proof.
  intros Hs. induction vs as [|v vs IH]; intros acc Hv Hi Hr; [done|]. apply Forall_cons in Hv as [Hv Hvs]. apply Forall_cons in Hi as [Hi His].
  rewrite req_cons in Hr. simpl. destruct (decide _) as [H|H]; [done|].
  destruct (part_entities_bl s v Hs Hv) as [[-> Hn]|(l & Heq & _)]; [by apply IH|].
  exfalso. unfold part_entities in Heq. destruct (pv_part v) eqn:Hp; try done; apply H; eapply info_of_ref; eauto.
Qed.

Lemma shortest_req_one s w : bst s → ∀ vs v0, Forall (vview s) vs → Forall (info_of w) vs →
  req vs = [v0] → shortest_entities None vs = part_entities v0.
Proof.
  intros Hs. induction vs as [|v vs IH]; intros v0 Hv Hi Hr; [done|]. apply Forall_cons in Hv as [Hv Hvs]. apply Forall_cons in Hi as [Hi His].
  rewrite req_cons in Hr. simpl. destruct (decide _) as [[i H]|H].
  - injection Hr as -> Hr. destruct (part_entities_bl s v0 Hs Hv) as [[Heq Hn]|(l & -> & _)].
    + exfalso. destruct (proj1 Hi _ H) as (t & Ht & _). destruct (Hn t). by destruct Ht.
    + by eapply shortest_req.
  - destruct (part_entities_bl s v Hs Hv) as [[-> Hn]|(l & Heq & _)]; [by apply IH|].
    exfalso. unfold part_entities in Heq. destruct (pv_part v) eqn:Hp; try done; apply H; eapply info_of_ref; eauto.
Qed.

(** Without groups only a query for a single component is dense. *)
Lemma group_range_plain w g i x : plain_store (w_comps w) →
  Forall (info_of w) g → Forall (info_of w) i → Forall (info_of w) x →
  get_group_range (w_comps w) g i x = Ok None ∨
  ∃ v0 info, pv_info v0 = Some info ∧ get_group_range (w_comps w) g i x = Ok (Some (0, vi_len info)) ∧
    (req g = [v0] ∧ req i = [] ∨ req g = [] ∧ req i = [v0]).
Proof.
  intros Hp Hg Hi Hx. unfold get_group_range.
  pose proof (query_info_plain w g Hp Hg) as Sg. pose proof (query_info_plain w i Hp Hi) as Si. pose proof (query_info_plain w x Hp Hx) as Sx.
  assert (Hn : ∀ vs v inf, Forall (info_of w) vs → req vs = [v] → pv_info v = Some inf → vi_info inf = None).
  { intros vs v inf Hvs Hr Hinf. assert (v ∈ req vs) as Hin by (rewrite Hr; left).
    unfold req in Hin. apply elem_of_list_filter in Hin as [_ Hin].
    destruct (proj1 (proj1 (Forall_forall _ _) Hvs v Hin) _ Hinf) as (t & _ & _ & m & Hm & ->).
    by rewrite (pl_metas _ Hp _ _ Hm). }
  unfold info_shape in *.
  destruct (req g) as [|vg [|]] eqn:Eg; [rewrite Sg|destruct Sg as (ig & Hig & ->)|rewrite Sg; by left].
  - destruct (req i) as [|vi [|]] eqn:Ei; [rewrite Si|destruct Si as (ii & Hii & ->)|rewrite Si; by left].
    + left. destruct (req x) as [|vx [|]]; [rewrite Sx|destruct Sx as (ix & _ & ->)|rewrite Sx]; done.
    + destruct (req x) as [|vx [|]] eqn:Ex; [rewrite Sx|destruct Sx as (ix & Hix & ->)|rewrite Sx; by left]; simpl.
      * right. exists vi, ii. split_and!; auto.
      * left. by rewrite (Hn i vi ii Hi Ei Hii).
  - destruct (req i) as [|vi [|]] eqn:Ei; [rewrite Si|destruct Si as (ii & Hii & ->)|rewrite Si; by left].
    + destruct (req x) as [|vx [|]] eqn:Ex; [rewrite Sx|destruct Sx as (ix & Hix & ->)|rewrite Sx; by left]; simpl.
      * right. exists vg, ig. split_and!; auto.
      * left. by rewrite (Hn g vg ig Hg Eg Hig).
    + left. destruct (req x) as [|vx [|]]; [rewrite Sx|destruct Sx as (ix & _ & ->)|rewrite Sx; done]; simpl;
        by rewrite (Hn g vg ig Hg Eg Hig).
Qed.

Definition iter_in (it : iter) : Prop :=
  match it with ISparse _ _ _ _ => True | IDense _ hi ents g => range_in hi ents g end.
Definition iter_views (it : iter) : list pview := match it with ISparse _ _ _ g | IDense _ _ _ g => g end.

Lemma query_iter_plain w g i x : bst (w_comps w) → plain_store (w_comps w) →
  Forall (vview (w_comps w)) g → Forall (vview (w_comps w)) i → Forall (vview (w_comps w)) x →
  Forall (info_of w) g → Forall (info_of w) i → Forall (info_of w) x →
  ∃ it, query_iter (w_comps w) g i x = Ok it ∧ iter_in it ∧ iter_views it = g.
Proof.
  intros Hs Hp Hg Hi Hx Ig Ii Ix. unfold query_iter.
  destruct (group_range_plain w g i x Hp Ig Ii Ix) as [->|(v0 & info & Hinf & -> & Hr)].
  { destruct (shortest_bl _ Hs g None Hg) as [? ->]. destruct (shortest_bl _ Hs i None Hi) as [? ->].
    destruct (shortest_bl _ Hs x None Hx) as [? ->]. by eexists. }
  assert (∀ vs, Forall (vview (w_comps w)) vs → Forall (info_of w) vs → v0 ∈ req vs →
    ∃ l, part_entities v0 = Ok (Some l) ∧ length l = c_len (pv_css v0) ∧ vi_len info = c_len (pv_css v0)) as He.
  { intros vs Hvs Ivs Hin. unfold req in Hin. apply elem_of_list_filter in Hin as [_ Hin].
    destruct (proj1 (proj1 (Forall_forall _ _) Ivs v0 Hin) _ Hinf) as (t & Ht & Hlen & _).
    destruct (part_entities_bl (w_comps w) v0 Hs) as [[_ Hn]|(l & Hl1 & Hl2)]; [exact (proj1 (Forall_forall _ _) Hvs v0 Hin)| |eauto].
    exfalso. destruct (Hn t). by destruct Ht. }
  rewrite (first_req _ _ Hs g Hg Ig). destruct Hr as [[Eg Ei]|[Eg Ei]]; rewrite Eg.
  - destruct (He g Hg Ig) as (l & -> & Hl & Hlen); [rewrite Eg; left|].
    rewrite (shortest_req _ _ Hs i None Hi Ii Ei). eexists. split; [done|]. split; [|done]. split; [lia|].
    apply Forall_forall. intros v Hv t Ht. rewrite (req_one_parts g v0 v Eg Hv); [lia|].
    eapply info_of_ref; [|done]. exact (proj1 (Forall_forall _ _) Ig v Hv).
  - destruct (He i Hi Ii) as (l & Hpe & Hl & Hlen); [rewrite Ei; left|].
    rewrite (shortest_req_one _ _ Hs i v0 Hi Ii Ei), Hpe. eexists. split; [done|]. split; [|done]. split; [lia|].
    apply Forall_forall. intros v Hv t Ht. destruct (req_nil_parts w g v Ig Eg Hv t). by destruct Ht.
Qed.
