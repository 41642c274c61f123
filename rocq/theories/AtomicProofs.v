(** Every schedule gives the outcomes of the same calls made one after the other. *)
From Verif Require Import Base Lists SparseVecM EntityM CssM MaskM LayoutM GroupM StorageM WorldM QueryM StepM AtomicM
  SparseProofs Spec SpecMore SpecAtomic EntityProofs EntityRun EntityHistory HandleFacts Lockstep
  WorldProofs History.

(** The counters stay within their bounds. *)
Definition counters_ok (a : allocator) : Prop := a_rsm a ≤ length (a_recycled a) ∧ (a_next a ≤ u32_lim)%N.

Inductive calls_run (w : world) : list outcome → world → Prop :=
| calls_nil : calls_run w [] w
| calls_snoc outs w1 out w2 :
    calls_run w outs w1 → step w1 OCreateAtomic = (out, [], w2) → calls_run w (outs ++ [out]) w2.

Definition pc_ok (recycled : list entity) (sh : shared) (p : pc) : Prop :=
  match p with
  | PIdle | PLoadR => True
  | PCasR prev => prev < length recycled
  | PLoadN => hd_error (sh_rsm sh) = Some (length recycled)
  | PCasN prev => hd_error (sh_rsm sh) = Some (length recycled) ∧ (prev < u32_lim)%N
  end.

Record sched_inv (w : world) (sh : shared) (ths : list pc) (outs : list outcome) : Prop := {
  si_rsm : ∃ r old, sh_rsm sh = r :: old ∧ r ≤ length (a_recycled (st_alloc (w_ents w))) ∧ ∀ v, v ∈ old → v ≤ r;
  si_next : ∃ n old, sh_next sh = n :: old ∧ (n ≤ u32_lim)%N ∧ ∀ v, v ∈ old → (v ≤ n)%N;
  si_pc : ∀ t p, ths !! t = Some p → pc_ok (a_recycled (st_alloc (w_ents w))) sh p;
  si_run : calls_run w outs (leave w sh)
}.

Lemma leave_self w : leave w (shared_of (st_alloc (w_ents w))) = w.
Proof. by destruct w as [[[] ?] ?]. Qed.

Section access.
  Context (w : world).
  Notation rec := (a_recycled (st_alloc (w_ents w))).

  Lemma loop_r_ok sh ths outs t p v :
    sched_inv w sh ths outs → ths !! t = Some p → v ∈ sh_rsm sh →
    (loop_r rec v).2 = [] ∧ pc_ok rec sh (loop_r rec v).1.
  Proof.
    intros [] Ht Hv. unfold loop_r. destruct (Nat.ltb_spec v (length rec)); [done|]. split; [done|]. simpl.
    destruct si_rsm0 as (r & old & Hr & Hle & Hold). rewrite Hr in Hv |- *. simpl. f_equal.
    apply elem_of_cons in Hv as [-> | Hv%Hold]; lia.
  Qed.

  Lemma pc_ok_next r n n' p : pc_ok rec (Shared r n) p → pc_ok rec (Shared r n') p.
  Proof. by destruct p. Qed.

  Lemma loop_n_ok sh ths outs t p v :
    sched_inv w sh ths outs → ths !! t = Some p → hd_error (sh_rsm sh) = Some (length rec) → v ∈ sh_next sh →
    pc_ok rec sh (loop_n v).1 ∧ calls_run w (outs ++ (loop_n v).2) (leave w sh).
  Proof.
    intros [] Ht Hr Hv. unfold loop_n. destruct (N.ltb_spec v u32_lim); simpl.
    { split; [done|]. by rewrite app_nil_r. }
    split; [done|]. eapply calls_snoc; [done|].
    destruct si_rsm0 as (r & old & Hrr & Hle & Hold), si_next0 as (n & nold & Hn & Hnle & Hnold).
    rewrite Hrr in Hr. simpl in Hr. simplify_eq. rewrite Hn in Hv.
    assert (n = u32_lim) as ->. { apply elem_of_cons in Hv as [-> | Hv%Hnold]; lia. }
    simpl. unfold world_create_atomic, estore_create_atomic, allocate_atomic, leave. rewrite Hrr, Hn. simpl.
    by rewrite (proj2 (Nat.ltb_ge _ _)) by lia.
  Qed.

  Lemma access_ok sh ths outs t p sh' p' outs' :
    sched_inv w sh ths outs → ths !! t = Some p → access rec sh p sh' (p', outs') →
    sched_inv w sh' (<[t := p']> ths) (outs ++ outs').
  Proof.
    intros HI Ht Ha. pose proof (si_pc _ _ _ _ HI _ _ Ht) as Hp.
    assert (∀ sh2, (∀ q, pc_ok rec sh q → pc_ok rec sh2 q) → pc_ok rec sh2 p' →
      ∀ t2 q, <[t:=p']> ths !! t2 = Some q → pc_ok rec sh2 q) as Hpcs.
    { intros sh2 Hmono H2 t2 q [(-> & -> & _)|[_ Hq]]%list_lookup_insert_Some; [done|].
      apply Hmono. by apply (si_pc _ _ _ _ HI t2). }
    assert (∀ o2, outs' = o2 → pc_ok rec sh p' → calls_run w (outs ++ o2) (leave w sh) →
      sched_inv w sh (<[t := p']> ths) (outs ++ outs')) as Hsame.
    { intros o2 -> H2 Hc. split; [apply HI|apply HI|by apply Hpcs|done]. }
    inversion Ha as [|? v Hv|prev old n|? prev v Hv|? v Hv|r prev old|? prev v Hv]; subst;
      try match goal with H : _ = (p', outs') |- _ => rename H into Heq | H : (p', outs') = _ |- _ => rename H into Heq; symmetry in Heq end.
    - eapply Hsame; [done..|]. rewrite app_nil_r. apply HI.
    - pose proof (loop_r_ok _ _ _ _ _ v HI Ht Hv) as [Hl1 Hl2]. rewrite Heq in Hl1, Hl2. simpl in Hl1, Hl2. apply (Hsame [] Hl1 Hl2).
      rewrite app_nil_r. apply HI.
    - destruct HI as [(r & old' & Hr & Hle & Hold) Hn Hpc Hrun]. simpl in *. simplify_eq.
      split; [|done| |].
      + eexists _, _. split_and!; [done|lia|]. intros v [-> |Hv%Hold]%elem_of_cons; lia.
      + apply Hpcs; [|done]. intros [] H; simpl in *; try done; simplify_eq; try lia.
        destruct H; simplify_eq; lia.
      + eapply calls_snoc; [done|]. destruct Hn as (m & mold & -> & _ & _). unfold leave; simpl.
        unfold world_create_atomic, estore_create_atomic, allocate_atomic; simpl.
        rewrite (proj2 (Nat.ltb_lt _ _)) by lia. unfold take_recycled.
        destruct (rec !! (length rec - r - 1)) as [e|] eqn:He; [done|].
        apply lookup_ge_None_1 in He. lia.
    - pose proof (loop_r_ok _ _ _ _ _ v HI Ht Hv) as [Hl1 Hl2]. rewrite Heq in Hl1, Hl2. simpl in Hl1, Hl2. apply (Hsame [] Hl1 Hl2).
      rewrite app_nil_r. apply HI.
    - pose proof (loop_n_ok _ _ _ _ _ v HI Ht Hp Hv) as [Hl1 Hl2]. rewrite Heq in Hl1, Hl2. simpl in Hl1, Hl2. by eapply Hsame.
    - destruct HI as [Hr (n & old' & Hn & Hle & Hold) Hpc Hrun]. simpl in *. simplify_eq. destruct Hp as [Hfull Hlt].
      split; [done| | |].
      + eexists _, _. split_and!; [done|lia|]. intros v [-> |Hv%Hold]%elem_of_cons; lia.
      + apply Hpcs; [|done]. intros q. apply pc_ok_next.
      + eapply calls_snoc; [done|]. destruct Hr as (m & mold & -> & _ & _). unfold leave; simpl in *. simplify_eq.
        unfold world_create_atomic, estore_create_atomic, allocate_atomic; simpl.
        rewrite (proj2 (Nat.ltb_ge _ _)) by lia. by rewrite (proj2 (N.ltb_lt _ _)).
    - pose proof (loop_n_ok _ _ _ _ _ v HI Ht (proj1 Hp) Hv) as [Hl1 Hl2]. rewrite Heq in Hl1, Hl2. simpl in Hl1, Hl2. by eapply Hsame.
  Qed.
End access.

Lemma threads_calls n w tr w' :
  counters_ok (st_alloc (w_ents w)) → threads_run n w tr w' → calls_run w tr.*2 w'.
Proof.
  intros [H1 H2] (sh & ths & Hs & ->). eapply si_run with (ths := ths).
  induction Hs as [|tr sh ths t p sh' p' outs Hs IH Ht Ha].
  - split; simpl.
    + exists (a_rsm (st_alloc (w_ents w))), []. split_and!; [done..|]. by intros ? ?%elem_of_nil.
    + exists (a_next (st_alloc (w_ents w))), []. split_and!; [done..|]. by intros ? ?%elem_of_nil.
    + intros t p (-> & _)%lookup_replicate. done.
    + rewrite leave_self. constructor.
  - assert (∀ l : list outcome, (pair t <$> l).*2 = l) as Hl by (intros l; rewrite <-list_fmap_compose; apply list_fmap_id).
    rewrite fmap_app, Hl. by eapply access_ok.
Qed.

(** ** The counters along any history *)

Lemma allocate_counters a e a' : counters_ok a → allocate a = Ok (e, a') → counters_ok a'.
Proof.
  intros [H1 H2]. unfold allocate. destruct (Nat.ltb_spec (a_rsm a) (length (a_recycled a))).
  - destruct (_ !! _); intros; simplify_eq. split; simpl; [lia|done].
  - destruct (N.ltb_spec (a_next a) u32_lim); intros; simplify_eq; [|done]. split; simpl; [done|lia].
Qed.

Lemma create_n_counters n : ∀ st es st',
  counters_ok (st_alloc st) → create_n st n = Ok (es, st') → counters_ok (st_alloc st').
Proof.
  induction n as [|n IH]; intros st es st' Hc; simpl; [by intros; simplify_eq|].
  destruct (estore_create st) as [[e st1]| |] eqn:E; [|by intros; simplify_eq|done].
  destruct (create_n st1 n) as [[es2 st2]| |] eqn:E2; [|done..]. intros; simplify_eq.
  eapply IH; [|done]. unfold estore_create in E.
  destruct (allocate (st_alloc st)) as [[[e'|] a']| |] eqn:Ea; simpl in E; [|done..].
  destruct (eset_insert _ _); simpl in E; [|done..]. simplify_eq. simpl. by eapply allocate_counters.
Qed.

Lemma maintain_counters a l a' : counters_ok a → alloc_maintain a = Ok (l, a') → counters_ok a'.
Proof. intros [H1 H2]. unfold alloc_maintain. destruct (_ <=? _); intros; simplify_eq. split; simpl; [lia|done]. Qed.

Lemma recycle_counters a e : counters_ok a → counters_ok (recycle a e).
Proof. intros [H1 H2]. unfold recycle. destruct (version_next _); [|done]. split; simpl; [lia|done]. Qed.

Lemma set_insert_counters w e cs r g out ds w' :
  counters_ok (st_alloc (w_ents w)) → set_insert w e cs r g = (out, ds, w') → counters_ok (st_alloc (w_ents w')).
Proof.
  intros Hc. unfold set_insert. destruct (insert_loop _ _ _ _ _) as [? comps mask|? comps|].
  - destruct (group_if _ mask e); intros; by simplify_eq.
  - intros; by simplify_eq.
  - intros; by simplify_eq.
Qed.

Lemma step_counters w o out ds w' :
  counters_ok (st_alloc (w_ents w)) → step w o = (out, ds, w') → counters_ok (st_alloc (w_ents w')).
Proof.
  intros Hc Hs. destruct o as [cs|ts rows p|e| | |e cs|e ts|e ts| | |t|l perm|t e v|G J X f]; simpl in Hs.
  - unfold world_create in Hs. destruct (estore_create (w_ents w)) as [[e st']| |] eqn:E; [|by simplify_eq..].
    eapply set_insert_counters; [|exact Hs]. simpl.
    apply (create_n_counters 1 (w_ents w) [e]); [done|]. simpl. by rewrite E.
  - unfold set_extend in Hs. destruct (lookup_metas _ _ ts) as [[is_ mask]|]; [|by simplify_eq].
    pose proof (extend_rows_ents is_ rows (w_ents w) (cs_comps (w_comps w))) as H.
    destruct (extend_rows _ _ is_ rows) as [dr' ents' comps' new|dr' ents' comps' new|]; [| |by simplify_eq].
    + apply create_n_counters in H; [|done].
      destruct p; [by simplify_eq|]. destruct (_ <=? _); [|by simplify_eq]. destruct (_ =? _)%N; [by simplify_eq|].
      destruct (group_each _ _ _ _) as [[]| |]; by simplify_eq.
    + apply create_n_counters in H; [|done]. by simplify_eq.
  - unfold world_destroy in Hs. destruct (estore_remove (w_ents w) e) as [[[] st']| |] eqn:E; [|by simplify_eq..].
    assert (counters_ok (st_alloc st')).
    { unfold estore_remove in E. destruct (eset_remove _ _) as [[[] es]| |]; simpl in E; simplify_eq.
      by apply recycle_counters. }
    destruct (strip _ e) as [[cs dr]| |]; by simplify_eq.
  - unfold world_create_atomic, estore_create_atomic in Hs.
    destruct (allocate_atomic _) as [[[e|] a']| |] eqn:E; simpl in Hs; simplify_eq; try done. simpl.
    eapply (allocate_counters _ (Some e)); [exact Hc|]. unfold allocate_atomic in E. unfold allocate.
    rewrite Nat.add_1_r in E. destruct (_ <? _); [done|]. destruct (N.ltb_spec (a_next (st_alloc (w_ents w))) u32_lim); [|done].
    by rewrite as_u32_small in E.
  - unfold world_maintain, estore_maintain in Hs.
    destruct (alloc_maintain _) as [[l a']| |] eqn:E; simpl in Hs; [|by simplify_eq..].
    apply maintain_counters in E; [|done]. destruct (eset_insert_all _ _); simpl in Hs; by simplify_eq.
  - unfold world_insert in Hs. destruct (estore_contains _ e); [|by simplify_eq].
    by eapply set_insert_counters.
  - unfold set_remove in Hs. destruct (lookup_metas _ _ ts) as [[is_ mask]|]; [|by simplify_eq].
    destruct (ungroup_if _ mask e) as [s1| |]; [|by simplify_eq..].
    destruct (remove_each _ e is_) as [[comps vs]| |]; by simplify_eq.
  - unfold set_delete in Hs. destruct (lookup_metas _ _ ts) as [[is_ mask]|]; [|by simplify_eq].
    destruct (ungroup_if _ mask e) as [s1| |]; [|by simplify_eq..].
    destruct (delete_list _ e is_) as [[comps vs]| |]; by simplify_eq.
  - unfold world_clear, estore_clear in Hs.
    destruct (alloc_maintain _) as [[l a']| |] eqn:E; simpl in Hs; [|by simplify_eq..].
    apply maintain_counters in E; [|done]. destruct (cstore_clear _) as [[cs dr]| |]; by simplify_eq.
  - unfold world_reset in Hs. destruct (cstore_clear _) as [[cs dr]| |]; simplify_eq; done.
  - unfold world_register in Hs. destruct (register_dyn _ t); by simplify_eq.
  - unfold world_set_layout in Hs. destruct (set_layout _ l perm _); by simplify_eq.
  - unfold world_set in Hs. destruct (cs_meta _ !! t) as [m|]; [|by simplify_eq].
    destruct (cs_comps _ !! m_index m) as [c|]; [|by simplify_eq].
    destruct (css_get_ref c e) as [[[i old]|]| |]; [|by simplify_eq..].
    destruct (css_set c i v); by simplify_eq.
  - unfold world_for_each in Hs. destruct (query_for_each w G J X f) as [[[[cs es] o] n]| |]; by simplify_eq.
Qed.

Lemma any_counters evs w s : any_history evs w s → counters_ok (st_alloc (w_ents w)).
Proof.
  intros (w0 & s0 & Hb & Hh). apply built_einv in Hb as [_ _ Ha].
  assert (counters_ok (st_alloc (w_ents w0))) as Hc by (split; [apply Ha|apply (ai_next _ _ _ _ _ _ Ha)]). clear Ha.
  induction Hh as [|evs w1 s1 o out dr w2 Hh IH Hop Hstep Hside]; [done|].
  by eapply step_counters.
Qed.

(** ** The calls as part of a history *)

Lemma create_atomic_ub_free w out ds w' :
  step w OCreateAtomic = (out, ds, w') → ds = [] ∧ ub_free out ∧
  (out = Panicked [] ∨ ∃ e, out = Ret (REnt e)).
Proof.
  simpl. unfold world_create_atomic, estore_create_atomic, allocate_atomic. destruct (_ <? _); [destruct (_ !! _)|].
  - simpl; intros; simplify_eq; simpl; eauto.
  - simpl; intros; simplify_eq; simpl; eauto.
  - destruct (_ <? _)%N; simpl; intros; simplify_eq; simpl; eauto.
Qed.

(** [create_atomic] changes neither the live entities nor their components. *)
Lemma client_atomic s out : let s' := client_step s OCreateAtomic out in
  s_map s' = s_map s ∧ s_grouped s' = s_grouped s ∧ s_reg s' = s_reg s ∧ s_loose s' = s_loose s.
Proof. simpl. revert s. induction (reported out) as [|e es IH]; intros s; simpl; [done|]. by destruct (IH (add_queued s e)). Qed.

Lemma calls_history (side : sstate → op → outcome → Prop) w0 s0 evs w s outs w' :
  (∀ s out, ub_free out → side s OCreateAtomic out) →
  history side w0 s0 evs w s → calls_run w outs w' →
  ∃ s', history side w0 s0 (evs ++ ((λ out, (OCreateAtomic, out, [])) <$> outs)) w' s' ∧ s_map s' = s_map s.
Proof.
  intros Hside Hh Hc. induction Hc as [|outs w1 out w2 Hc (s1 & IH & Hm) Hs].
  - exists s. by rewrite app_nil_r.
  - exists (client_step s1 OCreateAtomic out). rewrite fmap_app, (assoc_L (++)). split.
    + eapply history_snoc; [done|done|exact Hs|]. apply Hside. by apply create_atomic_ub_free in Hs as (_ & ? & _).
    + rewrite <-Hm. apply client_atomic.
Qed.

Lemma call_events tr : call_event <$> tr = (λ out, (OCreateAtomic, out, [])) <$> tr.*2.
Proof. by rewrite <-list_fmap_compose. Qed.

Lemma threads_any n evs w s tr w' :
  any_history evs w s → threads_run n w tr w' → ∃ s', any_history (evs ++ (call_event <$> tr)) w' s'.
Proof.
  intros Hh Hr. pose proof (any_counters _ _ _ Hh) as Hc. apply (threads_calls _ _ _ _ Hc) in Hr.
  destruct Hh as (w0 & s0 & Hb & Hh). destruct (calls_history (λ _ _ _, True) _ _ _ _ _ _ _ (λ _ _ _, I) Hh Hr) as (s' & Hh' & _).
  exists s', w0, s0. split; [exact Hb|]. rewrite call_events. exact Hh'.
Qed.

Lemma tidy_any evs w s : tidy_history evs w s → any_history evs w s.
Proof.
  intros (w0 & s0 & Hb & Hh). exists w0, s0. split; [done|].
  induction Hh; [constructor|]. by eapply history_snoc.
Qed.

Lemma threads_tidy n evs w s tr w' :
  tidy_history evs w s → threads_run n w tr w' →
  ∃ s', tidy_history (evs ++ (call_event <$> tr)) w' s' ∧ s_map s' = s_map s.
Proof.
  intros Hh Hr. pose proof (any_counters _ _ _ (tidy_any _ _ _ Hh)) as Hc. apply (threads_calls _ _ _ _ Hc) in Hr.
  destruct Hh as (w0 & s0 & Hb & Hh). assert (∀ s out, ub_free out → tidy_side s OCreateAtomic out) as Hside by (by split).
  destruct (calls_history _ _ _ _ _ _ _ _ Hside Hh Hr) as (s' & Hh' & ?).
  exists s'. split; [|done]. exists w0, s0. split; [exact Hb|]. rewrite call_events. exact Hh'.
Qed.

Lemma threads_reachable n w s tr w' :
  reachable w s → threads_run n w tr w' → ∃ s', reachable w' s' ∧ s_map s' = s_map s.
Proof.
  intros Hh Hr. pose proof (reachable_inv _ _ Hh) as (Hsv & ds & HI).
  apply threads_calls in Hr.
  2:{ split; [apply (ai_rsm _ _ _ _ _ _ (ei_alloc _ _ (wi_ents _ _ _ HI)))|
              apply (ai_next _ _ _ _ _ _ (ei_alloc _ _ (wi_ents _ _ _ HI)))]. }
  induction Hr as [|outs w1 out w2 Hc (s1 & IH & Hm) Hs]; [by exists s|].
  pose proof (client_atomic s1 out) as (H1 & H2 & H3 & H4). pose proof (reachable_inv _ _ IH) as (Hsv1 & _).
  eexists. split; [|by rewrite H1]. eapply reachable_step; [exact IH|done|exact Hs|]. split; [done|].
  intros t e1 e2. unfold s_row. rewrite H1, H2. apply Hsv1.
Qed.

(** ** The handles *)

Lemma issued_calls evs tr : issued (evs ++ (call_event <$> tr)) = issued evs ++ handles tr.
Proof.
  revert evs. induction tr as [|x tr IH]; intros evs; [by rewrite fmap_nil, !app_nil_r|].
  rewrite fmap_cons, cons_middle, (assoc_L (++)), IH. unfold call_event at 1. rewrite issued_snoc. unfold handles. rewrite bind_cons.
  by rewrite (assoc_L (++)).
Qed.

Lemma tidy_issued_nodup evs w s : tidy_history evs w s → NoDup (issued evs).
Proof.
  intros (w0 & s0 & Hb & Hh). induction Hh as [|evs w1 s1 o out dr w2 Hh IH Hop Hstep Hside]; [constructor|].
  rewrite issued_snoc. assert (tidy_history evs w1 s1) as Ht by (by exists w0, s0).
  destruct (step_ents _ _ _ _ _ _ (tidy_einv _ _ _ Ht) Hstep Hside) as [_ Ha].
  apply handles_allowed_new in Ha as [Hnd Hnew]. rewrite (tidy_issued _ _ _ Ht) in Hnew.
  assert (NoDup (issued evs ++ reported out)) as Happ.
  { apply NoDup_app. split_and!; [done| |done]. intros e He1 He2%Hnew. by rewrite elem_of_list_to_set in He2. }
  destruct o; try done. constructor.
Qed.

Lemma queued_issued evs e : e ∈ queued evs → e ∈ issued evs.
Proof.
  induction evs as [|[[o out] ds] evs IH] using rev_ind; [done|]. rewrite issued_snoc. unfold queued in *.
  rewrite foldl_app. simpl. destruct o; simpl; rewrite ?elem_of_app; try tauto; set_solver.
Qed.

Lemma threads_handles n evs w s tr w' :
  tidy_history evs w s → threads_run n w tr w' →
  NoDup (handles tr) ∧
  (∀ e, e ∈ handles tr → entity_valid e ∧ e ∉ issued evs ∧ e ∉ queued evs ∧ world_contains w e = false) ∧
  (∀ e, world_contains w' e = world_contains w e).
Proof.
  intros Hh Hr. destruct (threads_tidy _ _ _ _ _ _ Hh Hr) as (s' & Hh' & Hm).
  pose proof (tidy_issued_nodup _ _ _ Hh') as Hnd. pose proof (tidy_valid _ _ _ Hh') as Hv.
  rewrite issued_calls in Hnd, Hv. apply NoDup_app in Hnd as (_ & Hdis & Hnd). split_and!; [done| |].
  - intros e He. assert (e ∉ issued evs) as Hi by (intros Hi; by apply (Hdis e)). split_and!.
    + apply Hv. set_solver.
    + done.
    + by intros Hq%queued_issued.
    + rewrite (tidy_contains _ _ _ _ Hh). apply bool_decide_eq_false. intros Ha. apply Hi.
      pose proof (einv_valid _ _ _ (tidy_einv _ _ _ Hh) Ha) as [_ Hiss]. rewrite (tidy_issued _ _ _ Hh) in Hiss.
      by apply elem_of_list_to_set in Hiss.
  - intros e. rewrite (tidy_contains _ _ _ _ Hh), (tidy_contains _ _ _ _ Hh'). unfold s_alive. by rewrite Hm.
Qed.

(** A call panics only when all indices have been given out. *)
Lemma calls_app_inv w outs1 : ∀ w', calls_run w outs1 w' → ∀ o1 o2, outs1 = o1 ++ o2 →
  ∃ w1, calls_run w o1 w1 ∧ calls_run w1 o2 w'.
Proof.
  intros w' Hr. induction Hr as [|outs w1 out w2 Hr IH Hs]; intros o1 o2 Heq.
  - symmetry in Heq. apply app_nil in Heq as [-> ->]. exists w. split; constructor.
  - destruct o2 as [|x o2 _] using rev_ind.
    + rewrite app_nil_r in Heq. subst. exists w2. split; [by eapply calls_snoc|constructor].
    + rewrite (assoc_L (++)) in Heq. apply app_inj_tail in Heq as [-> ->].
      destruct (IH _ _ eq_refl) as (w3 & H1 & H2). exists w3. split; [done|]. by eapply calls_snoc.
Qed.

Lemma threads_exhausted n evs w s tr1 t out tr2 w' :
  tidy_history evs w s → threads_run n w (tr1 ++ (t, out) :: tr2) w' →
  (∃ e, out = Ret (REnt e)) ∨
  (out = Panicked [] ∧ ∀ i, (i < u32_lim)%N → ∃ e, e ∈ issued evs ++ handles tr1 ∧ e_index e = i).
Proof.
  intros Hh Hr. pose proof (any_counters _ _ _ (tidy_any evs w s Hh)) as Hc. destruct Hh as (w0 & s0 & Hb & Hh).
  apply (threads_calls _ _ _ _ Hc) in Hr. rewrite fmap_app, fmap_cons in Hr.
  destruct (calls_app_inv _ _ _ Hr _ _ eq_refl) as (w1 & Hr1 & Hr2).
  destruct (calls_app_inv _ _ _ Hr2 [out] tr2.*2 eq_refl) as (w2 & Hr3 & _).
  inversion Hr3 as [|o1 w3 out' w4 Hr4 Hs Ho]; subst.
  destruct o1 as [|? []]; simpl in Ho; simplify_eq. inversion Hr4 as [|? ? ? ? ? ? Ho]; subst; [|by destruct outs].
  assert (∀ s out, ub_free out → tidy_side s OCreateAtomic out) as Hside by (by split).
  destruct (calls_history _ _ _ _ _ _ _ _ Hside Hh Hr1) as (s1 & Hh1 & _).
  pose proof (create_atomic_ub_free _ _ _ _ Hs) as (_ & Hub & [-> | ?]); [right; split; [done|]|by left].
  rewrite <-issued_calls, call_events. eapply tidy_exhausted; [by exists w0, s0|by right|exact Hs|by split|done].
Qed.
