(** Every call of the world meets the client's view of it. *)
From Verif Require Import Base Lists SparseVecM EntityM CssM MaskM LayoutM GroupM StorageM WorldM QueryM StepM
  SparseProofs CssProofs MaskProofs GroupProofs Spec EntityProofs LayoutProofs StorageProofs StoreOps LayoutOps.

(** The world [w] implements the client's view [s]; [ds] are the contents of the
    storages. *)
Record winv (w : world) (s : sstate) (ds : list dense) : Prop := {
  wi_ents : einv (w_ents w) s;
  wi_comps : cinv (w_comps w) ds (s_map s) (s_reg s) (s_grouped s) (s_loose s)
}.

(** A call with result [res] is as expected, if its outcome meets [pre]. *)
Definition step_given (pre : outcome → Prop) (s : sstate) (ds : list dense) (o : op) (res : result) : Prop :=
  let '(out, dropped, w') := res in
  pre out →
  allowed s o out ∧
  ∃ ds', winv w' (client_step s o out) ds' ∧
    handed_in o out ++ stored ds ≡ₚ dropped ++ handed_out out ++ stored ds'.

Definition step_good (s : sstate) (ds : list dense) (o : op) (res : result) : Prop :=
  step_given (λ out, same_versions (client_step s o out)) s ds o res.

(** Grouping the entity [e] of the store only exchanges entities of one version,
    once the components are those of [am]. *)
Definition enter_pre (w : world) (ds : list dense) (am : amap) (reg grp : gset tid) (loose : gset entity) (e : entity)
    : Prop :=
  ∀ s1 ds1, cs_groups s1 = cs_groups (w_comps w) → cs_meta s1 = cs_meta (w_comps w) →
    stable (cs_groups (w_comps w)) ds ds1 → cinv s1 ds1 am reg grp ({[e]} ∪ loose) →
    enter_ok (cs_groups (w_comps w)) ds1 e.

Lemma uniform_enter_pre w ds am reg grp loose e : am_uniform grp am → enter_pre w ds am reg grp loose e.
Proof. intros Hu s1 ds1 Hg _ _ HI1. rewrite <-Hg. apply uniform_enter; [apply HI1|by eapply ci_uniform]. Qed.

Lemma same_versions_uniform s : same_versions s ↔ am_uniform (s_grouped s) (s_map s).
Proof.
  unfold same_versions, am_uniform, am_has, s_row. split.
  - intros H t e1 e2 v1 v2 Ht (r1 & Hr1 & H1) (r2 & Hr2 & H2). apply (H t e1 e2 Ht).
    + rewrite Hr1. simpl. eauto.
    + rewrite Hr2. simpl. eauto.
  - intros H t e1 e2 Ht [v1 H1] [v2 H2]. apply (H t e1 e2 v1 v2 Ht).
    + destruct (s_map s !! e1) as [r1|]; simpl in H1; [eauto|by rewrite lookup_empty in H1].
    + destruct (s_map s !! e2) as [r2|]; simpl in H2; [eauto|by rewrite lookup_empty in H2].
Qed.

Lemma am_ok_alive st s : einv st s → am_ok (s_map s).
Proof.
  intros HE. split.
  - intros e He. destruct (einv_valid st s e HE He) as [[? _] _]. done.
  - intros e e' He He'. by apply (einv_unique st s).
Qed.

(** A new entity without components. *)
Lemma cinv_new_entity s ds am reg grp loose e :
  cinv s ds am reg grp loose → am !! e = None → am_ok (<[e := ∅]> am) →
  cinv s ds (<[e := ∅]> am) reg grp loose.
Proof.
  intros HI He Hok. apply (cinv_am_ext _ _ am); [done|done|]. intros t e' v. unfold am_has.
  destruct (decide (e = e')) as [<-|Hne].
  - rewrite lookup_insert, He. split.
    + intros (r & [= <-] & Hr). by rewrite lookup_empty in Hr.
    + by intros (r & ? & _).
  - by rewrite lookup_insert_ne.
Qed.

Lemma new_handle_dead st s e : einv st s → new_handle s e → s_map s !! e = None.
Proof.
  intros HE (_ & Hn & _). apply eq_None_not_Some. intros Ha. apply Hn. by eapply einv_valid.
Qed.

Lemma step_register (pre : outcome → Prop) w s ds t : winv w s ds → step_given pre s ds (ORegister t) (world_register w t).
Proof.
  intros [HE HC]. unfold world_register. destruct (ci_register _ _ _ _ _ _ t HC) as (ds' & Hb & HC' & Hst).
  destruct (register_dyn (w_comps w) t) as [b s']. simpl in *. intros _. split; [by rewrite Hb|].
  exists ds'. split; [|by rewrite Hst]. split; simpl; [|done]. by eapply einv_ext; [..|done].
Qed.

Lemma step_insert_gen w s ds e r cs on_ok ghost :
  winv w s ds → s_map s !! e = Some r →
  match set_insert w e cs on_ok ghost with
  | (out, dr, w') =>
      (out = Ret on_ok ∨ out = Panicked ghost ∨ out = UndefBeh ghost) ∧
      ((all_reg s cs.*1 →
          enter_pre w ds (<[e := put (s_reg s) cs r]> (s_map s)) (s_reg s) (s_grouped s) (s_loose s) e) →
       w_ents w' = w_ents w ∧
       ∃ L ds', (all_reg s cs.*1 ∧ out = Ret on_ok ∧ L = s_loose s ∨
                 ¬ all_reg s cs.*1 ∧ out = Panicked ghost ∧ L = {[e]} ∪ s_loose s) ∧
         cinv (w_comps w') ds' (<[e := put (s_reg s) cs r]> (s_map s)) (s_reg s) (s_grouped s) L ∧
         cs.*2 ++ stored ds ≡ₚ dr ++ stored ds')
  end.
Proof.
  intros [HE HC] He. unfold set_insert. pose proof (ci_insert_set_gen _ _ _ _ _ _ e r cs HC He) as H.
  destruct (insert_loop _ _ _ _ _) as [dr comps mask|dr comps|] eqn:El; [| |done].
  - destruct H as [Hall H]. destruct (group_if _ mask e) as [s'| |] eqn:Hg.
    + split; [auto|]. intros Hu. destruct (H (Hu Hall)) as (s1 & ds' & [= <-] & HC' & Hst). eauto 10.
    + split; [auto|]. intros Hu. by destruct (H (Hu Hall)) as (s1 & ds' & ? & _).
    + split; [auto|]. intros Hu. by destruct (H (Hu Hall)) as (s1 & ds' & ? & _).
  - destruct H as [Hall (ds' & HC' & Hst)]. split; [auto|]. intros Hu. eauto 10.
Qed.

Lemma step_insert_given (pre : outcome → Prop) w s ds e cs :
  (∀ out r, pre out → all_reg s cs.*1 → s_map s !! e = Some r →
     enter_pre w ds (<[e := put (s_reg s) cs r]> (s_map s)) (s_reg s) (s_grouped s) (s_loose s) e) →
  winv w s ds → step_given pre s ds (OInsert e cs) (world_insert w e cs).
Proof.
  intros Hpre HI. pose proof HI as [HE HC]. unfold world_insert. rewrite (estore_contains_alive _ _ e HE).
  destruct (bool_decide_reflect (s_alive s e)) as [Ha|Hd].
  - destruct Ha as [r Hr]. pose proof (step_insert_gen w s ds e r cs (RBool true) [] HI Hr) as H.
    destruct (set_insert w e cs (RBool true) []) as [[out dr] w']. destruct H as [Hout H].
    intros Hsv. unfold client_step, s_row. rewrite decide_True by (by exists r). rewrite Hr. simpl in *.
    destruct (H (λ Hall, Hpre out r Hsv Hall Hr)) as (Hw & L & ds' & HL & HC' & Hst).
    assert (HE' : einv (w_ents w') (with_map s (<[e:=put (s_reg s) cs r]> (s_map s)))).
    { rewrite Hw. eapply einv_ext; [..|done]; try done. intros e'. unfold s_alive. simpl.
      rewrite lookup_insert_is_Some. destruct (decide (e = e')) as [<-|]; [rewrite Hr|]; naive_solver. }
    split.
    + destruct (decide (s_alive s e)) as [|Hn]; [|destruct Hn; by exists r].
      destruct (decide (all_reg s cs.*1)); naive_solver.
    + exists ds'. destruct HL as [(Hall & -> & ->)|(Hall & -> & ->)]; simpl; (split; [|done]); split; simpl; try done.
      { by eapply einv_ext; [..|exact HE']. }
      replace ({[e]} ∪ ∅ ∪ s_loose s) with ({[e]} ∪ s_loose s) by set_solver. done.
  - intros Hsv. simpl in *. destruct (decide (s_alive s e)); [done|]. split; [done|]. by exists ds.
Qed.

Lemma step_insert w s ds e cs : winv w s ds → step_good s ds (OInsert e cs) (world_insert w e cs).
Proof.
  apply step_insert_given. intros out r Hsv _ Hr. apply uniform_enter_pre. apply same_versions_uniform in Hsv.
  unfold client_step, s_row in Hsv. rewrite decide_True in Hsv by (by exists r). rewrite Hr in Hsv.
  by destruct (panicked out).
Qed.

Lemma step_create_given (pre : outcome → Prop) w s ds cs :
  (∀ out e, pre out → all_reg s cs.*1 → reported out = [e] → s_map s !! e = None →
     enter_pre w ds (<[e := put (s_reg s) cs ∅]> (s_map s)) (s_reg s) (s_grouped s) (s_loose s) e) →
  winv w s ds → step_given pre s ds (OCreate cs) (world_create w cs).
Proof.
  intros Hpre [HE HC]. unfold world_create.
  destruct (estore_create_ok _ _ HE) as [(e & st' & -> & Hnew & _ & HE')|[-> Hex]].
  - pose proof (new_handle_dead _ _ _ HE Hnew) as Hn.
    assert (HI1 : winv (World st' (w_comps w)) (add_entity s e ∅) ds).
    { split; [apply HE'|]. simpl. apply cinv_new_entity; [done|done|]. apply (am_ok_alive _ _ (HE' ∅)). }
    assert (Hl : s_map (add_entity s e ∅) !! e = Some ∅) by apply lookup_insert.
    pose proof (step_insert_gen _ _ ds e ∅ cs (REnt e) [e] HI1 Hl) as H. clear Hl.
    destruct (set_insert _ e cs (REnt e) [e]) as [[out dr] w']. destruct H as [Hout H]. intros Hsv.
    change (s_map (add_entity s e ∅)) with (<[e:=∅]> (s_map s)) in *.
    rewrite insert_insert in H. cbn [add_entity s_reg s_grouped s_loose w_ents] in H.
    assert (Hrep : reported out = [e]) by (by destruct Hout as [->|[->| ->]]).
    assert (Hstep : client_step s (OCreate cs) out = loosen (add_entity s e (put (s_reg s) cs ∅)) (panicked out) [e]).
    { simpl. by rewrite Hrep. }
    rewrite Hstep.
    destruct (H (λ Hall, Hpre out e Hsv Hall Hrep Hn)) as (Hw & L & ds' & HL & HC' & Hst). clear H Hout Hrep Hstep Hsv.
    destruct HL as [(Hall & -> & ->)|(Hall & -> & ->)].
    + split; [left; eauto|]. exists ds'. simpl. split; [|done]. split; simpl; [rewrite Hw; apply HE'|done].
    + split; [right; left; eauto|]. exists ds'. simpl. split; [|done]. split; simpl.
      * rewrite Hw. eapply (einv_ext _ (add_entity s e (put (s_reg s) cs ∅))); [..|apply HE']; done.
      * replace ({[e]} ∪ ∅ ∪ s_loose s) with ({[e]} ∪ s_loose s) by set_solver. done.
  - intros _. split; [by right; right|]. exists ds. simpl. split; [|done]. split; simpl.
    + by eapply einv_ext; [..|exact HE].
    + by rewrite (left_id_L ∅ (∪)).
Qed.

Lemma step_create w s ds cs : winv w s ds → step_good s ds (OCreate cs) (world_create w cs).
Proof.
  apply step_create_given. intros out e Hsv _ Hrep _. apply uniform_enter_pre. apply same_versions_uniform in Hsv.
  cbn [client_step] in Hsv. rewrite Hrep in Hsv. by destruct (panicked out).
Qed.

Lemma step_create_atomic (pre : outcome → Prop) w s ds : winv w s ds → step_given pre s ds OCreateAtomic (world_create_atomic w).
Proof.
  intros [HE HC]. unfold world_create_atomic.
  destruct (estore_create_atomic_ok _ _ HE) as [(e & st' & -> & Hnew & HE')|[-> Hex]]; intros _.
  - split; [left; eauto|]. exists ds. split; [|done]. by split.
  - split; [by right|]. exists ds. split; [|done]. by split.
Qed.

Lemma step_maintain (pre : outcome → Prop) w s ds : winv w s ds → tidy s → step_given pre s ds OMaintain (world_maintain w).
Proof.
  intros [HE HC] Ht. unfold world_maintain.
  destruct (estore_maintain_ok _ _ HE Ht) as (st' & -> & HE'). intros _. split; [done|].
  exists ds. split; [|done]. split; [done|]. simpl. eapply cinv_am_ext; [done|apply (am_ok_alive _ _ HE')|].
  intros t e v. unfold am_has. split.
  - intros (r & Hr & Hv). exists r. split; [|done].
    apply lookup_union_Some_raw in Hr as [Hr|[_ Hr]]; [done|].
    apply lookup_gset_to_gmap_Some in Hr as [_ <-]. by rewrite lookup_empty in Hv.
  - intros (r & Hr & Hv). exists r. split; [|done]. by apply lookup_union_Some_l.
Qed.

Lemma step_destroy_given (pre : outcome → Prop) w s ds e :
  winv w s ds → (s_alive s e → leave_ok (λ _, True) (cs_groups (w_comps w)) ds e) →
  step_given pre s ds (ODestroy e) (world_destroy w e).
Proof.
  intros [HE HC] Hpre. unfold world_destroy. destruct (decide (s_alive s e)) as [Ha|Hd].
  - destruct (estore_remove_ok _ _ e HE Ha) as (st' & -> & HE').
    destruct (ci_strip_gen _ _ _ _ _ _ e HC (Hpre Ha)) as (s' & ds' & dr & -> & HC' & Hst).
    intros _. simpl in *. split; [by rewrite bool_decide_true|]. destruct (decide (s_alive s e)); [|done].
    exists ds'. split; [|done]. by split.
  - rewrite (estore_remove_dead _ _ e HE Hd). intros _. simpl. split; [by rewrite bool_decide_false|].
    destruct (decide (s_alive s e)); [done|]. by exists ds.
Qed.

Lemma same_versions_leave P w s ds e : winv w s ds → same_versions s → leave_ok P (cs_groups (w_comps w)) ds e.
Proof. intros [_ HC] Hsv%same_versions_uniform. apply uniform_leave; [apply HC|by eapply ci_uniform]. Qed.

Lemma step_destroy w s ds e : winv w s ds → same_versions s → step_good s ds (ODestroy e) (world_destroy w e).
Proof. intros HI Hsv. apply step_destroy_given; [done|]. intros _. by eapply same_versions_leave. Qed.

Lemma take_all_empty ts : omap id (take_all ∅ ts) = [].
Proof.
  induction ts as [|t ts IH]; [done|]. simpl. rewrite delete_empty. done.
Qed.

Lemma alive_alter s e f e' : is_Some (alter f e (s_map s) !! e') ↔ s_alive s e'.
Proof.
  unfold s_alive. destruct (decide (e = e')) as [<-|Hne].
  - by rewrite lookup_alter, fmap_is_Some.
  - by rewrite lookup_alter_ne.
Qed.

Lemma lookup_metas_reg s ds am reg grp loose f ts :
  cinv s ds am reg grp loose → lookup_metas (cs_meta s) f ts = None ↔ ¬ all_in ts reg.
Proof.
  intros HC. rewrite lookup_metas_None. split.
  - intros (t & Hin & Ht) Hall. apply Hall in Hin. rewrite (ci_reg _ _ _ _ _ _ HC), Ht in Hin. by destruct Hin.
  - intros Hn. destruct (decide (Exists (λ t, cs_meta s !! t = None) ts)) as [(t & ? & ?)%Exists_exists|Hne]; [eauto|].
    exfalso. apply Hn. intros t Hin. rewrite (ci_reg _ _ _ _ _ _ HC). apply not_eq_None_Some. intros Ht.
    apply Hne, Exists_exists. eauto.
Qed.

Lemma step_remove_gen w s ds e ts :
  winv w s ds →
  (∀ is_ mask, lookup_metas (cs_meta (w_comps w)) m_delete ts = Some (is_, mask) →
     leave_ok (λ k, bit mask k = true) (cs_groups (w_comps w)) ds e) →
  all_reg s ts →
  ∃ is_ mask s1 comps' ds', lookup_metas (cs_meta (w_comps w)) m_delete ts = Some (is_, mask) ∧
    ungroup_if (w_comps w) mask e = Ok s1 ∧
    remove_each (cs_comps s1) e is_ = Ok (comps', take_all (s_row s e) ts) ∧
    winv (World (w_ents w) (CStore (cs_groups s1) (cs_meta s1) comps'))
      (with_map s (alter (λ r, delete_all r ts) e (s_map s))) ds' ∧
    stored ds ≡ₚ omap id (take_all (s_row s e) ts) ++ stored ds'.
Proof.
  intros [HE HC] Hpre Hall.
  destruct (lookup_metas (cs_meta (w_comps w)) m_delete ts) as [[is_ mask]|] eqn:Hl.
  2:{ apply (lookup_metas_reg _ _ _ _ _ _ _ _ HC) in Hl. done. }
  destruct (ci_remove_set_gen _ _ _ _ _ _ e ts is_ mask HC (Hpre _ _ eq_refl) Hl) as (s1 & comps' & ds' & H1 & H2 & H3 & H4).
  exists is_, mask, s1, comps', ds'. split_and!; try done. split; simpl; [|done].
  eapply einv_ext; [..|exact HE]; try done. intros e'. symmetry. apply alive_alter.
Qed.

Lemma step_remove_given (pre : outcome → Prop) w s ds e ts :
  winv w s ds →
  (∀ is_ mask, lookup_metas (cs_meta (w_comps w)) m_delete ts = Some (is_, mask) →
     leave_ok (λ k, bit mask k = true) (cs_groups (w_comps w)) ds e) →
  step_given pre s ds (ORemove e ts) (set_remove w e ts).
Proof.
  intros HI Hsv. unfold set_remove. destruct (decide (all_reg s ts)) as [Hall|Hn].
  - destruct (step_remove_gen w s ds e ts HI Hsv Hall) as (is_ & mask & s1 & comps' & ds' & -> & -> & -> & HI' & Hst).
    intros _. simpl. destruct (decide (all_reg s ts)); [|done]. split; [done|]. by exists ds'.
  - pose proof HI as [HE HC]. rewrite (proj2 (lookup_metas_reg _ _ _ _ _ _ _ _ HC) Hn). intros _. simpl.
    destruct (decide (all_reg s ts)); [done|]. split; [done|]. by exists ds.
Qed.

Lemma step_delete_given (pre : outcome → Prop) w s ds e ts :
  winv w s ds →
  (∀ is_ mask, lookup_metas (cs_meta (w_comps w)) m_delete ts = Some (is_, mask) →
     leave_ok (λ k, bit mask k = true) (cs_groups (w_comps w)) ds e) →
  step_given pre s ds (ODelete e ts) (set_delete w e ts).
Proof.
  intros HI Hsv. unfold set_delete. destruct (decide (all_reg s ts)) as [Hall|Hn].
  - destruct (step_remove_gen w s ds e ts HI Hsv Hall) as (is_ & mask & s1 & comps' & ds' & -> & -> & Hr & HI' & Hst).
    rewrite (delete_list_remove _ _ _ _ _ Hr).
    intros _. simpl. destruct (decide (all_reg s ts)); [|done]. split; [done|]. by exists ds'.
  - pose proof HI as [HE HC]. rewrite (proj2 (lookup_metas_reg _ _ _ _ _ _ _ _ HC) Hn). intros _. simpl.
    destruct (decide (all_reg s ts)); [done|]. split; [done|]. by exists ds.
Qed.

Lemma step_remove w s ds e ts : winv w s ds → same_versions s → step_good s ds (ORemove e ts) (set_remove w e ts).
Proof. intros HI Hsv. apply step_remove_given; [done|]. intros is_ mask _. by eapply same_versions_leave. Qed.

Lemma step_delete w s ds e ts : winv w s ds → same_versions s → step_good s ds (ODelete e ts) (set_delete w e ts).
Proof. intros HI Hsv. apply step_delete_given; [done|]. intros is_ mask _. by eapply same_versions_leave. Qed.

Lemma step_clear (pre : outcome → Prop) w s ds : winv w s ds → step_given pre s ds OClear (world_clear w).
Proof.
  intros [HE HC]. unfold world_clear. destruct (estore_clear_ok _ _ HE) as (st' & -> & HE').
  destruct (ci_clear _ _ _ _ _ _ HC) as (s' & ds' & -> & HC' & Hst). intros _. split; [done|].
  exists ds'. split; [by split|]. simpl. by rewrite Hst, app_nil_r.
Qed.

Lemma step_reset (pre : outcome → Prop) w s ds : winv w s ds → step_given pre s ds OReset (world_reset w).
Proof.
  intros [HE HC]. unfold world_reset.
  destruct (ci_clear _ _ _ _ _ _ HC) as (s' & ds' & -> & HC' & Hst). intros _. split; [done|].
  exists ds'. split; [|simpl; by rewrite Hst, app_nil_r]. split; [|done]. apply (estore_reset_ok (w_ents w) s).
Qed.

Lemma step_set_layout_given (pre : outcome → Prop) w s ds l perm :
  winv w s ds → layout_wf l → layout_fits l →
  (∀ s2 ds2 out, pre out → set_layout (w_comps w) l perm [] = SlOk s2 →
     cinv s2 ds2 (s_map s) (list_to_set (layout_tids l) ∪ s_reg s) (list_to_set (layout_tids l))
       (list_to_set (estore_slice (w_ents w))) →
     ∀ e, e ∈ estore_slice (w_ents w) → enter_ok (cs_groups s2) ds2 e) →
  step_given pre s ds (OSetLayout l perm) (world_set_layout w l perm).
Proof.
  intros [HE HC] Hwf Hfit Hpre. unfold world_set_layout.
  assert (Hes : ∀ e, is_Some (s_map s !! e) → e ∈ estore_slice (w_ents w)) by (intros e He; by apply HE).
  pose proof (λ Hu, set_layout_gen _ _ _ _ _ _ l perm (estore_slice (w_ents w)) HC Hwf Hfit Hu Hes) as H.
  destruct (set_layout (w_comps w) l perm (estore_slice (w_ents w))) as [s'|vs s'|]; intros Hsv;
    destruct (H (λ s2 ds2, Hpre s2 ds2 _ Hsv)) as (s1 & ds' & Heq & HC' & Hst); inversion Heq; subst s1.
  simpl. rewrite decide_True by done. split; [done|]. exists ds'. split; [|done].
  split; simpl; [|done]. by eapply einv_ext; [..|exact HE].
Qed.

Lemma step_set_layout w s ds l perm :
  winv w s ds → layout_wf l → layout_fits l →
  step_good s ds (OSetLayout l perm) (world_set_layout w l perm).
Proof.
  intros HI Hwf Hfit. apply step_set_layout_given; [done..|]. intros s2 ds2 out Hsv _ HC2 e _.
  apply uniform_enter; [apply HC2|]. eapply ci_uniform; [done|]. by apply same_versions_uniform in Hsv.
Qed.

(** ** [extend] *)

Lemma new_handle_ext s s' e :
  s_issued s = s_issued s' → s_free s = s_free s' → new_handle s e → new_handle s' e.
Proof. unfold new_handle. by intros <- <-. Qed.

Lemma exhausted_ext s s' :
  s_issued s = s_issued s' → s_free s = s_free s' → exhausted s → exhausted s'.
Proof. unfold exhausted. by intros <- <-. Qed.

Lemma new_handles_ext es : ∀ s s',
  s_issued s = s_issued s' → s_free s = s_free s' → new_handles s es → new_handles s' es.
Proof.
  induction es as [|e es IH]; intros s s' H1 H2; simpl; [done|]. intros [Hn Hns]. split; [by eapply new_handle_ext|].
  eapply IH; [..|done]; simpl; congruence.
Qed.

Lemma after_handles_ext es : ∀ s s',
  s_issued s = s_issued s' → s_free s = s_free s' →
  s_issued (after_handles s es) = s_issued (after_handles s' es) ∧ s_free (after_handles s es) = s_free (after_handles s' es).
Proof.
  induction es as [|e es IH]; intros s s' H1 H2; simpl; [done|]. apply IH; simpl; congruence.
Qed.

Lemma put_dom reg cs r t : t ∉ cs.*1 → put reg cs r !! t = r !! t.
Proof. apply put_ne. Qed.

Section extend_rows.
  Context (ts : list tid) (is_ : list nat) (gs : list group) (mt : gmap tid meta) (reg grp : gset tid).
  Context (Hall : all_in ts reg) (Hidx : indexes mt ts is_).

  Definition rows_inv (s : sstate) (ents : estore) (ds : list dense) (L : gset entity) (rows : list (list val))
      (dr : list val) (ents' : estore) (comps' : list css) (new : list entity) : Prop :=
    new_handles s new ∧ es_ents (st_set ents') = es_ents (st_set ents) ++ new ∧
    let s' := add_rows s ts new rows in
    einv ents' s' ∧ s_loose s' = s_loose s ∧ s_reg s' = reg ∧ s_grouped s' = grp ∧
    s_issued s' = s_issued (after_handles s new) ∧ s_free s' = s_free (after_handles s new) ∧
    (∀ e t v, e ∈ new → am_has (s_map s') t e v → t ∈ ts) ∧
    (∀ e, e ∉ new → s_map s' !! e = s_map s !! e) ∧
    ∃ ds', cinv (CStore gs mt comps') ds' (s_map s') reg grp (list_to_set new ∪ L) ∧
      concat rows ++ stored ds ≡ₚ dr ++ stored ds'.

  Lemma extend_rows_ok rows : ∀ s ents comps ds L,
    einv ents s → s_reg s = reg → s_grouped s = grp →
    cinv (CStore gs mt comps) ds (s_map s) reg grp L →
    Forall (λ r, length r = length ts) rows →
    match extend_rows ents comps is_ rows with
    | RowsUB => False
    | RowsOk dr ents' comps' new => length new = length rows ∧ rows_inv s ents ds L rows dr ents' comps' new
    | RowsPanic dr ents' comps' new =>
        length new < length rows ∧ exhausted (after_handles s new) ∧ rows_inv s ents ds L rows dr ents' comps' new
    end.
  Proof using Hall Hidx.
    induction rows as [|row rows IH]; intros s ents comps ds L HE Hreg Hgrp HC Hlen; simpl.
    { split; [done|]. unfold rows_inv. simpl. split_and!; try done.
      - by rewrite app_nil_r.
      - by intros ??? ?%elem_of_nil.
      - exists ds. split; [|done]. by rewrite (left_id_L ∅ (∪)). }
    apply Forall_cons in Hlen as [Hrow Hlen].
    destruct (estore_create_ok _ _ HE) as [(e & st' & -> & Hnew & Hes & HE')|[-> Hex]].
    2:{ split; [simpl; lia|]. split; [done|]. unfold rows_inv. simpl. split_and!; try done.
      - by rewrite app_nil_r.
      - by intros ??? ?%elem_of_nil.
      - exists ds. split; [|done]. by rewrite (left_id_L ∅ (∪)). }
    pose proof (new_handle_dead _ _ _ HE Hnew) as Hn.
    assert (HC1 : cinv (CStore gs mt comps) ds (<[e:=∅]> (s_map s)) reg grp ({[e]} ∪ L)).
    { apply (cinv_loosen _ _ _ _ _ L); [set_solver|]. apply cinv_new_entity; [done|done|].
      apply (am_ok_alive _ _ (HE' ∅)). }
    pose proof (insert_loop_ok (zip ts row) _ _ _ _ _ _ e ∅ 0 HC1 ltac:(set_solver) (lookup_insert _ _ _)) as H.
    assert (Hz1 : (zip ts row).*1 = ts) by (apply fst_zip; lia).
    assert (Hz2 : (zip ts row).*2 = row) by (apply snd_zip; lia).
    rewrite Hz1, Hz2, insert_insert in H. cbn [cs_meta cs_comps cs_groups] in H.
    destruct (insert_loop mt comps 0 e (zip ts row)) as [dr1 comps1 mask1|dr1 comps1|] eqn:El; [| |done].
    2:{ by destruct H as [? _]. }
    destruct H as (_ & _ & ds1 & HC2 & Hst & _).
    rewrite (insert_row_loop _ _ _ _ _ _ _ _ _ _ Hidx El).
    set (s1 := add_entity s e (put (s_reg s) (zip ts row) ∅)).
    assert (Hfresh : ∀ es, new_handles s1 es → e ∉ es).
    { intros es. assert (e ∈ s_issued s1) as Hi by (unfold s1; simpl; set_solver). revert Hi. generalize s1.
      clear. induction es as [|e' es IH]; intros s Hi Hns; [apply not_elem_of_nil|].
      destruct Hns as [(_ & Hn & _) Hns]. intros [->|Hin]%elem_of_cons; [done|].
      eapply IH; [|exact Hns|done]. simpl. set_solver. }
    specialize (IH s1 st' comps1 ds1 ({[e]} ∪ L) (HE' _) Hreg Hgrp).
    assert (HC3 : cinv (CStore gs mt comps1) ds1 (s_map s1) reg grp ({[e]} ∪ L)) by (unfold s1; simpl; by rewrite Hreg).
    specialize (IH HC3 Hlen).
    assert (Hlift : ∀ dr ents' comps' new, rows_inv s1 st' ds1 ({[e]} ∪ L) rows dr ents' comps' new →
      rows_inv s ents ds L (row :: rows) (dr1 ++ dr) ents' comps' (e :: new)).
    { intros dr ents' comps' new (H1 & H2 & H3 & H4 & H5 & H6 & H7 & H8 & H9 & H10 & ds' & H11 & H12).
      unfold rows_inv. cbn [add_rows]. fold s1. cbv zeta.
      split_and!; try done.
      - split; [done|]. eapply new_handles_ext; [..|exact H1]; done.
      - rewrite H2, Hes. simpl. by rewrite <-(assoc_L (++)).
      - rewrite H7. cbn [after_handles]. by apply after_handles_ext.
      - rewrite H8. cbn [after_handles]. by apply after_handles_ext.
      - intros e' t v [->|Hin]%elem_of_cons Hh; [|by eapply H9]. destruct Hh as (r & Hr & Hv).
        rewrite H10 in Hr by (by apply Hfresh). unfold s1 in Hr. simpl in Hr. rewrite lookup_insert in Hr.
        inversion Hr; subst r. destruct (decide (t ∈ ts)); [done|]. rewrite put_ne in Hv by (by rewrite Hz1).
        by rewrite lookup_empty in Hv.
      - intros e' [Hne Hn']%not_elem_of_cons. rewrite H10 by done. unfold s1. simpl. by rewrite lookup_insert_ne.
      - exists ds'. split.
        + replace (list_to_set (e :: new) ∪ L) with (list_to_set new ∪ ({[e]} ∪ L)) by (simpl; set_solver). done.
        + simpl. rewrite <-!(assoc_L (++)), <-H12, !(Permutation_app_swap_app _ (concat rows)). by f_equiv. }
    destruct (extend_rows st' comps1 is_ rows) as [dr ents' comps' new|dr ents' comps' new|]; [| |done].
    - destruct IH as [H1 H2]. split; [simpl; lia|]. by apply Hlift.
    - destruct IH as (H1 & H2 & H3). split_and!; [simpl; lia| |by apply Hlift].
      simpl. eapply exhausted_ext; [..|exact H2]; by apply after_handles_ext.
  Qed.
End extend_rows.

Lemma group_each_0 comps gs es : group_each comps gs 0 es = Ok (comps, gs).
Proof. induction es as [|e es IH]; [done|]. cbn [group_each]. by rewrite do_group_0. Qed.

Lemma step_extend_given (pre : outcome → Prop) w s ds ts rows p :
  winv w s ds → Forall (λ r, length r = length ts) rows →
  (∀ out new comps ds', pre out → new_handles s new → length new = length rows → panicked out = false →
     reported out = new →
     cinv (CStore (cs_groups (w_comps w)) (cs_meta (w_comps w)) comps) ds' (s_map (add_rows s ts new rows)) (s_reg s)
       (s_grouped s) (list_to_set new ∪ s_loose s) →
     ∀ e, e ∈ new → enter_ok (cs_groups (w_comps w)) ds' e) →
  step_given pre s ds (OExtend ts rows p) (set_extend w ts rows p).
Proof.
  intros [HE HC] Hlen Hpre. unfold set_extend.
  destruct (lookup_metas (cs_meta (w_comps w)) m_insert ts) as [[is_ mask]|] eqn:Hl.
  2:{ apply (lookup_metas_reg _ _ _ _ _ _ _ _ HC) in Hl. intros _. split; [right; right; done|].
      exists ds. cbn [client_step handed_in handed_out reported panicked loosen].
      assert (add_rows s ts [] rows = s) as -> by (by destruct rows). split; [|done].
      split; simpl; [by eapply einv_ext; [..|exact HE]|by rewrite (left_id_L ∅ (∪))]. }
  assert (Hall : all_in ts (s_reg s)).
  { intros t Ht. destruct (decide (t ∈ s_reg s)); [done|].
    assert (lookup_metas (cs_meta (w_comps w)) m_insert ts = None) as Hx; [|by rewrite Hl in Hx].
    apply (lookup_metas_reg _ _ _ _ _ _ _ _ HC). intros Ha. by apply Ha in Ht. }
  destruct (lookup_metas_Some _ _ _ _ _ Hl) as [Hidx Hmask].
  assert (HC0 : cinv (CStore (cs_groups (w_comps w)) (cs_meta (w_comps w)) (cs_comps (w_comps w))) ds
    (s_map s) (s_reg s) (s_grouped s) (s_loose s)) by (by destruct (w_comps w)).
  pose proof (extend_rows_ok ts is_ _ _ _ _ Hall Hidx rows s (w_ents w) _ ds _ HE eq_refl eq_refl HC0 Hlen) as H.
  destruct (extend_rows (w_ents w) (cs_comps (w_comps w)) is_ rows) as [dr ents' comps' new|dr ents' comps' new|]; [| |done].
  - destruct H as [Hnl (H1 & H2 & H3 & H4 & H5 & H6 & H7 & H8 & H9 & H10 & ds' & H11 & H12)].
    destruct p.
    { intros _. split.
      - right; left. split; [done|]. exists new. split_and!; [done|done|]. by left.
      - exists ds'. simpl. split; [|done]. split; simpl; [by eapply einv_ext; [..|exact H3]|]. by rewrite H5, H6, H4. }
    unfold estore_slice in *. rewrite H2. rewrite app_length, (proj2 (Nat.leb_le _ _)) by lia.
    rewrite drop_app. cbv zeta.
    assert (Hkeep : group_each comps' (cs_groups (w_comps w)) mask new =
      if (mask =? 0)%N then Ok (comps', cs_groups (w_comps w)) else group_each comps' (cs_groups (w_comps w)) mask new).
    { destruct (N.eqb_spec mask 0) as [->|]; [|done]. apply group_each_0. }
    assert (Hgrp : (∀ e, e ∈ new → enter_ok (cs_groups (w_comps w)) ds' e) →
      ∃ comps2 gs2 ds2, group_each comps' (cs_groups (w_comps w)) mask new = Ok (comps2, gs2) ∧
        cinv (CStore gs2 (cs_meta (w_comps w)) comps2) ds2 (s_map (add_rows s ts new rows)) (s_reg s) (s_grouped s) (s_loose s) ∧
        stored ds' ≡ₚ stored ds2).
    { intros Hu. destruct (group_each_gen mask _ _ _ (s_loose s) new _ _ H11 Hu) as (comps2 & gs2 & ds2 & ? & ? & ? & _).
      - by eapply (insert_mask_closed _ _ _ _ _ _ HC).
      - intros k g e He Hk Hh. simpl in Hk.
        destruct (mw_range _ _ (gi_wf _ _ (ci_ginv _ _ _ _ _ _ H11)) k (g_meta g)) as (Hr1 & Hr2 & Hr3).
        { simpl. by rewrite list_lookup_fmap, Hk. }
        assert (in_group g (g_start (g_meta g))) as Hin by (split; lia).
        destruct (st_owner _ _ _ (ci_static _ _ _ _ _ _ H11) k (g_meta g) (g_start (g_meta g))) as (t & m & Ht & Hi).
        { simpl. by rewrite list_lookup_fmap, Hk. } { done. }
        specialize (Hh _ Hin). rewrite <-Hi in Hh. apply (ci_has_meta _ _ _ _ _ _ H11 t m e Ht) in Hh as [v Hv].
        apply (H9 e t v He) in Hv. eapply (insert_mask_covers _ _ _ _ _ _ HC); [done|done|done|done|]. by rewrite Hi.
      - eauto 10. }
    destruct (N.eqb_spec mask 0) as [Hm0|Hm0].
    + intros Hsv.
      destruct (Hgrp (Hpre _ new _ _ Hsv H1 Hnl eq_refl eq_refl H11)) as (comps2 & gs2 & ds2 & Heq & HC2 & Hst2). rewrite Hkeep in Heq. inversion Heq; subst comps2 gs2.
      split; [left; eauto 10|]. exists ds2. simpl. split; [|by rewrite H12, Hst2]. split; simpl; [done|]. by rewrite H5, H6, H4.
    + destruct (group_each comps' (cs_groups (w_comps w)) mask new) as [[comps2 gs2]| |] eqn:Hge;
        intros Hsv;
        destruct (Hgrp (Hpre _ new _ _ Hsv H1 Hnl eq_refl eq_refl H11)) as (comps3 & gs3 & ds2 & Heq & HC2 & Hst2); inversion Heq; subst comps3 gs3.
      split; [left; eauto 10|]. exists ds2. simpl. split; [|by rewrite H12, Hst2]. split; simpl; [done|]. by rewrite H5, H6, H4.
  - destruct H as (Hnl & Hex & H1 & H2 & H3 & H4 & H5 & H6 & H7 & H8 & H9 & H10 & ds' & H11 & H12).
    intros _. split.
    + right; left. split; [done|]. exists new. split_and!; [done|done|]. by right.
    + exists ds'. simpl. split; [|done]. split; simpl; [by eapply einv_ext; [..|exact H3]|]. by rewrite H5, H6, H4.
Qed.

Lemma step_extend w s ds ts rows p :
  winv w s ds → Forall (λ r, length r = length ts) rows →
  step_good s ds (OExtend ts rows p) (set_extend w ts rows p).
Proof.
  intros HI Hlen. apply step_extend_given; [done..|]. intros out new comps ds' Hsv _ _ Hp Hrep HC' e _.
  apply (uniform_enter _ _ _ (ci_ginv _ _ _ _ _ _ HC')). apply (ci_uniform _ _ _ _ _ _ HC').
  apply same_versions_uniform in Hsv. cbn [client_step] in Hsv. rewrite Hp, Hrep in Hsv. simpl in Hsv.
  assert (s_grouped (add_rows s ts new rows) = s_grouped s) as Hg; [|by rewrite Hg in Hsv].
  clear. revert s rows. induction new as [|e new IH]; intros s [|r rows]; simpl; try done. by rewrite IH.
Qed.

(** ** Assignment through [get_mut] *)

Lemma step_set (pre : outcome → Prop) w s ds t e v : winv w s ds → step_given pre s ds (OSet t e v) (world_set w t e v).
Proof.
  intros HI. pose proof HI as [HE HC]. unfold world_set.
  destruct (cs_meta (w_comps w) !! t) as [m|] eqn:Ht.
  2:{ intros _. simpl. assert (t ∉ s_reg s) as Hn by (rewrite (ci_reg _ _ _ _ _ _ HC), Ht; by intros [? ?]).
      rewrite decide_False by done. split; [done|]. exists ds. split; [|done].
      assert (alter (λ r : row, if decide (is_Some (r !! t)) then <[t:=v]> r else r) e (s_map s) = s_map s) as ->.
      { apply map_eq. intros e'. destruct (decide (e = e')) as [<-|]; [|by rewrite lookup_alter_ne].
        rewrite lookup_alter. destruct (s_map s !! e) as [r|] eqn:Hr; [|done]. simpl. f_equal.
        apply decide_False. intros [v' Hv']. apply Hn. eapply (ci_types _ _ _ _ _ _ HC e t v'). by exists r. }
      by destruct s. }
  assert (t ∈ s_reg s) as Hreg by (rewrite (ci_reg _ _ _ _ _ _ HC), Ht; eauto).
  destruct (ci_lookup _ _ _ _ _ _ HC t m Ht) as (c & d & Hc & Hd & Hr). rewrite Hc.
  destruct (decide (e ∈ d.*1)) as [(old & Hin)%elem_fst_pair|Hnin].
  - apply elem_of_list_lookup in Hin as [i Hi].
    assert (am_has (s_map s) t e old) as (r & Hr1 & Hr2).
    { apply (ci_data _ _ _ _ _ _ HC t m d); [done|done|]. by eapply elem_of_list_lookup_2. }
    destruct (ci_set_one _ _ _ _ _ _ HC t m e v r i old d Hr1 Ht Hd Hi) as (c0 & c' & Hc0 & _ & Hset & _ & HC' & Hst & _).
    rewrite Hc in Hc0. inversion Hc0; subst c0.
    rewrite (css_get_ref_lookup _ _ Hr i e old Hi), Hset. intros _. simpl.
    rewrite decide_True by done. unfold s_row. rewrite Hr1. simpl. rewrite Hr2. split; [done|].
    eexists. split; [|simpl; exact Hst]. split; simpl.
    + eapply einv_ext; [..|exact HE]; try done. intros e'. symmetry. apply alive_alter.
    + rewrite (alter_Some _ _ _ r) by done. rewrite decide_True by eauto. exact HC'.
  - rewrite (css_get_ref_None _ _ Hr e Hnin). intros _. simpl. rewrite decide_True by done.
    assert (Hrow : ∀ r, s_map s !! e = Some r → r !! t = None).
    { intros r Hr1. apply eq_None_not_Some. intros [v' Hv']. apply Hnin, elem_fst_pair. exists v'.
      apply (ci_data _ _ _ _ _ _ HC t m d); [done|done|]. by exists r. }
    split.
    + unfold s_row. destruct (s_map s !! e) as [r|] eqn:Hr1; simpl; [by rewrite (Hrow r)|by rewrite lookup_empty].
    + exists ds. split; [|done].
      assert (alter (λ r : row, if decide (is_Some (r !! t)) then <[t:=v]> r else r) e (s_map s) = s_map s) as ->.
      { apply map_eq. intros e'. destruct (decide (e = e')) as [<-|]; [|by rewrite lookup_alter_ne].
        rewrite lookup_alter. destruct (s_map s !! e) as [r|] eqn:Hr1; [|done]. simpl. f_equal.
        apply decide_False. rewrite (Hrow r) by done. by intros [? ?]. }
      by destruct s.
Qed.

(** ** Construction *)

Lemma cinv_empty : cinv cstore_new [] ∅ ∅ ∅ ∅.
Proof.
  split; simpl.
  - split; [intros e|intros e e']; rewrite lookup_empty; by intros [? ?].
  - constructor.
  - split; [split; [..|simpl; lia]|..]; intros; discriminate.
  - split; intros; try (by rewrite lookup_nil in *); by rewrite lookup_empty in *.
  - intros t. rewrite lookup_empty. split; [set_solver|by intros [? ?]].
  - intros t. split; [set_solver|]. intros (m & _ & _ & H & _). by rewrite lookup_empty in H.
  - intros t m d e v H. by rewrite lookup_empty in H.
  - intros e t v (r & H & _). by rewrite lookup_empty in H.
  - intros i d H. by rewrite lookup_nil in H.
  - intros k g e H. by rewrite lookup_nil in H.
Qed.

Lemma register_all_ok ts : ∀ s ds am reg grp loose,
  cinv s ds am reg grp loose →
  ∃ ds', cinv (register_all s ts) ds' am (reg ∪ list_to_set ts) grp loose ∧ stored ds' = stored ds.
Proof.
  induction ts as [|t ts IH]; intros s ds am reg grp loose HI; simpl.
  - exists ds. by rewrite (right_id_L ∅ (∪)).
  - destruct (ci_register _ _ _ _ _ _ t HI) as (ds1 & _ & HI1 & Hst1).
    destruct (IH _ _ _ _ _ _ HI1) as (ds2 & HI2 & Hst2). exists ds2. split; [|congruence].
    replace (reg ∪ ({[t]} ∪ list_to_set ts)) with ({[t]} ∪ reg ∪ list_to_set ts) by set_solver. done.
Qed.

Lemma am_uniform_empty grp : am_uniform grp ∅.
Proof. intros t e1 e2 v1 v2 _ (r & Hr & _). by rewrite lookup_empty in Hr. Qed.

Lemma builder_ok l ts w :
  layout_wf l → builder_build l ts = Some w →
  layout_fits l ∧ same_versions (s_init l ts) ∧ ∃ ds, winv w (s_init l ts) ds ∧ stored ds = [].
Proof.
  intros Hwf Hb. unfold builder_build, world_new in Hb.
  destruct (decide (layout_fits l)) as [Hf|Hn].
  - destruct (set_layout_ok _ _ _ _ _ _ l [] [] cinv_empty Hwf Hf (am_uniform_empty _)) as (s' & ds' & Hs & HC & Hst).
    { intros e. rewrite lookup_empty. by intros [? ?]. }
    rewrite Hs in Hb. inversion Hb; subst w; clear Hb. simpl.
    destruct (register_all_ok ts _ _ _ _ _ _ HC) as (ds2 & HC2 & Hst2).
    split; [done|]. split; [apply same_versions_uniform; apply am_uniform_empty|].
    exists ds2. split; [|rewrite Hst2; by apply Permutation_nil in Hst].
    split; simpl; [apply estore_new_ok|]. by rewrite (right_id_L ∅ (∪)) in HC2.
  - destruct (set_layout_unfit _ _ _ _ _ _ l [] [] cinv_empty Hwf Hn) as (vs & s' & Hs). by rewrite Hs in Hb.
Qed.

Lemma builder_some l ts : layout_wf l → layout_fits l → ∃ w, builder_build l ts = Some w.
Proof.
  intros Hwf Hf. unfold builder_build, world_new.
  destruct (set_layout_ok _ _ _ _ _ _ l [] [] cinv_empty Hwf Hf (am_uniform_empty _)) as (s' & ds' & Hs & HC & Hst).
  { intros e. rewrite lookup_empty. by intros [? ?]. }
  rewrite Hs. eauto.
Qed.

Lemma builder_none l ts : layout_wf l → ¬ layout_fits l → builder_build l ts = None.
Proof.
  intros Hwf Hn. unfold builder_build, world_new.
  destruct (set_layout_unfit _ _ _ _ _ _ l [] [] cinv_empty Hwf Hn) as (vs & s' & Hs). by rewrite Hs.
Qed.

(** Dropping the world drops every stored value once. *)
Lemma world_drop_ok w s ds : winv w s ds → world_drop w = Ok (stored ds).
Proof. intros [_ HC]. apply drop_all_ok, HC. Qed.
