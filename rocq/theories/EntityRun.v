(** What a call does to the entities: it depends on the entity storage, on the
    call and on the registered types only. *)
From Verif Require Import Base Lists SparseVecM EntityM CssM MaskM LayoutM GroupM StorageM WorldM QueryM StepM
  SparseProofs Spec EntityProofs.

Fixpoint create_n (st : estore) (n : nat) : res (list entity * estore) :=
  match n with
  | 0 => Ok ([], st)
  | S n => match estore_create st with
           | Ok (e, st1) => match create_n st1 n with
                            | Ok (es, st2) => Ok (e :: es, st2)
                            | Panic => Panic
                            | UB => UB
                            end
           | Panic => Ok ([], st)
           | UB => UB
           end
  end.

(** New handles and storage after the call. *)
Definition ent_effect (reg : tid → bool) (st : estore) (o : op) : res (list entity * estore) :=
  match o with
  | OCreate _ =>
      match estore_create st with
      | Ok (e, st') => Ok ([e], st') | Panic => Ok ([], st) | UB => UB
      end
  | OExtend ts rows _ => if forallb reg ts then create_n st (length rows) else Ok ([], st)
  | ODestroy e =>
      match estore_remove st e with
      | Ok (true, st') => Ok ([], st') | Ok (false, _) => Ok ([], st) | Panic => Ok ([], st) | UB => UB
      end
  | OCreateAtomic =>
      match estore_create_atomic st with
      | Ok (e, st') => Ok ([e], st') | Panic => Ok ([], st) | UB => UB
      end
  | OMaintain =>
      match estore_maintain st with Ok st' => Ok ([], st') | Panic => Ok ([], st) | UB => UB end
  | OClear => match estore_clear st with Ok st' => Ok ([], st') | Panic => Ok ([], st) | UB => UB end
  | OReset => Ok ([], estore_reset st)
  | _ => Ok ([], st)
  end.

Lemma create_n_ok s n : ∀ st, einv st s →
  ∃ es st', create_n st n = Ok (es, st') ∧ es_ents (st_set st') = es_ents (st_set st) ++ es.
Proof.
  revert s. induction n as [|n IH]; intros s st HE; simpl.
  - exists [], st. by rewrite app_nil_r.
  - destruct (estore_create_ok _ _ HE) as [(e & st' & -> & Hnew & Hes & HE')|[-> Hex]].
    + destruct (IH _ st' (HE' ∅)) as (es & st2 & -> & Hes2). exists (e :: es), st2. split; [done|].
      rewrite Hes2, Hes. by rewrite <-(assoc_L (++)).
    + exists [], st. by rewrite app_nil_r.
Qed.

Lemma lookup_metas_registered mt f ts :
  lookup_metas mt f ts = None ↔ forallb (λ t, bool_decide (is_Some (mt !! t))) ts = false.
Proof.
  induction ts as [|t ts IH]; simpl; [done|].
  destruct (mt !! t) as [m|] eqn:E.
  - rewrite (bool_decide_true (is_Some (Some m))) by eauto. simpl. rewrite <-IH.
    by destruct (lookup_metas mt f ts) as [[]|].
  - by rewrite (bool_decide_false (is_Some None)) by (by intros [? ?]).
Qed.

Lemma is_registered_lookup s t : is_registered s t = bool_decide (is_Some (cs_meta s !! t)).
Proof.
  unfold is_registered. destruct (cs_meta s !! t); [by rewrite bool_decide_true by eauto|].
  by rewrite bool_decide_false by (by intros [? ?]).
Qed.

(** [extend] creates its entities one after the other. *)
Lemma extend_rows_ents is_ rows : ∀ ents comps,
  match extend_rows ents comps is_ rows with
  | RowsOk _ ents' _ new | RowsPanic _ ents' _ new => create_n ents (length rows) = Ok (new, ents')
  | RowsUB => True
  end.
Proof.
  induction rows as [|row rows IH]; intros ents comps; simpl; [done|].
  destruct (estore_create ents) as [[e ents']| |]; [|done|done].
  destruct (insert_row comps e (zip is_ row)) as [[comps' ds]| |]; [|done|done].
  specialize (IH ents' comps'). destruct (extend_rows ents' comps' is_ rows); [by rewrite IH|by rewrite IH|done].
Qed.

Lemma set_insert_ents w e cs on_ok ghost out dr w' :
  set_insert w e cs on_ok ghost = (out, dr, w') → ub_free out →
  w_ents w' = w_ents w ∧ (out = Ret on_ok ∨ out = Panicked ghost).
Proof.
  unfold set_insert. destruct (insert_loop _ _ _ _ _) as [? comps mask|? comps|].
  - destruct (group_if _ mask e); intros; simplify_eq; simpl in *; eauto; done.
  - intros; simplify_eq; simpl; eauto.
  - intros; simplify_eq; done.
Qed.

(** Whatever the components, the effect of a call on the entities. *)
Lemma step_ent_effect w s o out dr w' :
  einv (w_ents w) s → step w o = (out, dr, w') → ub_free out →
  ent_effect (world_is_registered w) (w_ents w) o = Ok (reported out, w_ents w').
Proof.
  intros HE Hstep Hub. destruct o as [cs|ts rows p|e| | |e cs|e ts|e ts| | |t|l perm|t e v|G J X f]; simpl in *.
  - unfold world_create in Hstep. destruct (estore_create (w_ents w)) as [[e st']| |].
    + apply set_insert_ents in Hstep as [-> [-> | ->]]; [done..|done].
    + by simplify_eq.
    + by simplify_eq.
  - unfold set_extend in Hstep. pose proof (lookup_metas_registered (cs_meta (w_comps w)) m_insert ts) as Hl.
    assert (forallb (world_is_registered w) ts = forallb (λ t, bool_decide (is_Some (cs_meta (w_comps w) !! t))) ts) as ->.
    { clear. induction ts as [|t ts IH]; [done|]. simpl. rewrite IH. f_equal. apply is_registered_lookup. }
    destruct (lookup_metas _ _ ts) as [[is_ mask]|].
    2:{ rewrite (proj1 Hl eq_refl). by simplify_eq. }
    assert (forallb (λ t, bool_decide (is_Some (cs_meta (w_comps w) !! t))) ts = true) as ->.
    { apply not_false_is_true. intros H. by apply Hl in H. }
    pose proof (extend_rows_ents is_ rows (w_ents w) (cs_comps (w_comps w))) as H.
    destruct (extend_rows (w_ents w) (cs_comps (w_comps w)) is_ rows) as [dr' ents' comps' new|dr' ents' comps' new|];
      [| |by simplify_eq].
    + destruct p; [by simplify_eq|].
      destruct (create_n_ok s (length rows) (w_ents w) HE) as (es & st' & Hc & Hes). rewrite H in Hc. simplify_eq.
      unfold estore_slice in Hstep. rewrite Hes in Hstep.
      rewrite app_length, (proj2 (Nat.leb_le _ _)) in Hstep by lia. rewrite drop_app in Hstep.
      destruct (mask =? 0)%N; [by simplify_eq|].
      destruct (group_each comps' _ mask es) as [[comps2 gs2]| |]; by simplify_eq.
    + by simplify_eq.
  - unfold world_destroy in Hstep. destruct (estore_remove (w_ents w) e) as [[[] st']| |].
    + destruct (strip (w_comps w) e) as [[cs ds]| |]; by simplify_eq.
    + by simplify_eq.
    + by simplify_eq.
    + by simplify_eq.
  - unfold world_create_atomic in Hstep. destruct (estore_create_atomic (w_ents w)) as [[e st']| |]; by simplify_eq.
  - unfold world_maintain in Hstep. destruct (estore_maintain (w_ents w)) as [st'| |]; by simplify_eq.
  - unfold world_insert in Hstep. destruct (estore_contains (w_ents w) e); [|by simplify_eq].
    by apply set_insert_ents in Hstep as [-> [-> | ->]].
  - unfold set_remove in Hstep. destruct (lookup_metas _ _ ts) as [[is_ mask]|]; [|by simplify_eq].
    destruct (ungroup_if (w_comps w) mask e) as [s1| |]; [|by simplify_eq..].
    destruct (remove_each _ e is_) as [[comps vs]| |]; by simplify_eq.
  - unfold set_delete in Hstep. destruct (lookup_metas _ _ ts) as [[is_ mask]|]; [|by simplify_eq].
    destruct (ungroup_if (w_comps w) mask e) as [s1| |]; [|by simplify_eq..].
    destruct (delete_list _ e is_) as [[comps vs]| |]; by simplify_eq.
  - unfold world_clear in Hstep. destruct (estore_clear (w_ents w)) as [st'| |]; [|by simplify_eq..].
    destruct (cstore_clear (w_comps w)) as [[cs ds]| |]; by simplify_eq.
  - unfold world_reset in Hstep. destruct (cstore_clear (w_comps w)) as [[cs ds]| |]; by simplify_eq.
  - unfold world_register in Hstep. destruct (register_dyn (w_comps w) t); by simplify_eq.
  - unfold world_set_layout in Hstep. destruct (set_layout _ l perm _); by simplify_eq.
  - unfold world_set in Hstep. destruct (cs_meta (w_comps w) !! t) as [m|]; [|by simplify_eq].
    destruct (cs_comps (w_comps w) !! m_index m) as [c|]; [|by simplify_eq].
    destruct (css_get_ref c e) as [[[i old]|]| |]; [|by simplify_eq..].
    destruct (css_set c i v); by simplify_eq.
  - unfold world_for_each in Hstep. destruct (query_for_each w G J X f) as [[[[cs es] o] n]| |]; by simplify_eq.
Qed.

(** The outcome of [destroy] and of the calls that never return entities. *)
Lemma step_destroy_out w s e out dr w' :
  einv (w_ents w) s → step w (ODestroy e) = (out, dr, w') → ub_free out →
  out = Ret (RBool (bool_decide (s_alive s e))).
Proof.
  intros HE Hstep Hub. simpl in Hstep. unfold world_destroy in Hstep.
  destruct (decide (s_alive s e)) as [Ha|Hd].
  - rewrite bool_decide_true by done. destruct (estore_remove_ok _ _ e HE Ha) as (st' & Hr & _).
    rewrite Hr in Hstep. destruct (strip (w_comps w) e) as [[cs ds]| |]; by simplify_eq.
  - rewrite bool_decide_false by done. rewrite (estore_remove_dead _ _ e HE Hd) in Hstep. by simplify_eq.
Qed.

Lemma einv_loosen st s b es : einv st s → einv st (loosen s b es).
Proof. intros HE. destruct b; [|done]. by eapply einv_ext; [..|exact HE]. Qed.

Lemma einv_with_map st s m :
  einv st s → (∀ e, is_Some (m !! e) ↔ is_Some (s_map s !! e)) → einv st (with_map s m).
Proof. intros HE Hm. eapply einv_ext; [..|exact HE]; try done. intros e. unfold s_alive. simpl. by rewrite Hm. Qed.

Lemma create_n_einv ts n : ∀ s st es st' rows, einv st s → create_n st n = Ok (es, st') → n = length rows →
  einv st' (add_rows s ts es rows) ∧ new_handles s es ∧
  (length es = n ∨ length es < n ∧ exhausted (after_handles s es)).
Proof.
  induction n as [|n IH]; intros s st es st' rows HE Hc Hn; simpl in Hc.
  - simplify_eq. simpl. split_and!; [by destruct rows|done|by left].
  - destruct rows as [|row rows]; [done|]. injection Hn as ->.
    destruct (estore_create_ok _ _ HE) as [(e & st1 & He & Hnew & Hes & HE')|[He Hex]]; rewrite He in Hc.
    + destruct (create_n st1 (length rows)) as [[es1 st2]| |] eqn:Ec; simplify_eq.
      destruct (IH _ _ _ _ rows (HE' (put (s_reg s) (zip ts row) ∅)) Ec eq_refl) as (H1 & H2 & H3).
      assert (∀ es s1 s2, s_issued s1 = s_issued s2 → s_free s1 = s_free s2 →
        (new_handles s1 es → new_handles s2 es) ∧ (exhausted (after_handles s1 es) → exhausted (after_handles s2 es))) as Hext.
      { clear. induction es as [|e es IH]; intros s1 s2 Hi Hf; simpl.
        - split; [done|]. unfold exhausted. by rewrite Hi, Hf.
        - destruct (IH (add_entity s1 e ∅) (add_entity s2 e ∅)) as [IH1 IH2]; simpl; [congruence..|].
          split; [|done]. intros [Hn Hr]. split; [|by apply IH1]. unfold new_handle in *. by rewrite <-Hi, <-Hf. }
      split_and!; [done|split; [done|by eapply Hext; [..|exact H2]]|]. simpl.
      destruct H3 as [H3|[H3 H4]]; [left; lia|right]. split; [lia|by eapply Hext; [..|exact H4]].
    + simplify_eq. simpl. split_and!; [done|done|]. right. split; [lia|done].
Qed.

Lemma visit_all_dom G f es (m : gmap entity row) e : is_Some (visit_all G f es m !! e) ↔ is_Some (m !! e).
Proof.
  unfold visit_all. rewrite map_lookup_imap. destruct (m !! e); simpl; split; intros [? ?]; eauto; done.
Qed.

(** New handles of a call. *)
Definition handles_allowed (s : sstate) (o : op) (out : outcome) : Prop :=
  match o with
  | OCreate _ | OCreateAtomic =>
      (∃ e, reported out = [e] ∧ new_handle s e) ∨ (reported out = [] ∧ exhausted s)
  | OExtend _ rows _ => new_handles s (reported out)
  | ODestroy e => out = Ret (RBool (bool_decide (s_alive s e)))
  | _ => reported out = []
  end.

(** The entity storage keeps up with the client's view, whatever happens to the
    components. *)
Lemma step_ents w s o out dr w' :
  einv (w_ents w) s → step w o = (out, dr, w') → tidy_side s o out →
  einv (w_ents w') (client_step s o out) ∧ handles_allowed s o out.
Proof.
  intros HE Hstep [Htidy Hub]. pose proof (step_ent_effect _ _ _ _ _ _ HE Hstep Hub) as Heff.
  destruct o as [cs|ts rows p|e| | |e cs|e ts|e ts| | |t|l perm|t e v|G J X f]; cbn [ent_effect] in Heff.
  - destruct (estore_create_ok _ _ HE) as [(e & st1 & He & Hnew & Hes & HE')|[He Hex]]; rewrite He in Heff;
      injection Heff as Hr Hw; symmetry in Hr, Hw.
    + split; [|left; eauto]. cbn [client_step]. rewrite Hr, Hw. apply einv_loosen, HE'.
    + split; [|by right]. cbn [client_step]. rewrite Hr, Hw. by apply einv_loosen.
  - destruct (forallb _ ts).
    + destruct (create_n_einv ts _ _ _ _ _ rows HE Heff eq_refl) as (H1 & H2 & _).
      split; [|done]. by apply einv_loosen.
    + injection Heff as Hr Hw; symmetry in Hr, Hw. cbn [client_step handles_allowed]. rewrite Hr, Hw.
      split; [|done]. apply einv_loosen. by destruct rows.
  - pose proof (step_destroy_out _ _ _ _ _ _ HE Hstep Hub) as ->. split; [|done].
    destruct (decide (s_alive s e)) as [Ha|Hd].
    + destruct (estore_remove_ok _ _ e HE Ha) as (st' & Hr & HE'). rewrite Hr in Heff. simplify_eq.
      cbn [client_step] in *. rewrite decide_True in HE' |- * by done. congruence.
    + rewrite (estore_remove_dead _ _ e HE Hd) in Heff. cbn [client_step]. rewrite decide_False by done.
      simpl in Heff. congruence.
  - destruct (estore_create_atomic_ok _ _ HE) as [(e & st1 & He & Hnew & HE')|[He Hex]]; rewrite He in Heff;
      injection Heff as Hr Hw; symmetry in Hr, Hw.
    + split; [|left; eauto]. cbn [client_step]. by rewrite Hr, Hw.
    + split; [|by right]. cbn [client_step]. by rewrite Hr, Hw.
  - destruct (estore_maintain_ok _ _ HE (Htidy eq_refl)) as (st' & Hm & HE'). rewrite Hm in Heff.
    injection Heff as Hr Hw. split; [by rewrite <-Hw|done].
  - injection Heff as Hr Hw. rewrite <-Hw. split; [|done]. cbn [client_step].
    destruct (decide (s_alive s e)) as [Ha|]; [|done]. apply einv_loosen, einv_with_map; [done|].
    intros e'. destruct (decide (e = e')) as [<-|Hne]; [rewrite lookup_insert|by rewrite lookup_insert_ne].
    split; [done|eauto].
  - injection Heff as Hr Hw. rewrite <-Hw. split; [|done]. cbn [client_step].
    destruct (decide (all_reg s ts)); [|done]. apply einv_with_map; [done|]. intros e'. apply lookup_alter_is_Some.
  - injection Heff as Hr Hw. rewrite <-Hw. split; [|done]. cbn [client_step].
    destruct (decide (all_reg s ts)); [|done]. apply einv_with_map; [done|]. intros e'. apply lookup_alter_is_Some.
  - destruct (estore_clear_ok _ _ HE) as (st' & Hm & HE'). rewrite Hm in Heff.
    injection Heff as Hr Hw. split; [by rewrite <-Hw|done].
  - injection Heff as Hr Hw. split; [|done]. rewrite <-Hw. apply estore_reset_ok.
  - injection Heff as Hr Hw. rewrite <-Hw. split; [|done]. by eapply einv_ext; [..|exact HE].
  - injection Heff as Hr Hw. rewrite <-Hw. split; [|done]. by eapply einv_ext; [..|exact HE].
  - injection Heff as Hr Hw. rewrite <-Hw. split; [|done]. cbn [client_step].
    apply einv_with_map; [done|]. intros e'. apply lookup_alter_is_Some.
  - injection Heff as Hr Hw. rewrite <-Hw. split; [|done]. cbn [client_step].
    destruct out as [[]| |]; try done. apply einv_with_map; [done|]. intros e'. apply visit_all_dom.
Qed.
