(** The run-time borrow checks are exact. *)
From Verif Require Import Base Lists SparseVecM EntityM CssM MaskM LayoutM GroupM StorageM WorldM QueryM StepM BorrowM
  SparseProofs CssProofs GroupProofs Spec SpecMore SpecBorrow EntityProofs StorageProofs WorldProofs QueryProofs QueryIter History
  BlindCss BlindQuery BlindLayout.

(** A cell and the kinds of the guards on it. *)
Definition cell_ok (c : rcell) (F : list bool) : Prop :=
  match c with
  | Reading n => length F = n ∧ Forall (λ m, m = false) F
  | Writing => F = [true]
  end.

Lemma cell_ok_perm c F F' : F ≡ₚ F' → cell_ok c F → cell_ok c F'.
Proof.
  intros Hp. destruct c as [n|]; simpl.
  - intros [H1 H2]. split; [by rewrite <-Hp|]. by rewrite <-Hp.
  - intros ->. by apply Permutation_singleton_l in Hp.
Qed.

Lemma cell_borrow_some x c c' F : cell_ok c F → cell_borrow x c = Some c' → cell_ok c' (x :: F).
Proof.
  destruct c as [[|n]|], x; simpl; intros H ?; simplify_eq; simpl.
  - destruct H as [->%nil_length_inv _]. done.
  - destruct H as [->%nil_length_inv _]. eauto.
  - destruct H as [H1 H2]. split; [by rewrite H1|by constructor].
Qed.

Lemma cell_borrow_none x c F : cell_ok c F → cell_borrow x c = None ↔ ∃ m, m ∈ F ∧ (m = true ∨ x = true).
Proof.
  destruct c as [[|n]|]; simpl.
  - intros [->%nil_length_inv _]. destruct x; (split; [done|]); intros (m & []%elem_of_nil & _).
  - intros [H1 H2]. destruct x.
    + split; [|done]. intros _. destruct F as [|m F]; [done|]. exists m. split; [by left|by right].
    + split; [done|]. intros (m & Hm & [-> |?]); [|done]. rewrite Forall_forall in H2. by apply H2 in Hm.
  - intros ->. split; [|by destruct x]. intros _. exists true. split; [by left|by left].
Qed.

Lemma cell_release_ok m c F : cell_ok c (m :: F) → cell_ok (cell_release c) F.
Proof.
  destruct c as [[|n]|]; simpl.
  - by intros [? _].
  - intros [H1 H2]. apply Forall_cons in H2 as [_ H2]. split; [lia|done].
  - intros. simplify_eq. by split.
Qed.

(** The kinds of the guards on storage [i]. *)
Definition flags (i : nat) (gs : list (nat * (nat * bool))) : list bool :=
  gs ≫= λ g, if decide (g.2.1 = i) then [g.2.2] else [].

Lemma flags_cons i g gs : flags i (g :: gs) = (if decide (g.2.1 = i) then [g.2.2] else []) ++ flags i gs.
Proof. done. Qed.
Lemma flags_app i l1 l2 : flags i (l1 ++ l2) = flags i l1 ++ flags i l2.
Proof. unfold flags. by rewrite bind_app. Qed.
Lemma elem_of_flags i m gs : m ∈ flags i gs ↔ ∃ id, (id, (i, m)) ∈ gs.
Proof.
  unfold flags. rewrite elem_of_list_bind. split.
  - intros ([id [j m']] & Hm & Hin). simpl in Hm. case_decide; [|by apply elem_of_nil in Hm].
    apply elem_of_list_singleton in Hm. subst. by exists id.
  - intros (id & Hin). exists (id, (i, m)). split; [|done]. simpl. rewrite decide_True by done. by left.
Qed.

Definition cells_ok (cells : list rcell) (gs : list (nat * (nat * bool))) : Prop :=
  ∀ i c, cells !! i = Some c → cell_ok c (flags i gs).

Lemma release_ok id cells gs : ∀ extra, cells_ok cells (gs ++ extra) →
  cells_ok (foldr (λ g cells, if decide (g.1 = id) then alter cell_release g.2.1 cells else cells) cells gs)
    (filter (λ g, g.1 ≠ id) gs ++ extra).
Proof.
  induction gs as [|g gs IH]; intros extra Hc; [done|].
  assert (cells_ok cells (gs ++ g :: extra)) as Hc'.
  { intros i c Hi. eapply cell_ok_perm; [|by apply Hc]. rewrite !flags_app, !flags_cons. solve_Permutation. }
  apply IH in Hc'. rewrite filter_cons. simpl. destruct (decide (g.1 = id)) as [->|Hne].
  - rewrite decide_False by tauto. intros i c Hi. destruct (decide (i = g.2.1)) as [->|Hne].
    + rewrite list_lookup_alter in Hi. apply fmap_Some in Hi as (c0 & Hc0 & ->). apply (cell_release_ok g.2.2).
      eapply cell_ok_perm; [|by apply Hc']. rewrite !flags_app, flags_cons, decide_True by done. solve_Permutation.
    + rewrite list_lookup_alter_ne in Hi by done. specialize (Hc' _ _ Hi).
      rewrite flags_app, flags_cons, decide_False in Hc' by done. by rewrite flags_app.
  - rewrite decide_True by done. intros i c Hi. eapply cell_ok_perm; [|by apply Hc'].
    rewrite !flags_app, !flags_cons. solve_Permutation.
Qed.

Lemma release_length id cells gs :
  length (foldr (λ (g : nat * (nat * bool)) cells, if decide (g.1 = id) then alter cell_release g.2.1 cells else cells) cells gs) =
  length cells.
Proof. induction gs as [|g gs IH]; simpl; [done|]. case_decide; [|done]. by rewrite alter_length. Qed.

Definition storage_of (w : world) (t : tid) : nat :=
  match cs_meta (w_comps w) !! t with Some m => m_index m | None => 0 end.
Definition guard_of (w : world) (b : nat * (tid * bool)) : nat * (nat * bool) := (b.1, (storage_of w b.2.1, b.2.2)).

Record binv (w : world) (st : bstate) (live : list (nat * (tid * bool))) : Prop := {
  bi_len : length (b_cells st) = length (cs_comps (w_comps w));
  bi_cells : cells_ok (b_cells st) (b_guards st);
  bi_guards : b_guards st = guard_of w <$> live;
  bi_reg : ∀ id t m, (id, (t, m)) ∈ live → is_Some (cs_meta (w_comps w) !! t)
}.

Lemma filter_guards w (id : nat) (live : list (nat * (tid * bool))) :
  filter (λ g : nat * (nat * bool), g.1 ≠ id) (guard_of w <$> live) = guard_of w <$> filter (λ b, b.1 ≠ id) live.
Proof.
  induction live as [|b live IH]; [done|]. rewrite fmap_cons, !filter_cons. simpl.
  destruct (decide (b.1 = id)) as [H|H].
  - by rewrite !decide_False by tauto.
  - by rewrite !decide_True, fmap_cons, IH by done.
Qed.

Lemma binv_init w : binv w (b_init w) [].
Proof.
  split; simpl.
  - apply replicate_length.
  - intros i c [-> _]%lookup_replicate. by repeat constructor.
  - done.
  - by intros ? ? ? ?%elem_of_nil.
Qed.

Lemma binv_release w st live id : binv w st live → binv w (b_release st id) (filter (λ b, b.1 ≠ id) live).
Proof.
  intros []. split; simpl.
  - by rewrite release_length.
  - rewrite <-(app_nil_r (filter _ _)). apply release_ok. by rewrite app_nil_r.
  - rewrite bi_guards0. apply filter_guards.
  - intros i t m [_ H]%elem_of_list_filter. by eapply bi_reg0.
Qed.

Lemma cells_unique w st1 st2 live : binv w st1 live → binv w st2 live → st1 = st2.
Proof.
  intros [L1 C1 G1 _] [L2 C2 G2 _]. destruct st1 as [c1 g1], st2 as [c2 g2]; simpl in *. subst. f_equal.
  apply list_eq. intros i. destruct (c1 !! i) as [x|] eqn:E1, (c2 !! i) as [y|] eqn:E2; [|exfalso..|done].
  - specialize (C1 _ _ E1). specialize (C2 _ _ E2). f_equal. destruct x as [n|], y as [n'|]; simpl in *.
    + destruct C1 as [<- _], C2 as [<- _]. done.
    + rewrite C2 in C1. destruct C1 as [_ [? _]%Forall_cons]. done.
    + rewrite C1 in C2. destruct C2 as [_ [? _]%Forall_cons]. done.
    + done.
  - apply lookup_lt_Some in E1. apply lookup_ge_None_1 in E2. lia.
  - apply lookup_lt_Some in E2. apply lookup_ge_None_1 in E1. lia.
Qed.

Section world.
  Context (w : world) (ds : list dense) (Hw : bstore (w_comps w) ds).

  Lemma storages_distinct t t' m m' :
    cs_meta (w_comps w) !! t = Some m → cs_meta (w_comps w) !! t' = Some m' → m_index m = m_index m' → t = t'.
  Proof using Hw. apply (bt_inj _ _ Hw). Qed.

  Lemma storage_exists t m : cs_meta (w_comps w) !! t = Some m → m_index m < length (cs_comps (w_comps w)).
  Proof using Hw. apply (bt_in _ _ Hw). Qed.

  Lemma flags_conflict st live t m x : binv w st live → cs_meta (w_comps w) !! t = Some m →
    (∃ f, f ∈ flags (m_index m) (b_guards st) ∧ (f = true ∨ x = true)) ↔ conflicts live t x.
  Proof using Hw.
    intros [] Ht. unfold conflicts. setoid_rewrite elem_of_flags. rewrite bi_guards0. setoid_rewrite elem_of_list_fmap. split.
    - intros (f & (id & [id' [t' f']] & Heq & Hin) & Hc). unfold guard_of in Heq. simpl in Heq. simplify_eq.
      exists id', f'. split; [|done]. destruct (bi_reg0 _ _ _ Hin) as [m' Hm'].
      unfold storage_of in *. rewrite Hm' in *. by rewrite (storages_distinct _ _ _ _ Ht Hm').
    - intros (id & f & Hin & Hc). exists f. split; [|done]. exists id, (id, (t, f)). split; [|done].
      unfold guard_of, storage_of. simpl. by rewrite Ht.
  Qed.

  (** One action. *)
  Lemma b_add_ok st live id p : binv w st live →
    (refused w live p ∧ b_add w st id p = (Panic, b_release st id)) ∨
    (¬ refused w live p ∧ ∃ st', b_add w st id p = (Ok tt, st') ∧ binv w st' (borrows_of id [p] ++ live)).
  Proof using Hw.
    intros HB. unfold b_add, refused, borrows_of. simpl. destruct (part_tid p) as [t|] eqn:Ep; simpl.
    2:{ right. split; [by intros (? & ? & _)|]. by exists st. }
    unfold world_is_registered, is_registered.
    destruct (cs_meta (w_comps w) !! t) as [m|] eqn:Et.
    2:{ left. split; [|done]. exists t. split; [done|]. left. by rewrite Et. }
    pose proof (storage_exists _ _ Et) as Hlt. rewrite <-(bi_len _ _ _ HB) in Hlt.
    apply lookup_lt_is_Some in Hlt as [c Hc]. rewrite Hc.
    pose proof (bi_cells _ _ _ HB _ _ Hc) as Hok.
    pose proof (cell_borrow_none (part_mut p) _ _ Hok) as Hn. rewrite (flags_conflict _ live t) in Hn by done.
    destruct (cell_borrow (part_mut p) c) as [c'|] eqn:Ec.
    - right. split.
      { intros (t' & ? & [Hr|Hr]); simplify_eq; [by rewrite Et in Hr|]. by apply Hn in Hr. }
      eexists. split; [done|]. pose proof (cell_borrow_some _ _ _ _ Hok Ec) as Hok'. destruct HB. split; simpl.
      + by rewrite insert_length.
      + intros i c0 Hi. rewrite flags_cons. simpl. destruct (decide (m_index m = i)) as [<-|Hne].
        * rewrite list_lookup_insert in Hi by (by eapply lookup_lt_Some). by simplify_eq.
        * rewrite list_lookup_insert_ne in Hi by done. by apply bi_cells0.
      + rewrite bi_guards0. unfold guard_of at 2, storage_of. simpl. by rewrite Et.
      + intros i t' m' [?|Hin]%elem_of_cons; [|by eapply bi_reg0]. simplify_eq. by eexists.
    - left. split; [|done]. exists t. split; [done|]. right. by apply Hn.
  Qed.

  Lemma live_snoc tr a r : live_after (tr ++ [(a, r)]) =
    match a, r with
    | BAdd id p, Ok _ => borrows_of id [p] ++ live_after tr
    | BAdd id _, _ | BDrop id, _ => filter (λ b, b.1 ≠ id) (live_after tr)
    end.
  Proof.
    unfold live_after. rewrite foldl_app. simpl. destruct a as [id p|], r; try done. unfold borrows_of. simpl.
    by destruct (part_tid p).
  Qed.

  Lemma session_binv tr st : session w tr st → binv w st (live_after tr).
  Proof using Hw.
    induction 1 as [|tr st a r st' Hs IH Ha]; [apply binv_init|]. rewrite live_snoc. destruct a as [id p|id]; simpl in Ha.
    - destruct (b_add_ok _ _ id p IH) as [[_ Heq]|(_ & st2 & Heq & HB)]; rewrite Heq in Ha; simplify_eq.
      + by apply binv_release.
      + done.
    - simplify_eq. by apply binv_release.
  Qed.

  (** *** C31 *)

  Lemma session_step tr st a r st' : session w tr st → b_act w st a = (r, st') →
    (r = Panic ↔ ∃ id p, a = BAdd id p ∧ refused w (live_after tr) p) ∧ r ≠ UB.
  Proof using Hw.
    intros HB%session_binv Ha. destruct a as [id p|id]; simpl in Ha.
    - destruct (b_add_ok _ _ id p HB) as [[Hr Heq]|(Hr & st2 & Heq & _)]; rewrite Heq in Ha; simplify_eq.
      + split; [|done]. split; [|done]. intros _. by exists id, p.
      + split; [|done]. split; [done|]. intros (? & ? & ? & ?). by simplify_eq.
    - simplify_eq. split; [|done]. split; [done|]. by intros (? & ? & ? & _).
  Qed.

  Lemma exclusive_filter live id : exclusive_alone live → exclusive_alone (filter (λ b, b.1 ≠ id) live).
  Proof.
    induction live as [|b live IH]; [done|]. intros H. rewrite filter_cons.
    assert (exclusive_alone live) as Ht.
    { intros i j id1 id2 t m1 m2 Hi Hj Hne. apply (H (S i) (S j) id1 id2 t m1 m2); [done..|lia]. }
    case_decide; [|by apply IH]. specialize (IH Ht).
    intros i j id1 id2 t m1 m2 Hi Hj Hne. destruct i as [|i], j as [|j]; simpl in *; [done| | |].
    - apply elem_of_list_lookup_2, elem_of_list_filter in Hj as [_ [k Hk]%elem_of_list_lookup].
      by apply (H 0 (S k) id1 id2 t m1 m2).
    - apply elem_of_list_lookup_2, elem_of_list_filter in Hi as [_ [k Hk]%elem_of_list_lookup].
      by apply (H (S k) 0 id1 id2 t m1 m2).
    - apply (IH i j id1 id2 t m1 m2); [done..|lia].
  Qed.

  Lemma exclusive_add live id p : exclusive_alone live → ¬ refused w live p →
    exclusive_alone (borrows_of id [p] ++ live).
  Proof.
    intros H Hr. unfold borrows_of. simpl. destruct (part_tid p) as [t|] eqn:Ep; simpl; [|done].
    assert (∀ k id2 m2, live !! k = Some (id2, (t, m2)) → part_mut p = false ∧ m2 = false) as Hn.
    { intros k id2 m2 Hk%elem_of_list_lookup_2. destruct (part_mut p) eqn:Em, m2; try done; exfalso; apply Hr;
        exists t; (split; [done|]); right; eexists _, _; (split; [done|]); rewrite Em; auto. }
    intros i j id1 id2 t' m1 m2 Hi Hj Hne. destruct i as [|i], j as [|j]; simpl in *; [done| | |]; simplify_eq.
    - by eapply Hn.
    - destruct (Hn _ _ _ Hi). done.
    - apply (H i j id1 id2 t' m1 m2); [done..|lia].
  Qed.

  Lemma session_exclusive tr st : session w tr st → exclusive_alone (live_after tr).
  Proof using Hw.
    induction 1 as [|tr st a r st' Hs IH Ha]; [by intros i j id1 id2 t m1 m2 Hi|].
    rewrite live_snoc. destruct a as [id p|id]; simpl in Ha; [|by apply exclusive_filter].
    destruct (b_add_ok _ _ id p (session_binv _ _ Hs)) as [[_ Heq]|(Hr & st2 & Heq & _)]; rewrite Heq in Ha; simplify_eq.
    - by apply exclusive_filter.
    - by apply exclusive_add.
  Qed.

  (** *** A whole query *)

  Lemma filter_unheld id live : unheld id live → filter (λ b : nat * (tid * bool), b.1 ≠ id) live = live.
  Proof.
    induction live as [|[i [t m]] live IH]; intros Hu; [done|]. rewrite filter_cons. simpl.
    rewrite decide_True by (intros ->; apply (Hu t m); by left). f_equal. apply IH. intros t' m' Hin. apply (Hu t' m'). by right.
  Qed.

  Lemma filter_held id live q : unheld id live →
    filter (λ b : nat * (tid * bool), b.1 ≠ id) (borrows_of id q ++ live) = live.
  Proof.
    intros Hu. rewrite filter_app, (filter_unheld id live Hu). unfold borrows_of.
    induction (accesses q) as [|a l IH]; [done|]. rewrite fmap_cons, filter_cons. simpl. by rewrite decide_False by tauto.
  Qed.

  Lemma borrows_of_app id q1 q2 : borrows_of id (q1 ++ q2) = borrows_of id q1 ++ borrows_of id q2.
  Proof. unfold borrows_of, accesses. by rewrite omap_app, fmap_app. Qed.

  Lemma elem_of_accesses t m q : (t, m) ∈ accesses q ↔ ∃ p, p ∈ q ∧ part_tid p = Some t ∧ part_mut p = m.
  Proof.
    unfold accesses. rewrite elem_of_list_omap. split.
    - intros (p & Hp & Heq). exists p. destruct (part_tid p); simpl in *; by simplify_eq.
    - intros (p & Hp & Ht & <-). exists p. by rewrite Ht.
  Qed.

  (** [done] has been borrowed, [q] is to come. *)
  Lemma b_build_gen id live q : ∀ st done_,
    unheld id live → binv w st (borrows_of id (reverse done_) ++ live) →
    ((∃ k p, q !! k = Some p ∧ refused w (borrows_of id (reverse (take k q)) ++ borrows_of id (reverse done_) ++ live) p) ∧
     ∃ st', b_build w st id q = (Panic, st') ∧ binv w st' live) ∨
    ((∀ k p, q !! k = Some p → ¬ refused w (borrows_of id (reverse (take k q)) ++ borrows_of id (reverse done_) ++ live) p) ∧
     ∃ st', b_build w st id q = (Ok tt, st') ∧ binv w st' (borrows_of id (reverse (done_ ++ q)) ++ live)).
  Proof using Hw.
    induction q as [|p q IH]; intros st done_ Hu HB; simpl.
    - right. split; [done|]. exists st. by rewrite app_nil_r.
    - destruct (b_add_ok _ _ id p HB) as [[Hr Heq]|(Hr & st2 & Heq & HB2)]; rewrite Heq.
      + left. split; [by exists 0, p|]. exists (b_release st id). split; [done|].
        rewrite <-(filter_held id live (reverse done_)) by done. by apply binv_release.
      + assert (borrows_of id [p] ++ borrows_of id (reverse done_) ++ live =
                borrows_of id (reverse (done_ ++ [p])) ++ live) as Hbo.
        { rewrite reverse_snoc. change (p :: reverse done_) with ([p] ++ reverse done_). by rewrite borrows_of_app, (assoc_L (++)). }
        assert (∀ k, borrows_of id (reverse (take k q)) ++ borrows_of id (reverse (done_ ++ [p])) ++ live =
                     borrows_of id (reverse (take (S k) (p :: q))) ++ borrows_of id (reverse done_) ++ live) as Hk.
        { intros k. simpl. rewrite reverse_cons, borrows_of_app, <-(assoc_L (++)), <-Hbo. done. }
        rewrite Hbo in HB2. destruct (IH st2 (done_ ++ [p]) Hu HB2) as [[(k & p' & Hq & Href) Hb]|[Hall (st' & Hb & HB')]].
        * left. split; [|done]. exists (S k), p'. split; [done|]. by rewrite <-Hk.
        * right. split.
          -- intros [|k] p' Hq; simpl in Hq; [by simplify_eq|]. rewrite <-Hk. by apply Hall.
          -- exists st'. split; [done|]. by rewrite <-(assoc_L (++)) in HB'.
  Qed.

  Lemma refused_clash id live q : unheld id live →
    (∃ k p, q !! k = Some p ∧ refused w (borrows_of id (reverse (take k q)) ++ live) p) ↔
    (∃ p, p ∈ q ∧ refused w live p) ∨ clash q.
  Proof using Hw.
    intros Hu. split.
    - intros (k & p & Hk & t & Ht & [Hr|(i & m & Hin & Hm)]).
      + left. exists p. split; [by eapply elem_of_list_lookup_2|]. exists t. split; [done|by left].
      + apply elem_of_app in Hin as [Hin|Hin].
        * right. unfold borrows_of in Hin. apply elem_of_list_fmap in Hin as ([t' m'] & Heq & Hacc). simplify_eq.
          apply elem_of_accesses in Hacc as (p' & Hp' & Ht' & Hm'). rewrite elem_of_reverse in Hp'.
          apply elem_of_list_lookup in Hp' as (j & Hj). apply lookup_take_Some in Hj as [Hj Hlt].
          exists j, k, p', p, t'. split_and!; try done. by rewrite Hm'.
        * left. exists p. split; [by eapply elem_of_list_lookup_2|]. exists t. split; [done|]. right. by exists i, m.
    - intros [(p & Hp & t & Ht & Hr)|(j & k & pj & pk & t & Hlt & Hj & Hk & Htj & Htk & Hm)].
      + apply elem_of_list_lookup in Hp as (k & Hk). exists k, p. split; [done|]. exists t. split; [done|].
        destruct Hr as [?|(i & m & Hin & Hm)]; [by left|]. right. exists i, m. split; [|done]. set_solver.
      + exists k, pk. split; [done|]. exists t. split; [done|]. right. exists id, (part_mut pj).
        split; [|done]. apply elem_of_app. left. unfold borrows_of. apply elem_of_list_fmap. exists (t, part_mut pj).
        split; [done|]. apply elem_of_accesses. exists pj. split; [|done]. rewrite elem_of_reverse. apply elem_of_list_lookup.
        exists j. by apply lookup_take_Some.
  Qed.

  Lemma session_build tr st id q : session w tr st → unheld id (live_after tr) →
    let bad := (∃ p, p ∈ q ∧ refused w (live_after tr) p) ∨ clash q in
    (bad ∧ b_build w st id q = (Panic, st)) ∨
    (¬ bad ∧ ∃ st', b_build w st id q = (Ok tt, st') ∧ b_release st' id = st).
  Proof using Hw.
    intros Hs Hu. cbn zeta. pose proof (session_binv _ _ Hs) as HB. rewrite <-(refused_clash id) by done.
    destruct (b_build_gen id (live_after tr) q st [] Hu HB) as [[Hbad (st' & Hb & HB')]|[Hall (st' & Hb & HB')]]; simpl in *.
    - left. split; [done|]. by rewrite Hb, (cells_unique _ _ _ _ HB' HB).
    - right. split; [intros (k & p & Hk & Hr); by apply (Hall k p)|]. exists st'. split; [done|].
      apply (cells_unique w _ _ (live_after tr)); [|done]. rewrite <-(filter_held id (live_after tr) (reverse q)) at 1 by done.
      by apply binv_release.
  Qed.

  (** On an unborrowed world this is the check of the query model. *)
  Lemma no_conflict_clash q : ∀ held,
    no_conflict held (accesses q) = true ↔
    ¬ clash q ∧ ∀ p t m, p ∈ q → part_tid p = Some t → (t, m) ∈ held → m = false ∧ part_mut p = false.
  Proof.
    induction q as [|p q IH]; intros held.
    - simpl. split; [|done]. intros _. split; [by intros (j & k & ? & ? & ? & ? & ? & _)|by intros ? ? ? ?%elem_of_nil].
    - unfold accesses. simpl. fold (accesses q). destruct (part_tid p) as [t|] eqn:Et; simpl.
      + rewrite andb_true_iff, forallb_forall, IH. split.
        * intros (H1 & H2 & H3). split.
          -- intros ([|j] & [|k] & pj & pk & t' & Hlt & Hj & Hk & Htj & Htk & Hm); simpl in *; [lia| |lia|].
             ++ injection Hj as Hpj. subst pj. rewrite Et in Htj. injection Htj as Htt. subst t'.
                destruct (H3 pk t (part_mut p)) as [? ?]; [by eapply elem_of_list_lookup_2|done|by left|].
                destruct Hm; congruence.
             ++ apply H2. exists j, k, pj, pk, t'. split_and!; try done. lia.
          -- intros p' t' m [Heq|Hp']%elem_of_cons Ht' Hh.
             ++ rewrite Heq in Ht' |- *. clear Heq. rewrite Et in Ht'. injection Ht' as Htt. subst t'. apply elem_of_list_In, H1 in Hh. simpl in Hh. rewrite N.eqb_refl in Hh. simpl in Hh.
                destruct m, (part_mut p); done.
             ++ apply (H3 p' t' m); [done..|]. by right.
        * intros (H1 & H2). split_and!.
          -- intros [t' m] Hh%elem_of_list_In. simpl. destruct (N.eqb_spec t' t) as [->|]; [|done]. simpl.
             destruct (H2 p t m) as [-> ->]; [by left|done..].
          -- intros (j & k & pj & pk & t' & Hlt & Hj & Hk & Hrest). apply H1. exists (S j), (S k), pj, pk, t'.
             split; [lia|]. split; [done|]. by split.
          -- intros p' t' m Hp' Ht' [?|Hh]%elem_of_cons; [|apply (H2 p' t' m); [by right|done..]].
             simplify_eq. apply elem_of_list_lookup in Hp' as (k & Hk).
             destruct (part_mut p) eqn:E1, (part_mut p') eqn:E2; try done; exfalso; apply H1; exists 0, (S k), p, p', t;
               (split_and!; [lia|done|done|done|done|]); auto.
      + rewrite IH. split; intros [H1 H2]; split.
        * intros ([|j] & [|k] & pj & pk & t' & Hlt & Hj & Hk & Htj & Htk & Hm); simpl in *; [lia| |lia|].
          -- by simplify_eq.
          -- apply H1. exists j, k, pj, pk, t'. split_and!; try done. lia.
        * intros p' t' m [Heq|Hp']%elem_of_cons Ht' Hh; [congruence|]. by eapply H2.
        * intros (j & k & pj & pk & t' & Hlt & Hj & Hk & Hrest). apply H1. exists (S j), (S k), pj, pk, t'.
          split; [lia|]. split; [done|]. by split.
        * intros p' t' m Hp' Ht' Hh. eapply H2; [by right|done..].
  Qed.

End world.

Section reached.
  Context (w : world) (s : sstate) (Hw : reachable w s) (ds : list dense) (Hb : bstore (w_comps w) ds).

  Lemma build_query_ok G J X :
    query_ok s G J X ↔ ¬ ((∃ p, p ∈ G ++ J ++ X ∧ refused w [] p) ∨ clash (G ++ J ++ X)).
  Proof using Hw.
    unfold query_ok. rewrite no_conflict_clash. unfold all_reg. split.
    - intros [H1 [H2 _]] [(p & Hp & t & Ht & [Hr|(i & m & []%elem_of_nil & _)])|Hc]; [|done].
      rewrite (reach_registered _ _ _ Hw) in Hr. apply bool_decide_eq_false in Hr. apply Hr, H1.
      apply elem_of_list_omap. by exists p.
    - intros H. split_and!.
      + intros t (p & Hp & Ht)%elem_of_list_omap. destruct (decide (t ∈ s_reg s)) as [|Hn]; [done|]. destruct H. left.
        exists p. split; [done|]. exists t. split; [done|]. left. rewrite (reach_registered _ _ _ Hw).
        by apply bool_decide_eq_false.
      + intros Hc. apply H. by right.
      + by intros p t m _ _ ?%elem_of_nil.
  Qed.

  Lemma build_query_all id G J X :
    (b_build w (b_init w) id (G ++ J ++ X)).1 = Panic ↔ query_all w G J X = Panic.
  Proof using Hw Hb.
    assert (unheld id (live_after [])) as Hu by (by intros t m ?%elem_of_nil).
    destruct (session_build w ds Hb [] (b_init w) id (G ++ J ++ X) (session_nil w) Hu) as [[Hbad ->]|(Hok & st' & -> & _)]; simpl.
    - split; [|done]. intros _. apply (reach_query_all_panics _ s); [done|]. rewrite build_query_ok. intros Hn. by apply Hn.
    - split; [done|]. apply build_query_ok in Hok. destruct (reach_query_all _ _ _ _ _ Hw Hok) as (es & its & -> & _). done.
  Qed.
End reached.
