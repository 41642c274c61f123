(** Aliasing, the iterator protocol and parallel iteration. *)
From Verif Require Import Base Lists SparseVecM EntityM CssM MaskM LayoutM GroupM StorageM WorldM QueryM ParM StepM
  SparseProofs CssProofs MaskProofs GroupProofs Spec SpecMore SpecQuery EntityProofs LayoutProofs StorageProofs
  StoreOps LayoutOps WorldProofs QueryProofs QueryRange QueryIter ForEachProofs History Lockstep Contents.

(** ** Aliasing *)

Lemma item_ok_refers s ds am e p a t c :
  item_ok s ds am e p a → refers a t c → part_tid p = Some t ∧ ∃ x, cell s ds t e c x.
Proof.
  destruct p, a as [|t' c' x|t' [[c' x]|]]; simpl; try done; intros [-> H] [-> ->]; eauto.
Qed.

Lemma no_conflict_app held l1 l2 :
  no_conflict held (l1 ++ l2) = true → no_conflict held l1 = true.
Proof.
  revert held. induction l1 as [|[t m] l1 IH]; intros held; [done|]. simpl.
  intros [H1 H2]%andb_true_iff. rewrite H1. simpl. by eapply IH.
Qed.

Lemma accesses_app q q' : accesses (q ++ q') = accesses q ++ accesses q'.
Proof. apply omap_app. Qed.

Lemma no_conflict_held held l t m m' :
  no_conflict held l = true → (t, m) ∈ held → (t, m') ∈ l → m = false ∧ m' = false.
Proof.
  revert held. induction l as [|[t2 m2] l IH]; intros held H Hh Hl; [by apply elem_of_nil in Hl|].
  simpl in H. apply andb_true_iff in H as [H1 H2]. apply elem_of_cons in Hl as [[= -> ->]|Hl].
  - apply elem_of_list_In in Hh. pose proof (proj1 (forallb_forall _ _) H1 _ Hh) as H. simpl in H.
    rewrite N.eqb_refl in H. simpl in H. by apply negb_true_iff, orb_false_iff in H.
  - eapply IH; [exact H2|by right|done].
Qed.

Lemma no_conflict_parts (G : query) held k1 k2 p1 p2 t :
  no_conflict held (accesses G) = true → G !! k1 = Some p1 → G !! k2 = Some p2 → k1 < k2 →
  part_tid p1 = Some t → part_tid p2 = Some t → part_mut p1 = false ∧ part_mut p2 = false.
Proof.
  revert held k1 k2. induction G as [|p G IH]; intros held k1 k2 H H1 H2 Hk T1 T2; [done|].
  destruct k2 as [|k2]; [lia|]. simpl in H2.
  assert (accesses (p :: G) = accesses [p] ++ accesses G) as Ha by (apply (accesses_app [p] G)).
  destruct k1 as [|k1].
  - simpl in H1. injection H1 as ->. rewrite Ha in H. unfold accesses at 1 in H. simpl in H. rewrite T1 in H.
    simpl in H. apply andb_true_iff in H as [_ H].
    eapply (no_conflict_held _ _ t); [exact H|by left|].
    apply elem_of_list_omap. exists p2. split; [by eapply elem_of_list_lookup_2|]. by rewrite T2.
  - rewrite Ha in H. destruct (accesses [p]) as [|[t0 m0] l] eqn:E.
    + eapply (IH held k1 k2); try done; lia.
    + assert (l = []) as ->. { unfold accesses in E. simpl in E. destruct (part_tid p); simpl in E; by simplify_eq. }
      simpl in H. apply andb_true_iff in H as [_ H]. eapply (IH _ k1 k2); try done; lia.
Qed.

Lemma inv_no_alias w s ds G J X its :
  winv w s ds → query_ok s G J X → query_all w G J X = Ok its → no_alias G its.
Proof.
  intros HI Hq Hall. destruct (query_all_at w s ds G J X HI Hq) as (es & its' & dn & H1 & _ & HF & HV).
  rewrite H1 in Hall. injection Hall as ->. pose proof HI as [_ HC].
  intros i j it1 it2 k1 k2 a1 a2 t c Hi Hj Hk1 Hk2 R1 R2.
  destruct (Forall2_lookup_r _ _ _ _ _ HF Hi) as (e1 & He1 & Hi1).
  destruct (Forall2_lookup_r _ _ _ _ _ HF Hj) as (e2 & He2 & Hi2).
  destruct (Forall2_lookup_r _ _ _ _ _ Hi1 Hk1) as (p1 & Hp1 & Ho1).
  destruct (Forall2_lookup_r _ _ _ _ _ Hi2 Hk2) as (p2 & Hp2 & Ho2).
  destruct (item_ok_refers _ _ _ _ _ _ _ _ Ho1 R1) as (T1 & x1 & C1).
  destruct (item_ok_refers _ _ _ _ _ _ _ _ Ho2 R2) as (T2 & x2 & C2).
  assert (e1 = e2) as -> by (by eapply cell_owner).
  split; [by eapply (NoDup_lookup es); [apply HV|..]|].
  destruct (decide (k1 = k2)) as [->|Hne]; [by left|]. right.
  assert (no_conflict [] (accesses G) = true) as Hnc.
  { destruct Hq as [_ Hq]. rewrite accesses_app in Hq. by eapply no_conflict_app. }
  assert (part_mut p1 = false ∧ part_mut p2 = false) as [M1 M2].
  { destruct (decide (k1 < k2)).
    - by eapply (no_conflict_parts G [] k1 k2).
    - apply and_comm. eapply (no_conflict_parts G [] k2 k1); try done. lia. }
  intros p [Hp|Hp]; [change (G !! k1 = Some p1) in Hp1|change (G !! k2 = Some p2) in Hp2]; by simplify_eq.
Qed.

(** ** The iterator protocol *)

Lemma iter_next_fold it its :
  iter_fold it = Ok its →
  match its with
  | [] => iter_next it = Ok (None, it) ∨ ∃ x i g ents, it = ISparse ents x i g ∧ iter_next it = Ok (None, ISparse [] x i g)
  | a :: its => ∃ it', iter_next it = Ok (Some a, it') ∧ iter_fold it' = Ok its ∧ iter_dense it' = iter_dense it
  end.
Proof.
  destruct it as [ents x i g|lo hi ents g]; simpl.
  - intros H. assert (match its with
      | [] => sparse_next ents x i g = Ok (None, [])
      | a :: its => ∃ ents', sparse_next ents x i g = Ok (Some a, ents') ∧ sparse_fold ents' x i g = Ok its end) as Hn.
    { induction ents as [|e ents IH]; simpl in *; [by injection H as <-|].
      destruct (negb (contains_none_raw x (e_sparse e))); [by apply IH|].
      destruct (negb (contains_all_raw i (e_sparse e))); [by apply IH|].
      destruct (query_get_raw g e) as [[it|]| |]; try done; [|by apply IH].
      destruct (sparse_fold ents x i g) eqn:Ef; try done. injection H as <-; eauto. }
    destruct its as [|a its].
    + right. exists x, i, g, ents. by rewrite Hn.
    + destruct Hn as (ents' & -> & Hf). eauto.
  - unfold dense_fold. intros H. unfold dense_next. destruct (lo <? hi) eqn:E.
    + apply Nat.ltb_lt in E. replace (hi - lo) with (S (hi - S lo)) in H by lia. simpl in H. unfold dense_get at 1 in H.
      destruct (ents !! lo) as [e|]; [|done]. destruct (query_get_dense g lo e) as [it| |]; try done.
      destruct (all_ok (dense_get ents g) (seq (S lo) (hi - S lo))) as [l| |] eqn:El; try done.
      injection H as <-. eexists. split; [done|]. split; [|done]. simpl. unfold dense_fold. by rewrite El.
    + apply Nat.ltb_ge in E. replace (hi - lo) with 0 in H by lia. simpl in H. injection H as <-. by left.
Qed.

Lemma iter_next_done it it' : iter_fold it = Ok [] → iter_next it = Ok (None, it') → iter_fold it' = Ok [].
Proof.
  intros Hf Hn. destruct (iter_next_fold it [] Hf) as [H|(x & i & g & ents & -> & H)].
  - rewrite H in Hn. by injection Hn as <-.
  - rewrite H in Hn. by injection Hn as <-.
Qed.

Lemma iter_done it : iter_fold it = Ok [] →
  ∃ it', iter_next it = Ok (None, it') ∧ iter_fold it' = Ok [] ∧ iter_dense it' = iter_dense it.
Proof.
  intros Hf. destruct (iter_next_fold it [] Hf) as [H|(x & i & g & ents & -> & H)].
  - exists it. done.
  - eexists. split; [exact H|]. done.
Qed.

Lemma fold_yields it its : iter_fold it = Ok its → yields it its.
Proof.
  intros Hf n. revert it its Hf. induction n as [|n IH]; intros it its Hf; [done|]. cbn [nexts].
  destruct its as [|a its].
  - destruct (iter_done it Hf) as (it' & -> & Hf' & _). rewrite (IH it' [] Hf'). simpl. by rewrite take_nil, Nat.sub_0_r.
  - destruct (iter_next_fold it _ Hf) as (it' & -> & Hf' & _). by rewrite (IH it' its Hf').
Qed.

Lemma fold_hints it its : iter_fold it = Ok its → hints_right (iter_dense it) it its.
Proof.
  intros Hf n. revert it its Hf. induction n as [|n IH]; intros it its Hf; cbn [hint_after].
  - destruct it as [ents x i g|lo hi ents g]; simpl.
    + exists 0, None. split_and!; try done. lia.
    + exists (hi - lo), (Some (hi - lo)).
      assert (length its = hi - lo) as ->.
      { simpl in Hf. unfold dense_fold in Hf. revert Hf. generalize (seq_length (hi - lo) lo).
        generalize (seq lo (hi - lo)). clear. intros l <-. revert its. induction l as [|k l IH]; intros its H; simpl in H.
        - by injection H as <-.
        - destruct (dense_get ents g k); try done. destruct (all_ok _ l) as [l'| |]; try done. injection H as <-.
          simpl. f_equal. by apply IH. }
      split_and!; [done|lia|intros ? [= <-]; lia|intros; split; [lia|f_equal; lia]].
  - destruct its as [|a its].
    + destruct (iter_done it Hf) as (it' & -> & Hf' & Hd). destruct (IH it' [] Hf') as (lo & hi & H1 & H2 & H3 & H4).
      exists lo, hi. rewrite Hd in H4. simpl in *. rewrite Nat.sub_0_l in *. done.
    + destruct (iter_next_fold it _ Hf) as (it' & -> & Hf' & Hd). destruct (IH it' its Hf') as (lo & hi & H1 & H2 & H3 & H4).
      exists lo, hi. by rewrite Hd in H4.
Qed.

Lemma query_all_iter_fold w G J X :
  query_all w G J X = match query_all_iter w G J X with Ok it => iter_fold it | Panic => Panic | UB => UB end.
Proof. unfold query_all, query_all_iter. by destruct (borrow3 w G J X) as [[[g i] x]| |]. Qed.

Lemma query_is_dense_iter w G J X :
  query_is_dense w G J X = match query_all_iter w G J X with Ok it => Ok (iter_dense it) | Panic => Panic | UB => UB end.
Proof.
  unfold query_is_dense, query_all_iter. destruct (borrow3 w G J X) as [[[g i] x]| |]; try done.
  by destruct (query_iter _ g i x) as [[]| |].
Qed.

Lemma inv_iter w s ds G J X :
  winv w s ds → query_ok s G J X →
  ∃ it its, query_all_iter w G J X = Ok it ∧ query_all w G J X = Ok its ∧ iter_fold it = Ok its ∧
    query_is_dense w G J X = Ok (iter_dense it).
Proof.
  intros HI Hq. destruct (query_all_at w s ds G J X HI Hq) as (_ & its & dn & H1 & H2 & _).
  rewrite query_all_iter_fold in H1. rewrite query_is_dense_iter in H2. rewrite query_all_iter_fold, query_is_dense_iter.
  destruct (query_all_iter w G J X) as [it| |]; try done. exists it, its. done.
Qed.

(** ** Parallel iteration *)

Definition piter_of (it : iter) : piter :=
  match it with
  | ISparse ents x i g => PSparse ents x i g
  | IDense lo hi ents g => PDense lo hi ents g
  end.

Lemma query_par_iter_eq s g i x :
  query_par_iter s g i x = match query_iter s g i x with Ok it => Ok (piter_of it) | Panic => Panic | UB => UB end.
Proof.
  unfold query_par_iter, query_iter. destruct (get_group_range s g i x) as [[[lo hi]|]| |]; try done.
  - by destruct (first_entities g) as [[]| |], (shortest_entities None i) as [[]| |].
  - by destruct (shortest_entities None g), (shortest_entities None i), (shortest_entities None x).
Qed.

Lemma query_all_par_iter_eq w G J X :
  query_all_par_iter w G J X =
    match query_all_iter w G J X with Ok it => Ok (piter_of it) | Panic => Panic | UB => UB end.
Proof.
  unfold query_all_par_iter, query_all_iter. destruct (borrow3 w G J X) as [[[g i] x]| |]; try done.
  apply query_par_iter_eq.
Qed.

Lemma works_sparse ents x i g l : works_items (PSparse ents x i g) (map WEntity l) = sparse_fold l x i g.
Proof.
  induction l as [|e l IH]; [done|]. cbn [map works_items work_items sparse_fold]. unfold psparse_get. rewrite IH.
  destruct (negb (contains_none_raw x (e_sparse e))); [by destruct (sparse_fold l x i g)|].
  destruct (negb (contains_all_raw i (e_sparse e))); [by destruct (sparse_fold l x i g)|].
  destruct (query_get_raw g e) as [[it|]| |]; try done. by destruct (sparse_fold l x i g).
Qed.

Lemma works_dense lo hi ents g l : works_items (PDense lo hi ents g) (map WIndex l) = all_ok (dense_get ents g) l.
Proof.
  induction l as [|k l IH]; [done|]. cbn [map works_items work_items all_ok]. rewrite IH. unfold pdense_get, dense_get.
  destruct (ents !! k) as [e|]; [|done]. simpl. destruct (query_get_dense g k e); try done.
Qed.

Lemma works_fold it : works_items (piter_of it) (piter_work (piter_of it)) = iter_fold it.
Proof. destruct it as [ents x i g|lo hi ents g]; simpl; [apply works_sparse|apply works_dense]. Qed.

Lemma works_app p us vs a : works_items p (us ++ vs) = Ok a →
  ∃ b c, works_items p us = Ok b ∧ works_items p vs = Ok c ∧ a = b ++ c.
Proof.
  revert a. induction us as [|u us IH]; intros a; simpl; [by exists [], a|].
  destruct (work_items p u) as [l| |]; try done. destruct (works_items p (us ++ vs)) as [l'| |]; try done.
  destruct (IH l' eq_refl) as (b & c & -> & -> & ->). intros [= <-]. exists (l ++ b), c. by rewrite (assoc_L (++)).
Qed.

Lemma reduce_works p t us its : works_items p us = Ok its → par_reduce p t us = Ok its.
Proof.
  revert us its. induction t as [|mid l IHl r IHr]; intros us its H; [done|]. simpl.
  rewrite <-(take_drop mid us) in H. apply works_app in H as (b & c & H1 & H2 & ->).
  by rewrite (IHl _ _ H1), (IHr _ _ H2).
Qed.

Lemma concat_pieces {A} t (us : list A) : concat (pieces t us) = us.
Proof.
  revert us. induction t as [|mid l IHl r IHr]; intros us; simpl; [apply app_nil_r|].
  by rewrite concat_app, IHl, IHr, take_drop.
Qed.

Lemma interleaving_perm {A} (ps : list (list A)) us : interleaving ps us → us ≡ₚ concat ps.
Proof.
  induction 1 as [ps H|ps1 u p ps2 us _ IH].
  - induction H as [|p ps -> _ IH]; [done|]. simpl. done.
  - rewrite IH, !concat_app. simpl. rewrite <-Permutation_middle. done.
Qed.

Lemma interleaving_refl {A} (us : list A) : interleaving [us] us.
Proof. induction us as [|u us IH]; [by repeat constructor|]. apply (il_step [] u us [] us). done. Qed.

Lemma works_perm p us vs its :
  us ≡ₚ vs → works_items p us = Ok its → ∃ its', works_items p vs = Ok its' ∧ its ≡ₚ its'.
Proof.
  intros Hp. revert its. induction Hp as [|u us vs _ IH|u v us|us vs ws _ IH1 _ IH2]; intros its H; simpl in *.
  - eauto.
  - destruct (work_items p u) as [l| |]; try done. destruct (works_items p us) as [l'| |]; try done.
    destruct (IH l' eq_refl) as (l2 & -> & Hl). injection H as <-. eexists. split; [done|]. by rewrite Hl.
  - destruct (work_items p v) as [l| |]; try done. destruct (work_items p u) as [l'| |]; try done.
    destruct (works_items p us) as [l2| |]; try done. injection H as <-. eexists. split; [done|].
    rewrite !(assoc_L (++)). by rewrite (Permutation_app_comm l l').
  - destruct (IH1 its H) as (l & Hl & Hp). destruct (IH2 l Hl) as (l' & Hl' & Hp'). exists l'. split; [done|]. by rewrite Hp.
Qed.

(** Collecting and producing, whatever the world. *)
Lemma par_items w G J X its :
  query_all w G J X = Ok its →
  (∀ t, par_collect w G J X t = Ok its) ∧
  ∀ r, par_produces w G J X r → ∃ its', r = Ok its' ∧ its' ≡ₚ its.
Proof.
  rewrite query_all_iter_fold. unfold par_collect, par_produces. rewrite query_all_par_iter_eq.
  destruct (query_all_iter w G J X) as [it| |]; try done. rewrite <-works_fold. intros H. split.
  - intros t. by apply reduce_works.
  - intros r (t & us & Hi & ->). apply interleaving_perm in Hi. rewrite concat_pieces in Hi.
    destruct (works_perm _ _ us its (symmetry Hi) H) as (its' & H' & Hp). exists its'. done.
Qed.

Lemma par_len w G J X its :
  query_all w G J X = Ok its → (∀ lo hi ents g, query_all_iter w G J X = Ok (IDense lo hi ents g) → lo ≤ hi) →
  par_opt_len w G J X = Ok None ∧ query_is_dense w G J X = Ok false ∨
  par_opt_len w G J X = Ok (Some (length its)) ∧ query_is_dense w G J X = Ok true.
Proof.
  rewrite query_all_iter_fold. unfold par_opt_len. rewrite query_all_par_iter_eq, query_is_dense_iter.
  destruct (query_all_iter w G J X) as [it| |]; try done. intros H Hle.
  destruct (fold_hints it its H 0) as (lo & hi & [= Hh] & _ & _ & Hd).
  destruct it as [|lo' hi' ents g]; simpl in *; [by left|right]. destruct Hd as [-> ->]; [done|]. injection Hh as Hh _.
  rewrite (proj2 (Nat.ltb_ge hi' lo') (Hle _ _ _ _ eq_refl)). split; [|done]. do 2 f_equal. lia.
Qed.

(** *** Writing *)

Lemma par_run_sparse f G ents x i g l : ∀ s,
  par_run s f G (PSparse ents x i g) (map WEntity l) = sparse_for_each s f G l x i g.
Proof.
  induction l as [|e l IH]; intros s; [done|]. cbn [map par_run piter_refresh work_items sparse_for_each work_entity].
  unfold psparse_get.
  destruct (negb (contains_none_raw (refresh s <$> x) (e_sparse e))).
  { cbn [visits_of]. rewrite IH. by destruct (sparse_for_each s f G l x i g) as [[[[]]]| |]. }
  destruct (negb (contains_all_raw (refresh s <$> i) (e_sparse e))).
  { cbn [visits_of]. rewrite IH. by destruct (sparse_for_each s f G l x i g) as [[[[]]]| |]. }
  destruct (query_get_raw (refresh s <$> g) e) as [[it|]| |]; try done.
  - cbn [visits_of]. destruct (visit s f G it) as [[[s1 o1] n1]| |]; try done. rewrite !app_nil_r, IH.
    by destruct (sparse_for_each s1 f G l x i g) as [[[[]]]| |].
  - cbn [visits_of]. rewrite IH. by destruct (sparse_for_each s f G l x i g) as [[[[]]]| |].
Qed.

Lemma par_run_dense f G lo hi ents g l : ∀ s,
  par_run s f G (PDense lo hi ents g) (map WIndex l) = dense_for_each s f G l ents g.
Proof.
  induction l as [|k l IH]; intros s; [done|]. cbn [map par_run piter_refresh work_items dense_for_each work_entity].
  unfold pdense_get. destruct (ents !! k) as [e|]; [|done].
  destruct (query_get_dense (refresh s <$> g) k e) as [it| |]; try done. cbn [mbind res_bind].
  simpl. destruct (visit s f G it) as [[[s1 o1] n1]| |]; try done. rewrite !app_nil_r, IH.
  by destruct (dense_for_each s1 f G l ents g) as [[[[]]]| |].
Qed.

Lemma map_perm_inv {A B} (f : A → B) us l : us ≡ₚ map f l → ∃ l', us = map f l' ∧ l' ≡ₚ l.
Proof.
  intros H. apply Permutation_map_inv in H as (l' & -> & Hp). exists l'. split; [done|]. by symmetry.
Qed.

Lemma visit_all_perm G f es es' am : es ≡ₚ es' → visit_all G f es am = visit_all G f es' am.
Proof.
  intros H. unfold visit_all. apply map_eq. intros e. rewrite !map_lookup_imap. destruct (am !! e); [|done]. simpl.
  f_equal. destruct (decide (e ∈ es)) as [Hi|Hi]; rewrite H in Hi; [by rewrite decide_True|by rewrite decide_False].
Qed.

Lemma par_for_each_at w s ds G J X f :
  winv w s ds → query_ok s G J X →
  ∃ es o n s1 ds1, query_for_each w G J X f = Ok (s1, es, o, n) ∧ NoDup es ∧
    winv (World (w_ents w) s1) (with_map s (visit_all G f es (s_map s))) ds1 ∧
    ∀ r, par_for_each w G J X f r →
      ∃ s2 ds2 es' o' n', r = Ok (s2, es', o', n') ∧ es' ≡ₚ es ∧
        n' ++ stored ds ≡ₚ o' ++ stored ds2 ∧
        winv (World (w_ents w) s2) (with_map s (visit_all G f es (s_map s))) ds2.
Proof.
  intros [HE HC] [Hreg Hnc].
  assert (Hwi : ∀ s1 ds1 es, cinv s1 ds1 (visit_all G f es (s_map s)) (s_reg s) (s_grouped s) (s_loose s) →
    winv (World (w_ents w) s1) (with_map s (visit_all G f es (s_map s))) ds1).
  { intros s1 ds1 es H. split; simpl; [|exact H].
    eapply einv_ext; [..|exact HE]; try done. intros e. unfold s_alive. simpl. unfold visit_all.
    rewrite map_lookup_imap. destruct (s_map s !! e); simpl; split; intros [? ?]; eauto; done. }
  unfold query_for_each, par_for_each. rewrite query_all_par_iter_eq. unfold query_all_iter.
  destruct (borrow3_ok w ds _ _ _ _ HC G J X) as [[Hn _]|(g & i & x & _ & _ & -> & [G1 G2] & [J1 J2] & [X1 X2])].
  { by destruct Hn. }
  destruct (query_iter_ok _ _ _ _ _ _ HC G J X g i x) as (it & -> & Hit); try done.
  destruct it as [ents x' i' g'|lo hi ents g']; simpl in Hit.
  - destruct Hit as (-> & -> & -> & Hents).
    assert (NoDup ents) as Hnd.
    { destruct Hents as [[_ ->]|Hs]; [constructor|]. by eapply (slice_of_nodup _ _ _ _ _ _ HC). }
    assert (∀ e, e ∈ ents → is_Some (s_map s !! e)) as Hal.
    { intros e He. destruct Hents as [[_ ->]|Hs]; [by apply elem_of_nil in He|]. by eapply (slice_of_alive _ _ _ _ _ _ HC). }
    destruct (sparse_for_each_ok _ _ _ (w_comps w) (w_comps w) ds (s_map s) f G J X g i x ents HC eq_refl G1 J1 X1 Hnd Hal)
      as (s1 & ds1 & es & o & n & H1 & H2 & H3 & H4 & H5).
    exists es, o, n, s1, ds1. split_and!; try done; [by apply Hwi|].
    intros r (t & us & Hi & ->). apply interleaving_perm in Hi. rewrite concat_pieces in Hi. simpl in Hi.
    apply map_perm_inv in Hi as (l & -> & Hl). cbn [piter_of]. rewrite par_run_sparse.
    destruct (sparse_for_each_ok _ _ _ (w_comps w) (w_comps w) ds (s_map s) f G J X g i x l HC eq_refl G1 J1 X1)
      as (s2 & ds2 & es' & o' & n' & K1 & K2 & K3 & K4 & K5).
    { by rewrite Hl. }
    { intros e. rewrite Hl. apply Hal. }
    assert (es' ≡ₚ es) as Hes.
    { apply NoDup_Permutation; [done|done|]. intros e. rewrite K5, H5, Hl. done. }
    exists s2, ds2, es', o', n'. split_and!; try done; [apply K3|]. apply Hwi. by rewrite <-(visit_all_perm G f es' es).
  - destruct Hit as (-> & P & HD & Hp & _).
    assert (Hpre : ∀ t, t ∈ required G → ∃ m d, cs_meta (w_comps w) !! t = Some m ∧ ds !! m_index m = Some d ∧ take hi d.*1 = P).
    { intros t Ht. apply (dr_pre _ _ _ _ _ _ _ _ _ _ HD). rewrite required_app, elem_of_app. auto. }
    assert (Hnd : NoDup (drop lo P)).
    { apply NoDup_drop. by eapply (dense_nodup _ _ _ _ _ _ HC). }
    assert (Hal : ∀ e, e ∈ drop lo P → is_Some (s_map s !! e)).
    { intros e He. eapply (dense_alive _ _ _ _ _ _ HC); [done|]. rewrite <-(take_drop lo P), elem_of_app. auto. }
    assert (Hseq : Forall2 (λ k e, P !! k = Some e) (seq lo (hi - lo)) (drop lo P)).
    { apply seq_drop; [apply HD|apply (dr_len _ _ _ _ _ _ _ _ _ _ HD)]. }
    destruct (dense_for_each_ok _ _ _ (w_comps w) (w_comps w) ds (s_map s) f G g ents P hi (seq lo (hi - lo)) (drop lo P)
      HC eq_refl G1 Hp Hpre Hnd Hal Hseq) as (s1 & ds1 & o & n & H1 & H2 & H3).
    exists (drop lo P), o, n, s1, ds1. split_and!; try done; [by apply Hwi|].
    intros r (t & us & Hi & ->). apply interleaving_perm in Hi. rewrite concat_pieces in Hi. simpl in Hi.
    apply map_perm_inv in Hi as (l & -> & Hl). cbn [piter_of]. rewrite par_run_dense.
    assert (∃ es', es' ≡ₚ drop lo P ∧ Forall2 (λ k e, P !! k = Some e) l es') as (es' & Hes & Hl').
    { symmetry in Hl. apply Permutation_sym in Hl. clear -Hl Hseq. revert Hseq. generalize (drop lo P). revert Hl.
      generalize (seq lo (hi - lo)). intros ks Hl. induction Hl as [|k l1 l2 _ IH|k k' l1|l1 l2 l3 _ IH1 _ IH2]; intros es HF.
      - inversion HF; subst. by exists [].
      - inversion HF as [|? e ? es1 Hk HF']; subst. destruct (IH es1 HF') as (es2 & H1 & H2).
        exists (e :: es2). split; [by rewrite H1|by constructor].
      - inversion HF as [|? e ? es1 Hk HF']; subst. inversion HF' as [|? e' ? es2 Hk' HF'']; subst.
        exists (e' :: e :: es2). split; [constructor|]. by repeat constructor.
      - destruct (IH2 es HF) as (es2 & P2 & F2). destruct (IH1 es2 F2) as (es3 & P3 & F3). exists es3.
        split; [by rewrite P3|done]. }
    destruct (dense_for_each_ok _ _ _ (w_comps w) (w_comps w) ds (s_map s) f G g ents P hi l es'
      HC eq_refl G1 Hp Hpre) as (s2 & ds2 & o' & n' & K1 & K2 & K3); try done.
    { by rewrite Hes. }
    { intros e. rewrite Hes. apply Hal. }
    exists s2, ds2, es', o', n'. split_and!; try done; [apply K3|]. apply Hwi. by rewrite <-(visit_all_perm G f es' _).
Qed.

(** ** Reachable worlds *)

Lemma visit_row_empty G f e : visit_row G f e ∅ = ∅.
Proof.
  unfold visit_row. destruct (sees e ∅ G); [|done]. apply map_eq. intros t. rewrite lookup_empty.
  destruct (assign f l 0 G ∅ !! t) as [v|] eqn:E; [|done].
  assert (is_Some (assign f l 0 G ∅ !! t)) as H by eauto. rewrite assign_dom in H. by apply lookup_empty_is_Some in H.
Qed.

Lemma inv_wrote w s ds G f es s1 ds1 :
  winv w s ds → winv (World (w_ents w) s1) (with_map s (visit_all G f es (s_map s))) ds1 →
  wrote_to G f es s w (World (w_ents w) s1).
Proof.
  intros HI HI1.
  assert (∀ e, s_row (with_map s (visit_all G f es (s_map s))) e = if decide (e ∈ es) then visit_row G f e (s_row s e) else s_row s e) as Hrow.
  { intros e. unfold s_row. simpl. unfold visit_all. rewrite map_lookup_imap. destruct (s_map s !! e) as [r|]; simpl; [done|].
    case_decide; [|done]. by rewrite visit_row_empty. }
  assert (∀ e t, view_get (World (w_ents w) s1) t e = if world_is_registered (World (w_ents w) s1) t
    then Ok ((if decide (e ∈ es) then visit_row G f e (s_row s e) else s_row s e) !! t) else Panic) as Hget.
  { intros e t. rewrite (inv_view_get _ _ _ _ _ HI1), (winv_registered _ _ _ _ HI1), Hrow. simpl.
    case_decide; [by rewrite bool_decide_true|by rewrite bool_decide_false]. }
  split_and!; try done.
  - intros t. by rewrite (winv_registered _ _ _ _ HI1), (winv_registered _ _ _ _ HI).
  - intros e He t. by rewrite Hget, decide_True.
  - intros e He t. by rewrite Hget, decide_False.
Qed.

Lemma reach_no_alias_at w s G J X its :
  agreeing w s → query_ok s G J X → query_all w G J X = Ok its → no_alias G its.
Proof. intros (_ & ds & HI)%agreeing_inv. by eapply inv_no_alias. Qed.
Lemma reach_no_alias w s G J X its :
  reachable w s → query_ok s G J X → query_all w G J X = Ok its → no_alias G its.
Proof. exact (λ Hr, reach_no_alias_at w s G J X its (reachable_agreeing _ _ Hr)). Qed.

Lemma reach_iter_at w s G J X :
  agreeing w s → query_ok s G J X →
  ∃ it its dn, query_all_iter w G J X = Ok it ∧ query_all w G J X = Ok its ∧ query_is_dense w G J X = Ok dn ∧
    yields it its ∧ hints_right dn it its.
Proof.
  intros (_ & ds & HI)%agreeing_inv Hq. destruct (inv_iter w s ds G J X HI Hq) as (it & its & H1 & H2 & H3 & H4).
  exists it, its, (iter_dense it). split_and!; try done; [by apply fold_yields|by apply fold_hints].
Qed.
Lemma reach_iter w s G J X :
  reachable w s → query_ok s G J X →
  ∃ it its dn, query_all_iter w G J X = Ok it ∧ query_all w G J X = Ok its ∧ query_is_dense w G J X = Ok dn ∧
    yields it its ∧ hints_right dn it its.
Proof. exact (λ Hr, reach_iter_at w s G J X (reachable_agreeing _ _ Hr)). Qed.

Lemma any_iter it its : iter_fold it = Ok its →
  yields it its ∧ hints_right (match it with IDense _ _ _ _ => true | _ => false end) it its.
Proof. intros H. split; [by apply fold_yields|by apply fold_hints]. Qed.

Lemma reach_for_each_effect w s G J X f :
  reachable w s → query_ok s G J X →
  ∃ es vs dr w', step w (OForEach G J X f) = (Ret (RWrote es vs), dr, w') ∧ NoDup es ∧
    (plain G J X → simple_exclude s X →
     ∀ e, e ∉ s_loose s → e ∈ es ↔ s_alive s e ∧ matches (s_row s e) G J X) ∧
    wrote_to G f es s w w' ∧ reachable w' (client_step s (OForEach G J X f) (Ret (RWrote es vs))).
Proof.
  intros Hr Hq. destruct (reach_for_each w s G J X f Hr Hq) as (es & vs & dr & w' & H1 & H2 & H3 & H4).
  exists es, vs, dr, w'. split_and!; try done.
  pose proof (reachable_inv _ _ Hr) as (_ & ds & HI). pose proof (reachable_inv _ _ H4) as (_ & ds' & HI').
  simpl in HI'. simpl in H1. unfold world_for_each in H1.
  destruct (query_for_each w G J X f) as [[[[s1 es'] o] n]| |]; simplify_eq. by eapply inv_wrote.
Qed.

Lemma reach_par_for_each_at w s G J X f :
  agreeing w s → query_ok s G J X →
  ∃ es vs dr w1, step w (OForEach G J X f) = (Ret (RWrote es vs), dr, w1) ∧
    ∀ r, par_for_each w G J X f r →
      ∃ s2 es' dr' vs', r = Ok (s2, es', dr', vs') ∧ es' ≡ₚ es ∧
        wrote_to G f es s w (World (w_ents w) s2) ∧ same_answers w1 (World (w_ents w) s2) ∧
        (s_loose s = ∅ → same_queries w1 (World (w_ents w) s2)) ∧
        vs' ++ contents s ≡ₚ dr' ++ contents (client_step s (OForEach G J X f) (Ret (RWrote es vs))).
Proof.
  intros (_ & ds & HI)%agreeing_inv Hq.
  destruct (par_for_each_at w s ds G J X f HI Hq) as (es & o & n & s1 & ds1 & H1 & H2 & H3 & H4).
  exists es, n, o, (World (w_ents w) s1). split; [by simpl; unfold world_for_each; rewrite H1|].
  intros r Hr. destruct (H4 r Hr) as (s2 & ds2 & es' & o' & n' & -> & Hes & Hst & HI2).
  exists s2, es', o', n'. split_and!; try done.
  - by eapply inv_wrote.
  - by eapply inv_answers.
  - intros Hl. by eapply inv_queries.
  - simpl. by rewrite <-(stored_contents _ _ _ HI), <-(stored_contents _ _ _ HI2).
Qed.
Lemma reach_par_for_each w s G J X f :
  reachable w s → query_ok s G J X →
  ∃ es vs dr w1, step w (OForEach G J X f) = (Ret (RWrote es vs), dr, w1) ∧
    ∀ r, par_for_each w G J X f r →
      ∃ s2 es' dr' vs', r = Ok (s2, es', dr', vs') ∧ es' ≡ₚ es ∧
        wrote_to G f es s w (World (w_ents w) s2) ∧ same_answers w1 (World (w_ents w) s2) ∧
        (s_loose s = ∅ → same_queries w1 (World (w_ents w) s2)) ∧
        vs' ++ contents s ≡ₚ dr' ++ contents (client_step s (OForEach G J X f) (Ret (RWrote es vs))).
Proof. exact (λ Hr, reach_par_for_each_at w s G J X f (reachable_agreeing _ _ Hr)). Qed.

Lemma reach_par_at w s G J X :
  agreeing w s → query_ok s G J X →
  ∃ its, query_all w G J X = Ok its ∧ (∀ t, par_collect w G J X t = Ok its) ∧
    (∀ r, par_produces w G J X r → ∃ its', r = Ok its' ∧ its' ≡ₚ its) ∧
    (par_opt_len w G J X = Ok None ∧ query_is_dense w G J X = Ok false ∨
     par_opt_len w G J X = Ok (Some (length its)) ∧ query_is_dense w G J X = Ok true).
Proof.
  intros (_ & ds & HI)%agreeing_inv Hq. destruct (query_all_at w s ds G J X HI Hq) as (_ & its & _ & H1 & _).
  exists its. destruct (par_items _ _ _ _ _ H1). split_and!; try done. apply par_len; [done|].
  intros lo hi ents g0. destruct HI as [_ HC], Hq as [Hreg Hnc]. unfold query_all_iter.
  destruct (borrow3_ok w ds _ _ _ _ HC G J X) as [[Hn _]|(g & i & x & _ & _ & -> & [G1 G2] & [J1 J2] & [X1 X2])].
  { by destruct Hn. }
  destruct (query_iter_ok _ _ _ _ _ _ HC G J X g i x) as (it & -> & Hit); try done. intros [= ->].
  simpl in Hit. destruct Hit as (_ & P & HD & _). apply HD.
Qed.
Lemma reach_par w s G J X :
  reachable w s → query_ok s G J X →
  ∃ its, query_all w G J X = Ok its ∧ (∀ t, par_collect w G J X t = Ok its) ∧
    (∀ r, par_produces w G J X r → ∃ its', r = Ok its' ∧ its' ≡ₚ its) ∧
    (par_opt_len w G J X = Ok None ∧ query_is_dense w G J X = Ok false ∨
     par_opt_len w G J X = Ok (Some (length its)) ∧ query_is_dense w G J X = Ok true).
Proof. exact (λ Hr, reach_par_at w s G J X (reachable_agreeing _ _ Hr)). Qed.

(** There is always a run. *)
Lemma par_produces_some w G J X : ∃ r, par_produces w G J X r.
Proof.
  unfold par_produces. destruct (query_all_par_iter w G J X) as [p| |]; eauto.
  eexists. exists SLeaf, (piter_work p). split; [apply interleaving_refl|done].
Qed.
