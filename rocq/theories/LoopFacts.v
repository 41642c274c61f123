(** Loops over a query. *)
From Verif Require Import Base Lists SparseVecM EntityM CssM MaskM LayoutM GroupM StorageM WorldM QueryM StepM LoopM
  SparseProofs CssProofs MaskProofs GroupProofs Spec SpecMore SpecQuery SpecWrite SpecLoop EntityProofs LayoutProofs StorageProofs
  StoreOps LayoutOps WorldProofs QueryProofs QueryRange QueryIter ForEachProofs History Lockstep Facts SliceFacts IterFacts WriteFacts.

(** *** Assignments to one entity *)

Lemma after_sets_app a b s : after_sets (a ++ b) s = after_sets b (after_sets a s).
Proof. apply foldl_app. Qed.

Lemma with_map_twice s m m' : with_map (with_map s m) m' = with_map s m'.
Proof. done. Qed.

Lemma alter_same (f : row → row) e (m : gmap entity row) : (∀ r, f r = r) → alter f e m = m.
Proof.
  intros Hf. apply map_eq. intros e'. destruct (decide (e = e')) as [<-|]; [|by rewrite lookup_alter_ne].
  rewrite lookup_alter. destruct (m !! e); simpl; [by rewrite Hf|done].
Qed.

Lemma after_one_set p nv e s : after_sets (one_set p nv e) s = with_map s (alter (assign_one p nv) e (s_map s)).
Proof.
  destruct p as [|t|t|t|t], nv as [v|]; simpl; try done; rewrite alter_same by done; by destruct s.
Qed.

Lemma after_map_sets f seen e q : ∀ k s,
  after_sets (map_sets f seen k q e) s = with_map s (alter (assign f seen k q) e (s_map s)).
Proof.
  induction q as [|p q IH]; intros k s.
  { simpl. rewrite alter_same by done. by destruct s. }
  change (map_sets f seen k (p :: q) e) with (one_set p (f k seen) e ++ map_sets f seen (S k) q e).
  rewrite after_sets_app, after_one_set, IH, with_map_twice. cbn [s_map with_map].
  rewrite <-alter_compose. done.
Qed.

(** One item of a loop. *)
Lemma loop_item w s ds e r f G it :
  reachable w s → winv w s ds → s_map s !! e = Some r →
  Forall (λ p, ∀ t, part_tid p = Some t → is_Some (cs_meta (w_comps w) !! t)) G →
  items_ok (w_comps w) ds (s_map s) e G it →
  let sets := map_sets f (abs_item <$> it) 0 G e in
  ∃ c' ds' n outs, visit (w_comps w) f G it = Ok (c', replaced outs, n) ∧
    run w sets = (outs, World (w_ents w) c') ∧
    reachable (World (w_ents w) c') (after_sets sets s) ∧ winv (World (w_ents w) c') (after_sets sets s) ds' ∧
    cs_meta c' = cs_meta (w_comps w) ∧ shape ds = shape ds' ∧
    (∀ e', e' ≠ e → s_map (after_sets sets s) !! e' = s_map s !! e').
Proof.
  intros Hr HI He Hreg Hit sets. pose proof HI as [HE HC].
  assert (HF : Forall2 (cell_ok (w_comps w) ds e) G it) by (by eapply items_cells).
  destruct (write_items_sets f (abs_item <$> it) e G it w s ds 0 Hr HI HF) as (outs & c' & o & n & Hw & Hrun & -> & -> & Hr').
  destruct (write_items_ok _ _ _ _ _ _ e r f (abs_item <$> it) 0 G it HC He HF) as (c2 & ds2 & o2 & n2 & Hw2 & HC2 & HW2).
  rewrite Hw in Hw2. injection Hw2 as <- <- <-.
  exists c', ds2, (assigned sets outs), outs. subst sets. rewrite after_map_sets.
  split; [done|]. split; [done|]. split; [done|]. split.
  { split; simpl.
    - eapply einv_ext; [..|exact HE]; try done. intros e'. symmetry. apply alive_alter.
    - by rewrite (alter_Some _ _ _ r). }
  split; [apply HW2|]. split; [apply (wr_shape _ _ _ _ _ _ HW2)|].
  intros e' Hne. simpl. by rewrite lookup_alter_ne.
Qed.

Section loop.
  Context {St : Type} (b : body St) (G : query) (s0 : sstate).

  (** The loop [r], started with [st] in [w], is the loop over [es] in [s0]. *)
  Definition does (r : res (loop_end St)) (st : St) (w : world) (s : sstate) (es : list entity) : Prop :=
    ∃ sets st' n fin outs c', loop_sets b st G s0 es = (sets, st', n, fin) ∧ run w sets = (outs, World (w_ents w) c') ∧
      r = Ok (c', st', replaced outs, n, fin) ∧ reachable (World (w_ents w) c') (after_sets sets s) ∧
      ∀ e, e ∉ take n es → s_map (after_sets sets s) !! e = s_map s !! e.

  Lemma does_nil st w s : reachable w s → does (Ok (w_comps w, st, [], 0, true)) st w s [].
  Proof using Type. intros Hr. exists [], st, 0, true, [], (w_comps w). rewrite world_eta. done. Qed.

  Lemma does_cons st w s ds e r it rest es :
    reachable w s → winv w s ds → s_map s !! e = Some r → s_map s0 !! e = Some r →
    Forall (λ p, ∀ t, part_tid p = Some t → is_Some (cs_meta (w_comps w) !! t)) G →
    items_ok (w_comps w) ds (s_map s) e G it →
    (∀ st1 c1 s1 ds1, reachable (World (w_ents w) c1) s1 → winv (World (w_ents w) c1) s1 ds1 →
       cs_meta c1 = cs_meta (w_comps w) → shape ds = shape ds1 → (∀ e', e' ≠ e → s_map s1 !! e' = s_map s !! e') →
       does (rest st1 c1) st1 (World (w_ents w) c1) s1 es) →
    does (body_then b st (w_comps w) G it rest) st w s (e :: es).
  Proof using Type.
    intros Hr HI He He0 Hreg Hit Hrest. pose proof HI as [HE HC].
    assert (sees e (s_row s0 e) G = Some (abs_item <$> it)) as Hsees.
    { pose proof (items_ok_sees _ _ _ _ _ _ HC e G it Hit) as H. unfold row_of in H. rewrite He in H.
      unfold s_row. by rewrite He0. }
    unfold body_then, does. cbn [loop_sets]. rewrite Hsees. cbn [default from_option id].
    destruct (b st (abs_item <$> it)) as [[st1 wr] go].
    destruct (loop_item w s ds e r (λ k _, wr k) G it Hr HI He Hreg Hit)
      as (c1 & ds1 & n1 & outs1 & -> & Hrun1 & Hr1 & HI1 & Hm1 & Hsh1 & Ho1).
    set (sets1 := map_sets _ _ 0 G e) in *. destruct go.
    - destruct (Hrest st1 c1 _ ds1 Hr1 HI1 Hm1 Hsh1 Ho1) as (sets2 & st2 & n2 & fin & outs2 & c2 & -> & Hrun2 & -> & Hr2 & Ho2).
      exists (sets1 ++ sets2), st2, (S n2), fin, (outs1 ++ outs2), c2. split; [done|]. split; [by eapply run_app|].
      split. { unfold replaced. by rewrite omap_app. }
      rewrite after_sets_app. split; [done|]. intros e'. cbn [take]. intros [Hne Hn]%not_elem_of_cons.
      rewrite Ho2 by done. by apply Ho1.
    - exists sets1, st1, 1, false, outs1, c1. split_and!; try done.
      intros e'. cbn [take]. rewrite take_0. intros Hn. apply Ho1. intros ->. apply Hn. by left.
  Qed.

  (** *** The sparse iterators *)

  Context (J X : query).
  Definition selects (r : row) : Prop := has_all r G ∧ has_all r J ∧ excl_none r X.

  Inductive picks (P : entity → Prop) : list entity → list entity → Prop :=
  | picks_nil : picks P [] []
  | picks_skip e l k : ¬ P e → picks P l k → picks P (e :: l) k
  | picks_take e l k : P e → picks P l k → picks P (e :: l) (e :: k).

  Lemma picks_fun P l k : picks P l k → ∀ k', picks P l k' → k = k'.
  Proof using Type. induction 1; intros k'; inversion 1; subst; try done; f_equal; auto. Qed.

  Lemma picks_sound P l k e : picks P l k → e ∈ k ↔ e ∈ l ∧ P e.
  Proof using Type. induction 1; rewrite ?elem_of_nil, ?elem_of_cons in *; naive_solver. Qed.

  Lemma picks_nodup P l k : picks P l k → NoDup l → NoDup k.
  Proof using Type.
    induction 1 as [|e l k Hn Hp IH|e l k Hy Hp IH]; intros Hnd; [done|..]; apply NoDup_cons in Hnd as [H1 H2]; [auto|].
    constructor; [|auto]. rewrite (picks_sound _ _ _ _ Hp). naive_solver.
  Qed.

  (** What the iterators find out about one entity. *)
  Lemma sparse_test w s ds e x i g c0 :
    winv w s ds → cs_meta (w_comps w) = cs_meta c0 →
    Forall2 (view_ok c0) G g → Forall2 (view_ok c0) J i → Forall2 (view_ok c0) X x → is_Some (s_map s !! e) →
    let x := refresh (w_comps w) <$> x in let i := refresh (w_comps w) <$> i in let g := refresh (w_comps w) <$> g in
    Forall2 (view_ok (w_comps w)) G g ∧ Forall2 (view_ok (w_comps w)) J i ∧ Forall2 (view_ok (w_comps w)) X x ∧
    ((¬ selects (s_row s e) ∧
      (contains_none_raw x (e_sparse e) = false ∨
       contains_none_raw x (e_sparse e) = true ∧ contains_all_raw i (e_sparse e) = false ∨
       contains_none_raw x (e_sparse e) = true ∧ contains_all_raw i (e_sparse e) = true ∧ query_get_raw g e = Ok None)) ∨
     ∃ it, selects (s_row s e) ∧ contains_none_raw x (e_sparse e) = true ∧ contains_all_raw i (e_sparse e) = true ∧
       query_get_raw g e = Ok (Some it) ∧ items_ok (w_comps w) ds (s_map s) e G it).
  Proof using Type.
    intros [_ HC] Hm HG HJ HX He x' i' g'.
    pose proof (refresh_all _ _ _ c0 (w_comps w) ds _ _ _ HC Hm HX) as HX'.
    pose proof (refresh_all _ _ _ c0 (w_comps w) ds _ _ _ HC Hm HJ) as HJ'.
    pose proof (refresh_all _ _ _ c0 (w_comps w) ds _ _ _ HC Hm HG) as HG'.
    split; [done|]. split; [done|]. split; [done|].
    pose proof (contains_none_raw_iff _ _ _ _ _ _ HC X _ e He HX') as E1.
    pose proof (contains_all_raw_iff _ _ _ _ _ _ HC J _ e He HJ') as E2. unfold selects.
    change (row_of (s_map s) e) with (s_row s e) in *. fold x' in E1. fold i' in E2.
    destruct (contains_none_raw x' (e_sparse e)) eqn:H1.
    2:{ left. split; [|by left]. intros (_ & _ & H). by apply E1 in H. }
    destruct (contains_all_raw i' (e_sparse e)) eqn:H2.
    2:{ left. split; [|auto]. intros (_ & H & _). by apply E2 in H. }
    destruct (query_get_raw_at _ _ _ _ _ _ HC G _ e He HG') as [[Hn Hq]|(it & Hh & Hq & Hit)]; fold g' in Hq.
    - left. split; [|auto]. intros (H & _). by apply Hn.
    - right. exists it. split_and!; try done; [by apply E2|by apply E1].
  Qed.

  Lemma sparse_each_does : ∀ ents st w s ds x i g c0,
    reachable w s → winv w s ds → cs_meta (w_comps w) = cs_meta c0 →
    Forall2 (view_ok c0) G g → Forall2 (view_ok c0) J i → Forall2 (view_ok c0) X x →
    NoDup ents → (∀ e, e ∈ ents → is_Some (s_map s !! e) ∧ s_map s !! e = s_map s0 !! e) →
    ∃ es, picks (λ e, selects (s_row s0 e)) ents es ∧ does (sparse_each b st (w_comps w) G ents x i g) st w s es.
  Proof using Type.
    induction ents as [|e ents IH]; intros st w s ds x i g c0 Hr HI Hm HG HJ HX Hnd Hal.
    { exists []. split; [constructor|]. by apply does_nil. }
    apply NoDup_cons in Hnd as [Hne Hnd]. destruct (Hal e) as [[r He] He0]; [by left|].
    destruct (sparse_test w s ds e x i g c0 HI Hm HG HJ HX) as (HG' & HJ' & HX' & Hcase); [eauto|].
    assert (s_row s e = s_row s0 e) as Hrow by (unfold s_row; by rewrite He0). rewrite Hrow in Hcase.
    destruct Hcase as [(Hn & Hc)|(it & Hy & H1 & H2 & H3 & Hit)].
    - destruct (IH st w s ds x i g c0 Hr HI Hm HG HJ HX Hnd) as (es & Hp & Hd); [intros; apply Hal; by right|].
      exists es. split; [by constructor|]. cbn [sparse_each].
      destruct Hc as [->|[[-> ->]|(-> & -> & ->)]]; done.
    - assert (∃ es, picks (λ e, selects (s_row s0 e)) ents es ∧ ∀ st1 c1 s1 ds1,
        reachable (World (w_ents w) c1) s1 → winv (World (w_ents w) c1) s1 ds1 →
        cs_meta c1 = cs_meta (w_comps w) → (∀ e', e' ≠ e → s_map s1 !! e' = s_map s !! e') →
        does (sparse_each b st1 c1 G ents x i g) st1 (World (w_ents w) c1) s1 es) as (es & Hp & Hrest).
      { destruct (IH st w s ds x i g c0 Hr HI Hm HG HJ HX Hnd) as (es & Hp & _); [intros; apply Hal; by right|].
        exists es. split; [done|]. intros st1 c1 s1 ds1 Hr1 HI1 Hm1 Ho1.
        destruct (IH st1 (World (w_ents w) c1) s1 ds1 x i g c0 Hr1 HI1) as (es' & Hp' & Hd); try done; [by rewrite <-Hm| |].
        - intros e' He'. rewrite Ho1 by (by intros ->). apply Hal. by right.
        - by rewrite (picks_fun _ _ _ Hp _ Hp'). }
      exists (e :: es). split; [by constructor|]. cbn [sparse_each]. rewrite H1, H2, H3. cbn [negb].
      eapply does_cons; try done; [by rewrite <-He0|by eapply views_types|].
      intros st1 c1 s1 ds1 Hr1 HI1 Hm1 _ Ho1. by eapply Hrest.
  Qed.

  Lemma sparse_next_does : ∀ ents fuel st w s ds x i g c0, length ents < fuel →
    reachable w s → winv w s ds → cs_meta (w_comps w) = cs_meta c0 →
    Forall2 (view_ok c0) G g → Forall2 (view_ok c0) J i → Forall2 (view_ok c0) X x →
    NoDup ents → (∀ e, e ∈ ents → is_Some (s_map s !! e) ∧ s_map s !! e = s_map s0 !! e) →
    ∃ es, picks (λ e, selects (s_row s0 e)) ents es ∧
      does (next_loop fuel b st (w_comps w) G (ISparse ents x i g)) st w s es.
  Proof using Type.
    induction ents as [|e ents IH]; intros [|fuel] st w s ds x i g c0 Hf Hr HI Hm HG HJ HX Hnd Hal; simpl in Hf; try lia.
    { exists []. split; [constructor|]. by apply does_nil. }
    apply NoDup_cons in Hnd as [Hne Hnd]. destruct (Hal e) as [[r He] He0]; [by left|].
    destruct (sparse_test w s ds e x i g c0 HI Hm HG HJ HX) as (HG' & HJ' & HX' & Hcase); [eauto|].
    assert (s_row s e = s_row s0 e) as Hrow by (unfold s_row; by rewrite He0). rewrite Hrow in Hcase.
    destruct Hcase as [(Hn & Hc)|(it & Hy & H1 & H2 & H3 & Hit)].
    - destruct (IH (S fuel) st w s ds x i g c0) as (es & Hp & Hd); try done; [simpl; lia|intros; apply Hal; by right|].
      exists es. split; [by constructor|]. cbn [next_loop iter_refresh iter_next sparse_next] in *.
      destruct Hc as [->|[[-> ->]|(-> & -> & ->)]]; done.
    - assert (∃ es, picks (λ e, selects (s_row s0 e)) ents es ∧ ∀ st1 c1 s1 ds1,
        reachable (World (w_ents w) c1) s1 → winv (World (w_ents w) c1) s1 ds1 →
        cs_meta c1 = cs_meta (w_comps w) → (∀ e', e' ≠ e → s_map s1 !! e' = s_map s !! e') →
        does (next_loop fuel b st1 c1 G (ISparse ents (refresh (w_comps w) <$> x) (refresh (w_comps w) <$> i) (refresh (w_comps w) <$> g)))
             st1 (World (w_ents w) c1) s1 es) as (es & Hp & Hrest).
      { destruct (sparse_each_does ents st w s ds x i g c0 Hr HI Hm HG HJ HX Hnd) as (es & Hp & _); [intros; apply Hal; by right|].
        exists es. split; [done|]. intros st1 c1 s1 ds1 Hr1 HI1 Hm1 Ho1.
        destruct (IH fuel st1 (World (w_ents w) c1) s1 ds1 (refresh (w_comps w) <$> x) (refresh (w_comps w) <$> i) (refresh (w_comps w) <$> g)
          (w_comps w)) as (es' & Hp' & Hd); try done; [lia| |].
        - intros e' He'. rewrite Ho1 by (by intros ->). apply Hal. by right.
        - by rewrite (picks_fun _ _ _ Hp _ Hp'). }
      exists (e :: es). split; [by constructor|].
      cbn [next_loop iter_refresh iter_next sparse_next]. rewrite H1, H2, H3. cbn [negb].
      eapply does_cons; try done; [by rewrite <-He0|by eapply views_types|].
      intros st1 c1 s1 ds1 Hr1 HI1 Hm1 _ Ho1. by eapply Hrest.
  Qed.

  (** The items themselves. *)
  Lemma sparse_fold_picks s ds am reg grp loose g i x ents :
    cinv s ds am reg grp loose → Forall2 (view_ok s) G g → Forall2 (view_ok s) J i → Forall2 (view_ok s) X x →
    (∀ e, e ∈ ents → is_Some (am !! e)) →
    ∃ es its, picks (λ e, selects (row_of am e)) ents es ∧ sparse_fold ents x i g = Ok its ∧
      Forall2 (λ e it, items_ok s ds am e G it) es its.
  Proof using Type.
    intros HI HG HJ HX. induction ents as [|e ents IH]; intros Hal; simpl.
    { exists [], []. split; [constructor|]. split; [done|constructor]. }
    destruct IH as (es & its & Hp & Hf & HF); [intros; apply Hal; by right|].
    assert (He : is_Some (am !! e)) by (apply Hal; by left). rewrite Hf.
    assert (Hskip : ¬ selects (row_of am e) → ∃ es its', picks (λ e, selects (row_of am e)) (e :: ents) es ∧ Ok its = Ok its' ∧
      Forall2 (λ e it, items_ok s ds am e G it) es its').
    { intros Hn. exists es, its. split_and!; try done. by constructor. }
    destruct (contains_none_raw x (e_sparse e)) eqn:E1; simpl.
    2:{ apply Hskip. intros (_ & _ & Hx). apply (contains_none_raw_iff _ _ _ _ _ _ HI X x e He HX) in Hx. congruence. }
    destruct (contains_all_raw i (e_sparse e)) eqn:E2; simpl.
    2:{ apply Hskip. intros (_ & Hx & _). apply (contains_all_raw_iff _ _ _ _ _ _ HI J i e He HJ) in Hx. congruence. }
    apply (contains_none_raw_iff _ _ _ _ _ _ HI X x e He HX) in E1.
    apply (contains_all_raw_iff _ _ _ _ _ _ HI J i e He HJ) in E2.
    destruct (query_get_raw_at _ _ _ _ _ _ HI G g e He HG) as [[Hn ->]|(it & Hh & -> & Hit)].
    { apply Hskip. intros (H & _). by apply Hn. }
    exists (e :: es), (it :: its). split_and!; try done; by constructor.
  Qed.

  (** *** The dense iterators *)

  Definition prefixed (w : world) (ds : list dense) (hi : nat) (P : list entity) : Prop :=
    ∀ t, t ∈ required G → ∃ m d, cs_meta (w_comps w) !! t = Some m ∧ ds !! m_index m = Some d ∧ take hi d.*1 = P.

  Lemma prefixed_shape w c ds ds' hi P :
    cs_meta c = cs_meta (w_comps w) → shape ds = shape ds' → prefixed w ds hi P → prefixed (World (w_ents w) c) ds' hi P.
  Proof using Type.
    intros Hm Hs Hp t Ht. destruct (Hp t Ht) as (m & d & H1 & H2 & H3).
    destruct (shape_lookup _ _ _ _ Hs H2) as (d' & H4 & H5). exists m, d'. simpl. by rewrite Hm, H5.
  Qed.

  Lemma dense_test w s ds e k hi ents P g c0 :
    winv w s ds → cs_meta (w_comps w) = cs_meta c0 → Forall2 (view_ok c0) G g → is_Some (s_map s !! e) →
    take hi ents = P → prefixed w ds hi P → P !! k = Some e →
    ents !! k = Some e ∧ Forall2 (view_ok (w_comps w)) G (refresh (w_comps w) <$> g) ∧
    ∃ it, query_get_dense (refresh (w_comps w) <$> g) k e = Ok it ∧ items_ok (w_comps w) ds (s_map s) e G it.
  Proof using Type.
    intros [_ HC] Hm HG He Hp Hpre Hk. pose proof Hk as Hk'. rewrite <-Hp in Hk'. apply lookup_take_Some in Hk' as [Hk' _].
    split; [done|]. pose proof (refresh_all _ _ _ c0 (w_comps w) ds _ _ _ HC Hm HG) as HG'. split; [done|].
    apply (query_get_dense_at _ _ _ _ _ _ HC G _ k e He HG').
    intros t Ht. destruct (Hpre t Ht) as (m & d & Hmt & Hd & Hpd). rewrite <-Hpd in Hk.
    apply lookup_take_Some in Hk as [Hk _]. apply dense_fst_lookup in Hk as [y Hy]. exists y, m, d. done.
  Qed.

  Lemma dense_each_does ents P hi : take hi ents = P → ∀ ks es st w s ds g c0,
    Forall2 (λ k e, P !! k = Some e) ks es →
    reachable w s → winv w s ds → cs_meta (w_comps w) = cs_meta c0 → Forall2 (view_ok c0) G g → prefixed w ds hi P →
    NoDup es → (∀ e, e ∈ es → is_Some (s_map s !! e) ∧ s_map s !! e = s_map s0 !! e) →
    does (dense_each b st (w_comps w) G ks ents g) st w s es.
  Proof using Type.
    intros Hp. induction ks as [|k ks IH]; intros es st w s ds g c0 HF Hr HI Hm HG Hpre Hnd Hal;
      inversion HF as [|? e ? es' Hk HF']; subst es.
    { by apply does_nil. }
    apply NoDup_cons in Hnd as [Hne Hnd]. destruct (Hal e) as [[r He] He0]; [by left|].
    destruct (dense_test w s ds e k hi ents P g c0 HI Hm HG) as (Hek & HG' & it & Hq & Hit); try done.
    cbn [dense_each]. rewrite Hek, Hq.
    eapply does_cons; try done; [by rewrite <-He0|by eapply views_types|].
    intros st1 c1 s1 ds1 Hr1 HI1 Hm1 Hsh1 Ho1.
    apply (IH es' st1 (World (w_ents w) c1) s1 ds1 g c0); try done; [simpl; congruence|by eapply prefixed_shape|].
    intros e' He'. rewrite Ho1 by (by intros ->). apply Hal. by right.
  Qed.

  Lemma dense_next_does ents P hi : take hi ents = P → length P = hi → ∀ fuel lo es st w s ds g c0,
    hi - lo < fuel → es = drop lo P →
    reachable w s → winv w s ds → cs_meta (w_comps w) = cs_meta c0 → Forall2 (view_ok c0) G g → prefixed w ds hi P →
    NoDup es → (∀ e, e ∈ es → is_Some (s_map s !! e) ∧ s_map s !! e = s_map s0 !! e) →
    does (next_loop fuel b st (w_comps w) G (IDense lo hi ents g)) st w s es.
  Proof using Type.
    intros Hp Hl. induction fuel as [|fuel IH]; intros lo es st w s ds g c0 Hf Hes Hr HI Hm HG Hpre Hnd Hal; [lia|].
    cbn [next_loop iter_refresh iter_next]. unfold dense_next. destruct (Nat.ltb_spec lo hi) as [Hlt|Hge].
    - destruct (lookup_lt_is_Some_2 P lo) as [e Hk]; [lia|].
      rewrite (drop_S _ _ _ Hk) in Hes. subst es.
      apply NoDup_cons in Hnd as [Hne Hnd]. destruct (Hal e) as [[r He] He0]; [by left|].
      destruct (dense_test w s ds e lo hi ents P g c0 HI Hm HG) as (Hek & HG' & it & Hq & Hit); try done.
      rewrite Hek, Hq. eapply does_cons; try done; [by rewrite <-He0|by eapply views_types|].
      intros st1 c1 s1 ds1 Hr1 HI1 Hm1 Hsh1 Ho1.
      apply (IH (S lo) _ st1 (World (w_ents w) c1) s1 ds1 _ (w_comps w)); try done; [lia|by eapply prefixed_shape|].
      intros e' He'. rewrite Ho1 by (by intros ->). apply Hal. by right.
    - rewrite drop_ge in Hes by lia. subst es. by apply does_nil.
  Qed.
End loop.

Lemma loop_sets_count {St} (b : body St) G s es : ∀ st sets st' n fin,
  loop_sets b st G s es = (sets, st', n, fin) → n ≤ length es ∧ (fin = true → n = length es) ∧ (fin = false → 0 < n).
Proof.
  induction es as [|e es IH]; intros st sets st' n fin; cbn [loop_sets]; [by intros [= <- <- <- <-]|].
  destruct (b st _) as [[st1 wr] go]. destruct go; [|intros [= <- <- <- <-]; simpl; split_and!; (done || lia)].
  destruct (loop_sets b st1 G s es) as [[[sets1 st2] n1] fin1] eqn:E. intros [= <- <- <- <-].
  destruct (IH _ _ _ _ _ E) as (H1 & H2 & H3). simpl. split_and!; [lia|intros; f_equal; auto|lia].
Qed.

Lemma reach_loop w s G J X : reachable w s → query_ok s G J X →
  ∃ es its, query_all w G J X = Ok its ∧ NoDup es ∧ answers s G es its ∧
    (plain G J X → simple_exclude s X → ∀ e, e ∉ s_loose s → e ∈ es ↔ s_alive s e ∧ matches (s_row s e) G J X) ∧
    ∀ St (b : body St) st each, ∃ sets st' n fin outs w',
      loop_sets b st G s es = (sets, st', n, fin) ∧ run w sets = (outs, w') ∧
      world_loop each w G J X b st = Ok (w', st', replaced outs, n, fin) ∧
      reachable w' (after_sets sets s) ∧ (fin = true → n = length its) ∧
      ∀ e, e ∉ take n es → s_row (after_sets sets s) e = s_row s e.
Proof.
  intros Hr [Hreg Hnc]. destruct (reachable_inv _ _ Hr) as (_ & ds & HI). pose proof HI as [HE HC].
  destruct (borrow3_ok w ds _ _ _ _ HC G J X) as [[Hn _]|(g & i & x & _ & _ & Hb & [G1 G2] & [J1 J2] & [X1 X2])].
  { by destruct Hn. }
  destruct (query_iter_ok _ _ _ _ _ _ HC G J X g i x) as (it & Hq & Hit); try done.
  assert (∃ es its, iter_fold it = Ok its ∧ Forall2 (λ e it, items_ok (w_comps w) ds (s_map s) e G it) es its ∧
    visits (s_map s) (s_grouped s) (s_loose s) G J X (iter_dense it) es ∧
    ∀ St (b : body St) st each, does b G s (iter_loop each b st (w_comps w) G it) st w s es)
    as (es & its & Hf & HF & HV & Hdo).
  { destruct it as [ents x' i' g'|lo hi ents g']; simpl in Hit.
    - destruct Hit as (-> & -> & -> & Hents).
      assert (NoDup ents) as Hnd.
      { destruct Hents as [[_ ->]|Hs]; [constructor|]. by eapply (slice_of_nodup _ _ _ _ _ _ HC). }
      assert (∀ e, e ∈ ents → is_Some (s_map s !! e)) as Hal.
      { intros e He. destruct Hents as [[_ ->]|Hs]; [by apply elem_of_nil in He|]. by eapply (slice_of_alive _ _ _ _ _ _ HC). }
      destruct (sparse_fold_picks G J X _ _ _ _ _ _ g i x ents HC G1 J1 X1 Hal) as (es & its & Hp & Hf & HF).
      exists es, its. split; [done|]. split; [done|]. split.
      { eapply (sparse_visits _ _ _ _ _ _ HC); [done|by eapply picks_nodup|]. intros e. apply (picks_sound _ _ _ e Hp). }
      intros St b st each.
      assert (∀ e, e ∈ ents → is_Some (s_map s !! e) ∧ s_map s !! e = s_map s !! e) as Hal' by (intros; split; auto).
      destruct each; simpl.
      + destruct (sparse_each_does b G s J X ents st w s ds x i g (w_comps w) Hr HI eq_refl G1 J1 X1 Hnd Hal') as (es' & Hp' & Hd).
        by rewrite (picks_fun _ _ _ Hp _ Hp').
      + destruct (sparse_next_does b G s J X ents (S (length ents)) st w s ds x i g (w_comps w)) as (es' & Hp' & Hd); try done; [lia|].
        by rewrite (picks_fun _ _ _ Hp _ Hp').
    - destruct Hit as (-> & P & HD & Hp & _).
      destruct (dense_fold_ok _ _ _ _ _ _ HC G g _ _ lo hi P ents HD) as (its & Hf & HF); try done.
      { rewrite required_app. set_solver. }
      exists (drop lo P), its. split; [done|]. split; [done|].
      pose proof (dense_visits _ _ _ _ _ _ HC G J X lo hi P HD) as HV. split; [done|].
      assert (∀ e, e ∈ drop lo P → is_Some (s_map s !! e) ∧ s_map s !! e = s_map s !! e) as Hal.
      { intros e He. split; [|done]. by apply (vs_sound _ _ _ _ _ _ _ _ HV). }
      assert (prefixed G w ds hi P) as Hpre.
      { intros t Ht. apply (dr_pre _ _ _ _ _ _ _ _ _ _ HD). rewrite required_app, elem_of_app. auto. }
      intros St b st each. destruct each; [|change (does b G s (next_loop (iter_calls (IDense lo hi ents g)) b st (w_comps w) G (IDense lo hi ents g)) st w s (drop lo P))].
      + eapply (dense_each_does b G s ents P hi Hp); try done; [|apply HV].
        apply seq_drop; [apply HD|apply (dr_len _ _ _ _ _ _ _ _ _ _ HD)].
      + eapply (dense_next_does b G s ents P hi Hp); try done; [apply (dr_len _ _ _ _ _ _ _ _ _ _ HD)|cbn [iter_calls]; lia|apply HV]. }
  exists es, its. unfold query_all. rewrite Hb, Hq. split; [done|]. split; [apply HV|].
  assert (answers s G es its) as Hans by (by eapply items_answers).
  split; [done|]. split; [intros; by eapply visits_exact|].
  intros St b st each. destruct (Hdo St b st each) as (sets & st' & n & fin & outs & c' & H1 & H2 & H3 & H4 & H5).
  exists sets, st', n, fin, outs, (World (w_ents w) c'). split; [done|]. split; [done|]. split.
  { unfold world_loop. by rewrite Hb, Hq, H3. }
  split; [done|]. split.
  { rewrite <-(Forall2_length _ _ _ Hans). by apply (loop_sets_count _ _ _ _ _ _ _ _ _ H1). }
  intros e He. unfold s_row. by rewrite H5.
Qed.

Lemma reach_loop_panics {St} w s G J X (b : body St) st each :
  reachable w s → ¬ query_ok s G J X → world_loop each w G J X b st = Panic.
Proof.
  intros (_ & ds & [_ HC])%reachable_inv Hn. unfold world_loop.
  destruct (borrow3_ok w ds _ _ _ _ HC G J X) as [[_ ->]|(g & i & x & H1 & H2 & _)]; [done|].
  destruct Hn. by split.
Qed.

(** [for_each] with a closure without state that never leaves. *)
Definition plain_body (f : writer) : body unit := λ _ seen, (tt, λ k, f k seen, true).

Lemma write_items_const f seen q : ∀ k its s, write_items s (λ k _, f k seen) seen k q its = write_items s f seen k q its.
Proof.
  induction q as [|p q IH]; intros k its s'; [done|]. destruct its as [|it its]; [done|]. cbn [write_items].
  destruct (write_one s' p it (f k seen)) as [[[s1 o1] n1]| |]; [|done|done]. by rewrite IH.
Qed.

Lemma plain_then f st s G it rest :
  body_then (plain_body f) st s G it rest =
  match visit s f G it with
  | Ok (s1, o1, _) => match rest tt s1 with
                      | Ok (s2, st2, o2, n, fin) => Ok (s2, st2, o1 ++ o2, S n, fin)
                      | Panic => Panic | UB => UB
                      end
  | Panic => Panic | UB => UB
  end.
Proof. unfold body_then, visit. cbn [plain_body]. by rewrite write_items_const. Qed.

Definition each_end (r : res (cstore * list entity * list val * list val)) : res (loop_end unit) :=
  match r with Ok (s, es, o, _) => Ok (s, tt, o, length es, true) | Panic => Panic | UB => UB end.

Lemma sparse_each_plain f G x i g : ∀ ents s st,
  sparse_each (plain_body f) st s G ents x i g = each_end (sparse_for_each s f G ents x i g).
Proof.
  induction ents as [|e ents IH]; intros s []; [done|]. cbn [sparse_each sparse_for_each].
  destruct (negb _); [done|]. destruct (negb _); [done|].
  destruct (query_get_raw _ e) as [[it|]| |]; try done. rewrite plain_then.
  destruct (visit s f G it) as [[[s1 o1] n1]| |]; try done. rewrite IH.
  by destruct (sparse_for_each s1 f G ents x i g) as [[[[s2 es] o2] n2]| |].
Qed.

Lemma dense_each_plain f G ents g : ∀ ks s st,
  dense_each (plain_body f) st s G ks ents g = each_end (dense_for_each s f G ks ents g).
Proof.
  induction ks as [|k ks IH]; intros s []; [done|]. cbn [dense_each dense_for_each].
  destruct (ents !! k) as [e|]; [|done].
  destruct (query_get_dense _ k e) as [it| |]; try done. rewrite plain_then.
  destruct (visit s f G it) as [[[s1 o1] n1]| |]; try done. rewrite IH.
  by destruct (dense_for_each s1 f G ks ents g) as [[[[s2 es] o2] n2]| |].
Qed.

Lemma loop_plain w G J X f :
  step w (OForEach G J X f) =
  match query_for_each w G J X f with
  | Ok (c, es, o, n) => (Ret (RWrote es n), o, World (w_ents w) c)
  | Panic => (Panicked [], [], w)
  | UB => (UndefBeh [], [], w)
  end ∧
  world_loop true w G J X (plain_body f) tt =
  match query_for_each w G J X f with
  | Ok (c, es, o, n) => Ok (World (w_ents w) c, tt, o, length es, true)
  | Panic => Panic
  | UB => UB
  end.
Proof.
  split; [simpl; unfold world_for_each; by destruct (query_for_each w G J X f) as [[[[]]]| |]|].
  unfold world_loop, query_for_each. destruct (borrow3 w G J X) as [[[g i] x]| |]; try done.
  destruct (query_iter (w_comps w) g i x) as [[ents x' i' g'|lo hi ents g']| |]; try done; simpl.
  - rewrite sparse_each_plain. by destruct (sparse_for_each _ _ _ _ _ _ _) as [[[[]]]| |].
  - rewrite dense_each_plain. by destruct (dense_for_each _ _ _ _ _ _) as [[[[]]]| |].
Qed.
