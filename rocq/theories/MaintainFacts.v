(** What [maintain] does when entities created since the last one were destroyed. *)
From Verif Require Import Base Lists SparseVecM EntityM CssM MaskM LayoutM GroupM StorageM WorldM QueryM StepM
  SparseProofs Spec SpecMore EntityProofs EntityRun EntityHistory SpecListing ListingFacts SpecMaintain.

(** ** The order of the handles to be added *)

(** Of two handles with the same index the later in the list is older. *)
Definition desc (l : list entity) : Prop :=
  ∀ j k e f, j < k → l !! j = Some e → l !! k = Some f → e_index e = e_index f → (e_version f < e_version e)%N.

Lemma desc_nil : desc [].
Proof. intros j k e f _ H. by rewrite lookup_nil in H. Qed.

Lemma desc_cons x l :
  desc (x :: l) ↔ (∀ f, f ∈ l → e_index x = e_index f → (e_version f < e_version x)%N) ∧ desc l.
Proof.
  split.
  - intros H. split.
    + intros f [k Hk]%elem_of_list_lookup. apply (H 0 (S k)); simpl; [lia|done..].
    + intros j k e f Hjk Hj Hk. apply (H (S j) (S k)); [lia|done..].
  - intros [H1 H2] [|j] [|k] e f Hjk Hj Hk Heq; simpl in *; try lia.
    + injection Hj as ->. apply H1; [by eapply elem_of_list_lookup_2|done].
    + apply (H2 j k e f); [lia|done..].
Qed.

Lemma desc_app l1 l2 :
  desc (l1 ++ l2) ↔ desc l1 ∧ desc l2 ∧
    (∀ e f, e ∈ l1 → f ∈ l2 → e_index e = e_index f → (e_version f < e_version e)%N).
Proof.
  induction l1 as [|x l1 IH]; simpl.
  - split; [|tauto]. intros H. split_and!; [apply desc_nil|done|]. by intros e f ?%elem_of_nil.
  - rewrite !desc_cons, IH. split.
    + intros (H1 & H2 & H3 & H4). split_and!; try done.
      * intros f Hf. apply H1. set_solver.
      * intros e f [->|He]%elem_of_cons Hf; [apply H1; set_solver|by apply H4].
    + intros ((H1 & H2) & H3 & H4). split_and!; try done.
      * intros f [Hf|Hf]%elem_of_app; [by apply H1|]. apply H4; set_solver.
      * intros e f He. apply H4. set_solver.
Qed.

(** The recycled handles are newer than the first version of their index. *)
Definition ordered (a : allocator) : Prop :=
  desc (a_recycled a) ∧ Forall (λ e, version_first < e_version e)%N (a_recycled a).

Lemma desc_range lo hi : (hi ≤ u32_lim)%N → desc ((λ i, with_index (as_u32 i)) <$> N_range lo hi).
Proof.
  intros Hhi j k e f Hjk Hj Hk Heq. exfalso. unfold N_range in *.
  rewrite <-list_fmap_compose, list_lookup_fmap in Hj, Hk.
  destruct (seq 0 _ !! j) as [x|] eqn:Ex; [|done]. destruct (seq 0 _ !! k) as [y|] eqn:Ey; [|done].
  apply lookup_seq in Ex as [-> Hx]. apply lookup_seq in Ey as [-> Hy]. simpl in *. simplify_eq. simpl in Heq.
  rewrite !as_u32_small in Heq by lia. lia.
Qed.

Lemma pending_desc a : ordered a → (a_next a ≤ u32_lim)%N → desc (pending a).
Proof.
  intros [Hd Hv] Hn. unfold pending. apply desc_app.
  rewrite <-(take_drop (length (a_recycled a) - a_rsm a) (a_recycled a)) in Hd, Hv.
  apply desc_app in Hd as (_ & Hd & _). apply Forall_app in Hv as [_ Hv].
  split_and!; [done|by apply desc_range|].
  intros e f He (i & -> & _)%elem_of_list_fmap _. rewrite Forall_forall in Hv. apply (Hv e He).
Qed.

Lemma ordered_allocate a r a' : ordered a → allocate a = Ok (r, a') → ordered a'.
Proof.
  unfold allocate. intros Ho. destruct (_ <? _).
  - destruct (_ !! _); [|done]. by intros [= <- <-].
  - destruct (_ <? _)%N; by intros [= <- <-].
Qed.

Lemma ordered_create st st' e : ordered (st_alloc st) → estore_create st = Ok (e, st') → ordered (st_alloc st').
Proof.
  unfold estore_create. intros Ho H. destruct (allocate (st_alloc st)) as [[[e'|] a']| |] eqn:E; simpl in H; try done.
  destruct (eset_insert (st_set st) e'); simpl in H; simplify_eq. simpl. by eapply ordered_allocate.
Qed.

Lemma ordered_create_n n : ∀ st es st', ordered (st_alloc st) → create_n st n = Ok (es, st') → ordered (st_alloc st').
Proof.
  induction n as [|n IH]; intros st es st' Ho H; simpl in H; [by simplify_eq|].
  destruct (estore_create st) as [[e st1]| |] eqn:E; [|by simplify_eq|done].
  destruct (create_n st1 n) as [[es1 st2]| |] eqn:Ec; simplify_eq.
  eapply IH; [|exact Ec]. by eapply ordered_create.
Qed.

Lemma ordered_take a n m k : ordered a → ordered (Alloc n m (take k (a_recycled a)) 0).
Proof.
  intros [Hd Hv]. rewrite <-(take_drop k (a_recycled a)) in Hd, Hv.
  apply desc_app in Hd as (? & _). apply Forall_app in Hv as [? _]. done.
Qed.

Lemma ordered_recycle st s e : einv st s → s_alive s e → ordered (st_alloc st) → ordered (recycle (st_alloc st) e).
Proof.
  intros HE Ha [Hd Hv]. pose proof (ei_alloc _ _ HE) as HA.
  unfold recycle, version_next. destruct (_ <? _)%N; [|done]. split; simpl.
  - apply desc_cons. split; [|done]. simpl. intros f Hf Heq.
    rewrite <-(take_drop (length (a_recycled (st_alloc st)) - a_rsm (st_alloc st)) (a_recycled (st_alloc st))) in Hf.
    apply (ei_dom _ _ HE) in Ha.
    apply elem_of_app in Hf as [Hf|Hf].
    + exfalso. eapply (ai_free_new _ _ _ _ _ _ HA e f); [by left|by apply (ai_avail _ _ _ _ _ _ HA)|done].
    + assert (f ∈ s_issued s) as Hi.
      { eapply pending_issued; [done|]. unfold pending. apply elem_of_app. by left. }
      pose proof (ai_version _ _ _ _ _ _ HA e f (or_introl Ha) Hi Heq). lia.
  - constructor; [|done]. simpl. destruct (einv_valid _ _ _ HE Ha) as [[_ [Hv1 _]] _].
    unfold version_first in *. lia.
Qed.

Lemma step_ordered w s o out dr w' :
  einv (w_ents w) s → ordered (st_alloc (w_ents w)) → step w o = (out, dr, w') → tidy_side s o out →
  ordered (st_alloc (w_ents w')).
Proof.
  intros HE HO Hstep [Htidy Hub]. pose proof (step_ent_effect _ _ _ _ _ _ HE Hstep Hub) as Heff.
  pose proof (ei_alloc _ _ HE) as HA.
  destruct o as [cs|ts rows q|e| | |e cs|e ts|e ts| | |t|ly perm|t e v|G J X f]; cbn [ent_effect] in *;
    try (injection Heff as _ Hw; by rewrite <-Hw).
  - destruct (estore_create (w_ents w)) as [[e st1]| |] eqn:E; [| |done]; injection Heff as Hr Hw; symmetry in Hr, Hw; rewrite Hw.
    + by eapply ordered_create.
    + done.
  - destruct (forallb _ ts).
    + by eapply ordered_create_n.
    + injection Heff as Hr Hw; symmetry in Hr, Hw. by rewrite Hw.
  - destruct (decide (s_alive s e)) as [Ha|Hd].
    + pose proof Ha as Hin. apply (ei_dom _ _ HE), elem_of_list_lookup in Hin as [i Hi].
      unfold estore_remove in Heff.
      destruct (eset_remove_present _ i e (ei_set _ _ HE) Hi) as (es' & Hr & _ & Hes). rewrite Hr in Heff. simpl in Heff.
      injection Heff as _ Hw. rewrite <-Hw. simpl. by eapply ordered_recycle.
    + rewrite (estore_remove_dead _ _ e HE Hd) in Heff. injection Heff as _ Hw. by rewrite <-Hw.
  - unfold estore_create_atomic in Heff. rewrite (allocate_atomic_eq _ _ _ _ _ _ HA) in Heff.
    destruct (allocate (st_alloc (w_ents w))) as [[[e|] a']| |] eqn:E; simpl in Heff; try done;
      injection Heff as Hr Hw; symmetry in Hr, Hw; rewrite Hw; try done.
    simpl. by eapply ordered_allocate.
  - destruct (estore_maintain_ok _ _ HE (Htidy eq_refl)) as (st' & Hm & _). rewrite Hm in Heff.
    injection Heff as Hr Hw. rewrite <-Hw. unfold estore_maintain, alloc_maintain in Hm.
    rewrite (proj2 (Nat.leb_le _ _) (ai_rsm _ _ _ _ _ _ HA)) in Hm. simpl in Hm.
    destruct (eset_insert_all _ _) as [es| |]; simpl in Hm; try done. injection Hm as <-. by apply ordered_take.
  - unfold estore_clear, alloc_maintain in Heff.
    rewrite (proj2 (Nat.leb_le _ _) (ai_rsm _ _ _ _ _ _ HA)) in Heff. simpl in Heff.
    injection Heff as Hr Hw. rewrite <-Hw. by apply ordered_take.
  - injection Heff as Hr Hw. rewrite <-Hw. split; [apply desc_nil|constructor].
Qed.

Lemma tidy_ordered evs w s : tidy_history evs w s → ordered (st_alloc (w_ents w)).
Proof.
  intros (w0 & s0 & Hb & Hh). pose proof (built_einv _ _ Hb) as HE0.
  induction Hh as [|evs w1 s1 o out dr w2 Hh IH Hop Hstep Hside].
  - destruct Hb as (gs & l & ts & _ & Hb & ->). unfold builder_build, world_new in Hb.
    destruct (set_layout cstore_new l [] []); simplify_eq. split; [apply desc_nil|constructor].
  - eapply step_ordered; [|exact IH|exact Hstep|exact Hside]. by eapply history_einv.
Qed.

(** ** Inserting over other handles *)

(** The slots belong to the handles [K]; the dense list holds others of the same indices. *)
Definition loose (s : eset) (K : list entity) : Prop :=
  sparse_ok (es_sparse s) K ∧ small K ∧ e_index <$> K = e_index <$> es_ents s.

Lemma loose_length s K : loose s K → length K = length (es_ents s).
Proof. intros (_ & _ & H). rewrite <-(fmap_length e_index K), H. apply fmap_length. Qed.

Lemma loose_insert s K e : loose s K → (e_index e < u32_lim)%N →
  ∃ s' K', eset_insert s e = Ok s' ∧ loose s' K' ∧
    (∀ x, x ∈ K' ↔ x ∈ K ∨ x = e ∧ fresh_index e K) ∧
    (∀ x, x ∈ es_ents s' ↔ x = e ∨ x ∈ es_ents s ∧ e_index x ≠ e_index e).
Proof.
  intros HL He. pose proof (loose_length _ _ HL) as Hlen. destruct HL as (Hok & Hs & Hi). unfold eset_insert.
  pose proof (sparse_ok_allocate _ _ (e_sparse e) Hok) as Hok'.
  pose proof (sv_allocate_at_length (es_sparse s) (e_sparse e)) as Hla.
  assert (Hnd : NoDup (e_index <$> es_ents s)).
  { rewrite <-Hi. apply NoDup_alt. intros i j x Hx Hy. rewrite list_lookup_fmap in Hx, Hy.
    destruct (K !! i) as [a|] eqn:Ea; [|done]. destruct (K !! j) as [b|] eqn:Eb; [|done]. simplify_eq/=.
    assert (a = b) as ->.
    { eapply (sparse_ok_elem_index _ _ _ _ Hok); [by eapply elem_of_list_lookup_2..|congruence]. }
    eapply NoDup_lookup; [by apply (sparse_ok_nodup_ents _ _ Hok)|done|done]. }
  destruct (sv_allocate_at (es_sparse s) (e_sparse e) !! e_sparse e) as [[sl|]|] eqn:E.
  - apply Hok' in E as (k & Hk & Hks & Hkv). apply e_sparse_inj in Hks.
    assert (Hlt : s_dense sl < length (es_ents s)) by (rewrite <-Hlen; by eapply lookup_lt_Some).
    rewrite (proj2 (Nat.ltb_lt _ _) Hlt). eexists _, K. split; [done|].
    destruct (lookup_lt_is_Some_2 (es_ents s) _ Hlt) as [d Hd].
    assert (Hdk : e_index d = e_index e).
    { assert ((e_index <$> K) !! s_dense sl = Some (e_index k)) as H1 by (by rewrite list_lookup_fmap, Hk).
      rewrite Hi, list_lookup_fmap, Hd in H1. simpl in H1. congruence. }
    split_and!.
    + split_and!; simpl; [done|done|]. rewrite list_fmap_insert, Hi. symmetry. apply list_insert_id.
      by rewrite list_lookup_fmap, Hd, <-Hdk.
    + intros x. split; [by left|]. intros [?|[-> Hf]]; [done|]. exfalso.
      apply (Hf k); [by eapply elem_of_list_lookup_2|done].
    + intros x. simpl. rewrite !elem_of_list_lookup. split.
      * intros [i Hx]. destruct (decide (i = s_dense sl)) as [->|Hne].
        -- rewrite list_lookup_insert in Hx by done. left. congruence.
        -- rewrite list_lookup_insert_ne in Hx by done. right. split; [by exists i|]. intros Heq. apply Hne.
           eapply NoDup_lookup; [exact Hnd|by rewrite list_lookup_fmap, Hx|]. rewrite list_lookup_fmap, Hd. simpl. congruence.
      * intros [->|[[i Hx] Hne]]; [exists (s_dense sl); by rewrite list_lookup_insert|].
        exists i. rewrite list_lookup_insert_ne; [done|]. intros <-. congruence.
  - assert (Hf : fresh_index e K).
    { intros k Hk Heq. apply elem_of_list_lookup in Hk as [i Hk].
      pose proof (sparse_ok_slot _ _ Hok' _ _ Hk) as Hsl. rewrite (e_sparse_eq k e Heq) in Hsl. congruence. }
    pose proof (sparse_ok_room _ _ Hok e Hs He Hf) as Hroom.
    eexists _, (K ++ [e]). split; [done|]. split_and!.
    + rewrite <-Hlen. split_and!; simpl; [by apply sparse_ok_app| |by rewrite !fmap_app, Hi].
      apply Forall_app. split; [done|]. by repeat constructor.
    + intros x. rewrite elem_of_app, elem_of_list_singleton. tauto.
    + intros x. simpl. rewrite elem_of_app, elem_of_list_singleton. split; [|tauto].
      intros [Hx|?]; [|by left]. right. split; [done|]. intros Heq.
      assert (e_index x ∈ e_index <$> K) as (k & H1 & H2)%elem_of_list_fmap.
      { rewrite Hi. by apply elem_of_list_fmap_1. }
      apply (Hf k); [done|congruence].
  - apply lookup_ge_None in E. lia.
Qed.

Lemma loose_insert_all l : ∀ s K, loose s K → Forall (λ e, e_index e < u32_lim)%N l → desc l →
  ∃ s' K', eset_insert_all s l = Ok s' ∧ loose s' K' ∧
    (∀ x, x ∈ K' ↔ x ∈ K ∨ fresh_index x K ∧ x ∈ l ∧ ∀ f, f ∈ l → e_index f = e_index x → (e_version f ≤ e_version x)%N) ∧
    (∀ x, x ∈ es_ents s' ↔ (x ∈ l ∧ ∀ f, f ∈ l → e_index f = e_index x → (e_version x ≤ e_version f)%N) ∨
                           x ∈ es_ents s ∧ fresh_index x l).
Proof.
  induction l as [|e l IH]; intros s K HL Hl Hd; simpl.
  - exists s, K. split_and!; [done..| |].
    + intros x. split; [by left|]. intros [?|(_ & ?%elem_of_nil & _)]; done.
    + intros x. split; [|by intros [[?%elem_of_nil _]|[? _]]]. intros Hx. right. split; [done|]. by intros ? ?%elem_of_nil.
  - apply Forall_cons in Hl as [He Hl]. apply desc_cons in Hd as [Hd1 Hd].
    destruct (loose_insert s K e HL He) as (s1 & K1 & -> & HL1 & HK1 & HD1). simpl.
    destruct (IH s1 K1 HL1 Hl Hd) as (s' & K' & -> & HL' & HK' & HD').
    exists s', K'. split_and!; [done|done| |].
    + intros x. rewrite HK', HK1. unfold fresh_index. setoid_rewrite HK1. setoid_rewrite elem_of_cons. split.
      * intros [[?|[-> Hf]]|(Hf & Hx & Hmax)].
        -- by left.
        -- right. split_and!; [done|by left|]. intros f [->|Hf'] Heq; [lia|]. apply N.lt_le_incl, Hd1; [done|congruence].
        -- right. split_and!; [|by right|].
           ++ intros k Hk. apply Hf. by left.
           ++ intros f [->|Hf'] Heq; [|by apply Hmax]. exfalso.
              assert (¬ (∀ k, k ∈ K → e_index k ≠ e_index e)) as Hn.
              { intros Hfr. apply (Hf e); [by right|done]. }
              apply Hn. intros k Hk. rewrite Heq. apply Hf. by left.
      * intros [?|(Hf & [->|Hx] & Hmax)]; [tauto|left; right; by split|].
        destruct (decide (e_index e = e_index x)) as [Heq|Hne].
        -- pose proof (Hd1 x Hx Heq). pose proof (Hmax e (or_introl eq_refl) Heq). lia.
        -- right. split_and!; [|done|].
           ++ intros k [Hk|[-> _]]; [by apply Hf|done].
           ++ intros f Hf'. apply Hmax. by right.
    + intros x. rewrite HD', HD1. unfold fresh_index. setoid_rewrite elem_of_cons. split.
      * intros [[Hx Hmin]|[[->|[Hx Hne]] Hf]].
        -- left. split; [by right|]. intros f [->|Hf] Heq; [|by apply Hmin]. apply N.lt_le_incl, Hd1; done.
        -- left. split; [by left|]. intros f [->|Hf'] Heq; [lia|]. by destruct (Hf f Hf').
        -- right. split; [done|]. intros f [->|Hf']; [congruence|by apply Hf].
      * intros [[[->|Hx] Hmin]|[Hx Hf]].
        -- right. split; [by left|]. intros f Hf Heq. pose proof (Hd1 f Hf (eq_sym Heq)).
           pose proof (Hmin f (or_intror Hf) Heq). lia.
        -- left. split; [done|]. intros f Hf. apply Hmin. by right.
        -- right. split.
           ++ right. split; [done|]. apply not_eq_sym, Hf. by left.
           ++ intros f Hf'. apply Hf. by right.
Qed.

(** ** [maintain] *)

Lemma any_maintain evs w s out dr w' :
  tidy_history evs w s → step w OMaintain = (out, dr, w') →
  out = Ret RUnit ∧ dr = [] ∧ w_comps w' = w_comps w ∧
  (∀ e, world_contains w' e = true ↔ s_alive s e ∨ latest s e ∧ ¬ live_index s (e_index e)) ∧
  (∀ e, e ∈ world_entities w' ↔ earliest s e ∨ s_alive s e ∧ ¬ recent_index s (e_index e)) ∧
  NoDup (e_index <$> world_entities w').
Proof.
  intros Hh Hstep. pose proof (tidy_einv _ _ _ Hh) as HE. pose proof (tidy_ordered _ _ _ Hh) as HO.
  pose proof (ei_alloc _ _ HE) as HA. destruct (ei_set _ _ HE) as [Hok Hs].
  assert (Hrec : ∀ e, e ∈ pending (st_alloc (w_ents w)) ↔ recent s e).
  { intros e. apply (ai_pending _ _ _ _ _ _ HA). }
  simpl in Hstep. unfold world_maintain, estore_maintain in Hstep.
  destruct (alloc_clear_inv _ _ _ _ _ _ HA) as (a' & Hm & _). rewrite Hm in Hstep. simpl in Hstep.
  destruct (loose_insert_all (pending (st_alloc (w_ents w))) (st_set (w_ents w)) (es_ents (st_set (w_ents w))))
    as (es' & K' & Hi & (Hok' & Hs' & Hidx) & HK & HD).
  { by split_and!. }
  { apply Forall_forall. intros e He. apply (ai_valid _ _ _ _ _ _ HA). left. by eapply pending_issued. }
  { apply pending_desc; [done|]. apply (ai_next _ _ _ _ _ _ HA). }
  rewrite Hi in Hstep. simpl in Hstep. simplify_eq.
  split_and!; [done..| | |].
  - intros e. unfold world_contains, estore_contains, eset_contains. simpl.
    rewrite (sv_contains_elem _ _ Hok'), HK, (ei_dom _ _ HE). unfold latest, live_index, fresh_index.
    setoid_rewrite Hrec. setoid_rewrite (ei_dom _ _ HE). split.
    + intros [?|(H1 & H2)]; [by left|]. right. split; [done|]. intros (f & Hf & Heq). by apply (H1 f Hf).
    + intros [?|(H1 & H2)]; [by left|]. right. split; [|done]. intros f Hf Heq. apply H2. by exists f.
  - intros e. unfold world_entities, estore_slice. simpl. rewrite HD, (ei_dom _ _ HE).
    unfold earliest, recent_index, fresh_index. setoid_rewrite Hrec. split.
    + intros [?|(H1 & H2)]; [by left|]. right. split; [done|]. intros (f & Hf & Heq). by apply (H2 f Hf).
    + intros [?|(H1 & H2)]; [by left|]. right. split; [done|]. intros f Hf Heq. apply H2. by exists f.
  - unfold world_entities, estore_slice. simpl. rewrite <-Hidx. apply NoDup_alt. intros i j x Hx Hy.
    rewrite list_lookup_fmap in Hx, Hy.
    destruct (K' !! i) as [a|] eqn:Ea; [|done]. destruct (K' !! j) as [b|] eqn:Eb; [|done]. simplify_eq/=.
    assert (a = b) as ->.
    { eapply (sparse_ok_elem_index _ _ _ _ Hok'); [by eapply elem_of_list_lookup_2..|congruence]. }
    eapply NoDup_lookup; [by apply (sparse_ok_nodup_ents _ _ Hok')|done|done].
Qed.

(** An earliest recent handle of an index. *)
Lemma earliest_exists s i : recent_index s i → ∃ e, earliest s e ∧ e_index e = i.
Proof.
  intros (f & Hf & Hi).
  remember (N.to_nat (e_version f)) as n eqn:Hn. revert f Hf Hi Hn.
  induction (lt_wf n) as [n _ IH]. intros f Hf Hi Hn.
  assert (∀ X : gset entity,
    (∃ g, g ∈ X ∧ e_index g = i ∧ (e_version g < e_version f)%N) ∨
    (∀ g, g ∈ X → e_index g = i → (e_version f ≤ e_version g)%N)) as Hdec.
  { intros X. destruct (set_choose_or_empty (filter (λ g, e_index g = i ∧ (e_version g < e_version f)%N) X)) as [(g & Hg)|Hg].
    - apply elem_of_filter in Hg as [[H1 H2] H3]. left. by exists g.
    - right. intros g H1 H2. destruct (N.lt_ge_cases (e_version g) (e_version f)); [|done].
      exfalso. apply (not_elem_of_empty (C := gset entity) g). apply Hg. apply elem_of_filter. done. }
  destruct (Hdec (s_created s ∪ s_queued s)) as [(g & Hg & Hgi & Hlt)|Hmin].
  - apply (IH (N.to_nat (e_version g))) with (f := g); [lia| |done|done].
    unfold recent. set_solver.
  - exists f. split; [|done]. split; [done|]. intros g Hg Heq. apply Hmin; [|congruence].
    destruct Hg; set_solver.
Qed.

(** [maintain] lists the right entities only when it is tidy to call it. *)
Lemma maintain_needs_tidy evs w s out dr w' :
  tidy_history evs w s → step w OMaintain = (out, dr, w') →
  (∀ e, e ∈ world_entities w' ↔ s_alive s e ∨ e ∈ s_queued s) ↔ tidy s.
Proof.
  intros Hh Hstep. pose proof (tidy_einv _ _ _ Hh) as HE. pose proof (ei_alloc _ _ HE) as HA.
  destruct (any_maintain _ _ _ _ _ _ Hh Hstep) as (_ & _ & _ & _ & Hent & _).
  assert (Hnew : ∀ e f, s_alive s e ∨ e ∈ s_queued s → recent s f → e_index f = e_index e → (e_version f ≤ e_version e)%N).
  { intros e f He Hf Heq. apply (ai_version _ _ _ _ _ _ HA); [|apply (ai_issued _ _ _ _ _ _ HA); unfold recent in Hf; tauto|done].
    by rewrite (ei_dom _ _ HE). }
  assert (Huni : ∀ e f, s_alive s e ∨ e ∈ s_queued s → s_alive s f ∨ f ∈ s_queued s → e_index e = e_index f → e = f).
  { intros e f He Hf. apply (ai_unique _ _ _ _ _ _ HA); by rewrite (ei_dom _ _ HE). }
  split.
  - intros Hgood e He.
    destruct (earliest_exists s (e_index e)) as (x & Hx & Hxi); [by exists e; split; [left|]|].
    assert (s_alive s x ∨ x ∈ s_queued s) as Hxl by (apply Hgood, Hent; by left).
    assert (e_version e = e_version x) as Hv.
    { apply N.le_antisymm; [apply Hnew; [done|by left|done]|]. apply Hx; [by left|done]. }
    rewrite (entity_eq e x (eq_sym Hxi) Hv) in He |- *.
    destruct Hxl as [?|Hq]; [done|]. by destruct (ai_CQ _ _ _ _ _ _ HA x).
  - intros Ht e. rewrite Hent. split.
    + intros [[[Hc|Hq] _]|[? _]]; [left; by apply Ht|by right|by left].
    + intros Hl. destruct (decide (e ∈ s_created s ∪ s_queued s)) as [Hr|Hnr].
      * left. split; [unfold recent; set_solver|]. intros f Hf Heq.
        assert (f = e) as ->; [|lia]. apply Huni; [|done|done]. destruct Hf as [Hf|Hf]; [left; by apply Ht|by right].
      * right. split; [destruct Hl as [?|?]; [done|set_solver]|]. intros (f & Hf & Heq). apply Hnr.
        assert (f = e) as <-; [|unfold recent in Hf; set_solver].
        apply Huni; [|done|done]. destruct Hf as [Hf|Hf]; [left; by apply Ht|by right].
Qed.

(** Which dead handles come back. *)
Lemma maintain_revives evs w s out dr w' e :
  tidy_history evs w s → step w OMaintain = (out, dr, w') → world_contains w e = false → e ∉ s_queued s →
  world_contains w' e = true ↔ e ∈ s_created s ∧ latest s e ∧ ¬ live_index s (e_index e).
Proof.
  intros Hh Hstep Hd Hq. destruct (any_maintain _ _ _ _ _ _ Hh Hstep) as (_ & _ & _ & Hc & _).
  rewrite Hc. rewrite (tidy_contains _ _ _ _ Hh) in Hd. apply bool_decide_eq_false in Hd. split.
  - intros [?|[Hl Hn]]; [done|]. split_and!; [|done|done]. destruct Hl as [[?|?] _]; done.
  - intros (_ & ? & ?). by right.
Qed.
