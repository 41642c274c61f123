(** [delete] and [destroy] of components whose [Drop] panics: exactly what happens. *)
From Verif Require Import Base Lists SparseVecM EntityM CssM MaskM LayoutM GroupM StorageM WorldM QueryM StepM DropPanicM
  SparseProofs CssProofs MaskProofs GroupProofs Spec SpecMore SpecRepair SpecDrop EntityProofs LayoutProofs StorageProofs StoreOps LayoutOps
  WorldProofs Contents History Facts DropPanicProofs RepairFacts.

(** ** One storage *)

Lemma buf_slice_hole {A} (b : list (option A)) i n : i < n → b !! i = Some None → buf_slice b n = UB.
Proof.
  revert i n. induction b as [|[y|] b IH]; intros i n Hn Hi; [done|..]; destruct n as [|n]; try lia; [|done].
  destruct i as [|i]; [done|]. simpl. by rewrite (IH i n) by (done || lia).
Qed.

(** A hole: the last entity has lost its component. *)
Lemma css_delete_p_hole bomb c d i e v : css_rep c d → d !! i = Some (e, v) → bomb v = true → S i ≠ length d →
  ∃ c' x vx, css_delete_p bomb c e = Ok (true, c', [v]) ∧ (x, vx) ∈ d ∧ x ≠ e ∧
    css_get c' x = UB ∧ buf_slice (c_comps c') (c_len c') = UB ∧
    (∀ e' v', (e', v') ∈ d → e' ≠ e → e' ≠ x → css_get c' e' = Ok (Some v')) ∧
    (∀ e', (∀ v', (e', v') ∈ d → e' = e) → css_get c' e' = Ok None).
Proof.
  intros Hr Hi Hb Hlast. pose proof (lookup_lt_Some _ _ _ Hi) as Hlt.
  destruct (css_detach_lookup c d Hr i e v Hi) as (sp & ents & Hd & Hel & Hsp & Hcells).
  destruct (lookup_lt_is_Some_2 d (length d - 1)) as [[x vx] Hx]; [lia|].
  destruct (cr_cells _ _ Hr _ _ _ Hi) as [He Hc].
  pose proof (cr_le _ _ Hr). pose proof (cr_comps_cap _ _ Hr).
  exists (Css sp ents (<[i := None]> (c_comps c)) (length d - 1) (c_cap c)), x, vx.
  assert (Hne : x ≠ e).
  { intros ->. destruct (css_rep_pair_inj c d Hr _ _ _ _ _ Hi Hx) as [-> _]. lia. }
  assert (Hs : (swap_remove d i).*1 !! i = Some x).
  { apply dense_fst_lookup. exists vx. rewrite swap_remove_lookup by done. rewrite decide_True by lia. by rewrite decide_True. }
  split_and!.
  - unfold css_delete_p. rewrite Hd. simpl. unfold buf_read, buf_write. rewrite Hc. simpl.
    destruct (Nat.ltb_spec i (length (c_comps c))); [|lia]. simpl. by rewrite Hb.
  - by eapply elem_of_list_lookup_2.
  - done.
  - unfold css_get, css_get_ref. simpl. rewrite (sv_get_lookup _ _ Hsp x i Hs), Nat2N.id. unfold buf_read.
    by rewrite list_lookup_insert by lia.
  - apply (buf_slice_hole _ i); [simpl; lia|]. simpl. by rewrite list_lookup_insert by lia.
  - intros e' v' [j Hj]%elem_of_list_lookup Hne1 Hne2.
    assert (j ≠ i) as Hji by (intros ->; congruence).
    assert (j ≠ length d - 1) as Hjl by (intros ->; congruence).
    pose proof (lookup_lt_Some _ _ _ Hj) as Hjlt.
    assert ((swap_remove d i).*1 !! j = Some e') as Hj1.
    { apply dense_fst_lookup. exists v'. rewrite swap_remove_lookup by done. rewrite decide_True by lia. by rewrite decide_False. }
    unfold css_get, css_get_ref. simpl. rewrite (sv_get_lookup _ _ Hsp e' j Hj1), Nat2N.id. unfold buf_read.
    rewrite list_lookup_insert_ne by done. destruct (cr_cells _ _ Hr _ _ _ Hj) as [_ ->]. done.
  - intros e' Hn. unfold css_get, css_get_ref. simpl. rewrite (sv_get_None _ _ Hsp e'); [done|].
    rewrite dense_fst_elem. intros [v' Hin].
    pose proof (swap_remove_perm d i _ Hi) as Hp.
    assert ((e', v') ∈ d) as Hd' by (rewrite Hp; by right). pose proof (Hn _ Hd') as ->.
    assert (NoDup ((e, v) :: swap_remove d i).*1) as Hnd by (rewrite <-Hp; eapply sparse_ok_nodup_ents, Hr).
    simpl in Hnd. apply NoDup_cons in Hnd as [Hnd _]. apply Hnd, dense_fst_elem. eauto.
Qed.

(** ** Several storages *)

Definition holed (comps : list css) (mt : gmap tid meta) (am : amap) (t : tid) (x : entity) : Prop :=
  (∃ m c, mt !! t = Some m ∧ comps !! m_index m = Some c ∧ css_get c x = UB ∧ buf_slice (c_comps c) (c_len c) = UB) ∧
  ∀ t' m' e', mt !! t' = Some m' → (t', e') ≠ (t, x) →
    ∃ c', comps !! m_index m' = Some c' ∧ css_get c' e' = Ok (default ∅ (am !! e') !! t').

Lemma ci_get s ds am reg grp loose t m e : cinv s ds am reg grp loose → cs_meta s !! t = Some m →
  ∃ c, cs_comps s !! m_index m = Some c ∧ css_get c e = Ok (default ∅ (am !! e) !! t).
Proof.
  intros HI Ht. destruct (ci_lookup _ _ _ _ _ _ HI t m Ht) as (c & d & Hc & Hd & Hr). exists c. split; [done|].
  pose proof (λ e v, ci_data _ _ _ _ _ _ HI t m d e v Ht Hd) as Hdata.
  destruct (default ∅ (am !! e) !! t) as [v|] eqn:Hv.
  - assert (am_has am t e v) as Ha.
    { destruct (am !! e) as [r|] eqn:He; simpl in Hv; [by exists r|by rewrite lookup_empty in Hv]. }
    apply Hdata, elem_of_list_lookup in Ha as [j Hj]. by apply (css_get_lookup _ _ Hr) in Hj.
  - apply (css_get_None _ _ Hr). rewrite dense_fst_elem. intros [v Hin]. apply Hdata in Hin as (r & He & Hv').
    rewrite He in Hv. simpl in Hv. congruence.
Qed.

Lemma delete_list_p_exact bomb ts : ∀ is_ s ds am reg grp loose e r,
  cinv s ds am reg grp loose → am !! e = Some r → indexes (cs_meta s) ts is_ →
  (∀ t m k g, t ∈ ts → cs_meta s !! t = Some m → cs_groups s !! k = Some g → in_group g (m_index m) →
     ¬ mem (cs_groups s) ds k e) →
  let '(p, r', dr) := drops bomb ts r in
  ∃ comps', delete_list_p bomb (cs_comps s) e is_ = Ok (bool_decide (is_Some p), comps', dr) ∧
    ((∃ ds', cinv (CStore (cs_groups s) (cs_meta s) comps') ds' (<[e := r']> am) reg grp loose ∧
       stored ds ≡ₚ dr ++ stored ds' ∧ stable (cs_groups s) ds ds') ∨
     ∃ t x vx, p = Some t ∧ x ≠ e ∧ am_has am t x vx ∧ holed comps' (cs_meta s) (<[e := r']> am) t x).
Proof.
  induction ts as [|t ts IH]; intros is_ s ds am reg grp loose e r HI He Hi Hnm.
  { inversion Hi; subst. simpl. exists (cs_comps s). split; [done|]. left. exists ds. rewrite insert_id by done. destruct s.
    split_and!; [done..|]. eapply stable_refl, HI. }
  inversion Hi as [|? i ? is' (m & Ht & Hm) Hi']; subst.
  destruct (ci_remove_one _ _ _ _ _ _ HI t m e r He Ht) as (c & c' & d' & Hc & Hrem & HI1 & Hcons & Hst & Hnin).
  { intros k g Hk Hg. eapply Hnm; [left|done..]. }
  assert (Hdel : css_delete c e = Ok (c', option_list (r !! t))) by by rewrite css_delete_remove, Hrem.
  cbn [drops delete_list_p]. rewrite Hc.
  assert (Hgo : existsb bomb (option_list (r !! t)) = false →
    let '(p, r', dr) := drops bomb ts (delete t r) in
    ∃ comps', match css_delete_p bomb c e with
      | Ok (true, s', ds0) => Ok (true, <[m_index m:=s']> (cs_comps s), ds0)
      | Ok (false, s', ds0) =>
          match delete_list_p bomb (<[m_index m:=s']> (cs_comps s)) e is' with
          | Ok (p0, comps'0, ds') => Ok (p0, comps'0, ds0 ++ ds')
          | Panic => Panic
          | UB => UB
          end
      | Panic => Panic
      | UB => UB
      end = Ok (bool_decide (is_Some p), comps', option_list (r !! t) ++ dr) ∧
      ((∃ ds', cinv (CStore (cs_groups s) (cs_meta s) comps') ds' (<[e := r']> am) reg grp loose ∧
         stored ds ≡ₚ (option_list (r !! t) ++ dr) ++ stored ds' ∧ stable (cs_groups s) ds ds') ∨
       ∃ t x vx, p = Some t ∧ x ≠ e ∧ am_has am t x vx ∧ holed comps' (cs_meta s) (<[e := r']> am) t x)).
  { intros Hnb. rewrite (css_delete_p_none bomb _ _ _ _ Hdel Hnb).
    specialize (IH is' _ _ _ _ _ _ e (delete t r) HI1). rewrite lookup_insert in IH. specialize (IH eq_refl).
    unfold with_storage in IH. cbn [cs_meta cs_comps cs_groups] in IH. specialize (IH Hi').
    destruct (drops bomb ts (delete t r)) as [[p r'] dr].
    destruct IH as (comps' & -> & IH).
    { intros t' m' k g Hin Ht' Hk Hg. rewrite (stable_mem (cs_groups s) ds) by (done || apply HI).
      eapply Hnm; [by right|done..]. }
    rewrite insert_insert in IH.
    exists comps'. split; [done|]. destruct IH as [(ds' & HI2 & Hcons2 & Hst2)|(t' & x & vx & -> & Hx & Ha & Hh)].
    - left. exists ds'. split_and!; [done| |by eapply stable_trans]. by rewrite Hcons, Hcons2, (assoc_L (++)).
    - right. exists t', x, vx. split_and!; try done. by rewrite am_has_ne in Ha. }
  destruct (r !! t) as [v|] eqn:Hv.
  - destruct (bomb v) eqn:Hb.
    + destruct (ci_lookup _ _ _ _ _ _ HI t m Ht) as (c0 & d & Hc0 & Hd & Hr).
      rewrite Hc in Hc0. injection Hc0 as <-.
      pose proof (λ e' v', ci_data _ _ _ _ _ _ HI t m d e' v' Ht Hd) as Hdata.
      destruct (elem_of_list_lookup_1 d (e, v)) as [i Hi1]; [apply Hdata; by exists r|].
      destruct (decide (S i = length d)) as [Hl|Hl].
      * destruct (css_delete_p_bomb bomb c d i e v Hr Hi1 Hb) as (c1 & Hdp & Hcase).
        rewrite decide_True in Hcase by done. rewrite Hdel in Hcase. injection Hcase as <-.
        rewrite Hdp. eexists. split; [done|]. left. eexists. split_and!; [exact HI1|done|done].
      * destruct (css_delete_p_hole bomb c d i e v Hr Hi1 Hb Hl) as (c1 & x & vx & Hdp & Hx & Hne & Hub & Hsl & Hoth & Hnone).
        rewrite Hdp. eexists. split; [done|]. right. exists t, x, vx. split_and!; [done|done|by apply Hdata|].
        split.
        -- exists m, c1. split_and!; try done. by rewrite list_lookup_insert by (by eapply lookup_lt_Some).
        -- intros t' m' e' Ht' Hp. destruct (decide (t' = t)) as [->|Htt].
           ++ assert (m' = m) as -> by congruence. exists c1.
              split; [by rewrite list_lookup_insert by (by eapply lookup_lt_Some)|].
              assert (e' ≠ x) as Hex by congruence. destruct (decide (e' = e)) as [->|Hee].
              ** rewrite lookup_insert. simpl. rewrite lookup_delete. by apply Hnone.
              ** rewrite lookup_insert_ne by done. destruct (default ∅ (am !! e') !! t) as [v'|] eqn:Hv'.
                 --- apply (Hoth e' v'); [|done..]. apply Hdata.
                     destruct (am !! e') as [r0|] eqn:He'; simpl in Hv'; [by exists r0|by rewrite lookup_empty in Hv'].
                 --- apply Hnone. intros v' (r0 & He' & Hv0)%Hdata. rewrite He' in Hv'. simpl in Hv'. congruence.
           ++ destruct (ci_get _ _ _ _ _ _ t' m' e' HI1 Ht') as (c2 & Hc2 & Hg2). simpl in Hc2.
              assert (m_index m ≠ m_index m') as Hmm.
              { intros Heq. apply Htt, eq_sym. by eapply (st_inj _ _ _ (ci_static _ _ _ _ _ _ HI)). }
              rewrite list_lookup_insert_ne in Hc2 by done. exists c2. split; [|done]. by rewrite list_lookup_insert_ne.
    + specialize (Hgo ltac:(simpl; by rewrite Hb)). destruct (drops bomb ts (delete t r)) as [[p r'] dr]. exact Hgo.
  - specialize (Hgo eq_refl). rewrite delete_notin in Hgo by done.
    destruct (drops bomb ts r) as [[p r'] dr]. exact Hgo.
Qed.

(** ** What is dropped *)

Lemma drops_values bomb ts : ∀ r, let '(p, r', dr) := drops bomb ts r in
  (map_to_list r).*2 ≡ₚ dr ++ (map_to_list r').*2 ∧ (∀ t v, r' !! t = Some v → r !! t = Some v) ∧
  (p = None → existsb bomb dr = false).
Proof.
  induction ts as [|t ts IH]; intros r; simpl; [done|]. destruct (r !! t) as [v|] eqn:Hv; [|apply IH].
  assert ((map_to_list r).*2 ≡ₚ v :: (map_to_list (delete t r)).*2) as Hp.
  { rewrite <-(insert_delete r t v Hv) at 1. rewrite map_to_list_insert by apply lookup_delete. done. }
  destruct (bomb v) eqn:Hb.
  - split; [done|]. split; [|done]. intros t' v' H. by apply lookup_delete_Some in H as [_ ?].
  - specialize (IH (delete t r)). destruct (drops bomb ts (delete t r)) as [[p r'] dr]. destruct IH as (H1 & H2 & H3).
    split; [by rewrite Hp, H1|]. split.
    + intros t' v' H%H2. by apply lookup_delete_Some in H as [_ ?].
    + intros Hp0. simpl. by rewrite Hb, (H3 Hp0).
Qed.

Lemma buf_slice_cases {A} (b : list (option A)) n : buf_slice b n = UB ∨ ∃ l, buf_slice b n = Ok l.
Proof.
  revert n. induction b as [|[x|] b IH]; intros [|n]; simpl; eauto. destruct (IH n) as [->|[l ->]]; simpl; eauto.
Qed.

Lemma drop_all_UB l c : c ∈ l → css_drop c = UB → drop_all l = UB.
Proof.
  intros Hin Hc. induction l as [|c' l IH]; [by apply elem_of_nil in Hin|]. simpl.
  apply elem_of_cons in Hin as [<-|Hin]; [by rewrite Hc|]. rewrite (IH Hin). unfold css_drop.
  by destruct (buf_slice_cases (c_comps c') (c_len c')) as [->|[vs ->]].
Qed.

Lemma holed_wrecked w s ds am reg grp loose mt gs comps ents t x :
  cinv w ds am reg grp loose → (∀ t, t ∈ s_reg s ↔ is_Some (mt !! t)) →
  holed comps mt (s_map s) t x → wrecked (World ents (CStore gs mt comps)) s t x.
Proof.
  intros _ Hreg [(m & c & Ht & Hc & Hub & Hsl) Hoth]. split_and!.
  - unfold view_get, cs_borrow. simpl. by rewrite Ht, Hc.
  - unfold world_drop. simpl. eapply drop_all_UB; [by eapply elem_of_list_lookup_2|done].
  - intros t' e' [m' Ht']%Hreg Hne. destruct (Hoth t' m' e' Ht' Hne) as (c' & Hc' & Hg).
    unfold view_get, cs_borrow. simpl. by rewrite Ht', Hc'.
Qed.

Lemma css_delete_p_false bomb c e c' dr : css_delete_p bomb c e = Ok (false, c', dr) → css_delete c e = Ok (c', dr).
Proof.
  unfold css_delete_p, css_delete. destruct (css_detach c e) as [[[i c1]|]| |]; simpl; try done.
  2:{ by intros [= <- <-]. }
  destruct (buf_read (c_comps c1) i) as [v| |]; simpl; try done. unfold buf_write.
  destruct (Nat.ltb_spec i (length (c_comps c1))) as [Hi|]; simpl; [|done]. destruct (bomb v); [done|].
  destruct (Nat.eqb_spec (c_len c1) i) as [->|Hne]; simpl; rewrite ?insert_length.
  - destruct (Nat.ltb_spec i (length (c_comps c1))); [|lia]. simpl. rewrite !insert_length.
    destruct (Nat.ltb_spec i (length (c_comps c1))); [|lia]. simpl. intros [= <- <-].
    destruct (lookup_lt_is_Some_2 (c_comps c1) i) as [lc ->]; [lia|]. simpl. rewrite insert_length.
    destruct (Nat.ltb_spec i (length (c_comps c1))); [|lia]. simpl. by rewrite !list_insert_insert.
  - rewrite list_lookup_insert_ne by done. destruct (c_comps c1 !! c_len c1) as [lc|]; [|done]. rewrite ?insert_length.
    destruct (Nat.ltb_spec i (length (c_comps c1))); [|lia]. simpl. rewrite !insert_length.
    destruct (Nat.ltb_spec (c_len c1) (length (c_comps c1))); [|done]. simpl. rewrite list_insert_insert.
    by intros [= <- <-].
Qed.

Lemma delete_list_p_false bomb e is_ : ∀ l l' dr,
  delete_list_p bomb l e is_ = Ok (false, l', dr) → delete_list l e is_ = Ok (l', dr).
Proof.
  induction is_ as [|i is_ IH]; intros l l' dr; simpl; [by intros [= <- <-]|].
  destruct (l !! i) as [c|]; [|done].
  destruct (css_delete_p bomb c e) as [[[[] c1] d1]| |] eqn:Hc; try done.
  rewrite (css_delete_p_false _ _ _ _ _ Hc).
  destruct (delete_list_p bomb _ e is_) as [[[p l2] d2]| |] eqn:Hl; try done. intros [= -> <- <-].
  by rewrite (IH _ _ _ Hl).
Qed.

Lemma delete_each_p_false bomb e : ∀ l l' dr,
  delete_each_p bomb l e = Ok (false, l', dr) → delete_each l e = Ok (l', dr).
Proof.
  induction l as [|c l IH]; intros l' dr; simpl; [by intros [= <- <-]|].
  destruct (css_delete_p bomb c e) as [[[[] c1] d1]| |] eqn:Hc; try done.
  rewrite (css_delete_p_false _ _ _ _ _ Hc). simpl.
  destruct (delete_each_p bomb l e) as [[[p l2] d2]| |] eqn:Hl; try done. intros [= -> <- <-].
  by rewrite (IH _ _ eq_refl).
Qed.

Lemma winv_lives_on w s ds : winv w s ds → same_versions s → lives_on w s.
Proof.
  intros HI Hsv evs w' s' Hh. destruct (history_inv _ _ _ _ _ _ HI Hsv Hh) as (Hsv' & ds' & HI' & _).
  split; [by eapply in_step_inv|].
  intros o out ds'' w'' Hop Ho Hg. by destruct (step_inv _ _ _ _ _ _ _ HI' Hsv' Hop Ho Hg).
Qed.

Lemma same_versions_less s m' : same_versions s →
  (∀ e t v, default ∅ (m' !! e) !! t = Some v → s_row s e !! t = Some v) → ∀ b es,
  same_versions (loosen (with_map s m') b es).
Proof.
  intros Hsv Hle b es t e1 e2 Ht [v1 H1] [v2 H2].
  assert (s_grouped (loosen (with_map s m') b es) = s_grouped s ∧ s_map (loosen (with_map s m') b es) = m') as [Hg Hm]
    by (by destruct b).
  rewrite Hg in Ht. unfold s_row in H1, H2. rewrite Hm in H1, H2.
  apply (Hsv t e1 e2 Ht); eauto.
Qed.

Lemma contents_drops s e r r' dr : s_map s !! e = Some r → (map_to_list r).*2 ≡ₚ dr ++ (map_to_list r').*2 →
  contents s ≡ₚ dr ++ contents (with_map s (<[e := r']> (s_map s))).
Proof.
  intros He Hp. rewrite (contents_split s e r He).
  assert (s_map (with_map s (<[e := r']> (s_map s))) !! e = Some r') as He' by apply lookup_insert.
  rewrite (contents_split _ e r' He'). simpl. rewrite delete_insert_delete. unfold values. rewrite Hp.
  by rewrite (assoc_L (++)).
Qed.

(** ** [delete] *)

Lemma delete_exactly w s bomb e ts out dr w' : reachable w s → s_alive s e → all_reg s ts →
  world_delete_p bomb w e ts = (out, dr, w') →
  let '(p, r, ds) := drops bomb ts (s_row s e) in
  let s' := with_map s (<[e := r]> (s_map s)) in
  dr = ds ∧ contents s ≡ₚ dr ++ contents s' ∧
  match p with
  | None => step w (ODelete e ts) = (out, dr, w')
  | Some t => out = Panicked [] ∧
      (lives_on w' (loosen s' true [e]) ∨ ∃ x, x ≠ e ∧ is_Some (s_row s x !! t) ∧ wrecked w' s' t x)
  end.
Proof.
  intros Hr [r He] Hall. destruct (reachable_inv _ _ Hr) as (Hsv & ds & HI). pose proof HI as [HE HC].
  unfold world_delete_p. destruct (lookup_metas (cs_meta (w_comps w)) m_delete ts) as [[is_ mask]|] eqn:Hl.
  2:{ by apply (lookup_metas_reg _ _ _ _ _ _ _ _ HC) in Hl. }
  destruct (lookup_metas_Some _ _ _ _ _ Hl) as [Hidx Hmask].
  destruct (ci_ungroup _ _ _ _ _ _ HC mask e) as (s1 & ds1 & Hun & Hmt & HR & HI1 & Hmem).
  { by apply same_versions_uniform. }
  { by eapply (delete_mask_closed _ _ _ _ _ _ HC). }
  rewrite Hun. pose proof (rg_meta _ _ _ _ _ HR) as Hgm.
  pose proof (delete_list_p_exact bomb ts is_ s1 ds1 _ _ _ _ e r HI1 He) as H. rewrite Hmt in H. specialize (H Hidx).
  assert (s_row s e = r) as Hrow by (unfold s_row; by rewrite He). rewrite Hrow.
  pose proof (drops_values bomb ts r) as Hd. destruct (drops bomb ts r) as [[p r'] dr1].
  destruct H as (comps' & Hdel & Hcase).
  { intros t m k g Hin Ht Hk Hg Hm. apply Hmem in Hm as [_ Hb].
    destruct (same_meta_lookup _ (cs_groups (w_comps w)) k g (eq_sym Hgm) Hk) as (g0 & Hg0 & Heq).
    assert (bit mask k = true); [|congruence].
    eapply (delete_mask_covers _ _ _ _ _ _ HC); [done..|]. unfold in_group in *. by rewrite Heq. }
  rewrite Hdel. intros [= <- <- <-]. split; [done|].
  destruct Hd as (Hv & Hsub & _).
  split.
  { by apply (contents_drops _ _ r). }
  destruct p as [t|].
  - rewrite bool_decide_eq_true_2 by eauto. split; [done|].
    destruct Hcase as [(ds' & HI2 & Hst & _)|(t' & x & vx & [= <-] & Hx & Ha & Hh)].
    + left. eapply (winv_lives_on _ _ ds').
      * split.
        -- simpl. apply (einv_ext _ s); [|done..|exact HE]. intros e'. unfold s_alive. simpl.
           rewrite lookup_insert_is_Some'. split; [by right|]. intros [<-|]; [eauto|done].
        -- simpl. rewrite Hmt. eapply cinv_loosen; [|exact HI2]. simpl. set_solver.
      * apply same_versions_less; [done|]. intros e' t' v' Hv'. unfold s_row.
        destruct (decide (e = e')) as [<-|]; [|by rewrite lookup_insert_ne in Hv'].
        rewrite lookup_insert in Hv'. simpl in Hv'. rewrite He. simpl. by apply Hsub.
    + right. exists x. split; [done|]. split.
      * destruct Ha as (rx & Hrx & Hvx). unfold s_row. rewrite Hrx. eauto.
      * rewrite Hmt. eapply holed_wrecked; [exact HC| |exact Hh]. apply HC.
  - simpl in Hdel. apply delete_list_p_false in Hdel. simpl. unfold set_delete. by rewrite Hl, Hun, Hdel.
Qed.

(** ** [destroy] *)

Lemma delete_each_as_list bomb mt e n : 
  (∀ t t' m m', mt !! t = Some m → mt !! t' = Some m' → m_index m = m_index m' → t = t') →
  ∀ l pre, length (pre ++ l) = n →
  (∀ i c, length pre ≤ i → (pre ++ l) !! i = Some c →
     (∃ t m, mt !! t = Some m ∧ m_index m = i) ∨
     (∀ t m, mt !! t = Some m → m_index m ≠ i) ∧ css_delete_p bomb c e = Ok (false, c, [])) →
  ∃ ts is_, indexes mt ts is_ ∧
    (∀ t m, mt !! t = Some m → length pre ≤ m_index m < n → t ∈ ts) ∧
    delete_list_p bomb (pre ++ l) e is_ =
      match delete_each_p bomb l e with
      | Ok (p, l', ds) => Ok (p, pre ++ l', ds) | Panic => Panic | UB => UB
      end.
Proof.
  intros Hinj. induction l as [|c l IH]; intros pre Hn Hc.
  { exists [], []. split; [constructor|]. split; [|done]. rewrite app_nil_r in Hn. intros t m _ ?. lia. }
  assert (Hat : (pre ++ c :: l) !! length pre = Some c) by by apply list_lookup_middle.
  assert (Hnext : ∀ c', ∃ ts is_, indexes mt ts is_ ∧
    (∀ t m, mt !! t = Some m → S (length pre) ≤ m_index m < n → t ∈ ts) ∧
    delete_list_p bomb (pre ++ c' :: l) e is_ =
      match delete_each_p bomb l e with
      | Ok (p, l', ds) => Ok (p, pre ++ c' :: l', ds) | Panic => Panic | UB => UB
      end).
  { intros c'. destruct (IH (pre ++ [c'])) as (ts & is_ & H1 & H2 & H3).
    - rewrite <-Hn, <-(assoc_L (++)), !app_length. done.
    - intros i c2 Hi Hl. rewrite app_length in Hi. simpl in Hi. apply (Hc i c2); [lia|].
      rewrite <-Hl, <-(assoc_L (++)). rewrite !lookup_app_r by lia.
      destruct (i - length pre) eqn:?; [lia|]. done.
    - exists ts, is_. split; [done|]. split.
      + intros t m Ht Hlt. apply (H2 t m Ht). rewrite app_length. simpl. lia.
      + rewrite <-(assoc_L (++)) in H3. simpl in H3. rewrite H3.
        destruct (delete_each_p bomb l e) as [[[p l'] ds]| |]; [|done..]. by rewrite <-(assoc_L (++)). }
  destruct (Hc _ _ ltac:(done) Hat) as [(t & m & Ht & Hm)|[Hnt Hno]].
  - assert (Hin : ∀ ts, (∀ t m, mt !! t = Some m → S (length pre) ≤ m_index m < n → t ∈ ts) →
      ∀ t' m', mt !! t' = Some m' → length pre ≤ m_index m' < n → t' ∈ t :: ts).
    { intros ts H t' m' Ht' Hr. destruct (decide (m_index m' = length pre)) as [Heq|].
      - rewrite (Hinj t' t m' m Ht' Ht); [left|congruence].
      - right. apply (H t' m' Ht'). lia. }
    destruct (css_delete_p bomb c e) as [[[p c'] d1]| |] eqn:Hd.
    2-3: destruct (Hnext c) as (ts & is_ & H1 & H2 & _); exists (t :: ts), (length pre :: is_);
      (split; [constructor; [eauto|done]|]); (split; [by apply Hin|]); simpl; by rewrite Hat, Hd.
    destruct (Hnext c') as (ts & is_ & H1 & H2 & H3). exists (t :: ts), (length pre :: is_).
    split; [constructor; [eauto|done]|]. split; [by apply Hin|]. simpl. rewrite Hat, Hd.
    rewrite (insert_app_r_alt pre (c :: l) (length pre)) by done. rewrite Nat.sub_diag. simpl. rewrite H3.
    destruct p; [done|]. by destruct (delete_each_p bomb l e) as [[[p l'] ds]| |].
  - destruct (Hnext c) as (ts & is_ & H1 & H2 & H3). exists ts, is_. split; [done|]. split.
    + intros t m Ht Hlt. destruct (decide (m_index m = length pre)) as [Heq|]; [|apply (H2 t m Ht); lia].
      by destruct (Hnt _ _ Ht).
    + simpl. rewrite H3, Hno. by destruct (delete_each_p bomb l e) as [[[p l'] ds]| |].
Qed.

Lemma destroy_exactly w s bomb e out dr w' : reachable w s → s_alive s e →
  world_destroy_p bomb w e = (out, dr, w') →
  ∃ ts, (∀ t, t ∈ ts ↔ t ∈ s_reg s) ∧
  let '(p, r, ds) := drops bomb ts (s_row s e) in
  let s' := with_map s (<[e := r]> (s_map s)) in
  dr = ds ∧ contents s ≡ₚ dr ++ contents s' ∧
  match p with
  | None => step w (ODestroy e) = (out, dr, w')
  | Some t => out = Panicked [] ∧ (∀ e', world_contains w' e' = bool_decide (e' ≠ e ∧ s_alive s e')) ∧
      ((∀ t' e', t' ∈ s_reg s → view_get w' t' e' = Ok (s_row s' e' !! t')) ∧
         (r = ∅ → lives_on w' (client_step s (ODestroy e) out)) ∨
       ∃ x, x ≠ e ∧ is_Some (s_row s x !! t) ∧ wrecked w' s' t x)
  end.
Proof.
  intros Hr Ha. pose proof Ha as [r He]. destruct (reachable_inv _ _ Hr) as (Hsv & ds & HI). pose proof HI as [HE HC].
  unfold world_destroy_p. destruct (estore_remove_ok _ _ e HE Ha) as (st' & Hrem & HE'). rewrite Hrem.
  destruct (ungroup_all_ok (cs_comps (w_comps w)) ds (cs_groups (w_comps w)) e) as (comps1 & gs1 & ds1 & Hun & Hrep1 & HR & Hmem);
    try apply HC; [eapply ci_uniform; [done|by apply same_versions_uniform]|by eapply ci_consistent|].
  rewrite Hun. intros Hout.
  assert (HI1 : cinv (CStore gs1 (cs_meta (w_comps w)) comps1) ds1 (s_map s) (s_reg s) (s_grouped s) ({[e]} ∪ s_loose s)).
  { eapply ci_regrouped; [eapply cinv_loosen; [|done]|done..|]; set_solver. }
  destruct (delete_each_as_list bomb (cs_meta (w_comps w)) e (length comps1)
    (st_inj _ _ _ (ci_static _ _ _ _ _ _ HC)) comps1 [] eq_refl) as (ts & is_ & Hidx & Hin & Hlist).
  { intros i c _ Hc. simpl in Hc.
    destruct (decide (map_Exists (λ (t : tid) m, m_index m = i) (cs_meta (w_comps w)))) as [(t & m & Ht & Hm)|Hn]; [left; eauto|].
    right. assert (∀ t m, cs_meta (w_comps w) !! t = Some m → m_index m ≠ i) as Hni.
    { intros t m Ht Hm. apply Hn. by exists t, m. }
    split; [done|]. destruct (Forall2_lookup_l _ _ _ _ _ Hrep1 Hc) as (d & Hd & Hrd).
    pose proof (ci_spare _ _ _ _ _ _ HI1 i d Hd Hni) as ->.
    apply css_delete_p_none; [|done]. apply (css_delete_None c [] Hrd). by apply not_elem_of_nil. }
  exists ts.
  assert (Hts : ∀ t, t ∈ ts ↔ t ∈ s_reg s).
  { intros t. rewrite (ci_reg _ _ _ _ _ _ HC). split.
    - intros [j Hj]%elem_of_list_lookup. destruct (Forall2_lookup_l _ _ _ _ _ Hidx Hj) as (i & _ & m & Ht & _). eauto.
    - intros [m Ht]. apply (Hin t m Ht). split; [apply le_0_n|].
      pose proof (st_index _ _ _ (ci_static _ _ _ _ _ _ HI1) t m Ht) as Hlt.
      by rewrite (Forall2_length _ _ _ Hrep1). }
  split; [done|]. simpl in Hlist.
  pose proof (delete_list_p_exact bomb ts is_ _ ds1 _ _ _ _ e r HI1 He Hidx) as Hex. cbn [cs_groups cs_meta cs_comps] in Hex.
  assert (s_row s e = r) as Hrow by (unfold s_row; by rewrite He). rewrite Hrow.
  pose proof (drops_values bomb ts r) as Hd. destruct (drops bomb ts r) as [[p r'] dr1].
  destruct Hex as (comps' & Hdel & Hcase).
  { intros t m k g _ _ _ _. apply Hmem. }
  rewrite Hdel in Hlist. destruct (delete_each_p bomb comps1 e) as [[[p0 comps2] dr2]| |] eqn:Hde; [|done..].
  injection Hlist as <- <- <-. injection Hout as <- <- <-. destruct Hd as (Hv & Hsub & _). split; [done|].
  split; [by apply (contents_drops _ _ r)|].
  destruct p as [t|].
  2:{ simpl in Hde. apply delete_each_p_false in Hde. simpl. unfold world_destroy, strip. rewrite Hrem, Hun. simpl. by rewrite Hde. }
  rewrite bool_decide_eq_true_2 by eauto. split; [done|]. split.
  { intros e'. unfold world_contains. simpl. rewrite (estore_contains_alive _ _ e' HE'). apply bool_decide_ext.
    simpl. rewrite decide_True by done. unfold s_alive. simpl. rewrite lookup_delete_is_Some. naive_solver. }
  destruct Hcase as [(ds' & HI2 & Hst & _)|(t' & x & vx & [= <-] & Hx & Hax & Hh)].
  - left. split.
    + intros t' e' [m Ht]%(ci_reg _ _ _ _ _ _ HC). unfold view_get, cs_borrow. simpl. rewrite Ht.
      destruct (ci_get _ _ _ _ _ _ t' m e' HI2 Ht) as (c & Hc & Hg). simpl in Hc. rewrite Hc. done.
    + intros ->. assert (Hsv' : same_versions (client_step s (ODestroy e) (Panicked []))).
      { simpl. rewrite decide_True by done. intros t1 e1 e2 Ht1 [v1 H1] [v2 H2]. unfold s_row in *. simpl in *.
        apply (Hsv t1 e1 e2 Ht1); unfold s_row.
        - destruct (delete e (s_map s) !! e1) as [r1|] eqn:Hr1; simpl in H1; [|by rewrite lookup_empty in H1].
          apply lookup_delete_Some in Hr1 as [_ ->]. eauto.
        - destruct (delete e (s_map s) !! e2) as [r1|] eqn:Hr1; simpl in H2; [|by rewrite lookup_empty in H2].
          apply lookup_delete_Some in Hr1 as [_ ->]. eauto. }
      apply (winv_lives_on _ _ ds'); [|done]. simpl in *. rewrite decide_True in * by done. split; [exact HE'|]. simpl.
      apply (cinv_tighten _ _ _ _ _ _ ({[e]} ∪ s_loose s)).
      * eapply cinv_am_ext; [exact HI2|apply am_ok_delete, HC|].
        intros t1 e1 v1. rewrite am_has_delete. destruct (decide (e = e1)) as [<-|Hne].
        -- rewrite am_has_at, lookup_empty. naive_solver.
        -- rewrite am_has_ne by done. naive_solver.
      * intros k g e1 Hk Hnl Hlo Hall. exfalso.
        assert (e1 = e) as ->.
        { apply elem_of_union in Hlo as [->%elem_of_singleton|Hlo]; [done|]. destruct (decide (e1 = e)) as [|Hne]; [done|].
          exfalso. apply Hnl, elem_of_difference. split; [done|]. by rewrite elem_of_singleton. }
        assert (has ds' (g_start (g_meta g)) e) as Hhas by (apply Hall; eapply in_group_start; [apply HI2|done]).
        destruct (st_owner _ _ _ (ci_static _ _ _ _ _ _ HI2) k (g_meta g) (g_start (g_meta g))) as (t1 & m1 & Ht1 & Hm1).
        { by apply ci_groups_meta. }
        { eapply in_group_start; [apply HI2|done]. }
        rewrite <-Hm1 in Hhas. destruct (proj1 (ci_has_meta _ _ _ _ _ _ HI2 t1 m1 e Ht1) Hhas) as [v1 Hv1].
        apply am_has_at in Hv1. by rewrite lookup_empty in Hv1.
  - right. exists x. split; [done|]. split.
    + destruct Hax as (rx & Hrx & Hvx). unfold s_row. rewrite Hrx. eauto.
    + eapply holed_wrecked; [exact HC| |exact Hh]. apply HC.
Qed.
