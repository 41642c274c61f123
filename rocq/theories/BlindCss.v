(** A component sparse set whose slots may carry wrong versions. The invariant of
    this file survives every sequence of calls, whatever versions the entities
    have: it says nothing about versions. *)
From Verif Require Import Base SparseVecM EntityM CssM Lists SparseProofs CssProofs.

Lemma sparse_ok_revise sp es i f g :
  sparse_ok sp es → es !! i = Some g → e_index f = e_index g →
  sparse_ok (<[e_sparse f := Some (Slot (N.of_nat i) (e_version f))]> sp) (<[i := f]> es).
Proof.
  intros Hok Hi Hfg. assert (Hs : e_sparse f = e_sparse g) by (by apply e_sparse_eq).
  pose proof (sparse_ok_slot _ _ Hok _ _ Hi) as Hg. pose proof (lookup_lt_Some _ _ _ Hi) as Hlt.
  pose proof (lookup_lt_Some _ _ _ Hg) as Hsl.
  intros k sl. rewrite Hs. destruct (decide (k = e_sparse g)) as [->|Hne].
  - rewrite list_lookup_insert by done. split.
    + intros [= <-]. exists f. rewrite s_dense_of_nat. by rewrite list_lookup_insert.
    + intros (e & He & Hk & Hv). destruct sl as [x y]. unfold s_dense in *. simpl in *. subst y. destruct (decide (N.to_nat x = i)) as [Hd|Hd].
      * rewrite Hd, list_lookup_insert in He by done. injection He as <-. do 3 f_equal. lia.
      * rewrite list_lookup_insert_ne in He by done. exfalso. apply Hd.
        apply (sparse_ok_inj _ _ Hok _ _ _ _ He Hi), e_sparse_inj; done.
  - rewrite list_lookup_insert_ne by done. rewrite (Hok k sl). split; intros (e & He & Hk & Hv); exists e; (split; [|done]).
    + rewrite list_lookup_insert_ne; [done|]. intros ->. rewrite Hi in He. injection He as <-. by subst k.
    + destruct (decide (s_dense sl = i)) as [Hd|Hd].
      * rewrite Hd, list_lookup_insert in He by done. injection He as <-. by subst k.
      * by rewrite list_lookup_insert_ne in He.
Qed.

(** [k] are the entities as the slots know them, [d] the pairs in the buffers; the
    indexes agree, the versions need not. Cells from [len] on hold no value. *)
Record bcss (c : css) (k : list entity) (d : dense) : Prop := {
  bc_ents_cap : length (c_ents c) = c_cap c;
  bc_comps_cap : length (c_comps c) = c_cap c;
  bc_len : c_len c = length d;
  bc_le : length d ≤ c_cap c;
  bc_cells : ∀ j e v, d !! j = Some (e, v) →
     c_ents c !! j = Some (Some e) ∧ c_comps c !! j = Some (Some v);
  bc_empty : ∀ j x, length d ≤ j → c_comps c !! j = Some x → x = None;
  bc_sparse : sparse_ok (c_sparse c) k;
  bc_idx : e_index <$> k = e_index <$> d.*1;
  bc_small : small k
}.

Definition brep (c : css) (d : dense) : Prop := ∃ k, bcss c k d.

Lemma brep_new : brep css_new [].
Proof.
  exists []. split; simpl; try done; try lia.
  - apply sparse_ok_nil.
  - constructor.
Qed.

Definition opt_list {A} (o : option A) : list A := match o with Some x => [x] | None => [] end.

Section blind.
  Context (c : css) (k : list entity) (d : dense) (Hb : bcss c k d).

  Lemma bc_length : length k = length d.
  Proof using Hb. pose proof (f_equal length (bc_idx _ _ _ Hb)) as H. by rewrite !fmap_length in H. Qed.

  Lemma bc_key i e : k !! i = Some e → ∃ e0 v, d !! i = Some (e0, v) ∧ e_index e0 = e_index e.
  Proof using Hb.
    intros Hi. pose proof (f_equal (lookup i) (bc_idx _ _ _ Hb)) as H. rewrite !list_lookup_fmap, Hi in H.
    destruct (d !! i) as [[e0 v]|]; [|done]. simpl in H. injection H as H. by exists e0, v.
  Qed.

  Lemma bc_pos i e v : d !! i = Some (e, v) → ∃ e0, k !! i = Some e0 ∧ e_index e0 = e_index e.
  Proof using Hb.
    intros Hi. pose proof (f_equal (lookup i) (bc_idx _ _ _ Hb)) as H. rewrite !list_lookup_fmap, Hi in H.
    destruct (k !! i) as [e0|]; [|done]. simpl in H. injection H as H. by exists e0.
  Qed.

  Lemma bc_fmap_lookup i e v : d !! i = Some (e, v) → d.*1 !! i = Some e.
  Proof using Type. intros H. apply dense_fst_lookup. eauto. Qed.

  (** The dense index of any slot is the position of a pair. *)
  Lemma bc_slot x sl : c_sparse c !! x = Some (Some sl) →
    s_dense sl < length d ∧ ∃ e v, d !! s_dense sl = Some (e, v) ∧ e_sparse e = x.
  Proof using Hb.
    intros (e & i & Hi & Hx & ->)%(sparse_ok_slot_inv _ _ (bc_sparse _ _ _ Hb)). rewrite s_dense_of_nat.
    destruct (bc_key _ _ Hi) as (e0 & v & Hd & He). split; [by eapply lookup_lt_Some|]. exists e0, v. split; [done|].
    rewrite <-Hx. by apply e_sparse_eq.
  Qed.

  Lemma bc_read i v : buf_read (c_comps c) i = Ok v → ∃ e, d !! i = Some (e, v).
  Proof using Hb.
    unfold buf_read. intros H. destruct (c_comps c !! i) as [[v'|]|] eqn:Ei; try done. injection H as ->.
    destruct (d !! i) as [[e v']|] eqn:Hd.
    - destruct (bc_cells _ _ _ Hb _ _ _ Hd) as [_ Hc]. rewrite Ei in Hc. injection Hc as ->. by exists e.
    - apply lookup_ge_None in Hd. pose proof (bc_empty _ _ _ Hb _ _ Hd Ei). done.
  Qed.

  Lemma bc_get_ref e : ∃ r, css_get_ref c e = Ok r ∧ ∀ i v, r = Some (i, v) → ∃ e0, d !! i = Some (e0, v).
  Proof using Hb.
    unfold css_get_ref, sv_get. destruct (c_sparse c !! e_sparse e) as [[sl|]|] eqn:Es; try by eexists.
    destruct (_ =? _)%N; [|by eexists].
    destruct (bc_slot _ _ Es) as (_ & e0 & v & Hd & _). destruct (bc_cells _ _ _ Hb _ _ _ Hd) as [_ Hc].
    change (N.to_nat (s_index sl)) with (s_dense sl). unfold buf_read. rewrite Hc. simpl. eexists. split; [done|].
    intros i v' [= <- <-]. eauto.
  Qed.

  Lemma bc_set i v c' : css_set c i v = Ok c' →
    ∃ e old, d !! i = Some (e, old) ∧ brep c' (<[i := (e, v)]> d).
  Proof using Hb.
    unfold css_set. intros H. destruct (buf_read (c_comps c) i) as [old| |] eqn:Er; try done. simpl in H.
    destruct (bc_read _ _ Er) as [e Hd]. exists e, old. split; [done|]. unfold buf_write in H.
    pose proof (lookup_lt_Some _ _ _ Hd) as Hlt.
    destruct (Nat.ltb_spec i (length (c_comps c))) as [Hi|]; [|done]. simpl in H. injection H as <-.
    exists k. destruct Hb. split; simpl; rewrite ?insert_length; try done.
    - intros j e' v'' Hj. destruct (decide (i = j)) as [<-|Hne].
      + rewrite list_lookup_insert in Hj by done. injection Hj as <- <-.
        rewrite list_lookup_insert by done. split; [|done]. by apply (bc_cells0 _ _ _ Hd).
      + rewrite list_lookup_insert_ne in Hj by done. rewrite list_lookup_insert_ne by done. by apply bc_cells0.
    - intros j x Hj. rewrite list_lookup_insert_ne by lia. by apply bc_empty0.
    - rewrite list_fmap_insert, list_insert_id; [done|]. simpl. by rewrite list_lookup_fmap, Hd.
  Qed.

  Lemma bc_set_safe i e v v' : d !! i = Some (e, v) → ∃ c', css_set c i v' = Ok c'.
  Proof using Hb.
    intros Hd. destruct (bc_cells _ _ _ Hb _ _ _ Hd) as [_ Hc]. pose proof (lookup_lt_Some _ _ _ Hd).
    pose proof (bc_le _ _ _ Hb). pose proof (bc_comps_cap _ _ _ Hb).
    unfold css_set, buf_read, buf_write. rewrite Hc. simpl. destruct (Nat.ltb_spec i (length (c_comps c))); [|lia]. eauto.
  Qed.

  Lemma bc_insert e v : (e_index e < u32_lim)%N →
    ∃ c' old d', css_insert c e v = Ok (c', old) ∧ brep c' d' ∧ v :: d.*2 ≡ₚ opt_list old ++ d'.*2.
  Proof using Hb.
    intros He. unfold css_insert.
    pose proof (sparse_ok_allocate _ _ (e_sparse e) (bc_sparse _ _ _ Hb)) as Hsp.
    pose proof (sv_allocate_at_length (c_sparse c) (e_sparse e)) as Hlen.
    set (sp := sv_allocate_at (c_sparse c) (e_sparse e)) in *. clearbody sp.
    pose proof (bc_le _ _ _ Hb) as Hle. pose proof (bc_ents_cap _ _ _ Hb) as Hec. pose proof (bc_comps_cap _ _ _ Hb) as Hcc.
    destruct (sp !! e_sparse e) as [[sl|]|] eqn:Esp.
    - apply (sparse_ok_slot_inv _ _ Hsp) in Esp as (e1 & i & Hi & Hx & ->). rewrite s_dense_of_nat.
      destruct (bc_key _ _ Hi) as (e0 & old & Hd & He0). pose proof (lookup_lt_Some _ _ _ Hd) as Hlt.
      destruct (bc_cells _ _ _ Hb _ _ _ Hd) as [Hce Hcv]. unfold buf_write, buf_read. rewrite Hcv.
      destruct (Nat.ltb_spec i (length (c_ents c))); [|lia].
      destruct (Nat.ltb_spec i (length (c_comps c))); [|lia]. simpl.
      eexists _, (Some old), (<[i := (e, v)]> d). split; [done|]. split.
      + exists k. destruct Hb. split; simpl; rewrite ?insert_length; try done.
        * intros j e' v' Hj. destruct (decide (i = j)) as [<-|Hne].
          -- rewrite list_lookup_insert in Hj by done. injection Hj as <- <-. by rewrite !list_lookup_insert by lia.
          -- rewrite list_lookup_insert_ne in Hj by done. rewrite !list_lookup_insert_ne by done. by apply bc_cells0.
        * intros j x Hj. rewrite list_lookup_insert_ne by lia. by apply bc_empty0.
        * rewrite !list_fmap_insert. simpl. rewrite bc_idx0. rewrite (list_insert_id (e_index <$> d.*1)); [done|].
          rewrite !list_lookup_fmap, Hd. simpl. f_equal. rewrite He0. apply e_sparse_inj. done.
      + rewrite list_fmap_insert. simpl.
        apply list_insert_perm. by rewrite list_lookup_fmap, Hd.
    - assert (Hf : fresh_index e k).
      { intros e' Hin Heq. apply elem_of_list_lookup in Hin as [i Hi].
        pose proof (sparse_ok_slot _ _ Hsp _ _ Hi) as H. rewrite (e_sparse_eq e' e Heq), Esp in H. done. }
      assert (Hroom : (N.of_nat (length k) < u32_lim)%N) by (by eapply sparse_ok_room; [apply Hb|apply Hb|..]).
      pose proof (sparse_ok_app sp k e Hsp Hf Hroom Hlen) as Happ. rewrite bc_length, <-(bc_len _ _ _ Hb) in Happ.
      clear Esp. set (sp' := <[e_sparse e := _]> sp) in *. clearbody sp'.
      set (s1 := Css sp' (c_ents c) (c_comps c) (c_len c) (c_cap c)).
      assert (Hgrow : let s2 := if c_len c =? c_cap c then css_grow s1 else s1 in
                c_sparse s2 = sp' ∧ length (c_ents s2) = c_cap s2 ∧ length (c_comps s2) = c_cap s2 ∧
                length d < c_cap s2 ∧
                (∀ j e v, d !! j = Some (e, v) →
                  c_ents s2 !! j = Some (Some e) ∧ c_comps s2 !! j = Some (Some v)) ∧
                ∀ j x, length d ≤ j → c_comps s2 !! j = Some x → x = None).
      { destruct (Nat.eqb_spec (c_len c) (c_cap c)) as [Heq|Hne].
        - assert (length d < css_new_cap (c_cap c)).
          { rewrite (bc_len _ _ _ Hb) in Heq. unfold css_new_cap. destruct (c_cap c); lia. }
          destruct Hb. simpl. rewrite !app_length, !take_length, !replicate_length.
          split_and!; try lia; try done.
          + intros j e' v' Hj. apply lookup_lt_Some in Hj as Hlt. destruct (bc_cells0 _ _ _ Hj) as [H1 H2].
            rewrite !lookup_app_l, !lookup_take by (rewrite ?take_length; lia). done.
          + intros j x Hj. rewrite lookup_app_r by (rewrite take_length; lia). by intros [-> _]%lookup_replicate.
        - destruct Hb. simpl. split_and!; try done. lia. }
      set (s2 := if c_len c =? c_cap c then css_grow s1 else s1) in *.
      destruct Hgrow as (Hg1 & Hg2 & Hg3 & Hg4 & Hg5 & Hg6). clearbody s2.
      rewrite (bc_len _ _ _ Hb) in *. unfold buf_write. rewrite Hg2, Hg3.
      destruct (Nat.ltb_spec (length d) (c_cap s2)); [|lia]. simpl.
      eexists _, None, (d ++ [(e, v)]). split; [done|]. split.
      + exists (k ++ [e]). split; simpl; rewrite ?insert_length, ?app_length; simpl; try done; try lia.
        * intros j e' v' Hj. apply lookup_app_Some in Hj as [Hj|[Hge Hj]].
          -- assert (j < length d) by (by eapply lookup_lt_Some).
             rewrite !list_lookup_insert_ne by lia. by apply Hg5.
          -- apply list_lookup_singleton_Some in Hj as [Hz [= <- <-]].
             assert (j = length d) as -> by lia. rewrite !list_lookup_insert by lia. done.
        * intros j x Hj. rewrite list_lookup_insert_ne by lia. apply Hg6. lia.
        * by rewrite Hg1.
        * rewrite !fmap_app. simpl. by rewrite (bc_idx _ _ _ Hb).
        * apply Forall_app. split; [apply Hb|]. by constructor.
      + rewrite fmap_app. simpl. apply Permutation_cons_append.
    - exfalso. apply lookup_ge_None in Esp. lia.
  Qed.

  Lemma bc_remove e :
    ∃ c' o d', css_remove c e = Ok (c', o) ∧ brep c' d' ∧ d.*2 ≡ₚ opt_list o ++ d'.*2.
  Proof using Hb.
    unfold css_remove, css_detach.
    destruct (decide (e ∈ k)) as [Hin|Hn].
    2:{ rewrite (sv_remove_None _ _ (bc_sparse _ _ _ Hb) e Hn). simpl. eexists c, None, d. split; [done|]. split; [by exists k|done]. }
    apply elem_of_list_lookup in Hin as [i Hi].
    rewrite (sv_remove_lookup _ _ (bc_sparse _ _ _ Hb) e i) by done.
    destruct (bc_key _ _ Hi) as (e0 & v & Hd & He0). pose proof (lookup_lt_Some _ _ _ Hd) as Hlt.
    pose proof (bc_le _ _ _ Hb) as Hle. pose proof (bc_ents_cap _ _ _ Hb) as Hec. pose proof (bc_comps_cap _ _ _ Hb) as Hcc.
    rewrite (bc_len _ _ _ Hb). destruct (length d) as [|n] eqn:El; [lia|].
    destruct (lookup_lt_is_Some_2 d n) as [[f vf] Hf]; [lia|].
    destruct (bc_cells _ _ _ Hb _ _ _ Hf) as [Hfe Hfc]. destruct (bc_cells _ _ _ Hb _ _ _ Hd) as [Hde Hdc].
    destruct (bc_pos _ _ _ Hf) as (f0 & Hf0 & Hff). pose proof bc_length as Hkl.
    pose proof (sparse_ok_revise _ _ _ f f0 (bc_sparse _ _ _ Hb) Hf0 (eq_sym Hff)) as Hrev.
    unfold buf_read. rewrite Hfe. cbn [mbind res_bind]. rewrite Nat2N.id.
    unfold buf_write. destruct (Nat.ltb_spec i (length (c_ents c))); [|lia]. cbn [mbind res_bind].
    assert (Hfl : e_sparse f < length (c_sparse c)).
    { rewrite (e_sparse_eq f f0) by done. eapply lookup_lt_Some, (sparse_ok_slot _ _ (bc_sparse _ _ _ Hb) n f0 Hf0). }
    set (k1 := <[n := f]> k) in *.
    assert (Hk1l : length k1 = S n) by (unfold k1; by rewrite insert_length, Hkl, El).
    set (last := match i <? n with true => _ | false => _ end).
    assert (∃ sp, last = Ok sp ∧ sparse_ok sp (swap_remove k1 i)) as (sp & Hsp & Hspok).
    { subst last. destruct (Nat.ltb_spec i n) as [Hin|Hin].
      - unfold sv_write. rewrite insert_length. destruct (Nat.ltb_spec (e_sparse f) (length (c_sparse c))); [|lia].
        eexists. split; [done|].
        assert (k1 !! i = Some e) as Hk1 by (unfold k1; by rewrite list_lookup_insert_ne by lia).
        assert (k1 !! (length k1 - 1) = Some f) as Hk2.
        { rewrite Hk1l. replace (S n - 1) with n by lia. unfold k1. apply list_lookup_insert. lia. }
        pose proof (sparse_ok_swap_remove _ _ i e f Hrev Hk1 Hk2) as Hs. rewrite Hk1l in Hs.
        destruct (decide (i < S n - 1)); [|lia].
        assert (e_sparse e ≠ e_sparse f) as Hne.
        { intros Heq. rewrite (e_sparse_eq f f0) in Heq by done. apply e_sparse_inj in Heq.
          destruct (sparse_ok_inj _ _ (bc_sparse _ _ _ Hb) _ _ _ _ Hi Hf0 Heq) as [-> _]. lia. }
        rewrite (list_insert_commute _ (e_sparse e) (e_sparse f)), list_insert_insert in Hs by done. done.
      - assert (i = n) as -> by lia. eexists. split; [done|].
        assert (k1 !! n = Some f) as Hk1 by (unfold k1; apply list_lookup_insert; lia).
        assert (k1 !! (length k1 - 1) = Some f) as Hk2 by (rewrite Hk1l; by replace (S n - 1) with n by lia).
        pose proof (sparse_ok_swap_remove _ _ n f f Hrev Hk1 Hk2) as Hs. rewrite Hk1l in Hs.
        destruct (decide (n < S n - 1)); [lia|]. rewrite list_insert_insert in Hs.
        rewrite (e_sparse_eq f e) in Hs; [done|]. rewrite Hf0 in Hi. injection Hi as ->. done. }
    rewrite Hsp. cbn [mbind res_bind c_comps c_len c_sparse c_ents c_cap]. rewrite Hdc. cbn [mbind res_bind]. rewrite Hfc.
    destruct (Nat.ltb_spec i (length (c_comps c))); [|lia]. cbn [mbind res_bind]. rewrite insert_length.
    destruct (Nat.ltb_spec n (length (c_comps c))); [|lia]. cbn [mbind res_bind].
    eexists _, (Some v), (swap_remove d i). split; [done|]. split.
    - exists (swap_remove k1 i). split; simpl; rewrite ?insert_length, ?swap_remove_length, ?El; try done; try lia.
      + intros j e' v' Hj. rewrite swap_remove_lookup in Hj by lia.
        destruct (decide (j < length d - 1)) as [Hj'|]; [|done]. rewrite El in Hj'.
        rewrite (list_lookup_insert_ne _ n) by lia. destruct (decide (j = i)) as [->|Hji].
        * rewrite El in Hj. replace (S n - 1) with n in Hj by lia. rewrite Hf in Hj. injection Hj as <- <-.
          by rewrite !list_lookup_insert by lia.
        * rewrite !list_lookup_insert_ne by done. by apply (bc_cells _ _ _ Hb).
      + intros j x Hj. replace (S n - 1) with n in Hj by lia. destruct (decide (j = n)) as [->|Hjn].
        * rewrite list_lookup_insert by (rewrite insert_length; lia). by intros [= <-].
        * rewrite !list_lookup_insert_ne by lia. apply (bc_empty _ _ _ Hb). lia.
      + rewrite !swap_remove_fmap. f_equal. unfold k1. rewrite list_fmap_insert, (bc_idx _ _ _ Hb).
        apply list_insert_id. by rewrite !list_lookup_fmap, Hf.
      + apply Forall_forall. intros x Hx. apply elem_of_list_lookup in Hx as [j Hj].
        rewrite swap_remove_lookup in Hj by lia. destruct (decide _); [|done].
        pose proof (proj1 (Forall_forall _ _) (bc_small _ _ _ Hb)) as Hsm.
        assert (∀ j, k1 !! j = Some x → (e_index x < u32_lim)%N) as Hgo.
        { intros j' Hj'. unfold k1 in Hj'. destruct (decide (j' = n)) as [->|Hjn].
          - rewrite list_lookup_insert in Hj' by lia. injection Hj' as <-. rewrite <-Hff. apply Hsm. by eapply elem_of_list_lookup_2.
          - rewrite list_lookup_insert_ne in Hj' by done. apply Hsm. by eapply elem_of_list_lookup_2. }
        destruct (decide (j = i)); by eapply Hgo.
    - simpl. rewrite swap_remove_fmap. apply swap_remove_perm. by rewrite list_lookup_fmap, Hd.
  Qed.

  Lemma bc_delete e :
    ∃ c' o d', css_delete c e = Ok (c', o) ∧ brep c' d' ∧ d.*2 ≡ₚ o ++ d'.*2.
  Proof using Hb.
    destruct (bc_remove e) as (c' & o & d' & H1 & H2 & H3). rewrite css_delete_remove, H1.
    destruct o as [v|]; [exists c', [v], d'|exists c', [], d']; done.
  Qed.

  Lemma bc_entities : css_entities c = Ok d.*1.
  Proof using Hb.
    unfold css_entities. rewrite (bc_len _ _ _ Hb). rewrite <-(fmap_length fst).
    apply buf_slice_ok. intros j e He. apply dense_fst_lookup in He as [v Hv]. by apply (bc_cells _ _ _ Hb _ _ v).
  Qed.

  Lemma bc_slice_prefix n : n ≤ length d → buf_slice (c_comps c) n = Ok (take n d.*2).
  Proof using Hb.
    intros Hn. replace n with (length (take n d.*2)) at 1.
    2:{ rewrite take_length, fmap_length. lia. }
    apply buf_slice_ok. intros j v Hv. apply lookup_take_Some in Hv as [Hv _].
    rewrite list_lookup_fmap in Hv.
    destruct (d !! j) as [[e v']|] eqn:E; [|done]. simpl in Hv. injection Hv as ->.
    by apply (bc_cells _ _ _ Hb _ e).
  Qed.

  Lemma bc_slice : css_slice c = Ok d.*2.
  Proof using Hb.
    unfold css_slice. rewrite (bc_len _ _ _ Hb), bc_slice_prefix by done. rewrite take_ge; [done|]. by rewrite fmap_length.
  Qed.

  Lemma bc_clear : ∃ c', css_clear c = Ok (c', d.*2) ∧ brep c' [].
  Proof using Hb.
    unfold css_clear. pose proof bc_slice as Hs. unfold css_slice in Hs. rewrite Hs. simpl.
    eexists. split; [done|]. exists []. destruct Hb. split; simpl; try done; try lia.
    - rewrite app_length, replicate_length, drop_length. lia.
    - intros j x _ [Hj|[Hj1 Hj]]%lookup_app_Some.
      + by apply lookup_replicate in Hj as [-> _].
      + rewrite replicate_length in Hj, Hj1. rewrite lookup_drop in Hj. eapply bc_empty0; [|done]. lia.
    - apply sparse_ok_nil.
    - constructor.
  Qed.

  (** Exchanging two cells exchanges the whole slots: the versions stay behind. *)
  Lemma bc_swap a b c' : css_swap c a b = Ok c' → ∃ d', brep c' d' ∧ d'.*2 ≡ₚ d.*2 ∧ length d' = length d.
  Proof using Hb.
    unfold css_swap. rewrite (bc_len _ _ _ Hb). intros H.
    destruct (Nat.ltb_spec a (length d)) as [Hla|]; [|done]. destruct (Nat.ltb_spec b (length d)) as [Hlb|]; [|done].
    destruct (Nat.eqb_spec a b) as [|Hab]; [done|]. simpl in H.
    destruct (lookup_lt_is_Some_2 d a Hla) as [[ea va] Ha]. destruct (lookup_lt_is_Some_2 d b Hlb) as [[eb vb] Hbb].
    destruct (bc_cells _ _ _ Hb _ _ _ Ha) as [Hea Hva]. destruct (bc_cells _ _ _ Hb _ _ _ Hbb) as [Heb Hvb].
    destruct (bc_pos _ _ _ Ha) as (ka & Hka & Hkai). destruct (bc_pos _ _ _ Hbb) as (kb & Hkb & Hkbi).
    pose proof (sparse_ok_slot _ _ (bc_sparse _ _ _ Hb) _ _ Hka) as Sa.
    pose proof (sparse_ok_slot _ _ (bc_sparse _ _ _ Hb) _ _ Hkb) as Sb.
    rewrite (e_sparse_eq ka ea Hkai) in Sa. rewrite (e_sparse_eq kb eb Hkbi) in Sb.
    assert (Hne : e_sparse ea ≠ e_sparse eb).
    { intros Heq%e_sparse_inj. rewrite <-Hkai, <-Hkbi in Heq.
      by destruct (sparse_ok_inj _ _ (bc_sparse _ _ _ Hb) _ _ _ _ Hka Hkb Heq). }
    unfold buf_read in H. rewrite Hea, Heb in H. simpl in H. unfold sv_swap in H.
    destruct (Nat.eqb_spec (e_sparse ea) (e_sparse eb)); [done|]. rewrite Sa, Sb in H. simpl in H.
    pose proof (bc_le _ _ _ Hb) as Hle. pose proof (bc_ents_cap _ _ _ Hb) as Hec. pose proof (bc_comps_cap _ _ _ Hb) as Hcc.
    unfold buf_write in H.
    destruct (Nat.ltb_spec a (length (c_ents c))); [|lia]. simpl in H. rewrite insert_length in H.
    destruct (Nat.ltb_spec b (length (c_ents c))); [|lia]. simpl in H. rewrite Hva, Hvb in H. simpl in H.
    destruct (Nat.ltb_spec a (length (c_comps c))); [|lia]. simpl in H. rewrite insert_length in H.
    destruct (Nat.ltb_spec b (length (c_comps c))); [|lia]. simpl in H. injection H as <-.
    assert (Hfst : e_index <$> list_swap d.*1 a b = list_swap (e_index <$> k) a b).
    { by rewrite list_swap_fmap, (bc_idx _ _ _ Hb). }
    exists (list_swap d a b). split_and!; [|rewrite list_swap_fmap; apply list_swap_perm|by rewrite list_swap_length].
    (* the slots after the swap: index of [b] with the version found at [b] stays there *)
    set (ka' := Ent (e_index ka) (e_version kb)). set (kb' := Ent (e_index kb) (e_version ka)).
    assert (Hlka : a < length k) by (rewrite bc_length; lia). assert (Hlkb : b < length k) by (rewrite bc_length; lia).
    exists (<[a := kb']> (<[b := ka']> k)).
    split; simpl; rewrite ?insert_length, ?list_swap_length; try done; try lia.
    - intros j e v Hj. rewrite list_swap_lookup in Hj by done.
      destruct (decide (j = a)); [|destruct (decide (j = b))]; subst.
      + rewrite Hbb in Hj. injection Hj as <- <-.
        rewrite !(list_lookup_insert_ne _ b) by done. by rewrite !list_lookup_insert by lia.
      + rewrite Ha in Hj. injection Hj as <- <-. by rewrite !list_lookup_insert by (rewrite insert_length; lia).
      + rewrite !list_lookup_insert_ne by done. by apply (bc_cells _ _ _ Hb).
    - intros j x Hj. rewrite !list_lookup_insert_ne by lia. by apply (bc_empty _ _ _ Hb).
    - intros x sl.
      assert (Hx1 : e_sparse ea < length (c_sparse c)) by (by eapply lookup_lt_Some).
      assert (Hx2 : e_sparse eb < length (c_sparse c)) by (by eapply lookup_lt_Some).
      assert (Hsa : e_sparse ka' = e_sparse ea) by (by apply e_sparse_eq).
      assert (Hsb : e_sparse kb' = e_sparse eb) by (by apply e_sparse_eq).
      assert (Hcases : ∀ p y, <[a:=kb']> (<[b:=ka']> k) !! p = Some y ↔
         (p = a ∧ y = kb') ∨ (p = b ∧ y = ka') ∨ (p ≠ a ∧ p ≠ b ∧ k !! p = Some y)).
      { intros p y. destruct (decide (p = a)) as [->|Hpa].
        - rewrite list_lookup_insert by (rewrite insert_length; lia). split; [intros [= <-]; by left|].
          intros [[_ ->]|[[? _]|(? & _)]]; done.
        - rewrite list_lookup_insert_ne by done. destruct (decide (p = b)) as [->|Hpb].
          + rewrite list_lookup_insert by lia. split; [intros [= <-]; right; by left|].
            intros [[? _]|[[_ ->]|(_ & ? & _)]]; done.
          + rewrite list_lookup_insert_ne by done. split; [intros; right; by right|].
            intros [[? _]|[[? _]|(_ & _ & ?)]]; done. }
      destruct (decide (x = e_sparse ea)) as [->|Hxa].
      { rewrite list_lookup_insert by (rewrite insert_length; lia). split.
        - intros [= <-]. exists ka'. rewrite Hcases, s_dense_of_nat. split; [right; left; done|done].
        - intros (y & [[Hp ->]|[[Hp ->]|(Hpa & Hpb & Hp)]]%Hcases & Hy & Hv).
          + rewrite Hsb in Hy. done.
          + destruct sl as [p ver]. unfold s_dense in *. simpl in *. do 3 f_equal; [lia|done].
          + exfalso. apply Hpa. destruct (sparse_ok_inj _ _ (bc_sparse _ _ _ Hb) _ _ _ _ Hp Hka) as [? _]; [|done].
            rewrite Hkai. by apply e_sparse_inj. }
      rewrite list_lookup_insert_ne by done. destruct (decide (x = e_sparse eb)) as [->|Hxb].
      { rewrite list_lookup_insert by lia. split.
        - intros [= <-]. exists kb'. rewrite Hcases, s_dense_of_nat. split; [left; done|done].
        - intros (y & [[Hp ->]|[[Hp ->]|(Hpa & Hpb & Hp)]]%Hcases & Hy & Hv).
          + destruct sl as [p ver]. unfold s_dense in *. simpl in *. do 3 f_equal; [lia|done].
          + rewrite Hsa in Hy. done.
          + exfalso. apply Hpb. destruct (sparse_ok_inj _ _ (bc_sparse _ _ _ Hb) _ _ _ _ Hp Hkb) as [? _]; [|done].
            rewrite Hkbi. by apply e_sparse_inj. }
      rewrite list_lookup_insert_ne by done. rewrite (bc_sparse _ _ _ Hb x sl).
      split; intros (y & Hp & Hy & Hv); exists y; (split; [|done]).
      + rewrite Hcases. right. right. split_and!; [| |done].
        * intros Hq. rewrite Hq, Hka in Hp. injection Hp as <-. apply Hxa. rewrite <-Hy. by apply e_sparse_eq.
        * intros Hq. rewrite Hq, Hkb in Hp. injection Hp as <-. apply Hxb. rewrite <-Hy. by apply e_sparse_eq.
      + apply Hcases in Hp as [[_ ->]|[[_ ->]|(_ & _ & Hp)]]; [| |done].
        * rewrite Hsb in Hy. by subst.
        * rewrite Hsa in Hy. by subst.
    - change (@fmap list list_fmap (entity * val) entity) with (@fmap list list_fmap (entity * val) entity).
      rewrite list_swap_fmap. rewrite Hfst. rewrite !list_fmap_insert. unfold list_swap.
      rewrite !list_lookup_fmap, Hka, Hkb. simpl. by rewrite list_insert_commute.
    - apply Forall_insert; [|].
      + apply Forall_insert; [apply Hb|]. simpl. eapply Forall_lookup_1 in Hka; [|apply (bc_small _ _ _ Hb)]. done.
      + simpl. eapply Forall_lookup_1 in Hkb; [|apply (bc_small _ _ _ Hb)]. done.
  Qed.
End blind.
