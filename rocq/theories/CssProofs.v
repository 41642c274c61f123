(** A component sparse set represents a list of (entity, component) pairs. *)
From Verif Require Import Base SparseVecM EntityM CssM Lists SparseProofs.

Notation dense := (list (entity * val)).

(** The first [len] cells of the two buffers are the pairs of [d]; every sparse
    slot points to its pair. *)
Record css_rep (c : css) (d : dense) : Prop := CssRep {
  cr_ents_cap : length (c_ents c) = c_cap c;
  cr_comps_cap : length (c_comps c) = c_cap c;
  cr_len : c_len c = length d;
  cr_le : length d ≤ c_cap c;
  cr_cells : ∀ j e v, d !! j = Some (e, v) →
     c_ents c !! j = Some (Some e) ∧ c_comps c !! j = Some (Some v);
  cr_sparse : sparse_ok (c_sparse c) d.*1
}.

Lemma css_rep_new : css_rep css_new [].
Proof. split; simpl; try done; try lia. apply sparse_ok_nil. Qed.

Lemma css_rep_nil_inv c d : css_rep c d → c_len c = 0 → d = [].
Proof. intros H H0. rewrite (cr_len _ _ H) in H0. by apply nil_length_inv. Qed.

Lemma dense_fst_lookup (d : dense) i e : d.*1 !! i = Some e ↔ ∃ v, d !! i = Some (e, v).
Proof.
  rewrite list_lookup_fmap. destruct (d !! i) as [[e' v']|]; simpl; split; try done.
  - intros [= ->]. by exists v'.
  - by intros [v [= -> _]].
  - by intros [v ?].
Qed.

Lemma dense_fst_elem (d : dense) e : e ∈ d.*1 ↔ ∃ v, (e, v) ∈ d.
Proof.
  rewrite elem_of_list_fmap. split.
  - intros ([e' v] & -> & H). by exists v.
  - intros (v & H). by exists (e, v).
Qed.

Section rep.
  Context (c : css) (d : dense) (Hr : css_rep c d).

  Lemma css_rep_pair_inj i j e v v' :
    d !! i = Some (e, v) → d !! j = Some (e, v') → i = j ∧ v = v'.
  Proof using Hr.
    intros H1 H2.
    destruct (sparse_ok_inj _ _ (cr_sparse _ _ Hr) i j e e) as [-> _]; try done.
    - rewrite list_lookup_fmap, H1. done.
    - rewrite list_lookup_fmap, H2. done.
    - rewrite H1 in H2. by inversion H2.
  Qed.

  Lemma css_get_ref_lookup i e v : d !! i = Some (e, v) → css_get_ref c e = Ok (Some (i, v)).
  Proof using Hr.
    intros H. unfold css_get_ref.
    rewrite (sv_get_lookup _ _ (cr_sparse _ _ Hr) e i) by (apply dense_fst_lookup; eauto).
    rewrite Nat2N.id. destruct (cr_cells _ _ Hr _ _ _ H) as [_ Hc].
    unfold buf_read. rewrite Hc. done.
  Qed.

  Lemma css_get_ref_None e : e ∉ d.*1 → css_get_ref c e = Ok None.
  Proof using Hr.
    intros H. unfold css_get_ref. by rewrite (sv_get_None _ _ (cr_sparse _ _ Hr) e H).
  Qed.

  Lemma css_get_lookup i e v : d !! i = Some (e, v) → css_get c e = Ok (Some v).
  Proof using Hr. intros H. unfold css_get. by rewrite (css_get_ref_lookup _ _ _ H). Qed.

  Lemma css_get_None e : e ∉ d.*1 → css_get c e = Ok None.
  Proof using Hr. intros H. unfold css_get. by rewrite (css_get_ref_None _ H). Qed.

  Lemma css_contains_elem e : css_contains c e = true ↔ e ∈ d.*1.
  Proof using Hr. apply sv_contains_elem, Hr. Qed.

  Lemma css_set_lookup i e v v' :
    d !! i = Some (e, v) → ∃ c', css_set c i v' = Ok c' ∧ css_rep c' (<[i := (e, v')]> d).
  Proof using Hr.
    intros H. destruct (cr_cells _ _ Hr _ _ _ H) as [He Hc].
    assert (Hlt : i < length d) by (by eapply lookup_lt_Some).
    unfold css_set, buf_read, buf_write. rewrite Hc. simpl.
    assert (i < length (c_comps c)) as Hi.
    { rewrite (cr_comps_cap _ _ Hr). pose proof (cr_le _ _ Hr). lia. }
    destruct (Nat.ltb_spec i (length (c_comps c))); [|lia]. simpl. eexists. split; [done|].
    destruct Hr. split; simpl; rewrite ?insert_length; try done.
    - intros j e' v'' Hj. destruct (decide (i = j)) as [<-|Hne].
      + rewrite list_lookup_insert in Hj by done. inversion Hj; subst.
        rewrite list_lookup_insert by done. done.
      + rewrite list_lookup_insert_ne in Hj by done. rewrite list_lookup_insert_ne by done.
        by apply cr_cells0.
    - rewrite list_fmap_insert. rewrite list_insert_id; [done|]. rewrite list_lookup_fmap, H. done.
  Qed.

  (** Growing keeps the contents. *)
  Lemma css_grow_rep : length d = c_cap c → css_rep (css_grow c) d ∧ length d < c_cap (css_grow c).
  Proof using Hr.
    intros Hfull. destruct Hr. assert (length d < css_new_cap (c_cap c)) as Hcap.
    { unfold css_new_cap. destruct (c_cap c); lia. }
    split; [|done]. split; simpl; rewrite ?app_length, ?take_length, ?replicate_length; try done; try lia.
    - intros j e v Hj. apply lookup_lt_Some in Hj as Hlt. destruct (cr_cells0 _ _ _ Hj) as [H1 H2].
      rewrite !lookup_app_l, !lookup_take by (rewrite ?take_length; lia). done.
  Qed.

  Lemma css_insert_app e v :
    small d.*1 → (e_index e < u32_lim)%N → fresh_index e d.*1 →
    ∃ c', css_insert c e v = Ok (c', None) ∧ css_rep c' (d ++ [(e, v)]).
  Proof using Hr.
    intros Hs He Hf.
    assert (Hroom : (N.of_nat (length d) < u32_lim)%N).
    { rewrite <-(fmap_length fst). by eapply sparse_ok_room; [apply Hr|..]. }
    unfold css_insert.
    pose proof (sparse_ok_allocate _ _ (e_sparse e) (cr_sparse _ _ Hr)) as Hsp.
    pose proof (sv_allocate_at_length (c_sparse c) (e_sparse e)) as Hlen.
    set (sp := sv_allocate_at (c_sparse c) (e_sparse e)) in *. clearbody sp.
    destruct (sp !! e_sparse e) as [[sl|]|] eqn:Esp.
    { exfalso. by eapply sparse_ok_fresh. }
    2:{ apply lookup_ge_None in Esp. lia. }
    clear Esp.
    pose proof (sparse_ok_app sp d.*1 e Hsp Hf) as Happ. rewrite fmap_length in Happ.
    specialize (Happ Hroom Hlen). rewrite <-(cr_len _ _ Hr) in Happ.
    set (sp' := <[e_sparse e := _]> sp) in *. clearbody sp'.
    set (s1 := Css sp' (c_ents c) (c_comps c) (c_len c) (c_cap c)).
    assert (Hgrow : let s2 := if c_len c =? c_cap c then css_grow s1 else s1 in
              c_sparse s2 = sp' ∧ length (c_ents s2) = c_cap s2 ∧ length (c_comps s2) = c_cap s2 ∧
              length d < c_cap s2 ∧
              ∀ j e v, d !! j = Some (e, v) →
                c_ents s2 !! j = Some (Some e) ∧ c_comps s2 !! j = Some (Some v)).
    { destruct (Nat.eqb_spec (c_len c) (c_cap c)) as [Heq|Hne].
      - assert (length d < css_new_cap (c_cap c)).
        { rewrite (cr_len _ _ Hr) in Heq. unfold css_new_cap. destruct (c_cap c); lia. }
        destruct Hr. simpl. rewrite !app_length, !take_length, !replicate_length.
        split_and!; try lia; try done.
        intros j e' v' Hj. apply lookup_lt_Some in Hj as Hlt. destruct (cr_cells0 _ _ _ Hj) as [H1 H2].
        rewrite !lookup_app_l, !lookup_take by (rewrite ?take_length; lia). done.
      - destruct Hr. simpl. split_and!; try done. lia. }
    set (s2 := if c_len c =? c_cap c then css_grow s1 else s1) in *.
    destruct Hgrow as (Hg1 & Hg2 & Hg3 & Hg4 & Hg5). clearbody s2.
    rewrite (cr_len _ _ Hr) in *.
    unfold buf_write. rewrite Hg2, Hg3.
    destruct (Nat.ltb_spec (length d) (c_cap s2)); [|lia]. simpl.
    eexists. split; [done|]. split; simpl; rewrite ?insert_length, ?app_length; simpl; try done; try lia.
    - intros j e' v' Hj. apply lookup_app_Some in Hj as [Hj|[Hge Hj]].
      + assert (j < length d) by (by eapply lookup_lt_Some).
        rewrite !list_lookup_insert_ne by lia. by apply Hg5.
      + apply list_lookup_singleton_Some in Hj as [Hz [= -> ->]].
        assert (j = length d) as -> by lia.
        rewrite !list_lookup_insert by lia. done.
    - rewrite fmap_app. simpl. rewrite Hg1. done.
  Qed.

  Lemma css_insert_replace i e v old :
    d !! i = Some (e, old) →
    ∃ c', css_insert c e v = Ok (c', Some old) ∧ css_rep c' (<[i := (e, v)]> d).
  Proof using Hr.
    intros Hi. unfold css_insert.
    pose proof (sparse_ok_allocate _ _ (e_sparse e) (cr_sparse _ _ Hr)) as Hsp.
    set (sp := sv_allocate_at (c_sparse c) (e_sparse e)) in *. clearbody sp.
    rewrite (sparse_ok_slot _ _ Hsp i e) by (apply dense_fst_lookup; eauto).
    rewrite s_dense_of_nat. destruct (cr_cells _ _ Hr _ _ _ Hi) as [He Hc].
    assert (Hlt : i < length d) by (by eapply lookup_lt_Some).
    pose proof (cr_le _ _ Hr). pose proof (cr_ents_cap _ _ Hr). pose proof (cr_comps_cap _ _ Hr).
    unfold buf_write, buf_read. rewrite Hc.
    destruct (Nat.ltb_spec i (length (c_ents c))); [|lia].
    destruct (Nat.ltb_spec i (length (c_comps c))); [|lia]. simpl.
    eexists. split; [done|].
    destruct Hr. split; simpl; rewrite ?insert_length; try done.
    - intros j e' v' Hj. destruct (decide (i = j)) as [<-|Hne].
      + rewrite list_lookup_insert in Hj by done. inversion Hj; subst.
        rewrite !list_lookup_insert by lia. done.
      + rewrite list_lookup_insert_ne in Hj by done. rewrite !list_lookup_insert_ne by done.
        by apply cr_cells0.
    - rewrite list_fmap_insert. rewrite list_insert_id; [done|]. rewrite list_lookup_fmap, Hi. done.
  Qed.

  Lemma css_detach_lookup i e v :
    d !! i = Some (e, v) →
    ∃ sp ents, css_detach c e = Ok (Some (i, Css sp ents (c_comps c) (length d - 1) (c_cap c))) ∧
      length ents = c_cap c ∧ sparse_ok sp (swap_remove d i).*1 ∧
      (∀ j e' v', swap_remove d i !! j = Some (e', v') → ents !! j = Some (Some e')).
  Proof using Hr.
    intros Hi. assert (Hlt : i < length d) by (by eapply lookup_lt_Some).
    assert (Hi1 : d.*1 !! i = Some e) by (apply dense_fst_lookup; eauto).
    unfold css_detach. rewrite (sv_remove_lookup _ _ (cr_sparse _ _ Hr) e i) by done.
    rewrite (cr_len _ _ Hr). destruct (length d) as [|n] eqn:El; [lia|].
    destruct (lookup_lt_is_Some_2 d n) as [[f vf] Hf]; [lia|].
    destruct (cr_cells _ _ Hr _ _ _ Hf) as [Hfe Hfc].
    pose proof (cr_le _ _ Hr). pose proof (cr_ents_cap _ _ Hr).
    unfold buf_read. rewrite Hfe. simpl. rewrite Nat2N.id.
    unfold buf_write. destruct (Nat.ltb_spec i (length (c_ents c))); [|lia]. simpl.
    pose proof (sparse_ok_swap_remove _ _ i e f (cr_sparse _ _ Hr) Hi1) as Hsp.
    rewrite fmap_length, El in Hsp. replace (S n - 1) with n in Hsp by lia.
    specialize (Hsp ltac:(apply dense_fst_lookup; eauto)).
    rewrite <-swap_remove_fmap in Hsp.
    assert (Hents : ∀ j e' v', swap_remove d i !! j = Some (e', v') →
                    <[i:=Some f]> (c_ents c) !! j = Some (Some e')).
    { intros j e' v'. rewrite swap_remove_lookup by lia. destruct (decide (j < length d - 1)); [|done]. destruct (decide (j = i)); subst.
      - rewrite El. replace (S n - 1) with n by lia. rewrite Hf. intros [= <- <-].
        rewrite list_lookup_insert by lia. done.
      - intros Hj. rewrite list_lookup_insert_ne by done. by apply (cr_cells _ _ Hr _ _ v'). }
    replace (S n - 1) with n by lia.
    destruct (Nat.ltb_spec i n).
    - destruct (decide (i < n)); [|lia].
      assert (e_sparse f < length (<[e_sparse e := None]> (c_sparse c))).
      { rewrite insert_length. eapply lookup_lt_Some. apply (sparse_ok_slot _ _ (cr_sparse _ _ Hr) n f).
        apply dense_fst_lookup; eauto. }
      unfold sv_write. destruct (Nat.ltb_spec (e_sparse f) (length (<[e_sparse e := None]> (c_sparse c)))); [|lia].
      simpl. eexists _, _. rewrite Nat.sub_0_r. split; [done|]. rewrite insert_length. eauto.
    - destruct (decide (i < n)); [lia|].
      simpl. eexists _, _. rewrite ?Nat.sub_0_r. split; [done|]. rewrite insert_length. eauto.
  Qed.

  Lemma css_detach_None e : e ∉ d.*1 → css_detach c e = Ok None.
  Proof using Hr.
    intros H. unfold css_detach. by rewrite (sv_remove_None _ _ (cr_sparse _ _ Hr) e H).
  Qed.

  Lemma css_remove_lookup i e v :
    d !! i = Some (e, v) → ∃ c', css_remove c e = Ok (c', Some v) ∧ css_rep c' (swap_remove d i).
  Proof using Hr.
    intros Hi. assert (Hlt : i < length d) by (by eapply lookup_lt_Some).
    destruct (css_detach_lookup i e v Hi) as (sp & ents & Hd & Hel & Hsp & Hcells).
    unfold css_remove. rewrite Hd. simpl. unfold buf_read.
    destruct (cr_cells _ _ Hr _ _ _ Hi) as [He Hc]. rewrite Hc. simpl.
    destruct (lookup_lt_is_Some_2 d (length d - 1)) as [[f vf] Hf]; [lia|].
    destruct (cr_cells _ _ Hr _ _ _ Hf) as [Hfe Hfc]. rewrite Hfc.
    pose proof (cr_le _ _ Hr). pose proof (cr_comps_cap _ _ Hr).
    unfold buf_write. destruct (Nat.ltb_spec i (length (c_comps c))); [|lia]. simpl.
    rewrite insert_length. destruct (Nat.ltb_spec (length d - 1) (length (c_comps c))); [|lia]. simpl.
    eexists. split; [done|]. split; simpl; rewrite ?insert_length, ?swap_remove_length; try done; try lia.
    intros j e' v' Hj. split; [by eapply Hcells|].
    rewrite swap_remove_lookup in Hj by done. destruct (decide (j < length d - 1)); [|done].
    rewrite list_lookup_insert_ne by lia. destruct (decide (j = i)); subst.
    - rewrite Hf in Hj. inversion Hj; subst. by rewrite list_lookup_insert by lia.
    - rewrite list_lookup_insert_ne by done. by apply (cr_cells _ _ Hr _ e').
  Qed.

  Lemma css_remove_None e : e ∉ d.*1 → css_remove c e = Ok (c, None).
  Proof using Hr. intros H. unfold css_remove. by rewrite (css_detach_None e H). Qed.

  Lemma css_delete_remove e :
    css_delete c e = match css_remove c e with
                     | Ok (c', Some v) => Ok (c', [v])
                     | Ok (c', None) => Ok (c', [])
                     | Panic => Panic
                     | UB => UB
                     end.
  Proof using Type.
    unfold css_delete, css_remove. destruct (css_detach c e) as [[[i c1]|]| |]; simpl; try done.
    destruct (buf_read (c_comps c1) i); simpl; try done.
    destruct (c_comps c1 !! c_len c1); simpl; try done.
    unfold buf_write. destruct (_ <? _); simpl; try done.
    destruct (_ <? _); simpl; done.
  Qed.

  Lemma css_delete_lookup i e v :
    d !! i = Some (e, v) → ∃ c', css_delete c e = Ok (c', [v]) ∧ css_rep c' (swap_remove d i).
  Proof using Hr.
    intros Hi. destruct (css_remove_lookup i e v Hi) as (c' & H1 & H2).
    exists c'. by rewrite css_delete_remove, H1.
  Qed.

  Lemma css_delete_None e : e ∉ d.*1 → css_delete c e = Ok (c, []).
  Proof using Hr. intros H. by rewrite css_delete_remove, (css_remove_None e H). Qed.

  Lemma buf_slice_ok {A} (b : list (option A)) (l : list A) :
    (∀ j x, l !! j = Some x → b !! j = Some (Some x)) → buf_slice b (length l) = Ok l.
  Proof using Type.
    clear. revert b. induction l as [|x l IH]; intros b H; simpl; [by destruct b|].
    pose proof (H 0 x eq_refl) as H0. destruct b as [|y b]; [done|]. simpl in H0.
    inversion H0; subst. simpl. rewrite IH; [done|]. intros j z Hj. apply (H (S j) z Hj).
  Qed.

  Lemma css_entities_ok : css_entities c = Ok d.*1.
  Proof using Hr.
    unfold css_entities. rewrite (cr_len _ _ Hr). rewrite <-(fmap_length fst).
    apply buf_slice_ok. intros j e He. apply dense_fst_lookup in He as [v Hv].
    by apply (cr_cells _ _ Hr _ _ v).
  Qed.

  Lemma css_slice_ok : css_slice c = Ok d.*2.
  Proof using Hr.
    unfold css_slice. rewrite (cr_len _ _ Hr). rewrite <-(fmap_length snd).
    apply buf_slice_ok. intros j v Hv. rewrite list_lookup_fmap in Hv.
    destruct (d !! j) as [[e v']|] eqn:E; [|done]. simpl in Hv. inversion Hv; subst.
    by apply (cr_cells _ _ Hr _ e).
  Qed.

  Lemma css_slice_prefix n : n ≤ length d → buf_slice (c_comps c) n = Ok (take n d.*2).
  Proof using Hr.
    intros Hn. replace n with (length (take n d.*2)) at 1.
    2:{ rewrite take_length, fmap_length. lia. }
    apply buf_slice_ok. intros j v Hv. apply lookup_take_Some in Hv as [Hv _].
    rewrite list_lookup_fmap in Hv.
    destruct (d !! j) as [[e v']|] eqn:E; [|done]. simpl in Hv. inversion Hv; subst.
    by apply (cr_cells _ _ Hr _ e).
  Qed.

  Lemma css_drop_ok : css_drop c = Ok d.*2.
  Proof using Hr. apply css_slice_ok. Qed.

  Lemma css_clear_ok : ∃ c', css_clear c = Ok (c', d.*2) ∧ css_rep c' [].
  Proof using Hr.
    unfold css_clear. pose proof css_slice_ok as Hs. unfold css_slice in Hs. rewrite Hs. simpl.
    eexists. split; [done|]. destruct Hr. split; simpl; try done; try lia.
    - rewrite app_length, replicate_length, drop_length. lia.
    - apply sparse_ok_nil.
  Qed.

  Lemma css_swap_ok a b ea eb va vb :
    d !! a = Some (ea, va) → d !! b = Some (eb, vb) → a ≠ b → e_version ea = e_version eb →
    ∃ c', css_swap c a b = Ok c' ∧ css_rep c' (list_swap d a b).
  Proof using Hr.
    intros Ha Hb Hab Hv.
    assert (Hla : a < length d) by (by eapply lookup_lt_Some).
    assert (Hlb : b < length d) by (by eapply lookup_lt_Some).
    destruct (cr_cells _ _ Hr _ _ _ Ha) as [Hea Hca].
    destruct (cr_cells _ _ Hr _ _ _ Hb) as [Heb Hcb].
    unfold css_swap. rewrite (cr_len _ _ Hr).
    destruct (Nat.ltb_spec a (length d)); [|lia]. destruct (Nat.ltb_spec b (length d)); [|lia].
    destruct (Nat.eqb_spec a b); [done|]. simpl.
    unfold buf_read. rewrite Hea, Heb, Hca, Hcb. simpl.
    destruct (sparse_ok_swap _ _ a b ea eb (cr_sparse _ _ Hr)) as (sp' & Hsw & Hok); try done.
    { apply dense_fst_lookup; eauto. } { apply dense_fst_lookup; eauto. }
    rewrite Hsw. simpl.
    pose proof (cr_le _ _ Hr). pose proof (cr_ents_cap _ _ Hr). pose proof (cr_comps_cap _ _ Hr).
    unfold buf_write.
    destruct (Nat.ltb_spec a (length (c_ents c))); [|lia]. simpl. rewrite insert_length.
    destruct (Nat.ltb_spec b (length (c_ents c))); [|lia]. simpl.
    destruct (Nat.ltb_spec a (length (c_comps c))); [|lia]. simpl. rewrite insert_length.
    destruct (Nat.ltb_spec b (length (c_comps c))); [|lia]. simpl.
    eexists. split; [done|].
    split; simpl; rewrite ?insert_length, ?list_swap_length; try done; try lia.
    2:{ by rewrite list_swap_fmap. }
    intros j e v Hj. rewrite list_swap_lookup in Hj by done.
    destruct (decide (j = a)); [|destruct (decide (j = b))]; subst.
    - rewrite Hb in Hj. inversion Hj; subst.
      rewrite !(list_lookup_insert_ne _ b) by done. rewrite !list_lookup_insert by lia. done.
    - rewrite Ha in Hj. inversion Hj; subst.
      rewrite !list_lookup_insert by (rewrite insert_length; lia). done.
    - rewrite !list_lookup_insert_ne by done. by apply (cr_cells _ _ Hr).
  Qed.
End rep.
