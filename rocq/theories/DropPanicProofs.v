(** Components whose [Drop] panics. *)
From Verif Require Import Base Lists SparseVecM EntityM CssM MaskM LayoutM GroupM StorageM WorldM QueryM StepM DropPanicM
  SparseProofs CssProofs MaskProofs GroupProofs Spec EntityProofs LayoutProofs StorageProofs StoreOps LayoutOps
  WorldProofs Contents History Facts.

Section bombs.
  Context (bomb : val → bool).

  (** ** Without a panic nothing changes *)

  Lemma css_delete_p_none s e s' ds :
    css_delete s e = Ok (s', ds) → existsb bomb ds = false → css_delete_p bomb s e = Ok (false, s', ds).
  Proof.
    unfold css_delete, css_delete_p. destruct (css_detach s e) as [[[i s1]|]| |]; simpl; try done.
    2:{ by intros [= <- <-]. }
    destruct (buf_read (c_comps s1) i) as [v| |] eqn:Hv; simpl; try done.
    destruct (c_comps s1 !! c_len s1) as [lc|] eqn:Hl; [|done]. unfold buf_write.
    destruct (Nat.ltb_spec i (length (c_comps s1))) as [Hi|]; simpl; [|done].
    rewrite insert_length. destruct (Nat.ltb_spec (c_len s1) (length (c_comps s1))) as [Hn|]; simpl; [|done].
    intros [= <- <-]. simpl. rewrite orb_false_r. intros ->.
    destruct (Nat.eqb_spec (c_len s1) i) as [->|Hne]; simpl.
    - rewrite !insert_length. destruct (Nat.ltb_spec i (length (c_comps s1))); [|lia]. simpl.
      rewrite !list_insert_insert, insert_length. destruct (Nat.ltb_spec i (length (c_comps s1))); [done|lia].
    - rewrite list_lookup_insert_ne, Hl by done. rewrite !insert_length.
      destruct (Nat.ltb_spec i (length (c_comps s1))); [|lia]. simpl.
      rewrite !insert_length. destruct (Nat.ltb_spec (c_len s1) (length (c_comps s1))); [|lia]. simpl.
      by rewrite list_insert_insert.
  Qed.

  Lemma buf_slice_S {A} (b : list (option A)) i n l : buf_slice (drop i b) (S n) = Ok l →
    ∃ x l', l = x :: l' ∧ b !! i = Some (Some x) ∧ buf_slice (drop (S i) b) n = Ok l'.
  Proof.
    intros H. destruct (drop i b) as [|[x|] b'] eqn:Hd; simpl in H; try done.
    assert (b !! i = Some (Some x)) as Hi by (by rewrite <-(Nat.add_0_r i), <-lookup_drop, Hd).
    assert (b' = drop (S i) b) as ->.
    { rewrite <-Nat.add_1_r, <-drop_drop, Hd. done. }
    destruct (buf_slice (drop (S i) b) n) as [l'| |] eqn:Hl; simpl in H; try done. injection H as <-. eauto.
  Qed.

  Lemma drop_insert_lt {A} (b : list A) i j x : i < j → drop j (<[i := x]> b) = drop j b.
  Proof. intros. by apply drop_insert_gt. Qed.

  (** The outcome of the loop of drops. *)
  Lemma drop_cells_ok n : ∀ b i vs, buf_slice (drop i b) n = Ok vs →
    if existsb bomb vs
    then ∃ b' vs' rest, drop_cells bomb b i n = Ok (true, b', vs') ∧ vs = vs' ++ rest ∧ b' !! i = Some None ∧
           length b' = length b ∧ (∀ j, j < i → b' !! j = b !! j)
    else drop_cells bomb b i n = Ok (false, take i b ++ replicate n None ++ drop (i + n) b, vs).
  Proof.
    induction n as [|n IH]; intros b i vs Hs.
    - assert (vs = []) as -> by (destruct (drop i b); simpl in Hs; congruence). simpl. by rewrite Nat.add_0_r, take_drop.
    - apply buf_slice_S in Hs as (v & vs' & -> & Hi & Hs). simpl. unfold buf_read, buf_write. rewrite Hi. simpl.
      pose proof (lookup_lt_Some _ _ _ Hi) as Hlt. destruct (Nat.ltb_spec i (length b)); [|lia]. simpl.
      destruct (bomb v) eqn:Hb; simpl.
      { eexists _, [v], vs'. split_and!; try done.
        - by rewrite list_lookup_insert.
        - by rewrite insert_length.
        - intros j Hj. rewrite list_lookup_insert_ne by lia. done. }
      specialize (IH (<[i := None]> b) (S i) vs'). rewrite drop_insert_lt in IH by lia. specialize (IH Hs).
      destruct (existsb bomb vs').
      + destruct IH as (b' & vs1 & rest & -> & -> & H1 & H2 & H3). eexists _, (v :: vs1), rest. split_and!; try done.
        * rewrite H3 by lia. by rewrite list_lookup_insert.
        * by rewrite H2, insert_length.
        * intros j Hj. rewrite H3 by lia. rewrite list_lookup_insert_ne by lia. done.
      + rewrite IH. do 3 f_equal. rewrite drop_insert_lt by lia. rewrite (take_S_r _ _ None) by (by rewrite list_lookup_insert).
        rewrite take_insert by lia. rewrite <-(assoc_L (++)). simpl. by replace (i + S n) with (S (i + n)) by lia.
  Qed.

  Lemma css_clear_p_none s s' ds :
    css_clear s = Ok (s', ds) → existsb bomb ds = false → css_clear_p bomb s = Ok (false, s', ds).
  Proof.
    unfold css_clear, css_clear_p. destruct (buf_slice (c_comps s) (c_len s)) as [vs| |] eqn:Hs; simpl; try done.
    intros [= <- <-] Hb. pose proof (drop_cells_ok (c_len s) (c_comps s) 0 vs Hs) as H. rewrite Hb in H. by rewrite H.
  Qed.

  Lemma existsb_app_false ds ds' : existsb bomb (ds ++ ds') = false → existsb bomb ds = false ∧ existsb bomb ds' = false.
  Proof. rewrite existsb_app. apply orb_false_iff. Qed.

  Lemma clear_each_p_none l : ∀ l' ds,
    clear_each l = Ok (l', ds) → existsb bomb ds = false → clear_each_p bomb l = Ok (false, l', ds).
  Proof.
    induction l as [|s l IH]; intros l' ds; simpl; [by intros [= <- <-]|].
    destruct (css_clear s) as [[s1 d1]| |] eqn:H1; simpl; try done.
    destruct (clear_each l) as [[l2 d2]| |] eqn:H2; simpl; try done. intros [= <- <-] [Hb1 Hb2]%existsb_app_false.
    rewrite (css_clear_p_none _ _ _ H1 Hb1), (IH _ _ eq_refl Hb2). done.
  Qed.

  Lemma delete_each_p_none l e : ∀ l' ds,
    delete_each l e = Ok (l', ds) → existsb bomb ds = false → delete_each_p bomb l e = Ok (false, l', ds).
  Proof.
    induction l as [|s l IH]; intros l' ds; simpl; [by intros [= <- <-]|].
    destruct (css_delete s e) as [[s1 d1]| |] eqn:H1; simpl; try done.
    destruct (delete_each l e) as [[l2 d2]| |] eqn:H2; simpl; try done. intros [= <- <-] [Hb1 Hb2]%existsb_app_false.
    rewrite (css_delete_p_none _ _ _ _ H1 Hb1), (IH _ _ eq_refl Hb2). done.
  Qed.

  Lemma delete_list_p_none e is_ : ∀ l l' ds,
    delete_list l e is_ = Ok (l', ds) → existsb bomb ds = false → delete_list_p bomb l e is_ = Ok (false, l', ds).
  Proof.
    induction is_ as [|i is_ IH]; intros l l' ds; simpl; [by intros [= <- <-]|].
    destruct (l !! i) as [s|]; [|done].
    destruct (css_delete s e) as [[s1 d1]| |] eqn:H1; simpl; try done.
    destruct (delete_list _ e is_) as [[l2 d2]| |] eqn:H2; simpl; try done. intros [= <- <-] [Hb1 Hb2]%existsb_app_false.
    rewrite (css_delete_p_none _ _ _ _ H1 Hb1), (IH _ _ _ H2 Hb2). done.
  Qed.

  (** The insertion loop: no panic, or the same as inserting a prefix and then an
      unregistered type. *)
  Lemma insert_loop_p_ok mt e : ∀ cs comps mask,
    match insert_loop_p bomb mt comps mask e cs with
    | InsOk ds comps' mask' => insert_loop mt comps mask e cs = InsOk ds comps' mask' ∧ existsb bomb ds = false
    | InsPanic ds comps' =>
        ∃ k ds0, ds = ds0 ++ (drop k cs).*2 ∧
          ∀ t v, mt !! t = None → insert_loop mt comps mask e (take k cs ++ [(t, v)]) = InsPanic (ds0 ++ [v]) comps'
    | InsUB => insert_loop mt comps mask e cs = InsUB
    end.
  Proof.
    induction cs as [|[t v] cs IH]; intros comps mask; simpl; [done|].
    destruct (mt !! t) as [m|] eqn:Ht.
    2:{ exists 0, []. split; [done|]. intros t' v' Ht'. simpl. by rewrite Ht'. }
    destruct (comps !! m_index m) as [s|] eqn:Hs; [|done].
    destruct (css_insert s e v) as [[s' old]| |] eqn:Hi; [|done..].
    set (d := match old with Some o => [o] | None => [] end).
    destruct (existsb bomb d) eqn:Hb.
    { exists 1, d. split; [done|]. intros t' v' Ht'. simpl. by rewrite Ht, Hs, Hi, Ht'. }
    specialize (IH (<[m_index m := s']> comps) (gm_or mask (m_insert m))).
    destruct (insert_loop_p bomb mt _ _ e cs) as [ds2 c2 m2|ds2 c2|].
    - destruct IH as [-> Hb2]. split; [done|]. by rewrite existsb_app, Hb, Hb2.
    - destruct IH as (k & ds0 & -> & H). exists (S k), (d ++ ds0). split; [by rewrite (assoc_L (++))|].
      intros t' v' Ht'. simpl. rewrite Ht, Hs, Hi. fold d. by rewrite (H t' v' Ht'), (assoc_L (++)).
    - by rewrite IH.
  Qed.

  (** The same without bombs among what is replaced. *)
  Lemma insert_loop_p_none mt e : ∀ cs comps mask,
    match insert_loop mt comps mask e cs with
    | InsOk ds comps' mask' =>
        existsb bomb ds = false → insert_loop_p bomb mt comps mask e cs = InsOk ds comps' mask'
    | InsPanic ds comps' =>
        existsb bomb ds = false → insert_loop_p bomb mt comps mask e cs = InsPanic ds comps'
    | InsUB => True
    end.
  Proof.
    induction cs as [|[t v] cs IH]; intros comps mask; simpl; [done|].
    destruct (mt !! t) as [m|] eqn:Ht; [|done].
    destruct (comps !! m_index m) as [s|] eqn:Hs; [|done].
    destruct (css_insert s e v) as [[s' old]| |] eqn:Hi; [|done..].
    set (d := match old with Some o => [o] | None => [] end).
    specialize (IH (<[m_index m := s']> comps) (gm_or mask (m_insert m))).
    destruct (insert_loop mt _ _ e cs) as [ds2 c2 m2|ds2 c2|]; [..|done].
    - intros [Hb1 Hb2]%existsb_app_false. by rewrite Hb1, IH.
    - intros [Hb1 Hb2]%existsb_app_false. by rewrite Hb1, IH.
  Qed.

  Lemma insert_row_p_none e row : ∀ comps comps' ds,
    insert_row comps e row = Ok (comps', ds) → existsb bomb ds = false →
    insert_row_p bomb comps e row = Ok (false, comps', ds).
  Proof.
    induction row as [|[i v] row IH]; intros comps comps' ds; simpl; [by intros [= <- <-]|].
    destruct (comps !! i) as [s|]; [|done]. destruct (css_insert s e v) as [[s' old]| |]; [|done..].
    destruct (insert_row _ e row) as [[c2 d2]| |] eqn:H2; [|done..].
    destruct old as [o|]; intros [= <- <-]; simpl.
    - intros [-> Hb]%orb_false_iff. simpl. by rewrite (IH _ _ _ H2 Hb).
    - intros Hb. by rewrite (IH _ _ _ H2 Hb).
  Qed.

  Lemma extend_rows_p_none is_ rows : ∀ ents comps,
    match extend_rows ents comps is_ rows with
    | RowsOk ds en c new =>
        existsb bomb ds = false → extend_rows_p bomb ents comps is_ rows = RowsOk ds en c new
    | RowsPanic ds en c new =>
        existsb bomb ds = false → extend_rows_p bomb ents comps is_ rows = RowsPanic ds en c new
    | RowsUB => True
    end.
  Proof.
    induction rows as [|row rows IH]; intros ents comps; simpl; [done|].
    destruct (estore_create ents) as [[e ents']| |]; [|done..].
    destruct (insert_row comps e (zip is_ row)) as [[c1 d1]| |] eqn:H1; [|done..].
    specialize (IH ents' c1). destruct (extend_rows ents' c1 is_ rows) as [d2 en c2 new|d2 en c2 new|]; [| |done];
      intros [Hb1 Hb2]%existsb_app_false; by rewrite (insert_row_p_none _ _ _ _ _ H1 Hb1), (IH Hb2).
  Qed.

  Definition defined (r : result) : Prop := match r with (UndefBeh _, _, _) => False | _ => True end.

  (** A call that drops no bomb behaves as without bombs. *)
  Lemma no_bomb w :
    (∀ e cs, defined (world_insert w e cs) → existsb bomb (world_insert w e cs).1.2 = false →
       world_insert_p bomb w e cs = world_insert w e cs) ∧
    (∀ e ts, defined (set_delete w e ts) → existsb bomb (set_delete w e ts).1.2 = false →
       world_delete_p bomb w e ts = set_delete w e ts) ∧
    (∀ e, defined (world_destroy w e) → existsb bomb (world_destroy w e).1.2 = false →
       world_destroy_p bomb w e = world_destroy w e) ∧
    (defined (world_clear w) → existsb bomb (world_clear w).1.2 = false →
       world_clear_p bomb w = world_clear w) ∧
    (defined (world_reset w) → existsb bomb (world_reset w).1.2 = false →
       world_reset_p bomb w = world_reset w) ∧
    (∀ cs, defined (world_create w cs) → existsb bomb (world_create w cs).1.2 = false →
       world_create_p bomb w cs = world_create w cs) ∧
    (∀ ts rows b, defined (set_extend w ts rows b) → existsb bomb (set_extend w ts rows b).1.2 = false →
       set_extend_p bomb w ts rows b = set_extend w ts rows b).
  Proof.
    split_and!.
    - intros e cs. unfold world_insert, world_insert_p, set_insert, set_insert_p. destruct (estore_contains (w_ents w) e).
      2:{ simpl. by intros _ ->. }
      pose proof (insert_loop_p_none (cs_meta (w_comps w)) e cs (cs_comps (w_comps w)) 0) as H.
      destruct (insert_loop _ _ _ _ _) as [ds c m|ds c|]; simpl; [| |done].
      + destruct (group_if _ m e) eqn:Hg; simpl; try done. intros _ Hb. rewrite (H Hb). by rewrite Hg.
      + intros _ Hb. by rewrite (H Hb).
    - intros e ts. unfold set_delete, world_delete_p. destruct (lookup_metas _ _ ts) as [[is_ mask]|]; [|done].
      destruct (ungroup_if _ mask e) as [s1| |]; try done.
      destruct (delete_list (cs_comps s1) e is_) as [[c ds]| |] eqn:Hd; simpl; try done. intros _ Hb.
      by rewrite (delete_list_p_none _ _ _ _ _ Hd Hb).
    - intros e. unfold world_destroy, world_destroy_p, strip. destruct (estore_remove _ e) as [[[] ents]| |]; try done.
      destruct (ungroup_all _ _ e) as [[c gs]| |]; simpl; try done.
      destruct (delete_each c e) as [[c' ds]| |] eqn:Hd; simpl; try done. intros _ Hb.
      by rewrite (delete_each_p_none _ _ _ _ Hd Hb).
    - unfold world_clear, world_clear_p, cstore_clear. destruct (estore_clear _) as [ents| |]; try done.
      destruct (clear_each _) as [[c ds]| |] eqn:Hd; simpl; try done. intros _ Hb.
      by rewrite (clear_each_p_none _ _ _ Hd Hb).
    - unfold world_reset, world_reset_p, cstore_clear.
      destruct (clear_each _) as [[c ds]| |] eqn:Hd; simpl; try done. intros _ Hb.
      by rewrite (clear_each_p_none _ _ _ Hd Hb).
    - intros cs. unfold world_create, world_create_p, set_insert, set_insert_p.
      destruct (estore_create _) as [[e ents]| |]; try done. simpl.
      pose proof (insert_loop_p_none (cs_meta (w_comps w)) e cs (cs_comps (w_comps w)) 0) as H.
      destruct (insert_loop _ _ _ _ _) as [ds c m|ds c|]; simpl; [| |done].
      + destruct (group_if _ m e) eqn:Hg; simpl; try done. intros _ Hb. rewrite (H Hb). by rewrite Hg.
      + intros _ Hb. by rewrite (H Hb).
    - intros ts rows b. unfold set_extend, set_extend_p. destruct (lookup_metas _ _ ts) as [[is_ mask]|]; [|done].
      pose proof (extend_rows_p_none is_ rows (w_ents w) (cs_comps (w_comps w))) as H.
      destruct (extend_rows _ _ _ _) as [ds en c new|ds en c new|]; [| |done]; intros Hd Hb.
      + rewrite H; [done|]. revert Hd Hb. destruct b; [done|]. destruct (_ <=? _); [|done].
        destruct (mask =? 0)%N; [done|]. by destruct (group_each _ _ _ _) as [[]| |].
      + by rewrite H.
  Qed.
End bombs.

(** ** Clearing *)

Lemma css_clear_p_ok bomb c d : css_rep c d →
  if existsb bomb d.*2
  then ∃ c' vs rest, css_clear_p bomb c = Ok (true, c', vs) ∧ d.*2 = vs ++ rest ∧ css_drop_p bomb c' = UB
  else ∃ c', css_clear_p bomb c = Ok (false, c', d.*2) ∧ css_rep c' [].
Proof.
  intros Hr. destruct (css_clear_ok c d Hr) as (c' & Hc & Hr').
  destruct (existsb bomb d.*2) eqn:Hb; [|exists c'; split; [by apply css_clear_p_none|done]].
  assert (buf_slice (c_comps c) (c_len c) = Ok d.*2) as Hs by by apply css_slice_ok.
  pose proof (drop_cells_ok bomb (c_len c) (c_comps c) 0 d.*2 Hs) as H. rewrite Hb in H.
  destruct H as (b' & vs & rest & H1 & H2 & H3 & _). unfold css_clear_p. rewrite H1.
  eexists _, vs, rest. split_and!; [done..|]. unfold css_drop_p. simpl.
  destruct (c_len c) eqn:Hl.
  - rewrite (css_rep_nil_inv c d Hr Hl) in Hb. done.
  - simpl. unfold buf_read. by rewrite H3.
Qed.

Lemma drop_all_p_UB bomb l c : c ∈ l → css_drop_p bomb c = UB → drop_all_p bomb l = UB.
Proof.
  intros Hin Hc. induction l as [|c' l IH]; [by apply elem_of_nil in Hin|]. simpl.
  apply elem_of_cons in Hin as [<-|Hin]; [by rewrite Hc|]. rewrite (IH Hin). by destruct (css_drop_p bomb c') as [[]| |].
Qed.

Lemma clear_each_p_bomb bomb comps ds : Forall2 css_rep comps ds → existsb bomb (stored ds) = true →
  ∃ comps' vs rest, clear_each_p bomb comps = Ok (true, comps', vs) ∧ stored ds = vs ++ rest ∧
    drop_all_p bomb comps' = UB.
Proof.
  induction 1 as [|c d comps ds Hr _ IH]; simpl; [done|]. unfold stored in *. simpl. rewrite existsb_app.
  pose proof (css_clear_p_ok bomb c d Hr) as H. destruct (existsb bomb d.*2) eqn:Hb; simpl.
  - intros _. destruct H as (c' & vs & rest & -> & -> & Hub). eexists _, vs, _. split_and!; [done|by rewrite <-(assoc_L (++))|].
    apply (drop_all_p_UB bomb _ c'); [left|done].
  - intros Hb'. destruct H as (c' & -> & _). destruct (IH Hb') as (comps' & vs & rest & -> & -> & Hub).
    eexists _, (d.*2 ++ vs), rest. split_and!; [done|by rewrite <-(assoc_L (++))|].
    simpl. rewrite Hub. by destruct (css_drop_p bomb c') as [[]| |].
Qed.

Lemma existsb_stored bomb w s ds : winv w s ds →
  existsb bomb (stored ds) = true ↔ ∃ e t v, s_row s e !! t = Some v ∧ bomb v = true.
Proof.
  intros HI. rewrite existsb_exists. split.
  - intros (v & Hin & Hb). apply elem_of_list_In in Hin. rewrite (stored_contents _ _ _ HI) in Hin.
    apply elem_of_list_bind in Hin as ([e r] & Hv & Hr%elem_of_map_to_list). simpl in Hv.
    apply elem_of_list_fmap in Hv as ([t v'] & -> & Ht%elem_of_map_to_list). simpl in *. exists e, t, v'.
    split; [|done]. unfold s_row. by rewrite Hr.
  - intros (e & t & v & Hv & Hb). exists v. split; [|done]. apply elem_of_list_In. rewrite (stored_contents _ _ _ HI).
    apply elem_of_list_bind. unfold s_row in Hv. destruct (s_map s !! e) as [r|] eqn:Hr; simpl in Hv; [|by rewrite lookup_empty in Hv].
    exists (e, r). split; [|by apply elem_of_map_to_list]. apply elem_of_list_fmap. exists (t, v). split; [done|].
    by apply elem_of_map_to_list.
Qed.

Lemma clear_bomb w s bomb : reachable w s → (∃ e t v, s_row s e !! t = Some v ∧ bomb v = true) →
  ∃ vs rest w', world_clear_p bomb w = (Panicked [], vs, w') ∧ contents s ≡ₚ vs ++ rest ∧
    world_entities w' = [] ∧ drop_all_p bomb (cs_comps (w_comps w')) = UB.
Proof.
  intros (_ & ds & HI)%reachable_inv Hb. apply (existsb_stored bomb _ _ _ HI) in Hb. pose proof HI as [HE HC].
  unfold world_clear_p. destruct (estore_clear_ok _ _ HE) as (st' & -> & HE').
  destruct (clear_each_p_bomb bomb _ _ (ci_rep _ _ _ _ _ _ HC) Hb) as (comps' & vs & rest & -> & Hst & Hub).
  eexists vs, rest, _. split_and!; [done|by rewrite <-Hst, (stored_contents _ _ _ HI)| |done].
  unfold world_entities. simpl. apply elem_of_nil_inv. intros e He.
  apply (ei_dom _ _ HE') in He. destruct He as [r Hr]. simpl in Hr. by rewrite lookup_empty in Hr.
Qed.

Lemma reset_bomb w s bomb : reachable w s → (∃ e t v, s_row s e !! t = Some v ∧ bomb v = true) →
  ∃ vs rest w', world_reset_p bomb w = (Panicked [], vs, w') ∧ contents s ≡ₚ vs ++ rest ∧
    world_entities w' = [] ∧ drop_all_p bomb (cs_comps (w_comps w')) = UB.
Proof.
  intros (_ & ds & HI)%reachable_inv Hb. apply (existsb_stored bomb _ _ _ HI) in Hb. pose proof HI as [HE HC].
  unfold world_reset_p.
  destruct (clear_each_p_bomb bomb _ _ (ci_rep _ _ _ _ _ _ HC) Hb) as (comps' & vs & rest & -> & Hst & Hub).
  eexists vs, rest, _. split_and!; [done|by rewrite <-Hst, (stored_contents _ _ _ HI)|done|done].
Qed.

(** ** Dropping the world *)

Lemma css_drop_p_ok bomb c d : css_rep c d →
  ∃ vs rest, css_drop_p bomb c = Ok (existsb bomb d.*2, vs) ∧ d.*2 = vs ++ rest ∧ (existsb bomb d.*2 = false → rest = []).
Proof.
  intros Hr. assert (buf_slice (c_comps c) (c_len c) = Ok d.*2) as Hs by by apply css_slice_ok.
  pose proof (drop_cells_ok bomb (c_len c) (c_comps c) 0 d.*2 Hs) as H. unfold css_drop_p.
  destruct (existsb bomb d.*2).
  - destruct H as (b' & vs & rest & -> & H2 & _). exists vs, rest. done.
  - rewrite H. exists d.*2, []. by rewrite app_nil_r.
Qed.

Lemma drop_all_p_ok bomb comps ds : Forall2 css_rep comps ds →
  ∃ vs rest, drop_all_p bomb comps = Ok (existsb bomb (stored ds), vs) ∧ stored ds ≡ₚ vs ++ rest ∧
    (existsb bomb (stored ds) = false → rest = []).
Proof.
  induction 1 as [|c d comps ds Hr _ IH]; simpl; [by exists [], []|]. unfold stored in *. simpl. rewrite existsb_app.
  destruct (css_drop_p_ok bomb c d Hr) as (vs1 & r1 & -> & H1 & H1'). destruct IH as (vs2 & r2 & -> & H2 & H2').
  exists (vs1 ++ vs2), (r1 ++ r2). split_and!; [done| |].
  - rewrite H1, H2. rewrite <-!(assoc_L (++)). f_equiv. rewrite !(assoc_L (++)). f_equiv. apply Permutation_app_comm.
  - intros [Ha Hb]%orb_false_iff. by rewrite H1', H2'.
Qed.

Lemma drop_world_bomb w s bomb : reachable w s →
  ∃ p vs rest, drop_all_p bomb (cs_comps (w_comps w)) = Ok (p, vs) ∧ contents s ≡ₚ vs ++ rest ∧
    (p = true ↔ ∃ e t v, s_row s e !! t = Some v ∧ bomb v = true) ∧ (p = false → rest = []).
Proof.
  intros (_ & ds & HI)%reachable_inv. pose proof HI as [HE HC].
  destruct (drop_all_p_ok bomb _ _ (ci_rep _ _ _ _ _ _ HC)) as (vs & rest & H1 & H2 & H3).
  exists (existsb bomb (stored ds)), vs, rest. split_and!; [done| | |done].
  - by rewrite <-H2, (stored_contents _ _ _ HI).
  - by eapply existsb_stored.
Qed.

(** ** Inserting *)

Lemma insert_bomb w s bomb e cs out dr w' : reachable w s → s_alive s e →
  world_insert_p bomb w e cs = (out, dr, w') →
  match out with
  | Panicked _ => ∃ k dr0, dr = dr0 ++ (drop k cs).*2 ∧
      ∀ t v, t ∉ s_reg s → step w (OInsert e (take k cs ++ [(t, v)])) = (Panicked [], dr0 ++ [v], w')
  | _ => step w (OInsert e cs) = (out, dr, w')
  end.
Proof.
  intros (_ & ds & [HE HC])%reachable_inv Ha. unfold step, world_insert_p, world_insert, set_insert, set_insert_p.
  rewrite (estore_contains_alive _ _ e HE), bool_decide_eq_true_2 by done.
  pose proof (insert_loop_p_ok bomb (cs_meta (w_comps w)) e cs (cs_comps (w_comps w)) 0) as H.
  destruct (insert_loop_p _ _ _ _ _ _) as [ds1 c1 m1|ds1 c1|].
  - destruct H as [-> _]. destruct (group_if _ m1 e); intros [= <- <- <-]; done.
  - intros [= <- <- <-]. destruct H as (k & ds0 & -> & H). exists k, ds0. split; [done|]. intros t v Ht.
    rewrite H; [done|]. apply eq_None_not_Some. intros Hs. by apply Ht, (ci_reg _ _ _ _ _ _ HC).
  - rewrite H. by intros [= <- <- <-].
Qed.

Lemma put_unregistered reg cs t v r : t ∉ reg → put reg (cs ++ [(t, v)]) r = put reg cs r.
Proof.
  intros Ht. revert r. induction cs as [|[t' v'] cs IH]; intros r; simpl.
  - by rewrite decide_False.
  - case_decide; [apply IH|done].
Qed.

Lemma insert_bomb_reach w s bomb e cs es dr w' : reachable w s → s_alive s e →
  world_insert_p bomb w e cs = (Panicked es, dr, w') →
  ∃ k, let s' := with_loose (with_map s (<[e := put (s_reg s) (take k cs) (s_row s e)]> (s_map s))) ({[e]} ∪ s_loose s) in
    same_versions s' → reachable w' s' ∧ cs.*2 ++ contents s ≡ₚ dr ++ contents s'.
Proof.
  intros Hr Ha Hi. destruct (insert_bomb _ _ _ _ _ _ _ _ Hr Ha Hi) as (k & dr0 & -> & H). exists k. intros s' Hsv.
  destruct (exist_fresh (s_reg s)) as [t Ht]. specialize (H t 1%N Ht).
  set (o := OInsert e (take k cs ++ [(t, 1%N)])) in *. assert (op_ok o) as Ho by done.
  assert (client_step s o (Panicked []) = s') as Hcs.
  { unfold o, client_step. rewrite decide_True by done. rewrite put_unregistered by done. unfold s'. simpl.
    f_equal. set_solver. }
  assert (good_side s o (Panicked [])) as Hg by (split; [done|by rewrite Hcs]).
  destruct (reachable_inv _ _ Hr) as [Hsv0 [ds HI]].
  destruct (step_inv _ _ _ _ _ _ _ HI Hsv0 Ho H Hg) as (_ & ds' & HI' & Hb).
  destruct (reachable_step _ _ _ _ _ _ Hr Ho H Hg) as [_ Hr']. rewrite Hcs in *. split; [done|].
  rewrite (stored_contents _ _ _ HI), (stored_contents _ _ _ HI') in Hb. unfold o in Hb. simpl in Hb.
  rewrite fmap_app in Hb. simpl in Hb.
  rewrite <-(take_drop k cs) at 1. rewrite fmap_app.
  assert (∀ A B C D E : list val, ∀ x, (A ++ [x]) ++ C ≡ₚ (D ++ [x]) ++ E → (A ++ B) ++ C ≡ₚ (D ++ B) ++ E) as Hp.
  { intros A B C D E x Hx. rewrite <-!(assoc_L (++)) in Hx |- *. rewrite !(assoc_L (++) _ [x]), !(Permutation_app_comm _ [x]) in Hx.
    rewrite <-!(assoc_L (++)) in Hx. apply Permutation_app_inv_l in Hx.
    rewrite !(assoc_L (++) _ B), !(Permutation_app_comm _ B), <-!(assoc_L (++)). by rewrite Hx. }
  eapply Hp, Hb.
Qed.

(** ** Deleting one component *)

Lemma css_delete_p_bomb bomb c d i e v : css_rep c d → d !! i = Some (e, v) → bomb v = true →
  ∃ c', css_delete_p bomb c e = Ok (true, c', [v]) ∧
    if decide (S i = length d) then css_delete c e = Ok (c', [v])
    else ∀ e' v', d !! (length d - 1) = Some (e', v') → css_get c' e' = UB.
Proof.
  intros Hr Hi Hb. pose proof (lookup_lt_Some _ _ _ Hi) as Hlt.
  destruct (css_detach_lookup c d Hr i e v Hi) as (sp & ents & Hd & Hel & Hsp & Hcells).
  unfold css_delete_p, css_delete. rewrite Hd. simpl. unfold buf_read, buf_write.
  destruct (cr_cells _ _ Hr _ _ _ Hi) as [He Hc]. rewrite Hc. simpl.
  pose proof (cr_le _ _ Hr). pose proof (cr_comps_cap _ _ Hr).
  destruct (Nat.ltb_spec i (length (c_comps c))); [|lia]. simpl. rewrite Hb. eexists. split; [done|].
  case_decide as Hlast.
  - replace (length d - 1) with i by lia. rewrite Hc. simpl. rewrite insert_length.
    destruct (Nat.ltb_spec i (length (c_comps c))); [|lia]. simpl. by rewrite list_insert_insert.
  - intros e' v' He'. unfold css_get, css_get_ref. simpl.
    assert ((swap_remove d i).*1 !! i = Some e') as Hs.
    { apply dense_fst_lookup. exists v'. rewrite swap_remove_lookup by done. rewrite decide_True by lia. by rewrite decide_True. }
    rewrite (sv_get_lookup _ _ Hsp e' i Hs). rewrite Nat2N.id. unfold buf_read. rewrite list_lookup_insert by lia. done.
Qed.

Lemma lookup_metas_one mt f t m : mt !! t = Some m → lookup_metas mt f [t] = Some ([m_index m], gm_or (f m) 0).
Proof. intros Ht. simpl. by rewrite Ht. Qed.

Lemma delete_bomb_gen w s bomb t e v : reachable w s → s_row s e !! t = Some v → bomb v = true →
  ∃ m s1 ds1 d1 i w', cs_meta (w_comps w) !! t = Some m ∧
    ungroup_if (w_comps w) (gm_or (m_delete m) 0) e = Ok s1 ∧ ds1 !! m_index m = Some d1 ∧ d1 !! i = Some (e, v) ∧
    cs_meta s1 = cs_meta (w_comps w) ∧
    Forall2 css_rep (cs_comps s1) ds1 ∧ (∀ e' v', (e', v') ∈ d1 ↔ am_has (s_map s) t e' v') ∧
    world_delete_p bomb w e [t] = (Panicked [], [v], w') ∧
    if decide (S i = length d1) then set_delete w e [t] = (Ret RUnit, [v], w')
    else ∀ e' v', d1 !! (length d1 - 1) = Some (e', v') → e' ≠ e ∧ view_get w' t e' = UB.
Proof.
  intros (Hsv & ds & HI)%reachable_inv Hv Hb. pose proof HI as [HE HC].
  assert (am_has (s_map s) t e v) as Ham.
  { unfold s_row in Hv. destruct (s_map s !! e) as [r|] eqn:Hr; simpl in Hv; [by exists r|by rewrite lookup_empty in Hv]. }
  pose proof (ci_types _ _ _ _ _ _ HC _ _ _ Ham) as Hreg.
  apply (ci_reg _ _ _ _ _ _ HC) in Hreg as [m Hm].
  pose proof (lookup_metas_one _ m_delete _ _ Hm) as Hlm.
  destruct (lookup_metas_Some _ _ _ _ _ Hlm) as [_ Hmask].
  destruct (ci_ungroup _ _ _ _ _ _ HC (gm_or (m_delete m) 0) e) as (s1 & ds1 & Hun & Hmt & _ & HC1 & _).
  { by apply same_versions_uniform. }
  { by eapply (delete_mask_closed _ _ _ _ _ _ HC). }
  assert (cs_meta s1 !! t = Some m) as Hm1 by by rewrite Hmt.
  destruct (ci_lookup _ _ _ _ _ _ HC1 t m Hm1) as (c1 & d1 & Hc1 & Hd1 & Hrep).
  pose proof (λ e' v', ci_data _ _ _ _ _ _ HC1 t m d1 e' v' Hm1 Hd1) as Hdata.
  destruct (elem_of_list_lookup_1 d1 (e, v)) as [i Hi]; [by apply Hdata|].
  destruct (css_delete_p_bomb bomb c1 d1 i e v Hrep Hi Hb) as (c' & Hdel & Hcase).
  exists m, s1, ds1, d1, i, (World (w_ents w) (CStore (cs_groups s1) (cs_meta s1) (<[m_index m := c']> (cs_comps s1)))).
  split_and!; [done..|by apply HC1|done| |].
  - unfold world_delete_p. rewrite Hlm, Hun. simpl. rewrite Hc1, Hdel. done.
  - case_decide as Hl.
    + unfold set_delete. rewrite Hlm, Hun. simpl. rewrite Hc1, Hcase. done.
    + intros e' v' He'. split.
      * intros ->. destruct (css_rep_pair_inj c1 d1 Hrep _ _ _ _ _ Hi He') as [-> _]. apply lookup_lt_Some in Hi. lia.
      * unfold view_get, cs_borrow. simpl. rewrite Hm1, list_lookup_insert by by eapply lookup_lt_Some. by eapply Hcase.
Qed.

(** The world is as after a delete that does not panic, or a live entity has lost its
    component to a hole. *)
Lemma delete_bomb w s bomb t e v : reachable w s → s_row s e !! t = Some v → bomb v = true →
  ∃ w', world_delete_p bomb w e [t] = (Panicked [], [v], w') ∧
    (step w (ODelete e [t]) = (Ret RUnit, [v], w') ∨
     ∃ e' v', e' ≠ e ∧ s_row s e' !! t = Some v' ∧ view_get w' t e' = UB).
Proof.
  intros Hr Hv Hb. destruct (delete_bomb_gen w s bomb t e v Hr Hv Hb) as
    (m & s1 & ds1 & d1 & i & w' & Hm & _ & _ & Hi & _ & _ & Hdata & Hdel & Hcase).
  exists w'. split; [done|]. case_decide; [by left|]. right.
  pose proof (lookup_lt_Some _ _ _ Hi). destruct (lookup_lt_is_Some_2 d1 (length d1 - 1)) as [[e' v'] He']; [lia|].
  destruct (Hcase _ _ He') as [Hne Hub]. exists e', v'. split_and!; [done| |done].
  apply elem_of_list_lookup_2, Hdata in He'. destruct He' as (r & Hr' & Hrow). unfold s_row. by rewrite Hr'.
Qed.

(** Ungrouped components: which of the two depends on the position. *)
Lemma delete_bomb_ungrouped w s bomb t e v ents e' : reachable w s → s_row s e !! t = Some v → bomb v = true →
  t ∉ s_grouped s → view_entities w t = Ok ents → last ents = Some e' →
  ∃ w', world_delete_p bomb w e [t] = (Panicked [], [v], w') ∧
    if decide (e' = e) then step w (ODelete e [t]) = (Ret RUnit, [v], w')
    else s_alive s e' ∧ view_get w' t e' = UB.
Proof.
  intros Hr Hv Hb Hg Hents Hlast. destruct (delete_bomb_gen w s bomb t e v Hr Hv Hb) as
    (m & s1 & ds1 & d1 & i & w' & Hm & Hun & Hd1 & Hi & Hmt & Hrep & Hdata & Hdel & Hcase).
  exists w'. split; [done|]. destruct (reachable_inv _ _ Hr) as (_ & ds & [HE HC]).
  assert (gm_or (m_delete m) 0 = 0%N) as H0.
  { unfold gm_or. rewrite N.lor_0_r. apply N.bits_inj_0. intros j.
    destruct (N.testbit (m_delete m) j) eqn:Hj; [|done]. exfalso. apply Hg, (ci_grp _ _ _ _ _ _ HC).
    destruct (proj1 (st_delete _ _ _ (ci_static _ _ _ _ _ _ HC) t m (N.to_nat j) Hm)) as (gj & H1 & H2).
    { unfold bit. by rewrite N2Nat.id. }
    eauto 10. }
  rewrite H0 in Hun. unfold ungroup_if in Hun. simpl in Hun. injection Hun as <-.
  assert (ents = d1.*1) as ->.
  { destruct (Forall2_lookup_r _ _ _ _ _ Hrep Hd1) as (c & Hc & Hrc).
    unfold view_entities, cs_borrow in Hents. rewrite Hm, Hc, (css_entities_ok _ _ Hrc) in Hents. by injection Hents. }
  rewrite fmap_last in Hlast. rewrite last_lookup in Hlast. replace (pred (length d1)) with (length d1 - 1) in Hlast by lia.
  destruct (d1 !! (length d1 - 1)) as [[e1 v1]|] eqn:He1; simpl in Hlast; [|done]. injection Hlast as ->.
  pose proof (lookup_lt_Some _ _ _ Hi). case_decide as Hl.
  - assert (e' = e) as ->; [|by rewrite decide_True]. replace (length d1 - 1) with i in He1 by lia. congruence.
  - destruct (Hcase _ _ eq_refl) as [Hne Hub]. rewrite decide_False by done. split; [|done].
    apply elem_of_list_lookup_2, Hdata in He1. destruct He1 as (r & Hr' & _). by exists r.
Qed.
