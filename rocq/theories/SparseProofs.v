(** Correspondence between a sparse vec and the dense list of entities it
    indexes. *)
From Verif Require Import Base SparseVecM EntityM Lists.

(** The slots of [sp] are exactly the positions of [es]. *)
Definition sparse_ok (sp : sparse_vec) (es : list entity) : Prop :=
  ∀ k sl, sp !! k = Some (Some sl) ↔
    ∃ e, es !! s_dense sl = Some e ∧ e_sparse e = k ∧ e_version e = s_version sl.

(** No entity of [es] has the index of [e]. *)
Definition fresh_index (e : entity) (es : list entity) : Prop :=
  ∀ e', e' ∈ es → e_index e' ≠ e_index e.

Definition small (es : list entity) : Prop := Forall (λ e, e_index e < u32_lim)%N es.

Lemma e_sparse_inj e1 e2 : e_sparse e1 = e_sparse e2 → e_index e1 = e_index e2.
Proof. unfold e_sparse. lia. Qed.

Lemma e_sparse_eq e1 e2 : e_index e1 = e_index e2 → e_sparse e1 = e_sparse e2.
Proof. unfold e_sparse. by intros ->. Qed.

Lemma entity_eq e1 e2 : e_index e1 = e_index e2 → e_version e1 = e_version e2 → e1 = e2.
Proof. destruct e1, e2; simpl. by intros -> ->. Qed.

Lemma s_dense_of_nat i v : s_dense (Slot (N.of_nat i) v) = i.
Proof. unfold s_dense; simpl. lia. Qed.

Section sparse.
  Context (sp : sparse_vec) (es : list entity) (Hok : sparse_ok sp es).

  Lemma sparse_ok_slot i e :
    es !! i = Some e → sp !! e_sparse e = Some (Some (Slot (N.of_nat i) (e_version e))).
  Proof using Hok. intros H. apply Hok. exists e. by rewrite s_dense_of_nat. Qed.

  Lemma sparse_ok_inj i j e1 e2 :
    es !! i = Some e1 → es !! j = Some e2 → e_index e1 = e_index e2 → i = j ∧ e1 = e2.
  Proof using Hok.
    intros H1 H2 He. pose proof (sparse_ok_slot i e1 H1) as S1.
    pose proof (sparse_ok_slot j e2 H2) as S2.
    rewrite (e_sparse_eq e1 e2) in S1 by done. rewrite S1 in S2. inversion S2.
    assert (i = j) by lia. subst. rewrite H1 in H2. by inversion H2.
  Qed.

  Lemma sparse_ok_nodup : NoDup (e_index <$> es).
  Proof using Hok.
    apply NoDup_alt. intros i j x Hi Hj.
    rewrite list_lookup_fmap in Hi, Hj.
    destruct (es !! i) as [e1|] eqn:E1; [|done]. destruct (es !! j) as [e2|] eqn:E2; [|done].
    simpl in *. inversion Hi; inversion Hj; subst.
    by destruct (sparse_ok_inj i j e1 e2 E1 E2).
  Qed.

  Lemma sparse_ok_nodup_ents : NoDup es.
  Proof using Hok. eapply NoDup_fmap_1, sparse_ok_nodup. Qed.

  Lemma sparse_ok_slot_inv k sl :
    sp !! k = Some (Some sl) →
    ∃ e i, es !! i = Some e ∧ e_sparse e = k ∧ sl = Slot (N.of_nat i) (e_version e).
  Proof using Hok.
    intros H. apply Hok in H as (e & He & Hk & Hv). exists e, (s_dense sl).
    split_and!; [done..|]. destruct sl as [si sv]; unfold s_dense in *; simpl in *. subst.
    f_equal. lia.
  Qed.

  Lemma sparse_ok_fresh e sl :
    fresh_index e es → sp !! e_sparse e ≠ Some (Some sl).
  Proof using Hok.
    intros Hf H. apply sparse_ok_slot_inv in H as (e' & i & Hi & Hs & _).
    apply (Hf e'); [by eapply elem_of_list_lookup_2|]. by apply e_sparse_inj.
  Qed.

  Lemma sv_get_Some e n : sv_get sp e = Some n ↔ es !! N.to_nat n = Some e.
  Proof using Hok.
    unfold sv_get. split.
    - destruct (sp !! e_sparse e) as [[sl|]|] eqn:E; try done.
      destruct (N.eqb_spec (s_version sl) (e_version e)) as [Hv|]; [|done].
      intros [= <-]. apply sparse_ok_slot_inv in E as (e' & i & Hi & Hs & ->). simpl in *.
      rewrite Nat2N.id. rewrite Hi. f_equal.
      apply entity_eq; [|done]. by apply e_sparse_inj.
    - intros H. rewrite (sparse_ok_slot _ _ H). simpl. rewrite N.eqb_refl.
      by rewrite N2Nat.id.
  Qed.

  Lemma sv_get_lookup e i : es !! i = Some e → sv_get sp e = Some (N.of_nat i).
  Proof using Hok. intros H. apply sv_get_Some. by rewrite Nat2N.id. Qed.

  Lemma sv_get_None e : e ∉ es → sv_get sp e = None.
  Proof using Hok.
    intros H. destruct (sv_get sp e) eqn:E; [|done]. exfalso. apply H.
    apply sv_get_Some in E. by eapply elem_of_list_lookup_2.
  Qed.

  Lemma sv_contains_get e : sv_contains sp e = match sv_get sp e with Some _ => true | None => false end.
  Proof using Type.
    unfold sv_contains, sv_get. destruct (sp !! e_sparse e) as [[sl|]|]; try done.
    by destruct (_ =? _)%N.
  Qed.

  Lemma sv_contains_elem e : sv_contains sp e = true ↔ e ∈ es.
  Proof using Hok.
    rewrite sv_contains_get. destruct (sv_get sp e) eqn:E.
    - split; [|done]. intros _. apply sv_get_Some in E. by eapply elem_of_list_lookup_2.
    - split; [done|]. intros H. apply elem_of_list_lookup in H as [i H].
      apply sv_get_lookup in H. congruence.
  Qed.

  Lemma sv_contains_sparse_elem k :
    sv_contains_sparse sp k = true ↔ ∃ e, e ∈ es ∧ e_sparse e = k.
  Proof using Hok.
    unfold sv_contains_sparse. destruct (sp !! k) as [[sl|]|] eqn:E.
    - split; [|done]. intros _. apply sparse_ok_slot_inv in E as (e & i & Hi & Hs & _).
      exists e. split; [by eapply elem_of_list_lookup_2|done].
    - split; [done|]. intros (e & He & <-). apply elem_of_list_lookup in He as [i He].
      apply sparse_ok_slot in He. congruence.
    - split; [done|]. intros (e & He & <-). apply elem_of_list_lookup in He as [i He].
      apply sparse_ok_slot in He. congruence.
  Qed.

  Lemma sv_get_sparse_lookup e i : es !! i = Some e → sv_get_sparse sp (e_sparse e) = Some (N.of_nat i).
  Proof using Hok. intros H. unfold sv_get_sparse. by rewrite (sparse_ok_slot _ _ H). Qed.

  Lemma sv_get_sparse_None k : (∀ e, e ∈ es → e_sparse e ≠ k) → sv_get_sparse sp k = None.
  Proof using Hok.
    intros Hn. unfold sv_get_sparse. destruct (sp !! k) as [[sl|]|] eqn:E; try done.
    apply sparse_ok_slot_inv in E as (e & i & Hi & Hs & _).
    exfalso. apply (Hn e); [by eapply elem_of_list_lookup_2|done].
  Qed.

  Lemma sv_get_sparse_unchecked_lookup e i :
    es !! i = Some e → sv_get_sparse_unchecked sp (e_sparse e) = Ok i.
  Proof using Hok.
    intros H. unfold sv_get_sparse_unchecked. rewrite (sparse_ok_slot _ _ H).
    by rewrite s_dense_of_nat.
  Qed.

  Lemma sv_remove_lookup e i :
    es !! i = Some e → sv_remove sp e = (<[e_sparse e := None]> sp, Some (N.of_nat i)).
  Proof using Hok.
    intros H. unfold sv_remove. rewrite (sparse_ok_slot _ _ H). simpl. by rewrite N.eqb_refl.
  Qed.

  Lemma sv_remove_None e : e ∉ es → sv_remove sp e = (sp, None).
  Proof using Hok.
    intros H. apply sv_get_None in H. unfold sv_get in H. unfold sv_remove.
    destruct (sp !! e_sparse e) as [[sl|]|]; try done.
    by destruct (_ =? _)%N.
  Qed.

  (** A position for one more entity is below 2^32. *)
  Lemma sparse_ok_room e :
    small es → (e_index e < u32_lim)%N → fresh_index e es → (N.of_nat (length es) < u32_lim)%N.
  Proof using Hok.
    intros Hs He Hf.
    assert (N.of_nat (length (e_index e :: (e_index <$> es))) ≤ u32_lim)%N as H.
    { apply pigeonhole.
      - apply NoDup_cons. split; [|by apply sparse_ok_nodup].
        intros Hin. apply elem_of_list_fmap in Hin as [e' [Heq Hin]]. by apply (Hf e').
      - apply Forall_cons. split; [done|]. apply Forall_fmap. done. }
    simpl in H. rewrite fmap_length in H. lia.
  Qed.
End sparse.

Lemma as_u32_small n : (n < u32_lim)%N → as_u32 n = n.
Proof. intros. by apply N.mod_small. Qed.

Lemma next_pow2_ge i : i ≤ next_pow2 i.
Proof.
  unfold next_pow2. destruct (decide (i ≤ 1)).
  - assert (2 ^ Nat.log2_up i ≠ 0) by (apply Nat.pow_nonzero; lia). lia.
  - destruct (Nat.log2_up_spec i); lia.
Qed.

Lemma sv_allocate_at_length sp i : i < length (sv_allocate_at sp i).
Proof.
  unfold sv_allocate_at, sv_extend_to_index. destruct (Nat.leb_spec (length sp) i); [|done].
  rewrite app_length, replicate_length. pose proof (next_pow2_ge i). lia.
Qed.

Lemma sv_allocate_at_lookup sp i k sl :
  sv_allocate_at sp i !! k = Some (Some sl) ↔ sp !! k = Some (Some sl).
Proof.
  unfold sv_allocate_at, sv_extend_to_index. destruct (Nat.leb_spec (length sp) i); [|done].
  rewrite lookup_app_Some. split; [|auto].
  intros [?|[? H1]]; [done|]. apply lookup_replicate in H1 as [? ?]. done.
Qed.

Lemma sparse_ok_allocate sp es i : sparse_ok sp es → sparse_ok (sv_allocate_at sp i) es.
Proof. intros H k sl. rewrite sv_allocate_at_lookup. apply H. Qed.

Lemma sparse_ok_nil : sparse_ok [] [].
Proof. intros k sl. rewrite !lookup_nil. naive_solver. Qed.

Lemma sparse_ok_app sp es e :
  sparse_ok sp es → fresh_index e es → (N.of_nat (length es) < u32_lim)%N → e_sparse e < length sp →
  sparse_ok (<[e_sparse e := Some (Slot (as_u32 (N.of_nat (length es))) (e_version e))]> sp) (es ++ [e]).
Proof.
  intros Hok Hf Hlim Hlen k sl. rewrite as_u32_small by done.
  destruct (decide (k = e_sparse e)) as [->|Hne].
  - rewrite list_lookup_insert by done. split.
    + intros [= <-]. exists e. rewrite s_dense_of_nat. simpl.
      rewrite lookup_app_r, Nat.sub_diag by lia. done.
    + intros (e' & He' & Hs & Hv). apply lookup_app_Some in He' as [He'|[Hge He']].
      { exfalso. apply (Hf e'); [by eapply elem_of_list_lookup_2|by apply e_sparse_inj]. }
      apply list_lookup_singleton_Some in He' as [Hz <-].
      destruct sl as [si sv]; unfold s_dense in *; simpl in *; subst. do 2 f_equal. f_equal. lia.
  - rewrite list_lookup_insert_ne by done. rewrite (Hok k sl). split.
    + intros (e' & He' & ?). exists e'. split; [|done]. by apply lookup_app_l_Some.
    + intros (e' & He' & Hs & Hv). exists e'. apply lookup_app_Some in He' as [He'|[Hge He']]; [done|].
      apply list_lookup_singleton_Some in He' as [Hz <-]. by destruct Hne.
Qed.

(** Removing the entity at [i], the last entity taking its place. *)
Lemma sparse_ok_swap_remove sp es i e f :
  sparse_ok sp es → es !! i = Some e → es !! (length es - 1) = Some f →
  sparse_ok (if decide (i < length es - 1)
             then <[e_sparse f := Some (Slot (N.of_nat i) (e_version f))]> (<[e_sparse e := None]> sp)
             else <[e_sparse e := None]> sp)
            (swap_remove es i).
Proof.
  intros Hok Hi Hf k sl.
  assert (Hilen : i < length es) by (by eapply lookup_lt_Some).
  assert (Hse : e_sparse e < length sp).
  { apply sparse_ok_slot with (sp := sp) in Hi; [|done]. by eapply lookup_lt_Some. }
  assert (Hsf : e_sparse f < length sp).
  { apply sparse_ok_slot with (sp := sp) in Hf; [|done]. by eapply lookup_lt_Some. }
  case_decide as Hlt.
  - assert (Hef : e_sparse e ≠ e_sparse f).
    { intros Heq. destruct (sparse_ok_inj sp es Hok i (length es - 1) e f) as [? _]; try done.
      - by apply e_sparse_inj. - lia. }
    destruct (decide (k = e_sparse f)) as [->|Hkf].
    + rewrite list_lookup_insert by (by rewrite insert_length). split.
      * intros [= <-]. exists f. rewrite s_dense_of_nat. rewrite swap_remove_lookup by done.
        case_decide; [|lia]. case_decide; [|done]. done.
      * intros (e' & He' & Hs & Hv). rewrite swap_remove_lookup in He' by done.
        case_decide as H1; [|done]. case_decide as H2.
        -- rewrite Hf in He'. inversion He'; subst e'.
           destruct sl as [si sv]; unfold s_dense in *; simpl in *; subst. do 2 f_equal. f_equal. lia.
        -- exfalso. destruct (sparse_ok_inj sp es Hok (s_dense sl) (length es - 1) e' f); try done.
           { by apply e_sparse_inj. } lia.
    + rewrite list_lookup_insert_ne by done.
      destruct (decide (k = e_sparse e)) as [->|Hke].
      * rewrite list_lookup_insert by done. split; [done|].
        intros (e' & He' & Hs & Hv). rewrite swap_remove_lookup in He' by done.
        case_decide as H1; [|done]. case_decide as H2.
        -- rewrite Hf in He'. inversion He'; subst e'. by destruct Hef.
        -- exfalso. destruct (sparse_ok_inj sp es Hok (s_dense sl) i e' e); try done.
           by apply e_sparse_inj.
      * rewrite list_lookup_insert_ne by done. rewrite (Hok k sl).
        split; intros (e' & He' & Hs & Hv); exists e'; (split; [|done]);
          rewrite swap_remove_lookup in * by done.
        -- case_decide as H1.
           ++ case_decide as H2; [|done]. exfalso. rewrite H2, Hi in He'. inversion He'; subst. done.
           ++ exfalso. assert (s_dense sl < length es) by (by eapply lookup_lt_Some).
              replace (s_dense sl) with (length es - 1) in He' by lia.
              rewrite Hf in He'. inversion He'; subst. done.
        -- case_decide as H1; [|done]. case_decide as H2; [|done].
           exfalso. rewrite Hf in He'. inversion He'; subst. done.
  - assert (i = length es - 1) as Hil by lia. rewrite Hil, Hf in Hi. inversion Hi; subst f. clear Hi.
    destruct (decide (k = e_sparse e)) as [->|Hke].
    + rewrite list_lookup_insert by done. split; [done|].
      intros (e' & He' & Hs & Hv). rewrite swap_remove_lookup in He' by done.
      case_decide as H1; [|done]. case_decide as H2; [lia|].
      exfalso. destruct (sparse_ok_inj sp es Hok (s_dense sl) (length es - 1) e' e); try done.
      { by apply e_sparse_inj. } lia.
    + rewrite list_lookup_insert_ne by done. rewrite (Hok k sl).
      split; intros (e' & He' & Hs & Hv); exists e'; (split; [|done]);
        rewrite swap_remove_lookup in * by done.
      * case_decide as H1.
        -- case_decide; [lia|done].
        -- exfalso. assert (s_dense sl < length es) by (by eapply lookup_lt_Some).
           replace (s_dense sl) with (length es - 1) in He' by lia.
           rewrite Hf in He'. inversion He'; subst. done.
      * case_decide as H1; [|done]. case_decide; [lia|done].
Qed.

(** Swapping two entities of the same version. *)
Lemma sparse_ok_swap sp es a b ea eb :
  sparse_ok sp es → es !! a = Some ea → es !! b = Some eb → a ≠ b → e_version ea = e_version eb →
  ∃ sp', sv_swap sp (e_sparse ea) (e_sparse eb) = Ok sp' ∧ sparse_ok sp' (list_swap es a b).
Proof.
  intros Hok Ha Hb Hab Hv.
  pose proof (sparse_ok_slot sp es Hok a ea Ha) as Sa.
  pose proof (sparse_ok_slot sp es Hok b eb Hb) as Sb.
  assert (Hne : e_sparse ea ≠ e_sparse eb).
  { intros Heq. destruct (sparse_ok_inj sp es Hok a b ea eb) as [? _]; try done. by apply e_sparse_inj. }
  assert (Hla : a < length es) by (by eapply lookup_lt_Some).
  assert (Hlb : b < length es) by (by eapply lookup_lt_Some).
  assert (Hsa : e_sparse ea < length sp) by (by eapply lookup_lt_Some).
  assert (Hsb : e_sparse eb < length sp) by (by eapply lookup_lt_Some).
  unfold sv_swap. destruct (Nat.eqb_spec (e_sparse ea) (e_sparse eb)); [done|].
  rewrite Sa, Sb. eexists. split; [done|]. intros k sl.
  destruct (decide (k = e_sparse ea)) as [->|Hka].
  - rewrite list_lookup_insert by (by rewrite insert_length). split.
    + intros [= <-]. exists ea. rewrite s_dense_of_nat. rewrite list_swap_lookup by done.
      rewrite decide_False by done. rewrite decide_True by done. simpl. auto.
    + intros (e' & He' & Hs & Hv'). rewrite list_swap_lookup in He' by done.
      case_decide as H1; [|case_decide as H2].
      * rewrite Hb in He'. inversion He'; subst. by destruct Hne.
      * rewrite Ha in He'. inversion He'; subst e'.
        destruct sl as [si sv]; unfold s_dense in *; simpl in *; subst. do 2 f_equal. f_equal; [lia|done].
      * exfalso. destruct (sparse_ok_inj sp es Hok (s_dense sl) a e' ea); try done. by apply e_sparse_inj.
  - rewrite list_lookup_insert_ne by done. destruct (decide (k = e_sparse eb)) as [->|Hkb].
    + rewrite list_lookup_insert by done. split.
      * intros [= <-]. exists eb. rewrite s_dense_of_nat. rewrite list_swap_lookup by done.
        rewrite decide_True by done. simpl. auto.
      * intros (e' & He' & Hs & Hv'). rewrite list_swap_lookup in He' by done.
        case_decide as H1; [|case_decide as H2].
        -- rewrite Hb in He'. inversion He'; subst e'.
           destruct sl as [si sv]; unfold s_dense in *; simpl in *; subst. do 2 f_equal. f_equal; [lia|done].
        -- rewrite Ha in He'. inversion He'; subst. by destruct Hne.
        -- exfalso. destruct (sparse_ok_inj sp es Hok (s_dense sl) b e' eb); try done. by apply e_sparse_inj.
    + rewrite list_lookup_insert_ne by done. rewrite (Hok k sl).
      split; intros (e' & He' & Hs & Hv'); exists e'; (split; [|done]); rewrite list_swap_lookup in * by done.
      * case_decide as H1; [|case_decide as H2]; [..|done]; exfalso.
        -- rewrite H1, Ha in He'. inversion He'; subst. done.
        -- rewrite H2, Hb in He'. inversion He'; subst. done.
      * case_decide as H1; [|case_decide as H2]; [..|done]; exfalso.
        -- rewrite Hb in He'. inversion He'; subst. done.
        -- rewrite Ha in He'. inversion He'; subst. done.
Qed.

(** Replacing the entity of a position by an entity of the same index and
    version is the identity. *)
Lemma sparse_ok_elem_index sp es e e' :
  sparse_ok sp es → e ∈ es → e' ∈ es → e_index e = e_index e' → e = e'.
Proof.
  intros Hok H1 H2 Heq. apply elem_of_list_lookup in H1 as [i H1]. apply elem_of_list_lookup in H2 as [j H2].
  by destruct (sparse_ok_inj sp es Hok i j e e' H1 H2).
Qed.
