(** Layouts built by [add_group] are well formed. *)
From Coq Require Import Sorted.
From stdpp Require Import sorting.
From Verif Require Import Base Lists MaskM LayoutM.

(** A family: distinct components, increasing arities from 2 to the number of
    components. *)
Record family_wf (f : family) : Prop := {
  fw_nodup : NoDup (f_comps f);
  fw_sorted : StronglySorted lt (f_arities f);
  fw_min : Forall (λ a, 2 ≤ a) (f_arities f);
  fw_last : ∃ l, f_arities f = l ++ [length (f_comps f)]
}.

Record layout_wf (l : layout) : Prop := {
  lw_families : Forall family_wf l;
  lw_disjoint : NoDup (layout_tids l)
}.

Lemma layout_wf_nil : layout_wf [].
Proof. split; constructor. Qed.

(** ** Normalised groups *)

Lemma sort_tids_perm l : sort_tids l ≡ₚ l.
Proof. apply merge_sort_Permutation. Qed.

Lemma sort_tids_sorted l : StronglySorted N.le (sort_tids l).
Proof.
  apply Sorted_StronglySorted; [intros ???; apply N.le_trans|].
  apply Sorted_merge_sort. intros x y. destruct (N.le_ge_cases x y); auto.
Qed.

Lemma dedup_elem l x : x ∈ dedup l ↔ x ∈ l.
Proof.
  induction l as [|y l IH]; simpl; [done|].
  rewrite elem_of_cons, <-IH. destruct (dedup l) as [|z r]; [set_solver|].
  destruct (N.eqb_spec y z); subst; set_solver.
Qed.

Lemma dedup_sorted l : StronglySorted N.le l → StronglySorted N.lt (dedup l).
Proof.
  induction 1 as [|y l Hs IH Hf]; simpl; [constructor|].
  assert (Forall (N.le y) (dedup l)) as Hf'.
  { apply Forall_forall. intros x Hx. rewrite dedup_elem in Hx. rewrite Forall_forall in Hf. by apply Hf. }
  destruct (dedup l) as [|z r]; [repeat constructor|].
  destruct (N.eqb_spec y z) as [->|Hne]; [done|].
  constructor; [done|]. apply Forall_cons in Hf' as [Hyz _]. inversion IH as [|? ? ? Hz]; subst.
  constructor; [lia|]. eapply Forall_impl; [exact Hz|]. simpl. intros. lia.
Qed.

Lemma sorted_lt_nodup l : StronglySorted N.lt l → NoDup l.
Proof.
  induction 1 as [|y l Hs IH Hf]; constructor; [|done].
  intros Hin. rewrite Forall_forall in Hf. specialize (Hf _ Hin). lia.
Qed.

(** The types of a group, sorted and without repetition. *)
Definition norm (g : list tid) : list tid := dedup (sort_tids g).

Lemma norm_elem g x : x ∈ norm g ↔ x ∈ g.
Proof. unfold norm. by rewrite dedup_elem, sort_tids_perm. Qed.

Lemma norm_nodup g : NoDup (norm g).
Proof. apply sorted_lt_nodup, dedup_sorted, sort_tids_sorted. Qed.

(** ** [push_missing] *)

Lemma contains_tid_true l c : contains_tid l c = true ↔ c ∈ l.
Proof. unfold contains_tid. by rewrite bool_decide_eq_true. Qed.
Lemma contains_tid_false l c : contains_tid l c = false ↔ c ∉ l.
Proof. unfold contains_tid. by rewrite bool_decide_eq_false. Qed.

Lemma push_missing_spec g : ∀ comps,
  NoDup comps → ∃ ext, push_missing comps g = comps ++ ext ∧ NoDup (comps ++ ext) ∧
    ∀ x, x ∈ ext ↔ x ∈ g ∧ x ∉ comps.
Proof.
  induction g as [|c g IH]; intros comps Hnd; simpl.
  - exists []. rewrite app_nil_r. split_and!; [done|done|set_solver].
  - destruct (contains_tid comps c) eqn:E.
    + apply contains_tid_true in E. destruct (IH comps Hnd) as (ext & H1 & H2 & H3).
      exists ext. split_and!; [done|done|]. intros x. rewrite H3. set_solver.
    + apply contains_tid_false in E.
      destruct (IH (comps ++ [c])) as (ext & H1 & H2 & H3).
      { apply NoDup_app. split_and!; [done|set_solver|apply NoDup_singleton]. }
      exists (c :: ext). rewrite <-app_assoc in H1, H2. simpl in *. split_and!; [done|done|].
      intros x. rewrite elem_of_cons, H3, elem_of_app, elem_of_list_singleton, elem_of_cons.
      split; [intros [->|?]; set_solver|]. intros [[->|?] ?]; [by left|].
      destruct (decide (x = c)); [by left|right]. naive_solver.
Qed.

Lemma nodup_same_length {A} (l k : list A) :
  NoDup l → NoDup k → (∀ x, x ∈ l ↔ x ∈ k) → length l = length k.
Proof. intros. by apply Permutation_length, NoDup_Permutation. Qed.

(** ** [try_add_group] *)

Lemma slice_range_ok {A} (l : list A) a b r :
  slice_range l a b = Ok r → a ≤ b ∧ b ≤ length l ∧ r = take (b - a) (drop a l).
Proof.
  unfold slice_range. destruct (Nat.leb_spec a b), (Nat.leb_spec b (length l)); simpl; try done.
  by intros [= <-].
Qed.

Lemma slice_range_in {A} (l : list A) a b :
  a ≤ b → b ≤ length l → slice_range l a b = Ok (take (b - a) (drop a l)).
Proof.
  intros. unfold slice_range. destruct (Nat.leb_spec a b), (Nat.leb_spec b (length l)); simpl; done || lia.
Qed.

(** The search loop on the arities from position [i] on. *)
Lemma try_search_spec comps group : ∀ arities i prev r,
  (∀ x, x ∈ take prev comps → x ∈ group) → prev ≤ length comps →
  try_search comps arities i prev group = Ok r →
  match r with
  | FoundEqual => True
  | InsertAt k => ∃ j arity, k = i + j ∧ arities !! j = Some arity ∧ length group < arity ∧
      arity ≤ length comps ∧
      Forall (λ a, a < length group) (take j arities) ∧
      (∀ x, x ∈ take (match j with 0 => prev | S j => default 0 (arities !! j) end) comps → x ∈ group)
  | AtEnd => Forall (λ a, a < length group) arities ∧
      (∀ x, x ∈ take (default prev (last arities)) comps → x ∈ group)
  end.
Proof.
  induction arities as [|arity rest IH]; intros i prev r Hprev Hle Hs; simpl in Hs.
  - inversion Hs; subst. simpl. split; [constructor|done].
  - destruct (slice_range comps prev arity) as [part| |] eqn:Hp; try done. simpl in Hs.
    apply slice_range_ok in Hp as (Hpa & Hal & ->).
    destruct (Nat.compare_spec arity (length group)) as [Heq|Hlt|Hgt].
    + destruct (forallb _ _) eqn:E; [|done]. by inversion Hs.
    + destruct (forallb (contains_tid group) _) eqn:E; [|done].
      assert (Htake : ∀ x, x ∈ take arity comps → x ∈ group).
      { intros x Hx. replace arity with (prev + (arity - prev)) in Hx by lia.
        rewrite <-take_take_drop in Hx. apply elem_of_app in Hx as [Hx|Hx]; [by apply Hprev|].
        apply forallb_forall_elem with (x := x) in E; [|done]. by apply contains_tid_true in E. }
      specialize (IH (S i) arity r Htake Hal Hs). destruct r as [|k|]; [done| |].
      * destruct IH as (j & ar & -> & Hj & H1 & H2 & H3 & H4).
        exists (S j), ar. split_and!; [lia|done|done|done| |].
        -- simpl. by constructor.
        -- by destruct j.
      * destruct IH as [H1 H2]. split; [by constructor|].
        destruct rest as [|b rest]; [done|]. simpl in *. by destruct (last (b :: rest)) eqn:E'.
    + destruct (forallb _ _) eqn:E; [|done]. inversion Hs; subst.
      exists 0, arity. simpl. split_and!; [lia|done|done|done|constructor|done].
Qed.

Lemma sort_by_bool_perm {A} (key : A → bool) l : sort_by_bool key l ≡ₚ l.
Proof.
  unfold sort_by_bool. induction l as [|x l IH]; [done|].
  rewrite !filter_cons. destruct (key x) eqn:E.
  - rewrite decide_False by done. rewrite decide_True by done. rewrite <-Permutation_middle. by rewrite IH.
  - rewrite decide_True by done. rewrite decide_False by done. simpl. by rewrite IH.
Qed.

Lemma sorted_app_lt (l k : list nat) :
  StronglySorted lt (l ++ k) ↔
  StronglySorted lt l ∧ StronglySorted lt k ∧ ∀ x y, x ∈ l → y ∈ k → x < y.
Proof.
  induction l as [|a l IH]; simpl.
  - split; [|tauto]. intros H. split_and!; [constructor|done|]. intros ?? ?%elem_of_nil. done.
  - split.
    + inversion 1 as [|? ? Hs Hf]; subst. apply IH in Hs as (H1 & H2 & H3).
      apply Forall_app in Hf as [Hf1 Hf2]. split_and!; [by constructor|done|].
      intros x y [->|Hx]%elem_of_cons Hy; [rewrite Forall_forall in Hf2; auto|auto].
    + intros (H1 & H2 & H3). inversion H1; subst. constructor.
      * apply IH. split_and!; [done|done|]. intros. apply H3; [by right|done].
      * apply Forall_app. split; [done|]. apply Forall_forall. intros y Hy. apply H3; [left|done].
Qed.

(** Effect of [try_add_group] on a well formed family. *)
Lemma try_add_group_spec f g b f' :
  family_wf f → NoDup g → 2 ≤ length g → try_add_group f g = Ok (b, f') →
  family_wf f' ∧
  (if b then (∃ x, x ∈ f_comps f ∧ x ∈ g) ∧ ∀ x, x ∈ f_comps f' → x ∈ f_comps f ∨ x ∈ g
   else f' = f ∧ ∀ x, x ∈ f_comps f → x ∉ g) ∧
  (∀ x, x ∈ f_comps f → x ∈ f_comps f').
Proof.
  intros Hf Hg Hlen. unfold try_add_group.
  destruct (forallb _ (f_comps f)) eqn:E.
  { intros [= <- <-]. split_and!; try done. intros x Hx.
    rewrite forallb_forall_elem in E. specialize (E x Hx). apply negb_true_iff in E. by apply contains_tid_false. }
  assert (∃ x, x ∈ f_comps f ∧ x ∈ g) as Hex.
  { apply forallb_exists_false in E as (x & Hx & Hc). exists x. split; [done|].
    apply negb_false_iff in Hc. by apply contains_tid_true. }
  clear E. destruct (try_search _ _ _ _ _) as [r| |] eqn:Hs; [|done|done]. simpl.
  assert (H0 : ∀ x, x ∈ take 0 (f_comps f) → x ∈ g) by (intros x; rewrite take_0; by intros ?%elem_of_nil).
  pose proof (try_search_spec _ _ _ _ _ _ H0 (Nat.le_0_l _) Hs) as Hspec.
  destruct Hf as [Hnd Hsort Hmin [pre Hlast]].
  destruct r as [|k|].
  - intros [= <- <-]. split_and!; try done; [|by auto]. split; try done. by exists pre.
  - destruct Hspec as (j & arity & -> & Hj & Hlt & Hal & Hbefore & Hpre). simpl in *.
    rewrite Hj. destruct (Nat.leb_spec arity (length (f_comps f))); [|done].
    intros [= <- <-].
    assert (Hperm : sort_by_bool (contains_tid g) (take arity (f_comps f)) ++ drop arity (f_comps f)
                    ≡ₚ f_comps f).
    { rewrite sort_by_bool_perm. by rewrite take_drop. }
    split_and!; simpl.
    + split; simpl.
      * by rewrite Hperm.
      * rewrite <-(take_drop j (f_arities f)) in Hsort. apply sorted_app_lt in Hsort as (S1 & S2 & S3).
        apply sorted_app_lt. split_and!; [done| |].
        -- constructor; [done|]. rewrite (drop_S _ _ _ Hj) in S2 |- *.
           inversion S2 as [|? ? ? Hf2]; subst. constructor; [done|].
           eapply Forall_impl; [exact Hf2|]. simpl. intros. lia.
        -- intros x y Hx [->|Hy]%elem_of_cons; [rewrite Forall_forall in Hbefore; auto|by apply S3].
      * rewrite <-(take_drop j (f_arities f)) in Hmin. apply Forall_app in Hmin as [? ?].
        apply Forall_app. split; [done|by constructor].
      * exists (take j (f_arities f) ++ length g :: drop j pre). rewrite (Permutation_length Hperm).
        rewrite <-app_assoc. f_equal. simpl. f_equal.
        rewrite Hlast. apply lookup_lt_Some in Hj. rewrite Hlast, app_length in Hj. simpl in Hj.
        rewrite drop_app_le by lia. done.
    + done.
    + intros x. rewrite Hperm. by left.
    + intros x. by rewrite Hperm.
  - destruct Hspec as [Hbefore Hall]. intros [= <- <-]. simpl.
    assert (Hsub : ∀ x, x ∈ f_comps f → x ∈ g).
    { intros x Hx. apply Hall. rewrite Hlast, last_snoc. simpl. by rewrite firstn_all. }
    destruct (push_missing_spec g (f_comps f) Hnd) as (ext & -> & Hnd' & Hext).
    assert (Hl : length g = length (f_comps f ++ ext)).
    { apply nodup_same_length; [done|done|]. intros x. rewrite elem_of_app, Hext.
      destruct (decide (x ∈ f_comps f)); [|tauto]. split; [by left|auto]. }
    split_and!; simpl.
    + split; simpl.
      * done.
      * apply sorted_app_lt. split_and!; [done|repeat constructor|].
        intros x y Hx ->%elem_of_list_singleton. rewrite Forall_forall in Hbefore; auto.
      * apply Forall_app. split; [done|by constructor].
      * rewrite <-Hl. by eexists.
    + done.
    + intros x. rewrite elem_of_app, Hext. tauto.
    + intros x ?. apply elem_of_app. by left.
Qed.

(** ** Families *)

Lemma try_families_spec g : ∀ fs n fs',
  Forall family_wf fs → NoDup (fs ≫= f_comps) → NoDup g → 2 ≤ length g →
  try_families fs g = (false, n, fs') → n ≤ 1 →
  Forall family_wf fs' ∧ NoDup (fs' ≫= f_comps) ∧
  (∀ x, x ∈ fs ≫= f_comps → x ∈ fs' ≫= f_comps) ∧
  (∀ x, x ∈ fs' ≫= f_comps → x ∈ fs ≫= f_comps ∨ x ∈ g) ∧
  (n = 0 → fs' = fs ∧ ∀ x, x ∈ fs ≫= f_comps → x ∉ g).
Proof.
  induction fs as [|f fs IH]; intros n fs' Hwf Hnd Hg Hlen H Hn; simpl in *.
  - inversion H; subst. simpl. split_and!; try done; auto. intros _. split; [done|]. by intros x ?%elem_of_nil.
  - destruct (try_add_group f g) as [[b f']| |] eqn:E; [|done|done].
    destruct (try_families fs g) as [[p m] fs''] eqn:E2. inversion H; subst; clear H.
    apply Forall_cons in Hwf as [Hf Hfs]. apply NoDup_app in Hnd as (Nf & Nd & Nfs).
    destruct (try_add_group_spec f g b f' Hf Hg Hlen E) as (Hf' & Hb & Hsub).
    destruct (IH m fs'' Hfs Nfs Hg Hlen eq_refl) as (H1 & H2 & H3 & H4 & H5).
    { destruct b; lia. }
    split_and!.
    + by constructor.
    + simpl. apply NoDup_app. split_and!; [apply Hf'| |done].
      intros x Hx Hx'. destruct b.
      * destruct (H5 ltac:(lia)) as [-> Hdis]. destruct Hb as [_ Hb]. destruct (Hb x Hx) as [Hx1|Hx1].
        -- by apply (Nd x).
        -- by apply (Hdis x).
      * destruct Hb as [-> Hb]. destruct (H4 x Hx') as [?|?]; [by apply (Nd x)|by apply (Hb x)].
    + simpl. intros x. rewrite !elem_of_app. naive_solver.
    + simpl. intros x. rewrite !elem_of_app. intros [Hx|Hx%H4]; [|tauto].
      destruct b; [destruct Hb as [_ Hb]; specialize (Hb x Hx)|destruct Hb as [-> _]]; tauto.
    + intros Hn0. destruct b; [done|]. destruct Hb as [-> Hb]. destruct (H5 Hn0) as [-> H6].
      split; [done|]. simpl. intros x. rewrite elem_of_app. naive_solver.
Qed.

Lemma add_group_dyn_spec l g l' :
  layout_wf l → add_group_dyn l g = (false, l') →
  layout_wf l' ∧ (∀ x, x ∈ layout_tids l → x ∈ layout_tids l') ∧
  (∀ x, x ∈ layout_tids l' → x ∈ layout_tids l ∨ x ∈ g).
Proof.
  intros [Hf Hd]. unfold add_group_dyn. change (dedup (sort_tids g)) with (norm g).
  destruct (Nat.leb_spec (length (norm g)) 1) as [|Hlen]; [intros [= <-]; split_and!; auto; by split|].
  destruct (_ <? _); [done|].
  destruct (try_families l (norm g)) as [[p n] l2] eqn:E. destruct p; [done|].
  assert (n ≤ 1 → l' = l2 ∨ n = 0 ∧ l' = l2 ++ [Fam (norm g) [length (norm g)]] →
     layout_wf l' ∧ (∀ x, x ∈ layout_tids l → x ∈ layout_tids l') ∧
     (∀ x, x ∈ layout_tids l' → x ∈ layout_tids l ∨ x ∈ g)) as Hmain.
  { intros Hn Hl'.
    destruct (try_families_spec (norm g) l n l2 Hf Hd (norm_nodup g) ltac:(lia) E Hn)
      as (H1 & H2 & H3 & H4 & H5).
    destruct Hl' as [->|[-> ->]].
    - split_and!; [by split|done|]. intros x Hx. apply H4 in Hx. rewrite norm_elem in Hx. done.
    - destruct (H5 eq_refl) as [-> Hdis]. split_and!.
      + split.
        * apply Forall_app. split; [done|]. constructor; [|done]. split; simpl.
          -- apply norm_nodup.
          -- repeat constructor.
          -- by repeat constructor.
          -- by exists [].
        * unfold layout_tids. rewrite bind_app. simpl. rewrite app_nil_r.
          apply NoDup_app. split_and!; [done|done|apply norm_nodup].
      + unfold layout_tids. rewrite bind_app. intros x ?. apply elem_of_app. by left.
      + unfold layout_tids. rewrite bind_app. simpl. rewrite app_nil_r.
        intros x. rewrite elem_of_app, norm_elem. done. }
  destruct n as [|[|n]]; intros [= <-]; apply Hmain; auto.
Qed.

Lemma add_groups_wf gs : ∀ l l', layout_wf l → add_groups l gs = Some l' → layout_wf l'.
Proof.
  induction gs as [|g gs IH]; intros l l' Hl H; simpl in H; [by inversion H; subst|].
  destruct (add_group_dyn l g) as [[] l2] eqn:E; [done|].
  apply (IH l2); [|done]. by apply (add_group_dyn_spec l g l2).
Qed.

Theorem layout_built_wf gs l : add_groups [] gs = Some l → layout_wf l.
Proof. apply add_groups_wf, layout_wf_nil. Qed.
