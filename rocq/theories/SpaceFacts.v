(** How the memory of the storages grows. *)
From stdpp Require Import sorting.
From Verif Require Import Base SparseVecM EntityM CssM MaskM LayoutM GroupM StorageM WorldM QueryM StepM Spec SpecSpace LayoutProofs LayoutOps.

(** ** A relation that swaps keep is kept by the groups *)

Section swaps.
Local Unset Default Proof Using.
Context (R : css → css → Prop) (Rrefl : ∀ c, R c c) (Rtrans : ∀ a b c, R a b → R b c → R a c).
Context (Rswap : ∀ c a b c', css_swap c a b = Ok c' → R c c').

Lemma all_refl (l : list css) : Forall2 R l l.
Proof. induction l; by constructor. Qed.
Lemma all_trans l1 : ∀ l2 l3, Forall2 R l1 l2 → Forall2 R l2 l3 → Forall2 R l1 l3.
Proof.
  induction l1; intros l2 l3 H1 H2; inversion H1; subst; inversion H2; subst; constructor; [by eapply Rtrans|by eapply IHl1].
Qed.
Lemma all_insert l i c c' : l !! i = Some c → R c c' → Forall2 R l (<[i := c']> l).
Proof.
  intros Hi Hc. revert i Hi. induction l as [|x l IH]; intros [|i] Hi; simpl in *; try done.
  - injection Hi as ->. constructor; [done|apply all_refl].
  - constructor; [apply Rrefl|by apply IH].
Qed.

Lemma move_to_all e i c c' : move_to e i c = Ok c' → R c c'.
Proof.
  unfold move_to. destruct (sv_get_sparse_unchecked _ _) as [d| |]; try done. simpl.
  destruct (d =? i); [by intros [= <-]|apply Rswap].
Qed.
Lemma mapM_from_all (f : css → res css) lo hi : (∀ c c', f c = Ok c' → R c c') → ∀ l i l', mapM_from f lo hi i l = Ok l' → Forall2 R l l'.
Proof.
  intros Hf. induction l as [|c l IH]; intros i l' H; simpl in H; [injection H as <-; constructor|].
  destruct (if (lo <=? i) && (i <? hi) then f c else Ok c) as [c'| |] eqn:E; try done. simpl in H.
  destruct (mapM_from f lo hi (S i) l) as [l1| |] eqn:E1; try done. injection H as <-. constructor; [|by eapply IH].
  destruct (_ && _); [by apply Hf|]. by injection E as <-.
Qed.
Lemma on_range_all (f : css → res css) lo hi l l' : (∀ c c', f c = Ok c' → R c c') → on_range f lo hi l = Ok l' → Forall2 R l l'.
Proof. intros Hf. unfold on_range. destruct (range_ok l lo hi); [|done]. by apply mapM_from_all. Qed.

Lemma group_loop_all fuel : ∀ comps gs mask e r, group_loop fuel comps gs mask e = Ok r → Forall2 R comps r.1.
Proof.
  induction fuel as [|fuel IH]; intros comps gs mask e r H; simpl in H; destruct (bit_next mask) as [[k mask']|];
    try (injection H as <-; apply all_refl); try done.
  destruct (gs !! k) as [g|]; [|done]. destruct (status_of comps g e) as [st| |]; [|done..]. simpl in H.
  destruct st; try by eapply IH. unfold group_components in H.
  destruct (on_range _ _ _ comps) as [c| |] eqn:Ho; [|done..]. simpl in H. apply IH in H.
  eapply all_trans; [|done]. eapply on_range_all; [|done]. apply move_to_all.
Qed.
Lemma do_group_all comps gs mask e r : do_group comps gs mask e = Ok r → Forall2 R comps r.1.
Proof. unfold do_group. apply group_loop_all. Qed.
Lemma group_each_all mask : ∀ es comps gs r, group_each comps gs mask es = Ok r → Forall2 R comps r.1.
Proof.
  induction es as [|e es IH]; intros comps gs r; cbn [group_each]; [intros H; inversion H; apply all_refl|].
  destruct (do_group comps gs mask e) as [r1| |] eqn:H1; try done.
  intros H%IH. eapply all_trans; [|done]. by eapply do_group_all.
Qed.
Lemma ungroup_one_all comps gs k g e r : ungroup_one comps gs k g e = Ok r → Forall2 R comps r.1.
Proof.
  unfold ungroup_one. destruct (status_of comps g e) as [st| |]; [|done..]. simpl. destruct st; try by intros [= <-]; apply all_refl.
  unfold ungroup_components. destruct (g_len g); [done|].
  destruct (on_range _ _ _ comps) as [c| |] eqn:Ho; [|done..]. simpl. intros [= <-]. eapply on_range_all; [|done]. apply move_to_all.
Qed.
Lemma ungroup_loop_all fuel : ∀ comps gs mask e r, ungroup_loop fuel comps gs mask e = Ok r → Forall2 R comps r.1.
Proof.
  induction fuel as [|fuel IH]; intros comps gs mask e r H; simpl in H; destruct (bit_next_back mask) as [[k mask']|];
    try (injection H as <-; apply all_refl); try done.
  destruct (gs !! k) as [g|]; [|done]. destruct (ungroup_one comps gs k g e) as [r1| |] eqn:E; [|done..]. simpl in H.
  apply IH in H. eapply all_trans; [by eapply ungroup_one_all|done].
Qed.
Lemma do_ungroup_all comps gs mask e r : do_ungroup comps gs mask e = Ok r → Forall2 R comps r.1.
Proof. unfold do_ungroup. apply ungroup_loop_all. Qed.
Lemma ungroup_all_all e : ∀ k comps gs r, ungroup_all_from k comps gs e = Ok r → Forall2 R comps r.1.
Proof.
  induction k as [|k IH]; intros comps gs r H; simpl in H; [injection H as <-; apply all_refl|].
  destruct (gs !! k) as [g|]; [|done]. destruct (ungroup_one comps gs k g e) as [r1| |] eqn:E; [|done..]. simpl in H.
  apply IH in H. eapply all_trans; [by eapply ungroup_one_all|done].
Qed.
Lemma group_if_all s mask e s' : group_if s mask e = Ok s' → cs_meta s' = cs_meta s ∧ Forall2 R (cs_comps s) (cs_comps s').
Proof.
  unfold group_if. destruct (mask =? 0)%N; [intros [= <-]; split; [done|apply all_refl]|].
  destruct (do_group _ _ _ _) as [r| |] eqn:E; try done. intros [= <-]. split; [done|]. by eapply do_group_all.
Qed.
Lemma ungroup_if_all s mask e s' : ungroup_if s mask e = Ok s' → cs_meta s' = cs_meta s ∧ Forall2 R (cs_comps s) (cs_comps s').
Proof.
  unfold ungroup_if. destruct (mask =? 0)%N; [intros [= <-]; split; [done|apply all_refl]|].
  destruct (do_ungroup _ _ _ _) as [r| |] eqn:E; try done. intros [= <-]. split; [done|]. by eapply do_ungroup_all.
Qed.

(** ** ... by inserting, removing and writing *)

Context (P : entity → Prop) (Rins : ∀ c e v c' o, P e → css_insert c e v = Ok (c', o) → R c c').

Lemma insert_loop_all mt e : P e → ∀ cs comps mask,
  match insert_loop mt comps mask e cs with
  | InsOk _ comps' _ | InsPanic _ comps' => Forall2 R comps comps'
  | InsUB => True
  end.
Proof.
  intros He. induction cs as [|[t v] cs IH]; intros comps mask; simpl; [apply all_refl|].
  destruct (mt !! t) as [m|]; [|apply all_refl]. destruct (comps !! m_index m) as [c|] eqn:Hi; [|done].
  destruct (css_insert c e v) as [[c' o]| |] eqn:E; try done.
  specialize (IH (<[m_index m := c']> comps) (gm_or mask (m_insert m))).
  destruct (insert_loop _ _ _ _ cs); try done; (eapply all_trans; [|done]); (eapply all_insert; [done|by eapply Rins]).
Qed.
Lemma set_insert_all w e cs r gh out dr w' : P e → set_insert w e cs r gh = (out, dr, w') →
  w_ents w' = w_ents w ∧ cs_meta (w_comps w') = cs_meta (w_comps w) ∧ Forall2 R (cs_comps (w_comps w)) (cs_comps (w_comps w')).
Proof.
  intros He. unfold set_insert.
  pose proof (insert_loop_all (cs_meta (w_comps w)) e He cs (cs_comps (w_comps w)) 0%N) as Hl.
  destruct (insert_loop _ _ _ _ _) as [ds comps mask|ds comps|].
  - destruct (group_if _ mask e) as [s'| |] eqn:E.
    + intros [= <- <- <-]. apply group_if_all in E as [Hm E]. split_and!; [done..|]. by eapply all_trans.
    + intros [= <- <- <-]. split_and!; [done..|apply all_refl].
    + intros [= <- <- <-]. split_and!; [done..|apply all_refl].
  - by intros [= <- <- <-].
  - intros [= <- <- <-]. split_and!; [done..|apply all_refl].
Qed.
Lemma insert_row_all e : P e → ∀ row comps comps' ds, insert_row comps e row = Ok (comps', ds) → Forall2 R comps comps'.
Proof.
  intros He. induction row as [|[i v] row IH]; intros comps comps' ds H; simpl in H; [injection H as <- <-; apply all_refl|].
  destruct (comps !! i) as [c|] eqn:Hi; [|done]. destruct (css_insert c e v) as [[c' o]| |] eqn:E; try done.
  destruct (insert_row _ e row) as [[comps1 ds1]| |] eqn:E1; try done. injection H as <- <-.
  eapply all_trans; [|by eapply IH]. eapply all_insert; [done|by eapply Rins].
Qed.
Lemma extend_rows_all is_ : ∀ rows ents comps,
  match extend_rows ents comps is_ rows with
  | RowsOk _ _ comps' new | RowsPanic _ _ comps' new => Forall P new → Forall2 R comps comps'
  | RowsUB => True
  end.
Proof.
  induction rows as [|row rows IH]; intros ents comps; simpl; [intros; apply all_refl|].
  destruct (estore_create ents) as [[e ents']| |]; [|intros; apply all_refl|done].
  destruct (insert_row comps e (zip is_ row)) as [[comps1 ds1]| |] eqn:E; try done.
  specialize (IH ents' comps1). destruct (extend_rows ents' comps1 is_ rows); try done;
    (intros [He Hn]%Forall_cons; eapply all_trans; [by eapply insert_row_all|by apply IH]).
Qed.

Context (Rset : ∀ c i v c', css_set c i v = Ok c' → R c c').

Definition keeps (s s' : cstore) : Prop := cs_meta s' = cs_meta s ∧ Forall2 R (cs_comps s) (cs_comps s').
Lemma keeps_refl s : keeps s s.
Proof. split; [done|apply all_refl]. Qed.
Lemma keeps_trans s1 s2 s3 : keeps s1 s2 → keeps s2 s3 → keeps s1 s3.
Proof. intros [H1 H2] [H3 H4]. split; [congruence|by eapply all_trans]. Qed.

Lemma write_one_all s p it nv r : write_one s p it nv = Ok r → keeps s r.1.1.
Proof.
  unfold write_one.
  assert (∀ t i v, (match cs_meta s !! t with
    | None => UB
    | Some m =>
        match cs_comps s !! m_index m with
        | None => UB
        | Some c =>
            match buf_read (c_comps c) i, css_set c i v with
            | Ok old, Ok c' =>
                Ok (CStore (cs_groups s) (cs_meta s) (<[m_index m := c']> (cs_comps s)), [old], [v])
            | _, _ => UB
            end
        end
    end) = Ok r → keeps s r.1.1) as Hgo.
  { intros t i v H. destruct (cs_meta s !! t) as [m|]; [|done]. destruct (cs_comps s !! m_index m) as [c|] eqn:Hm; [|done].
    destruct (buf_read (c_comps c) i); [|done..]. destruct (css_set c i v) eqn:Hs; [|done..]. injection H as <-.
    split; [done|]. simpl. eapply all_insert; [done|by eapply Rset]. }
  intros H. destruct p; try (injection H as <-; apply keeps_refl);
    destruct it as [|? ? ?|? [[]|]]; try (injection H as <-; apply keeps_refl);
    destruct nv; try (injection H as <-; apply keeps_refl); by eapply Hgo.
Qed.
Lemma write_items_all f seen : ∀ ps its s k r, write_items s f seen k ps its = Ok r → keeps s r.1.1.
Proof.
  induction ps as [|p ps IH]; intros [|it its] s k r H; simpl in H; try (injection H as <-; apply keeps_refl).
  destruct (write_one s p it (f k seen)) as [[[s1 o1] n1]| |] eqn:E; [|done..].
  destruct (write_items s1 f seen (S k) ps its) as [[[s2 o2] n2]| |] eqn:E2; [|done..]. injection H as <-.
  apply write_one_all in E. apply IH in E2. by eapply keeps_trans.
Qed.
Lemma sparse_for_each_all f G x i g : ∀ ents s r, sparse_for_each s f G ents x i g = Ok r → keeps s r.1.1.1.
Proof.
  induction ents as [|e ents IH]; intros s r H; simpl in H; [injection H as <-; apply keeps_refl|].
  destruct (negb _); [by eapply IH|]. destruct (negb _); [by eapply IH|].
  destruct (query_get_raw _ e) as [[it|]| |]; try done; [|by eapply IH].
  destruct (visit s f G it) as [[[s1 o1] n1]| |] eqn:E; try done.
  destruct (sparse_for_each s1 f G ents x i g) as [[[[s2 es2] o2] n2]| |] eqn:E2; try done. injection H as <-.
  apply write_items_all in E. apply IH in E2. by eapply keeps_trans.
Qed.
Lemma dense_for_each_all f G ents g : ∀ ks s r, dense_for_each s f G ks ents g = Ok r → keeps s r.1.1.1.
Proof.
  induction ks as [|k ks IH]; intros s r H; simpl in H; [injection H as <-; apply keeps_refl|].
  destruct (ents !! k) as [e|]; [|done]. destruct (query_get_dense _ k e) as [it| |]; try done.
  destruct (visit s f G it) as [[[s1 o1] n1]| |] eqn:E; try done.
  destruct (dense_for_each s1 f G ks ents g) as [[[[s2 es2] o2] n2]| |] eqn:E2; try done. injection H as <-.
  apply write_items_all in E. apply IH in E2. by eapply keeps_trans.
Qed.
Lemma query_for_each_all w G J X f r : query_for_each w G J X f = Ok r → keeps (w_comps w) r.1.1.1.
Proof.
  unfold query_for_each. destruct (borrow3 w G J X) as [[[g i] x]| |]; try done.
  destruct (query_iter _ g i x) as [[ents x' i' g'|lo hi ents g']| |]; try done; [apply sparse_for_each_all|apply dense_for_each_all].
Qed.

Lemma set_extend_all w ts rows p out dr w' : set_extend w ts rows p = (out, dr, w') →
  (∀ is_ mask, lookup_metas (cs_meta (w_comps w)) m_insert ts = Some (is_, mask) →
    match extend_rows (w_ents w) (cs_comps (w_comps w)) is_ rows with
    | RowsOk _ _ _ new | RowsPanic _ _ _ new => Forall P new
    | RowsUB => True
    end) → keeps (w_comps w) (w_comps w').
Proof.
  unfold set_extend. destruct (lookup_metas _ _ ts) as [[is_ mask]|] eqn:El.
  2: { intros [= <- <- <-] _. apply keeps_refl. }
  intros H Hn. specialize (Hn _ _ eq_refl). pose proof (extend_rows_all is_ rows (w_ents w) (cs_comps (w_comps w))) as He.
  destruct (extend_rows _ _ _ _) as [ds ents comps new|ds ents comps new|].
  - specialize (He Hn). destruct p; [by injection H as <- <- <-|].
    destruct (length _ <=? length _); [|injection H as <- <- <-; apply keeps_refl].
    destruct (mask =? 0)%N; [by injection H as <- <- <-|].
    destruct (group_each _ _ _ _) as [[c g]| |] eqn:E; injection H as <- <- <-; try apply keeps_refl.
    apply group_each_all in E. split; [done|]. by eapply all_trans.
  - specialize (He Hn). by injection H as <- <- <-.
  - injection H as <- <- <-. apply keeps_refl.
Qed.

Context (Rdel : ∀ c e r, css_delete c e = Ok r → R c r.1) (Rrem : ∀ c e r, css_remove c e = Ok r → R c r.1)
  (Rclr : ∀ c r, css_clear c = Ok r → R c r.1).

Lemma remove_each_all e : ∀ is_ comps r, remove_each comps e is_ = Ok r → Forall2 R comps r.1.
Proof.
  induction is_ as [|i is_ IH]; intros comps r H; simpl in H; [injection H as <-; apply all_refl|].
  destruct (comps !! i) as [c|] eqn:Hi; [|done]. destruct (css_remove c e) as [[c' o]| |] eqn:E; try done.
  destruct (remove_each _ e is_) as [[comps1 ds1]| |] eqn:E1; try done. injection H as <-.
  apply IH in E1. eapply all_trans; [|exact E1]. eapply all_insert; [done|by apply Rrem in E].
Qed.
Lemma delete_list_all e : ∀ is_ comps r, delete_list comps e is_ = Ok r → Forall2 R comps r.1.
Proof.
  induction is_ as [|i is_ IH]; intros comps r H; simpl in H; [injection H as <-; apply all_refl|].
  destruct (comps !! i) as [c|] eqn:Hi; [|done]. destruct (css_delete c e) as [[c' o]| |] eqn:E; try done.
  destruct (delete_list _ e is_) as [[comps1 ds1]| |] eqn:E1; try done. injection H as <-.
  apply IH in E1. eapply all_trans; [|exact E1]. eapply all_insert; [done|by apply Rdel in E].
Qed.
Lemma delete_each_all e : ∀ comps r, delete_each comps e = Ok r → Forall2 R comps r.1.
Proof.
  induction comps as [|c comps IH]; intros r H; simpl in H; [injection H as <-; constructor|].
  destruct (css_delete c e) as [rc| |] eqn:E; try done. simpl in H.
  destruct (delete_each comps e) as [r1| |] eqn:E1; try done. injection H as <-. constructor; [by eapply Rdel|by apply IH].
Qed.
Lemma clear_each_all : ∀ comps r, clear_each comps = Ok r → Forall2 R comps r.1.
Proof.
  induction comps as [|c comps IH]; intros r H; simpl in H; [injection H as <-; constructor|].
  destruct (css_clear c) as [rc| |] eqn:E; try done. simpl in H.
  destruct (clear_each comps) as [r1| |] eqn:E1; try done. injection H as <-. constructor; [by eapply Rclr|by apply IH].
Qed.

End swaps.

(** ** The allocation *)

Definition cok (c : css) : Prop := (c_cap c = 0 ∨ ∃ k, c_cap c = 4 * 2 ^ k) ∧ c_len c ≤ c_cap c.

Lemma fit_ge n : n ≤ fit n.
Proof.
  unfold fit. destruct (Nat.eqb_spec n 0); [lia|].
  destruct (decide (n = 1)) as [->|]; [simpl; lia|]. pose proof (Nat.log2_up_spec n). lia.
Qed.
Lemma fit_mono n m : n ≤ m → fit n ≤ fit m.
Proof.
  intros H. unfold fit. destruct (Nat.eqb_spec n 0), (Nat.eqb_spec m 0); try lia.
  pose proof (Nat.log2_up_le_mono n m H). pose proof (Nat.pow_le_mono_r 2 (Nat.log2_up n) (Nat.log2_up m)). lia.
Qed.
Lemma fit_pow k : fit (4 * 2 ^ k) = 4 * 2 ^ k.
Proof.
  unfold fit. pose proof (Nat.pow_nonzero 2 k). destruct (Nat.eqb_spec (4 * 2 ^ k) 0); [lia|].
  replace (4 * 2 ^ k) with (2 ^ (S (S k))) by (rewrite !Nat.pow_succ_r'; lia).
  rewrite Nat.log2_up_pow2 by lia. rewrite !Nat.pow_succ_r'. lia.
Qed.
Lemma fit_shape n : fit n = 0 ∨ ∃ k, fit n = 4 * 2 ^ k.
Proof.
  unfold fit. destruct (n =? 0); [by left|]. right.
  destruct (Nat.log2_up n) as [|[|k]]; [by exists 0..|]. exists k. rewrite !Nat.pow_succ_r'.
  pose proof (Nat.pow_nonzero 2 k). lia.
Qed.
Lemma fit_next k : fit (4 * 2 ^ k + 1) = 4 * 2 ^ S k.
Proof.
  unfold fit. destruct (Nat.eqb_spec (4 * 2 ^ k + 1) 0); [lia|].
  replace (4 * 2 ^ k + 1) with (S (2 ^ (S (S k)))) by (rewrite !Nat.pow_succ_r'; lia).
  rewrite Nat.log2_up_succ_pow2 by lia. pose proof (Nat.pow_nonzero 2 k). rewrite !Nat.pow_succ_r'. lia.
Qed.
Lemma cok_fit c : cok c → fit (c_len c) ≤ c_cap c.
Proof.
  intros [[H|[k H]] Hl]; rewrite H in *.
  - replace (c_len c) with 0 by lia. done.
  - rewrite <-(fit_pow k). by apply fit_mono.
Qed.
Lemma cok_new : cok css_new.
Proof. split; [by left|done]. Qed.

(** What inserting does. *)
Definition adds (c c' : css) : Prop :=
  c_len c ≤ c_len c' ∧ (cok c → cok c' ∧ c_cap c' = c_cap c `max` fit (c_len c')).
(** What the other calls do. *)
Definition same_cap (c c' : css) : Prop := c_cap c' = c_cap c ∧ c_len c' ≤ c_len c.
(** What both do. *)
Definition grows (c c' : css) : Prop := cok c → cok c' ∧ c_cap c' = c_cap c `max` fit (c_len c').

Lemma adds_same c c' : c_len c' = c_len c → c_cap c' = c_cap c → adds c c'.
Proof.
  intros H1 H2. split; [lia|]. intros Hc. pose proof (cok_fit c Hc). unfold cok in *. rewrite H1, H2. split; [done|lia].
Qed.
Lemma adds_refl c : adds c c.
Proof. by apply adds_same. Qed.
Lemma adds_trans a b c : adds a b → adds b c → adds a c.
Proof.
  intros [H1 H2] [H3 H4]. split; [lia|]. intros [Hb Eb]%H2. destruct (H4 Hb) as [Hc Ec]. split; [done|].
  pose proof (fit_mono _ _ H3). lia.
Qed.
Lemma same_cap_refl c : same_cap c c.
Proof. done. Qed.
Lemma same_cap_trans a b c : same_cap a b → same_cap b c → same_cap a c.
Proof. intros [] []. split; [congruence|lia]. Qed.
Lemma adds_grows c c' : adds c c' → grows c c'.
Proof. by intros (_ & ?). Qed.
Lemma same_cap_grows c c' : same_cap c c' → grows c c'.
Proof.
  intros [H1 H2] Hc. pose proof (cok_fit c Hc). pose proof (fit_mono _ _ H2). destruct Hc. unfold cok. rewrite H1.
  split; [split; [done|lia]|lia].
Qed.

Lemma swap_sizes c a b c' : css_swap c a b = Ok c' →
  c_len c' = c_len c ∧ c_cap c' = c_cap c ∧ length (c_sparse c') = length (c_sparse c).
Proof.
  unfold css_swap. destruct (_ && _); [|done].
  destruct (buf_read (c_ents c) a) as [ea| |]; try done. simpl.
  destruct (buf_read (c_ents c) b) as [eb| |]; try done. simpl.
  destruct (sv_swap _ _ _) as [sp| |] eqn:Es; try done. simpl.
  destruct (buf_write (c_ents c) a _) as [ents1| |]; try done. simpl.
  destruct (buf_write ents1 b _) as [ents2| |]; try done. simpl.
  destruct (buf_read (c_comps c) a) as [va| |]; try done. simpl.
  destruct (buf_read (c_comps c) b) as [vb| |]; try done. simpl.
  destruct (buf_write (c_comps c) a _) as [comps1| |]; try done. simpl.
  destruct (buf_write comps1 b _) as [comps2| |]; try done. simpl. intros [= <-]. split_and!; [done..|].
  unfold sv_swap in Es. destruct (_ =? _); [done|]. destruct (c_sparse c !! _); [|done]. destruct (c_sparse c !! _); [|done].
  injection Es as <-. simpl. by rewrite !insert_length.
Qed.
Lemma set_sizes c i v c' : css_set c i v = Ok c' →
  c_len c' = c_len c ∧ c_cap c' = c_cap c ∧ c_sparse c' = c_sparse c.
Proof.
  unfold css_set. destruct (buf_read _ i) as [x| |]; try done. simpl.
  destruct (buf_write _ i _) as [y| |]; try done. simpl. by intros [= <-].
Qed.
Lemma detach_sizes c e i c' : css_detach c e = Ok (Some (i, c')) →
  same_cap c c' ∧ length (c_sparse c') = length (c_sparse c).
Proof.
  unfold css_detach. destruct (sv_remove (c_sparse c) e) as [sp [raw|]] eqn:Es; [|done].
  destruct (c_len c) as [|n] eqn:El; [done|].
  destruct (buf_read (c_ents c) n) as [le| |]; try done. simpl.
  destruct (buf_write (c_ents c) _ _) as [ents| |]; try done. simpl.
  assert (length sp = length (c_sparse c)) as Hsp.
  { unfold sv_remove in Es. destruct (c_sparse c !! _) as [[sl|]|]; try done. destruct (_ =? _)%N; [|done].
    injection Es as <- _. by rewrite insert_length. }
  destruct (if _ <? n then _ else _) as [sp'| |] eqn:Ew; try done. simpl. intros [= <- <-]. split; [split; simpl; [done|lia]|]. simpl. rewrite <-Hsp.
  destruct (_ <? n); [|by injection Ew as <-]. unfold sv_write in Ew. destruct (_ <? _); [|done]. injection Ew as <-.
  by rewrite insert_length.
Qed.
Lemma remove_sizes c e r : css_remove c e = Ok r → same_cap c r.1 ∧ length (c_sparse r.1) = length (c_sparse c).
Proof.
  unfold css_remove. destruct (css_detach c e) as [[[i c1]|]| |] eqn:Ed; try done; simpl; [|by intros [= <-]].
  apply detach_sizes in Ed. destruct (buf_read _ i) as [x| |]; try done. simpl.
  destruct (c_comps c1 !! c_len c1) as [l|]; [|done].
  destruct (buf_write _ i _) as [y| |]; try done. simpl. destruct (buf_write y _ _) as [z| |]; try done. simpl. by intros [= <-].
Qed.
Lemma delete_sizes c e r : css_delete c e = Ok r → same_cap c r.1 ∧ length (c_sparse r.1) = length (c_sparse c).
Proof.
  unfold css_delete. destruct (css_detach c e) as [[[i c1]|]| |] eqn:Ed; try done; simpl; [|by intros [= <-]].
  apply detach_sizes in Ed. destruct (buf_read _ i) as [x| |]; try done. simpl.
  destruct (c_comps c1 !! c_len c1) as [l|]; [|done].
  destruct (buf_write _ i _) as [y| |]; try done. simpl. destruct (buf_write y _ _) as [z| |]; try done. simpl. by intros [= <-].
Qed.
Lemma clear_sizes c r : css_clear c = Ok r → same_cap c r.1 ∧ length (c_sparse r.1) = 0.
Proof. unfold css_clear. destruct (buf_slice _ _) as [x| |]; try done. simpl. intros [= <-]. split; [split; simpl; [done|lia]|done]. Qed.

Lemma insert_adds c e v c' o : css_insert c e v = Ok (c', o) → adds c c'.
Proof.
  unfold css_insert. destruct (sv_allocate_at (c_sparse c) (e_sparse e) !! e_sparse e) as [[sl|]|]; try done.
  - destruct (buf_write (c_ents c) _ _) as [x| |]; try done. simpl. destruct (buf_read _ _) as [y| |]; try done. simpl.
    destruct (buf_write _ _ _) as [z| |]; try done. simpl. intros [= <- _]. by apply adds_same.
  - destruct (Nat.eqb_spec (c_len c) (c_cap c)) as [El|El]; cbn [css_grow c_ents c_comps c_len c_cap c_sparse].
    + destruct (buf_write (_ (c_ents c) ++ _) _ _) as [x| |]; try done. simpl. destruct (buf_write _ _ _) as [y| |]; try done. simpl.
      intros [= <- _]. split; simpl; [lia|]. intros [Hp _]. unfold cok. simpl. rewrite El.
      assert (∃ k, css_new_cap (c_cap c) = 4 * 2 ^ k ∧ fit (c_cap c + 1) = 4 * 2 ^ k ∧ c_cap c < 4 * 2 ^ k) as (k & -> & -> & Hk).
      { destruct Hp as [->|[k ->]]; [exists 0; split_and!; try done; simpl; lia|]. exists (S k). rewrite fit_next. unfold css_new_cap.
        pose proof (Nat.pow_nonzero 2 k). rewrite Nat.pow_succ_r'. destruct (4 * 2 ^ k) eqn:E; lia. }
      split; [|lia]. split; [right; by exists k|lia].
    + destruct (buf_write (c_ents c) _ _) as [x| |]; try done. simpl. destruct (buf_write _ _ _) as [y| |]; try done. simpl.
      intros [= <- _]. split; simpl; [lia|]. intros [Hp Hl].
      assert (cok (Css (<[e_sparse e := Some (Slot (as_u32 (N.of_nat (c_len c))) (e_version e))]>
        (sv_allocate_at (c_sparse c) (e_sparse e))) x y (c_len c + 1) (c_cap c))) as Hok by (split; [done|simpl; lia]).
      split; [done|]. apply cok_fit in Hok. simpl in Hok. lia.
Qed.
Lemma swap_adds c a b c' : css_swap c a b = Ok c' → adds c c'.
Proof. intros (H1 & H2 & _)%swap_sizes. by apply adds_same. Qed.
Lemma set_adds c i v c' : css_set c i v = Ok c' → adds c c'.
Proof. intros (H1 & H2 & _)%set_sizes. by apply adds_same. Qed.
Lemma swap_same_cap c a b c' : css_swap c a b = Ok c' → same_cap c c'.
Proof. intros (H1 & H2 & _)%swap_sizes. split; [done|lia]. Qed.

(** ** The calls *)

Definition wgrows (w w' : world) : Prop := keeps grows (w_comps w) (w_comps w').

Lemma wgrows_adds s s' : keeps adds s s' → keeps grows s s'.
Proof. intros [H1 H2]. split; [done|]. eapply Forall2_impl; [done|]. apply adds_grows. Qed.
Lemma wgrows_same s s' : keeps same_cap s s' → keeps grows s s'.
Proof. intros [H1 H2]. split; [done|]. eapply Forall2_impl; [done|]. apply same_cap_grows. Qed.
Lemma wgrows_refl s : keeps grows s s.
Proof. apply wgrows_same, keeps_refl; intros; done. Qed.

Lemma remove_cap c e r : css_remove c e = Ok r → same_cap c r.1.
Proof. by intros [H _]%remove_sizes. Qed.
Lemma delete_cap c e r : css_delete c e = Ok r → same_cap c r.1.
Proof. by intros [H _]%delete_sizes. Qed.
Lemma clear_cap c r : css_clear c = Ok r → same_cap c r.1.
Proof. by intros [H _]%clear_sizes. Qed.

Lemma set_insert_adds w e cs r gh out dr w' : set_insert w e cs r gh = (out, dr, w') → keeps grows (w_comps w) (w_comps w').
Proof.
  intros H. apply wgrows_adds.
  by apply (set_insert_all adds adds_refl adds_trans swap_adds (λ _, True) (λ c e v c' o _, insert_adds c e v c' o)) in H as (_ & ?); [|done].
Qed.

Definition moving (o : op) : Prop := match o with ORegister _ | OSetLayout _ _ => True | _ => False end.

Lemma step_grows w o out dr w' : ¬ moving o → step w o = (out, dr, w') → keeps grows (w_comps w) (w_comps w').
Proof.
  intros Ho H. destruct o as [cs|ts rows p|e| | |e cs|e ts|e ts| | |t|l perm|t e v|G J X f]; cbn [step] in H; try by destruct Ho.
  - unfold world_create in H. destruct (estore_create _) as [[e ents]| |]; [|injection H as <- <- <-; apply wgrows_refl..].
    by apply set_insert_adds in H.
  - apply wgrows_adds.
    apply (set_extend_all adds adds_refl adds_trans swap_adds (λ _, True) (λ c e v c' o _, insert_adds c e v c' o)) in H; [done|].
    intros is_ mask _. destruct (extend_rows _ _ _ _); try done; by apply Forall_true.
  - unfold world_destroy in H. destruct (estore_remove _ e) as [[[] ents]| |]; try (injection H as <- <- <-; apply wgrows_refl).
    destruct (strip _ e) as [[s ds]| |] eqn:E; injection H as <- <- <-; try apply wgrows_refl. apply wgrows_same.
    unfold strip in E. destruct (ungroup_all _ _ e) as [r| |] eqn:E1; try done. simpl in E.
    destruct (delete_each r.1 e) as [d| |] eqn:E2; try done. injection E as <- <-. split; [done|]. simpl.
    unfold ungroup_all in E1. apply (ungroup_all_all same_cap same_cap_refl same_cap_trans swap_same_cap) in E1.
    eapply (all_trans same_cap same_cap_trans); [done|].
    by apply (delete_each_all same_cap delete_cap) in E2.
  - unfold world_create_atomic in H. destruct (estore_create_atomic _) as [[e ents]| |]; injection H as <- <- <-; apply wgrows_refl.
  - unfold world_maintain in H. destruct (estore_maintain _) as [ents| |]; injection H as <- <- <-; apply wgrows_refl.
  - unfold world_insert in H. destruct (estore_contains _ e); [|injection H as <- <- <-; apply wgrows_refl].
    by apply set_insert_adds in H.
  - unfold set_remove in H. destruct (lookup_metas _ _ ts) as [[is_ mask]|]; [|injection H as <- <- <-; apply wgrows_refl].
    destruct (ungroup_if _ mask e) as [s1| |] eqn:E; [|injection H as <- <- <-; apply wgrows_refl..].
    destruct (remove_each _ e is_) as [[comps vs]| |] eqn:E1; injection H as <- <- <-; try apply wgrows_refl. apply wgrows_same.
    apply (ungroup_if_all same_cap same_cap_refl same_cap_trans swap_same_cap) in E as [Hm E].
    apply (remove_each_all same_cap same_cap_refl same_cap_trans remove_cap) in E1.
    split; [done|]. by eapply (all_trans same_cap same_cap_trans).
  - unfold set_delete in H. destruct (lookup_metas _ _ ts) as [[is_ mask]|]; [|injection H as <- <- <-; apply wgrows_refl].
    destruct (ungroup_if _ mask e) as [s1| |] eqn:E; [|injection H as <- <- <-; apply wgrows_refl..].
    destruct (delete_list _ e is_) as [[comps vs]| |] eqn:E1; injection H as <- <- <-; try apply wgrows_refl. apply wgrows_same.
    apply (ungroup_if_all same_cap same_cap_refl same_cap_trans swap_same_cap) in E as [Hm E].
    apply (delete_list_all same_cap same_cap_refl same_cap_trans delete_cap) in E1.
    split; [done|]. by eapply (all_trans same_cap same_cap_trans).
  - unfold world_clear in H. destruct (estore_clear _) as [ents| |]; [|injection H as <- <- <-; apply wgrows_refl..].
    unfold cstore_clear in H. destruct (clear_each _) as [r| |] eqn:E; simpl in H; injection H as <- <- <-; try apply wgrows_refl.
    apply wgrows_same. split; [done|]. by apply (clear_each_all same_cap clear_cap) in E.
  - unfold world_reset in H.
    unfold cstore_clear in H. destruct (clear_each _) as [r| |] eqn:E; simpl in H; injection H as <- <- <-; try apply wgrows_refl.
    apply wgrows_same. split; [done|]. by apply (clear_each_all same_cap clear_cap) in E.
  - unfold world_set in H. destruct (cs_meta _ !! t) as [m|]; [|injection H as <- <- <-; apply wgrows_refl].
    destruct (cs_comps (w_comps w) !! m_index m) as [c|] eqn:Hc; [|injection H as <- <- <-; apply wgrows_refl].
    destruct (css_get_ref c e) as [[[i old]|]| |]; try (injection H as <- <- <-; apply wgrows_refl).
    destruct (css_set c i v) as [c'| |] eqn:E; injection H as <- <- <-; try apply wgrows_refl.
    apply wgrows_adds. split; [done|]. simpl. apply (all_insert adds adds_refl) with c; [done|by eapply set_adds].
  - unfold world_for_each in H. destruct (query_for_each w G J X f) as [[[[s vis] old] new]| |] eqn:E; injection H as <- <- <-; try apply wgrows_refl.
    apply wgrows_adds. by apply (query_for_each_all adds adds_refl adds_trans set_adds) in E.
Qed.

(** [set_layout] moves the storages. *)
Definition from (s : cstore) (s' : cstore) : Prop :=
  ∀ t m, cs_meta s' !! t = Some m → ∃ c, cs_comps s' !! m_index m = Some c ∧
    (c = css_new ∨ ∃ m0, cs_meta s !! t = Some m0 ∧ cs_comps s !! m_index m0 = Some c).
Definition sets_from (s : cstore) (sets : gmap tid css) : Prop :=
  ∀ t c, sets !! t = Some c → ∃ m0, cs_meta s !! t = Some m0 ∧ cs_comps s !! m_index m0 = Some c.

Lemma from_push s gs gs' mt comps t m sets : from s (CStore gs mt comps) → sets_from s sets → m_index m = length comps →
  from s (CStore gs' (<[t := m]> mt) (comps ++ [default css_new (sets !! t)])).
Proof.
  intros Hf Hs Hm t' m' H. simpl in *. destruct (decide (t' = t)) as [->|].
  - rewrite lookup_insert in H. injection H as <-. eexists. split; [rewrite Hm; by apply list_lookup_middle|].
    destruct (sets !! t) as [c|] eqn:E; [|by left]. right. by apply Hs.
  - rewrite lookup_insert_ne in H by done. destruct (Hf t' m' H) as (c & Hc & H'). exists c. split; [|done]. by apply lookup_app_l_Some.
Qed.
Lemma from_groups s gs gs' mt comps : from s (CStore gs mt comps) → from s (CStore gs' mt comps).
Proof. done. Qed.

Definition sl_ok (s : cstore) (r : after sl_state) : Prop :=
  match r with Done (s', sets) | Paniced (s', sets) => from s s' ∧ sets_from s sets end.

Lemma sl_comps_from s fam gs0 ge ng : ∀ n local st, from s st.1 → sets_from s st.2 → sl_ok s (sl_comps fam gs0 ge ng local n st).
Proof.
  induction n as [|n IH]; intros local [[gs mt comps] sets] Hf Hs; [done|]. simpl in *.
  destruct (f_comps fam !! local) as [t|]; [|done]. destruct (gm_from_to gs0 ge) as [im|]; [|done].
  destruct (gm_from_to ng ge) as [dm|]; [|done]. destruct (sm_single local) as [sm|]; [|done].
  apply IH; simpl.
  - eapply from_push; done.
  - intros t' c [_ H]%lookup_delete_Some. by apply Hs.
Qed.
Lemma then_ok s r f : sl_ok s r → (∀ st, from s st.1 → sets_from s st.2 → sl_ok s (f st)) → sl_ok s (then_ r f).
Proof. destruct r as [[s' sets]|[s' sets]]; simpl; [|done]. intros [H1 H2] Hf. by apply Hf. Qed.
Lemma sl_arities_from s fam ss gs0 ge : ∀ ars prev st, from s st.1 → sets_from s st.2 → sl_ok s (sl_arities fam ss gs0 ge prev ars st).
Proof.
  induction ars as [|ar ars IH]; intros prev [[gs mt comps] sets] Hf Hs; [done|]. simpl in *.
  destruct (gm_skip_from_to _ _); [|done]. destruct (qm_of_include ar); [|done]. destruct (qm_of_exclude prev ar); [|done].
  apply then_ok; [by apply sl_comps_from|]. intros. by apply IH.
Qed.
Lemma sl_families_from s : ∀ l st, from s st.1 → sets_from s st.2 → sl_ok s (sl_families l st).
Proof.
  induction l as [|fam l IH]; intros st Hf Hs; [by destruct st|]. cbn [sl_families].
  apply then_ok; [by apply sl_arities_from|]. intros. by apply IH.
Qed.
Lemma sl_leftover_from s sets : sets_from s sets → ∀ order s', from s s' → from s (sl_leftover order sets s').
Proof.
  intros Hs. induction order as [|t order IH]; intros [gs mt comps] Hf; [done|]. simpl. apply IH. by eapply from_push.
Qed.

Lemma set_layout_from (R : css → css → Prop) s l perm es :
  (∀ c, R c c) → (∀ a b c, R a b → R b c → R a c) → (∀ c a b c', css_swap c a b = Ok c' → R c c') →
  match set_layout s l perm es with
  | SlOk s' | SlPanic _ s' => s' = s ∨ ∃ s1, from s s1 ∧ keeps R s1 s'
  | SlUB => True
  end.
Proof.
  intros HR1 HR2 HR3. unfold set_layout. destruct (extract_sets s) as [[sets s0]| |] eqn:E; [|by left|done].
  unfold extract_sets in E. destruct (forallb _ _); [|done]. injection E as <- <-.
  match goal with |- context [sl_families l (?s0, ?sets)] =>
    pose proof (sl_families_from s l (s0, sets)) as Hf; destruct (sl_families l (s0, sets)) as [[s1 sets1]|[s1 sets1]] end.
  all: destruct Hf as [Hf Hs]; [done|intros t c; simpl; rewrite lookup_omap; destruct (cs_meta s !! t) as [m|]; [by exists m|done]|].
  - pose proof (sl_leftover_from s sets1 Hs (order_by perm sets1) s1 Hf) as Hl. cbv zeta. revert Hl.
    generalize (sl_leftover (order_by perm sets1) sets1 s1). intros s2 Hl.
    destruct (gm_from_to _ _) as [mask|]; [|right; exists s2; split; [done|by apply keeps_refl]].
    destruct (group_each _ _ mask es) as [[comps gs]| |] eqn:E; try done. right. exists s2. split; [done|]. split; [done|].
    by apply (group_each_all R HR1 HR2 HR3) in E.
  - destruct (drop_all _); try done. right. exists s1. split; [done|by apply keeps_refl].
Qed.

(** A successful [set_layout] keeps every storage. *)
Section kept.
Context (t : tid) (c : css).
Definition waits (st : sl_state) : Prop := st.2 !! t = Some c ∧ cs_meta st.1 !! t = None.
Definition placed (st : sl_state) : Prop :=
  st.2 !! t = None ∧ ∃ m, cs_meta st.1 !! t = Some m ∧ cs_comps st.1 !! m_index m = Some c.

Lemma sl_comps_kept fam gs0 ge ng (B : Prop) : NoDup (f_comps fam) → (t ∈ f_comps fam → B) → ∀ n local st st',
  (waits st ∨ placed st ∧ B ∧ ∀ k, f_comps fam !! k = Some t → k < local) → sl_comps fam gs0 ge ng local n st = Done st' →
  waits st' ∨ placed st' ∧ B ∧ ∀ k, f_comps fam !! k = Some t → k < local + n.
Proof.
  intros Hnd HB. induction n as [|n IH]; intros local [[gs mt comps] sets] st' Hst H; simpl in *.
  { injection H as <-. by rewrite Nat.add_0_r. }
  destruct (f_comps fam !! local) as [t'|] eqn:Ht; [|done]. destruct (gm_from_to gs0 ge) as [im|]; [|done].
  destruct (gm_from_to ng ge) as [dm|]; [|done]. destruct (sm_single local) as [sm|]; [|done].
  rewrite Nat.add_succ_r, <-Nat.add_succ_l. eapply IH, H. clear IH H. destruct Hst as [[H1 H2]|[[H1 (m & H2 & H3)] [Hb H4]]]; simpl in *.
  - destruct (decide (t' = t)) as [->|].
    + right. split_and!; [split; simpl; [by rewrite lookup_delete|]|..].
      * eexists. rewrite lookup_insert. split; [done|]. simpl. rewrite H1. by apply list_lookup_middle.
      * apply HB. by eapply elem_of_list_lookup_2.
      * intros k Hk. rewrite (NoDup_lookup _ _ _ _ Hnd Hk Ht). lia.
    + left. split; simpl; [by rewrite lookup_delete_ne|by rewrite lookup_insert_ne].
  - right. assert (t' ≠ t) by (intros ->; specialize (H4 _ Ht); lia). split_and!; [|done|].
    + split; simpl; [by rewrite lookup_delete_ne|]. exists m. rewrite lookup_insert_ne by done. split; [done|]. by apply lookup_app_l_Some.
    + intros k Hk%H4. lia.
Qed.
Lemma sl_arities_kept fam ss gs0 ge (B : Prop) : NoDup (f_comps fam) → (t ∈ f_comps fam → B) → ∀ ars prev st st',
  StronglySorted lt ars → Forall (le prev) ars →
  (waits st ∨ placed st ∧ B ∧ ∀ k, f_comps fam !! k = Some t → k < prev) → sl_arities fam ss gs0 ge prev ars st = Done st' →
  waits st' ∨ placed st' ∧ B.
Proof.
  intros Hnd HB. induction ars as [|ar ars IH]; intros prev [[gs mt comps] sets] st' Hso Hp Hst H; simpl in H.
  { injection H as <-. naive_solver. }
  destruct (gm_skip_from_to _ _); [|done]. destruct (qm_of_include ar); [|done]. destruct (qm_of_exclude prev ar); [|done].
  match type of H with context [sl_comps _ _ _ _ _ _ ?st0] =>
    destruct (sl_comps fam gs0 ge (length gs) prev (ar - prev) st0) as [st1|st1] eqn:E end; [|done]. cbn [then_] in H.
  apply (sl_comps_kept _ _ _ _ B) in E; [|done..]. inversion Hso as [|? ? Hso1 Hso2]; subst. inversion Hp; subst.
  eapply IH; [done| | |done].
  - eapply Forall_impl; [exact Hso2|]. intros x Hx. simpl in *. lia.
  - replace (prev + (ar - prev)) with ar in E by lia. done.
Qed.
Lemma sl_families_kept : ∀ l st st', Forall family_wf l → NoDup (layout_tids l) →
  (waits st ∨ placed st ∧ t ∉ layout_tids l) → sl_families l st = Done st' → waits st' ∨ placed st'.
Proof.
  induction l as [|fam l IH]; intros st st' Hwf Hnd Hst H; cbn [sl_families] in H.
  { injection H as <-. naive_solver. }
  inversion Hwf as [|? ? Hf Hwf']; subst. change (layout_tids (fam :: l)) with (f_comps fam ++ layout_tids l) in *.
  apply NoDup_app in Hnd as (Hn1 & Hn2 & Hn3).
  destruct (sl_arities _ _ _ _ _ _ st) as [st1|st1] eqn:E; [|done]. cbn [then_] in H.
  eapply IH; [done|done| |done].
  eapply sl_arities_kept; [done| |apply Hf| | |done].
  - intros Ht. by apply Hn2.
  - apply Forall_forall. intros. lia.
  - destruct Hst as [Hst|[Hp Ht]]; [by left|]. right. split_and!; [done|set_solver|].
    intros k Hk%elem_of_list_lookup_2. set_solver.
Qed.
Lemma sl_leftover_kept sets : ∀ order s, NoDup order → (∀ t, t ∈ order → is_Some (sets !! t)) →
  (sets !! t = Some c ∧ t ∈ order ∨ t ∉ order ∧ ∃ m, cs_meta s !! t = Some m ∧ cs_comps s !! m_index m = Some c) →
  ∃ m, cs_meta (sl_leftover order sets s) !! t = Some m ∧ cs_comps (sl_leftover order sets s) !! m_index m = Some c.
Proof.
  induction order as [|t' order IH]; intros s Hnd Ho Hs; simpl; [set_solver|].
  apply NoDup_cons in Hnd as [Hn Hnd]. apply IH; [done|set_solver|]. destruct (decide (t' = t)) as [->|].
  - right. split; [done|]. destruct Hs as [[Hs _]|[Hs _]]; [|set_solver]. eexists. simpl. rewrite lookup_insert. split; [done|].
    simpl. rewrite Hs. by apply list_lookup_middle.
  - destruct Hs as [[Hs Hi]|[Hi (m & H1 & H2)]]; [left; set_solver|]. right. split; [set_solver|]. exists m. simpl.
    rewrite lookup_insert_ne by done. split; [done|]. by apply lookup_app_l_Some.
Qed.
End kept.

Lemma set_layout_kept s l perm es s' t m c : layout_wf l → set_layout s l perm es = SlOk s' →
  cs_meta s !! t = Some m → cs_comps s !! m_index m = Some c →
  ∃ m' c', cs_meta s' !! t = Some m' ∧ cs_comps s' !! m_index m' = Some c' ∧ same_cap c c'.
Proof.
  intros Hwf H Hm Hc. unfold set_layout in H. destruct (extract_sets s) as [[sets s0]| |] eqn:E; [|done..].
  unfold extract_sets in E. destruct (forallb _ _); [|done]. injection E as <- <-.
  destruct (sl_families l _) as [[s1 sets1]|[s1 sets1]] eqn:E; [|by destruct (drop_all _)].
  apply (sl_families_kept t c) in E as Hk; [|apply Hwf..|].
  2: { left. split; [|done]. simpl. by rewrite lookup_omap, Hm. }
  clear E. destruct (sl_leftover_kept t c sets1 (order_by perm sets1) s1) as (m2 & Hm2 & Hc2).
  { apply order_by_NoDup. }
  { intros t'. by rewrite order_by_elem. }
  { destruct Hk as [[H1 H2]|[H1 H2]]; simpl in *.
    - left. split; [done|]. apply order_by_elem. by eexists.
    - right. split; [|done]. rewrite order_by_elem, H1. by intros [? ?]. }
  cbv zeta in H. revert Hm2 Hc2 H. generalize (sl_leftover (order_by perm sets1) sets1 s1). intros s2 Hm2 Hc2 H.
  destruct (gm_from_to _ _) as [mask|]; [|done]. destruct (group_each _ _ mask es) as [[comps gs]| |] eqn:E; try done.
  apply (group_each_all same_cap same_cap_refl same_cap_trans swap_same_cap) in E. injection H as <-.
  destruct (Forall2_lookup_l _ _ _ _ _ E Hc2) as (c' & Hc' & Hs). by exists m2, c'.
Qed.

(** ** One call *)

Lemma storage_some w t c : storage w t = Some c ↔ ∃ m, cs_meta (w_comps w) !! t = Some m ∧ cs_comps (w_comps w) !! m_index m = Some c.
Proof.
  unfold storage, cs_borrow. destruct (cs_meta _ !! t) as [m|]; [|naive_solver].
  destruct (cs_comps _ !! m_index m) as [c'|] eqn:E; naive_solver.
Qed.
Lemma count_storage w t : count w t = from_option c_len 0 (storage w t).
Proof. unfold count, view_len, storage. by destruct (cs_borrow _ t) as [[]| |]. Qed.

Definition wok (w : world) : Prop := ∀ t c, storage w t = Some c → cok c.

Lemma keeps_storage R w w' t : keeps R (w_comps w) (w_comps w') →
  option_Forall2 R (storage w t) (storage w' t).
Proof.
  intros [Hm Hc]. destruct (storage w t) as [c|] eqn:E.
  - apply storage_some in E as (m & E1 & E2). destruct (Forall2_lookup_l _ _ _ _ _ Hc E2) as (c' & Hc' & Hr).
    rewrite (proj2 (storage_some w' t c')); [by constructor|]. exists m. by rewrite Hm.
  - destruct (storage w' t) as [c'|] eqn:E'; [|constructor]. apply storage_some in E' as (m & E1 & E2).
    destruct (Forall2_lookup_r _ _ _ _ _ Hc E2) as (c & Hc' & Hr).
    rewrite (proj2 (storage_some w t c)) in E; [done|]. exists m. by rewrite <-Hm.
Qed.

Lemma step_storage w o out dr w' t : op_ok o → wok w → step w o = (out, dr, w') →
  (∀ c', storage w' t = Some c' → cok c' ∧ c_cap c' ≤ reserved w t `max` fit (c_len c')) ∧
  (¬ failed_layout o out → ub_free out → reserved w t ≤ reserved w' t).
Proof.
  intros Hop Hw H. assert (w_comps w' = w_comps w → (∀ c', storage w' t = Some c' → cok c' ∧ c_cap c' ≤ reserved w t `max` fit (c_len c')) ∧
    (¬ failed_layout o out → ub_free out → reserved w t ≤ reserved w' t)) as Hsame.
  { intros Hs. unfold reserved. unfold storage. rewrite Hs. fold (storage w t). split; [|done].
    intros c' Hc. split; [by eapply Hw|]. rewrite Hc. simpl. lia. }
  assert (∀ R, keeps R (w_comps w) (w_comps w') → (∀ c c', R c c' → grows c c') →
    (∀ c', storage w' t = Some c' → cok c' ∧ c_cap c' ≤ reserved w t `max` fit (c_len c')) ∧
    (¬ failed_layout o out → ub_free out → reserved w t ≤ reserved w' t)) as Hkeep.
  { intros R Hk HR. pose proof (keeps_storage R w w' t Hk) as Hs. unfold reserved.
    destruct (storage w t) as [c|] eqn:E; inversion Hs as [? c' Hg|]; subst; [|split; done].
    destruct (HR _ _ Hg) as [Hok Heq]; [by eapply Hw|]. simpl. split; [|lia]. intros ? [= <-]. split; [done|lia]. }
  assert ((∃ t', o = ORegister t') ∨ ¬ ∃ t', o = ORegister t') as [[t' ->]|Hnr] by (destruct o; naive_solver).
  { cbn [step] in H. unfold world_register, register_dyn in H.
    destruct (cs_meta (w_comps w) !! t') as [m|] eqn:Ht; injection H as <- <- <-; [by apply Hsame|].
    unfold reserved. destruct (decide (t' = t)) as [->|].
    - replace (storage w t) with (@None css). 2: { symmetry. destruct (storage w t) as [c|] eqn:E; [|done]. apply storage_some in E as (m & E & _). congruence. }
      split; [|simpl; lia]. intros c' (m & H1 & H2)%storage_some. simpl in *. rewrite lookup_insert in H1. injection H1 as <-.
      simpl in H2. rewrite list_lookup_middle in H2 by done. injection H2 as <-. split; [apply cok_new|simpl; lia].
    - assert (∀ c', storage (World (w_ents w) (CStore (cs_groups (w_comps w)) (<[t' := meta_plain (length (cs_comps (w_comps w)))]> (cs_meta (w_comps w)))
         (cs_comps (w_comps w) ++ [css_new]))) t = Some c' → storage w t = Some c' ∨ c' = css_new) as Hback.
      { intros c' (m & H1 & H2)%storage_some. simpl in *. rewrite lookup_insert_ne in H1 by done.
        apply lookup_app_Some in H2 as [H2|[_ H2]]; [left; apply storage_some; by exists m|]. right.
        apply elem_of_list_lookup_2 in H2. set_solver. }
      split.
      + intros c' [Hc| ->]%Hback; [|split; [apply cok_new|simpl; lia]]. rewrite Hc. simpl. split; [by eapply Hw|lia].
      + intros _ _. destruct (storage w t) as [c|] eqn:E; [|simpl; lia]. apply storage_some in E as (m & E1 & E2).
        rewrite (proj2 (storage_some _ t c)); [done|]. exists m. simpl. rewrite lookup_insert_ne by done. split; [done|].
        by apply lookup_app_l_Some. }
  assert (moving o ∨ ¬ moving o) as [Hmv|Hmv] by (destruct o; simpl; tauto).
  2: { apply step_grows in H; [|done]. by apply (Hkeep grows). }
  destruct o as [| | | | | | | | | | |l perm| |]; try done; [by destruct Hnr; eexists|]. cbn [step] in H. unfold world_set_layout in H.
  pose proof (set_layout_from same_cap (w_comps w) l perm (estore_slice (w_ents w)) same_cap_refl same_cap_trans swap_same_cap) as Hf.
  assert (layout_wf l) as Hwf. { destruct Hop as [gs Hgs]. by eapply add_groups_wf, Hgs; apply layout_wf_nil. }
  assert (∀ e s1 s', from (w_comps w) s1 → keeps same_cap s1 s' → ∀ c', storage (World e s') t = Some c' →
    cok c' ∧ c_cap c' ≤ reserved w t `max` fit (c_len c')) as Hfrom.
  { intros e s1 s' Hf1 [Hk1 Hk2] c' (m & E1 & E2)%storage_some. simpl in *. rewrite Hk1 in E1.
    destruct (Hf1 _ _ E1) as (c & Hc & Hor). destruct (Forall2_lookup_l _ _ _ _ _ Hk2 Hc) as (c2 & Hc2 & Hr).
    assert (c2 = c') as -> by congruence.
    assert (cok c ∧ c_cap c ≤ reserved w t) as [Hok Hle].
    { destruct Hor as [->|Hor]; [split; [apply cok_new|simpl; lia]|]. apply storage_some in Hor. split; [by eapply Hw|].
      unfold reserved. by rewrite Hor. }
    destruct (same_cap_grows _ _ Hr Hok) as [? ->]. split; [done|lia]. }
  destruct (set_layout (w_comps w) l perm (estore_slice (w_ents w))) as [s'|ds s'|] eqn:El; injection H as <- <- <-.
  - destruct Hf as [->|(s1 & Hf1 & Hf2)]; [by apply Hsame|]. split; [by eapply Hfrom|]. intros _ _. unfold reserved at 1.
    destruct (storage w t) as [c|] eqn:E; [|simpl; lia]. apply storage_some in E as (m & E1 & E2).
    destruct (set_layout_kept _ _ _ _ _ _ _ _ Hwf El E1 E2) as (m' & c' & H1 & H2 & H3 & _). unfold reserved.
    rewrite (proj2 (storage_some (World (w_ents w) s') t c')) by (by exists m'). simpl. lia.
  - destruct Hf as [->|(s1 & Hf1 & Hf2)]; [by apply Hsame|]. split; [by eapply Hfrom|]. by intros [].
  - by apply Hsame.
Qed.
