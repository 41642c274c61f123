(** Insertions that replace a component whose [Drop] panics: exactly what happens. *)
From Verif Require Import Base Lists SparseVecM EntityM CssM MaskM LayoutM GroupM StorageM WorldM QueryM StepM DropPanicM
  SparseProofs CssProofs MaskProofs GroupProofs Spec SpecDrop EntityProofs LayoutProofs StorageProofs StoreOps LayoutOps
  WorldProofs Contents History Facts DropPanicProofs.

Lemma insert_loop_p_exact bomb cs : ∀ s ds am reg grp loose e r mask,
  cinv s ds am reg grp loose → e ∈ loose → am !! e = Some r →
  let '(p, r', dr) := put_drop bomb reg cs r in
  match insert_loop_p bomb (cs_meta s) (cs_comps s) mask e cs with
  | InsUB => False
  | InsPanic dr' comps => p = true ∧ dr' = dr ∧
      ∃ k ds0, dr = ds0 ++ (drop k cs).*2 ∧ r' = put reg (take k cs) r ∧
        ∀ t v, cs_meta s !! t = None →
          insert_loop (cs_meta s) (cs_comps s) mask e (take k cs ++ [(t, v)]) = InsPanic (ds0 ++ [v]) comps
  | InsOk dr' comps mask' => p = false ∧ dr' = dr ∧ r' = put reg cs r ∧
      insert_loop (cs_meta s) (cs_comps s) mask e cs = InsOk dr' comps mask'
  end.
Proof.
  induction cs as [|[t v] cs IH]; intros s ds am reg grp loose e r mask HI Hl He; [done|].
  cbn [put_drop insert_loop_p]. destruct (cs_meta s !! t) as [m|] eqn:Ht.
  2:{ rewrite decide_False by (rewrite (ci_reg _ _ _ _ _ _ HI), Ht; by intros [? ?]).
    split; [done|]. split; [done|]. exists 0, []. split_and!; [done..|]. intros t' v' Ht'. simpl. by rewrite Ht'. }
  assert (t ∈ reg) as Hin by (rewrite (ci_reg _ _ _ _ _ _ HI), Ht; eauto). rewrite decide_True by done.
  destruct (ci_insert_one _ _ _ _ _ _ HI t m e v r Hl He Ht) as (c & c' & d' & Hc & Hins & HI' & Hcons & Hst).
  rewrite Hc, Hins.
  change (match r !! t with Some o => [o] | None => [] end) with (option_list (r !! t)).
  destruct (existsb bomb (option_list (r !! t))) eqn:Hb.
  { split; [done|]. split; [done|]. exists 1, (option_list (r !! t)). split_and!; [done| |].
    - simpl. by rewrite decide_True.
    - intros t' v' Ht'. simpl. rewrite Ht, Hc, Hins, Ht'. by destruct (r !! t). }
  specialize (IH (with_storage s (m_index m) c') _ _ reg grp loose e (<[t:=v]> r) (gm_or mask (m_insert m)) HI' Hl).
  rewrite lookup_insert in IH. specialize (IH eq_refl). unfold with_storage in IH. cbn [cs_meta cs_comps cs_groups] in IH.
  destruct (put_drop bomb reg cs (<[t:=v]> r)) as [[p r'] dr].
  destruct (insert_loop_p _ _ _ _ _ _) as [dr' comps mask'|dr' comps|]; [| |done].
  - destruct IH as (-> & -> & -> & IH). simpl. rewrite Ht, Hc, Hins, IH, decide_True by done. split_and!; done.
  - destruct IH as (-> & -> & k & ds0 & -> & -> & IH). split; [done|]. split; [done|].
    exists (S k), (option_list (r !! t) ++ ds0). split_and!.
    + by rewrite (assoc_L (++)).
    + simpl. by rewrite decide_True.
    + intros t' v' Ht'. simpl. rewrite Ht, Hc, Hins, (IH t' v' Ht'). by destruct (r !! t).
Qed.

(** ** [insert] and [create] *)

Lemma set_insert_exact bomb w s ds e r cs on_ok ghost out dr w' :
  winv w s ds → s_map s !! e = Some r → set_insert_p bomb w e cs on_ok ghost = (out, dr, w') →
  let '(p, r', ds') := put_drop bomb (s_reg s) cs r in
  if p : bool then
    out = Panicked ghost ∧ dr = ds' ∧
    ∃ k dr0, dr = dr0 ++ (drop k cs).*2 ∧ r' = put (s_reg s) (take k cs) r ∧
      ∀ t v, t ∉ s_reg s → set_insert w e (take k cs ++ [(t, v)]) on_ok ghost = (Panicked ghost, dr0 ++ [v], w')
  else set_insert w e cs on_ok ghost = (out, dr, w') ∧ (ub_free out → dr = ds').
Proof.
  intros [HE HC] He. unfold set_insert_p, set_insert.
  assert (cinv (w_comps w) ds (s_map s) (s_reg s) (s_grouped s) ({[e]} ∪ s_loose s)) as HL
    by (eapply cinv_loosen; [|done]; set_solver).
  pose proof (insert_loop_p_exact bomb cs _ _ _ _ _ _ e r 0 HL ltac:(set_solver) He) as H.
  destruct (put_drop bomb (s_reg s) cs r) as [[p r'] ds'].
  destruct (insert_loop_p _ _ _ _ _ _) as [dr' comps mask'|dr' comps|]; [| |done].
  - destruct H as (-> & -> & -> & ->). destruct (group_if _ mask' e); intros [= <- <- <-]; done.
  - destruct H as (-> & -> & k & ds0 & -> & -> & H). intros [= <- <- <-]. split; [done|]. split; [done|].
    exists k, ds0. split_and!; try done. intros t v Ht. rewrite H; [done|].
    apply eq_None_not_Some. intros Hs. by apply Ht, (ci_reg _ _ _ _ _ _ HC).
Qed.

(** The values after a call that panicked: cancelling the unregistered one. *)
Lemma cancel_last (A B C D E : list val) x :
  (A ++ [x]) ++ C ≡ₚ (D ++ [x]) ++ E → (A ++ B) ++ C ≡ₚ (D ++ B) ++ E.
Proof.
  intros Hx. rewrite <-!(assoc_L (++)) in Hx |- *. rewrite !(assoc_L (++) _ [x]), !(Permutation_app_comm _ [x]) in Hx.
  rewrite <-!(assoc_L (++)) in Hx. apply Permutation_app_inv_l in Hx.
  rewrite !(assoc_L (++) _ B), !(Permutation_app_comm _ B), <-!(assoc_L (++)). by rewrite Hx.
Qed.

Lemma step_balance w s o out dr w' : reachable w s → op_ok o → step w o = (out, dr, w') → good_side s o out →
  reachable w' (client_step s o out) ∧
  handed_in o out ++ contents s ≡ₚ dr ++ handed_out out ++ contents (client_step s o out).
Proof.
  intros Hr Hop Hs Hg. destruct (reachable_step _ _ _ _ _ _ Hr Hop Hs Hg) as [_ Hr']. split; [done|].
  destruct (reachable_inv _ _ Hr) as [Hsv0 [ds HI]].
  destruct (step_inv _ _ _ _ _ _ _ HI Hsv0 Hop Hs Hg) as (_ & ds' & HI' & Hb).
  by rewrite (stored_contents _ _ _ HI), (stored_contents _ _ _ HI') in Hb.
Qed.

Lemma insert_exactly w s bomb e cs out dr w' : reachable w s → s_alive s e →
  world_insert_p bomb w e cs = (out, dr, w') →
  let '(p, r, ds) := put_drop bomb (s_reg s) cs (s_row s e) in
  if p : bool then
    out = Panicked [] ∧ dr = ds ∧
    let s' := loosen (with_map s (<[e := r]> (s_map s))) true [e] in
    same_versions s' → reachable w' s' ∧ cs.*2 ++ contents s ≡ₚ dr ++ contents s'
  else step w (OInsert e cs) = (out, dr, w') ∧ (ub_free out → dr = ds).
Proof.
  intros Hr Ha. pose proof (reachable_inv _ _ Hr) as (_ & ds & HI). pose proof HI as [HE HC].
  unfold world_insert_p. rewrite (estore_contains_alive _ _ e HE), bool_decide_eq_true_2 by done. intros Hi.
  pose proof Ha as [r Hr0]. pose proof (set_insert_exact _ _ _ _ _ _ _ _ _ _ _ _ HI Hr0 Hi) as H.
  assert (s_row s e = r) as -> by (unfold s_row; by rewrite Hr0). destruct (put_drop bomb (s_reg s) cs r) as [[p r'] ds1].
  assert (∀ cs, step w (OInsert e cs) = set_insert w e cs (RBool true) []) as Hst.
  { intros cs'. simpl. unfold world_insert. by rewrite (estore_contains_alive _ _ e HE), bool_decide_eq_true_2 by done. }
  destruct p; [|by rewrite Hst]. destruct H as (-> & -> & k & dr0 & -> & -> & H). split; [done|]. split; [done|].
  intros Hsv. destruct (exist_fresh (s_reg s)) as [t Ht]. specialize (H t 1%N Ht). rewrite <-Hst in H.
  set (o := OInsert e (take k cs ++ [(t, 1%N)])) in *.
  assert (client_step s o (Panicked []) = loosen (with_map s (<[e := put (s_reg s) (take k cs) r]> (s_map s))) true [e]) as Hcs.
  { unfold o, client_step. rewrite decide_True by done. rewrite put_unregistered by done. unfold s_row. by rewrite Hr0. }
  assert (good_side s o (Panicked [])) as Hg by (split; [done|by rewrite Hcs]).
  assert (op_ok o) as Hok by done. destruct (step_balance _ _ _ _ _ _ Hr Hok H Hg) as [Hr' Hb]. rewrite Hcs in *. split; [done|].
  unfold o in Hb. simpl in Hb. rewrite fmap_app in Hb. simpl in Hb.
  rewrite <-(take_drop k cs) at 1. rewrite fmap_app. eapply cancel_last, Hb.
Qed.

Lemma create_exactly w s bomb cs out dr w' : reachable w s → world_create_p bomb w cs = (out, dr, w') →
  let '(p, r, ds) := put_drop bomb (s_reg s) cs ∅ in
  if p : bool then
    (out = Panicked [] ∧ exhausted s ∧ step w (OCreate cs) = (out, dr, w')) ∨
    ∃ e, new_handle s e ∧ out = Panicked [e] ∧ dr = ds ∧
      let s' := cut_short s [e] [r] in
      same_versions s' → reachable w' s' ∧ cs.*2 ++ contents s ≡ₚ dr ++ contents s'
  else step w (OCreate cs) = (out, dr, w').
Proof.
  intros Hr. pose proof (reachable_inv _ _ Hr) as (_ & ds & HI). pose proof HI as [HE HC].
  unfold world_create_p.
  destruct (estore_create_ok _ _ HE) as [(e & st' & He & Hnew & _ & HE')|[He Hex]]; rewrite He.
  2:{ intros [= <- <- <-]. assert (step w (OCreate cs) = (Panicked [], cs.*2, w)) as -> by (simpl; unfold world_create; by rewrite He).
    destruct (put_drop _ _ _ _) as [[[] ?] ?]; [by left|done]. }
  intros Hi. pose proof (new_handle_dead _ _ _ HE Hnew) as Hn.
  assert (HI1 : winv (World st' (w_comps w)) (add_entity s e ∅) ds).
  { split; [apply HE'|]. simpl. apply cinv_new_entity; [done|done|]. apply (am_ok_alive _ _ (HE' ∅)). }
  assert (Hl : s_map (add_entity s e ∅) !! e = Some ∅) by apply lookup_insert.
  pose proof (set_insert_exact _ _ _ _ _ _ _ _ _ _ _ _ HI1 Hl Hi) as H. cbn [s_reg add_entity] in H.
  assert (∀ cs, step w (OCreate cs) = set_insert (World st' (w_comps w)) e cs (REnt e) [e]) as Hst.
  { intros cs'. simpl. unfold world_create. by rewrite He. }
  destruct (put_drop bomb (s_reg s) cs ∅) as [[p r'] ds1]. destruct p; [|rewrite Hst; by destruct H].
  destruct H as (-> & -> & k & dr0 & -> & -> & H). right. exists e. split_and!; [done..|].
  intros Hsv. destruct (exist_fresh (s_reg s)) as [t Ht]. specialize (H t 1%N Ht).
  set (o := OCreate (take k cs ++ [(t, 1%N)])) in *.
  assert (step w o = (Panicked [e], dr0 ++ [1%N], w')) as Ho.
  { unfold o. by rewrite Hst. }
  assert (client_step s o (Panicked [e]) = cut_short s [e] [put (s_reg s) (take k cs) ∅]) as Hcs.
  { unfold o, client_step, cut_short. simpl. by rewrite put_unregistered. }
  assert (good_side s o (Panicked [e])) as Hg by (split; [done|by rewrite Hcs]).
  assert (op_ok o) as Hok by done. destruct (step_balance _ _ _ _ _ _ Hr Hok Ho Hg) as [Hr' Hb]. rewrite Hcs in *. split; [done|].
  unfold o in Hb. simpl in Hb. rewrite fmap_app in Hb. simpl in Hb.
  rewrite <-(take_drop k cs) at 1. rewrite fmap_app. eapply cancel_last, Hb.
Qed.

(** ** [extend] *)

Lemma insert_row_p_loop bomb mt e ts : ∀ is_ vs comps mask,
  indexes mt ts is_ →
  match insert_loop_p bomb mt comps mask e (zip ts vs) with
  | InsOk dr comps' _ => insert_row_p bomb comps e (zip is_ vs) = Ok (false, comps', dr)
  | InsPanic dr comps' => insert_row_p bomb comps e (zip is_ vs) = Ok (true, comps', dr)
  | InsUB => True
  end.
Proof.
  induction ts as [|t ts IH]; intros is_ vs comps mask Hi.
  - by inversion Hi; subst.
  - inversion Hi as [|? i ? is' (m & Ht & <-) Hi']; subst. destruct vs as [|v vs]; simpl; [done|].
    rewrite Ht. destruct (comps !! m_index m) as [c|]; [|done].
    destruct (css_insert c e v) as [[c' old]| |]; [|done..].
    destruct (existsb bomb _).
    { do 3 f_equal. assert (length ts = length is') as Hlen by by eapply Forall2_length.
      clear -Hlen. revert is' vs Hlen. induction ts as [|t ts IH]; intros [|i is'] [|v vs] H; simpl in *; try done.
      f_equal. apply IH. lia. }
    specialize (IH is' vs (<[m_index m := c']> comps) (gm_or mask (m_insert m)) Hi').
    destruct (insert_loop_p _ _ _ _ _ _); [by rewrite IH..|done].
Qed.

Section extend_rows_p.
  Context (bomb : val → bool).
  Context (ts : list tid) (is_ : list nat) (gs : list group) (mt : gmap tid meta) (reg grp : gset tid).
  Context (Hall : all_in ts reg) (Hidx : indexes mt ts is_).

  Lemma extend_rows_p_exact rows : ∀ s ents comps ds L,
    einv ents s → s_reg s = reg → s_grouped s = grp →
    cinv (CStore gs mt comps) ds (s_map s) reg grp L →
    Forall (λ r, length r = length ts) rows →
    let '(p, rs, dr0) := rows_drop bomb reg ts rows in
    match extend_rows_p bomb ents comps is_ rows with
    | RowsUB => False
    | RowsOk dr ents' comps' new =>
        p = false ∧ dr = dr0 ∧ extend_rows ents comps is_ rows = RowsOk dr ents' comps' new
    | RowsPanic dr ents' comps' new =>
        (length new < length rs ∧ extend_rows ents comps is_ rows = RowsPanic dr ents' comps' new) ∨
        (p = true ∧ dr = dr0 ∧ ∃ rows0 row rest es0 e x d0 d1 en0 c0,
           rows = rows0 ++ row :: rest ∧ new = es0 ++ [e] ∧ length es0 = length rows0 ∧
           rs = map (λ r, put reg (zip ts r) ∅) rows0 ++ [x] ∧
           extend_rows ents comps is_ rows0 = RowsOk d0 en0 c0 es0 ∧ estore_create en0 = Ok (e, ents') ∧
           dr = d0 ++ d1 ++ concat rest ∧
           ∃ k ds0, d1 = ds0 ++ (drop k (zip ts row)).*2 ∧ x = put reg (take k (zip ts row)) ∅ ∧
             ∀ t v, mt !! t = None →
               insert_loop mt c0 0 e (take k (zip ts row) ++ [(t, v)]) = InsPanic (ds0 ++ [v]) comps')
    end.
  Proof using Hall Hidx.
    induction rows as [|row rows IH]; intros s ents comps ds L HE Hreg Hgrp HC Hlen; [done|].
    apply Forall_cons in Hlen as [Hrow Hlen]. cbn [rows_drop extend_rows_p extend_rows].
    destruct (estore_create_ok _ _ HE) as [(e & st' & He & Hnew & Hes & HE')|[-> Hex]].
    2:{ destruct (put_drop _ _ _ _) as [[[] ?] ?]; [by left; simpl; split; [lia|]|].
      destruct (rows_drop _ _ _ _) as [[? ?] ?]. left. simpl. split; [lia|done]. }
    rewrite He. pose proof (new_handle_dead _ _ _ HE Hnew) as Hn.
    assert (HC1 : cinv (CStore gs mt comps) ds (<[e:=∅]> (s_map s)) reg grp ({[e]} ∪ L)).
    { apply (cinv_loosen _ _ _ _ _ L); [set_solver|]. apply cinv_new_entity; [done|done|].
      apply (am_ok_alive _ _ (HE' ∅)). }
    pose proof (insert_loop_p_exact bomb (zip ts row) _ _ _ _ _ _ e ∅ 0 HC1 ltac:(set_solver) (lookup_insert _ _ _)) as Hp.
    pose proof (insert_loop_ok (zip ts row) _ _ _ _ _ _ e ∅ 0 HC1 ltac:(set_solver) (lookup_insert _ _ _)) as H.
    assert (Hz1 : (zip ts row).*1 = ts) by (apply fst_zip; lia).
    rewrite Hz1, insert_insert in H. cbn [cs_meta cs_comps cs_groups] in H, Hp.
    pose proof (insert_row_p_loop bomb mt e ts is_ row comps 0 Hidx) as Hrl.
    destruct (put_drop bomb reg (zip ts row) ∅) as [[p1 r1] dr1].
    destruct (insert_loop_p bomb mt comps 0 e (zip ts row)) as [dr1' comps1 mask1|dr1' comps1|]; [| |done].
    - destruct Hp as (-> & -> & -> & El). rewrite Hrl. rewrite (insert_row_loop _ _ _ _ _ _ _ _ _ _ Hidx El).
      rewrite El in H. destruct H as (_ & _ & ds1 & HC2 & _ & _).
      set (s1 := add_entity s e (put reg (zip ts row) ∅)).
      specialize (IH s1 st' comps1 ds1 ({[e]} ∪ L) (HE' _) Hreg Hgrp HC2 Hlen).
      destruct (rows_drop bomb reg ts rows) as [[p rs] dr0].
      destruct (extend_rows_p bomb st' comps1 is_ rows) as [dr ents' comps' new|dr ents' comps' new|]; [| |done].
      + destruct IH as (-> & -> & ->). done.
      + destruct IH as [[Hl ->]|(-> & -> & rows0 & row' & rest & es0 & e' & x & d0 & d1 & en0 & c0 &
                                  -> & -> & Hl & -> & Hx & Hc & -> & Hk)].
        * left. simpl. split; [lia|done].
        * right. split; [done|]. split; [done|].
          exists (row :: rows0), row', rest, (e :: es0), e', x, (dr1 ++ d0), d1, en0, c0. split_and!; try done.
          -- simpl. lia.
          -- simpl. rewrite He, (insert_row_loop _ _ _ _ _ _ _ _ _ _ Hidx El), Hx. done.
          -- by rewrite <-(assoc_L (++)).
    - destruct Hp as (-> & -> & k & ds0 & -> & -> & Hp). rewrite Hrl. right. split; [done|]. split; [done|].
      exists [], row, rows, [], e, (put reg (take k (zip ts row)) ∅), [], (ds0 ++ (drop k (zip ts row)).*2), ents, comps.
      split_and!; try done. by exists k, ds0.
  Qed.
End extend_rows_p.

Lemma add_rows_each s ts rows : ∀ es, length es = length rows →
  add_rows s ts es rows = add_each s es (map (λ r, put (s_reg s) (zip ts r) ∅) rows).
Proof.
  revert s. induction rows as [|r rows IH]; intros s [|e es] Hl; simpl in *; try done. rewrite IH by lia. done.
Qed.

Lemma add_each_app s es rs e r : length es = length rs →
  add_each s (es ++ [e]) (rs ++ [r]) = add_entity (add_each s es rs) e r.
Proof. revert s rs. induction es as [|e' es IH]; intros s [|r' rs] Hl; simpl in *; try done. apply IH. lia. Qed.

Lemma set_insert_panic w e cs r g dr c :
  insert_loop (cs_meta (w_comps w)) (cs_comps (w_comps w)) 0 e cs = InsPanic dr c →
  set_insert w e cs r g = (Panicked g, dr, World (w_ents w) (CStore (cs_groups (w_comps w)) (cs_meta (w_comps w)) c)).
Proof. unfold set_insert. by intros ->. Qed.

Lemma perm_mix (A R C S D S1 X S2 : list val) :
  A ++ S ≡ₚ D ++ S1 → R ++ S1 ≡ₚ X ++ S2 → A ++ R ++ C ++ S ≡ₚ D ++ X ++ C ++ S2.
Proof.
  intros H1 H2. transitivity (R ++ C ++ A ++ S).
  { rewrite (Permutation_app_swap_app C A), (Permutation_app_swap_app R A). done. }
  rewrite H1. transitivity (D ++ C ++ R ++ S1).
  { rewrite (Permutation_app_swap_app C D), (Permutation_app_swap_app R D), (Permutation_app_swap_app R C). done. }
  rewrite H2. by rewrite (Permutation_app_swap_app C X).
Qed.

Lemma extend_exactly w s bomb ts rows b out dr w' : reachable w s → op_ok (OExtend ts rows b) →
  set_extend_p bomb w ts rows b = (out, dr, w') →
  let '(p, rs, ds) := rows_drop bomb (s_reg s) ts rows in
  step w (OExtend ts rows b) = (out, dr, w') ∧
    (all_reg s ts → p = true → length (reported out) < length rs) ∨
  all_reg s ts ∧ p = true ∧ ∃ es, out = Panicked es ∧ length es = length rs ∧ dr = ds ∧
    let s' := cut_short s es rs in
    same_versions s' → reachable w' s' ∧ concat rows ++ contents s ≡ₚ dr ++ contents s'.
Proof.
  intros Hr Hlen. pose proof (reachable_inv _ _ Hr) as (Hsv0 & ds & HI). pose proof HI as [HE HC].
  change (step w (OExtend ts rows b)) with (set_extend w ts rows b). unfold set_extend_p.
  destruct (lookup_metas (cs_meta (w_comps w)) m_insert ts) as [[is_ mask]|] eqn:Hl.
  2:{ intros Hx. assert (set_extend w ts rows b = (out, dr, w')) as Hy by (unfold set_extend; by rewrite Hl).
    destruct (rows_drop _ _ _ _) as [[p rs] ds1]. left. split; [done|]. intros Ha.
    apply (lookup_metas_reg _ _ _ _ _ _ _ _ HC) in Hl. done. }
  assert (Hall : all_in ts (s_reg s)).
  { intros t Ht. destruct (decide (t ∈ s_reg s)); [done|].
    assert (lookup_metas (cs_meta (w_comps w)) m_insert ts = None) as Hx; [|by rewrite Hl in Hx].
    apply (lookup_metas_reg _ _ _ _ _ _ _ _ HC). intros Ha. by apply Ha in Ht. }
  destruct (lookup_metas_Some _ _ _ _ _ Hl) as [Hidx Hmask].
  assert (HC0 : cinv (CStore (cs_groups (w_comps w)) (cs_meta (w_comps w)) (cs_comps (w_comps w))) ds
    (s_map s) (s_reg s) (s_grouped s) (s_loose s)) by (by destruct (w_comps w)).
  pose proof (extend_rows_p_exact bomb ts is_ _ _ _ _ Hall Hidx rows s (w_ents w) _ ds _ HE eq_refl eq_refl HC0 Hlen) as H.
  destruct (rows_drop bomb (s_reg s) ts rows) as [[p rs] ds1].
  destruct (extend_rows_p _ _ _ _ _) as [dr1 en1 c1 new|dr1 en1 c1 new|]; [| |done].
  { destruct H as (-> & -> & H). intros Hx. left. split; [|done]. unfold set_extend. by rewrite Hl, H. }
  intros [= <- <- <-].
  destruct H as [[Hn H]|(-> & -> & rows0 & row & rest & es0 & e & x & d0 & d1 & en0 & c0 &
                          -> & -> & Hes & -> & Hx & Hc & -> & k & dk & -> & -> & Hk)].
  { left. split; [|done]. unfold set_extend. by rewrite Hl, H. }
  right. split; [done|]. split; [done|]. exists (es0 ++ [e]).
  split; [done|]. split; [rewrite !app_length, map_length; simpl; lia|]. split; [done|].
  set (x := put (s_reg s) (take k (zip ts row)) ∅) in *. unfold cut_short.
  rewrite add_each_app by (by rewrite map_length). rewrite <-add_rows_each by done. intros Hsv.
  assert (length row = length ts ∧ Forall (λ r, length r = length ts) rows0) as [Hrow Hlen0].
  { simpl in Hlen. apply Forall_app in Hlen as [? [? ?]%Forall_cons]. done. }
  set (w1 := World en0 (CStore (cs_groups (w_comps w)) (cs_meta (w_comps w)) c0)).
  set (o1 := OExtend ts rows0 true).
  assert (step w o1 = (Panicked es0, d0, w1)) as H1 by (simpl; unfold set_extend; by rewrite Hl, Hx).
  assert (op_ok o1) as Hok1 by done.
  set (s1 := client_step s o1 (Panicked es0)).
  assert (s1 = loosen (add_rows s ts es0 rows0) true es0) as Hs1 by done.
  pose proof (extend_rows_ok ts is_ _ _ _ _ Hall Hidx rows0 s (w_ents w) _ ds _ HE eq_refl eq_refl HC0 Hlen0) as Hinv.
  rewrite Hx in Hinv. destruct Hinv as (_ & _ & _ & HE0 & _ & Hreg0 & Hgrp0 & _).
  destruct (estore_create_ok _ _ HE0) as [(e' & st' & He & Hnew & _)|[He _]]; rewrite Hc in He; [|done].
  injection He as <- <-. pose proof (new_handle_dead _ _ _ HE0 Hnew) as Hdead.
  assert (same_versions s1) as Hsv1.
  { intros t e1 e2 Ht H2 H3. apply (Hsv t e1 e2).
    - rewrite Hs1 in Ht. done.
    - destruct (decide (e1 = e)) as [->|Hne].
      + rewrite Hs1 in H2. unfold s_row in H2. simpl in H2. rewrite Hdead in H2. simpl in H2. rewrite lookup_empty in H2. by destruct H2.
      + rewrite Hs1 in H2. unfold s_row in *. simpl in *. by rewrite lookup_insert_ne by done.
    - destruct (decide (e2 = e)) as [->|Hne].
      + rewrite Hs1 in H3. unfold s_row in H3. simpl in H3. rewrite Hdead in H3. simpl in H3. rewrite lookup_empty in H3. by destruct H3.
      + rewrite Hs1 in H3. unfold s_row in *. simpl in *. by rewrite lookup_insert_ne by done. }
  assert (good_side s o1 (Panicked es0)) as Hg1 by done.
  destruct (step_balance _ _ _ _ _ _ Hr Hok1 H1 Hg1) as [Hr1 Hb1]. fold s1 in Hr1, Hb1.
  destruct (exist_fresh (s_reg s)) as [t Ht].
  set (o2 := OCreate (take k (zip ts row) ++ [(t, 1%N)])).
  assert (cs_meta (w_comps w) !! t = None) as Hmt.
  { apply eq_None_not_Some. intros Hs. by apply Ht, (ci_reg _ _ _ _ _ _ HC). }
  assert (step w1 o2 = (Panicked [e], dk ++ [1%N], World en1 (CStore (cs_groups (w_comps w)) (cs_meta (w_comps w)) c1))) as H2.
  { unfold o2, step, world_create, w1. cbn [w_ents w_comps]. rewrite Hc.
    exact (set_insert_panic (World en1 (CStore _ _ c0)) _ _ _ _ _ _ (Hk t 1%N Hmt)). }
  assert (client_step s1 o2 (Panicked [e]) = loosen (add_entity (add_rows s ts es0 rows0) e x) true (es0 ++ [e])) as Hs2.
  { unfold o2, client_step. rewrite Hs1. simpl. rewrite Hreg0, put_unregistered by done. fold x.
    unfold with_loose, add_entity. simpl. f_equal. rewrite list_to_set_app_L. simpl. set_solver. }
  assert (op_ok o2) as Hok2 by done.
  assert (good_side s1 o2 (Panicked [e])) as Hg2 by (split; [done|by rewrite Hs2]).
  destruct (step_balance _ _ _ _ _ _ Hr1 Hok2 H2 Hg2) as [Hr2 Hb2]. rewrite Hs2 in *. split; [done|].
  unfold o1, o2 in *. simpl in Hb1, Hb2. rewrite fmap_app in Hb2. simpl in Hb2.
  apply (cancel_last _ ((drop k (zip ts row)).*2)) in Hb2. rewrite <-fmap_app, take_drop, snd_zip in Hb2 by lia.
  rewrite concat_app. simpl. rewrite <-!(assoc_L (++)) in *.
  rewrite (assoc_L (++) dk) in Hb2 |- *. apply (perm_mix _ _ _ _ _ _ _ _ Hb1 Hb2).
Qed.
