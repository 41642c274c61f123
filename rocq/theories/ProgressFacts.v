(** How many accesses concurrent [create_atomic] calls make. *)
From Verif Require Import Base EntityM WorldM StepM AtomicM AtomicDemo SpecProgress.

(** How many prompt accesses a thread can make before a call finishes. *)
Definition rank (sh : shared) (p : pc) : nat :=
  match p with
  | PIdle => 3
  | PLoadR => 2
  | PCasR v => if decide (head (sh_rsm sh) = Some v) then 0 else 2
  | PLoadN => 1
  | PCasN v => if decide (head (sh_next sh) = Some v) then 0 else 1
  end.

Definition ranks (sh : shared) (ths : list pc) : nat := sum_list_with (rank sh) ths.

Lemma rank_le sh p : rank sh p ≤ 3.
Proof. destruct p; simpl; try lia; destruct (decide _); lia. Qed.

Lemma ranks_le sh ths : ranks sh ths ≤ 3 * length ths.
Proof. induction ths as [|p ths IH]; simpl; [lia|]. pose proof (rank_le sh p). lia. Qed.

Lemma ranks_insert sh ths t p p' : ths !! t = Some p → ranks sh (<[t := p']> ths) + rank sh p = ranks sh ths + rank sh p'.
Proof.
  revert t. induction ths as [|q ths IH]; intros [|t] H; simpl in *; [done|done| |].
  - simplify_eq. lia.
  - specialize (IH t H). lia.
Qed.

(** A write can make the others fail once. *)
Lemma rank_change sh sh' p : rank sh' p ≤ rank sh p + 2.
Proof. destruct p; simpl; try lia; repeat case_decide; lia. Qed.
Lemma ranks_change sh sh' ths : ranks sh' ths ≤ ranks sh ths + 2 * length ths.
Proof. induction ths as [|p ths IH]; simpl; [lia|]. pose proof (rank_change sh sh' p). lia. Qed.

Lemma ranks_change_one sh sh' ths t p : ths !! t = Some p → rank sh' p ≤ 3 →
  ranks sh' ths ≤ ranks sh ths + 2 * (length ths - 1) + (rank sh' p - rank sh p).
Proof.
  revert t. induction ths as [|q ths IH]; intros [|t] H Hp; simpl in *; [done|done| |].
  - simplify_eq. pose proof (ranks_change sh sh' ths). lia.
  - specialize (IH t H Hp). pose proof (rank_change sh sh' q).
    apply lookup_lt_Some in H. lia.
Qed.

Lemma access_ranks rec sh ths t p sh' p' outs :
  ths !! t = Some p → access rec sh p sh' (p', outs) →
  ranks sh' (<[t := p']> ths) + 1 ≤ ranks sh ths + (2 * length ths + 2) * length outs +
    (if decide (outs = []) then 3 else 0).
Proof.
  intros Ht Ha. pose proof (lookup_lt_Some _ _ _ Ht) as Hl.
  assert (outs = [] ∧ sh' = sh ∧ rank sh p' ≤ rank sh p + 2 ∨ length outs = 1 ∧ p' = PIdle) as [(-> & -> & Hr)|[Ho ->]].
  { inversion Ha; subst; simpl; unfold loop_r, loop_n in *; simpl in *.
    - left. split_and!; [done|done|lia].
    - destruct (_ <? _); simplify_eq; left; simpl; split_and!; try done; repeat case_decide; lia.
    - by right.
    - destruct (_ <? _); simplify_eq; left; simpl; split_and!; try done; repeat case_decide; lia.
    - destruct (_ <? _)%N; simplify_eq; simpl; [left|by right]; split_and!; try done; repeat case_decide; lia.
    - by right.
    - destruct (_ <? _)%N; simplify_eq; simpl; [left|by right]; split_and!; try done; repeat case_decide; lia. }
  - pose proof (ranks_insert sh ths t p p' Ht). rewrite decide_True by done. simpl. lia.
  - rewrite Ho. destruct (decide _) as [->|_]; [done|].
    pose proof (ranks_insert sh' ths t p PIdle Ht) as H1. simpl in H1.
    pose proof (ranks_change_one sh sh' ths t p Ht (rank_le _ _)) as H2.
    pose proof (rank_le sh' p). lia.
Qed.

Lemma prompt_ranks rec sh ths t p sh' p' outs :
  sh_rsm sh ≠ [] → sh_next sh ≠ [] →
  ths !! t = Some p → access rec sh p sh' (p', outs) → prompt rec sh p (p', outs) →
  ranks sh' (<[t := p']> ths) + 1 ≤ ranks sh ths + (2 * length ths + 2) * length outs.
Proof.
  intros Hr0 Hn0 Ht Ha [[sh2 Hp] Hsw]. pose proof (access_ranks _ _ _ _ _ _ _ _ Ht Ha) as H.
  destruct (decide (outs = [])) as [->|]; [|lia]. simpl in *.
  destruct sh as [[|r rs] [|n ns]]; simpl in *; try done. unfold newest in Hp. simpl in Hp. rewrite !take_0 in Hp.
  assert (sh' = Shared (r :: rs) (n :: ns)) as ->.
  { inversion Ha; subst; done. }
  assert (rank (Shared (r :: rs) (n :: ns)) p' + 1 ≤ rank (Shared (r :: rs) (n :: ns)) p) as Hrk.
  { clear H Ha Ht. unfold can_swap in Hsw. simpl in Hsw. inversion Hp; subst; simpl in *; unfold loop_r, loop_n in *; simpl in *.
    - lia.
    - match goal with H : _ ∈ [_] |- _ => apply elem_of_list_singleton in H as -> end.
      destruct (_ <? _); simplify_eq; simpl; [rewrite decide_True by done|]; lia.
    - match goal with H : _ ∈ [_] |- _ => apply elem_of_list_singleton in H as -> end.
      destruct (decide (Some r = Some prev)) as [[= ->]|Hne]; [destruct Hsw; [left; by exists prev|done]|].
      destruct (_ <? _); simplify_eq; simpl; [rewrite decide_True by done|]; lia.
    - match goal with H : _ ∈ [_] |- _ => apply elem_of_list_singleton in H as -> end.
      destruct (_ <? _)%N; simplify_eq; simpl. rewrite decide_True by done. lia.
    - match goal with H : _ ∈ [_] |- _ => apply elem_of_list_singleton in H as -> end.
      destruct (decide (Some n = Some prev)) as [[= ->]|Hne]; [destruct Hsw; [right; by exists prev|done]|].
      destruct (_ <? _)%N; simplify_eq; simpl. rewrite decide_True by done. lia. }
  pose proof (ranks_insert (Shared (r :: rs) (n :: ns)) ths t p p' Ht). lia.
Qed.

Lemma access_nonempty rec sh p sh' r : access rec sh p sh' r → sh_rsm sh ≠ [] ∧ sh_next sh ≠ [] → sh_rsm sh' ≠ [] ∧ sh_next sh' ≠ [].
Proof. intros H [? ?]. by inversion H; subst. Qed.

Lemma counted_bound rec sh0 ths0 a k tr sh ths :
  sh_rsm sh0 ≠ [] → sh_next sh0 ≠ [] → counted rec sh0 ths0 a k tr sh ths →
  a ≤ 3 * length ths0 + (2 * length ths0 + 2) * length tr + 3 * k.
Proof.
  intros H1 H2 Hc.
  assert (length ths = length ths0 ∧ (sh_rsm sh ≠ [] ∧ sh_next sh ≠ []) ∧
    a + ranks sh ths ≤ 3 * length ths0 + (2 * length ths0 + 2) * length tr + 3 * k) as (_ & _ & H); [|lia].
  induction Hc as [|a k tr sh ths t p sh' p' outs Hc (Hl & Hne & IH) Ht Ha Hp|a k tr sh ths t p sh' p' outs Hc (Hl & Hne & IH) Ht Ha].
  - split_and!; [done..|]. pose proof (ranks_le sh0 ths0). simpl. lia.
  - split_and!; [by rewrite insert_length|by eapply access_nonempty..|].
    pose proof (prompt_ranks _ _ _ _ _ _ _ _ (proj1 Hne) (proj2 Hne) Ht Ha Hp) as H. rewrite Hl in H.
    rewrite app_length, fmap_length. lia.
  - split_and!; [by rewrite insert_length|by eapply access_nonempty..|].
    pose proof (access_ranks _ _ _ _ _ _ _ _ Ht Ha) as H. rewrite Hl in H.
    rewrite app_length, fmap_length. destruct (decide _); lia.
Qed.

Lemma schedule_nonempty rec sh0 ths0 tr sh ths : schedule rec sh0 ths0 tr sh ths →
  sh_rsm sh0 ≠ [] ∧ sh_next sh0 ≠ [] → sh_rsm sh ≠ [] ∧ sh_next sh ≠ [].
Proof. induction 1; intros Hne; [done|]. eapply access_nonempty; [done|]. auto. Qed.

Lemma schedule_length rec sh0 ths0 tr sh ths : schedule rec sh0 ths0 tr sh ths → length ths = length ths0.
Proof. induction 1; [done|]. by rewrite insert_length. Qed.

Lemma atomic_progress n w tr0 sh0 ths0 a k tr sh ths :
  schedule (a_recycled (st_alloc (w_ents w))) (shared_of (st_alloc (w_ents w))) (replicate n PIdle) tr0 sh0 ths0 →
  counted (a_recycled (st_alloc (w_ents w))) sh0 ths0 a k tr sh ths →
  a ≤ 3 * n + (2 * n + 2) * length tr + 3 * k.
Proof.
  intros Hs Hc. destruct (schedule_nonempty _ _ _ _ _ _ Hs) as [H1 H2]; [done|].
  pose proof (schedule_length _ _ _ _ _ _ Hs) as Hl. rewrite replicate_length in Hl.
  pose proof (counted_bound _ _ _ _ _ _ _ _ H1 H2 Hc). lia.
Qed.

(** Every schedule is counted. *)
Lemma schedule_counted rec sh0 ths0 tr sh ths : schedule rec sh0 ths0 tr sh ths → ∃ a k, counted rec sh0 ths0 a k tr sh ths.
Proof.
  induction 1 as [|tr sh ths t p sh' p' outs Hs (a & k & IH) Ht Ha]; [exists 0, 0; constructor|].
  exists (S a), (S k). by eapply CountOther.
Qed.

(** Concrete schedules. *)
Definition can_swap_b (sh : shared) (p : pc) : bool :=
  match p with
  | PCasR v => bool_decide (head (sh_rsm sh) = Some v)
  | PCasN v => bool_decide (head (sh_next sh) = Some v)
  | _ => false
  end.

Definition prompt_b (rec : list entity) (sh : shared) (p : pc) (c : choice) : bool :=
  match c, p with
  | CTake, _ => true
  | CRead 0, _ => negb (can_swap_b sh p)
  | _, _ => false
  end.

Lemma prompt_b_ok rec sh p c sh' r : do_access rec sh p c = Some (sh', r) → prompt_b rec sh p c = true → prompt rec sh p r.
Proof.
  intros Ha Hp. split.
  - destruct sh as [[|x xs] [|y ys]], p, c as [|[|k]]; simpl in *; try done; simplify_eq;
      unfold newest; simpl; rewrite ?take_0; try case_decide; simplify_eq; eexists;
      econstructor; try apply elem_of_list_singleton; done.
  - intros Hs. destruct c as [|[|k]]; [|exfalso|by destruct p].
    + destruct Hs as [(v & -> & Hv)|(v & -> & Hv)]; simpl in Ha.
      * destruct (sh_rsm sh); [done|]. case_decide; simplify_eq. done.
      * destruct (sh_next sh); [done|]. case_decide; simplify_eq. done.
    + destruct Hs as [(v & -> & Hv)|(v & -> & Hv)]; simpl in Hp; by rewrite bool_decide_true in Hp.
Qed.

Fixpoint do_counted (rec : list entity) (a k : nat) (tr : list (nat * outcome)) (sh : shared) (ths : list pc)
    (cs : list (nat * choice)) : option (nat * nat * list (nat * outcome) * shared * list pc) :=
  match cs with
  | [] => Some (a, k, tr, sh, ths)
  | (t, c) :: cs =>
      p ← ths !! t;
      '(sh', (p', outs)) ← do_access rec sh p c;
      do_counted rec (S a) (if prompt_b rec sh p c then k else S k) (tr ++ (pair t <$> outs)) sh' (<[t := p']> ths) cs
  end.

Lemma do_counted_ok rec sh0 ths0 cs : ∀ a k tr sh ths a' k' tr' sh' ths',
  counted rec sh0 ths0 a k tr sh ths → do_counted rec a k tr sh ths cs = Some (a', k', tr', sh', ths') →
  counted rec sh0 ths0 a' k' tr' sh' ths'.
Proof.
  induction cs as [|[t c] cs IH]; intros a k tr sh ths a' k' tr' sh' ths' Hs; simpl; [by intros; simplify_eq|].
  destruct (ths !! t) as [p|] eqn:Ep; simpl; [|done].
  destruct (do_access rec sh p c) as [[sh1 [p1 outs]]|] eqn:E; simpl; [|done].
  apply IH. destruct (prompt_b rec sh p c) eqn:Eb.
  - eapply CountPrompt; [done|done|by apply do_access_ok in E|by eapply prompt_b_ok].
  - eapply CountOther; [done|done|by apply do_access_ok in E].
Qed.

(** A thread can always make a prompt access. *)
Lemma prompt_possible rec sh p : sh_rsm sh ≠ [] → sh_next sh ≠ [] →
  ∃ sh' r, access rec sh p sh' r ∧ prompt rec sh p r.
Proof.
  destruct sh as [[|x xs] [|y ys]]; simpl; intros H1 H2; [done..|].
  set (c := match p with
            | PCasR v => if decide (x = v) then CTake else CRead 0
            | PCasN v => if decide (y = v) then CTake else CRead 0
            | _ => CRead 0 end).
  assert (∃ sh' r, do_access rec (Shared (x :: xs) (y :: ys)) p c = Some (sh', r) ∧
    prompt_b rec (Shared (x :: xs) (y :: ys)) p c = true) as (sh' & r & Ha & Hp).
  { subst c. destruct p; simpl; [by eauto..| |by eauto|].
    - case_decide; simpl; [rewrite ?decide_True by done; by eauto|].
      rewrite bool_decide_false by congruence. by eauto.
    - case_decide; simpl; [rewrite ?decide_True by done; by eauto|].
      rewrite bool_decide_false by congruence. by eauto. }
  exists sh', r. split; [by eapply do_access_ok|]. by eapply prompt_b_ok.
Qed.

Lemma atomic_not_stuck n w tr0 sh0 ths0 t p :
  schedule (a_recycled (st_alloc (w_ents w))) (shared_of (st_alloc (w_ents w))) (replicate n PIdle) tr0 sh0 ths0 →
  ths0 !! t = Some p →
  ∃ sh' r, access (a_recycled (st_alloc (w_ents w))) sh0 p sh' r ∧ prompt (a_recycled (st_alloc (w_ents w))) sh0 p r.
Proof.
  intros Hs _. destruct (schedule_nonempty _ _ _ _ _ _ Hs) as [H1 H2]; [done|]. by apply prompt_possible.
Qed.

Lemma atomic_alone n w tr0 sh0 ths0 t p a sh ths :
  schedule (a_recycled (st_alloc (w_ents w))) (shared_of (st_alloc (w_ents w))) (replicate n PIdle) tr0 sh0 ths0 →
  ths0 !! t = Some p →
  counted (a_recycled (st_alloc (w_ents w))) sh0 [p] a 0 [] sh ths → a ≤ 3.
Proof.
  intros Hs _ Hc. destruct (schedule_nonempty _ _ _ _ _ _ Hs) as [H1 H2]; [done|].
  pose proof (counted_bound _ _ _ _ _ _ _ _ H1 H2 Hc). simpl in *. lia.
Qed.

Lemma atomic_finishes n w tr0 sh0 ths0 a tr sh ths :
  schedule (a_recycled (st_alloc (w_ents w))) (shared_of (st_alloc (w_ents w))) (replicate n PIdle) tr0 sh0 ths0 →
  counted (a_recycled (st_alloc (w_ents w))) sh0 ths0 a 0 tr sh ths → 3 * n < a → tr ≠ [].
Proof.
  intros Hs Hc Hlt ->. pose proof (atomic_progress _ _ _ _ _ _ _ _ _ _ Hs Hc). simpl in *. lia.
Qed.

Lemma atomic_spurious m : ∃ n w a sh ths,
  counted (a_recycled (st_alloc (w_ents w))) (shared_of (st_alloc (w_ents w))) (replicate n PIdle) a a [] sh ths ∧ m < a.
Proof.
  set (w := world_default).
  assert (∃ p, counted (a_recycled (st_alloc (w_ents w))) (shared_of (st_alloc (w_ents w))) (replicate 1 PIdle)
    (4 + m) (4 + m) [] (shared_of (st_alloc (w_ents w))) [PCasN p] ∧ p = 0%N) as (p & Hc & _).
  { exists 0%N. split; [|done]. induction m as [|m IH].
    - refine (CountOther _ _ _ 3 3 [] _ [PCasN 0] 0 (PCasN 0) _ (PCasN 0) [] _ eq_refl (AFailN _ _ 0%N 0%N _)); [|by apply elem_of_list_singleton].
      refine (CountOther _ _ _ 2 2 [] _ [PLoadN] 0 PLoadN _ (PCasN 0) [] _ eq_refl (ALoadN _ _ 0%N _)); [|by apply elem_of_list_singleton].
      refine (CountOther (a_recycled (st_alloc (w_ents w))) _ _ 1 1 [] _ [PLoadR] 0 PLoadR _ PLoadN [] _ eq_refl (ALoadR (a_recycled (st_alloc (w_ents w))) _ 0 _)); [|by apply elem_of_list_singleton].
      refine (CountOther _ _ _ 0 0 [] _ [PIdle] 0 PIdle _ PLoadR [] _ eq_refl (AEnter _ _)). constructor.
    - refine (CountOther _ _ _ (4 + m) (4 + m) [] _ [PCasN 0] 0 (PCasN 0) _ (PCasN 0) [] IH eq_refl (AFailN _ _ 0%N 0%N _)).
      by apply elem_of_list_singleton. }
  exists 1, w, (4 + m). do 2 eexists. split; [done|lia].
Qed.
