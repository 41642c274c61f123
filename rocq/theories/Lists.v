(** Generic facts on lists used by the proofs. *)
From Verif Require Import Base EntityM.

Section swap_remove.
  Context {A : Type}.
  Implicit Types l : list A.

  Lemma swap_remove_eq l i x :
    l !! (length l - 1) = Some x → swap_remove l i = take (length l - 1) (<[i := x]> l).
  Proof. intros H. unfold swap_remove. by rewrite H. Qed.

  Lemma swap_remove_length l i : length (swap_remove l i) = length l - 1.
  Proof.
    unfold swap_remove. destruct (l !! (length l - 1)) eqn:E.
    - rewrite take_length, insert_length. lia.
    - apply lookup_ge_None in E. lia.
  Qed.

  Lemma swap_remove_lookup l i j :
    i < length l →
    swap_remove l i !! j =
      (if decide (j < length l - 1) then if decide (j = i) then l !! (length l - 1) else l !! j
       else None).
  Proof.
    intros Hi. destruct (lookup_lt_is_Some_2 l (length l - 1)) as [x Hx]; [lia|].
    rewrite (swap_remove_eq _ _ x Hx). case_decide as Hj.
    - rewrite lookup_take by done. case_decide; subst.
      + rewrite list_lookup_insert by lia. done.
      + by rewrite list_lookup_insert_ne.
    - apply lookup_take_ge. lia.
  Qed.

  Lemma swap_remove_perm l i x : l !! i = Some x → l ≡ₚ x :: swap_remove l i.
  Proof.
    intros Hi. assert (i < length l) by (by eapply lookup_lt_Some).
    destruct l as [|a l' _] using rev_ind; [done|].
    rewrite app_length in *; simpl in *.
    rewrite (swap_remove_eq _ _ a).
    2:{ rewrite app_length; simpl. rewrite lookup_app_r by lia.
        replace (_ - _) with 0 by lia. done. }
    rewrite app_length; simpl.
    destruct (decide (i = length l')) as [->|Hne].
    - rewrite insert_app_r_alt by lia. rewrite Nat.sub_diag; simpl.
      rewrite take_app_alt by lia.
      rewrite lookup_app_r in Hi by lia. rewrite Nat.sub_diag in Hi. simpl in Hi.
      inversion Hi; subst. rewrite Permutation_app_comm. done.
    - rewrite insert_app_l by lia. rewrite take_app_alt by (rewrite insert_length; lia).
      rewrite lookup_app_l in Hi by lia.
      rewrite (Permutation_app_comm l' [a]); simpl.
      revert i Hi Hne H. clear. induction l' as [|y l' IH]; intros i Hi Hne H; [done|].
      destruct i as [|i]; simpl in *.
      + inversion Hi; subst. apply perm_swap.
      + rewrite (perm_swap y a). rewrite (IH i) by (done || lia). by rewrite perm_swap.
  Qed.

  Lemma swap_remove_take l i n : n ≤ i → i < length l → take n (swap_remove l i) = take n l.
  Proof.
    intros Hn Hi. apply list_eq; intros j.
    destruct (decide (j < n)).
    - rewrite !lookup_take by done. rewrite swap_remove_lookup by done.
      case_decide; [|lia]. case_decide; [lia|done].
    - rewrite !lookup_take_ge by lia. done.
  Qed.
End swap_remove.

Lemma swap_remove_fmap {A B} (f : A → B) l i : f <$> swap_remove l i = swap_remove (f <$> l) i.
Proof.
  unfold swap_remove. rewrite fmap_length, list_lookup_fmap.
  destruct (l !! (length l - 1)); simpl; [|done].
  by rewrite <-list_fmap_insert, fmap_take.
Qed.

(** Exchange of two positions. *)
Definition list_swap {A} (l : list A) (a b : nat) : list A :=
  match l !! a, l !! b with
  | Some x, Some y => <[a := y]> (<[b := x]> l)
  | _, _ => l
  end.

Section list_swap.
  Context {A : Type}.
  Implicit Types l : list A.

  Lemma list_swap_length l a b : length (list_swap l a b) = length l.
  Proof. unfold list_swap. destruct (l !! a), (l !! b); by rewrite ?insert_length. Qed.

  Lemma list_swap_lookup l a b j :
    a < length l → b < length l →
    list_swap l a b !! j = if decide (j = a) then l !! b else if decide (j = b) then l !! a else l !! j.
  Proof.
    intros Ha Hb. unfold list_swap.
    destruct (lookup_lt_is_Some_2 l a) as [x Hx]; [done|].
    destruct (lookup_lt_is_Some_2 l b) as [y Hy]; [done|].
    rewrite Hx, Hy. case_decide; subst.
    - rewrite list_lookup_insert by (rewrite insert_length; done). done.
    - rewrite list_lookup_insert_ne by done. case_decide; subst.
      + by rewrite list_lookup_insert.
      + by rewrite list_lookup_insert_ne.
  Qed.

  Lemma list_swap_same l a : list_swap l a a = l.
  Proof.
    unfold list_swap. destruct (l !! a) as [x|] eqn:E; [|done].
    rewrite list_insert_insert. by apply list_insert_id.
  Qed.

  Lemma list_insert_perm l i x y : l !! i = Some x → y :: l ≡ₚ x :: <[i := y]> l.
  Proof.
    revert i. induction l as [|z l IH]; intros [|i] H; simpl in *; try done.
    - inversion H; subst. apply perm_swap.
    - rewrite (perm_swap z y). rewrite (IH i) by done. by rewrite perm_swap.
  Qed.

  Lemma list_swap_perm l a b : list_swap l a b ≡ₚ l.
  Proof.
    unfold list_swap. destruct (l !! a) as [x|] eqn:Ea; [|done].
    destruct (l !! b) as [y|] eqn:Eb; [|done].
    destruct (decide (a = b)) as [->|Hne].
    { rewrite list_insert_insert. rewrite Ea in Eb; inversion Eb; subst.
      by rewrite list_insert_id. }
    apply (Permutation_cons_inv (a:=x)).
    rewrite <-(list_insert_perm (<[b:=x]> l) a x y).
    2:{ by rewrite list_lookup_insert_ne. }
    symmetry. by apply list_insert_perm.
  Qed.

  Lemma list_swap_take l a b n :
    n ≤ a → n ≤ b → take n (list_swap l a b) = take n l.
  Proof.
    intros Ha Hb. unfold list_swap. destruct (l !! a), (l !! b); try done.
    by rewrite !take_insert.
  Qed.

  Lemma list_swap_take_in l a b n :
    a < n → b < n → n ≤ length l → take n (list_swap l a b) = list_swap (take n l) a b.
  Proof.
    intros Ha Hb Hn. apply list_eq; intros j.
    rewrite list_swap_lookup by (rewrite take_length; lia).
    destruct (decide (j < n)).
    - rewrite lookup_take by done. rewrite list_swap_lookup by lia.
      rewrite !lookup_take by done. done.
    - rewrite lookup_take_ge by lia. case_decide; [lia|]. case_decide; [lia|].
      by rewrite lookup_take_ge by lia.
  Qed.
End list_swap.

Lemma list_swap_fmap {A B} (f : A → B) l a b : f <$> list_swap l a b = list_swap (f <$> l) a b.
Proof.
  unfold list_swap. rewrite !list_lookup_fmap.
  destruct (l !! a), (l !! b); simpl; try done. by rewrite !list_fmap_insert.
Qed.

(** Pigeonhole. *)
Lemma pigeonhole (l : list N) (n : N) :
  NoDup l → Forall (λ x, (x < n)%N) l → (N.of_nat (length l) ≤ n)%N.
Proof.
  intros Hnd Hlt.
  assert (length l ≤ length (seq 0 (N.to_nat n))) as H.
  { rewrite <-(fmap_length N.to_nat). apply submseteq_length.
    apply NoDup_submseteq.
    - by apply NoDup_fmap_2; [intros ???; lia|].
    - intros x Hx. apply elem_of_list_fmap in Hx as [y [-> Hy]].
      rewrite Forall_forall in Hlt. apply elem_of_seq. specialize (Hlt _ Hy). lia. }
  rewrite seq_length in H. lia.
Qed.

Lemma forallb_forall_elem {A} (f : A → bool) l : forallb f l = true ↔ ∀ x, x ∈ l → f x = true.
Proof.
  rewrite forallb_forall. split; intros H x Hx; apply H; by apply elem_of_list_In.
Qed.

Lemma forallb_exists_false {A} (f : A → bool) l :
  forallb f l = false → ∃ x, x ∈ l ∧ f x = false.
Proof.
  induction l as [|y l IH]; simpl; [done|]. intros [H|H]%andb_false_iff.
  - exists y. split; [left|done].
  - destruct (IH H) as (x & Hx & Hf). exists x. split; [by right|done].
Qed.
