(** [SparseVec] refines a map. *)
From Verif Require Import Base SparseVecM SparseVecSpec Lists SparseProofs.

Record sv_rel (sp : sparse_vec) (m : sv_spec) : Prop := {
  svr_map : ∀ i s, sp !! i = Some (Some s) ↔ sv_map m !! i = Some s;
  svr_touched : ∀ i, i ∈ sv_touched m → i < length sp
}.

Section rel.
  Context (sp : sparse_vec) (m : sv_spec) (HR : sv_rel sp m).

  Lemma sv_rel_None i : sv_map m !! i = None ↔ sp !! i = None ∨ sp !! i = Some None.
  Proof using HR.
    destruct (sp !! i) as [[s|]|] eqn:E.
    - rewrite (svr_map _ _ HR) in E. rewrite E. naive_solver.
    - split; [by right|]. intros _. destruct (sv_map m !! i) as [s|] eqn:E'; [|done].
      rewrite <-(svr_map _ _ HR) in E'. congruence.
    - split; [by left|]. intros _. destruct (sv_map m !! i) as [s|] eqn:E'; [|done].
      rewrite <-(svr_map _ _ HR) in E'. congruence.
  Qed.

  Lemma sv_rel_lookup i : sv_map m !! i = match sp !! i with Some (Some s) => Some s | _ => None end.
  Proof using HR.
    destruct (sp !! i) as [[s|]|] eqn:E; [by apply (svr_map _ _ HR)|by apply sv_rel_None; auto..].
  Qed.

  Lemma sv_rel_write i s tc :
    i < length sp → (∀ j, j ∈ tc → j < length sp) →
    sv_rel (<[i := s]> sp) (SvSpec (write_slot (sv_map m) i s) tc).
  Proof using HR.
    intros Hi Htc. split; simpl.
    - intros j s'. unfold write_slot. destruct (decide (i = j)) as [<-|Hne].
      + rewrite list_lookup_insert by done. rewrite lookup_partial_alter. naive_solver.
      + rewrite list_lookup_insert_ne, lookup_partial_alter_ne by done. apply HR.
    - intros j Hj. rewrite insert_length. auto.
  Qed.

  Lemma sv_rel_delete i : sv_rel (<[i := None]> sp) (SvSpec (delete i (sv_map m)) (sv_touched m)).
  Proof using HR.
    split; simpl.
    - intros j s'. destruct (decide (i = j)) as [<-|Hne].
      + rewrite lookup_delete. split; [|done]. intros H.
        assert (i < length sp) by (rewrite <-(insert_length sp i None); by eapply lookup_lt_Some).
        rewrite list_lookup_insert in H by done. done.
      + rewrite list_lookup_insert_ne, lookup_delete_ne by done. apply HR.
    - intros j Hj. rewrite insert_length. by apply HR.
  Qed.

  Lemma sv_rel_allocate i :
    sv_rel (sv_allocate_at sp i) (SvSpec (sv_map m) ({[i]} ∪ sv_touched m)) ∧ i < length (sv_allocate_at sp i).
  Proof using HR.
    pose proof (sv_allocate_at_length sp i) as Hlen. split; [|done]. split; simpl.
    - intros j s. rewrite sv_allocate_at_lookup. apply HR.
    - intros j [->%elem_of_singleton|Hj]%elem_of_union; [done|].
      apply (svr_touched _ _ HR) in Hj. unfold sv_allocate_at in *.
      destruct (length sp <=? i); [|done]. unfold sv_extend_to_index. rewrite app_length. lia.
  Qed.

  Lemma sv_step_ok o :
    sv_contract m o →
    sv_rel (sv_step sp o).1 (sv_spec_step m o).1 ∧ (sv_step sp o).2 = (sv_spec_step m o).2.
  Proof using HR.
    intros Hc. destruct o as [e|e|e|i|i|i|i|i s|i|i s|a b|]; simpl in *.
    - split; [done|]. unfold sv_get, slot_of. rewrite sv_rel_lookup. unfold e_sparse.
      destruct (sp !! _) as [[s|]|]; [|done..]. destruct (N.eqb_spec (s_version s) (e_version e)).
      + by rewrite decide_True.
      + by rewrite decide_False.
    - split; [done|]. unfold sv_contains, slot_of. rewrite sv_rel_lookup. unfold e_sparse.
      destruct (sp !! _) as [[s|]|]; [|done..]. destruct (N.eqb_spec (s_version s) (e_version e)).
      + by rewrite decide_True.
      + by rewrite decide_False.
    - unfold sv_remove, slot_of. rewrite sv_rel_lookup. unfold e_sparse.
      destruct (sp !! _) as [[s|]|]; [|done..]. destruct (N.eqb_spec (s_version s) (e_version e)).
      + rewrite decide_True by done. simpl. split; [|done]. apply sv_rel_delete.
      + by rewrite decide_False.
    - split; [done|]. unfold sv_get_sparse. rewrite sv_rel_lookup. by destruct (sp !! _) as [[s|]|].
    - split; [done|]. unfold sv_contains_sparse. rewrite sv_rel_lookup. by destruct (sp !! _) as [[s|]|].
    - unfold sv_remove_sparse. rewrite sv_rel_lookup. destruct (sp !! i) as [[s|]|] eqn:E; simpl.
      + split; [|done]. apply sv_rel_delete.
      + split; [|done]. rewrite delete_notin by (apply sv_rel_None; auto). by destruct m.
      + split; [|done]. rewrite delete_notin by (apply sv_rel_None; auto). by destruct m.
    - destruct (sv_rel_allocate i) as [HR' Hlt]. split; [done|].
      apply lookup_lt_is_Some_2 in Hlt as [s Hs]. rewrite Hs. f_equal.
      destruct s as [s|].
      + symmetry. by apply (svr_map _ _ HR').
      + destruct (sv_map m !! i) as [s|] eqn:E; [|done]. apply (svr_map _ _ HR') in E. congruence.
    - destruct (sv_rel_allocate i) as [HR' Hlt]. unfold sv_write.
      rewrite (proj2 (Nat.ltb_lt _ _) Hlt). simpl. split; [|done].
      split; simpl.
      + intros j s'. unfold write_slot. destruct (decide (i = j)) as [<-|Hne].
        * rewrite list_lookup_insert by done. rewrite lookup_partial_alter. naive_solver.
        * rewrite list_lookup_insert_ne, lookup_partial_alter_ne by done. apply HR'.
      + intros j Hj. rewrite insert_length. by apply (svr_touched _ _ HR').
    - split; [done|]. destruct Hc as [s Hs]. rewrite Hs. unfold sv_get_sparse_unchecked.
      apply (svr_map _ _ HR) in Hs. by rewrite Hs.
    - unfold sv_write. rewrite (proj2 (Nat.ltb_lt _ _)) by (by apply (svr_touched _ _ HR)). simpl.
      split; [|done]. apply sv_rel_write; [by apply (svr_touched _ _ HR)|apply HR].
    - destruct Hc as (Ha & Hb & Hab). apply (svr_touched _ _ HR) in Ha as Ha', Hb as Hb'.
      unfold sv_swap. rewrite (proj2 (Nat.eqb_neq _ _) Hab).
      destruct (lookup_lt_is_Some_2 _ _ Ha') as [sa Hsa]. destruct (lookup_lt_is_Some_2 _ _ Hb') as [sb Hsb].
      rewrite Hsa, Hsb. simpl. split; [|done].
      rewrite !sv_rel_lookup, Hsa, Hsb. split; simpl.
      + intros j s. unfold write_slot. destruct (decide (j = a)) as [->|Hja].
        * rewrite list_lookup_insert by (by rewrite insert_length). rewrite lookup_partial_alter.
          destruct sb; naive_solver.
        * rewrite list_lookup_insert_ne, lookup_partial_alter_ne by done.
          destruct (decide (j = b)) as [->|Hjb].
          -- rewrite list_lookup_insert, lookup_partial_alter by done. destruct sa; naive_solver.
          -- rewrite list_lookup_insert_ne, lookup_partial_alter_ne by done. apply HR.
      + intros j Hj. rewrite !insert_length. by apply HR.
    - split; [|done]. split; simpl; [done|set_solver].
  Qed.
End rel.

Lemma sv_run_ok os sp m :
  sv_rel sp m → sv_contract_run m os → sv_run sp os = sv_spec_run m os.
Proof.
  revert sp m. induction os as [|o os IH]; intros sp m HR; simpl; [done|]. intros [Hc Hcs].
  destruct (sv_step_ok sp m HR o Hc) as [HR' Heq].
  destruct (sv_step sp o) as [sp' r]. destruct (sv_spec_step m o) as [m' r']. simpl in *. subst.
  f_equal. by apply IH.
Qed.

Lemma sv_refines os : sv_contract_run (SvSpec ∅ ∅) os → sv_run sv_new os = sv_spec_run (SvSpec ∅ ∅) os.
Proof. apply sv_run_ok. split; simpl; [done|set_solver]. Qed.
