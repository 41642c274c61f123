(** Concrete schedules. *)
From Verif Require Import Base EntityM WorldM StepM AtomicM.

(** The thread and what it does: succeed in its compare-exchange, or read the [k]-th
    newest value. *)
Inductive choice := CTake | CRead (k : nat).

Definition do_access (recycled : list entity) (sh : shared) (p : pc) (c : choice)
    : option (shared * (pc * list outcome)) :=
  match p, c with
  | PIdle, _ => Some (sh, (PLoadR, []))
  | PLoadR, CRead k | PCasR _, CRead k => v ← sh_rsm sh !! k; Some (sh, loop_r recycled v)
  | PCasR prev, CTake =>
      match sh_rsm sh with
      | r :: old => if decide (r = prev)
                    then Some (Shared ((prev + 1) :: r :: old) (sh_next sh), (PIdle, [take_recycled recycled prev]))
                    else None
      | [] => None
      end
  | PLoadN, CRead k | PCasN _, CRead k => v ← sh_next sh !! k; Some (sh, loop_n v)
  | PCasN prev, CTake =>
      match sh_next sh with
      | n :: old => if decide (n = prev)
                    then Some (Shared (sh_rsm sh) ((prev + 1)%N :: n :: old),
                               (PIdle, [Ret (REnt (with_index (as_u32 prev)))]))
                    else None
      | [] => None
      end
  | _, _ => None
  end.

Lemma do_access_ok recycled sh p c sh' x : do_access recycled sh p c = Some (sh', x) → access recycled sh p sh' x.
Proof.
  destruct sh as [r n], p, c; simpl; intros H; simplify_eq; try constructor.
  - destruct (r !! k) eqn:E; simplify_eq/=. apply ALoadR. by eapply elem_of_list_lookup_2.
  - destruct r; [done|]. case_decide; simplify_eq. apply ACasR.
  - destruct (r !! k) eqn:E; simplify_eq/=. apply AFailR. by eapply elem_of_list_lookup_2.
  - destruct (n !! k) eqn:E; simplify_eq/=. apply ALoadN. by eapply elem_of_list_lookup_2.
  - destruct n; [done|]. case_decide; simplify_eq. apply ACasN.
  - destruct (n !! k) eqn:E; simplify_eq/=. apply AFailN. by eapply elem_of_list_lookup_2.
Qed.

Fixpoint do_schedule (recycled : list entity) (tr : list (nat * outcome)) (sh : shared) (ths : list pc)
    (cs : list (nat * choice)) : option (list (nat * outcome) * shared * list pc) :=
  match cs with
  | [] => Some (tr, sh, ths)
  | (t, c) :: cs =>
      p ← ths !! t;
      '(sh', (p', outs)) ← do_access recycled sh p c;
      do_schedule recycled (tr ++ (pair t <$> outs)) sh' (<[t := p']> ths) cs
  end.

Lemma do_schedule_ok recycled sh0 ths0 cs : ∀ tr sh ths tr' sh' ths',
  schedule recycled sh0 ths0 tr sh ths → do_schedule recycled tr sh ths cs = Some (tr', sh', ths') →
  schedule recycled sh0 ths0 tr' sh' ths'.
Proof.
  induction cs as [|[t c] cs IH]; intros tr sh ths tr' sh' ths' Hs; simpl; [by intros; simplify_eq|].
  destruct (ths !! t) as [p|] eqn:Ep; simpl; [|done].
  destruct (do_access recycled sh p c) as [[sh1 [p1 outs]]|] eqn:E; simpl; [|done].
  apply IH. eapply SchedSnoc; [done|done|]. by apply do_access_ok in E.
Qed.

Definition do_threads (n : nat) (w : world) (cs : list (nat * choice)) : option (list (nat * outcome) * world) :=
  '(tr, sh, _) ← do_schedule (a_recycled (st_alloc (w_ents w))) [] (shared_of (st_alloc (w_ents w))) (replicate n PIdle) cs;
  Some (tr, leave w sh).

Lemma do_threads_ok n w cs tr w' : do_threads n w cs = Some (tr, w') → threads_run n w tr w'.
Proof.
  unfold do_threads. destruct (do_schedule _ _ _ _ cs) as [[[tr' sh] ths]|] eqn:E; simpl; [|done].
  intros; simplify_eq. exists sh, ths. split; [|done]. eapply do_schedule_ok; [constructor|done].
Qed.
