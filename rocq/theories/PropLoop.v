(** C54: loops over a query that can be left at any item. *)
From Verif Require Import Base EntityM LayoutM StorageM WorldM QueryM StepM LoopM Spec SpecMore SpecQuery SpecWrite SpecLoop Demo Demo2 LoopFacts.

(** A loop over a query, whatever its body does and wherever it stops, by [for_each] or by
    [next]. [es] are the entities the query answers, in the order of [query_all]. The
    body is given for the k-th of them the components it had before the loop, and the
    outcome (the world, the values dropped, the last state of the body, the number of
    items it got) is that of the assignments made up to there ([loop_sets]), one by
    one through the world. The entities the loop did not get to keep their
    components. A panic of the body is one of the ways to stop. *)
Theorem C54_loop : ∀ w s G J X,
  reachable w s → query_ok s G J X →
  ∃ es its, query_all w G J X = Ok its ∧ NoDup es ∧ answers s G es its ∧
    (plain G J X → simple_exclude s X → ∀ e, e ∉ s_loose s → e ∈ es ↔ s_alive s e ∧ matches (s_row s e) G J X) ∧
    ∀ St (b : body St) st each, ∃ sets st' n fin outs w',
      loop_sets b st G s es = (sets, st', n, fin) ∧ run w sets = (outs, w') ∧
      world_loop each w G J X b st = Ok (w', st', replaced outs, n, fin) ∧
      reachable w' (after_sets sets s) ∧ (fin = true → n = length its) ∧
      ∀ e, e ∉ take n es → s_row (after_sets sets s) e = s_row s e.
Proof. exact reach_loop. Qed.
Print Assumptions C54_loop.

(** A query that cannot be borrowed panics before the body is called. *)
Theorem C54_panics : ∀ St w s G J X (b : body St) st each,
  reachable w s → ¬ query_ok s G J X → world_loop each w G J X b st = Panic.
Proof. exact @reach_loop_panics. Qed.
Print Assumptions C54_panics.

(** A closure without a state that never stops is the [OForEach] of the histories, in
    every world. *)
Theorem C54_for_each : ∀ w G J X f,
  step w (OForEach G J X f) =
  match query_for_each w G J X f with
  | Ok (c, es, o, n) => (Ret (RWrote es n), o, World (w_ents w) c)
  | Panic => (Panicked [], [], w)
  | UB => (UndefBeh [], [], w)
  end ∧
  world_loop true w G J X (plain_body f) tt =
  match query_for_each w G J X f with
  | Ok (c, es, o, n) => Ok (World (w_ents w) c, tt, o, length es, true)
  | Panic => Panic
  | UB => UB
  end.
Proof. exact loop_plain. Qed.
Print Assumptions C54_for_each.

(** The body counts, assigns 100 and up to the first exclusive reference it is given
    and leaves at the second item. *)
Definition number_two : body N := λ st _, ((st + 1)%N, λ k, if k =? 1 then Some (100 + st)%N else None, N.ltb st 1).

(** [tA] and [tB] (dense: entities 1, 6, 3, 0) and [tE] with [tA] (sparse: 2, 3). The first
    loop leaves after entities 1 and 6, which had 11 and 15; entities 3 and 0 keep theirs. *)
Example C54_nonvacuous :
  let w := r_w nest in
  let G := [PEntity; PMut tA; PRef tB] in
  reachable w (r_s nest) ∧ query_ok (r_s nest) G [] [] ∧ query_is_dense w G [] [] = Ok true ∧
  query_ok (r_s nest) [PRef tE; PMut tA] [] [] ∧ query_is_dense w [PRef tE; PMut tA] [] [] = Ok false ∧
  loop_sets number_two 0%N G (r_s nest) [Ent 1 1; Ent 6 1; Ent 3 1; Ent 0 1]
    = ([OSet tA (Ent 1 1) 100%N; OSet tA (Ent 6 1) 101%N], 2%N, 2, false) ∧
  (∀ each, match world_loop each w G [] [] number_two 0%N with
   | Ok (w', st, o, n, fin) =>
       st = 2%N ∧ o = [11; 15]%N ∧ n = 2 ∧ fin = false ∧
       (λ e, view_get w' tA e) <$> [Ent 1 1; Ent 6 1; Ent 3 1; Ent 0 1] =
         [Ok (Some 100%N); Ok (Some 101%N); Ok (Some 13%N); Ok (Some 10%N)]
   | _ => False
   end) ∧
  (∀ each, match world_loop each w [PRef tE; PMut tA] [] [] (λ st it, ((st + 1)%N, λ k, if k =? 1 then Some (st + 200)%N else None, true)) 0%N with
   | Ok (w', st, o, n, fin) =>
       st = 2%N ∧ o = [12; 13]%N ∧ n = 2 ∧ fin = true ∧
       (λ e, view_get w' tA e) <$> [Ent 2 1; Ent 3 1; Ent 0 1] = [Ok (Some 200%N); Ok (Some 201%N); Ok (Some 10%N)]
   | _ => False
   end) ∧
  ¬ query_ok (r_s nest) [PMut tA; PRef tA] [] [].
Proof.
  cbv zeta. split; [apply nest_reachable|]. split; [apply (bool_decide_unpack _); by vm_compute|].
  split; [by vm_compute|]. split; [apply (bool_decide_unpack _); by vm_compute|].
  split; [by vm_compute|]. split; [by vm_compute|].
  split; [intros []; vm_compute; repeat split|]. split; [intros []; vm_compute; repeat split|].
  apply (bool_decide_unpack _); by vm_compute.
Qed.
