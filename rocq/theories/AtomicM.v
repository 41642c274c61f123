(** Threads that call [World::create_atomic] on a shared world, one atomic access
    at a time. *)
From Verif Require Import Base EntityM WorldM StepM.

(** src/entity/entity_allocator.rs:7, 10:
    The values written to the two atomics since the threads share the world, the
    newest first. All accesses are [Ordering::Relaxed]: a load, and a
    compare-exchange that fails, may return any value written so far, however old;
    a compare-exchange that succeeds reads the newest value. (Per-location
    coherence, which would exclude some of the old values, is not assumed.) *)
Record shared := Shared { sh_rsm : list nat; sh_next : list N }.

(** src/entity/entity_allocator.rs:77, 80, 95, 98:
    Where a thread is: outside of [create_atomic]; about to load
    [recycled_since_maintain]; about to compare-exchange it with [prev] known; the
    same for [next_index_to_allocate]. *)
Inductive pc := PIdle | PLoadR | PCasR (prev : nat) | PLoadN | PCasN (prev : N).

(** src/entity/entity_allocator.rs:79 and 96: the loop conditions, and what comes
    after the loops: [None] in the first leads to the second (lines 34-38); [None] in
    the second makes [create_atomic] panic (src/entity/entity_storage.rs:22-25). The
    list holds the outcome of the call if this ends it. *)
Definition loop_r (recycled : list entity) (prev : nat) : pc * list outcome :=
  if prev <? length recycled then (PCasR prev, []) else (PLoadN, []).
(** src/entity/entity_allocator.rs:97 and src/entity/entity_storage.rs:22-25. *)
Definition loop_n (prev : N) : pc * list outcome :=
  if (prev <? u32_lim)%N then (PCasN prev, []) else (PIdle, [Panicked []]).

(** src/entity/entity_allocator.rs:32: indexing panics when out of bounds. *)
Definition take_recycled (recycled : list entity) (prev : nat) : outcome :=
  match recycled !! (length recycled - prev - 1) with
  | Some e => Ret (REnt e)
  | None => Panicked []
  end.

(** One access by one thread: src/entity/entity_allocator.rs:75-110. *)
Inductive access (recycled : list entity) : shared → pc → shared → pc * list outcome → Prop :=
| AEnter sh : access recycled sh PIdle sh (PLoadR, [])
| ALoadR sh v : v ∈ sh_rsm sh → access recycled sh PLoadR sh (loop_r recycled v)
| ACasR prev old n : access recycled (Shared (prev :: old) n) (PCasR prev)
    (Shared ((prev + 1) :: prev :: old) n) (PIdle, [take_recycled recycled prev])
| AFailR sh prev v : v ∈ sh_rsm sh → access recycled sh (PCasR prev) sh (loop_r recycled v)
| ALoadN sh v : v ∈ sh_next sh → access recycled sh PLoadN sh (loop_n v)
| ACasN r prev old : access recycled (Shared r (prev :: old)) (PCasN prev)
    (Shared r ((prev + 1)%N :: prev :: old)) (PIdle, [Ret (REnt (with_index (as_u32 prev)))])
| AFailN sh prev v : v ∈ sh_next sh → access recycled sh (PCasN prev) sh (loop_n v).

(** Not /repo code (the scheduler):
    All schedules of the threads [ths]. The trace lists the finished calls: the
    thread and the outcome. *)
Inductive schedule (recycled : list entity) (sh0 : shared) (ths0 : list pc)
    : list (nat * outcome) → shared → list pc → Prop :=
| SchedNil : schedule recycled sh0 ths0 [] sh0 ths0
| SchedSnoc tr sh ths t p sh' p' outs :
    schedule recycled sh0 ths0 tr sh ths → ths !! t = Some p → access recycled sh p sh' (p', outs) →
    schedule recycled sh0 ths0 (tr ++ (pair t <$> outs)) sh' (<[t := p']> ths).

(** src/entity/entity_allocator.rs:6-11:
    The allocator as the threads find it and as they leave it. The queue of recycled
    handles and the entity set are not written through [&World]. *)
Definition shared_of (a : allocator) : shared := Shared [a_rsm a] [a_next a].
(** src/entity/entity_allocator.rs:6-11. *)
Definition leave (w : world) (sh : shared) : world :=
  match sh_rsm sh, sh_next sh with
  | r :: _, n :: _ =>
      let a := st_alloc (w_ents w) in
      World (EStore (Alloc n (a_lastm a) (a_recycled a) r) (st_set (w_ents w))) (w_comps w)
  | _, _ => w
  end.

(** src/world/mod.rs:130-132:
    [n] threads share [w], make the calls [tr] and leave [w']. Unfinished calls are
    allowed. *)
Definition threads_run (n : nat) (w : world) (tr : list (nat * outcome)) (w' : world) : Prop :=
  ∃ sh ths, schedule (a_recycled (st_alloc (w_ents w))) (shared_of (st_alloc (w_ents w))) (replicate n PIdle) tr sh ths ∧
    w' = leave w sh.
