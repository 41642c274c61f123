(** The order of [World::entities]. *)
From Verif Require Import Base EntityM WorldM StepM Spec.

(** The list [World::entities] returns, and the handles of [create_atomic] since the
    last [maintain], [clear] or [reset], in the order they were issued. *)
Record listing := Listing { ls_ents : list entity; ls_queue : list entity }.

(** The last element takes the place of [e]. *)
Definition fill_hole (e : entity) (l : list entity) : list entity :=
  if decide (e ∈ l) then
    match last l with
    | Some z => (λ x, if decide (x = e) then z else x) <$> take (length l - 1) l
    | None => []
    end
  else l.

(** The order in which [maintain] adds the handles of [create_atomic]: those that
    replace destroyed ones, the latest first; then those of new indices. *)
Definition arrivals (q : list entity) : list entity :=
  reverse (filter (λ e, e_version e ≠ version_first) q) ++ filter (λ e, e_version e = version_first) q.

Definition list_step (l : listing) (o : op) (out : outcome) : listing :=
  match o with
  | OCreate _ | OExtend _ _ _ => Listing (ls_ents l ++ reported out) (ls_queue l)
  | ODestroy e => Listing (fill_hole e (ls_ents l)) (ls_queue l)
  | OCreateAtomic => Listing (ls_ents l) (ls_queue l ++ reported out)
  | OMaintain => Listing (ls_ents l ++ arrivals (ls_queue l)) []
  | OClear | OReset => Listing [] []
  | _ => l
  end.

(** The listing after a history. *)
Definition listed (evs : list event) : listing :=
  foldl (λ l ev, list_step l ev.1.1 ev.1.2) (Listing [] []) evs.

(** The handles to give out: those that replace destroyed ones, the oldest first, then
    new indices counting up. *)
Record pool := Pool { p_wait : list entity; p_next : N }.

Definition give_one (p : pool) : option (entity * pool) :=
  match p_wait p with
  | e :: l => Some (e, Pool l (p_next p))
  | [] => if decide (p_next p < u32_lim)%N then Some (Ent (p_next p) version_first, Pool [] (p_next p + 1)) else None
  end.

(** [n] handles, or all that are left. *)
Fixpoint give (n : nat) (p : pool) : list entity * pool :=
  match n with
  | 0 => ([], p)
  | S n => match give_one p with
           | Some (e, p1) => let '(es, p2) := give n p1 in (e :: es, p2)
           | None => ([], p)
           end
  end.

(** How many handles a call asks for. *)
Definition asked (w : world) (o : op) : nat :=
  match o with
  | OCreate _ | OCreateAtomic => 1
  | OExtend ts rows _ => if forallb (world_is_registered w) ts then length rows else 0
  | _ => 0
  end.

Definition pool_step (p : pool) (o : op) (out : outcome) : pool :=
  match o, out with
  | ODestroy e, Ret (RBool true) =>
      if decide (e_version e < version_last)%N
      then Pool (p_wait p ++ [Ent (e_index e) (e_version e + 1)]) (p_next p) else p
  | OReset, _ => Pool [] 0
  | _, _ => (give (length (reported out)) p).2
  end.

Definition pooled (evs : list event) : pool :=
  foldl (λ p ev, pool_step p ev.1.1 ev.1.2) (Pool [] 0) evs.
