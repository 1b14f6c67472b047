(** Periodic tasks of UringProactor: util/fibers/proactor_base.cc:249-280 (AddPeriodic, CancelPeriodic),
    uring_proactor.cc:347-367 (ReapCompletions), :688-728 (SchedulePeriodic, PeriodicCb,
    CancelPeriodicInternal).

    The proactor thread alternates between running fibers and reaping completions. The kernel takes the
    submissions in their order, at any time; a timer goes off at any time; a cancellation finds the timer by its
    user_data. Simplifications: items are numbered and a number is not used again (the allocator may
    reuse the memory of a deleted one, not of a live one); the user_data of a submission is any value that
    no timer in flight has (RingCbProps.v, ring_tags); time is left out; the callback table is in RingCbModel.v. *)
From Verif Require Import Util Conc.

(** Submissions: a timeout for item [p], and the removal of the timeout with user_data [ud], made to cancel
    item [p]. *)
Inductive sqe := STimer (ud p : nat) | SRemove (ud p : nat).
(** Completions: of a timeout (with -ETIME or with -ECANCELED), of a removal. *)
Inductive cqe := CTimer (ud p : nat) (etime : bool) | CRemoved (p : nat).

(** Fibers run; completions are processed; the task of [p] runs; the processed items are scheduled
    again. *)
Inductive md := Fib | Reap | Task (p : nat) | Sched.

(** [nit] number of items created; for an item: [im] it is in periodic_map_, [rf] ref_cnt, [fr] deleted,
    [v1] val1, [dn] (ghost) its CancelPeriodic has returned. [sq], [cq] the rings, [kt] the timers
    that run in the kernel, [rs] schedule_periodic_list_. *)
Record st := mk { nit : nat; im : nat -> bool; rf : nat -> nat; fr : nat -> bool; v1 : nat -> nat; dn : nat -> bool;
                  sq : list sqe; kt : list (nat * nat); cq : list cqe; rs : list nat; mode : md }.

Inductive lab :=
  | Add (ud : nat)       (* AddPeriodic *)
  | Cancel (p : nat)     (* CancelPeriodic *)
  | KTake (swap : bool)  (* the kernel takes a submission; [swap]: the removal's completion comes first *)
  | KFire (ud : nat)     (* a timer goes off *)
  | StartReap            (* the thread turns to the completions *)
  | Next1                (* one completion *)
  | TaskEnd              (* the task returns *)
  | EndReap              (* no more completions *)
  | Again (ud : nat)     (* the next item of schedule_periodic_list_ is scheduled *)
  | EndSched.

Definition sq_tm (x : sqe) : list (nat * nat) := match x with STimer ud p => [(ud, p)] | SRemove _ _ => [] end.
Definition cq_tm (x : cqe) : list (nat * nat) := match x with CTimer ud p _ => [(ud, p)] | CRemoved _ => [] end.
(** The timers in flight: submitted, running in the kernel or completed and not yet seen. *)
Definition timers (s : st) : list (nat * nat) := flat_map sq_tm (sq s) ++ kt s ++ flat_map cq_tm (cq s).
Definition uses (s : st) (ud : nat) : bool := existsb (fun x => fst x =? ud) (timers s).

(** uring_proactor.cc:688-699 *)
Definition schedule (s : st) (ud p : nat) (rs' : list nat) (md' : md) : st :=
  mk (nit s) (im s) (upd (rf s) p 2) (fr s) (upd (v1 s) p ud) (dn s) (sq s ++ [STimer ud p]) (kt s) (cq s) rs' md'.

(** proactor_base.cc:249-264 *)
Definition add (s : st) (ud : nat) : outcome st :=
  if uses s ud then Stuck
  else let p := nit s in
       let s1 := mk (S p) (upd (im s) p true) (upd (rf s) p 1) (fr s) (v1 s) (dn s) (sq s) (kt s) (cq s) (rs s) (mode s) in
       Next (schedule s1 ud p (rs s) (mode s)).

(** proactor_base.cc:266-280, uring_proactor.cc:717-728. A fiber calls it, with the id of a task. *)
Definition cancel (s : st) (p : nat) : outcome st :=
  if im s p
  then if fr s p then Ub
       else Next (mk (nit s) (upd (im s) p false) (upd (rf s) p (rf s p - 1)) (fr s) (v1 s) (dn s)
                     (sq s ++ [SRemove (v1 s p) p]) (kt s) (cq s) (rs s) (mode s))
  else Stuck.

(** The kernel takes the oldest submission. *)
Definition ktake (s : st) (swap : bool) : outcome st :=
  match sq s with
  | [] => Stuck
  | STimer ud p :: r => Next (mk (nit s) (im s) (rf s) (fr s) (v1 s) (dn s) r (kt s ++ [(ud, p)]) (cq s) (rs s) (mode s))
  | SRemove ud p :: r =>
      let hit := filter (fun x => fst x =? ud) (kt s) in
      let rest := filter (fun x => negb (fst x =? ud)) (kt s) in
      let tc := map (fun x => CTimer (fst x) (snd x) false) hit in
      Next (mk (nit s) (im s) (rf s) (fr s) (v1 s) (dn s) r rest
               (cq s ++ (if swap then CRemoved p :: tc else tc ++ [CRemoved p])) (rs s) (mode s))
  end.

Definition kfire (s : st) (ud : nat) : outcome st :=
  match find (fun x => fst x =? ud) (kt s) with
  | None => Stuck
  | Some (_, p) => Next (mk (nit s) (im s) (rf s) (fr s) (v1 s) (dn s) (sq s) (filter (fun x => negb (fst x =? ud)) (kt s))
                            (cq s ++ [CTimer ud p true]) (rs s) (mode s))
  end.

(** uring_proactor.cc:347-359, one completion; :701-715 PeriodicCb; :719-721 the callback of the
    removal. A failed CHECK ends the process: [Ub]. *)
Definition next1 (s : st) : outcome st :=
  match cq s with
  | [] => Stuck
  | CTimer ud p etime :: r =>
      if fr s p then Ub
      else if rf s p <=? 1
      then Next (mk (nit s) (im s) (rf s) (upd (fr s) p true) (v1 s) (dn s) (sq s) (kt s) r (rs s) Reap)
      else if negb etime then Ub
      else Next (mk (nit s) (im s) (rf s) (fr s) (v1 s) (dn s) (sq s) (kt s) r (rs s) (Task p))
  | CRemoved p :: r => Next (mk (nit s) (im s) (rf s) (fr s) (v1 s) (upd (dn s) p true) (sq s) (kt s) r (rs s) Reap)
  end.

(** uring_proactor.cc:362-364 *)
Definition again (s : st) (ud : nat) : outcome st :=
  match rs s with
  | [] => Stuck
  | p :: r => if uses s ud then Stuck else if fr s p then Ub else Next (schedule s ud p r Sched)
  end.

Definition to (s : st) (rs' : list nat) (m : md) : st := mk (nit s) (im s) (rf s) (fr s) (v1 s) (dn s) (sq s) (kt s) (cq s) rs' m.

Definition step (s : st) (l : lab) : outcome st :=
  match l, mode s with
  | Add ud, Sched => Stuck
  | Add ud, _ => add s ud
  | Cancel p, Fib => cancel s p
  | KTake b, _ => ktake s b
  | KFire ud, _ => kfire s ud
  | StartReap, Fib => Next (to s (rs s) Reap)
  | Next1, Reap => next1 s
  | TaskEnd, Task p => Next (to s (rs s ++ [p]) Reap)
  | EndReap, Reap => Next (to s (rs s) Sched)
  | Again ud, Sched => again s ud
  | EndSched, Sched => match rs s with [] => Next (to s [] Fib) | _ => Stuck end
  | _, _ => Stuck
  end.

Definition init : st := mk 0 (fun _ => false) (fun _ => 0) (fun _ => false) (fun _ => 0) (fun _ => false) [] [] [] [] Fib.
