(** The scheduler of one thread: util/fibers/detail/scheduler.cc:203-266 (Preempt), :268-288 (AddReady), :290-330
    (ScheduleFromRemote), :344-382 (ScheduleTermination, DestroyTerminated, WaitUntil), :384-449 (ProcessRemoteReady), :451-474
    (ProcessSleep), :488-501 (SuspendAndExecuteOnDispatcher), :582-632 (RunReadyFibersInternal);
    fiber_interface.cc:349-366 (Start), :399-419 (ActivateOther), :426-431 (AttachScheduler).

    Fiber 0 is the dispatcher, fiber 1 the main fiber. What the active fiber does up to the next switch of fibers is split
    into the calls it makes. Simplifications: the decisions that depend on the cycle counter (when the dispatcher leaves the loop
    over the ready fibers, whether a background fiber that yields goes on, sleeps or is put in the queue) are left open: any
    choice is a step; the same goes for the order in which the dispatcher calls ProcessRemoteReady, ProcessSleep and Run, so the loops of
    the proactors are covered. The remote queue is the FIFO queue of C31. Linking a hook twice, taking the front of
    an empty queue and switching to the fiber that runs are undefined. A fiber does not activate itself, does not end while it is
    in the remote queue (the wait queues see to it), and the dispatcher does not block: such steps are [Stuck]. *)
From Verif Require Import Util Conc.

Inductive prio := Normal | Back | High.
Definition is_back (p : prio) : bool := match p with Back => true | _ => false end.
Definition is_high (p : prio) : bool := match p with High => true | _ => false end.

(** steady_clock::time_point::max() *)
Definition tmax : Z := 9223372036854775807.

(** [act] the fiber that runs, [q0] and [q1] ready_queue_, [slp] sleep_queue_ with the deadlines, [rem] remote_ready_queue_, [term]
    terminate_queue_, [born] the fibers attached so far, [tp] the tp_ of the fibers. Ghosts: [adds] the fibers put into a ready queue, [runs] the fibers
    taken from one to be run, in order. *)
Record st := mk { act : nat; q0 : list nat; q1 : list nat; slp : list (Z * nat); rem : list nat; term : list nat; born : list nat;
                  tp : nat -> Z; adds : list nat; runs : list nat }.

(** scheduler.cc:158-168: the main fiber runs, the dispatcher is ready. *)
Definition init : st := mk 1 [0] [] [] [] [] [0; 1] (fun _ => 0%Z) [0] [].

Definition mem (f : nat) (l : list nat) : bool := existsb (Nat.eqb f) l.
(** list_hook.is_linked(), sleep_hook.is_linked() *)
Definition linked (s : st) (f : nat) : bool := mem f (q0 s ++ q1 s ++ term s).
Definition asleep (s : st) (f : nat) : bool := mem f (map snd (slp s)).

(** multiset::insert: after the elements that are not greater. *)
Fixpoint insert (t : Z) (f : nat) (l : list (Z * nat)) : list (Z * nat) :=
  match l with
  | [] => [(t, f)]
  | (u, g) :: r => if (t <? u)%Z then (t, f) :: l else (u, g) :: insert t f r
  end.
Definition remove (f : nat) (l : list (Z * nat)) : list (Z * nat) := filter (fun p => negb (snd p =? f)) l.
Definition updf {A} (m : nat -> A) (f : nat) (x : A) : nat -> A := fun g => if g =? f then x else m g.

Inductive yield := YKeep | YSleep (t : Z) | YReady.
Inductive lab :=
  | Act (o : nat)                   (* ActivateOther, same thread *)
  | Remote (o : nat)                (* ScheduleFromRemote, by another thread *)
  | PopRem                          (* an iteration of ProcessRemoteReady *)
  | Suspend | Yield (y : yield) | Wait (t : Z)
  | Start (f : nat) (now : bool)    (* a new fiber; [now] = Launch::dispatch *)
  | Attach (f : nat)
  | Finish                          (* Terminate *)
  | Destroy                         (* DestroyTerminated *)
  | SuspendExec                     (* SuspendAndExecuteOnDispatcher *)
  | Sleepers (now : Z)              (* ProcessSleep at time [now] *)
  | RunNormal | RunBack.            (* an iteration of RunReadyFibersInternal *)

Section P.
  Variable pr : nat -> prio.

  (** scheduler.cc:268-288; for [add_ready] the hook must not be linked (the DCHECK is off in release builds). *)
  Definition push (s : st) (f : nat) (front : bool) : st :=
    let put := fun q => if front then f :: q else q ++ [f] in
    mk (act s) (if is_back (pr f) then q0 s else put (q0 s)) (if is_back (pr f) then put (q1 s) else q1 s)
       (remove f (slp s)) (rem s) (term s) (born s) (tp s) (adds s ++ [f]) (runs s).
  Definition add_ready (s : st) (f : nat) (front : bool) : outcome st :=
    if linked s f then Ub else Next (push s f front).
  Definition to_front (f : nat) : bool := is_high (pr f).

  Definition set_act (s : st) (f : nat) : st :=
    mk f (q0 s) (q1 s) (slp s) (rem s) (term s) (born s) (tp s) (adds s) (runs s).
  (** PopReady(NORMAL), PopReady(BACKGROUND): the fiber that leaves the queue runs next. *)
  Definition pop0 (s : st) : outcome st :=
    match q0 s with
    | [] => Ub
    | f :: r => if f =? act s then Ub
                else Next (mk f r (q1 s) (slp s) (rem s) (term s) (born s) (tp s) (adds s) (runs s ++ [f]))
    end.
  Definition pop1 (s : st) : outcome st :=
    match q1 s with
    | [] => Ub
    | f :: r => if f =? act s then Ub
                else Next (mk f (q0 s) r (slp s) (rem s) (term s) (born s) (tp s) (adds s) (runs s ++ [f]))
    end.

  (** The end of Preempt, scheduler.cc:255-265: a background fiber always returns to the dispatcher. *)
  Definition switch (s : st) : outcome st := if is_back (pr (act s)) then Next (set_act s 0) else pop0 s.

  (** sleep_queue_.insert *)
  Definition add_sleep (s : st) (t : Z) : outcome st :=
    if asleep s (act s) then Ub
    else Next (mk (act s) (q0 s) (q1 s) (insert t (act s) (slp s)) (rem s) (term s) (born s) (updf (tp s) (act s) t) (adds s) (runs s)).

  Definition bind {A B} (o : outcome A) (k : A -> outcome B) : outcome B :=
    match o with Stuck => Stuck | Ub => Ub | Next x => k x end.

  (** scheduler.cc:451-474 *)
  Fixpoint sleepers (l : list (Z * nat)) (now : Z) (s : st) : outcome st :=
    match l with
    | [] => Next s
    | (t, f) :: r =>
        if (now <? t)%Z then Next s
        else if linked s f then Ub
        else sleepers r now
               (mk (act s) (if is_back (pr f) then q0 s else q0 s ++ [f]) (if is_back (pr f) then q1 s ++ [f] else q1 s)
                   r (rem s) (term s) (born s) (updf (tp s) f tmax) (adds s ++ [f]) (runs s))
    end.

  Definition step (s : st) (l : lab) : outcome st :=
    match l with
    | Act o =>
        if (o =? act s) || (o =? 0) || negb (mem o (born s)) then Stuck
        else if linked s o then Next s else add_ready s o (to_front o)
    | Remote o =>
        if (o =? 0) || negb (mem o (born s)) || mem o (term s) then Stuck
        else if mem o (rem s) then Next s
        else Next (mk (act s) (q0 s) (q1 s) (slp s) (rem s ++ [o]) (term s) (born s) (tp s) (adds s) (runs s))
    | PopRem =>
        match rem s with
        | [] => Stuck
        | f :: r =>
            let s1 := mk (act s) (q0 s) (q1 s) (slp s) r (term s) (born s) (tp s) (adds s) (runs s) in
            if (f =? act s) || linked s f then Next s1 else add_ready s1 f (to_front f)
        end
    | Suspend => if act s =? 0 then Stuck else switch s
    | Wait t => if act s =? 0 then Stuck else bind (add_sleep s t) switch
    | Yield y =>
        if act s =? 0 then Stuck
        else if is_back (pr (act s)) then
          match y with
          | YKeep => Next s
          | YSleep t => bind (add_sleep s t) switch
          | YReady => bind (add_ready s (act s) false) switch
          end
        else match y with YReady => bind (add_ready s (act s) false) switch | _ => Stuck end
    | Start f now =>
        if mem f (born s) then Stuck
        else
          let s1 := mk (act s) (q0 s) (q1 s) (slp s) (rem s) (term s) (f :: born s) (tp s) (adds s) (runs s) in
          if now then bind (add_ready s1 (act s) false) (fun s2 => Next (set_act s2 f))
          else add_ready s1 f (to_front f)
    | Attach f =>
        if (f =? 0) || (f =? act s) || linked s f || asleep s f then Stuck
        else add_ready (mk (act s) (q0 s) (q1 s) (slp s) (rem s) (term s) (f :: born s) (tp s) (adds s) (runs s)) f false
    | Finish =>
        if (act s <=? 1) || mem (act s) (rem s) then Stuck
        else if linked s (act s) then Ub
        else switch (mk (act s) (q0 s) (q1 s) (slp s) (rem s) (term s ++ [act s]) (born s) (tp s) (adds s) (runs s))
    | Destroy =>
        if act s =? 0 then
          Next (mk 0 (q0 s) (q1 s) (slp s) (rem s) [] (filter (fun f => negb (mem f (term s))) (born s)) (tp s) (adds s) (runs s))
        else Stuck
    | SuspendExec =>
        if (act s =? 0) || negb (mem 0 (q0 s)) then Stuck
        else Next (mk 0 (filter (fun f => negb (f =? 0)) (q0 s)) (q1 s) (slp s) (rem s) (term s) (born s) (tp s) (adds s) (runs s))
    | Sleepers now => if act s =? 0 then sleepers (slp s) now s else Stuck
    | RunNormal =>
        if act s =? 0 then
          match q0 s with
          | [] => Stuck
          | f :: r =>
              bind (pop0 s) (fun s1 =>
              (* AddReady(dispatch_cntx_) comes before the switch; the two do not interfere *)
              add_ready s1 0 false)
          end
        else Stuck
    | RunBack => if act s =? 0 then match q1 s with [] => Stuck | _ => pop1 s end else Stuck
    end.
End P.

(** What WaitUntil returns to the fiber [f], scheduler.cc:379. *)
Definition timed_out (s : st) (f : nat) : bool := (tp s f =? tmax)%Z.
