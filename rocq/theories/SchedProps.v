(** C34: the scheduler of a thread. *)
From Verif Require Import Util Conc SchedModel SchedSpec SchedProof.
From Coq Require Import Sorted.

(** Every fiber is in at most one place, and nothing undefined happens, provided Launch::dispatch is used only between fibers that share a queue. *)
Theorem sched_safe_partial (pr : nat -> prio) : pr 0 = Normal -> pr 1 = Normal ->
  safe (cstep pr) init /\ forall s, reachable (cstep pr) init s -> NoDup (places s).
Proof. exact (sched_safe_partial_pf pr). Qed.
Print Assumptions sched_safe_partial.

(** Once for each time it is put in a ready queue, a fiber is taken from there and runs: what is in the queue is still to come. *)
Theorem sched_once (pr : nat -> prio) (s : st) (f : nat) : reachable (step pr) init s -> f <> 0 ->
  times f (adds s) = times f (runs s) + times f (ready s).
Proof. exact (sched_once_pf pr s f). Qed.
Print Assumptions sched_once.

(** First come, first served within the normal and within the background fibers. *)
Theorem sched_fifo (pr : nat -> prio) (s : st) (p : prio) : pr 0 = Normal -> reachable (step pr) init s -> p <> High ->
  of_prio pr p (adds s) = of_prio pr p (runs s) ++ of_prio pr p (ready s).
Proof. exact (sched_fifo_pf pr s p). Qed.
Print Assumptions sched_fifo.

(** A fiber with [before] ahead of it in the queue of the normal fibers runs before that many others plus one for each
    high priority fiber activated meanwhile. *)
Theorem sched_bound (pr : nat -> prio) (s : st) (ls : list lab) (s' : st) (before : list nat) (f : nat) (after : list nat) :
  pr 0 = Normal -> reachable (step pr) init s -> exec (step pr) s ls = Next s' -> q0 s = before ++ f :: after -> f <> 0 ->
  exists new more, runs s' = runs s ++ new /\ adds s' = adds s ++ more /\
    (In f new \/ length (filter (fun g => negb (is_back (pr g))) new) <= length before + length (filter (fun g => is_high (pr g)) more)).
Proof. exact (sched_bound_pf pr s ls s' before f after). Qed.
Print Assumptions sched_bound.

(** Activating a fiber (from the same thread, or when the remote queue is read) makes it ready, also if it was asleep. *)
Theorem sched_woken (pr : nat -> prio) : pr 0 = Normal -> pr 1 = Normal -> forall (s : st) (o : nat) (l : lab) (s' : st),
  reachable (cstep pr) init s -> (l = Act o \/ l = PopRem /\ hd_error (rem s) = Some o) ->
  step pr s l = Next s' -> o <> act s -> ~ In o (term s) -> In o (ready s') /\ ~ In o (map snd (slp s')).
Proof. exact (sched_woken_pf pr). Qed.
Print Assumptions sched_woken.

(** A notification from another thread stays in the remote queue until that is read. *)
Theorem sched_remote (pr : nat -> prio) (s : st) (l : lab) (s' : st) (o : nat) : step pr s l = Next s' -> (l = Remote o \/ In o (rem s)) ->
  In o (rem s') \/ (l = PopRem /\ hd_error (rem s) = Some o).
Proof. exact (sched_remote_pf pr s l s' o). Qed.
Print Assumptions sched_remote.

(** A high priority fiber that is activated or started is the next to run. *)
Theorem sched_front (pr : nat -> prio) (s : st) (o : nat) (l : lab) (s' : st) : pr o = High ->
  (l = Act o \/ l = PopRem /\ hd_error (rem s) = Some o \/ l = Start o false) ->
  step pr s l = Next s' -> o <> act s -> ~ In o (ready s) -> ~ In o (term s) -> q0 s' = o :: q0 s.
Proof. exact (sched_front_pf pr s o l s'). Qed.
Print Assumptions sched_front.

(** A fiber that starts to sleep is put behind those whose deadline is not later. *)
Theorem sched_wait (pr : nat -> prio) : pr 0 = Normal -> pr 1 = Normal -> forall (s : st) (t : Z) (s' : st),
  reachable (cstep pr) init s -> step pr s (Wait t) = Next s' ->
  exists a b, slp s = a ++ b /\ slp s' = a ++ (t, act s) :: b /\ Forall (fun p => (fst p <= t)%Z) a /\ Forall (fun p => (t < fst p)%Z) b.
Proof. exact (sched_wait_pf pr). Qed.
Print Assumptions sched_wait.

(** The timer wakes exactly the sleepers whose deadline has come, in the order of their deadlines. *)
Theorem sched_sleepers (pr : nat -> prio) : pr 0 = Normal -> pr 1 = Normal -> forall (s : st) (now : Z) (s' : st),
  reachable (cstep pr) init s -> step pr s (Sleepers now) = Next s' ->
  exists w, slp s = w ++ slp s' /\ StronglySorted (fun a b => (fst a <= fst b)%Z) w /\
    Forall (fun p => (fst p <= now)%Z) w /\ Forall (fun p => (now < fst p)%Z) (slp s') /\
    q0 s' = q0 s ++ filter (fun f => negb (is_back (pr f))) (map snd w) /\ q1 s' = q1 s ++ filter (fun f => is_back (pr f)) (map snd w).
Proof. exact (sched_sleepers_pf pr). Qed.
Print Assumptions sched_sleepers.

(** A sleeper is woken only by a notification or by the timer when its deadline has come. *)
Theorem sched_early (pr : nat -> prio) : pr 0 = Normal -> pr 1 = Normal -> forall (s : st) (l : lab) (s' : st) (t : Z) (f : nat),
  reachable (cstep pr) init s -> step pr s l = Next s' -> In (t, f) (slp s) -> ~ In (t, f) (slp s') ->
  l = Act f \/ (l = PopRem /\ hd_error (rem s) = Some f) \/ exists now, l = Sleepers now /\ (t <= now)%Z.
Proof. exact (sched_early_pf pr). Qed.
Print Assumptions sched_early.

(** WaitUntil reports a timeout exactly if the timer woke the fiber, unless the deadline is time_point::max(). *)
Theorem sched_timeout_partial (pr : nat -> prio) : pr 0 = Normal -> pr 1 = Normal ->
  forall (s : st) (t : Z) (s1 : st) (ls : list lab) (s2 : st),
  reachable (cstep pr) init s -> step pr s (Wait t) = Next s1 -> (t < tmax)%Z -> exec (cstep pr) s1 ls = Next s2 ->
  (forall l1 l2 x, ls = l1 ++ l2 -> l2 <> [] -> exec (cstep pr) s1 l1 = Next x -> act x <> act s) -> act s2 = act s ->
  timed_out s2 (act s) = true <->
  exists l1 now l2 x, ls = l1 ++ Sleepers now :: l2 /\ exec (cstep pr) s1 l1 = Next x /\ In (t, act s) (slp x) /\ (t <= now)%Z.
Proof. exact (sched_timeout_partial_pf pr). Qed.
Print Assumptions sched_timeout_partial.

(** Launch::dispatch across the queues: a background fiber (2) that dispatches a normal one (3), which then blocks while no fiber is ready, takes the front of an
    empty queue; the main fiber dispatching a background one (2) leads to the dispatcher while that is still queued, which then switches to itself. *)
Theorem sched_dispatch_refuted :
  exec (step prA) init [Start 2 false; Suspend; RunBack; Start 3 true; Suspend] = Ub /\
  exec (step prA) init [Start 2 true; Suspend; RunNormal] = Ub.
Proof. exact sched_dispatch_refuted_pf. Qed.
Print Assumptions sched_dispatch_refuted.

(** A wait until time_point::max() that is notified reports a timeout. *)
Theorem sched_forever_refuted :
  exists s, exec (step (fun _ => Normal)) init [Start 2 false; Wait tmax; RunNormal; Act 1; Suspend; RunNormal] = Next s /\
    act s = 1 /\ timed_out s 1 = true.
Proof. exact sched_forever_refuted_pf. Qed.
Print Assumptions sched_forever_refuted.

(** A high priority fiber (2) that the timer wakes is queued behind a normal one (3). *)
Theorem sched_high_refuted :
  exists s s', exec (step prH) init [Start 3 false; Start 2 false; Suspend; Wait 5] = Next s /\ prH 2 = High /\ prH 3 = Normal /\
    step prH s (Sleepers 5) = Next s' /\ ready s = [3] /\ ready s' = [3; 2].
Proof. exact sched_high_refuted_pf. Qed.
Print Assumptions sched_high_refuted.

(** A run with a background fiber (2), a normal one (3), a notification from another thread, a sleeper that is notified and one that times out. *)
Definition run_met : list lab :=
  [Start 2 false; Start 3 false; Suspend; RunNormal; Wait 7; RunBack; Yield YKeep; Yield (YSleep 4); Remote 1; Sleepers 4; PopRem;
   RunNormal; Act 3; Yield YReady; RunNormal; Yield YReady; Wait 9; RunBack; Finish; Destroy].
Example sched_met : obs (fun s => (act s, q0 s, q1 s, slp s, (adds s, runs s))) (exec (cstep prA) init run_met) =
  Some (0, [3], [], [(9%Z, 1)], ([0; 2; 3; 0; 2; 1; 0; 3; 1; 0; 3], [0; 3; 0; 2; 1; 0; 3; 1; 0; 2])).
Proof. vm_compute. reflexivity. Qed.
(** A wait that times out, and one that is notified although the timer is late. *)
Example sched_timeout_met :
  obs (fun s => (act s, timed_out s 1)) (exec (cstep prA) init [Wait 5; Sleepers 4; Sleepers 6; RunNormal]) = Some (1, true) /\
  obs (fun s => (act s, timed_out s 1)) (exec (cstep prA) init [Wait 5; Remote 1; Sleepers 4; PopRem; Sleepers 6; RunNormal]) = Some (1, false).
Proof. split; vm_compute; reflexivity. Qed.
(** High priority fibers overtake. *)
Example sched_bound_met :
  obs (fun s => (runs s, ready s)) (exec (cstep prH) init [Start 3 false; Start 2 false; Suspend; Suspend]) = Some ([2; 0], [3]).
Proof. vm_compute. reflexivity. Qed.
