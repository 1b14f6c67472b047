(** C35: a proactor never sleeps while work is queued. [ur] = true: UringProactor, false:
    EpollProactor; [cap] the capacity of the task queue; any number of submitting threads. *)
From Verif Require Import Util Conc WakeModel WakeSpec WakeProof.
Open Scope N_scope.

(** Whatever was submitted is run at most once, in the order in which it was accepted (per queue),
    and a submission whose call returned has been run or is still queued. *)
Theorem wake_order ur cap s : reachable (step ur cap) (init ur) s ->
  (forall b, exists rest, subs (g s) b = rans (g s) b ++ rest) /\ (forall b, NoDup (subs (g s) b)) /\
  (forall i, In i (subs (g s) false) -> ~ In i (subs (g s) true)) /\
  forall i, returned s i -> was_run s i \/ queued s i.
Proof. exact (wake_order_pf ur cap s). Qed.
Print Assumptions wake_order.

(** If the loop is blocked although something is queued, some thread is inside a submitting call and
    wakes the loop up within its next three steps. *)
Theorem wake_summoned ur cap s : reachable (step ur cap) (init ur) s -> timely ur s -> blocked ur s ->
  forall i, queued s i -> exists u, rouses ur cap 3 s u.
Proof. exact (wake_summoned_pf ur cap s). Qed.
Print Assumptions wake_summoned.

(** If the call that made a fiber ready from another thread has returned, what is left to do before
    the loop wakes up is at most one system call of another submitting thread. *)
Theorem wake_remote ur cap s : reachable (step ur cap) (init ur) s -> timely ur s -> blocked ur s ->
  forall i, In i (subs (g s) true) -> ~ was_run s i -> returned s i -> exists u, rouses ur cap 1 s u.
Proof. exact (wake_remote_pf ur cap s). Qed.
Print Assumptions wake_remote.

(** The same for the oldest task in the task queue, with one more step. *)
Theorem wake_oldest ur cap s : reachable (step ur cap) (init ur) s -> timely ur s -> blocked ur s ->
  forall i rest, subs (g s) false = rans (g s) false ++ i :: rest -> returned s i -> exists u, rouses ur cap 2 s u.
Proof. exact (wake_oldest_pf ur cap s). Qed.
Print Assumptions wake_oldest.

(** When no submitting call is in progress a blocked loop has nothing to do. *)
Theorem wake_quiescent ur cap s : reachable (step ur cap) (init ur) s -> timely ur s -> blocked ur s ->
  (forall u, ~ submitting s u) -> forall i, ~ queued s i.
Proof. exact (wake_quiescent_pf ur cap s). Qed.
Print Assumptions wake_quiescent.

(** When no submitting call is in progress the loop, wherever it is, runs everything that was
    submitted without any further event from outside. *)
Theorem wake_runs ur cap s : reachable (step ur cap) (init ur) s -> timely ur s -> (forall u, ~ submitting s u) ->
  exists ls s', Forall unaided ls /\ exec (step ur cap) s ls = Next s' /\ forall i, returned s i -> was_run s' i.
Proof. exact (wake_runs_pf ur cap s). Qed.
Print Assumptions wake_runs.

(** ** What does not hold
    A call that returned does not by itself guarantee that a wake-up is pending: thread 0 stopped
    between taking a cell of the task queue and publishing it; thread 1 submitted a task behind it
    and returned; the loop found the head of the queue not ready and went to sleep. Task 1 waits
    until thread 0 continues. *)
Definition stalled (ur : bool) : list lab :=
  [Sub 0 0; Sub 1 0; Sub 1 0; Sub 1 0] ++
  (if ur then [Loop 0; Loop 0; Loop 0; Loop 0; Loop 0; Loop 0; Loop 0; Loop 0; Loop 0]
   else [Loop 0; Loop 0; Loop 0; Loop 0; Loop 0]).
Theorem wake_prompt_refuted ur :
  exists s, reachable (step ur 512) (init ur) s /\ peak (g s) = 0 /\ returned s 1 /\ queued s 1 /\ blocked ur s /\ sp s 1%nat = SIdle.
Proof.
  destruct ur.
  - destruct (reach_obs (step true 512) (fun s => (peak (g s), rets (g s), subs (g s) false, rans (g s) false, rans (g s) true, (lp s, k s), sp s 1%nat))
      (init true) (stalled true) (0, [1%nat], [0; 1]%nat, [], [], (LWait, mk_k false false false AArmed), SIdle)) as (s & R & E).
    + vm_compute. reflexivity.
    + injection E as E1 E2 E3 E4 E5 E6 E7 E8. exists s. unfold returned, queued, blocked. rewrite E1, E2, E3, E4, E5, E6, E7, E8.
      split; [auto|]. split; [auto|]. split; [now left|]. split; [split; [cbn; auto|easy]|]. split; [|auto].
      split; [auto|]. cbn. split; [auto|]. split; [auto|]. intros [X _]. discriminate.
  - destruct (reach_obs (step false 512) (fun s => (peak (g s), rets (g s), subs (g s) false, rans (g s) false, rans (g s) true, (lp s, k s), sp s 1%nat))
      (init false) (stalled false) (0, [1%nat], [0; 1]%nat, [], [], (LWait, mk_k false false false AQueued), SIdle)) as (s & R & E).
    + vm_compute. reflexivity.
    + injection E as E1 E2 E3 E4 E5 E6 E7 E8. exists s. unfold returned, queued, blocked. rewrite E1, E2, E3, E4, E5, E6, E7, E8.
      split; [auto|]. split; [auto|]. split; [now left|]. split; [split; [cbn; auto|easy]|]. split; [|auto].
      split; [auto|]. reflexivity.
Qed.
Print Assumptions wake_prompt_refuted.

(** ** The hypotheses are met *)
(** The state above is timely, blocked and has a queued task: thread 0 rouses the loop. *)
Example wake_summoned_met ur : exists s, reachable (step ur 512) (init ur) s /\ timely ur s /\ blocked ur s /\ queued s 1.
Proof.
  destruct (wake_prompt_refuted ur) as (s & R & P & _ & Q & Bl & _). exists s. split; auto. split; [|auto].
  intros _. rewrite P. reflexivity.
Qed.
(** The loop sleeps; thread 0 made a fiber ready, saw that it has to signal and did not do it yet;
    thread 1 made another one ready and returned. *)
Example wake_remote_met : exists s, reachable (step true 512) (init true) s /\ timely true s /\ blocked true s /\
  In 1%nat (subs (g s) true) /\ ~ was_run s 1 /\ returned s 1.
Proof.
  destruct (reach_obs (step true 512) (fun s => (peak (g s), rets (g s), subs (g s) true, rans (g s) false, rans (g s) true, (lp s, k s)))
      (init true) ([Loop 0; Loop 0; Loop 0; Loop 0; Loop 0; Loop 0; Loop 0; Loop 0; Loop 0] ++
                   [Sub 0 1; Sub 0 0; Sub 0 0; Sub 1 1; Sub 1 0; Sub 1 0])
      (0, [1%nat], [0; 1]%nat, [], [], (LWait, mk_k false false false AArmed))) as (s & R & E).
  - vm_compute. reflexivity.
  - injection E as E1 E2 E3 E4 E5 E6 E7. exists s. unfold timely, was_run, returned, blocked. rewrite E1, E2, E3, E4, E5, E6, E7.
    split; [auto|]. split; [reflexivity|]. split; [|split; [cbn; auto|split; [easy|now left]]].
    split; [auto|]. cbn. split; [auto|]. split; [auto|]. intros [X _]. discriminate.
Qed.
(** Three submissions returned while the loop slept (epoll): it wakes up and runs them. *)
Example wake_runs_met : exists s, reachable (step false 512) (init false) s /\ timely false s /\ lp s = LWait /\
  returned s 0 /\ returned s 1 /\ returned s 2 /\ queued s 1 /\ sp s 0%nat = SIdle /\ sp s 1%nat = SIdle.
Proof.
  destruct (reach_obs (step false 512) (fun s => (peak (g s), rets (g s), subs (g s) false, subs (g s) true, (rans (g s) false, rans (g s) true), lp s, (sp s 0%nat, sp s 1%nat)))
      (init false) ([Loop 0; Loop 0; Loop 0; Loop 0; Loop 0] ++
                   [Sub 0 0; Sub 1 0; Sub 1 0; Sub 0 0; Sub 0 0; Sub 1 0; Sub 0 0; Sub 1 1; Sub 1 0; Sub 1 0])
      (0, [2; 0; 1]%nat, [0; 1]%nat, [2%nat], ([], []), LWait, (SIdle, SIdle))) as (s & R & E).
  - vm_compute. reflexivity.
  - injection E as E1 E2 E3 E4 E5 E6 E7 E8 E9. exists s. unfold timely, queued, returned. rewrite E2, E3, E4, E5, E6, E7, E8, E9.
    split; [auto|]. split; [discriminate|]. cbn. split; [auto|]. split; [auto|]. split; [auto|]. split; [auto|]. split; [split; [auto|easy]|auto].
Qed.
