(** C16: blocking counters. Any number of fibers ([NT] < 2^32), any calls, any schedule. *)
From Verif Require Import Util Conc EcModel AwaitModel AwaitSpec CounterSpec CounterModel CounterProof.

(** Every Wait()/WaitUntil() call that returned true did so when as many Dec calls had happened as had
    been added (start count included); every one that returned false without a timeout did so after a
    Cancel. *)
Theorem counter_result NT menu n s r a d c : (N.of_nat NT < two32)%N -> (n < two32)%N ->
  reachable (cstep NT menu) (cinit n) s ->
  In (r, (a, d, c)) (returns (hist (cs s))) -> (r = true -> a = d) /\ (r = false -> c = true).
Proof. intros H. exact (counter_result_pf NT menu H n s r a d c). Qed.
Print Assumptions counter_result.

(** If the round is finished and a fiber is still suspended in Wait, some Dec or Cancel call has
    not completed its notification: after the last one completes nobody is suspended. *)
Theorem counter_released NT menu n ls s t k : (N.of_nat NT < two32)%N -> (n < two32)%N ->
  exec (cstep NT menu) (cinit n) ls = Next s -> timely (cstep NT menu) (cinit n) ls ->
  suspended_on s t k -> finished (hist (cs s)) -> exists u, notifying s u.
Proof. intros H. exact (counter_released_pf NT menu H n ls s t k). Qed.
Print Assumptions counter_released.

Theorem counter_safe NT menu n : (N.of_nat NT < two32)%N -> safe (cstep NT menu) (cinit n).
Proof. intros H. exact (counter_safe_pf NT menu H n). Qed.
Print Assumptions counter_safe.

(** Non-vacuity: start count 2; fiber 0 waits and is suspended; fibers 1 and 2 call Dec; the wait
    returns true. In the second run fiber 2 cancels instead and the wait returns false. *)
Definition cmenu (last : nat) (t c : nat) : option call :=
  Some (match t with 0 => CAwait 0 false | 1 => COp 0 | _ => COp last end).
Definition csched (n : nat) := firstn n (repeat (0,0) 8 ++ [(1,0)] ++ repeat (2,0) 6 ++ repeat (0,0) 7).
Definition cview (s : st cst aloc) := (pc (th s 0), pc (th s 2), hist (cs s)).
Example counter_demo_mid : obs cview (exec (cstep 3 (cmenu 0)) (cinit 2) (csched 10)) =
  Some (Parked (Wt 0 false), Run Ntf, mk_calls 2 2 false []).
Proof. vm_compute. reflexivity. Qed.
Example counter_demo : obs cview (exec (cstep 3 (cmenu 0)) (cinit 2) (csched 22)) =
  Some (Run Idle, Run Idle, mk_calls 2 2 false [(true, (2, 2, false)%N)]).
Proof. vm_compute. reflexivity. Qed.
Example counter_demo_cancel : obs cview (exec (cstep 3 (cmenu 1)) (cinit 2) (csched 22)) =
  Some (Run Idle, Run Idle, mk_calls 2 1 true [(false, (2, 1, true)%N)]).
Proof. vm_compute. reflexivity. Qed.
