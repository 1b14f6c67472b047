(** C51: periodic tasks of UringProactor. Every interleaving of AddPeriodic, CancelPeriodic, the kernel and
    the completion loop, every number of tasks. *)
From Verif Require Import Util Conc PeriodicModel PeriodicSpec PeriodicProof.

(** No item is used or deleted after it was deleted, and no CHECK fails. *)
Theorem periodic_safe : safe step init.
Proof. exact periodic_safe_pf. Qed.
(** A task runs only while it is registered: never once CancelPeriodic has been called. *)
Theorem periodic_runs s p : reachable step init s -> runs s p -> registered s p /\ ~ deleted s p.
Proof. exact (periodic_runs_pf s p). Qed.
Theorem periodic_cancelled s l s' p : reachable step init s -> cancelled s p -> step s l = Next s' -> cancelled s' p.
Proof. exact (periodic_cancelled_pf s l s' p). Qed.
(** When everything submitted has been handled, a registered task has its timer running (in particular, cancelling another
    task did not stop it), and a cancelled one is deleted, its CancelPeriodic has returned, and no timer of it
    runs. *)
Theorem periodic_quiet s p : reachable step init s -> quiet s ->
  (registered s p -> ticking s p) /\ (cancelled s p -> deleted s p /\ returned s p /\ ~ ticking s p).
Proof. exact (periodic_quiet_pf s p). Qed.
(** A task has at most one timer. *)
Theorem periodic_one s ud1 ud2 p : reachable step init s -> In (ud1, p) (timers s) -> In (ud2, p) (timers s) -> ud1 = ud2.
Proof. exact (periodic_one_pf s ud1 ud2 p). Qed.
Print Assumptions periodic_safe.
Print Assumptions periodic_runs.
Print Assumptions periodic_cancelled.
Print Assumptions periodic_quiet.
Print Assumptions periodic_one.

(** Tasks 0 and 1; the timer of 0 has gone off when it is cancelled, its user_data is used again for task 2 before the kernel
    sees the removal's completion. *)
Example periodic_met : exists s, reachable step init s /\ quiet s /\ cancelled s 0 /\ registered s 1 /\ registered s 2.
Proof.
  destruct (reach_obs step (fun s => (mode s, sq s, cq s, nit s, im s 0, (im s 1, im s 2))) init
    [Add 5; Add 6; KTake false; KTake false; KFire 5; Cancel 0; StartReap; Next1; Add 5; EndReap; EndSched; KTake true; KTake false;
     KFire 6; StartReap; Next1; Next1; TaskEnd; EndReap; Again 6; EndSched; KTake false]
    (Fib, [], [], 3, false, (true, true))) as (s & R & E); [vm_compute; reflexivity|].
  injection E as E1 E2 E3 E4 E5 E6 E7. exists s. unfold quiet, cancelled, registered. rewrite E4. auto 10.
Qed.
Example periodic_runs_met : exists s, reachable step init s /\ runs s 1 /\ cancelled s 0.
Proof.
  destruct (reach_obs step (fun s => (mode s, nit s, im s 0)) init
    [Add 5; Add 6; KTake false; KTake false; Cancel 0; KTake false; KFire 6; StartReap; Next1; Next1; Next1] (Task 1, 2, false)) as (s & R & E); [vm_compute; reflexivity|].
  injection E as E1 E2 E3. exists s. unfold cancelled. rewrite E2. auto with arith.
Qed.
