(** C40: Fiber::Join. Any number of joiners in any threads, every schedule. *)
From Verif Require Import Util Conc JoinModel JoinSpec JoinProof.

(** The joiners and the terminating fiber never use the wait list at the same time. *)
Theorem join_safe : safe step init.
Proof. exact join_safe_pf. Qed.
Print Assumptions join_safe.

(** Join returns only after the fiber's function has returned. *)
Theorem join_after s j : reachable step init s -> joined s j -> finished s.
Proof. exact (join_after_pf s j). Qed.
Print Assumptions join_after.

(** No joiner is left suspended once the fiber has terminated. *)
Theorem join_wakes s j : reachable step init s -> gone s -> ~ asleep s j.
Proof. exact (join_wakes_pf s j). Qed.
Print Assumptions join_wakes.

(** No joiner is activated twice (it would be put in a ready queue while it runs). *)
Theorem join_once s j : reachable step init s -> act s j <= 1.
Proof. exact (join_once_pf s j). Qed.
Print Assumptions join_once.

(** Once the function has returned, every pending Join can return: it needs steps of the joiner
    itself, of the terminating fiber and of the joiner, if any, that holds the lock, nothing else. *)
Theorem join_returns s j : reachable step init s -> finished s -> joining s j ->
  exists ls s', Forall (fun l => l = Te \/ l = Jo j \/ exists o, l = Jo o /\ in_the_way s o) ls /\
    exec step s ls = Next s' /\ joined s' j.
Proof. exact (join_returns_pf s j). Qed.
Print Assumptions join_returns.

(** Joiner 0 suspends, joiner 1 holds the lock when the fiber returns, joiner 2 comes late. *)
Definition ex_sched : list lab := [Jo 0; Jo 0; Jo 0; Jo 0; Jo 0; Jo 1; Jo 1; Te; Te; Jo 2].
Example join_returns_met : exists s, reachable step init s /\ finished s /\
  asleep s 0 /\ joining s 0 /\ in_the_way s 1 /\ joining s 2.
Proof.
  destruct (reach_obs step (fun s => (te s, jo s 0, act s 0, jo s 1, jo s 2)) init ex_sched (TSpin, JSusp, 0, JOwn, JTry)) as (s & R & E); [vm_compute; reflexivity|].
  injection E as E1 E2 E3 E4 E5. exists s. unfold finished, asleep, joining, in_the_way. rewrite E1, E2, E3, E4, E5.
  repeat split; auto; discriminate.
Qed.
(** The schedule goes on: all three return, the late one without waiting. *)
Example join_wakes_met : exists s, reachable step init s /\ gone s /\ joined s 0 /\ joined s 1 /\ joined s 2 /\ act s 0 = 1 /\ act s 2 = 0.
Proof.
  destruct (reach_obs step (fun s => (te s, jo s 0, act s 0, jo s 1, jo s 2, act s 2)) init
    (ex_sched ++ [Jo 1; Jo 1; Jo 1; Te; Te; Te; Te; Te; Te; Te; Jo 0; Jo 1; Jo 2; Jo 2]) (TEnd, JDone, 1, JDone, JDone, 0)) as (s & R & E); [vm_compute; reflexivity|].
  injection E as E1 E2 E3 E4 E5 E6. exists s. unfold gone, joined. now rewrite E1, E2, E3, E4, E5, E6.
Qed.
