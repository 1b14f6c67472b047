(** C39: epoll callbacks. Every history of Arm, Disarm, epoll_wait and dispatch, callbacks that arm and disarm
    included; every initial size of the table. *)
From Verif Require Import Util Conc EpollCbModel EpollCbSpec EpollCbProof.

Section Props.
  Variable n : nat.
  Hypothesis Hn : 1 <= n.
  (** A callback runs only for events of the descriptor it was armed for. Full property: the same for
      [step]; it is false, see below. *)
  Theorem epoll_own_partial s c e : reachable cstep (init n) s -> mode s = Run c e -> c = e.
  Proof. exact (epoll_own_pf n Hn s c e). Qed.
  (** An event of a descriptor still armed runs its callback. *)
  Theorem epoll_delivered s i e r : reachable cstep (init n) s -> mode s = Out -> batch s = (i, e) :: r -> is_armed s i e ->
    exists s', step s Dispatch = Next s' /\ mode s' = Run e e /\ batch s' = r.
  Proof. exact (epoll_delivered_pf n Hn s i e r). Qed.
  (** An event of a descriptor disarmed since runs nothing. *)
  Theorem epoll_skipped s i e r : reachable cstep (init n) s -> mode s = Out -> batch s = (i, e) :: r -> ~ is_armed s i e ->
    exists s', step s Dispatch = Next s' /\ mode s' = Out /\ batch s' = r.
  Proof. exact (epoll_skipped_pf n Hn s i e r). Qed.
  (** Arm returns an id that is not in use and adds exactly its callback. *)
  Theorem epoll_arm s s' : reachable cstep (init n) s -> cstep s Arm = Next s' ->
    (forall c, ~ is_armed s (arm_result s) c) /\ (forall i c, is_armed s' i c <-> (i = arm_result s /\ c = nid s) \/ is_armed s i c).
  Proof. exact (epoll_arm_pf n Hn s s'). Qed.
  (** Disarm removes exactly its callback. *)
  Theorem epoll_disarm s i s' : reachable cstep (init n) s -> step s (Disarm i) = Next s' ->
    forall j c, is_armed s' j c <-> j <> i /\ is_armed s j c.
  Proof. exact (epoll_disarm_pf n s i s'). Qed.
  (** No entry outside of the table. Full property: [safe step (init n)]; it is false, see below. *)
  Theorem epoll_safe_partial : safe cstep (init n).
  Proof. exact (epoll_safe_pf n Hn). Qed.
End Props.
(** Finding (the code has a TODO about it, epoll_proactor.cc:513-515): an event already reported for a
    descriptor that an earlier callback of the batch disarms runs the callback that is armed next. *)
Theorem epoll_own_refuted : exists s c e, reachable step (init 512) s /\ mode s = Run c e /\ c <> e.
Proof. exact epoll_own_refuted_pf. Qed.
(** Finding: a callback that arms the 513th descriptor moves itself while it runs. *)
Theorem epoll_safe_refuted : ~ safe step (init 512).
Proof. exact epoll_safe_refuted_pf. Qed.
Print Assumptions epoll_own_partial.
Print Assumptions epoll_delivered.
Print Assumptions epoll_skipped.
Print Assumptions epoll_arm.
Print Assumptions epoll_disarm.
Print Assumptions epoll_safe_partial.
Print Assumptions epoll_own_refuted.
Print Assumptions epoll_safe_refuted.

(** Three descriptors in a table for two; one callback disarms the second and the next event is the
    second's; the third's follows. *)
Example epoll_met : exists s, reachable cstep (init 2) s /\ mode s = Out /\ batch s = [(1, 1); (2, 2)] /\ ~ is_armed s 1 1 /\ is_armed s 2 2 /\ is_armed s 0 0.
Proof.
  destruct (reach_obs cstep (fun s => (mode s, batch s, armed s)) (init 2) [Arm; Arm; Arm; Wait [(0, 0); (1, 1); (2, 2)]; Dispatch; Disarm 1; Return]
    (Out, [(1, 1); (2, 2)], [(2, 2); (0, 0)])) as (s & R & E); [vm_compute; reflexivity|].
  injection E as E1 E2 E3. exists s. unfold is_armed. rewrite E3. cbn. split; auto. split; auto. split; auto. split; [intuition congruence|auto].
Qed.
Example epoll_own_met : exists s, reachable cstep (init 2) s /\ mode s = Run 2 2.
Proof.
  destruct (reach_obs cstep mode (init 2) [Arm; Arm; Arm; Wait [(0, 0); (1, 1); (2, 2)]; Dispatch; Disarm 1; Return; Dispatch; Dispatch] (Run 2 2)) as (s & R & E);
    [vm_compute; reflexivity|]. eauto.
Qed.
