(** C18: Barrier, for any number of participants, any number of rounds and any schedule. *)
From Verif Require Import Util Conc MonModel BarrierModel BarrierSpec BarrierProof.

(** The participants, fibers 0 .. NP-1, call Wait() any number of times. The number of rounds stays
    below 2^64 - 1 (the value of cycle_ that stands for "cancelled"). *)
Definition barrier_run (NP : nat) (s : mst bst bloc) : Prop :=
  0 < NP /\ (N.of_nat NP < two64)%N /\ reachable (step NP (bcode NP)) (binit NP) s /\
  forall t, t < NP -> (N.of_nat (entered s t) < size_max)%N.

(** If one participant has returned from its k-th Wait(), all have entered their k-th Wait(). *)
Theorem barrier_rounds NP s t u k : barrier_run NP s -> t < NP -> u < NP ->
  k <= returned s t -> k <= entered s u.
Proof. intros (A & B & R & Bo) Ht Hu Hk. assert (X := barrier_rounds_pf NP A B s t u R Bo Ht Hu). lia. Qed.
Print Assumptions barrier_rounds.

(** Once all have entered their k-th Wait() and nothing moves any more, all have returned from it. *)
Theorem barrier_released NP s k : barrier_run NP s -> (forall t, t < NP -> at_rest s t) ->
  (forall u, u < NP -> k <= entered s u) -> forall t, t < NP -> k <= returned s t.
Proof. intros (A & B & R & Bo). exact (barrier_released_pf NP A B s k R Bo). Qed.
Print Assumptions barrier_released.

(** In each round exactly one participant gets the answer true. *)
Theorem barrier_one_true NP s t u r : barrier_run NP s -> t < NP -> u < NP ->
  answer s t r = Some true -> answer s u r = Some true -> t = u.
Proof. intros (A & B & R & Bo). exact (barrier_one_true_pf NP A B s t u r R Bo). Qed.
Print Assumptions barrier_one_true.
Theorem barrier_some_true NP s r : barrier_run NP s -> (forall u, u < NP -> r < returned s u) ->
  exists t, t < NP /\ answer s t r = Some true.
Proof. intros (A & B & R & Bo). exact (barrier_some_true_pf NP A B s r R Bo). Qed.
Print Assumptions barrier_some_true.

Theorem barrier_safe NP : safe (step NP (bcode NP)) (binit NP).
Proof. exact (barrier_safe_pf NP). Qed.
Print Assumptions barrier_safe.

(** ** Cancel() *)
(** It calls notify_all() after it has released the mutex, although the queue of the condition variable
    is protected by the mutex only: its access races with the one of a last arrival. *)
Theorem barrier_cancel_race_refuted : ~ safe (step 2 (bcode 1)) (binit 1).
Proof.
  intros H. apply (H (repeat (1,0) 10 ++ repeat (0,0) 6 ++ [(1,0)])). vm_compute. reflexivity.
Qed.
Print Assumptions barrier_cancel_race_refuted.
(** It can also be lost: when the last participant arrives after the Cancel(), cycle_ wraps around from
    2^64 - 1 to 0. A participant that waits in the first round finds its own cycle number again and
    stays suspended although all have arrived, the barrier was cancelled, and nothing moves. *)
Theorem barrier_cancel_lost_refuted : exists s, reachable (step 3 (bcode 2)) (binit 2) s /\
  (forall t, t < 3 -> at_rest s t) /\ entered s 0 = 1 /\ entered s 1 = 1 /\
  answer s 1 0 = Some true /\ returned s 0 = 0 /\ pc s 0 = CvParked (BTest 0).
Proof.
  destruct (reach_obs (step 3 (bcode 2)) (fun s => (pc s 0, pc s 1, pc s 2, (ent (cs s) 0, ent (cs s) 1, ret (cs s) 0, ret (cs s) 1))) (binit 2)
    (repeat (0,0) 11 ++ repeat (2,0) 10 ++ repeat (1,0) 12 ++ repeat (2,0) 1 ++ repeat (0,0) 8)
    (CvParked (BTest 0), Run BIdle, Run BIdle, (1, 1, [], [true]))) as (s & R & E).
  { vm_compute. reflexivity. }
  injection E as E0 E1 E2 E3 E4 E5 E6. exists s. unfold entered, returned, answer, at_rest. rewrite E3, E4, E5, E6.
  repeat split; auto. intros [|[|[|t]]] Ht; eauto; lia.
Qed.
Print Assumptions barrier_cancel_lost_refuted.

(** What is left of the claim: as long as no arrival has completed a round after the Cancel() (cycle_ still
    says "cancelled"), nobody is suspended once nothing moves any more. *)
Theorem barrier_cancel_partial NP NT s : reachable (step NT (bcode NP)) (binit NP) s ->
  (forall t, at_rest s t) -> cycle (cs s) = size_max -> forall t, pc s t = Run BIdle.
Proof. exact (barrier_cancelled_pf NP NT s). Qed.
Print Assumptions barrier_cancel_partial.
(** Fiber 0 was suspended in the first round, fiber 2 has cancelled, both have returned. *)
Example demo_cancel : exists s, reachable (step 3 (bcode 2)) (binit 2) s /\ cycle (cs s) = size_max /\
  answer s 0 0 = Some false /\ forall t, t < 3 -> pc s t = Run BIdle.
Proof.
  destruct (reach_obs (step 3 (bcode 2)) (fun s => (pc s 0, pc s 1, pc s 2, (cycle (cs s), ret (cs s) 0))) (binit 2)
    (repeat (0,0) 11 ++ repeat (2,0) 11 ++ repeat (0,0) 9) (Run BIdle, Run BIdle, Run BIdle, (size_max, [false]))) as (s & R & E).
  { vm_compute. reflexivity. }
  injection E as E0 E1 E2 E3 E4. exists s. unfold answer. rewrite E4. repeat split; auto. intros [|[|[|t]]] Ht; auto; lia.
Qed.

(** Non-vacuity: a run with three participants and two rounds; 2 and then 0 arrive last. *)
Example demo_two_rounds : exists s, barrier_run 3 s /\ (forall t, t < 3 -> returned s t = 2 /\ at_rest s t) /\
  answer s 2 0 = Some true /\ answer s 0 1 = Some true.
Proof.
  destruct (reach_obs (step 3 (bcode 3)) (fun s => (pc s 0, pc s 1, pc s 2, (ent (cs s) 0, ent (cs s) 1, ent (cs s) 2, ret (cs s) 0, ret (cs s) 1, ret (cs s) 2))) (binit 3)
    (repeat (0,0) 11 ++ repeat (1,0) 11 ++ repeat (2,0) 12 ++ repeat (0,0) 9 ++ repeat (1,0) 9 ++
     repeat (1,0) 11 ++ repeat (2,0) 11 ++ repeat (0,0) 12 ++ repeat (1,0) 9 ++ repeat (2,0) 9)
    (Run BIdle, Run BIdle, Run BIdle, (2, 2, 2, [false; true], [false; false], [true; false]))) as (s & R & E).
  { vm_compute. reflexivity. }
  injection E as E0 E1 E2 E3 E4 E5 E6 E7 E8. exists s.
  assert (X : forall t, t < 3 -> entered s t = 2 /\ returned s t = 2 /\ at_rest s t).
  { unfold entered, returned, at_rest. intros [|[|[|t]]] Ht; rewrite ?E3, ?E4, ?E5, ?E6, ?E7, ?E8; auto; lia. }
  split; [|split; [intros; now apply X|unfold answer; rewrite E6, E8; auto]].
  split; [lia|]. split; [reflexivity|]. split; auto. intros t Ht. destruct (X t Ht) as [-> _]. reflexivity.
Qed.
