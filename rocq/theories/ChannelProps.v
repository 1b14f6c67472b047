(** C20: SimpleChannel. *)
From Verif Require Import Util Conc EcModel EcProof AwaitSpec ChannelModel ChannelSpec ChannelProof ChannelWake ChannelPop ChannelDead.

(** No schedule makes the channel misuse its event counts or queues. *)
Theorem channel_safe mp cap np NT cons : (N.of_nat NT < two32)%N -> safe (step NT (ccode mp cap np)) (cinit cons).
Proof. exact (channel_safe_pf mp cap np NT cons). Qed.
Print Assumptions channel_safe.

(** Elements come out in the order they went in, each once, none lost: what was received is a
    prefix of what was sent, the rest is in the channel, which never holds more than its capacity. *)
Theorem channel_fifo mp cap np NT cons s : (N.of_nat NT < two32)%N ->
  reachable (step NT (ccode mp cap np)) (cinit cons) s ->
  exists rest, sent s = received s ++ rest /\ length rest = size s /\ size s <= cap.
Proof. exact (fun H => channel_fifo_pf mp cap np NT cons H s). Qed.
Print Assumptions channel_fifo.

(** Pop returns false only when every producer has called StartClosing and every element ever sent
    has been received. *)
Theorem channel_closed mp cap np NT cons s t : (N.of_nat NT < two32)%N -> np = producers cons NT ->
  reachable (step NT (ccode mp cap np)) (cinit cons) s -> t < NT -> pop_failed s t ->
  (forall u, u < NT -> cons u = false -> has_closed s u) /\ sent s = received s.
Proof. exact (fun H => channel_closed_pf mp cap np NT cons H s t). Qed.
Print Assumptions channel_closed.

(** A consumer suspended in Pop of a closed channel is about to be woken: some producer is still
    inside StartClosing. *)
Theorem channel_close_wakes mp cap np NT cons ls s t : (N.of_nat NT < two32)%N ->
  exec (step NT (ccode mp cap np)) (cinit cons) ls = Next s -> timely (step NT (ccode mp cap np)) (cinit cons) ls ->
  pop_suspended s t -> np <= closing (cs s) -> exists u, u < NT /\ has_closed s u /\ working s u.
Proof. exact (fun H => channel_close_wakes_pf mp cap np NT cons H ls s t). Qed.
Print Assumptions channel_close_wakes.

(** With the single-step queue: while consumers are suspended, the elements in the channel are
    matched by fibers that are awake in Pop or about to complete a notification, unless there
    are enough notifications under way to wake every suspended consumer. *)
Theorem channel_pop_wakes_partial cap np NT cons ls s t : (N.of_nat NT < two32)%N ->
  exec (step NT (ccode false cap np)) (cinit cons) ls = Next s -> timely (step NT (ccode false cap np)) (cinit cons) ls ->
  pop_suspended s t ->
  size s <= count (popping s) NT + count (announcing s) NT \/ count (in_pop s) NT <= count (announcing s) NT.
Proof. exact (fun H => channel_pop_wakes_pf false cap np NT cons H ls s t eq_refl). Qed.
Print Assumptions channel_pop_wakes_partial.

(** So when nothing moves any more, a suspended Pop means an empty channel. *)
Theorem channel_pop_not_stuck_partial cap np NT cons ls s t : (N.of_nat NT < two32)%N ->
  exec (step NT (ccode false cap np)) (cinit cons) ls = Next s -> timely (step NT (ccode false cap np)) (cinit cons) ls ->
  t < NT -> pop_suspended s t -> (forall u, u < NT -> ~ working s u) -> size s = 0.
Proof. exact (fun H => channel_pop_not_stuck_pf false cap np NT cons H ls s t eq_refl). Qed.
Print Assumptions channel_pop_not_stuck_partial.

(** With either queue: if all consumers are suspended in Pop and nothing moves any more, then the
    channel is empty and no producer is suspended in Push. *)
Theorem channel_no_deadlock mp cap np NT cons ls s : (N.of_nat NT < two32)%N -> 0 < cap ->
  exec (step NT (ccode mp cap np)) (cinit cons) ls = Next s -> timely (step NT (ccode mp cap np)) (cinit cons) ls ->
  (exists u, u < NT /\ cons u = true) -> (forall u, u < NT -> cons u = true -> pop_suspended s u) ->
  (forall u, u < NT -> ~ working s u) ->
  size s = 0 /\ forall u, u < NT -> ~ push_suspended s u.
Proof. exact (fun H => channel_no_deadlock_pf mp cap np NT cons H ls s). Qed.
Print Assumptions channel_no_deadlock.

(** *** Refuted: the claims a user might expect beyond that *)
Definition run (t n : nat) : list (nat * nat) := repeat (t, 1) n.
Definition two_side (k : nat) (t : nat) : bool := k <=? t.
(** A Push stays suspended although there is room: the Pop that made room does not notify. *)
Definition room_sched : list (nat * nat) := run 0 11 ++ run 1 2.
Theorem channel_push_room_refuted : exists s,
  reachable (step 2 (ccode false 1 1)) (cinit (two_side 1)) s /\
  push_suspended s 0 /\ size s = 0 /\ forall u, u < 2 -> ~ working s u.
Proof.
  destruct (reach_obs (step 2 (ccode false 1 1)) (fun s => (pc (th s 0), pc (th s 1), size s)) (cinit (two_side 1)) room_sched
    (Parked (PWait 0), Run KIdle, 0)) as (s & R & E). { vm_compute. reflexivity. }
  injection E as E0 E1 E2. exists s. split; auto. split; [now exists 0|]. split; auto.
  intros u Hu (A & B & C). unfold outside, push_suspended, pop_suspended in *.
  destruct u as [|[|u]]; [apply B; eauto|apply A; auto|lia].
Qed.
Print Assumptions channel_push_room_refuted.

(** A Push and a Pop are both suspended, on an empty channel, while the other consumer is busy
    elsewhere. *)
Definition both_sched : list (nat * nat) :=
  run 0 11 ++ run 1 8 ++ run 2 2 ++ run 2 17 ++ run 3 17 ++ run 0 11 ++ run 1 10 ++ run 2 7.
Theorem channel_push_pop_refuted : exists s,
  reachable (step 4 (ccode false 1 1)) (cinit (two_side 2)) s /\
  push_suspended s 1 /\ pop_suspended s 3 /\ size s = 0 /\ forall u, u < 4 -> ~ working s u.
Proof.
  destruct (reach_obs (step 4 (ccode false 1 1)) (fun s => (pc (th s 0), pc (th s 1), pc (th s 2), pc (th s 3), size s)) (cinit (two_side 2)) both_sched
    (Run PIdle, Parked (PWait 0), Run KIdle, Parked KWait, 0)) as (s & R & E). { vm_compute. reflexivity. }
  injection E as E0 E1 E2 E3 E4. exists s. split; auto. split; [now exists 0|]. split; auto. split; auto.
  intros u Hu (A & B & C). unfold outside, push_suspended, pop_suspended in *.
  destruct u as [|[|[|[|u]]]]; [apply A; auto|apply B; eauto|apply A; auto|apply C; auto|lia].
Qed.
Print Assumptions channel_push_pop_refuted.

(** With the MPMC queue a Pop stays suspended although an element is there to be taken: its
    notification went to a consumer that could not see it yet, because an earlier push had not
    completed. *)
Definition mpmc_sched : list (nat * nat) :=
  run 2 11 ++ run 3 11 ++ run 0 2 ++ run 1 7 ++ run 2 12 ++ run 0 5 ++ run 3 8.
Theorem channel_mpmc_pop_refuted : exists s,
  reachable (step 4 (ccode true 2 2)) (cinit (two_side 2)) s /\
  pop_suspended s 2 /\ size s = 1 /\ (exists c, q (cs s) = [c] /\ hold_ c = None) /\ forall u, u < 4 -> ~ working s u.
Proof.
  destruct (reach_obs (step 4 (ccode true 2 2)) (fun s => (pc (th s 0), pc (th s 1), pc (th s 2), pc (th s 3), q (cs s))) (cinit (two_side 2)) mpmc_sched
    (Run PIdle, Run PIdle, Parked KWait, Run KIdle, [mk_cell 1 0 None])) as (s & R & E). { vm_compute. reflexivity. }
  injection E as E0 E1 E2 E3 E4. exists s. split; auto. split; auto. unfold size. rewrite E4. split; auto. split; [eauto|].
  intros u Hu (A & B & C). unfold outside, push_suspended, pop_suspended in *.
  destruct u as [|[|[|[|u]]]]; [apply A; auto|apply A; auto|apply C; auto|apply A; auto|lia].
Qed.
Print Assumptions channel_mpmc_pop_refuted.

(** *** The hypotheses are met *)
(** Both consumers suspended, nothing moves. *)
Example channel_rest_met : exists s, reachable (step 3 (ccode true 2 1)) (cinit (two_side 1)) s /\
  pop_suspended s 1 /\ pop_suspended s 2 /\ pc (th s 0) = Run PIdle.
Proof.
  destruct (reach_obs (step 3 (ccode true 2 1)) (fun s => (pc (th s 0), pc (th s 1), pc (th s 2))) (cinit (two_side 1)) (run 1 11 ++ run 2 11)
    (Run PIdle, Parked KWait, Parked KWait)) as (s & R & E). { vm_compute. reflexivity. }
  injection E as E0 E1 E2. exists s. unfold pop_suspended. auto.
Qed.
(** Two elements, then closing: the consumer gets both, then false. *)
Example channel_closed_met : exists s, reachable (step 2 (ccode false 4 1)) (cinit (two_side 1)) s /\
  pop_failed s 1 /\ sent s = [(0, 1); (0, 2)] /\ received s = [(0, 1); (0, 2)].
Proof.
  destruct (reach_obs (step 2 (ccode false 4 1)) (fun s => (pc (th s 1), sent s, received s)) (cinit (two_side 1))
     ([(0, 3)] ++ run 0 2 ++ [(0, 5)] ++ run 0 2 ++ [(0, 0)] ++ run 0 2 ++ run 1 14)
    (Run KRet, [(0, 1); (0, 2)], [(0, 1); (0, 2)])) as (s & R & E). { vm_compute. reflexivity. }
  injection E as E0 E1 E2. exists s. unfold pop_failed. auto.
Qed.
(** A suspended consumer while the producer is in the middle of its notification. *)
Example channel_wakes_met : exists s, reachable (step 2 (ccode false 4 1)) (cinit (two_side 1)) s /\
  pop_suspended s 1 /\ size s = 1 /\ announcing s 0 = true.
Proof.
  destruct (reach_obs (step 2 (ccode false 4 1)) (fun s => (pc (th s 1), size s, announcing s 0)) (cinit (two_side 1)) (run 1 11 ++ run 0 4)
    (Parked KWait, 1, true)) as (s & R & E). { vm_compute. reflexivity. }
  injection E as E0 E1 E2. exists s. unfold pop_suspended. auto.
Qed.
Example channel_close_met : exists s, reachable (step 2 (ccode false 4 1)) (cinit (two_side 1)) s /\
  pop_suspended s 1 /\ closing (cs s) = 1 /\ has_closed s 0.
Proof.
  destruct (reach_obs (step 2 (ccode false 4 1)) (fun s => (pc (th s 1), closing (cs s), loc (pc (th s 0)))) (cinit (two_side 1)) (run 1 11 ++ [(0, 0); (0, 0)])
    (Parked KWait, 1, PNAll)) as (s & R & E). { vm_compute. reflexivity. }
  injection E as E0 E1 E2. exists s. unfold pop_suspended, has_closed. auto.
Qed.
