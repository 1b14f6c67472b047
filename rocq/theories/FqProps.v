(** C46: FiberQueue. *)
From Verif Require Import Util Conc EcModel EcProof AwaitSpec FqModel FqSpec FqProof.

(** No schedule makes the queue or the event counts misbehave. *)
Theorem fq_safe cap NT : (N.of_nat NT < two32)%N -> safe (step NT (fcode cap)) finit.
Proof. exact (fq_safe_pf cap NT). Qed.
Print Assumptions fq_safe.

(** Callbacks run in the order in which they were accepted, each at most once; those not run yet
    are in the queue, which respects its capacity, or in the current batch. *)
Theorem fq_fifo cap NT s : (N.of_nat NT < two32)%N -> reachable (step NT (fcode cap)) finit s ->
  exists rest, accepted s = ran s ++ rest /\ length rest <= size s + kBatch /\ size s <= cap.
Proof. exact (fun H => fq_fifo_pf cap NT H s). Qed.
Print Assumptions fq_fifo.

(** Every call is answered as it should: once it returned, the callback was accepted exactly once, or
    not at all and TryAdd returned false. *)
Theorem fq_answered cap NT s t v : (N.of_nat NT < two32)%N -> reachable (step NT (fcode cap)) finit s -> outside s t ->
  times (t, v) (asked (cs s)) = times (t, v) (accepted s) + times (t, v) (refused (cs s)).
Proof. exact (fun H => fq_answered_pf cap NT H s t v). Qed.
Print Assumptions fq_answered.

(** A fiber is suspended in Add although there is room only while Run is still
    taking a batch and has not notified it yet. *)
Theorem fq_add_wakes cap NT ls s t : (N.of_nat NT < two32)%N ->
  exec (step NT (fcode cap)) finit ls = Next s -> timely (step NT (fcode cap)) finit ls ->
  add_suspended s t -> size s < cap -> run_taking s.
Proof. exact (fun H => fq_add_wakes_pf cap NT H ls s t). Qed.
Print Assumptions fq_add_wakes.

(** Run is suspended although it could take an element or the queue was shut down only while another
    fiber is inside TryAdd, Add or Shutdown, past the change, and has not notified it yet. *)
Theorem fq_run_wakes cap NT ls s : (N.of_nat NT < two32)%N ->
  exec (step NT (fcode cap)) finit ls = Next s -> timely (step NT (fcode cap)) finit ls ->
  run_suspended s -> head_ready (cs s) = true \/ closed (cs s) = true -> exists u, 0 < u < NT /\ telling_run s u.
Proof. exact (fun H => fq_run_wakes_pf cap NT H ls s). Qed.
Print Assumptions fq_run_wakes.

(** When Run is suspended and no other fiber is in the middle of a call, all accepted callbacks have
    run, no fiber waits in Add, and Shutdown was not called. *)
Theorem fq_quiescent cap NT ls s : (N.of_nat NT < two32)%N -> 0 < cap ->
  exec (step NT (fcode cap)) finit ls = Next s -> timely (step NT (fcode cap)) finit ls ->
  run_suspended s -> (forall u, 0 < u < NT -> ~ working s u) ->
  accepted s = ran s /\ closed (cs s) = false /\ forall t, ~ add_suspended s t.
Proof. exact (fun H => fq_quiescent_pf cap NT H ls s). Qed.
Print Assumptions fq_quiescent.

(** Refuted: "every callback accepted before Shutdown is run before Run returns". Run looks into the
    empty queue, then a fiber adds a callback and calls Shutdown, then Run reads is_closed_. *)
Definition lost_sched : list (nat * nat) := [(0, 1); (1, 2); (1, 1); (1, 1); (1, 1); (1, 0); (1, 1); (1, 1); (0, 1)].
Theorem fq_shutdown_refuted : exists s, reachable (step 2 (fcode 4)) finit s /\
  run_returned s /\ accepted_at_shutdown s = [(1, 0)] /\ ran s = [] /\ pc (th s 1) = Run PIdle.
Proof.
  destruct (reach_obs (step 2 (fcode 4)) (fun s => (pc (th s 0), accepted_at_shutdown s, ran s, pc (th s 1))) finit lost_sched
    (Run KExit, [(1, 0)], [], Run PIdle)) as (s & R & E). { vm_compute. reflexivity. }
  injection E as E0 E1 E2 E3. exists s. unfold run_returned. auto.
Qed.
Print Assumptions fq_shutdown_refuted.

(** What holds: Run returns only after Shutdown was called, and after having run everything accepted
    before it last looked into the queue, except what queued up behind a callback whose TryAdd had
    not completed yet. *)
Theorem fq_returns_partial cap NT s : (N.of_nat NT < two32)%N -> 0 < NT -> reachable (step NT (fcode cap)) finit s ->
  run_returned s ->
  closed (cs s) = true /\ accepted_at_last_look s = ran s ++ overtaken s /\
  (overtaken s = [] \/ exists c, hd_error (snd (seen (cs s))) = Some c /\ ready c = false).
Proof. exact (fun H H0 R => fq_returns_pf cap NT H s R H0). Qed.
Print Assumptions fq_returns_partial.

(** *** The hypotheses are met *)
Definition rep (t c n : nat) : list (nat * nat) := repeat (t, c) n.
(** Run suspended after running two callbacks. *)
Example fq_quiescent_met : exists s, reachable (step 2 (fcode 2)) finit s /\
  run_suspended s /\ ran s = [(1, 1); (1, 2)] /\ pc (th s 1) = Run PIdle.
Proof.
  destruct (reach_obs (step 2 (fcode 2)) (fun s => (pc (th s 0), ran s, pc (th s 1))) finit
     ([(1, 3)] ++ rep 1 1 3 ++ [(1, 5)] ++ rep 1 1 3 ++ rep 0 1 18) (Parked KWait, [(1, 1); (1, 2)], Run PIdle)) as (s & R & E). { vm_compute. reflexivity. }
  injection E as E0 E1 E2. exists s. unfold run_suspended. auto.
Qed.
(** A fiber suspended in Add of a full queue; then Run makes room and is about to notify. *)
Example fq_add_met : exists s, reachable (step 2 (fcode 1)) finit s /\ add_suspended s 1 /\ size s = 0 /\ pc (th s 0) = Run KNtf.
Proof.
  destruct (reach_obs (step 2 (fcode 1)) (fun s => (pc (th s 0), size s, pc (th s 1))) finit
     ([(1, 3)] ++ rep 1 1 3 ++ [(1, 5)] ++ rep 1 1 7 ++ rep 0 1 3) (Run KNtf, 0, Parked (PWait 2))) as (s & R & E). { vm_compute. reflexivity. }
  injection E as E0 E1 E2. exists s. unfold add_suspended. eauto.
Qed.
(** Run suspended, an element published, the notification still to come. *)
Example fq_run_met : exists s, reachable (step 2 (fcode 1)) finit s /\ run_suspended s /\ head_ready (cs s) = true /\ pc (th s 1) = Run (PNtf First).
Proof.
  destruct (reach_obs (step 2 (fcode 1)) (fun s => (pc (th s 0), head_ready (cs s), pc (th s 1))) finit
     (rep 0 1 9 ++ [(1, 3)] ++ rep 1 1 2) (Parked KWait, true, Run (PNtf First))) as (s & R & E). { vm_compute. reflexivity. }
  injection E as E0 E1 E2. exists s. unfold run_suspended. auto.
Qed.
(** Run returns after Shutdown, with everything run. *)
Example fq_returns_met : exists s, reachable (step 2 (fcode 2)) finit s /\ run_returned s /\ ran s = [(1, 1)] /\ accepted s = [(1, 1)] /\ overtaken s = [].
Proof.
  destruct (reach_obs (step 2 (fcode 2)) (fun s => (pc (th s 0), ran s, accepted s, overtaken s)) finit
     ([(1, 3)] ++ rep 1 1 3 ++ [(1, 0)] ++ rep 1 1 2 ++ rep 0 1 8) (Run KExit, [(1, 1)], [(1, 1)], [])) as (s & R & E). { vm_compute. reflexivity. }
  injection E as E0 E1 E2 E3. exists s. unfold run_returned. auto.
Qed.
(** A TryAdd of a full queue is refused. *)
Example fq_answered_met : exists s, reachable (step 2 (fcode 1)) finit s /\ outside s 1 /\ asked (cs s) = [(1, 1); (1, 2)] /\
  accepted s = [(1, 1)] /\ refused (cs s) = [(1, 2)].
Proof.
  destruct (reach_obs (step 2 (fcode 1)) (fun s => (pc (th s 1), asked (cs s), accepted s, refused (cs s))) finit
     ([(1, 3)] ++ rep 1 1 3 ++ [(1, 6)] ++ rep 1 1 1) (Run PIdle, [(1, 1); (1, 2)], [(1, 1)], [(1, 2)])) as (s & R & E). { vm_compute. reflexivity. }
  injection E as E0 E1 E2 E3. exists s. unfold outside. auto.
Qed.
