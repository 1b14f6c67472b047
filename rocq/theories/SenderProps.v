(** C57: an answer of the HTTP clients answers the request that was sent.
    C58: RobustSender::Send.
    C59: ClientPool. *)
From Verif Require Import Util Conc SenderModel SenderSpec SenderProof.
Open Scope N_scope.

Ltac runs_from ops :=
  eapply (runs_checks _ _ _ ops st0); [apply runs_nil| |vm_compute; reflexivity].
Ltac check_ops :=
  cbn [checks]; repeat match goal with
  | |- _ /\ _ => split
  | |- match step ?r ?s ?o with _ => _ end =>
      let x := eval vm_compute in (step r s o) in change (step r s o) with x; cbn iota
  | |- True => exact I
  | |- reads_body _ _ => first [exact I | vm_compute; intros; first [reflexivity | discriminate]]
  | |- short_errors _ =>
      first [exact I | let H := fresh in cbn; intro H;
                       first [exfalso; apply H; vm_compute; tauto | vm_compute; discriminate]]
  end.

(** ** C57 *)

(** On a pool with the default retry count, if every body that is received is read to its end and
    error messages are short, the answer handed to a caller of Send is that to its request. *)
Theorem send_paired_partial s u k q r :
  runs polite 1 st0 s -> p_users s u = Got k q r -> q = Some (k_req k).
Proof. exact (send_paired_pf s u k q r). Qed.
Print Assumptions send_paired_partial.

(** A handle that is given back with a part of the body unread (as GcsReadFile does, when the file is
    destroyed before it was read to its end) goes to the next caller, who takes the rest of that
    body for the answer. *)
Definition unread_ops : list op :=
  [Begin 0 7 3 0 Valid; Attempt 0 (healthy (ok_resp 100)); Read 0 40; DropHandle 0;
   Begin 1 8 3 0 Valid; Attempt 1 (healthy (ok_resp 5))].
Theorem send_unread_refuted : exists s k r,
  runs (fun _ => short_errors) 1 st0 s /\ p_users s 1%nat = Got k None r /\ k_req k = 8.
Proof.
  eexists. eexists. eexists. split; [|split].
  - runs_from unread_ops. unfold unread_ops. check_ops.
  - vm_compute. reflexivity.
  - reflexivity.
Qed.
Print Assumptions send_unread_refuted.

(** With set_retry_count(2) a request is written twice, and the second answer is taken for that to
    the next request on the connection. *)
Definition twice_ops : list op :=
  [Begin 0 7 3 0 Valid; Attempt 0 (healthy (ok_resp 0)); Drop 0;
   Begin 1 8 3 0 Valid; Attempt 1 (healthy (ok_resp 5))].
Theorem send_retry_count_refuted : exists s k r,
  runs polite 2 st0 s /\ p_users s 1%nat = Got k (Some 7) r /\ k_req k = 8.
Proof.
  eexists. eexists. eexists. split; [|split].
  - runs_from twice_ops. unfold twice_ops. unfold polite. check_ops.
  - vm_compute. reflexivity.
  - reflexivity.
Qed.
Print Assumptions send_retry_count_refuted.

(** An error message above 8 megabytes is not drained, and the connection is reused. *)
Definition large_ops : list op :=
  [Begin 0 7 3 0 Valid; Attempt 0 (healthy (mkResp 500 false false 9000000 true)); Drop 0;
   Begin 1 8 3 0 Valid; Attempt 1 (healthy (ok_resp 5))].
Theorem send_large_error_refuted : exists s k r,
  runs reads_body 1 st0 s /\ p_users s 1%nat = Got k None r /\ k_req k = 8.
Proof.
  eexists. eexists. eexists. split; [|split].
  - runs_from large_ops. unfold large_ops. check_ops.
  - vm_compute. reflexivity.
  - reflexivity.
Qed.
Print Assumptions send_large_error_refuted.

(** ** C58 *)

(** Success is only returned with an answer 200, 201, 206 or 308, and it is the last one. *)
Theorem send_success rc s u k q r :
  reachable (step rc) st0 s -> p_users s u = Got k q r ->
  ok_code (r_code r) /\ exists l, k_hist k = (k_tok k, r) :: l.
Proof. exact (send_success_pf rc s u k q r). Qed.
Print Assumptions send_success.

(** Otherwise no answer was a success, and the error code describes the last answer. *)
Theorem send_failure rc s u k e :
  reachable (step rc) st0 s -> p_users s u = Ended k e ->
  (forall t r, In (t, r) (k_hist k) -> ~ ok_code (r_code r)) /\
  (k_n k <> 0%nat -> exists e', e = Some e' /\
     (from_answer e' -> exists t r l, k_hist k = (t, r) :: l /\ tells e' r)).
Proof. exact (send_failure_pf rc s u k e). Qed.
Print Assumptions send_failure.

(** The server gets the request at most num_iterations times (times the retry count). *)
Theorem send_bounded rc s u k :
  reachable (step rc) st0 s -> user_call (p_users s u) = Some k ->
  (length (k_hist k) <= k_n k)%nat /\ (k_got k <= rc * k_n k)%nat.
Proof. exact (send_bounded_pf rc s u k). Qed.
Print Assumptions send_bounded.

(** A request is only repeated after an answer that does not settle the matter, and after a request
    for credentials only with a newer token. *)
Theorem send_resigned rc s u k a t2 r2 b t1 r1 c :
  reachable (step rc) st0 s -> user_call (p_users s u) = Some k ->
  k_hist k = a ++ (t2, r2) :: b ++ (t1, r1) :: c ->
  ~ final r1 /\ t1 <= t2 /\ (challenge r1 -> t1 < t2).
Proof. exact (send_resigned_pf rc s u k a t2 r2 b t1 r1 c). Qed.
Print Assumptions send_resigned.

(** If network and server work, a call whose number of iterations exceeds the number of idle
    connections the server has closed succeeds. *)
Theorem send_healthy_partial s u k b :
  runs polite 1 st0 s -> p_users s u = Run k -> k_h k = None -> (stale s < k_left k)%nat ->
  exists m s' k', (m <= k_left k)%nat /\
    exec (step 1) s (repeat (Attempt u (healthy (ok_resp b))) m) = Next s' /\
    p_users s' u = Got k' (Some (k_req k)) (ok_resp b).
Proof. exact (send_healthy_pf s u k b). Qed.
Print Assumptions send_healthy_partial.

(** With three idle connections that the server has closed, Send(3) fails although the server would
    accept a new connection: the request never reaches it. *)
Definition stale_ops : list op :=
  [Begin 0 1 3 0 Valid; Begin 1 2 3 0 Valid; Begin 2 3 3 0 Valid;
   Attempt 0 (healthy (ok_resp 0)); Attempt 1 (healthy (ok_resp 0)); Attempt 2 (healthy (ok_resp 0));
   Drop 0; Drop 1; Drop 2; ServerClose 0; ServerClose 1; ServerClose 2;
   Begin 0 4 3 0 Valid].
Theorem send_stale_refuted : exists s k,
  runs polite 1 st0 s /\ p_users s 0%nat = Run k /\ k_left k = 3%nat /\ k_hist k = [] /\
  exists s' k', exec (step 1) s (repeat (Attempt 0 (healthy (ok_resp 0))) 4) = Next s' /\
    p_users s' 0%nat = Ended k' (Some EClosed) /\ k_got k' = 0%nat.
Proof.
  eexists. eexists. split; [|split; [|split; [|split]]].
  - runs_from stale_ops. unfold stale_ops, polite. check_ops.
  - vm_compute. reflexivity.
  - reflexivity.
  - reflexivity.
  - eexists. eexists. split; [vm_compute; reflexivity|]. split; vm_compute; reflexivity.
Qed.
Print Assumptions send_stale_refuted.

(** Send(0) returns success and has sent nothing. *)
Theorem send_zero_refuted : exists s k,
  reachable (step 1) st0 s /\ p_users s 0%nat = Ended k None /\ k_got k = 0%nat.
Proof.
  eexists. eexists. split; [|split].
  - exists [Begin 0 7 0 0 Valid; Attempt 0 (healthy (ok_resp 0))]. vm_compute. reflexivity.
  - vm_compute. reflexivity.
  - reflexivity.
Qed.
Print Assumptions send_zero_refuted.

(** ** C59 *)

(** No CHECK of the pool fails. *)
Theorem pool_safe rc : safe (step rc) st0.
Proof. exact (pool_safe_pf rc). Qed.
Print Assumptions pool_safe.

(** No connection has two owners; idle ones are connected and nobody's. *)
Theorem pool_exclusive rc s : reachable (step rc) st0 s ->
  NoDup (p_avail s) /\
  (forall i, In i (p_avail s) -> c_open (conn_at s i) = true /\ forall u, ~ holds s u i) /\
  (forall u v i, holds s u i -> holds s v i -> u = v).
Proof. exact (pool_exclusive_pf rc s). Qed.
Print Assumptions pool_exclusive.

(** handles_count() is the number of clients that exist, and these are the idle ones and those
    that somebody has: none is leaked. *)
Theorem pool_count rc s : reachable (step rc) st0 s ->
  p_existing s = Z.of_nat (length (live s)) /\
  forall i c, nth_error (p_conns s) i = Some c ->
    c_del c = false <-> In i (p_avail s) \/ exists u, holds s u i.
Proof. exact (pool_count_pf rc s). Qed.
Print Assumptions pool_count.

(** ** Non-vacuity *)

(** A call that meets a closed connection, a 503, an expired token and then succeeds. *)
Definition busy_ops : list op :=
  [Begin 0 1 3 0 Valid; Attempt 0 (healthy (ok_resp 0)); Drop 0; ServerClose 0;
   Begin 1 5 4 0 Valid;
   Attempt 1 (healthy (ok_resp 0));
   Attempt 1 (healthy (mkResp 503 false false 20 true));
   Attempt 1 (healthy (mkResp 401 true false 10 false));
   Attempt 1 (healthy (ok_resp 6));
   Read 1 6].
Example send_met : exists s k r,
  runs polite 1 st0 s /\ p_users s 1%nat = Got k (Some 5) r /\ k_req k = 5 /\ k_got k = 3%nat /\
  map fst (k_hist k) = [1; 0; 0] /\ map (fun x => r_code (snd x)) (k_hist k) = [200; 401; 503] /\
  p_existing s = 2%Z /\ length (p_conns s) = 3%nat /\ p_avail s = [2]%nat.
Proof.
  eexists. eexists. eexists. split; [|split].
  - runs_from busy_ops. unfold busy_ops, polite. check_ops.
  - vm_compute. reflexivity.
  - vm_compute. repeat split.
Qed.

(** The hypotheses of [send_healthy_partial]: two closed connections, three iterations. *)
Example send_healthy_met : exists s k,
  runs polite 1 st0 s /\ p_users s 0%nat = Run k /\ k_h k = None /\ k_left k = 3%nat /\ stale s = 2%nat.
Proof.
  eexists. eexists. split; [|split].
  - runs_from [Begin 0 1 3 0 Valid; Begin 1 2 3 0 Valid; Begin 2 3 3 0 Valid;
     Attempt 0 (healthy (ok_resp 0)); Attempt 1 (healthy (ok_resp 0)); Attempt 2 (healthy (ok_resp 0));
     Drop 0; Drop 1; Drop 2; ServerClose 0; ServerClose 1; Begin 0 4 3 0 Valid].
    unfold polite. check_ops.
  - vm_compute. reflexivity.
  - vm_compute. repeat split.
Qed.

Example send_failure_met : exists s k,
  reachable (step 1) st0 s /\ p_users s 0%nat = Ended k (Some ENoEntry) /\ k_n k = 3%nat.
Proof.
  eexists. eexists. split; [|split].
  - exists [Begin 0 7 3 0 Valid; Attempt 0 (healthy (mkResp 404 false false 9 true))]. vm_compute. reflexivity.
  - vm_compute. reflexivity.
  - reflexivity.
Qed.
