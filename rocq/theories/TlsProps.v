(** C62, C63, C64: TLS sockets. *)
From Verif Require Import Util Conc TlsModel TlsSpec TlsProof.
Open Scope N_scope.

(** ** C62: what is written is what the peer decrypts *)

(** Whatever the engine, the network and the scheduler do: what was sent and what waits to be sent are
    a prefix of the stream, of the reported length plus what the current call has pushed. *)
Theorem tls_write_stream U rx ls s : exec (step U) (init rx) ls = Next s ->
  exists m, apps (s_wire s ++ out s) = take m U /\ wrote (s_log s) <= m <= len U
    /\ (~ In WroteErr (s_log s) -> m = wrote (s_log s) + taken (s_w s)).
Proof. exact (tls_write_stream_pf U rx ls s). Qed.
Print Assumptions tls_write_stream.

(** If the last write call was complete, the upstream socket has not failed and no write is in
    progress, all reported bytes have been sent. *)
Theorem tls_flushed U rx ls s : exec (step U) (init rx) ls = Next s ->
  complete (s_log s) = true -> s_w s = Idle -> (forall t, sending (pc_of t s) = false) -> s_fail s = false ->
  apps (s_wire s) = take (wrote (s_log s)) U.
Proof. exact (tls_flushed_pf U rx ls s). Qed.
Print Assumptions tls_flushed.

Definition c0 : ch := mkCh [] (mkR 0 9 false false) (NOk 100).
(** WriteSome of two buffers where the engine takes four bytes of five and emits a token of its own;
    then TrySend of the rest, which leaves the flush to the background; then the flush. *)
Definition run_w : list lab :=
  [CallWrite [2; 3]; Step W (mkCh [mkW 1 (WAccept 4)] (mkR 0 0 false false) NAgain);
   Step W c0; Step W c0; Step W c0;
   CallTrySend [1; 2] [mkT NAgain [mkW 0 (WAccept 9)] (mkR 0 0 false false) NAgain; mkT NAgain [] (mkR 0 0 false false) NAgain]].
Example tls_write_met :
  obs (fun s => (s_wire s, s_log s, pc_of D s)) (exec (step [1; 2; 3; 4; 5; 6; 7; 8]) (init []) run_w)
    = Some ([C; A 1; A 2; A 3; A 4], [Wrote 4; TrySent 3 3], Send 3 KDrain)
  /\ obs (fun s => (apps (s_wire s), s_log s, pc_of D s, complete (s_log s), s_fail s))
       (exec (step [1; 2; 3; 4; 5; 6; 7; 8]) (init []) (run_w ++ [Step D (mkCh [] (mkR 0 0 false false) (NOk 2)); Step D c0]))
    = Some ([1; 2; 3; 4; 5; 6; 7], [Wrote 4; TrySent 3 3], Idle, true, false).
Proof. split; vm_compute; reflexivity. Qed.

(** A call with an empty buffer may abort the process. *)
Theorem tls_empty_write_refuted :
  exists U lens1 lens2 its c, total lens1 <= len U /\ total lens2 <= len U /\
    exec (step U) (init []) [CallWrite lens1; Step W c] = Ub /\
    exec (step U) (init []) [CallWrite lens2; Step W c] = Ub /\
    exec (step U) (init []) [CallTrySend lens2 its] = Ub.
Proof.
  exists (repeat 7 (N.to_nat 1393)), [0; 1393], [1392; 0], [mkT NAgain [] (mkR 0 0 false false) NAgain], c0.
  split; [vm_compute; discriminate|]. split; [vm_compute; discriminate|].
  split; [vm_compute; reflexivity|]. split; vm_compute; reflexivity.
Qed.
Print Assumptions tls_empty_write_refuted.

(** A TrySend that reports EAGAIN is not without effect: a shorter TrySend after it breaks the
    connection, although the network is fine. *)
Theorem tls_retry_refuted :
  exists U l1 l2,
    obs (fun s => (s_log s, e_dead (s_e s))) (exec (step U) (init []) [l1]) = Some ([TrySentErr Again], false) /\
    obs (fun s => (s_log s, e_dead (s_e s), s_fail s)) (exec (step U) (init []) [l1; l2])
      = Some ([TrySentErr Again; TrySentErr Broken], true, false).
Proof.
  exists [1; 2; 3],
    (CallTrySend [3] [mkT NAgain [mkW 1 (WWant 3)] (mkR 0 0 false false) NAgain; mkT NAgain [] (mkR 0 0 false false) NAgain]),
    (CallTrySend [2] [mkT (NOk 9) [] (mkR 0 0 false false) NAgain]).
  split; vm_compute; reflexivity.
Qed.
Print Assumptions tls_retry_refuted.

(** ** C63: what is read is what the peer wrote *)

(** The results of the reads, in order, are the bytes of a prefix of what the network delivers;
    nothing is dropped between what was read and what is still buffered or on its way, and no byte
    after a close_notify is ever returned. *)
Theorem tls_read_stream U rx ls s : exec (step U) (init rx) ls = Next s ->
  exists con, rx = con ++ e_in (s_e s) ++ s_rx s /\ iapps con = reads (s_log s) ++ got_of (s_r s) /\ ~ In IZ con.
Proof. exact (tls_read_stream_pf U rx ls s). Qed.
Print Assumptions tls_read_stream.

(** A read that reports the end of the stream: the peer has sent close_notify, and every byte before it
    was returned. Cutting the connection does not look like an end. *)
Theorem tls_no_truncation U rx ls s : exec (step U) (init rx) ls = Next s -> eof_seen (s_log s) ->
  exists before after, rx = before ++ IZ :: after /\ ~ In IZ before /\ reads (s_log s) = iapps before.
Proof. exact (tls_no_truncation_pf U rx ls s). Qed.
Print Assumptions tls_no_truncation.

(** A read of three bytes that comes in two records; TryRecv of the next; the end. A connection that is cut
    reports an error. *)
Definition rx0 : list itok := [IC; IA 1; IA 2; IC; IA 3; IA 4; IZ].
Definition cr n : ch := mkCh [] (mkR 0 9 false false) (NOk n).
Definition tr n : tch := mkT (NOk 9) [] (mkR 0 9 false false) n.
Definition run_r : list lab :=
  [CallRead 3 []; Step R (cr 1); Step R (cr 3); Step R (cr 1); Step R (cr 1);
   CallTryRecv 9 [tr (NOk 2); tr (NOk 1); tr NAgain];
   CallRead 1 []; Step R (cr 1); Step R (cr 1); Step R (cr 1)].
Example tls_read_met :
  obs (fun s => s_log s) (exec (step []) (init rx0) run_r) = Some [ReadOk [1; 2]; TryRead 9 [3]; ReadOk [4]]
  /\ obs (fun s => s_log s) (exec (step []) (init rx0) (run_r ++ [CallTryRecv 5 [tr (NOk 9); tr NAgain]]))
     = Some [ReadOk [1; 2]; TryRead 9 [3]; ReadOk [4]; TryRead 5 []]
  /\ obs (fun s => s_log s) (exec (step []) (init rx0)
       [CallRead 3 []; Step R (cr 1); Step R (mkCh [] (mkR 0 9 false false) NEof)]) = Some [ReadErr].
Proof. split; [|split]; vm_compute; reflexivity. Qed.

(** A read into an empty buffer never returns: the fiber spins, whatever the engine and the network do. *)
Theorem tls_zero_read_refuted U rx rest ls : Forall (fun l => exists c, l = Step R c) ls ->
  exists s, exec (step U) (init rx) (CallRead 0 rest :: ls) = Next s /\ s_r s = Run (KRead 0 rest []) /\ s_log s = [].
Proof.
  intros H. change (exec (step U) (init rx) (CallRead 0 rest :: ls))
    with (exec (step U) (with_pc R (Run (KRead 0 rest [])) (init rx)) ls).
  exists (with_pc R (Run (KRead 0 rest [])) (init rx)). split; [|split; reflexivity].
  induction H as [|l ls [c ->] H IH]; [reflexivity|]. exact IH.
Qed.
Print Assumptions tls_zero_read_refuted.

(** ** C64: the fibers of a TLS socket *)

(** Without empty write buffers no check fails: outputs are consumed within bounds, and a background
    write never meets another. *)
Theorem tls_safe U rx ls : Forall good ls -> exec (step U) (init rx) ls <> Ub.
Proof. exact (tls_safe_pf U rx ls). Qed.
Print Assumptions tls_safe.

(** A call in progress can go on, or it waits for another one that is in a call of the upstream socket
    and can go on. *)
Theorem tls_no_deadlock U rx ls s t : exec (step U) (init rx) ls = Next s -> pc_of t s <> Idle ->
  (exists c, step U s (Step t c) <> Stuck) \/
  exists t', t' <> t /\ busy (pc_of t' s) = true /\ exists c, step U s (Step t' c) <> Stuck.
Proof. exact (tls_no_deadlock_pf U rx ls s t). Qed.
Print Assumptions tls_no_deadlock.

(** The writer is in an upstream write, the reader has something to send and waits for it. *)
Definition run_b : list lab :=
  [CallWrite [2]; Step W c0; Step W c0; CallRead 1 []; Step R (mkCh [] (mkR 1 0 true false) NAgain)].
Example tls_wait_met :
  Forall good run_b /\
  obs (fun s => (s_w s, s_r s)) (exec (step [1; 2]) (init []) run_b)
    = Some (Send 2 (KRet 2), WaitW (KRead 1 [] [])).
Proof. split; [repeat constructor|]. vm_compute. reflexivity. Qed.

(** TryRecv reports EAGAIN only if the upstream socket has nothing, or if the engine has output in a
    background write. *)
Theorem tls_try_recv_again U n its s s' : step U s (CallTryRecv n its) = Next s' ->
  s_log s' = s_log s ++ [TryReadErr Again] ->
  s_drain s' = true \/ exists it, In it its /\ t_recv it = NAgain.
Proof. exact (tls_try_recv_again_pf U n its s s'). Qed.
Print Assumptions tls_try_recv_again.

(** In the second case the write is on its way, and the receive callback is called at its end. *)
Theorem tls_wake U rx ls s : exec (step U) (init rx) ls = Next s -> s_drain s = true ->
  sending (s_d s) = true /\
  forall l s', step U s l = Next s' -> s_drain s' = true \/ s_log s' = s_log s ++ [Wake].
Proof. exact (tls_wake_pf U rx ls s). Qed.
Print Assumptions tls_wake.

Definition run_d : list lab :=
  [CallTryRecv 4 [mkT NAgain [] (mkR 3 0 false false) (NOk 1)]].
Example tls_drain_met :
  obs (fun s => (s_log s, s_drain s, s_d s)) (exec (step []) (init [IA 5]) run_d)
    = Some ([TryReadErr Again], true, Send 3 KDrain)
  /\ obs (fun s => (s_log s, s_drain s, s_d s)) (exec (step []) (init [IA 5])
       (run_d ++ [Step D (cr 2); CallTryRecv 4 [tr NAgain]; Step D (cr 1); CallTryRecv 4 [tr (NOk 1); tr NAgain; tr NAgain]]))
    = Some ([TryReadErr Again; TryReadErr Again; Wake; TryRead 4 [5]], false, Idle).
Proof. split; vm_compute; reflexivity. Qed.
