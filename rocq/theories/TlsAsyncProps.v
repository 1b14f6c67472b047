(** C65: the callback API of TLS sockets. *)
From Verif Require Import Util Conc TlsModel TlsSpec TlsAsyncModel TlsAsyncSpec TlsAsyncProof.
Open Scope N_scope.

(** Writes. If reading never needs writing and writing never needs reading, what was sent and what waits
    to be sent are a prefix of the stream, of the reported length plus what the outstanding write has
    pushed. *)
Theorem async_write_stream_partial U rx ls s : Forall agood ls -> Forall calm_writes ls -> Forall calm_reads ls ->
  exec (astep U) (ainit rx) ls = Next s ->
  exists m, apps (a_wire s ++ aout s) = take m U /\ awrote (a_log s) <= m <= len U
    /\ (~ astopped (a_log s) -> m = awrote (a_log s) + ataken s).
Proof. exact (async_write_stream_pf U rx ls s). Qed.
Print Assumptions async_write_stream_partial.

(** Then a callback that reports bytes is called when they have been sent. *)
Theorem async_flushed_partial U rx ls s : Forall agood ls -> Forall calm_writes ls -> Forall calm_reads ls ->
  exec (astep U) (ainit rx) ls = Next s -> ~ astopped (a_log s) -> a_wr s = None ->
  apps (a_wire s) = take (awrote (a_log s)) U.
Proof. exact (async_flushed_pf U rx ls s). Qed.
Print Assumptions async_flushed_partial.

(** Reads. If writing never needs reading, the callbacks get, in order, the bytes that the network
    delivers. *)
Theorem async_read_stream_partial U rx ls s : Forall agood ls -> Forall calm_writes ls ->
  exec (astep U) (ainit rx) ls = Next s ->
  exists con, rx = con ++ e_in (a_e s) ++ a_rx s /\ iapps con = areads (a_log s) /\ ~ In IZ con.
Proof. exact (async_read_stream_pf U rx ls s). Qed.
Print Assumptions async_read_stream_partial.

(** A callback that reports the end: the peer has sent close_notify, and every byte before was
    delivered. *)
Theorem async_no_truncation_partial U rx ls s : Forall agood ls -> Forall calm_writes ls ->
  exec (astep U) (ainit rx) ls = Next s -> aeof (a_log s) ->
  exists before after, rx = before ++ IZ :: after /\ ~ In IZ before /\ areads (a_log s) = iapps before.
Proof. exact (async_no_truncation_pf U rx ls s). Qed.
Print Assumptions async_no_truncation_partial.

(** No check fails, whatever the engine asks for. *)
Theorem async_safe U rx ls : Forall agood ls -> exec (astep U) (ainit rx) ls <> Ub.
Proof. exact (async_safe_pf U rx ls). Qed.
Print Assumptions async_safe.

(** A request whose callback was not called yet is in an operation of the upstream socket, or waits for the
    other request, which is. *)
Theorem async_no_hang U rx ls s r : Forall agood ls -> exec (astep U) (ainit rx) ls = Next s -> req_of r s <> None ->
  in_flight r s \/ a_blk s = Some r /\ in_flight (peer r) s.
Proof. exact (async_no_hang_pf U rx ls s r). Qed.
Print Assumptions async_no_hang.

(** It is resumed at the end of that operation: it goes on waiting only while the other one has more to
    write. *)
Theorem async_resumed U rx ls s r l s' : Forall agood ls -> exec (astep U) (ainit rx) ls = Next s -> a_blk s = Some r ->
  astep U s l = Next s' -> a_blk s' = Some r -> owner (a_uw s') = Some (peer r).
Proof. exact (async_resumed_pf U rx ls s r l s'). Qed.
Print Assumptions async_resumed.

Definition r0 : rch := mkR 0 9 false false.
Definition x0 : ech := mkX [] r0.
Definition up n : ych := mkY x0 x0 (NOk n) [].

(** A write of which the engine takes a part, in two upstream writes; a read that waits for them to end,
    then for the network; the end. *)
Definition run_c : list alab :=
  [AWrite [2; 3] [mkW 1 (WAccept 4)]; ARead 2 r0; UpWrite (up 3); UpWrite (up 9); UpRead (up 9); ARead 5 r0; ARead 5 r0].
Example async_calm_met :
  Forall agood run_c /\ Forall calm_writes run_c /\ Forall calm_reads run_c /\
  obs (fun s => (a_blk s, a_uw s)) (exec (astep [1; 2; 3; 4; 5]) (ainit [IC; IA 7; IA 8; IA 9; IZ]) (firstn 3 run_c))
    = Some (Some Reader, Some (Writer, 2)) /\
  obs (fun s => (apps (a_wire s), a_log s)) (exec (astep [1; 2; 3; 4; 5]) (ainit [IC; IA 7; IA 8; IA 9; IZ]) run_c)
    = Some ([1; 2; 3; 4], [AW 4; AR 2 [7; 8]; AR 5 [9]; AR 5 []]).
Proof.
  split; [repeat constructor|]. split; [repeat (constructor; [cbn; auto; repeat constructor; try discriminate|]); constructor|].
  split; [repeat (constructor; [cbn; unfold calm_r; cbn; auto|]); constructor|]. split; vm_compute; reflexivity.
Qed.

(** In general the stream is not what is sent: a write that finds the reader sending an answer of the
    protocol waits, and all its bytes are then given to the engine again, and sent twice. All calls succeed. *)
Theorem async_write_twice_refuted :
  exists U rx ls s, Forall agood ls /\ Forall calm_writes ls /\ exec (astep U) (ainit rx) ls = Next s /\
    a_log s = [AW 2] /\ U = [1; 2; 3] /\ apps (a_wire s) = [1; 2; 1; 2].
Proof.
  exists [1; 2; 3], [], [ARead 5 (mkR 1 9 false false); AWrite [2] []; UpWrite (up 9); UpWrite (up 9); UpWrite (up 9)].
  eexists. split; [repeat constructor|]. split; [repeat (constructor; [cbn; auto|]); constructor|].
  split; [vm_compute; reflexivity|]. split; [reflexivity|]. split; reflexivity.
Qed.
Print Assumptions async_write_twice_refuted.

(** Nor is what is read: a write that needs to read and waits for the reader is resumed before the
    received bytes are committed, and reads into the same place. The reader gets what happens to be in the buffer. *)
Theorem async_read_garbled_refuted :
  exists U rx ls s, Forall agood ls /\ Forall calm_reads ls /\ exec (astep U) (ainit rx) ls = Next s /\
    rx = [IA 1; IA 2] /\ areads (a_log s) = [1; 99] /\ ~ astopped (a_log s).
Proof.
  exists [5], [IA 1; IA 2],
    [ARead 1 r0; AWrite [1] [mkW 0 (WOp NeedR)];
     UpRead (mkY (mkX [mkW 0 (WOp NeedR)] r0) x0 (NOk 1) []); UpRead (mkY x0 x0 (NOk 1) [IA 99]); ARead 1 r0].
  eexists. split; [repeat constructor|]. split; [repeat (constructor; [cbn; unfold calm_r; cbn; auto|]); constructor|].
  split; [vm_compute; reflexivity|]. split; [reflexivity|]. split; [reflexivity|].
  cbv. intuition discriminate.
Qed.
Print Assumptions async_read_garbled_refuted.

(** If the engine reports a closed connection to a write, the callback gets success, with 0 bytes of a
    nonempty buffer. *)
Theorem async_write_zero_refuted :
  exists U ls s, Forall agood ls /\ Forall calm_writes ls /\ Forall calm_reads ls /\
    exec (astep U) (ainit []) ls = Next s /\ a_log s = [AW 0].
Proof.
  exists [5], [AWrite [1] [mkW 0 (WOp Graceful)]]. eexists. split; [repeat constructor|].
  split; [repeat constructor; discriminate|]. split; [repeat constructor|]. split; [vm_compute; reflexivity|]. reflexivity.
Qed.
Print Assumptions async_write_zero_refuted.

(** A read into an empty buffer: the callback is never called. *)
Theorem async_empty_read_refuted U rx ch :
  exists s, exec (astep U) (ainit rx) [ARead 0 ch] = Next s /\ req_of Reader s <> None /\ a_log s = []
    /\ ~ in_flight Reader s /\ a_blk s = None /\ forall c, astep U s (UpWrite c) = Stuck /\ astep U s (UpRead c) = Stuck.
Proof.
  eexists. split; [reflexivity|]. split; [discriminate|]. split; [reflexivity|].
  split; [intros [X|X]; discriminate|]. split; [reflexivity|]. intros c. split; reflexivity.
Qed.
Print Assumptions async_empty_read_refuted.
