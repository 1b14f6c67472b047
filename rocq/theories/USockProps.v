(** Sockets on io_uring (C79). *)
From Verif Require Import Util Conc USockModel USockSpec USockProof.
Local Open Scope Z_scope.

(** As long as the user keeps to the rules of [calm], nothing undefined happens. *)
Theorem usock_safe : safe cstep init.
Proof. exact usock_safe_pf. Qed.

(** What the kernel sent on a connection is exactly what the results of the writes on the socket
    that had it open say, in the order of the results: nothing twice, nothing lost, nothing of
    another connection. *)
Theorem usock_out x f : reachable cstep init x -> sent x f = sent_by (calls x) f (log x).
Proof. exact (usock_out_pf x f). Qed.

(** What came in on a connection is what its reads returned, in order, and what waits. *)
Theorem usock_in x f : reachable cstep init x -> arrived x f = got_by (calls x) f (log x) ++ inq x f.
Proof. exact (usock_in_pf x f). Qed.

(** Every call is waiting and has no result, or is over and has exactly one. *)
Theorem usock_once x i : reachable cstep init x -> (i < length (calls x))%nat ->
  (waiting x i /\ answers x i = []) \/ (~ waiting x i /\ exists r, answers x i = [r]).
Proof. exact (usock_once_pf x i). Qed.

(** No waiting call is forgotten: its next step is always possible, whatever error ends it. *)
Theorem usock_alive x i e : reachable cstep init x -> waiting x i -> 0 < e ->
  (exists y, cstep x (LSubmit i) = Next y) \/ (exists y, cstep x (LDone i (- e)) = Next y) \/
  (exists y, cstep x (LAccept4 i (- e) 0) = Next y).
Proof. exact (usock_alive_pf x i e). Qed.

(** The connection of a waiting call is still open, and still the one behind its socket. *)
Theorem usock_waiting x i c : reachable cstep init x -> waiting x i -> nth_error (calls x) i = Some c ->
  exists fd, owns x (c_sock c) fd /\ fdt x fd = c_file c /\ c_file c <> None.
Proof. exact (usock_waiting_pf x i c). Qed.

(** Every open descriptor is other code's, or belongs to exactly one socket (nothing leaks), and
    the descriptor of a socket is open. *)
Theorem usock_fds x : reachable cstep init x ->
  (forall fd, fdt x fd <> None ->
     (ext x fd = true /\ forall s, ~ owns x s fd) \/
     (ext x fd = false /\ exists s, owns x s fd /\ forall s', owns x s' fd -> s' = s)) /\
  (forall s fd, owns x s fd -> fdt x fd <> None).
Proof. exact (usock_fds_pf x). Qed.

(** Different descriptors are different connections. *)
Theorem usock_files x a b : reachable cstep init x -> fdt x a <> None -> fdt x a = fdt x b -> a = b.
Proof. exact (usock_files_pf x a b). Qed.

(** Close closes the descriptor of the socket and no other; a second Close does nothing. *)
Theorem usock_close x s y : reachable cstep init x -> cstep x (LClose s) = Next y ->
  (forall fd, owns x s fd -> fdt x fd <> None /\ fdt y fd = None /\ forall fd', fd' <> fd -> fdt y fd' = fdt x fd') /\
  ((forall fd, ~ owns x s fd) -> y = x) /\
  (forall fd, ~ owns y s fd) /\
  (forall s' fd, s' <> s -> (owns y s' fd <-> owns x s' fd)).
Proof. exact (usock_close_pf x s y). Qed.

(** Shutdown marks the socket and changes nothing else about it; *)
Theorem usock_shutdown_sets x s y w : step x (LShutdown s) = Next y -> socks x s = Some w -> 0 <= w ->
  exists w', socks y s = Some w' /\ is_shut w' = true /\ shifted w' = shifted w /\ is_uds w' = is_uds w.
Proof. exact (usock_shutdown_sets_pf x s y w). Qed.
(** the mark stays until the socket is opened again; *)
Theorem usock_shut_stays x l y s w : step x l = Next y -> socks x s = Some w -> is_shut w = true ->
  match l with
  | LCreate t _ _ | LConnect t _ | LBind t _ _ | LDestroy t => t <> s
  | _ => True
  end -> exists w', socks y s = Some w' /\ is_shut w' = true.
Proof. exact (usock_shut_stays_pf x l y s w). Qed.
(** and with it writes, and reads other than Recv, fail at once and touch nothing. Missing: Recv,
    see usock_recv_refuted. *)
Theorem usock_shutdown_partial x s w k d cap : socks x s = Some w -> is_shut w = true ->
  (k = KWrite \/ k = KAsyncWrite \/ k = KAsyncRead \/ exists dw, k = KRecvMsg dw) ->
  exists y, step x (LStart s k d cap) = Next y /\
    answers y (length (calls x)) = answers x (length (calls x)) ++ [RErr ECONNABORTED] /\
    sent y = sent x /\ inq y = inq x /\ fdt y = fdt x /\ socks y = socks x /\
    (forall q, In q (pend y) -> In q (pend x)).
Proof. exact (usock_shutdown_partial_pf x s w k d cap). Qed.
Theorem usock_try_shutdown x s w k d cap r : socks x s = Some w -> is_shut w = true -> k = KTrySend \/ k = KTryRecv ->
  exists y, step x (LTry s k d cap r) = Next y /\
    answers y (length (calls x)) = answers x (length (calls x)) ++
      [RErr (match k with KTrySend => EPIPE | _ => ECONNABORTED end)] /\
    sent y = sent x /\ inq y = inq x.
Proof. exact (usock_try_shutdown_pf x s w k d cap r). Qed.

(** Blocking writes, and blocking reads without MSG_DONTWAIT, never fail with EAGAIN. *)
Theorem usock_errors x i e c : reachable cstep init x -> In e (answers x i) -> nth_error (calls x) i = Some c ->
  c_kind c = KWrite \/ c_kind c = KRecv false \/ c_kind c = KRecvMsg false -> e <> RErr EAGAIN.
Proof. exact (usock_errors_pf x i e c). Qed.

(** Descriptors below 2^27 fit in the word with their flags, and come back out. *)
Theorem usock_word fd (uds : bool) : 0 <= fd < 2 ^ 27 ->
  let w := pack fd (if uds then IS_UDS else 0) in
  0 <= w < 2 ^ 31 /\ shifted w = fd /\ is_shut w = false /\ is_uds w = uds /\
  let v := Z.lor w IS_SHUTDOWN in
  0 <= v < 2 ^ 31 /\ shifted v = fd /\ is_shut v = true /\ is_uds v = uds.
Proof. exact (usock_word_pf fd uds). Qed.

(** An accepted socket has the new descriptor, is not shut down, even if the listener is, and is a
    Unix socket if the listener is. *)
Theorem usock_accepted x i r s' y q w : step x (LAccept4 i r s') = Next y -> 0 <= r ->
  find_req x i = Some q -> socks x (q_sock q) = Some w ->
  exists v, socks y s' = Some v /\ shifted v = r /\ is_shut v = false /\ is_uds v = is_uds w /\
    fdt x r = None /\ fdt y r = Some (nfile x).
Proof. exact (usock_accepted_pf x i r s' y q w). Qed.

(** ** What does not hold *)

Definition from (stp : st -> label -> outcome st) (x : st) (ls : list label) : st :=
  match exec stp x ls with Next y => y | _ => init end.
Definition goes (stp : st -> label -> outcome st) (x : st) (ls : list label) : bool :=
  match exec stp x ls with Next _ => true | _ => false end.
Lemma from_ok stp x ls : goes stp x ls = true -> exec stp x ls = Next (from stp x ls).
Proof. unfold goes, from. now destruct (exec stp x ls). Qed.
Lemma from_reach stp ls : goes stp init ls = true -> reachable stp init (from stp init ls).
Proof. intros H. exists ls. now apply from_ok. Qed.
Notation runs := (from cstep init).
Notation runs_any := (from step init).

(** A socket that is connected and was shut down. *)
Definition shut_run : list label :=
  [LNew 0; LConnect 0 5; LSubmit 0; LDone 0 0; LShutdown 0; LPeer 0 [7; 8; 9]%N].
(** Recv, and so ReadSome of one buffer, does not test for it: it waits, or returns data, where
    ReadSome of two buffers fails. *)
Theorem usock_recv_refuted : exists x y w,
  reachable cstep init x /\ socks x 0 = Some w /\ is_shut w = true /\
  exec cstep x [LStart 0 (KRecv false) [] 4; LSubmit 1; LDone 1 3] = Next y /\
  answers y 1 = [RGot [7; 8; 9]%N].
Proof.
  exists (runs shut_run), (from cstep (runs shut_run) [LStart 0 (KRecv false) [] 4; LSubmit 1; LDone 1 3]), 81.
  split; [apply from_reach; vm_compute; reflexivity|].
  repeat apply conj; [..|apply from_ok|]; vm_compute; reflexivity.
Qed.

(** AsyncWriteSome passes EAGAIN on to its callback, where WriteSome tries again. *)
Theorem usock_async_refuted : exists x, reachable cstep init x /\
  answers x 1 = [RErr EAGAIN] /\ option_map c_kind (nth_error (calls x) 1) = Some KAsyncWrite.
Proof.
  set (ls := [LNew 0; LConnect 0 5; LSubmit 0; LDone 0 0; LStart 0 KAsyncWrite [1]%N 0; LSubmit 1; LDone 1 (-11)]).
  exists (runs ls). split; [apply from_reach; vm_compute; reflexivity|]. split; vm_compute; reflexivity.
Qed.

(** A socket closed between AsyncWriteSome and the submission of its request: the bytes go out on
    the connection that got the descriptor next. *)
Theorem usock_reuse_refuted : exists x, reachable step init x /\
  option_map c_sock (nth_error (calls x) 1) = Some 0%nat /\ answers x 1 = [RSent 3] /\
  owns x 1 5 /\ (exists f, fdt x 5 = Some f /\ sent x f = [1; 2; 3]%N /\ sent_by (calls x) f (log x) = []).
Proof.
  set (ls := [LNew 0; LConnect 0 5; LSubmit 0; LDone 0 0; LStart 0 KAsyncWrite [1; 2; 3]%N 0; LClose 0;
              LNew 1; LCreate 1 false 5; LSubmit 1; LDone 1 3]).
  exists (runs_any ls). split; [apply from_reach; vm_compute; reflexivity|]. repeat apply conj; try (vm_compute; reflexivity).
  - exists 80. repeat apply conj; try (vm_compute; reflexivity). discriminate.
  - exists 1%nat. repeat apply conj; vm_compute; reflexivity.
Qed.

(** After a Connect that failed the socket still has its descriptor, and another Connect kills the
    process, unless Close is called first. *)
Theorem usock_connect_refuted : exists x, reachable cstep init x /\
  answers x 0 = [RErr 111] /\ length (calls x) = 1%nat /\ owns x 0 5 /\
  (forall r, step x (LConnect 0 r) = Ub) /\
  exists y, cstep x (LClose 0) = Next y /\ cstep y (LConnect 0 5) <> Ub.
Proof.
  set (ls := [LNew 0; LConnect 0 5; LSubmit 0; LDone 0 (-111)]).
  exists (runs ls). split; [apply from_reach; vm_compute; reflexivity|].
  repeat apply conj; try (vm_compute; reflexivity).
  - exists 80. repeat apply conj; try (vm_compute; reflexivity). discriminate.
  - exists (from cstep (runs ls) [LClose 0]). split.
    + assert (E : exec cstep (runs ls) [LClose 0] = Next (from cstep (runs ls) [LClose 0])) by (apply from_ok; vm_compute; reflexivity).
      cbn [exec] in E. destruct (cstep (runs ls) (LClose 0)); try discriminate. exact E.
    + intros E. assert (G : goes cstep (from cstep (runs ls) [LClose 0]) [LConnect 0 5] = true) by (vm_compute; reflexivity).
      unfold goes in G. cbn [exec] in G. rewrite E in G. discriminate.
Qed.

(** The word holds 128M descriptors, not the 256M of the comment: the next one overflows int32_t. *)
Theorem usock_word_refuted : ~ pack (2 ^ 27) 0 < 2 ^ 31.
Proof. rewrite pack_add by lia. lia. Qed.

(** ** The hypotheses are met *)
Definition busy_run : list label :=
  [LNew 0; LCreate 0 true 3; LBind 0 0 0; LListen 0 0; LAccept 0; LAccept4 0 (-11) 1; LSubmit 0; LDone 0 1;
   LAccept4 0 4 1; LExtOpen 7; LNew 2; LConnect 2 5; LSubmit 1; LDone 1 0;
   LStart 1 KWrite [1; 2; 3]%N 0; LStart 2 KAsyncWrite [9; 8]%N 0; LSubmit 3; LSubmit 2; LDone 2 (-11); LDone 3 1;
   LPeer 1 [5; 6]%N; LStart 1 (KRecv false) [] 1; LSubmit 2; LSubmit 4; LDone 2 2; LDone 4 1;
   LTry 2 KTrySend [8]%N 0 1; LStart 1 (KRecvMsg true) [] 8; LSubmit 6; LDone 6 (-11); LAccept 0].
Example usock_met : exists x, reachable cstep init x /\
  sent x 1 = [1; 2]%N /\ sent x 3 = [9; 8]%N /\ arrived x 1 = [5; 6]%N /\ inq x 1 = [6]%N /\
  answers x 0 = [RSock 1] /\ answers x 6 = [RErr EAGAIN] /\
  waiting x 7 /\ owns x 0 3 /\ owns x 1 4 /\ owns x 2 5 /\ ext x 7 = true /\
  exists y, exec cstep x [LClose 1; LDestroy 2; LShutdown 0; LAccept4 7 (-11) 9; LSubmit 7; LDone 7 25] = Next y /\
    fdt y 4 = None /\ fdt y 5 = None /\ answers y 7 = [RErr ECONNABORTED].
Proof.
  exists (runs busy_run). split; [apply from_reach; vm_compute; reflexivity|].
  assert (O : forall s w fd, socks (runs busy_run) s = Some w -> 0 <= w -> shifted w = fd -> owns (runs busy_run) s fd)
    by (intros s w fd H1 H2 H3; exact (ex_intro _ w (conj H1 (conj H2 H3)))).
  repeat apply conj; try (vm_compute; reflexivity).
  - apply waiting_in. vm_compute. auto.
  - apply (O 0%nat 50); [vm_compute; reflexivity|discriminate|reflexivity].
  - apply (O 1%nat 66); [vm_compute; reflexivity|discriminate|reflexivity].
  - apply (O 2%nat 80); [vm_compute; reflexivity|discriminate|reflexivity].
  - eexists. split; [apply from_ok; vm_compute; reflexivity|]. repeat apply conj; vm_compute; reflexivity.
Qed.
Example usock_word_met : pack 1000 IS_UDS = 16002 /\ shifted 16002 = 1000 /\ Z.lor 16002 IS_SHUTDOWN = 16003.
Proof. repeat apply conj; reflexivity. Qed.

Print Assumptions usock_safe.
Print Assumptions usock_out.
Print Assumptions usock_in.
Print Assumptions usock_once.
Print Assumptions usock_alive.
Print Assumptions usock_waiting.
Print Assumptions usock_fds.
Print Assumptions usock_files.
Print Assumptions usock_close.
Print Assumptions usock_shutdown_sets.
Print Assumptions usock_shut_stays.
Print Assumptions usock_shutdown_partial.
Print Assumptions usock_try_shutdown.
Print Assumptions usock_errors.
Print Assumptions usock_word.
Print Assumptions usock_accepted.
Print Assumptions usock_recv_refuted.
Print Assumptions usock_async_refuted.
Print Assumptions usock_reuse_refuted.
Print Assumptions usock_connect_refuted.
Print Assumptions usock_word_refuted.
