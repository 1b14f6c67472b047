(** C66, C67, C68: sockets of the epoll proactor. *)
From Verif Require Import Util Conc EsockModel EsockSpec EsockProof EsockHook.
Open Scope N_scope.

(** ** C66: who waits is woken. *)

(** No CHECK fails and no pointer of one kind is used as another. *)
Theorem epoll_safe n room s l : (0 <= n)%Z -> run n room s -> polite s l -> step s l <> Ub.
Proof. exact (epoll_safe_pf n room s l). Qed.
Print Assumptions epoll_safe.

(** A fiber blocked in Recv, Accept or WriteSome while the socket is ready: the proactor has an event for
    the socket, that event makes the fiber ready, and its call then returns. *)
Theorem epoll_woken n room s f c t k1 k2 : (0 <= n)%Z -> run n room s -> fib s f = Parked c t -> ready_for c s ->
  exists s1 s2 r l, step s (LEvent k1) = Next s1 /\ step s1 (LResume f k2) = Next s2 /\ hist s2 = hist s ++ l ++ [Ret f c r].
Proof. exact (epoll_woken_pf n room s f c t k1 k2). Qed.
Print Assumptions epoll_woken.

(** The same for an AsyncWriteSome that waits: the event calls its callback. *)
Theorem epoll_async_woken n room s id bs k : (0 <= n)%Z -> run n room s -> wslot s = PAsync id bs -> writable s ->
  exists s' r l1 l2, step s (LEvent k) = Next s' /\ hist s' = hist s ++ l1 ++ [Cb id bs r] ++ l2.
Proof. exact (epoll_async_woken_pf n room s id bs k). Qed.
Print Assumptions epoll_async_woken.

(** Shutdown, however called, wakes every fiber; *)
Theorem epoll_shutdown_wakes n room s rd wr k : (0 <= n)%Z -> run n room s ->
  exists s', step s (LShutdown rd wr k) = Next s' /\ is_shut (fd s') = true /\ forall f c t, fib s' f <> Parked c t.
Proof. exact (epoll_shutdown_wakes_pf n room s rd wr k). Qed.
Print Assumptions epoll_shutdown_wakes.
(** and afterwards no call blocks: those that were blocked return when they are scheduled, new calls return
    at once. *)
Theorem epoll_shut_returns n room s f c k : (0 <= n)%Z -> run n room s -> is_shut (fd s) = true ->
  match fib s f with
  | Idle => True
  | Parked _ _ => False
  | Ready c _ _ => exists s' r, step s (LResume f k) = Next s' /\ hist s' = hist s ++ [Ret f c r]
  end
  /\ (fib s f = Idle -> polite s (LCall f c k) -> exists s' r, step s (LCall f c k) = Next s' /\ hist s' = hist s ++ [Ret f c r]).
Proof. exact (epoll_shut_returns_pf n room s f c k). Qed.
Print Assumptions epoll_shut_returns.
Theorem epoll_close n room s : (0 <= n)%Z -> run n room s -> polite s LClose ->
  exists s', step s LClose = Next s' /\ is_shut (fd s') = true /\ awp s' = false /\ forall f c t, fib s' f <> Parked c t.
Proof. exact (epoll_close_pf n room s). Qed.
Print Assumptions epoll_close.

(** The timer of a blocked call ends it with operation_canceled; *)
Theorem epoll_timeout_returns n room s f c k : (0 <= n)%Z -> run n room s -> fib s f = Parked c true ->
  exists s1 s2, step s (LTimer f) = Next s1 /\ step s1 (LResume f k) = Next s2 /\ hist s2 = hist s ++ [Ret f c (Fail Canceled)] /\ fib s2 f = Idle.
Proof. exact (epoll_timeout_returns_pf n room s f c k). Qed.
Print Assumptions epoll_timeout_returns.
(** no call ends so if no timeout was ever set; and Accept never does. *)
Theorem epoll_no_timeout n room s f c : (0 <= n)%Z -> run_of (fun l => l <> LTimeout true) n room s -> ~ In (Ret f c (Fail Canceled)) (hist s).
Proof. exact (epoll_no_timeout_pf n room s f c). Qed.
Print Assumptions epoll_no_timeout.
Theorem epoll_accept_timeout n room s f : (0 <= n)%Z -> run n room s -> ~ In (Ret f CAccept (Fail Canceled)) (hist s).
Proof. exact (epoll_accept_timeout_pf n room s f). Qed.
Print Assumptions epoll_accept_timeout.

(** Close without Shutdown leaves a blocked call waiting for ever: whatever happens, the fiber does not
    come back unless Shutdown is called on the closed socket. *)
Theorem epoll_close_hang_refuted :
  exists s, exec step (init 3 0) [LCall 0 (CRecv 5) 5; LClose] = Next s /\
  forall ls s', Forall (fun l => match l with LShutdown _ _ _ => False | _ => True end) ls -> exec step s ls = Next s' ->
    fib s' 0%nat = Parked (CRecv 5) false.
Proof.
  eexists. split; [reflexivity|]. intros ls.
  assert (G : forall ls s s', fd s = (-1)%Z /\ armed s = false /\ rhook s = false /\ awp s = false /\ rslot s = PReq 0 /\ (forall f, fib s f = if Nat.eqb f 0 then Parked (CRecv 5) false else Idle) ->
     Forall (fun l => match l with LShutdown _ _ _ => False | _ => True end) ls -> exec step s ls = Next s' -> fib s' 0%nat = Parked (CRecv 5) false).
  { clear ls. induction ls as [|l ls IH]; intros s s' J F E.
    - injection E as <-. destruct J as [_ [_ [_ [_ [_ J]]]]]. exact (J 0%nat).
    - inversion F as [|? ? F1 F2]; subst. cbn [exec] in E. destruct (step s l) as [| |s1] eqn:E1; try discriminate. apply (IH s1 s'); auto. clear IH E F F2.
      destruct J as [J1 [J2 [J3 [J4 [J5 J6]]]]]. assert (Es : is_shut (fd s) = true) by (rewrite J1; reflexivity).
      destruct l as [f c k|f k|f|bs k|m k|id bs k|rd wr k| | | | | |b| |k|bs| | |m|]; try contradiction; cbn [step] in E1.
      + rewrite J6 in E1. destruct (Nat.eqb f 0); try discriminate. destruct c; cbn [start_call] in E1; rewrite ?J1, ?J5 in E1; discriminate.
      + unfold resume in E1. rewrite J6 in E1. destruct (Nat.eqb f 0); discriminate.
      + rewrite J6 in E1. destruct (Nat.eqb f 0); discriminate.
      + unfold try_send in E1. rewrite Es in E1. injection E1 as <-. auto 10.
      + unfold try_recv in E1. rewrite Es in E1. injection E1 as <-. auto 10.
      + unfold async_write, try_send in E1. cbn [fd log] in E1. rewrite Es in E1. injection E1 as <-. auto 10.
      + unfold close in E1. rewrite J1 in E1. injection E1 as <-. auto 10.
      + unfold register_hook in E1. rewrite J1, J3 in E1. discriminate.
      + unfold reset_hook in E1. rewrite J3 in E1. injection E1 as <-. auto 10.
      + injection E1 as <-. auto 10.
      + injection E1 as <-. auto 10.
      + injection E1 as <-. auto 10.
      + destruct (brief s) as [|[[id bs] r] t]; try discriminate. injection E1 as <-. auto 10.
      + unfold event in E1. rewrite J2, andb_false_r in E1. discriminate.
      + destruct (_ || _); try discriminate. injection E1 as <-. auto 10.
      + destruct (_ || _); try discriminate. injection E1 as <-. auto 10.
      + destruct (krst s); try discriminate. injection E1 as <-. auto 10.
      + injection E1 as <-. auto 10.
      + injection E1 as <-. auto 10. }
  intros s'. apply G. repeat split.
Qed.
Print Assumptions epoll_close_hang_refuted.

(** ** C67: bytes and results. *)

(** What reads returned, and then what the kernel still holds, is what arrived. *)
Theorem epoll_recv_stream n room s : (0 <= n)%Z -> run n room s -> karr s = got (hist s) ++ kin s.
Proof. exact (epoll_recv_stream_pf n room s). Qed.
Print Assumptions epoll_recv_stream.
(** What was sent is what writes reported as sent, in order, including what AsyncWriteSome will report. *)
Theorem epoll_write_stream n room s : (0 <= n)%Z -> run n room s -> kout s = sent (hist s) ++ sent_brief (brief s).
Proof. exact (epoll_write_stream_pf n room s). Qed.
Print Assumptions epoll_write_stream.
(** Every way in which a blocking call ends, and why. *)
Theorem epoll_result n room s l s' f c r : (0 <= n)%Z -> run n room s -> polite s l -> step s l = Next s' -> hist s' = hist s ++ [Ret f c r] ->
  match c, r with
  | CRecv m, Got [] => is_shut (fd s) = true \/ (kin s = [] /\ (kfin s = true \/ krst s = true))
  | CRecv m, Got b => len b <= m
  | CAccept, Got b => len b = 1
  | CWrite bs, Sent a => 0 < a <= len bs
  | _, Fail Canceled => exists ec, fib s f = Ready c ec true
  | _, Fail Reset => krst s = true
  | CWrite _, Fail Pipe => is_shut (fd s) = true \/ krst s = true
  | CAccept, Fail Inval => kfin s = true \/ krst s = true
  | CAccept, Fail Aborted => is_shut (fd s) = true \/ krst s = true
  | _, Fail Aborted => krst s = true
  | _, _ => False
  end.
Proof. exact (epoll_result_pf n room s l s' f c r). Qed.
Print Assumptions epoll_result.

(** Runs for examples. *)
Ltac nocall := intros f; destruct f as [|[|[|f]]]; cbn; try (intros []; fail); try discriminate; try tauto.
Ltac pol := cbn [polite]; unfold no_async; repeat match goal with |- _ /\ _ => split end;
  try solve [reflexivity | discriminate | exact Logic.I | nocall | (vm_compute; discriminate) | (left; reflexivity) | (right; split; nocall)].
Ltac go l := match goal with R : run_of ?P ?n ?r ?s |- _ =>
  let s' := eval vm_compute in (match step s l with Next x => x | _ => s end) in
  let X := fresh "R" in
  assert (X : run_of P n r s') by (eapply (run_step P n r s l); [exact R|pol|try exact Logic.I; try discriminate|vm_compute; reflexivity]); clear R end.

(** A fiber blocked in Recv that is woken after a reset gets an error and not the data that came before. *)
Theorem epoll_recv_error_hides_data_refuted :
  exists s s', run 3 8 s /\ step s (LResume 0 5) = Next s' /\ hist s' = hist s ++ [Ret 0 (CRecv 5) (Fail Aborted)] /\ kin s' = [7; 8].
Proof.
  assert (R : run_of (fun _ => True) 3 8 (init 3 8)) by constructor.
  go (LCall 0 (CRecv 5) 5). go (KData [7; 8]). go KRst. go (LEvent 5).
  eexists. eexists. split; [match goal with R : run_of _ _ _ _ |- _ => exact R end|]. split; [vm_compute; reflexivity|]. split; reflexivity.
Qed.
Print Assumptions epoll_recv_error_hides_data_refuted.
(** After Shutdown(SHUT_WR), which ends sending only, Recv reports the end of the stream though the peer
    has sent data that was not read and has not ended its side. *)
Theorem epoll_half_close_refuted :
  exists s s', run 3 8 s /\ step s (LCall 0 (CRecv 5) 5) = Next s' /\ polite s (LCall 0 (CRecv 5) 5) /\ krd s = false
    /\ hist s' = hist s ++ [Ret 0 (CRecv 5) (Got [])] /\ kin s' = [7; 8] /\ kfin s' = false /\ krst s' = false.
Proof.
  assert (R : run_of (fun _ => True) 3 8 (init 3 8)) by constructor.
  go (KData [7; 8]). go (LShutdown false true 5).
  eexists. eexists. split; [match goal with R : run_of _ _ _ _ |- _ => exact R end|]. split; [vm_compute; reflexivity|]. split; [pol|]. repeat split; reflexivity.
Qed.
Print Assumptions epoll_half_close_refuted.

(** ** C68: callbacks. *)

(** Each AsyncWriteSome: its callback was called once, or it waits. *)
Theorem epoll_async_once n room s id : (0 <= n)%Z -> run n room s -> starts id (hist s) = (cbs id (hist s) + waiting id s)%nat.
Proof. exact (epoll_async_once_pf n room s id). Qed.
Print Assumptions epoll_async_once.
(** Input after the registration of the hook: there is an event, and it calls the hook. *)
Theorem epoll_hook_told n room s k : (0 <= n)%Z -> run n room s -> rhook s = true -> untold_since (hist s) = true -> readable s ->
  exists s' b h, step s (LEvent k) = Next s' /\ hist s' = hist s ++ [Notify b] ++ h.
Proof. exact (epoll_hook_told_pf n room s k). Qed.
Print Assumptions epoll_hook_told.
(** Without blocking calls this holds for input that came before the registration too. *)
Theorem epoll_hook_all_partial n room s k : (0 <= n)%Z -> run_of no_blocking n room s -> rhook s = true -> untold (hist s) = true -> readable s ->
  exists s' b h, step s (LEvent k) = Next s' /\ hist s' = hist s ++ [Notify b] ++ h.
Proof. exact (epoll_hook_all_pf n room s k). Qed.
Print Assumptions epoll_hook_all_partial.
(** With a blocking write it does not: the event that wakes the writer forgets that there is input. *)
Theorem epoll_hook_lost_refuted :
  exists s, run 3 3 s /\ rhook s = true /\ armed s = true /\ kin s = [9] /\ (forall b, ~ In (Notify b) (hist s)) /\ got (hist s) = [] /\ forall k, step s (LEvent k) = Stuck.
Proof.
  assert (R : run_of (fun _ => True) 3 3 (init 3 3)) by constructor.
  go (LCall 0 (CWrite [1; 2; 3]) 5). go (LCall 0 (CWrite [4]) 5). go (LEvent 5). go (KData [9]). go (KRoom 4). go (LEvent 5). go (LResume 0 5). go LHook.
  eexists. split; [match goal with R : run_of _ _ _ _ |- _ => exact R end|]. repeat split; try reflexivity. intros b. cbn. intuition discriminate.
Qed.
Print Assumptions epoll_hook_lost_refuted.
(** Nor after a Recv that has left a part of the input unread, if there is no space to write. *)
Theorem epoll_hook_after_recv_refuted :
  exists s, run 3 0 s /\ rhook s = true /\ armed s = true /\ kin s = [9] /\ (forall b, ~ In (Notify b) (hist s)) /\ forall k, step s (LEvent k) = Stuck.
Proof.
  assert (R : run_of (fun _ => True) 3 0 (init 3 0)) by constructor.
  go (LCall 0 (CRecv 1) 5). go (KData [8; 9]). go (LEvent 5). go (LResume 0 5). go LHook.
  eexists. split; [match goal with R : run_of _ _ _ _ |- _ => exact R end|]. repeat split; try reflexivity. intros b. cbn. intuition discriminate.
Qed.
Print Assumptions epoll_hook_after_recv_refuted.
(** The connection ends or is reset after the registration of the error callback: there is an event, and it
    calls the callback. *)
Theorem epoll_errcb_told n room s k : (0 <= n)%Z -> run n room s -> errcb s = true -> fault_since (hist s) = true -> (0 <= fd s)%Z ->
  exists s' h, step s (LEvent k) = Next s' /\ hist s' = hist s ++ h ++ [ErrCb].
Proof. exact (epoll_errcb_told_pf n room s k). Qed.
Print Assumptions epoll_errcb_told.
(** It is called at most once for each registration. *)
Theorem epoll_errcb_once n room s : (0 <= n)%Z -> run n room s -> (count_errcb (hist s) + Nat.b2n (errcb s) <= count_reg (hist s))%nat.
Proof. exact (epoll_errcb_once_pf n room s). Qed.
Print Assumptions epoll_errcb_once.
(** An error callback that is registered after the peer has closed is not called: no event is left. *)
Theorem epoll_errcb_late_refuted :
  exists s, run 3 3 s /\ errcb s = true /\ (0 <= fd s)%Z /\ kfin s = true /\ ~ In ErrCb (hist s) /\ forall k, step s (LEvent k) = Stuck.
Proof.
  assert (R : run_of (fun _ => True) 3 3 (init 3 3)) by constructor.
  go KFin. go (LEvent 5). go LErrReg.
  eexists. split; [match goal with R : run_of _ _ _ _ |- _ => exact R end|]. repeat split; try reflexivity; try discriminate. cbn. intuition discriminate.
Qed.
Print Assumptions epoll_errcb_late_refuted.

(** ** The hypotheses are met. *)
Ltac last := match goal with R : run_of _ _ _ _ |- _ => exact R end.
Example epoll_woken_met : exists s, run 3 3 s /\ fib s 1%nat = Parked (CRecv 5) true /\ ready_for (CRecv 5) s /\ fib s 0%nat = Parked (CWrite [4; 5]) false.
Proof.
  assert (R : run_of (fun _ => True) 3 3 (init 3 3)) by constructor.
  go (LCall 0 (CWrite [1; 2; 3; 4]) 5). go (LCall 0 (CWrite [4; 5]) 5). go (LTimeout true). go (LEvent 5). go (LCall 1 (CRecv 5) 5). go (KData [9; 10]).
  eexists. split; [last|]. repeat split; try reflexivity. left. discriminate.
Qed.
Example epoll_woken_write_met : exists s, run 3 0 s /\ fib s 0%nat = Parked (CWrite [4; 5]) false /\ ready_for (CWrite [4; 5]) s.
Proof.
  assert (R : run_of (fun _ => True) 3 0 (init 3 0)) by constructor.
  go (LCall 0 (CWrite [4; 5]) 5). go (LEvent 5). go (KRoom 1). eexists. split; [last|]. repeat split; try reflexivity. left. discriminate.
Qed.
Example epoll_woken_accept_met : exists s, run 3 0 s /\ fib s 0%nat = Parked CAccept false /\ ready_for CAccept s.
Proof.
  assert (R : run_of (fun _ => True) 3 0 (init 3 0)) by constructor.
  go (LTimeout true). go (LCall 0 CAccept 5). go (LEvent 5). go (KData [70]). eexists. split; [last|]. repeat split; try reflexivity. left. discriminate.
Qed.
Example epoll_async_woken_met : exists s, run 3 0 s /\ wslot s = PAsync 4 [1; 2] /\ writable s.
Proof.
  assert (R : run_of (fun _ => True) 3 0 (init 3 0)) by constructor.
  go (LAsync 4 [1; 2] 5). go (LEvent 5). go (KRoom 1). eexists. split; [last|]. repeat split; try reflexivity. left. discriminate.
Qed.
Example epoll_shut_met : exists s, run 3 0 s /\ is_shut (fd s) = true /\ fib s 0%nat = Ready (CRecv 5) None false /\ fib s 1%nat = Ready (CWrite [1]) None false
  /\ (0 <= fd s)%Z.
Proof.
  assert (R : run_of (fun _ => True) 3 0 (init 3 0)) by constructor.
  go (LCall 0 (CRecv 5) 5). go (LCall 1 (CWrite [1]) 5). go (LEvent 5). go (LShutdown true true 5). eexists. split; [last|]. repeat split; try reflexivity; discriminate.
Qed.
Example epoll_close_met : exists s, run 3 0 s /\ polite s LClose /\ awp s = true /\ fib s 0%nat = Ready (CRecv 5) None false.
Proof.
  assert (R : run_of (fun _ => True) 3 0 (init 3 0)) by constructor.
  go (LCall 0 (CRecv 5) 5). go (LAsync 1 [1] 5). go (LShutdown true false 5). eexists. split; [last|]. split; [left; reflexivity|]. repeat split; reflexivity.
Qed.
Example epoll_result_met : exists s s', run 3 0 s /\ step s (LResume 0 5) = Next s' /\ hist s' = hist s ++ [Ret 0 (CRecv 5) (Got [])] /\ is_shut (fd s) = false.
Proof.
  assert (R : run_of (fun _ => True) 3 0 (init 3 0)) by constructor.
  go (LCall 0 (CRecv 5) 5). go (KFin). go (LEvent 5). eexists. eexists. split; [last|]. split; [vm_compute; reflexivity|]. split; reflexivity.
Qed.
Example epoll_no_timeout_met : exists s, run_of (fun l => l <> LTimeout true) 3 3 s /\ hist s = [News; Ret 0 (CRecv 5) (Got [1; 2]); Ret 0 (CWrite [3; 4]) (Sent 2)].
Proof.
  assert (R : run_of (fun l => l <> LTimeout true) 3 3 (init 3 3)) by constructor.
  go (LCall 0 (CRecv 5) 5). go (KData [1; 2]). go (LEvent 5). go (LResume 0 5). go (LCall 0 (CWrite [3; 4]) 5). eexists. split; [last|]. reflexivity.
Qed.
Example epoll_streams_met : exists s, run 3 3 s /\ kout s = [1; 2; 3] /\ got (hist s) = [8] /\ kin s = [9] /\ brief s <> [].
Proof.
  assert (R : run_of (fun _ => True) 3 3 (init 3 3)) by constructor.
  go (LCall 0 (CWrite [1; 2]) 5). go (KData [8; 9]). go (LTryRecv 1 5). go (LAsync 4 [3; 4] 5).
  eexists. split; [last|]. repeat split; try reflexivity. discriminate.
Qed.
Example epoll_hook_told_met : exists s, run_of no_blocking 3 3 s /\ rhook s = true /\ untold_since (hist s) = true /\ untold (hist s) = true /\ readable s.
Proof.
  assert (R : run_of no_blocking 3 3 (init 3 3)) by constructor.
  go (KData [8; 9]). go (LEvent 5). go LHook. go (LTryRecv 10 5). go (KData [10]).
  eexists. split; [last|]. repeat split; try reflexivity. left. discriminate.
Qed.
Example epoll_errcb_told_met : exists s, run 3 3 s /\ errcb s = true /\ fault_since (hist s) = true /\ (0 <= fd s)%Z /\ count_errcb (hist s) = 1%nat.
Proof.
  assert (R : run_of (fun _ => True) 3 3 (init 3 3)) by constructor.
  go LErrReg. go KFin. go (LEvent 5). go LErrReg. go KRst.
  eexists. split; [last|]. repeat split; try reflexivity. discriminate.
Qed.
